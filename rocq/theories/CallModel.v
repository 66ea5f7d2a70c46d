(** Model of the ways to evaluate an expression: operator() of the run-time and compile-time classes
    and the free function eval(), for the kinds of points they accept, and of the compile-time
    vectors. /repo/viennamath/runtime/{expr,unary_expr,binary_expr,variable,constant}.hpp,
    compiletime/{ct_vector,ct_variable,ct_constant,ct_binary_expr}.hpp, manipulation/eval.hpp. *)
From Coq Require Import ZArith NArith List Bool.
From Verif Require Import Outcome Num RtModel CtModel CtOpsModel ApiModel.
Import ListNotations.

Section Call.
Context (n : Num.num).

(** The objects a program's references refer to: the number stored at an address, [None] if the
    object there does not exist any more.  Needed for /repo/viennamath/compiletime/ct_vector.hpp
    lines 57, 101-102 (members that are references). *)
Definition mem : Type := N -> option n.

(** Reading through a reference, /repo/viennamath/compiletime/ct_vector.hpp lines 44, 86, 88;
    undefined if the object has been destroyed. *)
Definition read (m : mem) (a : N) : outcome n :=
  match m a with Some x => Ok x | None => UB end.

(** Arguments of operator() and eval().
    - [PNum]: a double;  [PInt]: an int;  [PRt]: an rt_constant;  [PCt]: a ct_constant;
    - [PStd]: a std::vector of numbers;
    - [PGen]: any other class with size() and operator[]; [get i] is [None] if reading entry i is
      undefined;
    - [PVec1], [PVec2]: ct_vector_1, ct_vector_2, with the addresses of the referenced numbers
      (/repo/viennamath/compiletime/ct_vector.hpp lines 36-58, 77-103);
    - [PVec3]: ct_vector_3, with the numbers themselves (lines 122-155).
    Simplified: the entries of vectors are of the numeric type. *)
Inductive point : Type :=
| PNum (x : n)
| PInt (z : Z)
| PRt (x : n)
| PCt (z : Z)
| PStd (v : list n)
| PGen (size : nat) (get : nat -> option n)
| PVec1 (a : N)
| PVec2 (a b : N)
| PVec3 (x y z : n).

(** make_vector() with one, two and three arguments, /repo/viennamath/compiletime/ct_vector.hpp lines
    171-189; the arguments are given by their addresses. *)
Definition make_vector1 (a : N) : point := PVec1 a.
(** As above (lines 178-182). File /repo/viennamath/compiletime/ct_vector.hpp. *)
Definition make_vector2 (a b : N) : point := PVec2 a b.
(** As above (lines 185-189); the constructor copies (line 130). File
    /repo/viennamath/compiletime/ct_vector.hpp. *)
Definition make_vector3 (m : mem) (a b c : N) : outcome point :=
  bind (read m a) (fun x => bind (read m b) (fun y => bind (read m c) (fun z => Ok (PVec3 x y z)))).

(** The loop copying a vector, /repo/viennamath/runtime/expr.hpp lines 226-228 (the same in
    unary_expr.hpp lines 155-157 and binary_expr.hpp lines 258-260), from entry [i] on. *)
Fixpoint copy_from (get : nat -> option n) (i k : nat) : outcome (list n) :=
  match k with
  | O => Ok []
  | S k' =>
      match get i with
      | Some x => omap (cons x) (copy_from get (S i) k')
      | None => UB
      end
  end.

(** operator() of rt_expr (/repo/viennamath/runtime/expr.hpp lines 205-264), rt_unary_expr
    (unary_expr.hpp lines 132-195) and rt_binary_expr (binary_expr.hpp lines 236-296).  For an int
    the template for vectors is the better match, and int has no size(). *)
Definition call_tree (m : mem) (e : expr n) (p : point) : option (outcome n) :=
  match p with
  | PNum x | PRt x => Some (eval_scalar n e x)
  | PCt z => Some (eval_scalar n e (n_of_Z n z))
  | PInt _ => None
  | PStd v => Some (eval n e v)
  | PGen size get => Some (bind (copy_from get 0 size) (eval n e))
  | PVec1 a => Some (bind (read m a) (fun x => eval n e [x]))
  | PVec2 a b => Some (bind (read m a) (fun x => bind (read m b) (fun y => eval n e [x; y])))
  | PVec3 x y z => Some (eval n e [x; y; z])
  end.

(** variable_index_out_of_bounds_exception unless [i < size], then [get] (see [call_var]:
    /repo/viennamath/runtime/variable.hpp lines 140-142, compiletime/ct_variable.hpp lines 193-201). *)
Definition checked (i : N) (size : nat) (get : outcome n) : outcome n :=
  if N.leb (N.of_nat size) i then Throw (VariableIndexOutOfBounds i (N.of_nat size)) else get.

(** operator() of rt_variable, /repo/viennamath/runtime/variable.hpp lines 107-143, with
    get_from_vector, lines 41-85. *)
Definition call_var (m : mem) (i : N) (p : point) : option (outcome n) :=
  match p with
  | PNum x => Some (if N.eqb i 0 then Ok x else UB)
  | PInt _ => None
  | PRt x => Some (if N.ltb 0 i then Throw (VariableIndexOutOfBounds i 0) else Ok x)
  | PCt z => Some (if N.ltb 0 i then Throw (VariableIndexOutOfBounds i 0) else Ok (n_of_Z n z))
  | PStd v =>
      Some (checked i (length v)
              (match nth_error v (N.to_nat i) with Some x => Ok x | None => UB end))
  | PGen size get =>
      Some (checked i size (match get (N.to_nat i) with Some x => Ok x | None => UB end))
  | PVec1 a => Some (checked i 1 (read m a))
  | PVec2 a b =>
      Some (checked i 2 (if N.eqb i 0 then read m a else if N.eqb i 1 then read m b
                         else Ok (n_of_Z n 0)))
  | PVec3 x y z =>
      Some (checked i 3 (Ok (if N.eqb i 0 then x else if N.eqb i 1 then y
                             else if N.eqb i 2 then z else n_of_Z n 0)))
  end.

(** operator() of ct_variable, /repo/viennamath/compiletime/ct_variable.hpp lines 174-201, with
    variable_traits, lines 52-147.  A number has no size(); for a ct_constant and an index other
    than 0, and for a ct_vector and an index not below its size, variable_traits cannot be
    instantiated. *)
Definition call_ct_var (m : mem) (i : N) (p : point) : option (outcome n) :=
  match p with
  | PNum _ | PInt _ => None
  | PRt x => Some (if N.ltb 0 i then Throw (VariableIndexOutOfBounds i 0) else Ok x)
  | PCt z => if N.eqb i 0 then Some (Ok (n_of_Z n z)) else None
  | PStd v =>
      Some (checked i (length v)
              (match nth_error v (N.to_nat i) with Some x => Ok x | None => UB end))
  | PGen size get =>
      Some (checked i size (match get (N.to_nat i) with Some x => Ok x | None => UB end))
  | PVec1 a => if N.eqb i 0 then Some (read m a) else None
  | PVec2 a b => if N.eqb i 0 then Some (read m a) else if N.eqb i 1 then Some (read m b) else None
  | PVec3 x y z =>
      if N.eqb i 0 then Some (Ok x) else if N.eqb i 1 then Some (Ok y)
      else if N.eqb i 2 then Some (Ok z) else None
  end.

(** operator() of the compile-time classes and rt_constant: ct_constant.hpp lines 43-44,
    runtime/constant.hpp lines 56-60, ct_binary_expr.hpp lines 63-68; ct_unary_expr and
    ct_function_symbol as in [call] of CtOpsModel. *)
Fixpoint call_ct (m : mem) (e : mexpr n) (p : point) : option (outcome n) :=
  match e with
  | MConst c => Some (Ok (n_of_Z n c))
  | MRt s => Some (Ok s)
  | MVar i => call_ct_var m i p
  | MFun _ | MUn _ _ => None
  | MBin op l r =>
      cbind (call_ct m l p) (fun a => cbind (call_ct m r p) (fun b =>
        Some (both a b (b_apply n (rt_op op)))))
  end.

(** operator() of an object; numbers, function symbols and vectors have none
    (/repo/viennamath/runtime/function_symbol.hpp, vector_expr.hpp).  An [ORt (EConst c)] is an
    rt_constant, runtime/constant.hpp lines 56-60. *)
Definition call_obj (m : mem) (o : obj n) (p : point) : option (outcome n) :=
  match o with
  | ONum _ | OInt _ | ORt (EFun _ _) | ORt (EVec _) => None
  | OCt c => call_ct m c p
  | ORt (EConst c) => Some (Ok c)
  | ORt (EVar i) => call_var m i p
  | ORt e | OExpr e => call_tree m e p
  end.

(** The free function eval(), /repo/viennamath/manipulation/eval.hpp lines 168-315: a double is
    returned; an int is ambiguous (overloads for double and long, lines 170 and 178); a ct_constant
    is returned; the entry of a ct_variable is accessed without check, not at all at a constant;
    everything else is called.  Simplified: not for two compile-time arguments (CtManipModel). *)
Definition eval_obj (m : mem) (o : obj n) (p : point) : option (outcome n) :=
  match o with
  | ONum x => Some (Ok x)
  | OInt _ => None
  | OCt (MVar i) =>
      match p with
      | PNum _ | PInt _ | PRt _ | PCt _ => None
      | PStd v => Some (match nth_error v (N.to_nat i) with Some x => Ok x | None => UB end)
      | PGen _ get => Some (match get (N.to_nat i) with Some x => Ok x | None => UB end)
      | PVec1 _ | PVec2 _ _ | PVec3 _ _ _ => call_ct_var m i p
      end
  | OCt (MFun _) | OCt (MUn _ _) => None
  | _ => call_obj m o p
  end.
End Call.
Arguments PNum {n} x.
Arguments PInt {n} z.
Arguments PRt {n} x.
Arguments PCt {n} z.
Arguments PStd {n} v.
Arguments PGen {n} size get.
Arguments PVec1 {n} a.
Arguments PVec2 {n} a b.
Arguments PVec3 {n} x y z.
