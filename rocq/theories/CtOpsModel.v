(** Model of the operators on compile-time expressions, of their evaluation at run-time vectors and
    of their conversion to run-time expressions: /repo/viennamath/compiletime/operations,
    /repo/viennamath/runtime/operations/constant.hpp, /repo/viennamath/compiletime/ct_*.hpp and
    the constructors of /repo/viennamath/runtime/binary_expr.hpp and expr.hpp. *)
From Coq Require Import ZArith NArith List Bool.
From Verif Require Import Outcome Num RtModel CtModel.
Import ListNotations.
Local Open Scope Z_scope.

(** The objects these operators work on: compile-time expressions (see [cexpr]) in which a
    run-time constant (/repo/viennamath/runtime/constant.hpp lines 39-136) may occur, as
    it does in the results of /repo/viennamath/runtime/operations/constant.hpp, and run-time constants
    themselves.  Simplified: the scalar type of run-time constants is the default numeric type. *)
Inductive mexpr (T : Type) : Type :=
| MConst (c : Z)
| MRt (s : T)
| MVar (id : N)
| MFun (tag : N)
| MUn (op : uop) (a : mexpr T)
| MBin (op : cop) (l r : mexpr T).
Arguments MConst {T} c.
Arguments MRt {T} s.
Arguments MVar {T} id.
Arguments MFun {T} tag.
Arguments MUn {T} op a.
Arguments MBin {T} op l r.

(** Compile-time expressions among them (cases as in [cexpr]). Declarations:
    /repo/viennamath/compiletime/ct_constant.hpp lines 34-56, ct_variable.hpp 159-203,
    ct_function_symbol.hpp 72-84, ct_unary_expr.hpp 34-69, ct_binary_expr.hpp 39-82. *)
Fixpoint inj {T : Type} (e : cexpr) : mexpr T :=
  match e with
  | CConst c => MConst c
  | CVar i => MVar i
  | CFun t => MFun t
  | CUn op a => MUn op (inj a)
  | CBin op l r => MBin op (inj l) (inj r)
  end.

Section Ops.
Context (n : Num.num).

(** A run-time constant occurs: such a ct_binary_expr has no usable default constructor
    (/repo/viennamath/compiletime/ct_binary_expr.hpp line 51, runtime/constant.hpp line 47). *)
Fixpoint has_rt {T : Type} (e : mexpr T) : bool :=
  match e with
  | MRt _ => true
  | MConst _ | MVar _ | MFun _ => false
  | MUn _ a => has_rt a
  | MBin _ l r => has_rt l || has_rt r
  end.

(** Equality of the operation tags of unary expressions as types; the list of tags is that of
    /repo/viennamath/compiletime/unary_op_tags.hpp lines 38-243. *)
Definition uop_eqb (a b : uop) : bool :=
  match a, b with
  | UId, UId | UExp, UExp | USin, USin | UCos, UCos | UTan, UTan | UFabs, UFabs
  | USqrt, USqrt | ULog, ULog | ULog10, ULog10 | UGrad, UGrad | UDiv, UDiv => true
  | UPd i, UPd j => N.eqb i j
  | USymInt i, USymInt j => N.eqb i j
  | _, _ => false
  end.

(** Whether two objects have the same C++ type: the values of run-time constants are not part of
    it (declarations as cited at [mexpr]). /repo/viennamath/compiletime/ct_binary_expr.hpp lines 39-82,
    runtime/constant.hpp line 41. *)
Fixpoint same_type {T : Type} (a b : mexpr T) : bool :=
  match a, b with
  | MConst c, MConst d => c =? d
  | MRt _, MRt _ => true
  | MVar i, MVar j => N.eqb i j
  | MFun s, MFun t => N.eqb s t
  | MUn o x, MUn p y => uop_eqb o p && same_type x y
  | MBin o x1 x2, MBin p y1 y2 => cop_eqb o p && same_type x1 y1 && same_type x2 y2
  | _, _ => false
  end.

(** The run-time operation of a tag, /repo/viennamath/compiletime/binary_op_tags.hpp 36-101 and
    runtime/op_interface.hpp (op_binary). *)
Definition rt_op (op : cop) : bop :=
  match op with CPlus => BPlus | CMinus => BMinus | CMult => BMult | CDiv => BDiv end.

(** The constructors of rt_binary_expr from a ct_binary_expr,
    /repo/viennamath/runtime/binary_expr.hpp lines 64-137: the nine overloads for operands that are
    constants, variables and binary expressions; other operands do not compile. *)
Fixpoint rt_binary (e : mexpr n) : option (expr n) :=
  match e with
  | MBin op l r =>
      cbind (match l with
             | MConst c => Some (EConst (n_of_Z n c))
             | MVar i => Some (EVar i)
             | _ => rt_binary l
             end) (fun l' =>
      cbind (match r with
             | MConst c => Some (EConst (n_of_Z n c))
             | MVar i => Some (EVar i)
             | _ => rt_binary r
             end) (fun r' => Some (EBin (rt_op op) l' r')))
  | _ => None
  end.

(** Conversion to rt_expr, /repo/viennamath/runtime/expr.hpp lines 63-105, and traits::clone,
    /repo/viennamath/runtime/operations/rt_rt.hpp lines 34-65.  A ct_unary_expr does not compile
    (runtime/unary_expr.hpp line 63: op_ is not a pointer to the tag type, and the operand has no
    clone()); for a ct_function_symbol there is no overload. *)
Definition to_rt (e : mexpr n) : option (expr n) :=
  match e with
  | MConst c => Some (EConst (n_of_Z n c))
  | MRt s => Some (EConst s)
  | MVar i => Some (EVar i)
  | MFun _ | MUn _ _ => None
  | MBin _ _ _ => rt_binary e
  end.

(** Result of an operator: a compile-time or a run-time expression. /repo/viennamath/forwards.h lines
    717-760. *)
Inductive result : Type := Ct (m : mexpr n) | Rt (e : expr n).

(** The generic operators, /repo/viennamath/forwards.h lines 717-760: for two compile-time types
    /repo/viennamath/compiletime/operations/ct_ct.hpp lines 36-77 (default construction of the
    result), otherwise /repo/viennamath/runtime/operations/rt_rt.hpp lines 73-114. *)
Definition generic (op : cop) (a b : mexpr n) : option result :=
  match a, b with
  | MRt _, _ | _, MRt _ =>
      cbind (to_rt a) (fun x => cbind (to_rt b) (fun y => Some (Rt (EBin (rt_op op) x y))))
  | _, _ => if has_rt a || has_rt b then None else Some (Ct (MBin op a b))
  end.

(** operator+ : the generic one and the special overloads of
    /repo/viennamath/compiletime/operations/ct_constant.hpp lines 36-96, ct_variable.hpp lines
    37-47, ct_expr.hpp lines 35-76 and /repo/viennamath/runtime/operations/constant.hpp lines
    37-130.  [None] for ct_constant.hpp 36-47 and 63-74 and for constant.hpp 118-130: they add a
    long and an rt_constant, for which the generic operator+ is chosen, whose result is not
    convertible to a number. *)
Definition plus (a b : mexpr n) : option result :=
  match a, b with
  | MConst c, MConst d => cbind (add c d) (fun e => Some (Ct (MConst e)))
  | MConst c, MBin CPlus (MRt _) _ => None
  | MConst c, MBin CPlus (MConst d) x =>
      cbind (add c d) (fun e => Some (Ct (MBin CPlus (MConst e) x)))
  | MConst c, MBin CMinus (MRt _) _ => None
  | MConst c, MBin CMinus (MConst d) x =>
      cbind (add c d) (fun e => Some (Ct (MBin CMinus (MConst e) x)))
  | MVar i, MVar j =>
      if N.eqb i j then Some (Ct (MBin CMult (MConst 2) (MVar i))) else generic CPlus a b
  | MBin CPlus (MConst c) x, MConst d =>
      cbind (add c d) (fun e => Some (Ct (MBin CPlus (MConst e) x)))
  | MBin CMinus (MConst c) x, MConst d =>
      cbind (add c d) (fun e => Some (Ct (MBin CMinus (MConst e) x)))
  | MBin CMinus (MRt s) x, MConst d =>
      Some (Ct (MBin CMinus (MRt (n_add n s (n_of_Z n d))) x))
  | MRt s, MBin CPlus (MRt t) x => Some (Ct (MBin CPlus (MRt (n_add n s t)) x))
  | MRt s, MBin CPlus (MConst d) x => Some (Ct (MBin CPlus (MRt (n_add n s (n_of_Z n d))) x))
  | MRt s, MBin CMinus (MRt t) x => Some (Ct (MBin CMinus (MRt (n_add n s t)) x))
  | MRt s, MBin CMinus (MConst d) x => Some (Ct (MBin CMinus (MRt (n_add n s (n_of_Z n d))) x))
  | MBin CPlus (MConst c) x, MRt t => Some (Ct (MBin CPlus (MRt (n_add n (n_of_Z n c) t)) x))
  | MBin CMinus (MConst c) x, MRt t => None
  | _, _ => generic CPlus a b
  end.

(** operator- : the generic one and the special overloads of
    /repo/viennamath/compiletime/operations/ct_constant.hpp lines 102-162, ct_variable.hpp lines
    52-58, ct_expr.hpp lines 82-147 and /repo/viennamath/runtime/operations/constant.hpp lines
    136-198.  [None] for ct_constant.hpp 102-113 and 129-140 (as above). *)
Definition minus (a b : mexpr n) : option result :=
  match a, b with
  | MConst c, MConst d => cbind (sub c d) (fun e => Some (Ct (MConst e)))
  | MConst c, MBin CPlus (MRt _) _ => None
  | MConst c, MBin CPlus (MConst d) x =>
      cbind (sub c d) (fun e => Some (Ct (MBin CMinus (MConst e) x)))
  | MConst c, MBin CMinus (MRt _) _ => None
  | MConst c, MBin CMinus (MConst d) x =>
      cbind (sub c d) (fun e => Some (Ct (MBin CPlus (MConst e) x)))
  | MVar i, MVar j => if N.eqb i j then Some (Ct (MConst 0)) else generic CMinus a b
  | MBin CPlus (MVar i) x, MVar j => if N.eqb i j then Some (Ct x) else generic CMinus a b
  | MBin CPlus (MConst c) x, MConst d =>
      cbind (sub c d) (fun e => Some (Ct (MBin CPlus (MConst e) x)))
  | MBin CPlus (MRt s) x, MConst d =>
      Some (Ct (MBin CPlus (MRt (n_sub n s (n_of_Z n d))) x))
  | MBin CMinus (MConst c) x, MConst d =>
      cbind (sub c d) (fun e => Some (Ct (MBin CMinus (MConst e) x)))
  | MBin CMinus (MRt s) x, MConst d =>
      Some (Ct (MBin CMinus (MRt (n_sub n s (n_of_Z n d))) x))
  | MRt s, MBin CPlus (MRt t) x => Some (Ct (MBin CMinus (MRt (n_sub n s t)) x))
  | MRt s, MBin CPlus (MConst d) x => Some (Ct (MBin CMinus (MRt (n_sub n s (n_of_Z n d))) x))
  | MRt s, MBin CMinus (MRt t) x => Some (Ct (MBin CPlus (MRt (n_sub n s t)) x))
  | MRt s, MBin CMinus (MConst d) x => Some (Ct (MBin CPlus (MRt (n_sub n s (n_of_Z n d))) x))
  | _, _ => generic CMinus a b
  end.

(** operator* : /repo/viennamath/compiletime/operations/ct_constant.hpp lines 168-174, otherwise
    the generic one. *)
Definition times (a b : mexpr n) : option result :=
  match a, b with
  | MConst c, MConst d => cbind (mul c d) (fun e => Some (Ct (MConst e)))
  | _, _ => generic CMult a b
  end.

(** operator/ : /repo/viennamath/compiletime/operations/ct_variable.hpp lines 68-74, ct_expr.hpp
    lines 158-164 (two binary expressions of the same type), otherwise the generic one. *)
Definition over (a b : mexpr n) : option result :=
  match a, b with
  | MVar i, MVar j => if N.eqb i j then Some (Ct (MConst 1)) else generic CDiv a b
  | MBin _ _ _, MBin _ _ _ => if same_type a b then Some (Ct (MConst 1)) else generic CDiv a b
  | _, _ => generic CDiv a b
  end.

(** The four operators (cited above). /repo/viennamath/forwards.h lines 717-760. *)
Definition combine (op : cop) (a b : mexpr n) : option result :=
  match op with
  | CPlus => plus a b
  | CMinus => minus a b
  | CMult => times a b
  | CDiv => over a b
  end.

(** operator() with a std::vector of numbers: ct_constant.hpp 43-44, runtime/constant.hpp 56-60,
    ct_variable.hpp 193-201 and 66-69, ct_binary_expr.hpp 64-69.  ct_unary_expr.hpp 55-60 refers to
    the nonexistent rhs_, ct_function_symbol has no operator(): these do not compile. *)
Fixpoint call (e : mexpr n) (v : list n) : option (outcome n) :=
  match e with
  | MConst c => Some (Ok (n_of_Z n c))
  | MRt s => Some (Ok s)
  | MVar i =>
      Some (if N.leb (N.of_nat (length v)) i
            then Throw (VariableIndexOutOfBounds i (N.of_nat (length v)))
            else match nth_error v (N.to_nat i) with Some x => Ok x | None => UB end)
  | MFun _ | MUn _ _ => None
  | MBin op l r =>
      cbind (call l v) (fun a => cbind (call r v) (fun b => Some (both a b (b_apply n (rt_op op)))))
  end.

(** The free function eval() of a compile-time expression at a std::vector,
    /repo/viennamath/manipulation/eval.hpp lines 249-290: operator() except for a variable, whose
    entry is accessed without check. *)
Definition free_eval (e : mexpr n) (v : list n) : option (outcome n) :=
  match e with
  | MVar i => Some (match nth_error v (N.to_nat i) with Some x => Ok x | None => UB end)
  | _ => call e v
  end.
End Ops.
Arguments Ct {n} m.
Arguments Rt {n} e.
