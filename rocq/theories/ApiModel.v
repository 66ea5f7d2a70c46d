(** Model of the functions and operators a user writes expressions with, seen from the types of
    their arguments: which overload is chosen, and which object results.
    /repo/viennamath/forwards.h, runtime/expr.hpp, runtime/operations/*.hpp,
    manipulation/detail/unary_operations.hpp. *)
From Coq Require Import ZArith NArith List Bool.
From Verif Require Import Outcome Num RtModel CtModel CtOpsModel.
Import ListNotations.

(** An object in a user's program, with as much of its C++ type as overload resolution needs.
    - [ONum]: a double;  [OInt]: an int;
    - [OCt]: an object of a compile-time type (/repo/viennamath/compiletime/ct_constant.hpp,
      ct_variable.hpp, ct_function_symbol.hpp, ct_unary_expr.hpp, ct_binary_expr.hpp), or, for
      [OCt (MRt s)], an rt_constant (/repo/viennamath/runtime/constant.hpp lines 39-136);
    - [ORt e]: an rt_variable, rt_function_symbol, rt_unary_expr, rt_binary_expr or rt_vector_expr
      (/repo/viennamath/runtime/variable.hpp, function_symbol.hpp, unary_expr.hpp, binary_expr.hpp,
      vector_expr.hpp), according to the head of [e];
    - [OExpr e]: an rt_expr holding [e] (/repo/viennamath/runtime/expr.hpp lines 38-290).
    Simplified: one interface type, the default one. *)
Inductive obj (n : Num.num) : Type :=
| ONum (x : n)
| OInt (z : Z)
| OCt (m : mexpr n)
| ORt (e : expr n)
| OExpr (e : expr n).
Arguments ONum {n} x.
Arguments OInt {n} z.
Arguments OCt {n} m.
Arguments ORt {n} e.
Arguments OExpr {n} e.

Section Api.
Context (n : Num.num).

(** Conversion to rt_expr, /repo/viennamath/runtime/expr.hpp lines 52-118 (constructors), and
    traits::clone, /repo/viennamath/runtime/operations/rt_rt.hpp lines 32-65: the tree of the
    object.  An int is converted to the numeric type.  [None]: does not compile. *)
Definition to_tree (o : obj n) : option (expr n) :=
  match o with
  | ONum x => Some (EConst x)
  | OInt z => Some (EConst (n_of_Z n z))
  | OCt m => to_rt n m
  | ORt e | OExpr e => Some e
  end.

(** result_of::is_viennamath, /repo/viennamath/forwards.h lines 407-497: everything but numbers and
    vectors. *)
Definition is_viennamath (o : obj n) : bool :=
  match o with
  | ONum _ | OInt _ | ORt (EVec _) => false
  | _ => true
  end.

(** The operators + - * /.  Two compile-time objects or run-time constants: [combine].  Otherwise
    the generic operator, /repo/viennamath/forwards.h lines 717-760, with result_of::add, subtract,
    mult, div of /repo/viennamath/runtime/operations/rt_rt.hpp lines 73-114: it clones both operands; the
    two overloads of /repo/viennamath/runtime/operations/function_symbol.hpp lines 40-52 do the same.
    [None] for two numbers (not an operator of the library).  Simplified: no vectors
    (they have operators of their own, see VecModel). *)
Definition operator (op : cop) (a b : obj n) : option (obj n) :=
  match a, b with
  | OCt x, OCt y =>
      match combine n op x y with
      | Some (Ct m) => Some (OCt m)
      | Some (Rt e) => Some (ORt e)
      | None => None
      end
  | ORt (EVec _), _ | _, ORt (EVec _) => None
  | _, _ =>
      if is_viennamath a || is_viennamath b
      then match to_tree a, to_tree b with
           | Some x, Some y => Some (ORt (EBin (rt_op op) x y))
           | _, _ => None
           end
      else None
  end.

(** The functions of the user (unary operation tags /repo/viennamath/compiletime/unary_op_tags.hpp
    lines 56-190). *)
Inductive func : Type := FExp | FSin | FCos | FTan | FFabs | FSqrt | FLog | FLog10.

(** Their operations, /repo/viennamath/manipulation/detail/unary_operations.hpp (lines at [apply]). Tags:
    /repo/viennamath/compiletime/unary_op_tags.hpp lines 52-172. *)
Definition func_op (f : func) : uop :=
  match f with
  | FExp => UExp | FSin => USin | FCos => UCos | FTan => UTan
  | FFabs => UFabs | FSqrt => USqrt | FLog => ULog | FLog10 => ULog10
  end.

(** The overloads of the functions, /repo/viennamath/manipulation/detail/unary_operations.hpp: exp
    60-108, sin 125-181, cos 201-257, tan 278-333, fabs 348-404, sqrt 425-481, log 497-552, log10
    577-632.  They exist for rt_constant, rt_variable, ct_variable, rt_unary_expr (not for exp),
    rt_binary_expr, ct_binary_expr, ct_unary_expr (whose conversion does not compile) and rt_expr;
    there is none for function symbols, vectors, ct_constant and numbers. *)
Definition apply (f : func) (o : obj n) : option (obj n) :=
  let wrap (t : option (expr n)) :=
    match t with Some e => Some (ORt (EUn (func_op f) e)) | None => None end in
  match o with
  | ONum _ | OInt _ => None
  | OCt (MRt s) => wrap (Some (EConst s))
  | OCt (MVar i) => wrap (Some (EVar i))
  | OCt (MBin op l r) => wrap (rt_binary n (MBin op l r))
  | OCt (MConst _) | OCt (MFun _) | OCt (MUn _ _) => None
  | ORt (EVar i) => wrap (Some (EVar i))
  | ORt (EUn op a) => match f with FExp => None | _ => wrap (Some (EUn op a)) end
  | ORt (EInt lo hi x a) => match f with FExp => None | _ => wrap (Some (EInt lo hi x a)) end
  | ORt (EBin op l r) => wrap (Some (EBin op l r))
  | ORt (EConst c) => wrap (Some (EConst c))
  | ORt (EFun _ _) | ORt (EVec _) => None
  | OExpr e => wrap (Some e)
  end.

(** grad(), /repo/viennamath/manipulation/detail/unary_operations.hpp lines 667-678: overloads for
    rt_function_symbol and rt_unary_expr only. *)
Definition grad (o : obj n) : option (obj n) :=
  match o with
  | ORt (EFun i t) => Some (ORt (EUn UGrad (EFun i t)))
  | ORt (EUn op a) => Some (ORt (EUn UGrad (EUn op a)))
  | ORt (EInt lo hi x a) => Some (ORt (EUn UGrad (EInt lo hi x a)))
  | _ => None
  end.

(** div(), manipulation/detail/unary_operations.hpp lines 693-718: overloads for rt_expr,
    rt_unary_expr, rt_binary_expr and rt_function_symbol. *)
Definition div (o : obj n) : option (obj n) :=
  match o with
  | OExpr e => Some (ORt (EUn UDiv e))
  | ORt (EFun i t) => Some (ORt (EUn UDiv (EFun i t)))
  | ORt (EUn op a) => Some (ORt (EUn UDiv (EUn op a)))
  | ORt (EInt lo hi x a) => Some (ORt (EUn UDiv (EInt lo hi x a)))
  | ORt (EBin op l r) => Some (ORt (EUn UDiv (EBin op l r)))
  | _ => None
  end.

(** laplace(), manipulation/detail/unary_operations.hpp lines 726-737: div(grad(o)) for rt_expr (for
    which grad() does not compile) and rt_function_symbol. *)
Definition laplace (o : obj n) : option (obj n) :=
  match o with
  | OExpr _ | ORt (EFun _ _) => match grad o with Some g => div g | None => None end
  | _ => None
  end.

(** Initialisation of an rt_expr, /repo/viennamath/runtime/expr.hpp lines 52-118. *)
Definition to_expr (o : obj n) : option (obj n) :=
  match to_tree o with Some e => Some (OExpr e) | None => None end.

(** Assignment to an rt_expr, /repo/viennamath/runtime/expr.hpp lines 123-198: as initialisation,
    except that a ct_variable<id> gives a constant (lines 162-167).  A unary expression is first
    converted to an rt_expr (no overload of its own). *)
Definition assign_expr (o : obj n) : option (obj n) :=
  match o with
  | OCt (MVar i) => Some (OExpr (EConst (n_of_Z n (Z.of_N i))))
  | _ => to_expr o
  end.

(** What a user writes (grammar of the C++ expressions covered here; each case names the object or
    the call cited at [obj], [operator], [apply], [grad], [div], [laplace] and
    [to_expr]). The classes: /repo/viennamath/forwards.h lines 191-223. *)
Inductive src : Type :=
| SNum (x : n)
| SInt (z : Z)
| SRtConst (x : n)
| SRtVar (i : N)
| SCtConst (z : Z)
| SCtVar (i : N)
| SSymbol (i t : N)
| SOp (op : cop) (a b : src)
| SFun (f : func) (a : src)
| SGrad (a : src)
| SDiv (a : src)
| SLaplace (a : src)
| SExpr (a : src).

(** The object the expression yields; the parts are cited at the functions used: [operator],
    [apply], [grad], [div], [laplace], [to_expr], and the constructors runtime/constant.hpp 47,
    runtime/variable.hpp 101, runtime/function_symbol.hpp 50-58. *)
Fixpoint build (s : src) : option (obj n) :=
  match s with
  | SNum x => Some (ONum x)
  | SInt z => Some (OInt z)
  | SRtConst x => Some (OCt (MRt x))
  | SRtVar i => Some (ORt (EVar i))
  | SCtConst z => Some (OCt (MConst z))
  | SCtVar i => Some (OCt (MVar i))
  | SSymbol i t => Some (ORt (EFun i t))
  | SOp op a b =>
      match build a, build b with Some x, Some y => operator op x y | _, _ => None end
  | SFun f a => match build a with Some x => apply f x | None => None end
  | SGrad a => match build a with Some x => grad x | None => None end
  | SDiv a => match build a with Some x => div x | None => None end
  | SLaplace a => match build a with Some x => laplace x | None => None end
  | SExpr a => match build a with Some x => to_expr x | None => None end
  end.
End Api.
Arguments SNum {n} x.
Arguments SInt {n} z.
Arguments SRtConst {n} x.
Arguments SRtVar {n} i.
Arguments SCtConst {n} z.
Arguments SCtVar {n} i.
Arguments SSymbol {n} i t.
Arguments SOp {n} op a b.
Arguments SFun {n} f a.
Arguments SGrad {n} a.
Arguments SDiv {n} a.
Arguments SLaplace {n} a.
Arguments SExpr {n} a.
