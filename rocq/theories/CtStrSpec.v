(** Specification side: what two objects that print alike have in common.  No code is modelled. *)
From Coq Require Import ZArith NArith List Bool.
From Verif Require Import Outcome Num RtModel RtSpec CtModel CtOpsModel ApiModel OverModel.

(** A ct_function_symbol occurs; an rt_constant occurs. *)
Fixpoint has_symbol {T : Type} (m : mexpr T) : Prop :=
  match m with
  | MFun _ => True
  | MConst _ | MRt _ | MVar _ => False
  | MUn _ a => has_symbol a
  | MBin _ a b => has_symbol a \/ has_symbol b
  end.
Fixpoint has_rt_constant {T : Type} (m : mexpr T) : Prop :=
  match m with
  | MRt _ => True
  | MConst _ | MFun _ | MVar _ => False
  | MUn _ a => has_rt_constant a
  | MBin _ a b => has_rt_constant a \/ has_rt_constant b
  end.

(** A C++ type: the operation of a ct_unary_expr is part of the type, the index in it is not, and is
    always 0. *)
Fixpoint cpp_type {T : Type} (m : mexpr T) : Prop :=
  match m with
  | MUn op a => match op with UPd i | USymInt i => i = 0%N | _ => True end /\ cpp_type a
  | MBin _ a b => cpp_type a /\ cpp_type b
  | _ => True
  end.

(** Same type, and rt_constants in the same places related by [R]. *)
Inductive same_ct {T : Type} (R : T -> T -> Prop) : mexpr T -> mexpr T -> Prop :=
| sc_const : forall c, same_ct R (MConst c) (MConst c)
| sc_rt : forall c d, R c d -> same_ct R (MRt c) (MRt d)
| sc_var : forall i, same_ct R (MVar i) (MVar i)
| sc_fun : forall t, same_ct R (MFun t) (MFun t)
| sc_un : forall op a b, same_ct R a b -> same_ct R (MUn op a) (MUn op b)
| sc_bin : forall op a b c d, same_ct R a c -> same_ct R b d -> same_ct R (MBin op a b) (MBin op c d).

(** The function symbols in it are unknowns and test functions. *)
Definition two_families {T : Type} (e : expr T) : Prop :=
  forall i t, occurs_fun i t e -> t = 0%N \/ t = 1%N.

(** An object of a class of the library (an rt_constant is an [OCt]). *)
Definition of_the_library {n : Num.num} (o : obj n) : Prop :=
  match o with
  | ONum _ | OInt _ | ORt (EConst _) => False
  | OCt m => cpp_type m
  | ORt e | OExpr e => two_families e
  end.

(** The same compile-time object, or run-time objects holding the same expression. *)
Definition same_obj {n : Num.num} (R : n -> n -> Prop) (a b : obj n) : Prop :=
  match a, b with
  | OCt x, OCt y => same_ct R x y
  | ORt x, ORt y | OExpr x, OExpr y | ORt x, OExpr y | OExpr x, ORt y => same R x y
  | _, _ => False
  end.
(** The same for equations and intervals. *)
Definition same_sides {n : Num.num} (R : n -> n -> Prop) (p q : sides n) : Prop :=
  match p, q with
  | RtSides a b, RtSides c d => same R a c /\ same R b d
  | CtSides a b, CtSides c d => same_ct R a c /\ same_ct R b d
  | _, _ => False
  end.
Definition sides_of_the_library {n : Num.num} (p : sides n) : Prop :=
  match p with
  | RtSides a b => two_families a /\ two_families b
  | CtSides a b => cpp_type a /\ cpp_type b
  end.
