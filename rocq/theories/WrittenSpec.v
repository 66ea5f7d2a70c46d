(** Specification side of the calculus with what a user writes.  No code is modelled. *)
From Coq Require Import ZArith NArith Reals List.
From Verif Require Import Outcome Num RtModel NumR CtModel CtOpsModel ApiModel ApiSpec.

(** [a] is written somewhere in [s]. *)
Inductive src_inside {n : Num.num} (a : src n) : src n -> Prop :=
| SI_here : src_inside a a
| SI_left : forall op x y, src_inside a x -> src_inside a (SOp op x y)
| SI_right : forall op x y, src_inside a y -> src_inside a (SOp op x y)
| SI_fun : forall f x, src_inside a x -> src_inside a (SFun f x)
| SI_grad : forall x, src_inside a x -> src_inside a (SGrad x)
| SI_div : forall x, src_inside a x -> src_inside a (SDiv x)
| SI_laplace : forall x, src_inside a x -> src_inside a (SLaplace x)
| SI_expr : forall x, src_inside a x -> src_inside a (SExpr x).

(** What was written has a value, contains no absolute value, and no square root is taken of zero:
    the functions written are differentiable where they are applied. *)
Definition smooth (rho : N -> R) (s : src numR) : Prop :=
  (exists z, src_val rho s = Some z) /\
  (forall a, ~ src_inside (SFun FFabs a) s) /\
  (forall a, src_inside (SFun FSqrt a) s -> src_val rho a <> Some 0%R).

(** Around [rho i], [g] is the value of what was written as function of variable [i]. *)
Definition written_slice (rho : N -> R) (i : N) (s : src numR) (g : R -> R) : Prop :=
  exists delta, (0 < delta)%R /\
    forall t, (Rabs (t - rho i) < delta)%R ->
      src_val (fun j => if N.eqb j i then t else rho j) s = Some (g t).

(** Only numbers, constants and operators are written. *)
Fixpoint arithmetic {n : Num.num} (s : src n) : Prop :=
  match s with
  | SNum _ | SInt _ | SRtConst _ | SCtConst _ => True
  | SOp _ a b => arithmetic a /\ arithmetic b
  | SExpr a => arithmetic a
  | _ => False
  end.
