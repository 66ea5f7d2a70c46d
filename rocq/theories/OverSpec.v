(** Specification side of the overload sets.  No code is modelled. *)
From Coq Require Import ZArith NArith List Bool.
From Verif Require Import Outcome Num RtModel CtModel CtOpsModel ApiModel.

(** The result [r] of a call, converted to an rt_expr and simplified, is [t]; if one of them throws,
    the other throws the same. *)
Definition yields (n : Num.num) (r : outcome (obj n)) (t : outcome (expr n)) : Prop :=
  match r with
  | Ok o => exists e, to_tree n o = Some e /\ simplify_top n e = t
  | Throw x => t = Throw x
  | UB => t = UB
  end.

(** An object of a run-time class. *)
Definition is_rt {n : Num.num} (o : obj n) : Prop :=
  match o with ORt _ | OExpr _ | OCt (MRt _) => True | _ => False end.

(** An object of a compile-time class. *)
Definition is_ct {n : Num.num} (o : obj n) : Prop :=
  match o with OCt (MRt _) => False | OCt _ => True | _ => False end.
