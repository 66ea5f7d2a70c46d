(** Specification of the shape of simplified compile-time expressions.  No code is modelled. *)
From Coq Require Import ZArith NArith.
From Verif Require Import RtModel CtModel.
Local Open Scope Z_scope.

(** [s] occurs in [e], not below a unary operation. *)
Inductive inside (s : cexpr) : cexpr -> Prop :=
| In_here : inside s s
| In_left : forall op a b, inside s a -> inside s (CBin op a b)
| In_right : forall op a b, inside s b -> inside s (CBin op a b).

(** An operation with nothing left to do: no neutral or absorbing operand, no negated summand, no
    inverted factor. *)
Definition negated (t : cexpr) : Prop := exists x, t = CBin CMinus (CConst 0) x.
Definition inverted (t : cexpr) : Prop := exists x, t = CBin CDiv (CConst 1) x.
Definition normal_node (op : cop) (a b : cexpr) : Prop :=
  match op with
  | CPlus => a <> CConst 0 /\ b <> CConst 0 /\ ~ negated a /\ ~ negated b
  | CMinus => b <> CConst 0 /\ ~ negated a /\ ~ negated b
  | CMult => a <> CConst 0 /\ a <> CConst 1 /\ b <> CConst 0 /\ b <> CConst 1 /\
             ~ inverted a /\ ~ inverted b
  | CDiv => a <> CConst 0 /\ b <> CConst 0 /\ b <> CConst 1
  end.
