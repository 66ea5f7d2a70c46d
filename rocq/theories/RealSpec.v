(** Specification vocabulary for statements about the real semantics.  No code is modelled. *)
From Coq Require Import ZArith NArith Reals List.
From Verif Require Import Outcome Num RtModel RtSpec NumR.
Import ListNotations.
Local Open Scope R_scope.

(** [e] has a real value at [v], contains no absolute value, and no square root is taken of zero:
    all elementary functions in [e] are differentiable at the arguments they are applied to. *)
Definition regular (e : expr numR) (v : list (option R)) : Prop :=
  (exists r, eval numR e v = Ok (Some r)) /\
  (forall a, ~ subterm (EUn UFabs a) e) /\
  (forall a, subterm (EUn USqrt a) e -> eval numR a v <> Ok (Some 0)).

(** [g] is the value of [e] around [x] as function of entry [i] of the point [v]. *)
Definition slice (e : expr numR) (v : list (option R)) (i : N) (x : R) (g : R -> R) : Prop :=
  exists delta, 0 < delta /\
    forall t, Rabs (t - x) < delta -> eval numR e (update v (N.to_nat i) (Some t)) = Ok (Some (g t)).

(** The partial derivative of [e] with respect to entry [i] at [v], where that entry is [x],
    exists and is [d]: [e] has a value on a neighbourhood and this value is differentiable. *)
Definition has_partial (e : expr numR) (v : list (option R)) (i : N) (x d : R) : Prop :=
  exists g, slice e v i x g /\ derivable_pt_lim g x d.

(** The [k]-fold derivative of [e] with respect to variable [i], diff(...diff(diff(e, x_i), x_i)..., x_i);
    every call of diff() simplifies. *)
Fixpoint diff_times (i : N) (k : nat) (e : expr numR) : outcome (expr numR) :=
  match k with
  | O => Ok e
  | S k' => bind (diff_times i k' e) (diff_top numR (DVar i))
  end.
