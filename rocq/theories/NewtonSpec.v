(** Specification side of the Newton solver: the system as functions of two real numbers.  No code is
    modelled. *)
From Coq Require Import ZArith NArith Reals List.
From Verif Require Import Outcome Num RtModel NumR RealSpec.
Import ListNotations.
Local Open Scope R_scope.

(** The point (x, y). *)
Definition at_point (x y : R) : list (option R) := [Some x; Some y].

(** The expression has the value [z] at (x, y). *)
Definition valued (e : expr numR) (x y z : R) : Prop := eval numR e (at_point x y) = Ok (Some z).

(** The partial derivatives of [e] at (x, y) are [dx] and [dy]. *)
Definition gradient (e : expr numR) (x y dx dy : R) : Prop :=
  has_partial e (at_point x y) 0 x dx /\ has_partial e (at_point x y) 1 y dy.

(** The four second derivatives computed by diff() are at most [M] at (x, y). *)
Definition second_bounded (M : R) (e : expr numR) (x y : R) : Prop :=
  forall i j, (i = 0 \/ i = 1)%N -> (j = 0 \/ j = 1)%N ->
    exists d h z, diff_top numR (DVar i) e = Ok d /\ diff_top numR (DVar j) d = Ok h /\
      valued h x y z /\ Rabs z <= M.

(** Distance of two points, in the sum norm. *)
Definition dist (x y a b : R) : R := Rabs (x - a) + Rabs (y - b).

(** Around (a, b), up to distance [r]: [e] is differentiable, its first derivatives are at most [L], its
    second derivatives at most [M]. *)
Definition smooth (e : expr numR) (a b r L M : R) : Prop :=
  forall x y, dist x y a b <= r ->
    regular e (at_point x y) /\ second_bounded M e x y /\
    forall dx dy, gradient e x y dx dy -> Rabs dx <= L /\ Rabs dy <= L.

(** An equation "left = right" as the expression left - right. *)
Definition difference (q : expr numR * expr numR) : expr numR := EBin BMinus (fst q) (snd q).

(** (a, b) solves the equation: both sides have the same value. *)
Definition solves (q : expr numR * expr numR) (a b : R) : Prop :=
  exists s, valued (fst q) a b s /\ valued (snd q) a b s.

(** Cramer's rule for one Newton step, as trees: the residuals are [r1] and [r2], the rows of the Jacobian [a] [b]
    and [c] [d]. *)
Definition jacobian_det {T : Type} (a b c d : expr T) : expr T := EBin BMinus (EBin BMult a d) (EBin BMult c b).
Definition newton_x {T : Type} (r1 r2 a b c d : expr T) : expr T :=
  EBin BMinus (EVar 0) (EBin BDiv (EBin BMinus (EBin BMult r1 d) (EBin BMult b r2)) (jacobian_det a b c d)).
Definition newton_y {T : Type} (r1 r2 a b c d : expr T) : expr T :=
  EBin BMinus (EVar 1) (EBin BDiv (EBin BMinus (EBin BMult a r2) (EBin BMult r1 c)) (jacobian_det a b c d)).
