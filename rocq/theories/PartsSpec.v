(** Specification vocabulary for integrals over many intervals.  No code is modelled. *)
From Coq Require Import ZArith NArith Reals List.
From Flocq Require Import Core BinarySingleNaN.
From Verif Require Import Outcome Num RtModel RtSpec NumB64 NumR ErrSpec DataSpec QuadSpec.
Import ListNotations.
Local Open Scope R_scope.

(** [leads x f e A B parts]: [e] adds (or subtracts, in the opposite direction) integrals of [f] by the variable [x] over the
    intervals [parts], that lead from [A] to [B]. *)
Inductive leads (x : N) (f : expr numR) : expr numR -> R -> R -> list (R * R) -> Prop :=
| le_one : forall lo hi A B, const_only lo -> const_only hi ->
    eval numR lo [] = Ok (Some A) -> eval numR hi [] = Ok (Some B) ->
    leads x f (EInt lo hi x f) A B [(A, B)]
| le_plus : forall l r A B C s t, leads x f l A B s -> leads x f r B C t ->
    leads x f (EBin BPlus l r) A C (s ++ t)
| le_minus : forall l r A B C s t, leads x f l A B s -> leads x f r C B t ->
    leads x f (EBin BMinus l r) A C (s ++ t).

(** All parts are between [P] and [Q] and no longer than [h]. *)
Definition parts_within (P Q h : R) (parts : list (R * R)) : Prop :=
  forall a b, In (a, b) parts -> P <= a <= Q /\ P <= b <= Q /\ Rabs (b - a) <= h.

(** The sum of the lengths of the parts. *)
Fixpoint total_length (parts : list (R * R)) : R :=
  match parts with [] => 0 | (a, b) :: l => Rabs (b - a) + total_length l end.

(** The sum of the integrals of [f] over [S k] consecutive intervals of length [h] from [A] on. *)
Fixpoint equal_parts (x : N) (f : expr numR) (A h : R) (k : nat) : expr numR :=
  let over i := @EInt (option R) (EConst (Some (A + INR i * h))) (EConst (Some (A + INR (S i) * h))) x f in
  match k with
  | O => over O
  | S k' => EBin BPlus (equal_parts x f A h k') (over k)
  end.

(** [rounded_sum lm d e e' z r]: [e] adds and subtracts integrals; its doubles stand for the real numbers in [e'].  [z] is the value
    the one-point rule gives for [e'] in real arithmetic, and the rules of error analysis give the bound [r] for the roundings in
    each of the integrals and of the sums. *)
Inductive rounded_sum (lm : libm) (d : R) : expr f64 -> expr numR -> R -> R -> Prop :=
| rs_int : forall lo hi x f lo' hi' f' z r, const_only lo -> const_only hi ->
    bounded d [] [] (rule_tree (c2 (numB64 lm)) lo hi x f) (rule_tree (c2 numR) lo' hi' x f') z r ->
    all_values (n := numB64 lm) finite64 [] (rule_tree (c2 (numB64 lm)) lo hi x f) ->
    rounded_sum lm d (EInt lo hi x f) (EInt lo' hi' x f') z r
| rs_plus : forall a b a' b' z y r s, rounded_sum lm d a a' z r -> rounded_sum lm d b b' y s ->
    rounded_sum lm d (EBin BPlus a b) (EBin BPlus a' b') (z + y) (after u64 0 (z + y) (r + s))
| rs_minus : forall a b a' b' z y r s, rounded_sum lm d a a' z r -> rounded_sum lm d b b' y s ->
    rounded_sum lm d (EBin BMinus a b) (EBin BMinus a' b') (z - y) (after u64 0 (z - y) (r + s)).
