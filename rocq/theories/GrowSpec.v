(** Specification vocabulary for C77: repeated derivatives and counted occurrences. *)
From Coq Require Import NArith List.
From Verif Require Import Outcome Num RtModel.
Import ListNotations.

(** The expression after calling diff() k times. *)
Fixpoint derivative (n : num) (x : dvar) (k : nat) (e : expr n) : outcome (expr n) :=
  match k with
  | O => Ok e
  | S k' => bind (derivative n x k' e) (diff_top n x)
  end.

(** How often variable [i] occurs in [e], bounds of integrals not counted. *)
Fixpoint occurrences {T : Type} (i : N) (e : expr T) : nat :=
  match e with
  | EConst _ | EFun _ _ => 0
  | EVar j => if N.eqb j i then 1 else 0
  | EUn _ a | EInt _ _ _ a => occurrences i a
  | EBin _ l r => occurrences i l + occurrences i r
  | EVec es => list_sum (map (occurrences i) es)
  end.

(** x * (x * ... * (x * x)) with k multiplications. *)
Fixpoint power_of_x {T : Type} (k : nat) : expr T :=
  match k with
  | O => EVar 0
  | S k' => EBin BMult (EVar 0) (power_of_x k')
  end.
