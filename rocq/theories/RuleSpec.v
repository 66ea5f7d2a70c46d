(** Specification for C88: the calls of a quadrature rule. *)
From Coq Require Import ZArith NArith Reals List Bool.
From Verif Require Import Outcome Num NumR RtModel QuadModel.
Import ListNotations.

(** An integral: bounds, variable and integrand. *)
Definition iterm (n : num) : Type := (expr n * expr n * N * expr n)%type.

(** The integrals a sum or difference is made of, each with true if it is added and false if it is subtracted. *)
Fixpoint signed_terms {n : num} (sign : bool) (e : expr n) : list (bool * iterm n) :=
  match e with
  | EInt lo hi var a => [(sign, (lo, hi, var, a))]
  | EBin BPlus l r => signed_terms sign l ++ signed_terms sign r
  | EBin BMinus l r => signed_terms sign l ++ signed_terms (negb sign) r
  | _ => []
  end.

(** The integrals without their signs. *)
Definition iterms {n : num} (e : expr n) : list (iterm n) := map snd (signed_terms true e).

(** A call of the rule and what came back. *)
Definition rcall (n : num) : Type := (iterm n * outcome n)%type.

(** The call returned. *)
Definition rreturned {n : num} (c : rcall n) : Prop := exists x, snd c = Ok x.

(** The rule and the order, made to record the calls in a second part of the state. *)
Definition logged {n : num} {S : Type} (rule : expr n -> expr n -> N -> expr n -> S -> outcome n * S)
    (lo hi : expr n) (var : N) (a : expr n) (s : S * list (rcall n)) : outcome n * (S * list (rcall n)) :=
  let (o, s') := rule lo hi var a (fst s) in (o, (s', snd s ++ [((lo, hi, var, a), o)])).
Definition order_of {n : num} {S : Type} (order : expr n -> S -> bool) (e : expr n) (s : S * list (rcall n)) : bool :=
  order e (fst s).

(** The sum of numbers with signs. *)
Fixpoint signed_sum (signs : list bool) (xs : list R) : R :=
  match signs, xs with
  | b :: signs', x :: xs' => ((if b then x else - x) + signed_sum signs' xs')%R
  | _, _ => 0%R
  end.

(** A rule that numbers its calls. *)
Definition numbering (n : num) (lo hi : expr n) (var : N) (a : expr n) (k : nat) : outcome n * nat :=
  (Ok (n_of_Z n (Z.of_nat k)), S k).
