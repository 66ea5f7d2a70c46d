(** Specification for C87: the calls made by a manipulation. *)
From Coq Require Import ZArith NArith List Bool.
From Verif Require Import Outcome Num RtModel RtSpec.
Import ListNotations.

Section Spec.
Context (n : num).

(** A call of modifies() or of operator() for the node at a position, with what came back. *)
Inductive mcall : Type :=
| MAsked (p : list dir) (answer : outcome bool)
| MGave (p : list dir) (answer : outcome (expr n)).

(** Where the call was made. *)
Definition place (c : mcall) : list dir := match c with MAsked p _ | MGave p _ => p end.

(** Which of the two it was, and where. *)
Definition which_call (c : mcall) : bool * list dir :=
  match c with MAsked p _ => (true, p) | MGave p _ => (false, p) end.

(** The call returned. *)
Definition mreturned (c : mcall) : Prop :=
  match c with MAsked _ (Ok _) | MGave _ (Ok _) => True | _ => False end.

(** The call did not return, but ended as the whole manipulation did. *)
Definition mended (c : mcall) (o : outcome (expr n)) : Prop :=
  match c, o with
  | MAsked _ (Throw x), Throw y | MGave _ (Throw x), Throw y => x = y
  | MAsked _ UB, UB | MGave _ UB, UB => True
  | _, _ => False
  end.

(** Functor and order, made to record the calls in a second part of the state. *)
Definition noted {S A : Type} (c : list dir -> outcome A -> mcall)
    (f : list dir -> expr n -> S -> outcome A * S) (p : list dir) (e : expr n) (s : S * list mcall) :
    outcome A * (S * list mcall) :=
  let (o, s') := f p e (fst s) in (o, (s', snd s ++ [c p o])).
Definition same_order {S : Type} (order : list dir -> S -> bool) (p : list dir) (s : S * list mcall) : bool := order p (fst s).

(** All nodes strictly above position [p] are not to be modified. *)
Definition allowed (l : list mcall) (p : list dir) : Prop :=
  forall c d q, p = c ++ d :: q -> In (MAsked c (Ok false)) l.

(** The call was made at or below position [p]. *)
Definition within (p : list dir) (c : mcall) : Prop := exists q, place c = p ++ q.

(** What is answered does not depend on the state. *)
Definition stateless {S A : Type} (f : list dir -> expr n -> S -> outcome A * S) : Prop :=
  forall p e s s', fst (f p e s) = fst (f p e s').
End Spec.
Arguments MAsked {n}. Arguments MGave {n}.

(** A functor that numbers the variables in the order it gets them. *)
Definition number_vars (n : num) (p : list dir) (e : expr n) (k : nat) : outcome (expr n) * nat :=
  match e with
  | EVar _ => (Ok (EConst (n_of_Z n (Z.of_nat k))), S k)
  | _ => (Ok e, k)
  end.
(** It modifies no other node. *)
Definition never (n : num) (p : list dir) (e : expr n) (k : nat) : outcome bool * nat := (Ok false, k).
