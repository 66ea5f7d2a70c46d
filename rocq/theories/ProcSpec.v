(** Specification for C89: the calls of LaTeX processors. *)
From Coq Require Import ZArith NArith List Bool String.
From Verif Require Import Outcome Num RtModel ProcModel.
Import ListNotations.
Local Open Scope string_scope.

(** A processor made to record its calls, with its number, in a second part of the state; and a list of them,
    numbered from [i]. *)
Definition watched {n : num} {S : Type} (i : nat) (f : proc n S) : proc n (S * list (nat * outcome string)) :=
  fun e par s => let (o, s') := f e par (fst s) in (o, (s', snd s ++ [(i, o)])%list).
Fixpoint watched_all {n : num} {S : Type} (i : nat) (l : list (proc n S)) : list (proc n (S * list (nat * outcome string))) :=
  match l with
  | [] => []
  | f :: l' => watched i f :: watched_all (Datatypes.S i) l'
  end.

(** The processor did not know the expression. *)
Definition declined (c : nat * outcome string) : Prop := snd c = Ok "".

(** What the processor answers does not depend on the state. *)
Definition fixed {n : num} {S : Type} (f : proc n S) : Prop := forall e par s s', fst (f e par s) = fst (f e par s').

(** A processor that writes a different text each time. *)
Definition alternating (n : num) : proc n bool := fun e par b => (Ok (if b then "a" else "b"), negb b).
