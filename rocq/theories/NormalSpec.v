(** Specification of the shape of simplified run-time expressions.  No code is modelled. *)
From Coq Require Import ZArith NArith List.
From Verif Require Import Outcome Num RtModel.
Import ListNotations.

(** [s] is [e] or occurs in it, not inside a vector, an integral bound or the malformed node that
    assigning a constant to a binary expression leaves behind (C51). *)
Inductive within {T : Type} (s : expr T) : expr T -> Prop :=
| W_here : within s s
| W_un : forall op a, within s a -> within s (EUn op a)
| W_int : forall lo hi v a, within s a -> within s (EInt lo hi v a)
| W_left : forall op l r, op <> BUnaryId -> within s l -> within s (EBin op l r)
| W_right : forall op l r, op <> BUnaryId -> within s r -> within s (EBin op l r).

(** Written with constants and binary operations only. *)
Inductive arithmetic {T : Type} : expr T -> Prop :=
| A_const : forall c, arithmetic (EConst c)
| A_bin : forall op l r, arithmetic l -> arithmetic r -> arithmetic (EBin op l r).

(** Written with constants, the variables [ids] and + - * / only. *)
Inductive polynomial_in {T : Type} (ids : list N) : expr T -> Prop :=
| P_const : forall c, polynomial_in ids (EConst c)
| P_var : forall i, In i ids -> polynomial_in ids (EVar i)
| P_bin : forall op l r, op <> BUnaryId -> polynomial_in ids l -> polynomial_in ids r ->
    polynomial_in ids (EBin op l r).

(** [e] is the constant [z], as the numeric type compares. *)
Definition literally {n : num} (z : Z) (e : expr n) : Prop :=
  exists c : n, e = EConst c /\ n_eq n c (n_of_Z n z) = true.

(** An operation with nothing left to do: not all of it constant, no neutral or absorbing operand, no
    product of two vectors, no subtraction from zero. *)
Definition settled {n : num} (s : expr n) : Prop :=
  match s with
  | EBin op l r =>
      ~ (arithmetic l /\ arithmetic r) /\
      match op with
      | BPlus | BMinus => ~ literally 0 l /\ ~ literally 0 r
      | BMult => ~ literally 0 l /\ ~ literally 1 l /\ ~ literally 0 r /\ ~ literally 1 r /\
          ~ (exists es fs, l = EVec es /\ r = EVec fs)
      | BDiv => ~ literally 0 l /\ ~ literally 1 r
      | BUnaryId => True
      end
  | _ => True
  end.

(** Nothing left to do anywhere. *)
Definition normal {n : num} (e : expr n) : Prop := forall s, within s e -> settled s.
