(** Specification vocabulary for quadrature and vectors.  No code is modelled. *)
From Coq Require Import ZArith NArith Reals List.
From Verif Require Import Outcome Num RtModel RtSpec NumR QuadModel.
Import ListNotations.
Local Open Scope R_scope.

(** [e] is built from constants by binary operations only. *)
Definition const_only {T : Type} (e : expr T) : Prop :=
  forall s, subterm s e ->
    match s with
    | EConst _ => True
    | EBin op _ _ => op <> BUnaryId
    | _ => False
    end.

(** [integral_sum rule e x]: [e] is composed by + and - of integrals, whose values according to
    [rule] are real numbers, and of constant expressions of value 0; adding and subtracting the
    values gives [x]. *)
Inductive integral_sum (rule : quad_rule numR) : expr numR -> R -> Prop :=
| is_int : forall lo hi var a x, rule lo hi var a = Ok (Some x) ->
    integral_sum rule (EInt lo hi var a) x
| is_zero : forall e, const_only e -> eval numR e [] = Ok (Some 0) -> integral_sum rule e 0
| is_plus : forall l r x y, integral_sum rule l x -> integral_sum rule r y ->
    integral_sum rule (EBin BPlus l r) (x + y)
| is_minus : forall l r x y, integral_sum rule l x -> integral_sum rule r y ->
    integral_sum rule (EBin BMinus l r) (x - y).

(** The sum of the products of corresponding entries. *)
Fixpoint sum_products (xs ys : list R) : R :=
  match xs, ys with
  | x :: xs', y :: ys' => x * y + sum_products xs' ys'
  | _, _ => 0
  end.
