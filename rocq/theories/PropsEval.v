(** Properties C15 - C19: evaluation and unwrapping of run-time expressions. *)
From Coq Require Import ZArith NArith List Bool Lia.
From Verif Require Import Outcome Num RtModel RtSpec RtFacts RtStep RtTermination RtValue RtEval NumZ.
Import ListNotations.

(** C15.  Evaluation at a scalar and at the vector with that single entry have the same
    outcome (value, or the same exception). *)
Theorem C15_scalar_eval_is_vector_eval :
  forall (n : num) (e : expr n) (t : n), eval_scalar n e t = eval n e [t].
Proof. intros n e t. exact (eval_scalar_vector n e t). Qed.
Print Assumptions C15_scalar_eval_is_vector_eval.

Example C15_case :
  eval_scalar numZ (EBin BMult (EVar 0) (EVar 2)) 5%Z = Throw (VariableIndexOutOfBounds 2 1).
Proof. vm_compute. reflexivity. Qed.

(** C16.  [eval] returns a number exactly on evaluable expressions, throws otherwise, and is
    never undefined behaviour. *)
Theorem C16_eval_succeeds_iff_evaluable :
  forall (n : num) (e : expr n) (v : list n),
    ((exists x, eval n e v = Ok x) <-> evaluable (N.of_nat (length v)) e) /\
    (~ evaluable (N.of_nat (length v)) e -> exists x, eval n e v = Throw x) /\
    eval n e v <> UB.
Proof.
  intros n e v. split; [|split].
  - split.
    + intros [x H]. exact (eval_ok_evaluable n v e x H).
    + exact (evaluable_eval_ok n v e).
  - intros H. destruct (eval n e v) as [x|x|] eqn:E.
    + exfalso. exact (H (eval_ok_evaluable n v e x E)).
    + exists x. reflexivity.
    + exfalso. exact (eval_not_UB n v e E).
  - exact (eval_not_UB n v e).
Qed.
Print Assumptions C16_eval_succeeds_iff_evaluable.

(** C16, evaluation order.  Whatever order operands are evaluated in: the outcome is a
    number iff [eval] gives that number, it is an exception iff [eval] throws, and it is
    never undefined behaviour. *)
Theorem C16_eval_independent_of_order :
  forall (n : num) (e : expr n) (v : list n) (o : outcome n),
    evals v e o ->
    (forall x, o = Ok x <-> eval n e v = Ok x) /\
    ((exists x, o = Throw x) <-> (exists x, eval n e v = Throw x)) /\
    o <> UB.
Proof.
  intros n e v o H. destruct (evals_ok n v e o H) as [A [B C]]. split; [|split].
  - intros x. split; [apply A|]. intros E. destruct o as [y|y|]; [|destruct (B y eq_refl); congruence|congruence].
    pose proof (A y eq_refl). congruence.
  - split; [intros [x E]; exact (B x E)|]. intros [x E]. destruct o as [y|y|]; [|eauto|congruence].
    pose proof (A y eq_refl). congruence.
  - exact C.
Qed.
Print Assumptions C16_eval_independent_of_order.

(** Some order always exists (the relation is not empty). *)
Theorem C16_some_order_exists :
  forall (n : num) (e : expr n) (v : list n), evals v e (eval n e v).
Proof. intros n e v. exact (evals_eval n v e). Qed.
Print Assumptions C16_some_order_exists.

Example C16_case :
  evaluable 2 (EBin BPlus (EUn UExp (EVar 1)) (EConst 4%Z)).
Proof.
  intros s S.
  repeat match goal with
  | H : subterm _ _ |- _ => inversion H; subst; clear H; simpl; try lia; try discriminate; auto
  end.
Qed.

(** Two different exceptions are possible for the same call, depending on the order. *)
Example C16_case_orders :
  let e := EBin BPlus (EVar 3) (EFun 0 0) : expr numZ in
  evals [] e (Throw (VariableIndexOutOfBounds 3 0)) /\ evals [] e (Throw ExpressionNotEvaluable).
Proof.
  split.
  - apply evals_left_throws. exact (evals_oob (n := numZ) [] 3 eq_refl).
  - apply evals_right_throws. apply evals_fun.
Qed.

(** C17.  Only the entries belonging to variables of the expression matter. *)
Theorem C17_eval_depends_on_occurring_variables :
  forall (n : num) (e : expr n) (v w : list n) (x : n),
    (forall i, occurs_var i e -> nth_error v (N.to_nat i) = nth_error w (N.to_nat i)) ->
    eval n e v = Ok x -> eval n e w = Ok x.
Proof. intros n e v w x H E. exact (eval_agree n v w e x H E). Qed.
Print Assumptions C17_eval_depends_on_occurring_variables.

Theorem C17_extra_entries_are_ignored :
  forall (n : num) (e : expr n) (v w : list n) (x : n),
    eval n e v = Ok x -> eval n e (v ++ w) = Ok x.
Proof. intros n e v w x H. exact (eval_extend n v w e x H). Qed.
Print Assumptions C17_extra_entries_are_ignored.

Example C17_case :
  eval numZ (EBin BMinus (EVar 1) (EConst 1%Z)) [7%Z; 5%Z] = Ok 4%Z /\
  eval numZ (EBin BMinus (EVar 1) (EConst 1%Z)) [0%Z; 5%Z; 9%Z] = Ok 4%Z.
Proof. vm_compute. split; reflexivity. Qed.

(** C18.  A constant expression unwraps, and its value is the value at every point. *)
Theorem C18_constant_expressions_unwrap :
  forall (n : num) (e : expr n),
    is_constant n e = true ->
    (forall l r, ~ subterm (EBin BUnaryId l r) e) ->
    exists x, unwrap n e = Ok x /\
              (forall v, eval n e v = Ok x) /\ (forall t, eval_scalar n e t = Ok x).
Proof.
  intros n e C H. destruct (constant_evaluable n e C H) as [x E]. exists x.
  split; [exact E|]. split; [exact (unwrap_eval n e x E)|].
  intros t. rewrite eval_scalar_vector. exact (unwrap_eval n e x E [t]).
Qed.
Print Assumptions C18_constant_expressions_unwrap.

Example C18_case :
  is_constant numZ (EBin BMult (EConst 2%Z) (EBin BPlus (EConst 3%Z) (EConst 4%Z))) = true.
Proof. reflexivity. Qed.

(** C19.  [unwrap] agrees with [eval] at every point. *)
Theorem C19_unwrap_agrees_with_eval :
  forall (n : num) (e : expr n) (x : n),
    unwrap n e = Ok x -> forall v, eval n e v = Ok x.
Proof. intros n e x H. exact (unwrap_eval n e x H). Qed.
Print Assumptions C19_unwrap_agrees_with_eval.

(** It also works through unary functions, for which is_constant() is false. *)
Example C19_case :
  unwrap numZ (EBin BPlus (EUn UExp (EConst 2%Z)) (EConst 3%Z)) = Ok 5%Z /\
  is_constant numZ (EBin BPlus (EUn UExp (EConst 2%Z)) (EConst 3%Z)) = false.
Proof. vm_compute. split; reflexivity. Qed.
