(** C76: what a caught exception tells. *)
From Coq Require Import String ZArith NArith List Bool.
From Verif Require Import Outcome Num NumZ RtModel RtSpec RtFacts ExnModel ExnSpec ExnFacts.
Import ListNotations.
Local Open Scope string_scope.

(** The objects that may be thrown are those of the evaluation in any order, and none exactly if there is a value. *)
Theorem C76_exceptions_of_evaluation : forall (n : num) (v : list n) (e : expr n),
  (eval_throws n v e = [] <-> exists y, eval n e v = Ok y) /\
  (forall x, evals v e (Throw x) <-> exists t, In t (eval_throws n v e) /\ as_exn t = x).
Proof. intros n v e. split; [apply eval_throws_nil | intros x; apply eval_throws_evals]. Qed.

(** 3 + u * x1 at a point with one entry: two exceptions are possible, depending on the order. *)
Example C76_evaluation_case :
  eval_throws numZ [4%Z] (EBin BPlus (EConst 3%Z) (EBin BMult (EFun 0 0) (EVar 1))) =
  [Object ExpressionNotEvaluable "Cannot evaluate rt_function_symbol!"; Object (VariableIndexOutOfBounds 1 1) ""].
Proof. reflexivity. Qed.

(** The message is about a node at fault, and every node at fault may be the one reported: eval() and unwrap(). *)
Theorem C76_message_names_the_fault : forall (n : num) (e : expr n) (t : thrown),
  (forall v, In t (eval_throws n v e) <-> exists s, operand s e /\ eval_fault v s t) /\
  (In t (unwrap_throws n e) <-> exists s, operand s e /\ unwrap_fault s t).
Proof. intros n e t. split; [intros v; apply eval_throws_fault | apply unwrap_throws_fault]. Qed.

Example C76_fault_case :
  In (Object ExpressionNotEvaluable "Cannot evaluate rt_function_symbol!")
     (eval_throws numZ [] (EUn UGrad (EBin BPlus (EVar 0) (EFun 0 0)))) /\
  unwrap_throws numZ (EBin BMult (EConst 2%Z) (EVar 0)) =
    [Object ExpressionNotUnwrappable "Expression cannot be unwrapped!"].
Proof. split; [cbn; auto | reflexivity]. Qed.

(** unwrap() returns exactly if it has nothing to throw, and throws one of the objects otherwise. *)
Theorem C76_exceptions_of_unwrap : forall (n : num) (e : expr n),
  (unwrap_throws n e = [] <-> exists y, unwrap n e = Ok y) /\
  (forall x, unwrap n e = Throw x -> exists t, In t (unwrap_throws n e) /\ as_exn t = x).
Proof. intros n e. split; [apply unwrap_throws_nil | intros x; apply unwrap_throws_first]. Qed.

Example C76_unwrap_case :
  unwrap numZ (EBin BPlus (EConst 2%Z) (EVec [])) = Throw ExpressionNotUnwrappable /\
  unwrap_throws numZ (EBin BPlus (EConst 2%Z) (EVec [])) =
    [Object ExpressionNotUnwrappable "Cannot unwrap a rt_vector_expr!"].
Proof. split; reflexivity. Qed.

(** diff(): it throws exactly if a node whose derivative is needed has none, and the message is that of such a node. *)
Theorem C76_diff_message : forall (n : num) (x : dvar) (e : expr n),
  ((exists d, diff n x e = Ok d) <-> ~ exists s t, differentiated x s e /\ diff_fault x s t) /\
  (forall y, diff n x e = Throw y -> exists t, In t (diff_throws n x e) /\ as_exn t = y) /\
  (forall t, In t (diff_throws n x e) -> exists s, differentiated x s e /\ diff_fault x s t).
Proof.
  intros n x e. repeat split.
  - intros H (s & t & D & F). apply diff_throws_nil in H. exact (diff_fault_throws n x e s t D F H).
  - intros H. apply diff_throws_nil. destruct (diff_throws n x e) as [ | t ts] eqn:E; [reflexivity | exfalso].
    apply H. destruct (diff_throws_fault n x e t) as (s & S); [rewrite E; now left | eauto].
  - intros y H. destruct (diff_agrees n x e) as [[_ [d E]] | (t & I & E)]; [congruence | ]. exists t.
    split; [exact I | congruence].
  - apply diff_throws_fault.
Qed.

(** The derivative of x * |sin x| by x; and of a formal partial derivative, whose message speaks of evaluation. *)
Example C76_diff_case :
  diff numZ (DVar 0) (EBin BMult (EVar 0) (EUn UFabs (EUn USin (EVar 0)))) = Throw ExpressionNotDifferentiable /\
  diff_throws numZ (DVar 0) (EBin BMult (EVar 0) (EUn UFabs (EUn USin (EVar 0)))) =
    [Object ExpressionNotDifferentiable "modulus operation not differentiable!"] /\
  diff_throws numZ (DVar 0) (EUn (UPd 1) (EFun 0 0)) =
    [Object ExpressionNotDifferentiable "Cannot evaluate formal partial derivative. Use transformations first."].
Proof. repeat split. Qed.

(** If the point has an entry for every variable, what() of every std::exception thrown is a text. *)
Theorem C76_what_is_readable : forall (n : num) (v : list n) (e : expr n) (t : thrown),
  (forall i, operand (EVar i) e -> (i < N.of_nat (length v))%N) ->
  In t (eval_throws n v e) -> is_std_exception t = true ->
  exists m, what t = Some (Ok m) /\ m <> "".
Proof.
  intros n v e t V I S. apply eval_throws_fault in I as (s & O & F). pose proof (fault_has_text n v s t F) as T.
  destruct t as [x m | m]; [ | discriminate]. destruct x; try exact T; try discriminate S.
  exfalso. inversion F; subst. specialize (V _ O). apply N.lt_nge in V. contradiction.
Qed.

Example C76_readable_case : exists t m,
  In t (eval_throws numZ [1%Z] (EBin BMinus (EVar 0) (EUn (USymInt 0) (EVar 0)))) /\
  is_std_exception t = true /\ what t = Some (Ok m) /\
  m = "The evaluation of an integral with a symbolic integration domain is not possible.".
Proof. do 2 eexists. split; [left; reflexivity | repeat split]. Qed.

(** diff() throws std::exceptions only, and what() of each is a text, the message of the object where it carries
    one; what() of the std::exceptions thrown by unwrap() likewise. *)
Theorem C76_what_of_diff_and_unwrap : forall (n : num) (x : dvar) (e : expr n) (t : thrown),
  (In t (diff_throws n x e) ->
   is_std_exception t = true /\
   exists m, what t = Some (Ok m) /\ m <> "" /\
     (as_exn t = ExpressionNotDifferentiable -> t = Object ExpressionNotDifferentiable m)) /\
  (In t (unwrap_throws n e) -> is_std_exception t = true ->
   exists m, what t = Some (Ok m) /\ m <> "" /\
     (as_exn t = ExpressionNotUnwrappable -> t = Object ExpressionNotUnwrappable m)).
Proof.
  intros n x e t. split.
  - intros I. apply diff_throws_fault in I as (s & _ & F).
    inversion F; subst; (split; [reflexivity|]); eexists; (split; [reflexivity|split; [discriminate|intros E; discriminate E || reflexivity]]).
  - intros I S. apply unwrap_throws_fault in I as (s & _ & F).
    inversion F; subst; try discriminate S; eexists; (split; [reflexivity|split; [discriminate|intros E; discriminate E || reflexivity]]).
Qed.

Example C76_what_of_diff_case :
  In (Object ExpressionNotDifferentiable "modulus operation not differentiable!")
    (diff_throws numZ (DVar 0) (EBin BMult (EVar 0) (EUn UFabs (EUn USin (EVar 0))))) /\
  what (Object ExpressionNotDifferentiable "modulus operation not differentiable!") =
    Some (Ok "modulus operation not differentiable!") /\
  In (Object ExpressionNotUnwrappable "Expression cannot be unwrapped!") (unwrap_throws numZ (EUn UExp (EVar 3))).
Proof. split; [left; reflexivity|]. split; [reflexivity|left; reflexivity]. Qed.

(** Without that condition: reading what() of the exception for a missing entry is undefined, for every expression
    with such a variable. *)
Theorem C76_what_of_index_refuted : forall (n : num) (v : list n) (e : expr n) (i : N),
  operand (EVar i) e -> (N.of_nat (length v) <= i)%N ->
  exists t, In t (eval_throws n v e) /\ is_std_exception t = true /\ what t = Some UB.
Proof.
  intros n v e i O L. exists (Object (VariableIndexOutOfBounds i (N.of_nat (length v))) "").
  split; [ | split; reflexivity]. apply eval_throws_fault. exists (EVar i). split; [exact O | now constructor].
Qed.

Example C76_index_case : operand (EVar 1) (EBin BPlus (EVar 0) (EVar 1) : expr numZ) /\
  (N.of_nat (length [5%Z]) <= 1)%N.
Proof. split; [apply op_right, op_self | discriminate]. Qed.

(** Everything thrown by an evaluation is a std::exception if no gradient, divergence or partial derivative is
    evaluated. *)
Theorem C76_std_exceptions : forall (n : num) (v : list n) (e : expr n) (t : thrown),
  (forall op a, operand (EUn op a) e -> op <> UGrad /\ op <> UDiv /\ forall i, op <> UPd i) ->
  In t (eval_throws n v e) -> is_std_exception t = true.
Proof.
  intros n v e t H I. apply eval_throws_fault in I as (s & O & F).
  inversion F; subst; try reflexivity; destruct (H _ _ O) as (A & B & C); congruence || (exfalso; eapply C; reflexivity).
Qed.

Example C76_std_case :
  (forall op (a : expr numZ), operand (EUn op a) (EBin BPlus (EUn USin (EVar 0)) (EFun 0 0)) ->
     op <> UGrad /\ op <> UDiv /\ forall i, op <> UPd i) /\
  eval_throws numZ [0%Z] (EBin BPlus (EUn USin (EVar 0)) (EFun 0 0)) <> [].
Proof.
  split; [ | discriminate]. intros op a O. inversion O; subst.
  - match goal with K : operand _ (EUn USin _) |- _ => inversion K; subst; [repeat split; discriminate | ] end.
    match goal with K : operand _ (EVar _) |- _ => inversion K end.
  - match goal with K : operand _ (EFun _ _) |- _ => inversion K end.
Qed.

(** It is not in general: [catch (std::exception const &)] does not catch what the evaluation of a gradient throws. *)
Theorem C76_catch_std_exception_refuted : forall (n : num) (v : list n) (a : expr n) (y : n),
  eval n a v = Ok y ->
  exists t, In t (eval_throws n v (EUn UGrad a)) /\ is_std_exception t = false /\ what t = None.
Proof.
  intros n v a y E. eexists. split; [apply eval_throws_fault; exists (EUn UGrad a); split; [constructor | ] | ].
  - econstructor. exact E.
  - split; reflexivity.
Qed.

Example C76_catch_case : eval numZ (EBin BMult (EVar 0) (EVar 0)) [3%Z] = Ok 9%Z.
Proof. reflexivity. Qed.

Print Assumptions C76_exceptions_of_evaluation.
Print Assumptions C76_message_names_the_fault.
Print Assumptions C76_exceptions_of_unwrap.
Print Assumptions C76_diff_message.
Print Assumptions C76_what_is_readable.
Print Assumptions C76_what_of_diff_and_unwrap.
Print Assumptions C76_what_of_index_refuted.
Print Assumptions C76_std_exceptions.
Print Assumptions C76_catch_std_exception_refuted.
