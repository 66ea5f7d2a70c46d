(** Termination of the simplification loop (proofs only). *)
From Coq Require Import ZArith NArith List Bool Lia.
From Verif Require Import Outcome Num RtModel RtSpec RtFacts RtStep.
Import ListNotations.

Section Term.
Context (n : num).
Local Notation expr := (expr n).

Lemma weight_pos : forall e : expr, 1 <= weight n e.
Proof. destruct e; try destruct op; simpl; lia. Qed.

Lemma dot_acc_weight : forall a b acc e',
  dot_acc n acc a b = Ok e' ->
  weight n e' + 2 <= weight n acc + weight n (EVec a) + weight n (EVec b).
Proof.
  induction a as [|x a IH]; intros [|y b] acc e' H; simpl in H; try discriminate.
  - inversion H; subst. simpl. lia.
  - apply IH in H. simpl in *. lia.
Qed.

Lemma dot_weight : forall a b e',
  dot n a b = Ok e' -> weight n e' < weight n (EBin BMult (EVec a) (EVec b)).
Proof.
  unfold dot; intros a b e' H.
  destruct (Nat.eqb (length a) (length b)); try discriminate.
  destruct a as [|x a], b as [|y b]; try discriminate.
  apply dot_acc_weight in H. simpl in *. lia.
Qed.

Lemma is_constant_weight : forall e : expr,
  is_constant n e = true -> can_simplify n e = Ok true -> 4 <= weight n e.
Proof.
  destruct e; simpl; intros H1 H2; try discriminate.
  pose proof (weight_pos e1). pose proof (weight_pos e2). destruct op; lia.
Qed.

Ltac wp := repeat match goal with
  | |- context [weight n ?e] =>
      lazymatch goal with
      | H : 1 <= weight n e |- _ => fail
      | _ => pose proof (weight_pos e)
      end
  end.

Lemma sstep_le : forall e e' : expr, sstep n e e' -> weight n e' <= weight n e.
Proof.
  intros e e' H; induction H; simpl in *; wp; try lia; try (destruct op; lia).
  apply dot_weight in H. simpl in H. lia.
Qed.

Lemma oor_true : forall a b, oor a b = Ok true ->
  a = Ok true \/ (a = Ok false /\ b = Ok true).
Proof. intros [[]| |] b H; simpl in H; try discriminate; auto. Qed.

Lemma const_eq_true : forall (e : expr) c, const_eq n e c = Ok true ->
  is_constant n e = true /\ exists x, unwrap n e = Ok x /\ n_eq n x c = true.
Proof.
  unfold const_eq; intros e c H. destruct (is_constant n e); oinv; try discriminate.
  split; auto. eauto.
Qed.

(** Where [can_simplify] can come from at a binary node that is not constant. *)
Lemma can_simplify_bin : forall op (l r : expr),
  can_simplify n (EBin op l r) = Ok true ->
  is_constant n l && is_constant n r = false ->
  op <> BUnaryId /\
  ( (exists x, is_constant n l = true /\ unwrap n l = Ok x /\
       (n_eq n x (c0 n) = true \/ (op = BMult /\ n_eq n x (c1 n) = true)))
  \/ (exists x, is_constant n r = true /\ unwrap n r = Ok x /\
       ((op <> BDiv /\ n_eq n x (c0 n) = true) \/
        ((op = BMult \/ op = BDiv) /\ n_eq n x (c1 n) = true)))
  \/ (op = BMult /\ both_vec n l r = true)
  \/ can_simplify n l = Ok true
  \/ can_simplify n r = Ok true ).
Proof.
  intros op l r C E. simpl in C. rewrite E in C.
  assert (V : forall rest, match l, r with EVec _, EVec _ => Ok true | _, _ => rest end
            = if both_vec n l r then Ok true else rest) by (intros; destruct l, r; reflexivity).
  destruct op; try discriminate; split; try discriminate.
  all: repeat match goal with
  | H : oor _ _ = Ok true |- _ => apply oor_true in H; destruct H as [H|[? H]]
  end; try (rewrite V in C; destruct (both_vec n l r) eqn:Ev);
  repeat match goal with
  | H : oor _ _ = Ok true |- _ => apply oor_true in H; destruct H as [H|[? H]]
  | H : const_eq n _ _ = Ok true |- _ => apply const_eq_true in H; destruct H as [? [? [? ?]]]
  end; auto 10;
  try (left; eexists; repeat split; eauto; fail);
  try (right; left; eexists; repeat split; eauto; left; split; [discriminate|assumption]).
all: right; left; exists x; split; [assumption|split; [assumption|right; split; [auto|assumption]]].
Qed.

Lemma simplify_lt : forall e e' : expr,
  sstep n e e' -> can_simplify n e = Ok true -> weight n e' < weight n e.
Proof.
  intros e e' H.
  induction H; intros C; simpl in C; try discriminate;
  try (pose proof (is_constant_weight a H C); simpl; wp; lia);
  try (specialize (IHsstep C); simpl; wp; lia).
  - rewrite H in C. discriminate.
  - wp. destruct op; simpl; wp; lia.
  - apply sstep_le in H3. simpl; wp; lia.
  - apply sstep_le in H3. simpl; wp; lia.
  - destruct H; subst; simpl; wp; lia.
  - apply sstep_le in H4. simpl; wp; lia.
  - apply can_simplify_bin in C; [|rewrite H0, H1; auto].
    pose proof (sstep_le _ _ H5).
    destruct C as [_ [[y [? [E [Q|[Q1 Q]]]]]|[[y [? _]]|[[_ ?]|[C|C]]]]].
    + rewrite H2 in E. inversion E; subst. congruence.
    + rewrite H2 in E. inversion E; subst. rewrite H4 in Q; auto; discriminate.
    + congruence.
    + destruct l, r; discriminate.
    + pose proof (is_constant_weight _ H0 C). destruct op; simpl; lia.
    + specialize (IHsstep C). pose proof (weight_pos l). destruct op; simpl; lia.
  - apply sstep_le in H4. destruct op; simpl; wp; lia.
  - simpl; wp; lia.
  - apply sstep_le in H5. destruct op; simpl; wp; lia.
  - apply can_simplify_bin in C; [|rewrite H0, H1; auto].
    pose proof (sstep_le _ _ H5).
    destruct C as [_ [[y [? _]]|[[y [? [E [[Q1 Q]|[Q1 Q]]]]]|[[_ ?]|[C|C]]]]].
    + congruence.
    + rewrite H2 in E. inversion E; subst. rewrite H3 in Q; auto; discriminate.
    + rewrite H2 in E. inversion E; subst. rewrite H4 in Q; auto; discriminate.
    + destruct l, r; discriminate.
    + specialize (IHsstep C). pose proof (weight_pos r). destruct op; simpl; lia.
    + pose proof (is_constant_weight _ H1 C). destruct op; simpl; lia.
  - apply dot_weight; auto.
  - apply can_simplify_bin in C; [|rewrite H0; auto].
    pose proof (sstep_le _ _ H3). pose proof (sstep_le _ _ H4).
    destruct C as [_ [[y [? _]]|[[y [? _]]|[[? ?]|[C|C]]]]].
    + congruence.
    + congruence.
    + rewrite H2 in H8; auto; discriminate.
    + specialize (IHsstep1 C). destruct op; simpl; lia.
    + specialize (IHsstep2 C). destruct op; simpl; lia.
Qed.

Lemma inplace_enough : forall k e, weight n e < k -> exists o, inplace_simplify n k e = Some o.
Proof.
  induction k as [|k IH]; intros e H; [lia|].
  simpl. destruct (can_simplify n e) as [[]| |] eqn:C; eauto.
  destruct (simplify n e) as [e'| |] eqn:S; eauto.
  apply simplify_sstep in S. apply IH. pose proof (simplify_lt _ _ S C). lia.
Qed.

Lemma inplace_mono : forall k m e o, inplace_simplify n k e = Some o -> k <= m ->
  inplace_simplify n m e = Some o.
Proof.
  induction k as [|k IH]; intros m e o H L; [discriminate|].
  destruct m as [|m]; [lia|]. simpl in *.
  destruct (can_simplify n e) as [[]| |]; auto.
  destruct (simplify n e) as [e'| |]; auto. apply IH; auto; lia.
Qed.

Lemma inplace_top : forall k e o, inplace_simplify n k e = Some o -> simplify_top n e = o.
Proof.
  intros k e o H. unfold simplify_top.
  destruct (inplace_enough (S (weight n e)) e) as [o' H']; [lia|]. rewrite H'.
  pose proof (inplace_mono _ (max k (S (weight n e))) _ _ H ltac:(lia)).
  pose proof (inplace_mono _ (max k (S (weight n e))) _ _ H' ltac:(lia)). congruence.
Qed.

Lemma top_inplace : forall e, exists k, inplace_simplify n k e = Some (simplify_top n e).
Proof.
  intros e. exists (S (weight n e)). unfold simplify_top.
  destruct (inplace_enough (S (weight n e)) e) as [o' H']; [lia|]. rewrite H'. auto.
Qed.

(** Induction along the loop. *)
Lemma top_ind : forall (P : expr -> expr -> Prop),
  (forall e, can_simplify n e = Ok false -> P e e) ->
  (forall e e1 e', can_simplify n e = Ok true -> sstep n e e1 ->
      simplify_top n e1 = Ok e' -> P e1 e' -> P e e') ->
  forall e e', simplify_top n e = Ok e' -> P e e'.
Proof.
  intros P H0 H1 e e' H.
  destruct (top_inplace e) as [k K]. rewrite H in K. clear H.
  revert e e' K. induction k as [|k IH]; intros e e' K; [discriminate|].
  simpl in K. destruct (can_simplify n e) as [[]| |] eqn:C; try discriminate.
  - destruct (simplify n e) as [e1| |] eqn:S; try discriminate.
    apply simplify_sstep in S. eapply H1; eauto. eapply inplace_top; eauto.
  - inversion K; subst; auto.
Qed.

Lemma top_step : forall e e1, can_simplify n e = Ok true -> simplify n e = Ok e1 ->
  simplify_top n e = simplify_top n e1.
Proof.
  intros e e1 C E. destruct (top_inplace e1) as [k K].
  eapply inplace_top with (k := S k). simpl. rewrite C, E. auto.
Qed.

Lemma top_done : forall e, can_simplify n e = Ok false -> simplify_top n e = Ok e.
Proof. intros e C. eapply inplace_top with (k := 1). simpl. rewrite C. auto. Qed.

Lemma top_result : forall e e', simplify_top n e = Ok e' -> can_simplify n e' = Ok false.
Proof. apply (top_ind (fun e e' => can_simplify n e' = Ok false)); auto. Qed.

End Term.
