(** Facts about evaluation (proofs only). *)
From Coq Require Import ZArith NArith List Bool Lia.
From Verif Require Import Outcome Num RtModel RtSpec RtFacts RtStep RtTermination RtValue.
Import ListNotations.

Section Eval.
Context (n : num).
Local Notation expr := (expr n).

Lemma nth_lt : forall (v : list n) i, (i < N.of_nat (length v))%N ->
  exists x, nth_error v (N.to_nat i) = Some x.
Proof.
  intros v i H. destruct (nth_error v (N.to_nat i)) eqn:E; eauto.
  apply nth_error_None in E. lia.
Qed.

Lemma eval_var : forall i (v : list n), eval n (EVar i) v =
  match nth_error v (N.to_nat i) with
  | Some x => Ok x
  | None => Throw (VariableIndexOutOfBounds i (N.of_nat (length v)))
  end.
Proof.
  intros i v. simpl. destruct (N.leb_spec (N.of_nat (length v)) i) as [H|H].
  - destruct (nth_error v (N.to_nat i)) eqn:E; auto.
    assert (nth_error v (N.to_nat i) <> None) by congruence.
    apply nth_error_Some in H0. lia.
  - destruct (nth_lt v i H) as [x E]. rewrite E. auto.
Qed.

(** No evaluation is undefined behaviour. *)
Lemma eval_not_UB : forall v (e : expr), eval n e v <> UB.
Proof.
  intros v. induction e as [c|i|i t|op a IH|lo hi w a _ _ IH|op l r IHl IHr|es _] using expr_ind'.
  - discriminate.
  - rewrite eval_var. destruct (nth_error v (N.to_nat i)); discriminate.
  - discriminate.
  - simpl. destruct (eval n a v); simpl; try congruence. destruct op; discriminate.
  - simpl. destruct (eval n a v); simpl; congruence.
  - simpl. destruct (eval n l v), (eval n r v); simpl; try congruence. destruct op; discriminate.
  - discriminate.
Qed.

Lemma evals_eval : forall v (e : expr), evals v e (eval n e v).
Proof.
  intros v. induction e as [c|i|i t|op a IH|lo hi w a _ _ IH|op l r IHl IHr|es _] using expr_ind'.
  - constructor.
  - rewrite eval_var. destruct (nth_error v (N.to_nat i)) eqn:E; constructor; auto.
  - constructor.
  - simpl. destruct (eval n a v) eqn:E; simpl; try (econstructor; eauto; fail).
    exfalso; eapply eval_not_UB; eauto.
  - simpl. destruct (eval n a v) eqn:E; simpl; try (econstructor; eauto; fail).
    exfalso; eapply eval_not_UB; eauto.
  - pose proof (eval_not_UB v l). pose proof (eval_not_UB v r).
    simpl. destruct (eval n l v) eqn:El, (eval n r v) eqn:Er; simpl; try congruence.
    + apply evals_bin; auto.
    + apply evals_right_throws; auto.
    + apply evals_left_throws; auto.
    + apply evals_left_throws; auto.
  - constructor.
Qed.

Lemma evals_ok : forall v (e : expr) o, evals v e o ->
  (forall x, o = Ok x -> eval n e v = Ok x) /\
  (forall x, o = Throw x -> exists y, eval n e v = Throw y) /\ o <> UB.
Proof.
  intros v e o H. induction H.
  - repeat split; intros; try discriminate. simpl. auto.
  - rewrite eval_var, H. repeat split; intros; try discriminate; auto.
  - rewrite eval_var, H. repeat split; intros; try discriminate; eauto.
  - repeat split; intros; try discriminate; simpl; eauto.
  - repeat split; intros; try discriminate; simpl; eauto.
  - destruct IHevals as [A _]. simpl. rewrite (A _ eq_refl). simpl.
    repeat split; intros; eauto. destruct op; discriminate.
  - destruct IHevals as [_ [A _]]. simpl. destruct (A _ eq_refl) as [y E]. rewrite E. simpl.
    repeat split; intros; try discriminate; eauto.
  - destruct IHevals as [A _]. simpl. rewrite (A _ eq_refl). simpl.
    repeat split; intros; try discriminate; eauto.
  - destruct IHevals as [_ [A _]]. simpl. destruct (A _ eq_refl) as [y E]. rewrite E. simpl.
    repeat split; intros; try discriminate; eauto.
  - destruct IHevals1 as [A _]. destruct IHevals2 as [B _]. simpl.
    rewrite (A _ eq_refl), (B _ eq_refl). simpl.
    repeat split; intros; eauto. destruct op; discriminate.
  - destruct IHevals as [_ [A _]]. simpl. destruct (A _ eq_refl) as [y E]. rewrite E. simpl.
    repeat split; intros; try discriminate.
    pose proof (eval_not_UB v r). destruct (eval n r v); simpl; try congruence; eauto.
  - destruct IHevals as [_ [A _]]. simpl. destruct (A _ eq_refl) as [y E]. rewrite E. simpl.
    repeat split; intros; try discriminate.
    pose proof (eval_not_UB v l). destruct (eval n l v); simpl; try congruence; eauto.
Qed.

Lemma numeric_apply : forall op x, numeric_uop op <-> exists y, u_apply n op x = Ok y.
Proof.
  intros op x; destruct op; simpl; split; intros H; eauto; try contradiction;
    destruct H; discriminate.
Qed.

Lemma eval_ok_evaluable : forall v (e : expr) x,
  eval n e v = Ok x -> evaluable (N.of_nat (length v)) e.
Proof.
  intros v. induction e as [c|i|i t|op a IH|lo hi w a _ _ IH|op l r IHl IHr|es _] using expr_ind';
    intros x H s S.
  - inversion S; subst. simpl; auto.
  - inversion S; subst. simpl in *. destruct (N.leb_spec (N.of_nat (length v)) i); auto; discriminate.
  - discriminate.
  - simpl in H. apply bind_ok in H as [y [E F]]. inversion S; subst.
    + simpl. apply (numeric_apply op y). eauto.
    + eapply IH; eauto.
  - simpl in H. oinv.
  - simpl in H. apply both_ok in H as [y [z [E [F G]]]]. inversion S; subst.
    + simpl. intros ->. discriminate.
    + eapply IHl; eauto.
    + eapply IHr; eauto.
  - discriminate.
Qed.

Lemma evaluable_eval_ok : forall v (e : expr),
  evaluable (N.of_nat (length v)) e -> exists x, eval n e v = Ok x.
Proof.
  intros v. induction e as [c|i|i t|op a IH|lo hi w a _ _ IH|op l r IHl IHr|es _] using expr_ind';
    intros H; pose proof (H _ (sub_refl _)) as H0; simpl in H0; try contradiction.
  - simpl; eauto.
  - rewrite eval_var. destruct (nth_lt v i H0) as [x E]. rewrite E. eauto.
  - destruct IH as [x E]. { intros s S. apply H. constructor; auto. }
    simpl. rewrite E. simpl. apply numeric_apply; auto.
  - destruct IHl as [x E]. { intros s S. apply H. apply sub_l; auto. }
    destruct IHr as [y F]. { intros s S. apply H. apply sub_r; auto. }
    simpl. rewrite E, F. simpl. destruct op; simpl; eauto. congruence.
Qed.

Lemma eval_scalar_vector : forall (e : expr) t, eval_scalar n e t = eval n e [t].
Proof.
  intros e t. induction e as [c|i|i s|op a IH|lo hi w a _ _ IH|op l r IHl IHr|es _] using expr_ind';
    auto.
  - rewrite eval_var. simpl. destruct i; simpl; auto.
    destruct (Pos.to_nat p) eqn:E; simpl; [lia|]. destruct n0; auto.
  - simpl. rewrite IH. auto.
  - simpl. rewrite IH. auto.
  - simpl. rewrite IHl, IHr. auto.
Qed.

Lemma eval_agree : forall v w (e : expr) x,
  (forall i, occurs_var i e -> nth_error v (N.to_nat i) = nth_error w (N.to_nat i)) ->
  eval n e v = Ok x -> eval n e w = Ok x.
Proof.
  intros v w. induction e as [c|i|i t|op a IH|lo hi u a _ _ IH|op l r IHl IHr|es _] using expr_ind';
    intros x H E; try discriminate.
  - auto.
  - rewrite eval_var in *. rewrite <- (H i (sub_refl _)).
    destruct (nth_error v (N.to_nat i)); auto; discriminate.
  - simpl in *. apply bind_ok in E as [y [E F]]. erewrite IH; eauto.
    intros i Hi. apply H. constructor; auto.
  - simpl in E. oinv.
  - simpl in *. apply both_ok in E as [y [z [E [F G]]]].
    assert (E1 : eval n l w = Ok y).
    { apply IHl; [|exact E]. intros i Hi; apply H; apply sub_l; auto. }
    assert (E2 : eval n r w = Ok z).
    { apply IHr; [|exact F]. intros i Hi; apply H; apply sub_r; auto. }
    rewrite E1, E2. auto.
Qed.

Lemma eval_extend : forall v w (e : expr) x,
  eval n e v = Ok x -> eval n e (v ++ w) = Ok x.
Proof.
  intros v w e x H. eapply eval_agree; [|exact H]. intros i Hi.
  pose proof (eval_ok_evaluable _ _ _ H _ Hi) as B. simpl in B.
  rewrite nth_error_app1; auto. lia.
Qed.

Lemma constant_evaluable : forall e : expr, is_constant n e = true ->
  (forall l r, ~ subterm (EBin BUnaryId l r) e) -> exists x, unwrap n e = Ok x.
Proof.
  induction e as [c|i|i t|op a IH|lo hi u a _ _ IH|op l r IHl IHr|es _] using expr_ind';
    intros C H; simpl in C; try discriminate.
  - simpl; eauto.
  - apply andb_true_iff in C as [C1 C2].
    destruct (IHl C1) as [x E]. { intros a b S. eapply H. apply sub_l; eauto. }
    destruct (IHr C2) as [y F]. { intros a b S. eapply H. apply sub_r; eauto. }
    simpl. rewrite E, F. simpl. destruct op; simpl; eauto.
    exfalso. eapply H. apply sub_refl.
Qed.

Lemma eval_nil_unwrap : forall (e : expr) y, eval n e [] = Ok y -> unwrap n e = Ok y.
Proof.
  induction e as [c|i|i t|op a IH|lo hi u a _ _ IH|op l r IHl IHr|es _] using expr_ind';
    intros y H.
  - auto.
  - rewrite eval_var in H. destruct (N.to_nat i); discriminate.
  - discriminate.
  - simpl in *. apply bind_ok in H as [x [A B]]. rewrite (IH _ A). auto.
  - simpl in H. oinv.
  - simpl in *. apply both_ok in H as [x [z [A [B C]]]]. rewrite (IHl _ A), (IHr _ B). auto.
  - discriminate.
Qed.

(** What a node of the simplified expression corresponds to in the original one. *)
Definition represented (e s : expr) : Prop :=
  match s with
  | EConst _ => True
  | EVar _ | EFun _ _ | EVec _ => subterm s e
  | EUn op _ => exists a, subterm (EUn op a) e
  | EInt lo hi v _ => exists a, subterm (EInt lo hi v a) e
  | EBin op _ _ => op = BUnaryId -> exists l r, subterm (EBin BUnaryId l r) e
  end.

Lemma subterm_trans : forall a b c : expr, subterm a b -> subterm b c -> subterm a c.
Proof.
  intros a b c H1 H2. induction H2; auto.
  - apply sub_un; auto. - apply sub_lo; auto. - apply sub_hi; auto. - apply sub_body; auto.
  - apply sub_l; auto. - apply sub_r; auto. - eapply sub_vec; eauto.
Qed.

Lemma represented_self : forall e s : expr, subterm s e -> represented e s.
Proof. intros e s H. destruct s; simpl; eauto. intros ->; eauto. Qed.

Lemma represented_trans : forall e1 e2 s : expr, subterm e1 e2 ->
  represented e1 s -> represented e2 s.
Proof.
  intros e1 e2 s H R. destruct s; simpl in *; eauto using subterm_trans.
  - destruct R as [a R]. eauto using subterm_trans.
  - destruct R as [a R]. eauto using subterm_trans.
  - intros E. destruct (R E) as [a [b Q]]. eauto using subterm_trans.
Qed.

Lemma dot_acc_sub : forall a b acc e s, dot_acc n acc a b = Ok e -> subterm s e ->
  subterm s acc \/ (exists op l r, s = EBin op l r /\ op <> BUnaryId) \/
  (exists x, (In x a \/ In x b) /\ subterm s x).
Proof.
  induction a as [|x a IH]; intros [|y b] acc e s H S; simpl in H; try discriminate.
  - inversion H; subst; auto.
  - destruct (IH _ _ _ _ H S) as [A|[A|[z [[A|A] B]]]].
    + inversion A; subst; auto.
      * right; left. unfold mk_bin. repeat eexists. discriminate.
      * match goal with H : subterm _ (mk_bin _ _ _ _) |- _ => inversion H; subst end.
        -- right; left. unfold mk_bin. repeat eexists. discriminate.
        -- right; right. exists x. simpl; auto.
        -- right; right. exists y. simpl; auto.
    + auto.
    + right; right. exists z. simpl; auto.
    + right; right. exists z. simpl; auto.
Qed.

Lemma dot_sub : forall a b e s, dot n a b = Ok e -> subterm s e ->
  (exists op l r, s = EBin op l r /\ op <> BUnaryId) \/
  (exists x, (In x a \/ In x b) /\ subterm s x).
Proof.
  unfold dot; intros a b e s H S. destruct (Nat.eqb (length a) (length b)); try discriminate.
  destruct a as [|x a], b as [|y b]; try discriminate.
  destruct (dot_acc_sub _ _ _ _ _ H S) as [A|[A|[z [[A|A] B]]]].
  - inversion A; subst.
    + left. unfold mk_bin. repeat eexists. discriminate.
    + right. exists x. simpl; auto.
    + right. exists y. simpl; auto.
  - auto.
  - right. exists z; simpl; auto.
  - right. exists z; simpl; auto.
Qed.

Lemma sstep_represented : forall e e' : expr, sstep n e e' ->
  forall s, subterm s e' -> represented e s.
Proof.
  intros e e' H. induction H; intros s S; try (apply represented_self; assumption);
    try (inversion S; subst; simpl; auto; fail).
  - inversion S; subst.
    + exists a. apply sub_refl.
    + match goal with H : subterm _ (EConst _) |- _ => inversion H; subst end; simpl; auto.
  - inversion S; subst.
    + exists a. apply sub_refl.
    + eapply represented_trans; [apply sub_un, sub_refl|]. auto.
  - inversion S; subst; try (apply represented_self; eauto using @subterm; fail).
    + exists a. apply sub_refl.
    + match goal with H : subterm _ (EConst _) |- _ => inversion H; subst end; simpl; auto.
  - inversion S; subst; try (apply represented_self; eauto using @subterm; fail).
    + exists a. apply sub_refl.
    + eapply represented_trans; [apply sub_body, sub_refl|]. auto.
  - eapply represented_trans; [apply sub_r, sub_refl|]. auto.
  - inversion S; subst.
    + simpl. discriminate.
    + match goal with H : subterm _ (EConst _) |- _ => inversion H; subst end; simpl; auto.
    + eapply represented_trans; [apply sub_r, sub_refl|]. auto.
  - eapply represented_trans; [apply sub_r, sub_refl|]. auto.
  - inversion S; subst.
    + simpl. congruence.
    + match goal with H : subterm _ (EConst _) |- _ => inversion H; subst end; simpl; auto.
    + eapply represented_trans; [apply sub_r, sub_refl|]. auto.
  - eapply represented_trans; [apply sub_l, sub_refl|]. auto.
  - eapply represented_trans; [apply sub_l, sub_refl|]. auto.
  - inversion S; subst.
    + simpl. congruence.
    + eapply represented_trans; [apply sub_l, sub_refl|]. auto.
    + match goal with H : subterm _ (EConst _) |- _ => inversion H; subst end; simpl; auto.
  - destruct (dot_sub _ _ _ _ H S) as [[op [l [r [-> Q]]]]|[x [[I|I] Q]]].
    + simpl. congruence.
    + eapply represented_trans; [|apply represented_self; exact Q].
      apply sub_l. eapply sub_vec; eauto. apply sub_refl.
    + eapply represented_trans; [|apply represented_self; exact Q].
      apply sub_r. eapply sub_vec; eauto. apply sub_refl.
  - inversion S; subst.
    + simpl. congruence.
    + eapply represented_trans; [apply sub_l, sub_refl|]. auto.
    + eapply represented_trans; [apply sub_r, sub_refl|]. auto.
Qed.

Lemma represented_comp : forall e e1 : expr, (forall s, subterm s e1 -> represented e s) ->
  forall s, represented e1 s -> represented e s.
Proof.
  intros e e1 H s R. destruct s; simpl in R.
  - simpl; auto.
  - apply (H _ R). - apply (H _ R).
  - destruct R as [a R]. apply (H _ R).
  - destruct R as [a R]. apply (H _ R).
  - intros E. destruct (R E) as [a [b Q]]. apply (H _ Q). auto.
  - apply (H _ R).
Qed.

Lemma top_represented : forall e e' : expr, simplify_top n e = Ok e' ->
  forall s, subterm s e' -> represented e s.
Proof.
  apply (top_ind n (fun e e' => forall s, subterm s e' -> represented e s)).
  - intros e _ s S. apply represented_self; auto.
  - intros e e1 e' _ S _ IH s Hs.
    eapply represented_comp; [|apply IH; exact Hs]. apply sstep_represented; auto.
Qed.

Lemma top_evaluable : forall k (e e' : expr), simplify_top n e = Ok e' ->
  evaluable k e -> evaluable k e'.
Proof.
  intros k e e' H E s S. pose proof (top_represented _ _ H _ S) as R.
  destruct s; simpl in *; auto.
  - apply (E _ R). - apply (E _ R).
  - destruct R as [a R]. apply (E _ R).
  - destruct R as [a R]. apply (E _ R).
  - intros Q. destruct (R Q) as [a [b T]]. apply (E _ T). auto.
  - apply (E _ R).
Qed.
End Eval.
