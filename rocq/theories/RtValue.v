(** Value preservation of one simplification step and of the whole loop, for every numeric
    type satisfying a small set of laws (proofs only). *)
From Coq Require Import ZArith NArith List Bool Lia.
From Verif Require Import Outcome Num RtModel RtSpec RtFacts RtStep RtTermination.
Import ListNotations.

(** What the rewrite rules need to know about the numeric type: [ok] singles out the
    well-behaved numbers (all reals; finite doubles), [eqv] is the equality the claims are
    made up to.  Not part of the code. *)
Record laws (n : num) (ok : n -> Prop) (eqv : n -> n -> Prop) : Prop := mk_laws {
  l_refl : forall x, ok x -> eqv x x;
  l_trans : forall x y z, eqv x y -> eqv y z -> eqv x z;
  l_ok : forall x y, eqv x y -> ok x -> ok y;
  l_bop : forall op x x' y y' z, ok x -> ok y -> eqv x x' -> eqv y y' ->
    b_apply n op x y = Ok z -> ok z -> exists z', b_apply n op x' y' = Ok z' /\ eqv z z';
  l_uop : forall op x x' z, ok x -> eqv x x' ->
    u_apply n op x = Ok z -> ok z -> exists z', u_apply n op x' = Ok z' /\ eqv z z';
  l_eq0 : forall x, ok x -> n_eq n x (c0 n) = true -> eqv x (c0 n);
  l_eq1 : forall x, ok x -> n_eq n x (c1 n) = true -> eqv x (c1 n);
  l_add0l : forall y, ok y -> eqv (n_add n (c0 n) y) y;
  l_add0r : forall y, ok y -> eqv (n_add n y (c0 n)) y;
  l_sub0l : forall y, ok y -> eqv (n_sub n (c0 n) y) (n_mul n (cm1 n) y);
  l_okm1 : ok (cm1 n);
  l_sub0r : forall y, ok y -> eqv (n_sub n y (c0 n)) y;
  l_mul0l : forall y, ok y -> eqv (n_mul n (c0 n) y) (c0 n);
  l_mul0r : forall y, ok y -> eqv (n_mul n y (c0 n)) (c0 n);
  l_mul1l : forall y, ok y -> eqv (n_mul n (c1 n) y) y;
  l_mul1r : forall y, ok y -> eqv (n_mul n y (c1 n)) y;
  l_div0l : forall y, ok y -> ok (n_div n (c0 n) y) -> eqv (n_div n (c0 n) y) (c0 n);
  l_div1r : forall y, ok y -> eqv (n_div n y (c1 n)) y
}.

Section Value.
Context (n : num) (ok : n -> Prop) (eqv : n -> n -> Prop) (L : laws n ok eqv).
(** An additional condition on the arguments of unary operations. *)
Context (guard : uop -> n -> Prop) (G : forall op x y, eqv x y -> guard op x -> guard op y).
Local Notation expr := (expr n).

(** Recursive form of [all_values], with the additional condition. *)
Fixpoint av (v : list n) (e : expr) : Prop :=
  (exists x, eval n e v = Ok x /\ ok x) /\
  match e with
  | EUn op a => av v a /\ exists x, eval n a v = Ok x /\ guard op x
  | EInt lo hi _ a => False
  | EBin _ l r => av v l /\ av v r
  | _ => True
  end.

Lemma av_ex : forall v e, av v e -> exists x, eval n e v = Ok x /\ ok x.
Proof. intros v [] [H _]; auto. Qed.

Lemma unwrap_eval : forall e x, unwrap n e = Ok x -> forall v, eval n e v = Ok x.
Proof.
  induction e as [c|i|i t|op a IH|lo hi w a _ _ IH|op l r IHl IHr|es _] using expr_ind';
    intros x H v; simpl in *; oinv; auto.
  - rewrite (IH _ H). auto.
  - rewrite (IHl _ H), (IHr _ H0). auto.
Qed.

Lemma const_value : forall e x y v, unwrap n e = Ok x -> eval n e v = Ok y -> x = y.
Proof. intros. pose proof (unwrap_eval _ _ H v). congruence. Qed.

Lemma const_eval_unwrap : forall e v x, is_constant n e = true -> eval n e v = Ok x ->
  unwrap n e = Ok x.
Proof.
  induction e as [c|i|i t|op a IH|lo hi w a _ _ IH|op l r IHl IHr|es _] using expr_ind';
    intros v x C H; simpl in *; try discriminate; auto.
  oinv. apply andb_true_iff in C as [C1 C2].
  rewrite (IHl _ _ C1 H), (IHr _ _ C2 H0). auto.
Qed.

(** The step succeeds on evaluable expressions. *)
Lemma simplify_total : forall v e, av v e -> exists e', simplify n e = Ok e'.
Proof.
  intros v. induction e as [c|i|i t|op a IH|lo hi w a _ _ IH|op l r IHl IHr|es _] using expr_ind';
    intros H; try (simpl; eauto; fail).
  - destruct H as [[x [E K]] [H _]]. simpl in E. apply bind_ok in E as [xa [Ea E]].
    simpl. destruct (is_constant n a) eqn:C.
    + rewrite (const_eval_unwrap _ _ _ C Ea). simpl. rewrite E. simpl.
      destruct (u_can_simplify op); eauto.
    + destruct (IH H) as [a' Sa]. rewrite Sa. simpl. eauto.
  - destruct H as [_ []].
  - destruct H as [[x [E K]] [Hl Hr]]. simpl in E.
    apply both_ok in E as [xl [xr [El [Er Eb]]]].
    destruct (IHl Hl) as [l' Sl]. destruct (IHr Hr) as [r' Sr].
    simpl. destruct (is_constant n l) eqn:Cl; destruct (is_constant n r) eqn:Cr; simpl;
      try rewrite (const_eval_unwrap _ _ _ Cl El); try rewrite (const_eval_unwrap _ _ _ Cr Er);
      simpl.
    + rewrite Eb. simpl. eauto.
    + rewrite Sr. destruct op; simpl; try discriminate;
        repeat match goal with |- context [if ?b then _ else _] => destruct b end; simpl; eauto.
    + rewrite Sl. destruct op; simpl; try discriminate;
        repeat match goal with |- context [if ?b then _ else _] => destruct b end; simpl; eauto.
    + destruct op; try (rewrite Sl, Sr; simpl; eauto; fail); eauto.
      rewrite mult_case. destruct (both_vec n l r) eqn:V.
      * destruct l, r; try discriminate.
      * rewrite Sl, Sr. simpl. eauto.
Qed.

Lemma can_simplify_total : forall v e, av v e -> exists b, can_simplify n e = Ok b.
Proof.
  intros v. induction e as [c|i|i t|op a IH|lo hi w a _ _ IH|op l r IHl IHr|es _] using expr_ind';
    intros H; try (simpl; eauto; fail).
  - destruct H as [_ [H _]]. simpl. auto.
  - destruct H as [_ []].
  - destruct H as [[x [E K]] [Hl Hr]]. simpl in E.
    apply both_ok in E as [xl [xr [El [Er Eb]]]].
    destruct (IHl Hl) as [bl Sl]. destruct (IHr Hr) as [br Sr].
    assert (CL : forall c, exists b, const_eq n l c = Ok b).
    { intros c. unfold const_eq. destruct (is_constant n l) eqn:C; eauto.
      rewrite (const_eval_unwrap _ _ _ C El). simpl. eauto. }
    assert (CR : forall c, exists b, const_eq n r c = Ok b).
    { intros c. unfold const_eq. destruct (is_constant n r) eqn:C; eauto.
      rewrite (const_eval_unwrap _ _ _ C Er). simpl. eauto. }
    assert (V : forall rest, match l, r with EVec _, EVec _ => Ok true | _, _ => rest end
            = if both_vec n l r then Ok true else rest) by (intros; destruct l, r; reflexivity).
    simpl. destruct (is_constant n l && is_constant n r); eauto.
    destruct (CL (c0 n)) as [? Q1], (CL (c1 n)) as [? Q2],
             (CR (c0 n)) as [? Q3], (CR (c1 n)) as [? Q4].
    destruct op; rewrite ?V, ?Q1, ?Q2, ?Q3, ?Q4, ?Sl, ?Sr; simpl;
      repeat match goal with |- context [if ?b then _ else _] => destruct b; simpl end; eauto.
Qed.

Ltac uni :=
  repeat match goal with
  | H1 : eval n ?e ?v = Ok ?x, H2 : eval n ?e ?v = Ok ?y |- _ =>
      assert (x = y) by congruence; subst; clear H2
  | H1 : unwrap n ?e = Ok ?x, H2 : eval n ?e ?v = Ok ?y |- _ =>
      assert (x = y) by (eapply const_value; eauto); subst; clear H2
  end.

(** One step preserves well-definedness and the value. *)
Lemma sstep_value : forall v e e', sstep n e e' -> av v e ->
  av v e' /\ forall x, eval n e v = Ok x -> exists y, eval n e' v = Ok y /\ eqv x y.
Proof.
  intros v e e' S. destruct L. induction S; intros A.
  - split; auto. destruct A as [[x [E K]] _]. intros y Ey. simpl in *. oinv. eauto.
  - split; auto. destruct A as [[x [E K]] _]. intros y Ey. rewrite Ey in E. oinv. eauto.
  - destruct A as [[x [E K]] _]. discriminate.
  - destruct A as [[x [E K]] _]. discriminate.
  - destruct A as [[x [E K]] _]. simpl in E. oinv. discriminate.
  - (* fold unary *)
    destruct A as [[z [E K]] [A _]]. destruct (av_ex _ _ A) as [x' [Ea Ka]].
    pose proof (unwrap_eval _ _ H1 v) as U. simpl in E. rewrite U in E. simpl in E.
    rewrite H2 in E. oinv.
    split; [simpl; split; eauto|].
    intros q Q. simpl in Q. rewrite U in Q. simpl in Q. rewrite H2 in Q. oinv.
    simpl. eauto.
  - (* unary const, not foldable: does not evaluate *)
    destruct A as [[z [E K]] A]. simpl in E. oinv. destruct op; discriminate.
  - destruct A as [[z [E K]] [A [xg [Eg Gg]]]]. destruct (IHS A) as [A' V].
    simpl in E. apply bind_ok in E as [xa [H0 E]]. destruct (V _ H0) as [y [Ey Q]].
    destruct (av_ex _ _ A) as [x' [Ea Ka]]. rewrite H0 in Ea. oinv.
    destruct (l_uop0 _ _ _ _ Ka Q E K) as [z' [Ez Qz]].
    split.
    + simpl. rewrite Ey. simpl. split; [exists z'; split; eauto|]. split; auto.
      exists y. split; auto. rewrite H0 in Eg. oinv. eauto.
    + intros q Hq. simpl in Hq. rewrite H0 in Hq. simpl in Hq. rewrite E in Hq. oinv.
      simpl. rewrite Ey. simpl. eauto.
  - destruct A as [_ []].
  - destruct A as [_ []].
  - (* fold binary *)
    destruct A as [[q [E K]] [Al Ar]].
    pose proof (unwrap_eval _ _ H1 v) as U1. pose proof (unwrap_eval _ _ H2 v) as U2.
    simpl in E. rewrite U1, U2 in E. simpl in E. rewrite H3 in E. oinv.
    split; [simpl; split; eauto|].
    intros w Q. simpl in Q. rewrite U1, U2 in Q. simpl in Q. rewrite H3 in Q. oinv.
    simpl; eauto.
  - (* 0 + r *)
    destruct A as [[q [E K]] [Al Ar]]. destruct (IHS Ar) as [A' V]. split; auto.
    pose proof (unwrap_eval _ _ H1 v) as U1.
    destruct (av_ex _ _ Al) as [xl [El Kl]]. rewrite U1 in El. oinv.
    destruct (av_ex _ _ Ar) as [xr [Er Kr]].
    intros w W. simpl in W, E. rewrite U1, Er in W, E. simpl in W, E. oinv.
    destruct (V _ Er) as [y [Ey Qy]]. exists y. split; auto.
    destruct (l_bop0 BPlus xl (c0 n) xr xr _ Kl Kr (l_eq2 _ Kl H2) (l_refl0 _ Kr) eq_refl K)
      as [z' [Z1 Z2]]. simpl in Z1. oinv.
    eapply l_trans0; [exact Z2|]. eapply l_trans0; [apply l_add0l0; auto|auto].
  - (* 0 - r *)
    destruct A as [[q [E K]] [Al Ar]]. destruct (IHS Ar) as [A' V].
    pose proof (unwrap_eval _ _ H1 v) as U1.
    destruct (av_ex _ _ Al) as [xl [El Kl]]. rewrite U1 in El. oinv.
    destruct (av_ex _ _ Ar) as [xr [Er Kr]].
    simpl in E. rewrite U1, Er in E. simpl in E. oinv.
    destruct (V _ Er) as [y [Ey Qy]].
    destruct (l_bop0 BMinus xl (c0 n) xr xr _ Kl Kr (l_eq2 _ Kl H2) (l_refl0 _ Kr) eq_refl K)
      as [z' [Z1 Z2]]. simpl in Z1. oinv.
    assert (Z3 : eqv (n_sub n xl xr) (n_mul n (cm1 n) xr)).
    { eapply l_trans0; [exact Z2|]. apply l_sub0l0; auto. }
    destruct (l_bop0 BMult (cm1 n) (cm1 n) xr y _ l_okm2 Kr (l_refl0 _ l_okm2) Qy eq_refl
                (l_ok0 _ _ Z3 K)) as [z' [Z1 Z4]]. simpl in Z1. oinv.
    assert (Z5 : eqv (n_sub n xl xr) (n_mul n (cm1 n) y)) by eauto.
    split.
    + simpl. rewrite Ey. simpl. repeat split; eauto.
    + intros w W. simpl in W. rewrite U1, Er in W. simpl in W. oinv.
      simpl. rewrite Ey. simpl. eauto.
  - (* 0 * r, 0 / r *)
    destruct A as [[q [E K]] [Al Ar]].
    pose proof (unwrap_eval _ _ H2 v) as U1.
    destruct (av_ex _ _ Al) as [xl [El Kl]]. rewrite U1 in El. oinv.
    destruct (av_ex _ _ Ar) as [xr [Er Kr]].
    assert (Z : eqv q (c0 n)).
    { simpl in E. rewrite U1, Er in E.
      destruct H; subst; simpl in E; oinv.
      - destruct (l_bop0 BMult xl (c0 n) xr xr _ Kl Kr (l_eq2 _ Kl H3) (l_refl0 _ Kr) eq_refl K)
          as [z' [Z1 Z2]]. simpl in Z1. oinv. eauto.
      - destruct (l_bop0 BDiv xl (c0 n) xr xr _ Kl Kr (l_eq2 _ Kl H3) (l_refl0 _ Kr) eq_refl K)
          as [z' [Z1 Z2]]. simpl in Z1. oinv. eauto. }
    split.
    + simpl. split; auto. exists (c0 n). split; auto. eauto.
    + intros w W. rewrite E in W. oinv. simpl. eauto.
  - (* 1 * r *)
    destruct A as [[q [E K]] [Al Ar]]. destruct (IHS Ar) as [A' V]. split; auto.
    pose proof (unwrap_eval _ _ H1 v) as U1.
    destruct (av_ex _ _ Al) as [xl [El Kl]]. rewrite U1 in El. oinv.
    destruct (av_ex _ _ Ar) as [xr [Er Kr]].
    intros w W. simpl in W, E. rewrite U1, Er in W, E. simpl in W, E. oinv.
    destruct (V _ Er) as [y [Ey Qy]]. exists y. split; auto.
    destruct (l_bop0 BMult xl (c1 n) xr xr _ Kl Kr (l_eq3 _ Kl H3) (l_refl0 _ Kr) eq_refl K)
      as [z' [Z1 Z2]]. simpl in Z1. oinv.
    eapply l_trans0; [exact Z2|]. eapply l_trans0; [apply l_mul1l0; auto|auto].
  - (* const op r *)
    destruct A as [[q [E K]] [Al Ar]]. destruct (IHS Ar) as [A' V].
    pose proof (unwrap_eval _ _ H2 v) as U1.
    destruct (av_ex _ _ Al) as [xl [El Kl]]. rewrite U1 in El. oinv.
    destruct (av_ex _ _ Ar) as [xr [Er Kr]].
    destruct (V _ Er) as [y [Ey Qy]].
    simpl in E. rewrite U1, Er in E. simpl in E.
    destruct (l_bop0 op xl xl xr y _ Kl Kr (l_refl0 _ Kl) Qy E K) as [z' [Z1 Z2]].
    split.
    + simpl. rewrite Ey. simpl. repeat split; eauto.
    + intros w W. simpl in W. rewrite U1, Er in W. simpl in W. rewrite E in W. oinv.
      simpl. rewrite Ey. simpl. eauto.
  - (* l + 0, l - 0 *)
    destruct A as [[q [E K]] [Al Ar]]. destruct (IHS Al) as [A' V]. split; auto.
    pose proof (unwrap_eval _ _ H2 v) as U1.
    destruct (av_ex _ _ Ar) as [xr [Er Kr]]. rewrite U1 in Er. oinv.
    destruct (av_ex _ _ Al) as [xl [El Kl]].
    destruct (V _ El) as [y [Ey Qy]].
    intros w W. rewrite E in W. oinv. exists y. split; auto.
    simpl in E. rewrite U1, El in E. 
    destruct (l_bop0 op xl xl xr (c0 n) _ Kl Kr (l_refl0 _ Kl) (l_eq2 _ Kr H3) E K)
      as [z' [Z1 Z2]].
    destruct H; subst; simpl in Z1; oinv; eauto.
  - (* l * 0 *)
    destruct A as [[q [E K]] [Al Ar]].
    pose proof (unwrap_eval _ _ H1 v) as U1.
    destruct (av_ex _ _ Ar) as [xr [Er Kr]]. rewrite U1 in Er. oinv.
    destruct (av_ex _ _ Al) as [xl [El Kl]].
    assert (Z : eqv q (c0 n)).
    { simpl in E. rewrite U1, El in E.
      destruct (l_bop0 BMult xl xl xr (c0 n) _ Kl Kr (l_refl0 _ Kl) (l_eq2 _ Kr H2) E K)
        as [z' [Z1 Z2]]. simpl in Z1. oinv. eauto. }
    split.
    + simpl. split; auto. exists (c0 n). split; auto. eauto.
    + intros w W. rewrite E in W. oinv. simpl. eauto.
  - (* l * 1, l / 1 *)
    destruct A as [[q [E K]] [Al Ar]]. destruct (IHS Al) as [A' V]. split; auto.
    pose proof (unwrap_eval _ _ H2 v) as U1.
    destruct (av_ex _ _ Ar) as [xr [Er Kr]]. rewrite U1 in Er. oinv.
    destruct (av_ex _ _ Al) as [xl [El Kl]].
    destruct (V _ El) as [y [Ey Qy]].
    intros w W. rewrite E in W. oinv. exists y. split; auto.
    simpl in E. rewrite U1, El in E. 
    destruct (l_bop0 op xl xl xr (c1 n) _ Kl Kr (l_refl0 _ Kl) (l_eq3 _ Kr H4) E K)
      as [z' [Z1 Z2]].
    destruct H; subst; simpl in Z1; oinv; eauto.
  - (* l op const *)
    destruct A as [[q [E K]] [Al Ar]]. destruct (IHS Al) as [A' V].
    pose proof (unwrap_eval _ _ H2 v) as U1.
    destruct (av_ex _ _ Ar) as [xr [Er Kr]]. rewrite U1 in Er. oinv.
    destruct (av_ex _ _ Al) as [xl [El Kl]].
    destruct (V _ El) as [y [Ey Qy]].
    simpl in E. rewrite U1, El in E. simpl in E.
    destruct (l_bop0 op xl y xr xr _ Kl Kr Qy (l_refl0 _ Kr) E K) as [z' [Z1 Z2]].
    split.
    + simpl. rewrite Ey. simpl. repeat split; eauto.
    + intros w W. simpl in W. rewrite U1, El in W. simpl in W. rewrite E in W. oinv.
      simpl. rewrite Ey. simpl. eauto.
  - destruct A as [[q [E K]] [Al Ar]]. simpl in E. discriminate.
  - (* both *)
    destruct A as [[q [E K]] [Al Ar]]. destruct (IHS1 Al) as [A1 V1].
    destruct (IHS2 Ar) as [A2 V2].
    destruct (av_ex _ _ Al) as [xl [El Kl]]. destruct (av_ex _ _ Ar) as [xr [Er Kr]].
    destruct (V1 _ El) as [y1 [Ey1 Q1]]. destruct (V2 _ Er) as [y2 [Ey2 Q2]].
    simpl in E. rewrite El, Er in E. simpl in E.
    destruct (l_bop0 op xl y1 xr y2 _ Kl Kr Q1 Q2 E K) as [z' [Z1 Z2]].
    split.
    + simpl. rewrite Ey1, Ey2. simpl. repeat split; eauto.
    + intros w W. simpl in W. rewrite El, Er in W. simpl in W. rewrite E in W. oinv.
      simpl. rewrite Ey1, Ey2. simpl. eauto.
Qed.

(** The whole loop. *)
Lemma simplify_top_value : forall v e x, av v e -> eval n e v = Ok x ->
  exists e' y, simplify_top n e = Ok e' /\ av v e' /\ eval n e' v = Ok y /\ eqv x y.
Proof.
  intros v e. remember (weight n e) as w eqn:W. revert e W.
  induction w as [w IH] using lt_wf_ind; intros e W x A E.
  destruct (can_simplify_total v e A) as [[] C].
  - destruct (simplify_total v e A) as [e1 S].
    pose proof (simplify_sstep _ _ _ S) as T.
    destruct (sstep_value v _ _ T A) as [A1 V]. destruct (V _ E) as [y [Ey Q]].
    destruct (IH (weight n e1)) with (e := e1) (x := y) as [e' [z [P1 [P2 [P3 P4]]]]]; auto.
    { rewrite W. apply simplify_lt; auto. }
    exists e', z. rewrite (top_step _ _ _ C S). repeat split; auto.
    eapply l_trans; eauto.
  - exists e, x. rewrite top_done; auto. repeat split; auto.
    destruct (av_ex _ _ A) as [x' [E' K]]. rewrite E in E'. oinv. eapply l_refl; eauto.
Qed.
End Value.

(** Without additional condition. *)
Lemma av_all : forall (n : num) (ok : n -> Prop) v e,
  all_values ok v e <-> av n ok (fun _ _ => True) v e.
Proof.
  intros n ok v e; split.
  - induction e as [c|i|i t|op a IH|lo hi w a _ _ IH|op l r IHl IHr|es _] using expr_ind';
      intros H; simpl; split; try (apply (H _ (sub_refl _))); auto.
    + split.
      * apply IH. intros s S. apply H. constructor; auto.
      * destruct (H a) as [x [E _]]; [apply sub_un, sub_refl|]. eauto.
    + destruct (H _ (sub_refl _)) as [x [E _]]. simpl in E. oinv.
    + split; [apply IHl|apply IHr]; intros s S; apply H;
        [apply sub_l|apply sub_r]; auto.
  - induction e as [c|i|i t|op a IH|lo hi w a _ _ IH|op l r IHl IHr|es _] using expr_ind';
      unfold all_values in *; intros H s S; destruct H as [H1 H2]; simpl in H2.
    + inversion S; subst; auto.
    + inversion S; subst; auto.
    + inversion S; subst; auto.
    + destruct H2. inversion S; subst; auto.
    + contradiction.
    + destruct H2. inversion S; subst; auto.
    + destruct H1 as [x [E _]]; discriminate.
Qed.
