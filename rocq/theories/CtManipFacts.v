(** Lemmas about compile-time differentiation, substitution and expansion. *)
From Coq Require Import ZArith NArith List Bool Reals Lia Lra.
From Verif Require Import Outcome Num RtModel RtSpec RtFacts NumR CtModel CtSpec CtGcd CtFacts
  CtOpsModel CtOpsFacts CtManipModel CtManipSpec.
Import ListNotations.

Lemma cbind_some' : forall {A B : Type} (o : option A) (f : A -> option B) a,
  o = Some a -> cbind o f = f a.
Proof. intros A B o f a ->. reflexivity. Qed.

Lemma uop_eqb_eq : forall a b, uop_eqb a b = true <-> a = b.
Proof.
  intros a b. split.
  - destruct a, b; simpl; try discriminate; try reflexivity; intros H; apply N.eqb_eq in H;
      subst; reflexivity.
  - intros <-. destruct a; simpl; try reflexivity; apply N.eqb_refl.
Qed.

Lemma cexpr_eqb_eq : forall a b, cexpr_eqb a b = true <-> a = b.
Proof.
  induction a as [c|i|t|op a IH|op l IHl r IHr]; intros [d|j|t'|op' b|op' l' r'];
    simpl; try (split; discriminate).
  - rewrite Z.eqb_eq. split; congruence.
  - rewrite N.eqb_eq. split; congruence.
  - rewrite N.eqb_eq. split; congruence.
  - rewrite andb_true_iff, uop_eqb_eq, IH. split; [intros [-> ->]; reflexivity|].
    intros [= -> ->]. auto.
  - rewrite !andb_true_iff, IHl, IHr. split.
    + intros [[H -> ] ->]. apply cop_eqb_eq in H. subst. reflexivity.
    + intros [= -> -> ->]. destruct op'; auto.
Qed.

Lemma cexpr_eqb_neq : forall a b, cexpr_eqb a b = false <-> a <> b.
Proof.
  intros a b. pose proof (cexpr_eqb_eq a b) as H. destruct (cexpr_eqb a b); split; intros E.
  - discriminate.
  - exfalso. apply E, H. reflexivity.
  - intros ->. discriminate (proj2 H eq_refl).
  - reflexivity.
Qed.

(** ** Points *)

Lemma upd_same : forall rho i x, upd rho i x i = x.
Proof. intros. unfold upd. rewrite N.eqb_refl. reflexivity. Qed.
Lemma upd_other : forall rho i x j, j <> i -> upd rho i x j = rho j.
Proof. intros. unfold upd. apply N.eqb_neq in H. rewrite H. reflexivity. Qed.

Lemma cval_ext : forall phi un e rho rho', (forall i, occurs i e -> rho i = rho' i) ->
  cval rho phi un e = cval rho' phi un e.
Proof.
  intros phi un. induction e as [c|i|t|op a IH|op l IHl r IHr]; intros rho rho' H; simpl in *.
  - reflexivity.
  - rewrite (H i eq_refl). reflexivity.
  - reflexivity.
  - rewrite (IH rho rho' H). reflexivity.
  - rewrite (IHl rho rho'), (IHr rho rho') by auto. reflexivity.
Qed.

Lemma cval_free : forall rho phi un e i x, ~ occurs i e ->
  cval (upd rho i x) phi un e = cval rho phi un e.
Proof.
  intros rho phi un e i x H. apply cval_ext. intros j J. apply upd_other. intros ->. contradiction.
Qed.

Lemma cval_upd_self : forall rho phi un e i,
  cval (upd rho i (rho i)) phi un e = cval rho phi un e.
Proof.
  intros. apply cval_ext. intros j _. unfold upd. destruct (N.eqb_spec j i); congruence.
Qed.

Lemma upd_upd : forall rho phi un e i x y,
  cval (upd (upd rho i x) i y) phi un e = cval (upd rho i y) phi un e.
Proof.
  intros. apply cval_ext. intros j _. unfold upd. destruct (N.eqb j i); reflexivity.
Qed.

(** ** Substitution *)

Lemma ct_subst_match : forall s r, ct_subst s r s = r.
Proof.
  intros s r. assert (E : cexpr_eqb s s = true) by (apply cexpr_eqb_eq; reflexivity).
  destruct s; cbn [ct_subst]; rewrite E; reflexivity.
Qed.

Lemma ct_subst_step : forall s r e, s <> e -> ct_subst s r e =
  match e with
  | CConst _ | CVar _ | CFun _ => e
  | CUn op a => CUn op (ct_subst s r a)
  | CBin op a b => CBin op (ct_subst s r a) (ct_subst s r b)
  end.
Proof. intros s r e H. apply cexpr_eqb_neq in H. destruct e; cbn [ct_subst]; rewrite H; reflexivity. Qed.

Lemma cexpr_dec : forall a b : cexpr, a = b \/ a <> b.
Proof.
  intros a b. destruct (cexpr_eqb a b) eqn:E; [left|right];
    [apply cexpr_eqb_eq|apply cexpr_eqb_neq]; exact E.
Qed.

Lemma ct_subst_equal_values : forall rho phi un s r, cval rho phi un s = cval rho phi un r ->
  forall e, cval rho phi un (ct_subst s r e) = cval rho phi un e.
Proof.
  intros rho phi un s r E e. induction e as [c|i|t|op a IH|op l IHl r0 IHr];
    match goal with |- context [ct_subst s r ?e] =>
      destruct (cexpr_dec s e) as [<-|N]; [rewrite ct_subst_match; symmetry; exact E|
                                           rewrite ct_subst_step by exact N] end;
    try reflexivity.
  - cbn [cval]. rewrite IH. reflexivity.
  - cbn [cval]. rewrite IHl, IHr. reflexivity.
Qed.

Lemma ct_subst_var : forall rho phi un i r x, cval rho phi un r = Some x ->
  forall e, cval rho phi un (ct_subst (CVar i) r e) = cval (upd rho i x) phi un e.
Proof.
  intros rho phi un i r x E e. induction e as [c|j|t|op a IH|op l IHl r0 IHr];
    try (rewrite ct_subst_step by discriminate); cbn [cval]; try reflexivity.
  - destruct (N.eq_dec j i) as [->|N].
    + rewrite ct_subst_match, E, upd_same. reflexivity.
    + rewrite ct_subst_step by congruence. cbn [cval]. rewrite upd_other by exact N. reflexivity.
  - rewrite IH. reflexivity.
  - rewrite IHl, IHr. reflexivity.
Qed.

Lemma ct_subst_occurs : forall i j r e, occurs j (ct_subst (CVar i) r e) ->
  (occurs j e /\ j <> i) \/ (occurs j r /\ occurs i e).
Proof.
  intros i j r e. induction e as [c|k|t|op a IH|op l IHl r0 IHr];
    try (rewrite ct_subst_step by discriminate); simpl; try tauto.
  destruct (N.eqb_spec i k) as [->|N]; simpl; [tauto|].
  intros ->. left. split; congruence.
Qed.

(** ** Differentiation *)

Lemma ct_diff_total : forall i e, (exists d, ct_diff i e = Some d) <-> plain e.
Proof.
  intros i. induction e as [c|j|t|op a IH|op l IHl r IHr]; simpl.
  - split; eauto.
  - split; eauto.
  - split; [intros [d H]; discriminate|tauto].
  - split; [intros [d H]; discriminate|tauto].
  - rewrite <- IHl, <- IHr. split.
    + intros [d H]. apply cbind_some in H as [a [E1 H]]. apply cbind_some in H as [b [E2 H]]. eauto.
    + intros [[a ->] [b ->]]. eexists. reflexivity.
Qed.

Lemma to_rt_bin_inj : forall n op l r, to_rt n (inj (CBin op l r)) =
  cbind (to_rt n (inj l)) (fun x => cbind (to_rt n (inj r)) (fun y => Some (EBin (rt_op op) x y))).
Proof. intros n op l r. cbn [inj]. rewrite to_rt_bin. destruct l, r; reflexivity. Qed.

Lemma ct_diff_rt : forall n i e d t, ct_diff i e = Some d -> to_rt n (inj e) = Some t ->
  exists t', to_rt n (inj d) = Some t' /\ diff n (DVar i) t = Ok t'.
Proof.
  intros n i. induction e as [c|j|s|op a IH|op l IHl r IHr]; intros d t D T;
    cbn [ct_diff] in D; try discriminate.
  - injection D as <-. injection T as <-. eexists. split; reflexivity.
  - injection D as <-. injection T as <-. cbn [diff]. rewrite N.eqb_sym.
    destruct (N.eqb i j); eexists; split; reflexivity.
  - apply cbind_some in D as [l' [Dl D]]. apply cbind_some in D as [r' [Dr D]].
    injection D as <-. rewrite to_rt_bin_inj in T.
    apply cbind_some in T as [x [Tl T]]. apply cbind_some in T as [y [Tr T]]. injection T as <-.
    destruct (IHl _ _ Dl Tl) as [x' [Xl El]]. destruct (IHr _ _ Dr Tr) as [y' [Yr Er]].
    destruct op; cbn [rt_op diff]; rewrite El, Er; eexists; (split; [|reflexivity]);
      repeat (rewrite to_rt_bin_inj || rewrite Xl || rewrite Yr || rewrite Tl || rewrite Tr
              || cbn [cbind]); reflexivity.
Qed.

Lemma near_both : forall (P Q : R -> Prop) x,
  (exists d, (0 < d)%R /\ forall t, (Rabs (t - x) < d)%R -> P t) ->
  (exists d, (0 < d)%R /\ forall t, (Rabs (t - x) < d)%R -> Q t) ->
  exists d, (0 < d)%R /\ forall t, (Rabs (t - x) < d)%R -> P t /\ Q t.
Proof.
  intros P Q x [d1 [H1 K1]] [d2 [H2 K2]]. exists (Rmin d1 d2). split.
  - apply Rmin_glb_lt; assumption.
  - intros t T. split; [apply K1|apply K2]; eapply Rlt_le_trans; try exact T;
      [apply Rmin_l|apply Rmin_r].
Qed.

Lemma near_nonzero : forall g x, continuity_pt g x -> g x <> 0%R ->
  exists d, (0 < d)%R /\ forall t, (Rabs (t - x) < d)%R -> g t <> 0%R.
Proof.
  intros g x C N. destruct (C (Rabs (g x))) as [d [D1 D2]]; [apply Rabs_pos_lt; exact N|].
  exists d. split; [exact D1|]. intros t T E.
  destruct (Req_dec t x) as [->|NE]; [contradiction|].
  assert (K : (R_dist (g t) (g x) < Rabs (g x))%R).
  { apply D2. split; [split; [exact I|auto]|exact T]. }
  rewrite E in K. unfold R_dist in K. rewrite Rminus_0_l, Rabs_Ropp in K. lra.
Qed.

Lemma ct_diff_derivative : forall rho phi un i e d x, ct_diff i e = Some d ->
  cval rho phi un e = Some x ->
  exists g y, g (rho i) = x /\
    (exists delta, (0 < delta)%R /\ forall t, (Rabs (t - rho i) < delta)%R ->
       cval (upd rho i t) phi un e = Some (g t)) /\
    derivable_pt_lim g (rho i) y /\ cval rho phi un d = Some y.
Proof.
  intros rho phi un i. induction e as [c|j|s|op a IH|op l IHl r IHr]; intros d x D V;
    cbn [ct_diff] in D; try discriminate.
  - injection D as <-. injection V as <-. exists (fun _ => IZR c), 0%R.
    split; [reflexivity|]. split; [|split; [apply derivable_pt_lim_const|reflexivity]].
    exists 1%R. split; [lra|reflexivity].
  - injection D as <-. injection V as <-. destruct (N.eqb_spec j i) as [->|N].
    + exists (fun t => t), 1%R. split; [reflexivity|].
      split; [|split; [apply derivable_pt_lim_id|reflexivity]].
      exists 1%R. split; [lra|]. intros t _. simpl. rewrite upd_same. reflexivity.
    + exists (fun _ => rho j), 0%R. split; [reflexivity|].
      split; [|split; [apply derivable_pt_lim_const|reflexivity]].
      exists 1%R. split; [lra|]. intros t _. simpl. rewrite upd_other by exact N. reflexivity.
  - apply cbind_some in D as [l' [Dl D]]. apply cbind_some in D as [r' [Dr D]].
    injection D as <-. apply val_bin in V as [a [b [Va [Vb V]]]].
    destruct (IHl _ _ Dl Va) as [g [y [G0 [Gn [Gd Gv]]]]].
    destruct (IHr _ _ Dr Vb) as [h [z [H0 [Hn [Hd Hv]]]]].
    assert (B := near_both _ _ _ Gn Hn). destruct op.
    + injection V as <-. exists (g + h)%F, (y + z)%R. unfold plus_fct. rewrite G0, H0.
      split; [reflexivity|]. split; [|split].
      * destruct B as [dl [B1 B2]]. exists dl. split; [exact B1|]. intros t T.
        destruct (B2 t T) as [E1 E2]. cbn [cval]. rewrite E1, E2. reflexivity.
      * apply derivable_pt_lim_plus; assumption.
      * cbn [cval]. rewrite Gv, Hv. reflexivity.
    + injection V as <-. exists (g - h)%F, (y - z)%R. unfold minus_fct. rewrite G0, H0.
      split; [reflexivity|]. split; [|split].
      * destruct B as [dl [B1 B2]]. exists dl. split; [exact B1|]. intros t T.
        destruct (B2 t T) as [E1 E2]. cbn [cval]. rewrite E1, E2. reflexivity.
      * apply derivable_pt_lim_minus; assumption.
      * cbn [cval]. rewrite Gv, Hv. reflexivity.
    + injection V as <-. exists (g * h)%F, (y * b + a * z)%R. unfold mult_fct. rewrite G0, H0.
      split; [reflexivity|]. split; [|split].
      * destruct B as [dl [B1 B2]]. exists dl. split; [exact B1|]. intros t T.
        destruct (B2 t T) as [E1 E2]. cbn [cval]. rewrite E1, E2. reflexivity.
      * rewrite <- G0, <- H0. apply derivable_pt_lim_mult; assumption.
      * cbn [cval]. rewrite Gv, Hv, Va, Vb. reflexivity.
    + apply op_div in V as [N ->]. exists (g / h)%F, ((y * b - a * z) / (b * b))%R.
      unfold div_fct. rewrite G0, H0. split; [reflexivity|]. split; [|split].
      * assert (K : exists d, (0 < d)%R /\ forall t, (Rabs (t - rho i) < d)%R -> h t <> 0%R).
        { apply near_nonzero; [|rewrite H0; exact N]. apply derivable_continuous_pt.
          exists z. exact Hd. }
        destruct (near_both _ _ _ B K) as [dl [B1 B2]]. exists dl. split; [exact B1|].
        intros t T. destruct (B2 t T) as [[E1 E2] E3]. cbn [cval]. rewrite E1, E2.
        apply op_div'. exact E3.
      * replace ((y * b - a * z) / (b * b))%R with ((y * h (rho i) - z * g (rho i)) / Rsqr (h (rho i)))%R.
        -- apply derivable_pt_lim_div; try assumption. rewrite H0. exact N.
        -- rewrite G0, H0. unfold Rsqr. f_equal. ring.
      * cbn [cval]. rewrite Gv, Hv, Va, Vb. cbn [op_val].
        destruct (Req_EM_T (b * b) 0) as [E|_]; [|reflexivity].
        exfalso. apply Rmult_integral in E. tauto.
Qed.
