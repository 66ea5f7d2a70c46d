(** Differentiation of run-time expressions over the reals (proofs only). *)
From Coq Require Import ZArith NArith Reals List Bool Lia Lra Psatz.
From Coquelicot Require Import Coquelicot.
From Verif Require Import Outcome Num RtModel RtSpec RtFacts RtStep RtTermination RtValue RtEval RtSubst
  NumR NumRFacts RealSpec.
Import ListNotations.
Local Open Scope R_scope.

(** Total real reading of an expression; agrees with [eval] where [reg] holds. *)
Definition ureal (op : uop) (x : R) : R :=
  match op with
  | UId => x | UExp => exp x | USin => sin x | UCos => cos x | UTan => tan x
  | UFabs => Rabs x | USqrt => sqrt x | ULog => ln x | ULog10 => ln x / ln 10
  | _ => 0
  end.
Definition breal (op : bop) (x y : R) : R :=
  match op with
  | BPlus => x + y | BMinus => x - y | BMult => x * y | BDiv => x / y | BUnaryId => 0
  end.
Fixpoint rv (v : list (option R)) (e : expr numR) : R :=
  match e with
  | EConst c => match c with Some c => c | None => 0 end
  | EVar i => match nth_error v (N.to_nat i) with Some (Some x) => x | _ => 0 end
  | EUn op a => ureal op (rv v a)
  | EBin op l r => breal op (rv v l) (rv v r)
  | _ => 0
  end.

Definition udom (op : uop) (x : R) : Prop :=
  match op with
  | UId | UExp | USin | UCos => True
  | UTan => cos x <> 0
  | USqrt | ULog | ULog10 => 0 < x
  | _ => False
  end.
Definition bdom (op : bop) (x y : R) : Prop :=
  match op with
  | BDiv => y <> 0
  | BUnaryId => False
  | _ => True
  end.
Fixpoint reg (v : list (option R)) (e : expr numR) : Prop :=
  match e with
  | EConst c => exists r, c = Some r
  | EVar i => exists x, nth_error v (N.to_nat i) = Some (Some x)
  | EUn op a => reg v a /\ udom op (rv v a)
  | EBin op l r => (reg v l /\ reg v r) /\ bdom op (rv v l) (rv v r)
  | _ => False
  end.

Lemma eval_var_some : forall (v : list (option R)) i x, nth_error v (N.to_nat i) = Some x ->
  eval numR (EVar i) v = Ok x.
Proof.
  intros v i x H. simpl. rewrite H.
  assert (N.to_nat i < length v)%nat by (apply nth_error_Some; congruence).
  replace (N.of_nat (length v) <=? i)%N with false; auto.
  symmetry. apply N.leb_gt. lia.
Qed.

Lemma reg_eval : forall v e, reg v e -> eval numR e v = Ok (Some (rv v e)).
Proof.
  intros v. induction e as [c|i|i t|op a IH|lo hi w a _ _ IH|op l r IHl IHr|es _] using expr_ind';
    simpl reg; try contradiction.
  - intros [r ->]. reflexivity.
  - intros [x E]. rewrite (eval_var_some _ _ _ E). simpl. rewrite E. auto.
  - intros [Ra D]. simpl. rewrite (IH Ra). simpl. destruct op; simpl in *; try contradiction; auto.
    + rewrite (proj2 (r_eqb_false _ _) D). auto.
    + rewrite (proj2 (r_leb_true _ _)); auto; lra.
    + rewrite (proj2 (r_ltb_true _ _)); auto.
    + rewrite (proj2 (r_ltb_true _ _)); auto.
  - intros [[Rl Rr] D]. simpl. rewrite (IHl Rl), (IHr Rr). simpl.
    destruct op; simpl in *; try contradiction; auto.
    rewrite (proj2 (r_eqb_false _ _) D). auto.
Qed.

Definition guardR (op : uop) (x : numR) : Prop :=
  match op with
  | USqrt => x <> Some 0
  | UFabs => False
  | _ => True
  end.

Lemma reg_av : forall v e, reg v e <-> av numR def guardR v e.
Proof.
  intros v. induction e as [c|i|i t|op a IH|lo hi w a _ _ IH|op l r IHl IHr|es _] using expr_ind'.
  - split.
    + intros [r ->]. split; auto. exists (Some r). split; auto. eexists; eauto.
    + intros [[x [E [r D]]] _]. simpl in *. exists r. congruence.
  - split.
    + intros [x E]. split; auto. exists (Some x). rewrite (eval_var_some _ _ _ E). split; auto. eexists; eauto.
    + intros [[x [E [r D]]] _]. simpl in *. subst x. exists r.
      destruct (N.of_nat (length v) <=? i)%N; try discriminate.
      destruct (nth_error v (N.to_nat i)); congruence.
  - split; [intros []|]. intros [[x [E _]] _]. discriminate.
  - split.
    + intros H. pose proof (reg_eval _ _ H) as E. destruct H as [Ra D].
      split; [exists (Some (rv v (EUn op a))); split; auto; eexists; eauto|].
      split; [apply IH; auto|]. exists (Some (rv v a)). split; [apply reg_eval; auto|].
      destruct op; simpl in *; auto. intros K. inversion K. lra.
    + intros [[x [E [r D]]] [A [y [F Gd]]]]. apply IH in A.
      split; auto. pose proof (reg_eval _ _ A) as Ea. rewrite Ea in F. inversion F; subst y x.
      simpl in E. rewrite Ea in E. simpl in E.
      destruct op; simpl in *; auto; try discriminate; try contradiction;
        match type of E with Ok (if ?b then _ else _) = _ => destruct b eqn:Q; simpl in E; [|discriminate] end.
      * apply Bool.negb_true_iff in Q. apply r_eqb_false in Q. auto.
      * apply r_leb_true in Q. assert (rv v a <> 0) by congruence. lra.
      * apply r_ltb_true in Q. auto.
      * apply r_ltb_true in Q. auto.
  - split; [intros []|]. intros [_ []].
  - split.
    + intros H. pose proof (reg_eval _ _ H) as E. destruct H as [[Rl Rr] D].
      split; [exists (Some (rv v (EBin op l r))); split; auto; eexists; eauto|].
      split; [apply IHl|apply IHr]; auto.
    + intros [[x [E [q D]]] [A B]]. apply IHl in A. apply IHr in B.
      split; auto. simpl in E. rewrite (reg_eval _ _ A), (reg_eval _ _ B) in E. subst x. simpl in E.
      destruct op; simpl in *; auto; try discriminate.
      destruct (r_eqb (rv v r) 0) eqn:Q; simpl in E; [discriminate|].
      apply r_eqb_false in Q. auto.
  - split; [intros []|]. intros [[x [E _]] _]. discriminate.
Qed.

Lemma regular_reg : forall e v, regular e v <-> reg v e.
Proof.
  intros e v. split.
  - intros [[r E] [F S]]. apply reg_av.
    pose proof (proj1 (av_all numR def v e) (av_real _ _ _ E)) as A. clear r E.
    induction e as [c|i|i t|op a IH|lo hi w a _ _ IH|op l r IHl IHr|es _] using expr_ind';
      destruct A as [A1 A2]; split; auto.
    + destruct A2 as [Aa [x [Ex _]]]. split.
      * apply IH; auto; intros b Q.
        -- apply (F b). constructor; auto.
        -- apply (S b). constructor; auto.
      * exists x. split; auto. destruct op; simpl; auto.
        -- apply (F a). constructor.
        -- intros K. subst. apply (S a); auto. constructor.
    + destruct A2 as [Al Ar]. split; [apply IHl|apply IHr]; auto; intros b Q.
      * apply (F b). apply sub_l; auto.
      * apply (S b). apply sub_l; auto.
      * apply (F b). apply sub_r; auto.
      * apply (S b). apply sub_r; auto.
  - intros H. split; [exists (rv v e); apply reg_eval; auto|]. split.
    + intros a Q. revert H. remember (EUn UFabs a) as s eqn:Es.
      induction Q; subst; simpl; try tauto.
    + intros a Q. assert (P : exists y, eval numR a v = Ok (Some y) /\ 0 < y).
      { revert H. remember (EUn USqrt a) as s eqn:Es. induction Q; subst; simpl; try tauto.
        intros [Ra D]. exists (rv v a). split; auto. apply reg_eval; auto. }
      destruct P as [y [P1 P2]]. rewrite P1. intros K. inversion K. lra.
Qed.

(** Simplification keeps regularity and the value. *)
Lemma simplify_reg : forall v e, reg v e ->
  exists e', simplify_top numR e = Ok e' /\ reg v e' /\ rv v e' = rv v e.
Proof.
  intros v e H. pose proof (proj1 (reg_av v e) H) as A. pose proof (reg_eval _ _ H) as E.
  destruct (simplify_top_value numR def _ lawsR guardR) with (v := v) (e := e) (x := Some (rv v e))
    as [e' [y [P [Q [S T]]]]]; auto.
  - intros op x y ->. auto.
  - subst y. apply reg_av in Q. exists e'. split; auto. split; auto.
    rewrite reg_eval in S by auto. congruence.
Qed.

(** Total derivative. *)
Fixpoint pdiff (i : N) (e : expr numR) : expr numR :=
  match e with
  | EConst _ => EConst (c0 numR)
  | EVar j => if N.eqb i j then EConst (c1 numR) else EConst (c0 numR)
  | EUn op a =>
      let d := pdiff i a in
      match op with
      | UId => d
      | UExp => EBin BMult (EUn UExp a) d
      | USin => EBin BMult (EUn UCos a) d
      | UCos => EBin BMult (EUn USin a) (EBin BMult (EConst (cm1 numR)) d)
      | UTan => EBin BDiv d (EBin BMult (EUn UCos a) (EUn UCos a))
      | USqrt => EBin BDiv d (EBin BMult (EConst (c2 numR)) (EUn USqrt a))
      | ULog => EBin BDiv d (EUn UId a)
      | ULog10 => EBin BDiv d (EBin BMult (EConst (n_ln10 numR)) (EUn UId a))
      | _ => EConst (c0 numR)
      end
  | EBin op l r =>
      let dl := pdiff i l in let dr := pdiff i r in
      match op with
      | BPlus => EBin BPlus dl dr
      | BMinus => EBin BMinus dl dr
      | BMult => EBin BPlus (EBin BMult dl r) (EBin BMult l dr)
      | BDiv => EBin BDiv (EBin BMinus (EBin BMult dl r) (EBin BMult l dr)) (EBin BMult r r)
      | BUnaryId => EConst (c0 numR)
      end
  | _ => EConst (c0 numR)
  end.

Lemma ln10_nz : ln 10 <> 0.
Proof. assert (0 < ln 10); [|lra]. rewrite <- ln_1. apply ln_increasing; lra. Qed.

Lemma diff_pdiff : forall i v e, reg v e -> diff numR (DVar i) e = Ok (pdiff i e).
Proof.
  intros i v. induction e as [c|j|j t|op a IH|lo hi w a _ _ IH|op l r IHl IHr|es _] using expr_ind';
    simpl reg; try contradiction.
  - reflexivity.
  - intros _. simpl. destruct (N.eqb i j); auto.
  - intros [Ra D]. simpl. rewrite (IH Ra). destruct op; simpl in *; try contradiction; auto.
  - intros [[Rl Rr] D]. simpl. rewrite (IHl Rl), (IHr Rr). destruct op; simpl in *; try contradiction; auto.
Qed.

Lemma reg_pdiff : forall i v e, reg v e -> reg v (pdiff i e).
Proof.
  intros i v. induction e as [c|j|j t|op a IH|lo hi w a _ _ IH|op l r IHl IHr|es _] using expr_ind';
    simpl reg; try contradiction.
  - intros _. simpl. unfold c0. simpl. eauto.
  - intros _. simpl. destruct (N.eqb i j); simpl; unfold c0, c1; simpl; eauto.
  - intros [Ra D]. specialize (IH Ra).
    pose proof ln10_nz.
    destruct op; simpl in *; try contradiction; unfold cm1, c2; simpl; repeat split; eauto; try lra;
    try (assert (0 < sqrt (rv v a)) by (apply sqrt_lt_R0; auto); lra);
    apply Rmult_integral_contrapositive_currified; auto; lra.
  - intros [[Rl Rr] D]. specialize (IHl Rl). specialize (IHr Rr).
    destruct op; simpl in *; try contradiction; repeat split; auto.
Qed.

(** Derivatives of the elementary functions. *)
Definition dreal (op : uop) (x : R) : R :=
  match op with
  | UId => 1 | UExp => exp x | USin => cos x | UCos => - sin x | UTan => / (cos x * cos x)
  | USqrt => / (2 * sqrt x) | ULog => / x | ULog10 => / (ln 10 * x) | _ => 0
  end.

Lemma ureal_derive : forall op x, udom op x -> is_derive (ureal op) x (dreal op x).
Proof.
  intros op x D; destruct op; simpl in *; try contradiction.
  - apply (is_derive_id x).
  - apply is_derive_Reals. apply derivable_pt_lim_exp.
  - apply is_derive_Reals. apply derivable_pt_lim_sin.
  - apply is_derive_Reals. apply derivable_pt_lim_cos.
  - apply (is_derive_ext (fun t => sin t / cos t)); [reflexivity|].
    auto_derive; auto. pose proof (sin2_cos2 x) as T. unfold Rsqr in T.
    transitivity ((sin x * sin x + cos x * cos x) / (cos x * cos x)).
    + field; auto.
    + rewrite T. field; auto.
  - apply is_derive_Reals. apply derivable_pt_lim_sqrt; auto.
  - apply is_derive_Reals. apply derivable_pt_lim_ln; auto.
  - pose proof ln10_nz. apply (is_derive_ext (fun t => ln t / ln 10)); [reflexivity|].
    auto_derive; auto. field. split; auto. lra.
Qed.

Lemma udom_open : forall op x, udom op x -> locally x (udom op).
Proof.
  intros op x D; destruct op; simpl in *; try contradiction; try (apply filter_true).
  - assert (C : continuous cos x) by apply continuous_cos.
    apply (C (fun y => y <> 0)). apply open_neq; auto.
  - apply open_gt; auto.
  - apply open_gt; auto.
  - apply open_gt; auto.
Qed.

Lemma derive_cont : forall (f : R -> R) (x d : R), is_derive f x d -> continuous f x.
Proof.
  intros f x d H. apply (ex_derive_continuous (K := R_AbsRing) (V := R_NormedModule)).
  exists d. exact H.
Qed.

Lemma der_mult : forall (f g : R -> R) x df dg fx gx, f x = fx -> g x = gx ->
  is_derive f x df -> is_derive g x dg -> is_derive (fun t => f t * g t) x (df * gx + fx * dg).
Proof.
  intros f g x df dg fx gx <- <- A B. exact (is_derive_mult f g x df dg A B Rmult_comm).
Qed.
Lemma der_div : forall (f g : R -> R) x df dg fx gx, f x = fx -> g x = gx -> gx <> 0 ->
  is_derive f x df -> is_derive g x dg ->
  is_derive (fun t => f t / g t) x ((df * gx - fx * dg) / (gx * gx)).
Proof.
  intros f g x df dg fx gx <- <- N A B. pose proof (is_derive_div f g x df dg A B N) as M.
  replace ((df * g x - f x * dg) / (g x * g x)) with ((df * g x - f x * dg) / g x ^ 2); auto.
  f_equal. ring.
Qed.

Lemma rv_pdiff_un : forall i v op a, reg v (EUn op a) ->
  rv v (pdiff i (EUn op a)) = rv v (pdiff i a) * dreal op (rv v a).
Proof.
  intros i v op a [Ra D]. pose proof ln10_nz.
  destruct op; simpl in *; try contradiction; try ring.
  - field; auto.
  - assert (0 < sqrt (rv v a)) by (apply sqrt_lt_R0; auto). field. lra.
  - field; lra.
  - field; split; auto; lra.
Qed.

Lemma breal_open : forall op x y, bdom op x y ->
  forall (f g : R -> R) t, f t = x -> g t = y -> continuous g t -> locally t (fun s => bdom op (f s) (g s)).
Proof.
  intros op x y D f g t E1 E2 C. destruct op; simpl in *; try contradiction; try (apply filter_true).
  apply (C (fun z => z <> 0)). apply open_neq. rewrite E2. auto.
Qed.

(** The main induction, along an arbitrary curve of points on which the entries occurring in [e]
    behave like entry [i] being the parameter. *)
Lemma diff_main : forall i v x e,
  nth_error v (N.to_nat i) = Some (Some x) ->
  reg v e ->
  locally x (fun t => reg (update v (N.to_nat i) (Some t)) e) /\
  is_derive (fun t => rv (update v (N.to_nat i) (Some t)) e) x (rv v (pdiff i e)).
Proof.
  intros i v x e Hx.
  assert (Up : update v (N.to_nat i) (Some x) = v).
  { revert Hx. generalize (N.to_nat i). clear. induction v as [|y v IH]; intros [|k] H; simpl in *; auto.
    - congruence.
    - rewrite IH; auto. }
  assert (Li : (N.to_nat i < length v)%nat) by (apply nth_error_Some; congruence).
  induction e as [c|j|j t|op a IH|lo hi w a _ _ IH|op l r IHl IHr|es _] using expr_ind';
    try (intros Rg; simpl in Rg; contradiction).
  - intros [r ->]. split.
    + apply filter_forall. intros t. simpl. eauto.
    + simpl. apply (is_derive_const r x).
  - intros [y E]. simpl. destruct (N.eqb_spec i j).
    + subst j. split.
      * apply filter_forall. intros t. rewrite update_same by auto. eauto.
      * simpl. apply (is_derive_ext (fun t => t)).
        -- intros t. rewrite update_same by auto. auto.
        -- apply (is_derive_id x).
    + assert (N.to_nat i <> N.to_nat j) by lia. split.
      * apply filter_forall. intros t. rewrite update_other by auto. eauto.
      * simpl. apply (is_derive_ext (fun t => y)).
        -- intros t. rewrite update_other by auto. rewrite E. auto.
        -- apply (is_derive_const y x).
  - intros Rg. pose proof (rv_pdiff_un i v op a Rg) as Ed. destruct Rg as [Ra D].
    destruct (IH Ra) as [Lo De]. split.
    + simpl. apply filter_and; auto.
      assert (C : continuous (fun t => rv (update v (N.to_nat i) (Some t)) a) x)
        by (apply (derive_cont _ _ _ De)).
      assert (Q : locally (rv (update v (N.to_nat i) (Some x)) a) (udom op))
        by (rewrite Up; apply udom_open; auto).
      exact (C (udom op) Q).
    + rewrite Ed. simpl.
      assert (Q : is_derive (ureal op) (rv (update v (N.to_nat i) (Some x)) a) (dreal op (rv v a)))
        by (rewrite Up; apply ureal_derive; auto).
      exact (is_derive_comp (ureal op) _ x _ _ Q De).
  - intros [[Rl Rr] D]. destruct (IHl Rl) as [Ll Dl]. destruct (IHr Rr) as [Lr Dr].
    assert (Cr : continuous (fun t => rv (update v (N.to_nat i) (Some t)) r) x)
      by (apply (derive_cont _ _ _ Dr)).
    split.
    + simpl. apply filter_and; [apply filter_and; auto|].
      apply (breal_open op (rv v l) (rv v r) D); auto; rewrite Up; auto.
    + destruct op; simpl in *; try contradiction.
      * apply (is_derive_plus _ _ x _ _ Dl Dr).
      * apply (is_derive_minus _ _ x _ _ Dl Dr).
      * apply (der_mult (fun t => rv (update v (N.to_nat i) (Some t)) l)
                 (fun t => rv (update v (N.to_nat i) (Some t)) r)); auto; rewrite Up; auto.
      * apply (der_div (fun t => rv (update v (N.to_nat i) (Some t)) l)
                 (fun t => rv (update v (N.to_nat i) (Some t)) r)); auto; rewrite Up; auto.
Qed.
