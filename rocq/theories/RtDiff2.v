(** Consequences of RtDiff.v (proofs only). *)
From Coq Require Import ZArith NArith Reals List Bool Lia Lra Psatz.
From Coquelicot Require Import Coquelicot.
From Verif Require Import Outcome Num RtModel RtSpec RtFacts RtStep RtTermination RtValue RtEval RtSubst
  NumR NumRFacts RealSpec RtDiff.
Import ListNotations.
Local Open Scope R_scope.

Lemma locally_delta : forall (P : R -> Prop) x, locally x P ->
  exists delta, 0 < delta /\ forall t, Rabs (t - x) < delta -> P t.
Proof. intros P x [eps H]. exists eps. split; [apply cond_pos|]. intros t T. apply H. exact T. Qed.

Lemma update_id : forall {A} (v : list A) i x, nth_error v i = Some x -> update v i x = v.
Proof.
  intros A. induction v as [|y v IH]; intros [|k] x H; simpl in *; auto.
  - congruence.
  - rewrite IH; auto.
Qed.

Lemma partial_of_reg : forall i v x e, nth_error v (N.to_nat i) = Some (Some x) -> reg v e ->
  has_partial e v i x (rv v (pdiff i e)).
Proof.
  intros i v x e Hx Rg. destruct (diff_main i v x e Hx Rg) as [Lo De].
  exists (fun t => rv (update v (N.to_nat i) (Some t)) e). split.
  - destruct (locally_delta _ _ Lo) as [delta [D H]]. exists delta. split; auto.
    intros t T. apply reg_eval. auto.
  - apply is_derive_Reals. exact De.
Qed.

(** Uniqueness of the derivative of a slice. *)
Lemma partial_unique : forall e v i x d1 d2, has_partial e v i x d1 -> has_partial e v i x d2 -> d1 = d2.
Proof.
  intros e v i x d1 d2 [g1 [[a1 [A1 S1]] D1]] [g2 [[a2 [A2 S2]] D2]].
  apply (uniqueness_limite g1 x); auto.
  apply is_derive_Reals. apply is_derive_Reals in D2.
  apply (is_derive_ext_loc g2); auto.
  assert (P : 0 < Rmin a1 a2) by (apply Rmin_glb_lt; auto).
  exists (mkposreal _ P). intros y Y. change (Rabs (y - x) < Rmin a1 a2) in Y.
  assert (Y1 : Rabs (y - x) < a1) by (eapply Rlt_le_trans; [exact Y|apply Rmin_l]).
  assert (Y2 : Rabs (y - x) < a2) by (eapply Rlt_le_trans; [exact Y|apply Rmin_r]).
  specialize (S1 _ Y1). specialize (S2 _ Y2). congruence.
Qed.

(** If the derivative computed by the code has a value, the point was regular. *)
Lemma defined_bin : forall (op : bop) (l r : expr numR) v q, eval numR (EBin op l r) v = Ok (Some q) ->
  exists a b, eval numR l v = Ok (Some a) /\ eval numR r v = Ok (Some b) /\ b_apply numR op (Some a) (Some b) = Ok (Some q).
Proof.
  intros op l r v q H. simpl in H. apply both_ok in H as [x [y [El [Er E]]]].
  destruct (strict_b _ _ _ _ E ltac:(eexists; eauto)) as [[x' ?] [y' ?]]; subst. eauto.
Qed.
Lemma defined_un : forall op (a : expr numR) v q, eval numR (EUn op a) v = Ok (Some q) ->
  exists x, eval numR a v = Ok (Some x) /\ u_apply numR op (Some x) = Ok (Some q).
Proof.
  intros op a v q H. simpl in H. apply bind_ok in H as [x [Ea E]].
  destruct (strict_u _ _ _ E ltac:(eexists; eauto)) as [x' ?]; subst. eauto.
Qed.

Lemma div_defined : forall x y q, b_apply numR BDiv (Some x) (Some y) = Ok (Some q) -> y <> 0.
Proof.
  intros x y q H. simpl in H. destruct (r_eqb y 0) eqn:E; simpl in H; try discriminate.
  apply r_eqb_false; auto.
Qed.

Ltac dbin H := apply defined_bin in H as [? [? [? [? ?]]]].

Lemma regular_of_defined : forall i e d v q q', diff numR (DVar i) e = Ok d ->
  eval numR e v = Ok (Some q) -> eval numR d v = Ok (Some q') -> reg v e.
Proof.
  intros i e d v q q' Hd He Hv.
  pose proof (proj1 (av_all numR def v e) (av_real _ _ _ He)) as A.
  apply reg_av. clear He q. revert d q' Hd Hv.
  induction e as [c|j|j t|op a IH|lo hi w a _ _ IH|op l r IHl IHr|es _] using expr_ind';
    intros d q' Hd Hv; destruct A as [A1 A2]; split; auto.
  - destruct A2 as [Aa [x [Ex _]]].
    assert (K : (exists da qa, diff numR (DVar i) a = Ok da /\ eval numR da v = Ok (Some qa)) /\ guardR op x).
    { simpl in Hd. destruct op; try discriminate; simpl; try (split; [|exact I]).
      - eauto.
      - apply omap_ok in Hd as [da [Ea Hd]]; subst d. dbin Hv. eauto.
      - apply omap_ok in Hd as [da [Ea Hd]]; subst d. dbin Hv. eauto.
      - apply omap_ok in Hd as [da [Ea Hd]]; subst d. dbin Hv. dbin H0. eauto.
      - apply omap_ok in Hd as [da [Ea Hd]]; subst d. dbin Hv. eauto.
      - apply omap_ok in Hd as [da [Ea Hd]]; subst d. dbin Hv. split; [eauto|].
        intros ->. apply div_defined in H1. simpl in H0. rewrite Ex in H0. simpl in H0.
        rewrite r_leb_refl in H0. simpl in H0. inversion H0. apply H1. subst. rewrite sqrt_0. lra.
      - apply omap_ok in Hd as [da [Ea Hd]]; subst d. dbin Hv. eauto.
      - apply omap_ok in Hd as [da [Ea Hd]]; subst d. dbin Hv. eauto. }
    destruct K as [[da [qa [Ea Eqa]]] Gd]. split; [eapply IH; eauto|]. eauto.
  - destruct A2 as [Al Ar].
    assert (K : exists dl dr ql qr, diff numR (DVar i) l = Ok dl /\ diff numR (DVar i) r = Ok dr /\
              eval numR dl v = Ok (Some ql) /\ eval numR dr v = Ok (Some qr)).
    { simpl in Hd. unfold mk2 in Hd.
      destruct op; try discriminate; apply both_ok in Hd as [dl [dr [El [Er Hd]]]]; inversion Hd; subst d; clear Hd.
      - dbin Hv. eauto 10.
      - dbin Hv. eauto 10.
      - dbin Hv. dbin H. dbin H0. eauto 10.
      - dbin Hv. dbin H. dbin H. dbin H2. eauto 10. }
    destruct K as [dl [dr [ql [qr [El [Er [Ql Qr]]]]]]].
    split; [eapply IHl|eapply IHr]; eauto.
Qed.

(** Derivatives by absent variables: shapes that simplification turns into the constant 0. *)
Inductive zsh : expr numR -> Prop :=
| z_0 : zsh (EConst (Some 0))
| z_plus : forall a b, zsh a -> zsh b -> zsh (EBin BPlus a b)
| z_minus : forall a b, zsh a -> zsh b -> zsh (EBin BMinus a b)
| z_multl : forall a b, zsh a -> zsh (EBin BMult a b)
| z_multr : forall a b, zsh b -> zsh (EBin BMult a b)
| z_div : forall a b, zsh a -> zsh (EBin BDiv a b).

Lemma pdiff_zsh : forall i v e, reg v e -> ~ occurs_var i e -> zsh (pdiff i e).
Proof.
  intros i v. induction e as [c|j|j t|op a IH|lo hi w a _ _ IH|op l r IHl IHr|es _] using expr_ind';
    simpl reg; try contradiction.
  - intros _ _. apply z_0.
  - intros _ H. simpl. destruct (N.eqb_spec i j); [|apply z_0].
    exfalso. apply H. subst. constructor.
  - intros [Ra D] H. assert (Z : zsh (pdiff i a)) by (apply IH; auto; intros Q; apply H; constructor; auto).
    destruct op; simpl in *; try contradiction; auto using zsh.
  - intros [[Rl Rr] D] H.
    assert (Zl : zsh (pdiff i l)) by (apply IHl; auto; intros Q; apply H; apply sub_l; auto).
    assert (Zr : zsh (pdiff i r)) by (apply IHr; auto; intros Q; apply H; apply sub_r; auto).
    destruct op; simpl in *; try contradiction; auto using zsh.
Qed.

Lemma zsh_rv : forall v e, zsh e -> reg v e -> rv v e = 0.
Proof.
  intros v e Z. induction Z; simpl; intros Rg; auto.
  - destruct Rg as [[A B] _]. rewrite IHZ1, IHZ2; auto. lra.
  - destruct Rg as [[A B] _]. rewrite IHZ1, IHZ2; auto. lra.
  - destruct Rg as [[A B] _]. rewrite IHZ; auto. lra.
  - destruct Rg as [[A B] _]. rewrite IHZ; auto. lra.
  - destruct Rg as [[A B] C]. rewrite IHZ; auto. field. auto.
Qed.

Lemma unwrap_rv : forall v e x, reg v e -> unwrap numR e = Ok x -> x = Some (rv v e).
Proof.
  intros v e x Rg U. pose proof (unwrap_eval numR e x U v) as E.
  rewrite (reg_eval _ _ Rg) in E. congruence.
Qed.

Lemma zsh_const : forall v e x, zsh e -> reg v e -> unwrap numR e = Ok x -> n_eq numR x (c0 numR) = true.
Proof.
  intros v e x Z Rg U. rewrite (unwrap_rv v e x Rg U). rewrite (zsh_rv v e Z Rg). apply r_eqb_refl.
Qed.

Lemma zsh_step : forall v e e', sstep numR e e' -> reg v e -> zsh e -> zsh e'.
Proof.
  intros v e e' S. induction S; intros Rg Z; auto; try (inversion Z; fail).
  - pose proof Z as Z0. destruct Rg as [[A B] C].
    pose proof (unwrap_rv v _ _ A H1) as E1. pose proof (unwrap_rv v _ _ B H2) as E2. subst x y.
    assert (E : eval numR (EBin op l r) v = Ok z).
    { simpl. rewrite (reg_eval _ _ A), (reg_eval _ _ B). exact H3. }
    rewrite (reg_eval v (EBin op l r)) in E by (simpl; auto). inversion E; subst z.
    change (zsh (EConst (Some (rv v (EBin op l r))))).
    rewrite (zsh_rv v (EBin op l r)); auto; [constructor|]. simpl; auto.
  - destruct Rg as [[A B] C]. inversion Z; subst. auto.
  - destruct Rg as [[A B] C]. inversion Z; subst. apply z_multr; auto.
  - apply z_0.
  - destruct Rg as [[A B] C]. inversion Z; subst; auto.
    rewrite (zsh_const v l x) in H2; auto. discriminate.
  - destruct Rg as [[A B] C].
    inversion Z; subst; try (rewrite (zsh_const v l x) in H3; auto; discriminate).
    apply z_multr; auto.
  - destruct Rg as [[A B] C]. destruct H; subst; inversion Z; subst; auto.
  - apply z_0.
  - destruct Rg as [[A B] C]. destruct H; subst; inversion Z; subst; auto.
    exfalso. match goal with Zr : zsh r |- _ => pose proof (zsh_const v r x Zr B H2) as Q end. rewrite H3 in Q by reflexivity. discriminate Q.
  - destruct Rg as [[A B] C].
    inversion Z; subst;
      try (match goal with Zr : zsh r |- _ => pose proof (zsh_const v r x Zr B H2) as Q end;
           rewrite H3 in Q by discriminate; discriminate Q); auto using zsh.
  - simpl in Rg. tauto.
  - destruct Rg as [[A B] C]. inversion Z; subst; auto using zsh.
Qed.

Lemma zsh_final : forall v e, zsh e -> reg v e -> can_simplify numR e = Ok false -> e = EConst (Some 0).
Proof.
  intros v e Z. induction Z; intros Rg F; auto; exfalso.
  all: destruct Rg as [[A B] C]; cbn [can_simplify] in F;
    destruct (is_constant numR a && is_constant numR b) eqn:Ec; [discriminate|].
  all: assert (O : forall x y : outcome bool, oor x y = Ok false -> x = Ok false /\ y = Ok false)
    by (intros [[]| |] y; simpl; intros; auto; discriminate).
  - apply O in F as [F0 F]. apply O in F as [F1 F]. apply O in F as [F2 F3].
    rewrite (IHZ1 A F2) in F0. unfold const_eq in F0. simpl in F0. rewrite r_eqb_refl in F0. discriminate.
  - apply O in F as [F0 F]. apply O in F as [F1 F]. apply O in F as [F2 F3].
    rewrite (IHZ1 A F2) in F0. unfold const_eq in F0. simpl in F0. rewrite r_eqb_refl in F0. discriminate.
  - apply O in F as [F0 F]. apply O in F as [F1 F]. apply O in F as [F2 F]. apply O in F as [F3 F].
    assert (V : oor (can_simplify numR a) (can_simplify numR b) = Ok false).
    { destruct a; try exact F; simpl in A; contradiction. }
    apply O in V as [V _].
    rewrite (IHZ A V) in F0. unfold const_eq in F0. simpl in F0. rewrite r_eqb_refl in F0. discriminate.
  - apply O in F as [F0 F]. apply O in F as [F1 F]. apply O in F as [F2 F]. apply O in F as [F3 F].
    assert (V : oor (can_simplify numR a) (can_simplify numR b) = Ok false).
    { destruct a; try exact F; simpl in A; contradiction. }
    apply O in V as [_ V].
    rewrite (IHZ B V) in F2. unfold const_eq in F2. simpl in F2. rewrite r_eqb_refl in F2. discriminate.
  - apply O in F as [F0 F]. apply O in F as [F1 F]. apply O in F as [F2 F3].
    rewrite (IHZ A F2) in F0. unfold const_eq in F0. simpl in F0. rewrite r_eqb_refl in F0. discriminate.
Qed.

Lemma sstep_reg : forall v e e', sstep numR e e' -> reg v e -> reg v e'.
Proof.
  intros v e e' S Rg. apply reg_av. apply reg_av in Rg.
  apply (sstep_value numR def _ lawsR guardR (fun op x y (E : x = y) => eq_ind x (fun z => guardR op x -> guardR op z) (fun h => h) y E) v e e' S Rg).
Qed.

Lemma zsh_top : forall v e, zsh e -> reg v e -> simplify_top numR e = Ok (EConst (Some 0)).
Proof.
  intros v e Z Rg. destruct (simplify_reg v e Rg) as [e' [E _]]. rewrite E. f_equal.
  revert Z Rg. apply (top_ind numR (fun e e' => zsh e -> reg v e -> e' = EConst (Some 0))) with (e := e); auto.
  - intros e0 F Z Rg. eapply zsh_final; eauto.
  - intros e0 e1 e2 _ S _ IH Z Rg. apply IH; [eapply zsh_step|eapply sstep_reg]; eauto.
Qed.

(** Mixed derivatives. *)
Lemma pdiff_comm : forall i j v e, reg v e ->
  rv v (pdiff j (pdiff i e)) = rv v (pdiff i (pdiff j e)).
Proof.
  intros i j v. pose proof ln10_nz.
  induction e as [c|k|k t|op a IH|lo hi w a _ _ IH|op l r IHl IHr|es _] using expr_ind';
    simpl reg; try contradiction.
  - reflexivity.
  - intros _. simpl. destruct (N.eqb i k), (N.eqb j k); reflexivity.
  - intros [Ra D]. specialize (IH Ra).
    destruct op; simpl in *; try contradiction; auto; rewrite ?IH; try ring.
    + field. auto.
    + assert (0 < sqrt (rv v a)) by (apply sqrt_lt_R0; auto). field. lra.
    + field. lra.
    + field. split; [lra|auto].
  - intros [[Rl Rr] D]. specialize (IHl Rl). specialize (IHr Rr).
    destruct op; simpl in *; try contradiction; rewrite ?IHl, ?IHr; auto; try ring.
    field. auto.
Qed.

(** Derivative of a simplified derivative. *)
Lemma diff_simplified : forall j v y e e', nth_error v (N.to_nat j) = Some (Some y) ->
  reg v e -> simplify_top numR e = Ok e' -> rv v (pdiff j e') = rv v (pdiff j e).
Proof.
  intros j v y e e' Hy Rg E.
  destruct (simplify_reg v e Rg) as [e1 [E1 [R1 V1]]]. rewrite E in E1. inversion E1; subst e1.
  apply (partial_unique e' v j y); [apply partial_of_reg; auto|].
  destruct (diff_main j v y e Hy Rg) as [Lo De].
  exists (fun t => rv (update v (N.to_nat j) (Some t)) e). split.
  - destruct (locally_delta _ _ Lo) as [delta [D H]]. exists delta. split; auto.
    intros t T. destruct (simplify_reg _ e (H t T)) as [e1 [E2 [R2 V2]]].
    rewrite E in E2. inversion E2; subst e1. pose proof (reg_eval _ _ R2) as Q. rewrite V2 in Q. exact Q.
  - apply is_derive_Reals. exact De.
Qed.
