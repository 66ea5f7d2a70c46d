(** The real semantics satisfies the laws of RtValue.v (proofs only). *)
From Coq Require Import ZArith Reals List Bool Lra.
From Verif Require Import Outcome Num RtModel RtSpec RtFacts RtStep RtTermination RtValue NumR.
Local Open Scope R_scope.

Definition def (x : numR) : Prop := exists r, x = Some r.

Lemma r_eqb_true : forall a b, r_eqb a b = true <-> a = b.
Proof. unfold r_eqb; intros; destruct (Req_EM_T a b); split; congruence. Qed.
Lemma r_eqb_false : forall a b, r_eqb a b = false <-> a <> b.
Proof. unfold r_eqb; intros; destruct (Req_EM_T a b); split; congruence. Qed.
Lemma r_leb_true : forall a b, r_leb a b = true <-> a <= b.
Proof. unfold r_leb; intros; destruct (Rle_dec a b); split; try congruence; lra. Qed.
Lemma r_ltb_true : forall a b, r_ltb a b = true <-> a < b.
Proof. unfold r_ltb; intros; destruct (Rlt_dec a b); split; try congruence; lra. Qed.
Lemma r_eqb_refl : forall a, r_eqb a a = true.
Proof. intros; apply r_eqb_true; auto. Qed.
Lemma r_leb_refl : forall a, r_leb a a = true.
Proof. intros; apply r_leb_true; lra. Qed.

Ltac rcrush :=
  repeat match goal with
  | H : def ?x |- _ => destruct H as [? ?]; subst
  | H : Some _ = Some _ |- _ => inversion H; clear H; subst
  end; simpl in *.

Lemma lawsR : laws numR def (fun x y => x = y).
Proof.
  constructor; intros; subst; auto; rcrush.
  - eauto.
  - eauto.
  - unfold rel2 in H0. apply r_eqb_true in H0. subst; auto.
  - unfold rel2 in H0. apply r_eqb_true in H0. subst; auto.
  - unfold lift2, c0; simpl. f_equal; lra.
  - f_equal; lra.
  - f_equal; lra.
  - exists (-1). reflexivity.
  - f_equal; lra.
  - f_equal; lra.
  - f_equal; lra.
  - f_equal; lra.
  - f_equal; lra.
  - match goal with |- context [r_eqb ?y 0] => destruct (r_eqb y 0) eqn:E end; simpl in *;
      try discriminate.
    f_equal. apply r_eqb_false in E. field; auto.
  - destruct (r_eqb 1 0) eqn:E; simpl.
    + apply r_eqb_true in E. lra.
    + f_equal. field.
Qed.

(** Strictness: if the result is a number then all intermediate results are. *)
Lemma strict_b : forall op (x y : numR) z, b_apply numR op x y = Ok z -> def z -> def x /\ def y.
Proof.
  intros op [x|] [y|] z H [r K]; subst z; destruct op; simpl in H; try discriminate;
    unfold def; eauto.
Qed.
Lemma strict_u : forall op (x : numR) z, u_apply numR op x = Ok z -> def z -> def x.
Proof.
  intros op [x|] z H [r K]; subst z; destruct op; simpl in H; try discriminate;
    unfold def; eauto.
Qed.

Lemma av_real : forall v (e : expr numR) r, eval numR e v = Ok (Some r) -> all_values def v e.
Proof.
  intros v e r H. apply av_all. revert e r H.
  induction e as [c|i|i t|op a IH|lo hi w a _ _ IH|op l r IHl IHr|es _] using expr_ind';
    intros q H.
  - simpl. split; auto. exists (Some q). split; [auto|]. eexists; eauto.
  - split; auto. exists (Some q). split; [auto|]. eexists; eauto.
  - discriminate.
  - split; [exists (Some q); split; [auto|eexists; eauto]|].
    simpl in H. apply bind_ok in H as [x [E F]].
    destruct (strict_u _ _ _ F ltac:(eexists; eauto)) as [y ?]; subst. eauto.
  - simpl in H. oinv.
  - split; [exists (Some q); split; [auto|eexists; eauto]|].
    simpl in H. apply both_ok in H as [x [y [E [F G]]]].
    destruct (strict_b _ _ _ _ G ltac:(eexists; eauto)) as [[x' ?] [y' ?]]; subst.
    eauto.
  - discriminate.
Qed.

Lemma simplify_real : forall v (e : expr numR) r, eval numR e v = Ok (Some r) ->
  exists e', simplify_top numR e = Ok e' /\ eval numR e' v = Ok (Some r).
Proof.
  intros v e r H.
  destruct (simplify_top_value numR def _ lawsR (fun _ _ => True) (fun _ _ _ _ _ => I) v e _
              (proj1 (av_all numR def v e) (av_real _ _ _ H)) H)
    as [e' [y [A [B [C D]]]]]. subst. eauto.
Qed.
