(** binary64 satisfies the laws of RtValue.v on finite numbers (proofs only). *)
From Coq Require Import ZArith Reals List Bool Lra Lia.
From Flocq Require Import Core BinarySingleNaN.
From Verif Require Import Outcome Num RtModel RtSpec RtFacts RtStep RtTermination RtValue NumB64.
Local Open Scope R_scope.

Local Notation rnd := (round radix2 (SpecFloat.fexp 53 1024) (round_mode mode_NE)).
Local Existing Instance prec_pos.
Local Existing Instance prec_emax.

Lemma same_R : forall x y : f64, finite64 x -> same64 x y -> finite64 y /\ B2R x = B2R y.
Proof. intros x y F [->|[s [t [-> ->]]]]; auto. Qed.

Lemma zero_B2R : forall z : f64, is_finite z = true -> B2R z = 0 -> exists s, z = B754_zero s.
Proof.
  intros [s| | |s m ez Hz] F H; try discriminate; eauto. exfalso. simpl in H.
  apply eq_0_F2R in H. destruct s; discriminate.
Qed.

Lemma R_same : forall x y : f64, finite64 x -> finite64 y -> B2R x = B2R y -> same64 x y.
Proof.
  unfold finite64. intros x y Fx Fy E.
  destruct x as [s| | |s m ez Hz] eqn:Ex; try discriminate.
  - destruct (zero_B2R y Fy) as [t ->]; [rewrite <- E; auto|]. right; eauto.
  - destruct y as [t| | |t m' ez' Hz'] eqn:Ey; try discriminate.
    + destruct (zero_B2R (B754_finite s m ez Hz) Fx) as [t' K]; [rewrite E; auto|discriminate].
    + left. apply B2R_inj; auto.
Qed.

Lemma finite_overflow : forall (z : f64) s, is_finite z = true -> B2SF z = binary_overflow 53 1024 mode_NE s -> False.
Proof. intros z s F H. destruct z; simpl in *; discriminate. Qed.

Lemma plus_fin : forall x y : f64, finite64 x -> finite64 y ->
  (finite64 (Bplus mode_NE x y) <-> Rabs (rnd (B2R x + B2R y)) < bpow radix2 1024) /\
  (finite64 (Bplus mode_NE x y) -> B2R (Bplus mode_NE x y) = rnd (B2R x + B2R y)).
Proof.
  intros x y Fx Fy. pose proof (Bplus_correct 53 1024 _ _ mode_NE x y Fx Fy) as H.
  destruct (Rlt_bool_spec (Rabs (rnd (B2R x + B2R y))) (bpow radix2 1024)) as [L|L].
  - destruct H as [H1 [H2 _]]. unfold finite64. tauto.
  - destruct H as [H _]. split; [split|]; intros F; try lra; exfalso; eapply finite_overflow; eauto.
Qed.
Lemma minus_fin : forall x y : f64, finite64 x -> finite64 y ->
  (finite64 (Bminus mode_NE x y) <-> Rabs (rnd (B2R x - B2R y)) < bpow radix2 1024) /\
  (finite64 (Bminus mode_NE x y) -> B2R (Bminus mode_NE x y) = rnd (B2R x - B2R y)).
Proof.
  intros x y Fx Fy. pose proof (Bminus_correct 53 1024 _ _ mode_NE x y Fx Fy) as H.
  destruct (Rlt_bool_spec (Rabs (rnd (B2R x - B2R y))) (bpow radix2 1024)) as [L|L].
  - destruct H as [H1 [H2 _]]. unfold finite64. tauto.
  - destruct H as [H _]. split; [split|]; intros F; try lra; exfalso; eapply finite_overflow; eauto.
Qed.
Lemma mult_fin : forall x y : f64, finite64 x -> finite64 y ->
  (finite64 (Bmult mode_NE x y) <-> Rabs (rnd (B2R x * B2R y)) < bpow radix2 1024) /\
  (finite64 (Bmult mode_NE x y) -> B2R (Bmult mode_NE x y) = rnd (B2R x * B2R y)).
Proof.
  unfold finite64. intros x y Fx Fy. pose proof (Bmult_correct 53 1024 _ _ mode_NE x y) as H.
  destruct (Rlt_bool_spec (Rabs (rnd (B2R x * B2R y))) (bpow radix2 1024)) as [L|L].
  - destruct H as [H1 [H2 _]]. rewrite Fx, Fy in H2. simpl in H2. tauto.
  - split; [split|]; intros F; try lra; exfalso; eapply finite_overflow; eauto.
Qed.
Lemma div_fin : forall x y : f64, finite64 x -> finite64 y ->
  (finite64 (Bdiv mode_NE x y) <-> B2R y <> 0 /\ Rabs (rnd (B2R x / B2R y)) < bpow radix2 1024) /\
  (finite64 (Bdiv mode_NE x y) -> B2R (Bdiv mode_NE x y) = rnd (B2R x / B2R y)).
Proof.
  unfold finite64. intros x y Fx Fy.
  destruct (Req_dec (B2R y) 0) as [Z|NZ].
  - destruct (zero_B2R y Fy Z) as [t ->].
    assert (N : is_finite (Bdiv mode_NE x (B754_zero t)) = false) by (destruct x; try discriminate; reflexivity).
    rewrite N. split; [split|]; intros; try discriminate. destruct H; congruence.
  - pose proof (Bdiv_correct 53 1024 _ _ mode_NE x y NZ) as H.
    destruct (Rlt_bool_spec (Rabs (rnd (B2R x / B2R y))) (bpow radix2 1024)) as [L|L].
    + destruct H as [H1 [H2 _]]. rewrite Fx in H2. tauto.
    + split; [split|]; intros F; try lra; exfalso; eapply finite_overflow; eauto.
Qed.

Lemma rnd_id : forall y : f64, rnd (B2R y) = B2R y.
Proof. intros y. apply round_generic; [apply valid_rnd_round_mode|apply generic_format_B2R]. Qed.
Lemma rnd_opp_id : forall y : f64, rnd (- B2R y) = - B2R y.
Proof.
  intros y. apply round_generic; [apply valid_rnd_round_mode|].
  apply generic_format_opp. apply generic_format_B2R.
Qed.
Lemma rnd_0 : rnd 0 = 0.
Proof. apply round_0. apply valid_rnd_round_mode. Qed.
Lemma bpow_pos_ : 0 < bpow radix2 1024.
Proof. apply bpow_gt_0. Qed.

Lemma ofZ_small : forall lm z, z = 0%Z \/ z = 1%Z \/ z = (-1)%Z ->
  finite64 (n_of_Z (numB64 lm) z) /\ B2R (n_of_Z (numB64 lm) z) = IZR z.
Proof.
  intros lm z H. simpl.
  pose proof (binary_normalize_correct 53 1024 prec_pos prec_emax mode_NE z 0 false) as N.
  cbv zeta in N.
  assert (G : rnd (F2R (beta := radix2) {| Fnum := z; Fexp := 0 |}) = IZR z).
  { replace (F2R (beta := radix2) {| Fnum := z; Fexp := 0 |}) with (IZR z) by (unfold F2R; simpl; ring).
    apply round_generic; [apply valid_rnd_round_mode|].
    assert (G1 : generic_format radix2 (SpecFloat.fexp 53 1024) 1).
    { change 1 with (bpow radix2 0). apply generic_format_bpow.
      vm_compute. discriminate. }
    destruct H as [->|[->| ->]].
    - apply generic_format_0.
    - exact G1.
    - replace (-1) with (- (1)) by ring. apply generic_format_opp. exact G1. }
  rewrite G in N.
  rewrite Rlt_bool_true in N.
  - destruct N as [N1 [N2 _]]. split; auto.
  - apply Rle_lt_trans with 1.
    + destruct H as [->|[->| ->]]; unfold Rabs; destruct (Rcase_abs _); lra.
    + change 1 with (bpow radix2 0). apply bpow_lt. reflexivity.
Qed.

Ltac zz lm :=
  let F0 := fresh "F0" in let V0 := fresh "V0" in
  let F1 := fresh "F1" in let V1 := fresh "V1" in
  let Fm := fresh "Fm" in let Vm := fresh "Vm" in
  destruct (ofZ_small lm 0) as [F0 V0]; [auto|];
  destruct (ofZ_small lm 1) as [F1 V1]; [auto|];
  destruct (ofZ_small lm (-1)) as [Fm Vm]; [auto|].

Lemma laws64 : forall lm, zero_symmetric lm -> laws (numB64 lm) finite64 same64.
Proof.
  intros lm ZS. zz lm.
  assert (Sym : forall x y : f64, same64 x y -> same64 y x)
    by (intros x y [->|[s [t [-> ->]]]]; [left|right]; eauto).
  assert (BY : forall y : f64, Rabs (B2R y) < bpow radix2 1024) by (intros; apply abs_B2R_lt_emax).
  constructor.
  - intros x _. left; auto.
  - intros x y z [E1|[s [t [E1 E2]]]] [E3|[s' [t' [E3 E4]]]]; subst; [left; auto|right; eauto|right; eauto|right; eauto].
  - intros x y S F. apply (same_R x y F S).
  - intros op x x' y y' z Fx Fy Sx Sy E Fz.
    destruct (same_R _ _ Fx Sx) as [Fx' Ex]. destruct (same_R _ _ Fy Sy) as [Fy' Ey].
    destruct op; simpl in E; inversion E; subst z; clear E; eexists; (split; [reflexivity|]).
    + destruct (plus_fin _ _ Fx Fy) as [A1 A2]. destruct (plus_fin _ _ Fx' Fy') as [B1 B2].
      rewrite Ex, Ey in *. simpl. apply R_same; auto; [tauto|]. rewrite A2, B2; tauto.
    + destruct (minus_fin _ _ Fx Fy) as [A1 A2]. destruct (minus_fin _ _ Fx' Fy') as [B1 B2].
      rewrite Ex, Ey in *. simpl. apply R_same; auto; [tauto|]. rewrite A2, B2; tauto.
    + destruct (mult_fin _ _ Fx Fy) as [A1 A2]. destruct (mult_fin _ _ Fx' Fy') as [B1 B2].
      rewrite Ex, Ey in *. simpl. apply R_same; auto; [tauto|]. rewrite A2, B2; tauto.
    + destruct (div_fin _ _ Fx Fy) as [A1 A2]. destruct (div_fin _ _ Fx' Fy') as [B1 B2].
      rewrite Ex, Ey in *. simpl. apply R_same; auto; [tauto|]. rewrite A2, B2; tauto.
  - intros op x x' z Fx [->|[s [t [-> ->]]]] E Fz.
    + exists z. split; auto. left; auto.
    + assert (K : forall f, f = m_exp lm \/ f = m_sin lm \/ f = m_cos lm \/ f = m_tan lm \/ f = m_log lm \/ f = m_log10 lm ->
                same64 (f (B754_zero s)) (f (B754_zero t))).
      { intros f Hf. specialize (ZS f Hf). destruct s, t; auto; left; auto. }
      destruct op; simpl in E; inversion E; subst z; clear E; eexists; (split; [reflexivity|]); simpl;
        try (apply K; tauto); try (right; eauto).
  - intros x Fx E. simpl in E. rewrite Beqb_correct in E; auto.
    apply R_same; auto. revert E. case Req_bool_spec; intros; [assumption|discriminate].
  - intros x Fx E. simpl in E. rewrite Beqb_correct in E; auto.
    apply R_same; auto. revert E. case Req_bool_spec; intros; [assumption|discriminate].
  - intros y Fy. destruct (plus_fin _ _ F0 Fy) as [A1 A2]. rewrite V0, Rplus_0_l, rnd_id in *.
    assert (F : finite64 (Bplus mode_NE (n_of_Z (numB64 lm) 0) y)) by (apply A1; auto).
    apply R_same; auto.
  - intros y Fy. destruct (plus_fin _ _ Fy F0) as [A1 A2]. rewrite V0, Rplus_0_r, rnd_id in *.
    assert (F : finite64 (Bplus mode_NE y (n_of_Z (numB64 lm) 0))) by (apply A1; auto).
    apply R_same; auto.
  - intros y Fy. destruct (minus_fin _ _ F0 Fy) as [A1 A2]. destruct (mult_fin _ _ Fm Fy) as [B1 B2].
    rewrite V0, Vm in *. replace (0 - B2R y) with (- B2R y) in * by ring.
    replace (-1 * B2R y) with (- B2R y) in * by ring. rewrite rnd_opp_id, Rabs_Ropp in *.
    assert (FA : finite64 (Bminus mode_NE (n_of_Z (numB64 lm) 0) y)) by (apply A1; auto).
    assert (FB : finite64 (Bmult mode_NE (n_of_Z (numB64 lm) (-1)) y)) by (apply B1; auto).
    apply R_same; auto; simpl in *; rewrite A2, B2; auto.
  - exact Fm.
  - intros y Fy. destruct (minus_fin _ _ Fy F0) as [A1 A2]. rewrite V0, Rminus_0_r, rnd_id in *.
    assert (F : finite64 (Bminus mode_NE y (n_of_Z (numB64 lm) 0))) by (apply A1; auto).
    apply R_same; auto.
  - intros y Fy. destruct (mult_fin _ _ F0 Fy) as [A1 A2]. rewrite V0, Rmult_0_l, rnd_0, Rabs_R0 in *.
    assert (F : finite64 (Bmult mode_NE (n_of_Z (numB64 lm) 0) y)) by (apply A1; apply bpow_pos_).
    apply R_same; auto; simpl in *; rewrite A2; auto.
  - intros y Fy. destruct (mult_fin _ _ Fy F0) as [A1 A2]. rewrite V0, Rmult_0_r, rnd_0, Rabs_R0 in *.
    assert (F : finite64 (Bmult mode_NE y (n_of_Z (numB64 lm) 0))) by (apply A1; apply bpow_pos_).
    apply R_same; auto; simpl in *; rewrite A2; auto.
  - intros y Fy. destruct (mult_fin _ _ F1 Fy) as [A1 A2]. rewrite V1, Rmult_1_l, rnd_id in *.
    assert (F : finite64 (Bmult mode_NE (n_of_Z (numB64 lm) 1) y)) by (apply A1; auto).
    apply R_same; auto.
  - intros y Fy. destruct (mult_fin _ _ Fy F1) as [A1 A2]. rewrite V1, Rmult_1_r, rnd_id in *.
    assert (F : finite64 (Bmult mode_NE y (n_of_Z (numB64 lm) 1))) by (apply A1; auto).
    apply R_same; auto.
  - intros y Fy Fd. destruct (div_fin _ _ F0 Fy) as [A1 A2]. specialize (A2 Fd).
    unfold Rdiv in *. rewrite V0, Rmult_0_l, rnd_0 in *. apply R_same; auto; simpl in *; rewrite A2; auto.
  - intros y Fy. destruct (div_fin _ _ Fy F1) as [A1 A2]. unfold Rdiv in *. rewrite V1, Rinv_1, Rmult_1_r, rnd_id in *.
    assert (F : finite64 (Bdiv mode_NE y (n_of_Z (numB64 lm) 1))) by (apply A1; split; auto; lra).
    apply R_same; auto.
Qed.

Lemma simplify64 : forall lm, zero_symmetric lm -> forall v (e : expr (numB64 lm)) x,
  all_values (n := numB64 lm) finite64 v e -> eval (numB64 lm) e v = Ok x ->
  exists e' y, simplify_top (numB64 lm) e = Ok e' /\ all_values (n := numB64 lm) finite64 v e' /\ eval (numB64 lm) e' v = Ok y /\ same64 x y.
Proof.
  intros lm ZS v e x A E.
  destruct (simplify_top_value (numB64 lm) finite64 same64 (laws64 lm ZS) (fun _ _ => True) (fun _ _ _ _ _ => I) v e x
              (proj1 (av_all (numB64 lm) finite64 v e) A) E) as [e' [y [P [Q [S T]]]]].
  exists e', y. split; auto. split; auto. apply av_all. exact Q.
Qed.

(** Numeric equality of doubles. *)
Lemma num_equal64 : forall lm (c d : f64), is_nan c = false -> is_nan d = false ->
  (num_equal (numB64 lm) c d <-> same64 c d).
Proof.
  intros lm c d Nc Nd. unfold num_equal; simpl. split.
  - intros [A B].
    destruct (is_finite c) eqn:Fc; destruct (is_finite d) eqn:Fd.
    + rewrite Bleb_correct in A by auto. rewrite Bleb_correct in B by auto.
      apply R_same; auto. revert A B. case Rle_bool_spec; case Rle_bool_spec; intros; try discriminate. lra.
    + destruct d as [s|[]| |s m ez Hz]; try discriminate; destruct c as [s'|[]| |[] m' ez' Hz']; try discriminate.
    + destruct c as [s|[]| |s m ez Hz]; try discriminate; destruct d as [s'|[]| |[] m' ez' Hz']; try discriminate.
    + destruct c as [s|[]| |s m ez Hz]; try discriminate; destruct d as [s'|[]| |[] m' ez' Hz']; try discriminate;
        left; auto.
  - intros [->|[s [t [-> ->]]]].
    + destruct d as [s|[]| |s m ez Hz]; try discriminate; auto.
      rewrite Bleb_correct by auto. case Rle_bool_spec; intros; auto. lra.
    + destruct s, t; auto.
Qed.

Lemma equal_laws64 : forall lm, equal_laws (numB64 lm) (fun c : f64 => is_nan c = false).
Proof.
  intros lm. constructor.
  - intros c N. apply num_equal64; auto. left; auto.
  - intros c d Nc Nd H. apply num_equal64; auto. apply num_equal64 in H; auto.
    destruct H as [->|[s [t [-> ->]]]]; [left; auto|right; eauto].
  - intros c d e Nc Nd Ne H1 H2. apply num_equal64 in H1; auto. apply num_equal64 in H2; auto.
    apply num_equal64; auto.
    destruct H1 as [E1|[s [t [E1 E2]]]], H2 as [E3|[s' [t' [E3 E4]]]]; subst; [left; auto|right; eauto|right; eauto|right; eauto].
Qed.
