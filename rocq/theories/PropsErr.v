(** Property C68: how far the double returned by an evaluation is from the exact value. *)
From Coq Require Import ZArith NArith Reals List Bool Lra Lia.
From Flocq Require Import Core BinarySingleNaN.
From Verif Require Import Outcome Num RtModel RtSpec RtFacts RtValue NumB64 NumB64Facts NumR ErrSpec ErrFacts.
Import ListNotations.
Local Open Scope R_scope.
Local Existing Instance prec_pos.
Local Existing Instance prec_emax.

(** C68.  Whatever bound [r] the rules of rounding error analysis give for [e] at [v], evaluation returns a
    double within [r] of the exact real value, as long as nothing overflows. *)
Theorem C68_evaluation_error :
  forall (lm : libm) (d : R), accurate lm d ->
  forall (e : expr f64) (v : list f64) (z r : R),
    analysed d v e z r -> all_values (n := numB64 lm) finite64 v e ->
    exists x : f64, eval (numB64 lm) e v = Ok x /\ eval numR (exact e) (exact_point v) = Ok (Some z) /\
      Rabs (B2R x - z) <= r.
Proof.
  intros lm d A e v z r H F. destruct (analysis lm d v A e z r H F) as [x [E [_ [Q B]]]]. exists x. auto.
Qed.
Print Assumptions C68_evaluation_error.

(** The simplified expression obeys the bound of the expression as written. *)
Theorem C68_simplified_expression_error :
  forall (lm : libm) (d : R), accurate lm d -> zero_symmetric lm ->
  forall (e : expr f64) (v : list f64) (z r : R),
    analysed d v e z r -> all_values (n := numB64 lm) finite64 v e ->
    exists (e' : expr f64) (y : f64), simplify_top (numB64 lm) e = Ok e' /\ eval (numB64 lm) e' v = Ok y /\
      Rabs (B2R y - z) <= r.
Proof.
  intros lm d A ZS e v z r H F. destruct (analysis lm d v A e z r H F) as [x [E [_ [_ B]]]].
  destruct (simplify64 lm ZS v e x F E) as [e' [y [P [_ [Q S]]]]]. exists e', y. split; [exact P|]. split; [exact Q|].
  destruct S as [<- | [s [t [-> ->]]]]; exact B.
Qed.
Print Assumptions C68_simplified_expression_error.

(** Both hypotheses on libm are met by the correctly rounded functions, with the unit roundoff. *)
Theorem C68_correctly_rounded_libm : accurate rounded_libm u64 /\ zero_symmetric rounded_libm.
Proof.
  split; [exact rounded_accurate|].
  intros f H. left. repeat (destruct H as [->|H]; [reflexivity|]). subst. reflexivity.
Qed.
Print Assumptions C68_correctly_rounded_libm.

(** sin(x0) * x0 + 1.5 at x0 = 1.5. *)
Definition e15 : f64 := binary_normalize 53 1024 prec_pos prec_emax mode_NE 3 (-1) false.
Example C68_case : forall lm, lm = rounded_libm ->
  let e := EBin BPlus (EBin BMult (EUn USin (EVar 0)) (EVar 0)) (EConst e15) in
  all_values (n := numB64 lm) finite64 [e15] e /\
  exists r, analysed u64 [e15] e (sin (B2R e15) * B2R e15 + B2R e15) r.
Proof.
  intros lm Hl. cbv zeta.
  assert (V : B2R e15 = 1.5) by (unfold e15; cbv; lra).
  assert (F0 : finite64 e15) by (vm_compute; reflexivity).
  set (s := m_sin lm e15).
  assert (Sb : Rabs (round radix2 (SpecFloat.fexp 53 1024) (round_mode mode_NE) (sin (B2R e15))) <= 1).
  { apply rnd_le; [apply Rabs_le, SIN_bound|]. change 1 with (bpow radix2 0). apply generic_format_bpow. vm_compute. discriminate. }
  assert (L1 : 1 < bpow radix2 1024) by (change 1 with (bpow radix2 0); apply bpow_lt; lia).
  assert (Fs : finite64 s).
  { unfold s. rewrite Hl. apply nearest_fin. lra. }
  assert (Vs : Rabs (B2R s) <= 1).
  { assert (Q : B2R s = round radix2 (SpecFloat.fexp 53 1024) (round_mode mode_NE) (sin (B2R e15))) by (unfold s in *; rewrite Hl in *; apply nearest_fin; exact Fs). rewrite Q. exact Sb. }
  assert (PB : Rabs (B2R s * B2R e15) <= bpow radix2 1).
  { rewrite Rabs_mult, V, (Rabs_pos_eq 1.5) by lra. simpl. pose proof (Rabs_pos (B2R s)). lra. }
  assert (Fp : finite64 (Bmult mode_NE s e15)).
  { apply mult_fin; auto. apply (rnd_small _ 1); [lia|exact PB]. }
  assert (Vp : Rabs (B2R (Bmult mode_NE s e15)) <= bpow radix2 1).
  { rewrite (proj2 (mult_fin _ _ Fs F0) Fp). apply rnd_le; [exact PB|]. apply generic_format_bpow. vm_compute. discriminate. }
  assert (Fq : finite64 (Bplus mode_NE (Bmult mode_NE s e15) e15)).
  { apply plus_fin; auto. apply (rnd_small _ 2); [lia|].
    eapply Rle_trans; [apply Rabs_triang|]. rewrite V, (Rabs_pos_eq 1.5) by lra. simpl in *. lra. }
  split.
  - intros t T.
    repeat match goal with
           | H : subterm _ _ |- _ => inversion H; subst; clear H
           end; (eexists; split; [reflexivity|]); assumption.
  - eexists. apply a_plus; [apply a_mult; [apply a_sin|]|]; try apply a_const; apply a_var; reflexivity.
Qed.

(** Polynomials: the error is at most (1 + u)^k - 1 times the sum of the absolute values of all terms,
    where k counts the roundings, provided the result is finite and no product underflows. *)
Theorem C68_polynomial_error :
  forall (lm : libm) (e : expr f64) (v : list f64) (x : f64),
    polynomial_tree e -> eval (numB64 lm) e v = Ok x -> finite64 x -> no_underflow lm v e ->
    exists z, eval numR (exact e) (exact_point v) = Ok (Some z) /\ Rabs z <= magnitude v e /\
      Rabs (B2R x - z) <= ((1 + u64) ^ roundings e - 1) * magnitude v e.
Proof. intros lm e v x P E X NU. exact (poly_bound lm v e P NU x E X). Qed.
Print Assumptions C68_polynomial_error.

(** x0 * x0 - 1.5 * x1 at (1.5, 1.5): three roundings deep, magnitude 4.5. *)
Example C68_polynomial_case :
  let e := EBin BMinus (EBin BMult (EVar 0) (EVar 0)) (EBin BMult (EConst e15) (EVar 1)) in
  polynomial_tree e /\ (exists x, eval (numB64 rounded_libm) e [e15; e15] = Ok x /\ finite64 x) /\
  no_underflow rounded_libm [e15; e15] e /\ roundings e = 2%nat /\ magnitude [e15; e15] e = 4.5.
Proof.
  cbv zeta. assert (V : B2R e15 = 1.5) by (unfold e15; cbv; lra).
  assert (F0 : finite64 e15) by (vm_compute; reflexivity).
  assert (FB : finite64 (Bmult mode_NE e15 e15)).
  { apply mult_fin; auto. apply (rnd_small _ 2); [lia|]. rewrite V, Rabs_pos_eq; simpl; lra. }
  assert (B0 : Rabs (B2R (Bmult mode_NE e15 e15)) <= bpow radix2 2).
  { rewrite (proj2 (mult_fin _ _ F0 F0) FB). apply rnd_le.
    - rewrite V, Rabs_pos_eq; simpl; lra.
    - apply generic_format_bpow. vm_compute. discriminate. }
  split; [cbn; tauto|]. split; [|split; [|split; [reflexivity|]]].
  - eexists. split; [reflexivity|]. apply minus_fin; auto. apply (rnd_small _ 3); [lia|].
    eapply Rle_trans; [apply Rabs_triang|]. rewrite Rabs_Ropp. simpl in *. lra.
  - intros a b x y S A B.
    assert (K : x = e15 /\ y = e15).
    { repeat match goal with
             | H : subterm _ _ |- _ => inversion H; subst; clear H
             end; split; [exact (ok_inj _ _ _ _ A eq_refl)|exact (ok_inj _ _ _ _ B eq_refl)|
                          exact (ok_inj _ _ _ _ A eq_refl)|exact (ok_inj _ _ _ _ B eq_refl)]. }
    destruct K as [-> ->]. right. rewrite V, Rabs_pos_eq by lra.
    apply Rle_trans with (bpow radix2 0); [apply bpow_le; lia|simpl; lra].
  - cbn [magnitude nth_error N.to_nat Pos.to_nat Pos.iter_op]. change (Pos.to_nat 1) with 1%nat. cbn [nth_error].
    rewrite V, Rabs_pos_eq by lra. lra.
Qed.

(** Two ways of writing the same polynomial give values within the sum of their bounds. *)
Theorem C68_rearranged_polynomial_error :
  forall (lm : libm) (e1 e2 : expr f64) (v : list f64) (x1 x2 : f64),
    polynomial_tree e1 -> polynomial_tree e2 ->
    eval (numB64 lm) e1 v = Ok x1 -> eval (numB64 lm) e2 v = Ok x2 -> finite64 x1 -> finite64 x2 ->
    no_underflow lm v e1 -> no_underflow lm v e2 ->
    eval numR (exact e1) (exact_point v) = eval numR (exact e2) (exact_point v) ->
    Rabs (B2R x1 - B2R x2) <= ((1 + u64) ^ roundings e1 - 1) * magnitude v e1
                            + ((1 + u64) ^ roundings e2 - 1) * magnitude v e2.
Proof.
  intros lm e1 e2 v x1 x2 P1 P2 E1 E2 F1 F2 N1 N2 Q.
  destruct (poly_bound lm v e1 P1 N1 x1 E1 F1) as [z1 [Z1 [_ B1]]].
  destruct (poly_bound lm v e2 P2 N2 x2 E2 F2) as [z2 [Z2 [_ B2]]].
  pose proof (eq_trans (eq_sym Z1) (eq_trans Q Z2)) as K. injection K as <-.
  replace (B2R x1 - B2R x2) with ((B2R x1 - z1) + - (B2R x2 - z1)) by ring.
  eapply Rle_trans; [apply Rabs_triang|]. rewrite Rabs_Ropp. unfold pw in *. lra.
Qed.
Print Assumptions C68_rearranged_polynomial_error.

(** The bound is relative to the terms, not to the result: (x0 + 1) - x0 at 2^53 is 0 instead of 1. *)
Definition big64 : f64 := binary_normalize 53 1024 prec_pos prec_emax mode_NE 1 53 false.
Theorem C68_error_relative_to_the_result_refuted :
  forall lm : libm, exists (e : expr f64) (v : list f64) (x : f64) (z : R),
    polynomial_tree e /\ roundings e = 2%nat /\ eval (numB64 lm) e v = Ok x /\ finite64 x /\
    eval numR (exact e) (exact_point v) = Ok (Some z) /\ z <> 0 /\ Rabs (B2R x - z) = Rabs z.
Proof.
  intros lm. exists (EBin BMinus (EBin BPlus (EVar 0) (EConst (c1 (numB64 lm)))) (EVar 0)), [big64], (B754_zero false), 1.
  split; [cbn; tauto|]. split; [reflexivity|]. split; [vm_compute; reflexivity|]. split; [reflexivity|]. split.
  - assert (V : B2R (c1 (numB64 lm)) = 1) by (cbv; lra).
    refine (eq_trans (eq_refl : _ = Ok (Some (B2R big64 + B2R (c1 (numB64 lm)) - B2R big64))) _).
    rewrite V. f_equal. f_equal. ring.
  - split; [lra|]. simpl. rewrite Rminus_0_l, Rabs_Ropp. reflexivity.
Qed.
Print Assumptions C68_error_relative_to_the_result_refuted.

(** Without [no_underflow] the closed form is false: x0 * x0 at 2^-600 is 0. *)
Definition small64 : f64 := binary_normalize 53 1024 prec_pos prec_emax mode_NE 1 (-600) false.
Theorem C68_underflow_refuted :
  forall lm : libm, exists (e : expr f64) (v : list f64) (x : f64) (z : R),
    polynomial_tree e /\ eval (numB64 lm) e v = Ok x /\ finite64 x /\
    eval numR (exact e) (exact_point v) = Ok (Some z) /\
    ((1 + u64) ^ roundings e - 1) * magnitude v e < Rabs (B2R x - z).
Proof.
  intros lm. exists (EBin BMult (EVar 0) (EVar 0)), [small64], (B754_zero false), (B2R small64 * B2R small64).
  split; [cbn; tauto|]. split; [vm_compute; reflexivity|]. split; [reflexivity|]. split; [reflexivity|].
  assert (P : 0 < B2R small64) by (apply F2R_gt_0; reflexivity).
  cbn [magnitude roundings nth_error N.to_nat pow B2R Nat.add]. rewrite Rminus_0_l, Rabs_Ropp, Rabs_mult.
  assert (M : 0 < Rabs (B2R small64) * Rabs (B2R small64)) by (apply Rmult_lt_0_compat; apply Rabs_pos_lt; lra).
  assert (U : u64 < 1) by (change 1 with (bpow radix2 0); apply bpow_lt; lia).
  replace ((1 + u64) * 1 - 1) with u64 by ring.
  pose proof (Rmult_lt_compat_r _ _ _ M U). lra.
Qed.
Print Assumptions C68_underflow_refuted.
