(** Rounding error analysis (proofs only). *)
From Coq Require Import ZArith NArith Reals List Bool Lra Lia.
From Flocq Require Import Core BinarySingleNaN Relative Plus_error Div_sqrt_error.
From Verif Require Import Outcome Num RtModel RtSpec RtFacts RtValue NumB64 NumB64Facts NumR ErrSpec.
Import ListNotations.
Local Open Scope R_scope.

Local Notation rnd := (round radix2 (SpecFloat.fexp 53 1024) (round_mode mode_NE)).
Local Existing Instance prec_pos.
Local Existing Instance prec_emax.

Lemma u_pos : 0 < u64.
Proof. apply bpow_gt_0. Qed.
Lemma tiny_pos : 0 < tiny64.
Proof. apply bpow_gt_0. Qed.

Lemma half_u : / 2 * bpow radix2 (- (53) + 1) = u64.
Proof. change (- (53) + 1)%Z with (-53 + 1)%Z. rewrite bpow_plus. unfold u64. simpl (bpow radix2 1). lra. Qed.
Lemma half_tiny : / 2 * bpow radix2 (-1074) = tiny64.
Proof. change (-1074)%Z with (-1075 + 1)%Z. rewrite bpow_plus. unfold tiny64. simpl (bpow radix2 1). lra. Qed.

Lemma round_err : forall x, Rabs (rnd x - x) <= u64 * Rabs x + tiny64.
Proof.
  intros x.
  destruct (error_N_FLT radix2 (-1074) 53 eq_refl (fun x => negb (Z.even x)) x) as [eps [eta [E [T [_ Q]]]]].
  rewrite half_u in E. rewrite half_tiny in T.
  change (round radix2 (FLT_exp (-1074) 53) (Znearest (fun x : Z => negb (Z.even x))) x) with (rnd x) in Q.
  rewrite Q. replace (x * (1 + eps) + eta - x) with (eps * x + eta) by ring.
  eapply Rle_trans; [apply Rabs_triang|]. rewrite Rabs_mult.
  pose proof (Rabs_pos x). pose proof (Rmult_le_compat_r (Rabs x) _ _ H E). lra.
Qed.

Lemma round_err_normal : forall x, x = 0 \/ bpow radix2 (-1022) <= Rabs x -> Rabs (rnd x - x) <= u64 * Rabs x.
Proof.
  intros x [-> | H].
  - rewrite round_0 by (apply valid_rnd_round_mode). rewrite Rminus_0_r, Rabs_R0. lra.
  - rewrite <- half_u.
    exact (relative_error_N_FLT radix2 (-1074) 53 eq_refl (fun x => negb (Z.even x)) x H).
Qed.

Lemma plus_err : forall x y : f64, Rabs (rnd (B2R x + B2R y) - (B2R x + B2R y)) <= u64 * Rabs (B2R x + B2R y).
Proof.
  intros x y.
  destruct (FLT_plus_error_N_ex radix2 (-1074) 53 (fun x => negb (Z.even x)) (B2R x) (B2R y)
    (generic_format_B2R 53 1024 x) (generic_format_B2R 53 1024 y)) as [eps [E Q]].
  change (round radix2 (FLT_exp (-1074) 53) (Znearest (fun x : Z => negb (Z.even x))) (B2R x + B2R y))
    with (rnd (B2R x + B2R y)) in Q.
  rewrite Q. replace ((B2R x + B2R y) * (1 + eps) - (B2R x + B2R y)) with (eps * (B2R x + B2R y)) by ring.
  rewrite Rabs_mult. apply Rmult_le_compat_r; [apply Rabs_pos|].
  eapply Rle_trans; [exact E|]. unfold u_ro. rewrite half_u. pose proof u_pos.
  apply (Rmult_le_reg_r (1 + u64)); [lra|]. unfold Rdiv. rewrite Rmult_assoc, Rinv_l by lra. nra.
Qed.
Lemma minus_err : forall x y : f64, Rabs (rnd (B2R x - B2R y) - (B2R x - B2R y)) <= u64 * Rabs (B2R x - B2R y).
Proof.
  intros x y. pose proof (plus_err x (Bopp y)) as H. rewrite B2R_Bopp in H. exact H.
Qed.

Lemma sqrt_err : forall x : f64, Rabs (rnd (sqrt (B2R x)) - sqrt (B2R x)) <= u64 * Rabs (sqrt (B2R x)).
Proof.
  intros x.
  destruct (sqrt_error_N_FLT_ex radix2 53 (fun x => negb (Z.even x)) eq_refl (-1074) ltac:(lia) (B2R x)
    (generic_format_B2R 53 1024 x)) as [eps [E Q]].
  change (round radix2 (FLT_exp (-1074) 53) (Znearest (fun x : Z => negb (Z.even x))) (sqrt (B2R x)))
    with (rnd (sqrt (B2R x))) in Q.
  rewrite Q. replace (sqrt (B2R x) * (1 + eps) - sqrt (B2R x)) with (eps * sqrt (B2R x)) by ring.
  rewrite Rabs_mult. apply Rmult_le_compat_r; [apply Rabs_pos|].
  eapply Rle_trans; [exact E|]. unfold u_ro. rewrite half_u. pose proof u_pos as U.
  assert (S : sqrt (1 + 2 * u64) <= 1 + u64).
  { rewrite <- (sqrt_Rsqr (1 + u64)) by lra. apply sqrt_le_1_alt. unfold Rsqr. nra. }
  assert (S1 : 1 <= sqrt (1 + 2 * u64)) by (rewrite <- sqrt_1 at 1; apply sqrt_le_1_alt; lra).
  assert (I : / (1 + u64) <= 1 / sqrt (1 + 2 * u64)).
  { unfold Rdiv. rewrite Rmult_1_l. apply Rinv_le_contravar; lra. }
  assert (J : 1 - u64 <= / (1 + u64)).
  { apply (Rmult_le_reg_r (1 + u64)); [lra|]. rewrite Rinv_l by lra. nra. }
  lra.
Qed.

(** Rounding after an operation. *)
Lemma after_ok : forall d s z t x y, 0 <= d -> Rabs (x - z) <= t -> Rabs (y - x) <= d * Rabs x + s ->
  Rabs (y - z) <= after d s z t.
Proof.
  intros d s z t x y D H K. unfold after.
  replace (y - z) with ((y - x) + (x - z)) by ring. eapply Rle_trans; [apply Rabs_triang|].
  assert (X : Rabs x <= Rabs z + t).
  { replace x with (z + (x - z)) by ring. eapply Rle_trans; [apply Rabs_triang|]. lra. }
  pose proof (Rmult_le_compat_l d _ _ D X). lra.
Qed.

Lemma mult_near : forall x y x' y' dx dy, Rabs (x' - x) <= dx -> Rabs (y' - y) <= dy ->
  Rabs (x' * y' - x * y) <= Rabs x * dy + Rabs y * dx + dx * dy.
Proof.
  intros x y x' y' dx dy X Y.
  replace (x' * y' - x * y) with (x * (y' - y) + y * (x' - x) + (x' - x) * (y' - y)) by ring.
  eapply Rle_trans; [apply Rabs_triang|]. apply Rplus_le_compat.
  - eapply Rle_trans; [apply Rabs_triang|]. rewrite !Rabs_mult.
    apply Rplus_le_compat; apply Rmult_le_compat_l; auto using Rabs_pos.
  - rewrite Rabs_mult. apply Rmult_le_compat; auto using Rabs_pos.
Qed.

Lemma div_near : forall x y x' y' dx dy, Rabs (x' - x) <= dx -> Rabs (y' - y) <= dy -> dy < Rabs y ->
  y <> 0 /\ y' <> 0 /\ Rabs (x' / y' - x / y) <= (dx + Rabs (x / y) * dy) / (Rabs y - dy).
Proof.
  intros x y x' y' dx dy X Y L.
  assert (P : 0 <= dy) by (eapply Rle_trans; [apply Rabs_pos|exact Y]).
  assert (NY : y <> 0) by (intros ->; rewrite Rabs_R0 in L; lra).
  assert (B : Rabs y - dy <= Rabs y').
  { pose proof (Rabs_triang_inv y (y - y')) as T. replace (y - (y - y')) with y' in T by ring.
    rewrite (Rabs_minus_sym y y') in T. lra. }
  assert (NY' : y' <> 0) by (intros ->; rewrite Rabs_R0 in B; lra).
  split; [exact NY|]. split; [exact NY'|].
  replace (x' / y' - x / y) with (((x' - x) - x / y * (y' - y)) * / y') by (field; auto).
  rewrite Rabs_mult. unfold Rdiv at 2. apply Rmult_le_compat; try apply Rabs_pos.
  - eapply Rle_trans; [apply Rabs_triang|]. rewrite Rabs_Ropp, Rabs_mult.
    apply Rplus_le_compat; [exact X|]. apply Rmult_le_compat_l; [apply Rabs_pos|exact Y].
  - rewrite Rabs_inv. apply Rinv_le_contravar; lra.
Qed.

Lemma sqrt_near : forall x x' r, Rabs (x' - x) <= r -> 0 < x -> 0 <= x' -> Rabs (sqrt x' - sqrt x) <= r / sqrt x.
Proof.
  intros x x' r H X X'. pose proof (sqrt_lt_R0 x X) as S. pose proof (sqrt_pos x') as S'.
  replace (sqrt x' - sqrt x) with ((x' - x) * / (sqrt x' + sqrt x)).
  - rewrite Rabs_mult. unfold Rdiv. apply Rmult_le_compat; auto using Rabs_pos.
    rewrite Rabs_inv, (Rabs_pos_eq (_ + _)) by lra. apply Rinv_le_contravar; lra.
  - rewrite <- (sqrt_sqrt x') at 1 by exact X'. rewrite <- (sqrt_sqrt x) at 1 by lra. field. lra.
Qed.

Lemma lipschitz_1 : forall f f', (forall x, derivable_pt_lim f x (f' x)) -> (forall x, Rabs (f' x) <= 1) ->
  forall x x', Rabs (f x' - f x) <= Rabs (x' - x).
Proof.
  intros f f' D B x x'. destruct (MVT_abs f f' x x') as [c [E _]]; [intros; apply D|].
  rewrite E. pose proof (B c). pose proof (Rabs_pos (x' - x)). nra.
Qed.
Lemma sin_near : forall x x' r, Rabs (x' - x) <= r -> Rabs (sin x' - sin x) <= r.
Proof.
  intros x x' r H. eapply Rle_trans; [|exact H]. apply (lipschitz_1 sin cos).
  - exact derivable_pt_lim_sin.
  - intros y. apply Rabs_le. apply COS_bound.
Qed.
Lemma cos_near : forall x x' r, Rabs (x' - x) <= r -> Rabs (cos x' - cos x) <= r.
Proof.
  intros x x' r H. eapply Rle_trans; [|exact H]. apply (lipschitz_1 cos (fun y => - sin y)).
  - exact derivable_pt_lim_cos.
  - intros y. rewrite Rabs_Ropp. apply Rabs_le. apply SIN_bound.
Qed.

Lemma exp_near : forall x x' r, Rabs (x' - x) <= r -> Rabs (exp x' - exp x) <= exp x * (exp r - 1).
Proof.
  intros x x' r H.
  replace (exp x' - exp x) with (exp x * (exp (x' - x) - 1)).
  2:{ unfold Rminus at 2. rewrite exp_plus, exp_Ropp. field. pose proof (exp_pos x). lra. }
  rewrite Rabs_mult, (Rabs_pos_eq (exp x)) by (left; apply exp_pos).
  apply Rmult_le_compat_l; [left; apply exp_pos|].
  assert (B : - r <= x' - x <= r) by (apply Rabs_le_inv; exact H).
  apply Rabs_le. split.
  - pose proof (exp_ineq1_le (x' - x)). pose proof (exp_ineq1_le r). lra.
  - assert (exp (x' - x) <= exp r); [|lra]. destruct (proj2 B) as [L|L]; [left; apply exp_increasing; exact L|right; f_equal; exact L].
Qed.

Lemma ln_ineq : forall y, 0 < y -> ln y <= y - 1.
Proof.
  intros y Y. pose proof (exp_ineq1_le (y - 1)). rewrite <- (ln_exp (y - 1)).
  destruct (Rle_lt_or_eq_dec y (exp (y - 1))) as [L|L]; [lra| |].
  - left. apply ln_increasing; assumption.
  - right. f_equal. exact L.
Qed.
Lemma ln_near : forall x x' r, Rabs (x' - x) <= r -> r < x -> 0 < x' /\ Rabs (ln x' - ln x) <= r / (x - r).
Proof.
  intros x x' r H L. assert (R0 : 0 <= r) by (eapply Rle_trans; [apply Rabs_pos|exact H]).
  assert (B : - r <= x' - x <= r) by (apply Rabs_le_inv; exact H).
  assert (X' : x - r <= x') by lra. split; [lra|].
  assert (G : forall a b, 0 < a -> 0 < b -> x - r <= b -> a - b <= r -> ln a - ln b <= r / (x - r)).
  { intros a b A B0 LB D. replace (ln a - ln b) with (ln (a / b)) by (unfold Rdiv; rewrite ln_mult, ln_Rinv by (try apply Rinv_0_lt_compat; assumption); ring).
    eapply Rle_trans; [apply ln_ineq; apply Rdiv_lt_0_compat; assumption|].
    replace (a / b - 1) with ((a - b) * / b) by (field; lra).
    destruct (Rle_dec 0 (a - b)) as [P|P].
    - unfold Rdiv. apply Rmult_le_compat; try assumption; [left; apply Rinv_0_lt_compat; lra|].
      apply Rinv_le_contravar; lra.
    - assert (0 < / b) by (apply Rinv_0_lt_compat; lra).
      assert (0 <= r / (x - r)) by (apply Rmult_le_pos; [lra|left; apply Rinv_0_lt_compat; lra]). nra. }
  apply Rabs_le. split.
  - assert (K : ln x - ln x' <= r / (x - r)) by (apply G; lra). lra.
  - apply G; lra.
Qed.

Lemma tan_near : forall x x' r, Rabs (x' - x) <= r -> r < Rabs (cos x) ->
  cos x <> 0 /\ cos x' <> 0 /\ Rabs (tan x' - tan x) <= r / (Rabs (cos x) * (Rabs (cos x) - r)).
Proof.
  intros x x' r H L. assert (R0 : 0 <= r) by (eapply Rle_trans; [apply Rabs_pos|exact H]).
  pose proof (cos_near x x' r H) as C.
  assert (B : Rabs (cos x) - r <= Rabs (cos x')).
  { pose proof (Rabs_triang_inv (cos x) (cos x - cos x')) as T. replace (cos x - (cos x - cos x')) with (cos x') in T by ring.
    rewrite (Rabs_minus_sym (cos x) (cos x')) in T. lra. }
  assert (N : cos x <> 0) by (intros E; rewrite E, Rabs_R0 in L; lra).
  assert (N' : cos x' <> 0) by (intros E; rewrite E, Rabs_R0 in B; lra).
  split; [exact N|]. split; [exact N'|].
  replace (tan x' - tan x) with (sin (x' - x) * / (cos x * cos x')).
  - rewrite Rabs_mult, Rabs_inv, Rabs_mult. unfold Rdiv. apply Rmult_le_compat; auto using Rabs_pos.
    + left. apply Rinv_0_lt_compat. apply Rmult_lt_0_compat; apply Rabs_pos_lt; assumption.
    + pose proof (sin_near 0 (x' - x) r) as S. rewrite sin_0, !Rminus_0_r in S. exact (S H).
    + apply Rinv_le_contravar; [apply Rmult_lt_0_compat; lra|]. apply Rmult_le_compat_l; [apply Rabs_pos|exact B].
  - rewrite sin_minus. unfold tan. field. auto.
Qed.

Lemma var_gen : forall (n : num) (v : list n) i x, nth_error v (N.to_nat i) = Some x -> eval n (EVar i) v = Ok x.
Proof.
  intros n v i x H. cbn [eval].
  assert (L : (N.to_nat i < length v)%nat) by (apply nth_error_Some; congruence).
  destruct (N.leb_spec (N.of_nat (length v)) i) as [K|K]; [lia|]. rewrite H. reflexivity.
Qed.

Lemma un_gen : forall (n : num) (v : list n) op a x y, eval n a v = Ok x -> u_apply n op x = Ok y ->
  eval n (EUn op a) v = Ok y.
Proof. intros n v op a x y H K. cbn [eval]. rewrite H. exact K. Qed.
Lemma bin_gen : forall (n : num) (v : list n) op a b x y z, eval n a v = Ok x -> eval n b v = Ok y -> b_apply n op x y = Ok z ->
  eval n (EBin op a b) v = Ok z.
Proof. intros n v op a b x y z H K L. cbn [eval]. rewrite H, K. exact L. Qed.
Lemma some_if : forall (b : bool) (r : R), b = true -> Ok (if b then Some r else None) = Ok (Some r).
Proof. intros b r ->. reflexivity. Qed.
Lemma ok_inj : forall (T : Type) (o : outcome T) x y, o = Ok x -> o = Ok y -> x = y.
Proof. intros T o x y -> H. injection H as H. exact H. Qed.

Section Main.
Context (lm : libm) (d : R) (v : list f64).
Context (A : accurate lm d).
Notation n := (numB64 lm).
Notation finite := (all_values (n := n) finite64 v).

Lemma fin_sub : forall s e, finite e -> subterm s e -> finite s.
Proof.
  intros s e F S t T. apply F. clear F. induction S; auto.
  - apply sub_un; auto.
  - apply sub_lo; auto.
  - apply sub_hi; auto.
  - apply sub_body; auto.
  - apply sub_l; auto.
  - apply sub_r; auto.
  - eapply sub_vec; eauto.
Qed.

Lemma exact_var : forall i x, nth_error v (N.to_nat i) = Some x -> eval numR (EVar i) (exact_point v) = Ok (Some (B2R x)).
Proof.
  intros i x H. apply (var_gen numR). exact (map_nth_error (fun x : f64 => Some (B2R x)) _ v H).
Qed.
Lemma eval_var : forall i x, nth_error v (N.to_nat i) = Some x -> eval n (EVar i) v = Ok x.
Proof. intros i x H. apply (var_gen n). exact H. Qed.

Lemma r_eqb_false : forall a b, a <> b -> r_eqb a b = false.
Proof. intros a b H. unfold r_eqb. destruct (Req_EM_T a b); [contradiction|reflexivity]. Qed.
Lemma r_leb_true : forall a b, a <= b -> r_leb a b = true.
Proof. intros a b H. unfold r_leb. destruct (Rle_dec a b); [reflexivity|contradiction]. Qed.
Lemma r_ltb_true : forall a b, a < b -> r_ltb a b = true.
Proof. intros a b H. unfold r_ltb. destruct (Rlt_dec a b); [reflexivity|contradiction]. Qed.

Lemma analysis : forall e z r, analysed d v e z r -> finite e ->
  exists x, eval n e v = Ok x /\ finite64 x /\ eval numR (exact e) (exact_point v) = Ok (Some z) /\ Rabs (B2R x - z) <= r.
Proof.
  destruct A as [D0 AC].
  assert (BIN : forall op a b, finite (EBin op a b) -> finite a /\ finite b).
  { intros op a b F. split; apply (fin_sub _ (EBin op a b) F); [apply sub_l|apply sub_r]; constructor. }
  assert (UN : forall op a, finite (EUn op a) -> finite a).
  { intros op a F. apply (fin_sub _ (EUn op a) F). apply sub_un. constructor. }
  assert (U0 : 0 <= u64) by (left; apply u_pos).
  intros e z r H. induction H; intros F.
  - (* const *) exists c. destruct (F _ (sub_refl _)) as [x [E X]]. injection E as <-.
    split; [reflexivity|]. split; [exact X|]. split; [reflexivity|]. rewrite Rminus_eq_0, Rabs_R0. lra.
  - (* var *) exists x. destruct (F _ (sub_refl _)) as [y [E Y]]. pose proof (ok_inj _ _ _ _ E (eval_var i x H)) as ->.
    split; [exact (eval_var i x H)|]. split; [exact Y|]. split; [exact (exact_var i x H)|]. rewrite Rminus_eq_0, Rabs_R0. lra.
  - (* id *) destruct (IHanalysed (UN _ _ F)) as [x [E [X [Q B]]]]. exists x.
    split; [exact (un_gen n v UId _ _ _ E eq_refl)|]. split; [exact X|].
    split; [exact (un_gen numR _ UId _ _ _ Q eq_refl)|exact B].
  - (* fabs *) destruct (IHanalysed (UN _ _ F)) as [x [E [X [Q B]]]]. destruct (F _ (sub_refl _)) as [y [E' Y]].
    pose proof (un_gen n v UFabs _ _ _ E eq_refl) as E2. pose proof (ok_inj _ _ _ _ E' E2) as ->.
    eexists. split; [exact E2|]. split; [exact Y|].
    split; [apply (un_gen numR _ UFabs _ _ _ Q); cbn [u_apply numR n_fabs n_exp n_sin n_cos n_tan n_log n_log10 n_sqrt lift1]; reflexivity|cbn [numB64 n_fabs]]. rewrite B2R_Babs.
    eapply Rle_trans; [apply Rabs_triang_inv2|exact B].
  - (* plus *) destruct (BIN _ _ _ F) as [Fa Fb].
    destruct (IHanalysed1 Fa) as [x' [E1 [X1 [Q1 B1]]]]. destruct (IHanalysed2 Fb) as [y' [E2 [X2 [Q2 B2]]]].
    destruct (F _ (sub_refl _)) as [w [E' W]].
    pose proof (bin_gen n v BPlus _ _ _ _ _ E1 E2 eq_refl) as E3. pose proof (ok_inj _ _ _ _ E' E3) as ->.
    eexists. split; [exact E3|]. split; [exact W|].
    split; [apply (bin_gen numR _ BPlus _ _ _ _ _ Q1 Q2); cbn [b_apply numR n_add n_sub n_mul n_div lift2]; reflexivity|cbn [numB64 n_fabs n_exp n_sin n_cos n_tan n_log n_log10 n_sqrt n_add n_sub n_mul n_div]].
    rewrite (proj2 (plus_fin x' y' X1 X2) W).
    apply (after_ok _ _ _ _ (B2R x' + B2R y')); [exact U0| |pose proof (plus_err x' y'); lra].
    replace (B2R x' + B2R y' - (x + y)) with ((B2R x' - x) + (B2R y' - y)) by ring.
    eapply Rle_trans; [apply Rabs_triang|lra].
  - (* minus *) destruct (BIN _ _ _ F) as [Fa Fb].
    destruct (IHanalysed1 Fa) as [x' [E1 [X1 [Q1 B1]]]]. destruct (IHanalysed2 Fb) as [y' [E2 [X2 [Q2 B2]]]].
    destruct (F _ (sub_refl _)) as [w [E' W]].
    pose proof (bin_gen n v BMinus _ _ _ _ _ E1 E2 eq_refl) as E3. pose proof (ok_inj _ _ _ _ E' E3) as ->.
    eexists. split; [exact E3|]. split; [exact W|].
    split; [apply (bin_gen numR _ BMinus _ _ _ _ _ Q1 Q2); cbn [b_apply numR n_add n_sub n_mul n_div lift2]; reflexivity|cbn [numB64 n_fabs n_exp n_sin n_cos n_tan n_log n_log10 n_sqrt n_add n_sub n_mul n_div]].
    rewrite (proj2 (minus_fin x' y' X1 X2) W).
    apply (after_ok _ _ _ _ (B2R x' - B2R y')); [exact U0| |pose proof (minus_err x' y'); lra].
    replace (B2R x' - B2R y' - (x - y)) with ((B2R x' - x) + - (B2R y' - y)) by ring.
    eapply Rle_trans; [apply Rabs_triang|]. rewrite Rabs_Ropp. lra.
  - (* mult *) destruct (BIN _ _ _ F) as [Fa Fb].
    destruct (IHanalysed1 Fa) as [x' [E1 [X1 [Q1 B1]]]]. destruct (IHanalysed2 Fb) as [y' [E2 [X2 [Q2 B2]]]].
    destruct (F _ (sub_refl _)) as [w [E' W]].
    pose proof (bin_gen n v BMult _ _ _ _ _ E1 E2 eq_refl) as E3. pose proof (ok_inj _ _ _ _ E' E3) as ->.
    eexists. split; [exact E3|]. split; [exact W|].
    split; [apply (bin_gen numR _ BMult _ _ _ _ _ Q1 Q2); cbn [b_apply numR n_add n_sub n_mul n_div lift2]; reflexivity|cbn [numB64 n_fabs n_exp n_sin n_cos n_tan n_log n_log10 n_sqrt n_add n_sub n_mul n_div]].
    rewrite (proj2 (mult_fin x' y' X1 X2) W).
    apply (after_ok _ _ _ _ (B2R x' * B2R y')); [exact U0|apply mult_near; assumption|apply round_err].
  - (* div *) destruct (BIN _ _ _ F) as [Fa Fb].
    destruct (IHanalysed1 Fa) as [x' [E1 [X1 [Q1 B1]]]]. destruct (IHanalysed2 Fb) as [y' [E2 [X2 [Q2 B2]]]].
    destruct (F _ (sub_refl _)) as [w [E' W]].
    destruct (div_near x y (B2R x') (B2R y') dx dy B1 B2 H1) as [NY [NY' N]].
    pose proof (bin_gen n v BDiv _ _ _ _ _ E1 E2 eq_refl) as E3. pose proof (ok_inj _ _ _ _ E' E3) as ->.
    eexists. split; [exact E3|]. split; [exact W|].
    split; [apply (bin_gen numR _ BDiv _ _ _ _ _ Q1 Q2); cbn [b_apply numR n_add n_sub n_mul n_div lift2]; rewrite r_eqb_false by exact NY; reflexivity|cbn [numB64 n_fabs n_exp n_sin n_cos n_tan n_log n_log10 n_sqrt n_add n_sub n_mul n_div]].
    rewrite (proj2 (div_fin x' y' X1 X2) W).
    apply (after_ok _ _ _ _ (B2R x' / B2R y')); [exact U0|exact N|apply round_err].
  - (* sqrt *) destruct (IHanalysed (UN _ _ F)) as [x [E [X [Q B]]]]. destruct (F _ (sub_refl _)) as [y [E' Y]].
    pose proof (un_gen n v USqrt _ _ _ E eq_refl) as E2. pose proof (ok_inj _ _ _ _ E' E2) as ->.
    eexists. split; [exact E2|]. split; [exact Y|].
    split; [apply (un_gen numR _ USqrt _ _ _ Q); cbn [u_apply numR n_fabs n_exp n_sin n_cos n_tan n_log n_log10 n_sqrt lift1]; rewrite r_leb_true by lra; reflexivity|cbn [numB64 n_fabs n_exp n_sin n_cos n_tan n_log n_log10 n_sqrt n_add n_sub n_mul n_div]].
    destruct (Bsqrt_correct 53 1024 _ _ mode_NE x) as [S1 [S2 _]]. rewrite S1.
    assert (P : 0 <= B2R x).
    { change (is_finite (Bsqrt mode_NE x) = true) in Y. rewrite S2 in Y. destruct x as [s| | |[] m ex Hx]; try discriminate Y; simpl; [lra|].
      apply F2R_ge_0. simpl. lia. }
    apply (after_ok _ _ _ _ (sqrt (B2R x))); [exact U0|apply sqrt_near; assumption|pose proof (sqrt_err x); lra].
  - (* exp *) destruct (IHanalysed (UN _ _ F)) as [x [E [X [Q B]]]]. destruct (F _ (sub_refl _)) as [y [E' Y]].
    pose proof (un_gen n v UExp _ _ _ E eq_refl) as E2. pose proof (ok_inj _ _ _ _ E' E2) as ->.
    eexists. split; [exact E2|]. split; [exact Y|].
    split; [apply (un_gen numR _ UExp _ _ _ Q); cbn [u_apply numR n_fabs n_exp n_sin n_cos n_tan n_log n_log10 n_sqrt lift1]; reflexivity|cbn [numB64 n_fabs n_exp n_sin n_cos n_tan n_log n_log10 n_sqrt n_add n_sub n_mul n_div]].
    apply (after_ok _ _ _ _ (exp (B2R x))); [exact D0|apply exp_near; exact B|].
    apply (AC (m_exp lm) exp); auto.
  - (* sin *) destruct (IHanalysed (UN _ _ F)) as [x [E [X [Q B]]]]. destruct (F _ (sub_refl _)) as [y [E' Y]].
    pose proof (un_gen n v USin _ _ _ E eq_refl) as E2. pose proof (ok_inj _ _ _ _ E' E2) as ->.
    eexists. split; [exact E2|]. split; [exact Y|].
    split; [apply (un_gen numR _ USin _ _ _ Q); cbn [u_apply numR n_fabs n_exp n_sin n_cos n_tan n_log n_log10 n_sqrt lift1]; reflexivity|cbn [numB64 n_fabs n_exp n_sin n_cos n_tan n_log n_log10 n_sqrt n_add n_sub n_mul n_div]].
    apply (after_ok _ _ _ _ (sin (B2R x))); [exact D0|apply sin_near; exact B|].
    apply (AC (m_sin lm) sin); auto.
  - (* cos *) destruct (IHanalysed (UN _ _ F)) as [x [E [X [Q B]]]]. destruct (F _ (sub_refl _)) as [y [E' Y]].
    pose proof (un_gen n v UCos _ _ _ E eq_refl) as E2. pose proof (ok_inj _ _ _ _ E' E2) as ->.
    eexists. split; [exact E2|]. split; [exact Y|].
    split; [apply (un_gen numR _ UCos _ _ _ Q); cbn [u_apply numR n_fabs n_exp n_sin n_cos n_tan n_log n_log10 n_sqrt lift1]; reflexivity|cbn [numB64 n_fabs n_exp n_sin n_cos n_tan n_log n_log10 n_sqrt n_add n_sub n_mul n_div]].
    apply (after_ok _ _ _ _ (cos (B2R x))); [exact D0|apply cos_near; exact B|].
    apply (AC (m_cos lm) cos); auto.
  - (* tan *) destruct (IHanalysed (UN _ _ F)) as [x [E [X [Q B]]]]. destruct (F _ (sub_refl _)) as [y [E' Y]].
    destruct (tan_near z (B2R x) r B H0) as [N [N' T]].
    pose proof (un_gen n v UTan _ _ _ E eq_refl) as E2. pose proof (ok_inj _ _ _ _ E' E2) as ->.
    eexists. split; [exact E2|]. split; [exact Y|].
    split; [apply (un_gen numR _ UTan _ _ _ Q); cbn [u_apply numR n_fabs n_exp n_sin n_cos n_tan n_log n_log10 n_sqrt lift1]; rewrite r_eqb_false by exact N; reflexivity|cbn [numB64 n_fabs n_exp n_sin n_cos n_tan n_log n_log10 n_sqrt n_add n_sub n_mul n_div]].
    apply (after_ok _ _ _ _ (tan (B2R x))); [exact D0|exact T|].
    apply (AC (m_tan lm) tan); auto 6.
  - (* log *) destruct (IHanalysed (UN _ _ F)) as [x [E [X [Q B]]]]. destruct (F _ (sub_refl _)) as [y [E' Y]].
    destruct (ln_near z (B2R x) r B H0) as [P T].
    assert (Z0 : 0 < z) by (eapply Rle_lt_trans; [|exact H0]; eapply Rle_trans; [apply Rabs_pos|exact B]).
    pose proof (un_gen n v ULog _ _ _ E eq_refl) as E2. pose proof (ok_inj _ _ _ _ E' E2) as ->.
    eexists. split; [exact E2|]. split; [exact Y|].
    split; [apply (un_gen numR _ ULog _ _ _ Q); cbn [u_apply numR n_fabs n_exp n_sin n_cos n_tan n_log n_log10 n_sqrt lift1]; rewrite r_ltb_true by exact Z0; reflexivity|cbn [numB64 n_fabs n_exp n_sin n_cos n_tan n_log n_log10 n_sqrt n_add n_sub n_mul n_div]].
    apply (after_ok _ _ _ _ (ln (B2R x))); [exact D0|exact T|].
    apply (AC (m_log lm) ln); auto 7.
  - (* log10 *) destruct (IHanalysed (UN _ _ F)) as [x [E [X [Q B]]]]. destruct (F _ (sub_refl _)) as [y [E' Y]].
    destruct (ln_near z (B2R x) r B H0) as [P T].
    assert (Z0 : 0 < z) by (eapply Rle_lt_trans; [|exact H0]; eapply Rle_trans; [apply Rabs_pos|exact B]).
    pose proof (un_gen n v ULog10 _ _ _ E eq_refl) as E2. pose proof (ok_inj _ _ _ _ E' E2) as ->.
    eexists. split; [exact E2|]. split; [exact Y|].
    split; [apply (un_gen numR _ ULog10 _ _ _ Q); cbn [u_apply numR n_fabs n_exp n_sin n_cos n_tan n_log n_log10 n_sqrt lift1]; rewrite r_ltb_true by exact Z0; reflexivity|cbn [numB64 n_fabs n_exp n_sin n_cos n_tan n_log n_log10 n_sqrt n_add n_sub n_mul n_div]].
    assert (L10 : 0 < ln 10) by (rewrite <- ln_1; apply ln_increasing; lra).
    apply (after_ok _ _ _ _ (ln (B2R x) / ln 10)); [exact D0| |].
    + replace (ln (B2R x) / ln 10 - ln z / ln 10) with ((ln (B2R x) - ln z) * / ln 10) by (field; lra).
      rewrite Rabs_mult, (Rabs_pos_eq (/ ln 10)) by (left; apply Rinv_0_lt_compat; exact L10).
      unfold Rdiv at 1. apply Rmult_le_compat_r; [left; apply Rinv_0_lt_compat; exact L10|exact T].
    + apply (AC (m_log10 lm) (fun x => ln x / ln 10)); auto 8.
Qed.
End Main.

(** Polynomials. *)
Section Poly.
Context (lm : libm) (v : list f64).
Notation n := (numB64 lm).
Notation finite := (all_values (n := n) finite64 v).

Lemma bplus_finite : forall x y : f64, finite64 (Bplus mode_NE x y) -> finite64 x /\ finite64 y.
Proof. unfold finite64. intros [s|s| |s m ex Hx] [t|t| |t m' ex' Hy] H; try (split; reflexivity); try destruct s; try destruct t; discriminate H. Qed.
Lemma bminus_finite : forall x y : f64, finite64 (Bminus mode_NE x y) -> finite64 x /\ finite64 y.
Proof. unfold finite64. intros [s|s| |s m ex Hx] [t|t| |t m' ex' Hy] H; try (split; reflexivity); try destruct s; try destruct t; discriminate H. Qed.
Lemma bmult_finite : forall x y : f64, finite64 (Bmult mode_NE x y) -> finite64 x /\ finite64 y.
Proof. unfold finite64. intros [s|s| |s m ex Hx] [t|t| |t m' ex' Hy] H; try (split; reflexivity); discriminate H. Qed.

Lemma bin_inv : forall (k : num) (w : list k) op a b z, eval k (EBin op a b) w = Ok z ->
  exists x y, eval k a w = Ok x /\ eval k b w = Ok y /\ b_apply k op x y = Ok z.
Proof.
  intros k w op a b z H. cbn [eval] in H. destruct (eval k a w) as [x| |], (eval k b w) as [y| |]; cbn in H; try discriminate.
  exists x, y. auto.
Qed.

Lemma var_inv : forall (k : num) (w : list k) i x, eval k (EVar i) w = Ok x -> nth_error w (N.to_nat i) = Some x.
Proof.
  intros k w i x H. cbn [eval] in H. destruct (N.leb _ _); [discriminate|].
  destruct (nth_error w (N.to_nat i)); [injection H as ->; reflexivity|discriminate].
Qed.

Lemma poly_finite : forall e : expr f64, polynomial_tree e -> forall x, eval n e v = Ok x -> finite64 x -> finite e.
Proof.
  induction e as [c|i|i t|op a IH|lo hi w a _ _ IH|op l r IHl IHr|es _] using expr_ind'; intros P x E X; try contradiction.
  - intros s S. inversion S; subst. exists x. auto.
  - intros s S. inversion S; subst. exists x. auto.
  - destruct (bin_inv n v op l r x E) as [a [b [Ea [Eb Ex]]]].
    assert (G : polynomial_tree l /\ polynomial_tree r) by (destruct op; cbn [polynomial_tree b_apply] in *; try contradiction; exact P).
    assert (Fab : finite64 a /\ finite64 b).
    { destruct op; cbn [polynomial_tree b_apply] in *; try contradiction; injection Ex as <-; [apply bplus_finite|apply bminus_finite|apply bmult_finite]; exact X. }
    intros s S. inversion S; subst.
    + exists x. auto.
    + apply (IHl (proj1 G) a Ea (proj1 Fab)). assumption.
    + apply (IHr (proj2 G) b Eb (proj2 Fab)). assumption.
Qed.

Definition pw (k : nat) : R := (1 + u64) ^ k.
Lemma pw_1 : forall k, 1 <= pw k.
Proof. intros k. apply pow_R1_Rle. pose proof u_pos. lra. Qed.
Lemma pw_mono : forall j k, (j <= k)%nat -> pw j <= pw k.
Proof. intros j k H. apply Rle_pow; [pose proof u_pos; lra|exact H]. Qed.

Lemma mag_pos : forall e, 0 <= magnitude v e.
Proof.
  induction e as [c|i|i t|op a IH|lo hi w a _ _ IH|op l r IHl IHr|es _] using expr_ind'; simpl; try lra.
  - apply Rabs_pos.
  - destruct (nth_error v (N.to_nat i)); [apply Rabs_pos|lra].
  - destruct op; try lra. apply Rmult_le_pos; assumption.
Qed.

Lemma poly_bound : forall e : expr f64, polynomial_tree e -> no_underflow lm v e ->
  forall x, eval n e v = Ok x -> finite64 x ->
  exists z, eval numR (exact e) (exact_point v) = Ok (Some z) /\ Rabs z <= magnitude v e /\
    Rabs (B2R x - z) <= (pw (roundings e) - 1) * magnitude v e.
Proof.
  pose proof u_pos as U.
  induction e as [c|i|i t|op a IH|lo hi w a _ _ IH|op l r IHl IHr|es _] using expr_ind'; intros P NU x E X; try contradiction.
  - pose proof (ok_inj _ (Ok c) c x eq_refl E) as <-. exists (B2R c). split; [reflexivity|]. simpl. rewrite Rminus_eq_0, Rabs_R0. unfold pw. simpl. split; lra.
  - assert (V : nth_error v (N.to_nat i) = Some x).
    { exact (var_inv n v i x E). }
    exists (B2R x). split; [exact (exact_var v i x V)|]. simpl. rewrite V, Rminus_eq_0, Rabs_R0. unfold pw. simpl. split; lra.
  - destruct (bin_inv n v op l r x E) as [a [b [Ea [Eb Ex]]]].
    assert (G : polynomial_tree l /\ polynomial_tree r) by (destruct op; cbn [polynomial_tree b_apply] in *; try contradiction; exact P).
    assert (Fab : finite64 a /\ finite64 b).
    { destruct op; cbn [polynomial_tree b_apply] in *; try contradiction; injection Ex as <-; [apply bplus_finite|apply bminus_finite|apply bmult_finite]; exact X. }
    destruct Fab as [Fa Fb].
    destruct (IHl (proj1 G)) with (x := a) as [p [Ep [Mp Bp]]]; [|exact Ea|exact Fa|].
    { intros a' b' x' y' S. apply NU. apply sub_l. exact S. }
    destruct (IHr (proj2 G)) with (x := b) as [q [Eq [Mq Bq]]]; [|exact Eb|exact Fb|].
    { intros a' b' x' y' S. apply NU. apply sub_r. exact S. }
    pose proof (mag_pos l) as Ml. pose proof (mag_pos r) as Mr.
    set (ml := magnitude v l) in *. set (mr := magnitude v r) in *.
    assert (ADD : forall w z, Rabs (w - z) <= Rabs (B2R a - p) + Rabs (B2R b - q) -> Rabs z <= ml + mr -> 
       Rabs (B2R x - w) <= u64 * Rabs w -> Rabs (B2R x - z) <= (pw (S (max (roundings l) (roundings r))) - 1) * (ml + mr)).
    { intros w z H1 H2 H3. set (k := max (roundings l) (roundings r)).
      assert (Ka : (pw (roundings l) - 1) * ml <= (pw k - 1) * ml)
        by (apply Rmult_le_compat_r; [exact Ml|]; pose proof (pw_mono (roundings l) k (Nat.le_max_l _ _)); lra).
      assert (Kb : (pw (roundings r) - 1) * mr <= (pw k - 1) * mr)
        by (apply Rmult_le_compat_r; [exact Mr|]; pose proof (pw_mono (roundings r) k (Nat.le_max_r _ _)); lra).
      assert (T : Rabs (w - z) <= (pw k - 1) * (ml + mr)) by lra.
      eapply Rle_trans; [apply (after_ok u64 0 z ((pw k - 1) * (ml + mr)) w); [lra|exact T|lra]|].
      unfold after. change (pw (S k)) with ((1 + u64) * pw k). nra. }
    destruct op; cbn [polynomial_tree b_apply] in *; try contradiction; injection Ex as <-; cbn [magnitude roundings]; fold ml mr.
    + exists (p + q). split; [exact (bin_gen numR _ BPlus _ _ _ _ _ Ep Eq eq_refl)|].
      assert (Z : Rabs (p + q) <= ml + mr) by (eapply Rle_trans; [apply Rabs_triang|]; lra).
      split; [exact Z|]. apply (ADD (B2R a + B2R b)); [|exact Z|].
      * replace (B2R a + B2R b - (p + q)) with ((B2R a - p) + (B2R b - q)) by ring. apply Rabs_triang.
      * cbn [numB64 n_add]. rewrite (proj2 (plus_fin a b Fa Fb) X). apply plus_err.
    + exists (p - q). split; [exact (bin_gen numR _ BMinus _ _ _ _ _ Ep Eq eq_refl)|].
      assert (Z : Rabs (p - q) <= ml + mr).
      { unfold Rminus. eapply Rle_trans; [apply Rabs_triang|]. rewrite Rabs_Ropp. lra. }
      split; [exact Z|]. apply (ADD (B2R a - B2R b)); [|exact Z|].
      * replace (B2R a - B2R b - (p - q)) with ((B2R a - p) + - (B2R b - q)) by ring.
        eapply Rle_trans; [apply Rabs_triang|]. rewrite Rabs_Ropp. lra.
      * cbn [numB64 n_sub]. rewrite (proj2 (minus_fin a b Fa Fb) X). apply minus_err.
    + exists (p * q). split; [exact (bin_gen numR _ BMult _ _ _ _ _ Ep Eq eq_refl)|].
      assert (Z : Rabs (p * q) <= ml * mr) by (rewrite Rabs_mult; apply Rmult_le_compat; auto using Rabs_pos).
      split; [exact Z|].
      set (ka := pw (roundings l)) in *. set (kb := pw (roundings r)) in *.
      pose proof (pw_1 (roundings l)) as A1. pose proof (pw_1 (roundings r)) as B1. fold ka in A1. fold kb in B1.
      assert (T : Rabs (B2R a * B2R b - p * q) <= (ka * kb - 1) * (ml * mr)).
      { eapply Rle_trans; [apply (mult_near p q (B2R a) (B2R b) _ _ Bp Bq)|].
        assert (Rabs p * ((kb - 1) * mr) <= ml * ((kb - 1) * mr)) by (apply Rmult_le_compat_r; [apply Rmult_le_pos; lra|exact Mp]).
        assert (Rabs q * ((ka - 1) * ml) <= mr * ((ka - 1) * ml)) by (apply Rmult_le_compat_r; [apply Rmult_le_pos; lra|exact Mq]).
        nra. }
      assert (RE : Rabs (B2R (Bmult mode_NE a b) - B2R a * B2R b) <= u64 * Rabs (B2R a * B2R b)).
      { rewrite (proj2 (mult_fin a b Fa Fb) X). apply round_err_normal. apply (NU l r a b (sub_refl _) Ea Eb). }
      eapply Rle_trans; [apply (after_ok u64 0 (p * q) ((ka * kb - 1) * (ml * mr)) (B2R a * B2R b)); [lra|exact T|]|].
      { cbn [numB64 n_mul]. lra. }
      unfold after. replace (pw (S (roundings l + roundings r))) with ((1 + u64) * (ka * kb)).
      * apply Rle_trans with ((ka * kb - 1) * (ml * mr) + u64 * (ml * mr + (ka * kb - 1) * (ml * mr)) + 0); [|right; ring].
        apply Rplus_le_compat_r, Rplus_le_compat_l, Rmult_le_compat_l; lra.
      * unfold ka, kb, pw. simpl. rewrite pow_add. ring.
Qed.
End Poly.

(** The nearest double. *)
Lemma nearest_fin : forall r, (finite64 (nearest64 r) <-> Rabs (rnd r) < bpow radix2 1024) /\
  (finite64 (nearest64 r) -> B2R (nearest64 r) = rnd r).
Proof.
  intros r. unfold nearest64. set (x := rnd r).
  assert (G : generic_format radix2 (SpecFloat.fexp 53 1024) x).
  { apply generic_format_round; [apply fexp_correct; exact prec_pos|apply valid_rnd_round_mode]. }
  pose proof (binary_normalize_correct 53 1024 prec_pos prec_emax mode_NE
    (Ztrunc (scaled_mantissa radix2 (SpecFloat.fexp 53 1024) x)) (cexp radix2 (SpecFloat.fexp 53 1024) x) false) as H.
  cbv zeta in H. red in G. rewrite <- G in H.
  rewrite round_generic in H by (try apply valid_rnd_round_mode; exact G).
  destruct (Rlt_bool_spec (Rabs x) (bpow radix2 1024)) as [L|L].
  - destruct H as [H1 [H2 _]]. unfold finite64. rewrite H2. tauto.
  - split; [split|]; intros F; try lra; exfalso; eapply finite_overflow; eauto.
Qed.

Lemma rnd_le : forall r b, Rabs r <= b -> generic_format radix2 (SpecFloat.fexp 53 1024) b -> Rabs (rnd r) <= b.
Proof.
  intros r b H G. apply Rabs_le_inv in H. apply Rabs_le.
  split.
  - apply round_ge_generic; [apply fexp_correct; exact prec_pos|apply valid_rnd_round_mode|apply generic_format_opp; exact G|lra].
  - apply round_le_generic; [apply fexp_correct; exact prec_pos|apply valid_rnd_round_mode|exact G|lra].
Qed.
Lemma rnd_small : forall r k, (-1074 <= k < 1024)%Z -> Rabs r <= bpow radix2 k -> Rabs (rnd r) < bpow radix2 1024.
Proof.
  intros r k K H. apply Rle_lt_trans with (bpow radix2 k).
  - apply rnd_le; [exact H|]. apply generic_format_bpow. unfold SpecFloat.fexp, SpecFloat.emin. lia.
  - apply bpow_lt. lia.
Qed.

Lemma rounded_accurate : accurate rounded_libm u64.
Proof.
  split; [left; apply u_pos|].
  assert (K : forall g x, finite64 (nearest64 (g (B2R (x : f64)))) ->
    Rabs (B2R (nearest64 (g (B2R x))) - g (B2R x)) <= u64 * Rabs (g (B2R x)) + 2 * tiny64).
  { intros g x F. rewrite (proj2 (nearest_fin _) F). pose proof (round_err (g (B2R x))). pose proof tiny_pos. lra. }
  intros f g H x _ F.
  destruct H as [[-> ->] | [[-> ->] | [[-> ->] | [[-> ->] | [[-> ->] | [-> ->]]]]]];
    [apply (K exp)|apply (K sin)|apply (K cos)|apply (K tan)|apply (K ln)|apply (K (fun y => ln y / ln 10))]; exact F.
Qed.
