(** The Newton solver in doubles (proofs only). *)
From Coq Require Import ZArith NArith Reals List Bool Lra Lia.
From Flocq Require Import Core BinarySingleNaN.
From Verif Require Import Outcome Num RtModel RtSpec RtFacts RtValue NumB64 NumB64Facts NumR NumRFacts RealSpec RtDiff RtDiff2
  ErrSpec ErrFacts DataSpec DataFacts NewtonModel NewtonSpec NewtonFacts.
Import ListNotations.
Local Open Scope R_scope.

Local Notation rnd := (round radix2 (SpecFloat.fexp 53 1024) (round_mode mode_NE)).
Local Existing Instance prec_pos.
Local Existing Instance prec_emax.

Definition loop_goes (n : num) (norm : n) : bool :=
  gt n norm (n_div n (n_of_Z n 1) (n_of_Z n 10000000000)) && lt n norm (n_of_Z n 10000000000).

(** Where any instance stops. *)
Lemma stops_any : forall (n : num) k qs g p, loop_goes n (n_of_Z n 1) = true -> newton_solve n k qs g = Ok (Some p) ->
  exists g' norm, newton_step n qs g' = Ok p /\ newton_norm n qs p = Ok norm /\ loop_goes n norm = false.
Proof.
  intros n k qs g p T1 H. unfold newton_solve in H. destruct k as [|k]; cbn [newton_loop] in H;
    fold (loop_goes n (n_of_Z n 1)) in H; rewrite T1 in H; [discriminate|].
  destruct (newton_step n qs g) as [g'| |] eqn:S; try discriminate. cbn [bind] in H.
  destruct (newton_norm n qs g') as [nm| |] eqn:E; try discriminate. cbn [bind] in H.
  revert g g' nm S E H. induction k as [|k IH]; intros g g' nm S E H; cbn [newton_loop] in H;
    fold (loop_goes n nm) in H; destruct (loop_goes n nm) eqn:T; try discriminate.
  - injection H as <-. exists g, nm. auto.
  - destruct (newton_step n qs g') as [g2| |] eqn:S2; try discriminate. cbn [bind] in H.
    destruct (newton_norm n qs g2) as [nm2| |] eqn:E2; try discriminate. cbn [bind] in H.
    exact (IH g' g2 nm2 S2 E2 H).
  - injection H as <-. exists g, nm. auto.
Qed.

Lemma u_small : u64 <= / 1000000.
Proof. apply Rle_trans with (bpow radix2 (-20)); [apply bpow_le; lia|]. simpl. lra. Qed.
Lemma tiny_small : tiny64 <= / 1000000 * / 100000000000000000000 * / 100000000000000000000.
Proof.
  apply Rle_trans with (bpow radix2 (-160)); [apply bpow_le; lia|].
  change (bpow radix2 (-160)) with (/ IZR (Zpower_pos 2 160)).
  rewrite <- !Rinv_mult. rewrite <- !mult_IZR. apply Rinv_le_contravar; [apply IZR_lt; reflexivity|]. apply IZR_le.
  vm_compute. discriminate.
Qed.

Lemma round_rel : forall x, Rabs (rnd x - x) <= / 1000000 * Rabs x + tiny64.
Proof. intros x. pose proof (round_err x). pose proof (Rabs_pos x). pose proof u_small. nra. Qed.
Lemma fin_of_small : forall r, Rabs r <= bpow radix2 1000 -> Rabs (rnd r) < bpow radix2 1024.
Proof. intros r H. apply (rnd_small r 1000); [lia|exact H]. Qed.
Lemma big_1000 : 1000000000000000000000 <= bpow radix2 1000.
Proof.
  apply Rle_trans with (bpow radix2 80); [|apply bpow_le; lia].
  change (bpow radix2 80) with (IZR (Zpower_pos 2 80)). apply IZR_le. vm_compute. discriminate.
Qed.

(** The constants of the loop. *)
Lemma ofZ_fin : forall lm z, Rabs (IZR z) <= bpow radix2 1000 ->
  finite64 (n_of_Z (numB64 lm) z) /\ B2R (n_of_Z (numB64 lm) z) = rnd (IZR z).
Proof.
  intros lm z H. pose proof (binary_normalize_correct 53 1024 prec_pos prec_emax mode_NE z 0 false) as N.
  cbv zeta in N. replace (F2R (beta := radix2) {| Fnum := z; Fexp := 0 |}) with (IZR z) in N by (unfold F2R; simpl; ring).
  rewrite Rlt_bool_true in N by (apply fin_of_small; exact H). destruct N as [N1 [N2 _]]. split; auto.
Qed.
Lemma ten_value : forall lm, finite64 (n_of_Z (numB64 lm) 10000000000) /\
  9999980000 <= B2R (n_of_Z (numB64 lm) 10000000000) <= 10000020000.
Proof.
  intros lm. destruct (ofZ_fin lm 10000000000) as [F V].
  { rewrite Rabs_pos_eq by lra. eapply Rle_trans; [|exact big_1000]. lra. }
  split; [exact F|]. rewrite V. pose proof (round_rel 10000000000) as E. pose proof tiny_small.
  rewrite (Rabs_pos_eq 10000000000) in E by lra. apply Rabs_le_inv in E. lra.
Qed.
Lemma tol_value : forall lm, let c := n_div (numB64 lm) (n_of_Z (numB64 lm) 1) (n_of_Z (numB64 lm) 10000000000) in
  finite64 c /\ 0 < B2R c /\ B2R c <= (1 + 4 * / 1000000) * / 10000000000.
Proof.
  intros lm c. destruct (ofZ_small lm 1) as [F1 V1]; [auto|]. destruct (ten_value lm) as [F2 V2].
  destruct (div_fin _ _ F1 F2) as [I J]. rewrite V1 in I, J. set (t := B2R (n_of_Z (numB64 lm) 10000000000)) in *.
  assert (Q : / 10000020000 <= 1 / t <= / 9999980000).
  { unfold Rdiv. rewrite Rmult_1_l. split; apply Rinv_le_contravar; lra. }
  assert (P : 0 < / 10000020000) by (apply Rinv_0_lt_compat; lra).
  assert (Fc : finite64 c).
  { apply I. split; [lra|]. apply fin_of_small. rewrite Rabs_pos_eq by lra. pose proof big_1000.
    assert (/ 9999980000 <= 1) by (rewrite <- Rinv_1; apply Rinv_le_contravar; lra). lra. }
  split; [exact Fc|]. change (B2R c) with (B2R (Bdiv mode_NE (n_of_Z (numB64 lm) 1) (n_of_Z (numB64 lm) 10000000000))).
  rewrite (J Fc). pose proof (round_rel (1 / t)) as E. pose proof tiny_small as T. rewrite (Rabs_pos_eq (1 / t)) in E by lra.
  apply Rabs_le_inv in E. lra.
Qed.

Lemma le_val : forall x y : f64, finite64 x -> finite64 y -> (Bleb x y = true <-> B2R x <= B2R y).
Proof. intros x y Fx Fy. rewrite (Bleb_correct 53 1024 x y Fx Fy). destruct (Rle_bool_spec (B2R x) (B2R y)); split; auto; try discriminate. lra. Qed.
Lemma eq_val : forall x y : f64, finite64 x -> finite64 y -> (Beqb x y = true <-> B2R x = B2R y).
Proof. intros x y Fx Fy. rewrite (Beqb_correct 53 1024 x y Fx Fy). destruct (Req_bool_spec (B2R x) (B2R y)); split; auto; try discriminate. Qed.

(** The test of the loop, on a finite double. *)
Lemma goes_val : forall lm (x : f64), finite64 x ->
  (loop_goes (numB64 lm) x = true <->
   B2R (n_div (numB64 lm) (n_of_Z (numB64 lm) 1) (n_of_Z (numB64 lm) 10000000000)) < B2R x < B2R (n_of_Z (numB64 lm) 10000000000)).
Proof.
  intros lm x F. destruct (tol_value lm) as [F1 _]. destruct (ten_value lm) as [F2 _].
  set (c := n_div (numB64 lm) (n_of_Z (numB64 lm) 1) (n_of_Z (numB64 lm) 10000000000)) in *.
  set (t := n_of_Z (numB64 lm) 10000000000) in *.
  unfold loop_goes, gt, lt. fold t. fold c. change (n_ge (numB64 lm) x c) with (Bleb (c : f64) x).
  change (n_le (numB64 lm) x t) with (Bleb x (t : f64)).
  change (n_eq (numB64 lm) x t) with (Beqb x (t : f64)). change (n_eq (numB64 lm) x c) with (Beqb x (c : f64)).
  rewrite !andb_true_iff, !negb_true_iff, <- !not_true_iff_false, !le_val, !eq_val by assumption.
  split; [intros [[? ?] [? ?]]; lra|intros; repeat split; lra].
Qed.
Lemma goes_first : forall lm, loop_goes (numB64 lm) (n_of_Z (numB64 lm) 1) = true.
Proof.
  intros lm. destruct (ofZ_small lm 1) as [F1 V1]; [auto|]. apply goes_val; [exact F1|]. rewrite V1.
  destruct (tol_value lm) as [_ [_ T]]. destruct (ten_value lm) as [_ U]. lra.
Qed.

(** The norm of two residuals. *)
Lemma norm64 : forall (x y : f64), finite64 x -> finite64 y -> Rabs (B2R x) <= 1000000000 -> Rabs (B2R y) <= 1000000000 ->
  let w := Bsqrt mode_NE (Bplus mode_NE (Bmult mode_NE x x) (Bmult mode_NE y y)) in
  finite64 w /\ 0 <= B2R w < 9999980000 /\
  (B2R w <= (1 + 4 * / 1000000) * / 10000000000 -> Rabs (B2R x) <= 10001 / 10000 * / 10000000000 /\ Rabs (B2R y) <= 10001 / 10000 * / 10000000000).
Proof.
  intros x y Fx Fy Bx By w. pose proof tiny_small as T. pose proof tiny_pos as T0. pose proof big_1000 as BB.
  assert (SQ : forall z : f64, finite64 z -> Rabs (B2R z) <= 1000000000 ->
    finite64 (Bmult mode_NE z z) /\ 0 <= B2R (Bmult mode_NE z z) <= 1000002000000000000 /\
    (1 - / 1000000) * Rabs (B2R z) ^ 2 - tiny64 <= B2R (Bmult mode_NE z z)).
  { intros z F B. destruct (mult_fin z z F F) as [I J]. pose proof (Rabs_pos (B2R z)) as P.
    assert (S : B2R z * B2R z = Rabs (B2R z) ^ 2) by (pose proof (Rsqr_abs (B2R z)) as Q; unfold Rsqr in Q; rewrite Q; ring).
    assert (U : Rabs (B2R z) ^ 2 <= 1000000000000000000) by nra.
    assert (N : 0 <= Rabs (B2R z) ^ 2) by apply pow2_ge_0.
    rewrite S in I, J. assert (Fm : finite64 (Bmult mode_NE z z)).
    { apply I. apply fin_of_small. rewrite Rabs_pos_eq by exact N. lra. }
    split; [exact Fm|]. rewrite (J Fm). pose proof (round_rel (Rabs (B2R z) ^ 2)) as E. rewrite (Rabs_pos_eq (Rabs (B2R z) ^ 2)) in E by exact N.
    apply Rabs_le_inv in E. split; [|lra]. split; [|lra].
    apply round_ge_generic; [apply fexp_correct; exact prec_pos|apply valid_rnd_round_mode|apply generic_format_0|exact N]. }
  destruct (SQ x Fx Bx) as [F1 [V1 L1]]. destruct (SQ y Fy By) as [F2 [V2 L2]]. clear SQ.
  set (s1 := Bmult mode_NE x x) in *. set (s2 := Bmult mode_NE y y) in *.
  destruct (plus_fin s1 s2 F1 F2) as [I J].
  assert (F3 : finite64 (Bplus mode_NE s1 s2)).
  { apply I. apply fin_of_small. rewrite Rabs_pos_eq by lra. lra. }
  assert (V3 : (1 - / 1000000) * (B2R s1 + B2R s2) <= B2R (Bplus mode_NE s1 s2) <= 3000000000000000000).
  { rewrite (J F3). pose proof (plus_err s1 s2) as E. rewrite (Rabs_pos_eq (B2R s1 + B2R s2)) in E by lra.
    pose proof u_small. apply Rabs_le_inv in E. assert (u64 * (B2R s1 + B2R s2) <= / 1000000 * (B2R s1 + B2R s2)) by (apply Rmult_le_compat_r; lra). lra. }
  set (s := Bplus mode_NE s1 s2) in *.
  assert (S0 : 0 <= B2R s) by lra.
  destruct (Bsqrt_correct 53 1024 prec_pos prec_emax mode_NE s) as [Vw [Fw _]]. fold w in Vw, Fw.
  assert (F4 : finite64 w).
  { unfold finite64. rewrite Fw. unfold finite64 in F3. destruct s as [b| | |[|] mm ee B]; try discriminate; try reflexivity.
    exfalso. clear - S0. simpl in S0. unfold F2R in S0. simpl in S0.
    pose proof (bpow_gt_0 radix2 ee). pose proof (IZR_lt _ _ (Pos2Z.neg_is_neg mm)). nra. }
  split; [exact F4|].
  assert (R0 : 0 <= sqrt (B2R s)) by apply sqrt_pos.
  assert (RS : sqrt (B2R s) * sqrt (B2R s) = B2R s) by (apply sqrt_sqrt; exact S0).
  pose proof (sqrt_err s) as E. rewrite <- Vw in E. rewrite (Rabs_pos_eq (sqrt (B2R s))) in E by exact R0.
  pose proof u_small as U. apply Rabs_le_inv in E.
  assert (u64 * sqrt (B2R s) <= / 1000000 * sqrt (B2R s)) by (apply Rmult_le_compat_r; lra).
  assert (E1 : (1 - / 1000000) * sqrt (B2R s) <= B2R w <= (1 + / 1000000) * sqrt (B2R s)) by lra. clear E.
  assert (R1 : sqrt (B2R s) <= 2000000000) by nra.
  split; [split; nra|].
  intros W. assert (R2 : sqrt (B2R s) <= (1 + 6 * / 1000000) * / 10000000000) by lra.
  assert (R3 : B2R s <= (1 + 13 * / 1000000) * / 100000000000000000000) by nra.
  assert (R4 : B2R s1 + B2R s2 <= (1 + 15 * / 1000000) * / 100000000000000000000) by lra.
  assert (K : forall z : f64, (1 - / 1000000) * Rabs (B2R z) ^ 2 - tiny64 <= (1 + 15 * / 1000000) * / 100000000000000000000 ->
    Rabs (B2R z) <= 10001 / 10000 * / 10000000000).
  { intros z Z. pose proof (Rabs_pos (B2R z)). nra. }
  split; apply K; lra.
Qed.

(** The computed residuals where the solver stops. *)
Lemma stops64 : forall lm k (q1 q2 : equation (numB64 lm)) qs g p,
  newton_solve (numB64 lm) k (q1 :: q2 :: qs) g = Ok (Some p) ->
  exists r1 r2 : f64, length p = 2%nat /\ eval (numB64 lm) (residual q1) p = Ok r1 /\ eval (numB64 lm) (residual q2) p = Ok r2 /\
    (finite64 r1 -> finite64 r2 -> Rabs (B2R r1) <= 1000000000 -> Rabs (B2R r2) <= 1000000000 ->
     Rabs (B2R r1) <= 10001 / 10000 * / 10000000000 /\ Rabs (B2R r2) <= 10001 / 10000 * / 10000000000).
Proof.
  intros lm k q1 q2 qs g p H. destruct (stops_any _ k _ g p (goes_first lm) H) as [g' [norm [S [N T]]]].
  assert (LP : length p = 2%nat).
  { unfold newton_step in S. repeat match type of S with bind ?o _ = _ => destruct o; try discriminate; cbn [bind] in S end.
    destruct g' as [|x [|y g']]; try discriminate. now injection S as <-. }
  unfold newton_norm in N. destruct (eval (numB64 lm) (residual q1) p) as [r1| |]; try discriminate. cbn [bind] in N.
  destruct (eval (numB64 lm) (residual q2) p) as [r2| |]; try discriminate. cbn [bind] in N. injection N as N.
  exists r1, r2. split; [exact LP|]. split; [reflexivity|]. split; [reflexivity|]. intros F1 F2 B1 B2.
  destruct (norm64 r1 r2 F1 F2 B1 B2) as [F [V K]]. rewrite <- N in T. apply K. clear K.
  destruct (tol_value lm) as [_ [_ C]]. destruct (ten_value lm) as [_ U].
  match type of T with loop_goes _ ?x = _ =>
    change x with (Bsqrt mode_NE (Bplus mode_NE (Bmult mode_NE (r1 : f64) r1) (Bmult mode_NE (r2 : f64) r2)) : f64) in T end.
  apply not_true_iff_false in T. rewrite (goes_val lm _ F) in T.
  match goal with |- ?a <= ?b => destruct (Rle_dec a b); [assumption|exfalso; apply T; lra] end.
Qed.

(** One step, for any numeric type satisfying the laws: the values of the trees of Cramer's rule. *)
Section StepTree.
Context (n : num) (ok : n -> Prop) (eqv : n -> n -> Prop) (L : laws n ok eqv).

Lemma step_tree : forall (q1 q2 : equation n) qs x y w f1x f1y f2x f2y,
  let v := x :: y :: w in
  diff n (DVar 0) (residual q1) = Ok f1x -> diff n (DVar 1) (residual q1) = Ok f1y ->
  diff n (DVar 0) (residual q2) = Ok f2x -> diff n (DVar 1) (residual q2) = Ok f2y ->
  all_values (n := n) ok v (newton_x (residual q1) (residual q2) f1x f1y f2x f2y) ->
  all_values (n := n) ok v (newton_y (residual q1) (residual q2) f1x f1y f2x f2y) ->
  exists zx zy px py, eval n (newton_x (residual q1) (residual q2) f1x f1y f2x f2y) v = Ok zx /\
    eval n (newton_y (residual q1) (residual q2) f1x f1y f2x f2y) v = Ok zy /\ ok zx /\ ok zy /\
    newton_step n (q1 :: q2 :: qs) v = Ok [px; py] /\ eqv zx px /\ eqv zy py.
Proof.
  intros q1 q2 qs x y w f1x f1y f2x f2y v D1x D1y D2x D2y Ax Ay.
  set (r1 := residual q1) in *. set (r2 := residual q2) in *.
  assert (SUB : forall s g, all_values (n := n) ok v g -> subterm s g -> all_values (n := n) ok v s).
  { intros s g A S s' S'. apply A. clear - S S'. induction S; try (econstructor; eauto; fail). exact S'. }
  set (rel := fun g g' : expr n => exists a a', eval n g v = Ok a /\ eval n g' v = Ok a' /\ ok a /\ eqv a a').
  assert (SELF : forall g, all_values (n := n) ok v g -> rel g g).
  { intros g A. destruct (A _ (sub_refl _)) as [z [Ez Oz]]. exists z, z. repeat split; auto. now apply (l_refl n ok eqv L). }
  assert (SIMP : forall g, all_values (n := n) ok v g -> exists s, simplify_top n g = Ok s /\ rel g s).
  { intros g A. destruct (A _ (sub_refl _)) as [z [Ez Oz]].
    destruct (simplify_top_value n ok eqv L (fun _ _ => True) (fun _ _ _ _ _ => I) v g z (proj1 (av_all n ok v g) A) Ez) as [s [z' [S [_ [E Q]]]]].
    exists s. split; [exact S|]. exists z, z'. auto. }
  assert (BIN : forall op g h g' h', all_values (n := n) ok v (EBin op g h) -> rel g g' -> rel h h' -> rel (EBin op g h) (EBin op g' h')).
  { intros op g h g' h' A [a [a' [Ea [Ea' [Oa Qa]]]]] [b [b' [Eb [Eb' [Ob Qb]]]]].
    destruct (A _ (sub_refl _)) as [z [Ez Oz]]. destruct (bin_inv n v op g h z Ez) as [a2 [b2 [Ea2 [Eb2 Ap]]]].
    rewrite Ea in Ea2. rewrite Eb in Eb2. injection Ea2 as <-. injection Eb2 as <-.
    destruct (l_bop n ok eqv L op a a' b b' z Oa Ob Qa Qb Ap Oz) as [z' [Ap' Qz]].
    exists z, z'. split; [exact Ez|]. split; [exact (bin_gen n v op g' h' _ _ _ Ea' Eb' Ap')|auto]. }
  assert (LEAF : forall e, all_values (n := n) ok v (newton_x r1 r2 f1x f1y f2x f2y) -> subterm e (newton_x r1 r2 f1x f1y f2x f2y) -> all_values (n := n) ok v e) by (intros; eapply SUB; eauto).
  assert (L1 : all_values (n := n) ok v r1) by (apply LEAF; [exact Ax|]; apply sub_r, sub_l, sub_l, sub_l, sub_refl).
  assert (L2 : all_values (n := n) ok v r2) by (apply LEAF; [exact Ax|]; apply sub_r, sub_l, sub_r, sub_r, sub_refl).
  assert (La : all_values (n := n) ok v f1x) by (apply LEAF; [exact Ax|]; apply sub_r, sub_r, sub_l, sub_l, sub_refl).
  assert (Lb : all_values (n := n) ok v f1y) by (apply LEAF; [exact Ax|]; apply sub_r, sub_l, sub_r, sub_l, sub_refl).
  assert (Lc : all_values (n := n) ok v f2x) by (apply LEAF; [exact Ax|]; apply sub_r, sub_r, sub_r, sub_l, sub_refl).
  assert (Ld : all_values (n := n) ok v f2y) by (apply LEAF; [exact Ax|]; apply sub_r, sub_l, sub_l, sub_r, sub_refl).
  destruct (SIMP _ La) as [sa [Sa Ra]]. destruct (SIMP _ Lb) as [sb [Sb Rb]].
  destruct (SIMP _ Lc) as [sc [Sc Rc]]. destruct (SIMP _ Ld) as [sd [Sd Rd]].
  assert (DET : rel (jacobian_det f1x f1y f2x f2y) (jacobian_det sa sb sc sd)).
  { apply BIN; [apply LEAF; [exact Ax|apply sub_r, sub_r, sub_refl]| |]; (apply BIN; [apply LEAF; [exact Ax|]| |]; auto).
    - apply sub_r, sub_r, sub_l, sub_refl.
    - apply sub_r, sub_r, sub_r, sub_refl. }
  assert (RX : rel (newton_x r1 r2 f1x f1y f2x f2y) (newton_x r1 r2 sa sb sc sd)).
  { apply BIN; [exact Ax|apply SELF; apply LEAF; [exact Ax|apply sub_l, sub_refl]|].
    apply BIN; [apply LEAF; [exact Ax|apply sub_r, sub_refl]| |exact DET].
    apply BIN; [apply LEAF; [exact Ax|apply sub_r, sub_l, sub_refl]| |]; (apply BIN; [apply LEAF; [exact Ax|]| |]; auto).
    - apply sub_r, sub_l, sub_l, sub_refl.
    - apply sub_r, sub_l, sub_r, sub_refl. }
  assert (RY : rel (newton_y r1 r2 f1x f1y f2x f2y) (newton_y r1 r2 sa sb sc sd)).
  { apply BIN; [exact Ay|apply SELF; eapply SUB; [exact Ay|apply sub_l, sub_refl]|].
    apply BIN; [eapply SUB; [exact Ay|apply sub_r, sub_refl]| |exact DET].
    apply BIN; [eapply SUB; [exact Ay|apply sub_r, sub_l, sub_refl]| |]; (apply BIN; [eapply SUB; [exact Ay|]| |]; auto).
    - apply sub_r, sub_l, sub_l, sub_refl.
    - apply sub_r, sub_l, sub_r, sub_refl. }
  clear LEAF SUB SELF SIMP BIN DET.
  destruct RX as [zx [px [Ezx [Epx [Ox Qx]]]]]. destruct RY as [zy [py [Ezy [Epy [Oy Qy]]]]].
  exists zx, zy, px, py. do 4 (split; [assumption|]). split; [|auto].
  destruct (L1 _ (sub_refl _)) as [w1 [W1 _]]. destruct (L2 _ (sub_refl _)) as [w2 [W2 _]].
  destruct Ra as [? [wa [_ [Wa _]]]]. destruct Rb as [? [wb [_ [Wb _]]]]. destruct Rc as [? [wc [_ [Wc _]]]]. destruct Rd as [? [wd [_ [Wd _]]]].
  unfold newton_step. fold r1 r2. unfold diff_top. rewrite D1x, D1y, D2x, D2y. cbn [bind].
  rewrite Sa, Sb, Sc, Sd, W1, W2. cbn [bind]. rewrite Wa, Wb, Wc, Wd. cbn [bind]. unfold v.
  pose proof (var_gen n v 0 x eq_refl) as V0. pose proof (var_gen n v 1 y eq_refl) as V1.
  pose proof (bin_gen n v BMult _ _ _ _ _ Wa Wd eq_refl) as T1. pose proof (bin_gen n v BMult _ _ _ _ _ Wc Wb eq_refl) as T2.
  pose proof (bin_gen n v BMinus _ _ _ _ _ T1 T2 eq_refl) as TD.
  pose proof (bin_gen n v BMult _ _ _ _ _ W1 Wd eq_refl) as T3. pose proof (bin_gen n v BMult _ _ _ _ _ Wb W2 eq_refl) as T4.
  pose proof (bin_gen n v BMult _ _ _ _ _ Wa W2 eq_refl) as T5. pose proof (bin_gen n v BMult _ _ _ _ _ W1 Wc eq_refl) as T6.
  pose proof (bin_gen n v BMinus _ _ _ _ _ V0 (bin_gen n v BDiv _ _ _ _ _ (bin_gen n v BMinus _ _ _ _ _ T3 T4 eq_refl) TD eq_refl) eq_refl) as TX.
  pose proof (bin_gen n v BMinus _ _ _ _ _ V1 (bin_gen n v BDiv _ _ _ _ _ (bin_gen n v BMinus _ _ _ _ _ T5 T6 eq_refl) TD eq_refl) eq_refl) as TY.
  change (eval n (newton_x r1 r2 sa sb sc sd) v = Ok px) in Epx. change (eval n (newton_y r1 r2 sa sb sc sd) v = Ok py) in Epy.
  rewrite (ok_inj _ _ _ _ Epx TX), (ok_inj _ _ _ _ Epy TY). reflexivity.
Qed.
End StepTree.

(** The step in doubles against the step in real numbers. *)
Lemma step64 : forall lm d, accurate lm d -> zero_symmetric lm ->
  forall (q1 q2 : equation (numB64 lm)) (q1' q2' : equation numR) qs qs' gx gy xr yr f1x f1y f2x f2y f1x' f1y' f2x' f2y' zx zy rx ry,
  let v := [gx; gy] : list f64 in let w := at_point xr yr in
  diff (numB64 lm) (DVar 0) (residual q1) = Ok f1x -> diff (numB64 lm) (DVar 1) (residual q1) = Ok f1y ->
  diff (numB64 lm) (DVar 0) (residual q2) = Ok f2x -> diff (numB64 lm) (DVar 1) (residual q2) = Ok f2y ->
  diff numR (DVar 0) (residual q1') = Ok f1x' -> diff numR (DVar 1) (residual q1') = Ok f1y' ->
  diff numR (DVar 0) (residual q2') = Ok f2x' -> diff numR (DVar 1) (residual q2') = Ok f2y' ->
  bounded d v w (newton_x (residual q1) (residual q2) f1x f1y f2x f2y) (newton_x (residual q1') (residual q2') f1x' f1y' f2x' f2y') zx rx ->
  bounded d v w (newton_y (residual q1) (residual q2) f1x f1y f2x f2y) (newton_y (residual q1') (residual q2') f1x' f1y' f2x' f2y') zy ry ->
  all_values (n := numB64 lm) finite64 v (newton_x (residual q1) (residual q2) f1x f1y f2x f2y) ->
  all_values (n := numB64 lm) finite64 v (newton_y (residual q1) (residual q2) f1x f1y f2x f2y) ->
  exists px py : f64, newton_step (numB64 lm) (q1 :: q2 :: qs) v = Ok [px; py] /\ finite64 px /\ finite64 py /\
    newton_step numR (q1' :: q2' :: qs') w = Ok (at_point zx zy) /\ Rabs (B2R px - zx) <= rx /\ Rabs (B2R py - zy) <= ry.
Proof.
  intros lm d A ZS q1 q2 q1' q2' qs qs' gx gy xr yr f1x f1y f2x f2y f1x' f1y' f2x' f2y' zx zy rx ry v w D1 D2 D3 D4 D1' D2' D3' D4' Bx By Ax Ay.
  destruct (step_tree (numB64 lm) finite64 same64 (laws64 lm ZS) q1 q2 qs gx gy [] _ _ _ _ D1 D2 D3 D4 Ax Ay)
    as [ux [uy [px [py [Ex [Ey [Fx [Fy [St [Sx Sy]]]]]]]]]].
  destruct (bounded_ok lm d v w A _ _ _ _ Bx Ax) as [ux' [Ex' [_ [Rx Dx]]]]. destruct (bounded_ok lm d v w A _ _ _ _ By Ay) as [uy' [Ey' [_ [Ry Dy]]]].
  pose proof (ok_inj _ _ _ _ Ex Ex') as <-. pose proof (ok_inj _ _ _ _ Ey Ey') as <-.
  destruct (step_tree numR def _ lawsR q1' q2' qs' (Some xr) (Some yr) [] _ _ _ _ D1' D2' D3' D4'
    (av_real _ _ _ Rx) (av_real _ _ _ Ry)) as [tx [ty [sx [sy [Ex2 [Ey2 [_ [_ [St' [<- <-]]]]]]]]]].
  pose proof (ok_inj _ _ _ _ Ex2 Rx) as ->. pose proof (ok_inj _ _ _ _ Ey2 Ry) as ->.
  exists px, py. split; [exact St|].
  assert (K : forall a b : f64, same64 a b -> finite64 a -> finite64 b /\ B2R a = B2R b).
  { intros a b [<- | [s [t [-> ->]]]] F; [auto|]. split; reflexivity. }
  destruct (K _ _ Sx Fx) as [Fpx Vx]. destruct (K _ _ Sy Fy) as [Fpy Vy]. rewrite Vx in Dx. rewrite Vy in Dy. auto 10.
Qed.

(** Small residuals: the loop stops. *)
Lemma tol_lower : forall lm, 99 / 100 * / 10000000000 <= B2R (n_div (numB64 lm) (n_of_Z (numB64 lm) 1) (n_of_Z (numB64 lm) 10000000000)).
Proof.
  intros lm. destruct (ofZ_small lm 1) as [F1 V1]; [auto|]. destruct (ten_value lm) as [F2 V2].
  destruct (div_fin _ _ F1 F2) as [_ J]. rewrite V1 in J. destruct (tol_value lm) as [Fc _].
  set (t := B2R (n_of_Z (numB64 lm) 10000000000)) in *. specialize (J Fc).
  change (B2R (n_div (numB64 lm) (n_of_Z (numB64 lm) 1) (n_of_Z (numB64 lm) 10000000000)))
    with (B2R (Bdiv mode_NE (n_of_Z (numB64 lm) 1) (n_of_Z (numB64 lm) 10000000000))). rewrite J.
  assert (Q : / 10000020000 <= 1 / t).
  { unfold Rdiv. rewrite Rmult_1_l. apply Rinv_le_contravar; lra. }
  pose proof (round_rel (1 / t)) as E. pose proof tiny_small as T. rewrite (Rabs_pos_eq (1 / t)) in E by lra.
  apply Rabs_le_inv in E. lra.
Qed.
Lemma norm64_small : forall x y : f64, finite64 x -> finite64 y ->
  Rabs (B2R x) <= 6 / 100000000000 -> Rabs (B2R y) <= 6 / 100000000000 ->
  B2R (Bsqrt mode_NE (Bplus mode_NE (Bmult mode_NE x x) (Bmult mode_NE y y))) <= 9 / 100000000000.
Proof.
  intros x y Fx Fy Bx By. pose proof tiny_small as T. pose proof tiny_pos as T0. pose proof big_1000 as BB.
  assert (SQ : forall z : f64, finite64 z -> Rabs (B2R z) <= 6 / 100000000000 ->
    finite64 (Bmult mode_NE z z) /\ 0 <= B2R (Bmult mode_NE z z) <= 361 / 100000000000000000000000).
  { intros z F B. destruct (mult_fin z z F F) as [I J]. pose proof (Rabs_pos (B2R z)) as P.
    assert (S : B2R z * B2R z = Rabs (B2R z) ^ 2) by (pose proof (Rsqr_abs (B2R z)) as Q; unfold Rsqr in Q; rewrite Q; ring).
    assert (U : Rabs (B2R z) ^ 2 <= 36 / 10000000000000000000000) by nra.
    assert (N : 0 <= Rabs (B2R z) ^ 2) by apply pow2_ge_0.
    rewrite S in I, J. assert (Fm : finite64 (Bmult mode_NE z z)).
    { apply I. apply fin_of_small. rewrite Rabs_pos_eq by exact N. lra. }
    split; [exact Fm|]. rewrite (J Fm). pose proof (round_rel (Rabs (B2R z) ^ 2)) as E. rewrite (Rabs_pos_eq (Rabs (B2R z) ^ 2)) in E by exact N.
    apply Rabs_le_inv in E. split; [|lra].
    apply round_ge_generic; [apply fexp_correct; exact prec_pos|apply valid_rnd_round_mode|apply generic_format_0|exact N]. }
  destruct (SQ x Fx Bx) as [F1 V1]. destruct (SQ y Fy By) as [F2 V2]. clear SQ.
  set (s1 := Bmult mode_NE x x) in *. set (s2 := Bmult mode_NE y y) in *.
  destruct (plus_fin s1 s2 F1 F2) as [I J].
  assert (F3 : finite64 (Bplus mode_NE s1 s2)).
  { apply I. apply fin_of_small. rewrite Rabs_pos_eq by lra. lra. }
  assert (V3 : 0 <= B2R (Bplus mode_NE s1 s2) <= 730 / 100000000000000000000000).
  { rewrite (J F3). pose proof (plus_err s1 s2) as E. rewrite (Rabs_pos_eq (B2R s1 + B2R s2)) in E by lra.
    pose proof u_small. apply Rabs_le_inv in E. assert (u64 * (B2R s1 + B2R s2) <= / 1000000 * (B2R s1 + B2R s2)) by (apply Rmult_le_compat_r; lra). lra. }
  set (s := Bplus mode_NE s1 s2) in *.
  destruct (Bsqrt_correct 53 1024 prec_pos prec_emax mode_NE s) as [Vw _]. rewrite Vw.
  assert (R0 : 0 <= sqrt (B2R s)) by apply sqrt_pos.
  assert (RS : sqrt (B2R s) * sqrt (B2R s) = B2R s) by (apply sqrt_sqrt; apply V3).
  pose proof (sqrt_err s) as E. rewrite (Rabs_pos_eq (sqrt (B2R s))) in E by exact R0.
  pose proof u_small as U. apply Rabs_le_inv in E.
  assert (u64 * sqrt (B2R s) <= / 1000000 * sqrt (B2R s)) by (apply Rmult_le_compat_r; lra).
  assert (R1 : sqrt (B2R s) <= 88 / 1000000000000) by nra. lra.
Qed.

Section Solve64.
Context (lm : libm) (q1 q2 : equation (numB64 lm)) (qs : list (equation (numB64 lm))) (q1' q2' : equation numR).
Context (a b r L M m eta eps : R).
Context (S1 : smooth (residual q1') a b r L M) (S2 : smooth (residual q2') a b r L M).
Context (Z1 : valued (residual q1') a b 0) (Z2 : valued (residual q2') a b 0).
Context (Pm : 0 < m).
Context (NS : forall x y dx1 dy1 dx2 dy2, dist x y a b <= r ->
  gradient (residual q1') x y dx1 dy1 -> gradient (residual q2') x y dx2 dy2 -> m <= Rabs (dx1 * dy2 - dx2 * dy1)).
Context (C : 4 * L * M * r <= m).
Context (ST : forall gx gy x' y', finite64 gx -> finite64 gy -> dist (B2R gx) (B2R gy) a b <= r ->
  newton_step numR [q1'; q2'] (at_point (B2R gx) (B2R gy)) = Ok (at_point x' y') ->
  exists px py : f64, newton_step (numB64 lm) (q1 :: q2 :: qs) [gx; gy] = Ok [px; py] /\ finite64 px /\ finite64 py /\
    dist (B2R px) (B2R py) x' y' <= eta).
Context (RES : forall q q', (q = q1 /\ q' = q1') \/ (q = q2 /\ q' = q2') ->
  forall gx gy z, finite64 gx -> finite64 gy -> dist (B2R gx) (B2R gy) a b <= r -> valued (residual q') (B2R gx) (B2R gy) z ->
  exists t : f64, eval (numB64 lm) (residual q) [gx; gy] = Ok t /\ finite64 t /\ Rabs (B2R t - z) <= eps).
Context (He : 0 < eta <= r / 2) (Hb : L * r + eps <= 1000000000) (Hs : 3 * L * eta + eps <= 6 / 100000000000).

Lemma PL64 : 0 <= L.
Proof.
  assert (D : dist a b a b <= r).
  { unfold dist. rewrite !Rminus_diag_eq by reflexivity. rewrite Rabs_R0. lra. }
  destruct (S1 a b D) as [R1 [_ G1]]. apply regular_reg in R1. destruct (G1 _ _ (gradient_of _ _ _ R1)) as [G _].
  pose proof (Rabs_pos (rv (at_point a b) (pdiff 0 (residual q1')))). lra.
Qed.
Lemma PM64 : 0 <= M.
Proof.
  assert (D : dist a b a b <= r).
  { unfold dist. rewrite !Rminus_diag_eq by reflexivity. rewrite Rabs_R0. lra. }
  destruct (S1 a b D) as [_ [SB _]].
  destruct (SB 0%N 0%N (or_introl eq_refl) (or_introl eq_refl)) as [? [? [z [_ [_ [_ Bz]]]]]]. pose proof (Rabs_pos z). lra.
Qed.

(** The residuals at a double near the solution. *)
Lemma residuals64 : forall gx gy, finite64 gx -> finite64 gy -> dist (B2R gx) (B2R gy) a b <= r ->
  exists t1 t2 : f64, eval (numB64 lm) (residual q1) [gx; gy] = Ok t1 /\ eval (numB64 lm) (residual q2) [gx; gy] = Ok t2 /\
    finite64 t1 /\ finite64 t2 /\
    Rabs (B2R t1) <= L * dist (B2R gx) (B2R gy) a b + eps /\ Rabs (B2R t2) <= L * dist (B2R gx) (B2R gy) a b + eps /\
    Rabs (rv (at_point (B2R gx) (B2R gy)) (residual q1')) <= Rabs (B2R t1) + eps /\
    Rabs (rv (at_point (B2R gx) (B2R gy)) (residual q2')) <= Rabs (B2R t2) + eps.
Proof.
  intros gx gy Fx Fy D. destruct (S1 _ _ D) as [R1 _]. destruct (S2 _ _ D) as [R2 _].
  apply regular_reg in R1. apply regular_reg in R2.
  destruct (RES q1 q1' (or_introl (conj eq_refl eq_refl)) gx gy _ Fx Fy D (reg_eval _ _ R1)) as [t1 [E1 [F1 B1]]].
  destruct (RES q2 q2' (or_intror (conj eq_refl eq_refl)) gx gy _ Fx Fy D (reg_eval _ _ R2)) as [t2 [E2 [F2 B2]]].
  pose proof (residual_small _ _ _ _ _ _ _ _ S1 Z1 D) as K1. pose proof (residual_small _ _ _ _ _ _ _ _ S2 Z2 D) as K2.
  assert (T : forall p q e k, Rabs (p - q) <= e -> Rabs q <= k -> Rabs p <= k + e /\ Rabs q <= Rabs p + e).
  { intros p q e k H K. split.
    - replace p with (q + (p - q)) by ring. eapply Rle_trans; [apply Rabs_triang|]. lra.
    - replace q with (p + - (p - q)) at 1 by ring. eapply Rle_trans; [apply Rabs_triang|]. rewrite Rabs_Ropp. lra. }
  exists t1, t2. destruct (T _ _ _ _ B1 K1). destruct (T _ _ _ _ B2 K2). auto 10.
Qed.

Lemma step_closer : forall gx gy, finite64 gx -> finite64 gy -> dist (B2R gx) (B2R gy) a b <= r ->
  exists px py : f64, newton_step (numB64 lm) (q1 :: q2 :: qs) [gx; gy] = Ok [px; py] /\ finite64 px /\ finite64 py /\
    dist (B2R px) (B2R py) a b <= dist (B2R gx) (B2R gy) a b / 2 + eta /\ dist (B2R px) (B2R py) a b <= r.
Proof.
  intros gx gy Fx Fy D.
  destruct (step_contracts q1' q2' [] a b r L M m S1 S2 Z1 Z2 Pm NS _ _ D) as [x' [y' [E K]]].
  destruct (ST gx gy x' y' Fx Fy D E) as [px [py [St [Fpx [Fpy Dp]]]]].
  exists px, py. split; [exact St|]. split; [exact Fpx|]. split; [exact Fpy|].
  pose proof PL64 as PL. pose proof PM64 as PM. pose proof (dist_pos (B2R gx) (B2R gy) a b) as P.
  assert (LM : 0 <= L * M) by (apply Rmult_le_pos; auto).
  assert (T : dist (B2R px) (B2R py) a b <= dist (B2R px) (B2R py) x' y' + dist x' y' a b).
  { unfold dist. replace (B2R px - a) with ((B2R px - x') + (x' - a)) by ring. replace (B2R py - b) with ((B2R py - y') + (y' - b)) by ring.
    pose proof (Rabs_triang (B2R px - x') (x' - a)). pose proof (Rabs_triang (B2R py - y') (y' - b)). lra. }
  set (d := dist (B2R gx) (B2R gy) a b) in *. set (d' := dist x' y' a b) in *.
  assert (L * M * d <= L * M * r) by (apply Rmult_le_compat_l; auto).
  assert (d' <= d / 2).
  { apply (Rmult_le_reg_l m); auto. eapply Rle_trans; [exact K|].
    replace (2 * L * M * d ^ 2) with ((2 * (L * M) * d) * d) by ring.
    replace (m * (d / 2)) with (m / 2 * d) by field. apply Rmult_le_compat_r; auto. lra. }
  split; lra.
Qed.

Lemma norm_goes : forall gx gy nm, finite64 gx -> finite64 gy -> dist (B2R gx) (B2R gy) a b <= r ->
  newton_norm (numB64 lm) (q1 :: q2 :: qs) [gx; gy] = Ok nm ->
  (dist (B2R gx) (B2R gy) a b <= 3 * eta -> loop_goes (numB64 lm) nm = false) /\
  (loop_goes (numB64 lm) nm = false -> m * dist (B2R gx) (B2R gy) a b <= 8 * L * (10001 / 10000 * / 10000000000 + eps)).
Proof.
  intros gx gy nm Fx Fy D N. destruct (residuals64 gx gy Fx Fy D) as [t1 [t2 [E1 [E2 [F1 [F2 [B1 [B2 [V1 V2]]]]]]]]].
  unfold newton_norm in N. rewrite E1, E2 in N. cbn [bind] in N. injection N as N.
  pose proof PL64 as PL. set (d := dist (B2R gx) (B2R gy) a b) in *.
  assert (L * d <= L * r) by (apply Rmult_le_compat_l; auto).
  destruct (norm64 t1 t2 F1 F2) as [F [V K]]; [lra|lra|].
  change (Bsqrt mode_NE (Bplus mode_NE (Bmult mode_NE (t1 : f64) t1) (Bmult mode_NE (t2 : f64) t2)) = nm) in N. rewrite N in F, V, K.
  split.
  - intros D3. apply not_true_iff_false. rewrite (goes_val lm nm F). intros [G _].
    assert (L * d <= 3 * L * eta) by (replace (3 * L * eta) with (L * (3 * eta)) by ring; apply Rmult_le_compat_l; auto).
    pose proof (norm64_small t1 t2 F1 F2 ltac:(lra) ltac:(lra)) as W. rewrite N in W. pose proof (tol_lower lm). lra.
  - intros G. apply not_true_iff_false in G. rewrite (goes_val lm nm F) in G.
    destruct (tol_value lm) as [_ [_ TL]]. destruct (ten_value lm) as [_ U].
    assert (W : B2R nm <= (1 + 4 * / 1000000) * / 10000000000).
    { match goal with |- ?a <= ?b => destruct (Rle_dec a b); [assumption|exfalso; apply G; lra] end. }
    destruct (K W) as [K1 K2].
    apply (residual_accuracy q1' q2' a b r L M m S1 S2 Z1 Z2 Pm NS); [exact D|exact C|lra|lra].
Qed.

Lemma norm_defined : forall gx gy, finite64 gx -> finite64 gy -> dist (B2R gx) (B2R gy) a b <= r ->
  exists nm, newton_norm (numB64 lm) (q1 :: q2 :: qs) [gx; gy] = Ok nm.
Proof.
  intros gx gy Fx Fy D. destruct (residuals64 gx gy Fx Fy D) as [t1 [t2 [E1 [E2 _]]]].
  unfold newton_norm. rewrite E1, E2. cbn [bind]. eauto.
Qed.

Lemma loop64 : forall N gx gy nm, finite64 gx -> finite64 gy -> dist (B2R gx) (B2R gy) a b <= r ->
  dist (B2R gx) (B2R gy) a b - 2 * eta <= eta * 2 ^ N ->
  newton_norm (numB64 lm) (q1 :: q2 :: qs) [gx; gy] = Ok nm ->
  exists px py : f64, (forall k, (N <= k)%nat -> newton_loop (numB64 lm) k (q1 :: q2 :: qs) [gx; gy] nm = Ok (Some [px; py])) /\
    finite64 px /\ finite64 py /\ dist (B2R px) (B2R py) a b <= r /\
    m * dist (B2R px) (B2R py) a b <= 8 * L * (10001 / 10000 * / 10000000000 + eps).
Proof.
  induction N as [|N IH]; intros gx gy nm Fx Fy D DN Nm; destruct (norm_goes gx gy nm Fx Fy D Nm) as [G1 G2].
  - rewrite pow_O in DN. assert (G : loop_goes (numB64 lm) nm = false) by (apply G1; lra).
    exists gx, gy. split; [|auto]. intros k _. destruct k; cbn [newton_loop]; fold (loop_goes (numB64 lm) nm); rewrite G; reflexivity.
  - destruct (loop_goes (numB64 lm) nm) eqn:G.
    + destruct (step_closer gx gy Fx Fy D) as [px [py [St [Fpx [Fpy [Dp Dr]]]]]].
      destruct (norm_defined px py Fpx Fpy Dr) as [nm' Nm'].
      destruct (IH px py nm' Fpx Fpy Dr) as [p1 [p2 [Lo R]]]; [|exact Nm'|].
      { rewrite <- tech_pow_Rmult in DN. lra. }
      exists p1, p2. split; [|exact R]. intros k Hk. destruct k as [|k]; [lia|]. cbn [newton_loop].
      fold (loop_goes (numB64 lm) nm). rewrite G, St. cbn [bind]. rewrite Nm'. cbn [bind]. apply Lo. lia.
    + exists gx, gy. split; [|auto]. intros k _. destruct k; cbn [newton_loop]; fold (loop_goes (numB64 lm) nm); rewrite G; reflexivity.
Qed.

Lemma solver64 : forall gx gy, finite64 gx -> finite64 gy -> dist (B2R gx) (B2R gy) a b <= r ->
  exists K (px py : f64), (forall k, (K <= k)%nat -> newton_solve (numB64 lm) k (q1 :: q2 :: qs) [gx; gy] = Ok (Some [px; py])) /\
    finite64 px /\ finite64 py /\ dist (B2R px) (B2R py) a b <= r /\
    m * dist (B2R px) (B2R py) a b <= 8 * L * (10001 / 10000 * / 10000000000 + eps).
Proof.
  intros gx gy Fx Fy D.
  destruct (step_closer gx gy Fx Fy D) as [px [py [St [Fpx [Fpy [_ Dr]]]]]].
  destruct (norm_defined px py Fpx Fpy Dr) as [nm Nm].
  destruct (Pow_x_infinity 2) with (b := r / eta) as [N HN]; [rewrite Rabs_pos_eq; lra|].
  specialize (HN N (le_n N)). rewrite Rabs_pos_eq in HN by (apply pow_le; lra).
  destruct (loop64 N px py nm Fpx Fpy Dr) as [p1 [p2 [Lo R]]]; [|exact Nm|].
  { assert (eta * (r / eta) <= eta * 2 ^ N) by (apply Rmult_le_compat_l; lra).
    replace (eta * (r / eta)) with r in H by (field; lra). lra. }
  exists (S N), p1, p2. split; [|exact R]. intros k Hk. destruct k as [|k]; [lia|]. unfold newton_solve. cbn [newton_loop].
  fold (loop_goes (numB64 lm) (n_of_Z (numB64 lm) 1)). rewrite goes_first, St. cbn [bind]. rewrite Nm. cbn [bind]. apply Lo. lia.
Qed.
End Solve64.
