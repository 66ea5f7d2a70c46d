(** Property C73, in doubles: the Newton solver of the tutorial with rounding errors. *)
From Coq Require Import ZArith NArith Reals List Bool Lra Lia.
From Flocq Require Import Core BinarySingleNaN.
From Verif Require Import Outcome Num RtModel RtSpec RtFacts NumB64 NumB64Facts NumR NumRFacts RealSpec RtDiff RtDiff2
  ErrSpec ErrFacts DataSpec DataFacts BoxFacts NewtonModel NewtonSpec NewtonFacts NewtonErrFacts PropsNewton NewtonTutorial.
Import ListNotations.
Local Open Scope R_scope.
Local Existing Instance prec_pos.
Local Existing Instance prec_emax.

(** C73.  If the solver stops in doubles, the residuals it computed at the point it returns are below
    1.0001e-10, unless one of them is not finite or above 1e9 (the solver also stops when it runs away). *)
Theorem C73_why_it_stops_in_doubles :
  forall (lm : libm) k (q1 q2 : equation (numB64 lm)) qs g p,
    newton_solve (numB64 lm) k (q1 :: q2 :: qs) g = Ok (Some p) ->
    exists r1 r2 : f64, length p = 2%nat /\
      eval (numB64 lm) (EBin BMinus (fst q1) (snd q1)) p = Ok r1 /\ eval (numB64 lm) (EBin BMinus (fst q2) (snd q2)) p = Ok r2 /\
      (finite64 r1 -> finite64 r2 -> Rabs (B2R r1) <= 1000000000 -> Rabs (B2R r2) <= 1000000000 ->
       Rabs (B2R r1) <= 10001 / 10000 * / 10000000000 /\ Rabs (B2R r2) <= 10001 / 10000 * / 10000000000).
Proof. intros lm k q1 q2 qs g p H. exact (stops64 lm k q1 q2 qs g p H). Qed.
Print Assumptions C73_why_it_stops_in_doubles.

(** C73.  Hence the real residuals meant are below 1.0001e-10 plus the bound of the error analysis. *)
Theorem C73_residual_in_doubles :
  forall (lm : libm) (d : R), accurate lm d ->
  forall k (q1 q2 : equation (numB64 lm)) qs g p (e1 e2 : expr numR) w z1 z2 s1 s2,
    newton_solve (numB64 lm) k (q1 :: q2 :: qs) g = Ok (Some p) ->
    bounded d p w (EBin BMinus (fst q1) (snd q1)) e1 z1 s1 -> bounded d p w (EBin BMinus (fst q2) (snd q2)) e2 z2 s2 ->
    all_values (n := numB64 lm) finite64 p (EBin BMinus (fst q1) (snd q1)) ->
    all_values (n := numB64 lm) finite64 p (EBin BMinus (fst q2) (snd q2)) ->
    Rabs z1 + s1 <= 1000000000 -> Rabs z2 + s2 <= 1000000000 ->
    eval numR e1 w = Ok (Some z1) /\ eval numR e2 w = Ok (Some z2) /\
    Rabs z1 <= 10001 / 10000 * / 10000000000 + s1 /\ Rabs z2 <= 10001 / 10000 * / 10000000000 + s2.
Proof.
  intros lm d A k q1 q2 qs g p e1 e2 w z1 z2 s1 s2 H B1 B2 F1 F2 L1 L2.
  destruct (stops64 lm k q1 q2 qs g p H) as [r1 [r2 [_ [E1 [E2 K]]]]].
  destruct (bounded_ok lm d p w A _ _ _ _ B1 F1) as [t1 [T1 [Y1 [V1 D1]]]]. destruct (bounded_ok lm d p w A _ _ _ _ B2 F2) as [t2 [T2 [Y2 [V2 D2]]]].
  pose proof (ok_inj _ _ _ _ E1 T1) as ->. pose proof (ok_inj _ _ _ _ E2 T2) as ->.
  assert (Q : forall a z s, Rabs (a - z) <= s -> Rabs a <= Rabs z + s /\ Rabs z <= Rabs a + s).
  { intros a z s S. split.
    - replace a with (z + (a - z)) at 1 by ring. eapply Rle_trans; [apply Rabs_triang|]. lra.
    - replace z with (a + - (a - z)) at 1 by ring. eapply Rle_trans; [apply Rabs_triang|]. rewrite Rabs_Ropp. lra. }
  destruct (Q _ _ _ D1), (Q _ _ _ D2). destruct (K Y1 Y2); [lra|lra|]. repeat split; auto; lra.
Qed.
Print Assumptions C73_residual_in_doubles.

(** x = 1, y = 1 from (0, 0): the solver returns (1, 1) after one step, with no error. *)
Example C73_residual_case : forall lm,
  let one : f64 := n_of_Z (numB64 lm) 1 in let zero : f64 := n_of_Z (numB64 lm) 0 in
  let q1 : equation (numB64 lm) := (EVar 0, EConst one) in let q2 : equation (numB64 lm) := (EVar 1, EConst one) in
  exists p1 p2 : f64, newton_solve (numB64 lm) 3 [q1; q2] [zero; zero] = Ok (Some [p1; p2]) /\ B2R p1 = 1 /\ B2R p2 = 1 /\
  forall d, accurate lm d -> exists s1 s2,
    bounded d [p1; p2] (at_point 1 1) (EBin BMinus (fst q1) (snd q1)) (EBin BMinus (EVar 0) (@EConst numR (Some 1))) (1 - 1) s1 /\
    bounded d [p1; p2] (at_point 1 1) (EBin BMinus (fst q2) (snd q2)) (EBin BMinus (EVar 1) (@EConst numR (Some 1))) (1 - 1) s2 /\
    all_values (n := numB64 lm) finite64 [p1; p2] (EBin BMinus (fst q1) (snd q1)) /\
    all_values (n := numB64 lm) finite64 [p1; p2] (EBin BMinus (fst q2) (snd q2)) /\
    Rabs (1 - 1) + s1 <= 1000000000 /\ Rabs (1 - 1) + s2 <= 1000000000.
Proof.
  intros lm one zero q1 q2.
  assert (B : match newton_solve (numB64 lm) 3 [q1; q2] [zero; zero] with Ok (Some l) => map B2SF l | _ => [] end =
    [SpecFloat.S754_finite false 4503599627370496 (-52); SpecFloat.S754_finite false 4503599627370496 (-52)]) by (vm_compute; reflexivity).
  destruct (newton_solve (numB64 lm) 3 [q1; q2] [zero; zero]) as [[l|]| |]; try discriminate.
  destruct l as [|p1 [|p2 [|]]]; try discriminate. cbn [map] in B. injection B as B1 B2. exists p1, p2. split; [reflexivity|].
  assert (ONE : forall p : f64, B2SF p = SpecFloat.S754_finite false 4503599627370496 (-52) -> B2R p = 1 /\ finite64 p).
  { intros p E. split; [|unfold finite64; rewrite <- is_finite_SF_B2SF, E; reflexivity].
    rewrite <- SF2R_B2SF, E. cbn [SF2R cond_Zopp]. unfold F2R. cbn [Fnum Fexp].
    change (bpow radix2 (-52)) with (/ IZR (Zpower_pos 2 52)). change (Zpower_pos 2 52) with 4503599627370496%Z. lra. }
  destruct (ONE p1 B1) as [V1 F1]. destruct (ONE p2 B2) as [V2 F2]. clear ONE B1 B2.
  destruct (ofZ_small lm 1) as [F V]; [auto|]. fold one in F, V.
  split; [exact V1|]. split; [exact V2|]. intros d A.
  assert (O : Rabs 1 <= 1) by (rewrite Rabs_R1; lra). assert (Z : Rabs (1 - 1) <= 0) by (rewrite Rminus_diag_eq, Rabs_R0 by reflexivity; lra).
  pose proof (sized_const lm d [p1; p2] (at_point 1 1) one 1 1 F V O) as C.
  pose proof (sized_var lm d [p1; p2] (at_point 1 1) 0 p1 1 1 eq_refl eq_refl F1 V1 O) as X.
  pose proof (sized_var lm d [p1; p2] (at_point 1 1) 1 p2 1 1 eq_refl eq_refl F2 V2 O) as Y.
  destruct (sized_minus lm d A _ _ _ _ _ _ _ _ _ _ _ _ X C 0 0 Z ltac:(lra) ltac:(lra)) as [_ [s1 [H1 [B1 A1]]]].
  destruct (sized_minus lm d A _ _ _ _ _ _ _ _ _ _ _ _ Y C 0 0 Z ltac:(lra) ltac:(lra)) as [_ [s2 [H2 [B2 A2]]]].
  exists s1, s2. split; [exact B1|]. split; [exact B2|]. split; [exact A1|]. split; [exact A2|]. lra.
Qed.

(** C73.  One step in doubles: its result is within the bound that error analysis gives, for Cramer's rule
    applied to the residuals and to the derivatives as diff() builds them, of the exact Newton step. *)
Theorem C73_step_in_doubles :
  forall (lm : libm) (d : R), accurate lm d -> zero_symmetric lm ->
  forall (q1 q2 : equation (numB64 lm)) (q1' q2' : equation numR) qs qs' gx gy x y a b c e a' b' c' e' zx zy sx sy,
    let v := [gx; gy] : list f64 in let w := at_point x y in
    let f1 := EBin BMinus (fst q1) (snd q1) in let f2 := EBin BMinus (fst q2) (snd q2) in
    diff (numB64 lm) (DVar 0) f1 = Ok a -> diff (numB64 lm) (DVar 1) f1 = Ok b ->
    diff (numB64 lm) (DVar 0) f2 = Ok c -> diff (numB64 lm) (DVar 1) f2 = Ok e ->
    diff numR (DVar 0) (difference q1') = Ok a' -> diff numR (DVar 1) (difference q1') = Ok b' ->
    diff numR (DVar 0) (difference q2') = Ok c' -> diff numR (DVar 1) (difference q2') = Ok e' ->
    bounded d v w (newton_x f1 f2 a b c e) (newton_x (difference q1') (difference q2') a' b' c' e') zx sx ->
    bounded d v w (newton_y f1 f2 a b c e) (newton_y (difference q1') (difference q2') a' b' c' e') zy sy ->
    all_values (n := numB64 lm) finite64 v (newton_x f1 f2 a b c e) ->
    all_values (n := numB64 lm) finite64 v (newton_y f1 f2 a b c e) ->
    exists px py : f64, newton_step (numB64 lm) (q1 :: q2 :: qs) v = Ok [px; py] /\
      newton_step numR (q1' :: q2' :: qs') w = Ok (at_point zx zy) /\ Rabs (B2R px - zx) <= sx /\ Rabs (B2R py - zy) <= sy.
Proof.
  intros lm d A ZS q1 q2 q1' q2' qs qs' gx gy x y a b c e a' b' c' e' zx zy sx sy v w f1 f2 H1 H2 H3 H4 H5 H6 H7 H8 Bx By Ax Ay.
  destruct (step64 lm d A ZS q1 q2 q1' q2' qs qs' gx gy x y a b c e a' b' c' e' zx zy sx sy H1 H2 H3 H4 H5 H6 H7 H8 Bx By Ax Ay)
    as [px [py [St [_ [_ R]]]]]. exists px, py. split; [exact St|exact R].
Qed.
Print Assumptions C73_step_in_doubles.

(** C73.  The solver converges in doubles: under the conditions of C73_solver_converges on the real system meant,
    if near the solution every step in doubles is within [eta] of the exact step and every computed residual
    within [eps] of the exact one, the solver stops from every guess of doubles at distance at most [r], and what it
    returns is at distance at most 8 L / m (1.0001e-10 + eps) from the solution. *)
Theorem C73_solver_converges_in_doubles :
  forall (lm : libm) (q1 q2 : equation (numB64 lm)) qs (q1' q2' : equation numR) a b r L M m eta eps,
    smooth (difference q1') a b r L M -> smooth (difference q2') a b r L M ->
    solves q1' a b -> solves q2' a b -> 0 < m ->
    (forall x y dx1 dy1 dx2 dy2, dist x y a b <= r ->
      gradient (difference q1') x y dx1 dy1 -> gradient (difference q2') x y dx2 dy2 -> m <= Rabs (dx1 * dy2 - dx2 * dy1)) ->
    4 * L * M * r <= m ->
    (forall gx gy x' y', finite64 gx -> finite64 gy -> dist (B2R gx) (B2R gy) a b <= r ->
      newton_step numR [q1'; q2'] (at_point (B2R gx) (B2R gy)) = Ok (at_point x' y') ->
      exists px py : f64, newton_step (numB64 lm) (q1 :: q2 :: qs) [gx; gy] = Ok [px; py] /\ finite64 px /\ finite64 py /\
        dist (B2R px) (B2R py) x' y' <= eta) ->
    (forall q q', (q = q1 /\ q' = q1') \/ (q = q2 /\ q' = q2') ->
      forall gx gy z, finite64 gx -> finite64 gy -> dist (B2R gx) (B2R gy) a b <= r -> valued (difference q') (B2R gx) (B2R gy) z ->
      exists t : f64, eval (numB64 lm) (EBin BMinus (fst q) (snd q)) [gx; gy] = Ok t /\ finite64 t /\ Rabs (B2R t - z) <= eps) ->
    0 < eta <= r / 2 -> L * r + eps <= 1000000000 -> 3 * L * eta + eps <= 6 / 100000000000 ->
    forall gx gy, finite64 gx -> finite64 gy -> dist (B2R gx) (B2R gy) a b <= r ->
    exists K (px py : f64),
      (forall k, (K <= k)%nat -> newton_solve (numB64 lm) k (q1 :: q2 :: qs) [gx; gy] = Ok (Some [px; py])) /\
      finite64 px /\ finite64 py /\ dist (B2R px) (B2R py) a b <= 8 * L / m * (10001 / 10000 * / 10000000000 + eps).
Proof.
  intros lm q1 q2 qs q1' q2' a b r L M m eta eps S1 S2 Z1 Z2 Pm NS C ST RES He Hb Hs gx gy Fx Fy D.
  destruct (solver64 lm q1 q2 qs q1' q2' a b r L M m eta eps S1 S2 (solves_residual _ _ _ Z1) (solves_residual _ _ _ Z2)
    Pm NS C ST RES He Hb Hs gx gy Fx Fy D) as [K [px [py [H [Fpx [Fpy [_ B]]]]]]].
  exists K, px, py. split; [exact H|]. split; [exact Fpx|]. split; [exact Fpy|]. apply (Rmult_le_reg_l m); auto.
  eapply Rle_trans; [exact B|]. right. field. lra.
Qed.
Print Assumptions C73_solver_converges_in_doubles.

(** C73.  The tutorial's system, with any libm, from any guess of doubles within 1/100 of the solution (sqrt 2, 1):
    the solver stops, and what it returns is within 6.01e-10 of the solution. *)
Theorem C73_tutorial_in_doubles :
  forall (lm : libm) (d : R), accurate lm d -> zero_symmetric lm ->
  forall gx gy : f64, finite64 gx -> finite64 gy -> dist (B2R gx) (B2R gy) (sqrt 2) 1 <= 1 / 100 ->
  exists K (px py : f64),
    (forall k, (K <= k)%nat -> newton_solve (numB64 lm) k [tutorial1_64 lm; tutorial2_64 lm] [gx; gy] = Ok (Some [px; py])) /\
    finite64 px /\ finite64 py /\ dist (B2R px) (B2R py) (sqrt 2) 1 <= 601 / 1000000000000.
Proof.
  intros lm d A ZS gx gy Fx Fy D.
  destruct C73_tutorial_case as [S1 [S2 [Z1 [Z2 [Pm [NS [C _]]]]]]].
  destruct (C73_solver_converges_in_doubles lm (tutorial1_64 lm) (tutorial2_64 lm) [] tutorial1 tutorial2 (sqrt 2) 1 (1 / 100) 12 25 16
    (1 / 100000000000000) (1 / 100000000000000) S1 S2 Z1 Z2 Pm NS C) with (gx := gx) (gy := gy) as [K [px [py [H [Fpx [Fpy B]]]]]]; try lra; auto.
  - clear - A ZS. intros gx gy x' y' Fx Fy D E.
    destruct (tutorial_sizes lm d A gx gy Fx Fy D) as
      (_ & _ & f1x & f1y & f2x & f2y & f1x' & f1y' & f2x' & f2y' & zx & zy & D1 & D2 & D3 & D4 & D5 & D6 & D7 & D8 & [_ [sx [Rx [Bx Ax]]]] & [_ [sy [Ry [By Ay]]]]).
    destruct (step64 lm d A ZS (tutorial1_64 lm) (tutorial2_64 lm) tutorial1 tutorial2 [] [] gx gy _ _ _ _ _ _ _ _ _ _ _ _ _ _
      D1 D2 D3 D4 D5 D6 D7 D8 Bx By Ax Ay) as [px [py [St [Fpx [Fpy [Er [Dx Dy]]]]]]].
    rewrite Er in E. injection E as -> ->.
    exists px, py. split; [exact St|]. split; [exact Fpx|]. split; [exact Fpy|]. unfold dist. lra.
  - clear - A. intros q q' Q gx gy z Fx Fy D V. destruct (tutorial_sizes lm d A gx gy Fx Fy D) as [R1 [R2 _]].
    destruct Q as [[-> ->] | [-> ->]];
      [destruct (sized_value lm d A _ _ _ _ _ _ _ R1) as [t [E [F [V' B]]]]|destruct (sized_value lm d A _ _ _ _ _ _ _ R2) as [t [E [F [V' B]]]]];
      exists t; (split; [exact E|]); (split; [exact F|]); pose proof (ok_inj _ _ _ _ V' V) as Q; injection Q as <-; lra.
  - exists K, px, py. split; [exact H|]. split; [exact Fpx|]. split; [exact Fpy|]. lra.
Qed.
Print Assumptions C73_tutorial_in_doubles.

(** The tutorial's own run, from (1, 2): the third step is in reach of the theorem. *)
Example C73_tutorial_run : forall lm,
  let qs := [tutorial1_64 lm; tutorial2_64 lm] in
  exists g1 g2 : f64, B2SF g1 = SpecFloat.S754_finite false 6369145885753397 (-52) /\
    B2SF g2 = SpecFloat.S754_finite false 9006952542766070 (-53) /\
    bind (newton_step (numB64 lm) qs [n_of_Z (numB64 lm) 1; n_of_Z (numB64 lm) 2]) (fun p =>
    bind (newton_step (numB64 lm) qs p) (newton_step (numB64 lm) qs)) = Ok [g1; g2] /\
    finite64 g1 /\ finite64 g2 /\ dist (B2R g1) (B2R g2) (sqrt 2) 1 <= 1 / 100.
Proof.
  intros lm qs.
  assert (B : match bind (newton_step (numB64 lm) qs [n_of_Z (numB64 lm) 1; n_of_Z (numB64 lm) 2]) (fun p =>
    bind (newton_step (numB64 lm) qs p) (newton_step (numB64 lm) qs)) with Ok l => map B2SF l | _ => [] end =
    [SpecFloat.S754_finite false 6369145885753397 (-52); SpecFloat.S754_finite false 9006952542766070 (-53)]) by (vm_compute; reflexivity).
  destruct (bind (newton_step (numB64 lm) qs [n_of_Z (numB64 lm) 1; n_of_Z (numB64 lm) 2]) (fun p =>
    bind (newton_step (numB64 lm) qs p) (newton_step (numB64 lm) qs))) as [l| |]; try discriminate.
  destruct l as [|g1 [|g2 [|]]]; try discriminate.
  cbn [map] in B. injection B as B1 B2. exists g1, g2. split; [exact B1|]. split; [exact B2|]. split; [reflexivity|].
  split; [unfold finite64; rewrite <- is_finite_SF_B2SF, B1; reflexivity|].
  split; [unfold finite64; rewrite <- is_finite_SF_B2SF, B2; reflexivity|].
  rewrite <- !SF2R_B2SF, B1, B2. cbn [SF2R cond_Zopp]. unfold F2R. cbn [Fnum Fexp].
  change (bpow radix2 (-52)) with (/ IZR (Zpower_pos 2 52)). change (bpow radix2 (-53)) with (/ IZR (Zpower_pos 2 53)).
  change (Zpower_pos 2 52) with 4503599627370496%Z. change (Zpower_pos 2 53) with 9007199254740992%Z.
  assert (S : sqrt 2 * sqrt 2 = 2) by (apply sqrt_sqrt; lra). assert (P : 0 <= sqrt 2) by apply sqrt_pos.
  assert (Lo : 1.414 <= sqrt 2) by nra. assert (Hi : sqrt 2 <= 1.415) by nra.
  unfold dist.
  assert (T1 : Rabs (6369145885753397 * / 4503599627370496 - sqrt 2) <= 5 / 1000) by (apply Rabs_le; lra).
  assert (T2 : Rabs (9006952542766070 * / 9007199254740992 - 1) <= 5 / 1000) by (apply Rabs_le; lra). lra.
Qed.
