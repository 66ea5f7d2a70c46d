(** Property C73: the Newton solver of the tutorial. *)
From Coq Require Import ZArith NArith List Bool Reals Lia Lra.
From Verif Require Import Outcome Num RtModel RtSpec NumR NumRFacts RealSpec RtDiff RtDiff2 NewtonModel NewtonSpec NewtonFacts.
Import ListNotations.
Local Open Scope R_scope.

(** C73.  A step solves the linearised system: with the true partial derivatives of the two residuals at
    the guess, f(x, y) + J (x' - x, y' - y) = 0.  If the determinant is zero it yields undefined numbers. *)
Theorem C73_step_solves_linearised_system :
  forall (q1 q2 : equation numR) qs x y w, let v := Some x :: Some y :: w in
    regular (difference q1) v -> regular (difference q2) v ->
    exists r1 r2 a b c d,
      eval numR (difference q1) v = Ok (Some r1) /\ eval numR (difference q2) v = Ok (Some r2) /\
      has_partial (difference q1) v 0 x a /\ has_partial (difference q1) v 1 y b /\
      has_partial (difference q2) v 0 x c /\ has_partial (difference q2) v 1 y d /\
      (a * d - c * b = 0 -> newton_step numR (q1 :: q2 :: qs) v = Ok [None; None]) /\
      (a * d - c * b <> 0 -> exists x' y',
        newton_step numR (q1 :: q2 :: qs) v = Ok [Some x'; Some y'] /\
        r1 + a * (x' - x) + b * (y' - y) = 0 /\ r2 + c * (x' - x) + d * (y' - y) = 0).
Proof.
  intros q1 q2 qs x y w v R1 R2. apply regular_reg in R1. apply regular_reg in R2.
  exists (rv v (difference q1)), (rv v (difference q2)), (rv v (pdiff 0 (difference q1))), (rv v (pdiff 1 (difference q1))),
    (rv v (pdiff 0 (difference q2))), (rv v (pdiff 1 (difference q2))).
  do 2 (split; [now apply reg_eval|]). do 4 (split; [apply partial_of_reg; auto|]).
  unfold v. rewrite (step_value q1 q2 qs x y w R1 R2). fold v. unfold det_at.
  change (residual q1) with (difference q1). change (residual q2) with (difference q2). split; intros D.
  - destruct (Req_EM_T (rv v (pdiff 0 (difference q1)) * rv v (pdiff 1 (difference q2)) - rv v (pdiff 0 (difference q2)) * rv v (pdiff 1 (difference q1))) 0); [reflexivity|contradiction].
  - destruct (Req_EM_T (rv v (pdiff 0 (difference q1)) * rv v (pdiff 1 (difference q2)) - rv v (pdiff 0 (difference q2)) * rv v (pdiff 1 (difference q1))) 0); [contradiction|].
    eexists. eexists. split; [reflexivity|]. split; field; exact D.
Qed.
Print Assumptions C73_step_solves_linearised_system.

(** The system of the tutorial: x^2 + y = 3, x^4 - y^2 = 3. *)
Definition tutorial1 : equation numR := (EBin BPlus (EBin BMult (EVar 0) (EVar 0)) (EVar 1), @EConst numR (Some 3)).
Definition tutorial2 : equation numR :=
  (EBin BMinus (EBin BMult (EBin BMult (EVar 0) (EVar 0)) (EBin BMult (EVar 0) (EVar 0))) (EBin BMult (EVar 1) (EVar 1)),
   @EConst numR (Some 3)).
Lemma tutorial_regular : forall x y, reg (at_point x y) (difference tutorial1) /\ reg (at_point x y) (difference tutorial2).
Proof. intros x y. cbn. repeat split; eauto; eexists; reflexivity. Qed.
Example C73_step_case : regular (difference tutorial1) (at_point 1 2) /\ regular (difference tutorial2) (at_point 1 2).
Proof. split; apply regular_reg; apply tutorial_regular. Qed.

(** C73.  If the solver stops, what it returns is the result of a step, and the norm of the difference
    there is not strictly between 1e-10 and 1e10. *)
Theorem C73_why_it_stops :
  forall k (q1 q2 : equation numR) qs g p, newton_solve numR k (q1 :: q2 :: qs) g = Ok (Some p) ->
    (exists g', newton_step numR (q1 :: q2 :: qs) g' = Ok p) /\
    forall l1 r1 l2 r2, eval numR (fst q1) p = Ok (Some l1) -> eval numR (snd q1) p = Ok (Some r1) ->
      eval numR (fst q2) p = Ok (Some l2) -> eval numR (snd q2) p = Ok (Some r2) ->
      sqrt ((l1 - r1) ^ 2 + (l2 - r2) ^ 2) <= 1 / 10000000000 \/ 10000000000 <= sqrt ((l1 - r1) ^ 2 + (l2 - r2) ^ 2).
Proof.
  intros k q1 q2 qs g p H. destruct (why_it_stops k _ g p H) as [g' [norm [St [Nm W]]]]. split; [eauto|].
  intros l1 r1 l2 r2 A B C D. apply W. rewrite (norm_of_sides q1 q2 qs p l1 r1 l2 r2 A B C D) in Nm. congruence.
Qed.
Print Assumptions C73_why_it_stops.

(** C73.  Near a solution (a, b) a step squares the error: if up to distance [r] the residuals are
    differentiable with first derivatives at most [L] and second derivatives, as computed by diff(), at most
    [M], and the determinant of the Jacobian is at least [m] in absolute value, then the distance of the
    new point from (a, b) is at most 2 L M / m times the square of that of the old one. *)
Theorem C73_quadratic_convergence :
  forall (q1 q2 : equation numR) qs a b r L M m,
    smooth (difference q1) a b r L M -> smooth (difference q2) a b r L M ->
    solves q1 a b -> solves q2 a b -> 0 < m ->
    (forall x y dx1 dy1 dx2 dy2, dist x y a b <= r ->
      gradient (difference q1) x y dx1 dy1 -> gradient (difference q2) x y dx2 dy2 -> m <= Rabs (dx1 * dy2 - dx2 * dy1)) ->
    forall x y, dist x y a b <= r ->
    exists x' y', newton_step numR (q1 :: q2 :: qs) (at_point x y) = Ok (at_point x' y') /\
      dist x' y' a b <= 2 * L * M / m * dist x y a b ^ 2.
Proof.
  intros q1 q2 qs a b r L M m S1 S2 Z1 Z2 Pm NS x y D.
  destruct (step_contracts q1 q2 qs a b r L M m S1 S2 (solves_residual _ _ _ Z1) (solves_residual _ _ _ Z2) Pm NS x y D) as [x' [y' [E C]]].
  exists x', y'. split; [exact E|]. apply (Rmult_le_reg_l m); auto.
  eapply Rle_trans; [exact C|]. right. field. lra.
Qed.
Print Assumptions C73_quadratic_convergence.

(** C73.  If moreover 4 L M r <= m (and the residuals stay below 1e10), the solver stops from every guess
    at distance at most [r], and what it returns is at distance at most 8 L / m 1e-10 from the solution. *)
Theorem C73_solver_converges :
  forall (q1 q2 : equation numR) qs a b r L M m,
    smooth (difference q1) a b r L M -> smooth (difference q2) a b r L M ->
    solves q1 a b -> solves q2 a b -> 0 < m ->
    (forall x y dx1 dy1 dx2 dy2, dist x y a b <= r ->
      gradient (difference q1) x y dx1 dy1 -> gradient (difference q2) x y dx2 dy2 -> m <= Rabs (dx1 * dy2 - dx2 * dy1)) ->
    4 * L * M * r <= m -> 2 * L * r < 10000000000 ->
    forall x y, dist x y a b <= r ->
    exists K x' y',
      (forall k, (K <= k)%nat -> newton_solve numR k (q1 :: q2 :: qs) (at_point x y) = Ok (Some (at_point x' y'))) /\
      dist x' y' a b <= 8 * L / m / 10000000000.
Proof.
  intros q1 q2 qs a b r L M m S1 S2 Z1 Z2 Pm NS C C2 x y D.
  destruct (solver_converges q1 q2 qs a b r L M m S1 S2 (solves_residual _ _ _ Z1) (solves_residual _ _ _ Z2) Pm NS C C2 x y D) as [K [x' [y' [H B]]]].
  exists K, x', y'. split; [exact H|]. apply (Rmult_le_reg_l m); auto.
  eapply Rle_trans; [exact B|]. right. field. lra.
Qed.
Print Assumptions C73_solver_converges.

(** The tutorial's system around its solution (sqrt 2, 1). *)
Example C73_tutorial_case :
  let a := sqrt 2 in let b := 1 in let r := 1 / 100 in let L := 12 in let M := 25 in let m := 16 in
  smooth (difference tutorial1) a b r L M /\ smooth (difference tutorial2) a b r L M /\
  solves tutorial1 a b /\ solves tutorial2 a b /\ 0 < m /\
  (forall x y dx1 dy1 dx2 dy2, dist x y a b <= r ->
    gradient (difference tutorial1) x y dx1 dy1 -> gradient (difference tutorial2) x y dx2 dy2 ->
    m <= Rabs (dx1 * dy2 - dx2 * dy1)) /\
  4 * L * M * r <= m /\ 2 * L * r < 10000000000.
Proof.
  cbv zeta.
  assert (S : sqrt 2 * sqrt 2 = 2) by (apply sqrt_sqrt; lra).
  assert (P : 0 <= sqrt 2) by apply sqrt_pos.
  assert (Lo : 1.414 <= sqrt 2) by nra. assert (Hi : sqrt 2 <= 1.415) by nra.
  assert (Box : forall x y, dist x y (sqrt 2) 1 <= 1 / 100 -> (1.404 <= x <= 1.425) /\ (0.99 <= y <= 1.01)).
  { intros x y D. unfold dist in D. pose proof (Rabs_pos (x - sqrt 2)). pose proof (Rabs_pos (y - 1)).
    assert (A1 : Rabs (x - sqrt 2) <= 1 / 100) by lra. assert (A2 : Rabs (y - 1) <= 1 / 100) by lra.
    pose proof (Rle_abs (x - sqrt 2)). pose proof (Rle_abs (y - 1)).
    pose proof (Rle_abs (- (x - sqrt 2))) as C1. pose proof (Rle_abs (- (y - 1))) as C2. rewrite Rabs_Ropp in C1, C2. lra. }
  assert (Cube : forall x, 1.404 <= x <= 1.425 -> 2.76 <= x * (x * x) <= 2.9).
  { intros x Bx. assert (1.97 <= x * x <= 2.031) by nra. split.
    - apply Rle_trans with (1.404 * 1.97); [lra|apply Rmult_le_compat; lra].
    - apply Rle_trans with (1.425 * 2.031); [apply Rmult_le_compat; lra|lra]. }
  split; [|split; [|split; [|split; [|split; [lra|split; [|split; lra]]]]]].
  - intros x y D. destruct (Box x y D) as [Bx By]. destruct (tutorial_regular x y) as [R1 _].
    split; [now apply regular_reg|]. split.
    + apply second_intro; [exact R1|]. intros i j [->| ->] [->| ->]; values; apply Rabs_le; lra.
    + intros dx dy G. apply (gradient_value _ _ _ _ _ R1) in G. destruct G as [-> ->]. values. split; apply Rabs_le; lra.
  - intros x y D. destruct (Box x y D) as [Bx By]. destruct (tutorial_regular x y) as [_ R2].
    split; [now apply regular_reg|]. split.
    + apply second_intro; [exact R2|]. assert (1.97 <= x * x <= 2.031) by nra.
      intros i j [->| ->] [->| ->]; values; apply Rabs_le; split; lra.
    + intros dx dy G. apply (gradient_value _ _ _ _ _ R2) in G. destruct G as [-> ->]. values.
      pose proof (Cube x Bx). split; apply Rabs_le; split; lra.
  - exists 3. split; [|reflexivity]. unfold valued. values. do 2 f_equal. rewrite S. ring.
  - exists 3. split; [|reflexivity]. unfold valued. values. do 2 f_equal. rewrite S. ring.
  - intros x y dx1 dy1 dx2 dy2 D G1 G2. destruct (Box x y D) as [Bx By]. destruct (tutorial_regular x y) as [R1 R2].
    apply (gradient_value _ _ _ _ _ R1) in G1. destruct G1 as [-> ->].
    apply (gradient_value _ _ _ _ _ R2) in G2. destruct G2 as [-> ->]. values.
    pose proof (Cube x Bx). assert (1.404 * 0.99 <= x * y) by (apply Rmult_le_compat; lra).
    rewrite <- Rabs_Ropp. eapply Rle_trans; [|apply Rle_abs]. lra.
Qed.

(** C73.  A linear system is solved by the first step, wherever it starts. *)
Theorem C73_linear_systems_in_one_step :
  forall (q1 q2 : equation numR) qs a1 b1 c1 a2 b2 c2 x y,
    (forall s t, valued (difference q1) s t (a1 * s + b1 * t + c1)) ->
    (forall s t, valued (difference q2) s t (a2 * s + b2 * t + c2)) ->
    regular (difference q1) (at_point x y) -> regular (difference q2) (at_point x y) -> a1 * b2 - a2 * b1 <> 0 ->
    exists x' y', a1 * x' + b1 * y' + c1 = 0 /\ a2 * x' + b2 * y' + c2 = 0 /\
      forall k, newton_solve numR (S k) (q1 :: q2 :: qs) (at_point x y) = Ok (Some (at_point x' y')).
Proof.
  intros q1 q2 qs a1 b1 c1 a2 b2 c2 x y V1 V2 R1 R2 D.
  destruct (C73_step_solves_linearised_system q1 q2 qs x y [] R1 R2) as [r1 [r2 [a [b [c [d [E1 [E2 [P1 [P2 [P3 [P4 [_ St]]]]]]]]]]]]].
  assert (LX : forall e a b c, (forall s t, valued e s t (a * s + b * t + c)) -> gradient e x y a b).
  { intros e a' b' c' V. exact (linear_gradient e a' b' c' x y V). }
  destruct (LX _ _ _ _ V1) as [G1 G2]. destruct (LX _ _ _ _ V2) as [G3 G4].
  rewrite (partial_unique _ _ _ _ _ _ P1 G1) in *. rewrite (partial_unique _ _ _ _ _ _ P2 G2) in *.
  rewrite (partial_unique _ _ _ _ _ _ P3 G3) in *. rewrite (partial_unique _ _ _ _ _ _ P4 G4) in *.
  destruct (St D) as [x' [y' [S [L1 L2]]]].
  pose proof (V1 x y) as W1. pose proof (V2 x y) as W2. unfold valued in W1, W2.
  change [Some x; Some y] with (at_point x y) in E1, E2, S.
  rewrite E1 in W1. rewrite E2 in W2. injection W1 as ->. injection W2 as ->.
  assert (Z1 : a1 * x' + b1 * y' + c1 = 0) by lra. assert (Z2 : a2 * x' + b2 * y' + c2 = 0) by lra.
  exists x', y'. split; [exact Z1|]. split; [exact Z2|]. intros k.
  pose proof (V1 x' y') as W1. pose proof (V2 x' y') as W2. unfold valued in W1, W2. rewrite Z1 in W1. rewrite Z2 in W2.
  assert (NM : newton_norm numR (q1 :: q2 :: qs) (at_point x' y') = Ok (Some 0)).
  { unfold newton_norm. change (residual q1) with (difference q1). change (residual q2) with (difference q2). rewrite W1, W2. cbn. rewrite (proj2 (r_leb_true 0 (0 * 0 + 0 * 0))) by lra.
    do 2 f_equal. replace (0 * 0 + 0 * 0) with 0 by ring. apply sqrt_0. }
  assert (T0 : gt numR (Some 0) (n_div numR (n_of_Z numR 1) (n_of_Z numR 10000000000)) && lt numR (Some 0) (n_of_Z numR 10000000000) = false).
  { apply not_true_is_false. rewrite loop_test. lra. }
  unfold newton_solve. cbn [newton_loop]. change (n_of_Z numR 1) with (Some 1) at 1 3. rewrite (proj2 (loop_test 1)) by (split; lra).
  rewrite S. change [Some x'; Some y'] with (at_point x' y'). cbn [bind]. rewrite NM. cbn [bind].
  destruct k; cbn [newton_loop]; rewrite T0; reflexivity.
Qed.
Print Assumptions C73_linear_systems_in_one_step.

(** 2 x - y = 1, x + y = 5 *)
Example C73_linear_case :
  let q1 : equation numR := (EBin BMinus (EBin BMult (@EConst numR (Some 2)) (EVar 0)) (EVar 1), @EConst numR (Some 1)) in
  let q2 : equation numR := (EBin BPlus (EVar 0) (EVar 1), @EConst numR (Some 5)) in
  (forall s t, valued (difference q1) s t (2 * s + -1 * t + -1)) /\ (forall s t, valued (difference q2) s t (1 * s + 1 * t + -5)) /\
  regular (difference q1) (at_point 7 7) /\ regular (difference q2) (at_point 7 7) /\ 2 * 1 - 1 * -1 <> 0.
Proof.
  cbv zeta. split; [|split; [|split; [|split]]].
  - intros s t. unfold valued. values. do 2 f_equal. ring.
  - intros s t. unfold valued. values. do 2 f_equal. ring.
  - apply regular_reg. cbn. repeat split; eauto; eexists; reflexivity.
  - apply regular_reg. cbn. repeat split; eauto; eexists; reflexivity.
  - lra.
Qed.

(** It stops: hypothesis of [C73_why_it_stops]. *)
Example C73_stops_case :
  exists p, newton_solve numR 1 [(EBin BMinus (EBin BMult (@EConst numR (Some 2)) (EVar 0)) (EVar 1), @EConst numR (Some 1));
    (EBin BPlus (EVar 0) (EVar 1), @EConst numR (Some 5))] (at_point 7 7) = Ok (Some p).
Proof.
  destruct C73_linear_case as [A [B [C [D E]]]].
  destruct (C73_linear_systems_in_one_step _ _ [] _ _ _ _ _ _ _ _ A B C D E) as [x' [y' [_ [_ H]]]].
  exists (at_point x' y'). exact (H 0%nat).
Qed.

(** C73: the solver returns numbers that solve nothing.  If the determinant is zero at the guess, and
    the residuals use the variables, it stops after one step and returns undefined numbers: the test of
    the loop does not hold for them. *)
Theorem C73_singular_jacobian_refuted :
  forall (q1 q2 : equation numR) qs x y a b c d,
    regular (difference q1) (at_point x y) -> regular (difference q2) (at_point x y) ->
    gradient (difference q1) x y a b -> gradient (difference q2) x y c d -> a * d - c * b = 0 ->
    newton_norm numR (q1 :: q2 :: qs) [None; None] = Ok None ->
    forall k, newton_solve numR (S k) (q1 :: q2 :: qs) (at_point x y) = Ok (Some [None; None]).
Proof.
  intros q1 q2 qs x y a b c d R1 R2 [G1 G2] [G3 G4] D N k.
  destruct (C73_step_solves_linearised_system q1 q2 qs x y [] R1 R2) as [r1 [r2 [a' [b' [c' [d' [_ [_ [P1 [P2 [P3 [P4 [St _]]]]]]]]]]]]].
  rewrite (partial_unique _ _ _ _ _ _ P1 G1), (partial_unique _ _ _ _ _ _ P2 G2),
    (partial_unique _ _ _ _ _ _ P3 G3), (partial_unique _ _ _ _ _ _ P4 G4) in St.
  unfold newton_solve. cbn [newton_loop]. change (n_of_Z numR 1) with (Some 1) at 1 3. rewrite (proj2 (loop_test 1)) by (split; lra).
  unfold at_point. rewrite (St D). cbn [bind]. rewrite N. cbn [bind]. destruct k; reflexivity.
Qed.
Print Assumptions C73_singular_jacobian_refuted.

(** The tutorial's system at (0, 5), where the Jacobian is singular. *)
Example C73_singular_case :
  regular (difference tutorial1) (at_point 0 5) /\ regular (difference tutorial2) (at_point 0 5) /\
  gradient (difference tutorial1) 0 5 0 1 /\ gradient (difference tutorial2) 0 5 0 (-10) /\ 0 * -10 - 0 * 1 = 0 /\
  newton_norm numR [tutorial1; tutorial2] [None; None] = Ok None.
Proof.
  destruct (tutorial_regular 0 5) as [R1 R2].
  split; [now apply regular_reg|]. split; [now apply regular_reg|].
  pose proof (gradient_of _ _ _ R1) as G1. pose proof (gradient_of _ _ _ R2) as G2. values_in G1. values_in G2.
  split; [|split; [|split; [ring|reflexivity]]].
  - match type of G1 with gradient _ _ _ ?u ?w => assert (E : u = 0) by ring; assert (F : w = 1) by ring end.
    rewrite E, F in G1. exact G1.
  - match type of G2 with gradient _ _ _ ?u ?w => assert (E : u = 0) by ring; assert (F : w = -10) by ring end.
    rewrite E, F in G2. exact G2.
Qed.

(** C73: further entries of the guess, read by the first step as parameters, are lost by it. *)
Theorem C73_step_keeps_two_entries :
  forall (n : num) qs g g', newton_step n qs g = Ok g' -> length g' = 2%nat.
Proof.
  intros n qs g g' H. destruct qs as [|q1 [|q2 qs]]; try discriminate. unfold newton_step in H.
  repeat match type of H with bind ?o _ = _ => destruct o; try discriminate; cbn [bind] in H end.
  destruct g as [|x [|y g]]; try discriminate. now injection H as <-.
Qed.
Print Assumptions C73_step_keeps_two_entries.

(** C73: x0 + x2 = 1, x1 = 2 from (0, 0, 1) is a system in x0, x1, but the solver throws. *)
Theorem C73_parameters_lost_refuted :
  let q1 : equation numR := (EBin BPlus (EVar 0) (EVar 2), @EConst numR (Some 1)) in
  let q2 : equation numR := (EVar 1, @EConst numR (Some 2)) in
  newton_step numR [q1; q2] [Some 0; Some 0; Some 1] = Ok [Some 0; Some 2] /\
  forall k, newton_solve numR (S k) [q1; q2] [Some 0; Some 0; Some 1] = Throw (VariableIndexOutOfBounds 2 2).
Proof.
  intros q1 q2.
  assert (S : newton_step numR [q1; q2] [Some 0; Some 0; Some 1] = Ok [Some 0; Some 2]).
  { rewrite (step_value q1 q2 [] 0 0 [Some 1]); [|cbn; repeat split; eauto; eexists; reflexivity|cbn; repeat split; eauto; eexists; reflexivity]. unfold det_at. cbn.
    change (Pos.to_nat 1) with 1%nat; change (Pos.to_nat 2) with 2%nat; cbn.
    destruct (Req_EM_T _ 0) as [E|E]; [exfalso; lra|]. repeat f_equal; field; lra. }
  split; [exact S|]. intros k. unfold newton_solve. cbn [newton_loop]. change (n_of_Z numR 1) with (Some 1) at 1 3.
  rewrite (proj2 (loop_test 1)) by (split; lra). rewrite S. reflexivity.
Qed.
Print Assumptions C73_parameters_lost_refuted.
