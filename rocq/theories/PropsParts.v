(** C84: integrals over many small intervals.  (Only the theorems; vocabulary in PartsSpec.v, supporting facts in
    PartsFacts.v.) *)
From Coq Require Import ZArith NArith Reals List Bool Lia Lra.
From Flocq Require Import Core BinarySingleNaN.
From Coquelicot Require Import Coquelicot.
From Verif Require Import Outcome Num RtModel RtSpec RtFacts RtStep RtTermination RtValue RtEval RtSubst NumR NumRFacts RealSpec RtDiff
  RtDiff2 NumB64 NumB64Facts ErrSpec ErrFacts DataSpec DataFacts QuadModel QuadSpec QuadFacts CalcFacts PartsSpec PartsFacts
  PropsQuad PropsCalc PropsData.
Import ListNotations.
Local Open Scope R_scope.

(** C84.  A smooth integrand: if [e] adds integrals of [f] over parts that lead from [A] to [B], stay between [P] and [Q] and are
    no longer than [h], and diff(diff(f, x), x) is at most [M] between [P] and [Q], then the quadrature of [e] differs from
    the integral of [f] from [A] to [B] by at most M h^2 / 24 times the total length of the parts. *)
Theorem C84_smooth_integrands :
  forall (e f d2 : expr numR) (x : N) (v : list (option R)) (A B P Q h M : R) (parts : list (R * R)),
    leads x f e A B parts -> parts_within P Q h parts ->
    (forall i, occurs_var i f -> i = x) -> (x < N.of_nat (length v))%N ->
    (forall t, P <= t <= Q -> regular f (update v (N.to_nat x) (Some t))) ->
    diff_times x 2 f = Ok d2 ->
    (forall t r, P <= t <= Q -> eval numR d2 (update v (N.to_nat x) (Some t)) = Ok (Some r) -> Rabs r <= M) ->
    exists q J g,
      quadrature numR (gauss_quad_1 numR) e = Ok (Some q) /\
      (forall t, P <= t <= Q -> eval numR f (update v (N.to_nat x) (Some t)) = Ok (Some (g t))) /\
      is_RInt g A B J /\ Rabs (q - J) <= M * total_length parts * h ^ 2 / 24.
Proof.
  intros e f d2 x v A B P Q h M parts D W O L Rg E2 Bd.
  destruct (smooth_midpoint f d2 x v P Q M L Rg E2 Bd) as [g [G K]].
  destruct (error_of_parts x f v g P Q h (M * h ^ 2 / 24) O L G (K h) e A B parts D W) as [q [J [Iq [HJ E]]]].
  exists q, J, g. split; [apply C29_quadrature_is_additive; exact Iq|]. split; [exact G|]. split; [exact HJ|].
  replace (M * total_length parts * h ^ 2 / 24) with (M * h ^ 2 / 24 * total_length parts) by field. exact E.
Qed.
Print Assumptions C84_smooth_integrands.

(** C84.  A continuous integrand: the error is at most [eps] times the total length of the parts as soon as they are short
    enough, wherever they are. *)
Theorem C84_continuous_integrands :
  forall (f : expr numR) (x : N) (v : list (option R)) (g : R -> R) (P Q : R),
    (forall i, occurs_var i f -> i = x) -> (x < N.of_nat (length v))%N ->
    (forall t, P <= t <= Q -> eval numR f (update v (N.to_nat x) (Some t)) = Ok (Some (g t)) /\ continuity_pt g t) ->
    forall eps, 0 < eps -> exists h, 0 < h /\
    forall (e : expr numR) (A B : R) (parts : list (R * R)),
      leads x f e A B parts -> parts_within P Q h parts ->
      exists q J, quadrature numR (gauss_quad_1 numR) e = Ok (Some q) /\ is_RInt g A B J /\
        Rabs (q - J) <= eps * total_length parts.
Proof.
  intros f x v g P Q O L H eps He.
  destruct (midpoint_of_continuous g P Q (fun t T => proj2 (H t T)) eps He) as [h [Hh K]].
  exists h. split; [exact Hh|]. intros e A B parts D W.
  destruct (error_of_parts x f v g P Q h eps O L (fun t T => proj1 (H t T)) K e A B parts D W) as [q [J [Iq [HJ E]]]].
  exists q, J. split; [apply C29_quadrature_is_additive; exact Iq|]. auto.
Qed.
Print Assumptions C84_continuous_integrands.

(** C84.  The integral from [A] to [B] as a sum over [N] = k + 1 equal parts: the error is at most M |B - A|^3 / (24 N^2), so four
    times smaller when the parts are halved. *)
Theorem C84_equal_parts :
  forall (f d2 : expr numR) (x : N) (v : list (option R)) (A B M : R) (k : nat),
    (forall i, occurs_var i f -> i = x) -> (x < N.of_nat (length v))%N ->
    (forall t, Rmin A B <= t <= Rmax A B -> regular f (update v (N.to_nat x) (Some t))) ->
    diff_times x 2 f = Ok d2 ->
    (forall t r, Rmin A B <= t <= Rmax A B -> eval numR d2 (update v (N.to_nat x) (Some t)) = Ok (Some r) -> Rabs r <= M) ->
    exists q J g,
      quadrature numR (gauss_quad_1 numR) (equal_parts x f A ((B - A) / INR (S k)) k) = Ok (Some q) /\
      (forall t, Rmin A B <= t <= Rmax A B -> eval numR f (update v (N.to_nat x) (Some t)) = Ok (Some (g t))) /\
      is_RInt g A B J /\ Rabs (q - J) <= M * Rabs (B - A) ^ 3 / (24 * INR (S k) ^ 2).
Proof.
  intros f d2 x v A B M k O L Rg E2 Bd.
  destruct (equal_parts_within_all x f A B k) as [s [D [T W]]].
  destruct (C84_smooth_integrands _ f d2 x v A B _ _ _ M s D W O L Rg E2 Bd) as [q [J [g [Eq [G [HJ E]]]]]].
  exists q, J, g. split; [exact Eq|]. split; [exact G|]. split; [exact HJ|].
  rewrite T in E. assert (K : 0 < INR (S k)) by (apply lt_0_INR; lia).
  replace (M * Rabs (B - A) ^ 3 / (24 * INR (S k) ^ 2)) with (M * Rabs (B - A) * (Rabs (B - A) / INR (S k)) ^ 2 / 24); [exact E|].
  field. lra.
Qed.
Print Assumptions C84_equal_parts.

(** C84.  For every continuous integrand the sums over equal parts converge to the integral. *)
Theorem C84_equal_parts_converge :
  forall (f : expr numR) (x : N) (v : list (option R)) (g : R -> R) (A B : R),
    (forall i, occurs_var i f -> i = x) -> (x < N.of_nat (length v))%N ->
    (forall t, Rmin A B <= t <= Rmax A B ->
       eval numR f (update v (N.to_nat x) (Some t)) = Ok (Some (g t)) /\ continuity_pt g t) ->
    exists J, is_RInt g A B J /\
    forall eps, 0 < eps -> exists k0, forall k, (k0 <= k)%nat ->
      exists q, quadrature numR (gauss_quad_1 numR) (equal_parts x f A ((B - A) / INR (S k)) k) = Ok (Some q) /\
        Rabs (q - J) <= eps.
Proof.
  intros f x v g A B O L H.
  destruct (ex_RInt_continuous (V := R_CompleteNormedModule) g A B) as [J HJ].
  { intros t T. apply continuity_pt_filterlim. apply H. exact T. }
  exists J. split; [exact HJ|]. intros eps He.
  pose proof (Rabs_pos (B - A)) as P.
  destruct (C84_continuous_integrands f x v g _ _ O L H (eps / (Rabs (B - A) + 1))) as [h [Hh K]].
  { apply Rdiv_lt_0_compat; lra. }
  destruct (short_enough (Rabs (B - A)) h Hh) as [k0 Hk]. exists k0. intros k Lk.
  destruct (equal_parts_within_all x f A B k) as [s [D [T W]]].
  assert (W' : parts_within (Rmin A B) (Rmax A B) h s).
  { intros a b I. destruct (W a b I) as [Wa [Wb Wh]]. split; [exact Wa|]. split; [exact Wb|]. specialize (Hk k Lk). lra. }
  destruct (K _ A B s D W') as [q [J' [Eq [HJ' E]]]]. exists q. split; [exact Eq|].
  replace J' with J in E by (transitivity (RInt g A B); [symmetry|]; apply is_RInt_unique; assumption).
  rewrite T in E. apply Rle_trans with (1 := E).
  replace (eps / (Rabs (B - A) + 1) * Rabs (B - A)) with (eps * (Rabs (B - A) / (Rabs (B - A) + 1))) by (field; lra).
  rewrite <- (Rmult_1_r eps) at 2. apply Rmult_le_compat_l; [lra|].
  apply (Rmult_le_reg_r (Rabs (B - A) + 1)); [lra|]. unfold Rdiv. rewrite Rmult_assoc, Rinv_l by lra. lra.
Qed.
Print Assumptions C84_equal_parts_converge.

(** C84.  The same in doubles: the double the quadrature returns differs from the integral of the function meant by at most the
    bound for the roundings plus M h^2 / 24 times the total length of the parts, if it is finite. *)
Theorem C84_parts_in_doubles :
  forall (lm : libm) (d : R), accurate lm d -> zero_symmetric lm ->
  forall (e : expr f64) (e' f' d2 : expr numR) (x : N) (v : list (option R)) (A B P Q h M z r : R) (parts : list (R * R)),
    rounded_sum lm d e e' z r ->
    leads x f' e' A B parts -> parts_within P Q h parts ->
    (forall i, occurs_var i f' -> i = x) -> (x < N.of_nat (length v))%N ->
    (forall t, P <= t <= Q -> regular f' (update v (N.to_nat x) (Some t))) ->
    diff_times x 2 f' = Ok d2 ->
    (forall t s, P <= t <= Q -> eval numR d2 (update v (N.to_nat x) (Some t)) = Ok (Some s) -> Rabs s <= M) ->
    exists (q : f64) (J : R) (g : R -> R),
      quadrature (numB64 lm) (gauss_quad_1 (numB64 lm)) e = Ok q /\
      (forall t, P <= t <= Q -> eval numR f' (update v (N.to_nat x) (Some t)) = Ok (Some (g t))) /\
      is_RInt g A B J /\
      (finite64 q -> Rabs (B2R q - J) <= r + M * total_length parts * h ^ 2 / 24).
Proof.
  intros lm d AC ZS e e' f' d2 x v A B P Q h M z r parts H D W O L Rg E2 Bd.
  destruct (rounded_sum_ok lm d AC ZS e e' z r H) as [Iz [q [Eq Bq]]].
  destruct (C84_smooth_integrands e' f' d2 x v A B P Q h M parts D W O L Rg E2 Bd) as [z' [J [g [Ez [G [HJ E]]]]]].
  apply C29_quadrature_is_additive in Iz. pose proof (ok_inj _ _ _ _ Iz Ez) as K. injection K as <-.
  exists q, J, g. split; [exact Eq|]. split; [exact G|]. split; [exact HJ|]. intros F. specialize (Bq F).
  replace (B2R q - J) with ((B2R q - z) + (z - J)) by ring. eapply Rle_trans; [apply Rabs_triang|lra].
Qed.
Print Assumptions C84_parts_in_doubles.

(** sin(x) from 0 to 2 in k + 1 equal parts, and 1 / x from 1 to 3, as the integral from 1 to 2 minus that from 3 to 2. *)
Example C84_case :
  (forall k, exists q, quadrature numR (gauss_quad_1 numR) (equal_parts 0 (EUn USin (EVar 0)) 0 ((2 - 0) / INR (S k)) k) = Ok (Some q) /\
     Rabs (q - (1 - cos 2)) <= / (3 * INR (S k) ^ 2)) /\
  let c (r : R) : expr numR := @EConst (option R) (Some r) in
  let f : expr numR := EBin BDiv (c 1) (EVar 0) in
  leads 0 f (EBin BMinus (EInt (c 1) (c 2) 0 f) (EInt (c 3) (EBin BPlus (c 1) (c 1)) 0 f)) 1 3 [(1, 2); (3, 2)] /\
  parts_within 1 3 1 [(1, 2); (3, 2)] /\ total_length [(1, 2); (3, 2)] = 2 /\
  quadrature numR (gauss_quad_1 numR) (EBin BMinus (EInt (c 1) (c 2) 0 f) (EInt (c 3) (EBin BPlus (c 1) (c 1)) 0 f)) =
    Ok (Some (2 / 3 + 2 / 5)).
Proof.
  split.
  - intros k. destruct C55_case as [Rg [d2 [E2 Bd]]].
    destruct (C84_equal_parts (EUn USin (EVar 0)) d2 0 [None] 0 2 1 k) as [q [J [g [Eq [G [HJ E]]]]]];
      [|reflexivity|exact Rg|exact E2|intros t r _; apply Bd|].
    { intros i S. unfold occurs_var in S. repeat match goal with H : subterm _ _ |- _ => inversion H; subst; clear H end. reflexivity. }
    exists q. split; [exact Eq|].
    assert (HJ' : is_RInt g 0 2 (1 - cos 2)).
    { apply (is_RInt_ext sin).
      - intros t T. rewrite Rmin_left, Rmax_right in T by lra. specialize (G t). rewrite Rmin_left, Rmax_right in G by lra.
        specialize (G ltac:(lra)). simpl in G. inversion G. reflexivity.
      - replace (1 - cos 2) with (minus ((fun t => - cos t) 2) ((fun t => - cos t) 0))
          by (unfold minus, plus, opp; simpl; rewrite cos_0; ring).
        apply (is_RInt_derive (fun t => - cos t) sin).
        + intros t _. auto_derive; auto; ring.
        + intros t _. apply continuity_pt_filterlim. apply continuity_sin. }
    replace J with (1 - cos 2) in E
      by (transitivity (RInt g 0 2); [symmetry|]; apply is_RInt_unique; assumption).
    assert (K : 0 < INR (S k)) by (apply lt_0_INR; lia).
    replace (/ (3 * INR (S k) ^ 2)) with (1 * Rabs (2 - 0) ^ 3 / (24 * INR (S k) ^ 2)); [exact E|].
    rewrite Rabs_pos_eq by lra. field. lra.
  - intros c f.
    assert (Lc : forall r, const_only (c r)) by (intros r; apply const_only_const).
    assert (L2 : const_only (EBin BPlus (c 1) (c 1))).
    { intros s S. repeat match goal with H : subterm _ _ |- _ => inversion H; subst; clear H end; simpl; auto; discriminate. }
    assert (E2 : eval numR (EBin BPlus (c 1) (c 1)) [] = Ok (Some 2)) by (simpl; do 2 f_equal; lra).
    assert (O : forall i, occurs_var i f -> i = 0%N).
    { intros i S. unfold occurs_var, f, c in S. repeat match goal with H : subterm _ _ |- _ => inversion H; subst; clear H end. reflexivity. }
    assert (inv : forall t y : R, t <> 0 -> 1 / t = y -> eval numR f (update [None] (N.to_nat 0) (Some t)) = Ok (Some y)).
    { intros t y T <-. unfold f, c. simpl. unfold r_eqb. destruct (Req_EM_T t 0); [contradiction|]. reflexivity. }
    split; [|split; [|split]].
    + apply (le_minus 0 f _ _ 1 2 3 [(1, 2)] [(3, 2)]); apply le_one; auto.
    + intros a b [H|[H|[]]]; inversion H; subst; repeat split; try lra; apply Rabs_le; lra.
    + simpl. rewrite Rabs_pos_eq by lra. rewrite Rabs_left by lra. lra.
    + apply C29_quadrature_is_additive. replace (2 / 3 + 2 / 5) with (2 / 3 - - (2 / 5)) by lra.
      apply is_minus; apply is_int.
      * replace (Ok (Some (2 / 3))) with (Ok (Some (2 / 3 * (2 - 1)))) by (do 2 f_equal; lra).
        apply (gauss_value _ _ 0 f [None] 1 2); auto; [reflexivity|apply inv; lra].
      * replace (Ok (Some (- (2 / 5)))) with (Ok (Some (2 / 5 * (2 - 3)))) by (do 2 f_equal; lra).
        apply (gauss_value _ _ 0 f [None] 3 2); auto; [reflexivity|apply inv; lra].
Qed.

(** x * x from 0 to 0.1 plus from 0.1 to 2, with the double 0.1 for 1/10: the computed sum is finite. *)
Example C84_case_in_doubles : forall lm d,
  let f {T} : expr T := EBin BMult (EVar 0) (EVar 0) in
  let a : expr f64 := EConst (c0 (numB64 lm)) in let b : expr f64 := EConst tenth64 in let c : expr f64 := EConst (c2 (numB64 lm)) in
  let k (r : R) : expr numR := @EConst numR (Some r) in
  let e' : expr numR := EBin BPlus (EInt (k 0) (k (/ 10)) 0 f) (EInt (k (/ 10)) (k 2) 0 f) in
  (exists z r, rounded_sum lm d (EBin BPlus (EInt a b 0 f) (EInt b c 0 f)) e' z r) /\
  leads 0 f e' 0 2 [(0, / 10); (/ 10, 2)] /\
  exists q, quadrature (numB64 lm) (gauss_quad_1 (numB64 lm)) (EBin BPlus (EInt a b 0 f) (EInt b c 0 f)) = Ok q /\ finite64 q.
Proof.
  intros lm d. cbv zeta.
  assert (K : Rabs (B2R (c2 (numB64 lm)) - 2) < Rabs 2).
  { assert (C2 : B2R (c2 (numB64 lm)) = 2) by (cbv; lra). rewrite C2, Rminus_eq_0, Rabs_R0. apply Rabs_pos_lt. lra. }
  split; [|split].
  - do 2 eexists. apply rs_plus; (apply rs_int; [intros s S; inversion S; exact Logic.I|intros s S; inversion S; exact Logic.I| |]).
    1,3: unfold rule_tree; cbn [replace_vars N.eqb]; unfold midpoint;
      (apply b_mult; [apply b_mult|apply b_minus; apply b_const]; (apply b_div; [apply b_plus; apply b_const|apply b_const|exact K])).
    1,2: intros t T; unfold rule_tree, midpoint in T; cbn [replace_vars N.eqb] in T;
      repeat match goal with H : subterm _ _ |- _ => inversion H; subst; clear H end; (eexists; split; [reflexivity|]); vm_compute; reflexivity.
  - apply (le_plus 0 _ _ _ 0 (/ 10) 2 [(0, / 10)] [(/ 10, 2)]); apply le_one; try apply const_only_const; reflexivity.
  - match goal with |- exists q, ?e = _ /\ _ => assert (F : match e with Ok q => BinarySingleNaN.is_finite (q : f64) | _ => false end = true) by (vm_compute; reflexivity);
      revert F; generalize e end.
    intros [q| |] F; try discriminate F. exists q. split; [reflexivity|exact F].
Qed.
