(** Property C71: evaluation, derivatives and integrals computed in doubles from inexact data. *)
From Coq Require Import ZArith NArith Reals List Bool Lra Lia.
From Flocq Require Import Core BinarySingleNaN.
From Coquelicot Require Import Coquelicot.
From Verif Require Import Outcome Num RtModel RtSpec RtFacts RtValue NumB64 NumB64Facts NumR NumRFacts RealSpec RtDiff RtDiff2
  ErrSpec ErrFacts DataSpec DataFacts BoxFacts QuadModel QuadSpec QuadFacts CalcFacts PropsDiff PropsCalc.
Import ListNotations.
Local Open Scope R_scope.

(** C71.  The doubles in an expression and in the point stand for real numbers they differ from.  Whatever
    bound the rules of error analysis give for these errors and those of the operations, the evaluation returns
    a double within this bound of the real value meant, as long as nothing overflows. *)
Theorem C71_evaluation_error :
  forall (lm : libm) (d : R), accurate lm d ->
  forall (e : expr f64) (e' : expr numR) (v : list f64) (w : list (option R)) (z r : R),
    bounded d v w e e' z r -> all_values (n := numB64 lm) finite64 v e ->
    exists x : f64, eval (numB64 lm) e v = Ok x /\ eval numR e' w = Ok (Some z) /\ Rabs (B2R x - z) <= r.
Proof.
  intros lm d A e e' v w z r H F. destruct (bounded_ok lm d v w A e e' z r H F) as [x [E [_ [Q B]]]]. exists x. auto.
Qed.
Print Assumptions C71_evaluation_error.

(** C71.  Derivatives: diff() of the expression with doubles, simplified and evaluated in doubles, is within the
    bound for the unsimplified derivative of the partial derivative of the real function meant. *)
Theorem C71_derivative_error :
  forall (lm : libm) (d : R), accurate lm d -> zero_symmetric lm ->
  forall (e de : expr f64) (e' de' : expr numR) (v : list f64) (w : list (option R)) (i : N) (x q z r : R),
    diff (numB64 lm) (DVar i) e = Ok de -> diff numR (DVar i) e' = Ok de' ->
    bounded d v w de de' z r -> all_values (n := numB64 lm) finite64 v de ->
    nth_error w (N.to_nat i) = Some (Some x) -> eval numR e' w = Ok (Some q) ->
    exists (s : expr f64) (y : f64), diff_top (numB64 lm) (DVar i) e = Ok s /\ eval (numB64 lm) s v = Ok y /\
      has_partial e' w i x z /\ Rabs (B2R y - z) <= r.
Proof.
  intros lm d A ZS e de e' de' v w i x q z r D D' H F W Q.
  destruct (bounded_ok lm d v w A de de' z r H F) as [u [E [_ [E' B]]]].
  destruct (simplify64 lm ZS v de u F E) as [s [y [S1 [_ [S2 S3]]]]].
  exists s, y. split; [unfold diff_top; rewrite D; exact S1|]. split; [exact S2|].
  split; [exact (C06_whenever_defined e' de' w i x q z W D' Q E')|].
  destruct S3 as [<- | [a [b [-> ->]]]]; exact B.
Qed.
Print Assumptions C71_derivative_error.

(** Both derivatives in the last theorem exist together: they are the same tree, up to the constants. *)
Theorem C71_derivatives_correspond :
  forall (lm : libm) (i : N) (e de : expr f64) (e' : expr numR),
    stands_for e e' -> diff (numB64 lm) (DVar i) e = Ok de ->
    exists de', diff numR (DVar i) e' = Ok de' /\ stands_for de de'.
Proof. intros lm i e de e' S D. exact (diff_stands lm i e e' S de D). Qed.
Print Assumptions C71_derivatives_correspond.

(** C71.  Quadrature: the double computed by the one-point rule is within the bound for the expression
    "integrand at (lo + hi) / 2, times hi - lo" of the number the rule gives in real arithmetic. *)
Theorem C71_quadrature_error :
  forall (lm : libm) (d : R), accurate lm d -> zero_symmetric lm ->
  forall (lo hi body : expr f64) (lo' hi' body' : expr numR) (x : N) (z r : R),
    const_only lo -> const_only hi ->
    bounded d [] [] (rule_tree (c2 (numB64 lm)) lo hi x body) (rule_tree (c2 numR) lo' hi' x body') z r ->
    all_values (n := numB64 lm) finite64 [] (rule_tree (c2 (numB64 lm)) lo hi x body) ->
    exists q : f64, quadrature (numB64 lm) (gauss_quad_1 (numB64 lm)) (EInt lo hi x body) = Ok q /\
      quadrature numR (gauss_quad_1 numR) (EInt lo' hi' x body') = Ok (Some z) /\ Rabs (B2R q - z) <= r.
Proof. exact quad64. Qed.
Print Assumptions C71_quadrature_error.

(** C71.  Integrals: the double computed by the one-point rule differs from the integral of the real function
    meant by at most the bound for the rounding errors plus M |B - A|^3 / 24. *)
Theorem C71_integral_error :
  forall (lm : libm) (d : R), accurate lm d -> zero_symmetric lm ->
  forall (lo hi body : expr f64) (lo' hi' body' d2 : expr numR) (x : N) (v : list (option R)) (A B M z r : R),
    const_only lo -> const_only hi ->
    bounded d [] [] (rule_tree (c2 (numB64 lm)) lo hi x body) (rule_tree (c2 numR) lo' hi' x body') z r ->
    all_values (n := numB64 lm) finite64 [] (rule_tree (c2 (numB64 lm)) lo hi x body) ->
    eval numR lo' [] = Ok (Some A) -> eval numR hi' [] = Ok (Some B) ->
    (forall i, occurs_var i body' -> i = x) -> (x < N.of_nat (length v))%N ->
    (forall t, Rmin A B <= t <= Rmax A B -> regular body' (update v (N.to_nat x) (Some t))) ->
    diff_times x 2 body' = Ok d2 ->
    (forall t s, Rmin A B <= t <= Rmax A B ->
       eval numR d2 (update v (N.to_nat x) (Some t)) = Ok (Some s) -> Rabs s <= M) ->
    exists (q : f64) (I : R) (g : R -> R),
      quadrature (numB64 lm) (gauss_quad_1 (numB64 lm)) (EInt lo hi x body) = Ok q /\
      (forall t, Rmin A B <= t <= Rmax A B ->
         eval numR body' (update v (N.to_nat x) (Some t)) = Ok (Some (g t))) /\
      is_RInt g A B I /\ Rabs (B2R q - I) <= r + M * Rabs (B - A) ^ 3 / 24.
Proof.
  intros lm d AC ZS lo hi body lo' hi' body' d2 x v A B M z r Cl Ch H F EA EB O L Rg D2 HM.
  destruct (quad64 lm d AC ZS lo hi body lo' hi' body' x z r Cl Ch H F) as [q [Q [Qz Bq]]].
  destruct (rule_constants d lm lo hi body lo' hi' body' x z r Cl Ch H) as [Cl' Ch'].
  destruct (C55_gauss_error_bound lo' hi' body' d2 x v A B M Cl' Ch' EA EB O L Rg D2 HM) as [z' [I [g [Qz' [G [RI BI]]]]]].
  pose proof (ok_inj _ _ _ _ Qz Qz') as K. injection K as <-.
  exists q, I, g. split; [exact Q|]. split; [exact G|]. split; [exact RI|].
  replace (B2R q - I) with ((B2R q - z) + (z - I)) by ring. eapply Rle_trans; [apply Rabs_triang|lra].
Qed.
Print Assumptions C71_integral_error.

(** x0 * x0 * 0.1 at 1.5, where the double 0.1 stands for 1/10 and the double 1.5 for 3/2 + 10^-9. *)
Definition tenth64 : f64 := binary_normalize 53 1024 prec_pos prec_emax mode_NE 7205759403792794 (-56) false.
Example C71_derivative_case : forall lm d,
  let e := EBin BMult (EBin BMult (EVar 0) (EVar 0)) (EConst tenth64) in
  let e' := EBin BMult (EBin BMult (EVar 0) (EVar 0)) (@EConst numR (Some (/ 10))) in
  let v := [binary_normalize 53 1024 prec_pos prec_emax mode_NE 3 (-1) false] in
  let w := [Some (3 / 2 + / 1000000000)] in
  exists de de' z r,
    diff (numB64 lm) (DVar 0) e = Ok de /\ diff numR (DVar 0) e' = Ok de' /\
    bounded d v w de de' z r /\ all_values (n := numB64 lm) finite64 v de /\
    exists q, eval numR e' w = Ok (Some q).
Proof.
  intros lm d. cbv zeta. do 4 eexists. split; [reflexivity|]. split; [reflexivity|]. split; [|split].
  - repeat (reflexivity || econstructor).
  - intros t T.
    repeat match goal with
           | H : subterm _ _ |- _ => inversion H; subst; clear H
           end; (eexists; split; [reflexivity|]); vm_compute; reflexivity.
  - eexists. reflexivity.
Qed.

(** The integral of x0 * x0 from 0 to 0.1, with the double 0.1 for 1/10; the second derivative of the
    integrand is 2 (for the other hypotheses of the last theorem see C55_case). *)
Example C71_quadrature_case : forall lm d,
  let body {T} : expr T := EBin BMult (EVar 0) (EVar 0) in
  exists z r,
    const_only (EConst (c0 (numB64 lm))) /\ const_only (EConst tenth64) /\
    bounded d [] [] (rule_tree (c2 (numB64 lm)) (EConst (c0 (numB64 lm))) (EConst tenth64) 0 body)
      (rule_tree (c2 numR) (@EConst numR (Some 0)) (@EConst numR (Some (/ 10))) 0 body) z r /\
    all_values (n := numB64 lm) finite64 []
      (rule_tree (c2 (numB64 lm)) (EConst (c0 (numB64 lm))) (EConst tenth64) 0 body) /\
    (forall t, regular (body : expr numR) (update [None] (N.to_nat 0) (Some t))).
Proof.
  intros lm d. cbv zeta. do 2 eexists.
  split; [intros s S; inversion S; exact Logic.I|]. split; [intros s S; inversion S; exact Logic.I|]. split; [|split].
  - assert (C2 : B2R (c2 (numB64 lm)) = 2) by (cbv; lra).
    assert (K : Rabs (B2R (c2 (numB64 lm)) - 2) < Rabs 2).
    { rewrite C2, Rminus_eq_0, Rabs_R0. apply Rabs_pos_lt. lra. }
    unfold rule_tree. cbn [replace_vars N.eqb]. unfold midpoint.
    apply b_mult; [apply b_mult|apply b_minus; apply b_const]; (apply b_div; [apply b_plus; apply b_const|apply b_const|exact K]).
  - intros t T. unfold rule_tree, midpoint in T. cbn [replace_vars N.eqb] in T.
    repeat match goal with
           | H : subterm _ _ |- _ => inversion H; subst; clear H
           end; (eexists; split; [reflexivity|]); vm_compute; reflexivity.
  - intros t. apply regular_reg. simpl. repeat split; eauto.
Qed.

(** C71.  Sums, differences and products need no assumption on overflow: over the box of all constants and coordinates
    of absolute value at most [B], the value computed from data wrong by at most [s] is finite and within the second
    number of [box] of the real value meant, which is at most the first, if these two numbers are below 2^1000. *)
Theorem C71_polynomials_over_a_box :
  forall (lm : libm) (B s : R) (e : expr f64) (e' : expr numR) (v : list f64) (w : list (option R)),
    1 <= B -> 0 <= s -> close_data B s e e' -> close_point B s v w e ->
    fst (box u64 tiny64 B s e) + snd (box u64 tiny64 B s e) <= bpow radix2 1000 ->
    exists (x : f64) (z : R), eval (numB64 lm) e v = Ok x /\ finite64 x /\ eval numR e' w = Ok (Some z) /\
      Rabs z <= fst (box u64 tiny64 B s e) /\ Rabs (B2R x - z) <= snd (box u64 tiny64 B s e).
Proof.
  intros lm B s e e' v w HB Hs C P X.
  destruct (box_ok lm v w u64 tiny64 B s (Rle_refl _) (Rle_refl _) HB Hs 0 e e' C P X) as [x [z [r [E [F [E' [Z [D [R _]]]]]]]]].
  exists x, z. repeat split; auto. lra.
Qed.
Print Assumptions C71_polynomials_over_a_box.

(** x * y - 1/3, with the double nearest to 1/3, for coordinates up to 1000: the error is below 1e-9. *)
Example C71_box_case : forall (c x y : f64), finite64 c -> Rabs (B2R c - 1 / 3) <= u64 -> finite64 x -> finite64 y ->
  Rabs (B2R x) <= 1000 -> Rabs (B2R y) <= 1000 ->
  let e := EBin BMinus (EBin BMult (EVar 0) (EVar 1)) (EConst c) in
  let e' := EBin BMinus (EBin BMult (EVar 0) (EVar 1)) (@EConst numR (Some (1 / 3))) in
  close_data 1000 u64 e e' /\ close_point 1000 u64 [x; y] [Some (B2R x); Some (B2R y)] e /\
  fst (box u64 tiny64 1000 u64 e) + snd (box u64 tiny64 1000 u64 e) <= bpow radix2 1000 /\
  snd (box u64 tiny64 1000 u64 e) <= 1 / 1000000000.
Proof.
  intros c x y Fc Dc Fx Fy Bx By e e'. pose proof u_pos as U0. pose proof u_fine as U. pose proof t_fine as T. pose proof tiny_pos as T0.
  split; [apply cd_bin; [auto| |]; [apply cd_bin; [auto| |]; apply cd_var|apply cd_const; auto; rewrite Rabs_pos_eq; lra]|].
  assert (Z0 : forall q, Rabs (q - q) <= u64) by (intros q; rewrite Rminus_diag_eq, Rabs_R0 by reflexivity; lra).
  split.
  - intros i S. assert (I : i = 0%N \/ i = 1%N).
    { clear - S. unfold e in S. repeat match goal with H : subterm _ (EBin _ _ _) |- _ => inversion H; clear H; subst end;
      match goal with H : subterm _ _ |- _ => inversion H; auto end. }
    destruct I as [-> | ->]; [exists x, (B2R x)|exists y, (B2R y)]; repeat split; auto.
  - cbn [box fst snd e]. unfold after. rewrite !Rabs_pos_eq by lra.
    set (k := 1000 * u64 + 1000 * u64 + u64 * u64).
    assert (K : 0 <= k <= 3 / 10000000000000) by (unfold k; nra).
    assert (K2 : 0 <= u64 * (1000 * 1000 + k) <= 2 / 10000000000) by nra.
    set (k2 := u64 * (1000 * 1000 + k)) in *.
    assert (K3 : 0 <= u64 * (1000 * 1000 + 1000 + (k + k2 + tiny64 + u64)) <= 2 / 10000000000) by nra.
    split; [|lra]. apply Rle_trans with 10000000; [lra|].
    apply Rle_trans with (bpow radix2 80); [|apply bpow_le; lia].
    change (bpow radix2 80) with (IZR (Zpower_pos 2 80)). apply IZR_le. vm_compute. discriminate.
Qed.
