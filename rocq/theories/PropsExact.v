(** C86: integer data are computed exactly in doubles. *)
From Coq Require Import ZArith NArith Reals List Lra Lia.
From Flocq Require Import Core BinarySingleNaN.
From Verif Require Import Outcome Num RtModel RtSpec NumB64 NumB64Facts NumR NumTextFacts RealSpec ErrSpec ErrFacts ExactSpec ExactFacts PropsSimplify PropsDiff.
Import ListNotations.
Local Open Scope R_scope.
Local Existing Instance prec_pos.
Local Existing Instance prec_emax.

(** Evaluation: sums, differences and products of integers are exact as long as no intermediate result can exceed 2^53. *)
Theorem C86_evaluation_is_exact :
  forall (lm : libm) (e : expr f64) (v : list f64),
    integer_polynomial e -> (forall x, In x v -> integer64 x) -> in_range v e -> extent v e <= limit64 ->
    exists x : f64, eval (numB64 lm) e v = Ok x /\ integer64 x /\
      eval numR (exact e) (exact_point v) = Ok (Some (B2R x)).
Proof.
  intros lm e v P V Rg L. destruct (eval_exact lm v V e P Rg L) as [x [E [I [Q _]]]]. now exists x.
Qed.
Print Assumptions C86_evaluation_is_exact.

(** Any two ways of writing the same polynomial give the same number. *)
Theorem C86_rearrangement :
  forall (lm : libm) (e1 e2 : expr f64) (v : list f64),
    integer_polynomial e1 -> integer_polynomial e2 -> (forall x, In x v -> integer64 x) ->
    in_range v e1 -> in_range v e2 -> extent v e1 <= limit64 -> extent v e2 <= limit64 ->
    eval numR (exact e1) (exact_point v) = eval numR (exact e2) (exact_point v) ->
    exists x y : f64, eval (numB64 lm) e1 v = Ok x /\ eval (numB64 lm) e2 v = Ok y /\ B2R x = B2R y.
Proof.
  intros lm e1 e2 v P1 P2 V R1 R2 L1 L2 E. destruct (eval_exact lm v V e1 P1 R1 L1) as [x [X [_ [QX _]]]].
  destruct (eval_exact lm v V e2 P2 R2 L2) as [y [Y [_ [QY _]]]]. exists x, y. split; [exact X|]. split; [exact Y|].
  pose proof (eq_trans (eq_sym QX) (eq_trans E QY)) as K. now injection K.
Qed.
Print Assumptions C86_rearrangement.

(** simplify() in doubles takes the same decisions as in the reals and does not change the value. *)
Theorem C86_simplify_is_exact :
  forall (lm : libm) (e : expr f64) (v : list f64),
    integer_polynomial e -> (forall x, In x v -> integer64 x) -> in_range v e -> extent v e <= limit64 ->
    exists e' (x y : f64), simplify_top (numB64 lm) e = Ok e' /\ simplify_top numR (exact e) = Ok (exact e') /\
      integer_polynomial e' /\
      eval (numB64 lm) e v = Ok x /\ eval (numB64 lm) e' v = Ok y /\ B2R y = B2R x.
Proof.
  intros lm e v P V Rg L. destruct (top_exact lm v e P L) as [e' [S [[P' X'] Q]]].
  destruct (eval_exact lm v V e P Rg L) as [x [E [_ [Ex _]]]].
  destruct (C01_simplify_preserves_value _ _ _ Ex) as [f [F Ef]]. rewrite Q in F. injection F as <-.
  destruct (eval_exact lm v V e' P' (range_of_eval v e' P' _ Ef) ltac:(lra)) as [y [E' [_ [Ey _]]]].
  exists e', x, y. repeat split; auto. pose proof (eq_trans (eq_sym Ey) Ef) as K. now injection K.
Qed.
Print Assumptions C86_simplify_is_exact.

(** diff() in doubles followed by evaluation in doubles gives exactly the partial derivative. *)
Theorem C86_derivative_is_exact :
  forall (lm : libm) (e : expr f64) (v : list f64) (i : N) (x : f64),
    integer_polynomial e -> (forall y, In y v -> integer64 y) -> in_range v e ->
    INR (nodes e) * extent v e <= limit64 -> nth_error v (N.to_nat i) = Some x ->
    exists d (r : f64), diff_top (numB64 lm) (DVar i) e = Ok d /\ eval (numB64 lm) d v = Ok r /\
      has_partial (exact e) (exact_point v) i (B2R x) (B2R r).
Proof.
  intros lm e v i x P V Rg L Hx.
  assert (N1 : 1 <= INR (nodes e)) by (change 1 with (INR 1); apply le_INR; destruct e; cbn; lia).
  pose proof (extent_ge1 v e) as G.
  destruct (eval_exact lm v V e P Rg ltac:(nra)) as [q [_ [_ [Eq _]]]].
  destruct (diff_exact lm v i e P) as [d0 [D [P0 [X0 Q0]]]].
  destruct (top_exact lm v d0 P0 ltac:(lra)) as [d [S [[Pd Xd] Q]]].
  assert (Hx' : nth_error (exact_point v) (N.to_nat i) = Some (Some (B2R x))).
  { exact (eq_trans (nth_error_map _ _ v) (f_equal (option_map (fun x : f64 => Some (B2R x))) Hx)). }
  destruct (C06_diff_is_partial_derivative (exact e) (exact_point v) i (B2R x) Hx' (poly_regular _ e _ P Eq)) as [d' [r [E' [Er [H _]]]]].
  unfold diff_top in E'. rewrite Q0 in E'. cbn [bind] in E'. rewrite Q in E'. injection E' as <-.
  destruct (eval_exact lm v V d Pd (range_of_eval v d Pd _ Er) ltac:(lra)) as [y [Ed [_ [Ey _]]]].
  exists d, y. split; [unfold diff_top; rewrite D; exact S|]. split; [exact Ed|].
  pose proof (eq_trans (eq_sym Ey) Er) as K. injection K as ->. exact H.
Qed.
Print Assumptions C86_derivative_is_exact.

(** The bound cannot be raised: x0 + 1 at 2^53, one above the bound, is computed as 2^53. *)
Theorem C86_beyond_the_bound_refuted :
  ~ (forall (lm : libm) (e : expr f64) (v : list f64),
       integer_polynomial e -> (forall x, In x v -> integer64 x) -> in_range v e -> extent v e <= limit64 + 1 ->
       exists x : f64, eval (numB64 lm) e v = Ok x /\ eval numR (exact e) (exact_point v) = Ok (Some (B2R x))).
Proof.
  intros H.
  destruct (of_Z_exact rounded_libm 134217728 eq_refl) as [F1 [V1 _]]. destruct (of_Z_exact rounded_libm 67108864 eq_refl) as [F2 [V2 _]].
  destruct (int_c1 rounded_libm) as [I1 W1].
  assert (LV : limit64 = 9007199254740992) by (rewrite limit_Z; reflexivity).
  assert (PR : B2R (n_of_Z (numB64 rounded_libm) 134217728) * B2R (n_of_Z (numB64 rounded_libm) 67108864) = limit64) by (rewrite V1, V2, LV; lra).
  destruct (int_mult (n_of_Z (numB64 rounded_libm) 134217728) (n_of_Z (numB64 rounded_libm) 67108864)) as [IB VB].
  { split; [exact F1|eauto]. } { split; [exact F2|eauto]. } { rewrite PR, LV, Rabs_pos_eq; lra. }
  fold big53 in IB, VB. rewrite PR in VB.
  assert (K : Bplus mode_NE big53 (c1 (numB64 rounded_libm)) = big53) by (apply (B2SF_inj 53 1024); vm_compute; reflexivity).
  set (one := c1 (numB64 rounded_libm) : f64) in *. set (big := big53) in *. clearbody one big.
  destruct (H rounded_libm (EBin BPlus (EVar 0) (EConst one)) [big]) as [x [E Q]].
  - cbn. auto.
  - intros x [<-|[]]. exact IB.
  - cbn. split; [discriminate|exact I].
  - cbn [extent]. change (nth_error [big] (N.to_nat 0)) with (Some big). cbv iota.
    rewrite VB, W1, LV. rewrite Rabs_R1, (Rabs_pos_eq 9007199254740992) by lra. rewrite Rmax_right, Rmax_left by lra. lra.
  - assert (Ex : x = Bplus mode_NE big one) by (cbn in E; injection E as <-; reflexivity).
    assert (Qx : B2R big + B2R one = B2R x) by (cbn in Q; injection Q as Q; exact Q).
    rewrite VB, W1, LV in Qx.
    rewrite Ex, K, VB, LV in Qx. lra.
Qed.
Print Assumptions C86_beyond_the_bound_refuted.

(** Non-trivial case: (x0 * x0 - 3) * x1 at (-4, 5). *)
Example C86_case :
  let k z := n_of_Z (numB64 rounded_libm) z in
  let e := EBin BMult (EBin BMinus (EBin BMult (EVar 0) (EVar 0)) (EConst (k 3%Z))) (EVar 1) in
  let v := [k (-4)%Z; k 5%Z] in
  integer_polynomial e /\ (forall x, In x v -> integer64 x) /\ in_range v e /\ INR (nodes e) * extent v e <= limit64.
Proof.
  cbv zeta. set (k := n_of_Z (numB64 rounded_libm)).
  destruct (int_const rounded_libm 3 eq_refl) as [I3 V3]. destruct (int_const rounded_libm (-4) eq_refl) as [I4 V4].
  destruct (int_const rounded_libm 5 eq_refl) as [I5 V5]. fold k in I3, V3, I4, V4, I5, V5. clearbody k.
  split; [cbn; auto|]. split; [intros x [<-|[<-|[]]]; auto|]. split; [cbn; repeat split; discriminate|].
  assert (X : extent [k (-4)%Z; k 5%Z] (EBin BMult (EBin BMinus (EBin BMult (EVar 0) (EVar 0)) (EConst (k 3%Z))) (EVar 1)) = 95).
  { cbn [extent]. change (nth_error [k (-4)%Z; k 5%Z] (N.to_nat 0)) with (Some (k (-4)%Z)).
    change (nth_error [k (-4)%Z; k 5%Z] (N.to_nat 1)) with (Some (k 5%Z)). cbv iota. rewrite V3, V4, V5.
    rewrite (Rabs_pos_eq 3), (Rabs_pos_eq 5), (Rabs_left (-4)) by lra. rewrite !Rmax_right by lra. lra. }
  rewrite X, limit_Z. cbn. lra.
Qed.

(** Non-trivial case: (x0 + 1) * (x0 + 1) and x0 * x0 + 2 * x0 + 1 at 7. *)
Example C86_rearrangement_case :
  let k z := n_of_Z (numB64 rounded_libm) z in
  let e1 := EBin BMult (EBin BPlus (EVar 0) (EConst (k 1%Z))) (EBin BPlus (EVar 0) (EConst (k 1%Z))) in
  let e2 := EBin BPlus (EBin BPlus (EBin BMult (EVar 0) (EVar 0)) (EBin BMult (EConst (k 2%Z)) (EVar 0))) (EConst (k 1%Z)) in
  let v := [k 7%Z] in
  integer_polynomial e1 /\ integer_polynomial e2 /\ (forall x, In x v -> integer64 x) /\ in_range v e1 /\ in_range v e2 /\
  extent v e1 = 64 /\ extent v e2 = 64 /\ 64 <= limit64 /\
  eval numR (exact e1) (exact_point v) = eval numR (exact e2) (exact_point v).
Proof.
  cbv zeta. set (k := n_of_Z (numB64 rounded_libm)).
  destruct (int_const rounded_libm 1 eq_refl) as [I1 V1]. destruct (int_const rounded_libm 2 eq_refl) as [I2 V2].
  destruct (int_const rounded_libm 7 eq_refl) as [I7 V7]. fold k in I1, V1, I2, V2, I7, V7. clearbody k.
  split; [cbn; auto|]. split; [cbn; auto|]. split; [intros x [<-|[]]; auto|].
  split; [cbn; repeat split; discriminate|]. split; [cbn; repeat split; discriminate|].
  assert (X : forall v, extent v (EConst (k 1%Z)) = 1) by (intros v; cbn [extent]; rewrite V1, Rabs_R1, Rmax_left; lra).
  assert (Y : extent [k 7%Z] (EVar 0) = 7).
  { cbn [extent]. change (nth_error [k 7%Z] (N.to_nat 0)) with (Some (k 7%Z)). cbv iota. rewrite V7, Rabs_pos_eq, Rmax_right; lra. }
  assert (Z2 : extent [k 7%Z] (EConst (k 2%Z)) = 2) by (cbn [extent]; rewrite V2, Rabs_pos_eq, Rmax_right; lra).
  split; [|split; [|split]].
  - change ((extent [k 7%Z] (EVar 0) + extent [k 7%Z] (EConst (k 1%Z))) * (extent [k 7%Z] (EVar 0) + extent [k 7%Z] (EConst (k 1%Z))) = 64).
    rewrite X, Y. lra.
  - change (extent [k 7%Z] (EVar 0) * extent [k 7%Z] (EVar 0) + extent [k 7%Z] (EConst (k 2%Z)) * extent [k 7%Z] (EVar 0)
            + extent [k 7%Z] (EConst (k 1%Z)) = 64). rewrite X, Y, Z2. lra.
  - rewrite limit_Z. cbn. lra.
  - change (@Ok (option R) (Some ((B2R (k 7%Z) + B2R (k 1%Z)) * (B2R (k 7%Z) + B2R (k 1%Z)))) =
            Ok (Some (B2R (k 7%Z) * B2R (k 7%Z) + B2R (k 2%Z) * B2R (k 7%Z) + B2R (k 1%Z)))).
    rewrite V1, V2, V7. do 2 f_equal. lra.
Qed.
