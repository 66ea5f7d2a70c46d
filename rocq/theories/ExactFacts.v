(** Facts about integer data (proofs only). *)
From Coq Require Import ZArith NArith Reals List Bool Lra Lia.
From Flocq Require Import Core BinarySingleNaN.
From Verif Require Import Outcome Num RtModel RtSpec RtFacts RtTermination NumB64 NumB64Facts NumR NumRFacts NumTextFacts RealSpec ErrSpec ExactSpec.
Import ListNotations.
Local Open Scope R_scope.
Local Existing Instance prec_pos.
Local Existing Instance prec_emax.
Local Notation rnd := (round radix2 (SpecFloat.fexp 53 1024) (round_mode mode_NE)).

Lemma limit_Z : limit64 = IZR (2 ^ 53).
Proof. unfold limit64. rewrite <- IZR_Zpower by lia. reflexivity. Qed.

Lemma integer_rnd : forall z : Z, Rabs (IZR z) <= limit64 -> rnd (IZR z) = IZR z.
Proof.
  intros z B. rewrite limit_Z, <- abs_IZR in B. apply le_IZR in B.
  apply round_generic; [apply valid_rnd_round_mode|].
  change (SpecFloat.fexp 53 1024) with (FLT_exp (-1074) 53).
  destruct (Z.eq_dec (Z.abs z) (2 ^ 53)) as [E|N].
  - apply generic_format_FLT. exists (Float radix2 (z / 2) 1).
    + unfold F2R. cbn [Fnum Fexp bpow]. change (IZR (Z.pow_pos radix2 1)) with (IZR 2). rewrite <- mult_IZR. f_equal.
      pose proof (Z.div_mod z 2 ltac:(lia)). assert (z mod 2 = 0)%Z; [|lia].
      destruct (Z.abs_eq_or_opp z) as [K|K]; rewrite K in E.
      * rewrite E. reflexivity.
      * replace z with (- 2 ^ 53)%Z by lia. reflexivity.
    + cbn [Fnum]. change (Zpower radix2 53) with (2 ^ 53)%Z.
      destruct (Z.abs_eq_or_opp z) as [K|K]; rewrite K in E.
      * rewrite E. reflexivity.
      * replace z with (- 2 ^ 53)%Z by lia. reflexivity.
    + cbn. lia.
  - apply generic_format_FLT. exists (Float radix2 z 0); [unfold F2R; cbn; ring|cbn [Fnum]|cbn; lia].
    change (Zpower radix2 53) with (2 ^ 53)%Z. lia.
Qed.

Lemma limit_lt : limit64 < bpow radix2 1024.
Proof. apply bpow_lt. lia. Qed.

Lemma int_plus : forall x y : f64, integer64 x -> integer64 y -> Rabs (B2R x + B2R y) <= limit64 ->
  integer64 (Bplus mode_NE x y) /\ B2R (Bplus mode_NE x y) = B2R x + B2R y.
Proof.
  intros x y [Fx [p X]] [Fy [q Y]] B. destruct (plus_fin x y Fx Fy) as [P1 P2].
  assert (R : rnd (B2R x + B2R y) = B2R x + B2R y) by (rewrite X, Y, <- plus_IZR in *; now apply integer_rnd).
  rewrite R in P1, P2. pose proof limit_lt.
  assert (F : finite64 (Bplus mode_NE x y)) by (apply P1; lra).
  split; [|now apply P2]. split; [exact F|]. exists (p + q)%Z. rewrite (P2 F), X, Y. now rewrite plus_IZR.
Qed.
Lemma int_minus : forall x y : f64, integer64 x -> integer64 y -> Rabs (B2R x - B2R y) <= limit64 ->
  integer64 (Bminus mode_NE x y) /\ B2R (Bminus mode_NE x y) = B2R x - B2R y.
Proof.
  intros x y [Fx [p X]] [Fy [q Y]] B. destruct (minus_fin x y Fx Fy) as [P1 P2].
  assert (R : rnd (B2R x - B2R y) = B2R x - B2R y) by (rewrite X, Y, <- minus_IZR in *; now apply integer_rnd).
  rewrite R in P1, P2. pose proof limit_lt.
  assert (F : finite64 (Bminus mode_NE x y)) by (apply P1; lra).
  split; [|now apply P2]. split; [exact F|]. exists (p - q)%Z. rewrite (P2 F), X, Y. now rewrite minus_IZR.
Qed.
Lemma int_mult : forall x y : f64, integer64 x -> integer64 y -> Rabs (B2R x * B2R y) <= limit64 ->
  integer64 (Bmult mode_NE x y) /\ B2R (Bmult mode_NE x y) = B2R x * B2R y.
Proof.
  intros x y [Fx [p X]] [Fy [q Y]] B. destruct (mult_fin x y Fx Fy) as [P1 P2].
  assert (R : rnd (B2R x * B2R y) = B2R x * B2R y) by (rewrite X, Y, <- mult_IZR in *; now apply integer_rnd).
  rewrite R in P1, P2. pose proof limit_lt.
  assert (F : finite64 (Bmult mode_NE x y)) by (apply P1; lra).
  split; [|now apply P2]. split; [exact F|]. exists (p * q)%Z. rewrite (P2 F), X, Y. now rewrite mult_IZR.
Qed.

Section Exact.
Context (lm : libm).
Notation n := (numB64 lm).

Lemma int_const : forall z, (Z.abs z < 2 ^ 53)%Z -> integer64 (n_of_Z n z) /\ B2R (n_of_Z n z) = IZR z.
Proof. intros z B. destruct (of_Z_exact lm z B) as [F [V _]]. split; [split; [exact F|now exists z]|exact V]. Qed.
Lemma int_c0 : integer64 (c0 n) /\ B2R (c0 n) = 0.
Proof. apply (int_const 0). reflexivity. Qed.
Lemma int_c1 : integer64 (c1 n) /\ B2R (c1 n) = 1.
Proof. apply (int_const 1). reflexivity. Qed.
Lemma int_cm1 : integer64 (cm1 n) /\ B2R (cm1 n) = -1.
Proof. apply (int_const (-1)). reflexivity. Qed.

Lemma poly_ind : forall P : expr f64 -> Prop,
  (forall c, integer64 c -> P (EConst c)) -> (forall i, P (EVar i)) ->
  (forall op a b, op = BPlus \/ op = BMinus \/ op = BMult -> integer_polynomial a -> integer_polynomial b -> P a -> P b -> P (EBin op a b)) ->
  forall e, integer_polynomial e -> P e.
Proof.
  intros P C V B e. induction e as [c|i|i t|op a IH|lo hi w a _ _ IH|op l r IHl IHr|es _] using expr_ind'; cbn; intros H; try contradiction; auto.
  destruct op; try contradiction; destruct H; apply B; auto.
Qed.

Lemma extent_ge1 : forall v e, 1 <= extent v e.
Proof.
  intros v e. induction e as [c|i|i t|op a IH|lo hi w a _ _ IH|op l r IHl IHr|es _] using expr_ind'; cbn; try lra.
  - apply Rmax_l.
  - destruct (nth_error v (N.to_nat i)); [apply Rmax_l|lra].
  - destruct op; try lra. nra.
Qed.

Lemma extent_sub : forall v op a b, op = BPlus \/ op = BMinus \/ op = BMult ->
  extent v a <= extent v (EBin op a b) /\ extent v b <= extent v (EBin op a b).
Proof.
  intros v op a b O. pose proof (extent_ge1 v a). pose proof (extent_ge1 v b).
  destruct O as [->|[->| ->]]; cbn; split; nra.
Qed.

(** ** Evaluation *)
Lemma eval_var_in : forall (m : num) (v : list m) i x, nth_error v (N.to_nat i) = Some x -> eval m (EVar i) v = Ok x.
Proof.
  intros m v i x E. cbn [eval]. assert (LT : (N.to_nat i < length v)%nat) by (apply nth_error_Some; congruence).
  replace (N.leb (N.of_nat (length v)) i) with false by (symmetry; apply N.leb_gt; lia). now rewrite E.
Qed.
Lemma apply_exact : forall op x y X Y, op = BPlus \/ op = BMinus \/ op = BMult ->
  integer64 x -> integer64 y -> Rabs (B2R x) <= X -> Rabs (B2R y) <= Y ->
  (match op with BMult => X * Y | _ => X + Y end) <= limit64 -> 0 <= X -> 0 <= Y ->
  exists z : f64, b_apply n op x y = Ok z /\ integer64 z /\ b_apply numR op (Some (B2R x)) (Some (B2R y)) = Ok (Some (B2R z)) /\
    Rabs (B2R z) <= match op with BMult => X * Y | _ => X + Y end.
Proof.
  intros op x y X Y O Ix Iy Bx By L PX PY.
  destruct O as [->|[->| ->]]; cbn [b_apply].
  - assert (B : Rabs (B2R x + B2R y) <= X + Y) by (eapply Rle_trans; [apply Rabs_triang|lra]).
    destruct (int_plus x y Ix Iy ltac:(lra)) as [I V]. exists (Bplus mode_NE x y). split; [reflexivity|]. split; [exact I|].
    rewrite V. split; [reflexivity|exact B].
  - assert (B : Rabs (B2R x - B2R y) <= X + Y).
    { unfold Rminus. eapply Rle_trans; [apply Rabs_triang|]. rewrite Rabs_Ropp. lra. }
    destruct (int_minus x y Ix Iy ltac:(lra)) as [I V]. exists (Bminus mode_NE x y). split; [reflexivity|]. split; [exact I|].
    rewrite V. split; [reflexivity|exact B].
  - assert (B : Rabs (B2R x * B2R y) <= X * Y).
    { rewrite Rabs_mult. apply Rmult_le_compat; auto using Rabs_pos. }
    destruct (int_mult x y Ix Iy ltac:(lra)) as [I V]. exists (Bmult mode_NE x y). split; [reflexivity|]. split; [exact I|].
    rewrite V. split; [reflexivity|exact B].
Qed.

Lemma eval_exact : forall v, (forall x, In x v -> integer64 x) -> forall e, integer_polynomial e -> in_range v e -> extent v e <= limit64 ->
  exists x : f64, eval n e v = Ok x /\ integer64 x /\ eval numR (exact e) (exact_point v) = Ok (Some (B2R x)) /\ Rabs (B2R x) <= extent v e.
Proof.
  intros v IV. apply (poly_ind (fun e => in_range v e -> extent v e <= limit64 ->
    exists x : f64, eval n e v = Ok x /\ integer64 x /\ eval numR (exact e) (exact_point v) = Ok (Some (B2R x)) /\ Rabs (B2R x) <= extent v e)).
  - intros c I _ L. exists c. split; [reflexivity|]. split; [exact I|]. split; [reflexivity|]. apply Rmax_r.
  - intros i Ri L. cbn in Ri. cbn [extent]. destruct (nth_error v (N.to_nat i)) as [x|] eqn:E; [|now elim Ri].
    exists x. split; [now apply (eval_var_in n)|]. split; [apply IV; now apply nth_error_In in E|]. split; [|apply Rmax_r].
    apply (eval_var_in numR). exact (eq_trans (nth_error_map _ _ v) (f_equal (option_map (fun x : f64 => Some (B2R x))) E)).
  - intros op a b O Pa Pb IHa IHb [Ra Rb] L. destruct (extent_sub v op a b O) as [La Lb].
    destruct (IHa Ra ltac:(lra)) as [x [Ex [Ix [Qx Bx]]]]. destruct (IHb Rb ltac:(lra)) as [y [Ey [Iy [Qy By]]]].
    pose proof (extent_ge1 v a). pose proof (extent_ge1 v b).
    destruct (apply_exact op x y (extent v a) (extent v b) O Ix Iy Bx By) as [z [Ez [Iz [Qz Bz]]]]; try lra.
    { destruct O as [->|[->| ->]]; exact L. }
    exists z. cbn [eval exact]. rewrite Ex, Ey. cbn [both]. split; [exact Ez|]. split; [exact Iz|].
    split; [refine (eq_trans (f_equal2 (fun p q => both p q (b_apply numR op)) Qx Qy) _); exact Qz|].
    destruct O as [->|[->| ->]]; exact Bz.
Qed.

(** ** simplify() *)
Lemma is_constant_exact : forall e, is_constant numR (exact e) = is_constant n e.
Proof.
  intros e. induction e as [c|i|i t|op a IH|lo hi w a _ _ IH|op l r IHl IHr|es _] using expr_ind'; cbn; auto.
  now rewrite IHl, IHr.
Qed.

Lemma unwrap_exact : forall v e, integer_polynomial e -> is_constant n e = true -> extent v e <= limit64 ->
  exists x : f64, unwrap n e = Ok x /\ integer64 x /\ unwrap numR (exact e) = Ok (Some (B2R x)) /\ Rabs (B2R x) <= extent v e.
Proof.
  intros v. apply (poly_ind (fun e => is_constant n e = true -> extent v e <= limit64 ->
    exists x : f64, unwrap n e = Ok x /\ integer64 x /\ unwrap numR (exact e) = Ok (Some (B2R x)) /\ Rabs (B2R x) <= extent v e)).
  - intros c I _ L. exists c. split; [reflexivity|]. split; [exact I|]. split; [reflexivity|]. apply Rmax_r.
  - discriminate.
  - intros op a b O Pa Pb IHa IHb C L. cbn in C. apply andb_prop in C as [Ca Cb]. destruct (extent_sub v op a b O) as [La Lb].
    destruct (IHa Ca ltac:(lra)) as [x [Ex [Ix [Qx Bx]]]]. destruct (IHb Cb ltac:(lra)) as [y [Ey [Iy [Qy By]]]].
    pose proof (extent_ge1 v a). pose proof (extent_ge1 v b).
    destruct (apply_exact op x y (extent v a) (extent v b) O Ix Iy Bx By) as [z [Ez [Iz [Qz Bz]]]]; try lra.
    { destruct O as [->|[->| ->]]; exact L. }
    exists z. cbn [unwrap exact]. rewrite Ex, Ey. cbn [both]. split; [exact Ez|]. split; [exact Iz|].
    split; [refine (eq_trans (f_equal2 (fun p q => both p q (b_apply numR op)) Qx Qy) _); exact Qz|].
    destruct O as [->|[->| ->]]; exact Bz.
Qed.

Lemma eq_exact : forall (x : f64) z, (Z.abs z < 2 ^ 53)%Z -> integer64 x ->
  n_eq numR (Some (B2R x)) (n_of_Z numR z) = n_eq n x (n_of_Z n z).
Proof.
  intros x z B [F _]. destruct (of_Z_exact lm z B) as [Fz [V _]].
  change (n_eq n x (n_of_Z n z)) with (Beqb x (n_of_Z n z)). rewrite (Beqb_correct 53 1024 x (n_of_Z n z) F Fz), V.
  cbn. unfold r_eqb. destruct (Req_EM_T (B2R x) (IZR z)) as [->|N].
  - symmetry. now apply Req_bool_true.
  - symmetry. now apply Req_bool_false.
Qed.

Definition tame (v : list f64) (e e' : expr f64) : Prop := integer_polynomial e' /\ extent v e' <= extent v e.

Lemma extent_const : forall v (x : f64) X, Rabs (B2R x) <= X -> 1 <= X -> extent v (EConst x) <= X.
Proof. intros v x X A B. cbn. now apply Rmax_lub. Qed.

Lemma exact_c : forall z, (Z.abs z < 2 ^ 53)%Z -> exact (EConst (n_of_Z n z)) = EConst (n_of_Z numR z).
Proof. intros z B. destruct (int_const z B) as [_ V]. cbn [exact]. rewrite V. reflexivity. Qed.

Lemma not_vec : forall a, integer_polynomial a -> (forall es, a <> EVec es) /\ (forall es, exact a <> EVec es).
Proof. intros [c|i|i t|op a|lo hi w a|op l r|es] H; try contradiction; split; discriminate. Qed.

Lemma no_dot : forall m (a b : expr m) X (f : list (expr m) -> list (expr m) -> X) (d : X), (forall es, a <> EVec es) ->
  match a, b with EVec u, EVec w => f u w | _, _ => d end = d.
Proof. intros m a b X f d H. destruct a; try reflexivity. now elim (H es). Qed.

Lemma simplify_exact : forall v e, integer_polynomial e -> extent v e <= limit64 ->
  exists e', simplify n e = Ok e' /\ tame v e e' /\ simplify numR (exact e) = Ok (exact e').
Proof.
  intros v. apply (poly_ind (fun e => extent v e <= limit64 ->
    exists e', simplify n e = Ok e' /\ tame v e e' /\ simplify numR (exact e) = Ok (exact e'))).
  - intros c I _. exists (EConst c). split; [reflexivity|]. split; [split; [exact I|apply Rle_refl]|reflexivity].
  - intros i _. exists (EVar i). split; [reflexivity|]. split; [split; [exact I|apply Rle_refl]|reflexivity].
  - intros op a b O Pa Pb IHa IHb L. destruct (extent_sub v op a b O) as [La Lb].
    destruct (IHa ltac:(lra)) as [a' [Ea [[Ta Xa] Qa]]]. destruct (IHb ltac:(lra)) as [b' [Eb [[Tb Xb] Qb]]]. clear IHa IHb.
    pose proof (extent_ge1 v a) as G1. pose proof (extent_ge1 v b) as G2. pose proof (extent_ge1 v a') as G3. pose proof (extent_ge1 v b') as G4.
    pose proof (is_constant_exact a) as Ka. pose proof (is_constant_exact b) as Kb.
    destruct int_c0 as [I0 V0]. destruct int_c1 as [I1 V1]. destruct int_cm1 as [Im Vm].
    cbn [simplify exact]. rewrite Ka, Kb.
    destruct (is_constant n a) eqn:Ca; destruct (is_constant n b) eqn:Cb; cbn [andb].
    + destruct (unwrap_exact v a Pa Ca ltac:(lra)) as [x [Ex [Ix [Qx Bx]]]]. destruct (unwrap_exact v b Pb Cb ltac:(lra)) as [y [Ey [Iy [Qy By]]]].
      destruct (apply_exact op x y (extent v a) (extent v b) O Ix Iy Bx By) as [z [Ez [Iz [Qz Bz]]]]; try lra.
      { destruct O as [->|[->| ->]]; exact L. }
      exists (EConst z). rewrite Ex, Ey. cbn [both]. rewrite Ez. split; [reflexivity|]. split.
      * split; [exact Iz|]. apply extent_const; [destruct O as [->|[->| ->]]; exact Bz|apply extent_ge1].
      * rewrite Qx, Qy. cbn [both]. rewrite Qz. reflexivity.
    + destruct (unwrap_exact v a Pa Ca ltac:(lra)) as [x [Ex [Ix [Qx Bx]]]].
      pose proof (eq_exact x 0 eq_refl Ix) as Q0. pose proof (eq_exact x 1 eq_refl Ix) as Q1.
      change (n_of_Z n 0) with (c0 n) in Q0. change (n_of_Z numR 0) with (c0 numR) in Q0.
      change (n_of_Z n 1) with (c1 n) in Q1. change (n_of_Z numR 1) with (c1 numR) in Q1.
      assert (XC : extent v (EConst x) <= extent v a) by (apply extent_const; lra).
      assert (XC1 : 1 <= extent v (EConst x)) by apply extent_ge1.
      destruct O as [->|[->| ->]]; rewrite Ex, Qx; cbn [bind]; rewrite Q0; try rewrite Q1.
      * destruct (n_eq n x (c0 n)).
        -- exists b'. split; [exact Eb|]. split; [split; [exact Tb|cbn; lra]|exact Qb].
        -- exists (EBin BPlus (EConst x) b'). rewrite Eb. split; [reflexivity|]. split; [split; [cbn; auto|cbn in *; lra]|rewrite Qb; reflexivity].
      * destruct (n_eq n x (c0 n)).
        -- exists (EBin BMult (EConst (cm1 n)) b'). rewrite Eb. split; [reflexivity|]. split.
           ++ split; [cbn; auto|]. cbn [extent]. rewrite Vm. replace (Rabs (-1)) with 1 by (rewrite Rabs_left; lra).
              rewrite Rmax_left; lra.
           ++ rewrite Qb. cbn [omap bind exact]. rewrite Vm. reflexivity.
        -- exists (EBin BMinus (EConst x) b'). rewrite Eb. split; [reflexivity|]. split; [split; [cbn; auto|cbn in *; lra]|rewrite Qb; reflexivity].
      * destruct (n_eq n x (c0 n)).
        -- exists (EConst (c0 n)). split; [reflexivity|]. split.
           ++ split; [exact I0|]. cbn [extent]. rewrite V0, Rabs_R0, Rmax_left by lra. nra.
           ++ cbn [exact]. rewrite V0. reflexivity.
        -- destruct (n_eq n x (c1 n)).
           ++ exists b'. split; [exact Eb|]. split; [split; [exact Tb|cbn; nra]|exact Qb].
           ++ exists (EBin BMult (EConst x) b'). rewrite Eb. split; [reflexivity|]. split; [split; [cbn; auto|]|rewrite Qb; reflexivity].
              cbn [extent] in *. apply Rmult_le_compat; lra.
    + destruct (unwrap_exact v b Pb Cb ltac:(lra)) as [x [Ex [Ix [Qx Bx]]]].
      pose proof (eq_exact x 0 eq_refl Ix) as Q0. pose proof (eq_exact x 1 eq_refl Ix) as Q1.
      change (n_of_Z n 0) with (c0 n) in Q0. change (n_of_Z numR 0) with (c0 numR) in Q0.
      change (n_of_Z n 1) with (c1 n) in Q1. change (n_of_Z numR 1) with (c1 numR) in Q1.
      assert (XC : extent v (EConst x) <= extent v b) by (apply extent_const; lra).
      assert (XC1 : 1 <= extent v (EConst x)) by apply extent_ge1.
      destruct O as [->|[->| ->]]; rewrite Ex, Qx; cbn [bind]; rewrite Q0; try rewrite Q1.
      * destruct (n_eq n x (c0 n)).
        -- exists a'. split; [exact Ea|]. split; [split; [exact Ta|cbn; lra]|exact Qa].
        -- exists (EBin BPlus a' (EConst x)). rewrite Ea. split; [reflexivity|]. split; [split; [cbn; auto|cbn in *; lra]|rewrite Qa; reflexivity].
      * destruct (n_eq n x (c0 n)).
        -- exists a'. split; [exact Ea|]. split; [split; [exact Ta|cbn; lra]|exact Qa].
        -- exists (EBin BMinus a' (EConst x)). rewrite Ea. split; [reflexivity|]. split; [split; [cbn; auto|cbn in *; lra]|rewrite Qa; reflexivity].
      * destruct (n_eq n x (c0 n)).
        -- exists (EConst (c0 n)). split; [reflexivity|]. split.
           ++ split; [exact I0|]. cbn [extent]. rewrite V0, Rabs_R0, Rmax_left by lra. nra.
           ++ cbn [exact]. rewrite V0. reflexivity.
        -- destruct (n_eq n x (c1 n)).
           ++ exists a'. split; [exact Ea|]. split; [split; [exact Ta|cbn; nra]|exact Qa].
           ++ exists (EBin BMult a' (EConst x)). rewrite Ea. split; [reflexivity|]. split; [split; [cbn; auto|]|rewrite Qa; reflexivity].
              cbn [extent] in *. apply Rmult_le_compat; lra.
    + exists (EBin op a' b'). destruct (not_vec a Pa) as [NA NA'].
      destruct O as [->|[->| ->]]; try rewrite !no_dot by assumption; unfold mk2; rewrite Ea, Eb; (split; [reflexivity|]);
        (split; [split; [cbn; auto|cbn; try lra; apply Rmult_le_compat; lra]|rewrite Qa, Qb; reflexivity]).
Qed.

Lemma const_eq_exact : forall v e z, (Z.abs z < 2 ^ 53)%Z -> integer_polynomial e -> extent v e <= limit64 ->
  exists b, const_eq n e (n_of_Z n z) = Ok b /\ const_eq numR (exact e) (n_of_Z numR z) = Ok b.
Proof.
  intros v e z B P L. unfold const_eq. rewrite is_constant_exact. destruct (is_constant n e) eqn:C; [|now exists false].
  destruct (unwrap_exact v e P C L) as [x [Ex [Ix [Qx _]]]]. exists (n_eq n x (n_of_Z n z)). rewrite Ex, Qx. split; [reflexivity|].
  cbn [omap bind]. now rewrite eq_exact.
Qed.

Lemma can_simplify_exact : forall v e, integer_polynomial e -> extent v e <= limit64 ->
  exists b, can_simplify n e = Ok b /\ can_simplify numR (exact e) = Ok b.
Proof.
  intros v. apply (poly_ind (fun e => extent v e <= limit64 -> exists b, can_simplify n e = Ok b /\ can_simplify numR (exact e) = Ok b)).
  - intros c I _. now exists false.
  - intros i _. now exists false.
  - intros op a b O Pa Pb IHa IHb L. destruct (extent_sub v op a b O) as [La Lb].
    destruct (IHa ltac:(lra)) as [p [Ep Qp]]. destruct (IHb ltac:(lra)) as [q [Eq Qq]].
    destruct (const_eq_exact v a 0 eq_refl Pa ltac:(lra)) as [a0 [A0 A0']]. destruct (const_eq_exact v a 1 eq_refl Pa ltac:(lra)) as [a1 [A1 A1']].
    destruct (const_eq_exact v b 0 eq_refl Pb ltac:(lra)) as [b0 [B0 B0']]. destruct (const_eq_exact v b 1 eq_refl Pb ltac:(lra)) as [b1 [B1 B1']].
    unfold c0, c1 in *. destruct (not_vec a Pa) as [NA NA'].
    cbn [can_simplify exact]. rewrite !is_constant_exact. destruct (is_constant n a && is_constant n b); [now exists true|].
    destruct O as [->|[->| ->]]; unfold c0, c1; rewrite ?no_dot by assumption; rewrite ?A0, ?A1, ?B0, ?B1, ?A0', ?A1', ?B0', ?B1', Ep, Eq, Qp, Qq;
      destruct a0, a1, b0, b1, p, q; cbn; eauto.
Qed.

Lemma weight_exact : forall e, integer_polynomial e -> weight numR (exact e) = weight n e.
Proof.
  apply poly_ind; [reflexivity|reflexivity|]. intros op a b O Pa Pb IHa IHb. cbn [weight exact]. now rewrite IHa, IHb.
Qed.

Lemma loop_exact : forall v k e, integer_polynomial e -> extent v e <= limit64 ->
  (exists e', inplace_simplify n k e = Some (Ok e') /\ tame v e e' /\ inplace_simplify numR k (exact e) = Some (Ok (exact e')))
  \/ inplace_simplify n k e = None.
Proof.
  intros v k. induction k as [|k IH]; intros e P L; [now right|]. cbn [inplace_simplify].
  destruct (can_simplify_exact v e P L) as [b [-> ->]]. destruct b.
  - destruct (simplify_exact v e P L) as [e1 [-> [[P1 X1] ->]]]. destruct (IH e1 P1 ltac:(lra)) as [[e' [E [[P' X'] Q]]]|E]; [left|now right].
    exists e'. split; [exact E|]. split; [split; [exact P'|lra]|exact Q].
  - left. exists e. split; [reflexivity|]. split; [split; [exact P|lra]|reflexivity].
Qed.

Lemma top_exact : forall v e, integer_polynomial e -> extent v e <= limit64 ->
  exists e', simplify_top n e = Ok e' /\ tame v e e' /\ simplify_top numR (exact e) = Ok (exact e').
Proof.
  intros v e P L. unfold simplify_top. rewrite weight_exact by exact P.
  destruct (loop_exact v (S (weight n e)) e P L) as [[e' [-> [T ->]]]|E]; [now exists e'|].
  destruct (inplace_enough n (S (weight n e)) e ltac:(lia)) as [o Q]. rewrite E in Q. discriminate.
Qed.

(** ** Ranges *)
Lemma eval_var_out : forall (m : num) (v : list m) i r, nth_error v (N.to_nat i) = None -> eval m (EVar i) v <> Ok r.
Proof. intros m v i r N. cbn [eval]. rewrite N. destruct (N.leb (N.of_nat (length v)) i); discriminate. Qed.

Lemma range_of_eval : forall v e, integer_polynomial e -> forall r, eval numR (exact e) (exact_point v) = Ok r -> in_range v e.
Proof.
  intros v. apply (poly_ind (fun e => forall r, eval numR (exact e) (exact_point v) = Ok r -> in_range v e)).
  - intros; exact I.
  - intros i r E. cbn. intros N.
    elim (eval_var_out numR (exact_point v) i r (eq_trans (nth_error_map _ _ v) (f_equal (option_map (fun x : f64 => Some (B2R x))) N)) E).
  - intros op a b O Pa Pb IHa IHb r E. cbn [exact eval] in E. cbn.
    destruct (eval numR (exact a) (exact_point v)) as [x|w|] eqn:Ea;
    destruct (eval numR (exact b) (exact_point v)) as [y|w2|] eqn:Eb; try (cbn in E; discriminate E). split; [exact (IHa _ eq_refl)|exact (IHb _ eq_refl)].
Qed.

(** ** diff() *)
Lemma diff_exact : forall v i e, integer_polynomial e ->
  exists d, diff n (DVar i) e = Ok d /\ integer_polynomial d /\ extent v d <= INR (nodes e) * extent v e /\
    diff numR (DVar i) (exact e) = Ok (exact d).
Proof.
  intros v i. destruct int_c0 as [I0 V0]. destruct int_c1 as [I1 V1].
  assert (X0 : extent v (EConst (c0 n)) = 1) by (cbn [extent]; rewrite V0, Rabs_R0, Rmax_left; lra).
  assert (X1 : extent v (EConst (c1 n)) = 1) by (cbn [extent]; rewrite V1, Rabs_R1, Rmax_left; lra).
  assert (Q0 : EConst (c0 numR) = exact (EConst (c0 n))) by (cbn [exact]; rewrite V0; reflexivity).
  assert (Q1 : EConst (c1 numR) = exact (EConst (c1 n))) by (cbn [exact]; rewrite V1; reflexivity).
  apply (poly_ind (fun e => exists d, diff n (DVar i) e = Ok d /\ integer_polynomial d /\ extent v d <= INR (nodes e) * extent v e /\
    diff numR (DVar i) (exact e) = Ok (exact d))).
  - intros c Ic. exists (EConst (c0 n)). split; [reflexivity|]. split; [exact I0|]. split; [|rewrite <- Q0; reflexivity].
    rewrite X0. pose proof (extent_ge1 v (EConst c)). cbn [nodes INR]. lra.
  - intros j. cbn [diff exact]. pose proof (extent_ge1 v (EVar j)). destruct (N.eqb i j).
    + exists (EConst (c1 n)). split; [reflexivity|]. split; [exact I1|]. split; [|rewrite <- Q1; reflexivity]. rewrite X1. cbn [nodes INR]. lra.
    + exists (EConst (c0 n)). split; [reflexivity|]. split; [exact I0|]. split; [|rewrite <- Q0; reflexivity]. rewrite X0. cbn [nodes INR]. lra.
  - intros op a b O Pa Pb [da [Ea [Ta [Xa Qa]]]] [db [Eb [Tb [Xb Qb]]]].
    pose proof (extent_ge1 v a) as G1. pose proof (extent_ge1 v b) as G2.
    pose proof (pos_INR (nodes a)) as N1. pose proof (pos_INR (nodes b)) as N2.
    assert (NN : INR (nodes (EBin op a b)) = INR (nodes a) + INR (nodes b) + 1) by (cbn [nodes]; now rewrite S_INR, plus_INR).
    rewrite NN. set (p := INR (nodes a)) in *. set (q := INR (nodes b)) in *. clearbody p q.
    set (A := extent v a) in *. set (B := extent v b) in *.
    assert (H1 : 0 <= p * B) by (apply Rmult_le_pos; lra). assert (H2 : 0 <= q * A) by (apply Rmult_le_pos; lra).
    assert (H3 : (p + q + 1) * (A + B) = p * A + q * B + (p * B + q * A + A + B)) by ring.
    destruct O as [->|[->| ->]]; cbn [diff exact]; unfold mk2; rewrite Ea, Eb, Qa, Qb; cbn [both bind omap].
    + exists (EBin BPlus da db). split; [reflexivity|]. split; [now split|]. split; [|reflexivity]. change (extent v (EBin BPlus a b)) with (A + B).
      change (extent v (EBin BPlus da db)) with (extent v da + extent v db). lra.
    + exists (EBin BMinus da db). split; [reflexivity|]. split; [now split|]. split; [|reflexivity]. change (extent v (EBin BMinus a b)) with (A + B).
      change (extent v (EBin BMinus da db)) with (extent v da + extent v db). lra.
    + exists (EBin BPlus (EBin BMult da b) (EBin BMult a db)). split; [reflexivity|]. split; [cbn; auto|]. split; [|reflexivity].
      change (extent v (EBin BMult a b)) with (A * B).
      change (extent v (EBin BPlus (EBin BMult da b) (EBin BMult a db))) with (extent v da * B + A * extent v db).
      assert (extent v da * B <= (p * A) * B) by (apply Rmult_le_compat_r; lra).
      assert (A * extent v db <= A * (q * B)) by (apply Rmult_le_compat_l; lra). nra.
Qed.

Lemma poly_regular : forall v e x, integer_polynomial e -> eval numR (exact e) v = Ok (Some x) -> regular (exact e) v.
Proof.
  intros v e x P E.
  assert (NU : forall op a, ~ subterm (EUn op a) (exact e)).
  { intros op a. clear E. revert e P. apply (poly_ind (fun e => ~ subterm (EUn op a) (exact e))).
    - intros c _ S. cbn in S. inversion S.
    - intros i S. cbn in S. inversion S.
    - intros o l r _ _ _ IHl IHr S. cbn in S. inversion S; subst; auto. }
  split; [now exists x|]. split; [intros a S; exact (NU _ _ S)|]. intros a S. elim (NU _ _ S).
Qed.
End Exact.
