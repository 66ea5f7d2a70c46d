(** Conversions and sums of constants of other scalar types in IEEE arithmetic (proofs only). *)
From Coq Require Import ZArith NArith List Bool Lia Reals Lra.
From Flocq Require Import Core BinarySingleNaN.
From Verif Require Import Outcome Num NumB64 RtModel TypedModel TypedSpec TypedFacts.
Local Open Scope Z_scope.

(** An integer up to 2^53 is a double. *)
Lemma format_Z : forall z, Z.abs z <= 2 ^ 53 -> generic_format radix2 (SpecFloat.fexp 53 1024) (IZR z).
Proof.
  intros z H. destruct (Z.eq_dec (Z.abs z) (2 ^ 53)) as [E|E].
  - assert (D : z = 2 ^ 53 \/ z = - 2 ^ 53) by lia.
    assert (G : generic_format radix2 (SpecFloat.fexp 53 1024) (IZR (2 ^ 53))).
    { change (IZR (2 ^ 53)) with (IZR (Zpower radix2 53)). rewrite IZR_Zpower by lia.
      apply generic_format_bpow. unfold SpecFloat.fexp, SpecFloat.emin. lia. }
    destruct D as [->| ->]; [exact G|]. rewrite opp_IZR. apply generic_format_opp. exact G.
  - apply generic_format_FLT. exists (Float radix2 z 0); [|cbn; lia|cbn; lia].
    unfold F2R. cbn. rewrite Rmult_1_r. reflexivity.
Qed.
Lemma abs_Z_lt : forall z, Z.abs z <= 2 ^ 53 -> Rlt_bool (Rabs (IZR z)) (bpow radix2 1024) = true.
Proof.
  intros z H. apply Rlt_bool_true. rewrite <- abs_IZR.
  apply Rle_lt_trans with (IZR (2 ^ 53)); [apply IZR_le; exact H|].
  change (IZR (2 ^ 53)) with (IZR (Zpower radix2 53)). rewrite IZR_Zpower by lia. apply bpow_lt. lia.
Qed.

Lemma double_of_Z_correct : forall z, Z.abs z <= 2 ^ 53 ->
  B2R (double_of_Z z) = IZR z /\ is_finite (double_of_Z z) = true /\ Bsign (double_of_Z z) = Z.ltb z 0.
Proof.
  intros z H. pose proof (binary_normalize_correct 53 1024 prec_pos prec_emax mode_NE z 0 false) as C. cbv zeta in C.
  unfold double_of_Z. assert (F : F2R (Float radix2 z 0) = IZR z) by (unfold F2R; cbn; ring). rewrite F in C.
  rewrite round_generic in C by (try apply valid_rnd_round_mode; exact (format_Z z H)).
  rewrite (abs_Z_lt z H) in C. destruct C as [C1 [C2 C3]]. repeat split; try assumption.
  rewrite C3. destruct (Rcompare_spec (IZR z) 0) as [L|L|L].
  - apply lt_IZR in L. symmetry. apply Z.ltb_lt. exact L.
  - apply eq_IZR in L. symmetry. apply Z.ltb_ge. lia.
  - apply lt_IZR in L. symmetry. apply Z.ltb_ge. lia.
Qed.

(** A sum of small integers, computed in doubles, is the integer sum. *)
Lemma op64_Z : forall m a b, Z.abs a <= 2 ^ 53 -> Z.abs b <= 2 ^ 53 -> Z.abs (opZ m a b) <= 2 ^ 53 ->
  op64 m (double_of_Z a) (double_of_Z b) = double_of_Z (opZ m a b).
Proof.
  intros m a b Ha Hb Hc.
  destruct (double_of_Z_correct a Ha) as [Ra [Fa Sa]]. destruct (double_of_Z_correct b Hb) as [Rb [Fb Sb]].
  destruct (double_of_Z_correct _ Hc) as [Rc [Fc Sc]].
  destruct m; cbn [op64 opZ] in *.
  - pose proof (Bminus_correct 53 1024 prec_pos prec_emax mode_NE _ _ Fa Fb) as C.
    rewrite Ra, Rb, <- minus_IZR in C.
    rewrite round_generic in C by (try apply valid_rnd_round_mode; exact (format_Z _ Hc)).
    rewrite (abs_Z_lt _ Hc) in C. destruct C as [C1 [C2 C3]].
    apply B2R_Bsign_inj; try assumption; [congruence|]. rewrite C3, Sc, Sa, Sb.
    destruct (Rcompare_spec (IZR (a - b)) 0) as [L|L|L].
    + apply lt_IZR in L. symmetry. apply Z.ltb_lt. exact L.
    + apply eq_IZR in L. replace b with a by lia. replace (a - a) with 0 by lia. cbn. destruct (a <? 0); reflexivity.
    + apply lt_IZR in L. symmetry. apply Z.ltb_ge. lia.
  - pose proof (Bplus_correct 53 1024 prec_pos prec_emax mode_NE _ _ Fa Fb) as C.
    rewrite Ra, Rb, <- plus_IZR in C.
    rewrite round_generic in C by (try apply valid_rnd_round_mode; exact (format_Z _ Hc)).
    rewrite (abs_Z_lt _ Hc) in C. destruct C as [C1 [C2 C3]].
    apply B2R_Bsign_inj; try assumption; [congruence|]. rewrite C3, Sc, Sa, Sb.
    destruct (Rcompare_spec (IZR (a + b)) 0) as [L|L|L].
    + apply lt_IZR in L. symmetry. apply Z.ltb_lt. exact L.
    + apply eq_IZR in L. assert (b = - a) as -> by lia. replace (a + - a) with 0 by lia. cbn.
      destruct (a <? 0) eqn:E, (- a <? 0) eqn:E'; try reflexivity.
      apply Z.ltb_lt in E. apply Z.ltb_lt in E'. lia.
    + apply lt_IZR in L. symmetry. apply Z.ltb_ge. lia.
Qed.

(** Widening a float is exact. *)
Lemma widen_correct : forall f : f32, is_finite f = true -> B2R (widen f) = B2R f /\ is_finite (widen f) = true.
Proof.
  intros [s|s| |s m e Hb] F; try discriminate; [split; reflexivity|].
  pose proof (binary_normalize_correct 53 1024 prec_pos prec_emax mode_NE (cond_Zopp s (Zpos m)) e s) as C. cbv zeta in C.
  cbn [widen]. change (F2R (Float radix2 (cond_Zopp s (Zpos m)) e)) with (B2R (B754_finite s m e Hb : f32)) in C.
  assert (G : generic_format radix2 (SpecFloat.fexp 53 1024) (B2R (B754_finite s m e Hb : f32))).
  { pose proof (generic_format_B2R 24 128 (B754_finite s m e Hb)) as G. revert G. apply generic_inclusion_mag.
    intros _. unfold SpecFloat.fexp, SpecFloat.emin. lia. }
  rewrite round_generic in C by (try apply valid_rnd_round_mode; exact G).
  assert (L : Rlt_bool (Rabs (B2R (B754_finite s m e Hb : f32))) (bpow radix2 1024) = true).
  { apply Rlt_bool_true. apply Rlt_trans with (bpow radix2 128); [apply abs_B2R_lt_emax|apply bpow_lt; lia]. }
  rewrite L in C. destruct C as [C1 [C2 _]]. split; assumption.
Qed.
Lemma widen_mono : forall a b : f32, Bleb a b = true -> Bleb (widen a) (widen b) = true.
Proof.
  intros a b H. destruct (is_finite a) eqn:Fa, (is_finite b) eqn:Fb.
  - destruct (widen_correct a Fa) as [Ra Fa']. destruct (widen_correct b Fb) as [Rb Fb'].
    rewrite (Bleb_correct 53 1024 _ _ Fa' Fb'), Ra, Rb. rewrite (Bleb_correct 24 128 _ _ Fa Fb) in H. exact H.
  - destruct b as [t|t| |t m e Hb]; try discriminate Fb; [|destruct a; discriminate H].
    destruct t; [destruct a as [ [|] |[|]| |[|] m e Hb]; discriminate|].
    destruct (widen_correct a Fa) as [_ Fa']. cbn [widen]. destruct (widen a) as [ [|] |[|]| |[|] m e Hb]; try discriminate Fa'; reflexivity.
  - destruct a as [t|t| |t m e Hb]; try discriminate Fa; [|discriminate H].
    destruct t; [|destruct b as [ [|] |[|]| |[|] m e Hb]; discriminate].
    destruct (widen_correct b Fb) as [_ Fb']. cbn [widen]. destruct (widen b) as [ [|] |[|]| |[|] m e Hb]; try discriminate Fb'; reflexivity.
  - destruct a as [t|t| |t m e Hb]; try discriminate Fa; [|discriminate H].
    destruct b as [u|u| |u m e Hb]; try discriminate Fb; [|destruct t; discriminate H].
    cbn [widen]. destruct t, u; try discriminate H; reflexivity.
Qed.
Lemma leb_refl : forall x : f64, x <> B754_nan -> Bleb x x = true.
Proof.
  intros x H. destruct (is_finite x) eqn:F.
  - rewrite (Bleb_correct 53 1024 _ _ F F). apply Rle_bool_true. lra.
  - destruct x as [s|s| |s m e Hb]; try discriminate F; [destruct s; reflexivity|congruence].
Qed.
Lemma double_of_Z_not_nan : forall z, double_of_Z z <> B754_nan.
Proof.
  intros z E. pose proof (binary_normalize_correct 53 1024 prec_pos prec_emax mode_NE z 0 false) as C. cbv zeta in C.
  fold (double_of_Z z) in C. rewrite E in C. destruct (Rlt_bool _ _); [destruct C as [_ [C _]]; discriminate C|].
  cbn in C. destruct (Rlt_bool _ _); discriminate C.
Qed.

Lemma sound64 : forall lm, sound_equal (numB64 lm) widen.
Proof.
  intros lm s o H. destruct s as [x|x|x|x], o as [y|y|y|y]; cbn in H; try discriminate H.
  - exact H.
  - apply andb_prop in H as [H1 H2]. apply Z.leb_le in H1. apply Z.geb_le in H2.
    assert (y = x) as -> by lia. cbn. fold (double_of_Z x). rewrite (leb_refl _ (double_of_Z_not_nan x)). reflexivity.
  - apply andb_prop in H as [H1 H2]. apply Z.leb_le in H1. apply Z.geb_le in H2.
    assert (y = x) as -> by lia. cbn. fold (double_of_Z x). rewrite (leb_refl _ (double_of_Z_not_nan x)). reflexivity.
  - apply andb_prop in H as [H1 H2]. cbn. rewrite (widen_mono _ _ H1), (widen_mono _ _ H2). reflexivity.
Qed.

Lemma fold_exact : forall lm m a b s, exact_scalar a -> exact_scalar b -> fold m a b = Ok s ->
  conv (numB64 lm) widen s = op64 m (conv (numB64 lm) widen a) (conv (numB64 lm) widen b).
Proof.
  assert (I : forall z, in_int z = true -> Z.abs z <= 2 ^ 52).
  { intros z H. unfold in_int in H. apply andb_prop in H as [H1 H2]. apply Z.leb_le in H1. apply Z.leb_le in H2. lia. }
  assert (A : forall m a b, Z.abs a <= 2 ^ 52 -> Z.abs b <= 2 ^ 52 ->
    double_of_Z (opZ m a b) = op64 m (double_of_Z a) (double_of_Z b)).
  { intros m a b Ha Hb. symmetry. apply op64_Z; destruct m; cbn [opZ]; lia. }
  intros lm m a b s Ha Hb E.
  destruct a as [x|x|x|x], b as [y|y|y|y]; cbn [exact_scalar small] in Ha, Hb; try contradiction;
    cbn [fold] in E; try (destruct (_ (opZ m x y)); [|discriminate E]); injection E as <-; cbn [conv];
    try reflexivity; apply A; auto.
Qed.

(** Folding with floats. *)
Lemma float_of_Z_correct : forall z, - 2 ^ 63 <= z < 2 ^ 63 ->
  B2R (float_of_Z z) = nearest_float (IZR z) /\ is_finite (float_of_Z z) = true.
Proof.
  intros z H. pose proof (binary_normalize_correct 24 128 prec32_pos prec32_emax mode_NE z 0 false) as C. cbv zeta in C.
  unfold float_of_Z. assert (F : F2R (Float radix2 z 0) = IZR z) by (unfold F2R; cbn; ring). rewrite F in C.
  change (round radix2 (SpecFloat.fexp 24 128) (round_mode mode_NE) (IZR z)) with (nearest_float (IZR z)) in C.
  assert (B : Rlt_bool (Rabs (nearest_float (IZR z))) (bpow radix2 128) = true).
  { apply Rlt_bool_true. apply Rle_lt_trans with (bpow radix2 63); [|apply bpow_lt; lia].
    unfold nearest_float. apply abs_round_le_generic.
    - exact (FLT_exp_valid (-149) 24 (prec_gt_0_ := prec32_pos)).
    - apply valid_rnd_N.
    - apply generic_format_bpow. unfold FLT_exp. lia.
    - rewrite <- abs_IZR. rewrite <- IZR_Zpower by lia. apply IZR_le. change (Zpower radix2 63) with (2 ^ 63). lia. }
  rewrite B in C. destruct C as [C1 [C2 _]]. split; assumption.
Qed.

Lemma op32_correct : forall (m : bool) (x y : f32), is_finite x = true -> is_finite y = true ->
  let e := (if m then B2R x - B2R y else B2R x + B2R y)%R in
  (Rabs (nearest_float e) < bpow radix2 128)%R -> B2R (op32 m x y) = nearest_float e /\ is_finite (op32 m x y) = true.
Proof.
  intros m x y Fx Fy e L. destruct m; cbn [op32]; unfold e in *; clear e.
  - pose proof (Bminus_correct 24 128 prec32_pos prec32_emax mode_NE _ _ Fx Fy) as C.
    change (round radix2 (SpecFloat.fexp 24 128) (round_mode mode_NE) (B2R x - B2R y)) with (nearest_float (B2R x - B2R y)) in C.
    rewrite (Rlt_bool_true _ _ L) in C. destruct C as [C1 [C2 _]]. split; assumption.
  - pose proof (Bplus_correct 24 128 prec32_pos prec32_emax mode_NE _ _ Fx Fy) as C.
    change (round radix2 (SpecFloat.fexp 24 128) (round_mode mode_NE) (B2R x + B2R y)) with (nearest_float (B2R x + B2R y)) in C.
    rewrite (Rlt_bool_true _ _ L) in C. destruct C as [C1 [C2 _]]. split; assumption.
Qed.

(** The float used for a constant in a folding with a float. *)
Lemma float_value_float : forall s x, float_value s x -> exists f, B2R f = x /\ is_finite f = true /\
  (s = SFloat f \/ exists z, (s = SInt z \/ s = SLong z) /\ f = float_of_Z z).
Proof.
  intros s x H. destruct H as [f F|z Z|z Z].
  - exists f. auto.
  - exists (float_of_Z z). destruct (float_of_Z_correct z ltac:(lia)) as [A B]. split; [exact A|]. split; [exact B|]. right. exists z. auto.
  - exists (float_of_Z z). destruct (float_of_Z_correct z ltac:(lia)) as [A B]. split; [exact A|]. split; [exact B|]. right. exists z. auto.
Qed.

Lemma fold_floats : forall m a b s x y, float_value a x -> float_value b y -> is_float a \/ is_float b ->
  fold m a b = Ok s ->
  let e := (if m then x - y else x + y)%R in
  (Rabs (nearest_float e) < bpow radix2 128)%R -> exists f, s = SFloat f /\ is_finite f = true /\ B2R f = nearest_float e.
Proof.
  intros m a b s x y Ha Hb I E e L.
  destruct (float_value_float a x Ha) as [fa [Ra [Fa Ca]]]. destruct (float_value_float b y Hb) as [fb [Rb [Fb Cb]]].
  assert (K : s = SFloat (op32 m fa fb)).
  { destruct Ca as [-> | [za [[-> | ->] ->]]], Cb as [-> | [zb [[-> | ->] ->]]]; cbn [is_float fold] in *; try (destruct I; contradiction);
      injection E as <-; reflexivity. }
  exists (op32 m fa fb). rewrite K. unfold e in *. rewrite <- Ra, <- Rb in *.
  destruct (op32_correct m fa fb Fa Fb L) as [A B]. auto.
Qed.
