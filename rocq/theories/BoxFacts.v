(** Polynomials over a box (proofs only). *)
From Coq Require Import ZArith NArith Reals List Bool Lra Lia.
From Flocq Require Import Core BinarySingleNaN.
From Verif Require Import Outcome Num RtModel RtSpec RtFacts RtValue NumB64 NumB64Facts NumR ErrSpec ErrFacts DataSpec DataFacts.
Import ListNotations.
Local Open Scope R_scope.

Local Notation rnd := (round radix2 (SpecFloat.fexp 53 1024) (round_mode mode_NE)).
Local Existing Instance prec_pos.
Local Existing Instance prec_emax.

Section Box.
Context (lm : libm) (v : list f64) (w : list (option R)) (u t B s : R).
Context (Hu : u64 <= u) (Ht : tiny64 <= t) (HB : 1 <= B) (Hs : 0 <= s).
Notation n := (numB64 lm).
Notation bx := (box u t B s).

Lemma up : 0 < u.
Proof. pose proof u_pos. lra. Qed.
Lemma tp : 0 < t.
Proof. pose proof tiny_pos. lra. Qed.

Lemma box_pos : forall e, 1 <= fst (bx e) /\ 0 <= snd (bx e).
Proof.
  pose proof up as U. pose proof tp as T.
  induction e as [| | | | |op a IHa b IHb|]; cbn [box fst snd]; try (split; assumption).
  destruct IHa as [A1 A2], IHb as [B1 B2].
  set (x := fst (bx a)) in *. set (y := fst (bx b)) in *. set (dx := snd (bx a)) in *. set (dy := snd (bx b)) in *.
  assert (P : 1 <= x * y) by nra.
  assert (Q : 0 <= x * dy + y * dx + dx * dy) by nra.
  destruct op; cbn [fst snd]; unfold after; rewrite Rabs_pos_eq by lra; split; nra.
Qed.

Lemma box_mono : forall op a b, fst (bx a) + snd (bx a) <= fst (bx (EBin op a b)) + snd (bx (EBin op a b)) /\
  fst (bx b) + snd (bx b) <= fst (bx (EBin op a b)) + snd (bx (EBin op a b)).
Proof.
  intros op a b. pose proof up as U. pose proof tp as T. destruct (box_pos a) as [A1 A2], (box_pos b) as [B1 B2].
  destruct op; cbn [box fst snd]; unfold after;
    set (x := fst (bx a)) in *; set (y := fst (bx b)) in *; set (dx := snd (bx a)) in *; set (dy := snd (bx b)) in *.
  all: try (rewrite Rabs_pos_eq by lra; assert (0 <= u * (x + y + (dx + dy))) by nra; lra).
  rewrite Rabs_pos_eq by nra.
  assert (E : x * y + (x * dy + y * dx + dx * dy) = (x + dx) * (y + dy)) by ring.
  assert (0 <= u * (x * y + (x * dy + y * dx + dx * dy))) by (rewrite E; apply Rmult_le_pos; nra).
  assert (x + dx <= (x + dx) * (y + dy) /\ y + dy <= (x + dx) * (y + dy)) by (split; nra). lra.
Qed.

Lemma after_mono : forall u0 s0 u1 s1 z Z r R, 0 <= u0 <= u1 -> s0 <= s1 -> Rabs z <= Z -> 0 <= r <= R -> after u0 s0 z r <= after u1 s1 Z R.
Proof.
  intros u0 s0 u1 s1 z Z r R U S A D. unfold after. pose proof (Rabs_pos z).
  assert (E : Rabs Z = Z) by (apply Rabs_pos_eq; lra). rewrite E.
  assert (u0 * (Rabs z + r) <= u1 * (Z + R)) by (apply Rmult_le_compat; lra). lra.
Qed.
Lemma after_pos : forall u0 s0 z r, 0 <= u0 -> 0 <= s0 -> 0 <= r -> 0 <= after u0 s0 z r.
Proof. intros u0 s0 z r U S D. unfold after. pose proof (Rabs_pos z). nra. Qed.

Lemma box_ok : forall d e e', close_data B s e e' -> close_point B s v w e ->
  fst (bx e) + snd (bx e) <= bpow radix2 1000 ->
  exists (x : f64) z r, eval n e v = Ok x /\ finite64 x /\ eval numR e' w = Ok (Some z) /\ Rabs z <= fst (bx e) /\
    Rabs (B2R x - z) <= r /\ 0 <= r <= snd (bx e) /\ bounded d v w e e' z r /\ all_values (n := n) finite64 v e.
Proof.
  intros d e e' H. induction H as [c k F K E|i|op a a' b b' O Ha IHa Hb IHb]; intros P X.
  - exists c, k, (Rabs (B2R c - k)). cbn [box fst snd]. pose proof (Rabs_pos (B2R c - k)).
    split; [reflexivity|]. split; [exact F|]. split; [reflexivity|]. split; [exact K|]. split; [lra|].
    split; [lra|]. split; [constructor|]. intros t0 S. inversion S; subst. exists c. auto.
  - destruct (P i (sub_refl _)) as [x [y [V [W [F [Y E]]]]]]. exists x, y, (Rabs (B2R x - y)). cbn [box fst snd].
    pose proof (Rabs_pos (B2R x - y)). split; [exact (var_gen n v i x V)|]. split; [exact F|]. split; [exact (var_gen numR w i _ W)|].
    split; [exact Y|]. split; [lra|]. split; [lra|]. split; [now constructor|].
    intros t0 S. inversion S; subst. exists x. split; [exact (var_gen n v i x V)|exact F].
  - destruct (box_mono op a b) as [Ma Mb].
    destruct (IHa (fun i S => P i (sub_l _ _ _ _ S)) (Rle_trans _ _ _ Ma X)) as [x [z [r [Ea [Fa [Ea' [Za [Da [Ra [Ba Aa]]]]]]]]]].
    destruct (IHb (fun i S => P i (sub_r _ _ _ _ S)) (Rle_trans _ _ _ Mb X)) as [x2 [z2 [r2 [Eb [Fb [Eb' [Zb [Db [Rb [Bb Ab]]]]]]]]]].
    clear IHa IHb Ma Mb. destruct (box_pos a) as [A1 A2], (box_pos b) as [B1 B2].
    pose proof u_pos as U0. pose proof tiny_pos as T0. pose proof (Rabs_pos z) as Z0. pose proof (Rabs_pos z2) as Z20.
    assert (ALL : forall y : f64, eval n (EBin op a b) v = Ok y -> finite64 y -> all_values (n := n) finite64 v (EBin op a b)).
    { intros y Ey Fy t0 S. inversion S; subst; [exists y; auto|apply Aa; auto|apply Ab; auto]. }
    assert (FIN : forall q, Rabs q <= bpow radix2 1000 -> Rabs (rnd q) < bpow radix2 1024).
    { intros q Q. apply (rnd_small q 1000); [lia|exact Q]. }
    assert (NEAR : forall o y (q : R), b_apply n o x x2 = Ok y -> o = op ->
      (finite64 (y : f64) <-> Rabs (rnd q) < bpow radix2 1024) -> (finite64 (y : f64) -> B2R y = rnd q) ->
      forall zz rr ss, b_apply numR o (Some z) (Some z2) = Ok (Some zz) -> Rabs (q - zz) <= rr -> Rabs (rnd q - q) <= u64 * Rabs q + ss ->
        0 <= ss -> 0 <= rr -> Rabs zz <= fst (bx (EBin op a b)) -> after u64 ss zz rr <= snd (bx (EBin op a b)) ->
        bounded d v w (EBin op a b) (EBin op a' b') zz (after u64 ss zz rr) ->
        exists (y0 : f64) z0 r0, eval n (EBin op a b) v = Ok y0 /\ finite64 y0 /\ eval numR (EBin op a' b') w = Ok (Some z0) /\
          Rabs z0 <= fst (bx (EBin op a b)) /\ Rabs (B2R y0 - z0) <= r0 /\ 0 <= r0 <= snd (bx (EBin op a b)) /\
          bounded d v w (EBin op a b) (EBin op a' b') z0 r0 /\ all_values (n := n) finite64 v (EBin op a b)).
    { intros o y q By -> I J zz rr ss BR Q E S0 R0 Zz Aft Bd.
      assert (Lq : Rabs q <= Rabs zz + rr).
      { replace q with (zz + (q - zz)) by ring. eapply Rle_trans; [apply Rabs_triang|]. lra. }
      assert (Fy : finite64 y).
      { apply I. apply FIN. eapply Rle_trans; [exact Lq|]. eapply Rle_trans; [|exact X].
        assert (rr <= after u64 ss zz rr) by (unfold after; pose proof (Rabs_pos zz); nra). lra. }
      exists y, zz, (after u64 ss zz rr). pose proof (bin_gen n v op a b x x2 y Ea Eb By) as Ey.
      split; [exact Ey|]. split; [exact Fy|]. split; [exact (bin_gen numR w op a' b' _ _ _ Ea' Eb' BR)|].
      split; [exact Zz|]. split; [|split; [split; [apply after_pos; lra|exact Aft]|split; [exact Bd|exact (ALL y Ey Fy)]]].
      rewrite (J Fy). unfold after. replace (rnd q - zz) with ((rnd q - q) + (q - zz)) by ring.
      eapply Rle_trans; [apply Rabs_triang|]. assert (u64 * Rabs q <= u64 * (Rabs zz + rr)) by (apply Rmult_le_compat_l; lra). lra. }
    destruct O as [-> | [-> | ->]].
    + destruct (plus_fin x x2 Fa Fb) as [I J].
      refine (NEAR BPlus _ _ eq_refl eq_refl I J (z + z2) (r + r2) 0 eq_refl _ _ (Rle_refl 0) _ _ _ _).
      * replace (B2R x + B2R x2 - (z + z2)) with ((B2R x - z) + (B2R x2 - z2)) by ring. eapply Rle_trans; [apply Rabs_triang|]. lra.
      * rewrite Rplus_0_r. apply plus_err.
      * lra.
      * cbn [box fst]. eapply Rle_trans; [apply Rabs_triang|]. lra.
      * cbn [box snd]. apply after_mono; try lra. eapply Rle_trans; [apply Rabs_triang|]. lra.
      * now constructor.
    + destruct (minus_fin x x2 Fa Fb) as [I J].
      refine (NEAR BMinus _ _ eq_refl eq_refl I J (z - z2) (r + r2) 0 eq_refl _ _ (Rle_refl 0) _ _ _ _).
      * replace (B2R x - B2R x2 - (z - z2)) with ((B2R x - z) + - (B2R x2 - z2)) by ring. eapply Rle_trans; [apply Rabs_triang|]. rewrite Rabs_Ropp. lra.
      * rewrite Rplus_0_r. apply minus_err.
      * lra.
      * cbn [box fst]. unfold Rminus. eapply Rle_trans; [apply Rabs_triang|]. rewrite Rabs_Ropp. lra.
      * cbn [box snd]. apply after_mono; try lra. unfold Rminus. eapply Rle_trans; [apply Rabs_triang|]. rewrite Rabs_Ropp. lra.
      * now constructor.
    + destruct (mult_fin x x2 Fa Fb) as [I J].
      assert (M : Rabs (z * z2) <= fst (bx a) * fst (bx b)) by (rewrite Rabs_mult; apply Rmult_le_compat; lra).
      refine (NEAR BMult _ _ eq_refl eq_refl I J (z * z2) (Rabs z * r2 + Rabs z2 * r + r * r2) tiny64 eq_refl _ (round_err _) _ _ _ _ _).
      * apply mult_near; assumption.
      * lra.
      * assert (0 <= Rabs z * r2) by (apply Rmult_le_pos; lra). assert (0 <= Rabs z2 * r) by (apply Rmult_le_pos; lra).
        assert (0 <= r * r2) by (apply Rmult_le_pos; lra). lra.
      * cbn [box fst]. exact M.
      * cbn [box snd]. apply after_mono; [lra|lra|exact M|].
        assert (0 <= Rabs z * r2 <= fst (bx a) * snd (bx b)) by (split; [apply Rmult_le_pos; lra|apply Rmult_le_compat; lra]).
        assert (0 <= Rabs z2 * r <= fst (bx b) * snd (bx a)) by (split; [apply Rmult_le_pos; lra|apply Rmult_le_compat; lra]).
        assert (0 <= r * r2 <= snd (bx a) * snd (bx b)) by (split; [apply Rmult_le_pos; lra|apply Rmult_le_compat; lra]). lra.
      * now constructor.
Qed.
End Box.

(** The same for one tree after the other, with bounds chosen by hand. *)
Section Sized.
Context (lm : libm) (d : R) (A : accurate lm d) (v : list f64) (w : list (option R)).
Notation n := (numB64 lm).

Definition sized (e : expr f64) (e' : expr numR) (z Z E : R) : Prop :=
  Rabs z <= Z /\ exists r, 0 <= r <= E /\ bounded d v w e e' z r /\ all_values (n := n) finite64 v e.

Lemma sized_value : forall e e' z Z E, sized e e' z Z E ->
  exists x : f64, eval n e v = Ok x /\ finite64 x /\ eval numR e' w = Ok (Some z) /\ Rabs (B2R x - z) <= E.
Proof.
  intros e e' z Z E [_ [r [R [B F]]]]. destruct (bounded_ok lm d v w A e e' z r B F) as [x [Ex [Fx [Er D]]]].
  exists x. repeat split; auto. lra.
Qed.
Lemma sized_weaken : forall e e' z Z E Z' E', sized e e' z Z E -> Rabs z <= Z' -> E <= E' -> sized e e' z Z' E'.
Proof. intros e e' z Z E Z' E' [_ [r [R H]]] HZ HE. split; [exact HZ|]. exists r. split; [lra|exact H]. Qed.

Lemma sized_const : forall (c : f64) k Z, finite64 c -> B2R c = k -> Rabs k <= Z -> sized (EConst c) (@EConst numR (Some k)) k Z 0.
Proof.
  intros c k Z F V K. split; [exact K|]. exists 0. split; [lra|]. split.
  - replace 0 with (Rabs (B2R c - k)); [constructor|]. rewrite V, Rminus_diag_eq by reflexivity. apply Rabs_R0.
  - intros s S. inversion S; subst. exists c. auto.
Qed.
Lemma sized_var : forall i (x : f64) y Z, nth_error v (N.to_nat i) = Some x -> nth_error w (N.to_nat i) = Some (Some y) ->
  finite64 x -> B2R x = y -> Rabs y <= Z -> sized (EVar i) (EVar i) y Z 0.
Proof.
  intros i x y Z Vi Wi F V K. split; [exact K|]. exists 0. split; [lra|]. split.
  - replace 0 with (Rabs (B2R x - y)); [constructor; assumption|]. rewrite V, Rminus_diag_eq by reflexivity. apply Rabs_R0.
  - intros s S. inversion S; subst. exists x. split; [exact (var_gen n v i x Vi)|exact F].
Qed.

(** One operation. *)
Lemma sized_bin : forall op a a' b b' z1 Z1 E1 z2 Z2 E2, sized a a' z1 Z1 E1 -> sized b b' z2 Z2 E2 ->
  forall (q zz rr ss : R) (x x2 : f64) y, eval n a v = Ok x -> eval n b v = Ok x2 -> b_apply n op x x2 = Ok y ->
    (finite64 (y : f64) <-> Rabs (rnd q) < bpow radix2 1024) ->
    bounded d v w (EBin op a b) (EBin op a' b') zz (after u64 ss zz rr) ->
    0 <= ss -> 0 <= rr -> Rabs (q - zz) <= rr ->
    forall Z E, Rabs zz <= Z -> after u64 ss zz rr <= E -> Z + E <= 1000000000000 ->
    sized (EBin op a b) (EBin op a' b') zz Z E.
Proof.
  intros op a a' b b' z1 Z1 E1 z2 Z2 E2 [_ [r1 [_ [_ Aa]]]] [_ [r2 [_ [_ Ab]]]] q zz rr ss x x2 y Ea Eb By I Bd S0 R0 Q Z E HZ HE HS.
  pose proof u_pos as U0. split; [exact HZ|]. exists (after u64 ss zz rr). split; [split; [apply after_pos; lra|exact HE]|]. split; [exact Bd|].
  assert (Fy : finite64 y).
  { apply I. apply (rnd_small q 1000); [lia|].
    assert (Lq : Rabs q <= Rabs zz + rr).
    { replace q with (zz + (q - zz)) by ring. eapply Rle_trans; [apply Rabs_triang|]. lra. }
    assert (rr <= after u64 ss zz rr) by (unfold after; pose proof (Rabs_pos zz); nra).
    apply Rle_trans with 1000000000000; [lra|]. apply Rle_trans with (bpow radix2 80); [|apply bpow_le; lia].
    change (bpow radix2 80) with (IZR (Zpower_pos 2 80)). apply IZR_le. vm_compute. discriminate. }
  pose proof (bin_gen n v op a b x x2 y Ea Eb By) as Ey.
  intros t0 S. inversion S; subst; [exists y; auto|apply Aa; auto|apply Ab; auto].
Qed.

Lemma u_fine : u64 <= 12 / 100000000000000000.
Proof.
  unfold u64. change (bpow radix2 (-53)) with (/ IZR (Zpower_pos 2 53)).
  apply (Rmult_le_reg_l (IZR (Zpower_pos 2 53))); [apply IZR_lt; reflexivity|]. rewrite Rinv_r by (apply Rgt_not_eq; apply IZR_lt; reflexivity).
  change (Zpower_pos 2 53) with 9007199254740992%Z. lra.
Qed.
Lemma t_fine : tiny64 <= / 100000000000000000000.
Proof.
  apply Rle_trans with (bpow radix2 (-80)); [apply bpow_le; lia|].
  change (bpow radix2 (-80)) with (/ IZR (Zpower_pos 2 80)). apply Rinv_le_contravar; [lra|]. apply IZR_le. vm_compute. discriminate.
Qed.
Notation u := (12 / 100000000000000000).
Notation t := (/ 100000000000000000000).

Lemma sized_plus : forall a a' b b' z1 Z1 E1 z2 Z2 E2, sized a a' z1 Z1 E1 -> sized b b' z2 Z2 E2 ->
  forall Z E, Rabs (z1 + z2) <= Z -> (E1 + E2) + u * (Z + (E1 + E2)) <= E -> Z + E <= 1000000000000 ->
  sized (EBin BPlus a b) (EBin BPlus a' b') (z1 + z2) Z E.
Proof.
  intros a a' b b' z1 Z1 E1 z2 Z2 E2 H1 H2 Z E HZ HE HS. pose proof H1 as [_ [r1 [R1 [B1 A1]]]]. pose proof H2 as [_ [r2 [R2 [B2 A2]]]].
  destruct (bounded_ok lm d v w A _ _ _ _ B1 A1) as [x [Ea [Fa [_ D1]]]]. destruct (bounded_ok lm d v w A _ _ _ _ B2 A2) as [x2 [Eb [Fb [_ D2]]]].
  destruct (plus_fin x x2 Fa Fb) as [I _]. pose proof u_pos. pose proof u_fine.
  refine (sized_bin BPlus _ _ _ _ _ _ _ _ _ _ H1 H2 _ (z1 + z2) (r1 + r2) 0 x x2 _ Ea Eb eq_refl I _ _ _ _ Z E HZ _ HS); try lra.
  - now constructor.
  - replace (B2R x + B2R x2 - (z1 + z2)) with ((B2R x - z1) + (B2R x2 - z2)) by ring. eapply Rle_trans; [apply Rabs_triang|]. lra.
  - unfold after. assert (u64 * (Rabs (z1 + z2) + (r1 + r2)) <= u * (Z + (E1 + E2))) by (apply Rmult_le_compat; pose proof (Rabs_pos (z1 + z2)); lra). lra.
Qed.
Lemma sized_minus : forall a a' b b' z1 Z1 E1 z2 Z2 E2, sized a a' z1 Z1 E1 -> sized b b' z2 Z2 E2 ->
  forall Z E, Rabs (z1 - z2) <= Z -> (E1 + E2) + u * (Z + (E1 + E2)) <= E -> Z + E <= 1000000000000 ->
  sized (EBin BMinus a b) (EBin BMinus a' b') (z1 - z2) Z E.
Proof.
  intros a a' b b' z1 Z1 E1 z2 Z2 E2 H1 H2 Z E HZ HE HS. pose proof H1 as [_ [r1 [R1 [B1 A1]]]]. pose proof H2 as [_ [r2 [R2 [B2 A2]]]].
  destruct (bounded_ok lm d v w A _ _ _ _ B1 A1) as [x [Ea [Fa [_ D1]]]]. destruct (bounded_ok lm d v w A _ _ _ _ B2 A2) as [x2 [Eb [Fb [_ D2]]]].
  destruct (minus_fin x x2 Fa Fb) as [I _]. pose proof u_pos. pose proof u_fine.
  refine (sized_bin BMinus _ _ _ _ _ _ _ _ _ _ H1 H2 _ (z1 - z2) (r1 + r2) 0 x x2 _ Ea Eb eq_refl I _ _ _ _ Z E HZ _ HS); try lra.
  - now constructor.
  - replace (B2R x - B2R x2 - (z1 - z2)) with ((B2R x - z1) + - (B2R x2 - z2)) by ring. eapply Rle_trans; [apply Rabs_triang|]. rewrite Rabs_Ropp. lra.
  - unfold after. assert (u64 * (Rabs (z1 - z2) + (r1 + r2)) <= u * (Z + (E1 + E2))) by (apply Rmult_le_compat; pose proof (Rabs_pos (z1 - z2)); lra). lra.
Qed.
Lemma sized_mult : forall a a' b b' z1 Z1 E1 z2 Z2 E2, sized a a' z1 Z1 E1 -> sized b b' z2 Z2 E2 ->
  forall Z E, Rabs (z1 * z2) <= Z -> (Z1 * E2 + Z2 * E1 + E1 * E2) + u * (Z + (Z1 * E2 + Z2 * E1 + E1 * E2)) + t <= E -> Z + E <= 1000000000000 ->
  sized (EBin BMult a b) (EBin BMult a' b') (z1 * z2) Z E.
Proof.
  intros a a' b b' z1 Z1 E1 z2 Z2 E2 H1 H2 Z E HZ HE HS. pose proof H1 as [X1 [r1 [R1 [B1 A1]]]]. pose proof H2 as [X2 [r2 [R2 [B2 A2]]]].
  destruct (bounded_ok lm d v w A _ _ _ _ B1 A1) as [x [Ea [Fa [_ D1]]]]. destruct (bounded_ok lm d v w A _ _ _ _ B2 A2) as [x2 [Eb [Fb [_ D2]]]].
  destruct (mult_fin x x2 Fa Fb) as [I _]. pose proof u_pos. pose proof u_fine. pose proof tiny_pos. pose proof t_fine.
  pose proof (Rabs_pos z1). pose proof (Rabs_pos z2).
  assert (P1 : 0 <= Rabs z1 * r2 <= Z1 * E2) by (split; [apply Rmult_le_pos; lra|apply Rmult_le_compat; lra]).
  assert (P2 : 0 <= Rabs z2 * r1 <= Z2 * E1) by (split; [apply Rmult_le_pos; lra|apply Rmult_le_compat; lra]).
  assert (P3 : 0 <= r1 * r2 <= E1 * E2) by (split; [apply Rmult_le_pos; lra|apply Rmult_le_compat; lra]).
  refine (sized_bin BMult _ _ _ _ _ _ _ _ _ _ H1 H2 _ (z1 * z2) (Rabs z1 * r2 + Rabs z2 * r1 + r1 * r2) tiny64 x x2 _ Ea Eb eq_refl I _ _ _ _ Z E HZ _ HS); try lra.
  - now constructor.
  - apply mult_near; assumption.
  - unfold after. set (rr := Rabs z1 * r2 + Rabs z2 * r1 + r1 * r2) in *.
    assert (u64 * (Rabs (z1 * z2) + rr) <= u * (Z + (Z1 * E2 + Z2 * E1 + E1 * E2)))
      by (apply Rmult_le_compat; pose proof (Rabs_pos (z1 * z2)); unfold rr; lra).
    assert (rr <= Z1 * E2 + Z2 * E1 + E1 * E2) by (unfold rr; lra). lra.
Qed.
Lemma sized_div : forall a a' b b' z1 Z1 E1 z2 Z2 E2, sized a a' z1 Z1 E1 -> sized b b' z2 Z2 E2 ->
  forall m Z E T, m <= Rabs z2 -> E2 < m -> Rabs (z1 / z2) <= Z -> (E1 + Z * E2) <= T * (m - E2) ->
    T + u * (Z + T) + t <= E -> Z + E <= 1000000000000 ->
  sized (EBin BDiv a b) (EBin BDiv a' b') (z1 / z2) Z E.
Proof.
  intros a a' b b' z1 Z1 E1 z2 Z2 E2 H1 H2 m Z E T M1 M2 HZ HT HE HS. pose proof H1 as [X1 [r1 [R1 [B1 A1]]]]. pose proof H2 as [X2 [r2 [R2 [B2 A2]]]].
  destruct (bounded_ok lm d v w A _ _ _ _ B1 A1) as [x [Ea [Fa [_ D1]]]]. destruct (bounded_ok lm d v w A _ _ _ _ B2 A2) as [x2 [Eb [Fb [_ D2]]]].
  destruct (div_fin x x2 Fa Fb) as [I _]. pose proof u_pos. pose proof u_fine. pose proof tiny_pos. pose proof t_fine.
  assert (NZ : B2R x2 <> 0).
  { intros Zx. rewrite Zx in D2. replace (0 - z2) with (- z2) in D2 by ring. rewrite Rabs_Ropp in D2. lra. }
  assert (I' : finite64 (Bdiv mode_NE x x2) <-> Rabs (rnd (B2R x / B2R x2)) < bpow radix2 1024) by tauto.
  assert (Q : 0 <= (r1 + Rabs (z1 / z2) * r2) / (Rabs z2 - r2) <= T).
  { assert (0 < Rabs z2 - r2) by lra. pose proof (Rabs_pos (z1 / z2)).
    assert (0 <= Rabs (z1 / z2) * r2 <= Z * E2) by (split; [apply Rmult_le_pos; lra|apply Rmult_le_compat; lra]).
    assert (T0 : 0 <= T) by nra. split.
    - apply Rmult_le_pos; [lra|]. left. apply Rinv_0_lt_compat. lra.
    - apply (Rmult_le_reg_r (Rabs z2 - r2)); [lra|]. unfold Rdiv at 1. rewrite Rmult_assoc, Rinv_l by lra. rewrite Rmult_1_r.
      assert (T * (m - E2) <= T * (Rabs z2 - r2)) by (apply Rmult_le_compat_l; lra). lra. }
  refine (sized_bin BDiv _ _ _ _ _ _ _ _ _ _ H1 H2 _ (z1 / z2) ((r1 + Rabs (z1 / z2) * r2) / (Rabs z2 - r2)) tiny64 x x2 _ Ea Eb eq_refl I' _ _ _ _ Z E HZ _ HS); try lra.
  - constructor; [assumption|assumption|lra].
  - apply div_near; [assumption|assumption|lra].
  - unfold after. set (rr := (r1 + Rabs (z1 / z2) * r2) / (Rabs z2 - r2)) in *.
    assert (u64 * (Rabs (z1 / z2) + rr) <= u * (Z + T)) by (apply Rmult_le_compat; pose proof (Rabs_pos (z1 / z2)); lra). lra.
Qed.

(** The bounds on the values from those of the operands. *)
Lemma sized_plus_ : forall a a' b b' z1 Z1 E1 z2 Z2 E2, sized a a' z1 Z1 E1 -> sized b b' z2 Z2 E2 ->
  forall Z E, Z1 + Z2 <= Z -> (E1 + E2) + u * (Z + (E1 + E2)) <= E -> Z + E <= 1000000000000 ->
  sized (EBin BPlus a b) (EBin BPlus a' b') (z1 + z2) Z E.
Proof.
  intros a a' b b' z1 Z1 E1 z2 Z2 E2 H1 H2 Z E HZ HE HS. apply (sized_plus _ _ _ _ _ _ _ _ _ _ H1 H2); auto.
  destruct H1 as [X1 _], H2 as [X2 _]. eapply Rle_trans; [apply Rabs_triang|]. lra.
Qed.
Lemma sized_minus_ : forall a a' b b' z1 Z1 E1 z2 Z2 E2, sized a a' z1 Z1 E1 -> sized b b' z2 Z2 E2 ->
  forall Z E, Z1 + Z2 <= Z -> (E1 + E2) + u * (Z + (E1 + E2)) <= E -> Z + E <= 1000000000000 ->
  sized (EBin BMinus a b) (EBin BMinus a' b') (z1 - z2) Z E.
Proof.
  intros a a' b b' z1 Z1 E1 z2 Z2 E2 H1 H2 Z E HZ HE HS. apply (sized_minus _ _ _ _ _ _ _ _ _ _ H1 H2); auto.
  destruct H1 as [X1 _], H2 as [X2 _]. unfold Rminus. eapply Rle_trans; [apply Rabs_triang|]. rewrite Rabs_Ropp. lra.
Qed.
Lemma sized_mult_ : forall a a' b b' z1 Z1 E1 z2 Z2 E2, sized a a' z1 Z1 E1 -> sized b b' z2 Z2 E2 ->
  forall Z E, Z1 * Z2 <= Z -> (Z1 * E2 + Z2 * E1 + E1 * E2) + u * (Z + (Z1 * E2 + Z2 * E1 + E1 * E2)) + t <= E -> Z + E <= 1000000000000 ->
  sized (EBin BMult a b) (EBin BMult a' b') (z1 * z2) Z E.
Proof.
  intros a a' b b' z1 Z1 E1 z2 Z2 E2 H1 H2 Z E HZ HE HS. apply (sized_mult _ _ _ _ _ _ _ _ _ _ H1 H2); auto.
  destruct H1 as [X1 _], H2 as [X2 _]. rewrite Rabs_mult. eapply Rle_trans; [|exact HZ]. apply Rmult_le_compat; auto using Rabs_pos.
Qed.
Lemma sized_div_ : forall a a' b b' z1 Z1 E1 z2 Z2 E2, sized a a' z1 Z1 E1 -> sized b b' z2 Z2 E2 ->
  forall m Z E T, m <= Rabs z2 -> E2 < m -> 0 < m -> Z1 <= Z * m -> (E1 + Z * E2) <= T * (m - E2) ->
    T + u * (Z + T) + t <= E -> Z + E <= 1000000000000 ->
  sized (EBin BDiv a b) (EBin BDiv a' b') (z1 / z2) Z E.
Proof.
  intros a a' b b' z1 Z1 E1 z2 Z2 E2 H1 H2 m Z E T M1 M2 M0 HZ HT HE HS. apply (sized_div _ _ _ _ _ _ _ _ _ _ H1 H2 m Z E T); auto.
  destruct H1 as [X1 _]. pose proof (Rabs_pos z1).
  assert (NZ : z2 <> 0) by (intros ->; rewrite Rabs_R0 in M1; lra).
  unfold Rdiv. rewrite Rabs_mult, Rabs_inv. apply (Rmult_le_reg_r (Rabs z2)); [lra|]. rewrite Rmult_assoc, Rinv_l by lra.
  assert (0 <= Z) by nra. assert (Z * m <= Z * Rabs z2) by (apply Rmult_le_compat_l; lra). lra.
Qed.
End Sized.
