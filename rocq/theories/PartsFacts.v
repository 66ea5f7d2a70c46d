(** Facts about sums of integrals over many intervals. *)
From Coq Require Import ZArith NArith Reals List Bool Lia Lra.
From Flocq Require Import Core BinarySingleNaN.
From Coquelicot Require Import Coquelicot.
From Verif Require Import Outcome Num RtModel RtSpec RtFacts RtStep RtTermination RtValue RtEval RtSubst NumR NumRFacts RealSpec RtDiff
  RtDiff2 NumB64 NumB64Facts ErrSpec ErrFacts DataSpec DataFacts QuadModel QuadSpec QuadFacts CalcFacts PartsSpec.
Import ListNotations.
Local Open Scope R_scope.
Local Existing Instance prec_pos.
Local Existing Instance prec_emax.

Lemma total_length_app : forall s t, total_length (s ++ t) = total_length s + total_length t.
Proof. induction s as [|[a b] s IH]; intros t; simpl; [lra|]. rewrite IH. lra. Qed.

Lemma total_length_pos : forall s, 0 <= total_length s.
Proof. induction s as [|[a b] s IH]; simpl; [lra|]. pose proof (Rabs_pos (b - a)). lra. Qed.

Lemma within_app : forall P Q h s t, parts_within P Q h (s ++ t) <-> parts_within P Q h s /\ parts_within P Q h t.
Proof.
  intros P Q h s t. split.
  - intros H. split; intros a b I; apply H; apply in_or_app; auto.
  - intros [H K] a b I. apply in_app_or in I as [I|I]; auto.
Qed.

(** Parts of which each contributes at most [c] times its length to the error. *)
Lemma error_of_parts : forall x f v (g : R -> R) P Q h c,
  (forall i, occurs_var i f -> i = x) -> (x < N.of_nat (length v))%N ->
  (forall t, P <= t <= Q -> eval numR f (update v (N.to_nat x) (Some t)) = Ok (Some (g t))) ->
  (forall a b, P <= a <= Q -> P <= b <= Q -> Rabs (b - a) <= h ->
     exists J, is_RInt g a b J /\ Rabs (g ((a + b) / 2) * (b - a) - J) <= c * Rabs (b - a)) ->
  forall e A B s, leads x f e A B s -> parts_within P Q h s ->
  exists q J, integral_sum (gauss_quad_1 numR) e q /\ is_RInt g A B J /\ Rabs (q - J) <= c * total_length s.
Proof.
  intros x f v g P Q h c O L G H e A B s D. induction D as [lo hi A B Cl Ch El Eh|l r A B C s t _ IHl _ IHr|l r A B C s t _ IHl _ IHr];
    intros W.
  - destruct (W A B (or_introl eq_refl)) as [WA [WB Wh]]. destruct (H A B WA WB Wh) as [J [HJ E]].
    exists (g ((A + B) / 2) * (B - A)), J. split; [|split; [exact HJ|simpl; lra]].
    apply is_int. apply (gauss_value lo hi x f v A B (g ((A + B) / 2))); auto. apply G. lra.
  - apply within_app in W as [W1 W2]. destruct (IHl W1) as [q [J [Iq [HJ E]]]]. destruct (IHr W2) as [q' [J' [Iq' [HJ' E']]]].
    exists (q + q'), (J + J'). split; [apply is_plus; assumption|]. split.
    + exact (is_RInt_Chasles g A B C J J' HJ HJ').
    + rewrite total_length_app. replace (q + q' - (J + J')) with ((q - J) + (q' - J')) by ring.
      pose proof (Rabs_triang (q - J) (q' - J')). lra.
  - apply within_app in W as [W1 W2]. destruct (IHl W1) as [q [J [Iq [HJ E]]]]. destruct (IHr W2) as [q' [J' [Iq' [HJ' E']]]].
    exists (q - q'), (J - J'). split; [apply is_minus; assumption|]. split.
    + exact (is_RInt_Chasles g A B C J (- J') HJ (is_RInt_swap g B C J' HJ')).
    + rewrite total_length_app. replace (q - q' - (J - J')) with ((q - J) + - (q' - J')) by ring.
      pose proof (Rabs_triang (q - J) (- (q' - J'))) as T. rewrite Rabs_Ropp in T. lra.
Qed.

(** Continuous functions: the midpoint times the length is as close as the function varies. *)
Lemma midpoint_of_continuous : forall (g : R -> R) P Q, (forall t, P <= t <= Q -> continuity_pt g t) ->
  forall eps, 0 < eps -> exists h, 0 < h /\
  forall a b, P <= a <= Q -> P <= b <= Q -> Rabs (b - a) <= h ->
    exists J, is_RInt g a b J /\ Rabs (g ((a + b) / 2) * (b - a) - J) <= eps * Rabs (b - a).
Proof.
  intros g P Q C eps He.
  destruct (Heine g (fun t => P <= t <= Q) (compact_P3 P Q) C (mkposreal eps He)) as [d Hd].
  exists (d / 2). split; [destruct d; simpl; lra|]. intros a b Ha Hb Hh.
  assert (X : ex_RInt g a b).
  { apply (ex_RInt_continuous (V := R_CompleteNormedModule)). intros z Hz. apply continuity_pt_filterlim. apply C.
    revert Hz. unfold Rmin, Rmax. destruct (Rle_dec a b); lra. }
  destruct X as [J HJ]. exists J. split; [exact HJ|]. set (m := (a + b) / 2).
  assert (Hm : P <= m <= Q) by (unfold m; lra).
  assert (K : forall u w, P <= u <= Q -> P <= w <= Q -> u <= w -> w - u <= d / 2 -> u <= m <= w ->
              forall I, is_RInt g u w I -> Rabs (g m * (w - u) - I) <= eps * (w - u)).
  { intros u w Hu Hw Le Hd2 Hmu I HI.
    pose proof (is_RInt_minus (fun _ => g m) g u w (scal (w - u) (g m)) I (is_RInt_const u w (g m)) HI) as HM.
    pose proof (is_RInt_const u w eps) as HE.
    assert (V : forall t, u <= t <= w -> norm (minus (g m) (g t)) <= eps).
    { intros t Ht. change (Rabs (g m - g t) <= eps).
      assert (Near : Rabs (m - t) < d) by (destruct d as [dd Pd]; simpl in *; apply Rabs_def1; lra).
      apply Rlt_le. apply (Hd m t); auto. lra. }
    pose proof (norm_RInt_le (fun t => minus (g m) (g t)) (fun _ => eps) u w _ _ Le V HM HE) as N.
    replace (g m * (w - u) - I) with (minus (scal (w - u) (g m)) I)
      by (unfold minus, plus, opp, scal; simpl; unfold mult; simpl; ring).
    replace (eps * (w - u)) with (scal (w - u) eps) by (unfold scal; simpl; unfold mult; simpl; ring).
    exact N. }
  destruct (Rle_dec a b) as [Le|Gt].
  - rewrite (Rabs_pos_eq (b - a)) in * by lra. apply K; auto; unfold m; lra.
  - assert (Lt : b < a) by lra. rewrite (Rabs_left (b - a)) in * by lra.
    specialize (K b a Hb Ha). assert (HJ' := is_RInt_swap g b a J HJ).
    specialize (K ltac:(lra) ltac:(lra) ltac:(unfold m; lra) _ HJ').
    replace (g m * (b - a) - J) with (- (g m * (a - b) - opp J)) by (unfold opp; simpl; ring).
    rewrite Rabs_Ropp. replace (- (b - a)) with (a - b) by ring. exact K.
Qed.

Lemma const_only_const : forall c : option R, const_only (EConst c).
Proof. intros c s S. inversion S; subst. exact I. Qed.

(** Equal parts. *)
Lemma equal_parts_lead : forall x f A h k,
  exists s, leads x f (equal_parts x f A h k) A (A + INR (S k) * h) s /\
    total_length s = INR (S k) * Rabs h /\
    forall a b, In (a, b) s -> exists i, (i <= k)%nat /\ a = A + INR i * h /\ b = A + INR (S i) * h.
Proof.
  intros x f A h k.
  assert (One : forall i, leads x f (EInt (EConst (Some (A + INR i * h))) (EConst (Some (A + INR (S i) * h))) x f)
      (A + INR i * h) (A + INR (S i) * h) [(A + INR i * h, A + INR (S i) * h)])
    by (intros i; apply le_one; try apply const_only_const; reflexivity).
  assert (Ln : forall i, Rabs (A + INR (S i) * h - (A + INR i * h)) = Rabs h)
    by (intros i; f_equal; rewrite S_INR; ring).
  induction k as [|k [s [D [T I]]]].
  - exists [(A + INR 0 * h, A + INR 1 * h)]. split; [|split].
    + pose proof (One O) as O. replace A with (A + INR 0 * h) at 2 by (simpl; ring). exact O.
    + cbn [total_length]. rewrite Ln. simpl. ring.
    + intros a b [E|[]]. inversion E. exists O. auto.
  - exists (s ++ [(A + INR (S k) * h, A + INR (S (S k)) * h)]). split; [|split].
    + cbn [equal_parts]. exact (le_plus x f _ _ _ _ _ _ _ D (One (S k))).
    + rewrite total_length_app, T. cbn [total_length]. rewrite Ln, (S_INR (S k)). ring.
    + intros a b J. apply in_app_or in J as [J|[J|[]]].
      * destruct (I a b J) as [i [Li E]]. exists i. split; [lia|exact E].
      * inversion J. exists (S k). auto.
Qed.

(** Equal parts of an interval are within it. *)
Lemma equal_parts_within : forall A B k i, (i <= S k)%nat ->
  Rmin A B <= A + INR i * ((B - A) / INR (S k)) <= Rmax A B.
Proof.
  intros A B k i H. apply le_INR in H. pose proof (pos_INR i) as P.
  assert (K : 0 < INR (S k)) by (apply lt_0_INR; lia).
  set (u := INR i / INR (S k)).
  assert (U : 0 <= u <= 1).
  { unfold u. split; [apply Rmult_le_pos; [lra|apply Rlt_le, Rinv_0_lt_compat; lra]|].
    apply (Rmult_le_reg_r (INR (S k))); [lra|]. unfold Rdiv. rewrite Rmult_assoc, Rinv_l by lra. lra. }
  replace (A + INR i * ((B - A) / INR (S k))) with (A + u * (B - A)) by (unfold u; field; lra).
  unfold Rmin, Rmax. destruct (Rle_dec A B); split; nra.
Qed.

Lemma equal_parts_within_all : forall x f A B k,
  exists s, leads x f (equal_parts x f A ((B - A) / INR (S k)) k) A B s /\ total_length s = Rabs (B - A) /\
    parts_within (Rmin A B) (Rmax A B) (Rabs (B - A) / INR (S k)) s.
Proof.
  intros x f A B k. assert (K : 0 < INR (S k)) by (apply lt_0_INR; lia).
  destruct (equal_parts_lead x f A ((B - A) / INR (S k)) k) as [s [D [T I]]]. exists s.
  assert (Ab : Rabs ((B - A) / INR (S k)) = Rabs (B - A) / INR (S k))
    by (unfold Rdiv; rewrite Rabs_mult, (Rabs_pos_eq (/ _)) by (apply Rlt_le, Rinv_0_lt_compat; lra); reflexivity).
  split; [|split].
  - replace (A + INR (S k) * ((B - A) / INR (S k))) with B in D by (field; lra). exact D.
  - rewrite T, Ab. field. lra.
  - intros a b J. destruct (I a b J) as [i [Li [-> ->]]].
    split; [apply equal_parts_within; lia|]. split; [apply equal_parts_within; lia|].
    rewrite <- Ab. apply Req_le. f_equal. rewrite (S_INR i). ring.
Qed.

Lemma natural_above : forall r, exists k, r < INR k.
Proof.
  intros r. destruct (archimed r) as [H _]. exists (Z.to_nat (up r)).
  destruct (Z_lt_le_dec (up r) 0) as [N|N].
  - pose proof (pos_INR (Z.to_nat (up r))). apply IZR_lt in N. lra.
  - rewrite INR_IZR_INZ, Z2Nat.id by exact N. exact H.
Qed.

Lemma short_enough : forall L h, 0 < h -> exists k0, forall k, (k0 <= k)%nat -> L / INR (S k) <= h.
Proof.
  intros L h Hh. destruct (natural_above (L / h)) as [k0 H]. exists k0. intros k Lk. apply le_INR in Lk.
  assert (K : 0 < INR (S k)) by (apply lt_0_INR; lia). rewrite S_INR in *.
  apply (Rmult_le_reg_r (INR k + 1)); [lra|]. unfold Rdiv. rewrite Rmult_assoc, Rinv_l by lra.
  apply (Rmult_lt_compat_r h) in H; [|lra]. unfold Rdiv in H. rewrite Rmult_assoc, Rinv_l in H by lra. nra.
Qed.

(** The midpoint rule for a regular integrand. *)
Lemma smooth_midpoint : forall (f d2 : expr numR) x v P Q M, (x < N.of_nat (length v))%N ->
  (forall t, P <= t <= Q -> regular f (update v (N.to_nat x) (Some t))) ->
  diff_times x 2 f = Ok d2 ->
  (forall t r, P <= t <= Q -> eval numR d2 (update v (N.to_nat x) (Some t)) = Ok (Some r) -> Rabs r <= M) ->
  exists g, (forall t, P <= t <= Q -> eval numR f (update v (N.to_nat x) (Some t)) = Ok (Some (g t))) /\
  forall h a b, P <= a <= Q -> P <= b <= Q -> Rabs (b - a) <= h ->
    exists J, is_RInt g a b J /\ Rabs (g ((a + b) / 2) * (b - a) - J) <= M * h ^ 2 / 24 * Rabs (b - a).
Proof.
  intros f d2 x v P Q M L Rg E2 Bd. assert (Li : (N.to_nat x < length v)%nat) by lia.
  assert (Rg' : forall t, P <= t <= Q -> reg (update v (N.to_nat x) (Some t)) f) by (intros; apply regular_reg; auto).
  set (g := fun t => rv (update v (N.to_nat x) (Some t)) f).
  exists g. split; [intros t T; apply reg_eval; auto|]. intros h a b Ha Hb Hh.
  destruct (diff_on (fun t => P <= t <= Q) f v x _ Ha Li Rg') as [d1 [E1 D1]].
  destruct (diff_on (fun t => P <= t <= Q) d1 v x _ Ha Li) as [d2' [E2' D2]].
  { intros t T. apply D1; auto. }
  simpl in E2. rewrite E1 in E2. simpl in E2. rewrite E2' in E2. inversion E2; subst d2'; clear E2.
  assert (In' : forall t, Rmin a b <= t <= Rmax a b -> P <= t <= Q)
    by (intros t; unfold Rmin, Rmax; destruct (Rle_dec a b); lra).
  assert (Bd' : forall t, P <= t <= Q -> Rabs (rv (update v (N.to_nat x) (Some t)) d2) <= M)
    by (intros t T; apply (Bd t); auto; apply reg_eval; apply D2; auto).
  destruct (midpoint_error_any g
    (fun t => rv (update v (N.to_nat x) (Some t)) d1)
    (fun t => rv (update v (N.to_nat x) (Some t)) d2) a b M) as [J [HJ Er]].
  - intros t T. apply D1; auto.
  - intros t T. apply D2; auto.
  - intros t T. apply Bd'; auto.
  - exists J. split; [exact HJ|]. apply Rle_trans with (1 := Er).
    pose proof (Rabs_pos (b - a)) as P0. pose proof (Rabs_pos (rv (update v (N.to_nat x) (Some a)) d2)) as P1.
    pose proof (Bd' a Ha) as P2.
    assert (S : Rabs (b - a) ^ 2 <= h ^ 2) by (apply pow_incr; lra).
    replace (M * Rabs (b - a) ^ 3 / 24) with (M / 24 * Rabs (b - a) * Rabs (b - a) ^ 2) by field.
    replace (M * h ^ 2 / 24 * Rabs (b - a)) with (M / 24 * Rabs (b - a) * h ^ 2) by field.
    apply Rmult_le_compat_l; [|exact S]. apply Rmult_le_pos; lra.
Qed.

(** Sums of integrals in doubles. *)
Lemma not_constant_sum : forall lm d e e' z r, rounded_sum lm d e e' z r -> is_constant (numB64 lm) e = false.
Proof. intros lm d e e' z r H. induction H; simpl; [reflexivity| |]; rewrite IHrounded_sum1; reflexivity. Qed.

Lemma rounded_sum_ok : forall lm d, accurate lm d -> zero_symmetric lm ->
  forall e e' z r, rounded_sum lm d e e' z r ->
  integral_sum (gauss_quad_1 numR) e' z /\
  exists q : f64, quadrature (numB64 lm) (gauss_quad_1 (numB64 lm)) e = Ok q /\ (finite64 q -> Rabs (B2R q - z) <= r).
Proof.
  intros lm d AC ZS e e' z r H. assert (U0 : 0 <= u64) by (left; apply u_pos).
  induction H as [lo hi x f lo' hi' f' z r Cl Ch B F|a b a' b' z y r s Ha [Ia [p [Ep Bp]]] Hb [Ib [q [Eq Bq]]]
                 |a b a' b' z y r s Ha [Ia [p [Ep Bp]]] Hb [Ib [q [Eq Bq]]]].
  - destruct (quad64 lm d AC ZS lo hi f lo' hi' f' x z r Cl Ch B F) as [q [Q [Qz Bq]]].
    split; [apply is_int; exact Qz|]. exists q. auto.
  - split; [apply is_plus; assumption|]. exists (Bplus mode_NE p q). split.
    + cbn [quadrature]. cbn [is_constant]. rewrite (not_constant_sum lm d a a' z r Ha). cbn [andb]. rewrite Ep, Eq. reflexivity.
    + intros W. destruct (bplus_finite p q W) as [Fp Fq]. specialize (Bp Fp). specialize (Bq Fq).
      rewrite (proj2 (plus_fin p q Fp Fq) W).
      apply (after_ok _ _ _ _ (B2R p + B2R q)); [exact U0| |pose proof (plus_err p q); lra].
      replace (B2R p + B2R q - (z + y)) with ((B2R p - z) + (B2R q - y)) by ring.
      pose proof (Rabs_triang (B2R p - z) (B2R q - y)). lra.
  - split; [apply is_minus; assumption|]. exists (Bminus mode_NE p q). split.
    + cbn [quadrature]. cbn [is_constant]. rewrite (not_constant_sum lm d a a' z r Ha). cbn [andb]. rewrite Ep, Eq. reflexivity.
    + intros W. destruct (bminus_finite p q W) as [Fp Fq]. specialize (Bp Fp). specialize (Bq Fq).
      rewrite (proj2 (minus_fin p q Fp Fq) W).
      apply (after_ok _ _ _ _ (B2R p - B2R q)); [exact U0| |pose proof (minus_err p q); lra].
      replace (B2R p - B2R q - (z - y)) with ((B2R p - z) + - (B2R q - y)) by ring.
      pose proof (Rabs_triang (B2R p - z) (- (B2R q - y))) as T. rewrite Rabs_Ropp in T. lra.
Qed.
