(** Lemmas for C81. *)
From Coq Require Import ZArith NArith Reals List Bool String Ascii Lia Lra.
From Flocq Require Import Core BinarySingleNaN Relative.
From Coq Require DecimalString DecimalN DecimalFacts.
From Verif Require RtModel RtSpec RtFacts.
From Verif Require Import Num NumB64 NumB64Facts StrModel LatexSpec LatexFacts NumTextModel NumTextSpec.
Import ListNotations.
Local Open Scope Z_scope.
Local Existing Instance prec_pos.
Local Existing Instance prec_emax.

(** Six significant digits. *)
Global Instance prec6 : Prec_gt_0 6 := eq_refl.
Notation fexp6 := (FLX_exp 6).
Notation round6 := (round radix10 fexp6 ZnearestE).

Lemma bpow10 : forall e, bpow radix10 e = powerRZ 10 e.
Proof. intros e. apply bpow_powerRZ. Qed.

Lemma IZR_pow10 : forall k, 0 <= k -> IZR (10 ^ k) = bpow radix10 k.
Proof. intros k K. change 10 with (radix_val radix10). exact (IZR_Zpower radix10 k K). Qed.

(** ** Rounding a fraction to six digits *)
Lemma ratio_scaled : forall (p q k : Z), 0 < p -> 0 < q ->
  (IZR (p * 10 ^ Z.max 0 (- k)) / IZR (q * 10 ^ Z.max 0 k) = IZR p / IZR q * bpow radix10 (- k))%R.
Proof.
  intros p q k P Q. rewrite !mult_IZR, !IZR_pow10 by lia.
  assert (IZR q <> 0)%R by (apply not_0_IZR; lia).
  pose proof (bpow_gt_0 radix10 (Z.max 0 k)).
  replace (bpow radix10 (- k)) with (bpow radix10 (Z.max 0 (- k)) / bpow radix10 (Z.max 0 k))%R.
  - field. split; lra.
  - unfold Rdiv. rewrite <- bpow_opp, <- bpow_plus. f_equal. lia.
Qed.

Lemma log10_spec : forall p q, 0 < p -> 0 < q ->
  (bpow radix10 (log10_floor p q) <= IZR p / IZR q < bpow radix10 (log10_floor p q + 1))%R.
Proof.
  intros p q P Q. pose proof (Zdigits_correct radix10 p) as A. pose proof (Zdigits_correct radix10 q) as B.
  rewrite Z.abs_eq in A, B by lia.
  pose proof (Zdigits_gt_0 radix10 p ltac:(lia)) as DP. pose proof (Zdigits_gt_0 radix10 q ltac:(lia)) as DQ.
  unfold log10_floor. set (a := Zdigits radix10 p) in *. set (b := Zdigits radix10 q) in *.
  assert (PR : (bpow radix10 (a - 1) <= IZR p < bpow radix10 a)%R).
  { rewrite <- !IZR_Zpower by lia. split; [apply IZR_le|apply IZR_lt]; apply A. }
  assert (QR : (bpow radix10 (b - 1) <= IZR q < bpow radix10 b)%R).
  { rewrite <- !IZR_Zpower by lia. split; [apply IZR_le|apply IZR_lt]; apply B. }
  assert (Q0 : (0 < IZR q)%R) by (apply IZR_lt; lia).
  assert (LO : (bpow radix10 (a - b - 1) <= IZR p / IZR q)%R).
  { apply Rmult_le_reg_r with (IZR q); [exact Q0|]. unfold Rdiv. rewrite Rmult_assoc, Rinv_l, Rmult_1_r by lra.
    apply Rle_trans with (bpow radix10 (a - b - 1) * bpow radix10 b)%R.
    - apply Rmult_le_compat_l; [apply bpow_ge_0|lra].
    - rewrite <- bpow_plus. replace (a - b - 1 + b) with (a - 1) by lia. lra. }
  assert (HI : (IZR p / IZR q < bpow radix10 (a - b + 1))%R).
  { apply Rmult_lt_reg_r with (IZR q); [exact Q0|]. unfold Rdiv. rewrite Rmult_assoc, Rinv_l, Rmult_1_r by lra.
    apply Rlt_le_trans with (bpow radix10 a); [lra|].
    apply Rle_trans with (bpow radix10 (a - b + 1) * bpow radix10 (b - 1))%R.
    - rewrite <- bpow_plus. replace (a - b + 1 + (b - 1)) with a by lia. lra.
    - apply Rmult_le_compat_l; [apply bpow_ge_0|lra]. }
  set (k := a - b) in *.
  assert (T : (q * 10 ^ Z.max 0 k <=? p * 10 ^ Z.max 0 (- k)) = true <-> (bpow radix10 k <= IZR p / IZR q)%R).
  { rewrite Z.leb_le. pose proof (ratio_scaled p q k P Q) as S.
    assert (D : (0 < IZR (q * 10 ^ Z.max 0 k))%R) by (apply IZR_lt; nia).
    rewrite bpow_opp in S. pose proof (bpow_gt_0 radix10 k) as KP.
    assert (E : (IZR p / IZR q = IZR (p * 10 ^ Z.max 0 (- k)) / IZR (q * 10 ^ Z.max 0 k) * bpow radix10 k)%R)
      by (rewrite S; field; split; lra).
    rewrite E. split; intros H.
    - apply IZR_le in H. rewrite <- (Rmult_1_l (bpow radix10 k)) at 1.
      apply Rmult_le_compat_r; [lra|]. apply Rmult_le_reg_r with (IZR (q * 10 ^ Z.max 0 k)); [exact D|].
      unfold Rdiv. rewrite Rmult_assoc, Rinv_l; lra.
    - apply le_IZR. apply Rnot_lt_le. intros L. apply (Rlt_not_le _ _ (Rmult_lt_compat_r _ _ _ KP
        (Rmult_lt_compat_r _ _ _ (Rinv_0_lt_compat _ D) L))). rewrite Rinv_r by lra. rewrite Rmult_1_l. exact H. }
  destruct (q * 10 ^ Z.max 0 k <=? p * 10 ^ Z.max 0 (- k)) eqn:C.
  - split; [apply T; reflexivity|exact HI].
  - split; [exact LO|]. replace (k - 1 + 1) with k by lia. apply Rnot_le_lt. intros H. apply T in H. discriminate.
Qed.

Lemma nearest_spec : forall a b, 0 < b -> nearest a b = ZnearestE (IZR a / IZR b).
Proof.
  intros a b B. unfold nearest, Znearest.
  assert (BR : (0 < IZR b)%R) by (apply IZR_lt; exact B).
  rewrite (Zfloor_div a b) by lia.
  pose proof (Z.div_mod a b ltac:(lia)) as DM. pose proof (Z.mod_pos_bound a b B) as MB.
  set (d := a / b) in *. set (r := a mod b) in *.
  assert (F : (IZR a / IZR b - IZR d = IZR r / IZR b)%R).
  { rewrite DM, plus_IZR, mult_IZR. field. lra. }
  rewrite F.
  assert (CE : 0 < r -> Zceil (IZR a / IZR b) = d + 1).
  { intros R0. apply Zceil_imp. replace (d + 1 - 1) with d by lia. rewrite plus_IZR.
    assert (0 < IZR r / IZR b)%R by (apply Rdiv_lt_0_compat; [apply IZR_lt; lia|lra]).
    assert (IZR r / IZR b < 1)%R.
    { apply Rmult_lt_reg_r with (IZR b); [lra|]. unfold Rdiv. rewrite Rmult_assoc, Rinv_l by lra.
      rewrite Rmult_1_r, Rmult_1_l. apply IZR_lt. lia. }
    lra. }
  assert (CMP : Rcompare (IZR r / IZR b) (/ 2) = (2 * r ?= b)).
  { rewrite <- (Rcompare_mult_r (IZR b) _ _ BR). unfold Rdiv. rewrite Rmult_assoc, Rinv_l, Rmult_1_r by lra.
    rewrite <- (Rcompare_mult_r 2) by lra. rewrite <- Rcompare_IZR, mult_IZR. f_equal; lra. }
  rewrite CMP. unfold Z.ltb. rewrite (Z.compare_antisym (2 * r) b).
  destruct (2 * r ?= b) eqn:C; simpl.
  - apply Z.compare_eq in C. rewrite CE by lia. destruct (Z.even d); reflexivity.
  - reflexivity.
  - apply Z.compare_gt_iff in C. rewrite CE by lia. reflexivity.
Qed.

Lemma significant_spec : forall p q m k, 0 < p -> 0 < q -> significant p q = (m, k) ->
  10 ^ 5 <= m < 10 ^ 6 /\ (IZR m * bpow radix10 (k - 5))%R = round6 (IZR p / IZR q).
Proof.
  intros p q m k P Q. unfold significant.
  pose proof (log10_spec p q P Q) as [LO HI]. set (j := log10_floor p q) in *.
  rewrite nearest_spec by nia.
  replace (k - 5) with (- (5 - k)) by lia.
  assert (PQ : (0 < IZR p / IZR q)%R) by (apply Rdiv_lt_0_compat; apply IZR_lt; lia).
  assert (S : (IZR (p * 10 ^ Z.max 0 (5 - j)) / IZR (q * 10 ^ Z.max 0 (j - 5)) =
               scaled_mantissa radix10 fexp6 (IZR p / IZR q))%R).
  { replace (5 - j) with (- (j - 5)) by lia. rewrite ratio_scaled by assumption. unfold scaled_mantissa, cexp.
    rewrite (mag_unique_pos radix10 _ (j + 1)).
    - unfold FLX_exp. f_equal. f_equal. lia.
    - replace (j + 1 - 1) with j by lia. split; assumption. }
  rewrite S.
  assert (MG : mag radix10 (IZR p / IZR q) = (j + 1) :> Z).
  { apply mag_unique_pos. replace (j + 1 - 1) with j by lia. split; assumption. }
  set (sm := scaled_mantissa radix10 fexp6 (IZR p / IZR q)) in *.
  assert (RD : round6 (IZR p / IZR q) = (IZR (ZnearestE sm) * bpow radix10 (j - 5))%R).
  { unfold round, F2R. cbn [Fnum Fexp]. fold sm. unfold cexp. rewrite MG. unfold FLX_exp. f_equal. f_equal. lia. }
  assert (SB : (bpow radix10 5 <= sm < bpow radix10 6)%R).
  { unfold sm, scaled_mantissa, cexp. rewrite MG. unfold FLX_exp.
    replace (- (j + 1 - 6)) with (5 - j) by lia.
    assert (E5 : bpow radix10 5 = (bpow radix10 j * bpow radix10 (5 - j))%R) by (rewrite <- bpow_plus; f_equal; lia).
    assert (E6 : bpow radix10 6 = (bpow radix10 (j + 1) * bpow radix10 (5 - j))%R) by (rewrite <- bpow_plus; f_equal; lia).
    rewrite E5, E6. pose proof (bpow_gt_0 radix10 (5 - j)) as BP.
    split; [exact (Rmult_le_compat_r _ _ _ (Rlt_le _ _ BP) LO)|exact (Rmult_lt_compat_r _ _ _ BP HI)]. }
  assert (ZB : 10 ^ 5 <= ZnearestE sm <= 10 ^ 6).
  { split.
    - rewrite <- (Zrnd_IZR ZnearestE (10 ^ 5)). apply Zrnd_le; [apply valid_rnd_N|].
      rewrite (IZR_pow10 5) by lia. lra.
    - rewrite <- (Zrnd_IZR ZnearestE (10 ^ 6)) at 1. apply Zrnd_le; [apply valid_rnd_N|].
      rewrite (IZR_pow10 6) by lia. lra. }
  destruct (ZnearestE sm =? 10 ^ 6) eqn:C; intros E; apply pair_equal_spec in E; destruct E as [<- <-].
  - split; [lia|]. apply Z.eqb_eq in C. rewrite RD, C.
    rewrite (IZR_pow10 5), (IZR_pow10 6) by lia. rewrite <- !bpow_plus. f_equal. lia.
  - split; [apply Z.eqb_neq in C; lia|]. rewrite RD. f_equal. f_equal. lia.
Qed.

(** ** Reading the text *)
Definition digs (l : list Z) : Prop := Forall (fun d => 0 <= d < 10) l.
Fixpoint val (l : list Z) : Z := match l with [] => 0 | d :: l' => d * 10 ^ Z.of_nat (List.length l') + val l' end.

Lemma val_app : forall a b, val (a ++ b) = val a * 10 ^ Z.of_nat (List.length b) + val b.
Proof.
  induction a as [|d a IH]; intros b; [reflexivity|]. cbn [val app]. rewrite IH, app_length, Nat2Z.inj_add, Z.pow_add_r by lia. ring.
Qed.

Lemma val_nonneg : forall l, digs l -> 0 <= val l < 10 ^ Z.of_nat (List.length l).
Proof.
  induction l as [|d l IH]; intros D; [cbn; lia|]. inversion D as [|x y A B]; subst. specialize (IH B).
  cbn [val List.length]. rewrite Nat2Z.inj_succ, Z.pow_succ_r by lia. nia.
Qed.

Lemma ndigits_spec : forall k q, 0 <= q < 10 ^ Z.of_nat k ->
  digs (ndigits k q) /\ List.length (ndigits k q) = k /\ val (ndigits k q) = q.
Proof.
  induction k as [|k IH]; intros q B.
  - repeat split; [constructor|cbn in *; lia].
  - rewrite Nat2Z.inj_succ, Z.pow_succ_r in B by lia.
    destruct (IH (q / 10)) as [D [L V]].
    { split; [apply Z.div_pos; lia|apply Z.div_lt_upper_bound; lia]. }
    cbn [ndigits]. repeat split.
    + apply Forall_app. split; [exact D|]. constructor; [apply Z.mod_pos_bound; lia|constructor].
    + rewrite app_length, L. cbn. lia.
    + rewrite val_app, V. cbn [val List.length]. change (10 ^ Z.of_nat 1) with 10. change (10 ^ Z.of_nat 0) with 1.
      pose proof (Z.div_mod q 10 ltac:(lia)). lia.
Qed.

Lemma digit_value_char : forall d, 0 <= d < 10 -> digit_value (digit_char d) = Some (Z.to_N d).
Proof.
  intros d D. assert (d = 0 \/ d = 1 \/ d = 2 \/ d = 3 \/ d = 4 \/ d = 5 \/ d = 6 \/ d = 7 \/ d = 8 \/ d = 9) as C by lia.
  repeat (destruct C as [->|C]; [reflexivity|]). subst. reflexivity.
Qed.

(** Texts that do not go on with a digit. *)
Definition no_digit (s : string) : Prop := match s with String c _ => digit_value c = None | EmptyString => True end.

Lemma digits_no_digit : forall acc s, no_digit s -> digits acc s = (acc, s).
Proof. intros acc [|c s] H; [reflexivity|]. cbn [digits]. cbn in H. rewrite H. reflexivity. Qed.

Lemma digits_text : forall l acc rest, digs l -> no_digit rest ->
  digits acc (text l ++ rest) = ((acc * 10 ^ N.of_nat (List.length l) + Z.to_N (val l))%N, rest).
Proof.
  induction l as [|d l IH]; intros acc rest D R.
  - cbn [text append]. rewrite digits_no_digit by exact R. f_equal. cbn. lia.
  - inversion D as [|x y A B]; subst. cbn [text append digits]. rewrite digit_value_char by exact A.
    rewrite IH by assumption. f_equal. cbn [val List.length]. pose proof (val_nonneg l B).
    rewrite Nat2N.inj_succ, N.pow_succ_r'. rewrite Z2N.inj_add by nia. rewrite Z2N.inj_mul by lia.
    rewrite Z2N.inj_pow by lia. rewrite <- nat_N_Z, N2Z.id. change (Z.to_N 10) with 10%N. ring.
Qed.

Lemma str_len_app : forall a b, String.length (a ++ b) = (String.length a + String.length b)%nat.
Proof. induction a as [|c a IH]; intros b; [reflexivity|]. cbn. rewrite IH. reflexivity. Qed.

Lemma text_len : forall l, String.length (text l) = List.length l.
Proof. induction l as [|d l IH]; cbn; congruence. Qed.

Lemma some_digits_text : forall l rest, l <> [] -> digs l -> no_digit rest ->
  some_digits (text l ++ rest) = Some (Z.to_N (val l), List.length l, rest).
Proof.
  intros l rest N D R. destruct l as [|d l]; [contradiction|]. unfold some_digits.
  change (text (d :: l) ++ rest)%string with (String (digit_char d) (text l ++ rest)) at 1.
  cbv iota. rewrite digit_value_char by (inversion D; assumption).
  rewrite digits_text by assumption. rewrite str_len_app, text_len. rewrite N.mul_0_l, N.add_0_l.
  do 3 f_equal. lia.
Qed.

Lemma strip_spec : forall l, digs l -> digs (strip_zeros l) /\ (List.length (strip_zeros l) <= List.length l)%nat /\
  val l = val (strip_zeros l) * 10 ^ Z.of_nat (List.length l - List.length (strip_zeros l)).
Proof.
  induction l as [|d l IH]; intros D; [repeat split; [constructor|cbn; lia]|].
  inversion D as [|x y A B]; subst. destruct (IH B) as [DS [LE V]]. cbn [strip_zeros].
  destruct (strip_zeros l) as [|c l'] eqn:SZ.
  - cbn [val List.length Z.mul] in V. destruct (Z.eqb_spec d 0) as [->|ND].
    + repeat split; [constructor|cbn; lia|cbn [val List.length]; lia].
    + repeat split; [constructor; [exact A|constructor]|cbn; lia|].
      cbn [val List.length] in *. rewrite V. replace (S (List.length l) - 1)%nat with (List.length l) by lia.
      change (10 ^ Z.of_nat 0) with 1. lia.
  - set (t := c :: l') in *. clearbody t. repeat split; [constructor; assumption|cbn; lia|].
    cbn [val]. rewrite V. replace (List.length (d :: l) - List.length (d :: t))%nat with (List.length l - List.length t)%nat by (cbn; lia).
    rewrite Z.mul_add_distr_r, <- Z.mul_assoc, <- Z.pow_add_r by lia. f_equal. f_equal. f_equal. lia.
Qed.

(** Texts that do not go on a number. *)
Definition no_number (s : string) : Prop :=
  match s with String c _ => digit_value c = None /\ c <> "."%char /\ c <> "e"%char | EmptyString => True end.

(** What follows the digits. *)
Inductive tail : string -> Z -> Prop :=
| tail_none : tail "" 0
| tail_exp : forall k, Z.abs k < 1000 -> tail (exponent k) k.

Lemma exponent_read : forall k rest, Z.abs k < 1000 -> no_digit rest ->
  some_digits (text (ndigits (if Z.abs k <? 100 then 2 else 3) (Z.abs k)) ++ rest) =
    Some (Z.to_N (Z.abs k), if Z.abs k <? 100 then 2%nat else 3%nat, rest).
Proof.
  intros k rest B R. destruct (ndigits_spec (if Z.abs k <? 100 then 2 else 3) (Z.abs k)) as [D [L V]].
  { destruct (Z.ltb_spec (Z.abs k) 100); cbn; lia. }
  rewrite some_digits_text; [|intros E; rewrite E in L; destruct (Z.abs k <? 100); discriminate|exact D|exact R].
  rewrite V, L. reflexivity.
Qed.

Lemma no_number_digit : forall s, no_number s -> no_digit s.
Proof. intros [|c s] H; [exact I|]. apply H. Qed.

Lemma tail_no_digit : forall t x rest, tail t x -> no_number rest -> no_digit (t ++ rest).
Proof. intros t x rest [|k K] R; [exact (no_number_digit _ R)|reflexivity]. Qed.

Lemma tail_read : forall t x rest, tail t x -> no_number rest ->
  (match (t ++ rest)%string with
   | String "e" (String "+" t) => obind (some_digits t) (fun '(x, _, r') => Some (Z.of_N x, r'))
   | String "e" (String "-" t) => obind (some_digits t) (fun '(x, _, r') => Some (- Z.of_N x, r'))
   | _ => Some (0, (t ++ rest)%string)
   end) = Some (x, rest).
Proof.
  intros t x rest [|k K] R.
  - cbn [append]. destruct rest as [|c rest]; [reflexivity|]. destruct R as [_ [_ E]].
    destruct c as [[] [] [] [] [] [] [] []]; try reflexivity. contradiction E; reflexivity.
  - unfold exponent. cbn [append]. pose proof (exponent_read k rest K (no_number_digit _ R)) as H.
    destruct (Z.ltb_spec k 0); rewrite H; cbn [obind]; repeat f_equal; lia.
Qed.

Lemma text_no_minus : forall l rest, l <> [] -> digs l ->
  match (text l ++ rest)%string with String "-" t => (true, t) | _ => (false, (text l ++ rest)%string) end =
  (false, (text l ++ rest)%string).
Proof.
  intros [|d l] rest N D; [contradiction|]. inversion D as [|x y A B]; subst. cbn [text append].
  pose proof (digit_value_char d A) as V. destruct (digit_char d) as [[] [] [] [] [] [] [] []]; try reflexivity.
  discriminate V.
Qed.

Lemma decimal_read : forall s li lf t x rest, li <> [] -> digs li -> digs lf -> tail t x -> no_number rest ->
  decimal (minus s ++ text li ++ fraction lf ++ t ++ rest) =
  Some (s, Z.to_N (val (li ++ strip_zeros lf)), x - Z.of_nat (List.length (strip_zeros lf)), rest).
Proof.
  intros s li lf t x rest N DI DF T R. destruct (strip_spec lf DF) as [DS _].
  unfold decimal.
  replace (match (minus s ++ text li ++ fraction lf ++ t ++ rest)%string with
           | String "-" u => (true, u) | _ => (false, (minus s ++ text li ++ fraction lf ++ t ++ rest)%string) end)
    with (s, (text li ++ fraction lf ++ t ++ rest)%string)
    by (destruct s; [reflexivity|symmetry; exact (text_no_minus li _ N DI)]).
  unfold fraction. destruct (strip_zeros lf) as [|c l'] eqn:SZ.
  - cbn [append]. rewrite some_digits_text; [|assumption|assumption|exact (tail_no_digit _ _ _ T R)].
    cbn [obind].
    replace (match (t ++ rest)%string with
             | String "." u => obind (some_digits u) (fun '(f, k, r') => Some ((Z.to_N (val li) * 10 ^ N.of_nat k + f)%N, k, r'))
             | _ => Some (Z.to_N (val li), O, (t ++ rest)%string)
             end) with (Some (Z.to_N (val li), O, (t ++ rest)%string)).
    + cbn [obind]. rewrite (tail_read t x rest T R). cbn [obind]. rewrite app_nil_r. reflexivity.
    + destruct T as [|k K]; [|reflexivity]. cbn [append]. destruct rest as [|c rest]; [reflexivity|].
      destruct R as [_ [E _]]. destruct c as [[] [] [] [] [] [] [] []]; try reflexivity. contradiction E; reflexivity.
  - set (u := c :: l') in *. rewrite some_digits_text; [|assumption|assumption|reflexivity].
    cbn [obind append]. rewrite some_digits_text; [|discriminate|assumption|exact (tail_no_digit _ _ _ T R)].
    cbn [obind]. rewrite (tail_read t x rest T R). cbn [obind].
    pose proof (val_nonneg u DS). pose proof (val_nonneg li DI).
    repeat f_equal. rewrite val_app, Z2N.inj_add by nia. rewrite Z2N.inj_mul by lia. rewrite Z2N.inj_pow by lia.
    rewrite <- nat_N_Z, N2Z.id. reflexivity.
Qed.

(** The number that is read. *)
Lemma decimal_value : forall li lf x, digs li -> digs lf ->
  (IZR (Z.of_N (Z.to_N (val (li ++ strip_zeros lf)))) * bpow radix10 (x - Z.of_nat (List.length (strip_zeros lf))) =
   IZR (val (li ++ lf)) * bpow radix10 (x - Z.of_nat (List.length lf)))%R.
Proof.
  intros li lf x DI DF. destruct (strip_spec lf DF) as [DS [LE V]].
  rewrite Z2N.id by (apply val_nonneg, Forall_app; split; assumption).
  rewrite !val_app, V. set (a := List.length lf) in *. set (b := List.length (strip_zeros lf)) in *.
  replace (val li * 10 ^ Z.of_nat a + val (strip_zeros lf) * 10 ^ Z.of_nat (a - b)) with
    ((val li * 10 ^ Z.of_nat b + val (strip_zeros lf)) * 10 ^ Z.of_nat (a - b)).
  - rewrite mult_IZR, IZR_pow10 by lia. rewrite Rmult_assoc, <- bpow_plus. f_equal. f_equal. lia.
  - rewrite Z.mul_add_distr_r, <- Z.mul_assoc, <- Z.pow_add_r by lia. do 3 f_equal. lia.
Qed.

Lemma digs_repeat : forall k, digs (repeat 0 k).
Proof. induction k; constructor; [lia|assumption]. Qed.
Lemma val_repeat : forall k, val (repeat 0 k) = 0.
Proof. induction k as [|k IH]; [reflexivity|]. cbn [repeat val]. rewrite IH. lia. Qed.

Lemma layout_read : forall s m k rest, 10 ^ 5 <= m < 10 ^ 6 -> Z.abs k < 1000 -> no_number rest ->
  exists n e, decimal (minus s ++ layout m k ++ rest) = Some (s, n, e, rest) /\
    (IZR (Z.of_N n) * bpow radix10 e = IZR m * bpow radix10 (k - 5))%R.
Proof.
  intros s m k rest M K R. destruct (ndigits_spec 6 m ltac:(change (10 ^ Z.of_nat 6) with (10 ^ 6); lia)) as [D [L V]].
  unfold layout. set (ds := ndigits 6 m) in *.
  assert (FS : forall i, digs (firstn i ds) /\ digs (skipn i ds)).
  { intros i. rewrite <- (firstn_skipn i ds) in D. apply Forall_app in D. exact D. }
  assert (FN : forall i, (0 < i)%nat -> firstn i ds <> []).
  { intros [|i] P; [lia|]. destruct ds; [discriminate|discriminate]. }
  assert (AP : forall a b c : string, ((a ++ b) ++ c = a ++ (b ++ c))%string)
    by (induction a as [|x a IH]; intros b c; [reflexivity|cbn; rewrite IH; reflexivity]).
  destruct ((k <? -4) || (6 <=? k)) eqn:C1; [|destruct (Z.ltb_spec k 0) as [N|P]].
  - destruct (FS 1%nat) as [A B].
    exists (Z.to_N (val (firstn 1 ds ++ strip_zeros (skipn 1 ds)))), (k - Z.of_nat (List.length (strip_zeros (skipn 1 ds)))).
    split.
    + rewrite !AP. exact (decimal_read s _ _ (exponent k) k rest (FN 1%nat ltac:(lia)) A B (tail_exp k K) R).
    + rewrite decimal_value by assumption. rewrite firstn_skipn, V, skipn_length, L. reflexivity.
  - set (lf := (repeat 0 (Z.to_nat (- k - 1)) ++ ds)%list).
    assert (DF : digs lf) by (apply Forall_app; split; [apply digs_repeat|exact D]).
    assert (D0 : digs [0]) by (constructor; [lia|constructor]).
    exists (Z.to_N (val ([0] ++ strip_zeros lf))), (0 - Z.of_nat (List.length (strip_zeros lf))).
    split.
    + rewrite AP. exact (decimal_read s [0] lf "" 0 rest ltac:(discriminate) D0 DF tail_none R).
    + rewrite decimal_value by assumption. unfold lf. cbn [app val]. rewrite val_app, val_repeat, V, app_length, repeat_length, L.
      rewrite Z.mul_0_l, Z.mul_0_l, !Z.add_0_l. f_equal. f_equal. lia.
  - apply orb_false_iff in C1. destruct C1 as [_ C1]. apply Z.leb_gt in C1.
    destruct (FS (Z.to_nat (k + 1))) as [A B].
    exists (Z.to_N (val (firstn (Z.to_nat (k + 1)) ds ++ strip_zeros (skipn (Z.to_nat (k + 1)) ds)))),
      (0 - Z.of_nat (List.length (strip_zeros (skipn (Z.to_nat (k + 1)) ds)))).
    split.
    + rewrite AP. exact (decimal_read s _ _ "" 0 rest (FN (Z.to_nat (k + 1)) ltac:(lia)) A B tail_none R).
    + rewrite decimal_value by assumption. rewrite firstn_skipn, V, skipn_length, L. f_equal. f_equal. lia.
Qed.

(** ** Doubles *)
Lemma significant_exp : forall p q m k, significant p q = (m, k) -> log10_floor p q <= k <= log10_floor p q + 1.
Proof.
  intros p q m k. unfold significant. destruct (_ =? 10 ^ 6); intros E; apply pair_equal_spec in E; destruct E as [<- <-]; lia.
Qed.

Lemma ratio_B2R : forall s m e B,
  (IZR (Zpos m * 2 ^ Z.max 0 e) / IZR (2 ^ Z.max 0 (- e)) = Rabs (B2R (@B754_finite 53 1024 s m e B)))%R.
Proof.
  intros s m e B. cbn [B2R]. rewrite <- F2R_Zabs. rewrite abs_cond_Zopp. cbn [Z.abs]. unfold F2R. cbn [Fnum Fexp].
  change 2 with (radix_val radix2). rewrite mult_IZR, !IZR_Zpower by lia. unfold Rdiv. rewrite Rmult_assoc, <- bpow_opp, <- bpow_plus.
  do 2 f_equal. lia.
Qed.

Lemma log10_double : forall (s : bool) m e (B : SpecFloat.bounded 53 1024 m e = true),
  Z.abs (log10_floor (Zpos m * 2 ^ Z.max 0 e) (2 ^ Z.max 0 (- e))) <= 900.
Proof.
  intros s m e B. set (x := @B754_finite 53 1024 s m e B).
  pose proof (log10_spec (Zpos m * 2 ^ Z.max 0 e) (2 ^ Z.max 0 (- e)) ltac:(nia) ltac:(nia)) as [LO HI].
  rewrite (ratio_B2R s m e B) in LO, HI. fold x in LO, HI.
  pose proof (abs_B2R_lt_emax 53 1024 x) as U. pose proof (abs_B2R_ge_emin 53 1024 x eq_refl) as L.
  set (j := log10_floor _ _) in *.
  assert (U' : (bpow radix2 1024 <= bpow radix10 400)%R).
  { rewrite <- !IZR_Zpower by lia. apply IZR_le. vm_compute. discriminate. }
  assert (L' : (bpow radix10 (-400) <= bpow radix2 (-1074))%R).
  { change (-400) with (- (400)). change (-1074) with (- (1074)). rewrite !bpow_opp. apply Rinv_le; [apply bpow_gt_0|].
    rewrite <- !IZR_Zpower by lia. apply IZR_le. vm_compute. discriminate. }
  change (SpecFloat.emin 53 1024) with (-1074) in L.
  assert (j < 400) by (apply (lt_bpow radix10); lra).
  assert (-400 < j + 1) by (apply (lt_bpow radix10); lra).
  lia.
Qed.

Lemma dec_real_10 : forall s n e, dec_real s n e = (if s then - (IZR (Z.of_N n) * bpow radix10 e) else IZR (Z.of_N n) * bpow radix10 e)%R.
Proof. intros s n e. unfold dec_real. rewrite bpow10. destruct s; ring. Qed.

Lemma pr_read : forall x rest, is_finite x = true -> no_number rest ->
  exists n e, decimal (pr_double x ++ rest) = Some (Bsign x, n, e, rest) /\
    dec_real (Bsign x) n e = round6 (B2R x).
Proof.
  assert (AP : forall a b c : string, ((a ++ b) ++ c = a ++ (b ++ c))%string)
    by (induction a as [|x a IH]; intros b c; [reflexivity|cbn; rewrite IH; reflexivity]).
  intros [s|s| |s m e B] rest F R; try discriminate F.
  - exists 0%N, 0. split.
    + cbn [pr_double Bsign]. rewrite AP.
      refine (decimal_read s [0] [] "" 0 rest _ _ _ tail_none R); [discriminate|repeat constructor; lia|constructor].
    + rewrite dec_real_10. cbn [B2R]. rewrite round_0 by apply valid_rnd_N. cbn. destruct s; ring.
  - unfold pr_double, Bsign.
    destruct (significant (Zpos m * 2 ^ Z.max 0 e) (2 ^ Z.max 0 (- e))) as [d k] eqn:S.
    pose proof (significant_exp _ _ _ _ S) as KB. pose proof (log10_double s m e B) as LB.
    assert (P : 0 < Zpos m * 2 ^ Z.max 0 e) by nia. assert (Q : 0 < 2 ^ Z.max 0 (- e)) by nia.
    destruct (significant_spec _ _ _ _ P Q S) as [DB DV].
    destruct (layout_read s d k rest DB ltac:(lia) R) as [n [e' [RD V]]].
    exists n, e'. split; [rewrite AP; exact RD|].
    rewrite dec_real_10, V, DV, (ratio_B2R s m e B). set (x := B754_finite s m e B).
    destruct s.
    + rewrite Rabs_left by (unfold x; cbn [B2R]; apply F2R_lt_0; cbn; lia).
      rewrite round_NE_opp. ring.
    + rewrite Rabs_pos_eq by (unfold x; cbn [B2R]; apply F2R_ge_0; cbn; lia). reflexivity.
Qed.

Lemma number_of_pr : forall x, is_finite x = true -> number_of (pr_double x) = Some (round6 (B2R x)).
Proof.
  intros x F. destruct (pr_read x "" F I) as [n [e [D V]]].
  assert (E : forall s : string, (s ++ "" = s)%string) by (induction s as [|c s IH]; [reflexivity|cbn; rewrite IH; reflexivity]).
  rewrite E in D. unfold number_of. rewrite D, V. reflexivity.
Qed.

Lemma six_format : forall v, six_digits v <-> generic_format radix10 fexp6 v.
Proof.
  intros v. split.
  - intros [z [j [Z E]]]. apply generic_format_FLX. exists (Float radix10 z j); [|exact Z].
    rewrite E, <- bpow10. reflexivity.
  - intros F. apply FLX_format_generic in F; [|reflexivity]. destruct F as [[z j] E B]. exists z, j.
    split; [exact B|]. rewrite E, <- bpow10. reflexivity.
Qed.

Lemma round6_nearest : forall x w, six_digits w -> (Rabs (round6 x - x) <= Rabs (w - x))%R.
Proof. intros x w W. apply six_format in W. exact (proj2 (round_N_pt radix10 fexp6 _ x) w W). Qed.

Lemma round6_six : forall x, six_digits (round6 x).
Proof. intros x. apply six_format, generic_format_round; [apply FLX_exp_valid; exact prec6|apply valid_rnd_N]. Qed.

Lemma round6_tie : forall x w, six_digits w -> w <> round6 x -> (Rabs (w - x) = Rabs (round6 x - x))%R ->
  exists z j, Z.even z = true /\ Z.abs z < 10 ^ 6 /\ (round6 x <> 0%R -> 10 ^ 5 <= Z.abs z) /\ round6 x = (IZR z * powerRZ 10 j)%R.
Proof.
  intros x w W N E. assert (H : Rnd_NE_pt radix10 fexp6 x (round6 x)).
  { apply round_NE_pt; [apply FLX_exp_valid; exact prec6|apply exists_NE_FLX; right; reflexivity]. }
  destruct H as [P [[[z j] [V [C EV]]]|U]].
  - cbn [Fnum] in EV. exists z, j. split; [exact EV|]. unfold canonical in C. cbn [Fexp] in C.
    assert (FV : round6 x = (IZR z * powerRZ 10 j)%R) by (rewrite V, <- bpow10; reflexivity).
    rewrite <- V in C. change (j = mag radix10 (round6 x) - 6) in C.
    destruct (Req_dec (round6 x) 0) as [Z0|NZ].
    + assert (z = 0) as -> by (rewrite V in Z0; exact (eq_0_F2R radix10 z j Z0)).
      split; [reflexivity|]. split; [intros K; contradiction|exact FV].
    + destruct (mag radix10 (round6 x)) as [mg MB]. cbn in C. specialize (MB NZ).
      assert (A : Rabs (round6 x) = (IZR (Z.abs z) * bpow radix10 j)%R).
      { rewrite V, <- F2R_Zabs. reflexivity. }
      rewrite A in MB. pose proof (bpow_gt_0 radix10 j) as BP.
      assert (P6 : Z.abs z < 10 ^ 6 /\ 10 ^ 5 <= Z.abs z); [split|destruct P6; auto].
      * apply lt_IZR. rewrite IZR_pow10 by lia. apply Rmult_lt_reg_r with (bpow radix10 j); [exact BP|].
        rewrite <- bpow_plus. replace (6 + j) with mg by lia. apply MB.
      * apply le_IZR. rewrite IZR_pow10 by lia. apply Rmult_le_reg_r with (bpow radix10 j); [exact BP|].
        rewrite <- bpow_plus. replace (5 + j) with (mg - 1) by lia. apply MB.
  - exfalso. apply N. apply U. split; [apply six_format; exact W|].
    intros g G. rewrite E. exact (proj2 P g G).
Qed.

Lemma round6_error : forall x, (Rabs (round6 x - x) <= 5 / 1000000 * Rabs x)%R.
Proof.
  intros x. pose proof (relative_error_N_FLX radix10 6 prec6 (fun z => negb (Z.even z)) x) as H.
  change (- (6) + 1) with (-5) in H. replace (/ 2 * bpow radix10 (-5))%R with (5 / 1000000)%R in H; [exact H|].
  change (bpow radix10 (-5)) with (/ IZR (Z.pow_pos 10 5))%R. change (Z.pow_pos 10 5) with 100000. field.
Qed.

Lemma six_gap : forall v w, six_digits v -> six_digits w -> v <> w -> (Rabs w <= 1000001 * Rabs (v - w))%R.
Proof.
  intros v w [a [i [A ->]]] [b [j [B ->]]] N. rewrite <- !bpow10 in *.
  assert (M : exists m, m <= i /\ m <= j /\ (m = i \/ m = j)) by (destruct (Z.le_ge_cases i j); [exists i|exists j]; lia).
  destruct M as [m [MI [MJ ME]]]. pose proof (bpow_gt_0 radix10 m) as BP.
  assert (VI : (IZR a * bpow radix10 i = IZR (a * 10 ^ (i - m)) * bpow radix10 m)%R).
  { rewrite mult_IZR, IZR_pow10 by lia. rewrite Rmult_assoc, <- bpow_plus. do 2 f_equal. lia. }
  assert (WI : (IZR b * bpow radix10 j = IZR (b * 10 ^ (j - m)) * bpow radix10 m)%R).
  { rewrite mult_IZR, IZR_pow10 by lia. rewrite Rmult_assoc, <- bpow_plus. do 2 f_equal. lia. }
  rewrite VI, WI in *. set (p := a * 10 ^ (i - m)) in *. set (q := b * 10 ^ (j - m)) in *.
  assert (NE : p <> q) by (intros ->; apply N; reflexivity).
  rewrite <- Rmult_minus_distr_r, !Rabs_mult, (Rabs_pos_eq (bpow radix10 m)) by lra.
  rewrite <- minus_IZR, <- !abs_IZR. rewrite <- Rmult_assoc. apply Rmult_le_compat_r; [lra|].
  rewrite <- mult_IZR. apply IZR_le.
  assert (Z.abs p < 10 ^ 6 \/ Z.abs q < 10 ^ 6).
  { destruct ME as [EM|EM]; [left; unfold p|right; unfold q]; rewrite EM, Z.sub_diag, Z.mul_1_r; assumption. }
  lia.
Qed.

Lemma round6_near : forall x w, six_digits w -> (Rabs (x - w) <= / 10000000 * Rabs w)%R -> round6 x = w.
Proof.
  intros x w W B. destruct (Req_dec (round6 x) w) as [E|N]; [exact E|exfalso].
  pose proof (six_gap _ _ (round6_six x) W N) as G.
  pose proof (round6_nearest x w W) as C.
  assert (T : (Rabs (round6 x - w) <= Rabs (round6 x - x) + Rabs (x - w))%R).
  { replace (round6 x - w)%R with ((round6 x - x) + (x - w))%R by ring. apply Rabs_triang. }
  rewrite (Rabs_minus_sym w x) in C.
  assert (P : (0 < Rabs (round6 x - w))%R) by (apply Rabs_pos_lt; lra).
  lra.
Qed.

(** ** Literals *)
Definition value64 (x : R) : R := round radix2 (SpecFloat.fexp 53 1024) ZnearestE x.

Lemma nearest_ratio_spec : forall (s : bool) (a b : positive),
  let v := (if s then - (IZR (Zpos a) / IZR (Zpos b)) else IZR (Zpos a) / IZR (Zpos b))%R in
  (Rabs (value64 v) < bpow radix2 1024)%R ->
  B2R (nearest_ratio s a b) = value64 v /\ is_finite (nearest_ratio s a b) = true /\ Bsign (nearest_ratio s a b) = s.
Proof.
  intros s a b v H. unfold nearest_ratio. set (C := Bdiv_correct_aux _ _ _ _ _ _ _ _ _ _ _).
  rewrite B2R_SF2B, is_finite_SF2B, Bsign_SF2B. destruct C as [V C]. clear V.
  cbv zeta in C.
  assert (E : (F2R (Float radix2 (cond_Zopp s (Zpos a)) 0) / F2R (Float radix2 (cond_Zopp false (Zpos b)) 0) = v)%R).
  { unfold F2R. cbn [Fnum Fexp bpow cond_Zopp]. rewrite !Rmult_1_r. unfold v. destruct s; cbn [cond_Zopp]; [|reflexivity].
    rewrite opp_IZR. field. apply not_0_IZR. discriminate. }
  rewrite E in C. change (round radix2 (SpecFloat.fexp 53 1024) (round_mode mode_NE) v) with (value64 v) in C.
  rewrite Rlt_bool_true in C by exact H. rewrite xorb_false_r in C.
  destruct C as [A [B S]]. rewrite xorb_false_r. auto.
Qed.

Lemma value64_error : forall v, (powerRZ 10 (-307) <= Rabs v)%R -> (Rabs (value64 v - v) <= / 10000000 * Rabs v)%R.
Proof.
  intros v L. rewrite <- bpow10 in L. unfold value64.
  assert (L' : (bpow radix2 (-1074 + 53 - 1) <= Rabs v)%R).
  { apply Rle_trans with (2 := L). change (-1074 + 53 - 1) with (- (1022)). change (-307) with (- (307)).
    rewrite !bpow_opp. apply Rinv_le; [apply bpow_gt_0|]. rewrite <- !IZR_Zpower by lia. apply IZR_le. vm_compute. discriminate. }
  pose proof (relative_error_N_FLT radix2 (-1074) 53 prec_pos (fun z => negb (Z.even z)) v L') as H.
  change (FLT_exp (-1074) 53) with (SpecFloat.fexp 53 1024) in H. apply Rle_trans with (1 := H).
  apply Rmult_le_compat_r; [apply Rabs_pos|]. change (- (53) + 1) with (-52).
  change (bpow radix2 (-52)) with (/ IZR (Z.pow_pos 2 52))%R. change (Z.pow_pos 2 52) with 4503599627370496. lra.
Qed.

Lemma value64_finite : forall v, (powerRZ 10 (-307) <= Rabs v <= powerRZ 10 308)%R -> (Rabs (value64 v) < bpow radix2 1024)%R.
Proof.
  intros v [L U]. pose proof (value64_error v L) as E.
  assert (T : (Rabs (value64 v) <= Rabs (value64 v - v) + Rabs v)%R).
  { replace (value64 v) with ((value64 v - v) + v)%R at 1 by ring. apply Rabs_triang. }
  rewrite <- bpow10 in U.
  assert (B : (10000001 * bpow radix10 308 < 10000000 * bpow radix2 1024)%R).
  { rewrite <- !IZR_Zpower, <- !mult_IZR by lia. apply IZR_lt. vm_compute. reflexivity. }
  lra.
Qed.

Lemma abs_dec_real : forall s m e, Rabs (dec_real s m e) = (IZR (Z.of_N m) * powerRZ 10 e)%R.
Proof.
  intros s m e. rewrite dec_real_10, <- bpow10. pose proof (bpow_gt_0 radix10 e).
  assert (0 <= IZR (Z.of_N m))%R by (apply IZR_le; lia).
  destruct s; [rewrite Rabs_Ropp|]; apply Rabs_pos_eq; nra.
Qed.

(** The literals considered: zero, or of a size for which doubles have 53 digits. *)
Definition in_range (m : N) (e : Z) : Prop :=
  m = 0%N \/ (powerRZ 10 (-307) <= IZR (Z.of_N m) * powerRZ 10 e <= powerRZ 10 308)%R.

Lemma literal_spec : forall neg m e, in_range m e ->
  is_finite (literal neg m e) = true /\ Bsign (literal neg m e) = neg /\ B2R (literal neg m e) = value64 (dec_real neg m e).
Proof.
  intros neg m e R. destruct m as [|p].
  - cbn [literal is_finite Bsign B2R]. repeat split. rewrite dec_real_10. unfold value64.
    replace (if neg then _ else _) with 0%R by (destruct neg; cbn; ring). rewrite round_0 by apply valid_rnd_N. reflexivity.
  - destruct R as [R|R]; [discriminate|]. unfold literal.
    set (a := (p * Z.to_pos (10 ^ Z.max 0 e))%positive). set (b := Z.to_pos (10 ^ Z.max 0 (- e))).
    assert (V : (if neg then - (IZR (Zpos a) / IZR (Zpos b)) else IZR (Zpos a) / IZR (Zpos b))%R = dec_real neg (Npos p) e).
    { rewrite dec_real_10. replace (IZR (Zpos a) / IZR (Zpos b))%R with (IZR (Z.of_N (Npos p)) * bpow radix10 e)%R; [reflexivity|].
      unfold a, b. rewrite Pos2Z.inj_mul, !Z2Pos.id by nia. rewrite mult_IZR, !IZR_pow10 by lia.
      unfold Rdiv. rewrite <- bpow_opp, Rmult_assoc, <- bpow_plus. cbn [Z.of_N]. do 2 f_equal. lia. }
    pose proof (nearest_ratio_spec neg a b) as H. cbv zeta in H. rewrite V in H.
    rewrite <- (abs_dec_real neg) in R. destruct (H (value64_finite _ R)) as [A [B C]]. auto.
Qed.

Lemma literal_printed : forall neg m e, (m < 10 ^ 6)%N -> in_range m e -> round6 (B2R (literal neg m e)) = dec_real neg m e.
Proof.
  intros neg m e M R. destruct (literal_spec neg m e R) as [_ [_ ->]].
  apply round6_near.
  - exists (if neg then - Z.of_N m else Z.of_N m), e. split; [destruct neg; lia|].
    unfold dec_real. destruct neg; [rewrite opp_IZR|]; reflexivity.
  - destruct R as [->|R].
    + replace (dec_real neg 0 e) with 0%R by (unfold dec_real; destruct neg; cbn; ring).
      unfold value64. rewrite round_0 by apply valid_rnd_N. rewrite Rminus_0_r, Rabs_R0. lra.
    + apply value64_error. rewrite abs_dec_real. apply R.
Qed.

Lemma literal_value : forall neg m e n f, in_range m e -> dec_real neg n f = dec_real neg m e -> literal neg n f = literal neg m e.
Proof.
  intros neg m e n f R E.
  assert (A : (IZR (Z.of_N n) * powerRZ 10 f = IZR (Z.of_N m) * powerRZ 10 e)%R) by (rewrite <- !(abs_dec_real neg); rewrite E; reflexivity).
  assert (R' : in_range n f).
  { destruct R as [->|R]; [left|right; rewrite A; exact R].
    cbn in A. rewrite Rmult_0_l, <- bpow10 in A. apply Rmult_integral in A. pose proof (bpow_gt_0 radix10 f).
    destruct A as [A|A]; [apply eq_IZR in A; lia|lra]. }
  destruct (literal_spec neg m e R) as [F [S V]]. destruct (literal_spec neg n f R') as [F' [S' V']].
  apply B2R_Bsign_inj; congruence.
Qed.

Lemma literal_reads_back : forall neg m e rest, (m < 10 ^ 6)%N -> in_range m e -> no_number rest ->
  number64 (pr_double (literal neg m e) ++ rest) = Some (literal neg m e, rest).
Proof.
  intros neg m e rest M R NR. destruct (literal_spec neg m e R) as [F [S V]].
  destruct (pr_read (literal neg m e) rest F NR) as [n [f [D W]]]. rewrite S in *.
  rewrite (literal_printed neg m e M R) in W. unfold number64. rewrite D. cbn [obind].
  rewrite (literal_value neg m e n f R W). reflexivity.
Qed.

(** ** The characters of the text *)
Fixpoint has (c : ascii) (s : string) : Prop :=
  match s with EmptyString => False | String d s' => d = c \/ has c s' end.

Lemma has_app : forall c a b, has c (a ++ b) <-> has c a \/ has c b.
Proof. induction a as [|d a IH]; intros b; cbn; [tauto|]. rewrite IH. tauto. Qed.

Lemma has_split : forall c s, has c s <-> exists p q, s = (p ++ String c q)%string.
Proof.
  intros c s. split.
  - induction s as [|d s IH]; cbn; [contradiction|]. intros [->|H]; [exists EmptyString, s; reflexivity|].
    destruct (IH H) as [p [q ->]]. exists (String d p), q. reflexivity.
  - intros [p [q ->]]. apply has_app. right. left. reflexivity.
Qed.

Lemma has_text : forall c l, digs l -> has c (text l) -> digit_value c <> None.
Proof.
  induction l as [|d l IH]; intros D; cbn; [contradiction|]. inversion D as [|x y A B]; subst.
  intros [<-|H]; [rewrite digit_value_char by exact A; discriminate|exact (IH B H)].
Qed.

Lemma has_fraction : forall c l, digs l -> has c (fraction l) -> c = "."%char \/ digit_value c <> None.
Proof.
  intros c l D. destruct (strip_spec l D) as [DS _]. unfold fraction. destruct (strip_zeros l) as [|d t]; [contradiction|].
  intros [<-|H]; [auto|right; exact (has_text c _ DS H)].
Qed.

Lemma has_exponent : forall c k, Z.abs k < 1000 -> has c (exponent k) -> c = "e"%char \/ c = "+"%char \/ c = "-"%char \/ digit_value c <> None.
Proof.
  intros c k K H. unfold exponent in H. cbn [has] in H. destruct H as [<-|[<-|H]]; [auto|destruct (k <? 0); auto|].
  right. right. right. revert H. apply has_text.
  apply ndigits_spec. destruct (Z.ltb_spec (Z.abs k) 100); cbn; lia.
Qed.

Lemma layout_chars : forall c m k, 10 ^ 5 <= m < 10 ^ 6 -> Z.abs k < 1000 -> has c (layout m k) ->
  c = "."%char \/ digit_value c <> None \/ ((k < -4 \/ 6 <= k) /\ (c = "e"%char \/ c = "+"%char \/ c = "-"%char)).
Proof.
  intros c m k M K. destruct (ndigits_spec 6 m ltac:(change (10 ^ Z.of_nat 6) with (10 ^ 6); lia)) as [D [L V]].
  unfold layout. set (ds := ndigits 6 m) in *.
  assert (FS : forall i, digs (firstn i ds) /\ digs (skipn i ds)).
  { intros i. rewrite <- (firstn_skipn i ds) in D. apply Forall_app in D. exact D. }
  destruct ((k <? -4) || (6 <=? k)) eqn:C1; [|destruct (Z.ltb_spec k 0) as [N|P]]; rewrite ?has_app.
  - apply orb_true_iff in C1. rewrite Z.ltb_lt, Z.leb_le in C1. destruct (FS 1%nat) as [A B].
    intros [H|[H|H]]; [apply has_text in H; auto|apply has_fraction in H; tauto|apply has_exponent in H; tauto].
  - assert (DF : digs (repeat 0 (Z.to_nat (- k - 1)) ++ ds)) by (apply Forall_app; split; [apply digs_repeat|exact D]).
    intros [[<-|[]]|H]; [right; left; discriminate|apply has_fraction in H; tauto].
  - destruct (FS (Z.to_nat (k + 1))) as [A B].
    intros [H|H]; [apply has_text in H; auto|apply has_fraction in H; tauto].
Qed.

Lemma layout_e : forall m k, (k < -4 \/ 6 <= k) -> has "e" (layout m k).
Proof.
  intros m k K. unfold layout. replace ((k <? -4) || (6 <=? k)) with true.
  - rewrite !has_app. right. right. left. reflexivity.
  - symmetry. apply orb_true_iff. rewrite Z.ltb_lt, Z.leb_le. exact K.
Qed.

(** A finite double is printed as its sign and a layout. *)
Lemma pr_shape : forall s m e B, exists d k, 10 ^ 5 <= d < 10 ^ 6 /\ Z.abs k < 1000 /\
  pr_double (B754_finite s m e B) = (minus s ++ layout d k)%string /\
  Rabs (round6 (B2R (B754_finite s m e B))) = (IZR d * bpow radix10 (k - 5))%R.
Proof.
  intros s m e B. unfold pr_double.
  destruct (significant (Zpos m * 2 ^ Z.max 0 e) (2 ^ Z.max 0 (- e))) as [d k] eqn:S.
  pose proof (significant_exp _ _ _ _ S) as KB. pose proof (log10_double s m e B) as LB.
  assert (P : 0 < Zpos m * 2 ^ Z.max 0 e) by nia. assert (Q : 0 < 2 ^ Z.max 0 (- e)) by nia.
  destruct (significant_spec _ _ _ _ P Q S) as [DB DV].
  exists d, k. split; [exact DB|]. split; [lia|]. split; [reflexivity|].
  rewrite DV, (ratio_B2R s m e B). set (x := B2R _). unfold Rabs at 2. destruct (Rcase_abs x) as [N|N].
  - rewrite round_NE_opp. apply Rabs_left1.
    rewrite <- (round_0 radix10 fexp6 ZnearestE). apply round_le; [apply FLX_exp_valid; exact prec6|apply valid_rnd_N|lra].
  - apply Rabs_pos_eq.
    rewrite <- (round_0 radix10 fexp6 ZnearestE). apply round_le; [apply FLX_exp_valid; exact prec6|apply valid_rnd_N|lra].
Qed.

Lemma layout_range : forall d k, 10 ^ 5 <= d < 10 ^ 6 ->
  (bpow radix10 k <= IZR d * bpow radix10 (k - 5) < bpow radix10 (k + 1))%R.
Proof.
  intros d k [L U]. apply IZR_le in L. apply IZR_lt in U. rewrite IZR_pow10 in L, U by lia.
  pose proof (bpow_gt_0 radix10 (k - 5)).
  replace (bpow radix10 k) with (bpow radix10 5 * bpow radix10 (k - 5))%R by (rewrite <- bpow_plus; f_equal; lia).
  replace (bpow radix10 (k + 1)) with (bpow radix10 6 * bpow radix10 (k - 5))%R by (rewrite <- bpow_plus; f_equal; lia).
  split; [apply Rmult_le_compat_r|apply Rmult_lt_compat_r]; lra.
Qed.

Lemma layout_unique : forall d k d' k', 10 ^ 5 <= d < 10 ^ 6 -> 10 ^ 5 <= d' < 10 ^ 6 ->
  (IZR d * bpow radix10 (k - 5) = IZR d' * bpow radix10 (k' - 5))%R -> d = d' /\ k = k'.
Proof.
  intros d k d' k' D D' E. pose proof (layout_range d k D) as A. pose proof (layout_range d' k' D') as B. rewrite E in A.
  assert (k < k' + 1) by (apply (lt_bpow radix10); lra). assert (k' < k + 1) by (apply (lt_bpow radix10); lra).
  assert (k = k') as -> by lia. split; [|reflexivity].
  apply Rmult_eq_reg_r in E; [apply eq_IZR; exact E|]. pose proof (bpow_gt_0 radix10 (k' - 5)). lra.
Qed.

Lemma pr_chars : forall x c, has c (pr_double x) ->
  digit_value c <> None \/ In c ["."; "e"; "+"; "-"; "i"; "n"; "f"; "a"]%char.
Proof.
  assert (MN : forall s c, has c (minus s) -> c = "-"%char) by (intros [] c; cbn; [intros [<-|[]]; reflexivity|contradiction]).
  intros [s|s| |s m e B] c H.
  - cbn [pr_double] in H. apply has_app in H. destruct H as [H|H]; [rewrite (MN s c H); cbn; auto 9|].
    destruct H as [<-|[]]. left. discriminate.
  - cbn [pr_double] in H. apply has_app in H. destruct H as [H|H]; [rewrite (MN s c H); cbn; auto 9|].
    cbn [has] in H. cbn. intuition.
  - cbn in H. cbn. intuition.
  - destruct (pr_shape s m e B) as [d [k [D [K [P _]]]]]. rewrite P in H. apply has_app in H.
    destruct H as [H|H]; [rewrite (MN s c H); cbn; auto 9|].
    apply layout_chars in H; [|exact D|exact K]. cbn. intuition.
Qed.

Lemma layout_zero_value : forall d k, 10 ^ 5 <= d < 10 ^ 6 -> (0 < IZR d * bpow radix10 (k - 5))%R.
Proof. intros d k D. apply Rlt_le_trans with (1 := bpow_gt_0 radix10 k). apply layout_range. exact D. Qed.

(** The text is determined by the sign and the rounded number. *)
Lemma pr_determined : forall x y, is_finite x = true -> is_finite y = true -> Bsign x = Bsign y ->
  round6 (B2R x) = round6 (B2R y) -> pr_double x = pr_double y.
Proof.
  intros x y FX FY S E.
  destruct x as [s|s| |s m e B], y as [t|t| |t n f C]; try discriminate FX; try discriminate FY; cbn [Bsign] in S; subst t.
  - reflexivity.
  - exfalso. destruct (pr_shape s n f C) as [d [k [D [_ [_ V]]]]]. rewrite <- E in V. cbn [B2R] in V.
    rewrite round_0, Rabs_R0 in V by apply valid_rnd_N. pose proof (layout_zero_value d k D). lra.
  - exfalso. destruct (pr_shape s m e B) as [d [k [D [_ [_ V]]]]]. rewrite E in V. cbn [B2R] in V.
    rewrite round_0, Rabs_R0 in V by apply valid_rnd_N. pose proof (layout_zero_value d k D). lra.
  - destruct (pr_shape s m e B) as [d [k [D [_ [P V]]]]]. destruct (pr_shape s n f C) as [d' [k' [D' [_ [P' V']]]]].
    rewrite P, P'. rewrite E, V' in V. destruct (layout_unique d' k' d k D' D V) as [-> ->]. reflexivity.
Qed.

(** Texts of doubles that are not finite. *)
Lemma pr_finite_text : forall x, is_finite x = true <-> number_of (pr_double x) <> None.
Proof.
  intros x. split.
  - intros F. rewrite number_of_pr by exact F. discriminate.
  - destruct x as [s|[]| |s m e B]; intros H; try reflexivity; contradiction H; reflexivity.
Qed.

Lemma pr_same : forall x y, pr_double x = pr_double y ->
  (x = y /\ is_finite x = false) \/
  (is_finite x = true /\ is_finite y = true /\ Bsign x = Bsign y /\ round6 (B2R x) = round6 (B2R y)).
Proof.
  intros x y E. destruct (is_finite x) eqn:FX; destruct (is_finite y) eqn:FY.
  - right. split; [reflexivity|]. split; [reflexivity|].
    destruct (pr_read x "" FX I) as [n [e [D V]]]. destruct (pr_read y "" FY I) as [n' [e' [D' V']]].
    rewrite E, D' in D. injection D as H1 H2 H3. split; [congruence|]. congruence.
  - exfalso. apply pr_finite_text in FX. rewrite E in FX. apply pr_finite_text in FX. congruence.
  - exfalso. apply pr_finite_text in FY. rewrite <- E in FY. apply pr_finite_text in FY. congruence.
  - left. split; [|reflexivity]. destruct x as [s|[]| |s m e B], y as [t|[]| |t n f C]; try discriminate; reflexivity.
Qed.

(** Exponent notation. *)
Lemma pr_exponent : forall x, is_finite x = true -> B2R x <> 0%R ->
  (has "e" (pr_double x) <-> (Rabs (round6 (B2R x)) < powerRZ 10 (-4) \/ powerRZ 10 6 <= Rabs (round6 (B2R x)))%R).
Proof.
  intros [s|s| |s m e B] F N; try discriminate F; [contradiction N; reflexivity|].
  destruct (pr_shape s m e B) as [d [k [D [K [P V]]]]]. rewrite P, V, <- !bpow10, has_app.
  pose proof (layout_range d k D) as [LO HI]. split.
  - intros [H|H]; [destruct s; cbn in H; [destruct H as [H|[]]; discriminate|contradiction]|].
    apply layout_chars in H; [|exact D|exact K]. destruct H as [H|[H|[[H|H] _]]]; [discriminate|contradiction H; reflexivity|left|right].
    + apply Rlt_le_trans with (1 := HI). apply bpow_le. lia.
    + apply Rle_trans with (2 := LO). apply bpow_le. lia.
  - intros H. right. apply layout_e. destruct H as [H|H]; [left|right].
    + apply (lt_bpow radix10). lra.
    + enough (6 < k + 1) by lia. apply (lt_bpow radix10). lra.
Qed.

(** Integers. *)
Lemma ndigits_app : forall b a q, ndigits (a + b) q = (ndigits a (q / 10 ^ Z.of_nat b) ++ ndigits b q)%list.
Proof.
  induction b as [|b IH]; intros a q.
  - rewrite Nat.add_0_r. cbn [ndigits]. rewrite app_nil_r. cbn. rewrite Z.div_1_r. reflexivity.
  - replace (a + S b)%nat with (S (a + b)) by lia. cbn [ndigits]. rewrite IH, Zdiv.Zdiv_Zdiv, app_assoc by lia.
    do 4 f_equal. rewrite Nat2Z.inj_succ, Z.pow_succ_r by lia. reflexivity.
Qed.

Lemma ndigits_0 : forall b z, ndigits b (z * 10 ^ Z.of_nat b) = repeat 0 b.
Proof.
  induction b as [|b IH]; intros z; [reflexivity|]. cbn [ndigits].
  rewrite Nat2Z.inj_succ, Z.pow_succ_r by lia.
  replace (z * (10 * 10 ^ Z.of_nat b)) with (z * 10 ^ Z.of_nat b * 10) by ring.
  rewrite Z.div_mul, Z.mod_mul, IH by lia. symmetry. apply (repeat_cons b 0).
Qed.

Lemma strip_repeat : forall b, strip_zeros (repeat 0 b) = [].
Proof. induction b as [|b IH]; [reflexivity|]. cbn [repeat strip_zeros]. rewrite IH. reflexivity. Qed.

Lemma layout_integer : forall d k z, 10 ^ 5 <= d < 10 ^ 6 -> 0 < z < 10 ^ 6 -> (IZR d * bpow radix10 (k - 5) = IZR z)%R ->
  exists c, (c <= 5)%nat /\ 10 ^ Z.of_nat c <= z < 10 ^ Z.of_nat (S c) /\ layout d k = text (ndigits (S c) z).
Proof.
  intros d k z D Z E. pose proof (layout_range d k D) as [LO HI]. rewrite E in LO, HI.
  assert (K0 : 0 < k + 1). { apply (lt_bpow radix10). apply Rle_lt_trans with (2 := HI). cbn. apply IZR_le. lia. }
  assert (K5 : k < 6). { apply (lt_bpow radix10). apply Rle_lt_trans with (1 := LO). rewrite <- IZR_pow10 by lia. apply IZR_lt. lia. }
  exists (Z.to_nat k). split; [lia|].
  assert (ZB : 10 ^ Z.of_nat (Z.to_nat k) <= z < 10 ^ Z.of_nat (S (Z.to_nat k))).
  { rewrite Nat2Z.inj_succ, Z2Nat.id by lia. rewrite <- IZR_pow10 in LO, HI by lia. apply le_IZR in LO. apply lt_IZR in HI. split; assumption. }
  split; [exact ZB|].
  assert (DZ : d = z * 10 ^ Z.of_nat (5 - Z.to_nat k)).
  { apply eq_IZR. rewrite mult_IZR, IZR_pow10 by lia. rewrite <- E, Rmult_assoc, <- bpow_plus.
    replace (k - 5 + Z.of_nat (5 - Z.to_nat k)) with 0 by lia. cbn. ring. }
  unfold layout. replace ((k <? -4) || (6 <=? k)) with false.
  2: { symmetry. apply orb_false_iff. rewrite Z.ltb_ge, Z.leb_gt. lia. }
  replace (k <? 0) with false by (symmetry; apply Z.ltb_ge; lia).
  replace (Z.to_nat (k + 1)) with (S (Z.to_nat k)) by lia.
  replace (ndigits 6 d) with (ndigits (S (Z.to_nat k) + (5 - Z.to_nat k)) d) by (f_equal; lia).
  rewrite ndigits_app, DZ at 1. rewrite ndigits_app. rewrite DZ.
  rewrite Z.div_mul by (apply Z.pow_nonzero; lia). rewrite ndigits_0.
  assert (L : List.length (ndigits (S (Z.to_nat k)) z) = S (Z.to_nat k)) by (apply ndigits_spec; lia).
  rewrite firstn_app, skipn_app, L, Nat.sub_diag, firstn_all2, skipn_all2 by lia.
  cbn [firstn skipn]. rewrite app_nil_r. cbn [app]. unfold fraction. rewrite strip_repeat.
  generalize (text (ndigits (S (Z.to_nat k)) z)). induction s as [|c s IH]; [reflexivity|cbn; rewrite IH; reflexivity].
Qed.

(** ** Decimal digits of integers *)
Lemma dec_text : forall i, exists l, digs l /\ dec i = text l /\ l <> [] /\ (i <> 0%N -> hd 0 l <> 0).
Proof.
  assert (A : forall u, exists l, digs l /\ DecimalString.NilEmpty.string_of_uint u = text l /\
                        (u = Decimal.Nil <-> l = []) /\ (hd 0 l = 0 -> l <> [] -> exists v, u = Decimal.D0 v)).
  { induction u as [|u [l [D [E _]]]|u [l [D [E _]]]|u [l [D [E _]]]|u [l [D [E _]]]|u [l [D [E _]]]|u [l [D [E _]]]
                   |u [l [D [E _]]]|u [l [D [E _]]]|u [l [D [E _]]]|u [l [D [E _]]]];
      [exists []|exists (0 :: l)|exists (1 :: l)|exists (2 :: l)|exists (3 :: l)|exists (4 :: l)|exists (5 :: l)|exists (6 :: l)
      |exists (7 :: l)|exists (8 :: l)|exists (9 :: l)]; cbn [DecimalString.NilEmpty.string_of_uint text hd];
      repeat split; try discriminate; try (constructor; [lia|exact D]); try (rewrite E; reflexivity); try (intros H; contradiction H; reflexivity);
      try constructor.
    - intros _ H. contradiction H. reflexivity.
    - exists u. reflexivity. }
  intros i. unfold dec, DecimalString.NilZero.string_of_uint.
  pose proof (DecimalN.Unsigned.to_of (N.to_uint i)) as U. rewrite DecimalN.Unsigned.of_to in U.
  destruct (A (N.to_uint i)) as [l [D [E [NL H0]]]].
  assert (NN : N.to_uint i <> Decimal.Nil).
  { rewrite U. unfold Decimal.unorm. destruct (Decimal.nzhead (N.to_uint i)); discriminate. }
  exists l. split; [exact D|]. split; [|split].
  - rewrite <- E. destruct (N.to_uint i); [contradiction NN; reflexivity|..]; reflexivity.
  - intros ->. apply NN, NL. reflexivity.
  - intros N0 HZ. destruct (H0 HZ) as [v V]; [intros ->; apply NN, NL; reflexivity|].
    rewrite V in U at 1. unfold Decimal.unorm in U. destruct (Decimal.nzhead (N.to_uint i)) eqn:K; try discriminate U.
    + injection U as ->. apply N0. rewrite <- (DecimalN.Unsigned.of_to i), V. reflexivity.
    + exact (DecimalFacts.nzhead_nonzero _ _ K).
Qed.

Lemma val_unique : forall l l', digs l -> digs l' -> List.length l = List.length l' -> val l = val l' -> l = l'.
Proof.
  induction l as [|d l IH]; intros [|d' l'] D D' L V; try discriminate L; [reflexivity|].
  inversion D as [|x y A B]; subst. inversion D' as [|x y A' B']; subst. cbn [List.length] in L. injection L as L.
  cbn [val] in V. rewrite L in V. pose proof (val_nonneg l B) as P. pose proof (val_nonneg l' B') as P'. rewrite L in P.
  assert (d = d') by nia. subst d'. f_equal. apply IH; try assumption. lia.
Qed.

Lemma val_length : forall l, digs l -> hd 0 l <> 0 -> 10 ^ (Z.of_nat (List.length l) - 1) <= val l.
Proof.
  intros [|d l] D H; [contradiction H; reflexivity|]. cbn [hd] in H. inversion D as [|x y A B]; subst.
  pose proof (val_nonneg l B). cbn [val List.length]. replace (Z.of_nat (S (List.length l)) - 1) with (Z.of_nat (List.length l)) by lia. nia.
Qed.

Lemma dec_digits : forall c z, 10 ^ Z.of_nat c <= z < 10 ^ Z.of_nat (S c) -> dec (Z.to_N z) = text (ndigits (S c) z).
Proof.
  intros c z B. assert (Z0 : 0 < z) by (pose proof (Z.pow_pos_nonneg 10 (Z.of_nat c)); lia).
  destruct (dec_text (Z.to_N z)) as [l [D [E [N H]]]]. specialize (H ltac:(lia)).
  destruct (ndigits_spec (S c) z ltac:(lia)) as [D' [L' V']].
  pose proof (digits_dec (Z.to_N z) "." "" eq_refl) as R. rewrite E, digits_text in R by (assumption || reflexivity).
  apply (f_equal fst) in R. cbn [fst] in R. pose proof (val_nonneg l D) as P. rewrite N.mul_0_l, N.add_0_l in R. apply Z2N.inj in R; [|lia|lia].
  rewrite E. f_equal. apply val_unique; try assumption; [|congruence]. rewrite L'.
  pose proof (val_length l D H) as Q. rewrite R in P, Q.
  assert (Z.of_nat c < Z.of_nat (List.length l)) by (apply (Z.pow_lt_mono_r_iff 10); lia).
  assert (Z.of_nat (List.length l) - 1 < Z.of_nat (S c)) by (apply (Z.pow_lt_mono_r_iff 10); lia).
  lia.
Qed.

Lemma of_Z_exact : forall lm z, Z.abs z < 2 ^ 53 ->
  is_finite (n_of_Z (numB64 lm) z) = true /\ B2R (n_of_Z (numB64 lm) z) = IZR z /\ Bsign (n_of_Z (numB64 lm) z) = (z <? 0).
Proof.
  intros lm z B. cbn [n_of_Z numB64].
  pose proof (binary_normalize_correct 53 1024 prec_pos prec_emax mode_NE z 0 false) as N. cbv zeta in N.
  replace (F2R (beta := radix2) {| Fnum := z; Fexp := 0 |}) with (IZR z) in N by (unfold F2R; cbn; ring).
  assert (G : round radix2 (SpecFloat.fexp 53 1024) (round_mode mode_NE) (IZR z) = IZR z).
  { apply round_generic; [apply valid_rnd_round_mode|].
    change (SpecFloat.fexp 53 1024) with (FLT_exp (-1074) 53). apply generic_format_FLT.
    exists (Float radix2 z 0); [unfold F2R; cbn; ring|cbn [Fnum]|cbn; lia].
    exact B. }
  rewrite G in N. rewrite Rlt_bool_true in N.
  - destruct N as [N1 [N2 N3]]. split; [exact N2|]. split; [exact N1|]. rewrite N3.
    change 0%R with (IZR 0). rewrite Rcompare_IZR. unfold Z.ltb. destruct (z ?= 0); reflexivity.
  - rewrite <- abs_IZR. rewrite <- IZR_Zpower by lia. apply IZR_lt. apply Z.lt_trans with (1 := B). vm_compute. reflexivity.
Qed.

Lemma pr_integer : forall lm z, Z.abs z < 10 ^ 6 ->
  pr_double (n_of_Z (numB64 lm) z) = (minus (z <? 0)%Z ++ dec (Z.to_N (Z.abs z)))%string.
Proof.
  intros lm z B. destruct (of_Z_exact lm z ltac:(lia)) as [F [V S]].
  assert (RZ : round6 (IZR z) = IZR z).
  { apply round_generic; [apply valid_rnd_N|]. apply six_format. exists z, 0. split; [exact B|]. cbn. ring. }
  destruct (n_of_Z (numB64 lm) z) as [s|s| |s m e K] eqn:X; try discriminate F; cbn [Bsign] in S; subst s.
  - cbn [B2R] in V. change 0%R with (IZR 0) in V. apply eq_IZR in V. subst z. reflexivity.
  - destruct (pr_shape (z <? 0) m e K) as [d [k [D [_ [P W]]]]]. rewrite P. f_equal. rewrite V, RZ, <- abs_IZR in W.
    assert (Z0 : 0 < Z.abs z). { pose proof (layout_zero_value d k D) as Q. rewrite <- W in Q. apply lt_IZR in Q. exact Q. }
    destruct (layout_integer d k (Z.abs z) D ltac:(lia) (eq_sym W)) as [c [_ [ZB ->]]].
    symmetry. apply dec_digits. exact ZB.
Qed.

(** The first character. *)
Lemma pr_first : forall x, is_finite x = true -> exists d s', pr_double x = String d s' /\ (digit_value d <> None \/ d = "-"%char).
Proof.
  assert (M : forall s t, (exists d t', t = String d t' /\ digit_value d <> None) ->
    exists d s', (minus s ++ t)%string = String d s' /\ (digit_value d <> None \/ d = "-"%char)).
  { intros [] t [d [t' [-> H]]]; cbn [minus append]; do 2 eexists; (split; [reflexivity|auto]). }
  intros [s|s| |s m e B] F; try discriminate F.
  - apply M. exists "0"%char, EmptyString. split; [reflexivity|discriminate].
  - destruct (pr_shape s m e B) as [d [k [D [K [P _]]]]]. rewrite P. apply M.
    destruct (ndigits_spec 6 d ltac:(change (10 ^ Z.of_nat 6) with (10 ^ 6); lia)) as [DS [L _]].
    unfold layout. destruct (ndigits 6 d) as [|c l]; [discriminate L|]. inversion DS as [|x y A _]; subst.
    assert (C : digit_value (digit_char c) <> None) by (rewrite digit_value_char by exact A; discriminate).
    destruct ((k <? -4) || (6 <=? k)) eqn:C1; [|destruct (Z.ltb_spec k 0) as [N|N]].
    + cbn [firstn text append]. do 2 eexists. split; [reflexivity|exact C].
    + cbn [append]. do 2 eexists. split; [reflexivity|discriminate].
    + replace (Z.to_nat (k + 1)) with (S (Z.to_nat k)) by lia. cbn [firstn text append]. do 2 eexists. split; [reflexivity|exact C].
Qed.

(** Trees with related constants. *)
Lemma same_mono : forall (T : Type) (P Q : T -> T -> Prop) (a b : RtModel.expr T),
  (forall c d, P c d -> Q c d) -> RtSpec.same P a b -> RtSpec.same Q a b.
Proof.
  intros T P Q a b H. revert b. induction a using RtFacts.expr_ind'; intros b' S; inversion S; subst; try (constructor; auto; fail).
  constructor. match goal with K : Forall2 _ _ _ |- _ => induction K as [|x y l l' R K IHK] end; constructor.
  - inversion H0; subst. auto.
  - apply IHK; [inversion H0; assumption|constructor; assumption].
Qed.
