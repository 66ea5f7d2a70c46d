(** Facts about [gcd] and [rational] of CtModel. *)
From Coq Require Import ZArith Lia Bool Znumtheory.
From Verif Require Import Outcome Num RtModel CtModel.
Local Open Scope Z_scope.

Lemma cbind_some : forall A B (o : option A) (f : A -> option B) b,
  cbind o f = Some b -> exists a, o = Some a /\ f a = Some b.
Proof. intros A B [a|] f b H; [ eauto | discriminate ]. Qed.

Lemma long_some : forall z w, long z = Some w -> w = z.
Proof. unfold long. intros z w. destruct (_ && _); congruence. Qed.
Lemma int_some : forall z w, int z = Some w -> w = z.
Proof. unfold int. intros z w. destruct (_ && _); congruence. Qed.
Lemma long_in : forall z, -9223372036854775808 <= z <= 9223372036854775807 -> long z = Some z.
Proof.
  unfold long. intros z H. destruct (Z.leb_spec (-9223372036854775808) z); [|lia].
  destruct (Z.leb_spec z 9223372036854775807); [ reflexivity | lia ].
Qed.
Lemma int_in : forall z, -2147483648 <= z <= 2147483647 -> int z = Some z.
Proof.
  unfold int. intros z H. destruct (Z.leb_spec (-2147483648) z); [|lia].
  destruct (Z.leb_spec z 2147483647); [ reflexivity | lia ].
Qed.
Lemma int_range : forall z w, int z = Some w -> -2147483648 <= z <= 2147483647.
Proof.
  unfold int. intros z w. destruct (Z.leb_spec (-2147483648) z); [|discriminate].
  destruct (Z.leb_spec z 2147483647); [ lia | discriminate ].
Qed.
Lemma wrap_in : forall z, -2147483648 <= z <= 2147483647 -> wrap32 z = Some z.
Proof. unfold wrap32. intros z H. f_equal. rewrite Z.mod_small; lia. Qed.
Lemma int_wrap : forall z w, int z = Some w -> wrap32 z = Some w.
Proof.
  intros z w H. pose proof (int_range _ _ H) as R. rewrite (int_some _ _ H). apply wrap_in, R.
Qed.

Definition below (n m : Z -> option Z) : Prop := forall z w, n z = Some w -> m z = Some w.

Lemma int_below_wrap : below int wrap32.
Proof. exact int_wrap. Qed.
Lemma below_refl : forall n, below n n.
Proof. intros n z w H; exact H. Qed.

(** A conversion that keeps small values and never changes a value without failing. *)
Definition honest (n : Z -> option Z) : Prop := forall z w, n z = Some w -> w = z.
Lemma int_honest : honest int.
Proof. exact int_some. Qed.
Definition keeps_int (n : Z -> option Z) : Prop :=
  forall z, -2147483648 <= z <= 2147483647 -> n z = Some z.

Lemma rem_half : forall a b, 0 < a -> 0 < b -> b <= a -> 2 * Z.rem a b < a.
Proof.
  intros a b Ha Hb L.
  pose proof (Z.quot_rem' a b) as Q. pose proof (Z.rem_bound_pos a b ltac:(lia) Hb) as B.
  assert (1 <= a ÷ b) by (apply Z.quot_le_lower_bound; lia). nia.
Qed.

Lemma rem_abs : forall a b, b <> 0 -> Z.abs (Z.rem a b) < Z.abs b.
Proof. intros a b H. apply Z.rem_bound_abs, H. Qed.

Lemma rem_abs_abs : forall a b, b <> 0 -> Z.abs (Z.rem a b) = Z.rem (Z.abs a) (Z.abs b).
Proof. intros. rewrite Z.rem_abs by assumption. reflexivity. Qed.

Lemma abs_gcd_rem : forall a b, b <> 0 -> Z.gcd b (Z.rem a b) = Z.gcd a b.
Proof.
  intros a b H. rewrite (Z.gcd_comm a b). pose proof (Z.quot_rem' a b) as Q.
  assert (E : Z.rem a b = a - Z.quot a b * b) by lia. rewrite E.
  replace (a - Z.quot a b * b) with (a + - Z.quot a b * b) by lia.
  rewrite Z.gcd_add_mult_diag_r. reflexivity.
Qed.

(** What the result is, if there is one. *)
Lemma gcd_rec_divides : forall n, honest n -> forall f a b g,
  gcd_rec n f a b = Some g -> Z.abs g = Z.gcd a b /\ g <> 0.
Proof.
  intros n Hn. induction f as [|f IH]; simpl; intros a b g H; [ discriminate | ].
  destruct (Z.eqb_spec b 0) as [->|Nb].
  - destruct (Z.eqb_spec a 0) as [->|Na]; [ discriminate | ].
    apply Hn in H. subst g. rewrite Z.gcd_0_r. auto.
  - apply cbind_some in H as [q [_ H]]. apply cbind_some in H as [h [H1 H2]].
    apply Hn in H2. subst g. apply IH in H1 as [A B]. split; [|exact B].
    rewrite A. apply abs_gcd_rem, Nb.
Qed.

Lemma quot_long : forall a b, b <> 0 -> Z.abs a < 9223372036854775808 ->
  long (Z.quot a b) = Some (Z.quot a b).
Proof.
  intros a b Nb Ha. apply long_in. pose proof (Z.quot_abs a b Nb) as E.
  assert (Z.abs (Z.quot a b) <= Z.abs a); [|lia].
  rewrite <- E. destruct (Z.eq_dec (Z.abs b) 1) as [->|]; [ rewrite Z.quot_1_r; lia | ].
  destruct (Z.eq_dec (Z.abs a) 0) as [Ea|]; [ rewrite Ea, Z.quot_0_l; lia | ].
  apply Z.lt_le_incl, Z.quot_lt; lia.
Qed.

(** There is one, if the conversion accepts the result. *)
Lemma gcd_rec_total : forall n, forall f a b,
  (b <> 0 \/ a <> 0) ->
  (forall z, Z.abs z = Z.gcd a b -> n z = Some z) ->
  Z.abs a < 9223372036854775808 -> Z.abs b < 9223372036854775808 ->
  (f >= (if Z.eqb b 0 then 1 else 2 + 2 * Z.to_nat (Z.log2 (Z.abs b))))%nat ->
  exists g, gcd_rec n f a b = Some g /\ Z.abs g = Z.gcd a b.
Proof.
  intros n f. induction f as [f IH] using (well_founded_induction lt_wf).
  intros a b Nz Hn Ha Hb F.
  destruct f as [|f]; [ destruct (Z.eqb b 0); lia | ]. cbn [gcd_rec].
  destruct (Z.eqb_spec b 0) as [->|Nb].
  - destruct (Z.eqb_spec a 0) as [->|Na]; [ lia | ].
    rewrite Z.gcd_0_r in *. exists a. split; [ apply Hn; reflexivity | reflexivity ].
  - assert (Q : long (Z.quot a b) = Some (Z.quot a b)) by (apply quot_long; assumption).
    rewrite Q. cbn [cbind].
    assert (Eg : Z.gcd b (Z.rem a b) = Z.gcd a b) by (apply abs_gcd_rem, Nb).
    enough (exists g, gcd_rec n f b (Z.rem a b) = Some g /\ Z.abs g = Z.gcd a b) as [g [E1 E2]].
    { exists g. rewrite E1. cbn [cbind]. split; [ apply Hn, E2 | exact E2 ]. }
    (* one more step by hand, so that the second argument halves *)
    set (r := Z.rem a b) in *.
    assert (Hr : Z.abs r < Z.abs b) by (apply rem_abs, Nb).
    destruct f as [|f]; [ lia | ]. cbn [gcd_rec].
    destruct (Z.eqb_spec r 0) as [Er|Nr].
    + destruct (Z.eqb_spec b 0) as [|_]; [ contradiction | ].
      rewrite Er, Z.gcd_0_r in Eg. exists b. split; [ apply Hn; exact Eg | exact Eg ].
    + assert (Hb2 : 2 <= Z.abs b) by lia.
      assert (HL : 1 <= Z.log2 (Z.abs b)).
      { change 1 with (Z.log2 2). apply Z.log2_le_mono. lia. }
      assert (Q2 : long (Z.quot b r) = Some (Z.quot b r)) by (apply quot_long; assumption).
      rewrite Q2. cbn [cbind].
      assert (Hr2 : 2 * Z.abs (Z.rem b r) < Z.abs b).
      { rewrite rem_abs_abs by exact Nr. apply rem_half; lia. }
      destruct (IH f ltac:(lia) r (Z.rem b r)) as [g [E1 E2]].
      * right. exact Nr.
      * intros z Hz. apply Hn. rewrite Hz, abs_gcd_rem by exact Nr. exact Eg.
      * pose proof (rem_abs_abs a b Nb). fold r in H.
        assert (Z.rem (Z.abs a) (Z.abs b) <= Z.abs a) by (apply Z.rem_le; lia). lia.
      * lia.
      * destruct (Z.eqb_spec (Z.rem b r) 0) as [|N0]; [ lia | ].
        assert (Z.log2 (Z.abs (Z.rem b r)) + 1 <= Z.log2 (Z.abs b)).
        { replace (Z.log2 (Z.abs (Z.rem b r)) + 1) with (Z.log2 (2 * Z.abs (Z.rem b r)))
            by (rewrite Z.log2_double by lia; lia).
          apply Z.log2_le_mono. lia. }
        assert (0 <= Z.log2 (Z.abs (Z.rem b r))) by apply Z.log2_nonneg. lia.
      * rewrite abs_gcd_rem in E2 by exact Nr.
        exists g. rewrite E1. cbn [cbind]. rewrite E2, Eg. split; [ apply Hn | reflexivity ].
        rewrite E2. exact Eg.
Qed.
