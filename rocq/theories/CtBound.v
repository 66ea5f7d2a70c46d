(** Small constants are never narrowed by the compile-time simplification. *)
From Coq Require Import ZArith NArith List Bool Lia.
From Verif Require Import Outcome Num RtModel CtModel CtSpec CtGcd CtFacts.
Import ListNotations.
Local Open Scope Z_scope.

(** Like [const_bound], but a fraction of constants counts once. *)
Definition hfrac (a b : Z) : Z := 2 * Z.max (Z.max (Z.abs a) (Z.abs b)) 1.
Fixpoint height (e : cexpr) : Z :=
  match e with
  | CConst c => 2 * Z.max (Z.abs c) 1
  | CVar _ | CFun _ => 1
  | CUn _ a => height a
  | CBin CDiv (CConst a) (CConst b) => hfrac a b
  | CBin _ l r => height l * height r
  end.

Lemma height_pos : forall e, 1 <= height e.
Proof.
  induction e as [c|i|t|op a IH|op l IHl r IHr]; cbn [height]; try lia.
  destruct op; try nia. destruct l; try nia. destruct r; try nia. unfold hfrac. lia.
Qed.

Lemma hfrac_le : forall a b, hfrac a b <= (2 * Z.max (Z.abs a) 1) * (2 * Z.max (Z.abs b) 1).
Proof. intros a b. unfold hfrac. nia. Qed.

Lemma height_bin_le : forall op l r, height (CBin op l r) <= height l * height r.
Proof.
  intros op l r. destruct op; try apply Z.le_refl.
  destruct l; try apply Z.le_refl. destruct r; try apply Z.le_refl. apply hfrac_le.
Qed.

Definition is_lit (e : cexpr) : bool := match e with CConst _ => true | _ => false end.
Lemma height_bin : forall op l r, op <> CDiv \/ is_lit l = false \/ is_lit r = false ->
  height (CBin op l r) = height l * height r.
Proof.
  intros op l r H. destruct op; try reflexivity.
  destruct l; try reflexivity. destruct r; try reflexivity. simpl in H.
  destruct H as [H|[H|H]]; congruence.
Qed.

Lemma height_bound : forall e, height e <= const_bound e.
Proof.
  induction e as [c|i|t|op a IH|op l IHl r IHr]; cbn [const_bound]; try (cbn [height]; lia).
  pose proof (height_bin_le op l r). pose proof (height_pos l). pose proof (height_pos r). nia.
Qed.

(** ** gcd and rational results of small numbers *)

Definition small (z : Z) : Prop := Z.abs z < 2147483648.

Lemma gcd_rec_abs : forall f a b g, small a -> small b -> gcd_rec int f a b = Some g -> small g.
Proof.
  induction f as [|f IH]; simpl; intros a b g Ha Hb H; [ discriminate | ].
  destruct (Z.eqb_spec b 0) as [->|Nb].
  - destruct (a =? 0); [ discriminate | ]. apply int_some in H. subst. exact Ha.
  - apply cbind_some in H as [q [_ H]]. apply cbind_some in H as [h [H1 H2]].
    apply int_some in H2. subst. apply IH in H1; [ exact H1 | exact Hb | ].
    unfold small in *. pose proof (rem_abs a b Nb). lia.
Qed.

Lemma small_int : forall z, small z -> int z = Some z.
Proof. intros z H. apply int_in. unfold small in H. lia. Qed.
Lemma small_wrap : forall z, small z -> wrap32 z = Some z.
Proof. intros z H. apply wrap_in. unfold small in H. lia. Qed.

Lemma gcd_rec_agree : forall f a b, small a -> small b ->
  gcd_rec int f a b = gcd_rec wrap32 f a b.
Proof.
  induction f as [|f IH]; simpl; intros a b Ha Hb; [ reflexivity | ].
  destruct (Z.eqb_spec b 0) as [->|Nb].
  - destruct (a =? 0); [ reflexivity | ]. rewrite small_int, small_wrap by exact Ha. reflexivity.
  - destruct (long (Z.quot a b)); cbn [cbind]; [|reflexivity].
    assert (S : small (Z.rem a b)) by (unfold small in *; pose proof (rem_abs a b Nb); lia).
    rewrite <- IH by assumption.
    destruct (gcd_rec int f b (Z.rem a b)) as [g|] eqn:E; cbn [cbind]; [|reflexivity].
    apply gcd_rec_abs in E; [|exact Hb|exact S].
    rewrite small_int, small_wrap by exact E. reflexivity.
Qed.

Lemma rational_agree : forall u v,
  (forall a, u = Some a -> small a) -> (forall b, v = Some b -> small b) ->
  rational int u v = rational wrap32 u v.
Proof.
  unfold rational. intros [a|] [b|] Ha Hb; cbn [cbind]; try reflexivity.
  specialize (Ha a eq_refl). specialize (Hb b eq_refl).
  rewrite !small_int, !small_wrap by assumption. cbn [cbind]. unfold gcd.
  rewrite gcd_rec_agree by assumption. reflexivity.
Qed.

Lemma quot_abs_le : forall a g, g <> 0 -> Z.abs (Z.quot a g) <= Z.abs a.
Proof.
  intros a g Ng. rewrite <- Z.quot_abs by exact Ng.
  destruct (Z.eq_dec (Z.abs g) 1) as [->|]; [ rewrite Z.quot_1_r; lia | ].
  destruct (Z.eq_dec (Z.abs a) 0) as [->|]; [ rewrite Z.quot_0_l; lia | ].
  apply Z.lt_le_incl, Z.quot_lt; lia.
Qed.

Lemma rational_height : forall u v w t, rational int u v = Some (w, t) ->
  exists a b, u = Some a /\ v = Some b /\ height t <= hfrac a b.
Proof.
  unfold rational. intros u v w t H.
  apply cbind_some in H as [a [-> H]]. apply cbind_some in H as [b [-> H]].
  apply cbind_some in H as [a' [Ha H]]. apply cbind_some in H as [b' [Hb H]].
  apply int_some in Ha. apply int_some in Hb. subst a' b'.
  apply cbind_some in H as [g [Hg H]]. apply (gcd_rec_divides int int_honest) in Hg as [_ G2].
  apply cbind_some in H as [p [Hp H]]. apply cbind_some in H as [q [Hq H]].
  injection H as <- <-. exists a, b. repeat split.
  unfold int_div in Hp, Hq. destruct (Z.eqb_spec g 0) as [|_]; [ contradiction | ].
  apply int_some in Hp. apply int_some in Hq. subst p q.
  cbn [height]. unfold hfrac. pose proof (quot_abs_le a g G2). pose proof (quot_abs_le b g G2). lia.
Qed.

(** ** The rules *)

Lemma mul_abs : forall a b A B, Z.abs a <= A -> Z.abs b <= B -> Z.abs (a * b) <= A * B.
Proof. intros a b A B Ha Hb. rewrite Z.abs_mul. nia. Qed.

Lemma add_abs : forall a b A, Z.abs a <= A -> Z.abs b <= A -> Z.abs (a + b) <= 2 * A.
Proof. lia. Qed.
Lemma sub_abs : forall a b A, Z.abs a <= A -> Z.abs b <= A -> Z.abs (a - b) <= 2 * A.
Proof. lia. Qed.

(** Factor of a constant or fraction. *)
Definition fac (e : cexpr) : Z := Z.max (Z.max (Z.abs (num e)) (Z.abs (den e))) 1.

Lemma fac_pos : forall e, 1 <= fac e.
Proof. unfold fac. lia. Qed.
Lemma fac_num : forall e, Z.abs (num e) <= fac e.
Proof. unfold fac. lia. Qed.
Lemma fac_den : forall e, Z.abs (den e) <= fac e.
Proof. unfold fac. lia. Qed.
Lemma fac_const : forall c, height (CConst c) = 2 * fac (CConst c).
Proof. intros c. unfold fac. cbn [height num den]. lia. Qed.
Lemma fac_frac : forall a b, height (CBin CDiv (CConst a) (CConst b)) = 2 * fac (CBin CDiv (CConst a) (CConst b)).
Proof. reflexivity. Qed.

Definition numeric (e : cexpr) : Prop := matches PNum e = true \/ matches frac e = true.
Lemma fac_height : forall e, numeric e -> height e = 2 * fac e.
Proof.
  intros e [H|H]; minv; [ apply fac_const | apply fac_frac ].
Qed.

Ltac oinv' :=
  repeat match goal with
  | H : cbind _ _ = Some _ |- _ =>
      let x := fresh "x" in let E := fresh "E" in apply cbind_some in H as [x [E H]]
  | H : add _ _ = Some _ |- _ => unfold add in H; apply long_some in H
  | H : sub _ _ = Some _ |- _ => unfold sub in H; apply long_some in H
  | H : mul _ _ = Some _ |- _ => unfold mul in H; apply long_some in H
  | H : Some _ = Some _ |- _ => injection H as H
  end; subst.

(** Bounds of the numerators and denominators of all rational results. *)
Lemma frac_bounds : forall l r, 
  let M := 2 * (fac l * fac r) in
  Z.abs (num l * den r) <= fac l * fac r /\ Z.abs (num r * den l) <= fac l * fac r /\
  Z.abs (num l * num r) <= fac l * fac r /\ Z.abs (den l * den r) <= fac l * fac r /\
  Z.abs (den l * num r) <= fac l * fac r /\
  Z.abs (num l) <= fac l * fac r /\ Z.abs (num r) <= fac l * fac r /\
  Z.abs (den l) <= fac l * fac r /\ Z.abs (den r) <= fac l * fac r /\ 1 <= fac l * fac r.
Proof.
  intros l r M. pose proof (fac_pos l). pose proof (fac_pos r).
  pose proof (fac_num l). pose proof (fac_num r). pose proof (fac_den l). pose proof (fac_den r).
  repeat split; try (apply mul_abs; assumption); try nia.
Qed.

Lemma lit_numeric : forall c e, matches (PLit c) e = true -> numeric e.
Proof. intros c e H. minv. left. reflexivity. Qed.

Ltac numer H := first [ left; exact H | right; exact H | exact (lit_numeric _ _ H) ].

Lemma rational_height' : forall M u v w t, rational int u v = Some (w, t) -> 1 <= M ->
  (forall a, u = Some a -> Z.abs a <= M) -> (forall b, v = Some b -> Z.abs b <= M) ->
  height t <= 2 * M.
Proof.
  intros M u v w t H HM Hu Hv. apply rational_height in H as [a [b [Ea [Eb H]]]].
  specialize (Hu a Ea). specialize (Hv b Eb). unfold hfrac in H. lia.
Qed.

Lemma small_le : forall a P, Z.abs a <= 2 * P -> (2 * P) * 2 < 2147483648 -> small a.
Proof. unfold small. lia. Qed.
Lemma once_le : forall a P, 1 <= P -> Z.abs a <= P -> Z.abs a <= 2 * P.
Proof. lia. Qed.

Ltac bounded := first [ apply add_abs; assumption | apply sub_abs; assumption
                      | apply once_le; assumption ].

Lemma rules_agree : forall x, In x rules -> forall l r,
  matches (r_l x) l = true -> matches (r_r x) r = true ->
  height (CBin (r_op x) l r) < 2147483648 -> r_act x int l r = r_act x wrap32 l r.
Proof.
  over_rules; intros l r Ml Mr K; cbn [r_act r_op r_l r_r] in *; try reflexivity.
  all: try (
    assert (Nl : numeric l) by numer Ml; assert (Nr : numeric r) by numer Mr;
    rewrite height_bin in K by
      (clear - Ml Mr; minv; simpl; first [ left; discriminate | right; left; reflexivity
                                         | right; right; reflexivity ]);
    rewrite (fac_height l Nl), (fac_height r Nr) in K;
    destruct (frac_bounds l r) as [B1 [B2 [B3 [B4 [B5 [B6 [B7 [B8 [B9 B0]]]]]]]]];
    assert (K' : 2 * (fac l * fac r) * 2 < 2147483648) by
      (clear - K; nia);
    apply rational_agree; intros z Hz; oinv';
    (apply (small_le _ (fac l * fac r)); [ bounded | exact K' ])).
  minv. cbn [num den]. cbn [height] in K. unfold hfrac in K. unfold gcd.
  rewrite gcd_rec_agree by (unfold small; lia). reflexivity.
Qed.

Lemma height_inv' : forall b, is_lit b = false ->
  height (CBin CDiv (CConst 1) b) = 2 * height b.
Proof. intros b H. rewrite height_bin by auto. reflexivity. Qed.
Lemma height_inv : forall b, height b <= height (CBin CDiv (CConst 1) b).
Proof.
  intros b. pose proof (height_pos b). destruct (is_lit b) eqn:E.
  - destruct b; try discriminate. cbn [height]. unfold hfrac. lia.
  - rewrite height_inv' by exact E. lia.
Qed.

Lemma generic_none : forall op l r x, choose op l r = Generic -> In x rules ->
  applicable op l r x = false.
Proof.
  intros op l r x. unfold choose. generalize rules as rs. intros rs H I.
  destruct (filter (applicable op l r) rs) as [|y ys] eqn:F.
  - destruct (applicable op l r x) eqn:A; [|reflexivity]. exfalso.
    assert (J : In x (filter (applicable op l r) rs)) by (apply filter_In; auto).
    rewrite F in J. exact J.
  - destruct (find _ _); discriminate H.
Qed.

Lemma const_div_rule : exists x, In x rules /\
  r_op x = CDiv /\ r_l x = PNum /\ r_r x = PNum.
Proof.
  exists (nth 49 rules (mk_rule CPlus PAny PAny (fun _ _ _ => None))).
  split; [ apply nth_In; simpl; lia | repeat split ].
Qed.

Lemma const_div_not_generic : forall a b, choose CDiv (CConst a) (CConst b) <> Generic.
Proof.
  intros a b H. destruct const_div_rule as [x [I [E1 [E2 E3]]]].
  apply (generic_none _ _ _ x) in H; [|exact I].
  unfold applicable in H. rewrite E1, E2, E3 in H. discriminate H.
Qed.

Lemma rules_height : forall x, In x rules -> forall l r,
  matches (r_l x) l = true -> matches (r_r x) r = true ->
  choose (r_op x) l r = Chosen x -> forall v e',
  r_act x int l r = Some (v, e') -> height e' <= height (CBin (r_op x) l r).
Proof.
  over_rules; intros l r Ml Mr C v e' H; cbn [r_act r_op r_l r_r] in *; try discriminate.
  all: try (clear C;
    assert (Nl : numeric l) by numer Ml; assert (Nr : numeric r) by numer Mr;
    rewrite height_bin by
      (clear - Ml Mr; minv; simpl; first [ left; discriminate | right; left; reflexivity
                                         | right; right; reflexivity ]);
    rewrite (fac_height l Nl), (fac_height r Nr);
    destruct (frac_bounds l r) as [B1 [B2 [B3 [B4 [B5 [B6 [B7 [B8 [B9 B0]]]]]]]]];
    replace (2 * fac l * (2 * fac r)) with (2 * (2 * (fac l * fac r))) by ring;
    apply (rational_height' _ _ _ _ _ H); [ clear - B0; nia | | ]; intros z Hz; oinv'; bounded).
  all: pose proof (height_pos l); pose proof (height_pos r); minv; cbn [rhs num den] in H.
  all: try (clear C; oinv'; rewrite ?height_bin by (left; discriminate); cbn [height] in *; nia).
  - clear C. oinv'. destruct (is_lit r) eqn:E.
    + destruct r; try discriminate. cbn [height]. unfold hfrac. lia.
    + rewrite height_bin by auto. change (height (CConst 0)) with 2. lia.
  - clear C. oinv'. destruct (is_lit e') eqn:E.
    + destruct e'; try discriminate. cbn [height]. unfold hfrac. lia.
    + rewrite height_bin by auto. change (height (CConst 1)) with 2. lia.
  - clear C. oinv'. rewrite (height_bin CMult) by (left; discriminate).
    pose proof (height_bin_le CDiv l b). pose proof (height_inv b). nia.
  - clear C. oinv'. rewrite (height_bin CMult) by (left; discriminate).
    pose proof (height_bin_le CDiv r b). pose proof (height_inv b). nia.
  - assert (N : is_lit b0 = false \/ is_lit b = false).
    { destruct b0; auto. destruct b; auto. discriminate C. }
    clear C. oinv'. rewrite (height_bin CMult) by (left; discriminate).
    rewrite height_bin by (right; right; reflexivity).
    rewrite (height_bin CMult) by (left; discriminate).
    pose proof (height_pos b0). pose proof (height_pos b).
    pose proof (height_inv b0). pose proof (height_inv b).
    destruct N as [N|N].
    + rewrite (height_inv' b0 N). change (height (CConst 1)) with 2. nia.
    + rewrite (height_inv' b N). change (height (CConst 1)) with 2. nia.
  - clear C. apply cbind_some in H as [g [Hg H]].
    apply (gcd_rec_divides int int_honest) in Hg as [_ G2].
    apply cbind_some in H as [p [Hp H]]. apply cbind_some in H as [q [Hq H]].
    injection H as <- <-.
    unfold long_div in Hp, Hq. destruct (Z.eqb_spec g 0) as [|_]; [ contradiction | ].
    apply long_some in Hp. apply long_some in Hq. subst p q.
    cbn [height]. unfold hfrac.
    pose proof (quot_abs_le c0 g G2). pose proof (quot_abs_le c g G2). lia.
  - clear C. oinv'. cbn [height]. unfold hfrac. lia.
  - clear C. oinv'. cbn [height]. unfold hfrac. lia.
  - clear C. oinv'. cbn [height]. unfold hfrac. lia.
  - clear C. oinv'. cbn [height]. unfold hfrac. lia.
Qed.

Lemma impl_height : forall e v e', simplify_impl int e = Some (v, e') -> height e' <= height e.
Proof.
  induction e as [c|i|t|op a IH|op l IHl r IHr]; intros v e' H;
    [ injection H as <- <-; apply Z.le_refl .. | ].
  rewrite impl_bin in H. destruct (choose op l r) as [|x|] eqn:C; [| |discriminate].
  - apply cbind_some in H as [[vl l'] [Hl H]]. apply cbind_some in H as [[vr r'] [Hr H]].
    injection H as <- <-. apply IHl in Hl. apply IHr in Hr.
    assert (N : op <> CDiv \/ is_lit l = false \/ is_lit r = false).
    { destruct op; try (left; discriminate). destruct l; auto. destruct r; auto.
      exfalso. exact (const_div_not_generic _ _ C). }
    rewrite (height_bin op l r N). pose proof (height_bin_le op l' r').
    pose proof (height_pos l'). pose proof (height_pos r'). nia.
  - pose proof C as C'. apply choose_in in C' as [C1 C2].
    apply applicable_inv in C2 as [<- [Ml Mr]].
    exact (rules_height x C1 l r Ml Mr C v e' H).
Qed.

Lemma impl_agree : forall e, height e < 2147483648 -> simplify_impl int e = simplify_impl wrap32 e.
Proof.
  induction e as [c|i|t|op a IH|op l IHl r IHr]; intros K; try reflexivity.
  rewrite !impl_bin. destruct (choose op l r) as [|x|] eqn:C; [| |reflexivity].
  - assert (N : op <> CDiv \/ is_lit l = false \/ is_lit r = false).
    { destruct op; try (left; discriminate). destruct l; auto. destruct r; auto.
      exfalso. exact (const_div_not_generic _ _ C). }
    rewrite (height_bin op l r N) in K. pose proof (height_pos l). pose proof (height_pos r).
    rewrite IHl, IHr by nia. reflexivity.
  - apply choose_in in C as [C1 C2]. apply applicable_inv in C2 as [<- [Ml Mr]].
    apply (rules_agree x C1 l r Ml Mr K).
Qed.

Lemma loop_agree : forall f e, height e < 2147483648 ->
  simplify_loop int f e = simplify_loop wrap32 f e.
Proof.
  induction f as [|f IH]; intros e K; [ reflexivity | ]. cbn [simplify_loop].
  rewrite <- impl_agree by exact K.
  destruct (simplify_impl int e) as [[[] e']|] eqn:E; [| reflexivity | reflexivity ].
  apply IH. apply impl_height in E. lia.
Qed.

Lemma simplify_agree : forall e, const_bound e < 2147483648 ->
  ct_simplify int e = ct_simplify wrap32 e.
Proof.
  intros e K. unfold ct_simplify. rewrite loop_agree; [ reflexivity | ].
  pose proof (height_bound e). lia.
Qed.

