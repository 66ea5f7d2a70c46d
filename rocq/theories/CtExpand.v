(** Lemmas about compile-time expansion. *)
From Coq Require Import ZArith NArith List Bool Reals Lia Lra.
From Verif Require Import Outcome Num RtModel RtSpec RtFacts NumR CtModel CtSpec CtGcd CtFacts
  CtOpsModel CtOpsFacts CtManipModel CtManipSpec CtManipFacts.
Import ListNotations.

(** ** Termination *)

Lemma measure_pos : forall e, 2 <= expand_measure e.
Proof.
  induction e as [c|i|t|op a IH|op l IHl r IHr]; simpl; try lia.
  destruct op; try lia.
Qed.

Lemma mul_le : forall a b c, a <= b -> a * c <= b * c.
Proof. intros. apply Nat.mul_le_mono_r. assumption. Qed.

Lemma expand_enough : forall f,
  (forall e, 2 * expand_measure e + 1 <= f ->
     exists e', expand_f f e = Some e' /\ expand_measure e' <= expand_measure e /\
       match e with
       | CBin CMult l r => has_sum e = true -> expand_measure e' < expand_measure e
       | _ => True
       end) /\
  (forall e x, 2 * (expand_measure e * expand_measure x) <= f ->
     exists e', with_factor_f f e x = Some e' /\
       expand_measure e' <= expand_measure e * expand_measure x /\
       (has_sum e = true -> expand_measure e' < expand_measure e * expand_measure x)).
Proof.
  induction f as [|f [IH1 IH2]].
  { split; intros e; [lia|]. intros x H. pose proof (measure_pos e). pose proof (measure_pos x). nia. }
  split.
  - intros e H. destruct e as [c|i|t|op a|op l r];
      try (eexists; split; [reflexivity|]; split; [lia|exact I]).
    assert (G : forall o, 2 * (expand_measure l + expand_measure r + 1) + 1 <= S f ->
      exists e', cbind (expand_f f l) (fun l' => cbind (expand_f f r) (fun r' =>
         Some (CBin o l' r'))) = Some e' /\
         (o <> CMult -> expand_measure e' <= expand_measure l + expand_measure r + 1)).
    { intros o K.
      destruct (IH1 l ltac:(lia)) as [l' [-> [L _]]]. destruct (IH1 r ltac:(lia)) as [r' [-> [R _]]].
      eexists. split; [reflexivity|]. intros N. destruct o; try contradiction; simpl; lia. }
    destruct op; cbn [expand_measure] in H; cbn [expand_f].
    + destruct (G CPlus ltac:(lia)) as [e' [-> E]]. exists e'. split; [reflexivity|].
      split; [apply E; discriminate|exact I].
    + destruct (G CMinus ltac:(lia)) as [e' [-> E]]. exists e'. split; [reflexivity|].
      split; [apply E; discriminate|exact I].
    + cbn [has_sum expand_measure].
      destruct (has_sum l) eqn:Sl, (has_sum r) eqn:Sr.
      * destruct (IH2 l r ltac:(lia)) as [m [-> [M1 M2]]]. specialize (M2 Sl). cbn [cbind].
        destruct (IH1 m ltac:(lia)) as [e' [-> [E _]]]. exists e'. split; [reflexivity|]. lia.
      * destruct (IH2 l r ltac:(lia)) as [m [-> [M1 M2]]]. specialize (M2 Sl).
        exists m. split; [reflexivity|]. lia.
      * destruct (IH2 r l ltac:(lia)) as [m [-> [M1 M2]]]. specialize (M2 Sr).
        exists m. split; [reflexivity|]. rewrite (Nat.mul_comm (expand_measure l)). lia.
      * eexists. split; [reflexivity|]. split; [simpl; lia|discriminate].
    + destruct (G CDiv ltac:(lia)) as [e' [-> E]]. exists e'. split; [reflexivity|].
      split; [apply E; discriminate|exact I].
  - intros e x H. pose proof (measure_pos x) as X. cbn [with_factor_f].
    destruct (has_sum e) eqn:S; [|eexists; split; [reflexivity|]; split; [simpl; lia|discriminate]].
    destruct e as [c|i|t|op a|op l r]; try discriminate.
    destruct op; cbn [expand_measure] in H |- *.
    + rewrite !Nat.mul_add_distr_r in *.
      destruct (IH2 l x ltac:(lia)) as [l' [-> [L _]]]. destruct (IH2 r x ltac:(lia)) as [r' [-> [R _]]].
      eexists. split; [reflexivity|]. simpl. lia.
    + rewrite !Nat.mul_add_distr_r in *.
      destruct (IH2 l x ltac:(lia)) as [l' [-> [L _]]]. destruct (IH2 r x ltac:(lia)) as [r' [-> [R _]]].
      eexists. split; [reflexivity|]. simpl. lia.
    + set (m := expand_measure l * expand_measure r) in *.
      assert (M2 : 2 <= m) by (apply (measure_pos (CBin CMult l r))).
      assert (MX : m * 2 <= m * expand_measure x) by (apply Nat.mul_le_mono_l; lia).
      destruct (IH1 (CBin CMult l r)) as [e' [-> [_ E]]].
      { cbn [expand_measure]. fold m. lia. }
      specialize (E S). cbn [expand_measure] in E. fold m in E. cbn [cbind].
      assert (K : (expand_measure e' + 1) * expand_measure x <= m * expand_measure x)
        by (apply mul_le; lia).
      rewrite Nat.mul_add_distr_r in K.
      destruct (IH2 e' x ltac:(lia)) as [y [-> [Y _]]]. exists y. split; [reflexivity|]. lia.
    + rewrite !Nat.mul_add_distr_r in *.
      assert (K : expand_measure r * 2 <= expand_measure r * expand_measure x)
        by (apply Nat.mul_le_mono_l; lia).
      pose proof (measure_pos r) as R.
      destruct (IH2 l x ltac:(lia)) as [l' [-> [L _]]].
      eexists. split; [reflexivity|]. simpl. lia.
Qed.

Lemma expand_more : forall f,
  (forall e e', expand_f f e = Some e' -> forall g, f <= g -> expand_f g e = Some e') /\
  (forall e x e', with_factor_f f e x = Some e' -> forall g, f <= g -> with_factor_f g e x = Some e').
Proof.
  induction f as [|f [IH1 IH2]]; [split; discriminate|].
  assert (B : forall o l r e' g, f <= g ->
    cbind (expand_f f l) (fun l' => cbind (expand_f f r) (fun r' => Some (CBin o l' r'))) = Some e' ->
    cbind (expand_f g l) (fun l' => cbind (expand_f g r) (fun r' => Some (CBin o l' r'))) = Some e').
  { intros o l r e' g G H. apply cbind_some in H as [l' [El H]]. apply cbind_some in H as [r' [Er H]].
    rewrite (IH1 _ _ El g G), (IH1 _ _ Er g G). exact H. }
  split.
  - intros e e' H g G. destruct g as [|g]; [lia|]. assert (G' : f <= g) by lia.
    destruct e as [c|i|t|op a|op l r]; try exact H.
    destruct op; cbn [expand_f] in *; try (apply B; assumption).
    destruct (has_sum l), (has_sum r).
    + apply cbind_some in H as [m [E H]]. rewrite (IH2 _ _ _ E g G'). cbn [cbind]. exact (IH1 _ _ H g G').
    + exact (IH2 _ _ _ H g G').
    + exact (IH2 _ _ _ H g G').
    + exact H.
  - intros e x e' H g G. destruct g as [|g]; [lia|]. assert (G' : f <= g) by lia.
    cbn [with_factor_f] in *. destruct (has_sum e); [|exact H].
    destruct e as [c|i|t|op a|op l r]; try exact H.
    destruct op; repeat (apply cbind_some in H as [? [? H]]);
      repeat match goal with
      | E : expand_f f ?a = Some _ |- _ => rewrite (IH1 _ _ E g G'); clear E
      | E : with_factor_f f ?a ?b = Some _ |- _ => rewrite (IH2 _ _ _ E g G'); clear E
      end; cbn [cbind]; first [exact H|exact (IH2 _ _ _ H g G')|reflexivity].
Qed.

Lemma ct_expand_total : forall e, exists e', ct_expand e = Some e'.
Proof.
  intros e. destruct (proj1 (expand_enough (2 * expand_measure e + 1)) e) as [e' [E _]]; [lia|].
  exists e'. exact E.
Qed.

Lemma ct_expand_fuel : forall e fuel, 2 * expand_measure e + 1 <= fuel ->
  expand_f fuel e = ct_expand e.
Proof.
  intros e fuel H. destruct (ct_expand_total e) as [e' E]. rewrite E.
  exact (proj1 (expand_more _) e e' E fuel H).
Qed.

(** ** Induction over expansions: a predicate [P e e'] for expand and [Q e x e'] for
    expand_with_factor. *)
Section Ind.
Context (P : cexpr -> cexpr -> Prop) (Q : cexpr -> cexpr -> cexpr -> Prop).
Hypothesis P_leaf : forall e, is_bin e = false -> P e e.
Hypothesis P_bin : forall op l r l' r', op <> CMult -> P l l' -> P r r' ->
  P (CBin op l r) (CBin op l' r').
Hypothesis P_keep : forall l r, has_sum l = false -> has_sum r = false ->
  P (CBin CMult l r) (CBin CMult l r).
Hypothesis P_left : forall l r m, has_sum l = true -> has_sum r = false -> Q l r m ->
  P (CBin CMult l r) m.
Hypothesis P_right : forall l r m, has_sum l = false -> has_sum r = true -> Q r l m ->
  P (CBin CMult l r) m.
Hypothesis P_both : forall l r m e, has_sum l = true -> has_sum r = true -> Q l r m -> P m e ->
  P (CBin CMult l r) e.
Hypothesis Q_keep : forall e x, has_sum e = false -> Q e x (CBin CMult e x).
Hypothesis Q_sum : forall op l r x l' r', op = CPlus \/ op = CMinus -> Q l x l' -> Q r x r' ->
  Q (CBin op l r) x (CBin op l' r').
Hypothesis Q_mult : forall l r x e e', P (CBin CMult l r) e -> Q e x e' -> Q (CBin CMult l r) x e'.
Hypothesis Q_div : forall l r x l', Q l x l' -> Q (CBin CDiv l r) x (CBin CDiv l' r).

Lemma expand_ind_f : forall f,
  (forall e e', expand_f f e = Some e' -> P e e') /\
  (forall e x e', with_factor_f f e x = Some e' -> Q e x e').
Proof.
  induction f as [|f [IH1 IH2]]; [split; discriminate|]. split.
  - intros e e' H. destruct e as [c|i|t|op a|op l r];
      try (injection H as <-; apply P_leaf; reflexivity).
    destruct op; cbn [expand_f] in H;
      try (apply cbind_some in H as [l' [El H]]; apply cbind_some in H as [r' [Er H]];
           injection H as <-; apply P_bin; [discriminate|auto|auto]; fail).
    destruct (has_sum l) eqn:Sl, (has_sum r) eqn:Sr.
    + apply cbind_some in H as [m [E H]]. eauto.
    + eauto.
    + eauto.
    + injection H as <-. auto.
  - intros e x e' H. cbn [with_factor_f] in H.
    destruct (has_sum e) eqn:S; [|injection H as <-; auto].
    destruct e as [c|i|t|op a|op l r]; try discriminate.
    destruct op.
    + apply cbind_some in H as [l' [El H]]. apply cbind_some in H as [r' [Er H]].
      injection H as <-. apply Q_sum; auto.
    + apply cbind_some in H as [l' [El H]]. apply cbind_some in H as [r' [Er H]].
      injection H as <-. apply Q_sum; auto.
    + apply cbind_some in H as [m [E H]]. eauto.
    + apply cbind_some in H as [l' [El H]]. injection H as <-. auto.
Qed.

Lemma expand_ind : forall e e', ct_expand e = Some e' -> P e e'.
Proof. intros e e'. apply (proj1 (expand_ind_f _)). Qed.
End Ind.

(** ** Value *)

Lemma expand_value : forall rho phi un e e', ct_expand e = Some e' ->
  cval rho phi un e' = cval rho phi un e.
Proof.
  intros rho phi un.
  apply (expand_ind (fun e e' => cval rho phi un e' = cval rho phi un e)
           (fun e x e' => cval rho phi un e' = cval rho phi un (CBin CMult e x))).
  - reflexivity.
  - intros op l r l' r' _ E1 E2. cbn [cval]. rewrite E1, E2. reflexivity.
  - reflexivity.
  - intros l r m _ _ E. exact E.
  - intros l r m _ _ E. rewrite E. cbn [cval].
    destruct (cval rho phi un l), (cval rho phi un r); try reflexivity. cbn [op_val].
    f_equal. ring.
  - intros l r m e _ _ E1 E2. rewrite E2. exact E1.
  - reflexivity.
  - intros op l r x l' r' O E1 E2. cbn [cval] in *. rewrite E1, E2.
    destruct (cval rho phi un l), (cval rho phi un r), (cval rho phi un x); try reflexivity;
      destruct O as [-> | ->]; cbn [op_val]; try reflexivity; f_equal; ring.
  - intros l r x e e' E1 E2. rewrite E2. cbn [cval] in *. rewrite E1. reflexivity.
  - intros l r x l' E. cbn [cval] in *. rewrite E.
    destruct (cval rho phi un l) as [a|], (cval rho phi un r) as [b|], (cval rho phi un x) as [c|];
      try reflexivity; cbn [op_val]; destruct (Req_EM_T b 0); try reflexivity.
    f_equal. field. assumption.
Qed.

(** ** Shape *)

Lemma has_sum_free : forall e, has_sum e = false <-> sum_free e.
Proof.
  induction e as [c|i|t|op a IH|op l IHl r IHr]; simpl; try tauto.
  destruct op; try (split; [discriminate|contradiction]).
  - rewrite orb_false_iff. tauto.
  - exact IHl.
Qed.

Lemma expand_expanded : forall e e', ct_expand e = Some e' -> expanded e'.
Proof.
  apply (expand_ind (fun e e' => expanded e') (fun e x e' => has_sum x = false -> expanded e')).
  - intros [c|i|t|op a|op l r]; simpl; try tauto. discriminate.
  - intros op l r l' r' N E1 E2. destruct op; simpl; tauto.
  - intros l r Sl Sr. simpl. split; apply has_sum_free; assumption.
  - auto.
  - auto.
  - auto.
  - intros e x Se Sx. simpl. split; apply has_sum_free; assumption.
  - intros op l r x l' r' [-> | ->] E1 E2 S; simpl; auto.
  - auto.
  - intros l r x l' E S. simpl. auto.
Qed.

(** ** Variables and degree *)

Lemma expand_occurs : forall i e e', ct_expand e = Some e' -> (occurs i e' <-> occurs i e).
Proof.
  intros i.
  apply (expand_ind (fun e e' => occurs i e' <-> occurs i e)
           (fun e x e' => occurs i e' <-> occurs i e \/ occurs i x));
    intros; cbn [occurs] in *; tauto.
Qed.

Lemma poly_sum_inv : forall i op a b d, op = CPlus \/ op = CMinus ->
  polynomial i (CBin op a b) d -> polynomial i a d /\ polynomial i b d.
Proof.
  intros i op a b d O H. remember (CBin op a b) as e eqn:E. revert E.
  induction H; intros E; try discriminate; subst.
  - simpl in H. split; apply p_free; tauto.
  - injection E as <- <- <-. auto.
  - injection E as <- <- <-. auto.
  - injection E as <- _ _. destruct O; discriminate.
  - injection E as <- _ _. destruct O; discriminate.
  - destruct (IHpolynomial eq_refl) as [A B]. split; eapply p_more; eauto.
Qed.

Lemma poly_mult_inv : forall i a b d, polynomial i (CBin CMult a b) d ->
  exists c e, polynomial i a c /\ polynomial i b e /\ c + e <= d.
Proof.
  intros i a b d H. remember (CBin CMult a b) as x eqn:E. revert E.
  induction H; intros E; try discriminate; subst.
  - simpl in H. exists 0, 0. repeat split; try (apply p_free; tauto). lia.
  - injection E as <- <-. eauto.
  - destruct (IHpolynomial eq_refl) as [p [q [A [B L]]]]. exists p, q. repeat split; auto. lia.
Qed.

Lemma poly_div_inv : forall i a b d, polynomial i (CBin CDiv a b) d ->
  polynomial i a d /\ ~ occurs i b.
Proof.
  intros i a b d H. remember (CBin CDiv a b) as x eqn:E. revert E.
  induction H; intros E; try discriminate; subst.
  - simpl in H. split; [apply p_free|]; tauto.
  - injection E as <- <-. auto.
  - destruct (IHpolynomial eq_refl) as [A B]. split; [eapply p_more; eauto|exact B].
Qed.

Lemma poly_un_inv : forall i op a d, polynomial i (CUn op a) d -> ~ occurs i a.
Proof.
  intros i op a d H. remember (CUn op a) as x eqn:E. revert E.
  induction H; intros E; try discriminate; subst; auto.
Qed.

Lemma poly_zero : forall i e d, polynomial i e d -> d = 0 -> ~ occurs i e.
Proof.
  intros i e d H. induction H; intros D; simpl; try tauto; try lia.
  - assert (c = 0) by lia. assert (d = 0) by lia. tauto.
  - apply IHpolynomial. lia.
Qed.

Lemma poly_free : forall i e d, ~ occurs i e -> polynomial i e d.
Proof. intros i e d H. apply (p_more i e 0 d); [apply p_free; exact H|lia]. Qed.

Lemma expand_polynomial : forall i e e', ct_expand e = Some e' ->
  forall d, polynomial i e d -> polynomial i e' d.
Proof.
  intros i.
  assert (K : forall e e', ct_expand e = Some e' ->
    (forall d, polynomial i e d -> polynomial i e' d) /\ (occurs i e' <-> occurs i e)).
  2: { intros e e' H. exact (proj1 (K e e' H)). }
  apply (expand_ind
    (fun e e' => (forall d, polynomial i e d -> polynomial i e' d) /\ (occurs i e' <-> occurs i e))
    (fun e x e' => (forall a b, polynomial i e a -> polynomial i x b -> polynomial i e' (a + b)) /\
                   (occurs i e' <-> occurs i e \/ occurs i x))).
  - tauto.
  - intros op l r l' r' N [L1 L2] [R1 R2]. split; [|simpl; tauto]. intros d H. destruct op.
    + apply poly_sum_inv in H as [A B]; [|auto]. apply p_plus; auto.
    + apply poly_sum_inv in H as [A B]; [|auto]. apply p_minus; auto.
    + contradiction.
    + apply poly_div_inv in H as [A B]. apply p_div; [auto|tauto].
  - tauto.
  - intros l r m _ _ [M1 M2]. split; [|simpl; tauto]. intros d H.
    apply poly_mult_inv in H as [a [b [A [B L]]]]. apply (p_more i m (a + b)); auto.
  - intros l r m _ _ [M1 M2]. split; [|simpl; tauto]. intros d H.
    apply poly_mult_inv in H as [a [b [A [B L]]]]. apply (p_more i m (b + a)); [auto|lia].
  - intros l r m e _ _ [M1 M2] [E1 E2]. split; [|simpl; tauto]. intros d H.
    apply poly_mult_inv in H as [a [b [A [B L]]]]. apply E1. apply (p_more i m (a + b)); auto.
  - intros e x _. split; [|simpl; tauto]. intros a b. apply p_mult.
  - intros op l r x l' r' O [L1 L2] [R1 R2]. split; [|simpl; tauto]. intros a b A B.
    apply poly_sum_inv in A as [A1 A2]; [|exact O].
    destruct O as [-> | ->]; [apply p_plus|apply p_minus]; auto.
  - intros l r x e e' [E1 E2] [X1 X2]. split; [|simpl in *; tauto]. auto.
  - intros l r x l' [L1 L2]. split; [|simpl; tauto]. intros a b A B.
    apply poly_div_inv in A as [A1 A2]. apply p_div; auto.
Qed.
