(** Lemmas for C80 (size of compile-time types). *)
From Coq Require Import ZArith NArith List Bool Lia.
From Verif Require Import RtModel CtModel CtSpec CtGcd CtFacts CtManipModel CtManipSpec CtManipFacts CtExpand CtIntegrate CtGrowSpec.
Import ListNotations.
Local Open Scope nat_scope.

Lemma cnodes_pos : forall e, 1 <= cnodes e.
Proof. intros []; simpl; lia. Qed.
Lemma cheight_pos : forall e, 1 <= cheight e.
Proof. intros []; simpl; lia. Qed.

Lemma csize_cnodes : forall e, csize e < 2 * cnodes e.
Proof.
  induction e as [c|i|t|op a IH|op l IHl r IHr]; simpl; try lia.
  destruct op; lia.
Qed.

(** ** simplify *)

Lemma rules_nodes : forall n x, In x rules -> forall l r,
  matches (r_l x) l = true -> matches (r_r x) r = true -> forall v e',
  r_act x n l r = Some (v, e') -> cnodes e' <= cnodes (CBin (r_op x) l r).
Proof.
  intros n. over_rules;  intros l r Ml Mr v e' H; cbn [r_act r_op r_l r_r] in *;
    pose proof (cnodes_pos l); pose proof (cnodes_pos r);
    minv; cbn [rhs num den] in H;
    try (apply rational_shape in H as [p [q H]]; injection H as -> ->; simpl; lia);
    try discriminate;
    repeat (apply cbind_some in H as [? [_ H]]);
    injection H as <- <-; cbn [cnodes] in *; simpl; lia.
Qed.

Lemma impl_nodes : forall n e v e', simplify_impl n e = Some (v, e') -> cnodes e' <= cnodes e.
Proof.
  intros n. induction e as [c|i|t|op a IH|op l IHl r IHr]; intros v e' H;
    [ injection H as <- <-; simpl; lia .. | ].
  rewrite impl_bin in H. destruct (choose op l r) as [|x|] eqn:C; [| |discriminate].
  - apply cbind_some in H as [[vl l'] [Hl H]]. apply cbind_some in H as [[vr r'] [Hr H]].
    injection H as <- <-. apply IHl in Hl. apply IHr in Hr. simpl. lia.
  - apply choose_in in C as [C1 C2]. apply applicable_inv in C2 as [<- [Ml Mr]].
    exact (rules_nodes n x C1 l r Ml Mr v e' H).
Qed.

Lemma simplify_nodes : forall n e e', ct_simplify n e = Some e' -> cnodes e' <= cnodes e.
Proof.
  intros n. apply (simplify_ind_run n (fun e e' => cnodes e' <= cnodes e)).
  - intros. lia.
  - intros e e' r H _ K. apply impl_nodes in H. lia.
Qed.

(** ** expand *)

Lemma terms_pos : forall e, 1 <= terms e.
Proof.
  induction e as [c|i|t|op a IH|op l IHl r IHr]; simpl; try lia. destruct op; try lia; nia.
Qed.

Lemma sum_free_terms : forall e, has_sum e = false -> terms e = 1.
Proof.
  induction e as [c|i|t|op a IH|op l IHl r IHr]; simpl; try reflexivity.
  destruct op; try discriminate; intros H.
  - apply orb_false_iff in H as [A B]. rewrite IHl, IHr by assumption. reflexivity.
  - auto.
Qed.

Lemma expanded_terms : forall e, expanded e -> summands e = terms e.
Proof.
  induction e as [c|i|t|op a IH|op l IHl r IHr]; simpl; try reflexivity.
  destruct op; intros H.
  - destruct H. rewrite IHl, IHr by assumption. reflexivity.
  - destruct H. rewrite IHl, IHr by assumption. reflexivity.
  - destruct H as [A B]. apply has_sum_free in A. apply has_sum_free in B.
    rewrite !sum_free_terms by assumption. reflexivity.
  - auto.
Qed.

Lemma expand_terms : forall e e', ct_expand e = Some e' -> terms e' = terms e.
Proof.
  apply (expand_ind (fun e e' => terms e' = terms e) (fun e x e' => terms e' = terms e * terms x)).
  - reflexivity.
  - intros op l r l' r' N A B. destruct op; simpl; congruence.
  - reflexivity.
  - intros l r m _ _ H. exact H.
  - intros l r m _ _ H. simpl. lia.
  - intros l r m e _ _ A B. simpl in *. congruence.
  - reflexivity.
  - intros op l r x l' r' [-> | ->] A B; simpl; lia.
  - intros l r x e e' A B. simpl in *. congruence.
  - intros l r x l' A. simpl. exact A.
Qed.

Lemma mo_nodes : forall e, cnodes e < multiplied_out e.
Proof.
  induction e as [c|i|t|op a IH|op l IHl r IHr]; simpl; try lia.
  pose proof (cnodes_pos l). pose proof (cnodes_pos r). destruct op; try lia; nia.
Qed.

Lemma expand_mo : forall e e', ct_expand e = Some e' -> multiplied_out e' <= multiplied_out e.
Proof.
  apply (expand_ind (fun e e' => multiplied_out e' <= multiplied_out e)
           (fun e x e' => multiplied_out e' <= multiplied_out e * multiplied_out x)).
  - lia.
  - intros op l r l' r' N A B. destruct op; simpl; try lia. contradiction.
  - lia.
  - intros l r m _ _ H. exact H.
  - intros l r m _ _ H. simpl. lia.
  - intros l r m e _ _ A B. simpl in *. lia.
  - simpl. lia.
  - intros op l r x l' r' [-> | ->] A B; simpl; pose proof (mo_nodes x); pose proof (cnodes_pos x); nia.
  - intros l r x e e' A B. simpl in *. etransitivity; [exact B|]. now apply Nat.mul_le_mono_r.
  - intros l r x l' A. simpl. pose proof (mo_nodes x); pose proof (cnodes_pos x). nia.
Qed.

Lemma expand_nodes : forall e e', ct_expand e = Some e' -> cnodes e' < multiplied_out e.
Proof. intros e e' H. pose proof (mo_nodes e'). pose proof (expand_mo e e' H). lia. Qed.

Lemma mo_pow : forall e, multiplied_out e <= 2 ^ cnodes e.
Proof.
  induction e as [c|i|t|op a IH|op l IHl r IHr]; try (simpl; lia).
  - cbn [multiplied_out]. pose proof (Nat.pow_gt_lin_r 2 (cnodes (CUn op a)) ltac:(lia)). lia.
  - cbn [multiplied_out cnodes]. rewrite Nat.pow_succ_r', Nat.pow_add_r.
    assert (2 <= 2 ^ cnodes l) by (change 2 with (2 ^ 1) at 1; apply Nat.pow_le_mono_r; [lia|apply cnodes_pos]).
    assert (2 <= 2 ^ cnodes r) by (change 2 with (2 ^ 1) at 1; apply Nat.pow_le_mono_r; [lia|apply cnodes_pos]).
    set (p := 2 ^ cnodes l) in *. set (q := 2 ^ cnodes r) in *. destruct op; nia.
Qed.

Lemma pos_nodes : forall k, cnodes (power_of_sum k) = 4 * k + 3.
Proof. induction k as [|k IH]; [reflexivity|]. cbn [power_of_sum cnodes]. rewrite IH. lia. Qed.
Lemma pos_terms : forall k, terms (power_of_sum k) = 2 ^ S k.
Proof. induction k as [|k IH]; [reflexivity|]. cbn [power_of_sum terms]. rewrite IH, (Nat.pow_succ_r' 2 (S k)). lia. Qed.

Lemma summands_nodes : forall e, summands e <= cnodes e.
Proof.
  induction e as [c|i|t|op a IH|op l IHl r IHr]; simpl; try lia. destruct op; lia.
Qed.

(** ** diff, substitute *)

Lemma ct_diff_size : forall i e d, ct_diff i e = Some d ->
  cnodes d <= 3 * cnodes e * cheight e /\ cheight d <= 3 * cheight e.
Proof.
  intros i. induction e as [c|j|t|op a IH|op l IHl r IHr]; intros d D; try discriminate.
  - injection D as <-. simpl. lia.
  - injection D as <-. simpl. destruct (N.eqb j i); simpl; lia.
  - cbn [ct_diff] in D. apply cbind_some in D as [dl [El D]]. apply cbind_some in D as [dr [Er D]]. injection D as <-.
    destruct (IHl dl El) as [N1 H1]. destruct (IHr dr Er) as [N2 H2].
    pose proof (cnodes_pos l). pose proof (cheight_pos l). pose proof (cnodes_pos r). pose proof (cheight_pos r).
    cbn [cnodes cheight]. set (m := Nat.max (cheight l) (cheight r)) in *.
    assert (cnodes dl <= 3 * cnodes l * m) by nia. assert (cnodes dr <= 3 * cnodes r * m) by nia.
    destruct op; cbn [cnodes cheight]; (split; [nia|lia]).
Qed.

Lemma ct_subst_var_nodes : forall i r e,
  cnodes (ct_subst (CVar i) r e) + c_occurrences i e = cnodes e + c_occurrences i e * cnodes r.
Proof.
  intros i r. induction e as [c|j|t|op a IH|op l IHl r' IHr]; try (simpl; lia).
  simpl. rewrite N.eqb_sym. destruct (N.eqb j i); simpl; lia.
Qed.

Lemma ct_subst_nodes : forall s r e M, 1 <= M -> cnodes r <= M -> cnodes (ct_subst s r e) <= cnodes e * M.
Proof.
  intros s r e M P L. induction e as [c|j|t|op a IH|op l IHl r' IHr]; cbn [ct_subst];
    (destruct (cexpr_eqb s _); [cbn [cnodes]; nia|]); cbn [cnodes]; nia.
Qed.

Lemma ct_subst_const_nodes : forall s c e, cnodes (ct_subst s (CConst c) e) <= cnodes e.
Proof. intros s c e. rewrite <- (Nat.mul_1_r (cnodes e)). now apply ct_subst_nodes. Qed.

(** ** coefficient, drop_dependent_terms *)

Lemma coefficient_nodes : forall x e c, coefficient_impl x e = Some c -> cnodes c <= cnodes e.
Proof.
  intros x. induction e as [c0|j|t|op a IH|op l IHl r IHr]; intros c H; cbn [coefficient_impl] in H;
    (destruct (cexpr_eqb x _) eqn:E0; [destruct (is_bin _); [discriminate|]; injection H as <-; simpl; lia|]);
    try (injection H as <-; simpl; lia).
  destruct op.
  - apply cbind_some in H as [a [A H]]. apply cbind_some in H as [b [B H]]. injection H as <-. apply IHl in A. apply IHr in B. simpl; lia.
  - apply cbind_some in H as [a [A H]]. apply cbind_some in H as [b [B H]]. injection H as <-. apply IHl in A. apply IHr in B. simpl; lia.
  - destruct (cexpr_eqb x l) eqn:El, (cexpr_eqb x r) eqn:Er.
    + injection H as <-. apply cexpr_eqb_eq in El. subst l. simpl. lia.
    + injection H as <-. simpl. lia.
    + injection H as <-. simpl. lia.
    + apply cbind_some in H as [a [_ H]]. apply cbind_some in H as [b [_ H]].
      destruct (negb (a =? 0)%Z); [|destruct (negb (b =? 0)%Z)].
      * apply cbind_some in H as [d [D H]]. injection H as <-. apply IHl in D. simpl. lia.
      * apply cbind_some in H as [d [D H]]. injection H as <-. apply IHr in D. simpl. lia.
      * injection H as <-. simpl. lia.
  - apply cbind_some in H as [d [D H]]. injection H as <-. apply IHl in D. simpl. lia.
Qed.

(** ** pow *)

Lemma pow_size : forall t f k p, (1 <= k)%Z -> pow_f f t k = Some p ->
  cnodes p + 1 = Z.to_nat k * (cnodes t + 1) /\ cheight p = cheight t + Z.to_nat (Z.log2_up k).
Proof.
  intros t. induction f as [|f IH]; intros k p K H; [discriminate|]. cbn [pow_f] in H.
  destruct (Z.eqb_spec k 0); [lia|]. destruct (Z.eqb_spec k 1) as [->|].
  { injection H as <-. simpl. lia. }
  destruct (Z.eqb_spec k 2) as [->|].
  { injection H as <-. simpl. lia. }
  apply cbind_some in H as [a [A H]]. apply cbind_some in H as [b [B H]]. injection H as <-.
  rewrite Z.quot_div_nonneg in * by lia.
  pose proof (Z.div_mod k 2 ltac:(lia)) as DM. pose proof (Z.mod_pos_bound k 2 ltac:(lia)) as MB.
  set (q := (k / 2)%Z) in *.
  apply IH in A; [|lia]. apply IH in B; [|lia]. destruct A as [A1 A2], B as [B1 B2].
  cbn [cnodes cheight]. split.
  - replace (Z.to_nat k) with (Z.to_nat q + Z.to_nat (k - q)) by lia. nia.
  - assert (Q : Z.log2_up k = (Z.log2_up (k - q) + 1)%Z).
    { destruct (Z.eq_dec (k mod 2) 0) as [E|E].
      - replace (k - q)%Z with q by lia. replace k with (2 * q)%Z at 1 by lia. rewrite Z.log2_up_double by lia. lia.
      - assert (k = 2 * q + 1)%Z by lia. replace (k - q)%Z with (q + 1)%Z by lia.
        replace (Z.log2_up (q + 1) + 1)%Z with (Z.log2_up (2 * (q + 1)))%Z by (rewrite Z.log2_up_double; lia).
        apply Z.le_antisymm; [apply Z.log2_up_le_mono; lia|].
        apply Z.log2_up_le_pow2; [lia|].
        pose proof (Z.log2_up_spec k ltac:(lia)) as [_ S]. pose proof (Z.log2_up_pos k ltac:(lia)).
        replace (Z.log2_up k) with (1 + (Z.log2_up k - 1))%Z in * by lia. rewrite Z.pow_add_r in * by lia. lia. }
    assert (Z.log2_up q <= Z.log2_up (k - q))%Z by (apply Z.log2_up_le_mono; lia).
    pose proof (Z.log2_up_nonneg q). pose proof (Z.log2_up_nonneg (k - q)). rewrite Q, A2, B2. lia.
Qed.

(** ** integrate *)

Lemma degree_nodes : forall x e k, polynomial_degree x e = Some k -> (Z.abs k <= Z.of_nat (cnodes e))%Z.
Proof.
  intros x. induction e as [c|j|t|op a IH|op l IHl r IHr]; intros k H; cbn [polynomial_degree] in H;
    (destruct (cexpr_eqb x _); [destruct (is_bin _); [discriminate|]; injection H as <-; simpl; lia|]);
    try (injection H as <-; simpl; lia).
  destruct op; try discriminate;
    (apply cbind_some in H as [a [A H]]; apply cbind_some in H as [b [B H]]; injection H as <-;
     apply IHl in A; apply IHr in B; cbn [cnodes]; lia).
Qed.

Lemma monomial_nodes : forall t k p, integrate_monomial t k = Some p -> forall N, (Z.abs k <= Z.of_nat N)%Z ->
  cnodes p <= (N + 1) * (cnodes t + 1) + 2.
Proof.
  intros t k p H N B. unfold integrate_monomial in H. destruct (Z.eqb_spec k 0).
  - injection H as <-. nia.
  - apply cbind_some in H as [q [Q H]]. injection H as <-. cbn [cnodes]. unfold ct_pow in Q.
    destruct (Z_lt_le_dec (k + 1) 1) as [L|L].
    + cbn [pow_f] in Q. destruct (Z.eqb_spec (k + 1) 0) as [E|E]; [injection Q as <-; simpl; nia|].
      destruct (Z.eqb_spec (k + 1) 1); [lia|]. destruct (Z.eqb_spec (k + 1) 2); [lia|].
      replace (Z.to_nat (k + 1)) with 0 in Q by lia. discriminate.
    + destruct (pow_size t _ _ _ L Q) as [P _]. assert (Z.to_nat (k + 1) <= N + 1) by lia. nia.
Qed.

Lemma integrate_impl_nodes : forall n lo up x e r, integrate_impl n lo up x e = Some r ->
  cnodes r <= cnodes e * (2 * cnodes up + 2 * cnodes lo + 14).
Proof.
  intros n lo up x. pose proof (cnodes_pos lo). pose proof (cnodes_pos up).
  induction e as [c|j|t|op a IH|op l IHl r' IHr]; intros r H1; try discriminate.
  - rewrite integrate_const in H1. apply simplify_nodes in H1. cbn [cnodes] in *. lia.
  - rewrite integrate_var in H1. apply simplify_nodes in H1. cbn [cnodes] in *. lia.
  - assert (SUM : op = CPlus \/ op = CMinus ->
      cnodes r <= cnodes (CBin op l r') * (2 * cnodes up + 2 * cnodes lo + 14)).
    { intros O. rewrite (integrate_sum n lo up x op l r' O) in H1.
      apply cbind_some in H1 as [a [A H1]]. apply cbind_some in H1 as [b [B H1]]. apply simplify_nodes in H1.
      apply IHl in A. apply IHr in B. cbn [cnodes] in *. nia. }
    destruct op; [auto|auto| |]; clear SUM.
    + rewrite integrate_mult in H1. remember (CBin CMult l r') as e eqn:E.
      apply cbind_some in H1 as [c [C H1]]. apply cbind_some in H1 as [k [K H1]]. apply cbind_some in H1 as [a [A H1]].
      apply cbind_some in H1 as [b [B H1]]. apply cbind_some in H1 as [p [P H1]]. apply cbind_some in H1 as [q [Q H1]].
      apply simplify_nodes in C, P, Q, H1. pose proof (ct_subst_const_nodes x 1 e). apply degree_nodes in K.
      pose proof (monomial_nodes _ _ _ A _ K). pose proof (monomial_nodes _ _ _ B _ K).
      assert (3 <= cnodes e) by (subst e; cbn [cnodes]; pose proof (cnodes_pos l); pose proof (cnodes_pos r'); lia).
      clear E IHl IHr K A B. cbn [cnodes] in *. nia.
    + rewrite integrate_div in H1.
      apply cbind_some in H1 as [a [A H1]]. apply simplify_nodes in H1. apply IHl in A. cbn [cnodes] in *. nia.
Qed.

Lemma integrate_eq : forall n lo up x e, ct_integrate n lo up x e =
  match e with
  | CBin _ _ _ =>
      cbind (ct_expand e) (fun e' =>
      cbind (ct_simplify n e') (fun s => integrate_impl n lo up x s))
  | CConst _ | CVar _ => integrate_impl n lo up x e
  | CFun _ | CUn _ _ => None
  end.
Proof. reflexivity. Qed.

Lemma integrate_leaf : forall n lo up x e, (forall op l r, e <> CBin op l r) -> forall r,
  ct_integrate n lo up x e = Some r -> integrate_impl n lo up x e = Some r.
Proof.
  intros n lo up x e L r H. rewrite integrate_eq in H.
  destruct e as [c|j|t|op a|op l r']; [exact H|exact H|discriminate|discriminate|destruct (L op l r' eq_refl)].
Qed.

Lemma integrate_nodes : forall n lo up x e r, ct_integrate n lo up x e = Some r ->
  cnodes r <= multiplied_out e * (2 * cnodes up + 2 * cnodes lo + 14).
Proof.
  intros n lo up x e r H. pose proof (mo_nodes e) as M.
  assert (D : (forall op l r, e <> CBin op l r) \/ exists op l r, e = CBin op l r)
    by (destruct e; [left; discriminate|left; discriminate|left; discriminate|left; discriminate|right; eauto]).
  destruct D as [D|[op [l [r' E0]]]].
  - apply (integrate_leaf n lo up x e D) in H. apply integrate_impl_nodes in H. nia.
  - rewrite E0, ct_integrate_bin, <- E0 in H. clear E0.
    apply cbind_some in H as [e' [E H]]. apply cbind_some in H as [s [S H]]. apply integrate_impl_nodes in H.
    apply simplify_nodes in S. apply expand_nodes in E. nia.
Qed.

Lemma passes_enough : forall n e, simplify_loop n (2 * cnodes e) e = Some (ct_simplify n e).
Proof.
  intros n e. pose proof (csize_cnodes e) as L. unfold ct_simplify.
  destruct (loop_total n (S (csize e)) e ltac:(lia)) as [o E]. rewrite E.
  apply (loop_more _ _ _ _ E). lia.
Qed.

Lemma coefficient_size : forall x e e' c, ct_expand e = Some e' -> coefficient x e = Some c -> cnodes c <= cnodes e'.
Proof.
  intros x e e' c E H. unfold coefficient in H. rewrite E in H. exact (coefficient_nodes x e' c H).
Qed.

Lemma drop_size : forall n x e e' c, ct_expand e = Some e' -> drop_dependent_terms n x e = Some c -> cnodes c <= cnodes e'.
Proof.
  intros n x e e' c E H. unfold drop_dependent_terms in H. apply cbind_some in H as [e'' [E' H]].
  rewrite E in E'. injection E' as <-. apply simplify_nodes in H.
  pose proof (ct_subst_const_nodes x 0 e'). lia.
Qed.

(** Exponentials beat polynomials. *)
Lemma pow_beats' : forall p, exists k, (4 * k + 3) ^ p + p < 2 ^ S k.
Proof.
  intros p. pose (m := 4 * p + 4). pose (j := 2 * m). exists (2 ^ j).
  assert (A : (j + 3) * p + 1 <= 2 ^ j).
  { assert (m + 1 <= 2 ^ m) by (pose proof (Nat.pow_gt_lin_r 2 m); lia).
    replace (2 ^ j) with (2 ^ m * 2 ^ m) by (subst j; rewrite <- Nat.pow_add_r; f_equal; lia). subst j m. nia. }
  assert (B : (4 * 2 ^ j + 3) ^ p <= 2 ^ ((j + 3) * p)).
  { rewrite Nat.pow_mul_r. apply Nat.pow_le_mono_l. rewrite Nat.pow_add_r. pose proof (Nat.pow_nonzero 2 j). simpl (2 ^ 3). lia. }
  assert (C : p <= 2 ^ ((j + 3) * p)).
  { destruct p; [lia|]. apply Nat.lt_le_incl. eapply Nat.lt_le_trans; [apply (Nat.pow_gt_lin_r 2); lia|]. apply Nat.pow_le_mono_r; nia. }
  assert (D : 2 ^ ((j + 3) * p + 1) <= 2 ^ (2 ^ j)) by (apply Nat.pow_le_mono_r; lia).
  rewrite Nat.pow_add_r in D. simpl (2 ^ 1) in D. rewrite Nat.pow_succ_r'.
  pose proof (Nat.pow_nonzero 2 (2 ^ j)). lia.
Qed.
