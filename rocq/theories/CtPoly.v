(** Lemmas about compile-time coefficients, dropping of terms and evaluation. *)
From Coq Require Import ZArith NArith List Bool Reals Lia Lra.
From Verif Require Import Outcome Num RtModel RtSpec RtFacts NumR CtModel CtSpec CtGcd CtFacts
  CtOpsModel CtOpsFacts CtManipModel CtManipSpec CtManipFacts CtExpand.
Import ListNotations.

(** ** Simplification introduces no variables and keeps polynomials *)

Lemma rules_occurs : forall n i x, In x rules -> forall l r,
  matches (r_l x) l = true -> matches (r_r x) r = true -> forall v e',
  r_act x n l r = Some (v, e') -> occurs i e' -> occurs i (CBin (r_op x) l r).
Proof.
  intros n i. over_rules; intros l r Ml Mr v e' H O; cbn [r_act r_op r_l r_r] in *;
    minv; cbn [rhs num den] in H;
    try (apply rational_shape in H as [p [q H]]; injection H as -> ->; simpl in O; tauto);
    try discriminate;
    repeat (apply cbind_some in H as [? [_ H]]);
    injection H as <- <-; cbn [occurs] in *; tauto.
Qed.

Lemma impl_occurs : forall n i e v e', simplify_impl n e = Some (v, e') -> occurs i e' -> occurs i e.
Proof.
  intros n i. induction e as [c|j|t|op a IH|op l IHl r IHr]; intros v e' H O;
    [ injection H as <- <-; exact O .. | ].
  rewrite impl_bin in H. destruct (choose op l r) as [|x|] eqn:C; [| |discriminate].
  - apply cbind_some in H as [[vl l'] [Hl H]]. apply cbind_some in H as [[vr r'] [Hr H]].
    injection H as <- <-. cbn [occurs] in *. destruct O as [O|O]; eauto.
  - apply choose_in in C as [C1 C2]. apply applicable_inv in C2 as [<- [Ml Mr]].
    exact (rules_occurs n i x C1 l r Ml Mr v e' H O).
Qed.

Lemma simplify_occurs : forall n i e r, ct_simplify n e = Some r -> occurs i r -> occurs i e.
Proof.
  intros n i. apply (simplify_ind_run n (fun e r => occurs i r -> occurs i e)).
  - auto.
  - intros e e' r E _ IH O. exact (impl_occurs _ _ _ _ _ E (IH O)).
Qed.

Ltac pinv :=
  repeat match goal with
  | H : polynomial _ (CBin CPlus _ _) _ |- _ => apply poly_sum_inv in H as [? ?]; [|tauto]
  | H : polynomial _ (CBin CMinus _ _) _ |- _ => apply poly_sum_inv in H as [? ?]; [|tauto]
  | H : polynomial _ (CBin CDiv _ _) _ |- _ => apply poly_div_inv in H as [? ?]
  | H : polynomial _ (CBin CMult _ _) _ |- _ => apply poly_mult_inv in H as [? [? [? [? ?]]]]
  | H : polynomial _ (CConst _) _ |- _ => clear H
  end.

Ltac pmore := match goal with H : polynomial ?i ?e _ |- polynomial ?i ?e _ =>
  apply (p_more _ _ _ _ H); lia end.

Lemma rules_poly : forall n i x, In x rules -> forall l r,
  matches (r_l x) l = true -> matches (r_r x) r = true -> forall v e' d,
  r_act x n l r = Some (v, e') -> polynomial i (CBin (r_op x) l r) d -> polynomial i e' d.
Proof.
  intros n i. over_rules; intros l r Ml Mr v e' d H P; cbn [r_act r_op r_l r_r] in *;
    minv; cbn [rhs num den] in H;
    try (apply rational_shape in H as [p [q H]]; injection H as -> ->; apply poly_free;
         simpl; tauto);
    try discriminate;
    repeat (apply cbind_some in H as [? [_ H]]);
    injection H as <- <-; pinv; cbn [occurs] in *;
    first [ apply poly_free; cbn [occurs]; tauto
          | pmore
          | apply p_minus; pmore
          | apply p_plus; pmore
          | apply p_div; [pmore|tauto]
          | apply (p_mult i _ _ 0 d); [apply p_free; simpl; tauto|apply p_plus; pmore] ].
Qed.

Lemma impl_poly : forall n i e v e' d, simplify_impl n e = Some (v, e') -> polynomial i e d ->
  polynomial i e' d.
Proof.
  intros n i. induction e as [c|j|t|op a IH|op l IHl r IHr]; intros v e' d H P;
    [ injection H as <- <-; exact P .. | ].
  rewrite impl_bin in H. destruct (choose op l r) as [|x|] eqn:C; [| |discriminate].
  - apply cbind_some in H as [[vl l'] [Hl H]]. apply cbind_some in H as [[vr r'] [Hr H]].
    injection H as <- <-. destruct op.
    + apply poly_sum_inv in P as [A B]; [|auto]. apply p_plus; eauto.
    + apply poly_sum_inv in P as [A B]; [|auto]. apply p_minus; eauto.
    + apply poly_mult_inv in P as [a [b [A [B L]]]]. apply (p_more i _ (a + b)); [|exact L].
      apply p_mult; eauto.
    + apply poly_div_inv in P as [A B]. apply p_div; [eauto|].
      intros O. apply B. exact (impl_occurs _ _ _ _ _ Hr O).
  - apply choose_in in C as [C1 C2]. apply applicable_inv in C2 as [<- [Ml Mr]].
    exact (rules_poly n i x C1 l r Ml Mr v e' d H P).
Qed.

Lemma simplify_poly : forall n i e r, ct_simplify n e = Some r ->
  forall d, polynomial i e d -> polynomial i r d.
Proof.
  intros n i. apply (simplify_ind_run n (fun e r => forall d, polynomial i e d -> polynomial i r d)).
  - auto.
  - intros e e' r E _ IH d P. apply IH. exact (impl_poly _ _ _ _ _ _ E P).
Qed.

(** ** Coefficients *)

Lemma sum_free_expanded : forall e, sum_free e -> expanded e.
Proof.
  induction e as [c|i|t|op a IH|op l IHl r IHr]; simpl; try tauto. destruct op; tauto.
Qed.

Lemma has_factor_poly : forall i e d, sum_free e -> polynomial i e d ->
  exists a, has_factor (CVar i) e = Some a /\ (0 <= a)%Z /\ (a = 0%Z <-> ~ occurs i e).
Proof.
  intros i. induction e as [c|j|t|op a IH|op l IHl r IHr]; intros d S P; cbn [has_factor cexpr_eqb].
  - exists 0%Z. simpl. intuition lia.
  - destruct (N.eqb_spec i j) as [->|N].
    + exists 1%Z. simpl. intuition lia.
    + exists 0%Z. simpl. intuition (try lia; try congruence).
  - exists 0%Z. simpl. intuition lia.
  - exists 0%Z. apply poly_un_inv in P. simpl. intuition lia.
  - destruct op; cbn [sum_free occurs] in *; try contradiction.
    + destruct S as [S1 S2]. apply poly_mult_inv in P as [p [q [P1 [P2 _]]]].
      destruct (IHl p S1 P1) as [a [-> [A1 A2]]]. destruct (IHr q S2 P2) as [b [-> [B1 B2]]].
      exists (a + b)%Z. split; [reflexivity|]. split; [lia|]. split.
      * intros E. assert (a = 0%Z) by lia. assert (b = 0%Z) by lia. tauto.
      * intros E. assert (a = 0%Z) by tauto. assert (b = 0%Z) by tauto. lia.
    + apply poly_div_inv in P as [P1 P2]. destruct (IHl d S P1) as [a [-> [A1 A2]]].
      exists a. split; [reflexivity|]. split; [exact A1|]. tauto.
Qed.

Definition linear_at (i : N) (e c : cexpr) : Prop :=
  ~ occurs i c /\
  forall rho phi un v, cval rho phi un e = Some v ->
    exists vc v0, cval rho phi un c = Some vc /\ cval (upd rho i 0%R) phi un e = Some v0 /\
      v = (rho i * vc + v0)%R.

Lemma linear_free : forall i e, ~ occurs i e -> linear_at i e (CConst 0).
Proof.
  intros i e H. split; [simpl; tauto|]. intros rho phi un v V. exists 0%R, v.
  split; [reflexivity|]. split; [rewrite cval_free by exact H; exact V|ring].
Qed.

Lemma linear_sum : forall i op l r c d, op = CPlus \/ op = CMinus ->
  linear_at i l c -> linear_at i r d -> linear_at i (CBin op l r) (CBin op c d).
Proof.
  intros i op l r c d O [L1 L2] [R1 R2]. split; [simpl; tauto|].
  intros rho phi un v V. apply val_bin in V as [x [y [Vl [Vr V]]]].
  destruct (L2 _ _ _ _ Vl) as [a [a0 [E1 [E2 ->]]]].
  destruct (R2 _ _ _ _ Vr) as [b [b0 [F1 [F2 ->]]]]. cbn [cval]. rewrite E1, E2, F1, F2.
  destruct O as [-> | ->]; injection V as <-; eexists; eexists;
    (split; [reflexivity|]); (split; [reflexivity|]); ring.
Qed.

Lemma linear_left : forall i l r c, linear_at i l c -> ~ occurs i r ->
  linear_at i (CBin CMult l r) (CBin CMult c r).
Proof.
  intros i l r c [L1 L2] N. split; [simpl; tauto|].
  intros rho phi un v V. apply val_bin in V as [x [y [Vl [Vr V]]]].
  destruct (L2 _ _ _ _ Vl) as [a [a0 [E1 [E2 ->]]]]. cbn [cval].
  rewrite (cval_free _ _ _ r) by exact N. rewrite E1, E2, Vr. injection V as <-.
  eexists. eexists. split; [reflexivity|]. split; [reflexivity|]. ring.
Qed.

Lemma linear_right : forall i l r c, linear_at i r c -> ~ occurs i l ->
  linear_at i (CBin CMult l r) (CBin CMult l c).
Proof.
  intros i l r c [L1 L2] N. split; [simpl; tauto|].
  intros rho phi un v V. apply val_bin in V as [x [y [Vl [Vr V]]]].
  destruct (L2 _ _ _ _ Vr) as [a [a0 [E1 [E2 ->]]]]. cbn [cval].
  rewrite (cval_free _ _ _ l) by exact N. rewrite E1, E2, Vl. injection V as <-.
  eexists. eexists. split; [reflexivity|]. split; [reflexivity|]. ring.
Qed.

Lemma linear_div : forall i l r c, linear_at i l c -> ~ occurs i r ->
  linear_at i (CBin CDiv l r) (CBin CDiv c r).
Proof.
  intros i l r c [L1 L2] N. split; [simpl; tauto|].
  intros rho phi un v V. apply val_bin in V as [x [y [Vl [Vr V]]]].
  destruct (L2 _ _ _ _ Vl) as [a [a0 [E1 [E2 ->]]]]. cbn [cval].
  rewrite (cval_free _ _ _ r) by exact N. rewrite E1, E2, Vr.
  apply op_div in V as [Z ->]. rewrite !op_div' by exact Z.
  eexists. eexists. split; [reflexivity|]. split; [reflexivity|]. field. exact Z.
Qed.

Lemma linear_ext : forall i e c c', linear_at i e c -> ~ occurs i c' ->
  (forall rho phi un x, cval rho phi un c = Some x -> cval rho phi un c' = Some x) ->
  linear_at i e c'.
Proof.
  intros i e c c' [L1 L2] N E. split; [exact N|]. intros rho phi un v V.
  destruct (L2 _ _ _ _ V) as [a [a0 [E1 [E2 E3]]]]. eauto 8.
Qed.

Lemma linear_var : forall i, linear_at i (CVar i) (CConst 1).
Proof.
  intros i. split; [simpl; tauto|]. intros rho phi un v V. injection V as <-.
  exists 1%R, 0%R. split; [reflexivity|]. simpl. rewrite upd_same. split; [reflexivity|ring].
Qed.

Lemma occurs_dec : forall i e, occurs i e \/ ~ occurs i e.
Proof.
  intros i. induction e as [c|j|t|op a IH|op l IHl r IHr]; simpl; try (right; intros []; fail).
  - destruct (N.eq_dec j i); [left|right]; assumption.
  - exact IH.
  - destruct IHl as [A|A]; [left; left; exact A|]. destruct IHr as [B|B]; [left; right; exact B|].
    right. intros [C|C]; auto.
Qed.

Lemma coefficient_linear : forall i e d, (d <= 1)%nat -> expanded e -> polynomial i e d ->
  exists c, coefficient_impl (CVar i) e = Some c /\ linear_at i e c.
Proof.
  intros i. induction e as [c|j|t|op a IH|op l IHl r IHr]; intros d D X P;
    cbn [coefficient_impl cexpr_eqb].
  - exists (CConst 0). split; [reflexivity|]. apply linear_free. simpl. tauto.
  - destruct (N.eqb_spec i j) as [<-|N].
    + exists (CConst 1). split; [reflexivity|]. apply linear_var.
    + exists (CConst 0). split; [reflexivity|]. apply linear_free. simpl. congruence.
  - exists (CConst 0). split; [reflexivity|]. apply linear_free. simpl. tauto.
  - exists (CConst 0). split; [reflexivity|]. apply linear_free. apply poly_un_inv in P. exact P.
  - destruct op.
    + apply poly_sum_inv in P as [P1 P2]; [|auto]. destruct X as [X1 X2].
      destruct (IHl d D X1 P1) as [p [-> L]]. destruct (IHr d D X2 P2) as [q [-> R]].
      eexists. split; [reflexivity|]. apply linear_sum; auto.
    + apply poly_sum_inv in P as [P1 P2]; [|auto]. destruct X as [X1 X2].
      destruct (IHl d D X1 P1) as [p [-> L]]. destruct (IHr d D X2 P2) as [q [-> R]].
      eexists. split; [reflexivity|]. apply linear_sum; auto.
    + apply poly_mult_inv in P as [p [q [P1 [P2 L]]]]. cbn [expanded] in X. destruct X as [X1 X2].
      change (match l with CVar j => (i =? j)%N | _ => false end) with (cexpr_eqb (CVar i) l).
      change (match r with CVar j => (i =? j)%N | _ => false end) with (cexpr_eqb (CVar i) r).
      assert (F : occurs i l -> ~ occurs i r).
      { intros O. apply (poly_zero i r q P2).
        destruct p; [destruct (poly_zero i l 0 P1 eq_refl O)|lia]. }
      destruct (cexpr_eqb (CVar i) l) eqn:El; destruct (cexpr_eqb (CVar i) r) eqn:Er;
        try apply cexpr_eqb_eq in El; try apply cexpr_eqb_eq in Er.
      * subst. exfalso. exact (F eq_refl eq_refl).
      * subst l. eexists. split; [reflexivity|].
        apply (linear_ext i _ (CBin CMult (CConst 1) r)).
        -- apply linear_left; [apply linear_var|]. apply F. reflexivity.
        -- apply F. reflexivity.
        -- intros rho phi un x V. cbn [cval] in V. destruct (cval rho phi un r) as [y|]; [|discriminate].
           cbn [op_val] in V. injection V as <-. f_equal. ring.
      * subst r. assert (G : ~ occurs i l) by (intros O; exact (F O eq_refl)).
        eexists. split; [reflexivity|].
        apply (linear_ext i _ (CBin CMult l (CConst 1))).
        -- apply linear_right; [apply linear_var|exact G].
        -- exact G.
        -- intros rho phi un x V. cbn [cval] in V. destruct (cval rho phi un l) as [y|]; [|discriminate].
           cbn [op_val] in V. injection V as <-. f_equal. ring.
      * destruct (has_factor_poly i l p X1 P1) as [a [-> [A1 A2]]].
        destruct (has_factor_poly i r q X2 P2) as [b [-> [B1 B2]]]. cbn [cbind].
        destruct (Z.eqb_spec a 0) as [A|A]; cbn [negb]; [destruct (Z.eqb_spec b 0) as [B|B]; cbn [negb]|].
        -- eexists. split; [reflexivity|]. apply linear_free. simpl. tauto.
        -- destruct (IHr q ltac:(lia) (sum_free_expanded _ X2) P2) as [c [-> C]].
           eexists. split; [reflexivity|]. apply linear_right; tauto.
        -- destruct (IHl p ltac:(lia) (sum_free_expanded _ X1) P1) as [c [-> C]].
           eexists. split; [reflexivity|]. apply linear_left; [exact C|].
           destruct (occurs_dec i l) as [O|O]; [auto|tauto].
    + apply poly_div_inv in P as [P1 P2]. cbn [expanded] in X.
      destruct (IHl d D X P1) as [c [-> C]]. eexists. split; [reflexivity|].
      apply linear_div; assumption.
Qed.

Lemma has_factor_total : forall i e, sum_free e -> exists a, has_factor (CVar i) e = Some a.
Proof.
  intros i. induction e as [c|j|t|op a IH|op l IHl r IHr]; intros S; cbn [has_factor cexpr_eqb]; eauto.
  - destruct (N.eqb i j); simpl; eauto.
  - destruct op; cbn [sum_free] in S; try contradiction.
    + destruct (IHl (proj1 S)) as [a ->]. destruct (IHr (proj2 S)) as [b ->]. simpl. eauto.
    + exact (IHl S).
Qed.

Lemma coefficient_total : forall i e, expanded e -> exists c, coefficient_impl (CVar i) e = Some c.
Proof.
  intros i. induction e as [c|j|t|op a IH|op l IHl r IHr]; intros X;
    cbn [coefficient_impl cexpr_eqb]; eauto.
  - destruct (N.eqb i j); simpl; eauto.
  - destruct op; cbn [expanded] in X.
    + destruct (IHl (proj1 X)) as [a ->]. destruct (IHr (proj2 X)) as [b ->]. simpl. eauto.
    + destruct (IHl (proj1 X)) as [a ->]. destruct (IHr (proj2 X)) as [b ->]. simpl. eauto.
    + change (match l with CVar j => (i =? j)%N | _ => false end) with (cexpr_eqb (CVar i) l).
      change (match r with CVar j => (i =? j)%N | _ => false end) with (cexpr_eqb (CVar i) r).
      destruct (cexpr_eqb (CVar i) l), (cexpr_eqb (CVar i) r); eauto.
      destruct X as [X1 X2].
      destruct (has_factor_total i l X1) as [a ->]. destruct (has_factor_total i r X2) as [b ->].
      cbn [cbind]. destruct (a =? 0)%Z; cbn [negb]; [destruct (b =? 0)%Z; cbn [negb]; [eauto|]|].
      * destruct (IHr (sum_free_expanded _ X2)) as [c ->]. simpl. eauto.
      * destruct (IHl (sum_free_expanded _ X1)) as [c ->]. simpl. eauto.
    + destruct (IHl X) as [a ->]. simpl. eauto.
Qed.

Lemma degree_total : forall i e, product e <-> exists k, polynomial_degree (CVar i) e = Some k.
Proof.
  intros i. induction e as [c|j|t|op a IH|op l IHl r IHr]; cbn [polynomial_degree cexpr_eqb product].
  - split; eauto.
  - destruct (N.eqb i j); simpl; split; eauto.
  - split; eauto.
  - split; eauto.
  - destruct op; try (split; [contradiction|intros [k K]; discriminate]);
      rewrite IHl, IHr; (split; [intros [[a ->] [b ->]]; simpl; eauto|]);
      intros [k K]; apply cbind_some in K as [a [Ea K]]; apply cbind_some in K as [b [Eb K]]; eauto.
Qed.

(** ** Dropping terms *)

Lemma drop_value : forall n i e r, honest n -> drop_dependent_terms n (CVar i) e = Some r ->
  ~ occurs i r /\
  forall rho phi un v, cval (upd rho i 0%R) phi un e = Some v -> cval rho phi un r = Some v.
Proof.
  intros n i e r Hn H. unfold drop_dependent_terms in H. apply cbind_some in H as [e' [E H]]. split.
  - intros O. apply (simplify_occurs _ _ _ _ H) in O. apply ct_subst_occurs in O. simpl in O. tauto.
  - intros rho phi un v V. apply (simplify_value n Hn rho phi un _ _ H).
    rewrite (ct_subst_var rho phi un i (CConst 0) 0%R eq_refl).
    rewrite (expand_value _ _ _ _ _ E). exact V.
Qed.

(** ** Constants *)

Lemma rules_ground : forall n x, In x rules -> forall l r,
  matches (r_l x) l = true -> matches (r_r x) r = true -> forall v e',
  r_act x n l r = Some (v, e') -> ground (CBin (r_op x) l r) -> ground e'.
Proof.
  intros n. over_rules; intros l r Ml Mr v e' H G; cbn [r_act r_op r_l r_r] in *;
    minv; cbn [rhs num den] in H;
    try (apply rational_shape in H as [p [q H]]; injection H as -> ->; simpl; tauto);
    try discriminate;
    repeat (apply cbind_some in H as [? [_ H]]);
    injection H as <- <-; cbn [ground] in *; tauto.
Qed.

Lemma impl_ground : forall n e v e', simplify_impl n e = Some (v, e') -> ground e -> ground e'.
Proof.
  intros n. induction e as [c|j|t|op a IH|op l IHl r IHr]; intros v e' H G;
    [ injection H as <- <-; exact G .. | ].
  rewrite impl_bin in H. destruct (choose op l r) as [|x|] eqn:C; [| |discriminate].
  - apply cbind_some in H as [[vl l'] [Hl H]]. apply cbind_some in H as [[vr r'] [Hr H]].
    injection H as <- <-. cbn [ground] in *. destruct G. split; eauto.
  - apply choose_in in C as [C1 C2]. apply applicable_inv in C2 as [<- [Ml Mr]].
    exact (rules_ground n x C1 l r Ml Mr v e' H G).
Qed.

Lemma rules_false : forall n x, In x rules -> forall l r,
  matches (r_l x) l = true -> matches (r_r x) r = true -> forall e',
  r_act x n l r = Some (false, e') ->
  exists p q, CBin (r_op x) l r = CBin CDiv (CConst p) (CConst q).
Proof.
  intros n. over_rules; intros l r Ml Mr e' H; cbn [r_act r_op r_l r_r] in *;
    minv; cbn [rhs num den] in H;
    try (apply rational_shape in H as [p [q H]]; discriminate);
    try discriminate;
    repeat (apply cbind_some in H as [? [_ H]]);
    first [discriminate | eauto].
Qed.

Lemma choose_not_generic : forall op l r x, In x rules -> applicable op l r x = true ->
  choose op l r <> Generic.
Proof.
  unfold choose. generalize rules. intros rs op l r x I A H.
  assert (F : In x (filter (applicable op l r) rs)) by (apply filter_In; auto).
  destruct (filter (applicable op l r) rs) as [|y ys]; [contradiction|].
  destruct (find (fun x => forallb (special x) (y :: ys)) (y :: ys)); discriminate.
Qed.

Lemma nth_rule : forall k op l r, (k < length rules)%nat ->
  applicable op l r (nth k rules (mk_rule CPlus PAny PAny (fun _ _ _ => None))) = true ->
  choose op l r <> Generic.
Proof. intros k op l r K A. exact (choose_not_generic _ _ _ _ (nth_In _ _ K) A). Qed.

Ltac by_rule k := apply (nth_rule k); [unfold rules; cbn [length]; lia|reflexivity].

Lemma number_rule : forall op l r, number l -> number r -> choose op l r <> Generic.
Proof.
  intros op l r [[a ->]|[a [b ->]]] [[c ->]|[c [d ->]]]; destruct op;
    [by_rule 38%nat|by_rule 41%nat|by_rule 44%nat|by_rule 49%nat
    |by_rule 26%nat|by_rule 29%nat|by_rule 33%nat|by_rule 36%nat
    |by_rule 27%nat|by_rule 30%nat|by_rule 34%nat|by_rule 37%nat
    |by_rule 25%nat|by_rule 28%nat|by_rule 32%nat|by_rule 35%nat].
Qed.

Lemma impl_final_number : forall n e e', simplify_impl n e = Some (false, e') -> ground e -> number e.
Proof.
  intros n. induction e as [c|j|t|op a IH|op l IHl r IHr]; intros e' H G; try contradiction.
  - left. eauto.
  - rewrite impl_bin in H. destruct (choose op l r) as [|x|] eqn:C; [| |discriminate].
    + apply cbind_some in H as [[vl l'] [Hl H]]. apply cbind_some in H as [[vr r'] [Hr H]].
      injection H as E <-. apply orb_false_iff in E as [-> ->]. destruct G as [G1 G2].
      exfalso. exact (number_rule op l r (IHl _ Hl G1) (IHr _ Hr G2) C).
    + apply choose_in in C as [C1 C2]. apply applicable_inv in C2 as [<- [Ml Mr]].
      destruct (rules_false n x C1 l r Ml Mr e' H) as [p [q E]]. right. exists p, q. exact E.
Qed.

Lemma simplify_number : forall n e r, ct_simplify n e = Some r -> ground e -> number r.
Proof.
  intros n. apply (simplify_ind_run n (fun e r => ground e -> number r)).
  - intros e e' E G. exact (impl_final_number n e e' E G).
  - intros e e' r E _ IH G. apply IH. exact (impl_ground _ _ _ _ E G).
Qed.

Lemma number_ground : forall e, number e -> ground e.
Proof. intros e [[c ->]|[p [q ->]]]; simpl; auto. Qed.

(** ** Evaluation *)

Lemma type_by_index_nth : forall v i w, type_by_index v i = Some w ->
  nth_error v (N.to_nat i) = Some w.
Proof. unfold type_by_index. intros v i w. destruct (N.ltb i 3); [auto|discriminate]. Qed.

Lemma ct_eval_value : forall n, honest n -> forall rho rho' phi un v,
  (forall i w, nth_error v (N.to_nat i) = Some w -> cval rho phi un w = Some (rho' i)) ->
  forall e t, ct_eval n e v = Some t ->
  forall x, cval rho' phi un e = Some x -> cval rho phi un t = Some x.
Proof.
  intros n Hn rho rho' phi un v V. induction e as [c|i|s|op a IH|op l IHl r IHr];
    intros t H x X; cbn [ct_eval] in H; try discriminate.
  - injection H as <-. exact X.
  - apply type_by_index_nth in H. rewrite (V _ _ H). exact X.
  - apply cbind_some in H as [a [Ha H]]. apply cbind_some in H as [b [Hb H]].
    apply val_bin in X as [y [z [Y [Z X]]]].
    apply (simplify_value n Hn rho phi un _ _ H). cbn [cval].
    rewrite (IHl _ Ha _ Y), (IHr _ Hb _ Z). exact X.
Qed.

Lemma ct_eval_number : forall n v, (forall i w, nth_error v i = Some w -> number w) ->
  forall e t, ct_eval n e v = Some t -> number t.
Proof.
  intros n v V. induction e as [c|i|s|op a IH|op l IHl r IHr];
    intros t H; cbn [ct_eval] in H; try discriminate.
  - injection H as <-. left. eauto.
  - apply type_by_index_nth in H. exact (V _ _ H).
  - apply cbind_some in H as [a [Ha H]]. apply cbind_some in H as [b [Hb H]].
    apply (simplify_number n _ _ H). split; apply number_ground; eauto.
Qed.

Lemma eval_at_value : forall n, honest n -> forall rho rho' phi un v,
  (forall i w, nth_error v i = Some w -> number w) ->
  (forall i w, nth_error v (N.to_nat i) = Some w -> cval rho phi un w = Some (rho' i)) ->
  forall e t, ct_eval n e v = Some t ->
  forall x, cval rho' phi un e = Some x -> eval_at numR n e v = Some (Ok (Some x)).
Proof.
  intros n Hn rho rho' phi un v G V e t H x X.
  pose proof (ct_eval_value n Hn rho rho' phi un v V e t H x X) as W.
  unfold eval_at. rewrite H. cbn [cbind].
  destruct (ct_eval_number n v G e t H) as [[c ->]|[p [q ->]]].
  - injection W as <-. reflexivity.
  - apply val_bin in W as [y [z [Y [Z W]]]]. injection Y as <-. injection Z as <-.
    apply op_div in W as [N ->]. simpl. unfold lift2. simpl.
    unfold r_eqb. destruct (Req_EM_T (IZR q) 0); [contradiction|reflexivity].
Qed.
