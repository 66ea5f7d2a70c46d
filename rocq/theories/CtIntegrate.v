(** Lemmas about compile-time integration. *)
From Coq Require Import ZArith NArith List Bool Reals Lia Lra.
From Coquelicot Require Import Coquelicot.
From Verif Require Import Outcome Num RtModel CtModel CtSpec CtGcd CtFacts
  CtOpsModel CtManipModel CtManipSpec CtManipFacts CtExpand CtPoly.
Import ListNotations.

(** ** Powers *)

Lemma quot2 : forall k, (3 <= k)%Z -> (0 <= Z.quot k 2 < k /\ 0 <= k - Z.quot k 2 < k)%Z.
Proof.
  intros k H. pose proof (Z.quot_rem' k 2). pose proof (Z.rem_bound_pos k 2). lia.
Qed.

Lemma pow_enough : forall t fuel k, (0 <= k < Z.of_nat fuel)%Z -> exists p, pow_f fuel t k = Some p.
Proof.
  intros t. induction fuel as [|f IH]; intros k K; [lia|]. cbn [pow_f].
  destruct (Z.eqb_spec k 0); [eauto|]. destruct (Z.eqb_spec k 1); [eauto|].
  destruct (Z.eqb_spec k 2); [eauto|].
  destruct (quot2 k ltac:(lia)) as [Q1 Q2].
  destruct (IH (Z.quot k 2) ltac:(lia)) as [a ->].
  destruct (IH (k - Z.quot k 2)%Z ltac:(lia)) as [b ->]. eexists. reflexivity.
Qed.

Lemma pow_more : forall t f k p, pow_f f t k = Some p -> forall g, (f <= g)%nat ->
  pow_f g t k = Some p.
Proof.
  intros t. induction f as [|f IH]; intros k p H g G; [discriminate|].
  destruct g as [|g]; [lia|]. assert (G' : (f <= g)%nat) by lia. cbn [pow_f] in *.
  destruct (k =? 0)%Z; [exact H|]. destruct (k =? 1)%Z; [exact H|]. destruct (k =? 2)%Z; [exact H|].
  apply cbind_some in H as [a [Ea H]]. apply cbind_some in H as [b [Eb H]].
  rewrite (IH _ _ Ea g G'), (IH _ _ Eb g G'). exact H.
Qed.

Lemma pow_negative : forall t f k, (k < 0)%Z -> pow_f f t k = None.
Proof.
  intros t. induction f as [|f IH]; intros k K; [reflexivity|]. cbn [pow_f].
  destruct (Z.eqb_spec k 0); [lia|]. destruct (Z.eqb_spec k 1); [lia|].
  destruct (Z.eqb_spec k 2); [lia|].
  rewrite (IH (k - Z.quot k 2)%Z).
  - destruct (pow_f f t (Z.quot k 2)); reflexivity.
  - pose proof (Z.quot_rem' k 2). pose proof (Z.rem_nonpos k 2). lia.
Qed.

Lemma pow_value : forall rho phi un t v, cval rho phi un t = Some v ->
  forall f k p, (0 <= k)%Z -> pow_f f t k = Some p -> cval rho phi un p = Some (v ^ Z.to_nat k)%R.
Proof.
  intros rho phi un t v V. induction f as [|f IH]; intros k p K H; [discriminate|].
  cbn [pow_f] in H.
  destruct (Z.eqb_spec k 0) as [->|N0]; [injection H as <-; reflexivity|].
  destruct (Z.eqb_spec k 1) as [->|N1].
  { injection H as <-. rewrite V. simpl. f_equal. ring. }
  destruct (Z.eqb_spec k 2) as [->|N2].
  { injection H as <-. cbn [cval]. rewrite V. simpl. f_equal. ring. }
  apply cbind_some in H as [a [Ea H]]. apply cbind_some in H as [b [Eb H]]. injection H as <-.
  destruct (quot2 k ltac:(lia)) as [Q1 Q2].
  cbn [cval]. rewrite (IH _ _ (proj1 Q1) Ea), (IH _ _ (proj1 Q2) Eb). cbn [op_val].
  rewrite <- pow_add. do 2 f_equal. lia.
Qed.

(** ** Degrees *)

Lemma degree_free : forall i e k, ~ occurs i e -> polynomial_degree (CVar i) e = Some k -> k = 0%Z.
Proof.
  intros i. induction e as [c|j|t|op a IH|op l IHl r IHr]; intros k O H;
    cbn [polynomial_degree cexpr_eqb] in H; try (injection H as <-; reflexivity).
  - destruct (N.eqb_spec i j) as [->|_]; [destruct (O eq_refl)|]. injection H as <-. reflexivity.
  - cbn [occurs] in O. destruct op; try discriminate;
      apply cbind_some in H as [a [Ea H]]; apply cbind_some in H as [b [Eb H]]; injection H as <-;
      rewrite (IHl a), (IHr b) by (try tauto; assumption); reflexivity.
Qed.

Lemma degree_monomial : forall rho phi un i e d k, polynomial i e d ->
  polynomial_degree (CVar i) e = Some k ->
  (0 <= k <= Z.of_nat d)%Z /\
  forall g, (forall t, cval (upd rho i t) phi un e = Some (g t)) ->
  forall t, g t = (g 1 * t ^ Z.to_nat k)%R.
Proof.
  intros rho phi un i. induction e as [c|j|s|op a IH|op l IHl r IHr]; intros d k P H.
  - injection H as <-. split; [lia|]. intros g G t.
    pose proof (G t) as E1. pose proof (G 1%R) as E2. cbn [cval] in *.
    injection E1 as <-. injection E2 as <-. simpl. ring.
  - cbn [polynomial_degree cexpr_eqb] in H. destruct (N.eqb_spec i j) as [<-|N].
    + injection H as <-. split.
      * destruct d; [destruct (poly_zero i _ 0 P eq_refl eq_refl)|lia].
      * intros g G t. pose proof (G t) as E1. pose proof (G 1%R) as E2. cbn [cval] in *.
        rewrite upd_same in *. injection E1 as <-. injection E2 as <-. simpl. ring.
    + injection H as <-. split; [lia|]. intros g G t.
      pose proof (G t) as E1. pose proof (G 1%R) as E2. cbn [cval] in *.
      rewrite upd_other in * by congruence. injection E1 as <-. injection E2 as <-. simpl. ring.
  - injection H as <-. split; [lia|]. intros g G t.
    pose proof (G t) as E1. pose proof (G 1%R) as E2. cbn [cval] in *.
    injection E1 as <-. injection E2 as <-. simpl. ring.
  - injection H as <-. split; [lia|]. intros g G t. apply poly_un_inv in P.
    pose proof (G t) as E1. pose proof (G 1%R) as E2.
    rewrite cval_free in E1, E2 by exact P. rewrite E1 in E2. injection E2 as ->. simpl. ring.
  - cbn [polynomial_degree cexpr_eqb] in H. destruct op; try discriminate.
    + apply cbind_some in H as [a [Ea H]]. apply cbind_some in H as [b [Eb H]]. injection H as <-.
      apply poly_mult_inv in P as [p [q [P1 [P2 L]]]].
      destruct (IHl p a P1 Ea) as [A1 A2]. destruct (IHr q b P2 Eb) as [B1 B2].
      split; [lia|]. intros g G t.
      set (gl := fun t => match cval (upd rho i t) phi un l with Some x => x | None => 0%R end).
      set (gr := fun t => match cval (upd rho i t) phi un r with Some x => x | None => 0%R end).
      assert (K : forall u, cval (upd rho i u) phi un l = Some (gl u) /\
                            cval (upd rho i u) phi un r = Some (gr u) /\ g u = (gl u * gr u)%R).
      { intros u. pose proof (G u) as E. apply val_bin in E as [x [y [X [Y E]]]].
        unfold gl, gr. rewrite X, Y. injection E as <-. auto. }
      assert (L1 := A2 gl (fun u => proj1 (K u)) t).
      assert (R1 := B2 gr (fun u => proj1 (proj2 (K u))) t).
      destruct (K t) as [_ [_ ->]]. destruct (K 1%R) as [_ [_ ->]]. rewrite L1, R1.
      rewrite Z2Nat.inj_add by lia. rewrite pow_add. ring.
    + apply cbind_some in H as [a [Ea H]]. apply cbind_some in H as [b [Eb H]]. injection H as <-.
      apply poly_div_inv in P as [P1 P2]. rewrite (degree_free i r b P2 Eb).
      destruct (IHl d a P1 Ea) as [A1 A2]. split; [lia|]. intros g G t.
      set (gl := fun t => match cval (upd rho i t) phi un l with Some x => x | None => 0%R end).
      assert (K : exists z, z <> 0%R /\ forall u, cval (upd rho i u) phi un l = Some (gl u) /\
                            g u = (gl u / z)%R).
      { pose proof (G 1%R) as E. apply val_bin in E as [x [y [_ [Y E]]]].
        apply op_div in E as [Z _]. exists y. split; [exact Z|].
        intros u. pose proof (G u) as E. apply val_bin in E as [x' [y' [X' [Y' E]]]].
        rewrite cval_free in Y, Y' by exact P2. rewrite Y in Y'. injection Y' as <-.
        apply op_div in E as [_ ->]. unfold gl. rewrite X'. auto. }
      destruct K as [z [Z K]].
      assert (L1 := A2 gl (fun u => proj1 (K u)) t).
      destruct (K t) as [_ ->]. destruct (K 1%R) as [_ ->]. rewrite L1.
      rewrite Z.sub_0_r. field. exact Z.
Qed.

Lemma degree_quotient : forall rho phi un i e k, outside_unary i e ->
  polynomial_degree (CVar i) e = Some k -> forall t x y, t <> 0%R ->
  cval (upd rho i 1%R) phi un e = Some x -> cval (upd rho i t) phi un e = Some y ->
  y = (x * powerRZ t k)%R.
Proof.
  intros rho phi un i. induction e as [c|j|s|op a IH|op l IHl r IHr]; intros k O H t x y T X Y.
  - injection H as <-. injection X as <-. injection Y as <-. simpl. ring.
  - cbn [polynomial_degree cexpr_eqb cval] in *. injection X as <-. injection Y as <-.
    destruct (N.eqb_spec i j) as [<-|N]; injection H as <-.
    + rewrite !upd_same. simpl. ring.
    + rewrite !upd_other by congruence. simpl. ring.
  - injection H as <-. injection X as <-. injection Y as <-. simpl. ring.
  - injection H as <-. cbn [outside_unary] in O.
    rewrite cval_free in X, Y by exact O. rewrite X in Y. injection Y as <-. simpl. ring.
  - cbn [polynomial_degree cexpr_eqb outside_unary] in *. destruct O as [O1 O2].
    destruct op; try discriminate;
      apply cbind_some in H as [a [Ea H]]; apply cbind_some in H as [b [Eb H]]; injection H as <-;
      apply val_bin in X as [x1 [x2 [X1 [X2 X]]]]; apply val_bin in Y as [y1 [y2 [Y1 [Y2 Y]]]];
      pose proof (IHl a O1 Ea t x1 y1 T X1 Y1) as ->; pose proof (IHr b O2 Eb t x2 y2 T X2 Y2) as ->.
    + injection X as <-. injection Y as <-. rewrite powerRZ_add by exact T. ring.
    + apply op_div in X as [Z ->]. apply op_div in Y as [_ ->].
      unfold Z.sub. rewrite powerRZ_add by exact T. rewrite powerRZ_neg'.
      field. split; [apply powerRZ_NOR; exact T|exact Z].
Qed.

(** A polynomial defined somewhere is defined for every value of its variable. *)
Lemma poly_defined : forall phi un i e d, polynomial i e d -> forall rho v,
  cval rho phi un e = Some v -> forall t, exists w, cval (upd rho i t) phi un e = Some w.
Proof.
  intros phi un i e d P. induction P; intros rho v V t.
  - exists v. rewrite cval_free by assumption. exact V.
  - eexists. reflexivity.
  - apply val_bin in V as [x [y [X [Y V]]]]. destruct (IHP1 _ _ X t) as [x' X'].
    destruct (IHP2 _ _ Y t) as [y' Y']. cbn [cval]. rewrite X', Y'. eexists. reflexivity.
  - apply val_bin in V as [x [y [X [Y V]]]]. destruct (IHP1 _ _ X t) as [x' X'].
    destruct (IHP2 _ _ Y t) as [y' Y']. cbn [cval]. rewrite X', Y'. eexists. reflexivity.
  - apply val_bin in V as [x [y [X [Y V]]]]. destruct (IHP1 _ _ X t) as [x' X'].
    destruct (IHP2 _ _ Y t) as [y' Y']. cbn [cval]. rewrite X', Y'. eexists. reflexivity.
  - apply val_bin in V as [x [y [X [Y V]]]]. destruct (IHP _ _ X t) as [x' X'].
    apply op_div in V as [Z _]. cbn [cval]. rewrite X', cval_free, Y by assumption.
    eexists. apply op_div'. exact Z.
  - eauto.
Qed.

(** ** Integrals *)

Lemma is_RInt_pow : forall k a b, is_RInt (fun t => (t ^ k)%R) a b
  ((b ^ S k - a ^ S k) / INR (S k))%R.
Proof.
  intros k a b. assert (N : INR (S k) <> 0%R) by (apply not_0_INR; discriminate).
  assert (H : is_RInt (fun t => (t ^ k)%R) a b
     (Hierarchy.minus ((fun t => (t ^ S k / INR (S k))%R) b) ((fun t => (t ^ S k / INR (S k))%R) a))).
  { apply (is_RInt_derive (fun t => (t ^ S k / INR (S k))%R)).
    - intros x _. auto_derive; [exact I|]. change (pred (S k)) with k. field. exact N.
    - intros x _. apply (ex_derive_continuous (fun t => (t ^ k)%R)). auto_derive. exact I. }
  replace ((b ^ S k - a ^ S k) / INR (S k))%R with
    (Hierarchy.minus ((fun t => (t ^ S k / INR (S k))%R) b) ((fun t => (t ^ S k / INR (S k))%R) a)).
  - exact H.
  - unfold Hierarchy.minus, Hierarchy.plus, Hierarchy.opp. simpl. field. exact N.
Qed.

Lemma only_no_other : forall i e, (forall j, occurs j e -> j = i) -> no_other_term i e.
Proof.
  intros i. induction e as [c|j|t|op a IH|op l IHl r IHr]; simpl; intros H; auto.
  destruct op; auto.
Qed.

Lemma integrate_monomial_value : forall rho phi un t v k p, cval rho phi un t = Some v ->
  (0 <= k)%Z -> integrate_monomial t k = Some p ->
  cval rho phi un p = Some (v ^ S (Z.to_nat k) / INR (S (Z.to_nat k)))%R.
Proof.
  intros rho phi un t v k p V K H. unfold integrate_monomial in H.
  destruct (Z.eqb_spec k 0) as [->|N].
  - injection H as <-. rewrite V. f_equal. simpl. field.
  - apply cbind_some in H as [q [Q H]]. injection H as <-.
    pose proof (pow_value rho phi un t v V _ (k + 1)%Z q ltac:(lia) Q) as W.
    cbn [cval]. rewrite W. rewrite Z2Nat.inj_add by lia. rewrite Nat.add_1_r.
    replace (IZR (k + 1)) with (INR (S (Z.to_nat k))).
    + apply op_div'. apply not_0_INR. discriminate.
    + rewrite INR_IZR_INZ, Nat2Z.inj_succ, Z2Nat.id by lia. reflexivity.
Qed.

(** The equations of the metafunction. *)
Lemma integrate_const : forall n lo up x c, integrate_impl n lo up x (CConst c) =
  ct_simplify n (CBin CMult (CConst c) (CBin CMinus up lo)).
Proof. reflexivity. Qed.
Lemma integrate_var : forall n lo up x j, integrate_impl n lo up x (CVar j) =
  ct_simplify n (CBin CMinus (CBin CDiv (CBin CMult up up) (CConst 2))
                             (CBin CDiv (CBin CMult lo lo) (CConst 2))).
Proof. reflexivity. Qed.
Lemma integrate_sum : forall n lo up x op l r, op = CPlus \/ op = CMinus ->
  integrate_impl n lo up x (CBin op l r) =
  cbind (integrate_impl n lo up x l) (fun a =>
  cbind (integrate_impl n lo up x r) (fun b => ct_simplify n (CBin op a b))).
Proof. intros n lo up x op l r [-> | ->]; reflexivity. Qed.
Lemma integrate_mult : forall n lo up x l r, integrate_impl n lo up x (CBin CMult l r) =
  cbind (ct_simplify n (ct_subst x (CConst 1) (CBin CMult l r))) (fun c =>
  cbind (polynomial_degree x (CBin CMult l r)) (fun k =>
  cbind (integrate_monomial up k) (fun a =>
  cbind (integrate_monomial lo k) (fun b =>
  cbind (ct_simplify n (CBin CMult a c)) (fun p =>
  cbind (ct_simplify n (CBin CMult b c)) (fun q => ct_simplify n (CBin CMinus p q))))))).
Proof. reflexivity. Qed.
Lemma integrate_div : forall n lo up x l r, integrate_impl n lo up x (CBin CDiv l r) =
  cbind (integrate_impl n lo up x l) (fun a => ct_simplify n (CBin CDiv a r)).
Proof. reflexivity. Qed.

Lemma integrate_impl_value : forall n, honest n -> forall phi un lo up i e d r,
  polynomial i e d -> no_other_term i e -> integrate_impl n lo up (CVar i) e = Some r ->
  forall rho a b g, cval rho phi un lo = Some a -> cval rho phi un up = Some b ->
  (forall t, cval (upd rho i t) phi un e = Some (g t)) ->
  exists I, is_RInt g a b I /\ cval rho phi un r = Some I.
Proof.
  intros n Hn phi un lo up i.
  induction e as [c|j|s|op x IH|op l IHl r0 IHr]; intros d r P O H rho a b g Lo Up G.
  - rewrite integrate_const in H. exists (IZR c * (b - a))%R. split.
    + apply (is_RInt_ext (fun _ => IZR c)).
      * intros t _. pose proof (G t) as E. simpl in E. congruence.
      * replace (IZR c * (b - a))%R with (scal (b - a)%R (IZR c)) by apply Rmult_comm.
        apply @is_RInt_const.
    + apply (simplify_value n Hn rho phi un _ _ H). cbn [cval]. rewrite Lo, Up. reflexivity.
  - rewrite integrate_var in H. simpl in O. subst j. exists (b * b / 2 - a * a / 2)%R. split.
    + apply (is_RInt_ext (fun t => (t ^ 1)%R)).
      * intros t _. pose proof (G t) as E. cbn [cval] in E. rewrite upd_same in E.
        injection E as <-. apply pow_1.
      * replace (b * b / 2 - a * a / 2)%R with ((b ^ 2 - a ^ 2) / INR 2)%R by (simpl; field).
        apply is_RInt_pow.
    + apply (simplify_value n Hn rho phi un _ _ H). cbn [cval]. rewrite Lo, Up.
      cbn [op_val]. destruct (Req_EM_T 2 0); [lra|]. reflexivity.
  - discriminate.
  - discriminate.
  - assert (SUM : forall o, o = CPlus \/ o = CMinus -> op = o ->
      cbind (integrate_impl n lo up (CVar i) l) (fun a =>
      cbind (integrate_impl n lo up (CVar i) r0) (fun b => ct_simplify n (CBin op a b))) = Some r ->
      no_other_term i l /\ no_other_term i r0 ->
      exists I, is_RInt g a b I /\ cval rho phi un r = Some I).
    { intros o Oo -> E [O1 O2]. apply cbind_some in E as [p [Ep E]]. apply cbind_some in E as [q [Eq E]].
      apply poly_sum_inv in P as [P1 P2]; [|exact Oo].
      set (gl := fun t => match cval (upd rho i t) phi un l with Some x => x | None => 0%R end).
      set (gr := fun t => match cval (upd rho i t) phi un r0 with Some x => x | None => 0%R end).
      assert (K : forall u, cval (upd rho i u) phi un l = Some (gl u) /\
                            cval (upd rho i u) phi un r0 = Some (gr u) /\
                            op_val o (gl u) (gr u) = Some (g u)).
      { intros u. pose proof (G u) as V. apply val_bin in V as [x [y [X [Y V]]]].
        unfold gl, gr. rewrite X, Y. auto. }
      destruct (IHl d p P1 O1 Ep rho a b gl Lo Up (fun u => proj1 (K u))) as [I1 [J1 V1]].
      destruct (IHr d q P2 O2 Eq rho a b gr Lo Up (fun u => proj1 (proj2 (K u)))) as [I2 [J2 V2]].
      destruct Oo as [-> | ->].
      - exists (I1 + I2)%R. split.
        + apply (is_RInt_ext (fun t => Hierarchy.plus (gl t) (gr t))).
          * intros t _. destruct (K t) as [_ [_ E']]. injection E' as <-. reflexivity.
          * apply @is_RInt_plus; assumption.
        + apply (simplify_value n Hn rho phi un _ _ E). cbn [cval]. rewrite V1, V2. reflexivity.
      - exists (I1 - I2)%R. split.
        + apply (is_RInt_ext (fun t => Hierarchy.minus (gl t) (gr t))).
          * intros t _. destruct (K t) as [_ [_ E']]. injection E' as <-. reflexivity.
          * apply @is_RInt_minus; assumption.
        + apply (simplify_value n Hn rho phi un _ _ E). cbn [cval]. rewrite V1, V2. reflexivity. }
    destruct op.
    + rewrite integrate_sum in H by auto. apply (SUM CPlus); auto.
    + rewrite integrate_sum in H by auto. apply (SUM CMinus); auto.
    + clear SUM. rewrite integrate_mult in H. apply cbind_some in H as [c [Ec H]]. apply cbind_some in H as [k [Ek H]].
      apply cbind_some in H as [u [Eu H]]. apply cbind_some in H as [w [Ew H]].
      apply cbind_some in H as [p [Ep H]]. apply cbind_some in H as [q [Eq H]].
      destruct (degree_monomial rho phi un i _ d k P Ek) as [K1 K2]. specialize (K2 g G).
      assert (C : cval rho phi un c = Some (g 1%R)).
      { apply (simplify_value n Hn rho phi un _ _ Ec).
        rewrite (ct_subst_var rho phi un i (CConst 1) 1%R eq_refl). apply G. }
      pose proof (integrate_monomial_value rho phi un up b k u Up (proj1 K1) Eu) as U.
      pose proof (integrate_monomial_value rho phi un lo a k w Lo (proj1 K1) Ew) as W.
      set (m := Z.to_nat k) in *.
      exists (g 1 * ((b ^ S m - a ^ S m) / INR (S m)))%R. split.
      * apply (is_RInt_ext (fun t => scal (g 1%R) (t ^ m)%R)).
        -- intros t _. rewrite (K2 t). reflexivity.
        -- apply (is_RInt_scal (fun t => (t ^ m)%R) a b (g 1%R)). apply is_RInt_pow.
      * apply (simplify_value n Hn rho phi un _ _ H). cbn [cval].
        rewrite (simplify_value n Hn rho phi un _ _ Ep (b ^ S m / INR (S m) * g 1)%R)
          by (cbn [cval]; rewrite U, C; reflexivity).
        rewrite (simplify_value n Hn rho phi un _ _ Eq (a ^ S m / INR (S m) * g 1)%R)
          by (cbn [cval]; rewrite W, C; reflexivity).
        cbn [op_val]. f_equal. field. apply not_0_INR. discriminate.
    + clear SUM. rewrite integrate_div in H. apply cbind_some in H as [p [Ep H]]. apply poly_div_inv in P as [P1 P2].
      cbn [no_other_term] in O.
      set (gl := fun t => match cval (upd rho i t) phi un l with Some x => x | None => 0%R end).
      assert (K : exists z, z <> 0%R /\ cval rho phi un r0 = Some z /\
                  forall u, cval (upd rho i u) phi un l = Some (gl u) /\ g u = (gl u / z)%R).
      { pose proof (G 1%R) as E. apply val_bin in E as [x [y [_ [Y E]]]].
        apply op_div in E as [Z _]. rewrite cval_free in Y by exact P2.
        exists y. split; [exact Z|]. split; [exact Y|].
        intros u. pose proof (G u) as E. apply val_bin in E as [x' [y' [X' [Y' E]]]].
        rewrite cval_free in Y' by exact P2. rewrite Y in Y'. injection Y' as <-.
        apply op_div in E as [_ ->]. unfold gl. rewrite X'. auto. }
      destruct K as [z [Z [Y K]]].
      destruct (IHl d p P1 O Ep rho a b gl Lo Up (fun u => proj1 (K u))) as [I1 [J1 V1]].
      exists (I1 / z)%R. split.
      * replace (I1 / z)%R with (scal (/ z)%R I1) by apply Rmult_comm.
        apply (is_RInt_ext (fun t => scal (/ z)%R (gl t))).
        -- intros t _. destruct (K t) as [_ ->]. apply Rmult_comm.
        -- apply @is_RInt_scal. exact J1.
      * apply (simplify_value n Hn rho phi un _ _ H). cbn [cval]. rewrite V1, Y. apply op_div'. exact Z.
Qed.

(** The integrand as it is integrated. *)
Definition prepared (n : Z -> option Z) (e s : cexpr) : Prop :=
  match e with
  | CBin _ _ _ => exists e', ct_expand e = Some e' /\ ct_simplify n e' = Some s
  | _ => s = e
  end.

Lemma ct_integrate_value : forall n, honest n -> forall phi un lo up i e d r s,
  polynomial i e d -> prepared n e s -> no_other_term i s ->
  ct_integrate n lo up (CVar i) e = Some r ->
  forall rho a b v, cval rho phi un lo = Some a -> cval rho phi un up = Some b ->
  cval rho phi un e = Some v ->
  exists g I, (forall t, cval (upd rho i t) phi un e = Some (g t)) /\
    is_RInt g a b I /\ cval rho phi un r = Some I.
Proof.
  intros n Hn phi un lo up i e d r s P S O H rho a b v Lo Up V.
  set (g := fun t => match cval (upd rho i t) phi un e with Some x => x | None => 0%R end).
  assert (G : forall t, cval (upd rho i t) phi un e = Some (g t)).
  { intros t. destruct (poly_defined phi un i e d P rho v V t) as [w W]. unfold g. rewrite W. reflexivity. }
  exists g.
  assert (K : polynomial i s d /\ integrate_impl n lo up (CVar i) s = Some r /\
              forall t, cval (upd rho i t) phi un s = Some (g t)).
  { unfold ct_integrate in H.
    destruct e as [c|j|t|op x|op l r0]; simpl in S; try (subst s); try discriminate; auto.
    destruct S as [e' [E1 E2]]. rewrite E1 in H. cbn [cbind] in H. rewrite E2 in H. cbn [cbind] in H.
    split; [|split; [exact H|]].
    - apply (simplify_poly n i _ _ E2). exact (expand_polynomial i _ _ E1 d P).
    - intros t. apply (simplify_value n Hn _ _ _ _ _ E2). rewrite (expand_value _ _ _ _ _ E1). apply G. }
  destruct K as [K1 [K2 K3]].
  destruct (integrate_impl_value n Hn phi un lo up i s d r K1 O K2 rho a b g Lo Up K3) as [I [J1 J2]].
  exists I. auto.
Qed.

Lemma prepared_exists : forall n lo up x e r, ct_integrate n lo up x e = Some r ->
  exists s, prepared n e s.
Proof.
  intros n lo up x e r H. destruct e as [c|j|t|op y|op l r0]; simpl; eauto.
  unfold ct_integrate in H. apply cbind_some in H as [e' [E1 H]].
  apply cbind_some in H as [s [E2 _]]. eauto.
Qed.

Lemma prepared_occurs : forall n e s i, prepared n e s -> occurs i s -> occurs i e.
Proof.
  intros n e s i P O. destruct e as [c|j|t|op y|op l r]; simpl in P; subst; try exact O.
  destruct P as [e' [E1 E2]]. apply (expand_occurs i _ _ E1). exact (simplify_occurs n i _ _ E2 O).
Qed.

(** ** A run that rejects values which do not fit is also a run with conversion *)

Lemma cbind_below : forall {A B : Type} (o o' : option A) (f f' : A -> option B) r,
  (forall a, o = Some a -> o' = Some a) -> (forall a, f a = Some r -> f' a = Some r) ->
  cbind o f = Some r -> cbind o' f' = Some r.
Proof.
  intros A B o o' f f' r O F H. apply cbind_some in H as [a [E H]].
  rewrite (O a E). exact (F a H).
Qed.

Lemma integrate_impl_below : forall n m, below n m -> forall lo up x e r,
  integrate_impl n lo up x e = Some r -> integrate_impl m lo up x e = Some r.
Proof.
  intros n m B lo up x. pose proof (simplify_below n m B) as S.
  induction e as [c|j|s|op y IH|op l IHl r0 IHr]; intros r.
  - rewrite !integrate_const. apply S.
  - rewrite !integrate_var. apply S.
  - discriminate.
  - discriminate.
  - assert (SUM : op = CPlus \/ op = CMinus ->
      integrate_impl n lo up x (CBin op l r0) = Some r ->
      integrate_impl m lo up x (CBin op l r0) = Some r).
    { intros O. rewrite !integrate_sum by exact O.
      apply cbind_below; [exact IHl|]. intros a. apply cbind_below; [exact IHr|]. intros b. apply S. }
    destruct op; [apply SUM; auto|apply SUM; auto| |]; clear SUM.
    + rewrite !integrate_mult. apply cbind_below; [apply S|]. intros c.
      apply cbind_below; [auto|]. intros k. apply cbind_below; [auto|]. intros a.
      apply cbind_below; [auto|]. intros b. apply cbind_below; [apply S|]. intros p.
      apply cbind_below; [apply S|]. intros q. apply S.
    + rewrite !integrate_div. apply cbind_below; [exact IHl|]. intros a. apply S.
Qed.

Lemma ct_integrate_bin : forall n lo up x op l r, ct_integrate n lo up x (CBin op l r) =
  cbind (ct_expand (CBin op l r)) (fun e' =>
  cbind (ct_simplify n e') (fun s => integrate_impl n lo up x s)).
Proof. reflexivity. Qed.

Lemma ct_integrate_below : forall n m, below n m -> forall lo up x e r,
  ct_integrate n lo up x e = Some r -> ct_integrate m lo up x e = Some r.
Proof.
  intros n m B lo up x e r. pose proof (integrate_impl_below n m B lo up x) as S.
  destruct e as [c|j|t|op y|op l r0]; [apply S|apply S|discriminate|discriminate|].
  rewrite !ct_integrate_bin. apply cbind_below; [auto|]. intros e'.
  apply cbind_below; [apply (simplify_below n m B)|]. intros s. apply S.
Qed.

Lemma ct_eval_below : forall n m, below n m -> forall v e r,
  ct_eval n e v = Some r -> ct_eval m e v = Some r.
Proof.
  intros n m B v. induction e as [c|j|s|op y IH|op l IHl r0 IHr]; intros r H; try exact H.
  cbn [ct_eval] in *. apply cbind_some in H as [a [Ea H]]. apply cbind_some in H as [b [Eb H]].
  rewrite (IHl _ Ea), (IHr _ Eb). exact (simplify_below n m B _ _ H).
Qed.
