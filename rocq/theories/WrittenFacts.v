(** Facts about the trees of what a user writes. *)
From Coq Require Import ZArith NArith List Bool Reals Lia Lra.
From Verif Require Import Outcome Num NumR NumRFacts RtModel RtSpec RtFacts RealSpec RtDiff RtDiff2 RtSubst CtModel CtSpec
  CtGcd CtOpsModel CtOpsFacts CtManipModel CtManipSpec CtManipFacts ApiModel ApiSpec ApiFacts OverModel OverSpec
  OverFacts QuadModel QuadSpec QuadFacts WrittenSpec.
Import ListNotations.

(** ** Nodes of the trees *)

(** A node of a tree, in terms of what was written. *)
Definition node_written {n : Num.num} (s : src n) (u : expr n) : Prop :=
  match u with
  | EConst _ => True
  | EVar i => src_occurs i s
  | EFun i t => src_inside (SSymbol i t) s
  | EUn op a =>
      (exists f a' o', src_inside (SFun f a') s /\ op = func_op f /\ build n a' = Some o' /\
         to_tree n o' = Some a) \/
      (exists a', src_inside (SGrad a') s \/ src_inside (SDiv a') s \/ src_inside (SLaplace a') s)
  | EBin op _ _ => op <> BUnaryId
  | EInt _ _ _ _ | EVec _ => False
  end.

Lemma inside_trans : forall n (a b c : src n), src_inside a b -> src_inside b c -> src_inside a c.
Proof.
  intros n a b c H I.
  induction I; auto using SI_left, SI_right, SI_fun, SI_grad, SI_div, SI_laplace, SI_expr.
Qed.

Lemma inside_occurs : forall n (a b : src n) i, src_inside a b -> src_occurs i a -> src_occurs i b.
Proof. intros n a b i H O. induction H; simpl; auto. Qed.

Lemma inside_quotient : forall n (a b : src n), src_inside a b -> no_constant_quotient b ->
  no_constant_quotient a.
Proof. intros n a b H Q. induction H; simpl in *; tauto. Qed.

Lemma inside_value : forall rho a s, src_inside a s -> forall z, src_val rho s = Some z ->
  exists w, src_val rho a = Some w.
Proof.
  intros rho a s H. induction H; intros z Z; cbn [src_val] in Z; try discriminate; eauto.
  - destruct (src_val rho x) eqn:E; [|discriminate]. eauto.
  - destruct (src_val rho x) eqn:E; [|discriminate]. destruct (src_val rho y) eqn:F; [|discriminate]. eauto.
  - destruct (src_val rho x) eqn:E; [|discriminate]. eauto.
Qed.

Lemma node_inside : forall n (a b : src n) u, src_inside a b -> node_written a u -> node_written b u.
Proof.
  intros n a b u H W. destruct u; simpl in *; auto.
  - exact (inside_occurs n a b _ H W).
  - exact (inside_trans n _ a b W H).
  - destruct W as [[f [a' [o' [I K]]]]|[a' W]].
    + left. exists f, a', o'. split; [exact (inside_trans n _ a b I H)|exact K].
    + right. exists a'. destruct W as [W|[W|W]]; pose proof (inside_trans n _ a b W H); auto.
Qed.

Lemma rt_op_not_id : forall op, rt_op op <> BUnaryId.
Proof. intros []; discriminate. Qed.

(** Nodes of the tree of a compile-time object. *)
Lemma to_rt_nodes : forall (n : Num.num) (m : mexpr n) t u, to_rt n m = Some t -> subterm u t ->
  match u with
  | EConst _ => True
  | EVar i => m_occurs i m
  | EBin op _ _ => op <> BUnaryId
  | _ => False
  end.
Proof.
  intros n. induction m as [c|s|i|t0|op a IH|op l IHl r IHr]; intros t u H S; try discriminate.
  - injection H as <-. inversion S. exact I.
  - injection H as <-. inversion S. exact I.
  - injection H as <-. inversion S. reflexivity.
  - rewrite to_rt_bin in H.
    assert (E : cbind (to_rt n l) (fun x => cbind (to_rt n r) (fun y =>
                  Some (EBin (rt_op op) x y))) = Some t)
      by (destruct l, r; (exact H || discriminate)).
    apply cbind_some in E as [x [E1 E]]. apply cbind_some in E as [y [E2 E]]. injection E as <-.
    inversion S; subst.
    + apply rt_op_not_id.
    + specialize (IHl x u E1 ltac:(assumption)). destruct u; auto. simpl. auto.
    + specialize (IHr y u E2 ltac:(assumption)). destruct u; auto. simpl. auto.
Qed.

Lemma generic_rt : forall n op a b e, generic n op a b = Some (Rt e) ->
  exists x y, to_rt n a = Some x /\ to_rt n b = Some y /\ e = EBin (rt_op op) x y.
Proof.
  intros n op a b e H. unfold generic in H.
  destruct a, b;
    try (apply cbind_some in H as [x [E1 H]]; apply cbind_some in H as [y [E2 H]]; injection H as <-;
         exists x, y; auto);
    match type of H with (if ?c then _ else _) = _ => destruct c end; discriminate.
Qed.

Lemma combine_rt : forall n op a b e, combine n op a b = Some (Rt e) ->
  exists x y, to_rt n a = Some x /\ to_rt n b = Some y /\ e = EBin (rt_op op) x y.
Proof.
  intros n op a b e H.
  assert (G : generic n op a b = Some (Rt e) ->
    exists x y, to_rt n a = Some x /\ to_rt n b = Some y /\ e = EBin (rt_op op) x y)
    by apply generic_rt.
  destruct op; cbn [combine] in H; unfold plus, minus, times, over in H;
  destruct a as [c|s|i|t|o a|o l1 r1], b as [d|s'|j|t'|o' b|o' l2 r2]; try (exact (G H));
  repeat match type of H with
  | (if ?c then _ else _) = _ => destruct c
  | (match ?x with CPlus => _ | _ => _ end) = _ => destruct x; try (exact (G H))
  | (match ?x with MConst _ => _ | _ => _ end) = _ => destruct x; try (exact (G H))
  | cbind _ _ = _ => let E := fresh in apply cbind_some in H as [? [E H]]
  end; try (exact (G H)); discriminate.
Qed.

Lemma tree_nodes : forall n s o t u, build n s = Some o -> to_tree n o = Some t -> subterm u t ->
  node_written s u.
Proof.
  intros n. induction s as [x|z|x|i|z|i|i t0|op a IHa b IHb|f a IH|a IH|a IH|a IH|a IH];
    intros o t u B T S; cbn [build] in B.
  - injection B as <-. injection T as <-. inversion S. exact I.
  - injection B as <-. injection T as <-. inversion S. exact I.
  - injection B as <-. injection T as <-. inversion S. exact I.
  - injection B as <-. injection T as <-. inversion S. reflexivity.
  - injection B as <-. injection T as <-. inversion S. exact I.
  - injection B as <-. injection T as <-. inversion S. reflexivity.
  - injection B as <-. injection T as <-. inversion S. constructor.
  - destruct (build n a) as [p|] eqn:A; [|discriminate]. destruct (build n b) as [q|] eqn:B'; [|discriminate].
    assert (K : forall x y, to_tree n p = Some x -> to_tree n q = Some y -> t = EBin (rt_op op) x y ->
      node_written (SOp op a b) u).
    { intros x y X Y ->. inversion S; subst.
      - apply rt_op_not_id.
      - apply (node_inside n a); [apply SI_left, SI_here|]. eapply IHa; eauto.
      - apply (node_inside n b); [apply SI_right, SI_here|]. eapply IHb; eauto. }
    destruct (operator_rt _ _ _ _ _ B) as [[m1 [m2 [-> ->]]]|[t1 [t2 [T1 [T2 ->]]]]].
    + cbn [operator] in B. destruct (combine n op m1 m2) as [[m|e]|] eqn:C; try discriminate;
        injection B as <-.
      * apply combine_ct in C as [C1 _]. pose proof (to_rt_nodes n m t u T S) as N.
        pose proof (build_written _ _ _ A) as [WA _]. pose proof (build_written _ _ _ B') as [WB _].
        destruct u; simpl in *; auto; try contradiction.
        destruct (C1 _ N); auto.
      * apply combine_rt in C as [x [y [X [Y ->]]]]. injection T as <-. exact (K x y X Y eq_refl).
    + injection T as <-. exact (K t1 t2 T1 T2 eq_refl).
  - destruct (build n a) as [p|] eqn:A; [|discriminate]. apply apply_rt in B as [e [E ->]].
    injection T as <-. inversion S; subst.
    + left. exists f, a, p. split; [constructor|auto].
    + apply (node_inside n a); [apply SI_fun, SI_here|]. eapply IH; eauto.
  - destruct (build n a) as [p|] eqn:A; [|discriminate].
    assert (E : exists e, to_tree n p = Some e /\ o = ORt (EUn UGrad e)).
    { destruct p as [x|z|[]|[]|e]; try discriminate; injection B as <-; eexists; split; reflexivity. }
    destruct E as [e [E ->]]. injection T as <-. inversion S; subst.
    + right. exists a. left. constructor.
    + apply (node_inside n a); [apply SI_grad, SI_here|]. eapply IH; eauto.
  - destruct (build n a) as [p|] eqn:A; [|discriminate].
    assert (E : exists e, to_tree n p = Some e /\ o = ORt (EUn UDiv e)).
    { destruct p as [x|z|[]|[]|e]; try discriminate; injection B as <-; eexists; split; reflexivity. }
    destruct E as [e [E ->]]. injection T as <-. inversion S; subst.
    + right. exists a. right. left. constructor.
    + apply (node_inside n a); [apply SI_div, SI_here|]. eapply IH; eauto.
  - destruct (build n a) as [p|] eqn:A; [|discriminate].
    assert (E : exists e, to_tree n p = Some e /\ o = ORt (EUn UDiv (EUn UGrad e))).
    { destruct p as [x|z|[]|[]|e]; try discriminate; injection B as <-; eexists; split; reflexivity. }
    destruct E as [e [E ->]]. injection T as <-.
    assert (L : exists a', src_inside (SGrad a') (SLaplace a) \/ src_inside (SDiv a') (SLaplace a) \/
                  src_inside (SLaplace a') (SLaplace a)) by (exists a; right; right; constructor).
    inversion S as [|? ? ? S1| | | | | |]; subst; [right; exact L|].
    inversion S1; subst; [right; exact L|].
    apply (node_inside n a); [apply SI_laplace, SI_here|]. eapply IH; eauto.
  - destruct (build n a) as [p|] eqn:A; [|discriminate]. unfold to_expr in B.
    destruct (to_tree n p) as [e|] eqn:E; [|discriminate]. injection B as <-. injection T as <-.
    apply (node_inside n a); [apply SI_expr, SI_here|]. eapply IH; eauto.
Qed.

(** ** Values of the literal tree *)

Definition matching (rho : N -> R) (v : list (option R)) (s : src numR) : Prop :=
  forall i, src_occurs i s -> nth_error v (N.to_nat i) = Some (Some (rho i)).

Lemma literal_value : forall rho v s, matching rho v s ->
  match eval numR (src_tree s) v with
  | Ok w => w = src_val rho s
  | _ => src_val rho s = None
  end.
Proof.
  intros rho v.
  assert (F : forall f a, src_tree (SFun f a) = EUn (func_op f) (src_tree (n := numR) a))
    by (intros [] a; reflexivity).
  assert (O : forall op a b, src_tree (SOp op a b) = EBin (rt_op op) (src_tree (n := numR) a) (src_tree b))
    by (intros [] a b; reflexivity).
  induction s as [x|z|x|i|z|i|i t|op a IHa b IHb|f a IH|a IH|a IH|a IH|a IH]; intros V;
    try reflexivity.
  - cbn [src_tree eval]. specialize (V i eq_refl). cbn. rewrite V.
    assert (L : (N.to_nat i < length v)%nat) by (apply nth_error_Some; rewrite V; discriminate).
    destruct (N.leb_spec (N.of_nat (length v)) i); [lia|reflexivity].
  - cbn [src_tree eval]. specialize (V i eq_refl). cbn. rewrite V.
    assert (L : (N.to_nat i < length v)%nat) by (apply nth_error_Some; rewrite V; discriminate).
    destruct (N.leb_spec (N.of_nat (length v)) i); [lia|reflexivity].
  - rewrite O. cbn [eval src_val]. specialize (IHa ltac:(intros i I; apply V; simpl; auto)).
    specialize (IHb ltac:(intros i I; apply V; simpl; auto)).
    destruct (eval numR (src_tree a) v) as [x|e|]; destruct (eval numR (src_tree b) v) as [y|e'|];
      unfold both; cbn [bind]; rewrite ?IHa, ?IHb; try reflexivity;
      try (destruct (src_val rho a); reflexivity).
    destruct (src_val rho a) as [p|]; [|destruct op; reflexivity].
    destruct (src_val rho b) as [q|]; [|destruct op; reflexivity].
    rewrite op_apply. reflexivity.
  - rewrite F. cbn [eval src_val]. specialize (IH V).
    destruct (eval numR (src_tree a) v) as [x|e|]; cbn [bind]; rewrite IH; try reflexivity.
    destruct (src_val rho a) as [p|]; [|destruct f; reflexivity].
    rewrite func_apply. reflexivity.
  - cbn [src_tree eval src_val]. destruct (eval numR (src_tree a) v); reflexivity.
  - cbn [src_tree eval src_val]. destruct (eval numR (src_tree a) v); reflexivity.
  - cbn [src_tree eval src_val]. destruct (eval numR (src_tree a) v); reflexivity.
  - exact (IH V).
Qed.

Lemma literal_nodes : forall (s : src numR) op x, subterm (EUn op x) (src_tree s) ->
  (exists f a, src_inside (SFun f a) s /\ op = func_op f /\ x = src_tree a) \/ op = UGrad \/ op = UDiv.
Proof.
  assert (F : forall f a, src_tree (SFun f a) = EUn (func_op f) (src_tree (n := numR) a))
    by (intros [] a; reflexivity).
  assert (O : forall op a b, src_tree (SOp op a b) = EBin (rt_op op) (src_tree (n := numR) a) (src_tree b))
    by (intros [] a b; reflexivity).
  induction s as [y|z|y|i|z|i|i t|o a IHa b IHb|f a IH|a IH|a IH|a IH|a IH]; intros op x S;
    try (inversion S; fail).
  - rewrite O in S. inversion S; subst.
    + destruct (IHa op x ltac:(assumption)) as [[f [c [I K]]]|K]; [|auto].
      left. exists f, c. split; [apply SI_left; exact I|exact K].
    + destruct (IHb op x ltac:(assumption)) as [[f [c [I K]]]|K]; [|auto].
      left. exists f, c. split; [apply SI_right; exact I|exact K].
  - rewrite F in S. inversion S; subst.
    + left. exists f, a. split; [constructor|auto].
    + destruct (IH op x ltac:(assumption)) as [[g [c [I K]]]|K]; [|auto].
      left. exists g, c. split; [apply SI_fun; exact I|exact K].
  - cbn [src_tree] in S. inversion S; subst; [auto|].
    destruct (IH op x ltac:(assumption)) as [[g [c [I K]]]|K]; [|auto].
    left. exists g, c. split; [apply SI_grad; exact I|exact K].
  - cbn [src_tree] in S. inversion S; subst; [auto|].
    destruct (IH op x ltac:(assumption)) as [[g [c [I K]]]|K]; [|auto].
    left. exists g, c. split; [apply SI_div; exact I|exact K].
  - cbn [src_tree] in S. inversion S as [|? ? ? S1| | | | | |]; subst; [auto|].
    inversion S1; subst; [auto|].
    destruct (IH op x ltac:(assumption)) as [[g [c [I K]]]|K]; [|auto].
    left. exists g, c. split; [apply SI_laplace; exact I|exact K].
  - cbn [src_tree] in S. destruct (IH op x S) as [[g [c [I K]]]|K]; [|auto].
    left. exists g, c. split; [apply SI_expr; exact I|exact K].
Qed.

Lemma matching_inside : forall rho v a s, matching rho v s -> src_inside a s -> matching rho v a.
Proof. intros rho v a s M I i O. apply M. exact (inside_occurs numR a s i I O). Qed.

Lemma literal_some : forall rho v s z, matching rho v s -> src_val rho s = Some z ->
  eval numR (src_tree s) v = Ok (Some z).
Proof.
  intros rho v s z M Z. pose proof (literal_value rho v s M) as H.
  destruct (eval numR (src_tree s) v); [|rewrite Z in H; discriminate H|rewrite Z in H; discriminate H].
  rewrite H, Z. reflexivity.
Qed.

Lemma smooth_literal : forall rho v s, smooth rho s -> matching rho v s -> regular (src_tree s) v.
Proof.
  intros rho v s [[z Z] [A Q]] M. split; [|split].
  - exists z. exact (literal_some rho v s z M Z).
  - intros x S. destruct (literal_nodes s _ _ S) as [[f [a [I [E _]]]]|[E|E]]; try discriminate.
    destruct f; try discriminate. exact (A a I).
  - intros x S. destruct (literal_nodes s _ _ S) as [[f [a [I [E ->]]]]|[E|E]]; try discriminate.
    destruct f; try discriminate. intros V.
    assert (Ia : src_inside a s) by (apply (inside_trans _ _ (SFun FSqrt a)); [apply SI_fun, SI_here|exact I]).
    pose proof (literal_value rho v a (matching_inside _ _ _ _ M Ia)) as H. rewrite V in H.
    exact (Q a I (eq_sym H)).
Qed.

Lemma tree_value : forall rho v s o t z, matching rho v s -> no_constant_quotient s ->
  build numR s = Some o -> to_tree numR o = Some t -> src_val rho s = Some z ->
  eval numR t v = Ok (Some z).
Proof.
  intros rho v s o t z M Q B T Z. pose proof (build_value rho v s o z M Q B Z) as H.
  pose proof (build_written _ _ _ B) as W. apply (to_tree_value rho v o z t); auto.
  destruct o; auto. destruct W as [W _]. auto.
Qed.

Lemma smooth_tree : forall rho v s o t, smooth rho s -> matching rho v s -> no_constant_quotient s ->
  build numR s = Some o -> to_tree numR o = Some t -> regular t v.
Proof.
  intros rho v s o t [[z Z] [A Q]] M NQ B T.
  assert (D : forall a, src_inside (SGrad a) s \/ src_inside (SDiv a) s \/ src_inside (SLaplace a) s -> False).
  { intros a [I|[I|I]]; destruct (inside_value rho _ _ I z Z) as [w W]; discriminate. }
  split; [|split].
  - exists z. exact (tree_value rho v s o t z M NQ B T Z).
  - intros x S. pose proof (tree_nodes _ _ _ _ _ B T S) as [[f [a [o' [I [E _]]]]]|[a K]];
      [|exact (D a K)].
    destruct f; try discriminate. exact (A a I).
  - intros x S. pose proof (tree_nodes _ _ _ _ _ B T S) as [[f [a [o' [I [E [B' T']]]]]]|[a K]];
      [|destruct (D a K)].
    destruct f; try discriminate. intros V.
    assert (Ia : src_inside a s) by (apply (inside_trans _ _ (SFun FSqrt a)); [apply SI_fun, SI_here|exact I]).
    destruct (inside_value rho a s Ia z Z) as [w W].
    rewrite (tree_value rho v a o' x w) in V; auto.
    + injection V as ->. exact (Q a I W).
    + exact (matching_inside _ _ _ _ M Ia).
    + exact (inside_quotient _ _ _ Ia NQ).
Qed.

(** ** Derivatives *)

Lemma diff_by_var : forall (n : Num.num) o x i r t, x = ByVar i \/ x = ByCt i -> diff_obj n o x = Some r ->
  to_tree n o = Some t -> (forall j k, o <> ORt (EFun j k)) ->
  r = omap OExpr (diff_top n (DVar i) t) \/
  (exists d e, r = Ok d /\ to_tree n d = Some e /\ diff n (DVar i) t = Ok e).
Proof.
  intros n o x i r t X H T F.
  destruct o as [y|y|m|e|e].
  - destruct X as [-> | ->]; try discriminate H. injection H as <-. injection T as <-.
    right. eexists. eexists. repeat split.
  - destruct X as [-> | ->]; try discriminate H. injection H as <-. injection T as <-.
    right. eexists. eexists. repeat split.
  - destruct X as [-> | ->].
    + destruct m; try discriminate H; injection H as <-; injection T as <-;
        right; eexists; eexists; repeat split.
    + assert (C : match cbind (ct_type n m) (ct_diff i) with
       | Some d => Some (Ok (OCt (inj d))) | None => None end = Some r) by (destruct m; exact H).
      destruct (ct_type n m) as [c|] eqn:K; [|discriminate]. cbn [cbind] in C.
      destruct (ct_diff i c) as [d|] eqn:D; [|discriminate]. injection C as <-.
      cbn [to_tree] in T. rewrite (ct_type_inj _ _ _ K) in T.
      destruct (ct_diff_rt n i c d t D T) as [t' [T' D']].
      right. exists (OCt (inj d)), t'. auto.
  - injection T as <-. left.
    destruct X as [-> | ->]; destruct e; try discriminate H; try (exfalso; exact (F _ _ eq_refl));
      injection H as <-; reflexivity.
  - injection T as <-. left. destruct X as [-> | ->]; injection H as <-; reflexivity.
Qed.

Lemma matching_update : forall rho v s i x, matching rho v s -> (N.to_nat i < length v)%nat ->
  matching (fun j => if N.eqb j i then x else rho j) (update v (N.to_nat i) (Some x)) s.
Proof.
  intros rho v s i x M L j O. destruct (N.eqb_spec j i) as [->|N].
  - apply update_same. exact L.
  - rewrite update_other by lia. exact (M j O).
Qed.

Lemma plain_tree : forall (n : Num.num) c, m_plain (inj c : mexpr n) -> exists t, to_rt n (inj c) = Some t.
Proof.
  intros n. induction c as [c|i|k|op a IH|op l IHl r IHr]; intros P; simpl in P; try contradiction.
  - eexists. reflexivity.
  - eexists. reflexivity.
  - destruct P as [P1 P2]. destruct (IHl P1) as [t T]. destruct (IHr P2) as [u U].
    rewrite to_rt_bin_inj, T, U. eexists. reflexivity.
Qed.

Lemma diff_tree : forall n s o x i r, build n s = Some o -> x = ByVar i \/ x = ByCt i ->
  diff_obj n o x = Some r -> exists t, to_tree n o = Some t.
Proof.
  intros n s o x i r B X D. pose proof (build_written _ _ _ B) as W.
  destruct o as [y|y|m|e|e]; try (eexists; reflexivity).
  destruct X as [-> | ->].
  - destruct m; try discriminate D; eexists; reflexivity.
  - assert (C : match cbind (ct_type n m) (ct_diff i) with
      | Some d => Some (Ok (OCt (inj d))) | None => None end = Some r) by (destruct m; exact D).
    destruct (ct_type n m) as [c|] eqn:K; [|discriminate].
    cbn [to_tree]. rewrite (ct_type_inj _ _ _ K) in W |- *. destruct W as [_ [_ W]].
    exact (plain_tree n c W).
Qed.

Lemma derivative_written : forall s o x i r rho v,
  build numR s = Some o -> no_constant_quotient s -> smooth rho s ->
  nth_error v (N.to_nat i) = Some (Some (rho i)) -> matching rho v s ->
  x = ByVar i \/ x = ByCt i -> diff_obj numR o x = Some r ->
  exists d t y g, r = Ok d /\ to_tree numR d = Some t /\ eval numR t v = Ok (Some y) /\
    written_slice rho i s g /\ derivable_pt_lim g (rho i) y.
Proof.
  intros s o x i r rho v B Q S Hi M X D.
  assert (Li : (N.to_nat i < length v)%nat) by (apply nth_error_Some; rewrite Hi; discriminate).
  pose proof S as [[z Z] _].
  destruct (diff_tree numR s o x i r B X D) as [t T].
  assert (F : forall j k, o <> ORt (EFun j k)).
  { intros j k ->. injection T as <-. pose proof (tree_value rho v s _ _ z M Q B eq_refl Z) as E.
    discriminate E. }
  pose proof (proj1 (regular_reg t v) (smooth_tree rho v s o t S M Q B T)) as Rt.
  pose proof (proj1 (regular_reg _ v) (smooth_literal rho v s S M)) as Rl.
  destruct (partial_of_reg i v (rho i) t Hi Rt) as [g [[d1 [P1 G1]] G]].
  destruct (partial_of_reg i v (rho i) (src_tree s) Hi Rl) as [h [[d2 [P2 H2]] _]].
  assert (W : exists d t' , r = Ok d /\ to_tree numR d = Some t' /\
            eval numR t' v = Ok (Some (rv v (pdiff i t)))).
  { destruct (diff_by_var numR o x i r t X D T F) as [->|[d [e [-> [T' E]]]]].
    - unfold diff_top. rewrite (diff_pdiff i v t Rt). simpl bind.
      destruct (simplify_reg v _ (reg_pdiff i v t Rt)) as [d [E [Rd V]]]. rewrite E.
      exists (OExpr d), d. split; [reflexivity|]. split; [reflexivity|]. rewrite <- V. apply reg_eval. exact Rd.
    - exists d, e. split; [reflexivity|]. split; [exact T'|].
      rewrite (diff_pdiff i v t Rt) in E. injection E as <-. apply reg_eval. exact (reg_pdiff i v t Rt). }
  destruct W as [d [t' [-> [T' E]]]]. exists d, t', (rv v (pdiff i t)), g.
  split; [reflexivity|]. split; [exact T'|]. split; [exact E|]. split; [|exact G].
  exists (Rmin d1 d2). split; [apply Rmin_glb_lt; assumption|]. intros u U.
  pose proof (matching_update rho v s i u M Li) as M'.
  specialize (G1 u ltac:(apply Rlt_le_trans with (1 := U), Rmin_l)).
  specialize (H2 u ltac:(apply Rlt_le_trans with (1 := U), Rmin_r)).
  pose proof (literal_value _ _ s M') as L. rewrite H2 in L.
  pose proof (tree_value _ _ s o t (h u) M' Q B T (eq_sym L)) as E'. rewrite G1 in E'.
  injection E' as ->. exact (eq_sym L).
Qed.

(** ** Substitution *)

Lemma node_tree : forall (n : Num.num) o t, node n o = Some t -> to_tree n o = Some t.
Proof. intros n [x|x|[]|e|e] t H; try discriminate H; exact H. Qed.

Lemma subst_by_var : forall (n : Num.num) x i r e res tr,
  x = ORt (EVar i) \/ x = OExpr (EVar i) \/ x = OCt (MVar i) ->
  (is_ct e -> is_ct x /\ is_ct r) -> (is_ct x -> is_ct e) ->
  (forall m, e = OCt m -> m_plain m) ->
  subst_obj n x r e = Some res -> to_tree n r = Some tr ->
  exists te, to_tree n e = Some te /\
  (res = omap OExpr (subst1_top n (EVar i) tr te) \/
   (exists d t, res = Ok d /\ to_tree n d = Some t /\ subst1 n (EVar i) tr te = Ok t)).
Proof.
  intros n x i r e res tr X C1 C2 P H R.
  assert (K : forall r' e', Some (omap OExpr (subst1_top n (EVar i) r' e')) = Some res ->
    r' = tr -> to_tree n e = Some e' -> exists te, to_tree n e = Some te /\
    (res = omap OExpr (subst1_top n (EVar i) tr te) \/
     (exists d t, res = Ok d /\ to_tree n d = Some t /\ subst1 n (EVar i) tr te = Ok t))).
  { intros r' e' Q -> T. exists e'. split; [exact T|]. left. injection Q as <-. reflexivity. }
  assert (N : forall e', match node n r with
    | Some t => Some (omap OExpr (subst1_top n (EVar i) t e')) | None => None end = Some res ->
    to_tree n e = Some e' -> exists te, to_tree n e = Some te /\
    (res = omap OExpr (subst1_top n (EVar i) tr te) \/
     (exists d t, res = Ok d /\ to_tree n d = Some t /\ subst1 n (EVar i) tr te = Ok t))).
  { intros e' Q T. destruct (node n r) as [t|] eqn:E; [|discriminate].
    apply (K t e' Q); [|exact T]. pose proof (node_tree _ _ _ E). congruence. }
  destruct X as [-> | [-> | ->]].
  - destruct e as [y|y|[]|u|u]; try discriminate H.
    + apply (N _ H). reflexivity.
    + apply (N _ H). reflexivity.
    + destruct r as [z|z|[]|r|r]; try discriminate H; try (apply (N _ H); reflexivity).
      apply (K _ _ H); [|reflexivity]. injection R as <-. reflexivity.
  - destruct e as [y|y|m|e|e]; try discriminate H.
    + exfalso. destruct m; try discriminate H; destruct (C1 I) as [[] _].
    + destruct r as [z|z|mr|r|r]; try discriminate H.
      apply (K _ _ H); [|reflexivity]. injection R as <-. reflexivity.
  - specialize (C2 I). destruct e as [y|y|m|e|e]; try contradiction.
    destruct (C1 C2) as [_ IR]. destruct r as [z|z|mr|r|r]; try contradiction.
    cbn [subst_obj] in H. cbn [to_tree] in R |- *.
    destruct (ct_type n m) as [c|] eqn:Cm; [|discriminate].
    assert (Cr : exists cr, ct_type n mr = Some cr).
    { apply (ct_object n mr tr); [|exact R]. intros s ->. exact IR. }
    destruct Cr as [cr Cr]. rewrite Cr in H. cbn [ct_type] in H.
    pose proof (ct_type_inj _ _ _ Cr) as Er. pose proof (ct_type_inj _ _ _ Cm) as Em.
    subst m mr. destruct (plain_tree n c (P _ eq_refl)) as [te E]. exists te. split; [exact E|].
    destruct (ct_subst_var_rt n i cr c tr te R E) as [t [T1 T2]].
    assert (Q : res = Ok (OCt (inj (ct_subst (CVar i) cr c)))).
    { destruct (found (CVar i) c) eqn:Fd; cbn [negb] in H; [congruence|].
      rewrite (not_found (CVar i) cr c Fd). congruence. }
    right. exists (OCt (inj (ct_subst (CVar i) cr c))), t. split; [exact Q|]. split; [exact T1|exact T2].
Qed.

Lemma substitute_written : forall x i sr se r e res tr rho v w z,
  build numR sr = Some r -> build numR se = Some e ->
  no_constant_quotient sr -> no_constant_quotient se ->
  x = ORt (EVar i) \/ x = OExpr (EVar i) \/ x = OCt (MVar i) ->
  (is_ct e -> is_ct x /\ is_ct r) -> (is_ct x -> is_ct e) ->
  subst_obj numR x r e = Some res -> to_tree numR r = Some tr ->
  (N.to_nat i < length v)%nat -> matching rho v sr ->
  (forall j, j <> i -> src_occurs j se -> nth_error v (N.to_nat j) = Some (Some (rho j))) ->
  src_val rho sr = Some w -> src_val (fun j => if N.eqb j i then w else rho j) se = Some z ->
  exists d t, res = Ok d /\ to_tree numR d = Some t /\ eval numR t v = Ok (Some z).
Proof.
  intros x i sr se r e res tr rho v w z Br Be Qr Qe X C1 C2 H Tr L Mr Me W Z.
  destruct (subst_by_var numR x i r e res tr X C1 C2) as [te [Te K]]; auto.
  { intros m ->. pose proof (build_written _ _ _ Be) as [_ [_ P]]. exact P. }
  pose proof (tree_value rho v sr r tr w Mr Qr Br Tr W) as Er.
  assert (Ee : eval numR te (update v (N.to_nat i) (Some w)) = Ok (Some z)).
  { apply (tree_value (fun j => if N.eqb j i then w else rho j) _ se e); auto.
    intros j O. destruct (N.eqb_spec j i) as [->|N].
    - apply update_same. exact L.
    - rewrite update_other; [apply Me; auto|]. intros E. apply N. apply Nnat.N2Nat.inj. auto. }
  assert (Li : (i < N.of_nat (length v))%N) by lia.
  destruct K as [->|[d [t [-> [T K]]]]].
  - unfold subst1_top. rewrite subst1_var. cbn [bind].
    destruct (simplify_real v (replace_vars (fun j => if N.eqb i j then Some tr else None) te) z) as [e' [E1 E2]].
    { apply (eval_subst1_var numR i tr te v (Some w) (Some z) Er Li). exact Ee. }
    rewrite E1. exists (OExpr e'), e'. auto.
  - exists d, t. split; [reflexivity|]. split; [exact T|].
    rewrite subst1_var in K. injection K as <-.
    apply (eval_subst1_var numR i tr te v (Some w) (Some z) Er Li). exact Ee.
Qed.

(** ** Quadrature *)

Lemma arithmetic_inside : forall (n : Num.num) (a s : src n), src_inside a s -> arithmetic s -> arithmetic a.
Proof. intros n a s I. induction I; simpl; tauto. Qed.

Lemma arithmetic_occurs : forall (n : Num.num) (s : src n) i, arithmetic s -> ~ src_occurs i s.
Proof. intros n s i. induction s; simpl; tauto. Qed.

Lemma arithmetic_tree : forall (n : Num.num) s o t, build n s = Some o -> to_tree n o = Some t -> arithmetic s ->
  const_only t.
Proof.
  intros n s o t B T A u U. pose proof (tree_nodes n s o t u B T U) as W.
  destruct u; cbn [node_written] in W; auto.
  - exact (arithmetic_occurs n s _ A W).
  - exact (arithmetic_inside n _ s W A).
  - destruct W as [[f [a' [o' [I _]]]]|[a' [I|[I|I]]]]; exact (arithmetic_inside n _ s I A).
Qed.

Lemma tree_occurs : forall (n : Num.num) s o t i, build n s = Some o -> to_tree n o = Some t -> occurs_var i t ->
  src_occurs i s.
Proof. intros n s o t i B T O. exact (tree_nodes n s o t (EVar i) B T O). Qed.

(** The sides of an interval with run-time bounds are the trees of its arguments. *)
Lemma interval_sides : forall (n : Num.num) a b lo hi, make_interval n a b = Some (RtSides lo hi) ->
  to_tree n a = Some lo /\ to_tree n b = Some hi.
Proof.
  intros n a b lo hi H.
  assert (K : rt_sides n a b = Some (RtSides lo hi)).
  { destruct a as [x|x|[]|[]|x]; destruct b as [y|y|[]|[]|y]; try discriminate H; exact H. }
  unfold rt_sides in K. destruct (to_tree n a); [|discriminate]. destruct (to_tree n b); [|discriminate].
  injection K as <- <-. auto.
Qed.

Lemma quadrature_written : forall sa sb sf a b f I ct i o rho A B y,
  build numR sa = Some a -> build numR sb = Some b -> build numR sf = Some f ->
  no_constant_quotient sa -> no_constant_quotient sb -> no_constant_quotient sf ->
  arithmetic sa -> arithmetic sb -> (forall j, src_occurs j sf -> j = i) ->
  make_interval numR a b = Some I -> integral numR I f ct i = Some o ->
  src_val rho sa = Some A -> src_val rho sb = Some B ->
  src_val (fun _ => ((A + B) / 2)%R) sf = Some y ->
  exists t, o = OExpr t /\ quadrature numR (gauss_quad_1 numR) t = Ok (Some (y * (B - A))%R).
Proof.
  intros sa sb sf a b f I ct i o rho A B y Ba Bb Bf Qa Qb Qf Aa Ab O HI HO VA VB VY.
  destruct I as [lo hi|l r]; [|discriminate HO].
  destruct (interval_sides numR a b lo hi HI) as [Ta Tb].
  assert (Tf : exists t, to_tree numR f = Some t /\ o = OExpr (EInt lo hi i t)).
  { destruct f as [u|u|c|[]|e]; try discriminate HO.
    - cbn [integral] in HO. destruct ct; [|discriminate HO]. injection HO as <-. eexists. split; reflexivity.
    - injection HO as <-. eexists. split; reflexivity. }
  destruct Tf as [t [Tf ->]]. exists (EInt lo hi i t). split; [reflexivity|]. cbn [quadrature].
  set (v := repeat (@None R) (S (N.to_nat i))).
  assert (Lv : length v = S (N.to_nat i)) by apply repeat_length.
  apply (gauss_value lo hi i t v A B y).
  - exact (arithmetic_tree numR sa a lo Ba Ta Aa).
  - exact (arithmetic_tree numR sb b hi Bb Tb Ab).
  - apply (tree_value rho [] sa a lo A); auto. intros j J. destruct (arithmetic_occurs _ _ _ Aa J).
  - apply (tree_value rho [] sb b hi B); auto. intros j J. destruct (arithmetic_occurs _ _ _ Ab J).
  - intros j J. apply O. exact (tree_occurs numR sf f t j Bf Tf J).
  - lia.
  - apply (tree_value (fun _ => ((A + B) / 2)%R) _ sf f t y); auto.
    intros j J. rewrite (O j J). apply update_same. lia.
Qed.
