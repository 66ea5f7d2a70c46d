(** Facts about the user interface. *)
From Coq Require Import ZArith NArith List Bool Reals Lia Lra.
From Verif Require Import Outcome Num NumR RtModel CtModel CtSpec CtGcd CtOpsModel CtOpsFacts CtManipModel
  CtManipSpec CtManipFacts ApiModel ApiSpec.
Import ListNotations.

(** ** Operators keep what occurs *)
Lemma to_rt_occ : forall n m t, to_rt n m = Some t -> m_plain m.
Proof.
  intros n. induction m as [c|s|i|t0|op a IH|op l IHl r IHr]; intros t H; simpl; auto; try discriminate.
  rewrite to_rt_bin in H.
  assert (E : cbind (to_rt n l) (fun x => cbind (to_rt n r) (fun y =>
                Some (EBin (rt_op op) x y))) = Some t)
    by (destruct l, r; (exact H || discriminate)).
  apply cbind_some in E as [x [E1 E]]. apply cbind_some in E as [y [E2 E]]. eauto.
Qed.

Lemma generic_ct : forall n op a b m, generic n op a b = Some (Ct m) -> m = MBin op a b.
Proof.
  intros n op a b m H. unfold generic in H.
  destruct a, b;
    try (apply cbind_some in H as [x [E1 H]]; apply cbind_some in H as [y [E2 H]]; discriminate);
    match type of H with (if ?c then _ else _) = _ => destruct c end; congruence.
Qed.

(** What a compile-time result contains comes from the operands. *)
Lemma combine_ct : forall n op a b m, combine n op a b = Some (Ct m) ->
  (forall i, m_occurs i m -> m_occurs i a \/ m_occurs i b) /\
  (contains_rt m -> contains_rt a \/ contains_rt b) /\
  (m_plain a -> m_plain b -> m_plain m).
Proof.
  intros n op a b m H.
  assert (G : generic n op a b = Some (Ct m) ->
    (forall i, m_occurs i m -> m_occurs i a \/ m_occurs i b) /\
    (contains_rt m -> contains_rt a \/ contains_rt b) /\
    (m_plain a -> m_plain b -> m_plain m)).
  { intros G. apply generic_ct in G. subst m. simpl. auto. }
  destruct op; cbn [combine] in H; unfold plus, minus, times, over in H;
  destruct a as [c|s|i|t|o a|o l1 r1], b as [d|s'|j|t'|o' b|o' l2 r2]; try (exact (G H));
  repeat match type of H with
  | (if ?c then _ else _) = _ => destruct c
  | (match ?x with CPlus => _ | _ => _ end) = _ => destruct x; try (exact (G H))
  | (match ?x with MConst _ => _ | _ => _ end) = _ => destruct x; try (exact (G H))
  | cbind _ _ = _ => let E := fresh in apply cbind_some in H as [? [E H]]
  end; try (exact (G H)); try discriminate; injection H as <-; simpl; repeat split; intuition.
Qed.

Lemma same_type_rt : forall n (a b : mexpr n), same_type a b = true -> contains_rt a -> contains_rt b.
Proof.
  intros n. induction a as [c|s|i|t|op a IH|op l IHl r IHr]; intros [d|s'|j|t'|op' a'|op' l' r'] H C;
    simpl in *; try discriminate; auto.
  - apply andb_prop in H as [H1 H2]. eauto.
  - apply andb_prop in H as [H H2]. apply andb_prop in H as [H0 H1]. destruct C; eauto.
Qed.

(** The value of a result, with a weaker condition on quotients. *)
Lemma combine_value2 : forall rho phi un op a b r v z, combine numR op a b = Some r ->
  (op = CDiv -> contains_rt a -> contains_rt b -> False) ->
  (forall i, m_occurs i a \/ m_occurs i b -> nth_error v (N.to_nat i) = Some (Some (rho i))) ->
  mval rho phi un (MBin op a b) = Some z -> result_is rho phi un v r z.
Proof.
  intros rho phi un op a b r v z H D V Z.
  destruct op; try (apply (combine_value rho phi un _ a b r v z H); [congruence|exact V|exact Z]).
  assert (K : ~ contains_rt a \/ generic numR CDiv a b = Some r).
  { cbn [combine] in H. unfold over in H. destruct a, b; auto.
    destruct (same_type (MBin op a1 a2) (MBin op0 b1 b2)) eqn:S; [|auto].
    left. intros C. exact (D eq_refl C (same_type_rt numR _ _ S C)). }
  destruct K as [K|K].
  - apply (combine_value rho phi un CDiv a b r v z H); auto.
  - exact (generic_value rho phi un CDiv a b r v z K V Z).
Qed.

(** ** Values *)
Lemma func_apply : forall f x, u_apply numR (func_op f) (Some x) = Ok (func_val f x).
Proof.
  intros [] x; simpl; try reflexivity; unfold r_eqb, r_leb, r_ltb.
  - destruct (Req_EM_T (cos x) 0); reflexivity.
  - destruct (Rle_dec 0 x); reflexivity.
  - destruct (Rlt_dec 0 x); reflexivity.
  - destruct (Rlt_dec 0 x); reflexivity.
Qed.

Lemma op_apply : forall op x y,
  b_apply numR (rt_op op) (Some x) (Some y) = Ok (op_val op x y).
Proof.
  intros [] x y; simpl; try reflexivity. unfold r_eqb. destruct (Req_EM_T y 0); reflexivity.
Qed.

Lemma call_value : forall rho phi un v m z, m_plain m ->
  (forall i, m_occurs i m -> nth_error v (N.to_nat i) = Some (Some (rho i))) ->
  mval rho phi un m = Some z -> call numR m v = Some (Ok (Some z)).
Proof.
  intros rho phi un v. induction m as [c|s|i|t|op a IH|op l IHl r IHr]; intros z P V Z; simpl in P;
    try contradiction.
  - injection Z as <-. reflexivity.
  - simpl in *. congruence.
  - injection Z as <-. specialize (V i eq_refl). simpl. rewrite V.
    assert (L : (N.to_nat i < length v)%nat) by (apply nth_error_Some; rewrite V; discriminate).
    destruct (N.leb_spec (N.of_nat (length v)) i); [lia|reflexivity].
  - apply mval_bin in Z as [x [y [X [Y Z]]]]. destruct P as [P1 P2]. cbn [call].
    rewrite (IHl x P1 ltac:(intros; apply V; simpl; auto) X),
      (IHr y P2 ltac:(intros; apply V; simpl; auto) Y).
    cbn [cbind both bind]. unfold both. simpl bind. rewrite op_apply, Z. reflexivity.
Qed.

(** The object has the value [z]. *)
Definition has_value (rho : N -> R) (v : list (option R)) (o : obj numR) (z : R) : Prop :=
  match o with
  | ONum x => x = Some z
  | OInt k => IZR k = z
  | OCt m => mval rho (fun _ => 0%R) (fun _ _ => None) m = Some z
  | ORt e | OExpr e => eval numR e v = Ok (Some z)
  end.

(** What a compile-time object contains was written. *)
Definition contains_written {n : Num.num} (o : obj n) (s : src n) : Prop :=
  match o with
  | OCt m => (forall i, m_occurs i m -> src_occurs i s) /\ (contains_rt m -> src_rt s) /\ m_plain m
  | _ => True
  end.

Lemma operator_rt : forall n op a b o, operator n op a b = Some o ->
  (exists x y, a = OCt x /\ b = OCt y) \/
  exists x y, to_tree n a = Some x /\ to_tree n b = Some y /\ o = ORt (EBin (rt_op op) x y).
Proof.
  intros n op a b o H.
  assert (K : forall (c : bool),
    (if c then match to_tree n a, to_tree n b with
               | Some x, Some y => Some (ORt (EBin (rt_op op) x y))
               | _, _ => None end else None) = Some o ->
    exists x y, to_tree n a = Some x /\ to_tree n b = Some y /\ o = ORt (EBin (rt_op op) x y)).
  { intros [] K; [|discriminate]. destruct (to_tree n a) as [x|]; [|discriminate].
    destruct (to_tree n b) as [y|]; [|discriminate]. injection K as <-. exists x, y. auto. }
  destruct a as [x|z|x|[]|e], b as [y|z'|y|[]|e']; cbn [operator] in H;
    try (right; match type of H with (if ?c then _ else _) = _ => exact (K c H) end); try discriminate.
  left. eauto.
Qed.

Lemma operator_ct : forall n op a b m, operator n op a b = Some (OCt m) ->
  exists x y, a = OCt x /\ b = OCt y /\ combine n op x y = Some (Ct m).
Proof.
  intros n op a b m H. destruct (operator_rt _ _ _ _ _ H) as [[x [y [-> ->]]]|[x [y [_ [_ E]]]]]; [|discriminate].
  exists x, y. cbn [operator] in H. destruct (combine n op x y) as [[]|]; try discriminate.
  injection H as ->. auto.
Qed.

Lemma apply_rt : forall n f o o', apply n f o = Some o' ->
  exists e, to_tree n o = Some e /\ o' = ORt (EUn (func_op f) e).
Proof.
  intros n f o o' H. unfold apply in H.
  destruct o as [x|z|[]|[]|e]; try discriminate;
    try (injection H as <-; eexists; split; reflexivity).
  - match type of H with match ?t with _ => _ end = _ => destruct t eqn:E; [|discriminate] end.
    injection H as <-. eexists. split; [exact E|reflexivity].
  - destruct f; try discriminate; injection H as <-; eexists; split; reflexivity.
  - destruct f; try discriminate; injection H as <-; eexists; split; reflexivity.
Qed.

Lemma grad_rt : forall n o o', grad n o = Some o' -> exists e, o' = ORt e.
Proof. intros n o o' H. destruct o as [x|z|[]|[]|e]; try discriminate; injection H as <-; eauto. Qed.
Lemma div_rt : forall n o o', div n o = Some o' -> exists e, o' = ORt e.
Proof. intros n o o' H. destruct o as [x|z|[]|[]|e]; try discriminate; injection H as <-; eauto. Qed.
Lemma laplace_rt : forall n o o', laplace n o = Some o' -> exists e, o' = ORt e.
Proof.
  intros n o o' H. destruct o as [x|z|[]|[]|e]; try discriminate; simpl in H; injection H as <-; eauto.
Qed.

Lemma build_written : forall n s o, build n s = Some o -> contains_written o s.
Proof.
  intros n. induction s as [x|z|x|i|z|i|i t|op a IHa b IHb|f a IH|a IH|a IH|a IH|a IH]; intros o H;
    cbn [build] in H; try (injection H as <-; simpl; intuition; fail).
  - destruct (build n a) as [x|] eqn:A; [|discriminate]. destruct (build n b) as [y|] eqn:B; [|discriminate].
    destruct o as [w|w|m|e|e]; simpl; auto.
    apply operator_ct in H as [p [q [-> [-> C]]]]. apply combine_ct in C as [C1 [C2 C3]].
    destruct (IHa _ eq_refl) as [A1 [A2 A3]]. destruct (IHb _ eq_refl) as [B1 [B2 B3]].
    split; [|split; auto].
    + intros i I. destruct (C1 i I); auto.
    + intros I. destruct (C2 I); auto.
  - destruct (build n a) as [x|]; [|discriminate]. apply apply_rt in H as [e [_ ->]]. exact I.
  - destruct (build n a) as [x|]; [|discriminate]. apply grad_rt in H as [e ->]. exact I.
  - destruct (build n a) as [x|]; [|discriminate]. apply div_rt in H as [e ->]. exact I.
  - destruct (build n a) as [x|]; [|discriminate]. apply laplace_rt in H as [e ->]. exact I.
  - destruct (build n a) as [x|]; [|discriminate]. unfold to_expr in H.
    destruct (to_tree n x); [|discriminate]. injection H as <-. exact I.
Qed.

Lemma to_tree_value : forall rho v o z t,
  match o with OCt m => forall i, m_occurs i m -> nth_error v (N.to_nat i) = Some (Some (rho i))
  | _ => True end ->
  has_value rho v o z -> to_tree numR o = Some t -> eval numR t v = Ok (Some z).
Proof.
  intros rho v [x|k|m|e|e] z t V H T; simpl in H; cbn [to_tree] in T.
  - injection T as <-. subst. reflexivity.
  - injection T as <-. subst. reflexivity.
  - rewrite (to_rt_val rho (fun _ => 0%R) (fun _ _ => None) m t T v V). rewrite H. reflexivity.
  - injection T as <-. exact H.
  - injection T as <-. exact H.
Qed.

Lemma build_value : forall rho v s o z,
  (forall i, src_occurs i s -> nth_error v (N.to_nat i) = Some (Some (rho i))) ->
  no_constant_quotient s -> build numR s = Some o -> src_val rho s = Some z ->
  has_value rho v o z.
Proof.
  intros rho v. induction s as [x|k|x|i|k|i|i t|op a IHa b IHb|f a IH|a IH|a IH|a IH|a IH];
    intros o z V Q H Z; cbn [build] in H; cbn [src_val] in Z; try discriminate.
  - injection H as <-. exact Z.
  - injection H as <-. simpl. congruence.
  - injection H as <-. exact Z.
  - injection H as <-. specialize (V i eq_refl). simpl. rewrite V.
    assert (L : (N.to_nat i < length v)%nat) by (apply nth_error_Some; rewrite V; discriminate).
    destruct (N.leb_spec (N.of_nat (length v)) i); [lia|congruence].
  - injection H as <-. exact Z.
  - injection H as <-. exact Z.
  - destruct (build numR a) as [p|] eqn:A; [|discriminate].
    destruct (build numR b) as [q|] eqn:B; [|discriminate].
    destruct (src_val rho a) as [x|] eqn:X; [|discriminate].
    destruct (src_val rho b) as [y|] eqn:Y; [|discriminate].
    cbn [src_occurs] in V. destruct Q as [Qa [Qb D]].
    pose proof (IHa p x ltac:(intros; apply V; auto) Qa eq_refl eq_refl) as HA.
    pose proof (IHb q y ltac:(intros; apply V; auto) Qb eq_refl eq_refl) as HB.
    pose proof (build_written _ _ _ A) as WA. pose proof (build_written _ _ _ B) as WB.
    destruct (operator_rt _ _ _ _ _ H) as [[m1 [m2 [-> ->]]]|[t1 [t2 [T1 [T2 ->]]]]].
    + cbn [operator] in H. destruct WA as [A1 [A2 A3]], WB as [B1 [B2 B3]].
      destruct (combine numR op m1 m2) as [r|] eqn:C; [|discriminate].
      assert (R : result_is rho (fun _ => 0%R) (fun _ _ => None) v r z).
      { apply (combine_value2 rho _ _ op m1 m2 r v z C).
        - intros E c1 c2. exact (D E (A2 c1) (B2 c2)).
        - intros i [I|I]; apply V; auto.
        - apply mval_bin. exists x, y. auto. }
      destruct r; injection H as <-; exact R.
    + simpl. rewrite (to_tree_value rho v p x t1), (to_tree_value rho v q y t2); auto.
      * cbn [both]. unfold both. simpl bind. rewrite op_apply, Z. reflexivity.
      * destruct q; auto. destruct WB as [B1 _]. intros i I. apply V. auto.
      * destruct p; auto. destruct WA as [A1 _]. intros i I. apply V. auto.
  - destruct (build numR a) as [p|] eqn:A; [|discriminate].
    destruct (src_val rho a) as [x|] eqn:X; [|discriminate].
    apply apply_rt in H as [t [T ->]].
    pose proof (IH p x V Q eq_refl eq_refl) as HA. pose proof (build_written _ _ _ A) as WA.
    simpl. rewrite (to_tree_value rho v p x t); auto.
    + simpl. rewrite func_apply, Z. reflexivity.
    + destruct p; auto. destruct WA as [A1 _]. intros i I. apply V. simpl. auto.
  - destruct (build numR a) as [p|] eqn:A; [|discriminate]. unfold to_expr in H.
    destruct (to_tree numR p) as [t|] eqn:T; [|discriminate]. injection H as <-. simpl.
    pose proof (build_written _ _ _ A) as WA.
    apply (to_tree_value rho v p z t); auto.
    destruct p; auto. destruct WA as [A1 _]. intros i I. apply V. simpl. auto.
Qed.

(** ** Trees *)

(** A run-time object holding the tree, of the class the source says. *)
Definition holds_tree {n : Num.num} (s : src n) (o : obj n) : Prop :=
  match s with SExpr _ => o = OExpr (src_tree s) | _ => o = ORt (src_tree s) end.

Lemma leaf_tree : forall n (s : src n), leaf s -> exists o, build n s = Some o /\
  to_tree n o = Some (src_tree s).
Proof. intros n [] L; try contradiction; eexists; split; reflexivity. Qed.

Lemma operator_trees : forall n op (s : src n) a b x y,
  to_tree n a = Some x -> to_tree n b = Some y ->
  (exists p, a = ORt p \/ a = OExpr p) \/ (exists p, b = ORt p \/ b = OExpr p) ->
  (forall es, a <> ORt (EVec es)) -> (forall es, b <> ORt (EVec es)) ->
  operator n op a b = Some (ORt (EBin (rt_op op) x y)).
Proof.
  intros n op s a b x y A B R Va Vb.
  assert (K : (exists p q, a = OCt p /\ b = OCt q) \/
    operator n op a b = if is_viennamath n a || is_viennamath n b
      then match to_tree n a, to_tree n b with
           | Some x, Some y => Some (ORt (EBin (rt_op op) x y))
           | _, _ => None end else None).
  { destruct a as [c|c|c|[]|c], b as [d|d|d|[]|d]; try (right; reflexivity); try (left; eauto; fail);
      try (exfalso; eapply Va; reflexivity); try (exfalso; eapply Vb; reflexivity). }
  destruct K as [[p [q [-> ->]]]|K].
  - exfalso. destruct R as [[t [E|E]]|[t [E|E]]]; discriminate.
  - rewrite K, A, B.
    assert (W : is_viennamath n a || is_viennamath n b = true).
    { apply orb_true_iff. destruct R as [[t [->| ->]]|[t [->| ->]]]; auto.
      - left. destruct t; auto. exfalso. eapply Va; reflexivity.
      - right. destruct t; auto. exfalso. eapply Vb; reflexivity. }
    rewrite W. reflexivity.
Qed.

Lemma src_tree_not_vec : forall n (s : src n) es, src_tree s <> EVec es.
Proof.
  intros n. induction s as [x|z|x|i|z|i|i t|op a IHa b IHb|f a IH|a IH|a IH|a IH|a IH]; intros es;
    simpl; try discriminate; try (destruct op; discriminate); try (destruct f; discriminate). apply IH.
Qed.

Lemma src_tree_op : forall n op (a b : src n),
  src_tree (SOp op a b) = EBin (rt_op op) (src_tree a) (src_tree b).
Proof. intros n [] a b; reflexivity. Qed.
Lemma src_tree_fun : forall n f (a : src n), src_tree (SFun f a) = EUn (func_op f) (src_tree a).
Proof. intros n [] a; reflexivity. Qed.

Lemma holds_to_tree : forall n (s : src n) o, holds_tree s o -> to_tree n o = Some (src_tree s).
Proof. intros n [] o H; simpl in H; subst; reflexivity. Qed.
Lemma holds_class : forall n (s : src n) o, holds_tree s o ->
  (exists p, o = ORt p \/ o = OExpr p) /\ forall es, o <> ORt (EVec es).
Proof.
  intros n s o H. split.
  - destruct s; simpl in H; subst; eauto.
  - intros es E. subst o. assert (K : src_tree s = EVec es).
    { destruct s; cbn [holds_tree] in H; congruence. }
    exact (src_tree_not_vec n s es K).
Qed.
Lemma leaf_not_vec : forall n (s : src n) o, leaf s -> build n s = Some o ->
  forall es, o <> ORt (EVec es).
Proof. intros n [] o L H; try contradiction; injection H as <-; discriminate. Qed.

Lemma runtime_builds : forall n (s : src n), runtime s -> exists o, build n s = Some o /\ holds_tree s o.
Proof.
  intros n. induction s as [x|z|x|i|z|i|i t|op a IHa b IHb|f a IH|a IH|a IH|a IH|a IH]; intros H.
  1,2,3,5,6: inversion H.
  - eexists. split; reflexivity.
  - eexists. split; reflexivity.
  - assert (P : exists p q, build n a = Some p /\ build n b = Some q /\
      to_tree n p = Some (src_tree a) /\ to_tree n q = Some (src_tree b) /\
      ((exists t, p = ORt t \/ p = OExpr t) \/ (exists t, q = ORt t \/ q = OExpr t)) /\
      (forall es, p <> ORt (EVec es)) /\ (forall es, q <> ORt (EVec es))).
    { assert (F : forall s : src n, (runtime s -> exists o, build n s = Some o /\ holds_tree s o) ->
        runtime s \/ leaf s -> exists o, build n s = Some o /\ to_tree n o = Some (src_tree s) /\
          (forall es, o <> ORt (EVec es))).
      { intros s I [R|L].
        - destruct (I R) as [o [B T]]. exists o. split; [exact B|]. split; [exact (holds_to_tree n s o T)|].
          exact (proj2 (holds_class n s o T)).
        - destruct (leaf_tree n s L) as [o [B T]]. exists o. split; [exact B|]. split; [exact T|].
          exact (leaf_not_vec n s o L B). }
      inversion H as [| | |? ? ? Ra Rb|? ? ? Ra Rb| | | |]; subst.
      - destruct (IHa Ra) as [p [Bp Tp]]. destruct (F b IHb Rb) as [q [Bq [Tq Vq]]].
        destruct (holds_class n a p Tp) as [Cp Vp].
        exists p, q. repeat (split; [assumption|]). split; [exact (holds_to_tree n a p Tp)|]. auto.
      - destruct (IHb Rb) as [q [Bq Tq]]. destruct (F a IHa Ra) as [p [Bp [Tp Vp]]].
        destruct (holds_class n b q Tq) as [Cq Vq].
        exists p, q. repeat (split; [assumption|]). split; [exact (holds_to_tree n b q Tq)|]. auto. }
    destruct P as [p [q [Bp [Bq [Tp [Tq [C [Vp Vq]]]]]]]].
    eexists. cbn [build holds_tree]. rewrite Bp, Bq, src_tree_op. split; [|reflexivity].
    apply operator_trees; auto.
  - inversion H as [| | | | |? ? Ra Rs Re| | |]; subst. destruct (IH Ra) as [p [Bp Tp]].
    eexists. cbn [build holds_tree]. rewrite Bp, src_tree_fun. split; [|reflexivity].
    inversion Ra; subst; simpl in Tp; subst p; try (exfalso; apply Rs; exact I); try reflexivity.
    + destruct op; reflexivity.
    + destruct op; reflexivity.
    + destruct f0; destruct f; try reflexivity; exfalso; apply Re; auto; exact I.
    + destruct f; try reflexivity. exfalso. apply Re; auto. exact I.
    + destruct f; try reflexivity. exfalso. apply Re; auto. exact I.
    + destruct f; try reflexivity. exfalso. apply Re; auto. exact I.
  - inversion H as [| | | | | |? Ra Rs| |]; subst. destruct (IH Ra) as [p [Bp Tp]].
    eexists. cbn [build holds_tree]. rewrite Bp. split; [|reflexivity].
    inversion Ra; subst; simpl in Tp; subst p; simpl in Rs; try tauto; try reflexivity.
    destruct f; reflexivity.
  - inversion H as [| | | | | | |? Ra Rs|]; subst. destruct (IH Ra) as [p [Bp Tp]].
    eexists. cbn [build holds_tree]. rewrite Bp. split; [|reflexivity].
    inversion Ra; subst; simpl in Tp; subst p; simpl in Rs; try tauto; try reflexivity.
    + destruct op; reflexivity.
    + destruct op; reflexivity.
    + destruct f; reflexivity.
  - inversion H as [| | | | | | | |? Rs]; subst. destruct a; try contradiction.
    eexists. split; reflexivity.
  - inversion H as [| |? Ra| | | | | |]; subst.
    assert (P : exists p, build n a = Some p /\ to_tree n p = Some (src_tree a)).
    { destruct Ra as [Ra|La]; [|exact (leaf_tree n a La)].
      destruct (IH Ra) as [p [Bp Tp]]. exists p. split; [exact Bp|]. exact (holds_to_tree n a p Tp). }
    destruct P as [p [Bp Tp]]. eexists. cbn [build holds_tree]. rewrite Bp. unfold to_expr. rewrite Tp.
    split; reflexivity.
Qed.
