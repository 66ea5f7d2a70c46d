(** Facts about deep_equal (proofs only). *)
From Coq Require Import ZArith NArith List Bool Lia.
From Verif Require Import Outcome Num RtModel RtSpec RtFacts RtStep RtTermination RtValue RtEval.
Import ListNotations.

Ltac consts H :=
  let c := fresh in let S := fresh in
  intros c S; apply H;
  (first [exact S | apply sub_un; exact S | apply sub_l; exact S | apply sub_r; exact S
         | apply sub_lo; exact S | apply sub_hi; exact S | apply sub_body; exact S]).

Section Equal.
Context (n : num).
Local Notation expr := (expr n).

Lemma plain_un : forall op (a : expr), plain (EUn op a) -> plain a /\ forall i, op <> USymInt i.
Proof.
  intros op a H. split.
  - intros s S. apply H. constructor; auto.
  - intros i ->. exact (H _ (sub_refl _)).
Qed.
Lemma plain_bin : forall op (a b : expr), plain (EBin op a b) -> plain a /\ plain b.
Proof.
  intros op a b H. split; intros s S; apply H; [apply sub_l|apply sub_r]; auto.
Qed.
Lemma plain_int : forall lo hi v (a : expr), ~ plain (EInt lo hi v a).
Proof. intros lo hi v a H. exact (H _ (sub_refl _)). Qed.
Lemma plain_vec : forall es : list expr, ~ plain (EVec es).
Proof. intros es H. exact (H _ (sub_refl _)). Qed.

Lemma u_equal_spec : forall a b, (forall i, a <> USymInt i) -> u_equal a b = true <-> a = b.
Proof.
  intros a b H. destruct a, b; simpl; split; intros K; try congruence; auto.
  - apply N.eqb_eq in K; subst; auto.
  - inversion K; apply N.eqb_refl.
Qed.
Lemma b_equal_spec : forall a b, b_equal a b = true <-> a = b.
Proof. intros a b. destruct a, b; simpl; split; congruence. Qed.

(** On plain expressions deep_equal always answers, and decides [same]. *)
Lemma deq_plain : forall a b : expr, plain a ->
  exists q, deep_equal n a b = Ok q /\ (q = true <-> same (num_equal n) a b).
Proof.
  induction a as [c|i|i t|op a IH|lo hi u a _ _ IH|op l r IHl IHr|es _] using expr_ind';
    intros b P.
  - destruct b; simpl; eexists; split; try reflexivity; split; intros K; try discriminate;
      try (inversion K; fail).
    + apply andb_true_iff in K. constructor. exact K.
    + inversion K; subst. apply andb_true_iff. exact H1.
  - destruct b; simpl; eexists; split; try reflexivity; split; intros K; try discriminate;
      try (inversion K; fail).
    + apply N.eqb_eq in K; subst. constructor.
    + inversion K. apply N.eqb_refl.
  - destruct b; simpl; eexists; split; try reflexivity; split; intros K; try discriminate;
      try (inversion K; fail).
    + apply andb_true_iff in K as [K1 K2]. apply N.eqb_eq in K1, K2; subst. constructor.
    + inversion K. rewrite !N.eqb_refl. reflexivity.
  - apply plain_un in P as [P Q].
    destruct b; try (simpl; eexists; split; [reflexivity|]; split; intros K; [discriminate|inversion K]; fail).
    + destruct (IH b P) as [q [E F]]. cbn [deep_equal]. rewrite E. simpl.
      eexists; split; [reflexivity|]. rewrite andb_true_iff, F, u_equal_spec by auto. split.
      * intros [A ->]. constructor; auto.
      * intros K; inversion K; subst; auto.
    + destruct (IH b3 P) as [q [E F]]. cbn [deep_equal]. rewrite E. simpl.
      eexists; split; [reflexivity|]. split; intros K; [discriminate|inversion K].
  - exfalso. eapply plain_int; eauto.
  - apply plain_bin in P as [P1 P2].
    destruct b; try (simpl; eexists; split; [reflexivity|]; split; intros K; [discriminate|inversion K]; fail).
    destruct (IHl b1 P1) as [q1 [E1 F1]]. destruct (IHr b2 P2) as [q2 [E2 F2]].
    cbn [deep_equal]. rewrite E1. simpl. destruct (q1 && b_equal op op0) eqn:B.
    + apply andb_true_iff in B as [B1 B2]. apply b_equal_spec in B2. subst op0.
      exists q2. split; auto. rewrite F2. split.
      * intros K. constructor; auto. apply F1; auto.
      * intros K; inversion K; auto.
    + eexists; split; [reflexivity|]. split; intros K; [discriminate|].
      inversion K; subst. apply andb_false_iff in B as [B|B].
      * match goal with H : same _ l _ |- _ => apply F1 in H end. congruence.
      * assert (b_equal op0 op0 = true) by (apply b_equal_spec; auto). congruence.
  - exfalso. eapply plain_vec; eauto.
Qed.

Section Equivalence.
Context (good : n -> Prop) (L : equal_laws n good).

Lemma same_refl : forall e : expr, all_consts good e -> same (num_equal n) e e.
Proof.
  induction e as [c|i|i t|op a IH|lo hi u a IHlo IHhi IH|op l r IHl IHr|es IH] using expr_ind';
    intros H; constructor.
  - apply (el_refl n good L). apply H. constructor.
  - apply IH. intros c S; apply H; constructor; auto.
  - apply IHlo. intros c S; apply H; apply sub_lo; auto.
  - apply IHhi. intros c S; apply H; apply sub_hi; auto.
  - apply IH. intros c S; apply H; apply sub_body; auto.
  - apply IHl. intros c S; apply H; apply sub_l; auto.
  - apply IHr. intros c S; apply H; apply sub_r; auto.
  - assert (G : forall x, In x es -> all_consts good x).
    { intros x Hx c S. apply H. eapply sub_vec; eauto. }
    clear H. induction IH; constructor.
    + apply H. apply G. left; auto.
    + apply IHIH. intros y Hy. apply G. right; auto.
Qed.

Lemma same_sym : forall a b : expr, all_consts good a -> all_consts good b ->
  same (num_equal n) a b -> same (num_equal n) b a.
Proof.
  induction a as [c|i|i t|op a IH|lo hi u a IHlo IHhi IH|op l r IHl IHr|es IH] using expr_ind';
    intros b Ga Gb S; inversion S; subst; constructor.
  - apply (el_sym n good L); auto; [apply Ga|apply Gb]; constructor.
  - apply IH; auto; [consts Ga|consts Gb].
  - apply IHlo; auto; [consts Ga|consts Gb].
  - apply IHhi; auto; [consts Ga|consts Gb].
  - apply IH; auto; [consts Ga|consts Gb].
  - apply IHl; auto; [consts Ga|consts Gb].
  - apply IHr; auto; [consts Ga|consts Gb].
  - assert (G1 : forall x, In x es -> all_consts good x).
    { intros x Hx c Q. apply Ga. eapply sub_vec; eauto. }
    assert (G2 : forall x, In x fs -> all_consts good x).
    { intros x Hx c Q. apply Gb. eapply sub_vec; eauto. }
    match goal with H : Forall2 _ es fs |- _ => rename H into F end.
    clear -IH G1 G2 F. induction F; constructor.
    + inversion IH; subst. apply H2; auto; [apply G1|apply G2]; left; auto.
    + inversion IH; subst. apply IHF; auto; intros z Hz; [apply G1|apply G2]; right; auto.
Qed.

Lemma same_trans : forall a b c : expr, all_consts good a -> all_consts good b -> all_consts good c ->
  same (num_equal n) a b -> same (num_equal n) b c -> same (num_equal n) a c.
Proof.
  induction a as [k|i|i t|op a IH|lo hi u a IHlo IHhi IH|op l r IHl IHr|es IH] using expr_ind';
    intros b c Ga Gb Gc S1 S2; inversion S1; subst; inversion S2; subst; constructor.
  - eapply (el_trans n good L); [| | |eassumption|eassumption];
      [apply Ga|apply Gb|apply Gc]; constructor.
  - eapply IH; [| | |eassumption|eassumption]; [consts Ga|consts Gb|consts Gc].
  - eapply IHlo; [| | |eassumption|eassumption]; [consts Ga|consts Gb|consts Gc].
  - eapply IHhi; [| | |eassumption|eassumption]; [consts Ga|consts Gb|consts Gc].
  - eapply IH; [| | |eassumption|eassumption]; [consts Ga|consts Gb|consts Gc].
  - eapply IHl; [| | |eassumption|eassumption]; [consts Ga|consts Gb|consts Gc].
  - eapply IHr; [| | |eassumption|eassumption]; [consts Ga|consts Gb|consts Gc].
  - assert (G1 : forall x, In x es -> all_consts good x).
    { intros x Hx z Q. apply Ga. eapply sub_vec; eauto. }
    assert (G2 : forall x, In x fs -> all_consts good x).
    { intros x Hx z Q. apply Gb. eapply sub_vec; eauto. }
    assert (G3 : forall x, In x fs0 -> all_consts good x).
    { intros x Hx z Q. apply Gc. eapply sub_vec; eauto. }
    match goal with H : Forall2 _ es fs, H' : Forall2 _ fs fs0 |- _ => rename H into F1, H' into F2 end.
    clear -IH G1 G2 G3 F1 F2. revert fs0 F2 G3. induction F1; intros fs0 F2 G3; inversion F2; subst; constructor.
    + inversion IH; subst. eapply H3; eauto; [apply G1|apply G2|apply G3]; left; auto.
    + inversion IH; subst. eapply IHF1; eauto; intros z Hz; [apply G1|apply G2|apply G3]; right; auto.
Qed.
End Equivalence.

(** Interchangeability, when the operations respect a relation containing numeric equality. *)
Section Respect.
Context (R : n -> n -> Prop).

Record respects : Prop := {
  rs_b : forall op x y x' y', R x x' -> R y y' -> oeq R (b_apply n op x y) (b_apply n op x' y');
  rs_u : forall op x x', R x x' -> oeq R (u_apply n op x) (u_apply n op x')
}.

Lemma same_eval : respects -> (forall x, R x x) -> forall v (a b : expr), same R a b ->
  oeq R (eval n a v) (eval n b v).
Proof.
  intros RS Rf v.
  induction a as [k|i|i t|op a IH|lo hi u a _ _ IH|op l r IHl IHr|es _] using expr_ind';
    intros b S; inversion S; subst.
  - constructor; auto.
  - rewrite eval_var. destruct (nth_error v (N.to_nat i)); constructor; auto.
  - constructor.
  - match goal with H : same _ a _ |- _ => specialize (IH _ H) end.
    simpl. inversion IH; simpl; try constructor. apply rs_u; auto.
  - match goal with H : same _ a _ |- _ => specialize (IH _ H) end.
    simpl. inversion IH; simpl; constructor.
  - match goal with H : same _ l _ |- _ => specialize (IHl _ H) end.
    match goal with H : same _ r _ |- _ => specialize (IHr _ H) end. simpl.
    inversion IHl; inversion IHr; simpl; try constructor. apply rs_b; auto.
  - constructor.
Qed.
End Respect.

Lemma same_occurs_var : forall (R : n -> n -> Prop) (a b : expr), same R a b ->
  forall i, occurs_var i a <-> occurs_var i b.
Proof.
  intros R.
  induction a as [k|i|i t|op a IH|lo hi u a IHlo IHhi IH|op l r IHl IHr|es IH] using expr_ind';
    intros b S j; inversion S; subst; unfold occurs_var in *.
  - split; intros Q; inversion Q.
  - reflexivity.
  - split; intros Q; inversion Q.
  - split; intros Q; inversion Q; subst; apply sub_un; eapply IH; eauto.
  - split; intros Q; inversion Q; subst;
      first [apply sub_lo; eapply IHlo; eauto; fail | apply sub_hi; eapply IHhi; eauto; fail
            | apply sub_body; eapply IH; eauto].
  - split; intros Q; inversion Q; subst;
      first [apply sub_l; eapply IHl; eauto; fail | apply sub_r; eapply IHr; eauto].
  - match goal with H : Forall2 _ es fs |- _ => rename H into F end. clear S.
    assert (G : (exists x, In x es /\ subterm (EVar j) x) <-> (exists x, In x fs /\ subterm (EVar j) x)).
    { clear -IH F. induction F.
      - split; intros [? [[] _]].
      - inversion IH; subst. specialize (IHF H3). split; intros [z [[->|Hz] Q]].
        + exists y. split; [left; auto|]. eapply H2; eauto.
        + destruct IHF as [A _]. destruct A as [w [? ?]]; eauto. exists w; split; [right|]; auto.
        + exists x. split; [left; auto|]. eapply H2; eauto.
        + destruct IHF as [_ A]. destruct A as [w [? ?]]; eauto. exists w; split; [right|]; auto. }
    split; intros Q; inversion Q; subst.
    + destruct G as [G _]. destruct G as [w [? ?]]; eauto. eapply sub_vec; eauto.
    + destruct G as [_ G]. destruct G as [w [? ?]]; eauto. eapply sub_vec; eauto.
Qed.

(** Differentiation of two expressions that are the same up to numeric equality. *)
Inductive dsame (R : n -> n -> Prop) : outcome expr -> outcome expr -> Prop :=
| ds_ok : forall a b, same R a b -> dsame R (Ok a) (Ok b)
| ds_throw : forall x, dsame R (Throw x) (Throw x)
| ds_ub : dsame R UB UB.

Lemma dsame_omap : forall R (f g : expr -> expr) a b, dsame R a b ->
  (forall x y, same R x y -> same R (f x) (g y)) -> dsame R (omap f a) (omap g b).
Proof. intros R f g a b H K. inversion H; unfold omap; simpl; constructor; auto. Qed.

Lemma dsame_both : forall R (f g : expr -> expr -> outcome expr) a b c d,
  dsame R a c -> dsame R b d ->
  (forall x y z w, same R x z -> same R y w -> dsame R (f x y) (g z w)) ->
  dsame R (both a b f) (both c d g).
Proof.
  intros R f g a b c d H1 H2 K. inversion H1; inversion H2; simpl; try constructor; auto.
Qed.

Context (good : n -> Prop) (L : equal_laws n good).
Context (G0 : good (c0 n)) (G1 : good (c1 n)) (G2 : good (c2 n)) (Gm : good (cm1 n))
        (Gl : good (n_ln10 n)).

Lemma same_plain : forall R (a b : expr), same R a b -> plain a -> plain b.
Proof.
  intros R. induction a as [k|i|i t|op a IH|lo hi u a _ _ IH|op l r IHl IHr|es _] using expr_ind';
    intros b S P; inversion S; subst.
  - intros s Q; inversion Q; subst; auto.
  - auto. - auto.
  - apply plain_un in P as [P1 P2]. intros s Q; inversion Q; subst.
    + destruct op; auto. eapply P2; eauto.
    + eapply IH; eauto.
  - exfalso; eapply plain_int; eauto.
  - apply plain_bin in P as [P1 P2]. intros s Q; inversion Q; subst; auto.
    + eapply IHl; eauto. + eapply IHr; eauto.
  - exfalso; eapply plain_vec; eauto.
Qed.

Lemma const_parts : forall P (e : expr), all_consts P e ->
  match e with
  | EUn _ a => all_consts P a
  | EBin _ a b => all_consts P a /\ all_consts P b
  | _ => True
  end.
Proof.
  intros P e H. destruct e; auto; try split; consts H.
Qed.

Lemma plain_leaf : forall e : expr, match e with EConst _ | EVar _ | EFun _ _ => True | _ => False end ->
  plain e.
Proof. intros e H s S. destruct e; try contradiction; inversion S; subst; auto. Qed.

Lemma plain_mkun : forall op (a : expr), plain a -> (forall i, op <> USymInt i) -> plain (EUn op a).
Proof.
  intros op a P Q s S; inversion S; subst; [|apply P; auto].
  destruct op; auto. eapply Q; eauto.
Qed.
Lemma plain_mkbin : forall op (a b : expr), plain a -> plain b -> plain (EBin op a b).
Proof. intros op a b P Q s S; inversion S; subst; auto; [apply P|apply Q]; auto. Qed.
Lemma consts_mkun : forall P op (a : expr), all_consts P a -> all_consts P (EUn op a).
Proof. intros P op a H c S; inversion S; subst; apply H; auto. Qed.
Lemma consts_mkbin : forall P op (a b : expr), all_consts P a -> all_consts P b -> all_consts P (EBin op a b).
Proof. intros P op a b H K c S; inversion S; subst; [apply H|apply K]; auto. Qed.
Lemma consts_const : forall (P : n -> Prop) c, P c -> all_consts P (EConst c : expr).
Proof. intros P c H d S; inversion S; subst; auto. Qed.

Lemma diff_not_UB : forall x (e : expr), plain e -> diff n x e <> UB.
Proof.
  intros x.
  induction e as [k|i|i t|op a IH|lo hi u a _ _ IH|op l r IHl IHr|es _] using expr_ind';
    intros P.
  - discriminate.
  - simpl. destruct x; [destruct (N.eqb id i)|]; discriminate.
  - simpl. destruct x; [|destruct (N.eqb id i && N.eqb tag t)]; discriminate.
  - apply plain_un in P as [P1 P2]. specialize (IH P1). simpl.
    destruct op; try discriminate; auto;
      try (destruct (diff n x a); unfold omap; simpl; congruence).
    destruct x; [discriminate|]. destruct (diff n (DFun id tag) a) as [da| |] eqn:E; simpl; try congruence.
    destruct (deep_equal n da (EConst (c0 n))) as [[]| |] eqn:F; simpl; try discriminate.
    destruct da; simpl in F; discriminate.
  - exfalso; eapply plain_int; eauto.
  - apply plain_bin in P as [P1 P2]. specialize (IHl P1). specialize (IHr P2). simpl. unfold mk2.
    destruct op; try discriminate; destruct (diff n x l), (diff n x r); simpl; congruence.
  - exfalso; eapply plain_vec; eauto.
Qed.

Lemma diff_plain : forall x (e d : expr), plain e -> diff n x e = Ok d -> plain d.
Proof.
  intros x.
  induction e as [k|i|i t|op a IH|lo hi u a _ _ IH|op l r IHl IHr|es _] using expr_ind';
    intros d P H.
  - inversion H; apply plain_leaf; simpl; auto.
  - simpl in H. destruct x; [destruct (N.eqb id i)|]; inversion H; apply plain_leaf; simpl; auto.
  - simpl in H. destruct x; [discriminate|destruct (N.eqb id i && N.eqb tag t)];
      inversion H; apply plain_leaf; simpl; auto.
  - apply plain_un in P as [P1 P2]. simpl in H.
    destruct op; try discriminate; oinv; auto;
      try (repeat (apply plain_mkbin || apply plain_mkun); auto; try congruence;
           try (eapply IH; eauto; fail); try (apply plain_leaf; simpl; auto; fail); fail).
    destruct x; [discriminate|]. oinv.
    destruct (x0); oinv; [apply plain_leaf; simpl; auto|].
    apply plain_mkun; [eapply IH; eauto|congruence].
  - exfalso; eapply plain_int; eauto.
  - apply plain_bin in P as [P1 P2]. simpl in H. unfold mk2 in H.
    destruct op; try discriminate; oinv; repeat apply plain_mkbin; auto;
      try (eapply IHl; eauto; fail); try (eapply IHr; eauto; fail).
  - exfalso; eapply plain_vec; eauto.
Qed.

Lemma diff_consts : forall x (e d : expr), plain e -> all_consts good e -> diff n x e = Ok d ->
  all_consts good d.
Proof.
  intros x.
  induction e as [k|i|i t|op a IH|lo hi u a _ _ IH|op l r IHl IHr|es _] using expr_ind';
    intros d P C H.
  - inversion H; apply consts_const; auto.
  - simpl in H. destruct x; [destruct (N.eqb id i)|]; inversion H; apply consts_const; auto.
  - simpl in H. destruct x; [discriminate|destruct (N.eqb id i && N.eqb tag t)];
      inversion H; apply consts_const; auto.
  - apply plain_un in P as [P1 P2]. apply const_parts in C. simpl in H.
    destruct op; try discriminate; oinv; auto;
      try (repeat (apply consts_mkbin || apply consts_mkun); auto;
           try (eapply IH; eauto; fail); try (apply consts_const; auto; fail); fail).
    destruct x; [discriminate|]. oinv.
    destruct (x0); oinv; [apply consts_const; auto|].
    apply consts_mkun. eapply IH; eauto.
  - exfalso; eapply plain_int; eauto.
  - apply plain_bin in P as [P1 P2]. apply const_parts in C as [C1 C2]. simpl in H. unfold mk2 in H.
    destruct op; try discriminate; oinv; repeat apply consts_mkbin; auto;
      try (eapply IHl; eauto; fail); try (eapply IHr; eauto; fail).
  - exfalso; eapply plain_vec; eauto.
Qed.

Lemma diff_same : forall x (a b : expr), plain a -> all_consts good a -> all_consts good b ->
  same (num_equal n) a b -> dsame (num_equal n) (diff n x a) (diff n x b).
Proof.
  intros x.
  assert (Q : forall c, good c -> same (num_equal n) (EConst c) (EConst c)).
  { intros c H. constructor. apply (el_refl n good L); auto. }
  induction a as [k|i|i t|op a IH|lo hi u a _ _ IH|op l r IHl IHr|es _] using expr_ind';
    intros b P Ca Cb S; inversion S; subst.
  - simpl. constructor; auto.
  - simpl. destruct x; [destruct (N.eqb id i)|]; constructor; auto.
  - simpl. destruct x; [constructor|destruct (N.eqb id i && N.eqb tag t)]; constructor; auto.
  - apply plain_un in P as [P1 P2]. apply const_parts in Ca, Cb. simpl in Ca, Cb.
    match goal with H : same _ a _ |- _ => rename H into Sa end.
    specialize (IH _ P1 Ca Cb Sa). simpl.
    destruct op; try (constructor; fail); auto;
      try (apply dsame_omap; auto; intros ? ? ?; repeat constructor; auto; apply el_refl with good; auto; fail).
    destruct x; [constructor|].
    destruct (diff n (DFun id tag) a) as [da| |] eqn:Ea;
    destruct (diff n (DFun id tag) b0) as [db| |] eqn:Eb; inversion IH; subst; simpl; try constructor.
    destruct (deq_plain da (EConst (c0 n))) as [q1 [E1 F1]]. { eapply diff_plain; eauto. }
    destruct (deq_plain db (EConst (c0 n))) as [q2 [E2 F2]].
    { eapply diff_plain; [|exact Eb]. eapply same_plain; eauto. }
    rewrite E1, E2. simpl.
    assert (D1 : all_consts good da) by (eapply diff_consts; [exact P1|exact Ca|exact Ea]).
    assert (D2 : all_consts good db).
    { eapply diff_consts; [|exact Cb|exact Eb]. eapply same_plain; eauto. }
    assert (D0 : all_consts good (EConst (c0 n) : expr)) by (apply consts_const; auto).
    assert (q1 = q2).
    { apply eq_true_iff_eq. rewrite F1, F2. split; intros K.
      - eapply (same_trans good L); [exact D2|exact D1|exact D0| |exact K].
        apply (same_sym good L); auto.
      - eapply (same_trans good L); [exact D1|exact D2|exact D0| |exact K]. auto. }
    subst q2. destruct q1; constructor; auto. constructor; auto.
  - exfalso; eapply plain_int; eauto.
  - apply plain_bin in P as [P1 P2]. apply const_parts in Ca as [Ca1 Ca2]. apply const_parts in Cb as [Cb1 Cb2].
    match goal with H : same _ l _, H' : same _ r _ |- _ => rename H into Sl, H' into Sr end.
    specialize (IHl _ P1 Ca1 Cb1 Sl). specialize (IHr _ P2 Ca2 Cb2 Sr). simpl. unfold mk2.
    destruct op; try constructor; apply dsame_both; auto; intros; repeat constructor; auto.
  - exfalso; eapply plain_vec; eauto.
Qed.

Lemma deq_equivalence : forall a b c : expr, plain a -> plain b -> plain c ->
  all_consts good a -> all_consts good b -> all_consts good c ->
  deep_equal n a a = Ok true /\ deep_equal n a b = deep_equal n b a /\
  (deep_equal n a b = Ok true -> deep_equal n b c = Ok true -> deep_equal n a c = Ok true).
Proof.
  intros a b c Pa Pb Pc Ga Gb Gc.
  destruct (deq_plain a a Pa) as [q1 [E1 F1]]. destruct (deq_plain a b Pa) as [q2 [E2 F2]].
  destruct (deq_plain b a Pb) as [q3 [E3 F3]]. destruct (deq_plain b c Pb) as [q4 [E4 F4]].
  destruct (deq_plain a c Pa) as [q5 [E5 F5]]. rewrite E1, E2, E3, E4, E5. split; [|split].
  - f_equal. apply F1. apply (same_refl good L); auto.
  - f_equal. apply eq_true_iff_eq. rewrite F2, F3. split; apply (same_sym good L); auto.
  - intros H K. f_equal. apply F5.
    eapply (same_trans good L); [exact Ga|exact Gb|exact Gc| |]; [apply F2|apply F4]; congruence.
Qed.

Lemma diff_deq : forall x (a b : expr), plain a -> all_consts good a -> all_consts good b ->
  deep_equal n a b = Ok true ->
  (exists da db, diff n x a = Ok da /\ diff n x b = Ok db /\ deep_equal n da db = Ok true) \/
  (exists ex, diff n x a = Throw ex /\ diff n x b = Throw ex).
Proof.
  intros x a b P Ca Cb H. destruct (deq_plain a b P) as [q [E F]].
  assert (S : same (num_equal n) a b) by (apply F; congruence).
  pose proof (diff_same x a b P Ca Cb S) as D.
  destruct (diff n x a) as [da|ex|] eqn:Ea; inversion D; subst.
  - left. exists da, b0. repeat split; auto.
    destruct (deq_plain da b0) as [q0 [E' F']]. { eapply diff_plain; eauto. }
    rewrite E'. f_equal. apply F'. auto.
  - right. eauto.
  - exfalso. eapply diff_not_UB; eauto.
Qed.

Lemma same_weaken : forall (R S : n -> n -> Prop), (forall c d, R c d -> S c d) ->
  forall a b : expr, same R a b -> same S a b.
Proof.
  intros R S H.
  induction a as [k|i|i t|op a IH|lo hi u a IHlo IHhi IH|op l r IHl IHr|es IH] using expr_ind';
    intros b Q; inversion Q; subst; constructor; auto.
  match goal with F : Forall2 _ _ _ |- _ => clear Q; induction F end; constructor;
    inversion IH; subst; auto.
Qed.

Lemma same_eq : forall a b : expr, same eq a b -> a = b.
Proof.
  induction a as [k|i|i t|op a IH|lo hi u a IHlo IHhi IH|op l r IHl IHr|es IH] using expr_ind';
    intros b Q; inversion Q; subst; f_equal; auto.
  match goal with F : Forall2 _ _ _ |- _ => clear Q; induction F end; auto.
  inversion IH; subst; f_equal; auto.
Qed.

Lemma deq_symint : forall (a b : expr) i j,
  deep_equal n (EUn (USymInt i) a) (EUn (USymInt j) b) = Ok true <-> deep_equal n a b = Ok true.
Proof.
  intros a b i j. simpl. destruct (deep_equal n a b) as [[]| |]; simpl; split; congruence.
Qed.

Lemma deq_prefix : forall (es fs : list expr) f,
  (forall e, In e es -> deep_equal n e e = Ok true) ->
  deep_equal n (EVec (es ++ f :: fs)) (EVec es) = Ok true /\
  deep_equal n (EVec es) (EVec (es ++ f :: fs)) = UB.
Proof.
  intros es fs f. simpl. induction es as [|e es IH]; intros H; simpl; auto.
  rewrite (H e (or_introl eq_refl)). simpl. apply IH. intros x Hx. apply H. right; auto.
Qed.
End Equal.
