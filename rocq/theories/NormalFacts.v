(** Simplified run-time expressions are exactly the normal ones. *)
From Coq Require Import ZArith NArith List Bool Lia.
From Verif Require Import Outcome Num RtModel RtSpec RtFacts RtStep RtTermination RtEval RtSubst NormalSpec.
Import ListNotations.

Section Normal.
Context (n : num).
Local Notation expr := (expr n).

Lemma arithmetic_constant : forall e : expr, arithmetic e <-> is_constant n e = true.
Proof.
  intros e; split.
  - induction 1; simpl; auto. rewrite IHarithmetic1, IHarithmetic2; reflexivity.
  - induction e; simpl; try discriminate; intros H.
    + constructor.
    + apply andb_true_iff in H. constructor; tauto.
Qed.

Lemma normal_within : forall e s : expr, normal e -> within s e -> normal s.
Proof.
  intros e s N W t Wt. apply N. clear N. induction W; auto.
  - apply W_un; auto.
  - apply W_int; auto.
  - apply W_left; auto.
  - apply W_right; auto.
Qed.

Lemma normal_constant : forall e : expr, normal e -> is_constant n e = true -> exists c, e = EConst c.
Proof.
  intros e N C. destruct e; simpl in C; try discriminate; [eauto|].
  apply andb_true_iff in C. destruct C as [A B].
  destruct (N _ (W_here _)) as [X _]. destruct X. split; apply arithmetic_constant; assumption.
Qed.

Lemma oor_false : forall a b, oor a b = Ok false <-> a = Ok false /\ b = Ok false.
Proof.
  intros a b. destruct a as [[|]| |]; simpl; split; intros H; try discriminate;
    try (destruct H; discriminate); [tauto|tauto].
Qed.

(** For an operand that is constant only if it is a literal. *)
Definition literal_if_constant (e : expr) : Prop := is_constant n e = true -> exists c, e = EConst c.
Lemma const_eq_false : forall (e : expr) z, literal_if_constant e ->
  (const_eq n e (n_of_Z n z) = Ok false <-> ~ literally z e).
Proof.
  intros e z L. unfold const_eq, literally. destruct (is_constant n e) eqn:C.
  - destruct (L C) as [c ->]. simpl. split.
    + intros H [d [E D]]. inversion E; subst. injection H as H. congruence.
    + intros H. destruct (n_eq n c (n_of_Z n z)) eqn:Q; auto. destruct H; eauto.
  - split; auto. intros _ [c [-> _]]. discriminate.
Qed.

Lemma vecs : forall l r : expr, (exists es fs, l = EVec es /\ r = EVec fs) \/
  ~ (exists es fs, l = EVec es /\ r = EVec fs).
Proof. intros [] []; try (right; intros [? [? [A B]]]; discriminate). left; eauto. Qed.

Lemma can_false : forall e : expr, can_simplify n e = Ok false -> normal e.
Proof.
  induction e as [c|i|i t|op a IH|lo IHlo hi IHhi w a IH|op l IHl r IHr|es]; intros C s W; simpl in C.
  - inversion W; exact Logic.I.
  - inversion W; exact Logic.I.
  - inversion W; exact Logic.I.
  - inversion W; subst; [exact Logic.I|]. exact (IH C s H0).
  - inversion W; subst; [exact Logic.I|]. exact (IH C s H0).
  - destruct (is_constant n l && is_constant n r) eqn:B; [discriminate|].
    assert (NC : ~ (arithmetic l /\ arithmetic r))
      by (rewrite !arithmetic_constant; intros [H1 H2]; rewrite H1, H2 in B; discriminate).
    assert (K : op <> BUnaryId -> can_simplify n l = Ok false /\ can_simplify n r = Ok false).
    { intros NB. destruct op; try congruence; repeat (apply oor_false in C; destruct C as [? C]); auto.
      destruct l, r; try discriminate; try (apply oor_false in C; exact C). }
    inversion W as [E|E1 E2 E3|E1 E2 E3 E4 E5|op' l' r' NB W' E|op' l' r' NB W' E]; subst.
    + split; [exact NC|]. destruct op; auto.
      * destruct (K ltac:(discriminate)) as [K1 K2].
        assert (L1 : literal_if_constant l) by (intros X; apply normal_constant; auto).
        assert (L2 : literal_if_constant r) by (intros X; apply normal_constant; auto).
        repeat (apply oor_false in C; destruct C as [? C]).
        split; apply const_eq_false; auto.
      * destruct (K ltac:(discriminate)) as [K1 K2].
        assert (L1 : literal_if_constant l) by (intros X; apply normal_constant; auto).
        assert (L2 : literal_if_constant r) by (intros X; apply normal_constant; auto).
        repeat (apply oor_false in C; destruct C as [? C]).
        split; apply const_eq_false; auto.
      * destruct (K ltac:(discriminate)) as [K1 K2].
        assert (L1 : literal_if_constant l) by (intros X; apply normal_constant; auto).
        assert (L2 : literal_if_constant r) by (intros X; apply normal_constant; auto).
        apply oor_false in C; destruct C as [C1 C]. apply oor_false in C; destruct C as [C2 C].
        apply oor_false in C; destruct C as [C3 C]. apply oor_false in C; destruct C as [C4 C].
        repeat split; try (apply const_eq_false; auto; fail).
        intros [es [fs [-> ->]]]. discriminate.
      * destruct (K ltac:(discriminate)) as [K1 K2].
        assert (L1 : literal_if_constant l) by (intros X; apply normal_constant; auto).
        assert (L2 : literal_if_constant r) by (intros X; apply normal_constant; auto).
        repeat (apply oor_false in C; destruct C as [? C]).
        split; apply const_eq_false; auto.
    + exact (IHl (proj1 (K NB)) s W').
    + exact (IHr (proj2 (K NB)) s W').
  - inversion W; exact Logic.I.
Qed.

Lemma normal_can : forall e : expr, normal e -> can_simplify n e = Ok false.
Proof.
  induction e as [c|i|i t|op a IH|lo IHlo hi IHhi w a IH|op l IHl r IHr|es]; intros N; simpl; auto.
  - apply IH. apply (normal_within _ _ N). apply W_un, W_here.
  - apply IH. apply (normal_within _ _ N). apply W_int, W_here.
  - destruct (N _ (W_here _)) as [NC S].
    destruct (is_constant n l && is_constant n r) eqn:B.
    { apply andb_true_iff in B. destruct NC. split; apply arithmetic_constant; tauto. }
    assert (K : op <> BUnaryId -> normal l /\ normal r).
    { intros NB. split; apply (normal_within _ _ N); [apply W_left|apply W_right]; auto using W_here. }
    assert (Q : op <> BUnaryId -> literal_if_constant l /\ literal_if_constant r /\
              oor (can_simplify n l) (can_simplify n r) = Ok false).
    { intros NB. destruct (K NB) as [K1 K2].
      split; [intros X; apply normal_constant; auto|]. split; [intros X; apply normal_constant; auto|].
      apply oor_false. auto. }
    destruct op; auto; destruct (Q ltac:(discriminate)) as [L1 [L2 R]].
    + destruct S as [S1 S2]. apply oor_false. split; [apply const_eq_false; auto|].
      apply oor_false. split; [apply const_eq_false; auto|exact R].
    + destruct S as [S1 S2]. apply oor_false. split; [apply const_eq_false; auto|].
      apply oor_false. split; [apply const_eq_false; auto|exact R].
    + destruct S as [S1 [S2 [S3 [S4 S5]]]].
      apply oor_false. split; [apply const_eq_false; auto|].
      apply oor_false. split; [apply const_eq_false; auto|].
      apply oor_false. split; [apply const_eq_false; auto|].
      apply oor_false. split; [apply const_eq_false; auto|].
      destruct l, r; try exact R. destruct S5; eauto.
    + destruct S as [S1 S2]. apply oor_false. split; [apply const_eq_false; auto|].
      apply oor_false. split; [apply const_eq_false; auto|exact R].
Qed.

Lemma simplified_normal : forall e e' : expr, simplify_top n e = Ok e' -> normal e'.
Proof. intros e e' H. apply can_false. eapply top_result; eauto. Qed.

Lemma unchanged_iff_normal : forall e : expr, simplify_top n e = Ok e <-> normal e.
Proof.
  intros e; split; [apply simplified_normal|]. intros N. apply top_done, normal_can, N.
Qed.
End Normal.

(** Values of the subexpressions after a replacement. *)
Section Replace.
Context (n : num) (good : n -> Prop).
Lemma all_values_bin : forall v op (l r : expr n), all_values good v (EBin op l r) ->
  all_values good v l /\ all_values good v r.
Proof. intros v op l r A. split; intros s H; apply A; constructor; assumption. Qed.

Lemma replace_values : forall f v w (e : expr n),
  (forall i, occurs_var i e ->
     match f i with
     | Some r => all_values good v r /\ exists x, eval n r v = Ok x /\ nth_error w (N.to_nat i) = Some x
     | None => nth_error w (N.to_nat i) = nth_error v (N.to_nat i)
     end) ->
  all_values good w e -> all_values good v (replace_vars f e).
Proof.
  intros f v w e F A.
  assert (V : forall s, subterm s e -> forall y, eval n (replace_vars f s) v = Ok y <-> eval n s w = Ok y).
  { intros s Hs. apply eval_replace. intros i x O.
    assert (O' : occurs_var i e).
    { clear - O Hs. unfold occurs_var in *. induction Hs; auto; try (constructor; auto; fail).
      eapply sub_vec; eauto. }
    specialize (F i O'). destruct (f i).
    - destruct F as [_ [y [E N]]]. rewrite E, N. split; congruence.
    - rewrite F. reflexivity. }
  revert F A V. induction e as [c|j|j t|op a IH|lo IHlo hi IHhi u a IH|op l IHl r IHr|es]; intros F A V s Hs.
  - inversion Hs; subst. destruct (A _ Hs) as [x [E G]]. exists x. auto.
  - simpl in Hs. specialize (F j (sub_refl _)). destruct (f j) as [r|] eqn:Q.
    + destruct F as [F _]. exact (F s Hs).
    + inversion Hs; subst. destruct (A _ (sub_refl _)) as [x [E G]]. exists x. split; auto.
      simpl in E |- *. rewrite F in E.
      assert (L : N.leb (N.of_nat (length w)) j = false) by (destruct (N.leb (N.of_nat (length w)) j); congruence).
      rewrite L in E. destruct (nth_error v (N.to_nat j)) eqn:X; [|discriminate].
      assert (K : N.to_nat j < length v) by (apply nth_error_Some; congruence).
      replace (N.leb (N.of_nat (length v)) j) with false; [exact E|].
      symmetry. apply N.leb_gt. lia.
  - destruct (A _ (sub_refl _)) as [x [E _]]. discriminate.
  - simpl in Hs. inversion Hs as [|s' o' a' Hs'| | | | | |]; subst.
    + destruct (A _ (sub_refl _)) as [x [E G]]. exists x. split; auto. exact (proj2 (V _ (sub_refl _) x) E).
    + apply IH; auto.
      * intros i O. apply F. constructor. exact O.
      * intros t Ht. apply A. constructor; auto.
      * intros t Ht. apply V. constructor; auto.
  - destruct (A _ (sub_refl _)) as [x [E _]]. simpl in E. destruct (eval n a w); discriminate.
  - simpl in Hs. inversion Hs as [| | | | |s' o' l' r' Hs'|s' o' l' r' Hs'|]; subst.
    + destruct (A _ (sub_refl _)) as [x [E G]]. exists x. split; auto. exact (proj2 (V _ (sub_refl _) x) E).
    + apply IHl; auto.
      * intros i O. apply F. constructor. exact O.
      * intros t Ht. apply A. constructor; auto.
      * intros t Ht. apply V. constructor; auto.
    + apply IHr; auto.
      * intros i O. apply F. apply sub_r. exact O.
      * intros t Ht. apply A. apply sub_r; auto.
      * intros t Ht. apply V. apply sub_r; auto.
  - destruct (A _ (sub_refl _)) as [x [E _]]. discriminate.
Qed.
End Replace.

(** Everything written with numbers alone is folded. *)
Section Fold.
Context (n : num).
Lemma fold_arithmetic : forall ids (f : N -> option (expr n)) w (e : expr n),
  polynomial_in ids e ->
  (forall i, In i ids -> exists c, f i = Some (EConst c) /\ nth_error w (N.to_nat i) = Some c) ->
  is_constant n (replace_vars f e) = true /\
  exists c, unwrap n (replace_vars f e) = Ok c /\ eval n e w = Ok c.
Proof.
  intros ids f w e P F. induction P as [c|i I|op l r NB P1 [C1 [x [U1 E1]]] P2 [C2 [y [U2 E2]]]]; simpl.
  - split; auto. exists c; auto.
  - destruct (F i I) as [c [-> X]]. split; auto. exists c. split; auto.
    rewrite X. assert (N.to_nat i < length w) by (apply nth_error_Some; congruence).
    replace (N.leb (N.of_nat (length w)) i) with false; auto. symmetry. apply N.leb_gt. lia.
  - rewrite C1, C2, U1, U2, E1, E2. split; auto. destruct op; simpl; eauto. congruence.
Qed.

Lemma simplify_constant : forall (e : expr n) c, is_constant n e = true -> unwrap n e = Ok c ->
  simplify_top n e = Ok (EConst c).
Proof.
  intros e c C U. destruct e as [d| | | | |op l r|]; try discriminate.
  - simpl in U. injection U as ->. apply top_done. reflexivity.
  - simpl in C. erewrite top_step with (e1 := EConst c).
    + apply top_done. reflexivity.
    + simpl. rewrite C. reflexivity.
    + simpl in *. rewrite C, U. reflexivity.
Qed.
End Fold.

(** A variable replaced by a number is gone. *)
Lemma replaced_gone : forall (n : num) (i : N) (c : n) w (e : expr n) good, all_values good w e ->
  ~ occurs_var i (replace_vars (fun j => if N.eqb i j then Some (EConst c) else None) e).
Proof.
  intros n i c w e good. unfold occurs_var.
  induction e as [d|j|j t|op a IH|lo IHlo hi IHhi u a IH|op l IHl r IHr|es]; intros A H; simpl in H.
  - inversion H.
  - destruct (N.eqb i j) eqn:Q; inversion H; subst. rewrite N.eqb_refl in Q. discriminate.
  - inversion H.
  - inversion H; subst. apply IH; auto. intros t Ht. apply A. constructor; auto.
  - destruct (A _ (sub_refl _)) as [x [E _]]. simpl in E. destruct (eval n a w); discriminate.
  - inversion H; subst; [apply IHl|apply IHr]; auto; intros t Ht; apply A; [apply sub_l|apply sub_r]; auto.
  - destruct (A _ (sub_refl _)) as [x [E _]]. discriminate.
Qed.
