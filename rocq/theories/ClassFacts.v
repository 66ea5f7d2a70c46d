(** Proofs about classes at run time. *)
From Coq Require Import String ZArith NArith List Bool Permutation.
From Flocq Require Import Core BinarySingleNaN.
From Verif Require Import Outcome Num RtModel RtFacts StrModel TypedModel ClassModel ClassSpec.
Import ListNotations.

Section Facts.
Context (n : num).

Lemma castable_class : forall k (e : texpr n), castable n k e = true <-> class_is e k.
Proof.
  intros k e. split.
  - destruct k as [s| | | | |], e as [c|i|i t|op a|lo hi v a|op l r|es]; simpl; try discriminate; try (constructor; fail).
    intros H. constructor. destruct s, c; try discriminate; constructor.
  - intros H. destruct H as [c s H| | | | | |]; try reflexivity. destruct H; reflexivity.
Qed.

Lemma class_unique : forall (e : texpr n) k k', class_is e k -> class_is e k' -> k = k'.
Proof.
  intros e k k' A B. destruct A as [c s A| | | | | |]; inversion B; subst; try reflexivity.
  f_equal. destruct A; match goal with H : scalar_is _ _ |- _ => inversion H end; reflexivity.
Qed.

Lemma class_exists : forall e : texpr n, exists k, class_is e k.
Proof.
  intros [c|i|i t|op a|lo hi v a|op l r|es]; try (eexists; constructor; fail).
  destruct c; eexists; constructor; constructor.
Qed.

Lemma chain_spec : forall ks (e : texpr n) k, class_is e k ->
  (In k ks -> chain n ks e = ([(k, e)], false)) /\ (~ In k ks -> chain n ks e = ([], true)).
Proof.
  induction ks as [|k0 ks IH]; intros e k C.
  - split; [intros []|reflexivity].
  - cbn [chain]. unfold callback_if_castable. destruct (castable n k0 e) eqn:E.
    + apply castable_class in E. pose proof (class_unique _ _ _ C E) as <-. split; [reflexivity|].
      intros H. destruct H. left. reflexivity.
    + assert (N : k0 <> k) by (intros ->; apply castable_class in C; congruence).
      destruct (IH e k C) as [A B]. split.
      * intros [->|I]; [contradiction|]. rewrite (A I). reflexivity.
      * intros I. rewrite B; [reflexivity|]. intros J. apply I. right. exact J.
Qed.

Lemma shallow_class : forall e o : texpr n,
  shallow_equal n e o = true <-> (exists k, class_is e k /\ class_is o k).
Proof.
  intros e o. split.
  - destruct e as [[x|x|x|x]|i|i t|op a|lo hi v a|op l r|es]; unfold shallow_equal; intros H; apply castable_class in H;
      eexists; (split; [|exact H]); repeat constructor.
  - intros [k [A B]]. apply castable_class in B. destruct A as [c s A| | | | | |]; try exact B.
    destruct A; exact B.
Qed.

Lemma deep_shallow : forall e o : texpr n, tdeep_equal n e o = Ok true -> shallow_equal n e o = true.
Proof.
  intros [[x|x|x|x]|i|i t|op a|lo hi v a|op l r|es] [[y|y|y|y]|j|j u|op' b|lo' hi' w b|op' l' r'|os]; simpl;
    intros H; try reflexivity; try discriminate H.
Qed.

Lemma ttraverse_infix : forall e : texpr n, infix e (ttraverse n e).
Proof. induction e using expr_ind'; simpl; constructor; auto. Qed.

Lemma infix_unique : forall (e : texpr n) ns, infix e ns -> ns = ttraverse n e.
Proof. intros e ns H. induction H; simpl; subst; reflexivity. Qed.

Lemma cout_line : forall pr (e : texpr n) s, line_for e s -> cout_functor n pr e = [s].
Proof. intros pr e s H. destruct H; reflexivity. Qed.

Lemma cout_one : forall pr (e : texpr n), exists s, cout_functor n pr e = [s].
Proof. intros pr [[x|x|x|x]|i|i t|op a|lo hi v a|op l r|es]; eexists; reflexivity. Qed.

Lemma traversal_lines : forall pr (e : texpr n) ns ls, infix e ns -> Forall2 line_for ns ls ->
  traversal_output n pr e = ls.
Proof.
  intros pr e ns ls I F. rewrite (infix_unique _ _ I) in F. unfold traversal_output.
  induction F as [|x l xs ls L F IH]; simpl; auto. rewrite (cout_line pr _ _ L), IH. reflexivity.
Qed.
End Facts.
