(** Algebra of substitution, size of simplified expressions (proofs only). *)
From Coq Require Import ZArith NArith List Bool Lia.
From Verif Require Import Outcome Num RtModel RtSpec RtFacts RtStep RtTermination RtSubst.
Import ListNotations.

Section Alg.
Context (n : num).
Local Notation expr := (expr n).

(** Replacement of one variable. *)
Local Notation one i r := (fun j => if N.eqb i j then Some r else None).

Lemma replace_ext : forall f g (e : expr),
  (forall i, reachable (EVar i) e ->
     match f i with Some r => r | None => EVar i end = match g i with Some r => r | None => EVar i end) ->
  replace_vars f e = replace_vars g e.
Proof.
  intros f g e. induction e as [c|i|i t|op a IH|lo hi v a _ _ IH|op l r IHl IHr|es IH] using expr_ind';
    intros H; cbn [replace_vars]; try reflexivity.
  - apply H. constructor.
  - f_equal. apply IH. intros i Hi. apply H. constructor; auto.
  - f_equal. apply IH. intros i Hi. apply H. constructor; auto.
  - f_equal; [apply IHl|apply IHr]; intros i Hi; apply H; [apply re_l|apply re_r]; auto.
  - f_equal. apply map_ext_in. intros a Ha. rewrite Forall_forall in IH. apply IH; auto.
    intros i Hi. apply H. eapply re_vec; eauto.
Qed.

Lemma replace_none : forall e : expr, replace_vars (fun _ => None) e = e.
Proof.
  induction e as [c|i|i t|op a IH|lo hi v a _ _ IH|op l r IHl IHr|es IH] using expr_ind';
    cbn [replace_vars]; try reflexivity; try congruence.
  f_equal. rewrite <- (map_id es) at 2. apply map_ext_in. rewrite Forall_forall in IH. auto.
Qed.

Lemma replace_compose : forall f g (e : expr),
  replace_vars g (replace_vars f e) =
  replace_vars (fun i => match f i with Some r => Some (replace_vars g r) | None => g i end) e.
Proof.
  intros f g. induction e as [c|i|i t|op a IH|lo hi v a _ _ IH|op l r IHl IHr|es IH] using expr_ind';
    cbn [replace_vars]; try reflexivity; try congruence.
  - destruct (f i); reflexivity.
  - f_equal. rewrite map_map. apply map_ext_in. rewrite Forall_forall in IH. auto.
Qed.

Lemma replace_absent : forall i (r e : expr), ~ reachable (EVar i) e -> replace_vars (one i r) e = e.
Proof.
  intros i r e H. rewrite <- (replace_none e) at 2. apply replace_ext. intros j Hj.
  destruct (N.eqb_spec i j); subst; [contradiction|reflexivity].
Qed.

(** Variables reachable after a replacement. *)
Lemma reachable_replace : forall f j (e : expr), reachable (EVar j) (replace_vars f e) ->
  exists i, reachable (EVar i) e /\
    reachable (EVar j) (match f i with Some r => r | None => EVar i end).
Proof.
  intros f j. induction e as [c|i|i t|op a IH|lo hi v a _ _ IH|op l r IHl IHr|es IH] using expr_ind';
    cbn [replace_vars]; intros H.
  - inversion H.
  - exists i. split; [constructor|]. exact H.
  - inversion H.
  - inversion H as [|? ? ? Q| | | |]; subst. destruct (IH Q) as [i [A B]]. exists i. split; auto. constructor; auto.
  - inversion H as [| |? ? ? ? ? Q| | |]; subst. destruct (IH Q) as [i [A B]]. exists i. split; auto. constructor; auto.
  - inversion H as [| | |? ? ? ? Q|? ? ? ? Q|]; subst.
    + destruct (IHl Q) as [i [A B]]. exists i. split; auto. apply re_l; auto.
    + destruct (IHr Q) as [i [A B]]. exists i. split; auto. apply re_r; auto.
  - inversion H as [| | | | |? x ? I Q]; subst. apply in_map_iff in I as [y [Ey Iy]]. subst x. rewrite Forall_forall in IH.
    destruct (IH y Iy Q) as [i [A B]]. exists i. split; auto. eapply re_vec; eauto.
Qed.

Lemma unwrap_const_nodes : forall e : expr, 1 <= nodes e.
Proof. destruct e; simpl; lia. Qed.

Lemma height_pos : forall e : expr, 1 <= height e.
Proof. destruct e; simpl; lia. Qed.

Lemma vf_un : forall op (a : expr), vector_free (EUn op a) -> vector_free a.
Proof. intros op a H es S. apply (H es). constructor; auto. Qed.
Lemma vf_int : forall lo hi v (a : expr), vector_free (EInt lo hi v a) ->
  vector_free a /\ vector_free lo /\ vector_free hi.
Proof. intros lo hi v a H. repeat split; intros es S; apply (H es);
  [apply sub_body|apply sub_lo|apply sub_hi]; auto. Qed.
Lemma vf_bin : forall op (l r : expr), vector_free (EBin op l r) -> vector_free l /\ vector_free r.
Proof. intros op l r H. split; intros es S; apply (H es); [apply sub_l|apply sub_r]; auto. Qed.
Lemma vf_un_i : forall op (a : expr), vector_free a -> vector_free (EUn op a).
Proof. intros op a H es S. inversion S; subst. eapply H; eauto. Qed.
Lemma vf_int_i : forall lo hi v (a : expr), vector_free a -> vector_free lo -> vector_free hi ->
  vector_free (EInt lo hi v a).
Proof. intros lo hi v a H H1 H2 es S. inversion S; subst; [eapply H1|eapply H2|eapply H]; eauto. Qed.
Lemma vf_bin_i : forall op (l r : expr), vector_free l -> vector_free r -> vector_free (EBin op l r).
Proof. intros op l r H1 H2 es S. inversion S; subst; [eapply H1|eapply H2]; eauto. Qed.
Lemma vf_const : forall c : n, vector_free (EConst c).
Proof. intros c es S. inversion S. Qed.

Lemma sstep_size : forall e e' : expr, sstep n e e' -> vector_free e ->
  vector_free e' /\ nodes e' <= nodes e /\ height e' <= height e.
Proof.
  intros e e' H. induction H; intros V;
    try (split; [assumption || apply vf_const|split; [reflexivity || (simpl; lia)|reflexivity || (simpl; lia)]]; fail).
  all: try match type of V with vector_free (EBin BMult (EVec ?a) _) => exfalso; apply (V a); apply sub_l; apply sub_refl end.
  all: repeat match goal with
    | H : vector_free (EUn _ _) |- _ => apply vf_un in H
    | H : vector_free (EInt _ _ _ _) |- _ => apply vf_int in H; destruct H as [? [? ?]]
    | H : vector_free (EBin _ _ _) |- _ => apply vf_bin in H; destruct H
    end.
  all: repeat match goal with
    | H : vector_free ?A, K : vector_free ?A -> _ |- _ => specialize (K H)
    | H : _ /\ _ |- _ => destruct H
    end.
  all: repeat match goal with
    | x : RtModel.expr _ |- _ => lazymatch goal with
        | _ : 1 <= nodes x |- _ => fail
        | _ => pose proof (unwrap_const_nodes x); pose proof (height_pos x) end
    end.
  all: split; [auto using vf_un_i, vf_int_i, vf_bin_i, vf_const|split; cbn [nodes height]; lia].
Qed.

Lemma top_size : forall e e' : expr, simplify_top n e = Ok e' -> vector_free e ->
  vector_free e' /\ nodes e' <= nodes e /\ height e' <= height e.
Proof.
  apply (top_ind n (fun e e' => vector_free e -> vector_free e' /\ nodes e' <= nodes e /\ height e' <= height e)).
  - intros e _ V. auto.
  - intros e e1 e' _ S _ IH V. destruct (sstep_size _ _ S V) as [V1 [A B]].
    destruct (IH V1) as [V2 [C D]]. repeat split; auto; lia.
Qed.

Lemma weight_nodes : forall e : expr, vector_free e -> weight n e <= 4 * nodes e.
Proof.
  induction e as [c|i|i t|op a IH|lo hi v a _ _ IH|op l r IHl IHr|es IH] using expr_ind'; intros V;
    cbn [weight nodes]; try lia.
  - apply vf_un in V. specialize (IH V). lia.
  - apply vf_int in V. specialize (IH (proj1 V)). lia.
  - apply vf_bin in V. destruct V as [V1 V2]. specialize (IHl V1). specialize (IHr V2). destruct op; lia.
  - exfalso. apply (V es). constructor.
Qed.

End Alg.
