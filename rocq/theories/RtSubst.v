(** Facts about substitution (proofs only). *)
From Coq Require Import ZArith NArith List Bool Lia.
From Verif Require Import Outcome Num RtModel RtSpec RtFacts RtStep RtTermination RtValue RtEval.
Import ListNotations.

Section Subst.
Context (n : num).
Local Notation expr := (expr n).

Lemma deq_var : forall (e : expr) i, deep_equal n e (EVar i) =
  Ok match e with EVar j => N.eqb i j | _ => false end.
Proof. intros e i. destruct e; reflexivity. Qed.

Lemma oseq_map_ok : forall {A B : Type} (f : A -> outcome B) (g : A -> B) l,
  Forall (fun x => f x = Ok (g x)) l -> oseq (map f l) = Ok (map g l).
Proof.
  intros A B f g l H. induction H; simpl; auto. rewrite H, IHForall. reflexivity.
Qed.

Lemma subst1_var : forall i r (e : expr),
  subst1 n (EVar i) r e = Ok (replace_vars (fun j => if N.eqb i j then Some r else None) e).
Proof.
  intros i r. induction e as [c|j|j t|op a IH|lo hi w a _ _ IH|op l r' IHl IHr|es IH] using expr_ind';
    simpl; auto.
  - destruct (N.eqb i j) eqn:E; reflexivity.
  - rewrite IH. reflexivity.
  - rewrite IH. reflexivity.
  - rewrite IHl, IHr. reflexivity.
  - erewrite oseq_map_ok; [reflexivity|]. exact IH.
Qed.

Lemma find_match_var : forall i ids (rs : list expr), length ids = length rs ->
  find_match n (EVar i) (map EVar ids) rs = Ok (assoc (combine ids rs) i).
Proof.
  intros i. induction ids as [|j ids IH]; intros [|r rs] L; try discriminate; simpl; auto.
  destruct (N.eqb j i); auto.
Qed.

Lemma find_match_nonvar : forall (e : expr) ids (rs : list expr),
  (forall i, e <> EVar i) -> find_match n e (map EVar ids) rs = Ok None.
Proof.
  intros e ids rs H. revert rs. induction ids as [|j ids IH]; intros rs; cbn [map find_match]; auto.
  rewrite deq_var. simpl.
  destruct e; simpl; auto. exfalso; eapply H; eauto.
Qed.

Lemma substv_vars : forall ids rs (e : expr), length ids = length rs ->
  substv n (map EVar ids) rs e = Ok (replace_vars (assoc (combine ids rs)) e).
Proof.
  intros ids rs e L.
  induction e as [c|j|j t|op a IH|lo hi w a _ _ IH|op l r' IHl IHr|es IH] using expr_ind';
    cbn [substv]; try (rewrite find_match_nonvar; [|congruence]; simpl); auto.
  - rewrite find_match_var; auto. simpl. destruct (assoc (combine ids rs) j); reflexivity.
  - rewrite IH. reflexivity.
  - rewrite IH. reflexivity.
  - rewrite IHl, IHr. reflexivity.
  - erewrite oseq_map_ok; [reflexivity|]. exact IH.
Qed.

Lemma eval_var_ok : forall i (v : list n) y,
  eval n (EVar i) v = Ok y <-> nth_error v (N.to_nat i) = Some y.
Proof.
  intros i v y. rewrite eval_var. destruct (nth_error v (N.to_nat i)); split; congruence.
Qed.

(** Evaluation after replacing variables, both directions. *)
Lemma eval_replace : forall f v w (e : expr),
  (forall i x, occurs_var i e ->
     (match f i with Some r => eval n r v = Ok x | None => nth_error v (N.to_nat i) = Some x end
      <-> nth_error w (N.to_nat i) = Some x)) ->
  forall y, eval n (replace_vars f e) v = Ok y <-> eval n e w = Ok y.
Proof.
  intros f v w.
  induction e as [c|i|i t|op a IH|lo hi u a _ _ IH|op l r IHl IHr|es _] using expr_ind';
    intros H y.
  - reflexivity.
  - rewrite (eval_var n i w). specialize (H i y (sub_refl _)). cbn [replace_vars].
    destruct (f i) as [r|].
    + rewrite H. destruct (nth_error w (N.to_nat i)); split; congruence.
    + rewrite eval_var_ok, H. destruct (nth_error w (N.to_nat i)); split; congruence.
  - reflexivity.
  - assert (Q : forall z, eval n (replace_vars f a) v = Ok z <-> eval n a w = Ok z).
    { apply IH. intros i x Hi. apply H. constructor; auto. }
    simpl. rewrite !bind_ok. split; intros [z [A B]]; exists z; split; auto; apply Q; auto.
  - simpl. split; intros K; oinv.
  - assert (Q1 : forall z, eval n (replace_vars f l) v = Ok z <-> eval n l w = Ok z).
    { apply IHl. intros i x Hi. apply H. apply sub_l; auto. }
    assert (Q2 : forall z, eval n (replace_vars f r) v = Ok z <-> eval n r w = Ok z).
    { apply IHr. intros i x Hi. apply H. apply sub_r; auto. }
    simpl. rewrite !both_ok. split; intros [z1 [z2 [A [B C]]]]; exists z1, z2; repeat split; auto;
      try (apply Q1; auto); apply Q2; auto.
  - simpl. split; discriminate.
Qed.

Lemma update_same : forall {A} (v : list A) i x, i < length v -> nth_error (update v i x) i = Some x.
Proof.
  intros A. induction v as [|y v IH]; intros [|i] x H; simpl in *; try lia; auto.
  apply IH. lia.
Qed.
Lemma update_other : forall {A} (v : list A) i j x, i <> j ->
  nth_error (update v i x) j = nth_error v j.
Proof.
  intros A. induction v as [|y v IH]; intros [|i] [|j] x H; simpl; try congruence; auto.
Qed.
Lemma update_length : forall {A} (v : list A) i x, length (update v i x) = length v.
Proof. intros A. induction v as [|y v IH]; intros [|i] x; simpl; auto. Qed.

Lemma eval_subst1_var : forall i (r e : expr) v x y,
  eval n r v = Ok x -> (i < N.of_nat (length v))%N ->
  (eval n (replace_vars (fun j => if N.eqb i j then Some r else None) e) v = Ok y <->
   eval n e (update v (N.to_nat i) x) = Ok y).
Proof.
  intros i r e v x y E L. apply eval_replace. intros j z _.
  destruct (N.eqb_spec i j).
  - subst j. rewrite update_same by lia. rewrite E. split; congruence.
  - rewrite update_other by lia. reflexivity.
Qed.

(** No match: identity. *)
Lemma subst1_absent : forall (s r e : expr),
  (forall t, reachable t e -> deep_equal n t s = Ok false) -> subst1 n s r e = Ok e.
Proof.
  intros s r.
  induction e as [c|i|i t|op a IH|lo hi u a _ _ IH|op l r' IHl IHr|es IH] using expr_ind';
    intros H; cbn [subst1]; rewrite (H _ (re_refl _)); simpl; auto.
  - rewrite IH; auto. intros t Ht; apply H; constructor; auto.
  - rewrite IH; auto. intros t Ht; apply H; constructor; auto.
  - rewrite IHl, IHr; auto; intros t Ht; apply H; [apply re_r|apply re_l]; auto.
  - rewrite (oseq_map_ok _ (fun x => x)).
    + rewrite map_id. reflexivity.
    + rewrite Forall_forall in *. intros x Hx. apply IH; auto. intros t Ht.
      apply H. eapply re_vec; eauto.
Qed.

Lemma find_match_absent : forall (e : expr) ss rs,
  (forall s, In s ss -> deep_equal n e s = Ok false) -> find_match n e ss rs = Ok None.
Proof.
  intros e ss. induction ss as [|s ss IH]; intros rs H; simpl; auto.
  rewrite (H s (or_introl eq_refl)). simpl. apply IH. intros s' Hs; apply H; right; auto.
Qed.

Lemma substv_absent : forall ss rs (e : expr),
  (forall t s, reachable t e -> In s ss -> deep_equal n t s = Ok false) ->
  substv n ss rs e = Ok e.
Proof.
  intros ss rs.
  induction e as [c|i|i t|op a IH|lo hi u a _ _ IH|op l r' IHl IHr|es IH] using expr_ind';
    intros H; cbn [substv]; (rewrite find_match_absent; [|intros s Hs; apply H; auto; apply re_refl]);
    simpl; auto.
  - rewrite IH; auto. intros t s Ht; apply H; constructor; auto.
  - rewrite IH; auto. intros t s Ht; apply H; constructor; auto.
  - rewrite IHl, IHr; auto; intros t s Ht; apply H; [apply re_r|apply re_l]; auto.
  - rewrite (oseq_map_ok _ (fun x => x)).
    + rewrite map_id. reflexivity.
    + rewrite Forall_forall in *. intros x Hx. apply IH; auto. intros t s Ht.
      apply H. eapply re_vec; eauto.
Qed.

(** Constants for all variables. *)
Lemma unwrap_replace : forall f v (e : expr),
  (forall i, occurs_var i e -> exists x, f i = Some (EConst x) /\ nth_error v (N.to_nat i) = Some x) ->
  forall y, unwrap n (replace_vars f e) = Ok y <-> eval n e v = Ok y.
Proof.
  intros f v.
  induction e as [c|i|i t|op a IH|lo hi u a _ _ IH|op l r IHl IHr|es _] using expr_ind';
    intros H y.
  - reflexivity.
  - destruct (H i (sub_refl _)) as [x [A B]]. rewrite eval_var. simpl. rewrite A, B. simpl.
    reflexivity.
  - simpl; split; discriminate.
  - assert (Q : forall z, unwrap n (replace_vars f a) = Ok z <-> eval n a v = Ok z).
    { apply IH. intros i Hi. apply H. constructor; auto. }
    simpl. rewrite !bind_ok. split; intros [z [A B]]; exists z; split; auto; apply Q; auto.
  - simpl. split; intros K; oinv.
  - assert (Q1 : forall z, unwrap n (replace_vars f l) = Ok z <-> eval n l v = Ok z).
    { apply IHl. intros i Hi. apply H. apply sub_l; auto. }
    assert (Q2 : forall z, unwrap n (replace_vars f r) = Ok z <-> eval n r v = Ok z).
    { apply IHr. intros i Hi. apply H. apply sub_r; auto. }
    simpl. rewrite !both_ok. split; intros [z1 [z2 [A [B C]]]]; exists z1, z2; repeat split; auto;
      try (apply Q1; auto); apply Q2; auto.
  - simpl. split; discriminate.
Qed.

Lemma ids_from_length : forall k s, length (ids_from s k) = k.
Proof. induction k; simpl; auto. Qed.

Lemma assoc_ids : forall {A B} (g : A -> B) v s i,
  (s <= i)%N ->
  assoc (combine (ids_from s (length v)) (map g v)) i = option_map g (nth_error v (N.to_nat (i - s))).
Proof.
  intros A B g. induction v as [|x v IH]; intros s i H; simpl.
  - destruct (N.to_nat (i - s)); reflexivity.
  - destruct (N.eqb_spec s i).
    + subst. rewrite N.sub_diag. reflexivity.
    + replace (N.to_nat (i - s)) with (S (N.to_nat (i - N.succ s))) by lia.
      simpl. apply IH. lia.
Qed.

Lemma assoc_const : forall (v : list n) (e : expr) y, eval n e v = Ok y ->
  forall i x, occurs_var i e ->
    (match assoc (combine (ids_from 0 (length v)) (map EConst v)) i with
     | Some r => eval n r [] = Ok x
     | None => nth_error [] (N.to_nat i) = Some x
     end <-> nth_error v (N.to_nat i) = Some x).
Proof.
  intros v e y H i x Hi. rewrite (assoc_ids EConst v 0 i) by lia. rewrite N.sub_0_r.
  destruct (nth_lt n v i (eval_ok_evaluable n v e _ H _ Hi)) as [z E]. rewrite E.
  simpl. split; congruence.
Qed.
End Subst.
