(** Facts about traversal and manipulation (proofs only). *)
From Coq Require Import ZArith NArith List Bool Lia Sorting.Sorted.
From Verif Require Import Outcome Num RtModel RtSpec RtFacts.
Import ListNotations.

Section Visit.
Context (n : num).
Local Notation expr := (expr n).

Lemma before_irrefl : forall p, ~ before p p.
Proof. induction p as [|d p IH]; intros H; inversion H; subst; auto. Qed.

Lemma sorted_app : forall (A : Type) (R : A -> A -> Prop) l1 l2,
  StronglySorted R l1 -> StronglySorted R l2 ->
  (forall a b, In a l1 -> In b l2 -> R a b) -> StronglySorted R (l1 ++ l2).
Proof.
  intros A R l1 l2 H1 H2 H. induction H1; simpl; auto.
  constructor.
  - apply IHStronglySorted. intros x y Hx Hy. apply H; auto. right; auto.
  - apply Forall_app. split; auto. apply Forall_forall. intros y Hy. apply H; auto. left; auto.
Qed.

Lemma sorted_map : forall d l, StronglySorted before l -> StronglySorted before (map (cons d) l).
Proof.
  intros d l H. induction H; simpl; constructor; auto.
  apply Forall_forall. intros x Hx. apply in_map_iff in Hx as [y [<- Hy]].
  rewrite Forall_forall in H0. apply bf_same. auto.
Qed.

Definition good_paths (step : expr -> bool) (e : expr) (ps : list (list dir)) (vs : list expr) : Prop :=
  StronglySorted before ps /\
  (forall p, In p ps <-> (at_path e p <> None /\ not_pruned step e p)) /\
  map (at_path e) ps = map Some vs.

Lemma np_nil : forall step (e : expr), not_pruned step e [].
Proof. intros step e c d q op l r H. destruct c; discriminate. Qed.

Lemma np_cons : forall step (e a : expr) d p,
  (forall q, at_path e (d :: q) = at_path a q) ->
  (forall op l r, e = EBin op l r -> step e = true) ->
  (not_pruned step e (d :: p) <-> not_pruned step a p).
Proof.
  intros step e a d p A B. split; intros H c d' q op l r E K.
  - apply (H (d :: c) d' q); [simpl; congruence|]. rewrite A. exact K.
  - destruct c as [|d0 c]; simpl in E; inversion E; subst.
    + simpl in K. injection K as K. rewrite <- K. eapply B; eauto.
    + apply (H c d' q); auto. rewrite A in K. exact K.
Qed.

Lemma good_leaf : forall step (e : expr), (forall d q, at_path e (d :: q) = None) ->
  good_paths step e [[]] [e].
Proof.
  intros step e H. split; [repeat constructor|]. split; [|reflexivity]. intros p. split.
  - intros [<-|[]]. split; [discriminate|apply np_nil].
  - intros [H1 _]. destruct p; [left; auto|]. rewrite H in H1. congruence.
Qed.

Lemma good_un : forall step (e a : expr) ps vs,
  (forall q, at_path e (DirU :: q) = at_path a q) ->
  (forall d q, d <> DirU -> at_path e (d :: q) = None) ->
  (forall op l r, e <> EBin op l r) ->
  good_paths step a ps vs -> good_paths step e ([] :: map (cons DirU) ps) (e :: vs).
Proof.
  intros step e a ps vs A B N [G1 [G2 G3]]. split; [|split; [intros p; split|]].
  - constructor.
    + apply sorted_map; auto.
    + apply Forall_forall. intros x Hx. apply in_map_iff in Hx as [y [<- _]]. constructor.
  - intros [<-|H]; [split; [discriminate|apply np_nil]|]. apply in_map_iff in H as [y [<- Hy]].
    apply G2 in Hy as [Y1 Y2]. rewrite A. split; auto.
    apply (np_cons step e a DirU y A); auto. intros; exfalso; eapply N; eauto.
  - intros [H1 H2]. destruct p as [|d p]; [left; auto|right].
    destruct d; try (rewrite B in H1 by discriminate; congruence).
    apply in_map. apply G2. rewrite A in H1. split; auto.
    apply (np_cons step e a DirU p A) in H2; auto. intros; exfalso; eapply N; eauto.
  - simpl. f_equal. rewrite map_map. rewrite <- G3. apply map_ext. intros; apply A.
Qed.

Lemma traverse_good : forall step (e : expr), exists ps, good_paths step e ps (traverse n step e).
Proof.
  intros step.
  induction e as [c|i|i t|op a IH|lo hi w a _ _ IH|op l r IHl IHr|es _] using expr_ind';
    try (exists [[]]; apply good_leaf; intros [] q; reflexivity).
  - destruct IH as [ps G]. exists ([] :: map (cons DirU) ps).
    apply good_un with a; auto; try discriminate. intros [] q K; try reflexivity. congruence.
  - destruct IH as [ps G]. exists ([] :: map (cons DirU) ps).
    apply good_un with a; auto; try discriminate. intros [] q K; try reflexivity. congruence.
  - cbn [traverse]. destruct (step (EBin op l r)) eqn:E.
    + destruct IHl as [pl [L1 [L2 L3]]]. destruct IHr as [pr [R1 [R2 R3]]].
      exists (map (cons DirL) pl ++ [] :: map (cons DirR) pr).
      assert (NL : forall p, not_pruned step (EBin op l r) (DirL :: p) <-> not_pruned step l p).
      { intros p. apply np_cons; [reflexivity|]. intros; auto. }
      assert (NR : forall p, not_pruned step (EBin op l r) (DirR :: p) <-> not_pruned step r p).
      { intros p. apply np_cons; [reflexivity|]. intros; auto. }
      split; [|split].
      * apply sorted_app.
        -- apply sorted_map; auto.
        -- constructor; [apply sorted_map; auto|]. apply Forall_forall. intros x Hx.
           apply in_map_iff in Hx as [y [<- _]]. constructor.
        -- intros a b Ha Hb. apply in_map_iff in Ha as [y [<- _]].
           destruct Hb as [<-|Hb]; [constructor|]. apply in_map_iff in Hb as [z [<- _]]. constructor.
      * intros p. rewrite in_app_iff. split.
        -- intros [H|[<-|H]].
           ++ apply in_map_iff in H as [y [<- Hy]]. apply L2 in Hy as [Y1 Y2].
              split; [exact Y1|]. apply NL; auto.
           ++ split; [discriminate|apply np_nil].
           ++ apply in_map_iff in H as [y [<- Hy]]. apply R2 in Hy as [Y1 Y2].
              split; [exact Y1|]. apply NR; auto.
        -- intros [H1 H2]. destruct p as [|[] p]; [right; left; auto|simpl in H1; congruence| |].
           ++ left. apply in_map. apply L2. split; [exact H1|]. apply NL; auto.
           ++ right; right. apply in_map. apply R2. split; [exact H1|]. apply NR; auto.
      * rewrite !map_app. simpl. rewrite !map_map. simpl. rewrite <- L3, <- R3. reflexivity.
    + exists [[]]. split; [repeat constructor|]. split; [|reflexivity]. intros p. split.
      * intros [<-|[]]. split; [discriminate|apply np_nil].
      * intros [H1 H2]. destruct p as [|d p]; [left; auto|].
        specialize (H2 [] d p op l r eq_refl eq_refl). congruence.
Qed.

Lemma om_cons : forall md (e a : expr) d p,
  (forall q, at_path e (d :: q) = at_path a q) ->
  outermost md e (d :: p) -> outermost md a p /\ md e = false.
Proof.
  intros md e a d p A H. split.
  - intros c d' q s E K. apply (H (d :: c) d' q); [simpl; congruence|]. rewrite A. exact K.
  - apply (H [] d p); reflexivity.
Qed.

Lemma manipulate_spec : forall md fw (e : expr) p s,
  at_path e p = Some s -> outermost md e p ->
  (md s = true \/ leaf s = true -> at_path (manipulate n md fw e) p = Some (fw s)) /\
  (md s = false -> leaf s = false ->
     exists s', at_path (manipulate n md fw e) p = Some s' /\ same_head s s').
Proof.
  intros md fw.
  assert (LF : forall (e : expr) p s, at_path e p = Some s -> leaf e = true ->
     p = [] /\ s = e).
  { intros e [|[] p] s H L; simpl in H; [inversion H; auto|..]; destruct e; discriminate. }
  induction e as [c|i|i t|op a IH|lo hi w a _ _ IH|op l r IHl IHr|es _] using expr_ind';
    intros p s H O;
    try (destruct (LF _ _ _ H eq_refl) as [-> ->]; split; [reflexivity|discriminate]).
  - destruct p as [|d p].
    + inversion H; subst s. cbn [manipulate]. split.
      * intros [K|K]; [rewrite K; reflexivity|discriminate].
      * intros K _. rewrite K. eexists. split; reflexivity.
    + destruct d; try discriminate. destruct (om_cons md (EUn op a) a DirU p ltac:(reflexivity) O) as [O1 O2].
      cbn [manipulate]. rewrite O2. exact (IH p s H O1).
  - destruct p as [|d p].
    + inversion H; subst s. cbn [manipulate]. split.
      * intros [K|K]; [rewrite K; reflexivity|discriminate].
      * intros K _. rewrite K. eexists. split; [reflexivity|]. repeat split.
    + destruct d; try discriminate. destruct (om_cons md (EInt lo hi w a) a DirU p ltac:(reflexivity) O) as [O1 O2].
      cbn [manipulate]. rewrite O2. exact (IH p s H O1).
  - destruct p as [|d p].
    + inversion H; subst s. cbn [manipulate]. split.
      * intros [K|K]; [rewrite K; reflexivity|discriminate].
      * intros K _. rewrite K. eexists. split; reflexivity.
    + destruct d; try discriminate.
      * destruct (om_cons md (EBin op l r) l DirL p ltac:(reflexivity) O) as [O1 O2].
        cbn [manipulate]. rewrite O2. exact (IHl p s H O1).
      * destruct (om_cons md (EBin op l r) r DirR p ltac:(reflexivity) O) as [O1 O2].
        cbn [manipulate]. rewrite O2. exact (IHr p s H O1).
Qed.

Lemma manipulate_id : forall md (e : expr), manipulate n md (fun x => x) e = e.
Proof.
  intros md. induction e as [c|i|i t|op a IH|lo hi w a _ _ IH|op l r IHl IHr|es _] using expr_ind';
    simpl; auto.
  - destruct (md (EUn op a)); congruence.
  - destruct (md (EInt lo hi w a)); congruence.
  - destruct (md (EBin op l r)); congruence.
Qed.

(** The specification determines the result: two trees satisfying it are equal. *)
Lemma manipulate_unique : forall md fw (e e' : expr),
  (forall p s, at_path e p = Some s -> outermost md e p ->
    (md s = true \/ leaf s = true -> at_path e' p = Some (fw s)) /\
    (md s = false -> leaf s = false -> exists s', at_path e' p = Some s' /\ same_head s s')) ->
  e' = manipulate n md fw e.
Proof.
  intros md fw.
  assert (TOP : forall (e e' : expr), 
    (forall p s, at_path e p = Some s -> outermost md e p ->
    (md s = true \/ leaf s = true -> at_path e' p = Some (fw s)) /\
    (md s = false -> leaf s = false -> exists s', at_path e' p = Some s' /\ same_head s s')) ->
    (md e = true \/ leaf e = true -> e' = fw e) /\ (md e = false -> leaf e = false -> same_head e e')).
  { intros e e' H. destruct (H [] e eq_refl) as [A B].
    { intros c d q s E. destruct c; discriminate. }
    split.
    - intros K. specialize (A K). simpl in A. congruence.
    - intros K1 K2. destruct (B K1 K2) as [s' [E S]]. simpl in E. inversion E; subst; auto. }
  assert (DOWN : forall (e e' a a' : expr) d, md e = false ->
    (forall q, at_path e (d :: q) = at_path a q) ->
    (forall q, at_path e' (d :: q) = at_path a' q) ->
    (forall p s, at_path e p = Some s -> outermost md e p ->
      (md s = true \/ leaf s = true -> at_path e' p = Some (fw s)) /\
      (md s = false -> leaf s = false -> exists s', at_path e' p = Some s' /\ same_head s s')) ->
    (forall p s, at_path a p = Some s -> outermost md a p ->
      (md s = true \/ leaf s = true -> at_path a' p = Some (fw s)) /\
      (md s = false -> leaf s = false -> exists s', at_path a' p = Some s' /\ same_head s s'))).
  { intros e e' a a' d M A A' H p s K O. rewrite <- A'. apply H; [rewrite A; auto|].
    intros c d' q s0 E Q. destruct c as [|d0 c].
    - simpl in Q. inversion Q; subst; auto.
    - simpl in E. inversion E; subst. rewrite A in Q. eapply O; eauto. }
  induction e as [c|i|i t|op a IH|lo hi w a _ _ IH|op l r IHl IHr|es _] using expr_ind';
    intros e' H; destruct (TOP _ _ H) as [T1 T2];
    try (cbn [manipulate]; apply T1; right; reflexivity).
  - cbn [manipulate]. destruct (md (EUn op a)) eqn:M; [apply T1; auto|].
    specialize (T2 eq_refl eq_refl). destruct e'; simpl in T2; try contradiction. subst.
    f_equal. apply IH. eapply (DOWN _ _ _ _ DirU M); [| |exact H]; reflexivity.
  - cbn [manipulate]. destruct (md (EInt lo hi w a)) eqn:M; [apply T1; auto|].
    specialize (T2 eq_refl eq_refl). destruct e'; simpl in T2; try contradiction.
    destruct T2 as [? [? ?]]. subst.
    f_equal. apply IH. eapply (DOWN _ _ _ _ DirU M); [| |exact H]; reflexivity.
  - cbn [manipulate]. destruct (md (EBin op l r)) eqn:M; [apply T1; auto|].
    specialize (T2 eq_refl eq_refl). destruct e'; simpl in T2; try contradiction. subst.
    f_equal.
    + apply IHl. eapply (DOWN _ _ _ _ DirL M); [| |exact H]; reflexivity.
    + apply IHr. eapply (DOWN _ _ _ _ DirR M); [| |exact H]; reflexivity.
Qed.

(** Symbolic integrals. *)
Lemma interval_positions : forall lo hi w (e : expr) p,
  outermost (is_symbolic_integral n) e p ->
  match at_path e p with
  | Some (EUn (USymInt _) a) => at_path (subst_interval n 0 lo hi w e) p = Some (EInt lo hi w a)
  | Some s => if leaf s then at_path (subst_interval n 0 lo hi w e) p = Some s
              else exists s', at_path (subst_interval n 0 lo hi w e) p = Some s' /\ same_head s s'
  | None => True
  end.
Proof.
  intros lo hi w e p O. destruct (at_path e p) as [s|] eqn:E; auto.
  destruct (manipulate_spec (is_symbolic_integral n) (to_concrete_integral n lo hi w) e p s E O) as [A B].
  unfold subst_interval.
  destruct s; simpl in *; try (apply A; auto; fail); try (apply B; auto; fail).
  destruct op; simpl in *; try (apply B; auto; fail). apply A; auto.
Qed.

Lemma no_symint_left : forall lo hi w (e : expr),
  (forall p i a, at_path e p = Some (EUn (USymInt i) a) ->
     forall q j b, at_path a q <> Some (EUn (USymInt j) b)) ->
  forall p i a, at_path (subst_interval n 0 lo hi w e) p <> Some (EUn (USymInt i) a).
Proof.
  intros lo hi w. unfold subst_interval.
  induction e as [c|k|k t|op a IH|lo' hi' w' a _ _ IH|op l r IHl IHr|es _] using expr_ind';
    intros H p i b; try (simpl; destruct p as [|[] p]; discriminate).
  - destruct (is_symbolic_integral n (EUn op a)) eqn:M; cbn [manipulate]; rewrite M.
    + destruct op; try discriminate. simpl. destruct p as [|[] p]; try discriminate.
      simpl. exact (H [] _ _ eq_refl p i b).
    + destruct p as [|[] p]; try discriminate.
      * simpl. intros Q. inversion Q; subst. discriminate.
      * simpl. apply IH. intros p0 i0 a0 K. exact (H (DirU :: p0) i0 a0 K).
  - cbn [manipulate is_symbolic_integral]. destruct p as [|[] p]; try discriminate.
    simpl. apply IH. intros p0 i0 a0 K. exact (H (DirU :: p0) i0 a0 K).
  - cbn [manipulate is_symbolic_integral]. destruct p as [|[] p]; try discriminate; simpl.
    + apply IHl. intros p0 i0 a0 K. exact (H (DirL :: p0) i0 a0 K).
    + apply IHr. intros p0 i0 a0 K. exact (H (DirR :: p0) i0 a0 K).
Qed.
End Visit.
