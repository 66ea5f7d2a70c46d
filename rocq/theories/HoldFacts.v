(** Objects owning one heap object: simulation by values (proofs only). *)
From Coq Require Import NArith List Bool Lia.
From Verif Require Import Outcome HoldModel HoldSpec.
Import ListNotations.

Lemma upd_same : forall (A : Type) (f : N -> option A) a v, upd f a v a = v.
Proof. intros. unfold upd. rewrite N.eqb_refl. reflexivity. Qed.
Lemma upd_other : forall (A : Type) (f : N -> option A) a b v, b <> a -> upd f a v b = f b.
Proof. intros A f a b v H. unfold upd. apply N.eqb_neq in H. rewrite H. reflexivity. Qed.

Section Facts.
Context {P I O : Type} (clone : P -> P) (call : option P -> I -> outcome O).
Context (cl : forall q, clone q = q).

(** What a member pointer stands for. *)
Definition rep (h : N -> option P) (a : option N) (q : option P) : Prop :=
  match a, q with
  | None, None => True
  | Some b, Some r => h b = Some r
  | _, _ => False
  end.

Record sim (w : world P) (v : values P) : Prop := mk_sim {
  s_ob : forall x, match v_obj v x with
                   | Some q => exists a, w_obj w x = Some a /\ rep (w_heap w) a q
                   | None => w_obj w x = None
                   end;
  s_disj : forall x y a, w_obj w x = Some (Some a) -> w_obj w y = Some (Some a) -> x = y;
  s_ptr : forall p q, v_ptr v p = Some q ->
            exists a, w_ptr w p = Some a /\ w_heap w a = Some q /\ (forall x, w_obj w x <> Some (Some a));
  s_pdis : forall p p' q q' a, v_ptr v p = Some q -> v_ptr v p' = Some q' ->
             w_ptr w p = Some a -> w_ptr w p' = Some a -> p = p';
  s_own : forall a, w_heap w a <> None ->
            (exists x, w_obj w x = Some (Some a)) \/ (exists p q, v_ptr v p = Some q /\ w_ptr w p = Some a);
  s_bnd : forall a, w_heap w a <> None -> (a < w_next w)%N
}.

Lemma sim_start : sim start nothing.
Proof. constructor; cbn; intros; try discriminate; try reflexivity; congruence. Qed.

Lemma living : forall w v x a, sim w v -> w_obj w x = Some a -> exists q, v_obj v x = Some q /\ rep (w_heap w) a q.
Proof.
  intros w v x a S E. pose proof (s_ob w v S x) as H. destruct (v_obj v x) as [q|]; [|congruence].
  destruct H as [b [E' R]]. exists q. split; [reflexivity|]. congruence.
Qed.
Lemma living_heap : forall w v x a, sim w v -> w_obj w x = Some (Some a) -> w_heap w a <> None.
Proof.
  intros w v x a S E. destruct (living w v x _ S E) as [[q|] [_ R]]; [|destruct R]. cbn in R. congruence.
Qed.
Lemma fresh_obj : forall w v x, sim w v -> w_obj w x <> Some (Some (w_next w)).
Proof. intros w v x S E. pose proof (s_bnd w v S _ (living_heap w v x _ S E)). lia. Qed.
Lemma fresh_heap : forall w v, sim w v -> w_heap w (w_next w) = None.
Proof.
  intros w v S. destruct (w_heap w (w_next w)) as [q|] eqn:E; [|reflexivity].
  assert (L : (w_next w < w_next w)%N) by (apply (s_bnd w v S); congruence). lia.
Qed.
Lemma rep_deref : forall w a q, rep (w_heap w) a q -> deref w a = q.
Proof. intros w [a|] [q|] H; cbn in *; congruence || contradiction || reflexivity. Qed.

Lemma rep_upd : forall (h : N -> option P) a q b c, rep h a q -> a <> Some b -> rep (upd h b c) a q.
Proof.
  intros h [a|] [q|] b c H N; cbn in *; try contradiction; try exact Logic.I. rewrite upd_other by congruence. exact H.
Qed.

(** Deleting what an object holds, while the object is overwritten or dies. *)
Lemma delete_ok : forall (h : N -> option P) a q, rep h a q ->
  exists h', delete h a = Ok h' /\ (forall b, Some b = a -> h' b = None) /\ (forall b, Some b <> a -> h' b = h b).
Proof.
  intros h [a|] [q|] H; cbn in H; try contradiction.
  - exists (upd h a None). cbn [delete]. rewrite H. split; [reflexivity|]. split.
    + intros b E. injection E as ->. apply upd_same.
    + intros b N. apply upd_other. congruence.
  - exists h. split; [reflexivity|]. split; [discriminate|reflexivity].
Qed.

Lemma rep_keep : forall (h h' : N -> option P) a q, rep h a q -> (forall b, a = Some b -> h' b = h b) -> rep h' a q.
Proof. intros h h' [a|] [q|] H K; cbn in *; try contradiction; auto. rewrite K by reflexivity. exact H. Qed.

(** Removing one object and what it owns. *)
Lemma sim_drop : forall w v x a h, sim w v -> w_obj w x = Some a ->
  (forall b, Some b = a -> h b = None) -> (forall b, Some b <> a -> h b = w_heap w b) ->
  sim (mk_world h (w_next w) (upd (w_obj w) x None) (w_ptr w)) (mk_values (upd (v_obj v) x None) (v_ptr v)).
Proof.
  intros w v x a h S X D K.
  assert (NX : forall y b, y <> x -> w_obj w y = Some (Some b) -> Some b <> a).
  { intros y b NE E F. apply NE. apply (s_disj w v S y x b E). rewrite X, F. reflexivity. }
  assert (BK : forall b, h b <> None -> w_heap w b <> None /\ Some b <> a).
  { intros b H. assert (N : Some b <> a) by (intros F; apply H, D, F). rewrite K in H by exact N. split; assumption. }
  constructor; cbn [w_heap w_next w_obj w_ptr v_obj v_ptr].
  - intros y. unfold upd. destruct (N.eqb y x) eqn:Q; [reflexivity|]. apply N.eqb_neq in Q.
    pose proof (s_ob w v S y) as H. destruct (v_obj v y) as [q|]; [|exact H].
    destruct H as [b [E R]]. exists b. split; [exact E|]. eapply rep_keep; [exact R|].
    intros c ->. apply K. exact (NX y c Q E).
  - intros y z b. unfold upd. destruct (N.eqb y x); [discriminate|]. destruct (N.eqb z x); [discriminate|]. apply (s_disj w v S).
  - intros p q E. destruct (s_ptr w v S p q E) as [b [H1 [H2 H3]]]. exists b. split; [exact H1|]. split.
    + rewrite K; [exact H2|]. intros F. apply (H3 x). rewrite X, F. reflexivity.
    + intros y. unfold upd. destruct (N.eqb y x); [discriminate|]. apply H3.
  - exact (s_pdis w v S).
  - intros b H. apply BK in H as [H N]. apply (s_own w v S) in H as [[y E]|H]; [left|right; exact H].
    exists y. rewrite upd_other; [exact E|]. intros ->. rewrite X in E. injection E as E. congruence.
  - intros b H. apply BK in H as [H _]. exact (s_bnd w v S b H).
Qed.

(** A new object owning a new heap object. *)
Lemma sim_add : forall w v x q, sim w v -> w_obj w x = None ->
  sim (mk_world (upd (w_heap w) (w_next w) (Some q)) (N.succ (w_next w)) (upd (w_obj w) x (Some (Some (w_next w)))) (w_ptr w))
      (mk_values (upd (v_obj v) x (Some (Some q))) (v_ptr v)).
Proof.
  intros w v x q S X. pose proof (fresh_heap w v S) as FH.
  constructor; cbn [w_heap w_next w_obj w_ptr v_obj v_ptr].
  - intros y. unfold upd at 1 2 4. destruct (N.eqb y x) eqn:Q.
    + eexists. split; [reflexivity|]. cbn. apply upd_same.
    + pose proof (s_ob w v S y) as H. destruct (v_obj v y) as [r|]; [|exact H].
      destruct H as [b [E R]]. exists b. split; [exact E|]. apply rep_upd; [exact R|].
      intros ->. exact (fresh_obj w v y S E).
  - intros y z b. unfold upd. destruct (N.eqb y x) eqn:Q, (N.eqb z x) eqn:Q'; intros H1 H2.
    + apply N.eqb_eq in Q, Q'. congruence.
    + injection H1 as <-. destruct (fresh_obj w v z S H2).
    + injection H2 as <-. destruct (fresh_obj w v y S H1).
    + exact (s_disj w v S _ _ _ H1 H2).
  - intros p r E. destruct (s_ptr w v S p r E) as [b [H1 [H2 H3]]]. exists b. split; [exact H1|].
    assert (b <> w_next w) by congruence. split; [rewrite upd_other by assumption; exact H2|].
    intros y. unfold upd. destruct (N.eqb y x); [congruence|apply H3].
  - exact (s_pdis w v S).
  - intros b H. destruct (N.eq_dec b (w_next w)) as [->|NE].
    + left. exists x. apply upd_same.
    + rewrite upd_other in H by exact NE. apply (s_own w v S) in H as [[y E]|H]; [left|right; exact H].
      exists y. rewrite upd_other; [exact E|]. congruence.
  - intros b H. destruct (N.eq_dec b (w_next w)) as [->|NE]; [lia|].
    rewrite upd_other in H by exact NE. apply (s_bnd w v S) in H. lia.
Qed.

(** Moving what [y] holds to a new object [x]. *)
Lemma sim_take : forall w v x y a q, sim w v -> w_obj w x = None -> w_obj w y = Some a -> v_obj v y = Some q -> x <> y ->
  sim (mk_world (w_heap w) (w_next w) (upd (upd (w_obj w) y (Some None)) x (Some a)) (w_ptr w))
      (mk_values (upd (upd (v_obj v) y (Some None)) x (Some q)) (v_ptr v)).
Proof.
  intros w v x y a q S X Y VY NE.
  assert (R : rep (w_heap w) a q).
  { destruct (living w v y a S Y) as [q' [E R]]. congruence. }
  constructor; cbn [w_heap w_next w_obj w_ptr v_obj v_ptr].
  - intros z. unfold upd. destruct (N.eqb z x) eqn:Q; [exists a; split; [reflexivity|exact R]|].
    destruct (N.eqb z y) eqn:Q'; [exists None; split; reflexivity|]. exact (s_ob w v S z).
  - assert (G : forall z b, upd (upd (w_obj w) y (Some None)) x (Some a) z = Some (Some b) ->
              exists z', w_obj w z' = Some (Some b) /\ ((z = x /\ z' = y) \/ (z = z' /\ z <> x /\ z <> y))).
    { intros z b. unfold upd. destruct (N.eqb z x) eqn:Q.
      - apply N.eqb_eq in Q. intros E. injection E as ->. exists y. auto.
      - apply N.eqb_neq in Q. destruct (N.eqb z y) eqn:Q'; [discriminate|]. apply N.eqb_neq in Q'.
        intros E. exists z. auto. }
    intros z1 z2 b H1 H2. apply G in H1 as [z1' [H1 K1]]. apply G in H2 as [z2' [H2 K2]].
    pose proof (s_disj w v S _ _ _ H1 H2). destruct K1 as [[? ?]|[? [? ?]]], K2 as [[? ?]|[? [? ?]]]; congruence.
  - intros p r E. destruct (s_ptr w v S p r E) as [b [H1 [H2 H3]]]. exists b. split; [exact H1|]. split; [exact H2|].
    intros z. unfold upd. destruct (N.eqb z x); [intros F; injection F as ->; exact (H3 y Y)|].
    destruct (N.eqb z y); [discriminate|apply H3].
  - exact (s_pdis w v S).
  - intros b H. apply (s_own w v S) in H as [[z E]|H]; [left|right; exact H].
    destruct (N.eq_dec z y) as [->|N1].
    + exists x. rewrite Y in E. injection E as ->. apply upd_same.
    + exists z. assert (z <> x) by congruence. rewrite !upd_other by assumption. exact E.
  - exact (s_bnd w v S).
Qed.

(** The simulation only depends on the maps up to equality at every point. *)
Lemma sim_ext : forall h n f g p h' f' v u k,
  sim (mk_world h n f p) (mk_values v k) ->
  (forall a, h' a = h a) -> (forall x, f' x = f x) -> (forall x, u x = v x) -> g = p ->
  sim (mk_world h' n f' g) (mk_values u k).
Proof.
  intros h n f g p h' f' v u k S EH EF EV ->.
  destruct S as [S1 S2 S3 S4 S5 S6]; cbn [w_heap w_next w_obj w_ptr v_obj v_ptr] in *.
  constructor; cbn [w_heap w_next w_obj w_ptr v_obj v_ptr].
  - intros x. rewrite EV, EF. specialize (S1 x). destruct (v x); [|exact S1]. destruct S1 as [a [E R]].
    exists a. split; [exact E|]. eapply rep_keep; [exact R|]. intros; apply EH.
  - intros x y a. rewrite !EF. apply S2.
  - intros q r E. destruct (S3 q r E) as [a [H1 [H2 H3]]]. exists a. split; [exact H1|]. split; [rewrite EH; exact H2|].
    intros x. rewrite EF. apply H3.
  - exact S4.
  - intros a H. rewrite EH in H. apply S5 in H as [[x E]|H]; [left; exists x; rewrite EF; exact E|right; exact H].
  - intros a H. rewrite EH in H. auto.
Qed.

Lemma sim_step : forall c w v v' out, sim w v -> values_step call c v = Some (v', out) ->
  exists w', step clone call c w = Ok (w', out) /\ sim w' v'.
Proof.
  intros c w v v' out S. destruct c as [p q|x|x p|x y|x y|x y|x y|x i|x]; cbn [values_step].
  - (* New *)
    destruct (v_ptr v p) eqn:VP; [discriminate|]. intros H. injection H as <- <-. unfold step.
    eexists. split; [reflexivity|]. pose proof (fresh_heap w v S) as FH.
    constructor; cbn [w_heap w_next w_obj w_ptr v_obj v_ptr].
    + intros y. pose proof (s_ob w v S y) as H. destruct (v_obj v y) as [r|]; [|exact H].
      destruct H as [b [E R]]. exists b. split; [exact E|]. apply rep_upd; [exact R|].
      intros ->. exact (fresh_obj w v y S E).
    + exact (s_disj w v S).
    + intros p' r E. unfold upd in E. destruct (N.eqb p' p) eqn:Z.
      * apply N.eqb_eq in Z. subst p'. injection E as <-. exists (w_next w). split; [apply upd_same|].
        split; [apply upd_same|]. intros y. exact (fresh_obj w v y S).
      * apply N.eqb_neq in Z. destruct (s_ptr w v S p' r E) as [a [H1 [H2 H3]]]. exists a.
        split; [rewrite upd_other by exact Z; exact H1|]. split; [|exact H3]. rewrite upd_other; congruence.
    + intros p1 p2 q1 q2 a. unfold upd. destruct (N.eqb p1 p) eqn:Z, (N.eqb p2 p) eqn:Z'; intros H1 H2 H3 H4.
      * apply N.eqb_eq in Z, Z'. congruence.
      * injection H3 as <-. destruct (s_ptr w v S p2 q2 H2) as [b [K1 [K2 _]]]. congruence.
      * injection H4 as <-. destruct (s_ptr w v S p1 q1 H1) as [b [K1 [K2 _]]]. congruence.
      * exact (s_pdis w v S _ _ _ _ _ H1 H2 H3 H4).
    + intros a H. destruct (N.eq_dec a (w_next w)) as [->|NE].
      * right. exists p, q. split; apply upd_same.
      * rewrite upd_other in H by exact NE. apply (s_own w v S) in H as [H|[p' [q' [H1 H2]]]]; [left; exact H|].
        right. exists p', q'. assert (p' <> p) by congruence. rewrite !upd_other by assumption. split; assumption.
    + intros a H. destruct (N.eq_dec a (w_next w)) as [->|NE]; [lia|].
      rewrite upd_other in H by exact NE. apply (s_bnd w v S) in H. lia.
  - (* Default *)
    pose proof (s_ob w v S x) as WX. destruct (v_obj v x) eqn:X; [discriminate|]. intros H. injection H as <- <-.
    unfold step. rewrite WX. eexists. split; [reflexivity|].
    constructor; cbn [w_heap w_next w_obj w_ptr v_obj v_ptr].
    + intros y. unfold upd. destruct (N.eqb y x); [exists None; split; reflexivity|exact (s_ob w v S y)].
    + intros y z b. unfold upd. destruct (N.eqb y x); [discriminate|]. destruct (N.eqb z x); [discriminate|]. apply (s_disj w v S).
    + intros p q E. destruct (s_ptr w v S p q E) as [b [H1 [H2 H3]]]. exists b. split; [exact H1|]. split; [exact H2|].
      intros y. unfold upd. destruct (N.eqb y x); [discriminate|apply H3].
    + exact (s_pdis w v S).
    + intros b H. apply (s_own w v S) in H as [[y E]|H]; [left|right; exact H]. exists y. rewrite upd_other; congruence.
    + exact (s_bnd w v S).
  - (* Adopt *)
    pose proof (s_ob w v S x) as WX. destruct (v_obj v x) eqn:X; [discriminate|].
    destruct (v_ptr v p) as [q|] eqn:VP; [|discriminate]. intros H. injection H as <- <-.
    destruct (s_ptr w v S p q VP) as [a [PA [HA NA]]]. unfold step. rewrite WX, PA. eexists. split; [reflexivity|].
    constructor; cbn [w_heap w_next w_obj w_ptr v_obj v_ptr].
    + intros y. unfold upd. destruct (N.eqb y x); [exists (Some a); split; [reflexivity|exact HA]|exact (s_ob w v S y)].
    + intros y z b. unfold upd. destruct (N.eqb y x) eqn:Q, (N.eqb z x) eqn:Q'; intros H1 H2.
      * apply N.eqb_eq in Q, Q'. congruence.
      * injection H1 as <-. destruct (NA z H2).
      * injection H2 as <-. destruct (NA y H1).
      * exact (s_disj w v S _ _ _ H1 H2).
    + intros p' r E. unfold upd in E. destruct (N.eqb p' p) eqn:Z; [discriminate|]. apply N.eqb_neq in Z.
      destruct (s_ptr w v S p' r E) as [b [H1 [H2 H3]]]. exists b. split; [exact H1|]. split; [exact H2|].
      intros y. unfold upd. destruct (N.eqb y x); [|apply H3]. intros F. injection F as <-.
      exact (Z (s_pdis w v S _ _ _ _ _ E VP H1 PA)).
    + intros p1 p2 q1 q2 b. unfold upd. destruct (N.eqb p1 p); [discriminate|]. destruct (N.eqb p2 p); [discriminate|]. apply (s_pdis w v S).
    + intros b H. apply (s_own w v S) in H as [[y E]|[p' [q' [H1 H2]]]].
      * left. exists y. rewrite upd_other; congruence.
      * destruct (N.eq_dec p' p) as [->|NE]; [left; exists x; rewrite upd_same; congruence|].
        right. exists p', q'. split; [rewrite upd_other by exact NE; exact H1|exact H2].
    + exact (s_bnd w v S).
  - (* Copy *)
    pose proof (s_ob w v S x) as WX. pose proof (s_ob w v S y) as WY. destruct (v_obj v x) eqn:X; [discriminate|].
    destruct (v_obj v y) as [[q|]|] eqn:Y; try discriminate. destruct WY as [a [WY R]].
    intros H. injection H as <- <-. unfold step. rewrite WX, WY, (rep_deref w a _ R), cl. eexists. split; [reflexivity|].
    exact (sim_add w v x q S WX).
  - (* Assign *)
    pose proof (s_ob w v S x) as WX. pose proof (s_ob w v S y) as WY. destruct (v_obj v x) as [r|] eqn:X; [|discriminate].
    destruct (v_obj v y) as [[q|]|] eqn:Y; try discriminate. destruct WY as [a [WY R]]. destruct WX as [b [WX Rb]].
    intros H. injection H as <- <-. unfold step. rewrite WX, WY, (rep_deref w a _ R), cl.
    assert (BN : b <> Some (w_next w)) by (intros ->; exact (fresh_obj w v x S WX)).
    destruct (delete_ok _ _ _ Rb) as [h [_ [D K]]].
    destruct (delete_ok _ _ _ (rep_upd _ _ _ (w_next w) (Some q) Rb BN)) as [h' [E' [D' K']]]. rewrite E'. cbn [bind].
    eexists. split; [reflexivity|].
    pose proof (sim_drop w v x b h S WX D K) as S1.
    pose proof (sim_add _ _ x q S1 (upd_same _ _ _ _)) as S2. cbn [w_heap w_next w_obj w_ptr v_obj v_ptr] in S2.
    eapply sim_ext; [exact S2| | | |reflexivity].
    + intros c. destruct (N.eq_dec c (w_next w)) as [->|NE].
      * rewrite upd_same, K' by congruence. apply upd_same.
      * rewrite upd_other by exact NE. destruct b as [b|].
        { destruct (N.eq_dec c b) as [->|NE']; [rewrite D, D' by reflexivity; reflexivity|].
          rewrite K, K' by congruence. apply upd_other. exact NE. }
        { rewrite K, K' by discriminate. apply upd_other. exact NE. }
    + intros z. unfold upd. destruct (N.eqb z x); reflexivity.
    + intros z. unfold upd. destruct (N.eqb z x); reflexivity.
  - (* Take *)
    pose proof (s_ob w v S x) as WX. pose proof (s_ob w v S y) as WY. destruct (v_obj v x) eqn:X; [discriminate|].
    destruct (v_obj v y) as [q|] eqn:Y; [|discriminate]. destruct WY as [a [WY R]].
    intros H. injection H as <- <-. unfold step. rewrite WX, WY. eexists. split; [reflexivity|].
    apply sim_take; auto. congruence.
  - (* TakeAssign *)
    pose proof (s_ob w v S x) as WX. pose proof (s_ob w v S y) as WY. destruct (v_obj v x) as [r|] eqn:X; [|discriminate].
    destruct (v_obj v y) as [q|] eqn:Y; [|discriminate]. destruct WY as [a [WY R]]. destruct WX as [b [WX Rb]].
    intros H. injection H as <- <-. unfold step. rewrite WX, WY. destruct (N.eqb x y) eqn:XY.
    + apply N.eqb_eq in XY. subst y. cbn [bind]. eexists. split; [reflexivity|].
      destruct w as [wh wn wo wp], v as [vo vp]. cbn [w_heap w_next w_obj w_ptr v_obj v_ptr] in *.
      eapply sim_ext; [exact S|reflexivity| | |reflexivity].
      * intros z. unfold upd. destruct (N.eqb z x) eqn:Q; [apply N.eqb_eq in Q; subst z; congruence|reflexivity].
      * intros z. unfold upd. destruct (N.eqb z x) eqn:Q; [apply N.eqb_eq in Q; subst z; congruence|reflexivity].
    + apply N.eqb_neq in XY. destruct (delete_ok _ _ _ Rb) as [h [E [D K]]]. rewrite E. cbn [bind].
      eexists. split; [reflexivity|].
      pose proof (sim_drop w v x b h S WX D K) as S1.
      assert (Y1 : upd (w_obj w) x None y = Some a) by (rewrite upd_other by congruence; exact WY).
      assert (Y2 : upd (v_obj v) x None y = Some q) by (rewrite upd_other by congruence; exact Y).
      pose proof (sim_take _ _ x y a q S1 (upd_same _ _ _ _) Y1 Y2 XY) as S2.
      cbn [w_heap w_next w_obj w_ptr v_obj v_ptr] in S2.
      eapply sim_ext; [exact S2|reflexivity| | |reflexivity];
        intros z; unfold upd; destruct (N.eqb z x) eqn:Q; try reflexivity; destruct (N.eqb z y); reflexivity.
  - (* Call *)
    pose proof (s_ob w v S x) as WX. destruct (v_obj v x) as [q|] eqn:X; [|discriminate]. destruct WX as [a [WX R]].
    intros H. unfold step. rewrite WX, (rep_deref w a _ R).
    destruct (call q i); try discriminate; injection H as <- <-; exists w; (split; [reflexivity|exact S]).
  - (* Destroy *)
    pose proof (s_ob w v S x) as WX. destruct (v_obj v x) as [q|] eqn:X; [|discriminate]. destruct WX as [a [WX R]].
    intros H. injection H as <- <-. unfold step. rewrite WX. destruct (delete_ok _ _ _ R) as [h [E [D K]]]. rewrite E.
    eexists. split; [reflexivity|]. exact (sim_drop w v x a h S WX D K).
Qed.

Lemma sim_run : forall prog w v v' out, sim w v -> values_run call prog v = Some (v', out) ->
  exists w', run clone call prog w = Ok (w', out) /\ sim w' v'.
Proof.
  induction prog as [|c prog IH]; intros w v v' out S H; cbn [values_run] in H.
  - injection H as <- <-. exists w. split; [reflexivity|exact S].
  - destruct (values_step call c v) as [[v1 out1]|] eqn:E; [|discriminate].
    destruct (values_run call prog v1) as [[v2 out2]|] eqn:F; [|discriminate]. injection H as <- <-.
    destruct (sim_step _ _ _ _ _ S E) as [w1 [W1 S1]]. destruct (IH _ _ _ _ S1 F) as [w2 [W2 S2]].
    exists w2. cbn [run]. rewrite W1. cbn [bind fst snd]. rewrite W2. cbn [bind fst snd]. split; [reflexivity|exact S2].
Qed.

Lemma run_app : forall p q (w w' : world P) out, run clone call p w = Ok (w', out) ->
  run clone call (p ++ q) w = bind (run clone call q w') (fun r => Ok (fst r, out ++ snd r)).
Proof.
  induction p as [|c p IH]; intros q w w' out H; cbn [run app] in *.
  - injection H as <- <-. destruct (run clone call q w) as [[]| |]; reflexivity.
  - destruct (step clone call c w) as [[w1 o1]| |]; try discriminate. cbn [bind fst snd] in *.
    destruct (run clone call p w1) as [[w2 o2]| |] eqn:E; try discriminate. cbn [bind fst snd] in H.
    injection H as <- <-. rewrite (IH q _ _ _ E). destruct (run clone call q w2) as [[w3 o3]| |]; try reflexivity.
    cbn [bind fst snd]. rewrite app_assoc. reflexivity.
Qed.
End Facts.
