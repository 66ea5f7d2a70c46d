(** Histories on the heap refine histories over a store of plain values. *)
From Coq Require Import ZArith NArith List Bool Arith Lia Permutation.
From Verif Require Import Outcome Num RtModel RtFacts HeapModel HeapSpec HeapFacts HeapRead HeapRun HeapOps HeapExec.
Import ListNotations.

Section HeapHistory.
Context (n : num) (order elide : nat -> bool).
Notation mem := (mem n).
Notation expr := (expr n).
Notation IExpr := (IExpr n).
Notation ISlot := (ISlot n).
Notation wf := (wf n).
Notation swaps := (swaps n).
Notation grows := (grows n).

(** The invariant; with [C], every allocated node belongs to an object. *)
Definition inv (C : Prop) (env : vars) (m : mem) (st : store n) (own : nat -> list nat) : Prop :=
  wf m /\ agrees n env m st own /\ (C -> forall a, at_ m a <> None -> exists x, In a (own x)).

Lemma agrees_own : forall env m st own x, agrees n env m st own -> NoDup (own x) /\
  match env x, st x with
  | Some s, Some v => holds_value n m s v (own x)
  | None, None => own x = []
  | _, _ => False
  end.
Proof.
  intros env m st own x [A _]. specialize (A x). destruct (env x) as [s|], (st x) as [v|]; try contradiction.
  - destruct A as [A ND]. split; assumption.
  - rewrite A. split; [constructor|reflexivity].
Qed.

Lemma agrees_below : forall env m st own x a, wf m -> agrees n env m st own -> In a (own x) -> a < next m.
Proof.
  intros env m st own x a W A I. apply (wf_alive n m a W). destruct (agrees_own env m st own x A) as [_ H].
  destruct (env x) as [s|], (st x) as [v|]; try contradiction; [|rewrite H in I; destruct I].
  apply (own1_alive n m (ISlot s v) (own x) H a I).
Qed.

Lemma inv_reads : forall C env m st own, inv C env m st own -> reads n env m st.
Proof.
  intros C env m st own [W [A _]]. split; [exact W|]. intros y.
  destruct (agrees_own env m st own y A) as [ND H].
  destruct (env y) as [[a|]|], (st y) as [[e|]|]; try contradiction; try exact I.
  apply (has_enough n (S (length (own y)))); [exact W|]. exists (own y). repeat split; auto.
Qed.

(** Replacing one object. *)
Lemma inv_swap : forall C env m st own x m' fp' s v, inv C env m st own ->
  swaps C m (own x) m' fp' ->
  match s, v with
  | Some s, Some v => holds_value n m' s v fp'
  | None, None => fp' = []
  | _, _ => False
  end ->
  inv C (upd env x s) m' (upd st x v) (upd own x fp').
Proof.
  intros C env m st own x m' fp' s v [W [A T]] [S1 [S2 [S3 [S4 [S5 S6]]]]] H.
  pose proof A as A0. destruct A as [A D].
  assert (FAR : forall y a, y <> x -> In a (own y) -> ~ In a (own x)).
  { intros y a N Y X. apply N. apply (D y x a Y X). }
  split; [exact S2|]. split; [split|].
  - intros y. unfold upd. destruct (Nat.eqb_spec y x) as [->|N].
    + destruct s as [s|], v as [v|]; try contradiction; [split; assumption|exact H].
    + specialize (A y). destruct (env y) as [t|], (st y) as [w|]; try contradiction; [|exact A].
      destruct A as [A ND]. split; [|exact ND].
      apply (own1_frame n m m' (ISlot t w)); [exact A|]. intros a I. apply S4.
      * apply (agrees_below env m st own y a W A0 I).
      * apply (FAR y a N I).
  - intros y z a. unfold upd. destruct (Nat.eqb_spec y x) as [->|Ny], (Nat.eqb_spec z x) as [->|Nz]; auto; intros Y Z.
    + apply S5 in Y as [Y|Y]; [now apply (D x z a)|]. pose proof (agrees_below env m st own z a W A0 Z). lia.
    + apply S5 in Z as [Z|Z]; [now apply (D y x a)|]. pose proof (agrees_below env m st own y a W A0 Y). lia.
    + now apply (D y z a).
  - intros c a I. destruct (S6 c a I) as [J|[J1 J2]].
    + exists x. unfold upd. now rewrite Nat.eqb_refl.
    + rewrite S4 in I by assumption. destruct (T c a I) as [y Y]. exists y. unfold upd.
      destruct (Nat.eqb_spec y x) as [->|N]; [contradiction|exact Y].
Qed.

(** Leaving everything alone. *)
Lemma inv_grows : forall C env m st own m', ~ C -> inv C env m st own -> grows m m' -> inv C env m' st own.
Proof.
  intros C env m st own m' NC [W [A T]] G. split; [apply (grows_wf n m m' G)|]. split; [|contradiction].
  destruct A as [A D]. split; [|exact D]. intros y. specialize (A y).
  destruct (env y) as [s|], (st y) as [v|]; try contradiction; [|exact A].
  destruct A as [A ND]. split; [|exact ND]. now apply (grows_own1 n m m' (ISlot s v)).
Qed.

(** A new state differs from the old one at most in the target of the statement. *)
Definition changes (C : Prop) (s : stmt n) (env env' : vars) (m m' : mem) (st' : store n) (own own' : nat -> list nat) : Prop :=
  inv C env' m' st' own' /\
  (forall y, target n s <> Some y -> env' y = env y /\ own' y = own y /\
     (forall a, In a (own y) -> at_ m' a = at_ m a)).

Lemma changes_swap : forall C (s : stmt n) env m st own x m' fp' t v, target n s = Some x -> inv C env m st own ->
  swaps C m (own x) m' fp' ->
  match t, v with
  | Some s, Some v => holds_value n m' s v fp'
  | None, None => fp' = []
  | _, _ => False
  end ->
  changes C s env (upd env x t) m m' (upd st x v) own (upd own x fp').
Proof.
  intros C s env m st own x m' fp' t v E V S H. split; [now apply inv_swap with (m := m)|].
  intros y N. rewrite E in N. unfold upd. destruct (Nat.eqb_spec y x) as [->|NE]; [congruence|].
  split; [reflexivity|]. split; [reflexivity|]. intros a I. destruct V as [W [A _]].
  destruct S as [_ [_ [_ [S _]]]]. apply S.
  - apply (agrees_below env m st own y a W A I).
  - intros J. destruct A as [_ D]. apply NE. apply (D y x a I J).
Qed.

Lemma changes_grows : forall C (s : stmt n) env m st own m', ~ C -> inv C env m st own -> grows m m' ->
  changes C s env env m m' st own own.
Proof.
  intros C s env m st own m' NC V G. split; [now apply inv_grows with (m := m)|].
  intros y _. split; [reflexivity|]. split; [reflexivity|]. intros a I. destruct V as [W [A _]].
  apply G. apply (agrees_below env m st own y a W A I).
Qed.

Lemma changes_none : forall C (s : stmt n) env m st own, inv C env m st own ->
  changes C s env env m m st own own.
Proof. intros C s env m st own V. split; [exact V|]. intros y _. repeat split. Qed.

(** What a source makes, as a change of the heap. *)
Lemma source_swaps : forall C env m st own s, inv C env m st own -> quiet n C st s ->
  match source_spec n st s with
  | Ok v => exists m' t fp', source_value n order elide env s m = ROk m' t /\ holds_value n m' t v fp' /\
      swaps C m [] m' fp'
  | Throw _ => exists m' y, source_value n order elide env s m = RThrow m' y /\ grows m m'
  | UB => True
  end.
Proof.
  intros C env m st own s V Q. pose proof (source_value_ok n order elide C env m st s (inv_reads _ _ _ _ _ V) Q) as R.
  destruct (source_spec n st s) as [v|x|]; [| |exact I]; cbv beta iota delta [HeapRun.runs] in R.
  - destruct R as [m' [t [E [L [O S]]]]]. inversion O as [|? fp ? L1 H1 O1]; subst. inversion O1; subst.
    rewrite app_nil_r in S. exists m', t, fp. split; [exact E|split; [exact H1|exact S]].
  - exact R.
Qed.

(** Keeping an old object beside what was made. *)
Lemma swaps_with : forall C m m' fp' f, wf m -> swaps C m [] m' fp' -> NoDup f -> (forall a, In a f -> a < next m) ->
  swaps C m f m' (f ++ fp').
Proof.
  intros C m m' fp' f W S ND B. apply (swaps_perm n C m f m' (fp' ++ f)); [apply Permutation_app_comm|].
  change f with ([] ++ f) at 1. apply swaps_frame; auto.
Qed.

(** Deleting what an object held. *)
Lemma destroy_swaps : forall C m s v f L, wf m -> holds_value n m s v f -> NoDup (f ++ L) ->
  exists m', destroy n s m = ROk m' tt /\ swaps C m (f ++ L) m' L.
Proof.
  intros C m s v f L W H ND. destruct s as [a|], v as [e|]; try contradiction.
  - destruct (delete_ok n m a f W) as [m' [E Wi]]; [left; exists e; exact H|apply (nodup_app_l _ _ _ ND)|].
    exists m'. split; [exact E|]. now apply wiped_swaps.
  - cbn in H. subst. exists m. split; [reflexivity|]. now apply swaps_refl.
Qed.

Lemma take_swaps : forall C m s v f p e g, wf m -> holds_value n m s v f -> owns n m p e g -> NoDup (f ++ g) ->
  exists m', take n s p m = ROk m' (Some p) /\ swaps C m (f ++ g) m' g /\ owns n m' p e g.
Proof.
  intros C m s v f p e g W H O ND. destruct (destroy_swaps C m s v f g W H ND) as [m' [E S]].
  exists m'. split; [|split; [exact S|]].
  - unfold take. destruct s as [a|]; cbn [destroy] in E.
    + assert (NE : Nat.eqb a p = false).
      { destruct v as [x|]; [|contradiction]. cbn in H. apply Nat.eqb_neq. intros ->.
        assert (P1 : In p f) by (destruct H; now left).
        assert (P2 : In p g) by (destruct O; now left).
        apply (nodup_app_disjoint _ f g p ND P1 P2). }
      rewrite NE. rewrite (mbind_ok n _ _ _ _ _ E). reflexivity.
    + inversion E; subst. reflexivity.
  - destruct v as [x|], s as [a|]; try contradiction.
    + cbn [destroy] in E. destruct (delete_ok n m a f W) as [m2 [E2 Wi]]; [left; exists x; exact H|apply (nodup_app_l _ _ _ ND)|].
      rewrite E in E2. inversion E2; subst. apply (wiped_own1 n m m2 f (IExpr p e) g Wi O).
      intros z Z Y. apply (nodup_app_disjoint _ f g z ND Y Z).
    + inversion E; subst. exact O.
Qed.

(** Cloning, as a change of the heap. *)
Lemma clone_swaps : forall C m a e f, wf m -> owns n m a e f -> NoDup f ->
  exists m' p g, clone n order a m = ROk m' p /\ owns n m' p e g /\ swaps C m [] m' g.
Proof.
  intros C m a e f W O ND.
  destruct (clone_here n order C (S (length f)) m [] m a e) as [m' [p [E [L [O' S]]]]].
  - now apply holds_start.
  - exists f. repeat split; auto.
  - inversion O' as [|? g ? L1 H1 O1]; subst. inversion O1; subst. rewrite app_nil_r in S.
    exists m', p, g. split; [exact E|split; [exact H1|exact S]].
Qed.

Lemma raised_unclean : forall (C : Prop) (ev : event n), (C -> ev <> Raised n) -> ev = Raised n -> ~ C.
Proof. intros C ev H E c. now apply (H c). Qed.

Lemma swaps_unclean : forall (C : Prop) m f m' g, ~ C -> swaps False m f m' g -> swaps C m f m' g.
Proof. intros C m f m' g N. apply swaps_weaken. exact N. Qed.

Lemma nodup_swaps : forall C m f m' g, swaps C m f m' g -> NoDup g.
Proof. intros C m f m' g [_ [_ [N _]]]. exact N. Qed.

Lemma wf_swaps : forall C m f m' g, swaps C m f m' g -> wf m'.
Proof. intros C m f m' g [_ [W _]]. exact W. Qed.

Lemma quiet_of : forall (C : Prop) st (s : stmt n) src x, (s = Init n x src \/ s = Assign n x src) ->
  (C -> gradient_by_symbol n st s = false) -> quiet n C st src.
Proof.
  intros C st s src x E H c. specialize (H c). destruct E; subst; cbn in H;
    (destruct src; try exact I; destruct x0; try exact I; destruct (st y) as [[e|]|]; [exact H|exact I|exact I]).
Qed.

(** Assigning what a temporary holds: clone, delete the old value, delete the temporary. *)
Lemma assign_swaps : forall C m old v f t e g, wf m -> holds_value n m old v f -> holds_value n m t (Some e) g ->
  NoDup (f ++ g) -> (forall a, In a (f ++ g) -> a < next m) ->
  exists m' p h, (new <- assign n order old t; _ <- destroy n t; ret new) m = ROk m' (Some p) /\
    owns n m' p e h /\ swaps C m (f ++ g) m' h.
Proof.
  intros C m old v f t e g W Ho Ht ND B. destruct t as [b|]; [|contradiction]. cbn in Ht.
  destruct (clone_swaps C m b e g W Ht (nodup_app_r _ _ _ ND)) as [m1 [p [h [E1 [Op S1]]]]].
  pose proof (wf_swaps _ _ _ _ _ S1) as W1. pose proof (swaps_grows n C m m1 h S1) as G1.
  assert (S1' : swaps C m (f ++ g) m1 ((f ++ g) ++ h)) by now apply swaps_with.
  pose proof (nodup_swaps _ _ _ _ _ S1') as ND1.
  assert (Ho1 : holds_value n m1 old v f) by (apply (grows_own1 n m m1 (ISlot old v) f W G1 Ho)).
  assert (Ht1 : owns n m1 b e g) by (apply (grows_own1 n m m1 (IExpr b e) g W G1 Ht)).
  assert (NDfh : NoDup (f ++ h)).
  { apply nodup_app; [apply (nodup_app_l _ f g), (nodup_app_l _ _ _ ND1)|apply (nodup_app_r _ _ _ ND1)|].
    intros x X Y. apply (nodup_app_disjoint _ (f ++ g) h x ND1); [apply in_or_app; now left|exact Y]. }
  destruct (take_swaps C m1 old v f p e h W1 Ho1 Op NDfh) as [m2 [E2 [S2 Op2]]].
  pose proof (wf_swaps _ _ _ _ _ S2) as W2.
  assert (B1 : forall a, In a g -> a < next m1).
  { intros a I. destruct G1 as [G1 _]. specialize (B a (in_or_app _ _ _ (or_intror I))). lia. }
  assert (FAR : forall x, In x g -> ~ In x (f ++ h)).
  { intros x X Y. apply in_app_or in Y as [Y|Y].
    - apply (nodup_app_disjoint _ f g x ND Y X).
    - apply (nodup_app_disjoint _ (f ++ g) h x ND1); [apply in_or_app; now right|exact Y]. }
  assert (S2' : swaps C m1 ((f ++ h) ++ g) m2 (h ++ g)).
  { apply swaps_frame; [exact S2|apply (nodup_app_r _ _ _ ND)|exact B1|exact FAR]. }
  assert (Ht2 : owns n m2 b e g).
  { apply (own1_frame n m1 m2 (IExpr b e) g Ht1). intros x X. destruct S2 as [_ [_ [_ [S2 _]]]]. apply S2; auto. }
  assert (NDgh : NoDup (g ++ h)) by (apply (Permutation_NoDup (Permutation_app_comm h g)), (nodup_swaps _ _ _ _ _ S2')).
  destruct (destroy_swaps C m2 (Some b) (Some e) g h W2 Ht2 NDgh) as [m3 [E3 S3]].
  exists m3, p, h. split; [|split].
  - assert (EA : assign n order old (Some b) m = ROk m2 (Some p)).
    { unfold assign. change (mbind (deref n (Some b)) (fun a => q <- clone n order a; take n old q) m)
        with ((q <- clone n order b; take n old q) m). rewrite (mbind_ok n _ _ _ _ _ E1). exact E2. }
    rewrite (mbind_ok n _ _ _ _ _ EA), (mbind_ok n _ _ _ _ _ E3). reflexivity.
  - destruct (delete_ok n m2 b g W2) as [m3' [E3' Wi]]; [left; exists e; exact Ht2|apply (nodup_app_l _ _ _ NDgh)|].
    cbn [destroy] in E3. rewrite E3 in E3'. inversion E3'; subst.
    apply (wiped_own1 n m2 m3' g (IExpr p e) h Wi Op2). intros z Z Y. apply (nodup_app_disjoint _ g h z NDgh Y Z).
  - apply (swaps_trans n C m (f ++ g) m1 ((f ++ g) ++ h)); [exact S1'|].
    apply (swaps_trans n C m1 ((f ++ g) ++ h) m2 (h ++ g)).
    + assert (P : Permutation ((f ++ h) ++ g) ((f ++ g) ++ h)).
      { rewrite <- !app_assoc. apply Permutation_app_head, Permutation_app_comm. }
      destruct S2' as [Z1 [Z2 [Z3 [Z4 [Z5 Z6]]]]]. repeat split; auto.
      * intros q Q N. apply Z4; [exact Q|]. intros I. apply N. now apply (Permutation_in q P).
      * intros q Q. apply Z5 in Q as [Q|Q]; [left; now apply (Permutation_in q P)|now right].
      * intros c q Q. destruct (Z6 c q Q) as [I|[I J]]; [now left|right]. split; [exact I|].
        intros K. apply J. now apply (Permutation_in q (Permutation_sym P)).
    + destruct S3 as [Z1 [Z2 [Z3 [Z4 [Z5 Z6]]]]]. repeat split; auto.
      * intros q Q N. apply Z4; [exact Q|]. intros I. apply N. apply (Permutation_in q (Permutation_app_comm g h) I).
      * intros q Q. now apply Z5 in Q as [Q|Q]; [left; apply (Permutation_in q (Permutation_app_comm g h))|right].
      * intros c q Q. destruct (Z6 c q Q) as [I|[I J]]; [now left|right]. split; [exact I|].
        intros K. apply J. apply (Permutation_in q (Permutation_app_comm h g) K).
Qed.

Lemma exec_ok : forall C s env m st own ev st', inv C env m st own -> exec_spec n s st = Some (ev, st') ->
  (C -> ev <> Raised n) -> (C -> gradient_by_symbol n st s = false) ->
  exists env' m' own', exec n order elide s env m = Some (ev, env', m') /\ changes C s env env' m m' st' own own'.
Proof.
  intros C s env m st own ev st' V E NR NG. pose proof V as V0. destruct V0 as [W [A T]].
  assert (BEL : forall x a, In a (own x) -> a < next m).
  { intros x a. apply (agrees_below env m st own x a W A). }
  destruct s as [x|x src|x src|x|x|x w]; cbn [exec_spec exec] in *.
  - pose proof (agrees_own env m st own x A) as [ND H].
    destruct (st x) as [v|]; [discriminate|]. inversion E; subst. destruct (env x); [contradiction|].
    exists (upd env x (Some None)), m, (upd own x []). split; [reflexivity|].
    apply changes_swap; [reflexivity|exact V| |reflexivity].
    rewrite H. apply swaps_refl; [exact W|constructor].
  - pose proof (agrees_own env m st own x A) as [ND H].
    destruct (st x) as [v|]; [discriminate|]. destruct (env x); [contradiction|].
    pose proof (source_swaps C env m st own src V (quiet_of C st _ src x (or_introl eq_refl) NG)) as R.
    destruct (source_spec n st src) as [v|y|]; [| |discriminate]; inversion E; subst.
    + destruct R as [m' [t [fp' [ES [HV S]]]]]. rewrite ES. exists (upd env x (Some t)), m', (upd own x fp').
      split; [reflexivity|]. apply changes_swap; [reflexivity|exact V|now rewrite H|exact HV].
    + destruct R as [m' [z [ES G]]]. rewrite ES. exists env, m', own. split; [reflexivity|].
      apply changes_grows; [now apply (raised_unclean C (Raised n))|exact V|exact G].
  - pose proof (agrees_own env m st own x A) as [ND H].
    destruct (st x) as [v|]; [|discriminate]. destruct (env x) as [old|]; [|contradiction].
    pose proof (source_swaps C env m st own src V (quiet_of C st _ src x (or_intror eq_refl) NG)) as R.
    assert (CP : (exists y, src = SCopy n y) \/ (forall y, src <> SCopy n y)).
    { destruct src; eauto; right; intros ? Z; discriminate. }
    destruct CP as [[y ->]|NC].
    + cbn [source_spec] in *. destruct (st y) as [vy|] eqn:Vy; [|discriminate].
      destruct vy as [e|]; [|discriminate]. inversion E; subst.
      pose proof (agrees_own env m st own y A) as [NDy Hy]. rewrite Vy in Hy.
      destruct (env y) as [[b|]|] eqn:Ey; try contradiction. cbn in Hy.
      destruct (clone_swaps C m b e (own y) W Hy NDy) as [m1 [p [h [E1 [Op S1]]]]].
      pose proof (swaps_grows n C m m1 h S1) as G1.
      assert (S1' : swaps C m (own x) m1 (own x ++ h)) by (apply swaps_with; auto; apply BEL).
      destruct (take_swaps C m1 old v (own x) p e h) as [m2 [E2 [S2 Op2]]].
      { apply (wf_swaps _ _ _ _ _ S1). }
      { apply (grows_own1 n m m1 (ISlot old v) (own x) W G1 H). }
      { exact Op. }
      { apply (nodup_swaps _ _ _ _ _ S1'). }
      assert (EA : (o <- var n env y; assign n order old o) m = ROk m2 (Some p)).
      { unfold var. rewrite Ey. change ((q <- clone n order b; take n old q) m = ROk m2 (Some p)).
        rewrite (mbind_ok n _ _ _ _ _ E1). exact E2. }
      rewrite EA. exists (upd env x (Some (Some p))), m2, (upd own x h). split; [reflexivity|].
      apply changes_swap; [reflexivity|exact V| |exact Op2].
      now apply (swaps_trans n C m (own x) m1 (own x ++ h)).
    + assert (SAME : match src with
             | SCopy _ y => o <- var n env y; assign n order old o
             | _ => t <- source_value n order elide env src;
                 if direct n src then a <- deref n t; take n old a
                 else new <- assign n order old t; _ <- destroy n t; ret new
             end = (t <- source_value n order elide env src;
                 if direct n src then a <- deref n t; take n old a
                 else new <- assign n order old t; _ <- destroy n t; ret new)).
      { destruct src; try reflexivity. now elim (NC y). }
      rewrite SAME. clear SAME.
      destruct (source_spec n st src) as [[e|]|y|]; [| | |discriminate]; try discriminate; inversion E; subst.
      * destruct R as [m' [t [g [ES [HV S]]]]]. rewrite (mbind_ok n _ _ _ _ _ ES).
        pose proof (swaps_grows n C m m' g S) as G.
        assert (S' : swaps C m (own x) m' (own x ++ g)) by (apply swaps_with; auto; apply BEL).
        assert (H' : holds_value n m' old v (own x)) by (apply (grows_own1 n m m' (ISlot old v) (own x) W G H)).
        assert (W' : wf m') by (apply (wf_swaps _ _ _ _ _ S)).
        destruct (direct n src).
        -- destruct t as [a|]; [|contradiction].
           destruct (take_swaps C m' old v (own x) a e g W' H' HV (nodup_swaps _ _ _ _ _ S')) as [m2 [E2 [S2 O2]]].
           change (mbind (deref n (Some a)) (fun a => take n old a) m') with (take n old a m'). rewrite E2.
           exists (upd env x (Some (Some a))), m2, (upd own x g). split; [reflexivity|].
           apply changes_swap; [reflexivity|exact V| |exact O2].
           now apply (swaps_trans n C m (own x) m' (own x ++ g)).
        -- destruct (assign_swaps C m' old v (own x) t e g W' H' HV (nodup_swaps _ _ _ _ _ S')) as [m2 [p [h [E2 [O2 S2]]]]].
           { intros a I. apply in_app_or in I as [I|I].
             - apply BEL in I. destruct G as [G _]. lia.
             - apply (wf_alive n m' a W'). apply (own1_alive n m' (ISlot t (Some e)) g HV a I). }
           rewrite E2. exists (upd env x (Some (Some p))), m2, (upd own x h). split; [reflexivity|].
           apply changes_swap; [reflexivity|exact V| |exact O2].
           now apply (swaps_trans n C m (own x) m' (own x ++ g)).
      * destruct R as [m' [z [ES G]]].
        assert (EB : forall B (f : slot -> M n B), mbind (source_value n order elide env src) f m = RThrow m' z).
        { intros B f. unfold mbind. now rewrite ES. }
        rewrite EB. exists env, m', own. split; [reflexivity|].
        apply changes_grows; [now apply (raised_unclean C (Raised n))|exact V|exact G].
  - unfold value_of in E. pose proof (agrees_own env m st own x A) as [ND H].
    destruct (st x) as [[e|]|]; try discriminate. destruct (env x) as [[a|]|]; try contradiction. cbn in H.
    pose proof (hinplace_ok n order C m a e (own x) W H ND) as R.
    destruct (settle n e) as [e' [u|y|]]; [| |discriminate]; inversion E; subst.
    + destruct R as [m' [a' [fp' [EH [O' S']]]]]. rewrite EH.
      exists (upd env x (Some (Some a'))), m', (upd own x fp'). split; [reflexivity|].
      apply changes_swap; [reflexivity|exact V|exact S'|exact O'].
    + destruct R as [m' [a' [fp' [z [EH [O' S']]]]]]. rewrite EH.
      exists (upd env x (Some (Some a'))), m', (upd own x fp'). split; [reflexivity|].
      apply changes_swap; [reflexivity|exact V| |exact O'].
      apply swaps_unclean; [now apply (raised_unclean C (Raised n))|exact S'].
  - pose proof (agrees_own env m st own x A) as [ND H].
    destruct (st x) as [v|]; [|discriminate]. inversion E; subst. destruct (env x) as [old|]; [|contradiction].
    destruct (destroy_swaps C m old v (own x) [] W H) as [m' [ED S]]; [now rewrite app_nil_r|]. rewrite ED.
    exists (upd env x None), m', (upd own x []). split; [reflexivity|].
    apply changes_swap; [reflexivity|exact V| |reflexivity]. now rewrite app_nil_r in S.
  - pose proof (inv_reads _ _ _ _ _ V) as R.
    destruct (value_of_cases n st x) as [[e Ve]|Ve]; rewrite Ve in E; [|discriminate]. cbn [bind] in E.
    destruct (get_ok n env m m st x e R Ve) as [a [EG H]].
    rewrite (mbind_ok n _ _ _ _ _ EG).
    pose proof (heval_ok n order m W _ a e w H) as S. unfold reading.
    destruct (eval n e w) as [r|y|]; [| |discriminate]; cbv beta iota delta [sound] in S; inversion E; subst.
    + rewrite S. exists env, m, own. split; [reflexivity|]. now apply changes_none.
    + destruct S as [z S]. rewrite S. exists env, m, own. split; [reflexivity|]. now apply changes_none.
Qed.

Lemma exec_all_ok : forall C l env m st own evs st', inv C env m st own -> exec_all_spec n l st = Some (evs, st') ->
  (C -> tidy n l st) ->
  exists env' m' own', exec_all n order elide l env m = Some (evs, env', m') /\ inv C env' m' st' own'.
Proof.
  intros C l. induction l as [|s l IH]; intros env m st own evs st' V E T; cbn [exec_all_spec exec_all tidy] in *.
  - inversion E; subst. exists env, m, own. split; [reflexivity|exact V].
  - destruct (exec_spec n s st) as [[ev st1]|] eqn:ES; [|discriminate].
    destruct (exec_all_spec n l st1) as [[evs1 st2]|] eqn:EL; [|discriminate]. inversion E; subst.
    destruct (exec_ok C s env m st own ev st1 V ES) as [env1 [m1 [own1 [E1 [V1 _]]]]].
    { intros c. apply (T c). }
    { intros c. apply (T c). }
    destruct (IH env1 m1 st1 own1 evs1 st' V1 EL) as [env2 [m2 [own2 [E2 V2]]]].
    { intros c. apply (T c). }
    rewrite E1, E2. exists env2, m2, own2. split; [reflexivity|exact V2].
Qed.

Lemma inv_start : forall C, inv C (no_vars) (empty_mem n) (no_store n) (fun _ => []).
Proof.
  intros C. split; [intros a _; reflexivity|]. split.
  - split; [intros x; reflexivity|]. intros x y a [].
  - intros _ a H. now elim H.
Qed.

Lemma spec_target : forall s st ev st' y, exec_spec n s st = Some (ev, st') -> target n s <> Some y -> st' y = st y.
Proof.
  intros s st ev st' y E N.
  assert (U : forall x v, Some x <> Some y -> @upd (option (option expr)) st x v y = st y).
  { intros x v NE. unfold upd. destruct (Nat.eqb_spec y x); [congruence|reflexivity]. }
  destruct s as [x|x src|x src|x|x|x w]; cbn [exec_spec target] in *.
  - destruct (st x); inversion E; subst. now apply U.
  - destruct (st x); [discriminate|]. destruct (source_spec n st src); inversion E; subst; [now apply U|reflexivity].
  - destruct (st x); [|discriminate]. destruct (source_spec n st src) as [[e|]|z|]; inversion E; subst; [now apply U|reflexivity].
  - destruct (value_of n st x); try discriminate. destruct (settle n a) as [e' [u|z|]]; inversion E; subst; now apply U.
  - destruct (st x); inversion E; subst. now apply U.
  - destruct (bind (value_of n st x) (fun e => eval n e w)); inversion E; subst; reflexivity.
Qed.

Lemma exec_all_cons : forall s l env m, exec_all n order elide (s :: l) env m =
  match exec n order elide s env m with
  | None => None
  | Some (ev, env', m') =>
      match exec_all n order elide l env' m' with
      | None => None
      | Some (evs, env'', m'') => Some (ev :: evs, env'', m'')
      end
  end.
Proof. reflexivity. Qed.

Lemma exec_all_app_none : forall l s l' env m evs env1 m1,
  exec_all n order elide l env m = Some (evs, env1, m1) -> exec n order elide s env1 m1 = None ->
  exec_all n order elide (l ++ s :: l') env m = None.
Proof.
  induction l as [|t l IH]; intros s l' env m evs env1 m1 E X; cbn [app exec_all] in *.
  - inversion E; subst. now rewrite X.
  - destruct (exec n order elide t env m) as [[[ev env2] m2]|]; [|discriminate].
    destruct (exec_all n order elide l env2 m2) as [[[evs2 env3] m3]|] eqn:EL; [|discriminate]. inversion E; subst.
    now rewrite (IH s l' env2 m2 evs2 env1 m1 EL X).
Qed.
End HeapHistory.
