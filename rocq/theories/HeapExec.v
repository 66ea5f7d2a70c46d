(** Statements and histories on the heap. *)
From Coq Require Import ZArith NArith List Bool Arith Lia Permutation.
From Verif Require Import Outcome Num RtModel RtFacts RtTermination HeapModel HeapSpec HeapFacts HeapRead HeapRun HeapOps.
Import ListNotations.

Section HeapExec.
Context (n : num) (order elide : nat -> bool) (C : Prop).
Notation mem := (mem n).
Notation expr := (expr n).
Notation has := (has n).
Notation IExpr := (IExpr n).
Notation IOp := (IOp n).
Notation IList := (IList n).
Notation ISlot := (ISlot n).
Notation item := (item n).
Notation holds := (holds n C).
Notation grows := (grows n).
Notation wf := (wf n).
Notation makes := (makes n C).
Notation runs := (runs n C).
Notation swaps := (swaps n).
Notation owns := (owns n).

Ltac step E := rewrite (mbind_ok n _ _ _ _ _ E).

(** ** inplace_simplify *)

Lemma weight_owns : forall m,
  (forall a e fp, owns m a e fp -> weight n e + 4 <= 6 * length fp) /\
  (forall p (o : opval n) fp, owns_op n m p o fp -> 1 <= length fp) /\
  (forall ps es fp, owns_list n m ps es fp -> list_sum (map (fun a => weight n a + 4) es) <= 6 * length fp).
Proof.
  intros m. apply owns_all; intros; cbn [weight length]; rewrite ?app_length; try lia.
  - destruct op; lia.
  - apply Nat.le_0_l.
  - cbn [map list_sum fold_right]. unfold list_sum in *. cbn [fold_right map]. lia.
Qed.

Lemma settle_top : forall e, simplify_top n e =
  match settle n e with (e', Ok _) => Ok e' | (_, Throw x) => Throw x | (_, UB) => UB end.
Proof.
  intros e. unfold simplify_top, settle.
  assert (H : forall k e o, inplace_simplify n k e = Some o ->
    o = match settle_f n k e with (e', Ok _) => Ok e' | (_, Throw x) => Throw x | (_, UB) => UB end).
  { clear e. induction k as [|k IH]; intros e o; cbn; [discriminate|].
    destruct (can_simplify n e) as [[]|x|]; try (intros E; inversion E; reflexivity).
    destruct (simplify n e) as [e'|x|]; try (intros E; inversion E; reflexivity). apply IH. }
  destruct (inplace_enough n (S (weight n e)) e (Nat.lt_succ_diag_r _)) as [o E]. rewrite E. now apply H.
Qed.

Lemma swaps_false : forall (D : Prop) m fp m' fp', swaps D m fp m' fp' -> swaps False m fp m' fp'.
Proof. intros D m fp m' fp'. apply swaps_weaken. contradiction. Qed.

Lemma owns_below : forall m a e fp, wf m -> owns m a e fp -> forall x, In x fp -> x < next m.
Proof.
  intros m a e fp W O x X. apply (wf_alive n m x W). apply (own1_alive n m (IExpr a e) fp O x X).
Qed.

Lemma hinplace_f_ok : forall k j m a e fp, wf m -> owns m a e fp -> NoDup fp ->
  weight n e < k -> weight n e < j ->
  match settle_f n j e with
  | (e', Ok _) => exists m' a' fp', hinplace_f n order k (Some a) m = (Some a', ROk m' tt) /\
      owns m' a' e' fp' /\ swaps C m fp m' fp'
  | (e', Throw _) => exists m' a' fp' y, hinplace_f n order k (Some a) m = (Some a', RThrow m' y) /\
      owns m' a' e' fp' /\ swaps False m fp m' fp'
  | (_, UB) => True
  end.
Proof.
  induction k as [|k IH]; intros j m a e fp W O ND K J; [lia|]. destruct j as [|j]; [lia|].
  assert (H : has (S (length fp)) m (IExpr a e)) by (exists fp; repeat split; auto).
  pose proof (hcan_simplify_ok n order m W _ a e H) as S. cbn [settle_f hinplace_f deref].
  assert (CS : forall o, hcan_simplify n order m a = o ->
    mbind (ret a) (fun a => reading (fun m => hcan_simplify n order m a)) m =
    match o with Ok x => ROk m x | Throw x => RThrow m x | UB => RUB end).
  { intros o E. unfold mbind, ret, reading. now rewrite E. }
  destruct (can_simplify n e) as [[]|x|] eqn:CE; cbv beta iota delta [sound] in S; [| | |exact I].
  - rewrite (CS _ S). cbv beta iota. assert (SH : forall B (f : nat -> M n B) m, mbind (ret a) f m = f a m) by reflexivity. rewrite SH.
    pose proof (makes_hsimplify n order C _ m a e W H m (grows_refl n m W)) as R.
    destruct (simplify n e) as [e1|x|] eqn:SE; cbv beta iota delta [HeapRun.runs] in R; [| |exact I].
    + destruct R as [m1 [p [E1 [L [O1 S1]]]]].
      inversion O1 as [|? fp1 ? L0 Op O0]; subst. inversion O0; subst. rewrite app_nil_r in S1. cbn in Op.
      pose proof (swaps_grows n C m m1 fp1 S1) as G1.
      pose proof (grows_wf n m m1 G1) as W1.
      assert (Oa : owns m1 a e fp) by (apply (grows_own1 n m m1 (IExpr a e) fp W G1 O)).
      destruct (delete_ok n m1 a fp W1) as [m2 [E2 Wi]]; [left; exists e; exact Oa|exact ND|].
      assert (S2 : swaps C m fp m1 (fp1 ++ fp)).
      { change fp with ([] ++ fp) at 1. apply swaps_frame; [exact S1|exact ND|apply (owns_below m a e fp W O)|auto]. }
      assert (NDA : NoDup (fp ++ fp1)).
      { apply (Permutation_NoDup (Permutation_app_comm fp1 fp)). destruct S2 as [_ [_ [N _]]]. exact N. }
      assert (S3 : swaps C m fp m2 fp1).
      { apply (swaps_trans n C m fp m1 (fp ++ fp1)); [|now apply wiped_swaps].
        apply (swaps_perm n C m fp m1 (fp1 ++ fp)); [apply Permutation_app_comm|exact S2]. }
      assert (Op2 : owns m2 p e1 fp1).
      { apply (wiped_own1 n m1 m2 fp (IExpr p e1) fp1 Wi Op). intros z Z Y.
        apply (nodup_app_disjoint _ fp fp1 z NDA Y Z). }
      assert (NE : Nat.eqb a p = false).
      { apply Nat.eqb_neq. intros ->.
        assert (P1 : In p fp) by (destruct O; now left).
        assert (P2 : In p fp1) by (destruct Op; now left).
        apply (nodup_app_disjoint _ fp fp1 p NDA P1 P2). }
      assert (T : (q <- hsimplify n order a; take n (Some a) q) m = ROk m2 (Some p)).
      { step E1. unfold take. rewrite NE. step E2. reflexivity. }
      rewrite T. assert (LT : weight n e1 < weight n e) by (apply (simplify_lt n e e1 (RtStep.simplify_sstep n e e1 SE) CE)).
      pose proof (swaps_grows n False m2 m2 [] (swaps_refl n False m2 [] (wiped_wf n m1 m2 fp W1 Wi) (NoDup_nil _))) as G2.
      specialize (IH j m2 p e1 fp1 (grows_wf n m2 m2 G2) Op2 (nodup_app_r _ _ _ NDA)).
      assert (IH' := IH ltac:(lia) ltac:(lia)). clear IH.
      destruct (settle_f n j e1) as [e' [u|x|]]; [| |exact I].
      * destruct IH' as [m' [a' [fp' [E [O' S']]]]]. exists m', a', fp'. split; [exact E|]. split; [exact O'|].
        now apply (swaps_trans n C m fp m2 fp1).
      * destruct IH' as [m' [a' [fp' [y [E [O' S']]]]]]. exists m', a', fp', y. split; [exact E|]. split; [exact O'|].
        apply (swaps_trans n False m fp m2 fp1); [|exact S']. now apply (swaps_false C).
    + destruct R as [m2 [y [E2 G2]]]. exists m2, a, fp, y. split; [|split].
      * assert (T : (q <- hsimplify n order a; take n (Some a) q) m = RThrow m2 y).
        { unfold mbind. now rewrite E2. }
        now rewrite T.
      * apply (grows_own1 n m m2 (IExpr a e) fp W G2 O).
      * change fp with ([] ++ fp). apply swaps_frame; [now apply grows_swaps|exact ND|apply (owns_below m a e fp W O)|auto].
  - rewrite (CS _ S). exists m, a, fp. split; [reflexivity|]. split; [exact O|]. now apply swaps_refl.
  - destruct S as [y S]. rewrite (CS _ S). exists m, a, fp, y. split; [reflexivity|]. split; [exact O|]. now apply swaps_refl.
Qed.

Lemma hinplace_ok : forall m a e fp, wf m -> owns m a e fp -> NoDup fp ->
  match settle n e with
  | (e', Ok _) => exists m' a' fp', hinplace n order (Some a) m = (Some a', ROk m' tt) /\
      owns m' a' e' fp' /\ swaps C m fp m' fp'
  | (e', Throw _) => exists m' a' fp' y, hinplace n order (Some a) m = (Some a', RThrow m' y) /\
      owns m' a' e' fp' /\ swaps False m fp m' fp'
  | (_, UB) => True
  end.
Proof.
  intros m a e fp W O ND. unfold settle, hinplace. apply hinplace_f_ok; auto.
  pose proof (own1_length n m (IExpr a e) fp W O ND). destruct (weight_owns m) as [B _].
  specialize (B a e fp O). unfold enough. lia.
Qed.

(** ** Objects *)

Lemma slot_intro : forall m0 l m a e, holds m0 (IExpr a e :: l) m -> holds m0 (ISlot (Some a) (Some e) :: l) m.
Proof.
  intros m0 l m a e H. apply (holds_exact n C _ _ _ _ H). intros L O. inversion O; subst.
  eexists. split; [constructor; eassumption|apply Permutation_refl].
Qed.

Lemma slot_none : forall m0 l m, holds m0 l m -> holds m0 (ISlot None None :: l) m.
Proof.
  intros m0 l m H. apply (holds_exact n C _ _ _ _ H). intros L O. exists ([] ++ L).
  split; [constructor; [reflexivity|exact O]|apply Permutation_refl].
Qed.

Lemma slot_elim : forall m0 l m s e, holds m0 (ISlot s (Some e) :: l) m ->
  exists a, s = Some a /\ holds m0 (IExpr a e :: l) m.
Proof.
  intros m0 l m s e H.
  assert (E : exists a, s = Some a).
  { destruct H as [L [O _]]. inversion O as [|? fp ? L1 H1 O1]; subst. destruct s; [now eauto|contradiction]. }
  destruct E as [a ->]. exists a. split; [reflexivity|].
  apply (holds_exact n C _ _ _ _ H). intros L O. inversion O; subst.
  eexists. split; [constructor; eassumption|apply Permutation_refl].
Qed.

Lemma give_ok : forall m0 l m a e, holds m0 (IExpr a e :: l) m ->
  exists m' b, give n order elide (Some a) m = ROk m' (Some b) /\ holds m0 (IExpr b e :: l) m'.
Proof.
  intros m0 l m a e H. unfold give. destruct (elide (next m)).
  - exists m, a. split; [reflexivity|exact H].
  - cbn [copy destroy].
    destruct (clone_here n order C (enough m) m0 _ m a e H) as [m1 [b [E1 H1]]].
    { apply (holds_has n C m0 _ m _ H). now left. }
    destruct (holds_delete n C m0 a e (IExpr b e :: l) m1) as [m2 [E2 H2]].
    { apply (holds_perm n C m0 _ _ m1 (perm_swap _ _ _) H1). }
    exists m2, b. split; [|exact H2].
    assert (E : (b <- clone n order a; ret (Some b)) m = ROk m1 (Some b)) by (step E1; reflexivity).
    step E. step E2. reflexivity.
Qed.

Lemma give_bin_ok : forall m0 l m t op x y, holds m0 (tbin n t op x y ++ l) m ->
  exists m' u, give_bin n order elide t m = ROk m' u /\ holds m0 (tbin n u op x y ++ l) m'.
Proof.
  intros m0 l m t op x y H. unfold give_bin. destruct (elide (next m)).
  - exists m, t. split; [reflexivity|exact H].
  - assert (CP : exists m' u, copy_bin n order t m = ROk m' u /\ holds m0 (tbin n t op x y ++ tbin n u op x y ++ l) m').
    { destruct t as [[a p] b]. unfold copy_bin.
      destruct (clone_here n order C (enough m) m0 _ m a x H) as [m1 [a' [E1 H1]]].
      { apply (holds_has n C m0 _ m _ H). now left. }
      destruct (make_here n C _ m0 _ m1 IOp (clone_op n order p) (OBin n op) H1) as [m2 [p' [E2 H2]]].
      { apply (makes_clone_op n order C (enough m1)); [apply (holds_wf _ _ _ _ _ H1)|].
        apply (holds_has n C m0 _ m1 _ H1). right. right. now left. }
      destruct (clone_here n order C (enough m2) m0 _ m2 b y H2) as [m3 [b' [E3 H3]]].
      { apply (holds_has n C m0 _ m2 _ H2). right. right. right. right. now left. }
      exists m3, (a', p', b'). split; [step E1; step E2; step E3; reflexivity|].
      apply (holds_perm n C m0 _ _ m3) with (2 := H3). cbn [tbin app].
      apply (Permutation_trans (l' := [IExpr b' y; IOp p' (OBin n op); IExpr a' x] ++ [IExpr a x; IOp p (OBin n op); IExpr b y] ++ l)); [apply Permutation_refl|].
      change (Permutation ([IExpr b' y; IOp p' (OBin n op); IExpr a' x] ++ [IExpr a x; IOp p (OBin n op); IExpr b y] ++ l)
        ([IExpr a x; IOp p (OBin n op); IExpr b y] ++ [IExpr a' x; IOp p' (OBin n op); IExpr b' y] ++ l)).
      rewrite !app_assoc. apply Permutation_app_tail.
      apply (Permutation_trans (Permutation_app_comm _ _)). apply Permutation_app_head.
      apply (Permutation_rev [IExpr b' y; IOp p' (OBin n op); IExpr a' x]). }
    destruct CP as [m1 [u [E1 H1]]]. destruct (drop_bin_ok n C _ _ _ _ _ _ _ H1) as [m2 [E2 H2]].
    exists m2, u. split; [|exact H2]. step E1. step E2. reflexivity.
Qed.

Lemma simplified_ok : forall m0 l m a e, holds m0 (IExpr a e :: l) m ->
  runs m0 m (simplified n order (Some a)) (simplify_top n e) (fun x s => ISlot s (Some x) :: l).
Proof.
  intros m0 l m a e H. pose proof (holds_wf _ _ _ _ _ H) as W. destruct H as [L [O S]].
  inversion O as [|? fp ? L1 Oa O1]; subst. cbn in Oa.
  assert (ND : NoDup (fp ++ L1)) by (destruct S as [_ [_ [ND _]]]; exact ND).
  assert (B1 : forall x, In x L1 -> x < next m).
  { intros x X. apply (wf_alive n m x W). apply (owned_alive n m l L1 O1 x X). }
  assert (D1 : forall x, In x L1 -> ~ In x fp).
  { intros x X Y. apply (nodup_app_disjoint _ fp L1 x ND Y X). }
  pose proof (hinplace_ok m a e fp W Oa (nodup_app_l _ _ _ ND)) as R.
  rewrite settle_top. unfold simplified. destruct (settle n e) as [e' [u|x|]]; [| |exact I].
  - destruct R as [m' [a' [fp' [E [O' S']]]]]. exists m', (Some a'). cbv beta. rewrite E. split; [reflexivity|].
    apply slot_intro. exists (fp' ++ L1). split.
    + constructor; [exact O'|]. apply (owned_frame n m); [exact O1|]. intros x X.
      destruct S' as [_ [_ [_ [F _]]]]. apply F; auto.
    + apply (swaps_trans n C m0 [] m (fp ++ L1)); [exact S|].
      apply swaps_frame; [exact S'|apply (nodup_app_r _ _ _ ND)|exact B1|exact D1].
  - destruct R as [m' [a' [fp' [y [E [O' S']]]]]].
    assert (W' : wf m') by (destruct S' as [_ [W' _]]; exact W').
    assert (ND' : NoDup fp') by (destruct S' as [_ [_ [N _]]]; exact N).
    destruct (delete_ok n m' a' fp' W') as [m2 [E2 Wi]]; [left; exists e'; exact O'|exact ND'|].
    exists m2, y. cbv beta. rewrite E. cbn [destroy]. rewrite E2. split; [reflexivity|].
    apply (swaps_grows n False m0 m2 L1).
    apply (swaps_trans n False m0 [] m (fp ++ L1)); [now apply (swaps_false C)|].
    assert (S2 : swaps False m (fp ++ L1) m' (fp' ++ L1)).
    { apply swaps_frame; [exact S'|apply (nodup_app_r _ _ _ ND)|exact B1|exact D1]. }
    apply (swaps_trans n False m (fp ++ L1) m' (fp' ++ L1)); [exact S2|].
    apply wiped_swaps; [exact W'|exact Wi|]. destruct S2 as [_ [_ [N _]]]. exact N.
Qed.

(** ** Sources *)

Definition reads (env : vars) (m : mem) (st : store n) : Prop :=
  wf m /\ forall y, match env y, st y with
    | None, None => True
    | Some None, Some None => True
    | Some (Some a), Some (Some e) => has (enough m) m (IExpr a e)
    | _, _ => False
    end.

Lemma reads_value : forall env m st y e, reads env m st -> value_of n st y = Ok e ->
  exists a, env y = Some (Some a) /\ has (enough m) m (IExpr a e).
Proof.
  intros env m st y e [_ R] V. specialize (R y). unfold value_of in V.
  destruct (st y) as [[e'|]|]; try discriminate. inversion V; subst.
  destruct (env y) as [[a|]|]; try contradiction. exists a. split; [reflexivity|exact R].
Qed.

Lemma get_ok : forall env m m1 st y e, reads env m st -> value_of n st y = Ok e ->
  exists a, get n env y m1 = ROk m1 a /\ has (enough m) m (IExpr a e).
Proof.
  intros env m m1 st y e R V. destruct (reads_value env m st y e R V) as [a [E H]]. exists a.
  split; [|exact H]. unfold get, var. rewrite E. reflexivity.
Qed.

Lemma gets_ok : forall env m m1 st ys es, reads env m st -> oseq (map (value_of n st) ys) = Ok es ->
  exists bs, gets n env ys m1 = ROk m1 bs /\ Forall2 (fun p e => has (enough m) m (IExpr p e)) bs es.
Proof.
  intros env m m1 st ys. induction ys as [|y ys IH]; intros es R E; cbn [map oseq] in E.
  - inversion E; subst. exists []. split; [reflexivity|constructor].
  - destruct (value_of n st y) as [e| |] eqn:V; try discriminate. cbn in E.
    destruct (oseq (map (value_of n st) ys)) as [es'| |]; try discriminate. inversion E; subst.
    destruct (get_ok env m m1 st y e R V) as [a [Ea Ha]]. destruct (IH es' R eq_refl) as [bs [Eb Hb]].
    exists (a :: bs). split; [|now constructor]. cbn [gets]. step Ea. step Eb. reflexivity.
Qed.

Lemma delete_loop_ok : forall m0 l qs es m, holds m0 (IList qs es :: l) m ->
  exists m', (fix loop (qs : list nat) : M n unit :=
              match qs with [] => ret tt | q :: qs' => _ <- delete n q; loop qs' end) qs m = ROk m' tt /\ holds m0 l m'.
Proof.
  intros m0 l qs es. revert qs. induction es as [|e es IH]; intros qs m H.
  - apply list_unnil in H as [-> H]. exists m. split; [reflexivity|exact H].
  - destruct qs as [|q qs].
    { destruct H as [L [O _]]. inversion O as [|? fp ? L1 H1 O1]; subst. cbn in H1. inversion H1. }
    apply list_uncons in H. destruct (holds_delete n C m0 q e _ m H) as [m1 [E1 H1]].
    destruct (IH qs m1 H1) as [m2 [E2 H2]]. exists m2. split; [|exact H2]. step E1. exact E2.
Qed.

Lemma value_of_cases : forall st y, (exists e, value_of n st y = Ok e) \/ value_of n st y = UB.
Proof. intros st y. unfold value_of. destruct (st y) as [[e|]|]; eauto. Qed.

Lemma oseq_value_cases : forall st ys, (exists es, oseq (map (value_of n st) ys) = Ok es) \/ oseq (map (value_of n st) ys) = UB.
Proof.
  intros st ys. induction ys as [|y ys IH]; cbn; [eauto|].
  destruct (value_of_cases st y) as [[e ->]| ->]; [|now right]. cbn.
  destruct IH as [[es ->]| ->]; [left|right]; cbn; eauto.
Qed.

Definition quiet (st : store n) (s : source n) : Prop :=
  C -> match s with SDiff _ (DFun _ _) y => match st y with Some (Some e) => has_grad n e = false | _ => True end | _ => True end.

Lemma source_value_ok : forall env m st s, reads env m st -> quiet st s ->
  runs m m (source_value n order elide env s) (source_spec n st s) (fun v t => [ISlot t v]).
Proof.
  intros env m st s R Q. pose proof (proj1 R) as W.
  assert (S : holds m [] m) by (apply holds_start, W).
  assert (UP : forall l m1 k a e, holds m l m1 -> has k m (IExpr a e) -> has k m1 (IExpr a e)).
  { intros l m1 k a e H K. apply (has_grows n k m); [exact W|now apply holds_grows in H|exact K]. }
  destruct s as [lf|c|y|op y z|op y|lo hi v y|ys|y|x y|u r y|us rs y|lo hi v y]; cbn [source_spec source_value].
  - destruct lf as [c|i|i t].
    + destruct (alloc_leaf n C m [] m (HConst c) (EConst c) eq_refl S) as [m1 [a [E H]]].
      exists m1, (Some a). split; [step E; reflexivity|]. now apply slot_intro.
    + destruct (alloc_leaf n C m [] m (HVar i) (EVar i) eq_refl S) as [m1 [a [E H]]].
      exists m1, (Some a). split; [step E; reflexivity|]. now apply slot_intro.
    + destruct (alloc_leaf n C m [] m (HFun i t) (EFun i t) eq_refl S) as [m1 [a [E H]]].
      exists m1, (Some a). split; [step E; reflexivity|]. now apply slot_intro.
  - destruct (alloc_leaf n C m [] m (HConst c) (EConst c) eq_refl S) as [m1 [l [E1 H1]]].
    destruct (alloc_bop n C m _ m1 BUnaryId H1) as [m2 [p [E2 H2]]].
    destruct (alloc_leaf n C m _ m2 (HConst c) (EConst c) eq_refl H2) as [m3 [r [E3 H3]]].
    assert (H3' : holds m (tbin n (l, p, r) BUnaryId (EConst c) (EConst c) ++ []) m3).
    { apply (holds_perm n C m _ _ m3) with (2 := H3). cbn.
      apply (Permutation_rev [IExpr r (EConst c); IOp p (OBin n BUnaryId); IExpr l (EConst c)]). }
    destruct (clone_bin_ok n order C m _ m3 (l, p, r) BUnaryId (EConst c) (EConst c) H3') as [m4 [a [E4 H4]]].
    { intros i Hi. apply in_or_app. now left. }
    destruct (drop_bin_ok n C m [IExpr a (EBin BUnaryId (EConst c) (EConst c))] m4 (l, p, r) BUnaryId (EConst c) (EConst c)) as [m5 [E5 H5]].
    { apply (holds_perm n C m _ _ m4) with (2 := H4). rewrite app_nil_r. apply Permutation_cons_append. }
    exists m5, (Some a). split; [|now apply slot_intro].
    step E1. step E2. step E3. step E4. step E5. reflexivity.
  - destruct R as [_ R]. specialize (R y). unfold var. destruct (st y) as [v|]; [|exact I].
    destruct (env y) as [[a|]|]; [| |contradiction]; destruct v as [e|]; try contradiction.
    + destruct (clone_here n order C (enough m) m [] m a e S R) as [m1 [b [E H]]].
      exists m1, (Some b). split; [|now apply slot_intro].
      change (mbind (clone n order a) (fun b => ret (Some b)) m = ROk m1 (Some b)). step E. reflexivity.
    + exists m, None. split; [reflexivity|]. now apply slot_none.
  - destruct (value_of_cases st y) as [[ey Vy]|Vy]; rewrite Vy; [cbn [bind]|exact I].
    destruct (value_of_cases st z) as [[ez Vz]|Vz]; rewrite Vz; [cbn [bind]|exact I].
    destruct (get_ok env m m st y ey R Vy) as [l [El Hl]]. destruct (get_ok env m m st z ez R Vz) as [r [Er Hr]].
    destruct (stack_bin_ok n order C (enough m) m [] m op l r ey ez S Hl Hr) as [m1 [t [E1 H1]]].
    destruct (give_bin_ok m [] m1 t op ey ez H1) as [m2 [t2 [E2 H2]]].
    destruct (clone_bin_ok n order C m _ m2 t2 op ey ez H2) as [m3 [a [E3 H3]]].
    { intros i Hi. apply in_or_app. now left. }
    destruct (drop_bin_ok n C m [IExpr a (EBin op ey ez)] m3 t2 op ey ez) as [m4 [E4 H4]].
    { apply (holds_perm n C m _ _ m3) with (2 := H3). rewrite app_nil_r. apply Permutation_cons_append. }
    exists m4, (Some a). split; [|now apply slot_intro].
    step El. step Er. step E1. step E2. step E3. step E4. reflexivity.
  - destruct (value_of_cases st y) as [[ey Vy]|Vy]; rewrite Vy; [cbn [bind]|exact I].
    destruct (get_ok env m m st y ey R Vy) as [b [Eb Hb]].
    destruct (clone_here n order C (enough m) m [] m b ey S Hb) as [m1 [q [E1 H1]]].
    destruct (alloc_uop n C m _ m1 op H1) as [m2 [p [E2 H2]]].
    destruct (make_here n C _ m _ m2 IExpr (new_un_like n order (clone n order q) p) (EUn op ey) H2) as [m3 [a [E3 H3]]].
    { apply (makes_new_un_like n order C (enough m2) m2 _ (Ok ey) p (OUn n op)); [apply (holds_wf _ _ _ _ _ H2)| | |discriminate].
      - apply (makes_clone n order C (enough m2)); [apply (holds_wf _ _ _ _ _ H2)|].
        apply (holds_has n C m _ m2 _ H2). right. now left.
      - apply (holds_has n C m _ m2 _ H2). now left. }
    destruct (holds_delete_op n C m p (OUn n op) [IExpr a (EUn op ey); IExpr q ey] m3) as [m4 [E4 H4]].
    { apply (holds_perm n C m _ _ m3 (perm_swap _ _ _) H3). }
    destruct (holds_delete n C m q ey [IExpr a (EUn op ey)] m4) as [m5 [E5 H5]].
    { apply (holds_perm n C m _ _ m4 (perm_swap _ _ _) H4). }
    exists m5, (Some a). split; [|now apply slot_intro].
    step Eb. step E1. step E2. step E3. step E4. step E5. reflexivity.
  - destruct (value_of_cases st lo) as [[el Vl]|Vl]; rewrite Vl; [cbn [bind]|exact I].
    destruct (value_of_cases st hi) as [[eh Vh]|Vh]; rewrite Vh; [cbn [bind]|exact I].
    destruct (value_of_cases st y) as [[ey Vy]|Vy]; rewrite Vy; [cbn [bind]|exact I].
    destruct (get_ok env m m st lo el R Vl) as [l [El Hl]]. destruct (get_ok env m m st hi eh R Vh) as [h [Eh Hh]].
    destruct (get_ok env m m st y ey R Vy) as [b [Eb Hb]].
    destruct (clone_here n order C (enough m) m [] m l el S Hl) as [m1 [l1 [E1 H1]]].
    destruct (clone_here n order C (enough m) m _ m1 h eh H1) as [m2 [h1 [E2 H2]]]; [now apply (UP _ _ _ _ _ H1)|].
    destruct (clone_here n order C (enough m2) m _ m2 l1 el H2) as [m3 [l2 [E3 H3]]].
    { apply (holds_has n C m _ m2 _ H2). cbn; auto. }
    destruct (clone_here n order C (enough m3) m _ m3 h1 eh H3) as [m4 [h2 [E4 H4]]].
    { apply (holds_has n C m _ m3 _ H3). cbn; auto. }
    destruct (clone_here n order C (enough m) m _ m4 b ey H4) as [m5 [q [E5 H5]]]; [now apply (UP _ _ _ _ _ H4)|].
    destruct (clone_here n order C (enough m5) m _ m5 l2 el H5) as [m6 [l3 [E6 H6]]].
    { apply (holds_has n C m _ m5 _ H5). cbn; auto. }
    destruct (clone_here n order C (enough m6) m _ m6 h2 eh H6) as [m7 [h3 [E7 H7]]].
    { apply (holds_has n C m _ m6 _ H6). cbn; auto. }
    destruct (alloc_integral n C m [IExpr q ey; IExpr h2 eh; IExpr l2 el; IExpr h1 eh; IExpr l1 el] m7 l3 h3 el eh v) as [m8 [p [E8 H8]]].
    { apply (holds_perm n C m _ _ m7 (perm_swap _ _ _) H7). }
    destruct (alloc_un n C m [IExpr h2 eh; IExpr l2 el; IExpr h1 eh; IExpr l1 el] m8 q p (OInt n el eh v) ey _ eq_refl) as [m9 [a [E9 H9]]].
    { apply (holds_perm n C m _ _ m8 (perm_swap _ _ _) H8). }
    destruct (holds_delete n C m h2 eh [IExpr a (EInt el eh v ey); IExpr l2 el; IExpr h1 eh; IExpr l1 el] m9) as [m10 [E10 H10]].
    { apply (holds_perm n C m _ _ m9 (perm_swap _ _ _) H9). }
    destruct (holds_delete n C m l2 el [IExpr a (EInt el eh v ey); IExpr h1 eh; IExpr l1 el] m10) as [m11 [E11 H11]].
    { apply (holds_perm n C m _ _ m10 (perm_swap _ _ _) H10). }
    destruct (holds_delete n C m h1 eh [IExpr a (EInt el eh v ey); IExpr l1 el] m11) as [m12 [E12 H12]].
    { apply (holds_perm n C m _ _ m11 (perm_swap _ _ _) H11). }
    destruct (holds_delete n C m l1 el [IExpr a (EInt el eh v ey)] m12) as [m13 [E13 H13]].
    { apply (holds_perm n C m _ _ m12 (perm_swap _ _ _) H12). }
    destruct (give_ok m [] m13 a _ H13) as [m14 [g [E14 H14]]].
    exists m14, (Some g). split; [|now apply slot_intro].
    step El. step Eh. step Eb. step E1. step E2. step E3. step E4. step E5. step E6. step E7. step E8. step E9.
    step E10. step E11. step E12. step E13. exact E14.
  - destruct (oseq_value_cases st ys) as [[es V]|V]; rewrite V; [cbn [omap bind]|exact I].
    destruct (gets_ok env m m st ys es R V) as [bs [Eb F]].
    destruct (zeros_ok n C m [] m (length bs) S) as [m1 [zs [E1 H1]]].
    assert (FILL : runs m m1 (fill n (clone n order) bs zs) (oseq (map Ok es)) (fun xs qs => [IList qs xs])).
    { apply (fill_ok n C m (clone n order) Ok m bs es) with (zes := repeat (EConst (c0 n)) (length bs)).
      - clear - F W. induction F; constructor; [|assumption]. now apply (makes_clone n order C (enough m)).
      - now apply holds_grows in H1.
      - now apply grows_refl.
      - exact H1.
      - rewrite repeat_length. apply (Forall2_len _ _ _ _ _ F). }
    rewrite oseq_ok in FILL. destruct FILL as [m2 [qs [E2 H2]]].
    assert (NV : makes m2 IExpr (new_vector n (clone n order) qs) (Ok (EVec es))).
    { apply (makes_eq n C _ _ _ _ (omap EVec (oseq (map Ok es)))); [|now rewrite oseq_ok].
      apply makes_vector. pose proof (holds_has n C m _ m2 _ H2 (or_introl eq_refl)) as K.
      apply has_list_inv in K. pose proof (holds_wf _ _ _ _ _ H2) as W2. clear - K W2.
      induction K; constructor; [|assumption]. now apply (makes_clone n order C (enough m2)). }
    destruct (make_here n C _ m _ m2 IExpr _ _ H2 NV) as [m3 [a [E3 H3]]].
    destruct (delete_loop_ok m [IExpr a (EVec es)] qs es m3) as [m4 [E4 H4]].
    { apply (holds_perm n C m _ _ m3 (perm_swap _ _ _) H3). }
    exists m4, (Some a). split; [|now apply slot_intro].
    step Eb. step E1. step E2. step E3. step E4. reflexivity.
  - destruct (value_of_cases st y) as [[ey Vy]|Vy]; rewrite Vy; [cbn [bind]|exact I].
    destruct (reads_value env m st y ey R Vy) as [b [Eb Hb]].
    destruct (clone_here n order C (enough m) m [] m b ey S Hb) as [m1 [q [E1 H1]]].
    apply (runs_ext n C _ _ m m (fun _ => (t <- simplified n order (Some q); give n order elide t) m1)).
    { unfold var. rewrite Eb.
      assert (E : (b <- clone n order b; ret (Some b)) m = ROk m1 (Some q)) by (step E1; reflexivity).
      transitivity (mbind (copy n order (Some b)) (fun t => t <- simplified n order t; give n order elide t) m); [|reflexivity].
      symmetry. cbn [copy]. step E. reflexivity. }
    pose proof (simplified_ok m [] m1 q ey H1) as T. unfold omap.
    apply (runs_bind n C _ _ _ _ m m1 _ _ (simplify_top n ey) _ _ _ T).
    intros x t m2 _ H2. apply slot_elim in H2 as [a [-> H2]].
    destruct (give_ok m [] m2 a x H2) as [m3 [g [E3 H3]]]. exists m3, (Some g). split; [exact E3|]. now apply slot_intro.
  - destruct (value_of_cases st y) as [[ey Vy]|Vy]; rewrite Vy; [cbn [bind]|exact I].
    destruct (get_ok env m m st y ey R Vy) as [b [Eb Hb]].
    apply (runs_ext n C _ _ m m (b' <- hdiff n order x b; t <- simplified n order (Some b'); give n order elide t)).
    { step Eb. reflexivity. }
    unfold diff_top, omap.
    assert (E : forall o : outcome expr, bind (bind o (simplify_top n)) (fun a => Ok (Some a)) =
       bind o (fun d => bind (simplify_top n d) (fun a => Ok (Some a)))) by (intros [?|?|]; reflexivity).
    rewrite E. clear E.
    apply (runs_bind n C _ _ _ _ m m _ _ (diff n x ey) _ (fun d v => [IExpr v d])).
    { refine (makes_hdiff n order C (enough m) m x b ey W _ Hb m (grows_refl n m W)).
      intros c. specialize (Q c). cbn in Q. unfold value_of in Vy. destruct (st y) as [[e|]|]; try discriminate.
      inversion Vy; subst. destruct x; [exact I|exact Q]. }
    intros d v m1 _ H1.
    apply (runs_bind n C _ _ _ _ m m1 _ _ (simplify_top n d) _ _ _ (simplified_ok m [] m1 v d H1)).
    intros x' t m2 _ H2. apply slot_elim in H2 as [a [-> H2]].
    destruct (give_ok m [] m2 a x' H2) as [m3 [g [E3 H3]]]. exists m3, (Some g). split; [exact E3|]. now apply slot_intro.
  - destruct (value_of_cases st y) as [[ey Vy]|Vy]; rewrite Vy; [cbn [bind]|exact I].
    destruct (value_of_cases st u) as [[eu Vu]|Vu]; rewrite Vu; [cbn [bind]|exact I].
    destruct (value_of_cases st r) as [[er Vr]|Vr]; rewrite Vr; [cbn [bind]|exact I].
    destruct (get_ok env m m st y ey R Vy) as [b [Eb Hb]]. destruct (get_ok env m m st u eu R Vu) as [s [Es Hs]].
    destruct (get_ok env m m st r er R Vr) as [p [Ep Hp]].
    apply (runs_ext n C _ _ m m (b' <- hsubst n order s p b; t <- simplified n order (Some b'); give n order elide t)).
    { step Eb. step Es. step Ep. reflexivity. }
    unfold subst1_top, omap.
    assert (E : forall o : outcome expr, bind (bind o (simplify_top n)) (fun a => Ok (Some a)) =
       bind o (fun d => bind (simplify_top n d) (fun a => Ok (Some a)))) by (intros [?|?|]; reflexivity).
    rewrite E. clear E.
    apply (runs_bind n C _ _ _ _ m m _ _ (subst1 n eu er ey) _ (fun d v => [IExpr v d])).
    { exact (makes_hsubst n order C (enough m) (enough m) (enough m) m s eu p er b ey W Hs Hp Hb m (grows_refl n m W)). }
    intros d v m1 _ H1.
    apply (runs_bind n C _ _ _ _ m m1 _ _ (simplify_top n d) _ _ _ (simplified_ok m [] m1 v d H1)).
    intros x' t m2 _ H2. apply slot_elim in H2 as [a [-> H2]].
    destruct (give_ok m [] m2 a x' H2) as [m3 [g [E3 H3]]]. exists m3, (Some g). split; [exact E3|]. now apply slot_intro.
  - destruct (value_of_cases st y) as [[ey Vy]|Vy]; rewrite Vy; [cbn [bind]|exact I].
    destruct (oseq_value_cases st us) as [[eus Vu]|Vu]; rewrite Vu; [cbn [bind]|exact I].
    destruct (oseq_value_cases st rs) as [[ers Vr]|Vr]; rewrite Vr; [cbn [bind]|exact I].
    destruct (get_ok env m m st y ey R Vy) as [b [Eb Hb]].
    destruct (gets_ok env m m st us eus R Vu) as [ss [Es Fs]].
    destruct (gets_ok env m m st rs ers R Vr) as [ps [Ep Fp]].
    unfold substv_top. rewrite <- (Forall2_len _ _ _ _ _ Fs), <- (Forall2_len _ _ _ _ _ Fp).
    destruct (Nat.eqb (length ss) (length ps)) eqn:LEN; [|exact I].
    apply (runs_ext n C _ _ m m (b' <- hsubstv n order ss ps b; t <- simplified n order (Some b'); give n order elide t)).
    { step Eb. step Es. step Ep. rewrite LEN. reflexivity. }
    unfold omap.
    assert (E : forall o : outcome expr, bind (bind o (simplify_top n)) (fun a => Ok (Some a)) =
       bind o (fun d => bind (simplify_top n d) (fun a => Ok (Some a)))) by (intros [?|?|]; reflexivity).
    rewrite E. clear E.
    apply (runs_bind n C _ _ _ _ m m _ _ (substv n eus ers ey) _ (fun d v => [IExpr v d])).
    { exact (makes_hsubstv n order C (enough m) (enough m) m ss eus ps ers b ey W Fs Fp Hb m (grows_refl n m W)). }
    intros d v m1 _ H1.
    apply (runs_bind n C _ _ _ _ m m1 _ _ (simplify_top n d) _ _ _ (simplified_ok m [] m1 v d H1)).
    intros x' t m2 _ H2. apply slot_elim in H2 as [a [-> H2]].
    destruct (give_ok m [] m2 a x' H2) as [m3 [g [E3 H3]]]. exists m3, (Some g). split; [exact E3|]. now apply slot_intro.
  - destruct (value_of_cases st lo) as [[el Vl]|Vl]; rewrite Vl; [cbn [bind]|exact I].
    destruct (value_of_cases st hi) as [[eh Vh]|Vh]; rewrite Vh; [cbn [bind]|exact I].
    destruct (value_of_cases st y) as [[ey Vy]|Vy]; rewrite Vy; [cbn [bind]|exact I].
    destruct (get_ok env m m st lo el R Vl) as [l [El Hl]]. destruct (get_ok env m m st hi eh R Vh) as [h [Eh Hh]].
    destruct (get_ok env m m st y ey R Vy) as [b [Eb Hb]].
    destruct (clone_here n order C (enough m) m [] m l el S Hl) as [m1 [l1 [E1 H1]]].
    destruct (clone_here n order C (enough m) m _ m1 h eh H1) as [m2 [h1 [E2 H2]]]; [now apply (UP _ _ _ _ _ H1)|].
    destruct (clone_here n order C (enough m2) m _ m2 l1 el H2) as [m3 [l2 [E3 H3]]].
    { apply (holds_has n C m _ m2 _ H2). cbn; auto. }
    destruct (clone_here n order C (enough m3) m _ m3 h1 eh H3) as [m4 [h2 [E4 H4]]].
    { apply (holds_has n C m _ m3 _ H3). cbn; auto. }
    destruct (clone_here n order C (enough m4) m _ m4 l2 el H4) as [m6 [l3 [E6 H6]]].
    { apply (holds_has n C m _ m4 _ H4). cbn; auto. }
    destruct (clone_here n order C (enough m6) m _ m6 h2 eh H6) as [m7 [h3 [E7 H7]]].
    { apply (holds_has n C m _ m6 _ H6). cbn; auto. }
    destruct (alloc_integral n C m [IExpr h2 eh; IExpr l2 el; IExpr h1 eh; IExpr l1 el] m7 l3 h3 el eh v) as [m8 [p [E8 H8]]].
    { apply (holds_perm n C m _ _ m7 (perm_swap _ _ _) H7). }
    destruct (holds_delete n C m h2 eh [IOp p (OInt n el eh v); IExpr l2 el; IExpr h1 eh; IExpr l1 el] m8) as [m9 [E9 H9]].
    { apply (holds_perm n C m _ _ m8 (perm_swap _ _ _) H8). }
    destruct (holds_delete n C m l2 el [IOp p (OInt n el eh v); IExpr h1 eh; IExpr l1 el] m9) as [m10 [E10 H10]].
    { apply (holds_perm n C m _ _ m9 (perm_swap _ _ _) H9). }
    destruct (make_here n C _ m _ m10 IExpr (hmanip n order p b) (subst_interval n 0 el eh v ey) H10) as [m11 [a [E11 H11]]].
    { apply (makes_hmanip n order C (enough m10) (enough m)); [apply (holds_wf _ _ _ _ _ H10)| |now apply (UP _ _ _ _ _ H10)].
      apply (holds_has n C m _ m10 _ H10). now left. }
    destruct (give_ok m _ m11 a _ H11) as [m12 [g [E12 H12]]].
    destruct (holds_delete_op n C m p (OInt n el eh v) [IExpr g (subst_interval n 0 el eh v ey); IExpr h1 eh; IExpr l1 el] m12) as [m13 [E13 H13]].
    { apply (holds_perm n C m _ _ m12 (perm_swap _ _ _) H12). }
    destruct (holds_delete n C m h1 eh [IExpr g (subst_interval n 0 el eh v ey); IExpr l1 el] m13) as [m14 [E14 H14]].
    { apply (holds_perm n C m _ _ m13 (perm_swap _ _ _) H13). }
    destruct (holds_delete n C m l1 el [IExpr g (subst_interval n 0 el eh v ey)] m14) as [m15 [E15 H15]].
    { apply (holds_perm n C m _ _ m14 (perm_swap _ _ _) H14). }
    exists m15, (Some g). split; [|now apply slot_intro].
    step El. step Eh. step Eb. step E1. step E2. step E3. step E4. step E6. step E7. step E8. step E9.
    step E10. step E11. step E12. step E13. step E14. step E15. reflexivity.
Qed.
End HeapExec.
