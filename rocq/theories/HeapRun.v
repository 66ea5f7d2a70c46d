(** The virtual functions that allocate (HeapModel.v): they leave what existed alone, return a tree of
    fresh nodes standing for what RtModel.v computes, and lose no node. *)
From Coq Require Import ZArith NArith List Bool Arith Lia Permutation.
From Verif Require Import Outcome Num RtModel RtFacts HeapModel HeapSpec HeapFacts HeapRead.
Import ListNotations.

Section HeapRun.
Context (n : num) (order : nat -> bool) (C : Prop).
Notation mem := (mem n).
Notation expr := (expr n).
Notation has := (has n).
Notation IExpr := (IExpr n).
Notation IOp := (IOp n).
Notation IList := (IList n).
Notation item := (item n).
Notation holds := (holds n C).
Notation grows := (grows n).
Notation wf := (wf n).

(** [runs m0 m c o Q]: the code [c], started in [m], returns what the value [o] says, holding the
    items [Q]; if [o] is an exception it throws, leaving alone what existed in [m0]. *)
Definition runs {A X : Type} (m0 m : mem) (c : M n A) (o : outcome X) (Q : X -> A -> list item) : Prop :=
  match o with
  | Ok x => exists m' v, c m = ROk m' v /\ holds m0 (Q x v) m'
  | Throw _ => exists m' y, c m = RThrow m' y /\ grows m0 m'
  | UB => True
  end.

Lemma runs_ret : forall A X m0 m (v : A) (x : X) Q, holds m0 (Q x v) m -> runs m0 m (ret v) (Ok x) Q.
Proof. intros A X m0 m v x Q H. exists m, v. split; [reflexivity|exact H]. Qed.

Lemma runs_bind : forall A B X Y m0 m (c : M n A) (f : A -> M n B) (o : outcome X) (g : X -> outcome Y) Q R,
  runs m0 m c o Q ->
  (forall x v m', o = Ok x -> holds m0 (Q x v) m' -> runs m0 m' (f v) (g x) R) ->
  runs m0 m (mbind c f) (bind o g) R.
Proof.
  intros A B X Y m0 m c f [x|x|] g Q R H F; cbn in H; [| |exact I].
  - destruct H as [m' [v [E H]]]. cbn [bind]. unfold runs, mbind. rewrite E. now apply F.
  - destruct H as [m' [y [E H]]]. cbn [bind]. exists m', y. split; [|exact H]. unfold mbind. now rewrite E.
Qed.

Lemma runs_frame : forall A X m0 l m (c : M n A) (o : outcome X) Q,
  holds m0 l m -> runs m m c o Q -> runs m0 m c o (fun x v => Q x v ++ l).
Proof.
  intros A X m0 l m c [x|x|] Q H R; cbn in R |- *; [| |exact I].
  - destruct R as [m' [v [E R]]]. exists m', v. split; [exact E|]. now apply (holds_frame n C m0 l m).
  - destruct R as [m' [y [E R]]]. exists m', y. split; [exact E|].
    apply (grows_trans n m0 m m'); [|exact R]. now apply holds_grows in H.
Qed.

Lemma runs_read : forall A B Y m0 m (f : mem -> outcome A) (k : A -> M n B) (o : outcome A) (g : A -> outcome Y) R,
  grows m0 m -> sound (f m) o -> (forall x, o = Ok x -> runs m0 m (k x) (g x) R) ->
  runs m0 m (mbind (reading f) k) (bind o g) R.
Proof.
  intros A B Y m0 m f k [x|x|] g R G S F; cbn in S; [| |exact I].
  - cbn [bind]. unfold runs, mbind, reading. rewrite S. now apply F.
  - destruct S as [y S]. exists m, y. split; [|exact G]. unfold mbind, reading. now rewrite S.
Qed.

Lemma run_reading : forall A B (m : mem) (f : mem -> outcome A) (k : A -> M n B) x, f m = Ok x ->
  mbind (reading f) k m = k x m.
Proof. intros A B m f k x E. unfold mbind, reading. now rewrite E. Qed.

Lemma runs_perm : forall A X m0 m (c : M n A) (o : outcome X) Q R, runs m0 m c o Q ->
  (forall x v, Permutation (Q x v) (R x v)) -> runs m0 m c o R.
Proof.
  intros A X m0 m c [x|x|] Q R H P; cbn in H |- *; auto.
  destruct H as [m' [v [E H]]]. exists m', v. split; [exact E|]. now apply (holds_perm n C m0 (Q x v)).
Qed.

Lemma runs_eq : forall A X m0 m (c : M n A) (o o' : outcome X) Q, runs m0 m c o Q -> o = o' -> runs m0 m c o' Q.
Proof. intros. now subst. Qed.

(** ** Making new nodes *)

Lemma alloc_ok : forall (m : mem) (c : cell n), wf m -> exists m', alloc c m = ROk m' (next m) /\
  at_ m' (next m) = Some c /\ grows m m' /\ next m' = S (next m) /\
  (forall b, at_ m' b <> None -> b = next m \/ at_ m b <> None).
Proof.
  intros m c W. unfold alloc. eexists. split; [reflexivity|]. cbn. unfold set. rewrite Nat.eqb_refl.
  split; [reflexivity|]. split; [|split; [reflexivity|]].
  - split; [cbn; lia|]. split.
    + intros a L. cbn. destruct (Nat.eqb_spec a (next m)); [lia|reflexivity].
    + intros a L. cbn in L |- *. destruct (Nat.eqb_spec a (next m)); [lia|]. apply W. lia.
  - intros b X. destruct (Nat.eqb_spec b (next m)); [now left|now right].
Qed.

Lemma holds_alloc : forall m0 l m (c : cell n) (i : item) l' ,
  holds m0 (l ++ l') m ->
  (forall m' L, at_ m' (next m) = Some c -> owned n m' l L -> own1 n m' i (next m :: L)) ->
  exists m', alloc c m = ROk m' (next m) /\ holds m0 (i :: l') m'.
Proof.
  intros m0 l m c i l' H B. pose proof (holds_wf _ _ _ _ _ H) as W.
  destruct (alloc_ok m c W) as [m' [E [A [G [N T]]]]]. exists m'. split; [exact E|].
  destruct H as [L [O S]].
  assert (SPLIT : exists L1 L2, L = L1 ++ L2 /\ owned n m l L1 /\ owned n m l' L2).
  { clear - O. revert L O. induction l as [|i l IH]; intros L O.
    - exists [], L. split; [reflexivity|]. split; [constructor|exact O].
    - cbn in O. inversion O as [|? fp ? L0 H0 O0]; subst. destruct (IH L0 O0) as [L1 [L2 [E [O1 O2]]]].
      subst. exists (fp ++ L1), L2. split; [now rewrite app_assoc|]. split; [now constructor|exact O2]. }
  destruct SPLIT as [L1 [L2 [EL [O1 O2]]]]. subst.
  assert (K : forall x, In x (L1 ++ L2) -> x < next m).
  { intros x X. apply wf_alive with (n := n); [exact W|]. apply (owned_alive n m (l ++ l') _ O x X). }
  exists (next m :: L1 ++ L2). split.
  - change (next m :: L1 ++ L2) with ((next m :: L1) ++ L2). constructor.
    + apply B; [exact A|]. apply (owned_frame n m); [exact O1|]. intros x X. apply G, K, in_or_app. now left.
    + apply (owned_frame n m); [exact O2|]. intros x X. apply G, K, in_or_app. now right.
  - apply (swaps_trans n C m0 [] m (L1 ++ L2)); [exact S|].
    assert (ND : NoDup (L1 ++ L2)) by (destruct S as [_ [_ [ND _]]]; exact ND).
    repeat split.
    + lia.
    + apply (grows_wf n m m' G).
    + constructor; [|exact ND]. intros X. apply K in X. lia.
    + intros b X _. apply G, X.
    + intros b [X|X]; [right; lia|now left].
    + intros _ b X. destruct (T b X) as [Y|Y]; [left; left; now subst|].
      destruct (in_dec Nat.eq_dec b (L1 ++ L2)) as [Z|Z]; [left; now right|]. right. split; [|exact Z].
      now apply (wf_alive n).
Qed.

Ltac own_inv := repeat match goal with
  | O : owned _ _ (_ :: _) _ |- _ => inversion O; subst; clear O
  | O : owned _ _ [] _ |- _ => inversion O; subst; clear O
  end; cbn [own1] in *.

Lemma alloc_leaf : forall m0 l m c e,
  match c with HConst x => e = EConst x | HVar i => e = EVar i | HFun i t => e = EFun i t | _ => False end ->
  holds m0 l m -> exists m' v, alloc c m = ROk m' v /\ holds m0 (IExpr v e :: l) m'.
Proof.
  intros m0 l m c e E H. destruct (holds_alloc m0 [] m c (IExpr (next m) e) l H) as [m' [A B]]; [|now eauto].
  intros m' L A O. own_inv. destruct c; try contradiction; subst; constructor; exact A.
Qed.

Lemma alloc_uop : forall m0 l m op, holds m0 l m ->
  exists m' v, alloc (HUop op) m = ROk m' v /\ holds m0 (IOp v (OUn n op) :: l) m'.
Proof.
  intros m0 l m op H. destruct (holds_alloc m0 [] m (HUop op) (IOp (next m) (OUn n op)) l H) as [m' [A B]]; [|now eauto].
  intros m' L A O. own_inv. now constructor.
Qed.

Lemma alloc_bop : forall m0 l m op, holds m0 l m ->
  exists m' v, alloc (HBop op) m = ROk m' v /\ holds m0 (IOp v (OBin n op) :: l) m'.
Proof.
  intros m0 l m op H. destruct (holds_alloc m0 [] m (HBop op) (IOp (next m) (OBin n op)) l H) as [m' [A B]]; [|now eauto].
  intros m' L A O. own_inv. now constructor.
Qed.

Lemma alloc_integral : forall m0 l m lo hi x y v, holds m0 (IExpr lo x :: IExpr hi y :: l) m ->
  exists m' p, alloc (HIntegral lo hi v) m = ROk m' p /\ holds m0 (IOp p (OInt n x y v) :: l) m'.
Proof.
  intros m0 l m lo hi x y v H.
  destruct (holds_alloc m0 [IExpr lo x; IExpr hi y] m (HIntegral lo hi v) (IOp (next m) (OInt n x y v)) l H) as [m' [A B]]; [|now eauto].
  intros m' L A O. own_inv. rewrite app_nil_r. econstructor; eassumption.
Qed.

Definition unary (o : opval n) (x : expr) : option expr :=
  match o with
  | OUn _ op => Some (EUn op x)
  | OInt _ lo hi v => Some (EInt lo hi v x)
  | OBin _ _ => None
  end.

Lemma alloc_un : forall m0 l m q p o x e, unary o x = Some e -> holds m0 (IExpr q x :: IOp p o :: l) m ->
  exists m' v, alloc (HUn q p) m = ROk m' v /\ holds m0 (IExpr v e :: l) m'.
Proof.
  intros m0 l m q p o x e U H.
  destruct (holds_alloc m0 [IExpr q x; IOp p o] m (HUn q p) (IExpr (next m) e) l H) as [m' [A B]]; [|now eauto].
  intros m' L A O. own_inv. rewrite app_nil_r. destruct o; inversion U; subst; econstructor; eassumption.
Qed.

Lemma alloc_bin : forall m0 l m a p b op x y, holds m0 (IExpr a x :: IOp p (OBin n op) :: IExpr b y :: l) m ->
  exists m' v, alloc (HBin a p b) m = ROk m' v /\ holds m0 (IExpr v (EBin op x y) :: l) m'.
Proof.
  intros m0 l m a p b op x y H.
  destruct (holds_alloc m0 [IExpr a x; IOp p (OBin n op); IExpr b y] m (HBin a p b) (IExpr (next m) (EBin op x y)) l H) as [m' [A B]]; [|now eauto].
  intros m' L A O. own_inv. rewrite app_nil_r. econstructor; eassumption.
Qed.

Lemma alloc_vec : forall m0 l m ps es, holds m0 (IList ps es :: l) m ->
  exists m' v, alloc (HVec ps) m = ROk m' v /\ holds m0 (IExpr v (EVec es) :: l) m'.
Proof.
  intros m0 l m ps es H.
  destruct (holds_alloc m0 [IList ps es] m (HVec ps) (IExpr (next m) (EVec es)) l H) as [m' [A B]]; [|now eauto].
  intros m' L A O. own_inv. rewrite app_nil_r. econstructor; eassumption.
Qed.

Lemma holds_exact : forall m0 l l' m, holds m0 l m ->
  (forall L, owned n m l L -> exists L', owned n m l' L' /\ Permutation L L') -> holds m0 l' m.
Proof.
  intros m0 l l' m [L [O S]] F. destruct (F L O) as [L' [O' P]]. exists L'. split; [exact O'|].
  now apply (swaps_perm n C m0 [] m L).
Qed.

Lemma list_nil : forall m0 l m, holds m0 l m -> holds m0 (IList [] [] :: l) m.
Proof.
  intros m0 l m H. apply (holds_exact m0 l); [exact H|]. intros L O. exists ([] ++ L).
  split; [constructor; [constructor|exact O]|apply Permutation_refl].
Qed.

Lemma list_cons : forall m0 l m p e ps es, holds m0 (IExpr p e :: IList ps es :: l) m ->
  holds m0 (IList (p :: ps) (e :: es) :: l) m.
Proof.
  intros m0 l m p e ps es H. apply (holds_exact _ _ _ _ H). intros L O. own_inv.
  eexists. split; [constructor; [constructor; eassumption|eassumption]|]. rewrite app_assoc. apply Permutation_refl.
Qed.

Lemma list_uncons : forall m0 l m p e ps es, holds m0 (IList (p :: ps) (e :: es) :: l) m ->
  holds m0 (IExpr p e :: IList ps es :: l) m.
Proof.
  intros m0 l m p e ps es H. apply (holds_exact _ _ _ _ H). intros L O. own_inv.
  match goal with O : owns_list _ _ _ _ _ |- _ => inversion O; subst end.
  eexists. split; [constructor; [eassumption|constructor; eassumption]|]. rewrite app_assoc. apply Permutation_refl.
Qed.

Lemma list_unnil : forall m0 l m ps, holds m0 (IList ps [] :: l) m -> ps = [] /\ holds m0 l m.
Proof.
  intros m0 l m ps H. split.
  - destruct H as [L [O _]]. own_inv. match goal with O : owns_list _ _ _ _ _ |- _ => now inversion O end.
  - apply (holds_exact _ _ _ _ H). intros L O. own_inv.
    match goal with O : owns_list _ _ _ _ _ |- _ => inversion O; subst end.
    eexists. split; [eassumption|apply Permutation_refl].
Qed.

(** ** Makers *)

(** [makes m I c o]: in [m] or any later heap, [c] returns a new item. *)
Definition makes {X : Type} (m : mem) (I : nat -> X -> item) (c : M n nat) (o : outcome X) : Prop :=
  forall m1, grows m m1 -> runs m1 m1 c o (fun x v => [I v x]).

Lemma makes_grows : forall X m m' (I : nat -> X -> item) c o, grows m m' -> makes m I c o -> makes m' I c o.
Proof. intros X m m' I c o G H m1 G1. apply H. now apply (grows_trans n m m'). Qed.

Lemma makes_run : forall X m (I : nat -> X -> item) c o m0 l m1, makes m I c o -> grows m m1 -> holds m0 l m1 ->
  runs m0 m1 c o (fun x v => I v x :: l).
Proof.
  intros X m I c o m0 l m1 H G Hl.
  apply (runs_frame _ _ m0 l m1 c o (fun x v => [I v x])); [exact Hl|]. now apply H.
Qed.

Lemma makes_ok : forall X m (I : nat -> X -> item) c x m0 l m1, makes m I c (Ok x) -> grows m m1 -> holds m0 l m1 ->
  exists m2 v, c m1 = ROk m2 v /\ holds m0 (I v x :: l) m2.
Proof. intros X m I c x m0 l m1 H G Hl. apply (makes_run X m I c (Ok x) m0 l m1 H G Hl). Qed.

Lemma makes_then : forall X m (I : nat -> X -> item) c x m0 l m1, grows m m0 -> makes m I c (Ok x) -> holds m0 l m1 ->
  exists m2 v, c m1 = ROk m2 v /\ holds m0 (I v x :: l) m2.
Proof.
  intros X m I c x m0 l m1 G H Hl. apply (makes_ok X m); [exact H| |exact Hl].
  apply holds_grows in Hl. now apply (grows_trans n m m0).
Qed.

Lemma makes_eq : forall X m (I : nat -> X -> item) c o o', makes m I c o -> o = o' -> makes m I c o'.
Proof. intros. now subst. Qed.

Lemma makes_read : forall A X m (I : nat -> X -> item) (f : mem -> outcome A) k o (g : A -> outcome X),
  (forall m1, grows m m1 -> sound (f m1) o) -> (forall x, o = Ok x -> makes m I (k x) (g x)) ->
  makes m I (mbind (reading f) k) (bind o g).
Proof.
  intros A X m I f k o g S F m1 G. apply runs_read.
  - apply grows_refl. apply (grows_wf n m m1 G).
  - apply S, G.
  - intros x E. now apply (F x E).
Qed.

Lemma makes_reading : forall A X m (I : nat -> X -> item) (f : mem -> outcome A) k x (o : outcome X),
  (forall m1, grows m m1 -> f m1 = Ok x) -> makes m I (k x) o -> makes m I (mbind (reading f) k) o.
Proof.
  intros A X m I f k x o S F. apply (makes_read A X m I f k (Ok x) (fun _ => o)).
  - exact S.
  - intros y E. inversion E; subst. exact F.
Qed.

Lemma makes_throw : forall X m (I : nat -> X -> item) x y, makes m I (fun m => RThrow m x) (Throw y).
Proof. intros X m I x y m1 G. exists m1, x. split; [reflexivity|]. apply grows_refl. apply (grows_wf n m m1 G). Qed.

Lemma makes_load : forall X m (I : nat -> X -> item) a c k (o : outcome X), wf m -> at_ m a = Some c ->
  makes m I (k c) o -> makes m I (mbind (reading (fun m => load m a)) k) o.
Proof.
  intros X m I a c k o W E F. apply makes_reading with (x := c); [|exact F]. intros m1 G. unfold load.
  destruct G as [_ [G _]]. rewrite G; [now rewrite E|]. apply (wf_alive n m a W). congruence.
Qed.

Lemma makes_leaf : forall m c e,
  match c with HConst x => e = EConst x | HVar i => e = EVar i | HFun i t => e = EFun i t | _ => False end ->
  makes m IExpr (alloc c) (Ok e).
Proof.
  intros m c e E m1 G. apply alloc_leaf; [exact E|]. apply holds_start, (grows_wf n m m1 G).
Qed.

Lemma makes_const : forall m x, makes m IExpr (alloc (HConst x)) (Ok (EConst x)).
Proof. intros m x. now apply makes_leaf. Qed.

(** Two arguments in either order. *)
Lemma runs_args : forall X Y Z A m (I : nat -> X -> item) (J : nat -> Y -> item) a b (oa : outcome X) (ob : outcome Y)
    (f : nat -> nat -> M n A) (g : X -> Y -> outcome Z) Q m1,
  makes m I a oa -> makes m J b ob -> grows m m1 ->
  (forall x y v w m2, holds m1 [I v x; J w y] m2 -> runs m1 m2 (f v w) (g x y) Q) ->
  runs m1 m1 (args n order a b f) (both oa ob g) Q.
Proof.
  intros X Y Z A m I J a b oa ob f g Q m1 Ha Hb G F.
  assert (S : holds m1 [] m1) by (apply holds_start, (grows_wf n m m1 G)).
  assert (RUN : forall (c : M n A), c m1 = args n order a b f m1 -> runs m1 m1 c (both oa ob g) Q ->
    runs m1 m1 (args n order a b f) (both oa ob g) Q).
  { intros c E R. unfold runs in *. destruct (both oa ob g); rewrite <- ?E; exact R. }
  unfold args in RUN |- *. destruct (order (next m1)) eqn:OR.
  - apply (RUN (mbind a (fun x => mbind b (fun y => f x y)))); [now rewrite ?OR|].
    pose proof (makes_run X m I a oa m1 [] m1 Ha G S) as R.
    destruct oa as [x|x|]; cbn in R.
    + destruct R as [m2 [v [E H]]].
      assert (G2 : grows m m2) by (apply holds_grows in H; now apply (grows_trans n m m1)).
      pose proof (makes_run Y m J b ob m1 _ m2 Hb G2 H) as R2.
      destruct ob as [y|y|]; cbn in R2 |- *; [| |exact Logic.I].
      * destruct R2 as [m3 [w [E2 H2]]]. unfold runs, mbind. rewrite E, E2. apply F.
        apply (holds_perm n C m1 [J w y; I v x]); [apply perm_swap|exact H2].
      * destruct R2 as [m3 [w [E2 H2]]]. exists m3, w. split; [|exact H2]. unfold mbind. now rewrite E, E2.
    + destruct R as [m2 [v [E H]]]. destruct ob; cbn; [| |exact Logic.I]; exists m2, v; (split; [unfold mbind; now rewrite E|exact H]).
    + exact Logic.I.
  - apply (RUN (mbind b (fun y => mbind a (fun x => f x y)))); [now rewrite ?OR|].
    pose proof (makes_run Y m J b ob m1 [] m1 Hb G S) as R.
    destruct ob as [y|y|]; cbn in R.
    + destruct R as [m2 [v [E H]]].
      assert (G2 : grows m m2) by (apply holds_grows in H; now apply (grows_trans n m m1)).
      pose proof (makes_run X m I a oa m1 _ m2 Ha G2 H) as R2.
      destruct oa as [x|x|]; cbn in R2 |- *; [| |exact Logic.I].
      * destruct R2 as [m3 [w [E2 H2]]]. unfold runs, mbind. rewrite E, E2. apply F. exact H2.
      * destruct R2 as [m3 [w [E2 H2]]]. exists m3, w. split; [|exact H2]. unfold mbind. now rewrite E, E2.
    + destruct R as [m2 [v [E H]]]. destruct oa; cbn; [| |exact Logic.I]; exists m2, v; (split; [unfold mbind; now rewrite E|exact H]).
    + destruct oa; exact Logic.I.
Qed.

Lemma makes_args : forall X Y Z m (I : nat -> X -> item) (J : nat -> Y -> item) (K : nat -> Z -> item) a b oa ob f
    (g : X -> Y -> outcome Z),
  makes m I a oa -> makes m J b ob ->
  (forall x y v w m1 m2, grows m m1 -> holds m1 [I v x; J w y] m2 -> runs m1 m2 (f v w) (g x y) (fun z u => [K u z])) ->
  makes m K (args n order a b f) (both oa ob g).
Proof.
  intros X Y Z m I J K a b oa ob f g Ha Hb F m1 G.
  apply (runs_args X Y Z nat m I J); try assumption. intros. now apply F.
Qed.

(** Straight-line code. *)
Ltac step E := rewrite (mbind_ok n _ _ _ _ _ E).

Lemma makes_new_bin : forall m op a b oa ob, makes m IExpr a oa -> makes m IExpr b ob ->
  makes m IExpr (new_bin n order op a b) (mk2 n op oa ob).
Proof.
  intros m op a b oa ob Ha Hb. unfold new_bin, mk2.
  apply (makes_args _ _ _ m IExpr IExpr IExpr); [exact Ha|exact Hb|].
  intros x y v w m1 m2 G H. destruct (alloc_bop m1 _ m2 op H) as [m3 [p [E3 H3]]].
  destruct (alloc_bin m1 [] m3 v p w op x y) as [m4 [r [E4 H4]]].
  - apply (holds_perm n C m1 _ _ m3 (perm_swap _ _ _) H3).
  - exists m4, r. split; [|exact H4]. step E3. exact E4.
Qed.

Lemma makes_new_un : forall m op a oa, makes m IExpr a oa ->
  makes m IExpr (new_un n op a) (omap (EUn op) oa).
Proof.
  intros m op a oa Ha m1 G. unfold new_un, omap.
  apply runs_bind with (Q := fun x v => [IExpr v x]); [now apply Ha|].
  intros x v m2 _ H. destruct (alloc_uop m1 _ m2 op H) as [m3 [p [E3 H3]]].
  destruct (alloc_un m1 [] m3 v p (OUn n op) x _ eq_refl) as [m4 [r [E4 H4]]].
  - apply (holds_perm n C m1 _ _ m3 (perm_swap _ _ _) H3).
  - exists m4, r. split; [|exact H4]. step E3. exact E4.
Qed.

(** *** Vectors *)

Lemma zeros_ok : forall m0 l m k, holds m0 l m ->
  exists m' zs, zeros n k m = ROk m' zs /\ holds m0 (IList zs (repeat (EConst (c0 n)) k) :: l) m'.
Proof.
  intros m0 l m k. revert l m. induction k as [|k IH]; intros l m H; cbn [zeros repeat].
  - exists m, []. split; [reflexivity|]. now apply list_nil.
  - destruct (alloc_leaf m0 l m (HConst (c0 n)) _ eq_refl H) as [m1 [z [E1 H1]]].
    destruct (IH _ _ H1) as [m2 [zs [E2 H2]]]. exists m2, (z :: zs).
    split; [step E1; step E2; reflexivity|]. apply list_cons.
    apply (holds_perm n C m0 _ _ m2 (perm_swap _ _ _) H2).
Qed.

Lemma fill_ok : forall m (f : nat -> M n nat) (g : expr -> outcome expr) m0 ps es,
  Forall2 (fun p e => makes m IExpr (f p) (g e)) ps es ->
  forall m1 l zs zes, grows m m1 -> grows m m0 -> holds m0 (IList zs zes :: l) m1 -> length zes = length es ->
  runs m0 m1 (fill n f ps zs) (oseq (map g es)) (fun xs qs => IList qs xs :: l).
Proof.
  intros m f g m0 ps es F. induction F as [|p e ps es Hp F IH]; intros m1 l zs zes G G0 H L.
  - destruct zes; [|discriminate]. cbn. apply list_unnil in H as [_ H]. exists m1, [].
    split; [reflexivity|]. now apply list_nil.
  - destruct zes as [|ze zes]; [discriminate|].
    destruct zs as [|z zs].
    { destruct H as [L' [O _]]. own_inv. match goal with O : owns_list _ _ _ _ _ |- _ => inversion O end. }
    cbn [fill map oseq]. apply list_uncons in H.
    apply runs_bind with (Q := fun x v => IExpr v x :: IExpr z ze :: IList zs zes :: l).
    + apply (makes_run _ m IExpr); assumption.
    + intros x q m2 _ H2.
      destruct (holds_delete n C m0 z ze (IExpr q x :: IList zs zes :: l) m2) as [m3 [E3 H3]].
      { apply (holds_perm n C m0 _ _ m2 (perm_swap _ _ _) H2). }
      assert (RUN : runs m0 m3 (mbind (fill n f ps zs) (fun qs => ret (q :: qs))) (omap (cons x) (oseq (map g es)))
                      (fun xs qs => IList qs xs :: l)).
      { unfold omap. apply runs_bind with (Q := fun xs qs => IList qs xs :: IExpr q x :: l).
        - apply (IH m3 (IExpr q x :: l) zs zes).
          + apply holds_grows in H3. now apply (grows_trans n m m0).
          + exact G0.
          + apply (holds_perm n C m0 _ _ m3 (perm_swap _ _ _) H3).
          + cbn in L. lia.
        - intros xs qs m4 _ H4. apply runs_ret. apply list_cons.
          apply (holds_perm n C m0 _ _ m4 (perm_swap _ _ _) H4). }
      unfold runs in RUN |- *. destruct (omap (cons x) (oseq (map g es))); [| |exact I]; step E3; exact RUN.
Qed.

Lemma Forall2_len : forall A B (R : A -> B -> Prop) l l', Forall2 R l l' -> length l = length l'.
Proof. intros A B R l l' F. induction F; cbn; congruence. Qed.

Lemma makes_vector : forall m (f : nat -> M n nat) (g : expr -> outcome expr) ps es, 
  Forall2 (fun p e => makes m IExpr (f p) (g e)) ps es ->
  makes m IExpr (new_vector n f ps) (omap EVec (oseq (map g es))).
Proof.
  intros m f g ps es F m1 G. unfold new_vector.
  assert (S : holds m1 [] m1) by (apply holds_start, (grows_wf n m m1 G)).
  destruct (zeros_ok m1 [] m1 (length ps) S) as [m2 [zs [E2 H2]]].
  assert (RUN : runs m1 m2 (mbind (fill n f ps zs) (fun qs => alloc (HVec qs))) (omap EVec (oseq (map g es)))
                  (fun x v => [IExpr v x])).
  { unfold omap. apply runs_bind with (Q := fun xs qs => [IList qs xs]).
    - apply (fill_ok m f g m1 ps es F m2 [] zs (repeat (EConst (c0 n)) (length ps))).
      + apply holds_grows in H2. now apply (grows_trans n m m1).
      + exact G.
      + exact H2.
      + rewrite repeat_length. apply (Forall2_len _ _ _ _ _ F).
    - intros xs qs m3 _ H3. apply alloc_vec, H3. }
  unfold runs in RUN |- *. destruct (omap EVec (oseq (map g es))); [| |exact I]; step E2; exact RUN.
Qed.

Lemma oseq_ok : forall A (l : list A), oseq (map Ok l) = Ok l.
Proof. intros A l. induction l as [|a l IH]; [reflexivity|]. cbn. now rewrite IH. Qed.

(** *** clone() *)

Lemma makes_clone_op_with : forall k m f p o, wf m -> has k m (IOp p o) ->
  (forall a e, has k m (IExpr a e) -> makes m IExpr (f a) (Ok e)) ->
  makes m IOp (clone_op_with n f p) (Ok o).
Proof.
  intros k m f p o W H F. pose proof (has_op_inv n k m p o H) as V. unfold clone_op_with.
  destruct o as [op|op|x y v].
  - apply makes_load with (c := HUop op); [exact W|exact V|]. intros m1 G.
    apply alloc_uop, holds_start, (grows_wf n m m1 G).
  - apply makes_load with (c := HBop op); [exact W|exact V|]. intros m1 G.
    apply alloc_bop, holds_start, (grows_wf n m m1 G).
  - destruct V as [lo [hi [V [Hlo Hhi]]]].
    apply makes_load with (c := HIntegral lo hi v); [exact W|exact V|]. intros m1 G.
    assert (S : holds m1 [] m1) by (apply holds_start, (grows_wf n m m1 G)).
    destruct (makes_then _ _ _ _ _ _ _ _ G (F lo x Hlo) S) as [m2 [lo' [E2 H2]]].
    destruct (makes_then _ _ _ _ _ _ _ _ G (F hi y Hhi) H2) as [m3 [hi' [E3 H3]]].
    destruct (alloc_integral m1 [] m3 lo' hi' x y v) as [m4 [q [E4 H4]]].
    { apply (holds_perm n C m1 _ _ m3 (perm_swap _ _ _) H3). }
    exists m4, q. split; [|exact H4]. step E2. step E3. exact E4.
Qed.

Lemma makes_un_like : forall m a oa c o, makes m IExpr a oa -> makes m IOp c (Ok o) ->
  (forall x, unary o x <> None) ->
  makes m IExpr (args n order a c (fun q p => alloc (HUn q p)))
    (bind oa (fun x => match unary o x with Some e => Ok e | None => UB end)).
Proof.
  intros m a oa c o Ha Hc U.
  apply makes_eq with (o := both oa (Ok o) (fun x o => match unary o x with Some e => Ok e | None => UB end)).
  - apply (makes_args _ _ _ m IExpr IOp IExpr); [exact Ha|exact Hc|].
    intros x o' v w m1 m2 G H. destruct (unary o' x) as [e|] eqn:E; [|exact I].
    apply (alloc_un m1 [] m2 v w o' x e E H).
  - destruct oa; reflexivity.
Qed.

Lemma makes_bin_like : forall m a b c oa ob op, makes m IExpr a oa -> makes m IExpr b ob ->
  makes m IOp c (Ok (OBin n op)) ->
  makes m IExpr (args n order a b (fun l r => p <- c; alloc (HBin l p r))) (mk2 n op oa ob).
Proof.
  intros m a b c oa ob op Ha Hb Hc. unfold mk2.
  apply (makes_args _ _ _ m IExpr IExpr IExpr); [exact Ha|exact Hb|].
  intros x y v w m1 m2 G H.
  destruct (makes_then _ _ _ _ _ _ _ _ G Hc H) as [m3 [p [E3 H3]]].
  destruct (alloc_bin m1 [] m3 v p w op x y) as [m4 [r [E4 H4]]].
  - apply (holds_perm n C m1 _ _ m3 (perm_swap _ _ _) H3).
  - exists m4, r. split; [|exact H4]. step E3. exact E4.
Qed.

Lemma makes_clone_f : forall k m a e, wf m -> has k m (IExpr a e) -> makes m IExpr (clone_f n order k a) (Ok e).
Proof.
  induction k as [|k IH]; intros m a e W H; [exfalso; eapply has_O; eassumption|].
  cbn [clone_f]. pose proof (has_expr_inv n k m a e H) as V.
  destruct e as [c|i|i t|op x|lo hi v x|op x y|es].
  - apply makes_load with (c := HConst c); [exact W|exact V|]. now apply makes_leaf.
  - apply makes_load with (c := HVar i); [exact W|exact V|]. now apply makes_leaf.
  - apply makes_load with (c := HFun i t); [exact W|exact V|]. now apply makes_leaf.
  - destruct V as [q [p [V [Hq Hp]]]]. apply makes_load with (c := HUn q p); [exact W|exact V|].
    apply (makes_un_like m (clone_f n order k q) (Ok x) _ (OUn n op)).
    + now apply IH.
    + apply (makes_clone_op_with k); [exact W|exact Hp|]. intros b e' Hb. now apply IH.
    + discriminate.
  - destruct V as [q [p [V [Hq Hp]]]]. apply makes_load with (c := HUn q p); [exact W|exact V|].
    apply (makes_un_like m (clone_f n order k q) (Ok x) _ (OInt n lo hi v)).
    + now apply IH.
    + apply (makes_clone_op_with k); [exact W|exact Hp|]. intros b e' Hb. now apply IH.
    + discriminate.
  - destruct V as [l [p [r [V [Hl [Hp Hr]]]]]]. apply makes_load with (c := HBin l p r); [exact W|exact V|].
    apply (makes_bin_like m (clone_f n order k l) (clone_f n order k r) _ (Ok x) (Ok y) op).
    + now apply IH.
    + now apply IH.
    + apply (makes_clone_op_with k); [exact W|exact Hp|]. intros b e' Hb. now apply IH.
  - destruct V as [ps [V Hl]]. apply makes_load with (c := HVec ps); [exact W|exact V|].
    apply makes_eq with (o := omap EVec (oseq (map Ok es))); [|now rewrite oseq_ok].
    apply makes_vector. apply has_list_inv in Hl. clear V H.
    induction Hl as [|p e ps es Hp Hl IHl]; constructor; [now apply IH|]. exact IHl.
Qed.

Lemma runs_ext : forall A X m0 m (c c' : M n A) (o : outcome X) Q, c m = c' m -> runs m0 m c o Q -> runs m0 m c' o Q.
Proof. intros A X m0 m c c' o Q E R. unfold runs in *. now rewrite <- E. Qed.

Lemma makes_ext : forall X m (I : nat -> X -> item) c c' o, (forall m1, c m1 = c' m1) -> makes m I c o -> makes m I c' o.
Proof. intros X m I c c' o E H m1 G. apply (runs_ext _ _ m1 m1 c); auto. Qed.

(** A function with a recursion bound computed at the time of the call. *)
Lemma makes_enough : forall X m (I : nat -> X -> item) (f : nat -> M n nat) o,
  (forall m1, grows m m1 -> makes m1 I (f (enough m1)) o) -> makes m I (fun m1 => f (enough m1) m1) o.
Proof.
  intros X m I f o H m1 G. apply (runs_ext _ _ m1 m1 (f (enough m1))); [reflexivity|].
  apply (H m1 G). apply grows_refl, (grows_wf n m m1 G).
Qed.

Lemma makes_clone : forall k m a e, wf m -> has k m (IExpr a e) -> makes m IExpr (clone n order a) (Ok e).
Proof.
  intros k m a e W H. apply (makes_enough _ m IExpr (fun k => clone_f n order k a)). intros m1 G.
  pose proof (grows_wf n m m1 G) as W1. apply makes_clone_f; [exact W1|].
  apply (has_enough n k); [exact W1|]. now apply (has_grows n k m).
Qed.

Lemma makes_clone_op : forall k m p o, wf m -> has k m (IOp p o) -> makes m IOp (clone_op n order p) (Ok o).
Proof.
  intros k m p o W H. apply (makes_clone_op_with k); [exact W|exact H|]. intros a e Ha. now apply (makes_clone k).
Qed.

Lemma makes_new_un_like : forall k m a oa p o, wf m -> makes m IExpr a oa -> has k m (IOp p o) ->
  (forall x, unary o x <> None) ->
  makes m IExpr (new_un_like n order a p) (bind oa (fun x => match unary o x with Some e => Ok e | None => UB end)).
Proof.
  intros k m a oa p o W Ha Hp U. unfold new_un_like. apply makes_un_like; [exact Ha| |exact U].
  now apply (makes_clone_op k).
Qed.

Lemma makes_new_bin_like : forall k m a b p oa ob op, wf m -> makes m IExpr a oa -> makes m IExpr b ob ->
  has k m (IOp p (OBin n op)) -> makes m IExpr (new_bin_like n order p a b) (mk2 n op oa ob).
Proof.
  intros k m a b p oa ob op W Ha Hb Hp. unfold new_bin_like. apply makes_bin_like; [exact Ha|exact Hb|].
  now apply (makes_clone_op k).
Qed.

(** *** Temporaries *)

Lemma make_here : forall X m0 l m (I : nat -> X -> item) c x, holds m0 l m -> makes m I c (Ok x) ->
  exists m' v, c m = ROk m' v /\ holds m0 (I v x :: l) m'.
Proof.
  intros X m0 l m I c x H K. apply (makes_ok X m); [exact K| |exact H].
  apply grows_refl. apply (holds_wf _ _ _ _ _ H).
Qed.

Lemma clone_here : forall k m0 l m a e, holds m0 l m -> has k m (IExpr a e) ->
  exists m' v, clone n order a m = ROk m' v /\ holds m0 (IExpr v e :: l) m'.
Proof.
  intros k m0 l m a e H K. apply make_here; [exact H|]. apply (makes_clone k); [|exact K].
  apply (holds_wf _ _ _ _ _ H).
Qed.

(** A vector's entry: cloned from the temporary that owns the new expression. *)
Lemma makes_via : forall m c o, makes m IExpr c o -> makes m IExpr (via n order c) o.
Proof.
  intros m c o H m1 G. specialize (H m1 G). destruct o as [e|x|]; [| |exact I].
  - destruct H as [m2 [p [E2 H2]]].
    destruct (clone_here (enough m2) m1 _ m2 p e H2) as [m3 [q [E3 H3]]].
    { apply (holds_has _ _ _ _ _ _ H2). now left. }
    apply (holds_perm n C m1 _ _ m3 (perm_swap _ _ _)) in H3.
    destruct (holds_delete n C m1 _ _ _ _ H3) as [m4 [E4 H4]].
    exists m4, q. split; [|exact H4]. unfold via. step E2. step E3. step E4. reflexivity.
  - destruct H as [m2 [y [E2 H2]]]. exists m2, y. split; [|exact H2]. unfold via, mbind. now rewrite E2.
Qed.

Lemma args_here : forall X Y A m0 l m (I : nat -> X -> item) (J : nat -> Y -> item) a b x y (f : nat -> nat -> M n A) P,
  holds m0 l m -> makes m I a (Ok x) -> makes m J b (Ok y) ->
  (forall v w m2, holds m0 (I v x :: J w y :: l) m2 -> exists m3 r, f v w m2 = ROk m3 r /\ P m3 r) ->
  exists m3 r, args n order a b f m = ROk m3 r /\ P m3 r.
Proof.
  intros X Y A m0 l m I J a b x y f P H Ha Hb F. pose proof (holds_wf _ _ _ _ _ H) as W.
  pose proof (grows_refl n m W) as G. unfold args. destruct (order (next m)).
  - destruct (makes_ok _ _ _ _ _ _ _ _ Ha G H) as [m1 [v [E1 H1]]].
    assert (G1 : grows m m1).
    { pose proof (Ha m G) as R. destruct R as [m1' [v' [E' R]]]. rewrite E1 in E'. inversion E'; subst.
      now apply holds_grows in R. }
    destruct (makes_ok _ _ _ _ _ _ _ _ Hb G1 H1) as [m2 [w [E2 H2]]].
    destruct (F v w m2) as [m3 [r [E3 H3]]].
    { apply (holds_perm n C m0 _ _ m2 (perm_swap _ _ _) H2). }
    exists m3, r. split; [|exact H3]. step E1. step E2. exact E3.
  - destruct (makes_ok _ _ _ _ _ _ _ _ Hb G H) as [m1 [w [E1 H1]]].
    assert (G1 : grows m m1).
    { pose proof (Hb m G) as R. destruct R as [m1' [v' [E' R]]]. rewrite E1 in E'. inversion E'; subst.
      now apply holds_grows in R. }
    destruct (makes_ok _ _ _ _ _ _ _ _ Ha G1 H1) as [m2 [v [E2 H2]]].
    destruct (F v w m2 H2) as [m3 [r [E3 H3]]].
    exists m3, r. split; [|exact H3]. step E1. step E2. exact E3.
Qed.

Definition tbin (t : nat * nat * nat) (op : bop) (x y : expr) : list item :=
  match t with (l, p, r) => [IExpr l x; IOp p (OBin n op); IExpr r y] end.

Lemma stack_bin_ok : forall k m0 l m op a b x y, holds m0 l m -> has k m (IExpr a x) -> has k m (IExpr b y) ->
  exists m' t, stack_bin n order op a b m = ROk m' t /\ holds m0 (tbin t op x y ++ l) m'.
Proof.
  intros k m0 l m op a b x y H Ha Hb. pose proof (holds_wf _ _ _ _ _ H) as W. unfold stack_bin.
  apply (args_here _ _ _ m0 l m IExpr IExpr _ _ x y); [exact H|now apply (makes_clone k)|now apply (makes_clone k)|].
  intros v w m2 H2. destruct (alloc_bop m0 _ m2 op H2) as [m3 [p [E3 H3]]].
  exists m3, (v, p, w). split; [step E3; reflexivity|]. cbn.
  apply (holds_perm n C m0 _ _ m3 (perm_swap _ _ _) H3).
Qed.

Lemma drop_bin_ok : forall m0 l m t op x y, holds m0 (tbin t op x y ++ l) m ->
  exists m', drop_bin n t m = ROk m' tt /\ holds m0 l m'.
Proof.
  intros m0 l m [[a p] b] op x y H. cbn in H. unfold drop_bin.
  destruct (holds_delete n C m0 b y (IExpr a x :: IOp p (OBin n op) :: l) m) as [m1 [E1 H1]].
  { apply (holds_perm n C m0 _ _ m (Permutation_sym (Permutation_middle [IExpr a x; IOp p (OBin n op)] l (IExpr b y))) H). }
  destruct (holds_delete_op n C m0 p (OBin n op) (IExpr a x :: l) m1) as [m2 [E2 H2]].
  { apply (holds_perm n C m0 _ _ m1 (perm_swap _ _ _) H1). }
  destruct (holds_delete n C m0 a x l m2 H2) as [m3 [E3 H3]].
  exists m3. split; [|exact H3]. step E1. step E2. exact E3.
Qed.

Lemma makes_clone_bin : forall k m t op x y, wf m -> (forall i, In i (tbin t op x y) -> has k m i) ->
  makes m IExpr (clone_bin n order t) (Ok (EBin op x y)).
Proof.
  intros k m [[a p] b] op x y W H. unfold clone_bin.
  apply (makes_new_bin_like k m _ _ p (Ok x) (Ok y) op W).
  - apply (makes_clone k); [exact W|]. apply H. now left.
  - apply (makes_clone k); [exact W|]. apply H. right. right. now left.
  - apply H. right. now left.
Qed.

Lemma clone_bin_ok : forall m0 l m t op x y, holds m0 l m -> incl (tbin t op x y) l ->
  exists m' v, clone_bin n order t m = ROk m' v /\ holds m0 (IExpr v (EBin op x y) :: l) m'.
Proof.
  intros m0 l m t op x y H K. apply make_here; [exact H|].
  apply (makes_clone_bin (enough m)); [apply (holds_wf _ _ _ _ _ H)|].
  intros i I. apply (holds_has n C m0 l m i H). now apply K.
Qed.

(** *** The dot product *)

Lemma holds_base : forall k m0 l m i, wf m0 -> holds m0 l m -> has k m0 i -> has k m i.
Proof. intros k m0 l m i W H K. apply (has_grows n k m0); [exact W|now apply holds_grows in H|exact K]. Qed.

Lemma dot_loop_ok : forall k m0 ps es, wf m0 -> Forall2 (fun p e => has k m0 (IExpr p e)) ps es ->
  forall qs fs, Forall2 (fun p e => has k m0 (IExpr p e)) qs fs ->
  forall acc e l m, holds m0 (IExpr acc e :: l) m ->
  runs m0 m (dot_loop n order acc ps qs) (dot_acc n e es fs) (fun x v => IExpr v x :: l).
Proof.
  intros k m0 ps es W F. induction F as [|p x ps es Hp F IH]; intros qs fs F' acc e l m H;
    destruct F' as [|q y qs fs Hq F']; try exact I.
  - apply runs_ret. exact H.
  - cbn [dot_acc]. unfold mk_bin.
    destruct (stack_bin_ok k m0 _ m BMult p q x y H) as [m1 [t [E1 H1]]];
      [now apply (holds_base k m0 _ m _ W H)|now apply (holds_base k m0 _ m _ W H)|].
    destruct (args_here _ _ (nat * nat * nat) m0 _ m1 IExpr IExpr (clone n order acc) (clone_bin n order t) e (EBin BMult x y)
      (fun l' r' => o <- alloc (HBop BPlus); ret (l', o, r'))
      (fun m' s => holds m0 (tbin s BPlus e (EBin BMult x y) ++ tbin t BMult x y ++ IExpr acc e :: l) m') H1)
      as [m2 [s [E2 H2]]].
    { apply (makes_clone (enough m1)); [apply (holds_wf _ _ _ _ _ H1)|].
      apply (holds_has n C m0 _ m1 _ H1). apply in_or_app. right. now left. }
    { apply (makes_clone_bin (enough m1)); [apply (holds_wf _ _ _ _ _ H1)|].
      intros i Hi. apply (holds_has n C m0 _ m1 _ H1). apply in_or_app. now left. }
    { intros v w m2 H2. destruct (alloc_bop m0 _ m2 BPlus H2) as [m3 [o [E3 H3]]].
      exists m3, (v, o, w). split; [step E3; reflexivity|].
      apply (holds_perm n C m0 _ _ m3 (perm_swap _ _ _) H3). }
    destruct (clone_bin_ok m0 _ m2 s BPlus e (EBin BMult x y) H2) as [m3 [new [E3 H3]]].
    { intros i Hi. apply in_or_app. now left. }
    destruct (holds_delete n C m0 acc e
      (tbin s BPlus e (EBin BMult x y) ++ tbin t BMult x y ++ IExpr new (EBin BPlus e (EBin BMult x y)) :: l) m3)
      as [m4 [E4 H4]].
    { apply (holds_perm n C m0 _ _ m3) with (2 := H3).
      destruct s as [[s1 s2] s3], t as [[t1 t2] t3]. cbn.
      match goal with |- Permutation (?a :: ?b1 :: ?b2 :: ?b3 :: ?c1 :: ?c2 :: ?c3 :: ?d :: l) _ =>
        apply (Permutation_trans (l' := d :: a :: b1 :: b2 :: b3 :: c1 :: c2 :: c3 :: l)) end.
      - apply Permutation_sym. apply (Permutation_middle [_; _; _; _; _; _; _] l).
      - apply perm_skip. apply (Permutation_middle [_; _; _; _; _; _] l). }
    destruct (drop_bin_ok _ _ _ _ _ _ _ H4) as [m5 [E5 H5]].
    destruct (drop_bin_ok _ _ _ _ _ _ _ H5) as [m6 [E6 H6]].
    apply (runs_ext _ _ m0 m (fun _ => dot_loop n order new ps qs m6)).
    + cbn [dot_loop]. step E1. step E2. step E3. step E4. step E5. step E6. reflexivity.
    + apply (IH qs fs F' new _ l m6 H6).
Qed.

Lemma makes_dot : forall k m ps es qs fs, wf m -> Forall2 (fun p e => has k m (IExpr p e)) ps es ->
  Forall2 (fun p e => has k m (IExpr p e)) qs fs -> makes m IExpr (hdot n order ps qs) (dot n es fs).
Proof.
  intros k m ps es qs fs W F F' m1 G. pose proof (grows_wf n m m1 G) as W1.
  assert (S : holds m1 [] m1) by (apply holds_start, W1).
  unfold hdot, dot. rewrite <- (Forall2_len _ _ _ _ _ F), <- (Forall2_len _ _ _ _ _ F').
  destruct (Nat.eqb (length ps) (length qs)) eqn:L; [|exact I].
  destruct F as [|p x ps es Hp F]; [exact I|]. destruct F' as [|q y qs fs Hq F']; [exact I|].
  assert (UP : forall ps es, Forall2 (fun p e => has k m (IExpr p e)) ps es -> Forall2 (fun p e => has k m1 (IExpr p e)) ps es).
  { clear - W G. intros ps es F. induction F; constructor; [|assumption]. now apply (has_grows n k m). }
  apply (has_grows n k m m1 _ W G) in Hp. apply (has_grows n k m m1 _ W G) in Hq.
  destruct (stack_bin_ok k m1 _ m1 BMult p q x y S Hp Hq) as [m2 [t [E2 H2]]].
  destruct (clone_bin_ok m1 _ m2 t BMult x y H2) as [m3 [acc [E3 H3]]].
  { intros i Hi. apply in_or_app. now left. }
  destruct (drop_bin_ok m1 [IExpr acc (EBin BMult x y)] m3 t BMult x y) as [m4 [E4 H4]].
  { apply (holds_perm n C m1 _ _ m3) with (2 := H3). rewrite app_nil_r. apply Permutation_cons_append. }
  pose proof (dot_loop_ok k m1 ps es W1 (UP _ _ F) qs fs (UP _ _ F') acc _ [] m4 H4) as R. unfold mk_bin.
  apply (runs_ext _ _ m1 m1 (fun _ => (result <- dot_loop n order acc ps qs; c <- clone n order result; _ <- delete n result; ret c) m4)).
  { step E2. step E3. step E4. reflexivity. }
  destruct (dot_acc n (EBin BMult x y) es fs) as [e|e|]; [| |exact I].
  - destruct R as [m5 [v [E5 H5]]].
    destruct (clone_here (enough m5) m1 _ m5 v e H5) as [m6 [w [E6 H6]]].
    { apply (holds_has n C m1 _ m5 _ H5). now left. }
    destruct (holds_delete n C m1 v e [IExpr w e] m6) as [m7 [E7 H7]].
    { apply (holds_perm n C m1 _ _ m6 (perm_swap _ _ _) H6). }
    exists m7, w. split; [|exact H7]. step E5. step E6. step E7. reflexivity.
  - destruct R as [m5 [v [E5 H5]]]. exists m5, v. split; [|exact H5]. unfold mbind. now rewrite E5.
Qed.
End HeapRun.
