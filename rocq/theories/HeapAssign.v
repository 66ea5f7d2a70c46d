(** Assigning one rt_binary_expr to another. *)
From Coq Require Import ZArith NArith List Bool Arith Lia Permutation.
From Verif Require Import Outcome Num RtModel RtFacts HeapModel HeapSpec HeapFacts HeapRead HeapRun HeapOps HeapExec HeapHistory.
Import ListNotations.

Section HeapAssign.
Context (n : num) (order : nat -> bool).
Notation mem := (mem n).
Notation IExpr := (IExpr n).
Notation IOp := (IOp n).
Notation wf := (wf n).
Notation swaps := (swaps n).

(** Make a new item, then delete an old one. *)
Lemma replace_ok : forall X C m a f (I : nat -> X -> item n) c v, wf m -> makes n C m I c (Ok v) ->
  deletable n m a f -> NoDup f ->
  exists m1 b m2 f', c m = ROk m1 b /\ delete n a m1 = ROk m2 tt /\ own1 n m2 (I b v) f' /\ swaps C m f m2 f'.
Proof.
  intros X C m a f I c v W K D ND.
  destruct (make_here n C X m [] m I c v (holds_start n C m W) K) as [m1 [b [E [L [O S]]]]].
  inversion O as [|? f' ? L1 H1 O1]; subst. inversion O1; subst. rewrite app_nil_r in S. clear O O1.
  pose proof (swaps_grows n C m m1 f' S) as G. pose proof (grows_wf n m m1 G) as W1.
  assert (B : forall x, In x f -> x < next m).
  { intros x Y. apply (wf_alive n m x W). destruct D as [[e H]|[o H]];
      [apply (own1_alive n m (IExpr a e) f H x Y)|apply (own1_alive n m (IOp a o) f H x Y)]. }
  pose proof (swaps_with n C m m1 f' f W S ND B) as S'.
  assert (D1 : deletable n m1 a f).
  { destruct D as [[e H]|[o H]]; [left; exists e; apply (grows_own1 n m m1 (IExpr a e) f W G H)|
      right; exists o; apply (grows_own1 n m m1 (IOp a o) f W G H)]. }
  destruct (delete_ok n m1 a f W1 D1 ND) as [m2 [E2 Wi]].
  pose proof (nodup_swaps n C m f m1 (f ++ f') S') as ND'.
  exists m1, b, m2, f'. split; [exact E|]. split; [exact E2|]. split.
  - apply (wiped_own1 n m1 m2 f (I b v) f' Wi H1). intros x Y Z. apply (nodup_app_disjoint _ f f' x ND' Z Y).
  - apply (swaps_trans n C m f m1 (f ++ f')); [exact S'|]. now apply wiped_swaps.
Qed.

Lemma bin_at_ok : forall (m : mem) a l p r, at_ m a = Some (HBin l p r) -> bin_at n a m = ROk m (l, p, r).
Proof. intros m a l p r E. unfold bin_at, reading, load. rewrite E. reflexivity. Qed.

(** After such a step whatever is disjoint from the deleted nodes is still there. *)
Lemma swaps_keeps : forall C m f m' f' i q, wf m -> swaps C m f m' f' -> own1 n m i q -> (forall x, In x q -> ~ In x f) ->
  own1 n m' i q /\ (forall x, In x q -> ~ In x f').
Proof.
  intros C m f m' f' i q W [S1 [S2 [S3 [S4 [S5 _]]]]] O D.
  assert (B : forall x, In x q -> x < next m).
  { intros x Y. apply (wf_alive n m x W). apply (own1_alive n m i q O x Y). }
  split.
  - apply (own1_frame n m m' i q O). intros x Y. apply S4; auto.
  - intros x Y Z. apply S5 in Z as [Z|Z]; [now apply (D x)|]. apply B in Y. lia.
Qed.

Lemma swaps_left : forall C m f m' g g', Permutation f g -> swaps C m f m' g' -> swaps C m g m' g'.
Proof.
  intros C m f m' g g' P [Z1 [Z2 [Z3 [Z4 [Z5 Z6]]]]]. split; [exact Z1|]. split; [exact Z2|]. split; [exact Z3|]. split; [|split].
  - intros q Q N. apply Z4; [exact Q|]. intros I. apply N. now apply (Permutation_in q P).
  - intros q Q. apply Z5 in Q as [Q|Q]; [left; now apply (Permutation_in q P)|now right].
  - intros c q Q. destruct (Z6 c q Q) as [I|[I J]]; [now left|right]. split; [exact I|].
    intros K. apply J. now apply (Permutation_in q (Permutation_sym P)).
Qed.

Lemma disjoint_l : forall (f g : list nat), NoDup (f ++ g) -> forall x, In x g -> ~ In x f.
Proof. intros f g ND x Y Z. apply (nodup_app_disjoint _ f g x ND Z Y). Qed.

Lemma assign_bin_ok : forall C m l p r op x y f g h other op' x' y' q, wf m ->
  owns n m l x f -> owns_op n m p (OBin n op) g -> owns n m r y h -> owns n m other (EBin op' x' y') q ->
  NoDup (f ++ g ++ h ++ q) ->
  exists m' l' p' r' f' g' h', assign_bin n order (l, p, r) other m = ROk m' (l', p', r') /\
    owns n m' l' x' f' /\ owns_op n m' p' (OBin n op') g' /\ owns n m' r' y' h' /\
    owns n m' other (EBin op' x' y') q /\ swaps C m (f ++ g ++ h) m' (f' ++ g' ++ h').
Proof.
  intros C m l p r op x y f g h other op' x' y' q W Ol Op Or Oo ND.
  pose proof (nodup_app_l _ _ _ ND) as NDf. pose proof (nodup_app_r _ _ _ ND) as ND2.
  pose proof (nodup_app_l _ _ _ ND2) as NDg. pose proof (nodup_app_r _ _ _ ND2) as ND3.
  pose proof (nodup_app_l _ _ _ ND3) as NDh. pose proof (nodup_app_r _ _ _ ND3) as NDq.
  assert (B : forall m1, wf m1 -> forall i z, own1 n m1 i z -> forall a, In a z -> a < next m1).
  { intros m1 W1 i z O a A. apply (wf_alive n m1 a W1). apply (own1_alive n m1 i z O a A). }
  assert (HAS : forall m1, owns n m1 other (EBin op' x' y') q -> exists l2 p2 r2, at_ m1 other = Some (HBin l2 p2 r2) /\
     has n (length q) m1 (IExpr l2 x') /\ has n (length q) m1 (IOp p2 (OBin n op')) /\ has n (length q) m1 (IExpr r2 y')).
  { intros m1 O. apply (has_expr_inv n (length q) m1 other (EBin op' x' y')). exists q. split; [exact O|]. split; [exact NDq|lia]. }
  (* left operand *)
  destruct (HAS m Oo) as [l2 [p2 [r2 [E0 [Hl _]]]]].
  destruct (replace_ok _ C m l f IExpr (clone n order l2) x' W (makes_clone n order C (length q) m l2 x' W Hl)) as [m1 [l' [m2 [f' [E1 [E2 [Ol' S1]]]]]]];
    [left; exists x; exact Ol|exact NDf|].
  pose proof (wf_swaps n _ _ _ _ _ S1) as W2.
  destruct (swaps_keeps C m f m2 f' (IOp p (OBin n op)) g W S1 Op) as [Op2 Dg].
  { intros a A. apply (disjoint_l f (g ++ h ++ q) ND). apply in_or_app; now left. }
  destruct (swaps_keeps C m f m2 f' (IExpr r y) h W S1 Or) as [Or2 Dh].
  { intros a A. apply (disjoint_l f (g ++ h ++ q) ND). apply in_or_app; right. apply in_or_app; now left. }
  destruct (swaps_keeps C m f m2 f' (IExpr other (EBin op' x' y')) q W S1 Oo) as [Oo2 Dq].
  { intros a A. apply (disjoint_l f (g ++ h ++ q) ND). apply in_or_app; right. apply in_or_app; now right. }
  pose proof (nodup_swaps n _ _ _ _ _ S1) as NDf'.
  (* operation *)
  destruct (HAS m2 Oo2) as [l3 [p3 [r3 [E3 [_ [Hp _]]]]]].
  destruct (replace_ok _ C m2 p g IOp (clone_op n order p3) (OBin n op') W2 (makes_clone_op n order C (length q) m2 p3 (OBin n op') W2 Hp)) as [m3 [p' [m4 [g' [E4 [E5 [Op' S2]]]]]]];
    [right; exists (OBin n op); exact Op2|exact NDg|].
  pose proof (wf_swaps n _ _ _ _ _ S2) as W4.
  destruct (swaps_keeps C m2 g m4 g' (IExpr l' x') f' W2 S2 Ol') as [Ol4 Df'].
  { intros a A Z. now apply (Dg a). }
  destruct (swaps_keeps C m2 g m4 g' (IExpr r y) h W2 S2 Or2) as [Or4 Dh'].
  { intros a A. apply (disjoint_l g (h ++ q) ND2). apply in_or_app; now left. }
  destruct (swaps_keeps C m2 g m4 g' (IExpr other (EBin op' x' y')) q W2 S2 Oo2) as [Oo4 Dq'].
  { intros a A. apply (disjoint_l g (h ++ q) ND2). apply in_or_app; now right. }
  pose proof (nodup_swaps n _ _ _ _ _ S2) as NDg'.
  (* right operand *)
  destruct (HAS m4 Oo4) as [l5 [p5 [r5 [E6 [_ [_ Hr]]]]]].
  destruct (replace_ok _ C m4 r h IExpr (clone n order r5) y' W4 (makes_clone n order C (length q) m4 r5 y' W4 Hr)) as [m5 [r' [m6 [h' [E7 [E8 [Or' S3]]]]]]];
    [left; exists y; exact Or4|exact NDh|].
  destruct (swaps_keeps C m4 h m6 h' (IExpr l' x') f' W4 S3 Ol4) as [Ol6 Df''].
  { intros a A Z. now apply (Dh a). }
  destruct (swaps_keeps C m4 h m6 h' (IOp p' (OBin n op')) g' W4 S3 Op') as [Op6 Dg''].
  { intros a A Z. now apply (Dh' a). }
  destruct (swaps_keeps C m4 h m6 h' (IExpr other (EBin op' x' y')) q W4 S3 Oo4) as [Oo6 _].
  { intros a A. now apply (disjoint_l h q ND3). }
  exists m6, l', p', r', f', g', h'. split; [|split; [exact Ol6|split; [exact Op6|split; [exact Or'|split; [exact Oo6|]]]]].
  - unfold assign_bin.
    rewrite (mbind_ok n _ _ _ _ _ (bin_at_ok m other l2 p2 r2 E0)). cbn [fst snd].
    rewrite (mbind_ok n _ _ _ _ _ E1), (mbind_ok n _ _ _ _ _ E2).
    rewrite (mbind_ok n _ _ _ _ _ (bin_at_ok m2 other l3 p3 r3 E3)). cbn [fst snd].
    rewrite (mbind_ok n _ _ _ _ _ E4), (mbind_ok n _ _ _ _ _ E5).
    rewrite (mbind_ok n _ _ _ _ _ (bin_at_ok m4 other l5 p5 r5 E6)). cbn [fst snd].
    rewrite (mbind_ok n _ _ _ _ _ E7), (mbind_ok n _ _ _ _ _ E8). reflexivity.
  - apply (swaps_trans n C m (f ++ g ++ h) m2 (f' ++ g ++ h)).
    { apply swaps_frame; [exact S1| | |].
      - rewrite app_assoc in ND2. apply (nodup_app_l _ _ _ ND2).
      - intros a A. apply in_app_or in A as [A|A]; [apply (B m W (IOp p (OBin n op)) g Op a A)|apply (B m W (IExpr r y) h Or a A)].
      - intros a A. apply (disjoint_l f (g ++ h ++ q) ND). rewrite app_assoc. apply in_or_app; now left. }
    apply (swaps_trans n C m2 (f' ++ g ++ h) m4 (f' ++ g' ++ h)).
    { apply (swaps_left C m2 (g ++ (f' ++ h))); [rewrite !app_assoc; apply Permutation_app_tail, Permutation_app_comm|].
      apply (swaps_perm n C m2 _ m4 (g' ++ (f' ++ h))); [rewrite !app_assoc; apply Permutation_app_tail, Permutation_app_comm|].
      apply swaps_frame; [exact S2| | |].
      - apply nodup_app; [exact NDf'|exact NDh|]. intros a A Z. now apply (Dh a).
      - intros a A. apply in_app_or in A as [A|A]; [apply (B m2 W2 (IExpr l' x') f' Ol' a A)|apply (B m2 W2 (IExpr r y) h Or2 a A)].
      - intros a A Z. apply in_app_or in A as [A|A]; [now apply (Dg a)|].
        apply (disjoint_l g (h ++ q) ND2 a); [apply in_or_app; now left|exact Z]. }
    { apply (swaps_left C m4 (h ++ (f' ++ g'))); [rewrite (app_assoc f' g' h); apply Permutation_app_comm|].
      apply (swaps_perm n C m4 _ m6 (h' ++ (f' ++ g'))); [rewrite (app_assoc f' g' h'); apply Permutation_app_comm|].
      apply swaps_frame; [exact S3| | |].
      - apply nodup_app; [exact NDf'|exact NDg'|]. intros a A Z. now apply (Df' a A).
      - intros a A. apply in_app_or in A as [A|A]; [apply (B m4 W4 (IExpr l' x') f' Ol4 a A)|apply (B m4 W4 (IOp p' (OBin n op')) g' Op' a A)].
      - intros a A Z. apply in_app_or in A as [A|A]; [now apply (Dh a)|now apply (Dh' a)]. }
Qed.

(** Assigning to a binary expression its own left operand reads that operand after it was deleted. *)
Lemma assign_bin_left : forall (m : mem) l p r op' x' y' f, wf m ->
  owns n m l (EBin op' x' y') f -> NoDup f -> assign_bin n order (l, p, r) l m = RUB.
Proof.
  intros m l p r op' x' y' f W O ND.
  assert (H : has n (S (length f)) m (IExpr l (EBin op' x' y'))) by (exists f; split; [exact O|split; [exact ND|lia]]).
  destruct (has_expr_inv n (length f) m l (EBin op' x' y') H) as [l2 [p2 [r2 [E0 [Hl _]]]]].
  destruct (make_here n False _ m [] m IExpr (clone n order l2) x' (holds_start n False m W) (makes_clone n order False (length f) m l2 x' W Hl))
    as [m1 [b [E1 [L [_ S]]]]].
  pose proof (swaps_grows n False m m1 L S) as G. pose proof (grows_wf n m m1 G) as W1.
  destruct (delete_ok n m1 l f W1) as [m2 [E2 Wi]]; [left; exists (EBin op' x' y'); apply (grows_own1 n m m1 (IExpr l (EBin op' x' y')) f W G O)|exact ND|].
  unfold assign_bin. rewrite (mbind_ok n _ _ _ _ _ (bin_at_ok m l l2 p2 r2 E0)). cbn [fst snd].
  rewrite (mbind_ok n _ _ _ _ _ E1), (mbind_ok n _ _ _ _ _ E2).
  assert (Z : at_ m2 l = None). { destruct Wi as [_ [Wi _]]. apply Wi. inversion O; subst; now left. }
  assert (U : bin_at n l m2 = RUB) by (unfold bin_at, reading, load; rewrite Z; reflexivity).
  unfold mbind at 1. rewrite U. reflexivity.
Qed.

(** Deleting a tree twice. *)
Lemma destroy_twice : forall (m : mem) f e fp, wf m -> holds_value n m f (Some e) fp -> NoDup fp ->
  mbind (pointer n f) (fun p => mbind (destroy n (from_pointer p)) (fun _ => destroy n f)) m = RUB.
Proof.
  intros m [a|] e fp W H ND; [|contradiction].
  destruct (delete_ok n m a fp W) as [m2 [E Wi]]; [left; exists e; exact H|exact ND|].
  assert (Z : at_ m2 a = None). { destruct Wi as [_ [Wi _]]. apply Wi. inversion H; subst; now left. }
  cbn [pointer deref]. unfold mbind at 1. cbn [ret]. unfold from_pointer, destroy, mbind. unfold delete in E |- *. cbn [ret]. rewrite E.
  unfold enough. destruct (next m2); cbn [delete_f]; unfold mbind, reading, load; rewrite Z; reflexivity.
Qed.
End HeapAssign.
