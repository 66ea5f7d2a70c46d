(** A small program logic for HeapModel.v: which nodes are owned by what, before and after. *)
From Coq Require Import ZArith NArith List Bool Arith Lia Permutation.
From Verif Require Import Outcome Num RtModel RtFacts HeapModel HeapSpec.
Import ListNotations.

Section HeapFacts.
Context (n : num).
Notation mem := (mem n).
Notation expr := (expr n).
Notation owns := (owns n).
Notation owns_op := (owns_op n).
Notation owns_list := (owns_list n).

Scheme owns_mut := Minimality for HeapSpec.owns Sort Prop
  with owns_op_mut := Minimality for HeapSpec.owns_op Sort Prop
  with owns_list_mut := Minimality for HeapSpec.owns_list Sort Prop.
Combined Scheme owns_all from owns_mut, owns_op_mut, owns_list_mut.

(** ** Frame *)

Lemma owns_frame_all : forall m m',
  (forall a e fp, owns m a e fp -> (forall x, In x fp -> at_ m' x = at_ m x) -> owns m' a e fp) /\
  (forall a e fp, owns_op m a e fp -> (forall x, In x fp -> at_ m' x = at_ m x) -> owns_op m' a e fp) /\
  (forall a e fp, owns_list m a e fp -> (forall x, In x fp -> at_ m' x = at_ m x) -> owns_list m' a e fp).
Proof.
  intros m m'. apply owns_all.
  - intros a c E F. constructor. rewrite F; [exact E|now left].
  - intros a c E F. constructor. rewrite F; [exact E|now left].
  - intros a c t E F. constructor. rewrite F; [exact E|now left].
  - intros a q p op e f g E _ IH _ IHo F. econstructor.
    + rewrite F; [exact E|now left].
    + apply IH. intros x X. apply F. right. apply in_or_app. now left.
    + apply IHo. intros x X. apply F. right. apply in_or_app. now right.
  - intros a q p lo hi v e f g E _ IH _ IHo F. econstructor.
    + rewrite F; [exact E|now left].
    + apply IH. intros x X. apply F. right. apply in_or_app. now left.
    + apply IHo. intros x X. apply F. right. apply in_or_app. now right.
  - intros a l p r op x y f g h E _ IHl _ IHo _ IHr F. econstructor.
    + rewrite F; [exact E|now left].
    + apply IHl. intros z Z. apply F. right. apply in_or_app. now left.
    + apply IHo. intros z Z. apply F. right. apply in_or_app. right. apply in_or_app. now left.
    + apply IHr. intros z Z. apply F. right. apply in_or_app. right. apply in_or_app. now right.
  - intros a ps es f E _ IH F. econstructor.
    + rewrite F; [exact E|now left].
    + apply IH. intros z Z. apply F. now right.
  - intros p op E F. constructor. rewrite F; [exact E|now left].
  - intros p op E F. constructor. rewrite F; [exact E|now left].
  - intros p lo hi v x y f g E _ IHl _ IHr F. econstructor.
    + rewrite F; [exact E|now left].
    + apply IHl. intros z Z. apply F. right. apply in_or_app. now left.
    + apply IHr. intros z Z. apply F. right. apply in_or_app. now right.
  - intros _. constructor.
  - intros p e f ps es g _ IH _ IHl F. constructor.
    + apply IH. intros z Z. apply F. apply in_or_app. now left.
    + apply IHl. intros z Z. apply F. apply in_or_app. now right.
Qed.

Ltac tac_in := repeat (match goal with
  | H : In _ (_ :: _) |- _ => destruct H as [H|H]
  | H : In _ (_ ++ _) |- _ => apply in_app_or in H as [H|H]
  | H : In _ [] |- _ => destruct H
  end).

Lemma owns_alive_all : forall m,
  (forall a e fp, owns m a e fp -> forall x, In x fp -> at_ m x <> None) /\
  (forall a e fp, owns_op m a e fp -> forall x, In x fp -> at_ m x <> None) /\
  (forall a e fp, owns_list m a e fp -> forall x, In x fp -> at_ m x <> None).
Proof. intros m. apply owns_all; intros; tac_in; subst; eauto; congruence. Qed.

(** ** Items: things owned by the current computation *)

Inductive item : Type :=
| IExpr (a : nat) (e : expr)
| IOp (p : nat) (o : opval n)
| IList (ps : list nat) (es : list expr)
| ISlot (s : slot) (v : option expr).

Definition own1 (m : mem) (i : item) (fp : list nat) : Prop :=
  match i with
  | IExpr a e => owns m a e fp
  | IOp p o => owns_op m p o fp
  | IList ps es => owns_list m ps es fp
  | ISlot s v => holds_value n m s v fp
  end.

Lemma own1_frame : forall m m' i fp, own1 m i fp ->
  (forall x, In x fp -> at_ m' x = at_ m x) -> own1 m' i fp.
Proof.
  intros m m' i fp. destruct (owns_frame_all m m') as [A [B C]].
  destruct i as [a e|p o|ps es|[a|] [e|]]; cbn; intros H F; auto; try contradiction.
Qed.

Lemma own1_alive : forall m i fp, own1 m i fp -> forall x, In x fp -> at_ m x <> None.
Proof.
  intros m i fp. destruct (owns_alive_all m) as [A [B C]].
  destruct i as [a e|p o|ps es|[a|] [e|]]; cbn; intros H x X; eauto; try contradiction.
  subst. destruct X.
Qed.

Inductive owned (m : mem) : list item -> list nat -> Prop :=
| owned_nil : owned m [] []
| owned_cons i fp l L : own1 m i fp -> owned m l L -> owned m (i :: l) (fp ++ L).

Lemma owned_frame : forall m m' l L, owned m l L ->
  (forall x, In x L -> at_ m' x = at_ m x) -> owned m' l L.
Proof.
  intros m m' l L O. induction O as [|i fp l L H O IH]; intros F; constructor.
  - apply (own1_frame m); [exact H|]. intros x X. apply F. apply in_or_app. now left.
  - apply IH. intros x X. apply F. apply in_or_app. now right.
Qed.

Lemma owned_alive : forall m l L, owned m l L -> forall x, In x L -> at_ m x <> None.
Proof.
  intros m l L O. induction O as [|i fp l L H O IH]; intros x X; [destruct X|].
  apply in_app_or in X as [X|X]; [apply (own1_alive m i fp H x X)|apply IH, X].
Qed.

Lemma owned_app : forall m l1 L1 l2 L2, owned m l1 L1 -> owned m l2 L2 -> owned m (l1 ++ l2) (L1 ++ L2).
Proof.
  intros m l1 L1 l2 L2 O1 O2. induction O1 as [|i fp l L H O IH]; cbn; [exact O2|].
  rewrite <- app_assoc. constructor; assumption.
Qed.

Lemma owned_perm : forall m l l', Permutation l l' -> forall L, owned m l L ->
  exists L', owned m l' L' /\ Permutation L L'.
Proof.
  intros m l l' P. induction P as [|i l l' P IH|i j l|l1 l2 l3 P1 IH1 P2 IH2]; intros L O.
  - exists L. split; [exact O|apply Permutation_refl].
  - inversion O as [|? fp ? L1 H O1]; subst. destruct (IH L1 O1) as [L' [O' P']].
    exists (fp ++ L'). split; [constructor; assumption|]. now apply Permutation_app_head.
  - inversion O as [|? fp ? L1 H O1]; subst. inversion O1 as [|? fp' ? L2 H' O2]; subst.
    exists (fp' ++ fp ++ L2). split; [constructor; [assumption|constructor; assumption]|].
    rewrite !app_assoc. apply Permutation_app_tail, Permutation_app_comm.
  - destruct (IH1 L O) as [L1 [O1 Q1]]. destruct (IH2 L1 O1) as [L2 [O2 Q2]].
    exists L2. split; [exact O2|]. now apply (Permutation_trans Q1).
Qed.

(** ** Lists without repetitions *)

Lemma nodup_app_l : forall (A : Type) (l l' : list A), NoDup (l ++ l') -> NoDup l.
Proof. intros A l l' H. induction l as [|a l IH]; [constructor|]. inversion H; subst. constructor; [|auto]. intros X. apply H2. apply in_or_app. now left. Qed.

Lemma nodup_app_r : forall (A : Type) (l l' : list A), NoDup (l ++ l') -> NoDup l'.
Proof. intros A l l' H. induction l as [|a l IH]; [exact H|]. inversion H; subst. auto. Qed.

Lemma nodup_app_disjoint : forall (A : Type) (l l' : list A) x, NoDup (l ++ l') -> In x l -> In x l' -> False.
Proof.
  intros A l l' x H X Y. induction l as [|a l IH]; [destruct X|]. inversion H; subst.
  destruct X as [X|X]; [|auto]. subst. apply H2. apply in_or_app. now right.
Qed.

Lemma nodup_app : forall (A : Type) (l l' : list A), NoDup l -> NoDup l' ->
  (forall x, In x l -> In x l' -> False) -> NoDup (l ++ l').
Proof.
  intros A l l' H H' D. induction H as [|a l N H IH]; [exact H'|]. cbn. constructor.
  - intros X. apply in_app_or in X as [X|X]; [auto|]. apply (D a); [now left|exact X].
  - apply IH. intros x X. apply D. now right.
Qed.

Lemma bounded_length : forall (fp : list nat) b, NoDup fp -> (forall a, In a fp -> a < b) -> length fp <= b.
Proof.
  intros fp b ND B. rewrite <- (seq_length b 0). apply NoDup_incl_length; [exact ND|].
  intros a A. apply in_seq. split; [lia|]. apply B in A. lia.
Qed.

(** ** Growth of the heap *)

Definition wf (m : mem) : Prop := forall a, next m <= a -> at_ m a = None.
Definition grows (m m' : mem) : Prop :=
  next m <= next m' /\ (forall a, a < next m -> at_ m' a = at_ m a) /\ wf m'.

Lemma grows_refl : forall m, wf m -> grows m m.
Proof. intros m W. split; [lia|]. split; [reflexivity|exact W]. Qed.

Lemma grows_wf : forall m m', grows m m' -> wf m'.
Proof. now intros m m' [_ [_ W]]. Qed.

Lemma grows_trans : forall m1 m2 m3, grows m1 m2 -> grows m2 m3 -> grows m1 m3.
Proof.
  intros m1 m2 m3 [A [B _]] [C [D W]]. split; [lia|]. split; [|exact W].
  intros a L. rewrite D by lia. apply B, L.
Qed.

Lemma wf_alive : forall (m : mem) a, wf m -> at_ m a <> None -> a < next m.
Proof.
  intros m a W H. destruct (le_lt_dec (next m) a) as [L|L]; [|exact L]. elim H. apply W, L.
Qed.

Lemma grows_own1 : forall m m' i fp, wf m -> grows m m' -> own1 m i fp -> own1 m' i fp.
Proof.
  intros m m' i fp W [A [B _]] O. apply (own1_frame m); [exact O|]. intros x X. apply B.
  apply wf_alive; [exact W|]. apply (own1_alive m i fp O x X).
Qed.

Lemma own1_length : forall m i fp, wf m -> own1 m i fp -> NoDup fp -> length fp <= next m.
Proof.
  intros m i fp W O ND. apply bounded_length; [exact ND|]. intros a A.
  apply wf_alive; [exact W|]. apply (own1_alive m i fp O a A).
Qed.

(** [swaps C m fp m' fp']: between [m] and [m'] the nodes [fp] were replaced by the nodes [fp'], and
    all others were left alone; if [C] nothing else is left behind. *)
Definition swaps (C : Prop) (m : mem) (fp : list nat) (m' : mem) (fp' : list nat) : Prop :=
  next m <= next m' /\ wf m' /\ NoDup fp' /\
  (forall b, b < next m -> ~ In b fp -> at_ m' b = at_ m b) /\
  (forall b, In b fp' -> In b fp \/ next m <= b) /\
  (C -> forall b, at_ m' b <> None -> In b fp' \/ (b < next m /\ ~ In b fp)).

Lemma swaps_refl : forall C m fp, wf m -> NoDup fp -> swaps C m fp m fp.
Proof.
  intros C m fp W ND. repeat split; auto. intros _ b B. destruct (in_dec Nat.eq_dec b fp); [now left|].
  right. split; [|assumption]. now apply wf_alive.
Qed.

Lemma swaps_trans : forall C m fp m1 fp1 m2 fp2, swaps C m fp m1 fp1 -> swaps C m1 fp1 m2 fp2 ->
  swaps C m fp m2 fp2.
Proof.
  intros C m fp m1 fp1 m2 fp2 [A1 [A2 [A3 [A4 [A5 A6]]]]] [B1 [B2 [B3 [B4 [B5 B6]]]]].
  repeat split; auto; try lia.
  - intros b L N. rewrite B4; [apply A4; assumption|lia|]. intros X. apply A5 in X as [X|X]; [tauto|lia].
  - intros b X. apply B5 in X as [X|X]; [|right; lia]. apply A5 in X. exact X.
  - intros c b X. destruct (B6 c b X) as [Y|[Y1 Y2]]; [now left|].
    rewrite B4 in X by assumption. destruct (A6 c b X) as [Z|Z]; [contradiction|now right].
Qed.

Lemma swaps_perm : forall C m fp m' L L', Permutation L L' -> swaps C m fp m' L -> swaps C m fp m' L'.
Proof.
  intros C m fp m' L L' P [A1 [A2 [A3 [A4 [A5 A6]]]]]. repeat split; auto.
  - now apply (Permutation_NoDup P).
  - intros b X. apply A5. now apply (Permutation_in b (Permutation_sym P)).
  - intros c b X. destruct (A6 c b X) as [Y|Y]; [left|now right]. now apply (Permutation_in b P).
Qed.

(** Other nodes in between stay. *)
Lemma swaps_frame : forall C m fp m' fp' L, swaps C m fp m' fp' -> NoDup L ->
  (forall x, In x L -> x < next m) -> (forall x, In x L -> ~ In x fp) ->
  swaps C m (fp ++ L) m' (fp' ++ L).
Proof.
  intros C m fp m' fp' L [A1 [A2 [A3 [A4 [A5 A6]]]]] ND B D. repeat split; auto.
  - apply nodup_app; auto. intros x X Y. apply A5 in X as [X|X]; [now apply (D x)|]. apply B in Y. lia.
  - intros b X N. apply A4; [exact X|]. intros Y. apply N, in_or_app. now left.
  - intros b X. apply in_app_or in X as [X|X].
    + apply A5 in X as [X|X]; [|now right]. left. apply in_or_app. now left.
    + left. apply in_or_app. now right.
  - intros c b X. destruct (A6 c b X) as [Y|[Y1 Y2]]; [left; apply in_or_app; now left|].
    destruct (in_dec Nat.eq_dec b L) as [Z|Z]; [left; apply in_or_app; now right|]. right.
    split; [exact Y1|]. intros W. apply in_app_or in W as [W|W]; contradiction.
Qed.

Lemma swaps_grows : forall C m m' fp, swaps C m [] m' fp -> grows m m'.
Proof. intros C m m' fp [A1 [A2 [_ [A4 _]]]]. split; [exact A1|]. split; [|exact A2]. intros a L. apply A4; auto. Qed.

Lemma grows_swaps : forall m m', grows m m' -> swaps False m [] m' [].
Proof. intros m m' [A [B W]]. repeat split; auto; try constructor; try contradiction. Qed.

Lemma swaps_weaken : forall (C C' : Prop) m fp m' fp', (C' -> C) -> swaps C m fp m' fp' -> swaps C' m fp m' fp'.
Proof. intros C C' m fp m' fp' H [A1 [A2 [A3 [A4 [A5 A6]]]]]. repeat split; auto. Qed.

(** [holds C m0 l m]: since [m0] the heap has only grown; the nodes allocated since then include
    those of the items [l], which do not overlap, and if [C] there are no others. *)
Definition holds (C : Prop) (m0 : mem) (l : list item) (m : mem) : Prop :=
  exists L, owned m l L /\ swaps C m0 [] m L.

Lemma holds_start : forall C m, wf m -> holds C m [] m.
Proof. intros C m W. exists []. split; [constructor|]. apply swaps_refl; [exact W|constructor]. Qed.

Lemma holds_perm : forall C m0 l l' m, Permutation l l' -> holds C m0 l m -> holds C m0 l' m.
Proof.
  intros C m0 l l' m P [L [O S]]. destruct (owned_perm m l l' P L O) as [L' [O' P']].
  exists L'. split; [exact O'|]. now apply (swaps_perm C m0 [] m L).
Qed.

Lemma holds_grows : forall C m0 l m, holds C m0 l m -> grows m0 m.
Proof. intros C m0 l m [L [_ S]]. now apply swaps_grows in S. Qed.

Lemma holds_wf : forall C m0 l m, holds C m0 l m -> wf m.
Proof. intros C m0 l m H. apply holds_grows in H. apply (grows_wf _ _ H). Qed.

Lemma holds_frame : forall C m0 l m l' m', holds C m0 l m -> holds C m l' m' -> holds C m0 (l' ++ l) m'.
Proof.
  intros C m0 l m l' m' [L [O S]] [L' [O' S']].
  assert (W : wf m) by (destruct S as [_ [W _]]; exact W).
  assert (B : forall x, In x L -> x < next m).
  { intros x X. apply wf_alive; [exact W|]. apply (owned_alive m l L O x X). }
  exists (L' ++ L). split.
  - apply owned_app; [exact O'|]. apply (owned_frame m); [exact O|].
    intros x X. apply swaps_grows in S'. apply S', B, X.
  - apply (swaps_trans C m0 [] m L); [exact S|].
    change L with ([] ++ L) at 1. apply swaps_frame; [exact S'| |exact B|auto].
    destruct S as [_ [_ [ND _]]]. exact ND.
Qed.

Lemma holds_forget : forall C m0 i l m, ~ C -> holds C m0 (i :: l) m -> holds C m0 l m.
Proof.
  intros C m0 i l m N [L [O [A1 [A2 [A3 [A4 [A5 A6]]]]]]]. inversion O as [|? fp ? L1 H1 O1]; subst.
  exists L1. split; [exact O1|]. repeat split; auto.
  - apply (nodup_app_r _ _ _ A3).
  - intros b X. apply A5, in_or_app. now right.
  - contradiction.
Qed.

(** ** Read access *)

(** The nodes of [i] are all there, unshared, and fewer than [k]. *)
Definition has (k : nat) (m : mem) (i : item) : Prop :=
  exists fp, own1 m i fp /\ NoDup fp /\ length fp < k.

Lemma has_le : forall k k' m i, has k m i -> k <= k' -> has k' m i.
Proof. intros k k' m i [fp [A [B L]]] H. exists fp. repeat split; auto. lia. Qed.

Lemma has_grows : forall k m m' i, wf m -> grows m m' -> has k m i -> has k m' i.
Proof. intros k m m' i W G [fp [A [B L]]]. exists fp. repeat split; auto. now apply (grows_own1 m). Qed.

Lemma has_enough : forall k m i, wf m -> has k m i -> has (enough m) m i.
Proof.
  intros k m i W [fp [A [B L]]]. exists fp. repeat split; auto. unfold enough.
  pose proof (own1_length m i fp W A B). lia.
Qed.

Lemma holds_has : forall C m0 l m i, holds C m0 l m -> In i l -> has (enough m) m i.
Proof.
  intros C m0 l m i H I. pose proof (holds_wf _ _ _ _ H) as W.
  destruct H as [L [O [_ [_ [ND _]]]]]. revert L O ND.
  induction l as [|j l IH]; [destruct I|]; intros L O ND.
  inversion O as [|? fp ? L1 H1 O1]; subst. destruct I as [I|I].
  - subst. pose proof (nodup_app_l _ _ _ ND). apply (has_enough (S (length fp))); [exact W|].
    exists fp. repeat split; auto.
  - apply (IH I L1 O1). apply (nodup_app_r _ _ _ ND).
Qed.

Lemma has_expr_inv : forall k m a e, has (S k) m (IExpr a e) ->
  match e with
  | EConst c => at_ m a = Some (HConst c)
  | EVar i => at_ m a = Some (HVar i)
  | EFun i t => at_ m a = Some (HFun i t)
  | EUn op x => exists q p, at_ m a = Some (HUn q p) /\ has k m (IExpr q x) /\ has k m (IOp p (OUn n op))
  | EInt lo hi v x => exists q p, at_ m a = Some (HUn q p) /\ has k m (IExpr q x) /\ has k m (IOp p (OInt n lo hi v))
  | EBin op x y => exists l p r, at_ m a = Some (HBin l p r) /\
      has k m (IExpr l x) /\ has k m (IOp p (OBin n op)) /\ has k m (IExpr r y)
  | EVec es => exists ps, at_ m a = Some (HVec ps) /\ has k m (IList ps es)
  end.
Proof.
  intros k m a e [fp [O [ND L]]]. cbn in O.
  inversion O as [|? ? E|? ? ? E|? q p op x f g E Ox Oo|? q p lo hi v x f g E Ox Oo|? l p r op x y f g h E Ol Oo Or|? ps es f E Ol];
    subst; auto; inversion ND as [|? ? _ ND']; subst; cbn in L; rewrite ?app_length in L.
  - exists q, p. split; [exact E|]. split.
    + exists f. split; [exact Ox|]. split; [apply (nodup_app_l _ _ _ ND')|lia].
    + exists g. split; [exact Oo|]. split; [apply (nodup_app_r _ _ _ ND')|lia].
  - exists q, p. split; [exact E|]. split.
    + exists f. split; [exact Ox|]. split; [apply (nodup_app_l _ _ _ ND')|lia].
    + exists g. split; [exact Oo|]. split; [apply (nodup_app_r _ _ _ ND')|lia].
  - exists l, p, r. split; [exact E|]. split; [|split].
    + exists f. split; [exact Ol|]. split; [apply (nodup_app_l _ _ _ ND')|lia].
    + exists g. split; [exact Oo|]. split; [apply (nodup_app_l _ g h), (nodup_app_r _ _ _ ND')|lia].
    + exists h. split; [exact Or|]. split; [apply (nodup_app_r _ g h), (nodup_app_r _ _ _ ND')|lia].
  - exists ps. split; [exact E|]. exists f. split; [exact Ol|]. split; [exact ND'|lia].
Qed.

Lemma has_op_inv : forall k m p o, has k m (IOp p o) ->
  match o with
  | OUn _ op => at_ m p = Some (HUop op)
  | OBin _ op => at_ m p = Some (HBop op)
  | OInt _ x y v => exists lo hi, at_ m p = Some (HIntegral lo hi v) /\ has k m (IExpr lo x) /\ has k m (IExpr hi y)
  end.
Proof.
  intros k m p o [fp [O [ND L]]]. cbn in O.
  inversion O as [| |? lo hi v x y f g E Ox Oy]; subst; auto. inversion ND as [|? ? _ ND']; subst. cbn in L.
  rewrite app_length in L. exists lo, hi. split; [exact E|]. split.
  - exists f. split; [exact Ox|]. split; [apply (nodup_app_l _ _ _ ND')|lia].
  - exists g. split; [exact Oy|]. split; [apply (nodup_app_r _ _ _ ND')|lia].
Qed.

Lemma has_list_inv : forall k m ps es, has k m (IList ps es) ->
  Forall2 (fun p e => has k m (IExpr p e)) ps es.
Proof.
  intros k m ps. induction ps as [|p ps IH]; intros es [fp [O [ND L]]]; cbn in O; inversion O; subst; constructor.
  - rewrite app_length in L. exists f. split; [assumption|]. split; [apply (nodup_app_l _ _ _ ND)|lia].
  - apply IH. rewrite app_length in L. exists g. split; [assumption|]. split; [apply (nodup_app_r _ _ _ ND)|lia].
Qed.

Lemma has_O : forall m a e, ~ has 0 m (IExpr a e).
Proof. intros m a e [fp [_ [_ L]]]. lia. Qed.

(** ** Deleting *)

Definition wiped (m m' : mem) (fp : list nat) : Prop :=
  next m' = next m /\ (forall x, In x fp -> at_ m' x = None) /\
  (forall x, ~ In x fp -> at_ m' x = at_ m x).

Lemma wiped_two : forall m m1 m2 f g, wiped m m1 f -> wiped m1 m2 g -> wiped m m2 (f ++ g).
Proof.
  intros m m1 m2 f g [A [B C]] [D [E F]]. split; [congruence|]. split.
  - intros x X. destruct (in_dec Nat.eq_dec x g) as [Y|Y]; [apply E, Y|]. rewrite F by exact Y.
    apply B. apply in_app_or in X as [X|X]; [exact X|contradiction].
  - intros x X. rewrite F, C; [reflexivity| |]; intros Y; apply X, in_or_app; auto.
Qed.

Lemma wiped_perm : forall m m' f g, Permutation f g -> wiped m m' f -> wiped m m' g.
Proof.
  intros m m' f g P [A [B C]]. split; [exact A|]. split.
  - intros x X. apply B. now apply (Permutation_in x (Permutation_sym P)).
  - intros x X. apply C. intros Y. apply X. now apply (Permutation_in x P).
Qed.

Lemma wiped_own1 : forall m m' f i fp, wiped m m' f -> own1 m i fp ->
  (forall x, In x fp -> In x f -> False) -> own1 m' i fp.
Proof.
  intros m m' f i fp [_ [_ C]] O D. apply (own1_frame m); [exact O|]. intros x X. apply C.
  intros Y. apply (D x X Y).
Qed.

Definition deletes (f : nat -> M n unit) (m : mem) (a : nat) (fp : list nat) : Prop :=
  exists m', f a m = ROk m' tt /\ wiped m m' fp.

Lemma dealloc_ok : forall (m : mem) a, at_ m a <> None -> deletes dealloc m a [a].
Proof.
  intros m a H. unfold deletes, dealloc. destruct (at_ m a); [|congruence].
  eexists. split; [reflexivity|]. split; [reflexivity|]. cbn. unfold set. split.
  - intros x [X|[]]. subst. now rewrite Nat.eqb_refl.
  - intros x X. destruct (Nat.eqb_spec x a); [|reflexivity]. subst. elim X. now left.
Qed.

Lemma mbind_ok : forall {A B : Type} (c : M n A) (f : A -> M n B) m m' a,
  c m = ROk m' a -> mbind c f m = f a m'.
Proof. intros A B c f m m' a E. unfold mbind. now rewrite E. Qed.

Lemma reading_load : forall (m : mem) a c, at_ m a = Some c -> reading (fun m => load m a) m = ROk m c.
Proof. intros m a c E. unfold reading, load. now rewrite E. Qed.

Lemma delete_list_ok : forall k
  (IH : forall m a e fp, own1 m (IExpr a e) fp -> NoDup fp -> length fp < k -> deletes (delete_f n k) m a fp)
  ps es m fp, owns_list m ps es fp -> NoDup fp -> length fp < k ->
  exists m', (fix loop (ps : list nat) : M n unit :=
                  match ps with
                  | [] => ret tt
                  | p :: ps' => _ <- delete_f n k p; loop ps'
                  end) ps m = ROk m' tt /\ wiped m m' fp.
Proof.
  intros k IH. induction ps as [|p ps IHl]; intros es m fp O ND L.
  - inversion O; subst. exists m. split; [reflexivity|]. split; [reflexivity|]. split; [intros x []|reflexivity].
  - inversion O as [|? e f ? es' g Hp Hl]; subst. rewrite app_length in L.
    destruct (IH m p e f Hp (nodup_app_l _ _ _ ND)) as [m1 [E1 W1]]; [lia|].
    destruct (IHl es' m1 g) as [m2 [E2 W2]].
    + apply (wiped_own1 m m1 f (IList ps es')); [exact W1|exact Hl|].
      intros x X Y. apply (nodup_app_disjoint _ _ _ x ND Y X).
    + apply (nodup_app_r _ _ _ ND).
    + lia.
    + exists m2. split; [|now apply (wiped_two m m1)]. rewrite (mbind_ok _ _ m m1 tt E1). exact E2.
Qed.

Definition deletable (m : mem) (a : nat) (fp : list nat) : Prop :=
  (exists e, owns m a e fp) \/ (exists o, owns_op m a o fp).

Lemma deletable_wiped : forall m m' f a fp, wiped m m' f -> deletable m a fp ->
  (forall x, In x fp -> In x f -> False) -> deletable m' a fp.
Proof.
  intros m m' f a fp W [[e H]|[o H]] D.
  - left. exists e. apply (wiped_own1 m m' f (IExpr a e)); assumption.
  - right. exists o. apply (wiped_own1 m m' f (IOp a o)); assumption.
Qed.

Lemma delete_two : forall k
  (IH : forall m a fp, deletable m a fp -> NoDup fp -> length fp < k -> deletes (delete_f n k) m a fp)
  m a b f g, deletable m a f -> deletable m b g -> NoDup (f ++ g) -> length f + length g < k ->
  exists m', (_ <- delete_f n k b; delete_f n k a) m = ROk m' tt /\ wiped m m' (f ++ g).
Proof.
  intros k IH m a b f g A B ND L.
  destruct (IH m b g B (nodup_app_r _ _ _ ND)) as [m1 [E1 W1]]; [lia|].
  destruct (IH m1 a f) as [m2 [E2 W2]].
  - apply (deletable_wiped m m1 g); [exact W1|exact A|].
    intros x X Y. apply (nodup_app_disjoint _ _ _ x ND X Y).
  - apply (nodup_app_l _ _ _ ND).
  - lia.
  - exists m2. split; [now rewrite (mbind_ok _ _ m m1 tt E1)|].
    apply (wiped_perm m m2 (g ++ f)); [apply Permutation_app_comm|]. now apply (wiped_two m m1).
Qed.

(** The last step: deallocation of the node itself. *)
Lemma delete_node : forall m a fp (body : M n unit), at_ m a <> None -> NoDup (a :: fp) ->
  (exists m', body m = ROk m' tt /\ wiped m m' fp) ->
  exists m', (_ <- body; dealloc a) m = ROk m' tt /\ wiped m m' (a :: fp).
Proof.
  intros m a fp body A ND [m1 [E1 W1]]. inversion ND as [|? ? N ND']; subst.
  destruct (dealloc_ok m1 a) as [m2 [E2 W2]].
  - destruct W1 as [_ [_ W1]]. rewrite W1; assumption.
  - exists m2. split; [now rewrite (mbind_ok _ _ m m1 tt E1)|].
    apply (wiped_perm m m2 (fp ++ [a])); [apply Permutation_sym, Permutation_cons_append|].
    now apply (wiped_two m m1).
Qed.

Lemma delete_f_ok : forall k m a fp, deletable m a fp -> NoDup fp -> length fp < k ->
  deletes (delete_f n k) m a fp.
Proof.
  induction k as [|k IH]; intros m a fp D ND L; [lia|].
  unfold deletes. cbn [delete_f].
  assert (NOTHING : exists m', (ret tt : M n unit) m = ROk m' tt /\ wiped m m' []).
  { exists m. split; [reflexivity|]. split; [reflexivity|]. split; [intros x []|reflexivity]. }
  assert (HEAD : exists c fp', at_ m a = Some c /\ fp = a :: fp').
  { destruct D as [[e H]|[o H]]; inversion H; subst; eauto. }
  destruct HEAD as [c [fp' [E F]]]. rewrite (mbind_ok _ _ m m c (reading_load m a c E)). subst.
  apply delete_node; [congruence|exact ND|]. inversion ND as [|? ? _ ND']; subst. cbn in L.
  destruct D as [[e H]|[o H]]; inversion H; subst;
    match goal with X : at_ m a = Some _, Y : at_ m a = Some _ |- _ => rewrite X in Y; inversion Y; subst end;
    try exact NOTHING.
  - rewrite app_length in L. apply (delete_two k IH); [now left; eauto|now right; eauto|assumption|lia].
  - rewrite app_length in L. apply (delete_two k IH); [now left; eauto|now right; eauto|assumption|lia].
  - rewrite !app_length in L.
    destruct (IH m r h) as [m1 [E1 W1]]; [left; eauto|apply (nodup_app_r _ (f ++ g)); now rewrite <- app_assoc|lia|].
    destruct (delete_two k IH m1 l p f g) as [m2 [E2 W2]].
    + apply (deletable_wiped m m1 h); [exact W1|left; eauto|].
      intros z X Y. rewrite app_assoc in ND'. apply (nodup_app_disjoint _ (f ++ g) h z ND'); [|exact Y].
      apply in_or_app. now left.
    + apply (deletable_wiped m m1 h); [exact W1|right; eauto|].
      intros z X Y. rewrite app_assoc in ND'. apply (nodup_app_disjoint _ (f ++ g) h z ND'); [|exact Y].
      apply in_or_app. now right.
    + rewrite app_assoc in ND'. apply (nodup_app_l _ _ _ ND').
    + lia.
    + exists m2. split; [now rewrite (mbind_ok _ _ m m1 tt E1)|].
      rewrite app_assoc. apply (wiped_perm m m2 (h ++ (f ++ g))); [apply Permutation_app_comm|].
      now apply (wiped_two m m1).
  - apply (delete_list_ok k) with (es := es); [|assumption|assumption|lia].
    intros m1 b e' f' Hb NDb Lb. apply IH; [left; exists e'; exact Hb|assumption|assumption].
  - rewrite app_length in L. apply (delete_two k IH); [now left; eauto|now left; eauto|assumption|lia].
Qed.

Lemma delete_ok : forall m a fp, wf m -> deletable m a fp -> NoDup fp -> deletes (delete n) m a fp.
Proof.
  intros m a fp W D ND. unfold deletes, delete. apply delete_f_ok; [exact D|exact ND|].
  unfold enough. destruct D as [[e O]|[o O]].
  - pose proof (own1_length m (IExpr a e) fp W O ND). lia.
  - pose proof (own1_length m (IOp a o) fp W O ND). lia.
Qed.

Lemma wiped_wf : forall m m' fp, wf m -> wiped m m' fp -> wf m'.
Proof.
  intros m m' fp W [A [B C]] a L. destruct (in_dec Nat.eq_dec a fp) as [I|I]; [apply B, I|].
  rewrite C by exact I. apply W. lia.
Qed.

Lemma wiped_swaps : forall C m m' f L, wf m -> wiped m m' f -> NoDup (f ++ L) ->
  swaps C m (f ++ L) m' L.
Proof.
  intros C m m' f L W Wi ND. destruct Wi as [A [B D]] eqn:E. repeat split.
  - lia.
  - now apply (wiped_wf m m' f).
  - apply (nodup_app_r _ _ _ ND).
  - intros b X N. apply D. intros Y. apply N, in_or_app. now left.
  - intros b X. left. apply in_or_app. now right.
  - intros _ b X. destruct (in_dec Nat.eq_dec b f) as [Y|Y]; [elim X; apply B, Y|].
    rewrite D in X by exact Y. destruct (in_dec Nat.eq_dec b L) as [Z|Z]; [now left|]. right.
    split; [now apply wf_alive|]. intros V. apply in_app_or in V as [V|V]; contradiction.
Qed.

Lemma holds_delete_gen : forall C m0 i l m a, holds C m0 (i :: l) m ->
  (forall fp, own1 m i fp -> deletable m a fp) ->
  exists m', delete n a m = ROk m' tt /\ holds C m0 l m'.
Proof.
  intros C m0 i l m a H DD. pose proof (holds_wf _ _ _ _ H) as W. destruct H as [L [O S]].
  inversion O as [|? fp ? L1 H1 O1]; subst.
  assert (ND : NoDup (fp ++ L1)) by (destruct S as [_ [_ [ND _]]]; exact ND).
  destruct (delete_ok m a fp W (DD fp H1) (nodup_app_l _ _ _ ND)) as [m' [E Wi]].
  exists m'. split; [exact E|]. exists L1. split.
  - apply (owned_frame m); [exact O1|]. intros x X. destruct Wi as [_ [_ Wi]]. apply Wi.
    intros Y. apply (nodup_app_disjoint _ _ _ x ND Y X).
  - apply (swaps_trans C m0 [] m (fp ++ L1)); [exact S|]. now apply wiped_swaps.
Qed.

Lemma holds_delete : forall C m0 a e l m, holds C m0 (IExpr a e :: l) m ->
  exists m', delete n a m = ROk m' tt /\ holds C m0 l m'.
Proof.
  intros C m0 a e l m H. apply (holds_delete_gen C m0 (IExpr a e)); [exact H|].
  intros fp O. left. exists e. exact O.
Qed.

Lemma holds_delete_op : forall C m0 p o l m, holds C m0 (IOp p o :: l) m ->
  exists m', delete n p m = ROk m' tt /\ holds C m0 l m'.
Proof.
  intros C m0 p o l m H. apply (holds_delete_gen C m0 (IOp p o)); [exact H|].
  intros fp O. right. exists o. exact O.
Qed.
End HeapFacts.
