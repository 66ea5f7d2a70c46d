(** Facts about the calling forms. *)
From Coq Require Import ZArith NArith List Bool Lia.
From Verif Require Import Outcome Num RtModel RtFacts RtEval CtModel CtOpsModel CtOpsFacts CtGcd CtManipSpec ApiModel CallModel
  CallSpec PropsEval.
Import ListNotations.

Section Facts.
Context (n : Num.num).
Implicit Types (m : mem n) (p : point n) (e : expr n).

Lemma agree_refl : forall A (a : outcome A), agree a a.
Proof. intros A []; simpl; auto. Qed.

Lemma copy_all : forall get v k i, length v = k -> (forall j, j < k -> get (i + j) = nth_error v j) ->
  copy_from n get i k = Ok v.
Proof.
  induction v as [|x v IH]; intros k i L G; simpl in L; subst k; [reflexivity|].
  simpl. pose proof (G 0 ltac:(lia)) as G0. rewrite Nat.add_0_r in G0. rewrite G0. simpl.
  rewrite (IH (length v) (S i) eq_refl); [reflexivity|].
  intros j J. replace (S i + j) with (i + S j) by lia. apply (G (S j)). lia.
Qed.

Lemma copy_some : forall get k i,
  copy_from n get i k = UB \/
  exists v, length v = k /\ forall j, j < k -> get (i + j) = nth_error v j.
Proof.
  intros get. induction k as [|k IH]; intros i; simpl.
  - right. exists []. split; [reflexivity|]. intros j J. lia.
  - destruct (get i) as [x|] eqn:G; [|auto]. destruct (IH (S i)) as [E|[v [L V]]]; [rewrite E; auto|].
    right. exists (x :: v). split; [simpl; auto|]. intros [|j] J; simpl.
    + rewrite Nat.add_0_r. exact G.
    + replace (i + S j) with (S i + j) by lia. apply V. lia.
Qed.

Lemma tree_call_reads : forall m e p r, call_tree n m e p = Some r ->
  r = UB \/ exists xs, coords m p xs.
Proof.
  intros m e p r H. destruct p as [x|z|x|z|v|size get|a|a b|x y z]; simpl in H; try discriminate;
    injection H as <-; try (right; eexists; constructor; fail).
  - destruct (copy_some get size 0) as [E|[v [L V]]]; [rewrite E; auto|].
    right. exists v. constructor; auto.
  - unfold read. destruct (m a) as [x|] eqn:E; [|auto]. right. exists [x]. constructor. exact E.
  - unfold read. destruct (m a) as [x|] eqn:E; [|auto]. destruct (m b) as [y|] eqn:F; [|auto].
    right. exists [x; y]. constructor; assumption.
Qed.

Lemma eval_scalar_eq : forall e x, eval_scalar n e x = eval n e [x].
Proof. intros e x. apply eval_scalar_vector. Qed.

Lemma tree_call : forall m e p xs r, call_tree n m e p = Some r -> coords m p xs -> r = eval n e xs.
Proof.
  intros m e p xs r H C. destruct C; simpl in H; try discriminate; injection H as <-;
    rewrite ?eval_scalar_eq; try reflexivity.
  - rewrite (copy_all get v size 0); auto.
  - unfold read. rewrite H0. reflexivity.
  - unfold read. rewrite H0, H1. reflexivity.
Qed.

(** [eval] of a variable. *)
Lemma eval_var : forall i xs, eval n (EVar i) xs =
  checked n i (length xs) (match nth_error xs (N.to_nat i) with Some x => Ok x | None => UB end).
Proof. reflexivity. Qed.

Lemma eval_var1 : forall i x, eval n (EVar i) [x] =
  if N.ltb 0 i then Throw (VariableIndexOutOfBounds i 1) else Ok x.
Proof.
  intros i x. rewrite eval_var. unfold checked. simpl length.
  destruct (N.leb_spec (N.of_nat 1) i), (N.ltb_spec 0 i); try lia; [reflexivity|].
  replace i with 0%N by lia. reflexivity.
Qed.

Lemma checked_gen : forall i size get (v : list n), length v = size ->
  (forall j, j < size -> get j = nth_error v j) ->
  checked n i size (match get (N.to_nat i) with Some x => Ok x | None => UB end) = eval n (EVar i) v.
Proof.
  intros i size get v L G. rewrite eval_var, L. unfold checked.
  destruct (N.leb_spec (N.of_nat size) i); [reflexivity|]. rewrite G by lia. reflexivity.
Qed.

Ltac idx i :=
  destruct (N.eqb_spec i 0); [subst i; reflexivity|];
  try (destruct (N.eqb_spec i 1); [subst i; reflexivity|]);
  try (destruct (N.eqb_spec i 2); [subst i; reflexivity|]).

Lemma checked_small : forall i k (a b : outcome n), (N.of_nat k <= i)%N \/ a = b ->
  checked n i k a = checked n i k b.
Proof.
  intros i k a b [H| ->]; [|reflexivity]. unfold checked.
  destruct (N.leb_spec (N.of_nat k) i); [reflexivity|lia].
Qed.

Lemma var_call : forall m i p xs r, call_var n m i p = Some r -> coords m p xs ->
  agree r (eval n (EVar i) xs) \/ (r = UB /\ (0 < i)%N /\ exists x, p = PNum x).
Proof.
  intros m i p xs r H C.
  assert (D : r = eval n (EVar i) xs -> agree r (eval n (EVar i) xs)) by (intros ->; apply agree_refl).
  destruct C; cbn [call_var] in H; try discriminate; injection H as <-.
  - rewrite eval_var1. destruct (N.eqb_spec i 0) as [->|N0]; [left; reflexivity|].
    right. split; [reflexivity|]. split; [lia|eauto].
  - left. rewrite eval_var1. destruct (N.ltb 0 i); simpl; auto.
  - left. rewrite eval_var1. destruct (N.ltb 0 i); simpl; auto.
  - left. apply D. reflexivity.
  - left. apply D. apply checked_gen; auto.
  - left. apply D. rewrite eval_var. cbn [length]. apply checked_small. unfold read. rewrite H0.
    destruct (N.eq_dec i 0) as [->|]; [right; reflexivity|left; simpl; lia].
  - left. apply D. rewrite eval_var. cbn [length]. apply checked_small. unfold read. rewrite H0, H1.
    destruct (N.eqb_spec i 0) as [->|]; [right; reflexivity|].
    destruct (N.eqb_spec i 1) as [->|]; [right; reflexivity|left; simpl; lia].
  - left. apply D. rewrite eval_var. cbn [length]. apply checked_small.
    destruct (N.eqb_spec i 0) as [->|]; [right; reflexivity|].
    destruct (N.eqb_spec i 1) as [->|]; [right; reflexivity|].
    destruct (N.eqb_spec i 2) as [->|]; [right; reflexivity|left; simpl; lia].
Qed.

Lemma ct_var_call : forall m i p xs r, call_ct_var n m i p = Some r -> coords m p xs ->
  agree r (eval n (EVar i) xs).
Proof.
  intros m i p xs r H C.
  assert (D : r = eval n (EVar i) xs -> agree r (eval n (EVar i) xs)) by (intros ->; apply agree_refl).
  destruct C; cbn [call_ct_var] in H; try discriminate.
  - injection H as <-. rewrite eval_var1. destruct (N.ltb 0 i); simpl; auto.
  - destruct (N.eqb_spec i 0) as [->|]; [|discriminate]. injection H as <-. reflexivity.
  - injection H as <-. apply D. reflexivity.
  - injection H as <-. apply D. apply checked_gen; auto.
  - destruct (N.eqb_spec i 0) as [->|]; [|discriminate]. injection H as <-. unfold read. rewrite H0.
    reflexivity.
  - destruct (N.eqb_spec i 0) as [->|].
    + injection H as <-. unfold read. rewrite H0. reflexivity.
    + destruct (N.eqb_spec i 1) as [->|]; [|discriminate]. injection H as <-. unfold read. rewrite H1.
      reflexivity.
  - destruct (N.eqb_spec i 0) as [->|]; [injection H as <-; reflexivity|].
    destruct (N.eqb_spec i 1) as [->|]; [injection H as <-; reflexivity|].
    destruct (N.eqb_spec i 2) as [->|]; [injection H as <-; reflexivity|discriminate].
Qed.

Lemma agree_both : forall op (a b x y : outcome n), agree a x -> agree b y ->
  agree (both a b (b_apply n (rt_op op))) (both x y (b_apply n (rt_op op))).
Proof.
  intros op [a|ea|] [b|eb|] [x|ex|] [y|ey|]; simpl; intros H1 H2; subst; try contradiction; auto.
  apply agree_refl.
Qed.

Lemma ct_call : forall m c p xs r, call_ct n m c p = Some r -> coords m p xs ->
  exists r', call n c xs = Some r' /\ agree r r'.
Proof.
  intros m. induction c as [c|s|i|t|op a IH|op a IHa b IHb]; intros p xs r H C; cbn [call_ct] in H;
    try discriminate.
  - injection H as <-. exists (Ok (n_of_Z n c)). split; reflexivity.
  - injection H as <-. exists (Ok s). split; reflexivity.
  - exists (eval n (EVar i) xs). split; [reflexivity|]. exact (ct_var_call m i p xs r H C).
  - apply cbind_some in H as [x [E1 H]]. apply cbind_some in H as [y [E2 H]]. injection H as <-.
    destruct (IHa p xs x E1 C) as [x' [X1 X2]]. destruct (IHb p xs y E2 C) as [y' [Y1 Y2]].
    cbn [call]. rewrite X1, Y1. eexists. split; [reflexivity|]. apply agree_both; assumption.
Qed.

(** At a std::vector the compile-time call is the checked one. *)
Lemma ct_call_std : forall m c v, call_ct n m c (PStd v) = call n c v.
Proof.
  intros m. induction c as [c|s|i|t|op a IH|op a IHa b IHb]; intros v; cbn [call_ct call]; auto.
  rewrite IHa, IHb. reflexivity.
Qed.

(** Which compile-time calls compile. *)
Lemma ct_compiles : forall m c p, (exists r, call_ct n m c p = Some r) <->
  m_plain c /\ forall i, m_occurs i c -> exists r, call_ct_var n m i p = Some r.
Proof.
  intros m. induction c as [c|s|i|t|op a IH|op a IHa b IHb]; intros p; cbn [call_ct m_plain m_occurs].
  - split; [|eauto]. intros _. split; [exact I|]. intros i [].
  - split; [|eauto]. intros _. split; [exact I|]. intros i [].
  - split.
    + intros H. split; [exact I|]. intros j <-. exact H.
    + intros [_ H]. apply H. reflexivity.
  - split; [intros [r H]; discriminate|intros [[] _]].
  - split; [intros [r H]; discriminate|intros [[] _]].
  - split.
    + intros [r H]. apply cbind_some in H as [x [E1 H]]. apply cbind_some in H as [y [E2 H]].
      destruct (proj1 (IHa p) (ex_intro _ x E1)) as [P1 O1].
      destruct (proj1 (IHb p) (ex_intro _ y E2)) as [P2 O2].
      split; [auto|]. intros i [J|J]; auto.
    + intros [[P1 P2] O].
      destruct (proj2 (IHa p) (conj P1 (fun i J => O i (or_introl J)))) as [x X].
      destruct (proj2 (IHb p) (conj P2 (fun i J => O i (or_intror J)))) as [y Y].
      rewrite X, Y. eexists. reflexivity.
Qed.
End Facts.

Lemma to_rt_call : forall n c t, to_rt n c = Some t -> forall xs, call n c xs = Some (eval n t xs).
Proof.
  intros n. induction c as [c|s|i|t0|op a IH|op l IHl r IHr]; intros t H xs.
  - injection H as <-. reflexivity.
  - injection H as <-. reflexivity.
  - injection H as <-. reflexivity.
  - discriminate.
  - discriminate.
  - rewrite to_rt_bin in H.
    assert (E : cbind (to_rt n l) (fun x => cbind (to_rt n r) (fun y =>
                  Some (EBin (rt_op op) x y))) = Some t)
      by (destruct l, r; (exact H || discriminate)).
    apply cbind_some in E as [x [E1 E]]. apply cbind_some in E as [y [E2 E]]. injection E as <-.
    cbn [call]. rewrite (IHl x E1 xs), (IHr y E2 xs). reflexivity.
Qed.
