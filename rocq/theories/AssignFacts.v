(** Expressions without malformed binary nodes (proofs only). *)
From Coq Require Import ZArith NArith List Bool Lia.
From Verif Require Import Outcome Num RtModel RtSpec RtFacts RtStep RtTermination RtEval RtGateaux CtModel CtOpsModel AssignModel.
Import ListNotations.

Section S.
Context (n : Num.num).
Notation expr := (expr n).
Definition ordinary (e : expr) : Prop := forall l r, ~ subterm (EBin BUnaryId l r) e.

Lemma eval_ordinary : forall v e, ordinary e -> eval n e v <> Throw RhsProvidedForUnaryOperation.
Proof.
  intros v e. induction e as [c|i|i t|op a IH|lo hi u a _ _ IH|op l r IHl IHr|es _] using expr_ind'; intros H.
  - discriminate.
  - rewrite eval_var. destruct (nth_error v (N.to_nat i)); discriminate.
  - discriminate.
  - assert (Ha : ordinary a) by (intros x y S; apply (H x y), sub_un; exact S).
    specialize (IH Ha). simpl. destruct (eval n a v) as [x|x|]; simpl; [|congruence|discriminate].
    destruct op; discriminate.
  - assert (Ha : ordinary a) by (intros x y S; apply (H x y), sub_body; exact S).
    specialize (IH Ha). simpl. destruct (eval n a v) as [x|x|]; simpl; congruence.
  - assert (Hl : ordinary l) by (intros x y S; apply (H x y), sub_l; exact S).
    assert (Hr : ordinary r) by (intros x y S; apply (H x y), sub_r; exact S).
    specialize (IHl Hl). specialize (IHr Hr). simpl.
    destruct (eval n l v), (eval n r v); simpl; try congruence.
    destruct op; try discriminate. destruct (H l r (sub_refl _)).
  - discriminate.
Qed.
Lemma unwrap_ordinary : forall e, ordinary e -> unwrap n e <> Throw RhsProvidedForUnaryOperation.
Proof.
  intros e. induction e as [c|i|i t|op a IH|lo hi u a _ _ IH|op l r IHl IHr|es _] using expr_ind'; intros H;
    try discriminate.
  - assert (Ha : ordinary a) by (intros x y S; apply (H x y), sub_un; exact S).
    specialize (IH Ha). simpl. destruct (unwrap n a) as [x|x|]; simpl; [|congruence|discriminate].
    destruct op; discriminate.
  - assert (Ha : ordinary a) by (intros x y S; apply (H x y), sub_body; exact S).
    specialize (IH Ha). simpl. destruct (unwrap n a) as [x|x|]; simpl; congruence.
  - assert (Hl : ordinary l) by (intros x y S; apply (H x y), sub_l; exact S).
    assert (Hr : ordinary r) by (intros x y S; apply (H x y), sub_r; exact S).
    specialize (IHl Hl). specialize (IHr Hr). simpl.
    destruct (unwrap n l), (unwrap n r); simpl; try congruence.
    destruct op; try discriminate. destruct (H l r (sub_refl _)).
Qed.

Lemma dot_no_throw : forall a b x, dot n a b <> Throw x.
Proof.
  intros a b x. unfold dot. destruct (Nat.eqb (length a) (length b)); try discriminate.
  destruct a as [|y a], b as [|z b]; try discriminate.
  generalize (mk_bin n BMult y z). revert b. induction a as [|a1 a IH]; intros [|b1 b] acc; simpl; try discriminate.
  apply IH.
Qed.

Lemma simplify_ordinary : forall e, ordinary e -> forall x, simplify n e <> Throw x.
Proof.
  intros e. induction e as [c|i|i t|op a IH|lo hi u a _ _ IH|op l r IHl IHr|es _] using expr_ind'; intros H x;
    try discriminate.
  - assert (Ha : ordinary a) by (intros y z S; apply (H y z), sub_un; exact S).
    specialize (IH Ha). cbn [simplify]. destruct (is_constant n a) eqn:C.
    + destruct (constant_evaluable n a C Ha) as [y E]. rewrite E. destruct op; discriminate.
    + destruct (simplify n a); simpl; congruence.
  - assert (Ha : ordinary a) by (intros y z S; apply (H y z), sub_body; exact S).
    specialize (IH Ha). cbn [simplify]. destruct (is_constant n a) eqn:C.
    + destruct (constant_evaluable n a C Ha) as [y E]. rewrite E. discriminate.
    + destruct (simplify n a); simpl; congruence.
  - assert (Hl : ordinary l) by (intros y z S; apply (H y z), sub_l; exact S).
    assert (Hr : ordinary r) by (intros y z S; apply (H y z), sub_r; exact S).
    specialize (IHl Hl). specialize (IHr Hr). cbn [simplify].
    destruct (is_constant n l) eqn:Cl, (is_constant n r) eqn:Cr; cbn [andb].
    + destruct (constant_evaluable n l Cl Hl) as [y E]. destruct (constant_evaluable n r Cr Hr) as [z F].
      rewrite E, F. destruct op; try discriminate. destruct (H l r (sub_refl _)).
    + destruct (constant_evaluable n l Cl Hl) as [y E]. rewrite E. cbn [bind].
      destruct op; repeat match goal with |- context [if ?b then _ else _] => destruct b end;
        destruct (simplify n r); simpl; congruence.
    + destruct (constant_evaluable n r Cr Hr) as [y E]. rewrite E. cbn [bind].
      destruct op; repeat match goal with |- context [if ?b then _ else _] => destruct b end;
        destruct (simplify n l); simpl; congruence.
    + assert (M : forall o, mk2 n o (simplify n l) (simplify n r) <> Throw x).
      { intros o. unfold mk2. destruct (simplify n l), (simplify n r); simpl; congruence. }
      destruct op; try apply M; [|discriminate].
      destruct l; try apply M. destruct r; try apply M. apply dot_no_throw.
Qed.

Lemma const_eq_ordinary : forall e c, ordinary e -> exists b, const_eq n e c = Ok b.
Proof.
  intros e c H. unfold const_eq. destruct (is_constant n e) eqn:C; [|eauto].
  destruct (constant_evaluable n e C H) as [y E]. rewrite E. simpl. eauto.
Qed.
Lemma can_simplify_ordinary : forall e, ordinary e -> exists b, can_simplify n e = Ok b.
Proof.
  intros e. induction e as [c|i|i t|op a IH|lo hi u a _ _ IH|op l r IHl IHr|es _] using expr_ind'; intros H;
    try (eexists; reflexivity).
  - apply IH. intros y z S; apply (H y z), sub_un; exact S.
  - apply IH. intros y z S; apply (H y z), sub_body; exact S.
  - assert (Hl : ordinary l) by (intros y z S; apply (H y z), sub_l; exact S).
    assert (Hr : ordinary r) by (intros y z S; apply (H y z), sub_r; exact S).
    destruct (IHl Hl) as [bl El]. destruct (IHr Hr) as [br Er]. cbn [can_simplify]. rewrite El, Er.
    destruct (is_constant n l && is_constant n r); [eauto|].
    destruct (const_eq_ordinary l (c0 n) Hl) as [b1 E1]. destruct (const_eq_ordinary l (c1 n) Hl) as [b2 E2].
    destruct (const_eq_ordinary r (c0 n) Hr) as [b3 E3]. destruct (const_eq_ordinary r (c1 n) Hr) as [b4 E4].
    rewrite ?E1, ?E2, ?E3, ?E4.
    destruct op; unfold oor; cbn [bind]; destruct b1, b2, b3, b4, bl; cbn [bind]; eauto;
      destruct l; eauto; destruct r; eauto.
Qed.
Lemma top_ordinary : forall e, ordinary e -> forall x, simplify_top n e <> Throw x.
Proof.
  intros e H x E. destruct (top_inplace n e) as [k K]. rewrite E in K. clear E.
  revert e H K. induction k as [|k IH]; intros e H K; [discriminate|].
  cbn [inplace_simplify] in K. destruct (can_simplify_ordinary e H) as [b B]. rewrite B in K.
  destruct b; [|discriminate]. pose proof (simplify_ordinary e H x) as S.
  destruct (simplify n e) as [e1|y|] eqn:Q; [|congruence|discriminate].
  apply (IH e1); [|exact K]. intros l r L. apply simplify_sstep in Q.
  pose proof (sstep_represented n e e1 Q _ L) as R. simpl in R.
  destruct (R eq_refl) as [l' [r' R']]. exact (H l' r' R').
Qed.

Lemma ord_const : forall c : n, ordinary (EConst c).
Proof. intros c l r S. inversion S. Qed.
Lemma ord_un : forall op a, ordinary a -> ordinary (EUn op a).
Proof. intros op a H l r S. inversion S; subst. apply (H l r). assumption. Qed.
Lemma ord_bin : forall op a b, op <> BUnaryId -> ordinary a -> ordinary b -> ordinary (EBin op a b).
Proof.
  intros op a b N H K l r S. inversion S; subst; [congruence|apply (H l r)|apply (K l r)]; assumption.
Qed.
Lemma ord_vec : forall es, (forall a, In a es -> ordinary a) -> ordinary (EVec es).
Proof. intros es H l r S. inversion S; subst. eapply H; eauto. Qed.
Lemma ord_int : forall lo hi v a b, ordinary (EInt lo hi v a) -> ordinary b -> ordinary (EInt lo hi v b).
Proof.
  intros lo hi v a b H K l r S. inversion S; subst.
  - apply (H l r), sub_lo; assumption.
  - apply (H l r), sub_hi; assumption.
  - apply (K l r); assumption.
Qed.

Lemma oseq_all : forall {A B : Type} (f : A -> outcome B) (P : B -> Prop) l ys,
  (forall a b, In a l -> f a = Ok b -> P b) -> oseq (map f l) = Ok ys -> forall b, In b ys -> P b.
Proof.
  induction l as [|a l IH]; intros ys H E b I; simpl in E.
  - injection E as <-. destruct I.
  - apply bind_ok in E as [y [Ey E]]. apply omap_ok in E as [zs [Ez ->]]. destruct I as [<-|I].
    + apply (H a); [left; reflexivity|exact Ey].
    + apply (IH zs); auto. intros a' b' I' E'. apply (H a'); [right; exact I'|exact E'].
Qed.

Lemma diff_keeps_ordinary : forall x e d, ordinary e -> diff n x e = Ok d -> ordinary d.
Proof.
  intros x e. induction e as [c|i|i t|op a IH|lo hi u a _ _ IH|op l r IHl IHr|es IH] using expr_ind'; intros d H E;
    cbn [diff] in E.
  - injection E as <-. apply ord_const.
  - destruct x; [destruct (N.eqb _ _)|]; injection E as <-; apply ord_const.
  - destruct x; [discriminate|]. destruct (_ && _); injection E as <-; apply ord_const.
  - assert (Ha : ordinary a) by (intros y z S; apply (H y z), sub_un; exact S).
    destruct op; try discriminate; try (apply IH; assumption);
      try (apply omap_ok in E as [d' [Ed ->]]; specialize (IH _ Ha Ed);
           repeat first [assumption | apply ord_const | apply ord_un | apply ord_bin; [discriminate| |]]).
    destruct x; [discriminate|]. apply bind_ok in E as [d' [Ed E]]. apply bind_ok in E as [q [Eq E]].
    destruct q; [injection E as <-; apply ord_const|].
    apply omap_ok in E as [d2 [Ed2 ->]]. apply ord_un. apply IH; assumption.
  - discriminate.
  - assert (Hl : ordinary l) by (intros y z S; apply (H y z), sub_l; exact S).
    assert (Hr : ordinary r) by (intros y z S; apply (H y z), sub_r; exact S).
    destruct op; try discriminate; try unfold mk2 in E;
      apply both_ok in E as [dl [dr [El [Er E]]]]; injection E as <-;
      specialize (IHl _ Hl El); specialize (IHr _ Hr Er);
      repeat first [assumption | apply ord_bin; [discriminate| |]].
  - apply omap_ok in E as [ds [Ed ->]]. apply ord_vec. revert Ed. apply oseq_all. intros a b I E.
    rewrite Forall_forall in IH. apply (IH a I); [|exact E].
    intros y z S. apply (H y z). eapply sub_vec; eauto.
Qed.

Lemma subst_keeps_ordinary : forall s repl e d, ordinary repl -> ordinary e ->
  subst1 n s repl e = Ok d -> ordinary d.
Proof.
  intros s repl e. induction e as [c|i|i t|op a IH|lo hi u a _ _ IH|op l r IHl IHr|es IH] using expr_ind'; intros d R H E;
    cbn [subst1] in E; apply bind_ok in E as [q [Q E]]; destruct q;
    try (injection E as <-; assumption).
  - apply omap_ok in E as [d' [Ed ->]]. apply ord_un, IH; auto. intros y z S; apply (H y z), sub_un; exact S.
  - apply omap_ok in E as [d' [Ed ->]]. apply (ord_int _ _ _ a); [exact H|]. apply IH; auto.
    intros y z S; apply (H y z), sub_body; exact S.
  - unfold mk2 in E. apply both_ok in E as [dl [dr [El [Er E]]]]. injection E as <-. apply ord_bin.
    + intros ->. exact (H l r (sub_refl _)).
    + apply IHl; auto. intros y z S; apply (H y z), sub_l; exact S.
    + apply IHr; auto. intros y z S; apply (H y z), sub_r; exact S.
  - apply omap_ok in E as [ds [Ed ->]]. apply ord_vec. revert Ed. apply oseq_all. intros a b I E.
    rewrite Forall_forall in IH. apply (IH a I); [exact R| |exact E].
    intros y z S. apply (H y z). eapply sub_vec; eauto.
Qed.

Lemma top_keeps_ordinary : forall e d, ordinary e -> simplify_top n e = Ok d -> ordinary d.
Proof.
  intros e d H E l r S. pose proof (top_represented n e d E _ S) as R. simpl in R.
  destruct (R eq_refl) as [l' [r' R']]. exact (H l' r' R').
Qed.

Lemma diff_ordinary : forall x e, ordinary e -> diff_top n x e <> Throw RhsProvidedForUnaryOperation.
Proof.
  intros x e H E. unfold diff_top in E. pose proof (diff_failure n x e) as G.
  assert (RS : forall s t : expr, reachable s t -> subterm s t).
  { intros s t R. induction R; eauto using @subterm. }
  destruct (diff n x e) as [d|y|] eqn:D; simpl in E, G; try congruence; try discriminate.
  - revert E. apply top_ordinary. exact (diff_keeps_ordinary _ _ _ H D).
  - injection E as ->. destruct G as [l [r G]]. exact (H l r (RS _ _ G)).
Qed.
End S.

(** The constructor of rt_binary_expr, by operands. *)
Definition rt_operand (n : Num.num) (m : mexpr n) : option (expr n) :=
  match m with
  | MConst c => Some (EConst (n_of_Z n c))
  | MVar i => Some (EVar i)
  | _ => rt_binary n m
  end.
Lemma rt_binary_bin : forall (n : Num.num) op (l r : mexpr n), rt_binary n (MBin op l r) =
  cbind (rt_operand n l) (fun l' => cbind (rt_operand n r) (fun r' => Some (EBin (rt_op op) l' r'))).
Proof. reflexivity. Qed.
Lemma rt_binary_operand : forall (n : Num.num) (m : mexpr n) e, rt_binary n m = Some e -> rt_operand n m = Some e.
Proof. intros n m e H. destruct m; try discriminate H; exact H. Qed.

Lemma assign_ct_constructs : forall (n : Num.num) (m : mexpr n) o,
  assign_ct n m = Some o -> (forall op a b, m <> MBin op (MConst a) (MConst b)) ->
  exists e, o = Ok e /\ rt_binary n m = Some e.
Proof.
  intros n m o H C. destruct m as [| | | | |op l r]; try discriminate H. rewrite rt_binary_bin.
  assert (D : forall x : mexpr n, (exists a, x = MConst a) \/
    forall (A : Type) (f : Z -> A) (g : A), match x with MConst a => f a | _ => g end = g).
  { intros x. destruct x; eauto. }
  assert (E : (exists a, l = MConst a /\ exists r', rt_binary n r = Some r' /\ o = Ok (EBin (rt_op op) (EConst (n_of_Z n a)) r')) \/
              (exists b, r = MConst b /\ exists l', rt_binary n l = Some l' /\ o = Ok (EBin (rt_op op) l' (EConst (n_of_Z n b)))) \/
              (exists l' r', rt_binary n l = Some l' /\ rt_binary n r = Some r' /\ o = Ok (EBin (rt_op op) l' r'))).
  { destruct (D l) as [[a ->]|Nl].
    - left. exists a. split; [reflexivity|]. destruct r as [b| | | | |op' l' r']; try discriminate H; [destruct (C op a b eq_refl)|].
      cbn [assign_ct] in H. destruct (rt_binary n (MBin op' l' r')) as [x|]; [|discriminate H].
      injection H as <-. eauto.
    - right. destruct (D r) as [[b ->]|Nr].
      + left. exists b. split; [reflexivity|]. specialize (Nl unit).
        destruct l as [a| | | | |op' l' r']; try discriminate H.
        * specialize (C op a b). congruence.
        * cbn [assign_ct] in H. destruct (rt_binary n (MBin op' l' r')) as [x|]; [|discriminate H].
          injection H as <-. eauto.
      + right. destruct l as [a| | | | |op' l' r']; try (exfalso; destruct r; discriminate H).
        * specialize (Nl bool (fun _ => true) false). discriminate Nl.
        * destruct r as [b| | | | |op2 l2 r2]; cbn [assign_ct] in H.
          -- specialize (Nr bool (fun _ => true) false). discriminate Nr.
          -- destruct (rt_binary n (MBin op' l' r')) as [x|]; discriminate H.
          -- destruct (rt_binary n (MBin op' l' r')) as [x|]; discriminate H.
          -- destruct (rt_binary n (MBin op' l' r')) as [x|]; discriminate H.
          -- destruct (rt_binary n (MBin op' l' r')) as [x|]; discriminate H.
          -- destruct (rt_binary n (MBin op' l' r')) as [x|]; [|discriminate H].
             destruct (rt_binary n (MBin op2 l2 r2)) as [y|]; [|discriminate H]. injection H as <-. eauto 6. }
  destruct E as [[a [-> [r' [R ->]]]]|[[b [-> [l' [L ->]]]]|[l' [r' [L [R ->]]]]]]; eexists; (split; [reflexivity|]).
  - rewrite (rt_binary_operand _ _ _ R). reflexivity.
  - rewrite (rt_binary_operand _ _ _ L). reflexivity.
  - rewrite (rt_binary_operand _ _ _ L), (rt_binary_operand _ _ _ R). reflexivity.
Qed.
