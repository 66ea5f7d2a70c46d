(** The graph of the model's [simplify] as an inductive relation (proof device only). *)
From Coq Require Import ZArith NArith List Bool Lia.
From Verif Require Import Outcome Num RtModel RtSpec RtFacts.
Import ListNotations.

Section Step.
Context (n : num).
Local Notation expr := (expr n).
Local Notation isc := (is_constant n).

Definition both_vec (l r : expr) : bool :=
  match l, r with EVec _, EVec _ => true | _, _ => false end.

Inductive sstep : expr -> expr -> Prop :=
| ss_const : forall c, sstep (EConst c) (EConst c)
| ss_var : forall i, sstep (EVar i) (EVar i)
| ss_fun : forall i t, sstep (EFun i t) (EFun i t)
| ss_vec : forall es, sstep (EVec es) (EVec es)
| ss_bad : forall l r, isc l && isc r = false -> sstep (EBin BUnaryId l r) (EBin BUnaryId l r)
| ss_un_fold : forall op a x y, isc a = true -> u_can_simplify op = true ->
    unwrap n a = Ok x -> u_apply n op x = Ok y -> sstep (EUn op a) (EConst y)
| ss_un_const : forall op a x, isc a = true -> u_can_simplify op = false ->
    unwrap n a = Ok x -> sstep (EUn op a) (EUn op (EConst x))
| ss_un : forall op a a', isc a = false -> sstep a a' -> sstep (EUn op a) (EUn op a')
| ss_int_const : forall lo hi v a x, isc a = true -> unwrap n a = Ok x ->
    sstep (EInt lo hi v a) (EInt lo hi v (EConst x))
| ss_int : forall lo hi v a a', isc a = false -> sstep a a' ->
    sstep (EInt lo hi v a) (EInt lo hi v a')
| ss_fold : forall op l r x y z, isc l = true -> isc r = true ->
    unwrap n l = Ok x -> unwrap n r = Ok y -> b_apply n op x y = Ok z ->
    sstep (EBin op l r) (EConst z)
| ss_plus0l : forall l r x r', isc l = true -> isc r = false -> unwrap n l = Ok x ->
    n_eq n x (c0 n) = true -> sstep r r' -> sstep (EBin BPlus l r) r'
| ss_minus0l : forall l r x r', isc l = true -> isc r = false -> unwrap n l = Ok x ->
    n_eq n x (c0 n) = true -> sstep r r' ->
    sstep (EBin BMinus l r) (EBin BMult (EConst (cm1 n)) r')
| ss_zerol : forall op l r x, op = BMult \/ op = BDiv ->
    isc l = true -> isc r = false -> unwrap n l = Ok x ->
    n_eq n x (c0 n) = true -> sstep (EBin op l r) (EConst (c0 n))
| ss_onel : forall l r x r', isc l = true -> isc r = false -> unwrap n l = Ok x ->
    n_eq n x (c0 n) = false -> n_eq n x (c1 n) = true -> sstep r r' -> sstep (EBin BMult l r) r'
| ss_cl : forall op l r x r', op <> BUnaryId -> isc l = true -> isc r = false ->
    unwrap n l = Ok x -> n_eq n x (c0 n) = false ->
    (op = BMult -> n_eq n x (c1 n) = false) -> sstep r r' ->
    sstep (EBin op l r) (EBin op (EConst x) r')
| ss_zeror : forall op l r x l', op = BPlus \/ op = BMinus -> isc l = false -> isc r = true ->
    unwrap n r = Ok x -> n_eq n x (c0 n) = true -> sstep l l' -> sstep (EBin op l r) l'
| ss_mult0r : forall l r x, isc l = false -> isc r = true ->
    unwrap n r = Ok x -> n_eq n x (c0 n) = true -> sstep (EBin BMult l r) (EConst (c0 n))
| ss_oner : forall op l r x l', op = BMult \/ op = BDiv -> isc l = false -> isc r = true ->
    unwrap n r = Ok x -> (op = BMult -> n_eq n x (c0 n) = false) ->
    n_eq n x (c1 n) = true -> sstep l l' -> sstep (EBin op l r) l'
| ss_cr : forall op l r x l', op <> BUnaryId -> isc l = false -> isc r = true ->
    unwrap n r = Ok x -> (op <> BDiv -> n_eq n x (c0 n) = false) ->
    (op = BMult \/ op = BDiv -> n_eq n x (c1 n) = false) -> sstep l l' ->
    sstep (EBin op l r) (EBin op l' (EConst x))
| ss_dot : forall a b e, dot n a b = Ok e -> sstep (EBin BMult (EVec a) (EVec b)) e
| ss_both : forall op l r l' r', op <> BUnaryId -> isc l = false -> isc r = false ->
    (op = BMult -> both_vec l r = false) -> sstep l l' -> sstep r r' ->
    sstep (EBin op l r) (EBin op l' r').

Lemma mult_case : forall (l r : expr),
  match l, r with
  | EVec a, EVec b => dot n a b
  | _, _ => mk2 n BMult (simplify n l) (simplify n r)
  end = if both_vec l r then match l, r with EVec a, EVec b => dot n a b | _, _ => UB end
        else mk2 n BMult (simplify n l) (simplify n r).
Proof. intros [] []; reflexivity. Qed.

Lemma simplify_sstep : forall e e' : expr, simplify n e = Ok e' -> sstep e e'.
Proof.
  induction e as [c|i|i t|op a IH|lo hi v a _ _ IH|op l r IHl IHr|es _] using expr_ind';
    intros e' H; simpl in H; try (inversion H; subst; constructor; fail).
  - destruct (is_constant n a) eqn:Ec.
    + destruct (u_can_simplify op) eqn:Eo; oinv; econstructor; eauto.
    + oinv. econstructor; eauto.
  - destruct (is_constant n a) eqn:Ec; oinv; econstructor; eauto.
  - destruct (is_constant n l && is_constant n r) eqn:Ec.
    { oinv. apply andb_true_iff in Ec as [? ?]. eapply ss_fold; eauto. }
    destruct op.
    + destruct (isc l) eqn:El; [|destruct (isc r) eqn:Er]; simpl in Ec; unfold mk2 in H; oinv;
        try match goal with H : (if ?b then _ else _) = Ok _ |- _ => destruct b eqn:? end; oinv.
      * eapply ss_plus0l; eauto.
      * eapply ss_cl; eauto; discriminate.
      * eapply ss_zeror; eauto.
      * eapply ss_cr; eauto; try discriminate. intros [|]; discriminate.
      * eapply ss_both; eauto; discriminate.
    + destruct (isc l) eqn:El; [|destruct (isc r) eqn:Er]; simpl in Ec; unfold mk2 in H; oinv;
        try match goal with H : (if ?b then _ else _) = Ok _ |- _ => destruct b eqn:? end; oinv.
      * eapply ss_minus0l; eauto.
      * eapply ss_cl; eauto; discriminate.
      * eapply ss_zeror; eauto.
      * eapply ss_cr; eauto; try discriminate. intros [|]; discriminate.
      * eapply ss_both; eauto; discriminate.
    + destruct (isc l) eqn:El; [|destruct (isc r) eqn:Er]; simpl in Ec;
        [ | |rewrite mult_case in H; destruct (both_vec l r) eqn:Ev]; unfold mk2 in H; oinv;
        repeat match goal with H : (if ?b then _ else _) = Ok _ |- _ => destruct b eqn:? end; oinv.
      * eapply ss_zerol; eauto.
      * eapply ss_onel; eauto.
      * eapply ss_cl; eauto; discriminate.
      * eapply ss_mult0r; eauto.
      * eapply ss_oner; eauto.
      * eapply ss_cr; eauto; try discriminate.
      * destruct l, r; try discriminate. apply ss_dot; auto.
      * eapply ss_both; eauto; discriminate.
    + destruct (isc l) eqn:El; [|destruct (isc r) eqn:Er]; simpl in Ec; unfold mk2 in H; oinv;
        try match goal with H : (if ?b then _ else _) = Ok _ |- _ => destruct b eqn:? end; oinv.
      * eapply ss_zerol; eauto.
      * eapply ss_cl; eauto; discriminate.
      * eapply ss_oner; eauto; discriminate.
      * eapply ss_cr; eauto; try discriminate. congruence.
      * eapply ss_both; eauto; discriminate.
    + inversion H; subst. constructor; auto.
Qed.

Lemma sstep_simplify : forall e e' : expr, sstep e e' -> simplify n e = Ok e'.
Proof.
  intros e e' H; induction H; simpl; auto;
    repeat match goal with
    | H : isc ?x = _ |- _ => rewrite H
    | H : isc _ && isc _ = _ |- _ => rewrite H
    | H : unwrap _ _ = _ |- _ => rewrite H
    end; simpl.
  all: try (rewrite H0; simpl; fail).
  all: try (match goal with H : u_can_simplify _ = _ |- _ => rewrite H end; simpl).
  all: repeat match goal with
    | H : simplify _ _ = _ |- _ => rewrite H
    | H : u_apply _ _ _ = _ |- _ => rewrite H
    | H : b_apply _ _ _ _ = _ |- _ => rewrite H
    | H : n_eq _ _ _ = _ |- _ => rewrite H
    end; simpl; auto.
  all: try (destruct H; subst; repeat match goal with
    | H : n_eq _ _ _ = _ |- _ => rewrite H
    | H : simplify _ _ = _ |- _ => rewrite H
    end; simpl; auto; fail).
  - destruct op; try congruence; simpl; rewrite ?H4 by auto; auto.
  - destruct H; subst; rewrite ?H3 by auto; auto.
  - destruct op; try congruence; rewrite ?H3 by discriminate; rewrite ?H4 by auto; auto.
  - destruct op; try congruence; unfold mk2; auto.
    specialize (H2 eq_refl). destruct l, r; try discriminate; auto.
Qed.
End Step.
