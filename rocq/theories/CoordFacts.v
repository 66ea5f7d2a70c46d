(** Proofs about the transformation to Cartesian coordinates. *)
From Coq Require Import ZArith NArith Reals List Bool Lia Lra FunctionalExtensionality.
From Verif Require Import Outcome Num RtModel RtSpec RtFacts RtStep RtTermination RtEval RtSubst NumR
  QuadSpec DenSpec DenFacts CoordModel CoordSpec.
Import ListNotations.

Local Arguments N.eqb : simpl never.

Ltac conj_eqs :=
  repeat match goal with H : _ /\ _ |- _ => destruct H end;
  repeat match goal with H : Ok _ = Ok false |- _ => injection H as H; rewrite ?H end.

Section Exact.
Context (n : num).
Notation expr := (RtModel.expr n).

(** Replacing [op0 (EFun i0 t0)] by [r]. *)
Fixpoint rep (op0 : uop) (i0 t0 : N) (r e : expr) : expr :=
  match e with
  | EConst _ | EVar _ | EFun _ _ => e
  | EUn op a =>
      match a with
      | EFun i t => if N.eqb i0 i && N.eqb t0 t && u_equal op op0 then r else EUn op a
      | _ => EUn op (rep op0 i0 t0 r a)
      end
  | EInt lo hi v a => EInt lo hi v (rep op0 i0 t0 r a)
  | EBin op a b => EBin op (rep op0 i0 t0 r a) (rep op0 i0 t0 r b)
  | EVec es => EVec (map (rep op0 i0 t0 r) es)
  end.

Lemma subst1_rep : forall op0 i0 t0 r e, subst1 n (EUn op0 (EFun i0 t0)) r e = Ok (rep op0 i0 t0 r e).
Proof.
  intros op0 i0 t0 r e; induction e as [d|i|i t|op a IH|lo hi w a _ _ IH|op a b IHa IHb|es IH] using expr_ind';
    try reflexivity.
  - cbn [subst1]. cbn [deep_equal].
    assert (D : forall x : expr, (exists i t, x = EFun i t) \/ deep_equal n x (EFun i0 t0) = Ok false).
    { intros x; destruct x; simpl; auto. left; eauto. }
    destruct (D a) as [[i [t ->]]|E].
    + simpl. destruct (N.eqb i0 i && N.eqb t0 t && u_equal op op0) eqn:Q; simpl; reflexivity.
    + rewrite E, IH. destruct a; try (simpl; reflexivity). simpl in E. injection E as E.
      simpl. rewrite E. reflexivity.
  - cbn [subst1]. cbn [deep_equal].
    assert (D : exists b, deep_equal n a (EFun i0 t0) = Ok b).
    { destruct a; simpl; eauto. }
    destruct D as [b ->]. rewrite IH. reflexivity.
  - cbn [subst1 deep_equal bind]. rewrite IHa, IHb. reflexivity.
  - cbn [subst1 deep_equal bind]. rewrite (oseq_map_ok _ (rep op0 i0 t0 r)).
    + reflexivity.
    + exact IH.
Qed.

(** A function symbol other than a substitution target below. *)
Definition pdlike (e : expr) : Prop := exists i t, e = EUn (UPd i) (EFun 0 t).

(** "Almost final": only products of two vectors can be simplified. *)
Definition quiet (op : bop) (l r : expr) : Prop :=
  is_constant n l && is_constant n r = false /\
  match op with
  | BPlus | BMinus => const_eq n l (c0 n) = Ok false /\ const_eq n r (c0 n) = Ok false
  | BMult => const_eq n l (c0 n) = Ok false /\ const_eq n l (c1 n) = Ok false /\
             const_eq n r (c0 n) = Ok false /\ const_eq n r (c1 n) = Ok false
  | BDiv => const_eq n l (c0 n) = Ok false /\ const_eq n r (c1 n) = Ok false
  | BUnaryId => False
  end.

Fixpoint af (k : nat) (e : expr) : Prop :=
  match e with
  | EConst _ | EVar _ | EFun _ _ => True
  | EUn op a => af k a /\ (u_can_simplify op = true -> is_constant n a = false)
  | EInt _ _ _ a => af k a
  | EBin op l r => af k l /\ af k r /\ quiet op l r
  | EVec es => length es = S k /\ Forall pdlike es
  end.

Fixpoint dotl (acc : expr) (a b : list expr) : expr :=
  match a, b with
  | x :: a', y :: b' => dotl (EBin BPlus acc (EBin BMult x y)) a' b'
  | _, _ => acc
  end.
Definition dotv (a b : list expr) : expr :=
  match a, b with
  | x :: a', y :: b' => dotl (EBin BMult x y) a' b'
  | _, _ => EVec []
  end.

Fixpoint nrm (e : expr) : expr :=
  match e with
  | EConst _ | EVar _ | EFun _ _ | EVec _ => e
  | EUn op a => EUn op (nrm a)
  | EInt lo hi v a => EInt lo hi v (nrm a)
  | EBin op l r =>
      match op, l, r with
      | BMult, EVec a, EVec b => dotv a b
      | _, _, _ => EBin op (nrm l) (nrm r)
      end
  end.

Lemma dot_acc_dotl : forall a b acc, length a = length b -> dot_acc n acc a b = Ok (dotl acc a b).
Proof. induction a; destruct b; intros acc L; simpl in *; try discriminate; auto. Qed.

Lemma dot_dotv : forall k a b, length a = S k -> length b = S k -> dot n a b = Ok (dotv a b).
Proof.
  intros k a b A B. unfold dot. rewrite A, B, Nat.eqb_refl.
  destruct a, b; try discriminate. simpl in *. rewrite dot_acc_dotl; [reflexivity|]. lia.
Qed.

Lemma const_EConst : forall k e, af k e -> is_constant n e = true -> exists c, e = EConst c.
Proof.
  intros k e A C; destruct e; try discriminate; eauto.
  simpl in A, C. destruct A as [_ [_ [Q _]]]. congruence.
Qed.

Lemma quiet_simplify : forall k op l r, quiet op l r -> af k l -> af k r ->
  simplify n l = Ok (nrm l) -> simplify n r = Ok (nrm r) ->
  simplify n (EBin op l r) = Ok (nrm (EBin op l r)).
Proof.
  intros k op l r [Q K] Al Ar Sl Sr.
  assert (NV : forall c (x : expr), nrm (EBin op (EConst c) x) = EBin op (EConst c) (nrm x))
    by (intros; destruct op; reflexivity).
  assert (NV2 : forall c (x : expr), nrm (EBin op x (EConst c)) = EBin op (nrm x) (EConst c))
    by (intros c x; destruct op, x; reflexivity).
  cbn [simplify]. rewrite Q.
  destruct (is_constant n l) eqn:Cl.
  - destruct (const_EConst k l Al Cl) as [c ->]. rewrite NV.
    unfold const_eq, omap in K. cbn [unwrap is_constant bind] in *.
    destruct op; conj_eqs;
      rewrite ?Sr; try reflexivity; contradiction.
  - destruct (is_constant n r) eqn:Cr.
    + destruct (const_EConst k r Ar Cr) as [c ->]. rewrite NV2.
      unfold const_eq, omap in K. cbn [unwrap is_constant bind] in *.
      destruct op; conj_eqs;
        rewrite ?Sl; try reflexivity; contradiction.
    + destruct op; try (rewrite Sl, Sr; reflexivity); [|contradiction].
      destruct l, r; try (rewrite Sl, Sr; reflexivity).
      destruct Al as [A _], Ar as [B _]. simpl. exact (dot_dotv k _ _ A B).
Qed.

Lemma af_simplify : forall k e, af k e -> simplify n e = Ok (nrm e).
Proof.
  intros k e; induction e as [d|i|i t|op a IH|lo hi w a _ _ IH|op l r IHl IHr|es _] using expr_ind';
    intros A; try reflexivity.
  - destruct A as [A C]. cbn [simplify nrm]. destruct (is_constant n a) eqn:Q.
    + destruct (u_can_simplify op) eqn:U; [specialize (C eq_refl); discriminate|].
      destruct (const_EConst k a A Q) as [c ->]. reflexivity.
    + rewrite IH by assumption. reflexivity.
  - cbn [simplify nrm]. destruct (is_constant n a) eqn:Q.
    + destruct (const_EConst k a A Q) as [c ->]. reflexivity.
    + rewrite IH by assumption. reflexivity.
  - destruct A as [Al [Ar Q]]. apply (quiet_simplify k); auto.
Qed.

Lemma dotl_bin : forall a b acc, (exists op l r, acc = EBin op l r) -> exists op l r, dotl acc a b = EBin op l r.
Proof. induction a; destruct b; intros acc H; simpl; auto. apply IHa. eauto. Qed.
Lemma dotv_bin : forall k a b, length a = S k -> length b = S k -> exists op l r, dotv a b = EBin op l r.
Proof. intros k [|x a] [|y b] A B; try discriminate. simpl. apply dotl_bin. eauto. Qed.

Lemma dotl_const : forall a b acc, is_constant n acc = false -> is_constant n (dotl acc a b) = false.
Proof. induction a; destruct b; intros acc H; simpl; auto. apply IHa. simpl. rewrite H. reflexivity. Qed.

Lemma nrm_isc : forall k e, af k e -> is_constant n (nrm e) = is_constant n e.
Proof.
  intros k e; induction e as [d|i|i t|op a IH|lo hi w a _ _ IH|op l r IHl IHr|es _] using expr_ind';
    intros A; try reflexivity.
  destruct A as [Al [Ar [Q K]]].
  assert (D : nrm (EBin op l r) = EBin op (nrm l) (nrm r) \/ exists a b, op = BMult /\ l = EVec a /\ r = EVec b).
  { destruct op, l, r; auto; right; eauto. }
  destruct D as [->|[a [b [-> [-> ->]]]]].
  - simpl. rewrite IHl, IHr by assumption. reflexivity.
  - destruct Al as [La Fa], Ar as [Lb Fb]. destruct a as [|x a], b as [|y b]; try discriminate.
    simpl. apply dotl_const. simpl. inversion Fa as [|? ? [i [t ->]] _]; subst. reflexivity.
Qed.

Lemma nrm_const_eq : forall k e c, af k e -> const_eq n (nrm e) c = const_eq n e c.
Proof.
  intros k e c A. unfold const_eq. rewrite (nrm_isc k) by exact A.
  destruct (is_constant n e) eqn:C; [|reflexivity].
  destruct (const_EConst k e A C) as [d ->]. reflexivity.
Qed.

Lemma nrm_vec : forall k e es, af k e -> nrm e = EVec es -> e = EVec es.
Proof.
  intros k e es A H. destruct e; simpl in *; try discriminate; auto.
  destruct A as [Al [Ar Q]].
  destruct op; try discriminate. destruct e1; try discriminate. destruct e2; try discriminate.
  destruct Al as [La _], Ar as [Lb _]. destruct (dotv_bin _ _ _ La Lb) as [op [l [r E]]]. congruence.
Qed.

(** Final: nothing can be simplified. *)
Definition fin (e : expr) : Prop := can_simplify n e = Ok false.

Lemma pd_fin : forall e, pdlike e -> fin e.
Proof. intros e [i [t ->]]. reflexivity. Qed.
Lemma pd_isc : forall e, pdlike e -> is_constant n e = false.
Proof. intros e [i [t ->]]. reflexivity. Qed.
Lemma pd_novec : forall e es, pdlike e -> e <> EVec es.
Proof. intros e es [i [t ->]]. discriminate. Qed.

Lemma const_eq_f : forall e c, is_constant n e = false -> const_eq n e c = Ok false.
Proof. intros e c H. unfold const_eq. rewrite H. reflexivity. Qed.

Lemma fin_mult_pd : forall x y, pdlike x -> pdlike y -> fin (EBin BMult x y).
Proof.
  intros x y [i [t ->]] [j [s ->]]. reflexivity.
Qed.
Lemma quiet_fin : forall op l r, quiet op l r -> fin l -> fin r ->
  (op = BMult -> forall a b, l = EVec a -> r = EVec b -> False) -> fin (EBin op l r).
Proof.
  intros op l r [Q K] Fl Fr V. unfold fin in *. cbn [can_simplify]. rewrite Q.
  destruct op; repeat match goal with H : _ /\ _ |- _ => destruct H end;
    repeat match goal with H : const_eq n _ _ = Ok false |- _ => rewrite H; clear H end;
    cbn [oor bind]; rewrite ?Fl, ?Fr; try reflexivity.
  destruct l, r; rewrite ?Fl, ?Fr; try reflexivity. exfalso. eapply V; reflexivity.
Qed.

Lemma dotl_fin : forall a b acc, fin acc -> is_constant n acc = false -> (forall es, acc <> EVec es) ->
  Forall pdlike a -> Forall pdlike b -> fin (dotl acc a b).
Proof.
  induction a as [|x a IH]; destruct b as [|y b]; intros acc F C V A B; simpl; auto.
  inversion A; inversion B; subst. apply IH; auto; try discriminate.
  - apply quiet_fin; auto; try discriminate.
    + split; [rewrite C; reflexivity|]. split; [apply const_eq_f; exact C|].
      apply const_eq_f. simpl. rewrite pd_isc; auto.
    + apply fin_mult_pd; auto.
  - simpl. rewrite C. reflexivity.
Qed.
Lemma dotv_fin : forall k a b, length a = S k -> length b = S k -> Forall pdlike a -> Forall pdlike b ->
  fin (dotv a b).
Proof.
  intros k [|x a] [|y b] La Lb A B; try discriminate. inversion A; inversion B; subst. simpl.
  apply dotl_fin; auto; try discriminate.
  - apply fin_mult_pd; auto.
  - simpl. rewrite pd_isc; auto.
Qed.

Lemma nrm_fin : forall k e, af k e -> fin (nrm e).
Proof.
  intros k e; induction e as [d|i|i t|op a IH|lo hi w a _ _ IH|op l r IHl IHr|es _] using expr_ind';
    intros A; try reflexivity.
  - exact (IH (proj1 A)).
  - exact (IH A).
  - destruct A as [Al [Ar Q]].
    assert (D : nrm (EBin op l r) = EBin op (nrm l) (nrm r) /\ (op = BMult -> forall a b, l = EVec a -> r = EVec b -> False)
                \/ exists a b, op = BMult /\ l = EVec a /\ r = EVec b).
    { destruct op, l, r; try (left; split; [reflexivity|intros; discriminate]); right; eauto. }
    destruct D as [[-> V]|[a [b [-> [-> ->]]]]].
    + apply quiet_fin; auto.
      * destruct Q as [Q K]. split; [rewrite !(nrm_isc k); auto|].
        destruct op; rewrite ?(nrm_const_eq k); auto.
      * intros O a b E1 E2. apply (V O a b); eapply nrm_vec; eauto.
    + destruct Al, Ar. simpl. eapply dotv_fin; eauto.
Qed.

Lemma oor_false : forall a b, oor a b = Ok false -> a = Ok false /\ b = Ok false.
Proof. intros [[]| |] b H; try discriminate; auto. Qed.

Lemma fin_nrm : forall k e, af k e -> fin e -> nrm e = e.
Proof.
  intros k e; induction e as [d|i|i t|op a IH|lo hi w a _ _ IH|op l r IHl IHr|es _] using expr_ind';
    intros A F; try reflexivity.
  - simpl. rewrite IH; auto. exact (proj1 A).
  - simpl. rewrite IH; auto.
  - destruct A as [Al [Ar [Q K]]]. unfold fin in *. cbn [can_simplify] in F. rewrite Q in F.
    assert (FF : can_simplify n l = Ok false /\ can_simplify n r = Ok false /\
      (op = BMult -> forall a b, l = EVec a -> r = EVec b -> False)).
    { destruct op; repeat match goal with H : _ /\ _ |- _ => destruct H end;
        repeat match goal with H : const_eq n _ _ = Ok false |- _ => rewrite H in F; clear H end;
        cbn [oor bind] in F; try contradiction.
      all: try (apply oor_false in F as [F1 F2]; split; [exact F1|]; split; [exact F2|intros; discriminate]).
      destruct l, r; try discriminate F;
        (apply oor_false in F as [F1 F2]; split; [exact F1|]; split; [exact F2|intros; discriminate]). }
    destruct FF as [Fl [Fr V]].
    assert (D : nrm (EBin op l r) = EBin op (nrm l) (nrm r)).
    { destruct op, l, r; try reflexivity. exfalso. eapply V; reflexivity. }
    rewrite D, IHl, IHr; auto.
Qed.

Lemma af_top : forall k e, af k e -> simplify_top n e = Ok (nrm e).
Proof.
  intros k e A. pose proof (nrm_fin k e A) as F.
  assert (T : exists b, can_simplify n e = Ok b).
  { clear F. revert A. induction e as [d|i|i t|op a IH|lo hi w a _ _ IH|op l r IHl IHr|es _] using expr_ind';
      intros A; simpl; eauto.
    - exact (IH (proj1 A)).
    - destruct A as [Al [Ar [Q K]]]. rewrite Q.
      destruct (IHl Al) as [bl ->], (IHr Ar) as [br ->].
      destruct op; repeat match goal with H : _ /\ _ |- _ => destruct H end;
        repeat match goal with H : const_eq n _ _ = Ok false |- _ => rewrite H; clear H end; cbn [oor bind];
        destruct bl, br; cbn [oor bind]; eauto; destruct l; eauto; destruct r; eauto. }
  destruct T as [[] C].
  - rewrite (top_step n e (nrm e) C (af_simplify k e A)). exact (top_done n _ F).
  - rewrite (top_done n e C). rewrite (fin_nrm k e A C). reflexivity.
Qed.

Lemma dotl_af : forall k a b acc, af k acc -> is_constant n acc = false ->
  Forall pdlike a -> Forall pdlike b -> af k (dotl acc a b).
Proof.
  intros k a; induction a as [|x a IH]; destruct b as [|y b]; intros acc F C A B; simpl; auto.
  inversion A as [|? ? Px A']; inversion B as [|? ? Py B']; subst. apply IH; auto.
  - simpl. split; [exact F|]. destruct Px as [i [t ->]], Py as [j [s ->]]. simpl.
    repeat split; auto; try (simpl; rewrite C; reflexivity). apply const_eq_f; exact C.
  - simpl. rewrite C. reflexivity.
Qed.
Lemma dotv_af : forall k k' a b, length a = S k' -> length b = S k' -> Forall pdlike a -> Forall pdlike b -> af k (dotv a b).
Proof.
  intros k k' [|x a] [|y b] La Lb A B; try discriminate.
  inversion A as [|? ? Px A']; inversion B as [|? ? Py B']; subst. simpl.
  destruct Px as [i [t ->]], Py as [j [s ->]].
  apply dotl_af; auto. simpl. repeat split; auto.
Qed.
Lemma nrm_af : forall k e, af k e -> af k (nrm e).
Proof.
  intros k e; induction e as [d|i|i t|op a IH|lo hi w a _ _ IH|op l r IHl IHr|es _] using expr_ind';
    intros A; try exact A.
  - destruct A as [A C]. split; [auto|]. rewrite (nrm_isc k); auto.
  - exact (IH A).
  - pose proof A as [Al [Ar Q]].
    assert (D : nrm (EBin op l r) = EBin op (nrm l) (nrm r) \/ exists a b, op = BMult /\ l = EVec a /\ r = EVec b).
    { destruct op, l, r; auto; right; eauto. }
    destruct D as [->|[a [b [-> [-> ->]]]]].
    + split; [auto|]. split; [auto|]. destruct Q as [Q K]. split; [rewrite !(nrm_isc k); auto|].
      destruct op; rewrite ?(nrm_const_eq k); auto.
    + destruct Al, Ar. simpl. eapply dotv_af; eauto.
Qed.

(** Replacements that the substitutions and simplifications leave alone. *)
Definition target (op : uop) : Prop := op = UGrad \/ op = UDiv.
Definition stable (k : nat) (r : expr) : Prop :=
  af k r /\ nrm r = r /\ is_constant n r = false /\
  (forall op0 t0 r0, target op0 -> rep op0 0 t0 r0 r = r) /\ (forall i t, r <> EFun i t).

Lemma rep_pd : forall op0 t0 r0 x, target op0 -> pdlike x -> rep op0 0 t0 r0 x = x.
Proof.
  intros op0 t0 r0 x T [i [t ->]]. simpl. destruct T as [->| ->]; simpl; rewrite andb_false_r; reflexivity.
Qed.
Lemma rep_pds : forall op0 t0 r0 l, target op0 -> Forall pdlike l -> map (rep op0 0 t0 r0) l = l.
Proof.
  intros op0 t0 r0 l T F; induction F as [|x l P F IH]; simpl; auto. rewrite IH, rep_pd; auto.
Qed.

Lemma rep_isc : forall op0 t0 r0 k e, stable k r0 -> is_constant n (rep op0 0 t0 r0 e) = is_constant n e.
Proof.
  intros op0 t0 r0 k e [_ [_ [C _]]]; induction e as [d|i|i t|op a IH|lo hi w a _ _ IH|op l r IHl IHr|es _] using expr_ind';
    try reflexivity.
  - simpl. destruct a; try reflexivity. destruct (_ && _ && _); auto.
  - simpl. rewrite IHl, IHr. reflexivity.
Qed.
Lemma rep_const_eq : forall op0 t0 r0 k e c, stable k r0 -> af k e ->
  const_eq n (rep op0 0 t0 r0 e) c = const_eq n e c.
Proof.
  intros op0 t0 r0 k e c S A. unfold const_eq. rewrite (rep_isc op0 t0 r0 k e S).
  destruct (is_constant n e) eqn:C; [|reflexivity].
  destruct (const_EConst k e A C) as [d ->]. reflexivity.
Qed.
Lemma rep_af : forall op0 t0 r0 k e, target op0 -> stable k r0 -> af k e -> af k (rep op0 0 t0 r0 e).
Proof.
  intros op0 t0 r0 k e T S; induction e as [d|i|i t|op a IH|lo hi w a _ _ IH|op l r IHl IHr|es _] using expr_ind';
    intros A; try exact A.
  - assert (G : af k (EUn op (rep op0 0 t0 r0 a))).
    { destruct A as [A C]. split; [auto|]. rewrite (rep_isc op0 t0 r0 k a S). exact C. }
    simpl. destruct a; try exact G. destruct (_ && _ && _); [exact (proj1 S)|exact A].
  - exact (IH A).
  - destruct A as [Al [Ar [Q K]]]. simpl. split; [auto|]. split; [auto|].
    split; [rewrite !(rep_isc op0 t0 r0 k _ S); exact Q|].
    destruct op; rewrite ?(rep_const_eq op0 t0 r0 k); auto.
  - destruct A as [L F]. simpl. rewrite rep_pds; auto.
Qed.

(** The result of any number of such substitutions. *)
Definition table := uop -> N -> option expr.
Definition tms (l r : expr) : expr :=
  match l, r with EVec a, EVec b => dotv a b | _, _ => EBin BMult l r end.
Fixpoint cartK (K : table) (e : expr) : expr :=
  match e with
  | EConst _ | EVar _ | EFun _ _ | EVec _ => e
  | EUn op a =>
      match a with
      | EFun i t =>
          if N.eqb 0 i then match K op t with Some r => r | None => e end else e
      | _ => EUn op (cartK K a)
      end
  | EInt lo hi v a => EInt lo hi v (cartK K a)
  | EBin op l r =>
      match op with BMult => tms (cartK K l) (cartK K r) | _ => EBin op (cartK K l) (cartK K r) end
  end.

Definition ext (K : table) (op0 : uop) (t0 : N) (r0 : expr) : table :=
  fun op t => match K op t with
              | Some r => Some r
              | None => if N.eqb t0 t && u_equal op op0 then Some r0 else None
              end.
Definition ok (k : nat) (K : table) : Prop := forall op t r, K op t = Some r -> stable k r.

Fixpoint vfree (e : expr) : Prop :=
  match e with
  | EConst _ | EVar _ | EFun _ _ => True
  | EUn _ a | EInt _ _ _ a => vfree a
  | EBin _ l r => vfree l /\ vfree r
  | EVec _ => False
  end.

Lemma cartK_empty : forall e, vfree e -> cartK (fun _ _ => None) e = e.
Proof.
  induction e as [d|i|i t|op a IH|lo hi w a _ _ IH|op l r IHl IHr|es _] using expr_ind'; intros V; try reflexivity.
  - cbn [cartK vfree] in *. rewrite IH by exact V. destruct a; try reflexivity. destruct (N.eqb 0 id); reflexivity.
  - cbn [cartK vfree] in *. rewrite IH by exact V. reflexivity.
  - destruct V as [Vl Vr]. simpl. rewrite IHl, IHr by assumption. destruct op; try reflexivity.
    destruct l; try reflexivity. contradiction.
Qed.

Lemma cartK_fun : forall k K e, ok k K -> vfree e -> forall i t, cartK K e = EFun i t -> e = EFun i t.
Proof.
  intros k K e O V i t H. destruct e as [c|j|j s|op a|lo hi w a|op l r|es]; simpl in *; try discriminate; auto.
  - destruct a; try discriminate. destruct (N.eqb 0 id); [|discriminate].
    destruct (K op tag) as [r|] eqn:E; [|discriminate]. destruct (O _ _ _ E) as [_ [_ [_ [_ NF]]]].
    destruct (NF _ _ H).
  - destruct op; try discriminate. unfold tms in H.
    destruct (cartK K l); try discriminate. destruct (cartK K r); try discriminate.
    destruct es, es0; simpl in H; try discriminate.
    destruct (dotl_bin es es0 (EBin BMult e e0)) as [op [l' [r' E]]]; [eauto|]. congruence.
Qed.

Lemma rep_dotl : forall op0 t0 r0 a b acc, target op0 -> Forall pdlike a -> Forall pdlike b ->
  rep op0 0 t0 r0 (dotl acc a b) = dotl (rep op0 0 t0 r0 acc) a b.
Proof.
  intros op0 t0 r0 a; induction a as [|x a IH]; destruct b as [|y b]; intros acc T A B; simpl; auto.
  inversion A; inversion B; subst. rewrite IH by assumption. cbn [rep].
  rewrite (rep_pd op0 t0 r0 x), (rep_pd op0 t0 r0 y) by assumption. reflexivity.
Qed.
Lemma rep_dotv : forall op0 t0 r0 a b, target op0 -> Forall pdlike a -> Forall pdlike b ->
  rep op0 0 t0 r0 (dotv a b) = dotv a b.
Proof.
  intros op0 t0 r0 [|x a] [|y b] T A B; try reflexivity. inversion A; inversion B; subst. simpl.
  rewrite rep_dotl by assumption. cbn [rep].
  rewrite (rep_pd op0 t0 r0 x), (rep_pd op0 t0 r0 y) by assumption. reflexivity.
Qed.

Lemma nrm_tms : forall k L R, af k L -> af k R -> nrm (EBin BMult L R) = tms (nrm L) (nrm R).
Proof.
  intros k L R A B.
  destruct L as [| | | | |opl Ll Lr|a]; try reflexivity.
  - cbn [nrm]. unfold tms. destruct (nrm (EBin opl Ll Lr)) eqn:E; try (cbn [nrm] in E; rewrite E; reflexivity).
    exfalso. pose proof (nrm_vec k _ _ A E). discriminate.
  - destruct R as [| | | | |opr Rl Rr|b]; try reflexivity.
    cbn [nrm]. unfold tms. destruct (nrm (EBin opr Rl Rr)) eqn:E; try (cbn [nrm] in E; rewrite E; reflexivity).
    exfalso. pose proof (nrm_vec k _ _ B E). discriminate.
Qed.

Lemma af_cartK : forall k K e, ok k K -> af k e -> vfree e ->
  af k (cartK K e) /\ is_constant n (cartK K e) = is_constant n e.
Proof.
  intros k K e O; induction e as [d|i|i t|op a IH|lo hi w a _ _ IH|op l r IHl IHr|es _] using expr_ind';
    intros A V; try (split; [exact A|reflexivity]).
  - assert (G : af k (EUn op (cartK K a)) /\ is_constant n (EUn op (cartK K a)) = is_constant n (EUn op a)).
    { destruct A as [A C]. destruct (IH A V) as [A' C']. split; [|reflexivity]. split; [exact A'|].
      rewrite C'. exact C. }
    simpl. destruct a; try exact G. destruct (N.eqb 0 id); [|split; [exact A|reflexivity]].
    destruct (K op tag) eqn:E; [|split; [exact A|reflexivity]].
    destruct (O _ _ _ E) as [P [_ [C _]]]. split; [exact P|exact C].
  - split; [|reflexivity]. exact (proj1 (IH A V)).
  - destruct A as [Al [Ar [Q KK]]], V as [Vl Vr]. destruct (IHl Al Vl) as [Bl Cl], (IHr Ar Vr) as [Br Cr].
    assert (CE : forall x c, af k x -> af k (cartK K x) -> is_constant n (cartK K x) = is_constant n x ->
      vfree x -> const_eq n (cartK K x) c = const_eq n x c).
    { intros x c Ax Bx Cx Vx. unfold const_eq. rewrite Cx. destruct (is_constant n x) eqn:D; [|reflexivity].
      destruct (const_EConst k x Ax D) as [z ->]. reflexivity. }
    assert (G : af k (EBin op (cartK K l) (cartK K r)) /\
                is_constant n (EBin op (cartK K l) (cartK K r)) = is_constant n (EBin op l r)).
    { split; [|simpl; rewrite Cl, Cr; reflexivity]. simpl. split; [exact Bl|]. split; [exact Br|].
      split; [rewrite Cl, Cr; exact Q|]. destruct op; rewrite ?CE; auto. }
    simpl. destruct op; try exact G. unfold tms.
    destruct (cartK K l); try exact G. destruct (cartK K r); try exact G.
    destruct Bl as [L1 F1], Br as [L2 F2]. split; [eapply dotv_af; eauto|].
    simpl in Q. rewrite Q.
    destruct es as [|x es], es0 as [|y es0]; try discriminate. simpl. apply dotl_const. simpl.
    inversion F1 as [|? ? [i [t ->]] _]; subst. reflexivity.
Qed.

Lemma pd_nrm_dotl : forall a b acc, Forall pdlike a -> Forall pdlike b -> nrm acc = acc ->
  nrm (dotl acc a b) = dotl acc a b.
Proof.
  induction a as [|x a IH]; destruct b as [|y b]; intros acc A B N; simpl; auto.
  inversion A as [|? ? [i [t ->]] A']; inversion B as [|? ? [j [s ->]] B']; subst. apply IH; auto.
  simpl. rewrite N. reflexivity.
Qed.

Lemma cartK_step : forall k K op0 t0 r0 e, ok k K -> target op0 -> stable k r0 -> af k e -> vfree e ->
  nrm (rep op0 0 t0 r0 (cartK K e)) = cartK (ext K op0 t0 r0) e.
Proof.
  intros k K op0 t0 r0 e O T S; induction e as [d|i|i t|op a IH|lo hi w a _ _ IH|op l r IHl IHr|es _] using expr_ind';
    intros A V; try reflexivity.
  - assert (G : nrm (rep op0 0 t0 r0 (cartK K a)) = cartK (ext K op0 t0 r0) a) by exact (IH (proj1 A) V).
    assert (H : (forall i t, cartK K a <> EFun i t) ->
      nrm (rep op0 0 t0 r0 (EUn op (cartK K a))) = EUn op (cartK (ext K op0 t0 r0) a)).
    { intros NF. cbn [rep]. destruct (cartK K a) eqn:E; try (cbn [nrm]; rewrite G; reflexivity).
      exfalso. eapply NF. reflexivity. }
    assert (NF : (forall i t, a <> EFun i t) -> forall i t, cartK K a <> EFun i t).
    { intros N i t E. apply (N i t). eapply cartK_fun; eauto. }
    cbn [cartK]. destruct a; try (apply H; apply NF; discriminate).
    unfold ext. destruct (N.eqb 0 id) eqn:EI.
    + destruct (K op tag) eqn:EK.
      * destruct (O _ _ _ EK) as [_ [N1 [_ [R1 _]]]]. rewrite R1 by exact T. exact N1.
      * cbn [rep]. rewrite EI. cbn [andb]. destruct (N.eqb t0 tag && u_equal op op0); [|reflexivity].
        exact (proj1 (proj2 S)).
    + cbn [rep]. rewrite EI. reflexivity.
  - cbn [cartK rep nrm]. rewrite IH by assumption. reflexivity.
  - destruct A as [Al [Ar Q]], V as [Vl Vr]. specialize (IHl Al Vl). specialize (IHr Ar Vr).
    destruct (af_cartK k K l O Al Vl) as [Bl _], (af_cartK k K r O Ar Vr) as [Br _].
    cbn [cartK]. destruct op; try (cbn [rep nrm]; rewrite IHl, IHr; reflexivity).
    rewrite <- IHl, <- IHr.
    assert (G : nrm (rep op0 0 t0 r0 (EBin BMult (cartK K l) (cartK K r))) =
      tms (nrm (rep op0 0 t0 r0 (cartK K l))) (nrm (rep op0 0 t0 r0 (cartK K r)))).
    { cbn [rep]. apply (nrm_tms k); apply rep_af; assumption. }
    unfold tms at 1. destruct (cartK K l) as [| | | | | |a]; try exact G.
    destruct (cartK K r) as [| | | | | |b]; try exact G.
    destruct Bl as [L1 F1], Br as [L2 F2].
    rewrite rep_dotv by assumption. simpl. rewrite !rep_pds by assumption.
    destruct a as [|x a], b as [|y b]; try discriminate. simpl.
    inversion F1 as [|? ? [i [t ->]] F1']; inversion F2 as [|? ? [j [s ->]] F2']; subst.
    apply pd_nrm_dotl; auto.
  - destruct V.
Qed.

Lemma subst_step : forall k K op0 t0 r0 e, ok k K -> target op0 -> stable k r0 -> af k e -> vfree e ->
  subst1_top n (EUn op0 (EFun 0 t0)) r0 (cartK K e) = Ok (cartK (ext K op0 t0 r0) e).
Proof.
  intros k K op0 t0 r0 e O T S A V. unfold subst1_top. rewrite subst1_rep. cbn [bind].
  destruct (af_cartK k K e O A V) as [B _].
  rewrite (af_top k) by (apply rep_af; assumption). rewrite (cartK_step k) by assumption. reflexivity.
Qed.

Lemma ok_ext : forall k K op0 t0 r0, ok k K -> stable k r0 -> ok k (ext K op0 t0 r0).
Proof.
  intros k K op0 t0 r0 O S op t r H. unfold ext in H. destruct (K op t) eqn:E.
  - inversion H; subst. eapply O; eauto.
  - destruct (_ && _); inversion H; subst. exact S.
Qed.

Definition kof (d : dim) : nat := pred (coords d).
Lemma stable_grad : forall d t, stable (kof d) (grad_repl n d (EFun 0 t)).
Proof.
  intros d t. split; [|split; [|split; [|split]]].
  - destruct d; simpl; repeat split; auto; repeat constructor; try discriminate; unfold pdlike, fs_diff; eauto.
  - destruct d; reflexivity.
  - destruct d; reflexivity.
  - intros op0 t0 r0 [->| ->]; destruct d; simpl; rewrite ?andb_false_r; reflexivity.
  - destruct d; discriminate.
Qed.
Lemma stable_div : forall d t, stable (kof d) (div_repl n d (EFun 0 t)).
Proof.
  intros d t. split; [|split; [|split; [|split]]].
  - destruct d; simpl; repeat split; auto; discriminate.
  - destruct d; reflexivity.
  - destruct d; reflexivity.
  - intros op0 t0 r0 [->| ->]; destruct d; simpl; rewrite ?andb_false_r; reflexivity.
  - destruct d; discriminate.
Qed.

Lemma sum_dotl : forall a b acc, fold_left (fun x y => EBin BPlus x y) (products a b) acc = dotl acc a b.
Proof. induction a; destruct b; intros acc; simpl; auto. apply IHa. Qed.
Lemma sum_dotv : forall a b : list expr, sum_of (products a b) = dotv a b.
Proof. intros [|x a] [|y b]; try reflexivity. simpl. apply sum_dotl. Qed.

Lemma times_tms : forall l r : expr, times l r = tms l r.
Proof. intros [] []; simpl; try reflexivity. apply sum_dotv. Qed.

Definition full (d : dim) : table :=
  ext (ext (ext (ext (fun _ _ => None) UGrad 0 (grad_repl n d (EFun 0 0)))
    UGrad 1 (grad_repl n d (EFun 0 1))) UDiv 0 (div_repl n d (EFun 0 0))) UDiv 1 (div_repl n d (EFun 0 1)).

Lemma cart_cartK : forall d e, cartK (full d) e = cart d e.
Proof.
  intros d e; induction e as [c|i|i t|op a IH|lo hi w a _ _ IH|op l r IHl IHr|es _] using expr_ind'; try reflexivity.
  - cbn [cartK cart]. destruct a; cbn [is_uv]; try (rewrite IH; destruct op; reflexivity).
    unfold full, ext. rewrite (N.eqb_sym 0 id), (N.eqb_sym 0 tag), (N.eqb_sym 1 tag).
    destruct (N.eqb_spec id 0) as [->|I]; cbn [andb]; [|destruct op; reflexivity].
    destruct (N.eqb_spec tag 0) as [->|T0]; [destruct op, d; reflexivity|].
    destruct (N.eqb_spec tag 1) as [->|T1]; [destruct op, d; reflexivity|].
    cbn [andb orb]. destruct op; reflexivity.
  - cbn [cartK cart]. rewrite IH. reflexivity.
  - cbn [cartK cart]. rewrite IHl, IHr. destruct op; try reflexivity. symmetry. apply times_tms.
Qed.

Lemma tidy_vfree : forall e : expr, tidy e -> vfree e.
Proof.
  induction e as [c|i|i t|op a IH|lo hi w a _ _ IH|op l r IHl IHr|es _] using expr_ind'; intros H; simpl; auto.
  - apply IH. intros s R. apply H. constructor; exact R.
  - apply IH. intros s R. apply H. constructor; exact R.
  - split; [apply IHl|apply IHr]; intros s R; apply H; [apply re_l|apply re_r]; exact R.
  - exact (H _ (re_refl _)).
Qed.

Lemma numeric_u : forall op, u_can_simplify op = true -> numeric_uop op.
Proof. intros []; simpl; auto; discriminate. Qed.

Lemma tidy_af : forall k e, tidy e -> fin e -> af k e.
Proof.
  intros k e; induction e as [c|i|i t|op a IH|lo hi w a _ _ IH|op l r IHl IHr|es _] using expr_ind'; intros H F; simpl; auto.
  - assert (A : af k a) by (apply IH; [intros s R; apply H; constructor; exact R|exact F]).
    split; [exact A|]. intros U. destruct (is_constant n a) eqn:C; auto. exfalso.
    destruct (const_EConst k a A C) as [c ->]. exact (H _ (re_refl _) (numeric_u _ U)).
  - apply IH; [intros s R; apply H; constructor; exact R|exact F].
  - unfold fin in F. cbn [can_simplify] in F.
    destruct (is_constant n l && is_constant n r) eqn:Q; [discriminate|].
    assert (Hl : tidy l) by (intros s R; apply H; apply re_l; exact R).
    assert (Hr : tidy r) by (intros s R; apply H; apply re_r; exact R).
    assert (NV : forall es, l <> EVec es) by (intros es ->; exact (Hl _ (re_refl _))).
    assert (D : op <> BUnaryId) by (intros ->; exact (H _ (re_refl _))).
    assert (G : fin l /\ fin r /\ quiet op l r).
    { unfold fin, quiet. rewrite Q. destruct op; try (destruct D; reflexivity);
        repeat (apply oor_false in F as [? F]); auto.
      assert (F' : oor (can_simplify n l) (can_simplify n r) = Ok false).
      { destruct l; try exact F. destruct (NV es eq_refl). }
      apply oor_false in F' as [? ?]; auto 10. }
    destruct G as [Fl [Fr G]]. split; [apply IHl; assumption|]. split; [apply IHr; assumption|exact G].
  - destruct (H _ (re_refl _)).
Qed.

Lemma acs_exact : forall d e, can_simplify n e = Ok false -> tidy e ->
  apply_coordinate_system n d e = Ok (cart d e).
Proof.
  intros d e F H. pose proof (tidy_vfree e H) as V. pose proof (tidy_af (kof d) e H F) as A.
  unfold apply_coordinate_system. rewrite <- (cartK_empty e V) at 1.
  assert (O0 : ok (kof d) (fun _ _ => None)) by (intros op t r E; discriminate).
  pose proof (stable_grad d) as SG. pose proof (stable_div d) as SD.
  rewrite (subst_step (kof d)); auto; [|left; reflexivity]. cbn [bind].
  rewrite (subst_step (kof d)); auto; [|apply ok_ext; auto|left; reflexivity]. cbn [bind].
  rewrite (subst_step (kof d)); auto; [|repeat apply ok_ext; auto|right; reflexivity]. cbn [bind].
  rewrite (subst_step (kof d)); auto; [|repeat apply ok_ext; auto|right; reflexivity].
  fold (full d). rewrite cart_cartK. reflexivity.
Qed.

(** What the transformed expression contains. *)
Lemma reach_bin : forall op (l r s : expr), reachable s (EBin op l r) ->
  s = EBin op l r \/ reachable s l \/ reachable s r.
Proof. intros op l r s H; inversion H; subst; auto. Qed.
Lemma reach_un : forall op (a s : expr), reachable s (EUn op a) -> s = EUn op a \/ reachable s a.
Proof. intros op a s H; inversion H; subst; auto. Qed.
Lemma reach_vec : forall (es : list expr) s, reachable s (EVec es) ->
  s = EVec es \/ exists x, In x es /\ reachable s x.
Proof. intros es s H; inversion H; subst; eauto. Qed.

(** The nodes of [e]: operation and, for leaves, their content. *)
Definition kind (e : expr) : Prop :=
  match e with EBin BPlus _ _ | EBin BMult _ _ | EVec _ => True | _ => False end.

Lemma reach_sum : forall (l : list expr) s, reachable s (sum_of l) ->
  kind s \/ exists x, In x l /\ reachable s x.
Proof.
  intros [|x l] s H.
  - apply reach_vec in H as [->|[x [[] _]]]. left; exact Logic.I.
  - simpl in H. assert (G : kind s \/ reachable s x \/ exists y, In y l /\ reachable s y).
    { revert x H; induction l as [|y l IH]; intros x H; simpl in H; auto.
      destruct (IH _ H) as [K|[R|[z [I R]]]]; auto.
      - apply reach_bin in R as [->|[R|R]]; [left; exact Logic.I|auto|]. right; right. exists y. simpl; auto.
      - right; right. exists z. simpl; auto. }
    destruct G as [K|[R|[y [I R]]]]; auto.
    + right. exists x. simpl; auto.
    + right. exists y. simpl; auto.
Qed.

Lemma reach_times : forall (l r s : expr), reachable s (times l r) ->
  kind s \/ reachable s l \/ reachable s r.
Proof.
  intros l r s H.
  assert (G : reachable s (EBin BMult l r) -> kind s \/ reachable s l \/ reachable s r).
  { intros R. apply reach_bin in R as [->|R]; [left; exact Logic.I|right; exact R]. }
  unfold times in H. destruct l; try (exact (G H)). destruct r; try (exact (G H)). clear G.
  apply reach_sum in H as [K|[x [I R]]]; auto.
  unfold products in I. apply in_map_iff in I as [[a b] [<- I]].
  apply reach_bin in R as [->|[R|R]]; [left; exact Logic.I| |].
  - right; left. apply re_vec with a; [eapply in_combine_l; eauto|exact R].
  - right; right. apply re_vec with b; [eapply in_combine_r; eauto|exact R].
Qed.

Lemma in_partials : forall d t (x : expr), In x (partials d t) ->
  exists i, x = EUn (UPd i) (EFun 0 t) /\ (i < N.of_nat (coords d))%N.
Proof.
  intros d t x H. unfold partials in H. apply in_map_iff in H as [i [<- I]].
  apply in_seq in I. exists (N.of_nat i). split; [reflexivity|lia].
Qed.

(** Everything reachable in [cart d e] is a sum, product or vector, one of the new partial
    derivatives or its symbol, or a transformed node of [e]. *)
Lemma reach_cart : forall d e, vfree e -> forall s, reachable s (cart d e) ->
  kind s \/
  (exists i t op, (t = 0%N \/ t = 1%N) /\ (i < N.of_nat (coords d))%N /\ target op /\
     reachable (EUn op (EFun 0 t)) e /\ (s = EUn (UPd i) (EFun 0 t) \/ s = EFun 0 t)) \/
  (exists s0, reachable s0 e /\ s = cart d s0 /\
     match s0 with EUn op a => target op -> is_uv a = None | _ => True end).
Proof.
  intros d e; induction e as [c|i|i t|op a IH|lo hi w a _ _ IH|op l r IHl IHr|es _] using expr_ind'; intros V s H.
  - inversion H; subst. right; right. exists (EConst c). repeat split; constructor.
  - inversion H; subst. right; right. exists (EVar i). repeat split; constructor.
  - inversion H; subst. right; right. exists (EFun i t). repeat split; constructor.
  - assert (N : cart d (EUn op a) = EUn op (cart d a) -> (target op -> is_uv a = None) ->
      reachable s (EUn op (cart d a)) ->
      kind s \/
      (exists i t op0, (t = 0%N \/ t = 1%N) /\ (i < N.of_nat (coords d))%N /\ target op0 /\
        reachable (EUn op0 (EFun 0 t)) (EUn op a) /\ (s = EUn (UPd i) (EFun 0 t) \/ s = EFun 0 t)) \/
      (exists s0, reachable s0 (EUn op a) /\ s = cart d s0 /\
        match s0 with EUn op a => target op -> is_uv a = None | _ => True end)).
    { intros E U R. apply reach_un in R as [->|R].
      - right; right. exists (EUn op a). split; [constructor|]. split; [symmetry; exact E|exact U].
      - destruct (IH V s R) as [K|[[i [t [op0 [A [B [C [D F]]]]]]]|[s0 [A B]]]]; auto.
        + right; left. exists i, t, op0. repeat split; auto. constructor; exact D.
        + right; right. exists s0. split; [constructor; exact A|exact B]. }
    assert (P : forall t, is_uv a = Some t -> target op ->
      (kind s \/ exists x, In x (partials d t) /\ reachable s x) ->
      kind s \/
      (exists i t op0, (t = 0%N \/ t = 1%N) /\ (i < N.of_nat (coords d))%N /\ target op0 /\
        reachable (EUn op0 (EFun 0 t)) (EUn op a) /\ (s = EUn (UPd i) (EFun 0 t) \/ s = EFun 0 t)) \/
      (exists s0, reachable s0 (EUn op a) /\ s = cart d s0 /\
        match s0 with EUn op a => target op -> is_uv a = None | _ => True end)).
    { intros t U T [K|[x [I R]]]; auto. right; left. apply in_partials in I as [i [-> L]].
      destruct a; try discriminate. simpl in U.
      destruct (N.eqb_spec id 0) as [->|]; [|discriminate]. simpl in U.
      assert (TT : (t = 0%N \/ t = 1%N) /\ tag = t).
      { destruct (N.eqb_spec tag 0); simpl in U; [inversion U; subst; auto|].
        destruct (N.eqb_spec tag 1); simpl in U; [inversion U; subst; auto|discriminate]. }
      destruct TT as [TT ->]. exists i, t, op. repeat split; auto; [constructor|].
      apply reach_un in R as [->|R]; [auto|]. inversion R; subst; auto. }
    cbn [cart] in H. destruct op;
      try (apply N; [reflexivity|intros [Q|Q]; discriminate|exact H]);
      destruct (is_uv a) as [t|] eqn:U;
      try (apply N; [cbn [cart]; rewrite U; reflexivity|reflexivity|exact H]).
    + apply (P t); [reflexivity|left; reflexivity|]. unfold cart_grad in H. destruct d.
      * right. exists (EUn (UPd 0) (EFun 0 t)). split; [simpl; auto|exact H].
      * apply reach_vec in H as [->|H]; [left; exact Logic.I|right; exact H].
      * apply reach_vec in H as [->|H]; [left; exact Logic.I|right; exact H].
    + apply (P t); [reflexivity|right; reflexivity|]. unfold cart_div in H. exact (reach_sum _ _ H).
  - cbn [cart] in H. inversion H; subst.
    + right; right. exists (EInt lo hi w a). repeat split; constructor.
    + match goal with R : reachable s (cart d a) |- _ => destruct (IH V s R) as [K|[[i [t [op0 [A [B [C [D F]]]]]]]|[s0 [A B]]]] end; auto.
      * right; left. exists i, t, op0. repeat split; auto. constructor; exact D.
      * right; right. exists s0. split; [constructor; exact A|exact B].
  - assert (N : kind s \/ s = cart d (EBin op l r) \/ reachable s (cart d l) \/ reachable s (cart d r)).
    { cbn [cart] in *. destruct op; try (apply reach_bin in H as [->|H]; auto; fail).
      apply reach_times in H as [K|H]; auto. }
    destruct N as [K|[->|[R|R]]]; auto.
    + right; right. exists (EBin op l r). repeat split; constructor.
    + destruct (IHl (proj1 V) s R) as [K|[[i [t [op0 [A [B [C [D F]]]]]]]|[s0 [A B]]]]; auto.
      * right; left. exists i, t, op0. repeat split; auto. apply re_l; exact D.
      * right; right. exists s0. split; [apply re_l; exact A|exact B].
    + destruct (IHr (proj2 V) s R) as [K|[[i [t [op0 [A [B [C [D F]]]]]]]|[s0 [A B]]]]; auto.
      * right; left. exists i, t, op0. repeat split; auto. apply re_r; exact D.
      * right; right. exists s0. split; [apply re_r; exact A|exact B].
  - destruct V.
Qed.
End Exact.

Section Contains.
Context (n : num).
Notation expr := (RtModel.expr n).

Lemma sum_kind : forall l : list expr, (forall x, In x l -> kind n x) -> kind n (sum_of l).
Proof.
  intros [|x l] H; [exact Logic.I|]. simpl. assert (G : kind n x) by (apply H; simpl; auto). clear H.
  revert x G; induction l as [|y l IH]; intros x G; simpl; auto. apply IH. exact Logic.I.
Qed.
Lemma times_kind : forall l r : expr, kind n (times l r).
Proof.
  intros l r. unfold times. destruct l; try exact Logic.I. destruct r; try exact Logic.I.
  apply sum_kind. intros x H. unfold products in H. apply in_map_iff in H as [p [<- _]]. exact Logic.I.
Qed.
Lemma cart_fun : forall d (e : expr) i t, cart d e = EFun i t -> e = EFun i t.
Proof.
  intros d e i t H. destruct e as [c|j|j s|op a|lo hi w a|op l r|es]; try discriminate; auto.
  - cbn [cart] in H. destruct op; try discriminate; destruct (is_uv a) as [u|]; try discriminate; destruct d; discriminate.
  - cbn [cart] in H. destruct op; try discriminate. pose proof (times_kind (cart d l) (cart d r)) as K.
    rewrite H in K. destruct K.
Qed.

Lemma cart_eliminates : forall d (e : expr) op t, vfree n e -> op = UGrad \/ op = UDiv -> t = 0%N \/ t = 1%N ->
  ~ reachable (EUn op (EFun 0 t)) (cart d e).
Proof.
  intros d e op t V T TT H. apply reach_cart in H; [|exact V].
  destruct H as [K|[[i [s [o [_ [_ [_ [_ [E|E]]]]]]]]|[s0 [_ [E U]]]]]; try (destruct T; subst; discriminate).
  - destruct T; subst; destruct K.
  - destruct s0 as [c|j|j s|o a|lo hi w a|o l r|es]; try discriminate.
    + assert (E' : exists b, EUn op (EFun 0 t) = EUn o b /\ cart d a = b).
      { cbn [cart] in E. destruct o; try (eexists; split; [exact E|reflexivity]);
          rewrite U in E by (unfold target; auto); eexists; (split; [exact E|reflexivity]). }
      destruct E' as [b [E1 E2]]. injection E1 as -> <-. apply cart_fun in E2. subst a.
      specialize (U T). destruct TT; subst; discriminate.
    + cbn [cart] in E. destruct o; try discriminate. pose proof (times_kind (cart d l) (cart d r)) as K.
      rewrite <- E in K. destruct K.
Qed.

Lemma cart_introduces : forall d (e : expr) i a, vfree n e -> reachable (EUn (UPd i) a) (cart d e) ->
  (exists a0, reachable (EUn (UPd i) a0) e /\ a = cart d a0) \/
  ((i < N.of_nat (coords d))%N /\ exists t op, a = EFun 0 t /\ (t = 0%N \/ t = 1%N) /\
     (op = UGrad \/ op = UDiv) /\ reachable (EUn op (EFun 0 t)) e).
Proof.
  intros d e i a V H. apply reach_cart in H; [|exact V].
  destruct H as [K|[[j [s [o [A [B [C [D [E|E]]]]]]]]|[s0 [R [E U]]]]]; try discriminate.
  - destruct K.
  - injection E as -> ->. right. split; [exact B|]. exists s, o. auto.
  - left. destruct s0 as [c|j|j s|o b|lo hi w b|o l r|es]; try discriminate.
    + cbn [cart] in E.
      assert (E' : EUn (UPd i) a = EUn o (cart d b)).
      { destruct o; try exact E; rewrite U in E by (unfold target; auto); exact E. }
      injection E' as <- ->. eauto.
    + cbn [cart] in E. destruct o; try discriminate. pose proof (times_kind (cart d l) (cart d r)) as K.
      rewrite <- E in K. destruct K.
Qed.
End Contains.

Section Meaning.
Context {P : Type} (I : interp P) (p0 : P).
Notation expr := (RtModel.expr numR).

Lemma rep_means : forall op0 i0 t0 (r : expr),
  target op0 ->
  (forall x, i_op I op0 (i_fun I i0 t0) = Some x -> means I r x) ->
  forall e x, means I e x -> means I (rep numR op0 i0 t0 r e) x.
Proof.
  intros op0 i0 t0 r T H e; induction e as [d|i|i t|op a IH|lo hi w a _ _ IH|op a b IHa IHb|es IH] using expr_ind';
    intros x M; try exact M.
  - assert (G : means I (EUn op (rep numR op0 i0 t0 r a)) x).
    { destruct M as [y [M K]]. exists y. split; [apply IH; exact M|exact K]. }
    cbn [rep]. destruct a; try exact G.
    destruct (N.eqb i0 id && N.eqb t0 tag && u_equal op op0) eqn:E; [|exact M].
    apply andb_true_iff in E as [E O]. apply andb_true_iff in E as [E1 E2].
    apply N.eqb_eq in E1, E2. subst id tag.
    destruct M as [y [M K]]. simpl in M. subst y. apply H.
    destruct T; subst op0; destruct op; try discriminate; exact K.
  - destruct M as [y [z [u [A [B [C D]]]]]]. exists y, z, u. auto.
  - destruct M as [y [z [A [B C]]]]. exists y, z. auto.
  - cbn [rep]. apply means_vec in M as [fs [-> M]]. apply means_vec. exists fs. split; [reflexivity|].
    revert fs M; induction es as [|e es IHes]; intros [|f fs] M; simpl in *; auto.
    inversion IH; subst. destruct M; split; auto.
Qed.

Lemma subst_means : forall op0 t0 (r : expr), target op0 ->
  (forall x, i_op I op0 (i_fun I 0 t0) = Some x -> means I r x) ->
  forall e x, means I e x ->
  exists e', subst1_top numR (EUn op0 (EFun 0 t0)) r e = Ok e' /\ means I e' x.
Proof.
  intros op0 t0 r T H e x M. unfold subst1_top. rewrite subst1_rep. cbn [bind].
  apply top_means; [exact p0|]. apply rep_means; assumption.
Qed.

Lemma pd_means : forall i t x, i_op I (UPd i) (i_fun I 0 t) = Some x -> means I (EUn (UPd i) (EFun 0 t)) x.
Proof. intros i t x H. exists (i_fun I 0 t). split; [reflexivity|exact H]. Qed.

Lemma plus_means : forall a b f g, means I a (Sc f) -> means I b (Sc g) ->
  means I (EBin BPlus a b) (Sc (fun p => f p + g p)%R).
Proof.
  intros a b f g A B. exists (Sc f), (Sc g). split; [exact A|]. split; [exact B|].
  eexists. split; [reflexivity|]. intros p. reflexivity.
Qed.

Lemma grad_means : forall d t x, cartesian_interp d I -> t = 0%N \/ t = 1%N ->
  i_op I UGrad (i_fun I 0 t) = Some x -> means I (grad_repl numR d (EFun 0 t)) x.
Proof.
  intros d t x C T H. destruct (C t T) as [G _]. specialize (G x H). destruct d.
  - apply pd_means; exact G.
  - destruct G as [f [g [A [B ->]]]]. apply means_vec. eexists. split; [reflexivity|].
    simpl. repeat split; apply pd_means; assumption.
  - destruct G as [f [g [h [A [B [D ->]]]]]]. apply means_vec. eexists. split; [reflexivity|].
    simpl. repeat split; apply pd_means; assumption.
Qed.
Lemma div_means : forall d t x, cartesian_interp d I -> t = 0%N \/ t = 1%N ->
  i_op I UDiv (i_fun I 0 t) = Some x -> means I (div_repl numR d (EFun 0 t)) x.
Proof.
  intros d t x C T H. destruct (C t T) as [_ G]. specialize (G x H). destruct d.
  - apply pd_means; exact G.
  - destruct G as [f [g [A [B ->]]]]. apply plus_means; apply pd_means; assumption.
  - destruct G as [f [g [h [A [B [D ->]]]]]].
    apply (plus_means (EBin BPlus _ _) _ (fun p => f p + g p)%R h); [apply plus_means|]; apply pd_means; assumption.
Qed.

Lemma acs_means : forall d e x, cartesian_interp d I -> means I e x ->
  exists e', apply_coordinate_system numR d e = Ok e' /\ means I e' x.
Proof.
  intros d e x C M. unfold apply_coordinate_system.
  destruct (subst_means UGrad 0 (grad_repl numR d (EFun 0 0)) (or_introl eq_refl)
    (fun y H => grad_means d 0 y C (or_introl eq_refl) H) e x M) as [e1 [-> M1]]. cbn [bind].
  destruct (subst_means UGrad 1 (grad_repl numR d (EFun 0 1)) (or_introl eq_refl)
    (fun y H => grad_means d 1 y C (or_intror eq_refl) H) e1 x M1) as [e2 [-> M2]]. cbn [bind].
  destruct (subst_means UDiv 0 (div_repl numR d (EFun 0 0)) (or_intror eq_refl)
    (fun y H => div_means d 0 y C (or_introl eq_refl) H) e2 x M2) as [e3 [-> M3]]. cbn [bind].
  exact (subst_means UDiv 1 (div_repl numR d (EFun 0 1)) (or_intror eq_refl)
    (fun y H => div_means d 1 y C (or_intror eq_refl) H) e3 x M3).
Qed.
End Meaning.

(** Without u and v nothing is replaced. *)
Section Absent.
Context (n : num).
Lemma fun_away : forall (op : uop) i t (e s : expr n), ~ occurs_fun i t e -> reachable s e ->
  deep_equal n s (EUn op (EFun i t)) = Ok false.
Proof.
  intros op i t e s A R.
  assert (B : ~ occurs_fun i t s).
  { intros O. apply A. clear A. unfold occurs_fun in *.
    induction R; auto; try (constructor; auto; fail). eapply sub_vec; eauto. }
  destruct s as [c|j|j u|o a|lo hi w a|o l r|es]; try reflexivity.
  - simpl. destruct a as [c|j|j u|o' a|lo hi w a|o' l r|es]; try reflexivity.
    simpl. destruct (N.eqb i j && N.eqb t u) eqn:Q; [|reflexivity].
    apply andb_true_iff in Q. destruct Q as [Q1 Q2]. apply N.eqb_eq in Q1, Q2. subst.
    destruct B. apply sub_un, sub_refl.
  - simpl. destruct a as [c|j|j u|o' a|lo' hi' w' a|o' l r|es]; reflexivity.
Qed.

Lemma subst1_fun_absent : forall op i t (r e : expr n), ~ occurs_fun i t e ->
  subst1_top n (EUn op (EFun i t)) r e = simplify_top n e.
Proof.
  intros op i t r e A. unfold subst1_top. rewrite subst1_absent; [reflexivity|].
  intros s R. exact (fun_away op i t e s A R).
Qed.

Lemma acs_absent : forall d (e : expr n), ~ occurs_fun 0 0 e -> ~ occurs_fun 0 1 e ->
  apply_coordinate_system n d e = simplify_top n e.
Proof.
  intros d e A B. unfold apply_coordinate_system. rewrite subst1_fun_absent by exact A.
  destruct (simplify_top n e) as [e'| |] eqn:E; simpl; auto.
  assert (F : simplify_top n e' = Ok e') by (apply top_done; eapply top_result; eauto).
  assert (A' : ~ occurs_fun 0 0 e') by (intros O; apply A; exact (top_represented n e e' E _ O)).
  assert (B' : ~ occurs_fun 0 1 e') by (intros O; apply B; exact (top_represented n e e' E _ O)).
  rewrite !subst1_fun_absent by assumption. rewrite F. simpl.
  rewrite !subst1_fun_absent by assumption. rewrite F. simpl.
  rewrite !subst1_fun_absent by assumption. exact F.
Qed.

Lemma formal_stays : forall op, u_can_simplify op = false -> forall e e' : expr n, simplify_top n e = Ok e' ->
  (exists a, e = EUn op a) -> exists a, e' = EUn op a.
Proof.
  intros op U. apply (top_ind n (fun e e' => (exists a, e = EUn op a) -> exists a, e' = EUn op a)).
  - auto.
  - intros e e1 e' C S T IH [a ->]. apply IH.
    inversion S; subst; eauto; congruence.
Qed.
End Absent.
