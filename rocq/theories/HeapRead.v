(** The virtual functions that only read the heap (HeapModel.v) compute what RtModel.v computes on
    the tree. *)
From Coq Require Import ZArith NArith List Bool Arith Lia Permutation.
From Verif Require Import Outcome Num RtModel RtFacts HeapModel HeapSpec HeapFacts.
Import ListNotations.

Section HeapRead.
Context (n : num) (order : nat -> bool).
Notation mem := (mem n).
Notation expr := (expr n).
Notation has := (has n).
Notation IExpr := (IExpr n).
Notation IOp := (IOp n).
Notation IList := (IList n).

(** Same result, or both an exception (perhaps another one); nothing is claimed about UB. *)
Definition sound {A : Type} (h p : outcome A) : Prop :=
  match p with Ok x => h = Ok x | Throw _ => exists y, h = Throw y | UB => True end.

Lemma sound_refl : forall A (o : outcome A), sound o o.
Proof. intros A [x|x|]; cbn; eauto. Qed.

Lemma sound_bind : forall A B (h p : outcome A) (f g : A -> outcome B), sound h p ->
  (forall x, p = Ok x -> sound (f x) (g x)) -> sound (bind h f) (bind p g).
Proof.
  intros A B h [x|x|] f g S F; cbn in *.
  - subst. apply F. reflexivity.
  - destruct S as [y S]. subst. cbn. eauto.
  - exact I.
Qed.

Lemma sound_omap : forall A B (h p : outcome A) (f : A -> B), sound h p -> sound (omap f h) (omap f p).
Proof. intros A B h p f S. apply sound_bind; [exact S|]. intros x _. apply sound_refl. Qed.

Lemma sound_two : forall A B C b (h p : outcome A) (h' p' : outcome B) (f g : A -> B -> outcome C),
  sound h p -> sound h' p' -> (forall x y, p = Ok x -> p' = Ok y -> sound (f x y) (g x y)) ->
  sound (two b h h' f) (both p p' g).
Proof.
  intros A B C b h p h' p' f g S S' F. unfold two.
  destruct p as [x|x|], p' as [y|y|]; cbn in S, S' |- *; try exact I;
    repeat match goal with H : exists _, _ = _ |- _ => destruct H end; subst; destruct b; cbn; eauto.
Qed.

Lemma load_ok : forall (m : mem) a c, at_ m a = Some c -> load m a = Ok c.
Proof. intros m a c E. unfold load. now rewrite E. Qed.

Lemma op_apply_un : forall k (m : mem) p op x, has k m (IOp p (OUn n op)) -> op_apply n m p x = u_apply n op x.
Proof. intros k m p op x H. apply has_op_inv in H. cbn in H. unfold op_apply. now rewrite (load_ok m p _ H). Qed.

Lemma op_apply_int : forall k (m : mem) p lo hi v x, has k m (IOp p (OInt n lo hi v)) ->
  op_apply n m p x = Throw AnalyticIntegrationNotSupported.
Proof. intros k m p lo hi v x H. apply has_op_inv in H as [a [b [H _]]]. unfold op_apply. now rewrite (load_ok m p _ H). Qed.

Lemma op_apply2_bin : forall k (m : mem) p op x y, has k m (IOp p (OBin n op)) ->
  op_apply2 n m p x y = b_apply n op x y.
Proof. intros k m p op x y H. apply has_op_inv in H. cbn in H. unfold op_apply2. now rewrite (load_ok m p _ H). Qed.

Ltac start := intros k; induction k as [|k IH]; [intros m a e; intros; exfalso; eapply has_O; eassumption|].
Ltac open e H :=
  pose proof (has_expr_inv _ _ _ _ _ H) as V;
  destruct e as [c|i|i t|op x|lo hi v x|op x y|es]; cbn [heval_f hunwrap_f his_constant_f hcan_simplify_f hdeep_equal_f] in *;
  [| | |destruct V as [q [p [V [Hq Hp]]]]|destruct V as [q [p [V [Hq Hp]]]]
   |destruct V as [l [p [r [V [Hl [Hp Hr]]]]]]|destruct V as [ps [V Hl]]];
  rewrite (load_ok _ _ _ V); cbn [bind].

Lemma heval_f_ok : forall k m a e w, has k m (IExpr a e) -> sound (heval_f n order k m a w) (eval n e w).
Proof.
  start. intros m a e w H. open e H; cbn [eval].
  - reflexivity.
  - apply sound_refl.
  - apply sound_refl.
  - apply sound_bind; [now apply IH|]. intros z _. rewrite (op_apply_un k m p op z Hp). apply sound_refl.
  - apply sound_bind; [now apply IH|]. intros z _. rewrite (op_apply_int k m p lo hi v z Hp). apply sound_refl.
  - apply sound_two; [now apply IH|now apply IH|]. intros z z' _ _. rewrite (op_apply2_bin k m p op z z' Hp). apply sound_refl.
  - apply sound_refl.
Qed.

Lemma hunwrap_f_ok : forall k m a e, has k m (IExpr a e) -> sound (hunwrap_f n order k m a) (unwrap n e).
Proof.
  start. intros m a e H. open e H; cbn [unwrap].
  - reflexivity.
  - apply sound_refl.
  - apply sound_refl.
  - apply sound_bind; [now apply IH|]. intros z _. rewrite (op_apply_un k m p op z Hp). apply sound_refl.
  - apply sound_bind; [now apply IH|]. intros z _. rewrite (op_apply_int k m p lo hi v z Hp). apply sound_refl.
  - apply sound_two; [now apply IH|now apply IH|]. intros z z' _ _. rewrite (op_apply2_bin k m p op z z' Hp). apply sound_refl.
  - apply sound_refl.
Qed.

Lemma his_constant_f_ok : forall k m a e, has k m (IExpr a e) -> his_constant_f n k m a = Ok (is_constant n e).
Proof.
  start. intros m a e H. open e H; cbn [is_constant]; try reflexivity.
  rewrite (IH _ _ _ Hl). cbn [bind]. destruct (is_constant n x); cbn [andb]; [|reflexivity]. apply (IH _ _ _ Hr).
Qed.

Context (m : mem).
Hypothesis W : wf n m.

Lemma heval_ok : forall k a e w, has k m (IExpr a e) -> sound (heval n order m a w) (eval n e w).
Proof. intros k a e w H. apply heval_f_ok. now apply (has_enough n k). Qed.

Lemma hunwrap_ok : forall k a e, has k m (IExpr a e) -> sound (hunwrap n order m a) (unwrap n e).
Proof. intros k a e H. apply hunwrap_f_ok. now apply (has_enough n k). Qed.

Lemma his_constant_ok : forall k a e, has k m (IExpr a e) -> his_constant n m a = Ok (is_constant n e).
Proof. intros k a e H. apply his_constant_f_ok. now apply (has_enough n k). Qed.

Lemma both_constant_ok : forall k k' a b x y, has k m (IExpr a x) -> has k' m (IExpr b y) ->
  both_constant n m a b = Ok (is_constant n x && is_constant n y).
Proof.
  intros k k' a b x y H H'. unfold both_constant. rewrite (his_constant_ok _ _ _ H). cbn [bind].
  destruct (is_constant n x); [apply (his_constant_ok _ _ _ H')|reflexivity].
Qed.

Definition entries (e : expr) : bool := match e with EVec _ => true | _ => false end.

Lemma entries_of_ok : forall k a e, has k m (IExpr a e) ->
  match e with
  | EVec es => exists ps, entries_of n m a = Ok (Some ps) /\ has k m (IList ps es)
  | _ => entries_of n m a = Ok None
  end.
Proof.
  intros [|k] a e H; [exfalso; eapply has_O; eassumption|]. unfold entries_of. open e H; try reflexivity.
  exists ps. split; [reflexivity|]. apply (has_le n k); [exact Hl|lia].
Qed.

Lemma hconst_eq_ok : forall k a e c, has k m (IExpr a e) ->
  sound (hconst_eq n order m a c) (const_eq n e c).
Proof.
  intros k a e c H. unfold hconst_eq, const_eq. rewrite (his_constant_ok _ _ _ H). cbn [bind].
  destruct (is_constant n e); [|reflexivity]. apply sound_omap, (hunwrap_ok _ _ _ H).
Qed.

Lemma sound_oor : forall h p h' p', sound h p -> sound h' p' -> sound (oor h h') (oor p p').
Proof. intros h p h' p' S S'. apply sound_bind; [exact S|]. intros [] _; [reflexivity|exact S']. Qed.

Lemma hcan_simplify_f_ok : forall k a e, has k m (IExpr a e) ->
  sound (hcan_simplify_f n order k m a) (can_simplify n e).
Proof.
  intros k; induction k as [|k IH]; [intros a e; intros; exfalso; eapply has_O; eassumption|].
  intros a e H. open e H; cbn [can_simplify]; try (reflexivity || now apply IH).
  rewrite (both_constant_ok _ _ _ _ _ _ Hl Hr). cbn [bind].
  destruct (is_constant n x && is_constant n y); [reflexivity|].
  assert (R : sound (oor (hcan_simplify_f n order k m l) (hcan_simplify_f n order k m r)) (oor (can_simplify n x) (can_simplify n y)))
    by (apply sound_oor; now apply IH).
  pose proof (has_op_inv _ _ _ _ _ Hp) as E. cbn in E. rewrite (load_ok _ _ _ E). cbn [bind]. cbv zeta.
  destruct op.
  - repeat (apply sound_oor; [eapply hconst_eq_ok; eassumption|]). exact R.
  - repeat (apply sound_oor; [eapply hconst_eq_ok; eassumption|]). exact R.
  - repeat (apply sound_oor; [eapply hconst_eq_ok; eassumption|]).
    pose proof (entries_of_ok _ _ _ Hl) as Vl. pose proof (entries_of_ok _ _ _ Hr) as Vr.
    destruct x; try (rewrite Vl; destruct y; [..|destruct Vr as [qs [Vr _]]]; rewrite Vr; exact R).
    destruct Vl as [ps [Vl _]]. rewrite Vl.
    destruct y; [..|destruct Vr as [qs [Vr _]]]; rewrite Vr; try exact R. reflexivity.
  - repeat (apply sound_oor; [eapply hconst_eq_ok; eassumption|]). exact R.
  - reflexivity.
Qed.

Lemma hcan_simplify_ok : forall k a e, has k m (IExpr a e) ->
  sound (hcan_simplify n order m a) (can_simplify n e).
Proof. intros k a e H. apply hcan_simplify_f_ok. now apply (has_enough n k). Qed.

Lemma op_equal_ok : forall k k' p q o o', has k m (IOp p o) -> has k' m (IOp q o') ->
  op_equal n m p q = Ok (match o, o' with
    | OUn _ a, OUn _ b => u_equal a b
    | OBin _ a, OBin _ b => b_equal a b
    | OInt _ _ _ _, OInt _ _ _ _ => true
    | _, _ => false
    end).
Proof.
  intros k k' p q o o' H H'. apply has_op_inv in H. apply has_op_inv in H'. unfold op_equal.
  destruct o; [| |destruct H as [lo1 [hi1 [H _]]]]; rewrite (load_ok _ _ _ H); cbn [bind];
    (destruct o'; [| |destruct H' as [lo2 [hi2 [H' _]]]]; rewrite (load_ok _ _ _ H'); reflexivity).
Qed.

Lemma hdeep_equal_f_ok : forall k k' a b e o, has k m (IExpr a e) -> has k' m (IExpr b o) ->
  sound (hdeep_equal_f n k m a b) (deep_equal n e o).
Proof.
  intros k; induction k as [|k IH]; [intros k' a b e o H; exfalso; eapply has_O; eassumption|].
  intros k' a b e o H H'. destruct k' as [|k']; [exfalso; eapply has_O; eassumption|].
  open e H.
  - pose proof (has_expr_inv _ _ _ _ _ H') as V'.
    destruct o; repeat match type of V' with exists _, _ => destruct V' as [? V'] | _ /\ _ => destruct V' as [V' ?] end;
      rewrite (load_ok _ _ _ V'); reflexivity.
  - pose proof (has_expr_inv _ _ _ _ _ H') as V'.
    destruct o; repeat match type of V' with exists _, _ => destruct V' as [? V'] | _ /\ _ => destruct V' as [V' ?] end;
      rewrite (load_ok _ _ _ V'); reflexivity.
  - pose proof (has_expr_inv _ _ _ _ _ H') as V'.
    destruct o; repeat match type of V' with exists _, _ => destruct V' as [? V'] | _ /\ _ => destruct V' as [V' ?] end;
      rewrite (load_ok _ _ _ V'); reflexivity.
  - pose proof (has_expr_inv _ _ _ _ _ H') as V'.
    destruct o as [| | |op' x'|lo' hi' v' x'| |];
      repeat match type of V' with exists _, _ => destruct V' as [? V'] | _ /\ _ => destruct V' as [V' ?] end;
      rewrite (load_ok _ _ _ V'); try reflexivity; cbn [bind deep_equal];
      repeat match goal with Z : _ /\ _ |- _ => destruct Z end.
    + apply sound_bind; [eapply IH; eassumption|]. intros [] _; [|reflexivity].
      erewrite op_equal_ok by eassumption. reflexivity.
    + apply sound_bind; [eapply IH; eassumption|]. intros [] _; [|reflexivity].
      erewrite op_equal_ok by eassumption. reflexivity.
  - pose proof (has_expr_inv _ _ _ _ _ H') as V'.
    destruct o as [| | |op' x'|lo' hi' v' x'| |];
      repeat match type of V' with exists _, _ => destruct V' as [? V'] | _ /\ _ => destruct V' as [V' ?] end;
      rewrite (load_ok _ _ _ V'); try reflexivity; cbn [bind deep_equal];
      repeat match goal with Z : _ /\ _ |- _ => destruct Z end.
    + apply sound_bind; [eapply IH; eassumption|]. intros [] _; [|reflexivity].
      erewrite op_equal_ok by eassumption. reflexivity.
    + match goal with |- sound _ ?p => replace p with (bind p (fun z => Ok z)) by (destruct p; reflexivity) end.
      apply sound_bind; [eapply IH; eassumption|]. intros [] _; [|reflexivity].
      erewrite op_equal_ok by eassumption. reflexivity.
  - pose proof (has_expr_inv _ _ _ _ _ H') as V'.
    destruct o as [| | |op' x'|lo' hi' v' x'|op' x' y'|];
      repeat match type of V' with exists _, _ => destruct V' as [? V'] | _ /\ _ => destruct V' as [V' ?] end;
      rewrite (load_ok _ _ _ V'); try reflexivity; cbn [bind deep_equal];
      repeat match goal with Z : _ /\ _ |- _ => destruct Z end.
    apply sound_bind; [eapply IH; eassumption|]. intros [] _; [|reflexivity].
    erewrite op_equal_ok by eassumption. cbn [bind andb].
    destruct (b_equal op op'); [|reflexivity]. eapply IH; eassumption.
  - pose proof (has_expr_inv _ _ _ _ _ H') as V'.
    destruct o as [| | |op' x'|lo' hi' v' x'|op' x' y'|os];
      repeat match type of V' with exists _, _ => destruct V' as [? V'] | _ /\ _ => destruct V' as [V' ?] end;
      rewrite (load_ok _ _ _ V'); try reflexivity; cbn [bind deep_equal].
    rename x into qs. apply has_list_inv in Hl.
    match goal with Z : has k' m (IList qs os) |- _ => apply has_list_inv in Z; rename Z into Hr end.
    clear V V' H H'. revert ps es Hl. induction Hr as [|q o qs os Hq Hr IHl]; intros ps es Hl.
    + destruct es, Hl; reflexivity.
    + destruct Hl as [|p e ps es Hp Hl]; [exact I|].
      apply sound_bind; [eapply IH; eassumption|]. intros [] _; [|reflexivity]. apply (IHl ps es Hl).
Qed.

Lemma hdeep_equal_ok : forall k k' a b e o, has k m (IExpr a e) -> has k' m (IExpr b o) ->
  sound (hdeep_equal n m a b) (deep_equal n e o).
Proof. intros k k' a b e o H H'. eapply hdeep_equal_f_ok; [eapply has_enough; eassumption|exact H']. Qed.
End HeapRead.
