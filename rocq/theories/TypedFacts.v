(** Proofs about constants of other scalar types. *)
From Coq Require Import ZArith NArith List Bool Lia.
From Verif Require Import Outcome Num RtModel RtSpec RtFacts RtTermination TypedModel TypedSpec.
Import ListNotations.

Section S.
Context (n : num) (fl : f32 -> n).
Notation texpr := (texpr n).
Notation K := (converted n fl).

Lemma omap_omap : forall {A B C : Type} (f : A -> B) (g : B -> C) o, omap g (omap f o) = omap (fun a => g (f a)) o.
Proof. intros A B C f g [a|x|]; reflexivity. Qed.
Lemma omap_bind : forall {A B C : Type} (f : A -> outcome B) (g : B -> C) o,
  omap g (bind o f) = bind o (fun a => omap g (f a)).
Proof. intros A B C f g [a|x|]; reflexivity. Qed.
Lemma bind_omap : forall {A B C : Type} (f : A -> B) (g : B -> outcome C) o,
  bind (omap f o) g = bind o (fun a => g (f a)).
Proof. intros A B C f g [a|x|]; reflexivity. Qed.
Lemma omap_both : forall {A B C D : Type} (a : outcome A) (b : outcome B) (f : A -> B -> outcome C) (g : C -> D),
  omap g (both a b f) = both a b (fun x y => omap g (f x y)).
Proof. intros A B C D [a|x|] [b|y|] f g; reflexivity. Qed.
Lemma both_omap : forall {A A' B B' C : Type} (a : outcome A) (b : outcome B) (f : A -> A') (g : B -> B')
  (h : A' -> B' -> outcome C),
  both (omap f a) (omap g b) h = both a b (fun x y => h (f x) (g y)).
Proof. intros A A' B B' C [a|x|] [b|y|] f g h; reflexivity. Qed.

Lemma teval_conv : forall v e, teval n fl e v = eval n (K e) v.
Proof.
  intros v e. induction e as [c|i|i t|op a IH|lo hi u a _ _ IH|op l r IHl IHr|es _] using expr_ind';
    cbn [teval eval converted replace_constants]; unfold converted in *; try reflexivity.
  - rewrite IH. reflexivity.
  - rewrite IH. reflexivity.
  - rewrite IHl, IHr. reflexivity.
Qed.
Lemma tunwrap_conv : forall e, tunwrap n fl e = unwrap n (K e).
Proof.
  intros e. induction e as [c|i|i t|op a IH|lo hi u a _ _ IH|op l r IHl IHr|es _] using expr_ind';
    cbn [tunwrap unwrap converted replace_constants]; unfold converted in *; try reflexivity.
  - rewrite IH. reflexivity.
  - rewrite IH. reflexivity.
  - rewrite IHl, IHr. reflexivity.
Qed.
Lemma tis_constant_conv : forall e, tis_constant n e = is_constant n (K e).
Proof.
  intros e. induction e as [c|i|i t|op a IH|lo hi u a _ _ IH|op l r IHl IHr|es _] using expr_ind';
    cbn [tis_constant is_constant converted replace_constants]; unfold converted in *; try reflexivity.
  rewrite IHl, IHr. reflexivity.
Qed.

Lemma tdot_acc_conv : forall a b acc, omap K (tdot_acc n acc a b) = dot_acc n (K acc) (map K a) (map K b).
Proof.
  induction a as [|x a IH]; intros [|y b] acc; cbn [tdot_acc dot_acc map]; try reflexivity.
  rewrite IH. reflexivity.
Qed.
Lemma tdot_conv : forall a b, omap K (tdot n a b) = dot n (map K a) (map K b).
Proof.
  intros a b. unfold tdot, dot. rewrite !map_length. destruct (Nat.eqb _ _); [|reflexivity].
  destruct a as [|x a], b as [|y b]; try reflexivity. apply tdot_acc_conv.
Qed.

Lemma tmk2_conv : forall op l r, omap K (tmk2 n op l r) = mk2 n op (omap K l) (omap K r).
Proof. intros op l r. unfold tmk2, mk2. rewrite omap_both, both_omap. reflexivity. Qed.
Lemma omap_ext : forall {A B : Type} (f g : A -> B) o, (forall a, f a = g a) -> omap f o = omap g o.
Proof. intros A B f g [a|x|] H; cbn; congruence. Qed.

Lemma tsimplify_conv : forall e, omap K (tsimplify n fl e) = simplify n (K e).
Proof.
  intros e. induction e as [c|i|i t|op a IH|lo hi u a _ _ IH|op l r IHl IHr|es _] using expr_ind'; try reflexivity.
  - change (K (EUn op a)) with (EUn op (K a)). cbn [tsimplify simplify]. rewrite tis_constant_conv, tunwrap_conv, <- IH.
    destruct (is_constant n (K a)).
    + destruct (u_can_simplify op); destruct (unwrap n (K a)) as [x|x|]; cbn; try reflexivity.
      rewrite omap_omap. reflexivity.
    + rewrite !omap_omap. reflexivity.
  - change (K (EInt lo hi u a)) with (EInt (K lo) (K hi) u (K a)). cbn [tsimplify simplify].
    rewrite tis_constant_conv, tunwrap_conv, <- IH.
    destruct (is_constant n (K a)); rewrite !omap_omap; reflexivity.
  - change (K (EBin op l r)) with (EBin op (K l) (K r)). cbn [tsimplify simplify].
    rewrite !tis_constant_conv, !tunwrap_conv, <- IHl, <- IHr.
    destruct (is_constant n (K l)) eqn:Cl, (is_constant n (K r)) eqn:Cr; cbn [andb].
    + rewrite omap_omap. reflexivity.
    + destruct op; try reflexivity; destruct (unwrap n (K l)) as [x|x|]; cbn [bind]; try reflexivity;
        repeat match goal with |- context [if ?b then _ else _] => destruct b end;
        try reflexivity; rewrite !omap_omap; reflexivity.
    + destruct op; try reflexivity; destruct (unwrap n (K r)) as [x|x|]; cbn [bind]; try reflexivity;
        repeat match goal with |- context [if ?b then _ else _] => destruct b end;
        try reflexivity; rewrite !omap_omap; reflexivity.
    + destruct op; try reflexivity; try apply tmk2_conv.
      destruct l; try apply tmk2_conv. destruct r; try apply tmk2_conv. apply tdot_conv.
Qed.

Lemma tconst_eq_conv : forall e c, tconst_eq n fl e c = const_eq n (K e) c.
Proof. intros e c. unfold tconst_eq, const_eq. rewrite tis_constant_conv, tunwrap_conv. reflexivity. Qed.

Lemma tcan_simplify_conv : forall e, tcan_simplify n fl e = can_simplify n (K e).
Proof.
  intros e. induction e as [c|i|i t|op a IH|lo hi u a _ _ IH|op l r IHl IHr|es _] using expr_ind'; try reflexivity.
  - exact IH.
  - exact IH.
  - change (K (EBin op l r)) with (EBin op (K l) (K r)). cbn [tcan_simplify can_simplify].
    rewrite !tis_constant_conv, !tconst_eq_conv, IHl, IHr. destruct (_ && _); [reflexivity|].
    destruct op; try reflexivity. destruct l; try reflexivity. destruct r; reflexivity.
Qed.

Lemma loop_conv : forall k e o, inplace_simplify n k (K e) = Some o ->
  exists o', tsimplified n fl e o' /\ omap K o' = o.
Proof.
  induction k as [|k IH]; intros e o H; [discriminate|]. cbn [inplace_simplify] in H.
  rewrite <- tcan_simplify_conv in H. destruct (tcan_simplify n fl e) as [[|]|x|] eqn:C.
  - pose proof (tsimplify_conv e) as S. destruct (tsimplify n fl e) as [e'|x|] eqn:Q; cbn in S; rewrite <- S in H.
    + destruct (IH e' o H) as [o' [L E]]. exists o'. split; [|exact E]. eapply ts_step; eauto.
    + injection H as <-. eexists. split; [apply ts_throws; eassumption|reflexivity].
    + injection H as <-. eexists. split; [apply ts_undefined; eassumption|reflexivity].
  - injection H as <-. eexists. split; [apply ts_stop; assumption|reflexivity].
  - injection H as <-. eexists. split; [apply ts_test_throws; eassumption|reflexivity].
  - injection H as <-. eexists. split; [apply ts_test_undefined; assumption|reflexivity].
Qed.

Lemma loop_unique : forall e o, tsimplified n fl e o -> forall o', tsimplified n fl e o' -> o = o'.
Proof.
  intros e o H. induction H; intros o' H'; inversion H'; subst; try congruence.
  apply IHtsimplified. congruence.
Qed.
Lemma loop_total : forall e, exists o, tsimplified n fl e o /\ omap K o = simplify_top n (K e).
Proof. intros e. destruct (top_inplace n (K e)) as [k H]. exact (loop_conv k e _ H). Qed.

Lemma oseq_conv : forall (f : texpr -> outcome texpr) (g : expr n -> outcome (expr n)) es,
  (forall a, In a es -> omap K (f a) = g (K a)) ->
  omap (map K) (oseq (map f es)) = oseq (map g (map K es)).
Proof.
  intros f g es. induction es as [|a es IH]; intros H; [reflexivity|]. cbn [map oseq].
  rewrite <- (H a) by (left; reflexivity). rewrite omap_bind, bind_omap.
  rewrite <- IH by (intros b I; apply H; right; exact I).
  destruct (f a) as [y|y|]; cbn [bind]; try reflexivity. rewrite !omap_omap. reflexivity.
Qed.

Lemma tdiff_conv : fl (BinarySingleNaN.B754_zero false) = c0 n ->
  forall x e, ((exists i, x = DVar i) \/ forall a, ~ subterm (EUn UGrad a) e) ->
  omap K (tdiff n x e) = diff n x (K e).
Proof.
  intros Z x e. induction e as [c|i|i t|op a IH|lo hi u a _ _ IH|op l r IHl IHr|es IH] using expr_ind'; intros H.
  - cbn [tdiff]. destruct c; cbn; unfold K; cbn; try reflexivity. rewrite Z. reflexivity.
  - cbn. destruct x; [destruct (N.eqb _ _)|]; reflexivity.
  - cbn. destruct x; [|destruct (_ && _)]; reflexivity.
  - assert (Ha : (exists i, x = DVar i) \/ forall b, ~ subterm (EUn UGrad b) a).
    { destruct H as [H|H]; [left; exact H|right]. intros b S. apply (H b), sub_un, S. }
    specialize (IH Ha). change (K (EUn op a)) with (EUn op (K a)). cbn [tdiff diff].
    destruct op; try reflexivity; rewrite <- ?IH, ?omap_omap; try reflexivity.
    destruct H as [[i ->]|H]; [reflexivity|]. destruct (H a (sub_refl _)).
  - reflexivity.
  - assert (Hl : (exists i, x = DVar i) \/ forall b, ~ subterm (EUn UGrad b) l).
    { destruct H as [H|H]; [left; exact H|right]. intros b S. apply (H b), sub_l, S. }
    assert (Hr : (exists i, x = DVar i) \/ forall b, ~ subterm (EUn UGrad b) r).
    { destruct H as [H|H]; [left; exact H|right]. intros b S. apply (H b), sub_r, S. }
    specialize (IHl Hl). specialize (IHr Hr). change (K (EBin op l r)) with (EBin op (K l) (K r)).
    cbn [tdiff diff]. destruct op; rewrite <- ?IHl, <- ?IHr; try reflexivity; try apply tmk2_conv;
      rewrite omap_both, both_omap; reflexivity.
  - change (K (EVec es)) with (EVec (map K es)). cbn [tdiff diff].
    rewrite <- (oseq_conv (tdiff n x) (diff n x) es).
    + rewrite !omap_omap. reflexivity.
    + intros a I. rewrite Forall_forall in IH. apply IH; [exact I|].
      destruct H as [H|H]; [left; exact H|right]. intros b S. apply (H b). eapply sub_vec; eauto.
Qed.

(** deep_equal *)
Definition sound_equal : Prop := forall s o : scalar n, sc_equal n s o = true ->
  n_le n (conv n fl o) (conv n fl s) && n_ge n (conv n fl o) (conv n fl s) = true.

Lemma tdeep_equal_sound : sound_equal ->
  forall e o, tdeep_equal n e o = Ok true -> deep_equal n (K e) (K o) = Ok true.
Proof.
  intros SE e. induction e as [c|i|i t|op a IH|lo hi u a _ _ IH|op l r IHl IHr|es IH] using expr_ind'; intros o H.
  - destruct o; try discriminate. cbn in H |- *. injection H as H. rewrite (SE _ _ H). reflexivity.
  - destruct o; try discriminate. exact H.
  - destruct o; try discriminate. exact H.
  - destruct o; try discriminate; cbn [tdeep_equal] in H; apply bind_ok in H as [q [Q H]]; [|discriminate].
    injection H as H. apply andb_prop in H as [-> U]. specialize (IH _ Q).
    change (bind (deep_equal n (K a) (K o)) (fun q => Ok (q && u_equal op op0)) = Ok true).
    rewrite IH. cbn. rewrite U. reflexivity.
  - destruct o; try discriminate; cbn [tdeep_equal] in H.
    + apply bind_ok in H as [q [Q H]]; discriminate.
    + apply IH. exact H.
  - destruct o; try discriminate; cbn [tdeep_equal] in H. apply bind_ok in H as [q [Q H]].
    destruct (q && b_equal op op0) eqn:B; [|discriminate]. apply andb_prop in B as [-> B].
    change (bind (deep_equal n (K l) (K o1)) (fun q => if q && b_equal op op0 then deep_equal n (K r) (K o2) else Ok false)
      = Ok true). rewrite (IHl _ Q). cbn. rewrite B. exact (IHr _ H).
  - destruct o as [| | | | | |os]; try discriminate. change (K (EVec es)) with (EVec (map K es)).
    change (K (EVec os)) with (EVec (map K os)). cbn [tdeep_equal deep_equal] in H |- *.
    revert os H. induction IH as [|x es Hx _ IHes]; intros [|y os] H; try reflexivity; try discriminate.
    cbn [map]. apply bind_ok in H as [q [Q H]]. destruct q; [|discriminate]. rewrite (Hx _ Q). cbn. exact (IHes _ H).
Qed.

(** Trees with constants of the numeric type only. *)
Notation J := (replace_constants (@SOwn n)).
Lemma tdeep_equal_own : forall e o, tdeep_equal n (J e) (J o) = deep_equal n e o.
Proof.
  intros e. induction e as [c|i|i t|op a IH|lo hi u a _ _ IH|op l r IHl IHr|es IH] using expr_ind'; intros o;
    destruct o; try reflexivity; cbn [replace_constants tdeep_equal deep_equal].
  - rewrite IH. reflexivity.
  - rewrite IH. reflexivity.
  - rewrite IH. reflexivity.
  - apply IH.
  - rewrite IHl. destruct (deep_equal n l o1) as [[|]|x|]; cbn; try reflexivity.
    destruct (b_equal op op0); [apply IHr|reflexivity].
  - rename es0 into os. revert os. induction IH as [|x es Hx _ IHes]; intros [|y os]; try reflexivity.
    cbn [map]. rewrite Hx. destruct (deep_equal n x y) as [[|]|z|]; cbn; try reflexivity. apply IHes.
Qed.
Lemma tsubst_own : forall s repl e, tsubst n (J s) (J repl) (J e) = omap J (subst1 n s repl e).
Proof.
  intros s repl e. induction e as [c|i|i t|op a IH|lo hi u a _ _ IH|op l r IHl IHr|es IH] using expr_ind';
    match goal with |- tsubst _ _ _ (replace_constants _ ?e) = _ =>
      pose proof (tdeep_equal_own e s) as D end;
    cbn [replace_constants] in D |- *; cbn [tsubst subst1]; rewrite D;
    match goal with |- bind ?o _ = _ => destruct o as [[|]|x|]; cbn [bind omap]; try reflexivity end.
  - rewrite IH, !omap_omap. reflexivity.
  - rewrite IH. change (bind ?o (fun a => Ok (?f a))) with (omap f o). rewrite !omap_omap. reflexivity.
  - rewrite IHl, IHr. unfold tmk2, mk2. rewrite both_omap. fold (omap J). 
    change (bind ?o (fun a => Ok (J a))) with (omap J o). rewrite omap_both. reflexivity.
  - change (bind ?o (fun a => Ok (J a))) with (omap J o). rewrite omap_omap. rewrite map_map.
    assert (Q : oseq (map (fun a => tsubst n (J s) (J repl) (J a)) es) = omap (map J) (oseq (map (subst1 n s repl) es))).
    { clear D. induction IH as [|x es Hx _ IHes]; [reflexivity|]. cbn [map oseq]. rewrite Hx, IHes, bind_omap, omap_bind.
      destruct (subst1 n s repl x); cbn [bind]; try reflexivity. rewrite !omap_omap. reflexivity. }
    rewrite Q, omap_omap. reflexivity.
Qed.
End S.

Section Search.
Context (n : num) (fl : f32 -> n).
Notation K := (converted n fl).
(** Searching for a variable or a function symbol. *)
Definition leaf_symbol {T : Type} (s : expr T) : Prop :=
  (exists i, s = EVar i) \/ (exists i t, s = EFun i t).
Lemma tdeep_equal_symbol : forall s e, leaf_symbol s -> tdeep_equal n e s = deep_equal n (K e) (K s).
Proof. intros s e [[i ->]|[i [t ->]]]; destruct e; reflexivity. Qed.
Lemma tsubst_symbol : forall s repl e, leaf_symbol s ->
  omap K (tsubst n s repl e) = subst1 n (K s) (K repl) (K e).
Proof.
  intros s repl e L. induction e as [c|i|i t|op a IH|lo hi u a _ _ IH|op l r IHl IHr|es IH] using expr_ind';
    match goal with |- omap _ (tsubst _ _ _ ?e) = _ => pose proof (tdeep_equal_symbol s e L) as D end;
    match goal with |- _ = subst1 _ _ _ (K (EUn ?op ?a)) => change (K (EUn op a)) with (EUn op (K a)) in *
    | |- _ = subst1 _ _ _ (K (EBin ?op ?a ?b)) => change (K (EBin op a b)) with (EBin op (K a) (K b)) in *
    | |- _ = subst1 _ _ _ (K (EVec ?es)) => change (K (EVec es)) with (EVec (map K es)) in *
    | |- _ = subst1 _ _ _ (K (EInt ?lo ?hi ?u ?a)) => change (K (EInt lo hi u a)) with (EInt (K lo) (K hi) u (K a)) in *
    | |- _ => idtac end;
    cbn [tsubst subst1]; rewrite D; clear D.
  - change (K (EConst c)) with (EConst (conv n fl c)). cbn [subst1].
    destruct (deep_equal n _ _) as [[|]|y|]; reflexivity.
  - change (K (EVar i)) with (EVar i : expr n). cbn [subst1].
    destruct (deep_equal n _ _) as [[|]|y|]; reflexivity.
  - change (K (EFun i t)) with (EFun i t : expr n). cbn [subst1].
    destruct (deep_equal n _ _) as [[|]|y|]; reflexivity.
  - destruct (deep_equal n _ _) as [[|]|y|]; cbn [bind]; try reflexivity. rewrite <- IH, !omap_omap. reflexivity.
  - destruct (deep_equal n _ _) as [[|]|y|]; cbn [bind]; try reflexivity. rewrite <- IH, !omap_omap. reflexivity.
  - destruct (deep_equal n _ _) as [[|]|y|]; cbn [bind]; try reflexivity. rewrite <- IHl, <- IHr. apply tmk2_conv.
  - destruct (deep_equal n _ _) as [[|]|y|]; cbn [bind]; try reflexivity.
    rewrite <- (oseq_conv n fl (tsubst n s repl) (subst1 n (K s) (K repl)) es).
    + rewrite !omap_omap. reflexivity.
    + intros a I. rewrite Forall_forall in IH. apply IH. exact I.
Qed.
End Search.
