(** Facts about the overload sets. *)
From Coq Require Import ZArith NArith List Bool Reals Lia Lra.
From Verif Require Import Outcome Num NumR RtModel RtSpec RtFacts RtTermination RtSubst CtModel CtSpec CtGcd CtFacts CtOpsModel
  CtManipModel CtManipSpec CtOpsFacts CtManipFacts ApiModel ApiSpec ApiFacts OverModel OverSpec.
Import ListNotations.

Lemma top_yields : forall (n : Num.num) (a : outcome (expr n)) (r : outcome (obj n)),
  r = omap OExpr (bind a (simplify_top n)) -> yields n r (bind a (simplify_top n)).
Proof.
  intros n a r ->. destruct a as [e|x|]; cbn [bind omap yields]; try reflexivity.
  destruct (simplify_top n e) as [e'|x|] eqn:E; cbn [bind omap yields]; try reflexivity.
  exists e'. split; [reflexivity|]. exact (top_done n e' (top_result n e e' E)).
Qed.

Lemma ct_type_inj : forall (n : Num.num) (m : mexpr n) c, ct_type n m = Some c -> m = inj c.
Proof.
  intros n. induction m as [c|s|i|t|op a IH|op l IHl r IHr]; intros k H; cbn [ct_type] in H.
  - injection H as <-. reflexivity.
  - discriminate.
  - injection H as <-. reflexivity.
  - injection H as <-. reflexivity.
  - apply cbind_some in H as [x [E H]]. injection H as <-. cbn [inj]. rewrite (IH _ E). reflexivity.
  - apply cbind_some in H as [x [E H]]. apply cbind_some in H as [y [F H]]. injection H as <-.
    cbn [inj]. rewrite (IHl _ E), (IHr _ F). reflexivity.
Qed.

Lemma const_done : forall (n : Num.num) (x : n), simplify_top n (EConst x) = Ok (EConst x).
Proof. reflexivity. Qed.

(** Comparing converted compile-time expressions, if different integers are different numbers. *)
Definition ints_differ (n : Num.num) : Prop :=
  forall a b, (n_le n (n_of_Z n a) (n_of_Z n b) && n_ge n (n_of_Z n a) (n_of_Z n b)) = Z.eqb a b.

Lemma ints_differ_R : ints_differ numR.
Proof.
  intros a b. cbn. unfold r_leb.
  destruct (Rle_dec (IZR a) (IZR b)) as [L|L], (Rle_dec (IZR b) (IZR a)) as [G|G]; cbn;
    destruct (Z.eqb_spec a b) as [E|E]; try reflexivity; exfalso.
  - apply E. apply eq_IZR. lra.
  - subst. apply G. lra.
  - subst. apply L. lra.
  - subst. apply L. lra.
Qed.

Lemma equal_rt : forall n, ints_differ n -> forall a b x y,
  to_rt n (inj a) = Some x -> to_rt n (inj b) = Some y -> deep_equal n x y = Ok (cexpr_eqb b a).
Proof.
  intros n D. induction a as [c|i|s|op a IH|op l IHl r IHr]; intros b x y X Y; try discriminate.
  - injection X as <-. destruct b; try discriminate.
    + injection Y as <-. cbn [deep_equal cexpr_eqb]. rewrite D. reflexivity.
    + injection Y as <-. reflexivity.
    + rewrite to_rt_bin_inj in Y. apply cbind_some in Y as [u [_ Y]]. apply cbind_some in Y as [w [_ Y]].
      injection Y as <-. reflexivity.
  - injection X as <-. destruct b; try discriminate.
    + injection Y as <-. reflexivity.
    + injection Y as <-. reflexivity.
    + rewrite to_rt_bin_inj in Y. apply cbind_some in Y as [u [_ Y]]. apply cbind_some in Y as [w [_ Y]].
      injection Y as <-. reflexivity.
  - rewrite to_rt_bin_inj in X. apply cbind_some in X as [u [U X]]. apply cbind_some in X as [w [W X]].
    injection X as <-. destruct b as [| | | |op' l' r']; try discriminate.
    + injection Y as <-. reflexivity.
    + injection Y as <-. reflexivity.
    + rewrite to_rt_bin_inj in Y. apply cbind_some in Y as [u' [U' Y]].
      apply cbind_some in Y as [w' [W' Y]]. injection Y as <-. cbn [deep_equal].
      rewrite (IHl _ _ _ U U'). cbn [bind]. cbn [cexpr_eqb].
      assert (B : b_equal (rt_op op) (rt_op op') = cop_eqb op' op) by (destruct op, op'; reflexivity).
      rewrite B. destruct (cexpr_eqb l' l), (cop_eqb op' op); cbn [andb]; try reflexivity.
      exact (IHr _ _ _ W W').
Qed.

Lemma ct_subst_rt : forall n, ints_differ n -> forall s r e ts tr te,
  to_rt n (inj s) = Some ts -> to_rt n (inj r) = Some tr -> to_rt n (inj e) = Some te ->
  exists t, to_rt n (inj (ct_subst s r e)) = Some t /\ subst1 n ts tr te = Ok t.
Proof.
  intros n D s r e ts tr te S R. revert te.
  induction e as [c|i|k|op a IH|op l IHl k IHk]; intros te E; try discriminate.
  - pose proof (equal_rt n D _ _ _ _ E S) as Q. injection E as <-. cbn [ct_subst subst1].
    rewrite Q. cbn [bind]. destruct (cexpr_eqb s (CConst c)); [eauto|eexists; split; reflexivity].
  - pose proof (equal_rt n D _ _ _ _ E S) as Q. injection E as <-. cbn [ct_subst subst1].
    rewrite Q. cbn [bind]. destruct (cexpr_eqb s (CVar i)); [eauto|eexists; split; reflexivity].
  - pose proof (equal_rt n D _ _ _ _ E S) as Q.
    rewrite to_rt_bin_inj in E. apply cbind_some in E as [u [U E]]. apply cbind_some in E as [w [W E]].
    injection E as <-. cbn [subst1]. rewrite Q. cbn [bind ct_subst].
    destruct (cexpr_eqb s (CBin op l k)); [eauto|].
    destruct (IHl u U) as [u' [U1 U2]]. destruct (IHk w W) as [w' [W1 W2]].
    rewrite to_rt_bin_inj, U1, W1, U2, W2. cbn [cbind]. eexists. split; reflexivity.
Qed.

(** For a variable no condition is needed. *)
Lemma ct_subst_var_rt : forall n i r e tr te,
  to_rt n (inj r) = Some tr -> to_rt n (inj e) = Some te ->
  exists t, to_rt n (inj (ct_subst (CVar i) r e)) = Some t /\ subst1 n (EVar i) tr te = Ok t.
Proof.
  intros n i r e tr te R. revert te.
  induction e as [c|j|k|op a IH|op l IHl k IHk]; intros te E; try discriminate.
  - injection E as <-. eexists. split; reflexivity.
  - injection E as <-. cbn [ct_subst subst1 deep_equal cexpr_eqb bind].
    destruct (N.eqb i j); [eauto|eexists; split; reflexivity].
  - rewrite to_rt_bin_inj in E. apply cbind_some in E as [u [U E]]. apply cbind_some in E as [w [W E]].
    injection E as <-. cbn [subst1 deep_equal bind ct_subst cexpr_eqb].
    destruct (IHl u U) as [u' [U1 U2]]. destruct (IHk w W) as [w' [W1 W2]].
    rewrite to_rt_bin_inj, U1, W1, U2, W2. cbn [cbind]. eexists. split; reflexivity.
Qed.

Lemma not_found : forall s r e, found s e = false -> ct_subst s r e = e.
Proof.
  intros s r. induction e as [c|i|k|op a IH|op l IHl k IHk]; cbn [found ct_subst]; intros H;
    apply orb_false_iff in H as [Q H]; rewrite Q; try reflexivity.
  - rewrite (IH H). reflexivity.
  - apply orb_false_iff in H as [H1 H2]. rewrite (IHl H1), (IHk H2). reflexivity.
Qed.

Lemma ct_object : forall n (m : mexpr (carrier n)) t,
  (forall s, m <> MRt s) -> to_rt n m = Some t -> exists c, ct_type n m = Some c.
Proof.
  intros n. induction m as [c|s|i|k|op a IH|op l IHl r IHr]; intros t A H; try discriminate.
  - eexists. reflexivity.
  - exfalso. exact (A s eq_refl).
  - eexists. reflexivity.
  - rewrite to_rt_bin in H.
    assert (L : forall s, l <> MRt s) by (intros s ->; discriminate).
    assert (R : forall s, r <> MRt s) by (intros s ->; destruct l; discriminate).
    assert (E : cbind (to_rt n l) (fun x => cbind (to_rt n r) (fun y => Some (EBin (rt_op op) x y))) = Some t)
      by (destruct l, r; first [exact H | discriminate]).
    apply cbind_some in E as [x [X E]]. apply cbind_some in E as [y [Y E]].
    destruct (IHl x L X) as [c C]. destruct (IHr y R Y) as [d D].
    cbn [ct_type]. rewrite C, D. eexists. reflexivity.
Qed.

Lemma ct_type_plain_inj : forall n c, ct_type n (inj c) = Some c.
Proof.
  intros n. induction c as [c|i|k|op a IH|op l IHl r IHr]; cbn [inj ct_type]; try reflexivity.
  - rewrite IH. reflexivity.
  - rewrite IHl, IHr. reflexivity.
Qed.
