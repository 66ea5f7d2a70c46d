(** Lemmas about the operators on compile-time expressions, their evaluation and conversion. *)
From Coq Require Import ZArith NArith List Bool Reals Lia Lra.
From Verif Require Import Outcome Num RtModel RtSpec RtFacts NumR CtModel CtSpec CtGcd CtFacts
  CtOpsModel CtManipSpec.
Import ListNotations.

Lemma rt_binary_leaf : forall n e, match e with MBin _ _ _ => True | _ => rt_binary n e = None end.
Proof. intros n []; simpl; auto. Qed.

Lemma to_rt_bin : forall n op l r, to_rt n (MBin op l r) =
  match l, r with
  | MRt _, _ | _, MRt _ => None
  | _, _ => cbind (to_rt n l) (fun x => cbind (to_rt n r) (fun y => Some (EBin (rt_op op) x y)))
  end.
Proof.
  intros n op l r. destruct l, r; simpl; try reflexivity;
    repeat match goal with |- context [cbind ?a _] => destruct a; simpl end; reflexivity.
Qed.

(** Conversion: shape. *)
Lemma to_rt_shape : forall n e t, to_rt n (inj e) = Some t -> same_shape n (inj e) t.
Proof.
  intros n. induction e as [c|i|t0|op a IH|op l IHl r IHr]; intros t H.
  - injection H as <-. constructor.
  - injection H as <-. constructor.
  - discriminate.
  - discriminate.
  - cbn [inj] in *. rewrite to_rt_bin in H.
    assert (E : cbind (to_rt n (inj l)) (fun x => cbind (to_rt n (inj r)) (fun y =>
                  Some (EBin (rt_op op) x y))) = Some t)
      by (destruct l, r; exact H).
    apply cbind_some in E as [x [E1 E]]. apply cbind_some in E as [y [E2 E]].
    injection E as <-. destruct op; constructor; auto.
Qed.

Lemma to_rt_total : forall n e, (exists t, to_rt n (inj e) = Some t) <-> plain e.
Proof.
  intros n. induction e as [c|i|t0|op a IH|op l IHl r IHr]; simpl plain.
  - split; [auto|]. intros _. eexists. reflexivity.
  - split; [auto|]. intros _. eexists. reflexivity.
  - split; [intros [t H]; discriminate|tauto].
  - split; [intros [t H]; discriminate|tauto].
  - rewrite <- IHl, <- IHr. cbn [inj]. rewrite to_rt_bin.
    assert (E : forall (P : option (expr n) -> Prop),
      P (cbind (to_rt n (inj l)) (fun x => cbind (to_rt n (inj r)) (fun y =>
                  Some (EBin (rt_op op) x y)))) ->
      P (match @inj n l, @inj n r with
         | MRt _, _ | _, MRt _ => None
         | _, _ => cbind (to_rt n (inj l)) (fun x => cbind (to_rt n (inj r)) (fun y =>
                  Some (EBin (rt_op op) x y)))
         end)).
    { intros P HP. destruct l, r; exact HP. }
    apply (E (fun o => (exists t, o = Some t) <-> _)). split.
    + intros [t H]. apply cbind_some in H as [x [E1 H]]. apply cbind_some in H as [y [E2 H]]. eauto.
    + intros [[x ->] [y ->]]. eexists. reflexivity.
Qed.

(** Conversion and evaluation commute. *)
Lemma shape_call : forall n e t, same_shape n e t -> forall v, call n e v = Some (eval n t v).
Proof.
  induction 1; intros v; simpl; try reflexivity;
    rewrite IHsame_shape1, IHsame_shape2; reflexivity.
Qed.

Lemma shape_mval : forall e t, same_shape numR e t -> forall rho phi un v,
  (forall i, m_occurs i e -> nth_error v (N.to_nat i) = Some (Some (rho i))) ->
  eval numR t v = Ok (mval rho phi un e).
Proof.
  induction 1; intros rho phi un v V.
  1: reflexivity.
  1: { specialize (V i eq_refl). simpl. rewrite V.
       assert (L : (N.to_nat i < length v)%nat) by (apply nth_error_Some; rewrite V; discriminate).
       destruct (N.leb_spec (N.of_nat (length v)) i); [lia|reflexivity]. }
  all: cbn [eval mval]; rewrite (IHsame_shape1 rho phi un v), (IHsame_shape2 rho phi un v)
         by (intros; apply V; simpl; auto).
  all: destruct (mval rho phi un a) as [x0|], (mval rho phi un b) as [y0|]; try reflexivity.
  simpl. unfold r_eqb. destruct (Req_EM_T y0 0); reflexivity.
Qed.

(** Calls. *)
Lemma call_compiles : forall n e v, (exists o, call n e v = Some o) <-> m_plain e.
Proof.
  intros n. induction e as [c|s|i|t|op a IH|op l IHl r IHr]; intros v; simpl.
  - split; eauto.
  - split; eauto.
  - split; eauto.
  - split; [intros [o H]; discriminate|tauto].
  - split; [intros [o H]; discriminate|tauto].
  - rewrite <- (IHl v), <- (IHr v). split.
    + intros [o H]. apply cbind_some in H as [x [E1 H]]. apply cbind_some in H as [y [E2 H]]. eauto.
    + intros [[x ->] [y ->]]. eexists. reflexivity.
Qed.

Lemma b_apply_ok : forall n op x y, exists z, b_apply n (rt_op op) x y = Ok z.
Proof. intros n [] x y; eexists; reflexivity. Qed.

(** A call throws exactly if an index is out of range. *)
Lemma call_throws : forall n e v o, call n e v = Some o ->
  match o with
  | Ok _ => forall i, m_occurs i e -> (N.to_nat i < length v)%nat
  | Throw x => exists i, m_occurs i e /\ (length v <= N.to_nat i)%nat /\
                 x = VariableIndexOutOfBounds i (N.of_nat (length v))
  | UB => False
  end.
Proof.
  intros n. induction e as [c|s|i|t|op a IH|op l IHl r IHr]; intros v o H; simpl in H.
  - injection H as <-. simpl. tauto.
  - injection H as <-. simpl. tauto.
  - injection H as <-. destruct (N.leb_spec (N.of_nat (length v)) i).
    + exists i. simpl. split; [reflexivity|]. split; [lia|reflexivity].
    + destruct (nth_error v (N.to_nat i)) eqn:E.
      * intros j J. simpl in J. subst j. apply nth_error_Some. rewrite E. discriminate.
      * apply nth_error_None in E. lia.
  - discriminate.
  - discriminate.
  - apply cbind_some in H as [a [Ha H]]. apply cbind_some in H as [b [Hb H]].
    injection H as <-. specialize (IHl v a Ha). specialize (IHr v b Hb).
    destruct a as [x|x|], b as [y|y|]; try contradiction; simpl.
    + destruct (b_apply_ok n op x y) as [z ->]. simpl. intros i [O|O]; auto.
    + destruct IHr as [i [O [L E]]]. exists i. auto.
    + destruct IHl as [i [O [L E]]]. exists i. auto.
    + destruct IHl as [i [O [L E]]]. exists i. auto.
Qed.

(** ** Values of the results of operators *)
Section Values.
Context (rho phi : N -> R) (un : uop -> R -> option R).
Notation val := (mval rho phi un).
Local Open Scope R_scope.

Lemma same_type_eq : forall a b : mexpr numR, ~ contains_rt a -> same_type a b = true -> a = b.
Proof.
  induction a as [c|s|i|t|op a IH|op l IHl r IHr]; intros [d|s'|j|t'|op' a'|op' l' r'] N H;
    simpl in *; try discriminate; try tauto.
  - apply Z.eqb_eq in H. subst. reflexivity.
  - apply N.eqb_eq in H. subst. reflexivity.
  - apply N.eqb_eq in H. subst. reflexivity.
  - apply andb_prop in H as [H1 H2]. rewrite (IH a' N H2). f_equal.
    destruct op, op'; try discriminate; try reflexivity; apply N.eqb_eq in H1; subst; reflexivity.
  - apply andb_prop in H as [H H2]. apply andb_prop in H as [H0 H1].
    apply cop_eqb_eq in H0. subst op'.
    rewrite (IHl l' ltac:(tauto) H1), (IHr r' ltac:(tauto) H2). reflexivity.
Qed.

Lemma mval_bin : forall op a b z, val (MBin op a b) = Some z <->
  exists x y, val a = Some x /\ val b = Some y /\ op_val op x y = Some z.
Proof.
  intros op a b z. simpl. split.
  - destruct (val a) as [x|]; [|discriminate]. destruct (val b) as [y|]; [|discriminate]. eauto.
  - intros [x [y [-> [-> H]]]]. exact H.
Qed.

(** Value of a result: of the compile-time expression, or of the run-time expression at vectors
    that contain the values of the variables. *)
Definition result_is (v : list (option R)) (r : result numR) (z : R) : Prop :=
  match r with
  | Ct m => val m = Some z
  | Rt t => eval numR t v = Ok (Some z)
  end.

Lemma to_rt_val : forall e t, to_rt numR e = Some t -> forall v,
  (forall i, m_occurs i e -> nth_error v (N.to_nat i) = Some (Some (rho i))) ->
  eval numR t v = Ok (val e).
Proof.
  induction e as [c|s|i|t0|op a IH|op l IHl r IHr]; intros t H v V.
  - injection H as <-. reflexivity.
  - injection H as <-. reflexivity.
  - injection H as <-. specialize (V i eq_refl). simpl. rewrite V.
    assert (L : (N.to_nat i < length v)%nat) by (apply nth_error_Some; rewrite V; discriminate).
    destruct (N.leb_spec (N.of_nat (length v)) i); [lia|reflexivity].
  - discriminate.
  - discriminate.
  - rewrite to_rt_bin in H.
    assert (E : cbind (to_rt numR l) (fun x => cbind (to_rt numR r) (fun y =>
                  Some (EBin (rt_op op) x y))) = Some t)
      by (destruct l, r; (exact H || discriminate)).
    apply cbind_some in E as [x [E1 E]]. apply cbind_some in E as [y [E2 E]].
    injection E as <-. cbn [eval mval].
    rewrite (IHl x E1 v), (IHr y E2 v) by (intros; apply V; simpl; auto).
    destruct (val l) as [x0|], (val r) as [y0|]; destruct op; try reflexivity.
    simpl. unfold r_eqb. destruct (Req_EM_T y0 0); reflexivity.
Qed.

Lemma rt_both : forall op a b x y v z,
  to_rt numR a = Some x -> to_rt numR b = Some y ->
  (forall i, m_occurs i a \/ m_occurs i b -> nth_error v (N.to_nat i) = Some (Some (rho i))) ->
  val (MBin op a b) = Some z -> eval numR (EBin (rt_op op) x y) v = Ok (Some z).
Proof.
  intros op a b x y v z Ha Hb V Z. cbn [eval].
  rewrite (to_rt_val a x Ha v), (to_rt_val b y Hb v) by (intros; apply V; auto).
  apply mval_bin in Z as [p [q [-> [-> Z]]]]. destruct op; simpl in *; try (rewrite Z; reflexivity).
  unfold r_eqb. destruct (Req_EM_T q 0); [discriminate|]. simpl. rewrite Z. reflexivity.
Qed.

Lemma generic_value : forall op a b r v z, generic numR op a b = Some r ->
  (forall i, m_occurs i a \/ m_occurs i b -> nth_error v (N.to_nat i) = Some (Some (rho i))) ->
  val (MBin op a b) = Some z -> result_is v r z.
Proof.
  intros op a b r v z H V Z.
  assert (K : (exists x y, to_rt numR a = Some x /\ to_rt numR b = Some y /\
                 r = Rt (EBin (rt_op op) x y)) \/ r = Ct (MBin op a b)).
  { unfold generic in H. destruct a, b;
      try (left; apply cbind_some in H as [x [E1 H]]; apply cbind_some in H as [y [E2 H]];
           injection H as <-; exists x, y; auto; fail);
      right; match type of H with (if ?c then _ else _) = _ => destruct c end;
      congruence. }
  destruct K as [[x [y [E1 [E2 ->]]]]| ->]; [|exact Z].
  exact (rt_both op a b x y v z E1 E2 V Z).
Qed.

Ltac rinv :=
  repeat match goal with
  | H : cbind _ _ = Some _ |- _ =>
      let x := fresh "x" in let E := fresh "E" in apply cbind_some in H as [x [E H]]
  | H : add _ _ = Some _ |- _ => unfold add in H; apply long_some in H
  | H : sub _ _ = Some _ |- _ => unfold sub in H; apply long_some in H
  | H : mul _ _ = Some _ |- _ => unfold mul in H; apply long_some in H
  | H : Some _ = Some _ |- _ => injection H as H
  | H : val (MBin _ _ _) = Some _ |- _ =>
      let y := fresh "y" in let z := fresh "z" in
      let H1 := fresh "V" in let H2 := fresh "V" in
      apply mval_bin in H as [y [z [H1 [H2 H]]]]
  | H : val (MConst _) = Some _ |- _ => cbn [mval] in H
  | H : val (MVar _) = Some _ |- _ => cbn [mval] in H
  | H : val (MRt _) = Some _ |- _ => cbn [mval] in H
  | H : op_val CDiv _ _ = Some _ |- _ =>
      let N := fresh "N" in apply op_div in H as [N H]
  | H : op_val _ _ _ = Some _ |- _ => cbn [op_val] in H
  end; subst.

Ltac rgo :=
  cbn [result_is mval];
  repeat match goal with H : mval _ _ _ ?e = Some _ |- context [mval _ _ _ ?e] => rewrite H end;
  cbn [op_val n_add n_sub n_of_Z numR lift2];
  rewrite ?plus_IZR, ?minus_IZR, ?mult_IZR;
  try (f_equal; ring).

Lemma combine_value : forall op a b r v z, combine numR op a b = Some r ->
  (op = CDiv -> ~ contains_rt a) ->
  (forall i, m_occurs i a \/ m_occurs i b -> nth_error v (N.to_nat i) = Some (Some (rho i))) ->
  val (MBin op a b) = Some z -> result_is v r z.
Proof.
  intros op a b r v z H NR V Z.
  assert (G : generic numR op a b = Some r -> result_is v r z)
    by (intros G; exact (generic_value op a b r v z G V Z)).
  destruct op; cbn [combine] in H.
  - destruct a as [c|s|i|t|o a|o l1 r1], b as [d|s'|j|t'|o' b|o' l2 r2];
      try (exact (G H)); unfold plus in H;
      try (solve [destruct o; try (exact (G H)); destruct l1; exact (G H)]).
    + rinv. rgo.
    + destruct o'; try (exact (G H)); destruct l2; try (exact (G H)); try discriminate; rinv; rgo.
    + destruct o'; try (exact (G H)); destruct l2; try (exact (G H)); rinv; rgo.
    + destruct (N.eqb_spec i j) as [->|_]; [|exact (G H)]. rinv. rgo.
    + destruct o; try (exact (G H)); destruct l1; try (exact (G H)); rinv; rgo.
    + destruct o; try (exact (G H)); destruct l1; try (exact (G H)); try discriminate; rinv; rgo.
  - destruct a as [c|s|i|t|o a|o l1 r1], b as [d|s'|j|t'|o' b|o' l2 r2];
      try (exact (G H)); unfold minus in H;
      try (solve [destruct o; try (exact (G H)); destruct l1; exact (G H)]).
    + rinv. rgo.
    + destruct o'; try (exact (G H)); destruct l2; try (exact (G H)); try discriminate; rinv; rgo.
    + destruct o'; try (exact (G H)); destruct l2; try (exact (G H)); rinv; rgo.
    + destruct (N.eqb_spec i j) as [->|_]; [|exact (G H)]. rinv. rgo.
    + destruct o; try (exact (G H)); destruct l1; try (exact (G H)); rinv; rgo.
    + destruct o; try (exact (G H)); destruct l1 as [c|s|i|t|o l1|o l11 l12]; try (exact (G H)).
      destruct (N.eqb_spec i j) as [->|_]; [|exact (G H)]. rinv. rgo.
  - destruct a as [c|s|i|t|o a|o l1 r1], b as [d|s'|j|t'|o' b|o' l2 r2];
      try (exact (G H)); unfold times in H;
      try (solve [destruct o; try (exact (G H)); destruct l1; exact (G H)]). rinv. rgo.
  - destruct a as [c|s|i|t|o a|o l1 r1], b as [d|s'|j|t'|o' b|o' l2 r2];
      try (exact (G H)); unfold over in H;
      try (solve [destruct o; try (exact (G H)); destruct l1; exact (G H)]).
    + destruct (N.eqb_spec i j) as [->|_]; [|exact (G H)].
      rinv. cbn. f_equal. field. assumption.
    + destruct (same_type _ _) eqn:S in H; [|exact (G H)].
      apply same_type_eq in S; [|exact (NR eq_refl)]. rewrite S in Z.
      apply mval_bin in Z as [p [q [E1 [E2 Z]]]]. rewrite E1 in E2. injection E2 as <-.
      apply op_div in Z as [N ->]. injection H as <-. cbn. f_equal. field. exact N.
Qed.
End Values.
