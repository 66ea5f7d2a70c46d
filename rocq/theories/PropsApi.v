(** Property C58: writing expressions with the operators and functions of the library. *)
From Coq Require Import ZArith NArith List Bool Reals Lia Lra.
From Verif Require Import Outcome Num NumR NumZ RtModel CtModel CtSpec CtOpsModel CtManipSpec ApiModel ApiSpec
  ApiFacts.
Import ListNotations.

(** C58.  Whatever a user writes with numbers, compile-time and run-time constants and variables, the
    four operators, the eight functions and conversions to rt_expr: if it compiles, then the
    resulting object, converted to an rt_expr or called as a compile-time expression, evaluates to
    the real value of what was written, at every point where this is defined.  Condition: no
    quotient with rt_constants in both operands (C40). *)
Theorem C58_value_is_what_was_written :
  forall s o rho v z,
    (forall i, src_occurs i s -> nth_error v (N.to_nat i) = Some (Some (rho i))) ->
    no_constant_quotient s -> build numR s = Some o -> src_val rho s = Some z ->
    (forall t, to_tree numR o = Some t -> eval numR t v = Ok (Some z)) /\
    (forall m, o = OCt m -> call numR m v = Some (Ok (Some z))).
Proof.
  intros s o rho v z V Q B Z. pose proof (build_value rho v s o z V Q B Z) as H.
  pose proof (build_written _ _ _ B) as W. split.
  - intros t T. apply (to_tree_value rho v o z t); auto.
    destruct o; auto. destruct W as [W _]. auto.
  - intros m ->. destruct W as [W [_ P]].
    apply (call_value rho (fun _ => 0%R) (fun _ _ => None) v m z P); auto.
Qed.
Print Assumptions C58_value_is_what_was_written.

(** C58.  The expressions classified as run-time expressions (see [runtime]) compile, for every
    numeric type, and give an object of a run-time class that holds exactly the tree written. *)
Theorem C58_run_time_expressions_compile :
  forall n (s : src n), runtime s ->
    exists o, build n s = Some o /\ (o = ORt (src_tree s) \/ o = OExpr (src_tree s)).
Proof.
  intros n s R. destruct (runtime_builds n s R) as [o [B H]]. exists o. split; [exact B|].
  destruct s; auto.
Qed.
Print Assumptions C58_run_time_expressions_compile.

(** sqrt(x0 * x0 + 2) / (3.0 - exp(expr(sin(x1)))): hypotheses of both theorems. *)
Example C58_case :
  let s : src numR := SOp CDiv (SFun FSqrt (SOp CPlus (SOp CMult (SRtVar 0) (SRtVar 0)) (SInt 2)))
             (SOp CMinus (@SNum numR (Some 3%R)) (SFun FExp (SExpr (SFun FSin (SRtVar 1))))) in
  runtime s /\ no_constant_quotient s /\ src_occurs 0 s /\ src_occurs 1 s /\ ~ src_occurs 2 s /\
  src_val (fun _ => 0%R) s = Some (sqrt (0 * 0 + 2) / (3 - exp (sin 0)))%R.
Proof.
  cbv zeta. split.
  { apply R_left.
    - apply R_fun; simpl; auto; try discriminate. apply R_left.
      + apply R_left; [constructor|left; constructor].
      + right. exact I.
    - left. apply R_right; [right; exact I|]. apply R_fun; simpl; auto. constructor. left.
      apply R_fun; simpl; auto; try discriminate. constructor. }
  split; [simpl; repeat split; intros; try discriminate; intuition|].
  split; [simpl; auto|]. split; [simpl; auto|]. split; [simpl; intuition; discriminate|].
  cbn [src_val func_val op_val]. destruct (Rle_dec 0 (0 * 0 + 2)); [|exfalso; lra].
  rewrite sin_0, exp_0. destruct (Req_EM_T (3 - 1) 0); [exfalso; lra|]. reflexivity.
Qed.

(** The same with compile-time objects: 2 - (5 + x) is -3 - x; sin of it is a run-time object. *)
Example C58_ct_case :
  build numZ (SFun FSin (SOp CMinus (SCtConst 2) (SOp CPlus (SCtConst 5) (SCtVar 0))))
    = Some (@ORt numZ (EUn USin (EBin BMinus (EConst (-3)%Z) (EVar 0)))) /\
  build numZ (SOp CMult (@SRtConst numZ 4%Z) (SCtVar 1)) = Some (@ORt numZ (EBin BMult (EConst 4%Z) (EVar 1))) /\
  build numZ (SOp CPlus (@SRtConst numZ 4%Z) (SOp CMinus (SCtConst 3) (SCtVar 1)))
    = Some (@OCt numZ (MBin CMinus (MRt 7%Z) (MVar 1))).
Proof. repeat split. Qed.

(** C58: not every function can be applied to every run-time expression.  exp() of the result of
    another function does not compile (there is no overload for rt_unary_expr), all other functions
    do, and so does exp() after a conversion to rt_expr. *)
Theorem C58_exp_of_function_refuted :
  forall n (a : src n), runtime a -> is_call a ->
    build n (SFun FExp a) = None /\
    build n (SFun FExp (SExpr a)) = Some (ORt (EUn UExp (src_tree a))) /\
    forall f, f <> FExp -> build n (SFun f a) = Some (ORt (src_tree (SFun f a))).
Proof.
  intros n a R C. destruct (runtime_builds n a R) as [o [B H]].
  assert (E : exists op x, src_tree a = EUn op x).
  { destruct a; try contradiction; simpl; eauto. destruct f; eauto. }
  destruct E as [op [x E]].
  assert (O : o = ORt (EUn op x)) by (destruct a; try contradiction; simpl in *; congruence).
  subst o. repeat split.
  - cbn [build]. rewrite B. reflexivity.
  - cbn [build]. rewrite B, E. reflexivity.
  - intros f F. cbn [build]. rewrite B, src_tree_fun, E. destruct f; try reflexivity. congruence.
Qed.
Print Assumptions C58_exp_of_function_refuted.

(** exp(sin(x0)) *)
Example C58_exp_case :
  runtime (SFun FSin (SRtVar 0) : src numZ) /\
  build numZ (SFun FExp (SFun FSin (SRtVar 0))) = None /\
  build numZ (SFun FCos (SFun FSin (SRtVar 0))) = Some (@ORt numZ (EUn UCos (EUn USin (EVar 0)))).
Proof.
  split; [|split; reflexivity].
  apply R_fun; [constructor|intros []|discriminate].
Qed.

(** C58: laplace() of an rt_expr and grad() of an rt_expr, variable or operation never compile,
    although div() of these rt_exprs does. *)
Theorem C58_laplace_of_expression_refuted :
  forall (n : Num.num) (e : expr n),
    laplace n (OExpr e) = None /\ grad n (OExpr e) = None /\
    div n (OExpr e) = Some (ORt (EUn UDiv e)) /\
    (forall op a b, grad n (ORt (EBin op a b)) = None) /\ forall i, grad n (ORt (EVar i)) = None.
Proof. repeat split. Qed.
Print Assumptions C58_laplace_of_expression_refuted.

(** C58.  Whatever the classes of the arguments, also for objects that stem from elsewhere (a unary
    expression holding an integral, say): if the call compiles, its result holds the operation and
    exactly its arguments. *)
Theorem C58_results_hold_their_arguments :
  forall n a r,
    (forall f, apply n f a = Some r ->
       exists x, to_tree n a = Some x /\ r = ORt (EUn (func_op f) x)) /\
    (grad n a = Some r -> exists x, to_tree n a = Some x /\ r = ORt (EUn UGrad x)) /\
    (div n a = Some r -> exists x, to_tree n a = Some x /\ r = ORt (EUn UDiv x)) /\
    (laplace n a = Some r -> exists x, to_tree n a = Some x /\ r = ORt (EUn UDiv (EUn UGrad x))) /\
    (to_expr n a = Some r -> exists x, to_tree n a = Some x /\ r = OExpr x) /\
    (forall op b, (forall x y, a = OCt x -> b <> OCt y) -> operator n op a b = Some r ->
       exists x y, to_tree n a = Some x /\ to_tree n b = Some y /\ r = ORt (EBin (rt_op op) x y)).
Proof.
  intros n a r. repeat apply conj.
  - intros f H. destruct a as [x|z|m|e|e]; try discriminate.
    + destruct m; try discriminate; cbn [apply] in H; try (injection H as <-; eexists; split; reflexivity).
      cbn [to_tree to_rt]. match type of H with context [rt_binary n ?m] => destruct (rt_binary n m); [|discriminate] end.
      injection H as <-. eauto.
    + destruct e; try discriminate; cbn [apply] in H; try (destruct f; try discriminate);
        injection H as <-; eexists; split; reflexivity.
    + injection H as <-. eexists; split; reflexivity.
  - intros H. destruct a as [x|z|m|e|e]; try discriminate.
    destruct e; try discriminate; injection H as <-; eexists; split; reflexivity.
  - intros H. destruct a as [x|z|m|e|e]; try discriminate;
      [destruct e; try discriminate|]; injection H as <-; eexists; split; reflexivity.
  - intros H. destruct a as [x|z|m|e|e]; try discriminate.
    destruct e; try discriminate. injection H as <-; eexists; split; reflexivity.
  - unfold to_expr. intros H. destruct (to_tree n a) as [x|]; [|discriminate].
    injection H as <-. eauto.
  - intros op b C H. unfold operator in H.
    assert (K : (if is_viennamath n a || is_viennamath n b
        then match to_tree n a with
             | Some x => match to_tree n b with
                         | Some y => Some (ORt (EBin (rt_op op) x y)) | None => None end
             | None => None end else None) = Some r).
    { destruct a as [x|z|m|[]|e]; try discriminate; try exact H;
        destruct b as [x'|z'|m'|[]|e']; try discriminate; try exact H.
      exfalso. exact (C m m' eq_refl eq_refl). }
    destruct (is_viennamath n a || is_viennamath n b); [|discriminate].
    destruct (to_tree n a) as [x|]; [|discriminate]. destruct (to_tree n b) as [y|]; [|discriminate].
    injection K as <-. eauto.
Qed.
Print Assumptions C58_results_hold_their_arguments.

(** sin(x0) of an rt_variable, 2 - e, div of an integral. *)
Example C58_arguments_case :
  let e : expr numZ := EInt (EConst 0%Z) (EConst 1%Z) 0 (EVar 0) in
  apply numZ FSin (@ORt numZ (EVar 0)) = Some (@ORt numZ (EUn USin (EVar 0))) /\
  operator numZ CMinus (OInt 2) (@OExpr numZ (EVar 1)) =
    Some (@ORt numZ (EBin BMinus (EConst 2%Z) (EVar 1))) /\
  div numZ (@ORt numZ e) = Some (@ORt numZ (EUn UDiv e)).
Proof. repeat split. Qed.

(** For a function symbol it does. *)
Example C58_laplace_case :
  build numZ (SLaplace (SSymbol 0 1)) = Some (@ORt numZ (EUn UDiv (EUn UGrad (EFun 0 1)))) /\
  build numZ (SLaplace (SExpr (SSymbol 0 1))) = None.
Proof. repeat split. Qed.

(** C58.  Assigning to an rt_expr stores what initialising one stores, for every object but a
    compile-time variable. *)
Theorem C58_assignment_is_initialisation :
  forall n o, (forall i, o <> OCt (MVar i)) -> assign_expr n o = to_expr n o.
Proof. intros n [x|z|[]|e|e] H; try reflexivity. exfalso. exact (H id eq_refl). Qed.
Print Assumptions C58_assignment_is_initialisation.

(** C58: assigning a compile-time variable stores the constant that is its index: after e = x3 the
    value of e is 3 at every point. *)
Theorem C58_assignment_of_ct_variable_refuted :
  forall i, exists e, assign_expr numR (OCt (MVar i)) = Some (OExpr e) /\
    forall v, eval numR e v = Ok (Some (IZR (Z.of_N i))).
Proof. intros i. eexists. split; reflexivity. Qed.
Print Assumptions C58_assignment_of_ct_variable_refuted.

(** e = x0 + 1 is stored as written, e = x3 is not. *)
Example C58_assignment_case :
  assign_expr numZ (OCt (MBin CPlus (MVar 0) (MConst 1))) = Some (@OExpr numZ (EBin BPlus (EVar 0) (EConst 1%Z))) /\
  to_expr numZ (OCt (MVar 3)) = Some (@OExpr numZ (EVar 3)) /\
  assign_expr numZ (OCt (MVar 3)) = Some (@OExpr numZ (EConst 3%Z)).
Proof. repeat split. Qed.
