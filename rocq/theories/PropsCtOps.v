(** Properties C39-C41, C48 and C50: compile-time operators, conversion, differentiation,
    substitution, calls. *)
From Coq Require Import ZArith NArith List Bool Reals Lia Lra.
From Verif Require Import Outcome Num NumR NumZ RtModel CtModel CtSpec CtOpsModel CtOpsFacts CtManipModel
  CtManipSpec CtManipFacts CtOpsKinds.
Import ListNotations.

(** C39.  The conversion to run time compiles for exactly the expressions built from constants,
    variables and binary operations, and gives a tree of the same shape; evaluating it is the same
    as calling the compile-time expression, also for exceptions and for any arithmetic. *)
Theorem C39_conversion_keeps_shape :
  forall n e,
    ((exists t, to_rt n (inj e) = Some t) <-> plain e) /\
    forall t, to_rt n (inj e) = Some t ->
      same_shape n (inj e) t /\ forall v, call n (inj e) v = Some (eval n t v).
Proof.
  intros n e. split; [exact (to_rt_total n e)|]. intros t H.
  pose proof (to_rt_shape n e t H) as S. split; [exact S|exact (shape_call n _ t S)].
Qed.
Print Assumptions C39_conversion_keeps_shape.

(** C39.  Over the reals the converted expression has the value of the compile-time expression,
    at every vector that contains the values of the variables (at their indices). *)
Theorem C39_conversion_keeps_value :
  forall e t, to_rt numR (inj e) = Some t ->
  forall rho phi un v,
    (forall i, occurs i e -> nth_error v (N.to_nat i) = Some (Some (rho i))) ->
    eval numR t v = Ok (cval rho phi un e).
Proof.
  intros e t H rho phi un v V.
  assert (O : forall i e, m_occurs i (@inj (option R) e) <-> occurs i e).
  { intros i. induction e0; simpl; try tauto. }
  assert (W : forall e, mval rho phi un (inj e) = cval rho phi un e).
  { induction e0 as [c|i|s|op a IH|op l IHl r IHr]; try reflexivity.
    - cbn [inj cval]. rewrite <- IH. reflexivity.
    - cbn [inj cval]. rewrite <- IHl, <- IHr. reflexivity. }
  rewrite <- W. apply shape_mval; [exact (to_rt_shape numR e t H)|].
  intros i I. apply V. apply O. exact I.
Qed.
Print Assumptions C39_conversion_keeps_value.

(** (x + 3) * (y - x) / 2 *)
Example C39_case :
  let e := CBin CDiv (CBin CMult (CBin CPlus (CVar 0) (CConst 3)) (CBin CMinus (CVar 1) (CVar 0)))
                     (CConst 2) in
  plain e /\
  to_rt numZ (inj e) = Some (EBin BDiv (EBin BMult (EBin BPlus (EVar 0) (EConst 3%Z))
                                                   (EBin BMinus (EVar 1) (EVar 0))) (EConst 2%Z)) /\
  call numZ (inj e) [1; 7]%Z = Some (Ok 12%Z).
Proof. repeat split. Qed.

(** C40.  Whatever overload is chosen for an operator on compile-time expressions and run-time
    constants: if it compiles, the result has the value of the operation wherever that is
    defined.  For the division the dividend must not contain run-time constants. *)
Theorem C40_operators_keep_value :
  forall op a b r, combine numR op a b = Some r -> (op = CDiv -> ~ contains_rt a) ->
  forall rho phi un v z,
    (forall i, m_occurs i a \/ m_occurs i b -> nth_error v (N.to_nat i) = Some (Some (rho i))) ->
    mval rho phi un (MBin op a b) = Some z ->
    match r with
    | Ct m => mval rho phi un m = Some z
    | Rt t => eval numR t v = Ok (Some z)
    end.
Proof.
  intros op a b r H D rho phi un v z V Z.
  exact (combine_value rho phi un op a b r v z H D V Z).
Qed.
Print Assumptions C40_operators_keep_value.

(** Folded constants: 5 - (2 - x) gives 3 + x; (x + y) - x gives y; x + x gives 2 * x. *)
Example C40_case :
  combine numZ CMinus (MConst 5) (MBin CMinus (MConst 2) (MVar 0))
    = Some (Ct (MBin CPlus (MConst 3) (MVar 0))) /\
  combine numZ CMinus (MBin CPlus (MVar 0) (MVar 1)) (MVar 0) = Some (Ct (MVar 1)) /\
  combine numZ CPlus (MVar 0) (MVar 0) = Some (Ct (MBin CMult (MConst 2) (MVar 0))) /\
  combine numZ CPlus (MRt 4%Z) (MBin CMinus (MRt 3%Z) (MVar 0))
    = Some (@Ct numZ (MBin CMinus (MRt 7%Z) (MVar 0))).
Proof. repeat split. Qed.

(** C40.  Which operators compile.  On expressions without run-time constants all of them do, and
    give such an expression, unless two folded integer constants overflow a long (64 bits).  And an
    operator never puts operands together that contain run-time constants: those are folded, or the
    result is a run-time expression. *)
Theorem C40_which_operators_compile :
  forall n op (a b : mexpr (carrier n)),
    (~ contains_rt a -> ~ contains_rt b ->
       (exists m, combine n op a b = Some (Ct m) /\ ~ contains_rt m) \/
       (combine n op a b = None /\
        exists c d, leading c a /\ leading d b /\
          ~ (- 2 ^ 63 <= exact_result op c d < 2 ^ 63)%Z)) /\
    (combine n op a b = Some (Ct (MBin op a b)) -> ~ contains_rt a /\ ~ contains_rt b).
Proof.
  intros n op a b. split; [|exact (combine_kept n op a b)]. intros A B.
  destruct (combine_total n op a b A B) as [K|[E [c [d [C [D L]]]]]]; [auto|]. right.
  split; [exact E|]. exists c, d. split; [exact C|]. split; [exact D|]. intros R. unfold long in L.
  destruct ((-9223372036854775808 <=? exact_result op c d) && (exact_result op c d <=? 9223372036854775807))%Z eqn:Q;
    [discriminate|]. apply andb_false_iff in Q as [Q|Q]; apply Z.leb_gt in Q; lia.
Qed.
Print Assumptions C40_which_operators_compile.

(** (2^62 + x) + 2^62 does not compile, (2^62 + x) - 2^62 gives 0 + x; 2.5 * x is a run-time
    expression, and (2.5 + x) * y does not compile. *)
Example C40_compile_case :
  let a : mexpr (carrier numZ) := MBin CPlus (MConst 4611686018427387904) (MVar 0) in
  combine numZ CPlus a (MConst 4611686018427387904) = None /\
  combine numZ CMinus a (MConst 4611686018427387904) = Some (Ct (MBin CPlus (MConst 0) (MVar 0))) /\
  combine numZ CMult (MRt 2%Z) (MVar 0) = Some (@Rt numZ (EBin BMult (EConst 2%Z) (EVar 0))) /\
  combine numZ CMult (MBin CPlus (@MRt numZ 2%Z) (MVar 0)) (MVar 1) = None.
Proof. repeat split. Qed.

(** C40: without the condition it fails.  (3.0 + x) / (6.0 + x) gives 1, because the two operands
    have the same type. *)
Theorem C40_quotient_of_same_type_refuted :
  exists a b m x, combine numR CDiv a b = Some (Ct m) /\
    forall rho phi un, rho 0%N = 0%R ->
      mval rho phi un (MBin CDiv a b) = Some x /\ mval rho phi un m = Some 1%R /\ x <> 1%R.
Proof.
  exists (MBin CPlus (MRt (Some 3%R)) (MVar 0)), (MBin CPlus (MRt (Some 6%R)) (MVar 0)), (MConst 1),
    (3 / 6)%R.
  split; [reflexivity|]. intros rho phi un R0. cbn [mval op_val]. rewrite R0, !Rplus_0_r.
  destruct (Req_EM_T 6 0) as [E|_]; [lra|]. repeat split. lra.
Qed.
Print Assumptions C40_quotient_of_same_type_refuted.

(** C41.  The compile-time derivative exists for the expressions built from constants, variables
    and binary operations.  At every point where the expression is defined (no denominator
    vanishes), it is defined around that point as a function of the variable, and its derivative
    is the value of the compile-time derivative. *)
Theorem C41_diff_is_partial_derivative :
  forall i e,
    ((exists d, ct_diff i e = Some d) <-> plain e) /\
    forall d rho phi un x, ct_diff i e = Some d -> cval rho phi un e = Some x ->
      exists g y, g (rho i) = x /\
        (exists delta, (0 < delta)%R /\ forall t, (Rabs (t - rho i) < delta)%R ->
           cval (upd rho i t) phi un e = Some (g t)) /\
        derivable_pt_lim g (rho i) y /\ cval rho phi un d = Some y.
Proof.
  intros i e. split; [exact (ct_diff_total i e)|]. intros d rho phi un x.
  apply ct_diff_derivative.
Qed.
Print Assumptions C41_diff_is_partial_derivative.

(** C41.  Converting the derivative to run time gives the very tree that run-time differentiation
    of the converted expression gives, for any arithmetic. *)
Theorem C41_diff_agrees_with_run_time :
  forall n i e d t, ct_diff i e = Some d -> to_rt n (inj e) = Some t ->
    exists t', to_rt n (inj d) = Some t' /\ diff n (DVar i) t = Ok t'.
Proof. exact ct_diff_rt. Qed.
Print Assumptions C41_diff_agrees_with_run_time.

(** (x * y) / (x + 1), differentiated by x. *)
Example C41_case :
  let e := CBin CDiv (CBin CMult (CVar 0) (CVar 1)) (CBin CPlus (CVar 0) (CConst 1)) in
  plain e /\
  ct_diff 0 e = Some
    (CBin CDiv
      (CBin CMinus
        (CBin CMult (CBin CPlus (CBin CMult (CConst 1) (CVar 1)) (CBin CMult (CVar 0) (CConst 0)))
                    (CBin CPlus (CVar 0) (CConst 1)))
        (CBin CMult (CBin CMult (CVar 0) (CVar 1)) (CBin CPlus (CConst 1) (CConst 0))))
      (CBin CMult (CBin CPlus (CVar 0) (CConst 1)) (CBin CPlus (CVar 0) (CConst 1)))).
Proof. repeat split. Qed.

(** C48.  Substituting a variable: the result has the value of the expression at the point where
    the variable has the value of the replacement, and the variable has disappeared unless the
    replacement contains it. *)
Theorem C48_substitute_variable :
  forall i r e,
    (forall rho phi un x, cval rho phi un r = Some x ->
       cval rho phi un (ct_subst (CVar i) r e) = cval (upd rho i x) phi un e) /\
    (forall j, occurs j (ct_subst (CVar i) r e) ->
       (occurs j e /\ j <> i) \/ (occurs j r /\ occurs i e)).
Proof.
  intros i r e. split.
  - intros rho phi un x X. exact (ct_subst_var rho phi un i r x X e).
  - intros j. apply ct_subst_occurs.
Qed.
Print Assumptions C48_substitute_variable.

(** C48.  For any search type an exact match is replaced as a whole (it takes precedence over the
    recursion into the operands), everything else is searched recursively, and replacing by
    something of the same value keeps the value. *)
Theorem C48_exact_match_first :
  forall s r e,
    ct_subst s r s = r /\
    (s <> e -> ct_subst s r e =
       match e with
       | CConst _ | CVar _ | CFun _ => e
       | CUn op a => CUn op (ct_subst s r a)
       | CBin op a b => CBin op (ct_subst s r a) (ct_subst s r b)
       end) /\
    forall rho phi un, cval rho phi un s = cval rho phi un r ->
      cval rho phi un (ct_subst s r e) = cval rho phi un e.
Proof.
  intros s r e. split; [apply ct_subst_match|]. split; [apply ct_subst_step|].
  intros rho phi un E. apply ct_subst_equal_values. exact E.
Qed.
Print Assumptions C48_exact_match_first.

(** In (x + 1) * sin(x + 1), x + 1 is replaced by x at both places. *)
Example C48_case :
  let s := CBin CPlus (CVar 0) (CConst 1) in
  ct_subst s (CVar 0) (CBin CMult s (CUn USin s)) = CBin CMult (CVar 0) (CUn USin (CVar 0)) /\
  ct_subst (CVar 0) (CBin CMult (CVar 1) (CVar 0)) (CBin CPlus (CVar 0) (CVar 2))
    = CBin CPlus (CBin CMult (CVar 1) (CVar 0)) (CVar 2).
Proof. repeat split. Qed.

(** C50.  A call compiles for the expressions without unary operations and function symbols; it
    never is undefined behaviour, and throws exactly if the index of some occurring variable is
    not below the size, naming such an index and the size. *)
Theorem C50_call_is_checked :
  forall n e v,
    ((exists o, call n e v = Some o) <-> m_plain e) /\
    forall o, call n e v = Some o ->
      match o with
      | Ok _ => forall i, m_occurs i e -> (N.to_nat i < length v)%nat
      | Throw x => exists i, m_occurs i e /\ (length v <= N.to_nat i)%nat /\
                     x = VariableIndexOutOfBounds i (N.of_nat (length v))
      | UB => False
      end.
Proof. intros n e v. split; [exact (call_compiles n e v)|exact (call_throws n e v)]. Qed.
Print Assumptions C50_call_is_checked.

(** x1 * (x3 + 1) at vectors of size 4 and 2. *)
Example C50_case :
  let e := MBin CMult (MVar 1) (MBin CPlus (MVar 3) (MConst 1)) in
  call numZ e [5; 6; 7; 8]%Z = Some (Ok 54%Z) /\
  call numZ e [5; 6]%Z = Some (Throw (VariableIndexOutOfBounds 3 2)).
Proof. repeat split. Qed.

(** C50: the free function eval() of a variable is not checked: it is undefined behaviour exactly
    if the index is not below the size. *)
Theorem C50_free_eval_unchecked_refuted :
  forall n i v, free_eval n (MVar i) v = Some UB <-> (length v <= N.to_nat i)%nat.
Proof.
  intros n i v. cbn [free_eval].
  destruct (nth_error v (N.to_nat i)) as [x|] eqn:E.
  - split; [discriminate|]. intros L. apply nth_error_None in L. rewrite L in E. discriminate.
  - split; [|reflexivity]. intros _. apply nth_error_None. exact E.
Qed.
Print Assumptions C50_free_eval_unchecked_refuted.

(** Every other expression is evaluated by the checked call. *)
Example C50_free_eval_case :
  free_eval numZ (MVar 2) [5; 6]%Z = Some UB /\
  free_eval numZ (MBin CPlus (MVar 2) (MConst 0)) [5; 6]%Z
    = Some (Throw (VariableIndexOutOfBounds 2 2)).
Proof. repeat split. Qed.
