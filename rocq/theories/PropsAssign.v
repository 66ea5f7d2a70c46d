(** Property C51: assigning a constant to a binary_expr. *)
From Coq Require Import ZArith NArith List Bool.
From Verif Require Import Outcome Num RtModel RtSpec NumZ CtModel CtOpsModel AssignModel AssignFacts.
Import ListNotations.

(** C51.  After assigning a number (or run-time constant) to a binary_expr it claims to be
    constant, but evaluation, unwrapping, simplification and differentiation throw
    rhs_provided_for_unary_operation, for every number and point. *)
Theorem C51_assigned_number_is_unusable :
  forall (n : Num.num) (c : n),
    is_constant n (assign_number n c) = true /\
    (forall v, eval n (assign_number n c) v = Throw RhsProvidedForUnaryOperation) /\
    unwrap n (assign_number n c) = Throw RhsProvidedForUnaryOperation /\
    simplify_top n (assign_number n c) = Throw RhsProvidedForUnaryOperation /\
    (forall x, diff_top n x (assign_number n c) = Throw RhsProvidedForUnaryOperation).
Proof. intros n c. repeat split; reflexivity. Qed.
Print Assumptions C51_assigned_number_is_unusable.

(** The same for compile-time constants and compile-time expressions of two constants. *)
Theorem C51_assigned_ct_constants_are_unusable :
  forall (n : Num.num) (op : bop) (a b : Z) (e : expr n),
    e = assign_ct_constant n a \/ assign_ct_pair n op a b = Ok e ->
    is_constant n e = true /\
    (forall v, eval n e v = Throw RhsProvidedForUnaryOperation) /\
    unwrap n e = Throw RhsProvidedForUnaryOperation /\
    simplify_top n e = Throw RhsProvidedForUnaryOperation.
Proof.
  intros n op a b e [->|H]; [repeat split; reflexivity|].
  unfold assign_ct_pair in H. destruct op; try discriminate; injection H as <-; repeat split; reflexivity.
Qed.
Print Assumptions C51_assigned_ct_constants_are_unusable.

Example C51_case_pair : exists e, assign_ct_pair numZ BDiv 6 4 = Ok e.
Proof. eexists. reflexivity. Qed.

(** Unlike these, an rt_unary_expr made from or assigned a number, constant or variable behaves as what it was
    made from: value, unwrap, and derivative. *)
Theorem C51_unary_expressions_are_usable :
  forall (n : Num.num) (c : n) (z : Z) (i : N),
    (forall e, e = unary_of_constant n c \/ e = unary_assign_number n c ->
       (forall v, eval n e v = Ok c) /\ unwrap n e = Ok c /\
       forall x, diff_top n x e = Ok (EConst (n_of_Z n 0))) /\
    (forall v, eval n (unary_assign_ct_constant n z) v = Ok (n_of_Z n z)) /\
    (forall v, eval n (unary_of_variable n i) v = eval n (EVar i) v) /\
    (forall x, diff_top n x (unary_of_variable n i) = diff_top n x (EVar i)).
Proof.
  intros n c z i. split; [|split; [reflexivity|split]].
  - intros e [->| ->]; (split; [reflexivity|split; reflexivity]).
  - intros v. cbn. destruct (N.leb _ _); [reflexivity|]. destruct (nth_error _ _); reflexivity.
  - reflexivity.
Qed.
Print Assumptions C51_unary_expressions_are_usable.

(** Assigning a compile-time expression, other than of two constants, gives what the constructor from that
    expression gives ... *)
Theorem C51_assignment_agrees_with_construction :
  forall (n : Num.num) (m : mexpr n) (o : outcome (expr n)),
    assign_ct n m = Some o -> (forall op a b, m <> MBin op (MConst a) (MConst b)) ->
    exists e, o = Ok e /\ rt_binary n m = Some e.
Proof.
  intros n m o H C. exact (assign_ct_constructs n m o H C).
Qed.
Print Assumptions C51_assignment_agrees_with_construction.

(** ... but not for two constants (the constructor makes a usable expression, the assignment one that holds
    the value of it twice and throws), and an operand that is a variable compiles for the constructor only. *)
Theorem C51_assignment_always_agrees_refuted :
  forall (n : Num.num) (op : cop) (a b : Z) (i : N),
    (exists e x, rt_binary n (MBin op (MConst a) (MConst b)) = Some e /\ (forall v, eval n e v = Ok x) /\
       exists e', assign_ct n (MBin op (MConst a) (MConst b)) = Some (Ok e') /\
         e' = EBin BUnaryId (EConst x) (EConst x) /\
         forall v, eval n e' v = Throw RhsProvidedForUnaryOperation) /\
    (exists e, rt_binary n (MBin op (MVar i) (MConst a)) = Some e) /\
    assign_ct n (MBin op (MVar i) (MConst a)) = None.
Proof.
  intros n op a b i. split; [|split; [eexists; reflexivity|reflexivity]].
  destruct op; do 2 eexists; (split; [reflexivity|]); (split; [reflexivity|]);
    eexists; (split; [reflexivity|split; reflexivity]).
Qed.
Print Assumptions C51_assignment_always_agrees_refuted.

(** (x0 + 1) * (x0 - x1) can be assigned. *)
Example C51_case_assignment :
  assign_ct numZ (MBin CMult (MBin CPlus (MVar 0) (MConst 1)) (MBin CMinus (MVar 0) (MVar 1))) =
  Some (Ok (EBin BMult (EBin BPlus (EVar 0) (EConst 1%Z)) (EBin BMinus (EVar 0) (EVar 1)))).
Proof. reflexivity. Qed.

(** C51: expressions without such a node never throw this exception ... *)
Theorem C51_ordinary_expressions_never_throw_it :
  forall (n : Num.num) (e : expr n),
    (forall l r, ~ subterm (EBin BUnaryId l r) e) ->
    (forall v, eval n e v <> Throw RhsProvidedForUnaryOperation) /\
    unwrap n e <> Throw RhsProvidedForUnaryOperation /\
    (forall exc, simplify_top n e <> Throw exc) /\
    (forall x, diff_top n x e <> Throw RhsProvidedForUnaryOperation).
Proof.
  intros n e H. split; [intros v; exact (eval_ordinary n v e H)|].
  split; [exact (unwrap_ordinary n e H)|]. split; [exact (top_ordinary n e H)|].
  intros x. exact (diff_ordinary n x e H).
Qed.
Print Assumptions C51_ordinary_expressions_never_throw_it.

(** ... and simplification, differentiation and substitution create none. *)
Theorem C51_operations_keep_expressions_ordinary :
  forall (n : Num.num) (e d : expr n) (x : dvar) (s repl : expr n),
    (forall l r, ~ subterm (EBin BUnaryId l r) e) ->
    (forall l r, ~ subterm (EBin BUnaryId l r) repl) ->
    simplify_top n e = Ok d \/ diff_top n x e = Ok d \/ subst1_top n s repl e = Ok d ->
    forall l r, ~ subterm (EBin BUnaryId l r) d.
Proof.
  intros n e d x s repl H K [E|[E|E]].
  - exact (top_keeps_ordinary n e d H E).
  - apply RtFacts.bind_ok in E as [d' [E1 E2]].
    exact (top_keeps_ordinary n d' d (diff_keeps_ordinary n x e d' H E1) E2).
  - apply RtFacts.bind_ok in E as [d' [E1 E2]].
    exact (top_keeps_ordinary n d' d (subst_keeps_ordinary n s repl e d' K H E1) E2).
Qed.
Print Assumptions C51_operations_keep_expressions_ordinary.

Example C51_case :
  (forall l r, ~ subterm (EBin BUnaryId l r) (EBin BMult (EVar 0) (EUn USin (EVar 0)) : expr numZ)) /\
  diff_top numZ (DVar 0) (EBin BMult (EVar 0) (EUn USin (EVar 0)) : expr numZ) =
  Ok (EBin BPlus (EUn USin (EVar 0)) (EBin BMult (EVar 0) (EUn UCos (EVar 0)))).
Proof.
  split; [|vm_compute; reflexivity]. intros l r S.
  repeat match goal with H : subterm _ _ |- _ => inversion H; subst; clear H end.
Qed.
