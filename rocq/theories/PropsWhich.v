(** Properties C60-C62: exactly which calls of make_equation(), make_interval(), integral(), diff() and
    substitute() compile. *)
From Coq Require Import ZArith NArith List Bool.
From Verif Require Import Outcome Num NumZ RtModel CtModel CtOpsModel CtManipModel ApiModel OverModel OverSpec WhichSpec.
Import ListNotations.

Ltac convert :=
  repeat match goal with
  | H : convertible _ |- _ => destruct H as [? H]; cbn [to_tree] in H
  | H : exists _, _ |- _ => destruct H
  | H : _ /\ _ |- _ => destruct H
  | H : _ \/ _ |- _ => destruct H
  end.

(** C60.  make_equation(a, b) compiles exactly if both are compile-time objects, or both can be
    converted to rt_expr, [a] is not a vector and, if [a] is a number, then [b] is a variable, an
    operation or an rt_expr. *)
Theorem C60_which_equations_compile :
  forall n (a b : obj n),
    make_equation n a b <> None <->
    (is_ct a /\ is_ct b) \/
    (convertible a /\ convertible b /\ ~ is_vector a /\ (is_number a -> variable_or_operation b)).
Proof.
  intros n a b. unfold convertible.
  destruct a as [x|x|[]|[]|x], b as [y|y|[]|[]|y]; cbn [make_equation is_ct is_vector is_number variable_or_operation];
    unfold rt_sides; cbn [to_tree];
    repeat match goal with |- context [to_rt n ?m] => destruct (to_rt n m) end;
    (split; [intros H|intros H C; convert; try discriminate; try tauto]).
  all: try (exfalso; apply H; reflexivity).
  all: try (left; split; exact I).
  all: right; split; [eexists; reflexivity|split; [eexists; reflexivity|tauto]].
Qed.
Print Assumptions C60_which_equations_compile.

(** C60.  make_interval(a, b) compiles exactly if both are compile-time objects, or both can be
    converted to rt_expr, [a] is not a vector, and: after a number comes a number, a constant, a
    variable, an operation or an rt_expr; after a ct_variable comes a number; before a number comes no
    compile-time object but a ct_variable or ct_constant. *)
Theorem C60_which_intervals_compile :
  forall n (a b : obj n),
    make_interval n a b <> None <->
    (is_ct a /\ is_ct b) \/
    (convertible a /\ convertible b /\ ~ is_vector a /\
     (is_number a -> is_number b \/ is_a_constant b \/ variable_or_operation b) /\
     (is_ct_variable a -> is_number b) /\
     (is_ct a -> is_number b -> is_ct_variable a \/ is_ct_constant a)).
Proof.
  intros n a b. unfold convertible, is_a_constant.
  destruct a as [x|x|[]|[]|x], b as [y|y|[]|[]|y];
    cbn [make_interval is_ct is_vector is_number variable_or_operation is_ct_variable is_ct_constant is_rt_constant];
    unfold rt_sides; cbn [to_tree];
    repeat match goal with |- context [to_rt n ?m] => destruct (to_rt n m) end;
    (split; [intros H|intros H C; convert; try discriminate; try tauto]).
  all: try (exfalso; apply H; reflexivity).
  all: try (left; split; exact I).
  all: right; split; [eexists; reflexivity|split; [eexists; reflexivity|tauto]].
Qed.
Print Assumptions C60_which_intervals_compile.

(** C60.  An integral over a symbolic interval compiles exactly for the run-time classes other than
    vectors. *)
Theorem C60_which_symbolic_integrals_compile :
  forall n (id : N) (f : obj n),
    symbolic_integral n id f <> None <-> (is_node f \/ is_expr f) /\ ~ is_vector f.
Proof.
  intros n id f. destruct f as [x|x|[]|[]|x]; cbn; (split; [intros H|intros H C]); try discriminate; try tauto.
Qed.
Print Assumptions C60_which_symbolic_integrals_compile.

(** C61.  diff(o, x) compiles exactly if [o] is an rt_expr, a run-time operation, function, integral or
    function symbol; or a number or constant and [x] an rt_variable; or built from ct_constants and
    ct_variables by + - * / and [x] a ct_variable. *)
Theorem C61_which_calls_compile :
  forall n (o : obj n) (x : by_what),
    diff_obj n o x <> None <->
    match o with
    | OExpr _ | ORt (EUn _ _) | ORt (EInt _ _ _ _) | ORt (EBin _ _ _) | ORt (EFun _ _) => True
    | _ => False
    end \/
    ((is_number o \/ is_a_constant o) /\ exists i, x = ByVar i) \/
    (exists m i, o = OCt m /\ rational m /\ x = ByCt i).
Proof.
  intros n o x.
  assert (R : forall i (m : mexpr n), cbind (ct_type n m) (ct_diff i) <> None <-> rational m).
  { intros i. induction m as [c|c|j|t|op a IH|op a IHa b IHb]; cbn [ct_type rational].
    - split; auto. discriminate.
    - split; [intros H; exfalso; apply H; reflexivity|tauto].
    - split; auto. discriminate.
    - split; [intros H; exfalso; apply H; reflexivity|tauto].
    - split; [intros H; exfalso; apply H; destruct (ct_type n a); reflexivity|tauto].
    - rewrite <- IHa, <- IHb. destruct (ct_type n a) as [ca|], (ct_type n b) as [cb|]; cbn [cbind ct_diff];
        try (split; [intros H; exfalso; apply H; reflexivity|intros [H1 H2] _; (apply H1; reflexivity) || (apply H2; reflexivity)]).
      destruct (ct_diff i ca), (ct_diff i cb); cbn [cbind]; split; try (intros H; split; intros C; apply H; reflexivity);
        try (intros _; split; discriminate); try discriminate;
        intros [H1 H2] _; (apply H1; reflexivity) || (apply H2; reflexivity). }
  unfold is_a_constant.
  assert (T : forall i m, match cbind (ct_type n m) (ct_diff i) with
                          | Some d => Some (Ok (@OCt n (inj d))) | None => None end <> None <-> rational m).
  { intros i m. rewrite <- (R i m). destruct (cbind (ct_type n m) (ct_diff i)); split; intros; congruence. }
  destruct o as [z|z|m|e|e].
  - destruct x; cbn; split; intros H; try (exfalso; apply H; reflexivity); try discriminate.
    + right; left; eauto.
    + convert; try tauto; discriminate.
    + convert; try tauto; discriminate.
  - destruct x; cbn; split; intros H; try (exfalso; apply H; reflexivity); try discriminate.
    + right; left; eauto.
    + convert; try tauto; discriminate.
    + convert; try tauto; discriminate.
  - destruct x as [i|i|i t].
    + destruct m; cbn; split; intros H; try (exfalso; apply H; reflexivity); try discriminate;
        try (right; left; split; [tauto|eauto]); convert; try tauto; discriminate.
    + assert (G : diff_obj n (OCt m) (ByCt i) <> None <-> rational m).
      { rewrite <- (T i m). destruct m; reflexivity. }
      rewrite G. split.
      * intros H. right; right. exists m, i. auto.
      * intros H. convert; try tauto; try discriminate. injection H as <-. assumption.
    + destruct m; cbn; split; intros H; try (exfalso; apply H; reflexivity); convert; try tauto; discriminate.
  - destruct e, x; cbn; split; intros H; try tauto; try discriminate; try (exfalso; apply H; reflexivity); convert; try tauto; discriminate.
  - destruct x; cbn; split; intros H; try tauto; discriminate.
Qed.
Print Assumptions C61_which_calls_compile.

(** C62.  substitute(s, r, e) into an expression of a run-time class compiles exactly as described by
    [substitution_compiles]. *)
Theorem C62_which_calls_compile :
  forall n (s r e : obj n),
    ~ is_ct e -> ~ is_number e -> ~ is_vector e ->
    (subst_obj n s r e <> None <-> substitution_compiles s r e).
Proof.
  intros n s r e C M V. unfold substitution_compiles, is_a_constant.
  destruct e as [z|z|[]|t|t]; try (exfalso; cbn in C, M, V; tauto); clear C M;
  destruct s as [u|u|m|[]|u]; destruct r as [y|y|[]|y|y]; cbn;
    split; intros H; try (exfalso; apply H; reflexivity); try discriminate; try tauto; eauto;
    convert; try tauto; try discriminate; eauto.
Qed.
Print Assumptions C62_which_calls_compile.

(** Cases: 1 = x0 compiles, [x0, 1] of a ct_variable and an rt_variable does not; x1*x1 by x1;
    an rt_expr for a function symbol. *)
Example C60_which_case :
  make_equation numZ (OInt 1) (OCt (MVar 0)) <> None /\
  make_interval numZ (OCt (MVar 0)) (ORt (EVar 1)) = None /\
  diff_obj numZ (OCt (MBin CMult (MVar 1) (MVar 1))) (ByCt 1) <> None /\
  substitution_compiles (n := numZ) (ORt (EFun 0 0)) (OExpr (EVar 0)) (OExpr (EFun 0 0)).
Proof. repeat split; try discriminate. left. exact I. Qed.
