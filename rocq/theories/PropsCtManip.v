(** Properties C42-C47 and C49: compile-time expansion, coefficients, integration and
    evaluation. *)
From Coq Require Import ZArith NArith List Bool Reals Lia Lra.
From Coquelicot Require Import Coquelicot.
From Verif Require Import Outcome Num NumR NumZ RtModel CtModel CtSpec CtGcd CtFacts CtOpsModel CtManipModel
  CtManipSpec CtManipFacts CtExpand CtPoly CtIntegrate.
Import ListNotations.

(** C42.  The expansion is a finite instantiation for every expression: with any depth from a bound
    on, the result is that of [ct_expand], and it exists; it has the same value as the original
    wherever one of them is defined, and the same variables. *)
Theorem C42_expand_preserves_value :
  forall e, exists e', ct_expand e = Some e' /\
    (exists depth, forall d, (depth <= d)%nat -> expand_f d e = Some e') /\
    (forall rho phi un, cval rho phi un e' = cval rho phi un e) /\
    (forall i, occurs i e' <-> occurs i e).
Proof.
  intros e. destruct (ct_expand_total e) as [e' E]. exists e'. split; [exact E|]. split; [|split].
  - exists (2 * expand_measure e + 1)%nat. intros d D. rewrite (ct_expand_fuel e d D). exact E.
  - intros rho phi un. exact (expand_value rho phi un e e' E).
  - intros i. exact (expand_occurs i e e' E).
Qed.
Print Assumptions C42_expand_preserves_value.

(** (x + 1) * (y - x) *)
Example C42_case :
  ct_expand (CBin CMult (CBin CPlus (CVar 0) (CConst 1)) (CBin CMinus (CVar 1) (CVar 0)))
  = Some (CBin CPlus
      (CBin CMinus (CBin CMult (CVar 1) (CVar 0)) (CBin CMult (CVar 0) (CVar 0)))
      (CBin CMinus (CBin CMult (CVar 1) (CConst 1)) (CBin CMult (CVar 0) (CConst 1)))).
Proof. reflexivity. Qed.

(** C43.  The expansion has no sum as factor of a product outside denominators and arguments of
    unary operations, and extracting the coefficient of a variable from any expression compiles. *)
Theorem C43_expand_expands :
  forall e e', ct_expand e = Some e' ->
    expanded e' /\ forall i, exists c, coefficient (CVar i) e = Some c.
Proof.
  intros e e' E. pose proof (expand_expanded e e' E) as X. split; [exact X|].
  intros i. unfold coefficient. rewrite E. exact (coefficient_total i e' X).
Qed.
Print Assumptions C43_expand_expands.

(** C43.  The degree of an expression compiles if and only if no sum occurs anywhere outside
    arguments of unary operations, denominators included. *)
Theorem C43_degree_compiles :
  forall i e, product e <-> exists k, polynomial_degree (CVar i) e = Some k.
Proof. exact degree_total. Qed.
Print Assumptions C43_degree_compiles.

(** (((x + 1) * x) / y) * (x - 2), expanded; the coefficient of y in (y + x) * (x + 2) + y / x;
    a product with a product in the denominator. *)
Example C43_case :
  ct_expand
     (CBin CMult (CBin CDiv (CBin CMult (CBin CPlus (CVar 0) (CConst 1)) (CVar 0)) (CVar 1))
                 (CBin CMinus (CVar 0) (CConst 2)))
  = Some
      (CBin CDiv
        (CBin CPlus
          (CBin CMinus (CBin CMult (CVar 0) (CBin CMult (CVar 0) (CVar 0)))
                       (CBin CMult (CConst 2) (CBin CMult (CVar 0) (CVar 0))))
          (CBin CMinus (CBin CMult (CVar 0) (CBin CMult (CConst 1) (CVar 0)))
                       (CBin CMult (CConst 2) (CBin CMult (CConst 1) (CVar 0)))))
        (CVar 1)) /\
  coefficient (CVar 1) (CBin CPlus (CBin CMult (CBin CPlus (CVar 1) (CVar 0))
                                               (CBin CPlus (CVar 0) (CConst 2)))
                                   (CBin CDiv (CVar 1) (CVar 0)))
  = Some (CBin CPlus (CBin CPlus (CBin CPlus (CVar 0) (CConst 2)) (CBin CPlus (CConst 0) (CConst 0)))
                     (CBin CDiv (CConst 1) (CVar 0))) /\
  product (CBin CMult (CVar 0) (CBin CDiv (CVar 1) (CBin CMult (CVar 0) (CConst 3)))).
Proof. repeat split. Qed.

(** C43: the degree of an expanded product can still fail to compile, because it also looks into
    denominators, where expand() leaves sums: (x / (1 + y)) * x. *)
Theorem C43_degree_of_expansion_refuted :
  exists l r e', ct_expand (CBin CMult l r) = Some e' /\ polynomial_degree (CVar 0) e' = None /\
    polynomial 0 (CBin CMult l r) 2 /\ expanded e'.
Proof.
  exists (CBin CDiv (CVar 0) (CBin CPlus (CConst 1) (CVar 1))), (CVar 0).
  eexists. split; [reflexivity|]. split; [reflexivity|]. split.
  - apply (p_mult 0 _ _ 1 1); [apply p_div|]; try apply p_var. simpl. intros [[]|E]. discriminate.
  - simpl. auto.
Qed.
Print Assumptions C43_degree_of_expansion_refuted.

(** C44.  For an expression at most linear in a variable the coefficient compiles, and if dropping
    the dependent terms compiles (without narrowing), the expression is the variable times the
    coefficient plus the rest, wherever it is defined; neither part contains the variable. *)
Theorem C44_linear_decomposition :
  forall i e, polynomial i e 1 ->
    exists c, coefficient (CVar i) e = Some c /\ ~ occurs i c /\
      forall d, drop_dependent_terms int (CVar i) e = Some d ->
        drop_dependent_terms wrap32 (CVar i) e = Some d /\ ~ occurs i d /\
        forall rho phi un v, cval rho phi un e = Some v ->
          exists vc vd, cval rho phi un c = Some vc /\ cval rho phi un d = Some vd /\
            v = (rho i * vc + vd)%R.
Proof.
  intros i e P. destruct (ct_expand_total e) as [e' E].
  destruct (coefficient_linear i e' 1 (le_n 1) (expand_expanded e e' E)
              (expand_polynomial i e e' E 1 P)) as [c [C [L1 L2]]].
  exists c. unfold coefficient. rewrite E. split; [exact C|]. split; [exact L1|].
  intros d D. destruct (drop_value int i e d int_honest D) as [D1 D2]. split; [|split; [exact D1|]].
  - unfold drop_dependent_terms in *. rewrite E in *. cbn [cbind] in *.
    exact (simplify_below int wrap32 int_below_wrap _ _ D).
  - intros rho phi un v V. rewrite <- (expand_value rho phi un e e' E) in V.
    destruct (L2 rho phi un v V) as [vc [v0 [V1 [V2 V3]]]]. exists vc, v0.
    split; [exact V1|]. split; [|exact V3]. apply D2.
    rewrite <- (expand_value (upd rho i 0) phi un e e' E). exact V2.
Qed.
Print Assumptions C44_linear_decomposition.

(** (x + y) * (y + 2) - x / 3, decomposed by x *)
Example C44_case :
  let e := CBin CMinus (CBin CMult (CBin CPlus (CVar 0) (CVar 1)) (CBin CPlus (CVar 1) (CConst 2)))
                       (CBin CDiv (CVar 0) (CConst 3)) in
  polynomial 0 e 1 /\
  coefficient (CVar 0) e =
    Some (CBin CMinus (CBin CPlus (CBin CPlus (CVar 1) (CConst 2)) (CBin CPlus (CConst 0) (CConst 0)))
                      (CBin CDiv (CConst 1) (CConst 3))) /\
  drop_dependent_terms int (CVar 0) e =
    Some (CBin CPlus (CBin CMult (CVar 1) (CVar 1)) (CBin CMult (CConst 2) (CVar 1))).
Proof.
  split; [|split; [reflexivity|vm_compute; reflexivity]].
  apply p_minus.
  - apply (p_mult 0 _ _ 1 0).
    + apply p_plus; [apply p_var|]. apply (p_more 0 _ 0 1); [apply p_free; simpl; discriminate|auto].
    + apply p_free. simpl. intros [E|[]]. discriminate.
  - apply p_div; [apply p_var|simpl; tauto].
Qed.

(** C44: the documentation (coefficient.hpp lines 211-214) also allows sub-expressions instead of the
    variable.  If such a sub-expression is a term of the expanded expression, its coefficient does
    not compile: the specialisations for the sub-expression itself and for a binary expression are
    ambiguous. *)
Theorem C44_coefficient_of_subexpression_refuted :
  forall op l r e e', ct_expand e = Some e' -> term (CBin op l r) e' -> coefficient (CBin op l r) e = None.
Proof.
  intros op l r e e' E H. unfold coefficient. rewrite E. cbn [cbind]. clear E.
  induction H as [|op' a b O H IH|op' a b O H IH|a b H IH];
    [cbn [coefficient_impl]; rewrite (proj2 (cexpr_eqb_eq _ _) eq_refl); reflexivity|..];
    cbn [coefficient_impl];
    match goal with |- (if ?c then _ else _) = _ => destruct c; [reflexivity|] end.
  - destruct O as [-> | ->]; rewrite IH; reflexivity.
  - destruct O as [-> | ->]; rewrite IH; destruct (coefficient_impl _ a); reflexivity.
  - rewrite IH. reflexivity.
Qed.
Print Assumptions C44_coefficient_of_subexpression_refuted.

(** The coefficient of x * y in x * y + 2; as a factor of x * y * 2 it compiles. *)
Example C44_subexpression_case :
  let xy := CBin CMult (CVar 0) (CVar 1) in
  ct_expand (CBin CPlus xy (CConst 2)) = Some (CBin CPlus xy (CConst 2)) /\
  term xy (CBin CPlus xy (CConst 2)) /\ coefficient xy (CBin CPlus xy (CConst 2)) = None /\
  coefficient xy (CBin CMult xy (CConst 2)) = Some (CConst 2).
Proof. split; [reflexivity|]. split; [apply t_left; [left; reflexivity|constructor]|]. split; reflexivity. Qed.

(** C44: for x * x the coefficient of x contains x. *)
Theorem C44_not_linear_refuted :
  exists i e c, polynomial i e 2 /\ coefficient (CVar i) e = Some c /\ occurs i c.
Proof.
  exists 0%N, (CBin CMult (CVar 0) (CVar 0)), (CVar 0).
  split; [apply (p_mult 0 _ _ 1 1); apply p_var|]. split; reflexivity.
Qed.
Print Assumptions C44_not_linear_refuted.

(** C45.  Whenever dropping the dependent terms compiles without narrowing, the result does not
    contain the variable and has the value of the expression with the variable set to 0. *)
Theorem C45_drop_is_evaluation_at_zero :
  forall i e d, drop_dependent_terms int (CVar i) e = Some d ->
    drop_dependent_terms wrap32 (CVar i) e = Some d /\ ~ occurs i d /\
    forall rho phi un v, cval (upd rho i 0) phi un e = Some v -> cval rho phi un d = Some v.
Proof.
  intros i e d D. destruct (drop_value int i e d int_honest D) as [D1 D2].
  split; [|split; [exact D1|exact D2]].
  unfold drop_dependent_terms in *. destruct (ct_expand e) as [e'|]; [|discriminate].
  exact (simplify_below int wrap32 int_below_wrap _ _ D).
Qed.
Print Assumptions C45_drop_is_evaluation_at_zero.

(** (x + y) * (y + 2 * x) + sin(x): the sine keeps its argument 0 *)
Example C45_case :
  drop_dependent_terms int (CVar 0)
    (CBin CPlus (CBin CMult (CBin CPlus (CVar 0) (CVar 1))
                            (CBin CPlus (CVar 1) (CBin CMult (CConst 2) (CVar 0))))
                (CUn USin (CVar 0)))
  = Some (CBin CPlus (CBin CMult (CVar 1) (CVar 1)) (CUn USin (CConst 0))).
Proof. vm_compute. reflexivity. Qed.

(** C46.  If the integral of a polynomial compiles (without narrowing) and no variable other than
    the integration variable stands alone as a term or numerator of the integrand after
    expansion and simplification, then at every point where the integrand and the bounds are
    defined the result is the definite integral.  The bounds may depend on any variable. *)
Theorem C46_integrate_polynomial :
  forall lo up i e d r, polynomial i e d ->
    (forall s e', (match e with CBin _ _ _ => ct_expand e = Some e' /\ ct_simplify int e' = Some s
                   | _ => s = e end) -> no_other_term i s) ->
    ct_integrate int lo up (CVar i) e = Some r ->
    ct_integrate wrap32 lo up (CVar i) e = Some r /\
    forall rho phi un a b v,
      cval rho phi un lo = Some a -> cval rho phi un up = Some b -> cval rho phi un e = Some v ->
      exists g I, (forall t, cval (upd rho i t) phi un e = Some (g t)) /\
        is_RInt g a b I /\ cval rho phi un r = Some I.
Proof.
  intros lo up i e d r P O H.
  split; [exact (ct_integrate_below int wrap32 int_below_wrap _ _ _ _ _ H)|].
  intros rho phi un a b v Lo Up V.
  destruct (prepared_exists int lo up (CVar i) e r H) as [s S].
  apply (ct_integrate_value int int_honest phi un lo up i e d r s P S) with (v := v); try assumption.
  destruct e as [c|j|t|op x|op l r0]; try exact (O s s S).
  destruct S as [e' [S1 S2]]. exact (O s e' (conj S1 S2)).
Qed.
Print Assumptions C46_integrate_polynomial.

(** C46.  In particular for every polynomial in the integration variable alone. *)
Theorem C46_integrate_univariate :
  forall lo up i e d r, polynomial i e d -> (forall j, occurs j e -> j = i) ->
    ct_integrate int lo up (CVar i) e = Some r ->
    ct_integrate wrap32 lo up (CVar i) e = Some r /\
    forall rho phi un a b v,
      cval rho phi un lo = Some a -> cval rho phi un up = Some b -> cval rho phi un e = Some v ->
      exists g I, (forall t, cval (upd rho i t) phi un e = Some (g t)) /\
        is_RInt g a b I /\ cval rho phi un r = Some I.
Proof.
  intros lo up i e d r P O H.
  split; [exact (ct_integrate_below int wrap32 int_below_wrap _ _ _ _ _ H)|].
  intros rho phi un a b v Lo Up V.
  destruct (prepared_exists int lo up (CVar i) e r H) as [s S].
  apply (ct_integrate_value int int_honest phi un lo up i e d r s P S) with (v := v); try assumption.
  apply only_no_other. intros j J. apply O. exact (prepared_occurs int e s j S J).
Qed.
Print Assumptions C46_integrate_univariate.

(** The integral of x * x + x over [0, 1] is 5/6.  With a parameter: x * y from 1 to y.  The
    integral of (1 - x - y)^2 over the unit triangle, the inner bounds depending on the outer
    variable (as in /repo/tests/src/compiletime_manipulation.cpp), is 1/12. *)
Example C46_case :
  let e := CBin CPlus (CBin CMult (CVar 0) (CVar 0)) (CVar 0) in
  let f := CBin CMinus (CBin CMinus (CConst 1) (CVar 0)) (CVar 1) in
  (polynomial 0 e 2 /\ (forall j, occurs j e -> j = 0%N) /\
   ct_integrate int (CConst 0) (CConst 1) (CVar 0) e = Some (CBin CDiv (CConst 5) (CConst 6))) /\
  (polynomial 0 (CBin CMult (CVar 0) (CVar 1)) 1 /\
   ct_simplify int (CBin CMult (CVar 0) (CVar 1)) = Some (CBin CMult (CVar 0) (CVar 1)) /\
   no_other_term 0 (CBin CMult (CVar 0) (CVar 1)) /\
   ct_integrate int (CConst 1) (CVar 1) (CVar 0) (CBin CMult (CVar 0) (CVar 1)) = Some
     (CBin CMinus (CBin CMult (CBin CDiv (CBin CMult (CVar 1) (CVar 1)) (CConst 2)) (CVar 1))
                  (CBin CDiv (CVar 1) (CConst 2)))) /\
  cbind (ct_integrate int (CConst 0) (CBin CMinus (CConst 1) (CVar 0)) (CVar 1) (CBin CMult f f))
    (ct_integrate int (CConst 0) (CConst 1) (CVar 0)) = Some (CBin CDiv (CConst 1) (CConst 12)).
Proof.
  split; [|split].
  - split; [|split; [|vm_compute; reflexivity]].
    + apply p_plus; [apply (p_mult 0 _ _ 1 1); apply p_var|].
      apply (p_more 0 _ 1 2); [apply p_var|auto].
    + simpl. intros j [[E|E]|E]; congruence.
  - split; [|split; [|split]]; try (vm_compute; reflexivity); try exact I.
    apply (p_mult 0 _ _ 1 0); [apply p_var|]. apply p_free. simpl. discriminate.
  - vm_compute. reflexivity.
Qed.

(** C46.  Nested integrate() over a region whose inner bounds depend on the outer variable is the iterated
    integral, under the same conditions for both. *)
Theorem C46_iterated_integral :
  forall lo up i lo' up' j e d d' r r',
    (forall k f s f', (k = j /\ f = e) \/ (k = i /\ f = r) ->
       (match f with CBin _ _ _ => ct_expand f = Some f' /\ ct_simplify int f' = Some s
        | _ => s = f end) -> no_other_term k s) ->
    polynomial j e d -> polynomial i r d' ->
    ct_integrate int lo' up' (CVar j) e = Some r -> ct_integrate int lo up (CVar i) r = Some r' ->
    forall rho phi un a b,
      cval rho phi un lo = Some a -> cval rho phi un up = Some b ->
      (forall t, exists p q v, cval (upd rho i t) phi un lo' = Some p /\
         cval (upd rho i t) phi un up' = Some q /\ cval (upd rho i t) phi un e = Some v) ->
      exists G I,
        (forall t, exists g p q, cval (upd rho i t) phi un lo' = Some p /\
           cval (upd rho i t) phi un up' = Some q /\
           (forall s, cval (upd (upd rho i t) j s) phi un e = Some (g s)) /\ is_RInt g p q (G t)) /\
        is_RInt G a b I /\ cval rho phi un r' = Some I.
Proof.
  intros lo up i lo' up' j e d d' r r' C Pe Pr He Hr rho phi un a b Lo Up D.
  pose proof (fun s e' => C j e s e' (or_introl (conj eq_refl eq_refl))) as Ce.
  pose proof (fun s e' => C i r s e' (or_intror (conj eq_refl eq_refl))) as Cr. clear C.
  destruct (C46_integrate_polynomial lo' up' j e d r Pe Ce He) as [_ Ve].
  destruct (C46_integrate_polynomial lo up i r d' r' Pr Cr Hr) as [_ Vr].
  assert (E : forall t, exists g p q I, cval (upd rho i t) phi un lo' = Some p /\
           cval (upd rho i t) phi un up' = Some q /\
           (forall s, cval (upd (upd rho i t) j s) phi un e = Some (g s)) /\ is_RInt g p q I /\
           cval (upd rho i t) phi un r = Some I).
  { intros t. destruct (D t) as [p [q [v [Dp [Dq Dv]]]]].
    destruct (Ve (upd rho i t) phi un p q v Dp Dq Dv) as [g [I [G1 [G2 G3]]]].
    exists g, p, q, I. auto. }
  destruct (E (rho i)) as [g0 [p0 [q0 [I0 [_ [_ [_ [_ V0]]]]]]]]. rewrite cval_upd_self in V0.
  destruct (Vr rho phi un a b I0 Lo Up V0) as [G [I [G1 [G2 G3]]]].
  exists G, I. split; [|split; assumption].
  intros t. destruct (E t) as [g [p [q [J [E1 [E2 [E3 [E4 E5]]]]]]]].
  exists g, p, q. rewrite G1 in E5. injection E5 as ->. auto.
Qed.
Print Assumptions C46_iterated_integral.

(** The example of the manual (doc/manual/manipulation.tex): x * x over the unit triangle is 1/12. *)
Example C46_iterated_case :
  let e := CBin CMult (CVar 0) (CVar 0) in
  let up' := CBin CMinus (CConst 1) (CVar 0) in
  exists r, ct_integrate int (CConst 0) up' (CVar 1) e = Some r /\
    ct_integrate int (CConst 0) (CConst 1) (CVar 0) r = Some (CBin CDiv (CConst 1) (CConst 12)) /\
    polynomial 1 e 0 /\ polynomial 0 r 3 /\
    (forall k f s f', (k = 1%N /\ f = e) \/ (k = 0%N /\ f = r) ->
       (match f with CBin _ _ _ => ct_expand f = Some f' /\ ct_simplify int f' = Some s
        | _ => s = f end) -> no_other_term k s) /\
    forall rho phi un t, exists p q v, cval (upd rho 0 t) phi un (CConst 0) = Some p /\
         cval (upd rho 0 t) phi un up' = Some q /\ cval (upd rho 0 t) phi un e = Some v.
Proof.
  cbv zeta. eexists. split; [vm_compute; reflexivity|]. split; [vm_compute; reflexivity|].
  split; [apply p_free; simpl; intros [H|H]; discriminate|].
  split.
  { apply (p_mult 0 _ _ 1 2); [apply p_minus; [apply (p_more 0 _ 0 1); [apply p_free; simpl; tauto|auto]|apply p_var]|].
    apply (p_mult 0 _ _ 1 1); apply p_var. }
  split.
  - intros k f s f' [[-> ->] | [-> ->]] [A B].
    + vm_compute in A. injection A as <-. vm_compute in B. injection B as <-. exact I.
    + vm_compute in A. injection A as <-. vm_compute in B. injection B as <-. simpl. auto.
  - intros rho phi un t. do 3 eexists. split; [reflexivity|]. split; reflexivity.
Qed.

(** C46: an integrand that is a single different variable y is integrated as if it were x. *)
Theorem C46_other_variable_refuted :
  exists r, ct_integrate wrap32 (CConst 0) (CConst 1) (CVar 0) (CVar 1) = Some r /\
    forall rho phi un, cval rho phi un r = Some (1 / 2)%R /\
      is_RInt (fun t => match cval (upd rho 0 t) phi un (CVar 1) with Some x => x | None => 0%R end)
        0 1 (rho 1%N).
Proof.
  eexists. split; [vm_compute; reflexivity|]. intros rho phi un. split.
  - cbn [cval op_val]. destruct (Req_EM_T 2 0); [lra|reflexivity].
  - replace (rho 1%N) with (scal (1 - 0)%R (rho 1%N)).
    + apply (is_RInt_ext (fun _ => rho 1%N)); [reflexivity|]. apply @is_RInt_const.
    + change ((1 - 0) * rho 1%N = rho 1%N)%R. ring.
Qed.
Print Assumptions C46_other_variable_refuted.

(** C46: an integrand with the variable in a denominator is not rejected; only the numerator is
    integrated, and the result contains the integration variable: 1 / x over [1, 2]. *)
Theorem C46_quotient_refuted :
  exists r, ct_integrate wrap32 (CConst 1) (CConst 2) (CVar 0) (CBin CDiv (CConst 1) (CVar 0)) = Some r /\
    occurs 0 r.
Proof. eexists. split; [vm_compute; reflexivity|]. simpl. auto. Qed.
Print Assumptions C46_quotient_refuted.

(** C46: not every polynomial compiles.  2 * x over [0, 1] needs (1/2) * 2, for which two partial
    specialisations of simplify are ambiguous; for (0 - x) - 1 the simplification of the expanded
    integrand makes a product with a sum again. *)
Theorem C46_always_compiles_refuted :
  exists e f, polynomial 0 e 1 /\ polynomial 0 f 1 /\
    ct_integrate wrap32 (CConst 0) (CConst 1) (CVar 0) e = None /\
    choose CMult (CBin CDiv (CConst 1) (CConst 2)) (CConst 2) = Ambiguous /\
    ct_integrate wrap32 (CConst 0) (CConst 1) (CVar 0) f = None /\
    ct_simplify wrap32 f = Some (CBin CMult (CConst (-1)) (CBin CPlus (CVar 0) (CConst 1))).
Proof.
  exists (CBin CMult (CConst 2) (CVar 0)), (CBin CMinus (CBin CMinus (CConst 0) (CVar 0)) (CConst 1)).
  split; [apply (p_mult 0 _ _ 0 1); [apply p_free; simpl; tauto|apply p_var]|].
  split; [|split; [vm_compute; reflexivity|split; [reflexivity|split; vm_compute; reflexivity]]].
  repeat apply p_minus; try apply p_var; apply (p_more 0 _ 0 1); auto; apply p_free; simpl; tauto.
Qed.
Print Assumptions C46_always_compiles_refuted.

(** C47.  For every exponent from 0 on, pow is a finite instantiation and denotes the power. *)
Theorem C47_pow :
  forall t k, (0 <= k)%Z ->
    exists p, ct_pow t k = Some p /\
      (exists depth, forall d, (depth <= d)%nat -> pow_f d t k = Some p) /\
      forall rho phi un v, cval rho phi un t = Some v ->
        cval rho phi un p = Some (v ^ Z.to_nat k)%R.
Proof.
  intros t k K. destruct (pow_enough t (S (Z.to_nat k)) k ltac:(lia)) as [p P].
  exists p. split; [exact P|]. split.
  - exists (S (Z.to_nat k)). intros d D. exact (pow_more t _ k p P d D).
  - intros rho phi un v V. exact (pow_value rho phi un t v V _ k p K P).
Qed.
Print Assumptions C47_pow.

Example C47_case :
  ct_pow (CVar 0) 5 = Some (CBin CMult (CBin CMult (CVar 0) (CVar 0))
                             (CBin CMult (CVar 0) (CBin CMult (CVar 0) (CVar 0)))) /\
  polynomial_degree (CVar 0)
    (CBin CDiv (CBin CMult (CBin CMult (CVar 0) (CVar 1)) (CVar 0)) (CBin CMult (CConst 3) (CVar 0)))
    = Some 1%Z /\
  polynomial_degree (CVar 0) (CBin CDiv (CUn USin (CVar 1)) (CBin CMult (CVar 0) (CVar 0)))
    = Some (-2)%Z.
Proof. repeat split. Qed.

(** C47: for a negative exponent no instantiation depth suffices. *)
Theorem C47_negative_exponent_refuted :
  forall t k depth, (k < 0)%Z -> pow_f depth t k = None.
Proof. intros t k d K. exact (pow_negative t d k K). Qed.
Print Assumptions C47_negative_exponent_refuted.

(** C47.  Whenever the degree of an expression compiles and the variable occurs in no argument of a
    unary operation, the degree is the exponent: at every value t <> 0 of the variable the
    expression is its value at 1 times that power of t.  (The exponent can be negative.) *)
Theorem C47_degree_is_exponent :
  forall i e k, outside_unary i e -> polynomial_degree (CVar i) e = Some k ->
  forall rho phi un t x y, t <> 0%R ->
    cval (upd rho i 1) phi un e = Some x -> cval (upd rho i t) phi un e = Some y ->
    y = (x * powerRZ t k)%R.
Proof.
  intros i e k O H rho phi un t x y T X Y.
  exact (degree_quotient rho phi un i e k O H t x y T X Y).
Qed.
Print Assumptions C47_degree_is_exponent.

(** C49.  If evaluation at a compile-time vector compiles without narrowing, the result has the
    value of the expression at the values of the entries. *)
Theorem C49_eval_value :
  forall v e t, ct_eval int e v = Some t -> ct_eval wrap32 e v = Some t /\
  forall rho rho' phi un x,
    (forall i w, nth_error v (N.to_nat i) = Some w -> cval rho phi un w = Some (rho' i)) ->
    cval rho' phi un e = Some x -> cval rho phi un t = Some x.
Proof.
  intros v e t H. split; [exact (ct_eval_below int wrap32 int_below_wrap v e t H)|].
  intros rho rho' phi un x V X.
  exact (ct_eval_value int int_honest rho rho' phi un v V e t H x X).
Qed.
Print Assumptions C49_eval_value.

(** C49.  If the entries are constants or fractions, so is the result, and the function eval()
    returns the value of the expression at them. *)
Theorem C49_eval_of_numbers :
  forall v e t, (forall i w, nth_error v i = Some w -> number w) -> ct_eval int e v = Some t ->
    number t /\
    forall rho phi un x,
      (forall i w, nth_error v (N.to_nat i) = Some w -> cval rho phi un w = Some (rho i)) ->
      cval rho phi un e = Some x -> eval_at numR wrap32 e v = Some (Ok (Some x)).
Proof.
  intros v e t N H. split; [exact (ct_eval_number int v N e t H)|].
  intros rho phi un x V X.
  pose proof (eval_at_value int int_honest rho rho phi un v N V e t H x X) as E.
  unfold eval_at in *. rewrite (ct_eval_below int wrap32 int_below_wrap v e t H).
  rewrite H in E. exact E.
Qed.
Print Assumptions C49_eval_of_numbers.

(** C49.  Simplification computes every expression built from constants: if it compiles, the
    result is a constant or a fraction. *)
Theorem C49_constants_are_computed :
  forall narrow e r, ground e -> ct_simplify narrow e = Some r -> number r.
Proof. intros narrow e r G H. exact (simplify_number narrow e r H G). Qed.
Print Assumptions C49_constants_are_computed.

(** (x + y * 2) / (z - 1) at (2/3, 5, 7) *)
Example C49_case :
  let e := CBin CDiv (CBin CPlus (CVar 0) (CBin CMult (CVar 1) (CConst 2)))
                     (CBin CMinus (CVar 2) (CConst 1)) in
  let v := [CBin CDiv (CConst 2) (CConst 3); CConst 5; CConst 7] in
  (forall i w, nth_error v i = Some w -> number w) /\
  ct_eval int e v = Some (CBin CDiv (CConst 16) (CConst 9)).
Proof.
  split; [|vm_compute; reflexivity].
  intros [|[|[|[|i]]]] w H; try discriminate; injection H as <-; unfold number; eauto.
Qed.
