(** C80: how large the types computed at compile time get.  (Only the theorems; vocabulary in
    CtGrowSpec.v, lemmas in CtGrowFacts.v.) *)
From Coq Require Import ZArith NArith List Bool Lia.
From Verif Require Import RtModel CtModel CtSpec CtFacts CtManipModel CtManipSpec CtExpand WorkFacts CtGrowSpec CtGrowFacts.
Local Open Scope nat_scope.

(** C80.  result_of::simplify never nests a type from more template-ids than its argument, and it
    instantiates simplify_impl at the top at most twice per template-id of its argument. *)
Theorem C80_simplify_never_enlarges :
  forall (narrow : Z -> option Z) (e : cexpr),
    (forall e', ct_simplify narrow e = Some e' -> cnodes e' <= cnodes e) /\
    simplify_loop narrow (2 * cnodes e) e = Some (ct_simplify narrow e).
Proof.
  intros n e. split; [intros e' H; exact (simplify_nodes n e e' H)|apply passes_enough].
Qed.
Print Assumptions C80_simplify_never_enlarges.

(** C80.  The expanded type is a sum of exactly as many terms as multiplying out by hand gives.  It is
    nested from fewer template-ids than the number got from the argument by replacing sums of sizes by
    products at the products, which is at most 2^nodes. *)
Theorem C80_size_of_expansion :
  forall e e' : cexpr,
    ct_expand e = Some e' ->
    summands e' = terms e /\
    cnodes e' < multiplied_out e /\
    multiplied_out e <= 2 ^ cnodes e.
Proof.
  intros e e' H. split; [|split; [exact (expand_nodes e e' H)|apply mo_pow]].
  rewrite <- (expand_terms e e' H). exact (expanded_terms e' (expand_expanded e e' H)).
Qed.
Print Assumptions C80_size_of_expansion.

(** C80.  No polynomial bounds the size of the expanded type (nor of the coefficients taken from it):
    (x + 1) * ... * (x + 1) with k + 1 factors, 4 k + 3 template-ids, becomes a sum of 2^(k + 1)
    terms. *)
Theorem C80_expansion_is_polynomial_refuted :
  (forall k : nat,
     cnodes (power_of_sum k) = 4 * k + 3 /\
     exists e', ct_expand (power_of_sum k) = Some e' /\ summands e' = 2 ^ (k + 1) /\ 2 ^ (k + 1) <= cnodes e') /\
  ~ exists p : nat, forall e e' : cexpr, ct_expand e = Some e' -> cnodes e' <= cnodes e ^ p + p.
Proof.
  split.
  - intros k. split; [apply pos_nodes|]. destruct (ct_expand_total (power_of_sum k)) as [e' E].
    exists e'. split; [exact E|]. pose proof (expand_terms _ _ E) as T.
    rewrite <- (expanded_terms e' (expand_expanded _ e' E)), pos_terms in T.
    rewrite Nat.add_1_r, <- T. split; [reflexivity|apply summands_nodes].
  - intros [p H]. destruct (pow_beats' p) as [k K]. destruct (ct_expand_total (power_of_sum k)) as [e' E].
    specialize (H _ _ E). rewrite pos_nodes in H. pose proof (expand_terms _ _ E) as T.
    rewrite <- (expanded_terms e' (expand_expanded _ e' E)), pos_terms in T.
    pose proof (summands_nodes e'). lia.
Qed.
Print Assumptions C80_expansion_is_polynomial_refuted.

(** C80.  A derivative is nested from at most 3 * nodes * height template-ids and three times as deep. *)
Theorem C80_size_of_derivative :
  forall (i : N) (e d : cexpr),
    ct_diff i e = Some d ->
    cnodes d <= 3 * cnodes e * cheight e /\ cheight d <= 3 * cheight e.
Proof. exact ct_diff_size. Qed.
Print Assumptions C80_size_of_derivative.

(** C80.  Substituting a variable replaces exactly its occurrences; substituting anything multiplies the
    size at most by that of the replacement. *)
Theorem C80_size_of_substitution :
  forall (r e : cexpr),
    (forall i : N, cnodes (ct_subst (CVar i) r e) + c_occurrences i e = cnodes e + c_occurrences i e * cnodes r) /\
    (forall s : cexpr, cnodes (ct_subst s r e) <= cnodes e * cnodes r).
Proof.
  intros r e. split; [intros i; apply ct_subst_var_nodes|].
  intros s. apply ct_subst_nodes; [apply cnodes_pos|reflexivity].
Qed.
Print Assumptions C80_size_of_substitution.

(** C80.  coefficient and drop_dependent_terms give a type not larger than the expanded argument. *)
Theorem C80_size_of_coefficients :
  forall (narrow : Z -> option Z) (x e e' c : cexpr),
    ct_expand e = Some e' ->
    (coefficient x e = Some c -> cnodes c <= cnodes e') /\
    (drop_dependent_terms narrow x e = Some c -> cnodes c <= cnodes e').
Proof.
  intros n x e e' c E. split; intros H.
  - exact (coefficient_size x e e' c E H).
  - exact (drop_size n x e e' c E H).
Qed.
Print Assumptions C80_size_of_coefficients.

(** C80.  The k-th power of a type has k copies of it, nested like a balanced tree. *)
Theorem C80_size_of_powers :
  forall (t p : cexpr) (k : Z),
    (1 <= k)%Z ->
    ct_pow t k = Some p ->
    cnodes p + 1 = Z.to_nat k * (cnodes t + 1) /\
    cheight p = cheight t + Z.to_nat (Z.log2_up k).
Proof. intros t p k K H. exact (pow_size t _ k p K H). Qed.
Print Assumptions C80_size_of_powers.

(** C80.  The size of an integral is that of the expanded integrand times that of the bounds. *)
Theorem C80_size_of_integrals :
  forall (narrow : Z -> option Z) (lo up x e r : cexpr),
    ct_integrate narrow lo up x e = Some r ->
    cnodes r <= multiplied_out e * (2 * cnodes up + 2 * cnodes lo + 14).
Proof. exact integrate_nodes. Qed.
Print Assumptions C80_size_of_integrals.

(** Concrete cases: (x + 1)^3 has 11 template-ids and 8 terms after expansion; its derivative; the
    coefficient of x in (x + 1) * (x + 2); x^5; the integral of x * x from 0 to 1. *)
Example C80_case :
  let x := CVar 0 in
  (exists e', ct_expand (power_of_sum 2) = Some e' /\ summands e' = 8 /\ terms (power_of_sum 2) = 8 /\
     cnodes (power_of_sum 2) = 11 /\ cnodes e' = 47 /\ multiplied_out (power_of_sum 2) = 125) /\
  (exists d, ct_diff 0 (power_of_sum 2) = Some d /\ cnodes d = 31) /\
  (exists p, ct_pow x 5 = Some p /\ cnodes p = 9 /\ cheight p = 4) /\
  (exists c, coefficient x (CBin CMult (CBin CPlus x (CConst 1)) (CBin CPlus x (CConst 2))) = Some c /\ cnodes c = 7) /\
  (exists r, ct_integrate int (CConst 0) (CConst 1) x (CBin CMult x x) = Some r /\ cnodes r = 3) /\
  ct_simplify int (CBin CMult (CBin CPlus x (CConst 0)) (CBin CMinus (CConst 3) (CConst 2))) = Some x.
Proof.
  cbv zeta. repeat split; try (eexists; vm_compute; repeat split; reflexivity).
Qed.
