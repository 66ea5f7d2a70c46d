(** Properties C35-C38 and C63: compile-time simplification. *)
From Coq Require Import ZArith NArith List Bool Reals Lia Lra Wellfounded Wf_nat.
From Verif Require Import Outcome Num RtModel CtModel CtSpec CtGcd CtFacts CtBound CtManipSpec CtPoly
  CtNormalSpec CtNormal.
Import ListNotations.
Local Open Scope Z_scope.

(** C35.  If the simplification that rejects numerators, denominators and gcds outside int
    succeeds, then the code computes the same type, and it has the same value wherever the
    original is defined: for all values of variables and function symbols and all meanings of the
    unary operations. *)
Theorem C35_simplify_preserves_value :
  forall e r, ct_simplify int e = Some r ->
    ct_simplify wrap32 e = Some r /\
    forall rho phi un x, cval rho phi un e = Some x -> cval rho phi un r = Some x.
Proof.
  intros e r H. split; [exact (simplify_below int wrap32 int_below_wrap e r H)|].
  intros rho phi un. exact (simplify_value int int_honest rho phi un e r H).
Qed.
Print Assumptions C35_simplify_preserves_value.

(** (2/3 + 1/6) * x - (0 - 4) / (1 * y): several rules, among them a rational sum that is
    reduced. *)
Example C35_case :
  ct_simplify int
    (CBin CMinus
       (CBin CMult (CBin CPlus (CBin CDiv (CConst 2) (CConst 3)) (CBin CDiv (CConst 1) (CConst 6)))
          (CVar 0))
       (CBin CDiv (CBin CMinus (CConst 0) (CConst 4)) (CBin CMult (CConst 1) (CVar 1))))
  = Some (CBin CMinus (CBin CMult (CBin CDiv (CConst 5) (CConst 6)) (CVar 0))
       (CBin CDiv (CConst (-4)) (CVar 1))).
Proof. vm_compute. reflexivity. Qed.

(** C35: a type computed by the code at all can have another value than the original, because
    numerators and denominators are stored as int.  1/65537 + 1/65537 becomes 131074/131073. *)
Theorem C35_without_range_condition_refuted :
  exists e r, ct_simplify wrap32 e = Some r /\
    forall rho phi un, exists x y,
      cval rho phi un e = Some x /\ cval rho phi un r = Some y /\ (x < 1 < y)%R.
Proof.
  exists (CBin CPlus (CBin CDiv (CConst 1) (CConst 65537)) (CBin CDiv (CConst 1) (CConst 65537))),
    (CBin CDiv (CConst 131074) (CConst 131073)).
  split; [vm_compute; reflexivity|]. intros rho phi un.
  exists (1 / 65537 + 1 / 65537)%R, (131074 / 131073)%R. cbn [cval op_val].
  destruct (Req_EM_T 65537 0) as [E|_]; [exfalso; lra|].
  destruct (Req_EM_T 131073 0) as [E|_]; [exfalso; lra|].
  repeat split; lra.
Qed.
Print Assumptions C35_without_range_condition_refuted.

(** C36.  There is no infinite sequence of instantiations: the step relation is well-founded, and
    with any fuel above [csize e] the loop gives the result of [ct_simplify], so that a failure of
    the latter is a compile error and not a lack of fuel. *)
Theorem C36_instantiation_is_finite :
  forall narrow,
    well_founded (fun e' e => simplify_impl narrow e = Some (true, e')) /\
    forall e fuel, (csize e < fuel)%nat ->
      simplify_loop narrow fuel e = Some (ct_simplify narrow e).
Proof.
  intros n. split; [|intros e f; exact (loop_simplify n f e)].
  apply (wf_incl _ _ (fun a b => (csize a < csize b)%nat)).
  - intros e' e H. exact (impl_size n e true e' H).
  - apply well_founded_ltof.
Qed.
Print Assumptions C36_instantiation_is_finite.

(** C36.  Simplifying the result again yields the same type. *)
Theorem C36_simplify_is_final :
  forall narrow e r, ct_simplify narrow e = Some r -> ct_simplify narrow r = Some r.
Proof. exact simplify_final. Qed.
Print Assumptions C36_simplify_is_final.

(** A case with three instantiations: (x + (0 - y)) + 0 * z. *)
Example C36_case :
  let e := CBin CPlus (CBin CPlus (CVar 0) (CBin CMinus (CConst 0) (CVar 1)))
                      (CBin CMult (CConst 0) (CVar 2)) in
  exists e1 e2, simplify_impl wrap32 e = Some (true, e1) /\
    simplify_impl wrap32 e1 = Some (true, e2) /\ ct_simplify wrap32 e = Some e2 /\
    e2 = CBin CMinus (CVar 0) (CVar 1).
Proof. do 2 eexists. repeat split; vm_compute; reflexivity. Qed.

(** C36: being final does not mean that fractions are reduced; 6/4 stays as it is, although the
    specialisation for it computes 3/2. *)
Theorem C36_single_fraction_is_reduced_refuted :
  exists a b g, gcd wrap32 a b = Some g /\ Z.abs g <> 1 /\ b <> 0 /\
    ct_simplify wrap32 (CBin CDiv (CConst a) (CConst b)) = Some (CBin CDiv (CConst a) (CConst b)).
Proof. exists 6, 4, 2. repeat split; try (vm_compute; reflexivity); lia. Qed.
Print Assumptions C36_single_fraction_is_reduced_refuted.

(** C36: the difference c - 0 of constants does not compile unless c is 1 or -1 (ambiguous partial
    specialisations). *)
Theorem C36_constant_minus_zero :
  forall c, ct_simplify wrap32 (CBin CMinus (CConst c) (CConst 0)) =
    if (c =? 1) || (c =? -1) then Some (CConst c) else None.
Proof.
  intros c. rewrite simplify_eq.
  destruct (Z.eqb_spec c 1) as [->|N1]; [reflexivity|].
  destruct (Z.eqb_spec c (-1)) as [->|N2]; [reflexivity|].
  assert (E1 : (1 =? c) = false) by (apply Z.eqb_neq; lia).
  assert (E2 : (-1 =? c) = false) by (apply Z.eqb_neq; lia).
  cbn -[Z.eqb]. unfold choose, applicable. cbn -[Z.eqb]. rewrite E1, E2. reflexivity.
Qed.
Print Assumptions C36_constant_minus_zero.

(** C37.  If the product of 2 * max(|c|, 1) over all constants is below 2^31, the code never
    narrows: it compiles exactly if the run rejecting values outside int does, with the same
    result, whose value is the one of the original. *)
Theorem C37_no_narrowing_below_bound :
  forall e, const_bound e < 2147483648 ->
    ct_simplify wrap32 e = ct_simplify int e /\
    forall r, ct_simplify wrap32 e = Some r ->
      forall rho phi un x, cval rho phi un e = Some x -> cval rho phi un r = Some x.
Proof.
  intros e H. pose proof (simplify_agree e H) as A. split; [symmetry; exact A|].
  intros r E rho phi un. rewrite <- A in E. exact (simplify_value int int_honest rho phi un e r E).
Qed.
Print Assumptions C37_no_narrowing_below_bound.

Example C37_case :
  let e := CBin CPlus (CBin CDiv (CConst 1) (CConst 200)) (CBin CDiv (CConst 7) (CConst 300)) in
  const_bound e < 2147483648 /\
  ct_simplify wrap32 e = Some (CBin CDiv (CConst 17) (CConst 600)).
Proof. split; vm_compute; reflexivity. Qed.

(** C37: without the bound the two runs differ, also if every constant fits into int. *)
Theorem C37_without_bound_refuted :
  exists a b, -2147483648 <= a <= 2147483647 /\ -2147483648 <= b <= 2147483647 /\
    let e := CBin CPlus (CBin CDiv (CConst a) (CConst b)) (CBin CDiv (CConst a) (CConst b)) in
    ct_simplify int e = None /\ exists r, ct_simplify wrap32 e = Some r.
Proof. exists 1, 65537. repeat split; try lia. eexists. vm_compute. reflexivity. Qed.
Print Assumptions C37_without_bound_refuted.

(** C38.  For numbers of type long, not both zero, whose greatest common divisor fits into int,
    the instantiation of gcd<a, b> ends, and the value divides both and is a multiple of every
    common divisor (so the greatest in absolute value). *)
Theorem C38_gcd_is_greatest_common_divisor :
  forall a b, Z.abs a < 2 ^ 63 -> Z.abs b < 2 ^ 63 -> a <> 0 \/ b <> 0 ->
    (forall d, (d | a) -> (d | b) -> Z.abs d < 2 ^ 31) ->
    exists g, gcd wrap32 a b = Some g /\
      (g | a) /\ (g | b) /\ forall d, (d | a) -> (d | b) -> (d | g) /\ Z.abs d <= Z.abs g.
Proof.
  intros a b Ha Hb N G.
  assert (G' : Z.gcd a b < 2147483648).
  { specialize (G _ (Z.gcd_divide_l a b) (Z.gcd_divide_r a b)).
    rewrite Z.abs_eq in G by apply Z.gcd_nonneg. exact G. }
  destruct (gcd_rec_total wrap32 (S (S (2 * Z.to_nat (Z.log2 (Z.abs b))))) a b) as [g [E1 E2]].
  - lia.
  - intros z Hz. apply wrap_in. lia.
  - exact Ha.
  - exact Hb.
  - destruct (b =? 0); lia.
  - exists g. split; [exact E1|].
    split; [apply Z.divide_abs_l; rewrite E2; apply Z.gcd_divide_l|].
    split; [apply Z.divide_abs_l; rewrite E2; apply Z.gcd_divide_r|].
    intros d Da Db. assert (D : (d | g)).
    { apply Z.divide_abs_r. rewrite E2. apply Z.gcd_greatest; assumption. }
    split; [exact D|]. apply Z.divide_abs_l, Z.divide_abs_r in D.
    apply Z.divide_pos_le in D; [exact D|].
    assert (Z.gcd a b <> 0); [|lia]. intros E. apply Z.gcd_eq_0 in E. lia.
Qed.
Print Assumptions C38_gcd_is_greatest_common_divisor.

Example C38_case : gcd wrap32 (-84) 30 = Some 6 /\ gcd wrap32 0 7 = Some 7.
Proof. split; vm_compute; reflexivity. Qed.

(** C38: with a greatest common divisor outside int the value is narrowed: 2^32 + 3 divides both
    arguments, the result is 3. *)
Theorem C38_large_gcd_refuted :
  exists a b g, gcd wrap32 a b = Some g /\ Z.gcd a b = 4294967299 /\ g = 3 /\
    Z.abs a < 2 ^ 63 /\ Z.abs b < 2 ^ 63.
Proof. exists 8589934598, 4294967299, 3. repeat split; vm_compute; reflexivity. Qed.
Print Assumptions C38_large_gcd_refuted.

(** C63.  In the result no operation is left to do: outside of unary operations there is no sum with
    or difference minus 0, no product with 0 or 1, no quotient of 0, by 0 or by 1, no negated
    summand, no inverted factor, and no two numbers (integers or fractions) are combined, except in
    fractions p/q, where p is not 0 and q none of 0, 1, -1. *)
Theorem C63_nothing_left_to_do :
  forall narrow e r op a b, ct_simplify narrow e = Some r -> inside (CBin op a b) r ->
    normal_node op a b /\
    (number a -> number b ->
     op = CDiv /\ exists p q, a = CConst p /\ b = CConst q /\ p <> 0 /\ q <> 0 /\ q <> 1 /\ q <> -1).
Proof.
  intros narrow e r op a b H I. pose proof (simplify_inside narrow e r H op a b I) as A.
  split; [exact (alone_normal op a b A)|exact (alone_numbers op a b A)].
Qed.
Print Assumptions C63_nothing_left_to_do.

(** C63.  An expression built from constants becomes an integer, or a fraction p/q as above. *)
Theorem C63_constants_fold :
  forall narrow e r, ground e -> ct_simplify narrow e = Some r ->
    (exists c, r = CConst c) \/
    (exists p q, r = CBin CDiv (CConst p) (CConst q) /\ p <> 0 /\ q <> 0 /\ q <> 1 /\ q <> -1).
Proof.
  intros narrow e r G H. destruct (simplify_number narrow e r H G) as [C|[p [q ->]]]; [auto|].
  right. exists p, q. split; [reflexivity|].
  destruct (alone_numbers CDiv (CConst p) (CConst q)) as [_ [p' [q' [E [F N]]]]].
  - exact (simplify_inside narrow e _ H _ _ _ (In_here _)).
  - left. eauto.
  - left. eauto.
  - injection E as <-. injection F as <-. exact N.
Qed.
Print Assumptions C63_constants_fold.

(** 1 * x + (6/4 - 5) * y, and (2 + 4) / 1. *)
Example C63_case :
  let e := CBin CPlus (CBin CMult (CConst 1) (CVar 0))
             (CBin CMult (CBin CMinus (CBin CDiv (CConst 6) (CConst 4)) (CConst 5)) (CVar 1)) in
  let r := CBin CPlus (CVar 0) (CBin CMult (CBin CDiv (CConst 7) (CConst (-2))) (CVar 1)) in
  ct_simplify wrap32 e = Some r /\ inside (CBin CDiv (CConst 7) (CConst (-2))) r /\
  ct_simplify wrap32 (CBin CDiv (CBin CPlus (CConst 2) (CConst 4)) (CConst 1)) = Some (CConst 6).
Proof.
  split; [vm_compute; reflexivity|]. split; [|vm_compute; reflexivity].
  apply In_right, In_left, In_here.
Qed.
