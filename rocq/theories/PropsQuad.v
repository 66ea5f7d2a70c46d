(** Properties C28 - C30: numerical quadrature and vector expressions. *)
From Coq Require Import ZArith NArith Reals List Bool Lia Lra.
From Coquelicot Require Import Coquelicot.
From Verif Require Import Outcome Num RtModel RtSpec RtFacts RtStep RtTermination RtValue RtEval
  RtSubst NumR NumRFacts NumZ QuadModel QuadSpec QuadFacts.
Import ListNotations.
Local Open Scope R_scope.

(** C28.  Over the reals the one-point Gauss rule integrates exactly: if the bounds are constant
    expressions of values [A] and [B] (in any order), the integrand contains no variable other
    than the integration variable and its value between the bounds is the affine function
    a*t + b, then the quadrature of the integral returns the Riemann integral of a*t + b from [A]
    to [B].  With a = 0 this covers integrands without the integration variable. *)
Theorem C28_gauss_is_exact_for_affine :
  forall (lo hi body : expr numR) (var : N) (v : list (option R)) (A B a b : R),
    const_only lo -> const_only hi ->
    eval numR lo [] = Ok (Some A) -> eval numR hi [] = Ok (Some B) ->
    (forall i, occurs_var i body -> i = var) -> (var < N.of_nat (length v))%N ->
    (forall t, Rmin A B <= t <= Rmax A B ->
       eval numR body (update v (N.to_nat var) (Some t)) = Ok (Some (a * t + b))) ->
    exists q, quadrature numR (gauss_quad_1 numR) (EInt lo hi var body) = Ok (Some q) /\
              is_RInt (fun t => a * t + b) A B q.
Proof.
  intros lo hi body var v A B a b Cl Ch El Eh O L E. eexists. split.
  - cbn [quadrature]. apply (gauss_value lo hi var body v A B (a * ((A + B) / 2) + b)); auto.
    apply E. unfold Rmin, Rmax. destruct (Rle_dec A B); lra.
  - apply affine_integral.
Qed.
Print Assumptions C28_gauss_is_exact_for_affine.

(** C28, the value in general: the value of the integrand in the middle of the interval times the
    (signed) length of the interval. *)
Theorem C28_gauss_value :
  forall (lo hi body : expr numR) (var : N) (v : list (option R)) (A B y : R),
    const_only lo -> const_only hi ->
    eval numR lo [] = Ok (Some A) -> eval numR hi [] = Ok (Some B) ->
    (forall i, occurs_var i body -> i = var) -> (var < N.of_nat (length v))%N ->
    eval numR body (update v (N.to_nat var) (Some ((A + B) / 2))) = Ok (Some y) ->
    quadrature_over numR (gauss_quad_1 numR) lo hi body var = Ok (Some (y * (B - A))).
Proof. intros. unfold quadrature_over. eapply gauss_value; eauto. Qed.
Print Assumptions C28_gauss_value.

(** The integral of 3 * x1 + 2 for x1 from 5 - 1 down to 0. *)
Example C28_case :
  let c (z : Z) := EConst (Some (IZR z)) : expr numR in
  let body := EBin BPlus (EBin BMult (c 3%Z) (EVar 1)) (c 2%Z) in
  exists q,
    quadrature numR (gauss_quad_1 numR) (EInt (EBin BMinus (c 5%Z) (c 1%Z)) (c 0%Z) 1 body)
      = Ok (Some q) /\
    is_RInt (fun t => 3 * t + 2) 4 0 q.
Proof.
  intros c body.
  apply (C28_gauss_is_exact_for_affine _ _ body 1 [None; None] 4 0 3 2).
  - intros s S. repeat match goal with H : subterm _ _ |- _ => inversion H; subst; clear H end;
      simpl; auto; discriminate.
  - intros s S. inversion S; subst. exact I.
  - unfold c. simpl. do 2 f_equal. lra.
  - reflexivity.
  - intros i S. unfold body, c, occurs_var in S.
    repeat match goal with H : subterm _ _ |- _ => inversion H; subst; clear H end. reflexivity.
  - reflexivity.
  - intros t _. reflexivity.
Qed.

(** A body with a second variable is rejected (nothing to evaluate it with). *)
Example C28_second_variable :
  quadrature numZ (gauss_quad_1 numZ) (EInt (EConst 0%Z) (EConst 2%Z) 0 (EBin BMult (EVar 0) (EVar 1)))
  = Throw ExpressionNotUnwrappable.
Proof. vm_compute. reflexivity. Qed.

(** C29.  Over the reals, for every rule: quadrature returns the number [x] exactly when the
    expression is composed by + and - of integrals and constants of value 0, and [x] is the
    corresponding sum of the values of the integrals. *)
Theorem C29_quadrature_is_additive :
  forall (rule : quad_rule numR) (e : expr numR) (x : R),
    quadrature numR rule e = Ok (Some x) <-> integral_sum rule e x.
Proof. intros rule e x. symmetry. apply quad_sum. Qed.
Print Assumptions C29_quadrature_is_additive.

(** C29, everything else is rejected: if the rule itself never fails and [e] contains neither a
    symbolic integral nor a malformed binary node, quadrature returns a number or throws
    integration_without_integral_exception. *)
Theorem C29_quadrature_outcome :
  forall (n : num) (rule : quad_rule n) (e : expr n),
    (forall lo hi var a, exists x, rule lo hi var a = Ok x) ->
    (forall i a, ~ subterm (EUn (USymInt i) a) e) ->
    (forall l r, ~ subterm (EBin BUnaryId l r) e) ->
    (exists x, quadrature n rule e = Ok x) \/
    quadrature n rule e = Throw IntegrationWithoutIntegral.
Proof. exact quad_outcome. Qed.
Print Assumptions C29_quadrature_outcome.

(** C29, undefined behaviour comes only from a symbolic integral or from the rule. *)
Theorem C29_only_symbolic_integrals_are_undefined :
  forall (n : num) (rule : quad_rule n) (e : expr n),
    quadrature n rule e = UB ->
    (exists i a, subterm (EUn (USymInt i) a) e) \/
    (exists lo hi var a, subterm (EInt lo hi var a) e /\ rule lo hi var a = UB).
Proof. exact quad_ub. Qed.
Print Assumptions C29_only_symbolic_integrals_are_undefined.

(** Defect: a symbolic integral dereferences a null pointer instead of throwing. *)
Theorem C29_symbolic_integral_throws_refuted :
  exists (e : expr numZ) i a, e = EUn (USymInt i) a /\
    quadrature numZ (gauss_quad_1 numZ) e = UB.
Proof. exists (EUn (USymInt 0) (EVar 0)), 0%N, (EVar 0). split; reflexivity. Qed.
Print Assumptions C29_symbolic_integral_throws_refuted.

Example C29_case :
  let rule : quad_rule numZ := fun lo hi var a => gauss_quad_1 numZ lo hi var a in
  let i k := EInt (EConst 0%Z) (EConst k) 0 (EVar 0) in
  quadrature numZ rule (EBin BMinus (EBin BPlus (i 4%Z) (EBin BMinus (EConst 3%Z) (EConst 3%Z))) (i 2%Z))
    = Ok 6%Z /\
  quadrature numZ rule (EBin BMult (EConst 2%Z) (i 4%Z)) = Throw IntegrationWithoutIntegral.
Proof. vm_compute. split; reflexivity. Qed.

(** C30.  Sum and difference of vectors of equal size have that size, and every entry has the
    value of the sum (difference) of the entries, at every point. *)
Theorem C30_sum_and_difference_are_componentwise :
  forall (n : num) (a b : list (expr n)), length a = length b ->
    exists s d, vec_add n a b = Ok s /\ vec_sub n a b = Ok d /\
      length s = length a /\ length d = length a /\
      forall i x y, nth_error a i = Some x -> nth_error b i = Some y ->
        exists p q, nth_error s i = Some p /\ nth_error d i = Some q /\
          forall v u w, eval n x v = Ok u -> eval n y v = Ok w ->
            eval n p v = Ok (n_add n u w) /\ eval n q v = Ok (n_sub n u w).
Proof.
  intros n a b L. unfold vec_add, vec_sub. rewrite L, Nat.eqb_refl.
  exists (zip_bin n BPlus a b), (zip_bin n BMinus a b). repeat split; try reflexivity.
  - rewrite zip_length; auto.
  - rewrite zip_length; auto.
  - intros i x y X Y. exists (EBin BPlus x y), (EBin BMinus x y).
    split; [apply zip_nth; auto|]. split; [apply zip_nth; auto|].
    intros v u w Eu Ew. simpl. rewrite Eu, Ew. split; reflexivity.
Qed.
Print Assumptions C30_sum_and_difference_are_componentwise.

(** C30, vectors of different sizes are a violated precondition (assert). *)
Theorem C30_size_mismatch_is_undefined :
  forall (n : num) (a b : list (expr n)), length a <> length b ->
    vec_add n a b = UB /\ vec_sub n a b = UB /\ dot n a b = UB.
Proof.
  intros n a b L. unfold vec_add, vec_sub, dot. apply Nat.eqb_neq in L. rewrite L. auto.
Qed.
Print Assumptions C30_size_mismatch_is_undefined.

(** C30, scaling by and dividing by a scalar, from either side. *)
Theorem C30_scaling_is_componentwise :
  forall (n : num) (a : list (expr n)) (s : expr n),
    length (vec_mul_scalar n a s) = length a /\ length (scalar_mul_vec n s a) = length a /\
    length (vec_div_scalar n a s) = length a /\ length (scalar_div_vec n s a) = length a /\
    forall i x, nth_error a i = Some x ->
      exists p q r t, nth_error (vec_mul_scalar n a s) i = Some p /\
        nth_error (scalar_mul_vec n s a) i = Some q /\
        nth_error (vec_div_scalar n a s) i = Some r /\
        nth_error (scalar_div_vec n s a) i = Some t /\
        forall v u w, eval n x v = Ok u -> eval n s v = Ok w ->
          eval n p v = Ok (n_mul n u w) /\ eval n q v = Ok (n_mul n w u) /\
          eval n r v = Ok (n_div n u w) /\ eval n t v = Ok (n_div n w u).
Proof.
  intros n a s. unfold vec_mul_scalar, scalar_mul_vec, vec_div_scalar, scalar_div_vec.
  rewrite !map_length. repeat split; try reflexivity.
  intros i x X. do 4 eexists. repeat split; try (rewrite nth_error_map, X; reflexivity);
    unfold mk_bin; simpl; rewrite H, H0; reflexivity.
Qed.
Print Assumptions C30_scaling_is_componentwise.

(** C30, the product of two vectors.  Over the reals: if the entries of two non-empty vectors of
    equal size have the values [xs] and [ys], then both the dot product [v * w] and the
    simplification of a product node of two vectors exist and have the value
    xs_0 * ys_0 + xs_1 * ys_1 + ... *)
Theorem C30_product_is_dot_product :
  forall (a b : list (expr numR)) (v : list (option R)) (xs ys : list R),
    Forall2 (fun e x => eval numR e v = Ok (Some x)) a xs ->
    Forall2 (fun e x => eval numR e v = Ok (Some x)) b ys ->
    length a = length b -> a <> [] ->
    (exists e, dot numR a b = Ok e /\ eval numR e v = Ok (Some (sum_products xs ys))) /\
    (exists e, simplify_top numR (EBin BMult (EVec a) (EVec b)) = Ok e /\
               eval numR e v = Ok (Some (sum_products xs ys))).
Proof.
  intros a b v xs ys Ha Hb L N. split.
  - exact (dot_value a b v xs ys Ha Hb L N).
  - exact (vec_product_simplifies a b v xs ys Ha Hb L N).
Qed.
Print Assumptions C30_product_is_dot_product.

(** C30, derivative of a vector: it succeeds iff the derivative of every entry does, and then
    has the derivatives of the entries as entries. *)
Theorem C30_diff_is_componentwise :
  forall (n : num) (x : dvar) (es : list (expr n)),
    ((exists r, diff n x (EVec es) = Ok r) <->
     (forall e, In e es -> exists d, diff n x e = Ok d)) /\
    (forall r, diff n x (EVec es) = Ok r ->
       exists ds, r = EVec ds /\ length ds = length es /\
         forall i e, nth_error es i = Some e ->
           exists d, nth_error ds i = Some d /\ diff n x e = Ok d).
Proof.
  intros n x es.
  assert (K : forall r, diff n x (EVec es) = Ok r ->
       exists ds, r = EVec ds /\ length ds = length es /\
         forall i e, nth_error es i = Some e ->
           exists d, nth_error ds i = Some d /\ diff n x e = Ok d).
  { intros r H. cbn [diff] in H. apply omap_ok in H as [ds [E ->]].
    destruct (oseq_nth _ _ _ E) as [L N]. exists ds. auto. }
  split; [|exact K]. split.
  - intros [r H] e I. destruct (K r H) as [ds [_ [_ N]]].
    apply In_nth_error in I as [i I]. destruct (N i e I) as [d [_ D]]. eauto.
  - intros H. destruct (oseq_all (diff n x) es H) as [ds E].
    exists (EVec ds). cbn [diff]. rewrite E. reflexivity.
Qed.
Print Assumptions C30_diff_is_componentwise.

(** C30, substitution into a vector that is not itself the searched expression. *)
Theorem C30_substitution_is_componentwise :
  forall (n : num) (s r : expr n) (es : list (expr n)) (t : expr n),
    deep_equal n (EVec es) s = Ok false -> subst1 n s r (EVec es) = Ok t ->
    exists ds, t = EVec ds /\ length ds = length es /\
      forall i e, nth_error es i = Some e ->
        exists d, nth_error ds i = Some d /\ subst1 n s r e = Ok d.
Proof.
  intros n s r es t D H. cbn [subst1] in H.
  change (bind (deep_equal n (EVec es) s) (fun q : bool => if q then Ok r
     else omap EVec (oseq (map (subst1 n s r) es))) = Ok t) in H.
  rewrite D in H. cbn [bind] in H. apply omap_ok in H as [ds [E ->]].
  destruct (oseq_nth _ _ _ E) as [L N]. exists ds. auto.
Qed.
Print Assumptions C30_substitution_is_componentwise.

Example C30_case :
  let a := [EVar 0; EConst 2%Z; EVar 1] in let b := [EVar 1; EVar 0; EConst 5%Z] in
  match simplify_top numZ (EBin BMult (EVec a) (EVec b)) with
  | Ok e => eval numZ e [3%Z; 4%Z] = Ok 38%Z
  | _ => False
  end /\
  diff numZ (DVar 0) (EVec a) = Ok (EVec [EConst 1%Z; EConst 0%Z; EConst 0%Z]).
Proof. vm_compute. split; reflexivity. Qed.
