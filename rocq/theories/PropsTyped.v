(** Property C70: run-time constants of other scalar types (rt_constant<long>, <int>, <float>). *)
From Coq Require Import String ZArith NArith List Bool Reals.
From Flocq Require Import Core BinarySingleNaN.
From Verif Require Import Outcome Num NumR NumB64 NumZ RtModel RtSpec RealSpec StrModel LatexModel TypedModel TypedSpec
  RtFacts TypedFacts TypedFloat PropsSimplify PropsDiff.
Import ListNotations.

(** C70.  For every numeric type: evaluation, unwrap and is_constant give what they give for the tree in
    which every constant was written as a number of the interface's numeric type. *)
Theorem C70_evaluates_as_converted :
  forall (n : num) (fl : f32 -> n) (e : texpr n),
    (forall v, teval n fl e v = eval n (converted n fl e) v) /\
    tunwrap n fl e = unwrap n (converted n fl e) /\
    tis_constant n e = is_constant n (converted n fl e).
Proof.
  intros n fl e. split; [intros v; apply teval_conv|]. split; [apply tunwrap_conv|apply tis_constant_conv].
Qed.
Print Assumptions C70_evaluates_as_converted.

(** Simplification always ends, with one outcome, and this is the simplification of the converted tree
    once its remaining constants are converted. *)
Theorem C70_simplifies_as_converted :
  forall (n : num) (fl : f32 -> n) (e : texpr n),
    exists o, tsimplified n fl e o /\ (forall o', tsimplified n fl e o' -> o' = o) /\
      omap (converted n fl) o = simplify_top n (converted n fl e).
Proof.
  intros n fl e. destruct (loop_total n fl e) as [o [L E]]. exists o. split; [exact L|]. split; [|exact E].
  intros o' L'. exact (loop_unique n fl e o' L' o L).
Qed.
Print Assumptions C70_simplifies_as_converted.

(** Non-trivial case: rt_constant<long>(6) * x0 + (rt_constant<int>(2) - rt_constant<long>(2)). *)
Example C70_simplify_case :
  let e := EBin BPlus (EBin BMult (EConst (SLong 6)) (EVar 0))
             (EBin BMinus (EConst (SInt 2)) (EConst (SLong 2))) : texpr numZ in
  tsimplified numZ (fun _ => 0%Z) e
    (Ok (EBin BMult (EConst (SOwn 6%Z)) (EVar 0))).
Proof.
  cbv zeta. eapply ts_step; [vm_compute; reflexivity|vm_compute; reflexivity|].
  apply ts_stop. vm_compute. reflexivity.
Qed.

(** The same for the derivative by a variable, and by a function symbol if no gradient occurs. *)
Theorem C70_differentiates_as_converted :
  forall (n : num) (fl : f32 -> n) (x : dvar) (e : texpr n),
    fl (B754_zero false) = n_of_Z n 0 ->
    (exists i, x = DVar i) \/ (forall a, ~ subterm (EUn UGrad a) e) ->
    omap (converted n fl) (tdiff n x e) = diff n x (converted n fl e).
Proof. intros n fl x e Z H. exact (tdiff_conv n fl Z x e H). Qed.
Print Assumptions C70_differentiates_as_converted.

Example C70_diff_case :
  forall lm, widen (B754_zero false) = n_of_Z (numB64 lm) 0 /\
  tdiff (numB64 lm) (DVar 0) (EBin BMult (EConst (SLong 6)) (EVar 0)) =
  Ok (EBin BPlus (EBin BMult (EConst (SLong 0)) (EVar 0))
                 (EBin BMult (EConst (SLong 6)) (EConst (SOwn (n_of_Z (numB64 lm) 1))))).
Proof. intros lm. split; [vm_compute; reflexivity|reflexivity]. Qed.

(** With a gradient it is not: the derivative of grad(c) for a constant c of another scalar type is
    grad(0) instead of 0, because the zero of the other type is not recognised. *)
Theorem C70_gradient_refuted :
  ~ (forall (lm : libm) (x : dvar) (e : texpr (numB64 lm)),
       omap (converted (numB64 lm) widen) (tdiff (numB64 lm) x e) =
       diff (numB64 lm) x (converted (numB64 lm) widen e)).
Proof.
  intros H. specialize (H (mk_libm B754_nan (fun x => x) (fun x => x) (fun x => x) (fun x => x) (fun x => x) (fun x => x))
    (DFun 0 0) (EUn UGrad (EConst (SLong 6)))).
  apply (f_equal (fun o => match o with Ok (EUn UGrad _) => true | _ => false end)) in H.
  vm_compute in H. discriminate H.
Qed.
Print Assumptions C70_gradient_refuted.

(** Over the reals: simplification keeps the value ... *)
Theorem C70_simplify_preserves_value :
  forall (e : texpr numR) (v : list (option R)) (r : R),
    teval numR real_of_float e v = Ok (Some r) ->
    exists d, tsimplified numR real_of_float e (Ok d) /\ teval numR real_of_float d v = Ok (Some r).
Proof.
  intros e v r H. rewrite teval_conv in H. destruct (C01_simplify_preserves_value _ _ _ H) as [d [D V]].
  destruct (loop_total numR real_of_float e) as [o [L E]]. rewrite D in E. apply omap_ok in E as [d' [-> ->]].
  exists d'. split; [exact L|]. rewrite teval_conv. exact V.
Qed.
Print Assumptions C70_simplify_preserves_value.

(** ... and diff computes the partial derivative of the function the expression evaluates to. *)
Theorem C70_diff_is_partial_derivative :
  forall (e : texpr numR) (v : list (option R)) (i : N) (x : R),
    nth_error v (N.to_nat i) = Some (Some x) -> regular (converted numR real_of_float e) v ->
    exists d0 d r, tdiff numR (DVar i) e = Ok d0 /\ tsimplified numR real_of_float d0 (Ok d) /\
      teval numR real_of_float d v = Ok (Some r) /\
      has_partial (converted numR real_of_float e) v i x r.
Proof.
  intros e v i x Hx Rg. destruct (C06_diff_is_partial_derivative _ v i x Hx Rg) as [d [r [D [V [P _]]]]].
  unfold diff_top in D.
  rewrite <- (tdiff_conv numR real_of_float eq_refl (DVar i) e (or_introl (ex_intro _ i eq_refl))) in D.
  apply bind_ok in D as [d1 [D1 D2]]. apply omap_ok in D1 as [d0 [D0 ->]].
  destruct (loop_total numR real_of_float d0) as [o [L E]]. rewrite D2 in E. apply omap_ok in E as [d' [-> ->]].
  exists d0, d', r. rewrite teval_conv. auto.
Qed.
Print Assumptions C70_diff_is_partial_derivative.

(** rt_constant<long>(6) * x0 at x0 = 2. *)
Example C70_value_case :
  teval numR real_of_float (EBin BMult (EConst (SLong 6)) (EVar 0)) [Some 2%R] = Ok (Some (6 * 2)%R) /\
  regular (converted numR real_of_float (EBin BMult (EConst (SLong 6)) (EVar 0))) [Some 2%R].
Proof.
  split; [reflexivity|]. split; [eexists; reflexivity|]. split; intros a S; exfalso;
    repeat match goal with H : subterm _ _ |- _ => inversion H; subst; clear H end.
Qed.

(** Constants that deep_equal calls equal convert to equal doubles, and so for all trees. *)
Theorem C70_deep_equal_is_sound :
  forall (lm : libm) (e o : texpr (numB64 lm)),
    tdeep_equal (numB64 lm) e o = Ok true ->
    deep_equal (numB64 lm) (converted (numB64 lm) widen e) (converted (numB64 lm) widen o) = Ok true.
Proof. intros lm e o H. exact (tdeep_equal_sound (numB64 lm) widen (sound64 lm) e o H). Qed.
Print Assumptions C70_deep_equal_is_sound.

Example C70_equal_case :
  forall lm, tdeep_equal (numB64 lm) (EBin BMult (EConst (SLong 6)) (EVar 0)) (EBin BMult (EConst (SLong 6)) (EVar 0)) = Ok true.
Proof. intros lm. reflexivity. Qed.

(** The converse fails: rt_constant<long>(z) is never deep_equal to rt_constant<double>(z) ... *)
Theorem C70_equal_value_refuted :
  forall (lm : libm) (z : Z),
    let l := EConst (SLong z) : texpr (numB64 lm) in
    let d := EConst (SOwn (n_of_Z (numB64 lm) z)) : texpr (numB64 lm) in
    (forall v, teval (numB64 lm) widen l v = teval (numB64 lm) widen d v) /\
    tdeep_equal (numB64 lm) l l = Ok true /\ tdeep_equal (numB64 lm) d d = Ok true /\
    tdeep_equal (numB64 lm) l d = Ok false /\ tdeep_equal (numB64 lm) d l = Ok false.
Proof.
  intros lm z l d. split; [reflexivity|]. split; [|split; [|split; reflexivity]].
  - cbn. rewrite Z.leb_refl, Z.geb_leb, Z.leb_refl. reflexivity.
  - cbn. fold (double_of_Z z). rewrite (leb_refl _ (double_of_Z_not_nan z)). reflexivity.
Qed.
Print Assumptions C70_equal_value_refuted.

(** ... so substituting something for the number 6 does not find rt_constant<long>(6).  Substitution for a
    variable or a function symbol behaves as for the converted tree. *)
Theorem C70_substitutes_symbols_as_converted :
  forall (n : num) (fl : f32 -> n) (s repl e : texpr n),
    (exists i, s = EVar i) \/ (exists i t, s = EFun i t) ->
    omap (converted n fl) (tsubst n s repl e) =
    subst1 n (converted n fl s) (converted n fl repl) (converted n fl e).
Proof. intros n fl s repl e H. exact (tsubst_symbol n fl s repl e H). Qed.
Print Assumptions C70_substitutes_symbols_as_converted.

Theorem C70_substitution_refuted :
  ~ (forall (lm : libm) (s repl e : texpr (numB64 lm)),
       omap (converted (numB64 lm) widen) (tsubst (numB64 lm) s repl e) =
       subst1 (numB64 lm) (converted (numB64 lm) widen s) (converted (numB64 lm) widen repl)
         (converted (numB64 lm) widen e)).
Proof.
  intros H. specialize (H (mk_libm B754_nan (fun x => x) (fun x => x) (fun x => x) (fun x => x) (fun x => x) (fun x => x))
    (EConst (SOwn (double_of_Z 6))) (EVar 1) (EBin BMult (EConst (SLong 6)) (EVar 0))).
  apply (f_equal (fun o => match o with Ok (EBin _ (EVar _) _) => true | _ => false end)) in H.
  vm_compute in H. discriminate H.
Qed.
Print Assumptions C70_substitution_refuted.

Example C70_substitution_case :
  tsubst numZ (EVar 0) (EConst (SInt 3)) (EBin BMult (EConst (SLong 6)) (EVar 0)) =
  Ok (EBin BMult (EConst (SLong 6)) (EConst (SInt 3))).
Proof. reflexivity. Qed.

(** Without constants of other types the functions are those of all other properties. *)
Theorem C70_own_constants :
  forall (n : num) (s repl e : expr n),
    tdeep_equal n (replace_constants SOwn e) (replace_constants SOwn s) = deep_equal n e s /\
    tsubst n (replace_constants SOwn s) (replace_constants SOwn repl) (replace_constants SOwn e) =
      omap (replace_constants SOwn) (subst1 n s repl e).
Proof. intros n s repl e. split; [apply tdeep_equal_own|apply tsubst_own]. Qed.
Print Assumptions C70_own_constants.

(** LaTeX output does not show constants of other types: every rt_constant<long> prints as the symbol for
    unknown expressions, alone and anywhere in an expression. *)
Theorem C70_latex_shows_constants_refuted :
  forall (n : num) (pr : n -> string) (t : translator (scalar n)) (par : bool) (e : texpr n) (z : Z),
    tlatex n pr t par (EConst (SLong z)) = " \chi_{\mathrm{unknown}} "%string /\
    forall z' : Z, tlatex n pr t par (EBin BMult (EConst (SLong z)) e) = tlatex n pr t par (EBin BMult (EConst (SLong z')) e).
Proof. intros n pr t par e z. split; [reflexivity|intros z'; reflexivity]. Qed.
Print Assumptions C70_latex_shows_constants_refuted.

(** Folding c1 + (c2 + X) and the like.  For ints, longs up to 2^52 and doubles, and for a double with anything,
    the folded constant is, bit for bit, the double the evaluation of c1 + c2 (c1 - c2) gives ... *)
Theorem C70_folding_is_evaluation :
  forall (lm : libm) (minus : bool) (a b s : scalar f64),
    (exact_scalar a /\ exact_scalar b) \/ is_double a \/ is_double b -> fold minus a b = Ok s ->
    eval (numB64 lm) (EBin (if minus then BMinus else BPlus) (EConst (conv (numB64 lm) widen a))
                           (EConst (conv (numB64 lm) widen b))) [] = Ok (conv (numB64 lm) widen s).
Proof.
  intros lm m a b s [[A B]|D] E; [rewrite (fold_exact lm m a b s A B E); destruct m; reflexivity|].
  destruct a as [x|x|x|x], b as [y|y|y|y], m; cbn in D; try (destruct D; contradiction); injection E as <-; reflexivity.
Qed.
Print Assumptions C70_folding_is_evaluation.

(** ... and folding is undefined exactly when an int or long overflows. *)
Theorem C70_folding_undefined_iff_overflow :
  forall (minus : bool) (a b : scalar f64),
    let sum x y := (if minus then x - y else x + y)%Z in
    let int_range z := (- 2 ^ 31 <= z < 2 ^ 31)%Z in
    let long_range z := (- 2 ^ 63 <= z < 2 ^ 63)%Z in
    fold minus a b = UB <->
    (exists x y, a = SInt x /\ b = SInt y /\ ~ int_range (sum x y)) \/
    (exists x y, ((a = SLong x /\ (b = SLong y \/ b = SInt y)) \/ (a = SInt x /\ b = SLong y)) /\ ~ long_range (sum x y)).
Proof.
  intros minus a b sum int_range long_range.
  assert (I : forall z, in_int z = false <-> ~ int_range z).
  { intros z. unfold in_int, int_range. rewrite andb_false_iff, !Z.leb_gt. Lia.lia. }
  assert (L : forall z, in_long z = false <-> ~ long_range z).
  { intros z. unfold in_long, long_range. rewrite andb_false_iff, !Z.leb_gt. Lia.lia. }
  assert (O : forall x y, opZ minus x y = sum x y) by (intros x y; unfold opZ, sum; destruct minus; reflexivity).
  split.
  - destruct a as [x|x|x|x], b as [y|y|y|y]; cbn [fold]; rewrite ?O; try discriminate;
      destruct (_ (sum x y)) eqn:E; try discriminate; intros _; [left|right|right|right].
    + exists x, y. apply I in E. auto.
    + exists x, y. apply L in E. auto 6.
    + exists x, y. apply L in E. auto 6.
    + exists x, y. apply L in E. auto 6.
  - intros [[x [y [-> [-> H]]]]|[x [y [[[-> [-> | ->]]|[-> ->]] H]]]]; cbn [fold]; rewrite O.
    + apply I in H. rewrite H. reflexivity.
    + apply L in H. rewrite H. reflexivity.
    + apply L in H. rewrite H. reflexivity.
    + apply L in H. rewrite H. reflexivity.
Qed.
Print Assumptions C70_folding_undefined_iff_overflow.

Example C70_folding_case :
  exact_scalar (SLong 4503599627370496) /\ exact_scalar (SInt (-7)) /\
  fold true (SLong 4503599627370496) (SInt (-7)) = Ok (SOwn (double_of_Z 4503599627370503)).
Proof. split; [discriminate|]. split; reflexivity. Qed.

(** A float and an int, a long or another float are folded to the float nearest to the sum of the two as floats. *)
Theorem C70_folding_with_floats :
  forall (minus : bool) (a b s : scalar f64) (x y : R),
    float_value a x -> float_value b y -> is_float a \/ is_float b -> fold minus a b = Ok s ->
    let e := (if minus then x - y else x + y)%R in
    (Rabs (nearest_float e) < bpow radix2 128)%R ->
    exists f, s = SFloat f /\ is_finite f = true /\ B2R f = nearest_float e.
Proof. exact fold_floats. Qed.
Print Assumptions C70_folding_with_floats.

Example C70_folding_with_floats_case :
  float_value (SInt 3) (nearest_float 3) /\ float_value (SFloat (float_of_Z 5)) (B2R (float_of_Z 5)) /\
  exists s, fold true (SInt 3) (SFloat (float_of_Z 5)) = Ok s.
Proof. split; [constructor; Lia.lia|]. split; [constructor; reflexivity|]. eexists. reflexivity. Qed.

(** Floats and larger longs are folded to another value than the evaluation of the sum gives. *)
Theorem C70_folding_of_others_refuted :
  forall lm : libm,
    (exists (x y : f32) (s : scalar f64), is_finite x = true /\ is_finite y = true /\
       fold false (SFloat x) (SFloat y) = Ok s /\
       eval (numB64 lm) (EBin BPlus (EConst (widen x)) (EConst (widen y))) [] <> Ok (conv (numB64 lm) widen s)) /\
    (exists (x y : Z) (s : scalar f64), fold false (SLong x) (SLong y) = Ok s /\
       eval (numB64 lm) (EBin BPlus (EConst (double_of_Z x)) (EConst (double_of_Z y))) [] <>
       Ok (conv (numB64 lm) widen s)).
Proof.
  intros lm. split.
  - exists (float_of_Z 16777216), (float_of_Z 1), (SFloat (op32 false (float_of_Z 16777216) (float_of_Z 1))).
    split; [vm_compute; reflexivity|]. split; [vm_compute; reflexivity|]. split; [reflexivity|].
    intros H. apply (f_equal (fun o => match o with Ok z => Beqb z (double_of_Z 16777216) | _ => false end)) in H.
    vm_compute in H. discriminate H.
  - exists 9007199254740993%Z, 1%Z, (SLong 9007199254740994). split; [reflexivity|].
    intros H. apply (f_equal (fun o => match o with Ok z => Beqb z (double_of_Z 9007199254740994) | _ => false end)) in H.
    vm_compute in H. discriminate H.
Qed.
Print Assumptions C70_folding_of_others_refuted.
