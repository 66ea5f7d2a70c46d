(** C81: the text of the constants.  (Only the theorems; the output of doubles is modelled in NumTextModel.v, reading
    decimal numbers is specified in NumTextSpec.v, lemmas in NumTextFacts.v.) *)
From Coq Require Import ZArith NArith Reals List Bool String Ascii Lia Lra.
From Flocq Require Import Core BinarySingleNaN.
From Verif Require Import Outcome Num NumB64 RtModel RtSpec StrModel LatexModel LatexSpec LatexFacts PropsStr PropsLatex
  NumTextModel NumTextSpec NumTextFacts.
Import ListNotations.
Local Open Scope string_scope.

(** C81.  The text of a finite double is a decimal number with at most six significant digits.  No other such number is
    nearer to the double, and of two that are equally near it is the one whose sixth digit is even. *)
Theorem C81_nearest_six_digits :
  forall x : f64, finite64 x ->
    exists v, number_of (pr_double x) = Some v /\ six_digits v /\
      (forall w, six_digits w -> (Rabs (v - B2R x) <= Rabs (w - B2R x))%R) /\
      (forall w, six_digits w -> w <> v -> Rabs (w - B2R x) = Rabs (v - B2R x) ->
       exists z j, Z.even z = true /\ (Z.abs z < 10 ^ 6)%Z /\ (v <> 0%R -> (10 ^ 5 <= Z.abs z)%Z) /\
                   v = (IZR z * powerRZ 10 j)%R).
Proof.
  intros x F. exists (round6 (B2R x)). split; [apply number_of_pr; exact F|]. split; [apply round6_six|].
  split; [intros w W; apply round6_nearest; exact W|intros w; apply round6_tie].
Qed.
Print Assumptions C81_nearest_six_digits.

(** C81.  The printed number differs from the double by at most 5/1000000 of it, has its sign, and a greater double is
    never printed as a smaller number. *)
Theorem C81_printed_value :
  forall x : f64, finite64 x ->
    exists v, number_of (pr_double x) = Some v /\ (Rabs (v - B2R x) <= 5 / 1000000 * Rabs (B2R x))%R /\
      ((exists t, pr_double x = String "-" t) <-> Bsign x = true) /\
      forall (y : f64) w, finite64 y -> number_of (pr_double y) = Some w -> (B2R x <= B2R y)%R -> (v <= w)%R.
Proof.
  intros x F. exists (round6 (B2R x)). split; [apply number_of_pr; exact F|]. split; [apply round6_error|]. split.
  - destruct (pr_read x "" F I) as [n [e [D _]]]. destruct (pr_first x F) as [c [t [E C]]]. split.
    + intros [u U]. rewrite U in D. unfold decimal in D. cbn [append] in D.
      destruct (some_digits (u ++ "")) as [[[i k] r]|]; [cbn [obind] in D|discriminate D].
      repeat match type of D with obind ?o _ = _ => destruct o as [?|]; [cbn [obind] in D; repeat match goal with q : (_ * _)%type |- _ => destruct q end|discriminate D] end.
      injection D as D. congruence.
    + intros S. destruct x as [s|s| |s m e' B]; cbn [Bsign] in S; subst; try discriminate F.
      * exists "0". reflexivity.
      * destruct (pr_shape true m e' B) as [d [k [_ [_ [P _]]]]]. rewrite P. exists (layout d k). reflexivity.
  - intros y w FY W L. rewrite (number_of_pr y FY) in W. injection W as <-.
    apply round_le; [apply FLX_exp_valid; exact prec6|apply valid_rnd_N|exact L].
Qed.
Print Assumptions C81_printed_value.

(** C81.  Integers of at most six digits are printed as integers, without point, exponent or leading zeros. *)
Theorem C81_integers :
  forall (lm : libm) (z : Z), (Z.abs z < 10 ^ 6)%Z ->
    pr_double (n_of_Z (numB64 lm) z) = (if (z <? 0)%Z then "-" else "") ++ dec (Z.abs_N z).
Proof.
  intros lm z B. rewrite (pr_integer lm z B). replace (Z.to_N (Z.abs z)) with (Z.abs_N z) by (destruct z; reflexivity). reflexivity.
Qed.
Print Assumptions C81_integers.

(** C81.  Exponents are printed exactly for numbers that are less than 1/10000 or at least 1000000 in absolute value after
    rounding to six digits. *)
Theorem C81_exponents :
  forall (x : f64) v, finite64 x -> B2R x <> 0%R -> number_of (pr_double x) = Some v ->
    ((exists p q, pr_double x = p ++ String "e" q) <-> (Rabs v < / 10000 \/ 1000000 <= Rabs v)%R).
Proof.
  intros x v F N V. rewrite (number_of_pr x F) in V. injection V as <-.
  rewrite <- has_split, (pr_exponent x F N).
  replace (powerRZ 10 (-4)) with (/ 10000)%R by
    (change (powerRZ 10 (-4)) with (/ (10 * (10 * (10 * (10 * 1)))))%R; f_equal; ring).
  replace (powerRZ 10 6) with 1000000%R by
    (change (powerRZ 10 6) with (10 * (10 * (10 * (10 * (10 * (10 * 1))))))%R; ring).
  reflexivity.
Qed.
Print Assumptions C81_exponents.

(** C81.  A constant written in the program with at most six significant digits (and between 10^-307 and 10^308 in absolute
    value, or zero) is printed as the number that was written, and reading the text as the compiler reads a literal gives
    the constant back. *)
Theorem C81_literals_print_as_written :
  forall (neg : bool) (m : N) (e : Z), (m < 10 ^ 6)%N ->
    m = 0%N \/ (powerRZ 10 (-307) <= IZR (Z.of_N m) * powerRZ 10 e <= powerRZ 10 308)%R ->
    number_of (pr_double (literal neg m e)) = Some (dec_real neg m e) /\
    number64 (pr_double (literal neg m e)) = Some (literal neg m e, "").
Proof.
  intros neg m e M R. destruct (literal_spec neg m e R) as [F _]. split.
  - rewrite (number_of_pr _ F). f_equal. exact (literal_printed neg m e M R).
  - pose proof (literal_reads_back neg m e "" M R I) as H. rewrite StrFacts.append_nil in H. exact H.
Qed.
Print Assumptions C81_literals_print_as_written.

(** C81.  Two doubles have the same text exactly if they are identical and not finite, or finite with the same sign and the
    same rounded number; they then differ by at most 5/1000000 of the sum of their sizes. *)
Theorem C81_same_text :
  forall x y : f64,
    (pr_double x = pr_double y <->
     (x = y /\ ~ finite64 x) \/
     (finite64 x /\ finite64 y /\ Bsign x = Bsign y /\ number_of (pr_double x) = number_of (pr_double y))) /\
    (pr_double x = pr_double y -> finite64 x ->
     finite64 y /\ (Rabs (B2R x - B2R y) <= 5 / 1000000 * (Rabs (B2R x) + Rabs (B2R y)))%R).
Proof.
  intros x y. split; [split|].
  - intros E. destruct (pr_same x y E) as [[A B]|[A [B [C D]]]]; [left|right].
    + split; [exact A|]. unfold finite64. rewrite B. discriminate.
    + repeat split; auto. rewrite E. reflexivity.
  - intros [[-> _]|[A [B [C D]]]]; [reflexivity|]. apply pr_determined; auto.
    rewrite (number_of_pr x A), (number_of_pr y B) in D. injection D as D. exact D.
  - intros E F. destruct (pr_same x y E) as [[_ B]|[A [B [C D]]]]; [unfold finite64 in F; congruence|]. split; [exact B|].
    pose proof (round6_error (B2R x)) as P. pose proof (round6_error (B2R y)) as Q. rewrite D in P.
    replace (B2R x - B2R y)%R with ((round6 (B2R y) - B2R y) - (round6 (B2R y) - B2R x))%R by ring.
    eapply Rle_trans; [apply Rabs_triang|]. rewrite Rabs_Ropp. lra.
Qed.
Print Assumptions C81_same_text.

(** C81.  Different constants may have the same text: the text of an expression, and its LaTeX form, do not determine its
    value. *)
Theorem C81_text_determines_value_refuted :
  forall lm : libm, exists a b : expr (numB64 lm),
    deep_str pr_double a = deep_str pr_double b /\ latex pr_double fresh false a = latex pr_double fresh false b /\
    deep_equal (numB64 lm) a b = Ok false /\
    exists x y, eval (numB64 lm) a [] = Ok x /\ eval (numB64 lm) b [] = Ok y /\ (B2R y - B2R x = 1)%R.
Proof.
  intros lm.
  exists (@EConst (numB64 lm) (n_of_Z (numB64 lm) 1000000)), (@EConst (numB64 lm) (n_of_Z (numB64 lm) 1000001)).
  split; [vm_compute; reflexivity|]. split; [vm_compute; reflexivity|]. split; [vm_compute; reflexivity|].
  do 2 eexists. split; [reflexivity|]. split; [reflexivity|].
  destruct (of_Z_exact lm 1000000 ltac:(lia)) as [_ [-> _]]. destruct (of_Z_exact lm 1000001 ltac:(lia)) as [_ [-> _]]. lra.
Qed.
Print Assumptions C81_text_determines_value_refuted.

(** C81.  Expressions over doubles with the same text are identical up to constants that differ by at most 5/1000000 of the
    sum of their sizes (C31 needs no assumption on the output of numbers here). *)
Theorem C81_text_identifies_up_to_rounding :
  forall a b : expr f64,
    (forall i t, occurs_fun i t a -> t = 0%N \/ t = 1%N) ->
    (forall i t, occurs_fun i t b -> t = 0%N \/ t = 1%N) ->
    deep_str pr_double a = deep_str pr_double b ->
    same (fun c d => c = d \/
            (finite64 c /\ finite64 d /\ Bsign c = Bsign d /\
             (Rabs (B2R c - B2R d) <= 5 / 1000000 * (Rabs (B2R c) + Rabs (B2R d)))%R)) a b.
Proof.
  intros a b TA TB E. apply (same_mono f64 (fun c d => pr_double c = pr_double d)).
  - intros c d H. destruct (C81_same_text c d) as [A B]. destruct (proj1 A H) as [[K _]|[F [G [S _]]]]; [left; exact K|right].
    destruct (B H F). auto.
  - apply C31_deep_str_identifies; try assumption.
    intros c p q H. assert (P : has ")" (pr_double c)) by (rewrite H; apply has_split; eauto).
    apply pr_chars in P. cbn in P. destruct P as [P|P]; [contradiction P; reflexivity|intuition discriminate].
Qed.
Print Assumptions C81_text_identifies_up_to_rounding.

(** C81.  The LaTeX form of an expression whose constants were written with at most six significant digits reads back as the
    expression with the very same constants, up to the bracketing of sums, if numbers are read with exponents. *)
Theorem C81_latex_reads_back :
  forall e : expr f64,
    (forall s, subterm s e ->
       match s with
       | EVec _ | EBin BUnaryId _ _ => False
       | EFun _ t => t = 0%N \/ t = 1%N
       | EConst c => exists neg m j, c = literal neg m j /\ (m < 10 ^ 6)%N /\
           (m = 0%N \/ (powerRZ 10 (-307) <= IZR (Z.of_N m) * powerRZ 10 j <= powerRZ 10 308)%R)
       | _ => True
       end) ->
    exists e' k, regroup e e' /\
      forall fuel, k <= fuel -> read number64 fuel (latex pr_double fresh false e) = Some e'.
Proof.
  intros e H. apply C34_output_reads_back. intros s S. specialize (H s S).
  destruct s as [c|i|i t|op a|lo hi w a|op l r|es]; try exact H.
  destruct H as [neg [m [j [-> [M R]]]]]. split.
  - apply pr_first. apply literal_spec. exact R.
  - intros rest. apply literal_reads_back; [exact M|exact R|]. cbn. repeat split; discriminate.
Qed.
Print Assumptions C81_latex_reads_back.

(** C81.  With the usual conventions for formulas, where e is a letter and not part of a number, it does not read back: small
    and large constants are printed like 1e-07. *)
Theorem C81_latex_of_small_numbers_refuted :
  exists e : expr f64,
    e = EConst (literal false 1 (-7)) /\ latex pr_double fresh false e = " 1e-07 " /\
    (forall fuel, read plain64 fuel (latex pr_double fresh false e) = None) /\
    (forall fuel, fuel <> 0 -> fuel <> 1 -> fuel <> 2 ->
       read plain64 fuel (latex pr_double fresh false (EConst (literal false 1 (-3)))) = Some (EConst (literal false 1 (-3)))).
Proof.
  exists (EConst (literal false 1 (-7))). split; [reflexivity|].
  assert (E : latex pr_double fresh false (EConst (literal false 1 (-7))) = " 1e-07 ") by (vm_compute; reflexivity).
  assert (K : latex pr_double fresh false (EConst (literal false 1 (-3))) = " 0.001 ") by (vm_compute; reflexivity).
  split; [exact E|]. rewrite E, K. clear E K. split.
  - intros [|[|[|f]]]; reflexivity.
  - intros [|[|[|f]]] A B C; try congruence. reflexivity.
Qed.
Print Assumptions C81_latex_of_small_numbers_refuted.

(** Cases: the output of printf("%g"), as documented. *)
Example C81_case :
  map pr_double [literal false 1 (-1); literal true 125 (-1); literal false 1234567 0; literal false 1 20;
                 literal false 15 (-6); literal false 999999500001 (-6); literal false 3333333 (-7); literal false 2 (-320);
                 literal false 5 400; B754_zero true] =
  ["0.1"; "-12.5"; "1.23457e+06"; "1e+20"; "1.5e-05"; "1e+06"; "0.333333"; "1.99998e-320"; "inf"; "-0"].
Proof. vm_compute. reflexivity. Qed.

(** A tie: 0.5 less than 1000001 and half-way between two numbers of six digits times ten. *)
Example C81_tie_case :
  map pr_double [literal false 1000005 0; literal false 1000015 0; literal false 12345650 (-1)] =
  ["1e+06"; "1.00002e+06"; "1.23456e+06"].
Proof. vm_compute. reflexivity. Qed.

(** 0.1 * x + 2.5e-8, printed and read back. *)
Example C81_latex_case :
  let e := EBin BPlus (EBin BMult (EConst (literal false 1 (-1))) (EVar 0)) (EConst (literal false 25 (-9))) in
  latex pr_double fresh false e = " 0.1  \cdot  x_{0}  +  2.5e-08 " /\
  exists k, k <= 12 /\ option_map (deep_str pr_double) (read number64 k (latex pr_double fresh false e)) = Some (deep_str pr_double e).
Proof. split; [vm_compute; reflexivity|]. exists 12. split; [lia|]. vm_compute. reflexivity. Qed.

(** Two constants that print alike. *)
Example C81_same_text_case : pr_double (literal false 3141592653589793 (-15)) = pr_double (literal false 314159 (-5)).
Proof. vm_compute. reflexivity. Qed.
