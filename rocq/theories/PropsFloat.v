(** Property C02: simplification in IEEE-754 double arithmetic; C21 for doubles. *)
From Coq Require Import ZArith NArith Reals List Bool Lia.
From Flocq Require Import Core BinarySingleNaN.
From Verif Require Import Outcome Num RtModel RtSpec RtFacts RtStep RtTermination RtValue NumB64 NumB64Facts.
Import ListNotations.

(** C02.  If every subexpression of [e] has a finite double value at [v] then simplify(e) succeeds and
    has the same value up to the sign of a zero; all its subexpressions are finite again. *)
Theorem C02_simplify_is_safe_for_doubles :
  forall (lm : libm), zero_symmetric lm ->
  forall (e : expr (numB64 lm)) (v : list f64),
    all_values (n := numB64 lm) finite64 v e ->
    exists e' x y, simplify_top (numB64 lm) e = Ok e' /\
      eval (numB64 lm) e v = Ok x /\ eval (numB64 lm) e' v = Ok y /\ same64 x y /\
      all_values (n := numB64 lm) finite64 v e'.
Proof.
  intros lm ZS e v A. destruct (A e (sub_refl e)) as [x [E _]].
  destruct (simplify64 lm ZS v e x A E) as [e' [y [P [Q [S T]]]]]. exists e', x, y. auto.
Qed.
Print Assumptions C02_simplify_is_safe_for_doubles.

(** Example libm: constant functions at zero; 1.5 as double. *)
Definition lm0 : libm := mk_libm (B754_zero false) (fun _ => @Bone 53 1024 prec_pos prec_emax) (fun x => x) (fun _ => @Bone 53 1024 prec_pos prec_emax) (fun x => x)
  (fun _ => B754_infinity true) (fun _ => B754_infinity true).
Definition d15 : f64 := binary_normalize 53 1024 prec_pos prec_emax mode_NE 3 (-1) false.

(** (0 + x0) * (0 - (x0 / 1)) at x0 = 1.5 satisfies the hypotheses and is simplified to x0 * (-1 * x0). *)
Example C02_case :
  let n := numB64 lm0 in
  let e := EBin BMult (EBin BPlus (EConst (c0 n)) (EVar 0))
                      (EBin BMinus (EConst (c0 n)) (EBin BDiv (EVar 0) (EConst (c1 n)))) in
  zero_symmetric lm0 /\ all_values (n := n) finite64 [d15] e /\
  simplify_top n e = Ok (EBin BMult (EVar 0) (EBin BMult (EConst (cm1 n)) (EVar 0))).
Proof.
  cbv zeta. split; [|split].
  - intros f H.
    repeat (destruct H as [->|H]; [first [left; reflexivity|right; eexists; eexists; split; reflexivity]|]).
    subst. left; reflexivity.
  - intros s H.
    repeat match goal with
           | H : subterm _ _ |- _ => inversion H; subst; clear H
           end; (eexists; split; [reflexivity|vm_compute; reflexivity]).
  - reflexivity.
Qed.

(** The finiteness hypothesis cannot be dropped: 0 * x0 at infinity is NaN, but simplifies to 0. *)
Theorem C02_without_finiteness_refuted :
  forall lm : libm, exists (e e' : expr (numB64 lm)) (v : list f64) (y : f64),
    simplify_top (numB64 lm) e = Ok e' /\ eval (numB64 lm) e v = Ok B754_nan /\
    eval (numB64 lm) e' v = Ok y /\ finite64 y.
Proof.
  intros lm. exists (EBin BMult (EConst (c0 (numB64 lm))) (EVar 0)), (EConst (c0 (numB64 lm))),
    [B754_infinity false], (c0 (numB64 lm)).
  split; [reflexivity|]. split; [reflexivity|]. split; reflexivity.
Qed.
Print Assumptions C02_without_finiteness_refuted.

(** Neither can "up to the sign of a zero": 0 + x0 at -0 is +0, but simplifies to x0. *)
Theorem C02_sign_of_zero_refuted :
  forall lm : libm, exists (e e' : expr (numB64 lm)) (v : list f64),
    simplify_top (numB64 lm) e = Ok e' /\ eval (numB64 lm) e v = Ok (B754_zero false) /\
    eval (numB64 lm) e' v = Ok (B754_zero true).
Proof.
  intros lm. exists (EBin BPlus (EConst (c0 (numB64 lm))) (EVar 0)), (EVar 0), [B754_zero true].
  split; [reflexivity|]. split; reflexivity.
Qed.
Print Assumptions C02_sign_of_zero_refuted.

(** Consequence for structural equality (C21): for doubles, deep_equal expressions need not have the same
    value: 1 / 0 and 1 / (-0) are deep_equal and evaluate to +infinity and -infinity. *)
Theorem C21_signed_zero_refuted :
  forall lm : libm, exists (a b : expr (numB64 lm)),
    deep_equal (numB64 lm) a b = Ok true /\
    eval (numB64 lm) a [] = Ok (B754_infinity false) /\ eval (numB64 lm) b [] = Ok (B754_infinity true).
Proof.
  intros lm. exists (EBin BDiv (EConst (c1 (numB64 lm))) (EConst (B754_zero (prec := 53) (emax := 1024) false))),
    (EBin BDiv (EConst (c1 (numB64 lm))) (EConst (B754_zero (prec := 53) (emax := 1024) true))).
  split; [reflexivity|]. split; reflexivity.
Qed.
Print Assumptions C21_signed_zero_refuted.

(** C20 for doubles: numeric equality is equality up to the sign of a zero, an equivalence on everything
    but NaN; so C20_deep_equal_is_an_equivalence applies to all expressions without NaN constants. *)
Theorem C20_doubles_have_equal_laws :
  forall lm : libm, equal_laws (numB64 lm) (fun c : f64 => is_nan c = false) /\
    (forall c d : f64, is_nan c = false -> is_nan d = false -> (num_equal (numB64 lm) c d <-> same64 c d)).
Proof. intros lm. split; [exact (equal_laws64 lm)|exact (num_equal64 lm)]. Qed.
Print Assumptions C20_doubles_have_equal_laws.

(** A NaN constant is not even deep_equal to itself. *)
Theorem C20_nan_refuted :
  forall lm : libm, exists e : expr (numB64 lm), deep_equal (numB64 lm) e e = Ok false.
Proof. intros lm. exists (EConst (B754_nan (prec := 53) (emax := 1024))). reflexivity. Qed.
Print Assumptions C20_nan_refuted.
