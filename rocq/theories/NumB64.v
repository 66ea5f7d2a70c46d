(** IEEE-754 binary64 instance of the numeric type (Flocq's definitions). *)
From Coq Require Import ZArith.
From Flocq Require Import Core BinarySingleNaN.
From Verif Require Import Num.
Local Open Scope Z_scope.

(** double, /repo/viennamath/forwards.h line 43: binary64 with one NaN.
    Simplified: NaN payloads are not distinguished; rounding to nearest even. *)
Definition f64 : Type := binary_float 53 1024.

(** Side conditions of Flocq's operations (not part of the code). For the double of
    /repo/viennamath/forwards.h line 43. *)
Definition prec_pos : FLX.Prec_gt_0 53 := eq_refl.
(** As above, for the double of /repo/viennamath/forwards.h line 43. *)
Definition prec_emax : Prec_lt_emax 53 1024 := eq_refl.

(** The libm functions called by /repo/viennamath/compiletime/unary_op_tags.hpp lines 53-166 and the
    constant ::log(10.0) of manipulation/detail/unary_operations.hpp line 570.  Left open, since IEEE-754
    does not fix their values. *)
Record libm : Type := mk_libm {
  m_ln10 : f64;
  m_exp : f64 -> f64;
  m_sin : f64 -> f64;
  m_cos : f64 -> f64;
  m_tan : f64 -> f64;
  m_log : f64 -> f64;
  m_log10 : f64 -> f64
}.

(** The numeric type double (/repo/viennamath/forwards.h line 43) with the operations of
    compiletime/binary_op_tags.hpp lines 36-101 and compiletime/unary_op_tags.hpp lines 38-166;
    conversions of integer literals round to nearest. *)
Definition numB64 (lm : libm) : num := {|
  carrier := f64;
  n_of_Z := fun z => binary_normalize 53 1024 prec_pos prec_emax mode_NE z 0 false;
  n_ln10 := m_ln10 lm;
  n_add := @Bplus 53 1024 prec_pos prec_emax mode_NE;
  n_sub := @Bminus 53 1024 prec_pos prec_emax mode_NE;
  n_mul := @Bmult 53 1024 prec_pos prec_emax mode_NE;
  n_div := @Bdiv 53 1024 prec_pos prec_emax mode_NE;
  n_eq := @Beqb 53 1024;
  n_le := @Bleb 53 1024;
  n_ge := fun a b => @Bleb 53 1024 b a;
  n_exp := m_exp lm;
  n_sin := m_sin lm;
  n_cos := m_cos lm;
  n_tan := m_tan lm;
  n_fabs := @Babs 53 1024;
  n_sqrt := @Bsqrt 53 1024 prec_pos prec_emax mode_NE;
  n_log := m_log lm;
  n_log10 := m_log10 lm
|}.

(** Specification vocabulary. *)

(** Neither infinite nor NaN. *)
Definition finite64 (x : f64) : Prop := is_finite x = true.

(** The same double, up to the sign of a zero. *)
Definition same64 (x y : f64) : Prop :=
  x = y \/ (exists s t, x = B754_zero s /\ y = B754_zero t).

(** The libm functions give the same value (up to the sign of a zero) at +0 and at -0, as every
    implementation following the recommendations of IEEE-754 section 9.2 does. *)
Definition zero_symmetric (lm : libm) : Prop :=
  forall f, f = m_exp lm \/ f = m_sin lm \/ f = m_cos lm \/ f = m_tan lm \/ f = m_log lm \/ f = m_log10 lm ->
    same64 (f (B754_zero false)) (f (B754_zero true)).
