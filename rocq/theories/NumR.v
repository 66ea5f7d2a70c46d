(** The exact real semantics of the numeric type. *)
From Coq Require Import ZArith Reals.
From Verif Require Import Num.
Local Open Scope R_scope.

(** Strict lifting of partial real functions; [None] stands for "no real value". For the functions of
    /repo/viennamath/compiletime/unary_op_tags.hpp lines 53-166. *)
Definition lift1 (dom : R -> bool) (f : R -> R) (x : option R) : option R :=
  match x with
  | Some a => if dom a then Some (f a) else None
  | None => None
  end.
(** The same for the operations of /repo/viennamath/compiletime/binary_op_tags.hpp lines 36-101. *)
Definition lift2 (dom : R -> R -> bool) (f : R -> R -> R) (x y : option R) : option R :=
  match x, y with
  | Some a, Some b => if dom a b then Some (f a b) else None
  | _, _ => None
  end.
(** The same for comparisons, e.g. /repo/viennamath/runtime/constant.hpp line 117. *)
Definition rel2 (p : R -> R -> bool) (x y : option R) : bool :=
  match x, y with
  | Some a, Some b => p a b
  | _, _ => false
  end.

(** Decision procedures on the reals (Coq's standard library). For ==, e.g.
    /repo/viennamath/manipulation/detail/binary_operations.hpp lines 50-76. *)
Definition r_eqb (a b : R) : bool := if Req_EM_T a b then true else false.
(** For <= and >=, /repo/viennamath/runtime/constant.hpp line 117. *)
Definition r_leb (a b : R) : bool := if Rle_dec a b then true else false.
(** Domain of the logarithms, /repo/viennamath/compiletime/unary_op_tags.hpp lines 146-166. *)
Definition r_ltb (a b : R) : bool := if Rlt_dec a b then true else false.

(** The numeric type of the mathematical reading of an expression: real numbers plus an
    undefined value produced by division by zero, tan at a pole, square root of a negative
    number and logarithms of non-positive numbers.
    Simplified with respect to /repo/viennamath/forwards.h line 43 (double): exact
    arithmetic instead of rounding.  IEEE doubles are treated in NumB64.v. *)
Definition numR : num := {|
  carrier := option R;
  n_of_Z := fun z => Some (IZR z);
  n_ln10 := Some (ln 10);
  n_add := lift2 (fun _ _ => true) Rplus;
  n_sub := lift2 (fun _ _ => true) Rminus;
  n_mul := lift2 (fun _ _ => true) Rmult;
  n_div := lift2 (fun _ b => negb (r_eqb b 0)) Rdiv;
  n_eq := rel2 r_eqb;
  n_le := rel2 r_leb;
  n_ge := rel2 (fun a b => r_leb b a);
  n_exp := lift1 (fun _ => true) exp;
  n_sin := lift1 (fun _ => true) sin;
  n_cos := lift1 (fun _ => true) cos;
  n_tan := lift1 (fun a => negb (r_eqb (cos a) 0)) tan;
  n_fabs := lift1 (fun _ => true) Rabs;
  n_sqrt := lift1 (fun a => r_leb 0 a) sqrt;
  n_log := lift1 (fun a => r_ltb 0 a) ln;
  n_log10 := lift1 (fun a => r_ltb 0 a) (fun a => ln a / ln 10)
|}.
