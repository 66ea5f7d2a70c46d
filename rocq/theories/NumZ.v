(** An executable integer instance of the numeric type, used only in the concrete examples. *)
From Coq Require Import ZArith.
From Verif Require Import Num.

(** Integers with truncating division; the transcendental functions are the identity.
    Models nothing in the code; it lets the examples run. Numeric type: /repo/viennamath/forwards.h line 43. *)
Definition numZ : num := {|
  carrier := Z;
  n_of_Z := fun z => z;
  n_ln10 := 2%Z;
  n_add := Z.add;
  n_sub := Z.sub;
  n_mul := Z.mul;
  n_div := Z.quot;
  n_eq := Z.eqb;
  n_le := Z.leb;
  n_ge := Z.geb;
  n_exp := fun x => x;
  n_sin := fun x => x;
  n_cos := fun x => x;
  n_tan := fun x => x;
  n_fabs := Z.abs;
  n_sqrt := Z.sqrt;
  n_log := fun x => x;
  n_log10 := fun x => x
|}.
