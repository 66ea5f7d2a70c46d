(** Model of the output of doubles through operator<< of std::stringstream, the text of every run-time constant.
    The library leaves the formatting flags alone (no call of precision() or of a manipulator in /repo/viennamath), so the
    C++ standard ([facet.num.put.virtuals], default flags) prescribes printf's "%g" with the default precision 6.  The
    "C" locale is assumed and, as in glibc, correct rounding of the exact value to nearest, ties to even. *)
From Coq Require Import ZArith NArith List Bool String Ascii.
From Flocq Require Import Core BinarySingleNaN.
From Verif Require Import NumB64.
Import ListNotations.
Local Open Scope Z_scope.

(** A decimal digit in the output of /repo/viennamath/runtime/constant.hpp line 81. *)
Definition digit_char (d : Z) : ascii := ascii_of_N (48 + Z.to_N d).

(** A sequence of digits in the output of /repo/viennamath/runtime/constant.hpp line 81. *)
Fixpoint text (l : list Z) : string :=
  match l with
  | [] => EmptyString
  | d :: l' => String (digit_char d) (text l')
  end.

(** The last [k] decimal digits of [q], for the output of /repo/viennamath/runtime/constant.hpp line 81. *)
Fixpoint ndigits (k : nat) (q : Z) : list Z :=
  match k with
  | O => []
  | S k' => (ndigits k' (q / 10) ++ [q mod 10])%list
  end.

(** Trailing zeros are not printed by "%g" (/repo/viennamath/runtime/constant.hpp line 81, flag # not set). *)
Fixpoint strip_zeros (l : list Z) : list Z :=
  match l with
  | [] => []
  | d :: l' =>
      match strip_zeros l' with
      | [] => if d =? 0 then [] else [d]
      | l'' => d :: l''
      end
  end.

(** The decimal point and the digits after it, if one of them is not zero; for
    /repo/viennamath/runtime/constant.hpp line 81. *)
Definition fraction (l : list Z) : string :=
  match strip_zeros l with
  | [] => EmptyString
  | l' => String "." (text l')
  end.

(** The exponent: a sign and at least two digits; for /repo/viennamath/runtime/constant.hpp line 81. *)
Definition exponent (k : Z) : string :=
  String "e" (String (if k <? 0 then "-" else "+")
    (text (ndigits (if Z.abs k <? 100 then 2 else 3) (Z.abs k)))).

(** Base ten; for /repo/viennamath/runtime/constant.hpp line 81. *)
Definition radix10 : radix := Build_radix 10 eq_refl.
(** The decimal exponent of p/q > 0: the k with 10^k <= p/q < 10^(k+1); for
    /repo/viennamath/runtime/constant.hpp line 81. *)
Definition log10_floor (p q : Z) : Z :=
  let k := Zdigits radix10 p - Zdigits radix10 q in
  if q * 10 ^ Z.max 0 k <=? p * 10 ^ Z.max 0 (- k) then k else k - 1.

(** a/b rounded to an integer, ties to even; for /repo/viennamath/runtime/constant.hpp line 81. *)
Definition nearest (a b : Z) : Z :=
  let d := a / b in
  let r := a mod b in
  if 2 * r <? b then d else if b <? 2 * r then d + 1 else if Z.even d then d else d + 1.

(** p/q > 0 rounded to six significant digits: m * 10^(k-5) with 10^5 <= m < 10^6; for
    /repo/viennamath/runtime/constant.hpp line 81. *)
Definition significant (p q : Z) : Z * Z :=
  let k := log10_floor p q in
  let m := nearest (p * 10 ^ Z.max 0 (5 - k)) (q * 10 ^ Z.max 0 (k - 5)) in
  if m =? 10 ^ 6 then (10 ^ 5, k + 1) else (m, k).

(** "%g": exponent notation if the exponent is less than -4 or not less than the precision; for
    /repo/viennamath/runtime/constant.hpp line 81. *)
Definition layout (m k : Z) : string :=
  let ds := ndigits 6 m in
  if (k <? -4) || (6 <=? k) then
    (text (firstn 1 ds) ++ fraction (skipn 1 ds) ++ exponent k)%string
  else if k <? 0 then
    ("0" ++ fraction (repeat 0%Z (Z.to_nat (- k - 1)) ++ ds)%list)%string
  else
    (text (firstn (Z.to_nat (k + 1)) ds) ++ fraction (skipn (Z.to_nat (k + 1)) ds))%string.

(** The sign bit; for /repo/viennamath/runtime/constant.hpp line 81. *)
Definition minus (s : bool) : string := if s then "-"%string else EmptyString.

(** stream << s for a double s, /repo/viennamath/runtime/constant.hpp line 81 (also
    /repo/viennamath/manipulation/latex.hpp line 437).  Simplified: glibc prints NaNs with the sign bit as -nan;
    the model has a single NaN. *)
Definition pr_double (x : f64) : string :=
  match x with
  | B754_nan => "nan"%string
  | B754_infinity s => (minus s ++ "inf")%string
  | B754_zero s => (minus s ++ "0")%string
  | B754_finite s m e _ =>
      let '(d, k) := significant (Zpos m * 2 ^ Z.max 0 e) (2 ^ Z.max 0 (- e)) in
      (minus s ++ layout d k)%string
  end.
