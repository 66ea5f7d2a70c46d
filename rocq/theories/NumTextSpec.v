(** Specification side: reading decimal numbers.  No code is modelled here. *)
From Coq Require Import ZArith NArith Reals List Bool String Ascii.
From Flocq Require Import Core BinarySingleNaN.
From Verif Require Import NumB64 LatexSpec.
Import ListNotations.
Local Open Scope Z_scope.

(** At least one digit, optionally followed by more: the number, how many digits, the text after them. *)
Definition some_digits (s : string) : option (N * nat * string) :=
  match s with
  | String c _ =>
      match digit_value c with
      | Some _ => let '(i, r) := digits 0 s in Some (i, (String.length s - String.length r)%nat, r)
      | None => None
      end
  | EmptyString => None
  end.

(** A decimal number, e.g. -12.5e-07: sign, digits, optionally a point and digits, optionally e, a sign and
    digits.  The result is the sign, m and e with value m * 10^e, and the text after the number. *)
Definition decimal (s : string) : option (bool * N * Z * string) :=
  let '(neg, s0) := match s with String "-" t => (true, t) | _ => (false, s) end in
  obind (some_digits s0) (fun '(i, _, r) =>
  obind (match r with
         | String "." t => obind (some_digits t) (fun '(f, k, r') => Some ((i * 10 ^ N.of_nat k + f)%N, k, r'))
         | _ => Some (i, O, r)
         end) (fun '(m, k, r1) =>
  obind (match r1 with
         | String "e" (String "+" t) => obind (some_digits t) (fun '(x, _, r') => Some (Z.of_N x, r'))
         | String "e" (String "-" t) => obind (some_digits t) (fun '(x, _, r') => Some (- Z.of_N x, r'))
         | _ => Some (0, r1)
         end) (fun '(x, r2) => Some (neg, m, x - Z.of_nat k, r2)))).

(** (+/-) m * 10^e *)
Definition dec_real (neg : bool) (m : N) (e : Z) : R :=
  ((if neg then - IZR (Z.of_N m) else IZR (Z.of_N m)) * powerRZ 10 e)%R.

(** The number a complete text stands for. *)
Definition number_of (s : string) : option R :=
  match decimal s with
  | Some (neg, m, e, EmptyString) => Some (dec_real neg m e)
  | _ => None
  end.

(** The numbers with at most six significant decimal digits. *)
Definition six_digits (v : R) : Prop :=
  exists z j : Z, Z.abs z < 10 ^ 6 /\ v = (IZR z * powerRZ 10 j)%R.

(** The double nearest to a / b for positive a and b (ties to even; infinite if it is too large), with a sign. *)
Definition nearest_ratio (s : bool) (a b : positive) : f64 :=
  SF2B _ (proj1 (Bdiv_correct_aux 53 1024 prec_pos prec_emax mode_NE s a 0 false b 0)).

(** The double nearest to (+/-) m * 10^e, as a compiler converts a literal. *)
Definition literal (neg : bool) (m : N) (e : Z) : f64 :=
  match m with
  | N0 => B754_zero neg
  | Npos p => nearest_ratio neg (p * Z.to_pos (10 ^ Z.max 0 e)) (Z.to_pos (10 ^ Z.max 0 (- e)))
  end.

(** Reading a decimal number as a double. *)
Definition number64 (s : string) : option (f64 * string) :=
  obind (decimal s) (fun '(neg, m, e, r) => Some (literal neg m e, r)).

(** Reading digits, optionally with a point and more digits, as a double: in formulas the letter e is not part of
    a number. *)
Definition plain64 (s : string) : option (f64 * string) :=
  obind (some_digits s) (fun '(i, _, r) =>
    match r with
    | String "." t => obind (some_digits t) (fun '(f, k, r') =>
        Some (literal false (i * 10 ^ N.of_nat k + f)%N (- Z.of_nat k), r'))
    | _ => Some (literal false i 0, r)
    end).
