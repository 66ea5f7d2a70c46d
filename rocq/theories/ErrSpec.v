(** Specification for C68: the standard rounding error analysis of an expression. *)
From Coq Require Import ZArith NArith Reals List.
From Flocq Require Import Core BinarySingleNaN.
From Verif Require Import Outcome Num RtModel RtSpec NumB64 NumR.
Import ListNotations.
Local Open Scope R_scope.

(** Unit roundoff, and half the smallest positive double. *)
Definition u64 : R := bpow radix2 (-53).
Definition tiny64 : R := bpow radix2 (-1075).

(** The same tree with the real numbers its constants stand for. *)
Fixpoint exact (e : expr f64) : expr numR :=
  match e with
  | EConst c => @EConst numR (Some (B2R c))
  | EVar i => EVar i
  | EFun i t => EFun i t
  | EUn op a => EUn op (exact a)
  | EInt lo hi x a => EInt (exact lo) (exact hi) x (exact a)
  | EBin op a b => EBin op (exact a) (exact b)
  | EVec es => EVec (map exact es)
  end.
Definition exact_point (v : list f64) : list (option R) := map (fun x => Some (B2R x)) v.

(** A result with error [t] before rounding, exact value [z], relative error [d] of the operation and
    underflow [s]. *)
Definition after (d s z t : R) : R := t + d * (Rabs z + t) + s.

(** The libm functions have relative error [d], up to the smallest positive double. *)
Definition accurate (lm : libm) (d : R) : Prop :=
  0 <= d /\
  forall f g, (f = m_exp lm /\ g = exp) \/ (f = m_sin lm /\ g = sin) \/ (f = m_cos lm /\ g = cos) \/
              (f = m_tan lm /\ g = tan) \/ (f = m_log lm /\ g = ln) \/
              (f = m_log10 lm /\ g = (fun x => ln x / ln 10)) ->
    forall x, finite64 x -> finite64 (f x) ->
      Rabs (B2R (f x) - g (B2R x)) <= d * Rabs (g (B2R x)) + 2 * tiny64.

(** [analysed d v e z r]: the exact value of [e] at [v] is [z], and the rules of error analysis give
    the bound [r]. *)
Inductive analysed (d : R) (v : list f64) : expr f64 -> R -> R -> Prop :=
| a_const : forall c, analysed d v (EConst c) (B2R c) 0
| a_var : forall i x, nth_error v (N.to_nat i) = Some x -> analysed d v (EVar i) (B2R x) 0
| a_id : forall a z r, analysed d v a z r -> analysed d v (EUn UId a) z r
| a_fabs : forall a z r, analysed d v a z r -> analysed d v (EUn UFabs a) (Rabs z) r
| a_plus : forall a b x y dx dy, analysed d v a x dx -> analysed d v b y dy ->
    analysed d v (EBin BPlus a b) (x + y) (after u64 0 (x + y) (dx + dy))
| a_minus : forall a b x y dx dy, analysed d v a x dx -> analysed d v b y dy ->
    analysed d v (EBin BMinus a b) (x - y) (after u64 0 (x - y) (dx + dy))
| a_mult : forall a b x y dx dy, analysed d v a x dx -> analysed d v b y dy ->
    analysed d v (EBin BMult a b) (x * y) (after u64 tiny64 (x * y) (Rabs x * dy + Rabs y * dx + dx * dy))
| a_div : forall a b x y dx dy, analysed d v a x dx -> analysed d v b y dy -> dy < Rabs y ->
    analysed d v (EBin BDiv a b) (x / y) (after u64 tiny64 (x / y) ((dx + Rabs (x / y) * dy) / (Rabs y - dy)))
| a_sqrt : forall a z r, analysed d v a z r -> 0 < z ->
    analysed d v (EUn USqrt a) (sqrt z) (after u64 0 (sqrt z) (r / sqrt z))
| a_exp : forall a z r, analysed d v a z r ->
    analysed d v (EUn UExp a) (exp z) (after d (2 * tiny64) (exp z) (exp z * (exp r - 1)))
| a_sin : forall a z r, analysed d v a z r ->
    analysed d v (EUn USin a) (sin z) (after d (2 * tiny64) (sin z) r)
| a_cos : forall a z r, analysed d v a z r ->
    analysed d v (EUn UCos a) (cos z) (after d (2 * tiny64) (cos z) r)
| a_tan : forall a z r, analysed d v a z r -> r < Rabs (cos z) ->
    analysed d v (EUn UTan a) (tan z) (after d (2 * tiny64) (tan z) (r / (Rabs (cos z) * (Rabs (cos z) - r))))
| a_log : forall a z r, analysed d v a z r -> r < z ->
    analysed d v (EUn ULog a) (ln z) (after d (2 * tiny64) (ln z) (r / (z - r)))
| a_log10 : forall a z r, analysed d v a z r -> r < z ->
    analysed d v (EUn ULog10 a) (ln z / ln 10) (after d (2 * tiny64) (ln z / ln 10) (r / (z - r) / ln 10)).

(** Sums, differences and products of constants and variables. *)
Fixpoint polynomial_tree (e : expr f64) : Prop :=
  match e with
  | EConst _ | EVar _ => True
  | EBin BPlus a b | EBin BMinus a b | EBin BMult a b => polynomial_tree a /\ polynomial_tree b
  | _ => False
  end.

(** The value with all terms taken positive, and the number of roundings. *)
Fixpoint magnitude (v : list f64) (e : expr f64) : R :=
  match e with
  | EConst c => Rabs (B2R c)
  | EVar i => match nth_error v (N.to_nat i) with Some x => Rabs (B2R x) | None => 0 end
  | EBin BMult a b => magnitude v a * magnitude v b
  | EBin _ a b => magnitude v a + magnitude v b
  | _ => 0
  end.
Fixpoint roundings (e : expr f64) : nat :=
  match e with
  | EBin BMult a b => S (roundings a + roundings b)
  | EBin _ a b => S (max (roundings a) (roundings b))
  | _ => 0
  end.

(** No product underflows: it is zero or a normal number. *)
Definition no_underflow (lm : libm) (v : list f64) (e : expr f64) : Prop :=
  forall a b x y, subterm (EBin BMult a b) e -> eval (numB64 lm) a v = Ok x -> eval (numB64 lm) b v = Ok y ->
    B2R x * B2R y = 0 \/ bpow radix2 (-1022) <= Rabs (B2R x * B2R y).

(** The double nearest to a real number (ties to even; infinite beyond the largest double), and the libm
    whose functions return it. *)
Definition nearest64 (r : R) : f64 :=
  let x := round radix2 (SpecFloat.fexp 53 1024) (round_mode mode_NE) r in
  binary_normalize 53 1024 prec_pos prec_emax mode_NE
    (Ztrunc (scaled_mantissa radix2 (SpecFloat.fexp 53 1024) x)) (cexp radix2 (SpecFloat.fexp 53 1024) x) false.
Definition rounded_libm : libm :=
  mk_libm (nearest64 (ln 10)) (fun x => nearest64 (exp (B2R x))) (fun x => nearest64 (sin (B2R x)))
    (fun x => nearest64 (cos (B2R x))) (fun x => nearest64 (tan (B2R x))) (fun x => nearest64 (ln (B2R x)))
    (fun x => nearest64 (ln (B2R x) / ln 10)).
