(** Specification for C71: error analysis with inexact data. *)
From Coq Require Import ZArith NArith Reals List.
From Flocq Require Import Core BinarySingleNaN.
From Verif Require Import Outcome Num RtModel RtSpec NumB64 NumR ErrSpec.
Import ListNotations.
Local Open Scope R_scope.

(** The same tree, with any real constants. *)
Inductive stands_for : expr f64 -> expr numR -> Prop :=
| f_const : forall c k, stands_for (EConst c) (@EConst numR (Some k))
| f_var : forall i, stands_for (EVar i) (EVar i)
| f_un : forall op a a', stands_for a a' -> stands_for (EUn op a) (EUn op a')
| f_bin : forall op a a' b b', stands_for a a' -> stands_for b b' -> stands_for (EBin op a b) (EBin op a' b').

(** [bounded d v w e e' z r]: the doubles in the tree [e] and the point [v] stand for the real numbers in
    [e'] and [w]; the value of [e'] at [w] is [z], and the rules of error analysis, applied to the errors of the
    constants and coordinates and those of the operations, give the bound [r]. *)
Inductive bounded (d : R) (v : list f64) (w : list (option R)) : expr f64 -> expr numR -> R -> R -> Prop :=
| b_const : forall c k, bounded d v w (EConst c) (@EConst numR (Some k)) k (Rabs (B2R c - k))
| b_var : forall i x y, nth_error v (N.to_nat i) = Some x -> nth_error w (N.to_nat i) = Some (Some y) ->
    bounded d v w (EVar i) (EVar i) y (Rabs (B2R x - y))
| b_id : forall a a' z r, bounded d v w a a' z r -> bounded d v w (EUn UId a) (EUn UId a') z r
| b_fabs : forall a a' z r, bounded d v w a a' z r -> bounded d v w (EUn UFabs a) (EUn UFabs a') (Rabs z) r
| b_plus : forall a a' b b' x y dx dy, bounded d v w a a' x dx -> bounded d v w b b' y dy ->
    bounded d v w (EBin BPlus a b) (EBin BPlus a' b') (x + y) (after u64 0 (x + y) (dx + dy))
| b_minus : forall a a' b b' x y dx dy, bounded d v w a a' x dx -> bounded d v w b b' y dy ->
    bounded d v w (EBin BMinus a b) (EBin BMinus a' b') (x - y) (after u64 0 (x - y) (dx + dy))
| b_mult : forall a a' b b' x y dx dy, bounded d v w a a' x dx -> bounded d v w b b' y dy ->
    bounded d v w (EBin BMult a b) (EBin BMult a' b') (x * y)
      (after u64 tiny64 (x * y) (Rabs x * dy + Rabs y * dx + dx * dy))
| b_div : forall a a' b b' x y dx dy, bounded d v w a a' x dx -> bounded d v w b b' y dy -> dy < Rabs y ->
    bounded d v w (EBin BDiv a b) (EBin BDiv a' b') (x / y)
      (after u64 tiny64 (x / y) ((dx + Rabs (x / y) * dy) / (Rabs y - dy)))
| b_sqrt : forall a a' z r, bounded d v w a a' z r -> 0 < z ->
    bounded d v w (EUn USqrt a) (EUn USqrt a') (sqrt z) (after u64 0 (sqrt z) (r / sqrt z))
| b_exp : forall a a' z r, bounded d v w a a' z r ->
    bounded d v w (EUn UExp a) (EUn UExp a') (exp z) (after d (2 * tiny64) (exp z) (exp z * (exp r - 1)))
| b_sin : forall a a' z r, bounded d v w a a' z r ->
    bounded d v w (EUn USin a) (EUn USin a') (sin z) (after d (2 * tiny64) (sin z) r)
| b_cos : forall a a' z r, bounded d v w a a' z r ->
    bounded d v w (EUn UCos a) (EUn UCos a') (cos z) (after d (2 * tiny64) (cos z) r)
| b_tan : forall a a' z r, bounded d v w a a' z r -> r < Rabs (cos z) ->
    bounded d v w (EUn UTan a) (EUn UTan a') (tan z)
      (after d (2 * tiny64) (tan z) (r / (Rabs (cos z) * (Rabs (cos z) - r))))
| b_log : forall a a' z r, bounded d v w a a' z r -> r < z ->
    bounded d v w (EUn ULog a) (EUn ULog a') (ln z) (after d (2 * tiny64) (ln z) (r / (z - r)))
| b_log10 : forall a a' z r, bounded d v w a a' z r -> r < z ->
    bounded d v w (EUn ULog10 a) (EUn ULog10 a') (ln z / ln 10)
      (after d (2 * tiny64) (ln z / ln 10) (r / (z - r) / ln 10)).

(** The one-point rule, written as an expression: the integrand with the midpoint for the integration variable,
    times the length of the interval. *)
Definition midpoint {T : Type} (two : T) (lo hi : expr T) : expr T := EBin BDiv (EBin BPlus lo hi) (EConst two).
Definition rule_tree {T : Type} (two : T) (lo hi : expr T) (x : N) (body : expr T) : expr T :=
  EBin BMult (replace_vars (fun j => if N.eqb x j then Some (midpoint two lo hi) else None) body) (EBin BMinus hi lo).

(** Sums, differences and products over a box: [close_data B s e e'] says that [e] is such a tree, its constants are
    finite, stand for real numbers of absolute value at most [B] and differ from them by at most [s]. *)
Inductive close_data (B s : R) : expr f64 -> expr numR -> Prop :=
| cd_const : forall c k, finite64 c -> Rabs k <= B -> Rabs (B2R c - k) <= s ->
    close_data B s (EConst c) (@EConst numR (Some k))
| cd_var : forall i, close_data B s (EVar i) (EVar i)
| cd_bin : forall op a a' b b', op = BPlus \/ op = BMinus \/ op = BMult ->
    close_data B s a a' -> close_data B s b b' -> close_data B s (EBin op a b) (EBin op a' b').

(** The same for the coordinates the expression uses. *)
Definition close_point (B s : R) (v : list f64) (w : list (option R)) (e : expr f64) : Prop :=
  forall i, subterm (EVar i) e -> exists x y,
    nth_error v (N.to_nat i) = Some x /\ nth_error w (N.to_nat i) = Some (Some y) /\
    finite64 x /\ Rabs y <= B /\ Rabs (B2R x - y) <= s.

(** The largest value and the largest error of such a tree, with rounding errors of at most [u] relative to the
    result (and [t] for underflow). *)
Fixpoint box (u t B s : R) (e : expr f64) : R * R :=
  match e with
  | EBin BMult a b =>
      let x := fst (box u t B s a) in let dx := snd (box u t B s a) in
      let y := fst (box u t B s b) in let dy := snd (box u t B s b) in
      (x * y, after u t (x * y) (x * dy + y * dx + dx * dy))
  | EBin _ a b =>
      let x := fst (box u t B s a) in let dx := snd (box u t B s a) in
      let y := fst (box u t B s b) in let dy := snd (box u t B s b) in
      (x + y, after u 0 (x + y) (dx + dy))
  | _ => (B, s)
  end.
