(** Specification for C86: integer data. *)
From Coq Require Import ZArith NArith Reals List.
From Flocq Require Import Core BinarySingleNaN.
From Verif Require Import Outcome Num RtModel RtSpec NumB64 NumR ErrSpec.
Import ListNotations.
Local Open Scope R_scope.
Local Existing Instance prec_pos.
Local Existing Instance prec_emax.

(** A double whose value is an integer. *)
Definition integer64 (x : f64) : Prop := finite64 x /\ exists z : Z, B2R x = IZR z.

(** Sums, differences and products of variables and integer constants. *)
Fixpoint integer_polynomial (e : expr f64) : Prop :=
  match e with
  | EConst c => integer64 c
  | EVar _ => True
  | EBin BPlus a b | EBin BMinus a b | EBin BMult a b => integer_polynomial a /\ integer_polynomial b
  | _ => False
  end.

(** An upper bound for the absolute values of all intermediate results at [v]: all terms taken positive and no
    factor less than one. *)
Fixpoint extent (v : list f64) (e : expr f64) : R :=
  match e with
  | EConst c => Rmax 1 (Rabs (B2R c))
  | EVar i => match nth_error v (N.to_nat i) with Some x => Rmax 1 (Rabs (B2R x)) | None => 1 end
  | EBin BMult a b => extent v a * extent v b
  | EBin _ a b => extent v a + extent v b
  | _ => 1
  end.

(** Every variable that occurs has a value. *)
Fixpoint in_range (v : list f64) (e : expr f64) : Prop :=
  match e with
  | EVar i => nth_error v (N.to_nat i) <> None
  | EBin _ a b => in_range v a /\ in_range v b
  | _ => True
  end.

(** Number of nodes. *)
Fixpoint nodes (e : expr f64) : nat :=
  match e with
  | EBin _ a b => S (nodes a + nodes b)
  | _ => 1
  end.

(** The largest integer below which there is no gap in the doubles. *)
Definition limit64 : R := bpow radix2 53.

(** 2^53 as a double. *)
Definition big53 : f64 := Bmult mode_NE (n_of_Z (numB64 rounded_libm) 134217728) (n_of_Z (numB64 rounded_libm) 67108864).
