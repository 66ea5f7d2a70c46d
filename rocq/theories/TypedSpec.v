(** Vocabulary for the properties of constants of other scalar types. *)
From Coq Require Import ZArith NArith List Bool Reals.
From Flocq Require Import Core BinarySingleNaN.
From Verif Require Import Outcome Num NumR NumB64 RtModel TypedModel.
Import ListNotations.

(** The tree with every constant [c] replaced by [f c]. *)
Fixpoint replace_constants {A B : Type} (f : A -> B) (e : expr A) : expr B :=
  match e with
  | EConst c => EConst (f c)
  | EVar i => EVar i
  | EFun i t => EFun i t
  | EUn op a => EUn op (replace_constants f a)
  | EInt lo hi v a => EInt (replace_constants f lo) (replace_constants f hi) v (replace_constants f a)
  | EBin op l r => EBin op (replace_constants f l) (replace_constants f r)
  | EVec es => EVec (map (replace_constants f) es)
  end.

(** The tree as if the constants had been written as numbers of the interface's numeric type, e.g.
    rt_constant<double>(6.0) instead of rt_constant<long>(6). *)
Definition converted (n : num) (fl : f32 -> n) : texpr n -> expr n := replace_constants (conv n fl).

(** A float as a real number ([None] for infinities and NaN). *)
Definition real_of_float (f : f32) : option R := if is_finite f then Some (B2R f) else None.

(** An integer every double calculation with it is exact for. *)
Definition small (z : Z) : Prop := (Z.abs z <= 2 ^ 52)%Z.
(** The constants [fold] treats as the evaluation of the unfolded expression does: numbers of type int,
    small numbers of type long, doubles. *)
Definition exact_scalar (s : scalar f64) : Prop :=
  match s with
  | SOwn _ => True
  | SInt z => in_int z = true
  | SLong z => small z
  | SFloat _ => False
  end.

(** A double. *)
Definition is_double (s : scalar f64) : Prop := match s with SOwn _ => True | _ => False end.
Definition is_float (s : scalar f64) : Prop := match s with SFloat _ => True | _ => False end.

(** The float nearest to a real number (ties to even), for numbers in the range of the type float. *)
Definition nearest_float (r : R) : R := round radix2 (FLT_exp (-149) 24) ZnearestE r.
(** The number a constant is when used as a float. *)
Inductive float_value : scalar f64 -> R -> Prop :=
| fv_float : forall f, is_finite f = true -> float_value (SFloat f) (B2R f)
| fv_int : forall z, (- 2 ^ 31 <= z < 2 ^ 31)%Z -> float_value (SInt z) (nearest_float (IZR z))
| fv_long : forall z, (- 2 ^ 63 <= z < 2 ^ 63)%Z -> float_value (SLong z) (nearest_float (IZR z)).
