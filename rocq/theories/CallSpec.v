(** Specification side of the calling forms.  No code is modelled. *)
From Coq Require Import ZArith NArith List.
From Verif Require Import Outcome Num RtModel CtModel CtOpsModel ApiModel CallModel.
Import ListNotations.

(** The coordinates of a point, as a list: a number is a point with one coordinate.  Unrelated to any
    list if some coordinate cannot be read. *)
Inductive coords {n : Num.num} (m : mem n) : point n -> list n -> Prop :=
| C_num : forall x, coords m (PNum x) [x]
| C_int : forall z, coords m (PInt z) [n_of_Z n z]
| C_rt : forall x, coords m (PRt x) [x]
| C_ct : forall z, coords m (PCt z) [n_of_Z n z]
| C_std : forall v, coords m (PStd v) v
| C_gen : forall size get v,
    length v = size -> (forall i, i < size -> get i = nth_error v i) -> coords m (PGen size get) v
| C_vec1 : forall a x, m a = Some x -> coords m (PVec1 a) [x]
| C_vec2 : forall a b x y, m a = Some x -> m b = Some y -> coords m (PVec2 a b) [x; y]
| C_vec3 : forall x y z, coords m (PVec3 x y z) [x; y; z].

(** The two results are the same up to which exception is thrown. *)
Definition agree {A : Type} (a b : outcome A) : Prop :=
  match a, b with
  | Ok x, Ok y => x = y
  | Throw _, Throw _ => True
  | UB, UB => True
  | _, _ => False
  end.
