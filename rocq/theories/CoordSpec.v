(** Specification vocabulary for the transformation to Cartesian coordinates.
    No code is modelled here. *)
From Coq Require Import ZArith NArith Reals List Bool.
From Verif Require Import Outcome Num RtModel RtSpec NumR DenSpec CoordModel.
Import ListNotations.

(** The number of coordinates. *)
Definition coords (d : dim) : nat := match d with D1 => 1 | D2 => 2 | D3 => 3 end.

(** The partial derivatives of function symbol (0, t) with respect to all coordinates. *)
Definition partials {T : Type} (d : dim) (t : N) : list (expr T) :=
  map (fun i => EUn (UPd (N.of_nat i)) (EFun 0 t)) (seq 0 (coords d)).

(** [x + y + z + ...], bracketed from the left; a list with one entry stands for itself. *)
Definition sum_of {T : Type} (l : list (expr T)) : expr T :=
  match l with
  | [] => EVec []
  | x :: l' => fold_left (fun acc y => EBin BPlus acc y) l' x
  end.

(** Gradient and divergence of function symbol (0, t) in Cartesian coordinates; in one
    dimension the gradient is the derivative itself. *)
Definition cart_grad {T : Type} (d : dim) (t : N) : expr T :=
  match d with
  | D1 => EUn (UPd 0) (EFun 0 t)
  | _ => EVec (partials d t)
  end.
Definition cart_div {T : Type} (d : dim) (t : N) : expr T := sum_of (partials d t).

(** The unknown (tag 0) and the test function (tag 1), both with id 0. *)
Definition is_uv {T : Type} (e : expr T) : option N :=
  match e with
  | EFun i t => if N.eqb i 0 && (N.eqb t 0 || N.eqb t 1) then Some t else None
  | _ => None
  end.

(** The products of corresponding entries. *)
Definition products {T : Type} (a b : list (expr T)) : list (expr T) :=
  map (fun p => EBin BMult (fst p) (snd p)) (combine a b).

(** The product of two expressions, written out as a dot product for two vectors. *)
Definition times {T : Type} (l r : expr T) : expr T :=
  match l, r with
  | EVec a, EVec b => sum_of (products a b)
  | _, _ => EBin BMult l r
  end.

(** The expression [e] in Cartesian coordinates: grad and div of u and v replaced, products of
    two gradients written out, everything else as it was. *)
Fixpoint cart {T : Type} (d : dim) (e : expr T) : expr T :=
  match e with
  | EConst _ | EVar _ | EFun _ _ | EVec _ => e
  | EUn op a =>
      match op, is_uv a with
      | UGrad, Some t => cart_grad d t
      | UDiv, Some t => cart_div d t
      | _, _ => EUn op (cart d a)
      end
  | EInt lo hi v a => EInt lo hi v (cart d a)
  | EBin BMult l r => times (cart d l) (cart d r)
  | EBin op l r => EBin op (cart d l) (cart d r)
  end.

(** No vectors, no malformed binary node and no numeric function applied to a constant
    (integral bounds excluded). *)
Definition tidy {T : Type} (e : expr T) : Prop :=
  forall s, reachable s e ->
    match s with
    | EVec _ => False
    | EBin BUnaryId _ _ => False
    | EUn op (EConst _) => ~ numeric_uop op
    | _ => True
    end.

Local Open Scope R_scope.

(** Under the interpretation [I], gradient and divergence of u and v are what they are in
    Cartesian coordinates of dimension [d]. *)
Definition cartesian_interp {P : Type} (d : dim) (I : interp P) : Prop :=
  forall t, t = 0%N \/ t = 1%N ->
    let pd := fun i => i_op I (UPd i) (i_fun I 0 t) in
    (forall x, i_op I UGrad (i_fun I 0 t) = Some x ->
       match d with
       | D1 => pd 0%N = Some x
       | D2 => exists f g, pd 0%N = Some (Sc f) /\ pd 1%N = Some (Sc g) /\ x = Ve [f; g]
       | D3 => exists f g h, pd 0%N = Some (Sc f) /\ pd 1%N = Some (Sc g) /\ pd 2%N = Some (Sc h) /\
                 x = Ve [f; g; h]
       end) /\
    (forall x, i_op I UDiv (i_fun I 0 t) = Some x ->
       match d with
       | D1 => pd 0%N = Some x
       | D2 => exists f g, pd 0%N = Some (Sc f) /\ pd 1%N = Some (Sc g) /\
                 x = Sc (fun p => f p + g p)
       | D3 => exists f g h, pd 0%N = Some (Sc f) /\ pd 1%N = Some (Sc g) /\ pd 2%N = Some (Sc h) /\
                 x = Sc (fun p => f p + g p + h p)
       end).
