(** Specification vocabulary for C79: nesting of gradients, and two families of expressions. *)
From Coq Require Import NArith List.
From Verif Require Import RtModel.
Import ListNotations.

(** The largest number of gradients around one another in [e]. *)
Fixpoint nested_gradients {T : Type} (e : expr T) : nat :=
  match e with
  | EConst _ | EVar _ | EFun _ _ => 0
  | EUn UGrad a => S (nested_gradients a)
  | EUn _ a | EInt _ _ _ a => nested_gradients a
  | EBin _ l r => Nat.max (nested_gradients l) (nested_gradients r)
  | EVec es => list_max (map nested_gradients es)
  end.

(** grad(grad(...grad(u)...)) with k gradients. *)
Fixpoint gradients_of {T : Type} (k : nat) (i t : N) : expr T :=
  match k with
  | O => EFun i t
  | S k' => EUn UGrad (gradients_of k' i t)
  end.

(** x + x + ... + x with k plus signs, as C++ reads it: ((x + x) + x) + ... *)
Fixpoint sum_of_x {T : Type} (k : nat) : expr T :=
  match k with
  | O => EVar 0
  | S k' => EBin BPlus (sum_of_x k') (EVar 0)
  end.

(** Number of nodes, the bounds of integrals not counted. *)
Fixpoint inner_nodes {T : Type} (e : expr T) : nat :=
  match e with
  | EConst _ | EVar _ | EFun _ _ => 1
  | EUn _ a | EInt _ _ _ a => S (inner_nodes a)
  | EBin _ l r => S (inner_nodes l + inner_nodes r)
  | EVec es => S (list_sum (map inner_nodes es))
  end.
