(** Specification vocabulary for C80: the size of compile-time types. *)
From Coq Require Import ZArith NArith List.
From Verif Require Import CtModel CtManipModel.

(** Number of template-ids a type is nested from. *)
Fixpoint cnodes (e : cexpr) : nat :=
  match e with
  | CConst _ | CVar _ | CFun _ => 1
  | CUn _ a => S (cnodes a)
  | CBin _ l r => S (cnodes l + cnodes r)
  end.

(** How deep they are nested. *)
Fixpoint cheight (e : cexpr) : nat :=
  match e with
  | CConst _ | CVar _ | CFun _ => 1
  | CUn _ a => S (cheight a)
  | CBin _ l r => S (Nat.max (cheight l) (cheight r))
  end.

(** Number of terms of a sum (of the numerator of a quotient). *)
Fixpoint summands (e : cexpr) : nat :=
  match e with
  | CBin CPlus l r | CBin CMinus l r => summands l + summands r
  | CBin CDiv l _ => summands l
  | _ => 1
  end.

(** Number of terms after multiplying out on paper: that of a product is the product. *)
Fixpoint terms (e : cexpr) : nat :=
  match e with
  | CBin CPlus l r | CBin CMinus l r => terms l + terms r
  | CBin CMult l r => terms l * terms r
  | CBin CDiv l _ => terms l
  | _ => 1
  end.

(** Products instead of sums at the products. *)
Fixpoint multiplied_out (e : cexpr) : nat :=
  match e with
  | CBin CMult l r => multiplied_out l * multiplied_out r
  | CBin _ l r => multiplied_out l + multiplied_out r + 1
  | _ => cnodes e + 1
  end.

(** How often variable [i] occurs. *)
Fixpoint c_occurrences (i : N) (e : cexpr) : nat :=
  match e with
  | CConst _ | CFun _ => 0
  | CVar j => if N.eqb j i then 1 else 0
  | CUn _ a => c_occurrences i a
  | CBin _ l r => c_occurrences i l + c_occurrences i r
  end.

(** ((x + 1) * (x + 1)) * ... with k + 1 factors. *)
Fixpoint power_of_sum (k : nat) : cexpr :=
  match k with
  | O => CBin CPlus (CVar 0) (CConst 1)
  | S k' => CBin CMult (power_of_sum k') (CBin CPlus (CVar 0) (CConst 1))
  end.
