(** Specification side of written vector arithmetic: numbers and vectors of numbers.  No code is
    modelled. *)
From Coq Require Import ZArith NArith Reals List.
From Verif Require Import Outcome Num RtModel NumR CtModel CtSpec CtOpsModel QuadSpec ApiModel ApiSpec VecModel.
Import ListNotations.

(** A number or a vector. *)
Inductive value : Type := Number (x : R) | Vector (xs : list R).

(** All or nothing. *)
Fixpoint all_some (l : list (option R)) : option (list R) :=
  match l with
  | [] => Some []
  | Some x :: l' => match all_some l' with Some r => Some (x :: r) | None => None end
  | None :: _ => None
  end.

(** The entry replaced, if there is one. *)
Fixpoint replaced (xs : list R) (i : nat) (y : R) : option (list R) :=
  match xs, i with
  | [], _ => None
  | _ :: xs', O => Some (y :: xs')
  | x :: xs', S i' => match replaced xs' i' y with Some r => Some (x :: r) | None => None end
  end.

(** Arithmetic of numbers and vectors: sums and differences of vectors of the same size, the inner
    product of two vectors of the same size that are not empty, and multiplication and division of
    every entry. *)
Definition value_op (op : cop) (a b : value) : option value :=
  match a, b with
  | Number x, Number y => match op_val op x y with Some z => Some (Number z) | None => None end
  | Vector xs, Vector ys =>
      if Nat.eqb (length xs) (length ys)
      then match op, xs with
           | CPlus, _ => Some (Vector (map (fun p => (fst p + snd p)%R) (List.combine xs ys)))
           | CMinus, _ => Some (Vector (map (fun p => (fst p - snd p)%R) (List.combine xs ys)))
           | CMult, _ :: _ => Some (Number (sum_products xs ys))
           | _, _ => None
           end
      else None
  | Vector xs, Number y =>
      match op with
      | CMult | CDiv => match all_some (map (fun x => op_val op x y) xs) with Some r => Some (Vector r) | None => None end
      | _ => None
      end
  | Number x, Vector ys =>
      match op with
      | CMult | CDiv => match all_some (map (fun y => op_val op x y) ys) with Some r => Some (Vector r) | None => None end
      | _ => None
      end
  end.

(** The value of what the user wrote, where variable i has the value [rho i]. *)
Fixpoint vsrc_val (rho : N -> R) (s : vsrc numR) : option value :=
  match s with
  | VScalar s => match src_val rho s with Some x => Some (Number x) | None => None end
  | VNew k => Some (Vector (repeat 0%R k))
  | VSet v i s =>
      match vsrc_val rho v, vsrc_val rho s with
      | Some (Vector xs), Some (Number y) => match replaced xs i y with Some r => Some (Vector r) | None => None end
      | _, _ => None
      end
  | VAt v i =>
      match vsrc_val rho v with
      | Some (Vector xs) => match nth_error xs i with Some x => Some (Number x) | None => None end
      | _ => None
      end
  | VOp op a b =>
      match vsrc_val rho a, vsrc_val rho b with Some x, Some y => value_op op x y | _, _ => None end
  end.

(** Variable i is written somewhere. *)
Fixpoint vsrc_occurs {n : Num.num} (i : N) (s : vsrc n) : Prop :=
  match s with
  | VScalar s => src_occurs i s
  | VNew _ => False
  | VSet v _ s => vsrc_occurs i v \/ vsrc_occurs i s
  | VAt v _ => vsrc_occurs i v
  | VOp _ a b => vsrc_occurs i a \/ vsrc_occurs i b
  end.

(** An rt_constant is written in it, outside entries of vectors. *)
Fixpoint vsrc_rt {n : Num.num} (s : vsrc n) : Prop :=
  match s with
  | VScalar s => src_rt s
  | VNew _ | VSet _ _ _ | VAt _ _ => False
  | VOp _ a b => vsrc_rt a \/ vsrc_rt b
  end.

(** In no quotient an rt_constant is written in both operands (C40), and no object of the type of a
    compile-time variable is assigned to an entry (C58). *)
Fixpoint plain {n : Num.num} (s : vsrc n) : Prop :=
  match s with
  | VScalar s => no_constant_quotient s
  | VNew _ => True
  | VSet v _ s => plain v /\ plain s /\ (forall i, vbuild n s <> Some (Ok (OCt (MVar i))))
  | VAt v _ => plain v
  | VOp op a b => plain a /\ plain b /\ (op = CDiv -> vsrc_rt a -> vsrc_rt b -> False)
  end.

(** The size of the vector written ([Some k]), or not a vector; [None]: an index is beyond the end, or
    vectors of different sizes are added, subtracted or multiplied, or empty ones multiplied. *)
Fixpoint written_size {n : Num.num} (s : vsrc n) : option (option nat) :=
  match s with
  | VScalar _ => Some None
  | VNew k => Some (Some k)
  | VSet v i s =>
      match written_size v, written_size s with
      | Some (Some k), Some _ => if Nat.ltb i k then Some (Some k) else None
      | _, _ => None
      end
  | VAt v i => match written_size v with Some (Some k) => if Nat.ltb i k then Some None else None | _ => None end
  | VOp op a b =>
      match written_size a, written_size b with
      | Some (Some k), Some (Some l) =>
          if Nat.eqb k l
          then match op with CMult => if Nat.eqb k 0 then None else Some None | _ => Some (Some k) end
          else None
      | Some (Some k), Some None | Some None, Some (Some k) =>
          match op with CMult | CDiv => Some (Some k) | _ => Some None end
      | Some None, Some None => Some None
      | None, _ | _, None => None
      end
  end.
