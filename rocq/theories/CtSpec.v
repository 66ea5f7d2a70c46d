(** Specification side of the compile-time expressions: their values over the reals, and a bound on
    their constants. *)
From Coq Require Import ZArith NArith Reals.
From Verif Require Import RtModel CtModel.

(** What the four operations mean; division by zero is undefined. *)
Definition op_val (op : cop) (x y : R) : option R :=
  match op with
  | CPlus => Some (x + y)%R
  | CMinus => Some (x - y)%R
  | CMult => Some (x * y)%R
  | CDiv => if Req_EM_T y 0 then None else Some (x / y)%R
  end.

(** The value of a compile-time expression where variable i has the value [rho i], the function
    symbol with tag t the value [phi t], and the unary operations are the (partial) functions
    [un]. *)
Fixpoint cval (rho phi : N -> R) (un : uop -> R -> option R) (e : cexpr) : option R :=
  match e with
  | CConst c => Some (IZR c)
  | CVar i => Some (rho i)
  | CFun t => Some (phi t)
  | CUn op a => match cval rho phi un a with Some x => un op x | None => None end
  | CBin op a b =>
      match cval rho phi un a, cval rho phi un b with
      | Some x, Some y => op_val op x y
      | _, _ => None
      end
  end.

(** Product of 2 * max(|c|, 1) over all constants c of an expression. *)
Fixpoint const_bound (e : cexpr) : Z :=
  match e with
  | CConst c => 2 * Z.max (Z.abs c) 1
  | CVar _ | CFun _ => 1
  | CUn _ a => const_bound a
  | CBin _ a b => const_bound a * const_bound b
  end.
