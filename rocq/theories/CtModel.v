(** Model of the compile-time expressions of /repo/viennamath/compiletime and of their
    simplification, /repo/viennamath/manipulation/simplify.hpp lines 30-890. *)
From Coq Require Import ZArith NArith List Bool.
From Verif Require Import Outcome Num RtModel.
Import ListNotations.
Local Open Scope Z_scope.

(** Operation tags of ct_binary_expr, /repo/viennamath/compiletime/binary_op_tags.hpp lines
    36-101.  Simplified: only the default numeric type, so two tags of the same kind are the same
    type. *)
Inductive cop : Type := CPlus | CMinus | CMult | CDiv.

(** Compile-time expression types: ct_constant (/repo/viennamath/compiletime/ct_constant.hpp lines
    34-56), ct_variable (ct_variable.hpp 159-203), ct_function_symbol (ct_function_symbol.hpp
    72-84; the tag is 0 for unknown_tag, 1 for test_tag), ct_unary_expr (ct_unary_expr.hpp 34-69),
    ct_binary_expr (ct_binary_expr.hpp 39-82). *)
Inductive cexpr : Type :=
| CConst (c : Z)
| CVar (id : N)
| CFun (tag : N)
| CUn (op : uop) (a : cexpr)
| CBin (op : cop) (l r : cexpr).

(** Metafunctions return [option]: [None] means that the code does not compile. Nested instantiations, e.g.
    /repo/viennamath/manipulation/simplify.hpp lines 51-60. *)
Definition cbind {A B : Type} (o : option A) (f : A -> option B) : option B :=
  match o with
  | Some a => f a
  | None => None
  end.

(** Values of type long.  Assumption: 64 bits; overflow in a constant expression is a compile
    error. Template arguments, e.g. /repo/viennamath/compiletime/ct_constant.hpp lines 34-35. *)
Definition long (z : Z) : option Z :=
  if (-9223372036854775808 <=? z) && (z <=? 9223372036854775807) then Some z else None.

(** Values of type int.  Assumption: 32 bits. Static const members, e.g.
    /repo/viennamath/manipulation/simplify.hpp lines 367-373. *)
Definition int (z : Z) : option Z :=
  if (-2147483648 <=? z) && (z <=? 2147483647) then Some z else None.

(** Initialisation of a static const int by a long: conversion modulo 2^32 (as done by the usual
    compilers).  The metafunctions below take the conversion as parameter, so that they can also
    be run with [int], which rejects values that do not fit. E.g. /repo/viennamath/forwards.h lines 656-660,
    manipulation/simplify.hpp lines 367-373. *)
Definition wrap32 (z : Z) : option Z :=
  Some ((z + 2147483648) mod 4294967296 - 2147483648).

(** result_of::gcd, /repo/viennamath/forwards.h lines 656-675; [fuel] bounds the instantiation
    depth (it suffices: theorem C38).  a % b of the smallest long and -1 overflows. *)
Fixpoint gcd_rec (narrow : Z -> option Z) (fuel : nat) (a b : Z) : option Z :=
  match fuel with
  | O => None
  | S f =>
      if b =? 0 then if a =? 0 then None else narrow a
      else cbind (long (Z.quot a b)) (fun _ => cbind (gcd_rec narrow f b (Z.rem a b)) narrow)
  end.
(** result_of::gcd with enough fuel, /repo/viennamath/forwards.h lines 656-675. *)
Definition gcd (narrow : Z -> option Z) (a b : Z) : option Z :=
  gcd_rec narrow (S (S (2 * Z.to_nat (Z.log2 (Z.abs b))))) a b.

(** Division in constant expressions: by zero or with overflow it does not compile. E.g. numerator /
    gcd<...>::value of static const ints, /repo/viennamath/manipulation/simplify.hpp lines 367-373. *)
Definition int_div (a b : Z) : option Z := if b =? 0 then None else int (Z.quot a b).
(** The same for long template arguments, /repo/viennamath/manipulation/simplify.hpp lines 726-737. *)
Definition long_div (a b : Z) : option Z := if b =? 0 then None else long (Z.quot a b).
(** Sum of two long template arguments, e.g. /repo/viennamath/manipulation/simplify.hpp lines 607-615. *)
Definition add (a b : Z) : option Z := long (a + b).
(** Difference, e.g. /repo/viennamath/manipulation/simplify.hpp lines 637-645. *)
Definition sub (a b : Z) : option Z := long (a - b).
(** Product, e.g. /repo/viennamath/manipulation/simplify.hpp lines 671-679. *)
Definition mul (a b : Z) : option Z := long (a * b).

(** The rational results, e.g. /repo/viennamath/manipulation/simplify.hpp lines 367-373: numerator
    and denominator are converted to int and divided by their gcd. *)
Definition rational (narrow : Z -> option Z) (num den : option Z) : option (bool * cexpr) :=
  cbind num (fun n => cbind den (fun d =>
  cbind (narrow n) (fun n' => cbind (narrow d) (fun d' =>
  cbind (gcd narrow n' d') (fun g =>
  cbind (int_div n' g) (fun p => cbind (int_div d' g) (fun q =>
    Some (true, CBin CDiv (CConst p) (CConst q))))))))).

(** Argument patterns of partial specialisations: a type parameter, ct_constant<value> with a
    value parameter, a fixed ct_constant, a ct_binary_expr with a fixed operation.  (No parameter
    occurs twice in the patterns of simplify_impl.) /repo/viennamath/manipulation/simplify.hpp lines 66-778. *)
Inductive pat : Type := PAny | PNum | PLit (c : Z) | PBin (op : cop) (l r : pat).

(** Equality of operation tags (same type). /repo/viennamath/compiletime/binary_op_tags.hpp lines 36-101. *)
Definition cop_eqb (a b : cop) : bool :=
  match a, b with
  | CPlus, CPlus | CMinus, CMinus | CMult, CMult | CDiv, CDiv => true
  | _, _ => false
  end.

(** Template argument deduction for such a pattern. /repo/viennamath/manipulation/simplify.hpp lines 66-778
    (C++ rules, no code of its own). *)
Fixpoint matches (p : pat) (e : cexpr) : bool :=
  match p, e with
  | PAny, _ => true
  | PNum, CConst _ => true
  | PLit c, CConst d => c =? d
  | PBin op a b, CBin op' l r => cop_eqb op op' && matches a l && matches b r
  | _, _ => false
  end.

(** Partial ordering of patterns: the first is at least as specialised as the second.
    /repo/viennamath/manipulation/simplify.hpp lines 66-778 (C++ rules, no code of its own). *)
Fixpoint more_special (p q : pat) : bool :=
  match p, q with
  | _, PAny => true
  | PNum, PNum => true
  | PLit _, PNum => true
  | PLit c, PLit d => c =? d
  | PBin op a b, PBin op' a' b' => cop_eqb op op' && more_special a a' && more_special b b'
  | _, _ => false
  end.

(** A partial specialisation of simplify_impl for ct_binary_expr: operation, patterns of the
    operands, and its members [value] (as value != 0) and [type].
    /repo/viennamath/manipulation/simplify.hpp lines 66-778. *)
Record rule : Type := mk_rule {
  r_op : cop;
  r_l : pat;
  r_r : pat;
  r_act : (Z -> option Z) -> cexpr -> cexpr -> option (bool * cexpr)
}.

(** The pattern ct_binary_expr<ct_constant<a>, op_div, ct_constant<b> >, e.g.
    /repo/viennamath/manipulation/simplify.hpp lines 355-374. *)
Definition frac : pat := PBin CDiv PNum PNum.
(** The pattern ct_binary_expr<ct_constant<0>, op_minus, T>, e.g. /repo/viennamath/manipulation/simplify.hpp
    lines 103-115. *)
Definition neg : pat := PBin CMinus (PLit 0) PAny.
(** The pattern ct_binary_expr<ct_constant<1>, op_div, T>, e.g. /repo/viennamath/manipulation/simplify.hpp
    lines 310-320. *)
Definition inv : pat := PBin CDiv (PLit 1) PAny.

(** Operands of a matched binary operand (arguments deduced by the patterns). E.g.
    /repo/viennamath/manipulation/simplify.hpp lines 103-115. *)
Definition rhs (e : cexpr) : cexpr := match e with CBin _ _ r => r | _ => e end.
(** numerator_i (or value_i) deduced by such a pattern, e.g. /repo/viennamath/manipulation/simplify.hpp
    lines 355-374. *)
Definition num (e : cexpr) : Z := match e with CBin _ (CConst a) _ => a | CConst a => a | _ => 0 end.
(** denominator_i deduced by such a pattern, e.g. /repo/viennamath/manipulation/simplify.hpp lines 355-374. *)
Definition den (e : cexpr) : Z := match e with CBin _ _ (CConst b) => b | _ => 1 end.

(** The partial specialisations of simplify_impl in
    /repo/viennamath/manipulation/simplify.hpp, in the order of the file; lines at each entry.
    [num] and [den] stand for numerator_i (or value_i) and denominator_i. Lines 66-778. *)
Definition rules : list rule := [
  (* 66-71 *)    mk_rule CPlus PAny (PLit 0) (fun nw l r => Some (true, l));
  (* 74-79 *)    mk_rule CPlus (PLit 0) PAny (fun nw l r => Some (true, r));
  (* 82-87 *)    mk_rule CPlus (PLit 0) (PLit 0) (fun nw l r => Some (true, CConst 0));
  (* 95-100 *)   mk_rule CMinus PAny (PLit 0) (fun nw l r => Some (true, l));
  (* 103-115 *)  mk_rule CPlus PAny neg (fun nw l r => Some (true, CBin CMinus l (rhs r)));
  (* 117-129 *)  mk_rule CMinus PAny neg (fun nw l r => Some (true, CBin CPlus l (rhs r)));
  (* 131-143 *)  mk_rule CPlus neg PAny (fun nw l r => Some (true, CBin CMinus r (rhs l)));
  (* 145-160 *)  mk_rule CMinus neg PAny (fun nw l r =>
                   Some (true, CBin CMult (CConst (-1)) (CBin CPlus (rhs l) r)));
  (* 163-180 *)  mk_rule CPlus neg neg (fun nw l r =>
                   Some (true, CBin CMult (CConst (-1)) (CBin CPlus (rhs l) (rhs r))));
  (* 183-197 *)  mk_rule CMinus neg neg (fun nw l r => Some (true, CBin CMinus (rhs r) (rhs l)));
  (* 204-209 *)  mk_rule CMult PAny (PLit 0) (fun nw l r => Some (true, CConst 0));
  (* 212-217 *)  mk_rule CMult (PLit 0) PAny (fun nw l r => Some (true, CConst 0));
  (* 220-225 *)  mk_rule CMult (PLit 0) (PLit 0) (fun nw l r => Some (true, CConst 0));
  (* 231-236 *)  mk_rule CMult PAny (PLit 1) (fun nw l r => Some (true, l));
  (* 239-244 *)  mk_rule CMult (PLit 1) PAny (fun nw l r => Some (true, r));
  (* 247-252 *)  mk_rule CMult (PLit 1) (PLit 1) (fun nw l r => Some (true, CConst 1));
  (* 255-260 *)  mk_rule CMult (PLit 1) (PLit 0) (fun nw l r => Some (true, CConst 0));
  (* 262-267 *)  mk_rule CMult (PLit 0) (PLit 1) (fun nw l r => Some (true, CConst 0));
  (* 273-278 *)  mk_rule CDiv (PLit 0) PAny (fun nw l r => Some (true, CConst 0));
  (* 281-286 *)  mk_rule CDiv PAny (PLit 0) (fun nw l r => None);
  (* 290-295 *)  mk_rule CDiv (PLit 0) (PLit 0) (fun nw l r => None);
  (* 301-306 *)  mk_rule CDiv PAny (PLit 1) (fun nw l r => Some (true, l));
  (* 310-320 *)  mk_rule CMult PAny inv (fun nw l r => Some (true, CBin CDiv l (rhs r)));
  (* 322-332 *)  mk_rule CMult inv PAny (fun nw l r => Some (true, CBin CDiv r (rhs l)));
  (* 335-346 *)  mk_rule CMult inv inv (fun nw l r =>
                   Some (true, CBin CDiv (CConst 1) (CBin CMult (rhs l) (rhs r))));
  (* 355-374 *)  mk_rule CPlus frac frac (fun nw l r =>
                   rational nw (cbind (mul (num l) (den r)) (fun x =>
                                cbind (mul (num r) (den l)) (fun y => add x y)))
                               (mul (den l) (den r)));
  (* 376-393 *)  mk_rule CPlus PNum frac (fun nw l r =>
                   rational nw (cbind (mul (num l) (den r)) (fun x => add x (num r))) (Some (den r)));
  (* 395-412 *)  mk_rule CPlus frac PNum (fun nw l r =>
                   rational nw (cbind (mul (num r) (den l)) (fun x => add (num l) x)) (Some (den l)));
  (* 417-435 *)  mk_rule CMinus frac frac (fun nw l r =>
                   rational nw (cbind (mul (num l) (den r)) (fun x =>
                                cbind (mul (num r) (den l)) (fun y => sub x y)))
                               (mul (den l) (den r)));
  (* 437-453 *)  mk_rule CMinus PNum frac (fun nw l r =>
                   rational nw (cbind (mul (num l) (den r)) (fun x => sub x (num r))) (Some (den r)));
  (* 455-471 *)  mk_rule CMinus frac PNum (fun nw l r =>
                   rational nw (cbind (mul (num r) (den l)) (fun x => sub (num l) x)) (Some (den l)));
  (* 474-489 *)  mk_rule CMinus frac (PLit 0) (fun nw l r => rational nw (Some (num l)) (Some (den l)));
  (* 493-511 *)  mk_rule CMult frac frac (fun nw l r =>
                   rational nw (mul (num l) (num r)) (mul (den l) (den r)));
  (* 513-529 *)  mk_rule CMult PNum frac (fun nw l r => rational nw (mul (num l) (num r)) (Some (den r)));
  (* 531-547 *)  mk_rule CMult frac PNum (fun nw l r => rational nw (mul (num l) (num r)) (Some (den l)));
  (* 550-568 *)  mk_rule CDiv frac frac (fun nw l r =>
                   rational nw (mul (num l) (den r)) (mul (den l) (num r)));
  (* 570-586 *)  mk_rule CDiv PNum frac (fun nw l r => rational nw (mul (num l) (den r)) (Some (num r)));
  (* 588-604 *)  mk_rule CDiv frac PNum (fun nw l r => rational nw (Some (num l)) (mul (den l) (num r)));
  (* 607-615 *)  mk_rule CPlus PNum PNum (fun nw l r =>
                   cbind (add (num l) (num r)) (fun c => Some (true, CConst c)));
  (* 617-625 *)  mk_rule CPlus PNum (PLit 0) (fun nw l r => Some (true, CConst (num l)));
  (* 627-635 *)  mk_rule CPlus (PLit 0) PNum (fun nw l r => Some (true, CConst (num r)));
  (* 637-645 *)  mk_rule CMinus PNum PNum (fun nw l r =>
                   cbind (sub (num l) (num r)) (fun c => Some (true, CConst c)));
  (* 648-656 *)  mk_rule CMinus (PLit 1) (PLit 0) (fun nw l r => Some (true, CConst 1));
  (* 658-666 *)  mk_rule CMinus (PLit (-1)) (PLit 0) (fun nw l r => Some (true, CConst (-1)));
  (* 671-679 *)  mk_rule CMult PNum PNum (fun nw l r =>
                   cbind (mul (num l) (num r)) (fun c => Some (true, CConst c)));
  (* 682-690 *)  mk_rule CMult (PLit 1) PNum (fun nw l r => Some (true, CConst (num r)));
  (* 692-700 *)  mk_rule CMult PNum (PLit 1) (fun nw l r => Some (true, CConst (num l)));
  (* 702-710 *)  mk_rule CMult PNum (PLit 0) (fun nw l r => Some (true, CConst 0));
  (* 712-720 *)  mk_rule CMult (PLit 0) PNum (fun nw l r => Some (true, CConst 0));
  (* 726-737 *)  mk_rule CDiv PNum PNum (fun nw l r =>
                   cbind (gcd nw (num l) (num r)) (fun g =>
                   cbind (long_div (num l) g) (fun p => cbind (long_div (num r) g) (fun q =>
                     Some (false, CBin CDiv (CConst p) (CConst q))))));
  (* 739-747 *)  mk_rule CDiv (PLit 0) PNum (fun nw l r => Some (true, CConst 0));
  (* 749-757 *)  mk_rule CDiv (PLit 0) (PLit 1) (fun nw l r => Some (true, CConst 0));
  (* 759-767 *)  mk_rule CDiv PNum (PLit 1) (fun nw l r => Some (true, CConst (num l)));
  (* 770-778 *)  mk_rule CDiv PNum (PLit (-1)) (fun nw l r =>
                   cbind (sub 0 (num l)) (fun c => Some (true, CConst c)))
].

(** Choice of the partial specialisation for ct_binary_expr<l, op, r>: the matching one that is at
    least as specialised as all matching ones. /repo/viennamath/manipulation/simplify.hpp lines 66-778 (C++
    rules, no code of its own). *)
Inductive choice : Type := Generic | Chosen (r : rule) | Ambiguous.
(** The specialisation (/repo/viennamath/manipulation/simplify.hpp lines 66-778) matches ct_binary_expr<l,
    op, r>. *)
Definition applicable (op : cop) (l r : cexpr) (x : rule) : bool :=
  cop_eqb (r_op x) op && matches (r_l x) l && matches (r_r x) r.
(** One specialisation (/repo/viennamath/manipulation/simplify.hpp lines 66-778) is at least as specialised
    as another for the same operation. *)
Definition special (x y : rule) : bool :=
  more_special (r_l x) (r_l y) && more_special (r_r x) (r_r y).
(** The choice among the specialisations of /repo/viennamath/manipulation/simplify.hpp lines 66-778. *)
Definition choose (op : cop) (l r : cexpr) : choice :=
  match filter (applicable op l r) rules with
  | [] => Generic
  | ms =>
      match find (fun x => forallb (special x) ms) ms with
      | Some x => Chosen x
      | None => Ambiguous
      end
  end.

(** simplify_impl, /repo/viennamath/manipulation/simplify.hpp lines 42-60 (primary template and
    general ct_binary_expr) with the partial specialisations above: value != 0 and type. *)
Fixpoint simplify_impl (narrow : Z -> option Z) (e : cexpr) : option (bool * cexpr) :=
  match e with
  | CBin op l r =>
      match choose op l r with
      | Chosen x => r_act x narrow l r
      | Ambiguous => None
      | Generic =>
          cbind (simplify_impl narrow l) (fun '(vl, l') =>
          cbind (simplify_impl narrow r) (fun '(vr, r') => Some (vl || vr, CBin op l' r')))
      end
  | _ => Some (false, e)
  end.

(** Fuel for the loop below; not part of the code. Bounds the number of instantiations of
    /repo/viennamath/manipulation/simplify.hpp lines 795-879. *)
Fixpoint csize (e : cexpr) : nat :=
  match e with
  | CConst _ | CVar _ | CFun _ => 1
  | CUn _ a => S (csize a)
  | CBin op l r => match op with CMinus => 2 | _ => 1 end + csize l + csize r
  end.

(** result_of::simplify, /repo/viennamath/manipulation/simplify.hpp lines 795-879: instantiates
    itself with the simplified type while value != 0.  Fuelled: the outer [None] means that the
    fuel did not suffice (excluded by theorem C36). *)
Fixpoint simplify_loop (narrow : Z -> option Z) (fuel : nat) (e : cexpr) : option (option cexpr) :=
  match fuel with
  | O => None
  | S f =>
      match simplify_impl narrow e with
      | None => Some None
      | Some (true, e') => simplify_loop narrow f e'
      | Some (false, _) => Some (Some e)
      end
  end.
(** result_of::simplify with enough fuel, /repo/viennamath/manipulation/simplify.hpp lines 795-879. *)
Definition ct_simplify (narrow : Z -> option Z) (e : cexpr) : option cexpr :=
  match simplify_loop narrow (S (csize e)) e with
  | Some o => o
  | None => None
  end.
