(** Model of the compile-time manipulations: differentiation, substitution, expansion,
    coefficients, dropping terms, integration and evaluation; /repo/viennamath/manipulation.
    As in CtModel.v, [None] means that the code does not compile. *)
From Coq Require Import ZArith NArith List Bool.
From Verif Require Import Outcome Num RtModel CtModel CtOpsModel.
Import ListNotations.
Local Open Scope Z_scope.

(** Equality of types (declarations as cited at [cexpr]). /repo/viennamath/compiletime/ct_constant.hpp lines
    34-56, ct_variable.hpp 159-203, ct_function_symbol.hpp 72-84, ct_unary_expr.hpp 34-69,
    ct_binary_expr.hpp 39-82. *)
Fixpoint cexpr_eqb (a b : cexpr) : bool :=
  match a, b with
  | CConst c, CConst d => c =? d
  | CVar i, CVar j => N.eqb i j
  | CFun s, CFun t => N.eqb s t
  | CUn o x, CUn p y => uop_eqb o p && cexpr_eqb x y
  | CBin o x1 x2, CBin p y1 y2 => cop_eqb o p && cexpr_eqb x1 y1 && cexpr_eqb x2 y2
  | _, _ => false
  end.

(** result_of::diff<E, ct_variable<id> >, /repo/viennamath/manipulation/diff.hpp lines 236-321. *)
Fixpoint ct_diff (i : N) (e : cexpr) : option cexpr :=
  match e with
  | CConst _ => Some (CConst 0)
  | CVar j => Some (CConst (if N.eqb j i then 1 else 0))
  | CFun _ | CUn _ _ => None
  | CBin op l r =>
      cbind (ct_diff i l) (fun l' => cbind (ct_diff i r) (fun r' => Some
        match op with
        | CPlus => CBin CPlus l' r'
        | CMinus => CBin CMinus l' r'
        | CMult => CBin CPlus (CBin CMult l' r) (CBin CMult l r')
        | CDiv => CBin CDiv (CBin CMinus (CBin CMult l' r) (CBin CMult l r')) (CBin CMult r r)
        end))
  end.

(** result_of::substitute<SearchType, ReplacementType, E>,
    /repo/viennamath/manipulation/substitute.hpp lines 47-135: the specialisations for equal
    search and expression type (98-135) are more specialised than the recursive ones. *)
Fixpoint ct_subst (s r e : cexpr) : cexpr :=
  if cexpr_eqb s e then r
  else match e with
       | CConst _ | CVar _ | CFun _ => e
       | CUn op a => CUn op (ct_subst s r a)
       | CBin op a b => CBin op (ct_subst s r a) (ct_subst s r b)
       end.

(** detail::has_plus_or_minus, /repo/viennamath/manipulation/expand.hpp lines 50-78, as value != 0. *)
Fixpoint has_sum (e : cexpr) : bool :=
  match e with
  | CBin CPlus _ _ | CBin CMinus _ _ => true
  | CBin CMult l r => has_sum l || has_sum r
  | CBin CDiv l _ => has_sum l
  | _ => false
  end.

(** result_of::expand, /repo/viennamath/manipulation/expand.hpp lines 182-241 with
    detail::expand_product 142-176, and detail::expand_with_factor, lines 82-138.  Fuelled by the
    depth of instantiations ([None]: the fuel did not suffice; excluded by theorem C42). *)
Fixpoint expand_f (fuel : nat) (e : cexpr) : option cexpr :=
  match fuel with
  | O => None
  | S f =>
      match e with
      | CBin CMult l r =>
          match has_sum l, has_sum r with
          | false, false => Some (CBin CMult l r)
          | true, false => with_factor_f f l r
          | false, true => with_factor_f f r l
          | true, true => cbind (with_factor_f f l r) (expand_f f)
          end
      | CBin op l r =>
          cbind (expand_f f l) (fun l' => cbind (expand_f f r) (fun r' => Some (CBin op l' r')))
      | _ => Some e
      end
  end
with with_factor_f (fuel : nat) (e factor : cexpr) : option cexpr :=
  match fuel with
  | O => None
  | S f =>
      if has_sum e then
        match e with
        | CBin CMult l r => cbind (expand_f f e) (fun e' => with_factor_f f e' factor)
        | CBin CDiv l r => cbind (with_factor_f f l factor) (fun l' => Some (CBin CDiv l' r))
        | CBin op l r =>
            cbind (with_factor_f f l factor) (fun l' =>
            cbind (with_factor_f f r factor) (fun r' => Some (CBin op l' r')))
        | _ => None
        end
      else Some (CBin CMult e factor)
  end.

(** Fuel for the above; not part of the code. Bounds the instantiation depth of
    /repo/viennamath/manipulation/expand.hpp lines 182-241. *)
Fixpoint expand_measure (e : cexpr) : nat :=
  match e with
  | CBin CMult l r => expand_measure l * expand_measure r
  | CBin _ l r => expand_measure l + expand_measure r + 1
  | _ => 2
  end.

(** result_of::expand (cited above). /repo/viennamath/manipulation/expand.hpp lines 182-241. *)
Definition ct_expand (e : cexpr) : option cexpr := expand_f (2 * expand_measure e + 1) e.

(** A binary expression (used for ambiguous specialisations): the specialisations <T, T> and
    <T, ct_binary_expr<...> > of a metafunction are not ordered.
    /repo/viennamath/manipulation/coefficient.hpp lines 44-85 and 90-206, integrate.hpp lines 39-82. *)
Definition is_bin (e : cexpr) : bool := match e with CBin _ _ _ => true | _ => false end.

(** detail::has_factor, /repo/viennamath/manipulation/coefficient.hpp lines 44-85 (the number of
    factors). *)
Fixpoint has_factor (x e : cexpr) : option Z :=
  if cexpr_eqb x e then if is_bin e then None else Some 1
  else match e with
       | CBin CPlus _ _ | CBin CMinus _ _ => None
       | CBin CMult l r =>
           cbind (has_factor x l) (fun a => cbind (has_factor x r) (fun b => Some (a + b)))
       | CBin CDiv l _ => has_factor x l
       | _ => Some 0
       end.

(** detail::coefficient_impl with detail::extract_factor_from_product,
    /repo/viennamath/manipulation/coefficient.hpp lines 90-206. *)
Fixpoint coefficient_impl (x e : cexpr) : option cexpr :=
  if cexpr_eqb x e then if is_bin e then None else Some (CConst 1)
  else match e with
       | CBin CMult l r =>
           match cexpr_eqb x l, cexpr_eqb x r with
           | true, true => Some x
           | true, false => Some r
           | false, true => Some l
           | false, false =>
               cbind (has_factor x l) (fun a => cbind (has_factor x r) (fun b =>
                 if negb (a =? 0) then
                   cbind (coefficient_impl x l) (fun c => Some (CBin CMult c r))
                 else if negb (b =? 0) then
                   cbind (coefficient_impl x r) (fun c => Some (CBin CMult l c))
                 else Some (CConst 0)))
           end
       | CBin CDiv l r => cbind (coefficient_impl x l) (fun c => Some (CBin CDiv c r))
       | CBin op l r =>
           cbind (coefficient_impl x l) (fun c =>
           cbind (coefficient_impl x r) (fun d => Some (CBin op c d)))
       | _ => Some (CConst 0)
       end.

(** result_of::coefficient, /repo/viennamath/manipulation/coefficient.hpp lines 217-224. *)
Definition coefficient (x e : cexpr) : option cexpr := cbind (ct_expand e) (coefficient_impl x).

(** result_of::drop_dependent_terms, /repo/viennamath/manipulation/drop_dependent_terms.hpp lines
    44-53. *)
Definition drop_dependent_terms (narrow : Z -> option Z) (x e : cexpr) : option cexpr :=
  cbind (ct_expand e) (fun e' => ct_simplify narrow (ct_subst x (CConst 0) e')).

(** result_of::polynomial_degree, /repo/viennamath/manipulation/integrate.hpp lines 39-82. *)
Fixpoint polynomial_degree (x e : cexpr) : option Z :=
  if cexpr_eqb x e then if is_bin e then None else Some 1
  else match e with
       | CBin CPlus _ _ | CBin CMinus _ _ => None
       | CBin CMult l r =>
           cbind (polynomial_degree x l) (fun a =>
           cbind (polynomial_degree x r) (fun b => Some (a + b)))
       | CBin CDiv l r =>
           cbind (polynomial_degree x l) (fun a =>
           cbind (polynomial_degree x r) (fun b => Some (a - b)))
       | _ => Some 0
       end.

(** result_of::pow, /repo/viennamath/manipulation/integrate.hpp lines 87-115; / truncates.
    Fuelled by the instantiation depth ([None]: did not suffice; see theorem C47). *)
Fixpoint pow_f (fuel : nat) (t : cexpr) (k : Z) : option cexpr :=
  match fuel with
  | O => None
  | S f =>
      if k =? 0 then Some (CConst 1)
      else if k =? 1 then Some t
      else if k =? 2 then Some (CBin CMult t t)
      else cbind (pow_f f t (Z.quot k 2)) (fun a =>
           cbind (pow_f f t (k - Z.quot k 2)) (fun b => Some (CBin CMult a b)))
  end.
(** result_of::pow with enough fuel, /repo/viennamath/manipulation/integrate.hpp lines 87-115. *)
Definition ct_pow (t : cexpr) (k : Z) : option cexpr := pow_f (S (Z.to_nat k)) t k.

(** result_of::integrate_monomial, /repo/viennamath/manipulation/integrate.hpp lines 121-136. *)
Definition integrate_monomial (t : cexpr) (k : Z) : option cexpr :=
  if k =? 0 then Some t
  else cbind (ct_pow t (k + 1)) (fun p => Some (CBin CDiv p (CConst (k + 1)))).

(** detail::integrate_impl, /repo/viennamath/manipulation/integrate.hpp lines 158-326. *)
Fixpoint integrate_impl (narrow : Z -> option Z) (lo up x e : cexpr) : option cexpr :=
  match e with
  | CConst c => ct_simplify narrow (CBin CMult e (CBin CMinus up lo))
  | CVar _ =>
      ct_simplify narrow (CBin CMinus (CBin CDiv (CBin CMult up up) (CConst 2))
                                      (CBin CDiv (CBin CMult lo lo) (CConst 2)))
  | CFun _ | CUn _ _ => None
  | CBin CMult l r =>
      cbind (ct_simplify narrow (ct_subst x (CConst 1) e)) (fun c =>
      cbind (polynomial_degree x e) (fun k =>
      cbind (integrate_monomial up k) (fun a =>
      cbind (integrate_monomial lo k) (fun b =>
      cbind (ct_simplify narrow (CBin CMult a c)) (fun p =>
      cbind (ct_simplify narrow (CBin CMult b c)) (fun q =>
        ct_simplify narrow (CBin CMinus p q)))))))
  | CBin CDiv l r =>
      cbind (integrate_impl narrow lo up x l) (fun a => ct_simplify narrow (CBin CDiv a r))
  | CBin op l r =>
      cbind (integrate_impl narrow lo up x l) (fun a =>
      cbind (integrate_impl narrow lo up x r) (fun b => ct_simplify narrow (CBin op a b)))
  end.

(** result_of::integrate, /repo/viennamath/manipulation/integrate.hpp lines 334-399. *)
Definition ct_integrate (narrow : Z -> option Z) (lo up x e : cexpr) : option cexpr :=
  match e with
  | CBin _ _ _ =>
      cbind (ct_expand e) (fun e' =>
      cbind (ct_simplify narrow e') (fun s => integrate_impl narrow lo up x s))
  | CConst _ | CVar _ => integrate_impl narrow lo up x e
  | CFun _ | CUn _ _ => None
  end.

(** type_by_index, /repo/viennamath/compiletime/ct_variable.hpp lines 33-55, for the vectors of
    /repo/viennamath/compiletime/ct_vector.hpp lines 35-150 (one to three entries; here a list). *)
Definition type_by_index (v : list cexpr) (i : N) : option cexpr :=
  if N.ltb i 3 then nth_error v (N.to_nat i) else None.

(** result_of::eval, /repo/viennamath/manipulation/eval.hpp lines 35-60 and 100-133. *)
Fixpoint ct_eval (narrow : Z -> option Z) (e : cexpr) (v : list cexpr) : option cexpr :=
  match e with
  | CConst _ => Some e
  | CVar i => type_by_index v i
  | CFun _ | CUn _ _ => None
  | CBin op l r =>
      cbind (ct_eval narrow l v) (fun a => cbind (ct_eval narrow r v) (fun b =>
        ct_simplify narrow (CBin op a b)))
  end.

(** Function eval() of a compile-time expression at a compile-time vector,
    /repo/viennamath/manipulation/eval.hpp lines 150-156: default constructs the above type and
    calls operator()(), which exists for ct_constant (ct_constant.hpp line 41) and ct_binary_expr
    (ct_binary_expr.hpp lines 59-62); the latter converts its operands to numbers, which compiles
    for constants only. *)
Definition eval_at (n : Num.num) (narrow : Z -> option Z) (e : cexpr) (v : list cexpr) :
    option (outcome n) :=
  cbind (ct_eval narrow e v) (fun t =>
    match t with
    | CConst c => Some (Ok (n_of_Z n c))
    | CBin op (CConst a) (CConst b) => Some (b_apply n (rt_op op) (n_of_Z n a) (n_of_Z n b))
    | _ => None
    end).
