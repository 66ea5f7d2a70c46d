(** Model of numerical quadrature and of the arithmetic of vector expressions. *)
From Coq Require Import ZArith NArith List Bool.
From Verif Require Import Outcome Num RtModel.
Import ListNotations.

Section Quad.
Context (n : num).

(** A quadrature rule: numerical_quadrature_interface::eval(interval, e, var),
    /repo/viennamath/runtime/numerical_quadrature.hpp lines 40-54, as a function of the lower
    and upper bound, the id of the variable and the integrand.  Simplified: a
    default-constructed rt_numerical_quadrature (line 109, NULL rule) is a rule that is
    always [UB]. *)
Definition quad_rule : Type := expr n -> expr n -> N -> expr n -> outcome n.

(** rt_gauss_quad_1::eval, /repo/viennamath/runtime/numerical_quadrature.hpp lines 69-80; the
    assert of lines 73-75 is [UB] when violated. *)
Definition gauss_quad_1 : quad_rule := fun lo hi var e =>
  if is_constant n lo && is_constant n hi then
    both (eval_scalar n lo (c0 n)) (eval_scalar n hi (c0 n)) (fun a b =>
      let abscissa := n_div n (n_add n a b) (c2 n) in
      bind (subst1_top n (EVar var) (EConst abscissa) e) (fun tmp =>
        both (unwrap n tmp) (eval_scalar n (mk_bin n BMinus hi lo) (c0 n)) (fun x y =>
          Ok (n_mul n x y))))
  else UB.

(** rt_numerical_quadrature::operator()(rt_expr),
    /repo/viennamath/runtime/numerical_quadrature.hpp lines 131-206: integrals 133-146, symbolic
    integrals 149-158 (dereferences the NULL pointer op_tmp), other unary expressions 160-162,
    constants 167-171, sums 174-184, differences 188-197, everything else 200-202. *)
Fixpoint quadrature (rule : quad_rule) (e : expr n) : outcome n :=
  match e with
  | EInt lo hi var a => rule lo hi var a
  | EUn (USymInt _) _ => UB
  | EUn _ _ => Throw IntegrationWithoutIntegral
  | _ =>
      let rest :=
        match e with
        | EBin BPlus l r =>
            both (quadrature rule l) (quadrature rule r) (fun x y => Ok (n_add n x y))
        | EBin BMinus l r =>
            both (quadrature rule l) (quadrature rule r) (fun x y => Ok (n_sub n x y))
        | _ => Throw IntegrationWithoutIntegral
        end in
      if is_constant n e then
        bind (eval_scalar n e (c0 n)) (fun x =>
          if n_le n x (c0 n) && n_ge n x (c0 n) then Ok (c0 n) else rest)
      else rest
  end.

(** rt_numerical_quadrature::operator()(interval, e, var),
    /repo/viennamath/runtime/numerical_quadrature.hpp lines 209-223 (rt_variable and
    ct_variable<id>). *)
Definition quadrature_over (rule : quad_rule) (lo hi : expr n) (e : expr n) (var : N) : outcome n :=
  rule lo hi var e.

(** The loop over the entries of two vectors, e.g. /repo/viennamath/runtime/vector_expr.hpp
    lines 66-67. *)
Fixpoint zip_bin (op : bop) (a b : list (expr n)) : list (expr n) :=
  match a, b with
  | x :: a', y :: b' => mk_bin n op x y :: zip_bin op a' b'
  | _, _ => []
  end.

(** rt_vector_expr::operator+ and operator-, /repo/viennamath/runtime/vector_expr.hpp lines
    61-70 and 73-82; the assert on the sizes is [UB] when violated. *)
Definition vec_add (a b : list (expr n)) : outcome (list (expr n)) :=
  if Nat.eqb (length a) (length b) then Ok (zip_bin BPlus a b) else UB.
(** As above, /repo/viennamath/runtime/vector_expr.hpp lines 73-82. *)
Definition vec_sub (a b : list (expr n)) : outcome (list (expr n)) :=
  if Nat.eqb (length a) (length b) then Ok (zip_bin BMinus a b) else UB.

(** rt_vector_expr(size_type num), /repo/viennamath/runtime/vector_expr.hpp lines 53-58. *)
Definition vec_new (k : nat) : list (expr n) := repeat (EConst (c0 n)) k.

(** v * s, s * v, v / s, s / v for a scalar operand s, /repo/viennamath/runtime/vector_expr.hpp
    lines 246-254, 256-264, 281-289, 291-299. *)
Definition vec_mul_scalar (a : list (expr n)) (s : expr n) : list (expr n) :=
  map (fun x => mk_bin n BMult x s) a.
(** As above, /repo/viennamath/runtime/vector_expr.hpp lines 256-264. *)
Definition scalar_mul_vec (s : expr n) (a : list (expr n)) : list (expr n) :=
  map (fun x => mk_bin n BMult s x) a.
(** As above, /repo/viennamath/runtime/vector_expr.hpp lines 281-289. *)
Definition vec_div_scalar (a : list (expr n)) (s : expr n) : list (expr n) :=
  map (fun x => mk_bin n BDiv x s) a.
(** As above, /repo/viennamath/runtime/vector_expr.hpp lines 291-299. *)
Definition scalar_div_vec (s : expr n) (a : list (expr n)) : list (expr n) :=
  map (fun x => mk_bin n BDiv s x) a.

End Quad.
