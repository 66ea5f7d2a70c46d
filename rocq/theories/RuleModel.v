(** Numerical quadrature with rules of the user that have a state (runtime/numerical_quadrature.hpp lines 36-54
    and 131-206). *)
From Coq Require Import ZArith NArith List Bool.
From Verif Require Import Outcome Num RtModel StatefulModel.
Import ListNotations.

Section Rule.
Context (n : num).

(** The rest of the program as the rule sees and changes it: eval() is const, but may refer to anything
    (runtime/numerical_quadrature.hpp lines 50-53).  No code of its own. *)
Context (S : Type).

(** The order in which the compiler evaluates the operands of + and - in runtime/numerical_quadrature.hpp
    lines 182-183 and 195-196; true: the left one first. *)
Context (order : expr n -> S -> bool).

(** eval(interval, e, var) of the rule, runtime/numerical_quadrature.hpp lines 50-53, as a function of the lower
    and upper bound, the id of the variable and the integrand; it returns or throws, and changes the state.
    Simplified: expressions are values. *)
Context (rule : expr n -> expr n -> N -> expr n -> S -> outcome n * S).

(** The sum or difference of two calls, runtime/numerical_quadrature.hpp lines 182-183 and 195-196. *)
Definition two (left_first : bool) (f g : S -> outcome n * S) (k : n -> n -> n) (s : S) : outcome n * S :=
  if left_first
  then andthen S (f s) (fun x s1 => andthen S (g s1) (fun y s2 => (Ok (k x y), s2)))
  else andthen S (g s) (fun y s1 => andthen S (f s1) (fun x s2 => (Ok (k x y), s2))).

(** rt_numerical_quadrature::operator()(rt_expr), runtime/numerical_quadrature.hpp lines 131-206, line by line as
    in QuadModel.v. *)
Fixpoint squadrature (e : expr n) (s : S) : outcome n * S :=
  match e with
  | EInt lo hi var a => rule lo hi var a s
  | EUn (USymInt _) _ => (UB, s)
  | EUn _ _ => (Throw IntegrationWithoutIntegral, s)
  | _ =>
      let rest :=
        match e with
        | EBin BPlus l r => two (order e s) (squadrature l) (squadrature r) (n_add n) s
        | EBin BMinus l r => two (order e s) (squadrature l) (squadrature r) (n_sub n) s
        | _ => (Throw IntegrationWithoutIntegral, s)
        end in
      if is_constant n e then
        andthen S (eval_scalar n e (c0 n), s) (fun x _ =>
          if n_le n x (c0 n) && n_ge n x (c0 n) then (Ok (c0 n), s) else rest)
      else rest
  end.
End Rule.
