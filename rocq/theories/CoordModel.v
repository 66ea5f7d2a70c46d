(** Model of /repo/viennamath/manipulation/apply_coordinate_system.hpp. *)
From Coq Require Import ZArith NArith List Bool.
From Verif Require Import Outcome Num RtModel.
Import ListNotations.

(** cartesian<1>, cartesian<2>, cartesian<3> (the three dimensions for which
    apply_coordinate_system is defined), apply_coordinate_system.hpp 39, 88, 144. *)
Inductive dim : Type := D1 | D2 | D3.

Section Coord.
Context (n : num).

(** diff(u, x) for a function symbol and a run-time variable,
    manipulation/diff.hpp 122-130: a unary node with op_partial_deriv. *)
Definition fs_diff (u : expr n) (id : N) : expr n := EUn (UPd id) u.

(** The expression substituted for grad(u): apply_coordinate_system.hpp 47-48 (1D),
    95-101 (2D), 152-160 (3D). *)
Definition grad_repl (d : dim) (u : expr n) : expr n :=
  match d with
  | D1 => fs_diff u 0
  | D2 => EVec [fs_diff u 0; fs_diff u 1]
  | D3 => EVec [fs_diff u 0; fs_diff u 1; fs_diff u 2]
  end.

(** The expression substituted for div(u): apply_coordinate_system.hpp 51-52 (1D),
    108-109 (2D), 167-168 (3D); operator+ builds a node, runtime/operations/rt_rt.hpp 73-81. *)
Definition div_repl (d : dim) (u : expr n) : expr n :=
  match d with
  | D1 => fs_diff u 0
  | D2 => EBin BPlus (fs_diff u 0) (fs_diff u 1)
  | D3 => EBin BPlus (EBin BPlus (fs_diff u 0) (fs_diff u 1)) (fs_diff u 2)
  end.

(** apply_coordinate_system(cartesian<dim>, rt_expr): apply_coordinate_system.hpp 39-55 (1D),
    88-112 (2D), 144-171 (3D); the overloads for rt_unary_expr and rt_binary_expr (62-78,
    118-134, 177-193) wrap their argument and call it.  grad(u) and div(u) build unary nodes
    (manipulation/detail/unary_operations.hpp 667-671, 713-718); unknown_tag and test_tag have
    the tag ids 0 and 1 (compiletime/ct_function_symbol.hpp 48, 62). *)
Definition apply_coordinate_system (d : dim) (ex : expr n) : outcome (expr n) :=
  let u := EFun 0 0 in
  let v := EFun 0 1 in
  bind (subst1_top n (EUn UGrad u) (grad_repl d u) ex) (fun new_ex1 =>
  bind (subst1_top n (EUn UGrad v) (grad_repl d v) new_ex1) (fun new_ex2 =>
  bind (subst1_top n (EUn UDiv u) (div_repl d u) new_ex2) (fun new_ex3 =>
  subst1_top n (EUn UDiv v) (div_repl d v) new_ex3))).

(** apply_coordinate_system(cartesian<dim>, rt_equation): apply_coordinate_system.hpp 205-212.
    Simplified: the two calls are arguments of one constructor call, so their order is
    unspecified; the model is left to right ([both]: an outcome Ok needs both). *)
Definition apply_coordinate_system_equation (d : dim) (eq : expr n * expr n) :
    outcome (expr n * expr n) :=
  both (apply_coordinate_system d (fst eq)) (apply_coordinate_system d (snd eq))
       (fun l r => Ok (l, r)).

End Coord.
