(** Model of the Newton solver for two equations of the tutorial,
    /repo/examples/tutorials/newton_solve.cpp. *)
From Coq Require Import ZArith NArith List Bool.
From Verif Require Import Outcome Num RtModel.
Import ListNotations.

Section Newton.
Context (n : num).

(** An rt_equation: its two sides (/repo/viennamath/runtime/equation.hpp lines 31-53). *)
Definition equation : Type := (expr n * expr n)%type.

(** equations[k].lhs() - equations[k].rhs() held by an rt_expr,
    /repo/examples/tutorials/newton_solve.cpp lines 46-47 and 90-91: the difference of two rt_expr
    (/repo/viennamath/runtime/operations/rt_rt.hpp lines 73-114). *)
Definition residual (q : equation) : expr n := EBin BMinus (fst q) (snd q).

(** The comparisons a > b and a < b of doubles, /repo/examples/tutorials/newton_solve.cpp line 94, by
    those of [num]: false if an operand is not a number. *)
Definition gt (a b : n) : bool := n_ge n a b && negb (n_eq n a b).
(** As above, /repo/examples/tutorials/newton_solve.cpp line 94. *)
Definition lt (a b : n) : bool := n_le n a b && negb (n_eq n a b).

(** newton_solve_impl(), /repo/examples/tutorials/newton_solve.cpp lines 34-73: one step.  [UB]: fewer
    than two equations, or fewer than two entries in the guess.  Simplified: the operands of arithmetic
    operators are evaluated from left to right. *)
Definition newton_step (qs : list equation) (g : list n) : outcome (list n) :=
  match qs with
  | q1 :: q2 :: _ =>
      let f1 := residual q1 in let f2 := residual q2 in
      bind (eval n f1 g) (fun r1 =>
      bind (eval n f2 g) (fun r2 =>
      bind (diff_top n (DVar 0) f1) (fun f1x =>
      bind (diff_top n (DVar 1) f1) (fun f1y =>
      bind (diff_top n (DVar 0) f2) (fun f2x =>
      bind (diff_top n (DVar 1) f2) (fun f2y =>
      bind (eval n f1x g) (fun a =>
      bind (eval n f2y g) (fun d =>
      bind (eval n f2x g) (fun c =>
      bind (eval n f1y g) (fun b =>
        let det := n_sub n (n_mul n a d) (n_mul n c b) in
        let ux := n_div n (n_sub n (n_mul n r1 d) (n_mul n b r2)) det in
        let uy := n_div n (n_sub n (n_mul n a r2) (n_mul n r1 c)) det in
        match g with
        | x :: y :: _ => Ok [n_sub n x ux; n_sub n y uy]
        | _ => UB
        end))))))))))
  | _ => UB
  end.

(** norm_res = ::sqrt(f1(x_k)*f1(x_k) + f2(x_k)*f2(x_k)), /repo/examples/tutorials/newton_solve.cpp
    line 97. *)
Definition newton_norm (qs : list equation) (g : list n) : outcome n :=
  match qs with
  | q1 :: q2 :: _ =>
      bind (eval n (residual q1) g) (fun a =>
      bind (eval n (residual q2) g) (fun b =>
        Ok (n_sqrt n (n_add n (n_mul n a a) (n_mul n b b)))))
  | _ => UB
  end.

(** The loop, /repo/examples/tutorials/newton_solve.cpp lines 94-99, for at most [k] rounds; [Ok None]:
    not finished then.  1e-10 is the quotient of the exact doubles 1 and 10000000000 (correctly rounded,
    so the same double).  Simplified: no output. *)
Fixpoint newton_loop (k : nat) (qs : list equation) (g : list n) (norm : n) : outcome (option (list n)) :=
  if gt norm (n_div n (n_of_Z n 1) (n_of_Z n 10000000000)) && lt norm (n_of_Z n 10000000000)
  then match k with
       | O => Ok None
       | S k' =>
           bind (newton_step qs g) (fun g' =>
           bind (newton_norm qs g') (fun norm' => newton_loop k' qs g' norm'))
       end
  else Ok (Some g).

(** newton_solve(), /repo/examples/tutorials/newton_solve.cpp lines 75-103: the loop from norm_res = 1. *)
Definition newton_solve (k : nat) (qs : list equation) (g : list n) : outcome (option (list n)) :=
  newton_loop k qs g (n_of_Z n 1).
End Newton.
Arguments residual {n} q.
