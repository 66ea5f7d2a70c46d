(** Manipulation with functors of the user that have a state (runtime/functor_wrapper.hpp lines 33-66). *)
From Coq Require Import ZArith NArith List Bool.
From Verif Require Import Outcome Num RtModel RtSpec.
Import ListNotations.

Section Stateful.
Context (n : num).

(** The rest of the program as the functor sees and changes it: its members are const, but may refer to
    anything (runtime/functor_wrapper.hpp lines 40-46).  No code of its own. *)
Context (S : Type).

(** The order in which the compiler evaluates the arguments of the constructor call in
    runtime/binary_expr.hpp lines 426-428, for the node at a position; true: the left operand first. *)
Context (order : list dir -> S -> bool).

(** modifies() and operator() of the functor, runtime/functor_wrapper.hpp lines 43 and 46.  The pointer they
    get is given as the position and the value of the node; they return or throw, and change the state.
    Simplified: expressions are values here; the nodes they are made of are in VisitorModel.v. *)
Context (modifies : list dir -> expr n -> S -> outcome bool * S).
Context (apply : list dir -> expr n -> S -> outcome (expr n) * S).

(** One call after another; an exception leaves the function.  No code of its own, e.g.
    runtime/unary_expr.hpp lines 322-325. *)
Definition andthen {A B : Type} (r : outcome A * S) (k : A -> S -> outcome B * S) : outcome B * S :=
  match r with
  | (Ok a, s) => k a s
  | (Throw x, s) => (Throw x, s)
  | (UB, s) => (UB, s)
  end.

(** recursive_manipulation of the node [e] at position [p]: runtime/expression_interface.hpp line 75 (all
    classes without an override), runtime/unary_expr.hpp lines 320-327, runtime/binary_expr.hpp
    lines 421-429. *)
Fixpoint smanipulate (p : list dir) (e : expr n) (s : S) : outcome (expr n) * S :=
  match e with
  | EConst _ | EVar _ | EFun _ _ | EVec _ => apply p e s
  | EUn op a =>
      andthen (modifies p e s) (fun b s1 =>
        if b then apply p e s1
        else andthen (smanipulate (p ++ [DirU]) a s1) (fun a' s2 => (Ok (EUn op a'), s2)))
  | EInt lo hi w a =>
      andthen (modifies p e s) (fun b s1 =>
        if b then apply p e s1
        else andthen (smanipulate (p ++ [DirU]) a s1) (fun a' s2 => (Ok (EInt lo hi w a'), s2)))
  | EBin op l r =>
      andthen (modifies p e s) (fun b s1 =>
        if b then apply p e s1
        else if order p s1
        then andthen (smanipulate (p ++ [DirL]) l s1) (fun l' s2 =>
               andthen (smanipulate (p ++ [DirR]) r s2) (fun r' s3 => (Ok (EBin op l' r'), s3)))
        else andthen (smanipulate (p ++ [DirR]) r s1) (fun r' s2 =>
               andthen (smanipulate (p ++ [DirL]) l s2) (fun l' s3 => (Ok (EBin op l' r'), s3))))
  end.
End Stateful.
