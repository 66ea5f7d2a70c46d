(** Outcomes of modelled C++ calls. *)
From Coq Require Import NArith String.

(** The exceptions the library can throw.
    Models /repo/viennamath/exception.hpp lines 32-140 (one constructor per
    exception class; the message texts are dropped (they are in ExnModel.v), the payload of
    variable_index_out_of_bounds_exception, lines 123-140, is kept).
    [ThrowText] models the raw string exceptions ("throw ...") of
    /repo/viennamath/compiletime/unary_op_tags.hpp lines 177-243. *)
Inductive exn : Type :=
| IntegrationWithoutIntegral
| SymbolicIntegralEvaluationNotPossible
| AnalyticIntegrationNotSupported
| NoRhsProvided
| RhsProvidedForUnaryOperation
| ExpressionNotEvaluable
| ExpressionNotUnwrappable
| ExpressionNotDifferentiable
| VariableIndexOutOfBounds (index size : N)
| ThrowText.

(** Result of a modelled call: a value, an exception, or undefined behaviour
    (null dereference, out-of-range access, violated assert(), use after free).
    Not code of its own: it is the modelling of C++ control flow used everywhere. Exceptions:
    /repo/viennamath/exception.hpp lines 32-140. *)
Inductive outcome (A : Type) : Type :=
| Ok (a : A)
| Throw (x : exn)
| UB.
Arguments Ok {A} a.
Arguments Throw {A} x.
Arguments UB {A}.

(** Sequencing: evaluate the first computation, then the second. E.g.
    /repo/viennamath/runtime/unary_expr.hpp line 202. *)
Definition bind {A B : Type} (o : outcome A) (f : A -> outcome B) : outcome B :=
  match o with
  | Ok a => f a
  | Throw x => Throw x
  | UB => UB
  end.

(** Two computations whose order C++ leaves unspecified (operands of a call or of a
    new-expression), e.g. /repo/viennamath/runtime/binary_expr.hpp line 300.
    Simplified: [UB] if either may be [UB]; if both throw, the exception of the left
    one is reported (the relational semantics [evals] of RtSpec.v covers the other choice). *)
Definition both {A B C : Type} (a : outcome A) (b : outcome B)
    (f : A -> B -> outcome C) : outcome C :=
  match a, b with
  | UB, _ => UB
  | _, UB => UB
  | Throw x, _ => Throw x
  | _, Throw x => Throw x
  | Ok x, Ok y => f x y
  end.

(** Mapping a pure function over an outcome (e.g. passing a returned pointer to a constructor). E.g.
    /repo/viennamath/runtime/unary_expr.hpp line 227. *)
Definition omap {A B : Type} (f : A -> B) (o : outcome A) : outcome B :=
  bind o (fun a => Ok (f a)).
