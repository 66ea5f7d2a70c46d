(** The objects thrown by the library, with their messages, and what() of them.
    /repo/viennamath/exception.hpp lines 32-140 and the throw expressions cited below. *)
From Coq Require Import String ZArith NArith List Bool.
From Verif Require Import Outcome Num RtModel.
Import ListNotations.
Local Open Scope string_scope.

(** A thrown object: an object of one of the exception classes, with its member message_ (empty for the classes
    that have none: /repo/viennamath/exception.hpp lines 32-61 and 123-140), or a string literal ([throw "..."],
    /repo/viennamath/compiletime/unary_op_tags.hpp lines 184, 204, 234). *)
Inductive thrown : Type :=
| Object (x : exn) (message : string)
| Chars (text : string).

(** [catch (std::exception const & x)] catches it: all classes of /repo/viennamath/exception.hpp lines 32-140 are
    derived from std::exception, a char const * is not. *)
Definition is_std_exception (t : thrown) : bool :=
  match t with Object ThrowText _ => false | Object _ _ => true | Chars _ => false end.

(** x.what(), read as a string: /repo/viennamath/exception.hpp lines 34, 40, 47, 54, 60, 78, 96, 113 and 125-130.
    The last returns a pointer to the characters of a string destroyed on return: reading them is undefined.
    [None]: not a std::exception. *)
Definition what (t : thrown) : option (outcome string) :=
  match t with
  | Chars _ => None
  | Object x m =>
      match x with
      | IntegrationWithoutIntegral => Some (Ok "Cannot integrate an expression if there is no integral.")
      | SymbolicIntegralEvaluationNotPossible =>
          Some (Ok "The evaluation of an integral with a symbolic integration domain is not possible.")
      | AnalyticIntegrationNotSupported =>
          Some (Ok "The current release of ViennaMath does not support analytic integrations at runtime.")
      | NoRhsProvided =>
          Some (Ok "Error due to wrong use of class 'op_interface': No right hand side provided for binary operator.")
      | RhsProvidedForUnaryOperation =>
          Some (Ok ("Error due to wrong use of class 'op_interface': " ++
                    "A right hand side argument was provided to an unary operator."))
      | ExpressionNotEvaluable | ExpressionNotUnwrappable | ExpressionNotDifferentiable => Some (Ok m)
      | VariableIndexOutOfBounds _ _ => Some UB
      | ThrowText => None
      end
  end.

(** The exception of Outcome.v an object stands for there (the classes of /repo/viennamath/exception.hpp lines
    32-140, [ThrowText] for a string literal). *)
Definition as_exn (t : thrown) : exn := match t with Object x _ => x | Chars _ => ThrowText end.

(** What the operator of a unary node may throw in apply(): as [u_apply] of RtModel.v, with the texts of
    /repo/viennamath/compiletime/unary_op_tags.hpp lines 184, 204, 234 and runtime/integral.hpp line 175. *)
Definition u_throws (op : uop) : list thrown :=
  match op with
  | UGrad => [Chars "Cannot evaluate formal gradient. Use transformations first."]
  | UDiv => [Chars "Cannot evaluate formal divergence. Use transformations first."]
  | UPd _ => [Chars "Cannot evaluate formal partial derivative. Use transformations first."]
  | USymInt _ => [Object SymbolicIntegralEvaluationNotPossible ""]
  | _ => []
  end.

(** As above for binary nodes, /repo/viennamath/runtime/op_interface.hpp lines 55-56. *)
Definition b_throws (op : bop) : list thrown :=
  match op with BUnaryId => [Object RhsProvidedForUnaryOperation ""] | _ => [] end.

(** [first; then]: what a computation may throw if it runs after another one has not thrown (sequencing, as [bind] of
    Outcome.v; e.g. /repo/viennamath/runtime/unary_expr.hpp line 202). *)
Definition and_then (first next : list thrown) : list thrown := match first with [] => next | _ => first end.

Section Throws.
Context (n : num).

(** The objects eval(std::vector<double>) may throw, whatever the order in which the operands of binary nodes are
    evaluated (empty: it returns).  As [eval] of RtModel.v; messages: /repo/viennamath/runtime/function_symbol.hpp
    line 74, vector_expr.hpp line 119, variable.hpp lines 141 and 157, integral.hpp line 83. *)
Fixpoint eval_throws (v : list n) (e : expr n) : list thrown :=
  match e with
  | EConst _ => []
  | EVar i =>
      if N.leb (N.of_nat (length v)) i then [Object (VariableIndexOutOfBounds i (N.of_nat (length v))) ""] else []
  | EFun _ _ => [Object ExpressionNotEvaluable "Cannot evaluate rt_function_symbol!"]
  | EUn op a => and_then (eval_throws v a) (u_throws op)
  | EInt _ _ _ a => and_then (eval_throws v a) [Object AnalyticIntegrationNotSupported ""]
  | EBin op l r => and_then (eval_throws v l ++ eval_throws v r)%list (b_throws op)
  | EVec _ => [Object ExpressionNotEvaluable "Cannot evaluate a rt_vector_expr!"]
  end.

(** The same for unwrap(): as [unwrap] of RtModel.v; messages: /repo/viennamath/runtime/variable.hpp line 182 with
    exception.hpp line 89, function_symbol.hpp line 94, vector_expr.hpp line 133. *)
Fixpoint unwrap_throws (e : expr n) : list thrown :=
  match e with
  | EConst _ => []
  | EVar _ => [Object ExpressionNotUnwrappable "Expression cannot be unwrapped!"]
  | EFun _ _ => [Object ExpressionNotUnwrappable "Cannot evaluate rt_function_symbol to a number!"]
  | EUn op a => and_then (unwrap_throws a) (u_throws op)
  | EInt _ _ _ a => and_then (unwrap_throws a) [Object AnalyticIntegrationNotSupported ""]
  | EBin op l r => and_then (unwrap_throws l ++ unwrap_throws r)%list (b_throws op)
  | EVec _ => [Object ExpressionNotUnwrappable "Cannot unwrap a rt_vector_expr!"]
  end.

(** The same for diff(diff_var): as [diff] of RtModel.v; messages: /repo/viennamath/runtime/function_symbol.hpp line
    150, manipulation/detail/unary_operations.hpp lines 343, 662, 688, 747, 758, 766.  The entries of a vector are
    differentiated in order (runtime/vector_expr.hpp lines 213-221). *)
Fixpoint diff_throws (x : dvar) (e : expr n) : list thrown :=
  match e with
  | EConst _ | EVar _ => []
  | EFun _ _ =>
      match x with
      | DVar _ => [Object ExpressionNotDifferentiable "Cannot differentiate rt_function_symbol!"]
      | DFun _ _ => []
      end
  | EUn op a =>
      match op with
      | UFabs => [Object ExpressionNotDifferentiable "modulus operation not differentiable!"]
      | UGrad =>
          match x with
          | DFun _ _ => diff_throws x a
          | DVar _ => [Object ExpressionNotDifferentiable "Cannot differentiate gradient operator!"]
          end
      | UDiv => [Object ExpressionNotDifferentiable "Cannot differentiate divergence operator!"]
      | UPd _ =>
          [Object ExpressionNotDifferentiable "Cannot evaluate formal partial derivative. Use transformations first."]
      | USymInt _ => [Object ExpressionNotDifferentiable "Cannot differentiate runtime integration (yet)!"]
      | _ => diff_throws x a
      end
  | EInt _ _ _ _ => [Object ExpressionNotDifferentiable "Cannot differentiate runtime integration (yet)!"]
  | EBin BUnaryId _ _ => [Object RhsProvidedForUnaryOperation ""]
  | EBin _ l r => (diff_throws x l ++ diff_throws x r)%list
  | EVec es => fold_right (fun a next => and_then (diff_throws x a) next) [] es
  end.

End Throws.
