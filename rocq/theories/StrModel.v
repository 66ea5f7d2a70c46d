(** Model of the textual representation (deep_str and the stream operators). *)
From Coq Require Import ZArith NArith List Bool String Ascii DecimalString.
From Verif Require Import Outcome Num RtModel.
Import ListNotations.
Local Open Scope string_scope.

(** Decimal output of an id_type or size_type through operator<<. E.g. /repo/viennamath/runtime/variable.hpp
    lines 172-177, function_symbol.hpp lines 79-91. *)
Definition dec (i : N) : string := NilZero.string_of_uint (N.to_uint i).

(** str() of the unary operation tags, /repo/viennamath/compiletime/unary_op_tags.hpp lines 41, 56,
    71, 86, 102, 117, 132, 148, 163, 180, 200, 225-230 (forwarded by
    /repo/viennamath/runtime/unary_operators.hpp line 93), and of the symbolic integral,
    /repo/viennamath/runtime/integral.hpp lines 162-168 with
    /repo/viennamath/runtime/symbolic_interval.hpp lines 52-56. *)
Definition u_str (op : uop) : string :=
  match op with
  | UId => "id"
  | UExp => "exp"
  | USin => "sin"
  | UCos => "cos"
  | UTan => "tan"
  | UFabs => "fabs"
  | USqrt => "sqrt"
  | ULog => "log"
  | ULog10 => "log10"
  | UGrad => "grad"
  | UDiv => "div"
  | UPd i => "partial_deriv<" ++ dec i ++ ">"
  | USymInt i => "symbolic_integral[" ++ "symbolic_interval[" ++ dec i ++ "]" ++ "]"
  end.

(** str() of the binary operations, /repo/viennamath/compiletime/binary_op_tags.hpp lines 46, 64,
    82, 100 (forwarded by /repo/viennamath/runtime/binary_operators.hpp line 92); the malformed
    node holds an op_unary<op_id>. *)
Definition b_str (op : bop) : string :=
  match op with
  | BPlus => "+"
  | BMinus => "-"
  | BMult => "*"
  | BDiv => "/"
  | BUnaryId => "id"
  end.

(** Virtual is_unary(): default true (/repo/viennamath/runtime/expression_interface.hpp line 60),
    false for binary expressions (/repo/viennamath/runtime/binary_expr.hpp line 355). *)
Definition is_unary {T : Type} (e : expr T) : bool :=
  match e with
  | EBin _ _ _ => false
  | _ => true
  end.

Section Str.
Context {T : Type}.
(** Output of a constant of the numeric type through operator<< of std::stringstream
    (/repo/viennamath/runtime/constant.hpp line 81); not modelled further. *)
Context (pr : T -> string).

(** operator<<(std::ostream, rt_expr), /repo/viennamath/runtime/expr.hpp lines 271-288, given the
    deep_str of the expression. *)
Definition wrap (e : expr T) (deep : string) : string :=
  if is_unary e then "expr" ++ "(" ++ deep ++ ")" else "expr" ++ deep.

(** Virtual deep_str(): /repo/viennamath/runtime/constant.hpp lines 78-83, variable.hpp 172-177,
    function_symbol.hpp 79-91, unary_expr.hpp 247-255, integral.hpp 72-78 with interval.hpp
    67-72 and variable.hpp 247-252, binary_expr.hpp 337-346, vector_expr.hpp 101-106 with
    230-243. *)
Fixpoint deep_str (e : expr T) : string :=
  match e with
  | EConst c => "constant(" ++ pr c ++ ")"
  | EVar i => "variable(" ++ dec i ++ ")"
  | EFun i t =>
      "function_symbol<" ++
      (if N.eqb t 0 then "unknown(" ++ dec i ++ ")>"
       else if N.eqb t 1 then "test(" ++ dec i ++ ")>"
       else "invalid>")
  | EUn op a => u_str op ++ "(" ++ deep_str a ++ ")"
  | EInt lo hi v a =>
      ("rt_integral[" ++
         ("interval(" ++ wrap lo (deep_str lo) ++ ", " ++ wrap hi (deep_str hi) ++ ")") ++
         ", " ++ ("variable(" ++ dec v ++ ")") ++ "]") ++
      "(" ++ deep_str a ++ ")"
  | EBin op l r => "(" ++ deep_str l ++ b_str op ++ deep_str r ++ ")"
  | EVec es =>
      "[" ++ dec (N.of_nat (List.length es)) ++ "](" ++
      (fix entries (l : list (expr T)) : string :=
         match l with
         | [] => ""
         | [x] => wrap x (deep_str x)
         | x :: l' => wrap x (deep_str x) ++ ", " ++ entries l'
         end) es ++ ")"
  end.

(** operator<<(std::ostream, rt_expr), /repo/viennamath/runtime/expr.hpp lines 271-288. *)
Definition stream_expr (e : expr T) : string := wrap e (deep_str e).

(** operator<<(std::ostream, rt_equation), /repo/viennamath/runtime/equation.hpp lines 56-61. *)
Definition stream_equation (lhs rhs : expr T) : string :=
  "equation(" ++ stream_expr lhs ++ " = " ++ stream_expr rhs ++ ")".

End Str.
