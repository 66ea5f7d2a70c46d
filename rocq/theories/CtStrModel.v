(** Model of the stream operators of the compile-time classes, and of the objects of a user's program. *)
From Coq Require Import ZArith NArith List Bool String Ascii.
From Verif Require Import Outcome Num RtModel StrModel CtModel CtOpsModel ApiModel OverModel.
Import ListNotations.
Local Open Scope string_scope.

(** Decimal output of a long through operator<<, /repo/viennamath/compiletime/ct_constant.hpp line
    52. *)
Definition zdec (z : Z) : string :=
  match z with
  | Zneg p => "-" ++ dec (Npos p)
  | _ => dec (Z.to_N z)
  end.

(** OP().str() of a binary operation, /repo/viennamath/compiletime/ct_binary_expr.hpp line 82 with
    binary_op_tags.hpp lines 46, 64, 82, 100. *)
Definition c_str (op : cop) : string :=
  match op with
  | CPlus => "+"
  | CMinus => "-"
  | CMult => "*"
  | CDiv => "/"
  end.

(** OP().str() of a unary operation, /repo/viennamath/compiletime/ct_unary_expr.hpp line 72: the
    operation is default-constructed, so that a partial derivative is the one by variable 0
    (compiletime/unary_op_tags.hpp line 222) and an integral the one over the symbolic interval 0
    (runtime/integral.hpp line 158, symbolic_interval.hpp line 41). *)
Definition cu_str (op : uop) : string :=
  match op with
  | UPd _ => u_str (UPd 0)
  | USymInt _ => u_str (USymInt 0)
  | _ => u_str op
  end.

Section Str.
Context {T : Type}.
(** Output of a number, as in StrModel (/repo/viennamath/runtime/constant.hpp line 81). *)
Context (pr : T -> string).

(** operator<<(std::ostream, ...) of a compile-time expression or rt_constant:
    /repo/viennamath/compiletime/ct_constant.hpp lines 49-66, ct_variable.hpp 206-212,
    ct_unary_expr.hpp 68-74 (the operation behind the operand), ct_binary_expr.hpp 78-84,
    runtime/constant.hpp 78-83 and 138-145.  [None]: does not compile; the one of
    ct_function_symbol (ct_function_symbol.hpp lines 86-92) uses str(), which is private (lines
    77-81). *)
Fixpoint ct_str (m : mexpr T) : option string :=
  match m with
  | MConst c => Some ("ct_constant<" ++ zdec c ++ ">")
  | MRt s => Some ("constant(" ++ pr s ++ ")")
  | MVar i => Some ("ct_variable<" ++ dec i ++ ">")
  | MFun _ => None
  | MUn op a => cbind (ct_str a) (fun s => Some ("[" ++ s ++ cu_str op ++ "]"))
  | MBin op a b =>
      cbind (ct_str a) (fun s => cbind (ct_str b) (fun t => Some ("[" ++ s ++ c_str op ++ t ++ "]")))
  end.

(** LHS() compiles: every part has a default constructor, which rt_constant has not
    (/repo/viennamath/runtime/constant.hpp line 47; ct_constant.hpp 39, ct_variable.hpp 164,
    ct_unary_expr.hpp 48, ct_binary_expr.hpp 51; ct_function_symbol has the implicit one). *)
Fixpoint default_constructible (m : mexpr T) : bool :=
  match m with
  | MRt _ => false
  | MConst _ | MVar _ | MFun _ => true
  | MUn _ a => default_constructible a
  | MBin _ a b => default_constructible a && default_constructible b
  end.

(** LHS() and its output, as in the next two definitions (/repo/viennamath/compiletime/ct_interval.hpp
    line 40, ct_equation.hpp line 41). *)
Definition default_str (m : mexpr T) : option string :=
  if default_constructible m then ct_str m else None.

(** operator<<(std::ostream, ct_interval), /repo/viennamath/compiletime/ct_interval.hpp lines 36-42. *)
Definition ct_interval_str (lo hi : mexpr T) : option string :=
  cbind (default_str lo) (fun s => cbind (default_str hi) (fun t =>
    Some ("ct_interval(" ++ s ++ ", " ++ t ++ ")"))).

(** operator<<(std::ostream, ct_equation), /repo/viennamath/compiletime/ct_equation.hpp lines 37-43. *)
Definition ct_equation_str (l r : mexpr T) : option string :=
  cbind (default_str l) (fun s => cbind (default_str r) (fun t =>
    Some ("ct_equation(" ++ s ++ " = " ++ t ++ ")"))).

(** operator<<(std::ostream, ct_vector_1), ct_vector_2, ct_vector_3:
    /repo/viennamath/compiletime/ct_vector.hpp lines 60-66, 105-111, 157-165.  There are no others.
    The first two hold references to their entries (lines 57, 101-102), which are taken to exist still. *)
Definition ct_vector_str (es : list (mexpr T)) : option string :=
  match es with
  | [a] => cbind (ct_str a) (fun s => Some ("vector<" ++ s ++ ">"))
  | [a; b] => cbind (ct_str a) (fun s => cbind (ct_str b) (fun t =>
      Some ("vector<" ++ s ++ ", " ++ t ++ ">")))
  | [a; b; c] => cbind (ct_str a) (fun s => cbind (ct_str b) (fun t => cbind (ct_str c) (fun u =>
      Some ("vector<" ++ s ++ ", " ++ t ++ ", " ++ u ++ ">"))))
  | _ => None
  end.

(** operator<<(std::ostream, ...) of the run-time classes other than rt_expr, by the head of the
    expression: /repo/viennamath/runtime/constant.hpp lines 138-145, variable.hpp 246-252,
    function_symbol.hpp 162-168, unary_expr.hpp 341-349, binary_expr.hpp 454-462, vector_expr.hpp
    229-243. *)
Definition rt_str (e : expr T) : string :=
  match e with
  | EUn _ _ | EInt _ _ _ _ => "unary" ++ deep_str pr e ++ ""
  | EBin _ _ _ => "expr" ++ deep_str pr e ++ ""
  | _ => deep_str pr e
  end.
End Str.

(** operator<<(std::ostream, ...) of an object of the library; a number is output by the standard
    library (/repo/viennamath/runtime/expr.hpp lines 270-288 and the lines cited above). *)
Definition stream_obj {n : Num.num} (pr : n -> string) (o : obj n) : option string :=
  match o with
  | ONum x => Some (pr x)
  | OInt z => Some (zdec z)
  | OCt m => ct_str pr m
  | ORt e => Some (rt_str pr e)
  | OExpr e => Some (stream_expr pr e)
  end.

(** operator<<(std::ostream, ...) of the result of make_equation(): ct_equation or rt_equation
    (/repo/viennamath/runtime/equation.hpp lines 55-61). *)
Definition stream_equation_of {n : Num.num} (pr : n -> string) (p : sides n) : option string :=
  match p with
  | RtSides l r => Some (stream_equation pr l r)
  | CtSides l r => ct_equation_str pr l r
  end.

(** operator<<(std::ostream, ...) of the result of make_interval(): ct_interval or rt_interval
    (/repo/viennamath/runtime/interval.hpp lines 66-72). *)
Definition stream_interval_of {n : Num.num} (pr : n -> string) (p : sides n) : option string :=
  match p with
  | RtSides l r => Some ("interval(" ++ stream_expr pr l ++ ", " ++ stream_expr pr r ++ ")")
  | CtSides l r => ct_interval_str pr l r
  end.
