(** Model of the assignments to rt_binary_expr (/repo/viennamath/runtime/binary_expr.hpp lines 160-229) and of
    the constructors of and assignments to rt_unary_expr (/repo/viennamath/runtime/unary_expr.hpp lines 54-120). *)
From Coq Require Import ZArith NArith.
From Verif Require Import Outcome Num RtModel CtModel CtOpsModel.

Section Assign.
Context (n : Num.num).

(** rt_binary_expr::operator=(numeric_type), runtime/binary_expr.hpp lines 223-229, also used by
    operator=(ct_constant<value>), lines 217-221, and, with the clone of the constant, by
    operator=(rt_constant), lines 208-215: both operands become the constant, the operation
    becomes op_unary<op_id>. *)
Definition assign_number (c : n) : expr n := EBin BUnaryId (EConst c) (EConst c).

(** operator=(ct_constant<value>), runtime/binary_expr.hpp lines 217-221. *)
Definition assign_ct_constant (value : Z) : expr n := assign_number (n_of_Z n value).

(** operator=(ct_binary_expr<ct_constant<value1>, OP, ct_constant<value2> >),
    runtime/binary_expr.hpp lines 189-197; OP::apply converts both values to the numeric type. *)
Definition assign_ct_pair (op : bop) (value1 value2 : Z) : outcome (expr n) :=
  omap assign_number (b_apply n op (n_of_Z n value1) (n_of_Z n value2)).

(** operator=(ct_binary_expr<LHS, OP, RHS>), runtime/binary_expr.hpp lines 160-197: four overloads, for two
    constants, a constant on either side, and other operands, which have to be convertible by a
    constructor of rt_binary_expr.  There is none from a ct_variable, so [None] (does not compile) if an operand
    is a variable, and for an rt_constant, function symbol or unary expression. *)
Definition assign_ct (e : mexpr n) : option (outcome (expr n)) :=
  match e with
  | MBin op (MConst a) (MConst b) => Some (assign_ct_pair (rt_op op) a b)
  | MBin op (MConst a) r =>
      cbind (rt_binary n r) (fun r' => Some (Ok (EBin (rt_op op) (EConst (n_of_Z n a)) r')))
  | MBin op l (MConst b) =>
      cbind (rt_binary n l) (fun l' => Some (Ok (EBin (rt_op op) l' (EConst (n_of_Z n b)))))
  | MBin op l r =>
      cbind (rt_binary n l) (fun l' => cbind (rt_binary n r) (fun r' => Some (Ok (EBin (rt_op op) l' r'))))
  | _ => None
  end.

(** rt_unary_expr(rt_variable) and rt_unary_expr(rt_constant), runtime/unary_expr.hpp lines 70-75: the
    operation is op_unary<op_id>.  (The constructors from a ct_constant, lines 77-79, and from a
    ct_unary_expr, lines 63-68, do not compile: there is no clone().) *)
Definition unary_of_variable (i : N) : expr n := EUn UId (EVar i).
(** As above, lines 73-75. File /repo/viennamath/runtime/unary_expr.hpp. *)
Definition unary_of_constant (c : n) : expr n := EUn UId (EConst c).

(** rt_unary_expr::operator=(numeric_type), operator=(rt_constant), runtime/unary_expr.hpp lines 101-107 and
    115-120. *)
Definition unary_assign_number (c : n) : expr n := EUn UId (EConst c).
(** rt_unary_expr::operator=(ct_constant<value>), runtime/unary_expr.hpp lines 109-113. *)
Definition unary_assign_ct_constant (value : Z) : expr n := unary_assign_number (n_of_Z n value).
End Assign.
