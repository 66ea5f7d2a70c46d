(** Specification for C76: which node of an expression an exception is about.  Not code. *)
From Coq Require Import String NArith List.
From Verif Require Import Outcome Num RtModel ExnModel.
Import ListNotations.
Local Open Scope string_scope.

(** [s] is [e] or one of the operands, at any depth, whose value is needed for that of [e] (entries of vectors
    and bounds of integrals are not). *)
Inductive operand {T : Type} : expr T -> expr T -> Prop :=
| op_self : forall e, operand e e
| op_un : forall s op a, operand s a -> operand s (EUn op a)
| op_body : forall s lo hi w a, operand s a -> operand s (EInt lo hi w a)
| op_left : forall s op l r, operand s l -> operand s (EBin op l r)
| op_right : forall s op l r, operand s r -> operand s (EBin op l r).

(** Node [s] is at fault for [t] when evaluating at [v]: it has no value, although its operands have. *)
Inductive eval_fault {n : num} (v : list n) : expr n -> thrown -> Prop :=
| ef_variable : forall i, (N.of_nat (length v) <= i)%N ->
    eval_fault v (EVar i) (Object (VariableIndexOutOfBounds i (N.of_nat (length v))) "")
| ef_function : forall i t,
    eval_fault v (EFun i t) (Object ExpressionNotEvaluable "Cannot evaluate rt_function_symbol!")
| ef_vector : forall es,
    eval_fault v (EVec es) (Object ExpressionNotEvaluable "Cannot evaluate a rt_vector_expr!")
| ef_gradient : forall a x, eval n a v = Ok x ->
    eval_fault v (EUn UGrad a) (Chars "Cannot evaluate formal gradient. Use transformations first.")
| ef_divergence : forall a x, eval n a v = Ok x ->
    eval_fault v (EUn UDiv a) (Chars "Cannot evaluate formal divergence. Use transformations first.")
| ef_partial : forall a x i, eval n a v = Ok x ->
    eval_fault v (EUn (UPd i) a) (Chars "Cannot evaluate formal partial derivative. Use transformations first.")
| ef_symbolic : forall a x i, eval n a v = Ok x ->
    eval_fault v (EUn (USymInt i) a) (Object SymbolicIntegralEvaluationNotPossible "")
| ef_integral : forall lo hi w a x, eval n a v = Ok x ->
    eval_fault v (EInt lo hi w a) (Object AnalyticIntegrationNotSupported "")
| ef_malformed : forall l r x y, eval n l v = Ok x -> eval n r v = Ok y ->
    eval_fault v (EBin BUnaryId l r) (Object RhsProvidedForUnaryOperation "").

(** The same for unwrap(): no variable has a value. *)
Inductive unwrap_fault {n : num} : expr n -> thrown -> Prop :=
| uf_variable : forall i, unwrap_fault (EVar i) (Object ExpressionNotUnwrappable "Expression cannot be unwrapped!")
| uf_function : forall i t,
    unwrap_fault (EFun i t) (Object ExpressionNotUnwrappable "Cannot evaluate rt_function_symbol to a number!")
| uf_vector : forall es, unwrap_fault (EVec es) (Object ExpressionNotUnwrappable "Cannot unwrap a rt_vector_expr!")
| uf_gradient : forall a x, unwrap n a = Ok x ->
    unwrap_fault (EUn UGrad a) (Chars "Cannot evaluate formal gradient. Use transformations first.")
| uf_divergence : forall a x, unwrap n a = Ok x ->
    unwrap_fault (EUn UDiv a) (Chars "Cannot evaluate formal divergence. Use transformations first.")
| uf_partial : forall a x i, unwrap n a = Ok x ->
    unwrap_fault (EUn (UPd i) a) (Chars "Cannot evaluate formal partial derivative. Use transformations first.")
| uf_symbolic : forall a x i, unwrap n a = Ok x ->
    unwrap_fault (EUn (USymInt i) a) (Object SymbolicIntegralEvaluationNotPossible "")
| uf_integral : forall lo hi w a x, unwrap n a = Ok x ->
    unwrap_fault (EInt lo hi w a) (Object AnalyticIntegrationNotSupported "")
| uf_malformed : forall l r x y, unwrap n l = Ok x -> unwrap n r = Ok y ->
    unwrap_fault (EBin BUnaryId l r) (Object RhsProvidedForUnaryOperation "").

(** Nodes that have no derivative by [x], with the message. *)
Inductive diff_fault {T : Type} (x : dvar) : expr T -> thrown -> Prop :=
| df_function : forall i t j, x = DVar j ->
    diff_fault x (EFun i t) (Object ExpressionNotDifferentiable "Cannot differentiate rt_function_symbol!")
| df_fabs : forall a,
    diff_fault x (EUn UFabs a) (Object ExpressionNotDifferentiable "modulus operation not differentiable!")
| df_gradient : forall a j, x = DVar j ->
    diff_fault x (EUn UGrad a) (Object ExpressionNotDifferentiable "Cannot differentiate gradient operator!")
| df_divergence : forall a,
    diff_fault x (EUn UDiv a) (Object ExpressionNotDifferentiable "Cannot differentiate divergence operator!")
| df_partial : forall a i,
    diff_fault x (EUn (UPd i) a)
      (Object ExpressionNotDifferentiable "Cannot evaluate formal partial derivative. Use transformations first.")
| df_symbolic : forall a i,
    diff_fault x (EUn (USymInt i) a) (Object ExpressionNotDifferentiable "Cannot differentiate runtime integration (yet)!")
| df_integral : forall lo hi w a,
    diff_fault x (EInt lo hi w a) (Object ExpressionNotDifferentiable "Cannot differentiate runtime integration (yet)!")
| df_malformed : forall l r,
    diff_fault x (EBin BUnaryId l r) (Object RhsProvidedForUnaryOperation "").

(** [s] is [e] or an operand whose derivative is needed for that of [e]: below the functions (but not below a
    fabs() or a formal operator, which have none), sums, differences, products and quotients, and among the entries
    of a vector. *)
Inductive differentiated {T : Type} (x : dvar) : expr T -> expr T -> Prop :=
| di_self : forall e, differentiated x e e
| di_un : forall s op a, ~ (exists t, diff_fault x (EUn op a) t) -> differentiated x s a -> differentiated x s (EUn op a)
| di_left : forall s op l r, op <> BUnaryId -> differentiated x s l -> differentiated x s (EBin op l r)
| di_right : forall s op l r, op <> BUnaryId -> differentiated x s r -> differentiated x s (EBin op l r)
| di_entry : forall s a es, In a es -> differentiated x s a -> differentiated x s (EVec es).
