(** Vocabulary for the properties of classes at run time. *)
From Coq Require Import String ZArith NArith List Bool.
From Verif Require Import Outcome Num RtModel StrModel TypedModel ClassModel.
Import ListNotations.
Local Open Scope string_scope.

(** The type of the constant. *)
Inductive scalar_is {T : Type} : scalar T -> scalar_type -> Prop :=
| si_own : forall x, scalar_is (SOwn x) TOwn
| si_int : forall z, scalar_is (SInt z) TInt
| si_long : forall z, scalar_is (SLong z) TLong
| si_float : forall f, scalar_is (SFloat f) TFloat.

(** The class of the node the tree begins with. *)
Inductive class_is {T : Type} : expr (scalar T) -> node_class -> Prop :=
| ci_const : forall c s, scalar_is c s -> class_is (EConst c) (KConstant s)
| ci_var : forall i, class_is (EVar i) KVariable
| ci_fun : forall i t, class_is (EFun i t) KFunctionSymbol
| ci_un : forall op a, class_is (EUn op a) KUnary
| ci_int : forall lo hi v a, class_is (EInt lo hi v a) KUnary
| ci_bin : forall op l r, class_is (EBin op l r) KBinary
| ci_vec : forall es, class_is (EVec es) KVector.

(** The classes, constants of all types taken together. *)
Definition kind (k : node_class) : node_class := match k with KConstant _ => KConstant TOwn | _ => k end.

(** [infix e ns]: the nodes of [e], each binary node between those of its operands, each unary node before those
    of its operand; a vector is one node. *)
Inductive infix {T : Type} : expr T -> list (expr T) -> Prop :=
| in_const : forall c, infix (EConst c) [EConst c]
| in_var : forall i, infix (EVar i) [EVar i]
| in_fun : forall i t, infix (EFun i t) [EFun i t]
| in_vec : forall es, infix (EVec es) [EVec es]
| in_un : forall op a ns, infix a ns -> infix (EUn op a) (EUn op a :: ns)
| in_int : forall lo hi v a ns, infix a ns -> infix (EInt lo hi v a) (EInt lo hi v a :: ns)
| in_bin : forall op l r ns ms, infix l ns -> infix r ms ->
    infix (EBin op l r) (ns ++ EBin op l r :: ms)%list.

(** The line of the tutorial for a node that is neither a function symbol nor a vector nor a constant of another
    type. *)
Inductive line_for {T : Type} : expr (scalar T) -> string -> Prop :=
| lf_bin : forall op l r, line_for (EBin op l r) "binary_expr, dispatched!"
| lf_un : forall op a, line_for (EUn op a) "unary_expr, dispatched!"
| lf_int : forall lo hi v a, line_for (EInt lo hi v a) "unary_expr, dispatched!"
| lf_var : forall i, line_for (EVar i) "variable, dispatched!"
| lf_const : forall x, line_for (EConst (SOwn x)) "constant, dispatched!".
