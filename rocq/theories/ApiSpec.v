(** Specification side of the user interface: what the expressions a user writes mean, and which of
    them are meant to build run-time expressions.  No code is modelled. *)
From Coq Require Import ZArith NArith Reals List.
From Verif Require Import Outcome Num RtModel NumR CtModel CtSpec CtOpsModel ApiModel.

(** The functions on the reals; [None] where there is no real value. *)
Definition func_val (f : func) (x : R) : option R :=
  match f with
  | FExp => Some (exp x)
  | FSin => Some (sin x)
  | FCos => Some (cos x)
  | FTan => if Req_EM_T (cos x) 0 then None else Some (sin x / cos x)%R
  | FFabs => Some (Rabs x)
  | FSqrt => if Rle_dec 0 x then Some (sqrt x) else None
  | FLog => if Rlt_dec 0 x then Some (ln x) else None
  | FLog10 => if Rlt_dec 0 x then Some (ln x / ln 10)%R else None
  end.

(** The real value of what the user wrote, where variable i has the value [rho i]; converting to an
    rt_expr means nothing; symbols and differential operators have no value. *)
Fixpoint src_val (rho : N -> R) (s : src numR) : option R :=
  match s with
  | SNum x | SRtConst x => x
  | SInt z | SCtConst z => Some (IZR z)
  | SRtVar i | SCtVar i => Some (rho i)
  | SSymbol _ _ | SGrad _ | SDiv _ | SLaplace _ => None
  | SOp op a b =>
      match src_val rho a, src_val rho b with
      | Some x, Some y => op_val op x y
      | _, _ => None
      end
  | SFun f a => match src_val rho a with Some x => func_val f x | None => None end
  | SExpr a => src_val rho a
  end.

(** Variable i is written somewhere. *)
Fixpoint src_occurs {n : Num.num} (i : N) (s : src n) : Prop :=
  match s with
  | SRtVar j | SCtVar j => j = i
  | SOp _ a b => src_occurs i a \/ src_occurs i b
  | SFun _ a | SGrad a | SDiv a | SLaplace a | SExpr a => src_occurs i a
  | _ => False
  end.

(** An rt_constant is written somewhere. *)
Fixpoint src_rt {n : Num.num} (s : src n) : Prop :=
  match s with
  | SRtConst _ => True
  | SOp _ a b => src_rt a \/ src_rt b
  | SFun _ a | SGrad a | SDiv a | SLaplace a | SExpr a => src_rt a
  | _ => False
  end.

(** In no quotient an rt_constant is written in both operands. *)
Fixpoint no_constant_quotient {n : Num.num} (s : src n) : Prop :=
  match s with
  | SOp op a b =>
      no_constant_quotient a /\ no_constant_quotient b /\ (op = CDiv -> src_rt a -> src_rt b -> False)
  | SFun _ a | SGrad a | SDiv a | SLaplace a | SExpr a => no_constant_quotient a
  | _ => True
  end.

(** The tree of what the user wrote, read literally. *)
Fixpoint src_tree {n : Num.num} (s : src n) : expr n :=
  match s with
  | SNum x | SRtConst x => EConst x
  | SInt z | SCtConst z => EConst (n_of_Z n z)
  | SRtVar i | SCtVar i => EVar i
  | SSymbol i t => EFun i t
  | SOp CPlus a b => EBin BPlus (src_tree a) (src_tree b)
  | SOp CMinus a b => EBin BMinus (src_tree a) (src_tree b)
  | SOp CMult a b => EBin BMult (src_tree a) (src_tree b)
  | SOp CDiv a b => EBin BDiv (src_tree a) (src_tree b)
  | SFun FExp a => EUn UExp (src_tree a)
  | SFun FSin a => EUn USin (src_tree a)
  | SFun FCos a => EUn UCos (src_tree a)
  | SFun FTan a => EUn UTan (src_tree a)
  | SFun FFabs a => EUn UFabs (src_tree a)
  | SFun FSqrt a => EUn USqrt (src_tree a)
  | SFun FLog a => EUn ULog (src_tree a)
  | SFun FLog10 a => EUn ULog10 (src_tree a)
  | SGrad a => EUn UGrad (src_tree a)
  | SDiv a => EUn UDiv (src_tree a)
  | SLaplace a => EUn UDiv (EUn UGrad (src_tree a))
  | SExpr a => src_tree a
  end.

(** A number, constant or variable. *)
Definition leaf {n : Num.num} (s : src n) : Prop :=
  match s with
  | SNum _ | SInt _ | SRtConst _ | SRtVar _ | SCtConst _ | SCtVar _ => True
  | _ => False
  end.

(** A function call, including grad(), div() and laplace(). *)
Definition is_call {n : Num.num} (s : src n) : Prop :=
  match s with SFun _ _ | SGrad _ | SDiv _ | SLaplace _ => True | _ => False end.
Definition is_symbol {n : Num.num} (s : src n) : Prop :=
  match s with SSymbol _ _ => True | _ => False end.

(** The expressions that build run-time expressions: run-time variables and function symbols;
    anything converted to rt_expr; operators with at least one run-time operand, the other a
    run-time expression or a leaf; functions of run-time expressions other than a bare function
    symbol, exp() not of a call; grad() of symbols and calls; div() of symbols, calls, operations and
    rt_expr; laplace() of symbols. *)
Inductive runtime {n : Num.num} : src n -> Prop :=
| R_var : forall i, runtime (SRtVar i)
| R_symbol : forall i t, runtime (SSymbol i t)
| R_expr : forall a, runtime a \/ leaf a -> runtime (SExpr a)
| R_left : forall op a b, runtime a -> runtime b \/ leaf b -> runtime (SOp op a b)
| R_right : forall op a b, runtime a \/ leaf a -> runtime b -> runtime (SOp op a b)
| R_fun : forall f a, runtime a -> ~ is_symbol a -> (f = FExp -> ~ is_call a) -> runtime (SFun f a)
| R_grad : forall a, runtime a -> is_symbol a \/ is_call a -> runtime (SGrad a)
| R_div : forall a, runtime a -> ~ leaf a -> runtime (SDiv a)
| R_laplace : forall a, is_symbol a -> runtime (SLaplace a).
