(** Specification side of the compile-time operators and manipulations.  No code is modelled. *)
From Coq Require Import ZArith NArith Reals List.
From Verif Require Import Outcome Num RtModel NumR CtModel CtSpec CtOpsModel.
Import ListNotations.

(** The value of an expression with run-time constants; as [cval]. *)
Fixpoint mval (rho phi : N -> R) (un : uop -> R -> option R) (e : mexpr numR) : option R :=
  match e with
  | MConst c => Some (IZR c)
  | MRt s => s
  | MVar i => Some (rho i)
  | MFun t => Some (phi t)
  | MUn op a => match mval rho phi un a with Some x => un op x | None => None end
  | MBin op a b =>
      match mval rho phi un a, mval rho phi un b with
      | Some x, Some y => op_val op x y
      | _, _ => None
      end
  end.

(** A run-time constant occurs in an expression. *)
Fixpoint contains_rt {T : Type} (e : mexpr T) : Prop :=
  match e with
  | MRt _ => True
  | MUn _ a => contains_rt a
  | MBin _ a b => contains_rt a \/ contains_rt b
  | _ => False
  end.

(** Variable i occurs in an expression. *)
Fixpoint m_occurs {T : Type} (i : N) (e : mexpr T) : Prop :=
  match e with
  | MVar j => j = i
  | MUn _ a => m_occurs i a
  | MBin _ a b => m_occurs i a \/ m_occurs i b
  | _ => False
  end.
Fixpoint occurs (i : N) (e : cexpr) : Prop :=
  match e with
  | CVar j => j = i
  | CUn _ a => occurs i a
  | CBin _ a b => occurs i a \/ occurs i b
  | _ => False
  end.

(** Built from constants, variables and binary operations only. *)
Fixpoint plain (e : cexpr) : Prop :=
  match e with
  | CConst _ | CVar _ => True
  | CFun _ | CUn _ _ => False
  | CBin _ a b => plain a /\ plain b
  end.
Fixpoint m_plain {T : Type} (e : mexpr T) : Prop :=
  match e with
  | MConst _ | MVar _ | MRt _ => True
  | MFun _ | MUn _ _ => False
  | MBin _ a b => m_plain a /\ m_plain b
  end.

(** The run-time tree [t] has the same shape as [e]: the same operations on the same operands. *)
Inductive same_shape (n : Num.num) : mexpr n -> expr n -> Prop :=
| ss_const : forall c, same_shape n (MConst c) (EConst (n_of_Z n c))
| ss_var : forall i, same_shape n (MVar i) (EVar i)
| ss_plus : forall a b x y, same_shape n a x -> same_shape n b y ->
    same_shape n (MBin CPlus a b) (EBin BPlus x y)
| ss_minus : forall a b x y, same_shape n a x -> same_shape n b y ->
    same_shape n (MBin CMinus a b) (EBin BMinus x y)
| ss_mult : forall a b x y, same_shape n a x -> same_shape n b y ->
    same_shape n (MBin CMult a b) (EBin BMult x y)
| ss_div : forall a b x y, same_shape n a x -> same_shape n b y ->
    same_shape n (MBin CDiv a b) (EBin BDiv x y).

(** A point with another value of variable i. *)
Definition upd (rho : N -> R) (i : N) (x : R) : N -> R := fun j => if N.eqb j i then x else rho j.

(** No sum or difference among the factors of a product (looking through products and
    numerators). *)
Fixpoint sum_free (e : cexpr) : Prop :=
  match e with
  | CBin CPlus _ _ | CBin CMinus _ _ => False
  | CBin CMult a b => sum_free a /\ sum_free b
  | CBin CDiv a _ => sum_free a
  | _ => True
  end.

(** A sum of products: outside denominators and arguments of unary operations no product has a
    sum or difference as a factor. *)
Fixpoint expanded (e : cexpr) : Prop :=
  match e with
  | CBin CPlus a b | CBin CMinus a b => expanded a /\ expanded b
  | CBin CMult a b => sum_free a /\ sum_free b
  | CBin CDiv a _ => expanded a
  | _ => True
  end.

(** [e] is a polynomial of degree at most [d] in variable i, with coefficients free of it. *)
Inductive polynomial (i : N) : cexpr -> nat -> Prop :=
| p_free : forall e, ~ occurs i e -> polynomial i e 0
| p_var : polynomial i (CVar i) 1
| p_plus : forall a b d, polynomial i a d -> polynomial i b d -> polynomial i (CBin CPlus a b) d
| p_minus : forall a b d, polynomial i a d -> polynomial i b d -> polynomial i (CBin CMinus a b) d
| p_mult : forall a b c d, polynomial i a c -> polynomial i b d ->
    polynomial i (CBin CMult a b) (c + d)
| p_div : forall a b d, polynomial i a d -> ~ occurs i b -> polynomial i (CBin CDiv a b) d
| p_more : forall e c d, polynomial i e c -> (c <= d)%nat -> polynomial i e d.

(** No variable other than i stands alone as a term or numerator. *)
Fixpoint no_other_term (i : N) (e : cexpr) : Prop :=
  match e with
  | CVar j => j = i
  | CBin CPlus a b | CBin CMinus a b => no_other_term i a /\ no_other_term i b
  | CBin CDiv a _ => no_other_term i a
  | _ => True
  end.

(** Variable i occurs in no argument of a unary operation. *)
Fixpoint outside_unary (i : N) (e : cexpr) : Prop :=
  match e with
  | CUn _ a => ~ occurs i a
  | CBin _ a b => outside_unary i a /\ outside_unary i b
  | _ => True
  end.

(** No sum or difference anywhere except in arguments of unary operations. *)
Fixpoint product (e : cexpr) : Prop :=
  match e with
  | CBin CPlus _ _ | CBin CMinus _ _ => False
  | CBin _ a b => product a /\ product b
  | _ => True
  end.

(** A constant or a fraction of constants. *)
Definition number (e : cexpr) : Prop :=
  (exists c, e = CConst c) \/ (exists p q, e = CBin CDiv (CConst p) (CConst q)).

(** Built from constants only. *)
Fixpoint ground (e : cexpr) : Prop :=
  match e with
  | CConst _ => True
  | CBin _ a b => ground a /\ ground b
  | _ => False
  end.

(** The integer constant at the beginning of an expression: the expression itself, or the first
    operand of a sum or difference. *)
Definition leading {T : Type} (c : Z) (a : mexpr T) : Prop :=
  a = MConst c \/ exists o x, (o = CPlus \/ o = CMinus) /\ a = MBin o (MConst c) x.

(** The exact result of an operation on integers. *)
Definition exact_result (op : cop) (c d : Z) : Z :=
  match op with CPlus => c + d | CMinus => c - d | CMult => c * d | CDiv => Z.quot c d end.

(** [s] is the expression, or a term of it as a sum, or a term of its numerator. *)
Inductive term (s : cexpr) : cexpr -> Prop :=
| t_itself : term s s
| t_left : forall op l r, op = CPlus \/ op = CMinus -> term s l -> term s (CBin op l r)
| t_right : forall op l r, op = CPlus \/ op = CMinus -> term s r -> term s (CBin op l r)
| t_numerator : forall l r, term s l -> term s (CBin CDiv l r).
