(** Specification side: which calls of make_equation(), make_interval(), diff() and substitute()
    compile, by the classes of the arguments.  No code is modelled. *)
From Coq Require Import ZArith NArith List Bool.
From Verif Require Import Outcome Num RtModel CtModel CtOpsModel ApiModel OverModel OverSpec.

Section Which.
Context {n : Num.num}.

(** A number (double or int). *)
Definition is_number (o : obj n) : Prop := match o with ONum _ | OInt _ => True | _ => False end.
(** A ct_constant, an rt_constant; either. *)
Definition is_ct_constant (o : obj n) : Prop := match o with OCt (MConst _) => True | _ => False end.
Definition is_rt_constant (o : obj n) : Prop := match o with OCt (MRt _) => True | _ => False end.
Definition is_a_constant (o : obj n) : Prop := is_ct_constant o \/ is_rt_constant o.
(** A ct_variable. *)
Definition is_ct_variable (o : obj n) : Prop := match o with OCt (MVar _) => True | _ => False end.
(** A variable, an operation, a function, an integral or an rt_expr. *)
Definition variable_or_operation (o : obj n) : Prop :=
  match o with
  | OCt (MVar _) | OExpr _ => True
  | ORt (EVar _) | ORt (EUn _ _) | ORt (EInt _ _ _ _) | ORt (EBin _ _ _) => True
  | _ => False
  end.
(** An rt_vector_expr. *)
Definition is_vector (o : obj n) : Prop := match o with ORt (EVec _) => True | _ => False end.
(** It can be converted to an rt_expr. *)
Definition convertible (o : obj n) : Prop := exists t, to_tree n o = Some t.
(** An rt_expr. *)
Definition is_expr (o : obj n) : Prop := match o with OExpr _ => True | _ => False end.
(** An object of a run-time class other than rt_expr. *)
Definition is_node (o : obj n) : Prop := match o with ORt _ | OCt (MRt _) => True | _ => False end.

(** Built from ct_constants and ct_variables by + - * /. *)
Fixpoint rational (m : mexpr n) : Prop :=
  match m with
  | MConst _ | MVar _ => True
  | MBin _ a b => rational a /\ rational b
  | _ => False
  end.

(** The calls substitute(s, r, e) into an [e] of a run-time class that compile. *)
Definition substitution_compiles (s r e : obj n) : Prop :=
  match s with
  | ORt (EVar _) => is_node r \/ (is_expr e /\ exists x, r = ONum x)
  | ORt (EFun _ _) => is_expr e /\ (is_expr r \/ is_number r \/ is_a_constant r)
  | ORt (EUn _ _) | ORt (EInt _ _ _ _) => is_expr e /\ (is_expr r \/ is_node r)
  | ORt (EBin _ _ _) => is_expr e /\ is_node r
  | OExpr _ => is_expr e /\ is_expr r
  | _ => False
  end.
End Which.
