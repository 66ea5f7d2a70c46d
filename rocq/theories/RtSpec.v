(** Specification vocabulary for run-time expressions.  No code is modelled here; these are
    the notions in which the properties are stated. *)
From Coq Require Import ZArith NArith List Bool.
From Verif Require Import Outcome Num RtModel.
Import ListNotations.

(** [subterm s e]: [s] is [e] or occurs somewhere inside [e] (also inside integral bounds
    and vector entries). *)
Inductive subterm {T : Type} : expr T -> expr T -> Prop :=
| sub_refl : forall e, subterm e e
| sub_un : forall s op a, subterm s a -> subterm s (EUn op a)
| sub_lo : forall s lo hi v a, subterm s lo -> subterm s (EInt lo hi v a)
| sub_hi : forall s lo hi v a, subterm s hi -> subterm s (EInt lo hi v a)
| sub_body : forall s lo hi v a, subterm s a -> subterm s (EInt lo hi v a)
| sub_l : forall s op l r, subterm s l -> subterm s (EBin op l r)
| sub_r : forall s op l r, subterm s r -> subterm s (EBin op l r)
| sub_vec : forall s x es, In x es -> subterm s x -> subterm s (EVec es).

(** Variable [i] occurs in [e]. *)
Definition occurs_var {T : Type} (i : N) (e : expr T) : Prop := subterm (EVar i) e.

(** Function symbol [(i, t)] occurs in [e]. *)
Definition occurs_fun {T : Type} (i t : N) (e : expr T) : Prop := subterm (EFun i t) e.

(** The unary operations that compute a number. *)
Definition numeric_uop (op : uop) : Prop :=
  match op with
  | UId | UExp | USin | UCos | UTan | UFabs | USqrt | ULog | ULog10 => True
  | _ => False
  end.

(** [node_evaluable size s]: the single node [s] does not by itself prevent evaluation at a
    vector with [size] entries. *)
Definition node_evaluable {T : Type} (size : N) (s : expr T) : Prop :=
  match s with
  | EConst _ => True
  | EVar i => (i < size)%N
  | EFun _ _ => False
  | EUn op _ => numeric_uop op
  | EInt _ _ _ _ => False
  | EBin op _ _ => op <> BUnaryId
  | EVec _ => False
  end.

(** [e] can be evaluated at every vector with [size] entries. *)
Definition evaluable {T : Type} (size : N) (e : expr T) : Prop :=
  forall s, subterm s e -> node_evaluable size s.

(** Every subexpression of [e] evaluates at [v] to a number satisfying [good]. *)
Definition all_values {n : num} (good : n -> Prop) (v : list n) (e : expr n) : Prop :=
  forall s, subterm s e -> exists x, eval n s v = Ok x /\ good x.

(** All outcomes of evaluating [e] at [v] when the operands of each binary node may be
    evaluated in either order (C++ leaves it open): if an operand throws, the node may throw
    that exception, whether or not the other operand was already evaluated. *)
Inductive evals {n : num} (v : list n) : expr n -> outcome n -> Prop :=
| evals_const : forall c, evals v (EConst c) (Ok c)
| evals_var : forall i x, nth_error v (N.to_nat i) = Some x -> evals v (EVar i) (Ok x)
| evals_oob : forall i, nth_error v (N.to_nat i) = None ->
    evals v (EVar i) (Throw (VariableIndexOutOfBounds i (N.of_nat (length v))))
| evals_fun : forall i t, evals v (EFun i t) (Throw ExpressionNotEvaluable)
| evals_vec : forall es, evals v (EVec es) (Throw ExpressionNotEvaluable)
| evals_un : forall op a x, evals v a (Ok x) -> evals v (EUn op a) (u_apply n op x)
| evals_un_throw : forall op a x, evals v a (Throw x) -> evals v (EUn op a) (Throw x)
| evals_int : forall lo hi w a x, evals v a (Ok x) ->
    evals v (EInt lo hi w a) (Throw AnalyticIntegrationNotSupported)
| evals_int_throw : forall lo hi w a x, evals v a (Throw x) -> evals v (EInt lo hi w a) (Throw x)
| evals_bin : forall op l r x y, evals v l (Ok x) -> evals v r (Ok y) ->
    evals v (EBin op l r) (b_apply n op x y)
| evals_left_throws : forall op l r x, evals v l (Throw x) -> evals v (EBin op l r) (Throw x)
| evals_right_throws : forall op l r x, evals v r (Throw x) -> evals v (EBin op l r) (Throw x).

(** [replace_vars f e]: every variable [i] of [e] at once replaced by [f i], where [None] leaves it
    alone.  Positions inside the bounds of an integral are left alone. *)
Fixpoint replace_vars {T : Type} (f : N -> option (expr T)) (e : expr T) : expr T :=
  match e with
  | EConst _ | EFun _ _ => e
  | EVar i => match f i with Some r => r | None => e end
  | EUn op a => EUn op (replace_vars f a)
  | EInt lo hi v a => EInt lo hi v (replace_vars f a)
  | EBin op l r => EBin op (replace_vars f l) (replace_vars f r)
  | EVec es => EVec (map (replace_vars f) es)
  end.

(** First entry for [i] in an association of variable ids with replacements. *)
Fixpoint assoc {A : Type} (l : list (N * A)) (i : N) : option A :=
  match l with
  | [] => None
  | (j, a) :: l' => if N.eqb j i then Some a else assoc l' i
  end.

(** [reachable s e]: [s] is [e] or occurs inside [e], integral bounds excluded. *)
Inductive reachable {T : Type} : expr T -> expr T -> Prop :=
| re_refl : forall e, reachable e e
| re_un : forall s op a, reachable s a -> reachable s (EUn op a)
| re_body : forall s lo hi v a, reachable s a -> reachable s (EInt lo hi v a)
| re_l : forall s op l r, reachable s l -> reachable s (EBin op l r)
| re_r : forall s op l r, reachable s r -> reachable s (EBin op l r)
| re_vec : forall s x es, In x es -> reachable s x -> reachable s (EVec es).

(** [v] with entry [i] changed to [x] (unchanged if there is no entry [i]). *)
Fixpoint update {A : Type} (v : list A) (i : nat) (x : A) : list A :=
  match v, i with
  | [], _ => []
  | _ :: v', O => x :: v'
  | y :: v', S k => y :: update v' k x
  end.

(** The ids start, start + 1, ..., start + k - 1. *)
Fixpoint ids_from (start : N) (k : nat) : list N :=
  match k with O => [] | S k' => start :: ids_from (N.succ start) k' end.

(** No vectors and no integrals (concrete or symbolic) anywhere. *)
Definition plain {T : Type} (e : expr T) : Prop :=
  forall s, subterm s e ->
    match s with
    | EVec _ | EInt _ _ _ _ | EUn (USymInt _) _ => False
    | _ => True
    end.

(** All constants occurring in [e] satisfy [P]. *)
Definition all_consts {T : Type} (P : T -> Prop) (e : expr T) : Prop :=
  forall c, subterm (EConst c) e -> P c.

(** [same R a b]: the two trees are identical except that constants are related by [R]. *)
Inductive same {T : Type} (R : T -> T -> Prop) : expr T -> expr T -> Prop :=
| same_const : forall c d, R c d -> same R (EConst c) (EConst d)
| same_var : forall i, same R (EVar i) (EVar i)
| same_fun : forall i t, same R (EFun i t) (EFun i t)
| same_un : forall op a b, same R a b -> same R (EUn op a) (EUn op b)
| same_int : forall lo hi v a lo' hi' b, same R lo lo' -> same R hi hi' -> same R a b ->
    same R (EInt lo hi v a) (EInt lo' hi' v b)
| same_bin : forall op a b c d, same R a c -> same R b d -> same R (EBin op a b) (EBin op c d)
| same_vec : forall es fs, Forall2 (same R) es fs -> same R (EVec es) (EVec fs).

(** Numeric equality in the sense of the code: d <= c and d >= c. *)
Definition num_equal (n : num) (c d : n) : Prop := n_le n d c = true /\ n_ge n d c = true.

(** Numeric equality is an equivalence on the numbers satisfying [good] (for doubles: not NaN). *)
Record equal_laws (n : num) (good : n -> Prop) : Prop := {
  el_refl : forall c, good c -> num_equal n c c;
  el_sym : forall c d, good c -> good d -> num_equal n c d -> num_equal n d c;
  el_trans : forall c d e, good c -> good d -> good e ->
    num_equal n c d -> num_equal n d e -> num_equal n c e
}.

(** Two outcomes agree, values being related by [R]. *)
Inductive oeq {A : Type} (R : A -> A -> Prop) : outcome A -> outcome A -> Prop :=
| oeq_ok : forall x y, R x y -> oeq R (Ok x) (Ok y)
| oeq_throw : forall x, oeq R (Throw x) (Throw x)
| oeq_ub : oeq R UB UB.

(** Positions in a tree: [DirU] leads to the operand of a unary node or the body of an integral,
    [DirL] and [DirR] to the operands of a binary node. *)
Inductive dir : Type := DirU | DirL | DirR.

(** The subexpression of [e] at a position, if the position exists. *)
Fixpoint at_path {T : Type} (e : expr T) (p : list dir) {struct p} : option (expr T) :=
  match p with
  | [] => Some e
  | DirU :: q =>
      match e with EUn _ a => at_path a q | EInt _ _ _ a => at_path a q | _ => None end
  | DirL :: q => match e with EBin _ l _ => at_path l q | _ => None end
  | DirR :: q => match e with EBin _ _ r => at_path r q | _ => None end
  end.

(** [before p q]: position [p] precedes position [q] when a tree is read with binary nodes between
    their operands and unary nodes in front of their operand. *)
Inductive before : list dir -> list dir -> Prop :=
| bf_un : forall q, before [] (DirU :: q)
| bf_left : forall p, before (DirL :: p) []
| bf_right : forall q, before [] (DirR :: q)
| bf_left_right : forall p q, before (DirL :: p) (DirR :: q)
| bf_same : forall d p q, before p q -> before (d :: p) (d :: q).

(** No binary node strictly above position [p] of [e] is rejected by [step]. *)
Definition not_pruned {T : Type} (step : expr T -> bool) (e : expr T) (p : list dir) : Prop :=
  forall c d q op l r, p = c ++ d :: q -> at_path e c = Some (EBin op l r) ->
    step (EBin op l r) = true.

(** No node strictly above position [p] of [e] is selected by [md]. *)
Definition outermost {T : Type} (md : expr T -> bool) (e : expr T) (p : list dir) : Prop :=
  forall c d q s, p = c ++ d :: q -> at_path e c = Some s -> md s = false.

(** Nodes without scalar operands. *)
Definition leaf {T : Type} (e : expr T) : bool :=
  match e with
  | EConst _ | EVar _ | EFun _ _ | EVec _ => true
  | _ => false
  end.

(** Two inner nodes with the same operation (and, for integrals, the same interval). *)
Definition same_head {T : Type} (a b : expr T) : Prop :=
  match a, b with
  | EUn op _, EUn op' _ => op = op'
  | EInt lo hi v _, EInt lo' hi' v' _ => lo = lo' /\ hi = hi' /\ v = v'
  | EBin op _ _, EBin op' _ _ => op = op'
  | _, _ => False
  end.

(** [blocks x s]: the node [s] has no derivative rule with respect to [x]. *)
Definition blocks {T : Type} (x : dvar) (s : expr T) : bool :=
  match s with
  | EFun _ _ => match x with DVar _ => true | DFun _ _ => false end
  | EUn UGrad _ => match x with DVar _ => true | DFun _ _ => false end
  | EUn UFabs _ | EUn UDiv _ | EUn (UPd _) _ | EUn (USymInt _) _ => true
  | EInt _ _ _ _ => true
  | EBin BUnaryId _ _ => true
  | _ => false
  end.

(** A binary node without binary operation occurs outside integral bounds. *)
Definition malformed {T : Type} (e : expr T) : Prop := exists l r, reachable (EBin BUnaryId l r) e.

(** Number of nodes of a tree (integral bounds included). *)
Fixpoint nodes {T : Type} (e : expr T) : nat :=
  match e with
  | EConst _ | EVar _ | EFun _ _ => 1
  | EUn _ a => S (nodes a)
  | EInt lo hi _ a => S (nodes lo + nodes hi + nodes a)
  | EBin _ l r => S (nodes l + nodes r)
  | EVec es => S (list_sum (map nodes es))
  end.

(** Height of a tree (integral bounds included). *)
Fixpoint height {T : Type} (e : expr T) : nat :=
  match e with
  | EConst _ | EVar _ | EFun _ _ => 1
  | EUn _ a => S (height a)
  | EInt lo hi _ a => S (Nat.max (Nat.max (height lo) (height hi)) (height a))
  | EBin _ l r => S (Nat.max (height l) (height r))
  | EVec es => S (list_max (map height es))
  end.

(** No vector expression occurs in [e]. *)
Definition vector_free {T : Type} (e : expr T) : Prop := forall es, ~ subterm (EVec es) e.
