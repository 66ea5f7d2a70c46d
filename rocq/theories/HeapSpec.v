(** Specification for theorems C23 and C24: which expression a pointer stands for and which nodes
    belong to it, and the behaviour of programs over a store of plain values. *)
From Coq Require Import ZArith NArith List Bool Arith.
From Verif Require Import Outcome Num RtModel HeapModel.
Import ListNotations.

Section HeapSpec.
Context (n : num).

(** [owns m a e fp]: the pointer [a] is the root of a tree of nodes standing for [e]; [fp] lists
    the addresses of all nodes and operation objects of the tree, one for each way to reach it.
    ([fp] without repetitions: no node is shared.) *)
Inductive opval : Type :=
| OUn (op : uop)
| OBin (op : bop)
| OInt (lo hi : expr n) (var : N).
Inductive owns (m : mem n) : nat -> expr n -> list nat -> Prop :=
| owns_const a c : at_ m a = Some (HConst c) -> owns m a (EConst c) [a]
| owns_var a i : at_ m a = Some (HVar i) -> owns m a (EVar i) [a]
| owns_fun a i t : at_ m a = Some (HFun i t) -> owns m a (EFun i t) [a]
| owns_un a q p op e f g : at_ m a = Some (HUn q p) -> owns m q e f -> owns_op m p (OUn op) g ->
    owns m a (EUn op e) (a :: f ++ g)
| owns_int a q p lo hi v e f g : at_ m a = Some (HUn q p) -> owns m q e f ->
    owns_op m p (OInt lo hi v) g -> owns m a (EInt lo hi v e) (a :: f ++ g)
| owns_bin a l p r op x y f g h : at_ m a = Some (HBin l p r) -> owns m l x f ->
    owns_op m p (OBin op) g -> owns m r y h -> owns m a (EBin op x y) (a :: f ++ g ++ h)
| owns_vec a ps es f : at_ m a = Some (HVec ps) -> owns_list m ps es f -> owns m a (EVec es) (a :: f)
with owns_op (m : mem n) : nat -> opval -> list nat -> Prop :=
| owns_uop p op : at_ m p = Some (HUop op) -> owns_op m p (OUn op) [p]
| owns_bop p op : at_ m p = Some (HBop op) -> owns_op m p (OBin op) [p]
| owns_integral p lo hi v x y f g : at_ m p = Some (HIntegral lo hi v) -> owns m lo x f ->
    owns m hi y g -> owns_op m p (OInt x y v) (p :: f ++ g)
with owns_list (m : mem n) : list nat -> list (expr n) -> list nat -> Prop :=
| owns_nil : owns_list m [] [] []
| owns_cons p e f ps es g : owns m p e f -> owns_list m ps es g ->
    owns_list m (p :: ps) (e :: es) (f ++ g).

(** An rt_expr object holds NULL (and no nodes) or owns an expression. *)
Definition holds_value (m : mem n) (s : slot) (v : option (expr n)) (fp : list nat) : Prop :=
  match s, v with
  | None, None => fp = []
  | Some a, Some e => owns m a e fp
  | _, _ => False
  end.

(** A store of plain values: for each object in scope [Some None] if it is empty, otherwise its
    expression. *)
Definition store : Type := nat -> option (option (expr n)).

(** The values of the objects of a program agree with a store, and no two objects share a node. *)
Definition agrees (env : vars) (m : mem n) (st : store) (own : nat -> list nat) : Prop :=
  (forall x, match env x, st x with
             | None, None => own x = []
             | Some s, Some v => holds_value m s v (own x) /\ NoDup (own x)
             | _, _ => False
             end) /\
  (forall x y a, In a (own x) -> In a (own y) -> x = y).

(** inplace_simplify on a value.  If it throws, the value of the last completed round remains. *)
Fixpoint settle_f (fuel : nat) (e : expr n) : expr n * outcome unit :=
  match fuel with
  | O => (e, UB)
  | S k =>
      match can_simplify n e with
      | Ok true =>
          match simplify n e with
          | Ok e' => settle_f k e'
          | Throw x => (e, Throw x)
          | UB => (e, UB)
          end
      | Ok false => (e, Ok tt)
      | Throw x => (e, Throw x)
      | UB => (e, UB)
      end
  end.
Definition settle (e : expr n) : expr n * outcome unit := settle_f (S (weight n e)) e.

(** The value of an object; UB if it is not in scope or empty. *)
Definition value_of (st : store) (x : nat) : outcome (expr n) :=
  match st x with Some (Some e) => Ok e | _ => UB end.
Definition leaf_value (l : leaf n) : expr n :=
  match l with LConst _ c => EConst c | LVar _ i => EVar i | LFun _ i t => EFun i t end.

(** What a source stands for. *)
Definition source_spec (st : store) (s : source n) : outcome (option (expr n)) :=
  match s with
  | SLeaf _ l => Ok (Some (leaf_value l))
  | SNumber _ c => Ok (Some (EBin BUnaryId (EConst c) (EConst c)))
  | SCopy _ y => match st y with Some v => Ok v | None => UB end
  | SBin _ op y z =>
      bind (value_of st y) (fun a => bind (value_of st z) (fun b => Ok (Some (EBin op a b))))
  | SUn _ op y => bind (value_of st y) (fun a => Ok (Some (EUn op a)))
  | SIntegral _ lo hi v y =>
      bind (value_of st lo) (fun a => bind (value_of st hi) (fun b => bind (value_of st y) (fun c =>
        Ok (Some (EInt a b v c)))))
  | SVector _ ys => omap (fun es => Some (EVec es)) (oseq (map (value_of st) ys))
  | SSimplify _ y => bind (value_of st y) (fun a => omap Some (simplify_top n a))
  | SDiff _ x y => bind (value_of st y) (fun a => omap Some (diff_top n x a))
  | SSubst _ u r y =>
      bind (value_of st y) (fun a => bind (value_of st u) (fun s => bind (value_of st r) (fun p =>
        omap Some (subst1_top n s p a))))
  | SSubstAll _ us rs y =>
      bind (value_of st y) (fun a => bind (oseq (map (value_of st) us)) (fun ss =>
        bind (oseq (map (value_of st) rs)) (fun ps => omap Some (substv_top n ss ps a))))
  | SSubstInterval _ lo hi v y =>
      bind (value_of st lo) (fun a => bind (value_of st hi) (fun b => bind (value_of st y) (fun c =>
        Ok (Some (subst_interval n 0 a b v c)))))
  end.

(** One statement over a store; [None]: undefined behaviour. *)
Definition exec_spec (s : stmt n) (st : store) : option (event n * store) :=
  match s with
  | Declare _ x => match st x with None => Some (Done n, upd st x (Some None)) | Some _ => None end
  | Init _ x src =>
      match st x with
      | Some _ => None
      | None =>
          match source_spec st src with
          | Ok v => Some (Done n, upd st x (Some v))
          | Throw _ => Some (Raised n, st)
          | UB => None
          end
      end
  | Assign _ x src =>
      match st x with
      | None => None
      | Some _ =>
          match source_spec st src with
          | Ok (Some e) => Some (Done n, upd st x (Some (Some e)))
          | Ok None => None
          | Throw _ => Some (Raised n, st)
          | UB => None
          end
      end
  | Inplace _ x =>
      match value_of st x with
      | Ok e =>
          match settle e with
          | (e', Ok _) => Some (Done n, upd st x (Some (Some e')))
          | (e', Throw _) => Some (Raised n, upd st x (Some (Some e')))
          | (_, UB) => None
          end
      | _ => None
      end
  | Destroy _ x => match st x with Some _ => Some (Done n, upd st x None) | None => None end
  | Eval _ x v =>
      match bind (value_of st x) (fun e => eval n e v) with
      | Ok r => Some (Value n r, st)
      | Throw _ => Some (Raised n, st)
      | UB => None
      end
  end.

(** A history over a store. *)
Fixpoint exec_all_spec (l : list (stmt n)) (st : store) : option (list (event n) * store) :=
  match l with
  | [] => Some ([], st)
  | s :: l' =>
      match exec_spec s st with
      | None => None
      | Some (ev, st') =>
          match exec_all_spec l' st' with
          | None => None
          | Some (evs, st'') => Some (ev :: evs, st'')
          end
      end
  end.

(** The object a statement is about: the only one it may change. *)
Definition target (s : stmt n) : option nat :=
  match s with
  | Declare _ x | Init _ x _ | Assign _ x _ | Inplace _ x | Destroy _ x => Some x
  | Eval _ _ _ => None
  end.

(** No object in scope. *)
Definition no_store : store := fun _ => None.

(** A gradient occurs in the expression. *)
Fixpoint has_grad (e : expr n) : bool :=
  match e with
  | EConst _ | EVar _ | EFun _ _ => false
  | EUn UGrad _ => true
  | EUn _ a => has_grad a
  | EInt _ _ _ a => has_grad a
  | EBin _ l r => has_grad l || has_grad r
  | EVec es => existsb has_grad es
  end.

(** The statements that may leak: those that end with an exception, and the derivative of an
    expression containing a gradient with respect to a function symbol. *)
Definition gradient_by_symbol (st : store) (s : stmt n) : bool :=
  match s with
  | Init _ _ (SDiff _ (DFun _ _) y) | Assign _ _ (SDiff _ (DFun _ _) y) =>
      match st y with Some (Some e) => has_grad e | _ => false end
  | _ => false
  end.
Fixpoint tidy (l : list (stmt n)) (st : store) : Prop :=
  match l with
  | [] => True
  | s :: l' =>
      match exec_spec s st with
      | None => True
      | Some (ev, st') => ev <> Raised n /\ gradient_by_symbol st s = false /\ tidy l' st'
      end
  end.

(** Every vector inside the expression has [k] entries. *)
Fixpoint vectors_of (k : nat) (e : expr n) : bool :=
  match e with
  | EConst _ | EVar _ | EFun _ _ => true
  | EUn _ a => vectors_of k a
  | EInt lo hi _ a => vectors_of k lo && vectors_of k hi && vectors_of k a
  | EBin _ l r => vectors_of k l && vectors_of k r
  | EVec es => Nat.eqb (length es) k && forallb (vectors_of k) es
  end.

(** The objects whose expression a statement reads.  (Initialising a copy of an empty object is
    allowed, assigning from one is not.) *)
Definition operands (s : source n) : list nat :=
  match s with
  | SLeaf _ _ | SNumber _ _ | SCopy _ _ => []
  | SBin _ _ y z => [y; z]
  | SUn _ _ y | SSimplify _ y | SDiff _ _ y => [y]
  | SIntegral _ lo hi _ y => [lo; hi; y]
  | SVector _ ys => ys
  | SSubst _ u r y => [u; r; y]
  | SSubstAll _ us rs y => y :: us ++ rs
  | SSubstInterval _ lo hi _ y => [lo; hi; y]
  end.
Definition reads_from (s : stmt n) : list nat :=
  match s with
  | Declare _ _ | Destroy _ _ => []
  | Init _ _ src => operands src
  | Assign _ _ (SCopy _ y) => [y]
  | Assign _ _ src => operands src
  | Inplace _ x | Eval _ x _ => [x]
  end.

(** The rules of scope: only objects in scope are mentioned, and none is declared twice. *)
Definition source_scoped (st : store) (s : source n) : Prop :=
  match s with SCopy _ y => st y <> None | _ => forall y, In y (operands s) -> st y <> None end.
Definition scoped (st : store) (s : stmt n) : Prop :=
  match s with
  | Declare _ x => st x = None
  | Init _ x src => st x = None /\ source_scoped st src
  | Assign _ x src => st x <> None /\ source_scoped st src
  | Inplace _ x | Destroy _ x | Eval _ x _ => st x <> None
  end.

(** A history without an object that is used empty, all vectors having [k] entries; substitute is given
    as many replacements as expressions to search for. *)
Definition vector_size (s : stmt n) (k : nat) : Prop :=
  match s with
  | Init _ _ (SVector _ ys) | Assign _ _ (SVector _ ys) => length ys = k
  | Init _ _ (SSubstAll _ us rs _) | Assign _ _ (SSubstAll _ us rs _) => length us = length rs
  | _ => True
  end.
Fixpoint careful (k : nat) (l : list (stmt n)) (st : store) : Prop :=
  match l with
  | [] => True
  | s :: l' =>
      scoped st s /\ (forall y, In y (reads_from s) -> st y <> Some None) /\ vector_size s k /\
      forall ev st', exec_spec s st = Some (ev, st') -> careful k l' st'
  end.
End HeapSpec.
