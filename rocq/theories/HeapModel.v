(** Model of the memory behind run-time expressions: nodes allocated with new, std::auto_ptr members
    and rt_expr objects, clone(), destruction, and the virtual functions as they walk through
    pointers and allocate.  RtModel.v models the same virtual functions on trees; theorems C23 and
    C24 relate the two. *)
From Coq Require Import ZArith NArith List Bool Arith.
From Verif Require Import Outcome Num RtModel.
Import ListNotations.

(** One heap allocation.  The members are those of rt_constant (runtime/constant.hpp 39-141),
    rt_variable (runtime/variable.hpp 94-243), rt_function_symbol (runtime/function_symbol.hpp
    40-160), rt_unary_expr (runtime/unary_expr.hpp lines 336-338), rt_binary_expr
    (runtime/binary_expr.hpp lines 444-450), rt_vector_expr (runtime/vector_expr.hpp 42-43: a
    std::vector of rt_expr), and the operation objects op_unary (runtime/unary_operators.hpp
    77-138; for op_rt_integral with the rt_interval of runtime/interval.hpp lines 62-64) and op_binary
    (runtime/binary_operators.hpp 80-140).  Pointers are numbers.  Simplified: the buffer of a std::vector
    is part of its node; the op_unary<op_id> that binary_expr.hpp 194 and 212 store in a binary
    expression is [HBop BUnaryId]; entries of vectors and bounds of intervals are not NULL. *)
Inductive cell (T : Type) : Type :=
| HConst (c : T)
| HVar (id : N)
| HFun (id tag : N)
| HUn (child op : nat)
| HBin (l op r : nat)
| HVec (entries : list nat)
| HUop (op : uop)
| HIntegral (lo hi : nat) (var : N)
| HBop (op : bop).
Arguments HConst {T} c.
Arguments HVar {T} id.
Arguments HFun {T} id tag.
Arguments HUn {T} child op.
Arguments HBin {T} l op r.
Arguments HVec {T} entries.
Arguments HUop {T} op.
Arguments HIntegral {T} lo hi var.
Arguments HBop {T} op.

(** The heap: what is allocated at each address, and the next unused address.  Addresses are not
    used again, so every access through a dangling pointer is noticed.  No code of its own. Used by every
    new and delete, e.g. /repo/viennamath/runtime/binary_expr.hpp line 334. *)
Record mem (T : Type) : Type := Mem { next : nat; at_ : nat -> option (cell T) }.
Arguments Mem {T} next at_.
Arguments next {T} m.
Arguments at_ {T} m a.

(** Result of a piece of code that uses the heap: normal return, exception (the heap at that time
    matters: it may contain leaked nodes), or undefined behaviour.  No code of its own. Exceptions:
    /repo/viennamath/exception.hpp lines 32-140. *)
Inductive res (T A : Type) : Type :=
| ROk (m : mem T) (a : A)
| RThrow (m : mem T) (x : exn)
| RUB.
Arguments ROk {T A} m a.
Arguments RThrow {T A} m x.
Arguments RUB {T A}.

(** Code that uses the heap, returning, and sequencing.  No code of its own. Used for all functions below,
    e.g. /repo/viennamath/runtime/expr.hpp lines 114-133. *)
Definition M (T A : Type) : Type := mem T -> res T A.
(** As above; a return statement, e.g. /repo/viennamath/runtime/expr.hpp line 132. *)
Definition ret {T A : Type} (a : A) : M T A := fun m => ROk m a.
(** As above; one statement after another, e.g. /repo/viennamath/runtime/expr.hpp lines 131-132. *)
Definition mbind {T A B : Type} (c : M T A) (f : A -> M T B) : M T B := fun m =>
  match c m with
  | ROk m' a => f a m'
  | RThrow m' x => RThrow m' x
  | RUB => RUB
  end.
Notation "x <- c ; d" := (mbind c (fun x => d)) (at level 100, c at next level, right associativity).

(** new, and the deallocation done by delete: UB if the address is not allocated (double free).
    No code of its own. E.g. /repo/viennamath/runtime/constant.hpp line 67. *)
Definition set {T : Type} (f : nat -> option (cell T)) (a : nat) (c : option (cell T)) :=
  fun b => if Nat.eqb b a then c else f b.
(** new, e.g. /repo/viennamath/runtime/constant.hpp line 67. No code of its own. *)
Definition alloc {T : Type} (c : cell T) : M T nat := fun m =>
  ROk (Mem (S (next m)) (set (at_ m) (next m) (Some c))) (next m).
(** Deallocation by delete, e.g. of the auto_ptr of /repo/viennamath/runtime/expr.hpp line 267. No code of
    its own. *)
Definition dealloc {T : Type} (a : nat) : M T unit := fun m =>
  match at_ m a with
  | Some _ => ROk (Mem (next m) (set (at_ m) a None)) tt
  | None => RUB
  end.

(** Reading through a pointer; UB if it dangles.  Code that only reads the heap.  No code of its own. E.g.
    /repo/viennamath/runtime/unary_expr.hpp line 202. *)
Definition load {T : Type} (m : mem T) (a : nat) : outcome (cell T) :=
  match at_ m a with Some c => Ok c | None => UB end.
(** Code that only reads the heap, e.g. /repo/viennamath/runtime/unary_expr.hpp lines 200-203. No code of
    its own. *)
Definition reading {T A : Type} (f : mem T -> outcome A) : M T A := fun m =>
  match f m with Ok x => ROk m x | Throw x => RThrow m x | UB => RUB end.

(** A bound on the depth of recursion that suffices for every expression in the heap: it is not
    part of the code, and theorem C24 shows that it suffices. For recursions such as
    /repo/viennamath/runtime/binary_expr.hpp line 334. *)
Definition enough {T : Type} (m : mem T) : nat := S (6 * next m).

Section Heap.
Context (n : num).

(** The choices of the compiler: in which order the two arguments of a call are computed, as
    a function of the next free address (so that every call may be ordered differently); see e.g.
    runtime/binary_expr.hpp lines 300 and 334. *)
Context (order : nat -> bool).

(** Two arguments of a call, the first one computed first or last. E.g.
    /repo/viennamath/runtime/binary_expr.hpp line 300. *)
Definition two {A B C : Type} (first : bool) (a : outcome A) (b : outcome B)
    (f : A -> B -> outcome C) : outcome C :=
  if first then bind a (fun x => bind b (fun y => f x y))
  else bind b (fun y => bind a (fun x => f x y)).
(** The same for arguments that allocate, e.g. /repo/viennamath/runtime/binary_expr.hpp line 334. *)
Definition args {A B C : Type} (a : M n A) (b : M n B) (f : A -> B -> M n C) : M n C := fun m =>
  if order (next m) then (x <- a; y <- b; f x y) m else (y <- b; x <- a; f x y) m.

(** Destructors: ~rt_expression_interface and ~op_interface are virtual
    (runtime/expression_interface.hpp line 43, runtime/op_interface.hpp line 43); the auto_ptr
    members (files cited at [cell]) delete what they point to, in reverse order of declaration, then
    the node is deallocated. *)
Fixpoint delete_f (fuel : nat) (a : nat) : M n unit :=
  match fuel with
  | O => fun _ => RUB
  | S k =>
      c <- reading (fun m => load m a);
      _ <- match c with
           | HConst _ | HVar _ | HFun _ _ | HUop _ | HBop _ => ret tt
           | HUn q p => _ <- delete_f k p; delete_f k q
           | HBin l p r => _ <- delete_f k r; _ <- delete_f k p; delete_f k l
           | HVec ps =>
               (fix loop (ps : list nat) : M n unit :=
                  match ps with
                  | [] => ret tt
                  | p :: ps' => _ <- delete_f k p; loop ps'
                  end) ps
           | HIntegral lo hi _ => _ <- delete_f k hi; delete_f k lo
           end;
      dealloc a
  end.

(** delete p, for any node or operation object. E.g. by ~auto_ptr, /repo/viennamath/runtime/expr.hpp line
    267. *)
Definition delete (a : nat) : M n unit := fun m => delete_f (enough m) a m.

(** The constructor rt_vector_expr(num), runtime/vector_expr.hpp lines 53-58: every entry is
    assigned a constant zero, which is cloned to the heap (runtime/expr.hpp lines 169-174). *)
Fixpoint zeros (k : nat) : M n (list nat) :=
  match k with
  | O => ret []
  | S k' => z <- alloc (HConst (c0 n)); zs <- zeros k'; ret (z :: zs)
  end.

(** The loops [result[i] = ...] over the entries of a vector made by the above constructor,
    e.g. runtime/vector_expr.hpp lines 93-95: each entry is computed by [f], then the old entry is
    deleted (auto_ptr assignment, runtime/expr.hpp lines 129-133). *)
Fixpoint fill {X : Type} (f : X -> M n nat) (xs : list X) (zs : list nat) : M n (list nat) :=
  match xs, zs with
  | x :: xs', z :: zs' => q <- f x; _ <- delete z; qs <- fill f xs' zs'; ret (q :: qs)
  | _, _ => ret []
  end.

(** A new rt_vector_expr with entries computed by [f]: runtime/vector_expr.hpp lines 89-98
    (clone), 167-172 (substitute), 215-220 (diff).  Simplified: the node is allocated last.
    If [f] throws, the vector and its entries are leaked, as in the code. *)
Definition new_vector {X : Type} (f : X -> M n nat) (xs : list X) : M n nat :=
  zs <- zeros (length xs); qs <- fill f xs zs; alloc (HVec qs).

(** op_unary::clone, runtime/unary_operators.hpp line 96, op_binary::clone,
    runtime/binary_operators.hpp line 95: new object, copying the rt_interval for an integral
    (runtime/interval.hpp lines 47-48); [f] is clone() of expressions. *)
Definition clone_op_with (f : nat -> M n nat) (p : nat) : M n nat :=
  c <- reading (fun m => load m p);
  match c with
  | HUop op => alloc (HUop op)
  | HBop op => alloc (HBop op)
  | HIntegral lo hi var => lo' <- f lo; hi' <- f hi; alloc (HIntegral lo' hi' var)
  | _ => fun _ => RUB
  end.

(** Virtual clone(): runtime/constant.hpp 67, runtime/variable.hpp 151, runtime/function_symbol.hpp
    71, runtime/unary_expr.hpp 244, runtime/binary_expr.hpp 334, runtime/vector_expr.hpp 89-98. *)
Fixpoint clone_f (fuel : nat) (a : nat) : M n nat :=
  match fuel with
  | O => fun _ => RUB
  | S k =>
      c <- reading (fun m => load m a);
      match c with
      | HConst _ | HVar _ | HFun _ _ => alloc c
      | HUn q p => args (clone_f k q) (clone_op_with (clone_f k) p) (fun q' p' => alloc (HUn q' p'))
      | HBin l p r =>
          args (clone_f k l) (clone_f k r) (fun l' r' =>
            p' <- clone_op_with (clone_f k) p; alloc (HBin l' p' r'))
      | HVec ps => new_vector (clone_f k) ps
      | _ => fun _ => RUB
      end
  end.
(** Virtual clone(), /repo/viennamath/runtime/expression_interface.hpp line 46 (implementations cited
    above). *)
Definition clone (a : nat) : M n nat := fun m => clone_f (enough m) a m.
(** Virtual clone() of operations, /repo/viennamath/runtime/unary_operators.hpp line 96,
    binary_operators.hpp line 95. *)
Definition clone_op (p : nat) : M n nat := clone_op_with clone p.

(** op_->apply(value) for the operation of a unary expression ([u_apply] of RtModel.v);
    runtime/integral.hpp lines 81-85 for an integral. *)
Definition op_apply (m : mem n) (p : nat) (x : n) : outcome n :=
  bind (load m p) (fun c =>
    match c with
    | HUop op => u_apply n op x
    | HIntegral _ _ _ => Throw AnalyticIntegrationNotSupported
    | _ => UB
    end).

(** op_->apply(lhs, rhs) for the operation of a binary expression ([b_apply] of RtModel.v).
    /repo/viennamath/runtime/binary_operators.hpp line 98, op_interface.hpp lines 55-56. *)
Definition op_apply2 (m : mem n) (p : nat) (x y : n) : outcome n :=
  bind (load m p) (fun c => match c with HBop op => b_apply n op x y | _ => UB end).

(** Virtual eval(std::vector<double>): runtime/constant.hpp 70, runtime/variable.hpp 154-160
    and 136-143, runtime/function_symbol.hpp 74, runtime/unary_expr.hpp 200-203,
    runtime/integral.hpp 81-85, runtime/binary_expr.hpp 298-301,
    runtime/vector_expr.hpp 117-120.
    As [eval] of RtModel.v, on the heap. *)
Fixpoint heval_f (fuel : nat) (m : mem n) (a : nat) (v : list n) : outcome n :=
  match fuel with
  | O => UB
  | S k =>
      bind (load m a) (fun c =>
        match c with
        | HConst c => Ok c
        | HVar id =>
            if N.leb (N.of_nat (length v)) id
            then Throw (VariableIndexOutOfBounds id (N.of_nat (length v)))
            else match nth_error v (N.to_nat id) with Some x => Ok x | None => UB end
        | HFun _ _ => Throw ExpressionNotEvaluable
        | HUn q p => bind (heval_f k m q v) (op_apply m p)
        | HBin l p r => two (order a) (heval_f k m l v) (heval_f k m r v) (op_apply2 m p)
        | HVec _ => Throw ExpressionNotEvaluable
        | _ => UB
        end)
  end.
(** eval(std::vector<double>), /repo/viennamath/runtime/unary_expr.hpp lines 200-203 and those cited above. *)
Definition heval (m : mem n) (a : nat) (v : list n) : outcome n := heval_f (enough m) m a v.

(** Virtual unwrap(): runtime/constant.hpp 86, runtime/variable.hpp 180-183,
    runtime/function_symbol.hpp 94, runtime/unary_expr.hpp 264-269,
    runtime/binary_expr.hpp 358-363, runtime/vector_expr.hpp 131-134.
    As [unwrap] of RtModel.v, on the heap. *)
Fixpoint hunwrap_f (fuel : nat) (m : mem n) (a : nat) : outcome n :=
  match fuel with
  | O => UB
  | S k =>
      bind (load m a) (fun c =>
        match c with
        | HConst c => Ok c
        | HVar _ | HFun _ _ | HVec _ => Throw ExpressionNotUnwrappable
        | HUn q p => bind (hunwrap_f k m q) (op_apply m p)
        | HBin l p r => two (order a) (hunwrap_f k m l) (hunwrap_f k m r) (op_apply2 m p)
        | _ => UB
        end)
  end.
(** unwrap(), /repo/viennamath/runtime/unary_expr.hpp lines 264-269 and those cited above. *)
Definition hunwrap (m : mem n) (a : nat) : outcome n := hunwrap_f (enough m) m a.

(** Virtual is_constant(): default false (runtime/expression_interface.hpp 63),
    runtime/constant.hpp 75, runtime/binary_expr.hpp 366; && does not evaluate its
    right operand if the left one is false. *)
Fixpoint his_constant_f (fuel : nat) (m : mem n) (a : nat) : outcome bool :=
  match fuel with
  | O => UB
  | S k =>
      bind (load m a) (fun c =>
        match c with
        | HConst _ => Ok true
        | HBin l _ r =>
            bind (his_constant_f k m l) (fun x => if x then his_constant_f k m r else Ok false)
        | HVar _ | HFun _ _ | HUn _ _ | HVec _ => Ok false
        | _ => UB
        end)
  end.
(** is_constant(), /repo/viennamath/runtime/binary_expr.hpp line 366 and those cited above. *)
Definition his_constant (m : mem n) (a : nat) : outcome bool := his_constant_f (enough m) m a.

(** lhs_->is_constant() && rhs_->is_constant(), e.g. runtime/binary_expr.hpp line 314. *)
Definition both_constant (m : mem n) (l r : nat) : outcome bool :=
  bind (his_constant m l) (fun x => if x then his_constant m r else Ok false).

(** dynamic_cast<rt_vector_expr const *>(p) != NULL, with the entries,
    manipulation/detail/binary_operations.hpp lines 224-225. *)
Definition entries_of (m : mem n) (a : nat) : outcome (option (list nat)) :=
  bind (load m a) (fun c => match c with HVec ps => Ok (Some ps) | _ => Ok None end).

(** Virtual can_simplify(): default false (runtime/expression_interface.hpp 92),
    runtime/unary_expr.hpp 231-239, runtime/binary_expr.hpp 322-330 with can_simplify_impl of
    manipulation/detail/binary_operations.hpp: plus 80-99, minus 152-173, mult 237-275,
    div 334-353; for the malformed node the default of runtime/op_interface.hpp 82-83.
    As [can_simplify] of RtModel.v, on the heap. *)
Definition hconst_eq (m : mem n) (a : nat) (c : n) : outcome bool :=
  bind (his_constant m a) (fun q => if q then omap (fun x => n_eq n x c) (hunwrap m a) else Ok false).
(** As above, /repo/viennamath/runtime/unary_expr.hpp lines 231-239, binary_expr.hpp lines 322-330. *)
Fixpoint hcan_simplify_f (fuel : nat) (m : mem n) (a : nat) : outcome bool :=
  match fuel with
  | O => UB
  | S k =>
      bind (load m a) (fun c =>
        match c with
        | HConst _ | HVar _ | HFun _ _ | HVec _ => Ok false
        | HUn q _ => hcan_simplify_f k m q
        | HBin l p r =>
            bind (both_constant m l r) (fun q =>
              if q then Ok true
              else
                let rest := oor (hcan_simplify_f k m l) (hcan_simplify_f k m r) in
                bind (load m p) (fun c =>
                  match c with
                  | HBop BPlus | HBop BMinus =>
                      oor (hconst_eq m l (c0 n)) (oor (hconst_eq m r (c0 n)) rest)
                  | HBop BMult =>
                      oor (hconst_eq m l (c0 n)) (oor (hconst_eq m l (c1 n))
                        (oor (hconst_eq m r (c0 n)) (oor (hconst_eq m r (c1 n))
                           (bind (entries_of m l) (fun vl => bind (entries_of m r) (fun vr =>
                              match vl, vr with Some _, Some _ => Ok true | _, _ => rest end))))))
                  | HBop BDiv => oor (hconst_eq m l (c0 n)) (oor (hconst_eq m r (c1 n)) rest)
                  | HBop BUnaryId => Ok false
                  | _ => UB
                  end))
        | _ => UB
        end)
  end.
(** can_simplify(), /repo/viennamath/runtime/unary_expr.hpp lines 231-239, binary_expr.hpp lines 322-330. *)
Definition hcan_simplify (m : mem n) (a : nat) : outcome bool := hcan_simplify_f (enough m) m a.

(** Virtual deep_equal(): runtime/constant.hpp 113-120, runtime/variable.hpp 212-219,
    runtime/function_symbol.hpp 120-127, runtime/unary_expr.hpp 295-305,
    runtime/binary_expr.hpp 395-406, runtime/vector_expr.hpp 137-151 (loop over the size
    of [other]; an index beyond the size of [this] is [UB]); equality of two operations by
    dynamic type. *)
Definition op_equal (m : mem n) (p q : nat) : outcome bool :=
  bind (load m p) (fun c => bind (load m q) (fun d =>
    match c, d with
    | HUop a, HUop b => Ok (u_equal a b)
    | HIntegral _ _ _, HIntegral _ _ _ => Ok true
    | HBop a, HBop b => Ok (b_equal a b)
    | _, _ => Ok false
    end)).
(** As above, /repo/viennamath/runtime/unary_expr.hpp lines 295-305, binary_expr.hpp lines 395-406. *)
Fixpoint hdeep_equal_f (fuel : nat) (m : mem n) (a b : nat) : outcome bool :=
  match fuel with
  | O => UB
  | S k =>
      bind (load m a) (fun c => bind (load m b) (fun d =>
        match c, d with
        | HConst x, HConst y => Ok (n_le n y x && n_ge n y x)
        | HVar i, HVar j => Ok (N.eqb j i)
        | HFun i t, HFun j s => Ok (N.eqb j i && N.eqb s t)
        | HUn q p, HUn q' p' =>
            bind (hdeep_equal_f k m q q') (fun x =>
              if x then op_equal m p p' else Ok false)
        | HBin l p r, HBin l' p' r' =>
            bind (hdeep_equal_f k m l l') (fun x =>
              if x then bind (op_equal m p p') (fun y =>
                if y then hdeep_equal_f k m r r' else Ok false) else Ok false)
        | HVec ps, HVec qs =>
            (fix loop (ps qs : list nat) {struct qs} : outcome bool :=
               match qs with
               | [] => Ok true
               | q :: qs' =>
                   match ps with
                   | [] => UB
                   | p :: ps' =>
                       bind (hdeep_equal_f k m p q) (fun x => if x then loop ps' qs' else Ok false)
                   end
               end) ps qs
        | HUop _, _ | HBop _, _ | HIntegral _ _ _, _ => UB
        | _, _ => Ok false
        end))
  end.
(** deep_equal(), /repo/viennamath/runtime/unary_expr.hpp lines 295-305, binary_expr.hpp lines 395-406. *)
Definition hdeep_equal (m : mem n) (a b : nat) : outcome bool := hdeep_equal_f (enough m) m a b.

(** new rt_binary_expr(a, new op_binary<...>(), b), e.g.
    manipulation/detail/binary_operations.hpp lines 73-75. *)
Definition new_bin (op : bop) (a b : M n nat) : M n nat :=
  args a b (fun l r => p <- alloc (HBop op); alloc (HBin l p r)).

(** new rt_unary_expr(a, new op_unary<...>()), e.g.
    manipulation/detail/unary_operations.hpp line 54. *)
Definition new_un (op : uop) (a : M n nat) : M n nat :=
  q <- a; p <- alloc (HUop op); alloc (HUn q p).

(** new rt_unary_expr(a, op_->clone()), e.g. runtime/unary_expr.hpp line 227. *)
Definition new_un_like (a : M n nat) (p : nat) : M n nat :=
  args a (clone_op p) (fun q p' => alloc (HUn q p')).

(** new rt_binary_expr(a, op_->clone(), b), e.g. runtime/binary_expr.hpp lines 375-377. *)
Definition new_bin_like (p : nat) (a b : M n nat) : M n nat :=
  args a b (fun l r => p' <- clone_op p; alloc (HBin l p' r)).

(** A temporary rt_binary_expr object on the stack, the result of the operators of
    runtime/operations/rt_rt.hpp 73-114 applied to clones of [l] and [r]: the three pointers it
    owns.  Its destruction deletes them. *)
Definition stack_bin (op : bop) (l r : nat) : M n (nat * nat * nat) :=
  args (clone l) (clone r) (fun l' r' => p <- alloc (HBop op); ret (l', p, r')).
(** ~rt_binary_expr of such an object: the auto_ptrs of /repo/viennamath/runtime/binary_expr.hpp lines
    444-450. *)
Definition drop_bin (t : nat * nat * nat) : M n unit :=
  match t with (l, p, r) => _ <- delete r; _ <- delete p; delete l end.

(** Copy constructor and clone() of such an object, runtime/binary_expr.hpp lines 155-157 and 334. *)
Definition copy_bin (t : nat * nat * nat) : M n (nat * nat * nat) :=
  match t with (l, p, r) => l' <- clone l; p' <- clone_op p; r' <- clone r; ret (l', p', r') end.
(** As above, /repo/viennamath/runtime/binary_expr.hpp line 334. *)
Definition clone_bin (t : nat * nat * nat) : M n nat :=
  match t with (l, p, r) => new_bin_like p (clone l) (clone r) end.

(** rt_binary_expr::operator=(rt_binary_expr const & other), runtime/binary_expr.hpp lines 200-206, for
    an object on the stack and an [other] on the heap (an operand found by dynamic_cast, say):
    every assignment to an auto_ptr deletes what it held. *)
Definition bin_at (a : nat) : M n (nat * nat * nat) :=
  reading (fun m => bind (load m a) (fun c => match c with HBin l p r => Ok (l, p, r) | _ => UB end)).
(** As above, /repo/viennamath/runtime/binary_expr.hpp lines 200-206. *)
Definition assign_bin (t : nat * nat * nat) (other : nat) : M n (nat * nat * nat) :=
  match t with
  | (l, p, r) =>
      b <- bin_at other; l' <- clone (fst (fst b)); _ <- delete l;
      b <- bin_at other; p' <- clone_op (snd (fst b)); _ <- delete p;
      b <- bin_at other; r' <- clone (snd b); _ <- delete r;
      ret (l', p', r')
  end.

(** The loop of the dot product, runtime/vector_expr.hpp lines 271-275: [acc] is the pointer in
    [result].  [result + lhs[i] * rhs[i]] creates two temporaries, and result takes a clone of the
    second; what it held before is deleted. *)
Fixpoint dot_loop (acc : nat) (ps qs : list nat) : M n nat :=
  match ps, qs with
  | [], [] => ret acc
  | p :: ps', q :: qs' =>
      t <- stack_bin BMult p q;
      s <- args (clone acc) (clone_bin t) (fun l' r' => o <- alloc (HBop BPlus); ret (l', o, r'));
      new <- clone_bin s;
      _ <- delete acc; _ <- drop_bin s; _ <- drop_bin t;
      dot_loop new ps' qs'
  | _, _ => fun _ => RUB
  end.

(** The dot product, runtime/vector_expr.hpp lines 267-277, and
    the clone of its result, manipulation/detail/binary_operations.hpp line 228. *)
Definition hdot (ps qs : list nat) : M n nat :=
  if Nat.eqb (length ps) (length qs) then
    match ps, qs with
    | p :: ps', q :: qs' =>
        t <- stack_bin BMult p q;
        acc <- clone_bin t;
        _ <- drop_bin t;
        result <- dot_loop acc ps' qs';
        c <- clone result;
        _ <- delete result;
        ret c
    | _, _ => fun _ => RUB
    end
  else fun _ => RUB.

(** Virtual simplify(): clone for leaves and vectors (runtime/expression_interface.hpp
    90, default), runtime/unary_expr.hpp 214-228, runtime/binary_expr.hpp 312-319 with
    simplify_impl of manipulation/detail/binary_operations.hpp: plus 50-76, minus 118-148,
    mult 197-233, div 304-330; for the malformed node op_unary::simplify,
    runtime/binary_expr.hpp 464-471.
    As [simplify] of RtModel.v, on the heap. *)
Fixpoint hsimplify_f (fuel : nat) (a : nat) : M n nat :=
  match fuel with
  | O => fun _ => RUB
  | S k =>
      let unw x := reading (fun m => hunwrap m x) in
      let const x := alloc (HConst x) in
      c <- reading (fun m => load m a);
      match c with
      | HConst _ | HVar _ | HFun _ _ | HVec _ => clone a
      | HUn q p =>
          cst <- reading (fun m => his_constant m q);
          if cst then
            o <- reading (fun m => load m p);
            if match o with HUop op => u_can_simplify op | _ => false end
            then x <- unw q; y <- reading (fun m => op_apply m p x); const y
            else new_un_like (x <- unw q; const x) p
          else new_un_like (hsimplify_f k q) p
      | HBin l p r =>
          cst <- reading (fun m => both_constant m l r);
          if cst then x <- unw a; const x
          else
            o <- reading (fun m => load m p);
            cl <- reading (fun m => his_constant m l);
            cr <- reading (fun m => if cl then Ok false else his_constant m r);
            match o with
            | HBop BPlus =>
                if cl then
                  x <- unw l;
                  if n_eq n x (c0 n) then hsimplify_f k r
                  else new_bin BPlus (const x) (hsimplify_f k r)
                else if cr then
                  x <- unw r;
                  if n_eq n x (c0 n) then hsimplify_f k l
                  else new_bin BPlus (hsimplify_f k l) (const x)
                else new_bin BPlus (hsimplify_f k l) (hsimplify_f k r)
            | HBop BMinus =>
                if cl then
                  x <- unw l;
                  if n_eq n x (c0 n) then new_bin BMult (const (cm1 n)) (hsimplify_f k r)
                  else new_bin BMinus (const x) (hsimplify_f k r)
                else if cr then
                  x <- unw r;
                  if n_eq n x (c0 n) then hsimplify_f k l
                  else new_bin BMinus (hsimplify_f k l) (const x)
                else new_bin BMinus (hsimplify_f k l) (hsimplify_f k r)
            | HBop BMult =>
                if cl then
                  x <- unw l;
                  if n_eq n x (c0 n) then const (c0 n)
                  else if n_eq n x (c1 n) then hsimplify_f k r
                  else new_bin BMult (const x) (hsimplify_f k r)
                else if cr then
                  x <- unw r;
                  if n_eq n x (c0 n) then const (c0 n)
                  else if n_eq n x (c1 n) then hsimplify_f k l
                  else new_bin BMult (hsimplify_f k l) (const x)
                else
                  vl <- reading (fun m => entries_of m l);
                  vr <- reading (fun m => entries_of m r);
                  match vl, vr with
                  | Some ps, Some qs => hdot ps qs
                  | _, _ => new_bin BMult (hsimplify_f k l) (hsimplify_f k r)
                  end
            | HBop BDiv =>
                if cl then
                  x <- unw l;
                  if n_eq n x (c0 n) then const (c0 n)
                  else new_bin BDiv (const x) (hsimplify_f k r)
                else if cr then
                  x <- unw r;
                  if n_eq n x (c1 n) then hsimplify_f k l
                  else new_bin BDiv (hsimplify_f k l) (const x)
                else new_bin BDiv (hsimplify_f k l) (hsimplify_f k r)
            | HBop BUnaryId => new_bin BUnaryId (clone l) (clone r)
            | _ => fun _ => RUB
            end
      | _ => fun _ => RUB
      end
  end.
(** simplify(), /repo/viennamath/runtime/unary_expr.hpp lines 214-228, binary_expr.hpp lines 312-319. *)
Definition hsimplify (a : nat) : M n nat := fun m => hsimplify_f (enough m) a m.

(** The entries of a vector in [substitute] and [diff], [*result[i] = rt_expr(...)],
    runtime/vector_expr.hpp lines 170 and 218: a temporary rt_expr owns the new expression, the entry takes
    a clone of it, and the temporary is destroyed.  Simplified: it is destroyed before the old entry. *)
Definition via (c : M n nat) : M n nat := p <- c; q <- clone p; _ <- delete p; ret q.

(** Virtual substitute(e, repl): runtime/constant.hpp 89-97, runtime/variable.hpp 187-196,
    runtime/function_symbol.hpp 97-104, runtime/unary_expr.hpp 272-280,
    runtime/binary_expr.hpp 369-378, runtime/vector_expr.hpp 161-173.
    As [subst1] of RtModel.v, on the heap. *)
Fixpoint hsubst_f (fuel : nat) (s repl a : nat) : M n nat :=
  match fuel with
  | O => fun _ => RUB
  | S k =>
      q <- reading (fun m => hdeep_equal m a s);
      if q then clone repl
      else
        c <- reading (fun m => load m a);
        match c with
        | HConst _ | HVar _ | HFun _ _ => clone a
        | HUn q p => new_un_like (hsubst_f k s repl q) p
        | HBin l p r => new_bin_like p (hsubst_f k s repl l) (hsubst_f k s repl r)
        | HVec ps => new_vector (fun q => via (hsubst_f k s repl q)) ps
        | _ => fun _ => RUB
        end
  end.
(** substitute(e, repl), /repo/viennamath/runtime/unary_expr.hpp lines 272-280, binary_expr.hpp lines
    369-378. *)
Definition hsubst (s repl a : nat) : M n nat := fun m => hsubst_f (enough m) s repl a m.

(** The matching loop of substitute(vector e, vector repl), e.g. runtime/binary_expr.hpp 384-386,
    as [find_match] of RtModel.v, on the heap: the entry of repl to be cloned. *)
Fixpoint hfind (m : mem n) (a : nat) (ss rs : list nat) : outcome (option nat) :=
  match ss with
  | [] => Ok None
  | s :: ss' =>
      bind (hdeep_equal m a s) (fun q =>
        if q then match rs with r :: _ => Ok (Some r) | [] => UB end else hfind m a ss' (tl rs))
  end.

(** Virtual substitute(vector e, vector repl): runtime/constant.hpp 100-110,
    runtime/variable.hpp 199-209, runtime/function_symbol.hpp 107-117,
    runtime/unary_expr.hpp 283-292, runtime/binary_expr.hpp 381-391,
    runtime/vector_expr.hpp 176-189.  As [substv] of RtModel.v, on the heap. *)
Fixpoint hsubstv_f (fuel : nat) (ss rs : list nat) (a : nat) : M n nat :=
  match fuel with
  | O => fun _ => RUB
  | S k =>
      q <- reading (fun m => hfind m a ss rs);
      match q with
      | Some r => clone r
      | None =>
        c <- reading (fun m => load m a);
        match c with
        | HConst _ | HVar _ | HFun _ _ => clone a
        | HUn q p => new_un_like (hsubstv_f k ss rs q) p
        | HBin l p r => new_bin_like p (hsubstv_f k ss rs l) (hsubstv_f k ss rs r)
        | HVec ps => new_vector (fun q => via (hsubstv_f k ss rs q)) ps
        | _ => fun _ => RUB
        end
      end
  end.
(** substitute(vector e, vector repl), /repo/viennamath/runtime/unary_expr.hpp lines 283-292,
    binary_expr.hpp lines 381-391. *)
Definition hsubstv (ss rs : list nat) (a : nat) : M n nat := fun m => hsubstv_f (enough m) ss rs a m.

(** recursive_manipulation with the functor that replaces symbolic integrals: runtime/unary_expr.hpp
    320-327, runtime/binary_expr.hpp 421-429, runtime/expression_interface.hpp 75 (leaves and vectors:
    fw(this), a clone), and detail::integral_substitution_functor, manipulation/substitute.hpp 302-337,
    whose operation ptr_ is the node [o]. *)
Fixpoint hmanip_f (fuel : nat) (o a : nat) : M n nat :=
  match fuel with
  | O => fun _ => RUB
  | S k =>
      c <- reading (fun m => load m a);
      match c with
      | HConst _ | HVar _ | HFun _ _ | HVec _ => clone a
      | HUn q p =>
          d <- reading (fun m => load m p);
          match d with
          | HUop (USymInt _) => new_un_like (clone q) o
          | _ => new_un_like (hmanip_f k o q) p
          end
      | HBin l p r => new_bin_like p (hmanip_f k o l) (hmanip_f k o r)
      | _ => fun _ => RUB
      end
  end.
(** recursive_manipulation, /repo/viennamath/runtime/unary_expr.hpp lines 320-327, binary_expr.hpp lines
    421-429. *)
Definition hmanip (o a : nat) : M n nat := fun m => hmanip_f (enough m) o a m.

(** Virtual diff(diff_var): runtime/constant.hpp 129-132, runtime/variable.hpp 228-239,
    runtime/function_symbol.hpp 136-152, runtime/unary_expr.hpp 314-317 with diff_impl of
    manipulation/detail/unary_operations.hpp (id 41-44, exp 52-57, sin 117-122, cos 190-198,
    tan 264-275, fabs 341-345, sqrt 412-422, log 488-494, log10 565-574, grad 642-664,
    div 686-690, partial derivative 745-749, integrals 756-769),
    runtime/binary_expr.hpp 415-418 with diff_impl of
    manipulation/detail/binary_operations.hpp (plus 41-46, minus 109-114, mult 183-193,
    div 285-300; malformed: runtime/op_interface.hpp 68-70),
    runtime/vector_expr.hpp 213-221.  diff_var points to a variable or
    function symbol on the stack.  In the derivative of a gradient
    (manipulation/detail/unary_operations.hpp lines 642-664) the node new_expr is never deleted unless it equals
    0, and c0 is not deleted if an exception is thrown.  The operation of an integral is
    passed by value (runtime/unary_operators.hpp line 110), i.e. its interval is copied and destroyed
    before the exception arrives at the caller. *)
Fixpoint hdiff_f (fuel : nat) (x : dvar) (a : nat) : M n nat :=
  match fuel with
  | O => fun _ => RUB
  | S k =>
      let const x := alloc (HConst x) in
      let d q := hdiff_f k x q in
      let throw e := fun m => RThrow m e in
      c <- reading (fun m => load m a);
      match c with
      | HConst _ => const (c0 n)
      | HVar i =>
          match x with
          | DVar j => if N.eqb j i then const (c1 n) else const (c0 n)
          | DFun _ _ => const (c0 n)
          end
      | HFun i t =>
          match x with
          | DVar _ => throw ExpressionNotDifferentiable
          | DFun j s => if N.eqb j i && N.eqb s t then const (c1 n) else const (c0 n)
          end
      | HUn q p =>
          o <- reading (fun m => load m p);
          match o with
          | HUop UId => d q
          | HUop UExp => new_bin BMult (new_un UExp (clone q)) (d q)
          | HUop USin => new_bin BMult (new_un UCos (clone q)) (d q)
          | HUop UCos => new_bin BMult (new_un USin (clone q)) (new_bin BMult (const (cm1 n)) (d q))
          | HUop UTan => new_bin BDiv (d q) (new_bin BMult (new_un UCos (clone q)) (new_un UCos (clone q)))
          | HUop UFabs => throw ExpressionNotDifferentiable
          | HUop USqrt => new_bin BDiv (d q) (new_bin BMult (const (c2 n)) (new_un USqrt (clone q)))
          | HUop ULog => new_bin BDiv (d q) (new_un UId (clone q))
          | HUop ULog10 => new_bin BDiv (d q) (new_bin BMult (const (n_ln10 n)) (new_un UId (clone q)))
          | HUop UGrad =>
              match x with
              | DFun _ _ =>
                  zero <- const (c0 n);
                  new_expr <- d q;
                  eq <- reading (fun m => hdeep_equal m new_expr zero);
                  if eq then _ <- delete new_expr; ret zero
                  else _ <- delete zero; new_un UGrad (d q)
              | DVar _ => throw ExpressionNotDifferentiable
              end
          | HUop (UDiv | UPd _ | USymInt _) => throw ExpressionNotDifferentiable
          | HIntegral lo hi _ =>
              lo' <- clone lo; hi' <- clone hi; _ <- delete hi'; _ <- delete lo';
              throw ExpressionNotDifferentiable
          | _ => fun _ => RUB
          end
      | HBin l p r =>
          o <- reading (fun m => load m p);
          match o with
          | HBop BPlus => new_bin BPlus (d l) (d r)
          | HBop BMinus => new_bin BMinus (d l) (d r)
          | HBop BMult =>
              new_bin BPlus (new_bin BMult (d l) (clone r)) (new_bin BMult (clone l) (d r))
          | HBop BDiv =>
              new_bin BDiv
                (new_bin BMinus (new_bin BMult (d l) (clone r)) (new_bin BMult (clone l) (d r)))
                (new_bin BMult (clone r) (clone r))
          | HBop BUnaryId => throw RhsProvidedForUnaryOperation
          | _ => fun _ => RUB
          end
      | HVec ps => new_vector (fun q => via (d q)) ps
      | _ => fun _ => RUB
      end
  end.
(** diff(diff_var), /repo/viennamath/runtime/unary_expr.hpp lines 314-317, binary_expr.hpp lines 415-418. *)
Definition hdiff (x : dvar) (a : nat) : M n nat := fun m => hdiff_f (enough m) x a m.

(** An rt_expr object: its std::auto_ptr, NULL or an address; runtime/expr.hpp line 267.
    [deref]: calling a member function through get(); UB for NULL. *)
Definition slot : Type := option nat.
(** As above, /repo/viennamath/runtime/expr.hpp lines 201 and 267. *)
Definition deref (s : slot) : M n nat :=
  match s with Some a => ret a | None => fun _ => RUB end.

(** ~rt_expr (~auto_ptr). /repo/viennamath/runtime/expr.hpp line 267. *)
Definition destroy (s : slot) : M n unit :=
  match s with Some a => delete a | None => ret tt end.

(** The constructor rt_expr(const InterfaceType * ), runtime/expr.hpp line 53, which takes ownership of the
    pointer, and the pointer returned by get(), line 201. *)
Definition from_pointer (a : nat) : slot := Some a.
(** get(), /repo/viennamath/runtime/expr.hpp line 201. *)
Definition pointer (s : slot) : M n nat := deref s.

(** rt_expr(rt_expr const &), runtime/expr.hpp lines 114-118. *)
Definition copy (s : slot) : M n slot :=
  match s with Some a => b <- clone a; ret (Some b) | None => ret None end.

(** rt_expr::operator=(InterfaceType * ), runtime/expr.hpp lines 123-127 (auto_ptr assignment:
    what was held before is deleted unless it is the same pointer). *)
Definition take (s : slot) (p : nat) : M n slot :=
  _ <- match s with
       | Some a => if Nat.eqb a p then ret tt else delete a
       | None => ret tt
       end;
  ret (Some p).

(** rt_expr::operator=(rt_expr const &), runtime/expr.hpp lines 129-133. *)
Definition assign (s other : slot) : M n slot :=
  a <- deref other; p <- clone a; take s p.

(** inplace_simplify, manipulation/simplify.hpp lines 904-909.  The object is modified also if an
    exception is thrown later, so the function returns it next to the result.  Fuelled as above. *)
Fixpoint hinplace_f (fuel : nat) (s : slot) (m : mem n) : slot * res n unit :=
  match fuel with
  | O => (s, RUB)
  | S k =>
      match (a <- deref s; reading (fun m => hcan_simplify m a)) m with
      | ROk m1 true =>
          match (a <- deref s; p <- hsimplify a; take s p) m1 with
          | ROk m2 s' => hinplace_f k s' m2
          | RThrow m2 x => (s, RThrow m2 x)
          | RUB => (s, RUB)
          end
      | ROk m1 false => (s, ROk m1 tt)
      | RThrow m1 x => (s, RThrow m1 x)
      | RUB => (s, RUB)
      end
  end.
(** inplace_simplify with enough fuel, /repo/viennamath/manipulation/simplify.hpp lines 904-909. *)
Definition hinplace (s : slot) (m : mem n) : slot * res n unit := hinplace_f (enough m) s m.

(** A local object [rt_expr ret(...); inplace_simplify(ret); return ret;], e.g.
    manipulation/simplify.hpp lines 937-943: if an exception is thrown the object is destroyed. *)
Definition simplified (s : slot) : M n slot := fun m =>
  match hinplace s m with
  | (s', ROk m' _) => ROk m' s'
  | (s', RThrow m' x) => match destroy s' m' with ROk m'' _ => RThrow m'' x | RThrow m'' y => RThrow m'' y | RUB => RUB end
  | (_, RUB) => RUB
  end.

(** The expressions on the right of an initialisation or assignment; operands are numbers of rt_expr
    objects.
    [SLeaf]: an rt_constant, rt_variable or rt_function_symbol (runtime/expr.hpp lines 75-100);
    [SNumber]: an rt_binary_expr that was assigned a number (runtime/binary_expr.hpp 223-229);
    [SCopy]: another rt_expr;
    [SBin]: the operators (forwards.h 717-760);
    [SUn]: unary functions, e.g. exp (manipulation/detail/unary_operations.hpp 103-108); simplified:
    all of them are taken to have an overload for rt_expr;
    [SIntegral]: integral(interval(lo, hi), e, var) (runtime/integral.hpp 102-114);
    [SVector]: an rt_vector_expr whose entries are assigned one by one;
    [SSimplify], [SDiff], [SSubst]: the free functions simplify (manipulation/simplify.hpp
    937-943), diff (manipulation/diff.hpp 67-74) and substitute (manipulation/substitute.hpp 256-264);
    [SSubstAll]: substitute with two vectors (manipulation/substitute.hpp 268-286), which hold the
    rt_expr objects [us] and [rs]; simplified: the vectors hold the objects themselves, not copies;
    [SSubstInterval]: substitute(symbolic_interval(), make_pair(interval(lo, hi), var), e)
    (manipulation/substitute.hpp 350-362). *)
Inductive leaf : Type := LConst (c : n) | LVar (id : N) | LFun (id tag : N).
(** As above: /repo/viennamath/runtime/expr.hpp lines 75-118 and the functions cited above. *)
Inductive source : Type :=
| SLeaf (l : leaf)
| SNumber (c : n)
| SCopy (y : nat)
| SBin (op : bop) (y z : nat)
| SUn (op : uop) (y : nat)
| SIntegral (lo hi : nat) (var : N) (y : nat)
| SVector (ys : list nat)
| SSimplify (y : nat)
| SDiff (x : dvar) (y : nat)
| SSubst (search repl y : nat)
| SSubstAll (us rs : list nat) (y : nat)
| SSubstInterval (lo hi : nat) (var : N) (y : nat).

(** Statements: declaration without initialiser, initialisation, assignment, inplace_simplify,
    end of scope, and evaluation (runtime/expr.hpp lines 233-237). *)
Inductive stmt : Type :=
| Declare (x : nat)
| Init (x : nat) (s : source)
| Assign (x : nat) (s : source)
| Inplace (x : nat)
| Destroy (x : nat)
| Eval (x : nat) (v : list n).

(** The rt_expr objects in scope, by number.  No code of its own. Class: /repo/viennamath/runtime/expr.hpp
    lines 38-267. *)
Definition vars : Type := nat -> option slot.
(** Change of one object in scope (class /repo/viennamath/runtime/expr.hpp lines 43-268). No code of its
    own. *)
Definition upd {A : Type} (f : nat -> A) (x : nat) (v : A) : nat -> A :=
  fun y => if Nat.eqb y x then v else f y.

(** Access to an object in scope. Class: /repo/viennamath/runtime/expr.hpp lines 43-268. *)
Definition var (env : vars) (x : nat) : M n slot :=
  match env x with Some s => ret s | None => fun _ => RUB end.
(** Calling a member function of what it holds, /repo/viennamath/runtime/expr.hpp line 201. *)
Definition get (env : vars) (x : nat) : M n nat := s <- var env x; deref s.

(** Whether the compiler leaves out the copy of a returned object (it may, but need not). *)
Context (elide : nat -> bool).

(** Return by value: the object [s] is copied to its destination and destroyed, or used directly. E.g.
    /repo/viennamath/manipulation/simplify.hpp lines 937-943. *)
Definition give (s : slot) : M n slot := fun m =>
  if elide (next m) then ROk m s else (t <- copy s; _ <- destroy s; ret t) m.
(** The same for an rt_binary_expr, /repo/viennamath/runtime/operations/rt_rt.hpp lines 73-114. *)
Definition give_bin (t : nat * nat * nat) : M n (nat * nat * nat) := fun m =>
  if elide (next m) then ROk m t else (u <- copy_bin t; _ <- drop_bin t; ret u) m.

(** All objects of a list, none of them empty. As for the vectors of
    /repo/viennamath/manipulation/substitute.hpp lines 268-286. *)
Fixpoint gets (env : vars) (ys : list nat) : M n (list nat) :=
  match ys with
  | [] => ret []
  | y :: ys' => a <- get env y; l <- gets env ys'; ret (a :: l)
  end.

(** The temporary rt_expr a source evaluates to; functions cited at [source].  Simplified:
    temporaries other than this one are destroyed at once instead of at the end of the statement. E.g.
    /repo/viennamath/manipulation/diff.hpp lines 67-74. *)
Definition source_value (env : vars) (s : source) : M n slot :=
  match s with
  | SLeaf (LConst c) => a <- alloc (HConst c); ret (Some a)
  | SLeaf (LVar i) => a <- alloc (HVar i); ret (Some a)
  | SLeaf (LFun i t) => a <- alloc (HFun i t); ret (Some a)
  | SNumber c =>
      l <- alloc (HConst c); p <- alloc (HBop BUnaryId); r <- alloc (HConst c);
      a <- clone_bin (l, p, r); _ <- drop_bin (l, p, r); ret (Some a)
  | SCopy y => s <- var env y; copy s
  | SBin op y z =>
      l <- get env y; r <- get env z;
      t <- stack_bin op l r; t <- give_bin t;
      a <- clone_bin t; _ <- drop_bin t; ret (Some a)
  | SUn op y =>
      b <- get env y;
      q <- clone b; p <- alloc (HUop op);
      a <- new_un_like (clone q) p; _ <- delete p; _ <- delete q; ret (Some a)
  | SIntegral lo hi v y =>
      l <- get env lo; h <- get env hi; b <- get env y;
      l1 <- clone l; h1 <- clone h;
      l2 <- clone l1; h2 <- clone h1;
      q <- clone b;
      l3 <- clone l2; h3 <- clone h2; p <- alloc (HIntegral l3 h3 v);
      a <- alloc (HUn q p);
      _ <- delete h2; _ <- delete l2; _ <- delete h1; _ <- delete l1;
      give (Some a)
  | SVector ys =>
      bs <- gets env ys;
      zs <- zeros (length bs); qs <- fill clone bs zs;
      a <- new_vector clone qs;
      _ <- (fix loop (qs : list nat) : M n unit :=
              match qs with [] => ret tt | q :: qs' => _ <- delete q; loop qs' end) qs;
      ret (Some a)
  | SSimplify y => s <- var env y; t <- copy s; t <- simplified t; give t
  | SDiff x y => a <- get env y; b <- hdiff x a; t <- simplified (Some b); give t
  | SSubst u r y =>
      a <- get env y; s <- get env u; p <- get env r;
      b <- hsubst s p a; t <- simplified (Some b); give t
  | SSubstAll us rs y =>
      a <- get env y; ss <- gets env us; ps <- gets env rs;
      if Nat.eqb (length ss) (length ps)
      then b <- hsubstv ss ps a; t <- simplified (Some b); give t
      else fun _ => RUB
  | SSubstInterval lo hi v y =>
      l <- get env lo; h <- get env hi; b <- get env y;
      l1 <- clone l; h1 <- clone h;
      l2 <- clone l1; h2 <- clone h1;
      l3 <- clone l2; h3 <- clone h2; p <- alloc (HIntegral l3 h3 v);
      _ <- delete h2; _ <- delete l2;
      a <- hmanip p b; t <- give (Some a);
      _ <- delete p; _ <- delete h1; _ <- delete l1; ret t
  end.

(** Whether rt_expr has an assignment operator for the type of the source (runtime/expr.hpp lines
    123-192), which then clones directly; otherwise a temporary rt_expr is made and assigned. *)
Definition direct (s : source) : bool :=
  match s with SLeaf _ | SNumber _ | SBin _ _ _ | SVector _ => true | _ => false end.

(** What the caller sees of a statement: normal end, exception (caught), value. Exceptions:
    /repo/viennamath/exception.hpp lines 32-140. *)
Inductive event : Type := Done | Raised | Value (x : n).

(** One statement; [None] is undefined behaviour (or the use of an object out of scope or a second
    declaration of one in scope, which is not a C++ program). Assignment: /repo/viennamath/runtime/expr.hpp
    lines 123-192; evaluation: lines 233-237; inplace_simplify: manipulation/simplify.hpp lines 904-909. *)
Definition exec (s : stmt) (env : vars) (m : mem n) : option (event * vars * mem n) :=
  match s with
  | Declare x =>
      match env x with
      | None => Some (Done, upd env x (Some None), m)
      | Some _ => None
      end
  | Init x src =>
      match env x with
      | Some _ => None
      | None =>
          match source_value env src m with
          | ROk m' t => Some (Done, upd env x (Some t), m')
          | RThrow m' _ => Some (Raised, env, m')
          | RUB => None
          end
      end
  | Assign x src =>
      match env x with
      | None => None
      | Some old =>
          match
            (match src with
             | SCopy y => o <- var env y; assign old o
             | _ =>
                 t <- source_value env src;
                 if direct src then a <- deref t; take old a
                 else new <- assign old t; _ <- destroy t; ret new
             end) m
          with
          | ROk m' new => Some (Done, upd env x (Some new), m')
          | RThrow m' _ => Some (Raised, env, m')
          | RUB => None
          end
      end
  | Inplace x =>
      match env x with
      | None => None
      | Some old =>
          match hinplace old m with
          | (new, ROk m' _) => Some (Done, upd env x (Some new), m')
          | (new, RThrow m' _) => Some (Raised, upd env x (Some new), m')
          | (_, RUB) => None
          end
      end
  | Destroy x =>
      match env x with
      | None => None
      | Some old =>
          match destroy old m with
          | ROk m' _ => Some (Done, upd env x None, m')
          | RThrow _ _ | RUB => None
          end
      end
  | Eval x v =>
      match (a <- get env x; reading (fun m => heval m a v)) m with
      | ROk m' r => Some (Value r, env, m')
      | RThrow m' _ => Some (Raised, env, m')
      | RUB => None
      end
  end.

(** A history: the statements one after the other, exceptions being caught after each. Statements of a user
    of /repo/viennamath/runtime/expr.hpp lines 43-268; no code of its own. *)
Fixpoint exec_all (l : list stmt) (env : vars) (m : mem n) : option (list event * vars * mem n) :=
  match l with
  | [] => Some ([], env, m)
  | s :: l' =>
      match exec s env m with
      | None => None
      | Some (ev, env', m') =>
          match exec_all l' env' m' with
          | None => None
          | Some (evs, env'', m'') => Some (ev :: evs, env'', m'')
          end
      end
  end.

(** The start: no objects, nothing allocated.  No code of its own. Objects as in
    /repo/viennamath/runtime/expr.hpp lines 43-268. *)
Definition no_vars : vars := fun _ => None.
(** The heap at the start (objects as in /repo/viennamath/runtime/expr.hpp lines 43-268). No code of its
    own. *)
Definition empty_mem : mem n := Mem 0 (fun _ => None).
End Heap.
