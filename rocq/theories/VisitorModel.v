(** Traversal and manipulation with functors of the user that have a state, may answer differently each
    time, and may throw (runtime/functor_wrapper.hpp lines 30-112). *)
From Coq Require Import ZArith NArith List Bool Arith.
From Verif Require Import Outcome Num RtModel RtSpec HeapModel.
Import ListNotations.

Section Traversal.
Context (n : num).

(** The rest of the program as a traversal functor sees and changes it: its members are const, but may
    refer to anything (runtime/functor_wrapper.hpp lines 70-79).  No code of its own. *)
Context (S : Type).

(** step_into() and operator() of the functor, runtime/functor_wrapper.hpp lines 76 and 79.  The pointer
    they get tells the node and where it is in the expression; here it is given as its position and its
    value.  Their result is a value or an exception, together with the new state. *)
Context (step : list dir -> expr n -> S -> outcome bool * S).
Context (visit : list dir -> expr n -> S -> outcome unit * S).

(** One statement after another; an exception leaves the function.  No code of its own, e.g.
    /repo/viennamath/runtime/unary_expr.hpp lines 332-333. *)
Definition after (a b : S -> outcome unit * S) (s : S) : outcome unit * S :=
  match a s with
  | (Ok _, s') => b s'
  | r => r
  end.

(** recursive_traversal of the node [e] at position [p]: runtime/expression_interface.hpp line 77 (all
    classes without an override), runtime/unary_expr.hpp lines 330-334, runtime/binary_expr.hpp
    lines 432-442. *)
Fixpoint walk (p : list dir) (e : expr n) (s : S) : outcome unit * S :=
  match e with
  | EConst _ | EVar _ | EFun _ _ | EVec _ => visit p e s
  | EUn _ a | EInt _ _ _ a => after (visit p e) (walk (p ++ [DirU]) a) s
  | EBin _ l r =>
      match step p e s with
      | (Ok true, s') =>
          after (walk (p ++ [DirL]) l) (after (visit p e) (walk (p ++ [DirR]) r)) s'
      | (Ok false, s') => visit p e s'
      | (Throw x, s') => (Throw x, s')
      | (UB, s') => (UB, s')
      end
  end.
End Traversal.

Section Manipulation.
Context (n : num).
Context (order : nat -> bool).

(** modifies() and operator() of a manipulation functor of the user, runtime/functor_wrapper.hpp lines 43
    and 46: the one reads the expression behind the pointer, the other makes a new one; both may throw.
    Simplified: no state besides the expressions. *)
Context (modifies : mem n -> nat -> outcome bool).
Context (apply : nat -> M n nat).

(** recursive_manipulation: runtime/expression_interface.hpp line 75 (all classes without an override),
    runtime/unary_expr.hpp lines 320-327, runtime/binary_expr.hpp lines 421-429; the wrapper passes the
    calls on (runtime/functor_wrapper.hpp lines 56-61). *)
Fixpoint hmanipulate_f (fuel : nat) (a : nat) : M n nat :=
  match fuel with
  | O => fun _ => RUB
  | S k =>
      c <- reading (fun m => load m a);
      match c with
      | HConst _ | HVar _ | HFun _ _ | HVec _ => apply a
      | HUn q p =>
          b <- reading (fun m => modifies m a);
          if b then apply a else new_un_like n order (hmanipulate_f k q) p
      | HBin l p r =>
          b <- reading (fun m => modifies m a);
          if b then apply a else new_bin_like n order p (hmanipulate_f k l) (hmanipulate_f k r)
      | _ => fun _ => RUB
      end
  end.
(** As above, /repo/viennamath/runtime/binary_expr.hpp lines 421-429. *)
Definition hmanipulate (a : nat) : M n nat := fun m => hmanipulate_f (enough m) a m.
End Manipulation.
