(** Model of writing expressions with vectors: the operators when an operand is an rt_vector_expr,
    entries and their assignment.  /repo/viennamath/runtime/vector_expr.hpp, forwards.h,
    runtime/operations/rt_rt.hpp. *)
From Coq Require Import ZArith NArith List Bool.
From Verif Require Import Outcome Num RtModel CtModel CtOpsModel QuadModel ApiModel.
Import ListNotations.

Section Vec.
Context (n : Num.num).

(** The generic operator of /repo/viennamath/forwards.h lines 717-760 with a vector as one operand.
    result_of::is_viennamath (lines 411-500) does not hold for vectors, so the other operand decides; the
    instance clones both (/repo/viennamath/runtime/operations/rt_rt.hpp lines 73-114), the vector after its
    conversion to rt_expr (runtime/expr.hpp lines 97-100). *)
Definition generic (op : cop) (a b : obj n) : option (outcome (obj n)) :=
  if is_viennamath n a || is_viennamath n b
  then match to_tree n a, to_tree n b with
       | Some x, Some y => Some (Ok (ORt (EBin (rt_op op) x y)))
       | _, _ => None
       end
  else None.

(** The operators + - * /, /repo/viennamath/runtime/vector_expr.hpp: + and - of two vectors are members
    (lines 61-82); * of two vectors is the dot product (267-277), / of two vectors is ambiguous between
    lines 281-289 and 291-299 (neither is more specialised) and does not compile; * and / of a vector and
    anything else act on the entries (246-264, 281-299; more specialised than the generic operators), if
    the operator for rt_expr and the other operand compiles; + and - with anything else: only the
    generic operators, the constructor from a number is explicit (line 53).  No vector: [operator].
    [None]: does not compile.  [Some UB]: an assert is violated. *)
Definition voperator (op : cop) (a b : obj n) : option (outcome (obj n)) :=
  match a, b with
  | ORt (EVec x), ORt (EVec y) =>
      match op with
      | CPlus => Some (omap (fun z => ORt (EVec z)) (vec_add n x y))
      | CMinus => Some (omap (fun z => ORt (EVec z)) (vec_sub n x y))
      | CMult => Some (omap OExpr (dot n x y))
      | CDiv => None
      end
  | ORt (EVec x), _ =>
      match op with
      | CMult => match to_tree n b with Some s => Some (Ok (ORt (EVec (vec_mul_scalar n x s)))) | None => None end
      | CDiv => match to_tree n b with Some s => Some (Ok (ORt (EVec (vec_div_scalar n x s)))) | None => None end
      | _ => generic op a b
      end
  | _, ORt (EVec y) =>
      match op with
      | CMult => match to_tree n a with Some s => Some (Ok (ORt (EVec (scalar_mul_vec n s y)))) | None => None end
      | CDiv => match to_tree n a with Some s => Some (Ok (ORt (EVec (scalar_div_vec n s y)))) | None => None end
      | _ => generic op a b
      end
  | _, _ => match operator n op a b with Some o => Some (Ok o) | None => None end
  end.

(** The entry [i] replaced: std::vector::operator[] (a base class of rt_vector_expr,
    /repo/viennamath/runtime/vector_expr.hpp line 42) with an assignment to the entry; [UB] beyond the end. *)
Fixpoint set_entry (es : list (expr n)) (i : nat) (e : expr n) : outcome (list (expr n)) :=
  match es, i with
  | [], _ => UB
  | _ :: es', O => Ok (e :: es')
  | x :: es', S i' => omap (cons x) (set_entry es' i' e)
  end.

(** What a user writes: [VScalar]: an expression without vectors; [VNew k]: vector_expr(k)
    (/repo/viennamath/runtime/vector_expr.hpp lines 53-58); [VSet v i s]: the vector v after v[i] = s;
    [VAt v i]: its entry v[i], an rt_expr; [VOp]: the operators. *)
Inductive vsrc : Type :=
| VScalar (s : src n)
| VNew (k : nat)
| VSet (v : vsrc) (i : nat) (s : vsrc)
| VAt (v : vsrc) (i : nat)
| VOp (op : cop) (a b : vsrc).

(** The object it yields, parts cited at [vsrc], [voperator], [set_entry]; the assignment to an entry is
    [assign_expr] (/repo/viennamath/runtime/expr.hpp lines 123-198).  v[i] compiles for vectors only.
    Simplified: undefined behaviour of a part is that of the whole. *)
Fixpoint vbuild (s : vsrc) : option (outcome (obj n)) :=
  match s with
  | VScalar s => match build n s with Some o => Some (Ok o) | None => None end
  | VNew k => Some (Ok (ORt (EVec (vec_new n k))))
  | VSet v i s =>
      match vbuild v, vbuild s with
      | Some (Ok (ORt (EVec es))), Some (Ok o) =>
          match assign_expr n o with
          | Some (OExpr e) => Some (omap (fun es' => ORt (EVec es')) (set_entry es i e))
          | _ => None
          end
      | Some UB, Some _ | Some _, Some UB => Some UB
      | _, _ => None
      end
  | VAt v i =>
      match vbuild v with
      | Some (Ok (ORt (EVec es))) => match nth_error es i with Some e => Some (Ok (OExpr e)) | None => Some UB end
      | Some UB => Some UB
      | _ => None
      end
  | VOp op a b =>
      match vbuild a, vbuild b with
      | Some (Ok x), Some (Ok y) => voperator op x y
      | Some UB, Some _ | Some _, Some UB => Some UB
      | _, _ => None
      end
  end.
End Vec.
Arguments VScalar {n} s.
Arguments VNew {n} k.
Arguments VSet {n} v i s.
Arguments VAt {n} v i.
Arguments VOp {n} op a b.
