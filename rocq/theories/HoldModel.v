(** Model of objects that own one heap object: rt_numerical_quadrature and the functor wrappers. *)
From Coq Require Import ZArith NArith List Bool.
From Verif Require Import Outcome Num RtModel QuadModel.
Import ListNotations.

Section Hold.
(** Heap objects: quadrature rules (runtime/numerical_quadrature.hpp lines 40-54) or functors
    (runtime/functor_wrapper.hpp lines 36-48 and 78-90). *)
Context {P : Type}.
(** clone() of a quadrature rule (runtime/numerical_quadrature.hpp lines 47 and 66). *)
Context (clone : P -> P).
(** Arguments and results of the call operators, and what a call does; [None] stands for a NULL or
    dangling member pointer, whose use is undefined where the call comes to it. *)
Context {I O : Type} (call : option P -> I -> outcome O).

(** The heap, the next fresh address (simplified: addresses are not reused), the member pointers of the
    living objects (numerical_quadrature.hpp line 226, functor_wrapper.hpp lines 65 and 107), and pointer
    variables of the user; a pointer [None] is NULL. *)
Record world : Type := mk_world {
  w_heap : N -> option P;
  w_next : N;
  w_obj : N -> option (option N);
  w_ptr : N -> option N
}.

(** Update of a finite map (no code). Used for the holders of
    /repo/viennamath/runtime/numerical_quadrature.hpp line 226. *)
Definition upd {A : Type} (f : N -> option A) (a : N) (v : option A) : N -> option A :=
  fun b => if N.eqb b a then v else f b.

(** What a program does:
    p = new T(...);  numerical_quadrature x;  numerical_quadrature x(p) or wrapper x(p);
    for quadratures x(y) and x = y (numerical_quadrature.hpp lines 109-126);
    for wrappers x(y) and x = y (implicitly declared, functor_wrapper.hpp lines 50-66 and 92-108);
    a call of x, catching exceptions; the end of the life of x. *)
Inductive stmt : Type :=
| New (p : N) (q : P)
| Default (x : N)
| Adopt (x p : N)
| Copy (x y : N)
| Assign (x y : N)
| Take (x y : N)
| TakeAssign (x y : N)
| Call (x : N) (i : I)
| Destroy (x : N).

(** The object a pointer refers to (no code). Pointer members:
    /repo/viennamath/runtime/numerical_quadrature.hpp line 226, functor_wrapper.hpp lines 65 and 107. *)
Definition deref (w : world) (a : option N) : option P :=
  match a with None => None | Some b => w_heap w b end.

(** delete of a pointer by ~auto_ptr or reset: nothing for NULL, undefined for a dangling pointer
    (the members of numerical_quadrature.hpp line 226, functor_wrapper.hpp lines 65 and 107). *)
Definition delete (h : N -> option P) (a : option N) : outcome (N -> option P) :=
  match a with
  | None => Ok h
  | Some b => match h b with None => UB | Some _ => Ok (upd h b None) end
  end.

(** Effect of a statement, with the result of a call.  Use of an object that does not live is undefined.
    Copies of quadratures: numerical_quadrature.hpp lines 119 and 123-127, the new object is made before
    the old one is deleted.  Copies of wrappers: the implicit members call those of std::auto_ptr, which
    release the pointer of the right-hand side. *)
Definition step (c : stmt) (w : world) : outcome (world * list (outcome O)) :=
  match c with
  | New p q =>
      Ok (mk_world (upd (w_heap w) (w_next w) (Some q)) (N.succ (w_next w)) (w_obj w) (upd (w_ptr w) p (Some (w_next w))), [])
  | Default x =>
      match w_obj w x with
      | Some _ => UB
      | None => Ok (mk_world (w_heap w) (w_next w) (upd (w_obj w) x (Some None)) (w_ptr w), [])
      end
  | Adopt x p =>
      match w_obj w x, w_ptr w p with
      | None, Some a => Ok (mk_world (w_heap w) (w_next w) (upd (w_obj w) x (Some (Some a))) (w_ptr w), [])
      | _, _ => UB
      end
  | Copy x y =>
      match w_obj w x, w_obj w y with
      | None, Some a =>
          match deref w a with
          | None => UB
          | Some q =>
              Ok (mk_world (upd (w_heap w) (w_next w) (Some (clone q))) (N.succ (w_next w))
                    (upd (w_obj w) x (Some (Some (w_next w)))) (w_ptr w), [])
          end
      | _, _ => UB
      end
  | Assign x y =>
      match w_obj w x, w_obj w y with
      | Some b, Some a =>
          match deref w a with
          | None => UB
          | Some q =>
              bind (delete (upd (w_heap w) (w_next w) (Some (clone q))) b) (fun h =>
                Ok (mk_world h (N.succ (w_next w)) (upd (w_obj w) x (Some (Some (w_next w)))) (w_ptr w), []))
          end
      | _, _ => UB
      end
  | Take x y =>
      match w_obj w x, w_obj w y with
      | None, Some a =>
          Ok (mk_world (w_heap w) (w_next w) (upd (upd (w_obj w) y (Some None)) x (Some a)) (w_ptr w), [])
      | _, _ => UB
      end
  | TakeAssign x y =>
      match w_obj w x, w_obj w y with
      | Some b, Some a =>
          bind (if N.eqb x y then Ok (w_heap w) else delete (w_heap w) b) (fun h =>
            Ok (mk_world h (w_next w) (upd (upd (w_obj w) y (Some None)) x (Some a)) (w_ptr w), []))
      | _, _ => UB
      end
  | Call x i =>
      match w_obj w x with
      | None => UB
      | Some a =>
          match call (deref w a) i with
          | UB => UB
          | r => Ok (w, [r])
          end
      end
  | Destroy x =>
      match w_obj w x with
      | None => UB
      | Some a => bind (delete (w_heap w) a) (fun h => Ok (mk_world h (w_next w) (upd (w_obj w) x None) (w_ptr w), []))
      end
  end.

(** A program, from a world on; the results of the calls in order (no code of its own). A user of
    /repo/viennamath/runtime/numerical_quadrature.hpp lines 90-227, functor_wrapper.hpp lines 30-131. *)
Fixpoint run (prog : list stmt) (w : world) : outcome (world * list (outcome O)) :=
  match prog with
  | [] => Ok (w, [])
  | c :: prog' =>
      bind (step c w) (fun r => bind (run prog' (fst r)) (fun r' => Ok (fst r', snd r ++ snd r')))
  end.

(** Before the first statement (no code of its own). A user of
    /repo/viennamath/runtime/numerical_quadrature.hpp lines 90-227, functor_wrapper.hpp lines 30-131. *)
Definition start : world := mk_world (fun _ => None) 0 (fun _ => None) (fun _ => None).
End Hold.
Arguments world : clear implicits.
Arguments stmt : clear implicits.

(** Calls of a quadrature: with an expression, or with interval, integrand and variable
    (runtime/numerical_quadrature.hpp lines 131-206 and 209-223).  The NULL rule: lines 109 and 144, 212. *)
Inductive quad_args (n : num) : Type :=
| ofExpr (e : expr n)
| ofInterval (lo hi e : expr n) (var : N).
Arguments ofExpr {n} e.
Arguments ofInterval {n} lo hi e var.
(** As above, /repo/viennamath/runtime/numerical_quadrature.hpp lines 131-206 and 209-223. *)
Definition call_quadrature (n : num) (rule : option (quad_rule n)) (a : quad_args n) : outcome n :=
  let r := match rule with Some r => r | None => fun _ _ _ _ => UB end in
  match a with
  | ofExpr e => quadrature n r e
  | ofInterval lo hi e var => quadrature_over n r lo hi e var
  end.

(** Rules: rt_gauss_quad_1 (runtime/numerical_quadrature.hpp lines 56-84), whose clone() (line 66) makes
    another one, and rules of the user, assumed to copy themselves. *)
Definition clone_rule {n : num} (r : quad_rule n) : quad_rule n := r.

(** recursive_manipulation with a wrapper (runtime/expression_interface.hpp line 75, unary_expr.hpp
    320-327, binary_expr.hpp 421-429; each first calls modifies() or operator() of the wrapper,
    functor_wrapper.hpp lines 56-61); the functor as its modifies() and operator(). *)
Definition call_manipulation (n : num) (f : option ((expr n -> bool) * (expr n -> expr n))) (e : expr n) :
    outcome (expr n) :=
  match f with
  | None => UB
  | Some (md, fw) => Ok (manipulate n md fw e)
  end.

(** recursive_traversal with a wrapper (runtime/expression_interface.hpp line 77, unary_expr.hpp 330-334,
    binary_expr.hpp 432-442; functor_wrapper.hpp lines 98-103); the functor as its step_into(), the result
    as the nodes visited. *)
Definition call_traversal (n : num) (f : option (expr n -> bool)) (e : expr n) : outcome (list (expr n)) :=
  match f with
  | None => UB
  | Some step_into => Ok (traverse n step_into e)
  end.
