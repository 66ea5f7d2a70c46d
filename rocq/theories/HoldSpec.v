(** Specification for C69: quadratures and wrappers as values.  No heap: an object holds a rule or functor
    or nothing, a pointer is a rule or functor that waits to be adopted. *)
From Coq Require Import NArith List.
From Verif Require Import Outcome HoldModel.
Import ListNotations.

Section Values.
Context {P : Type} {I O : Type} (call : option P -> I -> outcome O).

Record values : Type := mk_values {
  v_obj : N -> option (option P);
  v_ptr : N -> option P
}.
Definition nothing : values := mk_values (fun _ => None) (fun _ => None).

(** The value of a program; [None] if it does not keep the rules: a name is declared once while it lives,
    only living objects are used, a pointer variable is filled when it is free and what it points to is
    adopted by one object, once; a quadrature without a rule is not copied, and no undefined call is made.
    A copied quadrature is an equal one; a copied wrapper is emptied. *)
Definition values_step (c : stmt P I) (v : values) : option (values * list (outcome O)) :=
  let put x q := mk_values (upd (v_obj v) x q) (v_ptr v) in
  match c with
  | New p q => match v_ptr v p with None => Some (mk_values (v_obj v) (upd (v_ptr v) p (Some q)), []) | _ => None end
  | Default x => match v_obj v x with None => Some (put x (Some None), []) | _ => None end
  | Adopt x p =>
      match v_obj v x, v_ptr v p with
      | None, Some q => Some (mk_values (upd (v_obj v) x (Some (Some q))) (upd (v_ptr v) p None), [])
      | _, _ => None
      end
  | Copy x y =>
      match v_obj v x, v_obj v y with
      | None, Some (Some q) => Some (put x (Some (Some q)), [])
      | _, _ => None
      end
  | Assign x y =>
      match v_obj v x, v_obj v y with
      | Some _, Some (Some q) => Some (put x (Some (Some q)), [])
      | _, _ => None
      end
  | Take x y =>
      match v_obj v x, v_obj v y with
      | None, Some q => Some (mk_values (upd (upd (v_obj v) y (Some None)) x (Some q)) (v_ptr v), [])
      | _, _ => None
      end
  | TakeAssign x y =>
      match v_obj v x, v_obj v y with
      | Some _, Some q => Some (mk_values (upd (upd (v_obj v) y (Some None)) x (Some q)) (v_ptr v), [])
      | _, _ => None
      end
  | Call x i =>
      match v_obj v x with
      | Some q => match call q i with UB => None | r => Some (v, [r]) end
      | None => None
      end
  | Destroy x => match v_obj v x with Some _ => Some (put x None, []) | None => None end
  end.

Fixpoint values_run (prog : list (stmt P I)) (v : values) : option (values * list (outcome O)) :=
  match prog with
  | [] => Some (v, [])
  | c :: prog' =>
      match values_step c v with
      | None => None
      | Some (v1, out1) =>
          match values_run prog' v1 with None => None | Some (v2, out2) => Some (v2, out1 ++ out2) end
      end
  end.
End Values.
Arguments values : clear implicits.
