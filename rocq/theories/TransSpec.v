(** Specification for C67: translators as values.  No heap and no processors: a translator is what it
    was told to print, a pointer is a processor that waits to be added. *)
From Coq Require Import NArith List String.
From Verif Require Import Outcome RtModel LatexModel TransModel.
Import ListNotations.

Record values (T : Type) : Type := mk_values {
  v_trans : N -> option (translator T);
  v_ptr : N -> option (bool -> expr T -> string)
}.
Arguments mk_values {T} v_trans v_ptr.
Arguments v_trans {T} v _.
Arguments v_ptr {T} v _.

Definition nothing {T : Type} : values T := mk_values (fun _ => None) (fun _ => None).

(** The value of a program; [None] if it does not keep the rules: a name is declared once while it
    lives, only living translators are used, a pointer variable is filled when it is free and what it
    points to is added to one translator, once; no translator is assigned to. *)
Definition values_step {T : Type} (pr : T -> string) (c : stmt T) (v : values T) : option (values T * list string) :=
  let put x t := mk_values (upd (v_trans v) x t) (v_ptr v) in
  match c with
  | Create x => match v_trans v x with None => Some (put x (Some fresh), []) | _ => None end
  | Copy x y =>
      match v_trans v x, v_trans v y with
      | None, Some t => Some (put x (Some (copy_translator t)), [])
      | _, _ => None
      end
  | Assign _ _ => None
  | Destroy x => match v_trans v x with Some _ => Some (put x None, []) | _ => None end
  | NewProc p u => match v_ptr v p with None => Some (mk_values (v_trans v) (upd (v_ptr v) p (Some u)), []) | _ => None end
  | AddProc x p =>
      match v_trans v x, v_ptr v p with
      | Some t, Some u => Some (mk_values (upd (v_trans v) x (Some (add_processor t u))) (upd (v_ptr v) p None), [])
      | _, _ => None
      end
  | Customize x e s => match v_trans v x with Some t => Some (put x (Some (customize t e s)), []) | _ => None end
  | Translate x par e => match v_trans v x with Some t => Some (v, [latex pr t par e]) | _ => None end
  end.

Fixpoint values_run {T : Type} (pr : T -> string) (prog : list (stmt T)) (v : values T) : option (values T * list string) :=
  match prog with
  | [] => Some (v, [])
  | c :: prog' =>
      match values_step pr c v with
      | None => None
      | Some (v1, out1) =>
          match values_run pr prog' v1 with None => None | Some (v2, out2) => Some (v2, out1 ++ out2) end
      end
  end.
