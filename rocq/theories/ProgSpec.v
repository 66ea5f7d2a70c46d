(** Specification for theorem C82: what a program that uses run-time expressions computes, in terms of
    real functions.  No code is modelled; nothing here refers to expression trees, pointers or
    simplification. *)
From Coq Require Import ZArith NArith Reals List.
From Verif Require Import Outcome Num NumR RtModel RtSpec HeapModel.
Import ListNotations.
Local Open Scope R_scope.

(** A real function of several variables: where it is defined, a part of this domain on which it is
    known to be built from differentiable functions, and its values on the domain.  [is_variable]
    tells that the object is the coordinate function as written by the user, so that it may be
    searched for by substitute(). *)
Record func : Type := {
  dom : list R -> Prop;
  smooth : list R -> Prop;
  val : list R -> R;
  is_variable : option N
}.
(** The objects in scope; [Some None]: declared, but without value. *)
Definition functions : Type := nat -> option (option func).
Definition no_functions : functions := fun _ => None.

(** A function of [d] variables with non-empty domain. *)
Definition proper (d : nat) (f : func) : Prop :=
  (forall p, smooth f p -> dom f p) /\ (forall p, dom f p -> length p = d) /\ (exists p, dom f p).

(** The elementary functions: value, where they are defined, where they are differentiable. *)
Definition fun_value (op : uop) (x : R) : R :=
  match op with
  | UId => x | UExp => exp x | USin => sin x | UCos => cos x | UTan => tan x
  | UFabs => Rabs x | USqrt => sqrt x | ULog => ln x | ULog10 => ln x / ln 10
  | _ => 0
  end.
Definition fun_defined (op : uop) (x : R) : Prop :=
  match op with
  | UId | UExp | USin | UCos | UFabs => True
  | UTan => cos x <> 0
  | USqrt => 0 <= x
  | ULog | ULog10 => 0 < x
  | _ => False
  end.
Definition fun_smooth (op : uop) (x : R) : Prop :=
  match op with UFabs => False | USqrt => 0 < x | _ => True end.

(** The four operations. *)
Definition op_value (op : bop) (x y : R) : R :=
  match op with BPlus => x + y | BMinus => x - y | BMult => x * y | BDiv => x / y | BUnaryId => 0 end.
Definition op_defined (op : bop) (y : R) : Prop :=
  match op with BDiv => y <> 0 | BUnaryId => False | _ => True end.

(** The point whose coordinates [ids] are the values of the functions [gs] at [p] and whose other
    coordinates are those of [p]; the first of several replacements counts. *)
Definition moved (ids : list N) (gs : list func) (p q : list R) : Prop :=
  length q = length p /\
  forall i, nth_error q (N.to_nat i) =
    match assoc (combine ids gs) i, nth_error p (N.to_nat i) with
    | Some g, Some _ => Some (val g p)
    | _, z => z
    end.

(** Which function a right hand side stands for. *)
Inductive denotes (d : nat) (fs : functions) : source numR -> func -> Prop :=
| D_constant c f :
    is_variable f = None -> (forall p, dom f p -> val f p = c) ->
    denotes d fs (SLeaf numR (LConst numR (Some c))) f
| D_variable i f :
    is_variable f = Some i -> (forall p, dom f p -> nth_error p (N.to_nat i) = Some (val f p)) ->
    denotes d fs (SLeaf numR (LVar numR i)) f
| D_copy y f : fs y = Some (Some f) -> denotes d fs (SCopy numR y) f
| D_simplify y f : fs y = Some (Some f) -> denotes d fs (SSimplify numR y) f
| D_operation op y z f g h :
    is_variable f = None -> fs y = Some (Some g) -> fs z = Some (Some h) ->
    (forall p, dom f p ->
       dom g p /\ dom h p /\ op_defined op (val h p) /\ val f p = op_value op (val g p) (val h p)) ->
    (forall p, smooth f p -> smooth g p /\ smooth h p) ->
    denotes d fs (SBin numR op y z) f
| D_function op y f g :
    is_variable f = None -> fs y = Some (Some g) ->
    (forall p, dom f p -> dom g p /\ fun_defined op (val g p) /\ val f p = fun_value op (val g p)) ->
    (forall p, smooth f p -> smooth g p /\ fun_smooth op (val g p)) ->
    denotes d fs (SUn numR op y) f
| D_derivative i y f g :
    is_variable f = None -> fs y = Some (Some g) ->
    (forall p, dom f p ->
       smooth g p /\
       exists x delta, nth_error p (N.to_nat i) = Some x /\ 0 < delta /\
         (forall t, Rabs (t - x) < delta -> dom g (update p (N.to_nat i) t)) /\
         derivable_pt_lim (fun t => val g (update p (N.to_nat i) t)) x (val f p)) ->
    denotes d fs (SDiff numR (DVar i) y) f
| D_substitution us rs ids y f g gs :
    is_variable f = None -> fs y = Some (Some g) ->
    Forall2 (fun u i => exists fu, fs u = Some (Some fu) /\ is_variable fu = Some i) us ids ->
    Forall2 (fun r h => fs r = Some (Some h)) rs gs ->
    length us = length rs -> Forall (fun i => (N.to_nat i < d)%nat) ids ->
    (forall p, dom f p -> exists q,
       moved ids gs p q /\ Forall (fun h => dom h p) gs /\ dom g q /\ val f p = val g q) ->
    (forall p q, smooth f p -> moved ids gs p q -> Forall (fun h => smooth h p) gs /\ smooth g q) ->
    denotes d fs (SSubstAll numR us rs y) f
| D_substitution_one u r i y f g h :
    is_variable f = None -> fs y = Some (Some g) ->
    (exists fu, fs u = Some (Some fu) /\ is_variable fu = Some i) -> fs r = Some (Some h) ->
    (N.to_nat i < d)%nat ->
    (forall p, dom f p -> dom h p /\ dom g (update p (N.to_nat i) (val h p)) /\
       val f p = val g (update p (N.to_nat i) (val h p))) ->
    (forall p, smooth f p -> smooth h p /\ smooth g (update p (N.to_nat i) (val h p))) ->
    denotes d fs (SSubst numR u r y) f.

(** One statement: what is seen, and the objects afterwards. *)
Inductive step (d : nat) : stmt numR -> functions -> event numR -> functions -> Prop :=
| S_declare x fs : fs x = None -> step d (Declare numR x) fs (Done numR) (upd fs x (Some None))
| S_init x s f fs : fs x = None -> denotes d fs s f -> proper d f ->
    step d (Init numR x s) fs (Done numR) (upd fs x (Some (Some f)))
| S_assign x s f fs : fs x <> None -> denotes d fs s f -> proper d f ->
    step d (Assign numR x s) fs (Done numR) (upd fs x (Some (Some f)))
| S_inplace x f fs : fs x = Some (Some f) -> step d (Inplace numR x) fs (Done numR) fs
| S_destroy x fs : fs x <> None -> step d (Destroy numR x) fs (Done numR) (upd fs x None)
| S_eval x f p fs : fs x = Some (Some f) -> dom f p ->
    step d (Eval numR x (map Some p)) fs (Value numR (Some (val f p))) fs.

(** A program. *)
Inductive computes (d : nat) : list (stmt numR) -> functions -> list (event numR) -> functions -> Prop :=
| C_end fs : computes d [] fs [] fs
| C_step s l fs ev fs' evs fs'' : step d s fs ev fs' -> computes d l fs' evs fs'' ->
    computes d (s :: l) fs (ev :: evs) fs''.
