(** Specification for theorem C83: what a program that uses run-time expressions computes in double
    arithmetic, in terms of functions on doubles.  No code is modelled; nothing here refers to
    expression trees, pointers or simplification. *)
From Coq Require Import ZArith NArith List.
From Flocq Require Import Core BinarySingleNaN.
From Verif Require Import Outcome Num NumB64 RtModel RtSpec HeapModel.
Import ListNotations.

(** A function of several doubles: where it is considered (there all intermediate results are to be
    finite), and its values.  [name64]: the object is this variable, as written by the user. *)
Record func64 : Type := {
  dom64 : list f64 -> Prop;
  val64 : list f64 -> f64;
  name64 : option N
}.
Definition functions64 : Type := nat -> option (option func64).
Definition no_functions64 : functions64 := fun _ => None.
Definition proper64 (d : nat) (f : func64) : Prop :=
  (forall p, dom64 f p -> length p = d /\ finite64 (val64 f p)) /\ (exists p, dom64 f p).

(** The four operations of double arithmetic, and the elementary functions of the library. *)
Definition op_value64 (op : bop) (x y : f64) : option f64 :=
  match op with
  | BPlus => Some (@Bplus 53 1024 prec_pos prec_emax mode_NE x y)
  | BMinus => Some (@Bminus 53 1024 prec_pos prec_emax mode_NE x y)
  | BMult => Some (@Bmult 53 1024 prec_pos prec_emax mode_NE x y)
  | BDiv => Some (@Bdiv 53 1024 prec_pos prec_emax mode_NE x y)
  | BUnaryId => None
  end.
Definition fun_value64 (lm : libm) (op : uop) (x : f64) : option f64 :=
  match op with
  | UId => Some x | UExp => Some (m_exp lm x) | USin => Some (m_sin lm x) | UCos => Some (m_cos lm x)
  | UTan => Some (m_tan lm x) | UFabs => Some (Babs x)
  | USqrt => Some (@Bsqrt 53 1024 prec_pos prec_emax mode_NE x)
  | ULog => Some (m_log lm x) | ULog10 => Some (m_log10 lm x)
  | _ => None
  end.

(** The point whose coordinates [ids] are the values of [gs] at [p], as in C82. *)
Definition moved64 (ids : list N) (gs : list func64) (p q : list f64) : Prop :=
  length q = length p /\
  forall i, nth_error q (N.to_nat i) =
    match assoc (combine ids gs) i, nth_error p (N.to_nat i) with
    | Some g, Some _ => Some (val64 g p)
    | _, z => z
    end.

Section Programs.
Context (lm : libm).
Local Notation n := (numB64 lm).

(** Which function a right hand side stands for. *)
Inductive denotes64 (d : nat) (fs : functions64) : source n -> func64 -> Prop :=
| D64_constant c f :
    name64 f = None -> (forall p, dom64 f p -> val64 f p = c) -> denotes64 d fs (SLeaf n (LConst n c)) f
| D64_variable i f :
    name64 f = Some i -> (forall p, dom64 f p -> nth_error p (N.to_nat i) = Some (val64 f p)) ->
    denotes64 d fs (SLeaf n (LVar n i)) f
| D64_copy y f : fs y = Some (Some f) -> denotes64 d fs (SCopy n y) f
| D64_simplify y f : fs y = Some (Some f) -> denotes64 d fs (SSimplify n y) f
| D64_operation op y z f g h :
    name64 f = None -> fs y = Some (Some g) -> fs z = Some (Some h) ->
    (forall p, dom64 f p -> dom64 g p /\ dom64 h p /\ op_value64 op (val64 g p) (val64 h p) = Some (val64 f p)) ->
    denotes64 d fs (SBin n op y z) f
| D64_function op y f g :
    name64 f = None -> fs y = Some (Some g) ->
    (forall p, dom64 f p -> dom64 g p /\ fun_value64 lm op (val64 g p) = Some (val64 f p)) ->
    denotes64 d fs (SUn n op y) f
| D64_substitution us rs ids y f g gs :
    name64 f = None -> fs y = Some (Some g) ->
    Forall2 (fun u i => exists fu, fs u = Some (Some fu) /\ name64 fu = Some i) us ids ->
    Forall2 (fun r h => fs r = Some (Some h)) rs gs ->
    length us = length rs -> Forall (fun i => N.to_nat i < d) ids ->
    (forall p, dom64 f p -> exists q,
       moved64 ids gs p q /\ Forall (fun h => dom64 h p) gs /\ dom64 g q /\ val64 f p = val64 g q) ->
    denotes64 d fs (SSubstAll n us rs y) f
| D64_substitution_one u r i y f g h :
    name64 f = None -> fs y = Some (Some g) ->
    (exists fu, fs u = Some (Some fu) /\ name64 fu = Some i) -> fs r = Some (Some h) -> N.to_nat i < d ->
    (forall p, dom64 f p -> dom64 h p /\ dom64 g (update p (N.to_nat i) (val64 h p)) /\
       val64 f p = val64 g (update p (N.to_nat i) (val64 h p))) ->
    denotes64 d fs (SSubst n u r y) f.

(** One statement, and a program. *)
Inductive step64 (d : nat) : stmt n -> functions64 -> event n -> functions64 -> Prop :=
| S64_declare x fs : fs x = None -> step64 d (Declare n x) fs (Done n) (upd fs x (Some None))
| S64_init x s f fs : fs x = None -> denotes64 d fs s f -> proper64 d f ->
    step64 d (Init n x s) fs (Done n) (upd fs x (Some (Some f)))
| S64_assign x s f fs : fs x <> None -> denotes64 d fs s f -> proper64 d f ->
    step64 d (Assign n x s) fs (Done n) (upd fs x (Some (Some f)))
| S64_inplace x f fs : fs x = Some (Some f) -> step64 d (Inplace n x) fs (Done n) fs
| S64_destroy x fs : fs x <> None -> step64 d (Destroy n x) fs (Done n) (upd fs x None)
| S64_eval x f p fs : fs x = Some (Some f) -> dom64 f p ->
    step64 d (Eval n x p) fs (Value n (val64 f p)) fs.
Inductive computes64 (d : nat) : list (stmt n) -> functions64 -> list (event n) -> functions64 -> Prop :=
| C64_end fs : computes64 d [] fs [] fs
| C64_step s l fs ev fs' evs fs'' : step64 d s fs ev fs' -> computes64 d l fs' evs fs'' ->
    computes64 d (s :: l) fs (ev :: evs) fs''.

(** The same events, up to the signs of zeros. *)
Definition same_event (a b : event n) : Prop :=
  match a, b with
  | Done _, Done _ => True
  | Value _ x, Value _ y => same64 x y
  | _, _ => False
  end.
End Programs.
