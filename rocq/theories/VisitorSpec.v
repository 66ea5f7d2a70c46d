(** Specification for C85: what is recorded of a traversal, and which functors work as intended. *)
From Coq Require Import ZArith NArith List Bool Arith.
From Verif Require Import Outcome Num RtModel RtSpec HeapModel HeapSpec.
Import ListNotations.

(** ** Traversal *)

(** A call of step_into() or of operator() for the node at a position, with what it answered. *)
Inductive call : Type :=
| Asked (p : list dir) (answer : outcome bool)
| Called (p : list dir) (answer : outcome unit).

(** The call returned. *)
Definition returned (c : call) : Prop :=
  match c with Asked _ (Ok _) | Called _ (Ok _) => True | _ => False end.

(** The call did not return, but ended as the whole traversal did. *)
Definition ended (c : call) (o : outcome unit) : Prop :=
  match c, o with
  | Asked _ (Throw x), Throw y | Called _ (Throw x), Throw y => x = y
  | Asked _ UB, UB | Called _ UB, UB => True
  | _, _ => False
  end.

(** The positions operator(), and step_into(), were called for, in order. *)
Definition called (l : list call) : list (list dir) :=
  flat_map (fun c => match c with Called p _ => [p] | _ => [] end) l.
Definition asked (l : list call) : list (list dir) :=
  flat_map (fun c => match c with Asked p _ => [p] | _ => [] end) l.

(** A functor made to record its calls, in a second part of the state. *)
Definition recorded {E S A : Type} (c : list dir -> outcome A -> call)
    (f : list dir -> E -> S -> outcome A * S) (p : list dir) (e : E) (s : S * list call) :
    outcome A * (S * list call) :=
  let (o, s') := f p e (fst s) in (o, (s', snd s ++ [c p o])).

(** Every binary node strictly above position [p] was to be stepped into. *)
Definition entered {T : Type} (e : expr T) (l : list call) (p : list dir) : Prop :=
  forall c d q op x y, p = c ++ d :: q -> at_path e c = Some (EBin op x y) -> In (Asked c (Ok true)) l.

(** ** Manipulation *)

Section Manipulation.
Context (n : num).

(** No node of [m] was changed or freed. *)
Definition kept (m m' : mem n) : Prop := forall a, at_ m a <> None -> at_ m' a = at_ m a.

(** Unused addresses are unused. *)
Definition sane (m : mem n) : Prop := forall a, next m <= a -> at_ m a = None.

(** [modifies] answers [md], for every expression that is there. *)
Definition answers (modifies : mem n -> nat -> outcome bool) (md : expr n -> outcome bool) : Prop :=
  forall m a e fp, sane m -> owns n m a e fp -> NoDup fp ->
    match md e with
    | Ok b => modifies m a = Ok b
    | Throw _ => exists x, modifies m a = Throw x
    | UB => True
    end.

(** [apply] makes the new expression [fw] and nothing else, or throws; it leaves alone what is there. *)
Definition makes_new (apply : nat -> M n nat) (fw : expr n -> outcome (expr n)) : Prop :=
  forall m a e fp, sane m -> owns n m a e fp -> NoDup fp ->
    match fw e with
    | Ok e' =>
        exists m' a' fp', apply a m = ROk m' a' /\ owns n m' a' e' fp' /\ NoDup fp' /\
          kept m m' /\ sane m' /\ next m <= next m' /\
          (forall b, In b fp' -> next m <= b) /\
          (forall b, at_ m' b <> None -> at_ m b <> None \/ In b fp') /\
          (forall b, b < next m -> at_ m b = None -> at_ m' b = None)
    | Throw _ =>
        exists m' x, apply a m = RThrow m' x /\ kept m m' /\ sane m' /\ next m <= next m' /\
          (forall b, b < next m -> at_ m b = None -> at_ m' b = None)
    | UB => True
    end.

(** Nodes the functor is asked about: those with no node above that it modifies. *)
Definition reached (md : expr n -> outcome bool) (e : expr n) (s : expr n) : Prop :=
  exists p, at_path e p = Some s /\
    outermost (fun t => match md t with Ok b => b | _ => false end) e p.

(** The functor throws at node [s]. *)
Definition fails (md : expr n -> outcome bool) (fw : expr n -> outcome (expr n)) (s : expr n) : Prop :=
  if RtSpec.leaf s then exists x, fw s = Throw x
  else (exists x, md s = Throw x) \/ (md s = Ok true /\ exists x, fw s = Throw x).
End Manipulation.

(** A functor that throws at the variable x0 and otherwise copies: its operator(), and what it means. *)
Definition throw_at_x0 (n : num) (order : nat -> bool) (a : nat) : M n nat := fun m =>
  match at_ m a with
  | Some (HVar 0) => RThrow m ThrowText
  | _ => clone n order a m
  end.
Definition no_x0 (n : num) (e : expr n) : outcome (expr n) :=
  match e with EVar 0 => Throw ThrowText | _ => Ok e end.

(** The nodes of sin(x1) + x0, at address 5. *)
Definition sin_x1_plus_x0 (n : num) : mem n :=
  Mem 6 (fun a => nth_error [HVar 1; HUop USin; HUn 0 1; HVar 0; HBop BPlus; HBin 2 4 3] a).
