(** Dispatch to LaTeX processors of the user that have a state and may throw
    (manipulation/latex.hpp lines 57-84, 154-167 and 198-215). *)
From Coq Require Import ZArith NArith List Bool String.
From Verif Require Import Outcome Num RtModel StatefulModel.
Import ListNotations.
Local Open Scope string_scope.

Section Proc.
Context (n : num).

(** The rest of the program as the processors see and change it: process() is const, but may refer to anything, also
    to the translator (manipulation/latex.hpp lines 72-74).  No code of its own. *)
Context (S : Type).

(** process(e, use_parenthesis, trans) of a processor, manipulation/latex.hpp lines 72-74: it returns a text or throws,
    and changes the state.  Simplified: expressions are values; calls back to the translator are part of it. *)
Definition proc : Type := expr n -> bool -> S -> outcome string * S.

(** process_impl(), manipulation/latex.hpp lines 198-215: the first non-empty text.  Simplified: the warning written to
    std::cerr (line 212) is left out. *)
Fixpoint sdispatch (procs : list proc) (e : expr n) (par : bool) (s : S) : outcome string * S :=
  match procs with
  | [] => (Ok " \chi_{\mathrm{unknown}} ", s)
  | f :: procs' =>
      andthen S (f e par s) (fun t s1 =>
        match t with EmptyString => sdispatch procs' e par s1 | _ => (Ok t, s1) end)
  end.

(** operator() for an equation and for an interval, manipulation/latex.hpp lines 154-160 and 161-167; [left_first] is
    the order of evaluation chosen by the compiler. *)
Definition spair (left_first : bool) (procs : list proc) (pre mid post : string) (a b : expr n) (s : S) : outcome string * S :=
  if left_first
  then andthen S (sdispatch procs a false s) (fun x s1 =>
         andthen S (sdispatch procs b false s1) (fun y s2 => (Ok (pre ++ x ++ mid ++ y ++ post), s2)))
  else andthen S (sdispatch procs b false s) (fun y s1 =>
         andthen S (sdispatch procs a false s1) (fun x s2 => (Ok (pre ++ x ++ mid ++ y ++ post), s2))).
(** As above, manipulation/latex.hpp lines 154-160. *)
Definition sequation (left_first : bool) (procs : list proc) (lhs rhs : expr n) : S -> outcome string * S :=
  spair left_first procs "" " = " "" lhs rhs.
(** As above, manipulation/latex.hpp lines 161-167. *)
Definition sinterval (left_first : bool) (procs : list proc) (lower upper : expr n) : S -> outcome string * S :=
  spair left_first procs " [ " "; " " ] " lower upper.
End Proc.
