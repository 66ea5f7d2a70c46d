(** C89: LaTeX processors of the user that have a state and may throw. *)
From Coq Require Import ZArith NArith List Bool String.
From Verif Require Import Outcome Num NumZ RtModel StatefulModel ProcModel ProcSpec ProcFacts.
Import ListNotations.
Local Open Scope string_scope.

(** Which processors are asked: one after the other in the order they were added, none twice, until one returns a
    non-empty text, which is the result, or throws, which comes out; if none does, all were asked and the text for unknown
    expressions is the result.  [l] is the record of the calls; recording changes nothing. *)
Theorem C89_calls_of_the_processors :
  forall (n : num) (S : Type) (procs : list (proc n S)) (e : expr n) (par : bool) (s : S),
    exists o s' l,
      sdispatch n S procs e par s = (o, s') /\
      sdispatch n (S * list (nat * outcome string)) (watched_all 0 procs) e par (s, []) = (o, (s', l)) /\
      map fst l = seq 0 (List.length l) /\ List.length l <= List.length procs /\
      match o with
      | Ok t => (Forall declined l /\ List.length l = List.length procs /\ t = " \chi_{\mathrm{unknown}} ") \/
                (t <> "" /\ exists l1 k, l = (l1 ++ [(k, Ok t)])%list /\ Forall declined l1)
      | _ => exists l1 k, l = (l1 ++ [(k, o)])%list /\ Forall declined l1
      end.
Proof.
  intros n S procs e par s. destruct (sdispatch_calls n S procs e par 0 s []) as [l [E [M [L A]]]].
  exists (fst (sdispatch n S procs e par s)), (snd (sdispatch n S procs e par s)), l.
  split; [apply surjective_pairing|]. split; [exact E|]. split; [exact M|]. split; [exact L|exact A].
Qed.
Print Assumptions C89_calls_of_the_processors.

(** The processors are given the expression and the flag: what they would do with others does not matter. *)
Theorem C89_processors_are_given_the_expression :
  forall (n : num) (S : Type) (procs procs' : list (proc n S)) (e : expr n) (par : bool) (s : S),
    Forall2 (fun f g => forall k, f e par k = g e par k) procs procs' ->
    sdispatch n S procs e par s = sdispatch n S procs' e par s.
Proof. intros n S procs procs' e par s H. exact (sdispatch_given n S procs procs' e par H s). Qed.
Print Assumptions C89_processors_are_given_the_expression.

(** Equations and intervals: if the answers do not depend on the state, the text is made of the texts of the two sides,
    whatever the order. *)
Theorem C89_equations_and_intervals :
  forall (n : num) (S : Type) (procs : list (proc n S)) (a b : expr n) (x y : string) (s : S) (left_first : bool),
    Forall fixed procs ->
    fst (sdispatch n S procs a false s) = Ok x -> fst (sdispatch n S procs b false s) = Ok y ->
    fst (sequation n S left_first procs a b s) = Ok (x ++ " = " ++ y) /\
    fst (sinterval n S left_first procs a b s) = Ok (" [ " ++ x ++ "; " ++ y ++ " ] ").
Proof.
  intros n S procs a b x y s lf F X Y. split; [|exact (spair_fixed n S lf procs _ _ _ a b x y s F X Y)].
  unfold sequation. rewrite (spair_fixed n S lf procs _ _ _ a b x y s F X Y).
  assert (E : forall t : string, t ++ "" = t) by (induction t as [|c t IH]; cbn; [reflexivity|now rewrite IH]). now rewrite E.
Qed.
Print Assumptions C89_equations_and_intervals.

(** An equation or interval has a text only if both sides have one, and what is thrown was thrown for one of the sides. *)
Theorem C89_exceptions_in_equations_and_intervals :
  forall (n : num) (S : Type) (procs : list (proc n S)) (a b : expr n) (s : S) (left_first : bool),
    Forall fixed procs ->
    forall o, o = fst (sequation n S left_first procs a b s) \/ o = fst (sinterval n S left_first procs a b s) ->
    match o with
    | Ok _ => exists x y, fst (sdispatch n S procs a false s) = Ok x /\ fst (sdispatch n S procs b false s) = Ok y
    | _ => fst (sdispatch n S procs a false s) = o \/ fst (sdispatch n S procs b false s) = o
    end.
Proof.
  intros n S procs a b s lf F o [E|E].
  - pose proof (spair_throws n S lf procs "" " = " "" a b s F) as H. change (spair n S lf procs "" " = " "" a b s) with (sequation n S lf procs a b s) in H.
    rewrite <- E in H. destruct o; exact H.
  - pose proof (spair_throws n S lf procs " [ " "; " " ] " a b s F) as H.
    change (spair n S lf procs " [ " "; " " ] " a b s) with (sinterval n S lf procs a b s) in H. rewrite <- E in H. destruct o; exact H.
Qed.
Print Assumptions C89_exceptions_in_equations_and_intervals.

(** Otherwise the text may depend on the compiler. *)
Theorem C89_order_matters_refuted :
  ~ (forall (n : num) (S : Type) (procs : list (proc n S)) (a b : expr n) (s : S),
       fst (sequation n S true procs a b s) = fst (sequation n S false procs a b s)).
Proof. intros H. specialize (H numZ bool [alternating numZ] (EVar 0) (EVar 1) true). discriminate H. Qed.
Print Assumptions C89_order_matters_refuted.

(** Non-trivial case: the first declines, the second counts its calls, the third is not asked. *)
Example C89_case :
  let none : proc numZ nat := fun _ _ k => (Ok "", k) in
  let count : proc numZ nat := fun _ _ k => (Ok "x", S k) in
  let fail : proc numZ nat := fun _ _ k => (Throw ThrowText, k) in
  sdispatch numZ _ (watched_all 0 [none; count; fail]) (EVar 0) false (4, []) = (Ok "x", (5, [(0, Ok ""); (1, Ok "x")])) /\
  sdispatch numZ _ (watched_all 0 [none; fail; count]) (EVar 0) false (4, []) = (Throw ThrowText, (4, [(0, Ok ""); (1, Throw ThrowText)])) /\
  Forall fixed [none; count] /\
  Forall2 (fun f g : proc numZ nat => forall k, f (EVar 0) true k = g (EVar 0) true k) [count] [(fun _ par k => if par then (Ok "x", S k) else (Ok "y", k)) : proc numZ nat].
Proof.
  cbv zeta. split; [reflexivity|]. split; [reflexivity|]. split.
  - constructor; [intros e par s s'; reflexivity|]. constructor; [intros e par s s'; reflexivity|constructor].
  - constructor; [reflexivity|constructor].
Qed.

(** Non-trivial case: a processor that knows one variable only and throws for the rest. *)
Example C89_case_exceptions :
  let some : proc numZ nat := fun e _ k => (match e with EVar 0 => Ok "x" | _ => Throw ThrowText end, S k) in
  Forall fixed [some] /\
  (forall b, fst (sequation numZ nat b [some] (EVar 0) (EVar 0) 0) = Ok "x = x") /\
  (forall b, fst (sinterval numZ nat b [some] (EVar 0) (EVar 1) 0) = Throw ThrowText).
Proof.
  cbv zeta. split; [|split; intros [|]; reflexivity]. constructor; [intros e par s s'; reflexivity|constructor].
Qed.
