(** Property C82: programs that use run-time expressions compute with real functions. *)
From Coq Require Import ZArith NArith Reals List Bool Arith Lia Lra.
From Coquelicot Require Import Coquelicot.
From Verif Require Import Outcome Num NumR RtModel RtSpec HeapModel HeapSpec HeapFacts HeapExec HeapHistory ProgSpec ProgFacts PropsHeap.
Import ListNotations.
Local Open Scope R_scope.

(** C82.  A program that declares, initialises, copies, assigns, simplifies, differentiates,
    substitutes into, evaluates and destroys run-time expressions shows exactly the events of the same
    program over real functions: nothing is thrown, nothing is undefined, and every number returned
    by an evaluation is the value of the function.  In particular diff() is the partial derivative
    of whatever the object holds by then, however it was made, and simplification has no effect.  This
    holds for all orders of evaluation of arguments and whether or not copies are left out. *)
Theorem C82_programs_compute_functions :
  forall (d : nat) (order elide : nat -> bool) (l : list (stmt numR)) evs fs,
    computes d l no_functions evs fs ->
    exists env m, exec_all numR order elide l no_vars (empty_mem numR) = Some (evs, env, m).
Proof.
  intros d order elide l evs fs C.
  destruct (computes_ok d l _ evs fs _ (related_start d) C) as [_ [st [E _]]].
  destruct (C23_objects_behave_as_values numR order elide l evs st E) as [env [m [own [X _]]]].
  exists env, m. exact X.
Qed.
Print Assumptions C82_programs_compute_functions.

(** C82.  If all objects have been destroyed in the end, no memory is left allocated. *)
Theorem C82_programs_leave_no_memory :
  forall (d : nat) (order elide : nat -> bool) (l : list (stmt numR)) evs fs,
    computes d l no_functions evs fs -> (forall x, fs x = None) ->
    exists env m, exec_all numR order elide l no_vars (empty_mem numR) = Some (evs, env, m) /\
      forall a, at_ m a = None.
Proof.
  intros d order elide l evs fs C Z.
  destruct (computes_ok d l _ evs fs _ (related_start d) C) as [T [st [E R]]].
  apply (C24_heap_empty_at_the_end numR order elide l evs st E T).
  intros x. specialize (R x). rewrite Z in R. destruct (st x); [contradiction|reflexivity].
Qed.
Print Assumptions C82_programs_leave_no_memory.

(** C82.  inplace_simplify() can be inserted anywhere for any object that has a value: nothing else
    that the program shows changes. *)
Theorem C82_simplification_is_invisible :
  forall (d : nat) (order elide : nat -> bool) (l1 l2 : list (stmt numR)) evs1 evs2 fs fs' x f,
    computes d l1 no_functions evs1 fs -> computes d l2 fs evs2 fs' -> fs x = Some (Some f) ->
    exists env m env' m',
      exec_all numR order elide (l1 ++ l2) no_vars (empty_mem numR) = Some (evs1 ++ evs2, env, m) /\
      exec_all numR order elide (l1 ++ Inplace numR x :: l2) no_vars (empty_mem numR)
        = Some (evs1 ++ Done numR :: evs2, env', m').
Proof.
  intros d order elide l1 l2 evs1 evs2 fs fs' x f C1 C2 E.
  destruct (C82_programs_compute_functions d order elide (l1 ++ l2) (evs1 ++ evs2) fs') as [env [m X]].
  { apply computes_app. exists fs, evs1, evs2. auto. }
  destruct (C82_programs_compute_functions d order elide (l1 ++ Inplace numR x :: l2) (evs1 ++ Done numR :: evs2) fs')
    as [env' [m' X']].
  { apply computes_app. exists fs, evs1, (Done numR :: evs2). split; [reflexivity|]. split; [exact C1|].
    econstructor; [econstructor; exact E|exact C2]. }
  exists env, m, env', m'. split; assumption.
Qed.
Print Assumptions C82_simplification_is_invisible.

(** C82.  What an object stands for can be differentiated where it is smooth: if it has values on a
    neighbourhood, the derivative that diff() is to return exists. *)
Theorem C82_smooth_functions_have_derivatives :
  forall (d : nat) (l : list (stmt numR)) evs fs y f i p x delta,
    computes d l no_functions evs fs -> fs y = Some (Some f) -> smooth f p ->
    nth_error p (N.to_nat i) = Some x -> 0 < delta ->
    (forall t, Rabs (t - x) < delta -> dom f (update p (N.to_nat i) t)) ->
    exists r, derivable_pt_lim (fun t => val f (update p (N.to_nat i) t)) x r.
Proof.
  intros d l evs fs y f i p x delta C E Sp Hx Hd Nb.
  destruct (computes_ok d l _ evs fs _ (related_start d) C) as [_ [st [_ R]]].
  destruct (related_value d fs st y f R E) as [e [_ [_ G]]].
  exact (represents_derivable d f e i p x delta G Sp Hx Hd Nb).
Qed.
Print Assumptions C82_smooth_functions_have_derivatives.

(** x, y; f = x * x; g = sin(f); h = diff(g, x); inplace_simplify(h); k = substitute(x, y, h); the
    value of k at (2, 3) is cos(3 * 3) * (3 + 3); everything is destroyed. *)
Example C82_case :
  let l := [Init numR 0 (SLeaf numR (LVar numR 0)); Init numR 1 (SLeaf numR (LVar numR 1));
            Init numR 2 (SBin numR BMult 0 0); Declare numR 3; Assign numR 3 (SUn numR USin 2);
            Init numR 4 (SDiff numR (DVar 0) 3); Inplace numR 4; Init numR 5 (SSubst numR 0 1 4);
            Eval numR 5 [Some 2; Some 3]; Destroy numR 0; Destroy numR 1; Destroy numR 2;
            Destroy numR 3; Destroy numR 4; Destroy numR 5] in
  exists fs,
    computes 2 l no_functions
      [Done numR; Done numR; Done numR; Done numR; Done numR; Done numR; Done numR; Done numR;
       Value numR (Some (cos (3 * 3) * (3 + 3))); Done numR; Done numR; Done numR; Done numR; Done numR; Done numR] fs /\
    (forall x, fs x = None).
Proof.
  cbv zeta. eexists. split.
  - econstructor; [apply (S_init 2 0 _ (plane (fun a _ => a) (Some 0%N)))|].
    { reflexivity. } { apply D_variable; [reflexivity|]. intros [|a [|b [|c p]]] H; cbn in *; try discriminate; reflexivity. } { apply plane_proper. }
    econstructor; [apply (S_init 2 1 _ (plane (fun _ b => b) (Some 1%N)))|].
    { reflexivity. } { apply D_variable; [reflexivity|]. intros [|a [|b [|c p]]] H; cbn in *; try discriminate; reflexivity. } { apply plane_proper. }
    econstructor; [apply (S_init 2 2 _ (plane (fun a _ => a * a) None))|].
    { reflexivity. } { eapply D_operation; [reflexivity|reflexivity|reflexivity| |].
      - intros [|a [|b [|c p]]] H; cbn in *; try discriminate. auto.
      - intros p H. split; exact H. } { apply plane_proper. }
    econstructor; [apply S_declare; reflexivity|].
    econstructor; [apply (S_assign 2 3 _ (plane (fun a _ => sin (a * a)) None))|].
    { discriminate. } { eapply D_function; [reflexivity|reflexivity| |].
      - intros [|a [|b [|c p]]] H; cbn in *; try discriminate. auto.
      - intros p H. split; [exact H|exact I]. } { apply plane_proper. }
    econstructor; [apply (S_init 2 4 _ (plane (fun a _ => cos (a * a) * (a + a)) None))|].
    { reflexivity. } { eapply D_derivative; [reflexivity|reflexivity|].
      intros [|a [|b [|c p]]] H; cbn in H; try discriminate. split; [reflexivity|].
      exists a, 1. split; [reflexivity|]. split; [lra|]. split; [reflexivity|].
      cbn. apply is_derive_Reals. auto_derive; [exact I|]. ring. } { apply plane_proper. }
    econstructor; [eapply S_inplace; reflexivity|].
    econstructor; [apply (S_init 2 5 _ (plane (fun _ b => cos (b * b) * (b + b)) None))|].
    { reflexivity. } { eapply (D_substitution_one 2 _ 0 1 0%N 4); [reflexivity|reflexivity| |reflexivity| | |].
      - eexists. split; reflexivity.
      - cbn. lia.
      - intros [|a [|b [|c p]]] H; cbn in *; try discriminate. auto.
      - intros [|a [|b [|c p]]] H; cbn in *; try discriminate. auto. } { apply plane_proper. }
    econstructor; [apply (S_eval 2 5 (plane (fun _ b => cos (b * b) * (b + b)) None) [2; 3]); reflexivity|].
    do 6 (econstructor; [apply S_destroy; discriminate|]). constructor.
  - intros x. unfold upd, no_functions.
    destruct (Nat.eqb x 5) eqn:E5; [reflexivity|]. destruct (Nat.eqb x 4) eqn:E4; [reflexivity|].
    destruct (Nat.eqb x 3) eqn:E3; [reflexivity|]. destruct (Nat.eqb x 2) eqn:E2; [reflexivity|].
    destruct (Nat.eqb x 1) eqn:E1; [reflexivity|]. destruct (Nat.eqb x 0); reflexivity.
Qed.
