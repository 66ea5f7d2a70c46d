(** Property C83: programs that use run-time expressions compute with functions on doubles. *)
From Coq Require Import ZArith NArith List Bool Arith Lia.
From Flocq Require Import Core BinarySingleNaN.
From Verif Require Import Outcome Num NumB64 NumB64Facts RtModel RtSpec HeapModel HeapSpec HeapFacts HeapExec HeapHistory
  Prog64Spec Prog64Facts PropsHeap.
Import ListNotations.

(** C83.  In double arithmetic, a program that declares, initialises, copies, assigns, simplifies,
    substitutes into, evaluates and destroys run-time expressions shows, up to the signs of zeros, the
    events of the same program over functions on doubles, in which simplification does nothing and
    substitution is composition: every number is the one obtained by carrying out the operations as
    written, rounding included, as long as they are finite. *)
Theorem C83_programs_compute_in_doubles :
  forall (lm : libm), zero_symmetric lm ->
  forall (d : nat) (order elide : nat -> bool) (l : list (stmt (numB64 lm))) evs fs,
    computes64 lm d l no_functions64 evs fs ->
    exists evs' env m,
      exec_all (numB64 lm) order elide l no_vars (empty_mem (numB64 lm)) = Some (evs', env, m) /\
      Forall2 (same_event lm) evs evs'.
Proof.
  intros lm ZS d order elide l evs fs C.
  destruct (computes64_ok lm ZS d l _ evs fs _ (related64_start lm d) C) as [evs' [st [E [_ [F _]]]]].
  destruct (C23_objects_behave_as_values (numB64 lm) order elide l evs' st E) as [env [m [own [X _]]]].
  exists evs', env, m. split; assumption.
Qed.
Print Assumptions C83_programs_compute_in_doubles.

(** C83.  If all objects have been destroyed in the end, no memory is left allocated. *)
Theorem C83_programs_leave_no_memory :
  forall (lm : libm), zero_symmetric lm ->
  forall (d : nat) (order elide : nat -> bool) (l : list (stmt (numB64 lm))) evs fs,
    computes64 lm d l no_functions64 evs fs -> (forall x, fs x = None) ->
    exists evs' env m,
      exec_all (numB64 lm) order elide l no_vars (empty_mem (numB64 lm)) = Some (evs', env, m) /\
      forall a, at_ m a = None.
Proof.
  intros lm ZS d order elide l evs fs C Z.
  destruct (computes64_ok lm ZS d l _ evs fs _ (related64_start lm d) C) as [evs' [st [E [R [_ T]]]]].
  destruct (C24_heap_empty_at_the_end (numB64 lm) order elide l evs' st E T) as [env [m X]].
  - intros x. specialize (R x). rewrite Z in R. destruct (st x); [contradiction|reflexivity].
  - exists evs', env, m. exact X.
Qed.
Print Assumptions C83_programs_leave_no_memory.

(** C83.  inplace_simplify() can be inserted anywhere for any object that has a value: every number the
    program shows stays the same, up to the signs of zeros. *)
Theorem C83_simplification_is_invisible :
  forall (lm : libm), zero_symmetric lm ->
  forall (d : nat) (order elide : nat -> bool) (l1 l2 : list (stmt (numB64 lm))) evs1 evs2 fs fs' x f,
    computes64 lm d l1 no_functions64 evs1 fs -> computes64 lm d l2 fs evs2 fs' -> fs x = Some (Some f) ->
    exists ea eb env m ea' eb' env' m',
      exec_all (numB64 lm) order elide (l1 ++ l2) no_vars (empty_mem (numB64 lm)) = Some (ea ++ eb, env, m) /\
      exec_all (numB64 lm) order elide (l1 ++ Inplace (numB64 lm) x :: l2) no_vars (empty_mem (numB64 lm))
        = Some (ea' ++ Done (numB64 lm) :: eb', env', m') /\
      Forall2 (same_event lm) ea ea' /\ Forall2 (same_event lm) eb eb'.
Proof.
  intros lm ZS d order elide l1 l2 evs1 evs2 fs fs' x f C1 C2 E.
  destruct (C83_programs_compute_in_doubles lm ZS d order elide (l1 ++ l2) (evs1 ++ evs2) fs') as [e1 [env [m [X F]]]].
  { exact (computes64_app lm d l1 l2 _ _ _ _ _ C1 C2). }
  destruct (C83_programs_compute_in_doubles lm ZS d order elide (l1 ++ Inplace (numB64 lm) x :: l2)
              (evs1 ++ Done (numB64 lm) :: evs2) fs') as [e2 [env' [m' [X' F']]]].
  { apply (computes64_app lm d l1 _ _ _ fs _ _ C1). econstructor; [econstructor; exact E|exact C2]. }
  apply Forall2_app_inv_l in F as [ea [eb [Fa [Fb ->]]]].
  apply Forall2_app_inv_l in F' as [ea' [ec [Fa' [Fc ->]]]].
  inversion Fc as [|? ev ? eb' S Fb']; subst. destruct ev; try contradiction.
  exists ea, eb, env, m, ea', eb', env', m'. split; [exact X|]. split; [exact X'|].
  split; [exact (joined lm evs1 ea ea' Fa Fa')|exact (joined lm evs2 eb eb' Fb Fb')].
Qed.
Print Assumptions C83_simplification_is_invisible.

(** C83.  Signs of zeros do change: 0 + x at -0. *)
Theorem C83_signs_of_zeros_refuted :
  forall (lm : libm), zero_symmetric lm -> forall (order elide : nat -> bool),
  exists l1 l2 x evs evs' env m env' m',
    exec_all (numB64 lm) order elide (l1 ++ l2) no_vars (empty_mem (numB64 lm)) = Some (evs, env, m) /\
    exec_all (numB64 lm) order elide (l1 ++ Inplace (numB64 lm) x :: l2) no_vars (empty_mem (numB64 lm)) = Some (evs', env', m') /\
    In (Value (numB64 lm) (B754_zero false)) evs /\ In (Value (numB64 lm) (B754_zero true)) evs'.
Proof.
  intros lm ZS order elide.
  set (l1 := [Init (numB64 lm) 0 (SLeaf _ (LConst (numB64 lm) (c0 (numB64 lm)))); Init _ 1 (SLeaf _ (LVar _ 0)); Init _ 2 (SBin _ BPlus 0 1)]).
  set (l2 := [Eval (numB64 lm) 2 [B754_zero true]]).
  destruct (C23_objects_behave_as_values (numB64 lm) order elide (l1 ++ l2)
              [Done _; Done _; Done _; Value (numB64 lm) (B754_zero false)] _ eq_refl) as [env [m [_ [X _]]]].
  destruct (C23_objects_behave_as_values (numB64 lm) order elide (l1 ++ Inplace _ 2 :: l2)
              [Done _; Done _; Done _; Done _; Value (numB64 lm) (B754_zero true)] _ eq_refl) as [env' [m' [_ [X' _]]]].
  exists l1, l2, 2. do 2 eexists. exists env, m, env', m'. split; [exact X|]. split; [exact X'|]. cbn. tauto.
Qed.
Print Assumptions C83_signs_of_zeros_refuted.

(** x; f = x * x; inplace_simplify(f); g = substitute(x, f, f); the value of g at 2 is 16 (doubles). *)
Example C83_case : forall lm,
  let two := n_of_Z (numB64 lm) 2 in
  let l := [Init (numB64 lm) 0 (SLeaf _ (LVar _ 0)); Init _ 1 (SBin _ BMult 0 0); Inplace _ 1;
            Init _ 2 (SSubst _ 0 1 1); Eval (numB64 lm) 2 [two]; Destroy _ 0; Destroy _ 1; Destroy _ 2] in
  exists fs,
    computes64 lm 1 l no_functions64
      [Done _; Done _; Done _; Done _; Value (numB64 lm) (n_of_Z (numB64 lm) 16); Done _; Done _; Done _] fs /\
    (forall x, fs x = None).
Proof.
  intros lm. cbv zeta. set (two := n_of_Z (numB64 lm) 2 : f64). set (four := n_of_Z (numB64 lm) 4 : f64).
  set (sixteen := n_of_Z (numB64 lm) 16 : f64).
  assert (M2 : n_mul (numB64 lm) two two = four) by (apply (B2SF_inj 53 1024); vm_compute; reflexivity).
  assert (M4 : n_mul (numB64 lm) four four = sixteen) by (apply (B2SF_inj 53 1024); vm_compute; reflexivity).
  assert (F2 : finite64 two) by (vm_compute; reflexivity).
  assert (F4 : finite64 four) by (vm_compute; reflexivity).
  assert (F16 : finite64 sixteen) by (vm_compute; reflexivity).
  clearbody two four sixteen.
  set (fx := {| dom64 := fun p => p = [two] \/ p = [four]; val64 := fun p => match p with [a] => a | _ => two end;
                name64 := Some 0%N |}).
  set (ff := {| dom64 := fun p => p = [two] \/ p = [four];
                val64 := fun p => match p with [a] => n_mul (numB64 lm) a a | _ => two end; name64 := None |}).
  set (fg := {| dom64 := fun p => p = [two]; val64 := fun p => sixteen; name64 := None |}).
  eexists. split.
  - econstructor; [apply (S64_init lm 1 0 _ fx)|].
    { reflexivity. } { apply D64_variable; [reflexivity|]. intros p [->| ->]; reflexivity. }
    { split; [|exists [two]; now left]. intros p [->| ->]; split; auto. }
    econstructor; [apply (S64_init lm 1 1 _ ff)|].
    { reflexivity. } { eapply D64_operation; [reflexivity|reflexivity|reflexivity|].
      intros p D. split; [exact D|]. split; [exact D|]. destruct D as [->| ->]; reflexivity. }
    { split; [|exists [two]; now left]. intros p [->| ->]; (split; [reflexivity|]).
      - cbn [ff val64]. rewrite M2. exact F4.
      - cbn [ff val64]. rewrite M4. exact F16. }
    econstructor; [eapply S64_inplace; reflexivity|].
    econstructor; [apply (S64_init lm 1 2 _ fg)|].
    { reflexivity. } { eapply (D64_substitution_one lm 1 _ 0 1 0%N 1); [reflexivity|reflexivity| |reflexivity| |].
      - eexists. split; reflexivity.
      - cbn. lia.
      - intros p ->. split; [now left|]. change (N.to_nat 0) with 0. cbn [update fg ff val64 dom64]. rewrite M2, M4. auto. }
    { split; [|exists [two]; reflexivity]. intros p ->. split; [reflexivity|exact F16]. }
    econstructor; [apply (S64_eval lm 1 2 fg [two]); reflexivity|].
    do 3 (econstructor; [apply S64_destroy; discriminate|]). constructor.
  - intros x. unfold upd, no_functions64.
    destruct (Nat.eqb x 2) eqn:E2; [reflexivity|].
    destruct (Nat.eqb x 1) eqn:E1; [reflexivity|]. destruct (Nat.eqb x 0); reflexivity.
Qed.
