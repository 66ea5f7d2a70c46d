(** C23, C24: run-time expression objects behave as values, and their memory. *)
From Coq Require Import ZArith NArith List Bool Arith Lia.
From Verif Require Import Outcome Num RtModel HeapModel HeapSpec HeapFacts HeapExec HeapHistory HeapUb HeapAssign NumZ.
Import ListNotations.

(** Every history that is defined over a store of plain values is defined on the heap, shows the
    same events and leaves every object with the value it has in the store, for all orders of
    evaluation of arguments and whether or not copies of returned objects are left out. *)
Theorem C23_objects_behave_as_values :
  forall (n : num) (order elide : nat -> bool) (l : list (stmt n)) evs st,
    exec_all_spec n l (no_store n) = Some (evs, st) ->
    exists env m own,
      exec_all n order elide l no_vars (empty_mem n) = Some (evs, env, m) /\ agrees n env m st own.
Proof.
  intros n order elide l evs st E.
  destruct (exec_all_ok n order elide False l _ _ _ _ evs st (inv_start n False) E) as [env [m [own [X [_ [A _]]]]]]; [tauto|].
  exists env, m, own. split; assumption.
Qed.
Print Assumptions C23_objects_behave_as_values.

(** A statement changes no object but its target: every other object keeps its pointer, and no
    node of its expression is written to or freed. *)
Theorem C23_other_objects_untouched :
  forall (n : num) (order elide : nat -> bool) (l : list (stmt n)) evs st s ev st' y,
    exec_all_spec n l (no_store n) = Some (evs, st) ->
    exec_spec n s st = Some (ev, st') ->
    target n s <> Some y ->
    exists env m env' m' own,
      exec_all n order elide l no_vars (empty_mem n) = Some (evs, env, m) /\
      exec n order elide s env m = Some (ev, env', m') /\
      agrees n env m st own /\
      env' y = env y /\ st' y = st y /\ (forall a, In a (own y) -> at_ m' a = at_ m a).
Proof.
  intros n order elide l evs st s ev st' y E ES NT.
  destruct (exec_all_ok n order elide False l _ _ _ _ evs st (inv_start n False) E) as [env [m [own [X V]]]]; [tauto|].
  destruct (exec_ok n order elide False s env m st own ev st' V ES) as [env' [m' [own' [X' [_ K]]]]]; [tauto|tauto|].
  destruct (K y NT) as [K1 [_ K3]].
  exists env, m, env', m', own. split; [exact X|]. split; [exact X'|]. split; [apply V|]. split; [exact K1|].
  split; [|exact K3]. now apply (spec_target n s st ev st').
Qed.
Print Assumptions C23_other_objects_untouched.

(** Assignment between rt_binary_expr objects: the target gets the value of the source, in nodes of
    its own; the source and everything else are left alone, and the old value of the target is freed. *)
Theorem C23_binary_assignment_copies :
  forall (n : num) (order : nat -> bool) (m : mem n) l p r op x y f g h other op' x' y' q,
    (forall a, next m <= a -> at_ m a = None) ->
    owns n m l x f -> owns_op n m p (OBin n op) g -> owns n m r y h ->
    owns n m other (EBin op' x' y') q -> NoDup (f ++ g ++ h ++ q) ->
    exists m' l' p' r' f' g' h',
      assign_bin n order (l, p, r) other m = ROk m' (l', p', r') /\
      owns n m' l' x' f' /\ owns_op n m' p' (OBin n op') g' /\ owns n m' r' y' h' /\
      owns n m' other (EBin op' x' y') q /\ NoDup (f' ++ g' ++ h') /\
      (forall a, In a (f' ++ g' ++ h') -> at_ m a = None \/ In a (f ++ g ++ h)) /\
      (forall a, at_ m a <> None -> ~ In a (f ++ g ++ h) -> at_ m' a = at_ m a) /\
      (forall a, at_ m' a <> None -> In a (f' ++ g' ++ h') \/ (at_ m a <> None /\ ~ In a (f ++ g ++ h))).
Proof.
  intros n order m l p r op x y f g h other op' x' y' q W Ol Op Or Oo ND.
  destruct (assign_bin_ok n order True m l p r op x y f g h other op' x' y' q W Ol Op Or Oo ND)
    as [m' [l' [p' [r' [f' [g' [h' [E [A [B [D [F S]]]]]]]]]]]].
  destruct S as [S1 [S2 [S3 [S4 [S5 S6]]]]].
  exists m', l', p', r', f', g', h'. do 5 (split; [assumption|]). split; [exact S3|]. split; [|split].
  - intros a I. apply S5 in I as [I|I]; [now right|left; now apply W].
  - intros a I J. apply S4; [now apply (wf_alive n m a W)|exact J].
  - intros a I. destruct (S6 Logic.I a I) as [J|[J1 J2]]; [now left|right]. split; [|exact J2]. now rewrite <- S4.
Qed.
Print Assumptions C23_binary_assignment_copies.

(** As long as no statement ends with an exception (and no gradient is differentiated by a function
    symbol, see below), every allocated node belongs to exactly one object in scope: it occurs once
    in the list of nodes of one object. *)
Theorem C24_every_node_has_one_owner :
  forall (n : num) (order elide : nat -> bool) (l : list (stmt n)) evs st,
    exec_all_spec n l (no_store n) = Some (evs, st) -> tidy n l (no_store n) ->
    exists env m own,
      exec_all n order elide l no_vars (empty_mem n) = Some (evs, env, m) /\ agrees n env m st own /\
      (forall a, at_ m a <> None <-> exists x, In a (own x)) /\ (forall x, NoDup (own x)).
Proof.
  intros n order elide l evs st E T.
  destruct (exec_all_ok n order elide True l _ _ _ _ evs st (inv_start n True) E) as [env [m [own [X [W [A K]]]]]]; [auto|].
  exists env, m, own. split; [exact X|]. split; [exact A|]. split.
  - intros a. split; [now apply K|]. intros [x I]. destruct (agrees_own n env m st own x A) as [_ H].
    destruct (env x) as [s|], (st x) as [v|]; try contradiction; [|rewrite H in I; destruct I].
    apply (own1_alive n m (ISlot n s v) (own x) H a I).
  - intros x. apply (agrees_own n env m st own x A).
Qed.
Print Assumptions C24_every_node_has_one_owner.

(** After all objects have been destroyed nothing is allocated. *)
Theorem C24_heap_empty_at_the_end :
  forall (n : num) (order elide : nat -> bool) (l : list (stmt n)) evs st,
    exec_all_spec n l (no_store n) = Some (evs, st) -> tidy n l (no_store n) ->
    (forall x, st x = None) ->
    exists env m,
      exec_all n order elide l no_vars (empty_mem n) = Some (evs, env, m) /\ (forall a, at_ m a = None).
Proof.
  intros n order elide l evs st E T Z.
  destruct (C24_every_node_has_one_owner n order elide l evs st E T) as [env [m [own [X [A [K _]]]]]].
  exists env, m. split; [exact X|]. intros a. destruct (at_ m a) eqn:EA; [|reflexivity].
  destruct (proj1 (K a)) as [x I]; [congruence|].
  destruct (agrees_own n env m st own x A) as [_ H]. rewrite Z in H. destruct (env x); [contradiction|]. rewrite H in I. destruct I.
Qed.
Print Assumptions C24_heap_empty_at_the_end.

(** No node is freed twice or used after being freed (both are undefined behaviour of the model) in
    a history that never reads an empty object and whose vectors all have the same number of
    entries. *)
Theorem C24_no_undefined_behaviour :
  forall (n : num) (order elide : nat -> bool) (l : list (stmt n)) k,
    0 < k -> careful n k l (no_store n) ->
    exec_all n order elide l no_vars (empty_mem n) <> None.
Proof.
  intros n order elide l k K C.
  destruct (all_defined n order elide k K l (no_store n)) as [evs [st E]]; [discriminate|exact C|].
  destruct (C23_objects_behave_as_values n order elide l evs st E) as [env [m [own [X _]]]]. rewrite X. discriminate.
Qed.
Print Assumptions C24_no_undefined_behaviour.

(** Reading an empty object always is undefined behaviour. *)
Theorem C24_reading_an_empty_object_is_undefined :
  forall (n : num) (order elide : nat -> bool) (l l' : list (stmt n)) s evs st y,
    exec_all_spec n l (no_store n) = Some (evs, st) ->
    In y (reads_from n s) -> st y = Some None ->
    exec_all n order elide (l ++ s :: l') no_vars (empty_mem n) = None.
Proof.
  intros n order elide l l' s evs st y E I Y.
  destruct (C23_objects_behave_as_values n order elide l evs st E) as [env [m [own [X A]]]].
  destruct (agrees_own n env m st own y A) as [_ H]. rewrite Y in H.
  destruct (env y) as [[a|]|] eqn:EY; try contradiction.
  now apply (exec_all_app_none n order elide l s l' no_vars (empty_mem n) evs env m X), (exec_empty n order elide s env m y).
Qed.
Print Assumptions C24_reading_an_empty_object_is_undefined.

(** Assigning to an rt_binary_expr its own left operand uses that operand after freeing it. *)
Theorem C24_assignment_from_own_operand_refuted :
  forall (n : num) (order : nat -> bool) (m : mem n) l p r op x y f,
    (forall a, next m <= a -> at_ m a = None) ->
    owns n m l (EBin op x y) f -> NoDup f ->
    assign_bin n order (l, p, r) l m = RUB.
Proof. intros n order m l p r op x y f W O ND. exact (assign_bin_left n order m l p r op x y f W O ND). Qed.
Print Assumptions C24_assignment_from_own_operand_refuted.

(** A second object made from the pointer another object returns, [expr g(f.get())], is accepted by the
    compiler and frees the same nodes twice when both are destroyed. *)
Theorem C24_adopting_a_pointer_refuted :
  forall (n : num) (m : mem n) f e fp,
    (forall a, next m <= a -> at_ m a = None) ->
    holds_value n m f (Some e) fp -> NoDup fp ->
    mbind (pointer n f) (fun p => mbind (destroy n (from_pointer p)) (fun _ => destroy n f)) m = RUB.
Proof. intros n m f e fp W H ND. exact (destroy_twice n m f e fp W H ND). Qed.
Print Assumptions C24_adopting_a_pointer_refuted.

(** A program for the next theorems: x, x*x + 0, its simplification in place, a copy changed
    afterwards, a derivative, a vector and its square, substitutions (one expression, two at a time,
    the interval of a symbolic integral). *)
Definition sample : list (stmt numZ) := [
  Init numZ 0 (SLeaf numZ (LVar numZ 0)); Init numZ 1 (SLeaf numZ (LConst numZ 0%Z));
  Init numZ 2 (SBin numZ BMult 0 0); Assign numZ 2 (SBin numZ BPlus 2 1);
  Init numZ 3 (SCopy numZ 2); Inplace numZ 2; Assign numZ 0 (SCopy numZ 1);
  Init numZ 4 (SDiff numZ (DVar 0) 3); Eval numZ 4 [5%Z];
  Init numZ 5 (SVector numZ [3; 2]); Init numZ 6 (SBin numZ BMult 5 5); Inplace numZ 6; Eval numZ 6 [2%Z];
  Init numZ 7 (SSubst numZ 0 2 3); Assign numZ 7 (SCopy numZ 7); Assign numZ 3 (SUn numZ UExp 3);
  Init numZ 8 (SLeaf numZ (LVar numZ 0)); Init numZ 9 (SLeaf numZ (LVar numZ 1)); Init numZ 10 (SBin numZ BMinus 8 9);
  Assign numZ 10 (SSubstAll numZ [8; 9] [9; 8] 10); Eval numZ 10 [1%Z; 5%Z];
  Init numZ 11 (SUn numZ (USymInt 3) 10); Init numZ 12 (SSubstInterval numZ 1 8 1 11)].
Definition ending : list (stmt numZ) := map (fun x => Destroy numZ x) [0; 1; 2; 3; 4; 5; 6; 7; 8; 9; 10; 11; 12].

Example C23_sample_case :
  match exec_all_spec numZ sample (no_store numZ) with
  | Some (evs, st) =>
      nth 8 evs (Done numZ) = Value numZ 10%Z /\ nth 12 evs (Done numZ) = Value numZ 32%Z /\
      st 0 = Some (Some (EConst 0%Z)) /\ st 2 = Some (Some (EBin BMult (EVar 0) (EVar 0))) /\
      nth 20 evs (Done numZ) = Value numZ 4%Z /\
      st 12 = Some (Some (EInt (EConst 0%Z) (EVar 0) 1 (EBin BMinus (EVar 1) (EVar 0))))
  | None => False
  end.
Proof. vm_compute. repeat split. Qed.

Example C24_sample_case :
  match exec_all_spec numZ (sample ++ ending) (no_store numZ) with
  | Some (evs, st) => forall x, st x = None
  | None => False
  end /\
  tidy numZ (sample ++ ending) (no_store numZ) /\ careful numZ 2 (sample ++ ending) (no_store numZ).
Proof.
  split; [|split].
  - vm_compute. intros x. do 13 (destruct x as [|x]; [reflexivity|]). reflexivity.
  - apply tidyb_ok. vm_compute. reflexivity.
  - apply carefulb_ok. vm_compute. reflexivity.
Qed.

(** Against the statement of C24: differentiating a gradient by a function symbol leaks memory
    without any exception, whether arguments are evaluated from left to right or from right to left
    and whether copies of returned objects are left out or not. *)
Definition gradient_program : list (stmt numZ) := [
  Init numZ 0 (SLeaf numZ (LFun numZ 0 0)); Init numZ 1 (SUn numZ UGrad 0);
  Init numZ 2 (SDiff numZ (DFun 0 0) 1); Destroy numZ 2; Destroy numZ 1; Destroy numZ 0].
Theorem C24_gradient_by_function_symbol_leaks_refuted :
  forall o e : bool, exists evs env m a,
    exec_all numZ (fun _ => o) (fun _ => e) gradient_program no_vars (empty_mem numZ) = Some (evs, env, m) /\
    evs = repeat (Done numZ) 6 /\ (forall x, env x = None) /\ at_ m a <> None.
Proof.
  intros o e.
  assert (H : match exec_all numZ (fun _ => o) (fun _ => e) gradient_program no_vars (empty_mem numZ) with
              | Some (evs, env, m) =>
                  evs = repeat (Done numZ) 6 /\ (forall x, env x = None) /\ at_ m 7 <> None
              | None => False
              end).
  { destruct o, e; vm_compute; (split; [reflexivity|split; [|discriminate]]);
      intros x; do 3 (destruct x as [|x]; [reflexivity|]); reflexivity. }
  destruct (exec_all numZ (fun _ => o) (fun _ => e) gradient_program no_vars (empty_mem numZ)) as [[[evs env] m]|]; [|destruct H].
  exists evs, env, m, 7. split; [reflexivity|exact H].
Qed.
Print Assumptions C24_gradient_by_function_symbol_leaks_refuted.

(** An exception while a derivative is computed leaks what was allocated before. *)
Definition exception_program : list (stmt numZ) := [
  Init numZ 0 (SLeaf numZ (LVar numZ 0)); Init numZ 1 (SUn numZ UFabs 0);
  Init numZ 2 (SBin numZ BPlus 0 1); Init numZ 3 (SBin numZ BPlus 1 0); Init numZ 4 (SBin numZ BMult 2 3);
  Init numZ 5 (SDiff numZ (DVar 0) 4);
  Destroy numZ 4; Destroy numZ 3; Destroy numZ 2; Destroy numZ 1; Destroy numZ 0].
Theorem C24_exception_leaks_refuted :
  forall o e : bool, exists evs env m a,
    exec_all numZ (fun _ => o) (fun _ => e) exception_program no_vars (empty_mem numZ) = Some (evs, env, m) /\
    evs = repeat (Done numZ) 5 ++ [Raised numZ] ++ repeat (Done numZ) 5 /\
    (forall x, env x = None) /\ at_ m a <> None.
Proof.
  intros o e.
  assert (H : match exec_all numZ (fun _ => o) (fun _ => e) exception_program no_vars (empty_mem numZ) with
              | Some (evs, env, m) =>
                  evs = repeat (Done numZ) 5 ++ [Raised numZ] ++ repeat (Done numZ) 5 /\ (forall x, env x = None) /\ at_ m (if e then 55 else 78) <> None
              | None => False
              end).
  { destruct o, e; vm_compute; (split; [reflexivity|split; [|discriminate]]);
      intros x; do 5 (destruct x as [|x]; [reflexivity|]); reflexivity. }
  destruct (exec_all numZ (fun _ => o) (fun _ => e) exception_program no_vars (empty_mem numZ)) as [[[evs env] m]|]; [|destruct H].
  exists evs, env, m, (if e then 55 else 78). split; [reflexivity|exact H].
Qed.
Print Assumptions C24_exception_leaks_refuted.

(** The size of vectors matters: simplifying the product of vectors with two and with three entries
    is undefined. *)
Definition vectors_program : list (stmt numZ) := [
  Init numZ 0 (SLeaf numZ (LVar numZ 0)); Init numZ 1 (SVector numZ [0; 0]); Init numZ 2 (SVector numZ [0; 0; 0]);
  Init numZ 3 (SBin numZ BMult 1 2); Inplace numZ 3].
Theorem C24_vectors_of_different_size_refuted :
  forall o e : bool,
    exec_all numZ (fun _ => o) (fun _ => e) vectors_program no_vars (empty_mem numZ) = None.
Proof. intros o e. destruct o, e; vm_compute; reflexivity. Qed.
Print Assumptions C24_vectors_of_different_size_refuted.

(** A case for the theorems on assignment and on adopting a pointer (to the node 3): the object [(x + 1) * y] on the stack (its pointers are 3, 4
    and 5), and [x / y] elsewhere. *)
Definition stack_heap : mem numZ := Mem 10 (fun a => nth a [
  Some (HVar 0%N); Some (HBop BPlus); Some (HConst 1%Z); Some (HBin 0 1 2); Some (HBop BMult); Some (HVar 1%N);
  Some (HVar 0%N); Some (HBop BDiv); Some (HVar 1%N); Some (HBin 6 7 8)] None).
Example C23_binary_assignment_case :
  (forall a, next stack_heap <= a -> at_ stack_heap a = None) /\
  owns numZ stack_heap 3 (EBin BPlus (EVar 0) (EConst 1%Z)) ([3] ++ [0] ++ [1] ++ [2]) /\
  owns_op numZ stack_heap 4 (OBin numZ BMult) [4] /\ owns numZ stack_heap 5 (EVar 1) [5] /\
  owns numZ stack_heap 9 (EBin BDiv (EVar 0) (EVar 1)) ([9] ++ [6] ++ [7] ++ [8]) /\
  NoDup (([3] ++ [0] ++ [1] ++ [2]) ++ [4] ++ [5] ++ ([9] ++ [6] ++ [7] ++ [8])).
Proof.
  split; [|split; [|split; [|split; [|split]]]].
  - intros a H. cbn in H. do 10 (destruct a as [|a]; [lia|]). cbn. now destruct a.
  - apply (owns_bin numZ stack_heap 3 0 1 2 BPlus (EVar 0) (EConst 1%Z) [0] [1] [2]); try reflexivity; constructor; reflexivity.
  - constructor. reflexivity.
  - constructor. reflexivity.
  - apply (owns_bin numZ stack_heap 9 6 7 8 BDiv (EVar 0) (EVar 1) [6] [7] [8]); try reflexivity; constructor; reflexivity.
  - repeat constructor; cbn; intuition discriminate.
Qed.

Example C24_empty_object_case :
  match exec_all_spec numZ [Declare numZ 0; Init numZ 1 (SLeaf numZ (LVar numZ 0))] (no_store numZ) with
  | Some (_, st) => st 0 = Some None /\ In 0 (reads_from numZ (Assign numZ 1 (SCopy numZ 0)))
  | None => False
  end.
Proof. vm_compute. auto. Qed.
