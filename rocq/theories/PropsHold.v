(** C69: quadrature objects and functor wrappers as owners of heap objects. *)
From Coq Require Import ZArith NArith List Bool Lia.
From Verif Require Import Outcome Num NumZ RtModel QuadModel HoldModel HoldSpec HoldFacts.
Import ListNotations.

(** C69.  A program that keeps the rules and works with numerical_quadrature objects never uses or deletes a
    deleted rule, and its calls return what they return with quadratures that are values. *)
Theorem C69_quadratures_are_values :
  forall (n : num) (prog : list (stmt (quad_rule n) (quad_args n))) (v : values (quad_rule n)) (out : list (outcome n)),
    values_run (call_quadrature n) prog nothing = Some (v, out) ->
    exists w, run clone_rule (call_quadrature n) prog start = Ok (w, out).
Proof.
  intros n prog v out H.
  destruct (sim_run clone_rule (call_quadrature n) (fun q => eq_refl) prog start nothing v out sim_start H) as [w [R _]].
  exists w. exact R.
Qed.
Print Assumptions C69_quadratures_are_values.

(** Integral of 2 x0 from 0 to 4, and a rule returning 7. *)
Definition int8 : quad_args numZ := ofExpr (@EInt numZ (EConst 0%Z) (EConst 4%Z) 0 (EBin BMult (@EConst numZ 2%Z) (EVar 0))).
Definition seven : quad_rule numZ := fun _ _ _ _ => Ok 7%Z.
Definition case_q : list (stmt (quad_rule numZ) (quad_args numZ)) :=
  [New 0 (gauss_quad_1 numZ); Adopt 0 0; Default 1; Call 1 (ofExpr (@EConst numZ 0%Z)); Assign 1 0; Copy 2 1;
   New 0 seven; Adopt 3 0; Assign 0 3; Call 0 int8; Call 2 int8; Destroy 0; Destroy 3; Call 1 int8;
   Call 1 (ofExpr (@EVar numZ 0)); Assign 1 1; Call 1 int8; Destroy 1; Destroy 2].
Example C69_case :
  option_map snd (values_run (call_quadrature numZ) case_q nothing) =
    Some ([Ok 0%Z; Ok 7%Z; Ok 16%Z; Ok 16%Z; Throw IntegrationWithoutIntegral; Ok 16%Z]).
Proof. vm_compute. reflexivity. Qed.

(** C69.  The same for wrappers around manipulation and traversal functors, where copying moves. *)
Theorem C69_wrappers_are_moved :
  forall n : num,
    (forall prog v out, values_run (call_manipulation n) prog nothing = Some (v, out) ->
       exists w, run (fun f => f) (call_manipulation n) prog start = Ok (w, out)) /\
    (forall prog v out, values_run (call_traversal n) prog nothing = Some (v, out) ->
       exists w, run (fun f => f) (call_traversal n) prog start = Ok (w, out)).
Proof.
  intros n. split; intros prog v out H.
  - destruct (sim_run (fun f => f) (call_manipulation n) (fun q => eq_refl) prog start nothing v out sim_start H) as [w [R _]].
    exists w. exact R.
  - destruct (sim_run (fun f => f) (call_traversal n) (fun q => eq_refl) prog start nothing v out sim_start H) as [w [R _]].
    exists w. exact R.
Qed.
Print Assumptions C69_wrappers_are_moved.

(** A functor replacing x0 by 5 that is moved twice. *)
Definition five : (expr numZ -> bool) * (expr numZ -> expr numZ) :=
  (fun _ => false, fun e => match e with EVar 0 => EConst 5%Z | _ => e end).
Definition case_w : list (stmt ((expr numZ -> bool) * (expr numZ -> expr numZ)) (expr numZ)) :=
  [New 0 five; Adopt 0 0; Call 0 (EUn USin (EVar 0)); Take 1 0; Call 1 (EVar 0);
   TakeAssign 0 1; TakeAssign 0 0; Call 0 (EVar 1); Destroy 0; Destroy 1].
Example C69_wrapper_case :
  option_map snd (values_run (call_manipulation numZ) case_w nothing) =
    Some ([Ok (EUn USin (EConst 5%Z)); Ok (EConst 5%Z); Ok (EVar 1)]).
Proof. vm_compute. reflexivity. Qed.

(** C69.  After a program that keeps the rules, every rule or functor on the heap belongs to exactly one living
    object or waits in exactly one pointer variable; so nothing is left when all objects are destroyed and all
    pointers adopted.  For all classes of heap objects. *)
Theorem C69_every_heap_object_has_one_owner :
  forall (P I O : Type) (clone : P -> P) (call : option P -> I -> outcome O), (forall q, clone q = q) ->
  forall (prog : list (stmt P I)) (v : values P) (out : list (outcome O)),
    values_run call prog nothing = Some (v, out) ->
    exists w, run clone call prog start = Ok (w, out) /\
      (forall x, w_obj w x = None <-> v_obj v x = None) /\
      (forall a, w_heap w a <> None ->
         (exists x, w_obj w x = Some (Some a)) \/ (exists p, v_ptr v p <> None /\ w_ptr w p = Some a)) /\
      (forall x a, w_obj w x = Some (Some a) -> w_heap w a <> None /\
         (forall y, w_obj w y = Some (Some a) -> y = x) /\ (forall p, v_ptr v p <> None -> w_ptr w p <> Some a)) /\
      ((forall x, v_obj v x = None) -> (forall p, v_ptr v p = None) -> forall a, w_heap w a = None).
Proof.
  intros P I O clone call CL prog v out H.
  destruct (sim_run clone call CL prog start nothing v out sim_start H) as [w [R S]].
  exists w. split; [exact R|]. split; [|split; [|split]].
  - intros x. pose proof (s_ob w v S x) as X. destruct (v_obj v x); [|tauto]. destruct X as [a [-> _]]. split; discriminate.
  - intros a A. apply (s_own w v S) in A as [A|[p [q [P1 P2]]]]; [left; exact A|]. right. exists p. split; [congruence|exact P2].
  - intros x a X. split; [exact (living_heap w v x a S X)|]. split.
    + intros y Y. exact (s_disj w v S _ _ _ Y X).
    + intros p P1 E. destruct (v_ptr v p) as [q|] eqn:Q; [|congruence].
      destruct (s_ptr w v S p q Q) as [b [E' [_ K]]]. rewrite E in E'. injection E' as <-. exact (K x X).
  - intros V P1 a. destruct (w_heap w a) as [c|] eqn:A; [exfalso|reflexivity].
    assert (N : w_heap w a <> None) by congruence. apply (s_own w v S) in N as [[x X]|[p [q [Q _]]]].
    + pose proof (s_ob w v S x) as Y. rewrite V in Y. congruence.
    + rewrite P1 in Q. discriminate.
Qed.
Print Assumptions C69_every_heap_object_has_one_owner.

Example C69_leak_case :
  exists v out, values_run (call_quadrature numZ)
      [New 0 seven; Adopt 0 0; Copy 1 0; Assign 0 1; Call 0 int8; Destroy 0; Call 1 int8; Destroy 1] nothing = Some (v, out) /\
    (forall x, v_obj v x = None) /\ (forall p, v_ptr v p = None).
Proof.
  eexists. eexists. split; [reflexivity|]. split.
  - intros [|[x|x|]]; reflexivity.
  - intros [|p]; reflexivity.
Qed.

(** C69: although it is there "for support with STL containers", a default-constructed numerical_quadrature can
    be neither copied nor assigned from: that dereferences NULL, in every program. *)
Theorem C69_default_constructed_in_containers_refuted :
  forall (n : num) (prog : list (stmt (quad_rule n) (quad_args n))) (v : values (quad_rule n)) (out : list (outcome n)) (x y : N),
    values_run (call_quadrature n) prog nothing = Some (v, out) -> v_obj v x = None ->
    run clone_rule (call_quadrature n) (prog ++ [Default x; Copy y x]) start = UB /\
    run clone_rule (call_quadrature n) (prog ++ [Default x; Assign y x]) start = UB.
Proof.
  intros n prog v out x y H X.
  destruct (sim_run clone_rule (call_quadrature n) (fun q => eq_refl) prog start nothing v out sim_start H) as [w [R S]].
  rewrite !(run_app clone_rule (call_quadrature n) prog _ _ _ _ R).
  pose proof (s_ob w v S x) as WX. rewrite X in WX.
  split; cbn [run]; unfold step at 1; rewrite WX; cbn [bind fst]; unfold step at 1; cbn [w_obj]; rewrite upd_same;
    destruct (upd (w_obj w) x (Some None) y); reflexivity.
Qed.
Print Assumptions C69_default_constructed_in_containers_refuted.

Example C69_default_case :
  run clone_rule (call_quadrature numZ) [Default 0; Copy 1 0; New 0 (gauss_quad_1 numZ); Adopt 2 0; Assign 1 2; Call 1 int8] start = UB.
Proof. vm_compute. reflexivity. Qed.

(** C69: in every program, integrating with a quadrature that has no rule dereferences NULL: there is no default
    rule. *)
Theorem C69_integrating_without_a_rule_refuted :
  forall (n : num) (prog : list (stmt (quad_rule n) (quad_args n))) (v : values (quad_rule n)) (out : list (outcome n))
    (x var : N) (lo hi a : expr n),
    values_run (call_quadrature n) prog nothing = Some (v, out) -> v_obj v x = Some None ->
    run clone_rule (call_quadrature n) (prog ++ [Call x (ofExpr (EInt lo hi var a))]) start = UB /\
    run clone_rule (call_quadrature n) (prog ++ [Call x (ofInterval lo hi a var)]) start = UB.
Proof.
  intros n prog v out x var lo hi a H X.
  destruct (sim_run clone_rule (call_quadrature n) (fun q => eq_refl) prog start nothing v out sim_start H) as [w [R S]].
  rewrite !(run_app clone_rule (call_quadrature n) prog _ _ _ _ R).
  pose proof (s_ob w v S x) as WX. rewrite X in WX. destruct WX as [b [WX RB]].
  destruct b as [b|]; [contradiction|].
  split; cbn [run]; unfold step at 1; rewrite WX; reflexivity.
Qed.
Print Assumptions C69_integrating_without_a_rule_refuted.

Example C69_without_a_rule_case :
  exists v out, values_run (call_quadrature numZ) [New 0 seven; Adopt 0 0; Default 1; Call 0 int8] nothing = Some (v, out) /\
    v_obj v 1%N = Some None.
Proof. eexists. eexists. split; reflexivity. Qed.

(** C69: a copied wrapper does not stay usable.  In every program, after wrapper y(x) or y = x for another
    wrapper y, any manipulation with x is undefined. *)
Theorem C69_copied_wrapper_refuted :
  forall (n : num) prog v out (x y : N) (e : expr n),
    values_run (call_manipulation n) prog nothing = Some (v, out) -> v_obj v x <> None -> x <> y ->
    (v_obj v y = None -> run (fun f => f) (call_manipulation n) (prog ++ [Take y x; Call x e]) start = UB) /\
    (v_obj v y <> None -> run (fun f => f) (call_manipulation n) (prog ++ [TakeAssign y x; Call x e]) start = UB).
Proof.
  intros n prog v out x y e H X NE.
  destruct (sim_run (fun f => f) (call_manipulation n) (fun q => eq_refl) prog start nothing v out sim_start H) as [w [R S]].
  rewrite !(run_app (fun f => f) (call_manipulation n) prog _ _ _ _ R).
  pose proof (s_ob w v S x) as WX. pose proof (s_ob w v S y) as WY.
  destruct (v_obj v x) as [q|]; [|congruence]. destruct WX as [a [WX _]].
  assert (YX : N.eqb y x = false) by (apply N.eqb_neq; congruence).
  split; intros Y.
  - rewrite Y in WY. cbn [run]. unfold step at 1. rewrite WX, WY. cbn [bind fst]. unfold step at 1. cbn [w_obj].
    rewrite upd_other, upd_same by congruence. reflexivity.
  - destruct (v_obj v y) as [r|]; [|congruence]. destruct WY as [b [WY RY]]. cbn [run]. unfold step at 1. rewrite WX, WY, YX.
    destruct (delete_ok _ _ _ RY) as [h [-> _]]. cbn [bind fst]. unfold step at 1. cbn [w_obj].
    rewrite upd_other, upd_same by congruence. reflexivity.
Qed.
Print Assumptions C69_copied_wrapper_refuted.

Example C69_copied_wrapper_case :
  exists v out, values_run (call_manipulation numZ) [New 0 five; Adopt 0 0; Call 0 (EVar 0)] nothing = Some (v, out) /\
    v_obj v 0%N <> None /\ v_obj v 1%N = None.
Proof. eexists. eexists. split; [vm_compute; reflexivity|]. split; [discriminate|reflexivity]. Qed.

(** The same for the wrappers of traversal functors. *)
Theorem C69_copied_traversal_wrapper_refuted :
  forall (n : num) prog v out (x y : N) (e : expr n),
    values_run (call_traversal n) prog nothing = Some (v, out) -> v_obj v x <> None -> x <> y ->
    (v_obj v y = None -> run (fun f => f) (call_traversal n) (prog ++ [Take y x; Call x e]) start = UB) /\
    (v_obj v y <> None -> run (fun f => f) (call_traversal n) (prog ++ [TakeAssign y x; Call x e]) start = UB).
Proof.
  intros n prog v out x y e H X NE.
  destruct (sim_run (fun f => f) (call_traversal n) (fun q => eq_refl) prog start nothing v out sim_start H) as [w [R S]].
  rewrite !(run_app (fun f => f) (call_traversal n) prog _ _ _ _ R).
  pose proof (s_ob w v S x) as WX. pose proof (s_ob w v S y) as WY.
  destruct (v_obj v x) as [q|]; [|congruence]. destruct WX as [a [WX _]].
  assert (YX : N.eqb y x = false) by (apply N.eqb_neq; congruence).
  split; intros Y.
  - rewrite Y in WY. cbn [run]. unfold step at 1. rewrite WX, WY. cbn [bind fst]. unfold step at 1. cbn [w_obj].
    rewrite upd_other, upd_same by congruence. reflexivity.
  - destruct (v_obj v y) as [r|]; [|congruence]. destruct WY as [b [WY RY]]. cbn [run]. unfold step at 1. rewrite WX, WY, YX.
    destruct (delete_ok _ _ _ RY) as [h [-> _]]. cbn [bind fst]. unfold step at 1. cbn [w_obj].
    rewrite upd_other, upd_same by congruence. reflexivity.
Qed.
Print Assumptions C69_copied_traversal_wrapper_refuted.

Example C69_copied_traversal_wrapper_case :
  exists v out, values_run (call_traversal numZ) [New 0 (fun _ => true); Adopt 0 0; Call 0 (EVar 0)] nothing = Some (v, out) /\
    v_obj v 0%N <> None /\ v_obj v 1%N = None.
Proof. eexists. eexists. split; [vm_compute; reflexivity|]. split; [discriminate|reflexivity]. Qed.

(** C69: a rule or functor cannot be shared: given to two objects, it is deleted twice. *)
Theorem C69_shared_pointer_refuted :
  forall (P I O : Type) (clone : P -> P) (call : option P -> I -> outcome O), (forall q, clone q = q) ->
  forall (prog : list (stmt P I)) (v : values P) (out : list (outcome O)) (x y p : N) (q : P),
    values_run call prog nothing = Some (v, out) -> v_obj v x = None -> v_obj v y = None -> x <> y ->
    run clone call (prog ++ [New p q; Adopt x p; Adopt y p; Destroy x; Destroy y]) start = UB /\
    run clone call (prog ++ [New p q; Adopt x p; Adopt y p; Destroy y; Destroy x]) start = UB.
Proof.
  intros P I O clone call CL prog v out x y p q H X Y NE.
  destruct (sim_run clone call CL prog start nothing v out sim_start H) as [w [R S]].
  rewrite !(run_app clone call prog _ _ _ _ R).
  pose proof (s_ob w v S x) as WX. pose proof (s_ob w v S y) as WY. rewrite X in WX. rewrite Y in WY.
  assert (YX : N.eqb y x = false) by (apply N.eqb_neq; congruence).
  assert (XY : N.eqb x y = false) by (apply N.eqb_neq; congruence).
  split; cbn [run]; unfold step at 1; cbn [bind fst]; unfold step at 1; cbn [w_obj w_ptr]; rewrite WX, upd_same;
    cbn [bind fst]; unfold step at 1; cbn [w_obj w_ptr w_heap w_next]; unfold upd at 1; rewrite YX, WY, upd_same;
    cbn [bind fst]; unfold step at 1; cbn [w_obj w_ptr w_heap w_next]; unfold upd at 1.
  - rewrite XY, upd_same. cbn [delete]. rewrite upd_same. cbn [bind fst]. unfold step at 1. cbn [w_obj w_heap].
    rewrite upd_other, upd_same by congruence. cbn [delete]. rewrite upd_same. reflexivity.
  - rewrite N.eqb_refl. cbn [delete]. rewrite upd_same. cbn [bind fst]. unfold step at 1. cbn [w_obj w_heap].
    rewrite !upd_other, upd_same by congruence. cbn [delete]. rewrite upd_same. reflexivity.
Qed.
Print Assumptions C69_shared_pointer_refuted.

Example C69_shared_case :
  run clone_rule (call_quadrature numZ) [New 0 seven; Adopt 0 0; Adopt 1 0; Call 0 int8; Call 1 int8; Destroy 0; Destroy 1] start = UB.
Proof. vm_compute. reflexivity. Qed.
