(** C67: translators as objects on the heap. *)
From Coq Require Import ZArith NArith List Bool String Lia.
From Verif Require Import Outcome Num RtModel LatexModel TransModel TransSpec TransFacts.
Import ListNotations.
Local Open Scope string_scope.

(** C67.  A program that keeps the rules never uses a deleted processor, and prints what it prints
    with translators that are values. *)
Theorem C67_translators_are_values :
  forall (T : Type) (pr : T -> string) (prog : list (stmt T)) (v : values T) (out : list string),
    values_run pr prog nothing = Some (v, out) ->
    exists w, run pr prog start = Ok (w, out).
Proof.
  intros T pr prog v out H. destruct (sim_run pr prog start nothing v out sim_start H) as [w [R _]].
  exists w. exact R.
Qed.
Print Assumptions C67_translators_are_values.

Definition print (z : Z) : string := if Z.eqb z 2 then "2" else "?".

Definition case : list (stmt Z) :=
  [Create 0; NewProc 7 (fun _ _ => "vec"); Customize 0 (EVar 0) "x"; AddProc 0 7; Copy 1 0;
   Customize 1 (EVar 0) "y"; Translate 0 false (EBin BPlus (EVar 0) (EConst 2%Z));
   Destroy 0; Translate 1 false (EBin BPlus (EVar 0) (EVec [])); NewProc 7 (fun _ _ => ""); AddProc 1 7;
   Translate 1 true (EBin BPlus (EVar 0) (EVar 3)); Destroy 1].

Example C67_case :
  exists v, values_run print case nothing = Some (v, ["x +  2 "; "y + vec"; "(y +  x_{3} )"]) /\
  exists w, run print case start = Ok (w, ["x +  2 "; "y + vec"; "(y +  x_{3} )"]).
Proof. eexists. split; [vm_compute; reflexivity|]. eexists. vm_compute. reflexivity. Qed.

(** C67.  After a program that keeps the rules every processor on the heap is in exactly one place:
    at one position of one living translator, or in one pointer variable that waits to be added. *)
Theorem C67_every_processor_has_one_owner :
  forall (T : Type) (pr : T -> string) (prog : list (stmt T)) (v : values T) (out : list string) (w : world T),
    values_run pr prog nothing = Some (v, out) -> run pr prog start = Ok (w, out) ->
    (forall x, w_trans w x = None <-> v_trans v x = None) /\
    (forall a, w_heap w a <> None ->
       (exists x ps, w_trans w x = Some ps /\ In a ps) \/ (exists p, v_ptr v p <> None /\ w_ptr w p = Some a)) /\
    (forall x ps a, w_trans w x = Some ps -> In a ps ->
       w_heap w a <> None /\ NoDup ps /\
       (forall y qs, w_trans w y = Some qs -> In a qs -> y = x) /\
       (forall p, v_ptr v p <> None -> w_ptr w p <> Some a)) /\
    (forall p, v_ptr v p <> None -> exists a, w_ptr w p = Some a /\ w_heap w a <> None /\
       (forall q, v_ptr v q <> None -> w_ptr w q = Some a -> q = p)).
Proof.
  intros T pr prog v out w H R. destruct (sim_run pr prog start nothing v out sim_start H) as [w' [R' S]].
  rewrite R in R'. injection R' as <-. split; [|split; [|split]].
  - intros x. pose proof (s_tr w v S x) as X. destruct (v_trans v x); [|tauto].
    destruct X as [ps [-> _]]. split; discriminate.
  - intros a A. apply (s_own w v S) in A as [A|[p [u [P Q]]]]; [left; exact A|].
    right. exists p. split; [rewrite P; discriminate|exact Q].
  - intros x ps a X I. destruct (living w v x ps S X) as [t [_ [N A]]].
    split; [exact (at_in _ _ _ _ A I)|]. split; [exact N|]. split.
    + intros y qs Y J. exact (s_disj w v S _ _ _ _ _ Y X J I).
    + intros p P E. destruct (v_ptr v p) as [u|] eqn:Q; [|congruence].
      destruct (s_ptr w v S p u Q) as [b [E' [_ K]]]. rewrite E in E'. injection E' as <-. exact (K x ps X I).
  - intros p P. destruct (v_ptr v p) as [u|] eqn:Q; [|congruence].
    destruct (s_ptr w v S p u Q) as [a [E [A _]]]. exists a. split; [exact E|]. split; [rewrite A; discriminate|].
    intros q P' E'. destruct (v_ptr v q) as [u'|] eqn:Q'; [|congruence]. exact (s_pdis w v S _ _ _ _ _ Q' Q E' E).
Qed.
Print Assumptions C67_every_processor_has_one_owner.

(** C67.  When all translators are destroyed and all new processors were added, the heap is empty. *)
Theorem C67_no_processor_leaks :
  forall (T : Type) (pr : T -> string) (prog : list (stmt T)) (v : values T) (out : list string),
    values_run pr prog nothing = Some (v, out) ->
    (forall x, v_trans v x = None) -> (forall p, v_ptr v p = None) ->
    exists w, run pr prog start = Ok (w, out) /\ forall a, w_heap w a = None.
Proof.
  intros T pr prog v out H V P. destruct (sim_run pr prog start nothing v out sim_start H) as [w [R S]].
  exists w. split; [exact R|]. intros a. destruct (w_heap w a) as [c|] eqn:A; [exfalso|reflexivity].
  assert (N : w_heap w a <> None) by congruence. apply (s_own w v S) in N as [[x [ps [X _]]]|[p [u [Q _]]]].
  - pose proof (s_tr w v S x) as Y. rewrite V in Y. congruence.
  - rewrite P in Q. discriminate.
Qed.
Print Assumptions C67_no_processor_leaks.

Example C67_leak_case :
  exists v out, values_run print case nothing = Some (v, out) /\ (forall x, v_trans v x = None) /\ (forall p, v_ptr v p = None).
Proof.
  eexists. eexists. split; [vm_compute; reflexivity|]. split.
  - intros x. cbn. destruct x as [|[x|x|]]; reflexivity.
  - intros p. cbn. destruct p as [|[[[p|p|]|p|]|p|]]; reflexivity.
Qed.

(** C67: translators cannot be assigned.  In any program, once x = y was executed for two different
    living translators, destroying both, or using one after the other was destroyed, is undefined,
    and the processors x had before belong to nobody. *)
Theorem C67_assignment_refuted :
  forall (T : Type) (pr : T -> string) (prog : list (stmt T)) (v : values T) (out : list string) (x y : N),
    values_run pr prog nothing = Some (v, out) -> v_trans v x <> None -> v_trans v y <> None -> x <> y ->
    run pr (prog ++ [Assign x y; Destroy x; Destroy y])%list start = UB /\
    run pr (prog ++ [Assign x y; Destroy y; Destroy x])%list start = UB /\
    (forall par e, run pr (prog ++ [Assign x y; Destroy x; Translate y par e])%list start = UB) /\
    exists w, run pr (prog ++ [Assign x y])%list start = Ok (w, out) /\
      exists a, w_heap w a <> None /\ (forall z ps, w_trans w z = Some ps -> ~ In a ps) /\
                (forall p, v_ptr v p <> None -> w_ptr w p <> Some a).
Proof.
  intros T pr prog v out x y H X Y NE. destruct (sim_run pr prog start nothing v out sim_start H) as [w [R S]].
  pose proof (s_tr w v S x) as WX. pose proof (s_tr w v S y) as WY.
  destruct (v_trans v x) as [t|]; [|congruence]. destruct (v_trans v y) as [t'|]; [|congruence].
  destruct WX as [ps [WX RX]]. destruct WY as [qs [WY RY]]. pose proof RX as [NX AX]. pose proof RY as [NY AY].
  assert (YX : N.eqb y x = false) by (apply N.eqb_neq; congruence).
  assert (XY : N.eqb x y = false) by (apply N.eqb_neq; congruence).
  destruct (delete_at _ _ _ NY AY) as [h [E [D _]]].
  destruct qs as [|b qs]; [inversion AY|]. destruct ps as [|a ps]; [inversion AX|].
  assert (U : delete_all h (b :: qs) = UB).
  { apply delete_gone. exists b. split; [left; reflexivity|]. apply D. left. reflexivity. }
  assert (B : h b = None) by (apply D; left; reflexivity).
  rewrite !(run_app pr prog _ _ _ _ R). split; [|split; [|split]].
  - cbn [run]. unfold step at 1. rewrite WX, WY. cbn [bind fst]. unfold step at 1. cbn [w_trans w_heap].
    rewrite upd_same, E. cbn [bind fst]. unfold step at 1. cbn [w_trans w_heap]. unfold upd. rewrite YX, WY, U. reflexivity.
  - cbn [run]. unfold step at 1. rewrite WX, WY. cbn [bind fst]. unfold step at 1. cbn [w_trans w_heap].
    unfold upd at 1. rewrite YX, WY, E. cbn [bind fst]. unfold step at 1. cbn [w_trans w_heap].
    unfold upd. rewrite XY, N.eqb_refl, U. reflexivity.
  - intros par e. rewrite !(run_app pr prog _ _ _ _ R). cbn [run]. unfold step at 1. rewrite WX, WY. cbn [bind fst].
    unfold step at 1. cbn [w_trans w_heap]. rewrite upd_same, E. cbn [bind fst]. unfold step at 1. cbn [w_trans w_heap].
    unfold upd. rewrite YX, WY. destruct e; cbn [translate dispatch]; rewrite B; reflexivity.
  - eexists. split.
    + cbn [run]. unfold step at 1. rewrite WX, WY. cbn [bind fst snd app]. rewrite app_nil_r. reflexivity.
    + exists a. cbn [w_heap w_trans w_ptr]. split; [exact (at_in _ _ _ _ AX (or_introl eq_refl))|]. split.
      * intros z rs. unfold upd. destruct (N.eqb z x) eqn:Z; intros F I.
        { injection F as <-. exact (NE (s_disj w v S _ _ _ _ _ WX WY (or_introl eq_refl) I)). }
        apply N.eqb_neq in Z. exact (Z (s_disj w v S _ _ _ _ _ F WX I (or_introl eq_refl))).
      * intros p P F. destruct (v_ptr v p) as [u|] eqn:Q; [|congruence].
        destruct (s_ptr w v S p u Q) as [c [F' [_ K]]]. rewrite F in F'. injection F' as <-.
        exact (K x _ WX (or_introl eq_refl)).
Qed.
Print Assumptions C67_assignment_refuted.

Example C67_assignment_case :
  run print [Create 0; Customize 0 (EVar 0) "x"; Create 1; Assign 1 0; Translate 1 false (EVar 0); Destroy 1; Destroy 0] start = UB.
Proof. vm_compute. reflexivity. Qed.

(** C67: nor can a processor be shared.  A pointer added to two translators, or to one twice, makes
    their destruction undefined. *)
Theorem C67_shared_processor_refuted :
  forall (T : Type) (pr : T -> string) (prog : list (stmt T)) (v : values T) (out : list string) (x y p : N) u,
    values_run pr prog nothing = Some (v, out) -> v_trans v x <> None -> v_trans v y <> None -> x <> y ->
    v_ptr v p = None ->
    run pr (prog ++ [NewProc p u; AddProc x p; AddProc y p; Destroy x; Destroy y])%list start = UB /\
    run pr (prog ++ [NewProc p u; AddProc x p; AddProc x p; Destroy x])%list start = UB.
Proof.
  intros T pr prog v out x y p u H X Y NE P.
  assert (H1 : values_run pr [NewProc p u; AddProc x p] v =
    Some (mk_values (upd (v_trans v) x (option_map (fun t => add_processor t u) (v_trans v x))) (upd (upd (v_ptr v) p (Some u)) p None), [])).
  { cbn [values_run values_step]. rewrite P. cbn [v_trans v_ptr]. rewrite upd_same. destruct (v_trans v x); [reflexivity|congruence]. }
  destruct (sim_run pr prog start nothing v out sim_start H) as [w0 [R0 S0]].
  destruct (sim_run pr _ w0 v _ _ S0 H1) as [w [R S]].
  assert (R1 : run pr (prog ++ [NewProc p u; AddProc x p]) start = Ok (w, out ++ [])%list).
  { rewrite (run_app pr prog _ _ _ _ R0), R. reflexivity. }
  change [NewProc p u; AddProc x p; AddProc y p; Destroy x; Destroy y] with
    ([NewProc p u; AddProc x p] ++ [AddProc y p; Destroy x; Destroy y])%list.
  change [NewProc p u; AddProc x p; AddProc x p; Destroy x] with
    ([NewProc p u; AddProc x p] ++ [AddProc x p; Destroy x])%list.
  rewrite !app_assoc, !(run_app pr _ _ _ _ _ R1).
  assert (A : exists ps a, w_trans w x = Some (ps ++ [a])%list /\ w_ptr w p = Some a).
  { revert R. cbn [run]. unfold step at 1, alloc. cbn [bind fst snd w_trans w_ptr]. unfold step at 1.
    cbn [w_trans w_ptr w_heap w_next]. rewrite upd_same. destruct (w_trans w0 x) as [ps|]; [|discriminate].
    cbn [bind fst snd app]. intros E. injection E as <-. exists ps, (w_next w0). cbn [w_trans w_ptr].
    split; apply upd_same. }
  destruct A as [ps [a [WX WP]]].
  assert (WY : exists qs, w_trans w y = Some qs).
  { pose proof (s_tr w _ S y) as K. cbn [v_trans] in K. rewrite upd_other in K by congruence.
    destruct (v_trans v y); [|congruence]. destruct K as [qs [K _]]. exists qs. exact K. }
  destruct WY as [qs WY].
  assert (YX : N.eqb y x = false) by (apply N.eqb_neq; congruence).
  assert (XY : N.eqb x y = false) by (apply N.eqb_neq; congruence).
  destruct (living w _ x _ S WX) as [t [_ [N AT]]].
  destruct (delete_at _ _ _ N AT) as [h [E [D _]]]. split.
  - cbn [run]. unfold step at 1. rewrite WY, WP. cbn [bind fst]. unfold step at 1. cbn [w_trans w_heap].
    unfold upd at 1. rewrite XY, WX, E. cbn [bind fst]. unfold step at 1. cbn [w_trans w_heap].
    unfold upd. rewrite YX, N.eqb_refl. rewrite delete_gone; [reflexivity|].
    exists a. split; [apply in_or_app; right; left; reflexivity|]. apply D. apply in_or_app. right. left. reflexivity.
  - cbn [run]. unfold step at 1. rewrite WX, WP. cbn [bind fst]. unfold step at 1. cbn [w_trans w_heap].
    rewrite upd_same. rewrite delete_twice; [reflexivity|].
    intros ND. rewrite <- app_assoc in ND. apply NoDup_remove_2 in ND. apply ND.
    apply in_or_app. right. left. reflexivity.
Qed.
Print Assumptions C67_shared_processor_refuted.

Example C67_shared_case :
  run print [Create 0; Create 1; NewProc 0 (fun _ _ => "vec"); AddProc 0 0; AddProc 1 0;
             Translate 0 false (EVec []); Translate 1 false (EVec []); Destroy 0; Destroy 1] start = UB.
Proof. vm_compute. reflexivity. Qed.
