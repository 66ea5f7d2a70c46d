(** Processors on the heap: simulation by values (proofs only). *)
From Coq Require Import ZArith NArith List Bool String Ascii Lia.
From Verif Require Import Outcome Num RtModel RtFacts StrModel LatexModel TransModel TransSpec.
Import ListNotations.

Section Facts.
Context {T : Type} (pr : T -> string).
Notation proc := (processor T).
Notation heap := (N -> option proc).

Definition procs (t : translator T) : list proc :=
  [PBinary; PUnary; PConstant; PVariable (t_vars t); PFunction (t_funs t)] ++ map PUser (t_users t).

Definition at_ (h : heap) : list N -> list proc -> Prop := Forall2 (fun a p => h a = Some p).

Definition rep (h : heap) (ps : list N) (t : translator T) : Prop := NoDup ps /\ at_ h ps (procs t).

(** Dispatch. *)
Fixpoint scan (f : proc -> outcome string) (l : list proc) : outcome string :=
  match l with
  | [] => Ok " \chi_{\mathrm{unknown}} "%string
  | p :: l' => bind (f p) (fun s => match s with EmptyString => scan f l' | _ => Ok s end)
  end.

Lemma dispatch_scan : forall h ps l f, at_ h ps l -> dispatch h f ps = scan f l.
Proof.
  intros h ps l f H. induction H as [|a p ps l E H IH]; [reflexivity|].
  cbn [dispatch scan]. rewrite E. destruct (f p) as [[|]| |]; try reflexivity. cbn [bind]. exact IH.
Qed.

Lemma scan_users : forall par e us f, (forall u, f (PUser u) = Ok (u par e)) ->
  scan f (map PUser us) = Ok (match ask us par e with EmptyString => " \chi_{\mathrm{unknown}} "%string | s => s end).
Proof.
  intros par e us f H. induction us as [|u us IH]; [reflexivity|].
  cbn [map scan ask]. rewrite H. cbn [bind]. destruct (u par e); [exact IH|reflexivity].
Qed.

Lemma or_unknown_not_empty : forall (t : translator T) par e s, or_unknown t par e s <> EmptyString.
Proof.
  intros t par e s. unfold or_unknown. destruct s; [|discriminate].
  destruct (ask (t_users t) par e); discriminate.
Qed.

Lemma latex_not_empty : forall t e par, latex pr t par e <> EmptyString.
Proof.
  intros t. induction e using expr_ind'; intros par; cbn [latex]; try apply or_unknown_not_empty;
    try discriminate.
  - destruct op; cbn; try discriminate. apply IHe.
  - destruct op, par; cbn; try discriminate;
      match goal with |- (latex pr t ?q ?a ++ _)%string <> _ => destruct (latex pr t q a) eqn:E; [destruct (IHe1 _ E)|discriminate] end.
Qed.

Lemma cat_ok : forall a b, cat (Ok a) (Ok b) = Ok (a ++ b)%string.
Proof. reflexivity. Qed.

Lemma found : forall s l, s <> EmptyString ->
  bind (Ok s) (fun s0 : string => match s0 with EmptyString => l | _ => Ok s0 end) = Ok s.
Proof. intros [|c s] l H; [destruct H|]; reflexivity. Qed.

Lemma dispatch_var : forall h ps t par i, rep h ps t -> dispatch h (process_var par i) ps = Ok (latex_var t par i).
Proof.
  intros h ps t par i [_ H]. rewrite (dispatch_scan _ _ _ _ H). unfold procs, latex_var, or_unknown.
  cbn [app scan process_var bind].
  destruct (match find_var (t_vars t) i with Some s => s | None => _ end); [|reflexivity].
  cbn [process_var bind].
  apply scan_users. intros u. reflexivity.
Qed.

Lemma string_app_assoc : forall a b c : string, ((a ++ b) ++ c = a ++ (b ++ c))%string.
Proof. induction a as [|x a IH]; intros; cbn; [reflexivity|]. rewrite IH. reflexivity. Qed.

Lemma translate_latex : forall h ps t, rep h ps t ->
  forall e par, translate pr h ps par e = Ok (latex pr t par e).
Proof.
  intros h ps t R. pose proof R as [_ H].
  induction e using expr_ind'; intros par; cbn [translate]; rewrite (dispatch_scan _ _ _ _ H);
    unfold procs; cbn [app scan bind].
  - reflexivity.
  - unfold latex, latex_var, or_unknown. cbn [process_var bind].
    destruct (match find_var (t_vars t) i with Some s => s | None => _ end); [|reflexivity].
    apply scan_users. reflexivity.
  - unfold latex, latex_fun, or_unknown.
    destruct (match find_fun (t_funs t) i t0 with Some s => s | None => _ end); [|reflexivity].
    apply scan_users. reflexivity.
  - match goal with |- bind ?x ?k = Ok ?r =>
      assert (X : x = Ok r); [|transitivity (bind (Ok r) k); [f_equal; exact X|apply found, latex_not_empty]] end.
    destruct op; rewrite ?IHe, ?(dispatch_var h ps t) by exact R; rewrite ?cat_ok; cbn [latex];
      rewrite ?string_app_assoc; reflexivity.
  - match goal with |- bind ?x ?k = Ok ?r =>
      assert (X : x = Ok r); [|transitivity (bind (Ok r) k); [f_equal; exact X|apply found, latex_not_empty]] end.
    rewrite IHe1, IHe2, IHe3, (dispatch_var h ps t) by exact R. rewrite ?cat_ok. cbn [latex].
    rewrite !string_app_assoc. reflexivity.
  - match goal with |- bind ?x ?k = Ok ?r =>
      assert (X : x = Ok r); [|transitivity (bind (Ok r) k); [f_equal; exact X|apply found, latex_not_empty]] end.
    destruct op; rewrite ?IHe1, ?IHe2, ?cat_ok; cbn [latex]; reflexivity.
  - cbn [latex or_unknown]. apply scan_users. reflexivity.
Qed.

(** The heap. *)
Lemma upd_same : forall (A : Type) (f : N -> option A) a v, upd f a v a = v.
Proof. intros. unfold upd. rewrite N.eqb_refl. reflexivity. Qed.
Lemma upd_other : forall (A : Type) (f : N -> option A) a b v, b <> a -> upd f a v b = f b.
Proof. intros A f a b v H. unfold upd. apply N.eqb_neq in H. rewrite H. reflexivity. Qed.

Lemma at_agree : forall (h h' : heap) ps l, (forall a, In a ps -> h' a = h a) -> at_ h ps l -> at_ h' ps l.
Proof.
  intros h h' ps l E H. induction H as [|a p ps l F H IH]; constructor.
  - rewrite E by (left; reflexivity). exact F.
  - apply IH. intros b I. apply E. right. exact I.
Qed.

Lemma at_in : forall (h : heap) ps l a, at_ h ps l -> In a ps -> h a <> None.
Proof.
  intros h ps l a H. induction H as [|b p ps l F H IH]; intros []; [subst; rewrite F; discriminate|auto].
Qed.

Lemma deref_at : forall (h : heap) ps l, at_ h ps l -> deref_all h ps = Ok l.
Proof.
  intros h ps l H. induction H as [|a p ps l F H IH]; [reflexivity|].
  cbn [deref_all]. rewrite F, IH. reflexivity.
Qed.

Lemma delete_at : forall ps l (h : heap), NoDup ps -> at_ h ps l ->
  exists h', delete_all h ps = Ok h' /\ (forall a, In a ps -> h' a = None) /\ (forall a, ~ In a ps -> h' a = h a).
Proof.
  induction ps as [|a ps IH]; intros l h N H.
  - exists h. split; [reflexivity|]. split; [intros a []|reflexivity].
  - inversion H as [|a' p ps' l' F H']; subst. inversion N as [|? ? NI ND]; subst.
    destruct (IH l' (upd h a None) ND) as [h' [E [D K]]].
    { eapply at_agree; [|exact H']. intros b I. apply upd_other. intros ->. contradiction. }
    exists h'. cbn [delete_all]. rewrite F. split; [exact E|]. split.
    + intros b [<-|I]; [|apply D; exact I]. rewrite K by exact NI. apply upd_same.
    + intros b I. rewrite K by (intros J; apply I; right; exact J). apply upd_other.
      intros ->. apply I. left. reflexivity.
Qed.

Lemma customize_at : forall e s ps l (h : heap), NoDup ps -> at_ h ps l ->
  exists h', customize_all h e s ps = Ok h' /\ at_ h' ps (map (customize_proc e s) l) /\
             (forall a, ~ In a ps -> h' a = h a).
Proof.
  intros e s. induction ps as [|a ps IH]; intros l h N H.
  - inversion H; subst. exists h. split; [reflexivity|]. split; [constructor|reflexivity].
  - inversion H as [|a' p ps' l' F H']; subst. inversion N as [|? ? NI ND]; subst.
    destruct (IH l' (upd h a (Some (customize_proc e s p))) ND) as [h' [E [D K]]].
    { eapply at_agree; [|exact H']. intros b I. apply upd_other. intros ->. contradiction. }
    exists h'. cbn [customize_all map]. rewrite F. split; [exact E|]. split.
    + constructor; [|exact D]. rewrite K by exact NI. apply upd_same.
    + intros b I. rewrite K by (intros J; apply I; right; exact J). apply upd_other.
      intros ->. apply I. left. reflexivity.
Qed.

Lemma customize_procs : forall e s t, map (customize_proc e s) (procs t) = procs (customize t e s).
Proof.
  intros e s t. unfold procs. rewrite map_app. cbn [map]. rewrite map_map.
  assert (U : map (fun x => customize_proc e s (PUser x)) (t_users t) = map PUser (t_users t)).
  { apply map_ext. intros u. destruct e; reflexivity. }
  rewrite U. destruct e; reflexivity.
Qed.

Lemma clone_procs : forall t : translator T, map clone (procs t) = procs (copy_translator t).
Proof.
  intros t. unfold procs. rewrite map_app, map_map. cbn. reflexivity.
Qed.

Lemma alloc_at : forall l (w w' : world T) ps, alloc_all w l = (w', ps) ->
  (forall a, w_heap w a <> None -> (a < w_next w)%N) ->
  w_trans w' = w_trans w /\ w_ptr w' = w_ptr w /\ NoDup ps /\ at_ (w_heap w') ps l /\
  (w_next w <= w_next w')%N /\
  (forall a, In a ps -> (w_next w <= a)%N) /\
  (forall a, (a < w_next w)%N -> w_heap w' a = w_heap w a) /\
  (forall a, w_heap w' a <> None -> (a < w_next w')%N) /\
  (forall a, w_heap w' a <> None -> w_heap w a <> None \/ In a ps).
Proof.
  induction l as [|p l IH]; intros w w' ps E B; cbn [alloc_all] in E.
  - injection E as <- <-. repeat split; try (intros; tauto); try constructor; try lia; try exact B. intros a [].
  - destruct (alloc w p) as [w1 a] eqn:A. destruct (alloc_all w1 l) as [w2 qs] eqn:L.
    injection E as <- <-. unfold alloc in A. injection A as W1 A. subst a.
    assert (B1 : forall a, w_heap w1 a <> None -> (a < w_next w1)%N).
    { subst w1. cbn [w_heap w_next]. intros a H. unfold upd in H. destruct (N.eqb a (w_next w)) eqn:Q.
      - apply N.eqb_eq in Q. lia.
      - apply B in H. lia. }
    destruct (IH w1 w2 qs L B1) as [E1 [E2 [ND [AT [LE [GE [KE [BN OW]]]]]]]].
    subst w1. cbn [w_heap w_next w_trans w_ptr] in *.
    split; [exact E1|]. split; [exact E2|]. split.
    { constructor; [|exact ND]. intros I. apply GE in I. lia. }
    split.
    { constructor; [|exact AT]. rewrite KE by lia. apply upd_same. }
    split; [lia|]. split.
    { intros a [<-|I]; [lia|]. apply GE in I. lia. }
    split.
    { intros a H. rewrite KE by lia. apply upd_other. lia. }
    split; [exact BN|].
    intros a H. apply OW in H as [H|H]; [|right; right; exact H].
    unfold upd in H. destruct (N.eqb a (w_next w)) eqn:Q.
    + apply N.eqb_eq in Q. right. left. symmetry. exact Q.
    + left. exact H.
Qed.

(** The simulation. *)
Record sim (w : world T) (v : values T) : Prop := mk_sim {
  s_tr : forall x, match v_trans v x with
                   | Some t => exists ps, w_trans w x = Some ps /\ rep (w_heap w) ps t
                   | None => w_trans w x = None
                   end;
  s_disj : forall x y ps qs a, w_trans w x = Some ps -> w_trans w y = Some qs -> In a ps -> In a qs -> x = y;
  s_ptr : forall p u, v_ptr v p = Some u ->
            exists a, w_ptr w p = Some a /\ w_heap w a = Some (PUser u) /\
                      (forall x ps, w_trans w x = Some ps -> ~ In a ps);
  s_pdis : forall p q u u' a, v_ptr v p = Some u -> v_ptr v q = Some u' ->
             w_ptr w p = Some a -> w_ptr w q = Some a -> p = q;
  s_own : forall a, w_heap w a <> None ->
            (exists x ps, w_trans w x = Some ps /\ In a ps) \/
            (exists p u, v_ptr v p = Some u /\ w_ptr w p = Some a);
  s_bnd : forall a, w_heap w a <> None -> (a < w_next w)%N
}.

Lemma sim_start : sim start nothing.
Proof.
  constructor; cbn; intros; try discriminate; try reflexivity; congruence.
Qed.

Lemma living : forall w v x ps, sim w v -> w_trans w x = Some ps -> exists t, v_trans v x = Some t /\ rep (w_heap w) ps t.
Proof.
  intros w v x ps S E. pose proof (s_tr w v S x) as H. destruct (v_trans v x) as [t|]; [|congruence].
  destruct H as [qs [E' R]]. exists t. split; [reflexivity|]. congruence.
Qed.

Lemma living_bnd : forall w v x ps a, sim w v -> w_trans w x = Some ps -> In a ps -> (a < w_next w)%N.
Proof.
  intros w v x ps a S E I. destruct (living w v x ps S E) as [t [_ [_ R]]].
  apply (s_bnd w v S). exact (at_in _ _ _ _ R I).
Qed.

(** New translators with all their processors new. *)
Lemma sim_new : forall w v x l t w' ps, sim w v -> v_trans v x = None -> alloc_all w l = (w', ps) -> l = procs t ->
  sim (mk_world (w_heap w') (w_next w') (upd (w_trans w') x (Some ps)) (w_ptr w'))
      (mk_values (upd (v_trans v) x (Some t)) (v_ptr v)).
Proof.
  intros w v x l t w' ps S X A ->. pose proof (s_bnd w v S) as B.
  destruct (alloc_at _ _ _ _ A B) as [E1 [E2 [ND [AT [LE [GE [KE [BN OW]]]]]]]].
  pose proof (s_tr w v S x) as WX. rewrite X in WX.
  constructor; cbn [w_heap w_next w_trans w_ptr v_trans v_ptr]; rewrite ?E1, ?E2.
  - intros y. unfold upd. destruct (N.eqb y x) eqn:Q.
    + exists ps. split; [reflexivity|]. split; assumption.
    + pose proof (s_tr w v S y) as H. destruct (v_trans v y) as [t'|]; [|exact H].
      destruct H as [qs [E [N R]]]. exists qs. split; [exact E|]. split; [exact N|].
      eapply at_agree; [|exact R]. intros a I. apply KE. exact (living_bnd w v y qs a S E I).
  - intros y z ps1 ps2 a. unfold upd. destruct (N.eqb y x) eqn:Q, (N.eqb z x) eqn:Q'; intros H1 H2 I1 I2.
    + apply N.eqb_eq in Q, Q'. congruence.
    + injection H1 as <-. apply GE in I1. pose proof (living_bnd w v z ps2 a S H2 I2). lia.
    + injection H2 as <-. apply GE in I2. pose proof (living_bnd w v y ps1 a S H1 I1). lia.
    + exact (s_disj w v S _ _ _ _ _ H1 H2 I1 I2).
  - intros p u P. destruct (s_ptr w v S p u P) as [a [H1 [H2 H3]]].
    assert (L : (a < w_next w)%N) by (apply B; rewrite H2; discriminate).
    exists a. split; [exact H1|]. split; [rewrite KE by exact L; exact H2|].
    intros y qs. unfold upd. destruct (N.eqb y x); intros E I.
    + injection E as <-. apply GE in I. lia.
    + exact (H3 y qs E I).
  - intros p q u u' a. exact (s_pdis w v S p q u u' a).
  - intros a H. apply OW in H as [H|H].
    + apply (s_own w v S) in H as [[y [qs [E I]]]|H]; [left|right; exact H].
      exists y, qs. split; [|exact I]. rewrite upd_other; [exact E|]. intros ->. congruence.
    + left. exists x, ps. split; [apply upd_same|exact H].
  - exact BN.
Qed.

Lemma sim_step : forall c w v v' out, sim w v -> values_step pr c v = Some (v', out) ->
  exists w', step pr c w = Ok (w', out) /\ sim w' v'.
Proof.
  intros c w v v' out S. destruct c as [x|x y|x y|x|p u|x p|x e s|x par e]; cbn [values_step].
  - (* Create *)
    pose proof (s_tr w v S x) as WX. destruct (v_trans v x) eqn:X; [discriminate|].
    intros H. injection H as <- <-. unfold step. rewrite WX.
    destruct (alloc_all w _) as [w' ps] eqn:A. eexists. split; [reflexivity|].
    exact (sim_new _ _ _ _ fresh _ _ S X A eq_refl).
  - (* Copy *)
    pose proof (s_tr w v S x) as WX. pose proof (s_tr w v S y) as WY.
    destruct (v_trans v x) eqn:X; [discriminate|]. destruct (v_trans v y) as [t|] eqn:Y; [|discriminate].
    destruct WY as [qs [WY [N R]]]. intros H. injection H as <- <-. unfold step. rewrite WX, WY.
    rewrite (deref_at _ _ _ R). cbn [bind].
    destruct (alloc_all w _) as [w' ps] eqn:A. eexists. split; [reflexivity|].
    exact (sim_new _ _ _ _ (copy_translator t) _ _ S X A (clone_procs t)).
  - discriminate.
  - (* Destroy *)
    pose proof (s_tr w v S x) as WX. destruct (v_trans v x) as [t|] eqn:X; [|discriminate].
    destruct WX as [ps [WX [N R]]]. intros H. injection H as <- <-. unfold step. rewrite WX.
    destruct (delete_at _ _ _ N R) as [h' [E [D K]]]. rewrite E. cbn [bind].
    eexists. split; [reflexivity|].
    assert (NI : forall y qs a, y <> x -> w_trans w y = Some qs -> In a qs -> ~ In a ps).
    { intros y qs a NE E' I J. exact (NE (s_disj w v S _ _ _ _ _ E' WX I J)). }
    assert (BK : forall a, h' a <> None -> w_heap w a <> None /\ ~ In a ps).
    { intros a H. destruct (in_dec N.eq_dec a ps) as [I|I]; [rewrite D in H by exact I; destruct H; reflexivity|].
      rewrite K in H by exact I. split; assumption. }
    constructor; cbn [w_heap w_next w_trans w_ptr v_trans v_ptr].
    + intros y. unfold upd. destruct (N.eqb y x) eqn:Q; [reflexivity|]. apply N.eqb_neq in Q.
      pose proof (s_tr w v S y) as H. destruct (v_trans v y) as [t'|]; [|exact H].
      destruct H as [qs [E' [N' R']]]. exists qs. split; [exact E'|]. split; [exact N'|].
      eapply at_agree; [|exact R']. intros a I. apply K. exact (NI y qs a Q E' I).
    + intros y z ps1 ps2 a. unfold upd. destruct (N.eqb y x); [discriminate|].
      destruct (N.eqb z x); [discriminate|]. apply (s_disj w v S).
    + intros p u P. destruct (s_ptr w v S p u P) as [a [H1 [H2 H3]]]. exists a. split; [exact H1|].
      split; [rewrite K by exact (H3 x ps WX); exact H2|].
      intros y qs. unfold upd. destruct (N.eqb y x); [discriminate|]. apply H3.
    + intros p q u u' a. exact (s_pdis w v S p q u u' a).
    + intros a H. apply BK in H as [H I]. apply (s_own w v S) in H as [[y [qs [E' J]]]|H]; [left|right; exact H].
      exists y, qs. split; [|exact J]. rewrite upd_other; [exact E'|]. intros ->.
      rewrite WX in E'. injection E' as <-. contradiction.
    + intros a H. apply BK in H as [H _]. exact (s_bnd w v S a H).
  - (* NewProc *)
    destruct (v_ptr v p) eqn:P; [discriminate|]. intros H. injection H as <- <-. unfold step, alloc.
    eexists. split; [reflexivity|]. pose proof (s_bnd w v S) as B.
    assert (F : w_heap w (w_next w) = None).
    { destruct (w_heap w (w_next w)) eqn:Q; [|reflexivity].
      assert (L : (w_next w < w_next w)%N) by (apply B; rewrite Q; discriminate). lia. }
    constructor; cbn [w_heap w_next w_trans w_ptr v_trans v_ptr].
    + intros y. pose proof (s_tr w v S y) as H. destruct (v_trans v y) as [t'|]; [|exact H].
      destruct H as [qs [E' [N' R']]]. exists qs. split; [exact E'|]. split; [exact N'|].
      eapply at_agree; [|exact R']. intros a I. apply upd_other. pose proof (living_bnd w v y qs a S E' I). lia.
    + exact (s_disj w v S).
    + intros q u' Q. unfold upd in Q. destruct (N.eqb q p) eqn:Z.
      * apply N.eqb_eq in Z. subst q. injection Q as <-. exists (w_next w). split; [apply upd_same|].
        split; [apply upd_same|]. intros y qs E I. pose proof (living_bnd w v y qs _ S E I). lia.
      * apply N.eqb_neq in Z. destruct (s_ptr w v S q u' Q) as [a [H1 [H2 H3]]]. exists a.
        split; [rewrite upd_other by exact Z; exact H1|]. split; [|exact H3].
        rewrite upd_other; [exact H2|]. intros ->. congruence.
    + intros q r u1 u2 a. unfold upd. destruct (N.eqb q p) eqn:Z, (N.eqb r p) eqn:Z'; intros H1 H2 H3 H4.
      * apply N.eqb_eq in Z, Z'. congruence.
      * injection H3 as <-. destruct (s_ptr w v S r u2 H2) as [b [K1 [K2 _]]]. congruence.
      * injection H4 as <-. destruct (s_ptr w v S q u1 H1) as [b [K1 [K2 _]]]. congruence.
      * exact (s_pdis w v S _ _ _ _ _ H1 H2 H3 H4).
    + intros a H. destruct (N.eq_dec a (w_next w)) as [->|NE].
      * right. exists p, u. split; apply upd_same.
      * rewrite upd_other in H by exact NE. apply (s_own w v S) in H as [H|[q [u' [H1 H2]]]]; [left; exact H|].
        right. exists q, u'. assert (q <> p) by congruence. rewrite !upd_other by assumption. split; assumption.
    + intros a H. destruct (N.eq_dec a (w_next w)) as [->|NE]; [lia|].
      rewrite upd_other in H by exact NE. apply B in H. lia.
  - (* AddProc *)
    pose proof (s_tr w v S x) as WX. destruct (v_trans v x) as [t|] eqn:X; [|discriminate].
    destruct (v_ptr v p) as [u|] eqn:P; [|discriminate].
    destruct WX as [ps [WX [N R]]]. destruct (s_ptr w v S p u P) as [a [PA [HA NA]]].
    intros H. injection H as <- <-. unfold step. rewrite WX, PA.
    eexists. split; [reflexivity|].
    constructor; cbn [w_heap w_next w_trans w_ptr v_trans v_ptr].
    + intros y. unfold upd. destruct (N.eqb y x) eqn:Q.
      * exists (ps ++ [a]). split; [reflexivity|]. split.
        { apply NoDup_rev in N. rewrite <- (rev_involutive (ps ++ [a])). apply NoDup_rev.
          rewrite rev_app_distr. cbn. constructor; [|exact N]. rewrite <- in_rev. exact (NA x ps WX). }
        unfold procs. cbn [t_vars t_funs t_users add_processor]. rewrite map_app, app_assoc.
        apply Forall2_app; [exact R|]. constructor; [exact HA|constructor].
      * exact (s_tr w v S y).
    + intros y z ps1 ps2 b. unfold upd. destruct (N.eqb y x) eqn:Q, (N.eqb z x) eqn:Q'; intros H1 H2 I1 I2.
      * apply N.eqb_eq in Q, Q'. congruence.
      * apply N.eqb_eq in Q. subst y. injection H1 as <-. apply in_app_or in I1 as [I1|[<-|[]]].
        { exact (s_disj w v S _ _ _ _ _ WX H2 I1 I2). } destruct (NA z ps2 H2 I2).
      * apply N.eqb_eq in Q'. subst z. injection H2 as <-. apply in_app_or in I2 as [I2|[<-|[]]].
        { exact (s_disj w v S _ _ _ _ _ H1 WX I1 I2). } destruct (NA y ps1 H1 I1).
      * exact (s_disj w v S _ _ _ _ _ H1 H2 I1 I2).
    + intros q u' Q. unfold upd in Q. destruct (N.eqb q p) eqn:Z; [discriminate|]. apply N.eqb_neq in Z.
      destruct (s_ptr w v S q u' Q) as [b [H1 [H2 H3]]]. exists b. split; [exact H1|]. split; [exact H2|].
      intros y qs. unfold upd. destruct (N.eqb y x); [|apply H3]. intros E I. injection E as <-.
      apply in_app_or in I as [I|[<-|[]]]; [exact (H3 x ps WX I)|].
      exact (Z (s_pdis w v S _ _ _ _ _ Q P H1 PA)).
    + intros q r u1 u2 b. unfold upd. destruct (N.eqb q p); [discriminate|].
      destruct (N.eqb r p); [discriminate|]. apply (s_pdis w v S).
    + intros b H. apply (s_own w v S) in H as [[y [qs [E I]]]|[q [u' [H1 H2]]]].
      * left. destruct (N.eq_dec y x) as [->|NE].
        { exists x, (ps ++ [a]). split; [apply upd_same|]. rewrite WX in E. injection E as <-.
          apply in_or_app. left. exact I. }
        { exists y, qs. split; [rewrite upd_other by exact NE; exact E|exact I]. }
      * destruct (N.eq_dec q p) as [->|NE].
        { left. exists x, (ps ++ [a]). split; [apply upd_same|]. apply in_or_app. right. left. congruence. }
        { right. exists q, u'. split; [rewrite upd_other by exact NE; exact H1|exact H2]. }
    + exact (s_bnd w v S).
  - (* Customize *)
    pose proof (s_tr w v S x) as WX. destruct (v_trans v x) as [t|] eqn:X; [|discriminate].
    destruct WX as [ps [WX [N R]]]. intros H. injection H as <- <-. unfold step. rewrite WX.
    destruct (customize_at e s _ _ _ N R) as [h' [E [D K]]]. rewrite E. cbn [bind].
    eexists. split; [reflexivity|]. rewrite customize_procs in D.
    assert (BK : forall a, h' a <> None -> w_heap w a <> None).
    { intros a H. destruct (in_dec N.eq_dec a ps) as [I|I]; [exact (at_in _ _ _ _ R I)|].
      rewrite K in H by exact I. exact H. }
    constructor; cbn [w_heap w_next w_trans w_ptr v_trans v_ptr].
    + intros y. unfold upd. destruct (N.eqb y x) eqn:Q.
      * apply N.eqb_eq in Q. subst y. exists ps. split; [exact WX|]. split; assumption.
      * apply N.eqb_neq in Q. pose proof (s_tr w v S y) as H. destruct (v_trans v y) as [t'|]; [|exact H].
        destruct H as [qs [E' [N' R']]]. exists qs. split; [exact E'|]. split; [exact N'|].
        eapply at_agree; [|exact R']. intros a I. apply K. intros J.
        exact (Q (s_disj w v S _ _ _ _ _ E' WX I J)).
    + exact (s_disj w v S).
    + intros p u P. destruct (s_ptr w v S p u P) as [a [H1 [H2 H3]]]. exists a. split; [exact H1|].
      split; [rewrite K by exact (H3 x ps WX); exact H2|exact H3].
    + exact (s_pdis w v S).
    + intros a H. apply (s_own w v S). exact (BK a H).
    + intros a H. apply (s_bnd w v S). exact (BK a H).
  - (* Translate *)
    pose proof (s_tr w v S x) as WX. destruct (v_trans v x) as [t|] eqn:X; [|discriminate].
    destruct WX as [ps [WX R]]. intros H. injection H as <- <-. unfold step. rewrite WX.
    rewrite (translate_latex _ _ _ R). cbn [bind]. exists w. split; [reflexivity|exact S].
Qed.

Lemma sim_run : forall prog w v v' out, sim w v -> values_run pr prog v = Some (v', out) ->
  exists w', run pr prog w = Ok (w', out) /\ sim w' v'.
Proof.
  induction prog as [|c prog IH]; intros w v v' out S H; cbn [values_run] in H.
  - injection H as <- <-. exists w. split; [reflexivity|exact S].
  - destruct (values_step pr c v) as [[v1 out1]|] eqn:E; [|discriminate].
    destruct (values_run pr prog v1) as [[v2 out2]|] eqn:F; [|discriminate]. injection H as <- <-.
    destruct (sim_step _ _ _ _ _ S E) as [w1 [W1 S1]]. destruct (IH _ _ _ _ S1 F) as [w2 [W2 S2]].
    exists w2. cbn [run]. rewrite W1. cbn [bind fst snd]. rewrite W2. cbn [bind fst snd]. split; [reflexivity|exact S2].
Qed.

Lemma run_app : forall p q (w w' : world T) out, run pr p w = Ok (w', out) ->
  run pr (p ++ q) w = bind (run pr q w') (fun r => Ok (fst r, out ++ snd r)).
Proof.
  induction p as [|c p IH]; intros q w w' out H; cbn [run app] in *.
  - injection H as <- <-. destruct (run pr q w) as [[]| |]; reflexivity.
  - destruct (step pr c w) as [[w1 o1]| |]; try discriminate. cbn [bind fst snd] in *.
    destruct (run pr p w1) as [[w2 o2]| |] eqn:E; try discriminate. cbn [bind fst snd] in H.
    injection H as <- <-. rewrite (IH q _ _ _ E). destruct (run pr q w2) as [[w3 o3]| |]; try reflexivity.
    cbn [bind fst snd]. rewrite app_assoc. reflexivity.
Qed.

Lemma delete_gone : forall ps (h : heap), (exists a, In a ps /\ h a = None) -> delete_all h ps = UB.
Proof.
  induction ps as [|b ps IH]; intros h [a [I E]]; [destruct I|]. cbn [delete_all].
  destruct I as [<-|I]; [rewrite E; reflexivity|]. destruct (h b) eqn:B; [|reflexivity].
  apply IH. exists a. split; [exact I|]. unfold upd. destruct (N.eqb a b); [reflexivity|exact E].
Qed.
Lemma delete_twice : forall ps (h : heap), ~ NoDup ps -> delete_all h ps = UB.
Proof.
  induction ps as [|b ps IH]; intros h N; [destruct N; constructor|]. cbn [delete_all].
  destruct (h b) eqn:B; [|reflexivity]. destruct (in_dec N.eq_dec b ps) as [I|I].
  - apply delete_gone. exists b. split; [exact I|apply upd_same].
  - apply IH. intros D. apply N. constructor; assumption.
Qed.
End Facts.
