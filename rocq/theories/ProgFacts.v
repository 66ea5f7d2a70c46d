(** Programs compute with real functions (proofs only). *)
From Coq Require Import ZArith NArith Reals List Bool Arith Lia Lra.
From Coquelicot Require Import Coquelicot.
From Verif Require Import Outcome Num RtModel RtSpec RtFacts RtStep RtTermination RtValue RtEval RtSubst
  NumR NumRFacts RealSpec RtDiff RtDiff2 HeapModel HeapSpec HeapFacts HeapExec HeapHistory ProgSpec.
Import ListNotations.
Local Open Scope R_scope.

Definition pt (p : list R) : list (option R) := map Some p.

(** The expression [e] has the values of [f]. *)
Definition represents (d : nat) (f : func) (e : expr numR) : Prop :=
  proper d f /\ (forall p, dom f p -> eval numR e (pt p) = Ok (Some (val f p))) /\
  (forall p, smooth f p -> reg (pt p) e) /\ (forall i, is_variable f = Some i -> e = EVar i).
Definition related (d : nat) (fs : functions) (st : store numR) : Prop :=
  forall x, match fs x, st x with
            | None, None => True
            | Some None, Some None => True
            | Some (Some f), Some (Some e) => represents d f e
            | _, _ => False
            end.

Lemma pt_update : forall p i t, pt (update p i t) = update (pt p) i (Some t).
Proof. induction p as [|y p IH]; intros [|i] t; simpl; auto. f_equal. apply IH. Qed.
Lemma pt_nth : forall p i, nth_error (pt p) i = option_map Some (nth_error p i).
Proof. intros p i. unfold pt. now rewrite nth_error_map. Qed.

(** Replacing variables. *)
Section Replace.
Context (h : N -> option (expr numR)) (v w : list (option R)).
Hypothesis H : forall j, match h j with
                         | Some r => reg v r /\ nth_error w (N.to_nat j) = Some (Some (rv v r))
                         | None => nth_error w (N.to_nat j) = nth_error v (N.to_nat j)
                         end.
Lemma replace_rv : forall e, rv v (replace_vars h e) = rv w e.
Proof.
  induction e as [c|j|j t|op a IH|lo hi u a _ _ IH|op l q IHl IHr|es _] using expr_ind'; cbn [replace_vars rv]; auto.
  - specialize (H j). destruct (h j) as [r|].
    + destruct H as [_ ->]. reflexivity.
    + cbn [rv]. now rewrite H.
  - now rewrite IH.
  - now rewrite IHl, IHr.
Qed.
Lemma replace_reg : forall e, reg w e -> reg v (replace_vars h e).
Proof.
  induction e as [c|j|j t|op a IH|lo hi u a _ _ IH|op l q IHl IHr|es _] using expr_ind'; cbn [replace_vars reg]; auto.
  - specialize (H j). destruct (h j) as [r|]; [tauto|]. cbn [reg]. now rewrite H.
  - intros [A D]. split; [auto|]. now rewrite replace_rv.
  - intros [[A B] D]. split; [auto|]. now rewrite !replace_rv.
Qed.
End Replace.

Lemma represents_simplify : forall d f e, represents d f e ->
  exists e', simplify_top numR e = Ok e' /\ represents d f e'.
Proof.
  intros d f e [P [Ev [Sm Va]]]. destruct P as [P1 [P2 [p0 P3]]].
  destruct (simplify_real (pt p0) e _ (Ev _ P3)) as [e' [E _]]. exists e'. split; [exact E|].
  split; [split; [exact P1|split; [exact P2|exists p0; exact P3]]|]. split; [|split].
  - intros p D. destruct (simplify_real (pt p) e _ (Ev _ D)) as [e2 [E2 V2]]. congruence.
  - intros p D. destruct (simplify_reg (pt p) e (Sm _ D)) as [e2 [E2 [R2 _]]]. congruence.
  - intros i I. specialize (Va i I). subst e. rewrite (top_done numR (EVar i) eq_refl) in E. congruence.
Qed.

(** An operation. *)
Lemma represents_bin : forall d op f g h a b, represents d g a -> represents d h b -> proper d f -> is_variable f = None ->
  (forall p, dom f p ->
     dom g p /\ dom h p /\ op_defined op (val h p) /\ val f p = op_value op (val g p) (val h p)) ->
  (forall p, smooth f p -> smooth g p /\ smooth h p) -> represents d f (EBin op a b).
Proof.
  intros d op f g h a b [_ [Ea [Sa _]]] [_ [Eb [Sb _]]] P NV D S. split; [exact P|]. split; [|split].
  - intros p Dp. destruct (D p Dp) as [Dg [Dh [O V]]]. cbn [eval]. rewrite (Ea p Dg), (Eb p Dh), V.
    destruct op; cbn in O |- *; try contradiction; auto. rewrite (proj2 (r_eqb_false _ _) O). reflexivity.
  - intros p Sp. destruct (S p Sp) as [Sg Sh]. destruct (D p (proj1 P p Sp)) as [Dg [Dh [O V]]].
    split; [split; auto|]. pose proof (Eb p Dh) as Q. rewrite (reg_eval _ _ (Sb p Sh)) in Q. injection Q as Q. rewrite Q.
    destruct op; cbn in O |- *; auto.
  - intros i I. congruence.
Qed.
Lemma represents_un : forall d op f g a, represents d g a -> proper d f -> is_variable f = None ->
  (forall p, dom f p -> dom g p /\ fun_defined op (val g p) /\ val f p = fun_value op (val g p)) ->
  (forall p, smooth f p -> smooth g p /\ fun_smooth op (val g p)) -> represents d f (EUn op a).
Proof.
  intros d op f g a [_ [Ea [Sa _]]] P NV D S. split; [exact P|]. split; [|split].
  - intros p Dp. destruct (D p Dp) as [Dg [O V]]. cbn [eval]. rewrite (Ea p Dg), V.
    destruct op; cbn in O |- *; try contradiction; auto.
    + rewrite (proj2 (r_eqb_false _ _) O). reflexivity.
    + rewrite (proj2 (r_leb_true _ _) O). reflexivity.
    + rewrite (proj2 (r_ltb_true _ _) O). reflexivity.
    + rewrite (proj2 (r_ltb_true _ _) O). reflexivity.
  - intros p Sp. destruct (S p Sp) as [Sg K]. destruct (D p (proj1 P p Sp)) as [Dg [O V]].
    split; [auto|]. pose proof (Ea p Dg) as Q. rewrite (reg_eval _ _ (Sa p Sg)) in Q. injection Q as Q. rewrite Q.
    destruct op; cbn in O, K |- *; auto.
  - intros i I. congruence.
Qed.

(** The derivative. *)
Lemma represents_diff : forall d i f g a, represents d g a -> proper d f -> is_variable f = None ->
  (forall p, dom f p ->
     smooth g p /\
     exists x delta, nth_error p (N.to_nat i) = Some x /\ 0 < delta /\
       (forall t, Rabs (t - x) < delta -> dom g (update p (N.to_nat i) t)) /\
       derivable_pt_lim (fun t => val g (update p (N.to_nat i) t)) x (val f p)) ->
  exists e, diff_top numR (DVar i) a = Ok e /\ represents d f e.
Proof.
  intros d i f g a [_ [Ea [Sa _]]] P NV D.
  assert (Step : forall p, smooth g p -> exists e, diff_top numR (DVar i) a = Ok e /\ reg (pt p) e /\ rv (pt p) e = rv (pt p) (pdiff i a)).
  { intros p Sp. unfold diff_top. rewrite (diff_pdiff i (pt p) a (Sa p Sp)). cbn [bind].
    apply simplify_reg, reg_pdiff, (Sa p Sp). }
  destruct P as [P1 [P2 [p0 P3]]]. destruct (Step p0 (proj1 (D p0 P3))) as [e [E _]]. exists e. split; [exact E|].
  assert (K : forall p, dom f p -> reg (pt p) e /\ rv (pt p) e = val f p).
  { intros p Dp. destruct (D p Dp) as [Sg [x [delta [Hx [Hd [Nb De]]]]]].
    destruct (Step p Sg) as [e2 [E2 [R2 V2]]]. assert (e2 = e) by congruence. subst e2. split; [exact R2|].
    rewrite V2.
    assert (Hx' : nth_error (pt p) (N.to_nat i) = Some (Some x)) by (rewrite pt_nth, Hx; reflexivity).
    destruct (partial_of_reg i (pt p) x a Hx' (Sa p Sg)) as [k [[eps [He Sl]] Dk]].
    apply (uniqueness_limite k x); [exact Dk|].
    apply is_derive_Reals. apply is_derive_Reals in De. eapply is_derive_ext_loc; [|exact De].
    assert (Pm : 0 < Rmin delta eps) by (apply Rmin_glb_lt; lra).
    exists (mkposreal _ Pm). intros t T. change (Rabs (t - x) < Rmin delta eps) in T.
    pose proof (Rmin_l delta eps). pose proof (Rmin_r delta eps).
    specialize (Nb t ltac:(lra)). specialize (Sl t ltac:(lra)). rewrite <- pt_update, (Ea _ Nb) in Sl. congruence. }
  split; [split; [exact P1|split; [exact P2|exists p0; exact P3]]|]. split; [|split].
  - intros p Dp. destruct (K p Dp) as [R V]. rewrite (reg_eval _ _ R), V. reflexivity.
  - intros p Sp. apply K, P1, Sp.
  - intros j J. congruence.
Qed.

(** Substitution. *)
Lemma nth_ext : forall {A : Type} (l k : list A), (forall i, nth_error l i = nth_error k i) -> l = k.
Proof.
  induction l as [|a l IH]; intros [|b k] H; auto.
  - specialize (H O). discriminate.
  - specialize (H O). discriminate.
  - f_equal; [specialize (H O); cbn in H; congruence|]. apply IH. intros i. exact (H (S i)).
Qed.
Lemma forall2_len : forall {A B : Type} (P : A -> B -> Prop) l k, Forall2 P l k -> length l = length k.
Proof. intros A B P l k F. induction F; cbn [length]; auto. Qed.
Lemma assoc_rel : forall (fd : nat) ids (gs : list func) (rs : list (expr numR)), length ids = length gs ->
  Forall2 (fun h r => represents fd h r) gs rs -> forall j,
  match assoc (combine ids gs) j, assoc (combine ids rs) j with
  | Some g, Some r => represents fd g r /\ In g gs /\ In j ids
  | None, None => True
  | _, _ => False
  end.
Proof.
  intros fd. induction ids as [|i ids IH]; intros gs rs L F j; [exact I|].
  destruct F as [|g r gs rs G F]; [discriminate|]. cbn [combine assoc]. destruct (N.eqb i j) eqn:E.
  - apply N.eqb_eq in E. subst. split; [exact G|]. split; left; reflexivity.
  - injection L as L. specialize (IH gs rs L F j).
    destruct (assoc (combine ids gs) j), (assoc (combine ids rs) j); auto. destruct IH as [A [B C]].
    split; [exact A|]. split; right; assumption.
Qed.
Lemma represents_subst : forall d ids f g gs a rs, represents d g a -> proper d f -> is_variable f = None ->
  Forall2 (fun h r => represents d h r) gs rs -> length ids = length gs ->
  List.Forall (fun i => (N.to_nat i < d)%nat) ids ->
  (forall p, dom f p -> exists q,
     moved ids gs p q /\ List.Forall (fun h => dom h p) gs /\ dom g q /\ val f p = val g q) ->
  (forall p q, smooth f p -> moved ids gs p q -> List.Forall (fun h => smooth h p) gs /\ smooth g q) ->
  exists e, simplify_top numR (replace_vars (assoc (combine ids rs)) a) = Ok e /\ represents d f e.
Proof.
  intros d ids f g gs a rs [_ [Ea [Sa _]]] P NV F L B D S.
  assert (K : forall p q j, length p = d -> moved ids gs p q -> List.Forall (fun h => dom h p) gs ->
            match assoc (combine ids rs) j with
            | Some r => exists z, eval numR r (pt p) = Ok (Some z) /\ nth_error (pt q) (N.to_nat j) = Some (Some z)
            | None => nth_error (pt q) (N.to_nat j) = nth_error (pt p) (N.to_nat j)
            end).
  { intros p q j Lp [_ M] Fd. specialize (M j). pose proof (assoc_rel d ids gs rs L F j) as AR.
    rewrite !pt_nth. destruct (assoc (combine ids gs) j) as [h|], (assoc (combine ids rs) j) as [r|]; try contradiction.
    - destruct AR as [[_ [Er _]] [Ig Ij]]. rewrite Forall_forall in Fd, B. specialize (Fd h Ig). specialize (B j Ij).
      exists (val h p). split; [auto|].
      destruct (nth_error p (N.to_nat j)) eqn:N; [now rewrite M|].
      apply nth_error_None in N. lia.
    - now rewrite M. }
  assert (EV : forall p, dom f p -> eval numR (replace_vars (assoc (combine ids rs)) a) (pt p) = Ok (Some (val f p))).
  { intros p Dp. destruct (D p Dp) as [q [M [Fd [Dg V]]]]. rewrite V.
    apply (eval_replace numR (assoc (combine ids rs)) (pt p) (pt q) a); [|exact (Ea q Dg)].
    intros j x _. pose proof (K p q j (proj1 (proj2 P) p Dp) M Fd) as Kj.
    destruct (assoc (combine ids rs) j) as [r|].
    - destruct Kj as [z [Z1 Z2]]. rewrite Z1. split; intros Q.
      + injection Q as <-. exact Z2.
      + assert (Y : Some (Some z) = Some x) by (rewrite <- Z2; exact Q). injection Y as <-. reflexivity.
    - split; intros Q; (eapply eq_trans; [|exact Q]); [exact Kj|symmetry; exact Kj]. }
  assert (R : represents d f (replace_vars (assoc (combine ids rs)) a)).
  { split; [exact P|]. split; [exact EV|]. split.
    - intros p Sp. pose proof (proj1 P p Sp) as Dp. destruct (D p Dp) as [q [M [Fd [Dg V]]]].
      destruct (S p q Sp M) as [Fs Sg]. apply (replace_reg _ (pt p) (pt q)); [|exact (Sa q Sg)].
      intros j. pose proof (K p q j (proj1 (proj2 P) p Dp) M Fd) as Kj. pose proof (assoc_rel d ids gs rs L F j) as AR.
      destruct (assoc (combine ids gs) j) as [h|], (assoc (combine ids rs) j) as [r|]; try contradiction; [|exact Kj].
      destruct AR as [[_ [_ [Sr _]]] [Ig _]]. rewrite Forall_forall in Fs. specialize (Sr p (Fs h Ig)).
      split; [exact Sr|]. destruct Kj as [z [Z1 Z2]]. rewrite (reg_eval _ _ Sr) in Z1. rewrite Z2. congruence.
    - intros i J. congruence. }
  apply represents_simplify. exact R.
Qed.

Lemma related_value : forall d fs st y f, related d fs st -> fs y = Some (Some f) ->
  exists e, st y = Some (Some e) /\ value_of numR st y = Ok e /\ represents d f e.
Proof.
  intros d fs st y f R E. specialize (R y). rewrite E in R. unfold value_of.
  destruct (st y) as [[e|]|]; try contradiction. exists e. auto.
Qed.
Lemma related_values : forall d fs st rs gs, related d fs st -> Forall2 (fun r h => fs r = Some (Some h)) rs gs ->
  exists es, oseq (map (value_of numR st) rs) = Ok es /\ Forall2 (fun h r => represents d h r) gs es /\ length es = length rs.
Proof.
  intros d fs st rs gs R F. induction F as [|r h rs gs E F IH].
  - exists []. split; [reflexivity|]. split; [constructor|reflexivity].
  - destruct IH as [es [O [G L]]]. destruct (related_value d fs st r h R E) as [e [_ [V Q]]].
    exists (e :: es). cbn [map oseq]. rewrite V, O. split; [reflexivity|]. split; [constructor; assumption|]. cbn [length]; f_equal; exact L.
Qed.
Lemma related_names : forall d fs st us ids, related d fs st ->
  Forall2 (fun u i => exists fu, fs u = Some (Some fu) /\ is_variable fu = Some i) us ids ->
  oseq (map (value_of numR st) us) = Ok (map EVar ids).
Proof.
  intros d fs st us ids R F. induction F as [|u i us ids [fu [E V]] F IH]; [reflexivity|].
  destruct (related_value d fs st u fu R E) as [e [_ [Q [_ [_ [_ N]]]]]]. specialize (N i V). subst e.
  cbn [map oseq]. rewrite Q, IH. reflexivity.
Qed.

Lemma source_ok : forall d fs st s f, related d fs st -> denotes d fs s f -> proper d f ->
  exists e, source_spec numR st s = Ok (Some e) /\ represents d f e.
Proof.
  intros d fs st s f R D P. destruct D as
    [c f NV V|i f NV V|y f E|y f E|op y z f g h NV Ey Ez D S|op y f g NV Ey D S|i y f g NV Ey D
    |us rs ids y f g gs NV Ey Fu Fr L B D S|u r i y f g h NV Ey Eu Er B D S].
  - exists (EConst (Some c)). split; [reflexivity|]. split; [exact P|]. split; [|split].
    + intros p Dp. cbn. now rewrite (V p Dp).
    + intros p _. exists c. reflexivity.
    + intros i I. congruence.
  - exists (EVar i). split; [reflexivity|]. split; [exact P|].
    assert (K : forall p, dom f p -> nth_error (pt p) (N.to_nat i) = Some (Some (val f p)))
      by (intros p Dp; rewrite pt_nth, (V p Dp); reflexivity).
    split; [|split].
    + intros p Dp. apply eval_var_some, K, Dp.
    + intros p Sp. exists (val f p). apply K, P, Sp.
    + intros j J. congruence.
  - destruct (related_value d fs st y f R E) as [e [Q [_ G]]]. exists e. cbn. rewrite Q. auto.
  - destruct (related_value d fs st y f R E) as [e [_ [Q G]]]. destruct (represents_simplify d f e G) as [e' [X G']].
    exists e'. cbn. rewrite Q. cbn. rewrite X. auto.
  - destruct (related_value d fs st y g R Ey) as [a [_ [Qa Ga]]]. destruct (related_value d fs st z h R Ez) as [b [_ [Qb Gb]]].
    exists (EBin op a b). cbn. rewrite Qa, Qb. split; [reflexivity|]. now apply (represents_bin d op f g h a b).
  - destruct (related_value d fs st y g R Ey) as [a [_ [Qa Ga]]].
    exists (EUn op a). cbn. rewrite Qa. split; [reflexivity|]. now apply (represents_un d op f g a).
  - destruct (related_value d fs st y g R Ey) as [a [_ [Qa Ga]]].
    destruct (represents_diff d i f g a Ga P NV D) as [e [X G]]. exists e. cbn [source_spec]. rewrite Qa. cbn [bind].
    rewrite X. split; [reflexivity|exact G].
  - destruct (related_value d fs st y g R Ey) as [a [_ [Qa Ga]]].
    destruct (related_values d fs st rs gs R Fr) as [es [Oe [Ge Le]]].
    pose proof (related_names d fs st us ids R Fu) as On. cbn [source_spec]. rewrite Qa. cbn [bind]. rewrite On, Oe. cbn [bind].
    assert (L1 : length ids = length es) by (pose proof (forall2_len _ _ _ Fu); lia).
    assert (L2 : length ids = length gs) by (pose proof (forall2_len _ _ _ Ge); lia).
    unfold substv_top. rewrite map_length, L1, Nat.eqb_refl, (substv_vars numR ids es a L1). cbn [bind].
    destruct (represents_subst d ids f g gs a es Ga P NV Ge L2 B D S) as [e [X G]]. exists e. rewrite X. split; [reflexivity|exact G].
  - destruct (related_value d fs st y g R Ey) as [a [_ [Qa Ga]]]. destruct Eu as [fu [Eu Nu]].
    destruct (related_value d fs st u fu R Eu) as [eu [_ [Qu [_ [_ [_ N]]]]]]. specialize (N i Nu). subst eu.
    destruct (related_value d fs st r h R Er) as [b [_ [Qb Gb]]].
    cbn [source_spec]. rewrite Qa, Qu, Qb. cbn [bind]. unfold subst1_top. rewrite subst1_var. cbn [bind].
    assert (MV : forall p, length p = d -> moved [i] [h] p (update p (N.to_nat i) (val h p))).
    { intros p Lp. split.
      - clear. generalize (N.to_nat i) as k. induction p as [|z p IH]; intros [|k]; cbn; auto.
        f_equal. revert k. generalize (val h (z :: p)) as w. intros w. clear IH. induction p as [|y p IH]; intros [|k]; cbn; auto.
      - intros j. cbn [combine assoc]. destruct (N.eqb_spec i j) as [->|Ne].
        + rewrite update_same by lia. destruct (nth_error p (N.to_nat j)) eqn:Q; [reflexivity|].
          apply nth_error_None in Q. lia.
        + rewrite update_other by lia. reflexivity. }
    assert (MU : forall p q, length p = d -> moved [i] [h] p q -> q = update p (N.to_nat i) (val h p)).
    { intros p q Lp M. destruct (MV p Lp) as [M1 M2]. destruct M as [M3 M4].
      apply nth_ext. intros k. rewrite <- (Nat2N.id k), M4, M2. reflexivity. }
    destruct (represents_subst d [i] f g [h] a [b] Ga P NV) as [e [X G]].
    + constructor; [exact Gb|constructor].
    + reflexivity.
    + constructor; [exact B|constructor].
    + intros p Dp. destruct (D p Dp) as [D1 [D2 D3]]. exists (update p (N.to_nat i) (val h p)).
      split; [apply MV, P, Dp|]. split; [constructor; [exact D1|constructor]|]. split; assumption.
    + intros p q Sp M. rewrite (MU p q (proj1 (proj2 P) p (proj1 P p Sp)) M). destruct (S p Sp) as [S1 S2].
      split; [constructor; [exact S1|constructor]|exact S2].
    + exists e. split; [|exact G]. cbn [combine assoc] in X.
      change (omap Some (simplify_top numR (replace_vars (fun j => if N.eqb i j then Some b else None) a)) = Ok (Some e)).
      rewrite X. reflexivity.
Qed.

Lemma related_upd : forall d fs st x v w, related d fs st ->
  match v, w with
  | None, None | Some None, Some None => True
  | Some (Some f), Some (Some e) => represents d f e
  | _, _ => False
  end -> related d (upd fs x v) (upd st x w).
Proof. intros d fs st x v w R H y. unfold upd. destruct (Nat.eqb y x); [exact H|apply R]. Qed.

Lemma step_ok : forall d s fs ev fs' st, related d fs st -> step d s fs ev fs' ->
  ev <> Raised numR /\ gradient_by_symbol numR st s = false /\
  exists st', exec_spec numR s st = Some (ev, st') /\ related d fs' st'.
Proof.
  intros d s fs ev fs' st R Q.
  destruct Q as [x fs E|x s f fs E D P|x s f fs E D P|x f fs E|x fs E|x f p fs E D].
  - split; [discriminate|]. split; [reflexivity|]. exists (upd st x (Some None)). cbn.
    pose proof (R x) as Rx. rewrite E in Rx. destruct (st x); [contradiction|]. split; [reflexivity|].
    now apply related_upd.
  - split; [discriminate|]. split; [destruct D; reflexivity|].
    destruct (source_ok d fs st s f R D P) as [e [X G]]. exists (upd st x (Some (Some e))). cbn [exec_spec].
    pose proof (R x) as Rx. rewrite E in Rx. destruct (st x); [contradiction|]. rewrite X. split; [reflexivity|].
    now apply related_upd.
  - split; [discriminate|]. split; [destruct D; reflexivity|].
    destruct (source_ok d fs st s f R D P) as [e [X G]]. exists (upd st x (Some (Some e))). cbn [exec_spec].
    pose proof (R x) as Rx. destruct (fs x) as [v|]; [|congruence].
    destruct (st x) as [w|]; [|destruct v; contradiction]. rewrite X. split; [reflexivity|].
    now apply related_upd.
  - split; [discriminate|]. split; [reflexivity|].
    destruct (related_value d fs st x f R E) as [e [Q1 [Q2 G]]]. destruct (represents_simplify d f e G) as [e' [X G']].
    rewrite settle_top in X. cbn [exec_spec]. rewrite Q2. destruct (settle numR e) as [e2 [u|z|]]; try discriminate.
    injection X as ->. exists (upd st x (Some (Some e'))). split; [reflexivity|].
    intros y. unfold upd. destruct (Nat.eqb_spec y x) as [->|]; [rewrite E; exact G'|apply R].
  - split; [discriminate|]. split; [reflexivity|]. exists (upd st x None). cbn.
    pose proof (R x) as Rx. destruct (fs x) as [v|]; [|congruence].
    destruct (st x) as [w|]; [|destruct v; contradiction]. split; [reflexivity|]. now apply related_upd.
  - split; [discriminate|]. split; [reflexivity|]. exists st.
    destruct (related_value d fs st x f R E) as [e [Q1 [Q2 [_ [Ev _]]]]]. cbn [exec_spec]. rewrite Q2. cbn [bind].
    specialize (Ev p D). unfold pt in Ev. rewrite Ev. split; [reflexivity|exact R].
Qed.

Lemma computes_ok : forall d l fs evs fs' st, related d fs st -> computes d l fs evs fs' ->
  tidy numR l st /\ exists st', exec_all_spec numR l st = Some (evs, st') /\ related d fs' st'.
Proof.
  intros d l fs evs fs' st R C. revert st R. induction C as [fs|s l fs ev fs' evs fs'' Q C IH]; intros st R.
  - split; [exact I|]. exists st. split; [reflexivity|exact R].
  - destruct (step_ok d s fs ev fs' st R Q) as [N1 [N2 [st1 [X R1]]]]. destruct (IH st1 R1) as [T [st2 [Y R2]]].
    cbn [tidy exec_all_spec]. rewrite X, Y. split; [auto|]. exists st2. split; [reflexivity|exact R2].
Qed.
Lemma related_start : forall d, related d no_functions (no_store numR).
Proof. intros d x. exact I. Qed.

(** inplace_simplify may be inserted anywhere. *)
Lemma computes_app : forall d l1 l2 fs evs fs'', computes d (l1 ++ l2) fs evs fs'' <->
  exists fs' evs1 evs2, evs = evs1 ++ evs2 /\ computes d l1 fs evs1 fs' /\ computes d l2 fs' evs2 fs''.
Proof.
  intros d l1 l2. induction l1 as [|s l1 IH]; intros fs evs fs''; cbn [app].
  - split.
    + intros C. exists fs, [], evs. split; [reflexivity|]. split; [constructor|exact C].
    + intros [fs' [e1 [e2 [-> [C1 C2]]]]]. inversion C1; subst. exact C2.
  - split.
    + intros C. inversion C as [|? ? ? ev fs1 evs1 ? Q C']; subst. apply IH in C' as [fs' [e1 [e2 [-> [C1 C2]]]]].
      exists fs', (ev :: e1), e2. split; [reflexivity|]. split; [econstructor; eassumption|exact C2].
    + intros [fs' [e1 [e2 [-> [C1 C2]]]]]. inversion C1 as [|? ? ? ev fs1 evs1 ? Q C']; subst. cbn [app].
      econstructor; [exact Q|]. apply IH. exists fs', evs1, e2. auto.
Qed.

(** What an object stands for is differentiable where it is smooth. *)
Lemma represents_derivable : forall d f e i p x delta, represents d f e -> smooth f p ->
  nth_error p (N.to_nat i) = Some x -> 0 < delta ->
  (forall t, Rabs (t - x) < delta -> dom f (update p (N.to_nat i) t)) ->
  exists r, derivable_pt_lim (fun t => val f (update p (N.to_nat i) t)) x r.
Proof.
  intros d f e i p x delta [_ [Ev [Sm _]]] Sp Hx Hd Nb.
  assert (Hx' : nth_error (pt p) (N.to_nat i) = Some (Some x)) by (rewrite pt_nth, Hx; reflexivity).
  destruct (partial_of_reg i (pt p) x e Hx' (Sm p Sp)) as [k [[eps [He Sl]] Dk]].
  exists (rv (pt p) (pdiff i e)). apply is_derive_Reals. apply is_derive_Reals in Dk. eapply is_derive_ext_loc; [|exact Dk].
  assert (Pm : 0 < Rmin delta eps) by (apply Rmin_glb_lt; lra).
  exists (mkposreal _ Pm). intros t T. change (Rabs (t - x) < Rmin delta eps) in T.
  pose proof (Rmin_l delta eps). pose proof (Rmin_r delta eps).
  specialize (Nb t ltac:(lra)). specialize (Sl t ltac:(lra)). rewrite <- pt_update, (Ev _ Nb) in Sl. congruence.
Qed.

(** A function of two variables that is smooth everywhere (for an example). *)
Definition plane (v : R -> R -> R) (name : option N) : func := {|
  dom := fun p => length p = 2%nat;
  smooth := fun p => length p = 2%nat;
  val := fun p => match p with [a; b] => v a b | _ => 0 end;
  is_variable := name
|}.
Lemma plane_proper : forall v name, proper 2 (plane v name).
Proof. intros v name. split; [auto|]. split; [auto|]. exists [0; 0]. reflexivity. Qed.
