(** Programs compute with functions on doubles (proofs only). *)
From Coq Require Import ZArith NArith List Bool Arith Lia.
From Flocq Require Import Core BinarySingleNaN.
From Verif Require Import Outcome Num RtModel RtSpec RtFacts RtStep RtTermination RtValue RtEval RtSubst
  NumB64 NumB64Facts HeapModel HeapSpec HeapFacts HeapExec HeapHistory Prog64Spec.
Import ListNotations.

(** Replacing variables by expressions of about the same value. *)
Section Replace.
Context (n : num) (ok : n -> Prop) (eqv : n -> n -> Prop) (L : laws n ok eqv).
Local Notation AV := (av n ok (fun _ _ => True)).
Context (h : N -> option (expr n)) (v q : list n).
Hypothesis H : forall j, match h j with
                         | Some r => forall z, nth_error q (N.to_nat j) = Some z ->
                                       exists y, AV v r /\ eval n r v = Ok y /\ eqv z y
                         | None => nth_error q (N.to_nat j) = nth_error v (N.to_nat j)
                         end.
Lemma var_value : forall (w : list n) i x, eval n (EVar i) w = Ok x <-> nth_error w (N.to_nat i) = Some x.
Proof.
  intros w i x. cbn [eval]. destruct (N.leb_spec (N.of_nat (length w)) i) as [A|A].
  - split; [discriminate|]. intros E. assert (N.to_nat i < length w) by (apply nth_error_Some; congruence). lia.
  - destruct (nth_error w (N.to_nat i)); split; congruence.
Qed.
Lemma replace_values : forall e x, AV q e -> eval n e q = Ok x ->
  AV v (replace_vars h e) /\ exists y, eval n (replace_vars h e) v = Ok y /\ eqv x y.
Proof.
  induction e as [c|j|j t|op a IH|lo hi u a _ _ IH|op l r IHl IHr|es _] using expr_ind'; intros x A E; cbn [replace_vars].
  - destruct A as [[z [E' K]] _]. cbn [eval] in E, E'. injection E as <-. injection E' as <-.
    split; [split; [exists c; auto|exact I]|]. exists c. split; [reflexivity|]. apply (l_refl n ok eqv L), K.
  - destruct A as [[z [E' K]] _]. rewrite E in E'. injection E' as <-. pose proof (proj1 (var_value q j x) E) as N.
    specialize (H j). destruct (h j) as [r|].
    + destruct (H x N) as [y [A1 [A2 A3]]]. split; [exact A1|]. exists y. auto.
    + rewrite H in N. apply var_value in N. split; [split; [exists x; auto|exact I]|]. exists x. split; [exact N|].
      apply (l_refl n ok eqv L), K.
  - discriminate E.
  - destruct A as [[z [E' K]] [Aa _]]. rewrite E in E'. injection E' as <-. cbn [eval] in E. apply bind_ok in E as [xa [Ea Eo]].
    destruct (IH xa Aa Ea) as [Ba [ya [Fa Qa]]].
    destruct (av_ex n ok _ q a Aa) as [xa' [Ea' Ka]]. rewrite Ea in Ea'. injection Ea' as <-.
    destruct (l_uop n ok eqv L op xa ya x Ka Qa Eo K) as [z' [Z1 Z2]].
    assert (EV : eval n (EUn op (replace_vars h a)) v = Ok z') by (cbn [eval]; rewrite Fa; exact Z1).
    split.
    + split; [exists z'; split; [exact EV|exact (l_ok n ok eqv L x z' Z2 K)]|]. split; [exact Ba|]. exists ya. auto.
    + exists z'. auto.
  - destruct A as [_ []].
  - destruct A as [[z [E' K]] [Al Ar]]. rewrite E in E'. injection E' as <-. cbn [eval] in E.
    destruct (av_ex n ok _ q l Al) as [xl [El Kl]]. destruct (av_ex n ok _ q r Ar) as [xr [Er Kr]].
    rewrite El, Er in E. cbn in E.
    destruct (IHl xl Al El) as [Bl [yl [Fl Ql]]]. destruct (IHr xr Ar Er) as [Br [yr [Fr Qr]]].
    destruct (l_bop n ok eqv L op xl yl xr yr x Kl Kr Ql Qr E K) as [z' [Z1 Z2]].
    assert (EV : eval n (EBin op (replace_vars h l) (replace_vars h r)) v = Ok z') by (cbn [eval]; rewrite Fl, Fr; exact Z1).
    split.
    + split; [exists z'; split; [exact EV|exact (l_ok n ok eqv L x z' Z2 K)]|]. split; [exact Bl|exact Br].
    + exists z'. auto.
  - discriminate E.
Qed.
End Replace.

Section Programs.
Context (lm : libm) (ZS : zero_symmetric lm).
Local Notation n := (numB64 lm).
Local Notation AV := (av n finite64 (fun _ _ => True)).
Let L : laws n finite64 same64 := laws64 lm ZS.

(** The expression [e] has the values of [f], up to signs of zeros. *)
Definition holds64 (f : func64) (e : expr n) : Prop :=
  forall p, dom64 f p -> AV p e /\ exists y, eval n e p = Ok y /\ same64 (val64 f p) y.
Definition represents64 (d : nat) (f : func64) (e : expr n) : Prop :=
  proper64 d f /\ holds64 f e /\ (forall i, name64 f = Some i -> e = EVar i).
Definition related64 (d : nat) (fs : functions64) (st : store n) : Prop :=
  forall x, match fs x, st x with
            | None, None => True
            | Some None, Some None => True
            | Some (Some f), Some (Some e) => represents64 d f e
            | _, _ => False
            end.

Lemma same64_trans : forall x y z : f64, same64 x y -> same64 y z -> same64 x z.
Proof. exact (l_trans n finite64 same64 L). Qed.

Lemma represents64_simplify : forall d f e, represents64 d f e ->
  exists e', simplify_top n e = Ok e' /\ represents64 d f e'.
Proof.
  intros d f e [P [Ev Va]]. destruct P as [P1 [p0 P3]].
  assert (K : forall p, dom64 f p -> exists e' y, simplify_top n e = Ok e' /\ AV p e' /\ eval n e' p = Ok y /\ same64 (val64 f p) y).
  { intros p D. destruct (Ev p D) as [A [y [E S]]].
    destruct (simplify_top_value n finite64 same64 L (fun _ _ => True) (fun _ _ _ _ _ => I) p e y A E) as [e' [z [Q1 [Q2 [Q3 Q4]]]]].
    exists e', z. split; [exact Q1|]. split; [exact Q2|]. split; [exact Q3|]. exact (same64_trans _ _ _ S Q4). }
  destruct (K p0 P3) as [e' [_ [E _]]]. exists e'. split; [exact E|].
  split; [split; [exact P1|exists p0; exact P3]|]. split.
  - intros p D. destruct (K p D) as [e2 [y [E2 [A2 [V2 S2]]]]]. assert (e2 = e') by congruence. subst e2. eauto.
  - intros i J. specialize (Va i J). subst e. rewrite (top_done n (EVar i) eq_refl) in E. congruence.
Qed.

Lemma apply_bin : forall op (x y z : f64), op_value64 op x y = Some z -> b_apply n op x y = Ok z.
Proof. intros op x y z. destruct op; cbn; intros E; try discriminate; injection E as <-; reflexivity. Qed.
Lemma apply_un : forall op (x z : f64), fun_value64 lm op x = Some z -> u_apply n op x = Ok z.
Proof. intros op x z. destruct op; cbn; intros E; try discriminate; injection E as <-; reflexivity. Qed.

Lemma finite_val : forall d f e p, represents64 d f e -> dom64 f p -> finite64 (val64 f p).
Proof. intros d f e p [[P _] _] D. apply P, D. Qed.

Lemma represents64_bin : forall d op f g h a b, represents64 d g a -> represents64 d h b -> proper64 d f -> name64 f = None ->
  (forall p, dom64 f p -> dom64 g p /\ dom64 h p /\ op_value64 op (val64 g p) (val64 h p) = Some (val64 f p)) ->
  represents64 d f (EBin op a b).
Proof.
  intros d op f g h a b Ga Gb P NV D. split; [exact P|]. split; [|intros i J; congruence].
  intros p Dp. destruct (D p Dp) as [Dg [Dh V]].
  destruct (proj1 (proj2 Ga) p Dg) as [Aa [x [Ea Sa]]]. destruct (proj1 (proj2 Gb) p Dh) as [Ab [y [Eb Sb]]].
  destruct (l_bop n finite64 same64 L op (val64 g p) x (val64 h p) y (val64 f p) (finite_val d g a p Ga Dg)
              (finite_val d h b p Gb Dh) Sa Sb (apply_bin op _ _ _ V) (proj2 (proj1 P p Dp))) as [z [Z1 Z2]].
  assert (EV : eval n (EBin op a b) p = Ok z) by (cbn [eval]; rewrite Ea, Eb; exact Z1).
  split.
  - split; [exists z; split; [exact EV|exact (l_ok n finite64 same64 L _ z Z2 (proj2 (proj1 P p Dp)))]|]. split; assumption.
  - exists z. auto.
Qed.
Lemma represents64_un : forall d op f g a, represents64 d g a -> proper64 d f -> name64 f = None ->
  (forall p, dom64 f p -> dom64 g p /\ fun_value64 lm op (val64 g p) = Some (val64 f p)) ->
  represents64 d f (EUn op a).
Proof.
  intros d op f g a Ga P NV D. split; [exact P|]. split; [|intros i J; congruence].
  intros p Dp. destruct (D p Dp) as [Dg V].
  destruct (proj1 (proj2 Ga) p Dg) as [Aa [x [Ea Sa]]].
  destruct (l_uop n finite64 same64 L op (val64 g p) x (val64 f p) (finite_val d g a p Ga Dg) Sa
              (apply_un op _ _ V) (proj2 (proj1 P p Dp))) as [z [Z1 Z2]].
  assert (EV : eval n (EUn op a) p = Ok z) by (cbn [eval]; rewrite Ea; exact Z1).
  split.
  - split; [exists z; split; [exact EV|exact (l_ok n finite64 same64 L _ z Z2 (proj2 (proj1 P p Dp)))]|]. split; [exact Aa|eauto].
  - exists z. auto.
Qed.

Lemma assoc_rel64 : forall (d : nat) ids (gs : list func64) (rs : list (expr n)), length ids = length gs ->
  Forall2 (fun h r => represents64 d h r) gs rs -> forall j,
  match assoc (combine ids gs) j, assoc (combine ids rs) j with
  | Some g, Some r => represents64 d g r /\ In g gs /\ In j ids
  | None, None => True
  | _, _ => False
  end.
Proof.
  intros d. induction ids as [|i ids IH]; intros gs rs Le F j; [exact I|].
  destruct F as [|g r gs rs G F]; [discriminate|]. cbn [combine assoc]. destruct (N.eqb i j) eqn:E.
  - apply N.eqb_eq in E. subst. split; [exact G|]. split; left; reflexivity.
  - injection Le as Le. specialize (IH gs rs Le F j).
    destruct (assoc (combine ids gs) j), (assoc (combine ids rs) j); auto. destruct IH as [A [B C]].
    split; [exact A|]. split; right; assumption.
Qed.
Lemma represents64_subst : forall d ids f g gs a rs, represents64 d g a -> proper64 d f -> name64 f = None ->
  Forall2 (fun h r => represents64 d h r) gs rs -> length ids = length gs ->
  Forall (fun i => N.to_nat i < d) ids ->
  (forall p, dom64 f p -> exists q,
     moved64 ids gs p q /\ Forall (fun h => dom64 h p) gs /\ dom64 g q /\ val64 f p = val64 g q) ->
  exists e, simplify_top n (replace_vars (assoc (combine ids rs)) a) = Ok e /\ represents64 d f e.
Proof.
  intros d ids f g gs a rs Ga P NV F Le B D. apply represents64_simplify.
  split; [exact P|]. split; [|intros i J; congruence].
  intros p Dp. destruct (D p Dp) as [q [M [Fd [Dg V]]]]. destruct (proj1 (proj2 Ga) q Dg) as [A [x [E S]]].
  destruct (replace_values n finite64 same64 L (assoc (combine ids rs)) p q) with (e := a) (x := x) as [A' [y [E' S']]]; auto.
  - intros j. destruct M as [_ M]. specialize (M j). pose proof (assoc_rel64 d ids gs rs Le F j) as AR.
    destruct (assoc (combine ids gs) j) as [h|], (assoc (combine ids rs) j) as [r|]; try contradiction; [|exact M].
    intros z Z. destruct AR as [Gr [Ih Ij]]. rewrite Forall_forall in Fd, B. specialize (Fd h Ih). specialize (B j Ij).
    destruct (proj1 (proj2 Gr) p Fd) as [Ar [y [Er Sr]]]. exists y. split; [exact Ar|]. split; [exact Er|].
    assert (Y : Some (val64 h p) = Some z).
    { transitivity (nth_error (A := f64) q (N.to_nat j)); [|exact Z]. symmetry. rewrite M.
      destruct (nth_error p (N.to_nat j)) eqn:Q; [reflexivity|].
      apply nth_error_None in Q. pose proof (proj1 (proj1 P p Dp)). lia. }
    injection Y as <-. exact Sr.
  - split; [exact A'|]. exists y. split; [exact E'|]. rewrite V. exact (same64_trans _ _ _ S S').
Qed.

Lemma related64_value : forall d fs st y f, related64 d fs st -> fs y = Some (Some f) ->
  exists e, st y = Some (Some e) /\ value_of n st y = Ok e /\ represents64 d f e.
Proof.
  intros d fs st y f R E. specialize (R y). rewrite E in R. unfold value_of.
  destruct (st y) as [[e|]|]; try contradiction. exists e. auto.
Qed.
Lemma related64_values : forall d fs st rs gs, related64 d fs st -> Forall2 (fun r h => fs r = Some (Some h)) rs gs ->
  exists es, oseq (map (value_of n st) rs) = Ok es /\ Forall2 (fun h r => represents64 d h r) gs es /\
    length es = length rs /\ length gs = length rs.
Proof.
  intros d fs st rs gs R F. induction F as [|r h rs gs E F IH].
  - exists []. split; [reflexivity|]. split; [constructor|split; reflexivity].
  - destruct IH as [es [O [G [L1 L2]]]]. destruct (related64_value d fs st r h R E) as [e [_ [V Q]]].
    exists (e :: es). cbn [map oseq]. rewrite V, O. split; [reflexivity|]. split; [constructor; assumption|].
    cbn [length]. split; f_equal; assumption.
Qed.
Lemma related64_names : forall d fs st us ids, related64 d fs st ->
  Forall2 (fun u i => exists fu, fs u = Some (Some fu) /\ name64 fu = Some i) us ids ->
  oseq (map (value_of n st) us) = Ok (map EVar ids) /\ length us = length ids.
Proof.
  intros d fs st us ids R F. induction F as [|u i us ids [fu [E V]] F [IH1 IH2]]; [split; reflexivity|].
  destruct (related64_value d fs st u fu R E) as [e [_ [Q [_ [_ N]]]]]. specialize (N i V). subst e.
  cbn [map oseq length]. rewrite Q, IH1. split; [reflexivity|f_equal; exact IH2].
Qed.

Lemma moved64_one : forall d i h p, length p = d -> N.to_nat i < d -> moved64 [i] [h] p (update p (N.to_nat i) (val64 h p)).
Proof.
  intros d i h p Lp B. split.
  - generalize (val64 h p) as w. intros w. clear. generalize (N.to_nat i) as k.
    induction p as [|z p IH]; intros [|k]; cbn; auto.
  - intros j. cbn [combine assoc]. destruct (N.eqb_spec i j) as [->|Ne].
    + rewrite update_same by lia. destruct (nth_error p (N.to_nat j)) eqn:Q; [reflexivity|].
      apply nth_error_None in Q. lia.
    + rewrite update_other by lia. reflexivity.
Qed.

Lemma source64_ok : forall d fs st s f, related64 d fs st -> denotes64 lm d fs s f -> proper64 d f ->
  exists e, source_spec n st s = Ok (Some e) /\ represents64 d f e.
Proof.
  intros d fs st s f R D P. destruct D as
    [c f NV V|i f NV V|y f E|y f E|op y z f g h NV Ey Ez D|op y f g NV Ey D
    |us rs ids y f g gs NV Ey Fu Fr Ln B D|u r i y f g h NV Ey Eu Er B D].
  - exists (EConst (T := n) c). split; [reflexivity|]. split; [exact P|]. split; [|intros i J; congruence].
    intros p Dp. pose proof (proj2 (proj1 P p Dp)) as K. rewrite (V p Dp) in *.
    split; [split; [exists c; auto|exact I]|]. exists c. split; [reflexivity|now left].
  - exists (EVar i). split; [reflexivity|]. split; [exact P|]. split; [|intros j J; congruence].
    intros p Dp. pose proof (proj2 (proj1 P p Dp)) as K. pose proof (proj2 (var_value n p i (val64 f p)) (V p Dp)) as E.
    split; [split; [exists (val64 f p); auto|exact I]|]. exists (val64 f p). split; [exact E|now left].
  - destruct (related64_value d fs st y f R E) as [e [Q [_ G]]]. exists e. cbn. rewrite Q. auto.
  - destruct (related64_value d fs st y f R E) as [e [_ [Q G]]]. destruct (represents64_simplify d f e G) as [e' [X G']].
    exists e'. cbn [source_spec]. rewrite Q. cbn [bind]. rewrite X. auto.
  - destruct (related64_value d fs st y g R Ey) as [a [_ [Qa Ga]]]. destruct (related64_value d fs st z h R Ez) as [b [_ [Qb Gb]]].
    exists (EBin op a b). cbn. rewrite Qa, Qb. split; [reflexivity|]. now apply (represents64_bin d op f g h a b).
  - destruct (related64_value d fs st y g R Ey) as [a [_ [Qa Ga]]].
    exists (EUn op a). cbn. rewrite Qa. split; [reflexivity|]. now apply (represents64_un d op f g a).
  - destruct (related64_value d fs st y g R Ey) as [a [_ [Qa Ga]]].
    destruct (related64_values d fs st rs gs R Fr) as [es [Oe [Ge [L1 L2]]]].
    destruct (related64_names d fs st us ids R Fu) as [On L3]. cbn [source_spec]. rewrite Qa. cbn [bind]. rewrite On, Oe. cbn [bind].
    assert (L4 : length ids = length es) by lia. assert (L5 : length ids = length gs) by lia.
    unfold substv_top. rewrite map_length, L4, Nat.eqb_refl, (substv_vars n ids es a L4). cbn [bind].
    destruct (represents64_subst d ids f g gs a es Ga P NV Ge L5 B D) as [e [X G]]. exists e. rewrite X. split; [reflexivity|exact G].
  - destruct (related64_value d fs st y g R Ey) as [a [_ [Qa Ga]]]. destruct Eu as [fu [Eu Nu]].
    destruct (related64_value d fs st u fu R Eu) as [eu [_ [Qu [_ [_ N]]]]]. specialize (N i Nu). subst eu.
    destruct (related64_value d fs st r h R Er) as [b [_ [Qb Gb]]].
    cbn [source_spec]. rewrite Qa, Qu, Qb. cbn [bind]. unfold subst1_top. rewrite subst1_var. cbn [bind].
    destruct (represents64_subst d [i] f g [h] a [b] Ga P NV) as [e [X G]].
    + constructor; [exact Gb|constructor].
    + reflexivity.
    + constructor; [exact B|constructor].
    + intros p Dp. destruct (D p Dp) as [D1 [D2 D3]]. exists (update p (N.to_nat i) (val64 h p)).
      split; [apply (moved64_one d); [apply P, Dp|exact B]|]. split; [constructor; [exact D1|constructor]|]. split; assumption.
    + exists e. split; [|exact G]. cbn [combine assoc] in X.
      change (omap Some (simplify_top n (replace_vars (fun j => if N.eqb i j then Some b else None) a)) = Ok (Some e)).
      rewrite X. reflexivity.
Qed.

Lemma related64_upd : forall d fs st x v w, related64 d fs st ->
  match v, w with
  | None, None | Some None, Some None => True
  | Some (Some f), Some (Some e) => represents64 d f e
  | _, _ => False
  end -> related64 d (upd fs x v) (upd st x w).
Proof. intros d fs st x v w R H y. unfold upd. destruct (Nat.eqb y x); [exact H|apply R]. Qed.

Lemma step64_ok : forall d s fs ev fs' st, related64 d fs st -> step64 lm d s fs ev fs' ->
  exists ev' st', exec_spec n s st = Some (ev', st') /\ related64 d fs' st' /\ same_event lm ev ev' /\
    ev' <> Raised n /\ gradient_by_symbol n st s = false.
Proof.
  intros d s fs ev fs' st R Q.
  destruct Q as [x fs E|x s f fs E D P|x s f fs E D P|x f fs E|x fs E|x f p fs E D].
  - exists (Done n), (upd st x (Some None)). cbn.
    pose proof (R x) as Rx. rewrite E in Rx. destruct (st x); [contradiction|]. split; [reflexivity|].
    split; [now apply related64_upd|]. split; [exact I|]. split; [discriminate|reflexivity].
  - destruct (source64_ok d fs st s f R D P) as [e [X G]]. exists (Done n), (upd st x (Some (Some e))). cbn [exec_spec].
    pose proof (R x) as Rx. rewrite E in Rx. destruct (st x); [contradiction|]. rewrite X. split; [reflexivity|].
    split; [now apply related64_upd|]. split; [exact I|]. split; [discriminate|destruct D; reflexivity].
  - destruct (source64_ok d fs st s f R D P) as [e [X G]]. exists (Done n), (upd st x (Some (Some e))). cbn [exec_spec].
    pose proof (R x) as Rx. destruct (fs x) as [v|]; [|congruence].
    destruct (st x) as [w|]; [|destruct v; contradiction]. rewrite X. split; [reflexivity|].
    split; [now apply related64_upd|]. split; [exact I|]. split; [discriminate|destruct D; reflexivity].
  - destruct (related64_value d fs st x f R E) as [e [Q1 [Q2 G]]]. destruct (represents64_simplify d f e G) as [e' [X G']].
    rewrite settle_top in X. cbn [exec_spec]. rewrite Q2. destruct (settle n e) as [e2 [u|z|]]; try discriminate.
    injection X as ->. exists (Done n), (upd st x (Some (Some e'))). split; [reflexivity|].
    split; [|split; [exact I|split; [discriminate|reflexivity]]].
    intros y. unfold upd. destruct (Nat.eqb_spec y x) as [->|]; [rewrite E; exact G'|apply R].
  - exists (Done n), (upd st x None). cbn.
    pose proof (R x) as Rx. destruct (fs x) as [v|]; [|congruence].
    destruct (st x) as [w|]; [|destruct v; contradiction]. split; [reflexivity|].
    split; [now apply related64_upd|]. split; [exact I|]. split; [discriminate|reflexivity].
  - destruct (related64_value d fs st x f R E) as [e [Q1 [Q2 [_ [Ev _]]]]]. destruct (Ev p D) as [_ [y [Ey Sy]]].
    exists (Value n y), st. cbn [exec_spec]. rewrite Q2. cbn [bind]. rewrite Ey. split; [reflexivity|]. split; [exact R|].
    split; [exact Sy|]. split; [discriminate|reflexivity].
Qed.

Lemma computes64_ok : forall d l fs evs fs' st, related64 d fs st -> computes64 lm d l fs evs fs' ->
  exists evs' st', exec_all_spec n l st = Some (evs', st') /\ related64 d fs' st' /\
    Forall2 (same_event lm) evs evs' /\ tidy n l st.
Proof.
  intros d l fs evs fs' st R C. revert st R. induction C as [fs|s l fs ev fs' evs fs'' Q C IH]; intros st R.
  - exists [], st. split; [reflexivity|]. split; [exact R|]. split; [constructor|exact I].
  - destruct (step64_ok d s fs ev fs' st R Q) as [ev' [st1 [X [R1 [S [N1 N2]]]]]].
    destruct (IH st1 R1) as [evs' [st2 [Y [R2 [F T]]]]].
    exists (ev' :: evs'), st2. cbn [tidy exec_all_spec]. rewrite X, Y. split; [reflexivity|]. split; [exact R2|].
    split; [constructor; assumption|auto].
Qed.
Lemma related64_start : forall d, related64 d no_functions64 (no_store n).
Proof. intros d x. exact I. Qed.
Lemma computes64_app : forall d l1 l2 fs evs1 fs' evs2 fs'', computes64 lm d l1 fs evs1 fs' -> computes64 lm d l2 fs' evs2 fs'' ->
  computes64 lm d (l1 ++ l2) fs (evs1 ++ evs2) fs''.
Proof.
  intros d l1 l2 fs evs1 fs' evs2 fs'' C1 C2. induction C1; [exact C2|]. cbn [app]. econstructor; eauto.
Qed.
Lemma same_event_join : forall a b c, same_event lm a b -> same_event lm a c -> same_event lm b c.
Proof.
  intros [| |x] [| |y] [| |z]; cbn; try tauto. intros [A|[s [t [A B]]]] [C|[s' [t' [C D]]]]; subst; try (now left).
  - right. eauto.
  - right. eauto.
  - right. eauto.
Qed.
Lemma joined : forall l a b, Forall2 (same_event lm) l a -> Forall2 (same_event lm) l b -> Forall2 (same_event lm) a b.
Proof.
  intros l a b F. revert b. induction F; intros b G; inversion G; subst; constructor; eauto using same_event_join.
Qed.
End Programs.
