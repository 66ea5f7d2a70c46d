(** Facts for C71. *)
From Coq Require Import ZArith NArith Reals List Bool Lra Lia.
From Flocq Require Import Core BinarySingleNaN.
From Verif Require Import Outcome Num RtModel RtSpec RtFacts RtValue RtEval RtSubst NumB64 NumB64Facts NumR NumRFacts ErrSpec ErrFacts DataSpec
  QuadModel QuadSpec QuadFacts.
Import ListNotations.
Local Open Scope R_scope.
Local Existing Instance prec_pos.
Local Existing Instance prec_emax.

Section Main.
Context (lm : libm) (d : R) (v : list f64) (w : list (option R)).
Context (A : accurate lm d).
Notation n := (numB64 lm).
Notation finite := (all_values (n := n) finite64 v).

Lemma bounded_ok : forall e e' z r, bounded d v w e e' z r -> finite e ->
  exists x, eval n e v = Ok x /\ finite64 x /\ eval numR e' w = Ok (Some z) /\ Rabs (B2R x - z) <= r.
Proof.
  destruct A as [D0 AC].
  assert (BIN : forall op a b, finite (EBin op a b) -> finite a /\ finite b).
  { intros op a b F. split; apply (fin_sub lm v _ (EBin op a b) F); [apply sub_l|apply sub_r]; constructor. }
  assert (UN : forall op a, finite (EUn op a) -> finite a).
  { intros op a F. apply (fin_sub lm v _ (EUn op a) F). apply sub_un. constructor. }
  assert (U0 : 0 <= u64) by (left; apply u_pos).
  intros e e' z r H. induction H; intros F.
  - (* const *) exists c. destruct (F _ (sub_refl _)) as [x [E X]]. injection E as <-.
    split; [reflexivity|]. split; [exact X|]. split; [reflexivity|]. apply Rle_refl.
  - (* var *) exists x. destruct (F _ (sub_refl _)) as [u [E Y]]. pose proof (ok_inj _ _ _ _ E (var_gen n v i x H)) as ->.
    split; [exact (var_gen n v i x H)|]. split; [exact Y|]. split; [exact (var_gen numR w i _ H0)|]. apply Rle_refl.
  - (* id *) destruct (IHbounded (UN _ _ F)) as [x [E [X [Q B]]]]. exists x.
    split; [exact (un_gen n v UId _ _ _ E eq_refl)|]. split; [exact X|].
    split; [exact (un_gen numR _ UId _ _ _ Q eq_refl)|exact B].
  - (* fabs *) destruct (IHbounded (UN _ _ F)) as [x [E [X [Q B]]]]. destruct (F _ (sub_refl _)) as [y [E' Y]].
    pose proof (un_gen n v UFabs _ _ _ E eq_refl) as E2. pose proof (ok_inj _ _ _ _ E' E2) as ->.
    eexists. split; [exact E2|]. split; [exact Y|].
    split; [apply (un_gen numR _ UFabs _ _ _ Q); cbn [u_apply numR n_fabs n_exp n_sin n_cos n_tan n_log n_log10 n_sqrt lift1]; reflexivity|cbn [numB64 n_fabs]]. rewrite B2R_Babs.
    eapply Rle_trans; [apply Rabs_triang_inv2|exact B].
  - (* plus *) destruct (BIN _ _ _ F) as [Fa Fb].
    destruct (IHbounded1 Fa) as [x' [E1 [X1 [Q1 B1]]]]. destruct (IHbounded2 Fb) as [y' [E2 [X2 [Q2 B2]]]].
    destruct (F _ (sub_refl _)) as [q [E' W]].
    pose proof (bin_gen n v BPlus _ _ _ _ _ E1 E2 eq_refl) as E3. pose proof (ok_inj _ _ _ _ E' E3) as ->.
    eexists. split; [exact E3|]. split; [exact W|].
    split; [apply (bin_gen numR _ BPlus _ _ _ _ _ Q1 Q2); cbn [b_apply numR n_add n_sub n_mul n_div lift2]; reflexivity|cbn [numB64 n_fabs n_exp n_sin n_cos n_tan n_log n_log10 n_sqrt n_add n_sub n_mul n_div]].
    rewrite (proj2 (plus_fin x' y' X1 X2) W).
    apply (after_ok _ _ _ _ (B2R x' + B2R y')); [exact U0| |pose proof (plus_err x' y'); lra].
    replace (B2R x' + B2R y' - (x + y)) with ((B2R x' - x) + (B2R y' - y)) by ring.
    eapply Rle_trans; [apply Rabs_triang|lra].
  - (* minus *) destruct (BIN _ _ _ F) as [Fa Fb].
    destruct (IHbounded1 Fa) as [x' [E1 [X1 [Q1 B1]]]]. destruct (IHbounded2 Fb) as [y' [E2 [X2 [Q2 B2]]]].
    destruct (F _ (sub_refl _)) as [q [E' W]].
    pose proof (bin_gen n v BMinus _ _ _ _ _ E1 E2 eq_refl) as E3. pose proof (ok_inj _ _ _ _ E' E3) as ->.
    eexists. split; [exact E3|]. split; [exact W|].
    split; [apply (bin_gen numR _ BMinus _ _ _ _ _ Q1 Q2); cbn [b_apply numR n_add n_sub n_mul n_div lift2]; reflexivity|cbn [numB64 n_fabs n_exp n_sin n_cos n_tan n_log n_log10 n_sqrt n_add n_sub n_mul n_div]].
    rewrite (proj2 (minus_fin x' y' X1 X2) W).
    apply (after_ok _ _ _ _ (B2R x' - B2R y')); [exact U0| |pose proof (minus_err x' y'); lra].
    replace (B2R x' - B2R y' - (x - y)) with ((B2R x' - x) + - (B2R y' - y)) by ring.
    eapply Rle_trans; [apply Rabs_triang|]. rewrite Rabs_Ropp. lra.
  - (* mult *) destruct (BIN _ _ _ F) as [Fa Fb].
    destruct (IHbounded1 Fa) as [x' [E1 [X1 [Q1 B1]]]]. destruct (IHbounded2 Fb) as [y' [E2 [X2 [Q2 B2]]]].
    destruct (F _ (sub_refl _)) as [q [E' W]].
    pose proof (bin_gen n v BMult _ _ _ _ _ E1 E2 eq_refl) as E3. pose proof (ok_inj _ _ _ _ E' E3) as ->.
    eexists. split; [exact E3|]. split; [exact W|].
    split; [apply (bin_gen numR _ BMult _ _ _ _ _ Q1 Q2); cbn [b_apply numR n_add n_sub n_mul n_div lift2]; reflexivity|cbn [numB64 n_fabs n_exp n_sin n_cos n_tan n_log n_log10 n_sqrt n_add n_sub n_mul n_div]].
    rewrite (proj2 (mult_fin x' y' X1 X2) W).
    apply (after_ok _ _ _ _ (B2R x' * B2R y')); [exact U0|apply mult_near; assumption|apply round_err].
  - (* div *) destruct (BIN _ _ _ F) as [Fa Fb].
    destruct (IHbounded1 Fa) as [x' [E1 [X1 [Q1 B1]]]]. destruct (IHbounded2 Fb) as [y' [E2 [X2 [Q2 B2]]]].
    destruct (F _ (sub_refl _)) as [q [E' W]].
    destruct (div_near x y (B2R x') (B2R y') dx dy B1 B2 H1) as [NY [NY' N]].
    pose proof (bin_gen n v BDiv _ _ _ _ _ E1 E2 eq_refl) as E3. pose proof (ok_inj _ _ _ _ E' E3) as ->.
    eexists. split; [exact E3|]. split; [exact W|].
    split; [apply (bin_gen numR _ BDiv _ _ _ _ _ Q1 Q2); cbn [b_apply numR n_add n_sub n_mul n_div lift2]; rewrite r_eqb_false by exact NY; reflexivity|cbn [numB64 n_fabs n_exp n_sin n_cos n_tan n_log n_log10 n_sqrt n_add n_sub n_mul n_div]].
    rewrite (proj2 (div_fin x' y' X1 X2) W).
    apply (after_ok _ _ _ _ (B2R x' / B2R y')); [exact U0|exact N|apply round_err].
  - (* sqrt *) destruct (IHbounded (UN _ _ F)) as [x [E [X [Q B]]]]. destruct (F _ (sub_refl _)) as [y [E' Y]].
    pose proof (un_gen n v USqrt _ _ _ E eq_refl) as E2. pose proof (ok_inj _ _ _ _ E' E2) as ->.
    eexists. split; [exact E2|]. split; [exact Y|].
    split; [apply (un_gen numR _ USqrt _ _ _ Q); cbn [u_apply numR n_fabs n_exp n_sin n_cos n_tan n_log n_log10 n_sqrt lift1]; rewrite r_leb_true by lra; reflexivity|cbn [numB64 n_fabs n_exp n_sin n_cos n_tan n_log n_log10 n_sqrt n_add n_sub n_mul n_div]].
    destruct (Bsqrt_correct 53 1024 _ _ mode_NE x) as [S1 [S2 _]]. rewrite S1.
    assert (P : 0 <= B2R x).
    { change (is_finite (Bsqrt mode_NE x) = true) in Y. rewrite S2 in Y. destruct x as [s| | |[] m ex Hx]; try discriminate Y; simpl; [lra|].
      apply F2R_ge_0. simpl. lia. }
    apply (after_ok _ _ _ _ (sqrt (B2R x))); [exact U0|apply sqrt_near; assumption|pose proof (sqrt_err x); lra].
  - (* exp *) destruct (IHbounded (UN _ _ F)) as [x [E [X [Q B]]]]. destruct (F _ (sub_refl _)) as [y [E' Y]].
    pose proof (un_gen n v UExp _ _ _ E eq_refl) as E2. pose proof (ok_inj _ _ _ _ E' E2) as ->.
    eexists. split; [exact E2|]. split; [exact Y|].
    split; [apply (un_gen numR _ UExp _ _ _ Q); cbn [u_apply numR n_fabs n_exp n_sin n_cos n_tan n_log n_log10 n_sqrt lift1]; reflexivity|cbn [numB64 n_fabs n_exp n_sin n_cos n_tan n_log n_log10 n_sqrt n_add n_sub n_mul n_div]].
    apply (after_ok _ _ _ _ (exp (B2R x))); [exact D0|apply exp_near; exact B|].
    apply (AC (m_exp lm) exp); auto.
  - (* sin *) destruct (IHbounded (UN _ _ F)) as [x [E [X [Q B]]]]. destruct (F _ (sub_refl _)) as [y [E' Y]].
    pose proof (un_gen n v USin _ _ _ E eq_refl) as E2. pose proof (ok_inj _ _ _ _ E' E2) as ->.
    eexists. split; [exact E2|]. split; [exact Y|].
    split; [apply (un_gen numR _ USin _ _ _ Q); cbn [u_apply numR n_fabs n_exp n_sin n_cos n_tan n_log n_log10 n_sqrt lift1]; reflexivity|cbn [numB64 n_fabs n_exp n_sin n_cos n_tan n_log n_log10 n_sqrt n_add n_sub n_mul n_div]].
    apply (after_ok _ _ _ _ (sin (B2R x))); [exact D0|apply sin_near; exact B|].
    apply (AC (m_sin lm) sin); auto.
  - (* cos *) destruct (IHbounded (UN _ _ F)) as [x [E [X [Q B]]]]. destruct (F _ (sub_refl _)) as [y [E' Y]].
    pose proof (un_gen n v UCos _ _ _ E eq_refl) as E2. pose proof (ok_inj _ _ _ _ E' E2) as ->.
    eexists. split; [exact E2|]. split; [exact Y|].
    split; [apply (un_gen numR _ UCos _ _ _ Q); cbn [u_apply numR n_fabs n_exp n_sin n_cos n_tan n_log n_log10 n_sqrt lift1]; reflexivity|cbn [numB64 n_fabs n_exp n_sin n_cos n_tan n_log n_log10 n_sqrt n_add n_sub n_mul n_div]].
    apply (after_ok _ _ _ _ (cos (B2R x))); [exact D0|apply cos_near; exact B|].
    apply (AC (m_cos lm) cos); auto.
  - (* tan *) destruct (IHbounded (UN _ _ F)) as [x [E [X [Q B]]]]. destruct (F _ (sub_refl _)) as [y [E' Y]].
    destruct (tan_near z (B2R x) r B H0) as [N [N' T]].
    pose proof (un_gen n v UTan _ _ _ E eq_refl) as E2. pose proof (ok_inj _ _ _ _ E' E2) as ->.
    eexists. split; [exact E2|]. split; [exact Y|].
    split; [apply (un_gen numR _ UTan _ _ _ Q); cbn [u_apply numR n_fabs n_exp n_sin n_cos n_tan n_log n_log10 n_sqrt lift1]; rewrite r_eqb_false by exact N; reflexivity|cbn [numB64 n_fabs n_exp n_sin n_cos n_tan n_log n_log10 n_sqrt n_add n_sub n_mul n_div]].
    apply (after_ok _ _ _ _ (tan (B2R x))); [exact D0|exact T|].
    apply (AC (m_tan lm) tan); auto 6.
  - (* log *) destruct (IHbounded (UN _ _ F)) as [x [E [X [Q B]]]]. destruct (F _ (sub_refl _)) as [y [E' Y]].
    destruct (ln_near z (B2R x) r B H0) as [P T].
    assert (Z0 : 0 < z) by (eapply Rle_lt_trans; [|exact H0]; eapply Rle_trans; [apply Rabs_pos|exact B]).
    pose proof (un_gen n v ULog _ _ _ E eq_refl) as E2. pose proof (ok_inj _ _ _ _ E' E2) as ->.
    eexists. split; [exact E2|]. split; [exact Y|].
    split; [apply (un_gen numR _ ULog _ _ _ Q); cbn [u_apply numR n_fabs n_exp n_sin n_cos n_tan n_log n_log10 n_sqrt lift1]; rewrite r_ltb_true by exact Z0; reflexivity|cbn [numB64 n_fabs n_exp n_sin n_cos n_tan n_log n_log10 n_sqrt n_add n_sub n_mul n_div]].
    apply (after_ok _ _ _ _ (ln (B2R x))); [exact D0|exact T|].
    apply (AC (m_log lm) ln); auto 7.
  - (* log10 *) destruct (IHbounded (UN _ _ F)) as [x [E [X [Q B]]]]. destruct (F _ (sub_refl _)) as [y [E' Y]].
    destruct (ln_near z (B2R x) r B H0) as [P T].
    assert (Z0 : 0 < z) by (eapply Rle_lt_trans; [|exact H0]; eapply Rle_trans; [apply Rabs_pos|exact B]).
    pose proof (un_gen n v ULog10 _ _ _ E eq_refl) as E2. pose proof (ok_inj _ _ _ _ E' E2) as ->.
    eexists. split; [exact E2|]. split; [exact Y|].
    split; [apply (un_gen numR _ ULog10 _ _ _ Q); cbn [u_apply numR n_fabs n_exp n_sin n_cos n_tan n_log n_log10 n_sqrt lift1]; rewrite r_ltb_true by exact Z0; reflexivity|cbn [numB64 n_fabs n_exp n_sin n_cos n_tan n_log n_log10 n_sqrt n_add n_sub n_mul n_div]].
    assert (L10 : 0 < ln 10) by (rewrite <- ln_1; apply ln_increasing; lra).
    apply (after_ok _ _ _ _ (ln (B2R x) / ln 10)); [exact D0| |].
    + replace (ln (B2R x) / ln 10 - ln z / ln 10) with ((ln (B2R x) - ln z) * / ln 10) by (field; lra).
      rewrite Rabs_mult, (Rabs_pos_eq (/ ln 10)) by (left; apply Rinv_0_lt_compat; exact L10).
      unfold Rdiv at 1. apply Rmult_le_compat_r; [left; apply Rinv_0_lt_compat; exact L10|exact T].
    + apply (AC (m_log10 lm) (fun x => ln x / ln 10)); auto 8.
Qed.
End Main.

(** Derivatives of corresponding trees correspond. *)
Lemma both_inv : forall (A B C : Type) (a : outcome A) (b : outcome B) (k : A -> B -> outcome C) x,
  both a b k = Ok x -> exists p q, a = Ok p /\ b = Ok q /\ k p q = Ok x.
Proof. intros A B C [p|e1|] [q|e2|] k x H; cbn in H; try discriminate. eauto. Qed.
Lemma omap_inv : forall (A B : Type) (f : A -> B) (a : outcome A) x, omap f a = Ok x -> exists p, a = Ok p /\ f p = x.
Proof. intros A B f [p|e1|] x H; cbn in H; try discriminate. injection H as <-. eauto. Qed.

Lemma diff_stands : forall lm i e e', stands_for e e' -> forall D, diff (numB64 lm) (DVar i) e = Ok D ->
  exists D', diff numR (DVar i) e' = Ok D' /\ stands_for D D'.
Proof.
  intros lm i e e' H. induction H as [c k|j|op a a' H IH|op a a' b b' Ha IHa Hb IHb]; intros D E.
  - injection E as <-. eexists. split; [reflexivity|constructor].
  - cbn [diff] in *. destruct (N.eqb i j); injection E as <-; (eexists; split; [reflexivity|constructor]).
  - destruct op; cbn [diff] in E; try discriminate E;
      try (destruct (omap_inv _ _ _ _ _ E) as [d0 [E1 <-]]; destruct (IH d0 E1) as [d' [E2 S]];
           cbn [diff]; rewrite E2; eexists; (split; [reflexivity|]); repeat (assumption || constructor)).
    destruct (IH D E) as [d' [E2 S]]. exists d'. split; [exact E2|exact S].
  - destruct op; cbn [diff] in E; try discriminate E; unfold mk2 in *;
      destruct (both_inv _ _ _ _ _ _ _ E) as [p [q [E1 [E2 E3]]]]; injection E3 as <-;
      destruct (IHa p E1) as [p' [P1 P2]]; destruct (IHb q E2) as [q' [Q1 Q2]]; cbn [diff]; unfold mk2; rewrite P1, Q1;
      (eexists; split; [reflexivity|]); repeat (assumption || constructor).
Qed.

(** The tree in which a variable is replaced by a constant, and by an expression of that value. *)
Section Replace.
Context (n : num) (x : N) (m : expr n) (c : n).
Hypothesis M : eval n m [] = Ok c.
Notation by_const := (replace_vars (fun j => if N.eqb x j then Some (EConst c) else None)).
Notation by_tree := (replace_vars (fun j => if N.eqb x j then Some m else None)).

Lemma replace_eval : forall e : expr n, eval n (by_const e) [] = eval n (by_tree e) [].
Proof.
  induction e as [k|j|j t|op a IH|lo hi w a _ _ IH|op l r IHl IHr|es _] using expr_ind'; cbn [replace_vars]; try reflexivity.
  - destruct (N.eqb x j); [rewrite M; reflexivity|reflexivity].
  - cbn [eval]. rewrite IH. reflexivity.
  - cbn [eval]. rewrite IH. reflexivity.
  - cbn [eval]. rewrite IHl, IHr. reflexivity.
Qed.

Lemma replace_sub : forall (e s : expr n), subterm s (by_const e) ->
  exists s', subterm s' (by_tree e) /\ eval n s [] = eval n s' [].
Proof.
  induction e as [k|j|j t|op a IH|lo hi w a _ _ IH|op l r IHl IHr|es IH] using expr_ind'; intros s S.
  - exists s. split; [exact S|reflexivity].
  - cbn [replace_vars] in *. destruct (N.eqb x j); [|exists s; split; [exact S|reflexivity]].
    inversion S; subst. exists m. split; [constructor|]. rewrite M. reflexivity.
  - exists s. split; [exact S|reflexivity].
  - cbn [replace_vars] in *. inversion S as [|? ? ? T| | | | | |]; subst.
    + exists (by_tree (EUn op a)). split; [constructor|]. exact (replace_eval (EUn op a)).
    + destruct (IH s T) as [s' [S' E]]. exists s'. split; [apply sub_un; exact S'|exact E].
  - cbn [replace_vars] in *. inversion S as [| |? ? ? ? ? T|? ? ? ? ? T|? ? ? ? ? T| | |]; subst.
    + exists (by_tree (EInt lo hi w a)). split; [constructor|]. exact (replace_eval (EInt lo hi w a)).
    + exists s. split; [apply sub_lo; exact T|reflexivity].
    + exists s. split; [apply sub_hi; exact T|reflexivity].
    + destruct (IH s T) as [s' [S' E]]. exists s'. split; [apply sub_body; exact S'|exact E].
  - cbn [replace_vars] in *. inversion S as [| | | | |? ? ? ? T|? ? ? ? T|]; subst.
    + exists (by_tree (EBin op l r)). split; [constructor|]. exact (replace_eval (EBin op l r)).
    + destruct (IHl s T) as [s' [S' E]]. exists s'. split; [apply sub_l; exact S'|exact E].
    + destruct (IHr s T) as [s' [S' E]]. exists s'. split; [apply sub_r; exact S'|exact E].
  - cbn [replace_vars] in *. inversion S as [| | | | | | |? y ? I T]; subst.
    + exists (by_tree (EVec es)). split; [constructor|]. reflexivity.
    + apply in_map_iff in I as [e [<- I]]. rewrite Forall_forall in IH. destruct (IH e I s T) as [s' [S' E]].
      exists s'. split; [|exact E]. cbn [replace_vars]. eapply sub_vec; [apply in_map; exact I|exact S'].
Qed.
End Replace.

(** The one-point rule computes its tree. *)
Lemma gauss_tree : forall (n : num) (lo hi body : expr n) (x : N) (a b y : n) (tmp : expr n),
  const_only lo -> const_only hi -> eval n lo [] = Ok a -> eval n hi [] = Ok b ->
  simplify_top n (replace_vars (fun j => if N.eqb x j then Some (EConst (n_div n (n_add n a b) (c2 n))) else None) body) = Ok tmp ->
  eval n tmp [] = Ok y ->
  quadrature n (gauss_quad_1 n) (EInt lo hi x body) = Ok (n_mul n y (n_sub n b a)).
Proof.
  intros n lo hi body x a b y tmp Cl Ch El Eh S T. cbn [quadrature]. unfold gauss_quad_1.
  rewrite (const_only_constant n lo Cl), (const_only_constant n hi Ch). cbn [andb].
  assert (Fl : forall w, eval n lo w = Ok a).
  { intros w. exact (unwrap_eval n lo _ (eval_nil_unwrap n lo _ El) w). }
  assert (Fh : forall w, eval n hi w = Ok b).
  { intros w. exact (unwrap_eval n hi _ (eval_nil_unwrap n hi _ Eh) w). }
  rewrite !eval_scalar_vector, (Fl [c0 n]), (Fh [c0 n]). cbn [both].
  unfold subst1_top. rewrite subst1_var. cbn [bind]. rewrite S. cbn [bind].
  rewrite (eval_nil_unwrap n tmp _ T). cbn [both].
  unfold mk_bin. cbn [eval]. rewrite (Fh [c0 n]), (Fl [c0 n]). reflexivity.
Qed.

(** Values of the rule's tree, for any numbers. *)
Lemma rule_tree_value : forall (n : num) (lo hi body : expr n) (x : N) (z : n),
  eval n (rule_tree (c2 n) lo hi x body) [] = Ok z ->
  exists a b y, eval n lo [] = Ok a /\ eval n hi [] = Ok b /\ z = n_mul n y (n_sub n b a) /\
    eval n (replace_vars (fun j => if N.eqb x j then Some (midpoint (c2 n) lo hi) else None) body) [] = Ok y.
Proof.
  intros n lo hi body x z E. unfold rule_tree in E. destruct (bin_inv n [] _ _ _ _ E) as [y [l [Ey [El Ez]]]].
  destruct (bin_inv n [] _ _ _ _ El) as [b [a [Eb [Ea Em]]]]. cbn [b_apply] in *. injection Ez as <-. injection Em as <-.
  exists a, b, y. auto.
Qed.

Lemma midpoint_value : forall (n : num) (lo hi : expr n) a b, eval n lo [] = Ok a -> eval n hi [] = Ok b ->
  eval n (midpoint (c2 n) lo hi) [] = Ok (n_div n (n_add n a b) (c2 n)).
Proof. intros n lo hi a b Ea Eb. unfold midpoint. cbn [eval]. rewrite Ea, Eb. reflexivity. Qed.

Lemma bounded_stands : forall d v w e e' z r, bounded d v w e e' z r -> stands_for e e'.
Proof. intros d v w e e' z r H. induction H; constructor; assumption. Qed.

Lemma stands_const_only : forall e e', stands_for e e' -> const_only e -> const_only e'.
Proof.
  intros e e' H. induction H as [c k|j|op a a' H IH|op a a' b b' Ha IHa Hb IHb]; intros C.
  - intros s S. inversion S; subst. exact Logic.I.
  - exfalso. exact (C _ (sub_refl _)).
  - exfalso. exact (C _ (sub_refl _)).
  - intros s S. inversion S as [| | | | |? ? ? ? T|? ? ? ? T|]; subst.
    + exact (C _ (sub_refl _)).
    + apply (IHa (fun s S => C s (sub_l _ _ _ _ S))). exact T.
    + apply (IHb (fun s S => C s (sub_r _ _ _ _ S))). exact T.
Qed.

Lemma rule_constants : forall d lm (lo hi body : expr f64) (lo' hi' body' : expr numR) (x : N) (z r : R),
  const_only lo -> const_only hi ->
  bounded d [] [] (rule_tree (c2 (numB64 lm)) lo hi x body) (rule_tree (c2 numR) lo' hi' x body') z r ->
  const_only lo' /\ const_only hi'.
Proof.
  intros d lm lo hi body lo' hi' body' x z r Cl Ch B.
  unfold rule_tree in B. inversion B as [| | | | | |? ? ? ? p1 p2 p3 p4 B1 B2| | | | | | | |]; subst.
  inversion B2 as [| | | | |? ? ? ? q1 q2 q3 q4 B3 B4| | | | | | | | |]; subst.
  split; [apply (stands_const_only lo lo' (bounded_stands _ _ _ _ _ _ _ B4) Cl)|
          apply (stands_const_only hi hi' (bounded_stands _ _ _ _ _ _ _ B3) Ch)].
Qed.

Lemma mult_same : forall y y' l : f64, same64 y y' -> finite64 l ->
  B2R (Bmult mode_NE y' l) = B2R (Bmult mode_NE y l).
Proof.
  intros y y' l [<- | [s [t [-> ->]]]] F; [reflexivity|].
  destruct l as [sl|sl| |sl ml el Hl]; try discriminate F; reflexivity.
Qed.

Lemma quad64 : forall lm d, accurate lm d -> zero_symmetric lm ->
  forall (lo hi body : expr f64) (lo' hi' body' : expr numR) (x : N) (z r : R),
    const_only lo -> const_only hi ->
    bounded d [] [] (rule_tree (c2 (numB64 lm)) lo hi x body) (rule_tree (c2 numR) lo' hi' x body') z r ->
    all_values (n := numB64 lm) finite64 [] (rule_tree (c2 (numB64 lm)) lo hi x body) ->
    exists q : f64, quadrature (numB64 lm) (gauss_quad_1 (numB64 lm)) (EInt lo hi x body) = Ok q /\
      quadrature numR (gauss_quad_1 numR) (EInt lo' hi' x body') = Ok (Some z) /\ Rabs (B2R q - z) <= r.
Proof.
  intros lm d A ZS lo hi body lo' hi' body' x z r Cl Ch B F.
  destruct (bounded_ok lm d [] [] A _ _ z r B F) as [q [E [Q [E' L]]]].
  destruct (rule_tree_value (numB64 lm) lo hi body x q E) as [a [b [y [Ea [Eb [-> Ey]]]]]].
  pose proof (midpoint_value (numB64 lm) lo hi a b Ea Eb) as Em.
  set (f := fun m => replace_vars (fun j => if N.eqb x j then Some m else None) body).
  assert (F1 : all_values (n := numB64 lm) finite64 [] (f (EConst (n_div (numB64 lm) (n_add (numB64 lm) a b) (c2 (numB64 lm)))))).
  { intros s S. destruct (replace_sub (numB64 lm) x _ _ Em body s S) as [s' [S' Es]]. rewrite Es. apply F. unfold rule_tree. apply sub_l. exact S'. }
  assert (E1 : eval (numB64 lm) (f (EConst (n_div (numB64 lm) (n_add (numB64 lm) a b) (c2 (numB64 lm))))) [] = Ok y).
  { exact (eq_trans (replace_eval (numB64 lm) x _ _ Em body) Ey). }
  destruct (simplify64 lm ZS [] _ y F1 E1) as [tmp [y' [S1 [_ [S2 S3]]]]].
  assert (Fl : finite64 (n_sub (numB64 lm) b a)).
  { destruct (F (EBin BMinus hi lo)) as [l [El Hl]]; [unfold rule_tree; apply sub_r; constructor|].
    pose proof (bin_gen (numB64 lm) [] BMinus _ _ _ _ _ Eb Ea eq_refl) as El'. pose proof (ok_inj _ _ _ _ El El') as <-. exact Hl. }
  exists (n_mul (numB64 lm) y' (n_sub (numB64 lm) b a)).
  split; [exact (gauss_tree (numB64 lm) lo hi body x a b y' tmp Cl Ch Ea Eb S1 S2)|]. split.
  - pose proof (rule_constants d lm lo hi body lo' hi' body' x z r Cl Ch B) as C'.
    destruct (rule_tree_value numR lo' hi' body' x _ E') as [a' [b' [u [Ea' [Eb' [Ez Eu]]]]]].
    rewrite Ez. destruct u as [u|]; [|discriminate Ez].
    pose proof (midpoint_value numR lo' hi' a' b' Ea' Eb') as Em'.
    pose proof (eq_trans (replace_eval numR x _ _ Em' body') Eu) as E1'.
    destruct (simplify_real [] _ u E1') as [tmp' [T1 T2]].
    exact (gauss_tree numR lo' hi' body' x a' b' _ tmp' (proj1 C') (proj2 C') Ea' Eb' T1 T2).
  - change (Rabs (B2R (Bmult mode_NE y' (n_sub (numB64 lm) b a)) - z) <= r).
    rewrite (mult_same y y' _ S3 Fl). exact L.
Qed.
