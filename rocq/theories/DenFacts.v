(** Simplification preserves the meaning under every interpretation (proofs only). *)
From Coq Require Import ZArith NArith Reals List Bool Lia Lra FunctionalExtensionality.
From Verif Require Import Outcome Num RtModel RtSpec RtFacts RtStep RtTermination RtValue NumR NumRFacts
  QuadSpec DenSpec.
Import ListNotations.
Local Open Scope R_scope.

Section Den.
Context {P : Type} (I : interp P).
Notation mn := (means I).

Definition entries : list (expr numR) -> list (P -> R) -> Prop :=
  fix entries (l : list (expr numR)) (gs : list (P -> R)) : Prop :=
    match l, gs with
    | [], [] => True
    | a :: l', g :: gs' => mn a (Sc g) /\ entries l' gs'
    | _, _ => False
    end.

Lemma means_vec : forall es x, mn (EVec es) x <-> exists fs, x = Ve fs /\ entries es fs.
Proof. intros es x. reflexivity. Qed.

Lemma entries_length : forall es fs, entries es fs -> length es = length fs.
Proof. induction es; intros [|f fs] H; simpl in *; try contradiction; auto. f_equal. apply IHes; tauto. Qed.

Lemma real_un_apply : forall op x y, real_un op x y -> u_apply numR op (Some x) = Ok (Some y).
Proof.
  intros op x y H; destruct op; simpl in *; try contradiction; subst; auto.
  - destruct H as [A ->]. apply r_eqb_false in A. rewrite A. reflexivity.
  - destruct H as [A ->]. apply r_leb_true in A. rewrite A. reflexivity.
  - destruct H as [A ->]. apply r_ltb_true in A. rewrite A. reflexivity.
  - destruct H as [A ->]. apply r_ltb_true in A. rewrite A. reflexivity.
Qed.

Lemma apply_real_un : forall op x y, u_apply numR op (Some x) = Ok (Some y) -> real_un op x y.
Proof.
  intros op x y H; destruct op; simpl in *; try discriminate; inversion H; auto;
    match goal with H : (if ?b then _ else _) = Some _ |- _ => destruct b eqn:E; [|discriminate]; inversion H end.
  - split; auto. apply r_eqb_false. destruct (r_eqb (cos x) 0); auto; discriminate.
  - split; auto. apply r_leb_true; auto.
  - split; auto. apply r_ltb_true; auto.
  - split; auto. apply r_ltb_true; auto.
Qed.

Lemma real_bin_apply : forall op x y z, real_bin op x y z ->
  b_apply numR op (Some x) (Some y) = Ok (Some z).
Proof.
  intros op x y z H; destruct op; simpl in *; try contradiction; subst; auto.
  destruct H as [A ->]. apply r_eqb_false in A. rewrite A. reflexivity.
Qed.

Lemma apply_real_bin : forall op x y z, b_apply numR op (Some x) (Some y) = Ok (Some z) ->
  real_bin op x y z.
Proof.
  intros op x y z H; destruct op; simpl in *; try discriminate; inversion H; auto.
  destruct (r_eqb y 0) eqn:E; simpl in *; [discriminate|]. inversion H1.
  split; auto. apply r_eqb_false; auto.
Qed.

Lemma const_means : forall e c x, is_constant numR e = true -> unwrap numR e = Ok c -> mn e x ->
  (exists r, c = Some r /\ x = Sc (fun _ => r)) \/ (exists f, x = Sc f /\ (P -> False)).
Proof.
  induction e as [d|i|i t|op a IH|lo hi w a _ _ IH|op l r IHl IHr|es _] using expr_ind';
    intros c x C U M; try discriminate.
  - inversion U; subst. left. exact M.
  - simpl in C. apply andb_true_iff in C as [Cl Cr].
    cbn [unwrap] in U. apply both_ok in U as [u [w [Ul [Ur U]]]].
    destruct M as [y [z [Ml [Mr B]]]].
    destruct (IHl u y Cl Ul Ml) as [[a [-> ->]]|[f [-> N]]], (IHr w z Cr Ur Mr) as [[b [-> ->]]|[g [-> N']]];
      destruct B as [h [-> B]]; try (right; eexists; split; [reflexivity|assumption]).
    destruct (b_apply numR op (Some a) (Some b)) as [q|q|] eqn:E; try discriminate. inversion U; subst.
    destruct c as [r'|].
    + left. exists r'. split; [reflexivity|]. f_equal. extensionality p.
      specialize (B p). apply real_bin_apply in B. congruence.
    + right. exists h. split; [reflexivity|]. intros p. specialize (B p). apply real_bin_apply in B. congruence.
Qed.

(** From here on the domain is not empty. *)
Context (p0 : P).

Lemma const_means' : forall e c x, is_constant numR e = true -> unwrap numR e = Ok c -> mn e x ->
  exists r, c = Some r /\ x = Sc (fun _ => r).
Proof.
  intros e c x C U M. destruct (const_means e c x C U M) as [H|[f [_ N]]]; [exact H|].
  destruct (N p0).
Qed.

Lemma const_unwrap : forall e x, is_constant numR e = true -> mn e x -> exists c, unwrap numR e = Ok c.
Proof.
  induction e as [d|i|i t|op a IH|lo hi w a _ _ IH|op l r IHl IHr|es _] using expr_ind';
    intros x C M; try discriminate.
  - simpl; eauto.
  - simpl in C. apply andb_true_iff in C as [Cl Cr].
    destruct M as [y [z [Ml [Mr B]]]].
    destruct (IHl _ Cl Ml) as [u U], (IHr _ Cr Mr) as [w W]. cbn [unwrap]. rewrite U, W. cbn [both].
    destruct (const_means' l u y Cl U Ml) as [a [-> ->]], (const_means' r w z Cr W Mr) as [b [-> ->]].
    destruct B as [h [-> B]]. specialize (B p0). apply real_bin_apply in B. rewrite B. eauto.
Qed.

Lemma means_const : forall r, mn (EConst (Some r)) (Sc (fun _ => r)).
Proof. intros r. exists r. auto. Qed.

Lemma dot_acc_means : forall a b acc e fs gs f,
  dot_acc numR acc a b = Ok e -> entries a fs -> entries b gs -> mn acc (Sc f) ->
  mn e (Sc (fun p => f p + sum_products (map (fun h => h p) fs) (map (fun h => h p) gs))).
Proof.
  induction a as [|x a IH]; intros [|y b] acc e fs gs f D A B M; simpl in D; try discriminate.
  - inversion D; subst. destruct fs; simpl in A; try contradiction.
    replace (fun p => _) with f; [exact M|]. extensionality p. simpl. ring.
  - destruct fs as [|g fs]; simpl in A; try contradiction. destruct gs as [|h gs]; simpl in B; try contradiction.
    destruct A as [A1 A2], B as [B1 B2].
    pose proof (IH b _ e fs gs (fun p => f p + g p * h p) D A2 B2) as K.
    replace (fun p => f p + sum_products _ _) with
      (fun p => f p + g p * h p + sum_products (map (fun k => k p) fs) (map (fun k => k p) gs)).
    + apply K. exists (Sc f), (Sc (fun p => g p * h p)). split; [exact M|]. split.
      * exists (Sc g), (Sc h). split; [exact A1|]. split; [exact B1|].
        exists (fun p => g p * h p). split; [reflexivity|]. intros p. reflexivity.
      * exists (fun p => f p + g p * h p). split; [reflexivity|]. intros p. reflexivity.
    + extensionality p. simpl. ring.
Qed.

Lemma dot_means : forall a b e x, dot numR a b = Ok e -> mn (EBin BMult (EVec a) (EVec b)) x -> mn e x.
Proof.
  intros a b e x D [y [z [Ma [Mb B]]]]. apply means_vec in Ma as [fs [-> A]]. apply means_vec in Mb as [gs [-> Bb]].
  simpl in B. destruct B as [L [N ->]].
  unfold dot in D. destruct (Nat.eqb (length a) (length b)); [|discriminate].
  destruct a as [|p a], b as [|q b]; try discriminate.
  destruct fs as [|f fs]; simpl in A; try contradiction. destruct gs as [|g gs]; simpl in Bb; try contradiction.
  destruct A as [A1 A2], Bb as [B1 B2].
  pose proof (dot_acc_means a b _ e fs gs (fun p => f p * g p) D A2 B2) as K. apply K.
  exists (Sc f), (Sc g). split; [exact A1|]. split; [exact B1|].
  exists (fun p => f p * g p). split; [reflexivity|]. intros p'. reflexivity.
Qed.

Lemma eq0 : forall r, n_eq numR (Some r) (c0 numR) = true -> r = 0.
Proof. intros r H. simpl in H. apply r_eqb_true in H. exact H. Qed.
Lemma eq1 : forall r, n_eq numR (Some r) (c1 numR) = true -> r = 1.
Proof. intros r H. simpl in H. apply r_eqb_true in H. exact H. Qed.

Lemma sc_eq : forall f g : P -> R, (forall p, f p = g p) -> Sc f = Sc g.
Proof. intros f g H. f_equal. extensionality p. auto. Qed.

Lemma map_eq : forall (h : (P -> R) -> P -> R) fs, (forall f p, h f p = f p) -> map h fs = fs.
Proof.
  intros h fs H. rewrite <- (map_id fs) at 2. apply map_ext. intros f. extensionality p. auto.
Qed.

Lemma sstep_means : forall e e', sstep numR e e' -> forall x, mn e x -> mn e' x.
Proof.
  intros e e' S; induction S as
    [c|i|i t|es|l r C|op a u y C Q U A|op a u C Q U|op a a' C S IH|lo hi v a u C U|lo hi v a a' C S IH
    |op l r u w z Cl Cr Ul Ur B|l r u r' Cl Cr U E S IH|l r u r' Cl Cr U E S IH|op l r u O Cl Cr U E
    |l r u r' Cl Cr U E0 E1 S IH|op l r u r' O Cl Cr U E0 E1 S IH|op l r u l' O Cl Cr U E S IH
    |l r u Cl Cr U E|op l r u l' O Cl Cr U E0 E1 S IH|op l r u l' O Cl Cr U E0 E1 S IH
    |a b e D|op l r l' r' O Cl Cr V S1 IH1 S2 IH2]; intros x M; auto.
  - destruct M as [y' [M K]]. destruct (const_means' a u y' C U M) as [r [-> ->]].
    destruct op; try discriminate; destruct K as [f [g [Ef [-> K]]]]; inversion Ef; subst f;
      pose proof (real_un_apply _ _ _ (K p0)) as K0; rewrite K0 in A; inversion A; subst;
      exists (g p0); (split; [reflexivity|]); apply sc_eq; intros p;
      pose proof (real_un_apply _ _ _ (K p)) as K1; rewrite K0 in K1; inversion K1; reflexivity.
  - destruct M as [y' [M K]]. destruct (const_means' a u y' C U M) as [r [-> ->]].
    exists (Sc (fun _ => r)). split; [apply means_const|exact K].
  - destruct M as [y' [M K]]. exists y'. split; [apply IH; exact M|exact K].
  - destruct M as [y [z [w [M1 [M2 [M3 K]]]]]]. destruct (const_means' a u w C U M3) as [r [-> ->]].
    exists y, z, (Sc (fun _ => r)). repeat split; auto. apply means_const.
  - destruct M as [y [z [w [M1 [M2 [M3 K]]]]]]. exists y, z, w. repeat split; auto.
  - destruct M as [y [z' [M1 [M2 K]]]].
    destruct (const_means' l u y Cl Ul M1) as [a [-> ->]], (const_means' r w z' Cr Ur M2) as [b [-> ->]].
    destruct K as [h [-> K]]. pose proof (real_bin_apply _ _ _ _ (K p0)) as K0. rewrite K0 in B.
    inversion B; subst. exists (h p0). split; [reflexivity|]. apply sc_eq. intros p.
    pose proof (real_bin_apply _ _ _ _ (K p)) as K1. rewrite K0 in K1. inversion K1. reflexivity.
  - destruct M as [y [z [M1 [M2 K]]]]. destruct (const_means' l u y Cl U M1) as [a [-> ->]].
    apply eq0 in E. subst a. destruct z as [g|gs]; [|destruct K as [K _]; discriminate].
    destruct K as [h [-> K]]. replace (Sc h) with (Sc g); [auto|]. apply sc_eq.
    intros p. rewrite (K p). ring.
  - destruct M as [y [z [M1 [M2 K]]]]. destruct (const_means' l u y Cl U M1) as [a [-> ->]].
    apply eq0 in E. subst a. destruct z as [g|gs]; [|destruct K as [K _]; discriminate].
    destruct K as [h [-> K]]. exists (Sc (fun _ => -1)), (Sc g). split; [exists (-1); split; reflexivity|].
    split; [auto|]. exists h. split; [reflexivity|]. intros p. specialize (K p). simpl in *. lra.
  - destruct M as [y [z [M1 [M2 K]]]]. destruct (const_means' l u y Cl U M1) as [a [-> ->]].
    apply eq0 in E. subst a. exists 0. split; [reflexivity|].
    destruct z as [g|gs].
    + destruct K as [h [-> K]]. apply sc_eq. intros p. specialize (K p).
      destruct O; subst; simpl in K.
      * lra.
      * destruct K as [K ->]. unfold Rdiv. ring.
    + destruct K as [_ [[p N] _]]. exfalso. apply N. reflexivity.
  - destruct M as [y [z [M1 [M2 K]]]]. destruct (const_means' l u y Cl U M1) as [a [-> ->]].
    apply eq1 in E1. subst a. destruct z as [g|gs].
    + destruct K as [h [-> K]]. replace (Sc h) with (Sc g); [auto|]. apply sc_eq.
      intros p. rewrite (K p). ring.
    + destruct K as [_ [_ ->]]. rewrite map_eq; [auto|]. intros f p. ring.
  - destruct M as [y [z [M1 [M2 K]]]]. destruct (const_means' l u y Cl U M1) as [a [-> ->]].
    exists (Sc (fun _ => a)), z. split; [apply means_const|]. split; [auto|exact K].
  - destruct M as [y [z [M1 [M2 K]]]]. destruct (const_means' r u z Cr U M2) as [a [-> ->]].
    apply eq0 in E. subst a. destruct y as [g|gs].
    + destruct K as [h [-> K]]. replace (Sc h) with (Sc g); [auto|]. apply sc_eq.
      intros p. destruct O; subst; rewrite (K p); ring.
    + destruct O; subst; destruct K as [[K _]|[K _]]; discriminate.
  - destruct M as [y [z [M1 [M2 K]]]]. destruct (const_means' r u z Cr U M2) as [a [-> ->]].
    apply eq0 in E. subst a. exists 0. split; [reflexivity|]. destruct y as [g|gs].
    + destruct K as [h [-> K]]. apply sc_eq. intros p. rewrite (K p). ring.
    + destruct K as [[_ [[p N] _]]|[K _]]; [exfalso; apply N; reflexivity|discriminate].
  - destruct M as [y [z [M1 [M2 K]]]]. destruct (const_means' r u z Cr U M2) as [a [-> ->]].
    apply eq1 in E1. subst a. destruct y as [g|gs].
    + destruct K as [h [-> K]]. replace (Sc h) with (Sc g); [auto|]. apply sc_eq.
      intros p. specialize (K p). destruct O; subst; simpl in K; [lra|].
      destruct K as [_ ->]. field.
    + replace x with (@Ve P gs); [auto|]. destruct K as [[_ [_ ->]]|[_ [_ ->]]]; rewrite map_eq; auto;
        intros f p; try field; ring.
  - destruct M as [y [z [M1 [M2 K]]]]. destruct (const_means' r u z Cr U M2) as [a [-> ->]].
    exists y, (Sc (fun _ => a)). split; [auto|]. split; [apply means_const|exact K].
  - exact (dot_means a b e x D M).
  - destruct M as [y [z [M1 [M2 K]]]]. exists y, z. auto.
Qed.

Lemma simplify_means_total : forall e x, mn e x -> exists e', simplify numR e = Ok e'.
Proof.
  induction e as [d|i|i t|op a IH|lo hi w a _ _ IH|op l r IHl IHr|es _] using expr_ind';
    intros x M; cbn [simplify]; eauto.
  - destruct M as [y [M K]]. destruct (is_constant numR a) eqn:C.
    + destruct (const_unwrap a y C M) as [c U]. rewrite U. simpl.
      destruct (u_can_simplify op) eqn:Q; [|simpl; unfold omap; simpl; eauto].
      destruct (const_means' a c y C U M) as [r [-> ->]].
      destruct op; try discriminate; destruct K as [f [g [Ef [-> K]]]]; inversion Ef; subst f;
        rewrite (real_un_apply _ _ _ (K p0)); unfold omap; simpl; eauto.
    + destruct (IH y M) as [e' E]. rewrite E. unfold omap; simpl; eauto.
  - destruct M as [y [z [u [M1 [M2 [M K]]]]]]. destruct (is_constant numR a) eqn:C.
    + destruct (const_unwrap a u C M) as [c U]. rewrite U. unfold omap; simpl. eauto.
    + destruct (IH u M) as [e' E]. rewrite E. unfold omap; simpl; eauto.
  - destruct M as [y [z [M1 [M2 K]]]].
    destruct (IHl y M1) as [l' L], (IHr z M2) as [r' R].
    destruct (is_constant numR l && is_constant numR r) eqn:C.
    { apply andb_true_iff in C as [Cl Cr].
      destruct (const_unwrap l y Cl M1) as [u U], (const_unwrap r z Cr M2) as [w W]. rewrite U, W. cbn [both].
      destruct (const_means' l u y Cl U M1) as [a [-> ->]], (const_means' r w z Cr W M2) as [b [-> ->]].
      destruct K as [h [-> K]]. rewrite (real_bin_apply _ _ _ _ (K p0)). unfold omap; simpl; eauto. }
    destruct (is_constant numR l) eqn:Cl; [|destruct (is_constant numR r) eqn:Cr].
    + destruct (const_unwrap l y Cl M1) as [u U]. rewrite U, R. unfold omap; simpl.
      destruct op; try (exfalso; destruct y, z; simpl in K; tauto);
        repeat match goal with |- context [if ?b then _ else _] => destruct b end; eauto.
    + destruct (const_unwrap r z Cr M2) as [u U]. rewrite U, L. unfold omap; simpl.
      destruct op; try (exfalso; destruct y, z; simpl in K; tauto);
        repeat match goal with |- context [if ?b then _ else _] => destruct b end; eauto.
    + rewrite ?mult_case, L, R. destruct op; unfold mk2; simpl; eauto.
      destruct (both_vec numR l r) eqn:V; [|simpl; eauto].
      destruct l as [| | | | | |a], r as [| | | | | |b]; try discriminate.
      apply means_vec in M1 as [fs [-> A]]. apply means_vec in M2 as [gs [-> B]].
      destruct K as [Le [N _]]. apply entries_length in A, B.
      assert (LL : length a = length b) by congruence. unfold dot. rewrite LL, Nat.eqb_refl.
      destruct a as [|p a]; [destruct fs; [contradiction|discriminate]|].
      destruct b as [|q b]; [discriminate|].
      assert (T : forall a b acc, length a = length b -> exists e, dot_acc numR acc a b = Ok e).
      { clear. induction a; destruct b; intros; simpl in *; try discriminate; eauto. }
      apply T. injection LL as LL; exact LL.
Qed.

Lemma can_simplify_means_total : forall e x, mn e x -> exists b, can_simplify numR e = Ok b.
Proof.
  assert (CE : forall e x c, mn e x -> exists b, const_eq numR e c = Ok b).
  { intros e x c M. unfold const_eq. destruct (is_constant numR e) eqn:C; [|eauto].
    destruct (const_unwrap e x C M) as [u U]. rewrite U. unfold omap; simpl; eauto. }
  induction e as [d|i|i t|op a IH|lo hi w a _ _ IH|op l r IHl IHr|es _] using expr_ind';
    intros x M; cbn [can_simplify]; eauto.
  - destruct M as [y [M _]]. eauto.
  - destruct M as [y [z [u [M1 [M2 [M K]]]]]]. eauto.
  - destruct M as [y [z [M1 [M2 K]]]].
    destruct (IHl y M1) as [bl L], (IHr z M2) as [br R].
    destruct (is_constant numR l && is_constant numR r); [eauto|].
    destruct (CE l y (c0 numR) M1) as [b1 B1], (CE l y (c1 numR) M1) as [b2 B2],
      (CE r z (c0 numR) M2) as [b3 B3], (CE r z (c1 numR) M2) as [b4 B4].
    rewrite B1, B2, B3, B4, L, R.
    destruct op; cbn [oor bind]; destruct b1, b2, b3, b4, bl, br; cbn [oor bind]; eauto;
      destruct l; cbn [oor bind]; eauto; destruct r; cbn [oor bind]; eauto.
Qed.

Lemma top_means : forall e x, mn e x -> exists e', simplify_top numR e = Ok e' /\ mn e' x.
Proof.
  intros e. remember (weight numR e) as k eqn:K. revert e K.
  induction k as [k IH] using lt_wf_ind. intros e -> x M.
  destruct (can_simplify_means_total e x M) as [[] C].
  - destruct (simplify_means_total e x M) as [e1 E].
    destruct (IH (weight numR e1) (simplify_lt numR e e1 (simplify_sstep numR _ _ E) C) e1 eq_refl x) as [e' [T M']].
    + eapply sstep_means; [|exact M]. apply simplify_sstep. exact E.
    + exists e'. split; [|exact M']. rewrite <- T. apply top_step; auto.
  - exists e. split; [apply top_done; exact C|exact M].
Qed.
End Den.

(** Meanings are unique. *)
Lemma entries_unique : forall {P} (I : interp P) es,
  (forall e, In e es -> forall x y, means I e x -> means I e y -> x = y) ->
  forall fs gs, entries I es fs -> entries I es gs -> fs = gs.
Proof.
  intros P I; induction es as [|e es IH]; intros H [|f fs] [|g gs] A B; simpl in *; try contradiction; auto.
  destruct A as [A1 A2], B as [B1 B2]. f_equal.
  - pose proof (H e (or_introl eq_refl) _ _ A1 B1) as Q. inversion Q. reflexivity.
  - apply IH; auto. intros e' He. apply (H e' (or_intror He)).
Qed.

Lemma real_un_fun : forall op x y z, real_un op x y -> real_un op x z -> y = z.
Proof. intros op x y z A B; destruct op; simpl in *; try contradiction; try congruence; destruct A, B; congruence. Qed.
Lemma real_bin_fun : forall op x y z w, real_bin op x y z -> real_bin op x y w -> z = w.
Proof. intros op x y z w A B; destruct op; simpl in *; try contradiction; try congruence; destruct A, B; congruence. Qed.

Lemma bin_means_fun : forall {P} op (x y z w : val P), bin_means op x y z -> bin_means op x y w -> z = w.
Proof.
  intros P op [f|fs] [g|gs] z w A B; simpl in *.
  - destruct A as [h [-> A]], B as [k [-> B]]. f_equal. extensionality p. exact (real_bin_fun _ _ _ _ _ (A p) (B p)).
  - destruct A as [_ [_ ->]], B as [_ [_ ->]]. reflexivity.
  - destruct A as [[A [_ ->]]|[A [_ ->]]], B as [[B [_ ->]]|[B [_ ->]]]; congruence.
  - destruct A as [_ A], B as [_ B]. destruct op; try contradiction; try congruence.
    destruct A as [_ ->], B as [_ ->]. reflexivity.
Qed.

Lemma means_unique : forall {P} (I : interp P) e x y, means I e x -> means I e y -> x = y.
Proof.
  intros P I e; induction e as [d|i|i t|op a IH|lo hi w a IH1 IH2 IH|op l r IHl IHr|es IH] using expr_ind';
    intros x y A B.
  - destruct A as [r [-> ->]], B as [s [E ->]]. inversion E. reflexivity.
  - simpl in *. congruence.
  - simpl in *. congruence.
  - destruct A as [u [A1 A2]], B as [v [B1 B2]]. pose proof (IH _ _ A1 B1). subst v.
    destruct op; try congruence;
      destruct A2 as [f [g [Ef [-> A2]]]], B2 as [f' [g' [Ef' [-> B2]]]]; subst u; inversion Ef'; subst f';
      f_equal; extensionality p; eapply real_un_fun; eauto.
  - destruct A as [u [v [z [A1 [A2 [A3 A4]]]]]], B as [u' [v' [z' [B1 [B2 [B3 B4]]]]]].
    pose proof (IH1 _ _ A1 B1). pose proof (IH2 _ _ A2 B2). pose proof (IH _ _ A3 B3). congruence.
  - destruct A as [u [v [A1 [A2 A3]]]], B as [u' [v' [B1 [B2 B3]]]].
    pose proof (IHl _ _ A1 B1). pose proof (IHr _ _ A2 B2). subst. eapply bin_means_fun; eauto.
  - apply means_vec in A as [fs [-> A]]. apply means_vec in B as [gs [-> B]]. f_equal.
    eapply entries_unique; eauto. intros e He. rewrite Forall_forall in IH. exact (IH e He).
Qed.

(** Agreement with evaluation. *)
Lemma means_eval : forall (v : list (option R)) (I : interp unit) e r,
  (forall i x, nth_error v (N.to_nat i) = Some (Some x) -> i_var I i = fun _ => x) ->
  eval numR e v = Ok (Some r) -> means I e (Sc (fun _ => r)).
Proof.
  intros v I e r H; revert r; induction e as [d|i|i t|op a IH|lo hi w a _ _ IH|op l r IHl IHr|es _] using expr_ind';
    intros q E.
  - inversion E; subst. exists q. auto.
  - cbn [eval] in E. destruct (N.leb _ _); [discriminate|].
    match type of E with match ?t with _ => _ end = _ => destruct t as [x|] eqn:NE end; [|discriminate].
    injection E as ->. simpl. rewrite (H i q NE). reflexivity.
  - discriminate.
  - cbn [eval] in E. apply bind_ok in E as [u [Ea E]].
    destruct (strict_u _ _ _ E ltac:(eexists; reflexivity)) as [s ->].
    exists (Sc (fun _ => s)). split; [exact (IH _ Ea)|]. apply apply_real_un in E.
    destruct op; try contradiction; do 2 eexists; (split; [reflexivity|]); (split; [reflexivity|]);
      intros ?; exact E.
  - cbn [eval] in E. apply bind_ok in E as [u [_ E]]. discriminate.
  - cbn [eval] in E. apply both_ok in E as [u [w [El [Er E]]]].
    destruct (strict_b _ _ _ _ E ltac:(eexists; reflexivity)) as [[a ->] [b ->]].
    exists (Sc (fun _ => a)), (Sc (fun _ => b)). split; [exact (IHl _ El)|]. split; [exact (IHr _ Er)|].
    exists (fun _ => q). split; [reflexivity|]. intros ?. apply apply_real_bin. exact E.
  - discriminate.
Qed.
