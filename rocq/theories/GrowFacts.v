(** Lemmas for C57 (passes of the simplification loop) and C77 (growth of expressions). *)
From Coq Require Import ZArith NArith List Bool Lia.
From Verif Require Import Outcome Num RtModel RtSpec RtFacts RtStep RtTermination RtSubst SubstAlg GrowSpec.
Import ListNotations.

Section Grow.
Context (n : num).
Local Notation expr := (expr n).
Local Notation isc := (is_constant n).

(** [stable k e]: after [k] passes of simplify() another pass changes nothing. *)
Fixpoint stable (k : nat) (e : expr) : Prop :=
  match k with
  | O => sstep n e e
  | S k' => forall e1, sstep n e e1 -> stable k' e1
  end.

Lemma sstep_det : forall a b c : expr, sstep n a b -> sstep n a c -> b = c.
Proof.
  intros a b c H K. apply sstep_simplify in H. apply sstep_simplify in K. congruence.
Qed.

Lemma stable_S : forall k e, stable k e -> stable (S k) e.
Proof.
  induction k as [|k IH]; intros e H.
  - intros e1 K. rewrite <- (sstep_det _ _ _ H K). exact H.
  - intros e1 K. apply IH. apply (H e1 K).
Qed.

Lemma stable_le : forall k m e, k <= m -> stable k e -> stable m e.
Proof. intros k m e L. induction L; auto using stable_S. Qed.

Lemma stable_const : forall k c, stable k (EConst c).
Proof. intros k c. apply (stable_le 0); [lia|]. constructor. Qed.

Lemma fix_const : forall e : expr, sstep n e e -> isc e = true -> exists c, e = EConst c.
Proof.
  intros e S C. destruct e as [c| | | | |op l r|]; simpl in C; try discriminate; eauto.
  apply andb_true_iff in C as [Cl Cr].
  inversion S; subst; try congruence;
    try (match goal with H : isc l && isc r = false |- _ => rewrite Cl, Cr in H; discriminate end).
  discriminate Cl.
Qed.

Lemma stable_un : forall op k a, stable k a -> stable (S k) (EUn op a).
Proof.
  intros op. induction k as [|k IH]; intros a H.
  - intros e1 K. inversion K; subst.
    + constructor.
    + apply ss_un_const; auto.
    + match goal with H' : sstep n a ?b |- _ => rewrite <- (sstep_det _ _ _ H H') end. simpl. apply ss_un; auto.
  - intros e1 K. inversion K; subst.
    + apply stable_const.
    + apply IH, stable_const.
    + apply IH. auto.
Qed.

Lemma stable_int : forall lo hi v k a, stable k a -> stable (S k) (EInt lo hi v a).
Proof.
  intros lo hi v. induction k as [|k IH]; intros a H.
  - intros e1 K. inversion K; subst.
    + apply ss_int_const; auto.
    + match goal with H' : sstep n a ?b |- _ => rewrite <- (sstep_det _ _ _ H H') end. simpl. apply ss_int; auto.
  - intros e1 K. inversion K; subst.
    + apply IH, stable_const.
    + apply IH. auto.
Qed.

(** -1 is neither 0 nor 1 for the numeric type's ==. *)
Definition sane : Prop := n_eq n (cm1 n) (c0 n) = false /\ n_eq n (cm1 n) (c1 n) = false.

Ltac same :=
  repeat match goal with
  | F : sstep n ?a ?a, G : sstep n ?a ?b |- _ =>
      first [constr_eq a b; fail 1 | assert (a = b) by exact (sstep_det _ _ _ F G); subst b]
  end.

Lemma stable_times : forall r, stable 0 r -> isc r = false ->
  stable 1 (EBin BMult (EConst (cm1 n)) r) /\ (sane -> stable 0 (EBin BMult (EConst (cm1 n)) r)).
Proof.
  intros r F C. split.
  - intros e1 K. inversion K; subst; simpl in *; try congruence; same;
      try (repeat match goal with H : Ok _ = Ok _ |- _ => inversion H; clear H; subst end);
      try (constructor; fail); try assumption.
  - intros [A B]. simpl. apply ss_cl; auto. discriminate.
Qed.

Lemma stable_bin0 : forall op l r e1, stable 0 l -> stable 0 r -> vector_free (EBin op l r) ->
  sstep n (EBin op l r) e1 -> stable 1 e1 /\ (sane -> stable 0 e1).
Proof.
  intros op l r e1 Fl Fr V K.
  assert (Up : stable 0 e1 -> stable 1 e1 /\ (sane -> stable 0 e1)) by (intros Q; split; [apply stable_S; exact Q|auto]).
  inversion K; subst; simpl in Fl, Fr; same;
    try (apply Up; simpl; auto; constructor; auto; fail).
  - apply stable_times; auto.
  - exfalso. apply (V a). apply sub_l, sub_refl.
Qed.

Lemma stable_bin : forall k op l r, stable k l -> stable k r -> vector_free (EBin op l r) ->
  stable (S (S k)) (EBin op l r) /\ (sane -> stable (S k) (EBin op l r)).
Proof.
  induction k as [|k IH]; intros op l r Hl Hr V.
  - split; [intros e1 K; apply (stable_bin0 _ _ _ _ Hl Hr V K)|].
    intros Sn e1 K. apply (stable_bin0 _ _ _ _ Hl Hr V K); auto.
  - assert (G : forall e1, sstep n (EBin op l r) e1 -> stable (S (S k)) e1 /\ (sane -> stable (S k) e1)).
    { intros e1 K. pose proof (proj1 (sstep_size n _ _ K V)) as V1.
      assert (Up : stable k e1 -> stable (S (S k)) e1 /\ (sane -> stable (S k) e1))
        by (intros Q; split; [apply stable_S, stable_S; exact Q|intros _; apply stable_S; exact Q]).
      inversion K; subst;
        try (apply Up; auto using stable_const; fail);
        try (apply IH; auto using stable_const; fail).
      - split; [apply (stable_le 0); [lia|]; exact K|intros _; apply (stable_le 0); [lia|]; exact K].
      - exfalso. apply (V a). apply sub_l, sub_refl. }
    split; [intros e1 K; apply G; auto|intros Sn e1 K; apply G; auto].
Qed.

Lemma stable_height : forall e : expr, vector_free e ->
  stable (2 * (height e - 1)) e /\ (sane -> stable (height e - 1) e).
Proof.
  induction e as [c|i|i t|op a IH|lo hi w a _ _ IH|op l r IHl IHr|es IHes] using expr_ind'; intros V.
  - split; [|intros _]; constructor.
  - split; [|intros _]; constructor.
  - split; [|intros _]; constructor.
  - pose proof (height_pos n a). destruct (IH (vf_un n _ _ V)) as [A B].
    split; [|intros Sn]; cbn [height].
    + apply (stable_le (S (2 * (height a - 1)))); [lia|]. apply stable_un; auto.
    + apply (stable_le (S (height a - 1))); [lia|]. apply stable_un; auto.
  - pose proof (height_pos n a). destruct (IH (proj1 (vf_int n _ _ _ _ V))) as [A B].
    split; [|intros Sn]; cbn [height].
    + apply (stable_le (S (2 * (height a - 1)))); [lia|]. apply stable_int; auto.
    + apply (stable_le (S (height a - 1))); [lia|]. apply stable_int; auto.
  - pose proof (height_pos n l). pose proof (height_pos n r).
    destruct (vf_bin n _ _ _ V) as [Vl Vr]. destruct (IHl Vl) as [Al Bl]. destruct (IHr Vr) as [Ar Br].
    split; [|intros Sn]; cbn [height].
    + apply (stable_le (S (S (2 * (Nat.max (height l) (height r) - 1))))); [lia|].
      eapply proj1, stable_bin; auto; [apply (stable_le (2 * (height l - 1)))|apply (stable_le (2 * (height r - 1)))]; auto; lia.
    + apply (stable_le (S (Nat.max (height l) (height r) - 1))); [lia|].
      specialize (Bl Sn). specialize (Br Sn).
      refine (proj2 (stable_bin _ op l r _ _ V) Sn); [apply (stable_le (height l - 1))|apply (stable_le (height r - 1))]; auto; lia.
  - exfalso. apply (V es). apply sub_refl.
Qed.

Lemma stable_loop : forall k e, stable k e -> exists o, inplace_simplify n (S k) e = Some o.
Proof.
  induction k as [|k IH]; intros e H.
  - cbn [inplace_simplify]. destruct (can_simplify n e) as [[|]|x|] eqn:C; eauto.
    pose proof (simplify_lt n e e H C). lia.
  - remember (S k) as k1. cbn [inplace_simplify]. destruct (can_simplify n e) as [[|]|x|] eqn:C; eauto.
    destruct (simplify n e) as [e1|x|] eqn:S1; eauto. subst k1. apply IH. apply H. now apply simplify_sstep.
Qed.

(** ** Size of derivatives *)

Lemma diff_size : forall x (e d : expr), diff n x e = Ok d ->
  nodes d <= 3 * nodes e * height e /\ height d <= 3 * height e.
Proof.
  intros x. induction e as [c|i|i t|op a IH|lo hi w a _ _ IH|op l r IHl IHr|es IHes] using expr_ind'; intros d D.
  - inversion D; subst. simpl. lia.
  - simpl in D. destruct x as [j|j s]; [destruct (N.eqb j i)|]; inversion D; subst; simpl; lia.
  - simpl in D. destruct x as [j|j s]; [discriminate|]. destruct (N.eqb j i && N.eqb s t); inversion D; subst; simpl; lia.
  - assert (Q : exists d', diff n x a = Ok d' /\ nodes d <= nodes d' + 2 * nodes a + 4 /\
                height d <= 3 + Nat.max (height d') (height a)).
    { simpl in D. destruct op; try discriminate D.
      9: { destruct x as [j|j s]; [discriminate|]. destruct (diff n (DFun j s) a) as [d'| |]; try discriminate D. exists d'.
            cbn [bind] in D. destruct (deep_equal n d' _) as [[|]| |]; try discriminate D; inversion D; subst; simpl;
              pose proof (unwrap_const_nodes n d'); pose proof (height_pos n d'); (split; [reflexivity|lia]). }
      all: destruct (diff n x a) as [d'| |]; try discriminate D; exists d'; inversion D; subst; split; [reflexivity|cbn [nodes height]; lia]. }
    destruct Q as [d' [E [B1 B2]]]. destruct (IH d' E) as [N1 H1]. pose proof (unwrap_const_nodes n a). pose proof (height_pos n a).
    cbn [nodes height]. split; [nia|lia].
  - discriminate.
  - assert (Q : exists dl dr, diff n x l = Ok dl /\ diff n x r = Ok dr /\
                nodes d <= nodes dl + nodes dr + nodes l + 3 * nodes r + 5 /\
                height d <= 3 + Nat.max (Nat.max (height dl) (height dr)) (Nat.max (height l) (height r))).
    { simpl in D. unfold mk2, both in D. destruct op; try discriminate D;
        destruct (diff n x l) as [dl| |], (diff n x r) as [dr| |]; try discriminate D; inversion D; subst;
        exists dl, dr; repeat (split; [reflexivity|]); cbn [nodes height]; lia. }
    destruct Q as [dl [dr [El [Er [B1 B2]]]]]. destruct (IHl dl El) as [N1 H1]. destruct (IHr dr Er) as [N2 H2].
    pose proof (unwrap_const_nodes n l). pose proof (height_pos n l). pose proof (unwrap_const_nodes n r). pose proof (height_pos n r).
    cbn [nodes height]. split; [|lia].
    assert (nodes dl <= 3 * nodes l * Nat.max (height l) (height r)) by nia.
    assert (nodes dr <= 3 * nodes r * Nat.max (height l) (height r)) by nia. nia.
  - assert (Q : exists ds, d = EVec ds /\ Forall2 (fun e' d' => diff n x e' = Ok d') es ds).
    { simpl in D. destruct (oseq (map (diff n x) es)) as [ds| |] eqn:E; try discriminate D. inversion D; subst. exists ds.
      split; auto. clear D IHes. revert ds E. induction es as [|e1 es IH]; intros ds E; simpl in E.
      - inversion E; constructor.
      - destruct (diff n x e1) as [d1| |] eqn:E1; [|destruct (oseq (map (diff n x) es)); discriminate E|discriminate E].
        destruct (oseq (map (diff n x) es)) as [ds'| |]; simpl in E; try discriminate E. inversion E; subst. constructor; auto. }
    destruct Q as [ds [-> F]]. cbn [nodes height].
    assert (G : list_sum (map nodes ds) <= 3 * list_sum (map nodes es) * list_max (map height es) /\
                list_max (map height ds) <= 3 * list_max (map height es)).
    { clear D. induction F as [|e1 d1 es ds E1 F IH]; [simpl; lia|].
      pose proof (Forall_inv IHes _ E1) as [A1 A2]. destruct (IH (Forall_inv_tail IHes)) as [B1 B2]. simpl.
      split; [|lia].
      set (m := Nat.max (height e1) (list_max (map height es))) in *.
      assert (nodes d1 <= 3 * nodes e1 * m) by (subst m; nia).
      assert (list_sum (map nodes ds) <= 3 * list_sum (map nodes es) * m) by (subst m; nia). nia. }
    split; [nia|lia].
Qed.

Lemma diff_vector_free : forall x (e d : expr), diff n x e = Ok d -> vector_free e -> vector_free d.
Proof.
  intros x. induction e as [c|i|i t|op a IH|lo hi w a _ _ IH|op l r IHl IHr|es IHes] using expr_ind'; intros d D V.
  - inversion D; subst. apply vf_const.
  - simpl in D. destruct x as [j|j s]; [destruct (N.eqb j i)|]; inversion D; subst; apply vf_const.
  - simpl in D. destruct x as [j|j s]; [discriminate|]. destruct (N.eqb j i && N.eqb s t); inversion D; subst; apply vf_const.
  - pose proof (vf_un n _ _ V) as Va. simpl in D. destruct op; try discriminate D.
    9: { destruct x as [j|j s]; [discriminate|]. destruct (diff n (DFun j s) a) as [d'| |]; try discriminate D.
          cbn [bind] in D. destruct (deep_equal n d' _) as [[|]| |]; try discriminate D; inversion D; subst;
          auto using vf_un_i, vf_const. }
    all: destruct (diff n x a) as [d'| |]; try discriminate D; inversion D; subst; auto 8 using vf_un_i, vf_bin_i, vf_const.
  - discriminate.
  - destruct (vf_bin n _ _ _ V) as [Vl Vr]. simpl in D. unfold mk2, both in D. destruct op; try discriminate D;
        destruct (diff n x l) as [dl| |], (diff n x r) as [dr| |]; try discriminate D; inversion D; subst;
        auto 8 using vf_bin_i.
  - exfalso. apply (V es), sub_refl.
Qed.

Lemma diff_top_size : forall x (e d : expr), diff_top n x e = Ok d -> vector_free e ->
  vector_free d /\ nodes d <= 3 * nodes e * height e /\ height d <= 3 * height e.
Proof.
  intros x e d D V. unfold diff_top in D. destruct (diff n x e) as [d0| |] eqn:E; try discriminate D. cbn [bind] in D.
  destruct (diff_size x e d0 E) as [A B]. destruct (top_size n d0 d D (diff_vector_free x e d0 E V)) as [C [F G]].
  split; [exact C|lia].
Qed.

Lemma derivative_size : forall x k (e d : expr), derivative n x k e = Ok d -> vector_free e ->
  vector_free d /\ nodes d <= 3 ^ (k * (k + 1) / 2) * height e ^ k * nodes e /\ height d <= 3 ^ k * height e.
Proof.
  intros x. induction k as [|k IH]; intros e d D V.
  - inversion D; subst. simpl. split; [exact V|lia].
  - cbn [derivative] in D. destruct (derivative n x k e) as [d0| |] eqn:E; try discriminate D. cbn [bind] in D.
    destruct (IH e d0 E V) as [V0 [A B]]. destruct (diff_top_size x d0 d D V0) as [V1 [A1 B1]].
    split; [exact V1|].
    assert (T : S k * (S k + 1) / 2 = k * (k + 1) / 2 + (k + 1)).
    { replace (S k * (S k + 1)) with (k * (k + 1) + (k + 1) * 2) by lia. rewrite Nat.div_add by lia. reflexivity. }
    rewrite T, Nat.pow_add_r. replace (k + 1) with (S k) at 2 by lia. rewrite !Nat.pow_succ_r'.
    split; [|nia].
    set (p := 3 ^ (k * (k + 1) / 2)) in *. set (q := 3 ^ k) in *. set (h := height e) in *. set (hk := h ^ k) in *.
    etransitivity; [exact A1|].
    transitivity (3 * (p * hk * nodes e) * (q * h)); [|nia].
    apply Nat.mul_le_mono; [|exact B]. lia.
Qed.

(** ** Size of substitutions *)

Lemma subst1_nodes : forall s r (e e' : expr), subst1 n s r e = Ok e' ->
  nodes e' <= nodes e * nodes r /\ height e' <= height e + height r.
Proof.
  intros s r. pose proof (unwrap_const_nodes n r) as Pr. pose proof (height_pos n r) as Hr.
  induction e as [c|i|i t|op a IH|lo hi w a _ _ IH|op l r' IHl IHr|es IHes] using expr_ind'; intros e' E;
    cbn [subst1] in E;
    match type of E with bind ?q _ = _ => destruct q as [[|]| |]; cbn [bind] in E; try discriminate E end;
    try (injection E as E; rewrite <- E; cbn [nodes height]; split; [nia|lia]; fail).
  - destruct (subst1 n s r a) as [a'| |]; try discriminate E. inversion E; subst. destruct (IH a' eq_refl).
    cbn [nodes height]. split; [nia|lia].
  - destruct (subst1 n s r a) as [a'| |]; try discriminate E. inversion E; subst. destruct (IH a' eq_refl).
    cbn [nodes height]. split; [nia|lia].
  - unfold mk2, both in E. destruct (subst1 n s r l) as [l1| |], (subst1 n s r r') as [r1| |]; try discriminate E.
    inversion E; subst. destruct (IHl l1 eq_refl), (IHr r1 eq_refl). cbn [nodes height]. split; [nia|lia].
  - destruct (oseq (map (subst1 n s r) es)) as [ds| |] eqn:O; try discriminate E. inversion E; subst. cbn [nodes height].
    assert (G : list_sum (map nodes ds) <= list_sum (map nodes es) * nodes r /\
                list_max (map height ds) <= list_max (map height es) + height r).
    { clear E. revert ds O. induction es as [|e1 es IH]; intros ds O; simpl in O.
      - inversion O; simpl; lia.
      - destruct (subst1 n s r e1) as [d1| |] eqn:E1; [|destruct (oseq (map (subst1 n s r) es)); discriminate O|discriminate O].
        destruct (oseq (map (subst1 n s r) es)) as [ds'| |]; simpl in O; try discriminate O. inversion O; subst.
        destruct (Forall_inv IHes d1 E1) as [A1 A2]. destruct (IH (Forall_inv_tail IHes) ds' eq_refl) as [B1 B2].
        simpl. split; [nia|lia]. }
    split; [nia|lia].
Qed.

Lemma find_nodes : forall e ss rs r M, find_match n e ss rs = Ok (Some r) ->
  Forall (fun r => nodes r <= M) rs -> nodes r <= M.
Proof.
  intros e. induction ss as [|s ss IH]; intros rs r M F H; simpl in F; [discriminate|].
  destruct (deep_equal n e s) as [[|]| |]; try discriminate F.
  - destruct rs; [discriminate|]. inversion F; subst. apply (Forall_inv H).
  - cbn [bind] in F. apply (IH (tl rs) r M F). destruct rs; [constructor|]. apply (Forall_inv_tail H).
Qed.

Lemma substv_nodes : forall ss rs M (e e' : expr), 1 <= M -> Forall (fun r => nodes r <= M) rs ->
  substv n ss rs e = Ok e' -> nodes e' <= nodes e * M.
Proof.
  intros ss rs M e e' P H. revert e'.
  induction e as [c|i|i t|op a IH|lo hi w a _ _ IH|op l r IHl IHr|es IHes] using expr_ind'; intros e' E;
    cbn [substv] in E;
    match type of E with bind (find_match n ?t _ _) _ = _ => pose proof (unwrap_const_nodes n t) end;
    match type of E with bind ?q _ = _ => destruct q as [[r0|]| |] eqn:F; cbn [bind] in E; try discriminate E end;
    try (inversion E; subst; pose proof (find_nodes _ _ _ _ M F H); nia);
    try (inversion E; subst; cbn [nodes]; lia).
  - destruct (substv n ss rs a) as [a'| |]; try discriminate E. inversion E; subst. pose proof (IH a' eq_refl).
    cbn [nodes]. nia.
  - destruct (substv n ss rs a) as [a'| |]; try discriminate E. inversion E; subst. pose proof (IH a' eq_refl).
    cbn [nodes]. nia.
  - unfold mk2, both in E. destruct (substv n ss rs l) as [l1| |], (substv n ss rs r) as [r1| |]; try discriminate E.
    inversion E; subst. pose proof (IHl l1 eq_refl). pose proof (IHr r1 eq_refl). cbn [nodes]. nia.
  - destruct (oseq (map (substv n ss rs) es)) as [ds| |] eqn:O; try discriminate E. inversion E; subst. cbn [nodes].
    assert (G : list_sum (map nodes ds) <= list_sum (map nodes es) * M); [|nia].
    clear E F H0. revert ds O. induction es as [|e1 es IH]; intros ds O; simpl in O.
    + inversion O; simpl; lia.
    + destruct (substv n ss rs e1) as [d1| |] eqn:E1; [|destruct (oseq (map (substv n ss rs) es)); discriminate O|discriminate O].
      destruct (oseq (map (substv n ss rs) es)) as [ds'| |]; simpl in O; try discriminate O. inversion O; subst.
      pose proof (Forall_inv IHes d1 E1). pose proof (IH (Forall_inv_tail IHes) ds' eq_refl).
      simpl. nia.
Qed.

Lemma replace_occurrences : forall i r (e : expr),
  nodes (replace_vars (fun j => if N.eqb i j then Some r else None) e) + occurrences i e
  = nodes e + occurrences i e * nodes r.
Proof.
  intros i r. induction e as [c|j|j t|op a IH|lo hi w a _ _ IH|op l r' IHl IHr|es IHes] using expr_ind';
    cbn [replace_vars nodes occurrences]; try lia.
  - rewrite (N.eqb_sym j i). destruct (N.eqb i j); cbn [nodes]; lia.
  - rewrite map_map. induction IHes as [|e1 es H1 _ IH]; [simpl; lia|]. cbn [map list_sum fold_right] in *.
    unfold list_sum in *. cbn [fold_right] in *. lia.
Qed.

(** ** The derivative of a power written as a product *)

Hypothesis one_one : n_eq n (c1 n) (c1 n) = true.
Hypothesis one_zero : n_eq n (c1 n) (c0 n) = false.

(** The simplified derivative of [power_of_x k]. *)
Fixpoint sum_of_powers (k : nat) : expr :=
  match k with
  | O => EConst (c1 n)
  | S O => EBin BPlus (EVar 0) (EVar 0)
  | S k' => EBin BPlus (power_of_x k') (EBin BMult (EVar 0) (sum_of_powers k'))
  end.

Lemma power_not_constant : forall k, isc (power_of_x k) = false.
Proof. destruct k; reflexivity. Qed.

Lemma power_fixed : forall k, sstep n (power_of_x k) (power_of_x k).
Proof.
  induction k as [|k IH]; simpl; [constructor|]. apply ss_both; auto using ss_var, power_not_constant; discriminate.
Qed.

Lemma power_derivative : forall k, exists d, diff n (DVar 0) (power_of_x k) = Ok d /\
  sstep n d (sum_of_powers k) /\ isc d = match k with O => true | _ => false end.
Proof.
  induction k as [|k [d [E [S C]]]].
  - exists (EConst (c1 n)). repeat split. constructor.
  - cbn [power_of_x diff]. rewrite E. unfold both. simpl N.eqb. cbv iota. eexists. split; [reflexivity|].
    split; [|simpl; now rewrite power_not_constant].
    assert (L : sstep n (EBin BMult (EConst (c1 n)) (power_of_x k)) (power_of_x k)).
    { eapply ss_onel; eauto using power_not_constant, power_fixed; reflexivity. }
    destruct k as [|k].
    + simpl in E. inversion E; subst d. simpl. apply ss_both; auto using ss_var; try discriminate.
      eapply ss_oner; eauto using ss_var; reflexivity.
    + change (sum_of_powers (Datatypes.S (Datatypes.S k))) with
        (EBin BPlus (power_of_x (Datatypes.S k)) (EBin BMult (EVar 0) (sum_of_powers (Datatypes.S k)))).
      apply ss_both; auto; try discriminate.
      apply ss_both; auto using ss_var; discriminate.
Qed.

Lemma sum_not_constant : forall k, isc (sum_of_powers (S k)) = false.
Proof. destruct k; reflexivity. Qed.

Lemma sum_fixed : forall k, sstep n (sum_of_powers k) (sum_of_powers k).
Proof.
  induction k as [|k IH]; [constructor|]. destruct k as [|k].
  - simpl. apply ss_both; auto using ss_var; discriminate.
  - cbn [sum_of_powers]. apply ss_both; auto using power_fixed; try discriminate.
    apply ss_both; auto using ss_var, sum_not_constant; try discriminate. apply sum_not_constant.
Qed.

Lemma power_done : forall k, can_simplify n (power_of_x k) = Ok false.
Proof.
  induction k as [|k IH]; [reflexivity|]. cbn [power_of_x can_simplify is_constant andb].
  unfold const_eq. rewrite power_not_constant. cbn [is_constant oor bind]. exact IH.
Qed.

Lemma sum_done : forall k, can_simplify n (sum_of_powers k) = Ok false.
Proof.
  induction k as [|k IH]; [reflexivity|]. destruct k as [|k]; [reflexivity|].
  change (sum_of_powers (S (S k))) with (EBin BPlus (power_of_x (S k)) (EBin BMult (EVar 0) (sum_of_powers (S k)))).
  cbn [can_simplify is_constant]. unfold const_eq. cbn [is_constant]. rewrite power_not_constant, sum_not_constant.
  cbn [andb oor bind]. rewrite power_done, IH. reflexivity.
Qed.

Lemma power_top : forall k, diff_top n (DVar 0) (power_of_x (S k)) = Ok (sum_of_powers (S k)).
Proof.
  intros k. destruct (power_derivative (S k)) as [d [E [S C]]]. unfold diff_top. rewrite E. cbn [bind].
  rewrite (top_step n d (sum_of_powers (Datatypes.S k))); [apply top_done, sum_done| |now apply sstep_simplify].
  cbn [power_of_x diff] in E. simpl N.eqb in E. cbv iota in E. unfold both in E.
  destruct (diff n (DVar 0) (power_of_x k)) as [d0| |]; try discriminate E. injection E as <-.
  cbn [can_simplify is_constant]. unfold const_eq. cbn [is_constant unwrap]. rewrite power_not_constant.
  cbn [andb oor bind omap]. rewrite one_zero, one_one. reflexivity.
Qed.

Lemma power_nodes : forall k, nodes (power_of_x k : expr) = 2 * k + 1.
Proof. induction k as [|k IH]; simpl; [reflexivity|]. lia. Qed.

Lemma sum_nodes : forall k, nodes (sum_of_powers (S k)) = k * k + 5 * k + 3.
Proof.
  induction k as [|k IH]; [reflexivity|].
  change (sum_of_powers (S (S k))) with (EBin BPlus (power_of_x (S k)) (EBin BMult (EVar 0) (sum_of_powers (S k)))).
  cbn [nodes]. rewrite IH, power_nodes. lia.
Qed.
End Grow.
