(** Facts about quadrature and vector arithmetic (proofs only). *)
From Coq Require Import ZArith NArith Reals List Bool Lia Lra.
From Coquelicot Require Import Coquelicot.
From Verif Require Import Outcome Num RtModel RtSpec RtFacts RtStep RtTermination RtValue RtEval
  RtSubst NumR NumRFacts QuadModel QuadSpec.
Import ListNotations.
Local Open Scope R_scope.

Section Generic.
Context (n : num).

Lemma const_only_constant : forall e : expr n, const_only e -> is_constant n e = true.
Proof.
  induction e as [c|i|i t|op a IH|lo hi w a _ _ IH|op l r IHl IHr|es _] using expr_ind'; intros H;
    try (exfalso; exact (H _ (sub_refl _))).
  - reflexivity.
  - simpl. rewrite IHl, IHr; [reflexivity| |]; intros s S; apply H; [apply sub_r|apply sub_l]; exact S.
Qed.

Lemma constant_const_only : forall v (e : expr n) x, is_constant n e = true ->
  eval n e v = Ok x -> const_only e.
Proof.
  intros v; induction e as [c|i|i t|op a IH|lo hi w a _ _ IH|op l r IHl IHr|es _] using expr_ind';
    intros x C E; try discriminate.
  - intros s S. inversion S; subst. exact I.
  - simpl in C. apply andb_true_iff in C as [Cl Cr].
    cbn [eval] in E. apply both_ok in E as [p [q [El [Er E]]]].
    intros s S. inversion S; subst.
    + intros ->. discriminate.
    + exact (IHl _ Cl El s ltac:(assumption)).
    + exact (IHr _ Cr Er s ltac:(assumption)).
Qed.

Lemma const_only_evaluable : forall e : expr n, const_only e -> forall k, evaluable k e.
Proof.
  intros e H k s S. specialize (H s S). destruct s; simpl in *; auto; contradiction.
Qed.

Lemma const_only_eval : forall e : expr n, const_only e -> exists x, forall v, eval n e v = Ok x.
Proof.
  intros e H.
  destruct (evaluable_eval_ok n [] e (const_only_evaluable e H _)) as [x E].
  exists x. intros v. exact (unwrap_eval n e x (eval_nil_unwrap n e x E) v).
Qed.

Lemma const_only_sub : forall op (l r : expr n), const_only (EBin op l r) ->
  const_only l /\ const_only r.
Proof. intros op l r H. split; intros s S; apply H; [apply sub_l|apply sub_r]; exact S. Qed.

Lemma zip_length : forall op (a b : list (expr n)), length a = length b ->
  length (zip_bin n op a b) = length a.
Proof. induction a; destruct b; simpl; intros; auto; discriminate || (f_equal; apply IHa; lia). Qed.

Lemma zip_nth : forall op (a b : list (expr n)) i x y,
  nth_error a i = Some x -> nth_error b i = Some y ->
  nth_error (zip_bin n op a b) i = Some (EBin op x y).
Proof.
  induction a as [|p a IH]; intros [|q b] [|i] x y A B; simpl in *; try discriminate.
  - inversion A; inversion B; subst; reflexivity.
  - exact (IH b i x y A B).
Qed.

Lemma oseq_nth : forall {A B : Type} (f : A -> outcome B) l l', oseq (map f l) = Ok l' ->
  length l' = length l /\
  forall i x, nth_error l i = Some x -> exists y, nth_error l' i = Some y /\ f x = Ok y.
Proof.
  induction l as [|a l IH]; intros l' H; simpl in H.
  - inversion H; subst. split; [reflexivity|]. intros [|i] x K; discriminate.
  - apply bind_ok in H as [b [Eb H]]. apply omap_ok in H as [bs [Ebs ->]].
    destruct (IH _ Ebs) as [L K]. split; [simpl; congruence|].
    intros [|i] x N; simpl in *; [inversion N; subst; eauto|exact (K i x N)].
Qed.

Lemma oseq_all : forall {A B : Type} (f : A -> outcome B) l,
  (forall x, In x l -> exists y, f x = Ok y) -> exists l', oseq (map f l) = Ok l'.
Proof.
  induction l as [|a l IH]; intros H; simpl; [eauto|].
  destruct (H a (or_introl eq_refl)) as [y E]. rewrite E.
  destruct (IH (fun x Hx => H x (or_intror Hx))) as [l' ->]. simpl. unfold omap. simpl. eauto.
Qed.

Definition rest_of (rule : quad_rule n) op (l r : expr n) : outcome n :=
  match op with
  | BPlus => both (quadrature n rule l) (quadrature n rule r) (fun x y => Ok (n_add n x y))
  | BMinus => both (quadrature n rule l) (quadrature n rule r) (fun x y => Ok (n_sub n x y))
  | _ => Throw IntegrationWithoutIntegral
  end.

Lemma quad_bin : forall rule op (l r : expr n),
  quadrature n rule (EBin op l r) =
  if is_constant n (EBin op l r) then bind (eval n (EBin op l r) [c0 n]) (fun x =>
    if n_le n x (c0 n) && n_ge n x (c0 n) then Ok (c0 n) else rest_of rule op l r)
  else rest_of rule op l r.
Proof.
  intros rule op l r. rewrite <- eval_scalar_vector. unfold rest_of.
  destruct op; cbn [quadrature]; reflexivity.
Qed.

Lemma constant_shape : forall s e : expr n, subterm s e -> is_constant n e = true ->
  is_constant n s = true.
Proof.
  intros s e S; induction S; simpl; auto; try discriminate; intros C;
    apply andb_true_iff in C as [? ?]; auto.
Qed.

(** The outcomes of quadrature when the rule itself works. *)
Lemma quad_outcome : forall rule (e : expr n),
  (forall lo hi var a, exists x, rule lo hi var a = Ok x) ->
  (forall i a, ~ subterm (EUn (USymInt i) a) e) ->
  (forall l r, ~ subterm (EBin BUnaryId l r) e) ->
  (exists x, quadrature n rule e = Ok x) \/ quadrature n rule e = Throw IntegrationWithoutIntegral.
Proof.
  intros rule; induction e as [c|i|i t|op a IH|lo hi w a _ _ IH|op l r IHl IHr|es _] using expr_ind';
    intros R S M.
  - simpl. destruct (_ && _); eauto.
  - simpl; eauto.
  - simpl; eauto.
  - destruct op; simpl; eauto. exfalso. exact (S _ _ (sub_refl _)).
  - left. exact (R lo hi w a).
  - assert (P : (exists x, rest_of rule op l r = Ok x) \/
                rest_of rule op l r = Throw IntegrationWithoutIntegral).
    { destruct (IHl R (fun i a H => S i a (sub_l _ _ _ _ H)) (fun i a H => M i a (sub_l _ _ _ _ H)))
        as [[x Ex]|Ex];
      destruct (IHr R (fun i a H => S i a (sub_r _ _ _ _ H)) (fun i a H => M i a (sub_r _ _ _ _ H)))
        as [[y Ey]|Ey];
      unfold rest_of; destruct op; try rewrite Ex, Ey; simpl; eauto. }
    rewrite quad_bin. destruct (is_constant n (EBin op l r)) eqn:C; [|exact P].
    destruct (evaluable_eval_ok n [c0 n] (EBin op l r)) as [x Q].
    + intros s Hs. pose proof (constant_shape _ _ Hs C) as K.
      destruct s as [|j|j t|o' a'|lo hi w a'|o' l' r'|es]; try discriminate; simpl; auto.
      intros ->. exact (M _ _ Hs).
    + rewrite Q. simpl. destruct (_ && _); eauto.
  - simpl; eauto.
Qed.

Lemma quad_ub : forall rule (e : expr n),
  quadrature n rule e = UB ->
  (exists i a, subterm (EUn (USymInt i) a) e) \/
  (exists lo hi var a, subterm (EInt lo hi var a) e /\ rule lo hi var a = UB).
Proof.
  intros rule; induction e as [c|i|i t|op a IH|lo hi w a _ _ IH|op l r IHl IHr|es _] using expr_ind';
    intros E.
  - simpl in E. destruct (_ && _) in E; discriminate.
  - discriminate.
  - discriminate.
  - destruct op; try discriminate. left. exists id, a. apply sub_refl.
  - right. exists lo, hi, w, a. split; [apply sub_refl|exact E].
  - assert (K : quadrature n rule l = UB \/ quadrature n rule r = UB).
    { assert (B : rest_of rule op l r = UB -> quadrature n rule l = UB \/ quadrature n rule r = UB).
      { intros H. unfold rest_of in H.
        destruct op; try discriminate; destruct (quadrature n rule l), (quadrature n rule r);
          simpl in H; auto; discriminate. }
      rewrite quad_bin in E. destruct (is_constant n (EBin op l r)); [|auto].
      destruct (eval n (EBin op l r) [c0 n]) as [x|x|] eqn:Q; simpl in E.
      - destruct (_ && _) in E; [discriminate|auto].
      - discriminate.
      - exfalso. exact (eval_not_UB _ _ _ Q). }
    destruct K as [K|K]; [destruct (IHl K) as [[i [a S]]|[lo [hi [v [a [S Q]]]]]]
                         |destruct (IHr K) as [[i [a S]]|[lo [hi [v [a [S Q]]]]]]].
    + left. exists i, a. apply sub_l; exact S.
    + right. exists lo, hi, v, a. split; [apply sub_l; exact S|exact Q].
    + left. exists i, a. apply sub_r; exact S.
    + right. exists lo, hi, v, a. split; [apply sub_r; exact S|exact Q].
  - discriminate.
Qed.
End Generic.

(** Over the reals. *)
Lemma zero_test : forall x : option R,
  (n_le numR x (c0 numR) && n_ge numR x (c0 numR) = true) <-> x = Some 0.
Proof.
  intros [x|]; simpl; split; intros H; try discriminate.
  - apply andb_true_iff in H as [A B]. apply r_leb_true in A, B. f_equal. lra.
  - inversion H; subst. rewrite r_leb_refl. reflexivity.
Qed.

Lemma const_zero_quad : forall rule e, const_only e -> eval numR e [] = Ok (Some 0) ->
  quadrature numR rule e = Ok (Some 0).
Proof.
  intros rule e C E. pose proof (const_only_constant numR e C) as K.
  assert (F : forall v, eval numR e v = Ok (Some 0)).
  { intros v. exact (unwrap_eval numR e _ (eval_nil_unwrap numR e _ E) v). }
  destruct e as [c|i|i t|op a|lo hi w a|op l r|es]; try discriminate.
  - inversion E; subst. simpl. rewrite r_leb_refl. reflexivity.
  - rewrite quad_bin, K, (F [c0 numR]). simpl. rewrite r_leb_refl. reflexivity.
Qed.

Lemma quad_constant_inv : forall rule e x, const_only e -> quadrature numR rule e = Ok (Some x) ->
  x = 0 /\ eval numR e [] = Ok (Some 0).
Proof.
  intros rule; induction e as [c|i|i t|op a IH|lo hi w a _ _ IH|op l r IHl IHr|es _] using expr_ind';
    intros x C E; pose proof (const_only_constant numR _ C) as K; try discriminate.
  - cbn [quadrature is_constant eval_scalar bind] in E.
    destruct (n_le numR c (c0 numR) && n_ge numR c (c0 numR)) eqn:Z; [|discriminate].
    apply zero_test in Z. subst. inversion E; auto.
  - destruct (const_only_eval numR _ C) as [z Ez].
    rewrite quad_bin, K, (Ez [c0 numR]) in E. cbn [bind] in E.
    destruct (n_le numR z (c0 numR) && n_ge numR z (c0 numR)) eqn:Z.
    + apply zero_test in Z. subst. inversion E. split; [reflexivity|exact (Ez [])].
    + exfalso. destruct (const_only_sub numR _ _ _ C) as [Cl Cr].
      destruct op; try discriminate; unfold rest_of in E;
        apply both_ok in E as [p [q [El [Er E]]]]; destruct p as [p|], q as [q|]; try discriminate;
        destruct (IHl _ Cl El) as [-> Fl], (IHr _ Cr Er) as [-> Fr];
        specialize (Ez []); cbn [eval] in Ez; rewrite Fl, Fr in Ez; simpl in Ez; inversion Ez; subst;
        simpl in Z.
      * replace (0 + 0) with 0 in Z by lra. rewrite r_leb_refl in Z. discriminate.
      * replace (0 - 0) with 0 in Z by lra. rewrite r_leb_refl in Z. discriminate.
Qed.

Lemma quad_sum : forall rule e x, integral_sum rule e x <-> quadrature numR rule e = Ok (Some x).
Proof.
  intros rule e x; split.
  - intros H; induction H as [lo hi var a x E|e C E|l r x y _ IHl _ IHr|l r x y _ IHl _ IHr].
    + exact E.
    + exact (const_zero_quad rule e C E).
    + rewrite quad_bin. unfold rest_of. rewrite IHl, IHr. cbn [both].
      destruct (is_constant numR (EBin BPlus l r)) eqn:K; [|reflexivity].
      simpl in K. apply andb_true_iff in K as [Kl Kr].
      destruct (eval numR (EBin BPlus l r) [c0 numR]) as [z|z|] eqn:Ez.
      * pose proof (constant_const_only numR [c0 numR] (EBin BPlus l r) z
          ltac:(simpl; rewrite Kl, Kr; reflexivity) Ez) as C.
        destruct (const_only_sub numR _ _ _ C) as [Cl Cr].
        destruct (quad_constant_inv rule l x Cl IHl) as [-> _].
        destruct (quad_constant_inv rule r y Cr IHr) as [-> _].
        cbn [bind]. destruct (_ && _); unfold c0; simpl; try reflexivity. do 2 f_equal. lra.
      * exfalso. revert Ez. clear - Kl Kr IHl IHr.
        assert (T : forall e x, is_constant numR e = true -> quadrature numR rule e = Ok x ->
          exists y, eval numR e [c0 numR] = Ok y).
        { intros e w K Q. destruct e; try discriminate.
          - simpl. eauto.
          - rewrite quad_bin, K in Q. apply bind_ok in Q as [q [Q _]]. eauto. }
        destruct (T _ _ Kl IHl) as [p Ep], (T _ _ Kr IHr) as [q Eq]. cbn [eval]. rewrite Ep, Eq.
        discriminate.
      * exfalso. exact (eval_not_UB _ _ _ Ez).
    + rewrite quad_bin. unfold rest_of. rewrite IHl, IHr. cbn [both].
      destruct (is_constant numR (EBin BMinus l r)) eqn:K; [|reflexivity].
      simpl in K. apply andb_true_iff in K as [Kl Kr].
      destruct (eval numR (EBin BMinus l r) [c0 numR]) as [z|z|] eqn:Ez.
      * pose proof (constant_const_only numR [c0 numR] (EBin BMinus l r) z
          ltac:(simpl; rewrite Kl, Kr; reflexivity) Ez) as C.
        destruct (const_only_sub numR _ _ _ C) as [Cl Cr].
        destruct (quad_constant_inv rule l x Cl IHl) as [-> _].
        destruct (quad_constant_inv rule r y Cr IHr) as [-> _].
        cbn [bind]. destruct (_ && _); unfold c0; simpl; try reflexivity. do 2 f_equal. lra.
      * exfalso. revert Ez. clear - Kl Kr IHl IHr.
        assert (T : forall e x, is_constant numR e = true -> quadrature numR rule e = Ok x ->
          exists y, eval numR e [c0 numR] = Ok y).
        { intros e w K Q. destruct e; try discriminate.
          - simpl. eauto.
          - rewrite quad_bin, K in Q. apply bind_ok in Q as [q [Q _]]. eauto. }
        destruct (T _ _ Kl IHl) as [p Ep], (T _ _ Kr IHr) as [q Eq]. cbn [eval]. rewrite Ep, Eq.
        discriminate.
      * exfalso. exact (eval_not_UB _ _ _ Ez).
  - revert x. induction e as [c|i|i t|op a IH|lo hi w a _ _ IH|op l r IHl IHr|es _] using expr_ind';
      intros x E.
    + assert (C : const_only (EConst c : expr numR)) by (intros s S; inversion S; exact I).
      destruct (quad_constant_inv rule _ x C E) as [-> F]. apply is_zero; assumption.
    + discriminate.
    + discriminate.
    + destruct op; discriminate.
    + apply is_int. exact E.
    + rewrite quad_bin in E.
      assert (P : rest_of numR rule op l r = Ok (Some x) -> integral_sum rule (EBin op l r) x).
      { unfold rest_of. intros Q. destruct op; try discriminate;
          apply both_ok in Q as [p [q [El [Er Q]]]]; destruct p as [p|], q as [q|]; try discriminate;
          simpl in Q; inversion Q; subst.
        - apply is_plus; auto.
        - apply is_minus; auto. }
      destruct (is_constant numR (EBin op l r)) eqn:K; [|auto].
      apply bind_ok in E as [z [Ez E]].
      destruct (n_le numR z (c0 numR) && n_ge numR z (c0 numR)) eqn:Z; [|auto].
      apply zero_test in Z. subst z. inversion E.
      pose proof (constant_const_only numR _ _ _ K Ez) as C.
      apply is_zero; [exact C|]. destruct (const_only_eval numR _ C) as [y Ey].
      rewrite Ey. rewrite Ey in Ez. exact Ez.
    + discriminate.
Qed.


Lemma gauss_value : forall lo hi var body v A B y,
  const_only lo -> const_only hi -> eval numR lo [] = Ok (Some A) -> eval numR hi [] = Ok (Some B) ->
  (forall i, occurs_var i body -> i = var) -> (var < N.of_nat (length v))%N ->
  eval numR body (update v (N.to_nat var) (Some ((A + B) / 2))) = Ok (Some y) ->
  gauss_quad_1 numR lo hi var body = Ok (Some (y * (B - A))).
Proof.
  intros lo hi var body v A B y Cl Ch El Eh O L E. unfold gauss_quad_1.
  rewrite (const_only_constant numR lo Cl), (const_only_constant numR hi Ch). cbn [andb].
  assert (Fl : forall w, eval numR lo w = Ok (Some A)).
  { intros w. exact (unwrap_eval numR lo _ (eval_nil_unwrap numR lo _ El) w). }
  assert (Fh : forall w, eval numR hi w = Ok (Some B)).
  { intros w. exact (unwrap_eval numR hi _ (eval_nil_unwrap numR hi _ Eh) w). }
  rewrite !eval_scalar_vector, (Fl [c0 numR]), (Fh [c0 numR]). cbn [both].
  replace (n_div numR (n_add numR (Some A) (Some B)) (c2 numR)) with (Some ((A + B) / 2)).
  2:{ unfold c2; simpl. assert (Z : r_eqb 2 0 = false) by (apply r_eqb_false; lra). rewrite Z. reflexivity. }
  unfold subst1_top. rewrite subst1_var. cbn [bind].
  set (m := (A + B) / 2) in *.
  set (e1 := replace_vars _ body).
  assert (E1 : eval numR e1 [] = Ok (Some y)).
  { unfold e1. apply (eval_replace numR _ [] (update v (N.to_nat var) (Some m))).
    - intros i z Hi. rewrite (O i Hi), N.eqb_refl. cbn [eval].
      assert (Lv : (N.to_nat var < length v)%nat) by (clear - L; lia).
      pose proof (update_same v (N.to_nat var) (Some m) Lv) as U.
      split; intros Q; [inversion Q; subst; exact U|]. f_equal. pose proof (eq_trans (eq_sym U) Q) as W. inversion W. reflexivity.
    - exact E. }
  destruct (simplify_real [] e1 y E1) as [tmp [T1 T2]]. rewrite T1. cbn [bind].
  rewrite (eval_nil_unwrap numR tmp _ T2). cbn [both].
  unfold mk_bin. cbn [eval]. rewrite (Fh [c0 numR]), (Fl [c0 numR]). reflexivity.
Qed.

Lemma affine_integral : forall a b A B,
  is_RInt (fun t => a * t + b) A B ((a * ((A + B) / 2) + b) * (B - A)).
Proof.
  intros a b A B.
  assert (H : is_RInt (fun t => a * t + b) A B
    (minus ((fun t => a * (t * t) / 2 + b * t) B) ((fun t => a * (t * t) / 2 + b * t) A))).
  { apply (is_RInt_derive (fun t => a * (t * t) / 2 + b * t) (fun t => a * t + b)).
    - intros t _. auto_derive; auto. field.
    - intros t _. apply (ex_derive_continuous (fun t : R => a * t + b)). auto_derive; auto. }
  replace ((a * ((A + B) / 2) + b) * (B - A)) with
    (minus ((fun t => a * (t * t) / 2 + b * t) B) ((fun t => a * (t * t) / 2 + b * t) A)); [exact H|].
  unfold minus, plus, opp; simpl. field.
Qed.

Lemma dot_acc_value : forall a b acc v xs ys z,
  Forall2 (fun e x => eval numR e v = Ok (Some x)) a xs ->
  Forall2 (fun e x => eval numR e v = Ok (Some x)) b ys ->
  length a = length b -> eval numR acc v = Ok (Some z) ->
  exists e, dot_acc numR acc a b = Ok e /\ eval numR e v = Ok (Some (z + sum_products xs ys)).
Proof.
  induction a as [|p a IH]; intros [|q b] acc v xs ys z Ha Hb L E; try discriminate.
  - inversion Ha; inversion Hb; subst. simpl. exists acc. split; [reflexivity|]. rewrite E. do 2 f_equal. lra.
  - inversion Ha as [|? x ? xs' Ex Hx]; inversion Hb as [|? y ? ys' Ey Hy]; subst. cbn [dot_acc].
    destruct (IH b (mk_bin numR BPlus acc (mk_bin numR BMult p q)) v xs' ys' (z + x * y) Hx Hy)
      as [e [D F]].
    + injection L as L; exact L.
    + unfold mk_bin. cbn [eval]. rewrite E, Ex, Ey. reflexivity.
    + exists e. split; [exact D|]. rewrite F. cbn [sum_products]. do 2 f_equal. lra.
Qed.

Lemma dot_value : forall a b v xs ys,
  Forall2 (fun e x => eval numR e v = Ok (Some x)) a xs ->
  Forall2 (fun e x => eval numR e v = Ok (Some x)) b ys ->
  length a = length b -> a <> [] ->
  exists e, dot numR a b = Ok e /\ eval numR e v = Ok (Some (sum_products xs ys)).
Proof.
  intros [|p a] [|q b] v xs ys Ha Hb L N; try discriminate; [contradiction|].
  inversion Ha as [|? x ? xs' Ex Hx]; inversion Hb as [|? y ? ys' Ey Hy]; subst.
  unfold dot. rewrite L, Nat.eqb_refl.
  apply (dot_acc_value a b (mk_bin numR BMult p q) v xs' ys' (x * y) Hx Hy).
  - injection L as L; exact L.
  - unfold mk_bin. cbn [eval]. rewrite Ex, Ey. reflexivity.
Qed.

Lemma vec_product_simplifies : forall a b v xs ys,
  Forall2 (fun e x => eval numR e v = Ok (Some x)) a xs ->
  Forall2 (fun e x => eval numR e v = Ok (Some x)) b ys ->
  length a = length b -> a <> [] ->
  exists e, simplify_top numR (EBin BMult (EVec a) (EVec b)) = Ok e /\
            eval numR e v = Ok (Some (sum_products xs ys)).
Proof.
  intros a b v xs ys Ha Hb L N. destruct (dot_value a b v xs ys Ha Hb L N) as [e [D E]].
  destruct (simplify_real v e _ E) as [e' [S F]]. exists e'. split; [|exact F].
  rewrite <- S. apply top_step; simpl; [reflexivity|exact D].
Qed.
