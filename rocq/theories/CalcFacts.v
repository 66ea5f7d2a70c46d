(** Repeated derivatives, the chain rule and the error of the one-point Gauss rule (proofs only). *)
From Coq Require Import ZArith NArith Reals List Bool Lia Lra Psatz.
From Coquelicot Require Import Coquelicot.
From Verif Require Import Outcome Num RtModel RtSpec RtFacts RtStep RtTermination RtValue RtEval RtSubst
  NumR NumRFacts RealSpec RtDiff RtDiff2.
Import ListNotations.
Local Open Scope R_scope.

Local Notation at_ v i t := (update v (N.to_nat i) (Some t)).

(** diff() at all points of a set on which the expression is regular. *)
Lemma diff_on : forall (P : R -> Prop) e v i t0, P t0 -> (N.to_nat i < length v)%nat ->
  (forall t, P t -> reg (at_ v i t) e) ->
  exists d, diff_top numR (DVar i) e = Ok d /\
    forall t, P t -> reg (at_ v i t) d /\
      is_derive (fun s => rv (at_ v i s) e) t (rv (at_ v i t) d).
Proof.
  intros P e v i t0 P0 L H. unfold diff_top.
  rewrite (diff_pdiff i _ e (H _ P0)). simpl.
  destruct (simplify_reg _ _ (reg_pdiff i _ e (H _ P0))) as [d [E _]]. exists d. split; auto.
  intros t Pt. destruct (simplify_reg _ _ (reg_pdiff i _ e (H _ Pt))) as [d' [E' [R' V]]].
  rewrite E in E'. inversion E'; subst d'. split; auto. rewrite V.
  destruct (diff_main i (at_ v i t) t e) as [_ D].
  - apply update_same. auto.
  - auto.
  - eapply is_derive_ext; [|exact D]. intros s. simpl. f_equal.
    clear. generalize (N.to_nat i). induction v as [|y v IH]; intros [|k]; simpl; auto. f_equal; auto.
Qed.

Lemma times_on : forall (a b : R) e v i, a < b -> (N.to_nat i < length v)%nat ->
  (forall t, a < t < b -> reg (at_ v i t) e) ->
  forall k, exists d, diff_times i k e = Ok d /\
    forall t, a < t < b -> reg (at_ v i t) d /\
      is_derive_n (fun s => rv (at_ v i s) e) k t (rv (at_ v i t) d).
Proof.
  intros a b e v i Lt L H. induction k as [|k [d [E D]]].
  - exists e. split; auto. intros t T. split; auto. reflexivity.
  - destruct (diff_on (fun t => a < t < b) d v i ((a + b) / 2)) as [d' [E' D']]; auto.
    + lra.
    + intros t T. apply D; auto.
    + exists d'. split; [simpl; rewrite E; exact E'|]. intros t T. destruct (D' t T) as [R' Q]. split; auto.
      simpl. eapply is_derive_ext_loc; [|exact Q].
      assert (P : 0 < Rmin (t - a) (b - t)) by (apply Rmin_glb_lt; lra).
      exists (mkposreal _ P). intros y Y. change (Rabs (y - t) < Rmin (t - a) (b - t)) in Y.
      assert (a < y < b).
      { pose proof (Rmin_l (t - a) (b - t)). pose proof (Rmin_r (t - a) (b - t)).
        apply Rabs_def2 in Y. lra. }
      symmetry. destruct (D y H0) as [_ K]. apply is_derive_n_unique. exact K.
Qed.

(** Chain rule. *)
Section Chain.
Context (v : list (option R)) (i : N) (r : expr numR).
Hypothesis Li : (N.to_nat i < length v)%nat.
Hypothesis Rr : reg v r.
Let w := at_ v i (rv v r).
Let sub := replace_vars (fun j => if N.eqb i j then Some r else None).

Lemma sub_rv : forall e, rv v (sub e) = rv w e.
Proof.
  induction e as [c|j|j t|op a IH|lo hi u a _ _ IH|op l q IHl IHr|es _] using expr_ind';
    unfold sub; cbn [replace_vars]; simpl; auto.
  - unfold w. destruct (N.eqb_spec i j).
    + subst j. rewrite update_same by auto. reflexivity.
    + simpl. rewrite update_other by lia. reflexivity.
  - f_equal. exact IH.
  - f_equal; [exact IHl|exact IHr].
Qed.

Lemma sub_reg : forall e, reg w e -> reg v (sub e).
Proof.
  induction e as [c|j|j t|op a IH|lo hi u a _ _ IH|op l q IHl IHr|es _] using expr_ind';
    try (simpl; auto; fail).
  - unfold w, sub; simpl. destruct (N.eqb_spec i j).
    + auto.
    + simpl. rewrite update_other by lia. auto.
  - intros [A D]. split; [exact (IH A)|]. change (udom op (rv v (sub a))). rewrite sub_rv. exact D.
  - intros [[A B] D]. split; [exact (conj (IHl A) (IHr B))|].
    change (bdom op (rv v (sub l)) (rv v (sub q))). rewrite !sub_rv. exact D.
Qed.

Lemma sub_pdiff : forall j e, reg w e ->
  rv v (pdiff j (sub e)) =
  (if N.eqb i j then 0 else rv w (pdiff j e)) + rv w (pdiff i e) * rv v (pdiff j r).
Proof.
  intros j. pose proof ln10_nz.
  induction e as [c|k|k t|op a IH|lo hi u a _ _ IH|op l q IHl IHr|es _] using expr_ind';
    simpl reg; try contradiction.
  - intros _. simpl. destruct (N.eqb i j); ring.
  - intros _. unfold sub. cbn [replace_vars]. destruct (N.eqb_spec i k).
    + subst k. simpl. rewrite N.eqb_refl. destruct (N.eqb_spec i j); simpl.
      * ring.
      * destruct (N.eqb_spec j i); [congruence|]. simpl. ring.
    + simpl. destruct (N.eqb_spec i k); [contradiction|]. destruct (N.eqb_spec i j).
      * subst j. destruct (N.eqb_spec i k); [contradiction|]. simpl. ring.
      * destruct (N.eqb j k); simpl; ring.
  - intros [Ra D]. specialize (IH Ra). pose proof (sub_rv a) as V.
    destruct op; simpl in *; try contradiction; fold sub; auto; rewrite ?IH, ?V;
      destruct (N.eqb i j); try ring.
    + field; auto.
    + field; auto.
    + assert (0 < sqrt (rv w a)) by (apply sqrt_lt_R0; auto). field. lra.
    + assert (0 < sqrt (rv w a)) by (apply sqrt_lt_R0; auto). field. lra.
    + field. lra.
    + field. lra.
    + field. split; [lra|auto].
    + field. split; [lra|auto].
  - intros [[Rl Rq] D]. specialize (IHl Rl). specialize (IHr Rq).
    pose proof (sub_rv l) as Vl. pose proof (sub_rv q) as Vq.
    destruct op; simpl in *; try contradiction; fold sub; rewrite ?IHl, ?IHr, ?Vl, ?Vq;
      destruct (N.eqb i j); try ring; field; auto.
Qed.
End Chain.

(** The error of the midpoint rule. *)
Lemma taylor1 : forall (f f1 f2 : R -> R) A B m M,
  (forall t, A <= t <= B -> is_derive f t (f1 t)) ->
  (forall t, A <= t <= B -> is_derive f1 t (f2 t)) ->
  (forall t, A <= t <= B -> Rabs (f2 t) <= M) -> A <= m <= B ->
  forall t, A <= t <= B -> Rabs (f t - f m - f1 m * (t - m)) <= M * (t - m)^2 / 2.
Proof.
  intros f f1 f2 A B m M D1 D2 Bd Hm.
  assert (Q1 : forall s, A <= s <= B -> Rabs (f1 s - f1 m) <= M * Rabs (s - m)).
  { intros s Hs. destruct (MVT_gen f1 m s f2) as [c [Hc E]].
    - intros x Hx. apply D2. unfold Rmin, Rmax in Hx. destruct (Rle_dec m s); lra.
    - intros x Hx. apply continuity_pt_filterlim. apply (derive_cont f1 x (f2 x)). apply D2.
      unfold Rmin, Rmax in Hx. destruct (Rle_dec m s); lra.
    - rewrite E, Rabs_mult. apply Rmult_le_compat_r; [apply Rabs_pos|]. apply Bd.
      unfold Rmin, Rmax in Hc. destruct (Rle_dec m s); lra. }
  assert (Q2 : forall sg, (sg = 1 \/ sg = -1) -> forall t, A <= t <= B ->
     0 <= M * (t - m)^2 / 2 + sg * (f t - f m - f1 m * (t - m))).
  { intros sg Sg t Ht.
    set (phi := fun t => M * (t - m)^2 / 2 + sg * (f t - f m - f1 m * (t - m))).
    assert (Dphi : forall x, A <= x <= B -> is_derive phi x (M * (x - m) + sg * (f1 x - f1 m))).
    { intros x Hx. unfold phi. specialize (D1 x Hx).
      replace (M * (x - m) + sg * (f1 x - f1 m)) with
        (plus (M * (x - m)) (sg * (minus (minus (f1 x) 0) (f1 m))))
        by (unfold plus, minus, plus, opp; simpl; ring).
      apply (is_derive_plus (fun t => M * (t - m) ^ 2 / 2) (fun t => sg * (f t - f m - f1 m * (t - m)))).
      - auto_derive; auto. field.
      - apply (is_derive_scal (fun t => f t - f m - f1 m * (t - m))).
        apply (is_derive_minus (fun t => f t - f m) (fun t => f1 m * (t - m))).
        + apply (is_derive_minus f (fun _ => f m)); auto. apply (is_derive_const (f m)).
        + auto_derive; auto. ring. }
    destruct (MVT_gen phi m t (fun x => M * (x - m) + sg * (f1 x - f1 m))) as [c [Hc E]].
    - intros x Hx. apply Dphi. unfold Rmin, Rmax in Hx. destruct (Rle_dec m t); lra.
    - intros x Hx. apply continuity_pt_filterlim. eapply derive_cont. apply Dphi.
      unfold Rmin, Rmax in Hx. destruct (Rle_dec m t); lra.
    - assert (P0 : phi m = 0) by (unfold phi; field). rewrite P0 in E. fold (phi t).
      replace (phi t) with ((M * (c - m) + sg * (f1 c - f1 m)) * (t - m)) by lra.
      assert (Hc' : A <= c <= B) by (unfold Rmin, Rmax in Hc; destruct (Rle_dec m t); lra).
      specialize (Q1 c Hc').
      unfold Rmin, Rmax in Hc. destruct (Rle_dec m t).
      + rewrite (Rabs_pos_eq (c - m)) in Q1 by lra. apply Rabs_le_between in Q1.
        apply Rmult_le_pos; [|lra]. destruct Sg; subst sg; lra.
      + rewrite (Rabs_left1 (c - m)) in Q1 by lra. apply Rabs_le_between in Q1.
        replace ((M * (c - m) + sg * (f1 c - f1 m)) * (t - m))
          with ((- (M * (c - m) + sg * (f1 c - f1 m))) * (m - t)) by ring.
        apply Rmult_le_pos; [|lra]. destruct Sg; subst sg; lra. }
  intros t Ht. pose proof (Q2 1 (or_introl eq_refl) t Ht). pose proof (Q2 (-1) (or_intror eq_refl) t Ht).
  apply Rabs_le. lra.
Qed.

Lemma midpoint_error : forall (f f1 f2 : R -> R) A B M, A <= B ->
  (forall t, A <= t <= B -> is_derive f t (f1 t)) ->
  (forall t, A <= t <= B -> is_derive f1 t (f2 t)) ->
  (forall t, A <= t <= B -> Rabs (f2 t) <= M) ->
  exists I, is_RInt f A B I /\ Rabs (f ((A + B) / 2) * (B - A) - I) <= M * (B - A)^3 / 24.
Proof.
  intros f f1 f2 A B M Le D1 D2 Bd. set (m := (A + B) / 2).
  assert (Ex : ex_RInt f A B).
  { apply (ex_RInt_continuous (V := R_CompleteNormedModule)). intros z Hz.
    eapply derive_cont. apply D1. rewrite Rmin_left, Rmax_right in Hz by auto. auto. }
  destruct Ex as [I HI]. exists I. split; auto.
  set (p := fun t => f m + f1 m * (t - m)).
  assert (Hp : is_RInt p A B (f m * (B - A))).
  { replace (f m * (B - A)) with
      (minus ((fun t => f m * t + f1 m * (t - m)^2 / 2) B) ((fun t => f m * t + f1 m * (t - m)^2 / 2) A)).
    - apply (is_RInt_derive (fun t => f m * t + f1 m * (t - m)^2 / 2) p).
      + intros t _. unfold p. auto_derive; auto. field.
      + intros t _. unfold p. apply (ex_derive_continuous (fun t => f m + f1 m * (t - m))). auto_derive; auto.
    - unfold minus, plus, opp; simpl. unfold m. field. }
  pose proof (is_RInt_minus f p A B I (f m * (B - A)) HI Hp) as Hd.
  set (q := fun t => M * (t - m)^2 / 2).
  assert (Hq : is_RInt q A B (M * (B - A)^3 / 24)).
  { replace (M * (B - A)^3 / 24) with
      (minus ((fun t => M * (t - m)^3 / 6) B) ((fun t => M * (t - m)^3 / 6) A)).
    - apply (is_RInt_derive (fun t => M * (t - m)^3 / 6) q).
      + intros t _. unfold q. auto_derive; auto. field.
      + intros t _. unfold q. apply (ex_derive_continuous (fun t => M * (t - m)^2 / 2)). auto_derive; auto.
    - unfold minus, plus, opp; simpl. unfold m. field. }
  assert (N : norm (minus I (f m * (B - A))) <= M * (B - A)^3 / 24).
  { refine (norm_RInt_le _ q A B _ _ Le _ Hd Hq). intros t Ht.
    change (norm (minus (f t) (p t))) with (Rabs (f t - p t)). unfold p, q.
    replace (f t - (f m + f1 m * (t - m))) with (f t - f m - f1 m * (t - m)) by ring.
    apply (taylor1 f f1 f2 A B m M); auto. unfold m; lra. }
  change (Rabs (I - f m * (B - A)) <= M * (B - A)^3 / 24) in N. rewrite Rabs_minus_sym. exact N.
Qed.

Lemma midpoint_error_any : forall (f f1 f2 : R -> R) A B M,
  (forall t, Rmin A B <= t <= Rmax A B -> is_derive f t (f1 t)) ->
  (forall t, Rmin A B <= t <= Rmax A B -> is_derive f1 t (f2 t)) ->
  (forall t, Rmin A B <= t <= Rmax A B -> Rabs (f2 t) <= M) ->
  exists I, is_RInt f A B I /\ Rabs (f ((A + B) / 2) * (B - A) - I) <= M * (Rabs (B - A))^3 / 24.
Proof.
  intros f f1 f2 A B M. unfold Rmin, Rmax. destruct (Rle_dec A B) as [Le|Gt]; intros D1 D2 Bd.
  - rewrite (Rabs_pos_eq (B - A)) by lra. exact (midpoint_error f f1 f2 A B M Le D1 D2 Bd).
  - assert (Le : B <= A) by lra.
    destruct (midpoint_error f f1 f2 B A M Le D1 D2 Bd) as [I [HI E]].
    exists (opp I). split.
    + apply is_RInt_swap. exact HI.
    + rewrite (Rabs_left (B - A)) by lra. replace (- (B - A)) with (A - B) by ring.
      replace (f ((A + B) / 2) * (B - A) - opp I) with (- (f ((B + A) / 2) * (A - B) - I)).
      * rewrite Rabs_Ropp. exact E.
      * change (opp I) with (- I). rewrite (Rplus_comm B A). ring.
Qed.
