(** Facts about the Newton solver (proofs only). *)
From Coq Require Import ZArith NArith Reals List Bool Lia Lra Psatz.
From Coquelicot Require Import Coquelicot.
From Verif Require Import Outcome Num RtModel RtSpec RtFacts NumR NumRFacts RealSpec RtDiff RtDiff2 CalcFacts
  NewtonModel NewtonSpec.
Import ListNotations.
Local Open Scope R_scope.

(** Derivative along a straight line. *)
Definition along (x y sx sy t : R) : list (option R) := at_point (x + t * sx) (y + t * sy).

Lemma along_derive : forall x y sx sy t e, reg (along x y sx sy t) e ->
  is_derive (fun s => rv (along x y sx sy s) e) t
    (sx * rv (along x y sx sy t) (pdiff 0 e) + sy * rv (along x y sx sy t) (pdiff 1 e)).
Proof.
  intros x y sx sy t.
  induction e as [c|j|j k|op a IH|lo hi w a _ _ IH|op l r IHl IHr|es _] using expr_ind';
    try (intros Rg; simpl in Rg; contradiction).
  - intros _. simpl. replace (sx * 0 + sy * 0) with 0 by ring.
    apply (is_derive_const (match c with Some c => c | None => 0 end) t).
  - intros [z E]. destruct (N.eq_dec j 0) as [->|J0]; [|destruct (N.eq_dec j 1) as [->|J1]].
    + simpl. replace (sx * 1 + sy * 0) with sx by ring. auto_derive; auto; ring.
    + simpl. replace (sx * 0 + sy * 1) with sy by ring. auto_derive; auto; ring.
    + exfalso. assert (N.to_nat j < 2)%nat by (apply (nth_error_Some (along x y sx sy t) (N.to_nat j)); congruence). lia.
  - intros Rg. pose proof (rv_pdiff_un 0 _ op a Rg) as E0. pose proof (rv_pdiff_un 1 _ op a Rg) as E1.
    destruct Rg as [Ra D]. specialize (IH Ra). rewrite E0, E1. cbn [rv].
    set (P := along x y sx sy t) in *.
    replace (sx * (rv P (pdiff 0 a) * dreal op (rv P a)) + sy * (rv P (pdiff 1 a) * dreal op (rv P a)))
      with ((sx * rv P (pdiff 0 a) + sy * rv P (pdiff 1 a)) * dreal op (rv P a)) by ring.
    exact (is_derive_comp (ureal op) (fun s => rv (along x y sx sy s) a) t _ _ (ureal_derive op _ D) IH).
  - intros [[Rl Rr] D]. specialize (IHl Rl). specialize (IHr Rr).
    set (P := along x y sx sy t) in *. fold P in IHl, IHr, D.
    destruct op; cbn [pdiff rv breal] in *; try contradiction.
    + replace (sx * (rv P (pdiff 0 l) + rv P (pdiff 0 r)) + sy * (rv P (pdiff 1 l) + rv P (pdiff 1 r)))
        with (plus (sx * rv P (pdiff 0 l) + sy * rv P (pdiff 1 l)) (sx * rv P (pdiff 0 r) + sy * rv P (pdiff 1 r)))
        by (unfold plus; simpl; ring).
      exact (is_derive_plus _ _ t _ _ IHl IHr).
    + replace (sx * (rv P (pdiff 0 l) - rv P (pdiff 0 r)) + sy * (rv P (pdiff 1 l) - rv P (pdiff 1 r)))
        with (minus (sx * rv P (pdiff 0 l) + sy * rv P (pdiff 1 l)) (sx * rv P (pdiff 0 r) + sy * rv P (pdiff 1 r)))
        by (unfold minus, plus, opp; simpl; ring).
      exact (is_derive_minus _ _ t _ _ IHl IHr).
    + match goal with |- is_derive _ _ ?d => replace d with
        ((sx * rv P (pdiff 0 l) + sy * rv P (pdiff 1 l)) * rv P r + rv P l * (sx * rv P (pdiff 0 r) + sy * rv P (pdiff 1 r))) by ring end.
      apply (der_mult (fun s => rv (along x y sx sy s) l) (fun s => rv (along x y sx sy s) r)); auto.
    + match goal with |- is_derive _ _ ?d => replace d with
        (((sx * rv P (pdiff 0 l) + sy * rv P (pdiff 1 l)) * rv P r - rv P l * (sx * rv P (pdiff 0 r) + sy * rv P (pdiff 1 r)))
          / (rv P r * rv P r)) by (field; exact D) end.
      apply (der_div (fun s => rv (along x y sx sy s) l) (fun s => rv (along x y sx sy s) r)); auto.
Qed.

Lemma point_entries : forall x y i, (i = 0 \/ i = 1)%N -> exists z, nth_error (at_point x y) (N.to_nat i) = Some (Some z).
Proof. intros x y i [-> | ->]; simpl; eauto. Qed.

(** The derivative computed by diff(), at a regular point. *)
Lemma diff_value : forall i v e, reg v e ->
  exists d, diff_top numR (DVar i) e = Ok d /\ reg v d /\ eval numR d v = Ok (Some (rv v (pdiff i e))) /\ rv v d = rv v (pdiff i e).
Proof.
  intros i v e Rg. unfold diff_top. rewrite (diff_pdiff i v e Rg). cbn [bind].
  destruct (simplify_reg v _ (reg_pdiff i v e Rg)) as [d [E [Rd V]]]. exists d. split; [exact E|]. split; [exact Rd|].
  split; [|exact V]. rewrite <- V. now apply reg_eval.
Qed.

Lemma second_value : forall x y e M i j, reg (at_point x y) e -> second_bounded M e x y ->
  (i = 0 \/ i = 1)%N -> (j = 0 \/ j = 1)%N -> Rabs (rv (at_point x y) (pdiff j (pdiff i e))) <= M.
Proof.
  intros x y e M i j Rg S I J. destruct (S i j I J) as [d [h [z [D [H [V B]]]]]].
  destruct (diff_value i _ e Rg) as [d' [D' [Rd [Ev _]]]]. assert (d' = d) by congruence. subst d'.
  destruct (diff_value j _ d Rd) as [h' [H' [Rh [Ev' _]]]]. assert (h' = h) by congruence. subst h'.
  unfold valued in V. rewrite Ev' in V. injection V as <-.
  destruct (point_entries x y j J) as [w W]. unfold diff_top in D. rewrite (diff_pdiff i _ e Rg) in D. cbn [bind] in D.
  rewrite (diff_simplified j _ w _ _ W (reg_pdiff i _ e Rg) D) in B. exact B.
Qed.

Lemma second_intro : forall x y e M, reg (at_point x y) e ->
  (forall i j, (i = 0 \/ i = 1)%N -> (j = 0 \/ j = 1)%N -> Rabs (rv (at_point x y) (pdiff j (pdiff i e))) <= M) ->
  second_bounded M e x y.
Proof.
  intros x y e M Rg B i j I J.
  destruct (diff_value i _ e Rg) as [d [D [Rd [Ev _]]]]. destruct (diff_value j _ d Rd) as [h [H [Rh [Ev' _]]]].
  exists d, h, (rv (at_point x y) (pdiff j d)). split; [exact D|]. split; [exact H|]. split; [exact Ev'|].
  destruct (point_entries x y j J) as [w W]. unfold diff_top in D. rewrite (diff_pdiff i _ e Rg) in D. cbn [bind] in D.
  rewrite (diff_simplified j _ w _ _ W (reg_pdiff i _ e Rg) D). now apply B.
Qed.

Lemma gradient_value : forall x y e dx dy, reg (at_point x y) e -> gradient e x y dx dy ->
  dx = rv (at_point x y) (pdiff 0 e) /\ dy = rv (at_point x y) (pdiff 1 e).
Proof.
  intros x y e dx dy Rg [A B]. split.
  - apply (partial_unique e (at_point x y) 0 x); auto. apply partial_of_reg; auto.
  - apply (partial_unique e (at_point x y) 1 y); auto. apply partial_of_reg; auto.
Qed.
Lemma gradient_of : forall x y e, reg (at_point x y) e ->
  gradient e x y (rv (at_point x y) (pdiff 0 e)) (rv (at_point x y) (pdiff 1 e)).
Proof. intros x y e Rg. split; apply partial_of_reg; auto. Qed.

(** Taylor's formula along a segment. *)
Lemma segment_taylor : forall x y sx sy e M,
  (forall t, 0 <= t <= 1 -> reg (along x y sx sy t) e /\ second_bounded M e (x + t * sx) (y + t * sy)) ->
  Rabs (rv (at_point (x + sx) (y + sy)) e - rv (at_point x y) e
        - (sx * rv (at_point x y) (pdiff 0 e) + sy * rv (at_point x y) (pdiff 1 e)))
    <= M * (Rabs sx + Rabs sy) ^ 2 / 2.
Proof.
  intros x y sx sy e M H.
  set (f := fun t => rv (along x y sx sy t) e).
  set (f1 := fun t => sx * rv (along x y sx sy t) (pdiff 0 e) + sy * rv (along x y sx sy t) (pdiff 1 e)).
  set (f2 := fun t =>
    sx * (sx * rv (along x y sx sy t) (pdiff 0 (pdiff 0 e)) + sy * rv (along x y sx sy t) (pdiff 1 (pdiff 0 e))) +
    sy * (sx * rv (along x y sx sy t) (pdiff 0 (pdiff 1 e)) + sy * rv (along x y sx sy t) (pdiff 1 (pdiff 1 e)))).
  assert (T := taylor1 f f1 f2 0 1 0 (M * (Rabs sx + Rabs sy) ^ 2)).
  assert (Z : along x y sx sy 0 = at_point x y) by (unfold along, at_point; repeat f_equal; ring).
  assert (O : along x y sx sy 1 = at_point (x + sx) (y + sy)) by (unfold along, at_point; repeat f_equal; ring).
  assert (Q : Rabs (f 1 - f 0 - f1 0 * (1 - 0)) <= M * (Rabs sx + Rabs sy) ^ 2 * (1 - 0) ^ 2 / 2).
  { apply T; try lra.
    - intros t Ht. apply along_derive. apply H; auto.
    - intros t Ht. destruct (H t Ht) as [Rg _].
      apply (is_derive_plus (fun s => sx * rv (along x y sx sy s) (pdiff 0 e)) (fun s => sy * rv (along x y sx sy s) (pdiff 1 e)));
        apply (is_derive_scal (fun s => rv (along x y sx sy s) _)); apply along_derive; now apply reg_pdiff.
    - intros t Ht. destruct (H t Ht) as [Rg S].
      pose proof (second_value _ _ _ _ 0%N 0%N Rg S ltac:(auto) ltac:(auto)) as B00.
      pose proof (second_value _ _ _ _ 0%N 1%N Rg S ltac:(auto) ltac:(auto)) as B01.
      pose proof (second_value _ _ _ _ 1%N 0%N Rg S ltac:(auto) ltac:(auto)) as B10.
      pose proof (second_value _ _ _ _ 1%N 1%N Rg S ltac:(auto) ltac:(auto)) as B11.
      unfold f2. fold (along x y sx sy t) in *.
      set (h00 := rv _ (pdiff 0 (pdiff 0 e))) in *. set (h01 := rv _ (pdiff 1 (pdiff 0 e))) in *.
      set (h10 := rv _ (pdiff 0 (pdiff 1 e))) in *. set (h11 := rv _ (pdiff 1 (pdiff 1 e))) in *.
      assert (G : forall u v h, Rabs h <= M -> Rabs (u * (v * h)) <= Rabs u * Rabs v * M).
      { intros u v h Hh. rewrite !Rabs_mult, <- Rmult_assoc. apply Rmult_le_compat_l; auto.
        apply Rmult_le_pos; apply Rabs_pos. }
      replace (sx * (sx * h00 + sy * h01) + sy * (sx * h10 + sy * h11))
        with ((sx * (sx * h00) + sx * (sy * h01)) + (sy * (sx * h10) + sy * (sy * h11))) by ring.
      pose proof (G sx sx h00 B00). pose proof (G sx sy h01 B01). pose proof (G sy sx h10 B10). pose proof (G sy sy h11 B11).
      replace (M * (Rabs sx + Rabs sy) ^ 2) with
        ((Rabs sx * Rabs sx * M + Rabs sx * Rabs sy * M) + (Rabs sy * Rabs sx * M + Rabs sy * Rabs sy * M)) by ring.
      eapply Rle_trans; [apply Rabs_triang|]. apply Rplus_le_compat;
        (eapply Rle_trans; [apply Rabs_triang|]; apply Rplus_le_compat; assumption). }
  unfold f, f1 in Q. rewrite Z, O in Q. rewrite Rmult_1_r in Q || idtac.
  replace (M * (Rabs sx + Rabs sy) ^ 2 / 2) with (M * (Rabs sx + Rabs sy) ^ 2 * (1 - 0) ^ 2 / 2) by field.
  replace (sx * rv (at_point x y) (pdiff 0 e) + sy * rv (at_point x y) (pdiff 1 e)) with
    ((sx * rv (at_point x y) (pdiff 0 e) + sy * rv (at_point x y) (pdiff 1 e)) * (1 - 0)) by ring.
  exact Q.
Qed.

(** One step at a regular point. *)
Definition det_at (v : list (option R)) (f1 f2 : expr numR) : R :=
  rv v (pdiff 0 f1) * rv v (pdiff 1 f2) - rv v (pdiff 0 f2) * rv v (pdiff 1 f1).

Lemma step_value : forall (q1 q2 : equation numR) qs x y w,
  let v := Some x :: Some y :: w in
  reg v (residual q1) -> reg v (residual q2) ->
  newton_step numR (q1 :: q2 :: qs) v =
    Ok (if Req_EM_T (det_at v (residual q1) (residual q2)) 0 then [None; None]
        else [Some (x - (rv v (residual q1) * rv v (pdiff 1 (residual q2)) - rv v (pdiff 1 (residual q1)) * rv v (residual q2))
                        / det_at v (residual q1) (residual q2));
              Some (y - (rv v (pdiff 0 (residual q1)) * rv v (residual q2) - rv v (residual q1) * rv v (pdiff 0 (residual q2)))
                        / det_at v (residual q1) (residual q2))]).
Proof.
  intros q1 q2 qs x y w v R1 R2. unfold newton_step.
  rewrite (reg_eval v _ R1), (reg_eval v _ R2). cbn [bind].
  destruct (diff_value 0 v _ R1) as [f1x [-> [_ [E1x _]]]]. destruct (diff_value 1 v _ R1) as [f1y [-> [_ [E1y _]]]].
  destruct (diff_value 0 v _ R2) as [f2x [-> [_ [E2x _]]]]. destruct (diff_value 1 v _ R2) as [f2y [-> [_ [E2y _]]]].
  cbn [bind]. rewrite E1x, E1y, E2x, E2y. cbn [bind]. unfold v at 11. fold v. unfold det_at.
  generalize (rv v (residual q1)) as r1. generalize (rv v (residual q2)) as r2.
  generalize (rv v (pdiff 0 (residual q1))) as a. generalize (rv v (pdiff 1 (residual q1))) as b.
  generalize (rv v (pdiff 0 (residual q2))) as c. generalize (rv v (pdiff 1 (residual q2))) as d.
  intros d c b a r2 r1. cbn. unfold r_eqb.
  destruct (Req_EM_T (a * d - c * b) 0) as [E|E]; cbn; reflexivity.
Qed.

Lemma dist_pos : forall x y a b, 0 <= dist x y a b.
Proof. intros. unfold dist. pose proof (Rabs_pos (x - a)). pose proof (Rabs_pos (y - b)). lra. Qed.

Lemma dist_segment : forall x y a b t, 0 <= t <= 1 ->
  dist (x + t * (a - x)) (y + t * (b - y)) a b <= dist x y a b.
Proof.
  intros x y a b t Ht. unfold dist.
  replace (x + t * (a - x) - a) with ((1 - t) * (x - a)) by ring.
  replace (y + t * (b - y) - b) with ((1 - t) * (y - b)) by ring.
  rewrite !Rabs_mult, (Rabs_pos_eq (1 - t)) by lra.
  pose proof (Rabs_pos (x - a)). pose proof (Rabs_pos (y - b)). nra.
Qed.

(** What the linear model misses at the root. *)
Lemma linear_error : forall e a b r L M x y, smooth e a b r L M -> valued e a b 0 -> dist x y a b <= r ->
  let v := at_point x y in
  Rabs (rv v e + ((a - x) * rv v (pdiff 0 e) + (b - y) * rv v (pdiff 1 e))) <= M * dist x y a b ^ 2 / 2.
Proof.
  intros e a b r L M x y S Z D v.
  assert (T := segment_taylor x y (a - x) (b - y) e M).
  assert (Q : forall t, 0 <= t <= 1 ->
    reg (along x y (a - x) (b - y) t) e /\ second_bounded M e (x + t * (a - x)) (y + t * (b - y))).
  { intros t Ht. destruct (S (x + t * (a - x)) (y + t * (b - y))) as [Rg [B _]].
    - eapply Rle_trans; [apply dist_segment; auto|exact D].
    - split; [|exact B]. apply regular_reg in Rg. exact Rg. }
  specialize (T Q). replace (x + (a - x)) with a in T by ring. replace (y + (b - y)) with b in T by ring.
  destruct (S a b) as [Rg _].
  { unfold dist. rewrite !Rminus_diag_eq by reflexivity. rewrite Rabs_R0. pose proof (dist_pos x y a b). lra. }
  apply regular_reg in Rg. unfold valued in Z. rewrite (reg_eval _ _ Rg) in Z. injection Z as Z. rewrite Z in T.
  unfold dist. rewrite (Rabs_minus_sym x a), (Rabs_minus_sym y b).
  rewrite <- Rabs_Ropp. eapply Rle_trans; [|exact T]. right. f_equal. fold v. ring.
Qed.

(** The residual near the root. *)
Lemma residual_small : forall e a b r L M x y, smooth e a b r L M -> valued e a b 0 -> dist x y a b <= r ->
  Rabs (rv (at_point x y) e) <= L * dist x y a b.
Proof.
  intros e a b r L M x y S Z D.
  set (f := fun t => rv (along x y (a - x) (b - y) t) e).
  set (f1 := fun t => (a - x) * rv (along x y (a - x) (b - y) t) (pdiff 0 e) + (b - y) * rv (along x y (a - x) (b - y) t) (pdiff 1 e)).
  assert (Q : forall t, 0 <= t <= 1 -> reg (along x y (a - x) (b - y) t) e /\ Rabs (f1 t) <= L * dist x y a b).
  { intros t Ht. destruct (S (x + t * (a - x)) (y + t * (b - y))) as [Rg [_ G]].
    - eapply Rle_trans; [apply dist_segment; auto|exact D].
    - apply regular_reg in Rg. split; [exact Rg|]. destruct (G _ _ (gradient_of _ _ _ Rg)) as [Gx Gy].
      unfold f1. eapply Rle_trans; [apply Rabs_triang|]. rewrite !Rabs_mult. unfold dist, along.
      rewrite (Rabs_minus_sym x a), (Rabs_minus_sym y b).
      pose proof (Rabs_pos (a - x)). pose proof (Rabs_pos (b - y)). nra. }
  destruct (MVT_gen f 0 1 f1) as [c [Hc E]].
  - intros t Ht. apply along_derive. apply Q. rewrite Rmin_left, Rmax_right in Ht by lra. lra.
  - intros t Ht. apply continuity_pt_filterlim. apply (derive_cont f t (f1 t)). apply along_derive. apply Q.
    rewrite Rmin_left, Rmax_right in Ht by lra. lra.
  - rewrite Rmin_left, Rmax_right in Hc by lra. destruct (Q c Hc) as [_ B].
    assert (F1 : f 1 = 0).
    { unfold f, along. replace (x + 1 * (a - x)) with a by ring. replace (y + 1 * (b - y)) with b by ring.
      destruct (S a b) as [Rg _].
      { unfold dist. rewrite !Rminus_diag_eq by reflexivity. rewrite Rabs_R0. pose proof (dist_pos x y a b). lra. }
      apply regular_reg in Rg. unfold valued in Z. rewrite (reg_eval _ _ Rg) in Z. now injection Z. }
    assert (F0 : f 0 = rv (at_point x y) e).
    { unfold f, along. replace (x + 0 * (a - x)) with x by ring. replace (y + 0 * (b - y)) with y by ring. reflexivity. }
    rewrite F1, F0 in E. replace (rv (at_point x y) e) with (- f1 c) by lra. rewrite Rabs_Ropp. exact B.
Qed.

(** Two linear equations with small right hand sides. *)
Lemma solve2 : forall a b c d u v r1 r2 L m e1 e2, 0 < m -> m <= Rabs (a * d - c * b) ->
  Rabs a <= L -> Rabs b <= L -> Rabs c <= L -> Rabs d <= L ->
  a * u + b * v = r1 -> c * u + d * v = r2 -> Rabs r1 <= e1 -> Rabs r2 <= e2 ->
  m * (Rabs u + Rabs v) <= 2 * L * (e1 + e2).
Proof.
  intros a b c d u v r1 r2 L m e1 e2 Pm Hm Ha Hb Hc Hd E1 E2 H1 H2.
  assert (U : (a * d - c * b) * u = d * r1 - b * r2) by (subst; ring).
  assert (V : (a * d - c * b) * v = a * r2 - c * r1) by (subst; ring).
  assert (AU : Rabs (a * d - c * b) * Rabs u <= L * e1 + L * e2).
  { rewrite <- Rabs_mult, U. eapply Rle_trans; [apply Rabs_triang|]. rewrite Rabs_Ropp, !Rabs_mult.
    apply Rplus_le_compat; apply Rmult_le_compat; auto; apply Rabs_pos. }
  assert (AV : Rabs (a * d - c * b) * Rabs v <= L * e2 + L * e1).
  { rewrite <- Rabs_mult, V. eapply Rle_trans; [apply Rabs_triang|]. rewrite Rabs_Ropp, !Rabs_mult.
    apply Rplus_le_compat; apply Rmult_le_compat; auto; apply Rabs_pos. }
  pose proof (Rabs_pos u). pose proof (Rabs_pos v). nra.
Qed.

Section Converge.
Context (q1 q2 : equation numR) (qs : list (equation numR)) (a b r L M m : R).
Context (S1 : smooth (residual q1) a b r L M) (S2 : smooth (residual q2) a b r L M).
Context (Z1 : valued (residual q1) a b 0) (Z2 : valued (residual q2) a b 0).
Context (Pm : 0 < m).
Context (NS : forall x y dx1 dy1 dx2 dy2, dist x y a b <= r ->
  gradient (residual q1) x y dx1 dy1 -> gradient (residual q2) x y dx2 dy2 -> m <= Rabs (dx1 * dy2 - dx2 * dy1)).

Lemma step_contracts : forall x y, dist x y a b <= r ->
  exists x' y', newton_step numR (q1 :: q2 :: qs) (at_point x y) = Ok (at_point x' y') /\
    m * dist x' y' a b <= 2 * L * M * dist x y a b ^ 2.
Proof.
  intros x y D. destruct (S1 x y D) as [R1 [_ G1]]. destruct (S2 x y D) as [R2 [_ G2]].
  apply regular_reg in R1. apply regular_reg in R2.
  pose proof (gradient_of _ _ _ R1) as GV1. pose proof (gradient_of _ _ _ R2) as GV2.
  destruct (G1 _ _ GV1) as [A1 B1]. destruct (G2 _ _ GV2) as [A2 B2].
  pose proof (NS x y _ _ _ _ D GV1 GV2) as N.
  pose proof (linear_error _ _ _ _ _ _ x y S1 Z1 D) as E1. pose proof (linear_error _ _ _ _ _ _ x y S2 Z2 D) as E2.
  unfold at_point at 1. rewrite (step_value q1 q2 qs x y [] R1 R2). fold (at_point x y).
  cbv zeta in E1, E2. set (v := at_point x y) in *. unfold det_at.
  revert A1 B1 A2 B2 N E1 E2.
  generalize (rv v (residual q1)) as r1. generalize (rv v (residual q2)) as r2.
  generalize (rv v (pdiff 0 (residual q1))) as f1x. generalize (rv v (pdiff 1 (residual q1))) as f1y.
  generalize (rv v (pdiff 0 (residual q2))) as f2x. generalize (rv v (pdiff 1 (residual q2))) as f2y.
  intros f2y f2x f1y f1x r2 r1 A1 B1 A2 B2 N E1 E2.
  destruct (Req_EM_T (f1x * f2y - f2x * f1y) 0) as [E|E].
  { exfalso. rewrite E, Rabs_R0 in N. lra. }
  eexists. eexists. split; [reflexivity|]. unfold dist at 1.
  replace (2 * L * M * dist x y a b ^ 2) with (2 * L * (M * dist x y a b ^ 2 / 2 + M * dist x y a b ^ 2 / 2)) by field.
  refine (solve2 f1x f1y f2x f2y _ _ _ _ L m _ _ Pm N A1 B1 A2 B2 _ _
    (eq_ind_r (fun z => z <= _) E1 (Rabs_Ropp _)) (eq_ind_r (fun z => z <= _) E2 (Rabs_Ropp _))); field; exact E.
Qed.

(** The accuracy of a point with a small residual. *)
Lemma residual_accuracy : forall x y eps, dist x y a b <= r -> 4 * L * M * r <= m ->
  Rabs (rv (at_point x y) (residual q1)) <= eps -> Rabs (rv (at_point x y) (residual q2)) <= eps ->
  m * dist x y a b <= 8 * L * eps.
Proof.
  intros x y eps D C H1 H2. destruct (S1 x y D) as [R1 [SB G1]]. destruct (S2 x y D) as [R2 [_ G2]].
  apply regular_reg in R1. apply regular_reg in R2.
  pose proof (gradient_of _ _ _ R1) as GV1. pose proof (gradient_of _ _ _ R2) as GV2.
  destruct (G1 _ _ GV1) as [A1 B1]. destruct (G2 _ _ GV2) as [A2 B2].
  pose proof (NS x y _ _ _ _ D GV1 GV2) as N.
  pose proof (linear_error _ _ _ _ _ _ x y S1 Z1 D) as E1. pose proof (linear_error _ _ _ _ _ _ x y S2 Z2 D) as E2.
  assert (PM : 0 <= M).
  { destruct (SB 0%N 0%N (or_introl eq_refl) (or_introl eq_refl)) as [? [? [z [_ [_ [_ B]]]]]]. pose proof (Rabs_pos z). lra. }
  assert (PL : 0 <= L) by (pose proof (Rabs_pos (rv (at_point x y) (pdiff 0 (residual q1)))); lra).
  cbv zeta in E1, E2. set (v := at_point x y) in *.
  revert A1 B1 A2 B2 N E1 E2 H1 H2.
  generalize (rv v (residual q1)) as r1. generalize (rv v (residual q2)) as r2.
  generalize (rv v (pdiff 0 (residual q1))) as f1x. generalize (rv v (pdiff 1 (residual q1))) as f1y.
  generalize (rv v (pdiff 0 (residual q2))) as f2x. generalize (rv v (pdiff 1 (residual q2))) as f2y.
  intros f2y f2x f1y f1x r2 r1 A1 B1 A2 B2 N E1 E2 H1 H2.
  assert (T : forall fx fy q, Rabs (q + ((a - x) * fx + (b - y) * fy)) <= M * dist x y a b ^ 2 / 2 -> Rabs q <= eps ->
    Rabs (fx * (x - a) + fy * (y - b)) <= eps + M * dist x y a b ^ 2 / 2).
  { intros fx fy q E H. replace (fx * (x - a) + fy * (y - b)) with (q + - (q + ((a - x) * fx + (b - y) * fy))) by ring.
    eapply Rle_trans; [apply Rabs_triang|]. rewrite Rabs_Ropp. lra. }
  pose proof (solve2 f1x f1y f2x f2y (x - a) (y - b) _ _ L m _ _ Pm N A1 B1 A2 B2 eq_refl eq_refl (T _ _ _ E1 H1) (T _ _ _ E2 H2)) as K.
  fold (dist x y a b) in K. pose proof (dist_pos x y a b) as P. set (d := dist x y a b) in *.
  assert (LM : 0 <= L * M) by (apply Rmult_le_pos; auto).
  assert (2 * L * M * d ^ 2 <= m / 2 * d).
  { replace (2 * L * M * d ^ 2) with ((2 * (L * M) * d) * d) by ring. apply Rmult_le_compat_r; auto.
    assert (L * M * d <= L * M * r) by (apply Rmult_le_compat_l; auto). lra. }
  nra.
Qed.

Lemma norm_value : forall x y, dist x y a b <= r ->
  newton_norm numR (q1 :: q2 :: qs) (at_point x y) =
    Ok (Some (sqrt (rv (at_point x y) (residual q1) * rv (at_point x y) (residual q1) +
                    rv (at_point x y) (residual q2) * rv (at_point x y) (residual q2)))).
Proof.
  intros x y D. destruct (S1 x y D) as [R1 _]. destruct (S2 x y D) as [R2 _].
  apply regular_reg in R1. apply regular_reg in R2. unfold newton_norm. rewrite (reg_eval _ _ R1), (reg_eval _ _ R2).
  cbn [bind]. generalize (rv (at_point x y) (residual q1)) as f. generalize (rv (at_point x y) (residual q2)) as g.
  intros g f. cbn. rewrite (proj2 (r_leb_true 0 (f * f + g * g))); [reflexivity|]. nra.
Qed.

Lemma norm_bounds : forall f g, Rabs f <= sqrt (f * f + g * g) /\ Rabs g <= sqrt (f * f + g * g) /\
  sqrt (f * f + g * g) <= Rabs f + Rabs g.
Proof.
  intros f g. assert (K : forall u w, Rabs u <= sqrt (u * u + w * w)).
  { intros u w. rewrite <- (sqrt_Rsqr (Rabs u)) by apply Rabs_pos. apply sqrt_le_1_alt. rewrite <- Rsqr_abs. unfold Rsqr. nra. }
  split; [apply K|]. split; [rewrite Rplus_comm; apply K|].
  rewrite <- (sqrt_Rsqr (Rabs f + Rabs g)) by (pose proof (Rabs_pos f); pose proof (Rabs_pos g); lra).
  apply sqrt_le_1_alt. unfold Rsqr. pose proof (Rabs_pos f). pose proof (Rabs_pos g).
  pose proof (Rsqr_abs f) as F. pose proof (Rsqr_abs g) as G. unfold Rsqr in F, G. nra.
Qed.

(** The test of the loop. *)
Lemma loop_test : forall w, gt numR (Some w) (n_div numR (n_of_Z numR 1) (n_of_Z numR 10000000000)) &&
  lt numR (Some w) (n_of_Z numR 10000000000) = true <-> 1 / 10000000000 < w < 10000000000.
Proof.
  intros w. unfold gt, lt. cbn [n_div n_of_Z numR lift2]. rewrite (proj2 (r_eqb_false 10000000000 0)) by lra. cbn [negb].
  cbn [n_ge n_eq n_le numR rel2].
  rewrite !andb_true_iff, !negb_true_iff, !r_leb_true, !r_eqb_false. split; [intros [[? ?] [? ?]]; lra|intros; repeat split; lra].
Qed.

Lemma loop_runs : 4 * L * M * r <= m -> 2 * L * r < 10000000000 ->
  forall N x y, dist x y a b <= r -> 2 * L * dist x y a b <= 2 ^ N / 10000000000 ->
  forall w, newton_norm numR (q1 :: q2 :: qs) (at_point x y) = Ok (Some w) ->
  exists x' y', (forall k, (N <= k)%nat -> newton_loop numR k (q1 :: q2 :: qs) (at_point x y) (Some w) = Ok (Some (at_point x' y'))) /\
    dist x' y' a b <= r /\ exists w', newton_norm numR (q1 :: q2 :: qs) (at_point x' y') = Ok (Some w') /\ w' <= 1 / 10000000000.
Proof.
  intros C C2. induction N as [|N IH]; intros x y D B w W.
  - pose proof (norm_value x y D) as W'. assert (Ew : w = sqrt (rv (at_point x y) (residual q1) * rv (at_point x y) (residual q1) +
                    rv (at_point x y) (residual q2) * rv (at_point x y) (residual q2))) by congruence.
    destruct (norm_bounds (rv (at_point x y) (residual q1)) (rv (at_point x y) (residual q2))) as [_ [_ NB]]. rewrite <- Ew in NB.
    pose proof (residual_small _ _ _ _ _ _ x y S1 Z1 D). pose proof (residual_small _ _ _ _ _ _ x y S2 Z2 D).
    assert (w <= 1 / 10000000000) by (cbn [pow] in B; lra).
    exists x, y. split; [|eauto]. intros k _.
    destruct (gt numR (Some w) (n_div numR (n_of_Z numR 1) (n_of_Z numR 10000000000)) && lt numR (Some w) (n_of_Z numR 10000000000)) eqn:T.
    + apply loop_test in T. lra.
    + destruct k; cbn [newton_loop]; rewrite T; reflexivity.
  - pose proof (norm_value x y D) as W'. assert (Ew : w = sqrt (rv (at_point x y) (residual q1) * rv (at_point x y) (residual q1) +
                    rv (at_point x y) (residual q2) * rv (at_point x y) (residual q2))) by congruence.
    destruct (norm_bounds (rv (at_point x y) (residual q1)) (rv (at_point x y) (residual q2))) as [NB1 [_ NB]]. rewrite <- Ew in NB, NB1.
    pose proof (residual_small _ _ _ _ _ _ x y S1 Z1 D) as Q1. pose proof (residual_small _ _ _ _ _ _ x y S2 Z2 D) as Q2.
    assert (PL : 0 <= L).
    { destruct (S1 x y D) as [R1 [_ G1]]. apply regular_reg in R1. destruct (G1 _ _ (gradient_of _ _ _ R1)) as [G _].
      pose proof (Rabs_pos (rv (at_point x y) (pdiff 0 (residual q1)))). lra. }
    destruct (gt numR (Some w) (n_div numR (n_of_Z numR 1) (n_of_Z numR 10000000000)) && lt numR (Some w) (n_of_Z numR 10000000000)) eqn:T.
    + destruct (step_contracts x y D) as [x' [y' [St Co]]].
      assert (PM : 0 <= M).
      { destruct (S1 x y D) as [_ [SB _]].
        destruct (SB 0%N 0%N (or_introl eq_refl) (or_introl eq_refl)) as [? [? [z [_ [_ [_ Bz]]]]]]. pose proof (Rabs_pos z). lra. }
      assert (Half : dist x' y' a b <= dist x y a b / 2).
      { pose proof (dist_pos x y a b) as P. set (d := dist x y a b) in *. set (d' := dist x' y' a b) in *.
        assert (LM : 0 <= L * M) by (apply Rmult_le_pos; auto).
        assert (L * M * d <= L * M * r) by (apply Rmult_le_compat_l; auto).
        apply (Rmult_le_reg_l m); auto. eapply Rle_trans; [exact Co|].
        replace (2 * L * M * d ^ 2) with ((2 * (L * M) * d) * d) by ring.
        replace (m * (d / 2)) with (m / 2 * d) by field. apply Rmult_le_compat_r; auto. lra. }
      pose proof (dist_pos x y a b) as P.
      assert (D' : dist x' y' a b <= r) by lra.
      destruct (IH x' y' D') with (w := sqrt (rv (at_point x' y') (residual q1) * rv (at_point x' y') (residual q1) +
                    rv (at_point x' y') (residual q2) * rv (at_point x' y') (residual q2))) as [x2 [y2 [Lo [D2 R2]]]].
      * cbn [pow] in B. assert (2 * L * dist x' y' a b <= 2 * L * (dist x y a b / 2)) by (apply Rmult_le_compat_l; lra). lra.
      * apply norm_value; auto.
      * exists x2, y2. split; [|auto]. intros k Hk. destruct k as [|k]; [lia|].
        cbn [newton_loop]. rewrite T, St. cbn [bind]. rewrite (norm_value x' y' D'). cbn [bind]. apply Lo. lia.
    + exists x, y. split.
      * intros k _. destruct k; cbn [newton_loop]; rewrite T; reflexivity.
      * split; [exact D|]. exists w. split; [exact W|].
        destruct (Rle_dec w (1 / 10000000000)); auto. exfalso.
        assert (K : 1 / 10000000000 < w < 10000000000).
        { split; [lra|]. assert (L * dist x y a b <= L * r) by (apply Rmult_le_compat_l; auto). lra. }
        apply loop_test in K. congruence.
Qed.
End Converge.

Lemma solver_converges : forall (q1 q2 : equation numR) qs a b r L M m,
  smooth (residual q1) a b r L M -> smooth (residual q2) a b r L M ->
  valued (residual q1) a b 0 -> valued (residual q2) a b 0 -> 0 < m ->
  (forall x y dx1 dy1 dx2 dy2, dist x y a b <= r ->
    gradient (residual q1) x y dx1 dy1 -> gradient (residual q2) x y dx2 dy2 -> m <= Rabs (dx1 * dy2 - dx2 * dy1)) ->
  4 * L * M * r <= m -> 2 * L * r < 10000000000 ->
  forall x y, dist x y a b <= r ->
  exists K x' y',
    (forall k, (K <= k)%nat -> newton_solve numR k (q1 :: q2 :: qs) (at_point x y) = Ok (Some (at_point x' y'))) /\
    m * dist x' y' a b <= 8 * L / 10000000000.
Proof.
  intros q1 q2 qs a b r L M m S1 S2 Z1 Z2 Pm NS C C2 x y D.
  destruct (step_contracts q1 q2 qs a b r L M m S1 S2 Z1 Z2 Pm NS x y D) as [x1 [y1 [St Co]]].
  assert (PL : 0 <= L).
  { destruct (S1 x y D) as [R1 [_ G1]]. apply regular_reg in R1. destruct (G1 _ _ (gradient_of _ _ _ R1)) as [G _].
    pose proof (Rabs_pos (rv (at_point x y) (pdiff 0 (residual q1)))). lra. }
  assert (PM : 0 <= M).
  { destruct (S1 x y D) as [_ [SB _]].
    destruct (SB 0%N 0%N (or_introl eq_refl) (or_introl eq_refl)) as [? [? [z [_ [_ [_ Bz]]]]]]. pose proof (Rabs_pos z). lra. }
  assert (D1 : dist x1 y1 a b <= r).
  { pose proof (dist_pos x y a b) as P. set (d := dist x y a b) in *. set (d' := dist x1 y1 a b) in *.
    assert (LM : 0 <= L * M) by (apply Rmult_le_pos; auto).
    assert (L * M * d <= L * M * r) by (apply Rmult_le_compat_l; auto).
    assert (d' <= d / 2); [|lra]. apply (Rmult_le_reg_l m); auto. eapply Rle_trans; [exact Co|].
    replace (2 * L * M * d ^ 2) with ((2 * (L * M) * d) * d) by ring.
    replace (m * (d / 2)) with (m / 2 * d) by field. apply Rmult_le_compat_r; auto. lra. }
  destruct (Pow_x_infinity 2) with (b := 2 * L * r * 10000000000) as [N HN]; [rewrite Rabs_pos_eq; lra|].
  specialize (HN N (le_n N)). rewrite Rabs_pos_eq in HN by (apply pow_le; lra).
  destruct (loop_runs q1 q2 qs a b r L M m S1 S2 Z1 Z2 Pm NS C C2 N x1 y1 D1) with
    (w := sqrt (rv (at_point x1 y1) (residual q1) * rv (at_point x1 y1) (residual q1) +
                rv (at_point x1 y1) (residual q2) * rv (at_point x1 y1) (residual q2)))
    as [x' [y' [Lo [D' [w' [W' B']]]]]].
  - assert (2 * L * dist x1 y1 a b <= 2 * L * r) by (apply Rmult_le_compat_l; lra). lra.
  - exact (norm_value q1 q2 qs a b r L M S1 S2 x1 y1 D1).
  - exists (S N), x', y'. split.
    + intros k Hk. destruct k as [|k]; [lia|]. unfold newton_solve. cbn [newton_loop].
      change (n_of_Z numR 1) with (Some 1) at 1 3. rewrite (proj2 (loop_test 1)) by (split; lra). rewrite St. cbn [bind].
      rewrite (norm_value q1 q2 qs a b r L M S1 S2 x1 y1 D1). cbn [bind]. apply Lo. lia.
    + rewrite (norm_value q1 q2 qs a b r L M S1 S2 x' y' D') in W'. injection W' as <-.
      destruct (norm_bounds (rv (at_point x' y') (residual q1)) (rv (at_point x' y') (residual q2))) as [N1 [N2 _]].
      replace (8 * L / 10000000000) with (8 * L * (1 / 10000000000)) by field.
      apply (residual_accuracy q1 q2 a b r L M m S1 S2 Z1 Z2 Pm NS x' y'); [exact D'|exact C|exact (Rle_trans _ _ _ N1 B')|exact (Rle_trans _ _ _ N2 B')].
Qed.

Lemma linear_gradient : forall e a b c x y, (forall s t, valued e s t (a * s + b * t + c)) -> gradient e x y a b.
Proof.
  intros e a b c x y V. split.
  - exists (fun s => a * s + b * y + c). split.
    + exists 1. split; [lra|]. intros t _. exact (V t y).
    + apply is_derive_Reals. auto_derive; auto; ring.
  - exists (fun t => a * x + b * t + c). split.
    + exists 1. split; [lra|]. intros t _. exact (V x t).
    + apply is_derive_Reals. auto_derive; auto; ring.
Qed.

(** Computes values at a point. *)
Ltac values := cbn; change (Pos.to_nat 1) with 1%nat; cbn.
Ltac values_in H := cbn in H; change (Pos.to_nat 1) with 1%nat in H; cbn in H.

Lemma solves_residual : forall q a b, solves q a b -> valued (residual q) a b 0.
Proof.
  intros q a b [s [A B]]. unfold valued, residual in *. cbn [eval]. rewrite A, B. cbn. do 2 f_equal. ring.
Qed.

Lemma why_it_stops : forall k qs g p, newton_solve numR k qs g = Ok (Some p) ->
  exists g' norm, newton_step numR qs g' = Ok p /\ newton_norm numR qs p = Ok norm /\
    forall w, norm = Some w -> w <= 1 / 10000000000 \/ 10000000000 <= w.
Proof.
  intros k qs g p H. unfold newton_solve in H. destruct k as [|k]; cbn [newton_loop] in H;
    change (n_of_Z numR 1) with (Some 1) in H at 1 3;
    rewrite (proj2 (loop_test 1)) in H by (split; lra); [discriminate|].
  destruct (newton_step numR qs g) as [g'| |] eqn:S; try discriminate. cbn [bind] in H.
  destruct (newton_norm numR qs g') as [nm| |] eqn:E; try discriminate. cbn [bind] in H.
  revert g g' nm S E H. induction k as [|k IH]; intros g g' nm S E H; cbn [newton_loop] in H;
    match type of H with (if ?c then _ else _) = _ => destruct c eqn:T end; try discriminate.
  - injection H as <-. exists g, nm. split; [exact S|]. split; [exact E|]. intros w ->.
    destruct (Rle_dec w (1 / 10000000000)); [now left|]. right. destruct (Rle_dec 10000000000 w); [assumption|].
    exfalso. rewrite (proj2 (loop_test w)) in T by (split; lra). discriminate.
  - destruct (newton_step numR qs g') as [g2| |] eqn:S2; try discriminate. cbn [bind] in H.
    destruct (newton_norm numR qs g2) as [nm2| |] eqn:E2; try discriminate. cbn [bind] in H.
    exact (IH g' g2 nm2 S2 E2 H).
  - injection H as <-. exists g, nm. split; [exact S|]. split; [exact E|]. intros w ->.
    destruct (Rle_dec w (1 / 10000000000)); [now left|]. right. destruct (Rle_dec 10000000000 w); [assumption|].
    exfalso. rewrite (proj2 (loop_test w)) in T by (split; lra). discriminate.
Qed.

Lemma norm_of_sides : forall (q1 q2 : equation numR) qs p l1 r1 l2 r2,
  eval numR (fst q1) p = Ok (Some l1) -> eval numR (snd q1) p = Ok (Some r1) ->
  eval numR (fst q2) p = Ok (Some l2) -> eval numR (snd q2) p = Ok (Some r2) ->
  newton_norm numR (q1 :: q2 :: qs) p = Ok (Some (sqrt ((l1 - r1) ^ 2 + (l2 - r2) ^ 2))).
Proof.
  intros q1 q2 qs p l1 r1 l2 r2 A B C D. unfold newton_norm, residual. cbn [eval]. rewrite A, B, C, D. cbn.
  assert (P : 0 <= (l1 - r1) * (l1 - r1) + (l2 - r2) * (l2 - r2)) by (pose proof (Rle_0_sqr (l1 - r1)); pose proof (Rle_0_sqr (l2 - r2)); unfold Rsqr in *; lra).
  match goal with |- context [r_leb 0 ?z] => replace z with ((l1 - r1) * (l1 - r1) + (l2 - r2) * (l2 - r2)) by ring end.
  rewrite (proj2 (r_leb_true _ _) P).
  match goal with |- Ok (Some (sqrt ?u)) = Ok (Some (sqrt ?w)) => replace w with u by ring end. reflexivity.
Qed.
