(** Properties C53 - C55: repeated derivatives, the chain rule, the error of the Gauss rule. *)
From Coq Require Import ZArith NArith Reals List Bool Lia Lra.
From Coquelicot Require Import Coquelicot.
From Verif Require Import Outcome Num RtModel RtSpec RtFacts RtStep RtTermination RtValue RtEval RtSubst
  NumR NumRFacts RealSpec RtDiff RtDiff2 NumZ QuadModel QuadSpec QuadFacts CalcFacts.
Import ListNotations.
Local Open Scope R_scope.

(** C53.  Calling diff() [k] times gives the [k]-th derivative, for every [k]: if [e] is regular at
    all points obtained from [v] by a value of entry [i] in the interval (a, b), then the [k] calls
    succeed, the result is regular on the interval, and its value there is the [k]-th derivative of
    the value of [e] as function of entry [i] (any function [g] with these values). *)
Theorem C53_repeated_diff_is_nth_derivative :
  forall (e : expr numR) (v : list (option R)) (i : N) (a b : R) (k : nat),
    a < b -> (i < N.of_nat (length v))%N ->
    (forall t, a < t < b -> regular e (update v (N.to_nat i) (Some t))) ->
    exists d, diff_times i k e = Ok d /\
      forall t, a < t < b ->
        regular d (update v (N.to_nat i) (Some t)) /\
        exists r, eval numR d (update v (N.to_nat i) (Some t)) = Ok (Some r) /\
          forall g : R -> R,
            (forall s, a < s < b -> eval numR e (update v (N.to_nat i) (Some s)) = Ok (Some (g s))) ->
            is_derive_n g k t r.
Proof.
  intros e v i a b k Lt L H.
  destruct (times_on a b e v i Lt ltac:(lia)) with (k := k) as [d [E D]].
  { intros t T. apply regular_reg. auto. }
  exists d. split; auto. intros t T. destruct (D t T) as [Rd Dn]. split; [apply regular_reg; auto|].
  eexists. split; [apply reg_eval; exact Rd|]. intros g G.
  eapply is_derive_n_ext_loc; [|exact Dn].
  assert (P : 0 < Rmin (t - a) (b - t)) by (apply Rmin_glb_lt; lra).
  exists (mkposreal _ P). intros y Y. change (Rabs (y - t) < Rmin (t - a) (b - t)) in Y.
  assert (K : a < y < b).
  { pose proof (Rmin_l (t - a) (b - t)). pose proof (Rmin_r (t - a) (b - t)). apply Rabs_def2 in Y. lra. }
  specialize (G y K). rewrite reg_eval in G by (apply regular_reg; auto). congruence.
Qed.
Print Assumptions C53_repeated_diff_is_nth_derivative.

(** log(x1) * x0 is regular for x1 in (0, 10). *)
Example C53_case :
  forall t, 0 < t < 10 ->
    regular (EBin BMult (EUn ULog (EVar 1)) (EVar 0)) (update [Some 7; None] (N.to_nat 1) (Some t)).
Proof. intros t T. apply regular_reg. simpl. repeat split; eauto. lra. Qed.

(** C54.  Chain rule: differentiating after substituting [r] for variable [i] gives, at every point
    [v] where [r] is regular and [e] is regular at [v] with entry [i] replaced by the value of [r],
    the value of  diff(e, x_j)[x_i := r] + diff(e, x_i)[x_i := r] * diff(r, x_j);  for j = i the
    first summand is absent.  All calls succeed. *)
Theorem C54_chain_rule :
  forall (e r : expr numR) (v : list (option R)) (i j : N) (x y : R),
    (i < N.of_nat (length v))%N -> nth_error v (N.to_nat j) = Some (Some y) ->
    regular r v -> eval numR r v = Ok (Some x) -> regular e (update v (N.to_nat i) (Some x)) ->
    exists s ds ej ei sj si dr p q h,
      subst1_top numR (EVar i) r e = Ok s /\ diff_top numR (DVar j) s = Ok ds /\
      diff_top numR (DVar j) e = Ok ej /\ subst1_top numR (EVar i) r ej = Ok sj /\
      diff_top numR (DVar i) e = Ok ei /\ subst1_top numR (EVar i) r ei = Ok si /\
      diff_top numR (DVar j) r = Ok dr /\
      eval numR sj v = Ok (Some p) /\ eval numR si v = Ok (Some q) /\ eval numR dr v = Ok (Some h) /\
      eval numR ds v = Ok (Some ((if N.eqb i j then 0 else p) + q * h)).
Proof.
  intros e r v i j x y L Hy Rr Ex Re. apply regular_reg in Rr. apply regular_reg in Re.
  rewrite (reg_eval _ _ Rr) in Ex. inversion Ex; subst x; clear Ex.
  assert (Li : (N.to_nat i < length v)%nat) by lia.
  set (w := update v (N.to_nat i) (Some (rv v r))) in *.
  assert (Dif : forall k u d, reg u d -> exists d', diff_top numR (DVar k) d = Ok d' /\ reg u d' /\
            rv u d' = rv u (pdiff k d)).
  { intros k u d Rd. unfold diff_top. rewrite (diff_pdiff k u d Rd). simpl.
    destruct (simplify_reg u _ (reg_pdiff k u d Rd)) as [d' [E [R' V]]]. eauto. }
  assert (Sub : forall d, reg w d -> exists d', subst1_top numR (EVar i) r d = Ok d' /\ reg v d' /\
            rv v d' = rv w d /\
            simplify_top numR (replace_vars (fun j => if N.eqb i j then Some r else None) d) = Ok d').
  { intros d Rd. unfold subst1_top. rewrite subst1_var. simpl.
    pose proof (sub_reg v i r Li Rr d Rd) as Q. destruct (simplify_reg v _ Q) as [d' [E [R' V]]].
    exists d'. rewrite V. split; auto. split; auto. split; auto. apply sub_rv; auto. }
  destruct (Sub e Re) as [s [Es [Rs [Vs Ss]]]].
  destruct (Dif j v s Rs) as [ds [Eds [Rds Vds]]].
  destruct (Dif j w e Re) as [ej [Eej [Rej Vej]]]. destruct (Sub ej Rej) as [sj [Esj [Rsj [Vsj _]]]].
  destruct (Dif i w e Re) as [ei [Eei [Rei Vei]]]. destruct (Sub ei Rei) as [si [Esi [Rsi [Vsi _]]]].
  destruct (Dif j v r Rr) as [dr [Edr [Rdr Vdr]]].
  exists s, ds, ej, ei, sj, si, dr, (rv v sj), (rv v si), (rv v dr).
  repeat (split; [first [assumption | apply reg_eval; assumption]|]).
  rewrite (reg_eval _ _ Rds). do 2 f_equal. rewrite Vds.
  rewrite (diff_simplified j v y _ s Hy (sub_reg v i r Li Rr e Re) Ss).
  rewrite (sub_pdiff v i r Li j e Re). rewrite Vsj, Vej, Vsi, Vei, Vdr. reflexivity.
Qed.
Print Assumptions C54_chain_rule.

(** sin(x0) * x1 with x0 := x1 * x1 at x1 = 3. *)
Example C54_case :
  let r := EBin BMult (EVar 1) (EVar 1) : expr numR in
  let e := EBin BMult (EUn USin (EVar 0)) (EVar 1) : expr numR in
  let v := [None; Some 3] in
  regular r v /\ eval numR r v = Ok (Some (3 * 3)) /\ regular e (update v (N.to_nat 0) (Some (3 * 3))).
Proof.
  cbv zeta. split; [|split; [reflexivity|]]; apply regular_reg; simpl; repeat split; eauto.
Qed.

(** C55.  Error of the one-point Gauss rule: if the bounds are constant expressions of values [A]
    and [B] (in any order), the integrand contains only the integration variable and is regular
    between the bounds, and the value of diff(diff(e, x), x) between the bounds is at most [M] in
    absolute value, then the quadrature returns a number that differs from the Riemann integral of
    the value of the integrand by at most M |B - A|^3 / 24. *)
Theorem C55_gauss_error_bound :
  forall (lo hi body d2 : expr numR) (var : N) (v : list (option R)) (A B M : R),
    const_only lo -> const_only hi ->
    eval numR lo [] = Ok (Some A) -> eval numR hi [] = Ok (Some B) ->
    (forall i, occurs_var i body -> i = var) -> (var < N.of_nat (length v))%N ->
    (forall t, Rmin A B <= t <= Rmax A B -> regular body (update v (N.to_nat var) (Some t))) ->
    diff_times var 2 body = Ok d2 ->
    (forall t r, Rmin A B <= t <= Rmax A B ->
       eval numR d2 (update v (N.to_nat var) (Some t)) = Ok (Some r) -> Rabs r <= M) ->
    exists q I g,
      quadrature numR (gauss_quad_1 numR) (EInt lo hi var body) = Ok (Some q) /\
      (forall t, Rmin A B <= t <= Rmax A B ->
         eval numR body (update v (N.to_nat var) (Some t)) = Ok (Some (g t))) /\
      is_RInt g A B I /\ Rabs (q - I) <= M * Rabs (B - A) ^ 3 / 24.
Proof.
  intros lo hi body d2 var v A B M Cl Ch El Eh O L Rg E2 Bd.
  assert (Li : (N.to_nat var < length v)%nat) by lia.
  assert (Rg' : forall t, Rmin A B <= t <= Rmax A B -> reg (update v (N.to_nat var) (Some t)) body)
    by (intros; apply regular_reg; auto).
  assert (Hm : Rmin A B <= (A + B) / 2 <= Rmax A B)
    by (unfold Rmin, Rmax; destruct (Rle_dec A B); lra).
  destruct (diff_on (fun t => Rmin A B <= t <= Rmax A B) body v var _ Hm Li Rg') as [d1 [E1 D1]].
  destruct (diff_on (fun t => Rmin A B <= t <= Rmax A B) d1 v var _ Hm Li) as [d2' [E2' D2]].
  { intros t T. apply D1; auto. }
  simpl in E2. rewrite E1 in E2. simpl in E2. rewrite E2' in E2. inversion E2; subst d2'; clear E2.
  destruct (midpoint_error_any
    (fun t => rv (update v (N.to_nat var) (Some t)) body)
    (fun t => rv (update v (N.to_nat var) (Some t)) d1)
    (fun t => rv (update v (N.to_nat var) (Some t)) d2) A B M) as [I [HI Er]].
  - intros t T. apply D1; auto.
  - intros t T. apply D2; auto.
  - intros t T. apply (Bd t); auto. apply reg_eval. apply D2; auto.
  - exists (rv (update v (N.to_nat var) (Some ((A + B) / 2))) body * (B - A)), I,
      (fun t => rv (update v (N.to_nat var) (Some t)) body).
    split; [|split; [|split; assumption]].
    + cbn [quadrature]. apply (gauss_value lo hi var body v A B); auto. apply reg_eval. auto.
    + intros t T. apply reg_eval. auto.
Qed.
Print Assumptions C55_gauss_error_bound.

(** The integral of sin(x0) from 0 to 2 with M = 1: all hypotheses of C55 are met. *)
Example C55_case :
  let body := EUn USin (EVar 0) : expr numR in
  (forall t, Rmin 0 2 <= t <= Rmax 0 2 -> regular body (update [None] (N.to_nat 0) (Some t))) /\
  exists d2, diff_times 0 2 body = Ok d2 /\
    forall t r, eval numR d2 (update [None] (N.to_nat 0) (Some t)) = Ok (Some r) -> Rabs r <= 1.
Proof.
  cbv zeta. split.
  - intros t _. apply regular_reg. simpl. repeat split; eauto.
  - assert (R0 : forall t, regular (EUn USin (EVar 0) : expr numR) (update [None] (N.to_nat 0) (Some t)))
      by (intros t; apply regular_reg; simpl; repeat split; eauto).
    destruct (C53_repeated_diff_is_nth_derivative (EUn USin (EVar 0)) [None] 0 0 1 2) as [d2 [E _]];
      [lra|reflexivity|auto|].
    exists d2. split; auto. intros t r Er.
    destruct (C53_repeated_diff_is_nth_derivative (EUn USin (EVar 0)) [None] 0 (t - 1) (t + 1) 2) as [d2' [E' D]];
      [lra|reflexivity|auto|].
    rewrite E in E'. inversion E'; subst d2'; clear E'.
    destruct (D t) as [_ [r' [Er' K]]]; [lra|].
    assert (r' = r) by congruence. subst r'.
    specialize (K sin (fun s _ => eq_refl)).
    assert (Q : is_derive_n sin 2 t (- sin t)).
    { simpl. apply (is_derive_ext cos); [|auto_derive; auto; ring].
      intros s. symmetry. apply is_derive_unique. auto_derive; auto; ring. }
    apply is_derive_n_unique in K. apply is_derive_n_unique in Q. rewrite <- K, Q, Rabs_Ropp.
    apply Rabs_le. pose proof (SIN_bound t). lra.
Qed.
