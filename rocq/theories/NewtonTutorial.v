(** The tutorial's system in doubles (proofs only). *)
From Coq Require Import ZArith NArith Reals List Bool Lra Lia.
From Flocq Require Import Core BinarySingleNaN.
From Verif Require Import Outcome Num RtModel RtSpec RtFacts NumB64 NumB64Facts NumR NumRFacts RealSpec RtDiff RtDiff2
  ErrSpec ErrFacts DataSpec DataFacts BoxFacts NewtonModel NewtonSpec NewtonFacts NewtonErrFacts PropsNewton.
Import ListNotations.
Local Open Scope R_scope.

(** /repo/examples/tutorials/newton_solve.cpp lines 116-127: x^2 + y = 3 and x^4 - y^2 = 3, with the double 3. *)
Definition tutorial1_64 (lm : libm) : equation (numB64 lm) :=
  (EBin BPlus (EBin BMult (EVar 0) (EVar 0)) (EVar 1), EConst (n_of_Z (numB64 lm) 3)).
Definition tutorial2_64 (lm : libm) : equation (numB64 lm) :=
  (EBin BMinus (EBin BMult (EBin BMult (EVar 0) (EVar 0)) (EBin BMult (EVar 0) (EVar 0))) (EBin BMult (EVar 1) (EVar 1)),
   EConst (n_of_Z (numB64 lm) 3)).

Lemma three64 : forall lm, finite64 (n_of_Z (numB64 lm) 3) /\ B2R (n_of_Z (numB64 lm) 3) = 3.
Proof.
  intros lm. destruct (ofZ_fin lm 3) as [F V].
  { rewrite Rabs_pos_eq by lra. eapply Rle_trans; [|exact big_1000]. lra. }
  split; [exact F|]. rewrite V. apply round_generic; [apply valid_rnd_round_mode|].
  replace 3 with (F2R (beta := radix2) {| Fnum := 3; Fexp := 0 |}) by (unfold F2R; simpl; ring).
  apply generic_format_F2R. intros _. unfold cexp.
  replace (F2R (beta := radix2) {| Fnum := 3; Fexp := 0 |}) with 3 by (unfold F2R; simpl; ring).
  assert (M : mag radix2 3 = 2%Z :> Z) by (apply mag_unique; rewrite Rabs_pos_eq by lra; simpl; lra).
  rewrite M. vm_compute. discriminate.
Qed.

Lemma near_box : forall x y, dist x y (sqrt 2) 1 <= 1 / 100 -> (1.404 <= x <= 1.425) /\ (0.99 <= y <= 1.01).
Proof.
  intros x y D.
  assert (S : sqrt 2 * sqrt 2 = 2) by (apply sqrt_sqrt; lra).
  assert (P : 0 <= sqrt 2) by apply sqrt_pos.
  assert (Lo : 1.414 <= sqrt 2) by nra. assert (Hi : sqrt 2 <= 1.415) by nra.
  unfold dist in D. pose proof (Rabs_pos (x - sqrt 2)). pose proof (Rabs_pos (y - 1)).
  assert (A1 : Rabs (x - sqrt 2) <= 1 / 100) by lra. assert (A2 : Rabs (y - 1) <= 1 / 100) by lra.
  apply Rabs_le_inv in A1. apply Rabs_le_inv in A2. lra.
Qed.

Section Tutorial.
Context (lm : libm) (d : R) (A : accurate lm d) (gx gy : f64) (Fx : finite64 gx) (Fy : finite64 gy).
Context (D : dist (B2R gx) (B2R gy) (sqrt 2) 1 <= 1 / 100).
Notation x := (B2R gx).
Notation y := (B2R gy).
Notation v := ([gx; gy] : list f64).
Notation w := (at_point (B2R gx) (B2R gy)).
Notation sz := (sized lm d v w).
Notation k0 := (c0 (numB64 lm)).
Notation k1 := (c1 (numB64 lm)).

Lemma X_ : sz (EVar 0) (EVar 0) x 1.425 0.
Proof. destruct (near_box _ _ D). apply (sized_var lm d v w 0 gx); auto. rewrite Rabs_pos_eq; lra. Qed.
Lemma Y_ : sz (EVar 1) (EVar 1) y 1.01 0.
Proof. destruct (near_box _ _ D). apply (sized_var lm d v w 1 gy); auto. rewrite Rabs_pos_eq; lra. Qed.
Lemma C0_ : sz (EConst k0) (EConst (c0 numR)) 0 0 0.
Proof. destruct (ofZ_small lm 0); auto. apply sized_const; auto. rewrite Rabs_R0. lra. Qed.
Lemma C1_ : sz (EConst k1) (EConst (c1 numR)) 1 1 0.
Proof. destruct (ofZ_small lm 1); auto. apply sized_const; auto. rewrite Rabs_R1. lra. Qed.
Lemma C3_ : sz (EConst (n_of_Z (numB64 lm) 3)) (@EConst numR (Some 3)) 3 3 0.
Proof. destruct (three64 lm). apply sized_const; auto. rewrite Rabs_pos_eq; lra. Qed.

Notation plus H1 H2 := (sized_plus_ lm d A v w _ _ _ _ _ _ _ _ _ _ H1 H2).
Notation minus H1 H2 := (sized_minus_ lm d A v w _ _ _ _ _ _ _ _ _ _ H1 H2).
Notation mult H1 H2 := (sized_mult_ lm d A v w _ _ _ _ _ _ _ _ _ _ H1 H2).
Tactic Notation "by_" constr(L) "size" constr(Z) constr(E) "as" ident(N) := pose proof (L Z E ltac:(lra) ltac:(lra) ltac:(lra)) as N.
Notation e15 := (/ 1000000000000000).

Lemma tutorial_sizes :
  sz (residual (tutorial1_64 lm)) (residual tutorial1) (x * x + y - 3) 0.1 (8 / 10 * e15) /\
  sz (residual (tutorial2_64 lm)) (residual tutorial2) (x * x * (x * x) - y * y - 3) 0.2 (25 / 10 * e15) /\
  exists f1x f1y f2x f2y f1x' f1y' f2x' f2y' zx zy,
    diff (numB64 lm) (DVar 0) (residual (tutorial1_64 lm)) = Ok f1x /\ diff (numB64 lm) (DVar 1) (residual (tutorial1_64 lm)) = Ok f1y /\
    diff (numB64 lm) (DVar 0) (residual (tutorial2_64 lm)) = Ok f2x /\ diff (numB64 lm) (DVar 1) (residual (tutorial2_64 lm)) = Ok f2y /\
    diff numR (DVar 0) (residual tutorial1) = Ok f1x' /\ diff numR (DVar 1) (residual tutorial1) = Ok f1y' /\
    diff numR (DVar 0) (residual tutorial2) = Ok f2x' /\ diff numR (DVar 1) (residual tutorial2) = Ok f2y' /\
    sz (newton_x (residual (tutorial1_64 lm)) (residual (tutorial2_64 lm)) f1x f1y f2x f2y)
       (newton_x (residual tutorial1) (residual tutorial2) f1x' f1y' f2x' f2y') zx 2 (3 * e15) /\
    sz (newton_y (residual (tutorial1_64 lm)) (residual (tutorial2_64 lm)) f1x f1y f2x f2y)
       (newton_y (residual tutorial1) (residual tutorial2) f1x' f1y' f2x' f2y') zy 2 (4 * e15).
Proof.
  destruct (near_box _ _ D) as [Bx By].
  assert (X2 : 1.97 <= x * x <= 2.031) by nra.
  assert (X4 : 3.88 <= x * x * (x * x) <= 4.126).
  { split; [apply Rle_trans with (1.97 * 1.97); [lra|apply Rmult_le_compat; lra]|apply Rle_trans with (2.031 * 2.031); [apply Rmult_le_compat; lra|lra]]. }
  assert (Y2 : 0.98 <= y * y <= 1.0201) by nra.
  assert (X3 : 2.76 <= x * (x * x)).
  { apply Rle_trans with (1.404 * 1.97); [lra|apply Rmult_le_compat; lra]. }
  assert (XY : 1.38 <= x * y) by nra.
  pose proof X_ as HX. pose proof Y_ as HY. pose proof C0_ as H0. pose proof C1_ as H1. pose proof C3_ as H3.
  by_ (mult HX HX) size 2.031 (3 / 10 * e15) as XX.
  by_ (mult H1 HX) size 1.425 (2 / 10 * e15) as P1.
  by_ (mult HX H1) size 1.425 (2 / 10 * e15) as P2.
  by_ (plus P1 P2) size 2.85 (1 * e15) as DX.
  by_ (mult H0 HX) size 0 (1 / 10000 * e15) as O1.
  by_ (mult HX H0) size 0 (1 / 10000 * e15) as O2.
  by_ (plus O1 O2) size 0 (1 / 1000 * e15) as OX.
  by_ (mult H0 HY) size 0 (1 / 10000 * e15) as O3.
  by_ (mult HY H0) size 0 (1 / 10000 * e15) as O4.
  by_ (plus O3 O4) size 0 (1 / 1000 * e15) as OY.
  by_ (mult H1 HY) size 1.01 (2 / 10 * e15) as P3.
  by_ (mult HY H1) size 1.01 (2 / 10 * e15) as P4.
  by_ (plus P3 P4) size 2.02 (1 * e15) as DY.
  by_ (plus DX H0) size 2.85 (2 * e15) as F1.
  by_ (minus F1 H0) size 2.85 (3 * e15) as F1x.
  by_ (plus OX H1) size 1 (2 / 10 * e15) as F2.
  by_ (minus F2 H0) size 1 (4 / 10 * e15) as F1y.
  by_ (mult DX XX) size 5.8 (4 * e15) as G1.
  by_ (mult XX DX) size 5.8 (4 * e15) as G2.
  by_ (plus G1 G2) size 11.6 (10 * e15) as G3.
  by_ (minus G3 OY) size 11.6 (12 * e15) as G4.
  by_ (minus G4 H0) size 11.6 (14 * e15) as F2x.
  by_ (mult OX XX) size 0 (3 / 1000 * e15) as J1.
  by_ (mult XX OX) size 0 (3 / 1000 * e15) as J2.
  by_ (plus J1 J2) size 0 (1 / 100 * e15) as J3.
  by_ (minus J3 DY) size 2.02 (13 / 10 * e15) as J4.
  by_ (minus J4 H0) size 2.02 (2 * e15) as F2y.
  by_ (plus XX HY) size 3.041 (7 / 10 * e15) as R1a.
  assert (R1 : sz (residual (tutorial1_64 lm)) (residual tutorial1) (x * x + y - 3) 0.1 (8 / 10 * e15)).
  { refine (sized_minus lm d A v w _ _ _ _ _ _ _ _ _ _ R1a H3 0.1 (8 / 10 * e15) _ _ _); [apply Rabs_le; split; lra|lra|lra]. }
  by_ (mult XX XX) size 4.13 (18 / 10 * e15) as R2a.
  by_ (mult HY HY) size 1.03 (2 / 10 * e15) as R2b.
  assert (R2c : sz (fst (tutorial2_64 lm)) (fst tutorial2) (x * x * (x * x) - y * y) 3.2 (24 / 10 * e15)).
  { refine (sized_minus lm d A v w _ _ _ _ _ _ _ _ _ _ R2a R2b 3.2 (24 / 10 * e15) _ _ _); [apply Rabs_le; split; lra|lra|lra]. }
  assert (R2 : sz (residual (tutorial2_64 lm)) (residual tutorial2) (x * x * (x * x) - y * y - 3) 0.2 (25 / 10 * e15)).
  { refine (sized_minus lm d A v w _ _ _ _ _ _ _ _ _ _ R2c H3 0.2 (25 / 10 * e15) _ _ _); [apply Rabs_le; split; lra|lra|lra]. }
  by_ (mult F1x F2y) size 5.8 (13 * e15) as T1.
  by_ (mult F2x F1y) size 11.6 (21 * e15) as T2.
  by_ (minus T1 T2) size 17.5 (40 * e15) as DET.
  by_ (mult R1 F2y) size 0.21 (2 * e15) as N1.
  by_ (mult F1y R2) size 0.2 (3 * e15) as N2.
  by_ (minus N1 N2) size 0.41 (6 * e15) as NX.
  by_ (mult F1x R2) size 0.58 (8 * e15) as N3.
  by_ (mult R1 F2x) size 1.17 (12 * e15) as N4.
  by_ (minus N3 N4) size 1.8 (21 * e15) as NY.
  match type of DET with sized _ _ _ _ _ _ ?z _ _ =>
    assert (LOW : 16 <= Rabs z) by (rewrite <- Rabs_Ropp; eapply Rle_trans; [|apply Rle_abs]; lra) end.
  pose proof (sized_div_ lm d A v w _ _ _ _ _ _ _ _ _ _ NX DET 16 0.03 (2 * e15) (1 * e15) LOW ltac:(lra) ltac:(lra) ltac:(lra) ltac:(lra) ltac:(lra) ltac:(lra)) as QX.
  pose proof (sized_div_ lm d A v w _ _ _ _ _ _ _ _ _ _ NY DET 16 0.12 (3 * e15) (2 * e15) LOW ltac:(lra) ltac:(lra) ltac:(lra) ltac:(lra) ltac:(lra) ltac:(lra)) as QY.
  by_ (minus HX QX) size 2 (3 * e15) as UX.
  by_ (minus HY QY) size 2 (4 * e15) as UY.
  split; [exact R1|]. split; [exact R2|].
  do 10 eexists. do 8 (split; [cbn; reflexivity|]). split; [exact UX|exact UY].
Qed.
End Tutorial.
