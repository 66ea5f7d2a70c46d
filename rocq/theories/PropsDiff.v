(** Properties C06 - C10: differentiation of run-time expressions. *)
From Coq Require Import ZArith NArith Reals List Bool Lia Lra.
From Verif Require Import Outcome Num RtModel RtSpec RtFacts RtStep RtTermination RtValue RtEval RtSubst
  NumR NumRFacts RealSpec RtDiff RtDiff2 RtGateaux NumZ.
Import ListNotations.

(** C06.  At every regular point diff(e, x_i) succeeds, has a value, and that value is the partial
    derivative of [e] with respect to entry [i]; the result is itself regular there, so the theorem
    can be applied again to it. *)
Theorem C06_diff_is_partial_derivative :
  forall (e : expr numR) (v : list (option R)) (i : N) (x : R),
    nth_error v (N.to_nat i) = Some (Some x) -> regular e v ->
    exists d r, diff_top numR (DVar i) e = Ok d /\ eval numR d v = Ok (Some r) /\
      has_partial e v i x r /\ regular d v.
Proof.
  intros e v i x Hx Rg. apply regular_reg in Rg. unfold diff_top. rewrite (diff_pdiff i v e Rg). simpl.
  destruct (simplify_reg v _ (reg_pdiff i v e Rg)) as [d [E [Rd V]]].
  exists d, (rv v d). split; auto. split; [apply reg_eval; auto|]. split; [|apply regular_reg; auto].
  rewrite V. apply partial_of_reg; auto.
Qed.
Print Assumptions C06_diff_is_partial_derivative.

(** C06 for the unsimplified derivative, without a regularity condition: whenever the member
    function diff returned an expression and both [e] and the derivative have a value at [v], the
    latter is the partial derivative. *)
Theorem C06_whenever_defined :
  forall (e d : expr numR) (v : list (option R)) (i : N) (x q r : R),
    nth_error v (N.to_nat i) = Some (Some x) ->
    diff numR (DVar i) e = Ok d -> eval numR e v = Ok (Some q) -> eval numR d v = Ok (Some r) ->
    has_partial e v i x r.
Proof.
  intros e d v i x q r Hx Hd He Hv. pose proof (regular_of_defined i e d v q r Hd He Hv) as Rg.
  rewrite (diff_pdiff i v e Rg) in Hd. inversion Hd; subst d.
  rewrite (reg_eval _ _ (reg_pdiff i v e Rg)) in Hv. inversion Hv; subst r.
  apply partial_of_reg; auto.
Qed.
Print Assumptions C06_whenever_defined.

(** sqrt(exp(x0) / x1) at (0, 2) is a regular point. *)
Example C06_case :
  regular (EUn USqrt (EBin BDiv (EUn UExp (EVar 0)) (EVar 1))) [Some 0%R; Some 2%R].
Proof.
  apply regular_reg. simpl. repeat split; eauto; try lra. rewrite exp_0. lra.
Qed.

(** C07.  Differentiating by a variable that does not occur gives literally the constant 0. *)
Theorem C07_absent_variable_gives_zero :
  forall (e : expr numR) (v : list (option R)) (i : N),
    regular e v -> ~ occurs_var i e -> diff_top numR (DVar i) e = Ok (EConst (Some 0%R)).
Proof.
  intros e v i Rg Oc. apply regular_reg in Rg. unfold diff_top. rewrite (diff_pdiff i v e Rg).
  exact (zsh_top v _ (pdiff_zsh i v e Rg Oc) (reg_pdiff i v e Rg)).
Qed.
Print Assumptions C07_absent_variable_gives_zero.

Example C07_case :
  regular (EBin BMult (EUn UTan (EVar 0)) (EBin BMinus (EConst (Some 5%R)) (EVar 2))) [Some 0%R; None; Some 7%R] /\
  ~ occurs_var 1 (EBin BMult (EUn UTan (EVar 0)) (EBin BMinus (EConst (T := numR) (Some 5%R)) (EVar 2))).
Proof.
  split.
  - apply regular_reg. simpl. repeat split; eauto. rewrite cos_0. lra.
  - intros H.
    repeat match goal with
           | H : occurs_var _ _ |- _ => inversion H; subst; clear H
           | H : subterm _ _ |- _ => inversion H; subst; clear H
           end.
Qed.

(** C08.  The derivative exists exactly if no node reachable from the root lacks a rule, every
    numeric type, differentiation by a variable or by a function symbol. *)
Theorem C08_diff_succeeds_iff :
  forall (n : num) (x : dvar) (e : expr n),
    (exists d, diff n x e = Ok d) <-> (forall s, reachable s e -> blocks x s = false).
Proof. intros n x e. exact (diff_ok_iff n x e). Qed.
Print Assumptions C08_diff_succeeds_iff.

(** C08.  Otherwise an exception is thrown, never anything undefined: the exception is
    expression_not_differentiable, or rhs-provided-for-unary-operation if a binary node without binary
    operation occurs; diff() passes the exception on. *)
Theorem C08_diff_failure :
  forall (n : num) (x : dvar) (e : expr n),
    (forall d, diff n x e <> Ok d) ->
    exists exc, diff n x e = Throw exc /\ diff_top n x e = Throw exc /\
      (exc = ExpressionNotDifferentiable \/ (exc = RhsProvidedForUnaryOperation /\ malformed e)).
Proof.
  intros n x e H. pose proof (diff_failure n x e) as G. unfold diff_top.
  destruct (diff n x e) as [d|exc|]; simpl in G.
  - exfalso. eapply H; eauto.
  - exists exc. split; auto. split; auto. destruct exc; auto; contradiction.
  - contradiction.
Qed.
Print Assumptions C08_diff_failure.

(** x0 * fabs(x1) has no derivative by x0; x0 * [x0, exp(x0)] has one. *)
Example C08_case :
  diff numZ (DVar 0) (EBin BMult (EVar 0) (EUn UFabs (EVar 1))) = Throw ExpressionNotDifferentiable /\
  (exists d, diff numZ (DVar 0) (EBin BMult (EVar 0) (EVec [EVar 0; EUn UExp (EVar 0)])) = Ok d) /\
  diff numZ (DVar 0) (EBin BPlus (EVar 0) (EBin BUnaryId (EVar 1) (EVar 1))) = Throw RhsProvidedForUnaryOperation.
Proof. vm_compute. eauto. Qed.

(** C09.  Derivative by a function symbol [u] (Gateaux derivative): substitute the number [c] for
    [u].  If the result is regular at [v], then diff(e, u) succeeds, and its value with [c] for [u]
    is the derivative at [c] of the value of [e] as function of the number substituted for [u]. *)
Theorem C09_gateaux_derivative :
  forall (e ec : expr numR) (v : list (option R)) (i t : N) (c : R),
    subst1 numR (EFun i t) (EConst (Some c)) e = Ok ec -> regular ec v ->
    exists d q, diff_top numR (DFun i t) e = Ok d /\
      subst1_top numR (EFun i t) (EConst (Some c)) d = Ok q /\
      exists r, eval numR q v = Ok (Some r) /\
      exists g delta, (0 < delta)%R /\ derivable_pt_lim g c r /\
        forall s, (Rabs (s - c) < delta)%R ->
          exists es, subst1_top numR (EFun i t) (EConst (Some s)) e = Ok es /\
            eval numR es v = Ok (Some (g s)).
Proof.
  intros e ec v i t c Hs Rg. rewrite subst1_fun in Hs. inversion Hs; subst ec.
  apply regular_reg in Rg. exact (gateaux i t v c e Rg).
Qed.
Print Assumptions C09_gateaux_derivative.

(** x0 * exp(u) + u with u = 3 at x0 = 2. *)
Example C09_case :
  let e := EBin BPlus (EBin BMult (EVar 0) (EUn UExp (EFun 4 1))) (EFun 4 1) in
  exists ec, subst1 numR (EFun 4 1) (EConst (Some 3%R)) e = Ok ec /\ regular ec [Some 2%R].
Proof.
  eexists. split; [reflexivity|]. apply regular_reg. simpl. repeat split; eauto.
Qed.

(** Outside the scope of C09, a defect: the derivative of grad(u) by u is grad(1), where 1 is the scalar
    constant (manipulation/detail/unary_operations.hpp lines 642-664). *)
Example C09_gradient_of_one :
  diff_top numZ (DFun 0 0) (EUn UGrad (EFun 0 0)) = Ok (EUn UGrad (EConst 1%Z)).
Proof. vm_compute. reflexivity. Qed.

(** C10.  Mixed second derivatives have the same value at regular points, in both orders of diff()
    (which simplifies in between). *)
Theorem C10_mixed_derivatives_commute :
  forall (e : expr numR) (v : list (option R)) (i j : N) (x y : R),
    nth_error v (N.to_nat i) = Some (Some x) -> nth_error v (N.to_nat j) = Some (Some y) ->
    regular e v ->
    exists di dij dj dji r,
      diff_top numR (DVar i) e = Ok di /\ diff_top numR (DVar j) di = Ok dij /\
      diff_top numR (DVar j) e = Ok dj /\ diff_top numR (DVar i) dj = Ok dji /\
      eval numR dij v = Ok (Some r) /\ eval numR dji v = Ok (Some r).
Proof.
  intros e v i j x y Hx Hy Rg. apply regular_reg in Rg.
  assert (Step : forall k d, reg v d -> exists d', diff_top numR (DVar k) d = Ok d' /\ reg v d' /\
            rv v d' = rv v (pdiff k d) /\ simplify_top numR (pdiff k d) = Ok d').
  { intros k d Rd. unfold diff_top. rewrite (diff_pdiff k v d Rd). simpl.
    destruct (simplify_reg v _ (reg_pdiff k v d Rd)) as [d' [E [R' V]]]. eauto. }
  destruct (Step i e Rg) as [di [Ei [Ri [Vi Si]]]]. destruct (Step j e Rg) as [dj [Ej [Rj [Vj Sj]]]].
  destruct (Step j di Ri) as [dij [Eij [Rij [Vij _]]]]. destruct (Step i dj Rj) as [dji [Eji [Rji [Vji _]]]].
  exists di, dij, dj, dji, (rv v dij). repeat (split; [assumption|]).
  split; [apply reg_eval; auto|]. rewrite (reg_eval _ _ Rji). do 2 f_equal.
  rewrite Vij, Vji.
  rewrite (diff_simplified j v y _ di Hy (reg_pdiff i v e Rg) Si).
  rewrite (diff_simplified i v x _ dj Hx (reg_pdiff j v e Rg) Sj).
  symmetry. apply pdiff_comm; auto.
Qed.
Print Assumptions C10_mixed_derivatives_commute.

Example C10_case :
  regular (EBin BDiv (EUn ULog (EVar 0)) (EVar 1)) [Some 3%R; Some 2%R].
Proof. apply regular_reg. simpl. repeat split; eauto; lra. Qed.
