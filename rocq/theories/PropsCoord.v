(** Properties C32 and C52: Cartesian coordinates; meaning of expressions with function symbols. *)
From Coq Require Import ZArith NArith Reals List Bool Lia Lra.
From Coquelicot Require Import Coquelicot.
From Verif Require Import Outcome Num RtModel RtSpec RtTermination NumR NumRFacts NumZ DenSpec DenFacts
  CoordModel CoordSpec CoordFacts.
Import ListNotations.

(** C32.  For simplified input without vectors (every numeric type), the result is exactly the
    input with grad and div of u and v replaced and products of gradients written out. *)
Theorem C32_cartesian_form :
  forall (n : num) (d : dim) (e : expr n),
    can_simplify n e = Ok false -> tidy e -> apply_coordinate_system n d e = Ok (cart d e).
Proof. intros n d e F T. exact (acs_exact n d e F T). Qed.
Print Assumptions C32_cartesian_form.

(** C32 for equations. *)
Theorem C32_cartesian_form_of_equation :
  forall (n : num) (d : dim) (l r : expr n),
    can_simplify n l = Ok false -> tidy l -> can_simplify n r = Ok false -> tidy r ->
    apply_coordinate_system_equation n d (l, r) = Ok (cart d l, cart d r).
Proof.
  intros n d l r Fl Tl Fr Tr. unfold apply_coordinate_system_equation. simpl.
  rewrite (acs_exact n d l Fl Tl), (acs_exact n d r Fr Tr). reflexivity.
Qed.
Print Assumptions C32_cartesian_form_of_equation.

(** C32: no gradient or divergence of u or v is left ... *)
Theorem C32_eliminates_grad_and_div :
  forall (n : num) (d : dim) (e : expr n),
    can_simplify n e = Ok false -> tidy e ->
    exists e', apply_coordinate_system n d e = Ok e' /\
      forall op t, op = UGrad \/ op = UDiv -> t = 0%N \/ t = 1%N ->
        ~ reachable (EUn op (EFun 0 t)) e'.
Proof.
  intros n d e F T. exists (cart d e). split; [exact (acs_exact n d e F T)|].
  intros op t O TT. exact (cart_eliminates n d e op t (tidy_vfree n e T) O TT).
Qed.
Print Assumptions C32_eliminates_grad_and_div.

(** ... and a partial derivative in the result comes from one of the input or is a derivative
    of u or v with respect to a coordinate. *)
Theorem C32_introduces_only_partial_derivatives :
  forall (n : num) (d : dim) (e e' : expr n) i a,
    can_simplify n e = Ok false -> tidy e -> apply_coordinate_system n d e = Ok e' ->
    reachable (EUn (UPd i) a) e' ->
    (exists a0, reachable (EUn (UPd i) a0) e) \/
    ((i < N.of_nat (coords d))%N /\ exists t op, a = EFun 0 t /\ (t = 0%N \/ t = 1%N) /\
       (op = UGrad \/ op = UDiv) /\ reachable (EUn op (EFun 0 t)) e).
Proof.
  intros n d e e' i a F T E R. rewrite (acs_exact n d e F T) in E. injection E as <-.
  destruct (cart_introduces n d e i a (tidy_vfree n e T) R) as [[a0 [A _]]|H]; [left; eauto|right; exact H].
Qed.
Print Assumptions C32_introduces_only_partial_derivatives.

(** The weak form of the Poisson equation in two dimensions:
    integral of (grad(u) * grad(v)) minus integral of (x0 * v). *)
Definition poisson {T : Type} : expr T :=
  EBin BMinus (EUn (USymInt 0) (EBin BMult (EUn UGrad (EFun 0 0)) (EUn UGrad (EFun 0 1))))
              (EUn (USymInt 0) (EBin BMult (EVar 0) (EFun 0 1))).
Example C32_case :
  can_simplify numZ poisson = Ok false /\ tidy (poisson : expr numZ) /\
  apply_coordinate_system numZ D2 poisson =
  Ok (EBin BMinus
        (EUn (USymInt 0)
           (EBin BPlus (EBin BMult (EUn (UPd 0) (EFun 0 0)) (EUn (UPd 0) (EFun 0 1)))
                       (EBin BMult (EUn (UPd 1) (EFun 0 0)) (EUn (UPd 1) (EFun 0 1)))))
        (EUn (USymInt 0) (EBin BMult (EVar 0) (EFun 0 1)))).
Proof.
  split; [reflexivity|]. split; [|vm_compute; reflexivity].
  intros s H. repeat match goal with H : reachable _ _ |- _ => inversion H; subst; clear H end; exact Logic.I.
Qed.

(** C32: without simplified input the elimination can fail.  grad(0 + u) is only simplified to
    grad(u) after grad(u) has been searched for. *)
Theorem C32_unsimplified_input_refuted :
  exists e e' : expr numZ, tidy e /\ apply_coordinate_system numZ D2 e = Ok e' /\
    reachable (EUn UGrad (EFun 0 0)) e'.
Proof.
  exists (EUn UGrad (EBin BPlus (EConst 0%Z) (EFun 0 0))), (EUn UGrad (EFun 0 0)).
  split; [|split; [vm_compute; reflexivity|constructor]].
  intros s H. repeat match goal with H : reachable _ _ |- _ => inversion H; subst; clear H end; exact Logic.I.
Qed.
Print Assumptions C32_unsimplified_input_refuted.

(** C32: an expression in which neither u nor v occurs is only simplified ... *)
Theorem C32_nothing_else_is_replaced :
  forall (n : num) (d : dim) (e : expr n), ~ occurs_fun 0 0 e -> ~ occurs_fun 0 1 e ->
    apply_coordinate_system n d e = simplify_top n e.
Proof. intros n d e. exact (acs_absent n d e). Qed.
Print Assumptions C32_nothing_else_is_replaced.

(** ... so that, contrary to the manual (doc/manual/additional.tex), gradients and divergences of expressions and of
    function symbols with other ids are never computed: the result can be evaluated nowhere. *)
Theorem C32_gradient_of_expression_refuted :
  forall (n : num) (d : dim) (op : uop) (a e' : expr n), op = UGrad \/ op = UDiv ->
    ~ occurs_fun 0 0 a -> ~ occurs_fun 0 1 a ->
    apply_coordinate_system n d (EUn op a) = Ok e' ->
    forall v x, eval n e' v <> Ok x.
Proof.
  intros n d op a e' O A B H v x.
  assert (U : forall i t, occurs_fun i t (EUn op a) -> occurs_fun i t a) by (intros i t X; inversion X; assumption).
  rewrite acs_absent in H by (intros X; apply U in X; contradiction).
  assert (C : u_can_simplify op = false) by (destruct O as [-> | ->]; reflexivity).
  destruct (formal_stays n op C _ _ H (ex_intro _ a eq_refl)) as [b ->].
  simpl. destruct (eval n b v); simpl; [|discriminate|discriminate]. destruct O as [-> | ->]; discriminate.
Qed.
Print Assumptions C32_gradient_of_expression_refuted.

(** The trees of the manual's examples grad(x + y) and div(grad(x * x + y * y)) (which cannot be written as there: grad()
    of a sum does not compile, C58), grad(sin(x)), which can, and grad(v) for the symbol v(1). *)
Example C32_manual_cases :
  apply_coordinate_system numZ D1 (EUn UGrad (EUn USin (EVar 0))) = Ok (EUn UGrad (EUn USin (EVar 0))) /\
  apply_coordinate_system numZ D1 (EUn UGrad (EBin BPlus (EVar 0) (EVar 1))) =
    Ok (EUn UGrad (EBin BPlus (EVar 0) (EVar 1))) /\
  apply_coordinate_system numZ D3
    (EUn UDiv (EUn UGrad (EBin BPlus (EBin BMult (EVar 0) (EVar 0)) (EBin BMult (EVar 1) (EVar 1))))) =
    Ok (EUn UDiv (EUn UGrad (EBin BPlus (EBin BMult (EVar 0) (EVar 0)) (EBin BMult (EVar 1) (EVar 1))))) /\
  apply_coordinate_system numZ D2 (EUn UGrad (EFun 1 0)) = Ok (EUn UGrad (EFun 1 0)).
Proof. vm_compute. repeat split. Qed.

(** C32, semantically and for every input: if gradient and divergence of u and v stand for the
    Cartesian ones, the transformation preserves the meaning of every meaningful expression. *)
Theorem C32_preserves_meaning :
  forall (P : Type) (p : P) (I : interp P) (d : dim) (e : expr numR) (x : val P),
    cartesian_interp d I -> means I e x ->
    exists e', apply_coordinate_system numR d e = Ok e' /\ means I e' x.
Proof. intros P p I d e x C M. exact (acs_means I p d e x C M). Qed.
Print Assumptions C32_preserves_meaning.

(** Points of the plane, functions on it and their derivatives: an interpretation meeting the
    hypothesis of C32_preserves_meaning.  u = x^2 y, v = x + y. *)
Definition plane_pd (i : N) (f : R * R -> R) (p : R * R) : R :=
  if N.eqb i 0 then Derive (fun t => f (t, snd p)) (fst p) else Derive (fun t => f (fst p, t)) (snd p).
Definition plane : interp (R * R) := {|
  i_var := fun i p => if N.eqb i 0 then fst p else snd p;
  i_fun := fun _ t => if N.eqb t 0 then Sc (fun p => fst p * fst p * snd p)%R
                      else Sc (fun p => fst p + snd p)%R;
  i_op := fun op x =>
    match op, x with
    | UPd i, Sc f => Some (Sc (plane_pd i f))
    | UGrad, Sc f => Some (Ve [plane_pd 0 f; plane_pd 1 f])
    | UDiv, Sc f => Some (Sc (fun p => plane_pd 0 f p + plane_pd 1 f p)%R)
    | UDiv, Ve [f; g] => Some (Sc (fun p => plane_pd 0 f p + plane_pd 1 g p)%R)
    | _, _ => None
    end;
  i_int := fun _ _ _ _ => None
|}.
Example C32_case_meaning :
  cartesian_interp D2 plane /\
  exists x, means plane (EBin BMult (EUn UGrad (EFun 0 0)) (EUn UGrad (EFun 0 1))) x.
Proof.
  split.
  - intros t T. destruct T as [->| ->]; simpl; split; intros x H; injection H as <-; do 2 eexists;
      (split; [reflexivity|]; split; reflexivity).
  - eexists. do 2 eexists. split; [eexists; split; [reflexivity|]; reflexivity|].
    split; [eexists; split; [reflexivity|]; reflexivity|].
    split; [reflexivity|]. split; [discriminate|reflexivity].
Qed.

(** C52.  Simplification succeeds on every meaningful expression and preserves its meaning,
    whatever the function symbols, formal operators and integrals stand for. *)
Theorem C52_simplify_preserves_meaning :
  forall (P : Type) (p : P) (I : interp P) (e : expr numR) (x : val P),
    means I e x -> exists e', simplify_top numR e = Ok e' /\ means I e' x.
Proof. intros P p I e x M. exact (top_means I p e x M). Qed.
Print Assumptions C52_simplify_preserves_meaning.

(** The meaning of an expression is unique ... *)
Theorem C52_meaning_is_unique :
  forall (P : Type) (I : interp P) (e : expr numR) (x y : val P),
    means I e x -> means I e y -> x = y.
Proof. intros P I e x y. exact (means_unique I e x y). Qed.
Print Assumptions C52_meaning_is_unique.

(** ... and for an expression that can be evaluated it is the value. *)
Theorem C52_meaning_extends_eval :
  forall (v : list (option R)) (I : interp unit) (e : expr numR) (r : R),
    (forall i x, nth_error v (N.to_nat i) = Some (Some x) -> i_var I i = fun _ => x) ->
    eval numR e v = Ok (Some r) -> means I e (Sc (fun _ => r)).
Proof. intros v I e r H E. exact (means_eval v I e r H E). Qed.
Print Assumptions C52_meaning_extends_eval.

(** (1 * grad(u)) * grad(v) in the plane. *)
Example C52_case :
  exists x, means plane (EBin BMult (EBin BMult (EConst (Some 1%R)) (EUn UGrad (EFun 0 0)))
                                    (EUn UGrad (EFun 0 1))) x.
Proof.
  eexists. do 2 eexists. split.
  - do 2 eexists. split; [exists 1%R; split; reflexivity|].
    split; [eexists; split; [reflexivity|]; reflexivity|].
    split; [reflexivity|]. split; [exists (0%R, 0%R); lra|reflexivity].
  - split; [eexists; split; [reflexivity|]; reflexivity|].
    split; [reflexivity|]. split; [discriminate|reflexivity].
Qed.

(** C52: the restriction to factors that are not constantly 0 in products with vectors is
    needed; the simplified product of 0 and a vector is a scalar. *)
Theorem C52_zero_times_vector_refuted :
  exists (e e' : expr numR) (f g : R * R -> R),
    means plane e (Ve [f; g]) /\
    simplify_top numR (EBin BMult (EConst (Some 0%R)) e) = Ok e' /\
    forall y, means plane e' y -> exists h, y = Sc h.
Proof.
  exists (EUn UGrad (EFun 0 0)), (EConst (Some 0%R)). do 2 eexists. split; [|split].
  - eexists. split; [reflexivity|]. reflexivity.
  - assert (Z : r_eqb 0 0 = true) by (apply r_eqb_true; reflexivity).
    rewrite (top_step numR _ (EConst (Some 0%R))); [apply top_done; reflexivity| |];
      simpl; rewrite Z; reflexivity.
  - intros y [r [_ ->]]. eauto.
Qed.
Print Assumptions C52_zero_times_vector_refuted.
