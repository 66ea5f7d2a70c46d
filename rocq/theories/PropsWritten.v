(** Properties C64-C66: derivative, substitution and integral of what the user wrote, from the
    operators with which it was written to the number that is returned. *)
From Coq Require Import ZArith NArith List Bool Reals Lia Lra.
From Coquelicot Require Import Coquelicot.
From Verif Require Import Outcome Num NumR NumRFacts RtModel RtSpec RealSpec RtSubst CtModel CtOpsModel CtManipSpec ApiModel ApiSpec
  OverModel OverSpec QuadModel QuadSpec WrittenSpec CalcFacts WrittenFacts.
Import ListNotations.
Local Open Scope R_scope.

(** C64.  Differentiating what was written, whatever the classes of the objects it consists of are:
    if diff(e, x) compiles, it returns an expression, whose value is the derivative of the real
    function of x that was written. *)
Theorem C64_derivative_of_what_was_written :
  forall s o x i r rho v,
    build numR s = Some o -> no_constant_quotient s -> smooth rho s ->
    nth_error v (N.to_nat i) = Some (Some (rho i)) ->
    (forall j, src_occurs j s -> nth_error v (N.to_nat j) = Some (Some (rho j))) ->
    x = ByVar i \/ x = ByCt i -> diff_obj numR o x = Some r ->
    exists d t y g,
      r = Ok d /\ to_tree numR d = Some t /\ eval numR t v = Ok (Some y) /\
      written_slice rho i s g /\ derivable_pt_lim g (rho i) y.
Proof. exact derivative_written. Qed.
Print Assumptions C64_derivative_of_what_was_written.

(** (x0 + 3) * sqrt(x1), differentiated by the run-time variable x1 at (2, 4). *)
Example C64_case :
  let s : src numR := SOp CMult (SOp CPlus (SCtVar 0) (SInt 3)) (SFun FSqrt (SRtVar 1)) in
  let rho := fun i : N => if N.eqb i 0 then 2 else 4 in
  (exists o r, build numR s = Some o /\ diff_obj numR o (ByVar 1) = Some r) /\
  no_constant_quotient s /\ smooth rho s.
Proof.
  cbv zeta. split; [|split].
  - eexists. eexists. split; reflexivity.
  - simpl. repeat split; try exact I; intros E; discriminate E.
  - split; [|split].
    + cbn. destruct (Rle_dec 0 4) as [_|H]; [|lra]. eexists. reflexivity.
    + intros a H. inversion H as [|? ? ? K|? ? ? K| | | | |]; subst.
      * inversion K as [|? ? ? L|? ? ? L| | | | |]; subst; inversion L.
      * inversion K as [| | |? ? L| | | |]; subst. inversion L.
    + intros a H. inversion H as [|? ? ? K|? ? ? K| | | | |]; subst.
      * inversion K as [|? ? ? L|? ? ? L| | | | |]; subst; inversion L.
      * inversion K as [| | |? ? L| | | |]; subst; [|inversion L].
        cbn. intros E. injection E. lra.
Qed.

(** C65.  Substituting in what was written: the value of substitute(x, r, e) is the value of what was
    written for e at the point whose coordinate x is the value of what was written for r.  The
    expressions may be of any classes for which the call compiles, but a variable searched in a
    compile-time expression must be a compile-time variable, with a compile-time replacement. *)
Theorem C65_substitution_in_what_was_written :
  forall x i sr se r e res tr rho v w z,
    build numR sr = Some r -> build numR se = Some e ->
    no_constant_quotient sr -> no_constant_quotient se ->
    x = ORt (EVar i) \/ x = OExpr (EVar i) \/ x = OCt (MVar i) ->
    (is_ct e -> is_ct x /\ is_ct r) -> (is_ct x -> is_ct e) ->
    subst_obj numR x r e = Some res -> to_tree numR r = Some tr ->
    (N.to_nat i < length v)%nat ->
    (forall j, src_occurs j sr -> nth_error v (N.to_nat j) = Some (Some (rho j))) ->
    (forall j, j <> i -> src_occurs j se -> nth_error v (N.to_nat j) = Some (Some (rho j))) ->
    src_val rho sr = Some w -> src_val (fun j => if N.eqb j i then w else rho j) se = Some z ->
    exists d t, res = Ok d /\ to_tree numR d = Some t /\ eval numR t v = Ok (Some z).
Proof. exact substitute_written. Qed.
Print Assumptions C65_substitution_in_what_was_written.

(** x0 := x1 - 1 in exp(x0) * x1 (run time), and in x0 * x0 + 2 with compile-time variables. *)
Example C65_case :
  let sr : src numR := SOp CMinus (SRtVar 1) (SInt 1) in
  let se : src numR := SOp CMult (SFun FExp (SRtVar 0)) (SRtVar 1) in
  let cr : src numR := SOp CMinus (SCtVar 1) (SCtConst 1) in
  let ce : src numR := SOp CPlus (SOp CMult (SCtVar 0) (SCtVar 0)) (SCtConst 2) in
  (exists r e res, build numR sr = Some r /\ build numR se = Some e /\
     subst_obj numR (ORt (EVar 0)) r e = Some res /\ ~ is_ct e) /\
  (exists r e res, build numR cr = Some r /\ build numR ce = Some e /\
     subst_obj numR (OCt (MVar 0)) r e = Some res /\ is_ct e /\ is_ct r /\
     exists t, to_tree numR r = Some t) /\
  src_val (fun _ => 4) sr = Some (4 - 1) /\
  src_val (fun j => if N.eqb j 0 then 4 - 1 else 4) se = Some (exp (4 - 1) * 4).
Proof.
  cbv zeta. split; [|split; [|split]].
  - do 3 eexists. split; [reflexivity|]. split; [reflexivity|]. split; [reflexivity|]. intros [].
  - do 3 eexists. split; [reflexivity|]. split; [reflexivity|]. split; [reflexivity|].
    split; [exact I|]. split; [exact I|]. eexists. reflexivity.
  - reflexivity.
  - reflexivity.
Qed.

(** C66.  Integrating what was written: the bounds are written with numbers and constants, the
    integrand with the integration variable only.  If make_interval() and integral() compile, the
    one-point quadrature returns the value of the integrand in the middle times the length of the
    interval, with sign. *)
Theorem C66_quadrature_of_what_was_written :
  forall sa sb sf a b f I ct i o rho A B y,
    build numR sa = Some a -> build numR sb = Some b -> build numR sf = Some f ->
    no_constant_quotient sa -> no_constant_quotient sb -> no_constant_quotient sf ->
    arithmetic sa -> arithmetic sb -> (forall j, src_occurs j sf -> j = i) ->
    make_interval numR a b = Some I -> integral numR I f ct i = Some o ->
    src_val rho sa = Some A -> src_val rho sb = Some B ->
    src_val (fun _ => (A + B) / 2) sf = Some y ->
    exists t, o = OExpr t /\ quadrature numR (gauss_quad_1 numR) t = Ok (Some (y * (B - A))).
Proof. exact quadrature_written. Qed.
Print Assumptions C66_quadrature_of_what_was_written.

(** C66.  How far this is from the integral: if what was written is between the bounds the function
    [g] with second derivative [g2], which is at most [M] there, the error is at most
    M |B - A|^3 / 24.  It vanishes for an affine integrand. *)
Theorem C66_quadrature_error :
  forall sa sb sf a b f I ct i o rho A B g g1 g2 M,
    build numR sa = Some a -> build numR sb = Some b -> build numR sf = Some f ->
    no_constant_quotient sa -> no_constant_quotient sb -> no_constant_quotient sf ->
    arithmetic sa -> arithmetic sb -> (forall j, src_occurs j sf -> j = i) ->
    make_interval numR a b = Some I -> integral numR I f ct i = Some o ->
    src_val rho sa = Some A -> src_val rho sb = Some B ->
    (forall t, Rmin A B <= t <= Rmax A B ->
       src_val (fun _ => t) sf = Some (g t) /\
       derivable_pt_lim g t (g1 t) /\ derivable_pt_lim g1 t (g2 t) /\ Rabs (g2 t) <= M) ->
    exists t q J, o = OExpr t /\ quadrature numR (gauss_quad_1 numR) t = Ok (Some q) /\
      is_RInt g A B J /\ Rabs (q - J) <= M * Rabs (B - A) ^ 3 / 24.
Proof.
  intros sa sb sf a b f I ct i o rho A B g g1 g2 M Ba Bb Bf Qa Qb Qf Aa Ab O HI HO VA VB G.
  assert (Hm : Rmin A B <= (A + B) / 2 <= Rmax A B)
    by (unfold Rmin, Rmax; destruct (Rle_dec A B); lra).
  destruct (quadrature_written sa sb sf a b f I ct i o rho A B (g ((A + B) / 2))) as [t [-> E]]; auto.
  { apply G. exact Hm. }
  destruct (midpoint_error_any g g1 g2 A B M) as [J [HJ Er]].
  - intros s S. apply is_derive_Reals. apply G. exact S.
  - intros s S. apply is_derive_Reals. apply G. exact S.
  - intros s S. apply G. exact S.
  - exists t, (g ((A + B) / 2) * (B - A)), J. auto.
Qed.
Print Assumptions C66_quadrature_error.

(** The integral of cos(x0) * 2 from 0 to 1 + 2, with M = 2. *)
Example C66_case :
  let sa : src numR := @SNum numR (Some 0) in
  let sb : src numR := SOp CPlus (@SRtConst numR (Some 1)) (SInt 2) in
  let sf : src numR := SExpr (SOp CMult (SFun FCos (SRtVar 0)) (SInt 2)) in
  (exists a b f I o, build numR sa = Some a /\ build numR sb = Some b /\ build numR sf = Some f /\
     make_interval numR a b = Some I /\ integral numR I f false 0 = Some o) /\
  no_constant_quotient sb /\ arithmetic sa /\ arithmetic sb /\ (forall j, src_occurs j sf -> j = 0%N) /\
  src_val (fun _ => 7) sa = Some 0 /\ src_val (fun _ => 7) sb = Some (1 + 2) /\
  forall t, src_val (fun _ => t) sf = Some (cos t * 2) /\
    derivable_pt_lim (fun t => cos t * 2) t (- sin t * 2) /\
    derivable_pt_lim (fun t => - sin t * 2) t (- cos t * 2) /\ Rabs (- cos t * 2) <= 2.
Proof.
  cbv zeta. split; [|split; [|split; [|split; [|split; [|split; [|split]]]]]].
  - do 5 eexists. repeat split.
  - simpl. repeat split; intros E; discriminate E.
  - exact I.
  - split; exact I.
  - simpl. intuition.
  - reflexivity.
  - reflexivity.
  - intros t. split; [reflexivity|]. split; [|split].
    + apply is_derive_Reals. auto_derive; [exact I|ring].
    + apply is_derive_Reals. auto_derive; [exact I|ring].
    + apply Rabs_le. pose proof (COS_bound t). lra.
Qed.
