(** Property C74: what simplification leaves behind, and putting numbers in for some variables. *)
From Coq Require Import ZArith NArith Reals List Bool Lia Lra.
From Flocq Require Import Core BinarySingleNaN.
From Verif Require Import Outcome Num RtModel RtSpec RtFacts RtEval RtSubst NormalSpec NormalFacts NumR NumZ NumB64
  NumB64Facts PropsFloat.
Import ListNotations.

(** C74.  In the result of simplify() no operation is left whose operands are both constant, that adds or
    subtracts 0, subtracts from 0, multiplies by 0 or 1, divides by 1, divides 0 or multiplies two vectors;
    and simplify() returns an expression unchanged exactly if there is no such operation in it. *)
Theorem C74_what_is_left :
  forall (n : num) (e e' : expr n), simplify_top n e = Ok e' -> normal e'.
Proof. intros n e e'. exact (simplified_normal n e e'). Qed.
Print Assumptions C74_what_is_left.

Theorem C74_unchanged_exactly_if_nothing_to_do :
  forall (n : num) (e : expr n), simplify_top n e = Ok e <-> normal e.
Proof. intros n e. exact (unchanged_iff_normal n e). Qed.
Print Assumptions C74_unchanged_exactly_if_nothing_to_do.

(** 2 * (x0 - exp(x1)) is normal, 2 * (x0 - 0) is not. *)
Example C74_normal_case :
  simplify_top numZ (EBin BMult (EConst 2%Z) (EBin BMinus (EVar 0) (EUn UExp (EVar 1)))) =
    Ok (EBin BMult (EConst 2%Z) (EBin BMinus (EVar 0) (EUn UExp (EVar 1)))) /\
  ~ @normal numZ (EBin BMult (EConst 2%Z) (EBin BMinus (EVar 0) (EConst 0%Z))).
Proof.
  split; [vm_compute; reflexivity|]. intros N.
  assert (W : within (EBin BMinus (EVar 0) (EConst 0%Z))
                (EBin BMult (EConst 2%Z) (EBin BMinus (EVar 0) (EConst 0%Z))))
    by (apply W_right; [discriminate|apply W_here]).
  apply N in W. destruct W as [_ [_ W]]. apply W. exists 0%Z. split; reflexivity.
Qed.

(** Putting numbers in for all variables of an expression written with + - * / leaves one constant, which
    is the value of the expression there (every numeric type, bit for bit for doubles). *)
Theorem C74_all_numbers_leave_one_number :
  forall (n : num) (ids : list N) (cs : list n) (e : expr n) (w : list n),
    length ids = length cs -> polynomial_in ids e ->
    (forall i, In i ids -> exists c, assoc (combine ids cs) i = Some c /\ nth_error w (N.to_nat i) = Some c) ->
    exists c, substv_top n (map EVar ids) (map EConst cs) e = Ok (EConst c) /\ eval n e w = Ok c.
Proof.
  intros n ids cs e w L P W.
  assert (K : forall i, In i ids -> exists c, assoc (combine ids (map EConst cs)) i = Some (EConst c) /\
                nth_error w (N.to_nat i) = Some c).
  { intros i I. destruct (W i I) as [c [A X]]. exists c. split; auto. clear - A. revert cs A.
    induction ids as [|j ids IH]; intros [|d cs] A; simpl in *; try discriminate.
    destruct (N.eqb j i); [congruence|auto]. }
  destruct (fold_arithmetic n ids _ w e P K) as [C [c [U E]]].
  exists c. split; auto. unfold substv_top. rewrite !map_length, L, Nat.eqb_refl.
  rewrite substv_vars by (rewrite map_length; exact L).
  simpl. apply simplify_constant; assumption.
Qed.
Print Assumptions C74_all_numbers_leave_one_number.

Example C74_numbers_case :
  let e := EBin BDiv (EBin BPlus (EVar 0) (EConst 3%Z)) (EBin BMinus (EVar 2) (EVar 0)) in
  polynomial_in [2; 0]%N e /\
  substv_top numZ [EVar 2; EVar 0] [EConst 7%Z; EConst 5%Z] e = Ok (EConst 4%Z) /\
  eval numZ e [5%Z; 100%Z; 7%Z] = Ok 4%Z.
Proof.
  cbv zeta. split; [|vm_compute; split; reflexivity].
  repeat (constructor; try discriminate; simpl; auto).
Qed.

(** Putting a double in for one variable, the others left: the result evaluates, with finite values only,
    to what the expression evaluates to with the number in that entry, up to the sign of a zero; the variable is
    gone and no operation on constants is left.  (The precomputation of the tutorial model_benchmark.cpp.) *)
Theorem C74_partial_evaluation_in_doubles :
  forall (lm : libm), zero_symmetric lm ->
  forall (e : expr (numB64 lm)) (i : N) (c : f64) (v : list f64),
    (i < N.of_nat (length v))%N -> finite64 c ->
    all_values (n := numB64 lm) finite64 (update v (N.to_nat i) c) e ->
    exists e' x y, subst1_top (numB64 lm) (EVar i) (EConst c) e = Ok e' /\
      eval (numB64 lm) e (update v (N.to_nat i) c) = Ok x /\ eval (numB64 lm) e' v = Ok y /\ same64 x y /\
      all_values (n := numB64 lm) finite64 v e' /\ ~ occurs_var i e' /\ normal (n := numB64 lm) e'.
Proof.
  intros lm ZS e i c v L FC A. assert (L' : (N.to_nat i < length v)%nat) by lia. destruct (A e (sub_refl e)) as [x [E _]].
  set (f := fun j : N => if N.eqb i j then Some (EConst c) else None).
  assert (A' : all_values (n := numB64 lm) finite64 v (replace_vars f e)).
  { apply (replace_values (numB64 lm) finite64 f v (update v (N.to_nat i) c)); auto.
    intros j _. unfold f. destruct (N.eqb i j) eqn:Q.
    - apply N.eqb_eq in Q. subst j. split.
      + intros s Hs. inversion Hs; subst. exists c. split; auto.
      + exists c. split; auto. apply update_same. exact L'.
    - apply N.eqb_neq in Q. apply update_other. lia. }
  assert (E' : eval (numB64 lm) (replace_vars f e) v = Ok x)
    by (apply (eval_subst1_var (numB64 lm) i (EConst c) e v c x eq_refl L); exact E).
  destruct (simplify64 lm ZS v _ x A' E') as [e' [y [P [Q [S T]]]]].
  exists e', x, y. unfold subst1_top. rewrite subst1_var. change (fun j : N => _) with f. simpl bind.
  split; [exact P|]. split; [exact E|]. split; [exact S|]. split; [exact T|]. split; [exact Q|].
  split; [|exact (simplified_normal _ _ _ P)].
  intros O. apply (replaced_gone (numB64 lm) i c _ e finite64 A).
  exact (top_represented _ _ _ P _ O).
Qed.
Print Assumptions C74_partial_evaluation_in_doubles.

(** x1 * x0 at x0 = x1 = 1.5, with 1.5 put in for x1. *)
Example C74_doubles_case :
  let n := numB64 lm0 in
  let e := EBin BMult (EBin BPlus (EVar 1) (EConst (c0 n))) (EVar 0) in
  all_values (n := n) finite64 (update [d15; c0 n] 1 d15) e /\
  subst1_top n (EVar 1) (EConst d15) e = Ok (EBin BMult (EConst d15) (EVar 0)).
Proof.
  cbv zeta. split; [|reflexivity].
  intros s H.
  repeat match goal with
         | H : subterm _ _ |- _ => inversion H; subst; clear H
         end; (eexists; split; [reflexivity|vm_compute; reflexivity]).
Qed.

(** The expression T * eps * x * exp(pv / (kb * T)) of model_benchmark.cpp (line 105; x is variable 0, T is
    variable 1): with a number for T two multiplications by constants are left, for every numeric type and all
    values of the parameters for which none of the computed factors happens to be 0 or 1. *)
Theorem C74_benchmark_expression :
  forall (n : num) (eps pv kb t : n),
    (forall z, In z [0%Z; 1%Z] ->
       n_eq n (n_mul n t eps) (n_of_Z n z) = false /\
       n_eq n (n_exp n (n_div n pv (n_mul n kb t))) (n_of_Z n z) = false) ->
    subst1_top n (EVar 1) (EConst t)
      (EBin BMult (EBin BMult (EBin BMult (EVar 1) (EConst eps)) (EVar 0))
         (EUn UExp (EBin BDiv (EConst pv) (EBin BMult (EConst kb) (EVar 1))))) =
    Ok (EBin BMult (EBin BMult (EConst (n_mul n t eps)) (EVar 0))
          (EConst (n_exp n (n_div n pv (n_mul n kb t))))).
Proof.
  intros n eps pv kb t H.
  destruct (H 0%Z (or_introl eq_refl)) as [A0 B0].
  destruct (H 1%Z (or_intror (or_introl eq_refl))) as [A1 B1].
  unfold subst1_top. rewrite subst1_var. simpl bind.
  erewrite RtTermination.top_step.
  - apply RtTermination.top_done. cbn. unfold const_eq. cbn. unfold c0, c1. rewrite A0, A1, B0, B1. reflexivity.
  - cbn. unfold const_eq. cbn. unfold c0, c1. rewrite A0, A1. reflexivity.
  - cbn. unfold c0, c1. rewrite A0, A1. reflexivity.
Qed.
Print Assumptions C74_benchmark_expression.

Example C74_benchmark_case : (* t = 300, eps = 2, pv = 6000, kb = 2 *)
  forall z, In z [0%Z; 1%Z] ->
    n_eq numZ (n_mul numZ 300%Z 2%Z) (n_of_Z numZ z) = false /\
    n_eq numZ (n_exp numZ (n_div numZ 6000%Z (n_mul numZ 2%Z 300%Z))) (n_of_Z numZ z) = false.
Proof. intros z [<- | [<- | []]]; split; reflexivity. Qed.

(** Finding: a function of a number is computed in advance only by accident.  With numbers for all variables
    exp(x0) + x0 stays exp(c) + c (for every c other than 0), and exp is evaluated again at
    each call, while exp(x0) + x0 * x0 becomes one constant. *)
Theorem C74_functions_of_numbers_refuted :
  forall (n : num) (c : n), n_eq n c (n_of_Z n 0) = false ->
    subst1_top n (EVar 0) (EConst c) (EBin BPlus (EUn UExp (EVar 0)) (EVar 0)) =
      Ok (EBin BPlus (EUn UExp (EConst c)) (EConst c)) /\
    subst1_top n (EVar 0) (EConst c) (EUn UExp (EVar 0)) = Ok (EUn UExp (EConst c)) /\
    (n_eq n (n_mul n c c) (n_of_Z n 0) = false ->
     exists d, subst1_top n (EVar 0) (EConst c) (EBin BPlus (EUn UExp (EVar 0)) (EBin BMult (EVar 0) (EVar 0))) =
      Ok (EConst d)).
Proof.
  intros n c Z. split; [|split].
  - unfold subst1_top. rewrite subst1_var. simpl bind. apply RtTermination.top_done. simpl.
    unfold const_eq. simpl. unfold c0. rewrite Z. reflexivity.
  - unfold subst1_top. rewrite subst1_var. simpl bind. apply RtTermination.top_done. reflexivity.
  - intros Z2. eexists. unfold subst1_top. rewrite subst1_var. simpl bind.
    erewrite RtTermination.top_step; [|simpl; unfold const_eq; simpl; unfold c0; rewrite Z2; reflexivity|simpl; unfold c0; rewrite Z2; reflexivity].
    apply simplify_constant; reflexivity.
Qed.
Print Assumptions C74_functions_of_numbers_refuted.

Example C74_refuted_case :
  n_eq numZ 3%Z (n_of_Z numZ 0) = false /\ n_eq numZ (n_mul numZ 3%Z 3%Z) (n_of_Z numZ 0) = false.
Proof. split; reflexivity. Qed.
