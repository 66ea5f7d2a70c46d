(** Properties C20 - C22: structural equality of run-time expressions. *)
From Coq Require Import ZArith NArith Reals List Bool Lia Lra.
From Verif Require Import Outcome Num RtModel RtSpec RtFacts RtStep RtTermination RtValue RtEval
  RtEqual NumR NumRFacts NumREqual NumZ.
Import ListNotations.

(** C20.  On expressions without vectors and integrals deep_equal always answers, and the
    answer is true exactly if the two trees are identical up to numeric equality of the
    constants. *)
Theorem C20_deep_equal_is_identity_up_to_constants :
  forall (n : num) (a b : expr n), plain a ->
    (deep_equal n a b = Ok true /\ same (num_equal n) a b) \/
    (deep_equal n a b = Ok false /\ ~ same (num_equal n) a b).
Proof.
  intros n a b P. destruct (deq_plain n a b P) as [[] [E F]].
  - left. split; [exact E|]. apply F. reflexivity.
  - right. split; [exact E|]. intros S. apply F in S. discriminate.
Qed.
Print Assumptions C20_deep_equal_is_identity_up_to_constants.

(** C20.  Where numeric equality is an equivalence (no NaN), so is deep_equal. *)
Theorem C20_deep_equal_is_an_equivalence :
  forall (n : num) (good : n -> Prop) (a b c : expr n),
    equal_laws n good ->
    plain a -> plain b -> plain c ->
    all_consts good a -> all_consts good b -> all_consts good c ->
    deep_equal n a a = Ok true /\
    deep_equal n a b = deep_equal n b a /\
    (deep_equal n a b = Ok true -> deep_equal n b c = Ok true -> deep_equal n a c = Ok true).
Proof.
  intros n good a b c L Pa Pb Pc Ga Gb Gc.
  exact (deq_equivalence n good L a b c Pa Pb Pc Ga Gb Gc).
Qed.
Print Assumptions C20_deep_equal_is_an_equivalence.

(** The hypotheses hold for the real numbers. *)
Theorem C20_reals_have_equal_laws : equal_laws numR def.
Proof. exact equal_laws_R. Qed.
Print Assumptions C20_reals_have_equal_laws.

Example C20_case :
  let e := EBin BPlus (EUn UExp (EVar 1)) (EConst 4%Z) : expr numZ in
  plain e /\ deep_equal numZ e e = Ok true /\
  deep_equal numZ e (EBin BPlus (EUn UExp (EVar 1)) (EConst 5%Z)) = Ok false.
Proof.
  split; [|vm_compute; split; reflexivity].
  intros s S.
  repeat match goal with H : subterm _ _ |- _ => inversion H; subst; clear H; simpl; auto end.
Qed.

(** C21.  Over the reals, deep_equal expressions are identical, hence interchangeable in
    every respect. *)
Theorem C21_deep_equal_reals_identical :
  forall a b : expr numR, plain a ->
    deep_equal numR a b = Ok true ->
    a = b.
Proof. intros a b P H. exact (deq_real a b P H). Qed.
Print Assumptions C21_deep_equal_reals_identical.

(** C21 for every numeric type: deep_equal expressions contain the same variables, and
    differentiating them either fails in the same way or gives deep_equal results. *)
Theorem C21_deep_equal_same_variables :
  forall (n : num) (a b : expr n), plain a -> deep_equal n a b = Ok true ->
    forall i, occurs_var i a <-> occurs_var i b.
Proof.
  intros n a b P H. destruct (deq_plain n a b P) as [q [E F]].
  apply (same_occurs_var n (num_equal n) a b). apply F. congruence.
Qed.
Print Assumptions C21_deep_equal_same_variables.

Theorem C21_diff_respects_deep_equal :
  forall (n : num) (good : n -> Prop) (x : dvar) (a b : expr n),
    equal_laws n good ->
    good (c0 n) -> good (c1 n) -> good (c2 n) -> good (cm1 n) -> good (n_ln10 n) ->
    plain a -> all_consts good a -> all_consts good b ->
    deep_equal n a b = Ok true ->
    (exists da db, diff n x a = Ok da /\ diff n x b = Ok db /\ deep_equal n da db = Ok true) \/
    (exists ex, diff n x a = Throw ex /\ diff n x b = Throw ex).
Proof.
  intros n good x a b L G0 G1 G2 Gm Gl P Ca Cb H.
  exact (diff_deq n good L G0 G1 G2 Gm Gl x a b P Ca Cb H).
Qed.
Print Assumptions C21_diff_respects_deep_equal.

(** C21, evaluation: if the arithmetic respects a relation that contains numeric equality,
    deep_equal expressions evaluate to related numbers (or throw the same exception). *)
Theorem C21_eval_respects_deep_equal :
  forall (n : num) (R : n -> n -> Prop) (a b : expr n) (v : list n),
    (forall c d, num_equal n c d -> R c d) -> (forall c, R c c) ->
    (forall op x y x' y', R x x' -> R y y' ->
       oeq R (b_apply n op x y) (b_apply n op x' y')) ->
    (forall op x x', R x x' -> oeq R (u_apply n op x) (u_apply n op x')) ->
    plain a -> deep_equal n a b = Ok true ->
    oeq R (eval n a v) (eval n b v).
Proof.
  intros n R a b v HR Rf Hb Hu P H. destruct (deq_plain n a b P) as [q [E F]].
  apply same_eval; [constructor; assumption|assumption|].
  apply (same_weaken n (num_equal n) R HR). apply F. congruence.
Qed.
Print Assumptions C21_eval_respects_deep_equal.

Example C21_case :
  deep_equal numR (EBin BPlus (EVar 0) (EConst (Some (1 + 1)%R)))
                  (EBin BPlus (EVar 0) (EConst (Some 2%R))) = Ok true.
Proof.
  simpl. unfold rel2. rewrite (proj2 (r_leb_true 2 (1 + 1)))by lra.
  rewrite (proj2 (r_leb_true (1 + 1) 2)) by lra. reflexivity.
Qed.

(** C22 (defect).  Integrals over any two intervals with any two integration variables are
    deep_equal as soon as the integrands are, and so are symbolic integrals with different
    interval ids. *)
Theorem C22_integrals_not_distinguished :
  forall (n : num) (lo hi lo' hi' a b : expr n) (v v' : N),
    deep_equal n (EInt lo hi v a) (EInt lo' hi' v' b) = deep_equal n a b.
Proof. intros n lo hi lo' hi' a b v v'. reflexivity. Qed.
Print Assumptions C22_integrals_not_distinguished.

Theorem C22_symbolic_integrals_not_distinguished :
  forall (n : num) (a b : expr n) (i j : N),
    deep_equal n (EUn (USymInt i) a) (EUn (USymInt j) b) = Ok true
    <-> deep_equal n a b = Ok true.
Proof. intros n a b i j. exact (deq_symint n a b i j). Qed.
Print Assumptions C22_symbolic_integrals_not_distinguished.

(** C22 (defect).  A vector is deep_equal to each of its prefixes, whereas comparing in the
    other direction reads beyond the end of the shorter vector. *)
Theorem C22_vector_equals_its_prefixes :
  forall (n : num) (es fs : list (expr n)) (f : expr n),
    (forall e, In e es -> deep_equal n e e = Ok true) ->
    deep_equal n (EVec (es ++ f :: fs)) (EVec es) = Ok true /\
    deep_equal n (EVec es) (EVec (es ++ f :: fs)) = UB.
Proof. intros n es fs f H. exact (deq_prefix n es fs f H). Qed.
Print Assumptions C22_vector_equals_its_prefixes.

(** C22 (defect).  Hence the claim of C20 fails without the restriction to plain expressions. *)
Theorem C22_soundness_refuted :
  exists a b : expr numZ, deep_equal numZ a b = Ok true /\ ~ same (num_equal numZ) a b.
Proof.
  exists (EInt (EConst 0%Z) (EConst 1%Z) 0 (EVar 0)), (EInt (EConst 0%Z) (EConst 2%Z) 0 (EVar 0)).
  split; [reflexivity|]. intros S. inversion S; subst.
  match goal with H : same _ (EConst 1%Z) _ |- _ => inversion H; subst end.
  match goal with H : num_equal _ _ _ |- _ => destruct H as [A B]; vm_compute in A, B end.
  discriminate.
Qed.
Print Assumptions C22_soundness_refuted.
