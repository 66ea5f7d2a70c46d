(** Numeric equality over the reals (proofs only). *)
From Coq Require Import ZArith Reals List Bool Lra.
From Verif Require Import Outcome Num RtModel RtSpec RtFacts RtStep RtTermination RtValue RtEval
  RtEqual NumR NumRFacts.
Local Open Scope R_scope.

Lemma num_equal_R : forall c d, num_equal numR c d -> c = d.
Proof.
  intros [c|] [d|] [A B]; simpl in *; try discriminate.
  apply r_leb_true in A, B. f_equal. lra.
Qed.

Lemma num_equal_R_refl : forall c, def c -> num_equal numR c c.
Proof. intros c [r ->]. split; simpl; apply r_leb_refl. Qed.

Lemma equal_laws_R : equal_laws numR def.
Proof.
  constructor.
  - apply num_equal_R_refl.
  - intros c d Gc Gd H. rewrite (num_equal_R _ _ H). apply num_equal_R_refl; auto.
  - intros c d e _ _ Ge H K. rewrite (num_equal_R _ _ H), (num_equal_R _ _ K).
    apply num_equal_R_refl; auto.
Qed.

Lemma deq_real : forall a b : expr numR, plain a -> deep_equal numR a b = Ok true -> a = b.
Proof.
  intros a b P H. destruct (deq_plain numR a b P) as [q [E F]].
  apply (same_eq numR). apply (same_weaken numR (num_equal numR) eq num_equal_R).
  apply F. congruence.
Qed.
