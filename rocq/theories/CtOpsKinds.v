(** Which operators on compile-time expressions compile, and what kind of expression they give. *)
From Coq Require Import ZArith NArith List Bool Reals Lia Lra.
From Verif Require Import Outcome Num NumR NumZ RtModel CtModel CtSpec CtOpsModel CtOpsFacts CtManipModel
  CtManipSpec CtManipFacts.

Fixpoint m_size {T : Type} (e : mexpr T) : nat :=
  match e with
  | MUn _ a => S (m_size a)
  | MBin _ a b => S (m_size a + m_size b)
  | _ => 1
  end.

Lemma has_rt_iff : forall (n : Num.num) (m : mexpr n), has_rt m = false <-> ~ contains_rt m.
Proof. intros n. induction m; simpl; rewrite ?orb_false_iff; intuition congruence. Qed.

Lemma generic_cases : forall (n : Num.num) op (a b : mexpr n) r, generic n op a b = Some r ->
  (exists t, r = Rt t) \/ (r = Ct (MBin op a b) /\ ~ contains_rt a /\ ~ contains_rt b).
Proof.
  intros n op a b r H. rewrite <- !has_rt_iff, <- orb_false_iff.
  assert (K : cbind (to_rt n a) (fun x => cbind (to_rt n b) (fun y => Some (Rt (EBin (rt_op op) x y)))) = Some r ->
    exists t, r = Rt t).
  { destruct (to_rt n a); [|discriminate]. destruct (to_rt n b); [|discriminate].
    cbn [cbind]. intros E. injection E as <-. eauto. }
  unfold generic in H. destruct (has_rt a || has_rt b) eqn:E.
  - left. destruct a; try (apply K, H); destruct b; try discriminate; apply K, H.
  - destruct a; try (left; apply K, H); destruct b; try (left; apply K, H);
     injection H as <-; right; auto.
Qed.

Lemma generic_total : forall (n : Num.num) op (a b : mexpr n), ~ contains_rt a -> ~ contains_rt b ->
  generic n op a b = Some (Ct (MBin op a b)).
Proof.
  intros n op a b A B. pose proof A as A'. pose proof B as B'. apply has_rt_iff in A, B.
  unfold generic. rewrite A, B. destruct a; try (destruct A'; exact I); destruct b; try (destruct B'; exact I); reflexivity.
Qed.

Ltac kept_tac H :=
  repeat match type of H with
    | cbind ?o _ = _ => destruct o; cbn [cbind] in H; [|discriminate H]
    | (if ?c then _ else _) = _ => destruct c
    end;
  try discriminate H;
  try (destruct (generic_cases _ _ _ _ _ H) as [[? ?]|[_ ?]]; [discriminate|assumption]);
  exfalso; injection H; intros; 
     repeat match goal with E : _ = _ |- _ => apply (f_equal m_size) in E; simpl in E end;
     lia.

Lemma combine_kept : forall (n : Num.num) op (a b : mexpr n), combine n op a b = Some (Ct (MBin op a b)) ->
   ~ contains_rt a /\ ~ contains_rt b.
Proof.
  intros n op a b H.
  destruct op; cbn [combine] in H.
  - destruct a as [| | | | |[] [] ?], b as [| | | | |[] [] ?]; cbn [plus] in H; kept_tac H.
  - destruct a as [| | | | |[] [] ?], b as [| | | | |[] [] ?]; cbn [minus] in H; kept_tac H.
  - destruct a, b; cbn [times] in H; kept_tac H.
  - destruct a, b; cbn [over] in H; kept_tac H.
Qed.
Ltac total_tac H :=
  match goal with
  | |- context [generic _ _ _ _] => left; rewrite generic_total by assumption; eexists; split; [reflexivity|simpl in *; tauto]
  | |- context [cbind ?o _] => 
     let E := fresh in destruct o eqn:E; cbn [cbind]; [left; eexists; split; [reflexivity|simpl in *; tauto]|
      right; split; [reflexivity|]; eexists; eexists; split; [unfold leading; eauto 8|]; split; [unfold leading; eauto 8|]; exact E]
  | |- context [if ?c then _ else _] => destruct c; [left; eexists; split; [reflexivity|simpl in *; tauto]|]; total_tac H
  | _ => exfalso; simpl in *; tauto
  | _ => left; eexists; split; [reflexivity|simpl in *; tauto]
  end.

Lemma combine_total : forall (n : Num.num) op (a b : mexpr n), ~ contains_rt a -> ~ contains_rt b ->
  (exists m, combine n op a b = Some (Ct m) /\ ~ contains_rt m) \/
  (combine n op a b = None /\ exists c d, leading c a /\ leading d b /\ long (exact_result op c d) = None).
Proof.
  intros n op a b A B.
  destruct op; cbn [combine exact_result].
  - destruct a as [| | | | |[] [] ?], b as [| | | | |[] [] ?]; cbn [plus]; total_tac I.
  - destruct a as [| | | | |[] [] ?], b as [| | | | |[] [] ?]; cbn [minus]; total_tac I.
  - destruct a, b; cbn [times]; total_tac I.
  - destruct a, b; cbn [over]; total_tac I.
Qed.
