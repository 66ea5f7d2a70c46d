(** Shape of the results of the compile-time simplification. *)
From Coq Require Import ZArith NArith List Bool Lia.
From Verif Require Import Outcome Num RtModel CtModel CtSpec CtGcd CtFacts CtManipSpec CtPoly CtNormalSpec.
Import ListNotations.
Local Open Scope Z_scope.

Lemma choose_special : forall op l r x, choose op l r = Chosen x ->
  forall y, In y rules -> applicable op l r y = true -> special x y = true.
Proof.
  unfold choose. generalize rules. intros rs op l r x H y I A.
  assert (F : In y (filter (applicable op l r) rs)) by (apply filter_In; auto).
  destruct (filter (applicable op l r) rs) as [|z zs]; [discriminate|].
  destruct (find (fun x => forallb (special x) (z :: zs)) (z :: zs)) as [w|] eqn:E; [|discriminate].
  injection H as <-. apply find_some in E as [_ E].
  exact (proj1 (forallb_forall _ _) E y F).
Qed.

Lemma rules_false_pat : forall n x, In x rules -> forall l r,
  matches (r_l x) l = true -> matches (r_r x) r = true -> forall e',
  r_act x n l r = Some (false, e') -> r_op x = CDiv /\ r_l x = PNum /\ r_r x = PNum.
Proof.
  intros n. over_rules; intros l r Ml Mr e' H; cbn [r_act r_op r_l r_r] in *;
    minv; cbn [rhs num den] in H;
    try (apply rational_shape in H as [p [q H]]; discriminate);
    try discriminate;
    repeat (apply cbind_some in H as [? [_ H]]);
    first [discriminate | auto].
Qed.

(** A node that is left alone: no specialisation applies, or the one for quotients of constants. *)
Definition left_alone (op : cop) (l r : cexpr) : Prop :=
  forall x, In x rules -> applicable op l r x = true ->
    op = CDiv /\ more_special PNum (r_l x) = true /\ more_special PNum (r_r x) = true.

Lemma impl_left_alone : forall n op l r e', simplify_impl n (CBin op l r) = Some (false, e') ->
  left_alone op l r /\
  ((exists p q, op = CDiv /\ l = CConst p /\ r = CConst q) \/
   (exists l' r', simplify_impl n l = Some (false, l') /\ simplify_impl n r = Some (false, r'))).
Proof.
  intros n op l r e' H. rewrite impl_bin in H.
  destruct (choose op l r) as [|x|] eqn:C; [| |discriminate].
  - apply cbind_some in H as [[vl l'] [Hl H]]. apply cbind_some in H as [[vr r'] [Hr H]].
    injection H as E <-. apply orb_false_iff in E as [-> ->]. split; [|eauto].
    intros x I A. exfalso. exact (choose_not_generic _ _ _ _ I A C).
  - pose proof (choose_special op l r x C) as S.
    apply choose_in in C as [C1 C2]. apply applicable_inv in C2 as [E [Ml Mr]].
    destruct (rules_false_pat n x C1 l r Ml Mr e' H) as [F1 [F2 F3]].
    rewrite F2 in Ml. rewrite F3 in Mr. split.
    + intros y I A. apply S in A; [|exact I]. unfold special in A. rewrite F2, F3 in A.
      apply andb_prop in A as [A B]. split; [congruence|auto].
    + left. apply m_num in Ml as [p ->]. apply m_num in Mr as [q ->]. exists p, q.
      split; [congruence|auto].
Qed.

Lemma nth_alone : forall k op l r, (k < length rules)%nat -> left_alone op l r ->
  let x := nth k rules (mk_rule CPlus PAny PAny (fun _ _ _ => None)) in
  applicable op l r x = true ->
  op = CDiv /\ more_special PNum (r_l x) = true /\ more_special PNum (r_r x) = true.
Proof. intros k op l r K A x H. exact (A x (nth_In _ _ K) H). Qed.

Ltac rule k :=
  let R := fresh "R" in
  match goal with
  | A : left_alone ?op ?l ?r |- _ =>
      assert (R := nth_alone k op l r ltac:(unfold rules; cbn [length]; lia) A eq_refl)
  end; destruct R as [? [? ?]]; discriminate.

Lemma alone_normal : forall op l r, left_alone op l r -> normal_node op l r.
Proof.
  intros op l r A. destruct op; cbn [normal_node]; repeat split;
    try (intros ->); try (intros t ->); try (intros [t ->]).
  - rule 1%nat.
  - rule 0%nat.
  - rule 6%nat.
  - rule 4%nat.
  - rule 3%nat.
  - rule 7%nat.
  - rule 5%nat.
  - rule 11%nat.
  - rule 14%nat.
  - rule 10%nat.
  - rule 13%nat.
  - rule 23%nat.
  - rule 22%nat.
  - rule 18%nat.
  - rule 19%nat.
  - rule 21%nat.
Qed.

Lemma alone_numbers : forall op l r, left_alone op l r -> number l -> number r ->
  op = CDiv /\ exists p q, l = CConst p /\ r = CConst q /\ p <> 0 /\ q <> 0 /\ q <> 1 /\ q <> -1.
Proof.
  intros op l r A [[a ->]|[a [b ->]]] [[c ->]|[c [d ->]]]; destruct op;
    [rule 38%nat|rule 41%nat|rule 44%nat|
    |rule 26%nat|rule 29%nat|rule 33%nat|rule 36%nat
    |rule 27%nat|rule 30%nat|rule 34%nat|rule 37%nat
    |rule 25%nat|rule 28%nat|rule 32%nat|rule 35%nat].
  split; [reflexivity|]. exists a, c. split; [reflexivity|]. split; [reflexivity|].
  split; [|split; [|split]]; intros ->.
  - rule 18%nat.
  - rule 19%nat.
  - rule 21%nat.
  - rule 53%nat.
Qed.

Lemma impl_inside : forall n op a b e, inside (CBin op a b) e ->
  forall e', simplify_impl n e = Some (false, e') -> left_alone op a b.
Proof.
  intros n op a b e I. induction I as [|op' l r I IH|op' l r I IH]; intros e' H.
  - exact (proj1 (impl_left_alone _ _ _ _ _ H)).
  - destruct (impl_left_alone _ _ _ _ _ H) as [_ [[p [q [_ [-> ->]]]]|[l' [r' [H1 _]]]]].
    + inversion I.
    + exact (IH l' H1).
  - destruct (impl_left_alone _ _ _ _ _ H) as [_ [[p [q [_ [-> ->]]]]|[l' [r' [_ H1]]]]].
    + inversion I.
    + exact (IH r' H1).
Qed.

Lemma simplify_inside : forall n e s, ct_simplify n e = Some s -> forall op a b,
  inside (CBin op a b) s -> left_alone op a b.
Proof.
  intros n. apply (simplify_ind_run n (fun e s => forall op a b,
    inside (CBin op a b) s -> left_alone op a b)).
  - intros e e' H op a b I. exact (impl_inside n op a b e I e' H).
  - intros e e' r _ _ IH. exact IH.
Qed.
