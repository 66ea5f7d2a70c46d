(** The textual representation can be read back (proofs only). *)
From Coq Require Import ZArith NArith List Bool String Ascii DecimalString DecimalN Lia.
From Verif Require Import Outcome Num RtModel RtSpec RtFacts StrModel.
Import ListNotations.
Local Open Scope string_scope.

Fixpoint has (c : ascii) (s : string) : Prop :=
  match s with EmptyString => False | String d s' => c = d \/ has c s' end.

Lemma append_nil : forall s, s ++ "" = s.
Proof. induction s; simpl; congruence. Qed.
Lemma append_assoc : forall a b c : string, (a ++ b) ++ c = a ++ (b ++ c).
Proof. induction a; simpl; intros; congruence. Qed.

Lemma string_inv : forall c s t, String c s = String c t -> s = t.
Proof. intros c s t H. inversion H. reflexivity. Qed.

Lemma delim : forall c p q s t, ~ has c p -> ~ has c q ->
  p ++ String c s = q ++ String c t -> p = q /\ s = t.
Proof.
  intros c; induction p as [|a p IH]; intros [|b q] s t Hp Hq H; simpl in *.
  - inversion H; auto.
  - inversion H; subst. exfalso. auto.
  - inversion H; subst. exfalso. auto.
  - inversion H; subst. destruct (IH q s t) as [-> ->]; auto.
Qed.

Definition digit (c : ascii) : bool :=
  match c with
  | "0" | "1" | "2" | "3" | "4" | "5" | "6" | "7" | "8" | "9" => true
  | _ => false
  end%char.

Lemma uint_digits : forall u c, has c (NilEmpty.string_of_uint u) -> digit c = true.
Proof. induction u; simpl; intros c [H|H] || intros c H; subst; auto; contradiction. Qed.

Lemma dec_digits : forall i c, has c (dec i) -> digit c = true.
Proof.
  intros i c H. unfold dec, NilZero.string_of_uint in H.
  destruct (N.to_uint i) eqn:E.
  - simpl in H. destruct H as [H|[]]. subst. reflexivity.
  - apply (uint_digits (Decimal.D0 u)); exact H.
  - apply (uint_digits (Decimal.D1 u)); exact H.
  - apply (uint_digits (Decimal.D2 u)); exact H.
  - apply (uint_digits (Decimal.D3 u)); exact H.
  - apply (uint_digits (Decimal.D4 u)); exact H.
  - apply (uint_digits (Decimal.D5 u)); exact H.
  - apply (uint_digits (Decimal.D6 u)); exact H.
  - apply (uint_digits (Decimal.D7 u)); exact H.
  - apply (uint_digits (Decimal.D8 u)); exact H.
  - apply (uint_digits (Decimal.D9 u)); exact H.
Qed.

Lemma dec_inj : forall i j, dec i = dec j -> i = j.
Proof.
  intros i j H. unfold dec in H.
  assert (K : NilZero.uint_of_string (NilZero.string_of_uint (N.to_uint i)) =
              NilZero.uint_of_string (NilZero.string_of_uint (N.to_uint j))) by congruence.
  assert (NN : forall k, N.to_uint k <> Decimal.Nil).
  { intros k Hk. pose proof (Unsigned.of_to k) as U. rewrite Hk in U. simpl in U. subst k.
    discriminate Hk. }
  rewrite !NilZero.usu in K by apply NN. inversion K as [L].
  rewrite <- (Unsigned.of_to i), <- (Unsigned.of_to j), L. reflexivity.
Qed.

Lemma dec_delim : forall i j c s t, digit c = false ->
  dec i ++ String c s = dec j ++ String c t -> i = j /\ s = t.
Proof.
  intros i j c s t D H. apply delim in H as [A B].
  - split; [exact (dec_inj _ _ A)|exact B].
  - intros K. apply dec_digits in K. congruence.
  - intros K. apply dec_digits in K. congruence.
Qed.

(** Both strings end the digits somewhere. *)
Lemma dec_delim2 : forall i j c d s t, digit c = false -> digit d = false ->
  dec i ++ String c s = dec j ++ String d t -> i = j /\ String c s = String d t.
Proof.
  intros i j c d s t C D H.
  assert (G : forall p q, (forall a, has a p -> digit a = true) -> (forall a, has a q -> digit a = true) ->
    p ++ String c s = q ++ String d t -> p = q /\ String c s = String d t).
  { induction p as [|a p IH]; intros [|b q] Hp Hq E; simpl in *.
    - auto.
    - inversion E; subst. rewrite (Hq b (or_introl eq_refl)) in C. discriminate.
    - inversion E; subst. rewrite (Hp d (or_introl eq_refl)) in D. discriminate.
    - inversion E; subst. destruct (IH q) as [-> Q]; auto. }
  apply G in H as [A B]; [split; [exact (dec_inj _ _ A)|exact B]| |]; apply dec_digits.
Qed.

Section Inj.
Context {T : Type} (pr : T -> string).
Context (no_paren : forall c, ~ has ")" (pr c)).
Notation str := (deep_str pr).
Notation R := (fun c d : T => pr c = pr d).

Definition entries : list (expr T) -> string :=
  fix entries (l : list (expr T)) : string :=
    match l with
    | [] => ""
    | [x] => wrap x (str x)
    | x :: l' => wrap x (str x) ++ ", " ++ entries l'
    end.

Definition tagged (e : expr T) : Prop := forall i t, subterm (EFun i t) e -> t = 0%N \/ t = 1%N.

Definition inj (a : expr T) : Prop := forall b s t, tagged a -> tagged b ->
  str a ++ s = str b ++ t -> same R a b /\ s = t.

Lemma wrap_inj : forall a, inj a -> forall b s t, tagged a -> tagged b ->
  (forall l r op, a = EBin op l r -> inj l) -> 
  wrap a (str a) ++ s = wrap b (str b) ++ t -> same R a b /\ s = t.
Proof.
  intros a Ha b s t Ta Tb Hl E. unfold wrap in E.
  destruct (is_unary a) eqn:Ua, (is_unary b) eqn:Ub.
  - rewrite ?append_assoc in E. simpl in E. do 5 apply string_inv in E.
    rewrite ?append_assoc in E. apply Ha in E as [S E]; auto. split; [exact S|].
    simpl in E. apply string_inv in E. exact E.
  - destruct b as [| | | | |op l r|]; try discriminate.
    rewrite ?append_assoc in E. cbn [deep_str] in E. simpl in E. do 5 apply string_inv in E.
    rewrite ?append_assoc in E. exfalso.
    apply Ha in E as [S E]; [|exact Ta|intros i u H; apply (Tb i u); apply sub_l; exact H].
    destruct op; discriminate.
  - destruct a as [| | | | |op l r|]; try discriminate.
    rewrite ?append_assoc in E. cbn [deep_str] in E. simpl in E. do 5 apply string_inv in E.
    rewrite ?append_assoc in E. exfalso.
    apply (Hl _ _ _ eq_refl) in E as [S E]; [|intros i u H; apply (Ta i u); apply sub_l; exact H|exact Tb].
    destruct op; discriminate.
  - rewrite ?append_assoc in E. simpl in E. do 4 apply string_inv in E.
    apply Ha in E; auto.
Qed.

Lemma str_inj_strong : forall a, inj a /\ (forall op l r, a = EBin op l r -> inj l).
Proof.
  induction a as [c|i|i u|op a IH|lo hi w a IHlo IHhi IH|op l r IHl IHr|es IH] using expr_ind';
    (split; [|intros op' l' r' Q; try discriminate]).
  - intros b s t Ta Tb E. destruct b as [d|j|j u|op a|lo hi w a|op l r|fs];
      [|exfalso; cbn [deep_str] in E; simpl in E; rewrite ?append_assoc in E; try discriminate..].
    + cbn [deep_str] in E. simpl in E. do 9 apply string_inv in E.
      rewrite ?append_assoc in E. simpl in E. apply delim in E as [A B]; auto.
      split; [apply same_const; exact A|exact B].
    + destruct op; discriminate.
  - intros b s t Ta Tb E. destruct b as [d|j|j u|op a|lo hi w a|op l r|fs];
      [exfalso; discriminate| |exfalso; cbn [deep_str] in E; simpl in E; rewrite ?append_assoc in E; try discriminate..].
    + cbn [deep_str] in E. simpl in E. do 9 apply string_inv in E.
      rewrite ?append_assoc in E. simpl in E. apply dec_delim in E as [-> E]; [|reflexivity].
      split; [apply same_var|exact E].
    + destruct op; discriminate.
  - intros b s t Ta Tb E. destruct b as [d|j|j u'|op a|lo hi w a|op l r|fs];
      [exfalso; discriminate|exfalso; discriminate| |exfalso; cbn [deep_str] in E; simpl in E; rewrite ?append_assoc in E; try discriminate..].
    + cbn [deep_str] in E. simpl in E. do 16 apply string_inv in E.
      destruct (Ta i u (sub_refl _)), (Tb j u' (sub_refl _)); subst; simpl in E; try discriminate.
      * do 8 apply string_inv in E. rewrite ?append_assoc in E. simpl in E.
        apply dec_delim in E as [-> E]; [|reflexivity]. apply string_inv in E.
        split; [apply same_fun|exact E].
      * do 5 apply string_inv in E. rewrite ?append_assoc in E. simpl in E.
        apply dec_delim in E as [-> E]; [|reflexivity]. apply string_inv in E.
        split; [apply same_fun|exact E].
    + destruct op; discriminate.
  - destruct IH as [IH _]. intros b s t Ta Tb E.
    assert (Ta' : tagged a) by (intros i u H; apply (Ta i u); apply sub_un; exact H).
    destruct b as [d|j|j u'|op' a'|lo hi w a'|op' l r|fs];
      [exfalso; destruct op; discriminate|exfalso; destruct op; discriminate
      |exfalso; destruct op; discriminate| |exfalso; destruct op; discriminate
      |exfalso; destruct op; discriminate|exfalso; destruct op; discriminate].
    assert (Tb' : tagged a') by (intros i u H; apply (Tb i u); apply sub_un; exact H).
    assert (K : op = op' /\ str a ++ String ")" s = str a' ++ String ")" t).
    { cbn [deep_str] in E. destruct op, op'; simpl in E; try discriminate E;
        rewrite ?append_assoc in E; simpl in E;
        try (split; [reflexivity|];
             repeat match type of E with String _ (_ ++ _) = String _ (_ ++ _) => apply string_inv in E
                    | String _ (String _ _) = String _ (String _ _) => apply string_inv in E end;
             exact E).
      - do 14 apply string_inv in E. apply dec_delim in E as [-> E]; [|reflexivity].
        split; [reflexivity|]. apply string_inv in E. rewrite ?append_assoc in E. exact E.
      - do 36 apply string_inv in E. apply dec_delim in E as [-> E]; [|reflexivity].
        split; [reflexivity|]. do 2 apply string_inv in E. rewrite ?append_assoc in E. exact E. }
    destruct K as [-> K]. apply IH in K as [S K]; auto.
    split; [apply same_un; exact S|exact (string_inv _ _ _ K)].
  - destruct IHlo as [IHlo IHlo']. destruct IHhi as [IHhi IHhi']. destruct IH as [IH _].
    intros b s t Ta Tb E.
    destruct b as [d|j|j u'|op' a'|lo' hi' w' a'|op' l r|fs];
      [exfalso; discriminate|exfalso; discriminate|exfalso; discriminate
      |exfalso; destruct op'; discriminate| |exfalso; discriminate|exfalso; discriminate].
    cbn [deep_str] in E. simpl in E. do 21 apply string_inv in E.
    rewrite ?append_assoc in E.
    apply (wrap_inj lo IHlo) in E as [S1 E];
      [|intros i u H; apply (Ta i u); apply sub_lo; exact H
       |intros i u H; apply (Tb i u); apply sub_lo; exact H|eauto].
    simpl in E. do 2 apply string_inv in E. rewrite ?append_assoc in E.
    apply (wrap_inj hi IHhi) in E as [S2 E];
      [|intros i u H; apply (Ta i u); apply sub_hi; exact H
       |intros i u H; apply (Tb i u); apply sub_hi; exact H|eauto].
    simpl in E. do 12 apply string_inv in E. rewrite ?append_assoc in E. simpl in E.
    apply dec_delim in E as [-> E]; [|reflexivity]. do 2 apply string_inv in E.
    rewrite ?append_assoc in E.
    apply IH in E as [S3 E];
      [|intros i u H; apply (Ta i u); apply sub_body; exact H
       |intros i u H; apply (Tb i u); apply sub_body; exact H].
    split; [apply same_int; auto|exact (string_inv _ _ _ E)].
  - destruct IHl as [IHl _]. destruct IHr as [IHr _]. intros b s t Ta Tb E.
    destruct b as [d|j|j u'|op' a'|lo' hi' w' a'|op' l' r'|fs];
      [exfalso; discriminate|exfalso; discriminate|exfalso; discriminate
      |exfalso; destruct op'; discriminate|exfalso; discriminate| |exfalso; discriminate].
    cbn [deep_str] in E. simpl in E. apply string_inv in E. rewrite ?append_assoc in E.
    apply IHl in E as [S1 E];
      [|intros i u H; apply (Ta i u); apply sub_l; exact H
       |intros i u H; apply (Tb i u); apply sub_l; exact H].
    assert (K : op = op' /\ str r ++ String ")" s = str r' ++ String ")" t).
    { destruct op, op'; simpl in E; try discriminate; (split; [reflexivity|]);
        rewrite ?append_assoc in E; repeat apply string_inv in E; exact E. }
    destruct K as [-> K]. apply IHr in K as [S2 K];
      [|intros i u H; apply (Ta i u); apply sub_r; exact H
       |intros i u H; apply (Tb i u); apply sub_r; exact H].
    split; [apply same_bin; auto|exact (string_inv _ _ _ K)].
  - inversion Q; subst. exact (proj1 IHl).
  - intros b s t Ta Tb E.
    destruct b as [d|j|j u'|op' a'|lo' hi' w' a'|op' l' r'|fs];
      [exfalso; discriminate|exfalso; discriminate|exfalso; discriminate
      |exfalso; destruct op'; discriminate|exfalso; discriminate|exfalso; discriminate|].
    cbn [deep_str] in E. simpl in E. apply string_inv in E. rewrite ?append_assoc in E. simpl in E.
    apply dec_delim in E as [L E]; [|reflexivity]. apply string_inv in E.
    apply Nat2N.inj in L. fold entries in E. rewrite ?append_assoc in E. simpl in E.
    assert (K : forall es fs, Forall (fun a => inj a /\ (forall op l r, a = EBin op l r -> inj l)) es ->
      (forall x, In x es -> tagged x) -> (forall x, In x fs -> tagged x) ->
      List.length es = List.length fs ->
      forall s t, entries es ++ s = entries fs ++ t -> Forall2 (same R) es fs /\ s = t).
    { clear. induction es as [|x es IHes]; intros [|y fs] F Te Tf L s t E; try discriminate.
      - simpl in E. auto.
      - inversion F as [|? ? [Ix Ix'] F']; subst.
        assert (Hd : forall s t, wrap x (str x) ++ s = wrap y (str y) ++ t -> same R x y /\ s = t).
        { intros s' t' E'. apply (wrap_inj x Ix) in E'; auto; [apply Te; left; auto|apply Tf; left; auto|eauto]. }
        destruct es as [|x2 es], fs as [|y2 fs]; try discriminate.
        + simpl in E. apply Hd in E as [S E]. auto.
        + change (entries (x :: x2 :: es)) with (wrap x (str x) ++ ", " ++ entries (x2 :: es)) in E.
          change (entries (y :: y2 :: fs)) with (wrap y (str y) ++ ", " ++ entries (y2 :: fs)) in E.
          rewrite ?append_assoc in E. apply Hd in E as [S E].
          simpl in E. do 2 apply string_inv in E.
          apply (IHes (y2 :: fs)) in E as [SS E];
            [auto|exact F'|intros z Hz; apply Te; right; exact Hz
            |intros z Hz; apply Tf; right; exact Hz|simpl in *; lia]. }
    apply K in E as [F E]; [|exact IH
      |intros x Hx i u H; apply (Ta i u); exact (sub_vec _ _ _ Hx H)
      |intros x Hx i u H; apply (Tb i u); exact (sub_vec _ _ _ Hx H)|exact L].
    split; [apply same_vec; exact F|exact (string_inv _ _ _ E)].
Qed.

Lemma str_inj : forall a b, tagged a -> tagged b -> str a = str b -> same R a b.
Proof.
  intros a b Ta Tb E. destruct (str_inj_strong a) as [I _].
  apply (I b "" "" Ta Tb). congruence.
Qed.

Lemma is_unary_same : forall a b, same R a b -> is_unary a = is_unary b.
Proof. intros a b S; inversion S; reflexivity. Qed.

Lemma same_str : forall a b, same R a b -> str a = str b.
Proof.
  induction a as [c|i|i u|op a IH|lo hi w a IHlo IHhi IH|op l r IHl IHr|es IH] using expr_ind';
    intros b S; inversion S; subst; clear S; cbn [deep_str]; auto.
  - congruence.
  - rewrite (IH b0) by auto. reflexivity.
  - rewrite (IHlo lo'), (IHhi hi'), (IH b0) by auto.
    unfold wrap. rewrite (is_unary_same lo lo'), (is_unary_same hi hi') by auto. reflexivity.
  - rewrite (IHl c), (IHr d) by auto. reflexivity.
  - fold entries.
    assert (L : List.length es = List.length fs)
      by (match goal with H : Forall2 _ _ _ |- _ => clear - H; induction H; simpl; congruence end).
    rewrite L. f_equal. f_equal. f_equal. f_equal. clear L.
    match goal with H : Forall2 _ _ _ |- _ => induction H as [|x y es fs S F IHF] end; [reflexivity|].
    inversion IH as [|? ? Hx IH']; subst. specialize (IHF IH').
    assert (W : wrap x (str x) = wrap y (str y)).
    { unfold wrap. rewrite (is_unary_same x y S), (Hx y S). reflexivity. }
    inversion F; subst.
    + simpl. exact W.
    + change (entries (x :: x0 :: l)) with (wrap x (str x) ++ ", " ++ entries (x0 :: l)).
      change (entries (y :: y0 :: l')) with (wrap y (str y) ++ ", " ++ entries (y0 :: l')).
      rewrite W, IHF. reflexivity.
Qed.

Lemma stream_inj : forall a b s t, tagged a -> tagged b ->
  stream_expr pr a ++ s = stream_expr pr b ++ t -> same R a b /\ s = t.
Proof.
  intros a b s t Ta Tb E. destruct (str_inj_strong a) as [I J].
  apply (wrap_inj a I b s t Ta Tb); [eauto|exact E].
Qed.
End Inj.
