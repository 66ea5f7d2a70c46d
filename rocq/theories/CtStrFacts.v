(** The text of a compile-time expression can be read back (proofs only). *)
From Coq Require Import ZArith NArith List Bool String Ascii Lia.
From Verif Require Import Outcome Num RtModel RtSpec RtFacts StrModel StrFacts CtModel CtOpsModel ApiModel OverModel
  CtStrModel CtStrSpec.
Import ListNotations.
Local Open Scope string_scope.

Lemma zdec_delim : forall c d s t,
  zdec c ++ String ">" s = zdec d ++ String ">" t -> c = d /\ s = t.
Proof.
  assert (D : forall i p s t, dec i ++ String ">" s = String "-" (dec (N.pos p) ++ String ">" t) -> False).
  { intros i p s t H. destruct (dec i) as [|a w] eqn:E; simpl in H; [discriminate|].
    injection H as -> _. assert (K : digit "-" = true) by (apply (dec_digits i); rewrite E; left; reflexivity).
    discriminate K. }
  intros c d s t H. unfold zdec in H.
  destruct c as [|p|p], d as [|q|q];
    try (exfalso; cbn [String.append] in H; first [exact (D _ _ _ _ H) | exact (D _ _ _ _ (eq_sym H))]);
    try (apply dec_delim in H as [A B]; [|reflexivity]; split; [|exact B]; simpl in A;
         first [reflexivity | discriminate A | injection A as ->; reflexivity]).
  cbn [String.append] in H. apply string_inv in H. apply dec_delim in H as [A B]; [|reflexivity].
  injection A as ->. auto.
Qed.

Section Inj.
Context {T : Type} (pr : T -> string).
Context (no_paren : forall c, ~ has ")" (pr c)).
Notation R := (fun c d : T => pr c = pr d).

Lemma ct_str_some : forall m, (exists s, ct_str pr m = Some s) <-> ~ has_symbol m.
Proof.
  induction m as [c|c|i|t|op a IH|op a IHa b IHb]; simpl.
  - split; eauto.
  - split; eauto.
  - split; eauto.
  - split; [intros [s H]; discriminate|intros H; contradiction H; exact I].
  - rewrite <- IH. destruct (ct_str pr a) as [s|]; simpl; split; intros [x H]; try discriminate; eauto.
  - split.
    + intros [x H] [K|K].
      * destruct (ct_str pr a); [|discriminate]. apply (proj1 IHa); eauto.
      * destruct (ct_str pr a); [|discriminate]. simpl in H.
        destruct (ct_str pr b); [|discriminate]. apply (proj1 IHb); eauto.
    + intros H. destruct (proj2 IHa) as [s Hs]; [auto|]. destruct (proj2 IHb) as [t Ht]; [auto|].
      rewrite Hs, Ht. simpl. eauto.
Qed.

Lemma cu_inj : forall o p (a b : mexpr T) s t, cpp_type (MUn o a) -> cpp_type (MUn p b) ->
  cu_str o ++ String "]" s = cu_str p ++ String "]" t -> o = p /\ s = t.
Proof.
  intros o p a b s t [Ho _] [Hp _] H.
  destruct o, p; simpl in Ho, Hp, H; subst; try discriminate H;
    repeat apply string_inv in H; auto.
Qed.

Lemma ct_str_inj : forall a b x y s t, cpp_type a -> cpp_type b ->
  ct_str pr a = Some x -> ct_str pr b = Some y -> x ++ s = y ++ t -> same_ct R a b /\ s = t.
Proof.
  induction a as [c|c|i|u|op a IH|op l IHl r IHr]; intros b x y s t Ca Cb Ha Hb E; simpl in Ha.
  - injection Ha as <-. destruct b as [d|d|j|u|o e|o e f]; simpl in Hb;
      [injection Hb as <-|injection Hb as <-|injection Hb as <-|discriminate
      |destruct (ct_str pr e); [|discriminate]; injection Hb as <-
      |destruct (ct_str pr e); [|discriminate]; destruct (ct_str pr f); [|discriminate]; injection Hb as <-];
      simpl in E; try discriminate E.
    do 12 apply string_inv in E. rewrite !append_assoc in E. apply zdec_delim in E as [-> ->].
    split; [constructor|reflexivity].
  - injection Ha as <-. destruct b as [d|d|j|u|o e|o e f]; simpl in Hb;
      [injection Hb as <-|injection Hb as <-|injection Hb as <-|discriminate
      |destruct (ct_str pr e); [|discriminate]; injection Hb as <-
      |destruct (ct_str pr e); [|discriminate]; destruct (ct_str pr f); [|discriminate]; injection Hb as <-];
      simpl in E; try discriminate E.
    do 9 apply string_inv in E. rewrite !append_assoc in E. simpl in E.
    apply delim in E as [A B]; auto. split; [constructor; exact A|exact B].
  - injection Ha as <-. destruct b as [d|d|j|u|o e|o e f]; simpl in Hb;
      [injection Hb as <-|injection Hb as <-|injection Hb as <-|discriminate
      |destruct (ct_str pr e); [|discriminate]; injection Hb as <-
      |destruct (ct_str pr e); [|discriminate]; destruct (ct_str pr f); [|discriminate]; injection Hb as <-];
      simpl in E; try discriminate E.
    do 12 apply string_inv in E. rewrite !append_assoc in E. simpl in E.
    apply dec_delim in E as [-> ->]; [|reflexivity]. split; [constructor|reflexivity].
  - discriminate.
  - destruct (ct_str pr a) as [sa|] eqn:Ea; [|discriminate]. injection Ha as <-.
    destruct b as [d|d|j|u|o e|o e f]; simpl in Hb;
      [injection Hb as <-|injection Hb as <-|injection Hb as <-|discriminate
      |destruct (ct_str pr e) as [se|] eqn:Ee; [|discriminate]; injection Hb as <-
      |destruct (ct_str pr e) as [se|] eqn:Ee; [|discriminate];
       destruct (ct_str pr f) as [sf|] eqn:Ef; [|discriminate]; injection Hb as <-];
      simpl in E; try discriminate E; apply string_inv in E; rewrite !append_assoc in E.
    + destruct (IH e sa se _ _ (proj2 Ca) (proj2 Cb) eq_refl Ee E) as [S E2].
      simpl String.append in E2. destruct (cu_inj _ _ _ _ _ _ Ca Cb E2) as [-> ->].
      split; [constructor; exact S|reflexivity].
    + destruct (IH e sa se _ _ (proj2 Ca) (proj1 Cb) eq_refl Ee E) as [S E2].
      exfalso. destruct op, o; discriminate E2.
  - destruct (ct_str pr l) as [sl|] eqn:El; [|discriminate].
    destruct (ct_str pr r) as [sr|] eqn:Er; [|discriminate]. injection Ha as <-.
    destruct b as [d|d|j|u|o e|o e f]; simpl in Hb;
      [injection Hb as <-|injection Hb as <-|injection Hb as <-|discriminate
      |destruct (ct_str pr e) as [se|] eqn:Ee; [|discriminate]; injection Hb as <-
      |destruct (ct_str pr e) as [se|] eqn:Ee; [|discriminate];
       destruct (ct_str pr f) as [sf|] eqn:Ef; [|discriminate]; injection Hb as <-];
      simpl in E; try discriminate E; apply string_inv in E; rewrite !append_assoc in E.
    + destruct (IHl e sl se _ _ (proj1 Ca) (proj2 Cb) eq_refl Ee E) as [S E2].
      exfalso. destruct op, o; discriminate E2.
    + destruct (IHl e sl se _ _ (proj1 Ca) (proj1 Cb) eq_refl Ee E) as [S E2].
      assert (K : op = o /\ sr ++ String "]" s = sf ++ String "]" t)
        by (destruct op, o; simpl in E2; try discriminate E2; apply string_inv in E2; auto).
      destruct K as [-> E3].
      destruct (IHr f sr sf _ _ (proj2 Ca) (proj2 Cb) eq_refl Ef E3) as [S2 E4].
      split; [constructor; assumption|exact (string_inv _ _ _ E4)].
Qed.

Lemma same_ct_str : forall a b, same_ct R a b -> ct_str pr a = ct_str pr b.
Proof.
  intros a b H. induction H; simpl; try reflexivity.
  - rewrite H. reflexivity.
  - rewrite IHsame_ct. reflexivity.
  - rewrite IHsame_ct1, IHsame_ct2. reflexivity.
Qed.

Lemma default_iff : forall m : mexpr T, default_constructible m = true <-> ~ has_rt_constant m.
Proof.
  induction m as [c|c|i|t|op a IH|op a IHa b IHb]; simpl; try tauto.
  - split; [discriminate|intros H; contradiction H; exact I].
  - rewrite andb_true_iff, IHa, IHb. tauto.
Qed.

Lemma default_some : forall m, (exists s, default_str pr m = Some s) <-> ~ has_symbol m /\ ~ has_rt_constant m.
Proof.
  intros m. unfold default_str. rewrite <- default_iff, <- ct_str_some.
  destruct (default_constructible m); split.
  - auto.
  - intros [H _]. exact H.
  - intros [s H]. discriminate.
  - intros [_ H]. discriminate.
Qed.

Lemma default_inj : forall a b x y s t, cpp_type a -> cpp_type b ->
  default_str pr a = Some x -> default_str pr b = Some y -> x ++ s = y ++ t -> same_ct R a b /\ s = t.
Proof.
  intros a b x y s t Ca Cb. unfold default_str.
  destruct (default_constructible a); [|discriminate]. destruct (default_constructible b); [|discriminate].
  apply ct_str_inj; assumption.
Qed.
End Inj.

Section Obj.
Context {n : Num.num} (pr : n -> string).
Context (no_paren : forall c, ~ has ")" (pr c)).
Notation R := (fun c d : n => pr c = pr d).

Lemma ct_head : forall m x, ct_str pr m = Some x ->
  exists w, x = String "c" w \/ x = String "[" (String "c" w) \/ x = String "[" (String "[" w).
Proof.
  assert (H : forall m x, ct_str pr m = Some x -> exists w, x = String "c" w \/ x = String "[" w).
  { intros [c|c|i|t|op a|op a b] x H; simpl in H; try discriminate; try (injection H as <-; eauto).
    - destruct (ct_str pr a); [|discriminate]. injection H as <-. eauto.
    - destruct (ct_str pr a); [|discriminate]. destruct (ct_str pr b); [|discriminate]. injection H as <-. eauto. }
  intros [c|c|i|t|op a|op a b] x E; simpl in E; try discriminate; try (injection E as <-; eauto).
  - destruct (ct_str pr a) as [s|] eqn:Ea; [|discriminate]. injection E as <-.
    destruct (H a s Ea) as [w [->| ->]]; simpl; eexists; right; [left|right]; reflexivity.
  - destruct (ct_str pr a) as [s|] eqn:Ea; [|discriminate]. destruct (ct_str pr b); [|discriminate].
    injection E as <-. destruct (H a s Ea) as [w [->| ->]]; simpl; eexists; right; [left|right]; reflexivity.
Qed.

Lemma vec_head : forall es, exists c w, deep_str pr (EVec es) = String "[" (String c w) /\ digit c = true.
Proof.
  intros es. cbn [deep_str].
  assert (D : exists c w, dec (N.of_nat (Datatypes.length es)) = String c w).
  { destruct (dec (N.of_nat (Datatypes.length es))) as [|c w] eqn:E; [|eauto].
    exfalso. unfold dec, DecimalString.NilZero.string_of_uint in E.
    destruct (N.to_uint (N.of_nat (Datatypes.length es))); discriminate E. }
  destruct D as [c [w D]]. rewrite D. simpl. eexists. eexists. split; [reflexivity|].
  apply (dec_digits (N.of_nat (Datatypes.length es))). rewrite D. left. reflexivity.
Qed.

Lemma ct_rt_differ : forall m e x s t, ct_str pr m = Some x ->
  match e with EConst _ => False | _ => True end -> x ++ s = rt_str pr e ++ t -> False.
Proof.
  intros m e x s t H L E. destruct (ct_head m x H) as [w K].
  destruct e as [c|i|i u|op a|lo hi v a|op l r|es]; [contradiction|..];
    try (unfold rt_str in E; destruct K as [->|[->| ->]]; cbn [deep_str] in E; discriminate E).
  unfold rt_str in E. destruct (vec_head es) as [c [w' [V D]]]. rewrite V in E.
  destruct K as [->|[->| ->]]; simpl in E; [discriminate E|..]; injection E as <- _; discriminate D.
Qed.

Lemma ct_expr_differ : forall m e x s t, ct_str pr m = Some x ->
  x ++ s = stream_expr pr e ++ t -> False.
Proof.
  intros m e x s t H E. destruct (ct_head m x H) as [w K]. unfold stream_expr, wrap in E.
  destruct (is_unary e); destruct K as [->|[->| ->]]; discriminate E.
Qed.

Lemma rt_bin : forall op l r, rt_str pr (EBin op l r) = stream_expr pr (EBin op l r).
Proof. intros. unfold rt_str. rewrite append_nil. reflexivity. Qed.

Lemma rt_expr_inj : forall a b s t, two_families a -> two_families b ->
  match a with EConst _ => False | _ => True end ->
  rt_str pr a ++ s = stream_expr pr b ++ t -> same R a b /\ s = t.
Proof.
  intros a b s t Ta Tb L E.
  destruct a as [c|i|i u|op a|lo hi v a|op l r|es]; [contradiction|..];
    try (exfalso; unfold stream_expr, wrap in E; unfold rt_str in E; cbn [deep_str] in E;
         destruct (is_unary b); discriminate E).
  rewrite rt_bin in E. exact (stream_inj pr no_paren _ _ _ _ Ta Tb E).
Qed.

Lemma rt_inj : forall a b s t, two_families a -> two_families b ->
  match a with EConst _ => False | _ => True end ->
  match b with EConst _ => False | _ => True end ->
  rt_str pr a ++ s = rt_str pr b ++ t -> same R a b /\ s = t.
Proof.
  intros a b s t Ta Tb La Lb E. pose proof (proj1 (str_inj_strong pr no_paren a)) as I.
  assert (P : forall w, w ++ deep_str pr a ++ s = w ++ deep_str pr b ++ t ->
    deep_str pr a ++ s = deep_str pr b ++ t).
  { induction w as [|c w IH]; simpl; [auto|]. intros H. apply IH. exact (string_inv _ _ _ H). }
  destruct a as [c|i|i u|op a|lo hi v a|op l r|es]; [contradiction|..];
    (destruct b as [d|j|j u'|op' a'|lo' hi' v' a'|op' l' r'|es']; [contradiction|..]);
    unfold rt_str in E; rewrite ?append_nil in E; rewrite ?append_assoc in E;
    first [exact (I _ _ _ Ta Tb E) | exact (I _ _ _ Ta Tb (P _ E))
          | exfalso; cbn [deep_str] in E; discriminate E].
Qed.

Lemma obj_inj : forall (a b : obj n) x y s t, of_the_library a -> of_the_library b ->
  stream_obj pr a = Some x -> stream_obj pr b = Some y -> x ++ s = y ++ t -> same_obj R a b /\ s = t.
Proof.
  assert (G : forall e : expr n, of_the_library (ORt e) ->
    two_families e /\ match e with EConst _ => False | _ => True end).
  { intros [] H; simpl in H; [contradiction|..]; split; auto. }
  intros a b x y s t La Lb Ha Hb E.
  destruct a as [c|z|m|e|e]; [contradiction|contradiction|..];
    (destruct b as [c'|z'|m'|e'|e']; [contradiction|contradiction|..]).
  - exact (ct_str_inj pr no_paren m m' x y s t La Lb Ha Hb E).
  - destruct (G e' Lb) as [F C]. injection Hb as <-. exfalso. exact (ct_rt_differ _ _ _ _ _ Ha C E).
  - injection Hb as <-. exfalso. exact (ct_expr_differ _ _ _ _ _ Ha E).
  - destruct (G e La) as [F C]. injection Ha as <-. exfalso.
    exact (ct_rt_differ _ _ _ _ _ Hb C (eq_sym E)).
  - destruct (G e La) as [F C]. destruct (G e' Lb) as [F' C']. injection Ha as <-. injection Hb as <-.
    exact (rt_inj _ _ _ _ F F' C C' E).
  - destruct (G e La) as [F C]. injection Ha as <-. injection Hb as <-.
    exact (rt_expr_inj _ _ _ _ F Lb C E).
  - injection Ha as <-. exfalso. exact (ct_expr_differ _ _ _ _ _ Hb (eq_sym E)).
  - destruct (G e' Lb) as [F C]. injection Ha as <-. injection Hb as <-.
    destruct (rt_expr_inj _ _ _ _ F La C (eq_sym E)) as [S <-]. split; [|reflexivity].
    assert (Sym : forall u v : expr n, same R u v -> same R v u).
    { intros u. induction u as [c|i|i w|op u IH|lo hi w u IHlo IHhi IH|op l r IHl IHr|es IH] using expr_ind';
        intros v S'; inversion S'; subst; constructor; auto.
      clear - IH H0. induction H0; [constructor|]. inversion IH; subst. constructor; auto. }
    exact (Sym _ _ S).
  - injection Ha as <-. injection Hb as <-. exact (stream_inj pr no_paren _ _ _ _ La Lb E).
Qed.
End Obj.

Lemma without : forall (T : Type) (pr : T -> string),
  (forall c p q, pr c <> p ++ String ")" q) -> forall c, ~ has ")" (pr c).
Proof.
  intros T pr P c H. assert (K : exists p q, pr c = p ++ String ")" q).
  { induction (pr c) as [|d w IH]; simpl in H; [contradiction|]. destruct H as [<-|H].
    - exists "", w. reflexivity.
    - destruct (IH H) as [p [q ->]]. exists (String d p), q. reflexivity. }
  destruct K as [p [q K]]. exact (P c p q K).
Qed.

Section Sides.
Context {n : Num.num} (pr : n -> string).
Context (no_paren : forall c, ~ has ")" (pr c)).
Notation R := (fun c d : n => pr c = pr d).

Lemma equation_inj : forall (p q : sides n) x y s t,
  sides_of_the_library p -> sides_of_the_library q ->
  stream_equation_of pr p = Some x -> stream_equation_of pr q = Some y -> x ++ s = y ++ t ->
  same_sides R p q /\ s = t.
Proof.
  intros [l r|l r] [l' r'|l' r'] x y s t [L1 L2] [L3 L4] Hp Hq E; simpl in Hp, Hq;
    unfold stream_equation, ct_equation_str in Hp, Hq;
    repeat match type of Hp with context [default_str pr ?m] =>
      destruct (default_str pr m) eqn:?; [|discriminate Hp] end;
    repeat match type of Hq with context [default_str pr ?m] =>
      destruct (default_str pr m) eqn:?; [|discriminate Hq] end;
    injection Hp as <-; injection Hq as <-; try discriminate E.
  - simpl in E. do 9 apply string_inv in E. rewrite !append_assoc in E.
    apply (stream_inj pr no_paren l l') in E as [A E]; [|exact L1|exact L3].
    simpl in E. do 3 apply string_inv in E. rewrite !append_assoc in E.
    apply (stream_inj pr no_paren r r') in E as [B E]; [|exact L2|exact L4].
    apply string_inv in E. split; [split; assumption|exact E].
  - simpl in E. do 12 apply string_inv in E. rewrite !append_assoc in E.
    eapply (default_inj pr no_paren l l') in E as [A E]; [|exact L1|exact L3|eassumption|eassumption].
    simpl in E. do 3 apply string_inv in E. rewrite !append_assoc in E.
    eapply (default_inj pr no_paren r r') in E as [B E]; [|exact L2|exact L4|eassumption|eassumption].
    apply string_inv in E. split; [split; assumption|exact E].
Qed.

Lemma interval_inj : forall (p q : sides n) x y s t,
  sides_of_the_library p -> sides_of_the_library q ->
  stream_interval_of pr p = Some x -> stream_interval_of pr q = Some y -> x ++ s = y ++ t ->
  same_sides R p q /\ s = t.
Proof.
  intros [l r|l r] [l' r'|l' r'] x y s t [L1 L2] [L3 L4] Hp Hq E; simpl in Hp, Hq;
    unfold ct_interval_str in Hp, Hq;
    repeat match type of Hp with context [default_str pr ?m] =>
      destruct (default_str pr m) eqn:?; [|discriminate Hp] end;
    repeat match type of Hq with context [default_str pr ?m] =>
      destruct (default_str pr m) eqn:?; [|discriminate Hq] end;
    injection Hp as <-; injection Hq as <-; try discriminate E.
  - simpl in E. do 9 apply string_inv in E. rewrite !append_assoc in E.
    apply (stream_inj pr no_paren l l') in E as [A E]; [|exact L1|exact L3].
    simpl in E. do 2 apply string_inv in E. rewrite !append_assoc in E.
    apply (stream_inj pr no_paren r r') in E as [B E]; [|exact L2|exact L4].
    apply string_inv in E. split; [split; assumption|exact E].
  - simpl in E. do 12 apply string_inv in E. rewrite !append_assoc in E.
    eapply (default_inj pr no_paren l l') in E as [A E]; [|exact L1|exact L3|eassumption|eassumption].
    simpl in E. do 2 apply string_inv in E. rewrite !append_assoc in E.
    eapply (default_inj pr no_paren r r') in E as [B E]; [|exact L2|exact L4|eassumption|eassumption].
    apply string_inv in E. split; [split; assumption|exact E].
Qed.

Lemma sides_some : forall p : sides n,
  ((exists x, stream_equation_of pr p = Some x) <->
   match p with
   | CtSides l r => ~ has_symbol l /\ ~ has_rt_constant l /\ ~ has_symbol r /\ ~ has_rt_constant r
   | RtSides _ _ => True
   end) /\
  ((exists x, stream_equation_of pr p = Some x) <-> (exists x, stream_interval_of pr p = Some x)).
Proof.
  intros [l r|l r]; simpl.
  - split; split; eauto.
  - pose proof (default_some pr l) as A. pose proof (default_some pr r) as B.
    unfold ct_equation_str, ct_interval_str.
    destruct (default_str pr l) as [x|], (default_str pr r) as [y|]; simpl.
    + split; split; eauto. intros _. destruct (proj1 A) as [? ?]; eauto. destruct (proj1 B) as [? ?]; eauto.
    + split; split; intros H; try (destruct H as [? H]; discriminate H).
      destruct H as [_ [_ H]]. destruct (proj2 B H) as [? K]. discriminate K.
    + split; split; intros H; try (destruct H as [? H]; discriminate H).
      destruct H as [H1 [H2 _]]. destruct (proj2 A (conj H1 H2)) as [? K]. discriminate K.
    + split; split; intros H; try (destruct H as [? H]; discriminate H).
      destruct H as [_ [_ H]]. destruct (proj2 B H) as [? K]. discriminate K.
Qed.
End Sides.

Section Vec.
Context {T : Type} (pr : T -> string).
Notation R := (fun c d : T => pr c = pr d).

Lemma vector_inj : (forall c, ~ has ")" (pr c)) -> forall es fs x y s t,
  Forall cpp_type es -> Forall cpp_type fs ->
  ct_vector_str pr es = Some x -> ct_vector_str pr fs = Some y -> x ++ s = y ++ t ->
  Forall2 (same_ct R) es fs /\ s = t.
Proof.
  intros no_paren.
  assert (I : forall a b x y s t, cpp_type a -> cpp_type b -> ct_str pr a = Some x -> ct_str pr b = Some y ->
    x ++ s = y ++ t -> same_ct R a b /\ s = t) by apply (ct_str_inj pr no_paren).
  intros [|a [|b [|c [|]]]] [|a' [|b' [|c' [|]]]] x y s t Ce Cf He Hf E; try discriminate He; try discriminate Hf;
    simpl in He, Hf;
    repeat match type of He with context [ct_str pr ?m] =>
      destruct (ct_str pr m) eqn:?; [|discriminate He] end;
    repeat match type of Hf with context [ct_str pr ?m] =>
      destruct (ct_str pr m) eqn:?; [|discriminate Hf] end;
    injection He as <-; injection Hf as <-;
    repeat match goal with H : Forall _ (_ :: _) |- _ => inversion H; clear H; subst end;
    cbn [String.append] in E; do 7 apply string_inv in E; rewrite ?append_assoc in E;
    (eapply (I a a') in E as [A E]; [|assumption|assumption|eassumption|eassumption]);
    cbn [String.append] in E; try discriminate E; apply string_inv in E;
    try (apply string_inv in E; rewrite ?append_assoc in E;
      (eapply (I b b') in E as [B E]; [|assumption|assumption|eassumption|eassumption]);
      cbn [String.append] in E; try discriminate E; apply string_inv in E;
      try (apply string_inv in E; rewrite ?append_assoc in E;
        (eapply (I c c') in E as [C E]; [|assumption|assumption|eassumption|eassumption]);
        apply string_inv in E));
    auto.
Qed.

Lemma vector_some : forall es, (exists x, ct_vector_str pr es = Some x) <->
  (1 <= List.length es <= 3)%nat /\ Forall (fun m => ~ has_symbol m) es.
Proof.
  intros es. split.
  - intros [x H].
    assert (S : forall m s, ct_str pr m = Some s -> ~ has_symbol m) by (intros m s K; apply (ct_str_some pr); eauto).
    destruct es as [|a [|b [|c [|]]]]; try discriminate H; simpl in H;
      repeat match type of H with context [ct_str pr ?m] =>
        destruct (ct_str pr m) eqn:?; [|discriminate H] end;
      (split; [simpl; lia|]); repeat constructor; eauto.
  - intros [L F].
    destruct es as [|a [|b [|c [|]]]]; try (exfalso; simpl in L; lia);
      repeat match goal with H : Forall _ (_ :: _) |- _ => inversion H; clear H; subst end;
      repeat match goal with H : ~ has_symbol _ |- _ => apply (ct_str_some pr) in H as [? H] end;
      simpl; repeat match goal with H : ct_str pr _ = Some _ |- _ => rewrite H; clear H end; simpl; eauto.
Qed.
End Vec.
