(** Histories in which no empty object is used, and all vectors have the same size, are free of
    undefined behaviour. *)
From Coq Require Import ZArith NArith List Bool Arith Lia.
From Verif Require Import Outcome Num RtModel RtFacts RtStep RtTermination HeapModel HeapSpec HeapFacts HeapRead HeapRun HeapOps HeapExec HeapHistory.
Import ListNotations.

Section HeapUb.
Context (n : num) (order elide : nat -> bool).
Notation expr := (expr n).
Notation vectors_of := (vectors_of n).

(** Defined, with results that satisfy [P]. *)
Definition fine {A : Type} (P : A -> Prop) (o : outcome A) : Prop :=
  match o with Ok a => P a | Throw _ => True | UB => False end.

Lemma fine_bind : forall A B (P : A -> Prop) (Q : B -> Prop) (o : outcome A) (f : A -> outcome B),
  fine P o -> (forall a, P a -> fine Q (f a)) -> fine Q (bind o f).
Proof. intros A B P Q [a|x|] f H K; cbn in *; auto. Qed.

Lemma fine_omap : forall A B (P : A -> Prop) (Q : B -> Prop) (o : outcome A) (f : A -> B),
  fine P o -> (forall a, P a -> Q (f a)) -> fine Q (omap f o).
Proof. intros A B P Q [a|x|] f H K; cbn in *; auto. Qed.

Lemma fine_both : forall A B C (P : A -> Prop) (Q : B -> Prop) (R : C -> Prop) a b (f : A -> B -> outcome C),
  fine P a -> fine Q b -> (forall x y, P x -> Q y -> fine R (f x y)) -> fine R (both a b f).
Proof. intros A B C P Q R [a|x|] [b|y|] f H K L; cbn in *; auto. Qed.

Lemma fine_any : forall A (P : A -> Prop) o, fine P o -> fine (fun _ => True) o.
Proof. intros A P [a|x|]; cbn; auto. Qed.

Lemma u_apply_fine : forall op x, fine (fun _ => True) (u_apply n op x).
Proof. intros [] x; exact I. Qed.

Lemma b_apply_fine : forall op x y, fine (fun _ => True) (b_apply n op x y).
Proof. intros [] x y; exact I. Qed.

Lemma eval_fine : forall e w, fine (fun _ => True) (eval n e w).
Proof.
  fix IH 1. intros e w. destruct e as [c|i|i t|op a|lo hi v a|op l r|es]; try exact I; cbn [eval].
  - destruct (N.leb_spec (N.of_nat (length w)) i) as [L|L]; [exact I|].
    destruct (nth_error w (N.to_nat i)) eqn:E; [exact I|]. apply nth_error_None in E. lia.
  - apply (fine_bind _ _ (fun _ => True)); [apply IH|]. intros x _. apply u_apply_fine.
  - apply (fine_bind _ _ (fun _ => True)); [apply IH|]. intros x _. exact I.
  - apply (fine_both _ _ _ (fun _ => True) (fun _ => True)); [apply IH|apply IH|]. intros x y _ _. apply b_apply_fine.
Qed.

Lemma unwrap_fine : forall e, fine (fun _ => True) (unwrap n e).
Proof.
  fix IH 1. intros e. destruct e as [c|i|i t|op a|lo hi v a|op l r|es]; try exact I; cbn [unwrap].
  - apply (fine_bind _ _ (fun _ => True)); [apply IH|]. intros x _. apply u_apply_fine.
  - apply (fine_bind _ _ (fun _ => True)); [apply IH|]. intros x _. exact I.
  - apply (fine_both _ _ _ (fun _ => True) (fun _ => True)); [apply IH|apply IH|]. intros x y _ _. apply b_apply_fine.
Qed.

Lemma const_eq_fine : forall e c, fine (fun _ => True) (const_eq n e c).
Proof.
  intros e c. unfold const_eq. destruct (is_constant n e); [|exact I].
  apply (fine_omap _ _ (fun _ => True)); [apply unwrap_fine|auto].
Qed.

Lemma oor_fine : forall a b, fine (fun _ => True) a -> fine (fun _ => True) b -> fine (fun _ => True) (oor a b).
Proof. intros a b A B. apply (fine_bind _ _ (fun _ => True)); [exact A|]. intros [] _; [exact I|exact B]. Qed.

Lemma can_simplify_fine : forall e, fine (fun _ => True) (can_simplify n e).
Proof.
  fix IH 1. intros e. destruct e as [c|i|i t|op a|lo hi v a|op l r|es]; try exact I; cbn [can_simplify]; try apply IH.
  destruct (is_constant n l && is_constant n r); [exact I|].
  assert (R : fine (fun _ => True) (oor (can_simplify n l) (can_simplify n r))) by (apply oor_fine; apply IH).
  destruct op; repeat (apply oor_fine; [apply const_eq_fine|]); try exact R; try exact I.
  destruct l, r; try exact I; exact R.
Qed.

Section Size.
Context (k : nat) (K : 0 < k).
Notation good := (fun e => vectors_of k e = true).

Lemma dot_acc_fine : forall a b acc, length a = length b -> vectors_of k acc = true ->
  forallb (vectors_of k) a = true -> forallb (vectors_of k) b = true ->
  fine good (dot_acc n acc a b).
Proof.
  induction a as [|x a IH]; intros [|y b] acc L A F G; cbn in *; try discriminate; [exact A|].
  apply andb_true_iff in F as [F1 F2]. apply andb_true_iff in G as [G1 G2].
  apply IH; auto. cbn. now rewrite A, F1, G1.
Qed.

Lemma dot_fine : forall a b, vectors_of k (EVec a) = true -> vectors_of k (EVec b) = true -> fine good (dot n a b).
Proof.
  intros a b A B. cbn in A, B. apply andb_true_iff in A as [A1 A2]. apply andb_true_iff in B as [B1 B2].
  apply Nat.eqb_eq in A1, B1. unfold dot. rewrite A1, B1, Nat.eqb_refl.
  destruct a as [|x a]; [cbn in A1; lia|]. destruct b as [|y b]; [cbn in B1; lia|].
  cbn in *. apply andb_true_iff in A2 as [A2 A3]. apply andb_true_iff in B2 as [B2 B3].
  apply dot_acc_fine; auto; [congruence|]. cbn. now rewrite A2, B2.
Qed.

Lemma mk2_fine : forall op a b, fine good a -> fine good b -> fine good (mk2 n op a b).
Proof.
  intros op a b A B. apply (fine_both _ _ _ good good); [exact A|exact B|]. intros x y X Y. cbn. now rewrite X, Y.
Qed.

Ltac unwrapping := apply (fine_bind _ _ (fun _ => True)); [apply unwrap_fine|intros ?x _].
Ltac branch := match goal with |- fine _ (if ?b then _ else _) => destruct b end.

Lemma simplify_fine : forall e, vectors_of k e = true -> fine good (simplify n e).
Proof.
  fix IH 1. intros e G. destruct e as [c|i|i t|op a|lo hi v a|op l r|es]; try exact G; cbn [simplify]; cbn [HeapSpec.vectors_of] in G.
  - destruct (is_constant n a); [destruct (u_can_simplify op)|].
    + unwrapping. apply (fine_omap _ _ (fun _ => True)); [apply u_apply_fine|reflexivity].
    + apply (fine_omap _ _ (fun _ => True)); [apply unwrap_fine|reflexivity].
    + apply (fine_omap _ _ good); [apply IH, G|auto].
  - apply andb_true_iff in G as [G1 G2]. destruct (is_constant n a).
    + apply (fine_omap _ _ (fun _ => True)); [apply unwrap_fine|]. intros x _. cbn. now rewrite G1.
    + apply (fine_omap _ _ good); [apply IH, G2|]. intros x X. cbn. now rewrite G1, X.
  - pose proof G as G0. apply andb_true_iff in G as [G1 G2].
    assert (SL : fine good (simplify n l)) by (apply IH, G1).
    assert (SR : fine good (simplify n r)) by (apply IH, G2).
    destruct (is_constant n l && is_constant n r).
    + apply (fine_omap _ _ (fun _ => True)); [|reflexivity].
      apply (fine_both _ _ _ (fun _ => True) (fun _ => True)); try apply unwrap_fine. intros; apply b_apply_fine.
    + destruct op.
      * destruct (is_constant n l); [|destruct (is_constant n r)]; try unwrapping; repeat branch; auto;
          try (apply mk2_fine; assumption); apply (fine_omap _ _ good); auto; intros z Z; cbn; now rewrite ?Z.
      * destruct (is_constant n l); [|destruct (is_constant n r)]; try unwrapping; repeat branch; auto;
          try (apply mk2_fine; assumption); apply (fine_omap _ _ good); auto; intros z Z; cbn; now rewrite ?Z.
      * destruct (is_constant n l); [|destruct (is_constant n r)]; try unwrapping; repeat branch; auto;
          try (apply (fine_omap _ _ good); auto; intros z Z; cbn; now rewrite ?Z); try reflexivity.
        assert (R : fine good (mk2 n BMult (simplify n l) (simplify n r))) by (apply mk2_fine; assumption).
        destruct l; try exact R; destruct r; try exact R. now apply dot_fine.
      * destruct (is_constant n l); [|destruct (is_constant n r)]; try unwrapping; repeat branch; auto;
          try (apply mk2_fine; assumption); try reflexivity; apply (fine_omap _ _ good); auto; intros z Z; cbn; now rewrite ?Z.
      * exact G0.
Qed.

Lemma settle_fine : forall e, vectors_of k e = true ->
  vectors_of k (fst (settle n e)) = true /\ fine (fun _ => True) (snd (settle n e)).
Proof.
  intros e G. unfold settle.
  assert (H : forall f e, weight n e < f -> vectors_of k e = true ->
     vectors_of k (fst (settle_f n f e)) = true /\ fine (fun _ => True) (snd (settle_f n f e))).
  { clear e G. induction f as [|f IH]; intros e L G; [lia|]. cbn.
    pose proof (can_simplify_fine e) as CF. destruct (can_simplify n e) as [[]|x|] eqn:CE; try contradiction; cbn; auto.
    pose proof (simplify_fine e G) as SF. destruct (simplify n e) as [e'|x|] eqn:SE; try contradiction; cbn; auto.
    apply IH; [|exact SF]. pose proof (simplify_lt n e e' (simplify_sstep n e e' SE) CE). lia. }
  apply H; [lia|exact G].
Qed.

Lemma top_fine : forall e, vectors_of k e = true -> fine good (simplify_top n e).
Proof.
  intros e G. rewrite settle_top. destruct (settle_fine e G) as [A B]. destruct (settle n e) as [e' [u|x|]]; cbn in *; auto.
Qed.

Lemma deep_equal_fine : forall e o, vectors_of k e = true -> vectors_of k o = true ->
  fine (fun _ => True) (deep_equal n e o).
Proof.
  fix IH 1. intros e o G H. destruct e as [c|i|i t|op a|lo hi v a|op l r|es]; destruct o as [c'|i'|i' t'|op' a'|lo' hi' v' a'|op' l' r'|es'];
    try exact I; cbn [deep_equal]; cbn [HeapSpec.vectors_of] in G, H.
  - apply (fine_bind _ _ (fun _ => True)); [now apply IH|intros; exact I].
  - apply andb_true_iff in H as [_ H]. apply (fine_bind _ _ (fun _ => True)); [now apply IH|intros; exact I].
  - apply andb_true_iff in G as [_ G]. apply (fine_bind _ _ (fun _ => True)); [now apply IH|intros; exact I].
  - apply andb_true_iff in G as [_ G]. apply andb_true_iff in H as [_ H]. now apply IH.
  - apply andb_true_iff in G as [G1 G2]. apply andb_true_iff in H as [H1 H2].
    apply (fine_bind _ _ (fun _ => True)); [now apply IH|]. intros q _. destruct (q && b_equal op op'); [now apply IH|exact I].
  - apply andb_true_iff in G as [G1 G2]. apply andb_true_iff in H as [H1 H2].
    apply Nat.eqb_eq in G1, H1. rewrite <- H1 in G1. clear H1. revert es' G1 H2. induction es as [|x es IHl]; intros [|y es'] L H2; try discriminate; [exact I|].
    cbn in G2, H2. apply andb_true_iff in G2 as [Gx G2]. apply andb_true_iff in H2 as [Hy H2].
    apply (fine_bind _ _ (fun _ => True)); [now apply IH|]. intros [] _; [|exact I].
    apply IHl; auto.
Qed.

Lemma oseq_fine : forall (f : expr -> outcome expr) es, (forall e, In e es -> fine good (f e)) ->
  fine (fun l => length l = length es /\ forallb (vectors_of k) l = true) (oseq (map f es)).
Proof.
  intros f es. induction es as [|e es IH]; intros H; cbn; [auto|].
  apply (fine_bind _ _ good); [apply H; now left|]. intros a A.
  apply (fine_omap _ _ (fun l => length l = length es /\ forallb (vectors_of k) l = true)).
  - apply IH. intros x X. apply H. now right.
  - intros l [L F]. cbn. rewrite A, F, L. auto.
Qed.

Lemma forallb_in : forall es e, forallb (vectors_of k) es = true -> In e es -> vectors_of k e = true.
Proof. intros es e F X. rewrite forallb_forall in F. now apply F. Qed.

Lemma subst1_fine : forall s r e, vectors_of k s = true -> vectors_of k r = true -> vectors_of k e = true ->
  fine good (subst1 n s r e).
Proof.
  intros s r e GS GR. revert e. fix IH 1. intros e G.
  assert (Q : forall x, fine good x -> fine good (bind (deep_equal n e s) (fun q => if q then Ok r else x))).
  { intros x X. apply (fine_bind _ _ (fun _ => True)); [now apply deep_equal_fine|]. intros [] _; [exact GR|exact X]. }
  destruct e as [c|i|i t|op a|lo hi v a|op l r'|es]; cbn [subst1]; apply Q; try exact G; cbn [HeapSpec.vectors_of] in G.
  - apply (fine_omap _ _ good); [now apply IH|auto].
  - apply andb_true_iff in G as [G1 G2]. apply (fine_omap _ _ good); [now apply IH|]. intros x X. cbn. now rewrite G1, X.
  - apply andb_true_iff in G as [G1 G2]. apply mk2_fine; now apply IH.
  - apply andb_true_iff in G as [G1 G2]. clear Q.
    apply (fine_omap _ _ (fun l => length l = length es /\ forallb (vectors_of k) l = true)).
    + clear G1. induction es as [|e es IHl]; cbn; [auto|]. cbn in G2. apply andb_true_iff in G2 as [G2 G3].
      apply (fine_bind _ _ good); [now apply IH|]. intros a A.
      apply (fine_omap _ _ (fun l => length l = length es /\ forallb (vectors_of k) l = true)); [now apply IHl|].
      intros l [L F]. cbn. rewrite A, F, L. auto.
    + intros l [L F]. cbn. now rewrite L, G1, F.
Qed.

Lemma substv_fine : forall ss rs, forallb (vectors_of k) ss = true -> forallb (vectors_of k) rs = true -> length ss = length rs ->
  forall e, vectors_of k e = true -> fine good (substv n ss rs e).
Proof.
  intros ss rs GS GR LEN. fix IH 1. intros e G.
  assert (Q : forall x, fine good x -> fine good (bind (find_match n e ss rs) (fun m => match m with Some r => Ok r | None => x end))).
  { intros x X. apply (fine_bind _ _ (fun m => match m with Some r => vectors_of k r = true | None => True end)).
    - clear IH X. revert rs GR LEN GS. induction ss as [|s ss IHs]; intros rs GR LEN GS; cbn [find_match]; [exact I|].
      destruct rs as [|r rs]; [discriminate|]. cbn in GR, GS, LEN. apply andb_true_iff in GR as [GR1 GR2]. apply andb_true_iff in GS as [GS1 GS2].
      apply (fine_bind _ _ (fun _ => True)); [now apply deep_equal_fine|]. intros [] _; [exact GR1|]. apply IHs; [exact GR2|now injection LEN|exact GS2].
    - intros [r|] R; [exact R|exact X]. }
  destruct e as [c|i|i t|op a|lo hi v a|op l r'|es]; cbn [substv]; apply Q; try exact G; cbn [HeapSpec.vectors_of] in G.
  - apply (fine_omap _ _ good); [now apply IH|auto].
  - apply andb_true_iff in G as [G1 G2]. apply (fine_omap _ _ good); [now apply IH|]. intros x X. cbn. now rewrite G1, X.
  - apply andb_true_iff in G as [G1 G2]. apply mk2_fine; now apply IH.
  - apply andb_true_iff in G as [G1 G2]. clear Q.
    apply (fine_omap _ _ (fun l => length l = length es /\ forallb (vectors_of k) l = true)).
    + clear G1. induction es as [|e es IHl]; cbn; [auto|]. cbn in G2. apply andb_true_iff in G2 as [G2 G3].
      apply (fine_bind _ _ good); [now apply IH|]. intros a A.
      apply (fine_omap _ _ (fun l => length l = length es /\ forallb (vectors_of k) l = true)); [now apply IHl|].
      intros l [L F]. cbn. rewrite A, F, L. auto.
    + intros l [L F]. cbn. now rewrite L, G1, F.
Qed.

Lemma interval_sized : forall lo hi v e, vectors_of k lo = true -> vectors_of k hi = true -> vectors_of k e = true ->
  vectors_of k (subst_interval n 0 lo hi v e) = true.
Proof.
  intros lo hi v e L H. unfold subst_interval.
  induction e as [c|i|i t|op a IHa|l h w a IHlo IHhi IHa|op l r IHl IHr|es IHes] using expr_ind'; intros G;
    cbn [manipulate is_symbolic_integral to_concrete_integral]; cbn [HeapSpec.vectors_of] in G; try exact G.
  - destruct op; cbn [HeapSpec.vectors_of]; try (now apply IHa). now rewrite L, H, G.
  - apply andb_true_iff in G as [G1 G2]. cbn [HeapSpec.vectors_of]. rewrite G1. now apply IHa.
  - apply andb_true_iff in G as [G1 G2]. cbn [HeapSpec.vectors_of]. rewrite IHl, IHr by assumption. reflexivity.
Qed.

Lemma diff_fine : forall x e, vectors_of k e = true -> fine good (diff n x e).
Proof.
  intros x. induction e as [c|i|i t|op a IHa|lo hi v a IHlo IHhi IHa|op l r IHl IHr|es IHes] using expr_ind'; intros G; try exact I; try reflexivity;
    cbn [diff]; cbn [HeapSpec.vectors_of] in G.
  - destruct x as [j|j s]; [destruct (N.eqb j i)|]; reflexivity.
  - destruct x as [j|j s]; [exact I|]. destruct (N.eqb j i && N.eqb s t); reflexivity.
  - specialize (IHa G).
    destruct op; try exact I; try exact IHa;
      try (apply (fine_omap _ _ good); [exact IHa|]; intros z Z; cbn; now rewrite ?Z, ?G).
    destruct x as [j|j s]; [exact I|].
    apply (fine_bind _ _ good); [exact IHa|]. intros d Gd.
    apply (fine_bind _ _ (fun _ => True)); [now apply deep_equal_fine|]. intros [] _; [reflexivity|].
    apply (fine_omap _ _ good); [exact IHa|]. auto.
  - apply andb_true_iff in G as [G1 G2]. specialize (IHl G1). specialize (IHr G2).
    destruct op; try exact I; try (apply mk2_fine; assumption);
      apply (fine_both _ _ _ good good); auto; intros y z Y Z; cbn; now rewrite Y, Z, G1, G2.
  - apply andb_true_iff in G as [G1 G2].
    apply (fine_omap _ _ (fun l => length l = length es /\ forallb (vectors_of k) l = true)).
    + apply oseq_fine. intros e E. rewrite Forall_forall in IHes. apply (IHes e E). apply (forallb_in es e G2 E).
    + intros l [L F]. cbn. now rewrite L, G1, F.
Qed.

(** Every expression in a store has vectors of size [k]. *)
Definition sized (st : store n) : Prop := forall x e, st x = Some (Some e) -> vectors_of k e = true.

Lemma value_fine : forall st y, sized st -> st y <> None -> st y <> Some None ->
  fine good (value_of n st y).
Proof.
  intros st y Z A B. unfold value_of. specialize (Z y). destruct (st y) as [[e|]|]; try congruence. now apply Z.
Qed.

Lemma source_fine : forall st (s : source n), sized st -> source_scoped n st s ->
  (forall y, In y (operands n s) -> st y <> Some None) -> vector_size n (Init n 0 s) k ->
  fine (fun v => match v with Some e => vectors_of k e = true | None => exists y, s = SCopy n y /\ st y = Some None end) (source_spec n st s).
Proof.
  intros st s Z SC NE VS.
  assert (V : forall y, In y (operands n s) -> fine good (value_of n st y)).
  { intros y Y. apply value_fine; auto. destruct s; cbn in SC; auto. }
  destruct s as [lf|c|y|op y z|op y|lo hi v y|ys|y|x y|u r y|us rs y|lo hi v y]; cbn in V, SC; cbn [source_spec].
  - destruct lf; reflexivity.
  - reflexivity.
  - destruct (st y) as [[e|]|] eqn:E; [|exists y; auto|now elim SC]. cbn. now apply (Z y).
  - apply (fine_bind _ _ good); [apply V; tauto|]. intros a A. apply (fine_bind _ _ good); [apply V; tauto|]. intros b B.
    cbn. now rewrite A, B.
  - apply (fine_bind _ _ good); [apply V; tauto|]. intros a A. exact A.
  - apply (fine_bind _ _ good); [apply V; tauto|]. intros a A. apply (fine_bind _ _ good); [apply V; tauto|]. intros b B.
    apply (fine_bind _ _ good); [apply V; tauto|]. intros d D. cbn. now rewrite A, B, D.
  - apply (fine_omap _ _ (fun l => length l = length ys /\ forallb (vectors_of k) l = true)).
    + clear VS SC NE. induction ys as [|y ys IH]; cbn; [auto|]. apply (fine_bind _ _ good); [apply V; now left|]. intros a A.
      apply (fine_omap _ _ (fun l => length l = length ys /\ forallb (vectors_of k) l = true)).
      * apply IH. intros z Y. apply V. now right.
      * intros l [L F]. cbn. rewrite A, F, L. auto.
    + intros l [L F]. cbn. cbn in VS. now rewrite L, VS, Nat.eqb_refl, F.
  - apply (fine_bind _ _ good); [apply V; tauto|]. intros a A. apply (fine_omap _ _ good); [now apply top_fine|auto].
  - apply (fine_bind _ _ good); [apply V; tauto|]. intros a A. apply (fine_omap _ _ good); [|auto].
    apply (fine_bind _ _ good); [now apply diff_fine|]. intros b B. now apply top_fine.
  - apply (fine_bind _ _ good); [apply V; tauto|]. intros a A. apply (fine_bind _ _ good); [apply V; tauto|]. intros b B.
    apply (fine_bind _ _ good); [apply V; tauto|]. intros d D. apply (fine_omap _ _ good); [|auto].
    apply (fine_bind _ _ good); [now apply subst1_fine|]. intros f F. now apply top_fine.
  - assert (L : forall ys, (forall z, In z ys -> fine good (value_of n st z)) ->
      fine (fun l => length l = length ys /\ forallb (vectors_of k) l = true) (oseq (map (value_of n st) ys))).
    { clear. induction ys as [|y ys IH]; intros V; cbn; [auto|]. apply (fine_bind _ _ good); [apply V; now left|]. intros a A.
      apply (fine_omap _ _ (fun l => length l = length ys /\ forallb (vectors_of k) l = true)).
      - apply IH. intros z Y. apply V. now right.
      - intros l [L F]. cbn. rewrite A, F, L. auto. }
    apply (fine_bind _ _ good); [apply V; tauto|]. intros a A.
    eapply fine_bind; [apply (L us); intros z Y; apply V; right; apply in_or_app; now left|]. intros ss [LS FS].
    eapply fine_bind; [apply (L rs); intros z Y; apply V; right; apply in_or_app; now right|]. intros ps [LP FP].
    apply (fine_omap _ _ good); [|auto]. unfold substv_top. cbn in VS. rewrite LS, LP, VS, Nat.eqb_refl.
    apply (fine_bind _ _ good); [apply substv_fine; [exact FS|exact FP|congruence|exact A]|]. intros f F. now apply top_fine.
  - apply (fine_bind _ _ good); [apply V; tauto|]. intros a A. apply (fine_bind _ _ good); [apply V; tauto|]. intros b B.
    apply (fine_bind _ _ good); [apply V; tauto|]. intros d D. cbn. now apply interval_sized.
Qed.

Lemma sized_upd : forall st x v, sized st -> match v with Some (Some e) => vectors_of k e = true | _ => True end ->
  sized (upd st x v).
Proof.
  intros st x v Z H y e. unfold upd. destruct (Nat.eqb y x); [|apply Z]. intros ->. exact H.
Qed.

Lemma step_defined : forall (s : stmt n) st, sized st -> scoped n st s ->
  (forall y, In y (reads_from n s) -> st y <> Some None) -> vector_size n s k ->
  exists ev st', exec_spec n s st = Some (ev, st') /\ sized st'.
Proof.
  intros s st Z SC NE VS. destruct s as [x|x src|x src|x|x|x w]; cbn [exec_spec]; cbn in SC.
  - rewrite SC. exists (Done n), (upd st x (Some None)). split; [reflexivity|]. now apply sized_upd.
  - destruct SC as [-> SC]. pose proof (source_fine st src Z SC NE VS) as F.
    destruct (source_spec n st src) as [v|y|]; [| |destruct F].
    + eexists; eexists; split; [reflexivity|]. apply sized_upd; [exact Z|]. destruct v; [exact F|exact I].
    + eexists; eexists; split; [reflexivity|exact Z].
  - destruct SC as [SX SC]. destruct (st x) as [old|]; [|now elim SX].
    assert (NE' : forall y, In y (operands n src) -> st y <> Some None).
    { intros y Y. apply NE. destruct src; try exact Y. destruct Y. }
    pose proof (source_fine st src Z SC NE' VS) as F.
    destruct (source_spec n st src) as [[e|]|y|]; [| | |destruct F].
    + eexists; eexists; split; [reflexivity|]. now apply sized_upd.
    + destruct F as [y [-> E]]. elim (NE y); [now left|exact E].
    + eexists; eexists; split; [reflexivity|exact Z].
  - pose proof (value_fine st x Z SC (NE x (or_introl eq_refl))) as F.
    destruct (value_of n st x) as [e|y|] eqn:E; [| |destruct F].
    + destruct (settle_fine e F) as [A B]. destruct (settle n e) as [e' [u|y|]]; cbn in A, B; [| |destruct B];
        (eexists; eexists; split; [reflexivity|]; apply sized_upd; [exact Z|exact A]).
    + destruct (value_of_cases n st x) as [[e V]|V]; rewrite V in E; discriminate.
  - destruct (st x); [|now elim SC]. eexists; eexists; split; [reflexivity|]. now apply sized_upd.
  - assert (F : fine (fun _ => True) (bind (value_of n st x) (fun e => eval n e w))).
    { apply (fine_bind _ _ good); [apply (value_fine st x Z SC (NE x (or_introl eq_refl)))|]. intros; apply eval_fine. }
    destruct (bind (value_of n st x) (fun e => eval n e w)); [| |destruct F]; (eexists; eexists; split; [reflexivity|exact Z]).
Qed.

Lemma all_defined : forall l st, sized st -> careful n k l st -> exists evs st', exec_all_spec n l st = Some (evs, st').
Proof.
  induction l as [|s l IH]; intros st Z C; cbn [exec_all_spec]; [eauto|]. destruct C as [SC [NE [VS C]]].
  destruct (step_defined s st Z SC NE VS) as [ev [st' [E Z']]]. rewrite E.
  destruct (IH st' Z' (C _ _ E)) as [evs [st'' E']]. rewrite E'. eauto.
Qed.
End Size.

(** Using an empty object. *)
Lemma get_empty : forall env y m, env y = Some None -> get n env y m = RUB.
Proof. intros env y m E. unfold get, var. rewrite E. reflexivity. Qed.

Lemma get_cases : forall C env m st own y, inv n C env m st own ->
  (exists a, get n env y m = ROk m a) \/ get n env y m = RUB.
Proof.
  intros C env m st own y V. unfold get, var. destruct (env y) as [[a|]|]; [left|right|right]; try reflexivity.
  exists a. reflexivity.
Qed.

Lemma ub_bind : forall A B (c : M n A) (f : A -> M n B) m, c m = RUB -> mbind c f m = RUB.
Proof. intros A B c f m E. unfold mbind. now rewrite E. Qed.

Lemma get_then : forall A env y (f : nat -> M n A) m, (forall a, get n env y m = ROk m a -> f a m = RUB) -> mbind (get n env y) f m = RUB.
Proof.
  intros A env y f m H. assert (G : (exists a, get n env y m = ROk m a) \/ get n env y m = RUB).
  { unfold get, var. destruct (env y) as [[a|]|]; [left|right|right]; try reflexivity. exists a. reflexivity. }
  destruct G as [[a E]|E]; [|now apply ub_bind]. rewrite (mbind_ok n _ _ _ _ _ E). now apply H.
Qed.

Lemma gets_empty : forall env y ys m, In y ys -> env y = Some None -> gets n env ys m = RUB.
Proof.
  intros env y ys m I E. revert m. induction ys as [|z ys IH]; intros m; [destruct I|]. cbn [gets].
  destruct I as [->|I]; [apply ub_bind; now apply get_empty|].
  apply get_then. intros a _. apply ub_bind. now apply IH.
Qed.

Lemma gets_then : forall A env ys (f : list nat -> M n A) m, (forall l, gets n env ys m = ROk m l -> f l m = RUB) ->
  mbind (gets n env ys) f m = RUB.
Proof.
  intros A env ys f m H. assert (G : (exists l, gets n env ys m = ROk m l) \/ gets n env ys m = RUB).
  { clear H. induction ys as [|y ys IH]; [left; exists []; reflexivity|]. cbn [gets].
    assert (G : (exists a, get n env y m = ROk m a) \/ get n env y m = RUB).
    { unfold get, var. destruct (env y) as [[a|]|]; [left|right|right]; try reflexivity. exists a. reflexivity. }
    destruct G as [[a E]|E]; [|right; now apply ub_bind]. rewrite (mbind_ok n _ _ _ _ _ E).
    destruct IH as [[l E']|E']; [|right; now apply ub_bind]. left. exists (a :: l). rewrite (mbind_ok n _ _ _ _ _ E'). reflexivity. }
  destruct G as [[a E]|E]; [|now apply ub_bind]. rewrite (mbind_ok n _ _ _ _ _ E). now apply H.
Qed.

Lemma source_empty : forall env s y m, In y (operands n s) -> env y = Some None ->
  source_value n order elide env s m = RUB.
Proof.
  intros env s y m I E.
  assert (U : forall A (f : nat -> M n A) m, mbind (get n env y) f m = RUB) by (intros; apply ub_bind; now apply get_empty).
  destruct s as [lf|c|x|op x z|op x|lo hi v x|ys|x|x z|u r x|us rs x|lo hi v x]; cbn [operands In] in I; cbn [source_value]; try contradiction.
  - destruct I as [->|[->|[]]]; [apply U|]. apply get_then. intros a _. apply U.
  - destruct I as [->|[]]. apply U.
  - destruct I as [->|[->|[->|[]]]]; [apply U| |]; apply get_then; intros a _; [apply U|]. apply get_then. intros b _. apply U.
  - apply ub_bind. now apply (gets_empty env y).
  - destruct I as [->|[]]. unfold var. rewrite E. reflexivity.
  - destruct I as [->|[]]. apply U.
  - destruct I as [->|[->|[->|[]]]]; [|apply get_then; intros a _; apply get_then; intros b _; apply U|apply U].
    apply get_then. intros a _. apply U.
  - destruct I as [->|I]; [apply U|]. apply get_then. intros a _.
    apply in_app_or in I as [I|I]; [apply ub_bind; now apply (gets_empty env y)|].
    apply gets_then. intros b _. apply ub_bind. now apply (gets_empty env y).
  - destruct I as [->|[->|[->|[]]]]; [apply U| |]; apply get_then; intros a _; [apply U|]. apply get_then. intros b _. apply U.
Qed.

Lemma exec_empty : forall s env m y, In y (reads_from n s) -> env y = Some None ->
  exec n order elide s env m = None.
Proof.
  intros s env m y I E. destruct s as [x|x src|x src|x|x|x w]; cbn [exec]; cbn [reads_from In] in I; try contradiction.
  - destruct (env x); [reflexivity|]. now rewrite (source_empty env src y m I E).
  - destruct (env x) as [old|]; [|reflexivity].
    assert (CP : (exists z, src = SCopy n z) \/ (forall z, src <> SCopy n z)).
    { destruct src; eauto; right; intros ? Z; discriminate. }
    destruct CP as [[z ->]|NC].
    + destruct I as [->|[]]. unfold var. rewrite E. reflexivity.
    + assert (I' : In y (operands n src)) by (destruct src; try exact I; now elim (NC y0)).
      assert (UB' : forall B (f : slot -> M n B), mbind (source_value n order elide env src) f m = RUB).
      { intros B f. apply ub_bind. now apply (source_empty env src y). }
      destruct src; try (rewrite UB'; reflexivity). now elim (NC y0).
  - destruct I as [->|[]]. rewrite E. reflexivity.
  - destruct I as [->|[]]. now rewrite (ub_bind _ _ _ _ _ (get_empty env y m E)).
Qed.

(** Tests that decide [careful] and [tidy], for the examples. *)
Definition is_none {A : Type} (o : option A) : bool := match o with None => true | Some _ => false end.
Definition emptyb (o : option (option expr)) : bool := match o with Some None => true | _ => false end.
Definition source_scopedb (st : store n) (s : source n) : bool :=
  match s with SCopy _ y => negb (is_none (st y)) | _ => forallb (fun y => negb (is_none (st y))) (operands n s) end.
Definition scopedb (st : store n) (s : stmt n) : bool :=
  match s with
  | Declare _ x => is_none (st x)
  | Init _ x src => is_none (st x) && source_scopedb st src
  | Assign _ x src => negb (is_none (st x)) && source_scopedb st src
  | Inplace _ x | Destroy _ x | Eval _ x _ => negb (is_none (st x))
  end.
Definition vector_sizeb (s : stmt n) (k : nat) : bool :=
  match s with
  | Init _ _ (SVector _ ys) | Assign _ _ (SVector _ ys) => Nat.eqb (length ys) k
  | Init _ _ (SSubstAll _ us rs _) | Assign _ _ (SSubstAll _ us rs _) => Nat.eqb (length us) (length rs)
  | _ => true
  end.
Fixpoint carefulb (k : nat) (l : list (stmt n)) (st : store n) : bool :=
  match l with
  | [] => true
  | s :: l' =>
      scopedb st s && forallb (fun y => negb (emptyb (st y))) (reads_from n s) && vector_sizeb s k &&
      match exec_spec n s st with Some (_, st') => carefulb k l' st' | None => true end
  end.
Fixpoint tidyb (l : list (stmt n)) (st : store n) : bool :=
  match l with
  | [] => true
  | s :: l' =>
      match exec_spec n s st with
      | None => true
      | Some (ev, st') =>
          match ev with Raised _ => false | _ => true end && negb (gradient_by_symbol n st s) && tidyb l' st'
      end
  end.

Lemma is_none_true : forall A (o : option A), is_none o = true -> o = None.
Proof. intros A [a|]; [discriminate|reflexivity]. Qed.
Lemma is_none_false : forall A (o : option A), negb (is_none o) = true -> o <> None.
Proof. intros A [a|]; discriminate. Qed.

Lemma source_scopedb_ok : forall st s, source_scopedb st s = true -> source_scoped n st s.
Proof.
  intros st s H.
  assert (G : forallb (fun y => negb (is_none (st y))) (operands n s) = true -> forall y, In y (operands n s) -> st y <> None).
  { intros F y Y. rewrite forallb_forall in F. now apply is_none_false, F. }
  destruct s; cbn [source_scopedb source_scoped] in *; try (apply G, H). now apply is_none_false.
Qed.

Lemma scopedb_ok : forall st s, scopedb st s = true -> scoped n st s.
Proof.
  intros st s H. destruct s; cbn [scopedb scoped] in *; try (now apply is_none_true); try (now apply is_none_false);
    apply andb_true_iff in H as [H1 H2]; split; try (now apply is_none_true); try (now apply is_none_false);
    now apply source_scopedb_ok.
Qed.

Lemma carefulb_ok : forall k l st, carefulb k l st = true -> careful n k l st.
Proof.
  intros k. induction l as [|s l IH]; intros st H; [exact I|]. cbn [carefulb careful] in *.
  apply andb_true_iff in H as [H H4]. apply andb_true_iff in H as [H H3]. apply andb_true_iff in H as [H1 H2].
  split; [now apply scopedb_ok|]. split; [|split].
  - intros y Y E. rewrite forallb_forall in H2. specialize (H2 y Y). rewrite E in H2. discriminate.
  - destruct s; cbn in *; try exact I; destruct s; try exact I; now apply Nat.eqb_eq.
  - intros ev st' E. rewrite E in H4. now apply IH.
Qed.

Lemma tidyb_ok : forall l st, tidyb l st = true -> tidy n l st.
Proof.
  induction l as [|s l IH]; intros st H; [exact I|]. cbn [tidyb tidy] in *.
  destruct (exec_spec n s st) as [[ev st']|]; [|exact I].
  apply andb_true_iff in H as [H H3]. apply andb_true_iff in H as [H1 H2].
  split; [intros ->; discriminate|]. split; [now apply negb_true_iff|now apply IH].
Qed.
End HeapUb.
