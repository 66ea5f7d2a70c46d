(** Differentiation by a function symbol; failures of differentiation (proofs only). *)
From Coq Require Import ZArith NArith Reals List Bool Lia Lra Psatz.
From Verif Require Import Outcome Num RtModel RtSpec RtFacts RtStep RtTermination RtValue RtEval RtSubst
  NumR NumRFacts RealSpec RtDiff RtDiff2.
Import ListNotations.

Section Fun.
Context (n : num).
Local Notation expr := (expr n).

(** Replacing a function symbol (integral bounds excluded). *)
Fixpoint rf (i t : N) (r e : expr) : expr :=
  match e with
  | EConst _ | EVar _ => e
  | EFun j s => if N.eqb i j && N.eqb t s then r else e
  | EUn op a => EUn op (rf i t r a)
  | EInt lo hi v a => EInt lo hi v (rf i t r a)
  | EBin op l r' => EBin op (rf i t r l) (rf i t r r')
  | EVec es => EVec (map (rf i t r) es)
  end.

Lemma deq_fun : forall i t (e : expr), deep_equal n e (EFun i t) =
  Ok match e with EFun j s => N.eqb i j && N.eqb t s | _ => false end.
Proof. intros i t []; reflexivity. Qed.

Lemma subst1_fun : forall i t r (e : expr), subst1 n (EFun i t) r e = Ok (rf i t r e).
Proof.
  intros i t r. induction e as [c|j|j s|op a IH|lo hi w a _ _ IH|op l r' IHl IHr|es IH] using expr_ind';
    cbn [subst1]; rewrite deq_fun; simpl; auto.
  - destruct (N.eqb i j && N.eqb t s); reflexivity.
  - rewrite IH. reflexivity.
  - rewrite IH. reflexivity.
  - rewrite IHl, IHr. reflexivity.
  - erewrite oseq_map_ok; [reflexivity|]. exact IH.
Qed.

(** Replacing the function symbol by a variable commutes with simplification. *)
Context (i t k : N).
Local Notation S := (rf i t (EVar k)).

Lemma S_const : forall e, is_constant n (S e) = is_constant n e.
Proof.
  induction e as [c|j|j s|op a IH|lo hi w a _ _ IH|op l r' IHl IHr|es IH] using expr_ind'; simpl; auto.
  - destruct (N.eqb i j && N.eqb t s); auto.
  - rewrite IHl, IHr. auto.
Qed.
Lemma S_unwrap : forall e, unwrap n (S e) = unwrap n e.
Proof.
  induction e as [c|j|j s|op a IH|lo hi w a _ _ IH|op l r' IHl IHr|es IH] using expr_ind'; simpl; auto.
  - destruct (N.eqb i j && N.eqb t s); auto.
  - rewrite IH; auto.
  - rewrite IH; auto.
  - rewrite IHl, IHr. auto.
Qed.
Lemma S_const_eq : forall e c, const_eq n (S e) c = const_eq n e c.
Proof. intros. unfold const_eq. rewrite S_const, S_unwrap. auto. Qed.
Lemma S_weight : forall e, weight n (S e) = weight n e.
Proof.
  induction e as [c|j|j s|op a IH|lo hi w a _ _ IH|op l r' IHl IHr|es IH] using expr_ind'; simpl; auto;
    try (rewrite ?IH, ?IHl, ?IHr; auto; fail).
  - destruct (N.eqb i j && N.eqb t s); auto.
  - do 2 f_equal. rewrite map_map. induction IH; simpl; auto. f_equal; auto.
Qed.
Lemma S_can : forall e, can_simplify n (S e) = can_simplify n e.
Proof.
  induction e as [c|j|j s|op a IH|lo hi w a _ _ IH|op l r' IHl IHr|es IH] using expr_ind'; simpl; auto.
  - destruct (N.eqb i j && N.eqb t s); auto.
  - rewrite !S_const, !S_const_eq, IHl, IHr.
    destruct op; auto.
    assert (V : forall l0 r0, match S l0, S r0 with EVec _, EVec _ => Ok true | _, _ => oor (can_simplify n l) (can_simplify n r') end
      = match l0, r0 with EVec _, EVec _ => Ok true | _, _ => oor (can_simplify n l) (can_simplify n r') end).
    { intros l0 r0. destruct l0; simpl; auto; try (destruct (N.eqb i id && N.eqb t tag); auto).
      destruct r0; simpl; auto; destruct (N.eqb i id && N.eqb t tag); auto. }
    rewrite V. auto.
Qed.
Lemma S_dot_acc : forall a b acc, dot_acc n (S acc) (map S a) (map S b) = omap S (dot_acc n acc a b).
Proof.
  induction a as [|x a IH]; intros [|y b] acc; simpl; auto.
  rewrite <- IH. auto.
Qed.
Lemma S_dot : forall a b, dot n (map S a) (map S b) = omap S (dot n a b).
Proof.
  intros a b. unfold dot. rewrite !map_length. destruct (Nat.eqb (length a) (length b)); auto.
  destruct a, b; simpl; auto. rewrite <- S_dot_acc. auto.
Qed.

Lemma omap_omap : forall {A B C} (f : A -> B) (g : B -> C) o, omap g (omap f o) = omap (fun x => g (f x)) o.
Proof. intros. destruct o; auto. Qed.
Lemma omap_bind : forall {A B C} (f : A -> outcome B) (g : B -> C) o,
  omap g (bind o f) = bind o (fun x => omap g (f x)).
Proof. intros. destruct o; auto. Qed.
Lemma bind_ext : forall {A B} (f g : A -> outcome B) o, (forall x, f x = g x) -> bind o f = bind o g.
Proof. intros. destruct o; simpl; auto. Qed.
Lemma mk2_S : forall op a b, mk2 n op (omap S a) (omap S b) = omap S (mk2 n op a b).
Proof. intros op [] []; reflexivity. Qed.

Lemma S_simplify : forall e, simplify n (S e) = omap S (simplify n e).
Proof.
  induction e as [c|j|j s|op a IH|lo hi w a _ _ IH|op l r IHl IHr|es IH] using expr_ind'; auto.
  - simpl. destruct (N.eqb i j && N.eqb t s); auto.
  - simpl. rewrite S_const, S_unwrap, IH. destruct (is_constant n a).
    + destruct (u_can_simplify op).
      * rewrite omap_bind. apply bind_ext. intros x. rewrite omap_omap. destruct (u_apply n op x); auto.
      * rewrite omap_omap. auto.
    + rewrite !omap_omap. auto.
  - simpl. rewrite S_const, S_unwrap, IH. destruct (is_constant n a); rewrite !omap_omap; auto.
  - cbn [rf]. cbn [simplify]. rewrite !S_const, !S_unwrap.
    destruct (is_constant n l && is_constant n r).
    { rewrite omap_omap. destruct (both (unwrap n l) (unwrap n r) (b_apply n op)); auto. }
    assert (B : forall o : outcome n, forall f g, (forall x, f x = omap S (g x)) -> bind o f = omap S (bind o g)).
    { intros o f g H. destruct o; simpl; auto. }
    assert (V : both_vec n (S l) (S r) = both_vec n l r).
    { destruct l, r; simpl; auto;
        repeat match goal with |- context [if ?b then _ else _] => destruct b; simpl end; auto. }
    assert (M : match S l, S r with EVec a, EVec b => dot n a b | _, _ => mk2 n BMult (simplify n (S l)) (simplify n (S r)) end
      = omap S match l, r with EVec a, EVec b => dot n a b | _, _ => mk2 n BMult (simplify n l) (simplify n r) end).
    { rewrite !mult_case, V. destruct (both_vec n l r) eqn:Bv.
      - destruct l, r; try discriminate. simpl. apply S_dot.
      - rewrite IHl, IHr. apply mk2_S. }
    rewrite IHl, IHr in M |- *.
    destruct op.
    + destruct (is_constant n l); [|destruct (is_constant n r)]; [apply B; intros x|apply B; intros x|apply mk2_S].
      * destruct (n_eq n x (c0 n)); auto. rewrite !omap_omap. auto.
      * destruct (n_eq n x (c0 n)); auto. rewrite !omap_omap. auto.
    + destruct (is_constant n l); [|destruct (is_constant n r)]; [apply B; intros x|apply B; intros x|apply mk2_S].
      * destruct (n_eq n x (c0 n)); rewrite !omap_omap; auto.
      * destruct (n_eq n x (c0 n)); auto. rewrite !omap_omap. auto.
    + destruct (is_constant n l); [|destruct (is_constant n r)]; [apply B; intros x|apply B; intros x|exact M].
      * destruct (n_eq n x (c0 n)); auto. destruct (n_eq n x (c1 n)); auto. rewrite !omap_omap. auto.
      * destruct (n_eq n x (c0 n)); auto. destruct (n_eq n x (c1 n)); auto. rewrite !omap_omap. auto.
    + destruct (is_constant n l); [|destruct (is_constant n r)]; [apply B; intros x|apply B; intros x|apply mk2_S].
      * destruct (n_eq n x (c0 n)); auto. rewrite !omap_omap. auto.
      * destruct (n_eq n x (c1 n)); auto. rewrite !omap_omap. auto.
    + reflexivity.
Qed.

Lemma S_inplace : forall f e, inplace_simplify n f (S e) = option_map (omap S) (inplace_simplify n f e).
Proof.
  induction f as [|f IH]; intros e; auto. cbn [inplace_simplify]. rewrite S_can, S_simplify.
  destruct (can_simplify n e) as [[]| |]; auto. destruct (simplify n e); simpl; auto.
Qed.

Lemma S_top : forall e, simplify_top n (S e) = omap S (simplify_top n e).
Proof.
  intros e. unfold simplify_top. rewrite S_weight, S_inplace.
  destruct (inplace_simplify n (Datatypes.S (weight n e)) e); auto.
Qed.
End Fun.

Section Gat.
Context (i t : N) (v : list (option R)).
Local Notation k := (N.of_nat (length v)).
Local Notation S := (rf numR i t (EVar k)).
Local Notation C c := (rf numR i t (EConst (T := numR) (Some c))).

Definition bnd (e : expr numR) : Prop := forall j, occurs_var j e -> (N.to_nat j < length v)%nat.

Lemma bnd_un : forall op a, bnd (EUn op a) -> bnd a.
Proof. intros op a H j J. apply H. constructor; auto. Qed.
Lemma bnd_l : forall op l r, bnd (EBin op l r) -> bnd l.
Proof. intros op l r H j J. apply H. apply sub_l; auto. Qed.
Lemma bnd_r : forall op l r, bnd (EBin op l r) -> bnd r.
Proof. intros op l r H j J. apply H. apply sub_r; auto. Qed.
Lemma bnd_const : forall c, bnd (EConst c).
Proof. intros c j J. inversion J. Qed.
Lemma bnd_un' : forall op a, bnd a -> bnd (EUn op a).
Proof. intros op a H j J. inversion J; subst. apply H; auto. Qed.
Lemma bnd_bin : forall op l r, bnd l -> bnd r -> bnd (EBin op l r).
Proof. intros op l r A B j J. inversion J; subst; [apply A|apply B]; auto. Qed.

Lemma reg_bnd : forall c e, reg v (C c e) -> bnd e.
Proof.
  intros c. induction e as [d|j|j s|op a IH|lo hi w a _ _ IH|op l r IHl IHr|es _] using expr_ind';
    simpl; try contradiction.
  - intros _. apply bnd_const.
  - intros [x E] j' J. inversion J; subst. apply nth_error_Some. congruence.
  - intros _ j' J. inversion J.
  - intros [A _]. apply bnd_un'; auto.
  - intros [[A B] _]. apply bnd_bin; auto.
Qed.

Lemma last_entry : forall c : option R, nth_error (v ++ [c]) (N.to_nat k) = Some c.
Proof. intros c. rewrite Nat2N.id. rewrite nth_error_app2 by lia. rewrite Nat.sub_diag. auto. Qed.

Lemma reg_S : forall c e, bnd e ->
  rv (v ++ [Some c]) (S e) = rv v (C c e) /\ (reg (v ++ [Some c]) (S e) <-> reg v (C c e)).
Proof.
  intros c. induction e as [d|j|j s|op a IH|lo hi w a _ _ IH|op l r IHl IHr|es _] using expr_ind'; intros B.
  - simpl. tauto.
  - assert (J : (N.to_nat j < length v)%nat) by (apply B; constructor).
    simpl. rewrite nth_error_app1 by auto. tauto.
  - simpl. destruct (N.eqb i j && N.eqb t s); simpl; [|tauto].
    pose proof (last_entry (Some c)) as Q. simpl in Q. rewrite Q. split; auto. split; eauto.
  - destruct (IH (bnd_un _ _ B)) as [E1 E2]. cbn [rf rv reg]. rewrite E1, E2. tauto.
  - simpl; tauto.
  - destruct (IHl (bnd_l _ _ _ B)) as [E1 E2]. destruct (IHr (bnd_r _ _ _ B)) as [E3 E4].
    cbn [rf rv reg]. rewrite E1, E2, E3, E4. tauto.
  - simpl; tauto.
Qed.

Lemma diff_S : forall c e, bnd e -> reg v (C c e) ->
  exists d, diff numR (DFun i t) e = Ok d /\ bnd d /\ S d = pdiff k (S e).
Proof.
  intros c. induction e as [d|j|j s|op a IH|lo hi w a _ _ IH|op l r IHl IHr|es _] using expr_ind'; intros B Rg.
  - eexists. split; [reflexivity|]. split; [apply bnd_const|reflexivity].
  - eexists. split; [reflexivity|]. split; [apply bnd_const|]. simpl.
    assert (J : (N.to_nat j < length v)%nat) by (apply B; constructor).
    destruct (N.eqb_spec k j); auto. subst. lia.
  - simpl in *. destruct (N.eqb i j && N.eqb t s); simpl in Rg; [|contradiction].
    eexists. split; [reflexivity|]. split; [apply bnd_const|]. simpl. rewrite N.eqb_refl. auto.
  - simpl in Rg. destruct Rg as [Ra D].
    pose proof (bnd_un _ _ B) as Ba. destruct (IH Ba Ra) as [da [Ed [Bd Sd]]].
    cbn [diff rf pdiff]. rewrite Ed.
    destruct op; simpl in D; try contradiction;
      (eexists; split; [reflexivity|]); (split; [|cbn [rf pdiff]; rewrite Sd; reflexivity]);
      repeat first [exact Bd | apply bnd_un' | apply bnd_bin | exact Ba | apply bnd_const].
  - simpl in Rg; contradiction.
  - simpl in Rg. destruct Rg as [[Rl Rr] D].
    pose proof (bnd_l _ _ _ B) as Bl. pose proof (bnd_r _ _ _ B) as Br.
    destruct (IHl Bl Rl) as [dl [El [Bdl Sl]]]. destruct (IHr Br Rr) as [dr [Er [Bdr Sr]]].
    cbn [diff rf pdiff]. rewrite El, Er.
    destruct op; simpl in D; try contradiction;
      (eexists; split; [reflexivity|]); (split; [|cbn [rf pdiff]; rewrite Sl, Sr; reflexivity]);
      repeat first [exact Bdl | exact Bdr | exact Bl | exact Br | apply bnd_bin].
  - simpl in Rg; contradiction.
Qed.

Lemma update_last : forall (c x : option R), update (v ++ [c]) (N.to_nat k) x = v ++ [x].
Proof.
  intros c x. rewrite Nat2N.id. induction v as [|y w IH]; simpl; auto. rewrite IH. auto.
Qed.

Lemma gateaux : forall c e, reg v (C c e) ->
  exists d q, diff_top numR (DFun i t) e = Ok d /\ subst1_top numR (EFun i t) (EConst (Some c)) d = Ok q /\
    exists r, eval numR q v = Ok (Some r) /\
    exists g delta, (0 < delta)%R /\ derivable_pt_lim g c r /\
      forall s, (Rabs (s - c) < delta)%R ->
        exists es, subst1_top numR (EFun i t) (EConst (Some s)) e = Ok es /\ eval numR es v = Ok (Some (g s)).
Proof.
  intros c e Rg. pose proof (reg_bnd _ _ Rg) as B.
  destruct (diff_S c e B Rg) as [d0 [Ed [Bd Sd]]].
  destruct (reg_S c e B) as [_ Q]. pose proof (proj2 Q Rg) as RS. clear Q.
  pose proof (partial_of_reg k _ c (S e) (last_entry (Some c)) RS) as [g [[delta [D Sl]] Der]].
  assert (Rd : reg (v ++ [Some c]) (S d0)) by (rewrite Sd; apply reg_pdiff; auto).
  destruct (simplify_reg _ _ Rd) as [q0 [Eq [Rq Vq]]].
  rewrite S_top in Eq. apply omap_ok in Eq as [d [Eds Sdq]]. subst q0.
  assert (Bd' : bnd d).
  { intros j J. apply Bd. exact (top_represented numR d0 d Eds _ J). }
  destruct (reg_S c d Bd') as [V1 Q1]. apply Q1 in Rq.
  destruct (simplify_reg _ _ Rq) as [q [Esq [Rq' Vq']]].
  exists d, q. unfold diff_top. rewrite Ed. simpl. split; auto.
  unfold subst1_top. rewrite subst1_fun. split; auto.
  exists (rv v q). split; [apply reg_eval; auto|].
  destruct (diff_main k _ c (S e) (last_entry (Some c)) RS) as [Lo _].
  destruct (locally_delta _ _ Lo) as [d1 [D1 L1]].
  exists g, (Rmin delta d1). split; [apply Rmin_glb_lt; auto|].
  assert (Ev : rv v q = rv (v ++ [Some c]) (pdiff k (S e))).
  { rewrite Vq', <- V1, Vq, Sd. reflexivity. }
  split; [rewrite Ev; auto|].
  intros s Hs.
  assert (H1 : (Rabs (s - c) < delta)%R) by (eapply Rlt_le_trans; [exact Hs|apply Rmin_l]).
  assert (H2 : (Rabs (s - c) < d1)%R) by (eapply Rlt_le_trans; [exact Hs|apply Rmin_r]).
  specialize (L1 _ H2). rewrite update_last in L1. specialize (Sl _ H1). rewrite update_last in Sl.
  destruct (reg_S s e B) as [V2 Q2].
  destruct (simplify_reg _ _ (proj1 Q2 L1)) as [es [Ee [Re Ve]]].
  exists es. rewrite subst1_fun. split; auto.
  assert (Ex : Ok (Some (rv (v ++ [Some s]) (S e))) = Ok (Some (g s))).
  { transitivity (eval numR (S e) (v ++ [Some s])); [|exact Sl].
    symmetry. exact (reg_eval _ _ L1). }
  assert (Ex' : rv (v ++ [Some s]) (S e) = g s) by (inversion Ex; auto).
  rewrite V2 in Ex'. rewrite <- Ve in Ex'. rewrite <- Ex'. exact (reg_eval _ _ Re).
Qed.
End Gat.

(** Failures. *)
Section Fail.
Context (n : num).
Local Notation expr := (expr n).

Lemma deq_const : forall (e : expr) c, exists b, deep_equal n e (EConst c) = Ok b.
Proof. intros e c; destruct e; simpl; eauto. Qed.

Lemma oseq_ok : forall {A} (l : list (outcome A)), (forall o, In o l -> exists x, o = Ok x) -> exists r, oseq l = Ok r.
Proof.
  induction l as [|o l IH]; intros H; simpl; eauto.
  destruct (H o (or_introl eq_refl)) as [x ->]. destruct IH as [r ->]; simpl; eauto.
  intros o' Ho. apply H. right; auto.
Qed.
Lemma oseq_inv : forall {A} (l : list (outcome A)) r, oseq l = Ok r -> forall o, In o l -> exists x, o = Ok x.
Proof.
  induction l as [|o l IH]; intros r H o' Ho; simpl in *; [contradiction|].
  apply bind_ok in H as [a [E F]]. apply omap_ok in F as [w [F _]].
  destruct Ho; subst; eauto.
Qed.

Lemma diff_ok_iff : forall x (e : expr),
  (exists d, diff n x e = Ok d) <-> (forall s, reachable s e -> blocks x s = false).
Proof.
  intros x e. split.
  - induction e as [c|j|j s|op a IH|lo hi w a _ _ IH|op l r IHl IHr|es IH] using expr_ind'; intros [d H] s' Q.
    + inversion Q; subst; auto.
    + inversion Q; subst; auto.
    + inversion Q; subst. simpl in *. destruct x; auto; discriminate.
    + assert (K : (exists da, diff n x a = Ok da) /\ blocks x (EUn op a) = false).
      { simpl in H. destruct op; try discriminate; simpl; split; auto;
          try (apply omap_ok in H as [? [? _]]; eauto; fail); eauto; destruct x; try discriminate; auto.
        apply bind_ok in H as [da [E _]]. eauto. }
      destruct K as [K1 K2]. inversion Q; subst; auto.
    + discriminate.
    + assert (K : (exists dl, diff n x l = Ok dl) /\ (exists dr, diff n x r = Ok dr) /\ blocks x (EBin op l r) = false).
      { simpl in H. unfold mk2 in H. destruct op; try discriminate; apply both_ok in H as [? [? [? [? _]]]]; simpl; eauto. }
      destruct K as [K1 [K2 K3]]. inversion Q; subst; auto.
    + simpl in H. apply omap_ok in H as [ds [H _]]. inversion Q as [| | | | |? y ? I R]; subst; auto.
      rewrite Forall_forall in IH. apply (IH y); auto.
      apply (oseq_inv _ _ H). apply in_map. auto.
  - induction e as [c|j|j s|op a IH|lo hi w a _ _ IH|op l r IHl IHr|es IH] using expr_ind'; intros H.
    + simpl; eauto.
    + simpl. destruct x; [destruct (N.eqb id j)|]; eauto.
    + specialize (H _ (re_refl _)). simpl in *. destruct x; [discriminate|]. destruct (N.eqb id j && N.eqb tag s); eauto.
    + destruct IH as [da E]; [intros s S; apply H; constructor; auto|].
      specialize (H _ (re_refl _)). simpl. rewrite E. destruct op; simpl in *; try discriminate; eauto.
      destruct x; [discriminate|]. destruct (deq_const da (c0 n)) as [b ->]. simpl. destruct b; eauto.
    + specialize (H _ (re_refl _)). discriminate.
    + destruct IHl as [dl El]; [intros s S; apply H; apply re_l; auto|].
      destruct IHr as [dr Er]; [intros s S; apply H; apply re_r; auto|].
      specialize (H _ (re_refl _)). simpl. unfold mk2. rewrite El, Er. destruct op; simpl in *; try discriminate; eauto.
    + simpl. destruct (oseq_ok (map (diff n x) es)) as [r ->]; simpl; eauto.
      intros o Ho. apply in_map_iff in Ho as [y [<- Y]]. rewrite Forall_forall in IH. apply IH; auto.
      intros s S. apply H. eapply re_vec; eauto.
Qed.

Lemma oseq_not : forall {A} (P : outcome A -> Prop) (l : list (outcome A)),
  (forall o, In o l -> P o \/ exists x, o = Ok x) -> (forall r, oseq l <> Ok r) ->
  exists o, In o l /\ P o /\ match o with Ok _ => True | Throw x => oseq l = Throw x | UB => oseq l = UB end.
Proof.
  intros A P. induction l as [|o l IH]; intros H N; simpl in *.
  - exfalso. eapply N; eauto.
  - destruct (H o (or_introl eq_refl)) as [Po|[x ->]].
    + destruct o as [a|x|].
      * destruct (oseq l) as [r| |] eqn:E; simpl in *.
        -- exfalso. eapply N; eauto.
        -- exists (Ok a). auto.
        -- exists (Ok a). auto.
      * exists (Throw x). auto.
      * exists UB. auto.
    + simpl in *. destruct IH as [o' [I [P' Q]]].
      * intros o' Ho. apply H. auto.
      * intros r E. eapply N. rewrite E. reflexivity.
      * exists o'. split; auto. split; auto. destruct o'; auto; rewrite Q; auto.
Qed.

Definition good_failure (o : outcome expr) (e : expr) : Prop :=
  match o with
  | Ok _ => True
  | Throw ExpressionNotDifferentiable => True
  | Throw RhsProvidedForUnaryOperation => malformed e
  | _ => False
  end.

Lemma oseq_good : forall (es : list expr) x,
  Forall (fun e => good_failure (diff n x e) e) es ->
  match oseq (map (diff n x) es) with
  | Ok _ => True
  | Throw ExpressionNotDifferentiable => True
  | Throw RhsProvidedForUnaryOperation => exists e, In e es /\ malformed e
  | _ => False
  end.
Proof.
  intros es x H. induction H as [|e es G H IH]; simpl; auto.
  destruct (diff n x e) as [d|[]|]; simpl in *; auto.
  - destruct (oseq (map (diff n x) es)) as [d'|[]|]; simpl in *; auto.
    destruct IH as [e' [I M]]. eauto.
  - eauto.
Qed.

Lemma diff_failure : forall x (e : expr), good_failure (diff n x e) e.
Proof.
  intros x. induction e as [c|j|j s|op a IH|lo hi w a _ _ IH|op l r IHl IHr|es IH] using expr_ind'.
  - exact I.
  - simpl. destruct x; [destruct (N.eqb id j)|]; exact I.
  - simpl. destruct x; [|destruct (N.eqb id j && N.eqb tag s)]; exact I.
  - assert (M : malformed a -> malformed (EUn op a)) by (intros [l [r Q]]; exists l, r; constructor; auto).
    assert (W : good_failure (diff n x a) a -> good_failure (diff n x a) (EUn op a)).
    { destruct (diff n x a) as [|[]|]; simpl; auto. }
    assert (O : forall f, good_failure (omap f (diff n x a)) (EUn op a)).
    { intros f. apply W in IH. destruct (diff n x a) as [|[]|]; simpl in *; auto. }
    destruct op; simpl; try exact I; try (apply O); auto.
    destruct x; [exact I|]. specialize (O (EUn UGrad)). apply W in IH.
    destruct (diff n (DFun id tag) a) as [da| |] eqn:E; simpl in *; auto.
    destruct (deq_const da (c0 n)) as [b ->]. simpl. destruct b; exact I.
  - exact I.
  - assert (Ml : malformed l -> malformed (EBin op l r)) by (intros [l' [r' Q]]; exists l', r'; apply re_l; auto).
    assert (Mr : malformed r -> malformed (EBin op l r)) by (intros [l' [r' Q]]; exists l', r'; apply re_r; auto).
    assert (Mo : forall f, (forall a b, exists d, f a b = Ok d) -> good_failure (both (diff n x l) (diff n x r) f) (EBin op l r)).
    { intros f F. destruct (diff n x l) as [dl|[]|], (diff n x r) as [dr|[]|]; simpl in *; auto;
        destruct (F dl dr) as [d ->]; exact I. }
    simpl. unfold mk2. destruct op; try (apply Mo; eauto).
    simpl. exists l, r. constructor.
  - simpl. pose proof (oseq_good es x IH) as G.
    destruct (oseq (map (diff n x) es)) as [d|[]|]; simpl in *; auto.
    destruct G as [e [I [l [r Q]]]]. exists l, r. eapply re_vec; eauto.
Qed.
End Fail.
