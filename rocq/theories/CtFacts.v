(** Facts about the compile-time simplification. *)
From Coq Require Import ZArith NArith List Bool Lia Reals Lra.
From Verif Require Import Outcome Num RtModel CtModel CtSpec CtGcd.
Import ListNotations.
Local Open Scope Z_scope.

(** ** A run that rejects values which do not fit is also a run with conversion *)

Ltac over_rules :=
  match goal with |- forall x, In x rules -> @?P x => apply (proj1 (Forall_forall P rules)) end;
  unfold rules; repeat (apply Forall_cons || apply Forall_nil).

Lemma impl_bin : forall n op l r, simplify_impl n (CBin op l r) =
  match choose op l r with
  | Chosen x => r_act x n l r
  | Ambiguous => None
  | Generic =>
      cbind (simplify_impl n l) (fun '(vl, l') =>
      cbind (simplify_impl n r) (fun '(vr, r') => Some (vl || vr, CBin op l' r')))
  end.
Proof. reflexivity. Qed.

Section Below.
Context (n m : Z -> option Z) (B : below n m).

Lemma gcd_rec_below : forall f a b g, gcd_rec n f a b = Some g -> gcd_rec m f a b = Some g.
Proof.
  induction f as [|f IH]; simpl; intros a b g H; [ discriminate | ].
  destruct (b =? 0); [ destruct (a =? 0); [ discriminate | apply B, H ] | ].
  apply cbind_some in H as [q [-> H]]. apply cbind_some in H as [h [H1 H2]].
  cbn [cbind]. rewrite (IH _ _ _ H1). apply B, H2.
Qed.

Lemma gcd_below : forall a b g, gcd n a b = Some g -> gcd m a b = Some g.
Proof. intros a b g. apply gcd_rec_below. Qed.

Lemma rational_below : forall u v r, rational n u v = Some r -> rational m u v = Some r.
Proof.
  unfold rational. intros u v r H.
  apply cbind_some in H as [a [-> H]]. apply cbind_some in H as [b [-> H]].
  apply cbind_some in H as [a' [Ha H]]. apply cbind_some in H as [b' [Hb H]].
  apply cbind_some in H as [g [Hg H]]. cbn [cbind].
  rewrite (B _ _ Ha), (B _ _ Hb). cbn [cbind]. rewrite (gcd_below _ _ _ Hg). exact H.
Qed.

Lemma rules_below : forall x, In x rules -> forall l r b,
  r_act x n l r = Some b -> r_act x m l r = Some b.
Proof.
  over_rules;  intros l r b; cbn [r_act];
    try (intros H; exact H); try apply rational_below.
  intros H. apply cbind_some in H as [g [Hg H]]. rewrite (gcd_below _ _ _ Hg). exact H.
Qed.

Lemma choose_in : forall op l r x, choose op l r = Chosen x ->
  In x rules /\ applicable op l r x = true.
Proof.
  unfold choose. intros op l r x H.
  destruct (filter (applicable op l r) rules) as [|y ys] eqn:F; [ discriminate | ].
  destruct (find (fun x => forallb (special x) (y :: ys)) (y :: ys)) as [z|] eqn:E; [|discriminate].
  injection H as <-. apply find_some in E as [E _]. rewrite <- F in E.
  apply filter_In in E. exact E.
Qed.

Lemma impl_below : forall e b, simplify_impl n e = Some b -> simplify_impl m e = Some b.
Proof.
  induction e as [c|i|t|op a IH|op l IHl r IHr]; intros b H;
    [ exact H | exact H | exact H | exact H | ].
  rewrite impl_bin in *. destruct (choose op l r) as [|x|] eqn:C; [| |exact H].
  - apply cbind_some in H as [[vl l'] [Hl H]]. apply cbind_some in H as [[vr r'] [Hr H]].
    rewrite (IHl _ Hl), (IHr _ Hr). exact H.
  - apply (rules_below x (proj1 (choose_in _ _ _ _ C))), H.
Qed.

Lemma loop_below : forall f e r, simplify_loop n f e = Some (Some r) ->
  simplify_loop m f e = Some (Some r).
Proof.
  induction f as [|f IH]; simpl; intros e r H; [ discriminate | ].
  destruct (simplify_impl n e) as [[[] e']|] eqn:E; [| |discriminate];
    rewrite (impl_below _ _ E); [ apply IH, H | exact H ].
Qed.

Lemma simplify_below : forall e r, ct_simplify n e = Some r -> ct_simplify m e = Some r.
Proof.
  unfold ct_simplify. intros e r H.
  destruct (simplify_loop n (S (csize e)) e) as [[r'|]|] eqn:E; try discriminate.
  rewrite (loop_below _ _ _ E). exact H.
Qed.
End Below.

(** ** Inversion of patterns *)

Lemma cop_eqb_eq : forall a b, cop_eqb a b = true -> a = b.
Proof. intros [] []; simpl; congruence. Qed.

Lemma m_num : forall e, matches PNum e = true -> exists c, e = CConst c.
Proof. intros []; simpl; intros H; try discriminate; eauto. Qed.
Lemma m_lit : forall c e, matches (PLit c) e = true -> e = CConst c.
Proof. intros c []; simpl; intros H; try discriminate. apply Z.eqb_eq in H. congruence. Qed.
Lemma m_bin : forall op p q e, matches (PBin op p q) e = true ->
  exists l r, e = CBin op l r /\ matches p l = true /\ matches q r = true.
Proof.
  intros op p q []; simpl; intros H; try discriminate.
  apply andb_prop in H as [H H2]. apply andb_prop in H as [H1 H3].
  apply cop_eqb_eq in H1. subst. eauto.
Qed.

Ltac minv :=
  repeat match goal with
  | H : matches PAny _ = true |- _ => clear H
  | H : matches frac _ = true |- _ => unfold frac in H
  | H : matches neg _ = true |- _ => unfold neg in H
  | H : matches inv _ = true |- _ => unfold inv in H
  | H : matches PNum _ = true |- _ =>
      let c := fresh "c" in apply m_num in H as [c H]; subst
  | H : matches (PLit _) _ = true |- _ => apply m_lit in H; subst
  | H : matches (PBin _ _ _) _ = true |- _ =>
      let a := fresh "a" in let b := fresh "b" in let H1 := fresh "M" in let H2 := fresh "M" in
      apply m_bin in H as [a [b [H [H1 H2]]]]; subst
  end.

Lemma applicable_inv : forall op l r x, applicable op l r x = true ->
  r_op x = op /\ matches (r_l x) l = true /\ matches (r_r x) r = true.
Proof.
  unfold applicable. intros op l r x H. apply andb_prop in H as [H H2].
  apply andb_prop in H as [H H1]. apply cop_eqb_eq in H. auto.
Qed.

Lemma rational_shape : forall n u v b, rational n u v = Some b ->
  exists p q, b = (true, CBin CDiv (CConst p) (CConst q)).
Proof.
  unfold rational. intros n u v b H.
  do 7 (apply cbind_some in H as [? [_ H]]). injection H as <-. eauto.
Qed.

(** ** Termination *)

Lemma csize_pos : forall e, (1 <= csize e)%nat.
Proof. intros []; simpl; try lia. destruct op; lia. Qed.

Lemma rules_size : forall n x, In x rules -> forall l r,
  matches (r_l x) l = true -> matches (r_r x) r = true -> forall v e',
  r_act x n l r = Some (v, e') ->
  if v then (csize e' < csize (CBin (r_op x) l r))%nat
  else (csize e' <= csize (CBin (r_op x) l r))%nat.
Proof.
  intros n. over_rules;  intros l r Ml Mr v e' H; cbn [r_act r_op r_l r_r] in *;
    pose proof (csize_pos l); pose proof (csize_pos r);
    minv; cbn [rhs num den] in H;
    try (apply rational_shape in H as [p [q H]]; injection H as -> ->; simpl; lia);
    try discriminate;
    repeat (apply cbind_some in H as [? [_ H]]);
    injection H as <- <-; cbn [csize] in *; simpl; lia.
Qed.

Lemma impl_size : forall n e v e', simplify_impl n e = Some (v, e') ->
  if v then (csize e' < csize e)%nat else (csize e' <= csize e)%nat.
Proof.
  intros n. induction e as [c|i|t|op a IH|op l IHl r IHr]; intros v e' H;
    [ injection H as <- <-; simpl; lia .. | ].
  rewrite impl_bin in H. destruct (choose op l r) as [|x|] eqn:C; [| |discriminate].
  - apply cbind_some in H as [[vl l'] [Hl H]]. apply cbind_some in H as [[vr r'] [Hr H]].
    injection H as <- <-. apply IHl in Hl. apply IHr in Hr.
    destruct vl, vr; simpl; lia.
  - apply choose_in in C as [C1 C2]. apply applicable_inv in C2 as [<- [Ml Mr]].
    exact (rules_size n x C1 l r Ml Mr v e' H).
Qed.

Lemma loop_total : forall n f e, (csize e < f)%nat -> exists o, simplify_loop n f e = Some o.
Proof.
  intros n. induction f as [|f IH]; simpl; intros e H; [ lia | ].
  destruct (simplify_impl n e) as [[[] e']|] eqn:E; [| eauto | eauto ].
  apply IH. apply impl_size in E. simpl in E. lia.
Qed.

Lemma loop_more : forall n f e o, simplify_loop n f e = Some o ->
  forall g, (f <= g)%nat -> simplify_loop n g e = Some o.
Proof.
  intros n. induction f as [|f IH]; simpl; intros e o H g L; [ discriminate | ].
  destruct g as [|g]; [ lia | ]. simpl.
  destruct (simplify_impl n e) as [[[] e']|]; try exact H. apply IH; [ exact H | lia ].
Qed.

Lemma loop_simplify : forall n f e, (csize e < f)%nat ->
  simplify_loop n f e = Some (ct_simplify n e).
Proof.
  intros n f e H. unfold ct_simplify.
  destruct (loop_total n (S (csize e)) e ltac:(lia)) as [o E]. rewrite E.
  apply (loop_more _ _ _ _ E). lia.
Qed.

(** The equations of the metafunction. *)
Lemma simplify_eq : forall n e, ct_simplify n e =
  match simplify_impl n e with
  | None => None
  | Some (true, e') => ct_simplify n e'
  | Some (false, _) => Some e
  end.
Proof.
  intros n e. unfold ct_simplify at 1. cbn [simplify_loop].
  destruct (simplify_impl n e) as [[[] e']|] eqn:E; try reflexivity.
  apply impl_size in E. simpl in E. rewrite (loop_simplify n (csize e) e' E). reflexivity.
Qed.

Lemma simplify_ind_run : forall n (P : cexpr -> cexpr -> Prop),
  (forall e e', simplify_impl n e = Some (false, e') -> P e e) ->
  (forall e e' r, simplify_impl n e = Some (true, e') -> ct_simplify n e' = Some r -> P e' r ->
     P e r) ->
  forall e r, ct_simplify n e = Some r -> P e r.
Proof.
  intros n P H0 H1 e. remember (csize e) as k eqn:K. revert e K.
  induction k as [k IH] using (well_founded_induction lt_wf). intros e -> r H.
  rewrite simplify_eq in H.
  destruct (simplify_impl n e) as [[[] e']|] eqn:E; [| |discriminate].
  - apply (H1 e e' r E H). apply (IH (csize e')); [|reflexivity|exact H].
    apply impl_size in E. exact E.
  - injection H as <-. apply (H0 _ _ E).
Qed.

Lemma simplify_final : forall n e r, ct_simplify n e = Some r -> ct_simplify n r = Some r.
Proof.
  intros n. apply simplify_ind_run.
  - intros e e' E. rewrite simplify_eq, E. reflexivity.
  - intros e e' r _ _ H. exact H.
Qed.

(** ** Values *)

Section Values.
Context (n : Z -> option Z) (Hn : honest n) (rho phi : N -> R) (un : uop -> R -> option R).
Notation val := (cval rho phi un).
Local Open Scope R_scope.

Lemma val_bin : forall op a b x, val (CBin op a b) = Some x ->
  exists y z, val a = Some y /\ val b = Some z /\ op_val op y z = Some x.
Proof.
  simpl. intros op a b x. destruct (val a) as [y|]; [|discriminate].
  destruct (val b) as [z|]; [|discriminate]. eauto.
Qed.

Lemma op_div : forall y z x, op_val CDiv y z = Some x -> z <> 0 /\ x = y / z.
Proof. simpl. intros y z x. destruct (Req_EM_T z 0); [ discriminate | ]. intros [= <-]. auto. Qed.
Lemma op_div' : forall y z, z <> 0 -> op_val CDiv y z = Some (y / z).
Proof. simpl. intros y z H. destruct (Req_EM_T z 0); [ contradiction | reflexivity ]. Qed.

Lemma IZR_neq : forall z : Z, IZR z <> 0 -> z <> 0%Z.
Proof. intros z H E. subst. apply H. reflexivity. Qed.

Lemma div_neq : forall x y : R, x / y <> 0 -> x <> 0.
Proof. intros x y H E. apply H. subst. unfold Rdiv. ring. Qed.

Lemma quot_value : forall a b g : Z, Z.abs g = Z.gcd a b -> g <> 0%Z -> IZR b <> 0 ->
  val (CBin CDiv (CConst (Z.quot a g)) (CConst (Z.quot b g))) = Some (IZR a / IZR b).
Proof.
  intros a b g G1 G2 Nb.
  assert (Da : (g | a)%Z).
  { apply Z.divide_abs_l. rewrite G1. apply Z.gcd_divide_l. }
  assert (Db : (g | b)%Z).
  { apply Z.divide_abs_l. rewrite G1. apply Z.gcd_divide_r. }
  destruct Da as [k ->]. destruct Db as [j ->].
  rewrite !Z.quot_mul by exact G2. cbn [cval].
  rewrite !mult_IZR in *.
  assert (IZR g <> 0) by (apply not_0_IZR, G2).
  assert (IZR j <> 0) by (intros E; apply Nb; rewrite E; ring).
  rewrite op_div' by assumption. f_equal. field. auto.
Qed.

Lemma rational_value : forall u v w t, rational n u v = Some (w, t) ->
  exists a b, u = Some a /\ v = Some b /\
    (IZR b <> 0 -> val t = Some (IZR a / IZR b)).
Proof.
  unfold rational. intros u v w t H.
  apply cbind_some in H as [a [-> H]]. apply cbind_some in H as [b [-> H]].
  apply cbind_some in H as [a' [Ha H]]. apply cbind_some in H as [b' [Hb H]].
  apply Hn in Ha. apply Hn in Hb. subst a' b'.
  apply cbind_some in H as [g [Hg H]]. apply (gcd_rec_divides n Hn) in Hg as [G1 G2].
  apply cbind_some in H as [p [Hp H]]. apply cbind_some in H as [q [Hq H]].
  injection H as <- <-. exists a, b. repeat split. intros Nb.
  unfold int_div in Hp, Hq. destruct (Z.eqb_spec g 0) as [|_]; [ contradiction | ].
  apply int_some in Hp. apply int_some in Hq. subst p q.
  apply quot_value; assumption.
Qed.

Ltac vinv :=
  repeat match goal with
  | H : val (CConst _) = Some _ |- _ => cbn [cval] in H; injection H as H
  | H : val (CBin _ _ _) = Some _ |- _ =>
      let y := fresh "y" in let z := fresh "z" in
      let H1 := fresh "V" in let H2 := fresh "V" in
      apply val_bin in H as [y [z [H1 [H2 H]]]]
  | H : op_val CDiv _ _ = Some _ |- _ =>
      let N := fresh "N" in apply op_div in H as [N H]
  | H : op_val CPlus _ _ = Some _ |- _ => cbn [op_val] in H; injection H as H
  | H : op_val CMinus _ _ = Some _ |- _ => cbn [op_val] in H; injection H as H
  | H : op_val CMult _ _ = Some _ |- _ => cbn [op_val] in H; injection H as H
  end; subst.

Ltac oinv' :=
  repeat match goal with
  | H : cbind _ _ = Some _ |- _ =>
      let x := fresh "x" in let E := fresh "E" in apply cbind_some in H as [x [E H]]
  | H : add _ _ = Some _ |- _ => unfold add in H; apply long_some in H
  | H : sub _ _ = Some _ |- _ => unfold sub in H; apply long_some in H
  | H : mul _ _ = Some _ |- _ => unfold mul in H; apply long_some in H
  | H : Some _ = Some _ |- _ => injection H as H
  end; subst.

Ltac vgo :=
  cbn [cval];
  repeat match goal with H : val ?e = Some _ |- context [val ?e] => rewrite H end;
  repeat (rewrite op_div' by (first [ assumption
                                    | apply Rmult_integral_contrapositive_currified; assumption
                                    | lra ]));
  cbn [op_val]; try reflexivity;
  rewrite ?plus_IZR, ?minus_IZR, ?mult_IZR;
  try (f_equal; (field || lra || ring); repeat split; assumption).

Lemma rules_value : forall x, In x rules -> forall l r,
  matches (r_l x) l = true -> matches (r_r x) r = true -> forall v e' w,
  r_act x n l r = Some (v, e') ->
  val (CBin (r_op x) l r) = Some w -> val e' = Some w.
Proof.
  over_rules;  intros l r Ml Mr v e' w H V; cbn [r_act r_op r_l r_r] in *;
    minv; cbn [rhs num den] in H; vinv; try discriminate.
  all: try (apply rational_value in H as [a0 [b0 [E1 [E2 H]]]]; oinv').
  all: try match goal with H : _ -> val ?e = Some _ |- val ?e = _ => rewrite H end.
  all: try (oinv'; vgo; fail).
  all: repeat match goal with
       | N : (_ / _ <> 0)%R |- _ => apply div_neq in N
       end.
  - oinv'. cbn [cval]. rewrite V3, V5. cbn [op_val].
    destruct (Req_EM_T (z1 * z0) 0) as [E|_].
    { exfalso. revert E. apply Rmult_integral_contrapositive_currified; assumption. }
    f_equal. field. auto.
  - rewrite mult_IZR. apply Rmult_integral_contrapositive_currified; assumption.
  - rewrite mult_IZR. apply Rmult_integral_contrapositive_currified; assumption.
  - rewrite mult_IZR. apply Rmult_integral_contrapositive_currified; assumption.
  - rewrite !mult_IZR. f_equal. field. auto.
  - rewrite mult_IZR. apply Rmult_integral_contrapositive_currified; assumption.
  - rewrite !mult_IZR. f_equal. field. auto.
  - assumption.
  - rewrite mult_IZR. apply Rmult_integral_contrapositive_currified; assumption.
  - apply cbind_some in H as [g [Hg H]]. apply (gcd_rec_divides n Hn) in Hg as [G1 G2].
    apply cbind_some in H as [p [Hp H]]. apply cbind_some in H as [q [Hq H]].
    injection H as <- <-.
    unfold long_div in Hp, Hq. destruct (Z.eqb_spec g 0) as [|_]; [ contradiction | ].
    apply long_some in Hp. apply long_some in Hq. subst p q.
    apply quot_value; [ exact G1 | exact G2 | assumption ].
Qed.

Lemma impl_value : forall e v e' w, simplify_impl n e = Some (v, e') -> val e = Some w ->
  val e' = Some w.
Proof.
  induction e as [c|i|t|op a IH|op l IHl r IHr]; intros v e' w H V;
    [ injection H as <- <-; exact V .. | ].
  rewrite impl_bin in H. destruct (choose op l r) as [|x|] eqn:C; [| |discriminate].
  - apply cbind_some in H as [[vl l'] [Hl H]]. apply cbind_some in H as [[vr r'] [Hr H]].
    injection H as <- <-. apply val_bin in V as [y [z [Vl [Vr V]]]].
    cbn [cval]. rewrite (IHl _ _ _ Hl Vl), (IHr _ _ _ Hr Vr). exact V.
  - apply choose_in in C as [C1 C2]. apply applicable_inv in C2 as [<- [Ml Mr]].
    exact (rules_value x C1 l r Ml Mr v e' w H V).
Qed.

Lemma simplify_value : forall e r, ct_simplify n e = Some r ->
  forall w, val e = Some w -> val r = Some w.
Proof.
  apply (simplify_ind_run n (fun e r => forall w, val e = Some w -> val r = Some w)).
  - auto.
  - intros e e' r E _ IH w V. apply IH. exact (impl_value _ _ _ _ E V).
Qed.
End Values.
