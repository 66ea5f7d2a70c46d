(** Facts about written vector arithmetic. *)
From Coq Require Import ZArith NArith Reals List Bool Lia Lra.
From Verif Require Import CtGcd Outcome Num RtModel NumR CtModel CtSpec CtOpsModel CtOpsFacts CtManipSpec QuadModel QuadSpec QuadFacts
  ApiModel ApiSpec ApiFacts VecModel VecSpec.
Import ListNotations.

(** The object has the value. *)
Definition vhas_value (rho : N -> R) (v : list (option R)) (o : obj numR) (x : value) : Prop :=
  match x with
  | Number z => has_value rho v o z
  | Vector xs => exists es, o = ORt (EVec es) /\ Forall2 (fun e x => eval numR e v = Ok (Some x)) es xs
  end.

Definition vcontains_written {n : Num.num} (o : obj n) (s : vsrc n) : Prop :=
  match o with
  | OCt m => (forall i, m_occurs i m -> vsrc_occurs i s) /\ (contains_rt m -> vsrc_rt s) /\ m_plain m
  | _ => True
  end.

Lemma voperator_cases : forall n op a b r, voperator n op a b = Some r ->
  (exists o, operator n op a b = Some o /\ r = Ok o /\ (forall x, a <> ORt (EVec x)) /\ (forall y, b <> ORt (EVec y))) \/
  (exists x, a = ORt (EVec x)) \/ (exists y, b = ORt (EVec y)).
Proof.
  intros n op a b r H.
  assert (A : (exists x, a = ORt (EVec x)) \/ forall x, a <> ORt (EVec x)).
  { destruct a as [| | |[]|]; try (right; discriminate). left; eauto. }
  assert (B : (exists x, b = ORt (EVec x)) \/ forall x, b <> ORt (EVec x)).
  { destruct b as [| | |[]|]; try (right; discriminate). left; eauto. }
  destruct A as [A|A]; [auto|]. destruct B as [B|B]; [auto|]. left.
  assert (E : voperator n op a b = match operator n op a b with Some o => Some (Ok o) | None => None end).
  { destruct a as [| | |[]|]; try reflexivity; try (now elim (A es)); destruct b as [| | |[]|]; try reflexivity; now elim (B es). }
  rewrite E in H. destruct (operator n op a b) as [o|]; [|discriminate]. injection H as <-. eauto.
Qed.

Lemma voperator_ct : forall n op a b m, voperator n op a b = Some (Ok (OCt m)) ->
  exists x y, a = OCt x /\ b = OCt y /\ combine n op x y = Some (Ct m).
Proof.
  intros n op a b m H. destruct (voperator_cases _ _ _ _ _ H) as [[o [E [F _]]]|[[x ->]|[y ->]]].
  - injection F as <-. now apply operator_ct.
  - exfalso. destruct b as [| | |[]|]; destruct op; cbn in H; unfold generic in H; cbn in H;
      repeat match type of H with context [match ?t with _ => _ end] => destruct t; cbn in H end; try discriminate;
      injection H as H; unfold omap in H; match type of H with bind ?o _ = _ => destruct o; discriminate end.
  - exfalso. destruct a as [| | |[]|]; destruct op; cbn in H; unfold generic in H; cbn in H;
      repeat match type of H with context [match ?t with _ => _ end] => destruct t; cbn in H end; try discriminate;
      injection H as H; unfold omap in H; match type of H with bind ?o _ = _ => destruct o; discriminate end.
Qed.

Lemma vbuild_written : forall n s o, vbuild n s = Some (Ok o) -> vcontains_written o s.
Proof.
  intros n. induction s as [s|k|v IHv i s IHs|v IHv i|op a IHa b IHb]; intros o H; cbn [vbuild] in H.
  - destruct (build n s) as [x|] eqn:B; [|discriminate]. injection H as <-. exact (build_written _ _ _ B).
  - injection H as <-. exact I.
  - destruct (vbuild n v) as [[[| | |[]|]| |]|]; destruct (vbuild n s) as [[ob|eb|]|]; try discriminate.
    destruct (assign_expr n ob) as [[]|]; try discriminate.
    destruct (set_entry n es i e); inversion H; exact I.
  - destruct (vbuild n v) as [[[| | |[]|]| |]|]; try discriminate.
    destruct (nth_error es i); inversion H; exact I.
  - destruct (vbuild n a) as [[x| |]|] eqn:A; destruct (vbuild n b) as [[y| |]|] eqn:B; try discriminate.
    destruct o as [| |m| |]; try exact I.
    apply voperator_ct in H as [p [q [-> [-> C]]]]. apply combine_ct in C as [C1 [C2 C3]].
    destruct (IHa _ eq_refl) as [A1 [A2 A3]]. destruct (IHb _ eq_refl) as [B1 [B2 B3]].
    split; [|split; auto].
    + intros i I. destruct (C1 i I); cbn; auto.
    + intros I. destruct (C2 I); cbn; auto.
Qed.

Lemma not_vector : forall rho v es z, ~ has_value rho v (ORt (EVec es)) z.
Proof. intros rho v es z H. discriminate H. Qed.

(** The tree of an object with a value. *)
Lemma vtree_value : forall rho v s o z t,
  (forall i, vsrc_occurs i s -> nth_error v (N.to_nat i) = Some (Some (rho i))) ->
  vbuild numR s = Some (Ok o) -> has_value rho v o z -> to_tree numR o = Some t -> eval numR t v = Ok (Some z).
Proof.
  intros rho v s o z t V B H T. apply (to_tree_value rho v o z t); auto.
  pose proof (vbuild_written _ _ _ B) as W. destruct o; auto. destruct W as [W _]. auto.
Qed.

Lemma bin_value : forall op a b v x y z, eval numR a v = Ok (Some x) -> eval numR b v = Ok (Some y) ->
  op_val op x y = Some z -> eval numR (EBin (rt_op op) a b) v = Ok (Some z).
Proof.
  intros op a b v x y z A B Z. cbn [eval]. rewrite A, B. unfold both. cbn [bind]. rewrite op_apply, Z. reflexivity.
Qed.

Lemma zip_value : forall op f v, (forall x y, op_val op x y = Some (f x y)) ->
  forall a xs, Forall2 (fun e x => eval numR e v = Ok (Some x)) a xs ->
  forall b ys, Forall2 (fun e x => eval numR e v = Ok (Some x)) b ys -> length a = length b ->
  Forall2 (fun e x => eval numR e v = Ok (Some x)) (zip_bin numR (rt_op op) a b) (map (fun p => f (fst p) (snd p)) (List.combine xs ys)).
Proof.
  intros op f v F a xs A. induction A as [|e x a xs E A IH]; intros b ys B L; destruct B as [|e' y b ys E' B]; try discriminate L; cbn.
  - constructor.
  - constructor; [|apply IH; [exact B|now injection L]]. exact (bin_value op e e' v x y _ E E' (F x y)).
Qed.

Lemma scale_value : forall (g : expr numR -> expr numR) (h : R -> option R) v,
  (forall e x z, eval numR e v = Ok (Some x) -> h x = Some z -> eval numR (g e) v = Ok (Some z)) ->
  forall es xs, Forall2 (fun e x => eval numR e v = Ok (Some x)) es xs ->
  forall zs, all_some (map h xs) = Some zs -> Forall2 (fun e x => eval numR e v = Ok (Some x)) (map g es) zs.
Proof.
  intros g h v G es xs F. induction F as [|e x es xs E F IH]; intros zs A; cbn in A.
  - injection A as <-. constructor.
  - destruct (h x) as [z|] eqn:Hx; [|discriminate]. destruct (all_some (map h xs)) as [r|]; [|discriminate].
    injection A as <-. cbn. constructor; [eapply G; eassumption|now apply IH].
Qed.

Lemma set_value : forall v e y, eval numR e v = Ok (Some y) ->
  forall es xs, Forall2 (fun e x => eval numR e v = Ok (Some x)) es xs ->
  forall i zs, replaced xs i y = Some zs ->
  exists es', set_entry numR es i e = Ok es' /\ Forall2 (fun e x => eval numR e v = Ok (Some x)) es' zs.
Proof.
  intros v e y E es xs F. induction F as [|e' x es xs E' F IH]; intros i zs H; [destruct i; discriminate|].
  destruct i as [|i]; cbn in H |- *.
  - injection H as <-. eexists. split; [reflexivity|]. now constructor.
  - destruct (replaced xs i y) as [r|] eqn:Q; [|discriminate]. injection H as <-.
    destruct (IH i r Q) as [es' [S F']]. rewrite S. cbn. eexists. split; [reflexivity|]. now constructor.
Qed.

Lemma nth_value : forall v (es : list (expr numR)) xs, Forall2 (fun e x => eval numR e v = Ok (Some x)) es xs ->
  forall i x, nth_error xs i = Some x -> exists e, nth_error es i = Some e /\ eval numR e v = Ok (Some x).
Proof.
  intros v es xs F. induction F as [|e x es xs E F IH]; intros [|i] y H; try discriminate.
  - injection H as <-. exists e. auto.
  - now apply IH.
Qed.

Lemma Forall2_length_eq : forall A B (P : A -> B -> Prop) l m, Forall2 P l m -> length l = length m.
Proof. intros A B P l m F. induction F; cbn; congruence. Qed.

Lemma vbuild_value : forall rho v s r x,
  (forall i, vsrc_occurs i s -> nth_error v (N.to_nat i) = Some (Some (rho i))) ->
  plain s -> vbuild numR s = Some r -> vsrc_val rho s = Some x -> exists o, r = Ok o /\ vhas_value rho v o x.
Proof.
  intros rho v. induction s as [s|k|w IHw i s IHs|w IHw i|op a IHa b IHb]; intros r x V P B X;
    pose proof B as B0; cbn [vbuild] in B; cbn [vsrc_val] in X; cbn [plain] in P.
  - destruct (build numR s) as [o|] eqn:E; [|discriminate]. injection B as <-.
    destruct (src_val rho s) as [z|] eqn:Z; [|discriminate]. injection X as <-.
    exists o. split; [reflexivity|]. exact (build_value rho v s o z V P E Z).
  - injection B as <-. injection X as <-. eexists. split; [reflexivity|]. eexists. split; [reflexivity|].
    unfold vec_new. clear. induction k; constructor; [reflexivity|assumption].
  - destruct P as [Pw [Ps NV]]. cbn [vsrc_occurs] in V.
    destruct (vsrc_val rho w) as [[|xs]|] eqn:Xw; try discriminate.
    destruct (vsrc_val rho s) as [[y|]|] eqn:Xs; try discriminate.
    destruct (replaced xs i y) as [zs|] eqn:RP; [|discriminate]. injection X as <-.
    destruct (vbuild numR w) as [rw|] eqn:Bw; [|discriminate].
    destruct (IHw rw _ ltac:(intros; apply V; auto) Pw eq_refl eq_refl) as [ow [-> [es [-> F]]]].
    destruct (vbuild numR s) as [rs|] eqn:Bs; [|discriminate].
    destruct (IHs rs _ ltac:(intros; apply V; auto) Ps eq_refl eq_refl) as [o [-> H]].
    cbn [vhas_value] in H.
    assert (AS : assign_expr numR o = to_expr numR o).
    { destruct o as [| |[]| |]; try reflexivity. now elim (NV id). }
    rewrite AS in B. unfold to_expr in B. destruct (to_tree numR o) as [t|] eqn:T; [|discriminate].
    assert (ET : eval numR t v = Ok (Some y)) by (apply (vtree_value rho v s o y t); auto).
    destruct (set_value v t y ET es xs F i zs RP) as [es' [S F']]. rewrite S in B. cbn in B. injection B as <-.
    eexists. split; [reflexivity|]. exists es'. auto.
  - cbn [vsrc_occurs] in V.
    destruct (vsrc_val rho w) as [[|xs]|] eqn:Xw; try discriminate.
    destruct (nth_error xs i) as [y|] eqn:NT; [|discriminate]. injection X as <-.
    destruct (vbuild numR w) as [rw|] eqn:Bw; [|discriminate].
    destruct (IHw rw _ V P eq_refl eq_refl) as [ow [-> [es [-> F]]]].
    destruct (nth_value v es xs F i y NT) as [e [N E]]. rewrite N in B. injection B as <-.
    eexists. split; [reflexivity|]. exact E.
  - destruct P as [Pa [Pb D]]. cbn [vsrc_occurs] in V.
    destruct (vsrc_val rho a) as [xa|] eqn:Xa; [|discriminate]. destruct (vsrc_val rho b) as [xb|] eqn:Xb; [|discriminate].
    destruct (vbuild numR a) as [ra|] eqn:Ba; [|discriminate].
    destruct (IHa ra _ ltac:(intros; apply V; auto) Pa eq_refl eq_refl) as [oa [-> Ha]].
    destruct (vbuild numR b) as [rb|] eqn:Bb; [|destruct oa; discriminate].
    destruct (IHb rb _ ltac:(intros; apply V; auto) Pb eq_refl eq_refl) as [ob [-> Hb]].
    assert (TA : forall z t, xa = Number z -> to_tree numR oa = Some t -> eval numR t v = Ok (Some z)).
    { intros z t -> T. apply (vtree_value rho v a oa z t); auto. }
    assert (TB : forall z t, xb = Number z -> to_tree numR ob = Some t -> eval numR t v = Ok (Some z)).
    { intros z t -> T. apply (vtree_value rho v b ob z t); auto. }
    destruct xa as [x1|xs], xb as [x2|ys]; cbn [vhas_value value_op] in *.
    + (* numbers *)
      destruct (op_val op x1 x2) as [z|] eqn:Z; [|discriminate]. injection X as <-.
      destruct (voperator_cases _ _ _ _ _ B) as [[o [E [-> _]]]|[[w ->]|[w ->]]];
        [|now elim (not_vector _ _ _ _ Ha)|now elim (not_vector _ _ _ _ Hb)].
      exists o. split; [reflexivity|].
      pose proof (vbuild_written _ _ _ Ba) as WA. pose proof (vbuild_written _ _ _ Bb) as WB.
      destruct (operator_rt _ _ _ _ _ E) as [[m1 [m2 [-> ->]]]|[t1 [t2 [T1 [T2 ->]]]]].
      * cbn [operator] in E. destruct WA as [A1 [A2 A3]], WB as [B1 [B2 B3]].
        destruct (combine numR op m1 m2) as [q|] eqn:C; [|discriminate].
        assert (R : result_is rho (fun _ => 0%R) (fun _ _ => None) v q z).
        { apply (combine_value2 rho _ _ op m1 m2 q v z C).
          - intros E' c1 c2. exact (D E' (A2 c1) (B2 c2)).
          - intros i [I|I]; apply V; auto.
          - apply mval_bin. exists x1, x2. auto. }
        destruct q; injection E as <-; exact R.
      * cbn. apply (bin_value op t1 t2 v x1 x2 z); auto.
    + (* number, vector *)
      destruct Hb as [es [-> F]].
      assert (NA : forall w, oa <> ORt (EVec w)) by (intros w ->; now elim (not_vector _ _ _ _ Ha)).
      assert (E : voperator numR op oa (ORt (EVec es)) = match op with
        | CMult => match to_tree numR oa with Some s => Some (Ok (ORt (EVec (scalar_mul_vec numR s es)))) | None => None end
        | CDiv => match to_tree numR oa with Some s => Some (Ok (ORt (EVec (scalar_div_vec numR s es)))) | None => None end
        | _ => generic numR op oa (ORt (EVec es)) end).
      { destruct oa as [| | |[]|]; try reflexivity. now elim (NA es0). }
      rewrite E in B.
      destruct op; try discriminate; destruct (to_tree numR oa) as [t|]; try discriminate; injection B as <-;
        match type of X with match ?q with _ => _ end = _ => destruct q as [zs|] eqn:AL; [|discriminate] end; injection X as <-;
        (eexists; split; [reflexivity|]; eexists; split; [reflexivity|]); eapply scale_value; try eassumption;
        intros e x z Ee Hz; [apply (bin_value CMult t e v x1 x z)|apply (bin_value CDiv t e v x1 x z)]; auto.
    + (* vector, number *)
      destruct Ha as [es [-> F]].
      assert (NB : forall w, ob <> ORt (EVec w)) by (intros w ->; now elim (not_vector _ _ _ _ Hb)).
      assert (E : voperator numR op (ORt (EVec es)) ob = match op with
        | CMult => match to_tree numR ob with Some s => Some (Ok (ORt (EVec (vec_mul_scalar numR es s)))) | None => None end
        | CDiv => match to_tree numR ob with Some s => Some (Ok (ORt (EVec (vec_div_scalar numR es s)))) | None => None end
        | _ => generic numR op (ORt (EVec es)) ob end).
      { destruct ob as [| | |[]|]; try reflexivity. now elim (NB es0). }
      rewrite E in B.
      destruct op; try discriminate; destruct (to_tree numR ob) as [t|]; try discriminate; injection B as <-;
        match type of X with match ?q with _ => _ end = _ => destruct q as [zs|] eqn:AL; [|discriminate] end; injection X as <-;
        (eexists; split; [reflexivity|]; eexists; split; [reflexivity|]);
        [eapply (scale_value _ (fun x => op_val CMult x x2))|eapply (scale_value _ (fun x => op_val CDiv x x2))]; try eassumption;
        intros e x z Ee Hz; [apply (bin_value CMult e t v x x2 z)|apply (bin_value CDiv e t v x x2 z)]; auto.
    + (* vectors *)
      destruct Ha as [es [-> F]], Hb as [fs [-> G]]. cbn [voperator] in B.
      pose proof (Forall2_length_eq _ _ _ _ _ F) as LF. pose proof (Forall2_length_eq _ _ _ _ _ G) as LG.
      destruct (Nat.eqb (length xs) (length ys)) eqn:L; [|discriminate]. apply Nat.eqb_eq in L.
      assert (L' : length es = length fs) by congruence.
      destruct op; try discriminate.
      * injection X as <-. unfold vec_add in B. rewrite L', Nat.eqb_refl in B. cbn in B. injection B as <-.
        eexists. split; [reflexivity|]. eexists. split; [reflexivity|].
        now apply (zip_value CPlus Rplus v (fun _ _ => eq_refl)).
      * injection X as <-. unfold vec_sub in B. rewrite L', Nat.eqb_refl in B. cbn in B. injection B as <-.
        eexists. split; [reflexivity|]. eexists. split; [reflexivity|].
        now apply (zip_value CMinus Rminus v (fun _ _ => eq_refl)).
      * destruct xs as [|x1 xs]; [discriminate|]. injection X as <-.
        destruct (dot_value es fs v (x1 :: xs) ys F G L') as [e [E1 E2]]; [now inversion F|].
        rewrite E1 in B. cbn in B. injection B as <-. eexists. split; [reflexivity|]. exact E2.
Qed.

Lemma vcall_value : forall rho v s m z,
  (forall i, vsrc_occurs i s -> nth_error v (N.to_nat i) = Some (Some (rho i))) ->
  vbuild numR s = Some (Ok (OCt m)) -> has_value rho v (OCt m) z -> call numR m v = Some (Ok (Some z)).
Proof.
  intros rho v s m z V B H. destruct (vbuild_written _ _ _ B) as [W [_ P]].
  apply (call_value rho (fun _ => 0%R) (fun _ _ => None) v m z P); auto.
Qed.

Lemma dot_acc_order : forall (n : Num.num) v (a b : list (expr n)) xs ys,
  Forall2 (fun e x => eval n e v = Ok x) a xs -> Forall2 (fun e x => eval n e v = Ok x) b ys -> length a = length b ->
  forall acc z, eval n acc v = Ok z ->
  exists e, dot_acc n acc a b = Ok e /\
    eval n e v = Ok (fold_left (fun s p => n_add n s (n_mul n (fst p) (snd p))) (List.combine xs ys) z).
Proof.
  intros n v a b xs ys F. revert b ys. induction F as [|e x a xs E F IH]; intros b ys G L acc z A;
    destruct G as [|e' y b ys E' G]; try discriminate L; cbn [dot_acc List.combine fold_left].
  - exists acc. auto.
  - apply IH; [exact G|now injection L|]. unfold mk_bin. cbn [eval]. rewrite A, E, E'. reflexivity.
Qed.

Lemma voperator_none_l : forall n op x o, (forall y, o <> ORt (EVec y)) -> voperator n op (ORt (EVec x)) o = match op with
  | CMult => match to_tree n o with Some s => Some (Ok (ORt (EVec (vec_mul_scalar n x s)))) | None => None end
  | CDiv => match to_tree n o with Some s => Some (Ok (ORt (EVec (vec_div_scalar n x s)))) | None => None end
  | _ => generic n op (ORt (EVec x)) o end.
Proof. intros n op x o N. destruct o as [| | |[]|]; try reflexivity. now elim (N es). Qed.

Lemma voperator_none_r : forall n op x o, (forall y, o <> ORt (EVec y)) -> voperator n op o (ORt (EVec x)) = match op with
  | CMult => match to_tree n o with Some s => Some (Ok (ORt (EVec (scalar_mul_vec n s x)))) | None => None end
  | CDiv => match to_tree n o with Some s => Some (Ok (ORt (EVec (scalar_div_vec n s x)))) | None => None end
  | _ => generic n op o (ORt (EVec x)) end.
Proof. intros n op x o N. destruct o as [| | |[]|]; try reflexivity. now elim (N es). Qed.

Lemma viennamath_scalar : forall n (o : obj n), (forall y, o <> ORt (EVec y)) ->
  (is_viennamath n o = true <-> (forall c, o <> ONum c) /\ (forall z, o <> OInt z)).
Proof.
  intros n o N. destruct o as [c|z|m|e|e]; cbn; split; intros H; try discriminate; try (split; discriminate); try reflexivity.
  - destruct H as [H _]. now elim (H c).
  - destruct H as [_ H]. now elim (H z).
  - destruct e; try reflexivity. now elim (N es).
Qed.

Lemma dot_acc_ok : forall (n : Num.num) (a b : list (expr n)) acc, length a = length b -> exists e, dot_acc n acc a b = Ok e.
Proof.
  intros n. induction a as [|e a IH]; intros [|f b] acc L; try discriminate L; cbn [dot_acc]; [eauto|].
  apply IH. now injection L.
Qed.

Lemma asserted : forall (n : Num.num) op a b, voperator n op a b = Some UB ->
  exists x y, a = ORt (EVec x) /\ b = ORt (EVec y) /\ op <> CDiv /\ (length x <> length y \/ op = CMult /\ x = []).
Proof.
  intros n op a b H.
  assert (NL : forall x o, (forall y, o <> ORt (EVec y)) -> voperator n op (ORt (EVec x)) o <> Some UB).
  { intros x o N E. rewrite (voperator_none_l n op x o N) in E. unfold generic in E. cbn [to_tree] in E.
    destruct op, (to_tree n o), (is_viennamath n (ORt (EVec x)) || is_viennamath n o); discriminate. }
  assert (NR : forall x o, (forall y, o <> ORt (EVec y)) -> voperator n op o (ORt (EVec x)) <> Some UB).
  { intros x o N E. rewrite (voperator_none_r n op x o N) in E. unfold generic in E. cbn [to_tree] in E.
    destruct op, (to_tree n o), (is_viennamath n o || is_viennamath n (ORt (EVec x))); discriminate. }
  assert (D : forall o : obj n, (exists y, o = ORt (EVec y)) \/ (forall y, o <> ORt (EVec y))).
  { intros o. destruct o as [| | |[]|]; try (right; discriminate). left; eauto. }
  destruct (voperator_cases _ _ _ _ _ H) as [[o [_ [E _]]]|[[x ->]|[y ->]]]; [discriminate| |].
  - destruct (D b) as [[y ->]|N]; [|now elim (NL x b N)]. exists x, y. do 2 (split; [reflexivity|]).
    split; [intros ->; discriminate|]. destruct (Nat.eq_dec (length x) (length y)) as [L|L]; [right|now left].
    cbn [voperator] in H. unfold vec_add, vec_sub, dot in H. rewrite L, Nat.eqb_refl in H.
    destruct op; try discriminate. split; [reflexivity|]. destruct x as [|e x]; [reflexivity|]. destruct y as [|f y]; [discriminate|].
    destruct (dot_acc_ok n x y (mk_bin n BMult e f)) as [t T]; [now injection L|]. rewrite T in H. discriminate.
  - destruct (D a) as [[x ->]|N]; [|now elim (NR y a N)]. exists x, y. do 2 (split; [reflexivity|]).
    split; [intros ->; discriminate|]. destruct (Nat.eq_dec (length x) (length y)) as [L|L]; [right|now left].
    cbn [voperator] in H. unfold vec_add, vec_sub, dot in H. rewrite L, Nat.eqb_refl in H.
    destruct op; try discriminate. split; [reflexivity|]. destruct x as [|e x]; [reflexivity|]. destruct y as [|f y]; [discriminate|].
    destruct (dot_acc_ok n x y (mk_bin n BMult e f)) as [t T]; [now injection L|]. rewrite T in H. discriminate.
Qed.

Lemma asserts : forall (n : Num.num) op x y, op <> CDiv -> length x <> length y \/ op = CMult /\ x = [] ->
  voperator n op (ORt (EVec x)) (ORt (EVec y)) = Some UB.
Proof.
  intros n op x y D H. cbn [voperator]. unfold vec_add, vec_sub, dot. destruct H as [H|[-> ->]].
  - apply Nat.eqb_neq in H. rewrite H. destruct op; try reflexivity. now elim D.
  - destruct y; reflexivity.
Qed.

(** What an object is, by size. *)
Definition sized {n : Num.num} (r : outcome (obj n)) (z : option (option nat)) : Prop :=
  match z with
  | None => r = UB
  | Some (Some k) => exists es, r = Ok (ORt (EVec es)) /\ length es = k
  | Some None => exists o, r = Ok o /\ forall es, o <> ORt (EVec es)
  end.

Lemma set_entry_size : forall (n : Num.num) (es : list (expr n)) i e,
  if Nat.ltb i (length es) then exists es', set_entry n es i e = Ok es' /\ length es' = length es
  else set_entry n es i e = UB.
Proof.
  intros n. induction es as [|x es IH]; intros [|i] e; cbn [set_entry length]; try reflexivity.
  - cbn. eexists. split; reflexivity.
  - specialize (IH i e). change (Nat.ltb (S i) (S (length es))) with (Nat.ltb i (length es)).
    destruct (Nat.ltb i (length es)).
    + destruct IH as [es' [-> L]]. eexists. split; [reflexivity|]. cbn. congruence.
    + now rewrite IH.
Qed.

Lemma zip_size : forall (n : Num.num) op (a b : list (expr n)), length a = length b -> length (zip_bin n op a b) = length a.
Proof.
  intros n op. induction a as [|x a IH]; intros [|y b] L; try discriminate L; [reflexivity|].
  cbn [zip_bin length]. f_equal. apply IH. now injection L.
Qed.

Lemma generic_size : forall (n : Num.num) op a b r, generic n op a b = Some r -> sized r (Some None).
Proof.
  intros n op a b r H. unfold generic in H.
  destruct (is_viennamath n a || is_viennamath n b), (to_tree n a), (to_tree n b); try discriminate.
  injection H as <-. eexists. split; [reflexivity|]. discriminate.
Qed.

Lemma combine_not_vec : forall (n : Num.num) op a b e, combine n op a b = Some (Rt e) -> forall es, e <> EVec es.
Proof.
  intros n op a b e H.
  assert (G : CtOpsModel.generic n op a b = Some (Rt e) -> forall es, e <> EVec es).
  { intros G es ->. unfold CtOpsModel.generic in G.
    destruct a, b; try discriminate G;
      try (apply cbind_some in G as [? [_ G]]; apply cbind_some in G as [? [_ G]]; discriminate G);
      match type of G with (if ?c then _ else _) = _ => destruct c end; discriminate. }
  destruct op; cbn [combine] in H; unfold plus, minus, times, over in H;
  destruct a as [c|s|i|t|o a|o l1 r1], b as [d|s'|j|t'|o' b|o' l2 r2]; try (exact (G H));
  repeat match type of H with
  | (if ?c then _ else _) = _ => destruct c
  | (match ?x with CPlus => _ | _ => _ end) = _ => destruct x; try (exact (G H))
  | (match ?x with MConst _ => _ | _ => _ end) = _ => destruct x; try (exact (G H))
  | cbind _ _ = _ => let E := fresh in apply cbind_some in H as [? [E H]]
  end; try (exact (G H)); try discriminate.
Qed.

Lemma operator_not_vec : forall (n : Num.num) op a b o, operator n op a b = Some o -> forall es, o <> ORt (EVec es).
Proof.
  intros n op a b o H es ->.
  assert (K : (exists p q, a = OCt p /\ b = OCt q) \/ operator n op a b = None \/
    operator n op a b = if is_viennamath n a || is_viennamath n b
      then match to_tree n a, to_tree n b with
           | Some x, Some y => Some (ORt (EBin (rt_op op) x y))
           | _, _ => None end else None).
  { destruct a as [c|c|c|[]|c], b as [d|d|d|[]|d]; try (right; right; reflexivity); try (left; eauto; fail);
      right; left; reflexivity. }
  destruct K as [[p [q [-> ->]]]|[K|K]].
  - cbn [operator] in H. destruct (combine n op p q) as [[m|e]|] eqn:C; try discriminate.
    injection H as ->. exact (combine_not_vec _ _ _ _ _ C es eq_refl).
  - rewrite K in H. discriminate.
  - rewrite K in H. destruct (is_viennamath n a || is_viennamath n b), (to_tree n a), (to_tree n b); discriminate.
Qed.

Lemma build_not_vec : forall (n : Num.num) (s : src n) o, build n s = Some o -> forall es, o <> ORt (EVec es).
Proof.
  intros n s o H es ->. destruct s as [x|z|x|i|z|i|i t|op a b|f a|a|a|a|a]; cbn [build] in H; try discriminate.
  - destruct (build n a); [|discriminate]. destruct (build n b); [|discriminate]. exact (operator_not_vec _ _ _ _ _ H es eq_refl).
  - destruct (build n a) as [o|]; [|discriminate]. destruct o as [| |[]|[]|]; cbn [apply] in H; try discriminate;
      try (destruct f; discriminate). match type of H with context [rt_binary n ?m] => destruct (rt_binary n m) end; discriminate.
  - destruct (build n a) as [[| | |[]|]|]; discriminate.
  - destruct (build n a) as [[| | |[]|]|]; discriminate.
  - destruct (build n a) as [[| | |[]|]|]; discriminate.
  - destruct (build n a) as [o|]; [|discriminate]. unfold to_expr in H. destruct (to_tree n o); discriminate.
Qed.

Lemma vbuild_size : forall (n : Num.num) (s : vsrc n) r, vbuild n s = Some r -> sized r (written_size s).
Proof.
  intros n. induction s as [s|k|v IHv i s IHs|v IHv i|op a IHa b IHb]; intros r H; cbn [vbuild] in H; cbn [written_size].
  - destruct (build n s) as [x|] eqn:B; [|discriminate]. injection H as <-. exists x. split; [reflexivity|].
    exact (build_not_vec _ _ _ B).
  - injection H as <-. eexists. split; [reflexivity|]. unfold vec_new. now rewrite repeat_length.
  - destruct (vbuild n v) as [rv|]; [|discriminate]. specialize (IHv _ eq_refl).
    destruct (vbuild n s) as [rs|]; [|destruct rv as [[| | |[]|]| |]; discriminate]. specialize (IHs _ eq_refl).
    destruct (written_size v) as [[k|]|]; cbn [sized] in IHv.
    + destruct IHv as [es [-> L]]. destruct (written_size s) as [z|].
      * assert (O : exists o, rs = Ok o).
        { destruct z as [k'|]; cbn [sized] in IHs; [destruct IHs as [es' [-> _]]|destruct IHs as [o [-> _]]]; eauto. }
        destruct O as [o ->]. destruct (assign_expr n o) as [[| | | |e]|]; try discriminate. injection H as <-.
        pose proof (set_entry_size n es i e) as S. rewrite L in S. destruct (Nat.ltb i k).
        -- destruct S as [es' [-> L']]. exists es'. auto.
        -- cbn [sized]. now rewrite S.
      * cbn [sized] in IHs. subst rs. injection H as <-. reflexivity.
    + destruct IHv as [o [-> N]]. cbn [sized].
      destruct rs as [x| |]; destruct o as [| | |[]|]; try discriminate; try (now injection H as <-); now elim (N es).
    + subst rv. cbn [sized]. destruct rs; now injection H as <-.
  - destruct (vbuild n v) as [rv|]; [|discriminate]. specialize (IHv _ eq_refl).
    destruct (written_size v) as [[k|]|]; cbn [sized] in IHv.
    + destruct IHv as [es [-> L]]. destruct (nth_error es i) as [e|] eqn:E; injection H as <-.
      * assert (Q : i < length es) by (apply nth_error_Some; congruence). rewrite L in Q. apply Nat.ltb_lt in Q. rewrite Q.
        eexists. split; [reflexivity|]. discriminate.
      * apply nth_error_None in E. rewrite L in E. apply Nat.ltb_ge in E. rewrite E. reflexivity.
    + destruct IHv as [o [-> N]]. destruct o as [| | |[]|]; try discriminate. now elim (N es).
    + subst rv. now injection H as <-.
  - destruct (vbuild n a) as [ra|]; [|discriminate]. specialize (IHa _ eq_refl).
    destruct (vbuild n b) as [rb|]; [|destruct ra; discriminate]. specialize (IHb _ eq_refl).
    destruct (written_size a) as [[k|]|]; cbn [sized] in IHa.
    + destruct IHa as [x [-> L]]. destruct (written_size b) as [[l|]|]; cbn [sized] in IHb.
      * destruct IHb as [y [-> M]]. cbn [voperator] in H. unfold vec_add, vec_sub, dot in H. rewrite L, M in H.
        destruct (Nat.eqb k l) eqn:Q; cbn [omap bind] in H;
          [apply Nat.eqb_eq in Q|destruct op; try discriminate; now injection H as <-].
        destruct op; try discriminate; cbn [omap bind] in H.
        -- injection H as <-. eexists. split; [reflexivity|]. rewrite zip_size; congruence.
        -- injection H as <-. eexists. split; [reflexivity|]. rewrite zip_size; congruence.
        -- destruct x as [|e x], y as [|f y]; cbn in L, M; subst k; subst l; try discriminate; try (now injection H as <-).
           destruct (dot_acc_ok n x y (mk_bin n BMult e f)) as [t T]; [now injection Q|]. rewrite T in H.
           injection H as <-. cbn. eexists. split; [reflexivity|]. discriminate.
      * destruct IHb as [o [-> N]]. rewrite (voperator_none_l n op x o N) in H.
        destruct op; try exact (generic_size _ _ _ _ _ H);
          (destruct (to_tree n o); [|discriminate]; injection H as <-; eexists; split; [reflexivity|]; unfold vec_mul_scalar, vec_div_scalar; now rewrite map_length).
      * subst rb. now injection H as <-.
    + destruct IHa as [o [-> N]]. destruct (written_size b) as [[l|]|]; cbn [sized] in IHb.
      * destruct IHb as [y [-> M]]. rewrite (voperator_none_r n op y o N) in H.
        destruct op; try exact (generic_size _ _ _ _ _ H);
          (destruct (to_tree n o); [|discriminate]; injection H as <-; eexists; split; [reflexivity|]; unfold scalar_mul_vec, scalar_div_vec; now rewrite map_length).
      * destruct IHb as [o' [-> N']]. destruct (voperator_cases _ _ _ _ _ H) as [[q [E [-> _]]]|[[x ->]|[y ->]]];
          [|now elim (N x)|now elim (N' y)].
        exists q. split; [reflexivity|]. exact (operator_not_vec _ _ _ _ _ E).
      * subst rb. now injection H as <-.
    + subst ra. destruct rb; now injection H as <-.
Qed.
