(** The LaTeX output can be read back (proofs only). *)
From Coq Require Import ZArith NArith PArith List Bool String Ascii DecimalString DecimalN Lia.
From Coq Require Import Reals Lra FunctionalExtensionality.
From Verif Require Import Outcome Num RtModel RtSpec RtFacts NumR StrModel StrFacts DenSpec DenFacts LatexModel LatexSpec.
Import ListNotations.
Local Open Scope string_scope.

Lemma skip_skip : forall s, skip (skip s) = skip s.
Proof.
  induction s as [|c s IH]; [reflexivity|].
  destruct (ascii_dec c " ") as [->|N]; [exact IH|].
  assert (E : skip (String c s) = String c s).
  { destruct c as [[] [] [] [] [] [] [] []]; try reflexivity. destruct N; reflexivity. }
  rewrite E. exact E.
Qed.

Lemma eat_skip : forall p s, eat p (skip s) = eat p s.
Proof. intros p s. unfold eat. rewrite skip_skip. reflexivity. Qed.

Lemma eat_eq : forall p s s', skip s = skip s' -> eat p s = eat p s'.
Proof. intros p s s' H. unfold eat. rewrite H. reflexivity. Qed.

(** Reading numbers. *)
Lemma digits_acc : forall u acc c rest, digit_value c = None ->
  digits (Npos acc) (NilEmpty.string_of_uint u ++ String c rest) = (Npos (Pos.of_uint_acc u acc), String c rest).
Proof.
  induction u; intros acc c rest H; cbn [NilEmpty.string_of_uint append Pos.of_uint_acc];
    [cbn [digits]; rewrite H; reflexivity|..]; cbn [digits digit_value]; rewrite <- IHu by exact H;
    f_equal; lia.
Qed.
Lemma digits_0 : forall u c rest, digit_value c = None ->
  digits 0 (NilEmpty.string_of_uint u ++ String c rest) = (N.of_uint u, String c rest).
Proof.
  unfold N.of_uint.
  induction u; intros c rest H; cbn [NilEmpty.string_of_uint append Pos.of_uint];
    [cbn [digits]; rewrite H; reflexivity|cbn [digits digit_value]; apply IHu; exact H|..];
    cbn [digits digit_value]; rewrite <- digits_acc by exact H; reflexivity.
Qed.
Lemma digits_dec : forall i c rest, digit_value c = None ->
  digits 0 (dec i ++ String c rest) = (i, String c rest).
Proof.
  intros i c rest H. unfold dec, NilZero.string_of_uint.
  pose proof (Unsigned.of_to i) as U. rewrite <- U at 2. clear U.
  destruct (N.to_uint i); [cbn; rewrite H; reflexivity|..]; apply digits_0; exact H.
Qed.
Lemma dec_first : forall i, exists c s, dec i = String c s /\ digit_value c <> None.
Proof.
  intros i. unfold dec, NilZero.string_of_uint. destruct (N.to_uint i); cbn;
    do 2 eexists; (split; [reflexivity|discriminate]).
Qed.
Lemma index_dec : forall i r, index (dec i ++ "}" ++ r) = Some (i, skip r).
Proof.
  intros i r. unfold index. destruct (dec_first i) as [c [s [E D]]]. rewrite E at 1. cbn [append].
  destruct (digit_value c) eqn:F; [|congruence].
  change ("}" ++ r) with (String "}" r). rewrite digits_dec by reflexivity. reflexivity.
Qed.

Lemma index_dec' : forall i r, index (dec i ++ String "}" r) = Some (i, skip r).
Proof. exact index_dec. Qed.

Section Read.
Context {T : Type} (pr : T -> string) (number : string -> option (T * string)).
Notation rd := (rd number).
Notation lx := (latex pr fresh).

Lemma step_mono : forall r1 r2 : mode T -> string -> option (expr T * string),
  (forall m s x, r1 m s = Some x -> r2 m s = Some x) ->
  forall m s x, rd_step number r1 m s = Some x -> rd_step number r2 m s = Some x.
Proof.
  intros r1 r2 H m s x. unfold rd_step, obind.
  repeat first
    [ match goal with |- Some _ = Some _ -> _ => exact (fun E => E) end
    | match goal with |- None = Some _ -> _ => discriminate end
    | match goal with |- match r1 ?m ?s with _ => _ end = _ -> _ =>
        let E := fresh "E" in destruct (r1 m s) as [[? ?]|] eqn:E;
          [rewrite (H _ _ _ E)|discriminate] end
    | match goal with |- r1 ?m ?s = _ -> _ => apply H end
    | match goal with |- match ?t with _ => _ end = _ -> _ => destruct t as [] end ].
Qed.

Lemma rd_mono : forall f g m s x, f <= g -> rd f m s = Some x -> rd g m s = Some x.
Proof.
  induction f as [|f IH]; intros g m s x L H; [discriminate|].
  destruct g as [|g]; [lia|]. cbn [LatexSpec.rd] in *. revert H. apply step_mono.
  intros m' s' x' H'. apply IH; [lia|exact H'].
Qed.

(** Readable with enough fuel. *)
Definition Rd (m : mode T) (s : string) (x : expr T * string) : Prop := exists f, rd f m s = Some x.

Lemma Rd_le : forall m s x, Rd m s x -> exists f0, forall f, f0 <= f -> rd f m s = Some x.
Proof. intros m s x [f H]. exists f. intros g L. eapply rd_mono; eauto. Qed.

Lemma rd_skip : forall f m s, rd f m (skip s) = rd f m s.
Proof.
  induction f as [|f IH]; intros m s; [reflexivity|]. cbn [LatexSpec.rd]. unfold rd_step.
  destruct m; rewrite ?IH, ?eat_skip, ?skip_skip; reflexivity.
Qed.
Lemma Rd_skip : forall m s x, Rd m (skip s) x -> Rd m s x.
Proof. intros m s x [f H]. exists f. rewrite rd_skip in H. exact H. Qed.

Ltac fuel H := let f := fresh "f" in let F := fresh "F" in apply Rd_le in H as [f F].
Ltac use F := rewrite F by lia; cbn [obind].

Lemma step1 : forall m s x, (exists f, rd_step number (rd f) m s = Some x) -> Rd m s x.
Proof. intros m s x [f H]. exists (S f). exact H. Qed.


Ltac eats :=
  repeat match goal with
  | |- context [eat ?p ?s] =>
      let u := eval unfold eat in (eat p s) in
      let v := eval simpl in u in
      lazymatch v with
      | None => change (eat p s) with (@None string)
      | Some ?r => change (eat p s) with (Some r)
      end; cbv beta iota; cbn [obind]
  end.
Ltac start H := fuel H; apply step1.
Ltac run := unfold rd_step; eats.

(** The forms of factors. *)
Lemma R_paren : forall s a r, Rd MSum s (a, skip (")" ++ r)) -> Rd MFactor ("(" ++ s) (a, skip r).
Proof.
  intros s a r H. start H. exists f. run. rewrite rd_skip. use F. eats. reflexivity.
Qed.
Lemma R_left : forall s a r, Rd MSum s (a, skip (" \right) " ++ r)) -> Rd MFactor (" \left( " ++ s) (a, skip r).
Proof.
  intros s a r H. start H. exists f. run. rewrite rd_skip. use F. eats. reflexivity.
Qed.
Lemma R_fabs : forall s a r, Rd MSum s (a, skip ("\right| " ++ r)) ->
  Rd MFactor (" \left|" ++ s) (EUn UFabs a, skip r).
Proof.
  intros s a r H. start H. exists f. run. rewrite rd_skip. use F. eats. reflexivity.
Qed.
Lemma R_sqrt : forall s a r, Rd MSum s (a, skip ("} " ++ r)) ->
  Rd MFactor (" \sqrt{" ++ s) (EUn USqrt a, skip r).
Proof.
  intros s a r H. start H. exists f. run. rewrite rd_skip. use F. eats. reflexivity.
Qed.
Lemma R_frac : forall s t a b r, eat "\partial" s = None -> Rd MSum s (a, skip ("}{" ++ t)) ->
  Rd MSum t (b, skip ("} " ++ r)) -> Rd MFactor (" \frac{" ++ s) (EBin BDiv a b, skip r).
Proof.
  intros s t a b r N H H'. fuel H. start H'. exists (f + f0). run. rewrite eat_skip, N.
  rewrite rd_skip. use F. eats. rewrite rd_skip. use F0. eats. reflexivity.
Qed.
Definition word (op : uop) : option string :=
  match op with
  | UExp => Some " \exp " | USin => Some " \sin " | UCos => Some " \cos " | UTan => Some " \tan "
  | ULog => Some " \ln " | ULog10 => Some " \log " | UDiv => Some " \nabla \cdot "
  | _ => None
  end.
Lemma R_word : forall op w s a r, word op = Some w -> Rd MFactor s (a, r) ->
  Rd MFactor (w ++ s) (EUn op a, r).
Proof.
  intros op w s a r W H. start H. exists f.
  destruct op; try discriminate; injection W as <-; run; rewrite rd_skip; use F; reflexivity.
Qed.
Lemma R_grad : forall s a r, eat "\cdot" s = None -> Rd MFactor s (a, r) ->
  Rd MFactor (" \nabla " ++ s) (EUn UGrad a, r).
Proof.
  intros s a r N H. start H. exists f. run. rewrite eat_skip, N, rd_skip. use F. reflexivity.
Qed.
Lemma dec_skip : forall i r, skip (dec i ++ r) = dec i ++ r.
Proof.
  intros i r. destruct (dec_first i) as [c [s [E D]]]. rewrite E. cbn [append].
  destruct c as [[] [] [] [] [] [] [] []]; try reflexivity. destruct D; reflexivity.
Qed.
Lemma variable_var : forall i r,
  variable (String "x" (String "_" (String "{" (dec i ++ String "}" r)))) = Some (i, skip r).
Proof. intros i r. unfold variable. eats. rewrite dec_skip. apply index_dec. Qed.
Lemma R_pd : forall i s a r, Rd MFactor s (a, skip ("}{\partial  x_{" ++ dec i ++ "} } " ++ r)) ->
  Rd MFactor (" \frac{\partial " ++ s) (EUn (UPd i) a, skip r).
Proof.
  intros i s a r H. start H. exists f. run. rewrite rd_skip. use F.
  eats. cbn [append]. rewrite variable_var. cbn [obind]. eats. reflexivity.
Qed.
Lemma R_symint : forall i s a r, Rd MSum s (a, skip ("  \: \mathrm{d} \Omega " ++ r)) ->
  Rd MFactor (" \int_{\Omega_{" ++ dec i ++ "}} " ++ s) (EUn (USymInt i) a, skip r).
Proof.
  intros i s a r H. start H. exists f. run. rewrite dec_skip.
  rewrite index_dec'. cbn [obind]. eats. rewrite rd_skip. use F. eats.
  reflexivity.
Qed.
Lemma R_int : forall v s1 s2 s3 lo hi a r,
  Rd MSum s1 (lo, skip ("; " ++ s2)) -> Rd MSum s2 (hi, skip (" ]  } " ++ s3)) ->
  Rd MSum s3 (a, skip ("  \: \mathrm{d}  x_{" ++ dec v ++ "}  " ++ r)) ->
  Rd MFactor (" \int_{  [ " ++ s1) (EInt lo hi v a, skip r).
Proof.
  intros v s1 s2 s3 lo hi a r H1 H2 H3. fuel H1. fuel H2. start H3. exists (f + f0 + f1). run.
  rewrite rd_skip. use F. eats. rewrite rd_skip. use F0. eats. rewrite rd_skip. use F1. eats.
  cbn [append]. rewrite variable_var. reflexivity.
Qed.
Lemma R_var : forall i r, Rd MFactor (" x_{" ++ dec i ++ "} " ++ r) (EVar i, skip r).
Proof.
  intros i r. apply step1. exists 0. run. rewrite dec_skip.
  rewrite index_dec'. reflexivity.
Qed.
Lemma R_unknown : forall i r, Rd MFactor (" u_{" ++ dec i ++ "} " ++ r) (EFun i 0, skip r).
Proof.
  intros i r. apply step1. exists 0. run. rewrite dec_skip.
  rewrite index_dec'. reflexivity.
Qed.
Lemma R_test : forall i r, Rd MFactor (" v_{" ++ dec i ++ "} " ++ r) (EFun i 1, skip r).
Proof.
  intros i r. apply step1. exists 0. run. rewrite dec_skip.
  rewrite index_dec'. reflexivity.
Qed.
Lemma eat_no : forall p c s, match p with String d _ => d <> c | _ => False end -> c <> " "%char ->
  eat p (String c s) = None.
Proof.
  intros [|d p] c s H N; [contradiction|]. unfold eat.
  assert (E : skip (String c s) = String c s).
  { destruct c as [[] [] [] [] [] [] [] []]; try reflexivity. destruct N; reflexivity. }
  rewrite E. cbn [strip]. destruct (Ascii.eqb_spec d c); [contradiction|reflexivity].
Qed.
Definition opens (c : ascii) : Prop := digit_value c <> None \/ c = "-"%char.
Lemma opens_not : forall c d, opens c -> In d ["("; "\"; "x"; "u"; "v"; " "]%char -> d <> c.
Proof.
  intros c d [H| ->] D ->; [|simpl in D; intuition discriminate].
  simpl in D. repeat (destruct D as [<-|D]; [apply H; reflexivity|]). exact D.
Qed.
Lemma R_const : forall c r,
  (exists d s', pr c = String d s' /\ (digit_value d <> None \/ d = "-"%char)) ->
  (forall rest, number (pr c ++ String " " rest) = Some (c, String " " rest)) ->
  Rd MFactor (" " ++ pr c ++ " " ++ r) (EConst c, skip r).
Proof.
  intros c r [d [s [E D]]] N. apply step1. exists 0.
  assert (K : forall p, match p with String d _ => In d ["("; "\"; "x"; "u"; "v"]%char | _ => False end ->
     eat p (" " ++ pr c ++ " " ++ r) = None).
  { intros p P. change (" " ++ pr c ++ " " ++ r) with (String " " (pr c ++ " " ++ r)).
    change (eat p (String " " (pr c ++ " " ++ r))) with (eat p (pr c ++ " " ++ r)).
    rewrite E. cbn [append]. apply eat_no.
    - destruct p as [|d' p]; [contradiction|]. apply opens_not; [exact D|]. simpl in *. tauto.
    - apply not_eq_sym. apply opens_not; [exact D|]. simpl. tauto. }
  unfold rd_step. rewrite !K by (simpl; tauto). cbn [obind].
  change (skip (" " ++ pr c ++ " " ++ r)) with (skip (pr c ++ " " ++ r)).
  assert (S : skip (pr c ++ " " ++ r) = pr c ++ " " ++ r).
  { rewrite E. cbn [append]. assert (Q : d <> " "%char).
    { apply not_eq_sym. apply opens_not; [exact D|]. simpl; tauto. }
    destruct d as [[] [] [] [] [] [] [] []]; try reflexivity. destruct Q; reflexivity. }
  rewrite S. change (" " ++ r) with (String " " r). rewrite N. reflexivity.
Qed.

(** Sums and products. *)
Lemma R_sum : forall s a r x, Rd MProduct s (a, r) -> Rd (MSumRest a) r x -> Rd MSum s x.
Proof.
  intros s a r x H H'. fuel H. start H'. exists (f + f0). unfold rd_step. use F. use F0. reflexivity.
Qed.
Lemma R_product : forall s a r x, Rd MFactor s (a, r) -> Rd (MProductRest a) r x -> Rd MProduct s x.
Proof.
  intros s a r x H H'. fuel H. start H'. exists (f + f0). unfold rd_step. use F. use F0. reflexivity.
Qed.
Lemma R_times : forall l s a r x, Rd MFactor s (a, r) -> Rd (MProductRest (EBin BMult l a)) r x ->
  Rd (MProductRest l) (" \cdot " ++ s) x.
Proof.
  intros l s a r x H H'. fuel H. start H'. exists (f + f0). run. rewrite rd_skip. use F. use F0. reflexivity.
Qed.
Lemma R_plus : forall l s a r x, Rd MProduct s (a, r) -> Rd (MSumRest (EBin BPlus l a)) r x ->
  Rd (MSumRest l) (" + " ++ s) x.
Proof.
  intros l s a r x H H'. fuel H. start H'. exists (f + f0). run. rewrite rd_skip. use F. use F0. reflexivity.
Qed.
Lemma R_minus : forall l s a r x, Rd MProduct s (a, r) -> Rd (MSumRest (EBin BMinus l a)) r x ->
  Rd (MSumRest l) (" - " ++ s) x.
Proof.
  intros l s a r x H H'. fuel H. start H'. exists (f + f0). run. rewrite rd_skip. use F. use F0. reflexivity.
Qed.
Lemma R_product_end : forall l s, eat "\cdot" s = None -> Rd (MProductRest l) s (l, skip s).
Proof. intros l s H. apply step1. exists 0. unfold rd_step. rewrite H. reflexivity. Qed.
Lemma R_sum_end : forall l s, eat "+" s = None -> eat "-" s = None -> Rd (MSumRest l) s (l, skip s).
Proof. intros l s H H'. apply step1. exists 0. unfold rd_step. rewrite H, H'. reflexivity. Qed.
Lemma R_rest : forall m s x, Rd m s x -> Rd m (skip s) x.
Proof. intros m s x [f H]. exists f. rewrite rd_skip. exact H. Qed.

(** The expression as it is read. *)
Fixpoint app_sum (a b : expr T) : expr T :=
  match b with
  | EBin BPlus x y => EBin BPlus (app_sum a x) y
  | EBin BMinus x y => EBin BMinus (app_sum a x) y
  | _ => EBin BPlus a b
  end.
Fixpoint norm (e : expr T) : expr T :=
  match e with
  | EUn UId a => norm a
  | EUn op a => EUn op (norm a)
  | EInt lo hi v a => EInt (norm lo) (norm hi) v (norm a)
  | EBin BPlus l r => app_sum (norm l) (norm r)
  | EBin op l r => EBin op (norm l) (norm r)
  | _ => e
  end.
Lemma app_sum_assoc : forall c a b, app_sum a (app_sum b c) = app_sum (app_sum a b) c.
Proof.
  induction c as [d|i|i t|op a' IH|lo hi w a' IH1 IH2 IH|op l r IHl IHr|es IH] using expr_ind';
    intros a b; try reflexivity.
  destruct op; try reflexivity; simpl; rewrite IHl; reflexivity.
Qed.
Lemma app_regroup : forall b a, regroup (EBin BPlus a b) (app_sum a b).
Proof.
  induction b as [d|i|i t|op a' IH|lo hi w a' IH1 IH2 IH|op l r IHl IHr|es IH] using expr_ind';
    intros a; try apply rg_refl.
  destruct op; try apply rg_refl; simpl.
  - eapply rg_trans; [apply rg_plus|]. apply rg_bin; [apply IHl|apply rg_refl].
  - eapply rg_trans; [apply rg_minus|]. apply rg_bin; [apply IHl|apply rg_refl].
Qed.
Lemma norm_regroup : forall e, regroup e (norm e).
Proof.
  induction e as [d|i|i t|op a' IH|lo hi w a' IH1 IH2 IH|op l r IHl IHr|es IH] using expr_ind';
    try apply rg_refl.
  - destruct op; simpl; try (apply rg_un; exact IH). eapply rg_trans; [apply rg_id|exact IH].
  - simpl. apply rg_int; assumption.
  - destruct op; simpl; try (apply rg_bin; assumption).
    eapply rg_trans; [apply rg_bin; [exact IHl|exact IHr]|]. apply app_regroup.
Qed.

Definition nodot (s : string) : Prop := eat "\cdot" s = None.
Definition ok (e : expr T) : Prop := readable pr number e.

Definition asFactor (e : expr T) := forall rest, Rd MFactor (lx true e ++ rest) (norm e, skip rest).
Definition asSum (e : expr T) := forall rest x, nodot rest -> Rd (MSumRest (norm e)) rest x ->
  Rd MSum (lx false e ++ rest) x.
Definition asTerms (e : expr T) := forall acc rest x, nodot rest ->
  Rd (MSumRest (app_sum acc (norm e))) rest x -> Rd (MSumRest acc) (" + " ++ lx false e ++ rest) x.
Definition asProduct (e : expr T) := forall rest, nodot rest -> 
  Rd MProduct (lx false e ++ rest) (norm e, skip rest).
Definition not_sum (e : expr T) := match e with EBin BPlus _ _ | EBin BMinus _ _ => False | _ => True end.

Lemma product_sum : forall e, asProduct e -> asSum e.
Proof. intros e H rest x N R. eapply R_sum; [apply H; exact N|]. apply R_rest. exact R. Qed.
Lemma product_terms : forall e, not_sum (norm e) -> asProduct e -> asTerms e.
Proof.
  intros e S H acc rest x N R. eapply R_plus; [apply H; exact N|]. apply R_rest.
  destruct (norm e) as [| | | | |[] ? ?|]; try contradiction; exact R.
Qed.
Lemma factor_product : forall e, lx true e = lx false e -> asFactor e -> asProduct e.
Proof.
  intros e E H rest N. eapply R_product; [rewrite <- E; apply H|]. apply R_rest.
  apply R_product_end. exact N.
Qed.
Lemma sum_paren : forall e, asSum e -> forall rest, Rd MFactor ("(" ++ lx false e ++ ")" ++ rest) (norm e, skip rest).
Proof.
  intros e H rest. apply R_paren. apply H; [reflexivity|]. apply R_sum_end; reflexivity.
Qed.
(** A sum followed by a closing delimiter. *)
Lemma sum_closed : forall e close, asSum e -> nodot close -> eat "+" close = None -> eat "-" close = None ->
  Rd MSum (lx false e ++ close) (norm e, skip close).
Proof. intros e close H N P M. apply H; [exact N|]. apply R_sum_end; assumption. Qed.

Lemma ok_sub : forall s e, subterm s e -> ok e -> ok s.
Proof.
  intros s e S. unfold ok, readable. induction S; intros O; try exact O; try apply IHS;
    intros s' S'; apply O; try (constructor; exact S'); eapply sub_vec; eauto.
Qed.

(** No output begins with \cdot or \partial. *)
Lemma first_sym : forall p, p = "\cdot" \/ p = "\partial" -> forall e, ok e -> forall par rest,
  eat p (lx par e ++ rest) = None.
Proof.
  intros p P. induction e as [d|i|i t|op a' IH|lo hi w a' IH1 IH2 IH|op l r IHl IHr|es IH] using expr_ind';
    intros O par rest.
  - destruct (O _ (sub_refl _)) as [[c [s [E D]]] _]. cbn [LatexModel.latex].
    change ((" " ++ pr d ++ " ") ++ rest) with (String " " ((pr d ++ " ") ++ rest)).
    change (eat p (String " " ((pr d ++ " ") ++ rest))) with (eat p ((pr d ++ " ") ++ rest)).
    rewrite E. cbn [append]. apply eat_no.
    + destruct P as [-> | ->]; apply opens_not; try exact D; simpl; tauto.
    + apply not_eq_sym. apply opens_not; [exact D|]. simpl; tauto.
  - destruct P as [-> | ->]; reflexivity.
  - pose proof (O _ (sub_refl _)) as H. simpl in H. destruct H as [-> | ->]; destruct P as [-> | ->]; reflexivity.
  - destruct op; try (destruct P as [-> | ->]; reflexivity).
    cbn [LatexModel.latex]. apply IH. eapply ok_sub; [|exact O]. apply sub_un, sub_refl.
  - destruct P as [-> | ->]; reflexivity.
  - assert (Ol : ok l) by (eapply ok_sub; [|exact O]; apply sub_l, sub_refl).
    assert (O0 := O _ (sub_refl _)). 
    destruct op; [| | | |contradiction]; destruct par; cbn [LatexModel.latex];
      try (destruct P as [-> | ->]; reflexivity); rewrite append_assoc; cbn [append];
      rewrite append_assoc; apply IHl; exact Ol.
  - destruct (O _ (sub_refl _)).
Qed.

Lemma lx_paren : forall op l r, op = BPlus \/ op = BMinus \/ op = BMult ->
  lx true (EBin op l r) = "(" ++ lx false (EBin op l r) ++ ")".
Proof.
  intros op l r H. destruct H as [->|[->| ->]]; cbn [LatexModel.latex orb b_str]; cbn [append]; f_equal;
    rewrite append_nil, ?append_assoc; reflexivity.
Qed.
Lemma lx_left : forall l r,
  lx true (EBin BDiv l r) = " \left( " ++ lx false (EBin BDiv l r) ++ " \right) ".
Proof.
  intros l r. cbn [LatexModel.latex]. change ("" ++ ?x) with x. rewrite append_nil, ?append_assoc. reflexivity.
Qed.

Lemma main : forall e, ok e -> asFactor e /\ asSum e /\ asTerms e.
Proof.
  induction e as [d|i|i t|op a IH|lo hi w a IH1 IH2 IH|op l r IHl IHr|es IH] using expr_ind'; intros O.
  - assert (F : asFactor (EConst d)).
    { intros rest. destruct (O _ (sub_refl _)) as [A B]. cbn [LatexModel.latex].
      rewrite !append_assoc. apply R_const; assumption. }
    assert (P := factor_product (EConst d) eq_refl F). split; [exact F|]. split; [apply product_sum; exact P|].
    apply product_terms; [exact I|exact P].
  - assert (F : asFactor (EVar i)).
    { intros rest. cbn [LatexModel.latex]. change (latex_var fresh _ i) with (" x_{" ++ dec i ++ "} ").
      rewrite !append_assoc. apply R_var. }
    assert (P := factor_product (EVar i) eq_refl F). split; [exact F|]. split; [apply product_sum; exact P|].
    apply product_terms; [exact I|exact P].
  - assert (F : asFactor (EFun i t)).
    { intros rest. cbn [LatexModel.latex]. pose proof (O _ (sub_refl _)) as H. simpl in H.
      destruct H as [-> | ->].
      - change (latex_fun fresh _ i 0) with (" u_{" ++ dec i ++ "} "). rewrite !append_assoc. apply R_unknown.
      - change (latex_fun fresh _ i 1) with (" v_{" ++ dec i ++ "} "). rewrite !append_assoc. apply R_test. }
    assert (P := factor_product (EFun i t) eq_refl F). split; [exact F|]. split; [apply product_sum; exact P|].
    apply product_terms; [exact I|exact P].
  - assert (Oa : ok a) by (eapply ok_sub; [|exact O]; apply sub_un, sub_refl).
    destruct (IH Oa) as [Fa [Sa Ta]].
    assert (K : op = UId \/ (op <> UId /\ asFactor (EUn op a))).
    { assert (W : forall w, word op = Some w -> lx true (EUn op a) = w ++ lx true a ++ " " -> norm (EUn op a) = EUn op (norm a) ->
          asFactor (EUn op a)).
      { intros w W E N rest. rewrite E, N, !append_assoc. apply (R_word op w); [exact W|].
        exact (Fa (" " ++ rest)). }
      destruct op as [| | | | | | | | | | |i|i]; try (left; reflexivity); right; (split; [discriminate|]);
        try (apply (W _ eq_refl); reflexivity).
      - intros rest. cbn [LatexModel.latex norm]. rewrite !append_assoc. apply R_fabs.
        apply sum_closed; [exact Sa|reflexivity..].
      - intros rest. cbn [LatexModel.latex norm]. rewrite !append_assoc. apply R_sqrt.
        apply sum_closed; [exact Sa|reflexivity..].
      - intros rest. cbn [LatexModel.latex norm]. rewrite !append_assoc. apply R_grad.
        + apply first_sym; [left; reflexivity|exact Oa].
        + exact (Fa (" " ++ rest)).
      - intros rest. cbn [LatexModel.latex norm]. change (latex_var fresh _ i) with (" x_{" ++ dec i ++ "} ").
        rewrite !append_assoc. apply (R_pd i). apply Fa.
      - intros rest. cbn [LatexModel.latex norm]. rewrite !append_assoc. apply (R_symint i).
        apply (sum_closed a); [exact Sa|reflexivity..]. }
    destruct K as [-> |[NI F]]; [exact (conj Fa (conj Sa Ta))|].
    assert (P : asProduct (EUn op a)).
    { apply factor_product; [|exact F]. destruct op; try reflexivity. destruct NI; reflexivity. }
    split; [exact F|]. split; [apply product_sum; exact P|].
    apply product_terms; [|exact P]. destruct op; try exact I. destruct NI; reflexivity.
  - destruct IH1 as [_ [S1 _]]; [eapply ok_sub; [|exact O]; apply sub_lo, sub_refl|].
    destruct IH2 as [_ [S2 _]]; [eapply ok_sub; [|exact O]; apply sub_hi, sub_refl|].
    destruct IH as [_ [S3 _]]; [eapply ok_sub; [|exact O]; apply sub_body, sub_refl|].
    assert (F : asFactor (EInt lo hi w a)).
    { intros rest. cbn [LatexModel.latex norm]. change (latex_var fresh _ w) with (" x_{" ++ dec w ++ "} ").
      rewrite !append_assoc. eapply (R_int w); apply sum_closed; try assumption; reflexivity. }
    assert (P := factor_product (EInt lo hi w a) eq_refl F). split; [exact F|]. split; [apply product_sum; exact P|].
    apply product_terms; [exact I|exact P].
  - assert (Ol : ok l) by (eapply ok_sub; [|exact O]; apply sub_l, sub_refl).
    assert (Or : ok r) by (eapply ok_sub; [|exact O]; apply sub_r, sub_refl).
    destruct (IHl Ol) as [Fl [Sl Tl]]. destruct (IHr Or) as [Fr [Sr Tr]].
    assert (FP : forall rest, nodot rest -> Rd MProduct (lx true r ++ rest) (norm r, skip rest)).
    { intros rest N. eapply R_product; [apply Fr|]. apply R_rest, R_product_end. exact N. }
    destruct op.
    + assert (S : asSum (EBin BPlus l r)).
      { intros rest x N R. cbn [LatexModel.latex orb b_str]. cbn [append]. rewrite append_nil, !append_assoc.
        apply Sl; [reflexivity|]. apply (Tr (norm l) rest x N). exact R. }
      split; [|split; [exact S|]].
      * intros rest. rewrite lx_paren by tauto. rewrite !append_assoc. apply sum_paren. exact S.
      * intros acc rest x N R. cbn [LatexModel.latex orb b_str]. cbn [append]. rewrite append_nil, !append_assoc.
        apply (Tl acc (" + " ++ lx false r ++ rest) x); [reflexivity|]. apply (Tr _ rest x N).
        cbn [norm] in R. rewrite app_sum_assoc in R. exact R.
    + assert (S : asSum (EBin BMinus l r)).
      { intros rest x N R. cbn [LatexModel.latex orb b_str]. cbn [append]. rewrite append_nil, !append_assoc.
        apply Sl; [reflexivity|]. eapply R_minus; [apply FP; exact N|]. apply R_rest. exact R. }
      split; [|split; [exact S|]].
      * intros rest. rewrite lx_paren by tauto. rewrite !append_assoc. apply sum_paren. exact S.
      * intros acc rest x N R. cbn [LatexModel.latex orb b_str]. cbn [append]. rewrite append_nil, !append_assoc.
        apply (Tl acc (" - " ++ lx true r ++ rest) x); [reflexivity|].
        eapply R_minus; [apply FP; exact N|]. apply R_rest. exact R.
    + assert (P : asProduct (EBin BMult l r)).
      { intros rest N. cbn [LatexModel.latex orb b_str norm]. cbn [append]. rewrite append_nil, !append_assoc.
        eapply R_product; [apply Fl|]. apply R_rest. eapply R_times; [apply Fr|].
        apply R_rest, R_product_end. exact N. }
      split; [|split; [apply product_sum; exact P|apply product_terms; [exact I|exact P]]].
      intros rest. rewrite lx_paren by tauto. rewrite !append_assoc. apply sum_paren, product_sum. exact P.
    + assert (Fa : forall rest, Rd MFactor (lx false (EBin BDiv l r) ++ rest) (norm (EBin BDiv l r), skip rest)).
      { intros rest. cbn [LatexModel.latex norm]. change ("" ++ ?x) with x. rewrite append_nil, !append_assoc.
        eapply R_frac; [apply first_sym; [right; reflexivity|exact Ol]| |];
          apply sum_closed; try assumption; reflexivity. }
      assert (P : asProduct (EBin BDiv l r)).
      { intros rest N. eapply R_product; [apply Fa|]. apply R_rest, R_product_end. exact N. }
      assert (S := product_sum _ P).
      split; [|split; [exact S|apply product_terms; [exact I|exact P]]].
      intros rest. rewrite lx_left, !append_assoc. apply R_left. apply sum_closed; [exact S|reflexivity..].
    + destruct (O _ (sub_refl _)).
  - destruct (O _ (sub_refl _)).
Qed.

Lemma read_back : forall e, ok e -> exists k, forall fuel, k <= fuel ->
  read number fuel (lx false e) = Some (norm e).
Proof.
  intros e O. destruct (main e O) as [_ [S _]].
  assert (R : Rd MSum (lx false e) (norm e, "")).
  { rewrite <- (append_nil (lx false e)). apply S; [reflexivity|]. apply R_sum_end; reflexivity. }
  apply Rd_le in R as [k R]. exists k. intros fuel L. unfold read. rewrite (R fuel L). reflexivity.
Qed.

Lemma read_back_equation : forall l r, ok l -> ok r -> exists k, forall fuel, k <= fuel ->
  read_equation number fuel (latex_equation pr fresh l r) = Some (norm l, norm r).
Proof.
  intros l r L R. destruct (main l L) as [_ [S _]]. destruct (read_back r R) as [k2 H2].
  pose proof (sum_closed l (" = " ++ lx false r) S eq_refl eq_refl eq_refl) as H1.
  apply Rd_le in H1 as [k1 H1]. exists (k1 + k2). intros fuel F.
  unfold read_equation, latex_equation. rewrite (H1 fuel) by lia. cbn [obind].
  assert (E : eat "=" (skip (" = " ++ lx false r)) = Some (skip (lx false r))) by reflexivity.
  rewrite E. cbn [obind]. unfold read in *. rewrite rd_skip. rewrite (H2 fuel) by lia. reflexivity.
Qed.
End Read.

(** Regrouping does not change the meaning. *)
Lemma zip_assoc : forall {P} (op1 op2 op3 op4 : R -> R -> R),
  (forall a b c, op1 a (op2 b c) = op3 (op4 a b) c)%R ->
  forall fs gs hs : list (P -> R),
  zip_fun op1 fs (zip_fun op2 gs hs) = zip_fun op3 (zip_fun op4 fs gs) hs.
Proof.
  intros P op1 op2 op3 op4 H. induction fs as [|f fs IH]; intros gs hs; [reflexivity|].
  destruct gs as [|g gs]; [reflexivity|]. destruct hs as [|h hs]; [reflexivity|]. simpl.
  rewrite IH. f_equal. extensionality p. apply H.
Qed.
Lemma zip_length : forall {P} op (fs gs : list (P -> R)), List.length fs = List.length gs ->
  List.length (zip_fun op fs gs) = List.length fs.
Proof. induction fs; destruct gs; simpl; intros; try discriminate; auto. Qed.

Lemma bin_means_assoc : forall {P} o (x y z yz xyz : val P), o = BPlus \/ o = BMinus ->
  bin_means o y z yz -> bin_means BPlus x yz xyz ->
  exists xy, bin_means BPlus x y xy /\ bin_means o xy z xyz.
Proof.
  intros P o x y z yz xyz Ho A B.
  destruct y as [g|gs], z as [h|hs]; simpl in A.
  - destruct A as [k [-> A]]. destruct x as [f|fs]; simpl in B.
    + destruct B as [m [-> B]]. exists (Sc (fun p => f p + g p)%R). split; simpl.
      * eexists. split; [reflexivity|]. reflexivity.
      * eexists. split; [reflexivity|]. intros p. specialize (A p). specialize (B p).
        destruct Ho as [-> | ->]; simpl in *; rewrite B, A; ring.
    + destruct B as [[B _]|[B _]]; discriminate.
  - destruct A as [A _]. destruct Ho as [-> | ->]; discriminate.
  - destruct A as [[A _]|[A _]]; destruct Ho as [-> | ->]; discriminate.
  - destruct A as [L A]. destruct x as [f|fs].
    + destruct Ho as [-> | ->]; subst yz; simpl in B; destruct B as [B _]; discriminate.
    + exists (Ve (zip_fun Rplus fs gs)).
      destruct Ho as [-> | ->]; subst yz; simpl in B; destruct B as [L' ->]; rewrite zip_length in L' by exact L;
        (split; [split; [exact L'|reflexivity]|]); simpl; (split; [rewrite zip_length; congruence|]);
        f_equal; apply zip_assoc; intros; ring.
Qed.

Lemma regroup_means : forall {P} (I : interp P) a b, regroup a b -> forall x, means I a x -> means I b x.
Proof.
  intros P I a b H. induction H; intros x M; auto.
  - destruct M as [y [w [A [[z1 [z2 [B [C D]]]] E]]]].
    destruct (bin_means_assoc BPlus _ _ _ _ _ (or_introl eq_refl) D E) as [xy [F G]].
    exists xy, z2. split; [exists y, z1; auto|]. auto.
  - destruct M as [y [w [A [[z1 [z2 [B [C D]]]] E]]]].
    destruct (bin_means_assoc BMinus _ _ _ _ _ (or_intror eq_refl) D E) as [xy [F G]].
    exists xy, z2. split; [exists y, z1; auto|]. auto.
  - destruct M as [y [A [f [g [-> [-> B]]]]]]. simpl in B.
    replace g with f; [exact A|]. extensionality p. symmetry. apply B.
  - destruct M as [y [A B]]. exists y. auto.
  - destruct M as [y [z [A [B C]]]]. exists y, z. auto.
  - destruct M as [y [z [w [A [B [C D]]]]]]. exists y, z, w. auto.
Qed.

(** Dependence on the customisations. *)
Lemma latex_depends : forall {T : Type} (pr : T -> string) (t t' : translator T) (e : expr T),
  t_users t = t_users t' ->
  (forall i p, prints_var i e -> latex pr t p (EVar i) = latex pr t' p (EVar i)) ->
  (forall i u p, occurs_fun i u e -> latex pr t p (EFun i u) = latex pr t' p (EFun i u)) ->
  forall par, latex pr t par e = latex pr t' par e.
Proof.
  intros T pr t t' e U. cbn [latex]. revert e.
  induction e as [d|i|i u|op a IH|lo hi w a IH1 IH2 IH|op l r IHl IHr|es IH] using expr_ind';
    intros V F par; try reflexivity;
    try (cbn [latex]; unfold or_unknown; rewrite U; reflexivity).
  - cbn [latex]. apply V. left. apply sub_refl.
  - cbn [latex]. apply F. apply sub_refl.
  - assert (K : forall p, latex pr t p a = latex pr t' p a).
    { apply IH.
      - intros i p [H|[[b H]|[x [y [z H]]]]]; apply V.
        + left. apply sub_un. exact H.
        + right. left. exists b. apply sub_un. exact H.
        + right. right. exists x, y, z. apply sub_un. exact H.
      - intros i u p H. apply F. apply sub_un. exact H. }
    destruct op; cbn [latex]; rewrite ?K; try reflexivity.
    rewrite V; [reflexivity|]. right. left. exists a. apply sub_refl.
  - cbn [latex]. rewrite IH1, IH2, IH.
    + rewrite V; [reflexivity|]. right. right. exists lo, hi, a. apply sub_refl.
    + intros i p [H|[[b H]|[x [y [z H]]]]]; apply V; [left|right; left; exists b|right; right; exists x, y, z]; apply sub_body; exact H.
    + intros i u p H. apply F. apply sub_body. exact H.
    + intros i p [H|[[b H]|[x [y [z H]]]]]; apply V; [left|right; left; exists b|right; right; exists x, y, z]; apply sub_hi; exact H.
    + intros i u p H. apply F. apply sub_hi. exact H.
    + intros i p [H|[[b H]|[x [y [z H]]]]]; apply V; [left|right; left; exists b|right; right; exists x, y, z]; apply sub_lo; exact H.
    + intros i u p H. apply F. apply sub_lo. exact H.
  - assert (Kl : forall p, latex pr t p l = latex pr t' p l).
    { apply IHl; [intros i p [H|[[b H]|[x [y [z H]]]]]; apply V; [left|right; left; exists b|right; right; exists x, y, z]; apply sub_l; exact H|].
      intros i u p H. apply F. apply sub_l. exact H. }
    assert (Kr : forall p, latex pr t p r = latex pr t' p r).
    { apply IHr; [intros i p [H|[[b H]|[x [y [z H]]]]]; apply V; [left|right; left; exists b|right; right; exists x, y, z]; apply sub_r; exact H|].
      intros i u p H. apply F. apply sub_r. exact H. }
    destruct op; cbn [latex]; rewrite ?Kl, ?Kr; reflexivity.
Qed.

Definition symbol {T : Type} (a : expr T) : Prop :=
  match a with EVar _ | EFun _ _ => True | _ => False end.

Lemma customize_other : forall {T : Type} (pr : T -> string) t (a b : expr T) s par,
  symbol a -> b <> a -> latex pr (customize t b s) par a = latex pr t par a.
Proof.
  intros T pr t a b s par S N.
  destruct a as [| i|i u| | | |]; try contradiction; cbn [latex]; unfold latex_var, latex_fun;
    destruct b as [|j|j w| | | |]; try reflexivity; cbn [customize t_vars t_funs find_var find_fun].
  - destruct (N.eqb_spec j i) as [->|]; [destruct N; reflexivity|reflexivity].
  - destruct (N.eqb_spec j i) as [->|]; [|reflexivity].
    destruct (N.eqb_spec w u) as [->|]; [destruct N; reflexivity|reflexivity].
Qed.
Lemma history_other : forall {T : Type} (pr : T -> string) h t (a : expr T) par,
  symbol a -> (forall b s, In (b, s) h -> b <> a) -> latex pr (history t h) par a = latex pr t par a.
Proof.
  induction h as [|[b s] h IH]; intros t a par S N; [reflexivity|].
  unfold history in *. cbn [fold_left fst snd]. rewrite IH; [|exact S|intros b' s' H; apply (N b' s'); right; exact H].
  apply customize_other; [exact S|]. apply (N b s). left. reflexivity.
Qed.
Lemma customize_same : forall {T : Type} (pr : T -> string) t (a : expr T) s par,
  symbol a -> s <> "" -> latex pr (customize t a s) par a = s.
Proof.
  intros T pr t a s par S N. assert (K : forall t' p, or_unknown t' p a s = s) by (intros; destruct s; [destruct N|]; reflexivity).
  destruct a as [| i|i u| | | |]; try contradiction; cbn [latex]; unfold latex_var, latex_fun;
    cbn [customize t_vars t_funs find_var find_fun]; rewrite ?N.eqb_refl; apply K.
Qed.

(** Added processors. *)
Lemma history_users : forall {T : Type} (h : list (expr T * string)) t, t_users (history t h) = t_users t.
Proof.
  intros T. induction h as [|[b s] h IH]; intros t; [reflexivity|].
  unfold history in *. cbn [fold_left fst snd]. rewrite IH. destruct b; reflexivity.
Qed.

Lemma history_symbols : forall {T : Type} (h : list (expr T * string)) t t',
  t_vars t = t_vars t' -> t_funs t = t_funs t' ->
  t_vars (history t h) = t_vars (history t' h) /\ t_funs (history t h) = t_funs (history t' h).
Proof.
  intros T. induction h as [|[b s] h IH]; intros t t' V F; [auto|].
  unfold history in *. cbn [fold_left fst snd].
  apply IH; destruct b; cbn [customize t_vars t_funs]; congruence.
Qed.

Lemma history_not_empty : forall {T : Type} (h : list (expr T * string)) t,
  (forall b s, In (b, s) h -> s <> "") ->
  ((forall i, find_var (t_vars t) i <> Some "") -> forall i, find_var (t_vars (history t h)) i <> Some "") /\
  ((forall i u, find_fun (t_funs t) i u <> Some "") -> forall i u, find_fun (t_funs (history t h)) i u <> Some "").
Proof.
  intros T. induction h as [|[b s] h IH]; intros t N; [auto|].
  unfold history in *. cbn [fold_left fst snd].
  assert (S : s <> "") by (apply (N b s); left; reflexivity).
  destruct (IH (customize t b s)) as [I1 I2]; [intros b' s' H; apply (N b' s'); right; exact H|].
  split; intros K; [apply I1|apply I2]; destruct b; auto; cbn [customize t_vars t_funs find_var find_fun].
  - intros j. destruct (N.eqb id j); [congruence|apply K].
  - intros j w. destruct (N.eqb id j && N.eqb tag w); [congruence|apply K].
Qed.

Lemma known : forall {T : Type} (t t' : translator T) p q e f s, s <> "" -> or_unknown t p e s = or_unknown t' q f s.
Proof. intros T t t' p q e f s N. destruct s; [destruct N; reflexivity|reflexivity]. Qed.

Lemma users_last : forall {T : Type} (pr : T -> string) (t t' : translator T) (e : expr T) par,
  t_vars t = t_vars t' -> t_funs t = t_funs t' ->
  (forall i, find_var (t_vars t) i <> Some "") -> (forall i u, find_fun (t_funs t) i u <> Some "") ->
  (forall es, ~ subterm (EVec es) e) -> latex pr t par e = latex pr t' par e.
Proof.
  intros T pr t t' e par V F NV NF N.
  assert (KV : forall i p, latex pr t p (EVar i) = latex pr t' p (EVar i)).
  { intros i p. cbn [latex]. unfold latex_var. rewrite <- V. apply known.
    specialize (NV i). destruct (find_var (t_vars t) i); [congruence|discriminate]. }
  assert (KF : forall i u p, latex pr t p (EFun i u) = latex pr t' p (EFun i u)).
  { intros i u p. cbn [latex]. unfold latex_fun. rewrite <- F. apply known.
    specialize (NF i u). destruct (find_fun (t_funs t) i u); [congruence|destruct (N.eqb u 1); discriminate]. }
  revert par. cbn [latex] in KV, KF.
  induction e as [d|i|i u|op a IH|lo hi w a IH1 IH2 IH|op l r IHl IHr|es IH] using expr_ind'; intros par.
  - reflexivity.
  - apply KV.
  - apply KF.
  - assert (K : forall p, latex pr t p a = latex pr t' p a).
    { apply IH. intros es H. apply (N es). apply sub_un. exact H. }
    destruct op; cbn [latex]; rewrite ?K, ?KV; reflexivity.
  - cbn [latex]. rewrite IH1, IH2, IH, KV; [reflexivity|..]; intros es H; apply (N es);
      [apply sub_body|apply sub_hi|apply sub_lo]; exact H.
  - assert (Kl : forall p, latex pr t p l = latex pr t' p l).
    { apply IHl. intros es H. apply (N es). apply sub_l. exact H. }
    assert (Kr : forall p, latex pr t p r = latex pr t' p r).
    { apply IHr. intros es H. apply (N es). apply sub_r. exact H. }
    destruct op; cbn [latex]; rewrite ?Kl, ?Kr; reflexivity.
  - destruct (N es (sub_refl _)).
Qed.

Lemma ask_first : forall {T : Type} before u after par (e : expr T),
  (forall w, In w before -> w par e = "") -> u par e <> "" -> ask (before ++ u :: after) par e = u par e.
Proof.
  intros T before u after par e B N. induction before as [|w before IH]; cbn [List.app ask].
  - destruct (u par e); [destruct N; reflexivity|reflexivity].
  - rewrite (B w) by (left; reflexivity). apply IH. intros x H. apply B. right. exact H.
Qed.

Lemma added : forall {T : Type} (us : list (bool -> expr T -> string)),
  fold_left add_processor us fresh = mk_translator [] [] us.
Proof.
  intros T us. change us with (([] ++ us)%list) at 2. unfold fresh.
  generalize (@nil (bool -> expr T -> string)). induction us as [|u us IH]; intros l; cbn [fold_left].
  - rewrite List.app_nil_r. reflexivity.
  - change (add_processor (mk_translator [] [] l) u) with (@mk_translator T [] [] (l ++ [u])%list).
    rewrite IH, <- List.app_assoc. reflexivity.
Qed.
