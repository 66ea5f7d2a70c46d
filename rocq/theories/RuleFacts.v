(** Facts about quadrature with rules that have a state (proofs only). *)
From Coq Require Import ZArith NArith Reals List Bool Lra Lia Sorting.Permutation.
From Verif Require Import Outcome Num NumR RtModel RtSpec RtFacts QuadModel StatefulModel RuleModel RuleSpec.
Import ListNotations.

Section Facts.
Context (n : num).
Notation rcall := (rcall n).

Definition bad (o : outcome n) : Prop := match o with Ok _ => False | _ => True end.
Definition pm (op : bop) (x y : n) : n := match op with BPlus => n_add n x y | _ => n_sub n x y end.
Definition splits (op : bop) (l r : expr n) : Prop :=
  (op = BPlus \/ op = BMinus) /\
  forall rule, quadrature n rule (EBin op l r) = both (quadrature n rule l) (quadrature n rule r) (fun x y => Ok (pm op x y)).

Inductive qrun : expr n -> list rcall -> outcome n -> Prop :=
| q_int : forall lo hi var a o, qrun (EInt lo hi var a) [((lo, hi, var, a), o)] o
| q_zero : forall e, is_constant n e = true -> (forall rule, quadrature n rule e = Ok (c0 n)) -> qrun e [] (Ok (c0 n))
| q_bad : forall e o, bad o -> (forall rule x, quadrature n rule e <> Ok x) -> qrun e [] o
| q_lr : forall op l r la lb x o, splits op l r -> qrun l la (Ok x) -> qrun r lb o -> qrun (EBin op l r) (la ++ lb) (omap (pm op x) o)
| q_rl : forall op l r la lb y o, splits op l r -> qrun r lb (Ok y) -> qrun l la o -> qrun (EBin op l r) (lb ++ la) (omap (fun x => pm op x y) o)
| q_l : forall op l r la o, splits op l r -> qrun l la o -> bad o -> qrun (EBin op l r) la o
| q_r : forall op l r lb o, splits op l r -> qrun r lb o -> bad o -> qrun (EBin op l r) lb o.

Section Run.
Context (S : Type) (order : expr n -> S -> bool) (rule : expr n -> expr n -> N -> expr n -> S -> outcome n * S).
Notation sq := (squadrature n S order rule).
Notation sq' := (squadrature n (S * list rcall) (order_of order) (logged rule)).

Definition runs_as (e : expr n) (f : S -> outcome n * S) (f' : S * list rcall -> outcome n * (S * list rcall)) : Prop :=
  forall s l0, exists l, qrun e l (fst (f s)) /\ f' (s, l0) = (fst (f s), (snd (f s), l0 ++ l)).

Lemma two_runs : forall op l r b, splits op l r -> runs_as l (sq l) (sq' l) -> runs_as r (sq r) (sq' r) ->
  runs_as (EBin op l r) (two n S b (sq l) (sq r) (pm op)) (two n (S * list rcall) b (sq' l) (sq' r) (pm op)).
Proof.
  intros op l r b Sp IHl IHr s l0. unfold two. destruct b.
  - destruct (IHl s l0) as [la [Ra Ea]]. rewrite Ea. destruct (sq l s) as [[x|z|] s1]; cbn [fst snd andthen] in *.
    + destruct (IHr s1 (l0 ++ la)) as [lb [Rb Eb]]. rewrite Eb. exists (la ++ lb). rewrite app_assoc.
      pose proof (q_lr op l r _ _ _ _ Sp Ra Rb) as Q. destruct (sq r s1) as [[y|z|] s2]; (split; [exact Q|reflexivity]).
    + exists la. split; [now apply q_l|reflexivity].
    + exists la. split; [now apply q_l|reflexivity].
  - destruct (IHr s l0) as [lb [Rb Eb]]. rewrite Eb. destruct (sq r s) as [[y|z|] s1]; cbn [fst snd andthen] in *.
    + destruct (IHl s1 (l0 ++ lb)) as [la [Ra Ea]]. rewrite Ea. exists (lb ++ la). rewrite app_assoc.
      pose proof (q_rl op l r _ _ _ _ Sp Rb Ra) as Q. destruct (sq l s1) as [[x|z|] s2]; (split; [exact Q|reflexivity]).
    + exists lb. split; [now apply q_r|reflexivity].
    + exists lb. split; [now apply q_r|reflexivity].
Qed.

Lemma none_runs : forall e (o : outcome n), qrun e [] o -> runs_as e (fun s => (o, s)) (fun s => (o, s)).
Proof. intros e o Q s l0. exists []. rewrite app_nil_r. split; [exact Q|reflexivity]. Qed.

Lemma rest_runs : forall e (f : S -> outcome n * S) f' (g : quad_rule n -> outcome n),
  (forall s, sq e s = if is_constant n e then andthen S (eval_scalar n e (c0 n), s) (fun x _ =>
     if n_le n x (c0 n) && n_ge n x (c0 n) then (Ok (c0 n), s) else f s) else f s) ->
  (forall s, sq' e s = if is_constant n e then andthen _ (eval_scalar n e (c0 n), s) (fun x _ =>
     if n_le n x (c0 n) && n_ge n x (c0 n) then (Ok (c0 n), s) else f' s) else f' s) ->
  (forall q, quadrature n q e = if is_constant n e then bind (eval_scalar n e (c0 n)) (fun x =>
     if n_le n x (c0 n) && n_ge n x (c0 n) then Ok (c0 n) else g q) else g q) ->
  ((forall q, quadrature n q e = g q) -> runs_as e f f') -> runs_as e (sq e) (sq' e).
Proof.
  intros e f f' g E E' Q R s l0. rewrite E, E'. destruct (is_constant n e) eqn:C; [|exact (R Q s l0)].
  destruct (eval_scalar n e (c0 n)) as [x|z|]; cbn [andthen bind] in *.
  - destruct (n_le n x (c0 n) && n_ge n x (c0 n)); [|exact (R Q s l0)]. exists []. rewrite app_nil_r. split; [now apply q_zero|reflexivity].
  - exists []. rewrite app_nil_r. split; [|reflexivity]. apply q_bad; [exact I|]. intros q x. rewrite Q. discriminate.
  - exists []. rewrite app_nil_r. split; [|reflexivity]. apply q_bad; [exact I|]. intros q x. rewrite Q. discriminate.
Qed.

Lemma sq_runs : forall e, runs_as e (sq e) (sq' e).
Proof.
  assert (RJ : forall e, (forall q, quadrature n q e = Throw IntegrationWithoutIntegral) ->
    runs_as e (fun s => (Throw IntegrationWithoutIntegral, s)) (fun s => (Throw IntegrationWithoutIntegral, s))).
  { intros e Q. apply none_runs. apply q_bad; [exact I|]. intros q x. rewrite Q. discriminate. }
  induction e as [c|i|i t|op a IH|lo hi w a _ _ IH|op l r IHl IHr|es _] using expr_ind'.
  - apply (rest_runs (EConst c) (fun s => (Throw IntegrationWithoutIntegral, s)) (fun s => (Throw IntegrationWithoutIntegral, s))
      (fun _ => Throw IntegrationWithoutIntegral)); auto; reflexivity.
  - apply (rest_runs (EVar i) (fun s => (Throw IntegrationWithoutIntegral, s)) (fun s => (Throw IntegrationWithoutIntegral, s))
      (fun _ => Throw IntegrationWithoutIntegral)); auto; reflexivity.
  - apply (rest_runs (EFun i t) (fun s => (Throw IntegrationWithoutIntegral, s)) (fun s => (Throw IntegrationWithoutIntegral, s))
      (fun _ => Throw IntegrationWithoutIntegral)); auto; reflexivity.
  - intros s l0. exists []. rewrite app_nil_r. destruct op; (split; [apply q_bad; [exact I|intros q x; discriminate]|reflexivity]).
  - intros s l0. cbn [squadrature]. unfold logged. cbn [fst snd]. destruct (rule lo hi w a s) as [o s']. eexists. split; [apply q_int|reflexivity].
  - destruct op;
      try (eapply rest_runs with (f := fun s => (Throw IntegrationWithoutIntegral, s)) (f' := fun s => (Throw IntegrationWithoutIntegral, s))
        (g := fun _ => Throw IntegrationWithoutIntegral); [intros; reflexivity|intros; reflexivity|intros; reflexivity|apply RJ]).
    + apply (rest_runs (EBin BPlus l r) (fun s => two n S (order (EBin BPlus l r) s) (sq l) (sq r) (n_add n) s)
        (fun s => two n _ (order_of order (EBin BPlus l r) s) (sq' l) (sq' r) (n_add n) s)
        (fun q => both (quadrature n q l) (quadrature n q r) (fun x y => Ok (n_add n x y)))); try (intros; reflexivity).
      intros Q s l0. exact (two_runs BPlus l r (order (EBin BPlus l r) s) (conj (or_introl eq_refl) Q) IHl IHr s l0).
    + apply (rest_runs (EBin BMinus l r) (fun s => two n S (order (EBin BMinus l r) s) (sq l) (sq r) (n_sub n) s)
        (fun s => two n _ (order_of order (EBin BMinus l r) s) (sq' l) (sq' r) (n_sub n) s)
        (fun q => both (quadrature n q l) (quadrature n q r) (fun x y => Ok (n_sub n x y)))); try (intros; reflexivity).
      intros Q s l0. exact (two_runs BMinus l r (order (EBin BMinus l r) s) (conj (or_intror eq_refl) Q) IHl IHr s l0).
  - apply (rest_runs (EVec es) (fun s => (Throw IntegrationWithoutIntegral, s)) (fun s => (Throw IntegrationWithoutIntegral, s))
      (fun _ => Throw IntegrationWithoutIntegral)); auto; reflexivity.
Qed.
End Run.

(** ** Which calls *)
Lemma terms_flip : forall e b, map snd (signed_terms b e) = map snd (signed_terms (negb b) e) :> list (iterm n).
Proof.
  induction e as [c|i|i t|op a IH|lo hi w a _ _ IH|op l r IHl IHr|es _] using expr_ind'; intros b; try reflexivity.
  destruct op; cbn [signed_terms]; try reflexivity; rewrite !map_app.
  - now rewrite (IHl b), (IHr b).
  - now rewrite (IHl b), (IHr (negb b)).
Qed.
Lemma terms_split : forall op l r, op = BPlus \/ op = BMinus -> iterms (EBin op l r) = (iterms l ++ iterms r : list (iterm n)).
Proof.
  intros op l r [->| ->]; unfold iterms; cbn [signed_terms]; rewrite map_app; [reflexivity|]. f_equal. symmetry. apply (terms_flip r true).
Qed.
Lemma terms_const : forall e b, is_constant n e = true -> signed_terms b e = ([] : list (bool * iterm n)).
Proof.
  induction e as [c|i|i t|op a IH|lo hi w a _ _ IH|op l r IHl IHr|es _] using expr_ind'; intros b C; try reflexivity; try discriminate.
  cbn in C. apply andb_prop in C as [Cl Cr]. destruct op; cbn; try reflexivity; now rewrite IHl, IHr.
Qed.

Lemma qrun_terms : forall e l o, qrun e l o ->
  exists rest, Permutation (map fst l ++ rest) (iterms e) /\ match o with Ok _ => rest = [] | _ => True end.
Proof.
  intros e l o Q. induction Q as [lo hi var a o|e C Z|e o B N|op l r la lb x o Sp Ql IHl Qr IHr|op l r la lb y o Sp Qr IHr Ql IHl|op l r la o Sp Q IH B|op l r lb o Sp Q IH B].
  - exists []. split; [apply Permutation_refl|]. now destruct o.
  - exists []. split; [|reflexivity]. unfold iterms. rewrite terms_const by exact C. constructor.
  - exists (iterms e). split; [apply Permutation_refl|]. now destruct o.
  - destruct IHl as [ra [Pa ->]]. destruct IHr as [rb [Pb Rb]]. exists rb. rewrite app_nil_r in Pa. split.
    + rewrite (terms_split op l r (proj1 Sp)), map_app, <- app_assoc. now apply Permutation_app.
    + destruct o; exact Rb.
  - destruct IHr as [rb [Pb ->]]. destruct IHl as [ra [Pa Ra]]. exists ra. rewrite app_nil_r in Pb. split.
    + rewrite (terms_split op l r (proj1 Sp)), map_app, <- app_assoc. etransitivity; [apply Permutation_app; eassumption|]. apply Permutation_app_comm.
    + destruct o; exact Ra.
  - destruct IH as [ra [Pa _]]. exists (ra ++ iterms r). split; [|now destruct o].
    rewrite (terms_split op l r (proj1 Sp)), app_assoc. now apply Permutation_app_tail.
  - destruct IH as [rb [Pb _]]. exists (rb ++ iterms l). split; [|now destruct o].
    rewrite (terms_split op l r (proj1 Sp)), app_assoc. etransitivity; [apply Permutation_app_tail; exact Pb|]. apply Permutation_app_comm.
Qed.

Lemma qrun_returned : forall e l o, qrun e l o ->
  match o with
  | Ok _ => Forall rreturned l
  | _ => (exists l1 t, l = l1 ++ [(t, o)] /\ Forall rreturned l1) \/ (Forall rreturned l /\ forall rule x, quadrature n rule e <> Ok x)
  end.
Proof.
  assert (NB : forall op l r, splits op l r -> (forall rule x, quadrature n rule l <> Ok x) \/ (forall rule x, quadrature n rule r <> Ok x) ->
    forall rule x, quadrature n rule (EBin op l r) <> Ok x).
  { intros op l r [_ Sp] H rule x E. rewrite Sp in E.
    destruct (quadrature n rule l) as [u|u|] eqn:El; destruct (quadrature n rule r) as [w|w|] eqn:Er; cbn in E; try discriminate E.
    destruct H as [H|H]; [exact (H rule u El)|exact (H rule w Er)]. }
  intros e l o Q. induction Q as [lo hi var a o|e C Z|e o B N|op l r la lb x o Sp Ql IHl Qr IHr|op l r la lb y o Sp Qr IHr Ql IHl|op l r la o Sp Q IH B|op l r lb o Sp Q IH B].
  - destruct o; [constructor; [eexists; reflexivity|constructor]| |]; left; exists []; eexists; (split; [reflexivity|constructor]).
  - constructor.
  - destruct o; [contradiction| |]; right; (split; [constructor|exact N]).
  - destruct o as [z|z|]; cbn [omap bind]; [now apply Forall_app| |]; (destruct IHr as [[l1 [t [-> F]]]|[F N]];
      [left; exists (la ++ l1), t; rewrite app_assoc; split; [reflexivity|now apply Forall_app]
      |right; split; [now apply Forall_app|apply NB; auto]]).
  - destruct o as [z|z|]; cbn [omap bind]; [now apply Forall_app| |]; (destruct IHl as [[l1 [t [-> F]]]|[F N]];
      [left; exists (lb ++ l1), t; rewrite app_assoc; split; [reflexivity|now apply Forall_app]
      |right; split; [now apply Forall_app|apply NB; auto]]).
  - destruct o; [contradiction| |]; (destruct IH as [IH|[F N]]; [now left|right; split; [exact F|apply NB; auto]]).
  - destruct o; [contradiction| |]; (destruct IH as [IH|[F N]]; [now left|right; split; [exact F|apply NB; auto]]).
Qed.

(** ** Rules without state *)
Lemma qrun_pure : forall (q : quad_rule n) e l o, qrun e l o -> (forall lo hi var a r, In ((lo, hi, var, a), r) l -> r = q lo hi var a) ->
  match o with Ok x => quadrature n q e = Ok x | _ => forall x, quadrature n q e <> Ok x end.
Proof.
  intros q e l o Q. induction Q as [lo hi var a o|e C Z|e o B N|op l r la lb x o Sp Ql IHl Qr IHr|op l r la lb y o Sp Qr IHr Ql IHl|op l r la o Sp Q IH B|op l r lb o Sp Q IH B]; intros H.
  - cbn [quadrature]. rewrite <- (H lo hi var a o (or_introl eq_refl)). destruct o; [reflexivity| |]; discriminate.
  - apply Z.
  - destruct o; [contradiction| |]; apply N.
  - assert (Hl := IHl (fun lo hi var a r' I => H lo hi var a r' (in_or_app _ _ _ (or_introl I)))).
    assert (Hr := IHr (fun lo hi var a r' I => H lo hi var a r' (in_or_app _ _ _ (or_intror I)))). cbn in Hl.
    destruct o as [z|z|]; cbn [omap bind].
    + rewrite (proj2 Sp), Hl, Hr. reflexivity.
    + intros w E. rewrite (proj2 Sp), Hl in E. destruct (quadrature n q r) as [u|u|]; try discriminate E. now apply (Hr u).
    + intros w E. rewrite (proj2 Sp), Hl in E. destruct (quadrature n q r) as [u|u|]; try discriminate E. now apply (Hr u).
  - assert (Hr := IHr (fun lo hi var a r' I => H lo hi var a r' (in_or_app _ _ _ (or_introl I)))).
    assert (Hl := IHl (fun lo hi var a r' I => H lo hi var a r' (in_or_app _ _ _ (or_intror I)))). cbn in Hr.
    destruct o as [z|z|]; cbn [omap bind].
    + rewrite (proj2 Sp), Hl, Hr. reflexivity.
    + intros w E. rewrite (proj2 Sp), Hr in E. destruct (quadrature n q l) as [u|u|]; try discriminate E. now apply (Hl u).
    + intros w E. rewrite (proj2 Sp), Hr in E. destruct (quadrature n q l) as [u|u|]; try discriminate E. now apply (Hl u).
  - specialize (IH H). destruct o; [contradiction| |]; intros w E; rewrite (proj2 Sp) in E;
      (destruct (quadrature n q l) as [u|u|]; [now apply (IH u)| |]; destruct (quadrature n q r); discriminate E).
  - specialize (IH H). destruct o; [contradiction| |]; intros w E; rewrite (proj2 Sp) in E;
      (destruct (quadrature n q r) as [u|u|]; [now apply (IH u)| |]; destruct (quadrature n q l); discriminate E).
Qed.
End Facts.

(** The calls recorded are those of the rule. *)
Lemma qrun_answers : forall (n : num) (S : Type) (order : expr n -> S -> bool) (rule : expr n -> expr n -> N -> expr n -> S -> outcome n * S) (q : quad_rule n),
  (forall lo hi var a s, fst (rule lo hi var a s) = q lo hi var a) ->
  forall e s l0 o s' l, (forall lo hi var a r, In ((lo, hi, var, a), r) l0 -> r = q lo hi var a) ->
    squadrature n (S * list (rcall n)) (order_of order) (logged rule) e (s, l0) = (o, (s', l)) ->
    forall lo hi var a r, In ((lo, hi, var, a), r) l -> r = q lo hi var a.
Proof.
  intros n S order rule q Hq.
  pose (good := fun (st : S * list (rcall n)) => forall lo hi var a r, In ((lo, hi, var, a), r) (snd st) -> r = q lo hi var a).
  assert (G : forall e st, good st -> good (snd (squadrature n (S * list (rcall n)) (order_of order) (logged rule) e st))).
  { assert (TW : forall b f g k, (forall st, good st -> good (snd (f st))) -> (forall st, good st -> good (snd (g st))) ->
      forall st, good st -> good (snd (two n (S * list (rcall n)) b f g k st))).
    { intros b f g k Hf Hg st H. unfold two. destruct b.
      - pose proof (Hf st H) as H1. destruct (f st) as [[x|x|] s1]; cbn in *; auto. pose proof (Hg s1 H1) as H2.
        destruct (g s1) as [[y|y|] s2]; cbn in *; auto.
      - pose proof (Hg st H) as H1. destruct (g st) as [[x|x|] s1]; cbn in *; auto. pose proof (Hf s1 H1) as H2.
        destruct (f s1) as [[y|y|] s2]; cbn in *; auto. }
    induction e as [c|i|i t|op a IH|lo hi w a _ _ IH|op l r IHl IHr|es _] using expr_ind'; intros st H; cbn [squadrature].
    - cbn. destruct (n_le n c (c0 n) && n_ge n c (c0 n)); exact H.
    - exact H.
    - exact H.
    - destruct op; exact H.
    - unfold logged. destruct (rule lo hi w a (fst st)) as [o s'] eqn:E. cbn. intros lo' hi' var' a' r I. cbn in I.
      apply in_app_or in I as [I|[I|[]]]; [now apply (H lo' hi' var' a' r)|]. inversion I; subst. rewrite <- (Hq lo' hi' var' a' (fst st)), E. reflexivity.
    - destruct (is_constant n (EBin op l r)).
      + destruct (eval_scalar n (EBin op l r) (c0 n)) as [x|x|]; cbn [andthen]; try exact H.
        destruct (n_le n x (c0 n) && n_ge n x (c0 n)); [exact H|]. destruct op; try exact H; now apply TW.
      + destruct op; try exact H; now apply TW.
    - exact H. }
  intros e s l0 o s' l H E lo hi var a r I. pose proof (G e (s, l0) H) as K. rewrite E in K. exact (K lo hi var a r I).
Qed.

(** ** Values *)
Lemma signed_sum_app : forall sa xa sb xb, length sa = length xa -> signed_sum (sa ++ sb) (xa ++ xb) = (signed_sum sa xa + signed_sum sb xb)%R.
Proof.
  induction sa as [|b sa IH]; intros [|x xa] sb xb H; try discriminate; cbn; [lra|]. injection H as H. rewrite (IH xa sb xb H). lra.
Qed.
Lemma signs_flip : forall (e : expr numR) b, map fst (signed_terms (n := numR) (negb b) e) = map negb (map fst (signed_terms b e)).
Proof.
  induction e as [c|i|i t|op a IH|lo hi w a _ _ IH|op l r IHl IHr|es _] using expr_ind'; intros b; try reflexivity.
  destruct op; cbn [signed_terms]; try reflexivity; rewrite !map_app, IHl, IHr; reflexivity.
Qed.
Lemma sum_flip : forall s xs, signed_sum (map negb s) xs = (- signed_sum s xs)%R.
Proof. induction s as [|b s IH]; intros [|x xs]; cbn; try lra. rewrite IH. destruct b; cbn; lra. Qed.

Lemma combine_app : forall A B (a a' : list A) (b b' : list B), length a = length b -> combine (a ++ a') (b ++ b') = combine a b ++ combine a' b'.
Proof. induction a as [|x a IH]; intros a' [|y b] b' H; try discriminate; cbn; [reflexivity|]. injection H as H. now rewrite IH. Qed.

Definition num_of (x : R) : outcome numR := Ok (Some x).

Lemma qrun_value : forall (e : expr numR) l o, qrun numR e l o -> forall x, o = Ok (Some x) ->
  exists ys, length ys = length (signed_terms (n := numR) true e) /\
    Permutation l (combine (iterms e) (map num_of ys)) /\ x = signed_sum (map fst (signed_terms (n := numR) true e)) ys.
Proof.
  intros e l o Q. induction Q as [lo hi var a o|e C Z|e o B N|op l r la lb x o Sp Ql IHl Qr IHr|op l r la lb y o Sp Qr IHr Ql IHl|op l r la o Sp Q IH B|op l r lb o Sp Q IH B]; intros z E.
  - subst o. exists [z]. split; [reflexivity|]. split; [apply Permutation_refl|]. cbn. lra.
  - exists []. unfold iterms. rewrite (terms_const numR e true C). split; [reflexivity|]. split; [constructor|]. cbn in *. injection E as <-. reflexivity.
  - subst o. contradiction.
  - destruct o as [w|w|]; try discriminate E. cbn [omap bind] in E.
    assert (K : exists u v, x = Some u /\ w = Some v /\ z = (if (match op with BPlus => true | _ => false end) then u + v else u - v)%R).
    { destruct (proj1 Sp) as [->| ->]; cbn in E; destruct x as [u|], w as [v|]; cbn in E; try discriminate E; injection E as <-; eauto. }
    destruct K as [u [v [-> [-> ->]]]]. destruct (IHl u eq_refl) as [ya [La [Pa Va]]]. destruct (IHr v eq_refl) as [yb [Lb [Pb Vb]]].
    exists (ya ++ yb). rewrite (terms_split numR op l r (proj1 Sp)).
    assert (LL : length (iterms l) = length (map num_of ya)) by (unfold iterms; now rewrite !map_length).
    assert (LR : length (signed_terms (n := numR) false r) = length (signed_terms (n := numR) true r)).
    { pose proof (f_equal (@length _) (signs_flip r true)) as F. now rewrite !map_length in F. }
    rewrite map_app, combine_app by exact LL.
    destruct (proj1 Sp) as [->| ->]; cbn [signed_terms negb]; rewrite !app_length, map_app, signed_sum_app by (now rewrite map_length);
      (split; [lia|]); (split; [now apply Permutation_app|]).
    + now rewrite <- Va, <- Vb.
    + change false with (negb true). rewrite signs_flip, sum_flip, <- Va, <- Vb. reflexivity.
  - destruct o as [w|w|]; try discriminate E. cbn [omap bind] in E.
    assert (K : exists u v, w = Some u /\ y = Some v /\ z = (if (match op with BPlus => true | _ => false end) then u + v else u - v)%R).
    { destruct (proj1 Sp) as [->| ->]; cbn in E; destruct w as [u|], y as [v|]; cbn in E; try discriminate E; injection E as <-; eauto. }
    destruct K as [u [v [-> [-> ->]]]]. destruct (IHl u eq_refl) as [ya [La [Pa Va]]]. destruct (IHr v eq_refl) as [yb [Lb [Pb Vb]]].
    exists (ya ++ yb). rewrite (terms_split numR op l r (proj1 Sp)).
    assert (LL : length (iterms l) = length (map num_of ya)) by (unfold iterms; now rewrite !map_length).
    assert (LR : length (signed_terms (n := numR) false r) = length (signed_terms (n := numR) true r)).
    { pose proof (f_equal (@length _) (signs_flip r true)) as F. now rewrite !map_length in F. }
    assert (PP : Permutation (lb ++ la) (combine (iterms l) (map num_of ya) ++ combine (iterms r) (map num_of yb))).
    { etransitivity; [apply Permutation_app_comm|]. now apply Permutation_app. }
    rewrite map_app, combine_app by exact LL.
    destruct (proj1 Sp) as [->| ->]; cbn [signed_terms negb]; rewrite !app_length, map_app, signed_sum_app by (now rewrite map_length);
      (split; [lia|]); (split; [exact PP|]).
    + now rewrite <- Va, <- Vb.
    + change false with (negb true). rewrite signs_flip, sum_flip, <- Va, <- Vb. reflexivity.
  - subst o. contradiction.
  - subst o. contradiction.
Qed.

Section Undefined.
Context (n : num) (S : Type) (rule : expr n -> expr n -> N -> expr n -> S -> outcome n * S) (q : quad_rule n).
Context (Hq : forall lo hi var a t, fst (rule lo hi var a t) = q lo hi var a).

Lemma two_ub : forall b f g k s, fst (two n S b f g k s) = UB -> (exists t, fst (f t) = UB) \/ (exists t, fst (g t) = UB).
Proof.
  intros b f g k s. unfold two. destruct b.
  - destruct (f s) as [[x|x|] t] eqn:F; cbn [andthen fst]; try discriminate.
    + destruct (g t) as [[y|y|] t'] eqn:G; cbn [andthen fst]; try discriminate. intros _. right. exists t. now rewrite G.
    + intros _. left. exists s. now rewrite F.
  - destruct (g s) as [[x|x|] t] eqn:F; cbn [andthen fst]; try discriminate.
    + destruct (f t) as [[y|y|] t'] eqn:G; cbn [andthen fst]; try discriminate. intros _. left. exists t. now rewrite G.
    + intros _. right. exists s. now rewrite F.
Qed.

Lemma both_ub : forall (a b : outcome n) (k : n -> n -> n), both a b (fun x y => Ok (k x y)) = UB <-> a = UB \/ b = UB.
Proof. intros [x|x|] [y|y|] k; cbn; split; intros H; try discriminate; auto; destruct H; discriminate. Qed.

Lemma sq_ub : forall order e s, fst (squadrature n S order rule e s) = UB -> quadrature n q e = UB.
Proof.
  intros order e. induction e using expr_ind'; intros s H'; cbn [squadrature quadrature] in *; try exact H'.
  all: try (destruct (is_constant n _); [|exact H']; destruct (eval_scalar n _ _) as [x|x|]; cbn [andthen bind fst] in *; [|exact H'|reflexivity]; destruct (_ && _); exact H').
  - destruct op; try discriminate H'; exact H'.
  - rewrite <- (Hq e1 e2 v e3 s). exact H'.
  - assert (K : forall k, fst (two n S (order (EBin op e1 e2) s) (squadrature n S order rule e1) (squadrature n S order rule e2) k s) = UB ->
      both (quadrature n q e1) (quadrature n q e2) (fun x y => Ok (k x y)) = UB).
    { intros k T. apply both_ub. destruct (two_ub _ _ _ _ _ T) as [[t U]|[t U]]; [left; exact (IHe1 t U)|right; exact (IHe2 t U)]. }
    destruct (is_constant n (EBin op e1 e2)).
    + destruct (eval_scalar n (EBin op e1 e2) (c0 n)) as [x|x|]; cbn [andthen bind fst] in *; [|exact H'|reflexivity].
      destruct (_ && _); [exact H'|]. destruct op; try exact H'; exact (K _ H').
    + destruct op; try exact H'; exact (K _ H').
Qed.

Definition ub_first (e : expr n) (s : S) : bool :=
  match e with EBin _ l _ => match quadrature n q l with UB => true | _ => false end | _ => true end.

Lemma ub_sq : forall e s, quadrature n q e = UB -> fst (squadrature n S ub_first rule e s) = UB.
Proof.
  intros e. induction e using expr_ind'; intros s H'; cbn [squadrature quadrature] in *; try exact H'.
  all: try (destruct (is_constant n _); [|exact H']; destruct (eval_scalar n _ _) as [x|x|]; cbn [andthen bind fst] in *; [|exact H'|reflexivity]; destruct (_ && _); exact H').
  - destruct op; try discriminate H'; exact H'.
  - rewrite (Hq e1 e2 v e3 s). exact H'.
  - assert (K : forall k, both (quadrature n q e1) (quadrature n q e2) (fun x y => Ok (k x y)) = UB ->
      fst (two n S (ub_first (EBin op e1 e2) s) (squadrature n S ub_first rule e1) (squadrature n S ub_first rule e2) k s) = UB).
    { intros k T. apply both_ub in T. unfold two. cbn [ub_first]. destruct (quadrature n q e1) as [x|x|] eqn:Q1.
      - destruct T as [T|T]; [discriminate T|]. specialize (IHe2 s T). destruct (squadrature n S ub_first rule e2 s) as [o t]. cbn in IHe2. rewrite IHe2. reflexivity.
      - destruct T as [T|T]; [discriminate T|]. specialize (IHe2 s T). destruct (squadrature n S ub_first rule e2 s) as [o t]. cbn in IHe2. rewrite IHe2. reflexivity.
      - specialize (IHe1 s eq_refl). destruct (squadrature n S ub_first rule e1 s) as [o t]. cbn in IHe1. rewrite IHe1. reflexivity. }
    destruct (is_constant n (EBin op e1 e2)).
    + destruct (eval_scalar n (EBin op e1 e2) (c0 n)) as [x|x|]; cbn [andthen bind fst] in *; [|exact H'|reflexivity].
      destruct (_ && _); [exact H'|]. destruct op; try exact H'; exact (K _ H').
    + destruct op; try exact H'; exact (K _ H').
Qed.
End Undefined.
