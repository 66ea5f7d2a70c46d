(** Facts about traversal and manipulation with functors of the user (proofs only). *)
From Coq Require Import ZArith NArith List Bool Arith Lia Sorting.Sorted.
From Verif Require Import Outcome Num RtModel RtSpec RtFacts RtVisit HeapModel HeapSpec HeapFacts HeapRead HeapRun HeapOps
  VisitorModel VisitorSpec.
Import ListNotations.

(** ** Traversal *)
Section Traversal.
Context (n : num) (S : Type).
Context (step : list dir -> expr n -> S -> outcome bool * S).
Context (visit : list dir -> expr n -> S -> outcome unit * S).
Notation step' := (recorded Asked step).
Notation visit' := (recorded Called visit).
Notation walk' := (walk n (S * list call) step' visit').

Lemma recorded_same : forall e p s l,
  let (o, s') := walk n S step visit p e s in
  exists l', walk' p e (s, l) = (o, (s', l')).
Proof.
  assert (V : forall p e s l, let (o, s') := visit p e s in
     exists l', visit' p e (s, l) = (o, (s', l'))).
  { intros p e s l. unfold recorded. cbn. destruct (visit p e s) as [o s']. eexists. reflexivity. }
  assert (U : forall e p d a, (forall q s l, let (o, s') := walk n S step visit q a s in
      exists l', walk' q a (s, l) = (o, (s', l'))) -> forall s l,
    let (o, s') := after S (visit p e) (walk n S step visit (p ++ d) a) s in
    exists l', after (S * list call) (visit' p e) (walk' (p ++ d) a) (s, l) = (o, (s', l'))).
  { intros e p d a IH s l. unfold after. specialize (V p e s l). destruct (visit p e s) as [o s'].
    destruct V as [l' V]. rewrite V. destruct o as [[]|x|]; try (eexists; reflexivity). apply IH. }
  induction e as [c|i|i t|op a IH|lo hi w a _ _ IH|op l r IHl IHr|es _] using expr_ind'; intros p s l0; cbn [walk];
    try apply V; try (apply U; exact IH).
  unfold recorded at 1. cbn [fst snd]. destruct (step p (EBin op l r) s) as [[[]|x|] s1]; try (eexists; reflexivity).
  - unfold after at 1 3. specialize (IHl (p ++ [DirL]) s1 (l0 ++ [Asked p (Ok true)])).
    destruct (walk n S step visit (p ++ [DirL]) l s1) as [o s2]. destruct IHl as [l2 E]. rewrite E.
    destruct o as [[]|x|]; try (eexists; reflexivity). apply U. exact IHr.
  - apply V.
Qed.

(** What a recorded traversal of [e], found at position [p], adds to the record. *)
Definition good (e : expr n) (p : list dir) (l : list call) (o : outcome unit) : Prop :=
  exists qs cs,
    called l = map (app p) qs /\ asked l = map (app p) cs /\
    StronglySorted before qs /\ NoDup cs /\
    (forall q, In q qs -> at_path e q <> None) /\
    (forall c, In c cs -> exists op x y, at_path e c = Some (EBin op x y)) /\
    (o = Ok tt -> Forall returned l /\
       forall q, at_path e q <> None ->
         (In q qs <-> forall c d r op x y, q = c ++ d :: r -> at_path e c = Some (EBin op x y) -> In (Asked (p ++ c) (Ok true)) l)) /\
    (o <> Ok tt -> exists l1 k, l = l1 ++ [k] /\ Forall returned l1 /\ ended k o).

Lemma called_app : forall a b, called (a ++ b) = called a ++ called b.
Proof. intros. unfold called. apply flat_map_app. Qed.
Lemma asked_app : forall a b, asked (a ++ b) = asked a ++ asked b.
Proof. intros. unfold asked. apply flat_map_app. Qed.

Lemma asked_in : forall l p o, In (Asked p o) l -> In p (asked l).
Proof. intros l p o I. apply in_flat_map. exists (Asked p o). split; [exact I|now left]. Qed.

Lemma map_app_app : forall (p : list dir) d qs, map (app (p ++ [d])) qs = map (app p) (map (cons d) qs).
Proof. intros p d qs. rewrite map_map. apply map_ext. intros a. now rewrite <- app_assoc. Qed.

Lemma unit_ok : forall o : outcome unit, {o = Ok tt} + {o <> Ok tt}.
Proof. intros [[]|x|]; [now left|right; discriminate|right; discriminate]. Qed.

Lemma nil_conditions : forall (e : expr n) (P : list dir -> Prop),
  (forall c d r op x y, [] = c ++ d :: r -> at_path e c = Some (EBin op x y) -> P c).
Proof. intros e P c d r op x y E. destruct c; discriminate. Qed.

(** One call of operator(). *)
Lemma good_visit : forall e p (o : outcome unit),
  (o = Ok tt -> (forall q, at_path e q <> None -> q = [])) -> good e p [Called p o] o.
Proof.
  intros e p o K. exists [[]], []. cbn. rewrite app_nil_r.
  split; [reflexivity|]. split; [reflexivity|]. split; [repeat constructor|]. split; [constructor|].
  split; [intros q [<-|[]]; discriminate|]. split; [intros c []|]. split.
  - intros ->. split; [repeat constructor|]. intros q A. rewrite (K eq_refl q A). split; [|now left].
    intros _. apply (nil_conditions e (fun c => In (Asked (p ++ c) (Ok true)) [Called p (Ok tt)])).
  - intros N. exists [], (Called p o). split; [reflexivity|]. split; [constructor|].
    destruct o as [[]|x|]; cbn; auto; now elim N.
Qed.

(** The first call ended the traversal: nothing else happened. *)
Lemma good_stopped : forall e p (o : outcome unit), o <> Ok tt -> good e p [Called p o] o.
Proof. intros e p o N. apply good_visit. intros E. now elim N. Qed.

Lemma good_under : forall (e a : expr n) p o l,
  (forall q, at_path e (DirU :: q) = at_path a q) ->
  (forall d q, d <> DirU -> at_path e (d :: q) = None) ->
  (forall op x y, e <> EBin op x y) ->
  good a (p ++ [DirU]) l o -> good e p (Called p (Ok tt) :: l) o.
Proof.
  intros e a p o l A B NB [qs [cs [G1 [G2 [G3 [G4 [G5 [G6 [G7 G8]]]]]]]]].
  exists ([] :: map (cons DirU) qs), (map (cons DirU) cs).
  split; [cbn [called flat_map app]; fold (called l); rewrite G1, map_app_app; cbn [map]; now rewrite app_nil_r|].
  split; [cbn [asked flat_map app]; fold (asked l); now rewrite G2, map_app_app|].
  split; [constructor; [now apply sorted_map|]; apply Forall_forall; intros q Q; apply in_map_iff in Q as [y [<- _]]; constructor|].
  split; [apply FinFun.Injective_map_NoDup; [intros u v E; now inversion E|exact G4]|].
  split; [intros q [<-|Q]; [discriminate|]; apply in_map_iff in Q as [y [<- Y]]; rewrite A; now apply G5|].
  split; [intros q Q; apply in_map_iff in Q as [y [<- Y]]; destruct (G6 y Y) as [op [u [v E]]]; exists op, u, v; now rewrite A|].
  split.
  - intros O. destruct (G7 O) as [F I]. split; [constructor; [exact Logic.I|exact F]|]. intros q Q.
    destruct q as [|d q].
    + split; [|now left]. intros _. apply (nil_conditions e (fun c => In (Asked (p ++ c) (Ok true)) (Called p (Ok tt) :: l))).
    + destruct d; try (elim Q; apply B; discriminate). rewrite A in Q. specialize (I q Q). split.
      * intros [E|H]; [discriminate|]. apply in_map_iff in H as [y [E Y]]. injection E as ->.
        intros c d r op x y E K. destruct c as [|d' c]; [cbn in K; injection K as K; elim (NB _ _ _ K)|].
        injection E as <- E. rewrite A in K. right. destruct I as [I _].
        specialize (I Y c d r op x y E K). now rewrite <- app_assoc in I.
      * intros H. right. apply in_map, I. intros c d r op x y E K.
        destruct (H (DirU :: c) d r op x y) as [X|X]; [cbn; now rewrite E|now rewrite A|discriminate|].
        now rewrite <- app_assoc.
  - intros N. destruct (G8 N) as [l1 [k [E [F K]]]]. exists (Called p (Ok tt) :: l1), k. rewrite E.
    split; [reflexivity|]. split; [constructor; [exact Logic.I|exact F]|exact K].
Qed.

Lemma under_prefix : forall (p : list dir) d c l cs o, asked l = map (app (p ++ [d])) cs ->
  In (Asked (p ++ c) o) l -> exists c', c = d :: c'.
Proof.
  intros p d c l cs o E I. apply asked_in in I. rewrite E in I. apply in_map_iff in I as [y [K _]].
  rewrite <- app_assoc in K. apply app_inv_head in K. exists y. now rewrite <- K.
Qed.

(** The left operand ended the traversal. *)
Lemma good_left : forall op x y p l o, o <> Ok tt ->
  good x (p ++ [DirL]) l o -> good (EBin op x y) p (Asked p (Ok true) :: l) o.
Proof.
  intros op x y p l o N [qs [cs [G1 [G2 [G3 [G4 [G5 [G6 [G7 G8]]]]]]]]].
  exists (map (cons DirL) qs), ([] :: map (cons DirL) cs).
  split; [cbn [called flat_map app]; fold (called l); now rewrite G1, map_app_app|].
  split; [cbn [asked flat_map app]; fold (asked l); rewrite G2, map_app_app; cbn [map]; now rewrite app_nil_r|].
  split; [now apply sorted_map|].
  split; [constructor; [intros Q; apply in_map_iff in Q as [u [E _]]; discriminate|];
    apply FinFun.Injective_map_NoDup; [intros u v E; now inversion E|exact G4]|].
  split; [intros q Q; apply in_map_iff in Q as [u [<- U]]; now apply G5|].
  split; [intros q [<-|Q]; [now exists op, x, y|]; apply in_map_iff in Q as [u [<- U]]; now apply G6|].
  split; [intros O; now elim N|]. intros _.
  destruct (G8 N) as [l1 [k [E [F K]]]]. exists (Asked p (Ok true) :: l1), k. rewrite E.
  split; [reflexivity|]. split; [constructor; [exact Logic.I|exact F]|exact K].
Qed.

(** The node itself, between its operands, ended the traversal. *)
Lemma good_middle : forall op x y p l o, o <> Ok tt ->
  good x (p ++ [DirL]) l (Ok tt) -> good (EBin op x y) p (Asked p (Ok true) :: l ++ [Called p o]) o.
Proof.
  intros op x y p l o N [qs [cs [G1 [G2 [G3 [G4 [G5 [G6 [G7 G8]]]]]]]]].
  destruct (G7 eq_refl) as [F _].
  exists (map (cons DirL) qs ++ [[]]), ([] :: map (cons DirL) cs).
  split; [cbn [called flat_map app]; fold (called (l ++ [Called p o])); rewrite called_app, G1, map_app_app, map_app; cbn; now rewrite app_nil_r|].
  split; [cbn [asked flat_map app]; fold (asked (l ++ [Called p o])); rewrite asked_app, G2, map_app_app; cbn; now rewrite !app_nil_r|].
  split; [apply sorted_app; [now apply sorted_map|repeat constructor|]; intros a b Ha [<-|[]]; apply in_map_iff in Ha as [u [<- _]]; constructor|].
  split; [constructor; [intros Q; apply in_map_iff in Q as [u [E _]]; discriminate|];
    apply FinFun.Injective_map_NoDup; [intros u v E; now inversion E|exact G4]|].
  split; [intros q Q; apply in_app_or in Q as [Q|[<-|[]]]; [|discriminate]; apply in_map_iff in Q as [u [<- U]]; now apply G5|].
  split; [intros q [<-|Q]; [now exists op, x, y|]; apply in_map_iff in Q as [u [<- U]]; now apply G6|].
  split; [intros O; now elim N|]. intros _.
  exists (Asked p (Ok true) :: l), (Called p o). split; [reflexivity|]. split; [constructor; [exact Logic.I|exact F]|].
  destruct o as [[]|z|]; cbn; auto; now elim N.
Qed.

(** Both operands were reached. *)
Lemma good_both : forall op x y p l r o,
  good x (p ++ [DirL]) l (Ok tt) -> good y (p ++ [DirR]) r o ->
  good (EBin op x y) p (Asked p (Ok true) :: l ++ Called p (Ok tt) :: r) o.
Proof.
  intros op x y p l r o [qs [cs [G1 [G2 [G3 [G4 [G5 [G6 [G7 G8]]]]]]]]] [qr [cr [R1 [R2 [R3 [R4 [R5 [R6 [R7 R8]]]]]]]]].
  destruct (G7 eq_refl) as [F IL].
  exists (map (cons DirL) qs ++ [] :: map (cons DirR) qr), ([] :: map (cons DirL) cs ++ map (cons DirR) cr).
  split.
  { cbn [called flat_map app]. fold (called (l ++ Called p (Ok tt) :: r)). rewrite called_app, G1, map_app_app, map_app.
    cbn [called flat_map app map]. fold (called r). now rewrite app_nil_r, R1, map_app_app. }
  split.
  { cbn [asked flat_map app]. fold (asked (l ++ Called p (Ok tt) :: r)). rewrite asked_app, G2, map_app_app.
    cbn [asked flat_map app map]. fold (asked r). now rewrite app_nil_r, R2, map_app_app, map_app. }
  split.
  { apply sorted_app; [now apply sorted_map| |].
    - constructor; [now apply sorted_map|]. apply Forall_forall. intros q Q. apply in_map_iff in Q as [u [<- _]]. constructor.
    - intros a b Ha Hb. apply in_map_iff in Ha as [u [<- _]]. destruct Hb as [<-|Hb]; [constructor|].
      apply in_map_iff in Hb as [v [<- _]]. constructor. }
  split.
  { constructor.
    - intros Q. apply in_app_or in Q as [Q|Q]; apply in_map_iff in Q as [u [E _]]; discriminate.
    - assert (D : forall d (zs : list (list dir)), NoDup zs -> NoDup (map (cons d) zs)).
      { intros d zs D. apply FinFun.Injective_map_NoDup; [|exact D]. intros u v E. now inversion E. }
      specialize (D DirL cs G4) as DL. specialize (D DirR cr R4). clear - DL D.
      induction (map (cons DirL) cs) as [|a zs IH] eqn:Ez in cs, DL |- *; [exact D|].
      destruct cs as [|c0 cs]; [discriminate|]. cbn in Ez. injection Ez as <- Ez. inversion DL as [|? ? NI DL']; subst.
      cbn. constructor; [|now apply (IH cs)].
      intros Q. apply in_app_or in Q as [Q|Q]; [now apply NI|]. apply in_map_iff in Q as [u [E _]]. discriminate. }
  split.
  { intros q Q. apply in_app_or in Q as [Q|[<-|Q]]; [|discriminate|]; apply in_map_iff in Q as [u [<- U]]; [now apply G5|now apply R5]. }
  split.
  { intros q [<-|Q]; [now exists op, x, y|]. apply in_app_or in Q as [Q|Q]; apply in_map_iff in Q as [u [<- U]]; [now apply G6|now apply R6]. }
  split.
  - intros O. destruct (R7 O) as [F' IR]. split.
    { constructor; [exact Logic.I|]. apply Forall_app. split; [exact F|]. constructor; [exact Logic.I|exact F']. }
    intros q Q. destruct q as [|[] q]; [|now elim Q| |].
    + split; [|intros _; apply in_or_app; right; now left]. intros _.
      apply (nil_conditions (EBin op x y) (fun c => In (Asked (p ++ c) (Ok true)) (Asked p (Ok true) :: l ++ Called p (Ok tt) :: r))).
    + change (at_path x q <> None) in Q. specialize (IL q Q). split.
      * intros H. apply in_app_or in H as [H|[H|H]]; [|discriminate|apply in_map_iff in H as [u [E _]]; discriminate].
        apply in_map_iff in H as [u [E U]]. injection E as ->. intros c d z o' x' y' E K.
        destruct c as [|d' c]; [left; now rewrite app_nil_r|]. injection E as <- E. change (at_path x c = Some (EBin o' x' y')) in K.
        right. apply in_or_app. left. destruct IL as [IL _]. specialize (IL U c d z o' x' y' E K). now rewrite <- app_assoc in IL.
      * intros H. apply in_or_app. left. apply in_map, IL. intros c d z o' x' y' E K.
        specialize (H (DirL :: c) d z o' x' y'). rewrite <- app_assoc. cbn [app].
        destruct H as [X|X]; [cbn; now rewrite E|exact K| |].
        -- exfalso. inversion X as [Y]. rewrite <- (app_nil_r p) in Y at 1. apply app_inv_head in Y. discriminate.
        -- apply in_app_or in X as [X|[X|X]]; [exact X|discriminate|].
           destruct (under_prefix _ _ _ _ _ _ R2 X) as [c' E']. discriminate.
    + change (at_path y q <> None) in Q. specialize (IR q Q). split.
      * intros H. apply in_app_or in H as [H|[H|H]]; [apply in_map_iff in H as [u [E _]]; discriminate|discriminate|].
        apply in_map_iff in H as [u [E U]]. injection E as ->. intros c d z o' x' y' E K.
        destruct c as [|d' c]; [left; now rewrite app_nil_r|]. injection E as <- E. change (at_path y c = Some (EBin o' x' y')) in K.
        right. apply in_or_app. right. right. destruct IR as [IR _]. specialize (IR U c d z o' x' y' E K). now rewrite <- app_assoc in IR.
      * intros H. apply in_or_app. right. right. apply in_map, IR. intros c d z o' x' y' E K.
        specialize (H (DirR :: c) d z o' x' y'). rewrite <- app_assoc. cbn [app].
        destruct H as [X|X]; [cbn; now rewrite E|exact K| |].
        -- exfalso. inversion X as [Y]. rewrite <- (app_nil_r p) in Y at 1. apply app_inv_head in Y. discriminate.
        -- apply in_app_or in X as [X|[X|X]]; [|discriminate|exact X].
           destruct (under_prefix _ _ _ _ _ _ G2 X) as [c' E']. discriminate.
  - intros N. destruct (R8 N) as [l1 [k [E [F' K]]]].
    exists (Asked p (Ok true) :: l ++ Called p (Ok tt) :: l1), k. rewrite E.
    split; [cbn; now rewrite <- app_assoc|]. split; [|exact K].
    constructor; [exact Logic.I|]. apply Forall_app. split; [exact F|]. constructor; [exact Logic.I|exact F'].
Qed.

(** step_into() refused. *)
Lemma good_refused : forall op x y p o, good (EBin op x y) p [Asked p (Ok false); Called p o] o.
Proof.
  intros op x y p o. exists [[]], [[]]. cbn [called asked flat_map app map]. rewrite !app_nil_r.
  split; [reflexivity|]. split; [reflexivity|]. split; [repeat constructor|]. split; [repeat constructor; auto|].
  split; [intros q [<-|[]]; discriminate|]. split; [intros c [<-|[]]; now exists op, x, y|]. split.
  - intros ->. split; [repeat constructor|]. intros q Q. split.
    + intros [<-|[]]. apply (nil_conditions (EBin op x y) (fun c => In (Asked (p ++ c) (Ok true)) [Asked p (Ok false); Called p (Ok tt)])).
    + intros H. destruct q as [|d q]; [now left|]. exfalso.
      destruct (H [] d q op x y eq_refl eq_refl) as [X|[X|[]]]; inversion X.
  - intros N. exists [Asked p (Ok false)], (Called p o). split; [reflexivity|]. split; [repeat constructor|].
    destruct o as [[]|z|]; cbn; auto; now elim N.
Qed.

(** step_into() did not return. *)
Lemma good_unasked : forall op x y p (a : outcome bool) (o : outcome unit), o <> Ok tt ->
  ended (Asked p a) o -> good (EBin op x y) p [Asked p a] o.
Proof.
  intros op x y p a o N K. exists [], [[]]. cbn [called asked flat_map app map]. rewrite app_nil_r.
  split; [reflexivity|]. split; [reflexivity|]. split; [repeat constructor|]. split; [repeat constructor; auto|].
  split; [intros q []|]. split; [intros c [<-|[]]; now exists op, x, y|]. split; [intros O; now elim N|]. intros _.
  exists [], (Asked p a). repeat split; auto.
Qed.

Lemma walk_good : forall e p s l0,
  exists o s' l, walk' p e (s, l0) = (o, (s', l0 ++ l)) /\ good e p l o.
Proof.
  assert (V : forall p e s l0, exists o s', visit' p e (s, l0) = (o, (s', l0 ++ [Called p o]))).
  { intros p e s l0. unfold recorded. cbn. destruct (visit p e s) as [o s']. now exists o, s'. }
  assert (U : forall e p a,
    (forall q, at_path e (DirU :: q) = at_path a q) ->
    (forall d q, d <> DirU -> at_path e (d :: q) = None) ->
    (forall op x y, e <> EBin op x y) ->
    (forall p s l0, exists o s' l, walk' p a (s, l0) = (o, (s', l0 ++ l)) /\ good a p l o) ->
    forall s l0, exists o s' l,
      after (S * list call) (visit' p e) (walk' (p ++ [DirU]) a) (s, l0) = (o, (s', l0 ++ l)) /\ good e p l o).
  { intros e p a A B NB IH s l0. unfold after. destruct (V p e s l0) as [o [s1 E]]. rewrite E.
    destruct (unit_ok o) as [->|N].
    - destruct (IH (p ++ [DirU]) s1 (l0 ++ [Called p (Ok tt)])) as [o [s2 [l [E2 G]]]]. rewrite E2.
      exists o, s2, (Called p (Ok tt) :: l). split; [now rewrite <- app_assoc|]. now apply good_under with a.
    - exists o, s1, [Called p o]. split; [|now apply good_stopped]. destruct o as [[]|x|]; [now elim N|reflexivity|reflexivity]. }
  assert (L : forall e p s l0, (forall q, at_path e q <> None -> q = []) ->
    exists o s' l, visit' p e (s, l0) = (o, (s', l0 ++ l)) /\ good e p l o).
  { intros e p s l0 K. destruct (V p e s l0) as [o [s' E]]. exists o, s', [Called p o]. split; [exact E|].
    apply good_visit. intros _. exact K. }
  induction e as [c|i|i t|op a IH|lo hi w a _ _ IH|op l r IHl IHr|es _] using expr_ind'; intros p s l0; cbn [walk];
    try (apply L; intros [|[] q] Q; [reflexivity|now elim Q|now elim Q|now elim Q]).
  - apply U; [reflexivity| |discriminate|exact IH]. intros [] q D; try reflexivity; congruence.
  - apply U; [reflexivity| |discriminate|exact IH]. intros [] q D; try reflexivity; congruence.
  - unfold recorded at 1. cbn [fst snd]. destruct (step p (EBin op l r) s) as [[[]|x|] s1].
    + unfold after at 1. destruct (IHl (p ++ [DirL]) s1 (l0 ++ [Asked p (Ok true)])) as [o [s2 [ll [E G]]]]. rewrite E.
      destruct (unit_ok o) as [->|N].
      * unfold after. destruct (V p (EBin op l r) s2 ((l0 ++ [Asked p (Ok true)]) ++ ll)) as [o [s3 E3]]. rewrite E3.
        destruct (unit_ok o) as [->|N].
        -- destruct (IHr (p ++ [DirR]) s3 (((l0 ++ [Asked p (Ok true)]) ++ ll) ++ [Called p (Ok tt)])) as [o [s4 [lr [E4 G4]]]]. rewrite E4.
           exists o, s4, (Asked p (Ok true) :: ll ++ Called p (Ok tt) :: lr). split; [now rewrite <- !app_assoc|].
           now apply good_both.
        -- exists o, s3, (Asked p (Ok true) :: ll ++ [Called p o]). split; [|now apply good_middle].
           rewrite <- !app_assoc. destruct o as [[]|x|]; [now elim N|reflexivity|reflexivity].
      * exists o, s2, (Asked p (Ok true) :: ll). split; [|now apply good_left].
        rewrite <- !app_assoc. destruct o as [[]|x|]; [now elim N|reflexivity|reflexivity].
    + destruct (V p (EBin op l r) s1 (l0 ++ [Asked p (Ok false)])) as [o [s2 E]]. rewrite E.
      exists o, s2, [Asked p (Ok false); Called p o]. split; [now rewrite <- !app_assoc|]. apply good_refused.
    + exists (Throw x), s1, [Asked p (Throw x)]. split; [reflexivity|]. apply good_unasked; [discriminate|reflexivity].
    + exists UB, s1, [Asked p UB]. split; [reflexivity|]. apply good_unasked; [discriminate|exact Logic.I].
Qed.
End Traversal.

(** ** Manipulation *)
Section Manipulation.
Context (n : num) (order : nat -> bool).
Notation mem := (mem n).
Notation expr := (expr n).
Notation has := (has n).
Notation IExpr := (IExpr n).
Notation makes := (makes n True).
Context (modifies : mem -> nat -> outcome bool) (apply : nat -> M n nat).
Context (md : expr -> outcome bool) (fw : expr -> outcome expr).

Fixpoint manip (e : expr) : outcome expr :=
  match e with
  | EConst _ | EVar _ | EFun _ _ | EVec _ => fw e
  | EUn op a => bind (md e) (fun b => if b then fw e else bind (manip a) (fun x => Ok (EUn op x)))
  | EInt lo hi v a => bind (md e) (fun b => if b then fw e else bind (manip a) (fun x => Ok (EInt lo hi v x)))
  | EBin op l r => bind (md e) (fun b => if b then fw e else mk2 n op (manip l) (manip r))
  end.

Lemma makes_apply : makes_new n apply fw -> forall k m a e, wf n m -> has k m (IExpr a e) -> makes m IExpr (apply a) (fw e).
Proof.
  intros H k m a e W [fp [O [ND _]]] m1 G.
  assert (W1 : wf n m1) by apply (grows_wf n m m1 G).
  assert (O1 : owns n m1 a e fp) by apply (grows_own1 n m m1 (IExpr a e) fp W G O).
  specialize (H m1 a e fp W1 O1 ND). unfold runs. destruct (fw e) as [e'|x|]; [| |exact Logic.I].
  - destruct H as [m' [a' [fp' [E [O' [ND' [K [W' [L [B [N Z]]]]]]]]]]]. exists m', a'. split; [exact E|].
    exists fp'. split.
    + rewrite <- (app_nil_r fp'). constructor; [exact O'|constructor].
    + split; [exact L|]. split; [exact W'|]. split; [exact ND'|]. split; [|split].
      * intros b Lb _. destruct (at_ m1 b) as [c|] eqn:Eb; [|now apply Z]. rewrite K; [exact Eb|congruence].
      * intros b Ib. right. now apply B.
      * intros _ b Ab. destruct (N b Ab) as [X|X]; [|now left]. right. split; [now apply (wf_alive n m1 b W1)|intros []].
  - destruct H as [m' [y [E [K [W' [L Z]]]]]]. exists m', y. split; [exact E|]. split; [exact L|]. split; [|exact W'].
    intros b Lb. destruct (at_ m1 b) as [c|] eqn:Eb; [|now apply Z]. rewrite K; [exact Eb|congruence].
Qed.

Lemma read_modifies : answers n modifies md -> forall k m a e, wf n m -> has k m (IExpr a e) ->
  forall m1, grows n m m1 -> sound (modifies m1 a) (md e).
Proof.
  intros H k m a e W [fp [O [ND _]]] m1 G.
  assert (W1 : wf n m1) by apply (grows_wf n m m1 G).
  assert (O1 : owns n m1 a e fp) by apply (grows_own1 n m m1 (IExpr a e) fp W G O).
  exact (H m1 a e fp W1 O1 ND).
Qed.

Lemma makes_hmanipulate_f : answers n modifies md -> makes_new n apply fw ->
  forall k m, wf n m -> forall a e, has k m (IExpr a e) ->
  makes m IExpr (hmanipulate_f n order modifies apply k a) (manip e).
Proof.
  intros HM HA k m W. induction k as [|k IH]; intros a e H; [exfalso; eapply has_O; eassumption|].
  pose proof (makes_apply HA (S k) m a e W H) as SELF.
  pose proof (read_modifies HM (S k) m a e W H) as ASK.
  cbn [hmanipulate_f]. pose proof (has_expr_inv n k m a e H) as V.
  destruct e as [c|i|i t|op x|l h w x|op x y|xs]; cbn [manip].
  - apply makes_load with (c := HConst c); [exact W|exact V|exact SELF].
  - apply makes_load with (c := HVar i); [exact W|exact V|exact SELF].
  - apply makes_load with (c := HFun i t); [exact W|exact V|exact SELF].
  - destruct V as [q [p [V [Hq Hp]]]]. apply makes_load with (c := HUn q p); [exact W|exact V|].
    apply makes_read; [exact ASK|]. intros [] _; [exact SELF|].
    apply (makes_new_un_like n order True k m _ _ p (OUn n op)); [exact W|now apply IH|exact Hp|discriminate].
  - destruct V as [q [p [V [Hq Hp]]]]. apply makes_load with (c := HUn q p); [exact W|exact V|].
    apply makes_read; [exact ASK|]. intros [] _; [exact SELF|].
    apply (makes_new_un_like n order True k m _ _ p (OInt n l h w)); [exact W|now apply IH|exact Hp|discriminate].
  - destruct V as [l [p [r' [V [Hl [Hp Hr]]]]]]. apply makes_load with (c := HBin l p r'); [exact W|exact V|].
    apply makes_read; [exact ASK|]. intros [] _; [exact SELF|].
    apply (makes_new_bin_like n order True k m _ _ _ _ _); [exact W|now apply IH|now apply IH|exact Hp].
  - destruct V as [ps [V Hl]]. apply makes_load with (c := HVec ps); [exact W|exact V|exact SELF].
Qed.

Lemma makes_hmanipulate : answers n modifies md -> makes_new n apply fw ->
  forall k m a e, wf n m -> has k m (IExpr a e) -> makes m IExpr (hmanipulate n order modifies apply a) (manip e).
Proof.
  intros HM HA k m a e W H.
  apply (makes_enough n True _ m IExpr (fun k => hmanipulate_f n order modifies apply k a)). intros m1 G.
  pose proof (grows_wf n m m1 G) as W1. apply makes_hmanipulate_f; auto.
  apply (has_enough n k); [exact W1|]. now apply (has_later n k m).
Qed.

(** What [manip] is. *)
Definition sel (t : expr) : bool := match md t with Ok b => b | _ => false end.
Definition val (t : expr) : expr := match fw t with Ok t' => t' | _ => t end.

Lemma reached_here : forall e, reached n md e e.
Proof. intros e. exists []. split; [reflexivity|]. intros c d q s E. destruct c; discriminate. Qed.

Lemma reached_in : forall e a d s, (forall q, at_path e (d :: q) = at_path a q) -> sel e = false ->
  reached n md a s -> reached n md e s.
Proof.
  intros e a d s A N [p [P O]]. exists (d :: p). split; [now rewrite A|].
  intros c d' q t E K. destruct c as [|d0 c]; injection E as <- E.
  - cbn in K. injection K as <-. exact N.
  - rewrite A in K. apply (O c d' q t E K).
Qed.

Lemma reached_inv : forall e s, reached n md e s -> s = e \/
  (sel e = false /\ exists d a, at_path e [d] = Some a /\ (forall q, at_path e (d :: q) = at_path a q) /\ reached n md a s).
Proof.
  intros e s [p [P O]]. destruct p as [|d p]; [left; now injection P|]. right.
  assert (N : sel e = false) by now apply (O [] d p e).
  split; [exact N|].
  assert (X : exists a, at_path e [d] = Some a /\ forall q, at_path e (d :: q) = at_path a q).
  { destruct d, e; cbn in P; try discriminate; eexists; split; reflexivity. }
  destruct X as [a [X1 X2]]. exists d, a. split; [exact X1|]. split; [exact X2|]. exists p. split; [now rewrite <- X2|].
  intros c d' q t E K. apply (O (d :: c) d' q t); [now rewrite E|now rewrite X2].
Qed.

Context (dmd : forall s, md s <> UB) (dfw : forall s, fw s <> UB).

Lemma manip_defined : forall e, manip e <> UB.
Proof.
  induction e as [c|i|i t|op a IH|lo hi w a _ _ IH|op l r IHl IHr|es _] using expr_ind'; cbn [manip]; try apply dfw.
  - destruct (md (EUn op a)) as [[]|x|] eqn:E; cbn; try discriminate; [apply dfw| |now elim (dmd (EUn op a))].
    destruct (manip a); try discriminate. now elim IH.
  - destruct (md (EInt lo hi w a)) as [[]|x|] eqn:E; cbn; try discriminate; [apply dfw| |now elim (dmd (EInt lo hi w a))].
    destruct (manip a); try discriminate. now elim IH.
  - destruct (md (EBin op l r)) as [[]|x|] eqn:E; cbn; try discriminate; [apply dfw| |now elim (dmd (EBin op l r))].
    unfold mk2, both. destruct (manip l), (manip r); try discriminate; try (now elim IHl); now elim IHr.
Qed.

Lemma manip_throw : forall e x, manip e = Throw x -> exists s, reached n md e s /\ fails n md fw s.
Proof.
  assert (F : forall e, RtSpec.leaf e = true -> forall x, fw e = Throw x -> exists s, reached n md e s /\ fails n md fw s).
  { intros e L x E. exists e. split; [apply reached_here|]. unfold fails. rewrite L. now exists x. }
  assert (U : forall e a d k x, RtSpec.leaf e = false -> (forall q, at_path e (d :: q) = at_path a q) ->
     (forall x, manip a = Throw x -> exists s, reached n md a s /\ fails n md fw s) ->
     bind (md e) (fun b => if b then fw e else bind (manip a) (fun x => Ok (k x))) = Throw x ->
     exists s, reached n md e s /\ fails n md fw s).
  { intros e a d k x L A IH E. destruct (md e) as [[]|y|] eqn:M; cbn in E; try discriminate.
    - exists e. split; [apply reached_here|]. unfold fails. rewrite L. right. split; [exact M|now exists x].
    - destruct (manip a) as [a'|y|] eqn:K; cbn in E; try discriminate. destruct (IH y eq_refl) as [s [R G]]. exists s. split; [|exact G].
      apply (reached_in e a d); auto. unfold sel. now rewrite M.
    - exists e. split; [apply reached_here|]. unfold fails. rewrite L. left. now exists y. }
  induction e as [c|i|i t|op a IH|lo hi w a _ _ IH|op l r IHl IHr|es _] using expr_ind'; intros x E;
    try (match goal with |- exists s, reached _ _ ?e s /\ _ => apply (F e eq_refl x E) end).
  - apply (U (EUn op a) a DirU (EUn op) x); auto.
  - apply (U (EInt lo hi w a) a DirU (EInt lo hi w) x); auto.
  - cbn [manip] in E. destruct (md (EBin op l r)) as [[]|y|] eqn:M; cbn in E; try discriminate.
    + exists (EBin op l r). split; [apply reached_here|]. right. split; [exact M|now exists x].
    + assert (N : sel (EBin op l r) = false) by (unfold sel; now rewrite M).
      unfold mk2, both in E. destruct (manip l) as [l'|y|] eqn:KL.
      * destruct (manip r) as [r'|y|] eqn:KR; try discriminate. destruct (IHr y eq_refl) as [s [R G]]. exists s. split; [|exact G].
        now apply (reached_in (EBin op l r) r DirR).
      * destruct (IHl y eq_refl) as [s [R G]]. exists s. split; [|exact G]. now apply (reached_in (EBin op l r) l DirL).
      * now elim (manip_defined l).
    + exists (EBin op l r). split; [apply reached_here|]. left. now exists y.
Qed.

Lemma manip_ok : forall e e', manip e = Ok e' -> e' = manipulate n sel val e /\ forall s, reached n md e s -> ~ fails n md fw s.
Proof.
  assert (F : forall e e', RtSpec.leaf e = true -> fw e = Ok e' -> e' = val e /\ forall s, reached n md e s -> ~ fails n md fw s).
  { intros e e' L E. split; [unfold val; now rewrite E|]. intros s R K. apply reached_inv in R as [->|[_ [d [a [A _]]]]].
    - unfold fails in K. rewrite L in K. destruct K as [x K]. congruence.
    - destruct d, e; cbn in *; discriminate. }
  assert (T : forall e e', RtSpec.leaf e = false -> md e = Ok true -> fw e = Ok e' -> sel e = true /\ e' = val e /\ forall s, reached n md e s -> ~ fails n md fw s).
  { intros e e' L M E. assert (SE : sel e = true) by (unfold sel; now rewrite M). split; [exact SE|].
    split; [unfold val; now rewrite E|]. intros s R K. apply reached_inv in R as [->|[N _]]; [|congruence].
    unfold fails in K. rewrite L in K. destruct K as [[x K]|[_ [x K]]]; congruence. }
  assert (HERE : forall e, RtSpec.leaf e = false -> md e = Ok false -> ~ fails n md fw e).
  { intros e L M K. unfold fails in K. rewrite L in K. destruct K as [[x K]|[K _]]; congruence. }
  induction e as [c|i|i t|op a IH|lo hi w a _ _ IH|op l r IHl IHr|es _] using expr_ind'; intros e' E;
    try (match goal with |- _ = manipulate _ _ _ ?e /\ _ => apply (F e e' eq_refl E) end); cbn [manip manipulate] in *.
  - destruct (md (EUn op a)) as [[]|y|] eqn:M; cbn in E; try discriminate.
    + destruct (T (EUn op a) e' eq_refl M E) as [-> R]. exact R.
    + destruct (manip a) as [a'|y|]; cbn in E; try discriminate. injection E as <-. destruct (IH a' eq_refl) as [-> R].
      assert (SE : sel (EUn op a) = false) by (unfold sel; now rewrite M). rewrite SE. split; [reflexivity|].
      intros s Rs. apply reached_inv in Rs as [->|[_ [d [b [A [_ Rs]]]]]]; [now apply HERE|].
      destruct d; cbn in A; try discriminate. injection A as <-. now apply R.
  - destruct (md (EInt lo hi w a)) as [[]|y|] eqn:M; cbn in E; try discriminate.
    + destruct (T (EInt lo hi w a) e' eq_refl M E) as [-> R]. exact R.
    + destruct (manip a) as [a'|y|]; cbn in E; try discriminate. injection E as <-. destruct (IH a' eq_refl) as [-> R].
      assert (SE : sel (EInt lo hi w a) = false) by (unfold sel; now rewrite M). rewrite SE. split; [reflexivity|].
      intros s Rs. apply reached_inv in Rs as [->|[_ [d [b [A [_ Rs]]]]]]; [now apply HERE|].
      destruct d; cbn in A; try discriminate. injection A as <-. now apply R.
  - destruct (md (EBin op l r)) as [[]|y|] eqn:M; cbn in E; try discriminate.
    + destruct (T (EBin op l r) e' eq_refl M E) as [-> R]. exact R.
    + unfold mk2, both in E. destruct (manip l) as [l'|y|]; destruct (manip r) as [r'|z|]; try discriminate. injection E as <-.
      destruct (IHl l' eq_refl) as [-> RL]. destruct (IHr r' eq_refl) as [-> RR].
      assert (SE : sel (EBin op l r) = false) by (unfold sel; now rewrite M). rewrite SE. split; [reflexivity|].
      intros s Rs. apply reached_inv in Rs as [->|[_ [d [b [A [_ Rs]]]]]]; [now apply HERE|].
      destruct d; cbn in A; try discriminate; injection A as <-; auto.
Qed.

(** The exceptions that come out are the functor's. *)
Definition only {A : Type} (E : exn -> Prop) (c : M n A) : Prop := forall m m' x, c m = RThrow m' x -> E x.

Lemma only_bind : forall A B E (c : M n A) (f : A -> M n B), only E c -> (forall a, only E (f a)) -> only E (mbind c f).
Proof.
  intros A B E c f Hc Hf m m' x K. unfold mbind in K. destruct (c m) as [m1 a|m1 y|] eqn:Ec; [now apply (Hf a m1 m')| |discriminate].
  injection K as <- <-. now apply (Hc m m1).
Qed.
Lemma only_args : forall A B D E (a : M n A) (b : M n B) (f : A -> B -> M n D), only E a -> only E b -> (forall x y, only E (f x y)) ->
  only E (args n order a b f).
Proof.
  intros A B D E a b f Ha Hb Hf m m' x K. unfold args in K. destruct (order (next m)).
  - revert K. apply only_bind; [exact Ha|]. intros u. apply only_bind; [exact Hb|]. intros v. apply Hf.
  - revert K. apply only_bind; [exact Hb|]. intros u. apply only_bind; [exact Ha|]. intros v. apply Hf.
Qed.
Lemma only_alloc : forall E c, only E (alloc c : M n nat).
Proof. intros E c m m' x K. discriminate. Qed.
Lemma only_ub : forall A E, only E (fun _ => RUB : res n A).
Proof. intros A E m m' x K. discriminate. Qed.
Lemma only_load : forall E a, only E (reading (fun m : mem => load m a)).
Proof. intros E a m m' x K. unfold reading, load in K. destruct (at_ m a); discriminate. Qed.
Lemma only_ret : forall A E (a : A), only E (ret a : M n A).
Proof. intros A E a m m' x K. discriminate. Qed.

Lemma only_clone_op_with : forall E f p, (forall a, only E (f a)) -> only E (clone_op_with n f p).
Proof.
  intros E f p H. unfold clone_op_with. apply only_bind; [apply only_load|]. intros c.
  destruct c; try apply only_ub; try apply only_alloc.
  apply only_bind; [apply H|]. intros u. apply only_bind; [apply H|]. intros v. apply only_alloc.
Qed.

Lemma only_zeros : forall E k, only E (zeros n k).
Proof.
  intros E k. induction k as [|k IH]; [apply only_ret|]. cbn [zeros].
  repeat (first [apply only_bind; [first [apply only_alloc|exact IH]|]; intros ?|apply only_ret]).
Qed.

Lemma delete_silent : forall E k a, only E (delete_f n k a).
Proof.
  intros E k. induction k as [|k IH]; intros a; [apply only_ub|]. cbn [delete_f].
  assert (D : forall b, only E (dealloc b : M n unit)).
  { intros b m m' x K. unfold dealloc in K. destruct (at_ m b); discriminate. }
  apply only_bind; [apply only_load|]. intros c.
  destruct c; repeat (first [apply D | apply only_ret | apply IH | apply only_ub | apply only_bind; [|intros ?]]).
  match goal with |- only E (?f entries) => induction entries as [|z zs IHz] end;
    repeat (first [exact IHz | apply D | apply only_ret | apply IH | apply only_bind; [|intros ?]]).
Qed.

Lemma only_fill : forall E X (f : X -> M n nat) xs zs, (forall a, only E (f a)) -> only E (fill n f xs zs).
Proof.
  intros E X f xs. induction xs as [|x xs IH]; intros zs H; [apply only_ret|]. destruct zs as [|z zs]; [apply only_ret|].
  cbn [fill]. apply only_bind; [apply H|]. intros q. apply only_bind; [intros m m' y K; apply (delete_silent E _ _ _ _ _ K)|].
  intros _. apply only_bind; [now apply IH|]. intros qs. apply only_ret.
Qed.

Lemma clone_f_silent : forall E k a, only E (clone_f n order k a).
Proof.
  intros E k. induction k as [|k IH]; intros a; [apply only_ub|]. cbn [clone_f].
  apply only_bind; [apply only_load|]. intros c. destruct c; try apply only_ub; try apply only_alloc.
  - apply only_args; [apply IH|now apply only_clone_op_with|]. intros x y. apply only_alloc.
  - apply only_args; [apply IH|apply IH|]. intros x y. apply only_bind; [now apply only_clone_op_with|]. intros p. apply only_alloc.
  - unfold new_vector. apply only_bind; [apply only_zeros|]. intros zs. apply only_bind; [now apply only_fill|]. intros qs. apply only_alloc.
Qed.

Lemma clone_op_silent : forall E p, only E (clone_op n order p).
Proof. intros E p. apply only_clone_op_with. intros a m m' x K. apply (clone_f_silent E _ _ _ _ _ K). Qed.

Lemma only_hmanipulate : forall E : exn -> Prop, (forall m a x, modifies m a = Throw x -> E x) -> (forall a, only E (apply a)) ->
  forall a, only E (hmanipulate n order modifies apply a).
Proof.
  intros E HM HA.
  assert (F : forall k a, only E (hmanipulate_f n order modifies apply k a)).
  { induction k as [|k IH]; intros a; [apply only_ub|]. cbn [hmanipulate_f].
    assert (R : only E (reading (fun m => modifies m a))).
    { intros m m' x K. unfold reading in K. destruct (modifies m a) as [b|y|] eqn:Y; try discriminate. injection K as <- <-. now apply (HM m a). }
    apply only_bind; [apply only_load|]. intros c. destruct c; try apply only_ub; try apply HA.
    - apply only_bind; [exact R|]. intros []; [apply HA|].
      apply only_args; [apply IH|apply clone_op_silent|]. intros x y. apply only_alloc.
    - apply only_bind; [exact R|]. intros []; [apply HA|].
      apply only_args; [apply IH|apply IH|]. intros x y. apply only_bind; [apply clone_op_silent|]. intros p. apply only_alloc. }
  intros a m m' x K. apply (F _ _ _ _ _ K).
Qed.
End Manipulation.

(** ** Functors that copy *)
Section Copy.
Context (n : num) (order : nat -> bool).

Lemma clone_makes_new : makes_new n (clone n order) Ok.
Proof.
  intros m a e fp W O ND.
  assert (H : has n (S (length fp)) m (IExpr n a e)) by (exists fp; repeat split; [exact O|exact ND|lia]).
  destruct (makes_clone n order True _ m a e W H m (grows_refl n m W)) as [m' [a' [C [L [OL K]]]]].
  assert (OW : own1 n m' (IExpr n a' e) L).
  { inversion OL as [|i f0 l0 L0 X Y]; subst. inversion Y; subst. rewrite app_nil_r. exact X. }
  pose proof K as [S1 [S2 [S3 [S4 [S5 S6]]]]].
  exists m', a', L. split; [exact C|]. split; [exact OW|]. split; [exact S3|]. split.
  { intros b B. apply S4; [now apply (wf_alive n m b W)|intros []]. }
  split; [exact S2|]. split; [exact S1|]. split.
  { intros b B. destruct (S5 b B) as [[]|X]. exact X. }
  split.
  - intros b B. destruct (S6 Logic.I b B) as [X|[X _]]; [now right|left]. rewrite <- (S4 b X); [exact B|intros []].
  - intros b B N. rewrite S4; [exact N|exact B|intros []].
Qed.

Lemma throw_at_x0_works : makes_new n (throw_at_x0 n order) (no_x0 n).
Proof.
  intros m a e fp W O ND. pose proof (clone_makes_new m a e fp W O ND) as K. unfold throw_at_x0.
  assert (D : (e = EVar 0 /\ at_ m a = Some (HVar 0)) \/ (no_x0 n e = Ok e /\ at_ m a <> Some (HVar 0))).
  { inversion O as [? c E|? i E|? i t E|? q p op x f g E|? q p lo hi v x f g E|? l p r op x y f g h E|? ps es f E];
      subst; try (right; split; [reflexivity|congruence]).
    destruct i as [|i]; [left; auto|right; split; [reflexivity|congruence]]. }
  destruct D as [[-> E]|[-> E]].
  - rewrite E. cbn. exists m, ThrowText. split; [reflexivity|]. split; [now intros b|]. split; [exact W|]. split; [lia|auto].
  - destruct (at_ m a) as [[| [|]| | | | | | |]|]; try exact K. now elim E.
Qed.

Lemma sin_x1_plus_x0_sane : sane n (sin_x1_plus_x0 n).
Proof. intros a L. cbn in L |- *. apply nth_error_None. cbn. exact L. Qed.

Lemma sin_x1_plus_x0_owns : owns n (sin_x1_plus_x0 n) 5 (EBin BPlus (EUn USin (EVar 1)) (EVar 0)) [5; 2; 0; 1; 4; 3].
Proof.
  apply (owns_bin n _ 5 2 4 3 BPlus (EUn USin (EVar 1)) (EVar 0) [2; 0; 1] [4] [3]); [reflexivity| | |].
  - apply (owns_un n _ 2 0 1 USin (EVar 1) [0] [1]); [reflexivity| |]; now constructor.
  - now constructor.
  - now constructor.
Qed.
End Copy.

(** ** What the traversal functor is given *)
Lemma walk_sees : forall (n : num) (S : Type) (f1 f2 : list dir -> expr n -> S -> outcome bool * S)
  (g1 g2 : list dir -> expr n -> S -> outcome unit * S) e p,
  (forall q op x y s, at_path e q = Some (EBin op x y) -> f1 (p ++ q) (EBin op x y) s = f2 (p ++ q) (EBin op x y) s) ->
  (forall q t s, at_path e q = Some t -> g1 (p ++ q) t s = g2 (p ++ q) t s) ->
  forall s, walk n S f1 g1 p e s = walk n S f2 g2 p e s.
Proof.
  intros n S f1 f2 g1 g2.
  assert (AF : forall (a a' b b' : S -> outcome unit * S) s, a s = a' s -> (forall s1, b s1 = b' s1) -> after S a b s = after S a' b' s).
  { intros a a' b b' s E F. unfold after. rewrite E. destruct (a' s) as [[u|x|] s1]; auto. }
  induction e as [c|i|i t|op a IH|lo hi w a _ _ IH|op l r IHl IHr|es _] using expr_ind'; intros p Hf Hg s;
    pose proof (fun s => Hg [] _ s eq_refl) as G; rewrite app_nil_r in G; cbn [walk]; auto.
  - apply AF; auto. apply IH.
    + intros q o x y s2 E. rewrite <- app_assoc. apply (Hf (DirU :: q)). exact E.
    + intros q t s2 E. rewrite <- app_assoc. apply (Hg (DirU :: q)). exact E.
  - apply AF; auto. apply IH.
    + intros q o x y s2 E. rewrite <- app_assoc. apply (Hf (DirU :: q)). exact E.
    + intros q t s2 E. rewrite <- app_assoc. apply (Hg (DirU :: q)). exact E.
  - pose proof (Hf [] op l r s eq_refl) as F. rewrite app_nil_r in F. rewrite F.
    destruct (f2 p (EBin op l r) s) as [[[]|x|] s1]; auto. apply AF; [|intros s2; apply AF; auto].
    + apply IHl.
      * intros q o x y s2 E. rewrite <- app_assoc. apply (Hf (DirL :: q)). exact E.
      * intros q t s2 E. rewrite <- app_assoc. apply (Hg (DirL :: q)). exact E.
    + apply IHr.
      * intros q o x y s3 E. rewrite <- app_assoc. apply (Hf (DirR :: q)). exact E.
      * intros q t s3 E. rewrite <- app_assoc. apply (Hg (DirR :: q)). exact E.
Qed.
