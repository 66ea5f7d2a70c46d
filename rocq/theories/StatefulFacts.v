(** Facts about manipulation with functors that have a state (proofs only). *)
From Coq Require Import ZArith NArith List Bool Lia.
From Verif Require Import Outcome Num RtModel RtSpec RtFacts StatefulModel StatefulSpec.
Import ListNotations.

Section Facts.
Context (n : num).
Notation mcall := (mcall n).
Notation expr' := (expr n).

Definition push (d : dir) (c : mcall) : mcall :=
  match c with MAsked p a => MAsked (d :: p) a | MGave p a => MGave (d :: p) a end.
Definition shift (p : list dir) (c : mcall) : mcall :=
  match c with MAsked q a => MAsked (p ++ q) a | MGave q a => MGave (p ++ q) a end.

Lemma shift_push : forall p d c, shift (p ++ [d]) c = shift p (push d c).
Proof. intros p d [q a|q a]; cbn; now rewrite <- app_assoc. Qed.
Lemma shift_map : forall p d l, map (shift (p ++ [d])) l = map (shift p) (map (push d) l).
Proof. intros. rewrite map_map. apply map_ext. intros. apply shift_push. Qed.
Lemma shift_nil : forall l, map (shift []) l = l.
Proof. intros l. rewrite (map_ext _ (fun c => c)); [apply map_id|]. now intros [q a|q a]. Qed.

Definition failed (o : outcome expr') : Prop := match o with Ok _ => False | _ => True end.
Notation ask := (MAsked [] (Ok false) : mcall).

Inductive run : expr' -> list mcall -> outcome expr' -> Prop :=
| run_leaf : forall e o, leaf e = true -> run e [MGave [] o] o
| run_throw : forall e x, leaf e = false -> run e [MAsked [] (Throw x)] (Throw x)
| run_ub : forall e, leaf e = false -> run e [MAsked [] UB] UB
| run_true : forall e o, leaf e = false -> run e [MAsked [] (Ok true); MGave [] o] o
| run_un : forall op a l o, run a l o -> run (EUn op a) (ask :: map (push DirU) l) (omap (EUn op) o)
| run_int : forall lo hi w a l o, run a l o -> run (EInt lo hi w a) (ask :: map (push DirU) l) (omap (EInt lo hi w) o)
| run_lr : forall op a b la lb a' o, run a la (Ok a') -> run b lb o ->
    run (EBin op a b) (ask :: map (push DirL) la ++ map (push DirR) lb) (omap (EBin op a') o)
| run_rl : forall op a b la lb b' o, run b lb (Ok b') -> run a la o ->
    run (EBin op a b) (ask :: map (push DirR) lb ++ map (push DirL) la) (omap (fun a' => EBin op a' b') o)
| run_l : forall op a b la o, run a la o -> failed o -> run (EBin op a b) (ask :: map (push DirL) la) o
| run_r : forall op a b lb o, run b lb o -> failed o -> run (EBin op a b) (ask :: map (push DirR) lb) o.

Section Run.
Context (S : Type) (order : list dir -> S -> bool).
Context (modifies : list dir -> expr n -> S -> outcome bool * S).
Context (apply : list dir -> expr n -> S -> outcome (expr n) * S).
Notation man := (smanipulate n S order modifies apply).
Notation man' := (smanipulate n (S * list mcall) (same_order n order) (noted n MAsked modifies) (noted n MGave apply)).

Lemma run_of : forall e p s l0, exists l, run e l (fst (man p e s)) /\
  man' p e (s, l0) = (fst (man p e s), (snd (man p e s), l0 ++ map (shift p) l)).
Proof.
  assert (LF : forall e p s l0, leaf e = true -> exists l, run e l (fst (apply p e s)) /\
    noted n MGave apply p e (s, l0) = (fst (apply p e s), (snd (apply p e s), l0 ++ map (shift p) l))).
  { intros e p s l0 L. exists [MGave [] (fst (apply p e s))]. split; [now constructor|]. unfold noted. cbn [fst snd].
    destruct (apply p e s) as [o s']. cbn. now rewrite app_nil_r. }
  assert (IN : forall e p s (k : S -> outcome expr' * S) (k' : S * list mcall -> outcome expr' * (S * list mcall)), leaf e = false ->
    (forall s1 l1, exists l, run e (ask :: l) (fst (k s1)) /\
        k' (s1, l1) = (fst (k s1), (snd (k s1), l1 ++ map (shift p) l))) ->
    forall l0, exists l,
      run e l (fst (andthen S (modifies p e s) (fun b s1 => if b then apply p e s1 else k s1))) /\
      andthen (S * list mcall) (noted n MAsked modifies p e (s, l0)) (fun b s1 => if b then noted n MGave apply p e s1 else k' s1) =
      (fst (andthen S (modifies p e s) (fun b s1 => if b then apply p e s1 else k s1)),
       (snd (andthen S (modifies p e s) (fun b s1 => if b then apply p e s1 else k s1)), l0 ++ map (shift p) l))).
  { intros e p s k k' L K l0. unfold noted at 1. cbn [fst snd]. destruct (modifies p e s) as [[[]|x|] s1]; cbn [andthen].
    - unfold noted. cbn [fst snd]. destruct (apply p e s1) as [o s2]. exists [MAsked [] (Ok true); MGave [] o]. cbn [fst snd].
      split; [now constructor|]. cbn. now rewrite app_nil_r, <- app_assoc.
    - destruct (K s1 (l0 ++ [MAsked p (Ok false)])) as [l [R ->]]. exists (ask :: l). split; [exact R|].
      cbn. now rewrite app_nil_r, <- app_assoc.
    - exists [MAsked [] (Throw x)]. split; [now constructor|]. cbn. now rewrite app_nil_r.
    - exists [MAsked [] UB]. split; [now constructor|]. cbn. now rewrite app_nil_r. }
  induction e as [c|i|i t|op a IH|lo hi w a _ _ IH|op l r IHl IHr|es _] using expr_ind'; intros p s l0; cbn [smanipulate];
    try (apply LF; reflexivity).
  - apply (IN (EUn op a) p s _ (fun s1 => andthen (S * list mcall) (man' (p ++ [DirU]) a s1) (fun a' s2 => (Ok (EUn op a'), s2)))); [reflexivity|].
    intros s1 l1. destruct (IH (p ++ [DirU]) s1 l1) as [l [R E]]. exists (map (push DirU) l). rewrite E, shift_map.
    apply (run_un op) in R. destruct (man (p ++ [DirU]) a s1) as [[a'|x|] s2]; (split; [exact R|reflexivity]).
  - apply (IN (EInt lo hi w a) p s _ (fun s1 => andthen (S * list mcall) (man' (p ++ [DirU]) a s1) (fun a' s2 => (Ok (EInt lo hi w a'), s2)))); [reflexivity|].
    intros s1 l1. destruct (IH (p ++ [DirU]) s1 l1) as [l [R E]]. exists (map (push DirU) l). rewrite E, shift_map.
    apply (run_int lo hi w) in R. destruct (man (p ++ [DirU]) a s1) as [[a'|x|] s2]; (split; [exact R|reflexivity]).
  - apply (IN (EBin op l r) p s (fun s1 => if order p s1
        then andthen S (man (p ++ [DirL]) l s1) (fun l' s2 => andthen S (man (p ++ [DirR]) r s2) (fun r' s3 => (Ok (EBin op l' r'), s3)))
        else andthen S (man (p ++ [DirR]) r s1) (fun r' s2 => andthen S (man (p ++ [DirL]) l s2) (fun l' s3 => (Ok (EBin op l' r'), s3))))
      (fun s1 => if same_order n order p s1
        then andthen (S * list mcall) (man' (p ++ [DirL]) l s1) (fun l' s2 => andthen _ (man' (p ++ [DirR]) r s2) (fun r' s3 => (Ok (EBin op l' r'), s3)))
        else andthen (S * list mcall) (man' (p ++ [DirR]) r s1) (fun r' s2 => andthen _ (man' (p ++ [DirL]) l s2) (fun l' s3 => (Ok (EBin op l' r'), s3))))); [reflexivity|].
    intros s1 l1. cbv beta. change (same_order n order p (s1, l1)) with (order p s1). destruct (order p s1).
    + destruct (IHl (p ++ [DirL]) s1 l1) as [la [Ra Ea]]. rewrite Ea.
      destruct (man (p ++ [DirL]) l s1) as [[a'|x|] s2]; cbn [fst snd andthen] in *.
      * destruct (IHr (p ++ [DirR]) s2 (l1 ++ map (shift (p ++ [DirL])) la)) as [lb [Rb Eb]].
        exists (map (push DirL) la ++ map (push DirR) lb). pose proof (run_lr op _ _ _ _ _ _ Ra Rb) as R. rewrite Eb, map_app, <- !shift_map, app_assoc.
        destruct (man (p ++ [DirR]) r s2) as [[b'|x|] s3]; (split; [exact R|reflexivity]).
      * exists (map (push DirL) la). rewrite shift_map. split; [now apply run_l|reflexivity].
      * exists (map (push DirL) la). rewrite shift_map. split; [now apply run_l|reflexivity].
    + destruct (IHr (p ++ [DirR]) s1 l1) as [lb [Rb Eb]]. rewrite Eb.
      destruct (man (p ++ [DirR]) r s1) as [[b'|x|] s2]; cbn [fst snd andthen] in *.
      * destruct (IHl (p ++ [DirL]) s2 (l1 ++ map (shift (p ++ [DirR])) lb)) as [la [Ra Ea]].
        exists (map (push DirR) lb ++ map (push DirL) la). pose proof (run_rl op _ _ _ _ _ _ Rb Ra) as R. rewrite Ea, map_app, <- !shift_map, app_assoc.
        destruct (man (p ++ [DirL]) l s2) as [[a'|x|] s3]; (split; [exact R|reflexivity]).
      * exists (map (push DirR) lb). rewrite shift_map. split; [now apply run_r|reflexivity].
      * exists (map (push DirR) lb). rewrite shift_map. split; [now apply run_r|reflexivity].
Qed.
End Run.

(** ** Membership *)
Lemma in_asked : forall d p b l, In (MAsked p b) (map (push d) l) <-> exists q, p = d :: q /\ In (MAsked q b) l.
Proof.
  intros d p b l. rewrite in_map_iff. split.
  - intros [[q a|q a] [E H]]; cbn in E; inversion E; subst. eauto.
  - intros [q [-> H]]. now exists (MAsked q b).
Qed.
Lemma in_gave : forall d p b l, In (MGave p b) (map (push d) l) <-> exists q, p = d :: q /\ In (MGave q b) l.
Proof.
  intros d p b l. rewrite in_map_iff. split.
  - intros [[q a|q a] [E H]]; cbn in E; inversion E; subst. eauto.
  - intros [q [-> H]]. now exists (MGave q b).
Qed.

(** The calls made below a node that is not modified: [sub d] are those of the operand in direction [d]. *)
Definition parts (sub : dir -> list mcall) (l : list mcall) : Prop :=
  forall c, In c l <-> c = ask \/ exists d c', c = push d c' /\ In c' (sub d).

Lemma parts_asked : forall sub l p b, parts sub l -> (In (MAsked p b) l <-> (p = [] /\ b = Ok false) \/ exists d q, p = d :: q /\ In (MAsked q b) (sub d)).
Proof.
  intros sub l p b P. rewrite (P (MAsked p b)). split.
  - intros [E|[d [[q a|q a] [E H]]]]; [left; now inversion E|right; inversion E; subst; eauto|discriminate].
  - intros [[-> ->]|[d [q [-> H]]]]; [now left|right]. now exists d, (MAsked q b).
Qed.
Lemma parts_gave : forall sub l p b, parts sub l -> (In (MGave p b) l <-> exists d q, p = d :: q /\ In (MGave q b) (sub d)).
Proof.
  intros sub l p b P. rewrite (P (MGave p b)). split.
  - intros [E|[d [[q a|q a] [E H]]]]; [discriminate|discriminate|inversion E; subst; eauto].
  - intros [d [q [-> H]]]. right. now exists d, (MGave q b).
Qed.
Lemma parts_allowed : forall sub l d q, parts sub l -> (allowed n l (d :: q) <-> allowed n (sub d) q).
Proof.
  intros sub l d q P. split.
  - intros A c d' q' E. specialize (A (d :: c) d' q'). rewrite E in A. specialize (A eq_refl).
    apply (parts_asked _ _ _ _ P) in A as [[E' _]|[d0 [q0 [E' H]]]]; [discriminate|]. inversion E'. now subst.
  - intros A c d' q' E. apply (parts_asked _ _ _ _ P). destruct c as [|d0 c]; [now left|right]. cbn in E. inversion E; subst.
    exists d0, c. split; [reflexivity|]. now apply (A c d' q').
Qed.

Definition sub1 (l : list mcall) (d : dir) : list mcall := match d with DirU => l | _ => [] end.
Definition sub2 (la lb : list mcall) (d : dir) : list mcall := match d with DirU => [] | DirL => la | DirR => lb end.
Lemma parts_un : forall l, parts (sub1 l) (ask :: map (push DirU) l).
Proof.
  intros l c. cbn [In]. rewrite in_map_iff. split.
  - intros [H|[c' [E H]]]; [now left|right]. now exists DirU, c'.
  - intros [H|[[] [c' [E H]]]]; cbn in H; try contradiction; [now left|right]. now exists c'.
Qed.
Lemma parts_lr : forall la lb, parts (sub2 la lb) (ask :: map (push DirL) la ++ map (push DirR) lb).
Proof.
  intros la lb c. cbn [In]. rewrite in_app_iff, !in_map_iff. split.
  - intros [H|[[c' [E H]]|[c' [E H]]]]; [now left|right; now exists DirL, c'|right; now exists DirR, c'].
  - intros [H|[[] [c' [E H]]]]; cbn in H; try contradiction; [now left|right; left; now exists c'|right; right; now exists c'].
Qed.
Lemma parts_rl : forall la lb, parts (sub2 la lb) (ask :: map (push DirR) lb ++ map (push DirL) la).
Proof.
  intros la lb c. rewrite <- (parts_lr la lb c). cbn [In]. rewrite !in_app_iff. tauto.
Qed.
Lemma parts_l : forall la, parts (sub2 la []) (ask :: map (push DirL) la).
Proof. intros la. pose proof (parts_lr la []) as H. cbn [map] in H. now rewrite app_nil_r in H. Qed.
Lemma parts_r : forall lb, parts (sub2 [] lb) (ask :: map (push DirR) lb).
Proof. intros lb. exact (parts_lr [] lb). Qed.

(** ** Which calls are made *)
Definition right_calls (e : expr') (l : list mcall) : Prop :=
  (forall p b, In (MAsked p b) l -> allowed n l p /\ exists t, at_path e p = Some t /\ leaf t = false) /\
  (forall p r, In (MGave p r) l -> allowed n l p /\ exists t, at_path e p = Some t /\ (leaf t = true \/ In (MAsked p (Ok true)) l)).

Lemma allowed_nil : forall l, allowed n l [].
Proof. intros l c d q E. destruct c; discriminate. Qed.

Lemma right_nil : forall e, right_calls e [].
Proof. split; intros ? ? []. Qed.

Lemma right_parts : forall e sub l, leaf e = false -> parts sub l ->
  (forall d, sub d <> [] -> exists a, at_path e [d] = Some a /\ (forall q, at_path e (d :: q) = at_path a q) /\ right_calls a (sub d)) ->
  right_calls e l.
Proof.
  intros e sub l L P H. split.
  - intros p b I. apply (parts_asked _ _ _ _ P) in I as [[-> ->]|[d [q [-> I]]]].
    + split; [apply allowed_nil|]. now exists e.
    + destruct (H d) as [a [_ [A [R _]]]]; [intros E; now rewrite E in I|]. destruct (R q b I) as [Al [t [T Lt]]].
      split; [now apply (parts_allowed _ _ _ _ P)|]. exists t. now rewrite A.
  - intros p r I. apply (parts_gave _ _ _ _ P) in I as [d [q [-> I]]].
    destruct (H d) as [a [_ [A [_ R]]]]; [intros E; now rewrite E in I|]. destruct (R q r I) as [Al [t [T Lt]]].
    split; [now apply (parts_allowed _ _ _ _ P)|]. exists t. rewrite A. split; [exact T|]. destruct Lt as [Lt|Lt]; [now left|right].
    apply (parts_asked _ _ _ _ P). right. eauto.
Qed.

Lemma run_right : forall e l o, run e l o -> right_calls e l.
Proof.
  intros e l o R. induction R as [e o L|e x L|e L|e o L|op a l o R IH|lo hi w a l o R IH|op a b la lb a' o Ra IHa Rb IHb|op a b la lb b' o Rb IHb Ra IHa|op a b la o R IH F|op a b lb o R IH F].
  - split; intros p r [E|[]]; inversion E; subst. split; [apply allowed_nil|]. exists e. auto.
  - split; intros p r [E|[]]; inversion E; subst. split; [apply allowed_nil|]. exists e. auto.
  - split; intros p r [E|[]]; inversion E; subst. split; [apply allowed_nil|]. exists e. auto.
  - split; intros p r [E|[E|[]]]; inversion E; subst; (split; [apply allowed_nil|]); exists e; split; auto. right. now left.
  - eapply right_parts; [reflexivity|apply (parts_un l)|]. intros [] N; cbn in *; try (now elim N); eauto.
  - eapply right_parts; [reflexivity|apply (parts_un l)|]. intros [] N; cbn in *; try (now elim N); eauto.
  - eapply right_parts; [reflexivity|apply (parts_lr la lb)|]. intros [] N; cbn in *; try (now elim N); eauto.
  - eapply right_parts; [reflexivity|apply (parts_rl la lb)|]. intros [] N; cbn in *; try (now elim N); eauto.
  - eapply right_parts; [reflexivity|apply (parts_l la)|]. intros [] N; cbn in *; try (now elim N); eauto.
  - eapply right_parts; [reflexivity|apply (parts_r lb)|]. intros [] N; cbn in *; try (now elim N); eauto.
Qed.

(** ** No call twice *)
Lemma nodup_push : forall d l, NoDup (map (which_call n) l) -> NoDup (map (which_call n) (map (push d) l)).
Proof.
  intros d l. induction l as [|c l IH]; cbn; [constructor|]. intros H. inversion H as [|x y N D]; subst. constructor; [|now apply IH].
  intros I. apply N. rewrite map_map in I. apply in_map_iff in I as [c' [E I]]. apply in_map_iff. exists c'. split; [|exact I].
  destruct c, c'; cbn in *; inversion E; now subst.
Qed.
Lemma which_push : forall d l x, In x (map (which_call n) (map (push d) l)) -> exists p, snd x = d :: p.
Proof.
  intros d l x I. rewrite map_map in I. apply in_map_iff in I as [[q a|q a] [<- _]]; cbn; eauto.
Qed.
Lemma nodup_app' : forall A (l m : list A), NoDup l -> NoDup m -> (forall x, In x l -> ~ In x m) -> NoDup (l ++ m).
Proof.
  intros A l m. induction l as [|x l IH]; cbn; auto. intros H M D. inversion H; subst. constructor.
  - rewrite in_app_iff. intros [I|I]; [auto|]. apply (D x); auto.
  - apply IH; auto.
Qed.
Lemma run_nodup : forall e l o, run e l o -> NoDup (map (which_call n) l).
Proof.
  assert (U : forall d l, NoDup (map (which_call n) l) -> NoDup (map (which_call n) (ask :: map (push d) l))).
  { intros d l H. cbn. constructor; [|now apply nodup_push]. intros I. apply which_push in I as [p E]. discriminate. }
  assert (B : forall d d' l l', d <> d' -> NoDup (map (which_call n) l) -> NoDup (map (which_call n) l') ->
    NoDup (map (which_call n) (ask :: map (push d) l ++ map (push d') l'))).
  { intros d d' l l' N H H'. cbn. rewrite map_app. constructor.
    - rewrite in_app_iff. intros [I|I]; apply which_push in I as [p E]; discriminate.
    - apply nodup_app'; try now apply nodup_push. intros x I I'. apply which_push in I as [p E]. apply which_push in I' as [p' E'].
      rewrite E in E'. inversion E'. now apply N. }
  intros e l o R. induction R; auto; try (cbn; repeat constructor; cbn; intuition discriminate).
  - apply B; auto. discriminate.
  - apply B; auto. discriminate.
Qed.

(** ** What comes out *)
Lemma returned_push : forall d l, Forall (mreturned n) l -> Forall (mreturned n) (map (push d) l).
Proof. intros d l H. apply Forall_map. eapply Forall_impl; [|exact H]. now intros [q [a|x|]|q [a|x|]]. Qed.

Lemma run_returned : forall e l o, run e l o ->
  match o with
  | Ok _ => Forall (mreturned n) l
  | _ => exists l1 c, l = l1 ++ [c] /\ Forall (mreturned n) l1 /\ mended n c o
  end.
Proof.
  assert (AK : mreturned n ask) by exact I.
  assert (FL : forall d l l0 c o, l = l0 ++ [c] -> Forall (mreturned n) l0 -> mended n c o -> forall m, Forall (mreturned n) m ->
    exists l1 c', m ++ map (push d) l = l1 ++ [c'] /\ Forall (mreturned n) l1 /\ mended n c' o).
  { intros d l l0 c o -> F E m M. exists (m ++ map (push d) l0), (push d c). split; [rewrite map_app, app_assoc; reflexivity|].
    split; [apply Forall_app; split; [exact M|now apply returned_push]|]. destruct c as [q [a|x|]|q [a|x|]]; exact E. }
  intros e l o R. induction R as [e o L|e x L|e L|e o L|op a l o R IH|lo hi w a l o R IH|op a b la lb a' o Ra IHa Rb IHb|op a b la lb b' o Rb IHb Ra IHa|op a b la o R IH F|op a b lb o R IH F].
  - destruct o as [t|x|]; [repeat constructor| |]; exists []; eexists; (split; [reflexivity|]); split; cbn; auto.
  - exists []; eexists; (split; [reflexivity|]); split; cbn; auto.
  - exists []; eexists; (split; [reflexivity|]); split; cbn; auto.
  - destruct o as [t|x|]; [repeat constructor| |]; exists [MAsked [] (Ok true)]; eexists; (split; [reflexivity|]); split; cbn; auto; repeat constructor.
  - destruct o as [t|x|]; cbn [omap bind]; [constructor; [exact AK|now apply returned_push]| |];
      destruct IH as [l1 [c [E [F M]]]]; apply (FL DirU _ _ _ _ E F M [ask]); repeat constructor.
  - destruct o as [t|x|]; cbn [omap bind]; [constructor; [exact AK|now apply returned_push]| |];
      destruct IH as [l1 [c [E [F M]]]]; apply (FL DirU _ _ _ _ E F M [ask]); repeat constructor.
  - assert (Q : Forall (mreturned n) (ask :: map (push DirL) la)) by (constructor; [exact AK|now apply returned_push]).
    destruct o as [t|x|]; cbn [omap bind].
    + rewrite app_comm_cons. apply Forall_app. split; [exact Q|now apply returned_push].
    + destruct IHb as [l1 [c [E [F M]]]]. exact (FL DirR _ _ _ _ E F M (ask :: map (push DirL) la) Q).
    + destruct IHb as [l1 [c [E [F M]]]]. exact (FL DirR _ _ _ _ E F M (ask :: map (push DirL) la) Q).
  - assert (Q : Forall (mreturned n) (ask :: map (push DirR) lb)) by (constructor; [exact AK|now apply returned_push]).
    destruct o as [t|x|]; cbn [omap bind].
    + rewrite app_comm_cons. apply Forall_app. split; [exact Q|now apply returned_push].
    + destruct IHa as [l1 [c [E [F M]]]]. exact (FL DirL _ _ _ _ E F M (ask :: map (push DirR) lb) Q).
    + destruct IHa as [l1 [c [E [F M]]]]. exact (FL DirL _ _ _ _ E F M (ask :: map (push DirR) lb) Q).
  - destruct o as [t|x|]; [contradiction| |]; destruct IH as [l1 [c [E [F' M]]]]; apply (FL DirL _ _ _ _ E F' M [ask]); repeat constructor.
  - destruct o as [t|x|]; [contradiction| |]; destruct IH as [l1 [c [E [F' M]]]]; apply (FL DirR _ _ _ _ E F' M [ask]); repeat constructor.
Qed.

Definition covered (e : expr') (l : list mcall) (e' : expr') : Prop :=
  forall p t, at_path e p = Some t -> allowed n l p ->
    if leaf t then exists r, In (MGave p (Ok r)) l /\ at_path e' p = Some r
    else (exists r, In (MAsked p (Ok true)) l /\ In (MGave p (Ok r)) l /\ at_path e' p = Some r) \/
         (In (MAsked p (Ok false)) l /\ exists t', at_path e' p = Some t' /\ same_head t t').

Lemma covered_parts : forall e e' sub l, leaf e = false -> same_head e e' -> parts sub l ->
  (forall d q t, at_path e (d :: q) = Some t -> exists a a', at_path a q = Some t /\ at_path e' (d :: q) = at_path a' q /\ covered a (sub d) a') ->
  covered e l e'.
Proof.
  intros e e' sub l L SH P H [|d q] t At Al.
  - cbn in At. injection At as <-. rewrite L. right. split; [apply (parts_asked _ _ _ _ P); now left|]. exists e'. now split.
  - destruct (H d q t At) as [a [a' [A [-> C]]]]. apply (parts_allowed _ _ _ _ P) in Al. specialize (C q t A Al).
    destruct (leaf t).
    + destruct C as [r [I E]]. exists r. split; [apply (parts_gave _ _ _ _ P); eauto|exact E].
    + destruct C as [[r [I1 [I2 E]]]|[I1 E]]; [left; exists r|right]; repeat split; auto;
        try (apply (parts_gave _ _ _ _ P); now eauto); apply (parts_asked _ _ _ _ P); right; eauto.
Qed.

Lemma run_covered : forall e l o, run e l o -> forall e', o = Ok e' -> covered e l e'.
Proof.
  intros e l o R. induction R as [e o L|e x L|e L|e o L|op a l o R IH|lo hi w a l o R IH|op a b la lb a' o Ra IHa Rb IHb|op a b la lb b' o Rb IHb Ra IHa|op a b la o R IH F|op a b lb o R IH F]; intros e' E; try discriminate.
  - subst o. intros p t At Al. destruct p as [|d q].
    + cbn in At. injection At as <-. rewrite L. exists e'. split; [now left|reflexivity].
    + exfalso. destruct e; try discriminate; destruct d; discriminate.
  - subst o. intros p t At Al. destruct p as [|d q].
    + cbn in At. injection At as <-. rewrite L. left. exists e'. split; [now left|]. split; [right; now left|reflexivity].
    + exfalso. destruct (Al [] d q eq_refl) as [K|[K|[]]]; discriminate.
  - destruct o as [t|x|]; try discriminate. injection E as <-. apply covered_parts with (sub := sub1 l); [reflexivity|reflexivity|apply parts_un|].
    intros [] q u At; try discriminate. exists a, t. split; [exact At|]. split; [reflexivity|]. now apply IH.
  - destruct o as [t|x|]; try discriminate. injection E as <-. apply covered_parts with (sub := sub1 l); [reflexivity|repeat split|apply parts_un|].
    intros [] q u At; try discriminate. exists a, t. split; [exact At|]. split; [reflexivity|]. now apply IH.
  - destruct o as [t|x|]; try discriminate. injection E as <-. apply covered_parts with (sub := sub2 la lb); [reflexivity|reflexivity|apply parts_lr|].
    intros [] q u At; try discriminate.
    + exists a, a'. split; [exact At|]. split; [reflexivity|]. now apply IHa.
    + exists b, t. split; [exact At|]. split; [reflexivity|]. now apply IHb.
  - destruct o as [t|x|]; try discriminate. injection E as <-. apply covered_parts with (sub := sub2 la lb); [reflexivity|reflexivity|apply parts_rl|].
    intros [] q u At; try discriminate.
    + exists a, t. split; [exact At|]. split; [reflexivity|]. now apply IHa.
    + exists b, b'. split; [exact At|]. split; [reflexivity|]. now apply IHb.
  - subst o. contradiction.
  - subst o. contradiction.
Qed.

(** ** In which order *)
Definition ordered (e : expr') (l : list mcall) : Prop :=
  forall p op x y, at_path e p = Some (EBin op x y) -> In (MAsked p (Ok false)) l ->
    exists l1 u w l2 d d', l = l1 ++ MAsked p (Ok false) :: u ++ w ++ l2 /\
      ((d = DirL /\ d' = DirR) \/ (d = DirR /\ d' = DirL)) /\
      Forall (within n (p ++ [d])) u /\ Forall (within n (p ++ [d'])) w /\
      Forall (fun c => ~ within n p c) (l1 ++ l2).

Lemma within_push : forall d p c, within n (d :: p) (push d c) <-> within n p c.
Proof.
  intros d p c. unfold within. assert (place n (push d c) = d :: place n c) as -> by now destruct c.
  split; intros [q E]; exists q; [now inversion E|cbn; now rewrite E].
Qed.
Lemma within_other : forall d d' p c, d <> d' -> ~ within n (d' :: p) (push d c).
Proof. intros d d' p c N [q E]. destruct c; cbn in E; inversion E; now apply N. Qed.

Lemma ordered_push : forall e a d l pre post, (forall q, at_path e (d :: q) = at_path a q) -> ordered a l ->
  Forall (fun c => forall p, ~ within n (d :: p) c) (pre ++ post) ->
  forall p op x y, at_path e (d :: p) = Some (EBin op x y) -> In (MAsked p (Ok false)) l ->
    exists l1 u w l2 k k', pre ++ map (push d) l ++ post = l1 ++ MAsked (d :: p) (Ok false) :: u ++ w ++ l2 /\
      ((k = DirL /\ k' = DirR) \/ (k = DirR /\ k' = DirL)) /\
      Forall (within n ((d :: p) ++ [k])) u /\ Forall (within n ((d :: p) ++ [k'])) w /\
      Forall (fun c => ~ within n (d :: p) c) (l1 ++ l2).
Proof.
  intros e a d l pre post A O PP p op x y At I. rewrite A in At.
  destruct (O p op x y At I) as [l1 [u [w [l2 [k [k' [E [K [U [W N]]]]]]]]]].
  exists (pre ++ map (push d) l1), (map (push d) u), (map (push d) w), (map (push d) l2 ++ post), k, k'.
  apply Forall_app in PP as [P1 P2]. apply Forall_app in N as [N1 N2].
  assert (NP : forall m, Forall (fun c => ~ within n p c) m -> Forall (fun c => ~ within n (d :: p) c) (map (push d) m)).
  { intros m H. apply Forall_map. eapply Forall_impl; [|exact H]. intros c H'. now rewrite within_push. }
  assert (WP : forall k0 m, Forall (within n (p ++ [k0])) m -> Forall (within n ((d :: p) ++ [k0])) (map (push d) m)).
  { intros k0 m H. apply Forall_map. eapply Forall_impl; [|exact H]. intros c H'. cbn [app]. now rewrite within_push. }
  split; [|split; [exact K|split; [now apply WP|split; [now apply WP|]]]].
  - rewrite E. rewrite !map_app. cbn [map push]. rewrite !map_app. rewrite <- !app_assoc. cbn [app]. rewrite <- !app_assoc. reflexivity.
  - rewrite !Forall_app. repeat split; auto.
    + eapply Forall_impl; [|exact P1]. cbn. auto.
    + eapply Forall_impl; [|exact P2]. cbn. auto.
Qed.

Lemma ask_out : forall d p, ~ within n (d :: p) ask.
Proof. intros d p [q E]. discriminate. Qed.
Lemma pushed_in : forall d l, Forall (within n ([] ++ [d])) (map (push d) l).
Proof. intros d l. apply Forall_map. apply Forall_forall. intros c _. exists (place n c). now destruct c. Qed.
Lemma pushed_out : forall d d' l, d <> d' -> Forall (fun c => forall p, ~ within n (d' :: p) c) (map (push d) l).
Proof. intros d d' l N. apply Forall_map. apply Forall_forall. intros c _ p. now apply within_other. Qed.

Lemma run_ordered : forall e l o, run e l o -> ordered e l.
Proof.
  assert (AO : forall d, Forall (fun c => forall p, ~ within n (d :: p) c) [ask]).
  { intros d. constructor; [intros p; apply ask_out|constructor]. }
  assert (UN : forall e a l, (forall q, at_path e (DirU :: q) = at_path a q) -> (forall op x y, e <> EBin op x y) -> ordered a l ->
    ordered e (ask :: map (push DirU) l)).
  { intros e a l A NB O p op x y At I. apply (parts_asked _ _ _ _ (parts_un l)) in I as [[-> _]|[d [q [-> I]]]].
    - cbn in At. injection At as At. elim (NB _ _ _ At).
    - destruct d; cbn in I; try contradiction. pose proof (ordered_push e a DirU l [ask] [] A O) as H. rewrite app_nil_r in H. specialize (H (AO _) q op x y At I). rewrite app_nil_r in H. exact H. }
  assert (BI : forall op a b d d' l l' x x', ((d = DirL /\ d' = DirR) \/ (d = DirR /\ d' = DirL)) ->
    (forall q, at_path (EBin op a b) (d :: q) = at_path x q) -> (forall q, at_path (EBin op a b) (d' :: q) = at_path x' q) ->
    ordered x l -> ordered x' l' -> ordered (EBin op a b) (ask :: map (push d) l ++ map (push d') l')).
  { intros op a b d d' l l' x x' K A A' O O' p op' y z At I.
    assert (ND : d <> d') by (destruct K as [[-> ->]|[-> ->]]; discriminate).
    destruct I as [I|I]; [inversion I; subst p|].
    - exists [], (map (push d) l), (map (push d') l'), [], d, d'. rewrite app_nil_r. split; [reflexivity|]. split; [exact K|].
      split; [apply pushed_in|]. split; [apply pushed_in|]. constructor.
    - apply in_app_iff in I as [I|I]; apply in_asked in I as [q [-> I]].
      + refine (ordered_push _ x d l [ask] (map (push d') l') A O _ q op' y z At I). apply Forall_app. split; [apply AO|].
        apply pushed_out. intros E. now apply ND.
      + pose proof (ordered_push _ x' d' l' (ask :: map (push d) l) [] A' O') as H. rewrite !app_nil_r in H.
        refine (H _ q op' y z At I). constructor; [intros r; apply ask_out|]. now apply pushed_out. }
  intros e l o R. induction R as [e o L|e x L|e L|e o L|op a l o R IH|lo hi w a l o R IH|op a b la lb a' o Ra IHa Rb IHb|op a b la lb b' o Rb IHb Ra IHa|op a b la o R IH F|op a b lb o R IH F].
  - intros p op x y At [I|[]]; discriminate.
  - intros p op y z At [I|[]]; discriminate.
  - intros p op y z At [I|[]]; discriminate.
  - intros p op y z At [I|[I|[]]]; discriminate.
  - apply (UN _ a); auto. discriminate.
  - apply (UN _ a); auto. discriminate.
  - apply (BI op a b DirL DirR la lb a b); auto.
  - apply (BI op a b DirR DirL lb la b a); auto.
  - pose proof (BI op a b DirL DirR la [] a b) as H. cbn [map] in H. rewrite app_nil_r in H. apply H; auto. intros p ? ? ? ? [].
  - pose proof (BI op a b DirR DirL lb [] b a) as H. cbn [map] in H. rewrite app_nil_r in H. apply H; auto. intros p ? ? ? ? [].
Qed.

(** ** Functors without state *)
Section Stateless.
Context (S1 S2 : Type) (o1 : list dir -> S1 -> bool) (o2 : list dir -> S2 -> bool).
Context (m1 : list dir -> expr n -> S1 -> outcome bool * S1) (a1 : list dir -> expr n -> S1 -> outcome (expr n) * S1).
Context (m2 : list dir -> expr n -> S2 -> outcome bool * S2) (a2 : list dir -> expr n -> S2 -> outcome (expr n) * S2).
Context (Hm : forall p e s s', fst (m1 p e s) = fst (m2 p e s')) (Ha : forall p e s s', fst (a1 p e s) = fst (a2 p e s')).

Lemma stateless_same : forall e p s s' e', fst (smanipulate n S1 o1 m1 a1 p e s) = Ok e' -> fst (smanipulate n S2 o2 m2 a2 p e s') = Ok e'.
Proof.
  induction e as [c|i|i t|op a IH|lo hi w a _ _ IH|op l r IHl IHr|es _] using expr_ind'; intros p s s' e' E; cbn [smanipulate] in *;
    try (rewrite <- E; symmetry; apply Ha).
  - pose proof (Hm p (EUn op a) s s') as M. destruct (m1 p (EUn op a) s) as [[[]|x|] t1], (m2 p (EUn op a) s') as [[[]|x'|] t2]; cbn in *; try discriminate.
    + rewrite <- E. symmetry. apply Ha.
    + specialize (IH (p ++ [DirU]) t1 t2). destruct (smanipulate n S1 o1 m1 a1 (p ++ [DirU]) a t1) as [[a'|x|] u1]; try discriminate.
      specialize (IH a' eq_refl). destruct (smanipulate n S2 o2 m2 a2 (p ++ [DirU]) a t2) as [[b'|x|] u2]; try discriminate.
      cbn in *. injection IH as ->. exact E.
  - pose proof (Hm p (EInt lo hi w a) s s') as M. destruct (m1 p (EInt lo hi w a) s) as [[[]|x|] t1], (m2 p (EInt lo hi w a) s') as [[[]|x'|] t2]; cbn in *; try discriminate.
    + rewrite <- E. symmetry. apply Ha.
    + specialize (IH (p ++ [DirU]) t1 t2). destruct (smanipulate n S1 o1 m1 a1 (p ++ [DirU]) a t1) as [[a'|x|] u1]; try discriminate.
      specialize (IH a' eq_refl). destruct (smanipulate n S2 o2 m2 a2 (p ++ [DirU]) a t2) as [[b'|x|] u2]; try discriminate.
      cbn in *. injection IH as ->. exact E.
  - pose proof (Hm p (EBin op l r) s s') as M. destruct (m1 p (EBin op l r) s) as [[[]|x|] t1], (m2 p (EBin op l r) s') as [[[]|x'|] t2]; cbn in *; try discriminate.
    + rewrite <- E. symmetry. apply Ha.
    + assert (Q : exists l' r' q1 q2, fst (smanipulate n S1 o1 m1 a1 (p ++ [DirL]) l q1) = Ok l' /\ fst (smanipulate n S1 o1 m1 a1 (p ++ [DirR]) r q2) = Ok r' /\ e' = EBin op l' r').
      { destruct (o1 p t1).
        - destruct (smanipulate n S1 o1 m1 a1 (p ++ [DirL]) l t1) as [[l'|x|] u1] eqn:EL; try discriminate. cbn in E.
          destruct (smanipulate n S1 o1 m1 a1 (p ++ [DirR]) r u1) as [[r'|x|] u2] eqn:ER; try discriminate. cbn in E. injection E as <-.
          exists l', r', t1, u1. rewrite EL, ER. auto.
        - destruct (smanipulate n S1 o1 m1 a1 (p ++ [DirR]) r t1) as [[r'|x|] u1] eqn:ER; try discriminate. cbn in E.
          destruct (smanipulate n S1 o1 m1 a1 (p ++ [DirL]) l u1) as [[l'|x|] u2] eqn:EL; try discriminate. cbn in E. injection E as <-.
          exists l', r', u1, t1. rewrite EL, ER. auto. }
      destruct Q as [l' [r' [q1 [q2 [EL [ER ->]]]]]].
      assert (QL : forall u, exists u', smanipulate n S2 o2 m2 a2 (p ++ [DirL]) l u = (Ok l', u')).
      { intros u. pose proof (IHl (p ++ [DirL]) q1 u l' EL) as H. destruct (smanipulate n S2 o2 m2 a2 (p ++ [DirL]) l u) as [k u']. cbn in H. rewrite H. eauto. }
      assert (QR : forall u, exists u', smanipulate n S2 o2 m2 a2 (p ++ [DirR]) r u = (Ok r', u')).
      { intros u. pose proof (IHr (p ++ [DirR]) q2 u r' ER) as H. destruct (smanipulate n S2 o2 m2 a2 (p ++ [DirR]) r u) as [k u']. cbn in H. rewrite H. eauto. }
      destruct (o2 p t2).
      * destruct (QL t2) as [u' ->]. cbn. destruct (QR u') as [u'' ->]. reflexivity.
      * destruct (QR t2) as [u' ->]. cbn. destruct (QL u') as [u'' ->]. reflexivity.
Qed.
End Stateless.
End Facts.

(** ** What the functor is given *)
Lemma sees_nodes : forall (n : num) (S : Type) (order : list dir -> S -> bool)
  (m1 m2 : list dir -> expr n -> S -> outcome bool * S) (a1 a2 : list dir -> expr n -> S -> outcome (expr n) * S) e p,
  (forall q t s, at_path e q = Some t -> leaf t = false -> m1 (p ++ q) t s = m2 (p ++ q) t s) ->
  (forall q t s, at_path e q = Some t -> a1 (p ++ q) t s = a2 (p ++ q) t s) ->
  forall s, smanipulate n S order m1 a1 p e s = smanipulate n S order m2 a2 p e s.
Proof.
  intros n S order m1 m2 a1 a2.
  assert (AT : forall A B (r : outcome A * S) (k k' : A -> S -> outcome B * S), (forall a s, k a s = k' a s) -> andthen S r k = andthen S r k').
  { intros A B [[x|x|] s] k k' H; cbn; auto. }
  induction e as [c|i|i t|op a IH|lo hi w a _ _ IH|op l r IHl IHr|es _] using expr_ind'; intros p Hm Ha s;
    pose proof (Hm [] _ s eq_refl) as M; cbn [leaf] in M; pose proof (fun s => Ha [] _ s eq_refl) as A; rewrite app_nil_r in M, A; cbn [smanipulate]; auto.
  - rewrite (M eq_refl). apply AT. intros [] s1; auto. f_equal. apply IH; intros q t s2 E; [intros Lf; rewrite <- app_assoc; apply (Hm (_ :: q)); [exact E|exact Lf]|rewrite <- app_assoc; apply (Ha (_ :: q)); exact E].
  - rewrite (M eq_refl). apply AT. intros [] s1; auto. f_equal. apply IH; intros q t s2 E; [intros Lf; rewrite <- app_assoc; apply (Hm (_ :: q)); [exact E|exact Lf]|rewrite <- app_assoc; apply (Ha (_ :: q)); exact E].
  - assert (L : forall s1, smanipulate n S order m1 a1 (p ++ [DirL]) l s1 = smanipulate n S order m2 a2 (p ++ [DirL]) l s1).
    { apply IHl; intros q t s2 E; [intros Lf; rewrite <- app_assoc; apply (Hm (_ :: q)); [exact E|exact Lf]|rewrite <- app_assoc; apply (Ha (_ :: q)); exact E]. }
    assert (R : forall s1, smanipulate n S order m1 a1 (p ++ [DirR]) r s1 = smanipulate n S order m2 a2 (p ++ [DirR]) r s1).
    { apply IHr; intros q t s2 E; [intros Lf; rewrite <- app_assoc; apply (Hm (_ :: q)); [exact E|exact Lf]|rewrite <- app_assoc; apply (Ha (_ :: q)); exact E]. }
    rewrite (M eq_refl). apply AT. intros [] s1; auto. destruct (order p s1).
    + rewrite L. apply AT. intros l' s2. rewrite R. reflexivity.
    + rewrite R. apply AT. intros r' s2. rewrite L. reflexivity.
Qed.
