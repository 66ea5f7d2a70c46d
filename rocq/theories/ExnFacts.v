(** Lemmas for C76. *)
From Coq Require Import String ZArith NArith List Bool Lia.
From Verif Require Import Outcome Num RtModel RtSpec RtFacts ExnModel ExnSpec.
Import ListNotations.

Lemma and_then_nil a b : and_then a b = [] <-> a = [] /\ b = [].
Proof. destruct a; cbn; [intuition | split; [intros; discriminate | intros [? _]; discriminate]]. Qed.

Lemma in_and_then t a b : In t (and_then a b) <-> In t a \/ (a = [] /\ In t b).
Proof. destruct a; cbn; intuition; discriminate. Qed.

Section Facts.
Context (n : num).

Lemma u_throws_apply op (x : n) :
  (u_throws op = [] /\ exists y, u_apply n op x = Ok y) \/
  (exists t, u_throws op = [t] /\ u_apply n op x = Throw (as_exn t)).
Proof. destruct op; cbn; eauto. Qed.

Lemma b_throws_apply op (x y : n) :
  (b_throws op = [] /\ exists z, b_apply n op x y = Ok z) \/
  (exists t, b_throws op = [t] /\ b_apply n op x y = Throw (as_exn t)).
Proof. destruct op; cbn; eauto. Qed.

Lemma eval_throws_nil (v : list n) e : eval_throws n v e = [] <-> exists x, eval n e v = Ok x.
Proof.
  induction e as [c | i | i t | op a IH | lo hi w a _ _ IH | op l r IHl IHr | es IHes] using expr_ind'; cbn [eval_throws eval].
  - split; eauto.
  - destruct (N.leb_spec (N.of_nat (length v)) i) as [H | H].
    + split; [discriminate | intros [x E]; discriminate].
    + split; [intros _ | reflexivity]. destruct (nth_error v (N.to_nat i)) eqn:E; [eauto | ].
      apply nth_error_None in E. lia.
  - split; [discriminate | intros [x E]; discriminate].
  - rewrite and_then_nil, IH. split.
    + intros [[x E] U]. rewrite E. cbn. destruct (u_throws_apply op x) as [[_ H] | (t & H & _)]; [exact H | congruence].
    + intros [y E]. destruct (eval n a v) as [x | z | ] eqn:A; cbn in E; try discriminate. split; [eauto | ].
      destruct (u_throws_apply op x) as [[H _] | (t & _ & H)]; [exact H | congruence].
  - rewrite and_then_nil. split; [intros [_ H]; discriminate | ].
    intros [y E]. destruct (eval n a v); discriminate.
  - rewrite and_then_nil. split.
    + intros [H U]. apply app_eq_nil in H as [Hl Hr]. apply IHl in Hl as [x El]. apply IHr in Hr as [y Er].
      rewrite El, Er. cbn. destruct (b_throws_apply op x y) as [[_ H] | (t & H & _)]; [exact H | congruence].
    + intros [z E]. destruct (eval n l v) as [x | p | ] eqn:L; destruct (eval n r v) as [y | q | ] eqn:R; try discriminate.
      cbn in E. rewrite (proj2 IHl), (proj2 IHr) by eauto. split; [reflexivity | ].
      destruct (b_throws_apply op x y) as [[H _] | (t & _ & H)]; [exact H | congruence].
  - split; [discriminate | intros [x E]; discriminate].
Qed.

Lemma eval_not_UB (v : list n) e : eval n e v <> UB.
Proof.
  induction e as [c | i | i t | op a IH | lo hi w a _ _ IH | op l r IHl IHr | es IHes] using expr_ind'; cbn [eval]; try discriminate.
  - destruct (N.leb_spec (N.of_nat (length v)) i) as [H | H]; [discriminate | ].
    destruct (nth_error v (N.to_nat i)) eqn:E; [discriminate | apply nth_error_None in E; lia].
  - destruct (eval n a v); cbn; try congruence. destruct op; discriminate.
  - destruct (eval n a v); cbn; try congruence.
  - destruct (eval n l v), (eval n r v); cbn; try congruence. destruct op; discriminate.
Qed.

Lemma eval_throws_evals (v : list n) e x :
  evals v e (Throw x) <-> exists t, In t (eval_throws n v e) /\ as_exn t = x.
Proof.
  assert (OKS : forall e y, evals v e (Ok y) <-> eval n e v = Ok y).
  { clear e x. induction e as [c | i | i t | op a IH | lo hi w a _ _ IH | op l r IHl IHr | es IHes] using expr_ind';
      intros y; cbn [eval].
    - split; intros H; inversion H; subst; [reflexivity | constructor].
    - destruct (N.leb_spec (N.of_nat (length v)) i) as [H | H].
      + split; [intros K; inversion K; subst | discriminate].
        assert (nth_error v (N.to_nat i) <> None) as A by congruence. apply nth_error_Some in A. lia.
      + split.
        * intros K; inversion K; subst. match goal with E : nth_error _ _ = Some _ |- _ => rewrite E end. reflexivity.
        * destruct (nth_error v (N.to_nat i)) eqn:E; intros K; inversion K; subst. now constructor.
    - split; intros H; inversion H.
    - split.
      + intros K; inversion K; subst. match goal with E : evals _ _ (Ok _) |- _ => apply IH in E; rewrite E end.
        cbn. congruence.
      + destruct (eval n a v) as [z | z | ] eqn:A; cbn; intros K; try discriminate. rewrite <- K. constructor.
        now apply IH.
    - split; [intros K; inversion K | destruct (eval n a v); discriminate].
    - split.
      + intros K; inversion K; subst.
        repeat match goal with
               | E : evals _ l (Ok _) |- _ => apply IHl in E; rewrite E
               | E : evals _ r (Ok _) |- _ => apply IHr in E; rewrite E
               end. cbn. congruence.
      + destruct (eval n l v) as [z | z | ] eqn:L; destruct (eval n r v) as [z' | z' | ] eqn:R; cbn; intros K; try discriminate.
        rewrite <- K. constructor; [now apply IHl | now apply IHr].
    - split; intros H; inversion H. }
  revert x.
  induction e as [c | i | i t | op a IH | lo hi w a _ _ IH | op l r IHl IHr | es IHes] using expr_ind'; intros x; cbn [eval_throws].
  - split; [intros H; inversion H | intros (t & [] & _)].
  - destruct (N.leb_spec (N.of_nat (length v)) i) as [H | H].
    + split.
      * intros K; inversion K; subst. eexists; split; [left; reflexivity | reflexivity].
      * intros (t & [<- | []] & <-). constructor. apply nth_error_None. lia.
    + split; [intros K; inversion K; subst | intros (t & [] & _)].
      match goal with E : nth_error _ _ = None |- _ => apply nth_error_None in E; lia end.
  - split; [intros H; inversion H; subst; eexists; split; [left; reflexivity | reflexivity] |
            intros (u & [<- | []] & <-); constructor].
  - split.
    + intros K. inversion K as [ | | | | | o a' y E Ho | o a' y E Ho | | | | | ]; subst; clear K.
      * apply OKS in E. assert (eval_throws n v a = []) as N0 by (apply eval_throws_nil; eauto).
        rewrite N0. cbn. destruct (u_throws_apply op y) as [[_ [z U]] | (t & U & W)]; [congruence | ].
        exists t. rewrite U. split; [now left | congruence].
      * apply IH in E as (t & I & J). exists t. split; [ | exact J]. apply in_and_then. now left.
    + intros (t & I & J). apply in_and_then in I as [I | [N0 I]].
      * apply evals_un_throw. apply IH. eauto.
      * apply eval_throws_nil in N0 as [y E].
        destruct (u_throws_apply op y) as [[U _] | (t' & U & W)]; rewrite U in I; [destruct I | ].
        destruct I as [<- | []]. rewrite <- J, <- W. constructor. now apply OKS.
  - split.
    + intros K. inversion K; subst; clear K.
      * match goal with E : evals _ _ (Ok _) |- _ => apply OKS in E; pose proof E as E' end.
        assert (eval_throws n v a = []) as N0 by (apply eval_throws_nil; eauto).
        rewrite N0. eexists; split; [left; reflexivity | reflexivity].
      * match goal with E : evals _ _ (Throw _) |- _ => apply IH in E as (t & I & J) end.
        exists t. split; [ | exact J]. apply in_and_then. now left.
    + intros (t & I & J). apply in_and_then in I as [I | [N0 I]].
      * apply evals_int_throw. apply IH. eauto.
      * apply eval_throws_nil in N0 as [y E]. destruct I as [<- | []]. subst x. cbn.
        apply (evals_int _ _ _ _ _ y). now apply OKS.
  - split.
    + intros K. inversion K as [ | | | | | | | | | o l' r' p q El Er Ho | o l' r' y E | o l' r' y E]; subst; clear K.
      * apply OKS in El. apply OKS in Er.
        assert (eval_throws n v l = []) as N0 by (apply eval_throws_nil; eauto).
        assert (eval_throws n v r = []) as N1 by (apply eval_throws_nil; eauto).
        rewrite N0, N1. cbn. destruct (b_throws_apply op p q) as [[_ [z U]] | (t & U & W)]; [congruence | ].
        exists t. rewrite U. split; [now left | congruence].
      * apply IHl in E as (t & I & J). exists t. split; [ | exact J]. apply in_and_then. left. apply in_app_iff. now left.
      * apply IHr in E as (t & I & J). exists t. split; [ | exact J]. apply in_and_then. left. apply in_app_iff. now right.
    + intros (t & I & J). apply in_and_then in I as [I | [N0 I]].
      * apply in_app_iff in I as [I | I]; [apply evals_left_throws, IHl | apply evals_right_throws, IHr]; eauto.
      * apply app_eq_nil in N0 as [N0 N1]. apply eval_throws_nil in N0 as [y E]. apply eval_throws_nil in N1 as [z F].
        destruct (b_throws_apply op y z) as [[U _] | (t' & U & W)]; rewrite U in I; [destruct I | ].
        destruct I as [<- | []]. rewrite <- J, <- W. constructor; now apply OKS.
  - split; [intros H; inversion H; subst; eexists; split; [left; reflexivity | reflexivity] |
            intros (u & [<- | []] & <-); constructor].
Qed.

Lemma eval_throws_fault (v : list n) e t :
  In t (eval_throws n v e) <-> exists s, operand s e /\ eval_fault v s t.
Proof.
  induction e as [c | i | i u | op a IH | lo hi w a _ _ IH | op l r IHl IHr | es IHes] using expr_ind'; cbn [eval_throws].
  - split; [intros [] | intros (s & O & F); inversion O; subst; inversion F].
  - destruct (N.leb_spec (N.of_nat (length v)) i) as [H | H]; split.
    + intros [<- | []]. exists (EVar i). split; [constructor | now constructor].
    + intros (s & O & F). inversion O; subst; inversion F; subst. now left.
    + intros [].
    + intros (s & O & F). inversion O; subst; inversion F; subst. lia.
  - split.
    + intros [<- | []]. eexists; split; constructor.
    + intros (s & O & F). inversion O; subst; inversion F; subst. now left.
  - rewrite in_and_then. split.
    + intros [I | [N0 I]].
      * apply IH in I as (s & O & F). exists s. split; [now constructor | exact F].
      * apply eval_throws_nil in N0 as [x E].
        exists (EUn op a). split; [constructor | ].
        destruct op; cbn in I; try contradiction; destruct I as [<- | []]; econstructor; eauto.
    + intros (s & O & F). inversion O; subst.
      * right. inversion F; subst; (split; [apply eval_throws_nil; eauto | now left]).
      * left. apply IH. eauto.
  - rewrite in_and_then. split.
    + intros [I | [N0 I]].
      * apply IH in I as (s & O & F). exists s. split; [now constructor | exact F].
      * apply eval_throws_nil in N0 as [x E]. destruct I as [<- | []].
        eexists. split; [constructor | ]. econstructor; eauto.
    + intros (s & O & F). inversion O; subst.
      * right. inversion F; subst; (split; [apply eval_throws_nil; eauto | now left]).
      * left. apply IH. eauto.
  - rewrite in_and_then, in_app_iff. split.
    + intros [[I | I] | [N0 I]].
      * apply IHl in I as (s & O & F). exists s. split; [now apply op_left | exact F].
      * apply IHr in I as (s & O & F). exists s. split; [now apply op_right | exact F].
      * apply app_eq_nil in N0 as [N0 N1]. apply eval_throws_nil in N0 as [y E]. apply eval_throws_nil in N1 as [z G].
        exists (EBin op l r). split; [constructor | ].
        destruct op; cbn in I; try contradiction; destruct I as [<- | []]; econstructor; eauto.
    + intros (s & O & F). inversion O; subst.
      * right. inversion F; subst. split; [ | now left].
        rewrite (proj2 (eval_throws_nil v l)), (proj2 (eval_throws_nil v r)) by eauto. reflexivity.
      * left; left. apply IHl. eauto.
      * left; right. apply IHr. eauto.
  - split.
    + intros [<- | []]. eexists; split; constructor.
    + intros (s & O & F). inversion O; subst; inversion F; subst. now left.
Qed.

Lemma unwrap_throws_nil e : unwrap_throws n e = [] <-> exists x, unwrap n e = Ok x.
Proof.
  induction e as [c | i | i t | op a IH | lo hi w a _ _ IH | op l r IHl IHr | es IHes] using expr_ind'; cbn [unwrap_throws unwrap];
    try (split; [discriminate | intros [x E]; discriminate]).
  - split; eauto.
  - rewrite and_then_nil, IH. split.
    + intros [[x E] U]. rewrite E. cbn. destruct (u_throws_apply op x) as [[_ H] | (t & H & _)]; [exact H | congruence].
    + intros [y E]. destruct (unwrap n a) as [x | z | ] eqn:A; cbn in E; try discriminate. split; [eauto | ].
      destruct (u_throws_apply op x) as [[H _] | (t & _ & H)]; [exact H | congruence].
  - rewrite and_then_nil. split; [intros [_ H]; discriminate | ].
    intros [y E]. destruct (unwrap n a); discriminate.
  - rewrite and_then_nil. split.
    + intros [H U]. apply app_eq_nil in H as [Hl Hr]. apply IHl in Hl as [x El]. apply IHr in Hr as [y Er].
      rewrite El, Er. cbn. destruct (b_throws_apply op x y) as [[_ H] | (t & H & _)]; [exact H | congruence].
    + intros [z E]. destruct (unwrap n l) as [x | p | ] eqn:L; destruct (unwrap n r) as [y | q | ] eqn:R; try discriminate.
      cbn in E. rewrite (proj2 IHl), (proj2 IHr) by eauto. split; [reflexivity | ].
      destruct (b_throws_apply op x y) as [[H _] | (t & _ & H)]; [exact H | congruence].
Qed.

Lemma unwrap_throws_first e x : unwrap n e = Throw x -> exists t, In t (unwrap_throws n e) /\ as_exn t = x.
Proof.
  revert x. induction e as [c | i | i t | op a IH | lo hi w a _ _ IH | op l r IHl IHr | es IHes] using expr_ind'; intros x;
    cbn [unwrap_throws unwrap]; intros K;
    try (inversion K; subst; eexists; split; [left; reflexivity | reflexivity]); try discriminate.
  - destruct (unwrap n a) as [y | y | ] eqn:A; cbn in K; try discriminate.
    + assert (unwrap_throws n a = []) as N0 by (apply unwrap_throws_nil; eauto). rewrite N0. cbn.
      destruct (u_throws_apply op y) as [[_ [z U]] | (t & U & W)]; [congruence | ].
      exists t. rewrite U. split; [now left | congruence].
    + inversion K; subst. destruct (IH _ eq_refl) as (t & I & J). exists t. rewrite in_and_then. auto.
  - destruct (unwrap n a) as [y | y | ] eqn:A; cbn in K; try discriminate; inversion K; subst.
    + assert (unwrap_throws n a = []) as N0 by (apply unwrap_throws_nil; eauto). rewrite N0. cbn.
      eexists; split; [left; reflexivity | reflexivity].
    + destruct (IH _ eq_refl) as (t & I & J). exists t. rewrite in_and_then. auto.
  - destruct (unwrap n l) as [p | p | ] eqn:L; destruct (unwrap n r) as [q | q | ] eqn:R; cbn in K; try discriminate.
    + assert (unwrap_throws n l = []) as N0 by (apply unwrap_throws_nil; eauto).
      assert (unwrap_throws n r = []) as N1 by (apply unwrap_throws_nil; eauto). rewrite N0, N1. cbn.
      destruct (b_throws_apply op p q) as [[_ [z U]] | (t & U & W)]; [congruence | ].
      exists t. rewrite U. split; [now left | congruence].
    + inversion K; subst. destruct (IHr _ eq_refl) as (t & I & J). exists t. rewrite in_and_then, in_app_iff. auto.
    + inversion K; subst. destruct (IHl _ eq_refl) as (t & I & J). exists t. rewrite in_and_then, in_app_iff. auto.
    + inversion K; subst. destruct (IHl _ eq_refl) as (t & I & J). exists t. rewrite in_and_then, in_app_iff. auto.
Qed.

Lemma unwrap_throws_fault e t : In t (unwrap_throws n e) <-> exists s, operand s e /\ unwrap_fault s t.
Proof.
  induction e as [c | i | i u | op a IH | lo hi w a _ _ IH | op l r IHl IHr | es IHes] using expr_ind'; cbn [unwrap_throws].
  - split; [intros [] | intros (s & O & F); inversion O; subst; inversion F].
  - split.
    + intros [<- | []]. eexists; split; constructor.
    + intros (s & O & F). inversion O; subst; inversion F; subst. now left.
  - split.
    + intros [<- | []]. eexists; split; constructor.
    + intros (s & O & F). inversion O; subst; inversion F; subst. now left.
  - rewrite in_and_then. split.
    + intros [I | [N0 I]].
      * apply IH in I as (s & O & F). exists s. split; [now constructor | exact F].
      * apply unwrap_throws_nil in N0 as [x E].
        exists (EUn op a). split; [constructor | ].
        destruct op; cbn in I; try contradiction; destruct I as [<- | []]; econstructor; eauto.
    + intros (s & O & F). inversion O; subst.
      * right. inversion F; subst; (split; [apply unwrap_throws_nil; eauto | now left]).
      * left. apply IH. eauto.
  - rewrite in_and_then. split.
    + intros [I | [N0 I]].
      * apply IH in I as (s & O & F). exists s. split; [now constructor | exact F].
      * apply unwrap_throws_nil in N0 as [x E]. destruct I as [<- | []].
        eexists. split; [constructor | ]. econstructor; eauto.
    + intros (s & O & F). inversion O; subst.
      * right. inversion F; subst; (split; [apply unwrap_throws_nil; eauto | now left]).
      * left. apply IH. eauto.
  - rewrite in_and_then, in_app_iff. split.
    + intros [[I | I] | [N0 I]].
      * apply IHl in I as (s & O & F). exists s. split; [now apply op_left | exact F].
      * apply IHr in I as (s & O & F). exists s. split; [now apply op_right | exact F].
      * apply app_eq_nil in N0 as [N0 N1]. apply unwrap_throws_nil in N0 as [y E]. apply unwrap_throws_nil in N1 as [z G].
        exists (EBin op l r). split; [constructor | ].
        destruct op; cbn in I; try contradiction; destruct I as [<- | []]; econstructor; eauto.
    + intros (s & O & F). inversion O; subst.
      * right. inversion F; subst. split; [ | now left].
        rewrite (proj2 (unwrap_throws_nil l)), (proj2 (unwrap_throws_nil r)) by eauto. reflexivity.
      * left; left. apply IHl. eauto.
      * left; right. apply IHr. eauto.
  - split.
    + intros [<- | []]. eexists; split; constructor.
    + intros (s & O & F). inversion O; subst; inversion F; subst. now left.
Qed.

Lemma deep_equal_const (d : expr n) c : exists q, deep_equal n d (EConst c) = Ok q.
Proof. destruct d; cbn; eauto. Qed.

(** Either diff() returns and nothing may be thrown, or it throws one of the objects. *)
Definition agrees {A : Type} (o : outcome A) (ts : list thrown) : Prop :=
  (ts = [] /\ exists a, o = Ok a) \/ (exists t, In t ts /\ o = Throw (as_exn t)).

Lemma agrees_omap {A B : Type} (f : A -> B) o ts : agrees o ts -> agrees (omap f o) ts.
Proof.
  intros [[-> [a ->]] | (t & I & ->)]; [left | right]; cbn; eauto.
Qed.

Lemma agrees_both {A B C : Type} (o : outcome A) (p : outcome B) (f : A -> B -> C) ts us :
  agrees o ts -> agrees p us -> agrees (both o p (fun a b => Ok (f a b))) (ts ++ us).
Proof.
  intros [[-> [a ->]] | (t & I & ->)] [[-> [b ->]] | (u & J & ->)].
  - left. cbn. eauto.
  - right. exists u. split; [exact J | reflexivity].
  - right. exists t. rewrite app_nil_r. auto.
  - right. exists t. split; [apply in_app_iff; now left | reflexivity].
Qed.

Lemma agrees_throw {A : Type} t : agrees (@Throw A (as_exn t)) [t].
Proof. right. exists t. split; [now left | reflexivity]. Qed.

Lemma diff_agrees x e : agrees (diff n x e) (diff_throws n x e).
Proof.
  induction e as [c | i | i t | op a IH | lo hi w a _ _ IH | op l r IHl IHr | es IHes] using expr_ind';
    cbn [diff_throws diff].
  - left. eauto.
  - left. split; [reflexivity | ]. destruct x; [destruct (N.eqb id i) | ]; eauto.
  - destruct x; [apply (agrees_throw (Object ExpressionNotDifferentiable _)) | ].
    left. split; [reflexivity | ]. destruct (N.eqb id i && N.eqb tag t); eauto.
  - destruct op; try (now apply agrees_omap); try exact IH;
      try (apply (agrees_throw (Object ExpressionNotDifferentiable _))).
    destruct x; [apply (agrees_throw (Object ExpressionNotDifferentiable _)) | ].
    destruct IH as [[-> [d E]] | (t & I & E)].
    + left. split; [reflexivity | ]. rewrite E. cbn. destruct (deep_equal_const d (c0 n)) as [q Q]. rewrite Q. cbn.
      destruct q; cbn; eauto.
    + right. exists t. split; [exact I | ]. rewrite E. reflexivity.
  - apply (agrees_throw (Object ExpressionNotDifferentiable _)).
  - destruct op; unfold mk2; try (now apply agrees_both). apply (agrees_throw (Object RhsProvidedForUnaryOperation _)).
  - apply agrees_omap. induction IHes as [ | a es IH _ IHes']; cbn.
    + left. eauto.
    + destruct IH as [[-> [d E]] | (t & I & E)].
      * rewrite E. cbn. now apply agrees_omap.
      * right. exists t. rewrite E. split; [ | reflexivity]. apply in_and_then. now left.
Qed.

Lemma diff_throws_nil x e : diff_throws n x e = [] <-> exists d, diff n x e = Ok d.
Proof.
  destruct (diff_agrees x e) as [[-> H] | (t & I & E)]; [tauto | ].
  split; [intros H; rewrite H in I; destruct I | intros [d F]; congruence].
Qed.

Lemma diff_throws_fault x e t : In t (diff_throws n x e) -> exists s, differentiated x s e /\ diff_fault x s t.
Proof.
  induction e as [c | i | i u | op a IH | lo hi w a _ _ IH | op l r IHl IHr | es IHes] using expr_ind';
    cbn [diff_throws]; try contradiction.
  - destruct x; [ | contradiction]. intros [<- | []]. eexists; split; [constructor | econstructor; reflexivity].
  - assert (GO : forall o, ~ (exists u, diff_fault x (EUn o a) u) -> In t (diff_throws n x a) ->
              exists s, differentiated x s (EUn o a) /\ diff_fault x s t).
    { intros o F I. apply IH in I as (s & D & G). exists s. split; [now constructor | exact G]. }
    destruct op;
      try (apply GO; intros [u F]; inversion F; fail);
      try (intros [<- | []]; eexists; split; [constructor | econstructor; reflexivity]).
    destruct x.
    + intros [<- | []]; eexists; split; [constructor | econstructor; reflexivity].
    + apply GO. intros [u F]. inversion F; subst. discriminate.
  - intros [<- | []]. eexists; split; constructor.
  - assert (GO : op <> BUnaryId -> In t (diff_throws n x l ++ diff_throws n x r)%list ->
              exists s, differentiated x s (EBin op l r) /\ diff_fault x s t).
    { intros F I. apply in_app_iff in I as [I | I]; [apply IHl in I as (s & D & G) | apply IHr in I as (s & D & G)];
        exists s; (split; [ | exact G]); [now apply di_left | now apply di_right]. }
    destruct op; try (apply GO; discriminate). intros [<- | []]. eexists; split; constructor.
  - intros I. enough (exists a s, In a es /\ differentiated x s a /\ diff_fault x s t) as (a & s & A & D & F).
    { exists s. split; [now apply (di_entry x s a) | exact F]. }
    induction IHes as [ | a es IH _ IHes']; cbn in I; [contradiction | ].
    apply in_and_then in I as [I | [_ I]].
    + destruct (IH I) as (s & D & F). exists a, s. split; [now left | auto].
    + destruct (IHes' I) as (b & s & B & D & F). exists b, s. split; [now right | auto].
Qed.

Lemma diff_fault_throws x e s t : differentiated x s e -> diff_fault x s t -> diff_throws n x e <> [].
Proof.
  intros D F. induction D as [e | s op a G D IH | s op l r G D IH | s op l r G D IH | s a es I D IH].
  - inversion F; subst; cbn; discriminate.
  - specialize (IH F). cbn. destruct op; try exact IH; try discriminate. destruct x; [discriminate | exact IH].
  - specialize (IH F). cbn. destruct op; try contradiction; intros K; apply app_eq_nil in K as [K _]; contradiction.
  - specialize (IH F). cbn. destruct op; try contradiction; intros K; apply app_eq_nil in K as [_ K]; contradiction.
  - specialize (IH F). cbn. induction es as [ | b es IHes]; [destruct I | ]. cbn. intros K. apply and_then_nil in K as [K L].
    destruct I as [-> | I]; [contradiction | now apply IHes].
Qed.

Lemma what_known t : what t = Some UB -> exists i k m, t = Object (VariableIndexOutOfBounds i k) m.
Proof. destruct t as [[] | ]; cbn; intros H; try discriminate. eauto. Qed.

Lemma fault_has_text (v : list n) s t : eval_fault v s t ->
  match t with
  | Chars m => m <> ""%string
  | Object (VariableIndexOutOfBounds _ _) _ => True
  | Object _ _ => exists m, what t = Some (Ok m) /\ m <> ""%string
  end.
Proof. intros F; inversion F; subst; cbn; try discriminate; try exact I; eexists; split; reflexivity || discriminate. Qed.

End Facts.
