(** Induction principle and elementary facts about the model (proofs only). *)
From Coq Require Import ZArith NArith List Bool Lia.
From Verif Require Import Outcome Num RtModel.
Import ListNotations.

Section ExprInd.
Context {T : Type} (P : expr T -> Prop).
Hypothesis HConst : forall c, P (EConst c).
Hypothesis HVar : forall i, P (EVar i).
Hypothesis HFun : forall i t, P (EFun i t).
Hypothesis HUn : forall op a, P a -> P (EUn op a).
Hypothesis HInt : forall lo hi v a, P lo -> P hi -> P a -> P (EInt lo hi v a).
Hypothesis HBin : forall op l r, P l -> P r -> P (EBin op l r).
Hypothesis HVec : forall es, Forall P es -> P (EVec es).

Fixpoint expr_ind' (e : expr T) : P e :=
  match e with
  | EConst c => HConst c
  | EVar i => HVar i
  | EFun i t => HFun i t
  | EUn op a => HUn op a (expr_ind' a)
  | EInt lo hi v a => HInt lo hi v a (expr_ind' lo) (expr_ind' hi) (expr_ind' a)
  | EBin op l r => HBin op l r (expr_ind' l) (expr_ind' r)
  | EVec es =>
      HVec es ((fix go (l : list (expr T)) : Forall P l :=
                  match l with
                  | [] => Forall_nil P
                  | x :: l' => Forall_cons x (expr_ind' x) (go l')
                  end) es)
  end.
End ExprInd.

Section Out.
Context {A B C : Type}.

Lemma bind_ok : forall (o : outcome A) (f : A -> outcome B) b,
  bind o f = Ok b <-> exists a, o = Ok a /\ f a = Ok b.
Proof. intros [a| |] f b; simpl; split; intros H; try discriminate; eauto;
  destruct H as [? [? ?]]; congruence. Qed.

Lemma both_ok : forall (a : outcome A) (b : outcome B) (f : A -> B -> outcome C) c,
  both a b f = Ok c <-> exists x y, a = Ok x /\ b = Ok y /\ f x y = Ok c.
Proof.
  intros [a| |] [b| |] f c; simpl; split; intros H; try discriminate; eauto;
  destruct H as [? [? [? [? ?]]]]; congruence.
Qed.

Lemma omap_ok : forall (f : A -> B) (o : outcome A) b,
  omap f o = Ok b <-> exists a, o = Ok a /\ b = f a.
Proof. intros f [a| |] b; unfold omap; simpl; split; intros H; try discriminate.
  - inversion H; eauto.
  - destruct H as [? [? ?]]; congruence.
  - destruct H as [? [? ?]]; congruence.
  - destruct H as [? [? ?]]; congruence.
Qed.
End Out.

Ltac oinv :=
  repeat match goal with
  | H : bind _ _ = Ok _ |- _ => apply bind_ok in H; destruct H as [? [? ?]]; cbv beta in *
  | H : both _ _ _ = Ok _ |- _ => apply both_ok in H; destruct H as [? [? [? [? ?]]]]; cbv beta in *
  | H : omap _ _ = Ok _ |- _ => apply omap_ok in H; destruct H as [? [? ?]]; cbv beta in *
  | H : Ok _ = Ok _ |- _ => inversion H; clear H; subst
  | H : Throw _ = Ok _ |- _ => discriminate H
  | H : UB = Ok _ |- _ => discriminate H
  end; subst.
