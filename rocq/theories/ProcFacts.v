(** Facts about LaTeX processors with a state (proofs only). *)
From Coq Require Import ZArith NArith List Bool String Lia.
From Verif Require Import Outcome Num RtModel StatefulModel ProcModel ProcSpec.
Import ListNotations.
Local Open Scope string_scope.

Section Facts.
Context (n : num) (S : Type).

Definition answered (m : nat) (l : list (nat * outcome string)) (o : outcome string) : Prop :=
  match o with
  | Ok t => (Forall declined l /\ List.length l = m /\ t = " \chi_{\mathrm{unknown}} ") \/
            (t <> "" /\ exists l1 k, l = (l1 ++ [(k, Ok t)])%list /\ Forall declined l1)
  | _ => exists l1 k, l = (l1 ++ [(k, o)])%list /\ Forall declined l1
  end.

Lemma sdispatch_calls : forall (procs : list (proc n S)) e par i s l0,
  exists l, sdispatch n _ (watched_all i procs) e par (s, l0) =
      (fst (sdispatch n S procs e par s), (snd (sdispatch n S procs e par s), (l0 ++ l)%list)) /\
    map fst l = seq i (List.length l) /\ List.length l <= List.length procs /\ answered (List.length procs) l (fst (sdispatch n S procs e par s)).
Proof.
  induction procs as [|f procs IH]; intros e par i s l0.
  - exists []. rewrite app_nil_r. split; [reflexivity|]. split; [reflexivity|]. split; [constructor|]. left. split; [constructor|split; reflexivity].
  - cbn [sdispatch watched_all]. unfold watched at 1. cbn [fst snd]. destruct (f e par s) as [[[|c t]|x|] s1]; cbn [andthen].
    + destruct (IH e par (Datatypes.S i) s1 (l0 ++ [(i, Ok "")])%list) as [l [E [M [L A]]]].
      exists ((i, Ok "") :: l). rewrite E, <- app_assoc. split; [reflexivity|]. split; [cbn; now rewrite M|]. split; [cbn; lia|].
      assert (D : declined (i, Ok "")) by reflexivity. unfold answered in *.
      destruct (fst (sdispatch n S procs e par s1)) as [t|x|].
      * destruct A as [[A1 [A2 A3]]|[A1 [l1 [k [-> A2]]]]]; [left|right].
        -- split; [now constructor|]. split; [cbn; now rewrite A2|exact A3].
        -- split; [exact A1|]. exists ((i, Ok "") :: l1), k. split; [reflexivity|now constructor].
      * destruct A as [l1 [k [-> A2]]]. exists ((i, Ok "") :: l1), k. split; [reflexivity|now constructor].
      * destruct A as [l1 [k [-> A2]]]. exists ((i, Ok "") :: l1), k. split; [reflexivity|now constructor].
    + eexists. split; [reflexivity|]. split; [reflexivity|]. split; [cbn; lia|]. right. split; [discriminate|]. exists [], i. split; [reflexivity|constructor].
    + eexists. split; [reflexivity|]. split; [reflexivity|]. split; [cbn; lia|]. exists [], i. split; [reflexivity|constructor].
    + eexists. split; [reflexivity|]. split; [reflexivity|]. split; [cbn; lia|]. exists [], i. split; [reflexivity|constructor].
Qed.

Lemma sdispatch_given : forall (p1 p2 : list (proc n S)) e par, Forall2 (fun f g => forall s, f e par s = g e par s) p1 p2 ->
  forall s, sdispatch n S p1 e par s = sdispatch n S p2 e par s.
Proof.
  intros p1 p2 e par H. induction H as [|f g p1 p2 E H IH]; intros s; [reflexivity|]. cbn [sdispatch]. rewrite E.
  destruct (g e par s) as [[[|c t]|x|] s1]; cbn [andthen]; auto.
Qed.

Lemma sdispatch_fixed : forall (procs : list (proc n S)) e par, Forall fixed procs -> forall s s',
  fst (sdispatch n S procs e par s) = fst (sdispatch n S procs e par s').
Proof.
  intros procs e par H. induction H as [|f procs F H IH]; intros s s'; [reflexivity|]. cbn [sdispatch]. specialize (F e par s s').
  destruct (f e par s) as [[t|x|] s1], (f e par s') as [[t'|x'|] s1']; cbn in *; try discriminate; try (injection F as ->); auto.
  destruct t'; auto.
Qed.

Lemma spair_fixed : forall b (procs : list (proc n S)) pre mid post u w x y s, Forall fixed procs ->
  fst (sdispatch n S procs u false s) = Ok x -> fst (sdispatch n S procs w false s) = Ok y ->
  fst (spair n S b procs pre mid post u w s) = Ok (pre ++ x ++ mid ++ y ++ post).
Proof.
  intros b procs pre mid post u w x y s F X Y.
  assert (X' : forall t, exists t', sdispatch n S procs u false t = (Ok x, t')).
  { intros t. pose proof (sdispatch_fixed procs u false F t s) as E. rewrite X in E. destruct (sdispatch n S procs u false t) as [o t']. cbn in E. rewrite E. eauto. }
  assert (Y' : forall t, exists t', sdispatch n S procs w false t = (Ok y, t')).
  { intros t. pose proof (sdispatch_fixed procs w false F t s) as E. rewrite Y in E. destruct (sdispatch n S procs w false t) as [o t']. cbn in E. rewrite E. eauto. }
  unfold spair. destruct b.
  - destruct (X' s) as [t ->]. cbn [andthen]. destruct (Y' t) as [t' ->]. reflexivity.
  - destruct (Y' s) as [t ->]. cbn [andthen]. destruct (X' t) as [t' ->]. reflexivity.
Qed.

Lemma spair_throws : forall b (procs : list (proc n S)) pre mid post u w s, Forall fixed procs ->
  match fst (spair n S b procs pre mid post u w s) with
  | Ok _ => exists x y, fst (sdispatch n S procs u false s) = Ok x /\ fst (sdispatch n S procs w false s) = Ok y
  | o => fst (sdispatch n S procs u false s) = o \/ fst (sdispatch n S procs w false s) = o
  end.
Proof.
  intros b procs pre mid post u w s F.
  pose proof (fun t => sdispatch_fixed procs u false F t s) as X. pose proof (fun t => sdispatch_fixed procs w false F t s) as Y.
  unfold spair. destruct b.
  - destruct (sdispatch n S procs u false s) as [[x|x|] t]; cbn [andthen fst]; try (left; reflexivity).
    rewrite <- (Y t). destruct (sdispatch n S procs w false t) as [[y|y|] t']; cbn [andthen fst]; try (right; reflexivity). now exists x, y.
  - destruct (sdispatch n S procs w false s) as [[y|y|] t]; cbn [andthen fst]; try (right; reflexivity).
    rewrite <- (X t). destruct (sdispatch n S procs u false t) as [[x|x|] t']; cbn [andthen fst]; try (left; reflexivity). now exists x, y.
Qed.
End Facts.
