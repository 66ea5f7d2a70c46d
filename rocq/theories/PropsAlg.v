(** Properties C56, C57: algebra of substitution, size of simplified expressions. *)
From Coq Require Import ZArith NArith List Bool Lia.
From Verif Require Import Outcome Num RtModel RtSpec RtFacts RtStep RtTermination RtSubst NumZ SubstAlg.
Import ListNotations.

(** C56.  Two substitutions commute up to substituting in the replacement: if the variables are
    different and the first one does not occur in the second replacement, then
    e[i := r][j := s] and e[j := s][i := r[j := s]] are the same expression.  Occurrences inside the
    bounds of integrals do not count (they are not searched).  Every numeric type. *)
Theorem C56_substitutions_commute :
  forall (n : num) (i j : N) (r s e : expr n),
    i <> j -> ~ reachable (EVar i) s ->
    exists a b r' c,
      subst1 n (EVar i) r e = Ok a /\ subst1 n (EVar j) s a = Ok b /\
      subst1 n (EVar j) s r = Ok r' /\ subst1 n (EVar j) s e = Ok c /\
      subst1 n (EVar i) r' c = Ok b.
Proof.
  intros n i j r s e D H. do 4 eexists. rewrite !subst1_var. repeat (split; [reflexivity|]).
  f_equal. rewrite !replace_compose. apply replace_ext. intros k _.
  destruct (N.eqb_spec j k), (N.eqb_spec i k); subst; try congruence.
  rewrite replace_absent; auto.
Qed.
Print Assumptions C56_substitutions_commute.

(** C56.  Renaming a variable to one that does not occur and back is the identity. *)
Theorem C56_renaming_round_trip :
  forall (n : num) (i k : N) (e : expr n),
    ~ reachable (EVar k) e ->
    exists a, subst1 n (EVar i) (EVar k) e = Ok a /\ subst1 n (EVar k) (EVar i) a = Ok e.
Proof.
  intros n i k e H. eexists. rewrite !subst1_var. split; [reflexivity|]. f_equal.
  rewrite replace_compose. rewrite <- (replace_none n e) at 2. apply replace_ext. intros j Hj.
  destruct (N.eqb_spec i j); cbn [replace_vars].
  - rewrite N.eqb_refl. congruence.
  - destruct (N.eqb_spec k j); subst; [contradiction|reflexivity].
Qed.
Print Assumptions C56_renaming_round_trip.

(** C56.  Two substitutions one after the other are the simultaneous substitution if the second
    variable does not occur in the first replacement. *)
Theorem C56_sequential_is_simultaneous :
  forall (n : num) (i j : N) (r s e : expr n),
    ~ reachable (EVar j) r ->
    exists a b,
      subst1 n (EVar i) r e = Ok a /\ subst1 n (EVar j) s a = Ok b /\
      substv n [EVar i; EVar j] [r; s] e = Ok b.
Proof.
  intros n i j r s e H. do 2 eexists. rewrite !subst1_var. repeat (split; [reflexivity|]).
  etransitivity; [exact (substv_vars n [i; j] [r; s] e eq_refl)|]. f_equal. rewrite replace_compose.
  apply replace_ext. intros k _. cbn [combine assoc].
  destruct (N.eqb_spec i k); [rewrite replace_absent; auto|]. reflexivity.
Qed.
Print Assumptions C56_sequential_is_simultaneous.

(** C56.  Substituting twice is substituting once, and eliminates the variable, if the variable does
    not occur in the replacement. *)
Theorem C56_substitution_eliminates :
  forall (n : num) (i : N) (r e : expr n),
    ~ reachable (EVar i) r ->
    exists a, subst1 n (EVar i) r e = Ok a /\ subst1 n (EVar i) r a = Ok a /\
      ~ reachable (EVar i) a.
Proof.
  intros n i r e H.
  assert (K : ~ reachable (EVar i) (replace_vars (fun j => if N.eqb i j then Some r else None) e)).
  { intros Q. apply reachable_replace in Q. destruct Q as [k [_ B]].
    destruct (N.eqb_spec i k); [auto|]. inversion B; subst; auto. }
  eexists. rewrite !subst1_var. split; [reflexivity|]. split; [|exact K].
  f_equal. apply replace_absent. exact K.
Qed.
Print Assumptions C56_substitution_eliminates.

(** Without the side conditions the laws fail: substituting x1 for x0 and then x0 for x1 is not the
    simultaneous exchange, and x0 := x0 + 1 twice is not x0 := x0 + 1. *)
Theorem C56_without_conditions_refuted :
  (exists e a b c : expr numZ,
     subst1 numZ (EVar 0) (EVar 1) e = Ok a /\ subst1 numZ (EVar 1) (EVar 0) a = Ok b /\
     substv numZ [EVar 0; EVar 1] [EVar 1; EVar 0] e = Ok c /\ b <> c) /\
  (exists r e a b : expr numZ,
     subst1 numZ (EVar 0) r e = Ok a /\ subst1 numZ (EVar 0) r a = Ok b /\ a <> b).
Proof.
  split.
  - exists (EBin BMinus (EVar 0) (EVar 1)). do 3 eexists. repeat (split; [reflexivity|]). discriminate.
  - exists (EBin BPlus (EVar 0) (EConst 1%Z)), (EVar 0). do 2 eexists.
    repeat (split; [reflexivity|]). discriminate.
Qed.
Print Assumptions C56_without_conditions_refuted.

(** The hypotheses of C56: x0 := x1 * x2, then x1 := sin(x2). *)
Example C56_case :
  ~ reachable (EVar 0) (EUn USin (EVar 2) : expr numZ) /\
  ~ reachable (EVar 3) (EBin BMult (EVar 0) (EInt (EVar 3) (EConst 1%Z) 0 (EVar 1)) : expr numZ) /\
  subst1 numZ (EVar 0) (EBin BMult (EVar 1) (EVar 2)) (EBin BPlus (EVar 0) (EVar 1))
    = Ok (EBin BPlus (EBin BMult (EVar 1) (EVar 2)) (EVar 1)) /\
  subst1 numZ (EVar 1) (EUn USin (EVar 2)) (EBin BPlus (EBin BMult (EVar 1) (EVar 2)) (EVar 1))
    = Ok (EBin BPlus (EBin BMult (EUn USin (EVar 2)) (EVar 2)) (EUn USin (EVar 2))).
Proof.
  repeat split; try reflexivity; intros H;
    repeat match goal with H : reachable _ _ |- _ => inversion H; subst; clear H end.
Qed.

(** C57.  Simplification never enlarges an expression without vectors: neither the number of nodes
    nor the height grows, and no vectors appear. *)
Theorem C57_simplify_never_enlarges :
  forall (n : num) (e e' : expr n),
    vector_free e -> simplify_top n e = Ok e' ->
    nodes e' <= nodes e /\ height e' <= height e /\ vector_free e'.
Proof.
  intros n e e' V H. destruct (top_size n e e' H V) as [A [B C]]. auto.
Qed.
Print Assumptions C57_simplify_never_enlarges.

(** C57.  The loop of inplace_simplify() needs at most four iterations per node of an expression
    without vectors. *)
Theorem C57_iterations_linear_in_size :
  forall (n : num) (e : expr n),
    vector_free e -> inplace_simplify n (S (4 * nodes e)) e = Some (simplify_top n e).
Proof.
  intros n e V. destruct (top_inplace n e) as [k K].
  destruct (inplace_enough n (S (4 * nodes e)) e) as [o O].
  - pose proof (weight_nodes n e V). lia.
  - rewrite O. f_equal. symmetry. apply (inplace_top n _ _ _ O).
Qed.
Print Assumptions C57_iterations_linear_in_size.

(** With vectors the dot product of vectors is written out and may be larger. *)
Theorem C57_with_vectors_refuted :
  exists e e' : expr numZ, simplify_top numZ e = Ok e' /\ nodes e < nodes e'.
Proof.
  exists (EBin BMult (EVec [EVar 0; EVar 1; EVar 2]) (EVec [EVar 0; EVar 1; EVar 2])). eexists.
  split; [reflexivity|]. simpl. lia.
Qed.
Print Assumptions C57_with_vectors_refuted.

(** (0 + x0) * 1 - 0 * x1 has 9 nodes and becomes x0. *)
Example C57_case :
  let e := EBin BMinus (EBin BMult (EBin BPlus (EConst 0%Z) (EVar 0)) (EConst 1%Z))
             (EBin BMult (EConst 0%Z) (EVar 1)) in
  vector_free e /\ nodes e = 9 /\ simplify_top numZ e = Ok (EVar 0).
Proof.
  cbv zeta. split; [|split; reflexivity]. intros es H.
  repeat match goal with H : subterm _ _ |- _ => inversion H; subst; clear H end.
Qed.
