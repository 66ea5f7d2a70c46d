(** Properties C11 - C14: substitution in run-time expressions. *)
From Coq Require Import ZArith NArith Reals List Bool Lia Lra.
From Verif Require Import Outcome Num RtModel RtSpec RtFacts RtStep RtTermination RtValue RtEval
  RtSubst NumR NumRFacts NumZ.
Import ListNotations.

(** C11.  Substitution lemma for the substitution itself, every numeric type (bit for bit for
    doubles): substituting an expression [r] of value [x] for variable [i] always returns an
    expression, whose value is the value of [e] at the point with entry [i] set to [x]. *)
Theorem C11_substitution_lemma :
  forall (n : num) (i : N) (r e : expr n) (v : list n) (x : n),
    (i < N.of_nat (length v))%N -> eval n r v = Ok x ->
    exists e', subst1 n (EVar i) r e = Ok e' /\
      forall y, eval n e' v = Ok y <-> eval n e (update v (N.to_nat i) x) = Ok y.
Proof.
  intros n i r e v x L E. eexists. split; [exact (subst1_var n i r e)|].
  intros y. exact (eval_subst1_var n i r e v x y E L).
Qed.
Print Assumptions C11_substitution_lemma.

(** C11 for the user-level substitute(), which also simplifies, over the reals. *)
Theorem C11_substitute_then_simplify :
  forall (i : N) (r e : expr numR) (v : list (option R)) (x : option R) (y : R),
    (i < N.of_nat (length v))%N -> eval numR r v = Ok x ->
    eval numR e (update v (N.to_nat i) x) = Ok (Some y) ->
    exists e', subst1_top numR (EVar i) r e = Ok e' /\ eval numR e' v = Ok (Some y).
Proof.
  intros i r e v x y L E F. unfold subst1_top. rewrite subst1_var. simpl.
  apply simplify_real. apply (eval_subst1_var numR i r e v x (Some y) E L). exact F.
Qed.
Print Assumptions C11_substitute_then_simplify.

(** substitute x1 := x0 + 2 in x1 * x0 at x0 = 3, x1 = 100. *)
Example C11_case :
  let r := EBin BPlus (EVar 0) (EConst 2%Z) in
  let e := EBin BMult (EVar 1) (EVar 0) in
  eval numZ r [3%Z; 100%Z] = Ok 5%Z /\
  eval numZ e (update [3%Z; 100%Z] 1 5%Z) = Ok 15%Z /\
  subst1_top numZ (EVar 1) r e = Ok (EBin BMult r (EVar 0)).
Proof. vm_compute. repeat split; reflexivity. Qed.

(** C12.  Substituting for a list of variables at once (first match wins, replacements are
    not searched again): the result is the simultaneous replacement of every variable. *)
Theorem C12_simultaneous_substitution :
  forall (n : num) (ids : list N) (rs : list (expr n)) (e : expr n),
    length ids = length rs ->
    substv n (map EVar ids) rs e = Ok (replace_vars (assoc (combine ids rs)) e).
Proof. intros n ids rs e L. exact (substv_vars n ids rs e L). Qed.
Print Assumptions C12_simultaneous_substitution.

(** C12, semantically: the result at [v] has the value of [e] at any point [w] whose entries
    are the values at [v] of the replacements (or the old entries where nothing is replaced). *)
Theorem C12_simultaneous_substitution_value :
  forall (n : num) (ids : list N) (rs : list (expr n)) (e : expr n) (v w : list n),
    length ids = length rs ->
    (forall i, occurs_var i e ->
       match assoc (combine ids rs) i with
       | Some r => exists x, eval n r v = Ok x /\ nth_error w (N.to_nat i) = Some x
       | None => nth_error w (N.to_nat i) = nth_error v (N.to_nat i)
       end) ->
    exists e', substv n (map EVar ids) rs e = Ok e' /\
      forall y, eval n e' v = Ok y <-> eval n e w = Ok y.
Proof.
  intros n ids rs e v w L H. eexists. split; [exact (substv_vars n ids rs e L)|].
  apply eval_replace. intros i x Hi. specialize (H i Hi).
  destruct (assoc (combine ids rs) i).
  - destruct H as [z [A B]]. rewrite A, B. split; congruence.
  - rewrite H. reflexivity.
Qed.
Print Assumptions C12_simultaneous_substitution_value.

(** Exchanging two variables works. *)
Example C12_case_swap :
  substv_top numZ [EVar 0; EVar 1] [EVar 1; EVar 0] (EBin BMinus (EVar 0) (EVar 1))
  = Ok (EBin BMinus (EVar 1) (EVar 0)).
Proof. vm_compute. reflexivity. Qed.

(** The bounds of an integral are not searched (observed behaviour of the code). *)
Example C12_bounds_not_searched :
  subst1 numZ (EVar 0) (EConst 1%Z) (EInt (EConst 0%Z) (EVar 0) 1 (EVar 0))
  = Ok (EInt (EConst 0%Z) (EVar 0) 1 (EConst 1%Z)).
Proof. vm_compute. reflexivity. Qed.

(** C13.  If nothing in [e] is deep_equal to the searched expression, nothing changes. *)
Theorem C13_absent_is_identity :
  forall (n : num) (s r e : expr n),
    (forall t, reachable t e -> deep_equal n t s = Ok false) -> subst1 n s r e = Ok e.
Proof. intros n s r e H. exact (subst1_absent n s r e H). Qed.
Print Assumptions C13_absent_is_identity.

Theorem C13_absent_is_identity_simultaneous :
  forall (n : num) (ss rs : list (expr n)) (e : expr n),
    (forall t s, reachable t e -> In s ss -> deep_equal n t s = Ok false) ->
    substv n ss rs e = Ok e.
Proof. intros n ss rs e H. exact (substv_absent n ss rs e H). Qed.
Print Assumptions C13_absent_is_identity_simultaneous.

Example C13_case :
  forall t, reachable t (EBin BPlus (EVar 0) (EUn UExp (EVar 1))) ->
    deep_equal numZ t (EBin BPlus (EVar 0) (EVar 1)) = Ok false.
Proof.
  intros t H.
  repeat match goal with H : reachable _ _ |- _ => inversion H; subst; clear H end; reflexivity.
Qed.

(** C14.  Substituting constants for all variables and unwrapping is evaluation, exactly
    (every numeric type, before simplification). *)
Theorem C14_substituting_constants_is_evaluation :
  forall (n : num) (e : expr n) (v : list n),
    (forall i, occurs_var i e -> (i < N.of_nat (length v))%N) ->
    exists e',
      substv n (map EVar (ids_from 0 (length v))) (map EConst v) e = Ok e' /\
      forall y, unwrap n e' = Ok y <-> eval n e v = Ok y.
Proof.
  intros n e v H. eexists. split.
  - apply substv_vars. rewrite ids_from_length, map_length. reflexivity.
  - apply unwrap_replace. intros i Hi. destruct (nth_lt n v i (H i Hi)) as [x E].
    exists x. rewrite (assoc_ids EConst v 0 i) by lia. rewrite N.sub_0_r, E. auto.
Qed.
Print Assumptions C14_substituting_constants_is_evaluation.

(** C14 for the user-level substitute(), which also simplifies, over the reals: the result
    can be unwrapped and gives the value of [e]. *)
Theorem C14_substitute_all_over_reals :
  forall (e : expr numR) (v : list (option R)) (y : R),
    eval numR e v = Ok (Some y) ->
    exists e',
      substv_top numR (map EVar (ids_from 0 (length v))) (map EConst v) e = Ok e' /\
      unwrap numR e' = Ok (Some y).
Proof.
  intros e v y H.
  assert (L : length (map EVar (ids_from 0 (length v)) : list (expr numR))
              = length (map EConst v : list (expr numR))).
  { rewrite !map_length, ids_from_length. reflexivity. }
  unfold substv_top. rewrite L, Nat.eqb_refl.
  rewrite substv_vars by (rewrite map_length in L; exact L). simpl.
  destruct (simplify_real [] (replace_vars (assoc (combine (ids_from 0 (length v)) (map (EConst (T := numR)) v))) e) y)
    as [e' [A B]].
  - apply (eval_replace numR _ [] v e); [|exact H]. exact (assoc_const numR v e (Some y) H).
  - exists e'. split; [exact A|]. exact (eval_nil_unwrap numR _ _ B).
Qed.
Print Assumptions C14_substitute_all_over_reals.

Example C14_case :
  substv numZ (map EVar (ids_from 0 2)) (map EConst [3%Z; 4%Z])
    (EBin BMult (EUn UExp (EVar 0)) (EBin BMinus (EVar 1) (EConst 1%Z)))
  = Ok (EBin BMult (EUn UExp (EConst 3%Z)) (EBin BMinus (EConst 4%Z) (EConst 1%Z))) /\
  eval numZ (EBin BMult (EUn UExp (EVar 0)) (EBin BMinus (EVar 1) (EConst 1%Z))) [3%Z; 4%Z]
  = Ok 9%Z.
Proof. vm_compute. split; reflexivity. Qed.
