(** C79: how many calls of virtual functions eval, unwrap, is_constant, deep_equal, simplify, substitute
    and diff make.  (Only the theorems; definitions in WorkModel.v and WorkSpec.v, lemmas in
    WorkFacts.v.) *)
From Coq Require Import ZArith NArith List Bool Lia.
From Verif Require Import Outcome Num NumZ NumB64 RtModel RtSpec RtFacts SubstAlg WorkModel WorkSpec WorkFacts.
Import ListNotations.

(** C79.  The counting functions give exactly the results of the functions they count. *)
Theorem C79_counting_changes_nothing :
  forall (n : num) (e s r : expr n) (ss rs : list (expr n)) (v : list n) (x : dvar),
    fst (w_eval n e v) = eval n e v /\
    fst (w_unwrap n e) = unwrap n e /\
    fst (w_is_constant n e) = Ok (is_constant n e) /\
    fst (w_deep_equal n e s) = deep_equal n e s /\
    fst (w_can_simplify n e) = can_simplify n e /\
    fst (w_simplify n e) = simplify n e /\
    fst (w_simplify_top n e) = simplify_top n e /\
    fst (w_subst1 n s r e) = subst1 n s r e /\
    fst (w_substv n ss rs e) = substv n ss rs e /\
    fst (w_diff n x e) = diff n x e /\
    fst (w_diff_top n x e) = diff_top n x e.
Proof.
  intros n e s r ss rs v x.
  auto 12 using w_eval_fst, w_unwrap_fst, w_isc_fst, w_deep_equal_fst, w_can_simplify_fst, w_simplify_fst,
    w_top_fst, w_subst1_fst, w_substv_fst, w_diff_fst, w_diff_top_fst.
Qed.
Print Assumptions C79_counting_changes_nothing.

(** C79.  Evaluating, unwrapping and asking whether an expression is constant make at most one call per
    node, and exactly one if the answer is a value ([true]); comparing makes at most one call per node of
    either expression, and exactly one per node if the answer is [true] (bounds of integrals are not
    compared). *)
Theorem C79_calls_of_queries :
  forall (n : num) (e o : expr n) (v : list n),
    (snd (w_eval n e v) <= nodes e /\ forall x, eval n e v = Ok x -> snd (w_eval n e v) = nodes e) /\
    (snd (w_unwrap n e) <= nodes e /\ forall x, unwrap n e = Ok x -> snd (w_unwrap n e) = nodes e) /\
    (snd (w_is_constant n e) <= nodes e /\ (is_constant n e = true -> snd (w_is_constant n e) = nodes e)) /\
    (snd (w_deep_equal n e o) <= nodes e /\ snd (w_deep_equal n e o) <= nodes o /\
     (vector_free e -> deep_equal n e o = Ok true -> snd (w_deep_equal n e o) = inner_nodes e)).
Proof.
  intros n e o v. pose proof (w_deep_equal_le n e o) as [A B].
  repeat split; eauto using w_eval_le, w_eval_eq, w_unwrap_le, w_unwrap_eq, w_isc_le, w_isc_eq, w_deep_equal_eq.
Qed.
Print Assumptions C79_calls_of_queries.

(** C79.  One test whether an expression can be simplified and one pass of simplification make at most
    3 * nodes * height calls; the whole of simplify() on an expression without vectors makes at most
    12 * nodes * height^2, and half of it if -1 is neither 0 nor 1 for ==. *)
Theorem C79_calls_of_simplify :
  forall (n : num) (e : expr n),
    snd (w_can_simplify n e) <= 3 * nodes e * height e /\
    snd (w_simplify n e) <= 3 * nodes e * height e /\
    (vector_free e ->
     snd (w_simplify_top n e) <= 12 * (nodes e * height e * height e) /\
     (n_eq n (n_of_Z n (-1)) (n_of_Z n 0) = false -> n_eq n (n_of_Z n (-1)) (n_of_Z n 1) = false ->
      snd (w_simplify_top n e) <= 6 * (nodes e * height e * height e))).
Proof.
  intros n e. split; [apply w_can_simplify_le|]. split; [apply w_simplify_le|]. intros V.
  destruct (w_top_le n e V) as [A B]. split; [exact A|]. intros H K. exact (B (conj H K)).
Qed.
Print Assumptions C79_calls_of_simplify.

(** C79.  simplify() tests and, as long as the test says so, makes a pass and starts again with its
    result: the calls of all passes add up. *)
Theorem C79_every_pass_is_counted :
  forall (n : num) (e e' : expr n),
    (can_simplify n e = Ok true -> simplify n e = Ok e' ->
     snd (w_simplify_top n e) = snd (w_can_simplify n e) + snd (w_simplify n e) + snd (w_simplify_top n e')) /\
    (can_simplify n e = Ok false -> snd (w_simplify_top n e) = snd (w_can_simplify n e)).
Proof. intros n e e'. split; [apply w_top_pass|apply w_top_done]. Qed.
Print Assumptions C79_every_pass_is_counted.

(** C79.  No bound proportional to the number of nodes holds: simplify() of x + x + ... + x with k plus
    signs changes nothing and makes k^2 + 4 k + 1 calls. *)
Theorem C79_simplify_is_linear_refuted :
  forall n : num,
    (forall k : nat,
       nodes (sum_of_x k : expr n) = 2 * k + 1 /\
       w_simplify_top n (sum_of_x k) = (Ok (sum_of_x k), k * k + 4 * k + 1)) /\
    ~ exists c : nat, forall e : expr n, vector_free e -> snd (w_simplify_top n e) <= c * nodes e.
Proof.
  intros n. split.
  - intros k. split; [apply sum_nodes_x|apply sum_x_top].
  - intros [c H]. specialize (H (sum_of_x (2 * c))). rewrite sum_x_top, sum_nodes_x in H. cbn [snd] in H.
    enough (Q : c * (2 * (2 * c) + 1) < 2 * c * (2 * c) + 4 * (2 * c) + 1) by (specialize (H (sum_x_vector_free n _)); lia). nia.
Qed.
Print Assumptions C79_simplify_is_linear_refuted.

(** C79.  substitute() makes at most one call per pair of a node of the expression and a node of the
    expressions to be replaced, plus one per node; also at most 1 + height calls per node and expression
    to be replaced.  Replacing a variable makes exactly two calls per node, whatever replaces it. *)
Theorem C79_calls_of_substitute :
  forall (n : num) (s r e : expr n) (ss rs : list (expr n)),
    snd (w_subst1 n s r e) <= nodes e * (1 + nodes s) /\
    snd (w_subst1 n s r e) <= nodes e * (1 + height e) /\
    snd (w_substv n ss rs e) <= nodes e * (1 + list_sum (map nodes ss)) /\
    snd (w_substv n ss rs e) <= nodes e * (1 + length ss * height e) /\
    (forall i, snd (w_subst1 n (EVar i) r e) = 2 * inner_nodes e).
Proof.
  intros n s r e ss rs. destruct (w_subst1_le n s r e), (w_substv_le n ss rs e).
  repeat split; auto using w_subst_var_eq.
Qed.
Print Assumptions C79_calls_of_substitute.

(** C79.  The virtual diff() makes fewer than 2 * nodes * 2^g calls, where g gradients are nested in the
    expression, exactly one per node if there is no gradient and the derivative exists, and at most one
    per node for a variable.  viennamath::diff(), which simplifies the derivative, makes at most
    324 * nodes * height^3 more. *)
Theorem C79_calls_of_diff :
  forall (n : num) (x : dvar) (e : expr n),
    snd (w_diff n x e) < 2 * nodes e * 2 ^ nested_gradients e /\
    (forall d, diff n x e = Ok d -> nested_gradients e = 0 -> snd (w_diff n x e) = nodes e) /\
    (forall i, x = DVar i -> snd (w_diff n x e) <= nodes e) /\
    (vector_free e ->
     snd (w_diff_top n x e) <= snd (w_diff n x e) + 324 * (nodes e * height e * height e * height e)).
Proof.
  intros n x e. split; [pose proof (w_diff_le n x e); lia|]. split; [apply w_diff_eq|].
  split; [intros i ->; apply w_diff_var_le|apply w_diff_top_le].
Qed.
Print Assumptions C79_calls_of_diff.

(** C79.  No polynomial in the number of nodes bounds the calls of diff(): the derivative of k nested
    gradients of u with respect to u makes 3 * 2^k - 2 calls.  The hypothesis says that 0 >= 1 is false
    for the numeric type. *)
Theorem C79_diff_is_polynomial_refuted :
  forall n : num,
    n_ge n (n_of_Z n 0) (n_of_Z n 1) = false ->
    (forall (k : nat) (i t : N),
       nodes (gradients_of k i t : expr n) = k + 1 /\
       snd (w_diff n (DFun i t) (gradients_of k i t)) + 2 = 3 * 2 ^ k) /\
    ~ exists p : nat, forall (x : dvar) (e : expr n), snd (w_diff n x e) <= nodes e ^ p + p.
Proof.
  intros n H. split.
  - intros k i t. split; [rewrite gradients_nodes; lia|exact (gradients_calls n i t H k)].
  - intros [p B]. destruct (pow_beats p) as [k K]. specialize (B (DFun 0 0) (gradients_of k 0%N 0%N)).
    pose proof (gradients_calls n 0%N 0%N H k). rewrite gradients_nodes in B.
    replace (S k) with (k + 1) in B by lia. lia.
Qed.
Print Assumptions C79_diff_is_polynomial_refuted.

(** Concrete cases over int.  (x0 + 1) * (0 * x1): two passes and 54 calls for 7 nodes.  grad(grad(grad(u))) by u: 22 calls
    for 4 nodes.  Substituting x0 in (x0 + x1) * x0: 10 calls for 5 nodes. *)
Example C79_case :
  let e := EBin BMult (EBin BPlus (EVar 0) (EConst 1%Z)) (EBin BMult (EConst 0%Z) (EVar 1)) : expr numZ in
  vector_free e /\
  w_simplify_top numZ e = (Ok (EConst 0%Z), 54) /\
  snd (w_diff numZ (DFun 7 0) (gradients_of 3 7%N 0%N)) = 22 /\
  n_ge numZ (n_of_Z numZ 0) (n_of_Z numZ 1) = false /\
  w_subst1 numZ (EVar 0) (EConst 2%Z) (EBin BMult (EBin BPlus (EVar 0) (EVar 1)) (EVar 0)) =
    (Ok (EBin BMult (EBin BPlus (EConst 2%Z) (EVar 1)) (EConst 2%Z)), 10) /\
  (forall lm, n_ge (numB64 lm) (n_of_Z (numB64 lm) 0) (n_of_Z (numB64 lm) 1) = false).
Proof.
  cbv zeta. split.
  { repeat apply vf_bin_i; intros es H; inversion H. }
  split; [vm_compute; reflexivity|]. split; [vm_compute; reflexivity|]. split; [reflexivity|].
  split; [vm_compute; reflexivity|]. intros lm. vm_compute. reflexivity.
Qed.
