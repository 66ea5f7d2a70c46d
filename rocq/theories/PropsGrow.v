(** Properties C57 (passes of the simplification loop) and C77 (growth of expressions). *)
From Coq Require Import ZArith NArith List Bool Lia.
From Verif Require Import Outcome Num NumB64 NumZ RtModel RtSpec RtFacts RtTermination RtSubst SubstAlg GrowSpec GrowFacts.
Import ListNotations.

(** C57.  The loop of inplace_simplify() makes fewer passes than twice the height of an expression
    without vectors, and fewer than its height if -1 compares different from 0 and 1 (as for reals and
    doubles).  (The loop tests once more than it passes: k tests are k - 1 passes.) *)
Theorem C57_passes_at_most_height :
  forall (n : num) (e : expr n),
    vector_free e ->
    inplace_simplify n (2 * height e - 1) e = Some (simplify_top n e) /\
    (n_eq n (n_of_Z n (-1)) (n_of_Z n 0) = false -> n_eq n (n_of_Z n (-1)) (n_of_Z n 1) = false ->
     inplace_simplify n (height e) e = Some (simplify_top n e)).
Proof.
  intros n e V. destruct (stable_height n e V) as [A B]. pose proof (height_pos n e). split.
  - destruct (stable_loop n _ e A) as [o O]. replace (2 * height e - 1) with (S (2 * (height e - 1))) by lia.
    rewrite O. f_equal. symmetry. apply (inplace_top n _ _ _ O).
  - intros H1 H2. destruct (stable_loop n _ e (B (conj H1 H2))) as [o O].
    replace (S (height e - 1)) with (height e) in O by lia. rewrite O. f_equal. symmetry. apply (inplace_top n _ _ _ O).
Qed.
Print Assumptions C57_passes_at_most_height.

(** x0 * (x0 * ... * (x0 * 0)) with k multiplications. *)
Fixpoint zero_product {T : Type} (z : T) (k : nat) : expr T :=
  match k with
  | O => EConst z
  | S k' => EBin BMult (EVar 0) (zero_product z k')
  end.

(** C57.  The height is needed: every pass through x0 * (x0 * ... * (x0 * 0)) removes one factor, so
    with one test less the loop has not ended. *)
Theorem C57_height_is_attained :
  forall (n : num) (k : nat),
    n_eq n (n_of_Z n 0) (n_of_Z n 0) = true ->
    let e := zero_product (n_of_Z n 0) k in
    vector_free e /\ height e = S k /\ simplify_top n e = Ok (EConst (n_of_Z n 0)) /\
    inplace_simplify n k e = None.
Proof.
  intros n k Z0 e.
  assert (C : forall k, can_simplify n (zero_product (n_of_Z n 0) (S k)) = Ok true).
  { induction k0 as [|j IH].
    - cbn [zero_product can_simplify is_constant andb]. unfold const_eq. cbn [is_constant unwrap omap bind oor].
      change (c0 n) with (n_of_Z n 0). rewrite Z0. reflexivity.
    - cbn [zero_product] in *. remember (EBin BMult (EVar 0) (zero_product (n_of_Z n 0) j)) as t.
      cbn [can_simplify is_constant andb]. unfold const_eq.
      assert (is_constant n t = false) by (subst t; reflexivity). rewrite H. cbn [is_constant omap bind oor]. rewrite IH.
      subst t. reflexivity. }
  assert (S1 : forall k, simplify n (zero_product (n_of_Z n 0) (S k)) = Ok (zero_product (n_of_Z n 0) k)).
  { induction k0 as [|j IH].
    - cbn [zero_product simplify is_constant andb unwrap bind]. change (c0 n) with (n_of_Z n 0). rewrite Z0. reflexivity.
    - cbn [zero_product] in *. remember (EBin BMult (EVar 0) (zero_product (n_of_Z n 0) j)) as t.
      cbn [simplify is_constant andb].
      assert (is_constant n t = false) by (subst t; reflexivity). rewrite H. unfold mk2. cbn [simplify]. rewrite IH, Heqt. reflexivity. }
  subst e. repeat split.
  - induction k as [|j IH]; intros es Q.
    + inversion Q.
    + simpl in Q. inversion Q as [| | | | |? ? ? ? P|? ? ? ? P|]; subst; [inversion P|exact (IH es P)].
  - induction k as [|j IH]; [reflexivity|]. cbn [zero_product height]. rewrite IH. simpl. lia.
  - induction k as [|j IH]; [reflexivity|]. rewrite (top_step n _ _ (C j) (S1 j)). exact IH.
  - induction k as [|j IH]; [reflexivity|]. cbn [inplace_simplify]. rewrite C, S1. exact IH.
Qed.
Print Assumptions C57_height_is_attained.

(** A case of the hypotheses: doubles. *)
Example C57_doubles :
  forall lm, let n := numB64 lm in
    n_eq n (n_of_Z n (-1)) (n_of_Z n 0) = false /\ n_eq n (n_of_Z n (-1)) (n_of_Z n 1) = false /\
    n_eq n (n_of_Z n 0) (n_of_Z n 0) = true.
Proof. intros lm. repeat split. Qed.

(** C77.  diff() gives an expression of at most three times (nodes of e) * (height of e) nodes, and at
    most three times the height: products and quotients copy their operands once per level.  Without
    simplification also for vectors. *)
Theorem C77_size_of_derivative :
  forall (n : num) (x : dvar) (e d : expr n),
    (diff n x e = Ok d \/ (vector_free e /\ diff_top n x e = Ok d)) ->
    nodes d <= 3 * nodes e * height e /\ height d <= 3 * height e.
Proof.
  intros n x e d [D|[V D]]; [exact (diff_size n x e d D)|].
  destruct (diff_top_size n x e d D V) as [_ A]. exact A.
Qed.
Print Assumptions C77_size_of_derivative.

(** C77.  No bound proportional to the nodes alone is possible: for every factor c there is a product of
    variables whose (simplified) derivative in doubles has more than c times its nodes. *)
Theorem C77_linear_bound_refuted :
  forall (lm : libm) (c : nat), exists e d : expr (numB64 lm),
    vector_free e /\ diff_top (numB64 lm) (DVar 0) e = Ok d /\ c * nodes e < nodes d.
Proof.
  intros lm c. exists (power_of_x (S (2 * c))), (sum_of_powers (numB64 lm) (S (2 * c))).
  split; [|split; [apply power_top; reflexivity|]].
  - generalize (S (2 * c)). intros k. induction k as [|k IH]; intros es Q.
    + inversion Q.
    + simpl in Q. inversion Q as [| | | | |? ? ? ? P|? ? ? ? P|]; subst; [inversion P|exact (IH es P)].
  - rewrite power_nodes, sum_nodes. nia.
Qed.
Print Assumptions C77_linear_bound_refuted.

(** C77.  The k-th derivative of an expression without vectors is bounded by a polynomial in its size:
    at most  3^(k(k+1)/2) * height^k * nodes  nodes. *)
Theorem C77_size_of_repeated_derivative :
  forall (n : num) (x : dvar) (k : nat) (e d : expr n),
    vector_free e -> derivative n x k e = Ok d ->
    nodes d <= 3 ^ (k * (k + 1) / 2) * height e ^ k * nodes e /\ height d <= 3 ^ k * height e.
Proof. intros n x k e d V D. apply (derivative_size n x k e d D V). Qed.
Print Assumptions C77_size_of_repeated_derivative.

(** C77.  Substituting r for a variable replaces every occurrence by a copy of r, so the size before
    simplification is known exactly; simplification only makes it smaller. *)
Theorem C77_size_of_substitution :
  forall (n : num) (i : N) (r e : expr n),
    exists e', subst1 n (EVar i) r e = Ok e' /\
      nodes e' + occurrences i e = nodes e + occurrences i e * nodes r /\
      forall e1, vector_free e -> vector_free r -> subst1_top n (EVar i) r e = Ok e1 ->
        nodes e1 + occurrences i e <= nodes e + occurrences i e * nodes r.
Proof.
  intros n i r e. eexists. split; [apply subst1_var|]. split; [apply replace_occurrences|].
  intros e1 Ve Vr T. unfold subst1_top in T. rewrite subst1_var in T. cbn [bind] in T.
  assert (V : vector_free (replace_vars (fun j => if N.eqb i j then Some r else None) e)).
  { clear T. induction e as [c|j|j t|op a IH|lo hi w a _ _ IH|op l r' IHl IHr|es IHes] using expr_ind';
      cbn [replace_vars]; auto.
    - destruct (N.eqb i j); auto.
    - apply vf_un_i, IH, (vf_un n _ _ Ve).
    - destruct (vf_int n _ _ _ _ Ve) as [A [B C]]. apply vf_int_i; auto.
    - destruct (vf_bin n _ _ _ Ve) as [A B]. apply vf_bin_i; auto.
    - exfalso. apply (Ve es), sub_refl. }
  destruct (top_size n _ e1 T V) as [_ [A _]]. pose proof (replace_occurrences n i r e). lia.
Qed.
Print Assumptions C77_size_of_substitution.

(** C77.  Whatever is searched for, and however many replacements are made at a time, the result has at
    most (nodes of e) * (nodes of the largest replacement) nodes. *)
Theorem C77_size_of_any_substitution :
  forall (n : num) (ss rs : list (expr n)) (s r e e' : expr n) (m : nat),
    (subst1 n s r e = Ok e' /\ nodes r <= m) \/
    (substv n ss rs e = Ok e' /\ 1 <= m /\ Forall (fun r => nodes r <= m) rs) ->
    nodes e' <= nodes e * m.
Proof.
  intros n ss rs s r e e' m [[E L]|[E [P H]]].
  - destruct (subst1_nodes n s r e e' E) as [A _]. nia.
  - exact (substv_nodes n ss rs m e e' P H E).
Qed.
Print Assumptions C77_size_of_any_substitution.

(** d/dx0 of sin(x0) / (x0 * x1): 6 nodes of height 3, derivative of 19 nodes after simplification, and
    x0 - x1 put in for x0. *)
Example C77_case :
  let e := EBin BDiv (EUn USin (EVar 0)) (EBin BMult (EVar 0) (EVar 1)) in
  let r := EBin BMinus (EVar 0) (EVar 1) in
  vector_free e /\ nodes e = 6 /\ height e = 3 /\ occurrences 0 e = 2 /\
  (exists d, diff_top numZ (DVar 0) e = Ok d /\ nodes d = 19) /\
  (exists d, derivative numZ (DVar 0) 3 e = Ok d /\ nodes d = 258) /\
  (exists e', subst1_top numZ (EVar 0) r e = Ok e' /\ nodes e' = 10).
Proof.
  split; [intros es Q; repeat match goal with H : subterm (EVec es) _ |- _ => inversion H; clear H; subst end|].
  repeat split; eexists; split; vm_compute; reflexivity.
Qed.
