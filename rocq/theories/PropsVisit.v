(** Properties C25 - C27: traversal and manipulation of run-time expressions. *)
From Coq Require Import ZArith NArith List Bool Lia Sorting.Sorted.
From Verif Require Import Outcome Num RtModel RtSpec RtFacts RtVisit NumZ.
Import ListNotations.

(** C25.  The visitor is called once for each position of the tree that is not below a
    binary node rejected by step_into, and for no other, in the order: left operand, binary
    node, right operand; unary node, operand.  [ps] is the list of visited positions;
    being strictly sorted, it contains no position twice. *)
Theorem C25_traversal_visits_each_node_once_in_order :
  forall (n : num) (step : expr n -> bool) (e : expr n),
    exists ps : list (list dir),
      StronglySorted before ps /\
      (forall p, In p ps <-> (at_path e p <> None /\ not_pruned step e p)) /\
      map (at_path e) ps = map Some (traverse n step e).
Proof. intros n step e. exact (traverse_good n step e). Qed.
Print Assumptions C25_traversal_visits_each_node_once_in_order.

Theorem C25_order_is_strict : forall p, ~ before p p.
Proof. exact before_irrefl. Qed.
Print Assumptions C25_order_is_strict.

(** exp(x0) * (x1 - 3), everything visited; and with the subtraction pruned. *)
Example C25_case :
  let d := EBin BMinus (EVar 1) (EConst 3%Z) in
  let e := EBin BMult (EUn UExp (EVar 0)) d : expr numZ in
  traverse numZ (fun _ => true) e
    = [EUn UExp (EVar 0); EVar 0; e; EVar 1; d; EConst 3%Z] /\
  traverse numZ (fun s => match s with EBin BMinus _ _ => false | _ => true end) e
    = [EUn UExp (EVar 0); EVar 0; e; d].
Proof. vm_compute. split; reflexivity. Qed.

(** C26.  Manipulation gives the one tree in which every outermost node selected by
    modifies(), and every leaf not below such a node, is replaced by what the functor
    returns, while all nodes above keep their operation. *)
Theorem C26_manipulation_replaces_outermost_selected_nodes :
  forall (n : num) (md : expr n -> bool) (fw : expr n -> expr n) (e e' : expr n),
    e' = manipulate n md fw e <->
    (forall p s, at_path e p = Some s -> outermost md e p ->
      (md s = true \/ leaf s = true -> at_path e' p = Some (fw s)) /\
      (md s = false -> leaf s = false -> exists s', at_path e' p = Some s' /\ same_head s s')).
Proof.
  intros n md fw e e'. split.
  - intros -> p s H O. exact (manipulate_spec n md fw e p s H O).
  - intros H. exact (manipulate_unique n md fw e e' H).
Qed.
Print Assumptions C26_manipulation_replaces_outermost_selected_nodes.

(** The default functor (clone) gives an identical copy, whatever modifies() says. *)
Theorem C26_default_functor_copies :
  forall (n : num) (md : expr n -> bool) (e : expr n), manipulate n md (fun x => x) e = e.
Proof. intros n md e. exact (manipulate_id n md e). Qed.
Print Assumptions C26_default_functor_copies.

Example C26_case :
  let md := fun s : expr numZ => match s with EUn UExp _ => true | _ => false end in
  let fw := fun s : expr numZ => match s with EUn UExp a => a | EVar 0 => EVar 5 | _ => s end in
  manipulate numZ md fw (EBin BPlus (EUn UExp (EUn UExp (EVar 0))) (EUn USin (EVar 0)))
  = EBin BPlus (EUn UExp (EVar 0)) (EUn USin (EVar 5)).
Proof. vm_compute. reflexivity. Qed.

(** C27.  Replacing a symbolic interval: at every position with no symbolic integral above
    it, a symbolic integral becomes the integral over the given interval with the same
    integrand, a leaf is unchanged and any other node keeps its operation. *)
Theorem C27_symbolic_interval_replacement :
  forall (n : num) (search : N) (lo hi : expr n) (var : N) (e : expr n) (p : list dir),
    (forall c d q i a, p = c ++ d :: q -> at_path e c <> Some (EUn (USymInt i) a)) ->
    let e' := subst_interval n search lo hi var e in
    match at_path e p with
    | Some (EUn (USymInt _) a) => at_path e' p = Some (EInt lo hi var a)
    | Some s => if leaf s then at_path e' p = Some s
                else exists s', at_path e' p = Some s' /\ same_head s s'
    | None => True
    end.
Proof.
  intros n search lo hi var e p H. apply interval_positions.
  intros c d q s E K. destruct s; try reflexivity. destruct op; try reflexivity.
  exfalso. exact (H c d q _ _ E K).
Qed.
Print Assumptions C27_symbolic_interval_replacement.

(** C27.  If symbolic integrals are not nested, none is left. *)
Theorem C27_no_symbolic_integral_left :
  forall (n : num) (search : N) (lo hi : expr n) (var : N) (e : expr n),
    (forall p i a, at_path e p = Some (EUn (USymInt i) a) ->
       forall q j b, at_path a q <> Some (EUn (USymInt j) b)) ->
    forall p i a, at_path (subst_interval n search lo hi var e) p <> Some (EUn (USymInt i) a).
Proof. intros n search lo hi var e H. exact (no_symint_left n lo hi var e H). Qed.
Print Assumptions C27_no_symbolic_integral_left.

(** C27 (defect).  The searched interval does not matter: symbolic integrals over any other
    symbolic interval [j] are replaced as well. *)
Theorem C27_searched_interval_is_ignored :
  forall (n : num) (i j : N) (lo hi : expr n) (var : N) (a : expr n),
    subst_interval n i lo hi var (EUn (USymInt j) a) = EInt lo hi var a.
Proof. intros n i j lo hi var a. reflexivity. Qed.
Print Assumptions C27_searched_interval_is_ignored.

(** C27 (defect).  A symbolic integral inside another one is left behind. *)
Theorem C27_nested_refuted :
  exists (e : expr numZ) p i a,
    at_path (subst_interval numZ 0 (EConst 0%Z) (EConst 1%Z) 0 e) p = Some (EUn (USymInt i) a).
Proof.
  exists (EUn (USymInt 0) (EUn (USymInt 0) (EVar 1))), [DirU], 0%N, (EVar 1).
  reflexivity.
Qed.
Print Assumptions C27_nested_refuted.

Example C27_case :
  subst_interval numZ 0 (EConst 0%Z) (EConst 1%Z) 2
    (EBin BMinus (EUn (USymInt 0) (EVar 1)) (EConst 4%Z))
  = EBin BMinus (EInt (EConst 0%Z) (EConst 1%Z) 2 (EVar 1)) (EConst 4%Z).
Proof. vm_compute. reflexivity. Qed.
