(** C87: manipulation with functors that have a state. *)
From Coq Require Import ZArith NArith List Bool.
From Verif Require Import Outcome Num NumZ RtModel RtSpec RtFacts StatefulModel StatefulSpec StatefulFacts.
Import ListNotations.

(** Which calls are made and what comes out.  [l] is the record of all calls in order; recording changes nothing.
    No call is made twice for a node; modifies() is called for inner nodes only, all calls are below nodes that answered
    that they are not to be modified, operator() is called for leaves and for nodes to be modified.  If the manipulation
    returns, it made every such call, every value returned by operator() is where its node was, and the other nodes are as
    they were; otherwise the last call threw, and its exception comes out. *)
Theorem C87_calls_of_a_manipulation :
  forall (n : num) (S : Type) (order : list dir -> S -> bool)
    (modifies : list dir -> expr n -> S -> outcome bool * S)
    (apply : list dir -> expr n -> S -> outcome (expr n) * S) (e : expr n) (s : S),
    exists o s' l,
      smanipulate n S order modifies apply [] e s = (o, s') /\
      smanipulate n (S * list (mcall n)) (same_order n order) (noted n MAsked modifies) (noted n MGave apply) [] e (s, []) = (o, (s', l)) /\
      NoDup (map (which_call n) l) /\
      (forall p b, In (MAsked p b) l -> allowed n l p /\ exists t, at_path e p = Some t /\ leaf t = false) /\
      (forall p r, In (MGave p r) l ->
         allowed n l p /\ exists t, at_path e p = Some t /\ (leaf t = true \/ In (MAsked p (Ok true)) l)) /\
      match o with
      | Ok e' =>
          Forall (mreturned n) l /\
          forall p t, at_path e p = Some t -> allowed n l p ->
            if leaf t then exists r, In (MGave p (Ok r)) l /\ at_path e' p = Some r
            else (exists r, In (MAsked p (Ok true)) l /\ In (MGave p (Ok r)) l /\ at_path e' p = Some r) \/
                 (In (MAsked p (Ok false)) l /\ exists t', at_path e' p = Some t' /\ same_head t t')
      | _ => exists l1 c, l = l1 ++ [c] /\ Forall (mreturned n) l1 /\ mended n c o
      end.
Proof.
  intros n S order modifies apply e s. destruct (run_of n S order modifies apply e [] s []) as [l [R E]].
  rewrite shift_nil in E. exists (fst (smanipulate n S order modifies apply [] e s)), (snd (smanipulate n S order modifies apply [] e s)), l.
  split; [apply surjective_pairing|]. split; [exact E|]. split; [exact (run_nodup n _ _ _ R)|].
  destruct (run_right n _ _ _ R) as [A B]. split; [exact A|]. split; [exact B|].
  pose proof (run_returned n _ _ _ R) as T. pose proof (run_covered n _ _ _ R) as C.
  destruct (fst (smanipulate n S order modifies apply [] e s)) as [e'|x|]; auto. split; [exact T|]. exact (C e' eq_refl).
Qed.
Print Assumptions C87_calls_of_a_manipulation.

(** In which order: a node is asked about before anything below it, all calls for one operand of a binary node are made
    before those for the other, and no other calls are made in between.  Which operand comes first is up to the compiler. *)
Theorem C87_order_of_the_calls :
  forall (n : num) (S : Type) (order : list dir -> S -> bool)
    (modifies : list dir -> expr n -> S -> outcome bool * S)
    (apply : list dir -> expr n -> S -> outcome (expr n) * S) (e : expr n) (s s' : S) o l p op x y,
    smanipulate n (S * list (mcall n)) (same_order n order) (noted n MAsked modifies) (noted n MGave apply) [] e (s, []) = (o, (s', l)) ->
    at_path e p = Some (EBin op x y) -> In (MAsked p (Ok false)) l ->
    exists l1 u w l2 d d', l = l1 ++ MAsked p (Ok false) :: u ++ w ++ l2 /\
      ((d = DirL /\ d' = DirR) \/ (d = DirR /\ d' = DirL)) /\
      Forall (within n (p ++ [d])) u /\ Forall (within n (p ++ [d'])) w /\
      Forall (fun c => ~ within n p c) (l1 ++ l2).
Proof.
  intros n S order modifies apply e s s' o l p op x y E At I. destruct (run_of n S order modifies apply e [] s []) as [l' [R E']].
  rewrite shift_nil in E'. rewrite E in E'. injection E' as _ _ ->. exact (run_ordered n _ _ _ R p op x y At I).
Qed.
Print Assumptions C87_order_of_the_calls.

(** What the functor is given: for a position only the node that is there.  Functors that agree on these do the same. *)
Theorem C87_functor_is_given_the_nodes :
  forall (n : num) (S : Type) (order : list dir -> S -> bool)
    (m1 m2 : list dir -> expr n -> S -> outcome bool * S) (a1 a2 : list dir -> expr n -> S -> outcome (expr n) * S)
    (e : expr n) (s : S),
    (forall p t k, at_path e p = Some t -> leaf t = false -> m1 p t k = m2 p t k) ->
    (forall p t k, at_path e p = Some t -> a1 p t k = a2 p t k) ->
    smanipulate n S order m1 a1 [] e s = smanipulate n S order m2 a2 [] e s.
Proof.
  intros n S order m1 m2 a1 a2 e s Hm Ha. exact (sees_nodes n S order m1 m2 a1 a2 e [] Hm Ha s).
Qed.
Print Assumptions C87_functor_is_given_the_nodes.

(** Non-trivial case: two functors that differ at expressions which are not nodes of sin(x0) only. *)
Example C87_nodes_case :
  let e : expr numZ := EUn USin (EVar 0) in
  let m1 (p : list dir) (t : expr numZ) (k : nat) := (Ok (match t with EUn _ _ => false | _ => true end), k) in
  let m2 (p : list dir) (t : expr numZ) (k : nat) := (Ok false, k) in
  (forall p t k, at_path e p = Some t -> leaf t = false -> m1 p t k = m2 p t k) /\ m1 [] (EBin BPlus e e) O <> m2 [] (EBin BPlus e e) O.
Proof.
  cbv zeta. split; [|discriminate]. intros [|[] [|d q]] t k E L; cbn in E; try discriminate E; try (injection E as <-; try discriminate L; reflexivity).
  destruct d; discriminate E.
Qed.

(** If what the functor answers does not depend on its state, the result depends neither on the order nor on the state. *)
Theorem C87_stateless_functors :
  forall (n : num) (S : Type) (order order' : list dir -> S -> bool)
    (modifies : list dir -> expr n -> S -> outcome bool * S)
    (apply : list dir -> expr n -> S -> outcome (expr n) * S) (e e' : expr n) (s s' : S),
    stateless n modifies -> stateless n apply ->
    fst (smanipulate n S order modifies apply [] e s) = Ok e' ->
    fst (smanipulate n S order' modifies apply [] e s') = Ok e'.
Proof.
  intros n S order order' modifies apply e e' s s' Hm Ha H.
  exact (stateless_same n S S order order' modifies apply modifies apply Hm Ha e [] s s' e' H).
Qed.
Print Assumptions C87_stateless_functors.

(** With a state the result may depend on the compiler: numbering the variables of x0 - x1 gives 0 - 1 or 1 - 0. *)
Theorem C87_order_matters_refuted :
  ~ (forall (n : num) (S : Type) (order order' : list dir -> S -> bool)
       (modifies : list dir -> expr n -> S -> outcome bool * S)
       (apply : list dir -> expr n -> S -> outcome (expr n) * S) (e e' : expr n) (s : S),
       fst (smanipulate n S order modifies apply [] e s) = Ok e' ->
       fst (smanipulate n S order' modifies apply [] e s) = Ok e').
Proof.
  intros H. specialize (H numZ nat (fun _ _ => true) (fun _ _ => false) (never numZ) (number_vars numZ)
    (EBin BMinus (EVar 0) (EVar 1)) (EBin BMinus (EConst 0%Z) (EConst 1%Z)) O eq_refl).
  discriminate H.
Qed.
Print Assumptions C87_order_matters_refuted.

(** Non-trivial case: sin(x0) - x1 * x2, where the product is to be modified; left operand first. *)
Example C87_case :
  let e : expr numZ := EBin BMinus (EUn USin (EVar 0)) (EBin BMult (EVar 1) (EVar 2)) in
  let md p (t : expr numZ) (k : nat) := (Ok (match t with EBin BMult _ _ => true | _ => false end), k) in
  let fw p (t : expr numZ) k : outcome (expr numZ) * nat := (Ok (EConst (Z.of_nat k)), S k) in
  smanipulate numZ (nat * list (mcall numZ)) (same_order numZ (fun _ _ => true)) (noted numZ MAsked md) (noted numZ MGave fw) [] e (O, []) =
  (Ok (EBin BMinus (EUn USin (EConst 0%Z)) (EConst 1%Z)),
   (2, [@MAsked numZ [] (Ok false); MAsked [DirL] (Ok false); @MGave numZ [DirL; DirU] (Ok (EConst 0%Z));
        MAsked [DirR] (Ok true); @MGave numZ [DirR] (Ok (EConst 1%Z))])).
Proof. reflexivity. Qed.

(** Non-trivial case: a functor that counts its calls, but whose answers do not depend on the count. *)
Example C87_stateless_case :
  let md p (t : expr numZ) (k : nat) := (Ok (match t with EUn _ _ => true | _ => false end), S k) in
  let fw p (t : expr numZ) k : outcome (expr numZ) * nat := (Ok (EConst 7%Z), S k) in
  stateless numZ md /\ stateless numZ fw /\
  smanipulate numZ nat (fun _ _ => true) md fw [] (EBin BPlus (EUn USin (EVar 0)) (EVar 1)) O =
    (Ok (EBin BPlus (EConst 7%Z) (EConst 7%Z)), 4).
Proof. cbv zeta. split; [intros p e s s'; reflexivity|]. split; [intros p e s s'; reflexivity|reflexivity]. Qed.
