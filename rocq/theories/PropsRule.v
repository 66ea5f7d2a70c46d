(** C88: quadrature with rules that have a state. *)
From Coq Require Import ZArith NArith Reals List Bool Sorting.Permutation.
From Verif Require Import Outcome Num NumR NumZ RtModel RtSpec QuadModel StatefulModel RuleModel RuleSpec RuleFacts.
Import ListNotations.

(** Which calls are made.  [l] is the record of all calls in order; recording changes nothing.  The rule is called at most
    once for each integral in the sum, and for nothing else.  If a number is returned, it was called for every integral, and
    every call returned.  Otherwise the last call threw and its exception comes out, or all calls returned and the expression
    is not a sum or difference of integrals, so that there is no number for any rule. *)
Theorem C88_calls_of_the_rule :
  forall (n : num) (S : Type) (order : expr n -> S -> bool)
    (rule : expr n -> expr n -> N -> expr n -> S -> outcome n * S) (e : expr n) (s : S),
    exists o s' l,
      squadrature n S order rule e s = (o, s') /\
      squadrature n (S * list (rcall n)) (order_of order) (logged rule) e (s, []) = (o, (s', l)) /\
      (exists rest, Permutation (map fst l ++ rest) (iterms e) /\ (forall x, o = Ok x -> rest = [])) /\
      match o with
      | Ok _ => Forall rreturned l
      | _ => (exists l1 t, l = l1 ++ [(t, o)] /\ Forall rreturned l1) \/
             (Forall rreturned l /\ forall (other : quad_rule n) x, quadrature n other e <> Ok x)
      end.
Proof.
  intros n S order rule e s. destruct (sq_runs n S order rule e s []) as [l [Q E]].
  exists (fst (squadrature n S order rule e s)), (snd (squadrature n S order rule e s)), l.
  split; [apply surjective_pairing|]. split; [exact E|]. split; [|exact (qrun_returned n _ _ _ Q)].
  destruct (qrun_terms n _ _ _ Q) as [rest [P R]]. exists rest. split; [exact P|]. intros x K. now rewrite K in R.
Qed.
Print Assumptions C88_calls_of_the_rule.

(** The result: over the reals, the sum of the answers with the signs of their integrals. *)
Theorem C88_value :
  forall (S : Type) (order : expr numR -> S -> bool)
    (rule : expr numR -> expr numR -> N -> expr numR -> S -> outcome numR * S) (e : expr numR) (s s' : S) l x,
    squadrature numR (S * list (rcall numR)) (order_of order) (logged rule) e (s, []) = (Ok (Some x), (s', l)) ->
    exists ys : list R,
      length ys = length (signed_terms (n := numR) true e) /\
      Permutation l (combine (iterms e) (map (fun y => Ok (Some y)) ys)) /\
      x = signed_sum (map fst (signed_terms (n := numR) true e)) ys.
Proof.
  intros S order rule e s s' l x E. destruct (sq_runs numR S order rule e s []) as [l' [Q E']].
  rewrite E in E'. injection E' as E1 _ E2. cbn in E2. subst l'. exact (qrun_value e l _ Q x (eq_sym E1)).
Qed.
Print Assumptions C88_value.

(** If the answers do not depend on the state, the result is the one of C29, whatever the state and the order. *)
Theorem C88_stateless_rules :
  forall (n : num) (S : Type) (order : expr n -> S -> bool)
    (rule : expr n -> expr n -> N -> expr n -> S -> outcome n * S) (q : quad_rule n) (e : expr n) (s : S) x,
    (forall lo hi var a t, fst (rule lo hi var a t) = q lo hi var a) ->
    fst (squadrature n S order rule e s) = Ok x <-> quadrature n q e = Ok x.
Proof.
  intros n S order rule q e s x Hq. destruct (sq_runs n S order rule e s []) as [l [Q E]].
  assert (A : forall lo hi var a r, In ((lo, hi, var, a), r) l -> r = q lo hi var a).
  { refine (qrun_answers n S order rule q Hq e s [] _ _ l _ E). intros lo hi var a r []. }
  pose proof (qrun_pure n q e l _ Q A) as P. destruct (fst (squadrature n S order rule e s)) as [y|y|].
  - rewrite P. tauto.
  - split; [discriminate|]. intros K. elim (P x K).
  - split; [discriminate|]. intros K. elim (P x K).
Qed.
Print Assumptions C88_stateless_rules.

(** Undefined behaviour, for rules whose answers do not depend on the state: the one of C29 is that of some order. *)
Theorem C88_undefined_behaviour :
  forall (n : num) (S : Type) (rule : expr n -> expr n -> N -> expr n -> S -> outcome n * S) (q : quad_rule n) (e : expr n) (s : S),
    (forall lo hi var a t, fst (rule lo hi var a t) = q lo hi var a) ->
    quadrature n q e = UB <-> exists order, fst (squadrature n S order rule e s) = UB.
Proof.
  intros n S rule q e s Hq. split.
  - intros H. exists (ub_first n S q). exact (ub_sq n S rule q Hq e s H).
  - intros [order H]. exact (sq_ub n S rule q Hq order e s H).
Qed.
Print Assumptions C88_undefined_behaviour.

(** Otherwise the result may depend on the compiler. *)
Theorem C88_order_matters_refuted :
  ~ (forall (n : num) (S : Type) (order order' : expr n -> S -> bool)
       (rule : expr n -> expr n -> N -> expr n -> S -> outcome n * S) (e : expr n) (s : S) x,
       fst (squadrature n S order rule e s) = Ok x -> fst (squadrature n S order' rule e s) = Ok x).
Proof.
  intros H. specialize (H numZ nat (fun _ _ => true) (fun _ _ => false) (numbering numZ)
    (EBin BMinus (EInt (EConst 0%Z) (EConst 1%Z) 0 (EVar 0)) (EInt (EConst 0%Z) (EConst 2%Z) 0 (EVar 0))) O (-1)%Z eq_refl).
  discriminate H.
Qed.
Print Assumptions C88_order_matters_refuted.

(** Non-trivial case: a rule that throws at its third call, for i1 - (i2 + i3) with the right operands first. *)
Example C88_case :
  let i k : expr numZ := EInt (EConst 0%Z) (EConst k) 0 (EVar 0) in
  let t k : iterm numZ := (EConst 0%Z, EConst k, 0%N, EVar 0) in
  let rule (lo hi : expr numZ) (var : N) (a : expr numZ) (k : nat) : outcome numZ * nat :=
    if Nat.eqb k 2 then (Throw ThrowText, k) else (Ok (Z.of_nat k), S k) in
  squadrature numZ (nat * list (rcall numZ)) (order_of (fun _ _ => false)) (logged rule)
    (EBin BMinus (i 1%Z) (EBin BPlus (i 2%Z) (i 3%Z))) (0, []) =
  (Throw ThrowText, (2, [(t 3%Z, Ok 0%Z); (t 2%Z, Ok 1%Z); (t 1%Z, Throw ThrowText)])).
Proof. reflexivity. Qed.

(** Non-trivial case: a sum with a value, by a rule that numbers its calls; 0 - (1 + 2). *)
Example C88_value_case :
  let i k : expr numZ := EInt (EConst 0%Z) (EConst k) 0 (EVar 0) in
  fst (squadrature numZ nat (fun _ _ => true) (numbering numZ) (EBin BMinus (i 1%Z) (EBin BPlus (i 2%Z) (i 3%Z))) O) = Ok (-3)%Z /\
  map fst (signed_terms (n := numZ) true (EBin BMinus (i 1%Z) (EBin BPlus (i 2%Z) (i 3%Z)))) = [true; false; false].
Proof. split; reflexivity. Qed.

(** Non-trivial case over the reals: 0 - 1, with the record. *)
Example C88_real_case :
  let i k : expr numR := EInt (EConst (Some 0%R)) (EConst (Some k)) 0 (EVar 0) in
  let e : expr numR := EBin BMinus (i 1%R) (i 2%R) in
  exists s' l, squadrature numR (nat * list (rcall numR)) (order_of (fun _ _ => true)) (logged (numbering numR)) e (O, []) =
    (Ok (Some (0 - 1)%R), (s', l)).
Proof. do 2 eexists. reflexivity. Qed.

(** Non-trivial case: an exception of the rule hides the undefined behaviour of a symbolic integral in one of the orders. *)
Example C88_undefined_case :
  let rule (lo hi : expr numZ) (var : N) (a : expr numZ) (k : nat) : outcome numZ * nat := (Throw ThrowText, S k) in
  let e : expr numZ := EBin BPlus (EInt (EConst 0%Z) (EConst 1%Z) 0 (EVar 0)) (EUn (USymInt 0) (EVar 0)) in
  fst (squadrature numZ nat (fun _ _ => true) rule e O) = Throw ThrowText /\
  fst (squadrature numZ nat (fun _ _ => false) rule e O) = UB /\
  (forall lo hi var a t, fst (rule lo hi var a t) = Throw ThrowText).
Proof. cbv zeta. split; [reflexivity|]. split; [reflexivity|]. reflexivity. Qed.
