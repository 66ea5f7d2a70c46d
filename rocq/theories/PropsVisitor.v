(** Property C85: traversal and manipulation with functors of the user that have a state and may throw. *)
From Coq Require Import ZArith NArith List Bool Arith Lia Sorting.Sorted.
From Verif Require Import Outcome Num NumZ RtModel RtSpec RtVisit HeapModel HeapSpec HeapFacts HeapRun VisitorModel VisitorSpec VisitorFacts.
Import ListNotations.

(** C85.  Whatever a traversal functor does - change its state, answer differently each time, throw - its
    operator() is called in the documented order and at most once for each node, step_into() at most once
    for each binary node, and no other call is made.  A traversal that ends normally has called it for
    exactly those nodes all of whose binary ancestors were to be stepped into; otherwise the last call is
    the one that threw, and the exception is the one that comes out.  Recording the calls changes nothing
    else. *)
Theorem C85_calls_of_a_traversal :
  forall (n : num) (S : Type)
    (step : list dir -> expr n -> S -> outcome bool * S) (visit : list dir -> expr n -> S -> outcome unit * S)
    (e : expr n) (s : S),
  exists o s' l,
    walk n S step visit [] e s = (o, s') /\
    walk n (S * list call) (recorded Asked step) (recorded Called visit) [] e (s, []) = (o, (s', l)) /\
    StronglySorted before (called l) /\ NoDup (asked l) /\
    (forall p, In p (called l) -> at_path e p <> None) /\
    (forall p, In p (asked l) -> exists op x y, at_path e p = Some (EBin op x y)) /\
    (o = Ok tt -> Forall returned l /\
       forall p, at_path e p <> None -> (In p (called l) <-> entered e l p)) /\
    (o <> Ok tt -> exists l1 k, l = l1 ++ [k] /\ Forall returned l1 /\ ended k o).
Proof.
  intros n S step visit e s.
  destruct (walk_good n S step visit e [] s []) as [o [s' [l [E [qs [cs [G1 [G2 [G3 [G4 [G5 [G6 [G7 G8]]]]]]]]]]]]].
  change (map (app []) qs) with (map (fun x : list dir => x) qs) in G1. rewrite map_id in G1.
  change (map (app []) cs) with (map (fun x : list dir => x) cs) in G2. rewrite map_id in G2. subst.
  exists o, s', l. split.
  { pose proof (recorded_same n S step visit e [] s []) as R. destruct (walk n S step visit [] e s) as [o1 s1].
    destruct R as [l' R]. rewrite R in E. cbn in E. now inversion E. }
  split; [exact E|]. split; [exact G3|]. split; [exact G4|]. split; [exact G5|]. split; [exact G6|].
  split; [exact G7|exact G8].
Qed.
Print Assumptions C85_calls_of_a_traversal.

(** What the functor is given: for a position only the node that is there, step_into() only binary nodes.  Functors
    that agree on these do the same. *)
Theorem C85_functor_is_given_the_nodes :
  forall (n : num) (S : Type) (step step' : list dir -> expr n -> S -> outcome bool * S)
    (visit visit' : list dir -> expr n -> S -> outcome unit * S) (e : expr n) (s : S),
    (forall p op x y k, at_path e p = Some (EBin op x y) -> step p (EBin op x y) k = step' p (EBin op x y) k) ->
    (forall p t k, at_path e p = Some t -> visit p t k = visit' p t k) ->
    walk n S step visit [] e s = walk n S step' visit' [] e s.
Proof. intros n S step step' visit visit' e s Hf Hg. exact (walk_sees n S step step' visit visit' e [] Hf Hg s). Qed.
Print Assumptions C85_functor_is_given_the_nodes.

(** Non-trivial case: two functors that differ at expressions which are not nodes of sin(x0) only. *)
Example C85_nodes_case :
  let e : expr numZ := EUn USin (EVar 0) in
  let g1 (p : list dir) (t : expr numZ) (k : nat) := (Ok tt, match t with EBin _ _ _ => k | _ => S k end) in
  let g2 (p : list dir) (t : expr numZ) (k : nat) := (Ok tt, S k) in
  (forall p t k, at_path e p = Some t -> g1 p t k = g2 p t k) /\ g1 [] (EBin BPlus e e) O <> g2 [] (EBin BPlus e e) O.
Proof.
  cbv zeta. split; [|discriminate]. intros [|[] [|d q]] t k E; cbn in E; try discriminate E; try (injection E as <-; reflexivity).
  destruct d; discriminate E.
Qed.

(** The visitor below counts its calls and throws at the third; it steps into everything.  (x0 * 2) + x1
    is visited at the left operand of the product, at the product, at its right operand, and no further. *)
Example C85_traversal_case :
  let e := EBin BPlus (EBin BMult (EVar 0) (EConst 2%Z)) (EVar 1) : expr numZ in
  let visit := fun (_ : list dir) (_ : expr numZ) (k : nat) =>
    (if Nat.eqb k 2 then Throw ThrowText else Ok tt, S k) in
  let step := fun (_ : list dir) (_ : expr numZ) (k : nat) => (Ok true, k) in
  walk numZ (nat * list call) (recorded Asked step) (recorded Called visit) [] e (0, [])
  = (Throw ThrowText,
     (3, [Asked [] (Ok true); Asked [DirL] (Ok true); Called [DirL; DirL] (Ok tt); Called [DirL] (Ok tt);
          Called [DirL; DirR] (Throw ThrowText)])).
Proof. vm_compute. reflexivity. Qed.

(** A functor that answers differently each time: step_into() says yes once only. *)
Example C85_changing_answers_case :
  let e := EBin BPlus (EBin BMult (EVar 0) (EConst 2%Z)) (EVar 1) : expr numZ in
  let visit := fun (_ : list dir) (_ : expr numZ) (b : bool) => (Ok tt, b) in
  let step := fun (_ : list dir) (_ : expr numZ) (b : bool) => (Ok b, false) in
  walk numZ (bool * list call) (recorded Asked step) (recorded Called visit) [] e (true, [])
  = (Ok tt, (false, [Asked [] (Ok true); Asked [DirL] (Ok false); Called [DirL] (Ok tt); Called [] (Ok tt);
          Called [DirR] (Ok tt)])).
Proof. vm_compute. reflexivity. Qed.

(** C85.  Manipulation, on the heap, with a functor that may throw from modifies() or from operator() and
    otherwise behaves ([answers], [makes_new]).  If it throws at one of the nodes it is asked about, an
    exception comes out, and every node that existed is as before.  If not, the result is the expression
    of property C26, made of new nodes only, and no other node was allocated.  In both cases the
    expression manipulated is intact. *)
Theorem C85_manipulation_with_throwing_functor :
  forall (n : num) (order : nat -> bool) modifies apply (md : expr n -> outcome bool) (fw : expr n -> outcome (expr n))
    (m : mem n) (a : nat) (e : expr n) (fp : list nat),
    answers n modifies md -> makes_new n apply fw ->
    (forall s, md s <> UB) -> (forall s, fw s <> UB) ->
    sane n m -> owns n m a e fp -> NoDup fp ->
    ((exists s, reached n md e s /\ fails n md fw s) /\
     exists m' x, hmanipulate n order modifies apply a m = RThrow m' x /\
       kept n m m' /\ owns n m' a e fp)
    \/
    ((forall s, reached n md e s -> ~ fails n md fw s) /\
     exists m' a' fp',
       hmanipulate n order modifies apply a m = ROk m' a' /\
       owns n m' a' (manipulate n (fun t => match md t with Ok b => b | _ => false end)
                                  (fun t => match fw t with Ok t' => t' | _ => t end) e) fp' /\
       NoDup fp' /\ (forall b, In b fp' -> at_ m b = None) /\ kept n m m' /\ owns n m' a e fp /\
       (forall b, at_ m' b <> None -> at_ m b <> None \/ In b fp')).
Proof.
  intros n order modifies apply md fw m a e fp HM HA DM DF W O ND.
  assert (H : has n (S (length fp)) m (IExpr n a e)) by (exists fp; repeat split; [exact O|exact ND|lia]).
  pose proof (makes_hmanipulate n order modifies apply md fw HM HA _ m a e W H m (grows_refl n m W)) as R.
  assert (KEPT : forall m', grows n m m' -> kept n m m').
  { intros m' [_ [G _]] b B. apply G. now apply (wf_alive n m b W). }
  assert (INTACT : forall m', grows n m m' -> owns n m' a e fp).
  { intros m' G. exact (grows_own1 n m m' (IExpr n a e) fp W G O). }
  destruct (manip n md fw e) as [e'|x|] eqn:E.
  - right. destruct (manip_ok n md fw e e' E) as [E' NF]. split; [exact NF|].
    destruct R as [m' [a' [C [L [OL S]]]]].
    assert (OW : own1 n m' (IExpr n a' e') L).
    { inversion OL as [|i f0 l0 L0 X Y]; subst. inversion Y; subst. rewrite app_nil_r. exact X. }
    pose proof S as [S1 [S2 [S3 [S4 [S5 S6]]]]].
    assert (G : grows n m m') by (apply (swaps_grows n True m m' L); exact S).
    exists m', a', L. split; [exact C|]. split; [rewrite E' in OW; exact OW|]. split; [exact S3|]. split.
    { intros b B. apply W. destruct (S5 b B) as [[]|K]. exact K. }
    split; [now apply KEPT|]. split; [now apply INTACT|].
    intros b B. destruct (S6 Logic.I b B) as [K|[K _]]; [now right|left].
    rewrite <- (S4 b K); [exact B|intros []].
  - left. split; [apply (manip_throw n md fw DM DF e x E)|]. destruct R as [m' [y [C G]]].
    exists m', y. split; [exact C|]. split; [now apply KEPT|now apply INTACT].
  - now elim (manip_defined n md fw DM DF e).
Qed.
Print Assumptions C85_manipulation_with_throwing_functor.

(** C85.  The exceptions that come out of a manipulation are those of the functor, unchanged. *)
Theorem C85_exceptions_are_the_functors :
  forall (n : num) (order : nat -> bool) modifies apply (of_functor : exn -> Prop) (m m' : mem n) (a : nat) (x : exn),
    (forall m a y, modifies m a = Throw y -> of_functor y) ->
    (forall m a m' y, apply a m = RThrow m' y -> of_functor y) ->
    hmanipulate n order modifies apply a m = RThrow m' x -> of_functor x.
Proof.
  intros n order modifies apply E m m' a x HM HA K.
  apply (only_hmanipulate n order modifies apply E HM (fun b u v y => HA u b v y) a m m' x K).
Qed.
Print Assumptions C85_exceptions_are_the_functors.

(** C85 (defect).  The exception leaks the copies made before it: a functor as above that throws at x0 only,
    applied to sin(x1) + x0, leaves the copy of sin(x1) behind when the left operand is computed first. *)
Theorem C85_exception_leaks_refuted :
  exists (order : nat -> bool) modifies apply (md : expr numZ -> outcome bool) fw (m : mem numZ) a e fp m' x,
    answers numZ modifies md /\ makes_new numZ apply fw /\
    (forall s, md s <> UB) /\ (forall s, fw s <> UB) /\ sane numZ m /\ owns numZ m a e fp /\ NoDup fp /\
    (forall b, at_ m b <> None -> In b fp) /\
    hmanipulate numZ order modifies apply a m = RThrow m' x /\
    exists b, at_ m' b <> None /\ ~ In b fp.
Proof.
  assert (T : match hmanipulate numZ (fun _ => true) (fun _ _ => Ok false) (throw_at_x0 numZ (fun _ => true)) 5 (sin_x1_plus_x0 numZ) with
              | RThrow m' _ => match at_ m' 8 with Some _ => true | None => false end
              | _ => false
              end = true) by (vm_compute; reflexivity).
  destruct (hmanipulate numZ (fun _ => true) (fun _ _ => Ok false) (throw_at_x0 numZ (fun _ => true)) 5 (sin_x1_plus_x0 numZ))
    as [m' a'|m' x|] eqn:E; try discriminate.
  exists (fun _ => true), (fun _ _ => Ok false), (throw_at_x0 numZ (fun _ => true)), (fun _ => Ok false), (no_x0 numZ),
    (sin_x1_plus_x0 numZ), 5, (EBin BPlus (EUn USin (EVar 1)) (EVar 0)), [5; 2; 0; 1; 4; 3], m', x.
  split; [intros m a e fp W O ND; reflexivity|]. split; [apply throw_at_x0_works|].
  split; [discriminate|]. split; [intros [?|[|?]|? ?|? ?|? ? ? ?|? ? ?|?]; discriminate|].
  split; [apply sin_x1_plus_x0_sane|]. split; [apply sin_x1_plus_x0_owns|].
  split; [repeat constructor; cbn; intuition lia|].
  split.
  { intros b B. do 6 (destruct b as [|b]; [cbn; tauto|]). cbn in B. destruct b; now elim B. }
  split; [exact E|].
  exists 8. split; [intros N; rewrite N in T; discriminate|cbn; intuition lia].
Qed.
Print Assumptions C85_exception_leaks_refuted.

(** The same functor, applied to sin(x1): nothing is thrown, and the copy is all there is besides. *)
Example C85_manipulation_case :
  let r := hmanipulate numZ (fun _ => true) (fun _ _ => Ok false) (throw_at_x0 numZ (fun _ => true)) 2 (sin_x1_plus_x0 numZ) in
  match r with
  | ROk m' a' => (a', next m', map (at_ m') [6; 7; 8]) = (8, 9, [Some (HVar 1); Some (HUop USin); Some (HUn 6 7)])
  | _ => False
  end.
Proof. vm_compute. reflexivity. Qed.
