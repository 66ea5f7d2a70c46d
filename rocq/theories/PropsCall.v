(** Property C59: the ways to evaluate an expression agree. *)
From Coq Require Import ZArith NArith List Bool Lia.
From Verif Require Import Outcome Num NumZ RtModel CtModel CtOpsModel CtManipSpec ApiModel CallModel CallSpec
  CallFacts.
Import ListNotations.

(** C59.  Whatever class the expression has (constant, variable, unary, binary, rt_expr or
    compile-time) and whatever form the point has (number, rt_constant, ct_constant, std::vector, any
    other vector class, ct_vector_1/2/3): if the call compiles and the coordinates can be read, then
    calling the expression gives the value of its tree at these coordinates, and throws exactly if
    that throws.  One exception: an rt_variable other than the first, called with a double, runs
    into undefined behaviour (a failed assert) instead of throwing. *)
Theorem C59_calls_are_evaluation :
  forall n (m : mem n) o p xs t r,
    to_tree n o = Some t -> coords m p xs -> call_obj n m o p = Some r ->
    agree r (eval n t xs) \/
    (r = UB /\ exists i x, o = ORt (EVar i) /\ (0 < i)%N /\ p = PNum x).
Proof.
  intros n m o p xs t r T C H.
  assert (K : forall e, call_tree n m e p = Some r -> agree r (eval n e xs)).
  { intros e E. rewrite (tree_call n m e p xs r E C). apply agree_refl. }
  destruct o as [x|z|c|e|e]; cbn [to_tree call_obj] in T, H; try discriminate.
  - left. destruct (ct_call n m c p xs r H C) as [r' [E A]].
    rewrite (to_rt_call n c t T xs) in E. injection E as <-. exact A.
  - injection T as <-. destruct e; try discriminate; auto.
    + injection H as <-. left. reflexivity.
    + destruct (var_call n m id p xs r H C) as [A|[U [I [x P]]]]; [auto|].
      right. split; [exact U|]. exists id, x. auto.
  - injection T as <-. auto.
Qed.
Print Assumptions C59_calls_are_evaluation.

(** C59.  Compile-time expressions that contain run-time constants (these cannot be converted to
    run time): calling them at any form of point agrees with calling them at the std::vector of its
    coordinates (C50). *)
Theorem C59_compile_time_calls :
  forall n (m : mem n) c p xs r,
    coords m p xs -> call_obj n m (OCt c) p = Some r ->
    exists r', call n c xs = Some r' /\ agree r r'.
Proof. intros n m c p xs r C H. exact (ct_call n m c p xs r H C). Qed.
Print Assumptions C59_compile_time_calls.

(** C59.  Run-time expressions read every coordinate of the point, also those of variables that do not
    occur: if one cannot be read (an index the vector class does not have, a reference to a number
    that is gone), the call is undefined behaviour. *)
Theorem C59_every_coordinate_is_read :
  forall n (m : mem n) o p r,
    (exists e, o = OExpr e) \/ (exists op a, o = ORt (EUn op a)) \/ (exists op a b, o = ORt (EBin op a b)) ->
    call_obj n m o p = Some r ->
    r = UB \/ exists xs, coords m p xs.
Proof.
  intros n m o p r K H.
  assert (exists e, call_tree n m e p = Some r) as [e E]
    by (destruct K as [[e ->]|[[op [a ->]]|[op [a [b ->]]]]]; eexists; exact H).
  exact (tree_call_reads n m e p r E).
Qed.
Print Assumptions C59_every_coordinate_is_read.

(** x0 at a vector class that reports two entries but has one. *)
Example C59_read_case :
  let g := fun i => match i with 0 => Some 3%Z | _ => None end in
  call_obj numZ (fun _ => None) (OExpr (EVar 0)) (@PGen numZ 2 g) = Some UB /\
  call_obj numZ (fun _ => None) (OExpr (EVar 0)) (@PGen numZ 1 g) = Some (Ok 3%Z).
Proof. split; reflexivity. Qed.

(** A vector class with two entries, and the same numbers behind references. *)
Example C59_case :
  let m : mem numZ := fun a => match a with 7%N => Some 3%Z | 8%N => Some 5%Z | _ => None end in
  let g := fun i => match i with 0 => Some 3%Z | 1 => Some 5%Z | _ => None end in
  let e := EBin BMinus (EBin BMult (EVar 0) (EVar 1)) (EVar 0) in
  coords m (PVec2 7 8) [3; 5]%Z /\ coords m (@PGen numZ 2 g) [3; 5]%Z /\
  call_obj numZ m (OExpr e) (PVec2 7 8) = Some (Ok 12%Z) /\
  call_obj numZ m (ORt e) (@PGen numZ 2 g) = Some (Ok 12%Z) /\
  call_obj numZ m (OExpr e) (@PNum numZ 4%Z) = Some (Throw (VariableIndexOutOfBounds 1 1)) /\
  call_obj numZ m (OCt (MBin CMult (@MRt numZ 2%Z) (MVar 1))) (@PVec3 numZ 0%Z 9%Z 0%Z) = Some (Ok 18%Z) /\
  call_obj numZ m (ORt (EVar 1)) (PVec2 7 8) = Some (Ok 5%Z) /\
  call_obj numZ m (ORt (EVar 2)) (PVec2 7 8) = Some (Throw (VariableIndexOutOfBounds 2 2)).
Proof.
  cbv zeta. split; [constructor; reflexivity|]. split; [|repeat split].
  constructor; [reflexivity|]. intros [|[|i]] H; try reflexivity. exfalso. simpl in H. lia.
Qed.

(** C59.  Which calls compile.  Run-time expressions: all but with an int.  Compile-time
    expressions built from constants, variables and binary operations: never with a double or an
    int if a variable occurs; with a ct_constant only if no variable but the first occurs; with
    ct_vectors only if the indices are below the size. *)
Theorem C59_which_calls_compile :
  forall n (m : mem n) p,
    (forall e, (exists r, call_obj n m (OExpr e) p = Some r) <-> forall z, p <> PInt z) /\
    (forall i, (exists r, call_obj n m (ORt (EVar i)) p = Some r) <-> forall z, p <> PInt z) /\
    (forall op a b, (exists r, call_obj n m (ORt (EBin op a b)) p = Some r) <-> forall z, p <> PInt z) /\
    (forall op a, (exists r, call_obj n m (ORt (EUn op a)) p = Some r) <-> forall z, p <> PInt z) /\
    (forall c, (exists r, call_obj n m (OCt c) p = Some r) <->
       m_plain c /\ forall i, m_occurs i c ->
         match p with
         | PNum _ | PInt _ => False
         | PCt _ | PVec1 _ => i = 0%N
         | PVec2 _ _ => (i < 2)%N
         | PVec3 _ _ _ => (i < 3)%N
         | PRt _ | PStd _ | PGen _ _ => True
         end).
Proof.
  intros n m p.
  assert (T : forall e, (exists r, call_tree n m e p = Some r) <-> forall z, p <> PInt z).
  { intros e. split.
    - intros [r H] z ->. discriminate.
    - intros H. destruct p; try (eexists; reflexivity). exfalso. exact (H z eq_refl). }
  split; [exact T|]. split.
  { intros i. split.
    - intros [r H] z ->. discriminate.
    - intros H. destruct p; try (eexists; reflexivity). exfalso. exact (H z eq_refl). }
  split; [intros; apply T|]. split; [intros; apply T|].
  intros c. cbn [call_obj]. rewrite ct_compiles.
  assert (V : forall i, (exists r, call_ct_var n m i p = Some r) <->
    match p with
    | PNum _ | PInt _ => False
    | PCt _ | PVec1 _ => i = 0%N
    | PVec2 _ _ => (i < 2)%N
    | PVec3 _ _ _ => (i < 3)%N
    | PRt _ | PStd _ | PGen _ _ => True
    end).
  { intros i. destruct p; cbn [call_ct_var];
      try (split; [intros [r H]; discriminate|intros []]);
      try (split; [auto|intros _; eexists; reflexivity]);
      repeat match goal with |- context [N.eqb i ?k] => destruct (N.eqb_spec i k) end;
      split; intros H; try lia; try (eexists; reflexivity); destruct H; discriminate. }
  split; intros [P H]; (split; [exact P|]); intros i I.
  - exact (proj1 (V i) (H i I)).
  - exact (proj2 (V i) (H i I)).
Qed.
Print Assumptions C59_which_calls_compile.

(** (x0 + 2)(4) for a double, an int, a ct_constant. *)
Example C59_compile_case :
  let e : expr numZ := EBin BPlus (EVar 0) (EConst 2%Z) in
  let c : mexpr numZ := MBin CPlus (MVar 0) (MConst 2) in
  let m : mem numZ := fun _ => None in
  call_obj numZ m (OExpr e) (@PNum numZ 4%Z) = Some (Ok 6%Z) /\
  call_obj numZ m (OExpr e) (PInt 4) = None /\
  call_obj numZ m (OCt c) (@PNum numZ 4%Z) = None /\
  call_obj numZ m (OCt c) (PCt 4) = Some (Ok 6%Z).
Proof. repeat split. Qed.

(** C59: the exception mentioned: an rt_variable and an rt_expr holding it behave differently at a
    double. *)
Theorem C59_variable_at_number_refuted :
  forall n (m : mem n) i x, (0 < i)%N ->
    call_obj n m (ORt (EVar i)) (PNum x) = Some UB /\
    call_obj n m (OExpr (EVar i)) (PNum x) = Some (Throw (VariableIndexOutOfBounds i 1)).
Proof.
  intros n m i x I. cbn [call_obj call_var call_tree]. rewrite eval_scalar_eq, eval_var1.
  destruct (N.eqb_spec i 0); [lia|]. destruct (N.ltb_spec 0 i); [|lia]. split; reflexivity.
Qed.
Print Assumptions C59_variable_at_number_refuted.

(** C59.  The free function eval() is the call, for all expressions but compile-time variables. *)
Theorem C59_eval_is_call :
  forall n (m : mem n) o p,
    (forall i, o <> OCt (MVar i)) -> (forall x, o <> ONum x) ->
    eval_obj n m o p = call_obj n m o p.
Proof.
  intros n m [x|z|[]|e|e] p V X; try reflexivity.
  - exfalso. exact (X x eq_refl).
  - exfalso. exact (V id eq_refl).
Qed.
Print Assumptions C59_eval_is_call.

(** C59.  eval() of a compile-time variable returns its coordinate, but is not checked: if the
    std::vector is too short, it is undefined behaviour where the call throws, and any other vector
    class is asked for an entry it does not have. *)
Theorem C59_eval_of_compile_time_variable :
  forall n (m : mem n) i p xs r,
    coords m p xs -> eval_obj n m (OCt (MVar i)) p = Some r ->
    match nth_error xs (N.to_nat i) with
    | Some x => r = Ok x
    | None => (p = PStd xs /\ r = UB /\
                 call_obj n m (OCt (MVar i)) p = Some (Throw (VariableIndexOutOfBounds i (N.of_nat (length xs))))) \/
              exists get, p = PGen (length xs) get /\
                r = match get (N.to_nat i) with Some x => Ok x | None => UB end
    end.
Proof.
  intros n m i p xs r C H.
  destruct C; cbn [eval_obj] in H; try discriminate H.
  - injection H as <-. destruct (nth_error v (N.to_nat i)) eqn:E; [reflexivity|]. left.
    split; [reflexivity|]. split; [reflexivity|]. cbn [call_obj call_ct call_ct_var]. unfold checked.
    apply nth_error_None in E. destruct (N.leb_spec (N.of_nat (length v)) i); [reflexivity|lia].
  - injection H as <-. subst size. destruct (nth_error v (N.to_nat i)) eqn:E.
    + rewrite H1, E; [reflexivity|]. apply nth_error_Some. rewrite E. discriminate.
    + right. exists get. split; reflexivity.
  - cbn [call_ct_var] in H. destruct (N.eqb_spec i 0) as [->|_]; [|discriminate].
    injection H as <-. unfold read. rewrite H0. reflexivity.
  - cbn [call_ct_var] in H. destruct (N.eqb_spec i 0) as [->|_].
    + injection H as <-. unfold read. rewrite H0. reflexivity.
    + destruct (N.eqb_spec i 1) as [->|_]; [|discriminate].
      injection H as <-. unfold read. rewrite H1. reflexivity.
  - cbn [call_ct_var] in H. destruct (N.eqb_spec i 0) as [->|_]; [injection H as <-; reflexivity|].
    destruct (N.eqb_spec i 1) as [->|_]; [injection H as <-; reflexivity|].
    destruct (N.eqb_spec i 2) as [->|_]; [injection H as <-; reflexivity|discriminate].
Qed.
Print Assumptions C59_eval_of_compile_time_variable.

Example C59_eval_case :
  eval_obj numZ (fun _ => None) (OCt (MVar 1)) (@PStd numZ [4; 6]%Z) = Some (Ok 6%Z) /\
  eval_obj numZ (fun _ => None) (OCt (MVar 2)) (@PStd numZ [4; 6]%Z) = Some UB.
Proof. split; reflexivity. Qed.

(** C59.  A ct_vector_3 keeps the values it was created with: evaluating later, in any memory, uses
    the coordinates at the time of creation. *)
Theorem C59_vector_3_keeps_values :
  forall n (m : mem n) a b c x y z,
    m a = Some x -> m b = Some y -> m c = Some z ->
    exists p, make_vector3 n m a b c = Ok p /\
      forall m' e, call_obj n m' (OExpr e) p = Some (eval n e [x; y; z]).
Proof.
  intros n m a b c x y z A B C. unfold make_vector3, read. rewrite A, B, C.
  eexists. split; [reflexivity|]. reflexivity.
Qed.
Print Assumptions C59_vector_3_keeps_values.

(** C59: ct_vector_1 and ct_vector_2 do not.  They keep references: later assignments to the
    variables they were made from show through, and if these are gone (make_vector(1.0, 2.0) used
    after the statement) evaluation is undefined. *)
Theorem C59_vector_2_keeps_values_refuted :
  forall n (m : mem n) a b x y,
    call_obj n m (OExpr (EVar 0)) (make_vector2 n a b) =
      Some (match m a, m b with Some u, Some _ => Ok u | _, _ => UB end) /\
    (forall m' : mem n, m' a = Some x -> m' b = Some y ->
       call_obj n m' (OExpr (EVar 0)) (make_vector2 n a b) = Some (Ok x)) /\
    (forall (m' : mem n) e, m' a = None -> call_obj n m' (OExpr e) (make_vector2 n a b) = Some UB) /\
    (forall (m' : mem n) e, m' a = None -> call_obj n m' (OExpr e) (make_vector1 n a) = Some UB).
Proof.
  intros n m a b x y. split; [|split; [|split]].
  - cbn. unfold read. destruct (m a); [|reflexivity]. destruct (m b); reflexivity.
  - intros m' A B. cbn. unfold read. rewrite A, B. reflexivity.
  - intros m' e A. cbn. unfold read. rewrite A. reflexivity.
  - intros m' e A. cbn. unfold read. rewrite A. reflexivity.
Qed.
Print Assumptions C59_vector_2_keeps_values_refuted.

(** x0 at make_vector(a, b) before and after a = 9, and at make_vector(a, b, c). *)
Example C59_vector_case :
  let m : mem numZ := fun a => Some (Z.of_N a) in
  let m' : mem numZ := fun a => if N.eqb a 1 then Some 9%Z else Some (Z.of_N a) in
  call_obj numZ m (OExpr (EVar 0)) (make_vector2 numZ 1 2) = Some (Ok 1%Z) /\
  call_obj numZ m' (OExpr (EVar 0)) (make_vector2 numZ 1 2) = Some (Ok 9%Z) /\
  make_vector3 numZ m 1 2 3 = Ok (@PVec3 numZ 1%Z 2%Z 3%Z) /\
  call_obj numZ m' (OExpr (EVar 0)) (@PVec3 numZ 1%Z 2%Z 3%Z) = Some (Ok 1%Z).
Proof. repeat split. Qed.
