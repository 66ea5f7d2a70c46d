(** Property C72: arithmetic with vector expressions. *)
From Coq Require Import ZArith NArith List Bool Reals Lia Lra.
From Verif Require Import Outcome Num NumR NumZ RtModel CtModel CtSpec CtOpsModel QuadModel QuadSpec ApiModel ApiSpec
  VecModel VecSpec VecFacts.
Import ListNotations.

(** C72.  Whatever a user writes with vectors (their construction, entries set and read, sums,
    differences, products with numbers and among each other, quotients) and scalar expressions: if it
    compiles and has a meaning, no assert is violated, and it yields an object with that meaning: a
    vector whose entries evaluate to those of the value, or an object that evaluates to the number. *)
Theorem C72_value_is_what_was_written :
  forall s r rho v x,
    (forall i, vsrc_occurs i s -> nth_error v (N.to_nat i) = Some (Some (rho i))) ->
    plain s -> vbuild numR s = Some r -> vsrc_val rho s = Some x ->
    exists o, r = Ok o /\
      match x with
      | Number z =>
          (forall t, to_tree numR o = Some t -> eval numR t v = Ok (Some z)) /\
          (forall m, o = OCt m -> call numR m v = Some (Ok (Some z)))
      | Vector xs =>
          exists es, o = ORt (EVec es) /\ Forall2 (fun e y => eval numR e v = Ok (Some y)) es xs
      end.
Proof.
  intros s r rho v x V P B X. destruct (vbuild_value rho v s r x V P B X) as [o [-> H]].
  exists o. split; [reflexivity|]. destruct x as [z|xs]; [|exact H]. split.
  - intros t T. exact (vtree_value rho v s o z t V B H T).
  - intros m ->. exact (vcall_value rho v s m z V B H).
Qed.
Print Assumptions C72_value_is_what_was_written.

(** v = (x0, 3), (v * (v / 2.0)) + v[1] *)
Definition sample_vector : vsrc numR :=
  VSet (VSet (VNew 2) 0 (VScalar (SRtVar 0))) 1 (VScalar (SInt 3)).
Definition sample_sum : vsrc numR :=
  VOp CPlus (VOp CMult sample_vector (VOp CDiv sample_vector (VScalar (@SNum numR (Some 2%R))))) (VAt sample_vector 1).
Example C72_case :
  plain sample_sum /\ vsrc_occurs 0 sample_sum /\
  vsrc_val (fun _ => 4%R) sample_sum = Some (Number (4 * (4 / 2) + (3 * (3 / 2) + 0) + 3)) /\
  exists t, vbuild numR sample_sum = Some (Ok (ORt t)).
Proof.
  split; [|split; [|split]].
  - cbn. repeat split; try discriminate; auto.
  - cbn. auto 10.
  - cbn. destruct (Req_EM_T 2 0); [exfalso; lra|]. reflexivity.
  - eexists. reflexivity.
Qed.

(** C72, for every numeric type: the product of two vectors adds the products of the entries from the
    left to the right. *)
Theorem C72_dot_product_order :
  forall (n : Num.num) (a b : list (expr n)) v x y xs ys,
    Forall2 (fun e z => eval n e v = Ok z) a (x :: xs) -> Forall2 (fun e z => eval n e v = Ok z) b (y :: ys) ->
    length a = length b ->
    exists e, voperator n CMult (ORt (EVec a)) (ORt (EVec b)) = Some (Ok (OExpr e)) /\
      eval n e v = Ok (fold_left (fun s p => n_add n s (n_mul n (fst p) (snd p))) (List.combine xs ys) (n_mul n x y)).
Proof.
  intros n a b v x y xs ys F G L. inversion F as [|e ? a' ? E F']; subst. inversion G as [|e' ? b' ? E' G']; subst.
  injection L as L.
  destruct (dot_acc_order n v a' b' xs ys F' G' L (mk_bin n BMult e e') (n_mul n x y)) as [t [D T]].
  { unfold mk_bin. cbn [eval]. rewrite E, E'. reflexivity. }
  exists t. split; [|exact T]. cbn [voperator]. unfold dot. cbn [length]. rewrite L, Nat.eqb_refl. rewrite D. reflexivity.
Qed.
Print Assumptions C72_dot_product_order.

Example C72_order_case :
  voperator numZ CMult (@ORt numZ (EVec [EVar 0; EConst 2%Z; EVar 1])) (@ORt numZ (EVec [EVar 1; EVar 0; EConst 5%Z])) =
    Some (Ok (@OExpr numZ (EBin BPlus (EBin BPlus (EBin BMult (EVar 0) (EVar 1)) (EBin BMult (EConst 2%Z) (EVar 0)))
                              (EBin BMult (EVar 1) (EConst 5%Z))))).
Proof. reflexivity. Qed.

(** C72, for every numeric type: a product or quotient of a vector [x] and something else applies the
    operation to every entry, on the side it was written. *)
Theorem C72_scaling_acts_on_entries :
  forall (n : Num.num) (x : list (expr n)) o t, to_tree n o = Some t -> (forall y, o <> ORt (EVec y)) ->
    voperator n CMult (ORt (EVec x)) o = Some (Ok (ORt (EVec (map (fun e => EBin BMult e t) x)))) /\
    voperator n CMult o (ORt (EVec x)) = Some (Ok (ORt (EVec (map (fun e => EBin BMult t e) x)))) /\
    voperator n CDiv (ORt (EVec x)) o = Some (Ok (ORt (EVec (map (fun e => EBin BDiv e t) x)))) /\
    voperator n CDiv o (ORt (EVec x)) = Some (Ok (ORt (EVec (map (fun e => EBin BDiv t e) x)))).
Proof.
  intros n x o t T N. rewrite !(voperator_none_l n _ x o N), !(voperator_none_r n _ x o N), T. repeat split.
Qed.
Print Assumptions C72_scaling_acts_on_entries.

Example C72_scaling_case :
  voperator numZ CDiv (@OCt numZ (MConst 6)) (@ORt numZ (EVec [EVar 0; EConst 2%Z])) =
    Some (Ok (@ORt numZ (EVec [EBin BDiv (EConst 6%Z) (EVar 0); EBin BDiv (EConst 6%Z) (EConst 2%Z)]))).
Proof. reflexivity. Qed.

(** C72.  Exactly these operators with a vector compile: two vectors can be added, subtracted and
    multiplied, not divided; a vector and something else can be multiplied and divided if the other
    operand can be converted to an rt_expr, and added and subtracted if moreover it is not a number. *)
Theorem C72_which_operators_compile :
  forall (n : Num.num) (op : cop) (x : list (expr n)),
    (forall y, voperator n op (ORt (EVec x)) (ORt (EVec y)) <> None <-> op <> CDiv) /\
    (forall o, (forall y, o <> ORt (EVec y)) ->
       (voperator n op (ORt (EVec x)) o <> None <->
          to_tree n o <> None /\ (op = CPlus \/ op = CMinus -> (forall c, o <> ONum c) /\ (forall z, o <> OInt z))) /\
       (voperator n op o (ORt (EVec x)) <> None <->
          to_tree n o <> None /\ (op = CPlus \/ op = CMinus -> (forall c, o <> ONum c) /\ (forall z, o <> OInt z)))).
Proof.
  intros n op x. split.
  - intros y. destruct op; cbn; split; intros H; try discriminate; congruence.
  - intros o N. rewrite (voperator_none_l n op x o N), (voperator_none_r n op x o N).
    pose proof (viennamath_scalar n o N) as VS. unfold generic.
    change (is_viennamath n (ORt (EVec x))) with false. change (to_tree n (ORt (EVec x))) with (Some (EVec x)).
    rewrite orb_false_r. cbn [orb].
    set (P := (forall c, o <> ONum c) /\ (forall z, o <> OInt z)) in *. clearbody P.
    destruct op, (is_viennamath n o), (to_tree n o) as [t|]; intuition congruence.
Qed.
Print Assumptions C72_which_operators_compile.

Example C72_compile_case :
  voperator numZ CDiv (@ORt numZ (EVec [EVar 0])) (@ORt numZ (EVec [EVar 1])) = None /\
  voperator numZ CDiv (@ONum numZ 2%Z) (@ORt numZ (EVec [EVar 1])) =
    Some (Ok (@ORt numZ (EVec [EBin BDiv (EConst 2%Z) (EVar 1)]))) /\
  voperator numZ CMinus (@ONum numZ 2%Z) (@ORt numZ (EVec [EVar 1])) = None.
Proof. repeat split. Qed.

(** C72.  Exactly these are asserted: equal sizes for sums, differences and products of two vectors, and
    for products that they are not empty. *)
Theorem C72_what_is_asserted :
  forall (n : Num.num) op a b, voperator n op a b = Some UB <->
    exists x y, a = ORt (EVec x) /\ b = ORt (EVec y) /\ op <> CDiv /\
      (length x <> length y \/ op = CMult /\ x = []).
Proof.
  intros n op a b. split.
  - intros H. destruct (asserted n op a b H) as [x [y [-> [-> K]]]]. exists x, y. auto.
  - intros [x [y [-> [-> [D H]]]]]. now apply asserts.
Qed.
Print Assumptions C72_what_is_asserted.

Example C72_asserted_case :
  voperator numZ CMult (@ORt numZ (EVec [])) (@ORt numZ (EVec [])) = Some UB /\
  voperator numZ CPlus (@ORt numZ (EVec [])) (@ORt numZ (EVec [])) = Some (Ok (@ORt numZ (EVec []))) /\
  voperator numZ CMinus (@ORt numZ (EVec [EVar 0])) (@ORt numZ (EVec [])) = Some UB.
Proof. repeat split. Qed.

(** C72, for every numeric type: a text that compiles yields a vector of the size written or an object
    that is no vector, and has undefined behaviour exactly if an index or size is wrong in it. *)
Theorem C72_sizes_and_undefined_behaviour :
  forall (n : Num.num) (s : vsrc n) r, vbuild n s = Some r ->
    (r = UB <-> written_size s = None) /\
    (forall k, (exists es, r = Ok (ORt (EVec es)) /\ length es = k) <-> written_size s = Some (Some k)) /\
    (forall e, r <> Throw e).
Proof.
  intros n s r H. pose proof (vbuild_size n s r H) as S.
  destruct (written_size s) as [[k|]|]; cbn [sized] in S.
  - destruct S as [es [-> L]]. split; [split; discriminate|]. split; [|discriminate].
    intros l. split; [intros [fs [E M]]; injection E as <-; congruence|intros E; injection E as <-; eauto].
  - destruct S as [o [-> N]]. split; [split; discriminate|]. split; [|discriminate].
    intros l. split; [intros [fs [E M]]; injection E as ->; now elim (N fs)|discriminate].
  - subst r. split; [split; reflexivity|]. split; [|discriminate].
    intros l. split; [intros [fs [E M]]; discriminate|discriminate].
Qed.
Print Assumptions C72_sizes_and_undefined_behaviour.

Example C72_sizes_case :
  let v := VSet (VNew 2) 1 (VScalar (@SRtVar numZ 0)) in
  vbuild numZ (VOp CMult (VScalar (@SRtVar numZ 1)) v) =
    Some (Ok (@ORt numZ (EVec [EBin BMult (EVar 1) (EConst 0%Z); EBin BMult (EVar 1) (EVar 0)]))) /\
  written_size (VOp CMult (VScalar (@SRtVar numZ 1)) v) = Some (Some 2) /\
  vbuild numZ (VSet v 2 (VScalar (@SRtVar numZ 0))) = Some UB /\
  vbuild numZ (VAt (VOp CPlus v (VNew 3)) 1) = Some UB.
Proof. repeat split. Qed.

(** C72: adding a vector and a scalar expression compiles, but gives an expression without value: it
    cannot be evaluated at any point, for any numeric type. *)
Theorem C72_vector_plus_scalar_refuted :
  forall (n : Num.num) op (x : list (expr n)) o t, op = CPlus \/ op = CMinus ->
    to_tree n o = Some t -> (forall y, o <> ORt (EVec y)) -> (forall c, o <> ONum c) -> (forall z, o <> OInt z) ->
    exists p q, voperator n op (ORt (EVec x)) o = Some (Ok (ORt p)) /\
      voperator n op o (ORt (EVec x)) = Some (Ok (ORt q)) /\
      forall v z, eval n p v <> Ok z /\ eval n q v <> Ok z.
Proof.
  intros n op x o t H T N A B. exists (EBin (rt_op op) (EVec x) t), (EBin (rt_op op) t (EVec x)).
  rewrite (voperator_none_l n op x o N), (voperator_none_r n op x o N). unfold generic.
  change (is_viennamath n (ORt (EVec x))) with false. change (to_tree n (ORt (EVec x))) with (Some (EVec x)).
  rewrite orb_false_r. cbn [orb]. rewrite T. rewrite (proj2 (viennamath_scalar n o N) (conj A B)).
  split; [destruct H as [->| ->]; reflexivity|]. split; [destruct H as [->| ->]; reflexivity|].
  intros v z. split; cbn [eval]; destruct (eval n t v); discriminate.
Qed.
Print Assumptions C72_vector_plus_scalar_refuted.

Example C72_plus_case :
  voperator numZ CPlus (@ORt numZ (EVec [EVar 0])) (@ORt numZ (EVar 1)) =
    Some (Ok (@ORt numZ (EBin BPlus (EVec [EVar 0]) (EVar 1)))) /\
  voperator numZ CPlus (@ORt numZ (EVec [EVar 0])) (@ONum numZ 1%Z) = None.
Proof. split; reflexivity. Qed.
