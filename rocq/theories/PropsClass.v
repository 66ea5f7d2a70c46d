(** Property C75: classes at run time. *)
From Coq Require Import String ZArith NArith List Bool Permutation.
From Verif Require Import Outcome Num NumZ RtModel StrModel TypedModel ClassModel ClassSpec ClassFacts.
Import ListNotations.
Local Open Scope string_scope.

(** C75: a functor tries the classes of a list one after the other with callback_if_castable and returns at the
    first success.  If the class of the node is in the list, exactly one overload is called, that for its class, with
    the node as argument; otherwise none is called and the end of the functor is reached. *)
Theorem C75_dispatched_to_its_class_once :
  forall (n : num) (ks : list node_class) (e : texpr n),
    exists k, class_is e k /\ (forall k', class_is e k' -> k' = k) /\
      (In k ks -> chain n ks e = ([(k, e)], false)) /\
      (~ In k ks -> chain n ks e = ([], true)).
Proof.
  intros n ks e. destruct (class_exists n e) as [k C]. exists k. split; [exact C|].
  split; [intros k' C'; exact (class_unique n _ _ _ C' C)|]. exact (chain_spec n ks e k C).
Qed.
Print Assumptions C75_dispatched_to_its_class_once.

(** C75: the order of the tests does not matter. *)
Theorem C75_order_of_tests_irrelevant :
  forall (n : num) (ks ks' : list node_class) (e : texpr n), Permutation ks ks' -> chain n ks e = chain n ks' e.
Proof.
  intros n ks ks' e P. destruct (class_exists n e) as [k C].
  destruct (chain_spec n ks e k C) as [A B]. destruct (chain_spec n ks' e k C) as [A' B'].
  assert (D : In k ks \/ ~ In k ks).
  { clear - ks. destruct (in_dec (fun a b : node_class => ltac:(decide equality; decide equality)) k ks); auto. }
  destruct D as [D|D].
  - rewrite A, A'; auto. exact (Permutation_in _ P D).
  - rewrite B, B'; auto. intros I. apply D. exact (Permutation_in _ (Permutation_sym P) I).
Qed.
Print Assumptions C75_order_of_tests_irrelevant.

(** C75: shallow_equal() tells whether two nodes have the same class.  It is an equivalence, and implied by
    deep_equal(). *)
Theorem C75_shallow_equal_is_same_class :
  forall (n : num) (e o : texpr n),
    shallow_equal n e o = true <-> (exists k, class_is e k /\ class_is o k).
Proof. exact shallow_class. Qed.
Print Assumptions C75_shallow_equal_is_same_class.

Theorem C75_shallow_equal_is_equivalence :
  forall (n : num) (a b c : texpr n),
    shallow_equal n a a = true /\
    shallow_equal n a b = shallow_equal n b a /\
    (shallow_equal n a b = true -> shallow_equal n b c = true -> shallow_equal n a c = true) /\
    (tdeep_equal n a b = Ok true -> shallow_equal n a b = true).
Proof.
  intros n a b c. split; [|split; [|split]].
  - apply shallow_class. destruct (class_exists n a) as [k C]. exists k. auto.
  - apply eq_iff_eq_true. rewrite !shallow_class. split; intros [k [A B]]; exists k; auto.
  - rewrite !shallow_class. intros [k [A B]] [k' [A' B']]. exists k. split; auto.
    rewrite (class_unique n _ _ _ B A'). exact B'.
  - exact (deep_shallow n a b).
Qed.
Print Assumptions C75_shallow_equal_is_equivalence.

(** C75: the output of the traversal tutorial, for every expression of variables and numbers: one line for each
    node, telling its class, the nodes in infix order. *)
Theorem C75_tutorial_output :
  forall (n : num) (pr : scalar n -> string) (e : texpr n) (nodes : list (texpr n)) (lines : list string),
    infix e nodes -> Forall2 line_for nodes lines -> traversal_output n pr e = lines.
Proof. exact traversal_lines. Qed.
Print Assumptions C75_tutorial_output.

(** Always one line per node. *)
Theorem C75_tutorial_one_line_per_node :
  forall (n : num) (pr : scalar n -> string) (e : texpr n),
    exists nodes, infix e nodes /\ length (traversal_output n pr e) = length nodes.
Proof.
  intros n pr e. exists (ttraverse n e). split; [apply ttraverse_infix|]. unfold traversal_output.
  induction (ttraverse n e) as [|x l IH]; [reflexivity|]. simpl.
  destruct (cout_one n pr x) as [s ->]. simpl. rewrite IH. reflexivity.
Qed.
Print Assumptions C75_tutorial_one_line_per_node.

(** C75: shallow_str() tells the kind of the node ... *)
Theorem C75_shallow_str_tells_kind :
  forall (n : num) (pr : scalar n -> string) (e o : texpr n) (k k' : node_class),
    class_is e k -> class_is o k' -> shallow_str n pr e = shallow_str n pr o -> kind k = kind k'.
Proof.
  intros n pr e o k k' A B H. destruct A as [c s A|i|i t|op a|lo hi v a|op l r|es],
    B as [d s' B|j|j u|op' b|lo' hi' w b|op' l' r'|os]; try reflexivity; simpl in H; discriminate H.
Qed.
Print Assumptions C75_shallow_str_tells_kind.

(** ... but, contrary to its description (expression_interface.hpp, "identifying just the type of the expression"),
    also other things: two variables give different strings. *)
Theorem C75_shallow_str_just_the_type_refuted :
  ~ (forall (n : num) (pr : scalar n -> string) (e o : texpr n) (k : node_class),
       class_is e k -> class_is o k -> shallow_str n pr e = shallow_str n pr o).
Proof.
  intros H. specialize (H numZ (fun _ => "") (EVar 0) (EVar 1) KVariable (ci_var 0) (ci_var 1)).
  discriminate H.
Qed.
Print Assumptions C75_shallow_str_just_the_type_refuted.

(** sin(x0) + 4 * u with a number of the numeric type, and the constant c6 of type long. *)
Example C75_case :
  let e := EBin BPlus (EUn USin (EVar 0)) (EBin BMult (EConst (SOwn 4%Z)) (EFun 3 0)) : texpr numZ in
  traversal_output numZ (fun _ => "4") e =
    ["unary_expr, dispatched!"; "variable, dispatched!"; "binary_expr, dispatched!";
     "constant, dispatched!"; "binary_expr, dispatched!"; "non-dispatched type: function_symbol<unknown(3)>"] /\
  traversal_output numZ (fun _ => "6") (EConst (SLong 6)) = ["non-dispatched type: constant(6)"] /\
  chain numZ [KBinary; KConstant TLong; KConstant TOwn] (EConst (SLong 6)) = ([(KConstant TLong, EConst (SLong 6))], false) /\
  shallow_equal numZ (EConst (SLong 6)) (EConst (SLong 7)) = true /\
  shallow_equal numZ (EConst (SLong 6)) (EConst (SOwn 6%Z)) = false /\
  shallow_equal numZ (EUn USin (EVar 0)) (EUn UCos (EVar 1)) = true /\
  tdeep_equal numZ (EUn USin (EVar 0)) (EUn USin (EVar 0)) = Ok true.
Proof. vm_compute. repeat split. Qed.

(** A case of C75_tutorial_output: (x0 + x1) - sin(4). *)
Example C75_tutorial_case :
  let s := EBin BPlus (EVar 0) (EVar 1) : texpr numZ in
  let f := EUn USin (EConst (SOwn 4%Z)) : texpr numZ in
  let e := EBin BMinus s f in
  infix e [EVar 0; s; EVar 1; e; f; EConst (SOwn 4%Z)] /\
  Forall2 line_for [EVar 0; s; EVar 1; e; f; EConst (SOwn 4%Z)]
    ["variable, dispatched!"; "binary_expr, dispatched!"; "variable, dispatched!"; "binary_expr, dispatched!";
     "unary_expr, dispatched!"; "constant, dispatched!"].
Proof.
  cbv zeta. split; [|repeat constructor].
  apply (in_bin BMinus _ _ [EVar 0; EBin BPlus (EVar 0) (EVar 1); EVar 1] [_; _]).
  - apply (in_bin BPlus _ _ [EVar 0] [EVar 1]); constructor.
  - repeat constructor.
Qed.
