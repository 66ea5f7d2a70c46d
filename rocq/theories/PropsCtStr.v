(** Property C78: what a streamed object is can be read from the text. *)
From Coq Require Import ZArith NArith List Bool String Ascii.
From Verif Require Import Outcome Num NumZ RtModel RtSpec StrModel StrFacts CtModel CtOpsModel ApiModel OverModel
  CtStrModel CtStrSpec CtStrFacts.
Import ListNotations.
Local Open Scope string_scope.

(** C78.  Let numbers be printed by [pr] without closing parentheses.  Two objects of the library, each
    of any compile-time or run-time class, that are streamed as the same text, followed by anything,
    are the same compile-time object (the same type, with rt_constants that print alike), or run-time
    objects that hold the same expression.  In particular no compile-time object prints like a
    run-time one. *)
Theorem C78_text_identifies_object :
  forall (n : Num.num) (pr : n -> string) (a b : obj n) x y s t,
    (forall c p q, pr c <> p ++ String ")" q) ->
    of_the_library a -> of_the_library b ->
    stream_obj pr a = Some x -> stream_obj pr b = Some y -> x ++ s = y ++ t ->
    same_obj (fun c d => pr c = pr d) a b /\ s = t.
Proof.
  intros n pr a b x y s t P La Lb Ha Hb E. apply (obj_inj pr (without _ _ P) a b x y s t); assumption.
Qed.
Print Assumptions C78_text_identifies_object.

(** C78.  The same for equations and intervals, of either kind. *)
Theorem C78_text_identifies_sides :
  forall (n : Num.num) (pr : n -> string) (p q : sides n) x y s t,
    (forall c p q, pr c <> p ++ String ")" q) ->
    sides_of_the_library p -> sides_of_the_library q ->
    (stream_equation_of pr p = Some x /\ stream_equation_of pr q = Some y \/
     stream_interval_of pr p = Some x /\ stream_interval_of pr q = Some y) ->
    x ++ s = y ++ t ->
    same_sides (fun c d => pr c = pr d) p q /\ s = t.
Proof.
  intros n pr p q x y s t P Lp Lq H E. pose proof (without _ _ P) as W.
  destruct H as [H|H]; [exact (equation_inj pr W p q x y s t Lp Lq (proj1 H) (proj2 H) E)
                       |exact (interval_inj pr W p q x y s t Lp Lq (proj1 H) (proj2 H) E)].
Qed.
Print Assumptions C78_text_identifies_sides.

(** C78.  The same for compile-time vectors, also of different sizes. *)
Theorem C78_text_identifies_vector :
  forall (T : Type) (pr : T -> string) (es fs : list (mexpr T)) x y s t,
    (forall c p q, pr c <> p ++ String ")" q) ->
    Forall cpp_type es -> Forall cpp_type fs ->
    ct_vector_str pr es = Some x -> ct_vector_str pr fs = Some y -> x ++ s = y ++ t ->
    Forall2 (same_ct (fun c d => pr c = pr d)) es fs /\ s = t.
Proof.
  intros T pr es fs x y s t P Ce Cf. apply (vector_inj pr (without _ _ P)); assumption.
Qed.
Print Assumptions C78_text_identifies_vector.

(** C78.  What can be streamed: every run-time object; a compile-time expression exactly if it
    contains no function symbol; a compile-time equation or interval exactly if neither side contains
    a function symbol or an rt_constant; a compile-time vector exactly if it has one to three
    entries without function symbols. *)
Theorem C78_what_can_be_streamed :
  forall (n : Num.num) (pr : n -> string),
    (forall o, (exists x, stream_obj pr o = Some x) <->
       match o with OCt m => ~ has_symbol m | _ => True end) /\
    (forall p,
       ((exists x, stream_equation_of pr p = Some x) <->
        match p with
        | CtSides l r => ~ has_symbol l /\ ~ has_rt_constant l /\ ~ has_symbol r /\ ~ has_rt_constant r
        | RtSides _ _ => True
        end) /\
       ((exists x, stream_equation_of pr p = Some x) <-> (exists x, stream_interval_of pr p = Some x))) /\
    (forall es, (exists x, ct_vector_str pr es = Some x) <->
       1 <= List.length es <= 3 /\ Forall (fun m => ~ has_symbol m) es).
Proof.
  intros n pr. split; [|split].
  - intros [x|z|m|e|e]; simpl; [| |exact (ct_str_some pr m)| |]; split; eauto.
  - intros p. exact (sides_some pr p).
  - exact (vector_some pr).
Qed.
Print Assumptions C78_what_can_be_streamed.

(** An unknown or test function of the compile-time interface, and an equation with a double in
    it, cannot be streamed, though the classes have stream operators. *)
Theorem C78_everything_can_be_streamed_refuted :
  forall (n : Num.num) (pr : n -> string) (c : n),
    stream_obj pr (OCt (MBin CPlus (MVar 0) (MFun 0))) = None /\
    (exists p, make_equation n (OCt (MBin CMult (MRt c) (MVar 0))) (OCt (MVar 1)) = Some p /\
               stream_equation_of pr p = None).
Proof. intros. split; [reflexivity|]. eexists. split; reflexivity. Qed.
Print Assumptions C78_everything_can_be_streamed_refuted.

(** x0 - (-1) * 2.0 with compile-time and with run-time operands, an equation and a vector. *)
Example C78_case :
  let pr := fun c : Z => dec (Z.to_N c) in
  let m : mexpr numZ := MBin CMinus (MVar 0) (MBin CMult (MConst (-1)) (MRt 2%Z)) in
  let e : expr numZ := EBin BMinus (EVar 0) (EBin BMult (EConst 1%Z) (EConst 2%Z)) in
  of_the_library (n := numZ) (OCt m) /\ of_the_library (n := numZ) (OExpr e) /\
  stream_obj (n := numZ) pr (OCt m) = Some "[ct_variable<0>-[ct_constant<-1>*constant(2)]]" /\
  stream_obj (n := numZ) pr (OExpr e) = Some "expr(variable(0)-(constant(1)*constant(2)))" /\
  stream_obj (n := numZ) pr (ORt (EUn USin (EVar 3))) = Some "unarysin(variable(3))" /\
  stream_equation_of (n := numZ) pr (CtSides (MBin CPlus (MVar 0) (MVar 1)) (MConst 7)) =
    Some "ct_equation([ct_variable<0>+ct_variable<1>] = ct_constant<7>)" /\
  stream_interval_of (n := numZ) pr (CtSides (MConst 0) (MVar 12)) = Some "ct_interval(ct_constant<0>, ct_variable<12>)" /\
  ct_vector_str pr [MVar 0; MUn (UPd 0) (MVar 1); MRt 5%Z] =
    Some "vector<ct_variable<0>, [ct_variable<1>partial_deriv<0>], constant(5)>".
Proof.
  cbv zeta. split; [simpl; tauto|]. split.
  - intros i t H. exfalso. unfold occurs_fun in H.
    repeat match goal with K : subterm _ _ |- _ => inversion K; clear K; subst end.
  - repeat split; vm_compute; reflexivity.
Qed.
