(** Properties C60-C62: the overload sets of make_equation(), make_interval(), integral(), diff() and
    substitute(). *)
From Coq Require Import ZArith NArith List Bool Reals.
From Verif Require Import Outcome Num NumR NumZ RtModel CtModel CtOpsModel CtManipModel ApiModel ApiSpec ApiFacts
  PropsApi OverModel OverSpec OverFacts CtManipFacts.
Import ListNotations.

(** C60.  The sides of an equation and the bounds of an interval are what was written: if
    make_equation(s1, s2) or make_interval(s1, s2) compiles and gives a run-time object, then its
    sides have the values of [s1] and [s2] wherever these are defined.  If it gives a compile-time
    object, the two types are those of the arguments. *)
Theorem C60_sides_are_what_was_written :
  forall s1 s2 o1 o2 p,
    build numR s1 = Some o1 -> build numR s2 = Some o2 ->
    make_equation numR o1 o2 = Some p \/ make_interval numR o1 o2 = Some p ->
    match p with
    | RtSides l r =>
        no_constant_quotient s1 -> no_constant_quotient s2 ->
        forall rho v,
          (forall i, src_occurs i s1 \/ src_occurs i s2 ->
             nth_error v (N.to_nat i) = Some (Some (rho i))) ->
          (forall z, src_val rho s1 = Some z -> eval numR l v = Ok (Some z)) /\
          (forall z, src_val rho s2 = Some z -> eval numR r v = Ok (Some z))
    | CtSides l r => o1 = OCt l /\ o2 = OCt r
    end.
Proof.
  intros s1 s2 o1 o2 p B1 B2 H.
  assert (K : match p with
              | RtSides l r => to_tree numR o1 = Some l /\ to_tree numR o2 = Some r
              | CtSides l r => o1 = OCt l /\ o2 = OCt r
              end).
  { assert (R : rt_sides numR o1 o2 = Some p ->
      match p with
      | RtSides l r => to_tree numR o1 = Some l /\ to_tree numR o2 = Some r
      | CtSides l r => o1 = OCt l /\ o2 = OCt r
      end).
    { unfold rt_sides. intros E. destruct (to_tree numR o1), (to_tree numR o2); try discriminate.
      injection E as <-. auto. }
    destruct H as [H|H]; destruct o1 as [x|x|[]|[]|e], o2 as [y|y|[]|[]|e'];
      first [exact (R H) | discriminate H | injection H as <-; auto]. }
  destruct p as [l r|l r]; [|exact K]. destruct K as [T1 T2]. intros Q1 Q2 rho v V. split; intros z Z.
  - apply (C58_value_is_what_was_written s1 o1 rho v z); auto.
  - apply (C58_value_is_what_was_written s2 o2 rho v z); auto.
Qed.
Print Assumptions C60_sides_are_what_was_written.

(** C60.  Equations and intervals of two run-time expressions always compile, and so do those of a
    number and the result of an operator or function. *)
Theorem C60_run_time_arguments_compile :
  forall n (s1 s2 : src n), runtime s1 -> runtime s2 ->
    exists o1 o2, build n s1 = Some o1 /\ build n s2 = Some o2 /\
      make_equation n o1 o2 = Some (RtSides (src_tree s1) (src_tree s2)) /\
      make_interval n o1 o2 = Some (RtSides (src_tree s1) (src_tree s2)) /\
      forall x, ~ is_symbol s2 ->
        make_equation n (ONum x) o2 = Some (RtSides (EConst x) (src_tree s2)) /\
        make_interval n (ONum x) o2 = Some (RtSides (EConst x) (src_tree s2)).
Proof.
  intros n s1 s2 R1 R2.
  destruct (runtime_builds n s1 R1) as [o1 [B1 H1]]. destruct (runtime_builds n s2 R2) as [o2 [B2 H2]].
  exists o1, o2. split; [exact B1|]. split; [exact B2|].
  assert (F : forall n (s : src n), runtime s ->
    match s with
    | SRtVar _ | SSymbol _ _ | SExpr _ | SGrad _ | SDiv _ | SLaplace _ => True
    | SOp op a b => src_tree s = EBin (rt_op op) (src_tree a) (src_tree b)
    | SFun f a => src_tree s = EUn (func_op f) (src_tree a)
    | _ => False
    end).
  { intros k s []; auto; destruct op || destruct f; reflexivity. }
  pose proof (F n s1 R1) as F1. pose proof (F n s2 R2) as F2. clear F R1 R2 B1 B2.
  destruct s1; try contradiction; cbn [holds_tree] in H1; subst o1; try rewrite F1;
    (destruct s2; try contradiction; cbn [holds_tree] in H2; subst o2; try rewrite F2;
     repeat split; try (intros; reflexivity); intros; exfalso; auto).
Qed.
Print Assumptions C60_run_time_arguments_compile.

(** The interval [x0 + 1, exp(x1)], and 2 = sin(x0). *)
Example C60_case :
  let lo : src numZ := SOp CPlus (SRtVar 0) (SInt 1) in
  let hi : src numZ := SFun FExp (SRtVar 1) in
  runtime lo /\ runtime hi /\ ~ is_symbol hi /\
  (match build numZ lo, build numZ hi with
   | Some a, Some b => make_interval numZ a b
   | _, _ => None
   end) = Some (@RtSides numZ (EBin BPlus (EVar 0) (EConst 1%Z)) (EUn UExp (EVar 1))) /\
  make_equation numZ (@ONum numZ 2%Z) (ORt (EUn USin (EVar 0))) = Some (@RtSides numZ (EConst 2%Z) (EUn USin (EVar 0))) /\
  make_interval numZ (OCt (MConst 0)) (OCt (MVar 2)) = Some (CtSides (MConst 0) (MVar 2)).
Proof.
  cbv zeta. split; [apply R_left; [constructor|right; exact I]|].
  split; [apply R_fun; [constructor|intros []|intros _ []]|]. split; [intros []|]. repeat split.
Qed.

(** C60: not every pair compiles.  An interval from a compile-time variable to a run-time object is
    ambiguous, although the equation of the two and the interval from the run-time variable are
    fine; an equation of a number with an rt_constant or a function symbol does not compile,
    although it does the other way round. *)
Theorem C60_all_pairs_compile_refuted :
  forall (n : Num.num) (x y : n) i (e : expr n),
    make_interval n (OCt (MVar i)) (OExpr e) = None /\
    make_interval n (OCt (MVar i)) (OCt (MRt y)) = None /\
    make_equation n (OCt (MVar i)) (OExpr e) = Some (RtSides (EVar i) e) /\
    make_interval n (ORt (EVar i)) (OExpr e) = Some (RtSides (EVar i) e) /\
    make_equation n (ONum x) (OCt (MRt y)) = None /\
    make_equation n (OCt (MRt y)) (ONum x) = Some (RtSides (EConst y) (EConst x)) /\
    forall j t, make_equation n (ONum x) (ORt (EFun j t)) = None /\
      make_equation n (ORt (EFun j t)) (ONum x) = Some (RtSides (EFun j t) (EConst x)).
Proof. repeat split. Qed.
Print Assumptions C60_all_pairs_compile_refuted.

(** C60.  An integral over an interval holds the bounds of the interval, the integrand and the
    variable that were given; it compiles for an rt_expr, and for a binary run-time expression if
    the variable is a compile-time variable, and for nothing else. *)
Theorem C60_integral_holds_its_arguments :
  forall (n : Num.num) (lo hi : expr n) f ct x,
    (forall o, integral n (RtSides lo hi) f ct x = Some o ->
       exists t, to_tree n f = Some t /\ o = OExpr (EInt lo hi x t)) /\
    ((exists o, integral n (RtSides lo hi) f ct x = Some o) <->
       (exists e, f = OExpr e) \/ (ct = true /\ exists op a b, f = ORt (EBin op a b))) /\
    (forall l r, integral n (CtSides l r) f ct x = None) /\
    (forall id o, symbolic_integral n id f = Some o ->
       exists t, to_tree n f = Some t /\ o = OExpr (EUn (USymInt id) t)).
Proof.
  intros n lo hi f ct x. split; [|split; [|split]].
  - intros o H. destruct f as [y|y|c|[]|e]; try discriminate H.
    + cbn [integral] in H. destruct ct; [|discriminate H]. injection H as <-. eexists. split; reflexivity.
    + injection H as <-. eexists. split; reflexivity.
  - split.
    + intros [o H]. destruct f as [y|y|c|[]|e]; try discriminate H; [|eauto].
      right. cbn [integral] in H. destruct ct; [|discriminate H]. eauto.
    + intros [[e ->]|[-> [op [a [b ->]]]]]; eexists; reflexivity.
  - reflexivity.
  - intros id o H. destruct f as [y|y|[]|[]|e]; try discriminate H; injection H as <-;
      eexists; split; reflexivity.
Qed.
Print Assumptions C60_integral_holds_its_arguments.

Example C60_integral_case :
  integral numZ (@RtSides numZ (EConst 0%Z) (EVar 1)) (ORt (EBin BMult (EVar 0) (EVar 2))) true 0
    = Some (@OExpr numZ (EInt (EConst 0%Z) (EVar 1) 0 (EBin BMult (EVar 0) (EVar 2)))) /\
  integral numZ (@RtSides numZ (EConst 0%Z) (EVar 1)) (ORt (EBin BMult (EVar 0) (EVar 2))) false 0 = None /\
  symbolic_integral numZ 4 (ORt (EFun 0 1)) = Some (@OExpr numZ (EUn (USymInt 4) (EFun 0 1))).
Proof. repeat split. Qed.

(** C61.  All overloads of diff() compute the same derivative: whatever class the expression has
    (number, constant, compile-time or run-time expression) and whatever it is differentiated by
    (run-time or compile-time variable, function symbol), if the call compiles, then its result,
    converted to run time and simplified, is the simplified derivative of the tree, or the call
    throws what differentiating the tree throws.  Excepted: a bare function symbol by a
    variable. *)
Theorem C61_diff_overloads_agree :
  forall n o x r t,
    diff_obj n o x = Some r -> to_tree n o = Some t ->
    (forall i s, o = ORt (EFun i s) -> exists j k, x = ByFun j k) ->
    yields n r (diff_top n (rt_by x) t).
Proof.
  intros n o x r t H T F.
  assert (Z : forall y : n, yields n (Ok (OCt (MRt (n_of_Z n 0)))) (diff_top n (rt_by x) (EConst y))).
  { intros y. eexists. split; reflexivity. }
  assert (C : forall m i, match cbind (ct_type n m) (ct_diff i) with
       | Some d => Some (Ok (OCt (inj d))) | None => None end = Some r ->
       to_rt n m = Some t -> yields n r (diff_top n (DVar i) t)).
  { intros m i E M. destruct (ct_type n m) as [c|] eqn:K; [|discriminate]. cbn [cbind] in E.
    destruct (ct_diff i c) as [d|] eqn:D; [|discriminate]. injection E as <-.
    rewrite (ct_type_inj _ _ _ K) in M.
    destruct (ct_diff_rt n i c d t D M) as [t' [T' D']].
    exists t'. split; [exact T'|]. unfold diff_top. rewrite D'. reflexivity. }
  destruct o as [y|y|m|e|e].
  - destruct x; try discriminate H. injection H as <-. injection T as <-. apply Z.
  - destruct x; try discriminate H. injection H as <-. injection T as <-. apply Z.
  - destruct x as [i|i|i k].
    + destruct m; try discriminate H; injection H as <-; injection T as <-; apply Z.
    + apply (C m i); [|exact T]. destruct m; exact H.
    + destruct m; discriminate H.
  - injection T as <-. destruct e; try discriminate H.
    + destruct (F id tag eq_refl) as [j [k ->]]. injection H as <-. cbn [rt_by diff_top diff].
      unfold diff_top. cbn [diff]. rewrite (N.eqb_sym id j), (N.eqb_sym tag k).
      destruct (N.eqb j id && N.eqb k tag); eexists; split; reflexivity.
    + apply top_yields. injection H as <-. reflexivity.
    + apply top_yields. injection H as <-. reflexivity.
    + apply top_yields. injection H as <-. reflexivity.
  - injection T as <-. apply top_yields. injection H as <-. reflexivity.
Qed.
Print Assumptions C61_diff_overloads_agree.

(** x0 * x0 by the compile-time x0; 3 * x1 at compile time; 7 by x0. *)
Example C61_case :
  diff_obj numZ (ORt (EBin BMult (EVar 0) (EVar 0))) (ByCt 0)
    = Some (Ok (@OExpr numZ (EBin BPlus (EVar 0) (EVar 0)))) /\
  diff_obj numZ (OCt (MBin CMult (MConst 3) (MVar 1))) (ByCt 1)
    = Some (Ok (OCt (MBin CPlus (MBin CMult (MConst 0) (MVar 1)) (MBin CMult (MConst 3) (MConst 1))))) /\
  diff_obj numZ (OInt 7) (ByVar 0) = Some (Ok (@OCt numZ (MRt 0%Z))) /\
  diff_obj numZ (ORt (EFun 1 2)) (ByFun 1 2) = Some (Ok (@OExpr numZ (EConst 1%Z))).
Proof. repeat split. Qed.

(** C61: the exception is real, and some calls do not compile.  diff(u, x) of a function symbol is
    the symbolic partial derivative, but diff(expr(u), x) throws; diff() of an rt_variable never
    compiles, of an rt_expr holding it gives 0 or 1. *)
Theorem C61_same_for_every_class_refuted :
  forall n u t i,
    diff_obj n (ORt (EFun u t)) (ByVar i) = Some (Ok (OExpr (EUn (UPd i) (EFun u t)))) /\
    diff_obj n (OExpr (EFun u t)) (ByVar i) = Some (Throw ExpressionNotDifferentiable) /\
    (forall x, diff_obj n (ORt (EVar i)) x = None) /\
    (forall j, diff_obj n (OExpr (EVar i)) (ByVar j) =
       Some (Ok (OExpr (EConst (n_of_Z n (if N.eqb j i then 1 else 0)))))).
Proof.
  intros n u t i. split; [reflexivity|]. split; [reflexivity|]. split; [reflexivity|].
  intros j. cbn. unfold diff_top. cbn [diff]. destruct (N.eqb j i); reflexivity.
Qed.
Print Assumptions C61_same_for_every_class_refuted.

(** C62.  All overloads of substitute() for run-time expressions do the same: if the call compiles,
    the result is the simplified substitution in the tree. *)
Theorem C62_substitute_overloads_agree :
  forall n s r e res ts tr te,
    subst_obj n s r e = Some res -> ~ is_ct e ->
    to_tree n s = Some ts -> to_tree n r = Some tr -> to_tree n e = Some te ->
    yields n res (subst1_top n ts tr te).
Proof.
  intros n s r e res ts tr te H E S R T.
  assert (K : forall s' r' e', Some (omap OExpr (subst1_top n s' r' e')) = Some res ->
    s' = ts -> r' = tr -> e' = te -> yields n res (subst1_top n ts tr te)).
  { intros s' r' e' Q -> -> ->. apply top_yields. injection Q as <-. reflexivity. }
  destruct e as [y|y|[]|e|e]; try (exfalso; exact (E I)).
  - destruct s as [x|x|x|[]|x]; discriminate H.
  - destruct s as [x|x|x|[]|x]; discriminate H.
  - destruct s as [x|x|x|[]|x]; try discriminate H.
    destruct r as [z|z|[]|r|r]; try discriminate H; apply (K _ _ _ H); cbn in *; congruence.
  - destruct s as [x|x|x|[]|x]; try discriminate H.
    destruct r as [z|z|[]|r|r]; try discriminate H; apply (K _ _ _ H); cbn in *; congruence.
  - destruct s as [x|x|x|[]|x]; try discriminate H;
      destruct r as [z|z|[]|r|r]; try discriminate H; apply (K _ _ _ H); cbn in *; congruence.
Qed.
Print Assumptions C62_substitute_overloads_agree.

(** C62.  Substituting in compile-time expressions agrees with substituting in the converted
    expressions: for variables with any arithmetic, for other compile-time expressions over the
    reals. *)
Theorem C62_compile_time_agrees :
  (forall n i r e res tr te,
     subst_obj n (OCt (MVar i)) r e = Some res -> is_ct r -> is_ct e ->
     to_tree n r = Some tr -> to_tree n e = Some te ->
     yields n res (subst1_top n (EVar i) tr te)) /\
  (forall s r e res ts tr te,
     subst_obj numR s r e = Some res -> is_ct s -> is_ct r -> is_ct e ->
     to_tree numR s = Some ts -> to_tree numR r = Some tr -> to_tree numR e = Some te ->
     yields numR res (subst1_top numR ts tr te)).
Proof.
  assert (G : forall n cs s r e res ts tr te,
    subst_obj n s r e = Some res -> s = OCt (inj cs) -> is_ct s -> is_ct r -> is_ct e ->
    to_tree n s = Some ts -> to_tree n r = Some tr -> to_tree n e = Some te ->
    (forall cr c, to_rt n (inj cr) = Some tr -> to_rt n (inj c) = Some te ->
       exists t, to_rt n (inj (ct_subst cs cr c)) = Some t /\ subst1 n ts tr te = Ok t) ->
    yields n res (subst1_top n ts tr te)).
  { intros n cs s r e res ts tr te H -> IS IR IE S R E Sub.
    destruct r as [x|x|mr|x|x]; try contradiction. destruct e as [x|x|me|x|x]; try contradiction.
    assert (A : forall m t, is_ct (OCt m) -> to_rt n m = Some t -> exists c, ct_type n m = Some c).
    { intros m t M. apply ct_object. intros s ->. exact M. }
    destruct (A mr tr IR R) as [cr Cr]. destruct (A me te IE E) as [c Ce]. clear A.
    pose proof (ct_type_inj _ _ _ Cr) as Er. pose proof (ct_type_inj _ _ _ Ce) as Ee.
    cbn [subst_obj] in H. rewrite Ce, Cr, ct_type_plain_inj in H.
    cbn [to_tree] in R, E. rewrite Er in R. rewrite Ee in E.
    destruct (Sub cr c R E) as [t [T1 T2]].
    assert (Q : res = Ok (OCt (inj (ct_subst cs cr c)))).
    { destruct (found cs c) eqn:Fd; cbn [negb] in H; [congruence|].
      rewrite (not_found cs cr c Fd). congruence. }
    subst res. exists t. split; [exact T1|]. unfold subst1_top. rewrite T2. reflexivity. }
  split.
  - intros n i r e res tr te H IR IE R E.
    refine (G n (CVar i) _ r e res (EVar i) tr te H eq_refl I IR IE eq_refl R E _).
    intros cr c. apply ct_subst_var_rt.
  - intros s r e res ts tr te H IS IR IE S R E. destruct s as [x|x|ms|x|x]; try contradiction.
    assert (M : exists c, ct_type numR ms = Some c).
    { apply (ct_object numR ms ts); [|exact S]. intros x ->. exact IS. }
    destruct M as [cs Cs]. pose proof (ct_type_inj _ _ _ Cs) as Es. subst ms.
    refine (G numR cs _ r e res ts tr te H eq_refl IS IR IE S R E _).
    intros cr c. apply (ct_subst_rt numR ints_differ_R); exact S.
Qed.
Print Assumptions C62_compile_time_agrees.

(** x0 := 5.0 in x0 * x1; x0 := x1 + 1 in x0 * 2 at compile time; u := 3 in u + x0. *)
Example C62_case :
  subst_obj numZ (ORt (EVar 0)) (@ONum numZ 5%Z) (OExpr (EBin BMult (EVar 0) (EVar 1)))
    = Some (Ok (@OExpr numZ (EBin BMult (EConst 5%Z) (EVar 1)))) /\
  subst_obj numZ (OCt (MVar 0)) (OCt (MBin CPlus (MVar 1) (MConst 1))) (OCt (MBin CMult (MVar 0) (MConst 2)))
    = Some (Ok (OCt (MBin CMult (MBin CPlus (MVar 1) (MConst 1)) (MConst 2)))) /\
  subst_obj numZ (ORt (EFun 0 1)) (OCt (MConst 3)) (OExpr (EBin BPlus (EFun 0 1) (EVar 0)))
    = Some (Ok (@OExpr numZ (EBin BPlus (EConst 3%Z) (EVar 0)))).
Proof. repeat split. Qed.

(** C62: where users are let down.  A number substituted for a compile-time variable is lost, the
    result is 0; searching a run-time object in a compile-time expression silently finds nothing,
    even where its tree occurs; an rt_expr cannot be substituted for an rt_variable unless the
    variable is converted to an rt_expr first, nor can an int. *)
Theorem C62_always_as_written_refuted :
  forall n,
    (forall i x, subst_obj n (OCt (MVar i)) (ONum x) (OCt (MVar i)) = Some (Ok (ONum (n_of_Z n 0)))) /\
    (forall s r c, is_rt s -> (forall i, s <> ORt (EVar i)) ->
       subst_obj n s r (OCt (inj c)) = Some (Ok (OCt (inj c)))) /\
    (forall i r e z, subst_obj n (ORt (EVar i)) (OExpr r) (OExpr e) = None /\
       subst_obj n (ORt (EVar i)) (OInt z) (OExpr e) = None /\
       subst_obj n (OExpr (EVar i)) (OExpr r) (OExpr e) =
         Some (omap OExpr (subst1_top n (EVar i) r e))).
Proof.
  intros n. split; [|split].
  - intros i x. cbn [subst_obj ct_type found cexpr_eqb]. rewrite N.eqb_refl. reflexivity.
  - intros s r c K V.
    assert (C : match ct_type n (@inj n c) with
                | Some x => Some (Ok (@OCt n (inj x))) | None => None end = Some (Ok (OCt (inj c))))
      by (rewrite ct_type_plain_inj; reflexivity).
    destruct s as [x|x|[]|[]|x]; try contradiction;
      first [exact C | exfalso; exact (V id eq_refl)].
  - intros i r e z. repeat split.
Qed.
Print Assumptions C62_always_as_written_refuted.

(** 3.0 searched in x0 + 3 (compile time) and in its conversion. *)
Example C62_search_case :
  subst_obj numZ (OCt (@MRt numZ 3%Z)) (OCt (MVar 1)) (OCt (MBin CPlus (MVar 0) (MConst 3)))
    = Some (Ok (@OCt numZ (MBin CPlus (MVar 0) (MConst 3)))) /\
  subst1_top numZ (EConst 3%Z) (EVar 1) (EBin BPlus (EVar 0) (EConst 3%Z))
    = Ok (EBin BPlus (EVar 0) (EVar 1)).
Proof. split; reflexivity. Qed.
