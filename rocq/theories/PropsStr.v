(** Property C31: the textual representation identifies the expression. *)
From Coq Require Import ZArith NArith List Bool String Ascii.
From Verif Require Import Outcome Num RtModel RtSpec NumZ StrModel StrFacts.
Import ListNotations.
Local Open Scope string_scope.

(** C31.  Let numbers be printed by [pr] without closing parentheses.  For any two expressions
    (also with integrals and vectors) whose function symbols are unknowns or test functions:
    deep_str gives the same text exactly if the expressions are identical up to constants that
    print alike. *)
Theorem C31_deep_str_identifies :
  forall (T : Type) (pr : T -> string) (a b : expr T),
    (forall c p q, pr c <> p ++ String ")" q) ->
    (forall i t, occurs_fun i t a -> t = 0%N \/ t = 1%N) ->
    (forall i t, occurs_fun i t b -> t = 0%N \/ t = 1%N) ->
    (deep_str pr a = deep_str pr b <-> same (fun c d => pr c = pr d) a b).
Proof.
  intros T pr a b P Ta Tb. split; [|apply same_str].
  apply str_inj; [|exact Ta|exact Tb].
  intros c H. assert (K : exists p q, pr c = p ++ String ")" q).
  { induction (pr c) as [|d s IH]; simpl in H; [contradiction|]. destruct H as [<-|H].
    - exists "", s. reflexivity.
    - destruct (IH H) as [p [q ->]]. exists (String d p), q. reflexivity. }
  destruct K as [p [q K]]. exact (P c p q K).
Qed.
Print Assumptions C31_deep_str_identifies.

(** C31 for the stream operator of rt_expr, even if followed by arbitrary other text, so that
    several expressions in one stream can be told apart. *)
Theorem C31_streamed_text_identifies :
  forall (T : Type) (pr : T -> string) (a b : expr T) (s t : string),
    (forall c p q, pr c <> p ++ String ")" q) ->
    (forall i t, occurs_fun i t a -> t = 0%N \/ t = 1%N) ->
    (forall i t, occurs_fun i t b -> t = 0%N \/ t = 1%N) ->
    stream_expr pr a ++ s = stream_expr pr b ++ t ->
    same (fun c d => pr c = pr d) a b /\ s = t.
Proof.
  intros T pr a b s t P Ta Tb. apply stream_inj; [|exact Ta|exact Tb].
  intros c H. assert (K : exists p q, pr c = p ++ String ")" q).
  { induction (pr c) as [|d w IH]; simpl in H; [contradiction|]. destruct H as [<-|H].
    - exists "", w. reflexivity.
    - destruct (IH H) as [p [q ->]]. exists (String d p), q. reflexivity. }
  destruct K as [p [q K]]. exact (P c p q K).
Qed.
Print Assumptions C31_streamed_text_identifies.

(** C31 for equations. *)
Theorem C31_streamed_equation_identifies :
  forall (T : Type) (pr : T -> string) (l r l' r' : expr T) (s t : string),
    (forall c p q, pr c <> p ++ String ")" q) ->
    (forall e, In e [l; r; l'; r'] -> forall i t, occurs_fun i t e -> t = 0%N \/ t = 1%N) ->
    stream_equation pr l r ++ s = stream_equation pr l' r' ++ t ->
    same (fun c d => pr c = pr d) l l' /\ same (fun c d => pr c = pr d) r r' /\ s = t.
Proof.
  intros T pr l r l' r' s t P F H. unfold stream_equation in H.
  rewrite !append_assoc in H. injection H as H. rewrite ?append_assoc in H.
  destruct (C31_streamed_text_identifies T pr l l' _ _ P (F l (or_introl eq_refl))
    (F l' (or_intror (or_intror (or_introl eq_refl)))) H) as [A H'].
  simpl in H'. injection H' as H'. rewrite ?append_assoc in H'.
  destruct (C31_streamed_text_identifies T pr r r' _ _ P (F r (or_intror (or_introl eq_refl)))
    (F r' (or_intror (or_intror (or_intror (or_introl eq_refl))))) H') as [B H''].
  simpl in H''. injection H'' as H''. auto.
Qed.
Print Assumptions C31_streamed_equation_identifies.

Example C31_equation_case :
  stream_equation (fun c : Z => dec (Z.to_N c)) (EBin BPlus (EVar 0) (EVar 1)) (EConst 1%Z) =
  "equation(expr(variable(0)+variable(1)) = expr(constant(1)))".
Proof. vm_compute. reflexivity. Qed.

(** Without the restriction on function symbols the claim fails: every symbol of another family
    prints as function_symbol<invalid>. *)
Theorem C31_other_function_families_refuted :
  exists a b : expr numZ, deep_str (fun _ => "0") a = deep_str (fun _ => "0") b /\
    deep_equal numZ a b = Ok false.
Proof. exists (EFun 3 2), (EFun 4 5). split; reflexivity. Qed.
Print Assumptions C31_other_function_families_refuted.

Example C31_case :
  deep_str (fun c : Z => dec (Z.to_N c))
    (EBin BMult (EUn USin (EVar 12)) (EVec [EFun 0 1; EBin BMinus (EConst 3%Z) (EUn (UPd 2) (EFun 7 0))]))
  = "(sin(variable(12))*[2](expr(function_symbol<test(0)>), expr(constant(3)-partial_deriv<2>(function_symbol<unknown(7)>))))".
Proof. vm_compute. reflexivity. Qed.

Example C31_case_print : forall c p q, dec (Z.to_N c) <> p ++ String ")" q.
Proof.
  intros c p q H. assert (K : has ")" (dec (Z.to_N c))).
  { rewrite H. clear H. induction p; simpl; auto. }
  apply dec_digits in K. discriminate.
Qed.
