(** Properties C33 and C34: the LaTeX translator. *)
From Coq Require Import ZArith NArith Reals List Bool String Ascii Lia.
From Verif Require Import Outcome Num RtModel RtSpec NumR NumZ StrModel DenSpec LatexModel LatexSpec LatexFacts.
Import ListNotations.
Local Open Scope string_scope.

(** C34.  Let [number] read back the constants of the expression as they are printed by [pr].
    Reading the output of a translator without customisations with the usual conventions
    (products before sums, from left to right; functions apply to the next factor; fractions,
    roots, absolute values, integrals and parentheses delimit) gives the expression back, up to
    the bracketing of a + (b + c) and a + (b - c) and the identity operation. *)
Theorem C34_output_reads_back :
  forall (T : Type) (pr : T -> string) (number : string -> option (T * string)) (e : expr T),
    readable pr number e ->
    exists e' k, regroup e e' /\
      forall fuel, k <= fuel -> read number fuel (latex pr fresh false e) = Some e'.
Proof.
  intros T pr number e O. destruct (read_back pr number e O) as [k H].
  exists (norm e), k. split; [apply norm_regroup|exact H].
Qed.
Print Assumptions C34_output_reads_back.

(** C34: what is read has the same meaning as the expression, for real numbers and every
    interpretation of variables, function symbols, differential operators and integrals. *)
Theorem C34_reading_preserves_meaning :
  forall (P : Type) (I : interp P) (pr : option R -> string)
         (number : string -> option (option R * string)) (e : expr numR) (x : val P),
    readable pr number e -> means I e x ->
    exists e' k, (forall fuel, k <= fuel -> read number fuel (latex pr fresh false e) = Some e') /\
      means I e' x.
Proof.
  intros P I pr number e x O M. destruct (read_back pr number e O) as [k H].
  exists (norm e), k. split; [exact H|]. exact (regroup_means I e (norm e) (norm_regroup e) x M).
Qed.
Print Assumptions C34_reading_preserves_meaning.

(** C34: two expressions with the same output have the same meaning. *)
Theorem C34_same_output_same_meaning :
  forall (P : Type) (I : interp P) (pr : option R -> string)
         (number : string -> option (option R * string)) (a b : expr numR) (x y : val P),
    readable pr number a -> readable pr number b ->
    latex pr fresh false a = latex pr fresh false b ->
    means I a x -> means I b y -> x = y.
Proof.
  intros P I pr number a b x y Oa Ob E Ma Mb.
  destruct (read_back pr number a Oa) as [k H]. destruct (read_back pr number b Ob) as [k' H'].
  specialize (H (k + k') ltac:(lia)). specialize (H' (k + k') ltac:(lia)).
  rewrite E, H' in H. injection H as N.
  apply (DenFacts.means_unique I (norm a)).
  - exact (regroup_means I a _ (norm_regroup a) x Ma).
  - exact (eq_ind _ (fun n => means I n y) (regroup_means I b _ (norm_regroup b) y Mb) _ N).
Qed.
Print Assumptions C34_same_output_same_meaning.

(** C34: likewise for equations. *)
Theorem C34_equation_reads_back :
  forall (T : Type) (pr : T -> string) (number : string -> option (T * string)) (lhs rhs : expr T),
    readable pr number lhs -> readable pr number rhs ->
    exists l r k, regroup lhs l /\ regroup rhs r /\
      forall fuel, k <= fuel -> read_equation number fuel (latex_equation pr fresh lhs rhs) = Some (l, r).
Proof.
  intros T pr number lhs rhs L R. destruct (read_back_equation pr number lhs rhs L R) as [k H].
  exists (norm lhs), (norm rhs), k. split; [apply norm_regroup|]. split; [apply norm_regroup|exact H].
Qed.
Print Assumptions C34_equation_reads_back.

(** Printing and reading of natural numbers, for the cases below. *)
Definition pr_case (z : Z) : string := dec (Z.to_N z).
Definition number_case (s : string) : option (Z * string) :=
  let '(i, r) := digits 0 s in Some (Z.of_N i, r).

Definition expr_case : expr Z :=
  EBin BPlus (EBin BMult (EVar 0) (EBin BMinus (EVar 12) (EBin BDiv (EConst 3%Z) (EFun 0 1))))
             (EBin BMinus (EUn UGrad (EUn UId (EBin BPlus (EVar 1) (EFun 0 0))))
                          (EUn (UPd 3) (EInt (EVar 0) (EUn UDiv (EVar 0)) 1 (EUn UExp (EVar 3))))).

(** x*(y - 3/v) + (grad(id(z + u)) - ...): a case meeting the hypothesis. *)
Example C34_case : readable pr_case number_case expr_case.
Proof.
  unfold readable, expr_case. intros s S.
  repeat match goal with H : subterm s _ |- _ => inversion H; subst; clear H end; try exact I; auto.
  split.
  - exists "3"%char, "". split; [reflexivity|]. left. discriminate.
  - intros rest. reflexivity.
Qed.
Example C34_case_read :
  read number_case 40 (latex pr_case fresh false expr_case) =
  Some (EBin BMinus
         (EBin BPlus (EBin BMult (EVar 0) (EBin BMinus (EVar 12) (EBin BDiv (EConst 3%Z) (EFun 0 1))))
                     (EUn UGrad (EBin BPlus (EVar 1) (EFun 0 0))))
         (EUn (UPd 3) (EInt (EVar 0) (EUn UDiv (EVar 0)) 1 (EUn UExp (EVar 3))))).
Proof. vm_compute. reflexivity. Qed.

(** The weak form of the manual: int grad(u) * grad(v) = int v. *)
Example C34_equation_case :
  read_equation number_case 40
    (latex_equation pr_case fresh
       (EUn (USymInt 0) (EBin BMult (EUn UGrad (EFun 0 0)) (EUn UGrad (EFun 0 1)))) (EUn (USymInt 0) (EFun 0 1))) =
  Some (EUn (USymInt 0) (EBin BMult (EUn UGrad (EFun 0 0)) (EUn UGrad (EFun 0 1))), EUn (USymInt 0) (EFun 0 1)).
Proof. vm_compute. reflexivity. Qed.

(** C33.  For every history of calls of customize the last one for a variable or function
    symbol determines its output (for non-empty texts). *)
Theorem C33_last_customization_wins :
  forall (T : Type) (pr : T -> string) (t : translator T) (a : expr T) (out : string)
         (later : list (expr T * string)),
    ((exists i, a = EVar i) \/ (exists i u, a = EFun i u)) -> out <> "" ->
    (forall b s, In (b, s) later -> b <> a) ->
    latex pr (history (customize t a out) later) false a = out.
Proof.
  intros T pr t a out later A N L.
  assert (S : symbol a) by (destruct A as [[i ->]|[i [u ->]]]; exact I).
  rewrite history_other by assumption. apply customize_same; assumption.
Qed.
Print Assumptions C33_last_customization_wins.

Example C33_case :
  latex pr_case (history (customize fresh (@EVar Z 0) "x") [(EFun 0 0, "p"); (EVar 1, "y"); (EConst 3%Z, "c")])
        false (EBin BMult (EVar 0) (EBin BPlus (EVar 1) (EFun 0 0))) = "x \cdot (y + p)".
Proof. vm_compute. reflexivity. Qed.

(** C33: the output of an expression is a function of the outputs of the variables and function
    symbols printed in it; in particular customising other symbols does not change it. *)
Theorem C33_output_depends_on_symbols_only :
  forall (T : Type) (pr : T -> string) (t t' : translator T) (e : expr T) (par : bool),
    t_users t = t_users t' ->
    (forall i p, prints_var i e -> latex pr t p (EVar i) = latex pr t' p (EVar i)) ->
    (forall i u p, occurs_fun i u e -> latex pr t p (EFun i u) = latex pr t' p (EFun i u)) ->
    latex pr t par e = latex pr t' par e.
Proof. intros T pr t t' e par U V F. exact (latex_depends pr t t' e U V F par). Qed.
Print Assumptions C33_output_depends_on_symbols_only.

(** C33: a copy of a translator gives the same output for expressions none of whose symbols has
    been customised ... *)
Theorem C33_copy_without_customized_symbols :
  forall (T : Type) (pr : T -> string) (us : list (bool -> expr T -> string)) (h : list (expr T * string))
         (e : expr T) (par : bool),
    (forall b s i, In (b, s) h -> prints_var i e -> b <> EVar i) ->
    (forall b s i u, In (b, s) h -> occurs_fun i u e -> b <> EFun i u) ->
    let t := history (fold_left add_processor us fresh) h in
    latex pr (copy_translator t) par e = latex pr t par e.
Proof.
  intros T pr us h e par V F t. pose proof (added us) as A.
  assert (U : t_users t = us) by (unfold t; rewrite history_users, A; reflexivity).
  apply latex_depends; unfold t in *; rewrite A in *.
  - reflexivity.
  - intros i p P. unfold copy_translator. rewrite U. symmetry.
    apply history_other; [exact I|]. intros b s H. exact (V b s i H P).
  - intros i u p P. unfold copy_translator. rewrite U. symmetry.
    apply history_other; [exact I|]. intros b s H. exact (F b s i u H P).
Qed.
Print Assumptions C33_copy_without_customized_symbols.

(** ... but in general it does not: copying loses the customisations of variables and of
    function symbols. *)
Theorem C33_copy_keeps_customizations_refuted :
  exists (t : translator Z),
    latex pr_case (copy_translator t) false (EVar 0) <> latex pr_case t false (EVar 0) /\
    latex pr_case (copy_translator t) false (EFun 0 0) <> latex pr_case t false (EFun 0 0).
Proof.
  exists (history fresh [(@EVar Z 0, "x"); (EFun 0 0, "p")]). split; vm_compute; discriminate.
Qed.
Print Assumptions C33_copy_keeps_customizations_refuted.

(** C33: the empty text is not kept as a customisation. *)
Theorem C33_empty_customization_refuted :
  exists (t : translator Z) (a : expr Z), latex pr_case (customize t a "") false a <> "" /\
    (exists i, a = EVar i).
Proof. exists fresh, (EVar 0). split; [vm_compute; discriminate|exists 0%N; reflexivity]. Qed.
Print Assumptions C33_empty_customization_refuted.

(** C33.  Added processors are asked last.  Unless a symbol was customised with the empty text, they
    do not change the output of an expression without vectors, whatever they return; for a vector
    the first one that returns a text determines the output. *)
Theorem C33_added_processors_are_asked_last :
  forall (T : Type) (pr : T -> string) (us : list (bool -> expr T -> string)) (h : list (expr T * string)) (par : bool),
    let t := history (fold_left add_processor us fresh) h in
    (forall e, (forall b s, In (b, s) h -> s <> "") -> (forall es, ~ subterm (EVec es) e) ->
       latex pr t par e = latex pr (history fresh h) par e) /\
    (forall es before u after, us = (before ++ u :: after)%list ->
       (forall w, In w before -> w par (EVec es) = "") -> u par (EVec es) <> "" ->
       latex pr t par (EVec es) = u par (EVec es)).
Proof.
  intros T pr us h par t. unfold t. rewrite added. split.
  - intros e S N. destruct (history_symbols h (mk_translator [] [] us) fresh eq_refl eq_refl) as [V F].
    destruct (history_not_empty h (mk_translator [] [] us) S) as [NV NF].
    apply users_last; auto; [apply NV|apply NF]; discriminate.
  - intros es before u after -> B K. cbn [latex or_unknown]. rewrite history_users. cbn [t_users].
    rewrite (ask_first before u after) by assumption. destruct (u par (EVec es)); [destruct K|]; reflexivity.
Qed.
Print Assumptions C33_added_processors_are_asked_last.

(** A processor that prints everything as "vec": used for vectors only. *)
Example C33_added_case :
  let t := add_processor (history fresh [(@EVar Z 0, "x")]) (fun _ _ => "vec") in
  latex pr_case t false (EBin BPlus (EVar 0) (EVec [EVar 1])) = "x + vec".
Proof. vm_compute. reflexivity. Qed.
