(** Properties C01, C03, C04, C05: simplification of run-time expressions. *)
From Coq Require Import ZArith NArith Reals List Bool Lia Lra.
From Verif Require Import Outcome Num RtModel RtSpec RtFacts RtStep RtTermination RtValue RtEval
  NumR NumRFacts NumZ.
Import ListNotations.

(** C01.  Simplification never changes a real value: wherever [e] has the real value [r],
    [simplify(e)] succeeds and has the value [r]. *)
Theorem C01_simplify_preserves_value :
  forall (e : expr numR) (v : list (option R)) (r : R),
    eval numR e v = Ok (Some r) ->
    exists e', simplify_top numR e = Ok e' /\ eval numR e' v = Ok (Some r).
Proof. intros e v r H. exact (simplify_real v e r H). Qed.
Print Assumptions C01_simplify_preserves_value.

(** Non-trivial case: (0 - x0) * 1 at x0 = 3. *)
Example C01_case :
  eval numR (EBin BMult (EBin BMinus (EConst (Some 0%R)) (EVar 0)) (EConst (Some 1%R)))
       [Some 3%R] = Ok (Some (-3)%R).
Proof. simpl. do 2 f_equal. lra. Qed.

(** C03.  The loop of inplace_simplify terminates: for every expression over every numeric
    type there is an outcome it reaches with every sufficiently large number of iterations. *)
Theorem C03_inplace_simplify_terminates :
  forall (n : num) (e : expr n),
    exists k o, forall fuel, k <= fuel -> inplace_simplify n fuel e = Some o.
Proof.
  intros n e. destruct (top_inplace n e) as [k K]. exists k, (simplify_top n e).
  intros fuel H. exact (inplace_mono n k fuel e _ K H).
Qed.
Print Assumptions C03_inplace_simplify_terminates.

(** The outcome is the one named [simplify_top] in the other theorems. *)
Theorem C03_simplify_top_is_the_loop :
  forall (n : num) (e : expr n) fuel o,
    inplace_simplify n fuel e = Some o -> simplify_top n e = o.
Proof. intros n e fuel o H. exact (inplace_top n fuel e o H). Qed.
Print Assumptions C03_simplify_top_is_the_loop.

(** Non-trivial case: a tree on which the loop runs more than once. *)
Example C03_case :
  let e := EBin BPlus (EBin BMult (EBin BMinus (EConst 2%Z) (EConst 1%Z)) (EVar 0))
                      (EUn UExp (EBin BMult (EConst 0%Z) (EVar 1))) : expr numZ in
  inplace_simplify numZ 1 e = None /\
  inplace_simplify numZ 5 e = Some (Ok (EBin BPlus (EVar 0) (EUn UExp (EConst 0%Z)))).
Proof. vm_compute. split; reflexivity. Qed.

(** C04.  The result of simplification is final. *)
Theorem C04_simplify_is_final :
  forall (n : num) (e e' : expr n),
    simplify_top n e = Ok e' ->
    can_simplify n e' = Ok false /\ simplify_top n e' = Ok e'.
Proof.
  intros n e e' H. pose proof (top_result n e e' H) as C.
  split; [exact C|exact (top_done n e' C)].
Qed.
Print Assumptions C04_simplify_is_final.

Example C04_case :
  simplify_top numZ (EBin BMinus (EConst 0%Z) (EBin BDiv (EVar 0) (EConst 1%Z)))
  = Ok (EBin BMult (EConst (-1)%Z) (EVar 0)).
Proof. vm_compute. reflexivity. Qed.

(** C05.  Simplification introduces no variable, function symbol, unary operation or
    integral that was not there, and keeps expressions evaluable. *)
Theorem C05_simplify_introduces_nothing :
  forall (n : num) (e e' : expr n),
    simplify_top n e = Ok e' ->
    (forall i, occurs_var i e' -> occurs_var i e) /\
    (forall i t, occurs_fun i t e' -> occurs_fun i t e) /\
    (forall op a, subterm (EUn op a) e' -> exists a0, subterm (EUn op a0) e) /\
    (forall lo hi w a, subterm (EInt lo hi w a) e' -> exists a0, subterm (EInt lo hi w a0) e) /\
    (forall es, subterm (EVec es) e' -> subterm (EVec es) e) /\
    (forall size, evaluable size e -> evaluable size e').
Proof.
  intros n e e' H. pose proof (top_represented n e e' H) as R.
  split; [intros i Hi; exact (R _ Hi)|].
  split; [intros i t Hi; exact (R _ Hi)|].
  split; [intros op a Hi; exact (R _ Hi)|].
  split; [intros lo hi w a Hi; exact (R _ Hi)|].
  split; [intros es Hi; exact (R _ Hi)|].
  intros size E. exact (top_evaluable n size e e' H E).
Qed.
Print Assumptions C05_simplify_introduces_nothing.

Example C05_case :
  simplify_top numZ (EBin BPlus (EUn UGrad (EFun 0 1)) (EBin BMult (EConst 0%Z) (EVar 7)))
  = Ok (EUn UGrad (EFun 0 1)).
Proof. vm_compute. reflexivity. Qed.

(** Dropping dependencies can happen (so the inclusion of C05 is not an equality):
    an expression that throws at the empty vector may evaluate after simplification. *)
Example C05_strict :
  eval numZ (EBin BMult (EConst 0%Z) (EVar 7)) [] = Throw (VariableIndexOutOfBounds 7 0) /\
  simplify_top numZ (EBin BMult (EConst 0%Z) (EVar 7)) = Ok (EConst 0%Z).
Proof. vm_compute. split; reflexivity. Qed.
