(** Specification vocabulary for the LaTeX output: a reader following the usual conventions.
    No code is modelled here. *)
From Coq Require Import ZArith NArith List Bool String Ascii.
From Verif Require Import Outcome Num RtModel RtSpec LatexModel.
Import ListNotations.
Local Open Scope string_scope.

(** Spaces carry no meaning. *)
Fixpoint skip (s : string) : string :=
  match s with
  | String " " s' => skip s'
  | _ => s
  end.

Fixpoint strip (p s : string) : option string :=
  match p, s with
  | EmptyString, _ => Some s
  | String a p', String b s' => if Ascii.eqb a b then strip p' s' else None
  | _, _ => None
  end.

(** [eat p s]: the text after the symbol [p], if [s] begins with it. *)
Definition eat (p s : string) : option string :=
  match strip p (skip s) with Some r => Some (skip r) | None => None end.

Definition digit_value (c : ascii) : option N :=
  match c with
  | "0" => Some 0 | "1" => Some 1 | "2" => Some 2 | "3" => Some 3 | "4" => Some 4
  | "5" => Some 5 | "6" => Some 6 | "7" => Some 7 | "8" => Some 8 | "9" => Some 9
  | _ => None
  end%char%N.

(** Reading decimal digits: the number and the text after it. *)
Fixpoint digits (acc : N) (s : string) : N * string :=
  match s with
  | String c s' =>
      match digit_value c with
      | Some d => digits (10 * acc + d) s'
      | None => (acc, s)
      end
  | EmptyString => (acc, s)
  end.

(** An index: digits up to a closing brace. *)
Definition index (s : string) : option (N * string) :=
  match s with
  | String c _ =>
      match digit_value c with
      | Some _ => let '(i, r) := digits 0 s in
                  match eat "}" r with Some r' => Some (i, r') | None => None end
      | None => None
      end
  | EmptyString => None
  end.

Definition obind {A B : Type} (x : option A) (f : A -> option B) : option B :=
  match x with Some a => f a | None => None end.

(** What is being read: a sum, a product, a factor, or the rest of a sum or product whose
    beginning has been read. *)
Inductive mode (T : Type) : Type :=
| MSum | MProduct | MFactor | MSumRest (l : expr T) | MProductRest (l : expr T).
Arguments MSum {T}. Arguments MProduct {T}. Arguments MFactor {T}.
Arguments MSumRest {T}. Arguments MProductRest {T}.

Section Reader.
Context {T : Type}.
(** A reader for numbers. *)
Context (number : string -> option (T * string)).

(** A variable. *)
Definition variable (s : string) : option (N * string) :=
  obind (eat "x_{" s) index.

(** Sums and differences are read from left to right, products bind stronger, functions and
    the nabla operator apply to the next factor, fractions, roots, absolute values, parentheses
    and integrals delimit what is inside.  [rec] reads the parts; [None]: not readable. *)
Definition rd_step (rec : mode T -> string -> option (expr T * string)) (m : mode T) (s : string) :
    option (expr T * string) :=
    let un := fun (op : uop) (r : string) =>
      obind (rec MFactor r) (fun '(a, r') => Some (EUn op a, r')) in
    let closed := fun (r : string) (close : string) (mk : expr T -> expr T) =>
      obind (rec MSum r) (fun '(a, r') => obind (eat close r') (fun r'' => Some (mk a, r''))) in
    match m with
    | MSum => obind (rec MProduct s) (fun '(l, r) => rec (MSumRest l) r)
    | MProduct => obind (rec MFactor s) (fun '(l, r) => rec (MProductRest l) r)
    | MSumRest l =>
        match eat "+" s with
        | Some r => obind (rec MProduct r) (fun '(a, r') => rec (MSumRest (EBin BPlus l a)) r')
        | None =>
        match eat "-" s with
        | Some r => obind (rec MProduct r) (fun '(a, r') => rec (MSumRest (EBin BMinus l a)) r')
        | None => Some (l, skip s)
        end end
    | MProductRest l =>
        match eat "\cdot" s with
        | Some r => obind (rec MFactor r) (fun '(a, r') => rec (MProductRest (EBin BMult l a)) r')
        | None => Some (l, skip s)
        end
    | MFactor =>
        match eat "(" s with Some r => closed r ")" (fun a => a) | None =>
        match eat "\left(" s with Some r => closed r "\right)" (fun a => a) | None =>
        match eat "\left|" s with Some r => closed r "\right|" (EUn UFabs) | None =>
        match eat "\sqrt{" s with Some r => closed r "}" (EUn USqrt) | None =>
        match eat "\frac{" s with
        | Some r =>
            match eat "\partial" r with
            | Some r1 =>
                obind (rec MFactor r1) (fun '(a, r2) =>
                obind (eat "}{" r2) (fun r3 =>
                obind (eat "\partial" r3) (fun r4 =>
                obind (variable r4) (fun '(i, r5) =>
                obind (eat "}" r5) (fun r6 => Some (EUn (UPd i) a, r6))))))
            | None =>
                obind (rec MSum r) (fun '(a, r1) =>
                obind (eat "}{" r1) (fun r2 => closed r2 "}" (EBin BDiv a)))
            end
        | None =>
        match eat "\exp" s with Some r => un UExp r | None =>
        match eat "\sin" s with Some r => un USin r | None =>
        match eat "\cos" s with Some r => un UCos r | None =>
        match eat "\tan" s with Some r => un UTan r | None =>
        match eat "\ln" s with Some r => un ULog r | None =>
        match eat "\log" s with Some r => un ULog10 r | None =>
        match eat "\nabla" s with
        | Some r => match eat "\cdot" r with Some r1 => un UDiv r1 | None => un UGrad r end
        | None =>
        match eat "\int_{\Omega_{" s with
        | Some r =>
            obind (index r) (fun '(i, r1) =>
            obind (eat "}" r1) (fun r2 =>
            obind (rec MSum r2) (fun '(a, r3) =>
            obind (eat "\:" r3) (fun r4 =>
            obind (eat "\mathrm{d}" r4) (fun r5 =>
            obind (eat "\Omega" r5) (fun r6 => Some (EUn (USymInt i) a, r6)))))))
        | None =>
        match eat "\int_{" s with
        | Some r =>
            obind (eat "[" r) (fun r1 =>
            obind (rec MSum r1) (fun '(lo, r2) =>
            obind (eat ";" r2) (fun r3 =>
            obind (rec MSum r3) (fun '(hi, r4) =>
            obind (eat "]" r4) (fun r5 =>
            obind (eat "}" r5) (fun r6 =>
            obind (rec MSum r6) (fun '(a, r7) =>
            obind (eat "\:" r7) (fun r8 =>
            obind (eat "\mathrm{d}" r8) (fun r9 =>
            obind (variable r9) (fun '(v, r10) => Some (EInt lo hi v a, r10)))))))))))
        | None =>
        match eat "x_{" s with
        | Some r => obind (index r) (fun '(i, r') => Some (EVar i, r'))
        | None =>
        match eat "u_{" s with
        | Some r => obind (index r) (fun '(i, r') => Some (EFun i 0, r'))
        | None =>
        match eat "v_{" s with
        | Some r => obind (index r) (fun '(i, r') => Some (EFun i 1, r'))
        | None => obind (number (skip s)) (fun '(c, r) => Some (EConst c, skip r))
        end end end end end end end end end end end end end end end end end
    end.

(** The reader; [fuel] bounds the nesting depth. *)
Fixpoint rd (fuel : nat) (m : mode T) (s : string) : option (expr T * string) :=
  match fuel with
  | O => None
  | S f => rd_step (rd f) m s
  end.

(** Reading a complete text. *)
Definition read (fuel : nat) (s : string) : option (expr T) :=
  match rd fuel MSum s with
  | Some (e, EmptyString) => Some e
  | _ => None
  end.
(** An equation: two expressions with an equality sign between them. *)
Definition read_equation (fuel : nat) (s : string) : option (expr T * expr T) :=
  obind (rd fuel MSum s) (fun '(l, r) =>
  obind (eat "=" r) (fun r' =>
  obind (read fuel r') (fun e => Some (l, e)))).
End Reader.

(** The expressions whose output is read back: no vectors or malformed nodes, function symbols
    of the two known families, constants whose text is read back by [number]. *)
Definition readable {T : Type} (pr : T -> string) (number : string -> option (T * string))
    (e : expr T) : Prop :=
  forall s, subterm s e ->
    match s with
    | EVec _ | EBin BUnaryId _ _ => False
    | EFun _ t => t = 0%N \/ t = 1%N
    | EConst c =>
        (exists d s', pr c = String d s' /\ (digit_value d <> None \/ d = "-"%char)) /\
        forall rest, number (pr c ++ String " " rest) = Some (c, String " " rest)
    | _ => True
    end.

(** Equality of expressions up to the bracketing of sums and the identity operation:
    a + (b + c) = (a + b) + c, a + (b - c) = (a + b) - c, id(a) = a, in all contexts. *)
Inductive regroup {T : Type} : expr T -> expr T -> Prop :=
| rg_refl : forall e, regroup e e
| rg_trans : forall a b c, regroup a b -> regroup b c -> regroup a c
| rg_plus : forall a b c, regroup (EBin BPlus a (EBin BPlus b c)) (EBin BPlus (EBin BPlus a b) c)
| rg_minus : forall a b c, regroup (EBin BPlus a (EBin BMinus b c)) (EBin BMinus (EBin BPlus a b) c)
| rg_id : forall a, regroup (EUn UId a) a
| rg_un : forall op a b, regroup a b -> regroup (EUn op a) (EUn op b)
| rg_bin : forall op a b c d, regroup a b -> regroup c d -> regroup (EBin op a c) (EBin op b d)
| rg_int : forall v a b c d e f, regroup a b -> regroup c d -> regroup e f ->
    regroup (EInt a c v e) (EInt b d v f).

(** Variable [i] is printed somewhere in the output of [e]. *)
Definition prints_var {T : Type} (i : N) (e : expr T) : Prop :=
  subterm (EVar i) e \/ (exists a, subterm (EUn (UPd i) a) e) \/
  (exists lo hi a, subterm (EInt lo hi i a) e).

(** A series of calls of customize. *)
Definition history {T : Type} (t : translator T) (h : list (expr T * string)) : translator T :=
  fold_left (fun t c => customize t (fst c) (snd c)) h t.
