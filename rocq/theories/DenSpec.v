(** Specification vocabulary: the meaning of an expression with function symbols, formal
    differential operators, integrals and vectors as a function on a domain.
    No code is modelled here. *)
From Coq Require Import ZArith NArith Reals List.
From Verif Require Import Outcome Num RtModel NumR QuadSpec.
Import ListNotations.
Local Open Scope R_scope.

(** The meaning of an expression over a domain [P] of points: a real function on [P], or a
    vector of such functions. *)
Inductive val (P : Type) : Type :=
| Sc (f : P -> R)
| Ve (fs : list (P -> R)).
Arguments Sc {P} f.
Arguments Ve {P} fs.

(** What variables, function symbols, the formal operators (gradient, divergence, partial
    derivatives, symbolic integrals) and integrals over intervals stand for.  [None]: the
    operator is not applicable. *)
Record interp (P : Type) : Type := mk_interp {
  i_var : N -> P -> R;
  i_fun : N -> N -> val P;
  i_op : uop -> val P -> option (val P);
  i_int : val P -> val P -> N -> val P -> option (val P)
}.
Arguments i_var {P}.
Arguments i_fun {P}.
Arguments i_op {P}.
Arguments i_int {P}.

(** [real_un op x y]: the elementary function [op] is defined at [x] and has the value [y]. *)
Definition real_un (op : uop) (x y : R) : Prop :=
  match op with
  | UId => y = x
  | UExp => y = exp x
  | USin => y = sin x
  | UCos => y = cos x
  | UTan => cos x <> 0 /\ y = tan x
  | UFabs => y = Rabs x
  | USqrt => 0 <= x /\ y = sqrt x
  | ULog => 0 < x /\ y = ln x
  | ULog10 => 0 < x /\ y = ln x / ln 10
  | _ => False
  end.

(** [real_bin op x y z]: the operation is defined for [x] and [y] and has the value [z]. *)
Definition real_bin (op : bop) (x y z : R) : Prop :=
  match op with
  | BPlus => z = x + y
  | BMinus => z = x - y
  | BMult => z = x * y
  | BDiv => y <> 0 /\ z = x / y
  | BUnaryId => False
  end.

(** Applying a real operation to two lists of functions entry by entry. *)
Fixpoint zip_fun {P : Type} (op : R -> R -> R) (fs gs : list (P -> R)) : list (P -> R) :=
  match fs, gs with
  | f :: fs', g :: gs' => (fun p => op (f p) (g p)) :: zip_fun op fs' gs'
  | _, _ => []
  end.

(** Binary operations on meanings: on functions pointwise; sums and differences of vectors of
    equal size entry by entry; the product of two non-empty vectors of equal size is the dot
    product; vectors can be multiplied by functions that are not constantly 0 and divided by
    functions without zeros. *)
Definition bin_means {P : Type} (op : bop) (x y z : val P) : Prop :=
  match x, y with
  | Sc f, Sc g => exists h, z = Sc h /\ forall p, real_bin op (f p) (g p) (h p)
  | Ve fs, Ve gs =>
      length fs = length gs /\
      match op with
      | BPlus => z = Ve (zip_fun Rplus fs gs)
      | BMinus => z = Ve (zip_fun Rminus fs gs)
      | BMult => fs <> [] /\
          z = Sc (fun p => sum_products (map (fun f => f p) fs) (map (fun g => g p) gs))
      | _ => False
      end
  | Sc f, Ve gs =>
      op = BMult /\ (exists p, f p <> 0) /\ z = Ve (map (fun g p => f p * g p) gs)
  | Ve fs, Sc g =>
      (op = BMult /\ (exists p, g p <> 0) /\ z = Ve (map (fun f p => f p * g p) fs)) \/
      (op = BDiv /\ (forall p, g p <> 0) /\ z = Ve (map (fun f p => f p / g p) fs))
  end.

(** [means I e x]: under the interpretation [I] the expression [e] is defined everywhere and
    denotes [x]. *)
Fixpoint means {P : Type} (I : interp P) (e : expr numR) (x : val P) : Prop :=
  match e with
  | EConst c => exists r, c = Some r /\ x = Sc (fun _ => r)
  | EVar i => x = Sc (i_var I i)
  | EFun i t => x = i_fun I i t
  | EUn op a => exists y, means I a y /\
      match op with
      | UGrad | UDiv | UPd _ | USymInt _ => i_op I op y = Some x
      | _ => exists f g, y = Sc f /\ x = Sc g /\ forall p, real_un op (f p) (g p)
      end
  | EInt lo hi v a => exists y z w, means I lo y /\ means I hi z /\ means I a w /\
      i_int I y z v w = Some x
  | EBin op l r => exists y z, means I l y /\ means I r z /\ bin_means op y z x
  | EVec es => exists fs, x = Ve fs /\
      (fix entries (l : list (expr numR)) (gs : list (P -> R)) : Prop :=
         match l, gs with
         | [], [] => True
         | a :: l', g :: gs' => means I a (Sc g) /\ entries l' gs'
         | _, _ => False
         end) es fs
  end.
