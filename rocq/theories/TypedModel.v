(** Constants whose scalar type is not the numeric type of the interface, as in
    [rt_constant<long> c6(6)]: /repo/viennamath/runtime/constant.hpp lines 41-141. *)
From Coq Require Import String ZArith NArith List Bool.
From Flocq Require Import Core BinarySingleNaN.
From Verif Require Import Outcome Num NumB64 RtModel StrModel LatexModel.
Import ListNotations.

(** float: binary32 with one NaN, round to nearest even.  Used as ScalarType in
    /repo/viennamath/compiletime/promote_traits.hpp lines 67-102. *)
Definition f32 : Type := binary_float 24 128.
(** Side conditions of Flocq's operations (not part of the code). For the float of
    /repo/viennamath/compiletime/promote_traits.hpp lines 67-102. *)
Definition prec32_pos : FLX.Prec_gt_0 24 := eq_refl.
(** As above, for the float of /repo/viennamath/compiletime/promote_traits.hpp lines 67-102. *)
Definition prec32_emax : Prec_lt_emax 24 128 := eq_refl.

(** The value of an rt_constant with its ScalarType, /repo/viennamath/runtime/constant.hpp lines 41 and
    140: [SOwn] for the numeric type of the interface ([T]), the others for the types
    /repo/viennamath/compiletime/promote_traits.hpp knows about.  Simplified: no other scalar types;
    the numeric type of the interface is none of int, long and float. *)
Inductive scalar (T : Type) : Type :=
| SOwn (x : T)
| SInt (z : Z)
| SLong (z : Z)
| SFloat (f : f32).
Arguments SOwn {T} x.
Arguments SInt {T} z.
Arguments SLong {T} z.
Arguments SFloat {T} f.

Section Typed.
Context (n : num).
(** The conversion of a float to the numeric type. *)
Context (fl : f32 -> n).

(** The implicit conversion to numeric_type in eval and unwrap,
    /repo/viennamath/runtime/constant.hpp lines 70, 72 and 86. *)
Definition conv (s : scalar n) : n :=
  match s with
  | SOwn x => x
  | SInt z | SLong z => n_of_Z n z
  | SFloat f => fl f
  end.

(** rt_constant::deep_equal, /repo/viennamath/runtime/constant.hpp lines 113-120: the dynamic_cast
    succeeds for the same ScalarType only. *)
Definition sc_equal (s o : scalar n) : bool :=
  match s, o with
  | SOwn c, SOwn d => n_le n d c && n_ge n d c
  | SInt c, SInt d | SLong c, SLong d => Z.leb d c && Z.geb d c
  | SFloat c, SFloat d => Bleb d c && Bleb c d
  | _, _ => false
  end.

(** [self_type(0)] of rt_constant::diff, /repo/viennamath/runtime/constant.hpp line 131. *)
Definition sc_zero (s : scalar n) : scalar n :=
  match s with
  | SOwn _ => SOwn (c0 n)
  | SInt _ => SInt 0
  | SLong _ => SLong 0
  | SFloat _ => SFloat (B754_zero false)
  end.

(** Expression trees with such constants: runtime/constant.hpp lines 41-141, otherwise as [expr] of
    RtModel.v. *)
Definition texpr : Type := expr (scalar n).
(** [new rt_constant<numeric_type, InterfaceType>(x)], e.g. manipulation/detail/binary_operations.hpp lines 50-76. *)
Definition KConst (x : n) : texpr := EConst (SOwn x).

(** eval with a vector, citations as for [eval] of RtModel.v; for constants runtime/constant.hpp 70. *)
Fixpoint teval (e : texpr) (v : list n) : outcome n :=
  match e with
  | EConst c => Ok (conv c)
  | EVar id =>
      if N.leb (N.of_nat (length v)) id
      then Throw (VariableIndexOutOfBounds id (N.of_nat (length v)))
      else match nth_error v (N.to_nat id) with
           | Some x => Ok x
           | None => UB
           end
  | EFun _ _ => Throw ExpressionNotEvaluable
  | EUn op a => bind (teval a v) (u_apply n op)
  | EInt _ _ _ a => bind (teval a v) (fun _ => Throw AnalyticIntegrationNotSupported)
  | EBin op l r => both (teval l v) (teval r v) (b_apply n op)
  | EVec _ => Throw ExpressionNotEvaluable
  end.

(** unwrap, citations as for [unwrap] of RtModel.v; for constants runtime/constant.hpp 86. *)
Fixpoint tunwrap (e : texpr) : outcome n :=
  match e with
  | EConst c => Ok (conv c)
  | EVar _ => Throw ExpressionNotUnwrappable
  | EFun _ _ => Throw ExpressionNotUnwrappable
  | EUn op a => bind (tunwrap a) (u_apply n op)
  | EInt _ _ _ a => bind (tunwrap a) (fun _ => Throw AnalyticIntegrationNotSupported)
  | EBin op l r => both (tunwrap l) (tunwrap r) (b_apply n op)
  | EVec _ => Throw ExpressionNotUnwrappable
  end.

(** is_constant, citations as for [is_constant] of RtModel.v; runtime/constant.hpp 75. *)
Fixpoint tis_constant (e : texpr) : bool :=
  match e with
  | EConst _ => true
  | EBin _ l r => tis_constant l && tis_constant r
  | _ => false
  end.

(** The dot product, runtime/vector_expr.hpp lines 267-277 (cf. [dot] of RtModel.v). *)
Fixpoint tdot_acc (acc : texpr) (a b : list texpr) : outcome texpr :=
  match a, b with
  | [], [] => Ok acc
  | x :: a', y :: b' => tdot_acc (EBin BPlus acc (EBin BMult x y)) a' b'
  | _, _ => UB
  end.
(** The assert of line 269 is [UB] when violated, runtime/vector_expr.hpp lines 267-277. *)
Definition tdot (a b : list texpr) : outcome texpr :=
  if Nat.eqb (length a) (length b) then
    match a, b with
    | x :: a', y :: b' => tdot_acc (EBin BMult x y) a' b'
    | _, _ => UB
    end
  else UB.

(** Two arguments of a new rt_binary_expr(...), order unspecified. E.g.
    manipulation/detail/binary_operations.hpp lines 73-75. *)
Definition tmk2 (op : bop) (l r : outcome texpr) : outcome texpr :=
  both l r (fun a b => Ok (EBin op a b)).

(** simplify, citations as for [simplify] of RtModel.v: a constant is cloned with its type
    (runtime/expression_interface.hpp 90, runtime/constant.hpp 67), new constants have the numeric type
    of the interface. *)
Fixpoint tsimplify (e : texpr) : outcome texpr :=
  match e with
  | EConst _ | EVar _ | EFun _ _ | EVec _ => Ok e
  | EUn op a =>
      if tis_constant a then
        if u_can_simplify op
        then bind (tunwrap a) (fun x => omap KConst (u_apply n op x))
        else omap (fun x => EUn op (KConst x)) (tunwrap a)
      else omap (EUn op) (tsimplify a)
  | EInt lo hi var a =>
      if tis_constant a
      then omap (fun x => EInt lo hi var (KConst x)) (tunwrap a)
      else omap (EInt lo hi var) (tsimplify a)
  | EBin op l r =>
      if tis_constant l && tis_constant r then omap KConst (both (tunwrap l) (tunwrap r) (b_apply n op))
      else
      match op with
      | BPlus =>
          if tis_constant l then
            bind (tunwrap l) (fun x =>
              if n_eq n x (c0 n) then tsimplify r
              else omap (EBin BPlus (KConst x)) (tsimplify r))
          else if tis_constant r then
            bind (tunwrap r) (fun x =>
              if n_eq n x (c0 n) then tsimplify l
              else omap (fun l' => EBin BPlus l' (KConst x)) (tsimplify l))
          else tmk2 BPlus (tsimplify l) (tsimplify r)
      | BMinus =>
          if tis_constant l then
            bind (tunwrap l) (fun x =>
              if n_eq n x (c0 n) then omap (EBin BMult (KConst (cm1 n))) (tsimplify r)
              else omap (EBin BMinus (KConst x)) (tsimplify r))
          else if tis_constant r then
            bind (tunwrap r) (fun x =>
              if n_eq n x (c0 n) then tsimplify l
              else omap (fun l' => EBin BMinus l' (KConst x)) (tsimplify l))
          else tmk2 BMinus (tsimplify l) (tsimplify r)
      | BMult =>
          if tis_constant l then
            bind (tunwrap l) (fun x =>
              if n_eq n x (c0 n) then Ok (KConst (c0 n))
              else if n_eq n x (c1 n) then tsimplify r
              else omap (EBin BMult (KConst x)) (tsimplify r))
          else if tis_constant r then
            bind (tunwrap r) (fun x =>
              if n_eq n x (c0 n) then Ok (KConst (c0 n))
              else if n_eq n x (c1 n) then tsimplify l
              else omap (fun l' => EBin BMult l' (KConst x)) (tsimplify l))
          else
            match l, r with
            | EVec a, EVec b => tdot a b
            | _, _ => tmk2 BMult (tsimplify l) (tsimplify r)
            end
      | BDiv =>
          if tis_constant l then
            bind (tunwrap l) (fun x =>
              if n_eq n x (c0 n) then Ok (KConst (c0 n))
              else omap (EBin BDiv (KConst x)) (tsimplify r))
          else if tis_constant r then
            bind (tunwrap r) (fun x =>
              if n_eq n x (c1 n) then tsimplify l
              else omap (fun l' => EBin BDiv l' (KConst x)) (tsimplify l))
          else tmk2 BDiv (tsimplify l) (tsimplify r)
      | BUnaryId => Ok (EBin BUnaryId l r)
      end
  end.

(** The tests of can_simplify_impl, manipulation/detail/binary_operations.hpp e.g. lines 82-89. *)
Definition tconst_eq (e : texpr) (c : n) : outcome bool :=
  if tis_constant e then omap (fun x => n_eq n x c) (tunwrap e) else Ok false.

(** can_simplify, citations as for [can_simplify] of RtModel.v. runtime/unary_expr.hpp lines 231-239,
    binary_expr.hpp lines 322-330. *)
Fixpoint tcan_simplify (e : texpr) : outcome bool :=
  match e with
  | EConst _ | EVar _ | EFun _ _ | EVec _ => Ok false
  | EUn _ a => tcan_simplify a
  | EInt _ _ _ a => tcan_simplify a
  | EBin op l r =>
      if tis_constant l && tis_constant r then Ok true
      else
        let rest := oor (tcan_simplify l) (tcan_simplify r) in
        match op with
        | BPlus | BMinus => oor (tconst_eq l (c0 n)) (oor (tconst_eq r (c0 n)) rest)
        | BMult =>
            oor (tconst_eq l (c0 n)) (oor (tconst_eq l (c1 n))
              (oor (tconst_eq r (c0 n)) (oor (tconst_eq r (c1 n))
                 match l, r with
                 | EVec _, EVec _ => Ok true
                 | _, _ => rest
                 end)))
        | BDiv => oor (tconst_eq l (c0 n)) (oor (tconst_eq r (c1 n)) rest)
        | BUnaryId => Ok false
        end
  end.

(** The loop of inplace_simplify, manipulation/simplify.hpp lines 904-909.  The relation
    [tsimplified e o]: the loop started with [e] ends with the outcome [o]. *)
Inductive tsimplified : texpr -> outcome texpr -> Prop :=
| ts_stop : forall e, tcan_simplify e = Ok false -> tsimplified e (Ok e)
| ts_step : forall e e' o, tcan_simplify e = Ok true -> tsimplify e = Ok e' ->
    tsimplified e' o -> tsimplified e o
| ts_test_throws : forall e x, tcan_simplify e = Throw x -> tsimplified e (Throw x)
| ts_test_undefined : forall e, tcan_simplify e = UB -> tsimplified e UB
| ts_throws : forall e x, tcan_simplify e = Ok true -> tsimplify e = Throw x -> tsimplified e (Throw x)
| ts_undefined : forall e, tcan_simplify e = Ok true -> tsimplify e = UB -> tsimplified e UB.

(** deep_equal, citations as for [deep_equal] of RtModel.v; for constants runtime/constant.hpp
    113-120.  The first argument is [this]. *)
Fixpoint tdeep_equal (e o : texpr) {struct e} : outcome bool :=
  match e with
  | EConst c =>
      match o with
      | EConst d => Ok (sc_equal c d)
      | _ => Ok false
      end
  | EVar i =>
      match o with
      | EVar j => Ok (N.eqb j i)
      | _ => Ok false
      end
  | EFun i t =>
      match o with
      | EFun j s => Ok (N.eqb j i && N.eqb s t)
      | _ => Ok false
      end
  | EUn op a =>
      match o with
      | EUn op' b => bind (tdeep_equal a b) (fun q => Ok (q && u_equal op op'))
      | EInt _ _ _ b => bind (tdeep_equal a b) (fun _ => Ok false)
      | _ => Ok false
      end
  | EInt _ _ _ a =>
      match o with
      | EInt _ _ _ b => tdeep_equal a b
      | EUn _ b => bind (tdeep_equal a b) (fun _ => Ok false)
      | _ => Ok false
      end
  | EBin op l r =>
      match o with
      | EBin op' l' r' =>
          bind (tdeep_equal l l') (fun q =>
            if q && b_equal op op' then tdeep_equal r r' else Ok false)
      | _ => Ok false
      end
  | EVec es =>
      match o with
      | EVec os =>
          (fix loop (this other : list texpr) {struct this} : outcome bool :=
             match other with
             | [] => Ok true
             | y :: other' =>
                 match this with
                 | [] => UB
                 | x :: this' =>
                     bind (tdeep_equal x y) (fun q => if q then loop this' other' else Ok false)
                 end
             end) es os
      | _ => Ok false
      end
  end.

(** substitute, citations as for [subst1] of RtModel.v. runtime/unary_expr.hpp lines 272-280,
    binary_expr.hpp lines 369-378, constant.hpp lines 89-97. *)
Fixpoint tsubst (s repl e : texpr) {struct e} : outcome texpr :=
  bind (tdeep_equal e s) (fun q =>
    if q then Ok repl
    else
      match e with
      | EConst _ | EVar _ | EFun _ _ => Ok e
      | EUn op a => omap (EUn op) (tsubst s repl a)
      | EInt lo hi var a => omap (EInt lo hi var) (tsubst s repl a)
      | EBin op l r => tmk2 op (tsubst s repl l) (tsubst s repl r)
      | EVec es => omap EVec (oseq (map (tsubst s repl) es))
      end).

(** diff, citations as for [diff] of RtModel.v: the derivative of a constant is a zero of its type
    (runtime/constant.hpp 129-132), all other new constants have the numeric type of the interface. *)
Fixpoint tdiff (x : dvar) (e : texpr) {struct e} : outcome texpr :=
  match e with
  | EConst c => Ok (EConst (sc_zero c))
  | EVar i =>
      match x with
      | DVar j => if N.eqb j i then Ok (KConst (c1 n)) else Ok (KConst (c0 n))
      | DFun _ _ => Ok (KConst (c0 n))
      end
  | EFun i t =>
      match x with
      | DVar _ => Throw ExpressionNotDifferentiable
      | DFun j s => if N.eqb j i && N.eqb s t then Ok (KConst (c1 n)) else Ok (KConst (c0 n))
      end
  | EUn op a =>
      match op with
      | UId => tdiff x a
      | UExp => omap (fun d => EBin BMult (EUn UExp a) d) (tdiff x a)
      | USin => omap (fun d => EBin BMult (EUn UCos a) d) (tdiff x a)
      | UCos => omap (fun d => EBin BMult (EUn USin a) (EBin BMult (KConst (cm1 n)) d)) (tdiff x a)
      | UTan => omap (fun d => EBin BDiv d (EBin BMult (EUn UCos a) (EUn UCos a))) (tdiff x a)
      | UFabs => Throw ExpressionNotDifferentiable
      | USqrt => omap (fun d => EBin BDiv d (EBin BMult (KConst (c2 n)) (EUn USqrt a))) (tdiff x a)
      | ULog => omap (fun d => EBin BDiv d (EUn UId a)) (tdiff x a)
      | ULog10 =>
          omap (fun d => EBin BDiv d (EBin BMult (KConst (n_ln10 n)) (EUn UId a))) (tdiff x a)
      | UGrad =>
          match x with
          | DFun _ _ =>
              bind (tdiff x a) (fun d =>
                bind (tdeep_equal d (KConst (c0 n))) (fun q =>
                  if q then Ok (KConst (c0 n)) else omap (EUn UGrad) (tdiff x a)))
          | DVar _ => Throw ExpressionNotDifferentiable
          end
      | UDiv | UPd _ | USymInt _ => Throw ExpressionNotDifferentiable
      end
  | EInt _ _ _ _ => Throw ExpressionNotDifferentiable
  | EBin op l r =>
      match op with
      | BPlus => tmk2 BPlus (tdiff x l) (tdiff x r)
      | BMinus => tmk2 BMinus (tdiff x l) (tdiff x r)
      | BMult =>
          both (tdiff x l) (tdiff x r) (fun dl dr =>
            Ok (EBin BPlus (EBin BMult dl r) (EBin BMult l dr)))
      | BDiv =>
          both (tdiff x l) (tdiff x r) (fun dl dr =>
            Ok (EBin BDiv (EBin BMinus (EBin BMult dl r) (EBin BMult l dr)) (EBin BMult r r)))
      | BUnaryId => Throw RhsProvidedForUnaryOperation
      end
  | EVec es => omap EVec (oseq (map (tdiff x) es))
  end.

(** LaTeX output by a translator without added processors: the processor for constants,
    manipulation/latex.hpp lines 413-439, casts to the constants of the numeric type
    only, no other one is responsible, so lines 211-213 print the symbol for unknown expressions
    (between blanks, as [latex] prints a constant). *)
Definition tlatex (pr : n -> string) (t : translator (scalar n)) : bool -> texpr -> string :=
  latex (fun c => match c with SOwn x => pr x | _ => "\chi_{\mathrm{unknown}}"%string end) t.

End Typed.

(** The folding of two constants by operator+ and operator- in c1 + (c2 + X) and the like:
    /repo/viennamath/runtime/operations/constant.hpp lines 37-113 and 136-198,
    /repo/viennamath/compiletime/operations/ct_expr.hpp lines 62-76, 111-124, 139-153
    (a ct_constant takes part as a long).  [fold] computes
    [ret_constant(static_cast<ScalarType>(a) + static_cast<OtherScalarType>(b))]: the sum in the common
    type of C++, converted to promote_traits<ScalarType, OP, OtherScalarType>::result_type
    (/repo/viennamath/compiletime/promote_traits.hpp lines 28-121).  Overflow of int (32 bit) and
    long (64 bit) is [UB]. *)
Section Fold.
(** The conversion of an integer to double and float, and of a float to double (not part of the
    code). Used for /repo/viennamath/runtime/operations/constant.hpp lines 37-113 and 136-198. *)
Definition double_of_Z (z : Z) : f64 := binary_normalize 53 1024 prec_pos prec_emax mode_NE z 0 false.
(** As above. Used for /repo/viennamath/runtime/operations/constant.hpp lines 37-113 and 136-198. *)
Definition float_of_Z (z : Z) : f32 := binary_normalize 24 128 prec32_pos prec32_emax mode_NE z 0 false.
(** As above; not part of the code. Used for /repo/viennamath/runtime/operations/constant.hpp lines 37-113
    and 136-198. *)
Definition widen (x : f32) : f64 :=
  match x with
  | B754_zero s => B754_zero s
  | B754_infinity s => B754_infinity s
  | B754_nan => B754_nan
  | B754_finite s m e _ => binary_normalize 53 1024 prec_pos prec_emax mode_NE (cond_Zopp s (Zpos m)) e s
  end.

(** Values of the types int and long (not part of the code). Used for
    /repo/viennamath/runtime/operations/constant.hpp lines 37-113 and 136-198. *)
Definition in_int (z : Z) : bool := Z.leb (-2147483648) z && Z.leb z 2147483647.
(** As above. Used for /repo/viennamath/runtime/operations/constant.hpp lines 37-113 and 136-198. *)
Definition in_long (z : Z) : bool := Z.leb (-9223372036854775808) z && Z.leb z 9223372036854775807.

(** + or - of double, float and integers; cited above. Used for
    /repo/viennamath/runtime/operations/constant.hpp lines 37-113 and 136-198. *)
Definition op64 (minus : bool) : f64 -> f64 -> f64 :=
  if minus then @Bminus 53 1024 prec_pos prec_emax mode_NE else @Bplus 53 1024 prec_pos prec_emax mode_NE.
(** As above. Used for /repo/viennamath/runtime/operations/constant.hpp lines 37-113 and 136-198. *)
Definition op32 (minus : bool) : f32 -> f32 -> f32 :=
  if minus then @Bminus 24 128 prec32_pos prec32_emax mode_NE
  else @Bplus 24 128 prec32_pos prec32_emax mode_NE.
(** As above. Used for /repo/viennamath/runtime/operations/constant.hpp lines 37-113 and 136-198. *)
Definition opZ (minus : bool) : Z -> Z -> Z := if minus then Z.sub else Z.add.

(** Folding, cited at the beginning of the section: promote_traits.hpp lines 29-33 (default: double),
    36-40 (same type), 43-77 (double), 80-102 (float). *)
Definition fold (minus : bool) (a b : scalar f64) : outcome (scalar f64) :=
  match a, b with
  | SInt x, SInt y => if in_int (opZ minus x y) then Ok (SInt (opZ minus x y)) else UB
  | SLong x, SLong y => if in_long (opZ minus x y) then Ok (SLong (opZ minus x y)) else UB
  | SInt x, SLong y | SLong x, SInt y =>
      if in_long (opZ minus x y) then Ok (SOwn (double_of_Z (opZ minus x y))) else UB
  | SFloat x, SFloat y => Ok (SFloat (op32 minus x y))
  | SFloat x, (SInt y | SLong y) => Ok (SFloat (op32 minus x (float_of_Z y)))
  | (SInt x | SLong x), SFloat y => Ok (SFloat (op32 minus (float_of_Z x) y))
  | SOwn x, SOwn y => Ok (SOwn (op64 minus x y))
  | SOwn x, (SInt y | SLong y) => Ok (SOwn (op64 minus x (double_of_Z y)))
  | SOwn x, SFloat y => Ok (SOwn (op64 minus x (widen y)))
  | (SInt x | SLong x), SOwn y => Ok (SOwn (op64 minus (double_of_Z x) y))
  | SFloat x, SOwn y => Ok (SOwn (op64 minus (widen x) y))
  end.
End Fold.
