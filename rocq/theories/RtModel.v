(** Model of the run-time expression trees and their virtual functions. *)
From Coq Require Import ZArith NArith List Bool.
From Verif Require Import Outcome Num.
Import ListNotations.

(** Unary operation tags held by an rt_unary_expr through op_unary<...>:
    /repo/viennamath/compiletime/unary_op_tags.hpp lines 38-243 and
    /repo/viennamath/runtime/integral.hpp lines 150-186 (symbolic integral, carrying the
    id of its rt_symbolic_interval).  The integral over a concrete interval
    (integral.hpp lines 41-95) is the separate node [EInt] because its operation object
    itself contains expressions. *)
Inductive uop : Type :=
| UId | UExp | USin | UCos | UTan | UFabs | USqrt | ULog | ULog10
| UGrad | UDiv | UPd (id : N) | USymInt (id : N).

(** Operations held by an rt_binary_expr: op_binary over the four tags of
    /repo/viennamath/compiletime/binary_op_tags.hpp lines 36-101, or (malformed) the unary
    op_unary<op_id> that the assignments of
    /repo/viennamath/runtime/binary_expr.hpp lines 189-197 and 208-229 store. *)
Inductive bop : Type := BPlus | BMinus | BMult | BDiv | BUnaryId.

(** Run-time expression trees, one constructor per node class:
    rt_constant (runtime/constant.hpp 41-141), rt_variable (runtime/variable.hpp 94-243),
    rt_function_symbol (runtime/function_symbol.hpp 40-160; the tag is 0 for
    unknown_tag, 1 for test_tag), rt_unary_expr (runtime/unary_expr.hpp 44-339),
    rt_unary_expr holding op_rt_integral (runtime/integral.hpp 41-95; bounds and
    integration variable), rt_binary_expr (runtime/binary_expr.hpp 44-451),
    rt_vector_expr (runtime/vector_expr.hpp 42-224).
    Simplified: pointers are resolved to subtrees here (ownership is modelled in HeapModel.v);
    only constants of the interface's own numeric type occur; entries of a vector and
    interval bounds are non-empty rt_expr objects. *)
Inductive expr (T : Type) : Type :=
| EConst (c : T)
| EVar (id : N)
| EFun (id tag : N)
| EUn (op : uop) (e : expr T)
| EInt (lo hi : expr T) (var : N) (body : expr T)
| EBin (op : bop) (l r : expr T)
| EVec (es : list (expr T)).
Arguments EConst {T} c.
Arguments EVar {T} id.
Arguments EFun {T} id tag.
Arguments EUn {T} op e.
Arguments EInt {T} lo hi var body.
Arguments EBin {T} op l r.
Arguments EVec {T} es.

(** What one may differentiate by: the dynamic type of the [diff_var] argument
    (/repo/viennamath/manipulation/diff.hpp lines 39-114 pass an rt_variable,
    lines 148-186 an rt_function_symbol). *)
Inductive dvar : Type := DVar (id : N) | DFun (id tag : N).

(** op_unary::can_simplify, /repo/viennamath/runtime/unary_operators.hpp line 118 forwarding
    to the tags (unary_op_tags.hpp lines 38-243, integral.hpp lines 88 and 179). *)
Definition u_can_simplify (op : uop) : bool :=
  match op with
  | UId | UExp | USin | UCos | UTan | UFabs | USqrt | ULog | ULog10 => true
  | UGrad | UDiv | UPd _ | USymInt _ => false
  end.

(** op_unary::equal, /repo/viennamath/runtime/unary_operators.hpp lines 121-128 with
    unary_op_equal (line 67 and unary_op_tags.hpp line 248): same dynamic type, and for
    partial derivatives the same id.  The id of a symbolic interval is not compared. *)
Definition u_equal (a b : uop) : bool :=
  match a, b with
  | UId, UId | UExp, UExp | USin, USin | UCos, UCos | UTan, UTan | UFabs, UFabs
  | USqrt, USqrt | ULog, ULog | ULog10, ULog10 | UGrad, UGrad | UDiv, UDiv => true
  | UPd i, UPd j => N.eqb i j
  | USymInt _, USymInt _ => true
  | _, _ => false
  end.

(** op_binary::equal, /repo/viennamath/runtime/binary_operators.hpp lines 128-131 (and
    op_unary::equal for the malformed case): same dynamic type. *)
Definition b_equal (a b : bop) : bool :=
  match a, b with
  | BPlus, BPlus | BMinus, BMinus | BMult, BMult | BDiv, BDiv | BUnaryId, BUnaryId => true
  | _, _ => false
  end.

Section Model.
Context (n : num).

(** Literals and operator objects used below (no code of their own).
    [c0] .. [cm1] model the conversions of 0, 0.0, 1, 1.0, 2, -1 to numeric_type. E.g.
    /repo/viennamath/manipulation/detail/binary_operations.hpp lines 50-76. *)
Definition c0 : n := n_of_Z n 0.
(** As above; e.g. /repo/viennamath/manipulation/detail/binary_operations.hpp lines 197-233. *)
Definition c1 : n := n_of_Z n 1.
(** As above; e.g. /repo/viennamath/manipulation/detail/unary_operations.hpp lines 412-422. *)
Definition c2 : n := n_of_Z n 2.
(** As above; e.g. /repo/viennamath/manipulation/detail/binary_operations.hpp lines 118-148. *)
Definition cm1 : n := n_of_Z n (-1).

(** op_unary::apply, /repo/viennamath/runtime/unary_operators.hpp line 99, with the tag
    functions of /repo/viennamath/compiletime/unary_op_tags.hpp (id 42, exp 57, sin 72,
    cos 87, tan 103, fabs 118, sqrt 133, log 149, log10 164, gradient 181-184,
    divergence 201-205, partial derivative 231-234) and
    /repo/viennamath/runtime/integral.hpp lines 172-176. *)
Definition u_apply (op : uop) (x : n) : outcome n :=
  match op with
  | UId => Ok x
  | UExp => Ok (n_exp n x)
  | USin => Ok (n_sin n x)
  | UCos => Ok (n_cos n x)
  | UTan => Ok (n_tan n x)
  | UFabs => Ok (n_fabs n x)
  | USqrt => Ok (n_sqrt n x)
  | ULog => Ok (n_log n x)
  | ULog10 => Ok (n_log10 n x)
  | UGrad | UDiv | UPd _ => Throw ThrowText
  | USymInt _ => Throw SymbolicIntegralEvaluationNotPossible
  end.

(** op_binary::apply, /repo/viennamath/runtime/binary_operators.hpp line 98 with
    binary_op_tags.hpp lines 36-101; for op_unary the default of
    /repo/viennamath/runtime/op_interface.hpp lines 55-56. *)
Definition b_apply (op : bop) (x y : n) : outcome n :=
  match op with
  | BPlus => Ok (n_add n x y)
  | BMinus => Ok (n_sub n x y)
  | BMult => Ok (n_mul n x y)
  | BDiv => Ok (n_div n x y)
  | BUnaryId => Throw RhsProvidedForUnaryOperation
  end.

(** Virtual eval(std::vector<double>): runtime/constant.hpp 70, runtime/variable.hpp 154-160
    and 136-143, runtime/function_symbol.hpp 74, runtime/unary_expr.hpp 200-203,
    runtime/integral.hpp 81-85, runtime/binary_expr.hpp 298-301,
    runtime/vector_expr.hpp 117-120. *)
Fixpoint eval (e : expr n) (v : list n) : outcome n :=
  match e with
  | EConst c => Ok c
  | EVar id =>
      if N.leb (N.of_nat (length v)) id
      then Throw (VariableIndexOutOfBounds id (N.of_nat (length v)))
      else match nth_error v (N.to_nat id) with
           | Some x => Ok x
           | None => UB
           end
  | EFun _ _ => Throw ExpressionNotEvaluable
  | EUn op a => bind (eval a v) (u_apply op)
  | EInt _ _ _ a => bind (eval a v) (fun _ => Throw AnalyticIntegrationNotSupported)
  | EBin op l r => both (eval l v) (eval r v) (b_apply op)
  | EVec _ => Throw ExpressionNotEvaluable
  end.

(** Virtual eval(numeric_type): runtime/constant.hpp 72, runtime/variable.hpp 163-169,
    runtime/function_symbol.hpp 76, runtime/unary_expr.hpp 206-209,
    runtime/binary_expr.hpp 303-306, runtime/vector_expr.hpp 124-127. *)
Fixpoint eval_scalar (e : expr n) (t : n) : outcome n :=
  match e with
  | EConst c => Ok c
  | EVar id =>
      if N.ltb 0 id then Throw (VariableIndexOutOfBounds id 1) else Ok t
  | EFun _ _ => Throw ExpressionNotEvaluable
  | EUn op a => bind (eval_scalar a t) (u_apply op)
  | EInt _ _ _ a => bind (eval_scalar a t) (fun _ => Throw AnalyticIntegrationNotSupported)
  | EBin op l r => both (eval_scalar l t) (eval_scalar r t) (b_apply op)
  | EVec _ => Throw ExpressionNotEvaluable
  end.

(** Virtual unwrap(): runtime/constant.hpp 86, runtime/variable.hpp 180-183,
    runtime/function_symbol.hpp 94, runtime/unary_expr.hpp 264-269,
    runtime/binary_expr.hpp 358-363, runtime/vector_expr.hpp 131-134. *)
Fixpoint unwrap (e : expr n) : outcome n :=
  match e with
  | EConst c => Ok c
  | EVar _ => Throw ExpressionNotUnwrappable
  | EFun _ _ => Throw ExpressionNotUnwrappable
  | EUn op a => bind (unwrap a) (u_apply op)
  | EInt _ _ _ a => bind (unwrap a) (fun _ => Throw AnalyticIntegrationNotSupported)
  | EBin op l r => both (unwrap l) (unwrap r) (b_apply op)
  | EVec _ => Throw ExpressionNotUnwrappable
  end.

(** Virtual is_constant(): default false (runtime/expression_interface.hpp 63),
    runtime/constant.hpp 75, runtime/binary_expr.hpp 366. *)
Fixpoint is_constant (e : expr n) : bool :=
  match e with
  | EConst _ => true
  | EBin _ l r => is_constant l && is_constant r
  | _ => false
  end.

(** Generic operators + - * / on run-time operands: forwards.h 717-760 dispatching to
    runtime/operations/rt_rt.hpp 73-114, which clone both operands into a binary node. *)
Definition mk_bin (op : bop) (a b : expr n) : expr n := EBin op a b.

(** The accumulation loop of the dot product, runtime/vector_expr.hpp lines 271-275. *)
Fixpoint dot_acc (acc : expr n) (a b : list (expr n)) : outcome (expr n) :=
  match a, b with
  | [], [] => Ok acc
  | x :: a', y :: b' => dot_acc (mk_bin BPlus acc (mk_bin BMult x y)) a' b'
  | _, _ => UB
  end.

(** Dot product operator*(rt_vector_expr, rt_vector_expr), runtime/vector_expr.hpp 267-277;
    the assert of line 269 is [UB] when violated. *)
Definition dot (a b : list (expr n)) : outcome (expr n) :=
  if Nat.eqb (length a) (length b) then
    match a, b with
    | x :: a', y :: b' => dot_acc (mk_bin BMult x y) a' b'
    | _, _ => UB
    end
  else UB.

(** Two arguments of a new rt_binary_expr(...), order unspecified. E.g.
    manipulation/detail/binary_operations.hpp lines 73-75. *)
Definition mk2 (op : bop) (l r : outcome (expr n)) : outcome (expr n) :=
  both l r (fun a b => Ok (EBin op a b)).

(** Virtual simplify(): clone for leaves and vectors (runtime/expression_interface.hpp
    90, default), runtime/unary_expr.hpp 214-228, runtime/binary_expr.hpp 312-319 with
    simplify_impl of manipulation/detail/binary_operations.hpp: plus 50-76, minus 118-148,
    mult 197-233, div 304-330; for the malformed node op_unary::simplify,
    runtime/binary_expr.hpp 464-471. *)
Fixpoint simplify (e : expr n) : outcome (expr n) :=
  match e with
  | EConst _ | EVar _ | EFun _ _ | EVec _ => Ok e
  | EUn op a =>
      if is_constant a then
        if u_can_simplify op
        then bind (unwrap a) (fun x => omap EConst (u_apply op x))
        else omap (fun x => EUn op (EConst x)) (unwrap a)
      else omap (EUn op) (simplify a)
  | EInt lo hi var a =>
      if is_constant a
      then omap (fun x => EInt lo hi var (EConst x)) (unwrap a)
      else omap (EInt lo hi var) (simplify a)
  | EBin op l r =>
      if is_constant l && is_constant r then omap EConst (both (unwrap l) (unwrap r) (b_apply op))
      else
      match op with
      | BPlus =>
          if is_constant l then
            bind (unwrap l) (fun x =>
              if n_eq n x c0 then simplify r
              else omap (EBin BPlus (EConst x)) (simplify r))
          else if is_constant r then
            bind (unwrap r) (fun x =>
              if n_eq n x c0 then simplify l
              else omap (fun l' => EBin BPlus l' (EConst x)) (simplify l))
          else mk2 BPlus (simplify l) (simplify r)
      | BMinus =>
          if is_constant l then
            bind (unwrap l) (fun x =>
              if n_eq n x c0 then omap (EBin BMult (EConst cm1)) (simplify r)
              else omap (EBin BMinus (EConst x)) (simplify r))
          else if is_constant r then
            bind (unwrap r) (fun x =>
              if n_eq n x c0 then simplify l
              else omap (fun l' => EBin BMinus l' (EConst x)) (simplify l))
          else mk2 BMinus (simplify l) (simplify r)
      | BMult =>
          if is_constant l then
            bind (unwrap l) (fun x =>
              if n_eq n x c0 then Ok (EConst c0)
              else if n_eq n x c1 then simplify r
              else omap (EBin BMult (EConst x)) (simplify r))
          else if is_constant r then
            bind (unwrap r) (fun x =>
              if n_eq n x c0 then Ok (EConst c0)
              else if n_eq n x c1 then simplify l
              else omap (fun l' => EBin BMult l' (EConst x)) (simplify l))
          else
            match l, r with
            | EVec a, EVec b => dot a b
            | _, _ => mk2 BMult (simplify l) (simplify r)
            end
      | BDiv =>
          if is_constant l then
            bind (unwrap l) (fun x =>
              if n_eq n x c0 then Ok (EConst c0)
              else omap (EBin BDiv (EConst x)) (simplify r))
          else if is_constant r then
            bind (unwrap r) (fun x =>
              if n_eq n x c1 then simplify l
              else omap (fun l' => EBin BDiv l' (EConst x)) (simplify l))
          else mk2 BDiv (simplify l) (simplify r)
      | BUnaryId => Ok (EBin BUnaryId l r)
      end
  end.

(** [is_constant(x) && unwrap(x) == c], the tests of can_simplify_impl,
    manipulation/detail/binary_operations.hpp e.g. lines 82-89. *)
Definition const_eq (e : expr n) (c : n) : outcome bool :=
  if is_constant e then omap (fun x => n_eq n x c) (unwrap e) else Ok false.

(** C++ [a || b] on outcomes: the right operand is evaluated only if the left is false. E.g.
    manipulation/detail/binary_operations.hpp lines 80-99. *)
Definition oor (a : outcome bool) (b : outcome bool) : outcome bool :=
  bind a (fun x => if x then Ok true else b).

(** Virtual can_simplify(): default false (runtime/expression_interface.hpp 92),
    runtime/unary_expr.hpp 231-239, runtime/binary_expr.hpp 322-330 with can_simplify_impl of
    manipulation/detail/binary_operations.hpp: plus 80-99, minus 152-173, mult 237-275,
    div 334-353; for the malformed node the default of runtime/op_interface.hpp 82-83. *)
Fixpoint can_simplify (e : expr n) : outcome bool :=
  match e with
  | EConst _ | EVar _ | EFun _ _ | EVec _ => Ok false
  | EUn _ a => can_simplify a
  | EInt _ _ _ a => can_simplify a
  | EBin op l r =>
      if is_constant l && is_constant r then Ok true
      else
        let rest := oor (can_simplify l) (can_simplify r) in
        match op with
        | BPlus | BMinus => oor (const_eq l c0) (oor (const_eq r c0) rest)
        | BMult =>
            oor (const_eq l c0) (oor (const_eq l c1)
              (oor (const_eq r c0) (oor (const_eq r c1)
                 match l, r with
                 | EVec _, EVec _ => Ok true
                 | _, _ => rest
                 end)))
        | BDiv => oor (const_eq l c0) (oor (const_eq r c1) rest)
        | BUnaryId => Ok false
        end
  end.

(** Fuel for the loop below; not part of the code.  Every iteration of the loop makes this
    number smaller (theorem C03). Loop: manipulation/simplify.hpp lines 904-909. *)
Fixpoint weight (e : expr n) : nat :=
  match e with
  | EConst _ => 1
  | EVar _ | EFun _ _ => 2
  | EUn _ a => 2 + weight a
  | EInt _ _ _ a => 2 + weight a
  | EBin op l r =>
      match op with BMinus => 4 | _ => 2 end + weight l + weight r
  | EVec es => 1 + list_sum (map (fun a => weight a + 4) es)
  end.

(** inplace_simplify, manipulation/simplify.hpp 904-909:
    [while (e.get()->can_simplify()) e = e.get()->simplify();].
    Fuelled: [None] means the fuel did not suffice (excluded for enough fuel by a theorem). *)
Fixpoint inplace_simplify (fuel : nat) (e : expr n) : option (outcome (expr n)) :=
  match fuel with
  | O => None
  | S k =>
      match can_simplify e with
      | Ok true =>
          match simplify e with
          | Ok e' => inplace_simplify k e'
          | Throw x => Some (Throw x)
          | UB => Some UB
          end
      | Ok false => Some (Ok e)
      | Throw x => Some (Throw x)
      | UB => Some UB
      end
  end.

(** viennamath::simplify(rt_expr), manipulation/simplify.hpp 936-969: copy, then
    inplace_simplify.  The fuel suffices by theorem C03, so the [None] branch is dead. *)
Definition simplify_top (e : expr n) : outcome (expr n) :=
  match inplace_simplify (S (weight e)) e with
  | Some o => o
  | None => UB
  end.

(** Virtual deep_equal(): runtime/constant.hpp 113-120, runtime/variable.hpp 212-219,
    runtime/function_symbol.hpp 120-127, runtime/unary_expr.hpp 295-305,
    runtime/binary_expr.hpp 395-406, runtime/vector_expr.hpp 137-151 (loop over the size
    of [other]; an index beyond the size of [this] is [UB]).  The first argument is [this].
    The interval and variable of an integral are not compared
    (runtime/unary_operators.hpp lines 66-67 and 121-128). *)
Fixpoint deep_equal (e o : expr n) {struct e} : outcome bool :=
  match e with
  | EConst c =>
      match o with
      | EConst d => Ok (n_le n d c && n_ge n d c)
      | _ => Ok false
      end
  | EVar i =>
      match o with
      | EVar j => Ok (N.eqb j i)
      | _ => Ok false
      end
  | EFun i t =>
      match o with
      | EFun j s => Ok (N.eqb j i && N.eqb s t)
      | _ => Ok false
      end
  | EUn op a =>
      match o with
      | EUn op' b => bind (deep_equal a b) (fun q => Ok (q && u_equal op op'))
      | EInt _ _ _ b => bind (deep_equal a b) (fun _ => Ok false)
      | _ => Ok false
      end
  | EInt _ _ _ a =>
      match o with
      | EInt _ _ _ b => deep_equal a b
      | EUn _ b => bind (deep_equal a b) (fun _ => Ok false)
      | _ => Ok false
      end
  | EBin op l r =>
      match o with
      | EBin op' l' r' =>
          bind (deep_equal l l') (fun q =>
            if q && b_equal op op' then deep_equal r r' else Ok false)
      | _ => Ok false
      end
  | EVec es =>
      match o with
      | EVec os =>
          (fix loop (this other : list (expr n)) {struct this} : outcome bool :=
             match other with
             | [] => Ok true
             | y :: other' =>
                 match this with
                 | [] => UB
                 | x :: this' =>
                     bind (deep_equal x y) (fun q => if q then loop this' other' else Ok false)
                 end
             end) es os
      | _ => Ok false
      end
  end.

(** Evaluating a list of computations that all have to succeed (loops over the entries of
    a vector, e.g. runtime/vector_expr.hpp lines 169-170). *)
Fixpoint oseq {A : Type} (l : list (outcome A)) : outcome (list A) :=
  match l with
  | [] => Ok []
  | x :: l' => bind x (fun a => omap (cons a) (oseq l'))
  end.

(** Virtual substitute(e, repl): runtime/constant.hpp 89-97, runtime/variable.hpp 187-196,
    runtime/function_symbol.hpp 97-104, runtime/unary_expr.hpp 272-280,
    runtime/binary_expr.hpp 369-378, runtime/vector_expr.hpp 161-173. *)
Fixpoint subst1 (s repl e : expr n) {struct e} : outcome (expr n) :=
  bind (deep_equal e s) (fun q =>
    if q then Ok repl
    else
      match e with
      | EConst _ | EVar _ | EFun _ _ => Ok e
      | EUn op a => omap (EUn op) (subst1 s repl a)
      | EInt lo hi var a => omap (EInt lo hi var) (subst1 s repl a)
      | EBin op l r => mk2 op (subst1 s repl l) (subst1 s repl r)
      | EVec es => omap EVec (oseq (map (subst1 s repl) es))
      end).

(** The matching loop [for i: if (deep_equal(e[i])) return repl[i]->clone();] shared by all
    vector substitutions, e.g. runtime/binary_expr.hpp 384-386.
    [Ok None]: no match; a match at an index beyond the end of [repl] is [UB]. *)
Fixpoint find_match (e : expr n) (ss rs : list (expr n)) : outcome (option (expr n)) :=
  match ss with
  | [] => Ok None
  | s :: ss' =>
      bind (deep_equal e s) (fun q =>
        if q then match rs with r :: _ => Ok (Some r) | [] => UB end
        else find_match e ss' (tl rs))
  end.

(** Virtual substitute(vector e, vector repl): runtime/constant.hpp 100-110,
    runtime/variable.hpp 199-209, runtime/function_symbol.hpp 107-117,
    runtime/unary_expr.hpp 283-292, runtime/binary_expr.hpp 381-391,
    runtime/vector_expr.hpp 176-189. *)
Fixpoint substv (ss rs : list (expr n)) (e : expr n) {struct e} : outcome (expr n) :=
  bind (find_match e ss rs) (fun m =>
    match m with
    | Some r => Ok r
    | None =>
      match e with
      | EConst _ | EVar _ | EFun _ _ => Ok e
      | EUn op a => omap (EUn op) (substv ss rs a)
      | EInt lo hi var a => omap (EInt lo hi var) (substv ss rs a)
      | EBin op l r => mk2 op (substv ss rs l) (substv ss rs r)
      | EVec es => omap EVec (oseq (map (substv ss rs) es))
      end
    end).

(** Virtual diff(diff_var): runtime/constant.hpp 129-132, runtime/variable.hpp 228-239,
    runtime/function_symbol.hpp 136-152, runtime/unary_expr.hpp 314-317 with diff_impl of
    manipulation/detail/unary_operations.hpp (id 41-44, exp 52-57, sin 117-122, cos 190-198,
    tan 264-275, fabs 341-345, sqrt 412-422, log 488-494, log10 565-574, grad 642-664,
    div 686-690, partial derivative 745-749, integrals 756-769),
    runtime/binary_expr.hpp 415-418 with diff_impl of
    manipulation/detail/binary_operations.hpp (plus 41-46, minus 109-114, mult 183-193,
    div 285-300; malformed: runtime/op_interface.hpp 68-70),
    runtime/vector_expr.hpp 213-221. *)
Fixpoint diff (x : dvar) (e : expr n) {struct e} : outcome (expr n) :=
  match e with
  | EConst _ => Ok (EConst c0)
  | EVar i =>
      match x with
      | DVar j => if N.eqb j i then Ok (EConst c1) else Ok (EConst c0)
      | DFun _ _ => Ok (EConst c0)
      end
  | EFun i t =>
      match x with
      | DVar _ => Throw ExpressionNotDifferentiable
      | DFun j s => if N.eqb j i && N.eqb s t then Ok (EConst c1) else Ok (EConst c0)
      end
  | EUn op a =>
      match op with
      | UId => diff x a
      | UExp => omap (fun d => EBin BMult (EUn UExp a) d) (diff x a)
      | USin => omap (fun d => EBin BMult (EUn UCos a) d) (diff x a)
      | UCos => omap (fun d => EBin BMult (EUn USin a) (EBin BMult (EConst cm1) d)) (diff x a)
      | UTan => omap (fun d => EBin BDiv d (EBin BMult (EUn UCos a) (EUn UCos a))) (diff x a)
      | UFabs => Throw ExpressionNotDifferentiable
      | USqrt => omap (fun d => EBin BDiv d (EBin BMult (EConst c2) (EUn USqrt a))) (diff x a)
      | ULog => omap (fun d => EBin BDiv d (EUn UId a)) (diff x a)
      | ULog10 =>
          omap (fun d => EBin BDiv d (EBin BMult (EConst (n_ln10 n)) (EUn UId a))) (diff x a)
      | UGrad =>
          match x with
          | DFun _ _ =>
              bind (diff x a) (fun d =>
                bind (deep_equal d (EConst c0)) (fun q =>
                  if q then Ok (EConst c0) else omap (EUn UGrad) (diff x a)))
          | DVar _ => Throw ExpressionNotDifferentiable
          end
      | UDiv | UPd _ | USymInt _ => Throw ExpressionNotDifferentiable
      end
  | EInt _ _ _ _ => Throw ExpressionNotDifferentiable
  | EBin op l r =>
      match op with
      | BPlus => mk2 BPlus (diff x l) (diff x r)
      | BMinus => mk2 BMinus (diff x l) (diff x r)
      | BMult =>
          both (diff x l) (diff x r) (fun dl dr =>
            Ok (EBin BPlus (EBin BMult dl r) (EBin BMult l dr)))
      | BDiv =>
          both (diff x l) (diff x r) (fun dl dr =>
            Ok (EBin BDiv (EBin BMinus (EBin BMult dl r) (EBin BMult l dr)) (EBin BMult r r)))
      | BUnaryId => Throw RhsProvidedForUnaryOperation
      end
  | EVec es => omap EVec (oseq (map (diff x) es))
  end.

(** viennamath::diff(e, x), manipulation/diff.hpp 39-114 and 148-186:
    e.diff(&x) followed by inplace_simplify. *)
Definition diff_top (x : dvar) (e : expr n) : outcome (expr n) :=
  bind (diff x e) simplify_top.

(** viennamath::substitute(u, repl, e), manipulation/substitute.hpp 164-262:
    e.substitute(u, repl) followed by inplace_simplify. *)
Definition subst1_top (s repl e : expr n) : outcome (expr n) :=
  bind (subst1 s repl e) simplify_top.

(** viennamath::substitute(vector u, vector repl, e), manipulation/substitute.hpp 268-286
    (the assert on equal lengths is [UB] when violated). *)
Definition substv_top (ss rs : list (expr n)) (e : expr n) : outcome (expr n) :=
  if Nat.eqb (length ss) (length rs) then bind (substv ss rs e) simplify_top else UB.

(** Virtual recursive_traversal(fw), as the list of nodes [fw] is called on, in order:
    runtime/expression_interface.hpp 77 (leaf default: fw(this)), runtime/unary_expr.hpp
    330-334, runtime/binary_expr.hpp 432-442.  [step] is fw.step_into
    (runtime/functor_wrapper.hpp 79-89). *)
Fixpoint traverse (step : expr n -> bool) (e : expr n) : list (expr n) :=
  match e with
  | EConst _ | EVar _ | EFun _ _ | EVec _ => [e]
  | EUn _ a => e :: traverse step a
  | EInt _ _ _ a => e :: traverse step a
  | EBin _ l r =>
      if step e then traverse step l ++ e :: traverse step r else [e]
  end.

(** Virtual recursive_manipulation(fw): runtime/expression_interface.hpp 75 (leaf default: fw(this)),
    runtime/unary_expr.hpp 320-327, runtime/binary_expr.hpp 421-429. [md] is fw.modifies,
    [fw] the functor's operator() (runtime/functor_wrapper.hpp 37-47). *)
Fixpoint manipulate (md : expr n -> bool) (fw : expr n -> expr n) (e : expr n) : expr n :=
  match e with
  | EConst _ | EVar _ | EFun _ _ | EVec _ => fw e
  | EUn op a => if md e then fw e else EUn op (manipulate md fw a)
  | EInt lo hi var a => if md e then fw e else EInt lo hi var (manipulate md fw a)
  | EBin op l r =>
      if md e then fw e else EBin op (manipulate md fw l) (manipulate md fw r)
  end.

(** detail::integral_substitution_functor::modifies, manipulation/substitute.hpp 321-337. *)
Definition is_symbolic_integral (e : expr n) : bool :=
  match e with
  | EUn (USymInt _) _ => true
  | _ => false
  end.

(** detail::integral_substitution_functor::operator(), manipulation/substitute.hpp 303-318. *)
Definition to_concrete_integral (lo hi : expr n) (var : N) (e : expr n) : expr n :=
  match e with
  | EUn (USymInt _) a => EInt lo hi var a
  | _ => e
  end.

(** viennamath::substitute(symbolic_interval, (interval, variable), e),
    manipulation/substitute.hpp 350-362.  The parameter [search] is the id of the symbolic
    interval; like in the code (its name is commented out in line 351) it is not used. *)
Definition subst_interval (search : N) (lo hi : expr n) (var : N) (e : expr n) : expr n :=
  manipulate is_symbolic_integral (to_concrete_integral lo hi var) e.

End Model.
