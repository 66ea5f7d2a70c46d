(** Model of the overload sets of make_equation(), make_interval(), integral(), diff() and
    substitute(), seen from the types of their arguments (as in ApiModel).
    /repo/viennamath/runtime/{equation,interval,integral}.hpp, compiletime/{ct_equation,ct_interval}.hpp,
    manipulation/{diff,substitute}.hpp. *)
From Coq Require Import ZArith NArith List Bool.
From Verif Require Import Outcome Num RtModel CtModel CtOpsModel CtManipModel ApiModel.
Import ListNotations.

Section Over.
Context (n : Num.num).

(** An equation or interval: rt_equation (/repo/viennamath/runtime/equation.hpp lines 31-53) and
    rt_interval (runtime/interval.hpp lines 31-64) hold the two rt_exprs; ct_equation and
    ct_interval (compiletime/ct_equation.hpp lines 34-36, ct_interval.hpp lines 34-35) hold nothing
    but the two types. *)
Inductive sides : Type :=
| RtSides (l r : expr n)
| CtSides (l r : mexpr n).

(** The constructors rt_equation(lhs, rhs), /repo/viennamath/runtime/equation.hpp lines 42-43, and
    rt_interval(a, b), runtime/interval.hpp lines 43-45, with the conversions of both arguments to
    rt_expr: both clone. *)
Definition rt_sides (a b : obj n) : option sides :=
  match to_tree n a, to_tree n b with
  | Some x, Some y => Some (RtSides x y)
  | _, _ => None
  end.

(** make_equation(), /repo/viennamath/runtime/equation.hpp lines 73-200 and
    compiletime/ct_equation.hpp lines 55-370.  If the first argument is a number, the second must be
    a variable, a unary or binary expression or an rt_expr; the overload for an rt_constant (lines
    75-79) has a template parameter that cannot be deduced.  Two compile-time types give a
    ct_equation. *)
Definition make_equation (a b : obj n) : option sides :=
  match a, b with
  | OCt (MRt _), _ => rt_sides a b
  | OCt _, OCt (MRt _) => rt_sides a b
  | OCt x, OCt y => Some (CtSides x y)
  | ONum _, OCt (MVar _) | OInt _, OCt (MVar _) => rt_sides a b
  | ONum _, ORt (EVar _) | OInt _, ORt (EVar _) => rt_sides a b
  | ONum _, ORt (EUn _ _) | OInt _, ORt (EUn _ _) => rt_sides a b
  | ONum _, ORt (EInt _ _ _ _) | OInt _, ORt (EInt _ _ _ _) => rt_sides a b
  | ONum _, ORt (EBin _ _ _) | OInt _, ORt (EBin _ _ _) => rt_sides a b
  | ONum _, OExpr _ | OInt _, OExpr _ => rt_sides a b
  | ONum _, _ | OInt _, _ => None
  | ORt (EVec _), _ => None
  | _, _ => rt_sides a b
  end.

(** make_interval(), /repo/viennamath/runtime/interval.hpp lines 84-233 and
    compiletime/ct_interval.hpp lines 55-370.  Differences to [make_equation]: two numbers are
    accepted (lines 85-91), and so are constants converted to numbers if no template matches; a
    compile-time first argument needs a second argument with an interface_type (lines 193-232), so a
    number only goes with a ct_variable (lines 152-158) or, by conversion, a ct_constant; for a
    ct_variable and a run-time second argument the overloads of lines 152-158 and 227-232 are
    ambiguous. *)
Definition make_interval (a b : obj n) : option sides :=
  match a, b with
  | OCt (MRt _), _ => rt_sides a b
  | OCt (MVar _), OCt (MRt _) => None
  | OCt _, OCt (MRt _) => rt_sides a b
  | OCt x, OCt y => Some (CtSides x y)
  | OCt (MVar _), ONum _ | OCt (MVar _), OInt _ => rt_sides a b
  | OCt (MVar _), _ => None
  | OCt (MConst _), ONum _ | OCt (MConst _), OInt _ => rt_sides a b
  | OCt _, ONum _ | OCt _, OInt _ => None
  | OCt _, _ => rt_sides a b
  | ONum _, ONum _ | ONum _, OInt _ | OInt _, ONum _ | OInt _, OInt _ => rt_sides a b
  | ONum _, OCt (MRt _) | OInt _, OCt (MRt _) => rt_sides a b
  | ONum _, OCt (MConst _) | OInt _, OCt (MConst _) => rt_sides a b
  | ONum _, OCt (MVar _) | OInt _, OCt (MVar _) => rt_sides a b
  | ONum _, ORt (EVar _) | OInt _, ORt (EVar _) => rt_sides a b
  | ONum _, ORt (EUn _ _) | OInt _, ORt (EUn _ _) => rt_sides a b
  | ONum _, ORt (EInt _ _ _ _) | OInt _, ORt (EInt _ _ _ _) => rt_sides a b
  | ONum _, ORt (EBin _ _ _) | OInt _, ORt (EBin _ _ _) => rt_sides a b
  | ONum _, OExpr _ | OInt _, OExpr _ => rt_sides a b
  | ONum _, _ | OInt _, _ => None
  | ORt (EVec _), _ => None
  | _, _ => rt_sides a b
  end.

(** integral() over an rt_interval, /repo/viennamath/runtime/integral.hpp lines 103-142: for an
    rt_expr by a variable of either kind, and for an rt_binary_expr by a ct_variable.  [ct]: the
    variable is a ct_variable. *)
Definition integral (i : sides) (f : obj n) (ct : bool) (x : N) : option (obj n) :=
  match i, f with
  | RtSides lo hi, OExpr e => Some (OExpr (EInt lo hi x e))
  | RtSides lo hi, ORt (EBin op a b) =>
      if ct then Some (OExpr (EInt lo hi x (EBin op a b))) else None
  | _, _ => None
  end.

(** integral() over a symbolic interval, /repo/viennamath/runtime/integral.hpp lines 192-262: rt_expr,
    rt_binary_expr, rt_unary_expr, rt_constant, rt_variable, rt_function_symbol. *)
Definition symbolic_integral (id : N) (f : obj n) : option (obj n) :=
  match f with
  | OCt (MRt s) => Some (OExpr (EUn (USymInt id) (EConst s)))
  | ORt (EVec _) => None
  | ORt e | OExpr e => Some (OExpr (EUn (USymInt id) e))
  | _ => None
  end.

(** The compile-time expression whose type this is, if it contains no rt_constant (those have no
    type that result_of::diff, /repo/viennamath/manipulation/diff.hpp lines 236-321, or
    result_of::substitute, manipulation/substitute.hpp lines 41-135, is specialised for). *)
Fixpoint ct_type (m : mexpr n) : option cexpr :=
  match m with
  | MConst c => Some (CConst c)
  | MRt _ => None
  | MVar i => Some (CVar i)
  | MFun s => Some (CFun s)
  | MUn op a => cbind (ct_type a) (fun x => Some (CUn op x))
  | MBin op a b => cbind (ct_type a) (fun x => cbind (ct_type b) (fun y => Some (CBin op x y)))
  end.

(** What diff() differentiates by: an rt_variable, a ct_variable or an rt_function_symbol (the second
    arguments of the overloads cited at [diff_obj]). /repo/viennamath/manipulation/diff.hpp lines 39-219 and
    329-339. *)
Inductive by_what : Type := ByVar (i : N) | ByCt (i : N) | ByFun (i t : N).

(** The run-time argument these stand for (/repo/viennamath/manipulation/diff.hpp lines 86, 99, 112
    make an rt_variable of the ct_variable). *)
Definition rt_by (x : by_what) : dvar :=
  match x with ByVar i | ByCt i => DVar i | ByFun i t => DFun i t end.

(** diff(), /repo/viennamath/manipulation/diff.hpp.
    - rt_unary_expr, rt_binary_expr, rt_expr: lines 39-114, 159-186;
    - rt_function_symbol by a variable: lines 120-142, by a function symbol: lines 147-156;
    - numbers (and ct_constants, converted) and rt_constants by an rt_variable: lines 191-205;
    - compile-time expressions by a ct_variable: lines 329-339.
    The overload for an rt_variable (lines 209-219) has template parameters that cannot be deduced. *)
Definition diff_obj (o : obj n) (x : by_what) : option (outcome (obj n)) :=
  let zero : option (outcome (obj n)) := Some (Ok (OCt (MRt (n_of_Z n 0)))) in
  let top (e : expr n) := Some (omap OExpr (diff_top n (rt_by x) e)) in
  match o, x with
  | OExpr e, _ => top e
  | ORt (EUn op a), _ => top (EUn op a)
  | ORt (EInt lo hi i a), _ => top (EInt lo hi i a)
  | ORt (EBin op a b), _ => top (EBin op a b)
  | ORt (EFun i t), ByVar k | ORt (EFun i t), ByCt k => Some (Ok (OExpr (EUn (UPd k) (EFun i t))))
  | ORt (EFun i t), ByFun j s =>
      Some (Ok (OExpr (EConst (n_of_Z n (if N.eqb i j && N.eqb t s then 1 else 0)))))
  | ONum _, ByVar _ | OInt _, ByVar _ | OCt (MConst _), ByVar _ | OCt (MRt _), ByVar _ => zero
  | OCt m, ByCt i =>
      match cbind (ct_type m) (ct_diff i) with
      | Some d => Some (Ok (OCt (inj d)))
      | None => None
      end
  | _, _ => None
  end.

(** The type searched for is the expression's or that of one of its operands
    (/repo/viennamath/manipulation/substitute.hpp lines 47-135). *)
Fixpoint found (s e : cexpr) : bool :=
  cexpr_eqb s e ||
  match e with
  | CConst _ | CVar _ | CFun _ => false
  | CUn _ a => found s a
  | CBin _ a b => found s a || found s b
  end.

(** The conversion &repl to InterfaceType const * in /repo/viennamath/manipulation/substitute.hpp
    lines 170, 181, 228, 250: a replacement of a run-time class other than rt_expr. *)
Definition node (o : obj n) : option (expr n) :=
  match o with
  | ORt e => Some e
  | OCt (MRt s) => Some (EConst s)
  | _ => None
  end.

(** The implicit conversion to default_numeric_type of an argument (of
    /repo/viennamath/manipulation/substitute.hpp lines 199-208): numbers, rt_constant
    (runtime/constant.hpp line 63), ct_constant (compiletime/ct_constant.hpp line 47). *)
Definition as_number (o : obj n) : option n :=
  match o with
  | ONum x => Some x
  | OInt z => Some (n_of_Z n z)
  | OCt (MRt s) => Some s
  | OCt (MConst c) => Some (n_of_Z n c)
  | _ => None
  end.

(** substitute(search, repl, e), /repo/viennamath/manipulation/substitute.hpp.
    For a run-time [e]:
    - search rt_variable: lines 164-196 (a double must go with an rt_expr; an int, a ct_constant and
      an rt_expr as replacement select lines 175-184, which do not compile);
    - search rt_function_symbol: lines 198-219;
    - search rt_unary_expr: lines 222-242; rt_binary_expr: lines 244-253 (an rt_expr as replacement
      does not compile); rt_expr: lines 255-264.
    For a compile-time [e] and any search but an rt_variable: lines 146-153, which look at the types
    only and return a default-constructed object: a search of a run-time type is not found, a number
    as replacement becomes 0.  An rt_constant as replacement does not compile if the search is found
    (no default constructor).  Simplified: [None] as well if a number or another run-time object
    would be an operand in the result. *)
Definition subst_obj (s r e : obj n) : option (outcome (obj n)) :=
  let top (s' : expr n) (r' : option (expr n)) (e' : expr n) :=
    match r' with Some t => Some (omap OExpr (subst1_top n s' t e')) | None => None end in
  let const (o : obj n) := match as_number o with Some x => Some (EConst x) | None => None end in
  let compile_time (m : mexpr n) : option (outcome (obj n)) :=
    match ct_type m with
    | None => None
    | Some c =>
        match (match s with OCt ms => ct_type ms | _ => None end) with
        | None => Some (Ok (OCt (inj c)))
        | Some cs =>
            if negb (found cs c) then Some (Ok (OCt (inj c)))
            else
              match r with
              | OCt mr =>
                  match ct_type mr with
                  | Some cr => Some (Ok (OCt (inj (ct_subst cs cr c))))
                  | None => None
                  end
              | ONum _ => if cexpr_eqb cs c then Some (Ok (ONum (n_of_Z n 0))) else None
              | OInt _ => if cexpr_eqb cs c then Some (Ok (OInt 0)) else None
              | _ => None
              end
        end
    end in
  match s, e with
  | ORt (EVar i), OExpr t =>
      match r with
      | ONum x => top (EVar i) (Some (EConst x)) t
      | _ => top (EVar i) (node r) t
      end
  | ORt (EVar i), ORt t => top (EVar i) (node r) t
  | ORt (EVar i), OCt (MRt c) => top (EVar i) (node r) (EConst c)
  | ORt (EVar i), _ => None
  | _, OCt m => compile_time m
  | ORt (EFun i t), OExpr t' =>
      match r with
      | OExpr r' => top (EFun i t) (Some r') t'
      | _ => top (EFun i t) (const r) t'
      end
  | ORt (EUn op a), OExpr t =>
      match r with
      | OExpr r' => top (EUn op a) (Some r') t
      | _ => top (EUn op a) (node r) t
      end
  | ORt (EInt lo hi i a), OExpr t =>
      match r with
      | OExpr r' => top (EInt lo hi i a) (Some r') t
      | _ => top (EInt lo hi i a) (node r) t
      end
  | ORt (EBin op a b), OExpr t => top (EBin op a b) (node r) t
  | OExpr s', OExpr t => match r with OExpr r' => top s' (Some r') t | _ => None end
  | _, _ => None
  end.
End Over.
Arguments RtSides {n} l r.
Arguments CtSides {n} l r.
