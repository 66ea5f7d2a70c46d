(** The class of a node at run time: dynamic_cast, callback_if_castable, shallow_equal, shallow_str, and the
    functor of the traversal tutorial.  /repo/viennamath/runtime/functor_wrapper.hpp lines 111-131,
    /repo/examples/tutorials/traversal.cpp lines 28-78. *)
From Coq Require Import String ZArith NArith List Bool.
From Verif Require Import Outcome Num RtModel StrModel TypedModel.
Import ListNotations.
Local Open Scope string_scope.

(** The ScalarType of an rt_constant, /repo/viennamath/runtime/constant.hpp line 41. *)
Inductive scalar_type : Type := TOwn | TInt | TLong | TFloat.

(** The classes a node can be cast to, /repo/viennamath/forwards.h lines 191-223: rt_constant<S>, rt_variable,
    rt_function_symbol, rt_unary_expr, rt_binary_expr, rt_vector_expr. *)
Inductive node_class : Type :=
| KConstant (s : scalar_type)
| KVariable
| KFunctionSymbol
| KUnary
| KBinary
| KVector.

Section Class.
Context (n : num).
Context (pr : scalar n -> string).

(** [dynamic_cast<const rt_constant<S> *>(e) != NULL] for the constant holding [c],
    /repo/viennamath/runtime/constant.hpp lines 115 and 125. *)
Definition is_scalar (s : scalar_type) (c : scalar n) : bool :=
  match s, c with
  | TOwn, SOwn _ | TInt, SInt _ | TLong, SLong _ | TFloat, SFloat _ => true
  | _, _ => false
  end.

(** [dynamic_cast<const K *>(e) != NULL], /repo/viennamath/runtime/functor_wrapper.hpp line 122.  The nodes with
    an integral are rt_unary_exprs (runtime/integral.hpp lines 229-240). *)
Definition castable (k : node_class) (e : texpr n) : bool :=
  match k, e with
  | KConstant s, EConst c => is_scalar s c
  | KVariable, EVar _ => true
  | KFunctionSymbol, EFun _ _ => true
  | KUnary, EUn _ _ => true
  | KUnary, EInt _ _ _ _ => true
  | KBinary, EBin _ _ _ => true
  | KVector, EVec _ => true
  | _, _ => false
  end.

(** callback_if_castable<K>::apply(e, functor), /repo/viennamath/runtime/functor_wrapper.hpp lines 119-130: the
    calls of the functor's overload for K, with their arguments, and the result. *)
Definition callback_if_castable (k : node_class) (e : texpr n) : list (node_class * texpr n) * bool :=
  if castable k e then ([(k, e)], true) else ([], false).

(** [if (callback_if_castable<K1>::apply(e, f)) return; if (callback_if_castable<K2>::apply(e, f)) return; ...],
    /repo/examples/tutorials/traversal.cpp lines 37-51: the calls made, and whether the end is reached. *)
Fixpoint chain (ks : list node_class) (e : texpr n) : list (node_class * texpr n) * bool :=
  match ks with
  | [] => ([], true)
  | k :: ks' =>
      let '(calls, called) := callback_if_castable k e in
      if called then (calls, false)
      else let '(calls', ends) := chain ks' e in ((calls ++ calls')%list, ends)
  end.

(** shallow_equal(), [this] first: /repo/viennamath/runtime/constant.hpp lines 123-126, variable.hpp 222-225,
    function_symbol.hpp 130-133, unary_expr.hpp 308-311, binary_expr.hpp 409-412, vector_expr.hpp 154-157. *)
Definition shallow_equal (e o : texpr n) : bool :=
  match e with
  | EConst (SOwn _) => castable (KConstant TOwn) o
  | EConst (SInt _) => castable (KConstant TInt) o
  | EConst (SLong _) => castable (KConstant TLong) o
  | EConst (SFloat _) => castable (KConstant TFloat) o
  | EVar _ => castable KVariable o
  | EFun _ _ => castable KFunctionSymbol o
  | EUn _ _ | EInt _ _ _ _ => castable KUnary o
  | EBin _ _ _ => castable KBinary o
  | EVec _ => castable KVector o
  end.

(** shallow_str(): /repo/viennamath/runtime/expression_interface.hpp line 52 (default: deep_str()), unary_expr.hpp
    258-261, binary_expr.hpp 349-352, vector_expr.hpp 109-112. *)
Definition shallow_str (e : texpr n) : string :=
  match e with
  | EUn _ _ | EInt _ _ _ _ => "unary_expr"
  | EBin _ _ _ => "binary_expr"
  | EVec _ => "vector_expr"
  | EConst _ | EVar _ | EFun _ _ => deep_str pr e
  end.

(** recursive_traversal with a functor that always steps in, as [traverse] of RtModel.v
    (/repo/viennamath/runtime/expression_interface.hpp line 77, unary_expr.hpp 330-334, binary_expr.hpp 432-442). *)
Fixpoint ttraverse (e : texpr n) : list (texpr n) :=
  match e with
  | EConst _ | EVar _ | EFun _ _ | EVec _ => [e]
  | EUn _ a => e :: ttraverse a
  | EInt _ _ _ a => e :: ttraverse a
  | EBin _ l r => (ttraverse l ++ e :: ttraverse r)%list
  end.

(** What the overloads of the tutorial's functor print, /repo/examples/tutorials/traversal.cpp lines 57-76; it has
    none for other classes. *)
Definition overload (k : node_class) : list string :=
  match k with
  | KBinary => ["binary_expr, dispatched!"]
  | KUnary => ["unary_expr, dispatched!"]
  | KVariable => ["variable, dispatched!"]
  | KConstant TOwn => ["constant, dispatched!"]
  | _ => []
  end.

(** cout_functor::operator()(e), /repo/examples/tutorials/traversal.cpp lines 35-55: the lines printed. *)
Definition cout_functor (e : texpr n) : list string :=
  let '(calls, ends) := chain [KBinary; KVariable; KConstant TOwn; KUnary] e in
  (flat_map (fun c => overload (fst c)) calls ++
   if ends then [("non-dispatched type: " ++ shallow_str e)%string] else [])%list.

(** [e.get()->recursive_traversal(fun)], /repo/examples/tutorials/traversal.cpp lines 94-100. *)
Definition traversal_output (e : texpr n) : list string := flat_map cout_functor (ttraverse e).

End Class.
