(** The recursive functions of RtModel again, counting the calls they make: every entry into the
    virtual functions eval, unwrap, is_constant, can_simplify, simplify, deep_equal, diff and
    substitute of a node counts one.  Calls of clone(), of constructors and destructors and
    of the operations (op_->apply etc.) are not counted. *)
From Coq Require Import ZArith NArith List Bool.
From Verif Require Import Outcome Num RtModel.
Import ListNotations.

(** What a computation gives, and how many calls it makes.  Not code of its own: C++ control flow, as in
    Outcome.v (e.g. /repo/viennamath/runtime/binary_expr.hpp lines 312-330). *)
Definition counted (A : Type) : Type := (outcome A * nat)%type.

(** No calls. E.g. /repo/viennamath/runtime/constant.hpp line 75. *)
Definition free {A : Type} (o : outcome A) : counted A := (o, 0).
(** Entering a virtual function. E.g. /repo/viennamath/runtime/binary_expr.hpp line 298. *)
Definition call {A : Type} (w : counted A) : counted A := (fst w, S (snd w)).
(** One after the other; the second not at all if the first throws. E.g.
    /repo/viennamath/runtime/unary_expr.hpp line 202. *)
Definition cthen {A B : Type} (w : counted A) (f : A -> counted B) : counted B :=
  match fst w with
  | Ok a => (fst (f a), snd w + snd (f a))
  | Throw x => (Throw x, snd w)
  | UB => (UB, snd w)
  end.
(** Two arguments, in any order: if one throws, the calls of the other are counted although they may
    not be made. E.g. /repo/viennamath/runtime/binary_expr.hpp line 300. *)
Definition cboth {A B C : Type} (a : counted A) (b : counted B) (f : A -> B -> outcome C) : counted C :=
  (both (fst a) (fst b) f, snd a + snd b).
(** E.g. /repo/viennamath/runtime/unary_expr.hpp line 227. *)
Definition cmap {A B : Type} (f : A -> B) (w : counted A) : counted B := (omap f (fst w), snd w).
(** [if (c) return a; return b;]. E.g. /repo/viennamath/runtime/binary_expr.hpp lines 314-318. *)
Definition cif {A : Type} (c : counted bool) (a b : counted A) : counted A :=
  cthen c (fun q => if q then a else b).
(** [a && b] and [a || b]. E.g. /repo/viennamath/runtime/binary_expr.hpp line 366,
    manipulation/detail/binary_operations.hpp line 98. *)
Definition cand (a b : counted bool) : counted bool := cif a b (free (Ok false)).
(** See [cand]; /repo/viennamath/manipulation/detail/binary_operations.hpp line 98. *)
Definition cor (a b : counted bool) : counted bool := cif a (free (Ok true)) b.

Section Work.
Context (n : num).

(** eval(); the lines cited at [RtModel.eval]: /repo/viennamath/runtime/constant.hpp 70,
    variable.hpp 136-160, function_symbol.hpp 74, unary_expr.hpp 200-203, binary_expr.hpp 298-301,
    vector_expr.hpp 117-120. *)
Fixpoint w_eval (e : expr n) (v : list n) : counted n :=
  call match e with
       | EConst _ | EVar _ | EFun _ _ | EVec _ => free (eval n e v)
       | EUn op a => cthen (w_eval a v) (fun x => free (u_apply n op x))
       | EInt _ _ _ a => cthen (w_eval a v) (fun _ => free (Throw AnalyticIntegrationNotSupported))
       | EBin op l r => cboth (w_eval l v) (w_eval r v) (b_apply n op)
       end.

(** unwrap(): /repo/viennamath/runtime/constant.hpp 86, variable.hpp 180-183, function_symbol.hpp 94,
    unary_expr.hpp 264-269, binary_expr.hpp 358-363, vector_expr.hpp 131-134. *)
Fixpoint w_unwrap (e : expr n) : counted n :=
  call match e with
       | EConst _ | EVar _ | EFun _ _ | EVec _ => free (unwrap n e)
       | EUn op a => cthen (w_unwrap a) (fun x => free (u_apply n op x))
       | EInt _ _ _ a => cthen (w_unwrap a) (fun _ => free (Throw AnalyticIntegrationNotSupported))
       | EBin op l r => cboth (w_unwrap l) (w_unwrap r) (b_apply n op)
       end.

(** is_constant(): /repo/viennamath/runtime/expression_interface.hpp 63, constant.hpp 75,
    binary_expr.hpp 366. *)
Fixpoint w_is_constant (e : expr n) : counted bool :=
  call match e with
       | EConst _ => free (Ok true)
       | EBin _ l r => cand (w_is_constant l) (w_is_constant r)
       | _ => free (Ok false)
       end.

(** simplify(): /repo/viennamath/runtime/expression_interface.hpp 90, unary_expr.hpp 214-228,
    binary_expr.hpp 312-319 (which calls its own unwrap(), line 315) with simplify_impl of
    manipulation/detail/binary_operations.hpp, plus 50-76, minus 118-148, mult 197-233, div 304-330;
    malformed: binary_expr.hpp 464-471. *)
Fixpoint w_simplify (e : expr n) : counted (expr n) :=
  call match e with
  | EConst _ | EVar _ | EFun _ _ | EVec _ => free (Ok e)
  | EUn op a =>
      cif (w_is_constant a)
        (if u_can_simplify op
         then cthen (w_unwrap a) (fun x => free (omap EConst (u_apply n op x)))
         else cmap (fun x => EUn op (EConst x)) (w_unwrap a))
        (cmap (EUn op) (w_simplify a))
  | EInt lo hi var a =>
      cif (w_is_constant a)
        (cmap (fun x => EInt lo hi var (EConst x)) (w_unwrap a))
        (cmap (EInt lo hi var) (w_simplify a))
  | EBin op l r =>
      cif (cand (w_is_constant l) (w_is_constant r))
        (cmap EConst (call (cboth (w_unwrap l) (w_unwrap r) (b_apply n op))))
        match op with
        | BPlus =>
            cif (w_is_constant l)
              (cthen (w_unwrap l) (fun x =>
                 if n_eq n x (c0 n) then w_simplify r
                 else cmap (EBin BPlus (EConst x)) (w_simplify r)))
              (cif (w_is_constant r)
                 (cthen (w_unwrap r) (fun x =>
                    if n_eq n x (c0 n) then w_simplify l
                    else cmap (fun l' => EBin BPlus l' (EConst x)) (w_simplify l)))
                 (cboth (w_simplify l) (w_simplify r) (fun a b => Ok (EBin BPlus a b))))
        | BMinus =>
            cif (w_is_constant l)
              (cthen (w_unwrap l) (fun x =>
                 if n_eq n x (c0 n) then cmap (EBin BMult (EConst (cm1 n))) (w_simplify r)
                 else cmap (EBin BMinus (EConst x)) (w_simplify r)))
              (cif (w_is_constant r)
                 (cthen (w_unwrap r) (fun x =>
                    if n_eq n x (c0 n) then w_simplify l
                    else cmap (fun l' => EBin BMinus l' (EConst x)) (w_simplify l)))
                 (cboth (w_simplify l) (w_simplify r) (fun a b => Ok (EBin BMinus a b))))
        | BMult =>
            cif (w_is_constant l)
              (cthen (w_unwrap l) (fun x =>
                 if n_eq n x (c0 n) then free (Ok (EConst (c0 n)))
                 else if n_eq n x (c1 n) then w_simplify r
                 else cmap (EBin BMult (EConst x)) (w_simplify r)))
              (cif (w_is_constant r)
                 (cthen (w_unwrap r) (fun x =>
                    if n_eq n x (c0 n) then free (Ok (EConst (c0 n)))
                    else if n_eq n x (c1 n) then w_simplify l
                    else cmap (fun l' => EBin BMult l' (EConst x)) (w_simplify l)))
                 match l, r with
                 | EVec a, EVec b => free (dot n a b)
                 | _, _ => cboth (w_simplify l) (w_simplify r) (fun a b => Ok (EBin BMult a b))
                 end)
        | BDiv =>
            cif (w_is_constant l)
              (cthen (w_unwrap l) (fun x =>
                 if n_eq n x (c0 n) then free (Ok (EConst (c0 n)))
                 else cmap (EBin BDiv (EConst x)) (w_simplify r)))
              (cif (w_is_constant r)
                 (cthen (w_unwrap r) (fun x =>
                    if n_eq n x (c1 n) then w_simplify l
                    else cmap (fun l' => EBin BDiv l' (EConst x)) (w_simplify l)))
                 (cboth (w_simplify l) (w_simplify r) (fun a b => Ok (EBin BDiv a b))))
        | BUnaryId => free (Ok (EBin BUnaryId l r))
        end
  end.

(** [if (e->is_constant()) { if (e->unwrap() == c) return true; }] and the version with two numbers of
    mult and then [rest]: /repo/viennamath/manipulation/detail/binary_operations.hpp e.g. lines 82-89,
    239-252. *)
Definition w_tests (e : expr n) (cs : list n) (rest : counted bool) : counted bool :=
  cif (w_is_constant e)
    (cthen (w_unwrap e) (fun x => if existsb (n_eq n x) cs then free (Ok true) else rest))
    rest.

(** can_simplify(): /repo/viennamath/runtime/expression_interface.hpp 92, unary_expr.hpp 231-239,
    binary_expr.hpp 322-330 with can_simplify_impl of manipulation/detail/binary_operations.hpp, plus
    80-99, minus 152-173, mult 237-275, div 334-353; malformed: runtime/op_interface.hpp 82-83. *)
Fixpoint w_can_simplify (e : expr n) : counted bool :=
  call match e with
  | EConst _ | EVar _ | EFun _ _ | EVec _ => free (Ok false)
  | EUn _ a | EInt _ _ _ a => w_can_simplify a
  | EBin op l r =>
      cif (cand (w_is_constant l) (w_is_constant r)) (free (Ok true))
        (let rest := cor (w_can_simplify l) (w_can_simplify r) in
         match op with
         | BPlus | BMinus => w_tests l [c0 n] (w_tests r [c0 n] rest)
         | BMult =>
             w_tests l [c0 n; c1 n] (w_tests r [c0 n; c1 n]
               match l, r with
               | EVec _, EVec _ => free (Ok true)
               | _, _ => rest
               end)
         | BDiv => w_tests l [c0 n] (w_tests r [c1 n] rest)
         | BUnaryId => free (Ok false)
         end)
  end.

(** inplace_simplify(), /repo/viennamath/manipulation/simplify.hpp lines 904-909; fuel as in RtModel. *)
Fixpoint w_inplace (fuel : nat) (e : expr n) : option (counted (expr n)) :=
  match fuel with
  | O => None
  | S k =>
      let c := w_can_simplify e in
      match fst c with
      | Ok true =>
          let s := w_simplify e in
          match fst s with
          | Ok e' =>
              match w_inplace k e' with
              | Some r => Some (fst r, snd c + snd s + snd r)
              | None => None
              end
          | Throw x => Some (Throw x, snd c + snd s)
          | UB => Some (UB, snd c + snd s)
          end
      | Ok false => Some (Ok e, snd c)
      | Throw x => Some (Throw x, snd c)
      | UB => Some (UB, snd c)
      end
  end.

(** viennamath::simplify(rt_expr), /repo/viennamath/manipulation/simplify.hpp lines 936-969. *)
Definition w_simplify_top (e : expr n) : counted (expr n) :=
  match w_inplace (S (weight n e)) e with
  | Some r => r
  | None => free UB
  end.

(** deep_equal(): /repo/viennamath/runtime/constant.hpp 113-120, variable.hpp 212-219,
    function_symbol.hpp 120-127, unary_expr.hpp 295-305, binary_expr.hpp 395-406, vector_expr.hpp
    137-151. *)
Fixpoint w_deep_equal (e o : expr n) {struct e} : counted bool :=
  call match e with
  | EConst _ | EVar _ | EFun _ _ => free (deep_equal n e o)
  | EUn op a =>
      match o with
      | EUn op' b => cthen (w_deep_equal a b) (fun q => free (Ok (q && u_equal op op')))
      | EInt _ _ _ b => cthen (w_deep_equal a b) (fun _ => free (Ok false))
      | _ => free (Ok false)
      end
  | EInt _ _ _ a =>
      match o with
      | EInt _ _ _ b => w_deep_equal a b
      | EUn _ b => cthen (w_deep_equal a b) (fun _ => free (Ok false))
      | _ => free (Ok false)
      end
  | EBin op l r =>
      match o with
      | EBin op' l' r' =>
          cthen (w_deep_equal l l') (fun q =>
            if q && b_equal op op' then w_deep_equal r r' else free (Ok false))
      | _ => free (Ok false)
      end
  | EVec es =>
      match o with
      | EVec os =>
          (fix loop (this other : list (expr n)) {struct this} : counted bool :=
             match other with
             | [] => free (Ok true)
             | y :: other' =>
                 match this with
                 | [] => free UB
                 | x :: this' =>
                     cthen (w_deep_equal x y) (fun q => if q then loop this' other' else free (Ok false))
                 end
             end) es os
      | _ => free (Ok false)
      end
  end.

(** A loop over the entries of a vector, e.g. /repo/viennamath/runtime/vector_expr.hpp lines 169-170. *)
Fixpoint w_seq {A : Type} (l : list (counted A)) : counted (list A) :=
  match l with
  | [] => free (Ok [])
  | x :: l' => cthen x (fun a => cmap (cons a) (w_seq l'))
  end.

(** substitute(e, repl): /repo/viennamath/runtime/constant.hpp 89-97, variable.hpp 187-196,
    function_symbol.hpp 97-104, unary_expr.hpp 272-280, binary_expr.hpp 369-378, vector_expr.hpp
    161-173. *)
Fixpoint w_subst1 (s repl e : expr n) {struct e} : counted (expr n) :=
  call (cthen (w_deep_equal e s) (fun q =>
    if q then free (Ok repl)
    else
      match e with
      | EConst _ | EVar _ | EFun _ _ => free (Ok e)
      | EUn op a => cmap (EUn op) (w_subst1 s repl a)
      | EInt lo hi var a => cmap (EInt lo hi var) (w_subst1 s repl a)
      | EBin op l r => cboth (w_subst1 s repl l) (w_subst1 s repl r) (fun a b => Ok (EBin op a b))
      | EVec es => cmap EVec (w_seq (map (w_subst1 s repl) es))
      end)).

(** [for i: if (deep_equal(e[i])) return repl[i]->clone();], e.g. /repo/viennamath/runtime/binary_expr.hpp
    lines 384-386. *)
Fixpoint w_find_match (e : expr n) (ss rs : list (expr n)) : counted (option (expr n)) :=
  match ss with
  | [] => free (Ok None)
  | s :: ss' =>
      cthen (w_deep_equal e s) (fun q =>
        if q then free match rs with r :: _ => Ok (Some r) | [] => UB end
        else w_find_match e ss' (tl rs))
  end.

(** substitute(vector e, vector repl): /repo/viennamath/runtime/constant.hpp 100-110, variable.hpp
    199-209, function_symbol.hpp 107-117, unary_expr.hpp 283-292, binary_expr.hpp 381-391,
    vector_expr.hpp 176-189. *)
Fixpoint w_substv (ss rs : list (expr n)) (e : expr n) {struct e} : counted (expr n) :=
  call (cthen (w_find_match e ss rs) (fun m =>
    match m with
    | Some r => free (Ok r)
    | None =>
      match e with
      | EConst _ | EVar _ | EFun _ _ => free (Ok e)
      | EUn op a => cmap (EUn op) (w_substv ss rs a)
      | EInt lo hi var a => cmap (EInt lo hi var) (w_substv ss rs a)
      | EBin op l r => cboth (w_substv ss rs l) (w_substv ss rs r) (fun a b => Ok (EBin op a b))
      | EVec es => cmap EVec (w_seq (map (w_substv ss rs) es))
      end
    end)).

(** diff(): the lines cited at [RtModel.diff]; /repo/viennamath/manipulation/detail/unary_operations.hpp
    (id 41-44, exp 52-57, sin 117-122, cos 190-198, tan 264-275, fabs 341-345, sqrt 412-422, log
    488-494, log10 565-574, grad 642-664, which differentiates its operand twice, lines 649 and
    659), binary_operations.hpp (plus 41-46, minus 109-114, mult 183-193, div 285-300),
    runtime/vector_expr.hpp 213-221.  What is made of the derivatives is taken from [RtModel.diff]. *)
Fixpoint w_diff (x : dvar) (e : expr n) {struct e} : counted (expr n) :=
  call match e with
  | EConst _ | EVar _ | EFun _ _ | EInt _ _ _ _ => free (diff n x e)
  | EUn op a =>
      match op with
      | UId | UExp | USin | UCos | UTan | USqrt | ULog | ULog10 =>
          (diff n x e, snd (w_diff x a))
      | UGrad =>
          match x with
          | DFun _ _ =>
              cthen (w_diff x a) (fun d =>
                cif (w_deep_equal d (EConst (c0 n)))
                  (free (Ok (EConst (c0 n))))
                  (cmap (EUn UGrad) (w_diff x a)))
          | DVar _ => free (Throw ExpressionNotDifferentiable)
          end
      | UFabs | UDiv | UPd _ | USymInt _ => free (diff n x e)
      end
  | EBin op l r =>
      match op with
      | BPlus | BMinus | BMult | BDiv => (diff n x e, snd (w_diff x l) + snd (w_diff x r))
      | BUnaryId => free (diff n x e)
      end
  | EVec es => cmap EVec (w_seq (map (w_diff x) es))
  end.

(** viennamath::diff(rt_expr, ...): diff() and then simplify,
    /repo/viennamath/manipulation/diff.hpp lines 39-114, 148-186. *)
Definition w_diff_top (x : dvar) (e : expr n) : counted (expr n) := cthen (w_diff x e) w_simplify_top.
End Work.
