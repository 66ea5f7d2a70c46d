(** The test programs, tutorials and the manual of the library replayed in the model.  These are tests of the model, not of the
    theorems: what the programs call compiles in the model, and where they state an expected value
    the model gives it. *)
From Coq Require Import ZArith QArith NArith List Bool String.
From Verif Require Import Outcome Num NumZ RtModel CtModel CtOpsModel CtManipModel ApiModel OverModel CallModel CtStrModel QuadModel VecModel LatexModel.
Import ListNotations.
Local Open Scope Z_scope.

(** Objects of the test programs, [None] if an expression does not compile.  Integers stand for doubles
    (/repo/tests/src/compiletime_test.cpp lines 82-87, runtime_test.cpp lines 127-136); the
    rt_constant<long> c6 is one of double (see C70). *)
Definition obj_t : Type := option (obj numZ).
(** The operators, functions and conversions of /repo/tests/src/runtime_test.cpp lines 31-42 and
    113-120, diff_test.cpp lines 94-108; on two doubles the built-in operators. *)
Definition t_op (op : cop) (a b : obj_t) : obj_t :=
  match a, b with
  | Some (ONum u), Some (ONum v) =>
      Some (@ONum numZ match op with CPlus => u + v | CMinus => u - v | CMult => u * v | CDiv => Z.quot u v end)
  | Some u, Some v => operator numZ op u v
  | _, _ => None
  end.
Definition t_fun (f : func) (a : obj_t) : obj_t := match a with Some u => apply numZ f u | None => None end.
Definition t_grad (a : obj_t) : obj_t := match a with Some u => grad numZ u | None => None end.
Definition t_expr (a : obj_t) : obj_t := match a with Some u => to_expr numZ u | None => None end.
Definition t_assign (a : obj_t) : obj_t := match a with Some u => assign_expr numZ u | None => None end.
(** The variables and constants of /repo/tests/src/compiletime_test.cpp lines 82-87 and runtime_test.cpp
    lines 127-132. *)
Definition t_num (z : Z) : obj_t := Some (@ONum numZ z).
Definition ctx : obj_t := Some (@OCt numZ (MVar 0)).
Definition cty : obj_t := Some (@OCt numZ (MVar 1)).
Definition ctz : obj_t := Some (@OCt numZ (MVar 2)).
Definition rtx : obj_t := Some (@ORt numZ (EVar 0)).
Definition rty : obj_t := Some (@ORt numZ (EVar 1)).
Definition rt4 : obj_t := Some (@OCt numZ (MRt 4)).
Definition rt6 : obj_t := Some (@OCt numZ (MRt 6)).
Definition ct8 : obj_t := Some (@OCt numZ (MConst 8)).
Definition four : list cop := [CPlus; CMinus; CMult; CDiv].

(** The points (4, 6, 8): a std::vector and make_vector of three constants, /repo/tests/src/runtime_test.cpp
    lines 55-62 and 72. *)
Definition p_std : outcome (point numZ) := Ok (@PStd numZ [4; 6; 8]).
Definition p_vec3 : outcome (point numZ) :=
  make_vector3 numZ (fun a => nth_error [4; 6; 8] (N.to_nat a)) 0 1 2.

(** eval(e, p) and e(p) at one of the points, /repo/tests/src/runtime_test.cpp lines 65-76. *)
Definition t_eval (free : bool) (p : outcome (point numZ)) (o : obj_t) : option Z :=
  match o, p with
  | Some (ONum u), _ => Some u
  | Some u, Ok q =>
      match (if free then eval_obj numZ (fun a => nth_error [4; 6; 8] (N.to_nat a)) u q
             else call_obj numZ (fun a => nth_error [4; 6; 8] (N.to_nat a)) u q) with
      | Some (Ok v) => Some v
      | _ => None
      end
  | _, _ => None
  end.
Definition same (a b : option Z) : bool := match a, b with Some u, Some v => Z.eqb u v | _, _ => false end.

(** evaluations_test() and operations_test(), /repo/tests/src/compiletime_test.cpp lines 30-76 (and, with
    the assignment to an rt_expr, runtime_test.cpp lines 31-77): all four values are the reference value. *)
Definition evaluations_test (e : obj_t) (r : option Z) : bool :=
  same (t_eval true p_std e) r && same (t_eval false p_std e) r &&
  same (t_eval true p_vec3 e) r && same (t_eval false p_vec3 e) r.
Definition operations_test (assign : bool) (t u : obj_t) : bool :=
  let a := if assign then t_assign else fun o => o in
  match t_eval true p_vec3 t, t_eval true p_vec3 u with
  | Some t2, Some u2 =>
      forallb (fun op =>
        evaluations_test (a (t_op op t u)) (t_eval true p_vec3 (t_op op (t_num t2) (t_num u2))) &&
        evaluations_test (a (t_op op u t)) (t_eval true p_vec3 (t_op op (t_num u2) (t_num t2)))) four
  | _, _ => false
  end.

(** /repo/tests/src/compiletime_test.cpp lines 103-172: every pair, and more. *)
Example compiletime_test :
  let ts := [ctx; t_op CPlus ctx cty; rt4; t_op CPlus rt4 cty; rt6; t_op CPlus rt6 cty; ct8] in
  let us := ts ++ [t_op CPlus ct8 cty; t_op CMinus rt4 cty; t_op CPlus cty rt4; t_op CMinus cty rt4;
                   t_op CMinus rt6 cty] in
  forallb (fun q => operations_test false (fst q) (snd q)) (list_prod ts us) = true.
Proof. vm_compute. reflexivity. Qed.

(** /repo/tests/src/runtime_test.cpp lines 134-186; 3 instead of 2.7172. *)
Example runtime_test_operators :
  let e1 := t_expr (t_op CPlus rtx rty) in
  let e2 := t_expr (t_op CPlus rt4 ct8) in
  let us := [e2; rtx; rt4; rt6; ct8; t_num 3] in
  forallb (fun q => operations_test true (fst q) (snd q)) (list_prod (e1 :: rty :: us) us) = true /\
  t_expr (t_op CPlus e1 e2) <> None.
Proof. split; [vm_compute; reflexivity|vm_compute; discriminate]. Qed.

(** /repo/tests/src/runtime_test.cpp lines 80-121 and 201-205. *)
Example runtime_test_functions :
  forallb (fun q =>
    match t_eval true p_std (snd q) with
    | Some v => evaluations_test (t_fun (fst q) (snd q)) (t_eval true p_std (t_fun (fst q) (Some (@OCt numZ (MRt v)))))
    | None => false
    end)
    (list_prod [FExp; FSin; FCos; FTan; FFabs; FSqrt; FLog; FLog10]
       [rtx; t_op CPlus rtx rt4; t_op CMult rty rt6; t_op CDiv rty rtx; t_op CPlus rt6 ct8]) = true.
Proof. vm_compute. reflexivity. Qed.

(** /repo/tests/src/runtime_test.cpp lines 209-217. *)
Example runtime_test_substitute :
  let sub (o : obj_t) := match o with Some e => subst_obj numZ (ORt (EVar 0)) (OCt (MRt (6 : numZ))) e | None => None end in
  sub (t_expr (t_op CMinus (t_op CMinus rtx rt4) rty)) =
    Some (Ok (OExpr (EBin BMinus (EConst (2 : numZ)) (EVar 1)))) /\
  sub (t_expr (t_op CMinus (t_op CMinus (t_fun FExp rtx) rt4) rty)) =
    Some (Ok (OExpr (EBin BMinus (EBin BMinus (EUn UExp (EConst (6 : numZ))) (EConst 4)) (EVar 1)))).
Proof. split; vm_compute; reflexivity. Qed.

(** /repo/tests/src/equation_test.cpp lines 44-64: all equations but the one commented out (line 60)
    compile and can be streamed. *)
Example equation_test :
  let eq (q : obj_t * obj_t) :=
    match q with
    | (Some a, Some b) =>
        match make_equation numZ a b with Some s => stream_equation_of (zdec : numZ -> string) s | None => None end
    | _ => None
    end in
  let l := t_op CPlus (t_op CMult ctx ctx) cty in
  let x4 := t_expr (t_op CMult (t_op CMult ctx ctx) (t_op CMult ctx ctx)) in
  let s := t_op CPlus x4 (t_op CMult cty cty) in
  forallb (fun q => match eq q with Some _ => true | None => false end)
    [(l, t_op CPlus ctx cty); (l, ctx); (l, ct8); (ctx, t_op CPlus ctx cty); (ctx, cty); (ctx, ct8);
     (ct8, t_op CPlus ctx cty); (ct8, ctx); (ct8, ct8);
     (ctx, t_num 3); (t_fun FExp ctx, t_num 3); (rt4, t_num 3); (l, t_num 3); (s, t_num 5); (s, l)] = true /\
  eq (t_num 5, t_num 3) = None.
Proof. split; vm_compute; reflexivity. Qed.

(** The output of diff(o, v), /repo/tests/src/diff_test.cpp lines 43-108. *)
Definition diff_text (o : obj_t) (v : by_what) : option string :=
  match o with
  | Some u =>
      match diff_obj numZ u v with
      | Some (Ok d) => stream_obj (zdec : numZ -> string) d
      | _ => None
      end
  | None => None
  end.

(** /repo/tests/src/diff_test.cpp lines 43-67. *)
Example diff_test_operators :
  let e1 := t_op CPlus ctx cty in
  let e2 := t_op CPlus (t_op CMult ctx cty) ct8 in
  let e3 := t_op CMinus (t_op CDiv ctx cty) ct8 in
  forallb (fun q => match diff_text (fst q) (ByCt (snd q)) with Some _ => true | None => false end)
    (list_prod [e1; e2; e3] [0; 1; 2]%N) = true /\
  map (fun q => diff_text (t_expr (fst q)) (ByCt (snd q))) (list_prod [e1; e2; e3] [0; 1; 2]%N) =
  [Some "expr(constant(1))"; Some "expr(constant(1))"; Some "expr(constant(0))";
   Some "expr(variable(1))"; Some "expr(variable(0))"; Some "expr(constant(0))";
   Some "expr(variable(1)/(variable(1)*variable(1)))";
   Some "expr((constant(-1)*variable(0))/(variable(1)*variable(1)))"; Some "expr(constant(0))"]%string.
Proof. split; vm_compute; reflexivity. Qed.

(** /repo/tests/src/diff_test.cpp lines 70-89. *)
Example diff_test_functions :
  let e1 := t_expr (t_op CPlus ctx cty) in
  forallb (fun q => match diff_text (t_fun (fst q) (snd q)) (ByCt 0) with Some _ => true | None => false end)
    (list_prod [FExp; FSin; FCos; FTan; FSqrt; FLog; FLog10] [ctx; e1]) = true /\
  diff_text (t_fun FTan ctx) (ByCt 0) = Some "expr(constant(1)/(cos(variable(0))*cos(variable(0))))"%string.
Proof. split; vm_compute; reflexivity. Qed.

(** /repo/tests/src/diff_test.cpp lines 94-108. *)
Example diff_test_gateaux :
  let f : obj_t := Some (@ORt numZ (EFun 0 0)) in
  let g : obj_t := Some (@ORt numZ (EFun 1 0)) in
  map (fun q => diff_text (fst q) (ByFun (snd q) 0))
    [(f, 0%N); (g, 0%N); (t_op CPlus f g, 1%N); (t_op CMinus f g, 1%N); (t_op CMult f g, 0%N);
     (t_op CMult (t_op CMult (t_num 4) f) g, 0%N); (t_grad f, 0%N); (t_grad g, 0%N);
     (t_op CMult g (t_grad f), 0%N)] =
  [Some "expr(constant(1))"; Some "expr(constant(0))"; Some "expr(constant(1))"; Some "expr(constant(-1))";
   Some "expr(function_symbol<unknown(1)>)"; Some "expr(constant(4)*function_symbol<unknown(1)>)";
   Some "expr(grad(constant(1)))"; Some "expr(constant(0))";
   Some "expr(function_symbol<unknown(1)>*grad(constant(1)))"]%string.
Proof. vm_compute. reflexivity. Qed.

(** The rational number a compile-time result is (conversion to double in
    /repo/tests/src/compiletime_evaluation.cpp lines 92-94). *)
Definition rational_of (e : option cexpr) : option Q :=
  match e with
  | Some (CConst p) => Some (inject_Z p)
  | Some (CBin CDiv (CConst p) (CConst (Zpos q))) => Some (Qmake p q)
  | Some (CBin CDiv (CConst p) (CConst (Zneg q))) => Some (Qmake (- p) q)
  | _ => None
  end.

(** evaluation_compiletime and operations_test(), /repo/tests/src/compiletime_evaluation.cpp lines 31-121. *)
Definition ct_value (o : obj_t) : option Q :=
  match o with
  | Some (OCt m) =>
      match ct_type numZ m with
      | Some e => rational_of (ct_eval int e [CConst 4; CConst 6; CConst 8])
      | None => None
      end
  | _ => None
  end.
Definition ct_operations_test (t u : obj_t) : bool :=
  match ct_value t, ct_value u with
  | Some a, Some b =>
      forallb (fun op =>
        let f := match op with CPlus => Qplus | CMinus => Qminus | CMult => Qmult | CDiv => Qdiv end in
        match ct_value (t_op op t u), ct_value (t_op op u t) with
        | Some v, Some w => Qeq_bool v (f a b) && Qeq_bool w (f b a)
        | _, _ => false
        end) four
  | _, _ => false
  end.

(** /repo/tests/src/compiletime_evaluation.cpp lines 54-70 and 143-160. *)
Example compiletime_evaluation :
  let c5 : obj_t := Some (@OCt numZ (MConst 5)) in
  let c7 : obj_t := Some (@OCt numZ (MConst 7)) in
  let us := [ctx; c5; c7; t_op CPlus ctx cty; t_op CMult ctz cty; t_op CDiv c5 ctx; t_op CMinus c7 ctz] in
  let big d := t_op CMinus (t_op CDiv (t_op CPlus ctx c5) c7) (t_op CPlus (t_op CDiv cty d) (t_op CMult ctx c5)) in
  let ts := us ++ [big ctz; big (t_op CPlus ctz c7)] in
  forallb (fun q => ct_operations_test (fst q) (snd q)) (list_prod ts us) = true /\
  ct_value (big ctz) = Some (Qmake (-545) 28).
Proof. split; vm_compute; reflexivity. Qed.

(** /repo/tests/src/compiletime_manipulation.cpp lines 51-81: values at (1, 2, 5). *)
Example compiletime_manipulation_values :
  let x := CVar 0 in let y := CVar 1 in let z := CVar 2 in let c := CConst in
  let v := [c 1; c 2; c 5] in
  let e := CBin CMult (CBin CMult (CBin CMinus (CBin CMinus (c 1) x) y) x) y in
  let big :=
    CBin CDiv (CBin CMult (CBin CDiv (CBin CMult (CBin CMult
      (CBin CMinus (CBin CMinus (c 1) x) (CBin CDiv y x)) x) y) (CBin CMinus (c 2) (CBin CDiv y (CBin CPlus x y))))
      (CBin CPlus x y)) (CBin CPlus z x) in
  ct_eval int e v = Some (c (-4)) /\
  ct_eval int (ct_subst x z e) v = Some (c (-60)) /\
  cbind (ct_diff 0 e) (fun d => ct_eval int d v) = Some (c (-6)) /\
  cbind (ct_diff 0 big) (fun d => ct_eval int (CBin CMinus d (CBin CDiv (c 1) (CBin CPlus (c 2) (c 2)))) v) = Some (c (-1)).
Proof. cbv zeta. repeat split; vm_compute; reflexivity. Qed.

(** /repo/tests/src/compiletime_manipulation.cpp lines 83-103: (1-x)(1-y)(1-z). *)
Example compiletime_manipulation_expand :
  let x := CVar 0 in let y := CVar 1 in let z := CVar 2 in let c := CConst in
  let e := CBin CMult (CBin CMult (CBin CMinus (c 1) x) (CBin CMinus (c 1) y)) (CBin CMinus (c 1) z) in
  ct_eval int e [c 1; c 2; c 5] = Some (c 0) /\
  cbind (ct_expand e) (fun e' => ct_eval int e' [c 1; c 2; c 5]) = Some (c 0) /\
  forallb (fun i => match coefficient i e with Some _ => true | None => false end) [x; y; z] = true /\
  drop_dependent_terms int x e =
    Some (CBin CMinus (CBin CMinus (c 1) z) (CBin CMinus y (CBin CMult z y))) /\
  drop_dependent_terms int y e =
    Some (CBin CMinus (CBin CMinus (c 1) z) (CBin CMinus x (CBin CMult z x))) /\
  drop_dependent_terms int z e =
    Some (CBin CMinus (CBin CMinus (c 1) y) (CBin CMinus x (CBin CMult y x))).
Proof. cbv zeta. repeat split; vm_compute; reflexivity. Qed.

(** /repo/tests/src/compiletime_manipulation.cpp lines 106-178: integrals over [0,1] and over the unit
    triangle (1/2; 1/6 for 1, x, y, 1-x-y; 1/12 for their squares; 1/24 for their products). *)
Example compiletime_manipulation_integrate :
  let x := CVar 0 in let y := CVar 1 in let c := CConst in
  let over := ct_integrate int (c 0) (c 1) in
  let triangle f := cbind (ct_integrate int (c 0) (CBin CMinus (c 1) x) y f) (over x) in
  let w := CBin CMinus (CBin CMinus (c 1) x) y in
  let q := CBin CMult (CBin CMult (CBin CMult (CBin CMinus (c 1) x) (CBin CMinus (c 1) y)) x) y in
  over x (CBin CMult x y) = Some (CBin CDiv y (c 2)) /\
  over y (CBin CMult x y) = Some (CBin CDiv x (c 2)) /\
  over x q <> None /\ over y q <> None /\
  map (fun f => rational_of (triangle f))
    [c 1; x; y; w; CBin CMult x x; CBin CMult y y; CBin CMult w w; CBin CMult x y; CBin CMult x w; CBin CMult y w] =
  map (fun d => Some (Qmake 1 d)) [2; 6; 6; 6; 12; 12; 12; 24; 24; 24]%positive.
Proof. cbv zeta. repeat split; try (vm_compute; reflexivity); vm_compute; discriminate. Qed.

(** The tutorials.  /repo/examples/tutorials/basic.cpp lines 47-77: constants and variables called with
    vectors and constants, at (1, 2, 3), 4, 8 and (4, 6, 8). *)
Example tutorial_basic :
  let m : mem numZ := fun a => nth_error [4; 6; 8] (N.to_nat a) in
  let call (o : obj_t) (p : point numZ) := match o with Some u => call_obj numZ m u p | None => None end in
  let rtz : obj_t := Some (@ORt numZ (EVar 2)) in
  let p := @PStd numZ [1; 2; 3] in
  map (fun q => call (fst q) (snd q))
    [(rt4, p); (rt4, @PRt numZ 4); (rt4, @PCt numZ 8); (ct8, p); (ct8, @PRt numZ 4); (ct8, @PCt numZ 8);
     (rtx, p); (rty, p); (rtz, p); (rtx, @PRt numZ 4); (rtx, @PCt numZ 8)] =
  map (fun z => Some (Ok z)) [4; 4; 4; 8; 8; 8; 1; 2; 3; 4; 8] /\
  match p_vec3 with
  | Ok q => map (fun o => call o q) [rtx; rty; rtz] = map (fun z => Some (Ok z)) [4; 6; 8]
  | _ => False
  end /\
  (exists x, call rty (@PRt numZ 4) = Some (Throw x)).
Proof. split; [vm_compute; reflexivity|]. split; [vm_compute; reflexivity|]. vm_compute. eauto. Qed.

(** /repo/examples/tutorials/integration.cpp lines 36-97; the interval (0, 2) instead of (0, 1): the integral
    of x + 8 is 18, by both calls; the difference of two integrals is 0; the symbolic integral gets its
    interval. *)
Example tutorial_integration :
  let iv := RtSides (EConst (0 : numZ)) (EConst 2) in
  let e4 := t_expr (t_op CPlus ctx ct8) in
  let e4_int := match e4 with Some e => integral numZ iv e true 0 | None => None end in
  let quad (o : obj_t) := match o with Some (OExpr e) => Some (quadrature numZ (gauss_quad_1 numZ) e) | _ => None end in
  make_interval numZ (OInt 0) (OInt 2) = Some iv /\
  make_interval numZ (OCt (MVar 0)) (OCt (MVar 1)) <> None /\
  quad e4_int = Some (Ok 18) /\
  quadrature_over numZ (gauss_quad_1 numZ) (EConst (0 : numZ)) (EConst 2) (EBin BPlus (EVar 0) (EConst 8)) 0 = Ok 18 /\
  quad (t_expr (t_op CMinus e4_int e4_int)) = Some (Ok 0) /\
  match e4 with
  | Some e =>
      match symbolic_integral numZ 0 e with
      | Some (OExpr s) => Some (OExpr (subst_interval numZ 0 (EConst (0 : numZ)) (EConst 2) 0 s)) = e4_int
      | _ => False
      end
  | None => False
  end.
Proof. cbv zeta. repeat split; try (vm_compute; reflexivity); vm_compute; discriminate. Qed.

(** /repo/examples/tutorials/substitute.cpp lines 32-51. *)
Example tutorial_substitute :
  let rtz : obj_t := Some (@ORt numZ (EVar 2)) in
  let one : obj_t := Some (@OInt numZ 1) in
  let sub (s r e : obj_t) :=
    match s, r, e with Some s', Some r', Some e' => subst_obj numZ s' r' e' | _, _, _ => None end in
  let e1 := t_expr (t_op CMinus (t_op CPlus rtx rty) rtz) in
  let e2 := t_expr (t_op CMinus (t_op CPlus one rtx) rtz) in
  sub rtx (t_op CMinus one rty) e1 =
    Some (Ok (OExpr (EBin BMinus (EBin BPlus (EBin BMinus (EConst (1 : numZ)) (EVar 1)) (EVar 1)) (EVar 2)))) /\
  sub rty (t_op CMinus one rtx) e1 =
    Some (Ok (OExpr (EBin BMinus (EBin BPlus (EVar 0) (EBin BMinus (EConst (1 : numZ)) (EVar 0))) (EVar 2)))) /\
  sub rtx rtz e2 = Some (Ok (OExpr (EBin BMinus (EBin BPlus (EConst (1 : numZ)) (EVar 2)) (EVar 2)))) /\
  sub rtz rtx e2 = Some (Ok (OExpr (EBin BMinus (EBin BPlus (EConst (1 : numZ)) (EVar 0)) (EVar 0)))) /\
  map (fun o => match o with Some u => assign_expr numZ u | None => None end) [rtx; one] =
    [Some (@OExpr numZ (EVar 0)); Some (@OExpr numZ (EConst 1))] /\
  substv_top numZ [EVar 0; EVar 1; EVar 2] [EConst (1 : numZ); EConst 2; EConst 3]
    (EBin BMult (EBin BMult (EVar 0) (EVar 1)) (EVar 2)) = Ok (EConst 6).
Proof. cbv zeta. repeat split; vm_compute; reflexivity. Qed.

(** /repo/examples/tutorials/vector_expr.cpp lines 45-99. *)
Example tutorial_vector_expr :
  let x : vsrc numZ := VScalar (SRtVar 0) in let z : vsrc numZ := VScalar (SRtVar 2) in
  let c4 : vsrc numZ := VScalar (@SRtConst numZ 4) in let c6 : vsrc numZ := VScalar (@SRtConst numZ 6) in
  let c8 : vsrc numZ := VScalar (SCtConst 8) in
  let v0 := VSet (VNew 3) 0 x in
  let vec := VSet v0 1 c6 in
  let vec2 := VSet (VSet v0 1 c8) 2 c6 in
  let u := @EFun numZ 0 0 in let v := @EFun numZ 0 1 in
  map (vbuild numZ) [vec; vec2] =
    [Some (Ok (@ORt numZ (EVec [EVar 0; EConst 6; EConst 0]))); Some (Ok (@ORt numZ (EVec [EVar 0; EConst 8; EConst 6])))] /\
  forallb (fun s => match vbuild numZ s with Some (Ok (ORt (EVec [_; _; _]))) => true | _ => false end)
    [VOp CPlus vec vec2; VOp CMinus vec vec2; VOp CMult z vec2; VOp CMult vec2 z; VOp CMult c4 vec2;
     VOp CMult vec2 c4; VOp CMult c6 vec2; VOp CMult vec2 c6; VOp CMult c8 vec2; VOp CMult vec2 c8;
     VOp CDiv c6 vec2; VOp CDiv vec2 c6] = true /\
  (exists e, vbuild numZ (VOp CMult vec vec2) = Some (Ok (OExpr e)) /\ eval numZ e [5] = Ok (5 * 5 + 6 * 8)) /\
  (exists e, subst_obj numZ (ORt u) (@OExpr numZ (EVec [EVar 0; EConst 6; EConst 0])) (OExpr (EBin BMult u v)) = Some (Ok (OExpr e)) /\
     exists e', subst_obj numZ (ORt v) (@OExpr numZ (EVec [EVar 0; EConst 6; EConst 0])) (OExpr e) = Some (Ok (OExpr e')) /\
     eval numZ e' [5] = Ok (5 * 5 + 6 * 6)).
Proof.
  cbv zeta. split; [vm_compute; reflexivity|]. split; [vm_compute; reflexivity|]. split.
  - eexists. split; [vm_compute; reflexivity|]. vm_compute. reflexivity.
  - eexists. split; [vm_compute; reflexivity|]. eexists. split; vm_compute; reflexivity.
Qed.

(** /repo/examples/tutorials/latex_output.cpp lines 37-68: both expressions, the equation of the two and the
    integrals compile. *)
Example tutorial_latex_output :
  let rtz : obj_t := Some (@ORt numZ (EVar 2)) in
  let u := @ORt numZ (EFun 0 0) in let v := @ORt numZ (EFun 0 1) in
  let dux : obj_t := match diff_obj numZ u (ByVar 0) with Some (Ok d) => Some d | _ => None end in
  let e1 := t_expr (t_op CMinus (t_op CPlus (t_op CPlus rtx dux) (t_fun FTan rty)) (t_fun FExp rtz)) in
  let e2 := t_expr (t_op CPlus (t_op CPlus
    (t_fun FLog (t_op CPlus (t_fun FSin (t_op CPlus (t_fun FSqrt (t_op CDiv rtx rt4)) (t_fun FLog10 rtz))) (t_fun FCos rty)))
    (t_fun FFabs (t_op CDiv rtx rty))) (t_op CMult (grad numZ u) (grad numZ v))) in
  match e1, e2 with
  | Some a, Some b =>
      make_equation numZ a b <> None /\
      integral numZ (RtSides (EConst (0 : numZ)) (EConst 1)) a false 0 <> None /\
      symbolic_integral numZ 0 a <> None
  | _, _ => False
  end.
Proof. vm_compute. repeat split; discriminate. Qed.

(** The manual, /repo/doc/manual/*.tex, and where the library does otherwise.  substitute() of three objects as in
    /repo/doc/manual/manipulation.tex lines 52-61. *)
Definition t_sub (s r e : obj_t) : option (outcome (obj numZ)) :=
  match s, r, e with Some s', Some r', Some e' => subst_obj numZ s' r' e' | _, _, _ => None end.
(** The text of an object as streamed in /repo/doc/manual/basic-types.tex lines 163-171 and 186-190. *)
Definition t_text (o : obj_t) : option string :=
  match o with Some u => stream_obj (zdec : numZ -> string) u | None => None end.

(** /repo/doc/manual/basic-types.tex lines 83-96: x * (y + pi) at (1, 2), 3 for pi; lines 163-171 and 186-190.  The manual has
    7 printed for c2 + c5 and for 2 + c5. *)
Example manual_basic_types :
  let c z : obj_t := Some (@OCt numZ (MConst z)) in
  let e := t_expr (t_op CMult rtx (t_op CPlus rty (Some (@OCt numZ (MRt 3))))) in
  let m : mem numZ := fun a => nth_error [1; 2] (N.to_nat a) in
  match e with Some u => call_obj numZ m u (make_vector2 numZ 0 1) = Some (Ok 5) | None => False end /\
  t_text (t_op CPlus (c 2) (c 5)) = Some "ct_constant<7>"%string /\
  t_text (t_op CPlus (Some (@OInt numZ 2)) (c 5)) = Some "expr(constant(2)+constant(5))"%string /\
  t_text (t_op CMult ctx cty) = Some "[ct_variable<0>*ct_variable<1>]"%string.
Proof. cbv zeta. repeat split; vm_compute; reflexivity. Qed.

(** /repo/doc/manual/manipulation.tex lines 17-44: x * x at 2, x * x + y at 2 and at (2, 3). *)
Example manual_evaluation :
  let m : mem numZ := fun a => nth_error [2; 3] (N.to_nat a) in
  let ev (o : obj_t) p := match o with Some u => eval_obj numZ m u p | None => None end in
  let xx := t_op CMult ctx ctx in
  let f := t_op CPlus xx cty in
  let c2 := CConst 2 in let c3 := CConst 3 in
  let g := CBin CPlus (CBin CMult (CVar 0) (CVar 0)) (CVar 1) in
  ev xx (@PRt numZ 2) = Some (Ok 4) /\
  ct_eval int (CBin CMult (CVar 0) (CVar 0)) [c2] = Some (CConst 4) /\
  (exists x, ev (t_expr f) (@PRt numZ 2) = Some (Throw x)) /\
  ct_eval int g [c2] = None /\
  ev f (make_vector2 numZ 0 1) = Some (Ok 7) /\
  ct_eval int g [c2; c3] = Some (CConst 7).
Proof.
  cbv zeta. repeat split; try (vm_compute; reflexivity). vm_compute. eauto.
Qed.

(** /repo/doc/manual/manipulation.tex lines 52-61.  With run-time variables; 1.0 instead of the 1 of the manual, and no
    compile-time variables: those calls do not compile. *)
Example manual_substitution :
  let f := t_expr (t_op CMult (t_op CPlus rtx rty) (t_op CMinus rtx rty)) in
  let v op a b : expr numZ := EBin op a b in
  let x := EVar 0 in let y := EVar 1 in
  t_sub rtx rty f = Some (Ok (OExpr (v BMult (v BPlus y y) (v BMinus y y)))) /\
  t_sub rtx (t_num 1) f = Some (Ok (OExpr (v BMult (v BPlus (EConst (1 : numZ)) y) (v BMinus (EConst (1 : numZ)) y)))) /\
  t_sub (t_op CPlus rtx rty) (t_op CMinus rtx rty) f = Some (Ok (OExpr (v BMult (v BMinus x y) (v BMinus x y)))) /\
  t_sub rtx (Some (@OInt numZ 1)) f = None /\
  t_sub ctx cty f = None.
Proof. cbv zeta. repeat split; vm_compute; reflexivity. Qed.

(** /repo/doc/manual/manipulation.tex lines 64-88 and 90-101: 2(x + y) expanded; x + 1 y - 0 and 5 x simplified; the derivatives. *)
Example manual_expansion_simplification_differentiation :
  let x : expr numZ := EVar 0 in let y : expr numZ := EVar 1 in
  let tree (o : obj_t) := match o with Some u => to_tree numZ u | None => None end in
  let simp (o : obj_t) := match tree o with Some e => Some (simplify_top numZ e) | None => None end in
  ct_expand (CBin CMult (CConst 2) (CBin CPlus (CVar 0) (CVar 1))) =
    Some (CBin CPlus (CBin CMult (CVar 0) (CConst 2)) (CBin CMult (CVar 1) (CConst 2))) /\
  simp (t_op CMinus (t_op CPlus rtx (t_op CMult (t_num 1) rty)) (t_num 0)) = Some (Ok (EBin BPlus x y)) /\
  simp (t_op CPlus (t_op CMult rtx (t_op CPlus (t_num 2) (t_num 3)))
          (t_op CDiv (t_op CMult rty (Some (@OInt numZ 0))) (t_op CMult rtx (Some (@OInt numZ 1))))) =
    Some (Ok (EBin BMult x (EConst (5 : numZ)))) /\
  diff_text (t_op CPlus rtx rty) (ByVar 0) = Some "expr(constant(1))"%string /\
  diff_text (t_op CMult (t_op CMinus (t_num 2) rtx) (t_op CPlus (t_num 3) rty)) (ByVar 1) =
    Some "expr(constant(2)-variable(0))"%string.
Proof. cbv zeta. repeat split; vm_compute; reflexivity. Qed.

(** /repo/doc/manual/manipulation.tex lines 109-134 and 150-172; the interval (0, 2) instead of (0, 1) for the quadrature, of which
    the value of the one-point rule is 2.  x * x has to be an rt_expr: the call of integral() of the manual compiles neither with
    run-time nor with compile-time variables. *)
Example manual_integration :
  let x := CVar 0 in let y := CVar 1 in let c := CConst in
  let iv := RtSides (EConst (0 : numZ)) (EConst 2) in
  let encode (f : obj_t) ct := match f with Some g => integral numZ iv g ct 0 | None => None end in
  ct_integrate int (c 0) (c 1) x (CBin CMult x x) = Some (CBin CDiv (c 1) (c 3)) /\
  cbind (ct_integrate int (c 0) (CBin CMinus (c 1) x) y (CBin CMult x x)) (ct_integrate int (c 0) (c 1) x) =
    Some (CBin CDiv (c 1) (c 12)) /\
  quadrature_over numZ (gauss_quad_1 numZ) (EConst (0 : numZ)) (EConst 2) (EBin BMult (EVar 0) (EVar 0)) 0 = Ok 2 /\
  match encode (t_expr (t_op CMult rtx rtx)) false with
  | Some (OExpr e) => quadrature numZ (gauss_quad_1 numZ) e = Ok 2
  | _ => False
  end /\
  encode (t_op CMult rtx rtx) false = None /\ encode (t_op CMult ctx ctx) true = None.
Proof. cbv zeta. repeat split; vm_compute; reflexivity. Qed.

(** /repo/doc/manual/manipulation.tex lines 176-203.  The coefficient of x in 1 + x + y + 2 x y has the value 1 + 2 y of the
    manual, but is not simplified. *)
Example manual_coefficients :
  let x := CVar 0 in let y := CVar 1 in let c := CConst in
  let p := CBin CPlus (CBin CPlus (CBin CPlus (c 1) x) y) (CBin CMult (CBin CMult (c 2) x) y) in
  coefficient x p = Some (CBin CPlus (CBin CPlus (CBin CPlus (c 0) (c 1)) (c 0)) (CBin CMult (c 2) y)) /\
  coefficient x (CBin CPlus x (CBin CMult x x)) = Some (CBin CPlus (c 1) x) /\
  drop_dependent_terms int x p = Some (CBin CPlus (c 1) y).
Proof. cbv zeta. repeat split; vm_compute; reflexivity. Qed.

(** /repo/doc/manual/additional.tex lines 18-32 (the text has more spaces than in the manual), 54-70 and 82-92 (with
    the replacements as rt_expr; those of the manual, rt_binary_expr, do not compile). *)
Example manual_additional :
  let x : expr numZ := EVar 0 in let y : expr numZ := EVar 1 in
  let f := EUn USqrt (EBin BPlus x y) in
  let pr := zdec : numZ -> string in
  let u : obj_t := Some (@ORt numZ (EFun 0 0)) in let v : obj_t := Some (@ORt numZ (EFun 1 0)) in
  let one : expr numZ := EConst (1 : numZ) in
  latex pr fresh false f = " \sqrt{ x_{0}  +  x_{1} } "%string /\
  latex pr (customize (customize fresh x "x") y "y") false f = " \sqrt{x + y} "%string /\
  match t_expr (t_op CMult rtx rtx) with
  | Some q =>
      match symbolic_integral numZ 0 q, integral numZ (RtSides (EConst (0 : numZ)) (EConst 1)) q false 0 with
      | Some (OExpr s), Some (OExpr i) => subst_interval numZ 0 (EConst (0 : numZ)) (EConst 1) 0 s = i
      | _, _ => False
      end
  | None => False
  end /\
  match t_sub v (t_expr (t_op CMinus (t_num 1) rtx)) (t_expr (t_op CMult u v)) with
  | Some (Ok g) => t_sub u (t_expr (t_op CPlus (t_num 1) rtx)) (Some g) =
      Some (Ok (OExpr (EBin BMult (EBin BPlus one x) (EBin BMinus one x))))
  | _ => False
  end /\
  t_sub v (t_op CMinus (t_num 1) rtx) (t_expr (t_op CMult u v)) = None.
Proof. cbv zeta. repeat split; vm_compute; reflexivity. Qed.
