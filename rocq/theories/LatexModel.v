(** Model of /repo/viennamath/manipulation/latex.hpp. *)
From Coq Require Import ZArith NArith List Bool String Ascii.
From Verif Require Import Outcome Num RtModel StrModel.
Import ListNotations.
Local Open Scope string_scope.

(** What a translator holds: variable_strings_ of the variable processor (latex.hpp line 497),
    function_symbol_strings_ of the function symbol processor (line 563), and the processors added
    by add_processor (lines 191-194), seen as what process() returns for a flag and an expression.
    Simplified: std::map is a list of entries, the latest first; added processors do not call back
    the translator and do not override customize() (line 83).  The objects behind this are modelled
    in TransModel.v. *)
Record translator (T : Type) : Type := mk_translator {
  t_vars : list (N * string);
  t_funs : list ((N * N) * string);
  t_users : list (bool -> expr T -> string)
}.
Arguments mk_translator {T} t_vars t_funs t_users.
Arguments t_vars {T} t.
Arguments t_funs {T} t.
Arguments t_users {T} t.

(** rt_latex_translator(), latex.hpp lines 109-116: the five default processors with empty maps. *)
Definition fresh {T : Type} : translator T := mk_translator [] [] [].

(** add_processor(), latex.hpp lines 191-194. *)
Definition add_processor {T : Type} (t : translator T) (u : bool -> expr T -> string) : translator T :=
  mk_translator (t_vars t) (t_funs t) (t_users t ++ [u])%list.

(** std::map::find in process_impl, latex.hpp lines 488-489. *)
Fixpoint find_var (l : list (N * string)) (i : N) : option string :=
  match l with
  | [] => None
  | (j, s) :: l' => if N.eqb j i then Some s else find_var l' i
  end.

(** std::map::find in process_impl, latex.hpp lines 546-548. *)
Fixpoint find_fun (l : list ((N * N) * string)) (i t : N) : option string :=
  match l with
  | [] => None
  | ((j, u), s) :: l' => if N.eqb j i && N.eqb u t then Some s else find_fun l' i t
  end.

(** customize(e, output), latex.hpp lines 174-188 with 471-480 and 528-538: only variables and
    function symbols can be customised; for other expressions a warning is printed. *)
Definition customize {T : Type} (t : translator T) (e : expr T) (output : string) : translator T :=
  match e with
  | EVar i => mk_translator ((i, output) :: t_vars t) (t_funs t) (t_users t)
  | EFun i u => mk_translator (t_vars t) (((i, u), output) :: t_funs t) (t_users t)
  | _ => t
  end.

(** rt_latex_translator(rt_latex_translator const & other), latex.hpp lines 118-126: clones the
    processors; clone() of the variable and function symbol processors (lines 458 and 515)
    creates a new object with an empty map.  Assumption: clone() of an added processor copies. *)
Definition copy_translator {T : Type} (t : translator T) : translator T := mk_translator [] [] (t_users t).

(** The loop of process_impl over the added processors, latex.hpp lines 203-210. *)
Fixpoint ask {T : Type} (us : list (bool -> expr T -> string)) (par : bool) (e : expr T) : string :=
  match us with
  | [] => ""
  | u :: us' => match u par e with EmptyString => ask us' par e | s => s end
  end.

(** The end of process_impl, latex.hpp lines 201-214: if the default processors return the empty
    string (not responsible), the added ones are asked. *)
Definition or_unknown {T : Type} (t : translator T) (par : bool) (e : expr T) (s : string) : string :=
  match s with
  | EmptyString =>
      match ask (t_users t) par e with
      | EmptyString => " \chi_{\mathrm{unknown}} "
      | s' => s'
      end
  | _ => s
  end.

Section Latex.
Context {T : Type}.
(** Output of a constant through operator<< of std::stringstream (latex.hpp line 437); not
    modelled further. *)
Context (pr : T -> string).
Context (t : translator T).

(** process_impl of the variable processor, latex.hpp lines 484-495. *)
Definition latex_var (par : bool) (i : N) : string :=
  or_unknown t par (EVar i)
    match find_var (t_vars t) i with
    | Some s => s
    | None => " x_{" ++ dec i ++ "} "
    end.

(** process_impl of the function symbol processor, latex.hpp lines 542-561. *)
Definition latex_fun (par : bool) (i u : N) : string :=
  or_unknown t par (EFun i u)
    match find_fun (t_funs t) i u with
    | Some s => s
    | None => (if N.eqb u 1 then " v_{" else " u_{") ++ dec i ++ "} "
    end.

(** process_impl of the translator (latex.hpp 198-215) with the processors for binary
    expressions (254-291), unary expressions (326-400) and constants (434-439), and operator()
    for intervals (161-167).  Vectors have no default processor. *)
Fixpoint latex (par : bool) (e : expr T) : string :=
  match e with
  | EConst c => " " ++ pr c ++ " "
  | EVar i => latex_var par i
  | EFun i u => latex_fun par i u
  | EUn op a =>
      match op with
      | UId => latex par a
      | UExp => " \exp " ++ latex true a ++ " "
      | USin => " \sin " ++ latex true a ++ " "
      | UCos => " \cos " ++ latex true a ++ " "
      | UTan => " \tan " ++ latex true a ++ " "
      | UFabs => " \left|" ++ latex false a ++ "\right| "
      | USqrt => " \sqrt{" ++ latex false a ++ "} "
      | ULog => " \ln " ++ latex true a ++ " "
      | ULog10 => " \log " ++ latex true a ++ " "
      | UGrad => " \nabla " ++ latex true a ++ " "
      | UDiv => " \nabla \cdot " ++ latex true a ++ " "
      | UPd i => " \frac{\partial " ++ latex true a ++ "}{\partial " ++ latex_var false i ++ "} "
      | USymInt i =>
          " \int_{\Omega_{" ++ dec i ++ "}} " ++ latex false a ++ " " ++ " \: \mathrm{d} \Omega "
      end
  | EInt lo hi v a =>
      " \int_{ " ++ (" [ " ++ latex false lo ++ "; " ++ latex false hi ++ " ] ") ++ " } " ++
      latex false a ++ " " ++ " \: \mathrm{d} " ++ latex_var false v ++ " "
  | EBin op l r =>
      match op with
      | BDiv =>
          (if par then " \left( " else "") ++
          " \frac{" ++ latex false l ++ "}{" ++ latex false r ++ "} " ++
          (if par then " \right) " else "")
      | _ =>
          let is_mult := match op with BMult => true | _ => false end in
          let is_minus := match op with BMinus => true | _ => false end in
          (if par then "(" else "") ++
          latex is_mult l ++
          (if is_mult then " \cdot " else " " ++ b_str op ++ " ") ++
          latex (is_mult || is_minus) r ++
          (if par then ")" else "")
      end
  | EVec _ => or_unknown t par e ""
  end.

(** operator()(Equation), latex.hpp lines 154-160. *)
Definition latex_equation (lhs rhs : expr T) : string :=
  latex false lhs ++ " = " ++ latex false rhs.

End Latex.
