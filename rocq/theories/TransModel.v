(** Model of the objects behind a LaTeX translator: the processors on the heap, their owners, and the
    dispatch of an expression to them.  /repo/viennamath/manipulation/latex.hpp. *)
From Coq Require Import ZArith NArith List Bool String Ascii.
From Verif Require Import Outcome Num RtModel StrModel LatexModel.
Import ListNotations.
Local Open Scope string_scope.

Section Trans.
Context {T : Type}.
(** Output of a constant, as in LatexModel (latex.hpp line 437). *)
Context (pr : T -> string).

(** Processor objects: for binary expressions (latex.hpp lines 223-293), unary expressions (303-403),
    constants (413-441), variables with variable_strings_ (451-498), function symbols with
    function_symbol_strings_ (507-564), and processors of the user, with what process() returns for
    the flag and the expression.  Simplified: as stated at [translator] of LatexModel. *)
Inductive processor : Type :=
| PBinary
| PUnary
| PConstant
| PVariable (strings : list (N * string))
| PFunction (strings : list ((N * N) * string))
| PUser (process : bool -> expr T -> string).

(** The heap and the objects of a program: processor objects by address ([None]: not allocated), the
    next fresh address (simplified: addresses are not reused), the vector processors_ (latex.hpp
    line 217) of each translator that lives, and pointers to processors in variables of the user. *)
Record world : Type := mk_world {
  w_heap : N -> option processor;
  w_next : N;
  w_trans : N -> option (list N);
  w_ptr : N -> option N
}.

(** Update of a finite map (of the heap, of the objects of a program; no code). Used for the processors of
    latex.hpp lines 98-231. *)
Definition upd {A : Type} (f : N -> option A) (a : N) (v : option A) : N -> option A :=
  fun b => if N.eqb b a then v else f b.

(** process_impl() of the translator, latex.hpp lines 198-215, [f] being process() of a processor:
    the first non-empty string, else the text for unknown.  Access to a deleted processor is
    undefined. *)
Fixpoint dispatch (h : N -> option processor) (f : processor -> outcome string) (ps : list N) : outcome string :=
  match ps with
  | [] => Ok " \chi_{\mathrm{unknown}} "
  | a :: ps' =>
      match h a with
      | None => UB
      | Some p => bind (f p) (fun s => match s with EmptyString => dispatch h f ps' | _ => Ok s end)
      end
  end.

(** process() for a variable, latex.hpp lines 460-469 and 484-495. *)
Definition process_var (par : bool) (i : N) (p : processor) : outcome string :=
  match p with
  | PVariable m =>
      Ok (match find_var m i with Some s => s | None => " x_{" ++ dec i ++ "} " end)
  | PUser u => Ok (u par (EVar i))
  | _ => Ok ""
  end.

(** Text written after text into a stringstream (latex.hpp throughout). E.g. lines 233-291. *)
Definition cat (a b : outcome string) : outcome string := both a b (fun x y => Ok (x ++ y)).

(** operator() of a translator with processors [ps] (latex.hpp lines 141-153 and 198-215), with
    process() of the processors for binary expressions (233-291), unary expressions (313-400, intervals
    161-167), constants (423-439) and function symbols (517-526, 542-561). *)
Fixpoint translate (h : N -> option processor) (ps : list N) (par : bool) (e : expr T) {struct e} : outcome string :=
  dispatch h (fun p =>
    match p, e with
    | PVariable m, EVar i => process_var par i p
    | PConstant, EConst c => Ok (" " ++ pr c ++ " ")
    | PFunction m, EFun i u =>
        Ok (match find_fun m i u with
            | Some s => s
            | None => (if N.eqb u 1 then " v_{" else " u_{") ++ dec i ++ "} "
            end)
    | PUnary, EUn op a =>
        let around (pre : string) (q : bool) (post : string) :=
          cat (Ok pre) (cat (translate h ps q a) (Ok post)) in
        match op with
        | UId => translate h ps par a
        | UExp => around " \exp " true " "
        | USin => around " \sin " true " "
        | UCos => around " \cos " true " "
        | UTan => around " \tan " true " "
        | UFabs => around " \left|" false "\right| "
        | USqrt => around " \sqrt{" false "} "
        | ULog => around " \ln " true " "
        | ULog10 => around " \log " true " "
        | UGrad => around " \nabla " true " "
        | UDiv => around " \nabla \cdot " true " "
        | UPd i =>
            cat (Ok " \frac{\partial ") (cat (translate h ps true a) (cat (Ok "}{\partial ")
              (cat (dispatch h (process_var false i) ps) (Ok "} "))))
        | USymInt i =>
            cat (Ok (" \int_{\Omega_{" ++ dec i ++ "}} ")) (cat (translate h ps false a)
              (Ok (" " ++ " \: \mathrm{d} \Omega ")))
        end
    | PUnary, EInt lo hi v a =>
        cat (Ok " \int_{ ") (cat (Ok " [ ") (cat (translate h ps false lo) (cat (Ok "; ")
          (cat (translate h ps false hi) (cat (Ok " ] ") (cat (Ok " } ")
            (cat (translate h ps false a) (cat (Ok (" " ++ " \: \mathrm{d} "))
              (cat (dispatch h (process_var false v) ps) (Ok " "))))))))))
    | PBinary, EBin op l r =>
        match op with
        | BDiv =>
            cat (Ok (if par then " \left( " else "")) (cat (Ok " \frac{") (cat (translate h ps false l)
              (cat (Ok "}{") (cat (translate h ps false r) (cat (Ok "} ")
                (Ok (if par then " \right) " else "")))))))
        | _ =>
            let is_mult := match op with BMult => true | _ => false end in
            let is_minus := match op with BMinus => true | _ => false end in
            cat (Ok (if par then "(" else "")) (cat (translate h ps is_mult l)
              (cat (Ok (if is_mult then " \cdot " else " " ++ b_str op ++ " "))
                (cat (translate h ps (is_mult || is_minus) r) (Ok (if par then ")" else "")))))
        end
    | PUser u, _ => Ok (u par e)
    | _, _ => Ok ""
    end) ps.

(** new: an object at a fresh address (latex.hpp lines 111-115, 123). *)
Definition alloc (w : world) (p : processor) : world * N :=
  (mk_world (upd (w_heap w) (w_next w) (Some p)) (N.succ (w_next w)) (w_trans w) (w_ptr w), w_next w).

(** new for several objects, in order; their addresses are appended to processors_ (as above). latex.hpp
    lines 111-115 and 123. *)
Fixpoint alloc_all (w : world) (l : list processor) : world * list N :=
  match l with
  | [] => (w, [])
  | p :: l' => let (w1, a) := alloc w p in let (w2, ps) := alloc_all w1 l' in (w2, a :: ps)
  end.

(** clone() of the processors, latex.hpp lines 230, 310, 420, 458, 515; of a processor of the user:
    assumed to copy. *)
Definition clone (p : processor) : processor :=
  match p with
  | PVariable _ => PVariable []
  | PFunction _ => PFunction []
  | _ => p
  end.

(** The processors at the given addresses; undefined if one was deleted (latex.hpp lines 120-125). *)
Fixpoint deref_all (h : N -> option processor) (ps : list N) : outcome (list processor) :=
  match ps with
  | [] => Ok []
  | a :: ps' => match h a with None => UB | Some p => omap (cons p) (deref_all h ps') end
  end.

(** delete for all processors, latex.hpp lines 128-136. *)
Fixpoint delete_all (h : N -> option processor) (ps : list N) : outcome (N -> option processor) :=
  match ps with
  | [] => Ok h
  | a :: ps' => match h a with None => UB | Some _ => delete_all (upd h a None) ps' end
  end.

(** customize() of the processors, latex.hpp lines 471-480, 528-538 and, for the others, 83. *)
Definition customize_proc (e : expr T) (s : string) (p : processor) : processor :=
  match p, e with
  | PVariable m, EVar i => PVariable ((i, s) :: m)
  | PFunction m, EFun i u => PFunction (((i, u), s) :: m)
  | _, _ => p
  end.

(** customize() of the translator, latex.hpp lines 174-188. *)
Fixpoint customize_all (h : N -> option processor) (e : expr T) (s : string) (ps : list N) :
    outcome (N -> option processor) :=
  match ps with
  | [] => Ok h
  | a :: ps' =>
      match h a with
      | None => UB
      | Some p => customize_all (upd h a (Some (customize_proc e s p))) e s ps'
      end
  end.

(** What a program does with translators:
    rt_latex_translator x; rt_latex_translator x(y); x = y; end of the life of x;
    p = new processor; x.add_processor(p); x.customize(e, s); x(e, par)
    (latex.hpp lines 109-153, 174-194). *)
Inductive stmt : Type :=
| Create (x : N)
| Copy (x y : N)
| Assign (x y : N)
| Destroy (x : N)
| NewProc (p : N) (u : bool -> expr T -> string)
| AddProc (x p : N)
| Customize (x : N) (e : expr T) (s : string)
| Translate (x : N) (par : bool) (e : expr T).

(** Effect of a statement, with the text returned.  Use of an object that does not live is undefined.
    The assignment is the implicit one, which copies the vector of pointers (latex.hpp line 217; no
    operator= is declared in lines 93-218). *)
Definition step (c : stmt) (w : world) : outcome (world * list string) :=
  match c with
  | Create x =>
      match w_trans w x with
      | Some _ => UB
      | None =>
          let (w', ps) := alloc_all w [PBinary; PUnary; PConstant; PVariable []; PFunction []] in
          Ok (mk_world (w_heap w') (w_next w') (upd (w_trans w') x (Some ps)) (w_ptr w'), [])
      end
  | Copy x y =>
      match w_trans w x, w_trans w y with
      | None, Some qs =>
          bind (deref_all (w_heap w) qs) (fun l =>
            let (w', ps) := alloc_all w (map clone l) in
            Ok (mk_world (w_heap w') (w_next w') (upd (w_trans w') x (Some ps)) (w_ptr w'), []))
      | _, _ => UB
      end
  | Assign x y =>
      match w_trans w x, w_trans w y with
      | Some _, Some qs => Ok (mk_world (w_heap w) (w_next w) (upd (w_trans w) x (Some qs)) (w_ptr w), [])
      | _, _ => UB
      end
  | Destroy x =>
      match w_trans w x with
      | None => UB
      | Some ps =>
          bind (delete_all (w_heap w) ps) (fun h =>
            Ok (mk_world h (w_next w) (upd (w_trans w) x None) (w_ptr w), []))
      end
  | NewProc p u =>
      let (w', a) := alloc w (PUser u) in
      Ok (mk_world (w_heap w') (w_next w') (w_trans w') (upd (w_ptr w') p (Some a)), [])
  | AddProc x p =>
      match w_trans w x, w_ptr w p with
      | Some ps, Some a =>
          Ok (mk_world (w_heap w) (w_next w) (upd (w_trans w) x (Some (ps ++ [a])%list)) (w_ptr w), [])
      | _, _ => UB
      end
  | Customize x e s =>
      match w_trans w x with
      | None => UB
      | Some ps =>
          bind (customize_all (w_heap w) e s ps) (fun h =>
            Ok (mk_world h (w_next w) (w_trans w) (w_ptr w), []))
      end
  | Translate x par e =>
      match w_trans w x with
      | None => UB
      | Some ps => bind (translate (w_heap w) ps par e) (fun s => Ok (w, [s]))
      end
  end.

(** A program from a world on; the texts in order (no code of its own). A user of latex.hpp lines 98-231. *)
Fixpoint run (prog : list stmt) (w : world) : outcome (world * list string) :=
  match prog with
  | [] => Ok (w, [])
  | c :: prog' =>
      bind (step c w) (fun r => bind (run prog' (fst r)) (fun r' => Ok (fst r', (snd r ++ snd r')%list)))
  end.

(** Before the first statement: nothing allocated (no code of its own). A user of latex.hpp lines 98-231. *)
Definition start : world := mk_world (fun _ => None) 0 (fun _ => None) (fun _ => None).
End Trans.
Arguments processor : clear implicits.
Arguments world : clear implicits.
Arguments stmt : clear implicits.
