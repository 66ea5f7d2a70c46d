(** simplify(), substitute(), diff() and inplace_simplify() on the heap. *)
From Coq Require Import ZArith NArith List Bool Arith Lia Permutation.
From Verif Require Import Outcome Num RtModel RtFacts RtTermination HeapModel HeapSpec HeapFacts HeapRead HeapRun.
Import ListNotations.

Section HeapOps.
Context (n : num) (order : nat -> bool) (C : Prop).
Notation mem := (mem n).
Notation expr := (expr n).
Notation has := (has n).
Notation IExpr := (IExpr n).
Notation IOp := (IOp n).
Notation IList := (IList n).
Notation item := (item n).
Notation holds := (holds n C).
Notation grows := (grows n).
Notation wf := (wf n).
Notation makes := (makes n C).
Notation runs := (runs n C).

Lemma has_later : forall k m m1 i, wf m -> has k m i -> grows m m1 -> has k m1 i.
Proof. intros k m m1 i W H G. now apply (has_grows n k m). Qed.

(** ** simplify() *)

Section Step.
Context (k : nat) (m : mem) (W : wf m).

Lemma read_constant : forall X (I : nat -> X -> item) a e f o, has k m (IExpr a e) ->
  makes m I (f (is_constant n e)) o ->
  makes m I (mbind (reading (fun m => his_constant n m a)) f) o.
Proof.
  intros X I a e f o H F. apply makes_reading with (x := is_constant n e); [|exact F].
  intros m1 G. apply (his_constant_ok n m1 (grows_wf n m m1 G) k). now apply (has_later k m).
Qed.

Lemma read_both_constant : forall X (I : nat -> X -> item) a b x y f o, has k m (IExpr a x) -> has k m (IExpr b y) ->
  makes m I (f (is_constant n x && is_constant n y)) o ->
  makes m I (mbind (reading (fun m => both_constant n m a b)) f) o.
Proof.
  intros X I a b x y f o H H' F. apply makes_reading with (x := is_constant n x && is_constant n y); [|exact F].
  intros m1 G. apply (both_constant_ok n m1 (grows_wf n m m1 G) k k); now apply (has_later k m).
Qed.

Lemma read_unwrap : forall X (I : nat -> X -> item) j a e f (g : n -> outcome X), has j m (IExpr a e) ->
  (forall x, makes m I (f x) (g x)) ->
  makes m I (mbind (reading (fun m => hunwrap n order m a)) f) (bind (unwrap n e) g).
Proof.
  intros X I j a e f g H F. apply makes_read; [|intros x _; apply F].
  intros m1 G. apply (hunwrap_ok n order m1 (grows_wf n m m1 G) j). now apply (has_later j m).
Qed.

Lemma read_op : forall X (I : nat -> X -> item) j p o c f (r : outcome X), has j m (IOp p o) ->
  match o with OUn _ op => c = HUop op | OBin _ op => c = HBop op | OInt _ _ _ _ => False end ->
  makes m I (f c) r ->
  makes m I (mbind (reading (fun m => load m p)) f) r.
Proof.
  intros X I j p o c f r H E F. apply has_op_inv in H. destruct o; try contradiction; subst;
    (apply makes_load with (2 := H); [exact W|exact F]).
Qed.
End Step.

Lemma mk2_l : forall op (x : expr) o, mk2 n op (Ok x) o = omap (EBin op x) o.
Proof. intros op x [y|y|]; reflexivity. Qed.
Lemma mk2_r : forall op (y : expr) o, mk2 n op o (Ok y) = omap (fun x => EBin op x y) o.
Proof. intros op y [x|x|]; reflexivity. Qed.

Lemma makes_hsimplify_f : forall k m a e, wf m -> has k m (IExpr a e) ->
  makes m IExpr (hsimplify_f n order k a) (simplify n e).
Proof.
  induction k as [|k IH]; intros m a e W H; [exfalso; eapply has_O; eassumption|].
  cbn [hsimplify_f]. pose proof (has_expr_inv n k m a e H) as V.
  assert (SELF : makes m IExpr (clone n order a) (Ok e)) by now apply (makes_clone n order C (S k)).
  destruct e as [c|i|i t|op x|lo hi v x|op x y|es].
  - apply makes_load with (c := HConst c); [exact W|exact V|exact SELF].
  - apply makes_load with (c := HVar i); [exact W|exact V|exact SELF].
  - apply makes_load with (c := HFun i t); [exact W|exact V|exact SELF].
  - destruct V as [q [p [V [Hq Hp]]]]. apply makes_load with (c := HUn q p); [exact W|exact V|].
    apply (read_constant k m W _ IExpr q x); [exact Hq|]. cbn [simplify].
    destruct (is_constant n x).
    + apply (read_op m W _ IExpr k p (OUn n op) (HUop op)); [exact Hp|reflexivity|].
      destruct (u_can_simplify op).
      * apply (read_unwrap m W _ IExpr k q x); [exact Hq|]. intros z.
        unfold omap. apply makes_read; [|intros w _; apply makes_const].
        intros m1 G. rewrite (op_apply_un n k m1 p op z); [apply sound_refl|]. now apply (has_later k m).
      * eapply makes_eq.
        -- apply (makes_new_un_like n order C k m _ (bind (unwrap n x) (fun z => Ok (EConst z))) p (OUn n op)); [exact W| |exact Hp|discriminate].
           apply (read_unwrap m W _ IExpr k q x); [exact Hq|]. intros z. apply makes_const.
        -- destruct (unwrap n x); reflexivity.
    + eapply makes_eq.
      * apply (makes_new_un_like n order C k m _ (simplify n x) p (OUn n op)); [exact W|now apply IH|exact Hp|discriminate].
      * destruct (simplify n x); reflexivity.
  - destruct V as [q [p [V [Hq Hp]]]]. apply makes_load with (c := HUn q p); [exact W|exact V|].
    apply (read_constant k m W _ IExpr q x); [exact Hq|]. cbn [simplify].
    destruct (is_constant n x).
    + destruct (has_op_inv n k m p _ Hp) as [lo' [hi' [E _]]].
      apply makes_load with (c := HIntegral lo' hi' v); [exact W|exact E|].
      eapply makes_eq.
      * apply (makes_new_un_like n order C k m _ (bind (unwrap n x) (fun z => Ok (EConst z))) p (OInt n lo hi v)); [exact W| |exact Hp|discriminate].
        apply (read_unwrap m W _ IExpr k q x); [exact Hq|]. intros z. apply makes_const.
      * destruct (unwrap n x); reflexivity.
    + eapply makes_eq.
      * apply (makes_new_un_like n order C k m _ (simplify n x) p (OInt n lo hi v)); [exact W|now apply IH|exact Hp|discriminate].
      * destruct (simplify n x); reflexivity.
  - destruct V as [l [p [r [V [Hl [Hp Hr]]]]]]. apply makes_load with (c := HBin l p r); [exact W|exact V|].
    apply (read_both_constant k m W _ IExpr l r x y); [exact Hl|exact Hr|]. cbn [simplify].
    destruct (is_constant n x && is_constant n y) eqn:CXY.
    { unfold omap. change (both (unwrap n x) (unwrap n y) (b_apply n op)) with (unwrap n (EBin op x y)).
      apply (read_unwrap m W _ IExpr (S k) a (EBin op x y)); [exact H|]. intros z. apply makes_const. }
    apply (read_op m W _ IExpr k p (OBin n op) (HBop op)); [exact Hp|reflexivity|].
    apply (read_constant k m W _ IExpr l x); [exact Hl|].
    assert (CR : forall X (I : nat -> X -> item) f o,
      makes m I (f (if is_constant n x then false else is_constant n y)) o ->
      makes m I (mbind (reading (fun m => if is_constant n x then Ok false else his_constant n m r)) f) o).
    { intros X J f o F. apply makes_reading with (x := if is_constant n x then false else is_constant n y); [|exact F].
      intros m1 G. destruct (is_constant n x); [reflexivity|].
      apply (his_constant_ok n m1 (grows_wf n m m1 G) k). now apply (has_later k m). }
    apply CR. clear CR.
    assert (SX : makes m IExpr (hsimplify_f n order k l) (simplify n x)) by now apply IH.
    assert (SY : makes m IExpr (hsimplify_f n order k r) (simplify n y)) by now apply IH.
    assert (KL : forall op z, makes m IExpr (new_bin n order op (alloc (HConst z)) (hsimplify_f n order k r))
                  (omap (EBin op (EConst z)) (simplify n y))).
    { intros op' z. rewrite <- mk2_l. apply makes_new_bin; [apply makes_const|exact SY]. }
    assert (KR : forall op z, makes m IExpr (new_bin n order op (hsimplify_f n order k l) (alloc (HConst z)))
                  (omap (fun l' => EBin op l' (EConst z)) (simplify n x))).
    { intros op' z. rewrite <- mk2_r. apply makes_new_bin; [exact SX|apply makes_const]. }
    assert (KB : forall op, makes m IExpr (new_bin n order op (hsimplify_f n order k l) (hsimplify_f n order k r))
                  (mk2 n op (simplify n x) (simplify n y))).
    { intros op'. now apply makes_new_bin. }
    destruct op.
    + destruct (is_constant n x).
      * apply (read_unwrap m W _ IExpr k l x); [exact Hl|]. intros z. destruct (n_eq n z (c0 n)); [exact SY|apply KL].
      * destruct (is_constant n y); [|apply KB].
        apply (read_unwrap m W _ IExpr k r y); [exact Hr|]. intros z. destruct (n_eq n z (c0 n)); [exact SX|apply KR].
    + destruct (is_constant n x).
      * apply (read_unwrap m W _ IExpr k l x); [exact Hl|]. intros z. destruct (n_eq n z (c0 n)); apply KL.
      * destruct (is_constant n y); [|apply KB].
        apply (read_unwrap m W _ IExpr k r y); [exact Hr|]. intros z. destruct (n_eq n z (c0 n)); [exact SX|apply KR].
    + destruct (is_constant n x).
      * apply (read_unwrap m W _ IExpr k l x); [exact Hl|]. intros z. destruct (n_eq n z (c0 n)); [apply makes_const|].
        destruct (n_eq n z (c1 n)); [exact SY|apply KL].
      * destruct (is_constant n y).
        -- apply (read_unwrap m W _ IExpr k r y); [exact Hr|]. intros z. destruct (n_eq n z (c0 n)); [apply makes_const|].
           destruct (n_eq n z (c1 n)); [exact SX|apply KR].
        -- assert (ENT : forall b z, has k m (IExpr b z) -> exists w, (forall m1, grows m m1 -> entries_of n m1 b = Ok w) /\
             match z, w with EVec es, Some ps => has k m (IList ps es) | EVec _, None => False | _, Some _ => False | _, None => True end).
           { intros b z Hb. pose proof (entries_of_ok n m k b z Hb) as EN.
             assert (UP : forall w, entries_of n m b = Ok w -> forall m1, grows m m1 -> entries_of n m1 b = Ok w).
             { intros w E m1 [_ [G _]]. unfold entries_of, load in *. rewrite G; [exact E|].
               apply (wf_alive n m b W). intros N. rewrite N in E. discriminate. }
             destruct z; try (exists None; split; [now apply UP|exact I]).
             destruct EN as [ps [EN HL]]. exists (Some ps). split; [now apply UP|exact HL]. }
           destruct (ENT l x Hl) as [vl [El Vl]]. destruct (ENT r y Hr) as [vr [Er Vr]].
           apply makes_reading with (x := vl); [exact El|]. apply makes_reading with (x := vr); [exact Er|].
           destruct vl as [ps|], x; try contradiction; try exact (KB BMult).
           destruct vr as [qs|], y; try contradiction; try exact (KB BMult).
           apply (makes_dot n order C k); [exact W|now apply has_list_inv|now apply has_list_inv].
    + destruct (is_constant n x).
      * apply (read_unwrap m W _ IExpr k l x); [exact Hl|]. intros z. destruct (n_eq n z (c0 n)); [apply makes_const|apply KL].
      * destruct (is_constant n y); [|apply KB].
        apply (read_unwrap m W _ IExpr k r y); [exact Hr|]. intros z. destruct (n_eq n z (c1 n)); [exact SX|apply KR].
    + apply (makes_new_bin n order C m BUnaryId _ _ (Ok x) (Ok y)); now apply (makes_clone n order C k).
  - destruct V as [ps [V _]]. apply makes_load with (c := HVec ps); [exact W|exact V|exact SELF].
Qed.

Lemma makes_hsimplify : forall k m a e, wf m -> has k m (IExpr a e) ->
  makes m IExpr (hsimplify n order a) (simplify n e).
Proof.
  intros k m a e W H. apply (makes_enough n C _ m IExpr (fun k => hsimplify_f n order k a)). intros m1 G.
  pose proof (grows_wf n m m1 G) as W1. apply makes_hsimplify_f; [exact W1|].
  apply (has_enough n k); [exact W1|]. now apply (has_later k m).
Qed.

(** ** substitute() *)

Lemma makes_hsubst_f : forall k m j s es j' r er, wf m -> has j m (IExpr s es) -> has j' m (IExpr r er) ->
  forall a e, has k m (IExpr a e) -> makes m IExpr (hsubst_f n order k s r a) (subst1 n es er e).
Proof.
  intros k m j s es j' r er W Hs Hr'. induction k as [|k IH]; intros a e H; [exfalso; eapply has_O; eassumption|].
  assert (SELF : makes m IExpr (clone n order a) (Ok e)) by now apply (makes_clone n order C (S k)).
  cbn [hsubst_f].
  replace (subst1 n es er e) with (bind (deep_equal n e es) (fun q => if q then Ok er else
    match e with
      | EConst _ | EVar _ | EFun _ _ => Ok e
      | EUn op a => omap (EUn op) (subst1 n es er a)
      | EInt lo hi var a => omap (EInt lo hi var) (subst1 n es er a)
      | EBin op l r => mk2 n op (subst1 n es er l) (subst1 n es er r)
      | EVec xs => omap EVec (oseq (map (subst1 n es er) xs))
      end)) by (destruct e; reflexivity).
  apply makes_read.
  { intros m1 G. apply (hdeep_equal_ok n m1 (grows_wf n m m1 G) (S k) j); now apply (has_later _ m). }
  intros [] _; [now apply (makes_clone n order C j')|].
  pose proof (has_expr_inv n k m a e H) as V.
  destruct e as [c|i|i t|op x|lo hi v x|op x y|xs].
  - apply makes_load with (c := HConst c); [exact W|exact V|exact SELF].
  - apply makes_load with (c := HVar i); [exact W|exact V|exact SELF].
  - apply makes_load with (c := HFun i t); [exact W|exact V|exact SELF].
  - destruct V as [q [p [V [Hq Hp]]]]. apply makes_load with (c := HUn q p); [exact W|exact V|].
    apply (makes_new_un_like n order C k m _ (subst1 n es er x) p (OUn n op)); [exact W|now apply IH|exact Hp|discriminate].
  - destruct V as [q [p [V [Hq Hp]]]]. apply makes_load with (c := HUn q p); [exact W|exact V|].
    apply (makes_new_un_like n order C k m _ (subst1 n es er x) p (OInt n lo hi v)); [exact W|now apply IH|exact Hp|discriminate].
  - destruct V as [l [p [r' [V [Hl [Hp Hr]]]]]]. apply makes_load with (c := HBin l p r'); [exact W|exact V|].
    apply (makes_new_bin_like n order C k m); [exact W|now apply IH|now apply IH|exact Hp].
  - destruct V as [ps [V Hl]]. apply makes_load with (c := HVec ps); [exact W|exact V|].
    apply makes_vector. apply has_list_inv in Hl. clear V H SELF.
    induction Hl as [|p e ps xs Hp Hl IHl]; constructor; [now apply makes_via, IH|exact IHl].
Qed.

Lemma makes_hsubst : forall j j' k m s es r er a e, wf m -> has j m (IExpr s es) -> has j' m (IExpr r er) ->
  has k m (IExpr a e) -> makes m IExpr (hsubst n order s r a) (subst1 n es er e).
Proof.
  intros j j' k m s es r er a e W Hs Hr H.
  apply (makes_enough n C _ m IExpr (fun k => hsubst_f n order k s r a)). intros m1 G.
  pose proof (grows_wf n m m1 G) as W1. apply (makes_hsubst_f _ m1 j s es j' r er); [exact W1|now apply (has_later _ m)..|].
  apply (has_enough n k); [exact W1|]. now apply (has_later k m).
Qed.

(** The loop over the expressions to search for, with a list of any kind beside it. *)
Fixpoint gfind {A : Type} (e : expr) (ss : list expr) (rs : list A) : outcome (option A) :=
  match ss with
  | [] => Ok None
  | s :: ss' => bind (deep_equal n e s) (fun q =>
      if q then match rs with r :: _ => Ok (Some r) | [] => UB end else gfind e ss' (tl rs))
  end.

Lemma hfind_ok : forall m, wf m -> forall k j a e, has k m (IExpr a e) ->
  forall ss ess, Forall2 (fun s es => has j m (IExpr s es)) ss ess ->
  forall rs, sound (hfind n m a ss rs) (gfind e ess rs).
Proof.
  intros m W k j a e H ss ess F. induction F as [|s es ss ess Hs F IH]; intros rs; cbn [gfind hfind]; [reflexivity|].
  apply sound_bind; [now apply (hdeep_equal_ok n m W k j)|]. intros [] _; [destruct rs; [exact I|reflexivity]|apply IH].
Qed.

Lemma gfind_match : forall A (R : A -> expr -> Prop) e ss rs ers, Forall2 R rs ers ->
  match gfind e ss rs, find_match n e ss ers with
  | Ok (Some r), Ok (Some er) => R r er
  | Ok None, Ok None => True
  | Throw x, Throw y => x = y
  | UB, UB => True
  | _, _ => False
  end.
Proof.
  intros A R e ss. induction ss as [|s ss IH]; intros rs ers F; cbn [gfind find_match]; [exact I|].
  destruct (deep_equal n e s) as [q|x|]; cbn [bind]; [|reflexivity|exact I].
  destruct q; destruct F as [|r er rs ers Hr F]; [exact I|exact Hr|apply IH; constructor|now apply IH].
Qed.

Lemma has_all_later : forall j m m1 (l : list nat) (es : list expr), wf m -> grows m m1 ->
  Forall2 (fun s e => has j m (IExpr s e)) l es -> Forall2 (fun s e => has j m1 (IExpr s e)) l es.
Proof.
  intros j m m1 l es W G F. induction F as [|s e l es H F IH]; [apply Forall2_nil|].
  apply Forall2_cons; [now apply (has_later j m)|exact IH].
Qed.

Lemma makes_hsubstv_f : forall k m j ss ess rs ers, wf m ->
  Forall2 (fun s es => has j m (IExpr s es)) ss ess -> Forall2 (fun r er => has j m (IExpr r er)) rs ers ->
  forall a e, has k m (IExpr a e) -> makes m IExpr (hsubstv_f n order k ss rs a) (substv n ess ers e).
Proof.
  intros k m j ss ess rs ers W Fs Fr. induction k as [|k IH]; intros a e H; [exfalso; eapply has_O; eassumption|].
  assert (SELF : makes m IExpr (clone n order a) (Ok e)) by now apply (makes_clone n order C (S k)).
  cbn [hsubstv_f].
  set (rest := match e with
      | EConst _ | EVar _ | EFun _ _ => Ok e
      | EUn op a => omap (EUn op) (substv n ess ers a)
      | EInt lo hi var a => omap (EInt lo hi var) (substv n ess ers a)
      | EBin op l r => mk2 n op (substv n ess ers l) (substv n ess ers r)
      | EVec xs => omap EVec (oseq (map (substv n ess ers) xs))
      end).
  replace (substv n ess ers e) with (bind (find_match n e ess ers) (fun q => match q with Some r => Ok r | None => rest end))
    by (destruct e; reflexivity).
  assert (SO : forall m1, grows m m1 -> sound (hfind n m1 a ss rs) (gfind e ess rs)).
  { intros m1 G. apply (hfind_ok m1 (grows_wf n m m1 G) (S k) j); [now apply (has_later _ m)|].
    now apply (has_all_later j m). }
  pose proof (gfind_match _ _ e ess rs ers Fr) as MT. revert SO MT.
  destruct (gfind e ess rs) as [[r|]|x|], (find_match n e ess ers) as [[er|]|y|]; intros SO MT; try contradiction; cbn [bind].
  - apply makes_reading with (x := Some r); [exact SO|]. now apply (makes_clone n order C j).
  - apply makes_reading with (x := None); [exact SO|]. unfold rest. clear rest.
    pose proof (has_expr_inv n k m a e H) as V.
    destruct e as [c|i|i t|op x|lo hi v x|op x y|xs].
    + apply makes_load with (c := HConst c); [exact W|exact V|exact SELF].
    + apply makes_load with (c := HVar i); [exact W|exact V|exact SELF].
    + apply makes_load with (c := HFun i t); [exact W|exact V|exact SELF].
    + destruct V as [q [p [V [Hq Hp]]]]. apply makes_load with (c := HUn q p); [exact W|exact V|].
      apply (makes_new_un_like n order C k m _ (substv n ess ers x) p (OUn n op)); [exact W|now apply IH|exact Hp|discriminate].
    + destruct V as [q [p [V [Hq Hp]]]]. apply makes_load with (c := HUn q p); [exact W|exact V|].
      apply (makes_new_un_like n order C k m _ (substv n ess ers x) p (OInt n lo hi v)); [exact W|now apply IH|exact Hp|discriminate].
    + destruct V as [l [p [r' [V [Hl [Hp Hr]]]]]]. apply makes_load with (c := HBin l p r'); [exact W|exact V|].
      apply (makes_new_bin_like n order C k m); [exact W|now apply IH|now apply IH|exact Hp].
    + destruct V as [ps [V Hl]]. apply makes_load with (c := HVec ps); [exact W|exact V|].
      apply makes_vector. apply has_list_inv in Hl. clear V H SELF SO.
      induction Hl as [|p e ps xs Hp Hl IHl]; constructor; [now apply makes_via, IH|exact IHl].
  - subst y. apply (makes_read n C _ _ m IExpr _ _ (Throw x) (fun _ => rest)); [exact SO|discriminate].
  - apply (makes_read n C _ _ m IExpr _ _ UB (fun _ => rest)); [exact SO|discriminate].
Qed.

Lemma makes_hsubstv : forall j k m ss ess rs ers a e, wf m ->
  Forall2 (fun s es => has j m (IExpr s es)) ss ess -> Forall2 (fun r er => has j m (IExpr r er)) rs ers ->
  has k m (IExpr a e) -> makes m IExpr (hsubstv n order ss rs a) (substv n ess ers e).
Proof.
  intros j k m ss ess rs ers a e W Fs Fr H.
  apply (makes_enough n C _ m IExpr (fun k => hsubstv_f n order k ss rs a)). intros m1 G.
  pose proof (grows_wf n m m1 G) as W1. apply (makes_hsubstv_f _ m1 j).
  - exact W1.
  - now apply (has_all_later j m).
  - now apply (has_all_later j m).
  - apply (has_enough n k); [exact W1|]. now apply (has_later k m).
Qed.

Lemma makes_hmanip_f : forall k m j o lo hi v, wf m -> has j m (IOp o (OInt n lo hi v)) ->
  forall a e, has k m (IExpr a e) -> makes m IExpr (hmanip_f n order k o a) (Ok (subst_interval n 0 lo hi v e)).
Proof.
  intros k m j o lo hi v W Ho. unfold subst_interval.
  induction k as [|k IH]; intros a e H; [exfalso; eapply has_O; eassumption|].
  assert (SELF : makes m IExpr (clone n order a) (Ok e)) by now apply (makes_clone n order C (S k)).
  cbn [hmanip_f]. pose proof (has_expr_inv n k m a e H) as V.
  destruct e as [c|i|i t|op x|l h w x|op x y|xs]; cbn [manipulate is_symbolic_integral to_concrete_integral].
  - apply makes_load with (c := HConst c); [exact W|exact V|exact SELF].
  - apply makes_load with (c := HVar i); [exact W|exact V|exact SELF].
  - apply makes_load with (c := HFun i t); [exact W|exact V|exact SELF].
  - destruct V as [q [p [V [Hq Hp]]]]. apply makes_load with (c := HUn q p); [exact W|exact V|].
    apply (read_op m W _ IExpr k p (OUn n op) (HUop op)); [exact Hp|reflexivity|].
    assert (D : makes m IExpr (new_un_like n order (hmanip_f n order k o q) p)
      (Ok (EUn op (manipulate n (is_symbolic_integral n) (to_concrete_integral n lo hi v) x)))).
    { apply (makes_new_un_like n order C k m _ (Ok (manipulate n (is_symbolic_integral n) (to_concrete_integral n lo hi v) x)) p (OUn n op));
        [exact W|now apply IH|exact Hp|discriminate]. }
    destruct op; try exact D.
    apply (makes_new_un_like n order C j m _ (Ok x) o (OInt n lo hi v)); [exact W| |exact Ho|discriminate].
    now apply (makes_clone n order C k).
  - destruct V as [q [p [V [Hq Hp]]]]. apply makes_load with (c := HUn q p); [exact W|exact V|].
    assert (D : makes m IExpr (new_un_like n order (hmanip_f n order k o q) p)
      (Ok (EInt l h w (manipulate n (is_symbolic_integral n) (to_concrete_integral n lo hi v) x)))).
    { apply (makes_new_un_like n order C k m _ (Ok (manipulate n (is_symbolic_integral n) (to_concrete_integral n lo hi v) x)) p (OInt n l h w));
        [exact W|now apply IH|exact Hp|discriminate]. }
    destruct (has_op_inv n k m p _ Hp) as [l' [h' [E _]]].
    apply makes_load with (c := HIntegral l' h' w); [exact W|exact E|exact D].
  - destruct V as [l [p [r' [V [Hl [Hp Hr]]]]]]. apply makes_load with (c := HBin l p r'); [exact W|exact V|].
    apply (makes_new_bin_like n order C k m _ _ _ (Ok _) (Ok _)); [exact W|now apply IH|now apply IH|exact Hp].
  - destruct V as [ps [V Hl]]. apply makes_load with (c := HVec ps); [exact W|exact V|exact SELF].
Qed.

Lemma makes_hmanip : forall j k m o lo hi v a e, wf m -> has j m (IOp o (OInt n lo hi v)) -> has k m (IExpr a e) ->
  makes m IExpr (hmanip n order o a) (Ok (subst_interval n 0 lo hi v e)).
Proof.
  intros j k m o lo hi v a e W Ho H.
  apply (makes_enough n C _ m IExpr (fun k => hmanip_f n order k o a)). intros m1 G.
  pose proof (grows_wf n m m1 G) as W1. apply (makes_hmanip_f _ m1 j); [exact W1|now apply (has_later _ m)|].
  apply (has_enough n k); [exact W1|]. now apply (has_later k m).
Qed.

(** ** diff() *)

Definition harmless (x : dvar) (e : expr) : Prop := C -> match x with DVar _ => True | DFun _ _ => has_grad n e = false end.

Lemma makes_hdiff_f : forall k m x a e, wf m -> harmless x e -> has k m (IExpr a e) ->
  makes m IExpr (hdiff_f n order k x a) (diff n x e).
Proof.
  induction k as [|k IH]; intros m x a e W HG H; [exfalso; eapply has_O; eassumption|].
  cbn [hdiff_f]. pose proof (has_expr_inv n k m a e H) as V.
  destruct e as [c|i|i t|op y|lo hi v y|op y z|es]; cbn [diff].
  - apply makes_load with (c := HConst c); [exact W|exact V|apply makes_const].
  - apply makes_load with (c := HVar i); [exact W|exact V|]. destruct x as [j|j s]; [destruct (N.eqb j i)|]; apply makes_const.
  - apply makes_load with (c := HFun i t); [exact W|exact V|].
    destruct x as [j|j s]; [apply makes_throw|]. destruct (N.eqb j i && N.eqb s t); apply makes_const.
  - destruct V as [q [p [V [Hq Hp]]]]. apply makes_load with (c := HUn q p); [exact W|exact V|].
    apply (read_op m W _ IExpr k p (OUn n op) (HUop op)); [exact Hp|reflexivity|].
    assert (CL : forall o, makes m IExpr (new_un n o (clone n order q)) (Ok (EUn o y))).
    { intros o. apply (makes_new_un n C m o _ (Ok y)). now apply (makes_clone n order C k). }
    destruct (match op with UGrad => true | _ => false end) eqn:GR.
    + destruct op; try discriminate. destruct x as [j|j s]; [apply makes_throw|].
      intros m1 G. pose proof (grows_wf n m m1 G) as W1.
      assert (S : holds m1 [] m1) by (apply holds_start, W1).
      destruct (makes_then n C _ m IExpr _ _ m1 [] m1 G (makes_const n C m (c0 n)) S) as [m2 [zero [E2 H2]]].
      assert (NC : ~ C) by (intros c; specialize (HG c); discriminate HG).
      assert (D : makes m IExpr (hdiff_f n order k (DFun j s) q) (diff n (DFun j s) y)).
      { apply IH; [exact W|intros c; contradiction|exact Hq]. }
      apply (runs_ext n C _ _ m1 m1 (fun _ => (new_expr <- hdiff_f n order k (DFun j s) q;
        eq <- reading (fun m => hdeep_equal n m new_expr zero);
        if eq then _ <- delete n new_expr; ret zero else _ <- delete n zero; new_un n UGrad (hdiff_f n order k (DFun j s) q)) m2)).
      { rewrite (mbind_ok n _ _ _ _ _ E2). reflexivity. }
      assert (G2 : grows m m2) by (apply holds_grows in H2; now apply (grows_trans n m m1)).
      apply (runs_bind n C _ _ _ _ m1 m2 (hdiff_f n order k (DFun j s) q) _ (diff n (DFun j s) y) _
               (fun d v => [IExpr v d; IExpr zero (EConst (c0 n))])).
      { apply (makes_run n C _ m IExpr); assumption. }
      intros d v m3 ED H3. apply runs_read.
      { now apply holds_grows in H3. }
      { apply (hdeep_equal_ok n m3 (holds_wf _ _ _ _ _ H3) (enough m3) (enough m3)); apply (holds_has n C m1 _ m3 _ H3); cbn; auto. }
      intros [] _.
      * destruct (holds_delete n C m1 v d _ m3 H3) as [m4 [E4 H4]].
        exists m4, zero. split; [|exact H4]. rewrite (mbind_ok n _ _ _ _ _ E4). reflexivity.
      * apply (holds_forget n C) in H3; [|exact NC].
        destruct (holds_delete n C m1 zero _ _ m3 H3) as [m4 [E4 H4]].
        apply (runs_ext n C _ _ m1 m3 (fun _ => new_un n UGrad (hdiff_f n order k (DFun j s) q) m4)).
        { rewrite (mbind_ok n _ _ _ _ _ E4). reflexivity. }
        assert (G4 : grows m m4) by (apply holds_grows in H4; now apply (grows_trans n m m1)).
        apply (makes_run n C _ m IExpr (new_un n UGrad (hdiff_f n order k (DFun j s) q))
                (omap (EUn UGrad) (diff n (DFun j s) y)) m1 [] m4); [|exact G4|exact H4].
        apply makes_new_un, D.
    + assert (D : makes m IExpr (hdiff_f n order k x q) (diff n x y)).
      { apply IH; [exact W| |exact Hq]. intros c. specialize (HG c). destruct x; [exact I|].
        cbn [has_grad] in HG. destruct op; try exact HG; discriminate. }
      destruct op; try discriminate; try exact D; try apply makes_throw.
      * rewrite <- mk2_l. apply makes_new_bin; [apply CL|exact D].
      * rewrite <- mk2_l. apply makes_new_bin; [apply CL|exact D].
      * apply makes_eq with (o := mk2 n BMult (Ok (EUn USin y)) (mk2 n BMult (Ok (EConst (cm1 n))) (diff n x y))).
        -- apply makes_new_bin; [apply CL|]. apply makes_new_bin; [apply makes_const|exact D].
        -- destruct (diff n x y); reflexivity.
      * apply makes_eq with (o := mk2 n BDiv (diff n x y) (mk2 n BMult (Ok (EUn UCos y)) (Ok (EUn UCos y)))).
        -- apply makes_new_bin; [exact D|]. apply makes_new_bin; apply CL.
        -- destruct (diff n x y); reflexivity.
      * apply makes_eq with (o := mk2 n BDiv (diff n x y) (mk2 n BMult (Ok (EConst (c2 n))) (Ok (EUn USqrt y)))).
        -- apply makes_new_bin; [exact D|]. apply makes_new_bin; [apply makes_const|apply CL].
        -- destruct (diff n x y); reflexivity.
      * rewrite <- mk2_r. apply makes_new_bin; [exact D|apply CL].
      * apply makes_eq with (o := mk2 n BDiv (diff n x y) (mk2 n BMult (Ok (EConst (n_ln10 n))) (Ok (EUn UId y)))).
        -- apply makes_new_bin; [exact D|]. apply makes_new_bin; [apply makes_const|apply CL].
        -- destruct (diff n x y); reflexivity.
  - destruct V as [q [p [V [Hq Hp]]]]. apply makes_load with (c := HUn q p); [exact W|exact V|].
    destruct (has_op_inv n k m p _ Hp) as [l [h [E [Hlo Hhi]]]].
    apply makes_load with (c := HIntegral l h v); [exact W|exact E|].
    intros m1 G. pose proof (grows_wf n m m1 G) as W1.
    assert (S : holds m1 [] m1) by (apply holds_start, W1).
    destruct (makes_then n C _ m IExpr _ _ m1 [] m1 G (makes_clone n order C k m l lo W Hlo) S) as [m2 [lo' [E2 H2]]].
    destruct (makes_then n C _ m IExpr _ _ m1 _ m2 G (makes_clone n order C k m h hi W Hhi) H2) as [m3 [hi' [E3 H3]]].
    destruct (holds_delete n C m1 hi' hi _ m3 H3) as [m4 [E4 H4]].
    destruct (holds_delete n C m1 lo' lo _ m4 H4) as [m5 [E5 H5]].
    exists m5, ExpressionNotDifferentiable. split.
    + rewrite (mbind_ok n _ _ _ _ _ E2), (mbind_ok n _ _ _ _ _ E3), (mbind_ok n _ _ _ _ _ E4), (mbind_ok n _ _ _ _ _ E5). reflexivity.
    + now apply holds_grows in H5.
  - destruct V as [l [p [r [V [Hl [Hp Hr]]]]]]. apply makes_load with (c := HBin l p r); [exact W|exact V|].
    apply (read_op m W _ IExpr k p (OBin n op) (HBop op)); [exact Hp|reflexivity|].
    assert (DY : makes m IExpr (hdiff_f n order k x l) (diff n x y)).
    { apply IH; [exact W| |exact Hl]. intros c. specialize (HG c). destruct x; [exact I|].
      cbn [has_grad] in HG. now apply orb_false_iff in HG. }
    assert (DZ : makes m IExpr (hdiff_f n order k x r) (diff n x z)).
    { apply IH; [exact W| |exact Hr]. intros c. specialize (HG c). destruct x; [exact I|].
      cbn [has_grad] in HG. now apply orb_false_iff in HG. }
    assert (CY : makes m IExpr (clone n order l) (Ok y)) by now apply (makes_clone n order C k).
    assert (CZ : makes m IExpr (clone n order r) (Ok z)) by now apply (makes_clone n order C k).
    destruct op.
    + now apply makes_new_bin.
    + now apply makes_new_bin.
    + apply makes_eq with (o := mk2 n BPlus (mk2 n BMult (diff n x y) (Ok z)) (mk2 n BMult (Ok y) (diff n x z))).
      * repeat apply makes_new_bin; assumption.
      * destruct (diff n x y), (diff n x z); reflexivity.
    + apply makes_eq with (o := mk2 n BDiv (mk2 n BMinus (mk2 n BMult (diff n x y) (Ok z)) (mk2 n BMult (Ok y) (diff n x z)))
                                  (mk2 n BMult (Ok z) (Ok z))).
      * repeat apply makes_new_bin; assumption.
      * destruct (diff n x y), (diff n x z); reflexivity.
    + apply makes_throw.
  - destruct V as [ps [V Hl]]. apply makes_load with (c := HVec ps); [exact W|exact V|].
    apply makes_vector. apply has_list_inv in Hl. clear V H.
    assert (HG' : C -> match x with DVar _ => True | DFun _ _ => existsb (has_grad n) es = false end) by exact HG.
    clear HG. induction Hl as [|p e ps es Hp Hl IHl]; constructor.
    + apply makes_via, IH; [exact W| |exact Hp]. intros c. specialize (HG' c). destruct x; [exact I|]. cbn in HG'. now apply orb_false_iff in HG'.
    + apply IHl. intros c. specialize (HG' c). destruct x; [exact I|]. cbn in HG'. now apply orb_false_iff in HG'.
Qed.

Lemma makes_hdiff : forall k m x a e, wf m -> harmless x e -> has k m (IExpr a e) ->
  makes m IExpr (hdiff n order x a) (diff n x e).
Proof.
  intros k m x a e W HG H. apply (makes_enough n C _ m IExpr (fun k => hdiff_f n order k x a)). intros m1 G.
  pose proof (grows_wf n m m1 G) as W1. apply makes_hdiff_f; [exact W1|exact HG|].
  apply (has_enough n k); [exact W1|]. now apply (has_later k m).
Qed.
End HeapOps.
