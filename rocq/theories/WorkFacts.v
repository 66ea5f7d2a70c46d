(** Lemmas for C79 (calls made by the recursive functions). *)
From Coq Require Import ZArith NArith List Bool Lia.
From Verif Require Import Outcome Num RtModel RtSpec RtFacts RtStep RtTermination RtSubst SubstAlg GrowFacts WorkModel WorkSpec.
Import ListNotations.

Section Work.
Context (n : num).
Local Notation expr := (expr n).
Local Notation isc := (is_constant n).

(** ** Counting does not change the results *)

Lemma fst_call : forall A (w : counted A), fst (call w) = fst w.
Proof. reflexivity. Qed.
Lemma fst_cthen : forall A B (w : counted A) (f : A -> counted B), fst (cthen w f) = bind (fst w) (fun a => fst (f a)).
Proof. intros A B [[a| |] k] f; reflexivity. Qed.
Lemma fst_cboth : forall A B C (a : counted A) (b : counted B) (f : A -> B -> outcome C), fst (cboth a b f) = both (fst a) (fst b) f.
Proof. reflexivity. Qed.
Lemma fst_cmap : forall A B (f : A -> B) w, fst (cmap f w) = omap f (fst w).
Proof. reflexivity. Qed.
Lemma fst_cif : forall A c (a b : counted A), fst (cif c a b) = bind (fst c) (fun q => if q then fst a else fst b).
Proof. intros A [[[]| |] k] a b; reflexivity. Qed.
Lemma fst_cand : forall a b, fst (cand a b) = bind (fst a) (fun q => if q then fst b else Ok false).
Proof. intros a b. unfold cand. now rewrite fst_cif. Qed.
Lemma fst_cor : forall a b, fst (cor a b) = oor (fst a) (fst b).
Proof. intros a b. unfold cor. now rewrite fst_cif. Qed.

Lemma bind_ext : forall A B (o : outcome A) (f g : A -> outcome B), (forall a, f a = g a) -> bind o f = bind o g.
Proof. intros A B [a| |] f g H; simpl; auto. Qed.

Lemma w_eval_fst : forall (e : expr) v, fst (w_eval n e v) = eval n e v.
Proof.
  induction e as [c|i|i t|op a IH|lo hi w a _ _ IH|op l r IHl IHr|es _] using expr_ind'; intros v; cbn [w_eval];
    rewrite fst_call; try reflexivity.
  - rewrite fst_cthen, IH. reflexivity.
  - rewrite fst_cthen, IH. reflexivity.
  - rewrite fst_cboth, IHl, IHr. reflexivity.
Qed.

Lemma w_unwrap_fst : forall e : expr, fst (w_unwrap n e) = unwrap n e.
Proof.
  induction e as [c|i|i t|op a IH|lo hi w a _ _ IH|op l r IHl IHr|es _] using expr_ind'; cbn [w_unwrap];
    rewrite fst_call; try reflexivity.
  - rewrite fst_cthen, IH. reflexivity.
  - rewrite fst_cthen, IH. reflexivity.
  - rewrite fst_cboth, IHl, IHr. reflexivity.
Qed.

Lemma w_isc_fst : forall e : expr, fst (w_is_constant n e) = Ok (isc e).
Proof.
  induction e as [c|i|i t|op a IH|lo hi w a _ _ IH|op l r IHl IHr|es _] using expr_ind'; cbn [w_is_constant];
    rewrite fst_call; try reflexivity.
  rewrite fst_cand, IHl, IHr. simpl. destruct (isc l); reflexivity.
Qed.

Lemma w_isc2_fst : forall l r : expr, fst (cand (w_is_constant n l) (w_is_constant n r)) = Ok (isc l && isc r).
Proof. intros l r. rewrite fst_cand, !w_isc_fst. simpl. destruct (isc l); reflexivity. Qed.

Lemma cif_isc : forall A (e : expr) (a b : counted A),
  fst (cif (w_is_constant n e) a b) = if isc e then fst a else fst b.
Proof. intros. rewrite fst_cif, w_isc_fst. reflexivity. Qed.
Lemma cif_isc2 : forall A (l r : expr) (a b : counted A),
  fst (cif (cand (w_is_constant n l) (w_is_constant n r)) a b) = if isc l && isc r then fst a else fst b.
Proof. intros. rewrite fst_cif, w_isc2_fst. reflexivity. Qed.

Lemma w_simplify_fst : forall e : expr, fst (w_simplify n e) = simplify n e.
Proof.
  induction e as [c|i|i t|op a IH|lo hi w a _ _ IH|op l r IHl IHr|es _] using expr_ind'; cbn [w_simplify simplify];
    rewrite fst_call; try reflexivity.
  - rewrite cif_isc. destruct (isc a).
    + destruct (u_can_simplify op); [rewrite fst_cthen|rewrite fst_cmap]; rewrite w_unwrap_fst; reflexivity.
    + rewrite fst_cmap, IH. reflexivity.
  - rewrite cif_isc. destruct (isc a); rewrite fst_cmap; [rewrite w_unwrap_fst|rewrite IH]; reflexivity.
  - rewrite cif_isc2. destruct (isc l && isc r).
    { rewrite fst_cmap, fst_call, fst_cboth, !w_unwrap_fst. reflexivity. }
    destruct op; try reflexivity; rewrite !cif_isc; (destruct (isc l); [|destruct (isc r)]);
      rewrite ?fst_cthen, ?w_unwrap_fst;
      try (apply bind_ext; intros x; destruct (n_eq n x _); rewrite ?fst_cmap, ?IHl, ?IHr; try reflexivity;
           destruct (n_eq n x _); rewrite ?fst_cmap, ?IHl, ?IHr; reflexivity).
    all: try (rewrite fst_cboth, IHl, IHr; reflexivity).
    destruct l as [| | | | | |a]; try (rewrite fst_cboth, IHl, IHr; reflexivity).
    destruct r as [| | | | | |b]; try (rewrite fst_cboth, IHl, IHr; reflexivity). reflexivity.
Qed.

Lemma w_tests_fst : forall (e : expr) cs rest, fst (w_tests n e cs rest) =
  if isc e then bind (unwrap n e) (fun x => if existsb (n_eq n x) cs then Ok true else fst rest) else fst rest.
Proof.
  intros e cs rest. unfold w_tests. rewrite cif_isc. destruct (isc e); [|reflexivity].
  rewrite fst_cthen, w_unwrap_fst. apply bind_ext. intros x. destruct (existsb _ _); reflexivity.
Qed.

Lemma tests1 : forall (e : expr) c rest,
  (if isc e then bind (unwrap n e) (fun x => if existsb (n_eq n x) [c] then Ok true else rest) else rest) =
  oor (const_eq n e c) rest.
Proof.
  intros e c rest. unfold oor, const_eq. destruct (isc e); [|reflexivity]. unfold omap.
  destruct (unwrap n e) as [x| |]; try reflexivity. simpl. now rewrite orb_false_r.
Qed.
Lemma tests2 : forall (e : expr) c d rest,
  (if isc e then bind (unwrap n e) (fun x => if existsb (n_eq n x) [c; d] then Ok true else rest) else rest) =
  oor (const_eq n e c) (oor (const_eq n e d) rest).
Proof.
  intros e c d rest. unfold oor, const_eq. destruct (isc e); [|reflexivity]. unfold omap.
  destruct (unwrap n e) as [x| |]; try reflexivity. simpl. rewrite orb_false_r. destruct (n_eq n x c); reflexivity.
Qed.

Lemma w_can_simplify_fst : forall e : expr, fst (w_can_simplify n e) = can_simplify n e.
Proof.
  induction e as [c|i|i t|op a IH|lo hi w a _ _ IH|op l r IHl IHr|es _] using expr_ind'; cbn [w_can_simplify can_simplify];
    rewrite fst_call; try reflexivity; try assumption.
  rewrite cif_isc2. destruct (isc l && isc r); [reflexivity|].
  cbv zeta. destruct op; try reflexivity; rewrite !w_tests_fst, ?tests1, ?tests2; try (rewrite fst_cor, IHl, IHr; reflexivity).
  do 4 f_equal. destruct l as [| | | | | |a]; try (rewrite fst_cor, IHl, IHr; reflexivity).
  destruct r as [| | | | | |b]; try (rewrite fst_cor, IHl, IHr; reflexivity). reflexivity.
Qed.

Lemma w_inplace_fst : forall k (e : expr), option_map fst (w_inplace n k e) = inplace_simplify n k e.
Proof.
  induction k as [|k IH]; intros e; [reflexivity|]. cbn [w_inplace inplace_simplify]. cbv zeta.
  rewrite w_can_simplify_fst, w_simplify_fst. destruct (can_simplify n e) as [[]| |]; try reflexivity.
  destruct (simplify n e) as [e'| |]; try reflexivity. rewrite <- IH. destruct (w_inplace n k e'); reflexivity.
Qed.

Lemma w_top_fst : forall e : expr, fst (w_simplify_top n e) = simplify_top n e.
Proof.
  intros e. unfold w_simplify_top, simplify_top. rewrite <- w_inplace_fst. destruct (w_inplace n _ e); reflexivity.
Qed.

Lemma w_deep_equal_fst : forall e o : expr, fst (w_deep_equal n e o) = deep_equal n e o.
Proof.
  induction e as [c|i|i t|op a IH|lo hi w a _ _ IH|op l r IHl IHr|es IHes] using expr_ind'; intros o; cbn [w_deep_equal deep_equal];
    rewrite fst_call; try reflexivity.
  - destruct o; try reflexivity; rewrite fst_cthen, IH; reflexivity.
  - destruct o; try reflexivity; try apply IH; rewrite fst_cthen, IH; reflexivity.
  - destruct o as [| | | | |op' l' r'|]; try reflexivity. rewrite fst_cthen, IHl. apply bind_ext. intros q.
    destruct (q && b_equal op op'); auto.
  - destruct o as [| | | | | |os]; try reflexivity. revert os. induction IHes as [|x es Hx _ IH]; intros [|y os]; try reflexivity.
    rewrite fst_cthen, Hx. apply bind_ext. intros [|]; [apply IH|reflexivity].
Qed.

Lemma w_seq_fst : forall A (l : list (counted A)), fst (w_seq l) = oseq (map fst l).
Proof.
  induction l as [|x l IH]; [reflexivity|]. cbn [w_seq map oseq]. rewrite fst_cthen. apply bind_ext. intros a.
  now rewrite fst_cmap, IH.
Qed.

Lemma map_fst_ext : forall (A : Type) (f : expr -> counted A) g es, Forall (fun e => fst (f e) = g e) es ->
  map fst (map f es) = map g es.
Proof. intros A f g es F. rewrite map_map. now apply map_ext_Forall. Qed.

Lemma w_subst1_fst : forall s r e : expr, fst (w_subst1 n s r e) = subst1 n s r e.
Proof.
  intros s r. induction e as [c|i|i t|op a IH|lo hi w a _ _ IH|op l r' IHl IHr|es IHes] using expr_ind'; cbn [w_subst1 subst1];
    rewrite fst_call, fst_cthen, w_deep_equal_fst; apply bind_ext; intros [|]; try reflexivity;
    rewrite ?fst_cmap, ?fst_cboth, ?IH, ?IHl, ?IHr; try reflexivity.
  now rewrite w_seq_fst, (map_fst_ext _ _ _ _ IHes).
Qed.

Lemma w_find_fst : forall (e : expr) ss rs, fst (w_find_match n e ss rs) = find_match n e ss rs.
Proof.
  intros e. induction ss as [|s ss IH]; intros rs; [reflexivity|]. cbn [w_find_match find_match].
  rewrite fst_cthen, w_deep_equal_fst. apply bind_ext. intros [|]; [reflexivity|apply IH].
Qed.

Lemma w_substv_fst : forall ss rs (e : expr), fst (w_substv n ss rs e) = substv n ss rs e.
Proof.
  intros ss rs. induction e as [c|i|i t|op a IH|lo hi w a _ _ IH|op l r' IHl IHr|es IHes] using expr_ind'; cbn [w_substv substv];
    rewrite fst_call, fst_cthen, w_find_fst; apply bind_ext; intros [|]; try reflexivity;
    rewrite ?fst_cmap, ?fst_cboth, ?IH, ?IHl, ?IHr; try reflexivity.
  now rewrite w_seq_fst, (map_fst_ext _ _ _ _ IHes).
Qed.

Lemma w_diff_fst : forall x (e : expr), fst (w_diff n x e) = diff n x e.
Proof.
  intros x. induction e as [c|i|i t|op a IH|lo hi w a _ _ IH|op l r IHl IHr|es IHes] using expr_ind'; cbn [w_diff];
    rewrite fst_call; try reflexivity.
  - destruct op; try reflexivity. destruct x as [j|j s]; [reflexivity|]. cbn [diff].
    rewrite fst_cthen, IH. apply bind_ext. intros d. rewrite fst_cif, w_deep_equal_fst. apply bind_ext. intros [|]; [reflexivity|].
    rewrite fst_cmap, IH. reflexivity.
  - destruct op; reflexivity.
  - rewrite fst_cmap, w_seq_fst, (map_fst_ext _ _ _ _ IHes). reflexivity.
Qed.

Lemma w_diff_top_fst : forall x (e : expr), fst (w_diff_top n x e) = diff_top n x e.
Proof.
  intros x e. unfold w_diff_top, diff_top. rewrite fst_cthen, w_diff_fst. apply bind_ext. apply w_top_fst.
Qed.

(** ** How many calls *)

Lemma snd_call : forall A (w : counted A), snd (call w) = S (snd w).
Proof. reflexivity. Qed.
Lemma snd_free : forall A (o : outcome A), snd (free o) = 0.
Proof. reflexivity. Qed.
Lemma snd_cthen : forall A B (w : counted A) (f : A -> counted B) k,
  (forall a, fst w = Ok a -> snd (f a) <= k) -> snd (cthen w f) <= snd w + k.
Proof. intros A B [[a| |] j] f k H; simpl in *; try lia. specialize (H a eq_refl). lia. Qed.
Lemma snd_cboth : forall A B C (a : counted A) (b : counted B) (f : A -> B -> outcome C), snd (cboth a b f) = snd a + snd b.
Proof. reflexivity. Qed.
Lemma snd_cmap : forall A B (f : A -> B) w, snd (cmap f w) = snd w.
Proof. reflexivity. Qed.
Lemma snd_cif : forall A c (a b : counted A) k, snd a <= k -> snd b <= k -> snd (cif c a b) <= snd c + k.
Proof. intros. apply snd_cthen. intros [|] _; auto. Qed.
Lemma snd_cand : forall a b, snd (cand a b) <= snd a + snd b.
Proof. intros. apply snd_cif; simpl; lia. Qed.
Lemma snd_cor : forall a b, snd (cor a b) <= snd a + snd b.
Proof. intros. apply snd_cif; simpl; lia. Qed.

Lemma w_eval_le : forall (e : expr) v, snd (w_eval n e v) <= nodes e.
Proof.
  induction e as [c|i|i t|op a IH|lo hi w a _ _ IH|op l r IHl IHr|es _] using expr_ind'; intros v; cbn [w_eval nodes];
    rewrite snd_call; try (rewrite snd_free; lia).
  - specialize (IH v). apply le_n_S. etransitivity; [apply (snd_cthen _ _ _ _ 0); intros; reflexivity|lia].
  - specialize (IH v). apply le_n_S. etransitivity; [apply (snd_cthen _ _ _ _ 0); intros; reflexivity|lia].
  - specialize (IHl v). specialize (IHr v). rewrite snd_cboth. lia.
Qed.

Lemma w_eval_eq : forall (e : expr) v x, eval n e v = Ok x -> snd (w_eval n e v) = nodes e.
Proof.
  induction e as [c|i|i t|op a IH|lo hi w a _ _ IH|op l r IHl IHr|es _] using expr_ind'; intros v x H; cbn [w_eval nodes];
    rewrite snd_call; try reflexivity.
  - cbn [eval] in H. destruct (eval n a v) as [y| |] eqn:E; try discriminate. specialize (IH v y E).
    unfold cthen. rewrite w_eval_fst, E. simpl. lia.
  - cbn [eval] in H. destruct (eval n a v) as [y| |] eqn:E; discriminate.
  - cbn [eval] in H. destruct (eval n l v) as [y| |] eqn:E, (eval n r v) as [z| |] eqn:F; try discriminate.
    rewrite snd_cboth, (IHl v y E), (IHr v z F). lia.
  - discriminate H.
Qed.

Lemma w_unwrap_le : forall e : expr, snd (w_unwrap n e) <= nodes e.
Proof.
  induction e as [c|i|i t|op a IH|lo hi w a _ _ IH|op l r IHl IHr|es _] using expr_ind'; cbn [w_unwrap nodes];
    rewrite snd_call; try (rewrite snd_free; lia).
  - apply le_n_S. etransitivity; [apply (snd_cthen _ _ _ _ 0); intros; reflexivity|lia].
  - apply le_n_S. etransitivity; [apply (snd_cthen _ _ _ _ 0); intros; reflexivity|lia].
  - rewrite snd_cboth. lia.
Qed.

Lemma w_isc_le : forall e : expr, snd (w_is_constant n e) <= nodes e.
Proof.
  induction e as [c|i|i t|op a IH|lo hi w a _ _ IH|op l r IHl IHr|es _] using expr_ind'; cbn [w_is_constant nodes];
    rewrite snd_call, ?snd_free; try lia.
  pose proof (snd_cand (w_is_constant n l) (w_is_constant n r)). lia.
Qed.

Lemma w_simplify_bin : forall op (l r : expr),
  snd (w_simplify n (EBin op l r)) <= 2 + 3 * (nodes l + nodes r) + snd (w_simplify n l) + snd (w_simplify n r).
Proof.
  intros op l r. cbn [w_simplify]. rewrite snd_call.
  pose proof (w_isc_le l). pose proof (w_isc_le r). pose proof (w_unwrap_le l). pose proof (w_unwrap_le r).
  pose proof (snd_cand (w_is_constant n l) (w_is_constant n r)).
  apply (Nat.le_trans _ (S (snd (cand (w_is_constant n l) (w_is_constant n r)) +
     (1 + 2 * (nodes l + nodes r) + snd (w_simplify n l) + snd (w_simplify n r))))); [|lia].
  apply le_n_S. apply snd_cif.
  - rewrite snd_cmap, snd_call, snd_cboth. lia.
  - assert (G : forall (a b c : counted expr),
      snd a <= snd (w_unwrap n l) + (snd (w_simplify n l) + snd (w_simplify n r)) ->
      snd b <= snd (w_unwrap n r) + (snd (w_simplify n l) + snd (w_simplify n r)) ->
      snd c <= snd (w_simplify n l) + snd (w_simplify n r) ->
      snd (cif (w_is_constant n l) a (cif (w_is_constant n r) b c)) <=
      1 + 2 * (nodes l + nodes r) + snd (w_simplify n l) + snd (w_simplify n r)).
    { intros a b c A B C.
      etransitivity; [apply snd_cif with (k := nodes l + 2 * nodes r + snd (w_simplify n l) + snd (w_simplify n r));
        [lia|]|lia].
      etransitivity; [apply snd_cif with (k := nodes l + nodes r + snd (w_simplify n l) + snd (w_simplify n r)); lia|lia]. }
    destruct op; try (rewrite snd_free; lia); apply G;
      try (apply snd_cthen; intros x _; destruct (n_eq n x _); rewrite ?snd_cmap, ?snd_free; try lia;
           destruct (n_eq n x _); rewrite ?snd_cmap; lia).
    all: try (rewrite snd_cboth; lia).
    destruct l; try (rewrite snd_cboth; lia). destruct r; try (rewrite snd_cboth; lia). rewrite snd_free. lia.
Qed.

Lemma w_simplify_le : forall e : expr, snd (w_simplify n e) <= 3 * nodes e * height e.
Proof.
  induction e as [c|i|i t|op a IH|lo hi w a _ _ IH|op l r IHl IHr|es _] using expr_ind';
    try (cbn [w_simplify nodes height]; rewrite snd_call, snd_free; nia).
  - cbn [w_simplify nodes height]. rewrite snd_call.
    pose proof (w_isc_le a). pose proof (w_unwrap_le a). pose proof (unwrap_const_nodes n a). pose proof (height_pos n a).
    apply (Nat.le_trans _ (S (snd (w_is_constant n a) + (nodes a + 3 * nodes a * height a)))); [|nia].
    apply le_n_S, snd_cif.
    + destruct (u_can_simplify op); [|rewrite snd_cmap; lia].
      etransitivity; [apply (snd_cthen _ _ _ _ 0); intros; reflexivity|lia].
    + rewrite snd_cmap. lia.
  - cbn [w_simplify nodes height]. rewrite snd_call.
    pose proof (w_isc_le a). pose proof (w_unwrap_le a). pose proof (unwrap_const_nodes n a). pose proof (height_pos n a).
    apply (Nat.le_trans _ (S (snd (w_is_constant n a) + (nodes a + 3 * nodes a * height a)))); [|nia].
    apply le_n_S, snd_cif; rewrite snd_cmap; lia.
  - pose proof (w_simplify_bin op l r). cbn [nodes height].
    pose proof (unwrap_const_nodes n l). pose proof (height_pos n l). pose proof (unwrap_const_nodes n r). pose proof (height_pos n r).
    set (m := Nat.max (height l) (height r)) in *. assert (height l <= m) by lia. assert (height r <= m) by lia.
    assert (snd (w_simplify n l) <= 3 * nodes l * m) by nia. assert (snd (w_simplify n r) <= 3 * nodes r * m) by nia. nia.
Qed.

Lemma w_tests_le : forall (e : expr) cs rest, snd (w_tests n e cs rest) <= snd (w_is_constant n e) + (snd (w_unwrap n e) + snd rest).
Proof.
  intros e cs rest. apply snd_cif; [|lia]. apply snd_cthen. intros x _. destruct (existsb _ _); simpl; lia.
Qed.

Lemma w_can_simplify_le : forall e : expr, snd (w_can_simplify n e) <= 3 * nodes e * height e.
Proof.
  induction e as [c|i|i t|op a IH|lo hi w a _ _ IH|op l r IHl IHr|es _] using expr_ind';
    cbn [w_can_simplify nodes height]; rewrite snd_call, ?snd_free; try nia.
  pose proof (unwrap_const_nodes n l). pose proof (height_pos n l). pose proof (unwrap_const_nodes n r). pose proof (height_pos n r).
  set (m := Nat.max (height l) (height r)) in *. assert (height l <= m) by lia. assert (height r <= m) by lia.
  assert (snd (w_can_simplify n l) <= 3 * nodes l * m) by nia. assert (snd (w_can_simplify n r) <= 3 * nodes r * m) by nia.
  pose proof (w_isc_le l). pose proof (w_isc_le r). pose proof (w_unwrap_le l). pose proof (w_unwrap_le r).
  pose proof (snd_cand (w_is_constant n l) (w_is_constant n r)).
  pose proof (snd_cor (w_can_simplify n l) (w_can_simplify n r)).
  apply (Nat.le_trans _ (S (snd (cand (w_is_constant n l) (w_is_constant n r)) +
     (2 * (nodes l + nodes r) + snd (w_can_simplify n l) + snd (w_can_simplify n r))))); [|nia].
  apply le_n_S, snd_cif; [rewrite snd_free; lia|]. cbv zeta.
  set (rest := cor (w_can_simplify n l) (w_can_simplify n r)) in *.
  assert (G : forall cs ds rest', snd rest' <= snd rest ->
    snd (w_tests n l cs (w_tests n r ds rest')) <= 2 * (nodes l + nodes r) + snd rest).
  { intros cs ds rest' L. etransitivity; [apply w_tests_le|]. pose proof (w_tests_le r ds rest'). lia. }
  destruct op; try (etransitivity; [apply G; lia|lia]); [|rewrite snd_free; lia].
  etransitivity; [apply G|lia]. destruct l; try lia. destruct r; try lia. rewrite snd_free. lia.
Qed.

Lemma w_inplace_le : forall k (e : expr) r, w_inplace n k e = Some r -> vector_free e ->
  snd r <= 6 * k * (nodes e * height e).
Proof.
  induction k as [|k IH]; intros e r H V; [discriminate|].
  cbn [w_inplace] in H. cbv zeta in H. pose proof (w_can_simplify_le e). pose proof (w_simplify_le e).
  rewrite w_can_simplify_fst, w_simplify_fst in H.
  destruct (can_simplify n e) as [[]| |] eqn:C; try (inversion H; subst; cbn [snd]; nia).
  destruct (simplify n e) as [e1| |] eqn:S1; try (inversion H; subst; cbn [snd]; nia).
  destruct (w_inplace n k e1) as [r1|] eqn:E; [|discriminate]. inversion H; subst. cbn [snd].
  apply simplify_sstep in S1. destruct (sstep_size n _ _ S1 V) as [V1 [A B]]. specialize (IH e1 r1 E V1).
  assert (nodes e1 * height e1 <= nodes e * height e) by nia. nia.
Qed.

Lemma w_inplace_mono : forall k m (e : expr) r, w_inplace n k e = Some r -> k <= m -> w_inplace n m e = Some r.
Proof.
  induction k as [|k IH]; intros m e r H L; [discriminate|]. destruct m as [|m]; [lia|].
  cbn [w_inplace] in *. cbv zeta in *. destruct (fst (w_can_simplify n e)) as [[]| |]; auto.
  destruct (fst (w_simplify n e)) as [e1| |]; auto.
  destruct (w_inplace n k e1) as [r1|] eqn:E; [|discriminate]. rewrite (IH m e1 r1 E) by lia. exact H.
Qed.

Lemma w_top_inplace : forall k (e : expr) o, inplace_simplify n k e = Some o ->
  w_inplace n k e = Some (w_simplify_top n e).
Proof.
  intros k e o H. rewrite <- w_inplace_fst in H. destruct (w_inplace n k e) as [r|] eqn:E; [|discriminate]. f_equal.
  unfold w_simplify_top. destruct (inplace_enough n (S (weight n e)) e) as [o' H']; [lia|].
  rewrite <- w_inplace_fst in H'. destruct (w_inplace n (S (weight n e)) e) as [r'|] eqn:E'; [|discriminate].
  pose proof (w_inplace_mono _ (max k (S (weight n e))) _ _ E ltac:(lia)).
  pose proof (w_inplace_mono _ (max k (S (weight n e))) _ _ E' ltac:(lia)). congruence.
Qed.

Lemma w_top_pass : forall e e' : expr, can_simplify n e = Ok true -> simplify n e = Ok e' ->
  snd (w_simplify_top n e) = snd (w_can_simplify n e) + snd (w_simplify n e) + snd (w_simplify_top n e').
Proof.
  intros e e' C S1. destruct (inplace_enough n (S (weight n e')) e') as [o H]; [lia|].
  set (k := S (weight n e')) in *. clearbody k. pose proof H as H0. rewrite <- w_inplace_fst in H0.
  assert (K : inplace_simplify n (S k) e = Some o).
  { rewrite <- w_inplace_fst. cbn [w_inplace]. cbv zeta. rewrite w_can_simplify_fst, C, w_simplify_fst, S1.
    destruct (w_inplace n k e'); exact H0. }
  apply w_top_inplace in H. apply w_top_inplace in K. cbn [w_inplace] in K. cbv zeta in K.
  rewrite w_can_simplify_fst, C, w_simplify_fst, S1, H in K.
  apply (f_equal (option_map snd)) in K. cbn [option_map snd] in K. congruence.
Qed.

Lemma w_top_done : forall e : expr, can_simplify n e = Ok false ->
  snd (w_simplify_top n e) = snd (w_can_simplify n e).
Proof.
  intros e C. unfold w_simplify_top. cbn [w_inplace]. cbv zeta. rewrite w_can_simplify_fst, C. reflexivity.
Qed.

Lemma w_top_le : forall e : expr, vector_free e ->
  snd (w_simplify_top n e) <= 12 * (nodes e * height e * height e) /\
  (sane n -> snd (w_simplify_top n e) <= 6 * (nodes e * height e * height e)).
Proof.
  intros e V. destruct (stable_height n e V) as [A B]. pose proof (height_pos n e). split; [|intros Sn].
  - destruct (stable_loop n _ e A) as [o O]. pose proof (w_inplace_le _ _ _ (w_top_inplace _ _ _ O) V).
    set (p := nodes e * height e) in *. nia.
  - destruct (stable_loop n _ e (B Sn)) as [o O]. pose proof (w_inplace_le _ _ _ (w_top_inplace _ _ _ O) V).
    set (p := nodes e * height e) in *. nia.
Qed.

Lemma w_deep_equal_le : forall e o : expr, snd (w_deep_equal n e o) <= nodes e /\ snd (w_deep_equal n e o) <= nodes o.
Proof.
  induction e as [c|i|i t|op a IH|lo hi w a _ _ IH|op l r IHl IHr|es IHes] using expr_ind'; intros o; cbn [w_deep_equal];
    rewrite snd_call; pose proof (unwrap_const_nodes n o);
    try (rewrite snd_free; cbn [nodes]; lia).
  - destruct o as [| | |op' b|lo' hi' w' b| |]; try (rewrite snd_free; cbn [nodes] in *; lia);
      (assert (X : forall f : bool -> counted bool, (forall q, snd (f q) = 0) -> snd (cthen (w_deep_equal n a b) f) <= snd (w_deep_equal n a b))
        by (intros f F; etransitivity; [apply (snd_cthen _ _ _ _ 0); intros q _; rewrite F; lia|lia]));
      destruct (IH b); cbn [nodes]; (split; (etransitivity; [apply le_n_S, X; reflexivity|lia])).
  - destruct o as [| | |op' b|lo' hi' w' b| |]; try (rewrite snd_free; cbn [nodes] in *; lia); destruct (IH b); cbn [nodes]; [|lia].
    assert (X : forall f : bool -> counted bool, (forall q, snd (f q) = 0) -> snd (cthen (w_deep_equal n a b) f) <= snd (w_deep_equal n a b))
        by (intros f F; etransitivity; [apply (snd_cthen _ _ _ _ 0); intros q _; rewrite F; lia|lia]).
    split; (etransitivity; [apply le_n_S, X; reflexivity|lia]).
  - destruct o as [| | | | |op' l' r'|]; try (rewrite snd_free; cbn [nodes] in *; lia).
    destruct (IHl l'), (IHr r'). cbn [nodes].
    assert (X : snd (cthen (w_deep_equal n l l') (fun q => if q && b_equal op op' then w_deep_equal n r r' else free (Ok false))) <=
                snd (w_deep_equal n l l') + snd (w_deep_equal n r r')).
    { apply snd_cthen. intros q _. destruct (q && b_equal op op'); simpl; lia. }
    lia.
  - destruct o as [| | | | | |os]; try (rewrite snd_free; cbn [nodes] in *; lia). cbn [nodes].
    enough (G : forall os, snd ((fix loop (this other : list expr) {struct this} : counted bool :=
       match other with
       | [] => free (Ok true)
       | y :: other' =>
           match this with
           | [] => free UB
           | x :: this' => cthen (w_deep_equal n x y) (fun q : bool => if q then loop this' other' else free (Ok false))
           end
       end) es os) <= list_sum (map nodes es) /\ snd ((fix loop (this other : list expr) {struct this} : counted bool :=
       match other with
       | [] => free (Ok true)
       | y :: other' =>
           match this with
           | [] => free UB
           | x :: this' => cthen (w_deep_equal n x y) (fun q : bool => if q then loop this' other' else free (Ok false))
           end
       end) es os) <= list_sum (map nodes os)) by (specialize (G os); lia).
    clear os H. induction IHes as [|x es Hx _ IH]; intros [|y os]; try (simpl; lia).
    destruct (Hx y), (IH os). cbn [map]. change (list_sum (nodes x :: map nodes es)) with (nodes x + list_sum (map nodes es)).
    change (list_sum (nodes y :: map nodes os)) with (nodes y + list_sum (map nodes os)).
    split; (etransitivity; [apply snd_cthen; intros [|] _; [reflexivity|apply Nat.le_0_l]|lia]).
Qed.

Lemma w_seq_le : forall A (f : expr -> counted A) (b : expr -> nat) es, Forall (fun e => snd (f e) <= b e) es ->
  snd (w_seq (map f es)) <= list_sum (map b es).
Proof.
  intros A f b es F. induction F as [|e es He F IH]; [simpl; lia|]. cbn [map w_seq].
  change (list_sum (b e :: map b es)) with (b e + list_sum (map b es)).
  etransitivity; [apply snd_cthen; intros a _; rewrite snd_cmap; exact IH|lia].
Qed.

Lemma list_sum_mult : forall (f : expr -> nat) k es, list_sum (map (fun e => f e * k) es) = list_sum (map f es) * k.
Proof.
  induction es as [|e es IH]; [reflexivity|]. cbn [map].
  change (list_sum (f e * k :: map (fun e => f e * k) es)) with (f e * k + list_sum (map (fun e => f e * k) es)).
  change (list_sum (f e :: map f es)) with (f e + list_sum (map f es)). lia.
Qed.

Lemma list_max_in : forall (f : expr -> nat) es, Forall (fun e => f e <= list_max (map f es)) es.
Proof.
  intros f es. apply Forall_forall. intros e I.
  assert (Q : Forall (fun k => k <= list_max (map f es)) (map f es)) by (apply list_max_le; lia).
  rewrite Forall_forall in Q. apply Q. now apply in_map.
Qed.

(** The calls of a substitution where comparing a subterm of [e] makes at most [c e] calls. *)
Lemma w_find_le : forall (e : expr) ss rs, snd (w_find_match n e ss rs) <= list_sum (map nodes ss) /\
  snd (w_find_match n e ss rs) <= length ss * nodes e.
Proof.
  intros e. induction ss as [|s ss IH]; intros rs; [simpl; lia|]. cbn [w_find_match map length].
  change (list_sum (nodes s :: map nodes ss)) with (nodes s + list_sum (map nodes ss)).
  destruct (w_deep_equal_le e s). specialize (IH (tl rs)).
  assert (X : snd (cthen (w_deep_equal n e s) (fun q : bool => if q then free match rs with [] => UB | r :: _ => Ok (Some r) end
     else w_find_match n e ss (tl rs))) <= snd (w_deep_equal n e s) + snd (w_find_match n e ss (tl rs))).
  { apply snd_cthen. intros [|] _; simpl; lia. }
  lia.
Qed.

Lemma w_subst1_le : forall s r e : expr,
  snd (w_subst1 n s r e) <= nodes e * S (nodes s) /\ snd (w_subst1 n s r e) <= nodes e * S (height e).
Proof.
  intros s r.
  assert (G : forall (e : expr) (w : counted expr) k, snd w <= k ->
    snd (call (cthen (w_deep_equal n e s) (fun q : bool => if q then free (Ok r) else w))) <= S (nodes s) + k /\
    snd (call (cthen (w_deep_equal n e s) (fun q : bool => if q then free (Ok r) else w))) <= S (nodes e) + k).
  { intros e w k K. rewrite snd_call. destruct (w_deep_equal_le e s).
    assert (X : snd (cthen (w_deep_equal n e s) (fun q : bool => if q then free (Ok r) else w)) <= snd (w_deep_equal n e s) + k).
    { apply snd_cthen. intros [|] _; simpl; lia. }
    lia. }
  induction e as [c|i|i t|op a IH|lo hi w a _ _ IH|op l r' IHl IHr|es IHes] using expr_ind'; cbn [w_subst1 nodes height].
  - destruct (G (EConst c) (free (Ok (EConst c))) 0 (le_n 0)) as [A B]. cbn [nodes] in B. lia.
  - destruct (G (EVar i) (free (Ok (EVar i))) 0 (le_n 0)) as [A B]. cbn [nodes] in B. lia.
  - destruct (G (EFun i t) (free (Ok (EFun i t))) 0 (le_n 0)) as [A B]. cbn [nodes] in B. lia.
  - destruct IH as [I1 I2]. destruct (G (EUn op a) (cmap (EUn op) (w_subst1 n s r a)) _ I1) as [A _].
    destruct (G (EUn op a) (cmap (EUn op) (w_subst1 n s r a)) _ I2) as [_ B]. cbn [nodes] in B. nia.
  - destruct IH as [I1 I2]. destruct (G (EInt lo hi w a) (cmap (EInt lo hi w) (w_subst1 n s r a)) _ I1) as [A _].
    destruct (G (EInt lo hi w a) (cmap (EInt lo hi w) (w_subst1 n s r a)) _ I2) as [_ B]. cbn [nodes] in B.
    split; [nia|]. set (m := Nat.max (Nat.max (height lo) (height hi)) (height a)) in *. assert (height a <= m) by lia. nia.
  - destruct IHl as [L1 L2], IHr as [R1 R2].
    pose (w := cboth (w_subst1 n s r l) (w_subst1 n s r r') (fun a b => Ok (EBin op a b))).
    destruct (G (EBin op l r') w (nodes l * S (nodes s) + nodes r' * S (nodes s))) as [A _]; [subst w; rewrite snd_cboth; lia|].
    destruct (G (EBin op l r') w (nodes l * S (height l) + nodes r' * S (height r'))) as [_ B]; [subst w; rewrite snd_cboth; lia|].
    subst w. cbn [nodes] in B. split; [nia|].
    set (m := Nat.max (height l) (height r')) in *. assert (height l <= m) by lia. assert (height r' <= m) by lia. nia.
  - pose (w := cmap EVec (w_seq (map (w_subst1 n s r) es))).
    destruct (G (EVec es) w (list_sum (map nodes es) * S (nodes s))) as [A _].
    { subst w. rewrite snd_cmap. rewrite <- list_sum_mult. apply w_seq_le. eapply Forall_impl; [|exact IHes]. intros e [I _]. exact I. }
    set (m := list_max (map height es)) in *.
    destruct (G (EVec es) w (list_sum (map nodes es) * S m)) as [_ B].
    { subst w. rewrite snd_cmap. rewrite <- list_sum_mult. apply w_seq_le.
      pose proof (list_max_in height es) as M. fold m in M. rewrite Forall_forall in *. intros e I. specialize (IHes e I). specialize (M e I). simpl in M. nia. }
    subst w. cbn [nodes] in B. split; nia.
Qed.

Lemma w_substv_le : forall ss rs (e : expr),
  snd (w_substv n ss rs e) <= nodes e * S (list_sum (map nodes ss)) /\
  snd (w_substv n ss rs e) <= nodes e * S (length ss * height e).
Proof.
  intros ss rs.
  assert (G : forall (e : expr) (w : counted expr) k, snd w <= k ->
    snd (call (cthen (w_find_match n e ss rs) (fun m => match m with Some r => free (Ok r) | None => w end))) <= S (list_sum (map nodes ss)) + k /\
    snd (call (cthen (w_find_match n e ss rs) (fun m => match m with Some r => free (Ok r) | None => w end))) <= S (length ss * nodes e) + k).
  { intros e w k K. rewrite snd_call. destruct (w_find_le e ss rs).
    assert (X : snd (cthen (w_find_match n e ss rs) (fun m => match m with Some r => free (Ok r) | None => w end)) <= snd (w_find_match n e ss rs) + k).
    { apply snd_cthen. intros [|] _; simpl; lia. }
    lia. }
  set (q := length ss) in *. set (z := list_sum (map nodes ss)) in *.
  induction e as [c|i|i t|op a IH|lo hi w a _ _ IH|op l r' IHl IHr|es IHes] using expr_ind'; cbn [w_substv nodes height].
  - destruct (G (EConst c) (free (Ok (EConst c))) 0 (le_n 0)) as [A B]. cbn [nodes] in B. lia.
  - destruct (G (EVar i) (free (Ok (EVar i))) 0 (le_n 0)) as [A B]. cbn [nodes] in B. lia.
  - destruct (G (EFun i t) (free (Ok (EFun i t))) 0 (le_n 0)) as [A B]. cbn [nodes] in B. lia.
  - destruct IH as [I1 I2]. destruct (G (EUn op a) (cmap (EUn op) (w_substv n ss rs a)) _ I1) as [A _].
    destruct (G (EUn op a) (cmap (EUn op) (w_substv n ss rs a)) _ I2) as [_ B]. cbn [nodes] in B. nia.
  - destruct IH as [I1 I2]. destruct (G (EInt lo hi w a) (cmap (EInt lo hi w) (w_substv n ss rs a)) _ I1) as [A _].
    destruct (G (EInt lo hi w a) (cmap (EInt lo hi w) (w_substv n ss rs a)) _ I2) as [_ B]. cbn [nodes] in B.
    split; [nia|]. set (m := Nat.max (Nat.max (height lo) (height hi)) (height a)) in *. assert (height a <= m) by lia.
    assert (q * height a <= q * m) by nia. assert (nodes a * (q * height a) <= nodes a * (q * m)) by nia. nia.
  - destruct IHl as [L1 L2], IHr as [R1 R2].
    pose (w := cboth (w_substv n ss rs l) (w_substv n ss rs r') (fun a b => Ok (EBin op a b))).
    destruct (G (EBin op l r') w (nodes l * S z + nodes r' * S z)) as [A _]; [subst w; rewrite snd_cboth; lia|].
    destruct (G (EBin op l r') w (nodes l * S (q * height l) + nodes r' * S (q * height r'))) as [_ B]; [subst w; rewrite snd_cboth; lia|].
    subst w. cbn [nodes] in B. split; [nia|].
    set (m := Nat.max (height l) (height r')) in *. assert (height l <= m) by lia. assert (height r' <= m) by lia.
    assert (q * height l <= q * m) by nia. assert (q * height r' <= q * m) by nia.
    assert (nodes l * (q * height l) <= nodes l * (q * m)) by nia. assert (nodes r' * (q * height r') <= nodes r' * (q * m)) by nia. nia.
  - pose (w := cmap EVec (w_seq (map (w_substv n ss rs) es))).
    destruct (G (EVec es) w (list_sum (map nodes es) * S z)) as [A _].
    { subst w. rewrite snd_cmap. rewrite <- list_sum_mult. apply w_seq_le. eapply Forall_impl; [|exact IHes]. intros e [I _]. exact I. }
    set (m := list_max (map height es)) in *.
    destruct (G (EVec es) w (list_sum (map nodes es) * S (q * m))) as [_ B].
    { subst w. rewrite snd_cmap. rewrite <- list_sum_mult. apply w_seq_le.
      pose proof (list_max_in height es) as M. fold m in M. rewrite Forall_forall in *. intros e I. specialize (IHes e I). specialize (M e I). simpl in M.
      assert (q * height e <= q * m) by nia. nia. }
    subst w. cbn [nodes] in B. split; nia.
Qed.

Lemma w_diff_le : forall x (e : expr),
  snd (w_diff n x e) + 1 <= 2 * nodes e * 2 ^ nested_gradients e.
Proof.
  intros x. induction e as [c|i|i t|op a IH|lo hi w a _ _ IH|op l r IHl IHr|es IHes] using expr_ind'.
  - simpl. lia.
  - simpl. lia.
  - simpl. lia.
  - cbn [w_diff nodes]. rewrite snd_call. pose proof (Nat.pow_nonzero 2 (nested_gradients a)).
    destruct op; cbn [nested_gradients]; rewrite ?snd_free; cbn [snd]; try nia.
    rewrite Nat.pow_succ_r'. destruct x as [j|j s]; [rewrite snd_free; nia|].
    assert (X : snd (cthen (w_diff n (DFun j s) a) (fun d => cif (w_deep_equal n d (EConst (c0 n))) (free (Ok (EConst (c0 n))))
        (cmap (EUn UGrad) (w_diff n (DFun j s) a)))) <= snd (w_diff n (DFun j s) a) + (1 + snd (w_diff n (DFun j s) a))).
    { apply snd_cthen. intros d _. destruct (w_deep_equal_le d (EConst (c0 n))) as [_ D]. cbn [nodes] in D.
      etransitivity; [apply snd_cif with (k := snd (w_diff n (DFun j s) a))|]; [rewrite snd_free|rewrite snd_cmap|]; lia. }
    nia.
  - cbn [w_diff nodes nested_gradients]. rewrite snd_call, snd_free. pose proof (Nat.pow_nonzero 2 (nested_gradients a)). nia.
  - cbn [w_diff nodes nested_gradients]. rewrite snd_call.
    set (g := Nat.max (nested_gradients l) (nested_gradients r)) in *.
    assert (2 ^ nested_gradients l <= 2 ^ g) by (apply Nat.pow_le_mono_r; lia).
    assert (2 ^ nested_gradients r <= 2 ^ g) by (apply Nat.pow_le_mono_r; lia).
    pose proof (Nat.pow_nonzero 2 g).
    destruct op; rewrite ?snd_free; cbn [snd]; nia.
  - cbn [w_diff nodes nested_gradients]. rewrite snd_call, snd_cmap. set (g := list_max (map nested_gradients es)) in *.
    assert (X : snd (w_seq (map (w_diff n x) es)) <= list_sum (map nodes es) * (2 * 2 ^ g)).
    { rewrite <- list_sum_mult. apply w_seq_le. pose proof (list_max_in nested_gradients es) as M. fold g in M.
      rewrite Forall_forall in *. intros e I. specialize (IHes e I). specialize (M e I). simpl in M.
      assert (2 ^ nested_gradients e <= 2 ^ g) by (apply Nat.pow_le_mono_r; lia). nia. }
    pose proof (Nat.pow_nonzero 2 g). nia.
Qed.

Lemma w_diff_var_le : forall i (e : expr), snd (w_diff n (DVar i) e) <= nodes e.
Proof.
  intros x. induction e as [c|i|i t|op a IH|lo hi w a _ _ IH|op l r IHl IHr|es IHes] using expr_ind';
    cbn [w_diff nodes]; rewrite snd_call, ?snd_free; try lia.
  - destruct op; rewrite ?snd_free; cbn [snd]; lia.
  - destruct op; rewrite ?snd_free; cbn [snd]; lia.
  - rewrite snd_cmap. apply le_n_S, w_seq_le, IHes.
Qed.

Lemma w_diff_top_le : forall x (e : expr), vector_free e ->
  snd (w_diff_top n x e) <= snd (w_diff n x e) + 324 * (nodes e * height e * height e * height e).
Proof.
  intros x e V. unfold w_diff_top. apply snd_cthen.
  intros d D. rewrite w_diff_fst in D. destruct (diff_size n x e d D) as [A B].
  pose proof (diff_vector_free n x e d D V) as Vd. destruct (w_top_le d Vd) as [T _].
  etransitivity; [exact T|].
  transitivity (12 * ((3 * nodes e * height e) * (3 * height e) * (3 * height e))); [|nia].
  apply Nat.mul_le_mono_l. apply Nat.mul_le_mono; [|exact B]. apply Nat.mul_le_mono; assumption.
Qed.

(** ** Exact numbers *)

Lemma w_unwrap_eq : forall (e : expr) x, unwrap n e = Ok x -> snd (w_unwrap n e) = nodes e.
Proof.
  induction e as [c|i|i t|op a IH|lo hi w a _ _ IH|op l r IHl IHr|es _] using expr_ind'; intros x H; cbn [w_unwrap nodes];
    rewrite snd_call; try reflexivity.
  - cbn [unwrap] in H. destruct (unwrap n a) as [y| |] eqn:E; try discriminate. specialize (IH y eq_refl).
    unfold cthen. rewrite w_unwrap_fst, E. simpl. lia.
  - cbn [unwrap] in H. destruct (unwrap n a) as [y| |] eqn:E; discriminate.
  - cbn [unwrap] in H. destruct (unwrap n l) as [y| |] eqn:E, (unwrap n r) as [z| |] eqn:F; try discriminate.
    rewrite snd_cboth, (IHl y eq_refl), (IHr z eq_refl). lia.
  - discriminate H.
Qed.

Lemma w_isc_eq : forall e : expr, isc e = true -> snd (w_is_constant n e) = nodes e.
Proof.
  induction e as [c|i|i t|op a IH|lo hi w a _ _ IH|op l r IHl IHr|es _] using expr_ind'; intros H; try discriminate; [reflexivity|].
  cbn [is_constant] in H. apply andb_true_iff in H as [A B]. cbn [w_is_constant nodes]. rewrite snd_call.
  unfold cand, cif, cthen. rewrite w_isc_fst, A. cbn [snd]. rewrite (IHl A), (IHr B). reflexivity.
Qed.

Lemma w_deep_equal_eq : forall e o : expr, vector_free e -> deep_equal n e o = Ok true ->
  snd (w_deep_equal n e o) = inner_nodes e.
Proof.
  induction e as [c|i|i t|op a IH|lo hi w a _ _ IH|op l r IHl IHr|es IHes] using expr_ind'; intros o V H; cbn [w_deep_equal inner_nodes];
    rewrite snd_call; try reflexivity.
  - cbn [deep_equal] in H. destruct o as [| | |op' b|lo' hi' w' b| |]; try discriminate.
    + destruct (deep_equal n a b) as [q| |] eqn:E; try discriminate. simpl in H. inversion H as [H'].
      apply andb_true_iff in H' as [-> U]. specialize (IH b (vf_un n _ _ V) E). unfold cthen. rewrite w_deep_equal_fst, E. simpl. lia.
    + destruct (deep_equal n a b); discriminate.
  - cbn [deep_equal] in H. destruct o as [| | |op' b|lo' hi' w' b| |]; try discriminate.
    + destruct (deep_equal n a b); discriminate.
    + now rewrite (IH b (proj1 (vf_int n _ _ _ _ V)) H).
  - cbn [deep_equal] in H. destruct o as [| | | | |op' l' r'|]; try discriminate. destruct (vf_bin n _ _ _ V) as [Vl Vr].
    destruct (deep_equal n l l') as [q| |] eqn:E; try discriminate. cbn [bind] in H.
    destruct (q && b_equal op op') eqn:Q; [|discriminate]. apply andb_true_iff in Q as [-> Q].
    unfold cthen. rewrite w_deep_equal_fst, E, Q. cbn [andb snd]. rewrite (IHl l' Vl E), (IHr r' Vr H). reflexivity.
  - exfalso. apply (V es), sub_refl.
Qed.

Lemma w_seq_eq : forall (A : Type) (f : expr -> counted A) (b : expr -> nat) es, Forall (fun e => exists a, fst (f e) = Ok a /\ snd (f e) = b e) es ->
  snd (w_seq (map f es)) = list_sum (map b es).
Proof.
  intros A f b es F. induction F as [|e es [a [E1 E2]] F IH]; [reflexivity|]. cbn [map w_seq].
  change (list_sum (b e :: map b es)) with (b e + list_sum (map b es)). unfold cthen. rewrite E1. cbn [snd]. rewrite snd_cmap. lia.
Qed.

Lemma oseq_ok : forall (A : Type) (f : expr -> outcome A) es r, oseq (map f es) = Ok r -> Forall (fun e => exists a, f e = Ok a) es.
Proof.
  intros A f. induction es as [|e es IH]; intros r H; [constructor|]. cbn [map oseq] in H.
  destruct (f e) as [a| |] eqn:E; try discriminate. cbn [bind] in H. unfold omap in H.
  destruct (oseq (map f es)) as [r'| |] eqn:F; try discriminate. constructor; eauto.
Qed.

Lemma w_subst_var_eq : forall i r (e : expr), snd (w_subst1 n (EVar i) r e) = 2 * inner_nodes e.
Proof.
  intros i r. 
  assert (D : forall e : expr, snd (w_deep_equal n e (EVar i)) = 1) by (intros []; reflexivity).
  assert (O : forall e : expr, exists r', subst1 n (EVar i) r e = Ok r').
  { induction e as [c|j|j t|op a [r1 IH]|lo hi w a _ _ [r1 IH]|op l r' [r1 IHl] [r2 IHr]|es IHes] using expr_ind'; cbn [subst1 deep_equal bind]; eauto.
    - destruct (N.eqb i j); eauto.
    - rewrite IH. cbn. eauto.
    - rewrite IH. cbn. eauto.
    - rewrite IHl, IHr. cbn. eauto.
    - enough (Q : exists rs, oseq (map (subst1 n (EVar i) r) es) = Ok rs) by (destruct Q as [rs ->]; cbn; eauto).
      induction IHes as [|e es [r1 E] F [rs IH]]; [cbn; eauto|]. cbn [map oseq]. rewrite E, IH. cbn. eauto. }
  induction e as [c|j|j t|op a IH|lo hi w a _ _ IH|op l r' IHl IHr|es IHes] using expr_ind'; cbn [w_subst1 inner_nodes];
    rewrite snd_call; unfold cthen; rewrite w_deep_equal_fst; cbn [deep_equal snd]; rewrite D; try reflexivity.
  - destruct (N.eqb i j); reflexivity.
  - rewrite snd_cmap, IH. lia.
  - rewrite snd_cmap, IH. lia.
  - rewrite snd_cboth, IHl, IHr. lia.
  - rewrite snd_cmap, (w_seq_eq _ _ (fun e => inner_nodes e * 2)), list_sum_mult; [lia|].
    apply Forall_forall. intros e I. destruct (O e) as [r' E]. exists r'. rewrite w_subst1_fst. split; [exact E|].
    rewrite Forall_forall in IHes. rewrite (IHes e I). lia.
Qed.

Lemma w_diff_eq : forall x (e d : expr), diff n x e = Ok d -> nested_gradients e = 0 -> snd (w_diff n x e) = nodes e.
Proof.
  intros x. induction e as [c|i|i t|op a IH|lo hi w a _ _ IH|op l r IHl IHr|es IHes] using expr_ind'; intros d H G;
    cbn [w_diff nodes]; rewrite snd_call; try reflexivity.
  - cbn [diff] in H. cbn [nested_gradients] in G.
    destruct op; try discriminate; (destruct (diff n x a) as [d'| |] eqn:E; try discriminate; cbn [snd]; rewrite (IH d' eq_refl G); reflexivity).
  - discriminate.
  - cbn [nested_gradients] in G. cbn [diff] in H. unfold mk2, both in H.
    destruct op; try discriminate;
      (destruct (diff n x l) as [dl| |] eqn:El, (diff n x r) as [dr| |] eqn:Er; try discriminate; cbn [snd];
       rewrite (IHl dl eq_refl), (IHr dr eq_refl) by lia; reflexivity).
  - cbn [diff] in H. unfold omap in H. destruct (oseq (map (diff n x) es)) as [ds| |] eqn:E; try discriminate.
    rewrite snd_cmap, (w_seq_eq _ _ nodes); [reflexivity|]. pose proof (oseq_ok _ _ _ _ E) as O.
    cbn [nested_gradients] in G. pose proof (list_max_in nested_gradients es) as M. rewrite G in M.
    rewrite Forall_forall in *. intros e I. destruct (O e I) as [d' D']. exists d'. rewrite w_diff_fst. split; [exact D'|].
    apply (IHes e I d' D'). specialize (M e I). simpl in M. lia.
Qed.

(** ** Two families that cost much *)

Lemma gradients_nodes : forall k i t, nodes (gradients_of k i t : expr) = S k.
Proof. induction k as [|k IH]; intros i t; [reflexivity|]. cbn [gradients_of nodes]. now rewrite IH. Qed.

(** grad^k(1). *)
Fixpoint gradients_of_one (k : nat) : expr :=
  match k with O => EConst (c1 n) | S k' => EUn UGrad (gradients_of_one k') end.

Lemma gradients_diff : forall i t, n_ge n (c0 n) (c1 n) = false ->
  forall k, diff n (DFun i t) (gradients_of k i t) = Ok (gradients_of_one k).
Proof.
  intros i t H. induction k as [|k IH].
  - cbn [gradients_of diff]. rewrite !N.eqb_refl. reflexivity.
  - cbn [gradients_of diff]. rewrite IH. cbn [bind].
    assert (Q : deep_equal n (gradients_of_one k) (EConst (c0 n)) = Ok false).
    { destruct k; cbn [gradients_of_one deep_equal]; [|reflexivity]. rewrite H, andb_false_r. reflexivity. }
    rewrite Q. reflexivity.
Qed.

Lemma gradients_calls : forall i t, n_ge n (c0 n) (c1 n) = false ->
  forall k, snd (w_diff n (DFun i t) (gradients_of k i t)) + 2 = 3 * 2 ^ k.
Proof.
  intros i t H. induction k as [|k IH]; [reflexivity|].
  cbn [gradients_of w_diff]. rewrite snd_call, Nat.pow_succ_r'. unfold cthen at 1. rewrite w_diff_fst, (gradients_diff i t H k).
  cbn [snd]. unfold cif, cthen. rewrite w_deep_equal_fst.
  assert (Q : deep_equal n (gradients_of_one k) (EConst (c0 n)) = Ok false).
  { destruct k; cbn [gradients_of_one deep_equal]; [|reflexivity]. rewrite H, andb_false_r. reflexivity. }
  rewrite Q. cbn [snd]. rewrite snd_cmap.
  assert (Q1 : snd (w_deep_equal n (gradients_of_one k) (EConst (c0 n))) = 1) by (destruct k; reflexivity).
  rewrite Q1. lia.
Qed.

Lemma pow_beats : forall p, exists k, (k + 1) ^ p + p + 2 < 3 * 2 ^ k.
Proof.
  intros p. pose (m := 2 * p). pose (j := 2 * m). exists (2 ^ j).
  assert (A : (j + 1) * p + 1 <= 2 ^ j).
  { subst j. replace (2 * m) with (m + m) at 2 by lia. rewrite Nat.pow_add_r.
    assert (m + 1 <= 2 ^ m) by (pose proof (Nat.pow_gt_lin_r 2 m); lia). subst m. nia. }
  assert (B : (2 ^ j + 1) ^ p <= 2 ^ ((j + 1) * p)).
  { rewrite Nat.pow_mul_r. apply Nat.pow_le_mono_l. rewrite Nat.pow_add_r. pose proof (Nat.pow_nonzero 2 j). simpl (2 ^ 1). lia. }
  assert (C : p < 2 ^ ((j + 1) * p)).
  { eapply Nat.lt_le_trans; [apply (Nat.pow_gt_lin_r 2); lia|]. apply Nat.pow_le_mono_r; nia. }
  assert (D : 2 ^ ((j + 1) * p + 1) <= 2 ^ (2 ^ j)) by (apply Nat.pow_le_mono_r; lia).
  rewrite Nat.pow_add_r in D. simpl (2 ^ 1) in D. lia.
Qed.

Lemma sum_nodes_x : forall k, nodes (sum_of_x k : expr) = 2 * k + 1.
Proof. induction k as [|k IH]; [reflexivity|]. cbn [sum_of_x nodes]. rewrite IH. lia. Qed.

Lemma sum_x_vector_free : forall k, vector_free (sum_of_x k : expr).
Proof.
  induction k as [|k IH]; [|apply vf_bin_i; [exact IH|]]; intros es H; inversion H.
Qed.

Lemma sum_x_isc : forall k, isc (sum_of_x k) = false /\ snd (w_is_constant n (sum_of_x k)) = k + 1.
Proof.
  induction k as [|k [A B]]; [split; reflexivity|]. cbn [sum_of_x is_constant w_is_constant]. rewrite snd_call.
  split; [rewrite A; reflexivity|]. unfold cand, cif, cthen. rewrite w_isc_fst, A. cbn [snd free]. lia.
Qed.

Lemma sum_x_can : forall k, can_simplify n (sum_of_x k) = Ok false /\
  snd (w_can_simplify n (sum_of_x k)) = k * k + 4 * k + 1.
Proof.
  induction k as [|k [A B]]; [split; reflexivity|].
  destruct (sum_x_isc k) as [C D]. cbn [sum_of_x can_simplify w_can_simplify]. unfold const_eq. rewrite C. cbn [andb is_constant oor bind].
  rewrite A. split; [reflexivity|]. rewrite snd_call. unfold cif at 1, cthen at 1. rewrite w_isc2_fst, C. cbn [andb snd].
  unfold w_tests, cif, cthen. rewrite !w_isc_fst, C. cbn [is_constant snd].
  unfold cor, cand, cif, cthen. rewrite w_can_simplify_fst, A, w_isc_fst, C. cbn [snd free]. rewrite D, B.
  cbn [w_is_constant w_can_simplify]. rewrite !snd_call. cbn [snd free]. lia.
Qed.

Lemma sum_x_top : forall k, w_simplify_top n (sum_of_x k) = (Ok (sum_of_x k), k * k + 4 * k + 1).
Proof.
  intros k. destruct (sum_x_can k) as [A B]. unfold w_simplify_top. cbn [w_inplace]. cbv zeta.
  rewrite w_can_simplify_fst, A, B. reflexivity.
Qed.
End Work.
