(* Two documents with the same tree up to ids stay so under the same calls at the same places. *)
From Coq Require Import List NArith ZArith Bool Arith Lia Permutation.
From Verif Require Import Bytes Utf8 Data Slab Parser Render Tree Abs Refine Num Api Ctx Edit Built Shown Swap Open Session Back Snapshot Restore.
Import ListNotations.

(* ---- shapes ---- *)
Definition ms (it : mitem nat) : mitem unit := let '(ii, ip, key, v) := it in (tt, ip, key, shape v).
Definition ss (it : sitem nat) : sitem unit := let '(ii, ip, v) := it in (tt, ip, shape v).
Lemma shape_m i p n k items : shape (TMap i p n k items) = TMap tt p n k (map ms items).
Proof. reflexivity. Qed.
Lemma shape_s i p n k items : shape (TSeq i p n k items) = TSeq tt p n k (map ss items).
Proof. reflexivity. Qed.
Lemma shape_pre (v w : tree nat) : shape v = shape w -> tpre v = tpre w.
Proof. destruct v, w; cbn; intros E; try discriminate E; now injection E. Qed.
Lemma shape_is_map (v w : tree nat) : shape v = shape w -> is_map v = is_map w.
Proof. destruct v, w; cbn; intros E; try discriminate E; reflexivity. Qed.
Lemma shape_is_seq (v w : tree nat) : shape v = shape w -> is_seq v = is_seq w.
Proof. destruct v, w; cbn; intros E; try discriminate E; reflexivity. Qed.
Lemma shape_ascalar (v w : tree nat) e : shape v = shape w -> ascalar v e = ascalar w e.
Proof.
  intros E. assert (A : forall ps bk, ablock v ps bk = ablock w ps bk).
  { intros. destruct v, w; cbn in E; try discriminate E; injection E; intros; subst; reflexivity. }
  destruct e; cbn [ascalar]; rewrite ?A; reflexivity.
Qed.
Lemma app_same {A B} (f : A -> B) l1 x l2 m1 y m2 : map f (l1 ++ x :: l2) = map f (m1 ++ y :: m2) -> length l1 = length m1 ->
  map f l1 = map f m1 /\ f x = f y /\ map f l2 = map f m2.
Proof.
  rewrite !map_app. cbn [map]. revert m1. induction l1 as [|a l1 IH]; intros [|c m1] E L; try discriminate L; cbn in *.
  - injection E; auto.
  - injection L as L. injection E as E1 E2. destruct (IH _ E2 L) as (-> & -> & ->). rewrite E1. auto.
Qed.
Lemma key_same (x y : mitem nat) : ms x = ms y -> mkey x = mkey y.
Proof. destruct x as [[[? ?] ?] ?], y as [[[? ?] ?] ?]. cbn. intros E. now injection E. Qed.
(* The first entry with the key is at the same position. *)
Lemma first_same key l1 x l2 m1 y m2 : map ms (l1 ++ x :: l2) = map ms (m1 ++ y :: m2) ->
  Forall (other_key key) l1 -> rs_id (mkey x) = key -> Forall (other_key key) m1 -> rs_id (mkey y) = key -> length l1 = length m1.
Proof.
  revert m1. induction l1 as [|a l1 IH]; intros [|c m1] E F X G Y; cbn in *; [reflexivity| | |].
  - injection E as E _. apply key_same in E. inversion G as [|? ? H]; subst. elim H. congruence.
  - injection E as E _. apply key_same in E. inversion F as [|? ? H]; subst. elim H. congruence.
  - f_equal. inversion F; inversion G; subst. injection E as _ E. eauto.
Qed.
Lemma none_same key l m1 y m2 : map ms l = map ms (m1 ++ y :: m2) -> Forall (other_key key) l -> rs_id (mkey y) = key -> False.
Proof.
  intros E F Y. assert (I : In (ms y) (map ms l)) by (rewrite E; apply in_map, in_elt). apply in_map_iff in I as (x & X & I).
  rewrite Forall_forall in F. apply (F x I). rewrite (key_same _ _ X). exact Y.
Qed.
Lemma gap_same {A B} n (l : list A) (m : list B) : length l = length m -> item_gap n l = item_gap n m.
Proof. destruct l, m; cbn; intros E; try discriminate; reflexivity. Qed.
Lemma last_same (l m : list (sitem nat)) : map ss l = map ss m ->
  match rev l with (_, _, v) :: _ => tpre v | [] => [SPACE] end = match rev m with (_, _, v) :: _ => tpre v | [] => [SPACE] end.
Proof.
  intros E. assert (R : map ss (rev l) = map ss (rev m)) by (rewrite !map_rev; congruence). destruct (rev l) as [|[[a p] v] l'], (rev m) as [|[[a' p'] v'] m']; cbn in R; try discriminate R; [reflexivity|].
  injection R as _ E2 _. now apply shape_pre.
Qed.
Lemma same_length {A B} (f : A -> B) l m : map f l = map f m -> length l = length m.
Proof. intros E. rewrite <- (map_length f l), E. apply map_length. Qed.

(* ---- the same call on trees of the same shape ---- *)
(* h and h' stand at the same place of the two trees. *)
Definition same_spot (a : tree nat) (h : nat) (a' : tree nat) (h' : nat) : Prop :=
  exists c w c' w', a = plug c w /\ tid w = h /\ a' = plug c' w' /\ tid w' = h' /\ cpath c = cpath c'.
Definition same_result (r : edit_result) (a : tree nat) (r' : edit_result) (a' : tree nat) : Prop :=
  match r, r' with
  | Handle h, Handle h' => same_spot a h a' h'
  | Handle _, _ | _, Handle _ => False
  | _, _ => r = r'
  end.
Lemma spot_here a a' : same_spot a (tid a) a' (tid a').
Proof. exists CHole, a, CHole, a'. auto. Qed.
Lemma inserted_same key s sc v h a v' h' a' : inserted key s sc v h a -> inserted key s sc v' h' a' -> shape v = shape v' ->
  shape a = shape a' /\ same_spot a h a' h'.
Proof.
  destruct 1 as [i p n k l ii ip kk w r K F|i p n k l ii vi F]; destruct 1 as [i' p' n' k' l' ii' ip' kk' w' r' K' F'|i' p' n' k' l' ii' vi' F']; rewrite !shape_m; intros E; injection E as -> -> -> E.
  - pose proof (first_same key _ _ _ _ _ _ E F K F' K') as L. destruct (app_same ms _ _ _ _ _ _ E L) as (E1 & E2 & E3). cbn in E2. injection E2 as -> -> E2. split.
    + rewrite !map_app. cbn [map ms shape tmap]. rewrite E1, E3, (shape_pre _ _ E2). reflexivity.
    + exists (CMapC i p' n' k' l ii ip' kk' CHole r), (TLeaf (tid w) (tpre w) sc), (CMapC i' p' n' k' l' ii' ip' kk' CHole r'), (TLeaf (tid w') (tpre w') sc). cbn. now rewrite L.
  - exfalso. eapply none_same; [symmetry; exact E|exact F'|exact K].
  - exfalso. eapply none_same; [exact E|exact F|exact K'].
  - split.
    + rewrite !map_app, E. cbn [map ms shape tmap]. rewrite (gap_same _ l l' (same_length _ _ _ E)). reflexivity.
    + exists (CMapC i p' n' k' l ii (item_gap n' l) (RS KBare key key) CHole []), (TLeaf vi (match s with Custom x => x | Auto => [SPACE] end) sc),
        (CMapC i' p' n' k' l' ii' (item_gap n' l') (RS KBare key key) CHole []), (TLeaf vi' (match s with Custom x => x | Auto => [SPACE] end) sc). cbn. now rewrite (same_length _ _ _ E).
Qed.
Lemma pushed_same s sc v h a v' h' a' : pushed s sc v h a -> pushed s sc v' h' a' -> shape v = shape v' -> shape a = shape a' /\ same_spot a h a' h'.
Proof.
  destruct 1 as [i p n k l ii vi]; destruct 1 as [i' p' n' k' l' ii' vi']. rewrite !shape_s. intros E. injection E as -> -> -> E. split.
  - f_equal. rewrite !map_app. f_equal; [exact E|]. cbn [map ss shape tmap]. rewrite (gap_same _ l l' (same_length _ _ _ E)). f_equal. f_equal. f_equal. destruct s; [exact (last_same _ _ E)|reflexivity].
  - eexists (CSeqC i p' n' k' l ii (item_gap n' l) CHole []), (TLeaf vi _ sc), (CSeqC i' p' n' k' l' ii' (item_gap n' l') CHole []), (TLeaf vi' _ sc). cbn. rewrite (same_length _ _ _ E). repeat split.
Qed.
Lemma removed_key_same key v x a v' x' a' : removed_key key v x a -> removed_key key v' x' a' -> shape v = shape v' -> x = x' /\ shape a = shape a'.
Proof.
  destruct 1 as [i p n k l it r K F|i p n k l F]; destruct 1 as [i' p' n' k' l' it' r' K' F'|i' p' n' k' l' F']; rewrite !shape_m; intros E; injection E as -> -> -> E.
  - pose proof (first_same key _ _ _ _ _ _ E F K F' K') as L. destruct (app_same ms _ _ _ _ _ _ E L) as (E1 & _ & E3). split; [reflexivity|]. rewrite !map_app. now rewrite E1, E3.
  - exfalso. eapply none_same; [symmetry; exact E|exact F'|exact K].
  - exfalso. eapply none_same; [exact E|exact F|exact K'].
  - now rewrite E.
Qed.
Lemma removed_at_same j v x a v' x' a' : removed_at j v x a -> removed_at j v' x' a' -> shape v = shape v' -> x = x' /\ shape a = shape a'.
Proof.
  destruct 1 as [i p n k l it r L|i p n k l L]; destruct 1 as [i' p' n' k' l' it' r' L'|i' p' n' k' l' L']; rewrite !shape_s; intros E; injection E as -> -> -> E.
  - destruct (app_same ss _ _ _ _ _ _ E) as (E1 & _ & E3); [exact (eq_trans L (eq_sym L'))|]. split; [reflexivity|]. f_equal. rewrite !map_app. f_equal; assumption.
  - exfalso. apply same_length in E. rewrite app_length in E. cbn [length] in E. unfold sitem in *. lia.
  - exfalso. apply same_length in E. rewrite app_length in E. cbn [length] in E. unfold sitem in *. lia.
  - split; [reflexivity|]. f_equal. exact E.
Qed.
Lemma inserted_map key s sc v h a : inserted key s sc v h a -> is_map v = true. Proof. now destruct 1. Qed.
Lemma removed_map key v x a : removed_key key v x a -> is_map v = true. Proof. now destruct 1. Qed.
Lemma pushed_seq s sc v h a : pushed s sc v h a -> is_seq v = true. Proof. now destruct 1. Qed.
Lemma removed_seq j v x a : removed_at j v x a -> is_seq v = true. Proof. now destruct 1. Qed.

Lemma calls_apart e : ikey e <> None -> psep e <> None \/ e = ClearSequence \/ (exists x, e = RemoveIndex x) -> False.
Proof. destruct e; cbn; intros H [K|[K|[x K]]]; congruence. Qed.
Lemma calls_apart' e : psep e <> None -> ikey e <> None \/ e = ClearMapping \/ (exists x, e = RemoveKey x) -> False.
Proof. destruct e; cbn; intros H [K|[K|[x K]]]; congruence. Qed.
Lemma effect_same c v e r a c' v' r' a' : effect c v e r a -> effect c' v' e r' a' -> shape v = shape v' -> amake c v = amake c' v' ->
  shape a = shape a' /\ same_result r a r' a'.
Proof.
  intros X Y E A. pose proof (shape_is_map _ _ E) as EM. pose proof (shape_is_seq _ _ E) as ES. pose proof (shape_ascalar _ _ e E) as EA. pose proof (shape_pre _ _ E) as EP.
  destruct X as [e sc C1 C2 C3|C1|n p C1 C2|C1|n p C1 C2|e sc key s h w C1 C2 C3|key x w C1|i p n k items C1|e sc s h w C1 C2 C3|j x w C1|i p n k items C1|e C1 C2|e C1 C2];
  inversion Y as [e0 sc0 D1 D2 D3|D1|n0 p0 D1 D2|D1|n0 p0 D1 D2|e0 sc0 key0 s0 h0 w0 D1 D2 D3|key0 x0 w0 D1|i0 p0 n0 k0 items0 D1|e0 sc0 s0 h0 w0 D1 D2 D3|j0 x0 w0 D1|i0 p0 n0 k0 items0 D1|e0 D1 D2|e0 D1 D2];
  subst; cbn [ascalar ikey psep is_map is_seq] in *; try congruence;
  try (exfalso; repeat match goal with H : _ \/ _ |- _ => destruct H | H : exists _, _ |- _ => destruct H end; subst; cbn [ascalar ikey psep] in *; congruence);
  try (exfalso; repeat match goal with
    | H : inserted _ _ _ _ _ _ |- _ => apply inserted_map in H
    | H : pushed _ _ _ _ _ |- _ => apply pushed_seq in H
    | H : removed_key _ _ _ _ |- _ => apply removed_map in H
    | H : removed_at _ _ _ _ |- _ => apply removed_seq in H end; congruence).
  - rewrite EA in C1. rewrite C1 in D1. injection D1 as ->. split; [cbn; now rewrite EP|reflexivity].
  - split; [exact E|apply spot_here].
  - rewrite A in C2. rewrite C2 in D2. injection D2 as -> ->. split; [reflexivity|apply (spot_here (TMap (tid v) p0 n0 CBlock []) (TMap (tid v') p0 n0 CBlock []))].
  - split; [exact E|apply spot_here].
  - rewrite A in C2. rewrite C2 in D2. injection D2 as -> ->. split; [reflexivity|apply (spot_here (TSeq (tid v) p0 n0 CBlock []) (TSeq (tid v') p0 n0 CBlock []))].
  - rewrite EA in C1. rewrite C1 in D1. injection D1 as ->. rewrite C2 in D2. injection D2 as -> ->. exact (inserted_same _ _ _ _ _ _ _ _ _ C3 D3 E).
  - exfalso. apply (calls_apart e); [congruence|left; congruence].
  - exfalso. apply (calls_apart e); [congruence|exact D2].
  - destruct (removed_key_same _ _ _ _ _ _ _ C1 D1 E) as [-> Q]. split; [exact Q|reflexivity].
  - rewrite !shape_m in E. injection E as -> -> -> _. split; reflexivity.
  - exfalso. apply (calls_apart e); [congruence|left; congruence].
  - rewrite EA in C1. rewrite C1 in D1. injection D1 as ->. rewrite C2 in D2. injection D2 as ->. exact (pushed_same _ _ _ _ _ _ _ _ C3 D3 E).
  - exfalso. apply (calls_apart' e); [congruence|exact D2].
  - destruct (removed_at_same _ _ _ _ _ _ _ C1 D1 E) as [-> Q]. split; [exact Q|reflexivity].
  - rewrite !shape_s in E. injection E as -> -> -> _. split; reflexivity.
  - exfalso. apply (calls_apart' e); [congruence|exact C2].
  - split; [exact E|reflexivity].
  - split; [exact E|reflexivity].
  - exfalso. apply (calls_apart e); [congruence|exact C2].
  - split; [exact E|reflexivity].
  - split; [exact E|reflexivity].
Qed.

(* ---- the same place ---- *)
Lemma plug_same c : forall c' v v', shape (plug c v) = shape (plug c' v') -> cpath c = cpath c' ->
  shape v = shape v' /\ (forall x, amake_in c x = amake_in c' x) /\ (forall a a', shape a = shape a' -> shape (plug c a) = shape (plug c' a')).
Proof.
  induction c as [|i p n k l ii ip key c IH r|i p n k l ii ip c IH r]; intros [|i' p' n' k' l' ii' ip' key' c' r'|i' p' n' k' l' ii' ip' c' r'] v v' E P; try discriminate P; cbn [plug] in E.
  - cbn. auto.
  - rewrite !shape_m in E. injection E as -> -> -> E. cbn in P. injection P as L P. destruct (app_same ms _ _ _ _ _ _ E L) as (E1 & E2 & E3). cbn in E2. injection E2 as -> -> E2.
    destruct (IH _ _ _ E2 P) as (Q1 & Q2 & Q3). split; [exact Q1|]. split; [intros x; apply Q2|]. intros a a' A. cbn [plug]. rewrite !shape_m. f_equal. rewrite !map_app. f_equal; [exact E1|].
    cbn [map ms]. rewrite (Q3 _ _ A). f_equal. exact E3.
  - rewrite shape_m, shape_s in E. discriminate E.
  - rewrite shape_m, shape_s in E. discriminate E.
  - rewrite !shape_s in E. injection E as -> -> -> E. cbn in P. injection P as L P. destruct (app_same ss _ _ _ _ _ _ E L) as (E1 & E2 & E3). cbn in E2. injection E2 as -> E2.
    destruct (IH _ _ _ E2 P) as (Q1 & Q2 & Q3). split; [exact Q1|]. split; [intros x; cbn; destruct k'; apply Q2|]. intros a a' A. cbn [plug]. rewrite !shape_s. f_equal. rewrite !map_app. f_equal; [exact E1|].
    cbn [map ss]. rewrite (Q3 _ _ A). f_equal. exact E3.
Qed.
Lemma plug_there c : forall v t', shape (plug c v) = shape t' -> exists c' v', t' = plug c' v' /\ cpath c' = cpath c.
Proof.
  induction c as [|i p n k l ii ip key c IH r|i p n k l ii ip c IH r]; intros v t' E; cbn [plug] in E.
  - exists CHole, t'. auto.
  - destruct t' as [i' p' s'|i' p' n' k' items'|i' p' n' k' items']; cbn in E; try discriminate E. injection E as _ _ _ E.
    change (map ms (l ++ (ii, ip, key, plug c v) :: r) = map ms items') in E. rewrite map_app in E. cbn [map] in E. symmetry in E. apply map_eq_app in E as (l' & r1 & -> & E1 & E). apply map_eq_cons in E as ([[[ii' ip'] key'] w] & r' & -> & E & _).
    cbn in E. injection E as _ _ E. symmetry in E. destruct (IH _ _ E) as (c' & v' & -> & P). exists (CMapC i' p' n' k' l' ii' ip' key' c' r'), v'. split; [reflexivity|]. cbn. rewrite P. f_equal. rewrite <- (map_length ms l'), E1. apply map_length.
  - destruct t' as [i' p' s'|i' p' n' k' items'|i' p' n' k' items']; cbn in E; try discriminate E. injection E as _ _ _ E.
    change (map ss (l ++ (ii, ip, plug c v) :: r) = map ss items') in E. rewrite map_app in E. cbn [map] in E. symmetry in E. apply map_eq_app in E as (l' & r1 & -> & E1 & E). apply map_eq_cons in E as ([[ii' ip'] w] & r' & -> & E & _).
    cbn in E. injection E as _ E. symmetry in E. destruct (IH _ _ E) as (c' & v' & -> & P). exists (CSeqC i' p' n' k' l' ii' ip' c' r'), v'. split; [reflexivity|]. cbn. rewrite P. f_equal. rewrite <- (map_length ss l'), E1. apply map_length.
Qed.
Lemma see_same (v v' : tree nat) : shape v = shape v' -> see v = see v'.
Proof. intros E. rewrite <- (see_shape v), E. apply see_shape. Qed.
Lemma wtree_same (v v' : tree nat) : shape v = shape v' -> wtree v = wtree v'.
Proof. intros E. rewrite <- (wtree_shape v), E. apply wtree_shape. Qed.
Lemma is_blank_shape (t : tree nat) : is_blank (shape t) = is_blank t.
Proof. destruct t as [i p []|i p n k []|i p n k []]; reflexivity. Qed.
Lemma dtree_shape (t : tree nat) : dtree (shape t) = dtree t.
Proof.
  assert (P : forall t : tree nat, dpre (shape t) = dpre t) by (intros t0; unfold dpre; now rewrite is_blank_shape, tpre_shape).
  induction t as [i p s|i p n k items IH|i p n k items IH] using tree_ind'; [reflexivity| |].
  - cbn. f_equal. f_equal. f_equal. rewrite map_map. apply map_ext_in. intros [[[ii ip] key] v] J. rewrite Forall_forall in IH. specialize (IH _ J). cbn [snd] in IH. unfold shape in *. cbn. now rewrite IH, P.
  - cbn. f_equal. f_equal. f_equal. rewrite map_map. apply map_ext_in. intros [[ii ip] v] J. rewrite Forall_forall in IH. specialize (IH _ J). cbn [snd] in IH. unfold shape in *. cbn. now rewrite IH, P.
Qed.
Lemma dtree_same (v v' : tree nat) : shape v = shape v' -> dtree v = dtree v'.
Proof. intros E. rewrite <- (dtree_shape v), E. apply dtree_shape. Qed.

(* ---- a restored document is the same tree, ids included ---- *)
Lemma restored_table hash doc doc' : restored doc doc' -> table_ok hash (doc_data doc) -> table_ok hash (doc_data doc').
Proof. intros (_ & _ & A & I & _) T k s H. apply I in H. rewrite A in H. apply assoc_in in H. now apply T. Qed.
Lemma restored_models hash doc doc' t suf : restored doc doc' -> models hash doc t suf ->
  exists t' suf', tid t' = tid t /\ models hash doc t' suf' /\ models hash doc' t' suf' /\
    Forall (interned hash (doc_data doc)) (suf' :: strings t') /\ Forall (interned hash (doc_data doc')) (suf' :: strings t').
Proof.
  intros R (M & RO & U & L). pose proof R as (R1 & R2 & R3 & R4 & R5 & R6). destruct (settle _ _ _ _ M) as (t' & M' & FI & _ & T).
  assert (exists suf', hash suf' = hash suf /\ interned hash (doc_data doc) suf') as (suf' & HS & IS).
  { destruct (in_assoc hash _ _ _ L) as [x E]. exists x. pose proof (assoc_in _ _ _ E) as J. destruct M as (_ & TB & _). pose proof (TB _ _ J) as HX. split; [congruence|]. unfold interned. now rewrite <- HX. }
  assert (FA : Forall (interned hash (doc_data doc')) (suf' :: strings t')).
  { constructor; [unfold interned; now rewrite R3|]. revert FI. apply Forall_impl. intros s. unfold interned. now rewrite R3. }
  assert (FL : forall d0 l, Forall (interned hash d0) l -> Forall (logged hash d0) l) by (intros d0 l; apply Forall_impl; intros s; apply assoc_in).
  exists t', suf'. split; [exact T|]. split; [|split; [|split; [now constructor|exact FA]]].
  - split; [exact M'|]. rewrite T, HS. split; [exact RO|]. split; [exact U|]. now apply assoc_in.
  - destruct M' as (H & TB & _). destruct H as (W & ND & G). split; [|].
    + split; [|split].
      * split; [exact R6|]. split; [exact ND|]. intros k e. now rewrite R5.
      * eapply restored_table; eauto.
      * apply FL. now inversion FA.
    + rewrite R1, R2, T, HS. split; [exact RO|]. split; [exact U|]. apply assoc_in. now inversion FA.
Qed.

(* ---- twins ---- *)
(* Two documents that were read from the same text, restored from a snapshot any number of times,
   and changed by the same calls at the same places. *)
Inductive twins (hash hash' : bytes -> sid) : document -> document -> Prop :=
| twins_read input doc doc' : from_slice hash input = Ok doc -> from_slice hash' input = Ok doc' -> twins hash hash' doc doc'
| twins_restore doc doc' s doc'' : twins hash hash' doc doc' -> no_collision hash' (doc_data doc') ->
    takes doc' s -> restore s = Some doc'' -> twins hash hash' doc doc''
| twins_edit doc doc' p id id' e r r' d1 d1' : twins hash hash' doc doc' -> place doc p id -> place doc' p id' ->
    run hash id e (doc_data doc) = Ok (r, d1) -> run hash' id' e (doc_data doc') = Ok (r', d1') ->
    twins hash hash' (edited doc d1) (edited doc' d1').

Section Twins.
Variables hash hash' : bytes -> sid.
Lemma restore_step doc s doc' t suf : takes doc s -> restore s = Some doc' -> no_collision hash' (doc_data doc) -> models hash' doc t suf -> models hash' doc' t suf.
Proof.
  intros TK R N M. destruct (restore_ok _ _ TK) as (d0 & Q & RS). rewrite R in Q. injection Q as <-. pose proof RS as (R1 & R2 & R3 & R4 & R5 & R6).
  assert (IN : forall x, logged hash' (doc_data doc) x -> logged hash' (doc_data doc') x).
  { intros x L. destruct M as ((_ & TB & _) & _). apply (logged_interned hash' _ _ TB N) in L. apply assoc_in. rewrite R3. exact L. }
  destruct M as ((H & TB & F) & RO & U & L). split; [|rewrite R1, R2; auto]. destruct H as (W & ND & G). split; [|split].
  - split; [exact R6|]. split; [exact ND|]. intros k e. now rewrite R5.
  - eapply restored_table; eauto.
  - revert F. apply Forall_impl. exact IN.
Qed.
Lemma twins_each doc doc' : twins hash hash' doc doc' -> (exists t suf, models hash doc t suf) /\ (exists t suf, models hash' doc' t suf).
Proof.
  induction 1 as [input doc doc' E E'|doc doc' s doc'' T (X & t & suf & M) N TK R|doc doc' p id id' e r r' d1 d1' T ((t & suf & M) & t' & suf' & M') P P' E E'].
  - destruct (parse_models _ _ _ E) as (t & suf & _ & M). destruct (parse_models _ _ _ E') as (t' & suf' & _ & M'). split; [exists t, suf|exists t', suf']; assumption.
  - split; [exact X|]. exists t, suf. eapply restore_step; eauto.
  - apply place_value in P, P'. destruct (value_ctx hash _ _ _ _ M P) as (c & v & -> & <-). destruct (value_ctx hash' _ _ _ _ M' P') as (c' & v' & -> & <-).
    destruct (edit_step hash _ _ _ _ _ _ _ M E) as (a & _ & MA & _). destruct (edit_step hash' _ _ _ _ _ _ _ M' E') as (a' & _ & MA' & _). split; [exists (plug c a), suf|exists (plug c' a'), suf']; assumption.
Qed.
Lemma twins_before doc doc' p id id' e r r' d1 d1' : twins hash hash' doc doc' -> place doc p id -> place doc' p id' ->
  run hash id e (doc_data doc) = Ok (r, d1) -> run hash' id' e (doc_data doc') = Ok (r', d1') -> no_collision hash d1 -> no_collision hash' d1' ->
  no_collision hash (doc_data doc) /\ no_collision hash' (doc_data doc').
Proof.
  intros T P P' E E' N N'. destruct (twins_each _ _ T) as ((t & suf & M) & t' & suf' & M').
  apply place_value in P, P'. destruct (value_ctx hash _ _ _ _ M P) as (c & v & -> & <-). destruct (value_ctx hash' _ _ _ _ M' P') as (c' & v' & -> & <-).
  destruct (edit_step hash _ _ _ _ _ _ _ M E) as (a & _ & _ & G & _). destruct (edit_step hash' _ _ _ _ _ _ _ M' E') as (a' & _ & _ & G' & _).
  split; [eapply grows_nc; [exact G|exact N]|eapply grows_nc; [exact G'|exact N']].
Qed.
(* One call on two documents of the same shape. *)
Lemma call_same doc doc' t t' suf p id id' e r r' d1 d1' : models hash doc t suf -> models hash' doc' t' suf -> shape t = shape t' ->
  place doc p id -> place doc' p id' -> run hash id e (doc_data doc) = Ok (r, d1) -> run hash' id' e (doc_data doc') = Ok (r', d1') ->
  no_collision hash d1 -> no_collision hash' d1' -> no_collision hash (doc_data doc) -> no_collision hash' (doc_data doc') ->
  exists c a c' a', models hash (edited doc d1) (plug c a) suf /\ models hash' (edited doc' d1') (plug c' a') suf /\ cpath c = p /\ cpath c' = p /\
    shape (plug c a) = shape (plug c' a') /\ same_result r a r' a'.
Proof.
  intros M M' S P P' E E' N1 N1' N N'.
  destruct (place_ctx hash _ _ _ _ _ M N P) as (c & v & -> & <- & PC). destruct (place_ctx hash' _ _ _ _ _ M' N' P') as (c' & v' & -> & <- & PC').
  destruct (edit_step hash _ _ _ _ _ _ _ M E) as (a & _ & MA & _ & EF). destruct (edit_step hash' _ _ _ _ _ _ _ M' E') as (a' & _ & MA' & _ & EF').
  specialize (EF N1). specialize (EF' N1'). assert (CC : cpath c = cpath c') by congruence. destruct (plug_same _ _ _ _ S CC) as (Q1 & Q2 & Q3).
  assert (AM : amake c v = amake c' v') by (unfold amake; rewrite (shape_pre _ _ Q1); apply Q2).
  destruct (effect_same _ _ _ _ _ _ _ _ _ EF EF' Q1 AM) as [SA SR].
  exists c, a, c', a'. repeat (split; [assumption|]). split; [now apply Q3|exact SR].
Qed.
Lemma twins_models doc doc' : twins hash hash' doc doc' -> no_collision hash (doc_data doc) -> no_collision hash' (doc_data doc') ->
  exists t t' suf, models hash doc t suf /\ models hash' doc' t' suf /\ shape t = shape t'.
Proof.
  induction 1 as [input doc doc' E E'|doc doc' s doc'' T IH N TK R|doc doc' p id id' e r r' d1 d1' T IH P P' E E'].
  - intros _ _. destruct (parse_models _ _ _ E) as (t & suf & A & M). destruct (parse_models _ _ _ E') as (t' & suf' & A' & M'). rewrite A in A'. injection A' as A' A''. subst suf'. exists t, t', suf. auto.
  - intros N1 _. destruct (IH N1 N) as (t & t' & suf & M & M' & S). exists t, t', suf. split; [exact M|]. split; [|exact S]. eapply restore_step; eauto.
  - cbn [edited doc_data]. intros N1 N1'. destruct (twins_before _ _ _ _ _ _ _ _ _ _ T P P' E E' N1 N1') as [N N']. destruct (IH N N') as (t & t' & suf & M & M' & S).
    destruct (call_same _ _ _ _ _ _ _ _ _ _ _ _ _ M M' S P P' E E' N1 N1' N N') as (c & a & c' & a' & MA & MA' & _ & _ & SA & _).
    exists (plug c a), (plug c' a'), suf. auto.
Qed.
End Twins.
