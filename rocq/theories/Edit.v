(* What every editing call does to the tree of a document. *)
From Coq Require Import List NArith ZArith Bool Arith Lia Permutation.
From Verif Require Import Bytes Utf8 Data Slab Render Tree Num Api Ctx.
Import ListNotations.

(* ---- the effect of the calls on trees ---- *)
Definition anull (k : null_kind) : nullk bytes :=
  match k with NuKeyword => NKeyword kw_null | NuTilde => NTilde | NuEmpty => NEmpty end.
Definition askind (k : string_kind) : strk bytes :=
  match k with SBare => KBare | SSingle => KSingle | SDouble => KDouble end.
(* A block written as value v, or as a member of the collection v. *)
Definition ablock_at (indent : nat) (prefix : bytes) (parts : list bytes) (b : block_kind) : scalar bytes :=
  let '(mark, join, chomp) := match b with Literal c => (PIPE, NEWLINE, c) | Folded c => (GT, SPACE, c) end in
  ScStr (RS KOriginal (block_content join parts ++ match chomp with Strip => [] | _ => [NEWLINE] end)
            (mark :: chomp_byte chomp ++ block_original prefix indent parts)).
Definition ablock {I} (v : tree I) (parts : list bytes) (b : block_kind) : scalar bytes :=
  match v with
  | TLeaf _ p _ => ablock_at 2 (after_last_nl p) parts b
  | TMap _ _ n _ _ | TSeq _ _ n _ _ => ablock_at (n + 2) [] parts b
  end.
Definition astring (s : bytes) : scalar bytes := ScStr (RS (detect s) s s).
Definition abool (v : bool) : scalar bytes := ScBool v (if v then kw_true else kw_false).
(* The scalar that a call writes. *)
Definition ascalar {I} (v : tree I) (e : edit) : option (scalar bytes) :=
  match e with
  | SetNull k => Some (ScNull (anull k))
  | SetString s | InsertStr _ s | PushString s => Some (astring s)
  | SetStringWith s k => Some (ScStr (RS (askind k) s s))
  | SetBlock ps b | InsertBlock _ ps b | PushBlock ps b => Some (ablock v ps b)
  | SetBool x | InsertBool _ x | PushBool x => Some (abool x)
  | SetInt h z | InsertInt _ h z | PushInt h z => Some (ScNum (itoa z) h)
  | SetFloat h t | InsertFloat _ h t | PushFloat h t => Some (ScNum t h)
  | Insert _ _ | Push _ => Some (ScNull NEmpty)
  | MakeMapping | MakeSequence | RemoveKey _ | ClearMapping | RemoveIndex _ | ClearSequence => None
  end.
Definition ikey (e : edit) : option (bytes * separator) :=
  match e with
  | Insert k s => Some (k, s)
  | InsertStr k _ | InsertBlock k _ _ | InsertBool k _ | InsertInt k _ _ | InsertFloat k _ _ => Some (k, Auto)
  | _ => None
  end.
Definition psep (e : edit) : option separator :=
  match e with
  | Push s => Some s
  | PushString _ | PushBlock _ _ | PushBool _ | PushInt _ _ | PushFloat _ _ => Some Auto
  | _ => None
  end.
(* Indentation and white space of a new collection. *)
Definition under (p : bytes) (n : nat) : nat * bytes :=
  (n + 2, NEWLINE :: concat (firstn (n + 2) (chars (after_last_nl p) ++ repeat [SPACE] (n + 2)))).
Fixpoint amake_in (c : ctx) (dflt : nat * bytes) : nat * bytes :=
  match c with
  | CHole => dflt
  | CMapC _ p n _ _ _ _ _ c _ => amake_in c (under p n)
  | CSeqC _ p n CBlock _ _ ip c _ => amake_in c (count_indent ip + 2, [SPACE])
  | CSeqC _ p n _ _ _ _ c _ => amake_in c (under p n)
  end.
Definition amake (c : ctx) (v : tree nat) : nat * bytes := amake_in c (count_indent (tpre v), tpre v).

Definition item_gap {A} (n : nat) (items : list A) : bytes :=
  match items with [] => [] | _ => nl_indent (n + 1) end.
Definition other_key (key : bytes) (it : mitem nat) : Prop := rs_id (mkey it) <> key.
Inductive inserted (key : bytes) (s : separator) (sc : scalar bytes) : tree nat -> nat -> tree nat -> Prop :=
| ins_old i p n k l ii ip kk v r : rs_id kk = key -> Forall (other_key key) l ->
    inserted key s sc (TMap i p n k (l ++ (ii, ip, kk, v) :: r)) (tid v)
      (TMap i p n k (l ++ (ii, ip, kk, TLeaf (tid v) (tpre v) sc) :: r))
| ins_new i p n k items ii vi : Forall (other_key key) items ->
    inserted key s sc (TMap i p n k items) vi
      (TMap i p n k (items ++ [(ii, item_gap n items, RS KBare key key,
        TLeaf vi (match s with Custom x => x | Auto => [SPACE] end) sc)])).
Inductive pushed (s : separator) (sc : scalar bytes) : tree nat -> nat -> tree nat -> Prop :=
| pushed_new i p n k items ii vi :
    pushed s sc (TSeq i p n k items) vi
      (TSeq i p n k (items ++ [(ii, item_gap n items,
        TLeaf vi (match s with
                  | Custom x => x
                  | Auto => match rev items with (_, _, v) :: _ => tpre v | [] => [SPACE] end
                  end) sc)])).
Inductive removed_key (key : bytes) : tree nat -> bool -> tree nat -> Prop :=
| rem_found i p n k l it r : rs_id (mkey it) = key -> Forall (other_key key) l ->
    removed_key key (TMap i p n k (l ++ it :: r)) true (TMap i p n k (l ++ r))
| rem_absent i p n k items : Forall (other_key key) items ->
    removed_key key (TMap i p n k items) false (TMap i p n k items).
Inductive removed_at (x : nat) : tree nat -> bool -> tree nat -> Prop :=
| remat_found i p n k l it r : length l = x ->
    removed_at x (TSeq i p n k (l ++ it :: r)) true (TSeq i p n k (l ++ r))
| remat_absent i p n k items : length items <= x ->
    removed_at x (TSeq i p n k items) false (TSeq i p n k items).
Definition is_map {I} (v : tree I) : bool := match v with TMap _ _ _ _ _ => true | _ => false end.
Definition is_seq {I} (v : tree I) : bool := match v with TSeq _ _ _ _ _ => true | _ => false end.

Inductive effect (c : ctx) (v : tree nat) : edit -> edit_result -> tree nat -> Prop :=
| eff_set e sc : ascalar v e = Some sc -> ikey e = None -> psep e = None ->
    effect c v e Done (TLeaf (tid v) (tpre v) sc)
| eff_map_same : is_map v = true -> effect c v MakeMapping (Handle (tid v)) v
| eff_map n p : is_map v = false -> amake c v = (n, p) ->
    effect c v MakeMapping (Handle (tid v)) (TMap (tid v) p n CBlock [])
| eff_seq_same : is_seq v = true -> effect c v MakeSequence (Handle (tid v)) v
| eff_seq n p : is_seq v = false -> amake c v = (n, p) ->
    effect c v MakeSequence (Handle (tid v)) (TSeq (tid v) p n CBlock [])
| eff_insert e sc key s h v' : ascalar v e = Some sc -> ikey e = Some (key, s) ->
    inserted key s sc v h v' -> effect c v e (Handle h) v'
| eff_remove_key key b v' : removed_key key v b v' -> effect c v (RemoveKey key) (Removed b) v'
| eff_clear_map i p n k items : v = TMap i p n k items ->
    effect c v ClearMapping Done (TMap i p n k [])
| eff_push e sc s h v' : ascalar v e = Some sc -> psep e = Some s ->
    pushed s sc v h v' -> effect c v e (Handle h) v'
| eff_remove_at x b v' : removed_at x v b v' -> effect c v (RemoveIndex x) (Removed b) v'
| eff_clear_seq i p n k items : v = TSeq i p n k items ->
    effect c v ClearSequence Done (TSeq i p n k [])
| eff_no_map e : is_map v = false ->
    (ikey e <> None \/ e = ClearMapping \/ exists key, e = RemoveKey key) ->
    effect c v e NotApplicable v
| eff_no_seq e : is_seq v = false ->
    (psep e <> None \/ e = ClearSequence \/ exists x, e = RemoveIndex x) ->
    effect c v e NotApplicable v.

(* ---- the calls have these effects ---- *)
Section Edit.
Variable hash : bytes -> sid.
Local Notation cells := (cells hash).
Local Notation mcells := (mcells hash).
Local Notation scells := (scells hash).
Local Notation kids := (kids hash).
Local Notation traw := (traw hash).
Local Notation logged := (logged hash).
Local Notation no_collision := (no_collision hash).

Definition Sd (L : list bytes) (F : list (nat * entry)) (d : data) : Prop :=
  has (d_slab d) F /\ table_ok hash d /\ Forall (logged d) L.
Definition grows (d d' : data) : Prop := incl (d_strings d) (d_strings d').
Definition wpd {A} (m : D A) (d : data) (Q : A -> data -> Prop) : Prop :=
  exists a d', m d = Ok (a, d') /\ Q a d'.

Lemma grows_refl d : grows d d. Proof. apply incl_refl. Qed.
Lemma grows_trans d1 d2 d3 : grows d1 d2 -> grows d2 d3 -> grows d1 d3.
Proof. apply incl_tran. Qed.
Lemma grows_nc d d' : grows d d' -> no_collision d' -> no_collision d.
Proof. apply no_collision_ext. Qed.
Lemma Sd_weak L L' F F' d : incl L' L -> Permutation F F' -> Sd L F d -> Sd L' F' d.
Proof.
  intros I P (H & T & G). split; [now apply (has_perm _ F)|]. split; [exact T|].
  rewrite Forall_forall in *. intros x X. apply G, I, X.
Qed.
Lemma Sd_get L F d k e : Sd L F d -> In (k, e) F -> slab_get (d_slab d) k = Some e.
Proof. intros (H & _) I. now apply (has_get _ F). Qed.
Lemma Sd_logged L F d s : Sd L F d -> In s L -> logged d s.
Proof. intros (_ & _ & G) I. rewrite Forall_forall in G. auto. Qed.
Lemma wp_ret {A} (a : A) d (Q : A -> data -> Prop) : Q a d -> wpd (ret a) d Q.
Proof. intros H. exists a, d. auto. Qed.
Lemma wp_bind {A B} (m : D A) (f : A -> D B) d Q :
  wpd m d (fun a d' => wpd (f a) d' Q) -> wpd (bind m f) d Q.
Proof.
  intros (a & d' & E & b & d'' & E' & H). exists b, d''. split; [|exact H].
  unfold bind. now rewrite E.
Qed.
Lemma wp_mono {A} (m : D A) d (Q Q' : A -> data -> Prop) :
  wpd m d Q -> (forall a d', Q a d' -> Q' a d') -> wpd m d Q'.
Proof. intros (a & d' & E & H) I. exists a, d'. auto. Qed.
Lemma wp_read {A} (f : data -> outcome A) d a (Q : A -> data -> Prop) :
  f d = Ok a -> Q a d -> wpd (read f) d Q.
Proof. intros E H. exists a, d. unfold read. rewrite E. auto. Qed.

Lemma wp_intern x d L F : Sd L F d ->
  wpd (insert_str hash x) d (fun h d' => h = hash x /\ Sd (x :: L) F d' /\ grows d d').
Proof.
  intros (H & T & G). destruct (insert_str_ok hash x d T) as (d' & E & E1 & T' & X & L').
  exists (hash x), d'. split; [exact E|]. split; [reflexivity|]. split.
  - split; [now rewrite E1|]. split; [exact T'|]. constructor; [exact L'|]. eapply ext_all; eauto.
  - intros [k s] I. pose proof (T k s I) as ->. apply X. exact I.
Qed.
Lemma wp_insert r p par d L F : Sd L F d ->
  wpd (insert r p par) d (fun id d' => Sd L ((id, Entry r p par) :: F) d' /\ grows d d').
Proof.
  intros (H & T & G). destruct (has_insert _ _ (Entry r p par) H) as (k & s' & E & H').
  exists k, (set_slab d s'). split; [unfold insert; now rewrite E|]. split; [|exact (incl_refl (d_strings d))].
  split; [exact H'|]. split; [exact T|exact G].
Qed.
Lemma wp_set_raw L F d id r r' p par : Sd L ((id, Entry r p par) :: F) d ->
  wpd (set_raw id r') d (fun _ d' => Sd L ((id, Entry r' p par) :: F) d' /\ grows d d').
Proof.
  intros (H & T & G). unfold wpd, set_raw.
  rewrite (has_get _ _ id (Entry r p par) H) by now left. cbn [e_prefix e_parent].
  eexists tt, _. split; [reflexivity|]. split; [|exact (incl_refl (d_strings d))].
  split; [exact (has_set _ _ _ _ (Entry r' p par) H)|]. split; [exact T|exact G].
Qed.

(* ---- dropping ---- *)
Lemma drop_tree t : forall f d F, has (d_slab d) (kids t ++ F) -> 2 * depth t < f ->
  exists s', drop_kind_f f (traw t) d = Ok (tt, set_slab d s') /\ has s' F.
Proof.
  induction t as [i p s|i p n k items IH|i p n k items IH] using tree_ind'; intros f d F H D;
    (destruct f as [|f]; [lia|]).
  - cbn in *. exists (d_slab d). split; [destruct d; reflexivity|exact H].
  - cbn [depth] in D. cbn [Tree.traw drop_kind_f Tree.kids] in *.
    revert d D H. induction items as [|[[[ii ip] key] v] items IHi]; intros d D H; cbn [map drop_all flat_map] in *.
    + exists (d_slab d). split; [destruct d; reflexivity|exact H].
    + inversion IH as [|x y IHv IH']; subst. cbn [snd] in IHv. clear IH.
      cbn [Tree.mcells app] in H. rewrite <- app_assoc in H.
      cbn [list_max fold_right map snd] in D.
      change (fold_right Init.Nat.max 0 (map (fun it => depth (snd it)) items))
        with (list_max (map (fun it : nat * bytes * rstr bytes * tree nat => depth (snd it)) items)) in D.
      destruct (has_remove _ _ _ _ H) as (s1 & E1 & H1 & _).
      rewrite cells_eq in H1. cbn [app] in H1.
      destruct (has_remove _ _ _ _ H1) as (s2 & E2 & H2 & _).
      destruct f as [|f]; [lia|].
      destruct (IHv f (set_slab (set_slab d s1) s2) (flat_map (mcells i) items ++ F)) as (s3 & E3 & H3);
        [exact H2|lia|].
      destruct (IHi IH' (set_slab d s3)) as (s4 & E4 & H4); [lia|exact H3|].
      exists s4. split; [|exact H4].
      unfold bind, drop_id. cbn [mitem_id fst]. rewrite E1. cbn [e_raw drop_kind_f].
      unfold drop_value. cbn [d_slab set_slab]. rewrite E2. cbn [tentry e_raw].
      change (Data (d_strings (Data (d_strings d) s1)) s2) with (set_slab (set_slab d s1) s2).
      rewrite E3. exact E4.
  - cbn [depth] in D. cbn [Tree.traw drop_kind_f Tree.kids] in *.
    revert d D H. induction items as [|[[ii ip] v] items IHi]; intros d D H; cbn [map drop_all flat_map] in *.
    + exists (d_slab d). split; [destruct d; reflexivity|exact H].
    + inversion IH as [|x y IHv IH']; subst. cbn [snd] in IHv. clear IH.
      cbn [Tree.scells app] in H. rewrite <- app_assoc in H.
      cbn [list_max fold_right map snd] in D.
      change (fold_right Init.Nat.max 0 (map (fun it => depth (snd it)) items))
        with (list_max (map (fun it : nat * bytes * tree nat => depth (snd it)) items)) in D.
      destruct (has_remove _ _ _ _ H) as (s1 & E1 & H1 & _).
      rewrite cells_eq in H1. cbn [app] in H1.
      destruct (has_remove _ _ _ _ H1) as (s2 & E2 & H2 & _).
      destruct f as [|f]; [lia|].
      destruct (IHv f (set_slab (set_slab d s1) s2) (flat_map (scells i) items ++ F)) as (s3 & E3 & H3);
        [exact H2|lia|].
      destruct (IHi IH' (set_slab d s3)) as (s4 & E4 & H4); [lia|exact H3|].
      exists s4. split; [|exact H4].
      unfold bind, drop_id. cbn [sitem_id fst]. rewrite E1. cbn [e_raw drop_kind_f].
      unfold drop_value. cbn [d_slab set_slab]. rewrite E2. cbn [tentry e_raw].
      change (Data (d_strings (Data (d_strings d) s1)) s2) with (set_slab (set_slab d s1) s2).
      rewrite E3. exact E4.
Qed.
Lemma depth_kids t : 2 * depth t <= length (kids t) + 2.
Proof.
  induction t as [i p s|i p n k items IH|i p n k items IH] using tree_ind'; cbn [depth Tree.kids].
  - lia.
  - assert (X : 2 * list_max (map (fun it : nat * bytes * rstr bytes * tree nat => depth (snd it)) items) <= length (flat_map (mcells i) items)).
    { induction IH as [|[[[ii ip] key] v] items IHv IH IHi]; [cbn; lia|].
      cbn [flat_map map snd]. rewrite app_length. cbn [Tree.mcells length]. rewrite cells_eq. cbn [length].
      cbn [snd] in IHv. change (list_max (?x :: ?l)) with (Nat.max x (list_max l)). lia. }
    lia.
  - assert (X : 2 * list_max (map (fun it : nat * bytes * tree nat => depth (snd it)) items) <= length (flat_map (scells i) items)).
    { induction IH as [|[[ii ip] v] items IHv IH IHi]; [cbn; lia|].
      cbn [flat_map map snd]. rewrite app_length. cbn [Tree.scells length]. rewrite cells_eq. cbn [length].
      cbn [snd] in IHv. change (list_max (?x :: ?l)) with (Nat.max x (list_max l)). lia. }
    lia.
Qed.
Lemma wp_replace_gen L F d v par p r :
  Sd L (cells par v ++ F) d ->
  wpd (fun d => match slab_get (d_slab d) (tid v) with
                | None => Ok (tt, d)
                | Some e => drop_kind (e_raw e) (set_slab d (slab_set (d_slab d) (tid v) (Entry r (p e) (e_parent e))))
                end) d
      (fun _ d' => Sd L ((tid v, Entry r (p (tentry hash par v)) par) :: F) d' /\ grows d d').
Proof.
  intros (H & T & G). rewrite cells_eq in H. cbn [app] in H.
  unfold wpd. rewrite (has_get _ _ (tid v) (tentry hash par v) H) by now left.
  pose proof (has_set _ _ _ _ (Entry r (p (tentry hash par v)) par) H) as H1.
  set (s1 := slab_set (d_slab d) (tid v) (Entry r (p (tentry hash par v)) par)) in *.
  cbn [tentry e_raw e_prefix e_parent].
  apply (has_perm _ _ (kids v ++ (tid v, Entry r (p (tentry hash par v)) par) :: F)) in H1; [|apply Permutation_middle].
  destruct (drop_tree v (drop_fuel (set_slab d s1)) (set_slab d s1) _ H1) as (s2 & E & H2).
  { unfold drop_fuel. cbn [d_slab set_slab]. apply has_length in H1. rewrite app_length in H1. cbn [length] in H1.
    pose proof (depth_kids v). lia. }
  exists tt, (set_slab d s2). split; [unfold drop_kind; exact E|].
  split; [|exact (incl_refl (d_strings d))]. split; [exact H2|]. split; [exact T|exact G].
Qed.
Lemma wp_replace L F d v par r : Sd L (cells par v ++ F) d ->
  wpd (replace (tid v) r) d (fun _ d' => Sd L ((tid v, Entry r (hash (tpre v)) par) :: F) d' /\ grows d d').
Proof. apply (wp_replace_gen L F d v par e_prefix r). Qed.
Lemma wp_replace_with L F d v par p r : Sd L (cells par v ++ F) d ->
  wpd (replace_with (tid v) p r) d (fun _ d' => Sd L ((tid v, Entry r p par) :: F) d' /\ grows d d').
Proof. apply (wp_replace_gen L F d v par (fun _ => p) r). Qed.
Lemma wp_drop L F d ii r q par v par' :
  r = RSeqItem (tid v) \/ (exists k, r = RMapItem k (tid v)) ->
  Sd L ((ii, Entry r q par) :: cells par' v ++ F) d ->
  wpd (drop ii) d (fun _ d' => Sd L F d' /\ grows d d').
Proof.
  intros R (H & T & G).
  pose proof (has_length _ _ H) as LN. cbn [length] in LN. rewrite app_length, cells_eq in LN. cbn [length] in LN.
  destruct (has_remove _ _ _ _ H) as (s1 & E1 & H1 & _).
  rewrite cells_eq in H1. cbn [app] in H1.
  destruct (has_remove _ _ _ _ H1) as (s2 & E2 & H2 & _).
  destruct (drop_tree v (S (length (sl_entries (d_slab d)))) (set_slab (set_slab d s1) s2) F) as (s3 & E3 & H3);
    [exact H2|pose proof (depth_kids v); lia|].
  exists tt, (set_slab d s3). split.
  - unfold drop, drop_id. rewrite E1. unfold drop_fuel. cbn [e_raw].
    destruct R as [->|[k ->]]; cbn [drop_kind_f]; unfold drop_value; cbn [d_slab set_slab];
      rewrite E2; cbn [tentry e_raw]; exact E3.
  - split; [|exact (incl_refl (d_strings d))]. split; [exact H3|]. split; [exact T|exact G].
Qed.
Lemma wp_drop_mitems i : forall items L F d, Sd L (flat_map (mcells i) items ++ F) d ->
  wpd (drop_items (map mitem_id items)) d (fun _ d' => Sd L F d' /\ grows d d').
Proof.
  induction items as [|[[[ii ip] key] v] items IH]; intros L F d H; cbn [map drop_items].
  - apply wp_ret. split; [exact H|apply grows_refl].
  - cbn [flat_map Tree.mcells app] in H. rewrite <- app_assoc in H. apply wp_bind.
    eapply wp_mono; [eapply wp_drop; [|exact H]; right; eauto|]. intros _ d' [H1 G1].
    eapply wp_mono; [apply IH, H1|]. intros _ d'' [H2 G2]. split; [exact H2|]. eapply grows_trans; eauto.
Qed.
Lemma wp_drop_sitems i : forall items L F d, Sd L (flat_map (scells i) items ++ F) d ->
  wpd (drop_items (map sitem_id items)) d (fun _ d' => Sd L F d' /\ grows d d').
Proof.
  induction items as [|[[ii ip] v] items IH]; intros L F d H; cbn [map drop_items].
  - apply wp_ret. split; [exact H|apply grows_refl].
  - cbn [flat_map Tree.scells app] in H. rewrite <- app_assoc in H. apply wp_bind.
    eapply wp_mono; [eapply wp_drop; [|exact H]; now left|]. intros _ d' [H1 G1].
    eapply wp_mono; [apply IH, H1|]. intros _ d'' [H2 G2]. split; [exact H2|]. eapply grows_trans; eauto.
Qed.

(* ---- reading in the state ---- *)
Lemma Sd_str L F d s : Sd L F d -> In s L -> exists x, str d (hash s) = Ok x /\ (no_collision d -> x = s).
Proof.
  intros S I. pose proof (Sd_logged _ _ _ _ S I) as G. destruct S as (_ & T & _).
  destruct (in_assoc hash _ _ _ G) as [x E]. exists x. unfold str. rewrite E. split; [reflexivity|].
  intros N. pose proof (logged_interned hash d s T N G) as E'. unfold interned in E'. congruence.
Qed.
Lemma Sd_raw L F d k e : Sd L F d -> In (k, e) F -> get_raw d k = Ok (e_raw e).
Proof. intros S I. unfold get_raw, get_entry. now rewrite (Sd_get _ _ _ _ _ S I). Qed.
Lemma Sd_entry L F d k e : Sd L F d -> In (k, e) F -> get_entry d k = Ok e.
Proof. intros S I. unfold get_entry. now rewrite (Sd_get _ _ _ _ _ S I). Qed.
Lemma Sd_prefix L F d k e : Sd L F d -> In (k, e) F -> prefix_id d k = Ok (e_prefix e).
Proof. intros S I. unfold prefix_id. now rewrite (Sd_entry _ _ _ _ _ S I). Qed.
Lemma Sd_parent L F d k e : Sd L F d -> In (k, e) F -> parent_id d k = Ok (e_parent e).
Proof. intros S I. unfold parent_id. now rewrite (Sd_entry _ _ _ _ _ S I). Qed.
Lemma in_root par v F : In (tid v, tentry hash par v) (cells par v ++ F).
Proof. rewrite cells_eq. now left. Qed.

(* ---- the scalars ---- *)
Lemma detect_map s : kmap hash (detect s) = detect s.
Proof.
  unfold detect. destruct (beq s kw_true || beq s kw_false || beq s kw_null); [reflexivity|].
  enough (H : forall cs first k, kmap hash k = k -> kmap hash (detect_loop first k cs) = detect_loop first k cs).
  { now apply H. }
  induction cs as [|c cs IH]; intros first k K; cbn [detect_loop]; [exact K|].
  destruct (first && _); [now apply IH|]. destruct (beq c [SQUOTE]); [reflexivity|].
  destruct (beq c [COLON]); [now apply IH|]. destruct (char_is_control c); [reflexivity|]. now apply IH.
Qed.
Lemma detect_strings s : rs_strings (RS (detect s) s s) = [s; s].
Proof. unfold rs_strings. cbn. pose proof (detect_map s) as H. unfold detect in *.
  destruct (beq s kw_true || beq s kw_false || beq s kw_null); [reflexivity|]. clear H.
  enough (H : forall cs first k, match k with KMultiline _ => False | _ => True end ->
    match detect_loop first k cs with KMultiline _ => False | _ => True end).
  { specialize (H (chars s) true KBare I). now destruct (detect_loop true KBare (chars s)). }
  induction cs as [|c cs IH]; intros first k K; cbn [detect_loop]; [exact K|].
  destruct (first && _); [now apply IH|]. destruct (beq c [SQUOTE]); [exact Logic.I|].
  destruct (beq c [COLON]); [now apply IH|]. destruct (char_is_control c); [exact Logic.I|]. now apply IH.
Qed.

(* m builds a scalar, equal to sc unless strings collide. *)
Definition builds (L : list bytes) (F : list (nat * entry)) (m : D (raw sid)) (d : data) (sc : scalar bytes) : Prop :=
  wpd m d (fun r d' => exists sc', r = RScalar (scmap hash sc') /\ Sd (sc_strings sc' ++ L) F d' /\
                       grows d d' /\ (no_collision d' -> sc' = sc)).
Ltac intern := apply wp_bind; eapply wp_mono; [eapply wp_intern; eassumption|intros ? ? (-> & ? & ?)].
Lemma builds_string s L F d : Sd L F d -> builds L F (new_string hash s) d (astring s).
Proof.
  intros S. unfold builds, new_string. intern. apply wp_ret. exists (astring s). unfold astring. split; [|split; [|split]].
  - cbn [scmap rsmap rs_kind rs_id rs_orig]. unfold rsmap. cbn [rs_kind rs_id rs_orig]. now rewrite detect_map.
  - cbn [sc_strings]. rewrite detect_strings. eapply Sd_weak; [|reflexivity|eassumption].
    intros x [<-|[<-|X]]; [now left|now left|now right].
  - assumption.
  - reflexivity.
Qed.
Lemma builds_string_with s k L F d : Sd L F d ->
  builds L F (new_string_with hash s k) d (ScStr (RS (askind k) s s)).
Proof.
  intros S. unfold builds, new_string_with. intern. apply wp_ret. eexists. split; [|split; [|split; [|intros _; reflexivity]]].
  - destruct k; reflexivity.
  - replace (sc_strings (ScStr (RS (askind k) s s))) with [s; s] by (destruct k; reflexivity).
    eapply Sd_weak; [|reflexivity|eassumption]. intros x [<-|[<-|X]]; [now left|now left|now right].
  - assumption.
Qed.
Lemma builds_bool x L F d : Sd L F d -> builds L F (new_bool hash x) d (abool x).
Proof.
  intros S. unfold builds, new_bool. intern. apply wp_ret. eexists. split; [|split; [|split; [|intros _; reflexivity]]].
  - destruct x; reflexivity.
  - cbn. assumption.
  - assumption.
Qed.
Lemma builds_number x h L F d : Sd L F d -> builds L F (new_number hash x h) d (ScNum x h).
Proof.
  intros S. unfold builds, new_number. intern. apply wp_ret. eexists. split; [|split; [|split; [|intros _; reflexivity]]].
  - reflexivity.
  - cbn. assumption.
  - assumption.
Qed.
Lemma builds_null L F d : Sd L F d -> builds L F (ret (RScalar (ScNull NEmpty))) d (ScNull NEmpty).
Proof.
  intros S. apply wp_ret. eexists. split; [|split; [|split; [|intros _; reflexivity]]].
  - reflexivity.
  - cbn. assumption.
  - apply grows_refl.
Qed.
Lemma builds_block v par parts b L F d : Sd L (cells par v ++ F) d -> In (tpre v) L ->
  builds L (cells par v ++ F) (new_block hash (tid v) parts b) d (ablock v parts b).
Proof.
  intros S I. unfold builds, new_block.
  apply wp_bind. eapply wp_read; [exact (Sd_raw _ _ _ _ _ S (in_root par v F))|]. cbn [tentry e_raw].
  apply wp_bind.
  apply (wp_mono _ _ (fun a d' => d' = d /\ (no_collision d -> ablock v parts b = ablock_at (fst a) (snd a) parts b))).
  - destruct v as [i p sc|i p n k items|i p n k items]; cbn [Tree.traw scmap].
    + destruct (Sd_str _ _ _ _ S I) as (x & E & X).
      apply wp_bind. eapply wp_read; [exact (Sd_prefix _ _ _ _ _ S (in_root par (TLeaf i p sc) F))|]. cbn [tentry e_prefix].
      apply wp_bind. eapply wp_read; [exact E|]. apply wp_ret. split; [reflexivity|]. cbn [fst snd ablock].
      intros N. cbn [tpre] in X. now rewrite (X N).
    + apply wp_ret. split; reflexivity.
    + apply wp_ret. split; reflexivity.
  - intros [indent prefix] ? [-> A]. cbn [fst snd] in A.
    destruct (match b with Literal c => (PIPE, NEWLINE, c) | Folded c => (GT, SPACE, c) end) as [[mark join] chomp] eqn:B.
    intern. intern. apply wp_ret. exists (ablock_at indent prefix parts b).
    unfold ablock_at at 1 2 3. rewrite B. split; [reflexivity|]. split; [|split].
    + cbn [sc_strings]. unfold rs_strings. cbn [rs_kind rs_id rs_orig app].
      eapply Sd_weak; [|reflexivity|eassumption]. apply incl_refl.
    + eapply grows_trans; eassumption.
    + intros N. symmetry.
      rewrite A by (eapply grows_nc; [|exact N]; eapply grows_trans; eassumption). unfold ablock_at. now rewrite B.
Qed.

(* ---- make_indent ---- *)
Lemma last_frame c x : forall par dflt, c = CHole \/
  exists i ii r ip r2 p par2, hpar par c = Some ii /\
    In (ii, Entry r (hash ip) (Some i)) (ccells hash par c x) /\
    In (i, Entry r2 (hash p) par2) (ccells hash par c x) /\
    In p (cstrings c) /\ In ip (cstrings c) /\
    ((exists n k items, r2 = RMap n k items /\ amake_in c dflt = under p n) \/
     (exists n items v, r2 = RSeq n CBlock items /\ r = RSeqItem v /\ amake_in c dflt = (count_indent ip + 2, [SPACE])) \/
     (exists n b t items, r2 = RSeq n (CInline b t) items /\ amake_in c dflt = under p n)).
Proof.
  induction c as [|i p n k l ii ip key c IH r|i p n k l ii ip c IH r]; intros par dflt.
  - now left.
  - right. cbn [hpar ccells cstrings amake_in].
    destruct (IH (Some ii) (under p n)) as [->|(i' & ii' & r' & ip' & r2 & p' & par2 & A & B & C & D & E & G)].
    + exists i, ii. do 5 eexists. split; [reflexivity|]. split; [|split; [|split; [|split]]].
      * right. apply in_or_app. right. left. reflexivity.
      * left. reflexivity.
      * now left.
      * right. apply in_or_app. right. apply in_or_app. right. now left.
      * left. do 3 eexists. split; reflexivity.
    + exists i', ii', r', ip', r2, p', par2. split; [exact A|]. split; [|split; [|split; [|split]]].
      * right. apply in_or_app. right. right. apply in_or_app. now left.
      * right. apply in_or_app. right. right. apply in_or_app. now left.
      * right. apply in_or_app. right. apply in_or_app. right. right. apply in_or_app. now right.
      * right. apply in_or_app. right. apply in_or_app. right. right. apply in_or_app. now right.
      * exact G.
  - right. cbn [hpar ccells cstrings amake_in].
    destruct (IH (Some ii) (match k with CBlock => (count_indent ip + 2, [SPACE]) | _ => under p n end))
      as [->|(i' & ii' & r' & ip' & r2 & p' & par2 & A & B & C & D & E & G)].
    + exists i, ii. do 5 eexists. split; [reflexivity|]. split; [|split; [|split; [|split]]].
      * right. apply in_or_app. right. left. reflexivity.
      * left. reflexivity.
      * now left.
      * right. apply in_or_app. right. apply in_or_app. right. now left.
      * right. destruct k as [|b t]; [left|right]; do 4 eexists; repeat split.
    + exists i', ii', r', ip', r2, p', par2. split; [exact A|]. split; [|split; [|split; [|split]]].
      * right. apply in_or_app. right. right. apply in_or_app. now left.
      * right. apply in_or_app. right. right. apply in_or_app. now left.
      * right. apply in_or_app. right. apply in_or_app. right. now right.
      * right. apply in_or_app. right. apply in_or_app. right. now right.
      * destruct k; exact G.
Qed.
Lemma amake_in_other c : c <> CHole -> forall x y, amake_in c x = amake_in c y.
Proof. destruct c; try congruence; intros _ x y; destruct k; reflexivity. Qed.
Lemma wp_make_indent c v d :
  let L := cstrings c ++ strings v in
  let F := cells (hpar None c) v ++ ccells hash None c (tid v) in
  Sd L F d ->
  wpd (make_indent hash (tid v) 0) d (fun a d' => exists q, snd a = hash q /\ Sd (q :: L) F d' /\ grows d d' /\
    (no_collision d' -> (fst a, q) = amake c v)).
Proof.
  intros L F S. unfold make_indent, amake.
  pose proof (in_root (hpar None c) v (ccells hash None c (tid v))) as R.
  apply wp_bind. eapply wp_read; [exact (Sd_parent _ _ _ _ _ S R)|]. cbn [tentry e_parent].
  assert (under_case : forall p n (N : In p L),
    wpd (x <- read (fun d => str d (hash p)) ;;
         q <- insert_str hash (NEWLINE :: concat (firstn (n + 2) (chars (after_last_nl x) ++ repeat [SPACE] (n + 2)))) ;;
         ret (n + 2, q)) d
        (fun a d' => exists q, snd a = hash q /\ Sd (q :: L) F d' /\ grows d d' /\
           (no_collision d' -> (fst a, q) = under p n))).
  { intros p n N. destruct (Sd_str _ _ _ _ S N) as (x & E & X).
    apply wp_bind. eapply wp_read; [exact E|]. intern. apply wp_ret. eexists. split; [reflexivity|].
    split; [eassumption|]. split; [assumption|]. intros Y. cbn [fst]. unfold under. rewrite X; [reflexivity|].
    eapply grows_nc; eassumption. }
  destruct (last_frame c (tid v) None (count_indent (tpre v), tpre v)) as
    [->|(i & ii & r & ip & r2 & p & par2 & A & B & C & Dp & E & G)].
  - cbn [hpar amake_in]. apply wp_bind. apply wp_ret. apply wp_bind, wp_ret.
    assert (I : In (tpre v) L) by apply strings_pre. destruct (Sd_str _ _ _ _ S I) as (x & E & X).
    apply wp_bind. eapply wp_read; [exact (Sd_prefix _ _ _ _ _ S R)|]. cbn [tentry e_prefix].
    apply wp_bind. eapply wp_read; [exact E|]. cbn [Nat.eqb]. apply wp_ret. exists (tpre v). cbn [fst snd].
    split; [reflexivity|]. split; [|split].
    + eapply Sd_weak; [|reflexivity|exact S]. intros y [<-|Y]; auto.
    + apply grows_refl.
    + intros N. rewrite (X N). f_equal. lia.
  - rewrite A. assert (B' : In (ii, Entry r (hash ip) (Some i)) F) by (apply in_or_app; now right).
    assert (C' : In (i, Entry r2 (hash p) par2) F) by (apply in_or_app; now right).
    apply wp_bind. eapply wp_read; [exact (Sd_parent _ _ _ _ _ S B')|]. cbn [e_parent].
    apply wp_bind. apply wp_bind. eapply wp_read; [exact (Sd_entry _ _ _ _ _ S C')|]. cbn [e_raw e_prefix].
    destruct G as [(n & k & items & -> & ->)|[(n & items & w & -> & -> & ->)|(n & b & t & items & -> & ->)]].
    + apply wp_ret. apply wp_bind, wp_ret. apply under_case. apply in_or_app. now left.
    + apply wp_ret. apply wp_bind. apply wp_bind. eapply wp_read; [exact (Sd_entry _ _ _ _ _ S B')|]. cbn [e_raw e_prefix].
      apply wp_ret. assert (I : In ip L) by (apply in_or_app; now left).
      destruct (Sd_str _ _ _ _ S I) as (x & Ex & X). apply wp_bind. eapply wp_read; [exact Ex|]. intern. apply wp_ret.
      exists [SPACE]. cbn [fst snd]. split; [reflexivity|]. split; [assumption|]. split; [assumption|].
      intros N. rewrite X by (eapply grows_nc; eassumption). f_equal. lia.
    + apply wp_ret. apply wp_bind, wp_ret. apply under_case. apply in_or_app. now left.
Qed.

(* ---- looking for keys ---- *)
Lemma find_key_split d key : forall items,
  Forall (fun it : mitem nat => mapping_item d (mitem_id it) = Ok (rsmap hash (mkey it), tid (snd it))) items ->
  (Forall (fun it => hash (rs_id (mkey it)) <> hash key) items /\
   find_key (map mitem_id items) (hash key) d = Ok None) \/
  exists l it r, items = l ++ it :: r /\ Forall (fun it => hash (rs_id (mkey it)) <> hash key) l /\
    hash (rs_id (mkey it)) = hash key /\ find_key (map mitem_id items) (hash key) d = Ok (Some (tid (snd it))).
Proof.
  induction items as [|it items IH]; intros H.
  - left. split; [constructor|reflexivity].
  - inversion H as [|x y E H']; subst. cbn [map find_key]. rewrite E. cbn [rsmap rs_id].
    destruct (beq (hash (rs_id (mkey it))) (hash key)) eqn:B.
    + right. exists [], it, items. apply beq_eq in B. split; [reflexivity|]. split; [constructor|]. auto.
    + apply beq_neq in B. destruct (IH H') as [[F E2]|(l & it2 & r & -> & F & K & E2)].
      * left. split; [now constructor|exact E2].
      * right. exists (it :: l), it2, r. split; [reflexivity|]. split; [now constructor|]. auto.
Qed.
Lemma find_text_split d key (lk : bytes -> bytes) : forall items n,
  Forall (fun it : mitem nat => mapping_item d (mitem_id it) = Ok (rsmap hash (mkey it), tid (snd it)) /\
                     str d (hash (rs_id (mkey it))) = Ok (lk (rs_id (mkey it)))) items ->
  (Forall (fun it => lk (rs_id (mkey it)) <> key) items /\
   find_text d n (map mitem_id items) key = Ok None) \/
  exists l it r, items = l ++ it :: r /\ Forall (fun it => lk (rs_id (mkey it)) <> key) l /\
    lk (rs_id (mkey it)) = key /\ find_text d n (map mitem_id items) key = Ok (Some (n + length l, tid (snd it))).
Proof.
  induction items as [|it items IH]; intros n H.
  - left. split; [constructor|reflexivity].
  - inversion H as [|x y [E1 E2] H']; subst. cbn [map find_text]. rewrite E1. cbn [rsmap rs_id]. rewrite E2.
    destruct (beq (lk (rs_id (mkey it))) key) eqn:B.
    + right. exists [], it, items. apply beq_eq in B. split; [reflexivity|]. split; [constructor|].
      split; [exact B|]. do 3 f_equal. cbn. lia.
    + apply beq_neq in B. destruct (IH (S n) H') as [[F E3]|(l & it2 & r & -> & F & K & E3)].
      * left. split; [now constructor|exact E3].
      * right. exists (it :: l), it2, r. split; [reflexivity|]. split; [now constructor|]. split; [exact K|].
        rewrite E3. do 3 f_equal. cbn. lia.
Qed.
Lemma Sd_mitems L d i items F : Sd L F d -> incl (flat_map (mcells i) items) F ->
  Forall (fun it : mitem nat => mapping_item d (mitem_id it) = Ok (rsmap hash (mkey it), tid (snd it))) items.
Proof.
  intros S I. apply Forall_forall. intros [[[ii ip] key] v] X. cbn [mitem_id fst snd mkey].
  unfold mapping_item. rewrite (Sd_raw _ _ _ ii (Entry (RMapItem (rsmap hash key) (tid v)) (hash ip) (Some i)) S).
  - reflexivity.
  - apply I. apply in_flat_map. eexists. split; [exact X|]. now left.
Qed.
Lemma key_in i p n k items (it : mitem nat) : In it items -> In (rs_id (mkey it)) (strings (TMap i p n k items)).
Proof.
  destruct it as [[[ii ip] key] v]. intros X. cbn [strings tpre mkey fst snd]. right. apply in_or_app. right.
  apply in_flat_map. eexists. split; [exact X|]. right. apply in_or_app. left. unfold rs_strings.
  apply in_or_app. right. now left.
Qed.
Lemma other_keys d key items :
  no_collision d -> logged d key -> Forall (fun it : mitem nat => logged d (rs_id (mkey it))) items ->
  Forall (fun it => hash (rs_id (mkey it)) <> hash key) items -> Forall (other_key key) items.
Proof.
  intros N K G H. rewrite Forall_forall in *. intros it I E. apply (H it I). now rewrite E.
Qed.
Lemma same_key d x y : no_collision d -> logged d x -> logged d y -> hash x = hash y -> x = y.
Proof.
  intros N X Y. apply N.
  - now apply (in_map snd) in X.
  - now apply (in_map snd) in Y.
Qed.

(* ---- insertion into mappings ---- *)
Lemma wp_inner_insert CL C par i p n k items key s sc d :
  let v := TMap i p n k items in
  Sd (sc_strings sc ++ CL ++ strings v) (cells par v ++ C) d ->
  wpd (inner_insert hash i key s (RScalar (scmap hash sc))) d (fun h d' => exists v',
    tid v' = i /\ Sd (CL ++ strings v') (cells par v' ++ C) d' /\ grows d d' /\
    (no_collision d' -> inserted key s sc v h v')).
Proof.
  intros v S. unfold inner_insert. intern.
  rename H into S1. rename H0 into G1. set (L := sc_strings sc ++ CL ++ strings v) in *.
  apply wp_bind. eapply wp_read.
  { unfold mapping. rewrite (Sd_raw _ _ _ _ _ S1 (in_root par v C) : get_raw d' i = _). reflexivity. }
  assert (MI : incl (flat_map (mcells i) items) (cells par v ++ C)).
  { unfold v. rewrite cells_map. intros x X. right. apply in_or_app. now left. }
  apply wp_bind.
  assert (KL : Forall (fun it : mitem nat => logged d' (rs_id (mkey it))) items).
  { apply Forall_forall. intros it X. eapply Sd_logged; [exact S1|]. right. apply in_or_app. right.
    apply in_or_app. right. now apply key_in. }
  assert (KK : logged d' key) by (eapply Sd_logged; [exact S1|now left]).
  destruct (find_key_split d' key items (Sd_mitems _ _ _ _ _ S1 MI)) as [[FA E]|(l & it & r & EI & FA & K & E)];
    (eapply wp_read; [exact E|]).
  - (* a new item *)
    assert (gap : forall m, (match map mitem_id items with [] => [] | _ => nl_indent m end) =
                            match items with [] => [] | _ => nl_indent m end) by (destruct items; reflexivity).
    rewrite gap. fold (item_gap n items). clear gap.
    intern. rename H into S2. rename H0 into G2.
    apply wp_bind. eapply wp_mono; [apply wp_insert, S2|]. intros ii d2 [S3 G3].
    apply wp_bind. set (vp := match s with Custom x => x | Auto => [SPACE] end).
    apply (wp_mono _ _ (fun h d3 => h = hash vp /\ Sd (vp :: item_gap n items :: key :: L)
       ((ii, Entry (RScalar (ScNull NEmpty)) (hash (item_gap n items)) (Some i)) :: cells par v ++ C) d3 /\ grows d2 d3)).
    { destruct s as [|x]; cbn [is_tabular].
      - eapply wp_mono; [eapply wp_intern; exact S3|]. intros ? ? (-> & ? & ?). auto.
      - eapply wp_mono; [eapply wp_intern; exact S3|]. intros ? ? (-> & ? & ?). auto. }
    intros ? d3 (-> & S4 & G4).
    apply wp_bind. eapply wp_mono; [apply wp_insert, S4|]. intros vi d4 [S5 G5].
    apply wp_bind. eapply wp_mono.
    { eapply (wp_replace _ _ _ (TLeaf ii (item_gap n items) (ScNull NEmpty)) (Some i)).
      cbn [Tree.cells tid app]. eapply Sd_weak; [apply incl_refl| |exact S5]. apply perm_swap. }
    intros ? d5 [S6 G6]. cbn [tid tpre] in S6.
    apply wp_bind. unfold map_push. apply wp_bind. eapply wp_read.
    { unfold mapping. rewrite (Sd_raw _ _ _ i (tentry hash par v) S6); [reflexivity|].
      right. right. apply (in_root par v C). }
    eapply wp_mono.
    { eapply (wp_set_raw _ _ _ i). eapply Sd_weak; [apply incl_refl| |exact S6].
      unfold v. rewrite cells_map. cbn [app].
      etransitivity; [apply (Permutation_app_comm [_; _])|]. cbn [app]. reflexivity. }
    intros ? d6 [S7 G7]. apply wp_ret.
    exists (TMap i p n k (items ++ [(ii, item_gap n items, RS KBare key key, TLeaf vi vp sc)])).
    split; [reflexivity|]. split; [|split].
    + eapply Sd_weak; [| |exact S7].
      * cbn [strings tpre]. rewrite flat_map_app. intros x X.
        apply in_app_or in X as [X|X].
        { right; right; right. unfold L. apply in_or_app. right. apply in_or_app. now left. }
        destruct X as [<-|X].
        { right; right; right. unfold L. apply in_or_app. right. apply in_or_app. right. now left. }
        rewrite app_assoc in X. apply in_app_or in X as [X|X].
        { right; right; right. unfold L. apply in_or_app. right. apply in_or_app. right. now right. }
        cbn [flat_map] in X. unfold rs_strings in X. cbn [rs_kind rs_id rs_orig app strings tpre] in X.
        destruct X as [<-|[<-|[<-|[<-|X]]]]; [now right; left|now right; right; left|now right; right; left|now left|].
        rewrite app_nil_r in X. right; right; right. unfold L. apply in_or_app. now left.
      * rewrite cells_map, map_app, flat_map_app. cbn [map mitem_id fst app flat_map Tree.mcells Tree.cells tid tentry Tree.traw tpre].
        apply perm_skip. rewrite <- app_assoc. rewrite <- app_assoc. apply Permutation_app_head. cbn [app].
        symmetry. apply Permutation_app_comm with (l := [_; _]).
    + repeat (eapply grows_trans; [eassumption|]). apply grows_refl.
    + intros N. apply ins_new.
      eapply (other_keys d'); [|exact KK|exact KL|exact FA]. eapply grows_nc; [|exact N].
      repeat (eapply grows_trans; [eassumption|]). apply grows_refl.
  - (* the value of an old one *)
    destruct it as [[[ii ip] kk] w]. cbn [snd mkey fst] in *.
    pose (c1 := CMapC i p n k l ii ip kk CHole r).
    assert (V : v = plug c1 w) by (unfold v, c1; cbn [plug]; now rewrite EI).
    apply wp_bind. eapply wp_mono.
    { eapply (wp_replace _ _ _ w (Some ii)). eapply Sd_weak; [apply incl_refl| |exact S1].
      rewrite V. rewrite cells_plug. change (hpar par c1) with (Some ii). rewrite <- app_assoc.
      apply Permutation_app_swap_app. }
    intros ? d2 [S2 G2]. apply wp_ret. exists (plug c1 (TLeaf (tid w) (tpre w) sc)).
    split; [reflexivity|]. split; [|split].
    + eapply Sd_weak; [| |exact S2].
      * intros x X. right. unfold L. rewrite V. apply in_app_or in X as [X|X].
        { apply in_or_app. right. apply in_or_app. now left. }
        apply (Permutation_in _ (strings_plug _ _)) in X. apply in_app_or in X as [X|[<-|X]].
        { apply in_or_app. right. apply in_or_app. right.
          apply (Permutation_in _ (Permutation_sym (strings_plug _ _))). apply in_or_app. now left. }
        { apply in_or_app. right. apply in_or_app. right.
          apply (Permutation_in _ (Permutation_sym (strings_plug _ _))). apply in_or_app. right. apply (strings_pre w). }
        { apply in_or_app. now left. }
      * rewrite cells_plug. change (hpar par c1) with (Some ii). cbn [Tree.cells tid app]. rewrite <- app_assoc. cbn [app].
        apply Permutation_middle.
    + eapply grows_trans; eassumption.
    + intros N. rewrite V. unfold c1. cbn [plug]. 
      assert (N' : no_collision d') by (eapply grows_nc; eassumption).
      rewrite EI in KL. apply Forall_app in KL as [KL1 KL2]. inversion KL2; subst.
      apply ins_old.
      * eapply same_key; eauto.
      * eapply other_keys; eauto.
Qed.

(* ---- sequences ---- *)
Lemma last_sitem (items : list (nat * bytes * tree nat)) :
  hd_error (rev (map sitem_id items)) = match rev items with (ii, _, _) :: _ => Some ii | [] => None end.
Proof.
  rewrite <- map_rev. unfold sitem in *. destruct (rev items) as [|[[ii ip] w] l]; reflexivity.
Qed.
Lemma wp_inner_push CL C par i p n k items s sc d :
  let v := TSeq i p n k items in
  Sd (sc_strings sc ++ CL ++ strings v) (cells par v ++ C) d ->
  wpd (inner_push hash i s (RScalar (scmap hash sc))) d (fun h d' => exists v',
    tid v' = i /\ Sd (CL ++ strings v') (cells par v' ++ C) d' /\ grows d d' /\ pushed s sc v h v').
Proof.
  intros v S. unfold inner_push. set (L := sc_strings sc ++ CL ++ strings v) in *.
  apply wp_bind. eapply wp_read.
  { unfold sequence. rewrite (Sd_raw _ _ _ _ _ S (in_root par v C) : get_raw d i = _). reflexivity. }
  assert (gap : forall m, (match map sitem_id items with [] => [] | _ => nl_indent m end) =
                          match items with [] => [] | _ => nl_indent m end) by (destruct items; reflexivity).
  cbv beta iota; rewrite gap. fold (item_gap n items). clear gap.
  intern. rename H into S2. rename H0 into G2.
  apply wp_bind. eapply wp_mono; [apply wp_insert, S2|]. intros ii d2 [S3 G3].
  apply wp_bind.
  set (vp := match s with Custom x => x
             | Auto => match rev items with (_, _, v) :: _ => tpre v | [] => [SPACE] end end).
  apply (wp_mono _ _ (fun h d3 => h = hash vp /\ Sd (vp :: item_gap n items :: L)
     ((ii, Entry (RScalar (ScNull NEmpty)) (hash (item_gap n items)) (Some i)) :: cells par v ++ C) d3 /\ grows d2 d3)).
  { destruct s as [|x].
    - pose proof (last_sitem items) as HL. unfold vp. destruct (rev items) as [|[[lii lip] lv] rl] eqn:RV; rewrite HL.
      + eapply wp_mono; [eapply wp_intern; exact S3|]. intros ? ? (-> & ? & ?). auto.
      + assert (IL : In (lii, lip, lv) items) by (apply in_rev; rewrite RV; now left).
        assert (IC : incl (scells i (lii, lip, lv)) (cells par v ++ C)).
        { intros x X. apply in_or_app. left. unfold v. rewrite cells_seq. right. apply in_flat_map. eauto. }
        apply wp_bind. eapply wp_read.
        { unfold sequence_item. erewrite (Sd_raw _ _ _ lii _ S3); [|right; apply IC; now left]. reflexivity. }
        eapply wp_read.
        { erewrite (Sd_prefix _ _ _ (tid lv) _ S3); [reflexivity|]. right. apply IC. right. rewrite cells_eq. now left. }
        cbn [tentry e_prefix]. split; [reflexivity|]. split; [|apply grows_refl].
        eapply Sd_weak; [|reflexivity|exact S3]. intros x [<-|X]; [|exact X].
        right. unfold L. apply in_or_app. right. apply in_or_app. right. unfold v. cbn [strings tpre]. right.
        apply in_or_app. right. apply in_flat_map. eexists. split; [exact IL|]. right. apply strings_pre.
    - eapply wp_mono; [eapply wp_intern; exact S3|]. intros ? ? (-> & ? & ?). auto. }
  intros ? d3 (-> & S4 & G4).
  apply wp_bind. eapply wp_mono; [apply wp_insert, S4|]. intros vi d4 [S5 G5].
  apply wp_bind. eapply wp_mono.
  { eapply (wp_replace _ _ _ (TLeaf ii (item_gap n items) (ScNull NEmpty)) (Some i)).
    cbn [Tree.cells tid app]. eapply Sd_weak; [apply incl_refl| |exact S5]. apply perm_swap. }
  intros ? d5 [S6 G6]. cbn [tid tpre] in S6.
  apply wp_bind. unfold seq_push. apply wp_bind. eapply wp_read.
  { unfold sequence. rewrite (Sd_raw _ _ _ i (tentry hash par v) S6); [reflexivity|].
    right. right. apply (in_root par v C). }
  eapply wp_mono.
  { eapply (wp_set_raw _ _ _ i). eapply Sd_weak; [apply incl_refl| |exact S6].
    unfold v. rewrite cells_seq. cbn [app].
    etransitivity; [apply (Permutation_app_comm [_; _])|]. cbn [app]. reflexivity. }
  intros ? d6 [S7 G7]. apply wp_ret.
  exists (TSeq i p n k (items ++ [(ii, item_gap n items, TLeaf vi vp sc)])).
  split; [reflexivity|]. split; [|split].
  + eapply Sd_weak; [| |exact S7].
    * cbn [strings tpre]. rewrite flat_map_app. intros x X.
      apply in_app_or in X as [X|X].
      { right; right. unfold L. apply in_or_app. right. apply in_or_app. now left. }
      destruct X as [<-|X].
      { right; right. unfold L. apply in_or_app. right. apply in_or_app. right. now left. }
      rewrite app_assoc in X. apply in_app_or in X as [X|X].
      { right; right. unfold L. apply in_or_app. right. apply in_or_app. right. now right. }
      cbn [flat_map app strings tpre] in X.
      destruct X as [<-|[<-|X]]; [now right; left|now left|].
      rewrite app_nil_r in X. right; right. unfold L. apply in_or_app. now left.
    * rewrite cells_seq, map_app, flat_map_app. cbn [map sitem_id fst app flat_map Tree.scells Tree.cells tid tentry Tree.traw tpre].
      apply perm_skip. rewrite <- app_assoc. rewrite <- app_assoc. apply Permutation_app_head. cbn [app].
      symmetry. apply Permutation_app_comm with (l := [_; _]).
  + repeat (eapply grows_trans; [eassumption|]). apply grows_refl.
  + apply pushed_new.
Qed.

(* ---- removal ---- *)
Lemma remove_at_app {A} (l : list A) x r : Api.remove_at (length l) (l ++ x :: r) = l ++ r.
Proof.
  unfold Api.remove_at. induction l as [|y l IH]; [reflexivity|]. cbn [length app firstn skipn]. now f_equal.
Qed.
Lemma nth_error_mid {A} (l : list A) x r : nth_error (l ++ x :: r) (length l) = Some x.
Proof. rewrite nth_error_app2 by lia. now rewrite Nat.sub_diag. Qed.
Lemma flat_mid {A B} (f : A -> list B) l x r C :
  Permutation (flat_map f (l ++ x :: r) ++ C) (f x ++ flat_map f (l ++ r) ++ C).
Proof.
  rewrite !flat_map_app. cbn [flat_map]. rewrite <- !app_assoc. apply Permutation_app_swap_app.
Qed.
Lemma wp_map_remove CL C par i p n k items key d :
  let v := TMap i p n k items in
  Sd (CL ++ strings v) (cells par v ++ C) d ->
  wpd (map_remove i key) d (fun b d' => exists v',
    tid v' = i /\ Sd (CL ++ strings v') (cells par v' ++ C) d' /\ grows d d' /\
    (no_collision d' -> removed_key key v b v')).
Proof.
  intros v S. unfold map_remove.
  apply wp_bind. eapply wp_read.
  { unfold mapping. rewrite (Sd_raw _ _ _ _ _ S (in_root par v C) : get_raw d i = _). reflexivity. }
  assert (MI : incl (flat_map (mcells i) items) (cells par v ++ C)).
  { unfold v. rewrite cells_map. intros x X. right. apply in_or_app. now left. }
  assert (KL : Forall (fun it : mitem nat => logged d (rs_id (mkey it))) items).
  { apply Forall_forall. intros it X. eapply Sd_logged; [exact S|]. apply in_or_app. right. now apply key_in. }
  assert (TK : table_ok hash d) by apply S.
  assert (ME : Forall (fun it : mitem nat => mapping_item d (mitem_id it) = Ok (rsmap hash (mkey it), tid (snd it)) /\
                     str d (hash (rs_id (mkey it))) = Ok (look hash d (rs_id (mkey it)))) items).
  { pose proof (Sd_mitems _ _ _ _ _ S MI) as H. rewrite Forall_forall in *. intros it I. split; [now apply H|].
    apply str_look. now apply KL. }
  assert (LK : no_collision d -> forall x, logged d x -> look hash d x = x).
  { intros N x X. apply (logged_interned hash d x TK N) in X. unfold look, interned in *. now rewrite X. }
  apply wp_bind.
  destruct (find_text_split d key (look hash d) items 0 ME) as [[FA E]|(l & it & r & EI & FA & K & E)];
    (eapply wp_read; [exact E|]).
  - apply wp_ret. exists v. split; [reflexivity|]. split; [exact S|]. split; [apply grows_refl|].
    intros N. apply rem_absent. rewrite Forall_forall in *. intros it I X. apply (FA it I). rewrite LK; auto.
  - cbn [Nat.add].
    replace (nth_error (map mitem_id items) (length l)) with (Some (mitem_id it)).
    2:{ rewrite EI, map_app. cbn [map]. rewrite <- (map_length mitem_id l). now rewrite nth_error_mid. }
    apply wp_bind. eapply wp_mono.
    { eapply (wp_set_raw _ (flat_map (mcells i) items ++ C) _ i). exact S. }
    intros ? d1 [S1 G1]. apply wp_bind.
    destruct it as [[[ii ip] kk] w]. eapply wp_mono.
    { eapply (wp_drop _ ((i, Entry (RMap n (ckmap hash k) (map mitem_id (l ++ r))) (hash p) par) :: flat_map (mcells i) (l ++ r) ++ C)
              _ ii _ _ _ w (Some ii)); [right; eexists; reflexivity|].
      eapply Sd_weak; [apply incl_refl| |exact S1].
      replace (Api.remove_at (length l) (map mitem_id items)) with (map mitem_id (l ++ r)).
      2:{ rewrite EI, !map_app. cbn [map]. rewrite <- (map_length mitem_id l). now rewrite remove_at_app. }
      rewrite EI. rewrite flat_mid. cbn [Tree.mcells app]. rewrite perm_swap. apply perm_skip.
      apply Permutation_middle. }
    intros ? d2 [S2 G2]. apply wp_ret. exists (TMap i p n k (l ++ r)).
    split; [reflexivity|]. split; [|split].
    + eapply Sd_weak; [| |exact S2].
      * intros x X. apply in_app_or in X as [X|X]; [apply in_or_app; now left|]. apply in_or_app; right.
        unfold v. rewrite EI. cbn [strings tpre] in *. destruct X as [X|X]; [now left|]. right.
        apply in_app_or in X as [X|X]; apply in_or_app; [now left|right].
        rewrite flat_map_app in *. cbn [flat_map]. apply in_app_or in X as [X|X]; apply in_or_app; [now left|right].
        apply in_or_app; now right.
      * reflexivity.
    + eapply grows_trans; eassumption.
    + intros N. unfold v. rewrite EI. assert (N0 : no_collision d) by (eapply grows_nc; [|exact N]; eapply grows_trans; eassumption).
      rewrite EI in KL. apply Forall_app in KL as [KL1 KL2]. apply Forall_inv in KL2.
      apply rem_found.
      * rewrite LK in K; assumption.
      * rewrite Forall_forall in *. intros it I X. apply (FA it I). rewrite LK; auto.
Qed.
Lemma wp_seq_remove CL C par i p n k items x d :
  let v := TSeq i p n k items in
  Sd (CL ++ strings v) (cells par v ++ C) d ->
  wpd (seq_remove i x) d (fun b d' => exists v',
    tid v' = i /\ Sd (CL ++ strings v') (cells par v' ++ C) d' /\ grows d d' /\ removed_at x v b v').
Proof.
  intros v S. unfold seq_remove.
  apply wp_bind. eapply wp_read.
  { unfold sequence. rewrite (Sd_raw _ _ _ _ _ S (in_root par v C) : get_raw d i = _). reflexivity. }
  cbv beta iota. rewrite nth_error_map. unfold sitem. destruct (nth_error items x) as [[[ii ip] w]|] eqn:NX; cbn [option_map].
  - apply nth_error_split in NX as (l & r & EI & LX). subst items.
    apply wp_bind. eapply wp_mono.
    { eapply (wp_set_raw _ (flat_map (scells i) (l ++ (ii, ip, w) :: r) ++ C) _ i). exact S. }
    intros ? d1 [S1 G1]. apply wp_bind.
    assert (ER : Api.remove_at x (map sitem_id (l ++ (ii, ip, w) :: r)) = map sitem_id (l ++ r)).
    { rewrite !map_app. cbn [map]. replace x with (length (map sitem_id l)) by (rewrite map_length; exact LX).
      now rewrite remove_at_app. }
    assert (S1' : Sd (CL ++ strings v) ((i, Entry (RSeq n (ckmap hash k) (map sitem_id (l ++ r))) (hash p) par) ::
                    flat_map (scells i) (l ++ (ii, ip, w) :: r) ++ C) d1) by (rewrite <- ER; exact S1).
    eapply wp_mono.
    { eapply (wp_drop _ ((i, Entry (RSeq n (ckmap hash k) (map sitem_id (l ++ r))) (hash p) par) :: flat_map (scells i) (l ++ r) ++ C)
              _ ii _ _ _ w (Some ii)); [left; reflexivity|].
      eapply Sd_weak; [apply incl_refl| |exact S1'].
      rewrite flat_mid. cbn [Tree.scells app]. rewrite perm_swap. apply perm_skip.
      apply Permutation_middle. }
    intros ? d2 [S2 G2]. apply wp_ret. exists (TSeq i p n k (l ++ r)).
    split; [reflexivity|]. split; [|split].
    + eapply Sd_weak; [| |exact S2].
      * intros y X. apply in_app_or in X as [X|X]; [apply in_or_app; now left|]. apply in_or_app; right.
        unfold v. cbn [strings tpre] in *. destruct X as [X|X]; [now left|]. right.
        apply in_app_or in X as [X|X]; apply in_or_app; [now left|right].
        rewrite flat_map_app in *. cbn [flat_map]. apply in_app_or in X as [X|X]; apply in_or_app; [now left|right].
        apply in_or_app; now right.
      * reflexivity.
    + eapply grows_trans; eassumption.
    + now apply remat_found.
  - apply wp_ret. exists v. split; [reflexivity|]. split; [exact S|]. split; [apply grows_refl|].
    apply remat_absent. now apply nth_error_None.
Qed.
Lemma wp_map_clear CL C par i p n k items d :
  let v := TMap i p n k items in
  Sd (CL ++ strings v) (cells par v ++ C) d ->
  wpd (map_clear i) d (fun _ d' =>
    Sd (CL ++ strings (TMap i p n k [])) (cells par (TMap i p n k []) ++ C) d' /\ grows d d').
Proof.
  intros v S. unfold map_clear.
  apply wp_bind. eapply wp_read.
  { unfold mapping. rewrite (Sd_raw _ _ _ _ _ S (in_root par v C) : get_raw d i = _). reflexivity. }
  apply wp_bind. eapply wp_mono.
  { eapply (wp_set_raw _ (flat_map (mcells i) items ++ C) _ i). exact S. }
  intros ? d1 [S1 G1]. apply wp_bind. eapply wp_mono.
  { eapply (wp_drop_mitems i). eapply Sd_weak; [apply incl_refl| |exact S1]. 
    apply Permutation_middle. }
  intros ? d2 [S2 G2]. apply wp_bind. eapply wp_read.
  { unfold mapping. erewrite (Sd_raw _ _ _ _ _ S2); [|now left]. reflexivity. }
  cbv beta iota. eapply wp_mono; [eapply wp_set_raw; exact S2|]. intros ? d3 [S3 G3]. split.
  - eapply Sd_weak; [|reflexivity|exact S3]. intros x X. apply in_app_or in X as [X|X]; apply in_or_app; [now left|right].
    unfold v. cbn [strings tpre flat_map] in *. rewrite app_nil_r in X. destruct X as [X|X]; [now left|right].
    apply in_or_app. now left.
  - repeat (eapply grows_trans; [eassumption|]). apply grows_refl.
Qed.
Lemma wp_seq_clear CL C par i p n k items d :
  let v := TSeq i p n k items in
  Sd (CL ++ strings v) (cells par v ++ C) d ->
  wpd (seq_clear i) d (fun _ d' =>
    Sd (CL ++ strings (TSeq i p n k [])) (cells par (TSeq i p n k []) ++ C) d' /\ grows d d').
Proof.
  intros v S. unfold seq_clear.
  apply wp_bind. eapply wp_read.
  { unfold sequence. rewrite (Sd_raw _ _ _ _ _ S (in_root par v C) : get_raw d i = _). reflexivity. }
  apply wp_bind. eapply wp_mono.
  { eapply (wp_set_raw _ (flat_map (scells i) items ++ C) _ i). exact S. }
  intros ? d1 [S1 G1]. apply wp_bind. eapply wp_mono.
  { eapply (wp_drop_sitems i). eapply Sd_weak; [apply incl_refl| |exact S1]. 
    apply Permutation_middle. }
  intros ? d2 [S2 G2]. apply wp_bind. eapply wp_read.
  { unfold sequence. erewrite (Sd_raw _ _ _ _ _ S2); [|now left]. reflexivity. }
  cbv beta iota. eapply wp_mono; [eapply wp_set_raw; exact S2|]. intros ? d3 [S3 G3]. split.
  - eapply Sd_weak; [|reflexivity|exact S3]. intros x X. apply in_app_or in X as [X|X]; apply in_or_app; [now left|right].
    unfold v. cbn [strings tpre flat_map] in *. rewrite app_nil_r in X. destruct X as [X|X]; [now left|right].
    apply in_or_app. now left.
  - repeat (eapply grows_trans; [eassumption|]). apply grows_refl.
Qed.

(* ---- every call ---- *)
Section Run.
Variable c : ctx.
Local Notation CL := (cstrings c).
Local Notation par := (hpar None c).
Definition after (v : tree nat) (d : data) (X : tree nat -> Prop) (d' : data) : Prop :=
  exists v', tid v' = tid v /\ Sd (CL ++ strings v') (cells par v' ++ ccells hash None c (tid v)) d' /\ grows d d' /\
    (no_collision d' -> X v').
Lemma wp_set v m sc d :
  (forall L F, Sd L (cells par v ++ F) d -> In (tpre v) L -> builds L (cells par v ++ F) m d sc) ->
  Sd (CL ++ strings v) (cells par v ++ ccells hash None c (tid v)) d ->
  wpd (r <- m ;; replace (tid v) r) d (fun _ => after v d (fun v' => v' = TLeaf (tid v) (tpre v) sc)).
Proof.
  intros B S. apply wp_bind. eapply wp_mono.
  { eapply (B _ _ S). apply in_or_app. right. apply strings_pre. }
  intros r d1 (sc' & -> & S1 & G1 & N1). eapply wp_mono; [eapply wp_replace; exact S1|].
  intros ? d2 [S2 G2]. exists (TLeaf (tid v) (tpre v) sc'). split; [reflexivity|]. split; [|split].
  - eapply Sd_weak; [| |exact S2]; [|reflexivity]. intros x X. apply in_app_or in X as [X|[<-|X]].
    + apply in_or_app. right. apply in_or_app. now left.
    + apply in_or_app. right. apply in_or_app. right. apply (strings_pre v).
    + apply in_or_app. now left.
  - eapply grows_trans; eassumption.
  - intros N. f_equal. apply N1. eapply grows_nc; eassumption.
Qed.
Lemma on_mapping_no v m d L F : Sd L (cells par v ++ F) d -> is_map v = false ->
  on_mapping (tid v) m d = Ok (NotApplicable, d).
Proof.
  intros S M. unfold on_mapping, bind, read. rewrite (Sd_raw _ _ _ _ _ S (in_root par v F)).
  destruct v; [reflexivity|discriminate|reflexivity].
Qed.
Lemma on_sequence_no v m d L F : Sd L (cells par v ++ F) d -> is_seq v = false ->
  on_sequence (tid v) m d = Ok (NotApplicable, d).
Proof.
  intros S M. unfold on_sequence, bind, read. rewrite (Sd_raw _ _ _ _ _ S (in_root par v F)).
  destruct v; [reflexivity|reflexivity|discriminate].
Qed.
Lemma wp_on_mapping i p n k items m d L F Q : Sd L (cells par (TMap i p n k items) ++ F) d ->
  wpd m d Q -> wpd (on_mapping i m) d Q.
Proof.
  intros S H. unfold on_mapping. apply wp_bind. eapply wp_read; [exact (Sd_raw _ _ _ _ _ S (in_root par (TMap i p n k items) F))|].
  exact H.
Qed.
Lemma wp_on_sequence i p n k items m d L F Q : Sd L (cells par (TSeq i p n k items) ++ F) d ->
  wpd m d Q -> wpd (on_sequence i m) d Q.
Proof.
  intros S H. unfold on_sequence. apply wp_bind. eapply wp_read; [exact (Sd_raw _ _ _ _ _ S (in_root par (TSeq i p n k items) F))|].
  exact H.
Qed.
Lemma wp_insert_with v m sc key s d i p n k items : v = TMap i p n k items ->
  (forall L F, Sd L (cells par v ++ F) d -> In (tpre v) L -> builds L (cells par v ++ F) m d sc) ->
  Sd (CL ++ strings v) (cells par v ++ ccells hash None c (tid v)) d ->
  wpd (r <- m ;; inner_insert hash (tid v) key s r) d (fun h => after v d (fun v' => inserted key s sc v h v')).
Proof.
  intros E B S. apply wp_bind. eapply wp_mono.
  { eapply (B _ _ S). apply in_or_app. right. apply strings_pre. }
  intros r d1 (sc' & -> & S1 & G1 & N1). subst v. cbn [tid] in *.
  eapply wp_mono; [eapply wp_inner_insert; exact S1|].
  intros h d2 (v' & T & S2 & G2 & N2). exists v'. split; [exact T|]. split; [exact S2|].
  split; [eapply grows_trans; eassumption|]. intros N. rewrite <- N1; [now apply N2|]. eapply grows_nc; eassumption.
Qed.
Lemma wp_push_with v m sc s d i p n k items : v = TSeq i p n k items ->
  (forall L F, Sd L (cells par v ++ F) d -> In (tpre v) L -> builds L (cells par v ++ F) m d sc) ->
  Sd (CL ++ strings v) (cells par v ++ ccells hash None c (tid v)) d ->
  wpd (r <- m ;; inner_push hash (tid v) s r) d (fun h => after v d (fun v' => pushed s sc v h v')).
Proof.
  intros E B S. apply wp_bind. eapply wp_mono.
  { eapply (B _ _ S). apply in_or_app. right. apply strings_pre. }
  intros r d1 (sc' & -> & S1 & G1 & N1). subst v. cbn [tid] in *.
  eapply wp_mono; [eapply wp_inner_push; exact S1|].
  intros h d2 (v' & T & S2 & G2 & N2). exists v'. split; [exact T|]. split; [exact S2|].
  split; [eapply grows_trans; eassumption|]. intros N. rewrite <- N1; [exact N2|]. eapply grows_nc; eassumption.
Qed.

Lemma run_wp v e d : Sd (CL ++ strings v) (cells par v ++ ccells hash None c (tid v)) d ->
  wpd (run hash (tid v) e) d (fun r => after v d (effect c v e r)).
Proof.
  intros S.
  assert (set : forall m sc, ascalar v e = Some sc -> ikey e = None -> psep e = None ->
    (forall L F, Sd L (cells par v ++ F) d -> In (tpre v) L -> builds L (cells par v ++ F) m d sc) ->
    wpd (done (r <- m ;; replace (tid v) r)) d (fun r => after v d (effect c v e r))).
  { intros m sc A K P B. unfold done. apply wp_bind. eapply wp_mono; [eapply wp_set; [exact B|exact S]|].
    intros ? d' (v' & T & S' & G & N). apply wp_ret. exists v'. split; [exact T|]. split; [exact S'|].
    split; [exact G|]. intros X. rewrite (N X). now apply eff_set. }
  assert (ins : forall m sc key s, ascalar v e = Some sc -> ikey e = Some (key, s) ->
    (forall L F, Sd L (cells par v ++ F) d -> In (tpre v) L -> builds L (cells par v ++ F) m d sc) ->
    wpd (on_mapping (tid v) (handle (r <- m ;; inner_insert hash (tid v) key s r))) d (fun r => after v d (effect c v e r))).
  { intros m sc key s A K B. destruct (is_map v) eqn:M.
    - destruct v as [|i p n k items|] eqn:V; try discriminate. eapply wp_on_mapping; [exact S|].
      unfold handle. apply wp_bind. eapply wp_mono; [eapply wp_insert_with; [reflexivity|exact B|exact S]|].
      intros h d' (v' & T & S' & G & N). apply wp_ret. exists v'. split; [exact T|]. split; [exact S'|].
      split; [exact G|]. intros X. eapply eff_insert; eauto.
    - eexists NotApplicable, _. split; [eapply on_mapping_no; [exact S|exact M]|].
      exists v. split; [reflexivity|]. split; [exact S|]. split; [apply grows_refl|]. intros _.
      apply eff_no_map; [exact M|]. left. congruence. }
  assert (psh : forall m sc s, ascalar v e = Some sc -> psep e = Some s ->
    (forall L F, Sd L (cells par v ++ F) d -> In (tpre v) L -> builds L (cells par v ++ F) m d sc) ->
    wpd (on_sequence (tid v) (handle (r <- m ;; inner_push hash (tid v) s r))) d (fun r => after v d (effect c v e r))).
  { intros m sc s A K B. destruct (is_seq v) eqn:M.
    - destruct v as [| |i p n k items] eqn:V; try discriminate. eapply wp_on_sequence; [exact S|].
      unfold handle. apply wp_bind. eapply wp_mono; [eapply wp_push_with; [reflexivity|exact B|exact S]|].
      intros h d' (v' & T & S' & G & N). apply wp_ret. exists v'. split; [exact T|]. split; [exact S'|].
      split; [exact G|]. intros X. eapply eff_push; eauto.
    - eexists NotApplicable, _. split; [eapply on_sequence_no; [exact S|exact M]|].
      exists v. split; [reflexivity|]. split; [exact S|]. split; [apply grows_refl|]. intros _.
      apply eff_no_seq; [exact M|]. left. congruence. }
  destruct e; cbn [run].
  - (* SetNull *)
    unfold set_null. destruct k.
    + pose proof (set (s <- insert_str hash kw_null ;; ret (RScalar (ScNull (NKeyword s)))) _ eq_refl eq_refl eq_refl) as H.
      match type of H with _ -> ?g => assert (X : g) end.
      { apply H. intros L F S1 _. unfold builds. intern. apply wp_ret. eexists. split; [|split; [|split; [|intros _; reflexivity]]].
        - reflexivity.
        - cbn. assumption.
        - assumption. }
      clear - X. destruct X as (a & d' & E & Q). exists a, d'. split; [|exact Q]. rewrite <- E. unfold done, bind.
      unfold insert_str. destruct (assoc _ _); [destruct (beq _ _)|]; reflexivity.
    + apply (set (ret (RScalar (ScNull NTilde))) _ eq_refl eq_refl eq_refl). intros L F S1 _.
      apply wp_ret. eexists. split; [|split; [|split; [|intros _; reflexivity]]]; [reflexivity|cbn; assumption|apply grows_refl].
    + apply (set (ret (RScalar (ScNull NEmpty))) _ eq_refl eq_refl eq_refl). intros L F S1 _. now apply builds_null.
  - apply set with (1 := eq_refl) (2 := eq_refl) (3 := eq_refl). intros L F S1 _. now apply builds_string.
  - apply set with (1 := eq_refl) (2 := eq_refl) (3 := eq_refl). intros L F S1 _. now apply builds_string_with.
  - apply set with (1 := eq_refl) (2 := eq_refl) (3 := eq_refl). intros L F S1 I. now apply builds_block.
  - apply set with (1 := eq_refl) (2 := eq_refl) (3 := eq_refl). intros L F S1 _. now apply builds_bool.
  - apply set with (1 := eq_refl) (2 := eq_refl) (3 := eq_refl). intros L F S1 _. now apply builds_number.
  - apply set with (1 := eq_refl) (2 := eq_refl) (3 := eq_refl). intros L F S1 _. now apply builds_number.
  - (* MakeMapping *)
    unfold make_mapping, handle. apply wp_bind. apply wp_bind.
    eapply wp_read; [exact (Sd_raw _ _ _ _ _ S (in_root par v _))|]. cbn [tentry e_raw].
    destruct (is_map v) eqn:M.
    + destruct v as [|i p n k items|] eqn:V; try discriminate. cbn [Tree.traw]. apply wp_ret, wp_ret.
      exists v. rewrite V. split; [reflexivity|]. split; [exact S|]. split; [apply grows_refl|]. intros _. now apply eff_map_same.
    + assert (X : wpd ('(indent, prefix) <- make_indent hash (tid v) 0 ;;
         replace_with (tid v) prefix (RMap indent CBlock []) ;;; ret (tid v)) d
        (fun a d' => wpd (ret (Handle a)) d' (fun r => after v d (effect c v MakeMapping r)))).
      { apply wp_bind. eapply wp_mono; [apply wp_make_indent; exact S|]. intros [n q] d1 (p & Q & S1 & G1 & N1).
        cbn [fst snd] in *. subst q. apply wp_bind. eapply wp_mono; [eapply wp_replace_with; exact S1|].
        intros ? d2 [S2 G2]. apply wp_ret, wp_ret. exists (TMap (tid v) p n CBlock []). split; [reflexivity|].
        split; [|split].
        - eapply Sd_weak; [| |exact S2]; [|reflexivity]. intros x X. apply in_app_or in X as [X|X].
          + right. apply in_or_app. now left.
          + cbn in X. destruct X as [<-|[]]. now left.
        - eapply grows_trans; eassumption.
        - intros N. apply eff_map; [exact M|]. symmetry. apply N1. eapply grows_nc; eassumption. }
      destruct v; [exact X|discriminate|exact X].
  - (* MakeSequence *)
    unfold make_sequence, handle. apply wp_bind. apply wp_bind.
    eapply wp_read; [exact (Sd_raw _ _ _ _ _ S (in_root par v _))|]. cbn [tentry e_raw].
    destruct (is_seq v) eqn:M.
    + destruct v as [| |i p n k items] eqn:V; try discriminate. cbn [Tree.traw]. apply wp_ret, wp_ret.
      exists v. rewrite V. split; [reflexivity|]. split; [exact S|]. split; [apply grows_refl|]. intros _. now apply eff_seq_same.
    + assert (X : wpd ('(indent, prefix) <- make_indent hash (tid v) 0 ;;
         replace_with (tid v) prefix (RSeq indent CBlock []) ;;; ret (tid v)) d
        (fun a d' => wpd (ret (Handle a)) d' (fun r => after v d (effect c v MakeSequence r)))).
      { apply wp_bind. eapply wp_mono; [apply wp_make_indent; exact S|]. intros [n q] d1 (p & Q & S1 & G1 & N1).
        cbn [fst snd] in *. subst q. apply wp_bind. eapply wp_mono; [eapply wp_replace_with; exact S1|].
        intros ? d2 [S2 G2]. apply wp_ret, wp_ret. exists (TSeq (tid v) p n CBlock []). split; [reflexivity|].
        split; [|split].
        - eapply Sd_weak; [| |exact S2]; [|reflexivity]. intros x X. apply in_app_or in X as [X|X].
          + right. apply in_or_app. now left.
          + cbn in X. destruct X as [<-|[]]. now left.
        - eapply grows_trans; eassumption.
        - intros N. apply eff_seq; [exact M|]. symmetry. apply N1. eapply grows_nc; eassumption. }
      destruct v; [exact X|exact X|discriminate].
  - apply (ins (ret (RScalar (ScNull NEmpty))) _ _ _ eq_refl eq_refl). intros L F S1 _. now apply builds_null.
  - apply ins with (1 := eq_refl) (2 := eq_refl). intros L F S1 _. now apply builds_string.
  - apply ins with (1 := eq_refl) (2 := eq_refl). intros L F S1 I. now apply builds_block.
  - apply ins with (1 := eq_refl) (2 := eq_refl). intros L F S1 _. now apply builds_bool.
  - apply ins with (1 := eq_refl) (2 := eq_refl). intros L F S1 _. now apply builds_number.
  - apply ins with (1 := eq_refl) (2 := eq_refl). intros L F S1 _. now apply builds_number.
  - (* RemoveKey *)
    destruct (is_map v) eqn:M.
    + destruct v as [|i p n k items|] eqn:V; try discriminate. eapply wp_on_mapping; [exact S|].
      unfold Api.removed. apply wp_bind. eapply wp_mono; [eapply wp_map_remove; exact S|].
      intros b d' (v' & T & S' & G & N). apply wp_ret. exists v'. split; [exact T|]. split; [exact S'|].
      split; [exact G|]. intros X. apply eff_remove_key. auto.
    + eexists NotApplicable, _. split; [eapply on_mapping_no; [exact S|exact M]|].
      exists v. split; [reflexivity|]. split; [exact S|]. split; [apply grows_refl|]. intros _.
      apply eff_no_map; [exact M|]. right. right. eauto.
  - (* ClearMapping *)
    destruct (is_map v) eqn:M.
    + destruct v as [|i p n k items|] eqn:V; try discriminate. eapply wp_on_mapping; [exact S|].
      unfold done. apply wp_bind. eapply wp_mono; [eapply wp_map_clear; exact S|].
      intros ? d' (S' & G). apply wp_ret. eexists. split; [|split; [exact S'|]]; [reflexivity|].
      split; [exact G|]. intros X. eapply eff_clear_map. reflexivity.
    + eexists NotApplicable, _. split; [eapply on_mapping_no; [exact S|exact M]|].
      exists v. split; [reflexivity|]. split; [exact S|]. split; [apply grows_refl|]. intros _.
      apply eff_no_map; [exact M|]. auto.
  - apply (psh (ret (RScalar (ScNull NEmpty))) _ _ eq_refl eq_refl). intros L F S1 _. now apply builds_null.
  - apply psh with (1 := eq_refl) (2 := eq_refl). intros L F S1 _. now apply builds_string.
  - apply psh with (1 := eq_refl) (2 := eq_refl). intros L F S1 I. now apply builds_block.
  - apply psh with (1 := eq_refl) (2 := eq_refl). intros L F S1 _. now apply builds_bool.
  - apply psh with (1 := eq_refl) (2 := eq_refl). intros L F S1 _. now apply builds_number.
  - apply psh with (1 := eq_refl) (2 := eq_refl). intros L F S1 _. now apply builds_number.
  - (* RemoveIndex *)
    destruct (is_seq v) eqn:M.
    + destruct v as [| |j p n k items] eqn:V; try discriminate. eapply wp_on_sequence; [exact S|].
      unfold Api.removed. apply wp_bind. eapply wp_mono; [eapply wp_seq_remove; exact S|].
      intros b d' (v' & T & S' & G & N). apply wp_ret. exists v'. split; [exact T|]. split; [exact S'|].
      split; [exact G|]. intros X. apply eff_remove_at. auto.
    + eexists NotApplicable, _. split; [eapply on_sequence_no; [exact S|exact M]|].
      exists v. split; [reflexivity|]. split; [exact S|]. split; [apply grows_refl|]. intros _.
      apply eff_no_seq; [exact M|]. right. right. eauto.
  - (* ClearSequence *)
    destruct (is_seq v) eqn:M.
    + destruct v as [| |i p n k items] eqn:V; try discriminate. eapply wp_on_sequence; [exact S|].
      unfold done. apply wp_bind. eapply wp_mono; [eapply wp_seq_clear; exact S|].
      intros ? d' (S' & G). apply wp_ret. eexists. split; [|split; [exact S'|]]; [reflexivity|].
      split; [exact G|]. intros X. eapply eff_clear_seq. reflexivity.
    + eexists NotApplicable, _. split; [eapply on_sequence_no; [exact S|exact M]|].
      exists v. split; [reflexivity|]. split; [exact S|]. split; [apply grows_refl|]. intros _.
      apply eff_no_seq; [exact M|]. auto.
Qed.
Theorem run_effect v e d : models_at hash None d (plug c v) ->
  exists r d' v', run hash (tid v) e d = Ok (r, d') /\ tid v' = tid v /\
    models_at hash None d' (plug c v') /\ grows d d' /\ (no_collision d' -> effect c v e r v').
Proof.
  intros M. assert (S : Sd (CL ++ strings v) (cells par v ++ ccells hash None c (tid v)) d).
  { eapply Sd_weak; [| |exact M].
    - intros x X. apply (Permutation_in _ (Permutation_sym (strings_plug c v))). exact X.
    - rewrite cells_plug. apply Permutation_app_comm. }
  destruct (run_wp v e d S) as (r & d' & E & v' & T & S' & G & N).
  exists r, d', v'. split; [exact E|]. split; [exact T|]. split; [|split; [exact G|exact N]].
  eapply Sd_weak; [| |exact S'].
  - intros x X. apply (Permutation_in _ (strings_plug c v')). exact X.
  - rewrite cells_plug. rewrite T. apply Permutation_app_comm.
Qed.
End Run.
End Edit.
