(* One-hole contexts of trees, the values of a document, and reading through the API. *)
From Coq Require Import List NArith ZArith Bool Arith Lia Permutation.
From Verif Require Import Bytes Utf8 Data Slab Render Tree Num Api.
Import ListNotations.

Definition mkey {I} (it : mitem I) : rstr bytes := snd (fst it).

Inductive ctx :=
| CHole
| CMapC (i : nat) (p : bytes) (n : nat) (k : ckind bytes) (l : list (mitem nat))
        (ii : nat) (ip : bytes) (key : rstr bytes) (c : ctx) (r : list (mitem nat))
| CSeqC (i : nat) (p : bytes) (n : nat) (k : ckind bytes) (l : list (sitem nat))
        (ii : nat) (ip : bytes) (c : ctx) (r : list (sitem nat)).
Fixpoint plug (c : ctx) (v : tree nat) : tree nat :=
  match c with
  | CHole => v
  | CMapC i p n k l ii ip key c r => TMap i p n k (l ++ (ii, ip, key, plug c v) :: r)
  | CSeqC i p n k l ii ip c r => TSeq i p n k (l ++ (ii, ip, plug c v) :: r)
  end.
(* The id of plug c v, for tid v = x. *)
Definition cid (c : ctx) (x : nat) : nat :=
  match c with CHole => x | CMapC i _ _ _ _ _ _ _ _ _ | CSeqC i _ _ _ _ _ _ _ _ => i end.
Lemma tid_plug c v : tid (plug c v) = cid c (tid v).
Proof. destruct c; reflexivity. Qed.
(* The parent of the hole. *)
Fixpoint hpar (par : option nat) (c : ctx) : option nat :=
  match c with
  | CHole => par
  | CMapC _ _ _ _ _ ii _ _ c _ | CSeqC _ _ _ _ _ ii _ c _ => hpar (Some ii) c
  end.
Fixpoint cstrings (c : ctx) : list bytes :=
  match c with
  | CHole => []
  | CMapC i p n k l ii ip key c r =>
    p :: ck_strings k ++ flat_map (fun '(_, ip, key, v) => ip :: rs_strings key ++ strings v) (l ++ r) ++
    ip :: rs_strings key ++ cstrings c
  | CSeqC i p n k l ii ip c r =>
    p :: ck_strings k ++ flat_map (fun '(_, ip, v) => ip :: strings v) (l ++ r) ++ ip :: cstrings c
  end.
Lemma strings_plug c v : Permutation (strings (plug c v)) (cstrings c ++ strings v).
Proof.
  induction c as [|i p n k l ii ip key c IH r|i p n k l ii ip c IH r]; cbn [plug cstrings strings tpre].
  - reflexivity.
  - cbn [app]. apply perm_skip. rewrite <- !app_assoc. apply Permutation_app_head.
    rewrite !flat_map_app, <- !app_assoc. apply Permutation_app_head. cbn [flat_map app].
    rewrite <- Permutation_middle. apply perm_skip. rewrite Permutation_app_comm. apply Permutation_app_head.
    rewrite <- !app_assoc. apply Permutation_app_head. exact IH.
  - cbn [app]. apply perm_skip. rewrite <- !app_assoc. apply Permutation_app_head.
    rewrite !flat_map_app, <- !app_assoc. apply Permutation_app_head. cbn [flat_map app].
    rewrite <- Permutation_middle. apply perm_skip. rewrite Permutation_app_comm. apply Permutation_app_head. exact IH.
Qed.

Section Cells.
Variable hash : bytes -> sid.
Local Notation cells := (cells hash).
Local Notation mcells := (mcells hash).
Local Notation scells := (scells hash).
(* The entries outside the hole, for a value with id x in it. *)
Fixpoint ccells (par : option nat) (c : ctx) (x : nat) : list (nat * entry) :=
  match c with
  | CHole => []
  | CMapC i p n k l ii ip key c r =>
    (i, Entry (RMap n (ckmap hash k) (map mitem_id l ++ ii :: map mitem_id r)) (hash p) par) ::
    flat_map (mcells i) l ++ (ii, Entry (RMapItem (rsmap hash key) (cid c x)) (hash ip) (Some i)) ::
    ccells (Some ii) c x ++ flat_map (mcells i) r
  | CSeqC i p n k l ii ip c r =>
    (i, Entry (RSeq n (ckmap hash k) (map sitem_id l ++ ii :: map sitem_id r)) (hash p) par) ::
    flat_map (scells i) l ++ (ii, Entry (RSeqItem (cid c x)) (hash ip) (Some i)) ::
    ccells (Some ii) c x ++ flat_map (scells i) r
  end.
Lemma cells_map par i p n k items : cells par (TMap i p n k items) =
  (i, Entry (RMap n (ckmap hash k) (map mitem_id items)) (hash p) par) :: flat_map (mcells i) items.
Proof. reflexivity. Qed.
Lemma cells_seq par i p n k items : cells par (TSeq i p n k items) =
  (i, Entry (RSeq n (ckmap hash k) (map sitem_id items)) (hash p) par) :: flat_map (scells i) items.
Proof. reflexivity. Qed.
Lemma cells_plug c v : forall par,
  Permutation (cells par (plug c v)) (ccells par c (tid v) ++ cells (hpar par c) v).
Proof.
  induction c as [|i p n k l ii ip key c IH r|i p n k l ii ip c IH r]; intros par; cbn [plug ccells hpar].
  - reflexivity.
  - rewrite cells_map. rewrite map_app. cbn [map mitem_id fst app]. apply perm_skip.
    rewrite flat_map_app, <- app_assoc. apply Permutation_app_head. cbn [flat_map Tree.mcells app].
    rewrite tid_plug. apply perm_skip. rewrite IH. rewrite <- !app_assoc. apply Permutation_app_head.
    apply Permutation_app_comm.
  - rewrite cells_seq. rewrite map_app. cbn [map sitem_id fst app]. apply perm_skip.
    rewrite flat_map_app, <- app_assoc. apply Permutation_app_head. cbn [flat_map Tree.scells app].
    rewrite tid_plug. apply perm_skip. rewrite IH. rewrite <- !app_assoc. apply Permutation_app_head.
    apply Permutation_app_comm.
Qed.
End Cells.

(* ---- printing around the hole ---- *)
Definition full {I} (t : tree I) : bytes := tpre t ++ wtree t.
Definition sepl (c : bytes) (l : list bytes) : bytes := flat_map (fun x => x ++ c) l.
Definition sepr (c : bytes) (l : list bytes) : bytes := match l with [] => [] | _ => c ++ sep c l end.
Lemma sep_split c l x r : sep c (l ++ x :: r) = sepl c l ++ x ++ sepr c r.
Proof.
  induction l as [|a l IH]; cbn [app sep sepl flat_map].
  - destruct r; reflexivity.
  - rewrite IH. destruct (l ++ x :: r) eqn:E; [now destruct l|].
    unfold sepl. rewrite <- !app_assoc. reflexivity.
Qed.
Definition wmitem {I} (it : mitem I) : bytes :=
  let '(_, ip, key, v) := it in ip ++ wstr key ++ [COLON] ++ full v.
Definition wsitem {I} (k : ckind bytes) (it : sitem I) : bytes :=
  let '(_, ip, v) := it in lossy ip ++ dash_if k ++ full v.
Lemma wtree_map {I} (i : I) p n k items : wtree (TMap i p n k items) =
  open_if LBRACE k ++ sep (comma_if k) (map wmitem items) ++ closing (fun x => x) RBRACE k.
Proof. reflexivity. Qed.
Lemma wtree_seq {I} (i : I) p n k items : wtree (TSeq i p n k items) =
  open_if LBRACK k ++ sep (comma_if k) (map (wsitem k) items) ++ closing (fun x => x) RBRACK k.
Proof. reflexivity. Qed.
Fixpoint wleft (c : ctx) : bytes :=
  match c with
  | CHole => []
  | CMapC i p n k l ii ip key c r =>
    p ++ open_if LBRACE k ++ sepl (comma_if k) (map wmitem l) ++ ip ++ wstr key ++ [COLON] ++ wleft c
  | CSeqC i p n k l ii ip c r =>
    p ++ open_if LBRACK k ++ sepl (comma_if k) (map (wsitem k) l) ++ lossy ip ++ dash_if k ++ wleft c
  end.
Fixpoint wright (c : ctx) : bytes :=
  match c with
  | CHole => []
  | CMapC i p n k l ii ip key c r =>
    wright c ++ sepr (comma_if k) (map wmitem r) ++ closing (fun x => x) RBRACE k
  | CSeqC i p n k l ii ip c r =>
    wright c ++ sepr (comma_if k) (map (wsitem k) r) ++ closing (fun x => x) RBRACK k
  end.
Lemma full_plug c v : full (plug c v) = wleft c ++ full v ++ wright c.
Proof.
  induction c as [|i p n k l ii ip key c IH r|i p n k l ii ip c IH r]; cbn [plug wleft wright].
  - now rewrite app_nil_r.
  - unfold full at 1. cbn [tpre]. rewrite wtree_map, map_app. cbn [map]. rewrite sep_split.
    cbn [wmitem]. rewrite IH. rewrite <- !app_assoc. reflexivity.
  - unfold full at 1. cbn [tpre]. rewrite wtree_seq, map_app. cbn [map]. rewrite sep_split.
    cbn [wsitem]. rewrite IH. rewrite <- !app_assoc. reflexivity.
Qed.
Lemma wdoc_plug c v suf : wdoc (plug c v) suf = wleft c ++ full v ++ wright c ++ suf.
Proof.
  unfold wdoc. rewrite app_assoc. change (tpre (plug c v) ++ wtree (plug c v)) with (full (plug c v)).
  rewrite full_plug, <- !app_assoc. reflexivity.
Qed.

(* ---- subtrees ---- *)
Inductive sub (t : tree nat) : tree nat -> Prop :=
| sub_here : sub t t
| sub_map i p n k items ii ip key v :
    sub t (TMap i p n k items) -> In (ii, ip, key, v) items -> sub t v
| sub_seq i p n k items ii ip v :
    sub t (TSeq i p n k items) -> In (ii, ip, v) items -> sub t v.
Fixpoint ccomp (c d : ctx) : ctx :=
  match c with
  | CHole => d
  | CMapC i p n k l ii ip key c r => CMapC i p n k l ii ip key (ccomp c d) r
  | CSeqC i p n k l ii ip c r => CSeqC i p n k l ii ip (ccomp c d) r
  end.
Lemma plug_comp c d v : plug (ccomp c d) v = plug c (plug d v).
Proof. induction c; cbn; congruence. Qed.
Lemma sub_ctx t v : sub t v -> exists c, t = plug c v.
Proof.
  induction 1 as [|i p n k items ii ip key v S [c ->] I|i p n k items ii ip v S [c ->] I].
  - now exists CHole.
  - apply in_split in I as (l & r & ->). exists (ccomp c (CMapC i p n k l ii ip key CHole r)).
    now rewrite plug_comp.
  - apply in_split in I as (l & r & ->). exists (ccomp c (CSeqC i p n k l ii ip CHole r)).
    now rewrite plug_comp.
Qed.
Lemma sub_trans t u v : sub t u -> sub u v -> sub t v.
Proof.
  intros H1 H2. induction H2 as [|i p n k items ii ip key v S IH I|i p n k items ii ip v S IH I].
  - exact H1.
  - eapply sub_map; eauto.
  - eapply sub_seq; eauto.
Qed.
Lemma sub_plug c v : sub (plug c v) v.
Proof.
  induction c as [|i p n k l ii ip key c IH r|i p n k l ii ip c IH r]; cbn [plug].
  - constructor.
  - eapply sub_trans; [|exact IH]. eapply sub_map; [constructor|]. apply in_or_app. right. now left.
  - eapply sub_trans; [|exact IH]. eapply sub_seq; [constructor|]. apply in_or_app. right. now left.
Qed.

(* ---- the values of a document, found with the API ---- *)
(* The values inside the value a, found with the iterators of mappings and sequences. *)
Inductive within (d : data) (a : nat) : nat -> Prop :=
| w_here : within d a a
| w_map id items it key v : within d a id -> map_iter d id = Ok items -> In it items ->
    map_item_opt d (Some it) = Ok (Some (key, v)) -> within d a v
| w_seq id items it v : within d a id -> seq_iter d id = Ok items -> In it items ->
    seq_item_opt d (Some it) = Ok (Some v) -> within d a v.
Definition value_of (doc : document) : nat -> Prop := within (doc_data doc) (doc_root doc).
(* The ids of mapping and sequence items, which the API does not give out. *)
Inductive item_of (doc : document) : nat -> Prop :=
| i_map id items it : value_of doc id -> map_iter (doc_data doc) id = Ok items -> In it items -> item_of doc it
| i_seq id items it : value_of doc id -> seq_iter (doc_data doc) id = Ok items -> In it items -> item_of doc it.

Section Reading.
Variable hash : bytes -> sid.
Variable d : data.
Variable t : tree nat.
Variable par : option nat.
Hypothesis M : models_at hash par d t.
(* what the table yields for the string s *)
Definition look (s : bytes) : bytes := match assoc (hash s) (d_strings d) with Some x => x | None => [] end.
Lemma str_look s : logged hash d s -> str d (hash s) = Ok (look s).
Proof. intros L. destruct (in_assoc hash _ _ _ L) as [x E]. unfold str, look. now rewrite E. Qed.
Lemma look_id s : no_collision hash d -> logged hash d s -> look s = s.
Proof.
  intros N L. destruct M as (_ & T & _). apply (logged_interned hash d s T N) in L.
  unfold look, interned in *. now rewrite L.
Qed.
Lemma sub_cells v : sub t v -> exists par', incl (cells hash par' v) (cells hash par t).
Proof.
  intros S. destruct (sub_ctx _ _ S) as [c ->]. exists (hpar par c). intros x X.
  eapply Permutation_in; [symmetry; apply cells_plug|]. apply in_or_app. now right.
Qed.
Lemma sub_strings v : sub t v -> incl (strings v) (strings t).
Proof.
  intros S. destruct (sub_ctx _ _ S) as [c ->]. intros x X.
  eapply Permutation_in; [symmetry; apply strings_plug|]. apply in_or_app. now right.
Qed.
Lemma sub_logged v s : sub t v -> In s (strings v) -> logged hash d s.
Proof.
  intros S I. destruct M as (_ & _ & F). rewrite Forall_forall in F. apply F. now apply (sub_strings v).
Qed.
Lemma sub_get v : sub t v -> exists par', slab_get (d_slab d) (tid v) = Some (tentry hash par' v).
Proof.
  intros S. destruct (sub_cells v S) as [par' I]. exists par'. destruct M as (H & _).
  eapply has_get; [exact H|]. apply I. rewrite cells_eq. now left.
Qed.
Lemma sub_raw v : sub t v -> get_raw d (tid v) = Ok (traw hash v).
Proof. intros S. destruct (sub_get v S) as [par' E]. unfold get_raw, get_entry. rewrite E. reflexivity. Qed.
Lemma sub_mitem i p n k items ii ip key v : sub t (TMap i p n k items) -> In (ii, ip, key, v) items ->
  slab_get (d_slab d) ii = Some (Entry (RMapItem (rsmap hash key) (tid v)) (hash ip) (Some i)).
Proof.
  intros S I. destruct (sub_cells _ S) as [par' J]. destruct M as (H & _).
  eapply has_get; [exact H|]. apply J. rewrite cells_map. right. apply in_flat_map.
  exists (ii, ip, key, v). split; [exact I|]. now left.
Qed.
Lemma sub_sitem i p n k items ii ip v : sub t (TSeq i p n k items) -> In (ii, ip, v) items ->
  slab_get (d_slab d) ii = Some (Entry (RSeqItem (tid v)) (hash ip) (Some i)).
Proof.
  intros S I. destruct (sub_cells _ S) as [par' J]. destruct M as (H & _).
  eapply has_get; [exact H|]. apply J. rewrite cells_seq. right. apply in_flat_map.
  exists (ii, ip, v). split; [exact I|]. now left.
Qed.
Lemma sub_map_item i p n k items ii ip key v : sub t (TMap i p n k items) -> In (ii, ip, key, v) items ->
  mapping_item d ii = Ok (rsmap hash key, tid v).
Proof.
  intros S I. unfold mapping_item, get_raw, get_entry. now rewrite (sub_mitem _ _ _ _ _ _ _ _ _ S I).
Qed.
Lemma sub_seq_item i p n k items ii ip v : sub t (TSeq i p n k items) -> In (ii, ip, v) items ->
  sequence_item d ii = Ok (tid v).
Proof.
  intros S I. unfold sequence_item, get_raw, get_entry. now rewrite (sub_sitem _ _ _ _ _ _ _ _ S I).
Qed.
Lemma key_logged i p n k items ii ip key v : sub t (TMap i p n k items) -> In (ii, ip, key, v) items ->
  logged hash d (rs_id key).
Proof.
  intros S I. eapply sub_logged; [exact S|]. cbn. right. apply in_or_app. right. apply in_flat_map.
  exists (ii, ip, key, v). split; [exact I|]. right. apply in_or_app. left. unfold rs_strings.
  apply in_or_app. right. now left.
Qed.
Lemma map_iter_inv id l : map_iter d id = Ok l -> exists i k, get_raw d id = Ok (RMap i k l).
Proof.
  unfold map_iter, mapping. destruct (get_raw d id) as [[]| | | |]; try discriminate. intros E. injection E as ->. eauto.
Qed.
Lemma seq_iter_inv id l : seq_iter d id = Ok l -> exists i k, get_raw d id = Ok (RSeq i k l).
Proof.
  unfold seq_iter, sequence. destruct (get_raw d id) as [[]| | | |]; try discriminate. intros E. injection E as ->. eauto.
Qed.
Lemma sub_map_iter i p n k items : sub t (TMap i p n k items) -> map_iter d i = Ok (map mitem_id items).
Proof. intros S. unfold map_iter, mapping. rewrite (sub_raw _ S : get_raw d i = _). reflexivity. Qed.
Lemma sub_seq_iter i p n k items : sub t (TSeq i p n k items) -> seq_iter d i = Ok (map sitem_id items).
Proof. intros S. unfold seq_iter, sequence. rewrite (sub_raw _ S : get_raw d i = _). reflexivity. Qed.
Lemma sub_item_opt i p n k items ii ip key v : sub t (TMap i p n k items) -> In (ii, ip, key, v) items ->
  map_item_opt d (Some ii) = Ok (Some (look (rs_id key), tid v)).
Proof.
  intros S I. unfold map_item_opt. rewrite (sub_map_item _ _ _ _ _ _ _ _ _ S I). cbn [rsmap rs_id].
  rewrite str_look; [reflexivity|]. eapply key_logged; eauto.
Qed.
Lemma sub_sitem_opt i p n k items ii ip v : sub t (TSeq i p n k items) -> In (ii, ip, v) items ->
  seq_item_opt d (Some ii) = Ok (Some (tid v)).
Proof. intros S I. unfold seq_item_opt. now rewrite (sub_seq_item _ _ _ _ _ _ _ _ S I). Qed.
Lemma within_sub v id : sub t v -> within d (tid v) id -> exists w, sub v w /\ tid w = id.
Proof.
  intros S W. induction W as [|id l it key x W (w & S' & E) H1 H2 H3|id l it x W (w & S' & E) H1 H2 H3].
  - exists v. split; [constructor|reflexivity].
  - apply map_iter_inv in H1 as (i & k & H1). subst id. pose proof (sub_trans _ _ _ S S') as S2.
    rewrite (sub_raw w S2) in H1. destruct w as [|j p n kk items|]; try discriminate. cbn in H1. injection H1 as -> <- <-.
    apply in_map_iff in H2 as ([[[ii ip] ky] u] & <- & I). cbn [mitem_id fst] in H3.
    rewrite (sub_item_opt _ _ _ _ _ _ _ _ _ S2 I) in H3. injection H3 as _ <-. exists u. split; [|reflexivity].
    eapply sub_map; eauto.
  - apply seq_iter_inv in H1 as (i & k & H1). subst id. pose proof (sub_trans _ _ _ S S') as S2.
    rewrite (sub_raw w S2) in H1. destruct w as [| |j p n kk items]; try discriminate. cbn in H1. injection H1 as -> <- <-.
    apply in_map_iff in H2 as ([[ii ip] u] & <- & I). cbn [sitem_id fst] in H3.
    rewrite (sub_sitem_opt _ _ _ _ _ _ _ _ S2 I) in H3. injection H3 as <-. exists u. split; [|reflexivity].
    eapply sub_seq; eauto.
Qed.
Lemma sub_within v w : sub t v -> sub v w -> within d (tid v) (tid w).
Proof.
  intros S W. induction W as [|i p n k items ii ip key u W IH I|i p n k items ii ip u W IH I].
  - constructor.
  - pose proof (sub_trans _ _ _ S W) as S2. eapply w_map; [exact IH|exact (sub_map_iter _ _ _ _ _ S2)| |].
    + apply in_map. exact I.
    + cbn. eapply sub_item_opt; eauto.
  - pose proof (sub_trans _ _ _ S W) as S2. eapply w_seq; [exact IH|exact (sub_seq_iter _ _ _ _ _ S2)| |].
    + apply in_map. exact I.
    + cbn. eapply sub_sitem_opt; eauto.
Qed.
End Reading.

(* ---- where a subtree sits relative to the hole ---- *)
Lemma sub_head t w : sub t w -> w = t \/
  (exists i p n k items ii ip key v, t = TMap i p n k items /\ In (ii, ip, key, v) items /\ sub v w) \/
  (exists i p n k items ii ip v, t = TSeq i p n k items /\ In (ii, ip, v) items /\ sub v w).
Proof.
  induction 1 as [|i p n k items ii ip key v S IH I|i p n k items ii ip v S IH I].
  - now left.
  - right. destruct IH as [E|[(i' & p' & n' & k' & items' & ii' & ip' & key' & v' & E & I' & S')|(i' & p' & n' & k' & items' & ii' & ip' & v' & E & I' & S')]].
    + left. subst t. do 9 eexists. split; [reflexivity|]. split; [exact I|constructor].
    + left. do 9 eexists. split; [exact E|]. split; [exact I'|]. eapply sub_map; eauto.
    + right. do 8 eexists. split; [exact E|]. split; [exact I'|]. eapply sub_map; eauto.
  - right. destruct IH as [E|[(i' & p' & n' & k' & items' & ii' & ip' & key' & v' & E & I' & S')|(i' & p' & n' & k' & items' & ii' & ip' & v' & E & I' & S')]].
    + right. subst t. do 8 eexists. split; [reflexivity|]. split; [exact I|constructor].
    + left. do 9 eexists. split; [exact E|]. split; [exact I'|]. eapply sub_seq; eauto.
    + right. do 8 eexists. split; [exact E|]. split; [exact I'|]. eapply sub_seq; eauto.
Qed.
Section Where.
Variable hash : bytes -> sid.
Lemma sub_in_cells v w par : sub v w -> exists par', incl (cells hash par' w) (cells hash par v).
Proof.
  intros S. destruct (sub_ctx _ _ S) as [c ->]. exists (hpar par c). intros x X.
  eapply Permutation_in; [symmetry; apply cells_plug|]. apply in_or_app. now right.
Qed.
Lemma sub_plug_cases c v w : sub (plug c v) w ->
  sub v w \/
  (exists c1 c2, c = ccomp c1 c2 /\ c2 <> CHole /\ w = plug c2 v) \/
  ((forall v', sub (plug c v') w) /\
   forall par x, exists par', incl (cells hash par' w) (ccells hash par c x)).
Proof.
  induction c as [|i p n k l ii ip key c IH r|i p n k l ii ip c IH r]; cbn [plug]; intros S.
  - now left.
  - apply sub_head in S as [->|[(i' & p' & n' & k' & items' & ii' & ip' & key' & v' & E & I & S)|(? & ? & ? & ? & ? & ? & ? & ? & E & _)]];
      [|injection E as <- <- <- <- <-|discriminate].
    + right. left. exists CHole, (CMapC i p n k l ii ip key c r). split; [reflexivity|]. split; [discriminate|reflexivity].
    + apply in_app_or in I as [I|[I|I]].
      * right. right. split.
        { intros u. eapply sub_trans; [|exact S]. eapply sub_map; [constructor|]. apply in_or_app. left. exact I. }
        { intros par x. destruct (sub_in_cells _ _ (Some ii') S) as [par' J]. exists par'. intros y Y. cbn [ccells]. right.
          apply in_or_app. left. apply in_flat_map. eexists. split; [exact I|]. right. now apply J. }
      * injection I as <- <- <- <-. destruct (IH S) as [H|[(c1 & c2 & -> & N & ->)|[H1 H2]]].
        { now left. }
        { right. left. exists (CMapC i p n k l ii ip key c1 r), c2. auto. }
        { right. right. split.
          - intros u. eapply sub_trans; [|apply H1]. eapply sub_map; [constructor|]. apply in_or_app. right. left. reflexivity.
          - intros par x. destruct (H2 (Some ii) x) as [par' J]. exists par'. intros y Y. cbn [ccells]. right.
            apply in_or_app. right. right. apply in_or_app. left. now apply J. }
      * right. right. split.
        { intros u. eapply sub_trans; [|exact S]. eapply sub_map; [constructor|]. apply in_or_app. right. right. exact I. }
        { intros par x. destruct (sub_in_cells _ _ (Some ii') S) as [par' J]. exists par'. intros y Y. cbn [ccells]. right.
          apply in_or_app. right. right. apply in_or_app. right. apply in_flat_map. eexists. split; [exact I|]. right. now apply J. }
  - apply sub_head in S as [->|[(? & ? & ? & ? & ? & ? & ? & ? & ? & E & _)|(i' & p' & n' & k' & items' & ii' & ip' & v' & E & I & S)]];
      [|discriminate|injection E as <- <- <- <- <-].
    + right. left. exists CHole, (CSeqC i p n k l ii ip c r). split; [reflexivity|]. split; [discriminate|reflexivity].
    + apply in_app_or in I as [I|[I|I]].
      * right. right. split.
        { intros u. eapply sub_trans; [|exact S]. eapply sub_seq; [constructor|]. apply in_or_app. left. exact I. }
        { intros par x. destruct (sub_in_cells _ _ (Some ii') S) as [par' J]. exists par'. intros y Y. cbn [ccells]. right.
          apply in_or_app. left. apply in_flat_map. eexists. split; [exact I|]. right. now apply J. }
      * injection I as <- <- <-. destruct (IH S) as [H|[(c1 & c2 & -> & N & ->)|[H1 H2]]].
        { now left. }
        { right. left. exists (CSeqC i p n k l ii ip c1 r), c2. auto. }
        { right. right. split.
          - intros u. eapply sub_trans; [|apply H1]. eapply sub_seq; [constructor|]. apply in_or_app. right. left. reflexivity.
          - intros par x. destruct (H2 (Some ii) x) as [par' J]. exists par'. intros y Y. cbn [ccells]. right.
            apply in_or_app. right. right. apply in_or_app. left. now apply J. }
      * right. right. split.
        { intros u. eapply sub_trans; [|exact S]. eapply sub_seq; [constructor|]. apply in_or_app. right. right. exact I. }
        { intros par x. destruct (sub_in_cells _ _ (Some ii') S) as [par' J]. exists par'. intros y Y. cbn [ccells]. right.
          apply in_or_app. right. right. apply in_or_app. right. apply in_flat_map. eexists. split; [exact I|]. right. now apply J. }
Qed.
(* The node of an ancestor of the hole is outside the hole. *)
Lemma anc_in_ccells c1 : forall c2 par x, c2 <> CHole -> In (cid c2 x) (map fst (ccells hash par (ccomp c1 c2) x)).
Proof.
  induction c1 as [|i p n k l ii ip key c IH r|i p n k l ii ip c IH r]; intros c2 par x N; cbn [ccomp].
  - destruct c2; [congruence|now left|now left].
  - cbn [ccells map]. right. rewrite map_app. apply in_or_app. right. cbn [map]. right. rewrite map_app.
    apply in_or_app. left. now apply IH.
  - cbn [ccells map]. right. rewrite map_app. apply in_or_app. right. cbn [map]. right. rewrite map_app.
    apply in_or_app. left. now apply IH.
Qed.
Lemma nodup_app_disj {A} (l r : list A) x : NoDup (l ++ r) -> In x l -> In x r -> False.
Proof.
  induction l as [|a l IH]; cbn; [intros _ []|]. intros N [E|I] J; inversion N as [|? ? NI N2]; subst.
  - apply NI. apply in_or_app. now right.
  - eauto.
Qed.
Lemma nodup_app_r {A} (l r : list A) : NoDup (l ++ r) -> NoDup r.
Proof. induction l as [|a l IH]; cbn; intros N; [exact N|]. inversion N; auto. Qed.
Lemma plug_nodup par c v : NoDup (map fst (cells hash par (plug c v))) ->
  NoDup (map fst (ccells hash par c (tid v)) ++ map fst (cells hash (hpar par c) v)).
Proof.
  intros N. rewrite <- map_app. eapply Permutation_NoDup; [|exact N]. apply Permutation_map. apply cells_plug.
Qed.
(* ids determine subtrees *)
Lemma sub_unique t par v w : NoDup (map fst (cells hash par t)) -> sub t v -> sub t w -> tid v = tid w -> v = w.
Proof.
  intros N V W E. destruct (sub_ctx _ _ V) as [c ->]. apply plug_nodup in N.
  assert (R : forall u q, In (tid u) (map fst (cells hash q u))) by (intros u q; rewrite cells_eq; now left).
  destruct (sub_plug_cases _ _ _ W) as [S|[(c1 & c2 & -> & NE & ->)|[_ H]]].
  - apply sub_head in S as [->|S]; [reflexivity|]. exfalso.
    assert (X : In (tid w) (map fst (kids hash v))).
    { destruct S as [(i & p & n & k & items & ii & ip & key & u & -> & I & S)|(i & p & n & k & items & ii & ip & u & -> & I & S)];
        (destruct (sub_in_cells _ _ (Some ii) S) as [par' J]); apply in_map_iff; exists (tid w, tentry hash par' w);
        (split; [reflexivity|]); cbn [kids]; apply in_flat_map; eexists; (split; [exact I|]); right; apply J;
        rewrite cells_eq; now left. }
    apply nodup_app_r in N. rewrite cells_eq in N. cbn [map fst] in N. inversion N; subst. congruence.
  - exfalso. pose proof (anc_in_ccells c1 c2 par (tid v) NE) as A. rewrite <- tid_plug, <- E in A.
    eapply nodup_app_disj; [exact N|exact A|apply R].
  - exfalso. destruct (H par (tid v)) as [par' J]. eapply nodup_app_disj; [exact N| |apply R].
    apply in_map_iff. exists (tid w, tentry hash par' w). split; [cbn; congruence|]. apply J. rewrite cells_eq. now left.
Qed.
(* The entries of a tree: values and items. *)
Lemma cells_cases t : forall par k e, In (k, e) (cells hash par t) ->
  (exists w par', sub t w /\ tid w = k /\ e = tentry hash par' w) \/
  (exists i p n kk items ip key v, sub t (TMap i p n kk items) /\ In (k, ip, key, v) items /\
     e = Entry (RMapItem (rsmap hash key) (tid v)) (hash ip) (Some i)) \/
  (exists i p n kk items ip v, sub t (TSeq i p n kk items) /\ In (k, ip, v) items /\
     e = Entry (RSeqItem (tid v)) (hash ip) (Some i)).
Proof.
  induction t as [i p s|i p n kk items IH|i p n kk items IH] using tree_ind'; intros par k e H; rewrite cells_eq in H;
    (destruct H as [H|H]; [injection H as <- <-; left; eexists; eexists; split; [constructor|]; split; reflexivity|]).
  - destruct H.
  - cbn [kids] in H. apply in_flat_map in H as ([[[ii ip] key] v] & I & H). rewrite Forall_forall in IH.
    destruct H as [H|H].
    + injection H as <- <-. right. left. do 8 eexists. split; [constructor|]. split; [exact I|reflexivity].
    + assert (SV : sub (TMap i p n kk items) v) by (eapply sub_map; [constructor|exact I]).
      specialize (IH _ I _ _ _ H). cbn [snd] in IH.
      destruct IH as [(w & q & S & A & B)|[(i2 & p2 & n2 & k2 & it2 & ip2 & key2 & v2 & S & A & B)|(i2 & p2 & n2 & k2 & it2 & ip2 & v2 & S & A & B)]].
      * left. exists w, q. split; [exact (sub_trans _ _ _ SV S)|auto].
      * right. left. do 8 eexists. split; [exact (sub_trans _ _ _ SV S)|]. split; [exact A|exact B].
      * right. right. do 7 eexists. split; [exact (sub_trans _ _ _ SV S)|]. split; [exact A|exact B].
  - cbn [kids] in H. apply in_flat_map in H as ([[ii ip] v] & I & H). rewrite Forall_forall in IH.
    destruct H as [H|H].
    + injection H as <- <-. right. right. do 7 eexists. split; [constructor|]. split; [exact I|reflexivity].
    + assert (SV : sub (TSeq i p n kk items) v) by (eapply sub_seq; [constructor|exact I]).
      specialize (IH _ I _ _ _ H). cbn [snd] in IH.
      destruct IH as [(w & q & S & A & B)|[(i2 & p2 & n2 & k2 & it2 & ip2 & key2 & v2 & S & A & B)|(i2 & p2 & n2 & k2 & it2 & ip2 & v2 & S & A & B)]].
      * left. exists w, q. split; [exact (sub_trans _ _ _ SV S)|auto].
      * right. left. do 8 eexists. split; [exact (sub_trans _ _ _ SV S)|]. split; [exact A|exact B].
      * right. right. do 7 eexists. split; [exact (sub_trans _ _ _ SV S)|]. split; [exact A|exact B].
Qed.
End Where.
