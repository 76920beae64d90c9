(* Documents obtained by parsing and editing, and what the API shows of them. *)
From Coq Require Import List NArith ZArith Bool Arith Lia Permutation.
From Verif Require Import Bytes Utf8 Data Slab Parser Render Tree Abs Refine Utf8Props RenderProps Num Api Ctx Edit.
Import ListNotations.

(* A document parsed from an input satisfying P and edited, each time through a handle on one of
   the values it has at that time, by calls satisfying Q. *)
Inductive built_from (hash : bytes -> sid) (P : bytes -> Prop) (Q : edit -> Prop) : document -> Prop :=
| built_parse input doc : P input -> from_slice hash input = Ok doc -> built_from hash P Q doc
| built_edit doc id e r d' : built_from hash P Q doc -> value_of doc id -> Q e ->
    run hash id e (doc_data doc) = Ok (r, d') ->
    built_from hash P Q (Doc (doc_suffix doc) (doc_root doc) d').
Definition built hash := built_from hash (fun _ => True) (fun _ => True).
(* The document after an edit. *)
Definition edited (doc : document) (d' : data) : document := Doc (doc_suffix doc) (doc_root doc) d'.

(* ---- what an iterator gives when it is run to its end ---- *)
Inductive yields {A} (next : list nat -> outcome (option A * list nat)) : list nat -> list A -> Prop :=
| yields_end it it' : next it = Ok (None, it') -> yields next it []
| yields_item it it' x l : next it = Ok (Some x, it') -> yields next it' l -> yields next it (x :: l).
Definition map_entries (d : data) (id : nat) (l : list (bytes * nat)) : Prop :=
  exists it, map_iter d id = Ok it /\ yields (map_next d) it l.
Definition seq_entries (d : data) (id : nat) (l : list nat) : Prop :=
  exists it, seq_iter d id = Ok it /\ yields (seq_next d) it l.
Lemma yields_det {A} next (it : list nat) (l : list A) : yields next it l -> forall l', yields next it l' -> l = l'.
Proof.
  induction 1 as [it it' E|it it' x l E Y IH]; intros l' Y'; inversion Y' as [? ? E'|? ? ? ? E' Y'']; subst;
    rewrite E in E'; try discriminate; [reflexivity|]. injection E' as <- <-. f_equal. auto.
Qed.
Lemma map_entries_det d id l l' : map_entries d id l -> map_entries d id l' -> l = l'.
Proof.
  intros (it & E & Y) (it' & E' & Y'). rewrite E in E'. injection E' as <-. eapply yields_det; eauto.
Qed.
Lemma seq_entries_det d id l l' : seq_entries d id l -> seq_entries d id l' -> l = l'.
Proof.
  intros (it & E & Y) (it' & E' & Y'). rewrite E in E'. injection E' as <-. eapply yields_det; eauto.
Qed.

(* ---- replacing the strings of a tree ---- *)
Fixpoint tsm {I} (f : bytes -> bytes) (t : tree I) : tree I :=
  match t with
  | TLeaf i p s => TLeaf i (f p) (scmap f s)
  | TMap i p n k items => TMap i (f p) n (ckmap f k) (map (fun '(ii, ip, key, v) => (ii, f ip, rsmap f key, tsm f v)) items)
  | TSeq i p n k items => TSeq i (f p) n (ckmap f k) (map (fun '(ii, ip, v) => (ii, f ip, tsm f v)) items)
  end.
Lemma tid_tsm {I} f (t : tree I) : tid (tsm f t) = tid t. Proof. destruct t; reflexivity. Qed.
Lemma tpre_tsm {I} f (t : tree I) : tpre (tsm f t) = f (tpre t). Proof. destruct t; reflexivity. Qed.
Lemma rs_strings_map (f : bytes -> bytes) (r : rstr bytes) : rs_strings (rsmap f r) = map f (rs_strings r).
Proof. destruct r as [[] i o]; reflexivity. Qed.
Lemma strings_tsm {I} f (t : tree I) : strings (tsm f t) = map f (strings t).
Proof.
  induction t as [i p s|i p n k items IH|i p n k items IH] using tree_ind'; cbn [tsm strings tpre map].
  - f_equal. destruct s as [[]| | |]; try reflexivity. apply rs_strings_map.
  - rewrite map_app. f_equal. f_equal; [destruct k; reflexivity|].
    rewrite flat_map_concat_map, map_map, <- flat_map_concat_map.
    induction IH as [|[[[ii ip] key] v] items H _ IHi]; [reflexivity|]. cbn [flat_map snd] in *.
    rewrite map_app. cbn [map]. rewrite map_app, rs_strings_map, H, IHi. reflexivity.
  - rewrite map_app. f_equal. f_equal; [destruct k; reflexivity|].
    rewrite flat_map_concat_map, map_map, <- flat_map_concat_map.
    induction IH as [|[[ii ip] v] items H _ IHi]; [reflexivity|]. cbn [flat_map snd] in *.
    rewrite map_app. cbn [map]. rewrite H, IHi. reflexivity.
Qed.
Section Settle.
Variable hash : bytes -> sid.
Variable f : bytes -> bytes.
Local Notation keeps := (fun s => hash (f s) = hash s).
Lemma rsmap_keep r : Forall keeps (rs_strings r) -> rsmap hash (rsmap f r) = rsmap hash r.
Proof.
  destruct r as [k i o]; unfold rs_strings, rsmap; cbn. intros H.
  destruct k; cbn in *; repeat match goal with H : Forall _ (_ :: _) |- _ => inversion H; clear H; subst end; congruence.
Qed.
Lemma scmap_keep s : Forall keeps (sc_strings s) -> scmap hash (scmap f s) = scmap hash s.
Proof.
  destruct s as [[s| |]|v s|s h|r]; cbn; intros H; try reflexivity; try (inversion H; congruence).
  now rewrite rsmap_keep.
Qed.
Lemma ckmap_keep k : Forall keeps (ck_strings k) -> ckmap hash (ckmap f k) = ckmap hash k.
Proof. destruct k; cbn; intros H; [reflexivity|]. inversion H; congruence. Qed.
Lemma cells_tsm t : forall par, Forall keeps (strings t) -> cells hash par (tsm f t) = cells hash par t.
Proof.
  induction t as [i p s|i p n k items IH|i p n k items IH] using tree_ind'; intros par H; cbn [strings tpre] in H;
    apply Forall_cons_iff in H as [HP H].
  - cbn. unfold tentry. cbn. now rewrite scmap_keep, HP.
  - apply Forall_app in H as [HK H]. cbn [tsm]. rewrite !cells_map. f_equal.
    + f_equal. rewrite HP, ckmap_keep by exact HK. f_equal. f_equal. rewrite map_map. apply map_ext. now intros [[[ii ip] key] v].
    + apply Forall_flat_map in H. induction H as [|[[[ii ip] key] v] items H _ IHi]; [reflexivity|].
      inversion IH as [|? ? IHv IH']; subst. cbn [snd] in IHv.
      apply Forall_cons_iff in H as [H1 H]. apply Forall_app in H as [H2 H3].
      cbn [map flat_map mcells]. rewrite tid_tsm, rsmap_keep, H1, (IHv _ H3), (IHi IH') by exact H2. reflexivity.
  - apply Forall_app in H as [HK H]. cbn [tsm]. rewrite !cells_seq. f_equal.
    + f_equal. rewrite HP, ckmap_keep by exact HK. f_equal. f_equal. rewrite map_map. apply map_ext. now intros [[ii ip] v].
    + apply Forall_flat_map in H. induction H as [|[[ii ip] v] items H _ IHi]; [reflexivity|].
      inversion IH as [|? ? IHv IH']; subst. cbn [snd] in IHv.
      apply Forall_cons_iff in H as [H1 H3].
      cbn [map flat_map scells]. rewrite tid_tsm, H1, (IHv _ H3), (IHi IH'). reflexivity.
Qed.
End Settle.

Section Built.
Variable hash : bytes -> sid.
Local Notation models := (models hash).
Local Notation models_at := (models_at hash).
Local Notation no_collision := (no_collision hash).

(* Even after collisions, the document is a tree whose strings are those of the table. *)
Lemma settle par d t : models_at par d t -> exists t', models_at par d t' /\ Forall (interned hash d) (strings t') /\
  cells hash par t' = cells hash par t /\ tid t' = tid t.
Proof.
  intros (H & T & F).
  assert (K : Forall (fun s => hash (look hash d s) = hash s /\ logged hash d (look hash d s) /\ interned hash d (look hash d s)) (strings t)).
  { revert F. apply Forall_impl. intros s L. destruct (in_assoc hash _ _ _ L) as [x E]. unfold look, interned, logged.
    rewrite E. pose proof (assoc_in _ _ _ E) as I. pose proof (T _ _ I) as <-. auto. }
  exists (tsm (look hash d) t). rewrite strings_tsm, cells_tsm, tid_tsm.
  2: { revert K. apply Forall_impl. tauto. }
  split; [split; [|split; [exact T|]]|split].
  - rewrite cells_tsm; [exact H|]. revert K. apply Forall_impl. tauto.
  - rewrite strings_tsm. apply Forall_map. revert K. apply Forall_impl. tauto.
  - apply Forall_map. revert K. apply Forall_impl. tauto.
  - split; reflexivity.
Qed.

Lemma value_ctx doc t suf id : models doc t suf -> value_of doc id -> exists c v, t = plug c v /\ tid v = id.
Proof.
  intros (M & R & _) V. unfold value_of in V. rewrite R in V.
  destruct (within_sub hash _ _ _ M t id (sub_here t) V) as (w & S & <-).
  destruct (sub_ctx _ _ S) as [c ->]. eauto.
Qed.
Lemma ctx_value doc c v suf : models doc (plug c v) suf -> value_of doc (tid v).
Proof.
  intros (M & R & _). unfold value_of. rewrite R. eapply sub_within; [exact M|constructor|apply sub_plug].
Qed.
Lemma sub_value doc t v suf : models doc t suf -> sub t v -> value_of doc (tid v).
Proof. intros M S. destruct (sub_ctx _ _ S) as [c ->]. eapply ctx_value; eauto. Qed.
Lemma grows_logged d d' s : grows d d' -> logged hash d s -> logged hash d' s.
Proof. intros G L. apply G, L. Qed.
Lemma edit_step doc c v suf e r d' : models doc (plug c v) suf -> run hash (tid v) e (doc_data doc) = Ok (r, d') ->
  exists v', tid v' = tid v /\ models (edited doc d') (plug c v') suf /\ grows (doc_data doc) d' /\
    (no_collision d' -> effect c v e r v').
Proof.
  intros (M & R & U & L) E. destruct (run_effect hash c v e _ M) as (r1 & d1 & v' & E' & T & M' & G & F).
  rewrite E in E'. injection E' as <- <-. exists v'. split; [exact T|]. split; [|split; [exact G|exact F]].
  split; [exact M'|]. cbn [edited doc_root doc_suffix doc_data]. rewrite tid_plug, T, <- tid_plug.
  split; [exact R|]. split; [exact U|]. eapply grows_logged; eauto.
Qed.
Lemma parse_models input doc : from_slice hash input = Ok doc ->
  exists t suf, a_parse input = Ok (shape t, suf) /\ models doc t suf.
Proof.
  intros E. pose proof (refine hash input) as H. rewrite E in H.
  destruct (a_parse input) as [[t0 suf]|? ? ?| | |]; try tauto. destruct H as (t & -> & M). eauto.
Qed.
Lemma built_models P Q doc : built_from hash P Q doc -> exists t suf, models doc t suf.
Proof.
  induction 1 as [input doc _ E|doc id e r d' B (t & suf & M) V _ E].
  - destruct (parse_models _ _ E) as (t & suf & _ & M). eauto.
  - destruct (value_ctx _ _ _ _ M V) as (c & v & -> & <-).
    destruct (edit_step _ _ _ _ _ _ _ M E) as (v' & _ & M' & _). eauto.
Qed.
Lemma models_nc doc t suf s : models doc t suf -> no_collision (doc_data doc) -> In s (strings t) -> interned hash (doc_data doc) s.
Proof.
  intros ((_ & T & F) & _) N I. rewrite Forall_forall in F. apply logged_interned; auto.
Qed.

(* ---- what the API shows of a node ---- *)
Definition tany (t : tree nat) : any :=
  match t with
  | TLeaf _ _ (ScNull _) => ANull
  | TLeaf _ _ (ScBool v _) => ABool v
  | TLeaf _ _ (ScNum s h) => ANumber s h
  | TLeaf _ _ (ScStr r) => AString (rs_id r)
  | TMap i _ _ _ _ => AMapping i
  | TSeq i _ _ _ _ => ASequence i
  end.
Definition mview (it : mitem nat) : bytes * nat := (rs_id (mkey it), tid (snd it)).
Definition sview (it : sitem nat) : nat := tid (snd it).

Section Node.
Variable d : data.
Variable t : tree nat.
Variable par : option nat.
Hypothesis M : models_at par d t.
Hypothesis F : Forall (interned hash d) (strings t).

Lemma sub_interned v s : sub t v -> In s (strings v) -> str d (hash s) = Ok s.
Proof.
  intros S I. apply interned_str. rewrite Forall_forall in F. apply F. eapply sub_strings; eauto.
Qed.
Lemma sub_hold v : sub t v -> exists par', holds d (cells hash par' v).
Proof.
  intros S. destruct (sub_cells hash d t par M v S) as [par' I]. exists par'. intros k e X.
  destruct M as (H & _). eapply has_get; [exact H|]. now apply I.
Qed.
Lemma sub_int v : sub t v -> Forall (interned hash d) (strings v).
Proof. intros S. rewrite Forall_forall in *. intros s I. apply F. eapply sub_strings; eauto. Qed.
Lemma fuel_ok v : sub t v -> depth v < render_fuel d.
Proof.
  intros S. destruct (sub_cells hash d t par M v S) as [par' I]. pose proof (depth_cells hash v par') as D.
  destruct M as (H & _). unfold render_fuel. apply has_length in H as L.
  enough (length (cells hash par' v) <= length (cells hash par t)) by lia.
  destruct (sub_ctx _ _ S) as [c ->]. rewrite (Permutation_length (cells_plug hash c v par)), app_length.
  assert (E : forall q, length (cells hash q v) = length (cells hash par' v)) by (intros q; rewrite !cells_eq; reflexivity).
  rewrite (E (hpar par c)). lia.
Qed.
Lemma node_write v : sub t v -> value_write_to d (tid v) = Ok (wtree v).
Proof.
  intros S. destruct (sub_hold v S) as [par' H]. unfold value_write_to.
  rewrite (sub_raw hash d t par M v S). eapply write_tree; [exact H|now apply sub_int|now apply fuel_ok].
Qed.
Lemma node_display v : sub t v -> value_to_string d (tid v) = Ok (dtree v).
Proof.
  intros S. destruct (sub_hold v S) as [par' H]. unfold value_to_string.
  rewrite (sub_raw hash d t par M v S).
  rewrite (disp_tree hash d v par' _ None H (sub_int v S) (fuel_ok v S) (or_introl eq_refl)). reflexivity.
Qed.
Lemma node_any v : sub t v -> as_any d (tid v) = Ok (tany v).
Proof.
  intros S. unfold as_any. rewrite (sub_raw hash d t par M v S).
  destruct v as [i p [[]|b s|s h|r]|i p n k items|i p n k items]; cbn [traw scmap nmap tid tany]; try reflexivity.
  - rewrite (sub_interned _ s S); [reflexivity|]. cbn. auto.
  - cbn [rsmap rs_id]. rewrite (sub_interned _ (rs_id r) S); [reflexivity|]. cbn. right. unfold rs_strings.
    apply in_or_app. right. now left.
Qed.
Lemma look_interned v s : sub t v -> In s (strings v) -> look hash d s = s.
Proof.
  intros S I. pose proof (sub_int v S) as H. rewrite Forall_forall in H. specialize (H s I).
  unfold interned in H. unfold look. now rewrite H.
Qed.
Lemma node_item i p n k items ii ip key v : sub t (TMap i p n k items) -> In (ii, ip, key, v) items ->
  map_item_opt d (Some ii) = Ok (Some (rs_id key, tid v)).
Proof.
  intros S I. rewrite (sub_item_opt hash d t par M _ _ _ _ _ _ _ _ _ S I).
  rewrite (look_interned _ (rs_id key) S); [reflexivity|]. cbn. right. apply in_or_app. right. apply in_flat_map.
  exists (ii, ip, key, v). split; [exact I|]. right. apply in_or_app. left. unfold rs_strings. apply in_or_app. right. now left.
Qed.
Lemma node_entries i p n k items : sub t (TMap i p n k items) -> map_entries d i (map mview items).
Proof.
  intros S. exists (map mitem_id items). split; [exact (sub_map_iter hash d t par M _ _ _ _ _ S)|].
  assert (H : forall l, incl l items -> yields (map_next d) (map mitem_id l) (map mview l)).
  { induction l as [|[[[ii ip] key] v] l IH]; intros I; cbn [map].
    - eapply yields_end. reflexivity.
    - eapply yields_item.
      + unfold map_next, iter_step. cbn [sl_next fst snd mitem_id].
        rewrite (node_item _ _ _ _ _ ii ip key v S (I _ (or_introl eq_refl))). reflexivity.
      + apply IH. intros x X. apply I. now right. }
  apply H. apply incl_refl.
Qed.
Lemma node_sentries i p n k items : sub t (TSeq i p n k items) -> seq_entries d i (map sview items).
Proof.
  intros S. exists (map sitem_id items). split; [exact (sub_seq_iter hash d t par M _ _ _ _ _ S)|].
  assert (H : forall l, incl l items -> yields (seq_next d) (map sitem_id l) (map sview l)).
  { induction l as [|[[ii ip] v] l IH]; intros I; cbn [map].
    - eapply yields_end. reflexivity.
    - eapply yields_item.
      + unfold seq_next, iter_step. cbn [sl_next fst snd sitem_id].
        rewrite (sub_sitem_opt hash d t par M _ _ _ _ _ ii ip v S (I _ (or_introl eq_refl))). reflexivity.
      + apply IH. intros x X. apply I. now right. }
  apply H. apply incl_refl.
Qed.
Lemma node_find_text i p n k items key : sub t (TMap i p n k items) -> forall l j, incl l items ->
  find_text d j (map mitem_id l) key =
  Ok ((fix go j l := match l with
      | [] => None
      | it :: l => if beq (rs_id (mkey it)) key then Some (j, tid (snd it)) else go (S j) l
      end) j l).
Proof.
  intros S. induction l as [|[[[ii ip] kk] v] l IH]; intros j I; cbn [map find_text]; [reflexivity|].
  cbn [mitem_id fst].
  rewrite (sub_map_item hash d t par M _ _ _ _ _ ii ip kk v S (I _ (or_introl eq_refl))). cbn [rsmap rs_id].
  pose proof (node_item _ _ _ _ _ ii ip kk v S (I _ (or_introl eq_refl))) as E. unfold map_item_opt in E.
  rewrite (sub_map_item hash d t par M _ _ _ _ _ ii ip kk v S (I _ (or_introl eq_refl))) in E. cbn [rsmap rs_id] in E.
  destruct (str d (hash (rs_id kk))) as [x|? ? ?| | |]; try discriminate. injection E as ->.
  cbn [mkey fst snd]. destruct (beq (rs_id kk) key); [reflexivity|]. apply IH. intros y Y. apply I. now right.
Qed.
(* The value of the first entry with the key. *)
Fixpoint lookup (key : bytes) (l : list (bytes * nat)) : option nat :=
  match l with
  | [] => None
  | (k, v) :: l => if beq k key then Some v else lookup key l
  end.
Lemma node_get i p n k items key : sub t (TMap i p n k items) -> map_get d i key = Ok (lookup key (map mview items)).
Proof.
  intros S. unfold map_get, mapping. rewrite (sub_raw hash d t par M _ S : get_raw d i = _). cbn [traw].
  rewrite (node_find_text _ _ _ _ _ key S items 0 (incl_refl _)). f_equal. clear S. generalize 0.
  induction items as [|[[[ii ip] kk] v] items IH]; intros j; [reflexivity|].
  cbn [map lookup mview mkey fst snd]. destruct (beq (rs_id kk) key); [reflexivity|].
  exact (IH (S j)).
Qed.
End Node.

Lemma models_int doc t suf : models doc t suf -> no_collision (doc_data doc) -> Forall (interned hash (doc_data doc)) (strings t).
Proof. intros M N. rewrite Forall_forall. intros s. now apply (models_nc doc t suf). Qed.
(* An edit of a document without collisions. *)
Record step_at (doc : document) (id : nat) (e : edit) (r : edit_result) (d' : data) (c : ctx) (v v' : tree nat) (suf : bytes) : Prop := {
  st_id : tid v = id;
  st_id' : tid v' = id;
  st_m : models doc (plug c v) suf;
  st_m' : models (edited doc d') (plug c v') suf;
  st_eff : effect c v e r v';
  st_nc : no_collision (doc_data doc);
  st_int : Forall (interned hash (doc_data doc)) (strings (plug c v));
  st_int' : Forall (interned hash d') (strings (plug c v'));
  st_w : write_to doc = Ok (wdoc (plug c v) suf);
  st_w' : write_to (edited doc d') = Ok (wdoc (plug c v') suf);
  st_d : to_string doc = Ok (ddoc (plug c v) suf);
  st_d' : to_string (edited doc d') = Ok (ddoc (plug c v') suf);
  st_vw : forall w, sub (plug c v) w -> value_write_to (doc_data doc) (tid w) = Ok (wtree w);
  st_vw' : forall w, sub (plug c v') w -> value_write_to d' (tid w) = Ok (wtree w);
  st_vd : forall w, sub (plug c v) w -> value_to_string (doc_data doc) (tid w) = Ok (dtree w);
  st_vd' : forall w, sub (plug c v') w -> value_to_string d' (tid w) = Ok (dtree w)
}.
Lemma edit_setup P Q doc id e r d' : built_from hash P Q doc -> value_of doc id ->
  run hash id e (doc_data doc) = Ok (r, d') -> no_collision d' ->
  exists c v v' suf, step_at doc id e r d' c v v' suf.
Proof.
  intros B V E N. destruct (built_models _ _ _ B) as (t & suf & M).
  destruct (value_ctx _ _ _ _ M V) as (c & v & -> & <-).
  destruct (edit_step _ _ _ _ _ _ _ M E) as (v' & T & M' & G & F). specialize (F N).
  pose proof (grows_nc hash _ _ G N) as N0.
  pose proof (models_int _ _ _ M N0) as F0. pose proof (models_int (edited doc d') _ _ M' N) as F1.
  exists c, v, v', suf. split; auto.
  - now apply models_write_to with (hash := hash).
  - now apply models_write_to with (hash := hash).
  - now apply models_to_string with (hash := hash).
  - now apply models_to_string with (hash := hash).
  - intros w S. destruct M as (M & _). eapply node_write; eauto.
  - intros w S. destruct M' as (M' & _). eapply node_write; [exact M'|exact F1|exact S].
  - intros w S. destruct M as (M & _). eapply node_display; eauto.
  - intros w S. destruct M' as (M' & _). eapply node_display; [exact M'|exact F1|exact S].
Qed.
End Built.
Arguments st_id {hash doc id e r d' c v v' suf} _.
Arguments st_id' {hash doc id e r d' c v v' suf} _.
Arguments st_m {hash doc id e r d' c v v' suf} _.
Arguments st_m' {hash doc id e r d' c v v' suf} _.
Arguments st_eff {hash doc id e r d' c v v' suf} _.
Arguments st_nc {hash doc id e r d' c v v' suf} _.
Arguments st_int {hash doc id e r d' c v v' suf} _.
Arguments st_int' {hash doc id e r d' c v v' suf} _.
Arguments st_w {hash doc id e r d' c v v' suf} _.
Arguments st_w' {hash doc id e r d' c v v' suf} _.
Arguments st_d {hash doc id e r d' c v v' suf} _.
Arguments st_d' {hash doc id e r d' c v v' suf} _.
Arguments st_vw {hash doc id e r d' c v v' suf} _ _ _.
Arguments st_vw' {hash doc id e r d' c v v' suf} _ _ _.
Arguments st_vd {hash doc id e r d' c v v' suf} _ _ _.
Arguments st_vd' {hash doc id e r d' c v v' suf} _ _ _.
