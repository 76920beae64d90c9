(* C53: a snapshot of a document gives the document back, whatever has been done to it and
   whatever is done to it later. C48 for edited documents. *)
From Coq Require Import String.
From Coq Require Import List NArith ZArith Bool Arith Lia.
From Verif Require Import Bytes Utf8 Data Slab Parser Render Tree Abs Refine Num Api Ctx Edit Built Shown Swap Open Session Back Check Tests Handles Snapshot Restore Twins PropsText.
Import ListNotations.

(* ---- what can be read ---- *)
(* Every reader gives the same for every id. *)
Definition reads_same (d d' : data) : Prop := forall id : nat,
  as_any d' id = as_any d id /\ as_bstr d' id = as_bstr d id /\ as_str d' id = as_str d id /\ as_bool d' id = as_bool d id /\
  as_number d' id = as_number d id /\ (forall t, as_int d' t id = as_int d t id) /\ as_raw d' id = as_raw d id /\
  as_mapping d' id = as_mapping d id /\ as_sequence d' id = as_sequence d id /\ into_any_mut d' id = into_any_mut d id /\
  map_len d' id = map_len d id /\ map_is_empty d' id = map_is_empty d id /\ (forall key, map_get d' id key = map_get d id key) /\
  seq_len d' id = seq_len d id /\ seq_is_empty d' id = seq_is_empty d id /\ (forall j, seq_get d' id j = seq_get d id j) /\
  seq_first d' id = seq_first d id /\ seq_last d' id = seq_last d id /\
  map_iter d' id = map_iter d id /\ seq_iter d' id = seq_iter d id.
Definition iterates_same (d d' : data) : Prop := forall (it : list nat) (n : nat),
  map_next d' it = map_next d it /\ map_next_back d' it = map_next_back d it /\ map_nth d' n it = map_nth d n it /\ map_nth_back d' n it = map_nth_back d n it /\
  seq_next d' it = seq_next d it /\ seq_next_back d' it = seq_next_back d it /\ seq_nth d' n it = seq_nth d n it /\ seq_nth_back d' n it = seq_nth_back d n it.

Section Same.
Variables d d' : data.
Hypothesis SE : forall k, str d' k = str d k.
Hypothesis RE : forall id, get_raw d' id = get_raw d id.
Lemma map_item_same it : map_item_opt d' it = map_item_opt d it.
Proof. destruct it as [it|]; [|reflexivity]. unfold map_item_opt, mapping_item. rewrite RE. destruct (get_raw d it) as [[| |k v| |]| | | |]; try reflexivity. now rewrite SE. Qed.
Lemma seq_item_same it : seq_item_opt d' it = seq_item_opt d it.
Proof. destruct it as [it|]; [|reflexivity]. unfold seq_item_opt, sequence_item. now rewrite RE. Qed.
Lemma find_same key l : forall i, find_text d' i l key = find_text d i l key.
Proof.
  induction l as [|it l IH]; intros i; cbn [find_text]; [reflexivity|]. unfold mapping_item. rewrite RE. destruct (get_raw d it) as [[| |k v| |]| | | |]; try reflexivity.
  rewrite SE. destruct (str d (rs_id k)) as [x| | | |]; try reflexivity. destruct (beq x key); [reflexivity|apply IH].
Qed.
Lemma bstr_same id : as_bstr d' id = as_bstr d id.
Proof. unfold as_bstr. rewrite RE. destruct (get_raw d id) as [[[]| | | |]| | | |]; try reflexivity. now rewrite SE. Qed.
Lemma all_read_same : reads_same d d' /\ iterates_same d d'.
Proof.
  split.
  - intros id. unfold as_str, as_any, as_bool, as_number, as_int, as_raw, as_mapping, as_sequence, into_any_mut, map_len, map_is_empty, map_get, seq_len, seq_is_empty, seq_get, seq_first, seq_last, map_iter, seq_iter, Data.mapping, Data.sequence.
    rewrite bstr_same, RE. repeat split; intros; destruct (get_raw d id) as [[[]| | | |]| | | |]; rewrite ?SE, ?find_same, ?seq_item_same; reflexivity.
  - intros it n. unfold map_next, map_next_back, map_nth, map_nth_back, seq_next, seq_next_back, seq_nth, seq_nth_back, iter_step. rewrite !map_item_same, !seq_item_same. repeat split.
Qed.
Lemma within_same a id : within d' a id <-> within d a id.
Proof.
  destruct all_read_same as [H _]. split; induction 1 as [|id items it key v W IH E I X|id items it v W IH E I X]; try constructor.
  - destruct (H id) as (_ & _ & _ & _ & _ & _ & _ & _ & _ & _ & _ & _ & _ & _ & _ & _ & _ & _ & H1 & _). rewrite H1 in E. rewrite map_item_same in X. eapply w_map; eauto.
  - destruct (H id) as (_ & _ & _ & _ & _ & _ & _ & _ & _ & _ & _ & _ & _ & _ & _ & _ & _ & _ & _ & H1). rewrite H1 in E. rewrite seq_item_same in X. eapply w_seq; eauto.
  - destruct (H id) as (_ & _ & _ & _ & _ & _ & _ & _ & _ & _ & _ & _ & _ & _ & _ & _ & _ & _ & H1 & _). rewrite <- H1 in E. rewrite <- map_item_same in X. eapply w_map; eauto.
  - destruct (H id) as (_ & _ & _ & _ & _ & _ & _ & _ & _ & _ & _ & _ & _ & _ & _ & _ & _ & _ & _ & H1). rewrite <- H1 in E. rewrite <- seq_item_same in X. eapply w_seq; eauto.
Qed.
End Same.
Lemma restored_str doc doc' : restored doc doc' -> forall k, str (doc_data doc') k = str (doc_data doc) k.
Proof. intros (_ & _ & A & _) k. unfold str. now rewrite A. Qed.
Lemma restored_raw doc doc' : restored doc doc' -> forall id, get_raw (doc_data doc') id = get_raw (doc_data doc) id.
Proof. intros (_ & _ & _ & _ & G & _) id. unfold get_raw, get_entry. now rewrite G. Qed.
Lemma restored_prefix doc doc' : restored doc doc' -> forall id, prefix (doc_data doc') id = prefix (doc_data doc) id.
Proof.
  intros R id. pose proof R as (_ & _ & _ & _ & G & _). unfold prefix, prefix_id, get_entry. rewrite G. destruct (slab_get (d_slab (doc_data doc)) id); [|reflexivity]. now rewrite (restored_str _ _ R).
Qed.
Lemma write_parts doc : write_to doc = prefix (doc_data doc) (doc_root doc) +++ value_write_to (doc_data doc) (doc_root doc) +++ str (doc_data doc) (doc_suffix doc).
Proof. reflexivity. Qed.
Lemma string_parts doc : to_string doc = omap lossy (prefix (doc_data doc) (doc_root doc)) +++ value_to_string (doc_data doc) (doc_root doc) +++ omap lossy (str (doc_data doc) (doc_suffix doc)).
Proof. reflexivity. Qed.

(* A snapshot can be taken of every document. *)
Definition keep_first (acc : list (sid * bytes)) (p : sid * bytes) : list (sid * bytes) := match assoc (fst p) acc with Some _ => acc | None => p :: acc end.
Fixpoint slots (i : nat) (es : list Data.slot) : list (nat * Data.entry) :=
  match es with
  | [] => []
  | Occupied e :: es => (i, e) :: slots (S i) es
  | Vacant _ :: es => slots (S i) es
  end.
Definition snap (doc : document) : snapshot :=
  Snap (doc_suffix doc) (doc_root doc) (fold_left keep_first (d_strings (doc_data doc)) []) (slots 0 (sl_entries (d_slab (doc_data doc)))).
Lemma keep_fold l : forall acc, NoDup (map fst acc) -> NoDup (map fst (fold_left keep_first l acc)) /\
  forall k, assoc k (fold_left keep_first l acc) = match assoc k acc with Some x => Some x | None => assoc k l end.
Proof.
  induction l as [|[k0 x0] l IH]; intros acc ND; cbn [fold_left].
  - split; [exact ND|]. intros k. now destruct (assoc k acc).
  - unfold keep_first at 2 4. cbn [fst]. destruct (assoc k0 acc) as [y|] eqn:A.
    + destruct (IH acc ND) as [H1 H2]. split; [exact H1|]. intros k. rewrite H2. destruct (assoc k acc) eqn:B; [reflexivity|]. cbn [assoc]. destruct (beq k k0) eqn:Q; [|reflexivity]. apply beq_eq in Q. congruence.
    + destruct (IH ((k0, x0) :: acc)) as [H1 H2].
      * cbn. constructor; [|exact ND]. intros I. apply in_map_iff in I as ([k1 x1] & E & I). cbn in E. subst k1. destruct (in_assoc (fun x => x) _ _ _ I) as [y Y]. congruence.
      * split; [exact H1|]. intros k. rewrite H2. cbn [assoc]. destruct (beq k k0) eqn:Q; [|reflexivity]. apply beq_eq in Q. subst k0. now rewrite A.
Qed.
Lemma slots_in es : forall i k e, In (k, e) (slots i es) <-> i <= k /\ nth_error es (k - i) = Some (Occupied e).
Proof.
  induction es as [|x es IH]; intros i k e; cbn [slots].
  - split; [intros []|]. intros [_ E]. destruct (k - i); discriminate.
  - assert (ST : i <= k /\ nth_error (x :: es) (k - i) = Some (Occupied e) <-> (k = i /\ x = Occupied e) \/ (S i <= k /\ nth_error es (k - S i) = Some (Occupied e))).
    { destruct (Nat.eq_dec k i) as [->|NE].
      - rewrite Nat.sub_diag. cbn. split; [intros [_ E]; injection E as ->; auto|]. intros [[_ ->]|[L _]]; [auto|lia].
      - split.
        + intros [L E]. right. split; [lia|]. replace (k - i) with (S (k - S i)) in E by lia. exact E.
        + intros [[E _]|[L E]]; [lia|]. split; [lia|]. replace (k - i) with (S (k - S i)) by lia. exact E. }
    rewrite ST. destruct x as [e0|m]; [cbn [In]; rewrite IH|rewrite IH].
    + split; [intros [E|H]; [injection E as <- <-; auto|auto]|]. intros [[-> E]|H]; [injection E as ->; auto|auto].
    + split; [auto|]. intros [[_ E]|H]; [discriminate|auto].
Qed.
Lemma slots_nodup es : forall i, NoDup (map fst (slots i es)).
Proof.
  induction es as [|x es IH]; intros i; cbn [slots]; [constructor|]. destruct x as [e|m]; [|apply IH]. cbn. constructor; [|apply IH].
  intros I. apply in_map_iff in I as ([k e'] & E & I). cbn in E. subst k. apply slots_in in I. lia.
Qed.
Theorem C53_takes : forall doc, takes doc (snap doc).
Proof.
  intros doc. unfold takes, snap. cbn [n_suffix n_root n_strings n_slab]. split; [reflexivity|]. split; [reflexivity|]. split.
  - destruct (keep_fold (d_strings (doc_data doc)) []) as [H1 H2]; [constructor|]. split; [exact H1|]. intros k x. specialize (H2 k). cbn in H2. rewrite <- H2. split; [now apply assoc_nodup|apply assoc_in].
  - split; [apply slots_nodup|]. intros k e. rewrite slots_in, Nat.sub_0_r. unfold slab_get. split.
    + intros [_ ->]. reflexivity.
    + intros E. split; [lia|]. destruct (nth_error (sl_entries (d_slab (doc_data doc))) k) as [[]|]; try discriminate. now injection E as ->.
Qed.
Print Assumptions C53_takes.

(* What comes back reads and prints as before, and the ids are the same; also when hashes have
   collided. *)
Theorem C53_restore : forall hash doc s, built hash doc -> takes doc s -> exists doc', restore s = Some doc' /\ doc_root doc' = doc_root doc /\
  write_to doc' = write_to doc /\ to_string doc' = to_string doc /\
  reads_same (doc_data doc) (doc_data doc') /\ iterates_same (doc_data doc) (doc_data doc') /\
  forall id, (value_of doc' id <-> value_of doc id) /\
    (value_of doc id -> value_write_to (doc_data doc') id = value_write_to (doc_data doc) id /\ value_to_string (doc_data doc') id = value_to_string (doc_data doc) id).
Proof.
  intros hash doc s B TK. destruct (restore_ok _ _ TK) as (doc' & E & R). exists doc'. split; [exact E|]. pose proof R as (R1 & R2 & _). split; [exact R2|].
  destruct (built_models _ _ _ _ B) as (t & suf & M). destruct (restored_models hash _ _ _ _ R M) as (t' & suf' & _ & M1 & M2 & F1 & F2).
  apply Forall_cons_iff in F1 as [_ F1]. apply Forall_cons_iff in F2 as [_ F2].
  assert (V : forall id, value_of doc id -> value_write_to (doc_data doc') id = value_write_to (doc_data doc) id /\ value_to_string (doc_data doc') id = value_to_string (doc_data doc) id).
  { intros id V. destruct (value_ctx _ _ _ _ _ M1 V) as (c & v & -> & <-). destruct M1 as (M1 & _), M2 as (M2 & _).
    rewrite (node_write hash _ _ _ M1 F1 v (sub_plug c v)), (node_write hash _ _ _ M2 F2 v (sub_plug c v)), (node_display hash _ _ _ M1 F1 v (sub_plug c v)), (node_display hash _ _ _ M2 F2 v (sub_plug c v)). auto. }
  destruct (V (doc_root doc) (w_here _ _)) as [V1 V2].
  destruct (all_read_same (doc_data doc) (doc_data doc') (restored_str _ _ R) (restored_raw _ _ R)) as [A1 A2].
  rewrite !write_parts, !string_parts, R1, R2, V1, V2, !(restored_prefix _ _ R), !(restored_str _ _ R). repeat (split; [reflexivity || assumption|]).
  intros id. split; [|exact (V id)]. unfold value_of. rewrite R2. apply within_same; [exact (restored_str _ _ R)|exact (restored_raw _ _ R)].
Qed.
Print Assumptions C53_restore.

(* ---- twins ---- *)
(* However the two documents came about, they read and print the same. *)
Theorem C53_same : forall hash hash' doc doc', twins hash hash' doc doc' -> no_collision hash (doc_data doc) -> no_collision hash' (doc_data doc') ->
  write_to doc = write_to doc' /\ to_string doc = to_string doc' /\
  forall x, shows (doc_data doc) (doc_root doc) x <-> shows (doc_data doc') (doc_root doc') x.
Proof.
  intros hash hash' doc doc' T N N'. destruct (twins_models _ _ _ _ T N N') as (t & t' & suf & M & M' & S).
  rewrite (models_write_to _ _ _ _ N M), (models_write_to _ _ _ _ N' M'), (models_to_string _ _ _ _ N M), (models_to_string _ _ _ _ N' M').
  unfold wdoc, ddoc. rewrite (wtree_same _ _ S), (dtree_same _ _ S), (shape_pre _ _ S). split; [reflexivity|]. split; [reflexivity|].
  pose proof (models_int _ _ _ _ M N) as F. pose proof (models_int _ _ _ _ M' N') as F'. destruct M as (M & -> & _), M' as (M' & -> & _).
  pose proof (tree_shows hash _ _ _ M F _ (sub_here t)) as S1. pose proof (tree_shows hash' _ _ _ M' F' _ (sub_here t')) as S2. rewrite (see_same _ _ S) in S1.
  intros x. split; intros X; [rewrite (proj1 (shows_det _) _ _ X _ S1)|rewrite (proj1 (shows_det _) _ _ X _ S2)]; assumption.
Qed.
Print Assumptions C53_same.
(* At every place. *)
Theorem C53_places : forall hash hash' doc doc' p id, twins hash hash' doc doc' -> no_collision hash (doc_data doc) -> no_collision hash' (doc_data doc') ->
  place doc p id -> exists id', place doc' p id' /\
    value_write_to (doc_data doc) id = value_write_to (doc_data doc') id' /\ value_to_string (doc_data doc) id = value_to_string (doc_data doc') id' /\
    forall x, shows (doc_data doc) id x <-> shows (doc_data doc') id' x.
Proof.
  intros hash hash' doc doc' p id T N N' P. destruct (twins_models _ _ _ _ T N N') as (t & t' & suf & M & M' & S).
  destruct (place_ctx hash _ _ _ _ _ M N P) as (c & v & -> & <- & <-). destruct (plug_there _ _ _ S) as (c' & v' & -> & PC).
  destruct (plug_same _ _ _ _ S (eq_sym PC)) as (Q & _). exists (tid v'). split; [rewrite <- PC; eapply ctx_place; eauto|].
  pose proof (models_int _ _ _ _ M N) as F. pose proof (models_int _ _ _ _ M' N') as F'. destruct M as (M & _), M' as (M' & _).
  rewrite (node_write hash _ _ _ M F v (sub_plug c v)), (node_write hash' _ _ _ M' F' v' (sub_plug c' v')), (node_display hash _ _ _ M F v (sub_plug c v)), (node_display hash' _ _ _ M' F' v' (sub_plug c' v')).
  rewrite (wtree_same _ _ Q), (dtree_same _ _ Q). split; [reflexivity|]. split; [reflexivity|].
  pose proof (tree_shows hash _ _ _ M F _ (sub_plug c v)) as S1. pose proof (tree_shows hash' _ _ _ M' F' _ (sub_plug c' v')) as S2. rewrite (see_same _ _ Q) in S1.
  intros x. split; intros X; [rewrite (proj1 (shows_det _) _ _ X _ S1)|rewrite (proj1 (shows_det _) _ _ X _ S2)]; assumption.
Qed.
Print Assumptions C53_places.
(* A call answers on both, and the same; handles that it gives stand at the same place. *)
Theorem C53_answers : forall hash hash' doc doc' p id id' e, twins hash hash' doc doc' -> place doc p id -> place doc' p id' ->
  (exists r d1, run hash id e (doc_data doc) = Ok (r, d1)) /\ (exists r d1, run hash' id' e (doc_data doc') = Ok (r, d1)).
Proof.
  intros hash hash' doc doc' p id id' e T P P'. destruct (twins_each _ _ _ _ T) as ((t & suf & M) & t' & suf' & M'). apply place_value in P, P'. destruct (value_ctx _ _ _ _ _ M P) as (c & v & -> & <-). destruct (value_ctx _ _ _ _ _ M' P') as (c' & v' & -> & <-).
  destruct M as (M & _), M' as (M' & _). destruct (run_effect hash c v e _ M) as (r & d1 & _ & E & _). destruct (run_effect hash' c' v' e _ M') as (r' & d1' & _ & E' & _). split; eauto.
Qed.
Print Assumptions C53_answers.
Theorem C53_calls : forall hash hash' doc doc' p id id' e r r' d1 d1', twins hash hash' doc doc' -> place doc p id -> place doc' p id' ->
  run hash id e (doc_data doc) = Ok (r, d1) -> run hash' id' e (doc_data doc') = Ok (r', d1') -> no_collision hash d1 -> no_collision hash' d1' ->
  match r, r' with
  | Handle h, Handle h' => exists q, place (edited doc d1) (p ++ q) h /\ place (edited doc' d1') (p ++ q) h'
  | Handle _, _ | _, Handle _ => False
  | _, _ => r = r'
  end.
Proof.
  intros hash hash' doc doc' p id id' e r r' d1 d1' T P P' E E' N1 N1'. destruct (twins_before _ _ _ _ _ _ _ _ _ _ _ _ T P P' E E' N1 N1') as [N N'].
  destruct (twins_models _ _ _ _ T N N') as (t & t' & suf & M & M' & S).
  destruct (call_same _ _ _ _ _ _ _ _ _ _ _ _ _ _ _ M M' S P P' E E' N1 N1' N N') as (c & a & c' & a' & MA & MA' & PC & PC' & SA & SR).
  unfold same_result in SR. destruct r as [|h| |], r' as [|h'| |]; try exact SR. destruct SR as (c1 & w & c1' & w' & -> & <- & -> & <- & CP).
  exists (cpath c1). split.
  - rewrite <- plug_comp in MA. rewrite <- PC, <- cpath_comp. eapply ctx_place; [exact MA|exact N1].
  - rewrite <- plug_comp in MA'. rewrite CP, <- PC', <- cpath_comp. eapply ctx_place; [exact MA'|exact N1'].
Qed.
Print Assumptions C53_calls.
(* Every document without collisions is its own twin, so its restored snapshots are. *)
Theorem C53_start : forall hash doc, built hash doc -> no_collision hash (doc_data doc) -> twins hash hash doc doc.
Proof.
  intros hash doc B. induction B as [input doc _ E|doc id e r d' B IH V _ E]; intros N; [eapply twins_read; eauto|]. cbn [doc_data] in N.
  destruct (built_models _ _ _ _ B) as (t & suf & M). destruct (value_ctx _ _ _ _ _ M V) as (c & v & -> & <-). destruct (edit_step _ _ _ _ _ _ _ _ M E) as (v' & _ & _ & G & _).
  pose proof (grows_nc hash _ _ G N) as N0. pose proof (ctx_place hash _ _ _ _ M N0) as P. change (Doc (doc_suffix doc) (doc_root doc) d') with (edited doc d'). eapply twins_edit; eauto.
Qed.
Print Assumptions C53_start.
(* A list of calls, each at a place. *)
Inductive plays (hash : bytes -> sid) : document -> list (list nat * edit) -> document -> Prop :=
| plays_none doc : plays hash doc [] doc
| plays_call doc p id e r d1 l doc' : place doc p id -> run hash id e (doc_data doc) = Ok (r, d1) -> plays hash (edited doc d1) l doc' -> plays hash doc ((p, e) :: l) doc'.
Lemma plays_twins hash hash' doc l d1 : plays hash doc l d1 -> forall doc' d1', twins hash hash' doc doc' -> plays hash' doc' l d1' -> twins hash hash' d1 d1'.
Proof.
  induction 1 as [doc|doc p id e r d1 l doc1 P E X IH]; intros doc' d1' T Y; inversion Y as [|? ? id' ? r' d2 ? ? P' E' Y']; subst; [exact T|].
  eapply IH; [|exact Y']. eapply twins_edit; eauto.
Qed.
(* The snapshot goes on like the document itself. *)
Theorem C53_later : forall hash doc s doc' l d1 d1', built hash doc -> no_collision hash (doc_data doc) -> takes doc s -> restore s = Some doc' ->
  plays hash doc l d1 -> plays hash doc' l d1' -> no_collision hash (doc_data d1) -> no_collision hash (doc_data d1') ->
  write_to d1 = write_to d1' /\ to_string d1 = to_string d1' /\ forall x, shows (doc_data d1) (doc_root d1) x <-> shows (doc_data d1') (doc_root d1') x.
Proof.
  intros hash doc s doc' l d1 d1' B N TK R X Y N1 N1'. eapply C53_same; [|exact N1|exact N1']. eapply plays_twins; [exact X| |exact Y]. exact (twins_restore hash hash doc doc s doc' (C53_start _ _ B N) N TK R).
Qed.
Print Assumptions C53_later.
(* And it can go on: what can be played on the one can be played on the other. *)
Theorem C53_play : forall hash hash' doc doc' l d1, (forall x y, hash x = hash y -> x = y) -> (forall x y, hash' x = hash' y -> x = y) ->
  twins hash hash' doc doc' -> plays hash doc l d1 -> exists d1', plays hash' doc' l d1' /\ write_to d1 = write_to d1'.
Proof.
  intros hash hash' doc doc' l d1 H H' T X. assert (Y : exists d1', plays hash' doc' l d1').
  { revert doc' T. induction X as [doc|doc p id e r d1 l doc1 P E X IH]; intros doc' T; [eexists; constructor|].
    destruct (C53_places _ _ _ _ _ _ T (inj_no_collision _ _ H) (inj_no_collision _ _ H') P) as (id' & P' & _).
    destruct (twins_each _ _ _ _ T) as (_ & t & suf & M). pose proof (place_value _ _ _ P') as V. destruct (value_ctx _ _ _ _ _ M V) as (c & v & -> & <-). destruct M as (M & _).
    destruct (run_effect hash' c v e _ M) as (r' & d1' & _ & E' & _). destruct (IH (edited doc' d1')) as (d2 & Y); [eapply twins_edit; eauto|]. exists d2. eapply plays_call; eauto. }
  destruct Y as (d1' & Y). exists d1'. split; [exact Y|]. eapply C53_same; [eapply plays_twins; eauto| |]; now apply inj_no_collision.
Qed.
Print Assumptions C53_play.

(* ---- C48: the hash does not matter to edited documents either ---- *)
Theorem C48_edits : forall hash hash' input doc doc' l d1 d1', from_slice hash input = Ok doc -> from_slice hash' input = Ok doc' ->
  plays hash doc l d1 -> plays hash' doc' l d1' -> no_collision hash (doc_data d1) -> no_collision hash' (doc_data d1') ->
  write_to d1 = write_to d1' /\ to_string d1 = to_string d1' /\ forall x, shows (doc_data d1) (doc_root d1) x <-> shows (doc_data d1') (doc_root d1') x.
Proof.
  intros hash hash' input doc doc' l d1 d1' F F' X Y N N'. eapply C53_same; [|exact N|exact N']. eapply plays_twins; [exact X| |exact Y]. eapply twins_read; eauto.
Qed.
Print Assumptions C48_edits.

(* ---- non-vacuity ---- *)
(* A slot is free when the snapshot is taken, the slots come in another order, and the calls
   after it use other slots; the text is the same. *)
Definition c53_text : bytes := b "a: [1, 2]
b: x
".
Definition c53_doc : outcome document := edit_path [] (RemoveKey (b "b")) (edit_path [] (InsertStr (b "c") (b "y")) (load c53_text)).
Definition reversed (s : snapshot) : snapshot := Snap (n_suffix s) (n_root s) (rev (n_strings s)) (rev (n_slab s)).
Definition c53_again (f : snapshot -> snapshot) : outcome document :=
  match c53_doc with Ok doc => match restore (f (snap doc)) with Some d => Ok d | None => Panic end | o => o end.
Definition c53_more (doc : outcome document) : outcome document := edit_path [K (b "a")] (PushString (b "z")) (edit_path [] (InsertStr (b "d") (b "w")) doc).
Example c53_now : write c53_doc = Ok (b "a: [1, 2]
c: y
") /\ write (c53_again (fun s => s)) = write c53_doc /\ write (c53_again reversed) = write c53_doc.
Proof. vm_compute. repeat split. Qed.
Definition free_list (doc : outcome document) : option nat := match doc with Ok doc => Some (Data.sl_next (d_slab (doc_data doc))) | _ => None end.
Example c53_slots : free_list c53_doc = Some 8 /\ free_list (c53_again (fun s => s)) = Some 8 /\ free_list (c53_again reversed) = Some 7.
Proof. vm_compute. repeat split. Qed.
Example c53_then : write (c53_more c53_doc) = Ok (b "a: [1, 2,
z]
c: y
d: w
") /\ write (c53_more (c53_again (fun s => s))) = write (c53_more c53_doc) /\ write (c53_more (c53_again reversed)) = write (c53_more c53_doc).
Proof. vm_compute. repeat split. Qed.
