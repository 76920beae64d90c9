(* C56: how large documents are. A text is a document of at most one value more than it has bytes,
   and each call adds at most one value. *)
From Coq Require Import String.
From Coq Require Import List NArith ZArith Bool Arith Lia Permutation.
From Verif Require Import Bytes Utf8 Data Slab Parser Render Tree Abs Refine Num Api Ctx Edit Built Shown Plain Means Places MeansSound MeansComplete Tests
  PropsText PropsEdit PropsMeans PropsSlots.
Import ListNotations.
Local Open Scope nat_scope.

(* ---- the values of a datum ---- *)
Definition total {A} (f : A -> nat) (l : list A) : nat := fold_right (fun x n => f x + n) 0 l.
Fixpoint vals (d : datum) : nat :=
  S (match d with DMap l => total (fun e => vals (snd e)) l | DSeq l => total vals l | _ => 0 end).
Lemma total_map {A B} (g : A -> B) (f : B -> nat) l : total f (map g l) = total (fun x => f (g x)) l.
Proof. induction l as [|x l IH]; cbn; [reflexivity|]. unfold total in *. lia. Qed.

Section Text.
Variable text : bytes.
Lemma means_size : (forall flow outer i d j, means text flow outer i d j -> vals d + i <= S j) /\
  (forall outer i d j, behind text outer i d j -> vals d + i <= S j) /\
  (forall c i l j, dashes_at text c i l j -> total vals l + i <= j) /\
  (forall c s k l j, pairs_at text c s k l j -> total (fun e => vals (snd e)) l + k <= j) /\
  (forall i d j (skipped : bool), held_at text i d j skipped -> vals d + i <= S j) /\
  (forall n l j, flow_seq_at text n l j -> total vals l + n <= S j) /\
  (forall n l j, flow_map_at text n l j -> total (fun e => vals (snd e)) l + n <= j) /\
  (forall n s d e, flow_pair_at text n s d e -> vals d + n <= e).
Proof.
  destruct (all_le text) as (L1 & L2 & L3 & L4 & L5 & L6 & L7 & L8).
  apply means_all; intros; cbn [vals total fold_right snd]; repeat match goal with
    | H : means text _ _ _ _ _ |- _ => apply L1 in H | H : behind text _ _ _ _ |- _ => apply L2 in H | H : dashes_at text _ _ _ _ |- _ => apply L3 in H
    | H : pairs_at text _ _ _ _ _ |- _ => apply L4 in H | H : held_at text _ _ _ _ |- _ => apply L5 in H | H : flow_seq_at text _ _ _ |- _ => apply L6 in H
    | H : flow_map_at text _ _ _ |- _ => apply L7 in H | H : flow_pair_at text _ _ _ _ |- _ => apply L8 in H
    | H : quote_at _ _ _ _ |- _ => apply quote_le in H | H : number_at _ _ _ _ _ |- _ => apply number_le in H
    | H : word_to _ _ _ _ |- _ => apply word_le in H | H : Means.gap_to _ _ _ |- _ => apply gap_le in H | H : key_at _ _ _ _ |- _ => apply key_le in H
    | H : block_at _ _ _ _ |- _ => apply block_next in H
    | H : later_key_at _ _ _ _ |- _ => destruct H as [H _] | H : flow_key_at _ _ _ _ |- _ => destruct H as [H _]
    end; unfold total in *; try lia.
  - match goal with H : plain_datum _ _ |- _ => destruct H end; cbn [vals]; lia.
  - destruct skipped; [subst; lia|]. match goal with H : gap_to _ _ _ |- _ => apply gap_le in H; lia end.
Qed.
Lemma stands_size d : stands_for text d -> vals d <= S (length text).
Proof.
  intros (n & i & j & _ & _ & M & G). apply gap_le in G. pose proof (proj1 means_size _ _ _ _ _ M). lia.
Qed.
End Text.

(* ---- the entries of a document ---- *)
Definition is_value (c : nat * Data.entry) : bool := match e_raw (snd c) with RMapItem _ _ | RSeqItem _ => false | _ => true end.
Lemma flat_count {A} (p : nat * Data.entry -> bool) (f : A -> list (nat * Data.entry)) l : length (filter p (flat_map f l)) = total (fun x => length (filter p (f x))) l.
Proof. induction l as [|x l IH]; cbn; [reflexivity|]. rewrite filter_app, app_length, IH. reflexivity. Qed.
Lemma total_ext {A} (f g : A -> nat) l : (forall x, In x l -> f x = g x) -> total f l = total g l.
Proof. induction l as [|x l IH]; cbn; intros H; [reflexivity|]. rewrite (H x) by now left. f_equal. apply IH. intros y I. apply H. now right. Qed.
Section Cells.
Variable hash : bytes -> sid.
Lemma cell_values t : forall par, length (filter is_value (cells hash par t)) = vals (see t).
Proof.
  induction t as [i p s|i p n k items IH|i p n k items IH] using tree_ind'; intros par; rewrite cells_eq.
  - destruct s; reflexivity.
  - cbn. f_equal. rewrite flat_count, total_map. apply total_ext. intros [[[ii ip] key] v] J. rewrite Forall_forall in IH. apply (IH _ J).
  - cbn. f_equal. rewrite flat_count, total_map. apply total_ext. intros [[ii ip] v] J. rewrite Forall_forall in IH. apply (IH _ J).
Qed.
Lemma cell_items t : forall par, S (length (filter (fun c => negb (is_value c)) (cells hash par t))) = vals (see t).
Proof.
  induction t as [i p s|i p n k items IH|i p n k items IH] using tree_ind'; intros par; rewrite cells_eq.
  - destruct s; reflexivity.
  - cbn. f_equal. rewrite flat_count, total_map. apply total_ext. intros [[[ii ip] key] v] J. rewrite Forall_forall in IH. apply (IH _ J).
  - cbn. f_equal. rewrite flat_count, total_map. apply total_ext. intros [[ii ip] v] J. rewrite Forall_forall in IH. apply (IH _ J).
Qed.
Lemma filter_both {A} (p : A -> bool) l : length l = length (filter p l) + length (filter (fun x => negb (p x)) l).
Proof. induction l as [|x l IH]; cbn; [reflexivity|]. destruct (p x); cbn; lia. Qed.
Lemma cell_count t par : S (length (cells hash par t)) = 2 * vals (see t).
Proof. rewrite (filter_both is_value), cell_values. pose proof (cell_items t par). lia. Qed.
Lemma models_count doc t suf : models hash doc t suf -> S (live_count doc) = 2 * vals (see t).
Proof. intros ((H & _) & _). unfold live_count. rewrite (has_len _ _ H). apply cell_count. Qed.
End Cells.

(* ---- the calls ---- *)
(* m leaves at most k entries more *)
Definition adds {A} (k : nat) (m : D A) : Prop := forall d a d', sound d -> m d = Ok (a, d') ->
  sound d' /\ slab_len (d_slab d') <= k + slab_len (d_slab d).
Lemma adds_bind {A B} k (m : D A) (f : A -> D B) : adds 0 m -> (forall x, adds k (f x)) -> adds k (bind m f).
Proof. intros H K d a d' SD E. apply bind_ok in E as (x & d1 & E1 & E2). destruct (H _ _ _ SD E1) as [S1 R1]. destruct (K _ _ _ _ S1 E2) as [S2 R2]. split; [exact S2|lia]. Qed.
Lemma adds_still {A} k (m : D A) : still m -> adds k m.
Proof. intros H d a d' (L & K) E. apply H in E. split; [exists L; now rewrite E|]. rewrite E. lia. Qed.
Lemma adds_then {A B} k (m : D A) (f : A -> D B) : adds k m -> (forall x, still (f x)) -> adds k (bind m f).
Proof. intros H K d a d' SD E. apply bind_ok in E as (x & d1 & E1 & E2). destruct (H _ _ _ SD E1) as [(L & S1) R1]. apply K in E2. rewrite E2. split; [exists L; now rewrite E2|exact R1]. Qed.
Lemma adds_more {A} k (m : D A) : adds 0 m -> adds k m.
Proof. intros H d a d' SD E. destruct (H _ _ _ SD E). split; [assumption|lia]. Qed.
Lemma adds_set_raw id r : adds 0 (set_raw id r).
Proof.
  intros d a d' (L & H) E. destruct (set_raw_spec _ _ _ _ _ _ H E) as (_ & L' & H' & EL). split; [now exists L'|].
  rewrite (has_len _ _ H), (has_len _ _ H'). lia.
Qed.
Lemma remove_adds d id e s : sound d -> slab_try_remove (d_slab d) id = Some (e, s) -> sound (set_slab d s) /\ slab_len s <= slab_len (d_slab d).
Proof.
  intros (L & H) E. assert (G : exists e, slab_get (d_slab d) id = Some e) by (unfold slab_try_remove in E; destruct (slab_get (d_slab d) id) as [e0|]; [eauto|discriminate]).
  destruct G as [e0 G]. apply (has_get_in _ _ _ _ H) in G. apply in_split in G as (L1 & L2 & ->).
  assert (H1 : has (d_slab d) ((id, e0) :: L1 ++ L2)) by (eapply has_perm; [|exact H]; symmetry; apply Permutation_middle).
  destruct (has_remove _ _ _ _ H1) as (s' & E' & H' & R). rewrite E in E'. injection E' as _ <-. split; [exists (L1 ++ L2); exact H'|].
  rewrite (has_len _ _ H1), (has_len _ _ H'). cbn. lia.
Qed.
Lemma adds_drop_id k id : (forall r, adds 0 (k r)) -> adds 0 (drop_id k id).
Proof.
  intros K d a d' SD. unfold drop_id. destruct (slab_try_remove (d_slab d) id) as [[e s]|] eqn:E.
  - destruct (remove_adds _ _ _ _ SD E) as [S1 R1]. intros X. destruct (K _ _ _ _ S1 X) as [S2 R2]. split; [exact S2|]. cbn [d_slab set_slab] in R2. lia.
  - intros X. injection X as _ <-. auto.
Qed.
Lemma adds_drop_value k id : (forall r, adds 0 (k r)) -> adds 0 (drop_value k id).
Proof.
  intros K d a d' SD. unfold drop_value. destruct (slab_try_remove (d_slab d) id) as [[e s]|] eqn:E; [|discriminate].
  destruct (remove_adds _ _ _ _ SD E) as [S1 R1]. intros X. destruct (K _ _ _ _ S1 X) as [S2 R2]. split; [exact S2|]. cbn [d_slab set_slab] in R2. lia.
Qed.
Lemma adds_drop_all k l : (forall r, adds 0 (k r)) -> adds 0 (drop_all k l).
Proof. intros K. induction l as [|x l IH]; cbn [drop_all]; [apply adds_still, still_ret|]. apply adds_bind; [now apply adds_drop_id|auto]. Qed.
Lemma adds_drop_kind_f f : forall r, adds 0 (drop_kind_f f r).
Proof.
  induction f as [|f IH]; intros r; cbn [drop_kind_f]; [intros d a d' _ E; discriminate|].
  destruct r; first [apply adds_still, still_ret|now apply adds_drop_all|now apply adds_drop_value].
Qed.
Lemma adds_drop id : adds 0 (drop id).
Proof. intros d. apply adds_drop_id. apply adds_drop_kind_f. Qed.
Lemma adds_drop_items l : adds 0 (drop_items l).
Proof. induction l as [|x l IH]; cbn [drop_items]; [apply adds_still, still_ret|]. apply adds_bind; [apply adds_drop|auto]. Qed.
Lemma put_adds d id e e' (m : D unit) a d' : sound d -> slab_get (d_slab d) id = Some e -> adds 0 m -> m (set_slab d (slab_set (d_slab d) id e')) = Ok (a, d') ->
  sound d' /\ slab_len (d_slab d') <= slab_len (d_slab d).
Proof.
  intros (L & H) G K E. destruct (has_assign _ _ _ _ e' H G) as (L' & H' & EL). destruct (K _ _ _ (ex_intro _ L' H' : sound (set_slab d _)) E) as [S1 R1].
  split; [exact S1|]. cbn [d_slab set_slab] in R1. rewrite (has_len _ _ H') in R1. rewrite (has_len _ _ H). lia.
Qed.
Lemma adds_replace id r : adds 0 (replace id r).
Proof.
  intros d a d' SD. unfold replace. destruct (slab_get (d_slab d) id) as [e|] eqn:G.
  - intros E. eapply (put_adds d id e); [exact SD|exact G| |exact E]. intros d1. apply adds_drop_kind_f.
  - intros E. injection E as _ <-. auto.
Qed.
Lemma adds_replace_with id p r : adds 0 (replace_with id p r).
Proof.
  intros d a d' SD. unfold replace_with. destruct (slab_get (d_slab d) id) as [e|] eqn:G.
  - intros E. eapply (put_adds d id e); [exact SD|exact G| |exact E]. intros d1. apply adds_drop_kind_f.
  - intros E. injection E as _ <-. auto.
Qed.
Lemma adds_insert r p par : adds 1 (insert r p par).
Proof.
  intros d a d' (L & H) E. unfold insert in E. destruct (has_insert _ _ (Entry r p par) H) as (k1 & s1 & X1 & H1). rewrite X1 in E. injection E as _ <-.
  split; [now exists ((k1, Entry r p par) :: L)|]. cbn [d_slab set_slab]. rewrite (has_len _ _ H), (has_len _ _ H1). cbn. lia.
Qed.
Lemma adds_seq {A B} k (m : D A) (f : A -> D B) : adds 1 m -> (forall x, adds k (f x)) -> adds (S k) (bind m f).
Proof. intros H K d a d' SD E. apply bind_ok in E as (x & d1 & E1 & E2). destruct (H _ _ _ SD E1) as [S1 R1]. destruct (K _ _ _ _ S1 E2) as [S2 R2]. split; [exact S2|lia]. Qed.
Section Calls.
Variable hash : bytes -> sid.
Lemma adds_inner_insert id key sep value : adds 2 (inner_insert hash id key sep value).
Proof.
  unfold inner_insert. apply adds_bind; [apply adds_still, still_intern|]. intros k. apply adds_bind; [apply adds_still, still_read|]. intros [[indent c] items].
  apply adds_bind; [apply adds_still, still_read|]. intros [v|].
  - apply adds_more. apply adds_bind; [apply adds_replace|]. intros _. apply adds_still, still_ret.
  - apply adds_bind; [apply adds_still, still_intern|]. intros p. apply adds_seq; [apply adds_insert|]. intros item.
    apply adds_bind; [apply adds_still; stil|]. intros vp. apply adds_seq; [apply adds_insert|]. intros v. apply adds_bind; [apply adds_replace|]. intros _.
    apply adds_bind; [|intros _; apply adds_still, still_ret]. unfold map_push. apply adds_bind; [apply adds_still, still_read|]. intros [[i k'] l]. apply adds_set_raw.
Qed.
Lemma adds_inner_push id sep value : adds 2 (inner_push hash id sep value).
Proof.
  unfold inner_push. apply adds_bind; [apply adds_still, still_read|]. intros [[indent c] items].
  apply adds_bind; [apply adds_still, still_intern|]. intros p. apply adds_seq; [apply adds_insert|]. intros item.
  apply adds_bind; [apply adds_still; stil|]. intros vp. apply adds_seq; [apply adds_insert|]. intros v. apply adds_bind; [apply adds_replace|]. intros _.
  apply adds_bind; [|intros _; apply adds_still, still_ret]. unfold seq_push. apply adds_bind; [apply adds_still, still_read|]. intros [[i k'] l]. apply adds_set_raw.
Qed.
Lemma adds_on_mapping k id m : adds k m -> adds k (on_mapping id m).
Proof. intros H. unfold on_mapping. apply adds_bind; [apply adds_still, still_read|]. intros r. destruct r; first [exact H|apply adds_still, still_ret]. Qed.
Lemma adds_on_sequence k id m : adds k m -> adds k (on_sequence id m).
Proof. intros H. unfold on_sequence. apply adds_bind; [apply adds_still, still_read|]. intros r. destruct r; first [exact H|apply adds_still, still_ret]. Qed.
Lemma adds_handle k m : adds k m -> adds k (Api.handle m).
Proof. intros H. apply adds_then; [exact H|intros x; apply still_ret]. Qed.
Lemma adds_done k m : adds k m -> adds k (Api.done m).
Proof. intros H. apply adds_then; [exact H|intros x; apply still_ret]. Qed.
Lemma adds_removed k m : adds k m -> adds k (Api.removed m).
Proof. intros H. apply adds_then; [exact H|intros x; apply still_ret]. Qed.
(* Calls that put a value into a collection. *)
Definition grows (e : edit) : bool := match e with
  | Insert _ _ | InsertStr _ _ | InsertBlock _ _ _ | InsertBool _ _ | InsertInt _ _ _ | InsertFloat _ _ _
  | Push _ | PushString _ | PushBlock _ _ | PushBool _ | PushInt _ _ | PushFloat _ _ => true | _ => false end.
Lemma adds_make id (m : nat -> sid -> D unit) : (forall r p, adds 0 (m r p)) -> adds 0 ('(i, p) <- make_indent hash id 0 ;; m i p ;;; ret id).
Proof. intros H. apply adds_bind; [apply adds_still, still_make_indent|]. intros [i p]. apply adds_bind; [apply H|]. intros _. apply adds_still, still_ret. Qed.
Theorem run_adds id e : adds (if grows e then 2 else 0) (run hash id e).
Proof.
  destruct e; cbn [run grows];
  try (apply adds_done; first [unfold set_null|unfold set_string|unfold set_string_with|unfold set_block|unfold set_bool|unfold set_int, set_number|unfold set_number];
       apply adds_bind; [apply adds_still; first [apply still_new_string|apply still_new_string_with|apply still_new_block|apply still_new_bool|apply still_new_number|stil]|intros ?; apply adds_replace]);
  try (apply adds_on_mapping, adds_handle; first [unfold map_insert|unfold map_insert_str|unfold map_insert_block|unfold map_insert_bool|unfold map_insert_number];
       first [apply adds_inner_insert|apply adds_bind; [apply adds_still; first [apply still_new_string|apply still_new_block|apply still_new_bool|apply still_new_number]|intros ?; apply adds_inner_insert]]);
  try (apply adds_on_sequence, adds_handle; first [unfold seq_push_null|unfold seq_push_string|unfold seq_push_block|unfold seq_push_bool|unfold seq_push_number];
       first [apply adds_inner_push|apply adds_bind; [apply adds_still; first [apply still_new_string|apply still_new_block|apply still_new_bool|apply still_new_number]|intros ?; apply adds_inner_push]]).
  - apply adds_handle. unfold make_mapping. apply adds_bind; [apply adds_still, still_read|]. intros r. destruct r; first [apply adds_still, still_ret|apply (adds_make id (fun i p => replace_with id p (RMap i CBlock []))); intros; apply adds_replace_with].
  - apply adds_handle. unfold make_sequence. apply adds_bind; [apply adds_still, still_read|]. intros r. destruct r; first [apply adds_still, still_ret|apply (adds_make id (fun i p => replace_with id p (RSeq i CBlock []))); intros; apply adds_replace_with].
  - apply adds_on_mapping, adds_removed. unfold map_remove. apply adds_bind; [apply adds_still, still_read|]. intros [[i k] items]. apply adds_bind; [apply adds_still, still_read|]. intros [[j v]|]; [|apply adds_still, still_ret].
    destruct (nth_error items j); [|intros ? ? ? _ E; discriminate]. apply adds_bind; [apply adds_set_raw|]. intros _. apply adds_bind; [apply adds_drop|]. intros _. apply adds_still, still_ret.
  - apply adds_on_mapping, adds_done. unfold map_clear. apply adds_bind; [apply adds_still, still_read|]. intros [[i k] items]. apply adds_bind; [apply adds_set_raw|]. intros _. apply adds_bind; [apply adds_drop_items|]. intros _.
    apply adds_bind; [apply adds_still, still_read|]. intros [[i' k'] items']. apply adds_set_raw.
  - apply adds_on_sequence, adds_removed. unfold seq_remove. apply adds_bind; [apply adds_still, still_read|]. intros [[j k] items].
    destruct (nth_error items i); [|apply adds_still, still_ret]. apply adds_bind; [apply adds_set_raw|]. intros _. apply adds_bind; [apply adds_drop|]. intros _. apply adds_still, still_ret.
  - apply adds_on_sequence, adds_done. unfold seq_clear. apply adds_bind; [apply adds_still, still_read|]. intros [[i k] items]. apply adds_bind; [apply adds_set_raw|]. intros _. apply adds_bind; [apply adds_drop_items|]. intros _.
    apply adds_bind; [apply adds_still, still_read|]. intros [[i' k'] items']. apply adds_set_raw.
Qed.
End Calls.

(* ---- C56 ---- *)
(* All values of a document, each once; all items of it. *)
Definition values_are (doc : document) (l : list nat) : Prop := NoDup l /\ forall x, In x l <-> value_of doc x.
Definition items_are (doc : document) (l : list nat) : Prop := NoDup l /\ forall x, In x l <-> item_of doc x.
Lemma same_length (l l' : list nat) : NoDup l -> NoDup l' -> (forall x, In x l <-> In x l') -> length l = length l'.
Proof. intros N N' H. apply Permutation_length. now apply NoDup_Permutation. Qed.
Lemma lists_count hash doc t suf l : models hash doc t suf -> values_are doc l -> length l = vals (see t).
Proof.
  intros M (N & V). rewrite <- (cell_values hash t None). rewrite <- (map_length fst). apply same_length; [exact N| |].
  - assert (H : has (d_slab (doc_data doc)) (cells hash None t)) by apply M. pose proof (has_nodup _ _ H) as ND. revert ND. generalize (cells hash None t) as L. clear.
    induction L as [|a L IH]; cbn; intros ND; [constructor|]. inversion ND as [|? ? NI N']; subst.
    destruct (is_value a); cbn; auto. constructor; auto. intros X. apply NI. apply in_map_iff in X as (y & <- & Y). apply filter_In in Y as [Y _]. now apply in_map.
  - intros x. rewrite V, (value_cells hash doc t suf x M). rewrite in_map_iff. split.
    + intros (e & I & R). exists (x, e). split; [reflexivity|]. apply filter_In. split; [exact I|]. unfold is_value. cbn. now destruct (e_raw e).
    + intros ([y e] & E & I). cbn in E. subst y. apply filter_In in I as [I R]. exists e. split; [exact I|]. unfold is_value in R. cbn in R. now destruct (e_raw e).
Qed.
(* A document has one value more than items; together they are its live entries. *)
Theorem C56_built : forall hash doc values items, built hash doc -> values_are doc values -> items_are doc items ->
  length values = S (length items) /\ live_count doc = length values + length items.
Proof.
  intros hash doc values items B V (NI & IA). destruct (C30_count hash doc B) as (vs & its & N1 & N2 & E1 & E2 & C).
  destruct (built_models _ _ _ _ B) as (t & suf & M). pose proof (lists_count _ _ _ _ _ M V) as LV. pose proof (models_count _ _ _ _ M) as LC.
  assert (X : length items = length its) by (apply same_length; auto; intros x; now rewrite IA, E2).
  assert (Y : length values = length vs) by (destruct V as [NV VA]; apply same_length; auto; intros x; now rewrite VA, E1).
  unfold live_count in *. rewrite X, Y, <- C in *. split; lia.
Qed.
(* A text is a document of at most one value more than it has bytes. *)
Theorem C56_text : forall hash input doc values, from_slice hash input = Ok doc -> values_are doc values -> length values <= S (length input).
Proof.
  intros hash input doc values E V. destruct (parse_models hash input doc E) as (t & suf & P & M). rewrite (lists_count _ _ _ _ _ M V), <- see_shape.
  apply stands_size. now apply (means_sound input _ suf).
Qed.
Theorem C56_slots : forall hash input doc, from_slice hash input = Ok doc -> slot_count doc <= 2 * length input + 1.
Proof.
  intros hash input doc E. rewrite (C54_parse _ _ _ E). destruct (parse_models hash input doc E) as (t & suf & P & M). pose proof (models_count _ _ _ _ M) as C.
  rewrite <- see_shape in C. pose proof (stands_size input _ (means_sound input _ suf P)). lia.
Qed.
(* A call adds one value and its item at most, and only inserts and pushes add any. *)
Theorem C56_call : forall hash doc id e r d', built hash doc -> run hash id e (doc_data doc) = Ok (r, d') ->
  live_count (edited doc d') <= live_count doc + (if grows e then 2 else 0).
Proof. intros hash doc id e r d' B E. pose proof (proj2 (run_adds hash id e _ _ _ (built_sound _ _ B) E)). unfold live_count. cbn [edited doc_data]. lia. Qed.
(* The document after parsing the input and n calls that insert or push, among others. *)
Inductive made (hash : bytes -> sid) (input : bytes) : document -> nat -> Prop :=
| made_parse doc : from_slice hash input = Ok doc -> made hash input doc 0
| made_call doc n id e r d' : made hash input doc n -> value_of doc id -> run hash id e (doc_data doc) = Ok (r, d') ->
    made hash input (edited doc d') (if grows e then S n else n).
Lemma made_built hash input doc n : made hash input doc n -> built hash doc.
Proof. induction 1; [econstructor 1|econstructor 2]; eauto. Qed.
Theorem C56_calls : forall hash input doc n, made hash input doc n -> slot_count doc <= 2 * (length input + n) + 1.
Proof.
  intros hash input doc n H. enough (slot_count doc <= 2 * (length input + n) + 1 /\ live_count doc <= 2 * (length input + n) + 1) by lia.
  induction H as [doc E|doc n id e r d' MD IH V E].
  - pose proof (C56_slots _ _ _ E). pose proof (C54_parse _ _ _ E). lia.
  - pose proof (made_built _ _ _ _ MD) as B. rewrite (C54_call _ _ _ _ _ _ B E). pose proof (C56_call _ _ _ _ _ _ B E). destruct (grows e); lia.
Qed.
Theorem C56_any : forall hash doc, built hash doc -> exists input n, made hash input doc n.
Proof. intros hash doc B. induction B as [input doc _ E|doc id e r d' B (input & n & IH) V _ E]; do 2 eexists; [econstructor 1; eassumption|econstructor 2; eassumption]. Qed.
(* The bound on the text can not be lowered by more than two: n commas in brackets are n empty strings. *)
Definition commas (n : nat) : bytes := LBRACK :: repeat COMMA n ++ [RBRACK].
Lemma commas_at n k : 1 <= k <= n -> nth k (commas n) 0%N = COMMA.
Proof. intros L. destruct k as [|k]; [lia|]. cbn [commas nth]. rewrite app_nth1 by (rewrite repeat_length; lia). rewrite nth_indep with (d' := COMMA) by (rewrite repeat_length; lia). apply nth_repeat. Qed.
Lemma commas_end n : nth (S n) (commas n) 0%N = RBRACK.
Proof. cbn [commas nth]. rewrite app_nth2; rewrite repeat_length; [|lia]. now rewrite Nat.sub_diag. Qed.
Lemma commas_length n : length (commas n) = n + 2.
Proof. cbn. rewrite app_length, repeat_length. cbn. lia. Qed.
Lemma commas_gap n k : 1 <= k <= S n -> gap_to (commas n) k k.
Proof.
  intros L. assert (E : nth k (commas n) 0%N = COMMA \/ nth k (commas n) 0%N = RBRACK).
  { destruct (Nat.eq_dec k (S n)) as [-> |N]; [right; apply commas_end|left; apply commas_at; lia]. }
  constructor; [rewrite commas_length; lia| |]; destruct E as [-> | ->]; try discriminate; cbn; intuition discriminate.
Qed.
Lemma slice_none (s : bytes) k : slice s k k = [].
Proof. unfold slice. rewrite Nat.sub_diag. now destruct (_ && _). Qed.
Lemma commas_item n k : 1 <= k <= n -> means (commas n) true None k (DStr []) k.
Proof.
  intros L. pose proof (commas_at n k L) as E. assert (NO : slice (commas n) k k = []) by apply slice_none.
  replace (DStr []) with (DStr (slice (commas n) k k)) by (now rewrite NO).
  apply me_word.
  - intros [I|(X & _)]; [|discriminate]. rewrite E in I. cbn in I. intuition discriminate.
  - intros h j N. pose proof (number_le _ _ _ _ _ N) as LJ. destruct N as (_ & U & _). rewrite part_at in U by lia. rewrite E in U.
    apply number_hd in U as (c & r & X & D). injection X as <- _. destruct D as [D|[D|D]]; [|discriminate|discriminate]. unfold digit, COMMA in D. lia.
  - split; [rewrite commas_length; lia|]. split; [|rewrite E; cbn; auto]. intros c I. rewrite NO in I. destruct I.
  - rewrite NO. apply pd_str; try discriminate.
    + intros F. inversion F.
    + intros F. inversion F.
    + intros F. inversion F.
    + intros h U. apply number_hd in U as (c & r & X & _). discriminate.
Qed.
Lemma commas_rest n : forall k m, k + m = S n -> 1 <= m -> flow_seq_at (commas n) m (repeat (DStr []) k) (n + 2).
Proof.
  induction k as [|k IH]; intros m E L; cbn [repeat].
  - replace (n + 2) with (S m) by lia. apply fq_end. replace m with (S n) by lia. apply commas_end.
  - apply (fq_comma _ m m (DStr []) m false (S m)).
    + rewrite commas_at by lia. cbn. intuition discriminate.
    + apply commas_gap. lia.
    + apply he_value. apply commas_item. lia.
    + apply commas_at. lia.
    + apply commas_gap. lia.
    + apply IH; lia.
Qed.
Lemma commas_stand n : stands_for (commas n) (DSeq (repeat (DStr []) n)).
Proof.
  exists 0, 0, (n + 2). split; [|split; [|split]].
  - constructor; [lia| |discriminate]. cbn. intuition discriminate.
  - constructor; [discriminate|]. intros (X & _). discriminate.
  - apply (me_flow_seq _ _ _ _ 1); [reflexivity|apply commas_gap; lia|]. apply commas_rest; lia.
  - rewrite commas_length. constructor; [rewrite commas_length; lia| |].
    + rewrite nth_overflow by (rewrite commas_length; lia). cbn. intuition discriminate.
    + rewrite nth_overflow by (rewrite commas_length; lia). discriminate.
Qed.
Theorem C56_tight : forall hash n, exists input doc values, length input = n + 2 /\ from_slice hash input = Ok doc /\ values_are doc values /\ length values = n + 1.
Proof.
  intros hash n. destruct (C47_accepts hash _ _ (commas_stand n)) as (doc & E & _). exists (commas n), doc.
  assert (B : built hash doc) by (econstructor 1; [exact Logic.I|exact E]).
  destruct (C30_count hash doc B) as (vs & its & N1 & _ & E1 & _). exists vs. split; [apply commas_length|]. split; [exact E|]. split; [now split|].
  destruct (parse_models hash _ doc E) as (t & suf & P & M). rewrite (lists_count _ _ _ _ _ M (conj N1 E1)).
  pose proof (means_sound _ _ suf P) as ST. rewrite see_shape in ST. rewrite (C47_one _ _ _ ST (commas_stand n)). cbn [vals].
  clear. induction n as [|n IH]; cbn in *; unfold total in *; lia.
Qed.

(* ---- cases ---- *)
(* one byte, two values and an item: as many as the bound allows *)
Example C56_case : counts (load (b ":")) = Some (3, 3) /\ counts (load (b "")) = Some (1, 1) /\ counts (load (b "[,,,,]")) = Some (9, 9) /\
  counts (edit_path [] (InsertStr (b "k") (b "v")) (load (b ":"))) = Some (5, 5).
Proof. vm_compute. repeat split. Qed.
Print Assumptions C56_built.
Print Assumptions C56_text.
Print Assumptions C56_slots.
Print Assumptions C56_call.
Print Assumptions C56_calls.
Print Assumptions C56_any.
Print Assumptions C56_tight.
