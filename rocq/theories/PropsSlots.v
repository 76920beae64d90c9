(* C54: the slots of the store. A document needs as many as it had values and items when it was
   largest, and no more. *)
From Coq Require Import String.
From Coq Require Import List NArith ZArith Bool Arith Lia Permutation.
From Verif Require Import Bytes Utf8 Data Slab Parser Render Tree Abs Refine Num Api Ctx Edit Built Shown Swap Open Session Back Check Tests Snapshot Restore PropsText.
Import ListNotations.
Local Open Scope nat_scope.

(* The slots the store has, and those in use. *)
Definition slot_count (doc : document) : nat := length (sl_entries (d_slab (doc_data doc))).
Definition live_count (doc : document) : nat := slab_len (d_slab (doc_data doc)).

(* ---- the calls ---- *)
Definition sound (d : data) : Prop := exists L, has (d_slab d) L.
Definition room_of (d : data) : nat := length (sl_entries (d_slab d)).
Definition flat {A} (m : D A) : Prop := forall d a d', sound d -> m d = Ok (a, d') -> sound d' /\ room_of d' = room_of d.
Definition still {A} (m : D A) : Prop := forall d a d', m d = Ok (a, d') -> d_slab d' = d_slab d.
Definition fits_in {A} (m : D A) : Prop := forall d a d', sound d -> m d = Ok (a, d') ->
  sound d' /\ room_of d' = Nat.max (room_of d) (slab_len (d_slab d')).

Lemma bind_ok {S A B} (m : ST S A) (f : A -> ST S B) s r s' : bind m f s = Ok (r, s') -> exists x s1, m s = Ok (x, s1) /\ f x s1 = Ok (r, s').
Proof. unfold bind. destruct (m s) as [[x s1]|? ? ?| | |]; try discriminate. intros E. eauto. Qed.
Lemma still_bind {A B} (m : D A) (f : A -> D B) : still m -> (forall x, still (f x)) -> still (bind m f).
Proof. intros H K d a d' E. apply bind_ok in E as (x & d1 & E1 & E2). apply H in E1. apply K in E2. congruence. Qed.
Lemma still_ret {A} (x : A) : still (ret x).
Proof. intros d a d' E. now injection E as _ <-. Qed.
Lemma still_read {A} (f : data -> outcome A) : still (read f).
Proof. intros d a d'. unfold read. destruct (f d); try discriminate. intros E. now injection E as _ <-. Qed.
Lemma still_intern hash s : still (insert_str hash s).
Proof. intros d a d'. unfold insert_str. destruct (assoc (hash s) (d_strings d)) as [s'|]; [destruct (beq s s')|]; intros E; now injection E as _ <-. Qed.
Lemma still_flat {A} (m : D A) : still m -> flat m.
Proof. intros H d a d' (L & K) E. apply H in E. unfold room_of. rewrite E. split; [exists L; now rewrite E|reflexivity]. Qed.
Lemma flat_bind {A B} (m : D A) (f : A -> D B) : flat m -> (forall x, flat (f x)) -> flat (bind m f).
Proof. intros H K d a d' SD E. apply bind_ok in E as (x & d1 & E1 & E2). destruct (H _ _ _ SD E1) as [S1 R1]. destruct (K _ _ _ _ S1 E2) as [S2 R2]. split; [exact S2|congruence]. Qed.
Lemma flat_fits {A} (m : D A) : flat m -> fits_in m.
Proof.
  intros H d a d' SD E. destruct (H _ _ _ SD E) as [(L & S1) R1]. split; [now exists L|]. pose proof (has_length _ _ S1). rewrite (has_len _ _ S1). unfold room_of in *. lia.
Qed.
Lemma fits_bind {A B} (m : D A) (f : A -> D B) : flat m -> (forall x, fits_in (f x)) -> fits_in (bind m f).
Proof. intros H K d a d' SD E. apply bind_ok in E as (x & d1 & E1 & E2). destruct (H _ _ _ SD E1) as [S1 R1]. destruct (K _ _ _ _ S1 E2) as [S2 R2]. split; [exact S2|congruence]. Qed.
Lemma fits_still {A B} (m : D A) (f : A -> D B) : fits_in m -> (forall x, still (f x)) -> fits_in (bind m f).
Proof.
  intros H K d a d' SD E. apply bind_ok in E as (x & d1 & E1 & E2). destruct (H _ _ _ SD E1) as [(L & S1) R1]. apply K in E2.
  unfold room_of in *. rewrite E2. split; [exists L; now rewrite E2|exact R1].
Qed.

Lemma has_assign s L k e e' : has s L -> slab_get s k = Some e -> exists L', has (slab_set s k e') L' /\ length L' = length L.
Proof.
  intros H G. apply (has_get_in _ _ _ _ H) in G. apply in_split in G as (L1 & L2 & ->).
  exists ((k, e') :: L1 ++ L2). split; [|cbn; rewrite !app_length; cbn; lia]. apply (has_set _ _ _ e e'). eapply has_perm; [|exact H]. symmetry. apply Permutation_middle.
Qed.
Lemma set_raw_spec id r d L a d' : has (d_slab d) L -> set_raw id r d = Ok (a, d') -> room_of d' = room_of d /\ exists L', has (d_slab d') L' /\ length L' = length L.
Proof.
  intros H. unfold set_raw. destruct (slab_get (d_slab d) id) as [e|] eqn:G; [|discriminate]. intros E. injection E as _ <-. cbn [d_slab set_slab].
  split; [apply slab_set_length|]. eapply has_assign; eauto.
Qed.
Lemma flat_set_raw id r : flat (set_raw id r).
Proof. intros d a d' (L & H) E. destruct (set_raw_spec _ _ _ _ _ _ H E) as (R & L' & H' & _). split; [now exists L'|exact R]. Qed.
Lemma remove_sound d id e s : sound d -> slab_try_remove (d_slab d) id = Some (e, s) -> sound (set_slab d s) /\ room_of (set_slab d s) = room_of d.
Proof.
  intros (L & H) E. assert (G : exists e, slab_get (d_slab d) id = Some e) by (unfold slab_try_remove in E; destruct (slab_get (d_slab d) id) as [e0|]; [eauto|discriminate]).
  destruct G as [e0 G]. apply (has_get_in _ _ _ _ H) in G. apply in_split in G as (L1 & L2 & ->).
  assert (H1 : has (d_slab d) ((id, e0) :: L1 ++ L2)) by (eapply has_perm; [|exact H]; symmetry; apply Permutation_middle).
  destruct (has_remove _ _ _ _ H1) as (s' & E' & H' & R). rewrite E in E'. injection E' as _ <-. split; [exists (L1 ++ L2); exact H'|exact R].
Qed.
Lemma flat_drop_id k id : (forall r, flat (k r)) -> flat (drop_id k id).
Proof.
  intros K d a d' SD. unfold drop_id. destruct (slab_try_remove (d_slab d) id) as [[e s]|] eqn:E.
  - destruct (remove_sound _ _ _ _ SD E) as [S1 R1]. intros X. destruct (K _ _ _ _ S1 X) as [S2 R2]. split; [exact S2|congruence].
  - intros X. injection X as _ <-. auto.
Qed.
Lemma flat_drop_value k id : (forall r, flat (k r)) -> flat (drop_value k id).
Proof.
  intros K d a d' SD. unfold drop_value. destruct (slab_try_remove (d_slab d) id) as [[e s]|] eqn:E; [|discriminate].
  destruct (remove_sound _ _ _ _ SD E) as [S1 R1]. intros X. destruct (K _ _ _ _ S1 X) as [S2 R2]. split; [exact S2|congruence].
Qed.
Lemma flat_drop_all k l : (forall r, flat (k r)) -> flat (drop_all k l).
Proof. intros K. induction l as [|x l IH]; cbn [drop_all]; [apply still_flat, still_ret|]. apply flat_bind; [now apply flat_drop_id|auto]. Qed.
Lemma flat_drop_kind_f f : forall r, flat (drop_kind_f f r).
Proof.
  induction f as [|f IH]; intros r; cbn [drop_kind_f]; [intros d a d' _ E; discriminate|].
  destruct r; first [apply still_flat, still_ret|now apply flat_drop_all|now apply flat_drop_value].
Qed.
Lemma flat_drop_kind r : flat (drop_kind r).
Proof. intros d. apply flat_drop_kind_f. Qed.
Lemma flat_drop id : flat (drop id).
Proof. intros d. apply flat_drop_id. apply flat_drop_kind_f. Qed.
Lemma flat_drop_items l : flat (drop_items l).
Proof. induction l as [|x l IH]; cbn [drop_items]; [apply still_flat, still_ret|]. apply flat_bind; [apply flat_drop|auto]. Qed.
Lemma flat_replace id r : flat (replace id r).
Proof.
  intros d a d' (L & H). unfold replace. destruct (slab_get (d_slab d) id) as [e|] eqn:G.
  - intros E. destruct (has_assign _ _ _ _ (Entry r (e_prefix e) (e_parent e)) H G) as (L' & H' & _). destruct (flat_drop_kind _ _ _ _ (ex_intro _ L' H' : sound (set_slab d _)) E) as [S1 R1].
    split; [exact S1|]. rewrite R1. apply slab_set_length.
  - intros E. injection E as _ <-. split; [now exists L|reflexivity].
Qed.
Lemma flat_replace_with id p r : flat (replace_with id p r).
Proof.
  intros d a d' (L & H). unfold replace_with. destruct (slab_get (d_slab d) id) as [e|] eqn:G.
  - intros E. destruct (has_assign _ _ _ _ (Entry r p (e_parent e)) H G) as (L' & H' & _). destruct (flat_drop_kind _ _ _ _ (ex_intro _ L' H' : sound (set_slab d _)) E) as [S1 R1].
    split; [exact S1|]. rewrite R1. apply slab_set_length.
  - intros E. injection E as _ <-. split; [now exists L|reflexivity].
Qed.

Ltac stil := repeat first
  [ apply still_bind; [|intros ?] | apply still_ret | apply still_read | apply still_intern
  | progress intros | match goal with |- still (match ?x with _ => _ end) => destruct x end
  | match goal with |- still (if ?x then _ else _) => destruct x end ].
Section Calls.
Variable hash : bytes -> sid.
Lemma still_new_string s : still (new_string hash s). Proof. unfold new_string. stil. Qed.
Lemma still_new_string_with s k : still (new_string_with hash s k). Proof. unfold new_string_with. stil. Qed.
Lemma still_new_bool v : still (new_bool hash v). Proof. unfold new_bool. stil. Qed.
Lemma still_new_number t h : still (new_number hash t h). Proof. unfold new_number. stil. Qed.
Lemma still_new_block id ps k : still (new_block hash id ps k). Proof. unfold new_block. stil. Qed.
Lemma still_make_indent id n : still (make_indent hash id n). Proof. unfold make_indent. stil. Qed.

(* Two new entries, the first filled in after the second. *)
Lemma two_in {A} r0 p0 par0 (mid : nat -> D sid) r1 (r2 : nat -> raw sid) (last : nat -> D unit) (back : nat -> A) d a d' :
  (forall x, still (mid x)) -> sound d -> (forall x d1 L u d2, has (d_slab d1) L -> last x d1 = Ok (u, d2) -> room_of d2 = room_of d1 /\ exists L', has (d_slab d2) L' /\ length L' = length L) ->
  (item <- insert (RScalar r0) p0 par0 ;; vp <- mid item ;; v <- insert r1 vp (Some item) ;; replace item (r2 v) ;;; last item ;;; ret (back v)) d = Ok (a, d') ->
  sound d' /\ room_of d' = Nat.max (room_of d) (slab_len (d_slab d')).
Proof.
  intros SM (L & H) K E. apply bind_ok in E as (item & d1 & E1 & E). apply bind_ok in E as (vp & d2 & E2 & E). apply bind_ok in E as (v & d3 & E3 & E).
  apply bind_ok in E as ([] & d4 & E4 & E). apply bind_ok in E as ([] & d5 & E5 & E). injection E as _ <-.
  unfold insert in E1. destruct (has_insert _ _ (Entry (RScalar r0) p0 par0) H) as (k1 & s1 & X1 & H1). rewrite X1 in E1. injection E1 as <- <-. pose proof (has_grow _ _ _ _ _ H X1) as R1.
  apply SM in E2. cbn [d_slab set_slab] in E2.
  unfold insert in E3. rewrite E2 in E3. destruct (has_insert _ _ (Entry r1 vp (Some k1)) H1) as (k2 & s2 & X2 & H2). rewrite X2 in E3. injection E3 as <- <-. pose proof (has_grow _ _ _ _ _ H1 X2) as R2.
  assert (P : Permutation ((k2, Entry r1 vp (Some k1)) :: (k1, Entry (RScalar r0) p0 par0) :: L) ((k1, Entry (RScalar r0) p0 par0) :: (k2, Entry r1 vp (Some k1)) :: L)) by apply perm_swap.
  apply (has_perm _ _ _ P) in H2. unfold replace in E4. cbn [d_slab set_slab] in E4. rewrite (has_get _ _ k1 (Entry (RScalar r0) p0 par0) H2 (or_introl eq_refl)) in E4. cbn [e_raw] in E4.
  unfold drop_kind, drop_fuel in E4. cbn [drop_kind_f] in E4. injection E4 as <-. cbn [d_slab set_slab e_prefix e_parent] in *.
  pose proof (has_set _ _ _ _ (Entry (r2 k2) p0 par0) H2) as H3.
  edestruct (K k1) as (R3 & L' & H4 & LL); [|exact E5|]; [exact H3|]. split; [now exists L'|]. rewrite (has_len _ _ H4), LL. unfold room_of in *. rewrite R3. cbn [d_slab set_slab length] in *. rewrite slab_set_length. lia.
Qed.
Lemma map_push_spec id x d1 L u d2 : has (d_slab d1) L -> map_push id x d1 = Ok (u, d2) -> room_of d2 = room_of d1 /\ exists L', has (d_slab d2) L' /\ length L' = length L.
Proof.
  intros H E. unfold map_push in E. apply bind_ok in E as ([[i k] items] & d & E1 & E2). pose proof (still_read _ _ _ _ E1) as X.
  unfold room_of. rewrite <- X. eapply set_raw_spec; [rewrite X; exact H|exact E2].
Qed.
Lemma seq_push_spec id x d1 L u d2 : has (d_slab d1) L -> seq_push id x d1 = Ok (u, d2) -> room_of d2 = room_of d1 /\ exists L', has (d_slab d2) L' /\ length L' = length L.
Proof.
  intros H E. unfold seq_push in E. apply bind_ok in E as ([[i k] items] & d & E1 & E2). pose proof (still_read _ _ _ _ E1) as X.
  unfold room_of. rewrite <- X. eapply set_raw_spec; [rewrite X; exact H|exact E2].
Qed.
Lemma fits_insert id key sep value : fits_in (inner_insert hash id key sep value).
Proof.
  unfold inner_insert. apply fits_bind; [apply still_flat, still_intern|]. intros k. apply fits_bind; [apply still_flat, still_read|]. intros [[indent c] items].
  apply fits_bind; [apply still_flat, still_read|]. intros [v|].
  - apply flat_fits. apply flat_bind; [apply flat_replace|]. intros _. apply still_flat, still_ret.
  - apply fits_bind; [apply still_flat, still_intern|]. intros p. intros d a d' SD E.
    eapply (two_in _ _ _ (fun _ => _) _ (fun v => RMapItem (RS KBare k k) v) (fun x => map_push id x) (fun v => v)); [|exact SD| |exact E].
    + intros _. stil.
    + intros x d1 L u d2. apply map_push_spec.
Qed.
Lemma fits_push id sep value : fits_in (inner_push hash id sep value).
Proof.
  unfold inner_push. apply fits_bind; [apply still_flat, still_read|]. intros [[indent c] items].
  apply fits_bind; [apply still_flat, still_intern|]. intros p. intros d a d' SD E.
  eapply (two_in _ _ _ (fun _ => _) _ (fun v => RSeqItem v) (fun x => seq_push id x) (fun v => v)); [|exact SD| |exact E].
  - intros _. stil.
  - intros x d1 L u d2. apply seq_push_spec.
Qed.
Lemma fits_on_mapping id m : fits_in m -> fits_in (on_mapping id m).
Proof. intros H. unfold on_mapping. apply fits_bind; [apply still_flat, still_read|]. intros r. destruct r; first [exact H|apply flat_fits, still_flat, still_ret]. Qed.
Lemma fits_on_sequence id m : fits_in m -> fits_in (on_sequence id m).
Proof. intros H. unfold on_sequence. apply fits_bind; [apply still_flat, still_read|]. intros r. destruct r; first [exact H|apply flat_fits, still_flat, still_ret]. Qed.
Lemma fits_handle m : fits_in m -> fits_in (Api.handle m).
Proof. intros H. apply fits_still; [exact H|intros x; apply still_ret]. Qed.
Lemma fits_done m : flat m -> fits_in (Api.done m).
Proof. intros H. apply fits_still; [now apply flat_fits|intros x; apply still_ret]. Qed.
Lemma fits_removed m : flat m -> fits_in (Api.removed m).
Proof. intros H. apply fits_still; [now apply flat_fits|intros x; apply still_ret]. Qed.
Lemma flat_make id (m : nat -> sid -> D unit) : (forall r p, flat (m r p)) -> flat ('(i, p) <- make_indent hash id 0 ;; m i p ;;; ret id).
Proof. intros H. apply flat_bind; [apply still_flat, still_make_indent|]. intros [i p]. apply flat_bind; [apply H|]. intros _. apply still_flat, still_ret. Qed.
Theorem run_fits id e : fits_in (run hash id e).
Proof.
  destruct e; cbn [run];
  try (apply fits_done; first [unfold set_null|unfold set_string|unfold set_string_with|unfold set_block|unfold set_bool|unfold set_int, set_number|unfold set_number];
       apply flat_bind; [apply still_flat; first [apply still_new_string|apply still_new_string_with|apply still_new_block|apply still_new_bool|apply still_new_number|stil]|intros ?; apply flat_replace]);
  try (apply fits_on_mapping, fits_handle; first [unfold map_insert|unfold map_insert_str|unfold map_insert_block|unfold map_insert_bool|unfold map_insert_number];
       first [apply fits_insert|apply fits_bind; [apply still_flat; first [apply still_new_string|apply still_new_block|apply still_new_bool|apply still_new_number]|intros ?; apply fits_insert]]);
  try (apply fits_on_sequence, fits_handle; first [unfold seq_push_null|unfold seq_push_string|unfold seq_push_block|unfold seq_push_bool|unfold seq_push_number];
       first [apply fits_push|apply fits_bind; [apply still_flat; first [apply still_new_string|apply still_new_block|apply still_new_bool|apply still_new_number]|intros ?; apply fits_push]]).
  - apply fits_handle, flat_fits. unfold make_mapping. apply flat_bind; [apply still_flat, still_read|]. intros r. destruct r; first [apply still_flat, still_ret|apply (flat_make id (fun i p => replace_with id p (RMap i CBlock []))); intros; apply flat_replace_with].
  - apply fits_handle, flat_fits. unfold make_sequence. apply flat_bind; [apply still_flat, still_read|]. intros r. destruct r; first [apply still_flat, still_ret|apply (flat_make id (fun i p => replace_with id p (RSeq i CBlock []))); intros; apply flat_replace_with].
  - apply fits_on_mapping, fits_removed. unfold map_remove. apply flat_bind; [apply still_flat, still_read|]. intros [[i k] items]. apply flat_bind; [apply still_flat, still_read|]. intros [[j v]|]; [|apply still_flat, still_ret].
    destruct (nth_error items j); [|intros ? ? ? _ E; discriminate]. apply flat_bind; [apply flat_set_raw|]. intros _. apply flat_bind; [apply flat_drop|]. intros _. apply still_flat, still_ret.
  - apply fits_on_mapping, fits_done. unfold map_clear. apply flat_bind; [apply still_flat, still_read|]. intros [[i k] items]. apply flat_bind; [apply flat_set_raw|]. intros _. apply flat_bind; [apply flat_drop_items|]. intros _.
    apply flat_bind; [apply still_flat, still_read|]. intros [[i' k'] items']. apply flat_set_raw.
  - apply fits_on_sequence, fits_removed. unfold seq_remove. apply flat_bind; [apply still_flat, still_read|]. intros [[j k] items].
    destruct (nth_error items i); [|apply still_flat, still_ret]. apply flat_bind; [apply flat_set_raw|]. intros _. apply flat_bind; [apply flat_drop|]. intros _. apply still_flat, still_ret.
  - apply fits_on_sequence, fits_done. unfold seq_clear. apply flat_bind; [apply still_flat, still_read|]. intros [[i k] items]. apply flat_bind; [apply flat_set_raw|]. intros _. apply flat_bind; [apply flat_drop_items|]. intros _.
    apply flat_bind; [apply still_flat, still_read|]. intros [[i' k'] items']. apply flat_set_raw.
Qed.
End Calls.

(* ---- C54 ---- *)
(* A document with its history: n is the most values and items it has had at once. *)
Inductive peaks (hash : bytes -> sid) : document -> nat -> Prop :=
| peaks_parse input doc : from_slice hash input = Ok doc -> peaks hash doc (live_count doc)
| peaks_call doc n id e r d' : peaks hash doc n -> value_of doc id -> run hash id e (doc_data doc) = Ok (r, d') ->
    peaks hash (edited doc d') (Nat.max n (live_count (edited doc d'))).
Lemma peaks_built hash doc n : peaks hash doc n -> built hash doc.
Proof. induction 1; [econstructor 1|econstructor 2]; eauto. Qed.
Lemma built_sound hash doc : built hash doc -> sound (doc_data doc).
Proof. intros B. destruct (built_models _ _ _ _ B) as (t & suf & ((H & _) & _)). eexists. exact H. Qed.
Theorem C54_call : forall hash doc id e r d', built hash doc -> run hash id e (doc_data doc) = Ok (r, d') ->
  slot_count (edited doc d') = Nat.max (slot_count doc) (live_count (edited doc d')).
Proof. intros hash doc id e r d' B E. apply (run_fits _ _ _ _ _ _ (built_sound _ _ B) E). Qed.
Theorem C54_parse : forall hash input doc, from_slice hash input = Ok doc -> slot_count doc = live_count doc.
Proof. intros hash input doc E. exact (parse_packed hash input doc E). Qed.
Theorem C54_peak : forall hash doc n, peaks hash doc n -> slot_count doc = n.
Proof.
  induction 1 as [input doc E|doc n id e r d' P IH V E]; [exact (C54_parse _ _ _ E)|]. rewrite (C54_call _ _ _ _ _ _ (peaks_built _ _ _ P) E), IH. reflexivity.
Qed.
Theorem C54_built : forall hash doc, built hash doc -> exists n, peaks hash doc n.
Proof. intros hash doc B. induction B as [input doc _ E|doc id e r d' B [n IH] V _ E]; eexists; [econstructor 1; eassumption|econstructor 2; eassumption]. Qed.
(* A snapshot has no more slots, and obeys the same law. *)
Theorem C54_snapshot : forall hash doc s doc', built hash doc -> takes doc s -> restore s = Some doc' ->
  live_count doc' = live_count doc /\ slot_count doc' <= slot_count doc /\
  forall id e r d', run hash id e (doc_data doc') = Ok (r, d') -> slot_count (edited doc' d') = Nat.max (slot_count doc') (live_count (edited doc' d')).
Proof.
  intros hash doc s doc' B TK R. destruct (built_sound _ _ B) as (L & H). destruct (restore_ok _ _ TK) as (doc1 & R1 & (_ & _ & _ & _ & G & W)). rewrite R in R1. injection R1 as <-.
  assert (H' : has (d_slab (doc_data doc')) L).
  { split; [exact W|]. split; [apply H|]. intros k e. rewrite G. apply H. }
  split; [unfold live_count; now rewrite (has_len _ _ H), (has_len _ _ H')|]. split.
  - destruct TK as (_ & _ & _ & _ & SL). unfold restore in R. destruct (slab_from (n_slab s)) as [sl|] eqn:E; [|discriminate]. injection R as <-. unfold slot_count. cbn [doc_data d_slab].
    eapply slab_from_length; [|exact E]. intros k e I. apply SL in I. now apply slab_get_lt in I.
  - intros id e r d' E. apply (run_fits _ _ _ _ _ _ (ex_intro _ L H' : sound (doc_data doc')) E).
Qed.

(* ---- the strings ---- *)
(* Strings are never given up: what a call finds in the table stays. *)
Theorem C54_strings_stay : forall hash doc id e r d', built hash doc -> value_of doc id -> run hash id e (doc_data doc) = Ok (r, d') ->
  forall k x, In (k, x) (d_strings (doc_data doc)) -> In (k, x) (d_strings d').
Proof.
  intros hash doc id e r d' B V E k x. destruct (built_models _ _ _ _ B) as (t & suf & M). destruct (value_ctx _ _ _ _ _ M V) as (c & v & -> & <-).
  destruct (edit_step hash _ _ _ _ _ _ _ M E) as (v' & _ & _ & G & _). apply G.
Qed.
(* So the table has no bound in the size of the document. *)
Theorem C54_strings_unbounded : forall n, exists doc, built idhash doc /\ live_count doc = 1 /\ n <= length (d_strings (doc_data doc)).
Proof.
  intros n. enough (X : exists doc m sc p, built idhash doc /\ live_count doc = 1 /\ n <= length (d_strings (doc_data doc)) /\
    slab_get (d_slab (doc_data doc)) (doc_root doc) = Some (Entry (RScalar sc) p None) /\ Forall (fun q => length (fst q) <= m) (d_strings (doc_data doc))).
  { destruct X as (doc & m & sc & p & B & L & N & _). exists doc. auto. }
  induction n as [|n (doc & m & sc & p & B & L & N & G & F)].
  - destruct (from_slice idhash (b "x")) as [doc|? ? ?| | |] eqn:E; try (vm_compute in E; discriminate).
    exists doc, 9, (ScStr (RS KBare (b "x") (b "x"))), (b ""). split; [econstructor 1; [exact Logic.I|exact E]|]. vm_compute in E. injection E as <-. cbn.
    repeat split; try lia. repeat constructor.
  - set (s := repeat 97%N (S m)). assert (A : assoc (idhash s) (d_strings (doc_data doc)) = None).
    { destruct (assoc (idhash s) (d_strings (doc_data doc))) as [y|] eqn:E; [|reflexivity]. apply assoc_in in E. rewrite Forall_forall in F. apply F in E. cbn [fst] in E. unfold idhash, s in E. rewrite repeat_length in E. lia. }
    set (d1 := Data ((idhash s, s) :: d_strings (doc_data doc)) (slab_set (d_slab (doc_data doc)) (doc_root doc) (Entry (RScalar (ScStr (RS (detect s) (idhash s) (idhash s)))) p None))).
    assert (R : run idhash (doc_root doc) (SetString s) (doc_data doc) = Ok (Done, d1)).
    { cbn [run]. unfold Api.done, set_string, new_string, bind, insert_str. rewrite A. cbn [ret]. unfold replace. cbn [d_slab]. rewrite G. reflexivity. }
    assert (B1 : built idhash (edited doc d1)) by (econstructor 2; [exact B|apply w_here|exact Logic.I|exact R]).
    exists (edited doc d1), (S m), (ScStr (RS (detect s) (idhash s) (idhash s))), p. split; [exact B1|].
    assert (LT : doc_root doc < length (sl_entries (d_slab (doc_data doc)))) by (now apply slab_get_lt in G).
    split; [|split; [cbn; lia|split]].
    + destruct (built_sound _ _ B) as (K & H). destruct (has_assign _ _ _ _ (Entry (RScalar (ScStr (RS (detect s) (idhash s) (idhash s)))) p None) H G) as (K' & H' & E').
      unfold live_count in *. cbn [edited doc_data d1 d_slab]. rewrite (has_len _ _ H) in L. transitivity (length K'); [exact (has_len _ _ H')|congruence].
    + cbn [edited doc_root doc_data d1 d_slab]. unfold slab_get, slab_set. cbn [sl_entries]. now rewrite list_set_same.
    + cbn [edited doc_data d1 d_strings]. constructor; [cbn [fst]; unfold idhash, s; rewrite repeat_length; lia|]. revert F. apply Forall_impl. intros q. lia.
Qed.

(* ---- cases ---- *)
Definition counts (doc : outcome document) : option (nat * nat) := match doc with Ok doc => Some (slot_count doc, live_count doc) | _ => None end.
Definition c54_doc : outcome document := load (b "a: [1, 2]
c: y
").
Example c54_slots : counts c54_doc = Some (9, 9) /\
  counts (edit_path [K (b "a")] ClearSequence c54_doc) = Some (9, 5) /\
  counts (edit_path [] (InsertStr (b "d") (b "w")) (edit_path [K (b "a")] ClearSequence c54_doc)) = Some (9, 7) /\
  counts (edit_path [] (InsertStr (b "f") (b "w")) (edit_path [] (InsertStr (b "e") (b "w")) (edit_path [] (InsertStr (b "d") (b "w")) (edit_path [K (b "a")] ClearSequence c54_doc)))) = Some (11, 11).
Proof. vm_compute. repeat split. Qed.

Print Assumptions C54_call.
Print Assumptions C54_parse.
Print Assumptions C54_peak.
Print Assumptions C54_built.
Print Assumptions C54_snapshot.
Print Assumptions C54_strings_stay.
Print Assumptions C54_strings_unbounded.
