(* Properties of stale ids, iterators, stored strings, serialization and deserialization:
   C09, C14, C23, C24, C25, C36. *)
From Coq Require Import String.
From Coq Require Import List NArith ZArith Bool Arith Lia Permutation.
From Verif Require Import Bytes Utf8 Data Slab Parser Render Tree Abs Refine Utf8Props RenderProps Num Api Ctx Edit Built
  Serde Tests PropsParse PropsEdit PropsColl PropsValue.
Import ListNotations.

(* ---- C09 ---- *)
(* No slot of the document has this id. *)
Definition dead (d : data) (id : nat) : Prop := slab_get (d_slab d) id = None.
Theorem C09_dead_reads : forall d id, dead d id ->
  as_any d id = Panic /\ as_bstr d id = Panic /\ as_str d id = Panic /\ as_bool d id = Panic /\ as_number d id = Panic /\
  (forall t, as_int d t id = Panic) /\ as_mapping d id = Panic /\ as_sequence d id = Panic /\
  map_len d id = Panic /\ map_iter d id = Panic /\ (forall key, map_get d id key = Panic) /\
  seq_len d id = Panic /\ seq_iter d id = Panic /\ (forall i, seq_get d id i = Panic) /\
  value_write_to d id = Panic /\ value_to_string d id = Panic.
Proof.
  intros d id H. unfold dead in H.
  unfold as_any, as_str, as_bstr, as_bool, as_number, as_int, as_mapping, as_sequence, map_len, map_iter, map_get, seq_len, seq_iter,
    seq_get, value_write_to, value_to_string, Data.mapping, Data.sequence, get_raw, get_entry.
  rewrite H. repeat split.
Qed.
Theorem C09_dead_writes : forall hash d id e, dead d id ->
  run hash id e d = Panic \/ exists d', run hash id e d = Ok (Done, d') /\ d_slab d' = d_slab d.
Proof.
  intros hash d id e H. unfold dead in H.
  assert (R : forall d2 r, d_slab d2 = d_slab d -> replace id r d2 = Ok (tt, d2)).
  { intros d2 r E. unfold replace. now rewrite E, H. }
  assert (I : forall s, exists k d2, insert_str hash s d = Ok (k, d2) /\ d_slab d2 = d_slab d).
  { intros s. unfold insert_str. destruct (assoc (hash s) (d_strings d)) as [s'|]; [destruct (beq s s')|]; eauto. }
  assert (G : get_raw d id = Panic) by (unfold get_raw, get_entry; now rewrite H).
  assert (ST : forall s (f : sid -> raw sid), exists d2, done (bind (bind (insert_str hash s) (fun x => ret (f x))) (replace id)) d = Ok (Done, d2) /\ d_slab d2 = d_slab d).
  { intros s f. destruct (I s) as (k & d2 & E & E2). exists d2. unfold done, bind, ret. rewrite E. rewrite (R d2 _ E2). auto. }
  destruct e; cbn [run]; try (left; unfold on_mapping, on_sequence, Api.handle, make_mapping, make_sequence, done, set_block, new_block, bind, read;
    rewrite G; reflexivity); right; try (apply ST).
  destruct k.
  - destruct (I kw_null) as (k & d2 & E & E2). exists d2. unfold done, set_null, bind, ret. rewrite E, (R d2 _ E2). auto.
  - exists d. unfold done, set_null, bind, ret. rewrite (R d _ eq_refl). auto.
  - exists d. unfold done, set_null, bind, ret. rewrite (R d _ eq_refl). auto.
Qed.
Lemma live_ids hash doc t suf x : models hash doc t suf -> ~ dead (doc_data doc) x <-> In x (ids t).
Proof.
  intros ((H & _) & _). rewrite <- (cells_ids hash t None). unfold dead. split.
  - intros D. destruct (slab_get (d_slab (doc_data doc)) x) as [e|] eqn:E; [|congruence]. apply (has_get_in _ _ _ _ H) in E.
    apply in_map_iff. exists (x, e). auto.
  - intros I. apply in_map_iff in I as ([y e] & E & I). cbn in E. subst y. rewrite (has_get _ _ _ _ H I). discriminate.
Qed.
Lemma root_ids v : In (tid v) (ids v). Proof. destruct v; now left. Qed.
Lemma mids_sub it w : sub (snd it) w -> In (tid w) (mids it).
Proof. destruct it as [[[ii ip] key] v]. intros S. right. now apply sub_ids. Qed.
Lemma sids_sub it w : sub (snd it) w -> In (tid w) (sids it).
Proof. destruct it as [[ii ip] v]. intros S. right. now apply sub_ids. Qed.
Lemma in_flat {A B} (f : A -> list B) l a x : In a l -> In x (f a) -> In x (flat_map f l).
Proof. intros I J. apply in_flat_map. eauto. Qed.
(* A value of the edited value whose id is still in use is still there. *)
Lemma effect_gone c v e r v' : effect c v e r v' -> NoDup (ids v) -> forall w, sub v w -> In (tid w) (ids v') ->
  exists w', sub v' w' /\ tid w' = tid w.
Proof.
  intros F N w S X.
  assert (one : ids v' = [tid v'] -> exists w', sub v' w' /\ tid w' = tid w).
  { intros E. rewrite E in X. destruct X as [X|[]]. exists v'. split; [constructor|exact X]. }
  destruct F as [e sc _ _ _| |n p _ _| |n p _ _|e sc key s h v' _ _ F|key x v' F|i p n k items ->
    |e sc s h v' _ _ F|x y v' F|i p n k items ->|e _ _|e _ _]; try (now apply one); try (exists w; now split).
  - destruct F as [i p n k l ii ip kk v r EK FL|i p n k items ii vi FL].
    + apply sub_map_inv in S as [->|(it & J & S)]; [eexists; split; [constructor|reflexivity]|].
      apply in_app_or in J as [J|[<-|J]].
      * exists w. split; [|reflexivity]. eapply sub_of_mitem; [|exact S]. apply in_or_app. now left.
      * cbn [snd] in S. rewrite ids_map, flat_map_app in N, X. cbn [flat_map mids ids] in N, X.
        destruct (Nat.eq_dec (tid w) (tid v)) as [E|NE].
        { exists (TLeaf (tid v) (tpre v) sc). split; [|now symmetry]. eapply sub_map; [constructor|]. apply in_or_app. right. now left. }
        exfalso. apply sub_ids in S.
        assert (N2 : NoDup ((i :: flat_map mids l ++ [ii]) ++ ids v ++ flat_map mids r)).
        { cbn [app]. rewrite <- !app_assoc. exact N. }
        apply (nodup_mid _ _ _ N2 _ S). cbn [app]. destruct X as [X|X]; [now left|]. right. rewrite <- app_assoc. apply in_or_app.
        apply in_app_or in X as [X|[X|[X|X]]]; [now left|right; now left| congruence|right; now right].
      * exists w. split; [|reflexivity]. eapply sub_of_mitem; [|exact S]. apply in_or_app. right. now right.
    + apply sub_map_inv in S as [->|(it & J & S)]; [eexists; split; [constructor|reflexivity]|].
      exists w. split; [|reflexivity]. eapply sub_of_mitem; [|exact S]. apply in_or_app. now left.
  - destruct F as [i p n k l it0 r EK FL|i p n k items FL]; [|exists w; now split].
    apply sub_map_inv in S as [->|(it & J & S)]; [eexists; split; [constructor|reflexivity]|].
    apply in_app_or in J as [J|[<-|J]].
    + exists w. split; [|reflexivity]. eapply sub_of_mitem; [|exact S]. apply in_or_app. now left.
    + exfalso. rewrite ids_map, flat_map_app in N, X. cbn [flat_map] in N. apply mids_sub in S.
      assert (N2 : NoDup ((i :: flat_map mids l) ++ mids it0 ++ flat_map mids r)) by exact N.
      apply (nodup_mid _ _ _ N2 _ S). cbn [app]. exact X.
    + exists w. split; [|reflexivity]. eapply sub_of_mitem; [|exact S]. apply in_or_app. now right.
  - destruct F as [i p n k items ii vi].
    apply sub_seq_inv in S as [->|(it & J & S)]; [eexists; split; [constructor|reflexivity]|].
    exists w. split; [|reflexivity]. eapply sub_of_sitem; [|exact S]. apply in_or_app. now left.
  - destruct F as [i p n k l it0 r EK|i p n k items FL]; [|exists w; now split].
    apply sub_seq_inv in S as [->|(it & J & S)]; [eexists; split; [constructor|reflexivity]|].
    apply in_app_or in J as [J|[<-|J]].
    + exists w. split; [|reflexivity]. eapply sub_of_sitem; [|exact S]. apply in_or_app. now left.
    + exfalso. rewrite ids_seq, flat_map_app in N, X. cbn [flat_map] in N. apply sids_sub in S.
      assert (N2 : NoDup ((i :: flat_map sids l) ++ sids it0 ++ flat_map sids r)) by exact N.
      apply (nodup_mid _ _ _ N2 _ S). cbn [app]. exact X.
    + exists w. split; [|reflexivity]. eapply sub_of_sitem; [|exact S]. apply in_or_app. now right.
Qed.
(* A value that an edit removes has no slot any more. *)
Theorem C09_removed_dead_partial : forall hash doc id e r d' x,
  built hash doc -> value_of doc id -> run hash id e (doc_data doc) = Ok (r, d') -> no_collision hash d' ->
  value_of doc x -> ~ value_of (edited doc d') x -> dead d' x.
Proof.
  intros hash doc id e r d' x B V E N VX NV.
  destruct (edit_setup hash _ _ doc id e r d' B V E N) as (c & v & v' & suf & ST).
  assert (M := st_m ST). assert (M' := st_m' ST).
  destruct (slab_get (d_slab d') x) as [en|] eqn:G; [|exact G]. exfalso.
  assert (L : In x (ids (plug c v'))). { apply (live_ids hash _ _ _ _ M'). unfold dead. cbn. rewrite G. discriminate. }
  destruct (value_sub _ _ _ _ _ M VX) as (w & S & <-).
  assert (SC : sub (plug c v) w -> sub v w \/ exists w', sub (plug c v') w' /\ tid w' = tid w).
  { intros SW. destruct (sub_plug_cases hash c v w SW) as [K|[(c1 & c2 & -> & _ & ->)|[K _]]]; auto.
    - right. exists (plug c2 v'). split; [rewrite plug_comp; apply sub_plug|]. destruct c2; [|reflexivity..]. cbn. rewrite (st_id ST). exact (st_id' ST).
    - right. exists w. auto. }
  destruct (SC S) as [K|(w' & S' & T)].
  - pose proof (ctx_nodup hash _ _ _ _ M) as ND. apply (Permutation_in _ (ids_plug c v')) in L. apply in_app_or in L as [L|L].
    + eapply nodup_app_disj; [exact ND|exact L|]. now apply sub_ids.
    + apply nodup_app_r in ND. destruct (effect_gone _ _ _ _ _ (st_eff ST) ND _ K L) as (w' & S' & T).
      apply NV. rewrite <- T. apply (sub_value _ _ _ _ _ M'). eapply sub_trans; [apply sub_plug|exact S'].
  - apply NV. rewrite <- T. exact (sub_value _ _ _ _ _ M' S').
Qed.
(* Calls other than the inserting ones leave dead ids dead; an inserting call revives at most the
   id that it returns and the id of the new item, which the API does not give out. *)
Theorem C09_dead_stays_partial : forall hash doc id e r d' x,
  built hash doc -> value_of doc id -> run hash id e (doc_data doc) = Ok (r, d') -> no_collision hash d' ->
  dead (doc_data doc) x -> r <> Handle x -> ~ value_of (edited doc d') x.
Proof.
  intros hash doc id e r d' x B V E N D NR VX.
  destruct (edit_setup hash _ _ doc id e r d' B V E N) as (c & v & v' & suf & ST).
  assert (M := st_m ST). assert (M' := st_m' ST).
  assert (L : ~ In x (ids (plug c v))). { intros L. apply (live_ids hash _ _ _ _ M) in L. contradiction. }
  destruct (value_sub _ _ _ _ _ M' VX) as (w & S & <-). apply L.
  assert (LW : forall u, sub (plug c v) u -> tid u = tid w -> In (tid w) (ids (plug c v))) by (intros u U <-; now apply sub_ids).
  destruct (sub_plug_cases hash c v' w S) as [K|[(c1 & c2 & -> & _ & ->)|[K _]]].
  - destruct (effect_sub _ _ _ _ _ (st_eff ST) w K) as [->|[->|K2]].
    + apply (LW v); [apply sub_plug|]. rewrite (st_id ST). symmetry. exact (st_id' ST).
    + contradiction.
    + apply (LW w); [|reflexivity]. eapply sub_trans; [apply sub_plug|exact K2].
  - apply (LW (plug c2 v)); [rewrite plug_comp; apply sub_plug|]. destruct c2; [|reflexivity..]. cbn. rewrite (st_id ST). symmetry. exact (st_id' ST).
  - apply (LW w); [apply K|reflexivity].
Qed.
Print Assumptions C09_dead_reads.
Print Assumptions C09_dead_writes.
Print Assumptions C09_removed_dead_partial.
Print Assumptions C09_dead_stays_partial.
Example C09_case :
  let d1 := after [K (b "list")] (RemoveIndex 1) in
  dead d1 (id_of [K (b "list"); I 1]) /\ dead d1 (id_of [K (b "list"); I 1; I 0]) /\
  as_any d1 (id_of [K (b "list"); I 1]) = Panic.
Proof.
  intros d1. assert (D : dead d1 (id_of [K (b "list"); I 1])) by (vm_compute; reflexivity).
  split; [exact D|]. split; [vm_compute; reflexivity|]. now apply C09_dead_reads.
Qed.

(* ---- C14 ---- *)
Inductive iter_op := ONext | ONextBack | ONth (n : nat) | ONthBack (n : nat).
(* What the calls give on a list of entries, and the entries left. For nth_back this is what the
   crate does, not what the standard library asks for: it acts as nth. *)
Definition take {A} (o : iter_op) (l : list A) : option A * list A :=
  match o with
  | ONext => (nth_error l 0, tl l)
  | ONextBack => (nth_error (rev l) 0, removelast l)
  | ONth n | ONthBack n => (nth_error l n, skipn (S n) l)
  end.
Fixpoint takes {A} (os : list iter_op) (l : list A) : list (option A) * list A :=
  match os with
  | [] => ([], l)
  | o :: os => let '(x, l1) := take o l in let '(xs, l2) := takes os l1 in (x :: xs, l2)
  end.
(* The same calls on an iterator. *)
Definition map_op (d : data) (o : iter_op) (it : list nat) :=
  match o with ONext => map_next d it | ONextBack => map_next_back d it | ONth n => map_nth d n it | ONthBack n => map_nth_back d n it end.
Definition seq_op (d : data) (o : iter_op) (it : list nat) :=
  match o with ONext => seq_next d it | ONextBack => seq_next_back d it | ONth n => seq_nth d n it | ONthBack n => seq_nth_back d n it end.
Inductive calls {A} (op : iter_op -> list nat -> outcome (option A * list nat)) : list iter_op -> list nat -> list (option A) -> list nat -> Prop :=
| calls_nil it : calls op [] it [] it
| calls_cons o os it x it1 xs it2 : op o it = Ok (x, it1) -> calls op os it1 xs it2 -> calls op (o :: os) it (x :: xs) it2.
Lemma removelast_rev {A} (l : list A) : rev (tl (rev l)) = removelast l.
Proof.
  destruct l as [|a l] using rev_ind; [reflexivity|]. rewrite rev_app_distr. cbn. now rewrite rev_involutive, removelast_last.
Qed.
Section Iter.
Variable A : Type.
Variable item : option nat -> outcome (option A).
Hypothesis item_none : item None = Ok None.
Hypothesis item_some : forall i, item (Some i) <> Ok None.
Local Notation op := (fun o it => iter_step item (match o with ONext => Api.sl_next it | ONextBack => sl_next_back it | ONth n | ONthBack n => sl_nth n it end)).
Definition views (it : list nat) (l : list A) := Forall2 (fun i x => item (Some i) = Ok (Some x)) it l.
Lemma views_nth it l n : views it l -> item (nth_error it n) = Ok (nth_error l n).
Proof. intros V. revert n. induction V; intros [|n]; cbn; auto. Qed.
Lemma views_skipn it l n : views it l -> views (skipn n it) (skipn n l).
Proof. intros V. revert n. induction V; intros [|n]; cbn; try constructor; auto. Qed.
Lemma views_rev it l : views it l -> views (rev it) (rev l).
Proof. induction 1; cbn; [constructor|]. apply Forall2_app; auto. Qed.
Lemma views_op o it l : views it l -> exists it1, op o it = Ok (fst (take o l), it1) /\ views it1 (snd (take o l)).
Proof.
  intros V. destruct o as [| |n|n]; unfold iter_step; cbn.
  - exists (tl it). pose proof (views_nth it l 0 V) as N. destruct it as [|i it]; inversion V; subst; cbn in *; rewrite N; auto.
  - exists (removelast it). pose proof (views_nth _ _ 0 (views_rev it l V)) as N. unfold sl_next_back. rewrite <- !removelast_rev.
    pose proof (views_rev _ _ (views_skipn _ _ 1 (views_rev it l V))) as W.
    destruct (rev it) as [|i r]; cbn in *; rewrite N; auto.
  - exists (skipn (S n) it). rewrite (views_nth it l n V). split; [reflexivity|]. now apply (views_skipn it l (S n)).
  - exists (skipn (S n) it). rewrite (views_nth it l n V). split; [reflexivity|]. now apply (views_skipn it l (S n)).
Qed.
Lemma views_calls os : forall it l, views it l -> exists it2, calls op os it (fst (takes os l)) it2 /\ views it2 (snd (takes os l)).
Proof.
  induction os as [|o os IH]; intros it l V; cbn [takes].
  - exists it. split; [constructor|exact V].
  - destruct (views_op o it l V) as (it1 & E & V1). destruct (take o l) as [x l1]. cbn in *.
    destruct (IH it1 l1 V1) as (it2 & C & V2). destruct (takes os l1) as [xs l2]. cbn in *.
    exists it2. split; [econstructor; eauto|exact V2].
Qed.
Lemma yields_views it l : yields (fun it => iter_step item (Api.sl_next it)) it l -> views it l.
Proof.
  induction 1 as [it it' E|it it' x l E Y IH].
  - destruct it as [|i it]; [constructor|]. unfold iter_step in E. cbn in E. destruct (item (Some i)) as [[x|]| | | |] eqn:EI; try discriminate.
    exfalso. now apply (item_some i).
  - destruct it as [|i it]; unfold iter_step in E; cbn in E; [rewrite item_none in E; discriminate|].
    destruct (item (Some i)) as [o| | | |] eqn:EI; try discriminate. injection E as -> <-. constructor; auto.
Qed.
End Iter.

Lemma map_item_some d i : map_item_opt d (Some i) <> Ok None.
Proof. unfold map_item_opt. destruct (mapping_item d i) as [[k v]| | | |]; try discriminate. destruct (str d (rs_id k)); discriminate. Qed.
Lemma seq_item_some d i : seq_item_opt d (Some i) <> Ok None.
Proof. unfold seq_item_opt. destruct (sequence_item d i); discriminate. Qed.
(* Any series of calls on the iterator of a mapping gives what the same calls give on the list of
   its entries, and size_hint is the number of entries left. *)
Theorem C14_mapping_partial : forall d id it l os, map_iter d id = Ok it -> map_entries d id l ->
  exists it', calls (map_op d) os it (fst (takes os l)) it' /\ iter_len it' = length (snd (takes os l)).
Proof.
  intros d id it l os E (it0 & E0 & Y). rewrite E in E0. injection E0 as <-.
  pose proof (yields_views _ (map_item_opt d) eq_refl (map_item_some d) it l Y) as V.
  destruct (views_calls _ (map_item_opt d) eq_refl os it l V) as (it2 & C & V2). exists it2. split.
  - assert (EQ : forall o x, map_op d o x = iter_step (map_item_opt d) (match o with ONext => Api.sl_next x | ONextBack => sl_next_back x | ONth n | ONthBack n => sl_nth n x end)) by (intros []; reflexivity).
    clear -C EQ. induction C as [|o os it x it1 xs it2 E C IH]; [constructor|]. econstructor; [|exact IH]. rewrite EQ. exact E.
  - unfold iter_len. eapply forall2_len. exact V2.
Qed.
Theorem C14_sequence_partial : forall d id it l os, seq_iter d id = Ok it -> seq_entries d id l ->
  exists it', calls (seq_op d) os it (fst (takes os l)) it' /\ iter_len it' = length (snd (takes os l)).
Proof.
  intros d id it l os E (it0 & E0 & Y). rewrite E in E0. injection E0 as <-.
  pose proof (yields_views _ (seq_item_opt d) eq_refl (seq_item_some d) it l Y) as V.
  destruct (views_calls _ (seq_item_opt d) eq_refl os it l V) as (it2 & C & V2). exists it2. split.
  - assert (EQ : forall o x, seq_op d o x = iter_step (seq_item_opt d) (match o with ONext => Api.sl_next x | ONextBack => sl_next_back x | ONth n | ONthBack n => sl_nth n x end)) by (intros []; reflexivity).
    clear -C EQ. induction C as [|o os it x it1 xs it2 E C IH]; [constructor|]. econstructor; [|exact IH]. rewrite EQ. exact E.
  - unfold iter_len. eapply forall2_len. exact V2.
Qed.
(* Without skipping, the entries come out from both ends, each once and in order. *)
Theorem C14_both_ends : forall A os (l : list A), Forall (fun o => match o with ONth _ | ONthBack _ => False | _ => True end) os ->
  exists front back, l = front ++ snd (takes os l) ++ rev back /\
    (forall x, In (Some x) (fst (takes os l)) <-> In x (front ++ back)) /\
    (length os <= length l -> length (front ++ back) = length os /\ ~ In None (fst (takes os l))).
Proof.
  intros A os. induction os as [|o os IH]; intros l F.
  - exists [], []. cbn. rewrite app_nil_r. repeat split; try tauto; auto.
  - inversion F as [|? ? F1 F2]; subst. cbn [takes]. destruct o as [| |n|n]; [| |contradiction|contradiction].
    + destruct l as [|a l].
      * destruct (IH [] F2) as (fr & ba & E & H & _). cbn. destruct (takes os []) as [xs l2]. cbn in *. exists fr, ba. split; [exact E|]. split.
        -- intros x. rewrite <- H. split; [intros [X|X]; [discriminate|exact X]|auto].
        -- intros L. lia.
      * destruct (IH l F2) as (fr & ba & E & H & L). cbn. destruct (takes os l) as [xs l2]. cbn in *. exists (a :: fr), ba.
        split; [cbn; now f_equal|]. split.
        -- intros x. cbn. rewrite <- H. split; (intros [X|X]; [left; congruence|now right]).
        -- intros LL. destruct L as [L1 L2]; [lia|]. split; [cbn; lia|]. intros [X|X]; [discriminate|contradiction].
    + destruct l as [|a l _] using rev_ind.
      * destruct (IH [] F2) as (fr & ba & E & H & _). cbn. destruct (takes os []) as [xs l2]. cbn in *. exists fr, ba. split; [exact E|]. split.
        -- intros x. rewrite <- H. split; [intros [X|X]; [discriminate|exact X]|auto].
        -- intros L. lia.
      * destruct (IH l F2) as (fr & ba & E & H & L). cbn [take]. rewrite rev_app_distr, removelast_last. cbn.
        destruct (takes os l) as [xs l2]. cbn in *. exists fr, (a :: ba). split; [|split].
        -- cbn. rewrite !app_assoc. f_equal. now rewrite <- app_assoc.
        -- intros x. rewrite in_app_iff. cbn. rewrite H, in_app_iff. split; [intros [X|X]; [injection X as ->|]|intros [X|[X|X]]; subst]; auto; tauto.
        -- intros LL. rewrite !app_length in *. cbn in *. destruct L as [L1 L2]; [lia|]. split; [lia|]. intros [X|X]; [discriminate|contradiction].
Qed.
(* With all four calls in any order, no entry comes out twice or after it was skipped, and an
   iterator that is used up stays so. *)
Definition given {A} (xs : list (option A)) : list A := flat_map (fun x => match x with Some x => [x] | None => [] end) xs.
Lemma take_split {A} o (l : list A) : exists l1 l2, Permutation.Permutation l (l1 ++ given [fst (take o l)] ++ snd (take o l) ++ l2).
Proof.
  assert (N : forall n, exists l1 l2, Permutation.Permutation l (l1 ++ given [nth_error l n] ++ skipn (S n) l ++ l2)).
  { intros n. exists (firstn n l), []. rewrite app_nil_r. clear. revert n. induction l as [|a l IH]; intros [|n]; [constructor|constructor|apply Permutation.Permutation_refl|].
    change (skipn (S (S n)) (a :: l)) with (skipn (S n) l). cbn [firstn nth_error app]. constructor. apply IH. }
  destruct o as [| |n|n]; cbn [take fst snd]; [apply (N 0)| |apply N|apply N].
  exists [], []. rewrite app_nil_r. destruct l as [|a l _] using rev_ind; [constructor|].
    rewrite rev_app_distr, removelast_last. cbn. apply Permutation.Permutation_sym, Permutation.Permutation_cons_append.
Qed.
Theorem C14_once : forall A os (l : list A),
  (exists skipped, Permutation.Permutation l (given (fst (takes os l)) ++ snd (takes os l) ++ skipped)) /\
  (snd (takes os l) = [] -> forall os', given (fst (takes os' (snd (takes os l)))) = [] /\ snd (takes os' (snd (takes os l))) = []).
Proof.
  intros A os l. split.
  - revert l. induction os as [|o os IH]; intros l; cbn [takes]; [exists []; cbn; now rewrite app_nil_r|].
    destruct (take_split o l) as (l1 & l2 & P). destruct (take o l) as [x r]. cbn [fst snd] in P.
    destruct (IH r) as (sk & Q). destruct (takes os r) as [xs r2]. cbn [fst snd] in *.
    exists (sk ++ l1 ++ l2). rewrite P, Q. unfold given. cbn [flat_map]. rewrite app_nil_r, <- !app_assoc.
    set (g := match x with Some x => [x] | None => [] end).
    rewrite (Permutation.Permutation_app_comm l1). rewrite <- !app_assoc.
    do 4 apply Permutation.Permutation_app_head. apply Permutation.Permutation_app_comm.
  - intros ->. induction os' as [|o os' IH]; [auto|]. cbn [takes].
    assert (E : take o (@nil A) = (None, [])) by (destruct o as [| |[|n]|[|n]]; reflexivity).
    rewrite E. destruct (takes os' []) as [xs r]. exact IH.
Qed.
(* What the standard library asks of nth_back, and exactly when the crate meets it. *)
Definition nth_back_law {A} n (l : list A) : option A * list A := (nth_error (rev l) n, firstn (length l - S n) l).
Theorem C14_nth_back_exact : forall A n (l : list A), NoDup l ->
  (take (ONthBack n) l = nth_back_law n l <-> length l <= n \/ (n = 0 /\ length l = 1)).
Proof.
  intros A n l ND. unfold nth_back_law. cbn [take]. split.
  - intros E. injection E as E1 E2. destruct (Nat.le_gt_cases (length l) n) as [L|L]; [now left|]. right.
    destruct (Nat.eq_dec (length l) (S n)) as [LE|LE].
    + destruct l as [|a l]; [cbn in L; lia|]. cbn [length] in LE. injection LE as LE.
      assert (R : nth_error (rev (a :: l)) n = Some a).
      { cbn [rev]. rewrite nth_error_app2 by (rewrite rev_length; lia). rewrite rev_length, LE, Nat.sub_diag. reflexivity. }
      rewrite R in E1. destruct n as [|n]; [split; [reflexivity|cbn; lia]|]. cbn [nth_error] in E1.
      apply nth_error_In in E1. inversion ND; contradiction.
    + exfalso. destruct l as [|a l]; [cbn in L; lia|]. cbn [length] in *.
      replace (S (length l) - S n) with (S (length l - S n)) in E2 by lia. cbn [skipn firstn] in E2.
      inversion ND as [|? ? NI _]; subst. apply NI. rewrite <- (firstn_skipn n l). apply in_or_app. right. rewrite E2. now left.
  - intros [L|[-> L]].
    + assert (H1 : nth_error l n = None) by (apply nth_error_None; lia).
      assert (H2 : nth_error (rev l) n = None) by (apply nth_error_None; rewrite rev_length; lia).
      rewrite H1, H2, skipn_all2 by lia. replace (length l - S n) with 0 by lia. reflexivity.
    + destruct l as [|a [|c l]]; cbn in L; try lia. reflexivity.
Qed.
Print Assumptions C14_mapping_partial.
Print Assumptions C14_sequence_partial.
Print Assumptions C14_both_ends.
Print Assumptions C14_once.
Print Assumptions C14_nth_back_exact.
Example C14_case : exists it', calls (seq_op (doc_data world)) [ONextBack; ONth 1; ONext] (match seq_iter (doc_data world) (id_of [K (b "list")]) with Ok it => it | _ => [] end)
  [Some (id_of [K (b "list"); I 2]); Some (id_of [K (b "list"); I 1]); None] it' /\ iter_len it' = 0.
Proof.
  apply (C14_sequence_partial (doc_data world) (id_of [K (b "list")]) _ [id_of [K (b "list"); I 0]; id_of [K (b "list"); I 1]; id_of [K (b "list"); I 2]] [ONextBack; ONth 1; ONext]).
  - vm_compute. reflexivity.
  - exact entries_list.
Qed.
Example C14_once_case : takes [ONthBack 0; ONth 1; ONextBack; ONext] [1; 2; 3; 4; 5] = ([Some 1; Some 3; Some 5; Some 4], []) /\
  nth_back_law 0 [1; 2; 3] = (Some 3, [1; 2]) /\ take (ONthBack 0) [1; 2; 3] = (Some 1, [2; 3]).
Proof. repeat split. Qed.

(* ---- C25 ---- *)
(* Looking a string up gives the first string with its hash that was handed to the document. *)
Definition store_all hash (l : list bytes) (d : data) : outcome data :=
  fold_left (fun o s => match o with Ok d => match insert_str hash s d with Ok (_, d') => Ok d' | _ => Panic end | _ => Panic end) l (Ok d).
Definition first_with hash (k : sid) (l : list bytes) : option bytes := List.find (fun s => beq (hash s) k) l.
Lemma assoc_app k l r : assoc k (l ++ r) = match assoc k l with Some x => Some x | None => assoc k r end.
Proof. induction l as [|[k' v] l IH]; cbn; [reflexivity|]. destruct (beq k k'); auto. Qed.
Lemma insert_assoc hash s d : exists d', insert_str hash s d = Ok (hash s, d') /\ d_slab d' = d_slab d /\
  forall k, assoc k (d_strings d') = match assoc k (d_strings d) with Some x => Some x | None => if beq (hash s) k then Some s else None end.
Proof.
  unfold insert_str. destruct (assoc (hash s) (d_strings d)) as [s'|] eqn:E.
  - destruct (beq s s') eqn:E2.
    + exists d. repeat split. intros k. destruct (assoc k (d_strings d)) eqn:E3; [reflexivity|]. destruct (beq (hash s) k) eqn:E4; [|reflexivity].
      apply beq_eq in E4 as <-. congruence.
    + eexists. repeat split. intros k. cbn. rewrite assoc_app. cbn. destruct (assoc k (d_strings d)) eqn:E3; [reflexivity|].
      destruct (beq k (hash s)) eqn:E4; [apply beq_eq in E4 as ->; congruence|]. destruct (beq (hash s) k) eqn:E5; [|reflexivity].
      apply beq_eq in E5 as <-. now rewrite beq_refl in E4.
  - eexists. repeat split. intros k. cbn. destruct (beq k (hash s)) eqn:E4.
    + apply beq_eq in E4 as ->. now rewrite E, beq_refl.
    + destruct (assoc k (d_strings d)); [reflexivity|]. destruct (beq (hash s) k) eqn:E5; [|reflexivity].
      apply beq_eq in E5 as <-. now rewrite beq_refl in E4.
Qed.
Lemma store_all_assoc hash l : forall d, exists d', store_all hash l d = Ok d' /\
  forall k, assoc k (d_strings d') = match assoc k (d_strings d) with Some x => Some x | None => first_with hash k l end.
Proof.
  induction l as [|s l IH]; intros d.
  - exists d. split; [reflexivity|]. intros k. now destruct (assoc k (d_strings d)).
  - destruct (insert_assoc hash s d) as (d1 & E & _ & A). destruct (IH d1) as (d2 & E2 & A2). exists d2. split.
    + unfold store_all in *. cbn [fold_left]. rewrite E. exact E2.
    + intros k. rewrite A2, A. cbn. destruct (assoc k (d_strings d)); [reflexivity|]. destruct (beq (hash s) k); reflexivity.
Qed.
Theorem C25_first_wins : forall hash l s, In s l ->
  exists d, store_all hash l data_empty = Ok d /\ str d (hash s) = match first_with hash (hash s) l with Some x => Ok x | None => Panic end /\
  exists x, str d (hash s) = Ok x /\ hash x = hash s /\ In x l.
Proof.
  intros hash l s I. destruct (store_all_assoc hash l data_empty) as (d & E & A). exists d. split; [exact E|].
  unfold str. rewrite (A (hash s)). cbn. split; [reflexivity|]. unfold first_with. destruct (List.find (fun x => beq (hash x) (hash s)) l) as [x|] eqn:F.
  - apply find_some in F as [F1 F2]. apply beq_eq in F2. eauto.
  - exfalso. apply (find_none _ _ F) in I. now rewrite beq_refl in I.
Qed.
Theorem C25_no_confusion : forall hash l s, In s l -> (forall x y, In x l -> In y l -> hash x = hash y -> x = y) ->
  exists d, store_all hash l data_empty = Ok d /\ str d (hash s) = Ok s.
Proof.
  intros hash l s I C. destruct (C25_first_wins hash l s I) as (d & E & _ & x & E2 & H & J). exists d. split; [exact E|].
  rewrite E2. f_equal. now apply C.
Qed.
(* Whatever a document has stored it keeps, whatever is done with it. *)
Definition keeps {A} (m : D A) : Prop := forall d a d', m d = Ok (a, d') -> forall k x, str d k = Ok x -> str d' k = Ok x.
Lemma keeps_ret {A} (a : A) : keeps (ret a). Proof. intros d a' d' E. injection E as _ <-. auto. Qed.
Lemma keeps_bind {A B} (m : D A) (f : A -> D B) : keeps m -> (forall a, keeps (f a)) -> keeps (bind m f).
Proof.
  intros H K d a' d' E k x S. unfold bind in E. destruct (m d) as [[a d1]| | | |] eqn:E1; try discriminate.
  eapply K; [exact E|]. eapply H; eauto.
Qed.
Lemma keeps_read {A} (f : data -> outcome A) : keeps (read f).
Proof. intros d a d' E. unfold read in E. destruct (f d); try discriminate. injection E as _ <-. auto. Qed.
Lemma keeps_fail {A} (o : outcome (A * data)) : (forall a d, o <> Ok (a, d)) -> keeps (fail o).
Proof. intros H d a d' E. now apply H in E. Qed.
Lemma keeps_strings {A} (m : D A) : (forall d a d', m d = Ok (a, d') -> d_strings d' = d_strings d) -> keeps m.
Proof. intros H d a d' E k x. unfold str. now rewrite (H _ _ _ E). Qed.
Lemma keeps_intern hash s : keeps (insert_str hash s).
Proof.
  intros d a d' E k x. destruct (insert_assoc hash s d) as (d1 & E1 & _ & A). rewrite E in E1. injection E1 as _ <-.
  unfold str. rewrite A. now destruct (assoc k (d_strings d)).
Qed.
Lemma keeps_insert r p q : keeps (insert r p q).
Proof. apply keeps_strings. intros d a d' E. unfold insert in E. destruct (slab_insert _ _) as [[]|]; [|discriminate]. now injection E as _ <-. Qed.
Lemma keeps_set_raw i r : keeps (set_raw i r).
Proof. apply keeps_strings. intros d a d' E. unfold set_raw in E. destruct (slab_get _ _); [|discriminate]. now injection E as _ <-. Qed.
Lemma drop_all_strings f l : (forall r d a d', f r d = Ok (a, d') -> d_strings d' = d_strings d) ->
  forall d a d', drop_all f l d = Ok (a, d') -> d_strings d' = d_strings d.
Proof.
  intros H. induction l as [|i l IH]; intros d a d' E; cbn in E; [now injection E as _ <-|].
  unfold bind, drop_id in E. destruct (slab_try_remove (d_slab d) i) as [[e s]|].
  - destruct (f (e_raw e) (set_slab d s)) as [[u d1]| | | |] eqn:E1; try discriminate. apply H in E1. apply IH in E. now rewrite E, E1.
  - now apply IH in E.
Qed.
Lemma drop_kind_strings f : forall r d a d', drop_kind_f f r d = Ok (a, d') -> d_strings d' = d_strings d.
Proof.
  induction f as [|f IH]; intros r d a d' E; [discriminate|]. cbn in E.
  destruct r as [|ind k items|k v|ind k items|v]; try (now injection E as _ <-); try (now apply (drop_all_strings _ _ IH) in E);
    unfold drop_value in E; destruct (slab_try_remove (d_slab d) v) as [[e s]|]; try discriminate; now apply IH in E.
Qed.
Lemma keeps_drop i : keeps (drop i).
Proof.
  apply keeps_strings. intros d a d' E. unfold drop, drop_id in E. destruct (slab_try_remove _ _) as [[e s]|]; [|now injection E as _ <-].
  now apply drop_kind_strings in E.
Qed.
Lemma keeps_replace i r : keeps (replace i r).
Proof.
  apply keeps_strings. intros d a d' E. unfold replace in E. destruct (slab_get _ _); [|now injection E as _ <-]. now apply drop_kind_strings in E.
Qed.
Lemma keeps_replace_with i p r : keeps (replace_with i p r).
Proof.
  apply keeps_strings. intros d a d' E. unfold replace_with in E. destruct (slab_get _ _); [|now injection E as _ <-]. now apply drop_kind_strings in E.
Qed.
Lemma keeps_drop_items l : keeps (drop_items l).
Proof. induction l; [apply keeps_ret|]. apply keeps_bind; auto using keeps_drop. Qed.
Ltac keep := repeat match goal with
  | |- keeps (bind _ _) => apply keeps_bind; [|intros ?]
  | |- keeps (ret _) => apply keeps_ret
  | |- keeps (read _) => apply keeps_read
  | |- keeps (insert_str _ _) => apply keeps_intern
  | |- keeps (insert _ _ _) => apply keeps_insert
  | |- keeps (set_raw _ _) => apply keeps_set_raw
  | |- keeps (drop _) => apply keeps_drop
  | |- keeps (replace _ _) => apply keeps_replace
  | |- keeps (replace_with _ _ _) => apply keeps_replace_with
  | |- keeps (drop_items _) => apply keeps_drop_items
  | |- keeps (fail _) => apply keeps_fail; discriminate
  | |- keeps (match ?x with _ => _ end) => destruct x
  end.
Section KeepApi.
Variable hash : bytes -> sid.
Lemma keeps_make_indent i n : keeps (make_indent hash i n). Proof. unfold make_indent. keep. Qed.
Lemma keeps_new_block i ps k : keeps (new_block hash i ps k). Proof. unfold new_block. keep. Qed.
Lemma keeps_inner_insert i k s v : keeps (inner_insert hash i k s v). Proof. unfold inner_insert, map_push. keep. Qed.
Lemma keeps_inner_push i s v : keeps (inner_push hash i s v). Proof. unfold inner_push, seq_push. keep. Qed.
End KeepApi.
Ltac keep2 := repeat (keep; match goal with
  | |- keeps (make_indent _ _ _) => apply keeps_make_indent
  | |- keeps (new_block _ _ _ _) => apply keeps_new_block
  | |- keeps (inner_insert _ _ _ _ _) => apply keeps_inner_insert
  | |- keeps (inner_push _ _ _ _) => apply keeps_inner_push
  end); keep.
Theorem C25_edits : forall hash id e d r d', run hash id e d = Ok (r, d') -> forall k x, str d k = Ok x -> str d' k = Ok x.
Proof.
  intros hash id e. change (keeps (run hash id e)).
  destruct e; cbn [run]; unfold on_mapping, on_sequence, done, Api.handle, Api.removed.
  all: unfold set_null, set_string, set_string_with, set_block, set_bool, set_int, set_number, make_mapping, make_sequence,
    map_insert, map_insert_str, map_insert_block, map_insert_bool, map_insert_number, map_remove, map_clear,
    seq_push_null, seq_push_string, seq_push_block, seq_push_bool, seq_push_number, seq_remove, seq_clear,
    new_string, new_string_with, new_bool, new_number, panic.
  all: keep2.
Qed.
Print Assumptions C25_first_wins.
Print Assumptions C25_no_confusion.
Print Assumptions C25_edits.
(* A hash that takes the length only: the first of two strings of the same length wins. *)
Example C25_collision_case : exists d, store_all (fun s => [N.of_nat (length s)]) [b "ab"; b "c"; b "cd"] data_empty = Ok d /\
  str d [2%N] = Ok (b "ab") /\ str d [1%N] = Ok (b "c").
Proof. eexists. split; [vm_compute; reflexivity|]. split; vm_compute; reflexivity. Qed.

(* ---- C23 ---- *)
(* If the value is a number, its text parses at the type that the document records for it (the
   128-bit types end in an error of serde). *)
Definition own_type F (pf : hint -> bytes -> option F) (d : data) (id : nat) : Prop :=
  match as_number d id with
  | Ok (Some (s, h)) =>
    match h with
    | Float32 | Float64 => pf h s <> None
    | Unsigned128 | Signed128 => True
    | _ => as_int d h id <> Ok None
    end
  | _ => True
  end.
Section De.
Variable F : Type.
Variable pf : hint -> bytes -> option F.
Variable d : data.
Variable id : nat.
Local Notation de_step := (de_step F pf d id).
Local Notation dispatch := (dispatch F pf d).
(* The value is readable and not an item. *)
Definition seen : Prop := exists r, get_raw d id = Ok r /\
  match r with
  | RScalar (ScNum s _) => exists x, str d s = Ok x
  | RScalar (ScStr s) => exists x, str d (rs_id s) = Ok x
  | RMapItem _ _ | RSeqItem _ => False
  | _ => True
  end.
Lemma any_step : seen -> (exists c, de_step QAny = Ok (Visit F c)) \/
  (exists s h, as_number d id = Ok (Some (s, h)) /\ de_step QAny = Ok (Again F (req_of_hint h)) /\
    as_float F pf d h id = Ok (pf h s) /\ exists o, as_int d h id = Ok o).
Proof.
  intros (r & E & H). cbn [Serde.de_step]. unfold de_any, as_float, as_int, as_number. rewrite E.
  destruct r as [[n|v s|s h|s]| | | |]; try (left; eexists; reflexivity).
  - right. destruct H as [x H]. rewrite H. exists x, h. split; [reflexivity|]. split; [reflexivity|]. split; [reflexivity|]. eauto.
  - left. destruct H as [x H]. rewrite H. eauto.
Qed.
Lemma other_step q : seen -> (exists c, de_step q = Ok (Visit F c)) \/ de_step q = Ok (Again F QAny) \/ q = QAny.
Proof.
  intros (r & E & H). destruct q as [| |h|h| | | | |]; cbn [Serde.de_step]; auto;
    unfold or_any, as_bool, as_int, as_float, as_number, as_str, as_bstr, as_sequence, as_mapping, seq_iter, map_iter, Data.sequence, Data.mapping; rewrite ?E;
    try (destruct r as [[n|v s|s h'|s]| | | |]; try (destruct H as [x H]; rewrite H); eauto; fail).
  - destruct h; eauto; destruct r as [[n|v s|s h'|s]| | | |]; try (destruct H as [x H]; rewrite H); eauto;
      match goal with |- context [match ?p with Some _ => Visit _ _ | None => _ end] => destruct p; eauto end.
  - destruct r as [[n|v s|s h'|s]| | | |]; try (destruct H as [x H]; rewrite H); eauto.
    match goal with |- context [match ?p with Some _ => Visit _ _ | None => _ end] => destruct p; eauto end.
  - destruct r as [[n|v s|s h'|s]| | | |]; try (destruct H as [x H]; rewrite H); eauto. destruct (utf8 x); eauto.
Qed.
Lemma own_any : seen -> own_type F pf d id -> exists c, dispatch 2 id QAny = Ok c.
Proof.
  intros S O. destruct (any_step S) as [[c E]|(s & h & N & E & FL & o & IN)].
  - exists c. cbn [Serde.dispatch]. now rewrite E.
  - cbn [Serde.dispatch]. rewrite E. unfold own_type in O. rewrite N in O.
    destruct h; cbn [req_of_hint Serde.de_step]; eauto; unfold or_any; rewrite ?FL, ?IN in *;
      try (destruct o as [z|]; [eauto|congruence]); destruct (pf _ s); eauto; congruence.
Qed.
Lemma own_all q : seen -> own_type F pf d id -> exists c, dispatch 3 id q = Ok c.
Proof.
  intros S O. destruct (own_any S O) as [c C]. destruct (other_step q S) as [[c' E]|[E| ->]].
  - exists c'. cbn [Serde.dispatch]. now rewrite E.
  - exists c. change (dispatch 3 id q) with (match de_step q with Ok (Visit _ c) => Ok c | Ok (Again _ q) => dispatch 2 id q | Err a b e => Err a b e | Hang => Hang | Panic => Panic | OutOfFuel => OutOfFuel end).
    rewrite E. exact C.
  - destruct (any_step S) as [[c' E]|(s & h & N & E & _)]; cbn [Serde.dispatch] in *; rewrite E in *; eauto.
    destruct (de_step (req_of_hint h)) as [[c'|q]| | | |]; eauto; discriminate.
Qed.
Lemma not_own : seen -> ~ own_type F pf d id -> forall f, dispatch f id QAny = OutOfFuel.
Proof.
  intros S O. destruct (any_step S) as [[c E]|(s & h & N & E & FL & o & IN)].
  - exfalso. apply O. unfold own_type. destruct S as (r & R & H). cbn in E. unfold de_any, as_number in *. rewrite R in *.
    destruct r as [[n|v s|s h|s]| | | |]; auto. discriminate.
  - unfold own_type in O. rewrite N in O.
    assert (G : de_step (req_of_hint h) = Ok (Again F QAny)).
    { destruct h; cbn [req_of_hint Serde.de_step]; unfold or_any; rewrite ?FL, ?IN in *; try tauto;
        try (destruct o as [z|]; [exfalso; apply O; discriminate|reflexivity]);
        destruct (pf _ s); [exfalso; apply O; discriminate|reflexivity|exfalso; apply O; discriminate|reflexivity]. }
    assert (K : forall f, dispatch f id QAny = OutOfFuel /\ dispatch f id (req_of_hint h) = OutOfFuel).
    { induction f as [|f [IH1 IH2]]; [split; reflexivity|]. cbn [Serde.dispatch]. rewrite E, G. auto. }
    apply K.
Qed.
End De.
Lemma built_seen hash doc id : built hash doc -> no_collision hash (doc_data doc) -> value_of doc id -> seen (doc_data doc) id.
Proof.
  intros B N V. destruct (built_models _ _ _ _ B) as (t & suf & M). pose proof (models_int _ _ _ _ M N) as F.
  destruct (value_sub _ _ _ _ _ M V) as (v & S & <-). destruct M as (M & _). exists (traw hash v).
  split; [now apply (sub_raw hash _ _ _ M)|]. pose proof (sub_strings hash _ _ _ M v S) as SS.
  rewrite Forall_forall in F.
  destruct v as [i p [n|x s|s h|r]| |]; cbn; auto.
  - exists s. apply interned_str, F, SS. cbn. right. now left.
  - exists (rs_id r). apply interned_str, F, SS. cbn. right. unfold rs_strings. apply in_or_app. right. now left.
Qed.
(* Deserialization returns exactly when a number parses at its own type. *)
Theorem C23_terminates_partial : forall F pf hash doc id q, built hash doc -> no_collision hash (doc_data doc) -> value_of doc id ->
  own_type F pf (doc_data doc) id -> exists c, dispatch F pf (doc_data doc) 3 id q = Ok c.
Proof. intros F pf hash doc id q B N V O. apply own_all; [|exact O]. eapply built_seen; eauto. Qed.
Theorem C23_loops_otherwise : forall F pf hash doc id, built hash doc -> no_collision hash (doc_data doc) -> value_of doc id ->
  ~ own_type F pf (doc_data doc) id -> forall f, dispatch F pf (doc_data doc) f id QAny = OutOfFuel.
Proof. intros F pf hash doc id B N V O. apply not_own; [|exact O]. eapply built_seen; eauto. Qed.
Print Assumptions C23_terminates_partial.
Print Assumptions C23_loops_otherwise.
Example C23_case : forall F pf q, exists c, dispatch F pf (doc_data world) 3 (id_of [K (b "text"); K (b "n")]) q = Ok c.
Proof.
  intros F pf q. apply (C23_terminates_partial F pf idhash world).
  - exact world_built.
  - apply id_no_collision.
  - apply (walk_value world [K (b "text"); K (b "n")]). vm_compute. reflexivity.
  - vm_compute. discriminate.
Qed.

(* ---- C24 ---- *)
Inductive mirrors F (pf : hint -> bytes -> option F) (d : data) : nat -> ser F -> Prop :=
| mi_null id : as_any d id = Ok ANull -> mirrors F pf d id (SNone F)
| mi_bool id v : as_any d id = Ok (ABool v) -> mirrors F pf d id (SBool F v)
| mi_str id s : as_any d id = Ok (AString s) -> utf8 s = true -> mirrors F pf d id (SStr F s)
| mi_bytes id s : as_any d id = Ok (AString s) -> utf8 s = false -> mirrors F pf d id (SBytes F s)
| mi_int id s h z : as_any d id = Ok (ANumber s h) -> as_int d h id = Ok (Some z) -> mirrors F pf d id (SInt F h z)
| mi_float id s h x : as_any d id = Ok (ANumber s h) -> int_range h = None -> pf h s = Some x -> mirrors F pf d id (SFloat F h x)
| mi_other id s h : as_any d id = Ok (ANumber s h) -> as_int d h id = Ok None -> (int_range h = None -> pf h s = None) ->
    mirrors F pf d id (SNone F)
| mi_seq id id' l xs : as_any d id = Ok (ASequence id') -> seq_entries d id l -> mirror_all F pf d l xs ->
    mirrors F pf d id (SSeq F (length l) xs)
| mi_map id id' l xs : as_any d id = Ok (AMapping id') -> map_entries d id l -> mirror_pairs F pf d l xs ->
    mirrors F pf d id (SMap F (length l) xs)
with mirror_all F (pf : hint -> bytes -> option F) (d : data) : list nat -> list (ser F) -> Prop :=
| ma_nil : mirror_all F pf d [] []
| ma_cons id x l xs : mirrors F pf d id x -> mirror_all F pf d l xs -> mirror_all F pf d (id :: l) (x :: xs)
with mirror_pairs F (pf : hint -> bytes -> option F) (d : data) : list (bytes * nat) -> list (bool * bytes * ser F) -> Prop :=
| mp_nil : mirror_pairs F pf d [] []
| mp_cons key id x l xs : mirrors F pf d id x -> mirror_pairs F pf d l xs ->
    mirror_pairs F pf d ((key, id) :: l) ((utf8 key, key, x) :: xs).
Section Ser.
Variable F : Type.
Variable pf : hint -> bytes -> option F.
Variable hash : bytes -> sid.
Variable doc : document.
Variable t : tree nat.
Hypothesis X : models_at hash None (doc_data doc) t.
Hypothesis FI : Forall (interned hash (doc_data doc)) (strings t).
Local Notation d := (doc_data doc).
Local Notation ok v s f0 := (forall f, f0 <= f -> serialize F pf d f (tid v) = Ok s).
Lemma ser_leaf i p sc : sub t (TLeaf i p sc) -> exists s, ok (TLeaf i p sc) s 1 /\ mirrors F pf d i s.
Proof.
  intros S. pose proof (node_any hash _ _ _ X FI _ S) as A. pose proof (sub_raw hash _ _ _ X _ S) as R.
  cbn [tid traw scmap tany] in *.
  assert (str_ok : forall x, In x (strings (TLeaf i p sc)) -> str d (hash x) = Ok x).
  { intros x J. exact (sub_interned hash _ _ _ X FI _ _ S J). }
  destruct sc as [n|v s|s h|r]; cbn [scmap] in R.
  - exists (SNone F). split; [|now apply mi_null]. intros [|f] L; [lia|]. cbn [serialize]. now rewrite R.
  - exists (SBool F v). split; [|now apply mi_bool]. intros [|f] L; [lia|]. cbn [serialize]. now rewrite R.
  - assert (NU : as_number d i = Ok (Some (s, h))).
    { unfold as_number. rewrite R. rewrite str_ok; [reflexivity|]. cbn. auto. }
    assert (FL : as_float F pf d h i = Ok (pf h s)) by (unfold as_float; now rewrite NU).
    assert (IN : exists o, as_int d h i = Ok o /\ (int_range h = None -> o = None)).
    { unfold as_int. rewrite R, str_ok by (cbn; auto). destruct (int_range h) as [[? ?]|]; eexists; split; try reflexivity; discriminate. }
    destruct IN as (o & IN & IR).
    destruct (int_range h) as [ra|] eqn:H.
    + destruct o as [z|].
      * exists (SInt F h z). split; [|eapply mi_int; eauto]. intros [|f] L; [lia|]. cbn [serialize]. rewrite R. unfold ser_number. rewrite IN. destruct h; try reflexivity; discriminate.
      * exists (SNone F). split; [|eapply mi_other; eauto; congruence]. intros [|f] L; [lia|]. cbn [serialize]. rewrite R. unfold ser_number. rewrite IN. destruct h; try reflexivity; discriminate.
    + destruct (pf h s) as [x|] eqn:P.
      * exists (SFloat F h x). split; [|eapply mi_float; eauto]. intros [|f] L; [lia|]. cbn [serialize]. rewrite R. unfold ser_number. rewrite FL. destruct h; try discriminate; reflexivity.
      * exists (SNone F). split; [|eapply mi_other; eauto]. 2:{ now rewrite <- IR. } intros [|f] L; [lia|]. cbn [serialize]. rewrite R. unfold ser_number. rewrite FL. destruct h; try discriminate; reflexivity.
  - assert (Q : str d (rs_id (rsmap hash r)) = Ok (rs_id r)).
    { cbn [rsmap rs_id]. apply str_ok. cbn. right. unfold rs_strings. apply in_or_app. right. now left. }
    destruct (utf8 (rs_id r)) eqn:U; [exists (SStr F (rs_id r))|exists (SBytes F (rs_id r))]; (split; [|now constructor]);
      (intros [|f] L; [lia|]); cbn [serialize]; rewrite R, Q, U; reflexivity.
Qed.
Lemma tree_serialize : forall v, sub t v -> exists s f0, ok v s f0 /\ mirrors F pf d (tid v) s.
Proof.
  induction v as [i p s|i p n k items IH|i p n k items IH] using tree_ind'; intros S.
  - destruct (ser_leaf _ _ _ S) as (x & A & B). exists x, 1. auto.
  - pose proof (node_any hash _ _ _ X FI _ S) as A. pose proof (sub_raw hash _ _ _ X _ S) as R. cbn [tid traw tany] in *.
    assert (G : forall l, incl l items -> exists xs f0, (forall f, f0 <= f -> ser_map F d (serialize F pf d f) (map mitem_id l) = Ok xs) /\
      mirror_pairs F pf d (map mview l) xs).
    { induction l as [|[[[ii ip] key] v] l IHl]; intros I.
      - exists [], 0. split; [reflexivity|constructor].
      - destruct IHl as (xs & f1 & E1 & M1). { intros y Y. apply I. now right. }
        assert (J := I _ (or_introl eq_refl)). rewrite Forall_forall in IH.
        destruct (IH _ J) as (x & f2 & E2 & M2). { eapply sub_map; eauto. }
        exists ((utf8 (rs_id key), rs_id key, x) :: xs), (f1 + f2). split.
        + intros f L. cbn [map ser_map mitem_id fst snd]. rewrite (sub_map_item hash _ _ _ X _ _ _ _ _ _ _ _ _ S J).
          cbn [rsmap rs_id snd] in *. rewrite (sub_interned hash _ _ _ X FI _ (rs_id key) S); [rewrite E2, E1 by lia; reflexivity|].
          cbn. right. apply in_or_app. right. apply in_flat_map. exists (ii, ip, key, v). split; [exact J|]. right.
          apply in_or_app. left. unfold rs_strings. apply in_or_app. right. now left.
        + cbn [map mview]. now constructor. }
    destruct (G items (incl_refl _)) as (xs & f0 & E & M). exists (SMap F (length (map mview items)) xs), (1 + f0). split.
    + intros [|f] L; [lia|]. cbn [serialize]. rewrite R. rewrite E by lia. now rewrite !map_length.
    + eapply mi_map; eauto. exact (node_entries hash _ _ _ X FI _ _ _ _ _ S).
  - pose proof (node_any hash _ _ _ X FI _ S) as A. pose proof (sub_raw hash _ _ _ X _ S) as R. cbn [tid traw tany] in *.
    assert (G : forall l, incl l items -> exists xs f0, (forall f, f0 <= f -> ser_seq F d (serialize F pf d f) (map sitem_id l) = Ok xs) /\
      mirror_all F pf d (map sview l) xs).
    { induction l as [|[[ii ip] v] l IHl]; intros I.
      - exists [], 0. split; [reflexivity|constructor].
      - destruct IHl as (xs & f1 & E1 & M1). { intros y Y. apply I. now right. }
        assert (J := I _ (or_introl eq_refl)). rewrite Forall_forall in IH.
        destruct (IH _ J) as (x & f2 & E2 & M2). { eapply sub_seq; eauto. }
        exists (x :: xs), (f1 + f2). split.
        + intros f L. cbn [map ser_seq sitem_id fst snd]. rewrite (sub_seq_item hash _ _ _ X _ _ _ _ _ _ _ _ S J).
          cbn [snd] in *. rewrite E2, E1 by lia. reflexivity.
        + cbn [map sview]. now constructor. }
    destruct (G items (incl_refl _)) as (xs & f0 & E & M). exists (SSeq F (length (map sview items)) xs), (1 + f0). split.
    + intros [|f] L; [lia|]. cbn [serialize]. rewrite R. rewrite E by lia. now rewrite !map_length.
    + eapply mi_seq; eauto. exact (node_sentries hash _ _ _ X _ _ _ _ _ S).
Qed.
End Ser.
(* Serializing any value of any document terminates, and the calls mirror what the reading
   API shows of it: same kinds, same entries in order, keys and texts unchanged. *)
Theorem C24_mirrors : forall F pf hash doc id, built hash doc -> no_collision hash (doc_data doc) -> value_of doc id ->
  exists s f0, (forall f, f0 <= f -> serialize F pf (doc_data doc) f id = Ok s) /\ mirrors F pf (doc_data doc) id s.
Proof.
  intros F pf hash doc id B N V. destruct (built_models _ _ _ _ B) as (t & suf & M). pose proof (models_int _ _ _ _ M N) as FI.
  destruct (value_sub _ _ _ _ _ M V) as (v & S & <-). destruct M as (M & _). eapply tree_serialize; eauto.
Qed.
Print Assumptions C24_mirrors.
Example C24_case : exists s f0, (forall f, f0 <= f -> serialize unit (fun _ _ => None) (doc_data world) f (doc_root world) = Ok s) /\
  mirrors unit (fun _ _ => None) (doc_data world) (doc_root world) s.
Proof.
  apply (C24_mirrors unit (fun _ _ => None) idhash world); [exact world_built|apply id_no_collision|].
  apply (walk_value world []). vm_compute. reflexivity.
Qed.

(* ---- C36 ---- *)
(* What deserialize_any tells the visitor about a value that as_any shows as a. *)
Definition any_call F (pf : hint -> bytes -> option F) (d : data) (id : nat) (a : any) (c : call F) : Prop :=
  match a with
  | ANull => c = VNone F
  | ABool v => c = VBool F v
  | AString s => c = if utf8 s then VStr F s else VBytes F s
  | ANumber s h =>
    match h with
    | Unsigned128 | Signed128 => c = VError F
    | Float32 | Float64 => exists x, pf h s = Some x /\ c = VFloat F h x
    | _ => exists z, as_int d h id = Ok (Some z) /\ c = VInt F h z
    end
  | AMapping _ => exists it, map_iter d id = Ok it /\ c = VMap F it
  | ASequence _ => exists it, seq_iter d id = Ok it /\ c = VSeq F it
  | ARaw _ => False
  end.
Definition wide (h : hint) : Prop := h = Unsigned128 \/ h = Signed128.
(* What the other methods tell: a number at the type asked for if it parses so, a string as
   bytes, null as the absent option; else the same. *)
Inductive presents F (pf : hint -> bytes -> option F) (d : data) (id : nat) : req -> any -> call F -> Prop :=
| pr_any q a c : In q [QAny; QBool; QStr; QSeq; QMap] -> any_call F pf d id a c -> presents F pf d id q a c
| pr_int h s h' z : ~ wide h -> as_int d h id = Ok (Some z) -> presents F pf d id (QInt h) (ANumber s h') (VInt F h z)
| pr_no_int h a c : ~ wide h -> as_int d h id = Ok None -> any_call F pf d id a c -> presents F pf d id (QInt h) a c
| pr_wide h a : wide h -> presents F pf d id (QInt h) a (VError F)
| pr_float h s h' x : pf h s = Some x -> presents F pf d id (QFloat h) (ANumber s h') (VFloat F h x)
| pr_no_float h a c : (forall s h', a = ANumber s h' -> pf h s = None) -> any_call F pf d id a c -> presents F pf d id (QFloat h) a c
| pr_bytes s : presents F pf d id QBytes (AString s) (VBytes F s)
| pr_no_bytes a c : (forall s, a <> AString s) -> any_call F pf d id a c -> presents F pf d id QBytes a c
| pr_none : presents F pf d id QOption ANull (VNone F)
| pr_some a : a <> ANull -> presents F pf d id QOption a (VSome F).
Section Present.
Variable F : Type.
Variable pf : hint -> bytes -> option F.
Variable d : data.
Variable id : nat.
Local Notation dispatch := (dispatch F pf d).
Local Notation de_step := (de_step F pf d id).
Lemma any_presents : seen d id -> own_type F pf d id ->
  exists a c, as_any d id = Ok a /\ (forall x, a <> ARaw x) /\ dispatch 2 id QAny = Ok c /\ any_call F pf d id a c.
Proof.
  intros (r & E & H) O. unfold own_type, as_number, as_any in *. cbn [Serde.dispatch Serde.de_step]. unfold de_any. rewrite E in *.
  destruct r as [[n|v s|s h|s]|n k l| |n k l|]; try contradiction.
  - exists ANull, (VNone F). repeat split; discriminate.
  - exists (ABool v), (VBool F v). repeat split; discriminate.
  - destruct H as [x H]. rewrite H in *.
    assert (FL : as_float F pf d h id = Ok (pf h x)) by (unfold as_float, as_number; now rewrite E, H).
    assert (IN : exists o, as_int d h id = Ok o) by (unfold as_int; rewrite E, H; eauto). destruct IN as [o IN].
    destruct h; cbn [req_of_hint Serde.de_step any_call]; unfold or_any; rewrite ?FL, ?IN in *;
      try (destruct o as [z|]; [|congruence]); try (destruct (pf _ x) as [y|] eqn:P; [|congruence]);
      (eexists; eexists; split; [reflexivity|]; split; [discriminate|]; split; [reflexivity|]; cbn [any_call]; eauto).
  - destruct H as [x H]. rewrite H. exists (AString x), (if utf8 x then VStr F x else VBytes F x). repeat split; discriminate.
  - exists (AMapping id), (VMap F l). repeat split; try discriminate. exists l. unfold map_iter, Data.mapping. now rewrite E.
  - exists (ASequence id), (VSeq F l). repeat split; try discriminate. exists l. unfold seq_iter, Data.sequence. now rewrite E.
Qed.
Lemma req_presents q : seen d id -> own_type F pf d id ->
  exists a c, as_any d id = Ok a /\ dispatch 3 id q = Ok c /\ presents F pf d id q a c.
Proof.
  intros S O. destruct (any_presents S O) as (a & c & A & NR & C & P).
  assert (ANY : de_step q = Ok (Again F QAny) -> dispatch 3 id q = Ok c).
  { intros Q. change (dispatch 3 id q) with (match de_step q with Ok (Visit _ c) => Ok c | Ok (Again _ q) => dispatch 2 id q | Err a b e => Err a b e | Hang => Hang | Panic => Panic | OutOfFuel => OutOfFuel end).
    rewrite Q. exact C. }
  assert (NOW : forall c', de_step q = Ok (Visit F c') -> dispatch 3 id q = Ok c').
  { intros c' Q. change (dispatch 3 id q) with (match de_step q with Ok (Visit _ c) => Ok c | Ok (Again _ q) => dispatch 2 id q | Err a b e => Err a b e | Hang => Hang | Panic => Panic | OutOfFuel => OutOfFuel end).
    now rewrite Q. }
  exists a. destruct (any_accessors _ _ _ A NR) as (_ & BS & ST & BO & NU & MA & SE).
  destruct S as (r & E & H).
  assert (RAW : match a with ANull => exists n, r = RScalar (ScNull n) | _ => forall n, r <> RScalar (ScNull n) end).
  { unfold as_any in A. rewrite E in A. destruct r as [[n|v s|s h|s]| | | |]; try contradiction;
      try (destruct H as [x H]; rewrite H in A); injection A as <-; eauto; discriminate. }
  destruct q as [| |h|h| | | | |].
  - exists c. split; [exact A|]. split.
    + cbn [Serde.dispatch] in C |- *. destruct (de_step QAny) as [[c'|q]|? ? ?| | |]; try discriminate; [exact C|].
      destruct (de_step q) as [[c'|q']|? ? ?| | |]; try discriminate. exact C.
    + apply pr_any; [now left|exact P].
  - exists c. split; [exact A|]. split; [|apply pr_any; [right; now left|exact P]]. cbn [Serde.de_step] in *. unfold or_any in *. rewrite BO in *.
    destruct a; auto. cbn in P. subst c. now apply NOW.
  - assert (W : wide h \/ ~ wide h) by (unfold wide; destruct h; auto; right; intros [?|?]; discriminate).
    destruct W as [W|W].
    { exists (VError F). split; [exact A|]. split; [|now apply pr_wide]. apply NOW. destruct W as [-> | ->]; reflexivity. }
    assert (D : de_step (QInt h) = or_any F (VInt F h) (as_int d h id)) by (destruct h; try reflexivity; elim W; [now left|now right]).
    assert (IN : exists o, as_int d h id = Ok o /\ (o <> None -> exists s h', a = ANumber s h')).
    { unfold as_int. rewrite E. unfold as_any in A. rewrite E in A. destruct r as [[n|v s|s h'|s]| | | |]; try (exists None; split; [reflexivity|congruence]).
      destruct H as [x H]. rewrite H in *. injection A as <-. eauto. }
    destruct IN as ([z|] & IN & K).
    + exists (VInt F h z). split; [exact A|]. split; [apply NOW; rewrite D; unfold or_any; now rewrite IN|].
      destruct K as (s & h' & ->); [discriminate|]. now apply pr_int.
    + exists c. split; [exact A|]. split; [apply ANY; rewrite D; unfold or_any; now rewrite IN|]. now apply pr_no_int.
  - cbn [Serde.de_step] in *. unfold or_any, as_float in *. rewrite NU in *.
    destruct a as [|v|s h'|s| | |]; try (exists c; split; [exact A|]; split; [now apply ANY|]; apply pr_no_float; [congruence|exact P]).
    destruct (pf h s) as [x|] eqn:Q.
    + exists (VFloat F h x). split; [exact A|]. split; [now apply NOW|now apply pr_float].
    + exists c. split; [exact A|]. split; [now apply ANY|]. apply pr_no_float; [|exact P]. intros s0 h0 J. injection J as <- <-. exact Q.
  - exists c. split; [exact A|]. split; [|apply pr_any; [right; right; now left|exact P]]. cbn [Serde.de_step] in *. unfold or_any in *. rewrite ST in *.
    destruct a as [|v|s h'|s| | |]; auto. cbn [any_call] in P. destruct (utf8 s); [|auto]. subst c. now apply NOW.
  - cbn [Serde.de_step] in *. unfold or_any in *. rewrite BS in *.
    destruct a as [|v|s h'|s| | |]; try (exists c; split; [exact A|]; split; [now apply ANY|]; apply pr_no_bytes; [congruence|exact P]).
    exists (VBytes F s). split; [exact A|]. split; [now apply NOW|]. apply pr_bytes.
  - cbn [Serde.de_step] in *. rewrite E in *.
    destruct a as [|v|s h'|s| | |]; try (exists (VSome F); split; [exact A|]; split; [|apply pr_some; discriminate];
      apply NOW; destruct r as [[n|v0 s0|s0 h0|s0]| | | |]; try reflexivity; now elim (RAW n)).
    exists (VNone F). split; [exact A|]. split; [|apply pr_none]. destruct RAW as [n ->]. now apply NOW.
  - exists c. split; [exact A|]. split; [|apply pr_any; [right; right; right; now left|exact P]]. cbn [Serde.de_step] in *. rewrite SE in *.
    destruct a as [|v|s h'|s| | |]; auto. destruct P as (it & I & ->). rewrite I in *. now apply NOW.
  - exists c. split; [exact A|]. split; [|apply pr_any; [right; right; right; right; now left|exact P]]. cbn [Serde.de_step] in *. rewrite MA in *.
    destruct a as [|v|s h'|s| | |]; auto. destruct P as (it & I & ->). rewrite I in *. now apply NOW.
Qed.
End Present.
(* Each method of the Deserializer tells the visitor what the accessors show. *)
Theorem C36_presents : forall F pf hash doc id q, built hash doc -> no_collision hash (doc_data doc) -> value_of doc id ->
  own_type F pf (doc_data doc) id ->
  exists a c, as_any (doc_data doc) id = Ok a /\ dispatch F pf (doc_data doc) 3 id q = Ok c /\ presents F pf (doc_data doc) id q a c.
Proof. intros F pf hash doc id q B N V O. apply req_presents; [|exact O]. eapply built_seen; eauto. Qed.
(* What such a visitor gathers, in terms of the accessors. *)
Inductive gathers F (pf : hint -> bytes -> option F) (d : data) : nat -> gathered F -> Prop :=
| ga_null id : as_any d id = Ok ANull -> gathers F pf d id (GNone F)
| ga_bool id v : as_any d id = Ok (ABool v) -> gathers F pf d id (GBool F v)
| ga_str id s : as_any d id = Ok (AString s) -> utf8 s = true -> gathers F pf d id (GStr F s)
| ga_bytes id s : as_any d id = Ok (AString s) -> utf8 s = false -> gathers F pf d id (GBytes F s)
| ga_int id s h z : as_any d id = Ok (ANumber s h) -> as_int d h id = Ok (Some z) -> gathers F pf d id (GInt F h z)
| ga_float id s h x : as_any d id = Ok (ANumber s h) -> pf h s = Some x -> h = Float32 \/ h = Float64 -> gathers F pf d id (GFloat F h x)
| ga_seq id id' l xs : as_any d id = Ok (ASequence id') -> seq_entries d id l -> gather_all F pf d l xs -> gathers F pf d id (GSeq F xs)
| ga_map id id' l xs : as_any d id = Ok (AMapping id') -> map_entries d id l -> gather_pairs F pf d l xs -> gathers F pf d id (GMap F xs)
with gather_all F (pf : hint -> bytes -> option F) (d : data) : list nat -> list (gathered F) -> Prop :=
| gl_nil : gather_all F pf d [] []
| gl_cons id x l xs : gathers F pf d id x -> gather_all F pf d l xs -> gather_all F pf d (id :: l) (x :: xs)
with gather_pairs F (pf : hint -> bytes -> option F) (d : data) : list (bytes * nat) -> list (bytes * gathered F) -> Prop :=
| gp_nil : gather_pairs F pf d [] []
| gp_cons key id x l xs : gathers F pf d id x -> gather_pairs F pf d l xs -> gather_pairs F pf d ((key, id) :: l) ((key, x) :: xs).
Definition narrow (d : data) (id : nat) : Prop := forall s h, as_number d id = Ok (Some (s, h)) -> ~ wide h.
Section Gather.
Variable F : Type.
Variable pf : hint -> bytes -> option F.
Variable d : data.
Local Notation ok id g f0 := (forall f, f0 <= f -> gather F pf d f id = Ok (Some g)).
Lemma dispatch_more f q id c : dispatch F pf d f id q = Ok c -> forall f', f <= f' -> dispatch F pf d f' id q = Ok c.
Proof.
  revert q. induction f as [|f IH]; intros q H f' L; [discriminate|]. destruct f' as [|f']; [lia|]. cbn [Serde.dispatch] in *.
  destruct (de_step F pf d id q) as [[c'|q']|? ? ?| | |]; try discriminate; [exact H|]. apply IH; [exact H|lia].
Qed.
Lemma draw_all it l : yields (seq_next d) it l -> Forall (fun v => exists g f0, ok v g f0 /\ gathers F pf d v g) l ->
  exists xs f0, (forall f f', f0 <= f -> f0 <= f' -> draw_seq F d (gather F pf d f) f' it = Ok (Some xs)) /\ gather_all F pf d l xs.
Proof.
  induction 1 as [it it' E|it it' v l E Y IH]; intros H.
  - exists [], 1. split; [|constructor]. intros f [|f'] _ L; [lia|]. cbn [draw_seq]. now rewrite E.
  - apply Forall_cons_iff in H as [(g & f1 & H1 & G1) H]. destruct (IH H) as (xs & f2 & H2 & G2).
    exists (g :: xs), (S (f1 + f2)). split; [|now constructor]. intros f [|f'] L L'; [lia|]. cbn [draw_seq]. rewrite E.
    rewrite H1, H2 by lia. reflexivity.
Qed.
Lemma draw_pairs it l : yields (map_next d) it l -> Forall (fun kv => exists g f0, ok (snd kv) g f0 /\ gathers F pf d (snd kv) g) l ->
  forall o, exists xs f0, (forall f f', f0 <= f -> f0 <= f' -> draw_map F d (gather F pf d f) f' (it, o) = Ok (Some xs)) /\ gather_pairs F pf d l xs.
Proof.
  induction 1 as [it it' E|it it' [k v] l E Y IH]; intros H o.
  - exists [], 1. split; [|constructor]. intros f [|f'] _ L; [lia|]. cbn [draw_map]. unfold next_key. cbn [fst snd]. now rewrite E.
  - apply Forall_cons_iff in H as [(g & f1 & H1 & G1) H]. destruct (IH H None) as (xs & f2 & H2 & G2). cbn [snd] in *.
    exists ((k, g) :: xs), (S (f1 + f2)). split; [|now constructor]. intros f [|f'] L L'; [lia|]. cbn [draw_map]. unfold next_key. cbn [fst snd]. rewrite E.
    cbn [next_value fst snd]. rewrite H1, H2 by lia. reflexivity.
Qed.
End Gather.
(* A self-describing type receives exactly the data that the reading API shows. *)
Theorem C36_gathers : forall F pf hash doc id, built hash doc -> no_collision hash (doc_data doc) -> value_of doc id ->
  (forall x, value_of doc x -> own_type F pf (doc_data doc) x /\ narrow (doc_data doc) x) ->
  exists g f0, (forall f, f0 <= f -> gather F pf (doc_data doc) f id = Ok (Some g)) /\ gathers F pf (doc_data doc) id g.
Proof.
  intros F pf hash doc id B N V O. destruct (built_models _ _ _ _ B) as (t & suf & M). pose proof (models_int _ _ _ _ M N) as FI.
  destruct (value_sub _ _ _ _ _ M V) as (v & S & <-). clear V. assert (MM := M). destruct M as (M & _).
  induction v as [i p sc|i p n k items IH|i p n k items IH] using tree_ind'; cbn [tid] in *.
  all: pose proof (sub_value _ _ _ _ _ MM S) as VV; destruct (O _ VV) as [OV NV]; cbn [tid] in *.
  all: destruct (any_presents F pf (doc_data doc) i (built_seen _ _ _ B N VV) OV) as (a & c & A & NR & C & P).
  all: pose proof (node_any hash _ _ _ M FI _ S) as A'; cbn [tid] in A'; rewrite A in A'; injection A' as ->.
  all: assert (G : forall f, 3 <= f -> gather F pf (doc_data doc) f i = match c with
    | VNone _ => Ok (Some (GNone F)) | VSome _ | VError _ => Ok None | VBool _ v => Ok (Some (GBool F v))
    | VInt _ h z => Ok (Some (GInt F h z)) | VFloat _ h x => Ok (Some (GFloat F h x))
    | VStr _ s => Ok (Some (GStr F s)) | VBytes _ s => Ok (Some (GBytes F s))
    | VSeq _ it => match draw_seq F (doc_data doc) (gather F pf (doc_data doc) (f - 1)) (f - 1) it with Ok xs => Ok (option_map (GSeq F) xs)
        | Err x y e => Err x y e | Hang => Hang | Panic => Panic | OutOfFuel => OutOfFuel end
    | VMap _ it => match draw_map F (doc_data doc) (gather F pf (doc_data doc) (f - 1)) (f - 1) (it, None) with Ok xs => Ok (option_map (GMap F) xs)
        | Err x y e => Err x y e | Hang => Hang | Panic => Panic | OutOfFuel => OutOfFuel end
    end) by (intros [|f] L; [lia|]; cbn [gather]; rewrite (dispatch_more F pf _ _ _ _ _ C f) by lia; rewrite Nat.sub_1_r; reflexivity).
  - destruct sc as [nu|v s|s h|r]; cbn [tany any_call] in *.
    + subst c. exists (GNone F), 3. split; [exact G|]. now apply ga_null.
    + subst c. exists (GBool F v), 3. split; [exact G|]. now apply ga_bool.
    + assert (NW : ~ wide h). { apply (NV s). destruct (any_accessors _ _ _ A NR) as (_ & _ & _ & _ & NU & _). exact NU. }
      unfold wide in NW.
      destruct h; try (elim NW; auto; fail);
      destruct P as (z & Z1 & ->);
      (eexists; exists 3; split; [exact G|]); solve [eapply ga_int; eauto|eapply ga_float; eauto].
    + destruct (utf8 (rs_id r)) eqn:U; subst c; (eexists; exists 3; split; [exact G|]); now constructor.
  - cbn [tany any_call] in P. destruct P as (it & I & ->).
    destruct (node_entries hash _ _ _ M FI _ _ _ _ _ S) as (it' & I' & Y). rewrite I in I'. injection I' as <-.
    destruct (draw_pairs F pf _ _ _ Y) with (o := @None nat) as (xs & f0 & D & GP).
    + apply Forall_forall. intros [k' v'] J. apply in_map_iff in J as ([[[ii ip] key] v] & E & J). injection E as <- <-. cbn [snd].
      rewrite Forall_forall in IH. apply (IH _ J). eapply sub_map; eauto.
    + exists (GMap F xs), (3 + f0). split.
      * intros f L. rewrite G by lia. rewrite D by lia. reflexivity.
      * eapply ga_map; eauto. exists it. auto.
  - cbn [tany any_call] in P. destruct P as (it & I & ->).
    destruct (node_sentries hash _ _ _ M _ _ _ _ _ S) as (it' & I' & Y). rewrite I in I'. injection I' as <-.
    destruct (draw_all F pf _ _ _ Y) as (xs & f0 & D & GP).
    + apply Forall_forall. intros v' J. apply in_map_iff in J as ([[ii ip] v] & <- & J).
      rewrite Forall_forall in IH. apply (IH _ J). eapply sub_seq; eauto.
    + exists (GSeq F xs), (3 + f0). split.
      * intros f L. rewrite G by lia. rewrite D by lia. reflexivity.
      * eapply ga_seq; eauto. exists it. auto.
Qed.
Print Assumptions C36_presents.
Print Assumptions C36_gathers.
Definition small : document := got (load (b "a: 'x'
b: [true, 2]
")).
Lemma small_built : built idhash small.
Proof. apply built_parse with (b "a: 'x'
b: [true, 2]
"); [exact Logic.I|]. vm_compute. reflexivity. Qed.
Lemma small_root : value_of small (doc_root small).
Proof. apply (walk_value small []). vm_compute. reflexivity. Qed.
Lemma no_slot d x o : length (sl_entries (d_slab d)) <= x -> as_number d x <> Ok o.
Proof.
  intros L. apply nth_error_None in L. unfold as_number, get_raw, get_entry, slab_get. rewrite L. discriminate.
Qed.
Lemma small_numbers x s h : as_number (doc_data small) x = Ok (Some (s, h)) -> h = Unsigned64 /\ x = 8.
Proof.
  intros H. assert (L : x < 9).
  { apply Nat.nle_gt. intros L. exact (no_slot (doc_data small) x _ L H). }
  do 9 (destruct x as [|x]; [vm_compute in H; try discriminate H; injection H as _ <-; now split|]). lia.
Qed.
Example C36_case : exists g f0, (forall f, f0 <= f -> gather unit (fun _ _ => None) (doc_data small) f (doc_root small) = Ok (Some g)) /\
  gathers unit (fun _ _ => None) (doc_data small) (doc_root small) g.
Proof.
  apply (C36_gathers unit (fun _ _ => None) idhash small _ small_built (id_no_collision _) small_root).
  intros x _. pose proof (small_numbers x) as S. split.
  - unfold own_type. destruct (as_number (doc_data small) x) as [[[s h]|]| | | |]; auto.
    destruct (S s h eq_refl) as (-> & ->). vm_compute. discriminate.
  - intros s h E. destruct (S s h E) as (-> & _). intros [?|?]; discriminate.
Qed.
Example C36_value_case : gather unit (fun _ _ => None) (doc_data small) 20 (doc_root small) =
  Ok (Some (GMap unit [(b "a", GStr unit (b "x")); (b "b", GSeq unit [GBool unit true; GInt unit Unsigned64 2%Z])])).
Proof. vm_compute. reflexivity. Qed.
Example C36_request_case : exists c, dispatch unit (fun _ _ => None) (doc_data small) 3 (doc_root small) QMap = Ok c /\
  exists it, map_iter (doc_data small) (doc_root small) = Ok it /\ c = VMap unit it.
Proof.
  destruct (C36_presents unit (fun _ _ => None) idhash small _ QMap small_built (id_no_collision _) small_root) as (a & c & A & D & P).
  - vm_compute. exact Logic.I.
  - exists c. split; [exact D|]. vm_compute in A. injection A as <-. inversion P as [q a' c' _ H| | | | | | | | |]; subst. exact H.
Qed.
