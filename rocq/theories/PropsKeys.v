(* What the keys of mappings are in the cases that C26 and C32 have wrong. *)
From Coq Require Import String.
From Coq Require Import List NArith ZArith Bool Arith Lia.
From Verif Require Import Bytes Utf8 Data Parser Render Tree Abs Refine Utf8Props Scan Num Api Ctx Edit Built Reads ReadsSound
  Shown Plain Grammar Laid GrammarSound Tests Refuted PropsParse PropsEdit PropsColl PropsValue PropsScalar PropsText Valid Lexed Means PropsMeans.
Import ListNotations.
Local Open Scope N_scope.
Local Notation text := Utf8Props.text.

(* ---- C32: the last key ---- *)
Definition empty_leaf (w : bytes) : tree unit := TLeaf tt w (ScStr (RS KBare [] [])).
Lemma empty_reads n pre w : layout w -> vreads (Some n) pre (empty_leaf w) [].
Proof.
  intros L. apply V_value; cbn [tpre wtree empty_leaf].
  - now apply layout_end.
  - apply R_leaf. change (ScStr (RS KBare [] [])) with (a_plain []). now apply L_plain.
Qed.
Definition rest_reads (y : bytes) (l : list (bytes * datum)) : Prop :=
  exists items, mtext items = y /\ msee items = l /\
  forall pre ip key v, vreads (Some O) (pre ++ wstr key ++ [COLON]) v y -> mreads 0 pre ((tt, ip, key, v) :: items) [] [].
Definition value_reads (t : bytes) (d : datum) (y : bytes) : Prop :=
  exists v, tpre v ++ wtree v = t /\ see v = d /\ breaks (t ++ y) /\ forall pre, vreads (Some O) pre v y.
Lemma rest_nil : rest_reads [] [].
Proof. exists []. split; [reflexivity|]. split; [reflexivity|]. intros pre ip key v V. apply M_last; [exact V|now right]. Qed.
Lemma rest_cons k t d y l : plain_key k -> value_reads t d y -> rest_reads y l -> rest_reads ([NEWLINE] ++ k ++ b ":" ++ t ++ y) ((k, d) :: l).
Proof.
  intros K (v & T & S & B & V) (items & Y & SL & M). exists ((tt, [NEWLINE], RS KBare k k, v) :: items). split; [|split].
  - rewrite mtext_cons, Y, <- T. change (wstr (RS KBare k k)) with k. now rewrite <- !app_assoc.
  - cbn [msee map]. rewrite S. f_equal. exact SL.
  - intros pre ip key v0 V0. apply M_cons.
    + rewrite Y, app_nil_r, (app_assoc (tpre v)), T. exact V0.
    + apply starts_cut; [now apply (newline_closed 0), (line_at 0)|]. apply plain_starts, K.
    + now left.
    + replace (pre ++ wstr key ++ [COLON] ++ tpre v0 ++ wtree v0 ++ [NEWLINE]) with ((pre ++ wstr key ++ [COLON] ++ tpre v0 ++ wtree v0) ++ [NEWLINE]) by (now rewrite <- !app_assoc).
      apply newline_col, (line_at 0).
    + rewrite Y, app_nil_r, (app_assoc (tpre v)), T. now apply plain_later.
    + apply M. apply V.
Qed.
Lemma map_whole hash k t d y l : plain_key k -> value_reads t d y -> rest_reads y l -> doc_start (k ++ b ":" ++ t ++ y) ->
  reads_as_datum hash (k ++ b ":" ++ t ++ y) (DMap ((k, d) :: l)).
Proof.
  intros K (v & T & S & B & V) (items & Y & SL & M) D.
  set (tree := TMap tt [] 0 CBlock ((tt, [], RS KBare k k, v) :: items) : tree unit).
  assert (W : wtree tree = k ++ b ":" ++ t ++ y).
  { unfold tree. rewrite map_text_at, mtext_cons, Y, <- T. cbn [app wstr rs_kind rs_id]. now rewrite <- !app_assoc. }
  assert (R : dreads tree []).
  { split; [|split; [|split]].
    - cbn [tpre tree]. rewrite app_nil_r, W. apply starts_cut; [constructor|]. apply plain_starts, K.
    - rewrite app_nil_r, W. rewrite <- (app_nil_r (k ++ _)). apply headless_layout; [exact D|constructor].
    - apply (R_map None [] [] (RS KBare k k) v items [] []); [exact Logic.I| | |].
      + rewrite Y, app_nil_r, (app_assoc (tpre v)), T. now apply plain_first.
      + split; [reflexivity|now left].
      + apply M. apply V.
    - reflexivity. }
  apply doc_reads with (hash := hash) in R. unfold wdoc in R. cbn [tpre tree] in R. fold tree in R. rewrite W, app_nil_r in R. cbn [app] in R.
  unfold tree in R. cbn [see] in R. change (map _ (_ :: items)) with (msee ((tt, [], RS KBare k k, v) :: items)) in R. cbn [msee map] in R.
  rewrite S in R. fold (msee items) in R. rewrite SL in R. exact R.
Qed.
Lemma ended_value (o : option (bytes * datum)) y : match o with Some (x, d) => line_value x d | None => True end -> ended y ->
  (o = None -> key_follows 0 y) -> value_reads match o with Some (x, _) => b " " ++ x | None => [] end match o with Some (_, d) => d | None => DNull end y.
Proof.
  intros V E N. assert (KV : key_value 0 match o with Some (x, _) => b " " ++ x | None => [] end match o with Some (_, d) => d | None => DNull end y).
  { destruct o as [[x d]|].
    - apply kv_leaf; [apply space_gap|]. now apply line_leaf.
    - apply kv_none. now apply N. }
  apply block_sound in KV as (v & T & S & B & _ & R). exists v. auto.
Qed.
(* The lines behind a line: the entries l, then the key k without a value, then post. *)
Definition more_text (l : list entry) (k post : bytes) : bytes :=
  concat (map (fun e => [NEWLINE] ++ entry_text e) l) ++ [NEWLINE] ++ k ++ b ":" ++ post.
Lemma more_follows l k post : Forall entry_ok l -> plain_key k -> ended post -> key_follows 0 (more_text l k post).
Proof.
  intros F K E. destruct F as [|[k' o'] l [K' V'] F].
  - exists [NEWLINE], O, k, post. split; [reflexivity|]. split; [apply (line_at 0)|]. split; [lia|]. split; [exact K|]. now apply ended_breaks.
  - exists [NEWLINE], O, k', (match o' with Some (x, _) => b " " ++ x | None => [] end ++ more_text l k post). cbn [fst snd] in *.
    split; [|split; [apply (line_at 0)|split; [lia|split; [exact K'|]]]].
    + unfold more_text. cbn [map concat]. unfold entry_text at 1. cbn [fst snd]. now rewrite <- !app_assoc.
    + apply (entry_breaks (k', o')). right. unfold more_text. now destruct l.
Qed.
Lemma more_reads l k post : Forall entry_ok l -> plain_key k -> ended post -> layout post ->
  rest_reads (more_text l k post) (map entry_datum l ++ [(k, DStr [])]).
Proof.
  intros F K E L. induction F as [|[k' o'] l [K' V'] F IH].
  - unfold more_text. cbn [map concat app]. rewrite <- (app_nil_r post). apply (rest_cons k post); [exact K| |exact rest_nil].
    exists (empty_leaf post). split; [cbn; now rewrite app_nil_r|]. split; [reflexivity|]. split; [rewrite app_nil_r; now apply ended_breaks|].
    intros pre. now apply empty_reads.
  - cbn [fst snd] in *.
    assert (EQ : more_text (@cons entry (k', o') l) k post = [NEWLINE] ++ k' ++ b ":" ++ match o' with Some (x, _) => b " " ++ x | None => [] end ++ more_text l k post).
    { unfold more_text. cbn [map concat]. unfold entry_text at 1. cbn [fst snd]. now rewrite <- !app_assoc. }
    rewrite EQ. apply (rest_cons k' _ match o' with Some (_, d) => d | None => DNull end _ (map entry_datum l ++ [(k, DStr [])])); [exact K'| |exact IH].
    apply ended_value; [exact V'|right; unfold more_text; now destruct l|]. intros _. now apply more_follows.
Qed.
(* The case that C32_keys_partial leaves out: the last key has no value either. All other keys are
   as there, and the last one is the empty string, not null. *)
Theorem C32_last_empty : forall hash l k post, Forall entry_ok l -> plain_key k ->
  doc_start (join [NEWLINE] (map entry_text (l ++ [(k, None)])) ++ post) -> ended post -> layout post ->
  reads_as_datum hash (join [NEWLINE] (map entry_text (l ++ [(k, None)])) ++ post) (DMap (map entry_datum l ++ [(k, DStr [])])).
Proof.
  intros hash l k post F K D E L.
  assert (J : forall e l, join [NEWLINE] (map entry_text (e :: l ++ [(k, None)])) ++ post = entry_text e ++ more_text l k post).
  { clear. intros e l. revert e. induction l as [|e' l IH]; intros e.
    - unfold more_text. cbn [map app join concat]. unfold entry_text. cbn [fst snd]. rewrite <- !app_assoc. cbn [app]. now rewrite <- !app_assoc.
    - cbn [app]. change (join [NEWLINE] (map entry_text (e :: e' :: l ++ [(k, None)]))) with (entry_text e ++ [NEWLINE] ++ join [NEWLINE] (map entry_text (e' :: l ++ [(k, None)]))).
      rewrite <- !app_assoc, IH. unfold more_text. cbn [map concat]. now rewrite <- !app_assoc. }
  destruct F as [|[k' o'] l [K' V'] F].
  - clear J. assert (EQ : join [NEWLINE] (map entry_text ([] ++ [(k, None)])) ++ post = k ++ b ":" ++ post ++ []).
    { cbn [app map join]. unfold entry_text. cbn [fst snd]. rewrite app_nil_r, <- !app_assoc. now rewrite app_nil_r. }
    assert (D' : doc_start (k ++ b ":" ++ post ++ [])) by (rewrite <- EQ; exact D).
    cut (reads_as_datum hash (k ++ b ":" ++ post ++ []) (DMap [(k, DStr [])])). { intros R. rewrite <- EQ in R. exact R. }
    apply (map_whole hash k post (DStr []) [] []); [exact K| |exact rest_nil|exact D'].
    exists (empty_leaf post). split; [cbn; now rewrite app_nil_r|]. split; [reflexivity|]. split; [rewrite app_nil_r; now apply ended_breaks|].
    intros pre. now apply empty_reads.
  - cbn [fst snd] in *.
    assert (EQ : join [NEWLINE] (map entry_text ((@cons entry (k', o') l) ++ [(k, None)])) ++ post =
      k' ++ b ":" ++ match o' with Some (x, _) => b " " ++ x | None => [] end ++ more_text l k post).
    { cbn [app]. rewrite J. unfold entry_text. cbn [fst snd]. now rewrite <- !app_assoc. }
    assert (D' : doc_start (k' ++ b ":" ++ match o' with Some (x, _) => b " " ++ x | None => [] end ++ more_text l k post)) by (rewrite <- EQ; exact D).
    cut (reads_as_datum hash (k' ++ b ":" ++ match o' with Some (x, _) => b " " ++ x | None => [] end ++ more_text l k post) (DMap (entry_datum (k', o') :: map entry_datum l ++ [(k, DStr [])]))). { intros R. rewrite <- EQ in R. exact R. }
    apply (map_whole hash k' _ match o' with Some (_, d) => d | None => DNull end _ (map entry_datum l ++ [(k, DStr [])])); [exact K'| |now apply more_reads|exact D'].
    apply ended_value; [exact V'|right; unfold more_text; now destruct l|]. intros _. now apply more_follows.
Qed.
Print Assumptions C32_last_empty.
Example C32_last_case : let l : list entry := [(b "a", None); (b "b", Some (b "1", DNum (b "1") Unsigned64))] in
  join [NEWLINE] (map entry_text (l ++ [(b "c d", None)])) ++ [NEWLINE] = b "a:
b: 1
c d:
" /\ Forall entry_ok l /\ plain_key (b "c d") /\ ended [NEWLINE] /\ layout [NEWLINE] /\
  at_path (load (b "a:
b: 1
c d:
")) [K (b "a")] as_any = Some ANull /\
  at_path (load (b "a:
b: 1
c d:
")) [K (b "c d")] as_any = Some (AString []).
Proof.
  cbn zeta. split; [reflexivity|]. split; [|split; [apply key_checked; reflexivity|split; [now right|split; [|split; vm_compute; reflexivity]]]].
  - repeat (apply Forall_cons; [split; [apply key_checked; reflexivity|try exact Logic.I; apply line_checked; reflexivity]|]). constructor.
  - apply lay_ws; [|constructor]. cbn. auto.
Qed.

(* ---- C26: what the keys are ---- *)
(* The data inside of a datum, itself included. *)
Inductive part_of (x : datum) : datum -> Prop :=
| po_here : part_of x x
| po_item l d : In d l -> part_of x d -> part_of x (DSeq l)
| po_entry l k d : In (k, d) l -> part_of x d -> part_of x (DMap l).
Section Keys.
Variable text : bytes.
(* The key is a part of the text as it is, up to the next colon or NUL. *)
Definition verbatim (s : bytes) : Prop := exists i k, (i <= k < length text)%nat /\ s = slice text i k /\
  ~ In COLON s /\ ~ In 0 s /\ In (nth k text 0) [COLON; 0].
(* The first key of a block mapping may also be what quotes before a colon stand for, and may
   contain colons if it is plain. *)
Definition first_key_of (s : bytes) : Prop := exists i k, (i <= k < length text)%nat /\ nth k text 0 = COLON /\
  (quote_at text i s k \/ s = slice text i k).
Definition keys_ok (l : list bytes) : Prop := match l with [] => True | s :: l => (first_key_of s \/ verbatim s) /\ Forall verbatim l end.
Definition good (d : datum) : Prop := forall l, part_of (DMap l) d -> keys_ok (map fst l).
Definition plain_d (d : datum) : Prop := match d with DSeq _ | DMap _ => False | _ => True end.
Lemma good_plain d : plain_d d -> good d.
Proof. intros P l O. destruct d; try contradiction; inversion O. Qed.
Lemma good_seq l : Forall good l -> good (DSeq l).
Proof. intros F m O. inversion O as [|? d I O' |]; subst. rewrite Forall_forall in F. exact (F d I m O'). Qed.
Lemma good_map l : keys_ok (map fst l) -> Forall (fun e => good (snd e)) l -> good (DMap l).
Proof. intros K F m O. inversion O as [| |? k d I O']; subst; [exact K|]. rewrite Forall_forall in F. exact (F _ I m O'). Qed.
Lemma later_verbatim i s k : later_key_at text i s k -> verbatim s.
Proof. intros (L & E & C & Z & A). exists i, k. repeat split; auto; [lia..|]. rewrite A. now left. Qed.
Lemma flow_verbatim i s k : flow_key_at text i s k -> verbatim s.
Proof. intros (L & E & C & Z & A). exists i, k. repeat split; auto; lia. Qed.
Lemma first_key_is i s k : key_at text i s k -> first_key_of s.
Proof.
  intros [Q C|W L N C E F ->]; exists i, k.
  - assert (k < length text)%nat. { destruct (Nat.lt_ge_cases k (length text)) as [H|H]; [exact H|]. rewrite nth_overflow in C by exact H. discriminate. }
    assert (i <= k)%nat by (inversion Q; lia). auto.
  - auto.
Qed.
Lemma keys_verbatim l : Forall verbatim l -> keys_ok l.
Proof. intros F. destruct F; cbn; auto. Qed.
Lemma means_keys : (forall flow outer i d j, means text flow outer i d j -> good d) /\
  (forall outer i d j, behind text outer i d j -> good d) /\
  (forall c i l j, dashes_at text c i l j -> Forall good l) /\
  (forall c s k l j, pairs_at text c s k l j -> (exists d l', l = (s, d) :: l' /\ Forall verbatim (map fst l')) /\ Forall (fun e => good (snd e)) l) /\
  (forall i d j s, held_at text i d j s -> good d) /\
  (forall n l j, flow_seq_at text n l j -> Forall good l) /\
  (forall n l j, flow_map_at text n l j -> Forall verbatim (map fst l) /\ Forall (fun e => good (snd e)) l) /\
  (forall n s d e, flow_pair_at text n s d e -> verbatim s /\ good d).
Proof.
  apply means_all; intros; try (apply good_plain; exact Logic.I); try (apply good_seq; assumption); auto.
  - apply good_plain. match goal with H : plain_datum _ _ |- _ => destruct H end; exact Logic.I.
  - match goal with H : _ /\ _ |- _ => destruct H as ((d' & l' & -> & V) & G) end. apply good_map; [|exact G]. cbn [map fst keys_ok]. split; [|exact V].
    left. match goal with H : key_at _ _ _ _ |- _ => now apply first_key_is in H end.
  - match goal with H : _ /\ _ |- _ => destruct H as (V & G) end. apply good_map; [|exact G]. now apply keys_verbatim.
  - split; [exists d, []; split; [reflexivity|constructor]|]. repeat constructor. assumption.
  - match goal with H : (exists _ _, _) /\ _ |- _ => destruct H as ((d' & l' & -> & V) & G) end. split.
    + exists d, ((s', d') :: l'). split; [reflexivity|]. cbn [map fst]. constructor; [|exact V]. eapply later_verbatim; eassumption.
    + constructor; assumption.
  - repeat match goal with H : _ /\ _ |- _ => destruct H end. cbn [map fst]. auto.
  - repeat match goal with H : _ /\ _ |- _ => destruct H end. cbn [map fst]. auto.
  - repeat match goal with H : _ /\ _ |- _ => destruct H end. cbn [map fst]. auto.
  - repeat match goal with H : _ /\ _ |- _ => destruct H end. cbn [map fst]. auto.
  - split; [|assumption]. eapply flow_verbatim; eassumption.
Qed.
Lemma stands_keys D : stands_for text D -> good D.
Proof. intros (n & i & j & _ & _ & M & _). exact (proj1 means_keys _ _ _ _ _ M). Qed.
End Keys.

(* Every value of a document shows a datum inside of the datum of the root. *)
Lemma yields_in {A} (g : option nat -> outcome (option A)) it l : yields (fun it => iter_step g (sl_next it)) it l ->
  (forall o, g o = Ok None -> o = None) -> forall i x, In i it -> g (Some i) = Ok (Some x) -> In x l.
Proof.
  intros Y G. induction Y as [it it' E|it it' x l E Y IH]; intros i y I Q; destruct it as [|a it]; try contradiction;
    unfold iter_step, sl_next in E; cbn in E.
  - destruct (g (Some a)) as [[z|]|? ? ?| | |] eqn:R; cbn in E; try discriminate. apply G in R. discriminate.
  - destruct (g (Some a)) as [[z|]|? ? ?| | |] eqn:R; cbn in E; try discriminate. injection E as <- <-.
    destruct I as [-> |I]; [|right; eauto]. left. congruence.
Qed.
Lemma pairs_in d es xs : shows_pairs d es xs -> forall k v, In (k, v) es -> exists x, In (k, x) xs /\ shows d v x.
Proof. induction 1 as [|k i x es xs S P IH]; intros k' v I; [contradiction|]. destruct I as [E|I]; [injection E as <- <-; exists x; split; [now left|exact S]|]. destruct (IH _ _ I) as (y & J & T). exists y. split; [now right|exact T]. Qed.
Lemma all_in d es xs : shows_all d es xs -> forall v, In v es -> exists x, In x xs /\ shows d v x.
Proof. induction 1 as [|i x es xs S P IH]; intros v I; [contradiction|]. destruct I as [<- |I]; [exists x; split; [now left|exact S]|]. destruct (IH _ I) as (y & J & T). exists y. split; [now right|exact T]. Qed.
Lemma pairs_keys d es xs : shows_pairs d es xs -> map fst xs = map fst es.
Proof. induction 1 as [|k i x es xs S P IH]; cbn; [reflexivity|]. now rewrite IH. Qed.
Lemma map_shown d id es x : map_iter d id = Ok es -> shows d id x -> exists xs, x = DMap xs.
Proof.
  unfold map_iter, Data.mapping. intros M S. destruct S as [id A|id v A|id s h A|id s A|id l xs A|id l xs A]; eauto; exfalso; unfold as_any in A;
    destruct (get_raw d id) as [[[]| | | |]|? ? ?| | |]; cbn in M, A; discriminate.
Qed.
Lemma seq_shown d id es x : seq_iter d id = Ok es -> shows d id x -> exists xs, x = DSeq xs.
Proof.
  unfold seq_iter, Data.sequence. intros M S. destruct S as [id A|id v A|id s h A|id s A|id l xs A|id l xs A]; eauto; exfalso; unfold as_any in A;
    destruct (get_raw d id) as [[[]| | | |]|? ? ?| | |]; cbn in M, A; discriminate.
Qed.
Lemma part_trans x y z : part_of x y -> part_of y z -> part_of x z.
Proof. intros H J. induction J as [|l d I J IH|l k d I J IH]; [exact H|now apply (po_item _ l d)|now apply (po_entry _ l k d)]. Qed.
Lemma value_part doc D id : shows (doc_data doc) (doc_root doc) D -> value_of doc id -> exists x, shows (doc_data doc) id x /\ part_of x D.
Proof.
  intros S V. induction V as [|id items it key v V IH M I O|id items it v V IH M I O]; [exists D; split; [exact S|apply po_here]|..];
    destruct IH as (x & X & P).
  - destruct (map_shown _ _ _ _ M X) as (xs & ->). inversion X as [| | | |? es xs' A ME SP|]; subst. destruct ME as (it' & M' & Y).
    rewrite M in M'. injection M' as <-.
    assert (J : In (key, v) es). { eapply (yields_in (map_item_opt (doc_data doc))); [exact Y| |exact I|exact O].
      intros [z|] Q; [|reflexivity]. unfold map_item_opt in Q. destruct (mapping_item (doc_data doc) z) as [[k0 v0]|? ? ?| | |]; cbn in Q; try discriminate.
      destruct (str (doc_data doc) (rs_id k0)); discriminate. }
    destruct (pairs_in _ _ _ SP _ _ J) as (y & J' & T). exists y. split; [exact T|]. eapply part_trans; [|exact P]. apply (po_entry _ xs key y J'), po_here.
  - destruct (seq_shown _ _ _ _ M X) as (xs & ->). inversion X as [| | | | |? es xs' A ME SP]; subst. destruct ME as (it' & M' & Y).
    rewrite M in M'. injection M' as <-.
    assert (J : In v es). { eapply (yields_in (seq_item_opt (doc_data doc))); [exact Y| |exact I|exact O].
      intros [z|] Q; [|reflexivity]. unfold seq_item_opt in Q. destruct (sequence_item (doc_data doc) z); discriminate. }
    destruct (all_in _ _ _ SP _ J) as (y & J' & T). exists y. split; [exact T|]. eapply part_trans; [|exact P]. apply (po_item _ xs y J'), po_here.
Qed.
(* Missing from C26: quoted keys that are not the first of a block mapping. What these are
   instead: every key but the first, and every key of a flow mapping, is a part of the text as it
   is, quotes and escapes included, up to the next colon or NUL. *)
Theorem C26_actual_keys : forall hash input doc id es, from_slice hash input = Ok doc -> no_collision hash (doc_data doc) ->
  value_of doc id -> map_entries (doc_data doc) id es -> keys_ok input (map fst es).
Proof.
  intros hash input doc id es F N V ME. destruct (C47_means hash input doc F) as (D & SF & SH).
  destruct (value_part doc D id (SH N) V) as (x & X & P). pose proof ME as (it & M & _).
  destruct (map_shown _ _ _ _ M X) as (xs & ->). inversion X as [| | | |? es' xs' A ME' SP|]; subst.
  rewrite (map_entries_det _ _ _ _ ME ME'), <- (pairs_keys _ _ _ SP). exact (stands_keys input D SF xs P).
Qed.
Print Assumptions C26_actual_keys.
(* So get finds nothing under what the quotes stand for, unless that is a part of the text
   itself or the first key. *)
Theorem C26_not_found : forall hash input doc id key, from_slice hash input = Ok doc -> no_collision hash (doc_data doc) ->
  value_of doc id -> forall es, map_entries (doc_data doc) id es -> ~ verbatim input key -> (forall v l, es <> (key, v) :: l) ->
  map_get (doc_data doc) id key = Ok None.
Proof.
  intros hash input doc id key F N V es ME NV NF. pose proof (C26_actual_keys _ _ _ _ _ F N V ME) as K.
  destruct (C47_means hash input doc F) as (D & SF & SH).
  destruct (value_part doc D id (SH N) V) as (x & X & P). pose proof ME as (it & M & _).
  destruct (map_shown _ _ _ _ M X) as (xs & ->).
  pose proof (shows_get hash doc id xs (built_parse _ _ _ input doc Logic.I F) N V X key) as G.
  inversion X as [| | | |? es' xs' A ME' SP|]; subst. rewrite <- (map_entries_det _ _ _ _ ME ME') in SP. apply pairs_keys in SP.
  destruct (List.find _ xs) as [[k y]|] eqn:Q; [|exact G]. exfalso. clear G. apply List.find_some in Q as [I E]. apply beq_iff in E as ->.
  assert (IK : In key (map fst es)). { rewrite <- SP. apply (in_map fst) in I. exact I. }
  destruct es as [|[k v] es]; [contradiction|]. cbn [map fst keys_ok In] in *. destruct IK as [-> |IK]; [now elim (NF v es)|].
  destruct K as [_ K]. rewrite Forall_forall in K. apply NV. now apply K.
Qed.
Print Assumptions C26_not_found.
Example C26_actual_case : let input := b "a: 1
'it''s': 2" in
  at_path (load input) [] (fun d id => map_get d id (b "it's")) = Some None /\
  at_path (load input) [K (b "'it''s'")] as_any = Some (ANumber (b "2") Unsigned64) /\
  verbatim input (b "'it''s'") /\ ~ verbatim input (b "it's").
Proof.
  cbn zeta. split; [vm_compute; reflexivity|]. split; [vm_compute; reflexivity|]. split.
  - exists 5%nat, 12%nat. vm_compute. repeat split; try lia; intuition discriminate.
  - intros (i & k & L & E & _). assert (Q : exists j, k = (i + j)%nat) by (exists (k - i)%nat; lia). destruct Q as [j ->].
    do 15 (destruct i as [|i]; [do 15 (destruct j as [|j]; [vm_compute in E; discriminate|]); vm_compute in L; lia|]). vm_compute in L. lia.
Qed.
