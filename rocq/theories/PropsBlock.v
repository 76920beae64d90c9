(* Properties of block scalars written by the API: C22. *)
From Coq Require Import String.
From Coq Require Import List NArith ZArith Bool Arith Lia.
From Verif Require Import Bytes Utf8 Data Parser Render Tree Abs Refine Utf8Props Scan Num Api Ctx Edit Built Reads ReadsSound
  Shown Plain Grammar Laid GrammarSound Tests Refuted PropsParse PropsEdit PropsColl PropsValue PropsScalar PropsScalar2 PropsText.
From Verif Require Import Swap Repost Grow Open Tidy Session Back Check PropsBack PropsMake.
Import ListNotations.
Local Open Scope N_scope.
Local Notation text := Utf8Props.text.
Local Notation block_head := PropsValue.block_head.

(* ---- what is written, and what stands behind it ---- *)
Definition stripped (k : block_kind) : Prop := match k with Literal Strip | Folded Strip => True | _ => False end.
Definition padded (pad : bytes) (parts : list bytes) : bytes := flat_map (fun l => [NEWLINE] ++ pad ++ l) parts.
Definition lines_text (k : block_kind) (pad : bytes) (parts : list bytes) : bytes :=
  block_head k ++ padded pad parts.
(* The line of the block scalar ends, and the next line that is not empty starts at column n. *)
Definition ends_line (k : block_kind) (n : nat) (post : bytes) : Prop := (k = Literal Strip /\ post = []) \/
  exists m t rest, post = newlines m ++ t ++ rest /\ (0 < m)%nat /\ (m = 1%nat \/ stripped k) /\ Forall blank t /\ length t = n /\
    ((rest = [] /\ t = []) \/ (rest <> [] /\ ~ white (hd EOF rest) /\ hd EOF rest <> HASH)).

Lemma pad_newline pad : Forall blank pad -> newline_at (length pad) ([NEWLINE] ++ pad).
Proof.
  intros B. split; [cbn; tauto|]. exists [], pad. split; [reflexivity|]. split; [|split; [exact B|reflexivity]].
  cbn. constructor; [cbn; tauto|constructor].
Qed.
Lemma lines_block folded pad parts : Forall blank pad -> parts <> [] -> Forall block_line parts ->
  exists x, padded pad parts = [NEWLINE] ++ pad ++ x /\
    block_lines folded (length pad) x (joined (if folded then [SPACE] else [NEWLINE]) parts).
Proof.
  intros B NE F. induction parts as [|l [|l' ls] IH]; [congruence| |].
  - inversion F; subst. exists l. split; [cbn; now rewrite app_nil_r|]. now constructor.
  - inversion F as [|? ? L F']; subst. destruct (IH ltac:(discriminate) F') as (x & E & BL). exists (l ++ newlines 1 ++ pad ++ x). split.
    + change (padded pad (l :: l' :: ls)) with (([NEWLINE] ++ pad ++ l) ++ padded pad (l' :: ls)). rewrite E. rewrite <- !app_assoc. reflexivity.
    + change (joined (if folded then [SPACE] else [NEWLINE]) (l :: l' :: ls)) with (l ++ (if folded then [SPACE] else [NEWLINE]) ++ joined (if folded then [SPACE] else [NEWLINE]) (l' :: ls)).
      pose proof (bk_more folded (length pad) l 1 pad x _ L (fun _ => eq_refl) ltac:(lia) B eq_refl BL) as G. now destruct folded.
Qed.
Definition chomping_of (k : block_kind) : chomping := match k with Literal Strip | Folded Strip => CStrip | Literal Keep | Folded Keep => CKeep | _ => CNone end.
Lemma lines_scalar k pad parts n post : Forall blank pad -> parts <> [] -> Forall block_line parts -> ends_line k n post -> (n < length pad)%nat ->
  block_scalar (lines_text k pad parts) (lines_value parts k) post.
Proof.
  intros B NE F EL LT. set (folded := match k with Literal _ => false | Folded _ => true end).
  destruct (lines_block folded pad parts B NE F) as (x & E & BL). unfold lines_text. rewrite E.
  destruct EL as [[-> ->]|(m & t & rest & -> & M & S & BT & <- & R)].
  - pose proof (bs_end CStrip _ _ _ _ (pad_newline pad B) BL) as G. unfold lines_value. rewrite app_nil_r. cbn [joined] in *. rewrite <- app_assoc in G. exact G.
  - pose proof (bs_block folded (chomping_of k) _ _ _ _ m t rest (pad_newline pad B) ltac:(lia) BL M BT LT) as G.
    assert (RR : rest = [] \/ ~ white (hd EOF rest) /\ hd EOF rest <> HASH) by (destruct R as [[R _]|[_ R]]; auto). specialize (G RR).
    rewrite <- app_assoc in G. subst folded. unfold lines_value. destruct k as [[]|[]]; cbn [chomping_of stripped] in *;
      try (destruct S as [->|[]]); exact G.
Qed.
Lemma near_map_ends n p p' : near p p' -> map_ends n p -> map_ends n p'.
Proof.
  intros [<-|(w & r & r' & -> & -> & C & N & N' & S & H)]; [auto|]. intros [L|(w2 & m & r2 & E & NA & M & N2 & S1 & S2)].
  - now apply layout_split in L.
  - destruct (split_unique w r w2 r2) as [-> ->]; auto; [now apply (newline_closed m)|split; auto|].
    right. exists w2, m, r'. rewrite <- H. auto 9.
Qed.
Lemma ends_column k n post m : ends_line k m post -> map_ends n post -> (0 < n)%nat -> (k = Literal Strip /\ post = []) \/ (m < n)%nat.
Proof.
  intros [[-> ->]|(q & t & rest & -> & M & S & BT & <- & R)] ME NP; [now left|right]. destruct R as [[-> ->]|(NE & NW & NH)]; [exact NP|].
  assert (C : closed (newlines q ++ t)) by (apply closed_app; [apply newlines_closed|now apply blanks_closed]).
  assert (SR : stops rest) by now split.
  assert (NQ : newline_at (length t) (newlines q ++ t)).
  { destruct q as [|q]; [lia|]. split; [cbn; tauto|]. exists (newlines q), t. split; [|split; [|auto]].
    - unfold newlines. rewrite (app_assoc (repeat NEWLINE q)), <- repeat_cons. reflexivity.
    - apply closed_app; [apply newlines_closed|]. constructor; [cbn; tauto|constructor]. }
  destruct ME as [L|(w & j & r & E & NA & J & N2 & S1 & S2)].
  - rewrite app_assoc in L. now apply layout_split in L.
  - rewrite app_assoc in E. destruct (split_unique _ _ w r C SR) as [<- _]; [now apply (newline_closed j)|now split|exact E|].
    apply newline_last in NQ as [_ Q1]. apply newline_last in NA as [_ Q2]. congruence.
Qed.
Lemma block_pad (n : nat) ps k : wscalar (ablock_at n [] ps k) = lines_text k (repeat SPACE n) ps.
Proof.
  assert (G : block_original [] n ps = padded (repeat SPACE n) ps).
  { induction ps as [|q ps IH]; [reflexivity|]. cbn [block_original]. rewrite IH. unfold padded. cbn [flat_map]. rewrite <- !app_assoc. reflexivity. }
  unfold ablock_at, lines_text. destruct k as [[]|[]]; cbn; rewrite G; reflexivity.
Qed.
Lemma spaces_blank n : Forall blank (repeat SPACE n).
Proof. induction n; cbn; constructor; [cbn; tauto|assumption]. Qed.

Section Block.
Variable hash : bytes -> sid.
Local Notation models := (models hash).
Local Notation no_collision := (no_collision hash).

Lemma below_outside doc p id : outside doc p -> place doc p id -> block_at doc id -> no_collision (doc_data doc) -> built hash doc -> forall j, outside doc (p ++ [j]).
Proof.
  intros OU P (y & PY & H) N B j. destruct (built_models _ _ _ _ B) as (t & suf & M).
  destruct (place_ctx _ _ _ _ _ _ M N P) as (c & v & -> & <- & <-). eapply inner_outside; [exact M|exact N|exact OU|].
  apply (prints_at _ _ _ _ _ _ M N (sub_plug c v)) in PY. now subst y.
Qed.
(* The text behind a block collection ends it. *)
Lemma collection_ends s post d0 D c suf v p o n : opens SRoot c suf s post d0 D -> stands s post d0 v p o ->
  match v with TMap _ _ m CBlock _ | TSeq _ _ m CBlock _ => m = n | _ => False end -> map_ends (S n) (wright c ++ suf).
Proof.
  intros O ST V. destruct O as ((FO & NB) & _).
  assert (FR : exists lt q, frame s lt q n post).
  { destruct ST as [(_ & F & _)|[_ X]].
    - destruct v as [i q sc|i q m [|tr sf] items|i q m [|tr sf] items]; try contradiction; subst m.
      + rewrite shape_map in F. apply fits_bmap in F as (L & _ & FR & _). eauto.
      + rewrite shape_seq in F. apply fits_bseq in F as (L & _ & FR & _). eauto.
    - destruct v as [i q sc|i q m [|tr sf] items|i q m [|tr sf] items]; try contradiction; subst m; cbn [vacant] in X; destruct items; try contradiction; [|destruct X as [X _]]; eauto. }
  destruct FR as (lt & q & FR). destruct (frame_ends _ _ _ _ _ FR FO) as (_ & ME & _). eapply near_map_ends; [|exact ME]. apply NB.
  destruct s; [reflexivity..|contradiction].
Qed.
End Block.

(* ---- C22 ---- *)
(* A block scalar is inserted under a new key of a block mapping. Nothing is asked of the columns:
   what follows the mapping is not as far to the right as the lines. *)
Theorem C22_insert_block_partial : forall hash doc D o p id key ps k l h d' n post,
  session hash doc D o -> at_hand p o -> place doc p id -> run hash id (InsertBlock key ps k) (doc_data doc) = Ok (Handle h, d') -> no_collision hash d' ->
  map_entries (doc_data doc) id l -> ~ In key (map fst l) -> outside doc p -> block_at doc id -> room_key doc p id key l ->
  ps <> [] -> Forall block_line ps -> behind hash (edited doc d') h post -> ends_line k n post ->
  exists m D' out, map fst m = map fst l /\ replaced (DMap m) (DMap (m ++ [(key, DStr (lines_value ps k))])) p D D' /\
    session hash (edited doc d') D' None /\ write_to (edited doc d') = Ok out /\ reads_as_datum hash out D'.
Proof.
  intros hash doc D o p id key ps k l h d' n post SS AH P E N ME NI OU BA RK NE F BH EL.
  pose proof (session_before _ _ _ _ _ _ _ _ _ SS P E N) as N0. pose proof (session_built _ _ _ _ SS) as B.
  destruct (place_map_datum _ _ _ _ _ _ _ SS N0 P AH ME) as (m & FM & RP). destruct (RP (DMap (m ++ [(key, DStr (lines_value ps k))]))) as [D' R'].
  pose proof (below_outside _ _ _ _ OU P BA N0 B (length l)) as OL.
  pose proof (session_inv _ _ _ _ SS N0) as I. destruct (focus _ _ _ _ _ _ I N0 P AH) as (c & v & suf & s & po & d0 & M & <- & <- & O & S & FO & ST).
  destruct (map_at _ _ _ _ _ _ M N0 ME) as (i & pp & nn & kk & items & -> & ->).
  pose proof (kind_block _ _ _ _ _ M N0 BA) as KB. cbn in KB. subst kk.
  pose proof (collection_ends _ _ _ _ _ _ _ _ _ nn O ST eq_refl) as CE.
  destruct (edit_step hash _ _ _ _ _ _ _ M E) as (v' & TI & M' & _ & EF). specialize (EF N).
  destruct (effect_insert _ _ _ _ _ key EF eq_refl eq_refl) as (sp & sc & h' & EH & A & KS & IN). injection EH as <-. cbn in A. injection A as <-.
  assert (V : exists ii vp, v' = TMap i pp nn CBlock (items ++ [(ii, item_gap nn items, RS KBare key key, TLeaf h vp (ablock_at (nn + 2) [] ps k))])).
  { remember (TMap i pp nn CBlock items) as t eqn:ET. destruct IN as [i0 p0 n0 k0 l' ii' ip' kk' w r' K' F'|i0 p0 n0 k0 items0 ii' vi F'].
    - exfalso. injection ET as -> -> -> -> <-. apply NI. rewrite map_map, map_app. apply in_or_app. right. left. exact K'.
    - injection ET as -> -> -> -> ->. eauto. }
  destruct V as (ii & vp & ->). set (c2 := CMapC i pp nn CBlock items ii (item_gap nn items) (RS KBare key key) CHole []).
  match type of M' with models _ _ ?t _ => replace t with (plug (ccomp c c2) (TLeaf h vp (ablock_at (nn + 2) [] ps k))) in M' by (unfold c2; now rewrite plug_comp) end.
  assert (PX : prints (edited doc d') h (lines_text k (repeat SPACE (nn + 2)) ps)).
  { rewrite <- block_pad. apply (prints_at hash (edited doc d') _ (TLeaf h vp (ablock_at (nn + 2) [] ps k)) _ _ M' N (sub_plug _ _)). reflexivity. }
  assert (EP : post = wright c ++ suf).
  { rewrite (behind_right hash (edited doc d') (ccomp c c2) (TLeaf h vp (ablock_at (nn + 2) [] ps k)) suf post M' BH). rewrite wright_comp. unfold c2. cbn. reflexivity. }
  assert (S' : session hash (edited doc d') D' None).
  { eapply se_edit; [exact SS|exact P|exact E|]. eapply ch_insert_new; [reflexivity|exact ME|exact NI|exact AH|exact RK| |exact R'].
    right. right. split; [reflexivity|]. exists (lines_text k (repeat SPACE (nn + 2)) ps), (lines_value ps k), post.
    split; [constructor|]. split; [reflexivity|]. split; [exact OL|]. split; [exact PX|]. split; [exact BH|].
    rewrite <- EP in CE. destruct (ends_column _ _ _ _ EL CE ltac:(lia)) as [[-> ->]|LT].
    - apply lines_scalar with (n := 0%nat); auto; [apply spaces_blank|left; auto|rewrite repeat_length; lia].
    - apply lines_scalar with (n := n); auto; [apply spaces_blank|rewrite repeat_length; lia]. }
  destruct (session_reads hash _ _ S' N) as (out & _ & WO & _ & RO & _). exists m, D', out. auto.
Qed.
Print Assumptions C22_insert_block_partial.
(* A block scalar is pushed to a block sequence. *)
Theorem C22_push_block_partial : forall hash doc D o p id ps k l h d' n post,
  session hash doc D o -> at_hand p o -> place doc p id -> run hash id (PushBlock ps k) (doc_data doc) = Ok (Handle h, d') -> no_collision hash d' ->
  seq_entries (doc_data doc) id l -> outside doc p -> block_at doc id -> room_item doc p id l ->
  ps <> [] -> Forall block_line ps -> behind hash (edited doc d') h post -> ends_line k n post ->
  exists m D' out, length m = length l /\ replaced (DSeq m) (DSeq (m ++ [DStr (lines_value ps k)])) p D D' /\
    session hash (edited doc d') D' None /\ write_to (edited doc d') = Ok out /\ reads_as_datum hash out D'.
Proof.
  intros hash doc D o p id ps k l h d' n post SS AH P E N ME OU BA RI NE F BH EL.
  pose proof (session_before _ _ _ _ _ _ _ _ _ SS P E N) as N0. pose proof (session_built _ _ _ _ SS) as B.
  destruct (place_seq_datum _ _ _ _ _ _ _ SS N0 P AH ME) as (m & FM & RP). destruct (RP (DSeq (m ++ [DStr (lines_value ps k)]))) as [D' R'].
  pose proof (below_outside _ _ _ _ OU P BA N0 B (length l)) as OL.
  pose proof (session_inv _ _ _ _ SS N0) as I. destruct (focus _ _ _ _ _ _ I N0 P AH) as (c & v & suf & s & po & d0 & M & <- & <- & O & S & FO & ST).
  destruct (seq_at _ _ _ _ _ _ M N0 ME) as (i & pp & nn & kk & items & -> & ->).
  pose proof (kind_block _ _ _ _ _ M N0 BA) as KB. cbn in KB. subst kk.
  pose proof (collection_ends _ _ _ _ _ _ _ _ _ nn O ST eq_refl) as CE.
  destruct (edit_step hash _ _ _ _ _ _ _ M E) as (v' & TI & M' & _ & EF). specialize (EF N).
  destruct (effect_push _ _ _ _ _ EF Logic.I eq_refl) as (sp & sc & h' & EH & A & KS & IN). injection EH as <-. cbn in A. injection A as <-.
  assert (V : exists ii vp, v' = TSeq i pp nn CBlock (items ++ [(ii, item_gap nn items, TLeaf h vp (ablock_at (nn + 2) [] ps k))])).
  { remember (TSeq i pp nn CBlock items) as t eqn:ET. destruct IN as [i0 p0 n0 k0 items0 ii' vi]. injection ET as -> -> -> -> ->. eauto. }
  destruct V as (ii & vp & ->). set (c2 := CSeqC i pp nn CBlock items ii (item_gap nn items) CHole []).
  match type of M' with models _ _ ?t _ => replace t with (plug (ccomp c c2) (TLeaf h vp (ablock_at (nn + 2) [] ps k))) in M' by (unfold c2; now rewrite plug_comp) end.
  assert (PX : prints (edited doc d') h (lines_text k (repeat SPACE (nn + 2)) ps)).
  { rewrite <- block_pad. apply (prints_at hash (edited doc d') _ (TLeaf h vp (ablock_at (nn + 2) [] ps k)) _ _ M' N (sub_plug _ _)). reflexivity. }
  assert (EP : post = wright c ++ suf).
  { rewrite (behind_right hash (edited doc d') (ccomp c c2) (TLeaf h vp (ablock_at (nn + 2) [] ps k)) suf post M' BH). rewrite wright_comp. unfold c2. cbn. reflexivity. }
  assert (S' : session hash (edited doc d') D' None).
  { eapply se_edit; [exact SS|exact P|exact E|]. eapply ch_push; [exact Logic.I|exact ME|exact AH|exact RI| |exact R'].
    right. right. split; [reflexivity|]. exists (lines_text k (repeat SPACE (nn + 2)) ps), (lines_value ps k), post.
    split; [constructor|]. split; [reflexivity|]. split; [exact OL|]. split; [exact PX|]. split; [exact BH|].
    rewrite <- EP in CE. destruct (ends_column _ _ _ _ EL CE ltac:(lia)) as [[-> ->]|LT].
    - apply lines_scalar with (n := 0%nat); auto; [apply spaces_blank|left; auto|rewrite repeat_length; lia].
    - apply lines_scalar with (n := n); auto; [apply spaces_blank|rewrite repeat_length; lia]. }
  destruct (session_reads hash _ _ S' N) as (out & _ & WO & _ & RO & _). exists m, D', out. auto.
Qed.
Print Assumptions C22_push_block_partial.
(* A value is set to a block scalar. The next line has to be less far to the right than the lines. *)
Theorem C22_set_block_partial : forall hash doc D p id ps k r d' y pad n post,
  session hash doc D None -> place doc p id -> run hash id (SetBlock ps k) (doc_data doc) = Ok (r, d') -> no_collision hash d' ->
  prints doc id y -> y <> [] -> outside doc p -> ps <> [] -> Forall block_line ps ->
  prints (edited doc d') id (lines_text k pad ps) -> Forall blank pad -> behind hash (edited doc d') id post -> ends_line k n post -> (n < length pad)%nat ->
  exists u D' out, replaced u (DStr (lines_value ps k)) p D D' /\ session hash (edited doc d') D' None /\ write_to (edited doc d') = Ok out /\ reads_as_datum hash out D'.
Proof.
  intros hash doc D p id ps k r d' y pad n post SS P E N PR YN OU NE F PX BP BH EL LT. pose proof (session_before _ _ _ _ _ _ _ _ _ SS P E N) as N0.
  destruct (place_datum _ _ _ _ _ _ SS N0 P (or_introl eq_refl)) as (c & v & suf & u & _ & _ & _ & _ & RP). destruct (RP (DStr (lines_value ps k))) as [D' R'].
  assert (S' : session hash (edited doc d') D' None).
  { eapply se_edit; [exact SS|exact P|exact E|]. eapply ch_set; [exact Logic.I|right; eauto| |exact R'].
    right. right. split; [reflexivity|]. exists (lines_text k pad ps), (lines_value ps k), post.
    split; [constructor|]. split; [reflexivity|]. split; [exact OU|]. split; [exact PX|]. split; [exact BH|]. now apply lines_scalar with (n := n). }
  destruct (session_reads hash _ _ S' N) as (out & _ & WO & _ & RO & _). exists u, D', out. auto.
Qed.
Print Assumptions C22_set_block_partial.

(* The document of C38; a new key, a new item, and the value of the first key. *)
Definition c22_lines : list bytes := [b "one:  x"; b "two"].
Lemma c22_block : Forall block_line c22_lines.
Proof.
  unfold c22_lines. repeat (apply Forall_cons; [split; [discriminate|]; split; [discriminate|]; split; [apply graphic_clean; cbn; lia|cbn; intuition discriminate]|]). constructor.
Qed.
Definition c22_insert_text : bytes := b "a: 1
b:
  # items
  - x
  - 'y'
c: >
  one:  x
  two
".
Example C22_insert_case : exists D', replaced (c38_data 0)
    (DMap [(b "a", DNum (b "1") Unsigned64); (b "b", DSeq [DStr (b "x"); DStr (b "y")]); (b "c", DStr (b "one:  x two
"))]) [] (c38_data 0) D' /\ reads_as_datum idhash c22_insert_text D'.
Proof.
  assert (S : exists h d', run idhash (doc_root (c38_doc 0)) (InsertBlock (b "c") c22_lines (Folded Clip)) (doc_data (c38_doc 0)) = Ok (Handle h, d') /\
    behind idhash (edited (c38_doc 0) d') h [NEWLINE] /\ write_to (edited (c38_doc 0) d') = Ok c22_insert_text).
  { eexists _, _. split; [vm_compute; reflexivity|]. split; [|vm_compute; reflexivity]. eexists (firstn 35 c22_insert_text), _, _. split; [vm_compute; reflexivity|]. split; [vm_compute; reflexivity|].
    split; [apply id_no_collision|]. split; [apply id_no_collision|]. split; vm_compute; reflexivity. }
  destruct S as (h & d' & E & BH & W).
  assert (L : exists ia ib, map_entries (doc_data (c38_doc 0)) (doc_root (c38_doc 0)) [(b "a", ia); (b "b", ib)]).
  { eexists _, _. apply map_listed. vm_compute. reflexivity. }
  destruct L as (ia & ib & ME).
  assert (BA : block_at (c38_doc 0) (doc_root (c38_doc 0))) by (eexists; split; [vm_compute; reflexivity|cbn; intuition discriminate]).
  destruct (C22_insert_block_partial idhash (c38_doc 0) (c38_data 0) None [] (doc_root (c38_doc 0)) (b "c") c22_lines (Folded Clip) [(b "a", ia); (b "b", ib)] h d' 0%nat [NEWLINE])
    as (m & D' & out & FM & R & _ & WO & RO); auto.
  - apply c38_loaded.
  - now left.
  - constructor.
  - apply id_no_collision.
  - cbn. intuition discriminate.
  - apply outside_checked. vm_compute. reflexivity.
  - left. split; [exact BA|]. split; [apply key_checked; reflexivity|]. split; [intros _; discriminate|]. split; [discriminate|].
    intros j EL. injection EL as <-. apply lines_checked. vm_compute. reflexivity.
  - discriminate.
  - apply c22_block.
  - right. exists 1%nat, [], []. cbn. repeat split; auto.
  - exists D'. inversion R as [E1 E2| |]; subst. split; [constructor|]. rewrite W in WO. injection WO as <-. exact RO.
Qed.
Definition c22_push_text : bytes := b "a: 1
b:
  # items
  - x
  - 'y'
  - |-
    one:  x
    two
".
Example C22_push_case : exists D', replaced (DSeq [DStr (b "x"); DStr (b "y")]) (DSeq [DStr (b "x"); DStr (b "y"); DStr (b "one:  x
two")]) [1]%nat (c38_data 0) D' /\ reads_as_datum idhash c22_push_text D'.
Proof.
  assert (S : exists id ix iy h d', place (c38_doc 0) [1]%nat id /\ seq_entries (doc_data (c38_doc 0)) id [ix; iy] /\ block_at (c38_doc 0) id /\
    run idhash id (PushBlock c22_lines (Literal Strip)) (doc_data (c38_doc 0)) = Ok (Handle h, d') /\
    behind idhash (edited (c38_doc 0) d') h [NEWLINE] /\ write_to (edited (c38_doc 0) d') = Ok c22_push_text).
  { eexists _, _, _, _, _. split; [apply spot_place; vm_compute; reflexivity|]. split; [apply seq_listed; vm_compute; reflexivity|].
    split; [eexists; split; [vm_compute; reflexivity|cbn; intuition discriminate]|]. split; [vm_compute; reflexivity|]. split; [|vm_compute; reflexivity].
    eexists (firstn 36 c22_push_text), _, _. split; [vm_compute; reflexivity|]. split; [vm_compute; reflexivity|].
    split; [apply id_no_collision|]. split; [apply id_no_collision|]. split; vm_compute; reflexivity. }
  destruct S as (id & ix & iy & h & d' & P & ME & BA & E & BH & W).
  destruct (C22_push_block_partial idhash (c38_doc 0) (c38_data 0) None [1]%nat id c22_lines (Literal Strip) [ix; iy] h d' 0%nat [NEWLINE])
    as (m & D' & out & FM & R & _ & WO & RO); auto.
  - apply c38_loaded.
  - now left.
  - apply id_no_collision.
  - apply outside_checked. vm_compute. reflexivity.
  - left. split; [exact BA|]. intros j EL. injection EL as <-. split; [apply lines_checked|apply filled_checked]; vm_compute; reflexivity.
  - discriminate.
  - apply c22_block.
  - right. exists 1%nat, [], []. cbn. repeat split; auto.
  - exists D'. assert (m = [DStr (b "x"); DStr (b "y")]) as ->.
    { assert (R0 : replaced (DSeq [DStr (b "x"); DStr (b "y")]) (DSeq (m ++ [DStr (lines_value c22_lines (Literal Strip))])) [1]%nat (c38_data 0)
        (DMap [(b "a", DNum (b "1") Unsigned64); (b "b", DSeq (m ++ [DStr (lines_value c22_lines (Literal Strip))]))])).
      { apply (rp_map _ _ _ [(b "a", DNum (b "1") Unsigned64)] (b "b")). constructor. }
      destruct (replaced_fun _ _ _ _ _ R _ _ R0) as [X _]. now injection X. }
    split; [exact R|]. rewrite W in WO. injection WO as <-. exact RO.
Qed.
Definition c22_set_text : bytes := b "a: |+
   one:  x
   two
b:
  # items
  - x
  - 'y'
".
Example C22_set_case : exists D', replaced (DNum (b "1") Unsigned64) (DStr (b "one:  x
two
")) [0]%nat (c38_data 0) D' /\ reads_as_datum idhash c22_set_text D'.
Proof.
  assert (S : exists id d', place (c38_doc 0) [0]%nat id /\ prints (c38_doc 0) id (b "1") /\
    run idhash id (SetBlock c22_lines (Literal Keep)) (doc_data (c38_doc 0)) = Ok (Done, d') /\ prints (edited (c38_doc 0) d') id (lines_text (Literal Keep) (b "   ") c22_lines) /\
    behind idhash (edited (c38_doc 0) d') id (skipn 23 c22_set_text) /\ write_to (edited (c38_doc 0) d') = Ok c22_set_text).
  { eexists _, _. split; [apply spot_place; vm_compute; reflexivity|]. split; [vm_compute; reflexivity|]. split; [vm_compute; reflexivity|]. split; [vm_compute; reflexivity|].
    split; [|vm_compute; reflexivity].
    eexists (firstn 3 c22_set_text), _, _. split; [vm_compute; reflexivity|]. split; [vm_compute; reflexivity|].
    split; [apply id_no_collision|]. split; [apply id_no_collision|]. split; vm_compute; reflexivity. }
  destruct S as (id & d' & P & PR & E & PX & BH & W).
  destruct (C22_set_block_partial idhash (c38_doc 0) (c38_data 0) [0]%nat id c22_lines (Literal Keep) Done d' (b "1") (b "   ") 0%nat (skipn 23 c22_set_text))
    as (u & D' & out & R & _ & WO & RO); auto.
  - apply c38_loaded.
  - apply id_no_collision.
  - discriminate.
  - apply outside_checked. vm_compute. reflexivity.
  - discriminate.
  - apply c22_block.
  - apply (spaces_blank 3).
  - right. exists 1%nat, [], (skipn 24 c22_set_text). cbn. split; [reflexivity|]. split; [auto|]. split; [auto|]. split; [constructor|]. split; [reflexivity|]. right.
    split; [discriminate|]. intuition discriminate.
  - cbn. lia.
  - exists D'. assert (u = DNum (b "1") Unsigned64) as ->.
    { assert (R0 : replaced (DNum (b "1") Unsigned64) (DStr (lines_value c22_lines (Literal Keep))) [0]%nat (c38_data 0)
        (DMap [(b "a", DStr (lines_value c22_lines (Literal Keep))); (b "b", DSeq [DStr (b "x"); DStr (b "y")])])).
      { apply (rp_map _ _ _ [] (b "a")). constructor. }
      now destruct (replaced_fun _ _ _ _ _ R _ _ R0). }
    split; [exact R|]. rewrite W in WO. injection WO as <-. exact RO.
Qed.
