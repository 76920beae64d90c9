(* The text of a laid out tree is a text of the grammar. *)
From Coq Require Import String.
From Coq Require Import List NArith Bool Arith Lia.
From Verif Require Import Bytes Utf8 Data Parser Render Tree Abs Utf8Props Scan Num Reads ReadsSound Shown Plain Grammar Laid GrammarSound.
Import ListNotations.
Local Open Scope N_scope.

Definition vtext (v : tree unit) : bytes := tpre v ++ wtree v.
Definition fstext (items : list (sitem unit)) (tr : bool) (suf : bytes) : bytes :=
  sep [COMMA] (map ftext1 items) ++ closing (fun x => x) RBRACK (CInline tr suf).
Definition fmtext (items : list (mitem unit)) (tr : bool) (suf : bytes) : bytes :=
  sep [COMMA] (map mtext1 items) ++ closing (fun x => x) RBRACE (CInline tr suf).
Lemma flow_seq_text i p n tr suf items : losslessS items -> wtree (TSeq i p n (CInline tr suf) items) = [LBRACK] ++ fstext items tr suf.
Proof.
  intros LF. cbn [wtree open_if comma_if dash_if]. unfold fstext. f_equal. f_equal. f_equal. apply map_ext_Forall.
  eapply Forall_impl; [|exact LF]. intros [[? ip] v] Q. cbn [ftext1 app]. now rewrite Q.
Qed.
Lemma flow_map_text i p n tr suf items : wtree (TMap i p n (CInline tr suf) items) = [LBRACE] ++ fmtext items tr suf.
Proof. reflexivity. Qed.
Lemma lflow_text : (forall v d, lflow v d -> flow (wtree v) d) /\
  (forall items tr suf l, lfseq items tr suf l -> losslessS items /\ flow_seq (fstext items tr suf) l) /\
  (forall items tr suf l, lfmap items tr suf l -> flow_map (fmtext items tr suf) l) /\
  (forall v d c, litem v d c -> flow_item (wtree v) d c).
Proof.
  apply lflow_all.
  - intros i p n tr suf items l _ [LF H]. rewrite flow_seq_text by exact LF. now apply fl_seq.
  - intros i p n tr suf items l _ H. rewrite flow_map_text. now apply fl_map.
  - intros suf C. split; [constructor|]. now apply fs_end.
  - intros i ip v d tr suf CI UI CP UP CS _ H. split; [constructor; [now apply lossy_utf8|constructor]|].
    unfold fstext. cbn [map sep ftext1 closing] in *. assert (U : utf8 (ip ++ tpre v) = true) by now apply utf8_app.
    assert (C : closed (ip ++ tpre v)) by now apply closed_app. destruct tr.
    + match goal with |- flow_seq ?z _ => replace z with ((ip ++ tpre v) ++ wtree v ++ b "," ++ (suf ++ b "]")) by (norm_app; reflexivity) end.
      apply fs_cons; auto. now apply fs_end.
    + match goal with |- flow_seq ?z _ => replace z with ((ip ++ tpre v) ++ wtree v ++ suf ++ b "]") by (norm_app; reflexivity) end.
      apply fs_last; auto.
  - intros i ip v d it rest tr suf l CI UI CP UP _ H _ [LF HS]. split; [constructor; [now apply lossy_utf8|exact LF]|].
    unfold fstext in *. rewrite sep_cons. cbn [ftext1].
    match goal with |- flow_seq ?z _ => replace z with ((ip ++ tpre v) ++ wtree v ++ b "," ++ (sep [COMMA] (map ftext1 (it :: rest)) ++ closing (fun x => x) RBRACK (CInline tr suf))) by (norm_app; reflexivity) end.
    apply fs_cons; auto; [now apply closed_app|now apply utf8_app].
  - intros suf C. now apply fm_end.
  - intros i ip k v d tr suf CI K CP CS TS _ H. unfold fmtext. cbn [map sep mtext1 closing].
    change (wstr (RS KBare k k)) with k. destruct tr.
    + match goal with |- flow_map ?z _ => replace z with (ip ++ k ++ b ":" ++ tpre v ++ wtree v ++ b "," ++ (suf ++ b "}")) by (norm_app; reflexivity) end.
      apply fm_cons; auto. now apply fm_end.
    + rewrite (TS eq_refl). match goal with |- flow_map ?z _ => replace z with (ip ++ k ++ b ":" ++ tpre v ++ wtree v ++ b "}") by (norm_app; reflexivity) end.
      now apply fm_last.
  - intros i ip k v d it rest tr suf l CI K CP _ H _ HS. unfold fmtext in *. rewrite sep_cons. cbn [mtext1].
    change (wstr (RS KBare k k)) with k.
    match goal with |- flow_map ?z _ => replace z with (ip ++ k ++ b ":" ++ tpre v ++ wtree v ++ b "," ++ (sep [COMMA] (map mtext1 (it :: rest)) ++ closing (fun x => x) RBRACE (CInline tr suf))) by (norm_app; reflexivity) end.
    now apply fm_cons.
  - intros i p sc d c _ F. exact F.
  - intros v d c _ F. now apply fi_nested.
Qed.
Definition Tmap n items l post := forall post', alike post post' -> exists x, mtext items = mlead items ++ x /\
  (exists r, x = first_text items ++ b ":" ++ r) /\ block_map n x l post'.
Definition Tmrest n items l post := forall post', alike post post' -> alike (next_key items post) (mtext items ++ post') /\ map_rest n (mtext items) l post'.
Definition Tval n v d post := forall post', alike post post' -> breaks (vtext v ++ post') /\ key_value n (vtext v) d post'.
Definition Tseq n items l post := losslessS items /\ forall post', alike post post' -> exists x, stext items = slead items ++ x /\ block_seq n x l post'.
Definition Tsrest n items l post := losslessS items /\ forall post', alike post post' -> alike (next_dash items post) (stext items ++ post') /\ seq_rest n (stext items) l post'.
Definition Tdash n v d post := forall post', alike post post' -> white (hd EOF (vtext v)) /\ dash_value n (vtext v) d post'.
Lemma breaks_white w r : white (hd EOF w) -> breaks (w ++ r).
Proof. intros W. right. now apply hd_white. Qed.
Lemma vtext_map i p n items : vtext (TMap i p n CBlock items) = p ++ mtext items.
Proof. destruct i. unfold vtext. now rewrite map_text_at. Qed.
Lemma vtext_seq i p n items : losslessS items -> vtext (TSeq i p n CBlock items) = p ++ stext items.
Proof. intros LF. destruct i. unfold vtext. now rewrite seq_text_at. Qed.
Lemma mtext_item i ip key v items : mtext ((i, ip, key, v) :: items) = ip ++ wstr key ++ b ":" ++ vtext v ++ mtext items.
Proof. unfold mtext, vtext. cbn [map concat mtext1]. now rewrite <- !app_assoc. Qed.
Lemma stext_item i ip v items : stext ((i, ip, v) :: items) = ip ++ b "-" ++ vtext v ++ stext items.
Proof. unfold stext, vtext. cbn [map concat stext1]. now rewrite <- !app_assoc. Qed.
Lemma laid_text : (forall n items l post, lmap n items l post -> Tmap n items l post) /\
  (forall n items l post, lmrest n items l post -> Tmrest n items l post) /\
  (forall n v d post, lval n v d post -> Tval n v d post) /\
  (forall n items l post, lseq n items l post -> Tseq n items l post) /\
  (forall n items l post, lsrest n items l post -> Tsrest n items l post) /\
  (forall n v d post, ldash n v d post -> Tdash n v d post).
Proof.
  apply laid_all.
  - intros n i ip key v d rest l post K _ V _ M post' A. destruct (M _ A) as [A' MR]. destruct (V _ A') as [B KV].
    exists (wstr key ++ b ":" ++ vtext v ++ mtext rest). split; [apply mtext_item|]. split; [eexists; reflexivity|]. now apply bm_items.
  - intros n post E post' A. split; [exact A|]. apply mr_nil. eapply alike_map_ends; eauto.
  - intros n i w k v d rest l post NA K _ V _ M post' A. destruct (M _ A) as [A' MR]. destruct (V _ A') as [B KV]. rewrite mtext_item. split.
    + rewrite <- !app_assoc. cbn [next_key]. apply (alike_key n); auto.
    + now apply mr_cons.
  - intros n i p sc d post G N L post' A. split; [apply breaks_white, hd_white, G|]. apply kv_leaf; [exact G|]. eapply alike_leaf; eauto.
  - intros n v d post G F B post' A. split; [apply breaks_white, hd_white, G|]. apply kv_leaf; [exact G|]. apply lf_flow; [now apply lflow_text|].
    eapply alike_breaks; eauto.
  - intros n i post K post' A. pose proof (alike_key_follows _ _ _ A K) as K'. split; [|now apply kv_none].
    destruct K' as (w & m & k & r & -> & NA & _). apply (breaks_white w), NA.
  - intros n m i p items l post NA0 LD LT _ M post' A. destruct (M _ A) as (x & E & _ & BM). pose proof (newline_lead _ _ _ NA0 LD) as NA. rewrite vtext_map, E, app_assoc. split.
    + rewrite <- app_assoc. apply breaks_white, NA.
    + now apply (kv_map n m).
  - intros n m i p items l post NA0 LD LT _ [LF M] post' A. destruct (M _ A) as (x & E & BM). pose proof (newline_lead _ _ _ NA0 LD) as NA. rewrite vtext_seq, E, app_assoc by exact LF. split.
    + rewrite <- app_assoc. apply breaks_white, NA.
    + now apply (kv_seq n m).
  - intros n i ip v d rest l post U _ V _ [LF M]. split; [constructor; [now apply lossy_utf8|exact LF]|]. intros post' A.
    destruct (M _ A) as [A' MR]. destruct (V _ A') as [B KV].
    exists (b "-" ++ vtext v ++ stext rest). split; [apply stext_item|]. now apply bs_items.
  - intros n post E. split; [constructor|]. intros post' A. split; [exact A|]. apply sr_nil. eapply alike_seq_ends; eauto.
  - intros n i w v d rest l post NA U _ V _ [LF M]. split; [constructor; [now apply lossy_utf8|exact LF]|]. intros post' A.
    destruct (M _ A) as [A' MR]. destruct (V _ A') as [B KV]. rewrite stext_item. split.
    + rewrite <- !app_assoc. cbn [next_dash]. apply (alike_dash n); auto. now apply breaks_white.
    + now apply sr_cons.
  - intros n i p sc d post G N L post' A. split; [apply hd_white, G|]. apply dv_leaf; [exact G|]. eapply alike_leaf; eauto.
  - intros n v d post G F B post' A. split; [apply hd_white, G|]. apply dv_leaf; [exact G|]. apply lf_flow; [now apply lflow_text|].
    eapply alike_breaks; eauto.
  - intros n m i p items l post BL NE -> LD _ M post' A. destruct (M _ A) as (x & E & _ & BM). rewrite vtext_map, E, app_assoc. split.
    + apply hd_white, gap_hd, blanks_gap; auto.
    + destruct LD as [->|LD]; [rewrite app_nil_r in *; now apply dv_map|].
      apply (dv_map_below n (n + length p)); [apply newline_after; [now apply blanks_gap|exact LD]|lia|exact BM].
  - intros n m i p items l post BL NE -> LD _ [LF M] post' A. destruct (M _ A) as (x & E & BM). rewrite vtext_seq, E, app_assoc by exact LF. split.
    + apply hd_white, gap_hd, blanks_gap; auto.
    + destruct LD as [->|LD]; [rewrite app_nil_r in *; now apply dv_seq|].
      apply (dv_seq_below n (n + length p)); [apply newline_after; [now apply blanks_gap|exact LD]|lia|exact BM].
  - intros n m i p items l post NA0 LD LT _ M post' A. destruct (M _ A) as (x & E & _ & BM). pose proof (newline_lead _ _ _ NA0 LD) as NA. rewrite vtext_map, E, app_assoc. split.
    + apply hd_white, NA.
    + now apply (dv_map_below n m).
  - intros n m i p items l post NA0 LD LT _ [LF M] post' A. destruct (M _ A) as (x & E & BM). pose proof (newline_lead _ _ _ NA0 LD) as NA. rewrite vtext_seq, E, app_assoc by exact LF. split.
    + apply hd_white, NA.
    + now apply (dv_seq_below n m).
Qed.
Lemma doc_start_key x r : doc_start x -> doc_start (x ++ b ":" ++ r).
Proof.
  intros [P D]. split; intros (q & E).
  - destruct x as [|c x]; [discriminate|]. cbn in E. injection E as -> _. apply P. now exists x.
  - destruct x as [|c1 [|c2 [|c3 x]]]; cbn in E; try discriminate. injection E as -> -> -> _. apply D. now exists x.
Qed.
Lemma flow_start x d : flow x d -> doc_start x.
Proof. intros [y l _|y l _]; split; intros (q & E); discriminate. Qed.
Theorem ldoc_text t d suf : ldoc t d suf -> doc_text (wdoc t suf) d.
Proof.
  intros [i p sc e s C N L LP D|v e s C F B LP|i p n items l s LS0 LD M LP D|i p n items l s LS0 LD M LP].
  - unfold wdoc. cbn [tpre wtree]. now apply dt_leaf.
  - unfold wdoc. apply lflow_text in F. apply dt_leaf; auto; [now apply lf_flow|]. eapply flow_start; eauto.
  - apply laid_text in M. destruct (M _ (alike_refl _)) as (x & E & (r & FX) & BM). unfold wdoc. destruct i. rewrite map_text_at, E. cbn [tpre]. pose proof (start_lead _ _ _ LS0 LD).
    replace (p ++ (mlead items ++ x) ++ s) with ((p ++ mlead items) ++ x ++ s) by (now rewrite <- !app_assoc). apply dt_map with (n := n); auto.
    rewrite FX. now apply doc_start_key.
  - apply laid_text in M as [LF M]. destruct (M _ (alike_refl _)) as (x & E & BM). unfold wdoc. destruct i. rewrite seq_text_at, E by exact LF. cbn [tpre]. pose proof (start_lead _ _ _ LS0 LD).
    replace (p ++ (slead items ++ x) ++ s) with ((p ++ slead items) ++ x ++ s) by (now rewrite <- !app_assoc). now apply dt_seq with (n := n).
Qed.
