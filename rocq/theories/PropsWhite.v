(* Properties of lines and of invalid UTF-8: C40, C41. *)
From Coq Require Import String.
From Coq Require Import List NArith ZArith Bool Arith Lia.
From Verif Require Import Bytes Utf8 Data Parser Render Tree Abs Refine Utf8Props Scan Num Api Ctx Edit Built Reads ReadsSound
  Shown Plain Grammar Laid GrammarSound Tests Refuted PropsParse PropsEdit PropsColl PropsValue PropsScalar PropsScalar2 PropsText AbsText AbsNice RenderProps TextProps Valid.
Import ListNotations.
Local Open Scope N_scope.
Local Notation text := Utf8Props.text.

(* ---- C40: the lines of a block scalar ---- *)
(* A line as it stands behind its indentation. *)
Definition raw_line (l : bytes) : Prop := l <> [] /\ ~ white (hd EOF l) /\ hd EOF l <> HASH /\ ~ In NEWLINE l.
Lemma raw_stops l r : raw_line l -> stops (l ++ r) /\ l ++ r <> [].
Proof. intros (N & W & H & _). destruct l; [congruence|]. split; [split; [exact W|exact H]|discriminate]. Qed.
Lemma line_parts m : line m = newlines 1 ++ repeat SPACE m.
Proof. reflexivity. Qed.
Lemma spaces_blank m : Forall blank (repeat SPACE m).
Proof. apply Forall_forall. intros c J. apply repeat_spec in J. subst. cbn. auto 10. Qed.
Lemma raw_blines fo m k rs ts : (0 < k)%nat -> (0 < m)%nat -> Forall raw_line rs -> Forall2 trimmed rs ts -> rs <> [] ->
  forall pre, blines (join_of fo) fo m pre (join (line m) rs ++ newlines k ++ []) (join (line m) rs) (newlines k) [] (content_of fo ts).
Proof.
  intros K M F T. destruct (newlines_at k [] K (Forall_nil _)) as (NA & NC & NH). rewrite !app_nil_r in *.
  revert ts T. induction F as [|l ls L F IH]; intros ts T NE pre; [congruence|]. inversion T as [|? t ? ts' TL T']; subst. apply trim_spec in TL.
  destruct ls as [|l' ls].
  - inversion T'; subst. unfold content_of. cbn [join]. rewrite !app_nil_r. pose proof (bl_end (join_of fo) fo m pre l (newlines k) []) as G. rewrite !app_nil_r in G. apply G.
    + apply L.
    + apply raw_stops. exact L.
    + right. specialize (NH []). now rewrite app_nil_r in NH.
    + pose proof (closed_cut (newlines k) []) as C. apply C; [apply newlines_closed|apply stops_nil].
    + rewrite app_assoc, (newline_col _ _ _ NA). exact M.
  - inversion T' as [|? t' ? ts'' TL' T'']; subst. set (r := l' :: ls) in *. specialize (IH _ T' ltac:(discriminate)).
    assert (J : forall s, join s (l :: r) = l ++ s ++ join s r) by reflexivity. rewrite J, <- !app_assoc.
    assert (EC : content_of fo (trim l :: t' :: ts'') = trim l ++ repeat (join_of fo) (if fo then 1%nat else nl_count (line m)) ++ content_of fo (t' :: ts'')).
    { unfold content_of. cbn [join]. f_equal. rewrite line_parts, nl_count_app, nl_count_newlines, (nl_count_not (repeat SPACE m)) by (apply blanks_nl, spaces_blank). now destruct fo. }
    rewrite EC. destruct (newlines_at 1 (repeat SPACE m) ltac:(lia) (spaces_blank m)) as (NA' & NC' & NH'). rewrite repeat_length in NA'. rewrite <- line_parts in *.
    assert (SR : forall q, stops (join (line m) r ++ q) /\ join (line m) r ++ q <> []).
    { intros q. inversion F; subst. unfold r. cbn [join]. rewrite <- !app_assoc. now apply raw_stops. }
    apply bl_more.
    + apply L.
    + apply NH'.
    + apply closed_cut; [now apply (newline_closed m)|apply SR].
    + apply SR.
    + rewrite app_assoc, (newline_col _ _ _ NA'). reflexivity.
    + apply IH.
Qed.
(* Each line of a block scalar loses the white space at its ends, in the sense of Unicode, and
   nothing else; the lines are joined by newlines or spaces. Trailing newlines as in C20. *)
Theorem C40_trimmed : forall hash fo c m rs ts k, (0 < m)%nat -> rs <> [] -> Forall raw_line rs -> Forall2 trimmed rs ts -> (0 < k)%nat ->
  reads_as_datum hash (block_of fo c m rs ++ newlines k) (DStr (content_of fo ts ++ match c with CStrip => [] | _ => newlines k end)).
Proof.
  intros hash fo c m rs ts k M N F T K. set (v := content_of fo ts ++ _).
  set (a := if fo then GT else PIPE). set (h := a :: chomp_text c). set (o := line m ++ join (line m) rs).
  assert (EB : block_of fo c m rs = h ++ o) by (unfold block_of, h, o, a; destruct fo; reflexivity).
  destruct (newlines_at k [] K (Forall_nil _)) as (NA & NC & NH). rewrite !app_nil_r in *.
  pose proof (line_at m) as NL.
  assert (D : dreads (TLeaf tt [] (ScStr (RS (KMultiline h) v o))) (newlines k)).
  { assert (W : wtree (TLeaf tt [] (ScStr (RS (KMultiline h) v o))) = h ++ o) by reflexivity. unfold dreads. rewrite W. cbn [tpre].
    split; [|split; [|split]].
    - apply closed_cut; [constructor|]. unfold h, a. split; destruct fo; cbn; unfold GT, PIPE; intuition discriminate.
    - apply headless_layout; [|apply closed_layout, newlines_closed]. unfold h, a. split; intros (r & E); destruct fo; discriminate E.
    - constructor. apply L_block.
      + apply header_ok; [unfold a; destruct fo; auto|]. unfold o. cbn. auto.
      + assert (EV : v = content_of fo ts ++ bend h (newlines k)).
        { unfold v, bend. rewrite NC. f_equal. unfold h, a. destruct c, fo; reflexivity. }
        rewrite EV. unfold o. rewrite <- (app_nil_r (newlines k)) at 1.
        apply (bt_next h [] (line m) (join (line m) rs ++ newlines k ++ []) (join (line m) rs) (newlines k) [] (content_of fo ts)).
        * apply closed_cut; [now apply (newline_closed m)|]. destruct F as [|l ls L F]; [congruence|]. cbn [join]. rewrite <- !app_assoc. now apply raw_stops.
        * cbn. auto.
        * reflexivity.
        * rewrite (app_assoc []), (newline_col _ _ _ NL).
          assert (bjoin h = join_of fo /\ bfolded h = fo) as [-> ->] by (unfold h, a; destruct fo; split; reflexivity).
          now apply raw_blines.
    - apply layout_end. apply closed_layout, newlines_closed. }
  pose proof (doc_reads hash _ _ D) as R. unfold wdoc in R. cbn [tpre] in R. rewrite EB. exact R.
Qed.
Print Assumptions C40_trimmed.

(* The trailing space, the no-break space and the tab go, the inner ones stay. *)
Example C40_case : trimmed (b "a b" ++ [194; 160; 9]) (b "a b") /\ reads_as_datum idhash
  (block_of false CKeep 2 [b "a b" ++ [194; 160; 9]; b "c "] ++ newlines 2) (DStr (b "a b
c

")).
Proof.
  assert (T : trimmed (b "a b" ++ [194; 160; 9]) (b "a b")) by (apply trim_spec; vm_compute; reflexivity).
  split; [exact T|]. apply (C40_trimmed idhash false CKeep 2 _ [b "a b"; b "c"] 2); [lia|discriminate| | |lia].
  - repeat apply Forall_cons; [..|apply Forall_nil]; (split; [discriminate|]); (split; [cbn; unfold blank; cbn; intuition discriminate|]); (split; [discriminate|]);
      apply not_in; vm_compute; reflexivity.
  - apply Forall2_cons; [exact T|]. apply Forall2_cons; [apply trim_spec; vm_compute; reflexivity|constructor].
Qed.

(* ---- C41: bytes that are not UTF-8 ---- *)
Lemma ascii_lossy (c : byte) : c < 128 -> lossy [c] = [c].
Proof. intros L. apply (lossy_ascii [c] []). cbn. apply N.ltb_lt in L. now rewrite L. Qed.
Definition shown_lexes (ls : list lex) : bytes := concat (map (fun l => lossy (lexb l)) ls).
Lemma shown_app x y : shown_lexes (x ++ y) = shown_lexes x ++ shown_lexes y.
Proof. unfold shown_lexes. now rewrite map_app, concat_app. Qed.
Lemma shown_cons l y : shown_lexes (l :: y) = lossy (lexb l) ++ shown_lexes y.
Proof. reflexivity. Qed.
Lemma shown_puns (x : bytes) : forallb (fun c => c <? 128) x = true -> shown_lexes (puns x) = x.
Proof.
  induction x as [|c x IH]; [reflexivity|]. cbn [forallb puns map]. intros H. apply andb_prop in H as [H1 H2]. apply N.ltb_lt in H1.
  rewrite shown_cons. cbn [lexb]. rewrite (ascii_lossy _ H1). cbn [app]. f_equal. exact (IH H2).
Qed.
Lemma shown_sepl c l : shown_lexes (sepl c l) = sep (shown_lexes c) (map shown_lexes l).
Proof. induction l as [|x r IH]; cbn [sepl sep map]; [reflexivity|]. rewrite !shown_app, IH. destruct r; reflexivity. Qed.
Lemma shown_closel c k : c < 128 -> shown_lexes (closel c k) = closing lossy c k.
Proof.
  intros L. destruct k as [|t s]; [reflexivity|]. unfold closel, closing. rewrite shown_app, !shown_cons. cbn [lexb]. rewrite (ascii_lossy c L).
  replace (shown_lexes []) with (@nil byte) by reflexivity. rewrite !app_nil_r. f_equal. destruct t; [|reflexivity]. rewrite shown_cons. cbn [lexb]. now rewrite (ascii_lossy COMMA ltac:(reflexivity)).
Qed.
Lemma dstr_lossy r : rs_nice r = true -> dstr r = lossy (wstr r).
Proof.
  destruct r as [k i o]. unfold rs_nice, dstr, wstr. cbn [rs_kind rs_id rs_orig]. destruct k as [| | | |p]; try discriminate; try reflexivity.
  intros H. change (lossy p ++ lossy o = lossy (p ++ o)). rewrite (lossy_ascii p o H). f_equal. pose proof (lossy_ascii p [] H) as E. now rewrite !app_nil_r in E.
Qed.
Lemma dscalar_lossy s : sc_nice s = true -> dscalar s = lossy (wscalar s).
Proof. destruct s as [[s| |]|v s|s h|r]; try reflexivity. apply dstr_lossy. Qed.
Lemma dpre_lossy {I} (t : tree I) : tight t = true -> dpre t = lossy (tpre t).
Proof. unfold dpre, tight. destruct (is_blank t); [|reflexivity]. cbn. now destruct (tpre t). Qed.
Lemma lossy_twice x : lossy (lossy x) = lossy x.
Proof. apply lossy_text, text_lossy. Qed.
Lemma dtree_shown {I} (t : tree I) : nice t = true -> dtree t = shown_lexes (lexes t).
Proof.
  induction t as [i p s|i p n k items IH|i p n k items IH] using tree_ind'; cbn [nice lexes dtree]; intros H; apply andb_prop in H as [H1 H2].
  - unfold shown_lexes. cbn. rewrite app_nil_r. now apply dscalar_lossy.
  - rewrite !shown_app, shown_sepl, shown_closel by reflexivity. rewrite (shown_puns (open_if LBRACE k)), (shown_puns (comma_if k)) by (now destruct k).
    f_equal. f_equal. f_equal. rewrite map_map. apply map_ext_Forall. rewrite forallb_forall in H2. rewrite Forall_forall in *. intros [[[ii ip] key] v] X.
    specialize (IH _ X). specialize (H2 _ X). cbn in IH, H2. apply andb_prop in H2 as [K V]. destruct (nice_calm _ V) as [TI _].
    rewrite shown_app, !shown_cons. cbn [lexb]. rewrite (ascii_lossy COLON) by reflexivity. rewrite (IH V), (dstr_lossy _ K), (dpre_lossy _ TI), <- !app_assoc. reflexivity.
  - rewrite !shown_app, shown_sepl, shown_closel by reflexivity. rewrite (shown_puns (open_if LBRACK k)), (shown_puns (comma_if k)) by (now destruct k).
    f_equal. f_equal. f_equal. rewrite map_map. apply map_ext_Forall. rewrite forallb_forall in H2. rewrite Forall_forall in *. intros [[ii ip] v] X.
    specialize (IH _ X). specialize (H2 _ X). cbn in IH, H2. destruct (nice_calm _ H2) as [TI _].
    rewrite shown_app, shown_cons, shown_app, shown_cons. cbn [lexb]. rewrite (shown_puns (dash_if k)) by (now destruct k). rewrite (IH H2), (dpre_lossy _ TI), lossy_twice, app_nil_r. reflexivity.
Qed.
Lemma ddoc_shown {I} (t : tree I) suf : nice t = true -> ddoc t suf = shown_lexes (lexdoc t suf).
Proof.
  intros H. unfold ddoc, lexdoc. rewrite shown_cons, shown_app, shown_cons. cbn [lexb]. rewrite (dtree_shown t H). replace (shown_lexes []) with (@nil byte) by reflexivity. now rewrite app_nil_r.
Qed.
Lemma nice_tmap {I J} (f : I -> J) (t : tree I) : nice (tmap f t) = nice t.
Proof.
  induction t as [i p s|i p n k items IH|i p n k items IH] using tree_ind'; cbn [nice tmap]; [reflexivity| |].
  - f_equal; [destruct k; [|reflexivity]; cbn; now destruct items|]. apply forallb_map_ext. revert IH. apply Forall_impl. intros [[[ii ip] key] v] H. cbn in *. now rewrite H.
  - f_equal; [destruct k; [|reflexivity]; cbn; now destruct items|]. apply forallb_map_ext. revert IH. apply Forall_impl. intros [[ii ip] v] H. cbn in *. now rewrite H.
Qed.
(* What is shown is what is written, with every key, scalar and piece of layout made valid
   UTF-8 on its own. *)
Theorem C41_shown : forall hash input doc, from_slice hash input = Ok doc -> no_collision hash (doc_data doc) ->
  exists h ls ls' ys, input = h ++ flat ls /\ header h /\ Forall lay_ok ls /\ steps input ls ls' /\ toks ls' = toks ls /\
    write_to doc = Ok (flat ls') /\ Forall2 (fun l y => made_valid (lexb l) y) ls' ys /\ to_string doc = Ok (concat ys).
Proof.
  intros hash input doc E N. pose proof (from_slice_cases hash input) as H. rewrite E in H.
  destruct H as (t & suf & h & body & M & P & H1 & H2 & ls & H3 & H4 & H5). apply parse_nice in P as [P _]. unfold shape in P. rewrite nice_tmap in P.
  exists h, ls, (lexdoc t suf), (map (fun l => lossy (lexb l)) (lexdoc t suf)). repeat split; auto.
  - now rewrite H3.
  - now apply steps_toks in H5.
  - rewrite flat_lexdoc. now apply (models_write_to hash).
  - generalize (lexdoc t suf). induction l as [|x l IH]; constructor; [now apply lossy_spec|exact IH].
  - rewrite (models_to_string hash doc t suf N M). f_equal. now apply ddoc_shown.
Qed.
Print Assumptions C41_shown.
Lemma char_text c s : In c (chars s) -> text c.
Proof.
  intros J. assert (T : text (lossy c)) by apply text_lossy. revert J. unfold chars. generalize (length s) as f. intros f. revert s. induction f as [|f IH]; intros s; [destruct s; intros []|].
  destruct s as [|a r]; [intros []|]. cbn [chars_f]. pose proof (decode1_split a r) as D. destruct (decode1 a r) as [ok n]. destruct D as [_ D].
  intros [<-|J]; [|eapply IH; exact J]. destruct ok.
  - apply utf8_text, utf8_spec. exists [firstn n (a :: r)]. split; [cbn; now rewrite app_nil_r|auto].
  - apply utf8_text. reflexivity.
Qed.
Lemma dstr_text r : text (dstr r).
Proof.
  destruct r as [k i o]. unfold dstr. cbn [rs_kind rs_id rs_orig]. destruct k as [| | | |p]; try apply text_lossy.
  - apply ascii_text; [reflexivity|]. apply text_app; [|now apply ascii_text; [|constructor]]. enough (G : forall acc, text (esc_single_disp_body acc i)) by apply G. induction i as [|c i IH]; intros acc; cbn [esc_single_disp_body]; [apply text_lossy|].
    destruct (c =? SQUOTE); [|apply IH]. apply text_app; [apply text_lossy|]. do 2 (apply ascii_text; [reflexivity|]). apply IH.
  - apply ascii_text; [reflexivity|]. apply text_app; [|now apply ascii_text; [|constructor]]. pose proof (fun c => char_text c i) as H. induction (chars i) as [|c l IH]; [constructor|]. cbn [flat_map].
    apply text_app; [|apply IH; intros; apply H; now right]. specialize (H c (or_introl eq_refl)). destruct c as [|a [|]]; auto.
    destruct (N.lt_ge_cases a 128) as [L|G]; [now apply esc_double_ascii|]. now rewrite high_plain.
  - apply text_app; apply text_lossy.
Qed.
Lemma dscalar_text s : text (dscalar s).
Proof. destruct s as [[s| |]|v s|s h|r]; cbn; try apply text_lossy; [now apply ascii_text; [|constructor]|constructor|apply dstr_text]. Qed.
Lemma dpre_text {I} (t : tree I) : text (dpre t).
Proof. unfold dpre. destruct (is_blank t); [constructor|apply text_lossy]. Qed.
Lemma dclosing_text c k : c < 128 -> text (closing lossy c k).
Proof.
  intros L. destruct k as [|t s]; cbn; [constructor|]. apply text_app; [destruct t; [now apply ascii_text; [|constructor]|constructor]|]. apply text_app; [apply text_lossy|now apply ascii_text; [|constructor]].
Qed.
Lemma dtree_text {I} (t : tree I) : text (dtree t).
Proof.
  induction t as [i p s|i p n k items IH|i p n k items IH] using tree_ind'; cbn [dtree]; [apply dscalar_text| |]; (apply text_app; [now apply open_if_text|]);
    (apply text_app; [|now apply dclosing_text]); (apply sep_text; [apply comma_if_text|]); apply Forall_map; revert IH; apply Forall_impl.
  - intros [[[ii ip] key] v] H. cbn in H. apply text_app; [apply text_lossy|]. apply text_app; [apply dstr_text|]. apply ascii_text; [reflexivity|]. apply text_app; [apply dpre_text|exact H].
  - intros [[ii ip] v] H. cbn in H. apply text_app; [apply text_lossy|]. apply text_app; [apply dash_if_text|]. apply text_app; [apply dpre_text|exact H].
Qed.
(* What is shown is valid UTF-8, whatever bytes were parsed or put into the document. *)
Theorem C41_valid : forall hash doc, built hash doc -> no_collision hash (doc_data doc) -> exists out, to_string doc = Ok out /\ valid out.
Proof.
  intros hash doc B N. destruct (built_models _ _ _ _ B) as (t & suf & M). exists (ddoc t suf). split; [exact (models_to_string hash doc t suf N M)|].
  apply utf8_spec, utf8_text. unfold ddoc. apply text_app; [apply text_lossy|]. apply text_app; [apply dtree_text|apply text_lossy].
Qed.
Print Assumptions C41_valid.
Definition odd_input : bytes := b "k: " ++ [255; 226; 130; NEWLINE] ++ b "l: " ++ [SQUOTE; 97; 240; 159; 152; SQUOTE].
Example C41_case : exists doc, load odd_input = Ok doc /\ write_to doc = Ok odd_input /\
  to_string doc = Ok (b "k: " ++ [239; 191; 189; 239; 191; 189; NEWLINE] ++ b "l: " ++ [SQUOTE; 97; 239; 191; 189; SQUOTE]).
Proof. eexists. split; [vm_compute; reflexivity|]. split; vm_compute; reflexivity. Qed.
Example C41_case_shown : exists doc out, load odd_input = Ok doc /\ to_string doc = Ok out /\ valid out.
Proof.
  assert (L : exists doc, load odd_input = Ok doc) by (eexists; vm_compute; reflexivity). destruct L as (doc & L).
  destruct (C41_valid idhash doc (built_load _ _ L) (id_no_collision _)) as (out & H1 & H2). exists doc, out. auto.
Qed.
(* One bad part: three bytes of an encoding of four. *)
Example C41_part : made_valid [240; 159; 152; 97] [239; 191; 189; 97].
Proof. apply lossy_spec. vm_compute. reflexivity. Qed.
Print Assumptions trim_spec.
Print Assumptions lossy_spec.
Print Assumptions utf8_spec.
