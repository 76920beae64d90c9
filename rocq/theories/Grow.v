(* Edits of laid out trees: writing scalars, adding items and taking items away. *)
From Coq Require Import String.
From Coq Require Import List NArith Bool Arith Lia.
From Verif Require Import Bytes Utf8 Data Parser Render Tree Abs Refine Utf8Props Scan Api Ctx Edit Reads ReadsSound Shown Plain Grammar Laid GrammarSound Swap Repost.
Import ListNotations.
Local Open Scope N_scope.

(* ---- scalars that can be written ---- *)
Definition written (x : bytes) (d : datum) : Prop :=
  (plain_line x /\ plain_datum x d) \/ exists s, quoted_text x s /\ d = DStr s.
(* inside flow collections, whatever follows *)
Definition portable (x : bytes) (d : datum) : Prop :=
  (exists h, number_text x h /\ d = DNum x h) \/ exists s, quoted_text x s /\ d = DStr s.
Lemma written_leaf x d post : written x d -> ended post -> leaf x d post.
Proof.
  intros [[P D]|(s & Q & ->)] E; [now apply lf_plain|]. apply lf_quoted; [exact Q|now apply ended_breaks].
Qed.
Lemma quoted_bracket x s : quoted_text x s -> ~ bracket x.
Proof. intros Q. destruct (quoted_hd _ _ Q) as (c & r & -> & [->| ->]); unfold bracket; cbn; intuition discriminate. Qed.
Lemma written_bracket x d : written x d -> ~ bracket x.
Proof.
  intros [[((c & r & -> & W & I & _) & _) _]|(s & Q & _)]; [|now apply (quoted_bracket x s)]. unfold bracket. cbn [hd]. intros B. apply I. cbn in *. tauto.
Qed.
Lemma portable_bracket x d : portable x d -> ~ bracket x.
Proof.
  intros [(h & U & _)|(s & Q & _)]; [|now apply (quoted_bracket x s)]. destruct (number_hd _ _ U) as (c & r & -> & H). unfold bracket. cbn.
  unfold digit, DOT, DASH in H. intros [<-|[<-|[]]]; lia.
Qed.
Lemma portable_item x d c : portable x d -> In c (b ",]}#") \/ white c -> flow_item x d c.
Proof. intros [(h & U & ->)|(s & Q & ->)] C; [now apply fi_number|now apply fi_quoted]. Qed.
Lemma number_plain x h : number_text x h -> plain_line x.
Proof.
  intros U.
  assert (NW : forall c, In c x -> ~ white c /\ ~ In c [HASH; DQUOTE; SQUOTE; LBRACK; LBRACE; GT; PIPE] /\ c <> COLON /\ c <> NEWLINE).
  { intros c I. apply (number_not x h (fun c => ~ white c /\ ~ In c [HASH; DQUOTE; SQUOTE; LBRACK; LBRACE; GT; PIPE] /\ c <> COLON /\ c <> NEWLINE) c U I); [|cbn; intuition discriminate..]. unfold digit, white. intros e D. cbn.
    unfold HASH, DQUOTE, SQUOTE, LBRACK, LBRACE, GT, PIPE, COLON, NEWLINE. lia. }
  destruct (number_hd _ _ U) as (c & r & -> & _). split; [|split].
  - exists c, r. split; [reflexivity|]. destruct (NW c (or_introl eq_refl)) as (W & I & _). split; [exact W|]. split; [exact I|].
    intros ->. destruct r as [|c' r]; [|exists c', r; split; [reflexivity|apply (NW c'); right; now left]]. exfalso.
    destruct U as [(fl & U & _)|(y & fl & E & U & _)]; destruct (unsigned_hd _ _ U) as (c & r & E' & D).
    + injection E' as <- <-. unfold digit, DASH, DOT in D. lia.
    + subst y. discriminate E.
  - split; [intros I; now apply (NW NEWLINE I)|]. intros a e E. exfalso. destruct (NW COLON) as (_ & _ & X & _); [|now elim X]. unfold bytes, byte in *. rewrite E. apply in_or_app. right. now left.
  - apply (NW (last (c :: r) 0)). clear. revert c. induction r as [|c' r IH]; intros c; [now left|]. right. exact (IH c').
Qed.
Lemma portable_written x d : portable x d -> written x d.
Proof. intros [(h & U & ->)|H]; [left|now right]. split; [now apply (number_plain x h)|now constructor]. Qed.
Definition allowed (s : slot) (x : bytes) (d : datum) : Prop :=
  match s with
  | SRoot => written x d /\ doc_start x
  | SItem _ c => portable x d \/ (flow_word x /\ plain_datum x d /\ In c (b ",]}"))
  | _ => written x d
  end.
Lemma word_bracket x : flow_word x -> ~ bracket x.
Proof. intros (c & r & -> & _ & _ & I & _). unfold bracket. cbn in *. tauto. Qed.
Lemma flow_visible v d : lflow v d -> wtree v <> [].
Proof. intros [i p n tr suf items l _|i p n tr suf items l _]; discriminate. Qed.
(* The layout before a scalar in a slot. *)
Definition pre_ok (s : slot) (p : bytes) : Prop :=
  match s with
  | SRoot => closed p
  | SItem sq _ => closed p /\ (sq = true -> utf8 p = true)
  | _ => gap p
  end.
Lemma frame_pre s lt p n post : frame s lt p n post -> pre_ok s p.
Proof.
  destruct s as [|m|m|sq c]; cbn [frame pre_ok].
  - intros [H _]. eapply line_start_closed; eauto.
  - intros [H _]. eapply newline_gap; eauto.
  - intros [(B & N & _)|[H _]]; [now apply blanks_gap|]. eapply newline_gap; eauto.
  - easy.
Qed.
Lemma fits_pre s (v : tree unit) d post : fits s v d post -> wtree v <> [] -> pre_ok s (tpre v).
Proof.
  intros F VI. destruct v as [i p sc|i p n [|tr suf] its|i p n [|tr suf] its]; cbn [tpre]; destruct i.
  - destruct s as [|n|n|sq y]; cbn [fits pre_ok] in *.
    + inversion F; subst; auto.
    + inversion F; subst; auto. now elim VI.
    + inversion F; subst; auto.
    + destruct F as (C & U & _). auto.
  - apply fits_bmap in F as (L & _ & FR & _). eapply frame_pre; eauto.
  - apply fits_fmap in F as (L & _ & FR & _). destruct s; cbn [flow_frame pre_ok] in *; tauto.
  - apply fits_bseq in F as (L & _ & FR & _). eapply frame_pre; eauto.
  - apply fits_fseq in F as (L & _ & FR & _). destruct s; cbn [flow_frame pre_ok] in *; tauto.
Qed.
Lemma leaf_fits s p post i sc d' : pre_ok s p -> follow_ok s post -> allowed s (wscalar sc) d' -> fits s (TLeaf i p sc) d' post.
Proof.
  intros P FO A. destruct s as [|n|n|sq y]; cbn [fits allowed pre_ok follow_ok] in *.
  - destruct A as [A DS], FO as [LY E]. apply ldoc_leaf; [exact P|now apply (written_bracket _ d')|now apply written_leaf|exact LY|exact DS].
  - destruct FO as [_ E]. apply lv_leaf; [exact P|now apply (written_bracket _ d')|now apply written_leaf].
  - destruct FO as [_ E]. apply ld_leaf; [exact P|now apply (written_bracket _ d')|now apply written_leaf].
  - destruct P as [C U]. split; [exact C|]. split; [exact U|]. destruct A as [A|(W & D & I)].
    + apply li_leaf; [now apply (portable_bracket _ d')|]. now apply portable_item.
    + apply li_leaf; [now apply word_bracket|]. now apply fi_word.
Qed.

(* ---- flow collections ---- *)
Lemma litem_next v d c c' : litem v d c -> In c' (b ",]}") -> litem v d c'.
Proof.
  intros [i p sc e y NB F|w e y F] I; [|now apply li_flow]. apply li_leaf; [exact NB|].
  destruct F as [x e y W P _|x h y U _|x v0 y Q _|x e y FL]; [now apply fi_word|apply fi_number; [exact U|left]|apply fi_quoted; [exact Q|left]|now apply fi_nested];
    cbn in *; tauto.
Qed.
Lemma closing_first tr suf : closed suf -> In (hd EOF (closing (fun x => x) RBRACK (CInline tr suf))) (b ",]}#") \/ white (hd EOF (closing (fun x => x) RBRACK (CInline tr suf))).
Proof. intros C. cbn [closing]. destruct tr; [left; now left|]. destruct C as [|c w W CL|s w NN CL]; cbn; [tauto|now right|tauto]. Qed.
Lemma lfseq_append items tr suf L i ip v d : lfseq items tr suf L -> closed ip -> utf8 ip = true -> closed (tpre v) -> utf8 (tpre v) = true ->
  litem v d (hd EOF (closing (fun x => x) RBRACK (CInline tr suf))) -> lfseq (items ++ [(i, ip, v)]) tr suf (L ++ [d]).
Proof.
  intros F CI UI CP UP A. revert L F. induction items as [|[[j jp] w] items IH]; intros L F; cbn [app].
  - inversion F; subst. apply lfs_last; auto.
  - inversion F as [|? ? ? e ? ? CJ UJ CW UW CS LI|? ? ? e ? ? ? ? l' CJ UJ CW UW LI R]; subst; cbn [app].
    + apply lfs_cons; auto; [apply (litem_next _ _ _ _ LI); now left|]. apply lfs_last; auto.
    + apply lfs_cons; auto.
Qed.
Lemma lfmap_append items tr suf L i ip k v d : lfmap items tr suf L -> (items = [] -> suf = []) -> closed ip -> flow_key k -> closed (tpre v) ->
  litem v d (if tr then COMMA else RBRACE) -> lfmap (items ++ [(i, ip, RS KBare k k, v)]) tr suf (L ++ [(k, d)]).
Proof.
  intros F NE CI FK CP A. revert L F NE. induction items as [|[[[j jp] jk] w] items IH]; intros L F NE; cbn [app].
  - inversion F; subst. apply lfm_last; auto.
  - inversion F as [|? ? kk ? e ? ? CJ FJ CW CS TS LI|? ? kk ? e ? ? ? ? l' CJ FJ CW LI R]; subst; cbn [app].
    + apply lfm_cons; auto; [apply (litem_next _ _ _ _ LI); now left|]. apply lfm_last; auto.
    + apply lfm_cons; auto. apply (IH l' R). discriminate.
Qed.
Lemma lfseq_drop l it r tr suf L : lfseq (l ++ it :: r) tr suf L -> r <> [] ->
  exists L1 x L2, L = L1 ++ x :: L2 /\ length L1 = length l /\ lfseq (l ++ r) tr suf (L1 ++ L2).
Proof.
  intros F NE. revert L F. induction l as [|[[j jp] w] l IH]; intros L F; cbn [app] in *.
  - inversion F as [|? ? ? e ? ? CJ UJ CW UW CS LI|? ? ? e ? ? ? ? l' CJ UJ CW UW LI R]; subst; [now elim NE|].
    exists [], e, l'. auto.
  - revert F. destruct (l ++ it :: r) as [|jt rest] eqn:X; intros F; [now destruct l|].
    inversion F as [| |? ? ? e ? ? ? ? l' CJ UJ CW UW LI R]; subst.
    destruct (IH _ R) as (L1 & x & L2 & -> & LE & R'). exists (e :: L1), x, L2. split; [reflexivity|]. split; [cbn; f_equal; exact LE|].
    cbn [app]. destruct (l ++ r) as [|jt' rest'] eqn:E; [apply app_eq_nil in E as [_ E]; now elim NE|]. now apply lfs_cons.
Qed.
Lemma lfmap_drop l it r tr suf L : lfmap (l ++ it :: r) tr suf L -> l ++ r <> [] ->
  exists L1 x L2, L = L1 ++ x :: L2 /\ length L1 = length l /\ lfmap (l ++ r) tr suf (L1 ++ L2).
Proof.
  intros F NE. revert L F. induction l as [|[[[j jp] jk] w] l IH]; intros L F; cbn [app] in *.
  - inversion F as [|? ? kk ? e ? ? CJ FJ CW CS TS LI|? ? kk ? e ? ? ? ? l' CJ FJ CW LI R]; subst; [now elim NE|].
    exists [], (kk, e), l'. auto.
  - revert F. destruct (l ++ it :: r) as [|jt rest] eqn:X; intros F; [now destruct l|].
    inversion F as [| |? ? kk ? e ? ? ? ? l' CJ FJ CW LI R]; subst.
    destruct (l ++ r) as [|jt' rest'] eqn:E.
    + apply app_eq_nil in E as [-> ->]. injection X as <- <-. inversion R as [|? ? kk' ? e' ? ? CJ' FJ' CW' CS' TS' LI'|]; subst.
      exists [(kk, e)], (kk', e'), []. split; [reflexivity|]. split; [reflexivity|]. cbn [app]. apply lfm_last; auto.
      apply (litem_next _ _ _ _ LI). destruct tr; cbn; auto.
    + destruct (IH ltac:(discriminate) _ R) as (L1 & x & L2 & -> & LE & R'). exists ((kk, e) :: L1), x, L2. split; [reflexivity|]. split; [cbn; f_equal; exact LE|].
      cbn [app]. now apply lfm_cons.
Qed.
