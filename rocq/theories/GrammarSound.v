(* The parser reads the texts of Grammar.v as the data they stand for. *)
From Coq Require Import String.
From Coq Require Import List NArith Bool Arith Lia.
From Verif Require Import Bytes Utf8 Data Parser Render Tree Abs Utf8Props Scan Num Reads ReadsSound Shown Plain Grammar Laid.
Import ListNotations.
Local Open Scope N_scope.

(* ---- columns ---- *)
Definition lead_text (t : bytes) : Prop := Forall (fun c => blank c \/ c = DASH) t.
Definition clean (n : nat) (pre : bytes) : Prop :=
  exists a t, pre = a ++ t /\ (a = [] \/ exists a', a = a' ++ [NEWLINE]) /\ lead_text t /\ length t = n.
Lemma after_nl a t : (a = [] \/ exists a', a = a' ++ [NEWLINE]) -> ~ In NEWLINE t -> after_last_nl (a ++ t) = t.
Proof.
  intros A N. assert (E : existsb (N.eqb NEWLINE) t = false).
  { apply not_true_is_false. intros E. apply existsb_exists in E as (c & I & Q). apply N.eqb_eq in Q. now subst. }
  assert (T : after_last_nl t = t).
  { destruct t as [|c t]; [reflexivity|]. cbn [after_last_nl]. cbn [existsb] in E. apply orb_false_iff in E as [E1 E2]. rewrite E2.
    rewrite N.eqb_sym, E1. reflexivity. }
  destruct A as [->|[a' ->]]; [exact T|]. rewrite <- app_assoc. cbn [app].
  induction a' as [|c a' IH].
  - cbn [app after_last_nl]. rewrite E. reflexivity.
  - cbn [app after_last_nl]. assert (existsb (N.eqb NEWLINE) (a' ++ NEWLINE :: t) = true) as ->; [|exact IH].
    rewrite existsb_app. cbn [existsb]. rewrite N.eqb_refl. cbn. apply orb_true_r.
Qed.
Lemma lead_ascii t : lead_text t -> length (chars t) = length t /\ ~ In NEWLINE t.
Proof.
  intros H. assert (A : Forall (fun c => c < 128 /\ c <> NEWLINE) t).
  { eapply Forall_impl; [|exact H]. intros c [B| ->]; [|split; [reflexivity|discriminate]]. cbn in B. unfold NEWLINE. lia. }
  clear H. induction A as [|c t [C N] A [IH1 IH2]]; [split; [reflexivity|intros []]|]. split.
  - change (c :: t) with ([c] ++ t). rewrite chars_char by now apply ascii_uchar. cbn. now rewrite IH1.
  - intros [->|I]; auto.
Qed.
Lemma clean_col n pre : clean n pre -> col pre = n.
Proof.
  intros (a & t & -> & A & L & <-). unfold col, count_indent. apply lead_ascii in L as [L N]. pose proof (after_nl a t A N) as Q. unfold bytes, byte in *. rewrite Q. exact L.
Qed.
Lemma clean_dash n pre : clean n pre -> clean (1 + n) (pre ++ b "-").
Proof.
  intros (a & t & -> & A & L & <-). exists a, (t ++ b "-"). split; [now rewrite app_assoc|]. split; [exact A|]. split.
  - apply Forall_app. split; [exact L|]. constructor; [now right|constructor].
  - rewrite app_length. cbn. lia.
Qed.
Lemma clean_blanks n pre w : clean n pre -> Forall blank w -> clean (n + length w) (pre ++ w).
Proof.
  intros (a & t & -> & A & L & <-) B. exists a, (t ++ w). split; [now rewrite app_assoc|]. split; [exact A|]. split.
  - apply Forall_app. split; [exact L|]. eapply Forall_impl; [|exact B]. auto.
  - apply app_length.
Qed.
Lemma newline_clean m w pre : newline_at m w -> clean m (pre ++ w).
Proof.
  intros (_ & u & t & -> & _ & B & <-). exists (pre ++ u ++ [NEWLINE]), t. split; [now rewrite <- !app_assoc|]. split.
  - right. exists (pre ++ u). now rewrite <- app_assoc.
  - split; [|reflexivity]. eapply Forall_impl; [|exact B]. auto.
Qed.
Lemma newline_col m w pre : newline_at m w -> col (pre ++ w) = m.
Proof. intros H. apply clean_col. now apply newline_clean. Qed.
Lemma newline_in m w : newline_at m w -> In NEWLINE w.
Proof. intros (_ & u & t & -> & _). apply in_or_app. right. now left. Qed.
Lemma line_start_clean n w : line_start n w -> clean n w /\ closed w.
Proof.
  intros [[B L]|(u & t & -> & C & B & L)].
  - split; [|now apply blanks_closed]. exists [], w. split; [reflexivity|]. split; [auto|]. split; [|exact L]. eapply Forall_impl; [|exact B]. auto.
  - split; [|rewrite app_assoc; apply closed_app; [exact C|now apply blanks_closed]].
    exists (u ++ [NEWLINE]), t. split; [now rewrite <- app_assoc|]. split; [right; eauto|]. split; [|exact L]. eapply Forall_impl; [|exact B]. auto.
Qed.

(* ---- flow collections ---- *)
(* A family of trees that differ only in the layout before them. *)
Definition family (f : bytes -> tree unit) (x : bytes) (d : datum) : Prop :=
  forall p, tpre (f p) = p /\ wtree (f p) = x /\ see (f p) = d.
Definition opens (x : bytes) : Prop := x <> [] /\ stops x /\ ~ In (hd EOF x) [RBRACK; RBRACE; COMMA; EOF].
Definition Pitem (x : bytes) (d : datum) (c : byte) : Prop := opens x /\ exists f, family f x d /\ (forall p, litem (f p) d c) /\
  forall p pre post, hd EOF post = c -> reads true None pre (f p) post.
Definition Pflow (x : bytes) (d : datum) : Prop := opens x /\ exists f, family f x d /\ (forall p, lflow (f p) d) /\
  forall inl pi p pre post, reads inl pi pre (f p) post.
Definition Pflow_seq (x : bytes) (l : list datum) : Prop := exists (items : list (sitem unit)) tr suf,
  x = sep [COMMA] (map ftext1 items) ++ closing (fun x => x) RBRACK (CInline tr suf) /\
  map (fun '(_, _, v) => see v) items = l /\ Forall (fun '(_, ip, _) => lossy ip = ip) items /\ (items = [] -> tr = false /\ closed suf) /\ lfseq items tr suf l /\
  forall pre post, fsreads pre items tr suf post.
Definition Pflow_map (x : bytes) (l : list (bytes * datum)) : Prop := exists (items : list (mitem unit)) tr suf,
  x = sep [COMMA] (map mtext1 items) ++ closing (fun x => x) RBRACE (CInline tr suf) /\
  map (fun '(_, _, key, v) => (rs_id key, see v)) items = l /\ (items = [] -> tr = false /\ closed suf) /\ lfmap items tr suf l /\
  forall pre post, fmreads pre items tr suf post.
Lemma opens_hd c r : ~ white c -> ~ In c [HASH; RBRACK; RBRACE; COMMA; EOF] -> opens (c :: r).
Proof. intros W I. split; [discriminate|]. split; [split; cbn; auto|]; cbn in *; intuition. Qed.
Lemma opens_cut w x r : closed w -> opens x -> cut w (x ++ r).
Proof. intros C (N & S & _). apply closed_cut; [exact C|]. destruct x as [|c x]; [congruence|]. exact S. Qed.
Lemma opens_not x r c : opens x -> In c [RBRACK; RBRACE; COMMA; EOF] -> hd EOF (x ++ r) <> c.
Proof. intros (N & _ & I) J. destruct x as [|a x]; [congruence|]. cbn [app hd] in *. intros ->. auto. Qed.
Lemma word_item x d c : flow_word x -> plain_datum x d -> In c (b ",]}") -> Pitem x d c.
Proof.
  intros (a & r & E & W & D & I & F) P C.
  assert (NH : forall h, ~ number_text x h).
  { intros h U. apply number_hd in U as (a' & r' & E' & H). rewrite E in E'. injection E' as <- _.
    destruct H as [H|[->| ->]]; [now apply D| |]; apply I; cbn; auto 10. }
  assert (NI : forall k, In k (b "-.#""'[{>|") -> a <> k) by (intros k K ->; now apply I).
  split.
  - subst x. apply opens_hd; [exact W|]. inversion F as [|? ? [F1 F2] _]; subst. cbn in *.
    unfold HASH, RBRACK, RBRACE, COMMA, EOF in *. intuition.
  - exists (fun p => TLeaf tt p (a_plain x)). split.
    + intros p. split; [reflexivity|]. split; [apply wscalar_plain|]. now rewrite <- (a_plain_see x d P NH).
    + split. { intros p. apply li_leaf; rewrite wscalar_plain; [|apply fi_word; auto; exists a, r; auto]. unfold bracket. subst x. cbn [hd]. intros J. apply I. cbn in J |- *. tauto. }
      intros p pre post H. constructor. apply L_flow.
      * subst x. unfold special. cbn [app hd]. rewrite andb_false_r. cbn [orb].
        rewrite !orb_false_iff, !N.eqb_neq. repeat split; apply NI; cbn; auto 10.
      * destruct (num_read true (x ++ post)) as [[k h]|] eqn:R; [|reflexivity]. exfalso.
        apply num_read_inv in R as (y & r' & Q & -> & U & _). apply number_hd in U as (a' & r'' & -> & H').
        subst x. cbn in Q. injection Q as <- _. destruct H' as [H'|[->| ->]]; [now apply D| |]; apply I; cbn; auto 10.
      * rewrite ctl_scan_app.
        -- destruct post as [|c' post]; cbn in H; [subst c; cbn in C; unfold EOF in C; intuition discriminate|]. subst c'. cbn.
           assert (is_ctl c = true) as ->; [|apply Nat.add_0_r]. cbn in C. destruct C as [<-|[<-|[<-|[]]]]; reflexivity.
        -- rewrite Forall_forall in F. intros e J. apply F in J as [J Z]. unfold is_ctl. rewrite !orb_false_iff, !N.eqb_neq.
           cbn in J. unfold COMMA, COLON, RBRACK, RBRACE, EOF. repeat split; intuition.
Qed.
Lemma number_item x h c : number_text x h -> In c (b ",]}#") \/ white c -> Pitem x (DNum x h) c.
Proof.
  intros U C. pose proof (number_hd _ _ U) as (a & r & E & H). split.
  - subst x. apply opens_hd; unfold white; cbn; unfold digit, DOT, DASH, HASH, RBRACK, RBRACE, COMMA, EOF in *; intuition lia.
  - exists (fun p => TLeaf tt p (ScNum x h)). split; [intros p; repeat split|].
    split. { intros p. apply li_leaf; [|now apply fi_number]. unfold bracket. cbn [wscalar]. subst x. cbn. unfold digit, DOT, DASH in H. lia. }
    intros p pre post Q. constructor. apply L_num.
    + subst x. unfold special. cbn [app hd]. rewrite andb_false_r. cbn [orb]. rewrite !orb_false_iff, !N.eqb_neq.
      unfold digit, DOT, DASH, DQUOTE, SQUOTE, LBRACK, LBRACE, GT, PIPE in *. repeat split; lia.
    + apply num_read_number; [exact U| |now left]. unfold numless. rewrite Q. split.
      * apply not_true_is_false. rewrite digit_iff. unfold digit, white in *. cbn in C. intuition lia.
      * unfold white in C. cbn in *. unfold DOT. intuition lia.
Qed.
Lemma quoted_hd x v : quoted_text x v -> exists c r, x = c :: r /\ (c = DQUOTE \/ c = SQUOTE).
Proof. intros [y u _|y u _]; cbn; eauto. Qed.
Lemma quoted_item x v c : quoted_text x v -> In c (b ",]}#") \/ white c -> Pitem x (DStr v) c.
Proof.
  intros U C. pose proof (quoted_hd _ _ U) as (a & r & E & H). split.
  - subst x. apply opens_hd; unfold white; cbn; unfold DQUOTE, SQUOTE, HASH, RBRACK, RBRACE, COMMA, EOF in *; intuition lia.
  - exists (fun p => TLeaf tt p (ScStr (RS KOriginal v x))). split; [intros p; repeat split|].
    split. { intros p. apply li_leaf; [|now apply fi_quoted]. unfold bracket. subst x. cbn. unfold DQUOTE, SQUOTE in H. lia. }
    intros p pre post Q. constructor. apply quoted_scal; auto.
    rewrite Q. unfold white in C. cbn in C. unfold SQUOTE. intuition lia.
Qed.
Lemma sep_cons {A} (g : A -> bytes) c a it rest : sep c (map g (a :: it :: rest)) = g a ++ c ++ sep c (map g (it :: rest)).
Proof. reflexivity. Qed.
Lemma flow_key_reads i k : closed i -> flow_key k -> ~ In COLON k /\ ~ In EOF k /\ cut i (k ++ [COLON]) /\ hd EOF (k ++ [COLON]) <> RBRACE.
Proof.
  intros C (c & r & E & W & I & F). rewrite Forall_forall in F. repeat split.
  - intros J. apply F in J as [J _]. apply J. cbn. auto.
  - intros J. apply F in J as [_ J]. now apply J.
  - apply closed_cut; [exact C|]. subst k. split; cbn; [exact W|]. intros ->. apply I. cbn. auto.
  - subst k. cbn. intros ->. destruct (F RBRACE ltac:(now left)) as [J _]. apply J. cbn. auto.
Qed.
Ltac norm_app := repeat first [rewrite <- app_assoc | rewrite app_nil_r | progress cbn [app]].
Lemma flow_sound : (forall x d c, flow_item x d c -> Pitem x d c) /\ (forall x d, flow x d -> Pflow x d) /\
  (forall x l, flow_seq x l -> Pflow_seq x l) /\ (forall x l, flow_map x l -> Pflow_map x l).
Proof.
  apply flow_all.
  - apply word_item.
  - apply number_item.
  - apply quoted_item.
  - intros x d c _ (O & f & F & LD & R). split; [exact O|]. exists f. split; [exact F|]. split; [intros p; apply li_flow, LD|]. intros p pre post _. apply R.
  - intros x l _ (items & tr & suf & E & S & LF & _ & LD & R). split; [apply opens_hd; cbn; intuition discriminate|].
    exists (fun p => TSeq tt p 0 (CInline tr suf) items). split.
    + intros p. split; [reflexivity|]. split; [|cbn; now rewrite S]. cbn [wtree open_if comma_if]. rewrite E. cbn [dash_if].
      change (b "[") with [LBRACK]. f_equal. f_equal. f_equal. apply map_ext_Forall. eapply Forall_impl; [|exact LF]. intros [[? ip] v] Q. cbn [ftext1 app]. now rewrite Q.
    + split; [intros p; now apply lf_seq|]. intros inl pi p pre post. constructor. apply R.
  - intros x l _ (items & tr & suf & E & S & _ & LD & R). split; [apply opens_hd; cbn; intuition discriminate|].
    exists (fun p => TMap tt p 0 (CInline tr suf) items). split.
    + intros p. split; [reflexivity|]. split; [|cbn; now rewrite S]. cbn [wtree open_if comma_if]. rewrite E. reflexivity.
    + split; [intros p; now apply lf_map|]. intros inl pi p pre post. constructor. apply R.
  - intros w C. exists [], false, w. repeat split; auto; [now apply lfs_end|]. intros pre post. apply F_end. apply closed_cut; [exact C|]. split; cbn; intuition discriminate.
  - intros i x d w CI U CW _ (O & f & F & LD & R). destruct (F []) as (P & W & S). exists [(tt, i, f [])], false, w.
    split; [cbn; rewrite P, W, app_nil_r, <- !app_assoc; reflexivity|]. split; [cbn; now rewrite S|].
    split; [repeat constructor; now apply lossy_utf8|]. split; [discriminate|].
    split. { apply lfs_last; rewrite ?P; auto; try apply cl_nil. }
    intros pre post. apply F_last; rewrite ?W.
    + now apply opens_cut.
    + now apply lossy_utf8.
    + exact P.
    + apply opens_not; [exact O|cbn; auto].
    + apply opens_not; [exact O|cbn; auto].
    + apply R. rewrite app_assoc. destruct w; reflexivity.
    + apply closed_cut; [exact CW|]. split; cbn; intuition discriminate.
  - intros i x d y l CI U _ (O & f & F & LD & R) _ (items & tr & suf & E & S & LF & T & LS & RF). destruct (F []) as (P & W & D).
    destruct items as [|it rest].
    + destruct (T eq_refl) as [-> CS]. exists [(tt, i, f [])], true, suf.
      split; [cbn; rewrite P, W, E; cbn; norm_app; reflexivity|]. split; [cbn in *; now rewrite D, S|].
      split; [repeat constructor; now apply lossy_utf8|]. split; [discriminate|].
      split. { inversion LS; subst. apply lfs_last; rewrite ?P; auto; try apply cl_nil. }
      intros pre post. apply F_trail; rewrite ?W.
      * now apply opens_cut.
      * now apply lossy_utf8.
      * exact P.
      * apply opens_not; [exact O|cbn; auto].
      * apply opens_not; [exact O|cbn; auto].
      * now apply R.
      * apply closed_cut; [exact CS|]. split; cbn; intuition discriminate.
    + exists ((tt, i, f []) :: it :: rest), tr, suf.
      split; [rewrite sep_cons; cbn [ftext1]; rewrite P, W, E, <- !app_assoc; reflexivity|]. split; [cbn [map] in *; now rewrite D, S|].
      split; [constructor; [now apply lossy_utf8|exact LF]|]. split; [discriminate|].
      split. { apply lfs_cons; rewrite ?P; auto; try apply cl_nil. }
      intros pre post. apply F_cons; rewrite ?W.
      * now apply opens_cut.
      * now apply lossy_utf8.
      * exact P.
      * apply opens_not; [exact O|cbn; auto].
      * apply opens_not; [exact O|cbn; auto].
      * now apply R.
      * apply RF.
  - intros w C. exists [], false, w. repeat split; auto; [now apply lfm_end|]. intros pre post. apply G_end. apply closed_cut; [exact C|]. split; cbn; intuition discriminate.
  - intros i k w x d CI K CW _ (O & f & F & LD & R). destruct (F w) as (P & W & S). exists [(tt, i, RS KBare k k, f w)], false, [].
    split; [cbn; rewrite P, W; norm_app; reflexivity|]. split; [cbn; now rewrite S|]. split; [discriminate|].
    split. { apply lfm_last; rewrite ?P; auto; try apply cl_nil. }
    intros pre post. destruct (flow_key_reads i k CI K) as (K1 & K2 & K3 & K4). apply G_last; rewrite ?P, ?W; auto.
    + now apply opens_cut.
  - intros i k w x d y l CI K CW _ (O & f & F & LD & R) _ (items & tr & suf & E & S & T & LS & RF). destruct (F w) as (P & W & D).
    destruct (flow_key_reads i k CI K) as (K1 & K2 & K3 & K4). destruct items as [|it rest].
    + destruct (T eq_refl) as [-> CS]. exists [(tt, i, RS KBare k k, f w)], true, suf.
      split; [cbn; rewrite P, W, E; cbn; norm_app; reflexivity|]. split; [cbn in *; now rewrite D, S|]. split; [discriminate|].
      split. { inversion LS; subst. apply lfm_last; rewrite ?P; auto; discriminate. }
      intros pre post. apply G_trail; rewrite ?P, ?W; auto.
      * now apply opens_cut.
      * apply closed_cut; [exact CS|]. split; cbn; intuition discriminate.
    + exists ((tt, i, RS KBare k k, f w) :: it :: rest), tr, suf.
      split; [rewrite sep_cons; cbn [mtext1]; rewrite P, W, E, <- !app_assoc; reflexivity|]. split; [cbn [map] in *; now rewrite D, S|]. split; [discriminate|].
      split. { apply lfm_cons; rewrite ?P; auto. }
      intros pre post. apply G_cons; rewrite ?P, ?W; auto.
      * now apply opens_cut.
Qed.

(* ---- block scalars ---- *)
Lemma trim_line l : block_line l -> trim l = l.
Proof. intros (_ & _ & C & _). now apply clean_trim. Qed.
Lemma nl_count_app a c : nl_count (a ++ c) = (nl_count a + nl_count c)%nat.
Proof. unfold nl_count. now rewrite filter_app, app_length. Qed.
Lemma nl_count_newlines k : nl_count (newlines k) = k.
Proof. induction k as [|k IH]; [reflexivity|]. unfold nl_count, newlines in *. cbn [repeat filter]. rewrite N.eqb_refl. cbn [length]. now rewrite IH. Qed.
Lemma blanks_nl t : Forall blank t -> ~ In NEWLINE t.
Proof. intros F I. rewrite Forall_forall in F. apply F in I. cbn in I. unfold NEWLINE in I. lia. Qed.
Lemma newlines_at k t : (0 < k)%nat -> Forall blank t -> newline_at (length t) (newlines k ++ t) /\ nl_count (newlines k ++ t) = k /\
  forall r, hd EOF ((newlines k ++ t) ++ r) = NEWLINE.
Proof.
  intros K B. destruct k as [|k]; [lia|]. split; [|split].
  - split; [cbn; auto|]. exists (newlines k), t. split; [|split; [|auto]].
    + unfold newlines. cbn [repeat]. rewrite repeat_cons, <- app_assoc. reflexivity.
    + apply closed_app; [apply newlines_closed|apply (newlines_closed 1)].
  - rewrite nl_count_app, nl_count_newlines, nl_count_not by now apply blanks_nl. apply Nat.add_0_r.
  - reflexivity.
Qed.
Lemma line_stops l r : block_line l -> stops (l ++ r) /\ l ++ r <> [].
Proof.
  intros (N & H & C & _). destruct l as [|c q]; [congruence|]. split; [|discriminate]. split; [now apply clean_first in C|exact H].
Qed.
Lemma lines_stops fo m x v r : block_lines fo m x v -> stops (x ++ r) /\ x ++ r <> [].
Proof. intros [l B|l k t y u B _ _ _ _ _]; [now apply line_stops|]. rewrite <- app_assoc. now apply line_stops. Qed.
Definition join_of (fo : bool) : byte := if fo then SPACE else NEWLINE.
Lemma lines_blines fo m x v k t r : block_lines fo m x v -> (0 < k)%nat -> Forall blank t -> (length t < m)%nat -> stops r ->
  forall pre, blines (join_of fo) fo m pre (x ++ (newlines k ++ t) ++ r) x (newlines k ++ t) r v.
Proof.
  intros L K B LT S. destruct (newlines_at k t K B) as (NA & NC & NH). pose proof (newline_closed _ _ NA) as CL.
  induction L as [l BL|l k' t' x v BL FK K' B' LT' L IH]; intros pre.
  - rewrite <- (trim_line l BL) at 3. apply bl_end.
    + now destruct BL as (_ & _ & _ & N).
    + now apply line_stops.
    + right. apply NH.
    + now apply closed_cut.
    + rewrite app_assoc, (newline_col _ _ _ NA). exact LT.
  - destruct (newlines_at k' t' K' B') as (NA' & NC' & NH'). rewrite LT' in NA'.
    assert (E : (l ++ newlines k' ++ t' ++ x) ++ (newlines k ++ t) ++ r = l ++ (newlines k' ++ t') ++ x ++ (newlines k ++ t) ++ r) by (now rewrite <- !app_assoc).
    rewrite E. assert (E2 : l ++ newlines k' ++ t' ++ x = l ++ (newlines k' ++ t') ++ x) by (now rewrite <- !app_assoc). rewrite E2.
    assert (E3 : l ++ (if fo then b " " else newlines k') ++ v = trim l ++ repeat (join_of fo) (if fo then 1%nat else nl_count (newlines k' ++ t')) ++ v).
    { rewrite (trim_line l BL), NC'. now destruct fo. }
    rewrite E3. destruct (lines_stops _ _ _ _ ((newlines k ++ t) ++ r) L) as [LS LN]. apply bl_more.
    + now destruct BL as (_ & _ & _ & N).
    + apply NH'.
    + apply closed_cut; [now apply (newline_closed m)|exact LS].
    + exact LN.
    + rewrite app_assoc, (newline_col _ _ _ NA'). reflexivity.
    + apply IH.
Qed.
Lemma lines_end m x v : block_lines false m x v -> forall pre, blines NEWLINE false m pre x x [] [] v.
Proof.
  remember false as fo eqn:FO. intros L. induction L as [l BL|l k' t' x v BL FK K' B' LT' L IH]; intros pre; subst fo.
  - assert (N : ~ In NEWLINE l) by now destruct BL as (_ & _ & _ & N).
    assert (NN : l <> []) by now destruct BL as (NN & _).
    assert (C : cut [] []) by reflexivity. destruct (le_lt_dec m (col (pre ++ l ++ []))) as [J|J].
    + replace (blines NEWLINE false m pre l l [] [] l) with (blines NEWLINE false m pre (l ++ []) l [] [] (trim l ++ [])) by (rewrite (trim_line l BL), !app_nil_r; reflexivity).
      apply (bl_eof NEWLINE false m pre l []); auto. now rewrite app_nil_r.
    + replace (blines NEWLINE false m pre l l [] [] l) with (blines NEWLINE false m pre (l ++ [] ++ []) l [] [] (trim l)) by (rewrite (trim_line l BL), !app_nil_r; reflexivity).
      apply bl_end; auto. now rewrite !app_nil_r.
  - destruct (newlines_at k' t' K' B') as (NA' & NC' & NH'). rewrite LT' in NA'.
    assert (E2 : l ++ newlines k' ++ t' ++ x = l ++ (newlines k' ++ t') ++ x) by (now rewrite <- !app_assoc). rewrite E2.
    assert (E3 : l ++ newlines k' ++ v = trim l ++ repeat NEWLINE (nl_count (newlines k' ++ t')) ++ v).
    { rewrite (trim_line l BL), NC'. reflexivity. }
    rewrite E3. destruct (lines_stops _ _ _ _ [] L) as [LS LN]. rewrite app_nil_r in LS, LN. apply bl_more.
    + now destruct BL as (_ & _ & _ & N).
    + apply NH'.
    + apply closed_cut; [now apply (newline_closed m)|exact LS].
    + exact LN.
    + rewrite app_assoc, (newline_col _ _ _ NA'). reflexivity.
    + now apply IH.
Qed.
Lemma header_ok a c r : a = GT \/ a = PIPE -> white (hd EOF r) -> bheader (a :: chomp_text c) r.
Proof.
  intros A W. destruct c; [right; exists a, DASH; auto|right; exists a, PLUS; auto|left].
  split; [cbn; intuition (subst; auto)|]. cbn in W. unfold DASH, PLUS. lia.
Qed.
Lemma block_scalar_reads x v post : block_scalar x v post -> exists h o, x = h ++ o /\ (forall pre, scal false pre (ScStr (RS (KMultiline h) v o)) post) /\
  (hd EOF x = GT \/ hd EOF x = PIPE).
Proof.
  intros [fo c m w y u k t r NA M L K B LT S|c m w y u NA L].
  - set (a := if fo then GT else PIPE). exists (a :: chomp_text c), (w ++ y).
    assert (EA : b (if fo then ">" else "|")%string = [a]) by now destruct fo. rewrite EA.
    split; [reflexivity|]. split; [|unfold a; destruct fo; auto]. intros pre.
    assert (HW : forall z, hd EOF (w ++ z) = hd EOF w) by (destruct NA as [W _]; destruct w; [cbn in W; unfold EOF in W; lia|reflexivity]).
    assert (ST : stops r) by (destruct S as [-> |S]; [apply stops_nil|exact S]). destruct (newlines_at k t K B) as (NA' & NC & NH).
    apply L_block.
    + apply header_ok; [unfold a; destruct fo; auto|]. rewrite <- app_assoc, HW. apply NA.
    + assert (EV : u ++ match c with CStrip => [] | _ => newlines k end = u ++ bend (a :: chomp_text c) (newlines k ++ t)).
      { unfold bend. rewrite NC. f_equal. destruct c; unfold a; destruct fo; reflexivity. }
      rewrite EV. rewrite app_assoc.
      eapply bt_next; [..|reflexivity|].
      * apply closed_cut; [now apply (newline_closed m)|]. now apply (lines_stops fo m y u).
      * now apply (newline_in m).
      * rewrite (app_assoc pre), (newline_col _ _ _ NA).
        assert (bjoin (a :: chomp_text c) = join_of fo /\ bfolded (a :: chomp_text c) = fo) as [-> ->] by (unfold a; destruct fo; split; reflexivity).
        now apply lines_blines.
  - exists (PIPE :: chomp_text c), (w ++ y). split; [reflexivity|]. split; [|auto]. intros pre.
    assert (HW : forall z, hd EOF (w ++ z) = hd EOF w) by (destruct NA as [W _]; destruct w; [cbn in W; unfold EOF in W; lia|reflexivity]).
    apply L_block.
    + apply header_ok; [auto|]. rewrite <- app_assoc, HW. apply NA.
    + assert (EV : u = u ++ bend (PIPE :: chomp_text c) []).
      { unfold bend, nl_count. cbn [filter length]. destruct (bchomp _); cbn; now rewrite app_nil_r. }
      rewrite EV. apply (bt_next (PIPE :: chomp_text c) pre w y y [] [] u).
      * apply closed_cut; [now apply (newline_closed m)|]. pose proof (lines_stops false m y u [] L) as Q. rewrite app_nil_r in Q. apply Q.
      * now apply (newline_in m).
      * now rewrite !app_nil_r.
      * rewrite (app_assoc pre), (newline_col _ _ _ NA). now apply lines_end.
Qed.

(* ---- leaves and keys ---- *)
Definition starts (x : bytes) : Prop := x <> [] /\ stops x.
Lemma starts_cut w x r : closed w -> starts x -> cut w (x ++ r).
Proof. intros C (N & S). apply closed_cut; [exact C|]. destruct x as [|c x]; [congruence|]. exact S. Qed.
Lemma starts_hd c r : ~ white c -> c <> HASH -> starts (c :: r).
Proof. intros W H. split; [discriminate|]. split; auto. Qed.
Lemma plain_starts x : plain_start x -> starts x.
Proof. intros (c & r & -> & W & I & _). apply starts_hd; [exact W|]. intros ->. apply I. now left. Qed.
Lemma quoted_starts x v : quoted_text x v -> starts x.
Proof. intros Q. apply quoted_hd in Q as (c & r & -> & [-> | ->]); apply starts_hd; cbn; intuition discriminate. Qed.
Lemma breaks_not post c : breaks post -> ~ white c -> c <> EOF -> hd EOF post <> c.
Proof. intros [-> |W] N E; cbn in *; [congruence|]. intros <-. auto. Qed.
Lemma leaf_sound x d post : leaf x d post -> starts x /\ exists f, family f x d /\ (forall p, lleaf (f p) d post) /\ forall pi p pre, reads false pi pre (f p) post.
Proof.
  intros [y e q P D E|y v q Q B|y e q F B|y v q B].
  - destruct (plain_scal y e P D) as (sc & W & S & R). split; [apply plain_starts, P|].
    exists (fun p => TLeaf tt p sc). split; [intros p; repeat split; auto|].
    split. { intros p. left. do 3 eexists. split; [reflexivity|]. rewrite W. split; [|now apply lf_plain]. destruct P as ((c & r & -> & _ & I & _) & _). intros J. apply I. cbn in J |- *. tauto. }
    intros pi p pre. constructor. now apply R.
  - split; [eapply quoted_starts; eauto|]. exists (fun p => TLeaf tt p (ScStr (RS KOriginal v y))). split; [intros p; repeat split|].
    split. { intros p. left. do 3 eexists. split; [reflexivity|]. cbn [wscalar wstr]. split; [|now apply lf_quoted].
      apply quoted_hd in Q as (c & r & -> & H). unfold bracket. cbn. unfold DQUOTE, SQUOTE in H. lia. }
    intros pi p pre. constructor. apply quoted_scal; [exact Q| |right]; apply (breaks_not _ _ B); cbn; intuition discriminate.
  - apply flow_sound in F as ((N & S & _) & f & FF & LD & R). split; [split; auto|]. exists f. split; [exact FF|]. split; [intros p; right; auto|]. intros pi p pre. apply R.
  - pose proof B as B0. apply block_scalar_reads in B as (h & o & -> & R & H). split.
    + destruct (h ++ o) as [|c r]; [cbn in H; unfold EOF, GT, PIPE in H; intuition discriminate|]. cbn in H.
      destruct H as [-> | ->]; apply starts_hd; cbn; intuition discriminate.
    + exists (fun p => TLeaf tt p (ScStr (RS (KMultiline h) v o))). split; [intros p; repeat split|].
      split. { intros p. left. do 3 eexists. split; [reflexivity|]. cbn [wscalar wstr rs_kind rs_orig]. split; [|now apply lf_block].
        unfold bracket. destruct H as [-> | ->]; cbn; intuition discriminate. }
      intros pi p pre. constructor. apply R.
Qed.
Lemma key_number x r : plain_key x -> num_read false (x ++ [COLON] ++ r) = None.
Proof.
  intros (S & C & N & _). destruct (num_read false (x ++ [COLON] ++ r)) as [[k h]|] eqn:E; [|reflexivity]. exfalso.
  apply num_read_inv in E as (y & q & E & _ & U & [X|X]); [discriminate|].
  assert (NC : ~ In COLON y).
  { intros I. apply (number_bytes _ _ U) in I. cbn in I. unfold digit, COLON, DOT, DASH in I. lia. }
  destruct (le_lt_dec (length y) (length x)) as [L|L].
  - symmetry in E. destruct (split_at _ _ _ _ E L) as (u & -> & ->).
    assert (B : eol_scan (u ++ COLON :: r) = false); [|unfold bytes, byte in *; cbn [app] in X; congruence].
    clear -N. assert (NU : ~ In NEWLINE u) by (intros I; apply N, in_or_app; auto). clear N.
    induction u as [|c u IH]; [reflexivity|]. cbn [app eol_scan]. assert (c =? NEWLINE = false) as ->. { apply N.eqb_neq. intros ->. apply NU. now left. }
    destruct (is_other_ws c); [|reflexivity]. apply IH. intros I. apply NU. now right.
  - destruct (split_at _ _ _ _ E) as (u & -> & Q); [unfold byte, bytes in *; lia|]. destruct u as [|c u]; [rewrite app_nil_r in L; lia|].
    cbn in Q. injection Q as <- _. apply NC, in_or_app. right. now left.
Qed.
Lemma key_scans x r : plain_key x -> breaks r -> key_scan (x ++ [COLON] ++ r) = (length x, true).
Proof.
  intros (S & C & N & _) B. rewrite key_scan_app.
  - cbn [app key_scan]. change (COLON =? NEWLINE) with false. change (COLON =? COLON) with true. cbn [andb]. destruct B as [-> |W].
    + cbn. now rewrite Nat.add_0_r.
    + apply is_ws_white in W. destruct r as [|c r]; [cbn; now rewrite Nat.add_0_r|]. cbn [hd] in W. cbn. rewrite W. cbn. now rewrite Nat.add_0_r.
  - intros c I. split; intros ->; auto.
Qed.
Lemma plain_first x r : plain_key x -> breaks r -> first_key (RS KBare x x) ([COLON] ++ r).
Proof. intros K B. constructor; [apply plain_special, K|now apply key_number|now apply key_scans]. Qed.
Lemma start_first x k r : start_key x k -> breaks r -> starts x /\ exists key, wstr key = x /\ rs_id key = k /\ first_key key ([COLON] ++ r).
Proof.
  intros [[K ->]|Q] B.
  - split; [apply plain_starts, K|]. exists (RS KBare x x). repeat split; auto. now apply plain_first.
  - split; [eapply quoted_starts; eauto|]. exists (RS KOriginal k x). repeat split; auto. destruct Q as [y v D|y v D].
    + apply K_dq; [|reflexivity]. exists y, DQUOTE. split; [reflexivity|]. split; [now apply dq_body|auto].
    + apply K_sq; [|reflexivity]. exists y. split; [reflexivity|now apply sq_body].
Qed.
Lemma plain_later x r : plain_key x -> breaks r -> later_key x r.
Proof.
  intros ((c & q & E & W & I & D) & C & N & Z) B. assert (NQ : forall k, In k [DQUOTE; SQUOTE] -> hd EOF x <> k).
  { intros k K. subst x. cbn [hd]. intros ->. apply I. cbn in K |- *. tauto. }
  split; [now subst|]. split; [exact C|]. split; [exact Z|]. split; [|split; intros H; now apply NQ in H; cbn; auto].
  destruct B as [-> |B]; [auto|]. left. now apply is_ws_white.
Qed.

(* ---- block collections ---- *)
Definition msee (items : list (mitem unit)) : list (bytes * datum) := map (fun '(_, _, key, v) => (rs_id key, see v)) items.
Definition ssee (items : list (sitem unit)) : list datum := map (fun '(_, _, v) => see v) items.
Definition losslessS (items : list (sitem unit)) : Prop := Forall (fun '(_, ip, _) => lossy ip = ip) items.
Definition Pblock_map (n : nat) (x : bytes) (l : list (bytes * datum)) (post : bytes) : Prop := starts x /\
  exists items, mtext items = x /\ msee items = l /\ mlead items = [] /\ (exists r, first_text items ++ r = x) /\
  (forall post', alike post post' -> lmap n items l post') /\
  forall pi p pre, clean n pre -> match pi with Some i => (i < n)%nat | None => True end -> reads false pi pre (TMap tt p n CBlock items) post.
Definition Pmap_rest (n : nat) (y : bytes) (l : list (bytes * datum)) (post : bytes) : Prop :=
  exists items w r, mtext items = y /\ msee items = l /\ post = w ++ r /\ line_end w r /\
  (forall post', alike post post' -> alike (y ++ post) (next_key items post') /\ lmrest n items l post') /\
  forall pre ip key v, vreads (Some n) (pre ++ wstr key ++ [COLON]) v (y ++ post) -> mreads n pre ((tt, ip, key, v) :: items) w r.
Definition Pkey_value (n : nat) (t : bytes) (d : datum) (post : bytes) : Prop :=
  exists v, tpre v ++ wtree v = t /\ see v = d /\ breaks (t ++ post) /\ (forall post', alike post post' -> lval n v d post') /\ forall pre, vreads (Some n) pre v post.
Definition Pblock_seq (n : nat) (x : bytes) (l : list datum) (post : bytes) : Prop := starts x /\
  exists items, stext items = x /\ losslessS items /\ ssee items = l /\ slead items = [] /\
  (forall post', alike post post' -> lseq n items l post') /\
  forall pi p pre, clean n pre -> reads false pi pre (TSeq tt p n CBlock items) post.
Definition Pseq_rest (n : nat) (y : bytes) (l : list datum) (post : bytes) : Prop :=
  exists items w r, stext items = y /\ losslessS items /\ ssee items = l /\ post = w ++ r /\ line_end w r /\
  (forall post', alike post post' -> alike (y ++ post) (next_dash items post') /\ lsrest n items l post') /\
  forall pre ip v, vreads None (pre ++ [DASH]) v (y ++ post) -> sreads n pre ((tt, ip, v) :: items) w r.
Definition Pdash_value (n : nat) (t : bytes) (d : datum) (post : bytes) : Prop :=
  exists v, tpre v ++ wtree v = t /\ see v = d /\ t <> [] /\ white (hd EOF t) /\ (forall post', alike post post' -> ldash n v d post') /\ forall pre, clean n pre -> vreads None pre v post.
Lemma hd_white w r : white (hd EOF w) -> white (hd EOF (w ++ r)).
Proof. destruct w; [cbn; unfold EOF; lia|auto]. Qed.
Lemma white_nonempty w : white (hd EOF w) -> w <> [].
Proof. intros W ->. cbn in W. unfold EOF in W. lia. Qed.
Lemma ends_line n post : map_ends n post -> exists w r, post = w ++ r /\ line_end w r /\ (r = [] \/ exists m, newline_at m w /\ (m < n)%nat).
Proof.
  intros [L|(w & m & r & -> & NA & LT & _ & S1 & S2)].
  - exists post, []. split; [now rewrite app_nil_r|]. split; [|auto]. split; [now apply layout_end|auto].
  - exists w, r. split; [reflexivity|]. split; [|eauto]. split; [apply closed_cut; [now apply (newline_closed m)|split; auto]|].
    right. now apply (newline_in m).
Qed.
Lemma ends_line_seq n post : seq_ends n post -> exists w r, post = w ++ r /\ line_end w r /\ (hd EOF r <> DASH \/ exists m, newline_at m w /\ (m < n)%nat).
Proof.
  intros [L|(w & m & r & -> & NA & LT & _ & S1 & S2)].
  - exists post, []. split; [now rewrite app_nil_r|]. split; [|left; discriminate]. split; [now apply layout_end|auto].
  - exists w, r. split; [reflexivity|]. split.
    + split; [apply closed_cut; [now apply (newline_closed m)|split; auto]|]. right. now apply (newline_in m).
    + destruct LT as [LT|[_ LT]]; eauto.
Qed.
Lemma seq_text_at p n items : losslessS items -> wtree (TSeq tt p n CBlock items) = stext items.
Proof. apply seq_text. Qed.
Lemma map_text_at p n items : wtree (TMap tt p n CBlock items) = mtext items.
Proof. apply map_text. Qed.
Lemma mtext_cons ip key v items : mtext ((tt, ip, key, v) :: items) = ip ++ wstr key ++ [COLON] ++ tpre v ++ wtree v ++ mtext items.
Proof. unfold mtext. cbn [map concat mtext1]. now rewrite <- !app_assoc. Qed.
Lemma stext_cons ip v items : stext ((tt, ip, v) :: items) = ip ++ [DASH] ++ tpre v ++ wtree v ++ stext items.
Proof. unfold stext. cbn [map concat stext1]. now rewrite <- !app_assoc. Qed.
Lemma closed_blanks_cut w x r : closed w -> starts x -> cut w (x ++ r).
Proof. apply starts_cut. Qed.
Lemma block_sound : (forall n x l post, block_map n x l post -> Pblock_map n x l post) /\
  (forall n y l post, map_rest n y l post -> Pmap_rest n y l post) /\
  (forall n t d post, key_value n t d post -> Pkey_value n t d post) /\
  (forall n x l post, block_seq n x l post -> Pblock_seq n x l post) /\
  (forall n y l post, seq_rest n y l post -> Pseq_rest n y l post) /\
  (forall n t d post, dash_value n t d post -> Pdash_value n t d post).
Proof.
  apply block_all.
  - intros n x k t d y l post K _ (v & T & S & B & LV & V) _ (items & w & r & Y & SL & -> & LE & LM & M).
    destruct (start_first x k (t ++ y ++ w ++ r) K B) as (ST & key & WK & IK & FK). split.
    { destruct x as [|c x]; [now destruct ST|]. destruct ST as [_ ST]. split; [discriminate|exact ST]. }
    exists ((tt, [], key, v) :: items). split; [|split; [|split; [reflexivity|split; [|split]]]].
    + rewrite mtext_cons, WK, Y, <- T. cbn [app]. now rewrite <- app_assoc.
    + cbn [msee map]. rewrite IK, S. f_equal. exact SL.
    + cbn [first_text]. rewrite WK. eexists. reflexivity.
    + intros post' A. destruct (LM _ A) as [A' LR]. rewrite <- IK. apply lm_items; [now rewrite WK, IK|apply LV, A'|exact LR].
    + intros pi p pre C PI. rewrite <- (clean_col _ _ C). apply R_map.
      * destruct pi; [|exact Logic.I]. now rewrite (clean_col _ _ C).
      * rewrite Y. rewrite (app_assoc (tpre v)), T. exact FK.
      * exact LE.
      * rewrite (clean_col _ _ C). apply M. apply V.
  - intros n post E. pose proof E as E0. apply ends_line in E as (w & r & -> & LE & D). exists [], w, r. split; [reflexivity|]. split; [reflexivity|]. split; [reflexivity|]. split; [exact LE|].
    split. { intros post' A. split; [exact A|]. apply lmr_nil. now apply (alike_map_ends _ (w ++ r)). }
    intros pre ip key v V. apply M_last; [exact V|]. destruct D as [-> |(m & NA & LT)]; [right; reflexivity|left].
    replace (pre ++ wstr key ++ [COLON] ++ tpre v ++ wtree v ++ w) with ((pre ++ wstr key ++ [COLON] ++ tpre v ++ wtree v) ++ w) by (now rewrite <- !app_assoc).
    rewrite (newline_col _ _ _ NA). lia.
  - intros n w0 k t d y l post NA K _ (v & T & S & B & LV & V) _ (items & w & r & Y & SL & -> & LE & LM & M).
    exists ((tt, w0, RS KBare k k, v) :: items), w, r. split; [|split; [|split; [reflexivity|split; [exact LE|split]]]].
    + rewrite mtext_cons, Y, <- T. change (wstr (RS KBare k k)) with k. now rewrite <- !app_assoc.
    + cbn [msee map]. rewrite S. f_equal. exact SL.
    + intros post' A. destruct (LM _ A) as [A' LR]. split; [|apply lmr_cons; auto].
      replace ((w0 ++ k ++ b ":" ++ t ++ y) ++ w ++ r) with (w0 ++ wstr (RS KBare k k) ++ b ":" ++ (t ++ y ++ w ++ r)) by (cbn [wstr rs_kind rs_orig rs_id]; now rewrite <- !app_assoc).
      apply (alike_key n); auto.
    + intros pre ip key v0 V0. apply M_cons.
      * rewrite Y. rewrite (app_assoc (tpre v)), T. rewrite <- !app_assoc in V0. exact V0.
      * apply starts_cut; [now apply (newline_closed n)|]. apply plain_starts, K.
      * now apply (newline_in n).
      * replace (pre ++ wstr key ++ [COLON] ++ tpre v0 ++ wtree v0 ++ w0) with ((pre ++ wstr key ++ [COLON] ++ tpre v0 ++ wtree v0) ++ w0) by (now rewrite <- !app_assoc).
        now apply newline_col.
      * rewrite Y, (app_assoc (tpre v)), T. now apply plain_later.
      * apply M. apply V.
  - intros n w x d post [C W] L. apply leaf_sound in L as (ST & f & F & LD & R). destruct (F w) as (P & T & S). exists (f w).
    split; [now rewrite P, T|]. split; [exact S|]. split; [right; rewrite <- app_assoc; now apply hd_white|].
    split. { intros post' A. apply lleaf_val; [eapply lleaf_alike; eauto|]. now rewrite P. }
    intros pre. apply V_value; rewrite P; [rewrite T; now apply starts_cut|apply R].
  - intros n post (w & m & k & r & -> & NA & LT & K & B). exists (TLeaf tt [] (ScNull NEmpty)). split; [reflexivity|]. split; [reflexivity|].
    split; [right; cbn [app]; apply hd_white, NA|].
    split. { intros post' A. apply lv_none. eapply alike_key_follows; [exact A|]. exists w, m, k, r. auto. }
    intros pre. apply (V_null n pre w (RS KBare k k) r).
    + apply starts_cut; [now apply (newline_closed m)|]. apply plain_starts, K.
    + now apply plain_first.
    + now rewrite (newline_col _ _ _ NA).
  - intros n m w x l post NA LT _ (ST & items & E & SL & LE0 & FT & LM & R). exists (TMap tt w m CBlock items). split; [rewrite map_text_at, E; reflexivity|].
    split; [cbn [see]; f_equal; exact SL|]. split; [right; rewrite <- app_assoc; apply hd_white, NA|].
    split. { intros post' A. apply lv_map; auto. now left. }
    intros pre. apply V_value; cbn [tpre].
    + rewrite map_text_at, E. apply starts_cut; [now apply (newline_closed m)|exact ST].
    + apply R; [now apply newline_clean|exact LT].
  - intros n m w x l post NA LT _ (ST & items & E & LF & SL & LE0 & LM & R). exists (TSeq tt w m CBlock items). split; [rewrite seq_text_at, E by exact LF; reflexivity|].
    split; [cbn [see]; f_equal; exact SL|]. split; [right; rewrite <- app_assoc; apply hd_white, NA|].
    split. { intros post' A. apply lv_seq; auto. now left. }
    intros pre. apply V_value; cbn [tpre].
    + rewrite seq_text_at, E by exact LF. apply starts_cut; [now apply (newline_closed m)|exact ST].
    + apply R. now apply newline_clean.
  - intros n t d y l post _ (v & T & S & NT & WT & LV & V) _ (items & w & r & Y & LF & SL & -> & LE & LM & M).
    split; [apply starts_hd; cbn; intuition discriminate|]. exists ((tt, [], v) :: items). split; [|split; [|split; [|split; [reflexivity|split]]]].
    + rewrite stext_cons, Y, <- T. cbn [app]. now rewrite <- app_assoc.
    + constructor; [reflexivity|exact LF].
    + cbn [ssee map]. rewrite S. f_equal. exact SL.
    + intros post' A. destruct (LM _ A) as [A' LR]. apply ls_items; [reflexivity|apply LV, A'|exact LR].
    + intros pi p pre C. rewrite <- (clean_col _ _ C). apply R_seq.
      * rewrite (app_assoc (tpre v)), T. apply is_ws_white. now apply hd_white.
      * exact LE.
      * rewrite (clean_col _ _ C). apply M. apply V. now apply clean_dash.
  - intros n post E. pose proof E as E0. apply ends_line_seq in E as (w & r & -> & LE & D). exists [], w, r. split; [reflexivity|]. split; [constructor|]. split; [reflexivity|]. split; [reflexivity|]. split; [exact LE|].
    split. { intros post' A. split; [exact A|]. apply lsr_nil. now apply (alike_seq_ends _ (w ++ r)). }
    intros pre ip v V. apply S_last; [exact V|]. destruct D as [D|(m & NA & LT)]; [right; exact D|left].
    replace (pre ++ [DASH] ++ tpre v ++ wtree v ++ w) with ((pre ++ [DASH] ++ tpre v ++ wtree v) ++ w) by (now rewrite <- !app_assoc).
    rewrite (newline_col _ _ _ NA). lia.
  - intros n w0 t d y l post NA U _ (v & T & S & NT & WT & LV & V) _ (items & w & r & Y & LF & SL & -> & LE & LM & M).
    exists ((tt, w0, v) :: items), w, r. split; [|split; [|split; [|split; [reflexivity|split; [exact LE|split]]]]].
    + rewrite stext_cons, Y, <- T. cbn [app]. now rewrite <- !app_assoc.
    + constructor; [now apply lossy_utf8|exact LF].
    + cbn [ssee map]. rewrite S. f_equal. exact SL.
    + intros post' A. destruct (LM _ A) as [A' LR]. split; [|apply lsr_cons; auto].
      replace ((w0 ++ b "-" ++ t ++ y) ++ w ++ r) with (w0 ++ b "-" ++ (t ++ y ++ w ++ r)) by (now rewrite <- !app_assoc).
      apply (alike_dash n); auto. right. now apply hd_white.
    + intros pre ip v0 V0. apply S_cons.
      * rewrite Y. rewrite (app_assoc (tpre v)), T. rewrite <- !app_assoc in V0. exact V0.
      * apply (starts_cut w0 [DASH] []); [now apply (newline_closed n)|]. apply starts_hd; cbn; intuition discriminate.
      * now apply (newline_in n).
      * now apply lossy_utf8.
      * replace (pre ++ [DASH] ++ tpre v0 ++ wtree v0 ++ w0) with ((pre ++ [DASH] ++ tpre v0 ++ wtree v0) ++ w0) by (now rewrite <- !app_assoc).
        now apply newline_col.
      * left. rewrite (app_assoc (tpre v)), T. apply is_ws_white. now apply hd_white.
      * apply M. apply V. apply clean_dash. 
        replace (pre ++ [DASH] ++ tpre v0 ++ wtree v0 ++ w0) with ((pre ++ [DASH] ++ tpre v0 ++ wtree v0) ++ w0) by (now rewrite <- !app_assoc).
        now apply newline_clean.
  - intros n w x d post [C W] L. apply leaf_sound in L as (ST & f & F & LD & R). destruct (F w) as (P & T & S). exists (f w).
    split; [now rewrite P, T|]. split; [exact S|]. split; [apply white_nonempty; now apply hd_white|]. split; [now apply hd_white|].
    split. { intros post' A. apply lleaf_dash; [eapply lleaf_alike; eauto|]. now rewrite P. }
    intros pre _. apply V_value; rewrite P; [rewrite T; now apply starts_cut|apply R].
  - intros n w x l post B NW _ (ST & items & E & SL & LE0 & FT & LM & R). assert (WW : white (hd EOF w)). { destruct B as [|c w B _]; [congruence|]. cbn in *. tauto. }
    exists (TMap tt w (n + length w) CBlock items). split; [rewrite map_text_at, E; reflexivity|].
    split; [cbn [see]; f_equal; exact SL|]. split; [apply white_nonempty; now apply hd_white|]. split; [now apply hd_white|].
    split. { intros post' A. apply ld_map; auto. now left. }
    intros pre C. apply V_value; cbn [tpre].
    + rewrite map_text_at, E. apply starts_cut; [now apply blanks_closed|exact ST].
    + apply R; [now apply clean_blanks|exact Logic.I].
  - intros n w x l post B NW _ (ST & items & E & LF & SL & LE0 & LM & R). assert (WW : white (hd EOF w)). { destruct B as [|c w B _]; [congruence|]. cbn in *. tauto. }
    exists (TSeq tt w (n + length w) CBlock items). split; [rewrite seq_text_at, E by exact LF; reflexivity|].
    split; [cbn [see]; f_equal; exact SL|]. split; [apply white_nonempty; now apply hd_white|]. split; [now apply hd_white|].
    split. { intros post' A. apply ld_seq; auto. now left. }
    intros pre C. apply V_value; cbn [tpre].
    + rewrite seq_text_at, E by exact LF. apply starts_cut; [now apply blanks_closed|exact ST].
    + apply R. now apply clean_blanks.
  - intros n m w x l post NA LT _ (ST & items & E & SL & LE0 & FT & LM & R). exists (TMap tt w m CBlock items). split; [rewrite map_text_at, E; reflexivity|].
    split; [cbn [see]; f_equal; exact SL|]. split; [apply white_nonempty, hd_white, NA|]. split; [apply hd_white, NA|].
    split. { intros post' A. apply ld_map_below; auto. now left. }
    intros pre C. apply V_value; cbn [tpre].
    + rewrite map_text_at, E. apply starts_cut; [now apply (newline_closed m)|exact ST].
    + apply R; [now apply newline_clean|exact Logic.I].
  - intros n m w x l post NA LT _ (ST & items & E & LF & SL & LE0 & LM & R). exists (TSeq tt w m CBlock items). split; [rewrite seq_text_at, E by exact LF; reflexivity|].
    split; [cbn [see]; f_equal; exact SL|]. split; [apply white_nonempty, hd_white, NA|]. split; [apply hd_white, NA|].
    split. { intros post' A. apply ld_seq_below; auto. now left. }
    intros pre C. apply V_value; cbn [tpre].
    + rewrite seq_text_at, E by exact LF. apply starts_cut; [now apply (newline_closed m)|exact ST].
    + apply R. now apply newline_clean.
Qed.

(* ---- documents ---- *)
Lemma layout_hd post c : layout post -> ~ white c -> c <> HASH -> c <> EOF -> hd EOF post <> c.
Proof.
  intros L W H E. rewrite <- (app_nil_r post). apply layout_not; auto. now apply not_white.
Qed.
Lemma headless_app l post : doc_start l -> (forall c, In c [PERCENT; DASH] -> hd EOF post <> c) -> headless (l ++ post).
Proof.
  intros [P D] X. split.
  - intros H. destruct l as [|c l]; [revert H; apply X; cbn; auto|]. cbn in H. subst c. apply P. now exists l.
  - intros (H1 & H2 & H3). assert (XD : hd EOF post <> DASH) by (apply X; cbn; auto).
    destruct l as [|c1 l]; [now apply XD in H1|]. cbn in H1, H2, H3.
    assert (N0 : forall r, nth 0 r EOF = hd EOF r) by (intros []; reflexivity).
    destruct l as [|c2 l]; [cbn in H2; rewrite N0 in H2; now apply XD in H2|]. cbn in H2, H3.
    destruct l as [|c3 l]; [cbn in H3; rewrite N0 in H3; now apply XD in H3|]. cbn in H3. subst. apply D. now exists l.
Qed.
Lemma headless_layout x post : doc_start x -> layout post -> headless (x ++ post).
Proof.
  intros D L. apply headless_app; [exact D|]. intros c C. apply layout_hd; [exact L|..]; cbn in *; intuition (subst; discriminate).
Qed.
Lemma doc_start_part x r : doc_start (x ++ r) -> doc_start x.
Proof. intros [P D]. split; intros (q & ->); [apply P|apply D]; exists (q ++ r); now rewrite <- app_assoc. Qed.
Lemma doc_text_laid x d : doc_text x d -> exists t suf, x = wdoc t suf /\ dreads t suf /\ see t = d /\ ldoc t d suf.
Proof.
  intros [w y e post C L LP D|w n y l post S B LP D|w n y l post S B LP].
  - apply leaf_sound in L as (ST & f & F & LD & R). destruct (F w) as (P & W & SE). exists (f w), post.
    split; [unfold wdoc; now rewrite P, W|]. split; [split; [|split; [|split]]|split; [exact SE|]].
    + rewrite P, W. now apply starts_cut.
    + rewrite W. now apply headless_layout.
    + rewrite P. apply R.
    + now apply layout_end.
    + destruct (LD w) as [(i & p & sc & E & N & L)|[LF B]].
      * rewrite E in *. cbn in P, W. subst. now apply ldoc_leaf.
      * apply ldoc_flow; auto. now rewrite P.
  - pose proof S as S0. apply line_start_clean in S as [CL C]. apply block_sound in B as (ST & items & E & SL & LE0 & FT & LM & R).
    exists (TMap tt w n CBlock items), post. split; [unfold wdoc; rewrite map_text_at, E; reflexivity|]. split; [split; [|split; [|split]]|split].
    + rewrite map_text_at, E. now apply starts_cut.
    + rewrite map_text_at, E. now apply headless_layout.
    + apply R; [exact CL|exact Logic.I].
    + now apply layout_end.
    + cbn [see]. f_equal. exact SL.
    + apply ldoc_map; [assumption|now left|apply LM, alike_refl|exact LP|]. destruct FT as [r FT]. apply (doc_start_part _ r). now rewrite FT.
  - assert (D : doc_start y).
    { inversion B as [? t dd z l' ? V ?]; subst. split; intros (r & Q); [discriminate|].
      apply block_sound in V as (_ & _ & _ & _ & WT & _). destruct t as [|c t]; [cbn in WT; unfold EOF in WT; lia|]. cbn in Q. injection Q as -> Q. cbn in WT. lia. }
    pose proof S as S0. apply line_start_clean in S as [CL C]. apply block_sound in B as (ST & items & E & LF & SL & LE0 & LM & R).
    exists (TSeq tt w n CBlock items), post. split; [unfold wdoc; rewrite seq_text_at, E by exact LF; reflexivity|]. split; [split; [|split; [|split]]|split].
    + rewrite seq_text_at, E by exact LF. now apply starts_cut.
    + rewrite seq_text_at, E by exact LF. now apply headless_layout.
    + now apply R.
    + now apply layout_end.
    + cbn [see]. f_equal. exact SL.
    + apply ldoc_seq; [assumption|now left|apply LM, alike_refl|exact LP].
Qed.
Theorem doc_text_reads hash x d : doc_text x d -> reads_as_datum hash x d.
Proof. intros H. apply doc_text_laid in H as (t & suf & -> & R & <- & _). now apply doc_reads. Qed.
