(* The small parts of the parser, at places of the text: white space, lines, quotes, numbers, keys
   and block scalars are read exactly as Means.v says. *)
From Coq Require Import String.
From Coq Require Import List NArith Bool Arith Lia.
From Verif Require Import Bytes Utf8 Data Parser Render Tree Abs Scan AbsText AbsNice Num Reads ReadsSound Shown Plain White Valid Lexed Means GrammarSound.
Import ListNotations.
Local Open Scope N_scope.

(* ---- columns ---- *)
Lemma chars_f_counted f : forall s, (length s <= f)%nat -> counted s (length (chars_f f s)).
Proof.
  induction f as [|f IH]; intros s L; [destruct s; [constructor|cbn in L; lia]|]. destruct s as [|c r]; [constructor|]. cbn [chars_f].
  pose proof (decode1_split c r) as D. destruct (decode1 c r) as [ok n]. destruct D as [N D]. cbn [length].
  assert (LE : (length (skipn n (c :: r)) <= f)%nat) by (rewrite skipn_length; cbn [length] in L |- *; unfold bytes, byte in *; lia).
  set (x := firstn n (c :: r)) in *. assert (E : c :: r = x ++ skipn n (c :: r)) by (symmetry; apply firstn_skipn). rewrite E at 1.
  destruct ok; [apply cn_char|apply cn_bad]; auto.
Qed.
Lemma counted_det s n : counted s n -> forall n', counted s n' -> n = n'.
Proof.
  induction 1 as [|x r n X M IH|x r n X M IH]; intros n' M'.
  - inversion M' as [|x r s X M E|x r s X M E]; [reflexivity|exfalso..].
    + apply encoding_nonempty in X. now destruct x.
    + destruct X as [X _]. now destruct x.
  - inversion M' as [E|y q u Y N E|y q u Y N E].
    + exfalso. apply encoding_nonempty in X. now destruct x.
    + assert (y = x) as -> by (symmetry; eapply encoding_prefix; eauto). apply app_inv_head in E as ->. now rewrite (IH _ N).
    + exfalso. now apply (char_not_bad x r y q X Y).
  - inversion M' as [E|y q u Y N E|y q u Y N E].
    + exfalso. destruct X as [X _]. now destruct x.
    + exfalso. now apply (char_not_bad y q x r Y X).
    + assert (y = x) as -> by (symmetry; eapply bad_unique; eauto). apply app_inv_head in E as ->. now rewrite (IH _ N).
Qed.

Lemma last_line (s : bytes) : exists a l, s = a ++ l /\ (a = [] \/ exists a', a = a' ++ [NEWLINE]) /\ ~ In NEWLINE l.
Proof.
  induction s as [|c s (a & l & -> & A & L)] using rev_ind; [exists [], []; auto|]. destruct (N.eq_dec c NEWLINE) as [->|NE].
  - exists ((a ++ l) ++ [NEWLINE]), []. rewrite app_nil_r. split; [reflexivity|]. split; [eauto|auto].
  - exists a, (l ++ [c]). rewrite app_assoc. split; [reflexivity|]. split; [exact A|]. rewrite in_app_iff. cbn. intuition congruence.
Qed.
(* The column of a place is the number of characters since the last newline. *)
Theorem column_spec text i c : column text i = c <->
  exists a l, firstn i text = a ++ l /\ (a = [] \/ exists a', a = a' ++ [NEWLINE]) /\ ~ In NEWLINE l /\ counted l c.
Proof.
  assert (G : forall a l, firstn i text = a ++ l -> (a = [] \/ exists a', a = a' ++ [NEWLINE]) -> ~ In NEWLINE l -> counted l (column text i)).
  { intros a l E A L. unfold column, count_indent. rewrite E. pose proof (after_nl a l A L) as Z. unfold bytes, byte in *. rewrite Z. now apply chars_f_counted. }
  split.
  - intros <-. destruct (last_line (firstn i text)) as (a & l & E & A & L). exists a, l. split; [exact E|]. split; [exact A|]. split; [exact L|]. exact (G a l E A L).
  - intros (a & l & E & A & L & C). exact (counted_det _ _ (G a l E A L) _ C).
Qed.

Section Places.
Variable text : bytes.
Local Notation len := (length text).
Local Notation at_ i := (nth i text 0).
Local Notation part := (slice text).
Local Notation gap_to := (gap_to text).
Local Notation line_to := (line_to text).
Local Notation column := (column text).

Lemma column_indent n : (n <= len)%nat -> indent_from text n = column n.
Proof. intros L. unfold indent_from, Means.column. rewrite seg_eq by lia. now rewrite Nat.sub_0_r. Qed.

(* ---- places ---- *)
Lemma at_lt i c : at_ i = c -> c <> 0 -> (i < len)%nat.
Proof. intros E N. apply (nth_lt text i c E N). Qed.
Lemma rest_at i : (i < len)%nat -> skipn i text = at_ i :: skipn (S i) text.
Proof.
  intros L. pose proof (nth_skipn text i) as E. assert (length (skipn i text) = len - i)%nat as K by apply skipn_length.
  destruct (skipn i text) as [|c r] eqn:S1; [cbn in K; lia|]. cbn [hd] in E. unfold EOF in E. rewrite E. f_equal.
  replace (S i) with (1 + i)%nat by lia. rewrite <- skipn_add, S1. reflexivity.
Qed.
Lemma rest_end i : (len <= i)%nat -> skipn i text = [].
Proof. intros L. apply skipn_all2. exact L. Qed.
Lemma part_at i j : (i < j <= len)%nat -> part i j = at_ i :: part (S i) j.
Proof. intros L. rewrite <- (seg_app text i (S i) j) by lia. now rewrite nth_seg by lia. Qed.
Lemma part_in c i j : (j <= len)%nat -> In c (part i j) <-> exists k, (i <= k < j)%nat /\ at_ k = c.
Proof.
  intros L. remember (j - i)%nat as m eqn:M. revert i M. induction m as [|m IH]; intros i M.
  - split; [|intros (k & K & _); lia]. destruct (Nat.eq_dec i j) as [->|NE]; [rewrite seg_nil; intros []|].
    unfold slice. assert (Nat.leb i j = false) as -> by (apply Nat.leb_gt; lia). intros [].
  - rewrite part_at by lia. cbn [In]. rewrite IH by lia. split.
    + intros [E|(k & K & E)]; [exists i; split; [lia|exact E]|exists k; split; [lia|exact E]].
    + intros (k & K & E). destruct (Nat.eq_dec k i) as [->|NE]; [now left|]. right. exists k. split; [lia|exact E].
Qed.
Lemma white_ws c : white c <-> is_ws c = true.
Proof. symmetry. apply is_ws_white. Qed.
Lemma white_lt i : white (at_ i) -> (i < len)%nat.
Proof. intros W. apply (at_lt i _ eq_refl). intros E. rewrite E in W. cbn in W. intuition discriminate. Qed.

(* ---- lines ---- *)
Lemma line_det i k k' : line_to i k -> line_to i k' -> k = k'.
Proof.
  assert (G : forall k k', line_to i k -> line_to i k' -> (k < k')%nat -> False).
  { intros a c (L & _ & E) (L' & N & _) LT. apply N. apply part_in; [lia|]. exists a. split; [lia|]. destruct E as [E|E]; [lia|exact E]. }
  intros H H'. destruct (Nat.lt_trichotomy k k') as [L|[E|L]]; [exfalso; eauto|exact E|exfalso; eauto].
Qed.
Lemma line_step i k : (i < len)%nat -> at_ i <> NEWLINE -> line_to (S i) k -> line_to i k.
Proof.
  intros L N (K & M & E). split; [lia|]. split; [|exact E]. rewrite part_in by lia. intros (q & Q & F).
  destruct (Nat.eq_dec q i) as [->|NE]; [auto|]. apply M. apply part_in; [lia|]. exists q. split; [lia|exact F].
Qed.
Lemma line_nil i : (i <= len)%nat -> i = len \/ at_ i = NEWLINE -> line_to i i.
Proof. intros L E. split; [lia|]. split; [rewrite seg_nil; intros []|exact E]. Qed.
Lemma line_find n : (n <= len)%nat -> exists k, line_to n k /\ a_find text NEWLINE n = Ok (tt, k).
Proof.
  intros L. unfold a_find, bind, a_rest. cbn [fst]. pose proof (memchr_spec NEWLINE (skipn n text)) as M.
  destruct (memchr NEWLINE (skipn n text)) as [k|].
  - destruct M as (M1 & M3 & M2). rewrite skipn_length in M1. exists (n + k)%nat. split.
    + split; [lia|]. split; [rewrite seg_scan by (rewrite ?skipn_length; lia); exact M3|]. right.
      destruct (nth_error_nth text k n) as [H|H]; [|lia]. rewrite M2 in H. unfold EOF in H. congruence.
    + unfold a_bump. now rewrite Nat.min_l by lia.
  - exists len. split; [|reflexivity]. split; [lia|]. split; [rewrite seg_full by lia; exact M|now left].
Qed.
Lemma line_eval n k : line_to n k -> a_find text NEWLINE n = Ok (tt, k).
Proof. intros K. destruct (line_find n) as (k' & K' & E); [destruct K; lia|]. now rewrite (line_det _ _ _ K K'). Qed.
Lemma line_pre i m k : line_to i k -> (i <= m <= k)%nat -> line_to m k.
Proof.
  intros (K & M & E) L. split; [lia|]. split; [|exact E]. rewrite part_in by lia. intros (q & Q & F). apply M. apply part_in; [lia|].
  exists q. split; [lia|exact F].
Qed.

(* ---- gaps ---- *)
Lemma gap_le i j : gap_to i j -> (i <= j <= len)%nat.
Proof. induction 1 as [i L W H|i j W G IH|i k j H (K & _) G IH]; [lia|lia|lia]. Qed.
Lemma scan_gap_f m : forall i, (i <= len)%nat -> (len - i <= m)%nat ->
  gap_to i (i + fst (ws_scan false (skipn i text))) /\ exists k, line_to i k /\ gap_to k (i + fst (ws_scan true (skipn i text))).
Proof.
  induction m as [|m IH]; intros i L M.
  { assert (i = len) as -> by lia. rewrite rest_end by lia. cbn [ws_scan fst]. rewrite Nat.add_0_r.
    assert (G : gap_to len len) by (apply ga_none; [lia|rewrite nth_overflow by lia; cbn; intuition discriminate|rewrite nth_overflow by lia; discriminate]).
    split; [exact G|]. exists len. split; [|exact G]. apply line_nil; auto. }
  destruct (Nat.eq_dec i len) as [->|NE]; [apply IH; lia|]. assert (LT : (i < len)%nat) by lia. rewrite (rest_at i LT).
  destruct (IH (S i) ltac:(lia) ltac:(lia)) as [G (k & K & GK)]. cbn [ws_scan].
  destruct (ws_scan false (skipn (S i) text)) as [k1 n1]. destruct (ws_scan true (skipn (S i) text)) as [k2 n2]. cbn [fst] in *. split.
  - destruct (N.eqb_spec (at_ i) HASH) as [E|E]; cbn [fst].
    + rewrite Nat.add_succ_r. apply (ga_comment _ i k); [exact E| |exact GK]. apply line_step; auto. rewrite E. discriminate.
    + destruct (is_ws (at_ i)) eqn:W; cbn [fst].
      * rewrite Nat.add_succ_r. apply ga_white; [now apply is_ws_white|exact G].
      * rewrite Nat.add_0_r. apply ga_none; [lia| |exact E]. intros X. apply is_ws_white in X. congruence.
  - destruct (N.eqb_spec (at_ i) NEWLINE) as [E|E]; cbn [fst]; rewrite Nat.add_succ_r.
    + exists i. split; [apply line_nil; auto|]. apply ga_white; [rewrite E; cbn; auto|exact G].
    + exists k. split; [now apply line_step|exact GK].
Qed.
Lemma gap_det i j : gap_to i j -> forall j', gap_to i j' -> j = j'.
Proof.
  induction 1 as [i L W H|i j W G IH|i k j H K G IH]; intros j' G'; inversion G' as [? L' W' H'|? ? W' G1|? k' ? H' K' G1]; subst; try contradiction; auto.
  - exfalso. rewrite H' in W. cbn in W. unfold HASH in W. intuition discriminate.
  - exfalso. rewrite H in W'. cbn in W'. unfold HASH in W'. intuition discriminate.
  - apply IH. now rewrite (line_det _ _ _ K K').
Qed.
Lemma gap_eval n j : gap_to n j -> a_ws_nl text n = Ok ((part n j, count_occ N.eq_dec (part n j) NEWLINE), j).
Proof.
  intros G. pose proof (gap_le _ _ G) as L. destruct (scan_gap_f (len - n) n ltac:(lia) ltac:(lia)) as [G' _].
  pose proof (gap_det _ _ G _ G') as E. unfold a_ws_nl, a_get, a_rest, bind. cbn [fst].
  destruct (ws_scan false (skipn n text)) as [k nl] eqn:S1. cbn [fst] in E. unfold a_bump, a_string, ret. rewrite Nat.min_l by lia. rewrite <- E.
  destruct (proj1 (ws_scan_spec (skipn n text) k nl) S1) as (_ & _ & -> & _). rewrite <- nl_counted, seg_eq by lia. now replace (j - n)%nat with k by lia.
Qed.
Lemma gap_ex n : (n <= len)%nat -> exists j, gap_to n j.
Proof. intros L. destruct (scan_gap_f (len - n) n L ltac:(lia)) as [G _]. eauto. Qed.
Lemma gap_ws n j : gap_to n j -> a_ws text n = Ok (part n j, j).
Proof. intros G. unfold a_ws. rewrite (bind_ok _ _ _ _ _ (gap_eval _ _ G)). reflexivity. Qed.
Lemma gap_stop n j : gap_to n j -> gap_to j j.
Proof. induction 1 as [i L W H|i j W G IH|i k j H K G IH]; auto. now apply ga_none. Qed.

(* ---- quotes ---- *)
Lemma split3 i j : (i <= j <= len)%nat -> text = firstn i text ++ part i j ++ skipn j text /\ length (firstn i text) = i /\ length (firstn i text ++ part i j) = j.
Proof.
  intros L. assert (E : length (firstn i text) = i) by (rewrite firstn_length; lia). split; [|split; [exact E|]].
  - rewrite <- (firstn_skipn i text) at 1. f_equal. rewrite <- (firstn_skipn (j - i) (skipn i text)) at 1. rewrite skipn_add, seg_eq by lia. do 2 f_equal. lia.
  - rewrite app_length, E, seg_length by lia. lia.
Qed.
Lemma shown_dqbody y v : dq_shown y v -> dqbody y v.
Proof.
  induction 1 as [|c y v N Z _ IH|e x y v E _ IH|y v _ IH]; [constructor| | |].
  - apply db_byte; [|exact Z| |exact IH]; intros ->; apply N; cbn; auto.
  - apply (db_esc e x y v); [now apply escape_of|exact IH].
  - apply (db_esc [BACKSLASH] [DQUOTE] y v); [now apply esc_char|exact IH].
Qed.
Lemma quote_eval i s j : quote_at text i s j ->
  at_ i = SQUOTE /\ a_single_quoted text i = Ok (RS KOriginal s (part i j), j) \/
  at_ i = DQUOTE /\ a_double_quoted text i = Ok (RS KOriginal s (part i j), j).
Proof.
  intros [y L E B N|y e L E B Q]; destruct (split3 i j L) as (T & L1 & L2); [left|right].
  - assert (LT : (i < j)%nat). { pose proof (seg_length text i j L) as K. rewrite E in K. cbn in K. lia. }
    split; [rewrite part_at in E by lia; injection E as E _; exact E|]. rewrite <- L1 at 1. rewrite <- L2 at 2. apply (r_sq text _ _ _ (skipn j text)); [| |exact T].
    + exists y. split; [exact E|now apply sq_body].
    + rewrite <- (nth_skipn text j). exact N.
  - assert (LT : (i < j)%nat). { pose proof (seg_length text i j L) as K. rewrite E in K. cbn in K. lia. }
    split; [rewrite part_at in E by lia; injection E as E _; exact E|]. rewrite <- L1 at 1. rewrite <- L2 at 2. apply (r_dq text _ _ _ (skipn j text)); [|exact T].
    apply shown_dqbody in B. destruct Q as [-> |[-> |[-> ->]]]; [left|left|right].
    + exists y, DQUOTE. auto.
    + exists y, 0. auto.
    + split; [|apply skipn_all]. exists y. rewrite app_nil_r in E. auto.
Qed.
Lemma sq_scan_next r : match sq_scan r with SqEnd k => nth (S k) r EOF <> SQUOTE | _ => True end.
Proof.
  induction r as [|c r IH]; [exact Logic.I|]. cbn [sq_scan]. destruct (c =? SQUOTE) eqn:E.
  - destruct r as [|c' r]; [cbn; discriminate|]. destruct (N.eqb_spec c' SQUOTE) as [E'|E']; [exact Logic.I|exact E'].
  - destruct (sq_scan r); [exact Logic.I|exact IH|exact Logic.I].
Qed.
Lemma sqe_scan_next m : forall r k o, (length r <= m)%nat -> sqe_scan r = Some (k, o) -> nth (S k) r EOF <> SQUOTE.
Proof.
  induction m as [|m IH]; intros r k o L H; (destruct r as [|c r]; [discriminate|]); [cbn in L; lia|]. cbn in L. cbn [sqe_scan] in H.
  destruct (N.eqb_spec c SQUOTE) as [->|NE].
  - destruct r as [|c' r']; [injection H as <- <-; cbn; discriminate|]. destruct (N.eqb_spec c' SQUOTE) as [->|NE].
    + cbn in L. destruct (sqe_scan r') as [[k' o']|] eqn:E; [|discriminate]. injection H as <- <-. apply (IH r' k' o'); [lia|exact E].
    + injection H as <- <-. exact NE.
  - destruct (sqe_scan r) as [[k' o']|] eqn:E; [|discriminate]. injection H as <- <-. apply (IH r k' o'); [lia|exact E].
Qed.
Lemma nth_rest (l : bytes) : forall n k, nth k (skipn n l) EOF = nth (n + k) l EOF.
Proof. induction l as [|c l IH]; intros [|n] k; cbn [skipn Nat.add]; [reflexivity|now destruct k|reflexivity|apply IH]. Qed.
Ltac run := repeat (lazymatch goal with
  | |- wlp (bind a_get ?k) ?n ?Q => change (wlp (k n) n Q)
  | |- wlp (bind (a_rest _) ?k) ?n ?Q => change (wlp (k (skipn n text)) n Q)
  | |- wlp (bind (a_peek _ ?i) ?k) ?n ?Q => change (wlp (k (nth (n + i) text EOF)) n Q)
  | |- wlp (bind (a_eof _) ?k) ?n ?Q => change (wlp (k (Nat.eqb n len)) n Q)
  | |- wlp (bind (a_string _ ?s) ?k) ?n ?Q => change (wlp (k (part s n)) n Q)
  | |- wlp (bind (a_indent _) ?k) ?n ?Q => change (wlp (k (indent_from text n)) n Q)
  | |- wlp (bind (a_set ?m) ?k) ?n ?Q => change (wlp (k tt) m Q)
  | |- wlp (bind (a_bump _ ?i) ?k) ?n ?Q => change (wlp (k tt) (Nat.min (n + i) len) Q)
  | |- wlp (bind (ret ?x) ?k) ?n ?Q => change (wlp (k x) n Q)
  end; cbv beta).
Lemma single_next n : at_ n = SQUOTE -> wlp (a_single_quoted text) n (fun _ n' => at_ n' <> SQUOTE).
Proof.
  intros E. pose proof (at_lt _ _ E ltac:(discriminate)) as L.
  unfold a_single_quoted. run. rewrite Nat.min_l by lia. rewrite Nat.add_1_r. set (r := skipn (S n) text).
  pose proof (sq_scan_spec r) as S1. pose proof (sq_scan_next r) as B1. assert (LR : length r = (len - S n)%nat) by apply skipn_length.
  destruct (sq_scan r) as [|k|k] eqn:SE; [exact Logic.I| |]; destruct S1 as [S1 S2].
  - run. rewrite Nat.min_l by lia. replace (Nat.eqb (S n + k) len) with false by (symmetry; apply Nat.eqb_neq; lia).
    run. rewrite Nat.min_l by lia. apply wlp_ret. unfold r in B1. rewrite nth_rest in B1. now replace (S n + k + 1)%nat with (S n + S k)%nat by lia.
  - run. rewrite Nat.min_l by lia. unfold a_single_quoted_escaped. run. set (r2 := skipn (S n + k) text).
    assert (R2 : length r2 = (len - (S n + k))%nat) by apply skipn_length.
    pose proof (sqe_scan_le _ r2 (le_n _)) as S3. destruct (sqe_scan r2) as [[k2 o]|] eqn:SE2; [|exact Logic.I].
    pose proof (sqe_scan_next _ r2 k2 o (le_n _) SE2) as B2.
    run. rewrite Nat.min_l by lia. rewrite Nat.min_l by lia. apply wlp_ret. unfold r2 in B2. rewrite nth_rest in B2. now replace (S n + k + k2 + 1)%nat with (S n + k + S k2)%nat by lia.
Qed.
Lemma shown_quote n s j : (n <= j <= len)%nat -> quote_shown (skipn j text) (part n j) s -> (at_ n = SQUOTE -> at_ j <> SQUOTE) -> quote_at text n s j.
Proof.
  intros L Q H. remember (part n j) as x eqn:E. destruct Q as [y v B|y v e B Q].
  - apply (qa_single _ _ _ _ y); [exact L|now symmetry|exact B|]. apply H. destruct (Nat.eq_dec n j) as [->|NE]; [rewrite seg_nil in E; discriminate|].
    rewrite part_at in E by lia. injection E as E _. now symmetry.
  - apply (qa_double _ _ _ _ y e); [exact L|now symmetry|exact B|]. destruct Q as [Q|[Q|[Q1 Q2]]]; [auto|auto|right; right]. split; [exact Q1|].
    apply (f_equal (@length N)) in Q2. rewrite skipn_length in Q2. cbn in Q2. unfold bytes, byte in *. lia.
Qed.
(* A quote is read as it is shown. *)
Definition quoted_post n (x : rstr bytes) j : Prop := quote_at text n (rs_id x) j.
Lemma quote_le n s j : quote_at text n s j -> (n < j <= len)%nat.
Proof. intros [y L E B N|y e L E B Q]; pose proof (seg_length text n j L) as K; rewrite E in K; cbn in K; lia. Qed.
Lemma single_at n : at_ n = SQUOTE -> wlp (a_single_quoted text) n (quoted_post n).
Proof.
  intros E. eapply wlp_mono; [apply wlp_and; [apply (l_single text n)|apply (single_next n E)]|].
  - now rewrite Nat.add_0_r.
  - cbv beta. intros x j ((L & _ & _ & Q) & N). apply shown_quote; [lia|exact Q|auto].
Qed.
Lemma double_at n : at_ n = DQUOTE -> wlp (a_double_quoted text) n (quoted_post n).
Proof.
  intros E. eapply wlp_mono; [apply (l_double text n); now rewrite Nat.add_0_r|].
  cbv beta. intros x j (L & _ & _ & Q). apply shown_quote; [lia|exact Q|]. rewrite E. discriminate.
Qed.

(* ---- numbers ---- *)
Lemma num_scan_more x r : forall d e h, (fst (num_scan d e h x) <= fst (num_scan d e h (x ++ r)))%nat.
Proof.
  induction x as [|c x IH]; intros d e h; cbn [app num_scan]; [cbn; lia|].
  destruct (_ && d); [specialize (IH false e h); destruct (num_scan false e h x), (num_scan false e h (x ++ r)); cbn in *; lia|].
  destruct (_ && e); [specialize (IH false false h); destruct (num_scan false false h x), (num_scan false false h (x ++ r)); cbn in *; lia|].
  destruct (is_digit c); [|cbn; lia]. specialize (IH d e true). destruct (num_scan d e true x), (num_scan d e true (x ++ r)); cbn in *; lia.
Qed.
Lemma numless_nil : numless [].
Proof. split; [reflexivity|]. cbn. unfold EOF, DOT. intuition discriminate. Qed.
(* The number read is the longest. *)
Lemma num_read_longest r k h x h' r' : num_read true r = Some (k, h) -> number_text x h' -> r = x ++ r' -> (length x <= k)%nat.
Proof.
  intros H U ->. unfold num_read in H.
  assert (SC : forall y fl, unsigned_number y fl -> (length y <= fst (num_scan true true false (y ++ r')))%nat).
  { intros y fl V. pose proof (num_scan_more y r' true true false) as M. pose proof (unsigned_scan y fl [] V numless_nil) as Q. rewrite app_nil_r in Q. rewrite Q in M. exact M. }
  destruct U as [(fl & V & _)|(y & fl & -> & V & _)].
  - pose proof (SC _ _ V) as M. apply unsigned_hd in V as (c & q & -> & D). cbn [app hd] in H.
    assert (c =? DASH = false) as Q by (apply N.eqb_neq; unfold digit, DOT, DASH in *; lia). rewrite Q in H. cbn [app] in M.
    destruct (num_scan true true false (c :: q ++ r')) as [k' f']. cbn [fst] in M. destruct (Nat.eqb k' 0); [discriminate|]. cbn [negb andb] in H. injection H as <- _. exact M.
  - pose proof (SC _ _ V) as M. cbn [app hd tl] in H. rewrite N.eqb_refl in H. cbv beta iota zeta in H. unfold bytes, byte in *. destruct (num_scan true true false (y ++ r')) as [k' f']. cbn [fst] in M.
    destruct (Nat.eqb k' 0); [discriminate|]. cbn [negb andb] in H. injection H as <- _. cbn [length]. lia.
Qed.
Lemma num_read_some x h r : number_text x h -> num_read true (x ++ r) <> None.
Proof.
  intros U. unfold num_read.
  assert (SC : forall y fl, unsigned_number y fl -> (0 < fst (num_scan true true false (y ++ r)))%nat).
  { intros y fl V. pose proof (num_scan_more y r true true false) as M. pose proof (unsigned_scan y fl [] V numless_nil) as Q. rewrite app_nil_r in Q. rewrite Q in M.
    apply unsigned_hd in V as (c & q & -> & D). cbn in *. lia. }
  destruct U as [(fl & V & _)|(y & fl & -> & V & _)].
  - pose proof (SC _ _ V) as M. apply unsigned_hd in V as (c & q & -> & D). cbn [app hd] in *.
    assert (c =? DASH = false) as -> by (apply N.eqb_neq; unfold digit, DOT, DASH in *; lia).
    destruct (num_scan true true false (c :: q ++ r)) as [k' f']. cbn [fst] in M. destruct (Nat.eqb_spec k' 0); [lia|]. cbn. discriminate.
  - pose proof (SC _ _ V) as M. cbn [app hd tl]. rewrite N.eqb_refl. cbv beta iota zeta. unfold bytes, byte in *. destruct (num_scan true true false (y ++ r)) as [k' f']. cbn [fst] in M.
    destruct (Nat.eqb_spec k' 0); [lia|]. cbn. discriminate.
Qed.
Lemma num_read_flow r : num_read false r = match num_read true r with Some (k, h) => if eol_scan (skipn k r) then Some (k, h) else None | None => None end.
Proof.
  unfold num_read. cbn [negb andb]. destruct (N.eqb_spec (hd EOF r) DASH) as [E|E].
  - destruct r as [|c r]; [discriminate|]. cbn [tl]. destruct (num_scan true true false r) as [k fl]. destruct (Nat.eqb k 0); [reflexivity|].
    cbn [skipn]. now destruct (eol_scan (skipn k r)).
  - destruct (num_scan true true false r) as [k fl]. destruct (Nat.eqb k 0); [reflexivity|]. now destruct (eol_scan (skipn k r)).
Qed.
Lemma eol_scan_at n : (n <= len)%nat -> eol_scan (skipn n text) = true <-> exists k, line_to n k /\ Forall blank (part n k).
Proof.
  intros L. remember (len - n)%nat as m eqn:M. revert n L M. induction m as [|m IH]; intros n L M.
  - assert (n = len) as -> by lia. rewrite rest_end by lia. split; [|reflexivity]. intros _. exists len. split; [apply line_nil; auto|]. rewrite seg_nil. constructor.
  - rewrite rest_at by lia. cbn [eol_scan]. destruct (N.eqb_spec (at_ n) NEWLINE) as [E|E].
    { split; [|reflexivity]. intros _. exists n. split; [apply line_nil; auto|]. rewrite seg_nil. constructor. }
    specialize (IH (S n) ltac:(lia) ltac:(lia)). destruct (is_other_ws (at_ n)) eqn:W.
    + rewrite IH. apply blank_iff in W. split; intros (k & K & F); exists k.
      * split; [apply line_step; auto; lia|]. rewrite part_at by (destruct K; lia). now constructor.
      * assert (n <> k). { intros ->. destruct K as (K1 & _ & [K2|K2]); [lia|auto]. }
        split; [apply (line_pre n); [exact K|destruct K; lia]|]. rewrite part_at in F by (destruct K; lia). now inversion F.
    + split; [discriminate|]. intros (k & K & F). exfalso. assert (n <> k). { intros ->. destruct K as (K1 & _ & [K2|K2]); [lia|auto]. }
      rewrite part_at in F by (destruct K; lia). inversion F as [|? ? B _]; subst. apply blank_iff in B. congruence.
Qed.
Lemma number_read flow n h j : (n <= len)%nat -> number_at text flow n h j <-> (n <= j)%nat /\ num_read flow (skipn n text) = Some ((j - n)%nat, h).
Proof.
  intros L. assert (LS : length (skipn n text) = (len - n)%nat) by apply skipn_length.
  assert (SP : forall k, (n <= k <= len)%nat -> skipn n text = part n k ++ skipn k text).
  { intros k K. rewrite <- (seg_full text k), <- (seg_full text n) by lia. now rewrite seg_app by lia. }
  split.
  - intros (J & U & M & B). split; [lia|].
    assert (R : num_read true (skipn n text) = Some ((j - n)%nat, h)).
    { rewrite (SP j J). pose proof (num_read_some _ _ (skipn j text) U) as Q. destruct (num_read true (part n j ++ skipn j text)) as [[k h']|] eqn:R; [|congruence].
      pose proof (num_read_longest _ _ _ _ _ _ R U eq_refl) as LE. rewrite seg_length in LE by lia.
      apply num_read_inv in R as (x & r & E & -> & V & _). pose proof (f_equal (@length N) E) as EL. unfold bytes, byte in *. rewrite !app_length, seg_length, skipn_length in EL by lia.
      assert (X : x = part n (n + length x)).
      { rewrite seg_scan by lia. rewrite (SP j J), E. symmetry. apply firstn_at. }
      destruct (Nat.eq_dec (length x) (j - n)) as [Q'|NE].
      - rewrite Q' in *. replace (n + (j - n))%nat with j in X by lia. rewrite X in V. now rewrite (number_det _ _ _ U V).
      - exfalso. apply (M (n + length x)%nat h'); [lia|]. rewrite <- X. exact V. }
    destruct flow; [exact R|]. rewrite num_read_flow, R. rewrite skipn_add. replace (j - n + n)%nat with j by lia.
    rewrite (proj2 (eol_scan_at j ltac:(lia)) (B eq_refl)). reflexivity.
  - intros (J & R).
    assert (R1 : num_read true (skipn n text) = Some ((j - n)%nat, h) /\ (flow = false -> eol_scan (skipn j text) = true)).
    { destruct flow; [split; [exact R|discriminate]|]. rewrite num_read_flow in R. destruct (num_read true (skipn n text)) as [[k h']|]; [|discriminate].
      destruct (eol_scan (skipn k (skipn n text))) eqn:E; [|discriminate]. injection R as -> ->. split; [reflexivity|]. intros _.
      rewrite skipn_add in E. now replace (j - n + n)%nat with j in E by lia. }
    clear R. destruct R1 as [R B]. pose proof R as R0. apply num_read_inv in R as (x & r & E & K & U & _).
    pose proof (f_equal (@length N) E) as EL. unfold bytes, byte in *. rewrite app_length in EL.
    assert (X : x = part n j). { replace j with (n + length x)%nat by lia. rewrite seg_scan by lia. rewrite E. symmetry. apply firstn_at. }
    split; [lia|]. rewrite <- X. split; [exact U|]. split.
    + intros k h' K' V. pose proof (num_read_longest _ _ _ _ _ _ R0 V (SP k ltac:(lia))) as LE. rewrite seg_length in LE by lia. lia.
    + intros F. apply eol_scan_at; [lia|auto].
Qed.
Lemma number_cases flow n : (n <= len)%nat ->
  (exists h j, number_at text flow n h j) \/ (forall h j, ~ number_at text flow n h j).
Proof.
  intros L. destruct (num_read flow (skipn n text)) as [[k h]|] eqn:R.
  - left. exists h, (n + k)%nat. apply number_read; [exact L|]. split; [lia|]. rewrite R. do 2 f_equal. lia.
  - right. intros h j N. apply number_read in N as [_ N]; [congruence|exact L].
Qed.
Lemma number_le flow n h j : number_at text flow n h j -> (n < j <= len)%nat.
Proof.
  intros (L & U & _). split; [|lia]. apply number_hd in U as (c & r & E & _). pose proof (seg_length text n j L) as K. rewrite E in K. cbn in K. lia.
Qed.
Lemma number_eval flow n h j : number_at text flow n h j -> a_number text (negb flow) n n = Ok (Some (ScNum (part n j) h), j).
Proof.
  intros N. pose proof (number_le _ _ _ _ N) as L. destruct (split3 n j ltac:(lia)) as (E & L1 & L2). apply number_read in N as [_ N]; [|lia].
  pose proof (r_number text (negb flow) (firstn n text) (skipn n text) (eq_sym (firstn_skipn n text))) as R. rewrite negb_involutive, N, L1 in R.
  specialize (R (part n j) (skipn j text)). rewrite L2 in R. apply R; [|rewrite seg_length; lia].
  rewrite <- (firstn_skipn n text) in E at 1. now apply app_inv_head in E.
Qed.
Lemma number_none flow n : (n <= len)%nat -> (forall h j, ~ number_at text flow n h j) -> exists m, (n <= m <= len)%nat /\
  a_number text (negb flow) n n = Ok (None, m) /\ forall k, (n <= k < m)%nat -> at_ k <> NEWLINE /\ at_ k <> COLON /\ is_ctl (at_ k) = false.
Proof.
  intros L NN. pose proof (r_number text (negb flow) (firstn n text) (skipn n text) (eq_sym (firstn_skipn n text))) as R. rewrite negb_involutive in R.
  assert (L1 : length (firstn n text) = n) by (rewrite firstn_length; lia). rewrite L1 in R.
  destruct (num_read flow (skipn n text)) as [[k h]|] eqn:Q.
  { exfalso. apply (NN h (n + k)%nat). apply number_read; [exact L|]. split; [lia|]. rewrite Q. do 2 f_equal. lia. }
  destruct R as (x & s & E & X & R). rewrite app_length, L1 in R. pose proof (f_equal (@length N) E) as EL. rewrite skipn_length in EL. unfold bytes, byte in *. rewrite app_length in EL.
  exists (n + length x)%nat. split; [lia|]. split; [exact R|]. intros k K. apply X.
  assert (PX : part n (n + length x) = x) by (rewrite seg_scan by (rewrite ?skipn_length; lia); rewrite E; apply firstn_at).
  rewrite <- PX. apply part_in; [lia|]. eauto.
Qed.

(* ---- words ---- *)
Lemma at_hd n : at_ n = hd EOF (skipn n text).
Proof. apply (nth_skipn text). Qed.
Lemma ctl_scan_at n : (n <= len)%nat -> let j := (n + ctl_scan (skipn n text))%nat in
  (n <= j <= len)%nat /\ (forall k, (n <= k < j)%nat -> is_ctl (at_ k) = false) /\ is_ctl (at_ j) = true.
Proof.
  intros L. remember (len - n)%nat as m eqn:M. revert n L M. induction m as [|m IH]; intros n L M.
  - assert (n = len) as -> by lia. rewrite rest_end by lia. cbn [ctl_scan]. rewrite Nat.add_0_r. split; [lia|]. split; [lia|]. now rewrite nth_overflow by lia.
  - rewrite rest_at by lia. cbn [ctl_scan]. destruct (is_ctl (at_ n)) eqn:C.
    + rewrite Nat.add_0_r. cbv zeta. split; [lia|]. split; [lia|exact C].
    + destruct (IH (S n) ltac:(lia) ltac:(lia)) as (H1 & H2 & H3). rewrite Nat.add_succ_r. cbv zeta. cbn [Nat.add] in *. split; [lia|]. split; [|exact H3].
      intros k K. destruct (Nat.eq_dec k n) as [->|]; [exact C|]. apply H2. lia.
Qed.
Lemma word_flow_iff i j : word_to text true i j <-> (i <= j <= len)%nat /\ (forall k, (i <= k < j)%nat -> is_ctl (at_ k) = false) /\ is_ctl (at_ j) = true.
Proof.
  unfold word_to. rewrite ctl_in. split; intros (L & F & E); (split; [exact L|]); (split; [|exact E]).
  - intros k K. destruct (is_ctl (at_ k)) eqn:C; [|reflexivity]. exfalso. apply ctl_in in C. apply (F (at_ k)); [|exact C]. apply part_in; [lia|]. eauto.
  - intros c I C. apply part_in in I as (k & K & <-); [|lia]. apply ctl_in in C. rewrite F in C by lia. discriminate.
Qed.
Lemma word_flow n m : (n <= m <= len)%nat -> (forall k, (n <= k < m)%nat -> is_ctl (at_ k) = false) -> word_to text true n (m + ctl_scan (skipn m text)).
Proof.
  intros L F. apply word_flow_iff. destruct (ctl_scan_at m ltac:(lia)) as (H1 & H2 & H3). split; [lia|]. split; [|exact H3].
  intros k K. destruct (Nat.lt_ge_cases k m); [apply F|apply H2]; lia.
Qed.
Lemma word_flow_det n j j' : word_to text true n j -> word_to text true n j' -> j = j'.
Proof.
  rewrite !word_flow_iff. intros (L & F & E) (L' & F' & E'). destruct (Nat.lt_trichotomy j j') as [H|[H|H]]; [exfalso|exact H|exfalso].
  - rewrite F' in E by lia. discriminate. - rewrite F in E' by lia. discriminate.
Qed.

(* ---- keys ---- *)
Definition first_colon (i k : nat) : Prop := (i <= k < len)%nat /\ ~ In NEWLINE (part i k) /\ at_ k = COLON /\ ends_key text (S k) /\
  forall k', (i <= k' < k)%nat -> at_ k' = COLON -> ~ ends_key text (S k').
Lemma ends_key_iff n : ends_key text n <-> is_ws (at_ n) || (at_ n =? EOF) = true.
Proof. unfold ends_key. rewrite orb_true_iff, is_ws_white, N.eqb_eq. reflexivity. Qed.
Lemma key_scan_at_f c : forall n, (n <= len)%nat -> (len - n <= c)%nat -> match key_scan (skipn n text) with
  | (k, true) => first_colon n (n + k)
  | (k, false) => word_to text false n (n + k)
  end.
Proof.
  induction c as [|c IH]; intros n L M.
  - assert (n = len) as -> by lia. rewrite rest_end by lia. cbn [key_scan]. rewrite Nat.add_0_r. split; [apply line_nil; auto|lia].
  - destruct (Nat.eq_dec n len) as [->|NE]; [apply IH; lia|]. rewrite rest_at by lia. cbn [key_scan].
    destruct (N.eqb_spec (at_ n) NEWLINE) as [E|E]; [rewrite Nat.add_0_r; split; [apply line_nil; auto|lia]|].
    rewrite <- at_hd. destruct (N.eqb_spec (at_ n) COLON) as [C|C]; cbn [andb].
    + destruct (_ || _) eqn:X.
      * rewrite Nat.add_0_r. split; [lia|]. split; [rewrite seg_nil; intros []|]. split; [exact C|]. split; [now apply ends_key_iff|lia].
      * specialize (IH (S n) ltac:(lia) ltac:(lia)). assert (NK : ~ ends_key text (S n)) by (rewrite ends_key_iff, X; discriminate).
        destruct (key_scan (skipn (S n) text)) as [k [|]]; rewrite Nat.add_succ_r; cbn [Nat.add] in IH.
        -- destruct IH as (H1 & H2 & H3 & H4 & H5). split; [lia|]. split.
           { rewrite part_at by lia. cbn [In]. intros [Q|Q]; [congruence|contradiction]. }
           split; [exact H3|]. split; [exact H4|]. intros k' K' C'. destruct (Nat.eq_dec k' n) as [->|]; [exact NK|]. apply H5; [lia|exact C'].
        -- destruct IH as (H1 & H2). split; [apply line_step; auto; lia|]. intros k' K' C'. destruct (Nat.eq_dec k' n) as [->|]; [exact NK|]. apply H2; [lia|exact C'].
    + specialize (IH (S n) ltac:(lia) ltac:(lia)).
      destruct (key_scan (skipn (S n) text)) as [k [|]]; rewrite Nat.add_succ_r; cbn [Nat.add] in IH.
      * destruct IH as (H1 & H2 & H3 & H4 & H5). split; [lia|]. split.
        { rewrite part_at by lia. cbn [In]. intros [Q|Q]; [congruence|contradiction]. }
        split; [exact H3|]. split; [exact H4|]. intros k' K' C'. destruct (Nat.eq_dec k' n) as [->|]; [contradiction|]. apply H5; [lia|exact C'].
      * destruct IH as (H1 & H2). split; [apply line_step; auto; lia|]. intros k' K' C'. destruct (Nat.eq_dec k' n) as [->|]; [contradiction|]. apply H2; [lia|exact C'].
Qed.
Lemma key_scan_at n m : (n <= m <= len)%nat -> (forall k, (n <= k < m)%nat -> at_ k <> NEWLINE /\ at_ k <> COLON) -> match key_scan (skipn m text) with
  | (k, true) => first_colon n (m + k)
  | (k, false) => word_to text false n (m + k)
  end.
Proof.
  intros L F. pose proof (key_scan_at_f _ m ltac:(lia) (le_n _)) as K. destruct (key_scan (skipn m text)) as [k [|]].
  - destruct K as (H1 & H2 & H3 & H4 & H5). split; [lia|]. split.
    { rewrite part_in in * by lia. intros (q & Q & E). destruct (Nat.lt_ge_cases q m); [exact (proj1 (F q ltac:(lia)) E)|]. apply H2. exists q. split; [lia|exact E]. }
    split; [exact H3|]. split; [exact H4|]. intros q Q C. destruct (Nat.lt_ge_cases q m); [now destruct (proj2 (F q ltac:(lia)) C)|]. apply H5; [lia|exact C].
  - destruct K as ((H1 & H2 & H3) & H4). split.
    + split; [lia|]. split; [|exact H3]. rewrite part_in in * by lia. intros (q & Q & E). destruct (Nat.lt_ge_cases q m); [exact (proj1 (F q ltac:(lia)) E)|]. apply H2. exists q. split; [lia|exact E].
    + intros q Q C. destruct (Nat.lt_ge_cases q m); [now destruct (proj2 (F q ltac:(lia)) C)|]. apply H4; [lia|exact C].
Qed.
Lemma first_colon_det n k k' : first_colon n k -> first_colon n k' -> k = k'.
Proof.
  intros (L & N & C & E & F) (L' & N' & C' & E' & F'). destruct (Nat.lt_trichotomy k k') as [H|[H|H]]; [exfalso|exact H|exfalso].
  - apply (F' k); auto; lia. - apply (F k'); auto; lia.
Qed.
Lemma first_colon_word n k j : first_colon n k -> word_to text false n j -> False.
Proof.
  intros (L & N & C & E & F) ((L' & N' & X) & W). destruct (Nat.lt_ge_cases k j) as [H|H]; [apply (W k); auto; lia|].
  destruct X as [X|X]; [lia|]. destruct (Nat.eq_dec k j) as [->|NE]; [rewrite C in X; discriminate|]. apply N. apply part_in; [lia|]. exists j. split; [lia|exact X].
Qed.
Lemma word_line_det n j j' : word_to text false n j -> word_to text false n j' -> j = j'.
Proof. intros (L & _) (L' & _). eapply line_det; eauto. Qed.
(* key_or_eol, after a part of the line without newlines and colons was read *)
Lemma key_or_eol_at n m : (n <= m <= len)%nat -> (forall k, (n <= k < m)%nat -> at_ k <> NEWLINE /\ at_ k <> COLON) ->
  (exists k, first_colon n k /\ a_key_or_eol text n m = Ok (Some (RS KBare (part n k) (part n k)), k)) \/
  (exists j, word_to text false n j /\ a_key_or_eol text n m = Ok (None, j)).
Proof.
  intros L F. pose proof (key_scan_at n m L F) as K. unfold a_key_or_eol, bind, a_rest, a_string, a_bump, ret. destruct (key_scan (skipn m text)) as [k [|]]; cbn [fst].
  - left. exists (m + k)%nat. split; [exact K|]. destruct K as (H & _). now rewrite Nat.min_l by lia.
  - right. exists (m + k)%nat. split; [exact K|]. destruct K as ((H & _) & _). now rewrite Nat.min_l by lia.
Qed.
Definition to_colon (n j : nat) : Prop := (n <= j <= len)%nat /\ (forall k, (n <= k < j)%nat -> ~ In (at_ k) [COLON; 0]) /\ In (at_ j) [COLON; 0].
Lemma colon_scan_at n : (n <= len)%nat -> to_colon n (n + colon_scan (skipn n text)).
Proof.
  intros L. remember (len - n)%nat as m eqn:M. revert n L M. induction m as [|m IH]; intros n L M.
  - assert (n = len) as -> by lia. rewrite rest_end by lia. cbn [colon_scan]. rewrite Nat.add_0_r. split; [lia|]. split; [lia|]. rewrite nth_overflow by lia. right. now left.
  - rewrite rest_at by lia. cbn [colon_scan].
    assert (C : (at_ n =? COLON) || (at_ n =? EOF) = true <-> In (at_ n) [COLON; 0]).
    { rewrite orb_true_iff, !N.eqb_eq. unfold EOF. cbn. intuition congruence. }
    destruct (_ || _).
    + rewrite Nat.add_0_r. split; [lia|]. split; [lia|now apply C].
    + destruct (IH (S n) ltac:(lia) ltac:(lia)) as (H1 & H2 & H3). rewrite Nat.add_succ_r. cbn [Nat.add] in *. split; [lia|]. split; [|exact H3].
      intros k K. destruct (Nat.eq_dec k n) as [->|]; [intros X; apply C in X; discriminate|]. apply H2. lia.
Qed.
Lemma to_colon_det n j j' : to_colon n j -> to_colon n j' -> j = j'.
Proof.
  intros (L & F & E) (L' & F' & E'). destruct (Nat.lt_trichotomy j j') as [H|[H|H]]; [exfalso|exact H|exfalso].
  - apply (F' j); auto; lia. - apply (F j'); auto; lia.
Qed.
Lemma no_colon_part n j : (n <= j <= len)%nat -> ~ In COLON (part n j) /\ ~ In 0 (part n j) <-> forall k, (n <= k < j)%nat -> ~ In (at_ k) [COLON; 0].
Proof.
  intros L. rewrite !part_in by lia. split.
  - intros [A B] k K [E|[E|[]]]; [apply A|apply B]; exists k; auto.
  - intros F. split; intros (k & K & E); apply (F k K); rewrite E; cbn; auto.
Qed.
Lemma later_key_iff i s k : later_key_at text i s k <-> to_colon i k /\ (i < k)%nat /\ at_ k = COLON /\ s = part i k.
Proof.
  split.
  - intros (L & -> & C1 & C2 & E). split; [|split; [lia|auto]]. split; [lia|]. split; [|rewrite E; now left]. apply no_colon_part; [lia|auto].
  - intros ((L & F & _) & LT & E & ->). pose proof (at_lt _ _ E ltac:(discriminate)). split; [lia|]. split; [reflexivity|].
    apply no_colon_part in F as [F1 F2]; [auto|lia].
Qed.
Lemma flow_key_iff i s k : flow_key_at text i s k <-> to_colon i k /\ (k < len)%nat /\ s = part i k.
Proof.
  split.
  - intros (L & -> & C1 & C2 & E). split; [|split; [lia|auto]]. split; [lia|]. split; [|exact E]. apply no_colon_part; [lia|auto].
  - intros ((L & F & E) & LT & ->). split; [lia|]. split; [reflexivity|]. apply no_colon_part in F as [F1 F2]; [auto|lia].
Qed.
Lemma next_key_at n j : to_colon n j -> a_next_mapping_key text n = Ok (match part n j with [] => None | x => Some (RS KBare x x) end, j).
Proof.
  intros T. pose proof (proj1 T) as L. rewrite (to_colon_det _ _ _ T (colon_scan_at n ltac:(lia))).
  unfold a_next_mapping_key, bind, a_get, a_rest, a_bump, a_string, ret. destruct (colon_scan_at n ltac:(lia)) as [H _]. rewrite Nat.min_l by lia.
  now destruct (part n (n + colon_scan (skipn n text))).
Qed.
Lemma until_colon_at n j : to_colon n j -> a_until_colon text n n = Ok (if Nat.eqb j len then None else Some (RS KBare (part n j) (part n j)), j).
Proof.
  intros T. pose proof (proj1 T) as L. rewrite (to_colon_det _ _ _ T (colon_scan_at n ltac:(lia))).
  unfold a_until_colon, bind, a_rest, a_bump, a_eof, a_string, ret. destruct (colon_scan_at n ltac:(lia)) as [H _]. rewrite Nat.min_l by lia.
  now destruct (Nat.eqb (n + colon_scan (skipn n text)) len).
Qed.

(* ---- block scalars ---- *)
Lemma gap_end : gap_to len len.
Proof. apply ga_none; [lia|rewrite nth_overflow by lia; cbn; intuition discriminate|rewrite nth_overflow by lia; discriminate]. Qed.
Lemma line_gap_lt n l m : (n < len)%nat -> line_to n l -> gap_to l m -> (n < m)%nat.
Proof.
  intros L (K & _ & E) G. pose proof (gap_le _ _ G). destruct (Nat.eq_dec n l) as [->|NE]; [|lia]. destruct E as [E|E]; [lia|].
  inversion G as [? L' W' H'|? ? W' G1|? k' ? H' K' G1]; subst.
  - exfalso. apply W'. rewrite E. cbn. auto. - apply gap_le in G1. lia. - exfalso. rewrite E in H'. discriminate.
Qed.
Lemma lines_le folded c n v e m : lines_at text folded c n v e m -> (n <= e <= m)%nat /\ (n < len)%nat /\ gap_to e m.
Proof.
  induction 1 as [n l t m L K T G C|n l t L K T G C|n l t n' v e m L K T G L' C _ IH].
  - pose proof (gap_le _ _ G). destruct K. split; [lia|auto].
  - pose proof (gap_le _ _ G). destruct K. split; [lia|auto].
  - pose proof (gap_le _ _ G). destruct K. split; [lia|]. split; [lia|tauto].
Qed.
Lemma lines_eval folded c f : forall n w nl stop acc, (n < len)%nat -> (len - n < f)%nat -> exists v e m, lines_at text folded c n v e m /\
  a_block_loop text f (if folded then SPACE else NEWLINE) folded c w nl stop acc n = Ok ((part e m, count_occ N.eq_dec (part e m) NEWLINE, e, acc ++ v), m).
Proof.
  induction f as [|f IH]; intros n w nl stop acc L F; [lia|]. cbn [a_block_loop].
  rewrite (bind_ok (a_eof text) _ n false n) by (unfold a_eof; rewrite (proj2 (Nat.eqb_neq n len)) by lia; reflexivity).
  rewrite (bind_ok a_get _ n n n eq_refl). destruct (line_find n ltac:(lia)) as (l & K & E). rewrite (bind_ok _ _ _ _ _ E).
  rewrite (bind_ok (a_string text n) _ l (part n l) l eq_refl). rewrite (bind_ok a_get _ l l l eq_refl).
  pose proof (proj1 K) as KL. destruct (gap_ex l ltac:(lia)) as (n' & G). rewrite (bind_ok _ _ _ _ _ (gap_eval _ _ G)). pose proof (gap_le _ _ G) as GL.
  pose proof (line_gap_lt _ _ _ L K G) as LT.
  rewrite (bind_ok (a_indent text) _ n' (column n') n') by (unfold a_indent, bind, a_get, ret; now rewrite column_indent by lia).
  pose proof (proj1 (trim_spec (part n l) _) eq_refl) as T. destruct (Nat.ltb_spec (column n') c) as [C|C].
  { exists (trim (part n l)), l, n'. split; [now apply la_last|reflexivity]. }
  rewrite join_joined. destruct (Nat.eq_dec n' len) as [->|NE].
  - exists (trim (part n l) ++ joined folded (part l len)), l, len. split; [now apply la_end|]. destruct f as [|f]; [lia|]. cbn [a_block_loop].
    rewrite (bind_ok (a_eof text) _ len true len) by (unfold a_eof; now rewrite Nat.eqb_refl). unfold ret. now rewrite <- app_assoc.
  - destruct (IH n' (part l n') (count_occ N.eq_dec (part l n') NEWLINE) l ((acc ++ trim (part n l)) ++ joined folded (part l n')) ltac:(lia) ltac:(lia)) as (v & e & m & V & R).
    exists (trim (part n l) ++ joined folded (part l n') ++ v), e, m. split; [apply (la_more _ _ _ n l _ n'); auto; lia|]. rewrite R. now rewrite <- !app_assoc.
Qed.
Lemma trimmed_det x t t' : trimmed x t -> trimmed x t' -> t = t'.
Proof. intros A B. apply trim_spec in A, B. congruence. Qed.
Lemma lines_det folded c n v e m : lines_at text folded c n v e m -> forall v' e' m', lines_at text folded c n v' e' m' -> v = v' /\ e = e' /\ m = m'.
Proof.
  induction 1 as [n l t m L K T G C|n l t L K T G C|n l t n' v e m L K T G L' C X IH]; intros v' e' m' R;
    inversion R as [? l1 t1 m1 L1 K1 T1 G1 C1|? l1 t1 L1 K1 T1 G1 C1|? l1 t1 n1 v1 e1 m1 L1 K1 T1 G1 L1' C1 X1]; subst;
    pose proof (line_det _ _ _ K K1) as Q; subst; pose proof (gap_det _ _ G _ G1) as Q; try subst; pose proof (trimmed_det _ _ _ T T1) as Q2; subst; try lia; auto.
  destruct (IH _ _ _ X1) as (-> & -> & ->). auto.
Qed.
Lemma body_eval folded strip k h : (h <= k <= len)%nat -> exists v w e m, block_body text folded k v w e /\ gap_to e m /\
  a_block text (k - h) (if folded then SPACE else NEWLINE) folded (negb strip) strip h =
    Ok ((ScStr (RS (KMultiline (part h k)) (v ++ if strip then [] else newlines_in w) (part k e)), Some w), m).
Proof.
  intros L. unfold a_block. rewrite (bind_ok a_get _ h h h eq_refl). rewrite (bind_ok (a_bump text (k - h)) _ h tt k) by (unfold a_bump; do 2 f_equal; lia).
  rewrite (bind_ok (a_string text h) _ k (part h k) k eq_refl). rewrite (bind_ok a_get _ k k k eq_refl).
  destruct (gap_ex k ltac:(lia)) as (n & G). rewrite (bind_ok _ _ _ _ _ (gap_eval _ _ G)). pose proof (gap_le _ _ G) as GL.
  (* the end: the newlines kept *)
  assert (KEEP : forall w, repeat NEWLINE (if negb strip then if strip then Nat.min (count_occ N.eq_dec w NEWLINE) 1 else count_occ N.eq_dec w NEWLINE else 0) = if strip then [] else newlines_in w) by (intros w; now destruct strip).
  assert (LOOP0 : forall w nl acc, a_block_loop text (S len) (if folded then SPACE else NEWLINE) folded (column len) w nl len acc len = Ok ((w, nl, len, acc), len)).
  { intros w nl acc. cbn [a_block_loop]. rewrite (bind_ok (a_eof text) _ len true len) by (unfold a_eof; now rewrite Nat.eqb_refl). reflexivity. }
  destruct (in_dec N.eq_dec NEWLINE (part k n)) as [I|I].
  - rewrite (proj2 (Nat.eqb_neq (count_occ N.eq_dec (part k n) NEWLINE) 0)) by (apply (count_occ_In N.eq_dec) in I; lia).
    match goal with |- context [bind (ret ?q) ?kk n] => rewrite (bind_ok (ret q) kk n q n eq_refl) end. cbv beta iota. rewrite (bind_ok a_get _ n n n eq_refl).
    rewrite (bind_ok (a_indent text) _ n (column n) n) by (unfold a_indent, bind, a_get, ret; now rewrite column_indent by lia).
    destruct (Nat.eq_dec n len) as [->|NE].
    + rewrite (bind_ok _ _ _ _ _ (LOOP0 _ _ _)). rewrite KEEP. exists [], (part k len), len, len. split; [now apply bb_empty|]. split; [apply gap_end|reflexivity].
    + destruct (lines_eval folded (column n) (S len) n (part k n) (count_occ N.eq_dec (part k n) NEWLINE) n [] ltac:(lia) ltac:(lia)) as (v & e & m & V & R).
      rewrite (bind_ok _ _ _ _ _ R). rewrite KEEP. exists v, (part e m), e, m. split; [apply (bb_lines _ _ _ n v e m); auto; lia|]. split; [now apply lines_le in V|reflexivity].
  - rewrite (proj1 (count_occ_not_In N.eq_dec _ _) I). cbn [Nat.eqb].
    assert (HD : exists n, gap_to k n /\ ~ In NEWLINE (part k n)) by eauto.
    destruct (line_find n ltac:(lia)) as (l & K & E).
    assert (K0 : line_to k l). { destruct K as (KL & KN & KE). split; [lia|]. split; [|exact KE]. rewrite <- (seg_app text k n l) by lia. rewrite in_app_iff. tauto. }
    destruct (gap_ex l) as (n' & G'); [destruct K; lia|]. pose proof (gap_le _ _ G') as GL'.
    match goal with |- context [bind (a_find text NEWLINE) ?kk] => assert (H : bind (a_find text NEWLINE) kk n = Ok ((part l n', count_occ N.eq_dec (part l n') NEWLINE, trim (part k l) ++ (if Nat.eqb n' len then [] else [if folded then SPACE else NEWLINE])), n')) end.
    { rewrite (bind_ok _ _ _ _ _ E). rewrite (bind_ok (a_string text k) _ l (part k l) l eq_refl). rewrite (bind_ok _ _ _ _ _ (gap_eval _ _ G')).
      rewrite (bind_ok (a_eof text) _ n' (Nat.eqb n' len) n' eq_refl). reflexivity. }
    rewrite (bind_ok _ _ _ _ _ H). rewrite (bind_ok a_get _ n' n' n' eq_refl).
    rewrite (bind_ok (a_indent text) _ n' (column n') n') by (unfold a_indent, bind, a_get, ret; now rewrite column_indent by lia).
    pose proof (proj1 (trim_spec (part k l) _) eq_refl) as T. destruct (Nat.eqb_spec n' len) as [->|NE].
    + rewrite (bind_ok _ _ _ _ _ (LOOP0 _ _ _)). rewrite KEEP, app_nil_r. exists (trim (part k l)), (part l len), len, len. split; [now apply (bb_head _ _ _ l)|]. split; [apply gap_end|reflexivity].
    + destruct (lines_eval folded (column n') (S len) n' (part l n') (count_occ N.eq_dec (part l n') NEWLINE) n' (trim (part k l) ++ [if folded then SPACE else NEWLINE]) ltac:(lia) ltac:(lia)) as (v & e & m & V & R).
      rewrite (bind_ok _ _ _ _ _ R). rewrite KEEP. exists (trim (part k l) ++ (if folded then b " " else [NEWLINE]) ++ v), (part e m), e, m.
      split; [apply (bb_more _ _ _ l _ n' v e m); auto; lia|]. split; [now apply lines_le in V|]. unfold ret. rewrite <- !app_assoc. now destruct folded.
Qed.
Lemma body_det folded k v w e : block_body text folded k v w e -> forall v' w' e', block_body text folded k v' w' e' -> v = v' /\ w = w' /\ e = e'.
Proof.
  intros B v' w' e' B'.
  destruct B as [G I|n v e m G I L V|l t (n & G & I) K T G1|l t n1 v e m (n & G & I) K T G1 L V];
  destruct B' as [G' I'|n' v' e' m' G' I' L' V'|l' t' (n' & G' & I') K' T' G1'|l' t' n1' v' e' m' (n' & G' & I') K' T' G1' L' V'];
  pose proof (gap_det _ _ G _ G') as Q; try subst; try contradiction; try lia; auto.
  - destruct (lines_det _ _ _ _ _ _ V _ _ _ V') as (-> & -> & ->). auto.
  - rewrite <- (line_det _ _ _ K K') in *. now rewrite (trimmed_det _ _ _ T T').
  - pose proof (line_det _ _ _ K K'). subst l'. pose proof (gap_det _ _ G1 _ G1'). lia.
  - pose proof (line_det _ _ _ K K'). subst l'. pose proof (gap_det _ _ G1 _ G1'). lia.
  - pose proof (line_det _ _ _ K K'). subst l'. pose proof (gap_det _ _ G1 _ G1'). subst n1'.
    destruct (lines_det _ _ _ _ _ _ V _ _ _ V') as (-> & -> & ->). now rewrite (trimmed_det _ _ _ T T').
Qed.
Definition a_block_at (i : nat) := let a := at_ i in let c := at_ (i + 1) in
  a_block text (if (c =? DASH) || (c =? PLUS) then 2%nat else 1%nat) (if a =? GT then SPACE else NEWLINE) (a =? GT) (negb (c =? DASH)) (c =? DASH).
Lemma block_ex i : at_ i = GT \/ at_ i = PIPE -> exists s j m p o q, block_at text i s j /\ gap_to j m /\ a_block_at i i = Ok ((ScStr (RS (KMultiline p) s o), Some q), m).
Proof.
  intros H. assert (L : (i < len)%nat) by (destruct H as [H|H]; apply (at_lt _ _ H); discriminate).
  set (folded := at_ i =? GT).
  assert (FA : at_ i = if folded then GT else PIPE). { unfold folded. destruct (N.eqb_spec (at_ i) GT) as [E|E]; [exact E|]. now destruct H. }
  unfold a_block_at. cbv zeta. fold folded. replace (i + 1)%nat with (S i) by lia.
  destruct (N.eqb_spec (at_ (S i)) DASH) as [D|D]; cbn [orb negb].
  - pose proof (at_lt _ _ D ltac:(discriminate)) as L2. destruct (body_eval folded true (2 + i) i ltac:(lia)) as (v & w & e & m & B & G & R).
    replace (2 + i - i)%nat with 2%nat in R by lia. rewrite app_nil_r in R. exists v, e, m, (part i (2 + i)), (part (2 + i) e), w. split; [eapply bl_strip; eauto|]. split; [exact G|exact R].
  - destruct (N.eqb_spec (at_ (S i)) PLUS) as [P|P].
    + pose proof (at_lt _ _ P ltac:(discriminate)) as L2. destruct (body_eval folded false (2 + i) i ltac:(lia)) as (v & w & e & m & B & G & R).
      replace (2 + i - i)%nat with 2%nat in R by lia. exists (v ++ newlines_in w), e, m, (part i (2 + i)), (part (2 + i) e), w. split; [eapply bl_keep; eauto|]. split; [exact G|exact R].
    + destruct (body_eval folded false (1 + i) i ltac:(lia)) as (v & w & e & m & B & G & R).
      replace (1 + i - i)%nat with 1%nat in R by lia. exists (v ++ newlines_in w), e, m, (part i (1 + i)), (part (1 + i) e), w. split; [|split; [exact G|exact R]].
      eapply bl_plain; eauto. cbn. unfold DASH, PLUS in *. intuition congruence.
Qed.
Lemma block_char i s j : block_at text i s j -> at_ i = GT \/ at_ i = PIPE.
Proof. intros [f v w A _ _ _|f v w A _ _ _|f v w A _ _ _]; rewrite A; destruct f; auto. Qed.
Lemma block_det i s j s' j' : block_at text i s j -> block_at text i s' j' -> s = s' /\ j = j'.
Proof.
  intros [f v w A C B E|f v w A C B E|f v w A C B E] [f' v' w' A' C' B' E'|f' v' w' A' C' B' E'|f' v' w' A' C' B' E'];
    (assert (f = f') as <- by (rewrite A in A'; destruct f, f'; reflexivity || discriminate A')); try (exfalso; rewrite ?C, ?C' in *; cbn in *; (discriminate || tauto));
    destruct (body_det _ _ _ _ _ B _ _ _ B') as (-> & -> & ->); subst; auto.
Qed.
Lemma block_eval i s j m : block_at text i s j -> gap_to j m -> exists p o q, a_block_at i i = Ok ((ScStr (RS (KMultiline p) s o), Some q), m).
Proof.
  intros B G. destruct (block_ex i (block_char _ _ _ B)) as (s' & j' & m' & p & o & q & B' & G' & R). destruct (block_det _ _ _ _ _ B B') as [-> ->].
  rewrite (gap_det _ _ G _ G'). eauto.
Qed.
Lemma block_le i s j : block_at text i s j -> (i < len /\ j <= len)%nat.
Proof.
  intros B. destruct (block_ex i (block_char _ _ _ B)) as (s' & j' & m' & p & o & q & B' & G' & R). destruct (block_det _ _ _ _ _ B B') as [-> ->].
  apply gap_le in G'. split; [|lia]. apply block_char in B as [B|B]; apply (at_lt _ _ B); discriminate.
Qed.
End Places.
