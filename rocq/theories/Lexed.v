(* Every scalar and key of every accepted text is what its own characters say. A pass over the
   abstract parser like AbsNice.v. *)
From Coq Require Import String.
From Coq Require Import List NArith ZArith Bool Arith Lia.
From Verif Require Import Bytes Utf8 Data Parser Render Tree Abs Scan AbsText AbsNice Num Reads ReadsSound Shown Plain White PropsScalar2.
Import ListNotations.
Local Open Scope N_scope.

(* ---- definitions ---- *)
(* Text between double quotes and the string shown: as in YAML, except that an escaped
   backslash shows a double quote. *)
Inductive dq_shown : bytes -> bytes -> Prop :=
| ds_nil : dq_shown [] []
| ds_byte c y v : ~ In c (b """\") -> c <> 0 -> dq_shown y v -> dq_shown (c :: y) (c :: v)
| ds_esc e x y v : yaml_escape e x -> dq_shown y v -> dq_shown (b "\" ++ e ++ y) (x ++ v)
| ds_slash y v : dq_shown y v -> dq_shown (b "\\" ++ y) (b """" ++ v).
(* A quoted text, before post. A double quote is also ended by a NUL or the end of the text. *)
Inductive quote_shown (post : bytes) : bytes -> bytes -> Prop :=
| qs_single y v : sq_content y v -> quote_shown post (b "'" ++ y ++ b "'") v
| qs_double y v e : dq_shown y v -> e = b """" \/ e = [0] \/ e = [] /\ post = [] -> quote_shown post (b """" ++ y ++ e) v.
(* Lines of a block scalar: each is trimmed; between them come the newlines there are, or one
   space if folded. *)
Definition joined (folded : bool) (w : bytes) : bytes := if folded then b " " else repeat NEWLINE (count_occ N.eq_dec w NEWLINE).
Inductive lined (folded : bool) : bytes -> bytes -> Prop :=
| li_last l t : ~ In NEWLINE l -> trimmed l t -> lined folded l t
| li_more l t w x v : ~ In NEWLINE l -> trimmed l t -> layout w -> lined folded x v ->
    lined folded (l ++ w ++ x) (t ++ joined folded w ++ v).
(* The text behind the header: layout with a newline, then lines; or text on the line of the
   header, then lines. *)
Inductive block_shown (folded : bool) : bytes -> bytes -> Prop :=
| bs_only w : layout w -> block_shown folded w []
| bs_lines w x v : layout w -> In NEWLINE w -> lined folded x v -> block_shown folded (w ++ x) v
| bs_head l t w : ~ In NEWLINE l -> trimmed l t -> layout w -> block_shown folded (l ++ w) t
| bs_more l t w x v : ~ In NEWLINE l -> trimmed l t -> layout w -> lined folded x v ->
    block_shown folded (l ++ w ++ x) (t ++ (if folded then b " " else [NEWLINE]) ++ v).
Definition block_header (h : bytes) (folded : bool) : Prop :=
  exists i, h = (if folded then b ">" else b "|") ++ i /\ (i = [] \/ i = b "-" \/ i = b "+").
(* A plain text is a number, or it is the rest of its line, or it runs up to one of ,:]} or a
   NUL or the end. *)
Definition plain_extent (post x : bytes) : Prop :=
  (exists h, number_text x h) \/
  ~ In NEWLINE x /\ (post = [] \/ hd 0 post = NEWLINE) \/
  (forall c, In c x -> ~ In c (0 :: b ",:]}")) /\ In (hd 0 post) (0 :: b ",:]}").
(* What the text x, before post, shows. *)
Inductive told (post : bytes) : bytes -> datum -> Prop :=
| to_plain x d : ~ In (hd 0 x) (b """'[{|>") -> plain_extent post x -> plain_datum x d -> told post x d
| to_nothing : told post [] DNull
| to_quoted x s : quote_shown post x s -> told post x (DStr s)
| to_block h folded x v e : block_header h folded -> block_shown folded x v -> Forall (fun c => c = NEWLINE \/ folded = true /\ c = SPACE) e ->
    told post (h ++ x) (DStr (v ++ e)).
(* What the text of a key, before post, shows. *)
Inductive told_key (post : bytes) : bytes -> bytes -> Prop :=
| tk_plain x : told_key post x x
| tk_quoted x s : quote_shown post x s -> told_key post x s.

(* How a string and its original relate. *)
Definition raw_ok (r : rstr bytes) : Prop :=
  match rs_kind r with
  | KOriginal => True
  | KMultiline p => exists folded, block_header p folded
  | _ => rs_orig r = rs_id r
  end.

(* ---- proofs ---- *)
Lemma dqbody_shown y v : dqbody y v -> dq_shown y v.
Proof.
  induction 1 as [|c y v N1 N2 N3 _ IH|e x y v X _ IH]; [constructor| |].
  - constructor; auto. cbn. unfold DQUOTE, BACKSLASH in *. intuition congruence.
  - destruct (escape_yaml _ _ X) as [H| ->].
    + now apply (ds_esc e x).
    + inversion X as [c o H| |]; subst. cbn in H. injection H as <-. now apply ds_slash.
Qed.
Lemma sqbody_shown y v : sqbody y v -> sq_content y v.
Proof. induction 1; [constructor|now constructor|now apply sc_pair]. Qed.
Lemma sqbody_app x u : sqbody x u -> forall y v, sqbody y v -> sqbody (x ++ y) (u ++ v).
Proof. induction 1 as [|c y v N _ IH|y v _ IH]; intros z w K; cbn [app]; [exact K|apply sb_byte; auto|apply sb_pair; auto]. Qed.
Lemma dqbody_app x u : dqbody x u -> forall y v, dqbody y v -> dqbody (x ++ y) (u ++ v).
Proof. induction 1; intros z w H'; cbn [app]; [exact H'|constructor; auto|]. rewrite <- !app_assoc. constructor; auto. Qed.
Lemma sqe_body m : forall r k o, (length r <= m)%nat -> sqe_scan r = Some (k, o) -> sqbody (firstn k r) o.
Proof.
  induction m as [|m IH]; intros r k o L H; (destruct r as [|c r]; [discriminate|]); [cbn in L; lia|]. cbn in L. cbn [sqe_scan] in H.
  destruct (N.eqb_spec c SQUOTE) as [->|NE].
  - destruct r as [|c' r']; [injection H as <- <-; constructor|]. destruct (N.eqb_spec c' SQUOTE) as [->|NE].
    + cbn in L. destruct (sqe_scan r') as [[k' o']|] eqn:E; [|discriminate]. injection H as <- <-. cbn [firstn].
      apply sb_pair. apply IH; [lia|exact E].
    + injection H as <- <-. constructor.
  - destruct (sqe_scan r) as [[k' o']|] eqn:E; [|discriminate]. injection H as <- <-. cbn [firstn]. constructor; [exact NE|].
    apply IH; [lia|exact E].
Qed.
Lemma sq_body_scan r : match sq_scan r with SqHang => True | SqEnd k | SqEscape k => sqbody (firstn k r) (firstn k r) end.
Proof.
  induction r as [|c r IH]; [exact I|]. cbn [sq_scan]. destruct (N.eqb_spec c SQUOTE) as [->|NE].
  - destruct r as [|c' r']; [constructor|]. destruct (c' =? SQUOTE); constructor.
  - destruct (sq_scan r); [exact I| |]; cbn [firstn]; now constructor.
Qed.
Lemma dq_body_scan r : dqbody (firstn (fst (dq_scan r)) (r)) (firstn (fst (dq_scan r)) r).
Proof.
  induction r as [|c r IH]; [constructor|]. cbn [dq_scan]. destruct (_ || _) eqn:E; [constructor|]. apply orb_false_elim in E as [E1 E2].
  destruct (N.eqb_spec c BACKSLASH) as [->|NE]; [constructor|]. destruct (dq_scan r) as [k e]. cbn [fst firstn] in *.
  apply N.eqb_neq in E1, E2. now constructor.
Qed.

Lemma key_scan_eol r : match key_scan r with (k, false) => skipn k r = [] \/ hd 0 (skipn k r) = NEWLINE | _ => True end.
Proof.
  induction r as [|c r IH]; [now left|]. cbn [key_scan]. destruct (N.eqb_spec c NEWLINE) as [->|NE]; [now right|].
  destruct (_ && _); [exact Logic.I|]. destruct (key_scan r) as [k [|]]; [exact Logic.I|]. exact IH.
Qed.
Section Lexed.
Variable input : bytes.
Local Notation len := (length input).
Local Notation seg := (slice input).
Local Notation at_ i := (nth i input EOF).

Ltac run := repeat (lazymatch goal with
  | |- wlp (bind a_get ?k) ?n ?Q => change (wlp (k n) n Q)
  | |- wlp (bind (a_rest _) ?k) ?n ?Q => change (wlp (k (skipn n input)) n Q)
  | |- wlp (bind (a_peek _ ?i) ?k) ?n ?Q => change (wlp (k (nth (n + i) input EOF)) n Q)
  | |- wlp (bind (a_eof _) ?k) ?n ?Q => change (wlp (k (Nat.eqb n len)) n Q)
  | |- wlp (bind (a_string _ ?s) ?k) ?n ?Q => change (wlp (k (seg s n)) n Q)
  | |- wlp (bind (a_indent _) ?k) ?n ?Q => change (wlp (k (indent_from input n)) n Q)
  | |- wlp (bind (a_set ?m) ?k) ?n ?Q => change (wlp (k tt) m Q)
  | |- wlp (bind (a_bump _ ?i) ?k) ?n ?Q => change (wlp (k tt) (Nat.min (n + i) len) Q)
  | |- wlp (bind (ret ?x) ?k) ?n ?Q => change (wlp (k x) n Q)
  end; cbv beta).

Definition here (x : bytes) (P : bytes -> bytes -> Prop) : Prop :=
  exists i j, (i <= j <= len)%nat /\ x = seg i j /\ P (skipn j input) x.
Definition lex_scal (s : scalar bytes) : Prop := here (wscalar s) (fun post x => told post x (see (TLeaf tt [] s))) /\
  match s with ScStr r => raw_ok r | ScNull (NKeyword x) => x <> [] | _ => True end.
Definition lex_key (r : rstr bytes) : Prop :=
  here (wstr r) (fun post x => told_key post x (rs_id r) /\ In (hd 0 post) [COLON; 0]).
Fixpoint lexed {I} (t : tree I) : Prop :=
  match t with
  | TLeaf _ _ s => lex_scal s
  | TMap _ _ _ _ items => fold_right (fun '(_, _, key, v) P => (lex_key key /\ lexed v) /\ P) True items
  | TSeq _ _ _ _ items => fold_right (fun '(_, _, v) P => lexed v /\ P) True items
  end.

(* ---- quoted strings ---- *)
Lemma seg_one n c : at_ n = c -> c <> EOF -> (n < len)%nat /\ seg n (S n) = [c].
Proof. intros E N. pose proof (nth_lt input n _ E N) as [L _]. split; [exact L|]. now rewrite nth_seg, E by exact L. Qed.
Definition qpost (n : nat) (r : rstr bytes) (n' : nat) : Prop :=
  (n < n' <= len)%nat /\ rs_kind r = KOriginal /\ rs_orig r = seg n n' /\ quote_shown (skipn n' input) (seg n n') (rs_id r).
Lemma l_single n : at_ (n + 0) = SQUOTE -> wlp (a_single_quoted input) n (qpost n).
Proof.
  intros E. rewrite Nat.add_0_r in E. destruct (seg_one _ _ E ltac:(discriminate)) as [L SQ].
  unfold a_single_quoted. run. rewrite Nat.min_l by lia. rewrite Nat.add_1_r. set (r := skipn (S n) input).
  pose proof (sq_scan_spec r) as S1. pose proof (sq_body_scan r) as B1. assert (LR : length r = (len - S n)%nat) by apply skipn_length.
  destruct (sq_scan r) as [|k|k] eqn:SE; [exact I| |]; destruct S1 as [S1 S2].
  - run. rewrite Nat.min_l by lia. replace (Nat.eqb (S n + k) len) with false by (symmetry; apply Nat.eqb_neq; lia).
    run. rewrite Nat.min_l by lia. apply wlp_ret. split; [lia|]. split; [reflexivity|]. split; [reflexivity|]. cbn [rs_id].
    rewrite <- (seg_app input n (S n) (S n + k + 1)), SQ, <- (seg_app input (S n) (S n + k) (S n + k + 1)) by lia.
    assert (at_ (S n + k) = SQUOTE). { destruct (nth_error_nth input k (S n)) as [H|H]; [fold r in H; congruence|lia]. }
    rewrite (Nat.add_1_r (S n + k)), (nth_seg input (S n + k)), H by lia.
    apply (qs_single _ (seg (S n) (S n + k)) (seg (S n) (S n + k))). apply sqbody_shown. rewrite seg_scan by (fold r; lia). exact B1.
  - run. rewrite Nat.min_l by lia. unfold a_single_quoted_escaped. run. set (r2 := skipn (S n + k) input).
    assert (R2 : length r2 = (len - (S n + k))%nat) by apply skipn_length.
    pose proof (sqe_scan_le _ r2 (le_n _)) as S3. destruct (sqe_scan r2) as [[k2 o]|] eqn:SE2; [|exact I].
    pose proof (sqe_body _ r2 k2 o (le_n _) SE2) as B2. pose proof (sqe_scan_stop _ r2 k2 o (le_n _) SE2) as S4.
    run. rewrite Nat.min_l by lia. rewrite Nat.min_l by lia. apply wlp_ret. split; [lia|]. split; [reflexivity|]. split; [reflexivity|]. cbn [rs_id].
    assert (H : at_ (S n + k + k2) = SQUOTE). { destruct (nth_error_nth input k2 (S n + k)) as [H|H]; [fold r2 in H; congruence|lia]. }
    rewrite <- (seg_app input n (S n) (S n + k + k2 + 1)), SQ, <- (seg_app input (S n) (S n + k + k2) (S n + k + k2 + 1)) by lia.
    rewrite (Nat.add_1_r (S n + k + k2)), (nth_seg input (S n + k + k2)), H by lia.
    apply (qs_single _ (seg (S n) (S n + k + k2))). apply sqbody_shown. rewrite <- (seg_app input (S n) (S n + k) (S n + k + k2)) by lia.
    apply sqbody_app; [rewrite seg_scan by (fold r; lia); exact B1|]. rewrite seg_scan by (fold r2; lia). exact B2.
Qed.
Lemma l_digits start err k : forall c n, (n <= len)%nat ->
  wlp (a_unescape_digits input start k err c) n (fun v n' => (n' = n + k)%nat /\ (n' <= len)%nat /\ hex_number c (seg n n') = Some v).
Proof.
  induction k as [|k IH]; intros c n L; cbn [a_unescape_digits].
  - apply wlp_ret. rewrite seg_nil. split; [lia|]. split; [lia|reflexivity].
  - run. rewrite Nat.add_0_r. destruct (hex_value (at_ n)) as [v|] eqn:E; [|run; apply wlp_err].
    destruct (seg_one n _ eq_refl (hex_byte _ _ E)) as [Ln Sn]. run. rewrite Nat.min_l by lia.
    eapply wlp_mono; [apply IH; lia|]. cbv beta. intros v' n' (H1 & H2 & H3). split; [lia|]. split; [exact H2|].
    rewrite <- (seg_app input n (S n) n') by lia. rewrite Sn. cbn [app hex_number]. rewrite E. rewrite Nat.add_1_r in H3. exact H3.
Qed.
Lemma l_unescape start n : (n <= len)%nat ->
  wlp (a_unescape input start) n (fun x n' => (n < n' <= len)%nat /\ escape (seg n n') x).
Proof.
  intros L. unfold a_unescape. run. rewrite Nat.add_0_r. destruct (escape_char (at_ n)) as [o|] eqn:E.
  - destruct (seg_one n _ eq_refl (escape_byte _ _ E)) as [Ln Sn]. run. rewrite Nat.min_l by lia. apply wlp_ret. split; [lia|].
    rewrite Nat.add_1_r, Sn. now constructor.
  - assert (U : forall c k err, at_ n = c -> c <> EOF -> (c = 120 /\ k = 2%nat \/ c = 117 /\ k = 4%nat) ->
      wlp (a_bump input 1 ;;; a_unescape_unicode input start k err) n (fun x n' => (n < n' <= len)%nat /\ escape (seg n n') x)).
    { intros c k err H1 H2 H3. destruct (seg_one n _ H1 H2) as [Ln Sn]. run. rewrite Nat.min_l by lia. unfold a_unescape_unicode.
      eapply wlp_bind; [apply l_digits; lia|]. cbv beta. intros v n' (H4 & H5 & H6). destruct (is_scalar_value v) eqn:V; [|run; apply wlp_err].
      apply wlp_ret. split; [lia|]. rewrite <- (seg_app input n (S n) n'), Sn by lia. rewrite Nat.add_1_r in *.
      assert (LS : length (seg (S n) n') = k) by (rewrite seg_length; lia).
      destruct H3 as [[-> ->]|[-> ->]]; [now apply esc_hex|now apply esc_uni]. }
    destruct (N.eqb_spec (at_ n) 120) as [E1|_]; [apply (U 120); auto; discriminate|].
    destruct (N.eqb_spec (at_ n) 117) as [E1|_]; [apply (U 117); auto; discriminate|]. run. apply wlp_err.
Qed.
Lemma l_dqe f : forall acc n, (n <= len)%nat -> wlp (a_dqe_loop input f acc) n (fun x n' =>
  (n <= n' <= len)%nat /\ (at_ n' = DQUOTE \/ at_ n' = EOF) /\ exists v, x = acc ++ v /\ dqbody (seg n n') v).
Proof.
  induction f as [|f IH]; intros acc n L; [exact I|]. cbn [a_dqe_loop]. run. rewrite Nat.add_0_r.
  destruct (_ || _) eqn:E.
  { apply wlp_ret. split; [lia|]. apply orb_prop in E. rewrite !N.eqb_eq in E. split; [exact E|]. exists []. rewrite app_nil_r, seg_nil. split; [reflexivity|constructor]. }
  apply orb_false_elim in E as [E1 E2]. apply N.eqb_neq in E1, E2. destruct (seg_one n _ eq_refl E2) as [Ln Sn].
  destruct (N.eqb_spec (at_ n) BACKSLASH) as [E3|E3].
  - run. rewrite Nat.min_l by lia. eapply wlp_bind; [apply l_unescape; lia|]. cbv beta. intros x n1 (L1 & X).
    eapply wlp_mono; [apply IH; lia|]. cbv beta. intros y n' (L' & S' & v & -> & B). split; [lia|]. split; [exact S'|].
    exists (x ++ v). rewrite <- app_assoc. split; [reflexivity|]. rewrite <- (seg_app input n (S n) n'), Sn, E3, <- (seg_app input (S n) n1 n') by lia.
    rewrite Nat.add_1_r in X. exact (db_esc _ x _ _ X B).
  - run. rewrite Nat.min_l by lia. eapply wlp_mono; [apply IH; lia|]. cbv beta. intros y n' (L' & S' & v & -> & B). split; [lia|]. split; [exact S'|].
    exists (at_ n :: v). rewrite <- app_assoc. split; [reflexivity|]. rewrite <- (seg_app input n (S n) n'), Sn by lia. rewrite Nat.add_1_r in B.
    now apply db_byte.
Qed.
(* the end of a double-quoted string *)
Lemma dq_end n m v : (S n <= m <= len)%nat -> at_ n = DQUOTE -> dqbody (seg (S n) m) v -> (at_ m = DQUOTE \/ at_ m = EOF) ->
  quote_shown (skipn (Nat.min (m + 1) len) input) (seg n (Nat.min (m + 1) len)) v.
Proof.
  intros L E B Q. destruct (seg_one _ _ E ltac:(discriminate)) as [_ SQ].
  rewrite <- (seg_app input n (S n) (Nat.min (m + 1) len)), SQ, <- (seg_app input (S n) m (Nat.min (m + 1) len)) by lia.
  apply (qs_double _ (seg (S n) m)); [now apply dqbody_shown|]. destruct (Nat.eq_dec m len) as [->|NL].
  - right. right. rewrite Nat.min_r by lia. now rewrite seg_nil, skipn_all.
  - rewrite Nat.min_l, Nat.add_1_r, nth_seg by lia. destruct Q as [-> | ->]; auto.
Qed.
Lemma dq_scan_at r : match dq_scan r with (k, false) => k = length r \/ exists c, nth_error r k = Some c /\ (c = DQUOTE \/ c = EOF) | _ => True end.
Proof.
  induction r as [|c r IH]; [now left|]. cbn [dq_scan]. destruct (_ || _) eqn:E.
  - right. exists c. apply orb_prop in E. rewrite !N.eqb_eq in E. auto.
  - destruct (_ =? BACKSLASH); [exact I|]. destruct (dq_scan r) as [k [|]]; [exact I|]. destruct IH as [->|IH]; [left; reflexivity|right; exact IH].
Qed.
Lemma l_double n : at_ (n + 0) = DQUOTE -> wlp (a_double_quoted input) n (qpost n).
Proof.
  intros E. rewrite Nat.add_0_r in E. destruct (seg_one _ _ E ltac:(discriminate)) as [L SQ].
  unfold a_double_quoted. run. rewrite Nat.min_l by lia. rewrite Nat.add_1_r. set (r := skipn (S n) input).
  pose proof (dq_scan_spec r) as S1. pose proof (dq_body_scan r) as B1. pose proof (dq_scan_at r) as A1.
  assert (LR : length r = (len - S n)%nat) by apply skipn_length.
  destruct (dq_scan r) as [k [|]]; cbn [fst] in B1; run; rewrite Nat.min_l by lia.
  - unfold a_double_quoted_escaped. run. eapply wlp_bind; [apply l_dqe; lia|]. cbv beta. intros x n1 (L1 & Q1 & v & -> & B2).
    run. apply wlp_ret. split; [lia|]. split; [reflexivity|]. split; [reflexivity|]. cbn [rs_id].
    apply dq_end; auto; [lia|]. rewrite <- (seg_app input (S n) (S n + k) n1) by lia. apply dqbody_app; [|exact B2].
    rewrite seg_scan by (fold r; lia). exact B1.
  - assert (B2 : dqbody (seg (S n) (S n + k)) (seg (S n) (S n + k))) by (rewrite seg_scan by (fold r; lia); exact B1).
    assert (Q : at_ (S n + k) = DQUOTE \/ at_ (S n + k) = EOF).
    { destruct A1 as [->|(c & A1 & A2)]; [right; apply nth_overflow; lia|].
      destruct (nth_error_nth input k (S n)) as [H|H]; [fold r in H|right; apply nth_overflow; lia].
      rewrite A1 in H. injection H as H. cbn [Nat.add] in *. rewrite <- H. exact A2. }
    assert (M : Nat.min (S n + k + (if Nat.eqb (S n + k) len then 0 else 1)) len = Nat.min (S n + k + 1) len) by (destruct (Nat.eqb_spec (S n + k) len); lia).
    run. rewrite M. apply wlp_ret. split; [lia|]. split; [reflexivity|]. split; [reflexivity|]. cbn [rs_id]. apply dq_end; auto. lia.
Qed.

(* ---- layout, lines ---- *)
Lemma nl_counted w : nl_count w = count_occ N.eq_dec w NEWLINE.
Proof.
  unfold nl_count. induction w as [|c w IH]; [reflexivity|]. cbn [filter count_occ]. destruct (N.eq_dec c NEWLINE) as [->|NE].
  - rewrite N.eqb_refl. cbn [length]. now rewrite IH.
  - rewrite (proj2 (N.eqb_neq NEWLINE c)) by congruence. exact IH.
Qed.
Lemma l_ws_nl n : (n <= len)%nat -> wlp (a_ws_nl input) n (fun r n' => (n <= n' <= len)%nat /\ fst r = seg n n' /\ layout (fst r) /\
  snd r = count_occ N.eq_dec (fst r) NEWLINE).
Proof.
  intros L. apply wlp_wp with (input := input). eapply wp_mono; [now apply wp_ws_nl|]. intros r n' (H1 & H2 & (H3 & _) & H4 & _).
  rewrite H4, nl_counted. auto.
Qed.
Lemma l_ws n : (n <= len)%nat -> wlp (a_ws input) n (fun w n' => (n <= n' <= len)%nat).
Proof. intros L. apply wlp_wp with (input := input). eapply wp_mono; [now apply wp_ws|]. intros r n' (H1 & _). exact H1. Qed.
Lemma l_or_ws (w : option bytes) n : (n <= len)%nat -> wlp (a_or_ws input w) n (fun p n' => (n <= n' <= len)%nat).
Proof. intros L. destruct w as [w|]; cbn [a_or_ws]; [apply wlp_ret; lia|now apply l_ws]. Qed.
Lemma l_find n : (n <= len)%nat -> wlp (a_find input NEWLINE) n (fun _ n' => (n <= n' <= len)%nat /\ ~ In NEWLINE (seg n n')).
Proof. intros L. apply wlp_wp with (input := input). apply wp_find; [exact L|]. auto. Qed.
Lemma join_joined (folded : bool) w : repeat (if folded then SPACE else NEWLINE) (if folded then 1%nat else count_occ N.eq_dec w NEWLINE) = joined folded w.
Proof. now destruct folded. Qed.
Definition ends (folded : bool) (e : bytes) : Prop := Forall (fun c => c = NEWLINE \/ folded = true /\ c = SPACE) e.
Lemma joined_ends folded w : ends folded (joined folded w).
Proof. unfold ends. destruct folded; cbn; [constructor; [auto|constructor]|]. apply Forall_forall. intros c I. apply repeat_spec in I. auto. Qed.
Lemma l_block_loop f (folded : bool) (ind : nat) : forall w nl stop acc n, (stop <= n <= len)%nat ->
  wlp (a_block_loop input f (if folded then SPACE else NEWLINE) folded ind w nl stop acc) n (fun r n' =>
    let '(w', nl', stop', acc') := r in (n <= n' <= len)%nat /\
    (stop' = stop /\ acc' = acc \/ (n < len)%nat /\ (n <= stop' <= n')%nat /\ exists v e, lined folded (seg n stop') v /\ ends folded e /\ acc' = acc ++ v ++ e)).
Proof.
  induction f as [|f IH]; intros w nl stop acc n L; [exact I|]. cbn [a_block_loop]. run.
  destruct (Nat.eqb_spec n len) as [E|NE]; [apply wlp_ret; split; [lia|left; auto]|]. run.
  eapply wlp_bind; [apply l_find; lia|]. cbv beta. intros _ n1 (L1 & N1). run. eapply wlp_bind; [apply l_ws_nl; lia|].
  cbv beta. intros [w' nl'] n2 (L2 & E2 & Y2 & C2). cbn [fst snd] in *. run. pose proof (proj1 (trim_spec (seg n n1) _) eq_refl) as T.
  destruct (_ <? _)%nat.
  { apply wlp_ret. split; [lia|]. right. split; [lia|]. split; [lia|]. exists (trim (seg n n1)), []. rewrite app_nil_r. split; [now apply li_last|]. split; [constructor|reflexivity]. }
  rewrite C2, join_joined. eapply wlp_mono; [apply IH; lia|]. intros [[[w3 nl3] stop3] acc3] n' Z. cbv beta iota in Z. destruct Z as (L' & [[Z1 Z2]|(_ & L3 & v & e & V & E & Z2)]); [subst stop3|]; rewrite Z2.
  - split; [lia|]. right. split; [lia|]. split; [lia|]. exists (trim (seg n n1)), (joined folded w'). split; [now apply li_last|]. split; [apply joined_ends|now rewrite <- app_assoc].
  - split; [lia|]. right. split; [lia|]. split; [lia|]. exists (trim (seg n n1) ++ joined folded w' ++ v), e.
    split; [|split; [exact E|now rewrite <- !app_assoc]].
    rewrite <- (seg_app input n n1 stop3), <- (seg_app input n1 n2 stop3) by lia. rewrite <- E2. now apply li_more.
Qed.
Lemma ends_app folded x y : ends folded x -> ends folded y -> ends folded (x ++ y).
Proof. intros H1 H2. now apply Forall_app. Qed.
Lemma ends_nl folded k : ends folded (repeat NEWLINE k).
Proof. apply Forall_forall. intros c I. apply repeat_spec in I. auto. Qed.
Lemma ends_one (folded : bool) : ends folded [if folded then SPACE else NEWLINE].
Proof. destruct folded; constructor; auto; constructor. Qed.
Lemma l_block k (folded chomp clip : bool) n : (n + k <= len)%nat -> block_header (seg n (n + k)) folded ->
  wlp (a_block input k (if folded then SPACE else NEWLINE) folded chomp clip) n (fun r n' => (n <= n' <= len)%nat /\ lex_scal (fst r)).
Proof.
  intros L H. unfold a_block. run. rewrite Nat.min_l by lia. set (m := (n + k)%nat) in *. eapply wlp_bind; [apply l_ws_nl; lia|].
  cbv beta. intros [w nl] n2 (L2 & E2 & Y2 & C2). cbn [fst snd] in *.
  (* the part in front of the lines *)
  eapply wlp_bind with (R := fun r n3 => let '(w3, nl3, acc) := r in (n2 <= n3 <= len)%nat /\
    (acc = [] /\ (seg m n3 = w) /\ In NEWLINE w \/ exists l t w1, seg m n3 = l ++ w1 /\ ~ In NEWLINE l /\ trimmed l t /\ layout w1 /\
      (acc = t \/ acc = t ++ [if folded then SPACE else NEWLINE]) /\ (acc = t -> n3 = len))).
  { destruct (Nat.eqb_spec nl 0) as [E0|E0].
    - eapply wlp_bind; [apply l_find; lia|]. cbv beta. intros _ n3 (L3 & N3). run. eapply wlp_bind; [apply l_ws_nl; lia|].
      cbv beta. intros [w' nl'] n4 (L4 & E4 & Y4 & C4). cbn [fst snd] in *. run. apply wlp_ret. split; [lia|]. right.
      exists (seg m n3), (trim (seg m n3)), w'. split; [rewrite E4, seg_app by lia; reflexivity|]. split.
      { rewrite <- (seg_app input m n2 n3) by lia. rewrite in_app_iff. intros [J|J]; [|contradiction]. rewrite <- E2 in J.
        apply (count_occ_not_In N.eq_dec) in J; [exact J|]. now rewrite <- C2. }
      split; [now apply trim_spec|]. split; [exact Y4|]. destruct (Nat.eqb_spec n4 len) as [E5|E5].
      + rewrite app_nil_r. auto.
      + split; [auto|]. intros J. exfalso. rewrite <- (app_nil_r (trim _)) in J at 2. apply app_inv_head in J. discriminate.
    - apply wlp_ret. split; [lia|]. left. split; [reflexivity|]. split; [now rewrite E2|].
      apply (count_occ_In N.eq_dec). lia. }
  intros [[w3 nl3] acc] n3 (L3 & A). run. eapply wlp_bind; [apply l_block_loop; lia|].
  intros [[[w' nl'] stop] acc'] n' (L' & Z). apply wlp_ret. split; [lia|]. cbn [fst].
  match goal with |- context [repeat NEWLINE ?q] => set (z := q) end.
  assert (S1 : (m <= stop <= len)%nat) by (destruct Z as [[-> _]|(_ & Z & _)]; lia).
  split; [|exists folded; exact H]. exists n, stop. split; [lia|]. cbn [wscalar wstr rs_kind rs_orig see rs_id]. split; [apply seg_app; lia|].
  destruct Z as [[-> ->]|(L5 & L4 & v & e & V & E & ->)].
  - destruct A as [(-> & A & _)|(l & t & w1 & A & A1 & A2 & A3 & A4 & _)].
    + rewrite A. apply (to_block _ _ folded); [exact H|apply bs_only; exact Y2|apply ends_nl].
    + rewrite A. destruct A4 as [-> | ->].
      * apply (to_block _ _ folded); [exact H|now apply bs_head|apply ends_nl].
      * rewrite <- app_assoc. apply (to_block _ _ folded); [exact H|now apply bs_head|]. apply ends_app; [apply ends_one|apply ends_nl].
  - rewrite <- (seg_app input m n3 stop) by lia.
    destruct A as [(-> & A & AN)|(l & t & w1 & A & A1 & A2 & A3 & A4 & A5)].
    + rewrite A. cbn [app]. rewrite <- app_assoc. apply (to_block _ _ folded); [exact H|now apply bs_lines|]. apply ends_app; [exact E|apply ends_nl].
    + rewrite A, <- !app_assoc. destruct A4 as [-> | ->].
      * specialize (A5 eq_refl). lia.
      * pose proof (to_block (skipn stop input) _ _ _ _ (e ++ repeat NEWLINE z) H (bs_more folded l t w1 (seg n3 stop) v A1 A2 A3 V)
          (ends_app _ _ _ E (ends_nl _ _))) as G.
        match goal with |- told _ _ (DStr ?q) => match type of G with told _ _ (DStr ?q') => replace q with q'; [exact G|] end end.
        destruct folded; rewrite <- !app_assoc; reflexivity.
Qed.

(* ---- plain scalars ---- *)
Lemma nth_here i : at_ i = hd EOF (skipn i input).
Proof. apply nth_skipn. Qed.
Lemma l_number tab n : (n <= len)%nat -> wlp (a_number input tab n) n (fun r n' => (n <= n' <= len)%nat /\
  match r with
  | Some s => exists h, s = ScNum (seg n n') h /\ number_text (seg n n') h
  | None => num_read (negb tab) (skipn n input) = None /\ forall c, In c (seg n n') -> c <> NEWLINE /\ c <> COLON /\ is_ctl c = false
  end).
Proof.
  intros L. pose proof (r_number input tab (firstn n input) (skipn n input) (eq_sym (firstn_skipn n input))) as N.
  assert (LP : length (firstn n input) = n) by (rewrite firstn_length; lia). rewrite LP in N. unfold wlp.
  assert (SG : forall x s, skipn n input = x ++ s -> seg n (length (firstn n input ++ x)) = x).
  { intros x s E. rewrite app_length, LP. rewrite seg_scan by (rewrite ?E, ?app_length; lia). rewrite E. apply firstn_at. }
  destruct (num_read (negb tab) (skipn n input)) as [[k h]|] eqn:R.
  - apply num_read_inv in R as (x & s & E & K & U & _). rewrite (N x s E K). rewrite (SG _ _ E).
    assert (LX : (length (skipn n input) = length x + length s)%nat) by (rewrite E; apply app_length). rewrite skipn_length in LX.
    split; [rewrite app_length, LP; lia|]. eauto.
  - destruct N as (x & s & E & X & ->). rewrite (SG _ _ E).
    assert (LX : (length (skipn n input) = length x + length s)%nat) by (rewrite E; apply app_length). rewrite skipn_length in LX.
    split; [rewrite app_length, LP; lia|]. auto.
Qed.
Lemma ctl_scan_free r c : In c (firstn (ctl_scan r) r) -> is_ctl c = false.
Proof.
  induction r as [|c' r IH]; [intros []|]. cbn [ctl_scan]. destruct (is_ctl c') eqn:E; [intros []|]. cbn [firstn]. intros [->|J]; auto.
Qed.
Lemma ctl_in c : is_ctl c = true <-> In c (0 :: b ",:]}").
Proof. unfold is_ctl. rewrite !orb_true_iff, !N.eqb_eq. cbn. unfold COMMA, COLON, RBRACK, RBRACE, EOF. intuition congruence. Qed.
Lemma ctl_numless r : is_ctl (hd EOF r) = true -> numless r.
Proof.
  intros H. apply ctl_in in H. cbn in H. unfold numless. decompose [or] H; try contradiction; match goal with E : _ = hd EOF r |- _ => rewrite <- E end;
    (split; [reflexivity|]); cbn; unfold DOT; intuition discriminate.
Qed.
Lemma plain_kept x : match a_plain x with ScStr r => raw_ok r | ScNull (NKeyword y) => y <> [] | _ => True end.
Proof.
  unfold a_plain. destruct (beq x [TILDE]); [exact Logic.I|]. destruct (eq_ignore_case x kw_null) eqn:E; [intros ->; discriminate E|].
  destruct (eq_ignore_case x kw_true); [exact Logic.I|]. destruct (eq_ignore_case x kw_false); [exact Logic.I|]. reflexivity.
Qed.
Lemma lex_plain i j : (i <= j <= len)%nat -> ~ In (hd 0 (seg i j)) (b """'[{|>") -> plain_extent (skipn j input) (seg i j) ->
  (forall h, ~ number_text (seg i j) h) -> lex_scal (a_plain (seg i j)).
Proof.
  intros L H P N. split; [|apply plain_kept].
  exists i, j. split; [exact L|]. rewrite wscalar_plain. split; [reflexivity|].
  destruct (plain_total (seg i j)) as [d D]. rewrite (a_plain_see _ _ D N). now apply to_plain.
Qed.
Lemma seg_hd n n' : (n <= n' <= len)%nat -> hd 0 (seg n n') = 0 \/ hd 0 (seg n n') = at_ n.
Proof.
  intros L. destruct (Nat.eq_dec n n') as [->|NE]; [left; now rewrite seg_nil|]. right.
  rewrite <- (seg_app input n (S n) n') by lia. rewrite nth_seg by lia. reflexivity.
Qed.

(* ---- keys ---- *)
Definition at_key (r : rstr bytes) (n' : nat) : Prop :=
  (n' <= len)%nat /\ exists i, (i <= n')%nat /\ wstr r = seg i n' /\ told_key (skipn n' input) (wstr r) (rs_id r).
Lemma at_key_lex r n : at_key r n -> In (at_ n) [COLON; 0] -> lex_key r.
Proof.
  intros (L & i & L1 & E & T) C. exists i, n. split; [lia|]. split; [exact E|]. split; [exact T|]. rewrite nth_skipn in C. exact C.
Qed.
Lemma q_at_key n r n' : qpost n r n' -> at_key r n'.
Proof.
  intros (L & K & O & Q). split; [lia|]. exists n. split; [lia|]. unfold wstr. rewrite K, O. split; [reflexivity|]. now apply tk_quoted.
Qed.
Lemma q_scal n r n' : qpost n r n' -> lex_scal (ScStr r).
Proof.
  intros (L & K & O & Q). split; [|unfold raw_ok; now rewrite K]. exists n, n'. split; [lia|]. destruct r as [k i o]. cbn in *. subst. split; [reflexivity|]. now apply to_quoted.
Qed.
Lemma bare_at_key i n : (i <= n <= len)%nat -> at_key (RS KBare (seg i n) (seg i n)) n.
Proof. intros L. split; [lia|]. exists i. split; [lia|]. split; [reflexivity|]. apply tk_plain. Qed.
Lemma l_until_colon n : (n <= len)%nat -> wlp (a_until_colon input n) n (fun r n' => (n <= n' <= len)%nat /\
  match r with Some key => at_key key n' /\ In (at_ n') [COLON; 0] | None => True end).
Proof.
  intros L. eapply wlp_mono; [apply wlp_and; [apply wlp_wp with (input := input), wp_until_colon, L|
    instantiate (1 := fun r n' => match r with Some key => key = RS KBare (seg n n') (seg n n') | None => True end)]|].
  - unfold a_until_colon. run. destruct (Nat.eqb _ _); run; apply wlp_ret; [exact I|reflexivity].
  - cbv beta. intros [key|] n' ((L1 & H) & K); [|auto]. destruct H as (L2 & _ & C). split; [lia|]. subst key. split; [now apply bare_at_key|].
    cbn. destruct C as [-> | ->]; auto.
Qed.
Lemma l_next_key n : (n <= len)%nat -> wlp (a_next_mapping_key input) n (fun r n' => (n <= n' <= len)%nat /\
  match r with Some key => at_key key n' | None => True end).
Proof.
  intros L. eapply wlp_mono; [apply wlp_and; [apply wlp_wp with (input := input), wp_next_mapping_key, L|
    instantiate (1 := fun r n' => match r with Some key => key = RS KBare (seg n n') (seg n n') | None => True end)]|].
  - unfold a_next_mapping_key. run. destruct (seg _ _) eqn:E; apply wlp_ret; [exact I|now rewrite E].
  - cbv beta. intros [key|] n' ((L1 & H) & K); [|auto]. subst key. split; [lia|]. now apply bare_at_key.
Qed.
Lemma l_key_or_eol start n : (start <= n <= len)%nat -> wlp (a_key_or_eol input start) n (fun r n' => (n <= n' <= len)%nat /\
  match r with Some key => at_key key n' | None => ~ In NEWLINE (seg n n') /\ (skipn n' input = [] \/ hd 0 (skipn n' input) = NEWLINE) end).
Proof.
  intros L. unfold a_key_or_eol. run. pose proof (key_scan_spec (skipn n input)) as S1. pose proof (key_scan_eol (skipn n input)) as S2.
  destruct (key_scan (skipn n input)) as [k [|]].
  - destruct S1 as (S1 & _). rewrite skipn_length in S1. run. rewrite Nat.min_l by lia. apply wlp_ret. split; [lia|]. apply bare_at_key. lia.
  - destruct S1 as (S1 & S3). run. rewrite skipn_length in S1. rewrite Nat.min_l by lia. apply wlp_ret. split; [lia|]. split.
    + rewrite seg_scan by (rewrite ?skipn_length; lia). exact S3.
    + rewrite skipn_add in S2. rewrite (Nat.add_comm k) in S2. exact S2.
Qed.

(* ---- values ---- *)
Definition lpost (r : tree unit * option bytes) (n' : nat) : Prop := (n' <= len)%nat /\ lexed (fst r).
Definition slex (its : list (sitem unit)) : Prop := Forall (fun '(_, _, v) => lexed v) its.
Definition mlex (its : list (mitem unit)) : Prop := Forall (fun '(_, _, key, v) => lex_key key /\ lexed v) its.
Lemma slex_tree p n k its : slex its -> lexed (TSeq tt p n k its).
Proof. cbn [lexed]. induction 1 as [|[[ii ip] v] its H _ IH]; cbn [fold_right]; auto. Qed.
Lemma mlex_tree p n k its : mlex its -> lexed (TMap tt p n k its).
Proof. cbn [lexed]. induction 1 as [|[[[ii ip] key] v] its H _ IH]; cbn [fold_right]; auto. Qed.
Section Value.
Variable value : astate -> AM (tree unit * option bytes).
Hypothesis VH : forall a n, (n <= len)%nat -> as_tabular a = negb (as_inline a) -> wlp (value a) n lpost.
Lemma l_ws_value {X} (k : tree unit * option bytes -> AM X) inl tab ind n Q : (n <= len)%nat -> tab = negb inl ->
  (forall r n', lpost r n' -> wlp (k r) n' Q) -> wlp (p <- a_ws input ;; r <- value (AState p inl tab ind) ;; k r) n Q.
Proof.
  intros L T K. eapply wlp_bind; [now apply l_ws|]. cbv beta. intros p n1 L1. eapply wlp_bind; [apply VH; [lia|exact T]|]. exact K.
Qed.
Lemma slex_snoc its ip v : slex its -> lexed v -> slex (its ++ [(tt, ip, v)]).
Proof. intros S V. apply Forall_app. split; [exact S|]. constructor; [exact V|constructor]. Qed.
Lemma mlex_snoc its ip key v : mlex its -> lex_key key -> lexed v -> mlex (its ++ [(tt, ip, key, v)]).
Proof. intros S K V. apply Forall_app. split; [exact S|]. constructor; [auto|constructor]. Qed.
Lemma l_iseq_loop f : forall items last tr ip n, (n <= len)%nat -> slex items ->
  wlp (a_iseq_loop input value f items last tr ip) n (fun r n' => let '(items', _, _) := r in (n' <= len)%nat /\ slex items').
Proof.
  induction f as [|f IH]; intros items last tr ip n L S; [exact I|]. cbn [a_iseq_loop]. run.
  destruct (_ || _); [apply wlp_ret; auto|]. apply l_ws_value; auto. intros [v w] n2 (L2 & V2). cbn [fst] in V2. cbv beta iota zeta.
  assert (S2 : slex (items ++ [(tt, ip, v)])) by now apply slex_snoc. destruct last.
  - eapply wlp_bind; [now apply l_or_ws|]. cbv beta. intros p n3 L3. apply wlp_ret. split; [lia|exact S2].
  - run. destruct (_ =? COMMA).
    + run. eapply wlp_bind; [apply l_or_ws; lia|]. cbv beta. intros p n3 L3. apply IH; [lia|exact S2].
    + eapply wlp_bind; [apply l_or_ws; lia|]. cbv beta. intros p n3 L3. apply IH; [lia|exact S2].
Qed.
Lemma l_inline_sequence a n : (n <= len)%nat -> wlp (a_inline_sequence input value a) n (fun t n' => lpost (t, None) n').
Proof.
  intros L. unfold a_inline_sequence. run. eapply wlp_bind; [apply l_ws; lia|]. cbv beta. intros p n2 L2.
  eapply wlp_bind; [apply l_iseq_loop; [lia|constructor]|]. intros [[its tr] p'] n3 (L3 & S3). run.
  destruct (negb _); run; [apply wlp_err|]. apply wlp_ret. split; [lia|]. now apply slex_tree.
Qed.
Lemma l_imap_loop f : forall items last tr start ip n, (n <= len)%nat -> mlex items ->
  wlp (a_imap_loop input value f items last tr start ip) n (fun r n' => let '(items', _, _, _) := r in (n' <= len)%nat /\ mlex items').
Proof.
  induction f as [|f IH]; intros items last tr start ip n L S; [exact I|]. cbn [a_imap_loop]. run.
  destruct (_ || _); [apply wlp_ret; auto|]. run. eapply wlp_bind; [now apply l_until_colon|]. cbv beta. intros key n1 (L1 & K1).
  destruct key as [key|]; run; [|apply wlp_err]. destruct K1 as [K1 C1]. apply l_ws_value; [lia|reflexivity|].
  intros [v w] n2 (L2 & V2). cbn [fst] in V2. cbv beta iota zeta.
  assert (S2 : mlex (items ++ [(tt, ip, key, v)])) by (apply mlex_snoc; auto; eapply at_key_lex; eauto).
  eapply wlp_bind; [apply l_or_ws; lia|]. cbv beta. intros p n3 L3. destruct last; [apply wlp_ret; split; [lia|exact S2]|]. run.
  destruct (_ =? COMMA); run; (eapply wlp_bind; [apply l_ws; lia|]); cbv beta; intros p' n4 L4; (apply IH; [lia|exact S2]).
Qed.
Lemma l_inline_mapping a n : (n <= len)%nat -> wlp (a_inline_mapping input value a) n (fun t n' => lpost (t, None) n').
Proof.
  intros L. unfold a_inline_mapping. run. eapply wlp_bind; [apply l_ws; lia|]. cbv beta. intros p n2 L2.
  eapply wlp_bind; [apply l_imap_loop; [lia|constructor]|]. intros [[[its tr] p'] st] n3 (L3 & S3). run.
  destruct (negb _); run; [apply wlp_err|]. apply wlp_ret. split; [lia|]. now apply mlex_tree.
Qed.
Lemma l_seq_loop ind f : forall items ip n, (n <= len)%nat -> slex items ->
  wlp (a_seq_loop input value f ind items ip) n (fun r n' => let '(items', _) := r in (n' <= len)%nat /\ slex items').
Proof.
  induction f as [|f IH]; intros items ip n L S; [exact I|]. cbn [a_seq_loop]. run.
  apply l_ws_value; [lia|reflexivity|]. intros [v w] n2 (L2 & V2). cbn [fst] in V2. cbv beta iota zeta.
  assert (S2 : slex (items ++ [(tt, ip, v)])) by now apply slex_snoc.
  eapply wlp_bind; [apply l_or_ws; lia|]. cbv beta. intros p n3 L3. run. destruct (_ || _); [apply wlp_ret; split; [lia|exact S2]|]. apply IH; [lia|exact S2].
Qed.
Lemma l_sequence a n : (n <= len)%nat -> wlp (a_sequence input value a) n lpost.
Proof.
  intros L. unfold a_sequence. run. eapply wlp_bind; [apply l_seq_loop; [exact L|constructor]|].
  intros [its w] n' (L2 & S2). apply wlp_ret. split; [exact L2|]. now apply slex_tree.
Qed.
Lemma l_map_loop ind f : forall items start key ip n, at_key key n -> mlex items ->
  wlp (a_map_loop input value f ind items start key ip) n (fun r n' => let '(items', _) := r in (n' <= len)%nat /\ mlex items').
Proof.
  induction f as [|f IH]; intros items start key ip n K S; [exact I|]. pose proof (proj1 K) as L. cbn [a_map_loop]. run.
  destruct (N.eqb_spec (nth (n + 0) input EOF) COLON) as [E|_]; cbn [negb]; run; [|apply wlp_err].
  rewrite Nat.add_0_r in E. apply l_ws_value; [lia|reflexivity|]. intros [v w] n2 (L2 & V2). cbn [fst] in V2. cbv beta iota zeta.
  assert (S2 : mlex (items ++ [(tt, ip, key, v)])) by (apply mlex_snoc; auto; eapply at_key_lex; eauto; rewrite E; now left).
  eapply wlp_bind; [apply l_or_ws; lia|]. cbv beta. intros p n3 L3. run. destruct (negb _); [apply wlp_ret; split; [lia|exact S2]|]. run.
  eapply wlp_bind; [apply l_next_key; lia|]. cbv beta. intros key' n4 (L4 & K4). destruct key' as [key'|]; [|apply wlp_ret; split; [lia|exact S2]].
  now apply IH.
Qed.
Lemma l_mapping_or_nul a start key n : (start <= len)%nat -> at_key key n -> wlp (a_mapping_or_nul input value a start key) n lpost.
Proof.
  intros L K. unfold a_mapping_or_nul. destruct (match as_parent_indent a with Some _ => _ | _ => _ end).
  - run. apply wlp_ret. split; [lia|]. split; [|exact Logic.I]. exists O, O. split; [lia|]. split; [now rewrite seg_nil|]. cbn. apply to_nothing.
  - eapply wlp_bind; [apply l_map_loop; [exact K|constructor]|]. intros [its w] n' (L2 & S2). apply wlp_ret. split; [exact L2|]. now apply mlex_tree.
Qed.
Lemma l_value_body a n : (n <= len)%nat -> as_tabular a = negb (as_inline a) -> wlp (a_value_body input value a) n lpost.
Proof.
  intros L T. unfold a_value_body. run. destruct (_ && _); [now apply l_sequence|].
  destruct (N.eqb_spec (nth (n + 0) input EOF) DQUOTE) as [C1|C1].
  { run. eapply wlp_bind; [now apply l_double|]. intros x n1 Q. run. destruct (_ && _).
    - apply l_mapping_or_nul; [exact L|]. eapply q_at_key; eauto.
    - apply wlp_ret. split; [apply Q|]. cbn [fst lexed]. eapply q_scal; eauto. }
  destruct (N.eqb_spec (nth (n + 0) input EOF) SQUOTE) as [C2|C2].
  { run. eapply wlp_bind; [now apply l_single|]. intros x n1 Q. run. destruct (_ && _).
    - apply l_mapping_or_nul; [exact L|]. eapply q_at_key; eauto.
    - apply wlp_ret. split; [apply Q|]. cbn [fst lexed]. eapply q_scal; eauto. }
  destruct (N.eqb_spec (nth (n + 0) input EOF) LBRACK) as [C3|C3].
  { eapply wlp_bind; [now apply l_inline_sequence|]. intros t n1 H. apply wlp_ret. exact H. }
  destruct (N.eqb_spec (nth (n + 0) input EOF) LBRACE) as [C4|C4].
  { eapply wlp_bind; [now apply l_inline_mapping|]. intros t n1 H. apply wlp_ret. exact H. }
  rewrite Nat.add_0_r in *. destruct (_ || _) eqn:C5.
  { assert (A : exists folded : bool, nth n input EOF = (if folded then GT else PIPE) /\ (nth n input EOF =? GT) = folded).
    { apply orb_prop in C5 as [C5|C5]; apply N.eqb_eq in C5; rewrite C5; [now exists true|now exists false]. }
    destruct A as (folded & A & AG). rewrite AG. clear C5. destruct (seg_one n _ A ltac:(destruct folded; discriminate)) as [LT SG].
    eapply wlp_bind.
    { apply l_block.
      - destruct (_ || _) eqn:C6; [|lia]. assert (nth (n + 1) input EOF <> EOF) as NZ.
        { apply orb_prop in C6 as [C6|C6]; apply N.eqb_eq in C6; rewrite C6; discriminate. }
        destruct (seg_one (n + 1) _ eq_refl NZ). lia.
      - destruct (_ || _) eqn:C6.
        + assert (nth (n + 1) input EOF = DASH \/ nth (n + 1) input EOF = PLUS) as D by (apply orb_prop in C6 as [C6|C6]; apply N.eqb_eq in C6; auto).
          assert (NZ : nth (n + 1) input EOF <> EOF) by (destruct D as [-> | ->]; discriminate).
          destruct (seg_one (n + 1) _ eq_refl NZ) as [LT2 SG2]. exists [nth (n + 1) input EOF]. split.
          * rewrite <- (seg_app input n (S n) (n + 2)) by lia. replace (n + 2)%nat with (S (n + 1)) by lia. rewrite SG.
            replace (S n) with (n + 1)%nat by lia. rewrite SG2. now destruct folded.
          * destruct D as [-> | ->]; auto.
        + exists []. rewrite Nat.add_1_r, SG. split; [now destruct folded|auto]. }
    intros [r w] n1 (L1 & H). apply wlp_ret. split; [lia|exact H]. }
  run.
  assert (NQ : forall n', (n <= n' <= len)%nat -> ~ In (hd 0 (seg n n')) (b """'[{|>")).
  { intros n' L'. apply orb_false_elim in C5 as [C5 C6]. apply N.eqb_neq in C5, C6. destruct (seg_hd n n' L') as [-> | ->]; cbn; [intuition discriminate|].
    unfold DQUOTE, SQUOTE, LBRACK, LBRACE, GT, PIPE in *. intuition congruence. }
  eapply wlp_bind; [now apply l_number|]. cbv beta. intros num n1 (L1 & N1). destruct num as [r|].
  { destruct N1 as (h & -> & U). apply wlp_ret. split; [lia|]. cbn [fst lexed]. split; [|exact Logic.I]. exists n, n1. split; [lia|]. split; [reflexivity|].
    apply to_plain; [now apply NQ|left; eauto|now constructor]. }
  destruct N1 as [NR NC]. rewrite T in NR. rewrite negb_involutive in NR. destruct (as_inline a) eqn:NI.
  - run. pose proof (ctl_scan_le (skipn n1 input)) as K. rewrite skipn_length in K. rewrite Nat.min_l by lia.
    set (n2 := (n1 + ctl_scan (skipn n1 input))%nat).
    assert (HD : is_ctl (hd EOF (skipn n2 input)) = true).
    { pose proof (ctl_scan_stop (skipn n1 input)) as CS. rewrite <- nth_skipn.
      destruct (nth_error_nth input (ctl_scan (skipn n1 input)) n1) as [E|E]; [now rewrite E in CS|]. fold n2 in E. now rewrite nth_overflow by lia. }
    apply wlp_ret. split; [lia|]. apply lex_plain; [lia|apply NQ; lia| |].
    + right. right. split.
      * intros c J JC. apply ctl_in in JC. rewrite <- (seg_app input n n1 n2), in_app_iff in J by lia. destruct J as [J|J].
        { apply NC in J as (_ & _ & J). congruence. }
        unfold n2 in J. rewrite seg_scan in J by (rewrite ?skipn_length; lia). apply ctl_scan_free in J. congruence.
      * now apply ctl_in.
    + intros h U. pose proof (num_read_number true _ _ _ U (ctl_numless _ HD) (or_introl eq_refl)) as R.
      rewrite <- (seg_full input n2) in R by lia. rewrite seg_app in R by lia. rewrite seg_full in R by lia. congruence.
  - eapply wlp_bind; [apply (l_key_or_eol n); lia|]. cbv beta. intros key n2 (L2 & K2). destruct key as [key|].
    + apply l_mapping_or_nul; [lia|exact K2].
    + run. destruct K2 as [K2 K3]. apply wlp_ret. split; [lia|]. apply lex_plain; [lia|apply NQ; lia| |].
      * right. left. split; [|exact K3]. rewrite <- (seg_app input n n1 n2), in_app_iff by lia. intros [J|J]; [|contradiction]. now apply NC in J.
      * intros h U. pose proof (num_read_number false _ _ _ U (ended_numless _ K3) (or_intror (ended_eol _ K3))) as R.
        rewrite <- (seg_full input n2) in R by lia. rewrite seg_app in R by lia. rewrite seg_full in R by lia. congruence.
Qed.
End Value.
Lemma l_value f : forall a n, (n <= len)%nat -> as_tabular a = negb (as_inline a) -> wlp (a_value input f a) n lpost.
Proof. induction f as [|f IH]; intros a n L T; [exact I|]. cbn [a_value]. now apply l_value_body. Qed.
Lemma l_sod_loop f : forall p n, (n <= len)%nat -> wlp (a_sod_loop input f p) n (fun _ n' => (n' <= len)%nat).
Proof.
  induction f as [|f IH]; intros p n L; [exact I|]. cbn [a_sod_loop]. run. destruct (_ =? PERCENT).
  - eapply wlp_bind; [now apply l_find|]. cbv beta. intros _ n1 (L1 & _). eapply wlp_bind; [apply l_ws; lia|]. cbv beta. intros w n2 L2. apply IH. lia.
  - destruct (_ && _); [|now apply wlp_ret]. run. eapply wlp_mono; [apply l_ws; lia|]. cbv beta. intros w n2 L2. lia.
Qed.
Theorem parse_lexed t suffix : a_parse input = Ok (t, suffix) -> lexed t.
Proof.
  intros H. unfold a_parse in H. assert (W : wlp (a_parse_m input) 0 (fun r _ => lexed (fst r))).
  { unfold a_parse_m, a_start_of_document. apply wlp_bind_assoc.
    eapply wlp_bind; [apply l_ws; lia|]. cbv beta. intros p n L. eapply wlp_bind; [apply l_sod_loop; lia|]. cbv beta. intros p1 n1 L1.
    eapply wlp_bind; [now apply l_value|]. intros [t' w] n2 (L2 & H1). eapply wlp_bind; [now apply l_or_ws|]. cbv beta. intros p3 n3 L3. run.
    destruct (negb _); run; [apply wlp_err|]. now apply wlp_ret. }
  unfold wlp in W. destruct (a_parse_m input O) as [[[t' s'] n]|? ? ?| | |]; try discriminate.
  injection H as -> ->. exact W.
Qed.
End Lexed.
