(* Facts about slices and the scanning loops of the parser. *)
From Coq Require Import List NArith Bool Arith Lia.
From Verif Require Import Bytes Utf8 Utf8Props Data Parser.
Import ListNotations.
Local Open Scope N_scope.

(* Layout: white space and comments, defined without the scanner. A comment runs from a hash
   sign to the end of its line, or to the end of the text. *)
Inductive layout : bytes -> Prop :=
| lay_nil : layout []
| lay_ws c w : In c [9; 10; 12; 13; 32] -> layout w -> layout (c :: w)
| lay_comment s w : ~ In NEWLINE s -> layout w -> layout (HASH :: s ++ NEWLINE :: w)
| lay_open s : ~ In NEWLINE s -> layout (HASH :: s).

Lemma is_ws_in c : is_ws c = true -> In c [9; 10; 12; 13; 32].
Proof.
  unfold is_ws, is_other_ws. rewrite !orb_true_iff, !N.eqb_eq. unfold TAB, FF, CR, SPACE, NEWLINE.
  cbn. intuition congruence.
Qed.
Lemma in_is_ws c : In c [9; 10; 12; 13; 32] -> is_ws c = true.
Proof. cbn. intros H; decompose [or] H; subst; try reflexivity; contradiction. Qed.

Definition nl_count (s : bytes) : nat := length (filter (N.eqb NEWLINE) s).

Lemma ws_scan_spec r : forall k nl,
  (ws_scan false r = (k, nl) ->
    (k <= length r)%nat /\ layout (firstn k r) /\ nl = nl_count (firstn k r) /\
    match skipn k r with [] => True | c :: _ => is_ws c = false /\ c <> HASH end) /\
  (ws_scan true r = (k, nl) ->
    (k <= length r)%nat /\ layout (HASH :: firstn k r) /\ nl = nl_count (firstn k r) /\
    match skipn k r with [] => True | c :: _ => is_ws c = false /\ c <> HASH end).
Proof.
  induction r as [|c r IH]; intros k nl; cbn [ws_scan].
  - split; intros H; injection H as <- <-; cbn; repeat split; auto using lay_nil.
    apply lay_open. intros [].
  - split.
    + destruct (c =? HASH) eqn:EH.
      * destruct (ws_scan true r) as [k' nl'] eqn:E. intros H; injection H as <- <-.
        destruct (proj2 (IH k' nl') eq_refl) as (H1 & H2 & H3 & H4).
        apply N.eqb_eq in EH; subst c. cbn. repeat split; auto; lia.
      * destruct (is_ws c) eqn:EW.
        -- destruct (ws_scan false r) as [k' nl'] eqn:E. intros H; injection H as <- <-.
           destruct (proj1 (IH k' nl') eq_refl) as (H1 & H2 & H3 & H4).
           cbn [firstn skipn length]. repeat split; auto; try lia.
           ++ constructor; auto. now apply is_ws_in.
           ++ unfold nl_count. cbn [filter]. rewrite N.eqb_sym. destruct (NEWLINE =? c); cbn [length]; subst; reflexivity.
        -- intros H; injection H as <- <-. cbn. repeat split; auto; try constructor; try lia.
           now apply N.eqb_neq.
    + destruct (c =? NEWLINE) eqn:EN.
      * destruct (ws_scan false r) as [k' nl'] eqn:E. intros H; injection H as <- <-.
        destruct (proj1 (IH k' nl') eq_refl) as (H1 & H2 & H3 & H4).
        apply N.eqb_eq in EN; subst c. cbn [firstn skipn length]. repeat split; auto; try lia.
        -- apply (lay_comment []); auto.
        -- unfold nl_count in *. cbn [filter]. rewrite N.eqb_refl. cbn [length]. congruence.
      * destruct (ws_scan true r) as [k' nl'] eqn:E. intros H; injection H as <- <-.
        destruct (proj2 (IH k' nl') eq_refl) as (H1 & H2 & H3 & H4).
        cbn [firstn skipn length]. repeat split; auto; try lia.
        -- apply N.eqb_neq in EN. inversion H2; subst.
           ++ unfold HASH in *. exfalso. match goal with H : In _ _ |- _ => revert H end. cbn. intuition discriminate.
           ++ change (HASH :: c :: s ++ NEWLINE :: w) with (HASH :: (c :: s) ++ NEWLINE :: w).
              apply lay_comment; auto. cbn. intuition.
           ++ apply lay_open. cbn. intuition.
        -- unfold nl_count in *. cbn [filter]. rewrite N.eqb_sym, EN. auto.
Qed.

Lemma ws_scan_text r : forall k nl,
  (ws_scan false r = (k, nl) -> text r -> text (firstn k r) /\ text (skipn k r)) /\
  (ws_scan true r = (k, nl) -> forall a, text (a ++ r) -> text (a ++ firstn k r) /\ text (skipn k r)).
Proof.
  induction r as [|c r IH]; intros k nl; cbn [ws_scan].
  - split; intros H; injection H as <- <-; cbn; auto using text_nil.
  - assert (W : is_ws c = true -> c < 128).
    { intros H. apply is_ws_in in H. cbn in H. decompose [or] H; subst; try reflexivity; contradiction. }
    split.
    + destruct (N.eqb_spec c HASH) as [->|_].
      * destruct (ws_scan true r) as [k' nl'] eqn:E. intros H; injection H as <- <-. intros T.
        destruct (proj2 (IH k' nl') eq_refl [HASH] T). cbn. auto.
      * destruct (is_ws c) eqn:EW.
        -- destruct (ws_scan false r) as [k' nl'] eqn:E. intros H; injection H as <- <-. intros T.
           apply text_ascii in T; auto. destruct (proj1 (IH k' nl') eq_refl T). cbn.
           split; auto. apply text_ascii; auto.
        -- intros H; injection H as <- <-. intros T. cbn. auto using text_nil.
    + destruct (N.eqb_spec c NEWLINE) as [->|_].
      * destruct (ws_scan false r) as [k' nl'] eqn:E. intros H; injection H as <- <-. intros a T.
        apply text_split in T as [T1 T2]; [|reflexivity]. apply text_ascii in T2; [|reflexivity].
        destruct (proj1 (IH k' nl') eq_refl T2). cbn. split; auto. apply text_app; auto.
        apply text_ascii; auto.
      * destruct (ws_scan true r) as [k' nl'] eqn:E. intros H; injection H as <- <-. intros a T.
        assert (T' : text ((a ++ [c]) ++ r)) by now rewrite <- app_assoc.
        destruct (proj2 (IH k' nl') eq_refl _ T'). cbn. rewrite <- app_assoc in *. auto.
Qed.
(* Layout found at any position of a text is itself a text. *)
Lemma ws_scan_text_at a r k nl : ws_scan false r = (k, nl) -> text (a ++ r) -> text (firstn k r).
Proof.
  intros H T. destruct r as [|c r]; [rewrite firstn_nil; constructor|].
  destruct k as [|k]; [constructor|].
  assert (C : c < 128).
  { cbn [ws_scan] in H. destruct (N.eqb_spec c HASH) as [->|_]; [reflexivity|].
    destruct (is_ws c) eqn:E; [|discriminate]. apply is_ws_in in E. cbn in E.
    decompose [or] E; subst; try reflexivity; contradiction. }
  apply text_split in T as [_ T]; [|now apply ascii_not_cont].
  now apply (proj1 (ws_scan_text _ _ _)) in H.
Qed.

Lemma memchr_spec a s : match memchr a s with
  | Some k => (k < length s)%nat /\ ~ In a (firstn k s) /\ nth_error s k = Some a
  | None => ~ In a s
  end.
Proof.
  induction s as [|c s IH]; cbn; [auto|].
  destruct (N.eqb_spec c a) as [->|NE].
  - cbn. repeat split; try lia.
  - destruct (memchr a s) as [k|]; cbn [option_map].
    + destruct IH as (H1 & H2 & H3). cbn. repeat split; auto; try lia. intuition.
    + cbn. intuition.
Qed.
Lemma num_scan_le r : forall d e h, (fst (num_scan d e h r) <= length r)%nat.
Proof.
  induction r as [|c r IH]; intros d e h; cbn; [lia|].
  destruct (_ && d).
  { specialize (IH false e h). destruct (num_scan false e h r); cbn in *; lia. }
  destruct (_ && e).
  { specialize (IH false false h). destruct (num_scan false false h r); cbn in *; lia. }
  destruct (is_digit c).
  { specialize (IH d e true). destruct (num_scan d e true r); cbn in *; lia. }
  cbn; lia.
Qed.
Lemma sq_scan_spec r : match sq_scan r with
  | SqHang => ~ In SQUOTE r
  | SqEnd k => (k < length r)%nat /\ nth_error r k = Some SQUOTE
  | SqEscape k => (S k < length r)%nat /\ nth_error r k = Some SQUOTE
  end.
Proof.
  induction r as [|c r IH]; cbn; [auto|].
  destruct (N.eqb_spec c SQUOTE) as [->|NE].
  - destruct r as [|c' r']; cbn; [split; [lia|reflexivity]|].
    destruct (c' =? SQUOTE); cbn; split; try lia; reflexivity.
  - destruct (sq_scan r) as [|k|k]; cbn; intuition.
Qed.
(* The rest of a single-quoted string that has no end: every quote is one of a pair. *)
Inductive unclosed : bytes -> Prop :=
| un_nil : unclosed []
| un_byte c r : c <> SQUOTE -> unclosed r -> unclosed (c :: r)
| un_pair r : unclosed r -> unclosed (SQUOTE :: SQUOTE :: r).
Lemma unclosed_plain r : ~ In SQUOTE r -> unclosed r.
Proof. induction r as [|c r IH]; cbn; intros H; constructor; intuition. Qed.
Lemma sqe_scan_none n : forall r, (length r <= n)%nat -> sqe_scan r = None -> unclosed r.
Proof.
  induction n as [|n IH]; intros r L H.
  - destruct r; [constructor|cbn in L; lia].
  - destruct r as [|c r]; [constructor|]. cbn in L. cbn [sqe_scan] in H.
    destruct (N.eqb_spec c SQUOTE) as [->|NE].
    + destruct r as [|c' r']; [discriminate|]. destruct (N.eqb_spec c' SQUOTE) as [->|NE]; [|discriminate].
      cbn in L. destruct (sqe_scan r') as [[k o]|] eqn:E; [discriminate|].
      apply un_pair, IH; [lia|exact E].
    + destruct (sqe_scan r) as [[k o]|] eqn:E; [discriminate|]. apply un_byte; [exact NE|]. apply IH; [lia|exact E].
Qed.
Lemma sq_escape_none r k : sq_scan r = SqEscape k -> sqe_scan (skipn k r) = None -> unclosed r.
Proof.
  revert k. induction r as [|c r IH]; cbn [sq_scan]; intros k H N; [discriminate|].
  destruct (N.eqb_spec c SQUOTE) as [->|NE].
  - destruct r as [|c' r']; [discriminate|]. destruct (N.eqb_spec c' SQUOTE) as [->|NE]; [|discriminate].
    injection H as <-. cbn [skipn] in N. eapply sqe_scan_none; [apply le_n|exact N].
  - apply un_byte; [exact NE|]. destruct (sq_scan r) as [|k'|k'] eqn:E; try discriminate.
    injection H as <-. cbn [skipn] in N. eapply IH; [reflexivity|exact N].
Qed.
Lemma sqe_scan_le n : forall r, (length r <= n)%nat ->
  match sqe_scan r with Some (k, _) => (k < length r)%nat | None => True end.
Proof.
  induction n as [|n IH]; intros r L.
  - destruct r; cbn in *; [auto|lia].
  - destruct r as [|c r]; cbn [sqe_scan]; [auto|]. cbn in L.
    destruct (c =? SQUOTE).
    + destruct r as [|c' r']; [cbn; lia|]. destruct (c' =? SQUOTE); [|cbn; lia].
      cbn in L. specialize (IH r'). destruct (sqe_scan r') as [[k o]|]; [|auto].
      cbn. assert (k < length r')%nat by (apply IH; lia). lia.
    + specialize (IH r). destruct (sqe_scan r) as [[k o]|]; [|auto].
      cbn. assert (k < length r)%nat by (apply IH; lia). lia.
Qed.
Lemma dq_scan_spec r : match dq_scan r with
  | (k, false) => (k <= length r)%nat
  | (k, true) => (k < length r)%nat
  end.
Proof.
  induction r as [|c r IH]; cbn; [lia|]. destruct (_ || _); [lia|].
  destruct (_ =? BACKSLASH); [cbn; lia|]. destruct (dq_scan r) as [k [|]]; cbn; lia.
Qed.
Lemma key_scan_spec r : match key_scan r with
  | (k, true) => (k < length r)%nat /\ nth_error r k = Some COLON /\ ~ In NEWLINE (firstn k r)
  | (k, false) => (k <= length r)%nat /\ ~ In NEWLINE (firstn k r)
  end.
Proof.
  induction r as [|c r IH]; cbn; [auto|].
  destruct (N.eqb_spec c NEWLINE) as [->|NE]; [cbn; split; [lia|auto]|].
  destruct (N.eqb_spec c COLON) as [->|NE'].
  - destruct (_ || _); cbn.
    + repeat split; auto. lia.
    + destruct (key_scan r) as [k [|]]; cbn; intuition.
  - cbn. destruct (key_scan r) as [k [|]]; cbn; intuition.
Qed.
Lemma colon_scan_le r : (colon_scan r <= length r)%nat.
Proof. induction r as [|c r IH]; cbn; [lia|]. destruct (_ || _); lia. Qed.
Lemma colon_scan_stop r : match nth_error r (colon_scan r) with
  | Some c => c = COLON \/ c = EOF | None => True end.
Proof.
  induction r as [|c r IH]; cbn; [auto|]. destruct (_ || _) eqn:E; cbn; auto.
  apply orb_prop in E as [E|E]; apply N.eqb_eq in E; auto.
Qed.
Lemma ctl_scan_le r : (ctl_scan r <= length r)%nat.
Proof. induction r as [|c r IH]; cbn; [lia|]. destruct (is_ctl c); lia. Qed.

(* ---- slices ---- *)
Lemma skipn_add {A} a c (l : list A) : skipn a (skipn c l) = skipn (a + c) l.
Proof.
  revert l; induction c as [|c IH]; intros l; [now rewrite Nat.add_0_r|].
  rewrite Nat.add_succ_r. destruct l as [|x l]; cbn; [now rewrite skipn_nil|apply IH].
Qed.
Section Slices.
Variable input : bytes.
Local Notation len := (length input).
Local Notation seg := (slice input).

Lemma seg_eq i j : (i <= j <= len)%nat -> seg i j = firstn (j - i) (skipn i input).
Proof.
  intros H. unfold slice.
  rewrite (proj2 (Nat.leb_le i j)), (proj2 (Nat.leb_le j len)) by lia. reflexivity.
Qed.
Lemma seg_length i j : (i <= j <= len)%nat -> length (seg i j) = (j - i)%nat.
Proof. intros H. rewrite seg_eq by exact H. rewrite firstn_length, skipn_length. lia. Qed.
Lemma seg_nil i : seg i i = [].
Proof. unfold slice. rewrite Nat.sub_diag. destruct (_ && _); reflexivity. Qed.
Lemma seg_app i j k : (i <= j <= k)%nat -> (k <= len)%nat -> seg i j ++ seg j k = seg i k.
Proof.
  intros H K. rewrite !seg_eq by lia.
  replace (skipn j input) with (skipn (j - i) (skipn i input)).
  2:{ rewrite skipn_add. f_equal. lia. }
  generalize (skipn i input); intros l.
  replace (k - i)%nat with ((j - i) + (k - j))%nat by lia.
  generalize (j - i)%nat (k - j)%nat. intros a c. revert l.
  induction a as [|a IH]; intros l; cbn; [reflexivity|].
  destruct l as [|x l]; cbn; [now rewrite firstn_nil|]. now rewrite IH.
Qed.
Lemma seg_full n : (n <= len)%nat -> seg n len = skipn n input.
Proof.
  intros H. rewrite seg_eq by lia. apply firstn_all2. rewrite skipn_length. lia.
Qed.
Lemma seg_scan n k : (n <= len)%nat -> (k <= length (skipn n input))%nat ->
  seg n (n + k) = firstn k (skipn n input).
Proof. intros H K. rewrite skipn_length in K. rewrite seg_eq by lia. f_equal. lia. Qed.
Lemma nth_skipn n : nth n input EOF = hd EOF (skipn n input).
Proof.
  revert n; induction input as [|c r IH]; intros [|n]; cbn; auto.
Qed.
Lemma nth_lt n c : nth n input EOF = c -> c <> EOF -> (n < len)%nat /\ seg n (S n) = [c].
Proof.
  intros H NE. assert (L : (n < len)%nat).
  { destruct (Nat.lt_ge_cases n len) as [|G]; [auto|]. rewrite nth_overflow in H by exact G. congruence. }
  split; [exact L|]. rewrite seg_eq by lia. replace (S n - n)%nat with 1%nat by lia.
  rewrite nth_skipn in H. assert (L2 : (0 < length (skipn n input))%nat) by (rewrite skipn_length; lia).
  destruct (skipn n input) as [|x r]; cbn in *; [lia|congruence].
Qed.
Lemma nth_seg n : (n < len)%nat -> seg n (S n) = [nth n input EOF].
Proof.
  intros L. rewrite seg_eq by lia. replace (S n - n)%nat with 1%nat by lia.
  rewrite nth_skipn. assert (L2 : (0 < length (skipn n input))%nat) by (rewrite skipn_length; lia).
  destruct (skipn n input) as [|x r]; cbn in *; [lia|congruence].
Qed.
Lemma seg_in i j x : In x (seg i j) -> In x input.
Proof.
  unfold slice. destruct (_ && _); [|intros []]. intros H.
  rewrite <- (firstn_skipn i input). apply in_or_app. right.
  rewrite <- (firstn_skipn (j - i) (skipn i input)). apply in_or_app. now left.
Qed.
Lemma nth_error_nth k n : nth_error (skipn n input) k = Some (nth (n + k) input EOF) \/
  (len <= n + k)%nat.
Proof.
  destruct (Nat.lt_ge_cases (n + k) len) as [L|G]; [left|now right].
  revert n L; induction input as [|c r IH]; intros n L; cbn in L; [lia|].
  destruct n as [|n]; cbn.
  - change (nth_error (c :: r) k = Some (nth k (c :: r) EOF)). now apply nth_error_nth'.
  - apply IH. lia.
Qed.
End Slices.
