(* What the parser reports is wrong by the rules of Fails.v: one direction of C50. A pass over
   the abstract parser like PrintedSound.v. *)
From Coq Require Import String.
From Coq Require Import List NArith Bool Arith Lia.
From Verif Require Import Bytes Utf8 Data Parser Render Tree Abs Scan AbsText AbsNice Num Reads ReadsSound Shown Plain White Valid Lexed Means Places MeansSound MeansComplete Printed PrintedSound Fails.
Import ListNotations.
Local Open Scope N_scope.

Section Sound.
Variable text : bytes.
Local Notation len := (length text).
Local Notation at_ i := (nth i text 0).
Local Notation part := (slice text).
Local Notation gap_to := (gap_to text).
Local Notation column := (column text).
Local Notation puts := (puts text).
Local Notation after := (after text).

(* Q holds of the result, E of the fault. *)
Definition fwp {A} (m : AM A) (n : nat) (Q : A -> nat -> Prop) (E : fault -> Prop) : Prop :=
  match m n with Ok (a, n') => Q a n' | Err x y k => E (bad k x y) | Hang => E stuck | _ => True end.
Lemma fwp_ret {A} (a : A) n (Q : A -> nat -> Prop) E : Q a n -> fwp (ret a) n Q E.
Proof. auto. Qed.
Lemma fwp_err {A} x y k n (Q : A -> nat -> Prop) (E : fault -> Prop) : E (bad k x y) -> fwp (a_err x y k) n Q E.
Proof. auto. Qed.
Lemma fwp_bind {A B} (m : AM A) (k : A -> AM B) n R Q E : fwp m n R E -> (forall a n', R a n' -> fwp (k a) n' Q E) -> fwp (bind m k) n Q E.
Proof. unfold fwp, bind. destruct (m n) as [[a n']|? ? ?| | |]; intros H K; auto. now apply K. Qed.
Lemma fwp_eval {A B} (m : AM A) (k : A -> AM B) n a n' Q E : m n = Ok (a, n') -> fwp (k a) n' Q E -> fwp (bind m k) n Q E.
Proof. unfold fwp, bind. now intros ->. Qed.
Lemma fwp_mono {A} (m : AM A) n (R Q : A -> nat -> Prop) (D E : fault -> Prop) : fwp m n R D -> (forall a n', R a n' -> Q a n') -> (forall r, D r -> E r) -> fwp m n Q E.
Proof. unfold fwp. destruct (m n) as [[a n']|? ? ?| | |]; auto. Qed.
Lemma fwp_wlp {A} (m : AM A) n (Q R : A -> nat -> Prop) E : fwp m n R E -> wlp m n Q -> fwp m n (fun a n' => Q a n' /\ R a n') E.
Proof. unfold fwp, wlp. destruct (m n) as [[a n']|? ? ?| | |]; auto. Qed.
Ltac run := repeat (lazymatch goal with
  | |- fwp (bind a_get ?k) ?n ?Q ?E => change (fwp (k n) n Q E)
  | |- fwp (bind (a_rest _) ?k) ?n ?Q ?E => change (fwp (k (skipn n text)) n Q E)
  | |- fwp (bind (a_peek _ ?i) ?k) ?n ?Q ?E => change (fwp (k (nth (n + i) text EOF)) n Q E)
  | |- fwp (bind (a_eof _) ?k) ?n ?Q ?E => change (fwp (k (Nat.eqb n len)) n Q E)
  | |- fwp (bind (a_string _ ?s) ?k) ?n ?Q ?E => change (fwp (k (part s n)) n Q E)
  | |- fwp (bind (a_indent _) ?k) ?n ?Q ?E => change (fwp (k (indent_from text n)) n Q E)
  | |- fwp (bind (a_set ?m) ?k) ?n ?Q ?E => change (fwp (k tt) m Q E)
  | |- fwp (bind (a_bump _ ?i) ?k) ?n ?Q ?E => change (fwp (k tt) (Nat.min (n + i) len) Q E)
  | |- fwp (bind (ret ?x) ?k) ?n ?Q ?E => change (fwp (k x) n Q E)
  end; cbv beta).

(* ---- escapes ---- *)
Lemma hexdigit_iff c : hexdigit c <-> hex_value c <> None.
Proof.
  split.
  - intros (v & H). apply hex_value_iff in H. congruence.
  - destruct (hex_value c) as [v|] eqn:E; [|congruence]. intros _. exists v. now apply hex_value_iff.
Qed.
Lemma digits_total start err count : forall c n, (n <= len)%nat ->
  ((n + count <= len)%nat /\ exists v, hex_number c (part n (n + count)) = Some v /\ a_unescape_digits text start count err c n = Ok (v, (n + count)%nat)) \/
  (exists q, (n <= q < n + count)%nat /\ (q <= len)%nat /\ (forall i, (n <= i < q)%nat -> hexdigit (at_ i)) /\ ~ hexdigit (at_ q) /\
     a_unescape_digits text start count err c n = Err start (Nat.min (S q) len) err).
Proof.
  induction count as [|count IH]; intros c n L.
  - left. rewrite Nat.add_0_r, seg_nil. split; [lia|]. exists c. auto.
  - assert (ST : a_unescape_digits text start (S count) err c n = match hex_value (at_ n) with
      Some v => a_unescape_digits text start count err (N.lor (N.shiftl c 4) v) (Nat.min (S n) len) | None => Err start (Nat.min (S n) len) err end).
    { cbn [a_unescape_digits]. unfold bind at 1. unfold a_peek at 1. rewrite Nat.add_0_r. unfold EOF. destruct (hex_value (at_ n)); unfold bind, a_bump, a_get, a_err; now rewrite Nat.add_1_r. }
    rewrite ST. destruct (hex_value (at_ n)) as [v|] eqn:H.
    + assert (LT : (n < len)%nat). { destruct (Nat.lt_ge_cases n len) as [X|X]; [exact X|]. rewrite nth_overflow in H by exact X. discriminate. }
      rewrite Nat.min_l by lia. destruct (IH (N.lor (N.shiftl c 4) v) (S n) ltac:(lia)) as [(L2 & v2 & H2 & R)|(q & Q1 & Q2 & Q3 & Q4 & R)].
      * left. split; [lia|]. exists v2. replace (n + S count)%nat with (S n + count)%nat by lia. rewrite part_at by lia. cbn [hex_number]. rewrite H. split; [exact H2|exact R].
      * right. exists q. split; [lia|]. split; [lia|]. split; [|split; [exact Q4|exact R]]. intros i I. destruct (Nat.eq_dec i n) as [->|NE]; [apply hexdigit_iff; congruence|]. apply Q3. lia.
    + right. exists n. split; [lia|]. split; [lia|]. split; [intros i I; lia|]. split; [rewrite hexdigit_iff; congruence|reflexivity].
Qed.
Lemma scalar_surrogate c : c < 65536 -> is_scalar_value c = false <-> surrogate c.
Proof.
  intros L. split.
  - intros H. unfold surrogate, is_scalar_value in *. apply orb_false_iff in H as [H1 H2]. apply N.ltb_ge in H1. apply andb_false_iff in H2. rewrite !N.ltb_ge in H2. lia.
  - intros S. destruct (is_scalar_value c) eqn:E; [|reflexivity]. exfalso. unfold surrogate, is_scalar_value in *. apply orb_prop in E. rewrite andb_true_iff, !N.ltb_lt in E. lia.
Qed.
Lemma no_letter_iff c : no_letter c <-> escape_char c = None /\ c <> 120 /\ c <> 117.
Proof.
  unfold no_letter, escape_char. change (b "0abtnvfrexu\") with [48; 97; 98; 116; 110; 118; 102; 114; 101; 120; 117; 92]. cbn [In]. unfold BACKSLASH.
  destruct (N.eqb_spec c 110); destruct (N.eqb_spec c 48); destruct (N.eqb_spec c 97); destruct (N.eqb_spec c 98); destruct (N.eqb_spec c 116); destruct (N.eqb_spec c 118);
    destruct (N.eqb_spec c 102); destruct (N.eqb_spec c 114); destruct (N.eqb_spec c 101); destruct (N.eqb_spec c 92); subst; split; intros H; try (destruct H as (H & _); discriminate); try (exfalso; apply H; auto 20; fail); try (split; [reflexivity|split; intros ->; apply H; auto 20]).
  destruct H as (_ & H1 & H2). intuition congruence.
Qed.
Lemma hex_two d1 d2 v : hex_number 0 [d1; d2] = Some v -> v < 256.
Proof.
  cbn [hex_number]. destruct (hex_value d1) as [v1|] eqn:H1; [|discriminate]. destruct (hex_value d2) as [v2|] eqn:H2; [|discriminate].
  apply hex_value_iff in H1, H2. apply hex_small in H1, H2. rewrite !shift_lor by assumption. intros E. apply (f_equal (fun o => match o with Some x => x | None => 0 end)) in E. cbv beta iota in E. lia.
Qed.
Lemma hex_four d1 d2 d3 d4 v : hex_number 0 [d1; d2; d3; d4] = Some v -> exists v1 v2 v3 v4, hex d1 v1 /\ hex d2 v2 /\ hex d3 v3 /\ hex d4 v4 /\ v = 4096 * v1 + 256 * v2 + 16 * v3 + v4 /\ v < 65536.
Proof.
  cbn [hex_number]. destruct (hex_value d1) as [v1|] eqn:H1; [|discriminate]. destruct (hex_value d2) as [v2|] eqn:H2; [|discriminate].
  destruct (hex_value d3) as [v3|] eqn:H3; [|discriminate]. destruct (hex_value d4) as [v4|] eqn:H4; [|discriminate].
  apply hex_value_iff in H1, H2, H3, H4. pose proof (hex_small _ _ H1). pose proof (hex_small _ _ H2). pose proof (hex_small _ _ H3). pose proof (hex_small _ _ H4).
  rewrite !shift_lor by assumption. intros E. apply (f_equal (fun o => match o with Some x => x | None => 0 end)) in E. cbv beta iota in E. exists v1, v2, v3, v4. repeat split; auto; lia.
Qed.
Lemma unescape_fault p x y k : (p < len)%nat -> a_unescape text p (S p) = Err x y k -> x = p /\ bad_escape text p k y.
Proof.
  intros L. unfold a_unescape, bind at 1, a_peek at 1. rewrite Nat.add_0_r. unfold EOF.
  destruct (escape_char (at_ (S p))) as [o|] eqn:E; [discriminate|].
  assert (LT : at_ (S p) <> 0 -> (S p < len)%nat) by (intros NZ; now apply (at_lt _ _ _ eq_refl)).
  destruct (N.eqb_spec (at_ (S p)) 120) as [E1|N1].
  { specialize (LT ltac:(rewrite E1; discriminate)). unfold bind at 1, a_bump at 1. rewrite Nat.min_l by lia. replace (S p + 1)%nat with (2 + p)%nat by lia.
    unfold a_unescape_unicode, bind at 1. destruct (digits_total p BadHexEscape 2 0 (2 + p) ltac:(lia)) as [(L2 & v & H & ->)|(q & Q1 & Q2 & Q3 & Q4 & ->)].
    - replace (2 + p + 2)%nat with (4 + p)%nat in * by lia. rewrite !part_at, seg_nil in H by lia. apply hex_two in H.
      replace (is_scalar_value v) with true; [discriminate|]. symmetry. apply not_surrogate; unfold surrogate; lia.
    - intros R. injection R as <- <- <-. split; [reflexivity|]. eapply be_digit; eauto. rewrite E1. reflexivity. }
  destruct (N.eqb_spec (at_ (S p)) 117) as [E2|N2].
  { specialize (LT ltac:(rewrite E2; discriminate)). unfold bind at 1, a_bump at 1. rewrite Nat.min_l by lia. replace (S p + 1)%nat with (2 + p)%nat by lia.
    unfold a_unescape_unicode, bind at 1. destruct (digits_total p BadUnicodeEscape 4 0 (2 + p) ltac:(lia)) as [(L2 & v & H & ->)|(q & Q1 & Q2 & Q3 & Q4 & ->)].
    - replace (2 + p + 4)%nat with (6 + p)%nat in * by lia. rewrite !part_at, seg_nil in H by lia. apply hex_four in H as (v1 & v2 & v3 & v4 & H1 & H2 & H3 & H4 & V & S).
      destruct (is_scalar_value v) eqn:SV; [discriminate|]. apply scalar_surrogate in SV; [|exact S].
      intros R. injection R as <- <- <-. split; [reflexivity|]. apply (be_surrogate _ _ v1 v2 v3 v4); auto; [now rewrite E2|]. now rewrite <- V.
    - intros R. injection R as <- <- <-. split; [reflexivity|]. eapply be_digit; eauto. rewrite E2. reflexivity. }
  unfold bind, a_bump, a_get, a_err. set (m := Nat.min _ _). intros R. injection R as <- <- <-. split; [reflexivity|]. subst m. destruct (Nat.eq_dec (S p) len) as [EL|NL].
  - rewrite Nat.min_r by lia. now apply be_end.
  - rewrite Nat.min_l by lia. replace (S p + 1)%nat with (2 + p)%nat by lia. apply be_letter; [lia|]. now apply no_letter_iff.
Qed.
Lemma unescape_bad p k e : (p < len)%nat -> bad_escape text p k e -> a_unescape text p (S p) = Err p e k.
Proof.
  intros L B. unfold a_unescape, bind at 1, a_peek at 1. rewrite Nat.add_0_r. unfold EOF. destruct B as [EL|LT NL|k c n q K C Q1 Q2 Q3 Q4|v1 v2 v3 v4 C H1 H2 H3 H4 S].
  - rewrite nth_overflow by lia. change (escape_char 0) with (@None byte). change (0 =? 120) with false. change (0 =? 117) with false. cbv iota. unfold bind, a_bump, a_get, a_err. now rewrite Nat.min_r by lia.
  - apply no_letter_iff in NL as (E & N1 & N2). rewrite E. apply N.eqb_neq in N1, N2. rewrite N1, N2. unfold bind, a_bump, a_get, a_err. rewrite Nat.min_l by lia. f_equal. lia.
  - assert (D : forall n' err, n' = n -> err = k -> a_unescape_unicode text p n' err (2 + p)%nat = Err p (Nat.min (Datatypes.S q) len) k).
    { intros n' err -> ->. unfold a_unescape_unicode, bind at 1. destruct (digits_total p k n 0 (2 + p) ltac:(lia)) as [(L2 & v & H & ->)|(q' & Q1' & Q2' & Q3' & Q4' & ->)].
      - exfalso. apply Q4. apply hexdigit_iff. assert (F : Forall (fun d => hex_value d <> None) (part (2 + p) (2 + p + n))).
        { revert H. generalize 0. generalize (part (2 + p) (2 + p + n)). clear. intros l. induction l as [|d l IH]; intros c H; constructor; cbn [hex_number] in H; destruct (hex_value d); try discriminate; eauto. }
        rewrite Forall_forall in F. apply F. apply part_in; [lia|]. exists q. split; [lia|reflexivity].
      - assert (q = q') as ->. { destruct (Nat.lt_trichotomy q q') as [X|[X|X]]; [|exact X|]; exfalso; [apply Q4, Q3'; lia|apply Q4', Q3; lia]. } reflexivity. }
    destruct K as [K|K]; injection K as -> -> ->; injection C as C; rewrite C; cbv iota beta delta [escape_char N.eqb Pos.eqb BACKSLASH]; unfold bind at 1, a_bump at 1;
      (assert (Datatypes.S p < len)%nat by (apply (at_lt _ _ _ C); discriminate)); rewrite Nat.min_l by lia; replace (Datatypes.S p + 1)%nat with (2 + p)%nat by lia; now apply D.
  - injection C as C. rewrite C. cbv iota beta delta [escape_char N.eqb Pos.eqb BACKSLASH]. unfold bind at 1, a_bump at 1.
    assert (NZ : forall i v, hex (at_ i) v -> (i < len)%nat).
    { intros i v H. destruct (Nat.lt_ge_cases i len) as [X|X]; [exact X|]. rewrite nth_overflow in H by exact X. apply hex_value_iff in H. discriminate. }
    pose proof (NZ _ _ H4) as LL. rewrite Nat.min_l by lia. replace (Datatypes.S p + 1)%nat with (2 + p)%nat by lia.
    unfold a_unescape_unicode, bind at 1. destruct (digits_total p BadUnicodeEscape 4 0 (2 + p) ltac:(lia)) as [(L2 & v & H & ->)|(q' & Q1' & Q2' & Q3' & Q4' & ->)].
    + replace (2 + p + 4)%nat with (6 + p)%nat in * by lia. rewrite !part_at, seg_nil in H by lia. apply hex_four in H as (u1 & u2 & u3 & u4 & G1 & G2 & G3 & G4 & V & S').
      assert (DET : forall c u w, hex c u -> hex c w -> u = w). { intros c u w X Y. apply hex_value_iff in X, Y. congruence. }
      cbn [Nat.add] in *. rewrite (DET _ _ _ G1 H1), (DET _ _ _ G2 H2), (DET _ _ _ G3 H3), (DET _ _ _ G4 H4) in V. rewrite <- V in S. apply scalar_surrogate in S; [|exact S']. now rewrite S.
    + exfalso. apply Q4'. assert (I : (q' = 2 + p \/ q' = 3 + p \/ q' = 4 + p \/ q' = 5 + p)%nat) by lia. unfold hexdigit. destruct I as [->|[->|[->| ->]]]; eauto.
Qed.
Lemma bad_escape_det p k e k' e' : (p < len)%nat -> bad_escape text p k e -> bad_escape text p k' e' -> k = k' /\ e = e'.
Proof. intros L A B. apply unescape_bad in A, B; auto. rewrite A in B. injection B as <- <-. auto. Qed.

(* ---- quotes ---- *)
Lemma unescape_never p n : a_unescape text p n <> Hang.
Proof.
  assert (D : forall err count c m, a_unescape_digits text p count err c m <> Hang).
  { intros err. induction count as [|count IH]; intros c m; [discriminate|]. cbn [a_unescape_digits]. unfold bind at 1, a_peek at 1. destruct (hex_value _); [|discriminate]. apply IH. }
  assert (U : forall count err m, a_unescape_unicode text p count err m <> Hang).
  { intros count err m. unfold a_unescape_unicode, bind. specialize (D err count 0 m). destruct (a_unescape_digits text p count err 0 m) as [[v m']|? ? ?| | |]; try discriminate; [|congruence]. destruct (is_scalar_value v); discriminate. }
  unfold a_unescape, bind at 1, a_peek at 1. destruct (escape_char _); [discriminate|]. destruct (_ =? _); [apply U|]. destruct (_ =? _); [apply U|]. discriminate.
Qed.
Lemma dqe_fault i f : forall acc n v, (S i <= n <= len)%nat -> dqbody (part (S i) n) v ->
  fwp (a_dqe_loop text f acc) n (fun _ _ => True) (fun r => exists k p e v, r = bad k p e /\ (S i <= p < len)%nat /\ dqbody (part (S i) p) v /\ at_ p = BACKSLASH /\ bad_escape text p k e).
Proof.
  induction f as [|f IH]; intros acc n v L B; [exact Logic.I|]. cbn [a_dqe_loop]. run. rewrite Nat.add_0_r.
  destruct (_ || _) eqn:E; [exact Logic.I|]. apply orb_false_elim in E as [E1 E2]. apply N.eqb_neq in E1, E2. pose proof (at_lt _ _ _ eq_refl E2) as LT.
  destruct (N.eqb_spec (nth n text EOF) BACKSLASH) as [E3|E3].
  - run. rewrite Nat.min_l by lia. rewrite Nat.add_1_r. pose proof (l_unescape text n (S n) ltac:(lia)) as U.
    unfold fwp, bind at 1. unfold wlp in U. pose proof (unescape_never n (S n)) as NH. destruct (a_unescape text n (S n)) as [[x n1]|x y k| | |] eqn:R; try (exact Logic.I); [| |congruence].
    + destruct U as (L1 & X). apply (IH _ n1 (v ++ x)); [lia|]. rewrite <- (seg_app text (S i) n n1) by lia. apply dqbody_app; [exact B|].
      rewrite part_at by lia. unfold EOF in E3. rewrite E3. pose proof (db_esc _ x [] [] X db_nil) as D. rewrite !app_nil_r in D. exact D.
    + apply unescape_fault in R as (-> & R); [|exact LT]. exists k, n, y, v. repeat split; auto; lia.
  - run. rewrite Nat.min_l by lia. apply (IH _ (n + 1)%nat (v ++ [at_ n])); [lia|]. rewrite Nat.add_1_r. rewrite <- (seg_app text (S i) n (S n)) by lia. apply dqbody_app; [exact B|].
    rewrite part_at, seg_nil by lia. apply db_byte; auto. constructor.
Qed.
Lemma double_fault i : at_ i = DQUOTE -> fwp (a_double_quoted text) i (fun _ _ => True) (bad_quote text i).
Proof.
  intros E. pose proof (at_lt _ _ _ E ltac:(discriminate)) as L. unfold a_double_quoted. run. rewrite Nat.min_l by lia. rewrite Nat.add_1_r. set (r := skipn (S i) text).
  pose proof (dq_scan_spec r) as S1. pose proof (dq_body_scan r) as B1. assert (LR : length r = (len - S i)%nat) by apply skipn_length.
  destruct (dq_scan r) as [k [|]]; cbn [fst] in B1; run; [|exact Logic.I]. rewrite Nat.min_l by lia.
  unfold a_double_quoted_escaped. run. apply (fwp_bind _ _ _ (fun _ _ => True)); [|intros; exact Logic.I].
  eapply fwp_mono; [apply (dqe_fault i _ _ _ (firstn k r)); [lia|]|auto|].
  - rewrite seg_scan by (fold r; lia). exact B1.
  - cbv beta. intros q HQ. destruct HQ as (kk & p & e & v & -> & LP & D & A & BE). apply (bq_escape _ _ p v); auto; [lia|]. now apply dqbody_shown.
Qed.
Lemma unclosed_content r : unclosed r -> exists v, sq_content r v.
Proof.
  induction 1 as [|c r N U (v & IH)|r U (v & IH)]; [exists []; constructor|exists (c :: v); now constructor|exists (b "'" ++ v); now apply (sc_pair r)].
Qed.
Lemma content_unclosed r v : sq_content r v -> unclosed r.
Proof. induction 1; [constructor|now constructor|now apply un_pair]. Qed.
Lemma unclosed_app x y u : sqbody x u -> unclosed y -> unclosed (x ++ y).
Proof. induction 1 as [|c x u N _ IH|x u _ IH]; intros U; cbn [app]; [exact U|constructor; auto|apply un_pair; auto]. Qed.
Lemma part_rest n : (n <= len)%nat -> part n len = skipn n text.
Proof. apply seg_full. Qed.
Lemma single_fault i : at_ i = SQUOTE -> fwp (a_single_quoted text) i (fun _ _ => True) (bad_quote text i).
Proof.
  intros E. pose proof (at_lt _ _ _ E ltac:(discriminate)) as L. unfold a_single_quoted. run. rewrite Nat.min_l by lia. rewrite Nat.add_1_r. set (r := skipn (S i) text).
  pose proof (sq_scan_spec r) as S1. pose proof (sq_body_scan r) as B1. assert (LR : length r = (len - S i)%nat) by apply skipn_length.
  assert (U : unclosed r -> bad_quote text i stuck).
  { intros U. destruct (unclosed_content _ U) as (v & C). apply (bq_open _ _ v); [exact E|]. rewrite part_rest by lia. exact C. }
  destruct (sq_scan r) as [|k|k] eqn:SE.
  - apply U. now apply unclosed_plain.
  - exact Logic.I.
  - destruct S1 as [S1 _]. run. rewrite Nat.min_l by lia. unfold a_single_quoted_escaped. run. destruct (sqe_scan _) as [[k2 o]|] eqn:SQ; [exact Logic.I|].
    apply U. apply (sqe_scan_none _ _ (le_n _)) in SQ. rewrite <- (firstn_skipn k r). eapply unclosed_app; [exact B1|]. unfold r. rewrite skipn_add, Nat.add_comm. exact SQ.
Qed.

(* ---- collections ---- *)
Section Value.
Variable value : astate -> AM (tree unit * option bytes).
Hypothesis VH : forall a n, (n <= len)%nat -> as_tabular a = negb (as_inline a) -> (as_inline a = true -> as_parent_indent a = None) ->
  fwp (value a) n (vput text a n) (fails text (as_inline a) (as_parent_indent a) n).

(* a value of a flow collection *)
Lemma f_flow {X} (k : tree unit * option bytes -> AM X) n m Q (E : fault -> Prop) : gap_to n m -> (forall r, fails text true None m r -> E r) ->
  (forall v w n', (n' <= len)%nat -> puts true None m (see v) (wtree v) w n' -> fwp (k (v, w)) n' Q E) ->
  fwp (p <- a_ws text ;; r <- value (AState p true false None) ;; k r) n Q E.
Proof.
  intros G F K. eapply fwp_eval; [apply gap_ws; eassumption|]. cbv beta.
  eapply fwp_bind; [eapply fwp_mono; [apply VH; [apply gap_le in G; lia|reflexivity|reflexivity]|intros a n' H; exact H|exact F]|].
  intros [v w] n' (L & [(H & T)|(c & s & kk & EI & _)]); [|discriminate]. cbn [fst snd as_inline as_parent_indent as_prefix] in *. now apply K.
Qed.
Lemma not_close c (x : byte) : (c =? x) || (c =? EOF) = false -> ~ In c [x; 0].
Proof. intros C. apply orb_false_elim in C as [C1 C2]. apply N.eqb_neq in C1, C2. cbn. unfold EOF in *. intuition congruence. Qed.
Definition seq_post (E : fault -> Prop) (r : list (sitem unit) * bool * bytes) (n' : nat) : Prop := let '(_, _, p') := r in
  (n' <= len)%nat /\ (at_ n' <> RBRACK -> E (bad BadSequenceTerminator (n' - length p') n')).
Lemma f_iseq_last f items tr ip n (E : fault -> Prop) : gap_to n n -> (at_ n = 0 -> E (bad BadSequenceTerminator (n - length ip) n)) ->
  (~ In (at_ n) [RBRACK; 0] -> (forall r, fails text true None n r -> E r) /\
    forall d o w e w' n', puts true None n d o w e -> after w e w' n' -> at_ n' <> RBRACK -> E (bad BadSequenceTerminator (n' - length w') n')) ->
  fwp (a_iseq_loop text value f items true tr ip) n (seq_post E) E.
Proof.
  intros G H0 H1. pose proof (gap_le _ _ _ G) as L. destruct f as [|f]; [exact Logic.I|]. cbn [a_iseq_loop]. run. rewrite Nat.add_0_r.
  destruct (_ || _) eqn:C.
  { apply fwp_ret. split; [lia|]. intros NR. apply H0. apply orb_prop in C as [C|C]; apply N.eqb_eq in C; [contradiction|exact C]. }
  destruct (H1 (not_close _ _ C)) as [HF HE]. apply (f_flow _ n n); [exact G|exact HF|]. intros v w e LE H. cbv beta iota zeta. destruct (after_ex text w e LE) as (w' & n' & A & L').
  eapply fwp_eval; [apply after_eval; exact A|]. apply fwp_ret. split; [lia|]. intros NR. eapply HE; eauto.
Qed.
Lemma f_iseq_loop f : forall items tr ip n, (n <= len)%nat ->
  fwp (a_iseq_loop text value f items false tr ip) n (seq_post (fails_flow_seq text n ip)) (fails_flow_seq text n ip).
Proof.
  induction f as [|f IH]; intros items tr ip n L; [exact Logic.I|]. cbn [a_iseq_loop]. run. rewrite Nat.add_0_r.
  destruct (_ || _) eqn:C.
  { apply fwp_ret. split; [lia|]. intros NR. apply fs_open. apply orb_prop in C as [C|C]; apply N.eqb_eq in C; [contradiction|exact C]. }
  apply not_close in C. destruct (gap_ex text n L) as (m & G). apply (f_flow _ n m); [exact G|intros r F; eapply fs_value; eauto|]. intros v w e LE H. cbv beta iota zeta. run. rewrite Nat.add_0_r.
  destruct (N.eqb_spec (nth e text EOF) COMMA) as [E|E].
  - pose proof (at_lt _ _ _ E ltac:(discriminate)) as LT. run. rewrite Nat.min_l by lia. rewrite Nat.add_1_r.
    destruct (after_ex text w (S e) ltac:(lia)) as (w' & n' & A & L'). eapply fwp_eval; [apply after_eval; exact A|].
    assert (NX : forall r, fails_flow_seq text n' w' r -> fails_flow_seq text n ip r) by (intros r F; eapply fs_comma; eauto).
    eapply fwp_mono; [apply IH; lia| |exact NX].
    intros [[items' tr'] p'] n2 (L2 & F). split; [exact L2|]. auto.
  - destruct (after_ex text w e LE) as (w' & n' & A & L'). eapply fwp_eval; [apply after_eval; exact A|]. apply f_iseq_last; [eapply after_stop; eassumption| |].
    + intros Z. eapply fs_last_open; eauto.
    + intros NC. split.
      * intros r F. eapply fs_last_value; eauto.
      * intros d o w2 e' w3 n2 H2 A2 NR. eapply fs_last_end; eauto.
Qed.
Lemma f_inline_sequence a flow outer n : at_ n = LBRACK -> fwp (a_inline_sequence text value a) n (fun _ _ => True) (fails text flow outer n).
Proof.
  intros E. pose proof (at_lt _ _ _ E ltac:(discriminate)) as L. unfold a_inline_sequence. run. rewrite Nat.min_l by lia. rewrite Nat.add_1_r.
  destruct (gap_ex text (S n) ltac:(lia)) as (m & G). eapply fwp_eval; [apply gap_ws; eassumption|]. pose proof (gap_le _ _ _ G).
  assert (NX : forall r, fails_flow_seq text m (part (S n) m) r -> fails text flow outer n r) by (intros r F; eapply fa_flow_seq; eauto).
  eapply fwp_bind; [eapply fwp_mono; [apply f_iseq_loop; lia|intros r n' P; exact P|exact NX]|]. intros [[its tr] p'] n3 (L3 & F). run. rewrite Nat.add_0_r.
  destruct (N.eqb_spec (nth n3 text EOF) RBRACK) as [E3|E3]; cbn [negb]; run; [exact Logic.I|]. apply fwp_err. auto.
Qed.
(* one pair of a flow mapping *)
Lemma f_pair {X} (k : rstr bytes -> tree unit * option bytes -> AM X) start n Q (E : fault -> Prop) : (n <= len)%nat -> ~ In (at_ n) [RBRACE; 0] ->
  (forall r, fails_pair text start n r -> E r) ->
  (forall key v w e p n' o, (e <= len)%nat -> puts_pair text n (rs_id key) (see v) o p n' -> a_or_ws text w e = Ok (p, n') -> (n' <= len)%nat -> gap_to n' n' -> fwp (k key (v, w)) e Q E) ->
  fwp (m <- a_get ;; key <- a_until_colon text m ;;
       match key with
       | None => m <- a_get ;; a_err start m BadMappingSeparator
       | Some key => a_bump text 1 ;;; p <- a_ws text ;; r <- value (AState p true false None) ;; k key r
       end) n Q E.
Proof.
  intros L NC F K. run. pose proof (colon_scan_at text n L) as T. pose proof (proj1 T) as TL. eapply fwp_eval; [eapply until_colon_at, T|].
  set (j := (n + colon_scan (skipn n text))%nat) in *. destruct (Nat.eqb_spec j len) as [E1|E1]; run.
  { apply fwp_err, F. rewrite E1 in *. destruct (proj2 (no_colon_part text n len ltac:(lia)) (proj1 (proj2 T))) as [N1 N2]. now apply fr_key. }
  rewrite Nat.min_l by lia. rewrite Nat.add_1_r. assert (FK : flow_key_at text n (part n j) j) by (apply flow_key_iff; split; [exact T|split; [lia|reflexivity]]).
  destruct (gap_ex text (S j) ltac:(lia)) as (m & G). apply (f_flow _ (S j) m); [exact G|intros r FF; apply F; eapply fr_value; eauto|]. intros v w e LE H.
  destruct (after_ex text w e LE) as (p & n' & A & L'). eapply K; [exact LE| |apply after_eval; exact A|lia|eapply after_stop; eassumption].
  cbn [rs_id]. eapply pr_pair; eauto.
Qed.
Definition map_post (E : fault -> Prop) (r : list (mitem unit) * bool * bytes * nat) (n' : nat) : Prop := let '(_, _, _, st) := r in
  (n' <= len)%nat /\ (at_ n' <> RBRACE -> E (bad BadMappingTerminator st n')).
Lemma f_imap_last f items tr st ip n (E : fault -> Prop) : gap_to n n -> (at_ n = 0 -> E (bad BadMappingTerminator st n)) ->
  (~ In (at_ n) [RBRACE; 0] -> (forall r, fails_pair text st n r -> E r) /\
    forall s d o w n', puts_pair text n s d o w n' -> at_ n' <> RBRACE -> E (bad BadMappingTerminator st n')) ->
  fwp (a_imap_loop text value f items true tr st ip) n (map_post E) E.
Proof.
  intros G H0 H1. pose proof (gap_le _ _ _ G) as L. destruct f as [|f]; [exact Logic.I|]. cbn [a_imap_loop]. run. rewrite Nat.add_0_r.
  destruct (_ || _) eqn:C.
  { apply fwp_ret. split; [lia|]. intros NR. apply H0. apply orb_prop in C as [C|C]; apply N.eqb_eq in C; [contradiction|exact C]. }
  apply not_close in C. destruct (H1 C) as [HF HE]. apply f_pair; [lia|exact C|exact HF|]. intros key v w e p n' o LE P EW L' G'. cbv beta iota zeta.
  eapply fwp_eval; [exact EW|]. apply fwp_ret. split; [lia|]. intros NR. eapply HE; eauto.
Qed.
Lemma f_imap_loop f : forall items tr st ip n, (n <= len)%nat ->
  fwp (a_imap_loop text value f items false tr st ip) n (map_post (fails_flow_map text st n)) (fails_flow_map text st n).
Proof.
  induction f as [|f IH]; intros items tr st ip n L; [exact Logic.I|]. cbn [a_imap_loop]. run. rewrite Nat.add_0_r.
  destruct (_ || _) eqn:C.
  { apply fwp_ret. split; [lia|]. intros NR. apply fm_open. apply orb_prop in C as [C|C]; apply N.eqb_eq in C; [contradiction|exact C]. }
  apply not_close in C. apply f_pair; [lia|exact C|intros r F; now apply fm_pair|]. intros key v w e p n' o LE P EW L' G'. cbv beta iota zeta.
  eapply fwp_eval; [exact EW|]. run. rewrite Nat.add_0_r. destruct (N.eqb_spec (nth n' text EOF) COMMA) as [E|E].
  - pose proof (at_lt _ _ _ E ltac:(discriminate)) as LT. run. rewrite Nat.min_l by lia. rewrite Nat.add_1_r.
    destruct (gap_ex text (S n') ltac:(lia)) as (m & G). eapply fwp_eval; [apply gap_ws; eassumption|]. pose proof (gap_le _ _ _ G).
    assert (NX : forall r, fails_flow_map text (S n') m r -> fails_flow_map text st n r) by (intros r F; eapply fm_comma; eauto).
    eapply fwp_mono; [apply IH; lia| |exact NX]. intros [[[items' tr'] p'] st'] n2 (L2 & F). split; [exact L2|]. auto.
  - run. eapply fwp_eval; [apply gap_ws, G'|]. apply f_imap_last; [exact G'| |].
    + intros Z. eapply fm_last_open; eauto.
    + intros NC. split.
      * intros r F. eapply fm_last_pair; eauto.
      * intros s d o2 w2 n2 P2 NR. eapply fm_last_end; eauto.
Qed.
Lemma f_inline_mapping a flow outer n : at_ n = LBRACE -> fwp (a_inline_mapping text value a) n (fun _ _ => True) (fails text flow outer n).
Proof.
  intros E. pose proof (at_lt _ _ _ E ltac:(discriminate)) as L. unfold a_inline_mapping. run. rewrite Nat.min_l by lia. rewrite Nat.add_1_r.
  destruct (gap_ex text (S n) ltac:(lia)) as (m & G). eapply fwp_eval; [apply gap_ws; eassumption|]. pose proof (gap_le _ _ _ G).
  assert (NX : forall r, fails_flow_map text (S n) m r -> fails text flow outer n r) by (intros r F; eapply fa_flow_map; eauto).
  eapply fwp_bind; [eapply fwp_mono; [apply f_imap_loop; lia|intros r n' P; exact P|exact NX]|]. intros [[[its tr] p'] st] n3 (L3 & F). run. rewrite Nat.add_0_r.
  destruct (N.eqb_spec (nth n3 text EOF) RBRACE) as [E3|E3]; cbn [negb]; run; [exact Logic.I|]. apply fwp_err. auto.
Qed.
(* a value behind a dash or colon, and the white space behind it *)
Lemma f_block {X} (k : tree unit * option bytes -> AM X) outer n Q (E : fault -> Prop) : (n <= len)%nat -> (forall r, fails_behind text outer n r -> E r) ->
  (forall v w n1 o p n', (n1 <= len)%nat -> a_or_ws text w n1 = Ok (p, n') -> (n' <= len)%nat -> puts_behind text outer n (see v) o p n' -> fwp (k (v, w)) n1 Q E) ->
  fwp (p <- a_ws text ;; r <- value (AState p false true outer) ;; k r) n Q E.
Proof.
  intros L F K. destruct (gap_ex text n L) as (m & G). eapply fwp_eval; [apply gap_ws; eassumption|]. cbv beta. pose proof (gap_le _ _ _ G) as GL.
  eapply fwp_bind; [eapply fwp_mono; [apply VH; [lia|reflexivity|discriminate]|intros a n' H; exact H|intros r H; apply F; eapply fb_value; eauto]|].
  intros [v w] n1 (L1 & [(M & T)|(c & s & kk & _ & EO & KA & CO & D & W & EW & ->)]); cbn [fst snd as_parent_indent as_inline as_prefix] in *.
  - destruct (after_ex text w n1 L1) as (p & n' & A & L'). eapply (K _ _ _ _ p n'); auto; [now apply after_eval|lia|]. eapply bh_value; eauto.
  - subst w. eapply (K _ _ _ _ (part n m) m); auto. rewrite D, EO. now apply (bh_none _ c n m s kk).
Qed.
Lemma f_seq_loop ind f : forall items ip n, (n < len)%nat -> fwp (a_seq_loop text value f ind items ip) n (fun _ _ => True) (fails_dashes text ind n).
Proof.
  induction f as [|f IH]; intros items ip n L; [exact Logic.I|]. cbn [a_seq_loop]. run. rewrite Nat.min_l by lia. rewrite Nat.add_1_r.
  apply f_block; [lia|intros r F; now apply fd_here|]. intros v w n1 o p n' L1 EW L' B. cbv beta iota zeta. eapply fwp_eval; [exact EW|]. run. rewrite Nat.add_0_r, column_indent by lia.
  destruct (_ || _) eqn:C; [exact Logic.I|].
  apply orb_false_elim in C as [C1 C2]. apply negb_false_iff in C1, C2. apply Nat.eqb_eq in C1. apply N.eqb_eq in C2. pose proof (at_lt _ _ _ C2 ltac:(discriminate)).
  eapply fwp_mono; [now apply IH|auto|]. intros r F. eapply fd_more; eauto.
Qed.
Lemma f_map_loop ind f : forall items start (key : rstr bytes) ip n, at_ n = COLON -> fwp (a_map_loop text value f ind items start key ip) n (fun _ _ => True) (fails_pairs text ind n).
Proof.
  induction f as [|f IH]; intros items start key ip n E; [exact Logic.I|]. cbn [a_map_loop]. run. rewrite Nat.add_0_r. unfold EOF in *. rewrite E. change (COLON =? COLON) with true. cbn [negb]. run.
  pose proof (at_lt _ _ _ E ltac:(discriminate)) as LT. rewrite Nat.min_l by lia. rewrite Nat.add_1_r.
  apply f_block; [lia|intros r F; now apply fp_here|]. intros v w n1 o p n' L1 EW L' B. cbv beta iota zeta. eapply fwp_eval; [exact EW|]. run. rewrite column_indent by lia.
  destruct (Nat.eqb_spec (column n') ind) as [C|C]; cbn [negb]; [|exact Logic.I].
  run. pose proof (colon_scan_at text n' L') as T. eapply fwp_eval; [eapply next_key_at, T|]. set (j := (n' + colon_scan (skipn n' text))%nat) in *. pose proof (proj1 T) as TL.
  destruct (part n' j) as [|c x] eqn:EP; [exact Logic.I|].
  assert (LJ : (n' < j)%nat). { pose proof (seg_length text n' j TL) as K. rewrite EP in K. cbn in K. lia. }
  destruct (proj2 (proj2 T)) as [EC|[EC|[]]].
  - eapply fwp_mono; [now apply IH|auto|]. intros r F. eapply fp_more; [exact B|exact C| |exact F]. apply later_key_iff. auto.
  - destruct f as [|f]; [exact Logic.I|]. cbn [a_map_loop]. run. rewrite Nat.add_0_r. unfold EOF. rewrite <- EC. change (0 =? COLON) with false. cbn [negb]. run. apply fwp_err. rewrite Nat.add_1_r.
    destruct (proj2 (no_colon_part text n' j ltac:(lia)) (proj1 (proj2 T))) as [N1 N2]. eapply fp_key; eauto; lia.
Qed.
Lemma f_mapping_or_nul a start key n s : as_inline a = false -> (start <= len)%nat -> (at_ n = COLON -> key_at text start s n) -> at_ n = COLON ->
  fwp (a_mapping_or_nul text value a start key) n (fun _ _ => True) (fails text false (as_parent_indent a) start).
Proof.
  intros AI L KA EC. unfold a_mapping_or_nul. rewrite column_indent by lia. destruct (match as_parent_indent a with Some _ => _ | _ => _ end) eqn:C; [exact Logic.I|].
  apply (fwp_bind _ _ _ (fun _ _ => True)); [|intros [its w] n' _; exact Logic.I]. eapply fwp_mono; [now apply f_map_loop|auto|]. intros r F. eapply fa_map; eauto.
  destruct (as_parent_indent a) as [o'|]; cbn; [|exact Logic.I]. apply Nat.leb_gt in C. exact C.
Qed.
Lemma f_value_body a n : (n <= len)%nat -> as_tabular a = negb (as_inline a) -> fwp (a_value_body text value a) n (fun _ _ => True) (fails text (as_inline a) (as_parent_indent a) n).
Proof.
  intros L T. unfold a_value_body. run. rewrite Nat.add_0_r. unfold EOF in *.
  destruct (_ && _) eqn:C0.
  { apply andb_prop in C0 as [C9 C3]. apply andb_prop in C9 as [C1 C2]. apply N.eqb_eq in C1. apply negb_true_iff in C3. apply is_ws_white in C2. rewrite Nat.add_1_r in C2.
    unfold a_sequence. run. rewrite column_indent by lia. pose proof (at_lt _ _ _ C1 ltac:(discriminate)). apply (fwp_bind _ _ _ (fun _ _ => True)); [|intros [its w] n' _; exact Logic.I].
    eapply fwp_mono; [now apply f_seq_loop|auto|]. rewrite C3. intros r F. now apply fa_seq. }
  assert (QQ : forall (m : AM (rstr bytes)), fwp m n (fun _ _ => True) (bad_quote text n) -> wlp m n (fun x n' => quote_at text n (rs_id x) n' /\ x = RS KOriginal (rs_id x) (part n n')) ->
    fwp (x <- m ;; p <- a_peek text 0 ;; if negb (as_inline a) && (p =? COLON) then a_mapping_or_nul text value a n x else ret (TLeaf tt (as_prefix a) (ScStr x), None)) n
      (fun _ _ => True) (fails text (as_inline a) (as_parent_indent a) n)).
  { intros m F W. eapply fwp_bind; [eapply fwp_mono; [apply (fwp_wlp _ _ _ _ _ F W)|intros x n' H; exact H|intros r B; now apply fa_quote]|].
    cbv beta. intros x n1 ((Q & _) & _). pose proof (quote_le _ _ _ _ Q) as QL. run. rewrite Nat.add_0_r. destruct (negb (as_inline a) && _) eqn:C; [|exact Logic.I].
    apply andb_prop in C as [C3 C4]. apply negb_true_iff in C3. apply N.eqb_eq in C4. rewrite C3. apply (f_mapping_or_nul a n x n1 (rs_id x)); auto. intros _. now apply ka_quoted. }
  destruct (N.eqb_spec (at_ n) DQUOTE) as [C1|C1].
  { run. apply QQ; [now apply double_fault|now apply double_printed]. }
  destruct (N.eqb_spec (at_ n) SQUOTE) as [C2|C2].
  { run. apply QQ; [now apply single_fault|now apply single_printed]. }
  destruct (N.eqb_spec (at_ n) LBRACK) as [C3|C3].
  { eapply fwp_bind; [now apply f_inline_sequence|intros; exact Logic.I]. }
  destruct (N.eqb_spec (at_ n) LBRACE) as [C4|C4].
  { eapply fwp_bind; [now apply f_inline_mapping|intros; exact Logic.I]. }
  destruct (_ || _) eqn:C5.
  { assert (A : at_ n = GT \/ at_ n = PIPE) by (apply orb_prop in C5 as [C5|C5]; apply N.eqb_eq in C5; auto).
    destruct (block_printed text n A) as (s & j & m & p & o & q & B & G & PO & JL & R). unfold a_block_at in R. cbv zeta in R. eapply fwp_eval; [exact R|]. exact Logic.I. }
  run.
  assert (NW : ~ no_word text (as_inline a) n).
  { apply orb_false_elim in C5 as [C5 C6]. apply N.eqb_neq in C5, C6. intros [I|(AI & E & W)].
    - cbn in I. unfold DQUOTE, SQUOTE, LBRACK, LBRACE, GT, PIPE in *. intuition congruence.
    - rewrite AI, E in C0. replace (n + 1)%nat with (S n) in C0 by lia. apply is_ws_white in W. rewrite W in C0. discriminate. }
  rewrite T. destruct (number_cases text (as_inline a) n L) as [(h & j & N)|NN].
  { eapply fwp_eval; [apply number_eval, N|]. exact Logic.I. }
  destruct (number_none text (as_inline a) n L NN) as (m & LM & E & NC). eapply fwp_eval; [exact E|]. cbv beta iota. destruct (as_inline a) eqn:AI; [exact Logic.I|].
  destruct (key_or_eol_at text n m ltac:(lia) ltac:(intros k K; destruct (NC k K) as (? & ? & _); auto)) as [(k & F & R)|(j & W & R)].
  - eapply fwp_eval; [exact R|]. cbv beta iota. destruct F as (F1 & F2 & F3 & F4 & F5). apply (f_mapping_or_nul a n _ k (part n k)); auto.
    intros _. now apply ka_plain.
  - eapply fwp_eval; [exact R|]. exact Logic.I.
Qed.
End Value.
Lemma fuel_header n : forall f p, (n <= len)%nat -> match a_sod_loop text f p n with Err _ _ _ | Hang => False | _ => True end.
Proof.
  intros f. revert n. induction f as [|f IH]; intros n p L; [exact Logic.I|]. cbn [a_sod_loop]. unfold bind at 1, a_peek at 1. unfold bind at 1, a_peek at 1. unfold bind at 1, a_peek at 1.
  destruct (_ =? PERCENT).
  - destruct (line_find text n L) as (k & K & R). rewrite (bind_ok _ _ _ _ _ R). pose proof (proj1 K). destruct (gap_ex text k ltac:(lia)) as (m & G).
    rewrite (bind_ok _ _ _ _ _ (gap_ws _ _ _ G)). apply gap_le in G. apply IH. lia.
  - destruct (_ && _); [|exact Logic.I]. unfold bind at 1, a_bump. destruct (gap_ex text (Nat.min (n + 3) len) ltac:(lia)) as (m & G). now rewrite (gap_ws _ _ _ G).
Qed.
Lemma f_value f : forall a n, (n <= len)%nat -> as_tabular a = negb (as_inline a) -> (as_inline a = true -> as_parent_indent a = None) ->
  fwp (a_value text f a) n (vput text a n) (fails text (as_inline a) (as_parent_indent a) n).
Proof.
  induction f as [|f IH]; intros a n L T P; [exact Logic.I|]. cbn [a_value]. eapply fwp_mono; [apply fwp_wlp; [apply f_value_body; [exact IH|exact L|exact T]|apply s_value_body; [apply s_value|exact L|exact T|exact P]]| |auto].
  cbv beta. intros r n' (H & _). exact H.
Qed.
Theorem fails_sound :
  match a_parse text with Err x y k => wrong text (bad k x y) | Hang => wrong text stuck | _ => True end.
Proof.
  assert (W : fwp (a_parse_m text) 0 (fun _ _ => True) (wrong text)).
  { unfold a_parse_m. destruct (gap_ex text 0 ltac:(lia)) as (n & G). pose proof (gap_le _ _ _ G) as GL.
    pose proof (s_sod_loop text (S len) (part 0 n) n ltac:(lia)) as H. pose proof (fuel_header n) as FH.
    assert (SD : a_start_of_document text O = a_sod_loop text (S len) (part 0 n) n) by (unfold a_start_of_document; now rewrite (bind_ok _ _ _ _ _ (gap_ws _ _ _ G))).
    unfold fwp, bind at 1. rewrite SD. unfold wlp in H. specialize (FH (S len) (part 0 n) ltac:(lia)). destruct (a_sod_loop text (S len) (part 0 n) n) as [[p i]|? ? ?| | |]; try contradiction; [|exact Logic.I..].
    destruct H as (L1 & HD). change (fwp ('(root, suffix) <- a_value text (S len) (AState p false true None);; suffix <- a_or_ws text suffix;; eof <- a_eof text;; if negb eof then n0 <- a_get;; a_err n0 len ExpectedEof else ret (root, suffix)) i (fun _ _ => True) (wrong text)).
    eapply fwp_bind; [eapply fwp_mono; [apply f_value; [exact L1|reflexivity|discriminate]|intros r n' V; exact V|intros r F; eapply wr_value; eauto]|].
    intros [t' w] n2 (L2 & V). cbn [as_inline as_parent_indent as_prefix fst snd] in V. destruct V as [(M & TP)|(o & s & k & _ & E & _)]; [|discriminate].
    destruct (after_ex text w n2 L2) as (q & n3 & A & L3). eapply fwp_eval; [apply after_eval; exact A|]. run. destruct (Nat.eqb_spec n3 len) as [E|E]; cbn [negb]; run; [exact Logic.I|].
    apply fwp_err. eapply wr_more; eauto. lia. }
  unfold fwp in W. unfold a_parse. destruct (a_parse_m text O) as [[[t' s'] n]|? ? ?| | |]; auto.
Qed.
End Sound.
