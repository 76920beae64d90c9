(* Properties of scalars as text, continued: C17, C19. *)
From Coq Require Import String.
From Coq Require Import List NArith ZArith Bool Arith Lia.
From Verif Require Import Bytes Utf8 Data Parser Render Tree Abs Refine Utf8Props Scan Num Api Ctx Edit Built Reads ReadsSound
  Shown Plain Grammar Laid GrammarSound Tests Refuted PropsParse PropsEdit PropsValue PropsScalar.
Import ListNotations.
Local Open Scope N_scope.
Local Notation text := Utf8Props.text.

(* ---- C17 ---- *)
(* A single quote or a control character. *)
Definition wants_double (s : bytes) : Prop := In SQUOTE s \/ (exists c, In c s /\ (c < 32 \/ c = 127)) \/
  (exists a c r, s = a ++ [194; c] ++ r /\ 128 <= c <= 159).
Definition wants_single (s : bytes) : Prop := In COLON s \/ digit (hd EOF s) \/ s = b "true" \/ s = b "false" \/ s = b "null".
Lemma wants_double_app ch s : uchar ch -> text s -> (wants_double (ch ++ s) <-> wants_double ch \/ wants_double s).
Proof.
  intros U T. unfold wants_double. split.
  - intros [H|[(c & H & R)|(a & c & r & H & R)]].
    + apply in_app_or in H. tauto.
    + apply in_app_or in H as [H|H]; [left|right]; right; left; eauto.
    + assert (X : text ([] ++ 194 :: c :: r) -> True) by auto. clear X.
      assert (TA : text a /\ text (194 :: c :: r)).
      { apply text_split; [reflexivity|]. change (a ++ 194 :: c :: r) with (a ++ [194; c] ++ r). rewrite <- H. now constructor. }
      destruct TA as [TA TR]. assert (UC : uchar [194; c]).
      { apply uchar_2; [lia|]. unfold is_cont. apply between_true; lia. }
      inversion TA as [E|ch' a' U' T' E]; subst a.
      * cbn [app] in H. change (194 :: c :: r) with ([194; c] ++ r) in H. pose proof (uchar_prefix _ _ _ _ U UC H). subst ch.
        left. right; right. exists [], c, []. auto.
      * rewrite <- app_assoc in H. pose proof (uchar_prefix _ _ _ _ U U' H). subst ch'. apply app_inv_head in H. subst s.
        right. right; right. exists a', c, r. auto.
  - intros [[H|[(c & H & R)|(a & c & r & -> & R)]]|[H|[(c & H & R)|(a & c & r & -> & R)]]].
    + left. apply in_or_app. auto.
    + right; left. exists c. split; [apply in_or_app; auto|exact R].
    + right; right. exists a, c, (r ++ s). rewrite <- !app_assoc. auto.
    + left. apply in_or_app. auto.
    + right; left. exists c. split; [apply in_or_app; auto|exact R].
    + right; right. exists (ch ++ a), c, r. rewrite <- !app_assoc. auto.
Qed.
Lemma control_one c : char_is_control [c] = is_ascii_control c.
Proof. destruct c as [|p]; [reflexivity|]. repeat (destruct p as [p|p|]; try reflexivity). Qed.
Lemma control_more c c1 ch : char_is_control (c :: c1 :: ch) = true -> c = 194 /\ ch = [] /\ between 128 159 c1 = true.
Proof.
  intros K. destruct (N.eq_dec c 194) as [->|N].
  - cbn [char_is_control] in K. destruct ch; [auto|discriminate].
  - exfalso. cbn [char_is_control] in K. destruct c as [|p]; [discriminate|].
    repeat (destruct p as [p|p|]; try discriminate; try (now elim N)).
Qed.
(* What the loop tests on one character. *)
Lemma uchar_double ch : uchar ch -> (wants_double ch <-> beq ch [SQUOTE] = true \/ char_is_control ch = true).
Proof.
  intros U. destruct ch as [|c ch]; [contradiction|]. pose proof (uchar_cont _ _ U) as (NC & F & _ & A & H).
  destruct ch as [|c1 ch].
  - unfold wants_double. rewrite beq_iff. rewrite control_one. unfold is_ascii_control. rewrite orb_true_iff, N.ltb_lt, N.eqb_eq. split.
    + intros [[->|[]]|[(c' & [->|[]] & R)|([|? [|? ?]] & c' & r & E & _)]]; auto; discriminate.
    + intros [E|R]; [injection E as ->; left; now left|right; left; exists c; split; [now left|exact R]].
  - specialize (H ltac:(discriminate)).
    assert (CB : forall x, In x (c :: c1 :: ch) -> 128 <= x).
    { intros x [->|I]; [exact H|]. rewrite Forall_forall in F. apply F in I. unfold is_cont, between in I. apply andb_prop in I as [I _]. now apply N.leb_le in I. }
    unfold wants_double. split.
    + intros [I|[(x & I & R)|(a & x & r & E & R)]].
      * apply CB in I. unfold SQUOTE in I. lia.
      * apply CB in I. lia.
      * right. destruct a as [|a0 a].
        { injection E as -> -> ->. assert (UC : uchar [194; x]). { apply uchar_2; [lia|]. unfold is_cont. apply between_true; lia. }
          assert (X : 194 :: x :: r = [194; x]). { apply (uchar_prefix (194 :: x :: r) [194; x] [] r U UC). now rewrite app_nil_r. }
          injection X as ->. cbn. apply between_true; lia. }
        injection E as <- E. rewrite Forall_forall in F. assert (I : In 194 (c1 :: ch)) by (rewrite E; apply in_or_app; right; now left).
        apply F in I. discriminate.
    + intros [B|K]; [apply beq_iff in B; discriminate|]. right; right. exists [], c1, ch.
      apply control_more in K as (-> & -> & B).
      split; [reflexivity|]. unfold between in B. apply andb_prop in B as [B1 B2]. apply N.leb_le in B1, B2. lia.
Qed.
Lemma colon_char ch s : uchar ch -> (In COLON (ch ++ s) <-> beq ch [COLON] = true \/ In COLON s).
Proof.
  intros U. rewrite in_app_iff, beq_iff. destruct ch as [|c ch]; [contradiction|].
  pose proof (uchar_cont _ _ U) as (NC & F & _ & A & H). split.
  - intros [I|I]; [|auto]. left. destruct ch as [|c1 ch]; [destruct I as [->|[]]; reflexivity|]. specialize (H ltac:(discriminate)).
    destruct I as [->|I]; [unfold COLON in H; lia|]. rewrite Forall_forall in F. apply F in I. discriminate.
  - intros [E|I]; [rewrite E; left; now left|auto].
Qed.
Lemma digit_char ch s : uchar ch -> ((match ch with [c] => is_digit c | _ => false end) = true <-> digit (hd EOF (ch ++ s))).
Proof.
  intros U. destruct ch as [|c ch]; [contradiction|]. pose proof (uchar_cont _ _ U) as (NC & F & _ & A & H). cbn [app hd].
  destruct ch as [|c1 ch]; [apply digit_iff|]. specialize (H ltac:(discriminate)). unfold digit. split; [discriminate|lia].
Qed.
Lemma detect_loop_spec s : text s -> forall first k, k = KBare \/ k = KSingle -> let r := detect_loop first k (chars s) in
  (r = KDouble /\ wants_double s) \/
  (r = KSingle /\ ~ wants_double s /\ (k = KSingle \/ In COLON s \/ first = true /\ digit (hd EOF s))) \/
  (r = KBare /\ k = KBare /\ ~ wants_double s /\ ~ In COLON s /\ ~ (first = true /\ digit (hd EOF s))).
Proof.
  induction 1 as [|ch s U T IH]; intros first k K r.
  - assert (ND : ~ wants_double []). { intros [[]|[(c & [] & _)|([|] & c & r0 & E & _)]]; discriminate. }
    cbn in r. subst r. right. destruct K as [-> | ->]; [right|left; auto].
    split; [auto|]. split; [auto|]. split; [exact ND|]. split; [intros []|]. intros [_ X]. unfold digit, EOF in X. cbn in X. lia.
  - subst r. rewrite (chars_char _ _ U). cbn [detect_loop]. rewrite (wants_double_app _ _ U T), (uchar_double _ U), (colon_char _ _ U), <- (digit_char _ s U).
    set (dg := match ch with [c] => is_digit c | _ => false end).
    assert (DS : dg = true -> beq ch [SQUOTE] = false /\ char_is_control ch = false /\ beq ch [COLON] = false).
    { intros E. subst dg. destruct ch as [|c [|]]; try discriminate. apply digit_iff in E. unfold digit in E. repeat split.
      - apply not_true_is_false. rewrite beq_iff. intros X. injection X as ->. unfold SQUOTE in E. lia.
      - rewrite control_one. unfold is_ascii_control. apply orb_false_iff. split; [apply N.ltb_ge|apply N.eqb_neq]; lia.
      - apply not_true_is_false. rewrite beq_iff. intros X. injection X as ->. unfold COLON in E. lia. }
    pose proof (IH false KSingle (or_intror eq_refl)) as I1. pose proof (IH false k K) as I2. cbn zeta in I1, I2.
    destruct (first && dg) eqn:FD.
    + apply andb_prop in FD as [-> D]. destruct (DS D) as (E1 & E2 & E3). rewrite E1, E2, E3. clear I2.
      destruct I1 as [[-> I]|[(-> & I & _)|(_ & X & _)]]; [left; auto|right; left|discriminate]. intuition congruence.
    + clear DS. assert (NFD : ~ (first = true /\ dg = true)) by (intros [-> ->]; discriminate).
      destruct (beq ch [SQUOTE]) eqn:E1; [left; auto|]. destruct (beq ch [COLON]) eqn:E2.
      * assert (E3 : char_is_control ch = false). { apply beq_iff in E2. subst ch. reflexivity. } rewrite E3. clear I2.
        destruct I1 as [[-> I]|[(-> & I & _)|(_ & X & _)]]; [left; auto|right; left|discriminate]. intuition congruence.
      * destruct (char_is_control ch) eqn:E3; [left; auto|]. clear I1.
        destruct I2 as [[-> I]|[(-> & I & J)|(-> & J & I & I' & _)]]; [left; auto|right; left|right; right]; intuition congruence.
Qed.
Lemma detect_spec s : text s ->
  (detect s = KDouble /\ wants_double s) \/ (detect s = KSingle /\ ~ wants_double s /\ wants_single s) \/
  (detect s = KBare /\ ~ wants_double s /\ ~ wants_single s).
Proof.
  intros T. unfold detect, wants_single. destruct (beq s kw_true || beq s kw_false || beq s kw_null) eqn:K.
  - right; left. split; [reflexivity|]. rewrite !orb_true_iff, !beq_iff in K. unfold kw_true, kw_false, kw_null in K.
    split; [|tauto]. assert (F : Forall (fun c => 97 <= c <= 122) s).
    { destruct K as [[-> | ->]| ->]; repeat constructor; vm_compute; discriminate. }
    rewrite Forall_forall in F. intros [I|[(c & I & R)|(a & c & r & -> & R)]].
    + apply F in I. unfold SQUOTE in I. lia.
    + apply F in I. lia.
    + assert (I : In 194 (a ++ [194; c] ++ r)) by (apply in_or_app; right; now left). apply F in I. lia.
  - assert (N : s <> b "true" /\ s <> b "false" /\ s <> b "null").
    { rewrite <- (beq_iff s (b "true")), <- (beq_iff s (b "false")), <- (beq_iff s (b "null")). unfold kw_true, kw_false, kw_null in K.
      repeat split; intros X; rewrite X, ?orb_true_r in K; discriminate. }
    destruct N as (N1 & N2 & N3). pose proof (detect_loop_spec s T true KBare (or_introl eq_refl)) as H. cbn zeta in H. intuition (try congruence; auto).
Qed.
(* The strings that read back. Without quotes: those that start no other construct and do not
   look like a null, a bool or a number. *)
Definition bare_reads (s : bytes) : Prop := (s = [] \/ plain_start s) /\ doc_start s /\ s <> b "~" /\
  ~ spelled s (b "null") /\ ~ spelled s (b "true") /\ ~ spelled s (b "false") /\ forall y h, ~ number_line s y h.
Definition settable (s : bytes) : Prop :=
  (wants_double s /\ ~ In DQUOTE s /\ ~ In BACKSLASH s) \/ (~ wants_double s /\ (wants_single s \/ bare_reads s)).
Lemma quoted_reads hash x s : quoted_text x s -> exists doc', from_slice hash x = Ok doc' /\
    (no_collision hash (doc_data doc') -> as_bstr (doc_data doc') (doc_root doc') = Ok (Some s) /\ write_to doc' = Ok x).
Proof.
  intros Q. destruct (quoted_doc hash x s [] Q lay_nil) as (doc' & F & G). rewrite app_nil_r in *.
  exists doc'. split; [exact F|]. intros NC. destruct (G NC) as [S P]. split; [|exact P].
  inversion S as [| | |? ? A| |]; subst. exact (proj1 (proj2 (any_accessors _ _ _ A ltac:(discriminate)))).
Qed.
(* Missing from C17: strings outside settable, see C17_set_string_refuted. *)
Theorem C17_set_string_partial : forall hash doc id s r d' out,
  built hash doc -> value_of doc id -> no_collision hash d' -> utf8 s = true -> settable s ->
  run hash id (SetString s) (doc_data doc) = Ok (r, d') -> value_write_to d' id = Ok out ->
  exists doc', from_slice hash out = Ok doc' /\
    (no_collision hash (doc_data doc') -> as_bstr (doc_data doc') (doc_root doc') = Ok (Some s) /\ write_to doc' = Ok out).
Proof.
  intros hash doc id s r d' out B V N U S E W. apply utf8_text in U.
  assert (WE : value_write_to d' id = Ok (wscalar (ScStr (RS (detect s) s s)))).
  { destruct (edit_setup _ _ _ _ _ _ _ _ B V E N) as (c & v & v' & suf & ST).
    pose proof (st_eff ST) as F. rewrite <- (st_id' ST). rewrite (st_vw' ST v' (sub_plug c v')). f_equal.
    apply set_effect in F as (sc & A & _ & ->); [|exact Logic.I]. cbn in A. injection A as <-. reflexivity. }
  rewrite WE in W. injection W as <-. clear WE.
  destruct (detect_spec s U) as [[D WD]|[(D & WD & WS)|(D & WD & WS)]].
  - assert (NN : ~ In DQUOTE s /\ ~ In BACKSLASH s) by (unfold settable in S; tauto).
    rewrite D. apply quoted_reads. apply qt_double, esc_double_content; tauto.
  - rewrite D. apply quoted_reads, esc_single_quoted.
  - assert (BR : bare_reads s) by (unfold settable in S; tauto). destruct BR as (PS & DS & N1 & N2 & N3 & N4 & N5).
    rewrite D. cbn [wscalar rs_kind].
    assert (PD : plain_doc s []).
    { split; [exact PS|]. split; [|split; [exact DS|split; [now left|constructor]]]. split.
      - intros I. apply WD. right; left. exists NEWLINE. split; [exact I|left; reflexivity].
      - intros a c ->. exfalso. apply WS. left. apply in_or_app. right. now left. }
    destruct (C18_plain_line hash s [] PD) as (doc' & F & G). rewrite app_nil_r in *. exists doc'. split; [exact F|].
    intros NC. destruct (G NC) as (P & _ & _ & _ & _ & A). cbn zeta in A. destruct (A s) as [_ A'].
    split; [|exact P]. exact (proj1 (proj2 (any_accessors _ _ _ (A' ltac:(auto 8)) ltac:(discriminate)))).
Qed.
Print Assumptions C17_set_string_partial.
Example C17_case : Forall (fun s => settable s /\ reread_auto s = Some (Some s))
  [b "a [""\"; b "1a"; b "true"; b "k: [""\"; b "it's" ++ [NEWLINE; 127; 0]].
Proof.
  assert (ND : forall s, forallb (fun c => negb (c <? 32) && negb (existsb (N.eqb c) [127; SQUOTE; 194])) s = true -> ~ wants_double s).
  { intros s F. rewrite forallb_forall in F. intros [I|[(c & I & R)|(a & c & r & -> & R)]].
    - apply F in I. discriminate.
    - apply F, andb_prop in I as [I1 I2]. destruct R as [R| ->]; [|discriminate]. apply N.ltb_lt in R. now rewrite R in I1.
    - assert (I : In 194 (a ++ [194; c] ++ r)) by (apply in_or_app; right; now left). apply F in I. discriminate. }
  repeat (apply Forall_cons; [split; [|vm_compute; reflexivity]|]); [..|apply Forall_nil].
  - right. split; [apply ND; vm_compute; reflexivity|]. right.
    assert (SP : forall kw, 97 < hd EOF kw < 129 -> ~ spelled (b "a [""\") kw).
    { intros kw H X. inversion X as [|x y l l' Q]; subst. cbn in *. lia. }
    split; [right; apply plain_start_checked; vm_compute; reflexivity|].
    split; [split; intros (r & X); discriminate|]. split; [discriminate|].
    split; [apply SP; vm_compute; auto|]. split; [apply SP; vm_compute; auto|]. split; [apply SP; vm_compute; auto|].
    intros y h (bl & E & _ & U). destruct (number_hd _ _ U) as (c & r & -> & H). injection E as <- _. unfold digit, DOT, DASH in H. lia.
  - right. split; [apply ND; vm_compute; reflexivity|]. left. right; left. unfold digit. cbn. lia.
  - right. split; [apply ND; vm_compute; reflexivity|]. left. right; right; left. reflexivity.
  - right. split; [apply ND; vm_compute; reflexivity|]. left. left. vm_compute. auto.
  - left. split; [left; vm_compute; auto|]. split; vm_compute; intuition discriminate.
Qed.

(* ---- C19 ---- *)
(* Every supported escape means what YAML says. Missing from C19: the escaped backslash and the
   escaped double quote, see C19_backslash_refuted and C19_quote_refuted. *)
Theorem C19_decodes_partial : forall hash y v post, dq_content y v -> layout post ->
  exists doc, from_slice hash (b """" ++ y ++ b """" ++ post) = Ok doc /\
    (no_collision hash (doc_data doc) -> as_any (doc_data doc) (doc_root doc) = Ok (AString v) /\
       write_to doc = Ok (b """" ++ y ++ b """" ++ post)).
Proof.
  intros hash y v post D L. destruct (quoted_doc hash _ v post (qt_double y v D) L) as (doc & F & G).
  rewrite <- !app_assoc in *. exists doc. split; [exact F|]. intros NC. destruct (G NC) as [S P]. split; [|exact P].
  now inversion S.
Qed.
Print Assumptions C19_decodes_partial.

Section Bad.
Variable input : bytes.
Lemma bad_digits start err : forall count pre r c, input = pre ++ r ->
  (exists ds q n, r = ds ++ q /\ length ds = count /\ hex_number c ds = Some n /\
     a_unescape_digits input start count err c (length pre) = Ok (n, length (pre ++ ds))) \/
  (exists n, a_unescape_digits input start count err c (length pre) = Err start n err).
Proof.
  induction count as [|count IH]; intros pre r c E.
  - left. exists [], r, c. rewrite app_nil_r. auto.
  - cbn [a_unescape_digits]. rewrite (bind_ok _ _ _ _ _ (r_peek0 _ _ _ E)).
    destruct r as [|d r]; cbn [hd].
    + right. exists (Nat.min (length pre + 1) (length input)). reflexivity.
    + destruct (hex_value d) as [v|] eqn:H.
      * rewrite (bind_ok _ _ _ _ _ (r_bump1 _ pre d r E)).
        destruct (IH (pre ++ [d]) r (N.lor (N.shiftl c 4) v)) as [(ds & q & n & -> & L & X & Y)|[n Y]]; [now rewrite <- app_assoc| |].
        { left. exists (d :: ds), q, n. split; [reflexivity|]. split; [cbn; now rewrite L|]. split; [cbn [hex_number]; now rewrite H|].
          etransitivity; [exact Y|]. now rewrite <- app_assoc. }
        right. exists n. exact Y.
      * right. exists (Nat.min (length pre + 1) (length input)). reflexivity.
Qed.
Lemma bad_unescape start pre r : input = pre ++ r -> (forall e x q, r = e ++ q -> ~ escape e x) ->
  exists n k, a_unescape input start (length pre) = Err start n k /\ In k [BadEscape; BadHexEscape; BadUnicodeEscape].
Proof.
  intros E N. unfold a_unescape. rewrite (bind_ok _ _ _ _ _ (r_peek0 _ _ _ E)).
  destruct (escape_char (hd EOF r)) as [o|] eqn:C.
  { destruct r as [|c r]; [discriminate|]. elim (N [c] [o] r eq_refl). now constructor. }
  assert (G : forall (c : BinNums.N) count err, In err [BadEscape; BadHexEscape; BadUnicodeEscape] -> hd EOF r = c -> c <> EOF -> (forall (ds : bytes) n, length ds = count -> hex_number 0 ds = Some n -> is_scalar_value n = true ->
    escape (c :: ds) (encode_utf8 n)) -> exists n k, (a_bump input 1 ;;; a_unescape_unicode input start count err) (length pre) = Err start n k /\ In k [BadEscape; BadHexEscape; BadUnicodeEscape]).
  { intros c count err IE H Z X. destruct r as [|c' r]; [now elim Z|]. cbn in H. subst c'. rewrite (bind_ok _ _ _ _ _ (r_bump1 _ pre c r E)).
    unfold a_unescape_unicode, bind.
    destruct (bad_digits start err count (pre ++ [c]) r 0) as [(ds' & q & n & -> & L & H & Y)|[n Y]]; [now rewrite <- app_assoc| |].
    - rewrite Y. destruct (is_scalar_value n) eqn:V; [|do 2 eexists; split; [reflexivity|exact IE]].
      elim (N (c :: ds') (encode_utf8 n) q eq_refl). now apply X.
    - rewrite Y. do 2 eexists; split; [reflexivity|exact IE]. }
  destruct (N.eqb_spec (hd EOF r) 120) as [H|_]; [apply (G 120); [cbn; auto|exact H|discriminate|intros; now apply esc_hex]|].
  destruct (N.eqb_spec (hd EOF r) 117) as [H|_]; [apply (G 117); [cbn; auto|exact H|discriminate|intros; now apply esc_uni]|].
  do 2 eexists; split; [reflexivity|cbn; auto].
Qed.
Lemma bad_dqe y v r : dqbody y v -> (forall e x q, r = e ++ q -> ~ escape e x) -> forall f pre acc, input = pre ++ y ++ BACKSLASH :: r ->
  (length y < f)%nat -> exists n k, a_dqe_loop input f acc (length pre) = Err (length (pre ++ y)) n k /\ In k [BadEscape; BadHexEscape; BadUnicodeEscape].
Proof.
  intros D NE. induction D as [|c y v N1 N2 N3 _ IH|e x y v X _ IH]; intros f pre acc E L; destruct f as [|f]; cbn [length] in L; try lia; cbn [a_dqe_loop].
  - rewrite (bind_ok _ _ _ _ _ (r_peek0 _ _ _ E)). cbn [app hd]. change (BACKSLASH =? DQUOTE) with false. change (BACKSLASH =? EOF) with false.
    rewrite N.eqb_refl. cbn [orb]. rewrite (bind_ok _ _ _ _ _ (r_get _)).
    rewrite (bind_ok _ _ _ _ _ (r_bump1 _ pre BACKSLASH r E)). rewrite app_nil_r.
    destruct (bad_unescape (length pre) (pre ++ [BACKSLASH]) r) as (n & k & Y & IK); [now rewrite <- app_assoc|exact NE|].
    exists n, k. split; [|exact IK]. unfold bind, byte, bytes in *. now rewrite Y.
  - rewrite (bind_ok _ _ _ _ _ (r_peek0 _ _ _ E)). cbn [app hd].
    apply N.eqb_neq in N1, N2, N3. rewrite N1, N2, N3. cbn [orb].
    rewrite (bind_ok _ _ _ _ _ (r_bump1 _ pre c _ E)).
    replace (pre ++ c :: y) with ((pre ++ [c]) ++ y) by now rewrite <- app_assoc.
    apply IH; [now rewrite <- app_assoc|lia].
  - rewrite (bind_ok _ _ _ _ _ (r_peek0 _ _ _ E)). cbn [app hd]. change (BACKSLASH =? DQUOTE) with false. change (BACKSLASH =? EOF) with false.
    rewrite N.eqb_refl. cbn [orb]. rewrite (bind_ok _ _ _ _ _ (r_get _)).
    rewrite (bind_ok _ _ _ _ _ (r_bump1 _ pre BACKSLASH ((e ++ y) ++ BACKSLASH :: r) E)).
    assert (E1 : input = (pre ++ [BACKSLASH]) ++ e ++ y ++ BACKSLASH :: r) by (rewrite <- !app_assoc; rewrite E; cbn; now rewrite <- app_assoc).
    rewrite (bind_ok _ _ _ _ _ (r_unescape _ _ _ _ _ _ X E1)).
    replace (pre ++ BACKSLASH :: e ++ y) with (((pre ++ [BACKSLASH]) ++ e) ++ y) by now rewrite <- !app_assoc.
    apply IH; [now rewrite <- !app_assoc in *|]. rewrite app_length in L. lia.
Qed.
Lemma bad_scan y v r : dqbody y v -> exists y0 y1 v1, y = y0 ++ y1 /\ dqbody y1 v1 /\
  dq_scan (y ++ BACKSLASH :: r) = (length y0, true).
Proof.
  induction 1 as [|c y v N1 N2 N3 D IH|e x y v X D IH].
  - exists [], [], []. repeat split; auto. constructor.
  - destruct IH as (y0 & y1 & v1 & -> & D1 & Q). exists (c :: y0), y1, v1. repeat split; auto.
    cbn [app dq_scan]. apply N.eqb_neq in N1, N2, N3. rewrite N1, N2, N3. cbn [orb].
    rewrite Q. reflexivity.
  - exists [], (BACKSLASH :: e ++ y), (x ++ v). repeat split; auto. now constructor.
Qed.
Lemma bad_dq y v r : dqbody y v -> (forall e x q, r = e ++ q -> ~ escape e x) -> forall pre, input = pre ++ DQUOTE :: y ++ BACKSLASH :: r ->
  exists n k, a_double_quoted input (length pre) = Err (length (pre ++ DQUOTE :: y)) n k /\ In k [BadEscape; BadHexEscape; BadUnicodeEscape].
Proof.
  intros D NE pre E. unfold a_double_quoted.
  rewrite (bind_ok _ _ _ _ _ (r_get _)). rewrite (bind_ok _ _ _ _ _ (r_bump1 _ _ _ _ E)). rewrite (bind_ok _ _ _ _ _ (r_get _)).
  assert (E1 : input = (pre ++ [DQUOTE]) ++ y ++ BACKSLASH :: r) by (rewrite E, <- !app_assoc; reflexivity).
  rewrite (bind_ok _ _ _ _ _ (r_rest _ _ _ E1)).
  destruct (bad_scan y v r D) as (y0 & y1 & v1 & -> & D1 & Q). unfold byte, bytes in *. rewrite Q. clear Q.
  assert (E2 : input = (pre ++ [DQUOTE]) ++ y0 ++ y1 ++ BACKSLASH :: r) by (rewrite E1, <- !app_assoc; reflexivity).
  rewrite (bind_ok _ _ _ _ _ (r_bump _ _ _ _ _ E2 eq_refl)).
  assert (E3 : input = ((pre ++ [DQUOTE]) ++ y0) ++ y1 ++ BACKSLASH :: r) by (rewrite E2, <- !app_assoc; reflexivity).
  unfold a_double_quoted_escaped. rewrite (bind_ok _ _ _ _ _ (r_string _ _ _ _ E2)).
  destruct (bad_dqe y1 v1 r D1 NE (S (length input)) _ y0 E3) as (n & k & Y & IK).
  { rewrite E3, !app_length. lia. }
  exists n, k. split; [|exact IK]. unfold bind, byte, bytes in *. rewrite Y. now rewrite <- !app_assoc.
Qed.
End Bad.
Lemma bad_parse y v r : dqbody y v -> (forall e x q, r = e ++ q -> ~ escape e x) ->
  exists n k, a_parse (DQUOTE :: y ++ BACKSLASH :: r) = Err (S (length y)) n k /\ In k [BadEscape; BadHexEscape; BadUnicodeEscape].
Proof.
  intros D NE. set (input := DQUOTE :: y ++ BACKSLASH :: r).
  destruct (bad_dq input y v r D NE [] eq_refl) as (n & k & Y & IK). exists n, k. split; [|exact IK].
  unfold a_parse, a_parse_m. assert (E : input = [] ++ [] ++ input) by reflexivity.
  assert (W : a_start_of_document input O = Ok ([], O)).
  { unfold a_start_of_document. change O with (length (@nil N)).
    assert (C : cut [] input) by now apply cut_nil.
    rewrite (bind_ok _ _ _ _ _ (r_ws _ _ _ _ E C)). reflexivity. }
  rewrite (bind_ok _ _ _ _ _ W).
  assert (V : a_value input (S (length input)) (AState [] false true None) O = Err (S (length y)) n k).
  { cbn [a_value]. unfold a_value_body. change O with (length (@nil N)).
    rewrite (bind_ok _ _ _ _ _ (r_peek0 _ _ _ E)), (bind_ok _ _ _ _ _ (r_peek _ _ _ 1 E)). cbn [app].
    change (hd EOF input) with DQUOTE. change (DQUOTE =? DASH) with false. change (DQUOTE =? DQUOTE) with true. cbn [andb].
    rewrite (bind_ok _ _ _ _ _ (r_get _)). unfold bind, byte, bytes in *. now rewrite Y. }
  unfold bind, byte, bytes in *. now rewrite V.
Qed.
Lemma escape_yaml e x : escape e x -> yaml_escape e x \/ e = [BACKSLASH].
Proof.
  intros [c o H|ds c L H V|ds c L H V].
  - unfold escape_char in H.
    repeat match type of H with (if c =? ?k then _ else _) = _ => destruct (N.eqb_spec c k) as [->|_]; [injection H as <-; try (left; constructor; fail); right; reflexivity|] end.
    discriminate.
  - destruct ds as [|d1 [|d2 [|]]]; try discriminate. left. cbn [hex_number] in H.
    destruct (hex_value d1) as [v1|] eqn:H1; [|discriminate]. destruct (hex_value d2) as [v2|] eqn:H2; [|discriminate].
    apply hex_value_iff in H1, H2. pose proof (hex_small _ _ H1). pose proof (hex_small _ _ H2).
    rewrite !shift_lor in H by assumption. match type of H with Some ?z = Some c => assert (X : z = c) by congruence end. clear H.
    assert (c = 16 * v1 + v2) as -> by lia. apply (ye_x d1 d2 v1 v2); auto. apply encode_of. lia.
  - destruct ds as [|d1 [|d2 [|d3 [|d4 [|]]]]]; try discriminate. left. cbn [hex_number] in H.
    destruct (hex_value d1) as [v1|] eqn:H1; [|discriminate]. destruct (hex_value d2) as [v2|] eqn:H2; [|discriminate].
    destruct (hex_value d3) as [v3|] eqn:H3; [|discriminate]. destruct (hex_value d4) as [v4|] eqn:H4; [|discriminate].
    apply hex_value_iff in H1, H2, H3, H4. pose proof (hex_small _ _ H1). pose proof (hex_small _ _ H2). pose proof (hex_small _ _ H3). pose proof (hex_small _ _ H4).
    rewrite !shift_lor in H by assumption. match type of H with Some ?z = Some c => assert (X : z = c) by congruence end. clear H.
    assert (c = 4096 * v1 + 256 * v2 + 16 * v3 + v4) as -> by lia. clear X.
    apply (ye_u d1 d2 d3 d4 v1 v2 v3 v4 (4096 * v1 + 256 * v2 + 16 * v3 + v4)); auto.
    + intros [S1 S2]. unfold is_scalar_value in V. apply orb_prop in V as [V|V]; [apply N.ltb_lt in V; lia|].
      apply andb_prop in V as [V _]. apply N.ltb_lt in V. lia.
    + apply encode_of. lia.
Qed.
(* Anything else after a backslash (other than a second one) is an error at the backslash: in
   particular a surrogate, too few digits, and the end of the input. *)
Theorem C19_rejects : forall hash y v r, dq_content y v -> (forall e x q, r = e ++ q -> ~ yaml_escape e x) -> (forall q, r <> b "\" ++ q) ->
  exists n k, from_slice hash (b """" ++ y ++ b "\" ++ r) = Err (1 + length y) n k /\ In k [BadEscape; BadHexEscape; BadUnicodeEscape].
Proof.
  intros hash y v r D NE NB. destruct (bad_parse y v r (dq_body _ _ D)) as (n & k & P & IK).
  { intros e x q E X. apply escape_yaml in X as [X| ->]; [now apply (NE e x q)|now apply (NB q)]. }
  exists n, k. split; [|exact IK]. pose proof (refine hash (DQUOTE :: y ++ BACKSLASH :: r)) as R. rewrite P in R.
  change (b """" ++ y ++ b "\" ++ r) with (DQUOTE :: y ++ BACKSLASH :: r).
  destruct (from_slice hash (DQUOTE :: y ++ BACKSLASH :: r)); try contradiction. cbn in R. destruct R as ([->|(_ & -> & _)] & <- & <-); [reflexivity|]. cbn in IK. intuition discriminate.
Qed.
Print Assumptions C19_rejects.
Example C19_case :
  at_path (load (b """\u00e9\u20AC\x41\n\e""")) [] as_bstr = Some (Some [195; 169; 226; 130; 172; 65; 10; 27]) /\
  dq_content (b "\u20AC\n.") [226; 130; 172; 10; 46] /\
  load (b """a\ud800""") = Err 2 8 BadUnicodeEscape /\ load (b """a\x4""") = Err 2 6 BadHexEscape /\
  (forall e x q, b "ud800""" = e ++ q -> ~ yaml_escape e x).
Proof.
  split; [vm_compute; reflexivity|]. split; [|split; [vm_compute; reflexivity|split; [vm_compute; reflexivity|]]].
  - apply (dc_esc (b "u20AC") [226; 130; 172]).
    + apply (ye_u 50 48 65 67 2 0 10 12 8364); [apply (hex_dig 50)|apply (hex_dig 48)|apply (hex_upper 65)|apply (hex_upper 67)|lia| |apply (u_three 2 2 44)];
        unfold digit, surrogate; lia.
    + apply (dc_esc (b "n") [10]); [constructor|]. apply dc_byte; [vm_compute; intuition discriminate|discriminate|constructor].
  - intros e x q E Y. destruct Y as [| | | | | | | | |d1 d2 v1 v2 o H1 H2 U|d1 d2 d3 d4 v1 v2 v3 v4 c o H1 H2 H3 H4 EC NS U]; try discriminate E.
    cbn in E. injection E as <- <- <- <- <-. apply NS. subst c. apply hex_value_iff in H1, H2, H3, H4.
    injection H1 as <-. injection H2 as <-. injection H3 as <-. injection H4 as <-. unfold surrogate. lia.
Qed.
