(* Plain, quoted and numeric scalars described as texts, and the proof that they are read as
   described (see Reads.v). *)
From Coq Require Import String.
From Coq Require Import List NArith Bool Arith Lia.
From Verif Require Import Bytes Utf8 Data Parser Render Tree Abs Scan Num Reads ReadsSound Shown.
Import ListNotations.
Local Open Scope N_scope.

(* ---- definitions ---- *)
Definition white (c : byte) : Prop := In c [9; 10; 12; 13; 32].
Definition blank (c : byte) : Prop := In c [9; 12; 13; 32].
Definition digit (c : byte) : Prop := 48 <= c <= 57.
(* The crate's number syntax: digits with at most one point and then at most one e, which has
   a digit before it. The flag tells a point or an e is present. *)
Inductive unsigned_number : bytes -> bool -> Prop :=
| un_int a : Forall digit a -> a <> [] -> unsigned_number a false
| un_point a c : Forall digit a -> Forall digit c -> unsigned_number (a ++ [DOT] ++ c) true
| un_exp a e c : Forall digit a -> a <> [] -> e = 101 \/ e = 69 -> Forall digit c -> unsigned_number (a ++ [e] ++ c) true
| un_both a c e f : Forall digit a -> Forall digit c -> a ++ c <> [] -> e = 101 \/ e = 69 -> Forall digit f ->
    unsigned_number (a ++ [DOT] ++ c ++ [e] ++ f) true.
Definition number_text (x : bytes) (h : hint) : Prop :=
  (exists fl : bool, unsigned_number x fl /\ h = if fl then Float64 else Unsigned64) \/
  (exists y (fl : bool), x = DASH :: y /\ unsigned_number y fl /\ h = if fl then Float64 else Signed64).
(* The keyword in any mix of cases. *)
Definition spelled (x kw : bytes) : Prop := Forall2 (fun a c => a = c \/ a + 32 = c) x kw.
(* What a plain text stands for. *)
Inductive plain_datum : bytes -> datum -> Prop :=
| pd_tilde : plain_datum (b "~") DNull
| pd_null x : spelled x (b "null") -> plain_datum x DNull
| pd_true x : spelled x (b "true") -> plain_datum x (DBool true)
| pd_false x : spelled x (b "false") -> plain_datum x (DBool false)
| pd_num x h : number_text x h -> plain_datum x (DNum x h)
| pd_str x : x <> b "~" -> ~ spelled x (b "null") -> ~ spelled x (b "true") -> ~ spelled x (b "false") ->
    (forall h, ~ number_text x h) -> plain_datum x (DStr x).
(* The text starts no comment, quote, flow collection, block scalar or sequence. *)
Definition plain_start (x : bytes) : Prop := exists c r, x = c :: r /\ ~ white c /\
  ~ In c [HASH; DQUOTE; SQUOTE; LBRACK; LBRACE; GT; PIPE] /\
  (c = DASH -> exists c' r', r = c' :: r' /\ ~ white c').
(* The text is one line without a key. *)
Definition keyless (x : bytes) : Prop := ~ In NEWLINE x /\
  forall a c, x = a ++ COLON :: c -> exists c' r', c = c' :: r' /\ ~ white c' /\ c' <> 0.
Definition plain_line (x : bytes) : Prop := plain_start x /\ keyless x /\ ~ white (last x 0).

(* ---- proofs ---- *)
Lemma is_ws_white c : is_ws c = true <-> white c.
Proof. split; [apply is_ws_in|apply in_is_ws]. Qed.
Lemma not_white c : ~ white c -> is_ws c = false.
Proof. intros H. destruct (is_ws c) eqn:E; [|reflexivity]. now apply is_ws_white in E. Qed.
Lemma blank_iff c : is_other_ws c = true <-> blank c.
Proof.
  unfold is_other_ws, blank. rewrite !orb_true_iff, !N.eqb_eq. unfold TAB, FF, CR, SPACE. cbn. intuition congruence.
Qed.
Lemma digit_iff c : is_digit c = true <-> digit c.
Proof. unfold is_digit, digit. rewrite andb_true_iff, !N.leb_le. tauto. Qed.
Lemma spelled_cons a x c kw : spelled (a :: x) (c :: kw) <-> (a = c \/ a + 32 = c) /\ spelled x kw.
Proof. split; [intros H; now inversion H|intros []; now constructor]. Qed.
Lemma spelled_iff kw : Forall (fun c => 97 <= c <= 122) kw -> forall x, eq_ignore_case x kw = true <-> spelled x kw.
Proof.
  induction 1 as [|c kw C F IH]; intros [|a x].
  - cbn. split; [constructor|reflexivity].
  - cbn. split; [discriminate|intros H; inversion H].
  - cbn. split; [discriminate|intros H; inversion H].
  - cbn [eq_ignore_case]. rewrite andb_true_iff, IH, spelled_cons, N.eqb_eq. unfold to_lower.
    replace ((65 <=? c) && (c <=? 90)) with false.
    2:{ symmetry. apply andb_false_iff. right. apply N.leb_gt. lia. }
    destruct ((65 <=? a) && (a <=? 90)) eqn:U.
    + apply andb_prop in U as [U1 U2]. apply N.leb_le in U1, U2. split; intros [A B]; split; auto; lia.
    + apply andb_false_iff in U as [U|U]; apply N.leb_gt in U; split; intros [A B]; split; auto; lia.
Qed.
Lemma kw_lower : Forall (fun c => 97 <= c <= 122) kw_null /\ Forall (fun c => 97 <= c <= 122) kw_true /\ Forall (fun c => 97 <= c <= 122) kw_false.
Proof. unfold kw_null, kw_true, kw_false. repeat split; repeat constructor; cbn; lia. Qed.
Lemma spelled_null x : eq_ignore_case x kw_null = true <-> spelled x (b "null").
Proof. apply (spelled_iff kw_null), kw_lower. Qed.
Lemma spelled_true x : eq_ignore_case x kw_true = true <-> spelled x (b "true").
Proof. apply (spelled_iff kw_true), kw_lower. Qed.
Lemma spelled_false x : eq_ignore_case x kw_false = true <-> spelled x (b "false").
Proof. apply (spelled_iff kw_false), kw_lower. Qed.
Lemma beq_iff x y : beq x y = true <-> x = y.
Proof.
  revert y. induction x as [|a x IH]; intros [|c y]; cbn; split; try discriminate; try reflexivity.
  - intros H. apply andb_prop in H as [H1 H2]. apply N.eqb_eq in H1. apply IH in H2. congruence.
  - intros H. injection H as -> ->. apply andb_true_intro. split; [apply N.eqb_refl|now apply IH].
Qed.

(* numbers *)
Lemma num_digits a : Forall digit a -> forall d e h r, num_scan d e h (a ++ r) =
  let '(k, fl) := num_scan d e (h || negb (beq a [])) r in ((length a + k)%nat, fl).
Proof.
  induction 1 as [|c a C F IH]; intros d e h r.
  - cbn [app beq negb length Nat.add]. rewrite orb_false_r. now destruct (num_scan d e h r).
  - cbn [app num_scan beq negb length]. rewrite orb_true_r.
    assert (c =? DOT = false) as -> by (apply N.eqb_neq; unfold digit, DOT in *; lia).
    assert (c =? 101 = false) as -> by (apply N.eqb_neq; unfold digit in *; lia).
    assert (c =? 69 = false) as -> by (apply N.eqb_neq; unfold digit in *; lia).
    apply digit_iff in C as ->. cbn [andb orb]. rewrite IH. cbn [orb]. destruct (num_scan d e true r). reflexivity.
Qed.
Definition numless (r : bytes) : Prop := is_digit (hd EOF r) = false /\ ~ In (hd EOF r) [DOT; 101; 69].
Lemma num_stop d e h r : numless r -> num_scan d e h r = (O, false).
Proof.
  intros [A B]. destruct r as [|c r]; [reflexivity|]. cbn [hd num_scan] in *.
  assert (c =? DOT = false) as -> by (apply N.eqb_neq; intros ->; apply B; cbn; auto).
  assert (c =? 101 = false) as -> by (apply N.eqb_neq; intros ->; apply B; cbn; auto).
  assert (c =? 69 = false) as -> by (apply N.eqb_neq; intros ->; apply B; cbn; auto).
  now rewrite A.
Qed.
Lemma negb_beq_nil a : a <> [] -> negb (beq a []) = true.
Proof. now destruct a. Qed.
Lemma unsigned_scan x fl r : unsigned_number x fl -> numless r -> num_scan true true false (x ++ r) = (length x, fl).
Proof.
  intros U N.
  assert (X : forall e, e = 101 \/ e = 69 -> (e =? DOT) = false /\ ((e =? 101) || (e =? 69)) = true).
  { intros e [-> | ->]; auto. }
  destruct U as [a A NA|a c A C|a e c A NA E C|a c e f A C AC E F].
  - rewrite num_digits by assumption. rewrite num_stop by assumption. now rewrite Nat.add_0_r.
  - rewrite <- !app_assoc, num_digits by assumption. cbn [app num_scan]. rewrite N.eqb_refl. cbn [andb].
    rewrite num_digits by assumption. rewrite num_stop by assumption. f_equal. rewrite app_length. cbn. lia.
  - rewrite <- !app_assoc, num_digits by assumption. cbn [app num_scan]. destruct (X e E) as [-> ->].
    rewrite negb_beq_nil by assumption. cbn [andb orb].
    rewrite num_digits by assumption. rewrite num_stop by assumption. f_equal. rewrite app_length. cbn. lia.
  - rewrite <- !app_assoc, num_digits by assumption. cbn [app num_scan]. rewrite N.eqb_refl. cbn [andb].
    rewrite ?app_assoc_reverse, num_digits by assumption. cbn [app num_scan]. destruct (X e E) as [-> ->].
    cbn [andb orb].
    assert (negb (beq a []) || negb (beq c []) = true) as ->.
    { destruct a; [|reflexivity]. destruct c; [|reflexivity]. now destruct AC. }
    cbn [andb]. rewrite num_digits by assumption. rewrite num_stop by assumption. f_equal. repeat (rewrite app_length; cbn [length]). lia.
Qed.
Lemma scan3 r : forall h k fl, num_scan false false h r = (k, fl) -> Forall digit (firstn k r).
Proof.
  induction r as [|c r IH]; intros h k fl; cbn [num_scan].
  - intros E; injection E as <- <-. constructor.
  - rewrite !andb_false_r. destruct (is_digit c) eqn:D.
    + destruct (num_scan false false true r) as [k' fl'] eqn:E. intros F; injection F as <- <-. constructor; [now apply digit_iff|eauto].
    + intros E; injection E as <- <-. constructor.
Qed.
Lemma scan2 r : forall h k fl, num_scan false true h r = (k, fl) -> Forall digit (firstn k r) \/
  exists c e f, firstn k r = c ++ [e] ++ f /\ Forall digit c /\ Forall digit f /\ (e = 101 \/ e = 69) /\ (h = true \/ c <> []).
Proof.
  induction r as [|c r IH]; intros h k fl; cbn [num_scan].
  - intros E; injection E as <- <-. left. constructor.
  - rewrite !andb_false_r, andb_true_r. destruct (((c =? 101) || (c =? 69)) && h) eqn:X.
    + apply andb_prop in X as [X ->]. destruct (num_scan false false true r) as [k' fl'] eqn:E. intros F; injection F as <- <-.
      right. exists [], c, (firstn k' r). split; [reflexivity|]. split; [constructor|]. split; [eapply scan3; eauto|].
      split; [|now left]. apply orb_prop in X as [X|X]; apply N.eqb_eq in X; auto.
    + destruct (is_digit c) eqn:D; [|intros E; injection E as <- <-; left; constructor].
      apply digit_iff in D. destruct (num_scan false true true r) as [k' fl'] eqn:E. intros F; injection F as <- <-.
      destruct (IH _ _ _ E) as [H|(c' & e & f & H1 & H2 & H3 & H4 & _)].
      * left. now constructor.
      * right. exists (c :: c'), e, f. cbn [firstn]. rewrite H1. split; [reflexivity|]. repeat split; auto. right. discriminate.
Qed.
Lemma scan1 r : forall h k fl a, num_scan true true h r = (k, fl) -> Forall digit a -> (h = true <-> a <> []) ->
  a ++ firstn k r <> [] -> unsigned_number (a ++ firstn k r) fl.
Proof.
  induction r as [|c r IH]; intros h k fl a; cbn [num_scan].
  - intros E; injection E as <- <-. cbn. rewrite app_nil_r. intros A _ N. now constructor.
  - rewrite !andb_true_r. intros E A H N. destruct (N.eqb_spec c DOT) as [->|ND].
    { destruct (num_scan false true h r) as [k' fl'] eqn:E'. injection E as <- <-. cbn [firstn].
      destruct (scan2 _ _ _ _ E') as [D|(c' & e & f & -> & H2 & H3 & H4 & H5)].
      - now apply (un_point a (firstn k' r)).
      - apply (un_both a c' e f); auto. intros X. apply app_eq_nil in X as [-> ->]. destruct H5 as [H5|H5]; [apply H in H5|]; exact (H5 eq_refl). }
    destruct (((c =? 101) || (c =? 69)) && h) eqn:X.
    { apply andb_prop in X as [X ->]. destruct (num_scan false false true r) as [k' fl'] eqn:E'. injection E as <- <-. cbn [firstn].
      apply (un_exp a c (firstn k' r)); auto; [now apply H| |eapply scan3; eauto].
      apply orb_prop in X as [X|X]; apply N.eqb_eq in X; auto. }
    destruct (is_digit c) eqn:D.
    + apply digit_iff in D. destruct (num_scan true true true r) as [k' fl'] eqn:E'. injection E as <- <-. cbn [firstn].
      assert (EQ : a ++ c :: firstn k' r = (a ++ [c]) ++ firstn k' r) by now rewrite <- app_assoc. rewrite EQ.
      eapply IH; eauto.
      * apply Forall_app. auto.
      * split; [|auto]. intros _ Z. now apply app_eq_nil in Z.
      * intros Z. apply app_eq_nil in Z as [Z _]. now apply app_eq_nil in Z.
    + injection E as <- <-. cbn. rewrite app_nil_r in *. now constructor.
Qed.
Lemma scan_unsigned r k fl : num_scan true true false r = (k, fl) -> k <> O -> unsigned_number (firstn k r) fl.
Proof.
  intros E K. pose proof (num_scan_le r true true false) as L. rewrite E in L. cbn in L.
  apply (scan1 r false k fl []); auto; [split; [discriminate|congruence]|]. cbn. destruct r; [cbn in L; lia|]. destruct k; [lia|discriminate].
Qed.
Lemma unsigned_hd x fl : unsigned_number x fl -> exists c r, x = c :: r /\ (digit c \/ c = DOT).
Proof.
  intros [a A N|a c A C|a e c A N E C|a c e f A C N E F]; destruct a as [|z a]; try congruence; cbn [app];
    try (inversion A; subst; eauto); eauto.
Qed.
Lemma unsigned_nl x fl : unsigned_number x fl -> forall c, In c x -> digit c \/ In c [DOT; 101; 69].
Proof.
  assert (D : forall a, Forall digit a -> forall c, In c a -> digit c) by (intros a A; now rewrite Forall_forall in A).
  intros [a A N|a c A C|a e c A N E C|a c e f A C N E F] z; repeat (rewrite in_app_iff || cbn [In]); intros H;
    decompose [or] H; subst; try (left; eapply D; [|eassumption]; assumption); try (right; cbn; auto 6; fail); try contradiction;
    try (right; destruct E; subst; cbn; auto 6; fail).
Qed.
Lemma hd_app_stop (P : byte -> Prop) (x y : bytes) : (forall c, In c x -> P c) -> P (hd EOF y) -> P (hd EOF (x ++ y)).
Proof. destruct x; cbn; auto. Qed.

(* The texts the parser takes for a number. *)
Lemma num_read_number inl x h r : number_text x h -> numless r -> (inl = true \/ eol_scan r = true) ->
  num_read inl (x ++ r) = Some (length x, h).
Proof.
  intros [(fl & U & ->)|(y & fl & -> & U & ->)] N E; unfold num_read.
  - destruct (unsigned_hd _ _ U) as (c & r' & -> & D). cbn [app hd].
    assert (c =? DASH = false) as -> by (apply N.eqb_neq; unfold digit, DOT, DASH in *; lia).
    change (c :: r' ++ r) with ((c :: r') ++ r). rewrite (unsigned_scan _ _ _ U N). cbn [length Nat.eqb].
    change (S (length r')) with (length (c :: r')). rewrite skipn_at.
    replace (negb inl && negb (eol_scan r)) with false; [reflexivity|]. destruct E as [-> | ->]; [reflexivity|now rewrite andb_false_r].
  - cbn [app hd tl]. rewrite N.eqb_refl. rewrite (unsigned_scan _ _ _ U N). destruct (unsigned_hd _ _ U) as (c & r' & -> & _). cbn [length Nat.eqb].
    change (S (length r')) with (length (c :: r')). rewrite skipn_at. replace (negb inl && negb (eol_scan r)) with false; [reflexivity|]. destruct E as [-> | ->]; [reflexivity|now rewrite andb_false_r].
Qed.
Lemma num_read_inv inl r k h : num_read inl r = Some (k, h) -> exists x r', r = x ++ r' /\ k = length x /\ number_text x h /\
  (inl = true \/ eol_scan r' = true).
Proof.
  unfold num_read. set (neg := hd EOF r =? DASH). cbn zeta.
  match goal with |- context [num_scan true true false ?z] => set (r1 := z) end.
  destruct (num_scan true true false r1) as [k' fl] eqn:E.
  destruct (Nat.eqb_spec k' 0) as [|K]; [discriminate|].
  pose proof (num_scan_le r1 true true false) as L. rewrite E in L. cbn in L.
  apply scan_unsigned in E; [|assumption].
  destruct (negb inl && negb (eol_scan (skipn k' r1))) eqn:X; [discriminate|]. intros H. injection H as <- <-.
  assert (Z : inl = true \/ eol_scan (skipn k' r1) = true).
  { apply andb_false_iff in X as [X|X]; apply negb_false_iff in X; auto. }
  subst r1. destruct neg eqn:NG.
  - destruct r as [|c r]; [discriminate|]. subst neg. cbn in NG. apply N.eqb_eq in NG as ->. cbn [tl] in *.
    exists (DASH :: firstn k' r), (skipn k' r). cbn [app length]. rewrite firstn_skipn, firstn_length, Nat.min_l by assumption.
    repeat split; auto. right. eauto.
  - exists (firstn k' r), (skipn k' r). rewrite firstn_skipn, firstn_length, Nat.min_l by assumption.
    repeat split; auto. left. eauto.
Qed.
Lemma number_bytes x h : number_text x h -> forall c, In c x -> digit c \/ In c [DOT; 101; 69; DASH].
Proof.
  intros [(fl & U & _)|(y & fl & -> & U & _)] c I.
  - destruct (unsigned_nl _ _ U c I) as [|I']; [auto|]. right. cbn in *. tauto.
  - destruct I as [<-|I]; [right; cbn; auto 6|]. destruct (unsigned_nl _ _ U c I) as [|I']; [auto|]. right. cbn in *. tauto.
Qed.
Lemma number_not x h (P : byte -> Prop) c : number_text x h -> In c x -> (forall c, digit c -> P c) -> P DOT -> P 101 -> P 69 -> P DASH -> P c.
Proof.
  intros U I D1 D2 D3 D4 D5. destruct (number_bytes _ _ U c I) as [H|H]; [auto|]. cbn in H. decompose [or] H; subst; auto; contradiction.
Qed.
(* Numbers determine their type; keywords are no numbers. *)
Lemma unsigned_det x fl fl' : unsigned_number x fl -> unsigned_number x fl' -> fl = fl'.
Proof.
  intros U V. assert (N : numless []) by (split; [reflexivity|cbn; unfold EOF, DOT; intuition discriminate]).
  pose proof (unsigned_scan _ _ _ U N) as A. rewrite (unsigned_scan _ _ _ V N) in A. congruence.
Qed.
Lemma number_det x h h' : number_text x h -> number_text x h' -> h = h'.
Proof.
  intros U V. assert (N : numless []) by (split; [reflexivity|cbn; unfold EOF, DOT; intuition discriminate]).
  pose proof (num_read_number false _ _ _ U N (or_intror eq_refl)) as A. rewrite (num_read_number false _ _ _ V N (or_intror eq_refl)) in A. congruence.
Qed.
Lemma spelled_hd x c kw : spelled x (c :: kw) -> exists a r, x = a :: r /\ (a = c \/ a + 32 = c).
Proof. intros H. inversion H; subst. eauto. Qed.
Lemma number_hd x h : number_text x h -> exists c r, x = c :: r /\ (digit c \/ c = DOT \/ c = DASH).
Proof.
  intros [(fl & U & _)|(y & fl & -> & U & _)]; [|now exists DASH, y; auto]. destruct (unsigned_hd _ _ U) as (c & r & -> & D). exists c, r. split; [reflexivity|]. tauto.
Qed.
Lemma keyword_not_number x kw h : spelled x kw -> In kw [b "null"; b "true"; b "false"; b "~"] -> number_text x h -> False.
Proof.
  intros S K U. destruct (number_hd _ _ U) as (c & r & -> & D). unfold digit, DOT, DASH in D.
  cbn in K. decompose [or] K; subst; try contradiction; apply spelled_hd in S as (a & r' & E & H); injection E as -> ->;
    cbn in H; lia.
Qed.
(* The plain scalar the parser makes of a text that is no number. *)
Lemma a_plain_see x d : plain_datum x d -> (forall h, ~ number_text x h) -> see (TLeaf tt [] (a_plain x)) = d.
Proof.
  intros P N. unfold a_plain. destruct (beq x [TILDE]) eqn:E1.
  { apply beq_iff in E1. subst x. inversion P; subst; try reflexivity; try (now apply spelled_hd in H as (? & ? & [= <- <-] & [?|?])).
    - exfalso. eapply N; eauto.
    - now destruct H. }
  destruct (eq_ignore_case x kw_null) eqn:E2.
  { apply spelled_null in E2. inversion P; subst; try reflexivity; try contradiction; exfalso; try (eapply N; eassumption);
    apply spelled_hd in E2 as (? & ? & E & [?|?]); apply spelled_hd in H as (? & ? & E' & [?|?]); cbn in *; rewrite E in E'; injection E' as <- <-; lia. }
  destruct (eq_ignore_case x kw_true) eqn:E3.
  { apply spelled_true in E3. inversion P; subst; try reflexivity; try contradiction; exfalso; try (eapply N; eassumption);
    try (apply spelled_hd in E3 as (? & ? & E & [?|?]); apply spelled_hd in H as (? & ? & E' & [?|?]); cbn in *; rewrite E in E'; injection E' as <- <-; lia).
    apply spelled_hd in E3 as (? & ? & E & [?|?]); injection E as <- <-; cbn in *; lia. }
  destruct (eq_ignore_case x kw_false) eqn:E4.
  { apply spelled_false in E4. inversion P; subst; try reflexivity; try contradiction; exfalso; try (eapply N; eassumption);
    try (apply spelled_hd in E4 as (? & ? & E & [?|?]); apply spelled_hd in H as (? & ? & E' & [?|?]); cbn in *; rewrite E in E'; injection E' as <- <-; lia).
    apply spelled_hd in E4 as (? & ? & E & [?|?]); injection E as <- <-; cbn in *; lia. }
  inversion P; subst; try reflexivity; exfalso.
  - discriminate E1.
  - apply spelled_null in H. congruence.
  - apply spelled_true in H. congruence.
  - apply spelled_false in H. congruence.
  - eapply N; eassumption.
Qed.

(* ---- quoted texts ---- *)
Inductive hex : byte -> N -> Prop :=
| hex_dig c : digit c -> hex c (c - 48)
| hex_lower c : 97 <= c <= 102 -> hex c (c - 87)
| hex_upper c : 65 <= c <= 70 -> hex c (c - 55).
(* UTF-8, for the code points below 0x10000 *)
Inductive utf8_of : N -> bytes -> Prop :=
| u_one c : c < 128 -> utf8_of c [c]
| u_two a c : 2 <= a < 32 -> c < 64 -> utf8_of (64 * a + c) [192 + a; 128 + c]
| u_three a c e : a < 16 -> c < 64 -> e < 64 -> 2048 <= 4096 * a + 64 * c + e ->
    utf8_of (4096 * a + 64 * c + e) [224 + a; 128 + c; 128 + e].
Definition surrogate (c : N) : Prop := 0xd800 <= c <= 0xdfff.
(* The escapes of YAML the crate supports, with their meaning in YAML; without the backslash. *)
Inductive yaml_escape : bytes -> bytes -> Prop :=
| ye_0 : yaml_escape (b "0") [0]
| ye_a : yaml_escape (b "a") [7]
| ye_b : yaml_escape (b "b") [8]
| ye_t : yaml_escape (b "t") [9]
| ye_n : yaml_escape (b "n") [10]
| ye_v : yaml_escape (b "v") [11]
| ye_f : yaml_escape (b "f") [12]
| ye_r : yaml_escape (b "r") [13]
| ye_e : yaml_escape (b "e") [27]
| ye_x d1 d2 v1 v2 o : hex d1 v1 -> hex d2 v2 -> utf8_of (16 * v1 + v2) o -> yaml_escape (b "x" ++ [d1; d2]) o
| ye_u d1 d2 d3 d4 v1 v2 v3 v4 c o : hex d1 v1 -> hex d2 v2 -> hex d3 v3 -> hex d4 v4 ->
    c = 4096 * v1 + 256 * v2 + 16 * v3 + v4 -> ~ surrogate c -> utf8_of c o -> yaml_escape (b "u" ++ [d1; d2; d3; d4]) o.
(* Text between double quotes and its content. *)
Inductive dq_content : bytes -> bytes -> Prop :=
| dc_nil : dq_content [] []
| dc_byte c y v : ~ In c (b """\") -> c <> 0 -> dq_content y v -> dq_content (c :: y) (c :: v)
| dc_esc e x y v : yaml_escape e x -> dq_content y v -> dq_content (b "\" ++ e ++ y) (x ++ v).
(* Text between single quotes and its content. *)
Inductive sq_content : bytes -> bytes -> Prop :=
| sc_nil : sq_content [] []
| sc_byte c y v : c <> SQUOTE -> sq_content y v -> sq_content (c :: y) (c :: v)
| sc_pair y v : sq_content y v -> sq_content (b "''" ++ y) (b "'" ++ v).
Inductive quoted_text : bytes -> bytes -> Prop :=
| qt_double y v : dq_content y v -> quoted_text (b """" ++ y ++ b """") v
| qt_single y v : sq_content y v -> quoted_text (b "'" ++ y ++ b "'") v.

Lemma hex_value_iff c v : hex_value c = Some v <-> hex c v.
Proof.
  unfold hex_value. split.
  - destruct (is_digit c) eqn:D. { intros H; injection H as <-. constructor. now apply digit_iff. }
    destruct ((97 <=? c) && (c <=? 102)) eqn:L.
    { intros H; injection H as <-. apply andb_prop in L as [L1 L2]. apply N.leb_le in L1, L2.
      replace (c - 97 + 10) with (c - 87) by lia. now constructor. }
    destruct ((65 <=? c) && (c <=? 70)) eqn:U; [|discriminate].
    intros H; injection H as <-. apply andb_prop in U as [L1 L2]. apply N.leb_le in L1, L2.
    replace (c - 65 + 10) with (c - 55) by lia. now constructor.
  - intros [e D|e D|e D].
    + apply digit_iff in D as ->. reflexivity.
    + assert (is_digit e = false) as ->. { unfold is_digit. apply andb_false_iff. right. apply N.leb_gt. lia. }
      assert ((97 <=? e) && (e <=? 102) = true) as ->. { apply andb_true_intro. rewrite !N.leb_le. lia. }
      f_equal. lia.
    + assert (is_digit e = false) as ->. { unfold is_digit. apply andb_false_iff. right. apply N.leb_gt. lia. }
      assert ((97 <=? e) && (e <=? 102) = false) as ->. { apply andb_false_iff. left. apply N.leb_gt. lia. }
      assert ((65 <=? e) && (e <=? 70) = true) as ->. { apply andb_true_intro. rewrite !N.leb_le. lia. }
      f_equal. lia.
Qed.
Lemma hex_small c v : hex c v -> v < 16.
Proof. intros [e D|e D|e D]; unfold digit in *; lia. Qed.
Lemma shift_lor c v : v < 16 -> N.lor (N.shiftl c 4) v = 16 * c + v.
Proof.
  intros V. assert (L : N.land (N.shiftl c 4) v = 0).
  { apply N.bits_inj. intros i. rewrite N.land_spec, N.bits_0. destruct (N.lt_ge_cases i 4) as [I|I].
    - now rewrite N.shiftl_spec_low by assumption.
    - rewrite andb_comm. destruct (N.testbit v i) eqn:T; [|reflexivity]. exfalso.
      destruct (N.eq_dec v 0) as [->|NZ]; [now rewrite N.bits_0 in T|].
      rewrite N.bits_above_log2 in T; [discriminate|]. apply N.lt_le_trans with 4; [|assumption].
      apply N.log2_lt_pow2; [lia|]. assumption. }
  rewrite <- N.lxor_lor, <- N.add_nocarry_lxor by assumption. rewrite N.shiftl_mul_pow2. change (2 ^ 4) with 16. lia.
Qed.
Lemma encode_of c : c < 65536 -> utf8_of c (encode_utf8 c).
Proof.
  intros H. unfold encode_utf8. destruct (N.ltb_spec c 128) as [L|L]; [now constructor|].
  assert (D : c mod 64 < 64) by (apply N.mod_lt; discriminate).
  destruct (N.ltb_spec c 2048) as [M|M].
  - pose proof (N.div_mod c 64 ltac:(discriminate)) as E. rewrite E at 1. constructor; [|exact D].
    split; [apply N.div_le_lower_bound; [discriminate|lia]|apply N.div_lt_upper_bound; [discriminate|lia]].
  - destruct (N.ltb_spec c 65536); [|lia].
    pose proof (N.div_mod c 64 ltac:(discriminate)) as E. pose proof (N.div_mod (c / 64) 64 ltac:(discriminate)) as E2.
    rewrite N.div_div in E2 by discriminate. change (64 * 64) with 4096 in E2.
    assert (EC : c = 4096 * (c / 4096) + 64 * ((c / 64) mod 64) + c mod 64) by lia.
    rewrite EC at 1. constructor.
    + apply N.div_lt_upper_bound; [discriminate|lia].
    + apply N.mod_lt. discriminate.
    + apply N.mod_lt. discriminate.
    + rewrite <- EC. exact M.
Qed.
Lemma utf8_of_det c o : utf8_of c o -> forall o', utf8_of c o' -> o = o'.
Proof.
  assert (X : forall o, utf8_of c o -> (c < 128 /\ o = [c]) \/
    (exists a d, c = 64 * a + d /\ 2 <= a < 32 /\ d < 64 /\ o = [192 + a; 128 + d]) \/
    (exists a d e, c = 4096 * a + 64 * d + e /\ a < 16 /\ d < 64 /\ e < 64 /\ 2048 <= c /\ o = [224 + a; 128 + d; 128 + e])).
  { clear. intros o [c0 H|a d H1 H2|a d e H1 H2 H3 H4]; [left|right; left; exists a, d|right; right; exists a, d, e]; repeat split; auto; lia. }
  intros A o' B. apply X in A, B.
  destruct A as [[A ->]|[(a & d & A & A1 & A2 & ->)|(a & d & e & A & A1 & A2 & A3 & A4 & ->)]];
  destruct B as [[B ->]|[(a' & d' & B & B1 & B2 & ->)|(a' & d' & e' & B & B1 & B2 & B3 & B4 & ->)]]; try reflexivity; try (exfalso; lia).
  - assert (a' = a /\ d' = d) as [-> ->] by lia. reflexivity.
  - assert (a' = a /\ d' = d /\ e' = e) as (-> & -> & ->) by lia. reflexivity.
Qed.
Lemma utf8_encode c o : utf8_of c o -> encode_utf8 c = o.
Proof.
  intros U. symmetry. eapply utf8_of_det; [exact U|]. apply encode_of. destruct U; lia.
Qed.
Lemma not_surrogate c : c < 65536 -> ~ surrogate c -> is_scalar_value c = true.
Proof.
  unfold surrogate, is_scalar_value. intros L N. apply orb_true_iff. rewrite andb_true_iff, !N.ltb_lt. lia.
Qed.
Lemma escape_of e x : yaml_escape e x -> escape e x.
Proof.
  intros [| | | | | | | | |d1 d2 v1 v2 o H1 H2 U|d1 d2 d3 d4 v1 v2 v3 v4 c o H1 H2 H3 H4 -> NS U]; try (now apply esc_char).
  - pose proof (hex_small _ _ H1). pose proof (hex_small _ _ H2). rewrite <- (utf8_encode _ _ U). apply (esc_hex [d1; d2]); [reflexivity| |].
    + cbn [hex_number]. apply hex_value_iff in H1 as ->. apply hex_value_iff in H2 as ->.
      rewrite !shift_lor by assumption. f_equal; lia.
    + apply not_surrogate; unfold surrogate; lia.
  - pose proof (hex_small _ _ H1). pose proof (hex_small _ _ H2). pose proof (hex_small _ _ H3). pose proof (hex_small _ _ H4).
    rewrite <- (utf8_encode _ _ U). apply (esc_uni [d1; d2; d3; d4]); [reflexivity| |].
    + cbn [hex_number]. apply hex_value_iff in H1 as ->. apply hex_value_iff in H2 as ->. apply hex_value_iff in H3 as ->. apply hex_value_iff in H4 as ->.
      rewrite !shift_lor by assumption. f_equal; lia.
    + apply not_surrogate; [lia|assumption].
Qed.
Lemma dq_body y v : dq_content y v -> dqbody y v.
Proof.
  induction 1 as [|c y v N Z D IH|e x y v E D IH]; [constructor| |].
  - apply db_byte; [|exact Z| |exact IH]; intros ->; apply N; cbn; auto.
  - cbn [of_string app]. apply (db_esc e x y v); [now apply escape_of|assumption].
Qed.
Lemma sq_body y v : sq_content y v -> sqbody y v.
Proof. induction 1; [constructor|now constructor|]. now apply sb_pair. Qed.
Lemma quoted_scal inl x v pre post : quoted_text x v -> hd EOF post <> SQUOTE -> (inl = true \/ hd EOF post <> COLON) ->
  scal inl pre (ScStr (RS KOriginal v x)) post.
Proof.
  intros [y u D|y u D] S C.
  - apply L_dq; [|exact C]. exists y, DQUOTE. split; [reflexivity|]. split; [now apply dq_body|auto].
  - apply L_sq; auto. exists y. split; [reflexivity|now apply sq_body].
Qed.

(* ---- plain texts ---- *)
Lemma plain_special x post : plain_start x -> special false (x ++ post) = false.
Proof.
  intros (c & r & -> & W & N & D). unfold special. cbn [app hd nth].
  assert (X : forall k, In k [HASH; DQUOTE; SQUOTE; LBRACK; LBRACE; GT; PIPE] -> (c =? k) = false).
  { intros k K. apply N.eqb_neq. intros ->. auto. }
  rewrite (X DQUOTE), (X SQUOTE), (X LBRACK), (X LBRACE), (X GT), (X PIPE) by (cbn; auto 10). rewrite !orb_false_r. destruct (N.eqb_spec c DASH) as [->|]; [|reflexivity].
  destruct (D eq_refl) as (c' & r' & -> & W'). cbn. apply not_white in W' as ->. reflexivity.
Qed.
Lemma plain_cut x post : plain_start x -> cut [] (x ++ post).
Proof.
  intros (c & r & -> & W & N & D). apply cut_nil; [now apply not_white|]. intros ->. apply N. now left.
Qed.
Definition ended (post : bytes) : Prop := post = [] \/ hd EOF post = NEWLINE.
Lemma ended_numless post : ended post -> numless post.
Proof. intros [->|E]; unfold numless; [|rewrite E]; (split; [reflexivity|]); cbn; unfold NEWLINE, EOF, DOT; intuition discriminate. Qed.
Lemma ended_eol post : ended post -> eol_scan post = true.
Proof. intros [->|E]; [reflexivity|]. destruct post; [reflexivity|]. cbn in *. subst. reflexivity. Qed.
Lemma ended_hd post c : ended post -> c <> EOF -> c <> NEWLINE -> hd EOF post <> c.
Proof. intros [->|E] A B; cbn; congruence. Qed.
Lemma eol_blanks x post : ~ In NEWLINE x -> eol_scan (x ++ post) = true -> Forall blank x.
Proof.
  induction x as [|c x IH]; intros N; cbn; [constructor|]. destruct (N.eqb_spec c NEWLINE) as [->|]; [destruct N; now left|].
  destruct (is_other_ws c) eqn:O; [|discriminate]. intros E. constructor; [now apply blank_iff|]. apply IH; auto. intros I. apply N. now right.
Qed.
Lemma blanks_eol x post : Forall blank x -> ended post -> eol_scan (x ++ post) = true.
Proof.
  induction 1 as [|c x C F IH]; intros E; [now apply ended_eol|]. cbn. destruct (c =? NEWLINE); [reflexivity|].
  apply blank_iff in C as ->. auto.
Qed.
Lemma keyless_scan x : keyless x -> forall post, ended post -> key_scan (x ++ post) = (length x, false).
Proof.
  intros [N K] post E. induction x as [|c x IH].
  - destruct E as [->|E]; [reflexivity|]. destruct post as [|c post]; [reflexivity|]. cbn in E. subst. reflexivity.
  - cbn [app key_scan length]. assert (c =? NEWLINE = false) as ->. { apply N.eqb_neq. intros ->. apply N. now left. }
    rewrite IH.
    + destruct (N.eqb_spec c COLON) as [->|]; [|reflexivity].
      destruct (K [] x eq_refl) as (c' & r' & -> & W & Z). cbn. apply not_white in W as ->. apply N.eqb_neq in Z. unfold EOF. rewrite Z. reflexivity.
    + intros I. apply N. now right.
    + intros a c' ->. apply (K (c :: a) c'). reflexivity.
Qed.
Lemma last_app {A} (a c : list A) d : c <> [] -> last (a ++ c) d = last c d.
Proof. intros N. induction a as [|x a IH]; [reflexivity|]. cbn. destruct (a ++ c) eqn:E; [now apply app_eq_nil in E as [_ ->]|]. exact IH. Qed.
Lemma plain_number x post k h : plain_line x -> ended post -> num_read false (x ++ post) = Some (k, h) -> number_text x h /\ k = length x.
Proof.
  intros (S & [NL _] & L) E H. apply num_read_inv in H as (y & r' & Q & -> & U & [?|O]); [discriminate|].
  assert (C : exists z, x = y ++ z /\ r' = z ++ post).
  { destruct (le_lt_dec (length y) (length x)) as [Le|Lt].
    - destruct (split_at y r' x post (eq_sym Q) Le) as (z & -> & ->). eauto.
    - destruct (split_at x post y r' Q ltac:(lia)) as (z & -> & ->). rewrite app_length in Lt.
      destruct z as [|c z]; [cbn in Lt; lia|]. destruct E as [E|E]; [discriminate|]. cbn in E. subst c. exfalso.
      apply (number_not _ _ (fun c => c <> NEWLINE) NEWLINE U); auto; try discriminate.
      + apply in_or_app. right. now left.
      + unfold digit, NEWLINE. intros; lia. }
  destruct C as (z & -> & ->). assert (B : Forall blank z).
  { apply (eol_blanks z post); auto. intros I. apply NL. apply in_or_app. auto. }
  destruct z as [|c z] using rev_ind; [rewrite app_nil_r; auto|]. exfalso. apply L.
  rewrite last_app by (destruct z; discriminate). rewrite last_app by discriminate. cbn.
  apply Forall_app in B as [_ B]. inversion B; subst. unfold white, blank in *. cbn in *. tauto.
Qed.
Lemma number_or x : (exists h, number_text x h) \/ forall h, ~ number_text x h.
Proof.
  destruct (num_read false x) as [[k h]|] eqn:E.
  - apply num_read_inv in E as (y & r & -> & -> & U & [?|O]); [discriminate|].
    destruct r as [|c r]; [rewrite app_nil_r; left; eauto|].
    right. intros h' V. pose proof (number_not _ _ (fun c => is_digit c = true \/ In c [DOT; 101; 69; DASH]) c V ltac:(apply in_or_app; right; now left)) as H.
    cbn in O. destruct (N.eqb_spec c NEWLINE) as [->|].
    { destruct H; auto; try (now right; cbn; auto). intros; left; now apply digit_iff. discriminate. cbn in H. intuition discriminate. }
    destruct (is_other_ws c) eqn:W; [|discriminate]. apply blank_iff in W. cbn in W.
    destruct H; auto; try (now right; cbn; auto 6). { intros; left; now apply digit_iff. }
    + apply digit_iff in H. unfold digit in H. intuition lia.
    + cbn in H. unfold DOT, DASH in H. intuition lia.
  - right. intros h U. rewrite <- (app_nil_r x) in E. rewrite (num_read_number false x h []) in E; [discriminate|assumption| |now right].
    apply ended_numless. now left.
Qed.
(* A plain line is read as what it stands for. *)
Lemma plain_scal x d : plain_line x -> plain_datum x d -> exists sc, wscalar sc = x /\ (forall p, see (TLeaf tt p sc) = d) /\
  forall pre post, ended post -> scal false pre sc post.
Proof.
  intros P D. pose proof P as (S & K & L). destruct (number_or x) as [[h U]|N].
  - exists (ScNum x h). split; [reflexivity|]. split.
    + intros p. cbn [see]. inversion D; subst; try (exfalso; eapply keyword_not_number; [eassumption|cbn; auto 8|eassumption]).
      * exfalso. apply number_hd in U as (c & r & E & H). injection E as <- <-. unfold digit, DOT, DASH in H. lia.
      * now rewrite (number_det _ _ _ U H).
      * exfalso. eapply H3; eauto.
    + intros pre post E. apply L_num; [now apply plain_special|]. apply num_read_number; auto; [now apply ended_numless|right; now apply ended_eol].
  - exists (a_plain x). split; [apply wscalar_plain|]. split.
    + intros p. rewrite <- (a_plain_see x d D N). reflexivity.
    + intros pre post E. apply L_plain; [now apply plain_special| |now apply keyless_scan].
      destruct (num_read false (x ++ post)) as [[k h]|] eqn:Q; [|reflexivity].
      apply (plain_number _ _ _ _ P E) in Q as [Q _]. now apply N in Q.
Qed.
Lemma plain_total x : exists d, plain_datum x d.
Proof.
  destruct (beq x (b "~")) eqn:E1. { apply beq_iff in E1 as ->. eexists. apply pd_tilde. }
  destruct (eq_ignore_case x kw_null) eqn:E2. { apply spelled_null in E2. eexists. now apply pd_null. }
  destruct (eq_ignore_case x kw_true) eqn:E3. { apply spelled_true in E3. eexists. now apply pd_true. }
  destruct (eq_ignore_case x kw_false) eqn:E4. { apply spelled_false in E4. eexists. now apply pd_false. }
  destruct (number_or x) as [[h U]|N]. { eexists. apply pd_num. eassumption. }
  eexists. apply pd_str; auto.
  - intros ->. discriminate.
  - rewrite <- spelled_null. congruence.
  - rewrite <- spelled_true. congruence.
  - rewrite <- spelled_false. congruence.
Qed.
Lemma plain_det x d d' : plain_datum x d -> plain_datum x d' -> d = d'.
Proof.
  intros A B. destruct (number_or x) as [[h U]|N].
  - assert (X : forall e, plain_datum x e -> e = DNum x h).
    { intros e P. inversion P; subst; try (exfalso; eapply keyword_not_number; [eassumption|cbn; auto 8|eassumption]).
      * exfalso. apply number_hd in U as (c & r & E & H). injection E as <- <-. unfold digit, DOT, DASH in H. lia.
      * now rewrite (number_det _ _ _ U H).
      * exfalso. eapply H3; eauto. }
    now rewrite (X _ A), (X _ B).
  - now rewrite <- (a_plain_see _ _ A N), <- (a_plain_see _ _ B N).
Qed.
