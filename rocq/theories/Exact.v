(* Which strings survive being written and read: what the parser makes of any double quoted
   text, and what escaping does to quotes and backslashes. *)
From Coq Require Import String.
From Coq Require Import List NArith ZArith Bool Arith Lia.
From Verif Require Import Bytes Utf8 Data Parser Render Tree Abs Refine Utf8Props Scan Num Api Ctx Edit Built Reads ReadsSound AbsText AbsNice
  Shown Plain Grammar Laid GrammarSound Tests Refuted PropsParse PropsEdit PropsValue PropsScalar PropsScalar2 White.
Import ListNotations.
Local Open Scope N_scope.

(* ---- double quoted text ---- *)
Lemma hex_run ds n : forall c, hex_number c ds = Some n -> Forall (fun d => hex_value d <> None) ds.
Proof.
  induction ds as [|d ds IH]; intros c H; [constructor|]. cbn [hex_number] in H. destruct (hex_value d) as [v|] eqn:E; [|discriminate].
  constructor; [congruence|]. now apply (IH _ H).
Qed.
Lemma escape_dec (r : bytes) : (exists e x q, r = e ++ q /\ escape e x) \/ (forall e x q, r = e ++ q -> ~ escape e x).
Proof.
  destruct r as [|c r]; [right; intros e x q E X; destruct X; discriminate|].
  destruct (escape_char c) as [o|] eqn:C; [left; exists [c], [o], r; split; [reflexivity|now constructor]|].
  assert (G : forall k, (forall (ds : bytes) n, length ds = k -> hex_number 0 ds = Some n -> is_scalar_value n = true -> escape (c :: ds) (encode_utf8 n)) ->
     (forall e x, escape (c :: e) x -> exists n, length e = k /\ hex_number 0 e = Some n /\ is_scalar_value n = true) ->
     (exists e x q, c :: r = e ++ q /\ escape e x) \/ (forall e x q, c :: r = e ++ q -> ~ escape e x)).
  { intros k X Y. destruct (hex_number 0 (firstn k r)) as [n|] eqn:H.
    - destruct (Nat.eq_dec (length (firstn k r)) k) as [L|L].
      + destruct (is_scalar_value n) eqn:V.
        * left. exists (c :: firstn k r), (encode_utf8 n), (skipn k r). split; [cbn; now rewrite firstn_skipn|now apply X].
        * right. intros e x q E Z. destruct e as [|c' e]; [inversion Z|]. injection E as <- E. apply Y in Z as (n' & L' & H' & V').
          subst r k. rewrite firstn_at in H. congruence.
      + right. intros e x q E Z. destruct e as [|c' e]; [inversion Z|]. injection E as <- E. apply Y in Z as (n' & L' & H' & V').
        subst r k. rewrite firstn_at in L. congruence.
    - right. intros e x q E Z. destruct e as [|c' e]; [inversion Z|]. injection E as <- E. apply Y in Z as (n' & L' & H' & V').
      subst r k. rewrite firstn_at in H. congruence. }
  destruct (N.eq_dec c 120) as [->|N1].
  { apply (G 2%nat); [intros; now apply esc_hex|]. intros e x Z. inversion Z as [k o K|ds n L H V|ds n L H V]; subst; [discriminate|eauto]. }
  destruct (N.eq_dec c 117) as [->|N2].
  { apply (G 4%nat); [intros; now apply esc_uni|]. intros e x Z. inversion Z as [k o K|ds n L H V|ds n L H V]; subst; [discriminate|eauto]. }
  right. intros e x q E Z. destruct Z as [k o K|ds n L H V|ds n L H V]; injection E as -> _; congruence.
Qed.
Definition no_escape (r : bytes) : Prop := forall e x q, r = e ++ q -> ~ escape e x.
Lemma dq_cases m : forall r : bytes, (length r <= m)%nat -> exists y v q, r = y ++ q /\ dqbody y v /\
  (stop q \/ exists r', q = BACKSLASH :: r' /\ no_escape r').
Proof.
  induction m as [|m IH]; intros r L; (destruct r as [|c r]; [exists [], [], []; repeat split; [constructor|left; now right]|]); cbn [length] in L; [lia|].
  destruct (N.eq_dec c DQUOTE) as [->|N1]; [exists [], [], (DQUOTE :: r); repeat split; [constructor|left; now left]|].
  destruct (N.eq_dec c EOF) as [->|N2]; [exists [], [], (EOF :: r); repeat split; [constructor|left; now right]|].
  destruct (N.eq_dec c BACKSLASH) as [->|N3].
  - destruct (escape_dec r) as [(e & x & q & -> & X)|NE].
    + destruct (IH q) as (y & v & q' & -> & D & S); [rewrite app_length in L; lia|].
      exists (BACKSLASH :: e ++ y), (x ++ v), q'. split; [cbn; now rewrite app_assoc|]. split; [now constructor|exact S].
    + exists [], [], (BACKSLASH :: r). repeat split; [constructor|]. right. eauto.
  - destruct (IH r) as (y & v & q & -> & D & S); [lia|]. exists (c :: y), (c :: v), q. repeat split; [now constructor|exact S].
Qed.
Lemma start_at0 input : input <> [] -> cut [] input -> headless input -> a_start_of_document input O = Ok ([], O).
Proof.
  intros NE C [H1 H2]. unfold a_start_of_document. assert (E : input = [] ++ [] ++ input) by reflexivity.
  change O with (length (@nil N)). rewrite (bind_ok _ _ _ _ _ (r_ws _ _ _ _ E C)).
  change (length ([] ++ [])) with (length (@nil N)). destruct (length input) as [|k] eqn:L; [now destruct input|].
  cbn [a_sod_loop]. rewrite (bind_ok _ _ _ _ _ (r_peek0 _ _ _ E)), (bind_ok _ _ _ _ _ (r_peek _ _ _ 1 E)), (bind_ok _ _ _ _ _ (r_peek _ _ _ 2 E)).
  cbn [app]. destruct (N.eqb_spec (hd EOF input) PERCENT) as [X|_]; [now elim H1|].
  destruct (_ && _) eqn:X; [|reflexivity]. exfalso. apply H2.
  rewrite !andb_true_iff, !N.eqb_eq in X. destruct X as [[X1 X2] X3]. destruct input; cbn in *; auto.
Qed.

(* ---- the string a document of one value shows ---- *)
Lemma root_shows hash input doc : from_slice hash input = Ok doc -> no_collision hash (doc_data doc) ->
  exists t suf, a_parse input = Ok (t, suf) /\ shows (doc_data doc) (doc_root doc) (see t).
Proof.
  intros F N. destruct (parse_models hash input doc F) as (t & suf & P & M). exists (shape t), suf. split; [exact P|].
  pose proof (models_int _ _ _ _ M N) as FI. rewrite see_shape. destruct M as (M & Ro & _). rewrite Ro.
  eapply tree_shows; [exact M|exact FI|apply sub_here].
Qed.
Lemma shows_string d id x s : shows d id x -> as_bstr d id = Ok (Some s) -> x = DStr s.
Proof.
  intros H A. destruct H as [i E|i v E|i y h E|i y E|i es xs E|i es xs E];
    pose proof (proj1 (proj2 (any_accessors _ _ _ E ltac:(discriminate)))) as B; cbn in B; congruence.
Qed.

Section One.
Variable input : bytes.
Local Notation len := (length input).
Local Notation seg := (slice input).
Local Ltac run := repeat (lazymatch goal with
  | |- wlp (bind a_get ?k) ?n ?Q => change (wlp (k n) n Q)
  | |- wlp (bind (a_rest _) ?k) ?n ?Q => change (wlp (k (skipn n input)) n Q)
  | |- wlp (bind (a_peek _ ?i) ?k) ?n ?Q => change (wlp (k (nth (n + i) input EOF)) n Q)
  | |- wlp (bind (a_eof _) ?k) ?n ?Q => change (wlp (k (Nat.eqb n len)) n Q)
  | |- wlp (bind (a_string _ ?s) ?k) ?n ?Q => change (wlp (k (seg s n)) n Q)
  | |- wlp (bind (a_indent _) ?k) ?n ?Q => change (wlp (k (indent_from input n)) n Q)
  | |- wlp (bind (a_set ?m) ?k) ?n ?Q => change (wlp (k tt) m Q)
  | |- wlp (bind (a_bump _ ?i) ?k) ?n ?Q => change (wlp (k tt) (Nat.min (n + i) len) Q)
  | |- wlp (bind (ret ?x) ?k) ?n ?Q => change (wlp (k x) n Q)
  end; cbv beta).
Lemma wlp_any {A} (m : AM A) n (Q : A -> nat -> Prop) : (forall a n', Q a n') -> wlp m n Q.
Proof. unfold wlp. intros H. destruct (m n) as [[a n']|? ? ?| | |]; auto. Qed.
Lemma wlp_any_bind {A B} (m : AM A) (k : A -> AM B) n (Q : B -> nat -> Prop) : (forall a n', wlp (k a) n' Q) -> wlp (bind m k) n Q.
Proof. intros H. apply wlp_bind with (R := fun _ _ => True); [now apply wlp_any|]. auto. Qed.

Lemma escape_len e x : escape e x -> (length x <= S (length e))%nat.
Proof.
  intros X. apply escape_yaml in X as Y. destruct X as [c o E|ds c L H V|ds c L H V]; cbn [length]; [lia|..].
  - rewrite L. unfold encode_utf8. repeat match goal with |- context [if ?z then _ else _] => destruct z end; cbn; lia.
  - rewrite L. unfold encode_utf8. repeat match goal with |- context [if ?z then _ else _] => destruct z end; cbn; lia.
Qed.
Lemma dqbody_len y v : dqbody y v -> (length v <= length y)%nat.
Proof.
  induction 1 as [|c y v N1 N2 N3 D IH|e x y v X D IH]; cbn [length]; [lia|lia|].
  apply escape_len in X. rewrite !app_length. lia.
Qed.
(* Whatever follows a double quote: the longest part that is the inside of quotes decides. *)
Lemma dq_reads (pre r : bytes) : input = pre ++ DQUOTE :: r ->
  wlp (a_double_quoted input) (length pre) (fun x n => exists y v q, r = y ++ q /\ dqbody y v /\ stop q /\ rs_id x = v).
Proof.
  intros E. destruct (dq_cases (length r) r (le_n _)) as (y & v & q & -> & D & [S|(r' & -> & NE)]).
  - unfold wlp. destruct q as [|c q].
    + rewrite app_nil_r in E. rewrite (r_dq input pre (DQUOTE :: y) v []).
      * exists y, v, []. auto.
      * right. split; [exists y; auto|reflexivity].
      * now rewrite app_nil_r.
    + rewrite (r_dq input pre (DQUOTE :: y ++ [c]) v q).
      * exists y, v, (c :: q). auto.
      * left. exists y, c. repeat split; auto.
      * rewrite E. cbn. now rewrite <- app_assoc.
  - unfold wlp. destruct (bad_dq input y v r' D NE pre E) as (n & k & Y & _). unfold byte, bytes in *. rewrite Y. exact Logic.I.
Qed.
(* A value that is no mapping or sequence, read where it can be either. *)
Lemma mapping_no_string s start x n (Q : bytes -> Prop) : as_parent_indent s = None ->
  wlp (a_mapping_or_nul input (a_value input len) s start x) n (fun r _ => forall v, see (fst r) = DStr v -> Q v).
Proof.
  intros P. unfold a_mapping_or_nul. rewrite P. apply wlp_any_bind. intros [items w] n'. apply wlp_ret. discriminate.
Qed.

Lemma quoted_root r t suf : input = DQUOTE :: r -> a_parse input = Ok (t, suf) -> forall v, see t = DStr v ->
  exists y q, r = y ++ q /\ dqbody y v /\ stop q.
Proof.
  intros E P. assert (W : wlp (a_parse_m input) O (fun x _ => forall v, see (fst x) = DStr v -> exists y q, r = y ++ q /\ dqbody y v /\ stop q)).
  { unfold a_parse_m. eapply wlp_bind with (R := fun p n => n = O).
    { unfold wlp. rewrite start_at0; [reflexivity|now rewrite E|rewrite E; now apply cut_nil|].
      rewrite E. split; cbn; [discriminate|intros []; discriminate]. }
    intros p n ->. eapply wlp_bind with (R := fun x _ => forall v, see (fst x) = DStr v -> exists y q, r = y ++ q /\ dqbody y v /\ stop q).
    { cbn [a_value]. unfold a_value_body. run. assert (A : nth (0 + 0) input EOF = DQUOTE) by now rewrite E. rewrite A.
      change (DQUOTE =? DASH) with false. change (DQUOTE =? DQUOTE) with true. cbn [andb]. run.
      eapply wlp_bind; [exact (dq_reads [] r E)|]. intros x n' (y & v & q & E' & D & S & X). run.
      destruct (negb _ && _); [now apply mapping_no_string|]. apply wlp_ret. cbn [fst see]. intros v' Q. injection Q as <-. exists y, q. subst v. auto. }
    intros [root w] n V. cbn [fst] in V. apply wlp_any_bind. intros w' n2. run. destruct (negb _); run; [apply wlp_err|]. apply wlp_ret. exact V. }
  unfold a_parse in P. unfold wlp in W. destruct (a_parse_m input O) as [[x n]|? ? ?| | |]; try discriminate. injection P as ->. exact W.
Qed.

Hypothesis no_nl : ~ In NEWLINE input.
Hypothesis no_quote : ~ In SQUOTE input.
Lemma in_skipn (c : byte) n : In c (skipn n input) -> In c input.
Proof. intros I. rewrite <- (firstn_skipn n input). apply in_or_app. now right. Qed.
Lemma ws_none (r : bytes) : ~ In NEWLINE r -> forall c, snd (ws_scan c r) = O.
Proof.
  induction r as [|a r IH]; intros N c; [reflexivity|]. assert (NR : ~ In NEWLINE r) by (intros X; apply N; now right).
  specialize (IH NR). assert (NA : a <> NEWLINE) by (intros ->; apply N; now left). apply N.eqb_neq in NA.
  pose proof (IH true) as I1. pose proof (IH false) as I2. cbn [ws_scan]. destruct (ws_scan true r), (ws_scan false r). cbn [snd] in *. subst.
  rewrite NA. destruct c; repeat match goal with |- context [if ?z then _ else _] => destruct z end; reflexivity.
Qed.
Lemma ws_moves n : (n <= len)%nat -> wlp (a_ws_nl input) n (fun r n' => (n <= n' <= len)%nat /\ snd r = O).
Proof.
  intros L. unfold a_ws_nl. run. pose proof (ws_none (skipn n input) (fun X => no_nl (in_skipn _ _ X)) false) as W.
  destruct (ws_scan false (skipn n input)) as [k nl]. run. apply wlp_ret. cbn in *. split; [lia|exact W].
Qed.
Lemma seg_len i j : (length (seg i j) <= j - i)%nat.
Proof. unfold slice. destruct (_ && _); [|cbn; lia]. rewrite firstn_length. lia. Qed.
Lemma trim_len (x : bytes) : (length (trim x) <= length x)%nat.
Proof.
  destruct (proj1 (trim_spec x (trim x)) eq_refl) as (u & v & _ & _ & E & _). rewrite E at 2. rewrite !app_length. lia.
Qed.
Lemma find_none n : wlp (a_find input NEWLINE) n (fun _ n' => n' = len).
Proof.
  unfold a_find. run. pose proof (memchr_spec NEWLINE (skipn n input)) as M. destruct (memchr NEWLINE (skipn n input)) as [k|]; [|reflexivity].
  exfalso. destruct M as (_ & _ & M). apply nth_error_In in M. now apply in_skipn in M.
Qed.
Lemma block_short h join folded chomp clip n : (0 < h)%nat -> (n < len)%nat ->
  wlp (a_block input h join folded chomp clip) n (fun r _ => forall p v, see (TLeaf tt p (fst r)) = DStr v -> (n + length v < len)%nat).
Proof.
  intros H L. unfold a_block. run. set (n1 := Nat.min (n + h) len).
  assert (L1 : (n < n1 <= len)%nat) by (subst n1; lia).
  eapply wlp_bind; [apply ws_moves; lia|]. intros [w nl] n2 [L2 N]. cbn in N. subst nl. cbn [Nat.eqb].
  eapply wlp_bind with (R := fun r n' => n' = len /\ snd (fst r) = O /\ (length (snd r) <= len - n1)%nat).
  { eapply wlp_bind; [apply find_none|]. intros _ n3 ->. run. eapply wlp_bind; [apply ws_moves; lia|]. intros [w' nl'] n4 [L4 N]. cbn in N. subst nl'.
    run. assert (n4 = len) as -> by lia. apply wlp_ret. split; [reflexivity|]. split; [reflexivity|]. cbn [snd fst]. rewrite Nat.eqb_refl, app_nil_r.
    pose proof (trim_len (seg n1 len)). pose proof (seg_len n1 len). lia. }
  intros [[w' nl'] acc] n3 (-> & N & LA). cbn in N, LA. subst nl'. run. cbn [a_block_loop]. apply wlp_bind_assoc. run. rewrite Nat.eqb_refl. run.
  apply wlp_ret. intros p v. cbn [fst see]. intros X. injection X as <-. cbn [Nat.min repeat].
  replace (if chomp then if clip then 0%nat else 0%nat else 0%nat) with O by (destruct chomp, clip; reflexivity). cbn [repeat]. rewrite app_nil_r. lia.
Qed.
(* No string shown by a document is longer than its text from the first byte of the value on,
   and one that begins with a quote or a block header is shorter. *)
Lemma value_short p n : (n <= len)%nat ->
  wlp (a_value input (S len) (AState p false true None)) n (fun r _ => forall v, see (fst r) = DStr v ->
    (n + length v <= len)%nat /\ (In (nth n input EOF) [DQUOTE; GT; PIPE] -> (n + length v < len)%nat) /\
    ~ In (nth n input EOF) [LBRACK; LBRACE] /\ ~ (nth n input EOF = DASH /\ is_ws (nth (n + 1) input EOF) = true)).
Proof.
  intros L. cbn [a_value]. unfold a_value_body. run. rewrite Nat.add_0_r. set (a := nth n input EOF). cbn [as_inline negb andb].
  rewrite andb_true_r.
  destruct ((a =? DASH) && is_ws (nth (n + 1) input EOF)) eqn:C1.
  { unfold a_sequence. run. apply wlp_any_bind. intros [items w] n'. apply wlp_ret. discriminate. }
  assert (ND : ~ (a = DASH /\ is_ws (nth (n + 1) input EOF) = true)).
  { intros [X Y]. rewrite X, Y in C1. discriminate. }
  clear C1.
  assert (IN : a <> EOF -> (n < len)%nat /\ exists r, input = firstn n input ++ a :: r /\ length (firstn n input) = n).
  { intros X. pose proof (nth_lt input n a eq_refl X) as [L2 _]. split; [exact L2|]. exists (skipn (S n) input).
    split; [|rewrite firstn_length; lia]. rewrite <- (firstn_skipn n input) at 1. f_equal. subst a.
    rewrite nth_skipn. replace (S n) with (1 + n)%nat by lia. rewrite <- skipn_add.
    assert (0 < length (skipn n input))%nat by (rewrite skipn_length; lia). destruct (skipn n input); [cbn in *; lia|reflexivity]. }
  destruct (N.eqb_spec a DQUOTE) as [A|ND1].
  { destruct IN as (L2 & r & E & LE); [rewrite A; discriminate|]. run. rewrite A in E.
    eapply wlp_bind.
    { pose proof (dq_reads (firstn n input) r E) as D. unfold byte, bytes in *. rewrite LE in D. exact D. }
    intros x n' (y & v & q & -> & D & S & X). run. destruct (_ =? COLON).
    - now apply mapping_no_string.
    - apply wlp_ret. cbn [fst see]. intros v' Q. injection Q as <-. subst v. apply dqbody_len in D.
      assert (n + length (rs_id x) < len)%nat. { pose proof (f_equal (@length N) E) as LL. rewrite app_length in LL. cbn [length] in LL. rewrite app_length in LL. unfold byte, bytes in *. lia. }
      split; [lia|]. split; [lia|]. split; [|exact ND]. rewrite A. cbn. intuition discriminate. }
  destruct (N.eqb_spec a SQUOTE) as [A|ND2].
  { exfalso. destruct IN as (_ & r & E & _); [rewrite A; discriminate|]. apply no_quote. rewrite E, A. apply in_or_app. right. now left. }
  destruct (N.eqb_spec a LBRACK) as [A|ND3].
  { apply wlp_bind with (R := fun t _ => forall v, see t <> DStr v).
    - unfold a_inline_sequence. run. apply wlp_any_bind. intros w n1. apply wlp_any_bind. intros [[items tr] w'] n2. run.
      destruct (negb _); run; [apply wlp_err|]. apply wlp_ret. discriminate.
    - intros t n' T. apply wlp_ret. intros v V. now elim (T v). }
  destruct (N.eqb_spec a LBRACE) as [A|ND4].
  { apply wlp_bind with (R := fun t _ => forall v, see t <> DStr v).
    - unfold a_inline_mapping. run. apply wlp_any_bind. intros w n1. apply wlp_any_bind. intros [[[items tr] w'] st] n2. run.
      destruct (negb _); run; [apply wlp_err|]. apply wlp_ret. discriminate.
    - intros t n' T. apply wlp_ret. intros v V. now elim (T v). }
  assert (NB : ~ In a [LBRACK; LBRACE]) by (cbn; intuition).
  destruct ((a =? GT) || (a =? PIPE)) eqn:C2.
  { destruct IN as (L2 & _); [intros X; rewrite X in C2; discriminate|].
    eapply wlp_bind; [apply block_short; [match goal with |- context [if ?z then _ else _] => destruct z end; lia|exact L2]|]. intros [r w] n' T. cbn [fst] in T. apply wlp_ret. cbn [fst as_prefix].
    intros v V. apply T in V. repeat split; auto; lia. }
  assert (NI : ~ In a [DQUOTE; GT; PIPE]).
  { apply orb_false_elim in C2 as [X Y]. apply N.eqb_neq in X, Y. cbn. intuition. }
  run. apply wlp_bind with (R := fun r n' => (n' <= len)%nat /\ match r with Some (ScNum _ _) | None => True | _ => False end).
  { unfold a_number. run. apply wlp_bind with (R := fun _ n' => (n' <= len)%nat); [match goal with |- context [if ?z then _ else _] => destruct z end; [apply wlp_bump; lia|now apply wlp_ret]|].
    intros _ n1 L1. run. destruct (num_scan _ _ _ _) as [k fl]. run. destruct (Nat.eqb k 0); [apply wlp_ret; split; [lia|exact Logic.I]|].
    unfold a_is_eol. apply wlp_bind_assoc. run. destruct (_ && _); [apply wlp_ret; split; [lia|exact Logic.I]|]. run. apply wlp_ret. split; [lia|exact Logic.I]. }
  intros num n1 [L1 NU]. destruct num as [r|].
  { apply wlp_ret. cbn [fst as_prefix see]. destruct r; try contradiction. discriminate. }
  apply wlp_bind with (R := fun r n' => (n' <= len)%nat).
  { unfold a_key_or_eol. run. destruct (key_scan _) as [k key]. run. destruct key; run; apply wlp_ret; lia. }
  intros key n2 L2. destruct key as [key|]; [now apply mapping_no_string|]. run. apply wlp_ret. cbn [fst as_prefix].
  intros v V. assert (v = seg n n2).
  { unfold a_plain in V. repeat match type of V with context [if ?z then _ else _] => destruct z end; try discriminate. now injection V. }
  subst v. pose proof (seg_len n n2). split; [lia|]. repeat split; auto; tauto.
Qed.
Lemma a_ws_moves n : (n <= len)%nat -> wlp (a_ws input) n (fun _ n' => (n <= n' <= len)%nat).
Proof. intros L. unfold a_ws. eapply wlp_bind; [now apply ws_moves|]. intros [w nl] n' [L' _]. now apply wlp_ret. Qed.
Lemma sod_moves f : input <> [] -> forall p n, (n <= len)%nat -> wlp (a_sod_loop input f p) n (fun _ n' => (n <= n' <= len)%nat /\ (n' = O -> headless input)).
Proof.
  intros NE. assert (LP : (0 < len)%nat) by (destruct input; [now elim NE|cbn; lia]).
  induction f as [|f IH]; intros p n L; [exact Logic.I|]. cbn [a_sod_loop]. run. rewrite Nat.add_0_r.
  destruct (N.eqb_spec (nth n input EOF) PERCENT) as [P|P].
  { eapply wlp_bind; [apply find_none|]. intros _ n1 ->. eapply wlp_bind; [apply a_ws_moves; lia|]. intros p' n2 L2. cbn beta in L2.
    eapply wlp_mono; [apply IH; lia|]. cbn. intros _ n3 [L3 H3]. split; [lia|exact H3]. }
  destruct ((_ =? DASH) && _ && _) eqn:D.
  { run. eapply wlp_mono; [apply a_ws_moves; lia|]. cbn. intros _ n3 L3. split; [lia|]. intros ->. lia. }
  apply wlp_ret. split; [lia|]. intros ->. split.
  - destruct input; exact P.
  - intros (D1 & D2 & D3). cbn [Nat.add] in D. assert (D0 : nth 0 input EOF = DASH) by (destruct input; exact D1). rewrite D0, D2, D3 in D. discriminate.
Qed.
Lemma start_moves : input <> [] -> wlp (a_start_of_document input) O (fun _ n => (n <= len)%nat /\
  (n = O -> ~ white (hd EOF input) /\ hd EOF input <> HASH /\ headless input)).
Proof.
  intros NE. unfold a_start_of_document.
  apply wlp_bind with (R := fun _ n => (n <= len)%nat /\ (n = O -> ~ white (hd EOF input) /\ hd EOF input <> HASH)).
  { unfold a_ws, a_ws_nl. apply wlp_bind_assoc. run. apply wlp_bind_assoc. run. cbn [skipn].
    pose proof (ws_white (hd EOF input) (tl input)) as W. pose proof (ws_hash (tl input)) as H.
    assert (E : input = hd EOF input :: tl input) by (destruct input; [now elim NE|reflexivity]).
    destruct (ws_scan false input) as [k nl] eqn:S. apply wlp_bind_assoc. run. apply wlp_bind_assoc. run. apply wlp_ret.
    assert (LP : (0 < len)%nat) by (destruct input; [now elim NE|cbn; lia]).
    split; [lia|]. intros Z. assert (k = O) as -> by lia. split.
    - intros X. apply W in X. rewrite <- E, S in X. discriminate.
    - intros X. rewrite <- X in H. rewrite <- E, S in H. discriminate. }
  intros p n [L H]. eapply wlp_mono; [now apply sod_moves|]. cbn. intros _ n' [L' H']. split; [lia|]. intros ->. destruct (H ltac:(lia)) as [H1 H2]. split; [exact H1|]. split; [exact H2|now apply H'].
Qed.
(* A text of one line without single quotes that shows itself as a string. *)
Lemma shows_itself t suf : a_parse input = Ok (t, suf) -> see t = DStr input -> input = [] \/
  (~ In (hd EOF input) [HASH; DQUOTE; SQUOTE; LBRACK; LBRACE; GT; PIPE] /\ ~ white (hd EOF input) /\ headless input /\
   ~ (hd EOF input = DASH /\ white (nth 1 input EOF))).
Proof.
  intros P S. destruct (list_eq_dec N.eq_dec input []) as [->|NE]; [now left|right].
  unfold a_parse in P. assert (W : wlp (a_parse_m input) O (fun r _ => see (fst r) = DStr input ->
    ~ In (hd EOF input) [HASH; DQUOTE; SQUOTE; LBRACK; LBRACE; GT; PIPE] /\ ~ white (hd EOF input) /\ headless input /\
    ~ (hd EOF input = DASH /\ white (nth 1 input EOF)))).
  { unfold a_parse_m. eapply wlp_bind; [now apply start_moves|]. intros p n [L H]. cbn beta in *.
    eapply wlp_bind; [now apply value_short|]. intros [root w] n1 V. cbn [fst] in V. apply wlp_any_bind. intros w' n2. run.
    destruct (negb _); run; [apply wlp_err|]. apply wlp_ret. cbn [fst]. intros E. destruct (V _ E) as (V1 & V2 & V3 & V4).
    assert (n = O) by lia. subst n. destruct (H eq_refl) as (H1 & H2 & H3).
    assert (HD : nth 0 input EOF = hd EOF input) by (destruct input; reflexivity). cbn [Nat.add] in *. unfold byte, bytes in *. rewrite HD in *.
    split; [|split; [exact H1|split; [exact H3|]]].
    - cbn [In] in *. intros [X|[X|[X|X]]]; [now elim H2| | |intuition lia].
      + enough (0 + length input < length input)%nat by lia. intuition.
      + apply no_quote. destruct input as [|c r]; [now elim NE|]. now left.
    - intros [X1 X2]. apply V4. split; [exact X1|]. now apply is_ws_white. }
  unfold wlp in W. destruct (a_parse_m input O) as [[r n]|? ? ?| | |]; try discriminate. injection P as ->. now apply W.
Qed.
End One.
