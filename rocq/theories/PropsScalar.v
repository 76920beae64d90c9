(* Properties of scalars as text: C15, C16, C17, C18, C19. *)
From Coq Require Import String.
From Coq Require Import List NArith ZArith Bool Arith Lia.
From Verif Require Import Bytes Utf8 Data Parser Render Tree Abs Refine Utf8Props Scan Num Api Ctx Edit Built Reads ReadsSound
  Shown Plain Grammar Laid GrammarSound Tests Refuted PropsParse PropsEdit PropsValue.
Import ListNotations.
Local Open Scope N_scope.

(* ---- documents of one scalar ---- *)
Lemma scalar_doc hash sc d post : (forall p, see (TLeaf tt p sc) = d) -> scal false [] sc post -> cut [] (wscalar sc ++ post) ->
  headless (wscalar sc ++ post) -> layout post -> reads_as_datum hash (wscalar sc ++ post) d.
Proof.
  intros S R C H L. rewrite <- (S []). apply (doc_reads hash (TLeaf tt [] sc) post). split; [exact C|]. split; [exact H|].
  split; [now constructor|now apply layout_end].
Qed.
Lemma quoted_doc hash x v post : quoted_text x v -> layout post -> reads_as_datum hash (x ++ post) (DStr v).
Proof.
  intros Q L. apply (scalar_doc hash (ScStr (RS KOriginal v x))); [reflexivity| | | |exact L].
  - assert (P : forall c, is_ws c = false -> c <> HASH -> c <> EOF -> hd EOF post <> c).
    { intros c W H Z. rewrite <- (app_nil_r post). apply layout_not; auto. }
    apply quoted_scal; [exact Q|now apply P|right; now apply P].
  - cbn. destruct Q; cbn; now apply cut_nil.
  - cbn. destruct Q; cbn; split; cbn; try discriminate; intros []; discriminate.
Qed.

(* ---- C15 ---- *)
Lemma esc_single_content s : sq_content (esc_single_body s) s.
Proof.
  induction s as [|c s IH]; cbn; [constructor|]. destruct (N.eqb_spec c SQUOTE) as [->|N].
  - now apply sc_pair.
  - now constructor.
Qed.
Lemma esc_single_quoted s : quoted_text (esc_single s) s.
Proof. apply qt_single, esc_single_content. Qed.
(* The text a value prints as, once it is set to a string of the given kind. *)
Lemma set_string_writes hash doc id s k r d' : built hash doc -> value_of doc id -> no_collision hash d' ->
  run hash id (SetStringWith s k) (doc_data doc) = Ok (r, d') ->
  value_write_to d' id = Ok (wscalar (ScStr (RS (askind k) s s))).
Proof.
  intros B V N E. destruct (edit_setup _ _ _ _ _ _ _ _ B V E N) as (c & v & v' & suf & ST).
  pose proof (st_eff ST) as F. rewrite <- (st_id' ST). rewrite (st_vw' ST v' (sub_plug c v')). f_equal.
  apply set_effect in F as (sc & A & _ & ->); [|exact Logic.I]. cbn in A. injection A as <-. reflexivity.
Qed.
Theorem C15_single_quotes : forall hash doc id s r d' out,
  built hash doc -> value_of doc id -> no_collision hash d' ->
  run hash id (SetStringWith s SSingle) (doc_data doc) = Ok (r, d') -> value_write_to d' id = Ok out ->
  exists doc', from_slice hash out = Ok doc' /\
    (no_collision hash (doc_data doc') -> as_bstr (doc_data doc') (doc_root doc') = Ok (Some s) /\ write_to doc' = Ok out).
Proof.
  intros hash doc id s r d' out B V N E W. rewrite (set_string_writes _ _ _ _ _ _ _ B V N E) in W. injection W as <-.
  destruct (quoted_doc hash (esc_single s) s [] (esc_single_quoted s) lay_nil) as (doc' & F & G). rewrite app_nil_r in *.
  exists doc'. split; [exact F|]. intros NC. destruct (G NC) as [S P]. split; [|exact P].
  inversion S as [| | |? ? A| |]; subst. exact (proj1 (proj2 (any_accessors _ _ _ A ltac:(discriminate)))).
Qed.
Print Assumptions C15_single_quotes.
Example C15_case :
  let s := b "it's: 'x' # \n" ++ [NEWLINE; 0; 255] in
  reread (b "a: 1") SSingle s = Some (Some s).
Proof. vm_compute. reflexivity. Qed.

(* ---- C16 ---- *)
Lemma esc_byte c : c <> DQUOTE -> c <> BACKSLASH -> forall y v, dq_content y v -> dq_content (esc_double_byte c ++ y) (c :: v).
Proof.
  intros N1 N2 y v D. unfold esc_double_byte.
  assert (E : forall k e, c = k -> yaml_escape [e] [k] -> dq_content ([BACKSLASH; e] ++ y) (c :: v)).
  { intros k e -> H. exact (dc_esc _ _ _ _ H D). }
  repeat match goal with |- context [if c =? ?k then _ else _] => destruct (N.eqb_spec c k) as [Q|?]; [(eapply E; [exact Q|constructor; fail])|] end.
  destruct (N.eqb_spec c DQUOTE) as [|_]; [now elim N1|].
  destruct (is_ascii_control c) eqn:K.
  - unfold is_ascii_control in K. apply orb_prop in K as [K|K]; [apply N.ltb_lt in K|apply N.eqb_eq in K].
    + assert (L : c < 128) by lia. apply (dc_esc (b "x" ++ [hex_digit (c / 16); hex_digit (c mod 16)]) [c] y v); [|exact D].
      assert (H : forall n, n < 16 -> hex (hex_digit n) n).
      { intros z Hn. unfold hex_digit. destruct (N.ltb_spec z 10).
        - replace z with (48 + z - 48) at 2 by lia. apply hex_dig. unfold digit. lia.
        - replace z with (87 + z - 87) at 2 by lia. apply hex_lower. lia. }
      apply (ye_x _ _ (c / 16) (c mod 16)).
      * apply H. apply N.div_lt_upper_bound; lia.
      * apply H. apply N.mod_lt. discriminate.
      * rewrite <- N.div_mod by discriminate. now constructor.
    + subst c. apply (dc_esc (b "x7f") [127] y v); [|exact D]. apply (ye_x _ _ 7 15); [apply (hex_dig 55)|apply (hex_lower 102)|]; try (unfold digit; lia). now constructor.
  - apply dc_byte; [|auto|exact D]. cbn. intuition.
Qed.
Lemma esc_double_content s : ~ In DQUOTE s -> ~ In BACKSLASH s -> dq_content (flat_map esc_double_byte s) s.
Proof.
  induction s as [|c s IH]; intros N1 N2; [constructor|]. cbn [flat_map]. apply esc_byte.
  - intros ->. apply N1. now left.
  - intros ->. apply N2. now left.
  - apply IH; intros I; [apply N1|apply N2]; now right.
Qed.
(* Missing from C16: strings with a double quote or a backslash, see C16_quote_refuted and
   C16_backslash_refuted. *)
Theorem C16_double_quotes_partial : forall hash doc id s r d' out,
  built hash doc -> value_of doc id -> no_collision hash d' -> ~ In DQUOTE s -> ~ In BACKSLASH s ->
  run hash id (SetStringWith s SDouble) (doc_data doc) = Ok (r, d') -> value_write_to d' id = Ok out ->
  exists doc', from_slice hash out = Ok doc' /\
    (no_collision hash (doc_data doc') -> as_bstr (doc_data doc') (doc_root doc') = Ok (Some s) /\ write_to doc' = Ok out).
Proof.
  intros hash doc id s r d' out B V N N1 N2 E W. rewrite (set_string_writes _ _ _ _ _ _ _ B V N E) in W. injection W as <-.
  assert (Q : quoted_text (esc_double s) s) by now apply qt_double, esc_double_content.
  destruct (quoted_doc hash (esc_double s) s [] Q lay_nil) as (doc' & F & G). rewrite app_nil_r in *.
  exists doc'. split; [exact F|]. intros NC. destruct (G NC) as [S P]. split; [|exact P].
  inversion S as [| | |? ? A| |]; subst. exact (proj1 (proj2 (any_accessors _ _ _ A ltac:(discriminate)))).
Qed.
Print Assumptions C16_double_quotes_partial.
Example C16_case :
  let s := b "it's: # {a" ++ [NEWLINE; 0; 27; 31; 127; 255] in
  reread (b "a: 1") SDouble s = Some (Some s).
Proof. vm_compute. reflexivity. Qed.

(* ---- C18 ---- *)
(* A line that starts no other construct, and the end of the line. *)
Definition plain_doc (l post : bytes) : Prop :=
  (l = [] \/ plain_start l) /\ keyless l /\ doc_start l /\ ended post /\ layout post.
(* A number and blanks. *)
Definition number_line (l x : bytes) (h : hint) : Prop := exists bl, l = x ++ bl /\ Forall blank bl /\ number_text x h.
Lemma headless_doc l post : doc_start l -> ended post -> headless (l ++ post).
Proof. intros D E. apply headless_app; [exact D|]. intros c C. apply ended_hd; [exact E|..]; cbn in C; intuition (subst; discriminate). Qed.
Lemma blanks_layout bl post : Forall blank bl -> layout post -> layout (bl ++ post).
Proof. induction 1 as [|c bl C F IH]; intros L; [exact L|]. cbn. apply lay_ws; auto. cbn in *. tauto. Qed.
Lemma plain_doc_reads_det l x h x' h' : number_line l x h -> number_line l x' h' -> x = x' /\ h = h'.
Proof.
  intros (bl & E & B & U) (bl' & E' & B' & U').
  assert (NL : forall bl, Forall blank bl -> numless bl).
  { intros z [|c z' C _]; [split; [reflexivity|cbn; unfold EOF, DOT; intuition discriminate]|]. cbn in C.
    split; cbn; [|unfold DOT; intuition lia]. unfold is_digit. apply andb_false_iff. left. apply N.leb_gt. intuition lia. }
  assert (R : forall x h bl, number_text x h -> Forall blank bl -> num_read true (x ++ bl) = Some (length x, h)).
  { intros y k z V Z. apply num_read_number; auto. }
  pose proof (R _ _ _ U B) as R1. pose proof (R _ _ _ U' B') as R2. rewrite <- E in R1. rewrite <- E' in R2. rewrite R1 in R2.
  injection R2 as L ->. split; [|reflexivity]. rewrite E in E'.
  rewrite <- (firstn_at x bl), E', L. apply firstn_at.
Qed.
Lemma plain_doc_reads hash l post : plain_doc l post -> exists d, reads_as_datum hash (l ++ post) d /\
  ((exists x h, d = DNum x h /\ number_line l x h) \/ (forall x h, ~ number_line l x h) /\ plain_datum l d).
Proof.
  intros (S & K & D & E & L). pose proof (headless_doc l post D E) as HL.
  assert (NL : forall x h, number_line l x h -> reads_as_datum hash (l ++ post) (DNum x h)).
  { intros x h (bl & -> & B & U). rewrite <- app_assoc in *. apply (scalar_doc hash (ScNum x h)); auto.
    - assert (PS : plain_start x).
      { destruct (number_hd _ _ U) as (c & r & -> & C). exists c, r. split; [reflexivity|]. split; [|split].
        - unfold white, digit, DOT, DASH in *. cbn. intuition lia.
        - unfold digit, DOT, DASH in *. cbn. unfold HASH, DQUOTE, SQUOTE, LBRACK, LBRACE, GT, PIPE. intuition lia.
        - intros ->. destruct U as [(fl & U & _)|(y & fl & Y & U & _)].
          + destruct (unsigned_hd _ _ U) as (c' & r' & Q & C'). injection Q as <- <-. unfold digit, DOT, DASH in C'. lia.
          + injection Y as <-. destruct (unsigned_hd _ _ U) as (c' & r' & -> & C'). exists c', r'. split; [reflexivity|].
            unfold white, digit, DOT in *. cbn. intuition lia. }
      apply L_num.
      + now apply plain_special.
      + apply num_read_number; [exact U| |right; now apply blanks_eol].
        destruct bl as [|c bl]; [now apply ended_numless|]. inversion B as [|? ? C]. subst. cbn in C.
        split; cbn; [|unfold DOT; intuition lia]. unfold is_digit. apply andb_false_iff. left. apply N.leb_gt. intuition lia.
    - destruct (number_hd _ _ U) as (c & r & -> & C). cbn [wscalar app]. apply cut_nil.
      + apply not_white. unfold white, digit, DOT, DASH in *. cbn. intuition lia.
      + intros ->. unfold digit, DOT, DASH, HASH in C. lia.
    - now apply blanks_layout. }
  destruct (num_read false (l ++ post)) as [[k h]|] eqn:Q.
  - apply num_read_inv in Q as (y & r' & Q & -> & U & [?|O]); [discriminate|].
    assert (C : exists z, l = y ++ z /\ r' = z ++ post).
    { destruct (le_lt_dec (length y) (length l)) as [Le|Lt].
      - destruct (split_at y r' l post (eq_sym Q) Le) as (z & -> & ->). eauto.
      - destruct (split_at l post y r' Q ltac:(lia)) as (z & -> & ->). rewrite app_length in Lt.
        destruct z as [|c z]; [cbn in Lt; lia|]. destruct E as [E|E]; [discriminate|]. cbn in E. subst c. exfalso.
        apply (number_not _ _ (fun c => c <> NEWLINE) NEWLINE U); auto; try discriminate.
        + apply in_or_app. right. now left.
        + unfold digit, NEWLINE. intros; lia. }
    destruct C as (z & -> & ->). exists (DNum y h).
    assert (X : number_line (y ++ z) y h).
    { exists z. split; [reflexivity|]. split; [|exact U]. apply (eol_blanks z post); auto. intros I. apply (proj1 K). apply in_or_app. auto. }
    split; [now apply NL|]. left. eauto.
  - assert (NN : forall x h, ~ number_line l x h).
    { intros x h (bl & -> & B & U). rewrite <- app_assoc in Q. rewrite (num_read_number false x h) in Q; [discriminate|exact U| |right; now apply blanks_eol].
      destruct bl as [|c bl]; [now apply ended_numless|]. inversion B as [|? ? C]. subst. cbn in C.
      split; cbn; [|unfold DOT; intuition lia]. unfold is_digit. apply andb_false_iff. left. apply N.leb_gt. intuition lia. }
    destruct (plain_total l) as [d PD]. exists d. split; [|right; auto].
    assert (NT : forall h, ~ number_text l h).
    { intros h U. apply (NN l h). exists []. rewrite app_nil_r. auto. }
    destruct S as [->|S].
    { rewrite <- (a_plain_see [] d PD NT). pose proof (doc_reads hash (TLeaf tt post (a_plain [])) []) as R.
      cbn in R. rewrite app_nil_r in R. apply R. split; [now apply layout_end|]. split.
      { split; cbn; [discriminate|intros []; discriminate]. }
      split; [|reflexivity]. constructor. apply (L_plain post [] []); reflexivity. }
    rewrite <- (wscalar_plain l). apply scalar_doc; rewrite ?wscalar_plain; auto.
    + intros p. rewrite <- (a_plain_see l d PD NT). reflexivity.
    + apply L_plain; [now apply plain_special|exact Q|now apply keyless_scan].
    + now apply plain_cut.
Qed.
Theorem C18_plain_line : forall hash l post, plain_doc l post ->
  exists doc, from_slice hash (l ++ post) = Ok doc /\
    (no_collision hash (doc_data doc) ->
      let shown := as_any (doc_data doc) (doc_root doc) in
      write_to doc = Ok (l ++ post) /\
      (shown = Ok ANull <-> l = b "~" \/ spelled l (b "null")) /\
      (shown = Ok (ABool true) <-> spelled l (b "true")) /\
      (shown = Ok (ABool false) <-> spelled l (b "false")) /\
      (forall x h, shown = Ok (ANumber x h) <-> number_line l x h) /\
      (forall x, shown = Ok (AString x) <-> x = l /\ l <> b "~" /\ ~ spelled l (b "null") /\ ~ spelled l (b "true") /\
         ~ spelled l (b "false") /\ forall y h, ~ number_line l y h)).
Proof.
  intros hash l post P. destruct (plain_doc_reads hash l post P) as (d & (doc & F & G) & C). exists doc. split; [exact F|].
  intros N. destruct (G N) as [S W]. cbn zeta. split; [exact W|]. clear F G N W.
  assert (KN : forall x h kw, number_line l x h -> spelled l kw -> In kw [b "null"; b "true"; b "false"] -> False).
  { intros x h kw (bl & -> & _ & U) Sp I. destruct (number_hd _ _ U) as (c & r & -> & H). unfold digit, DOT, DASH in H.
    cbn in I. decompose [or] I; subst; try contradiction; apply spelled_hd in Sp as (a & r' & Q & H'); injection Q as -> _; cbn in H'; lia. }
  assert (KT : forall x h, number_line l x h -> l <> b "~").
  { intros x h (bl & -> & _ & U) Q. destruct (number_hd _ _ U) as (c & r & -> & H). unfold digit, DOT, DASH in H. injection Q as -> _. lia. }
  assert (A : exists a, as_any (doc_data doc) (doc_root doc) = Ok a /\ match d with
    | DNull => a = ANull | DBool v => a = ABool v | DNum x h => a = ANumber x h | DStr s => a = AString s | _ => True end).
  { inversion S; subst; eauto. }
  destruct A as (a & -> & A).
  assert (PI : forall d', plain_datum l d' -> (exists x h, number_line l x h) \/ d' = d).
  { intros d' Q. destruct C as [(x & h & _ & X)|[_ X]]; [left; eauto|right]. eapply plain_det; eauto. }
  assert (Q1 : l = b "~" -> d = DNull). { intros E. destruct (PI DNull) as [(x & h & X)|]; [rewrite E; constructor|now apply KT in X|auto]. }
  assert (Q2 : spelled l (b "null") -> d = DNull). { intros E. destruct (PI DNull) as [(x & h & X)|]; [now apply pd_null|elim (KN _ _ _ X E); cbn; auto|auto]. }
  assert (Q3 : spelled l (b "true") -> d = DBool true). { intros E. destruct (PI (DBool true)) as [(x & h & X)|]; [now apply pd_true|elim (KN _ _ _ X E); cbn; auto|auto]. }
  assert (Q4 : spelled l (b "false") -> d = DBool false). { intros E. destruct (PI (DBool false)) as [(x & h & X)|]; [now apply pd_false|elim (KN _ _ _ X E); cbn; auto|auto]. }
  assert (Q5 : forall x h, number_line l x h -> d = DNum x h).
  { intros x h X. destruct C as [(x' & h' & -> & X')|[NX _]]; [|now elim (NX x h)].
    destruct (plain_doc_reads_det l x h x' h' X X') as [-> ->]. reflexivity. }
  assert (D : (d = DNull /\ (l = b "~" \/ spelled l (b "null"))) \/ (d = DBool true /\ spelled l (b "true")) \/ (d = DBool false /\ spelled l (b "false")) \/
    (exists x h, d = DNum x h /\ number_line l x h) \/
    (d = DStr l /\ l <> b "~" /\ ~ spelled l (b "null") /\ ~ spelled l (b "true") /\ ~ spelled l (b "false") /\ forall y h, ~ number_line l y h)).
  { destruct C as [X|[NX X]]; [auto 8|]. destruct X as [|x Sp|x Sp|x Sp|x h U|x T1 T2 T3 T4 T5].
    - left. auto.
    - left. auto.
    - right; left. auto.
    - right; right; left. auto.
    - elim (NX x h). exists []. rewrite app_nil_r. auto.
    - right; right; right; right. repeat split; auto. }
  clear - A D Q1 Q2 Q3 Q4 Q5.
  assert (AD : (a = ANull <-> d = DNull) /\ (forall v, a = ABool v <-> d = DBool v) /\
    (forall x h, a = ANumber x h <-> d = DNum x h) /\ (forall x, a = AString x <-> d = DStr x)).
  { destruct D as [[Ed _]|[[Ed _]|[[Ed _]|[(x & h & Ed & _)|[Ed _]]]]]; rewrite Ed in A; subst a; rewrite Ed; repeat split; congruence. }
  destruct AD as (AN & AB & AU & AS).
  assert (OK : forall x y : any, Ok x = Ok y <-> x = y) by (intros; split; congruence). clear A.
  repeat match goal with |- (_ <-> _) /\ _ => split | |- (forall _, _) /\ _ => split end; intros; rewrite OK, ?AN, ?AB, ?AU, ?AS; split.
  - intros E. destruct D as [[_ X]|[[X _]|[[X _]|[(x & h & X & _)|[X _]]]]]; [exact X|congruence..].
  - intros [X|X]; auto.
  - intros E. destruct D as [[X _]|[[_ X]|[[X _]|[(x & h & X & _)|[X _]]]]]; [congruence|exact X|congruence..].
  - auto.
  - intros E. destruct D as [[X _]|[[X _]|[[_ X]|[(x & h & X & _)|[X _]]]]]; [congruence..|exact X|congruence|congruence].
  - auto.
  - intros E. destruct D as [[X _]|[[X _]|[[X _]|[(y & k & X & Y)|[X _]]]]]; [congruence..| |congruence].
    rewrite E in X. injection X as -> ->. exact Y.
  - auto.
  - intros E. destruct D as [[X _]|[[X _]|[[X _]|[(y & k & X & Y)|[X Y]]]]]; [congruence..|].
    split; [congruence|exact Y].
  - intros (-> & N1 & N2 & N3 & N4 & N5).
    destruct D as [[X [Y|Y]]|[[X Y]|[[X Y]|[(y & k & X & Y)|[X Y]]]]]; [now elim N1|now elim N2|now elim N3|now elim N4|now elim (N5 y k)|exact X].
Qed.
Print Assumptions C18_plain_line.
(* Checks used only for the concrete cases. *)
Fixpoint keyless_check (x : bytes) : bool := match x with
  | [] => true
  | c :: r => negb (c =? NEWLINE) && (negb (c =? COLON) || match r with c' :: _ => negb (is_ws c') && negb (c' =? 0) | [] => false end) && keyless_check r
  end.
Lemma keyless_checked x : keyless_check x = true -> keyless x.
Proof.
  induction x as [|c x IH]; intros H.
  - split; [intros []|]. intros [|] c E; discriminate.
  - cbn [keyless_check] in H. rewrite !andb_true_iff in H. destruct H as [[H1 H2] H3]. destruct (IH H3) as [N K]. split.
    + intros [->|I]; [discriminate|now apply N].
    + intros [|a0 a] r E; injection E as -> ->; [|eapply K; reflexivity].
      cbn in H2. destruct r as [|c' r]; [discriminate|]. apply andb_true_iff in H2 as [W Z]. exists c', r. split; [reflexivity|].
      split; [intros W'; apply is_ws_white in W'; now rewrite W' in W|intros ->; discriminate].
Qed.
Definition plain_start_check (x : bytes) : bool := match x with
  | c :: r => negb (is_ws c) && negb (existsb (N.eqb c) [HASH; DQUOTE; SQUOTE; LBRACK; LBRACE; GT; PIPE]) &&
      (negb (c =? DASH) || match r with c' :: _ => negb (is_ws c') | [] => false end)
  | [] => false end.
Lemma plain_start_checked x : plain_start_check x = true -> plain_start x.
Proof.
  destruct x as [|c r]; [discriminate|]. unfold plain_start_check. rewrite !andb_true_iff. intros [[W M] D]. exists c, r.
  split; [reflexivity|]. split; [intros X; apply is_ws_white in X; now rewrite X in W|]. split.
  - intros I. assert (X : existsb (N.eqb c) [HASH; DQUOTE; SQUOTE; LBRACK; LBRACE; GT; PIPE] = true); [|now rewrite X in M].
    apply existsb_exists. exists c. split; [exact I|apply N.eqb_refl].
  - intros ->. cbn in D. destruct r as [|c' r']; [discriminate|]. exists c', r'. split; [reflexivity|].
    intros X. apply is_ws_white in X. now rewrite X in D.
Qed.
Example C18_case :
  plain_doc (b "NuLL") ([NEWLINE] ++ b "# end") /\ plain_doc (b "a:b, c") [NEWLINE] /\ plain_doc (b "-1.5e3 ") [] /\
  map (fun t => match load (b t) with Ok doc => match as_any (doc_data doc) (doc_root doc) with Ok a => Some a | _ => None end | _ => None end)
    ["~"; "NuLL"; "tRUE"; "False"; "12"; "-1.5e3 "; "a:b, c"; "true "; "12 # x"]%string =
  map Some [ANull; ANull; ABool true; ABool false; ANumber (b "12") Unsigned64; ANumber (b "-1.5e3") Float64;
    AString (b "a:b, c"); AString (b "true "); AString (b "12 # x")].
Proof.
  assert (P : forall l post, plain_start_check l = true -> keyless_check l = true -> hd EOF l <> hd EOF (b "%") ->
    firstn 3 l <> b "---" -> ended post -> layout post -> plain_doc l post).
  { intros l post A B C D E F. repeat split; auto using plain_start_checked; try (apply keyless_checked; assumption).
    - intros (r & ->). now apply C.
    - intros (r & ->). now apply D. }
  split; [|split; [|split]].
  4: vm_compute; reflexivity.
  all: apply P; try (vm_compute; reflexivity); try (vm_compute; discriminate).
  - now right.
  - apply lay_ws; [cbn; auto|]. apply (lay_open (b " end")). vm_compute. intuition discriminate.
  - now right.
  - apply lay_ws; [cbn; auto|constructor].
  - now left.
  - constructor.
Qed.
