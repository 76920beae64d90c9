(* Properties of edited documents: C38. *)
From Coq Require Import String.
From Coq Require Import List NArith ZArith Bool Arith Lia.
From Verif Require Import Bytes Utf8 Data Parser Render Tree Abs Refine Utf8Props Scan Num Api Ctx Edit Built Reads ReadsSound
  Shown Plain Grammar Laid GrammarSound Tests Refuted PropsParse PropsEdit PropsColl PropsValue PropsScalar PropsScalar2 PropsText.
From Verif Require Import Swap Repost Grow Open Tidy Session Back Check.
Import ListNotations.
Local Open Scope N_scope.
Local Notation text := Utf8Props.text.

(* ---- C38 ---- *)
(* The text of a session is a text of the grammar for the data of the session: it is read as
   these data, and the document shows the same, up to the type hints of numbers. *)
Theorem C38_session : forall hash doc D, session hash doc D None -> no_collision hash (doc_data doc) ->
  exists out d, write_to doc = Ok out /\ doc_text out D /\ reads_as_datum hash out D /\ shows (doc_data doc) (doc_root doc) d /\ sim d D.
Proof. exact session_reads. Qed.
Print Assumptions C38_session.

(* The calls whose scalars read back: nulls, bools, numbers, and strings that print as quoted or
   as plain texts that stand for themselves. *)
Definition string_call (e : edit) (s : bytes) : Prop := match e with SetString x | InsertStr _ x | PushString x => x = s | _ => False end.
Definition bool_call (e : edit) (v : bool) : Prop := match e with SetBool x | InsertBool _ x | PushBool x => x = v | _ => False end.
Definition int_call (e : edit) (z : Z) : Prop := match e with SetInt _ x | InsertInt _ _ x | PushInt _ x => x = z | _ => False end.
Definition float_call (e : edit) (t : bytes) : Prop := match e with SetFloat _ x | InsertFloat _ _ x | PushFloat _ x => x = t | _ => False end.
Inductive scalar_call : edit -> datum -> Prop :=
| sc_null k : k <> NuEmpty -> scalar_call (SetNull k) DNull
| sc_bool e v : bool_call e v -> scalar_call e (DBool v)
| sc_int e z t : int_call e z -> decimal t z -> scalar_call e (DNum t (if (z <? 0)%Z then Signed64 else Unsigned64))
| sc_float e t h : float_call e t -> number_text t h -> scalar_call e (DNum t h)
| sc_string e s : string_call e s -> utf8 s = true -> settable s -> s <> [] -> ~ white (last s 0) -> scalar_call e (DStr s)
| sc_single s : scalar_call (SetStringWith s SSingle) (DStr s)
| sc_double s : ~ In DQUOTE s -> ~ In BACKSLASH s -> scalar_call (SetStringWith s SDouble) (DStr s).
(* Those that read back in flow collections as well: numbers and strings in quotes. *)
Inductive flow_call : edit -> Prop :=
| fc_int e z : int_call e z -> flow_call e
| fc_float e t : float_call e t -> flow_call e
| fc_single s : flow_call (SetStringWith s SSingle)
| fc_double s : flow_call (SetStringWith s SDouble).

Lemma decimal_number t z : decimal t z -> number_text t (if (z <? 0)%Z then Signed64 else Unsigned64).
Proof.
  assert (G : forall s n, denotes s n -> Forall digit s /\ s <> []).
  { induction 1 as [c C|s n c H [IH NE] C]; [split; [constructor; [exact C|constructor]|discriminate]|]. split; [|now destruct s].
    apply Forall_app. split; [exact IH|]. constructor; [exact C|constructor]. }
  intros [(P & D & _)|(P & r & -> & D & _)]; apply G in D as [F NE].
  - replace (z <? 0)%Z with false by (symmetry; apply Z.ltb_ge; lia). left. exists false. split; [now constructor|reflexivity].
  - replace (z <? 0)%Z with true by (symmetry; apply Z.ltb_lt; lia). right. exists r, false. split; [reflexivity|]. split; [now constructor|reflexivity].
Qed.
Lemma denotes_head s n : denotes s n -> hd 48 s <> 48 -> 0 < n.
Proof.
  induction 1 as [c C|s n c H IH C]; cbn [hd]; intros NE; [lia|]. destruct s as [|a s]; [now inversion H; destruct s|]. cbn [app hd] in *. specialize (IH NE). lia.
Qed.
Lemma canonical_only s : forall s' n, canonical s n -> canonical s' n -> s = s'.
Proof.
  assert (H : forall s n, canonical s n -> (exists c, s = [c] /\ 48 <= c <= 57 /\ n = c - 48) \/
    exists r m c, s = r ++ [c] /\ canonical r m /\ 0 < m /\ 48 <= c <= 57 /\ n = 10 * m + (c - 48)).
  { intros t n [D C]. inversion D as [c H|r m c H1 H2]; subst; [left; exists c; auto|]. right.
    assert (NE : r <> []) by (apply digits_value_denotes in H1; tauto).
    assert (HD : hd 48 r <> 48). { destruct r as [|a r]; [congruence|]. cbn in *. destruct C as [E|(a' & r' & E & A)]; [destruct r; discriminate|]. congruence. }
    exists r, m, c. split; [reflexivity|]. split; [split; [exact H1|]|split; [eapply denotes_head; eauto|auto]].
    right. destruct r as [|a r]; [congruence|]. eauto. }
  induction s as [|x s IH] using rev_ind; intros s' n C C'.
  - destruct C as [D _]. apply digits_value_denotes in D as [D _]. congruence.
  - apply H in C as [(c & E & R & ->)|(r & m & c & E & Cr & Pm & R & ->)]; apply H in C' as [(c' & -> & R' & E')|(r' & m' & c' & -> & Cr' & Pm' & R' & E')]; try lia.
    + rewrite E. f_equal. lia.
    + apply app_inj_tail in E as [<- <-]. assert (m = m') as <- by lia. f_equal; [eapply IH; eauto|f_equal; lia].
Qed.
Lemma itoa_only t z : decimal t z -> t = itoa z.
Proof.
  intros D. destruct (itoa_decimal z) as [(P & C)|(P & r & E & C)]; destruct D as [(P' & C')|(P' & r' & E' & C')]; try lia.
  - eapply canonical_only; eauto.
  - rewrite E, E'. f_equal. eapply canonical_only; eauto.
Qed.
Lemma number_doc t h : number_text t h -> doc_start t.
Proof.
  assert (G : forall y fl, unsigned_number y fl -> hd 0 y <> DASH).
  { intros y fl U E. assert (D : forall a r : bytes, Forall digit a -> hd 0 (a ++ r) = DASH -> a = []).
    { intros [|c a] r F X; [reflexivity|]. cbn in X. subst c. inversion F as [|? ? D]; unfold digit, DASH in D; lia. }
    destruct U as [a F N|a c F|a e c F N EE|a c e f F]; [rewrite <- (app_nil_r a) in E| | |]; apply D in E as X; auto; subst a; try congruence; discriminate E. }
  intros U. split; intros [r E].
  - destruct (number_hd _ _ U) as (c & r' & X & H). rewrite E in X. injection X as <- _. unfold digit, DOT, DASH in H. lia.
  - destruct U as [(fl & U & _)|(y & fl & X & U & _)]; apply G in U; apply U; [now rewrite E|]. rewrite E in X. injection X as <-. reflexivity.
Qed.
Lemma quoted_start x s : quoted_text x s -> doc_start x.
Proof. intros Q. destruct (quoted_hd _ _ Q) as (c & r & -> & H). split; intros [q E]; injection E as -> _; destruct H; discriminate. Qed.
Lemma word_line x : plain_start x -> ~ In COLON x -> ~ In NEWLINE x -> ~ white (last x 0) -> plain_line x.
Proof.
  intros P C N W. split; [exact P|]. split; [|exact W]. split; [exact N|]. intros a c ->. exfalso. apply C, in_or_app. right. now left.
Qed.
Lemma scalar_writes {I} (v : tree I) e d sc : scalar_call e d -> ascalar v e = Some sc ->
  means e d /\ written (wscalar sc) d /\ doc_start (wscalar sc) /\ (flow_call e -> portable (wscalar sc) d).
Proof.
  assert (WD : forall x d0, plain_datum x d0 -> forallb (fun c => (97 <=? c) && (c <=? 122) || (c =? 126)) x = true -> x <> [] -> written x d0 /\ doc_start x).
  { intros x d0 PD F NE. rewrite forallb_forall in F. assert (G : forall c, In c x -> 97 <= c <= 122 \/ c = 126).
    { intros c J. apply F, orb_prop in J as [J|J]; [apply andb_prop in J as [A C]; apply N.leb_le in A, C|apply N.eqb_eq in J]; lia. }
    split.
    - left. split; [|exact PD]. apply word_line.
      + destruct x as [|c r]; [congruence|]. exists c, r. split; [reflexivity|]. specialize (G c (or_introl eq_refl)).
        split; [unfold white; cbn; lia|]. split; [cbn; unfold HASH, DQUOTE, SQUOTE, LBRACK, LBRACE, GT, PIPE; lia|]. unfold DASH. intros ->. exfalso. lia.
      + intros J. apply G in J. unfold COLON in J. lia.
      + intros J. apply G in J. unfold NEWLINE in J. lia.
      + assert (L : In (last x 0) x) by (destruct (exists_last NE) as (r & c & ->); rewrite last_last; apply in_or_app; right; now left).
        apply G in L. unfold white. cbn. lia.
    - split; intros [r ->]; [specialize (G 37 (or_introl eq_refl))|specialize (G 45 (or_introl eq_refl))]; lia. }
  intros S A. destruct S as [k NK|e v0 BC|e z t IC DC|e t h FC U|e s SC US ST NE NW|s|s N1 N2].
  - cbn in A. injection A as <-. split; [now constructor|]. assert (H : written (wscalar (ScNull (anull k))) DNull /\ doc_start (wscalar (ScNull (anull k)))).
    { destruct k; [apply WD|apply WD|congruence]; try reflexivity; try discriminate; [apply pd_null; repeat constructor|apply pd_tilde]. }
    destruct H as [H1 H2]. split; [exact H1|]. split; [exact H2|]. intros FC. exfalso. inversion FC as [? ? X|? ? X| |]; subst; exact X.
  - assert (AE : sc = abool v0 /\ means e (DBool v0)). { destruct e; try contradiction BC; cbn in BC; subst; cbn in A; injection A as <-; split; (reflexivity || constructor). }
    destruct AE as [-> ME]. split; [exact ME|]. assert (H : written (wscalar (abool v0)) (DBool v0) /\ doc_start (wscalar (abool v0))).
    { destruct v0; apply WD; try reflexivity; try discriminate; [apply pd_true|apply pd_false]; repeat constructor. }
    destruct H as [H1 H2]. split; [exact H1|]. split; [exact H2|]. intros FC. exfalso. destruct FC as [e z X|e t X|s|s]; try contradiction BC; destruct e; try contradiction BC; exact X.
  - assert (U : number_text t (if (z <? 0)%Z then Signed64 else Unsigned64)) by now apply decimal_number. apply itoa_only in DC. subst t.
    assert (AE : exists h, sc = ScNum (itoa z) h /\ forall h', means e (DNum (itoa z) h')).
    { destruct e; try contradiction IC; cbn in IC; subst; cbn in A; injection A as <-; eexists; (split; [reflexivity|constructor]). }
    destruct AE as (h & -> & ME). assert (PT : portable (itoa z) (DNum (itoa z) (if (z <? 0)%Z then Signed64 else Unsigned64))) by (left; eauto).
    split; [apply ME|]. split; [now apply portable_written|]. split; [eapply number_doc; exact U|auto].
  - assert (AE : exists h, sc = ScNum t h /\ forall h', means e (DNum t h')).
    { destruct e; try contradiction FC; cbn in FC; subst; cbn in A; injection A as <-; eexists; (split; [reflexivity|constructor]). }
    destruct AE as (h' & -> & ME). assert (PT : portable t (DNum t h)) by (left; eauto).
    split; [apply ME|]. split; [now apply portable_written|]. split; [eapply number_doc; exact U|auto].
  - assert (AE : sc = astring s /\ means e (DStr s)). { destruct e; try contradiction SC; cbn in SC; subst; cbn in A; injection A as <-; split; (reflexivity || constructor). }
    destruct AE as [-> ME]. split; [exact ME|].
    assert (H : written (wscalar (astring s)) (DStr s) /\ doc_start (wscalar (astring s))).
    { assert (HQ : forall x, quoted_text x s -> written x (DStr s) /\ doc_start x) by (intros x Q; split; [right; eauto|now apply quoted_start in Q]).
      unfold astring. apply utf8_text in US. destruct (detect_spec s US) as [[DE WD1]|[(DE & WD1 & WS)|(DE & WD1 & WS)]]; rewrite DE; cbn [wscalar wstr rs_kind rs_id].
      - assert (NN : ~ In DQUOTE s /\ ~ In BACKSLASH s) by (unfold settable in ST; tauto). apply HQ. apply qt_double, esc_double_content; tauto.
      - apply HQ, esc_single_quoted.
      - assert (BR : bare_reads s) by (unfold settable in ST; tauto). destruct BR as ([E|PS] & DS & K1 & K2 & K3 & K4 & K5); [congruence|].
        split; [|exact DS]. left. split.
        + apply word_line; auto.
          * intros J. apply WS. now left.
          * intros J. apply WD1. right; left. exists NEWLINE. split; [exact J|left; reflexivity].
        + apply pd_str; auto. intros h U. apply (K5 s h). exists []. rewrite app_nil_r. split; [reflexivity|]. split; [constructor|exact U]. }
    destruct H as [H1 H2]. split; [exact H1|]. split; [exact H2|]. intros FC. exfalso. destruct FC as [e z X|e t X|q|q]; try contradiction SC; destruct e; try contradiction SC; exact X.
  - cbn in A. injection A as <-. pose proof (esc_single_quoted s) as Q. split; [constructor|]. split; [right; eauto|]. split; [now apply quoted_start in Q|]. right. eauto.
  - cbn in A. injection A as <-. assert (Q : quoted_text (esc_double s) s) by now apply qt_double, esc_double_content. split; [constructor|].
    split; [right; eauto|]. split; [now apply quoted_start in Q|]. right. eauto.
Qed.
Lemma call_text hash doc D o p id e r d' d : session hash doc D o -> place doc p id -> run hash id e (doc_data doc) = Ok (r, d') ->
  no_collision hash d' -> r <> NotApplicable -> scalar_call e d ->
  exists x, prints (edited doc d') (target id r) x /\ means e d /\ written x d /\ doc_start x /\ (flow_call e -> portable x d).
Proof.
  intros SS P E N NA SC. pose proof (session_built _ _ _ _ SS) as B. pose proof (place_value _ _ _ P) as V.
  assert (W : writes e = true) by (destruct SC as [k|e v X|e z t X|e t h X|e s X|s|s]; try reflexivity; destruct e; try contradiction X; reflexivity).
  destruct (edit_setup _ _ _ _ _ _ _ _ B V E N) as (c & v & v' & suf & ST).
  destruct (ascalar_writes v e W) as [sc A].
  destruct (PropsValue.written_leaf _ _ _ _ _ _ (st_eff ST) W NA A) as [q S]. rewrite (st_id ST) in S.
  assert (SP : sub (plug c v') (TLeaf (target id r) q sc)) by (eapply sub_trans; [apply sub_plug|exact S]).
  exists (wscalar sc). split; [exact (st_vw' ST _ SP)|]. eapply scalar_writes; eauto.
Qed.
(* Where a call may write its scalar. *)
Definition may_write (doc : document) (p : list nat) (e : edit) : Prop := outside doc p \/ flow_call e.
Lemma may_fit doc p e x d : may_write doc p e -> written x d -> doc_start x -> (flow_call e -> portable x d) -> fitting doc p x d.
Proof. intros [O|F] W DS PT; split; auto. Qed.

(* A value that prints as something is set. *)
Theorem C38_set : forall hash doc D p id e r d' y d, session hash doc D None -> place doc p id ->
  run hash id e (doc_data doc) = Ok (r, d') -> no_collision hash d' ->
  set_call e -> scalar_call e d -> may_write doc p e -> prints doc id y -> y <> [] ->
  exists u D' out, replaced u d p D D' /\ session hash (edited doc d') D' None /\ write_to (edited doc d') = Ok out /\ reads_as_datum hash out D'.
Proof.
  intros hash doc D p id e r d' y d SS P E N SE SC MW PR NE. pose proof (session_before _ _ _ _ _ _ _ _ _ SS P E N) as N0.
  destruct (place_datum _ _ _ _ _ _ SS N0 P (or_introl eq_refl)) as (c & v & suf & u & _ & _ & _ & _ & RP). destruct (RP d) as [D' R'].
  assert (RD : r = Done).
  { pose proof (session_built _ _ _ _ SS) as B. pose proof (place_value _ _ _ P) as V. destruct (edit_setup _ _ _ _ _ _ _ _ B V E N) as (c1 & v1 & v1' & suf1 & ST).
    assert (IS : is_set e) by (destruct e; try contradiction SE; exact Logic.I). destruct (set_effect _ _ _ _ _ IS (st_eff ST)) as (? & _ & -> & _). reflexivity. }
  subst r. destruct (call_text _ _ _ _ _ _ _ _ _ _ SS P E N ltac:(discriminate) SC) as (x & PX & ME & W & DS & PT). cbn [target] in PX.
  assert (S' : session hash (edited doc d') D' None).
  { eapply se_edit; [exact SS|exact P|exact E|]. eapply ch_set; [exact SE|right; eauto| |exact R']. left. split; [reflexivity|]. split; [exact ME|]. exists x. split; [exact PX|].
    now apply (may_fit _ _ e). }
  destruct (session_reads hash _ _ S' N) as (out & _ & WO & _ & RO & _). exists u, D', out. auto.
Qed.
Print Assumptions C38_set.
(* A scalar is inserted under a new key of a mapping. *)
Theorem C38_insert : forall hash doc D p id e key l h d' d, session hash doc D None -> place doc p id ->
  run hash id e (doc_data doc) = Ok (Handle h, d') -> no_collision hash d' ->
  insert_key e = Some key -> scalar_call e d -> map_entries (doc_data doc) id l -> ~ In key (map fst l) ->
  room_key doc p id key l -> may_write doc (p ++ [length l]) e ->
  exists m D' out, map fst m = map fst l /\ replaced (DMap m) (DMap (m ++ [(key, d)])) p D D' /\
    session hash (edited doc d') D' None /\ write_to (edited doc d') = Ok out /\ reads_as_datum hash out D'.
Proof.
  intros hash doc D p id e key l h d' d SS P E N IK SC ME NI RK MW. pose proof (session_before _ _ _ _ _ _ _ _ _ SS P E N) as N0.
  destruct (place_map_datum _ _ _ _ _ _ _ SS N0 P (or_introl eq_refl) ME) as (m & FM & RP). destruct (RP (DMap (m ++ [(key, d)]))) as [D' R'].
  destruct (call_text _ _ _ _ _ _ _ _ _ _ SS P E N ltac:(discriminate) SC) as (x & PX & MN & W & DS & PT). cbn [target] in PX.
  assert (S' : session hash (edited doc d') D' None).
  { eapply se_edit; [exact SS|exact P|exact E|]. eapply ch_insert_new; [exact IK|exact ME|exact NI|now left|exact RK| |exact R']. left. split; [reflexivity|]. split; [exact MN|]. exists x. split; [exact PX|].
    now apply (may_fit _ _ e). }
  destruct (session_reads hash _ _ S' N) as (out & _ & WO & _ & RO & _). exists m, D', out. auto.
Qed.
Print Assumptions C38_insert.
(* A scalar is pushed to a sequence. *)
Theorem C38_push : forall hash doc D p id e l h d' d, session hash doc D None -> place doc p id ->
  run hash id e (doc_data doc) = Ok (Handle h, d') -> no_collision hash d' ->
  push_call e -> scalar_call e d -> seq_entries (doc_data doc) id l -> room_item doc p id l -> may_write doc (p ++ [length l]) e ->
  exists m D' out, length m = length l /\ replaced (DSeq m) (DSeq (m ++ [d])) p D D' /\
    session hash (edited doc d') D' None /\ write_to (edited doc d') = Ok out /\ reads_as_datum hash out D'.
Proof.
  intros hash doc D p id e l h d' d SS P E N PC SC ME RI MW. pose proof (session_before _ _ _ _ _ _ _ _ _ SS P E N) as N0.
  destruct (place_seq_datum _ _ _ _ _ _ _ SS N0 P (or_introl eq_refl) ME) as (m & FM & RP). destruct (RP (DSeq (m ++ [d]))) as [D' R'].
  destruct (call_text _ _ _ _ _ _ _ _ _ _ SS P E N ltac:(discriminate) SC) as (x & PX & MN & W & DS & PT). cbn [target] in PX.
  assert (S' : session hash (edited doc d') D' None).
  { eapply se_edit; [exact SS|exact P|exact E|]. eapply ch_push; [exact PC|exact ME|now left|exact RI| |exact R']. left. split; [reflexivity|]. split; [exact MN|]. exists x. split; [exact PX|].
    now apply (may_fit _ _ e). }
  destruct (session_reads hash _ _ S' N) as (out & _ & WO & _ & RO & _). exists m, D', out. auto.
Qed.
Print Assumptions C38_push.
(* An entry is removed, and another one is left. *)
Theorem C38_remove : forall hash doc D p id key l1 h l2 d', session hash doc D None -> place doc p id ->
  run hash id (RemoveKey key) (doc_data doc) = Ok (Removed true, d') -> no_collision hash d' ->
  map_entries (doc_data doc) id (l1 ++ (key, h) :: l2) -> ~ In key (map fst l1) -> closes_key doc (edited doc d') p id l1 l2 None ->
  exists m1 x m2 D' out, map fst m1 = map fst l1 /\ map fst m2 = map fst l2 /\ replaced (DMap (m1 ++ (key, x) :: m2)) (DMap (m1 ++ m2)) p D D' /\
    session hash (edited doc d') D' None /\ write_to (edited doc d') = Ok out /\ reads_as_datum hash out D'.
Proof.
  intros hash doc D p id key l1 h l2 d' SS P E N ME NI CL. pose proof (session_before _ _ _ _ _ _ _ _ _ SS P E N) as N0.
  destruct (place_map_datum _ _ _ _ _ _ _ SS N0 P (or_introl eq_refl) ME) as (m & FM & RP). rewrite map_app in FM. cbn [map fst] in FM.
  apply map_eq_app in FM as (m1 & m0 & -> & F1 & F2). apply map_eq_cons in F2 as ([k x] & m2 & -> & EK & F2). cbn in EK. subst k.
  destruct (RP (DMap (m1 ++ m2))) as [D' R'].
  assert (S' : session hash (edited doc d') D' None).
  { eapply se_edit; [exact SS|exact P|exact E|]. eapply ch_remove_key; [reflexivity|exact ME|exact NI|exact CL| |exact R'].
    rewrite <- (map_length fst m1), F1. apply map_length. }
  destruct (session_reads hash _ _ S' N) as (out & _ & WO & _ & RO & _). exists m1, x, m2, D', out. auto 7.
Qed.
Print Assumptions C38_remove.
(* An item is removed, and another one is left. *)
Theorem C38_remove_item : forall hash doc D p id l1 h l2 d', session hash doc D None -> place doc p id ->
  run hash id (RemoveIndex (length l1)) (doc_data doc) = Ok (Removed true, d') -> no_collision hash d' ->
  seq_entries (doc_data doc) id (l1 ++ h :: l2) -> closes_item doc (edited doc d') p id l1 l2 None ->
  exists m1 x m2 D' out, length m1 = length l1 /\ length m2 = length l2 /\ replaced (DSeq (m1 ++ x :: m2)) (DSeq (m1 ++ m2)) p D D' /\
    session hash (edited doc d') D' None /\ write_to (edited doc d') = Ok out /\ reads_as_datum hash out D'.
Proof.
  intros hash doc D p id l1 h l2 d' SS P E N ME CL. pose proof (session_before _ _ _ _ _ _ _ _ _ SS P E N) as N0.
  destruct (place_seq_datum _ _ _ _ _ _ _ SS N0 P (or_introl eq_refl) ME) as (m & FM & RP). rewrite app_length in FM. cbn [length] in FM.
  assert (EM : exists m1 x m2, m = m1 ++ x :: m2 /\ length m1 = length l1).
  { destruct (nth_error m (length l1)) as [x|] eqn:X; [|apply nth_error_None in X; lia]. apply nth_error_split in X as (m1 & m2 & -> & LE). eauto. }
  destruct EM as (m1 & x & m2 & -> & LE). rewrite app_length in FM. cbn [length] in FM.
  destruct (RP (DSeq (m1 ++ m2))) as [D' R'].
  assert (S' : session hash (edited doc d') D' None).
  { eapply se_edit; [exact SS|exact P|exact E|]. eapply ch_remove_at; [reflexivity|exact ME|exact CL|exact LE|exact R']. }
  destruct (session_reads hash _ _ S' N) as (out & _ & WO & _ & RO & _). exists m1, x, m2, D', out. split; [exact LE|]. split; [lia|auto].
Qed.
Print Assumptions C38_remove_item.

(* ---- an example ---- *)
Definition c38_text : bytes := b "a: 1
b:
  # items
  - x
  - 'y'
".
Definition edit_at (p : list nat) (e : edit) (doc : document) : option (nat * edit_result * document) :=
  match spot (doc_data doc) (doc_root doc) p with
  | Some id => match run idhash id e (doc_data doc) with Ok (r, d') => Some (id, r, edited doc d') | _ => None end
  | None => None
  end.
Lemma session_at doc D o p e id r doc' D' o' : session idhash doc D o -> edit_at p e doc = Some (id, r, doc') ->
  change idhash doc doc' p id D o e r D' o' -> session idhash doc' D' o'.
Proof.
  intros SS E CH. unfold edit_at in E. destruct (spot _ _ p) as [i|] eqn:SP; [|discriminate]. destruct (run idhash i e _) as [[r1 d1]|? ? ?| | |] eqn:R; try discriminate.
  injection E as -> -> <-. eapply se_edit; [exact SS|apply spot_place; exact SP|exact R|exact CH].
Qed.
Definition edits_at (l : list (list nat * edit)) (doc : document) : document :=
  fold_left (fun doc '(p, e) => match edit_at p e doc with Some (_, _, doc') => doc' | None => doc end) l doc.
Definition c38_doc (n : nat) : document := edits_at (firstn n
  [([0%nat], SetBool true); ([1%nat], PushInt Unsigned8 7%Z); ([], InsertStr (b "c") (b "it's")); ([], RemoveKey (b "a"))]) (got (load c38_text)).
Definition c38_data (n : nat) : datum := match n with
  | 0%nat => DMap [(b "a", DNum (b "1") Unsigned64); (b "b", DSeq [DStr (b "x"); DStr (b "y")])]
  | 1%nat => DMap [(b "a", DBool true); (b "b", DSeq [DStr (b "x"); DStr (b "y")])]
  | 2%nat => DMap [(b "a", DBool true); (b "b", DSeq [DStr (b "x"); DStr (b "y"); DNum (b "7") Unsigned64])]
  | 3%nat => DMap [(b "a", DBool true); (b "b", DSeq [DStr (b "x"); DStr (b "y"); DNum (b "7") Unsigned64]); (b "c", DStr (b "it's"))]
  | _ => DMap [(b "b", DSeq [DStr (b "x"); DStr (b "y"); DNum (b "7") Unsigned64]); (b "c", DStr (b "it's"))]
  end.
Lemma layout_nl : layout [NEWLINE].
Proof. apply lay_ws; [cbn; auto|constructor]. Qed.
Lemma c38_start : doc_text c38_text (c38_data 0).
Proof.
  assert (WH : forall c, is_ws c = true -> white c) by (intros c; apply is_ws_white).
  assert (E : forall v r post, line_check v = true -> pdat v = r -> ended post -> leaf v r post) by (intros v r post A <- B; apply line_leaf; [now apply line_checked|exact B]).
  apply (dt_map [] 0 (b "a: 1
b:
  # items
  - x
  - 'y'") _ [NEWLINE]); [left; now split|..|apply layout_nl|split; intros (r & X); discriminate X].
  apply (bm_items 0 (b "a") (b "a") (b " 1") (DNum (b "1") Unsigned64) (NEWLINE :: b "b:
  # items
  - x
  - 'y'")).
  - left. split; [apply key_checked; reflexivity|reflexivity].
  - apply (kv_leaf 0 (b " ") (b "1")); [apply PropsText.space_gap|]. apply E; [reflexivity..|now right].
  - apply (mr_cons 0 [NEWLINE] (b "b") (NEWLINE :: b "  # items
  - x
  - 'y'") _ [] []); [apply (line_at 0)|apply key_checked; reflexivity| |constructor; left; apply layout_nl].
    apply (kv_seq 0 2 (NEWLINE :: b "  # items
  ") (b "- x
  - 'y'")); [|lia|].
    + split; [apply WH; reflexivity|]. exists (NEWLINE :: b "  # items"), (b "  "). split; [reflexivity|]. split; [|split; [repeat (apply Forall_cons; [cbn; auto 10|]); constructor|reflexivity]].
      do 3 (apply cl_ws; [apply WH; reflexivity|]). apply (cl_comment (b " items") []); [cbn; unfold NEWLINE; intuition discriminate|constructor].
    + apply (bs_items 2 (b " x") (DStr (b "x")) (NEWLINE :: b "  - 'y'")).
      * apply (dv_leaf 3 (b " ") (b "x")); [apply PropsText.space_gap|]. apply E; [reflexivity..|now right].
      * apply (sr_cons 2 (NEWLINE :: b "  ") (b " 'y'") _ [] []); [apply (line_at 2)|reflexivity| |constructor; left; apply layout_nl].
        apply (dv_leaf 3 (b " ") (b "'y'")); [apply PropsText.space_gap|]. apply lf_quoted; [|right; apply WH; reflexivity]. apply (qt_single (b "y")). apply sc_byte; [discriminate|constructor].
Qed.
Example C38_case : session idhash (c38_doc 4) (c38_data 4) None /\ no_collision idhash (doc_data (c38_doc 4)) /\
  write_to (c38_doc 4) = Ok (b "
b:
  # items
  - x
  - 'y'
  - 7
c: ""it's""
").
Proof.
  assert (S0 : session idhash (c38_doc 0) (c38_data 0) None).
  { apply (se_load idhash c38_text); [exact c38_start|apply tidy_checked; vm_compute; reflexivity|vm_compute; reflexivity]. }
  assert (WR : forall x d, line_check x = true -> pdat x = d -> doc_start x -> forall doc p, outside doc p -> fitting doc p x d).
  { intros x d A <- B doc p O. split; [auto|]. right. split; [|now left]. left. split; [|apply pdat_ok]. unfold line_check in A. rewrite !andb_true_iff in A. destruct A as [[A A'] C].
    split; [now apply plain_start_checked|]. split; [now apply keyless_checked|]. intros W. apply is_ws_white in W. now rewrite W in C. }
  assert (DS : forall x, match x with c :: _ => negb ((c =? 37) || (c =? 45)) | [] => true end = true -> doc_start x).
  { intros x H. split; intros (r & ->); discriminate H. }
  assert (S1 : session idhash (c38_doc 1) (c38_data 1) None).
  { eapply (session_at (c38_doc 0) (c38_data 0) None [0%nat] (SetBool true)); [exact S0|vm_compute; reflexivity|].
    eapply ch_set; [exact Logic.I|right; split; [reflexivity|]; exists (b "1"); split; [vm_compute; reflexivity|discriminate]| |].
    - left. split; [reflexivity|]. split; [constructor|]. exists (b "true"). split; [vm_compute; reflexivity|]. apply WR; [reflexivity|reflexivity|apply DS; reflexivity|apply outside_checked; vm_compute; reflexivity].
    - apply (rp_map _ _ [] [] (b "a") (DNum (b "1") Unsigned64)). constructor. }
  assert (S2 : session idhash (c38_doc 2) (c38_data 2) None).
  { eapply (session_at (c38_doc 1) (c38_data 1) None [1%nat] (PushInt Unsigned8 7%Z)); [exact S1|vm_compute; reflexivity|].
    eapply (ch_push _ _ _ _ _ _ _ _ _ _ _ [DStr (b "x"); DStr (b "y")]); [exact Logic.I|apply seq_listed; vm_compute; reflexivity|now left| | |].
    - left. split; [eexists; split; [vm_compute; reflexivity|cbn; intuition discriminate]|]. intros j E. injection E as <-. split; [apply lines_checked|apply filled_checked]; vm_compute; reflexivity.
    - left. split; [reflexivity|]. split; [constructor|]. exists (b "7"). split; [vm_compute; reflexivity|]. apply WR; [reflexivity|reflexivity|apply DS; reflexivity|apply outside_checked; vm_compute; reflexivity].
    - apply (rp_map _ _ [] [(b "a", DBool true)] (b "b")). constructor. }
  assert (S3 : session idhash (c38_doc 3) (c38_data 3) None).
  { eapply (session_at (c38_doc 2) (c38_data 2) None [] (InsertStr (b "c") (b "it's"))); [exact S2|vm_compute; reflexivity|].
    eapply (ch_insert_new _ _ _ _ _ _ _ _ (b "c")); [reflexivity|apply map_listed; vm_compute; reflexivity|cbn; intuition discriminate|now left| | |].
    - left. split; [eexists; split; [vm_compute; reflexivity|cbn; intuition discriminate]|]. split; [apply key_checked; reflexivity|]. split; [intros _; discriminate|]. split; [discriminate|].
      intros j E. injection E as <-. apply lines_checked. vm_compute. reflexivity.
    - left. split; [reflexivity|]. split; [constructor|]. exists (b """it's"""). split; [vm_compute; reflexivity|]. split; [discriminate|]. left. right. exists (b "it's"). split; [|reflexivity].
      apply (qt_double (b "it's")). repeat (apply dc_byte; [cbn; intuition discriminate|discriminate|]). constructor.
    - exact (rp_here (c38_data 2) (c38_data 3)). }
  split; [|split; [apply id_no_collision|vm_compute; reflexivity]].
  eapply (session_at (c38_doc 3) (c38_data 3) None [] (RemoveKey (b "a"))); [exact S3|vm_compute; reflexivity|].
  eapply (ch_remove_key _ _ _ _ _ _ _ (b "a") [] _ _ []); [reflexivity|apply map_listed; vm_compute; reflexivity|cbn; tauto| |reflexivity|exact (rp_here (c38_data 3) (c38_data 4))].
  left. split; [eexists; split; [vm_compute; reflexivity|cbn; intuition discriminate]|]. split; [discriminate|]. split; [reflexivity|]. split; [|split; [congruence|discriminate]].
  intros _ _ k x l E. injection E as <- _ _. apply DS. reflexivity.
Qed.
