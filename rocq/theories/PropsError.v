(* C42: errors point at what they report, and C43: their text tells kind and place. *)
From Coq Require Import String.
From Coq Require Import List NArith ZArith Bool Arith Lia.
From Verif Require Import Bytes Utf8 Data Parser Render Tree Abs Refine Utf8Props Scan AbsText Num Reads ReadsSound Shown Plain Grammar Laid
  Tests PropsValue PropsScalar2 Exact Located ErrorText.
Import ListNotations.
Local Open Scope N_scope.

(* ---- C42 ---- *)
(* The escapes the crate knows, without the backslash: those of YAML that have a letter, and a
   second backslash. *)
Definition known (e v : bytes) : Prop := yaml_escape e v \/ e = b "\".
(* The text is pre, the span s, and post. *)
Definition spans (input : bytes) (x y : nat) (pre s post : bytes) : Prop :=
  input = pre ++ s ++ post /\ length pre = x /\ (x + length s = y)%nat.
(* t, which stands behind a backslash and before post, begins no escape: it cannot be continued
   to one, unless the text is over, and none lies in what is there. *)
Definition begins_none (t post : bytes) : Prop :=
  (post = [] \/ forall q v, ~ known (t ++ q) v) /\ (forall e q v, t ++ post = e ++ q -> ~ known e v).
Definition hex_digits (ds : bytes) : Prop := Forall (fun d => exists v, hex d v) ds.
Definition points_at (input pre s post : bytes) (k : ekind) : Prop :=
  match k with
  (* from the first byte that is not layout to the end *)
  | ExpectedEof => post = [] /\ s <> [] /\ stops s
  (* the layout in front of the place where the bracket is missing *)
  | BadSequenceTerminator => stops post /\ hd 0 post <> RBRACK /\ In LBRACK (pre ++ s) /\
      (~ In PIPE input -> ~ In GT input -> In LBRACK pre /\ layout s)
  (* ends where the brace is missing, and is layout, or layout and an entry *)
  | BadMappingTerminator => stops post /\ hd 0 post <> RBRACE /\ In LBRACE pre /\
      exists w t, s = w ++ t /\ layout w /\ (t = [] /\ hd 0 post = 0 \/ In COLON t \/ In 0 t)
  (* layout and a key without colon, up to the end or a NUL *)
  | BadMappingSeparator => (In LBRACE pre \/ In COLON pre) /\
      exists w t, s = w ++ t /\ layout w /\ t <> [] /\ ~ In COLON t /\ (post = [] \/ exists t', t = t' ++ [0])
  (* a backslash and the bytes that make it wrong *)
  | BadEscape => exists t, s = b "\" ++ t /\ (length t <= 1)%nat /\ begins_none t post /\ hd 0 t <> hd 0 (b "x") /\ hd 0 t <> hd 0 (b "u")
  | BadHexEscape => exists ds, s = b "\x" ++ ds /\ (length ds <= 2)%nat /\ hex_digits (removelast ds) /\ begins_none (b "x" ++ ds) post
  | BadUnicodeEscape => exists ds, s = b "\u" ++ ds /\ (length ds <= 4)%nat /\ hex_digits (removelast ds) /\ begins_none (b "u" ++ ds) post
  end.

Lemma known_escape e v : known e v -> exists v', escape e v'.
Proof. intros [H| ->]; [exists v; now apply escape_of|]. eexists. now constructor. Qed.
Lemma hexs_digits ds : hexs ds -> hex_digits ds.
Proof.
  apply Forall_impl. intros d H. destruct (hex_value d) as [v|] eqn:E; [|congruence]. exists v. now apply hex_value_iff.
Qed.
Lemma tagged (c : byte) (k : nat) e x : (c = 120 /\ k = 2%nat) \/ (c = 117 /\ k = 4%nat) -> escape (c :: e) x ->
  length e = k /\ exists n, hex_number 0 e = Some n /\ is_scalar_value n = true.
Proof.
  intros C Z. inversion Z as [h o K|ds n L H V|ds n L H V]; subst; destruct C as [[C ->]|[C ->]]; subst; try discriminate; eauto.
Qed.
Lemma bad_none input (c : byte) (k : nat) (ds post : bytes) y : (c = 120 /\ k = 2%nat) \/ (c = 117 /\ k = 4%nat) ->
  bad_digits input k ds y -> (y = length input -> post = []) -> begins_none (c :: ds) post.
Proof.
  intros C B P.
  assert (G : forall e q r v, (c :: ds) ++ r = e ++ q -> known e v ->
    (length ds < k)%nat /\ y = length input /\ (S (length ds) < length e)%nat).
  { intros e q r v E K. apply known_escape in K as (v' & X). destruct e as [|c' e]; [inversion X|].
    cbn [app] in E. injection E as <- E. destruct (tagged c k e v' C X) as (L & n & H & V).
    pose proof (hex_run _ _ _ H) as F. destruct B as [(F1 & L1 & Y)|[(hs & c1 & -> & F1 & L1 & Nc)|(L1 & v1 & H1 & V1)]].
    - split; [exact L1|]. split; [exact Y|]. cbn [length]. lia.
    - exfalso. rewrite <- app_assoc in E. cbn [app] in E.
      assert (J : nth_error e (length hs) = Some c1).
      { rewrite <- (nth_error_app1 e q) by (unfold byte, bytes in *; lia). rewrite <- E. rewrite nth_error_app2 by lia. now rewrite Nat.sub_diag. }
      apply nth_error_In in J. rewrite Forall_forall in F. apply (F _ J Nc).
    - exfalso. assert (e = ds) as ->.
      { apply (f_equal (firstn k)) in E. rewrite !firstn_app in E. unfold byte, bytes in *.
        replace (k - length ds)%nat with 0%nat in E by lia. replace (k - length e)%nat with 0%nat in E by lia.
        rewrite (@firstn_all2 N k ds), (@firstn_all2 N k e) in E by lia. rewrite !firstn_O, !app_nil_r in E. exact (eq_sym E). }
      congruence. }
  split.
  - destruct (Nat.eq_dec y (length input)) as [Y|NY]; [left; auto|]. right. intros q v K.
    destruct (G ((c :: ds) ++ q) [] q v (eq_sym (app_nil_r _)) K) as (_ & Y & _). contradiction.
  - intros e q v E K. destruct (G e q post v E K) as (_ & Y & L). rewrite (P Y), app_nil_r in E.
    apply (f_equal (@length N)) in E. rewrite app_length in E. cbn [length] in E, L. unfold byte, bytes in *. lia.
Qed.
Lemma bad_shape input k ds y : bad_digits input k ds y -> (length ds <= k)%nat /\ hex_digits (removelast ds).
Proof.
  assert (R : forall l, hexs l -> hexs (removelast l)).
  { intros l H. unfold hexs in *. rewrite Forall_forall in *. intros d J. apply H. destruct l as [|a l]; [contradiction|].
    rewrite (app_removelast_last 0 (l := a :: l)) by discriminate. apply in_or_app. now left. }
  intros [(F & L & _)|[(hs & c & -> & F & L & _)|(L & v & H & _)]].
  - split; [lia|]. now apply hexs_digits, R.
  - rewrite app_length, removelast_last. cbn. split; [lia|]. now apply hexs_digits.
  - split; [lia|]. apply hexs_digits, R. now apply (hex_run _ _ _ H).
Qed.
Lemma at_stops input n : at_stop input n -> stops (skipn n input).
Proof.
  intros [A1 A2]. assert (E : nth n input EOF = hd EOF (skipn n input)).
  { apply nth_skipn. }
  rewrite E in A1, A2. split; [|exact A2]. intros W. apply is_ws_white in W. congruence.
Qed.
Lemma located_points input x y k : (x <= y <= length input)%nat -> located input x y k ->
  points_at input (slice input 0 x) (slice input x y) (skipn y input) k.
Proof.
  intros L H. assert (HD : forall n, nth n input EOF = hd 0 (skipn n input)).
  { intros n. apply nth_skipn. }
  assert (END : y = length input -> skipn y input = []) by (intros ->; apply skipn_all).
  assert (IN : forall j c n, (j < n <= length input)%nat -> nth j input EOF = c -> In c (slice input 0 n)).
  { intros j c n J <-. rewrite <- (seg_app input 0 j n) by lia. rewrite <- (seg_app input j (S j) n) by lia. rewrite nth_seg by lia.
    apply in_or_app. right. now left. }
  destruct k; cbn [located points_at] in *.
  - destruct H as (H1 & H2 & H3). split; [auto|]. subst y. rewrite seg_full by lia. apply at_stops in H3. split; [|exact H3].
    intros E. apply (f_equal (@length byte)) in E. rewrite skipn_length in E. cbn in E. unfold byte, bytes in *. lia.
  - destruct H as (t & H1 & H2 & H3). exists t. split; [exact H2|]. destruct H3 as [[-> Y]|(c & -> & H3 & H4 & H5)].
    + rewrite (END Y). cbn. repeat split; try discriminate; [lia|now left|].
      intros e q v E K. apply known_escape in K as (v' & X). destruct e; [inversion X|discriminate E].
    + assert (NK : forall e q v, [c] ++ q = e -> ~ known e v).
      { intros e q v <- K. apply known_escape in K as (v' & X). cbn in X. inversion X; congruence. }
      cbn [length hd]. repeat split; auto.
      * right. intros q v. eapply NK. reflexivity.
      * intros e q v E K. destruct e as [|c' e]; [apply known_escape in K as (v' & X); inversion X|]. cbn in E. injection E as <- _.
        now apply (NK (c :: e) e v eq_refl).
  - destruct H as (ds & H1 & H2 & H3). exists ds. destruct (bad_shape _ _ _ _ H3) as [H4 H5].
    split; [exact H2|]. split; [exact H4|]. split; [exact H5|]. apply (bad_none input 120 2 ds _ y); auto.
  - destruct H as (ds & H1 & H2 & H3). exists ds. destruct (bad_shape _ _ _ _ H3) as [H4 H5].
    split; [exact H2|]. split; [exact H4|]. split; [exact H5|]. apply (bad_none input 117 4 ds _ y); auto.
  - destruct H as (H1 & H2 & H3 & j & H4 & H5 & H6). split; [now apply at_stops|]. split; [now rewrite <- HD|].
    split; [rewrite seg_app by lia; apply (IN j); [lia|exact H5]|]. intros P G. destruct (H6 (conj P G)) as [H7 H8].
    split; [apply (IN j); [lia|exact H5]|exact H8].
  - destruct H as (H1 & H2 & H3 & (j & H4 & H5) & (i & H6 & H7 & H8)). split; [now apply at_stops|]. split; [now rewrite <- HD|].
    split; [apply (IN j); [lia|exact H5]|]. exists (slice input x i), (slice input i y). split; [now rewrite seg_app by lia|]. split; [exact H7|].
    destruct H8 as [[-> H8]|(c & [<-|[<-|[]]] & H8)]; auto. left. rewrite seg_nil. now rewrite <- HD.
  - destruct H as (j & H1 & H2 & H3 & H4 & H5 & i & H6 & H7). split; [destruct H7 as [H7|H7]; [left|right]; apply (IN i); auto; lia|].
    exists (slice input x j), (slice input j y). split; [now rewrite seg_app by lia|]. split; [exact H3|].
    split; [intros E; apply (f_equal (@length byte)) in E; rewrite seg_length in E by lia; cbn in E; lia|].
    split; [exact H4|]. destruct H5 as [H5|H5]; [left; auto|]. right.
    exists (slice input j (y - 1)). rewrite <- (seg_app input j (y - 1) y) by lia. f_equal.
    replace y with (S (y - 1)) at 2 by lia. rewrite nth_seg by lia. now rewrite H5.
Qed.
(* The span of an error shows what is wrong. The start of the span of BadSequenceTerminator
   comes from the length of a string in the string table, hence the assumption. *)
Theorem C42_points_at : forall hash input x y k,
  (k = BadSequenceTerminator -> forall u v : bytes, hash u = hash v -> u = v) ->
  from_slice hash input = Err x y k -> exists pre s post, spans input x y pre s post /\ points_at input pre s post k.
Proof.
  intros hash input x y k INJ E. pose proof (refine hash input) as R. rewrite E in R. pose proof (parse_text input) as P.
  destruct (a_parse input) as [[t0 sx]|x0 y0 k0| | |] eqn:A; try contradiction.
  destruct R as ([->|(_ & K & u & v & NE & H)] & <- & <-); [|elim NE; now apply INJ].
  exists (slice input 0 x0), (slice input x0 y0), (skipn y0 input). split; [|apply located_points; [exact P|now apply parse_located]].
  split; [|split].
  - rewrite app_assoc, seg_app by lia. unfold slice. replace (Nat.leb 0 y0 && Nat.leb y0 (length input))%bool with true by (symmetry; apply andb_true_iff; split; apply Nat.leb_le; lia).
    cbn [skipn]. rewrite Nat.sub_0_r. symmetry. apply firstn_skipn.
  - rewrite seg_length; lia.
  - rewrite seg_length; lia.
Qed.
Print Assumptions C42_points_at.
(* The cases of error.rs 60-160, the last with a byte more. *)
Definition at_fault (s : bytes) : option (ekind * bytes * bytes) :=
  match load s with Err x y k => Some (k, slice s x y, skipn y s) | _ => None end.
Example C42_cases :
  at_fault (b "
{hello: world}
42
") = Some (ExpectedEof, b "42
", []) /\
  at_fault (b "[Aristotle, # this is a comment") = Some (BadSequenceTerminator, b " # this is a comment", []) /\
  at_fault (b "[Aristotle }, a]") = Some (BadSequenceTerminator, b "", b "}, a]") /\
  at_fault (b "{name: Aristotle, age # this is a comment") = Some (BadMappingSeparator, b " age # this is a comment", []) /\
  at_fault (b "{name: Aristotle, # this is a comment") = Some (BadMappingTerminator, b " # this is a comment", []) /\
  at_fault (b "name: Aristotle
age # end") = Some (BadMappingSeparator, b "age # end", []) /\
  at_fault (b """hello \o1u world""") = Some (BadEscape, b "\o", b "1u world""") /\
  at_fault (b """hello \x1u world""") = Some (BadHexEscape, b "\x1u", b " world""") /\
  at_fault (b """hello \ud800 world""") = Some (BadUnicodeEscape, b "\ud800", b " world""") /\
  at_fault (b """hello \u12") = Some (BadUnicodeEscape, b "\u12", []).
Proof. repeat split; vm_compute; reflexivity. Qed.

(* ---- C43 ---- *)
Lemma split_first {A} (c : A) u : forall u' v v', u ++ c :: v = u' ++ c :: v' -> ~ In c u -> ~ In c u' -> u = u' /\ v = v'.
Proof.
  induction u as [|a u IH]; intros [|a' u'] v v' E N N'; cbn in E.
  - now injection E as ->.
  - injection E as -> E. elim N'. now left.
  - injection E as -> E. elim N. now left.
  - injection E as -> E. destruct (IH u' v v' E) as [-> ->]; auto; intros J; [apply N|apply N']; now right.
Qed.
Lemma denotes_digits s n : denotes s n -> Forall (fun c => 48 <= c <= 57) s.
Proof. induction 1; [repeat constructor; lia|]. apply Forall_app. split; [assumption|repeat constructor; lia]. Qed.
Lemma denotes_one s n m : denotes s n -> denotes s m -> n = m.
Proof. rewrite !digits_value_denotes. intros [_ ->] [_ H]. congruence. Qed.
(* The name of the kind, and the bounds of the span in decimal; and nothing is lost. *)
Theorem C43_shows : forall k, exists name, ~ In (hd 0 (b "(")) name /\ (forall k', kind_text k' = name -> k' = k) /\
  forall x y, exists dx dy, error_text x y k = name ++ b " (at " ++ dx ++ b "-" ++ dy ++ b ")" /\
    canonical dx (N.of_nat x) /\ canonical dy (N.of_nat y).
Proof.
  intros k. exists (kind_text k). split; [destruct k; cbn; intuition discriminate|]. split; [destruct k; intros []; cbn; intros E; congruence|].
  intros x y. exists (digits (N.of_nat x)), (digits (N.of_nat y)). split; [reflexivity|]. split; apply digits_canonical.
Qed.
Print Assumptions C43_shows.
Theorem C43_nothing_lost : forall x y k x' y' k', error_text x y k = error_text x' y' k' -> x = x' /\ y = y' /\ k = k'.
Proof.
  intros x y k x' y' k' E. unfold error_text in E.
  assert (D : forall n, denotes (digits n) n) by (intros n; apply digits_canonical).
  assert (DN : forall n c, c < 48 -> ~ In c (digits n)).
  { intros n c L I. pose proof (denotes_digits _ _ (D n)) as F. rewrite Forall_forall in F. apply F in I. lia. }
  assert (KN : forall k, ~ In 40 (kind_text k ++ [32])) by (intros []; cbn; intuition discriminate).
  assert (R : forall k r, kind_text k ++ b " (at " ++ r = (kind_text k ++ [32]) ++ 40 :: b "at " ++ r) by (intros; rewrite <- app_assoc; reflexivity).
  rewrite !R in E. apply split_first in E as [E1 E2]; [|apply KN..]. apply app_inv_tail in E1. apply app_inv_head in E2.
  apply split_first in E2 as [E2 E3]; [|apply DN; vm_compute; reflexivity..]. apply app_inv_tail in E3.
  split; [|split].
  - apply Nat2N.inj. apply (denotes_one (digits (N.of_nat x))); [apply D|rewrite E2; apply D].
  - apply Nat2N.inj. apply (denotes_one (digits (N.of_nat y))); [apply D|rewrite E3; apply D].
  - destruct k, k'; cbn in E1; congruence.
Qed.
Print Assumptions C43_nothing_lost.
Example C43_case : match load (b """hello \x1u world""") with Err x y k => error_text x y k | _ => [] end = b "bad hex escape (at 7-11)".
Proof. vm_compute. reflexivity. Qed.
