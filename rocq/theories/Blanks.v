(* What it changes in what a text stands for, in what is written back and in what is reported to
   take other blanks: a tab for a space, for instance. *)
From Coq Require Import String.
From Coq Require Import List NArith Bool Arith Lia.
From Verif Require Import Bytes Utf8 Data Scan Shown Plain White Valid Lexed Means Printed Fails Places Parser Abs ReadsSound GrammarSound MeansSound MeansComplete PrintedComplete Nest.
Import ListNotations.
Local Open Scope N_scope.

(* ---- definitions ---- *)
(* The same byte, or two of the blanks: tab, form feed, carriage return, space. *)
Definition near (c c' : byte) : Prop := c = c' \/ (blank c /\ blank c').
Definition near_text (x x' : bytes) : Prop := Forall2 near x x'.
Inductive near_datum : datum -> datum -> Prop :=
| nd_null : near_datum DNull DNull
| nd_bool v : near_datum (DBool v) (DBool v)
| nd_num s h : near_datum (DNum s h) (DNum s h)
| nd_str s s' : near_text s s' -> near_datum (DStr s) (DStr s')
| nd_map l l' : Forall2 (fun e e' => near_text (fst e) (fst e') /\ near_datum (snd e) (snd e')) l l' -> near_datum (DMap l) (DMap l')
| nd_seq l l' : Forall2 near_datum l l' -> near_datum (DSeq l) (DSeq l').

(* ---- proofs ---- *)
Local Notation nb c := (is_other_ws c = false).
Local Notation nbs x := (forallb (fun c => negb (is_other_ws c)) x = true).
Lemma blank_iff c : blank c <-> is_other_ws c = true.
Proof.
  unfold blank, is_other_ws. rewrite !orb_true_iff, !N.eqb_eq. unfold TAB, FF, CR, SPACE. cbn. intuition congruence.
Qed.
Lemma near_refl c : near c c. Proof. now left. Qed.
Lemma near_sym c c' : near c c' -> near c' c.
Proof. intros [->|[A B]]; [now left|right; auto]. Qed.
Lemma text_refl x : near_text x x.
Proof. induction x; constructor; auto using near_refl. Qed.
Lemma text_sym x x' : near_text x x' -> near_text x' x.
Proof. induction 1; constructor; auto using near_sym. Qed.
Lemma text_app x x' y y' : near_text x x' -> near_text y y' -> near_text (x ++ y) (x' ++ y').
Proof. apply Forall2_app. Qed.
Lemma text_len x x' : near_text x x' -> length x' = length x.
Proof. induction 1; cbn; auto. Qed.
Lemma near_eq c c' x : near c c' -> nb x -> c = x -> c' = x.
Proof. intros [->|[A _]] N E; [exact E|]. subst. apply blank_iff in A. congruence. Qed.
Lemma near_ne c c' x : near c c' -> nb x -> c <> x -> c' <> x.
Proof. intros A N E X. apply E. now apply (near_eq c' c x (near_sym _ _ A)). Qed.
Lemma near_in c c' l : near c c' -> nbs l -> In c l -> In c' l.
Proof. intros [->|[A _]] N I; [exact I|]. rewrite forallb_forall in N. apply N in I. apply blank_iff in A. rewrite A in I. discriminate. Qed.
Lemma near_out c c' l : near c c' -> nbs l -> ~ In c l -> ~ In c' l.
Proof. intros A N E X. apply E. now apply (near_in c' c l (near_sym _ _ A)). Qed.
Lemma blank_white c : blank c -> white c.
Proof. unfold blank, white. cbn. tauto. Qed.
Lemma near_white c c' : near c c' -> white c -> white c'.
Proof. intros [->|[_ A]] W; [exact W|now apply blank_white]. Qed.
Lemma near_blank c c' : near c c' -> blank c -> blank c'.
Proof. intros [->|[_ A]] W; auto. Qed.
Lemma near_bare c c' : near c c' -> ~ blank c -> c' = c.
Proof. intros [->|[A _]] N; [reflexivity|contradiction]. Qed.
Lemma text_bare x x' : near_text x x' -> (forall c, In c x -> ~ blank c) -> x' = x.
Proof.
  induction 1 as [|c c' x x' A F IH]; intros N; [reflexivity|]. rewrite (near_bare c c' A) by (apply N; now left). f_equal. apply IH. intros d I. apply N. now right.
Qed.
Lemma text_same x x' : near_text x x' -> nbs x -> x' = x.
Proof. intros A N. apply (text_bare x x' A). intros c I B. rewrite forallb_forall in N. apply N in I. apply blank_iff in B. rewrite B in I. discriminate. Qed.
Lemma text_in x x' c : near_text x x' -> nb c -> In c x -> In c x'.
Proof. intros A N. induction A as [|a a' x x' A F IH]; [intros []|]; intros [E|I]; [left; now apply (near_eq a a' c A N)|right; auto]. Qed.
Lemma text_out x x' c : near_text x x' -> nb c -> ~ In c x -> ~ In c x'.
Proof. intros A N E X. apply E. now apply (text_in x' x c (text_sym _ _ A)). Qed.
Lemma text_count x x' : near_text x x' -> count_occ N.eq_dec x' NEWLINE = count_occ N.eq_dec x NEWLINE.
Proof.
  induction 1 as [|a a' x x' A F IH]; [reflexivity|]. cbn [count_occ]. destruct (N.eq_dec a NEWLINE) as [E|E], (N.eq_dec a' NEWLINE) as [E'|E']; rewrite ?IH; auto; exfalso.
  - apply E'. now apply (near_eq a a').
  - now apply (near_ne a a' NEWLINE A).
Qed.
Lemma text_firstn n : forall x x', near_text x x' -> near_text (firstn n x) (firstn n x').
Proof. induction n as [|n IH]; intros x x' A; [constructor|]. destruct A; cbn [firstn]; constructor; auto. now apply IH. Qed.
Lemma text_skipn n : forall x x', near_text x x' -> near_text (skipn n x) (skipn n x').
Proof. induction n as [|n IH]; intros x x' A; [exact A|]. destruct A; cbn [skipn]; [constructor|]. now apply IH. Qed.
Lemma text_slice T T' i j : near_text T T' -> near_text (slice T i j) (slice T' i j).
Proof.
  intros A. unfold slice. pose proof (text_len _ _ A) as L. unfold bytes, byte in *. rewrite L. destruct (_ && _); [|constructor]. now apply text_firstn, text_skipn.
Qed.
Lemma text_nth T T' : near_text T T' -> forall i, near (nth i T 0) (nth i T' 0).
Proof. induction 1 as [|a a' x x' A F IH]; intros [|i]; cbn [nth]; auto using near_refl. Qed.
Lemma text_split x y z : near_text (x ++ y) z -> exists x' y', near_text x x' /\ near_text y y' /\ z = x' ++ y'.
Proof. apply Forall2_app_inv_l. Qed.

(* characters *)
Lemma near_high c c' : near c c' -> 128 <= c -> c' = c.
Proof. intros A H. apply (near_bare c c' A). intros B. cbn in B. lia. Qed.
Lemma near_low c c' : near c c' -> c < 128 -> c' < 128.
Proof. intros [->|[_ B]] L; [exact L|]. cbn in B. lia. Qed.
Lemma near_range c c' lo hi : near c c' -> 128 <= lo -> between lo hi c' = between lo hi c.
Proof.
  intros A L. destruct (N.lt_ge_cases c 128) as [X|X]; [|now rewrite (near_high c c' A X)]. pose proof (near_low c c' A X).
  unfold between. assert (lo <=? c' = false) as -> by (apply N.leb_gt; lia). assert (lo <=? c = false) as -> by (apply N.leb_gt; lia). reflexivity.
Qed.
Lemma lead_low c len lo hi : lead c = Some (len, lo, hi) -> 128 <= lo.
Proof. unfold lead. repeat match goal with |- context [if ?c then _ else _] => destruct c end; intros E; try discriminate; injection E as <- <- <-; lia. Qed.
Lemma decode_near c c' r r' : near c c' -> near_text r r' -> decode1 c' r' = decode1 c r.
Proof.
  intros A R. destruct (N.lt_ge_cases c 128) as [X|X].
  - pose proof (near_low c c' A X) as X'. unfold decode1. apply N.ltb_lt in X, X'. now rewrite X, X'.
  - rewrite (near_high c c' A X). unfold decode1. destruct (c <? 128); [reflexivity|]. destruct (lead c) as [[[len lo] hi]|] eqn:E; [|reflexivity]. pose proof (lead_low _ _ _ _ E) as L.
    destruct R as [|a a' r r' A1 R]; [reflexivity|]. rewrite (near_range a a' lo hi A1 L). destruct (negb _); [reflexivity|]. destruct (_ =? _)%nat; [reflexivity|].
    destruct R as [|e e' r r' A2 R]; [reflexivity|]. unfold is_cont. rewrite (near_range e e' 128 191 A2) by lia. destruct (negb _); [reflexivity|]. destruct (_ =? _)%nat; [reflexivity|].
    destruct R as [|g g' r r' A3 R]; [reflexivity|]. rewrite (near_range g g' 128 191 A3) by lia. reflexivity.
Qed.
Lemma chars_near f : forall s s', near_text s s' -> Forall2 near_text (chars_f f s) (chars_f f s').
Proof.
  induction f as [|f IH]; intros s s' A; [constructor|]. destruct A as [|c c' r r' A R]; [constructor|]. cbn [chars_f]. rewrite (decode_near c c' r r' A R).
  assert (B : near_text (c :: r) (c' :: r')) by now constructor. destruct (decode1 c r) as [ok n]. constructor; [destruct ok; [now apply text_firstn|apply text_refl]|]. now apply IH, text_skipn.
Qed.
Lemma chars_all s s' : near_text s s' -> Forall2 near_text (chars s) (chars s').
Proof. intros A. unfold chars. rewrite (text_len s s' A). now apply chars_near. Qed.
Lemma lossy_near s s' : near_text s s' -> near_text (lossy s) (lossy s').
Proof. intros A. unfold lossy. induction (chars_all s s' A); [constructor|]. cbn [concat]. now apply text_app. Qed.
Lemma valid_near p p' v : near_text p p' -> made_valid p v -> exists v', made_valid p' v' /\ near_text v v'.
Proof. intros A M. exists (lossy p'). split; [now apply lossy_spec|]. apply lossy_spec in M. rewrite <- M. now apply lossy_near. Qed.
Lemma last_near s s' : near_text s s' -> near_text (after_last_nl s) (after_last_nl s').
Proof.
  intros A. destruct (last_line s) as (a & l & -> & H & N). destruct (text_split a l s' A) as (a' & l' & A1 & A2 & ->).
  pose proof (after_nl a l H N) as Z. assert (Z' : after_last_nl (a' ++ l') = l'); [|unfold near_text, bytes, byte in *; rewrite Z, Z'; exact A2].
  apply after_nl; [|now apply (text_out l l')]. destruct H as [->|(a0 & ->)]; [inversion A1; now left|]. right. destruct (text_split _ _ _ A1) as (a1 & n & _ & B & ->). exists a1. f_equal. now apply (text_same [NEWLINE]).
Qed.
Lemma indent_near s s' : near_text s s' -> count_indent s' = count_indent s.
Proof. intros A. unfold count_indent. pose proof (chars_all _ _ (last_near s s' A)) as F. induction F; cbn [length]; [reflexivity|now f_equal]. Qed.

(* scalars *)
Lemma number_bare x h c : number_text x h -> In c x -> ~ blank c.
Proof. intros N I B. destruct (number_bytes x h N c I) as [D|D]; cbn in *; unfold digit, DOT, DASH in *; lia. Qed.
Lemma number_same x x' h : near_text x x' -> number_text x h -> x' = x.
Proof. intros A N. apply (text_bare x x' A). intros c. now apply (number_bare x h). Qed.
Lemma spelled_bare x kw : spelled x kw -> Forall (fun c => 97 <= c <= 122) kw -> forall c, In c x -> ~ blank c.
Proof.
  induction 1 as [|a c x kw H F IH]; intros B d I; [destruct I|]. inversion B as [|? ? B1 B2]; subst. destruct I as [->|I]; [cbn; lia|now apply IH].
Qed.
Lemma datum_near x x' d : near_text x x' -> plain_datum x d -> exists d', plain_datum x' d' /\ near_datum d d'.
Proof.
  intros A D. assert (KW : forall y y' kw, near_text y y' -> spelled y kw -> kw = b "null" \/ kw = b "true" \/ kw = b "false" -> y' = y).
  { intros y y' kw B S K. apply (text_bare y y' B). apply (spelled_bare y kw S). destruct K as [->|[->| ->]]; repeat constructor; cbn; lia. }
  pose proof (text_sym _ _ A) as A'. destruct D as [|x S|x S|x S|x h N|x N1 N2 N3 N4 N5].
  - apply text_same in A; [|reflexivity]. subst. eexists. split; constructor.
  - rewrite (KW x x' _ A S) by auto. eexists. split; [now apply pd_null|constructor].
  - rewrite (KW x x' _ A S) by auto. eexists. split; [now apply pd_true|constructor].
  - rewrite (KW x x' _ A S) by auto. eexists. split; [now apply pd_false|constructor].
  - rewrite (number_same x x' h A N). exists (DNum x h). split; [exact (pd_num x h N)|constructor].
  - exists (DStr x'). split; [|now constructor]. apply pd_str.
    + intros E. subst x'. apply N1. now apply text_same in A'.
    + intros S. apply N2. now rewrite (KW x' x _ A' S) by auto.
    + intros S. apply N3. now rewrite (KW x' x _ A' S) by auto.
    + intros S. apply N4. now rewrite (KW x' x _ A' S) by auto.
    + intros h S. apply (N5 h). now rewrite (number_same x' x h A' S).
Qed.
Lemma sq_near y v : sq_content y v -> forall y', near_text y y' -> exists v', sq_content y' v' /\ near_text v v'.
Proof.
  induction 1 as [|c y v N S IH|y v S IH]; intros y' A.
  - inversion A; subst. exists []. split; constructor.
  - inversion A as [|? c' ? y2 A1 A2]; subst. destruct (IH y2 A2) as (v' & S' & B). exists (c' :: v'). split; [|now constructor]. constructor; [now apply (near_ne c c')|exact S'].
  - destruct (text_split _ _ _ A) as (q & y2 & A1 & A2 & ->). apply text_same in A1; [|reflexivity]. subst q. destruct (IH y2 A2) as (v' & S' & B). exists (b "'" ++ v'). split; [now apply sc_pair|]. apply text_app; [apply text_refl|exact B].
Qed.
Lemma escape_bare e x c : yaml_escape e x -> In c e -> ~ blank c.
Proof.
  intros Y I B. assert (HX : forall c v, hex c v -> ~ blank c) by (intros d n [? X1|? X1|? X1] Q; unfold digit in X1; cbn in Q; lia).
  destruct Y; cbn [app b] in I; try (cbn in I; repeat (destruct I as [<-|I]; [first [match goal with H : hex ?d _, Q : blank ?d |- _ => exact (HX _ _ H Q) end|cbn in B; lia]|]); destruct I).
Qed.
Lemma dq_near y v : dq_shown y v -> forall y', near_text y y' -> exists v', dq_shown y' v' /\ near_text v v'.
Proof.
  induction 1 as [|c y v N Z S IH|e x y v X S IH|y v S IH]; intros y' A.
  - inversion A; subst. exists []. split; constructor.
  - inversion A as [|? c' ? y2 A1 A2]; subst. destruct (IH y2 A2) as (v' & S' & B). exists (c' :: v'). split; [|now constructor]. apply ds_byte; [now apply (near_out c c')|now apply (near_ne c c')|exact S'].
  - destruct (text_split _ _ _ A) as (q & y2 & A1 & A2 & ->). apply text_same in A1; [|reflexivity]. subst q. destruct (text_split _ _ _ A2) as (e' & y3 & A3 & A4 & ->). rewrite (text_bare e e' A3) by (intros c; now apply (escape_bare e x)).
    destruct (IH y3 A4) as (v' & S' & B). exists (x ++ v'). split; [now apply ds_esc|]. apply text_app; [apply text_refl|exact B].
  - destruct (text_split _ _ _ A) as (q & y2 & A1 & A2 & ->). apply text_same in A1; [|reflexivity]. subst q. destruct (IH y2 A2) as (v' & S' & B). exists (b """" ++ v'). split; [now apply ds_slash|]. apply text_app; [apply text_refl|exact B].
Qed.
(* trimmed lines *)
Lemma space_near x x' : near_text x x' -> space_char x -> space_char x'.
Proof.
  intros A S. apply space_table in S. apply space_table. unfold white_space in *. cbn [In] in S.
  assert (H : (exists c, x = [c] /\ blank c) \/ (forall c, In c x -> ~ blank c)).
  { repeat (destruct S as [<-|S]; [first [left; eexists; split; [reflexivity|cbn; tauto]|right; cbn; intros c I; repeat (destruct I as [<-|I]; [lia|]); destruct I]|]). destruct S. }
  destruct H as [(c & -> & B)|H].
  - inversion A as [|? c' ? r A1 A2]; subst. inversion A2; subst. apply (near_blank c c' A1) in B. cbn in B. destruct B as [<-|[<-|[<-|[<-|[]]]]]; cbn; auto 40.
  - rewrite (text_bare x x' A H). exact S.
Qed.
Lemma spaces_near u x' : near_text (concat u) x' -> Forall space_char u -> exists u', x' = concat u' /\ Forall space_char u'.
Proof.
  revert x'. induction u as [|a u IH]; intros x' A F; cbn [concat] in A.
  - inversion A; subst. exists []. split; constructor.
  - inversion F; subst. destruct (text_split _ _ _ A) as (a' & y & A1 & A2 & ->). destruct (IH y A2 ltac:(assumption)) as (u' & -> & F'). exists (a' :: u'). split; [reflexivity|]. constructor; [now apply (space_near a)|exact F'].
Qed.
Lemma trimmed_near r t r' : near_text r r' -> trimmed r t -> exists t', trimmed r' t' /\ near_text t t'.
Proof.
  intros A (u & v & U & V & -> & C). destruct (text_split _ _ _ A) as (u1 & y & A1 & A2 & ->). destruct (text_split _ _ _ A2) as (t' & v1 & A3 & A4 & ->).
  destruct (spaces_near u u1 A1 U) as (u' & -> & U'). destruct (spaces_near v v1 A4 V) as (v' & -> & V'). exists t'. split; [|exact A3]. exists u', v'. repeat (split; [assumption || reflexivity|]).
  intros x q S. pose proof (text_sym _ _ A3) as B. split; intros ->.
  - destruct (text_split _ _ _ B) as (x0 & q0 & B1 & B2 & ->). exact (proj1 (C x0 q0 (space_near x x0 B1 S)) eq_refl).
  - destruct (text_split _ _ _ B) as (q0 & x0 & B1 & B2 & ->). exact (proj2 (C x0 q0 (space_near x x0 B2 S)) eq_refl).
Qed.

Section Blanks.
Variables T T' : bytes.
Variable NT : near_text T T'.
Local Notation len := (length T).
Local Notation at_ i := (nth i T 0).
Local Notation at' i := (nth i T' 0).
Lemma len_eq : length T' = length T. Proof. exact (text_len _ _ NT). Qed.
Lemma at_near i : near (at_ i) (at' i). Proof. now apply text_nth. Qed.
Lemma at_eq i c : nb c -> at_ i = c -> at' i = c. Proof. intros N. apply near_eq; [apply at_near|exact N]. Qed.
Lemma at_ne i c : nb c -> at_ i <> c -> at' i <> c. Proof. intros N. apply near_ne; [apply at_near|exact N]. Qed.
Lemma at_in i l : nbs l -> In (at_ i) l -> In (at' i) l. Proof. intros N. apply near_in; [apply at_near|exact N]. Qed.
Lemma at_out i l : nbs l -> ~ In (at_ i) l -> ~ In (at' i) l. Proof. intros N. apply near_out; [apply at_near|exact N]. Qed.
Lemma at_white i : white (at_ i) -> white (at' i). Proof. apply near_white, at_near. Qed.
Lemma at_not_white i : ~ white (at_ i) -> ~ white (at' i).
Proof. intros N W. apply N. exact (near_white _ _ (near_sym _ _ (at_near i)) W). Qed.
Lemma part_near i j : near_text (slice T i j) (slice T' i j). Proof. now apply text_slice. Qed.
Lemma column_eq i : column T' i = column T i. Proof. unfold column. now apply indent_near, text_firstn. Qed.
Lemma line_near i k : line_to T i k -> line_to T' i k.
Proof. intros (L & N & E). unfold line_to. rewrite len_eq. split; [exact L|]. split; [now apply (text_out _ _ NEWLINE (part_near i k))|]. destruct E as [E|E]; [now left|right; now apply at_eq]. Qed.
Lemma gap_near i j : gap_to T i j -> gap_to T' i j.
Proof.
  induction 1 as [i L W H|i j W G IH|i k j H L G IH].
  - apply ga_none; [now rewrite len_eq|now apply at_not_white|now apply at_ne].
  - apply ga_white; [now apply at_white|exact IH].
  - apply (ga_comment _ _ k); [now apply at_eq|now apply line_near|exact IH].
Qed.
Lemma ends_near i : ends_key T i -> ends_key T' i.
Proof. intros [W|Z]; [left; now apply at_white|right; now apply at_eq]. Qed.
Lemma ends_not i : ~ ends_key T i -> ~ ends_key T' i.
Proof. intros N [W|Z]; apply N; [left; exact (near_white _ _ (near_sym _ _ (at_near i)) W)|right; exact (near_eq _ _ 0 (near_sym _ _ (at_near i)) eq_refl Z)]. Qed.
Lemma colon_not k : (at_ k = COLON -> ~ ends_key T (S k)) -> at' k = COLON -> ~ ends_key T' (S k).
Proof. intros H E. apply ends_not, H. exact (near_eq _ _ COLON (near_sym _ _ (at_near k)) eq_refl E). Qed.
Lemma quote_near i s j : quote_at T i s j -> exists s', quote_at T' i s' j /\ near_text s s'.
Proof.
  pose proof (part_near i j) as P. intros [y L E S N|y e L E S X]; rewrite E in P; destruct (text_split _ _ _ P) as (q & z & P1 & P2 & P3); destruct (text_split _ _ _ P2) as (y' & q' & P4 & P5 & ->); apply text_same in P1; try reflexivity; subst q.
  - apply text_same in P5; [|reflexivity]. subst q'. destruct (sq_near y s S y' P4) as (s' & S' & B). exists s'. split; [|exact B]. apply (qa_single _ _ _ _ y'); [now rewrite len_eq|exact P3|exact S'|now apply at_ne].
  - assert (q' = e) as -> by (apply (text_same e q' P5); destruct X as [->|[->|[-> _]]]; reflexivity). destruct (dq_near y s S y' P4) as (s' & S' & B). exists s'. split; [|exact B]. apply (qa_double _ _ _ _ y' e); [now rewrite len_eq|exact P3|exact S'|now rewrite len_eq].
Qed.
Lemma number_near flow i h j : number_at T flow i h j -> number_at T' flow i h j /\ slice T' i j = slice T i j.
Proof.
  intros (L & N & M & E). pose proof (number_same _ _ h (part_near i j) N) as P. split; [|exact P]. unfold number_at. rewrite len_eq, P. split; [exact L|]. split; [exact N|]. split.
  - intros k h' K N'. apply (M k h' K). now rewrite (number_same _ _ h' (text_sym _ _ (part_near i k)) N').
  - intros FL. destruct (E FL) as (k & LT & B). exists k. split; [now apply line_near|]. clear -B NT. pose proof (part_near j k) as P. induction P as [|c c' x x' A P IH]; [constructor|]. inversion B; subst. constructor; [now apply (near_blank c)|auto].
Qed.
Lemma no_word_not flow i : ~ no_word T flow i -> ~ no_word T' flow i.
Proof.
  intros N H. apply N. destruct H as [H|(F & H & W)]; [left|right].
  - exact (near_in _ _ (b """'[{|>") (near_sym _ _ (at_near i)) eq_refl H).
  - split; [exact F|]. split; [exact (near_eq _ _ DASH (near_sym _ _ (at_near i)) eq_refl H)|exact (near_white _ _ (near_sym _ _ (at_near (S i))) W)].
Qed.
Lemma word_near flow i j : word_to T flow i j -> word_to T' flow i j.
Proof.
  destruct flow; cbn [word_to].
  - intros (L & C & E). split; [now rewrite len_eq|]. split; [|now apply at_in]. intros c I J. pose proof (text_sym _ _ (part_near i j)) as P. assert (NB : nb c) by (cbn in J; repeat (destruct J as [<-|J]; [reflexivity|]); destruct J).
    exact (C c (text_in _ _ c P NB I) J).
  - intros (L & C). split; [now apply line_near|]. intros k K. apply colon_not. now apply C.
Qed.
Lemma joined_near folded i j : joined folded (slice T' i j) = joined folded (slice T i j).
Proof. unfold joined. now rewrite (text_count _ _ (part_near i j)). Qed.
Lemma lines_near folded c n v e m : lines_at T folded c n v e m -> exists v', lines_at T' folded c n v' e m /\ near_text v v'.
Proof.
  induction 1 as [n l t m L K U G C|n l t L K U G C|n l t n' v e m L K U G L' C H (v' & IH & B)]; destruct (trimmed_near _ t _ (part_near n l) U) as (t' & U' & A).
  - exists t'. split; [|exact A]. apply la_last; [now rewrite len_eq|now apply line_near|exact U'|now apply gap_near|now rewrite column_eq].
  - exists (t' ++ joined folded (slice T l len)). split; [|apply text_app; [exact A|apply text_refl]]. rewrite <- joined_near, <- len_eq. apply la_end; [now rewrite len_eq|now apply line_near|exact U'|rewrite len_eq; now apply gap_near|now rewrite len_eq, column_eq].
  - exists (t' ++ joined folded (slice T l n') ++ v'). split; [|apply text_app; [exact A|apply text_app; [apply text_refl|exact B]]]. rewrite <- joined_near. apply (la_more _ _ _ _ _ _ n'); [now rewrite len_eq|now apply line_near|exact U'|now apply gap_near|now rewrite len_eq|now rewrite column_eq|exact IH].
Qed.
Lemma body_near folded k v w j : block_body T folded k v w j -> exists v' w', block_body T' folded k v' w' j /\ near_text v v' /\ near_text w w'.
Proof.
  assert (HD : (exists n, gap_to T k n /\ ~ In NEWLINE (slice T k n)) -> exists n', gap_to T' k n' /\ ~ In NEWLINE (slice T' k n')).
  { intros (n & G & N). exists n. split; [now apply gap_near|]. now apply (text_out _ _ NEWLINE (part_near k n)). }
  intros [G I|n v0 e m G I L B|l t H L U G|l t n v0 e m H L U G LN B].
  - exists [], (slice T' k len). split; [|split; [constructor|apply part_near]]. rewrite <- len_eq. apply bb_empty; rewrite len_eq; [now apply gap_near|now apply (text_in _ _ NEWLINE (part_near k len))].
  - destruct (lines_near _ _ _ _ _ _ B) as (v' & B' & A). exists v', (slice T' e m). split; [|split; [exact A|apply part_near]]. apply (bb_lines _ _ _ n); [now apply gap_near|now apply (text_in _ _ NEWLINE (part_near k n))|now rewrite len_eq|now rewrite column_eq].
  - destruct (trimmed_near _ t _ (part_near k l) U) as (t' & U' & A). exists t', (slice T' l len). split; [|split; [exact A|apply part_near]]. rewrite <- len_eq. apply (bb_head _ _ _ l); [now apply HD|now apply line_near|exact U'|rewrite len_eq; now apply gap_near].
  - destruct (trimmed_near _ t _ (part_near k l) U) as (t' & U' & A). destruct (lines_near _ _ _ _ _ _ B) as (v' & B' & A'). exists (t' ++ (if folded then b " " else [NEWLINE]) ++ v'), (slice T' e m).
    split; [|split; [apply text_app; [exact A|apply text_app; [apply text_refl|exact A']]|apply part_near]]. apply (bb_more _ _ _ l _ n); [now apply HD|now apply line_near|exact U'|now apply gap_near|now rewrite len_eq|now rewrite column_eq].
Qed.
Lemma newlines_near w w' : near_text w w' -> newlines_in w' = newlines_in w.
Proof. intros A. unfold newlines_in. now rewrite (text_count w w' A). Qed.
Lemma laid_near i s w j : block_laid T i s w j -> exists s' w', block_laid T' i s' w' j /\ near_text s s' /\ near_text w w'.
Proof.
  intros [folded v A N B ->|folded v A N B ->|folded v A N B ->]; destruct (body_near _ _ _ _ _ B) as (v' & w' & B' & NV & NW); pose proof (newlines_near w w' NW) as E;
    assert (A' : at' i = (if folded then GT else PIPE)) by (apply at_eq; [now destruct folded|exact A]).
  - exists (v' ++ newlines_in w), w'. split; [|split; [apply text_app; [exact NV|apply text_refl]|exact NW]]. apply (bd_plain _ _ _ _ _ folded v'); [exact A'|now apply at_out|exact B'|now rewrite E].
  - exists (v' ++ newlines_in w), w'. split; [|split; [apply text_app; [exact NV|apply text_refl]|exact NW]]. apply (bd_keep _ _ _ _ _ folded v'); [exact A'|now apply at_eq|exact B'|now rewrite E].
  - exists v', w'. split; [|split; [exact NV|exact NW]]. apply (bd_strip _ _ _ _ _ folded v'); [exact A'|now apply at_eq|exact B'|reflexivity].
Qed.
Lemma key_near i s k : key_at T i s k -> exists s', key_at T' i s' k /\ near_text s s'.
Proof.
  intros [Q A|NW L N A E M ->].
  - destruct (quote_near i s k Q) as (s' & Q' & W). exists s'. split; [|exact W]. apply ka_quoted; [exact Q'|now apply at_eq].
  - exists (slice T' i k). split; [|apply part_near]. apply ka_plain; [now apply no_word_not|now rewrite len_eq|now apply (text_out _ _ NEWLINE (part_near i k))|now apply at_eq|now apply ends_near| |reflexivity].
    intros k' K. apply colon_not. now apply M.
Qed.
Lemma later_near i s k : later_key_at T i s k -> exists s', later_key_at T' i s' k /\ near_text s s'.
Proof.
  intros (L & -> & C & Z & A). exists (slice T' i k). split; [|apply part_near]. pose proof (part_near i k) as P. unfold later_key_at. rewrite len_eq. split; [exact L|]. split; [reflexivity|]. split; [now apply (text_out _ _ COLON P)|]. split; [now apply (text_out _ _ 0 P)|now apply at_eq].
Qed.
Lemma flow_key_near i s k : flow_key_at T i s k -> exists s', flow_key_at T' i s' k /\ near_text s s'.
Proof.
  intros (L & -> & C & Z & A). exists (slice T' i k). split; [|apply part_near]. pose proof (part_near i k) as P. unfold flow_key_at. rewrite len_eq. split; [exact L|]. split; [reflexivity|]. split; [now apply (text_out _ _ COLON P)|]. split; [now apply (text_out _ _ 0 P)|now apply at_in].
Qed.
Definition near_opt (w w' : option bytes) : Prop := match w, w' with Some x, Some x' => near_text x x' | None, None => True | _, _ => False end.
Definition near_entries (l l' : list (bytes * datum)) : Prop := Forall2 (fun e e' => near_text (fst e) (fst e') /\ near_datum (snd e) (snd e')) l l'.
Lemma after_near w v e w' n : near_opt w v -> after T w e w' n -> exists v', after T' v e v' n /\ near_text w' v'.
Proof.
  intros F AF. revert F. destruct AF as [x m|e0 m G]; intros F; destruct v as [v|]; cbn in F; try contradiction.
  - exists v. split; [apply af_read|exact F].
  - exists (slice T' e0 m). split; [apply af_skip; now apply gap_near|apply part_near].
Qed.
Ltac nears := repeat apply text_app; try assumption; try apply part_near; try apply text_refl.
Ltac here := first [now apply at_eq | now apply at_ne | now apply at_in | now apply at_out].
Lemma puts_near :
  (forall flow outer i d o w j, puts T flow outer i d o w j -> exists d' o' w', puts T' flow outer i d' o' w' j /\ near_datum d d' /\ near_text o o' /\ near_opt w w') /\
  (forall outer i d o w n, puts_behind T outer i d o w n -> exists d' o' w', puts_behind T' outer i d' o' w' n /\ near_datum d d' /\ near_text o o' /\ near_text w w') /\
  (forall c i l o w n, puts_dashes T c i l o w n -> exists l' o' w', puts_dashes T' c i l' o' w' n /\ Forall2 near_datum l l' /\ near_text o o' /\ near_text w w') /\
  (forall c s k l o w n, puts_pairs T c s k l o w n -> forall s', near_text s s' -> exists l' o' w', puts_pairs T' c s' k l' o' w' n /\ near_entries l l' /\ near_text o o' /\ near_text w w') /\
  (forall n p l o j, puts_flow_seq T n p l o j -> forall p', near_text p p' -> exists l' o', puts_flow_seq T' n p' l' o' j /\ Forall2 near_datum l l' /\ near_text o o') /\
  (forall n p l o j, puts_flow_map T n p l o j -> forall p', near_text p p' -> exists l' o', puts_flow_map T' n p' l' o' j /\ near_entries l l' /\ near_text o o') /\
  (forall n s d o w e, puts_pair T n s d o w e -> exists s' d' o' w', puts_pair T' n s' d' o' w' e /\ near_text s s' /\ near_datum d d' /\ near_text o o' /\ near_text w w').
Proof.
  apply puts_all.
  - intros flow outer i s j Q C. destruct (quote_near i s j Q) as (s' & Q' & W). do 3 eexists. split; [apply pu_quote; [exact Q'|destruct C as [C|C]; [now left|right; here]]|]. split; [now constructor|]. split; [nears|exact Logic.I].
  - intros flow outer i h j N. destruct (number_near flow i h j N) as (N' & E). do 3 eexists. split; [apply pu_number; exact N'|]. rewrite E. split; [constructor|]. split; [nears|exact Logic.I].
  - intros flow outer i d j NW NN Wd D. destruct (datum_near _ _ d (part_near i j) D) as (d' & D' & C). exists d', (slice T' i j), None. split; [|split; [exact C|split; [apply part_near|exact Logic.I]]].
    apply pu_word; [now apply no_word_not| |now apply word_near|exact D']. intros h k (L & N & M & E). apply (NN h k). pose proof (number_same _ _ h (text_sym _ _ (part_near i k)) N) as P. unfold number_at. rewrite P. rewrite len_eq in *.
    split; [exact L|]. split; [exact N|]. split.
    + intros k2 h' K N'. apply (M k2 h' K). now rewrite (number_same _ _ h' (part_near i k2) N').
    + intros FL. destruct (E FL) as (k2 & (L2 & N2 & E2) & B). exists k2. pose proof (text_sym _ _ (part_near k k2)) as Q. split.
      * rewrite len_eq in *. split; [exact L2|]. split; [now apply (text_out _ _ NEWLINE Q)|]. destruct E2 as [E2|E2]; [now left|right; exact (near_eq _ _ NEWLINE (near_sym _ _ (at_near k2)) eq_refl E2)].
      * clear -B Q. induction Q as [|c c' x x' A Q IH]; [constructor|]. inversion B; subst. constructor; [now apply (near_blank c)|auto].
  - intros flow outer i s w j n B G. destruct (laid_near i s w j B) as (s' & w' & B' & NS & NW). do 3 eexists. split; [apply (pu_block _ _ _ _ s' w' j n); [exact B'|now apply gap_near]|]. split; [now constructor|]. split; [nears|exact NW].
  - intros outer i l o w n A Wh _ (l' & o' & w' & H & C & NO & NW). exists (DSeq l'), o', (Some w'). split; [apply pu_seq; [here|now apply at_white|now rewrite column_eq]|]. split; [now constructor|]. auto.
  - intros outer i s k l o w n K U _ IH. destruct (key_near i s k K) as (s' & K' & W). destruct (IH s' W) as (l' & o' & w' & H & C & NO & NW). do 3 eexists. split; [apply (pu_map _ _ _ s' k l' o' w' n); [exact K'| |]; now rewrite column_eq|].
    split; [now constructor|]. split; [nears|exact NW].
  - intros flow outer i n l o j A G _ IH. destruct (IH _ (part_near (S i) n)) as (l' & o' & H & C & NO). do 3 eexists. split; [apply (pu_flow_seq _ _ _ _ n l' o' j); [here|now apply gap_near|exact H]|]. split; [now constructor|]. split; [nears|exact Logic.I].
  - intros flow outer i n l o j A G _ IH. destruct (IH _ (part_near (S i) n)) as (l' & o' & H & C & NO). do 3 eexists. split; [apply (pu_flow_map _ _ _ _ n l' o' j); [here|now apply gap_near|exact H]|]. split; [now constructor|]. split; [nears|exact Logic.I].
  - intros outer i m d o w e w' n G _ (d' & o' & v & H & C & NO & NW) AF. destruct (after_near w v e w' n NW AF) as (v' & AF2 & NV). do 3 eexists. split; [apply (bh_value _ _ _ m d' o' v e v'); [now apply gap_near|exact H|exact AF2]|]. split; [exact C|]. split; [nears|exact NV].
  - intros o i m s k G K LE. destruct (key_near m s k K) as (s' & K' & _). do 3 eexists. split; [apply (bh_none _ _ _ m s' k); [now apply gap_near|exact K'|now rewrite column_eq]|]. split; [constructor|]. split; [constructor|apply part_near].
  - intros c i d o w n _ (d' & o' & w' & H & CD & NO & NW) C. do 3 eexists. split; [apply (pd_last _ _ _ d' o' w'); [exact H|]|]. { rewrite column_eq. destruct C as [C|C]; [now left|right; here]. } split; [now repeat constructor|]. split; [nears|exact NW].
  - intros c i d o w n v l o' w' n' _ (d2 & o2 & w2 & H & CD & NO & NW) C AN V _ (l2 & o3 & w3 & H2 & CL & NO2 & NW2). destruct (valid_near w w2 v NW V) as (v2 & V2 & NV). do 3 eexists.
    split; [apply (pd_more _ _ _ d2 o2 w2 n v2 l2 o3 w3); [exact H|now rewrite column_eq|here|exact V2|exact H2]|]. split; [now constructor|]. split; [nears|exact NW2].
  - intros c s k d o w n _ (d' & o' & w' & H & CD & NO & NW) C s' W. do 3 eexists. split; [apply (pp_last _ _ _ _ d' o' w'); [exact H|]|]. { rewrite column_eq. destruct C as [C|C]; [now left|right; here]. } split; [constructor; [now split|constructor]|]. split; [nears|exact NW].
  - intros c s k d o w n s2 k2 l o' w' n' _ (d2 & o2 & w2 & H & CD & NO & NW) C K _ IH s' W. destruct (later_near _ _ _ K) as (s3 & K' & W3). destruct (IH s3 W3) as (l2 & o3 & w3 & H2 & CL & NO2 & NW2). do 3 eexists.
    split; [apply (pp_more _ _ _ _ d2 o2 w2 n s3 k2 l2 o3 w3); [exact H|now rewrite column_eq|exact K'|exact H2]|]. split; [constructor; [now split|exact CL]|]. split; [nears|exact NW2].
  - intros n p A p' W. do 2 eexists. split; [apply ps_end; here|]. split; [constructor|nears].
  - intros n p v m d o w e w' n' l o' j N V G _ (d2 & o2 & w2 & H & CD & NO & NW) A AF _ IH p' W. destruct (after_near w w2 (S e) w' n' NW AF) as (w3 & AF2 & NW3). destruct (IH w3 NW3) as (l2 & o3 & H2 & CL & NO2). destruct (valid_near p p' v W V) as (v2 & V2 & NV).
    do 2 eexists. split; [apply (ps_comma _ _ p' v2 m d2 o2 w2 e w3 n' l2 o3); [here|exact V2|now apply gap_near|exact H|here|exact AF2|exact H2]|]. split; [now constructor|nears].
  - intros n p v m d o w e w' n' N V G _ (d2 & o2 & w2 & H & CD & NO & NW) A AF A2 p' W. destruct (after_near w w2 e w' n' NW AF) as (w3 & AF2 & NW3). destruct (valid_near p p' v W V) as (v2 & V2 & NV).
    do 2 eexists. split; [apply (ps_last _ _ p' v2 m d2 o2 w2 e w3 n'); [here|exact V2|now apply gap_near|exact H|here|exact AF2|here]|]. split; [now repeat constructor|nears].
  - intros n p v m d o w e w' v' n' d' o' w2 e' w3 n'' N V G _ (d2 & o2 & x2 & H & CD & NO & NW) A AF N' V' _ (d3 & o3 & x3 & H3 & CD3 & NO3 & NW3) AF3 A2 p' W.
    destruct (after_near w x2 e w' n' NW AF) as (w4 & AF2 & NW4). destruct (after_near w2 x3 e' w3 n'' NW3 AF3) as (w5 & AF5 & NW5). destruct (valid_near p p' v W V) as (v2 & V2 & NV). destruct (valid_near w' w4 v' NW4 V') as (v4 & V4 & NV4).
    do 2 eexists. split; [apply (ps_two _ _ p' v2 m d2 o2 x2 e w4 v4 n' d3 o3 x3 e' w5 n''); [here|exact V2|now apply gap_near|exact H|here|exact AF2|here|exact V4|exact H3|exact AF5|here]|]. split; [now repeat constructor|nears].
  - intros n p A p' W. do 2 eexists. split; [apply pm_end; here|]. split; [constructor|nears].
  - intros n p s d o w e n' l o' j _ (s2 & d2 & o2 & w2 & H & WS & CD & NO & NW) A G _ IH p' W. destruct (IH _ (part_near (S e) n')) as (l2 & o3 & H2 & CL & NO2). do 2 eexists. split; [apply (pm_comma _ _ p' s2 d2 o2 w2 e n' l2 o3); [exact H|here|now apply gap_near|exact H2]|].
    split; [constructor; [now split|exact CL]|nears].
  - intros n p s d o w e _ (s2 & d2 & o2 & w2 & H & WS & CD & NO & NW) A p' W. do 2 eexists. split; [apply (pm_last _ _ p' s2 d2 o2 w2 e); [exact H|here]|]. split; [constructor; [now split|constructor]|nears].
  - intros n p s d o w e s' d' o' w' e' _ (s2 & d2 & o2 & w2 & H & WS & CD & NO & NW) A _ (s3 & d3 & o3 & w3 & H3 & WS3 & CD3 & NO3 & NW3) A2 p' W. do 2 eexists. split; [apply (pm_two _ _ p' s2 d2 o2 w2 e s3 d3 o3 w3 e'); [exact H|here|exact H3|here]|].
    split; [constructor; [now split|constructor; [now split|constructor]]|nears].
  - intros n s k m d o w e w' e2 N K G _ (d2 & o2 & w2 & H & CD & NO & NW) AF. destruct (flow_key_near n s k K) as (s' & K' & WS). destruct (after_near w w2 e w' e2 NW AF) as (w3 & AF2 & NW3).
    do 4 eexists. split; [apply (pr_pair _ _ s' k m d2 o2 w2 e w3 e2); [here|exact K'|now apply gap_near|exact H|exact AF2]|]. split; [exact WS|]. split; [exact CD|]. split; [nears|exact NW3].
Qed.
Lemma marker_not i : ~ (at_ i = DASH /\ at_ (1 + i) = DASH /\ at_ (2 + i) = DASH) -> ~ (at' i = DASH /\ at' (1 + i) = DASH /\ at' (2 + i) = DASH).
Proof. intros D (E1 & E2 & E3). apply D. pose proof (fun j => near_eq _ _ DASH (near_sym _ _ (at_near j)) eq_refl) as X. auto. Qed.
Lemma puts_header_near p i p' j : puts_header T p i p' j -> forall q, near_text p q -> exists q', puts_header T' q i q' j /\ near_text p' q'.
Proof.
  intros H. induction H as [p i A D|p i k n p' j A L G H IH|p i j D1 D2 D3 G]; intros q W.
  - exists q. split; [|exact W]. apply ph_none; [here|now apply marker_not].
  - destruct (IH _ (part_near k n)) as (q' & H2 & W2). exists q'. split; [|exact W2]. apply (ph_directive _ _ _ k n); [here|now apply line_near|now apply gap_near|exact H2].
  - exists (slice T' (3 + i) j). split; [|apply part_near]. apply ph_marker; [here|here|here|now apply gap_near].
Qed.
Lemma printed_near d out : printed T d out -> exists d' out', printed T' d' out' /\ near_datum d d' /\ near_text out out'.
Proof.
  intros [n p i o w j w' G H P A]. destruct (puts_header_near _ _ _ _ H _ (part_near 0 n)) as (q' & H2 & W2). destruct (proj1 puts_near _ _ _ _ _ _ _ P) as (d2 & o2 & w2 & P2 & CD & NO & NW). destruct (after_near w w2 j w' _ NW A) as (w3 & A2 & NW3).
  exists d2, (q' ++ o2 ++ w3). split; [|split; [exact CD|nears]]. rewrite <- len_eq in A2. exact (printed_as _ _ _ _ _ _ _ _ _ (gap_near _ _ G) H2 P2 A2).
Qed.

(* errors *)
Lemma hex_bare c : hexdigit c -> ~ blank c.
Proof. intros (v & [? D|? D|? D]) B; try unfold digit in D; cbn in B; lia. Qed.
Lemma hex_near i : hexdigit (at_ i) -> at' i = at_ i.
Proof. intros H. apply (near_bare _ _ (at_near i)). now apply hex_bare. Qed.
Lemma not_hex i : ~ hexdigit (at_ i) -> ~ hexdigit (at' i).
Proof. intros N H. apply N. now rewrite (near_bare _ _ (near_sym _ _ (at_near i)) (hex_bare _ H)). Qed.
Lemma escape_near p k e : bad_escape T p k e -> bad_escape T' p k e.
Proof.
  intros [E|L0 N|k0 c n q K C L0 QL D ND|v1 v2 v3 v4 C H1 H2 H3 H4 SU].
  - rewrite <- len_eq in *. now apply be_end.
  - apply be_letter; [now rewrite len_eq|]. unfold no_letter in *. here.
  - rewrite <- len_eq in *. apply (be_digit _ _ k0 c n q); [exact K| |exact L0|exact QL| |now apply not_hex].
    + destruct K as [K|K]; injection K as _ -> _; injection C as C; cbn; f_equal; now apply at_eq.
    + intros i I. rewrite hex_near; now apply D.
  - assert (HX : forall i v, hex (at_ i) v -> hex (at' i) v) by (intros i v H; rewrite hex_near; [exact H|now exists v]). apply (be_surrogate _ _ v1 v2 v3 v4); auto. injection C as C. cbn. f_equal. now apply at_eq.
Qed.
Lemma bad_quote_near i r : bad_quote T i r -> bad_quote T' i r.
Proof.
  intros [v A C|p v k e A L0 D B E].
  - destruct (sq_near _ _ C _ (part_near (S i) len)) as (v' & C' & _). apply (bq_open _ _ v'); [here|now rewrite len_eq].
  - destruct (dq_near _ _ D _ (part_near (S i) p)) as (v' & D' & _). apply (bq_escape _ _ p v'); [here|exact L0|exact D'|here|now apply escape_near].
Qed.
Lemma fails_near :
  (forall flow outer i r, fails T flow outer i r -> fails T' flow outer i r) /\
  (forall outer i r, fails_behind T outer i r -> fails_behind T' outer i r) /\
  (forall c i r, fails_dashes T c i r -> fails_dashes T' c i r) /\
  (forall c k r, fails_pairs T c k r -> fails_pairs T' c k r) /\
  (forall n p r, fails_flow_seq T n p r -> forall p', near_text p p' -> fails_flow_seq T' n p' r) /\
  (forall st n r, fails_flow_map T st n r -> fails_flow_map T' st n r) /\
  (forall st n r, fails_pair T st n r -> fails_pair T' st n r).
Proof.
  destruct puts_near as (PV & PB & _ & _ & _ & _ & PP).
  apply fails_all.
  - intros flow outer i r Q. now apply fa_quote, bad_quote_near.
  - intros outer i r A Wh _ IH. apply fa_seq; [here|now apply at_white|now rewrite column_eq].
  - intros outer i s k r K U _ IH. destruct (key_near i s k K) as (s' & K' & _). apply (fa_map _ _ _ s' k); [exact K'| |]; now rewrite column_eq.
  - intros flow outer i n r A G _ IH. apply (fa_flow_seq _ _ _ _ n); [here|now apply gap_near|apply IH, part_near].
  - intros flow outer i n r A G _ IH. apply (fa_flow_map _ _ _ _ n); [here|now apply gap_near|exact IH].
  - intros outer i m r G _ IH. apply (fb_value _ _ _ m); [now apply gap_near|exact IH].
  - intros c i r _ IH. now apply fd_here.
  - intros c i d o w n r P0 C AN _ IH. destruct (PB _ _ _ _ _ _ P0) as (d' & o' & w' & P2 & _). apply (fd_more _ _ _ d' o' w' n); [exact P2|now rewrite column_eq|here|exact IH].
  - intros c k r _ IH. now apply fp_here.
  - intros c k d o w n s' k' r P0 C K _ IH. destruct (PB _ _ _ _ _ _ P0) as (d' & o' & w' & P2 & _). destruct (later_near _ _ _ K) as (s2 & K' & _). apply (fp_more _ _ _ d' o' w' n s2 k'); [exact P2|now rewrite column_eq|exact K'|exact IH].
  - intros c k d o w n k' P0 C L N1 N2 AZ. destruct (PB _ _ _ _ _ _ P0) as (d' & o' & w' & P2 & _). rewrite <- len_eq in *. pose proof (part_near n k') as P.
    apply (fp_key _ _ _ d' o' w' n); [exact P2|now rewrite column_eq|exact L|now apply (text_out _ _ COLON P)|now apply (text_out _ _ 0 P)|here].
  - intros n p A p' W. rewrite <- (text_len p p' W). apply fs_open. here.
  - intros n p m r N G _ IH p' W. apply (fs_value _ _ _ m); [here|now apply gap_near|exact IH].
  - intros n p m d o w e w' n' r N G P0 A AF _ IH p' W. destruct (PV _ _ _ _ _ _ _ P0) as (d2 & o2 & w2 & P2 & _ & _ & NW). destruct (after_near w w2 (S e) w' n' NW AF) as (w3 & AF2 & NW3).
    apply (fs_comma _ _ p' m d2 o2 w2 e w3 n'); [here|now apply gap_near|exact P2|here|exact AF2|now apply IH].
  - intros n p m d o w e w' n' N G P0 A AF AZ p' W. destruct (PV _ _ _ _ _ _ _ P0) as (d2 & o2 & w2 & P2 & _ & _ & NW). destruct (after_near w w2 e w' n' NW AF) as (w3 & AF2 & NW3). rewrite <- (text_len w' w3 NW3).
    apply (fs_last_open _ _ p' m d2 o2 w2 e w3 n'); [here|now apply gap_near|exact P2|here|exact AF2|here].
  - intros n p m d o w e w' n' r N G P0 A AF N' _ IH p' W. destruct (PV _ _ _ _ _ _ _ P0) as (d2 & o2 & w2 & P2 & _ & _ & NW). destruct (after_near w w2 e w' n' NW AF) as (w3 & AF2 & NW3).
    apply (fs_last_value _ _ p' m d2 o2 w2 e w3 n'); [here|now apply gap_near|exact P2|here|exact AF2|here|exact IH].
  - intros n p m d o w e w' n' d' o' w2 e' w3 n'' N G P0 A AF N' P1 AF' A2 p' W. destruct (PV _ _ _ _ _ _ _ P0) as (d2 & o2 & x2 & P2 & _ & _ & NW). destruct (after_near w x2 e w' n' NW AF) as (x3 & AF2 & NW3).
    destruct (PV _ _ _ _ _ _ _ P1) as (d3 & o3 & x4 & P3 & _ & _ & NW4). destruct (after_near w2 x4 e' w3 n'' NW4 AF') as (x5 & AF3 & NW5). rewrite <- (text_len w3 x5 NW5).
    apply (fs_last_end _ _ p' m d2 o2 x2 e x3 n' d3 o3 x4 e' x5 n''); [here|now apply gap_near|exact P2|here|exact AF2|here|exact P3|exact AF3|here].
  - intros st n A. apply fm_open. here.
  - intros st n r _ IH. now apply fm_pair.
  - intros st n s d o w e n' r P0 A G _ IH. destruct (PP _ _ _ _ _ _ P0) as (s2 & d2 & o2 & w2 & P2 & _). apply (fm_comma _ _ _ s2 d2 o2 w2 e n'); [exact P2|here|now apply gap_near|exact IH].
  - intros st n s d o w e P0 A. destruct (PP _ _ _ _ _ _ P0) as (s2 & d2 & o2 & w2 & P2 & _). apply (fm_last_open _ _ _ s2 d2 o2 w2 e); [exact P2|here].
  - intros st n s d o w e r P0 A _ IH. destruct (PP _ _ _ _ _ _ P0) as (s2 & d2 & o2 & w2 & P2 & _). apply (fm_last_pair _ _ _ s2 d2 o2 w2 e); [exact P2|here|exact IH].
  - intros st n s d o w e s' d' o' w' e' P0 A P1 A2. destruct (PP _ _ _ _ _ _ P0) as (s2 & d2 & o2 & w2 & P2 & _). destruct (PP _ _ _ _ _ _ P1) as (s3 & d3 & o3 & w3 & P3 & _). apply (fm_last_end _ _ _ s2 d2 o2 w2 e s3 d3 o3 w3 e'); [exact P2|here|exact P3|here].
  - intros st n N C Z. pose proof (part_near n len) as P. rewrite <- len_eq in *. apply fr_key; [here|now apply (text_out _ _ COLON P)|now apply (text_out _ _ 0 P)].
  - intros st n s k m r N K G _ IH. destruct (flow_key_near n s k K) as (s' & K' & _). apply (fr_value _ _ _ s' k m); [here|exact K'|now apply gap_near|exact IH].
Qed.
Lemma wrong_near r : wrong T r -> wrong T' r.
Proof.
  intros [n p i r0 G H F|n p i d o w j w' n' G H P A L]; destruct (puts_header_near _ _ _ _ H _ (part_near 0 n)) as (q' & H2 & W2).
  - exact (wr_value _ _ _ _ _ (gap_near _ _ G) H2 (proj1 fails_near _ _ _ _ F)).
  - destruct (proj1 puts_near _ _ _ _ _ _ _ P) as (d2 & o2 & w2 & P2 & _ & _ & NW). destruct (after_near w w2 j w' n' NW A) as (w3 & A2 & _). rewrite <- len_eq in L |- *. exact (wr_more _ _ _ _ _ _ _ _ _ _ (gap_near _ _ G) H2 P2 A2 L).
Qed.
End Blanks.
