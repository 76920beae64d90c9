(* C50: exactly which texts are refused, which never return, and what each error says. *)
From Coq Require Import String.
From Coq Require Import List NArith ZArith Bool Arith Lia.
From Verif Require Import Bytes Utf8 Data Parser Render Tree Abs Refine Scan AbsText AbsNice Shown Valid Exact TextProps Built Back
  Tests PropsParse White Plain Lexed Means Places MeansSound MeansComplete PropsMeans Printed PrintedSound PrintedComplete PropsPrinted Fails FailsSound FailsComplete.
Import ListNotations.
Local Open Scope N_scope.

Lemma wrong_reports input r : wrong input r <-> match a_parse input with Err x y k => r = bad k x y | Hang => r = stuck | _ => False end.
Proof.
  split; [apply fails_complete|]. pose proof (fails_sound input) as S. destruct (a_parse input); intros E; try contradiction; subst; exact S.
Qed.
(* The parser never returns exactly for the texts that have an open quote where a value stands. *)
Theorem C50_stuck : forall hash input, from_slice hash input = Hang <-> wrong input stuck.
Proof.
  intros hash input. rewrite wrong_reports. pose proof (refine hash input) as R.
  destruct (a_parse input) as [[t s]|x y k| | |], (from_slice hash input) as [d|x' y' k'| | |]; try contradiction; split; intros H; try discriminate; try contradiction; reflexivity.
Qed.
Print Assumptions C50_stuck.
(* Every error is one of the rules'. The start of an unterminated flow sequence is counted back
   from its end by the length of an interned string, so it is exact if the hash of strings is
   injective. *)
Theorem C50_error : forall hash input x y k, from_slice hash input = Err x y k ->
  exists x0, wrong input (bad k x0 y) /\ (k <> BadSequenceTerminator \/ (forall u v, hash u = hash v -> u = v) -> x0 = x).
Proof.
  intros hash input x y k F. pose proof (refine hash input) as R. rewrite F in R. destruct (a_parse input) as [[t s]|x0 y0 k0| | |] eqn:A; try contradiction.
  destruct R as (C & -> & ->). exists x0. split; [apply wrong_reports; now rewrite A|]. intros H. destruct C as [->|(_ & -> & u & v & NE & C)]; [reflexivity|]. destruct H as [H|H]; [congruence|]. now apply H in C.
Qed.
Print Assumptions C50_error.
Theorem C50_reports : forall hash input x y k, wrong input (bad k x y) ->
  exists x', from_slice hash input = Err x' y k /\ (k <> BadSequenceTerminator \/ (forall u v, hash u = hash v -> u = v) -> x' = x).
Proof.
  intros hash input x y k W. apply wrong_reports in W. pose proof (refine hash input) as R. destruct (a_parse input) as [[t s]|x0 y0 k0| | |] eqn:A; try contradiction; [|discriminate].
  injection W as <- <- <-. destruct (from_slice hash input) as [d|x' y' k'| | |]; try contradiction. destruct R as (C & <- & <-). exists x'. split; [reflexivity|].
  intros H. destruct C as [->|(_ & -> & u & v & NE & C)]; [reflexivity|]. destruct H as [H|H]; [congruence|]. now apply H in C.
Qed.
Print Assumptions C50_reports.
(* All three outcomes at once. *)
Theorem C50_exact : forall hash input, (forall u v, hash u = hash v -> u = v) ->
  ((exists doc, from_slice hash input = Ok doc) <-> exists d out, printed input d out) /\
  (from_slice hash input = Hang <-> wrong input stuck) /\
  (forall x y k, from_slice hash input = Err x y k <-> wrong input (bad k x y)).
Proof.
  intros hash input I. split; [apply C49_exact|]. split; [apply C50_stuck|]. intros x y k. split.
  - intros F. destruct (C50_error _ _ _ _ _ F) as (x0 & W & E). rewrite E in W by auto. exact W.
  - intros W. destruct (C50_reports hash _ _ _ _ W) as (x' & F & E). rewrite E in F by auto. exact F.
Qed.
Print Assumptions C50_exact.
(* Every text is accepted by the rules or wrong by the rules, not both, and in one way only. *)
Theorem C50_total : forall input, (exists d out, printed input d out) \/ exists r, wrong input r.
Proof.
  intros input. pose proof (parse_no_panic idhash input) as [P O]. destruct (C50_exact idhash input ltac:(auto)) as (A & S & E). destruct (from_slice idhash input) as [doc|x y k| | |]; try congruence.
  - left. apply A. eauto.
  - right. exists (bad k x y). now apply E.
  - right. exists stuck. now apply S.
Qed.
Print Assumptions C50_total.
Theorem C50_one : forall input r, wrong input r -> (forall r', wrong input r' -> r' = r) /\ forall d out, ~ printed input d out.
Proof.
  intros input r W. apply wrong_reports in W. split.
  - intros r' W'. apply wrong_reports in W'. destruct (a_parse input); try contradiction; now subst.
  - intros d out P. destruct (printed_complete _ _ _ P) as (t & s & A & _). now rewrite A in W.
Qed.
Print Assumptions C50_one.
(* The hash decides nothing but that one start. *)
Theorem C48_outcome : forall hash hash' input,
  (from_slice hash input = Hang <-> from_slice hash' input = Hang) /\
  (forall x y k, from_slice hash input = Err x y k -> exists x', from_slice hash' input = Err x' y k /\ (k <> BadSequenceTerminator -> x' = x)).
Proof.
  intros hash hash' input. split; [now rewrite !C50_stuck|]. intros x y k F. destruct (C50_error _ _ _ _ _ F) as (x0 & W & E). destruct (C50_reports hash' _ _ _ _ W) as (x' & F' & E').
  exists x'. split; [exact F'|]. intros N. rewrite <- E, E' by auto. reflexivity.
Qed.
Print Assumptions C48_outcome.
(* Inside a text that never returns there is a single quote behind which single quotes come only
   in pairs. *)
Theorem C04_open : forall hash input, from_slice hash input = Hang ->
  exists i v, nth i input 0 = SQUOTE /\ sq_content (slice input (S i) (length input)) v.
Proof.
  intros hash input F. apply C50_stuck in F.
  set (OP := exists i v, nth i input 0 = SQUOTE /\ sq_content (slice input (S i) (length input)) v).
  assert (Q : forall i r, bad_quote input i r -> r = stuck -> OP).
  { intros i r [v E C|p v k e E L D B X] Z; [exists i, v; auto|discriminate]. }
  assert (A : forall flow outer i r, fails input flow outer i r -> r = stuck -> OP).
  { apply (fails_mut input (fun _ _ _ r => r = stuck -> OP) (fun _ _ r => r = stuck -> OP) (fun _ _ r => r = stuck -> OP) (fun _ _ r => r = stuck -> OP) (fun _ _ r => r = stuck -> OP) (fun _ _ r => r = stuck -> OP) (fun _ _ r => r = stuck -> OP));
      intros; try discriminate; eauto. }
  inversion F; subst. eapply A; eauto.
Qed.
Print Assumptions C04_open.

(* ---- cases ---- *)
Lemma wrong_by text r : match a_parse text with Err x y k => r = bad k x y | Hang => r = stuck | _ => False end -> wrong text r.
Proof. apply wrong_reports. Qed.
Ltac wrong := apply wrong_by; vm_compute; reflexivity.
Local Ltac no_gap := apply ga_none; [vm_compute; lia|vm_compute; intuition discriminate|vm_compute; discriminate].
Local Ltac one_white := apply ga_white; [vm_compute; auto 6|].
(* by the rules alone *)
Definition wrong_src : bytes := b "- {a: ""\x4g""}".
Example C50_case : wrong wrong_src (bad BadHexEscape 7 11).
Proof.
  assert (L : length wrong_src = 13%nat) by reflexivity.
  apply (wr_value _ 0 [] 0); [no_gap|apply ph_none; vm_compute; intuition discriminate|].
  apply fa_seq; [reflexivity|vm_compute; auto 8|]. apply fd_here. apply (fb_value _ _ _ 2); [one_white; no_gap|].
  apply (fa_flow_map _ _ _ _ 3); [reflexivity|no_gap|]. apply fm_pair.
  apply (fr_value _ 3 3 (b "a") 4 6); [vm_compute; intuition discriminate| |one_white; no_gap|].
  { split; [rewrite L; lia|]. repeat split; vm_compute; auto; intuition discriminate. }
  apply fa_quote. apply (bq_escape _ _ 7 []); [reflexivity|lia|constructor|reflexivity|].
  change 11%nat with (Nat.min 11 (length wrong_src)). apply (be_digit _ 7 BadHexEscape (b "x") 2 10); [auto|reflexivity|lia|rewrite L; lia| |].
  - intros i I. assert (i = 9)%nat as -> by lia. exists 4. apply hex_value_iff. reflexivity.
  - intros (v & H). apply hex_value_iff in H. discriminate H.
Qed.
Example wrong_open : wrong (b "[1, 2 # c") (bad BadSequenceTerminator 5 9).
Proof. wrong. Qed.
Example wrong_twice : wrong (b "[1 2 3]") (bad BadSequenceTerminator 4 5).
Proof. wrong. Qed.
Example wrong_colon : wrong (b "{a: 1, b}") (bad BadMappingSeparator 6 9).
Proof. wrong. Qed.
Example wrong_later : wrong (b "a: ""x""" ++ [10] ++ b "b" ++ [10]) (bad BadMappingSeparator 7 9).
Proof. wrong. Qed.
Example wrong_end : wrong (b """a"" b") (bad ExpectedEof 4 5).
Proof. wrong. Qed.
Example wrong_surrogate : wrong (b "- ""\ud800""") (bad BadUnicodeEscape 3 9).
Proof. wrong. Qed.
Example wrong_stuck : wrong (b "a: ['it''s, 1") stuck.
Proof. wrong. Qed.
