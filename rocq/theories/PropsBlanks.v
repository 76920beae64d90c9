(* C65: texts with other blanks. *)
From Coq Require Import String.
From Coq Require Import List NArith ZArith Bool Arith Lia.
From Verif Require Import Bytes Utf8 Data Parser Render Tree Abs Refine Utf8Props Scan Num Reads Shown Plain Lexed Means Printed Fails Places TextProps Tests PropsParse PropsMeans PropsPrinted PropsFails Nest Blanks.
Import ListNotations.
Local Open Scope N_scope.

(* Which blanks are used never decides whether a text is accepted. *)
Theorem C65_accepted : forall hash text text', near_text text text' -> ((exists doc, from_slice hash text' = Ok doc) <-> (exists doc, from_slice hash text = Ok doc)).
Proof.
  intros hash text text' N. rewrite (proj1 (C49_exact hash text)), (proj1 (C49_exact hash text')). split; intros (d & out & P).
  - destruct (printed_near _ _ (text_sym _ _ N) d out P) as (d' & out' & P' & _). eauto.
  - destruct (printed_near _ _ N d out P) as (d' & out' & P' & _). eauto.
Qed.
Print Assumptions C65_accepted.

(* The data and the text written back are the same but for blanks. *)
Theorem C65_data : forall hash text text' doc doc' d out, near_text text text' -> from_slice hash text = Ok doc -> from_slice hash text' = Ok doc' ->
  no_collision hash (doc_data doc) -> no_collision hash (doc_data doc') -> shows (doc_data doc) (doc_root doc) d -> write_to doc = Ok out ->
  exists d' out', shows (doc_data doc') (doc_root doc') d' /\ write_to doc' = Ok out' /\ near_datum d d' /\ near_text out out'.
Proof.
  intros hash text text' doc doc' d out N F F' C C' S W. assert (P : printed text d out) by (apply (proj2 (C49_exact hash text) doc F C); auto).
  destruct (printed_near _ _ N d out P) as (d' & out' & P' & ND & NO). apply (proj2 (C49_exact hash text') doc' F' C') in P' as [S' W']. eauto 8.
Qed.
Print Assumptions C65_data.

(* Data whose strings and keys have no blank is exactly the same. *)
Inductive no_blank : datum -> Prop :=
| nl_null : no_blank DNull
| nl_bool v : no_blank (DBool v)
| nl_num x h : no_blank (DNum x h)
| nl_str s : (forall c, In c s -> ~ blank c) -> no_blank (DStr s)
| nl_map l : Forall (fun e => (forall c, In c (fst e) -> ~ blank c) /\ no_blank (snd e)) l -> no_blank (DMap l)
| nl_seq l : Forall no_blank l -> no_blank (DSeq l).
Fixpoint no_blank_same d (H : no_blank d) {struct H} : forall d', near_datum d d' -> d' = d.
Proof.
  destruct H as [|v|x h|s N|l F|l F]; intros d' C.
  - now inversion C.
  - now inversion C.
  - now inversion C.
  - inversion C; subst. f_equal. now apply text_bare.
  - inversion C as [| | | |l0 l' F2|]; subst. f_equal. clear C. revert l' F2. induction F as [|e l [NE E] F IH]; intros l' F2; inversion F2 as [|? e' ? l2 [W CE] F3]; subst; [reflexivity|].
    rewrite (IH _ F3). destruct e as [k v], e' as [k' v']. cbn [fst snd] in *. rewrite (text_bare _ _ W NE), (no_blank_same v E v' CE). reflexivity.
  - inversion C as [| | | | |l0 l' F2]; subst. f_equal. clear C. revert l' F2. induction F as [|e l E F IH]; intros l' F2; inversion F2 as [|? e' ? l2 CE F3]; subst; [reflexivity|].
    rewrite (IH _ F3), (no_blank_same e E e' CE). reflexivity.
Qed.
Theorem C65_same : forall hash text text' doc doc' d, near_text text text' -> from_slice hash text = Ok doc -> from_slice hash text' = Ok doc' ->
  no_collision hash (doc_data doc) -> no_collision hash (doc_data doc') -> shows (doc_data doc) (doc_root doc) d -> no_blank d -> shows (doc_data doc') (doc_root doc') d.
Proof.
  intros hash text text' doc doc' d N F F' C C' S B. apply (proj2 (C47_exact hash text) doc F C) in S. apply C49_means in S as (out & P).
  destruct (printed_near _ _ N d out P) as (d' & out' & P' & ND & _). rewrite (no_blank_same d B d' ND) in P'. apply (proj2 (C49_exact hash text') doc' F' C') in P'. apply P'.
Qed.
Print Assumptions C65_same.

(* Reading hangs exactly if it did. *)
Theorem C65_hang : forall hash text text', near_text text text' -> (from_slice hash text' = Hang <-> from_slice hash text = Hang).
Proof.
  intros hash text text' N. rewrite !C50_stuck. split; apply wrong_near; [now apply text_sym|exact N].
Qed.
Print Assumptions C65_hang.

(* A refused text is refused for the same reason at the same place. As always the start of a
   missing bracket of a flow sequence needs the hash of strings to be free of collisions. *)
Theorem C65_error : forall hash text text' x y k, near_text text text' -> from_slice hash text = Err x y k ->
  exists x', from_slice hash text' = Err x' y k /\ (k <> BadSequenceTerminator \/ (forall u v, hash u = hash v -> u = v) -> x' = x).
Proof.
  intros hash text text' x y k N F. destruct (C50_error _ _ _ _ _ F) as (x0 & R & E). destruct (C50_reports hash _ _ _ _ (wrong_near _ _ N _ R)) as (x' & F' & E').
  exists x'. split; [exact F'|]. intros H. now rewrite (E' H), (E H).
Qed.
Print Assumptions C65_error.

(* ---- cases ---- *)
Definition c65_text : bytes := b "a: # one
  - null
  -  b c: 'd e'
f: {g: 1, h: |
   x y
   z
 }
".
Definition c65_tabs : bytes := map (fun c => if c =? SPACE then TAB else c) c65_text.
Example C65_case : near_text c65_text c65_tabs /\ c65_text <> c65_tabs /\
  stands_for c65_text (DMap [(b "a", DSeq [DNull; DMap [(b "b c", DStr (b "d e"))]]); (b "f", DMap [(b "g", DNum (b "1") Unsigned64); (b "h", DStr (b "x y" ++ [NEWLINE] ++ b "z" ++ [NEWLINE]))])]) /\
  stands_for c65_tabs (DMap [(b "a", DSeq [DNull; DMap [(b "b" ++ [TAB] ++ b "c", DStr (b "d" ++ [TAB] ++ b "e"))]]); (b "f", DMap [(b "g", DNum (b "1") Unsigned64); (b "h", DStr (b "x" ++ [TAB] ++ b "y" ++ [NEWLINE] ++ b "z" ++ [NEWLINE]))])]).
Proof.
  split.
  { unfold c65_tabs. generalize c65_text. intros t. induction t as [|c t IH]; cbn [map]; constructor; [|exact IH]. destruct (c =? SPACE) eqn:E; [right|now left]. apply N.eqb_eq in E as ->. cbn. auto 10. }
  split; [discriminate|]. split; stands.
Qed.
Example C65_error_case : load (b "a: [ 1, 2") = Err 9 9 BadSequenceTerminator /\ load (b "a:" ++ [TAB] ++ b "[" ++ [CR] ++ b "1," ++ [FF] ++ b "2") = Err 9 9 BadSequenceTerminator /\
  load (b """\ ") = Err 1 3 BadEscape /\ load (b """\" ++ [TAB]) = Err 1 3 BadEscape.
Proof. repeat split; vm_compute; reflexivity. Qed.
