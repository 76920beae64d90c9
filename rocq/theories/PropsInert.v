(* C66: texts with other characters in place of those without a meaning. *)
From Coq Require Import String.
From Coq Require Import List NArith ZArith Bool Arith Lia.
From Verif Require Import Bytes Utf8 Data Parser Render Tree Abs Refine Utf8Props Scan Num Reads Shown Plain Lexed Means Printed Fails Places TextProps Tests PropsParse PropsMeans PropsPrinted PropsFails Nest Inert.
Import ListNotations.
Local Open Scope N_scope.

(* Which of them are used never decides whether a text is accepted. *)
Theorem C66_accepted : forall hash text text', near_text text text' -> ((exists doc, from_slice hash text' = Ok doc) <-> (exists doc, from_slice hash text = Ok doc)).
Proof.
  intros hash text text' N. rewrite (proj1 (C49_exact hash text)), (proj1 (C49_exact hash text')). split; intros (d & out & P).
  - destruct (printed_near _ _ (text_sym _ _ N) d out P) as (d' & out' & P' & _). eauto.
  - destruct (printed_near _ _ N d out P) as (d' & out' & P' & _). eauto.
Qed.
Print Assumptions C66_accepted.

(* The data and the text written back are the same but for these characters. *)
Theorem C66_data : forall hash text text' doc doc' d out, near_text text text' -> from_slice hash text = Ok doc -> from_slice hash text' = Ok doc' ->
  no_collision hash (doc_data doc) -> no_collision hash (doc_data doc') -> shows (doc_data doc) (doc_root doc) d -> write_to doc = Ok out ->
  exists d' out', shows (doc_data doc') (doc_root doc') d' /\ write_to doc' = Ok out' /\ near_datum d d' /\ near_text out out'.
Proof.
  intros hash text text' doc doc' d out N F F' C C' S W. assert (P : printed text d out) by (apply (proj2 (C49_exact hash text) doc F C); auto).
  destruct (printed_near _ _ N d out P) as (d' & out' & P' & ND & NO). apply (proj2 (C49_exact hash text') doc' F' C') in P' as [S' W']. eauto 8.
Qed.
Print Assumptions C66_data.

(* Data whose strings and keys have none of them is exactly the same. *)
Inductive none_in : datum -> Prop :=
| nl_null : none_in DNull
| nl_bool v : none_in (DBool v)
| nl_num x h : none_in (DNum x h)
| nl_str s : (forall c, In c s -> ~ inert c) -> none_in (DStr s)
| nl_map l : Forall (fun e => (forall c, In c (fst e) -> ~ inert c) /\ none_in (snd e)) l -> none_in (DMap l)
| nl_seq l : Forall none_in l -> none_in (DSeq l).
Fixpoint none_in_same d (H : none_in d) {struct H} : forall d', near_datum d d' -> d' = d.
Proof.
  destruct H as [|v|x h|s N|l F|l F]; intros d' C.
  - now inversion C.
  - now inversion C.
  - now inversion C.
  - inversion C; subst. f_equal. now apply text_bare.
  - inversion C as [| | | |l0 l' F2|]; subst. f_equal. clear C. revert l' F2. induction F as [|e l [NE E] F IH]; intros l' F2; inversion F2 as [|? e' ? l2 [W CE] F3]; subst; [reflexivity|].
    rewrite (IH _ F3). destruct e as [k v], e' as [k' v']. cbn [fst snd] in *. rewrite (text_bare _ _ W NE), (none_in_same v E v' CE). reflexivity.
  - inversion C as [| | | | |l0 l' F2]; subst. f_equal. clear C. revert l' F2. induction F as [|e l E F IH]; intros l' F2; inversion F2 as [|? e' ? l2 CE F3]; subst; [reflexivity|].
    rewrite (IH _ F3), (none_in_same e E e' CE). reflexivity.
Qed.
Theorem C66_same : forall hash text text' doc doc' d, near_text text text' -> from_slice hash text = Ok doc -> from_slice hash text' = Ok doc' ->
  no_collision hash (doc_data doc) -> no_collision hash (doc_data doc') -> shows (doc_data doc) (doc_root doc) d -> none_in d -> shows (doc_data doc') (doc_root doc') d.
Proof.
  intros hash text text' doc doc' d N F F' C C' S B. apply (proj2 (C47_exact hash text) doc F C) in S. apply C49_means in S as (out & P).
  destruct (printed_near _ _ N d out P) as (d' & out' & P' & ND & _). rewrite (none_in_same d B d' ND) in P'. apply (proj2 (C49_exact hash text') doc' F' C') in P'. apply P'.
Qed.
Print Assumptions C66_same.

(* Reading hangs exactly if it did. *)
Theorem C66_hang : forall hash text text', near_text text text' -> (from_slice hash text' = Hang <-> from_slice hash text = Hang).
Proof.
  intros hash text text' N. rewrite !C50_stuck. split; apply wrong_near; [now apply text_sym|exact N].
Qed.
Print Assumptions C66_hang.

(* A refused text is refused for the same reason at the same place. As always the start of a
   missing bracket of a flow sequence needs the hash of strings to be free of collisions. *)
Theorem C66_error : forall hash text text' x y k, near_text text text' -> from_slice hash text = Err x y k ->
  exists x', from_slice hash text' = Err x' y k /\ (k <> BadSequenceTerminator \/ (forall u v, hash u = hash v -> u = v) -> x' = x).
Proof.
  intros hash text text' x y k N F. destruct (C50_error _ _ _ _ _ F) as (x0 & R & E). destruct (C50_reports hash _ _ _ _ (wrong_near _ _ N _ R)) as (x' & F' & E').
  exists x'. split; [exact F'|]. intros H. now rewrite (E' H), (E H).
Qed.
Print Assumptions C66_error.

(* ---- cases ---- *)
Definition c66_text : bytes := b "a: &x 1
b: *x
? c: [!!str 1, @d, `, null]
".
Definition c66_other : bytes := b "a: gx 1
b: zx
W c: [HHstr 1, kd, ;, null]
".
Example C66_case : c66_text <> c66_other /\ near_text c66_text c66_other /\
  stands_for c66_text (DMap [(b "a", DStr (b "&x 1")); (b "b", DStr (b "*x")); (b "? c", DSeq [DStr (b "!!str 1"); DStr (b "@d"); DStr (b "`"); DNull])]) /\
  stands_for c66_other (DMap [(b "a", DStr (b "gx 1")); (b "b", DStr (b "zx")); (b "W c", DSeq [DStr (b "HHstr 1"); DStr (b "kd"); DStr (b ";"); DNull])]).
Proof.
  split; [discriminate|]. split; [|split; stands].
  repeat (constructor; [first [left; reflexivity|right; split; apply inert_iff; reflexivity]|]). constructor.
Qed.
Example C66_error_case : load (b "a: [&x, *y") = Err 10 10 BadSequenceTerminator /\ load (b "a: [ix, jy") = Err 10 10 BadSequenceTerminator /\
  load (b """\!""") = Err 1 3 BadEscape /\ load (b """\g""") = Err 1 3 BadEscape.
Proof. repeat split; vm_compute; reflexivity. Qed.
