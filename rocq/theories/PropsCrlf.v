(* C60: texts with CR LF line ends. *)
From Coq Require Import String.
From Coq Require Import List NArith ZArith Bool Arith Lia.
From Verif Require Import Bytes Utf8 Data Parser Render Tree Abs Refine Utf8Props Scan Num Reads Shown Plain Lexed Means Places Tests PropsParse PropsMeans Nest Crlf.
Import ListNotations.
Local Open Scope N_scope.

(* The claim is false: null and words at the end of a line are read together with the CR. *)
Definition c60_text : bytes := b "a: null
b: word
".
Theorem C60_same_refuted : exists text d d', stands_for text d /\ stands_for (crlf text) d' /\ d <> d' /\
  d = DMap [(b "a", DNull); (b "b", DStr (b "word"))] /\ d' = DMap [(b "a", DStr (b "null" ++ [CR])); (b "b", DStr (b "word" ++ [CR]))].
Proof.
  exists c60_text, (DMap [(b "a", DNull); (b "b", DStr (b "word"))]), (DMap [(b "a", DStr (b "null" ++ [CR])); (b "b", DStr (b "word" ++ [CR]))]).
  split; [stands|]. split; [stands|]. split; [discriminate|auto].
Qed.
Print Assumptions C60_same_refuted.

(* What holds: the text is accepted, and the data differs at words at the end of a line, and in that
   strings and keys written over several lines have a CR before newlines. *)
Theorem C60_crlf_partial : forall hash text doc d, from_slice hash text = Ok doc -> no_collision hash (doc_data doc) -> shows (doc_data doc) (doc_root doc) d ->
  exists doc' d', from_slice hash (crlf text) = Ok doc' /\ cr_datum d d' /\ (no_collision hash (doc_data doc') -> shows (doc_data doc') (doc_root doc') d').
Proof.
  intros hash text doc d F N S. apply (proj2 (C47_exact hash text) doc F N) in S. destruct (stands_crlf text d S) as (d' & S' & C).
  destruct (C47_accepts hash _ d' S') as (doc' & F' & H). exists doc', d'. auto.
Qed.
Print Assumptions C60_crlf_partial.
Theorem C60_accepted : forall hash text, (exists doc, from_slice hash (crlf text) = Ok doc) <-> (exists doc, from_slice hash text = Ok doc).
Proof.
  intros hash text. rewrite (proj1 (C47_exact hash text)), (proj1 (C47_exact hash (crlf text))). split; intros (d & S); [now apply (stands_back text d)|].
  destruct (stands_crlf text d S) as (d' & S' & _). eauto.
Qed.
Print Assumptions C60_accepted.

(* Numbers in any collections, with keys of one line, are read as without CR. *)
Inductive numeric : datum -> Prop :=
| nm_num x h : numeric (DNum x h)
| nm_map l : Forall (fun e => ~ In NEWLINE (fst e) /\ numeric (snd e)) l -> numeric (DMap l)
| nm_seq l : Forall numeric l -> numeric (DSeq l).
Lemma with_cr_same s s' : with_cr s s' -> ~ In NEWLINE s -> s' = s.
Proof.
  induction 1 as [|c s s' W IH|s s' W IH]; intros N; [reflexivity| |exfalso; apply N; now left]. f_equal. apply IH. intros I. apply N. now right.
Qed.
Fixpoint numeric_same d (H : numeric d) {struct H} : forall d', cr_datum d d' -> d' = d.
Proof.
  destruct H as [x h|l F|l F]; intros d' C.
  - inversion C as [| |s h0| |x0 d0 P N _| |]; subst; [reflexivity|]. exfalso. inversion P; subst. now apply (N h).
  - inversion C as [| | | |x0 d0 P N _|l0 l' F2|]; subst; [inversion P|]. f_equal. clear C. revert l' F2. induction F as [|e l [NE E] F IH]; intros l' F2; inversion F2 as [|? e' ? l2 [W CE] F3]; subst; [reflexivity|].
    rewrite (IH _ F3). destruct e as [k v], e' as [k' v']. cbn [fst snd] in *. rewrite (with_cr_same _ _ W NE), (numeric_same v E v' CE). reflexivity.
  - inversion C as [| | | |x0 d0 P N _| |l0 l' F2]; subst; [inversion P|]. f_equal. clear C. revert l' F2. induction F as [|e l E F IH]; intros l' F2; inversion F2 as [|? e' ? l2 CE F3]; subst; [reflexivity|].
    rewrite (IH _ F3), (numeric_same e E e' CE). reflexivity.
Qed.
Theorem C60_numbers : forall hash text doc d, from_slice hash text = Ok doc -> no_collision hash (doc_data doc) -> shows (doc_data doc) (doc_root doc) d -> numeric d ->
  exists doc', from_slice hash (crlf text) = Ok doc' /\ (no_collision hash (doc_data doc') -> shows (doc_data doc') (doc_root doc') d).
Proof.
  intros hash text doc d F N S NM. destruct (C60_crlf_partial hash text doc d F N S) as (doc' & d' & F' & C & H). exists doc'. split; [exact F'|]. now rewrite (numeric_same d NM d' C) in H.
Qed.
Print Assumptions C60_numbers.

(* A block scalar and a string in quotes on one line stay; a string in quotes over two lines has a CR more. *)
Definition c60_case : bytes := b "- |
  x

  y
- 'it
  is'
- ""a""
- 1.5
- [b
  , true]
".
Example C60_case :
  stands_for c60_case (DSeq [DStr (b "x" ++ repeat NEWLINE 2 ++ b "y" ++ repeat NEWLINE 1); DStr (b "it" ++ [NEWLINE] ++ b "  is"); DStr (b "a"); DNum (b "1.5") Float64; DSeq [DStr (b "b" ++ [NEWLINE] ++ b "  "); DBool true]]) /\
  stands_for (crlf c60_case) (DSeq [DStr (b "x" ++ repeat NEWLINE 2 ++ b "y" ++ repeat NEWLINE 1); DStr (b "it" ++ [CR; NEWLINE] ++ b "  is"); DStr (b "a"); DNum (b "1.5") Float64; DSeq [DStr (b "b" ++ [CR; NEWLINE] ++ b "  "); DBool true]]).
Proof. split; stands. Qed.
Example C60_numbers_case : stands_for (crlf (b "a:
- 1
- -2.5
b: {c: 3
}
")) (DMap [(b "a", DSeq [DNum (b "1") Unsigned64; DNum (b "-2.5") Float64]); (b "b", DMap [(b "c", DNum (b "3") Unsigned64)])]).
Proof. stands. Qed.
