(* C64: texts with all lines moved to the right. *)
From Coq Require Import String.
From Coq Require Import List NArith ZArith Bool Arith Lia.
From Verif Require Import Bytes Utf8 Data Parser Render Tree Abs Refine Utf8Props Scan Num Reads Shown Plain Lexed Means Printed Fails Places TextProps Tests PropsParse PropsMeans PropsPrinted PropsFails Nest Widen WidenErr.
Import ListNotations.
Local Open Scope N_scope.

(* Moving the lines never decides whether a text is accepted. *)
Lemma refused_wide sh text d r : wrong text r -> stands_for (widen sh text) d -> False.
Proof.
  intros R S. destruct (wrong_img sh text r R) as (r' & R' & _). apply C49_means in S as (out & P). exact (proj2 (C50_one _ _ R') _ _ P).
Qed.
Theorem C64_accepted : forall hash sh text, (exists doc, from_slice hash (widen sh text) = Ok doc) <-> (exists doc, from_slice hash text = Ok doc).
Proof.
  intros hash sh text. rewrite (proj1 (C47_exact hash text)), (proj1 (C47_exact hash (widen sh text))). split; intros (d & S).
  - destruct (C50_total text) as [(d0 & out & P)|(r & R)]; [|exfalso; exact (refused_wide sh text d r R S)]. exists d0. apply C49_means. eauto.
  - destruct (stands_wide sh text d S) as (d' & S' & _). eauto.
Qed.
Print Assumptions C64_accepted.

(* The data is the same, but strings and keys over several lines may have the blanks behind their newlines. *)
Theorem C64_data : forall hash sh text doc d, from_slice hash text = Ok doc -> no_collision hash (doc_data doc) -> shows (doc_data doc) (doc_root doc) d ->
  exists doc' d', from_slice hash (widen sh text) = Ok doc' /\ sp_datum sh d d' /\ (no_collision hash (doc_data doc') -> shows (doc_data doc') (doc_root doc') d').
Proof.
  intros hash sh text doc d F N S. apply (proj2 (C47_exact hash text) doc F N) in S. destruct (stands_wide sh text d S) as (d' & S' & C).
  destruct (C47_accepts hash _ d' S') as (doc' & F' & H). exists doc', d'. auto.
Qed.
Print Assumptions C64_data.

(* Data whose strings and keys have no newline is exactly the same. *)
Inductive one_line : datum -> Prop :=
| ol_null : one_line DNull
| ol_bool v : one_line (DBool v)
| ol_num x h : one_line (DNum x h)
| ol_str s : ~ In NEWLINE s -> one_line (DStr s)
| ol_map l : Forall (fun e => ~ In NEWLINE (fst e) /\ one_line (snd e)) l -> one_line (DMap l)
| ol_seq l : Forall one_line l -> one_line (DSeq l).
Lemma with_sp_same sh s s' : with_sp sh s s' -> ~ In NEWLINE s -> s' = s.
Proof.
  induction 1 as [|c s s' W IH|s s' W IH]; intros N; [reflexivity| |exfalso; apply N; now left]. f_equal. apply IH. intros I. apply N. now right.
Qed.
Fixpoint one_line_same sh d (H : one_line d) {struct H} : forall d', sp_datum sh d d' -> d' = d.
Proof.
  destruct H as [|v|x h|s N|l F|l F]; intros d' C.
  - now inversion C.
  - now inversion C.
  - now inversion C.
  - inversion C; subst. f_equal. now apply (with_sp_same sh).
  - inversion C as [| | | |l0 l' F2|]; subst. f_equal. clear C. revert l' F2. induction F as [|e l [NE E] F IH]; intros l' F2; inversion F2 as [|? e' ? l2 [W CE] F3]; subst; [reflexivity|].
    rewrite (IH _ F3). destruct e as [k v], e' as [k' v']. cbn [fst snd] in *. rewrite (with_sp_same _ _ _ W NE), (one_line_same sh v E v' CE). reflexivity.
  - inversion C as [| | | | |l0 l' F2]; subst. f_equal. clear C. revert l' F2. induction F as [|e l E F IH]; intros l' F2; inversion F2 as [|? e' ? l2 CE F3]; subst; [reflexivity|].
    rewrite (IH _ F3), (one_line_same sh e E e' CE). reflexivity.
Qed.
Theorem C64_same : forall hash sh text doc d, from_slice hash text = Ok doc -> no_collision hash (doc_data doc) -> shows (doc_data doc) (doc_root doc) d -> one_line d ->
  exists doc', from_slice hash (widen sh text) = Ok doc' /\ (no_collision hash (doc_data doc') -> shows (doc_data doc') (doc_root doc') d).
Proof.
  intros hash sh text doc d F N S O. destruct (C64_data hash sh text doc d F N S) as (doc' & d' & F' & C & H). exists doc'. split; [exact F'|]. now rewrite (one_line_same sh d O d' C) in H.
Qed.
Print Assumptions C64_same.

(* Reading hangs exactly if it did. *)
Theorem C64_hang : forall hash sh text, from_slice hash (widen sh text) = Hang <-> from_slice hash text = Hang.
Proof.
  intros hash sh text. rewrite !C50_stuck. split; intros X.
  - destruct (C50_total text) as [(d & out & P)|(r & R)].
    + exfalso. destruct (proj1 (C49_means text d) ltac:(eauto)) as (n & i & j & S). destruct (stands_wide sh text d ltac:(exists n, i, j; exact S)) as (d' & S' & _). apply C49_means in S' as (out' & P'). exact (proj2 (C50_one _ _ X) _ _ P').
    + destruct (wrong_img sh text r R) as (r' & R' & AL). rewrite (proj1 (C50_one _ _ X) _ R') in AL. destruct r; [exact R|contradiction].
  - destruct (wrong_img sh text _ X) as ([|k x y] & R' & AL); [exact R'|contradiction].
Qed.
Print Assumptions C64_hang.

(* Where the byte at a place of the text is afterwards. *)
Definition moved_to (sh : nat) (text : bytes) (i : nat) : nat := (i + sh * S (count_occ N.eq_dec (firstn i text) NEWLINE))%nat.
Lemma place_moved sh text i : (i <= length text)%nat -> place sh text i = moved_to sh text i.
Proof.
  intros L. unfold place, moved_to, widen. assert (H : forall t, length (wide sh t) = (length t + sh * count_occ N.eq_dec t NEWLINE)%nat).
  { induction t as [|c t IH]; [cbn; lia|]. rewrite wide_cons. cbn [count_occ length]. destruct (N.eq_dec c NEWLINE) as [->|N].
    - assert (Z : length (repeat SPACE sh ++ wide sh t) = (sh + length (wide sh t))%nat) by now rewrite app_length, repeat_length.
      transitivity (S (length (repeat SPACE sh ++ wide sh t))); [reflexivity|]. rewrite Z, IH. nia.
    - apply N.eqb_neq in N as ->. transitivity (S (length (wide sh t))); [reflexivity|]. rewrite IH. lia. }
  rewrite app_length, repeat_length, H, firstn_length_le by exact L. lia.
Qed.
(* A refused text is refused for the same reason, at the same bytes. An error in an escape keeps
   its length. The start of a missing bracket of a flow sequence is left open. *)
Theorem C64_error : forall hash sh text x y k, from_slice hash text = Err x y k -> exists x' y', from_slice hash (widen sh text) = Err x' y' k /\
    (k <> BadSequenceTerminator -> x' = moved_to sh text x) /\
    (k = BadEscape \/ k = BadHexEscape \/ k = BadUnicodeEscape -> (y' - x' = y - x)%nat) /\
    (~ (k = BadEscape \/ k = BadHexEscape \/ k = BadUnicodeEscape) -> y' = moved_to sh text y).
Proof.
  intros hash sh text x y k F. destruct (C50_error _ _ _ _ _ F) as (x0 & R & E). pose proof (C05_span hash text _ _ _ F) as [XY YL]. destruct (wrong_img sh text _ R) as ([|k' x1 y1] & R' & AL); [contradiction|]. cbn in AL. destruct AL as (-> & A & B & C).
  destruct (C50_reports hash _ _ _ _ R') as (x' & F' & E'). exists x', y1. split; [exact F'|]. assert (XE : k <> BadSequenceTerminator -> x' = moved_to sh text x).
  { intros NS. rewrite (E' (or_introl NS)), (A NS), (E (or_introl NS)). apply place_moved. unfold bytes, byte in *. lia. }
  split; [exact XE|]. split.
  - intros K. assert (NS : k <> BadSequenceTerminator) by (intros X; subst; destruct K as [K|[K|K]]; discriminate K). specialize (B K). rewrite (E' (or_introl NS)). rewrite (E (or_introl NS)) in B. lia.
  - intros K. rewrite (C K). apply place_moved. unfold bytes, byte in *. lia.
Qed.
Print Assumptions C64_error.

(* That start need not move with its byte: behind a block scalar and a comma it is counted back by
   the layout before the comma, and that has become longer. *)
Theorem C64_start_refuted : exists hash sh text x y x' y', (forall u v, hash u = hash v -> u = v) /\ from_slice hash text = Err x y BadSequenceTerminator /\
  from_slice hash (widen sh text) = Err x' y' BadSequenceTerminator /\ x' <> moved_to sh text x.
Proof.
  exists idhash, 3%nat, (b "[|" ++ [NEWLINE] ++ b " a" ++ [NEWLINE] ++ b ","), 6%nat, 7%nat, 12%nat, 16%nat. split; [auto|]. split; [vm_compute; reflexivity|]. split; [vm_compute; reflexivity|]. vm_compute. discriminate.
Qed.
Print Assumptions C64_start_refuted.

(* Nothing else is reported. *)
Theorem C64_errors : forall hash sh text x' y' k, from_slice hash (widen sh text) = Err x' y' k -> exists x y, from_slice hash text = Err x y k.
Proof.
  intros hash sh text x' y' k F. pose proof (parse_no_panic hash text) as [NP NF]. destruct (from_slice hash text) as [doc|x y k0| | |] eqn:G; try congruence.
  - exfalso. destruct (proj2 (C64_accepted hash sh text) ltac:(eauto)) as (doc' & F'). congruence.
  - destruct (C64_error hash sh text x y k0 G) as (x2 & y2 & F2 & _). rewrite F in F2. injection F2 as -> -> ->. eauto.
  - exfalso. apply (C64_hang hash sh text) in G. congruence.
Qed.
Print Assumptions C64_errors.

(* ---- cases ---- *)
Definition c64_text : bytes := b "%YAML 1.2
---
a:
- |
  x

   y
- 'it
  is' # two lines
b: {c: 1,
 d: null}
e:
f: word
".
Example C64_case :
  stands_for c64_text (DMap [(b "a", DSeq [DStr (b "x" ++ repeat NEWLINE 2 ++ b "y" ++ repeat NEWLINE 1); DStr (b "it" ++ [NEWLINE] ++ b "  is")]);
    (b "b", DMap [(b "c", DNum (b "1") Unsigned64); (b "d", DNull)]); (b "e", DNull); (b "f", DStr (b "word"))]) /\
  stands_for (widen 3 c64_text) (DMap [(b "a", DSeq [DStr (b "x" ++ repeat NEWLINE 2 ++ b "y" ++ repeat NEWLINE 1); DStr (b "it" ++ [NEWLINE] ++ b "     is")]);
    (b "b", DMap [(b "c", DNum (b "1") Unsigned64); (b "d", DNull)]); (b "e", DNull); (b "f", DStr (b "word"))]).
Proof. split; stands. Qed.
Definition c64_key : bytes := b "a: 1
b: 2
cd
".
Example C64_error_case :
  widen 2 c64_key = b "  a: 1
  b: 2
  cd
  " /\
  load c64_key = Err 10 13 BadMappingSeparator /\ load (widen 2 c64_key) = Err 16 21 BadMappingSeparator /\ moved_to 2 c64_key 10 = 16%nat /\ moved_to 2 c64_key 13 = 21%nat /\
  load (b """\" ++ [NEWLINE]) = Err 1 3 BadEscape /\ load (widen 4 (b """\" ++ [NEWLINE])) = Err 5 7 BadEscape /\
  load (b "'a" ++ [NEWLINE]) = Hang /\ load (widen 4 (b "'a" ++ [NEWLINE])) = Hang.
Proof. repeat split; vm_compute; reflexivity. Qed.
