(* C63: what is reported for texts with CR LF line ends. *)
From Coq Require Import String.
From Coq Require Import List NArith ZArith Bool Arith Lia.
From Verif Require Import Bytes Utf8 Data Parser Render Tree Abs Refine Utf8Props Scan Num Reads Shown Plain Lexed Means Printed Fails Places TextProps Tests PropsParse PropsMeans PropsPrinted PropsFails Nest Crlf CrlfErr PropsCrlf.
Import ListNotations.
Local Open Scope N_scope.

(* Reading hangs exactly if it did. *)
Theorem C63_hang : forall hash text, from_slice hash (crlf text) = Hang <-> from_slice hash text = Hang.
Proof.
  intros hash text. rewrite !C50_stuck. split; intros X.
  - destruct (C50_total text) as [(d & out & P)|(r & R)].
    + exfalso. destruct (proj1 (C49_means text d) ltac:(eauto)) as (n & i & j & S). destruct (stands_crlf text d ltac:(exists n, i, j; exact S)) as (d' & S' & _). apply C49_means in S' as (out' & P'). exact (proj2 (C50_one _ _ X) _ _ P').
    + destruct (wrong_img text r R) as (r' & R' & AL). rewrite (proj1 (C50_one _ _ X) _ R') in AL. destruct r; [exact R|contradiction].
  - destruct (wrong_img text _ X) as ([|k x y] & R' & AL); [exact R'|contradiction].
Qed.
Print Assumptions C63_hang.

(* Where the byte at a place of the text is afterwards. *)
Definition afterwards (text : bytes) (i : nat) : nat := (i + count_occ N.eq_dec (firstn i text) NEWLINE)%nat.
Lemma place_count text i : (i <= length text)%nat -> place text i = afterwards text i.
Proof.
  intros L. unfold place, afterwards. assert (H : forall t, length (crlf t) = (length t + count_occ N.eq_dec t NEWLINE)%nat).
  { induction t as [|c t IH]; [reflexivity|]. change (crlf (c :: t)) with ((if c =? NEWLINE then [CR; NEWLINE] else [c]) ++ crlf t). cbn [count_occ length]. destruct (N.eq_dec c NEWLINE) as [->|N].
    - change (S (S (length (crlf t))) = S (length t) + S (count_occ N.eq_dec t NEWLINE))%nat. lia.
    - apply N.eqb_neq in N as ->. change (S (length (crlf t)) = S (length t) + count_occ N.eq_dec t NEWLINE)%nat. lia. }
  rewrite H, firstn_length_le by exact L. reflexivity.
Qed.
(* A refused text is refused for the same reason, at the corresponding places. An error in an
   escape keeps its length, so it does not cover the LF of a CR LF it ends in. The start of a
   missing bracket of a flow sequence is left open. *)
Theorem C63_error : forall hash text x y k, from_slice hash text = Err x y k -> exists x' y', from_slice hash (crlf text) = Err x' y' k /\
    (k <> BadSequenceTerminator -> x' = afterwards text x) /\
    (k = BadEscape \/ k = BadHexEscape \/ k = BadUnicodeEscape -> (y' - x' = y - x)%nat) /\
    (~ (k = BadEscape \/ k = BadHexEscape \/ k = BadUnicodeEscape) -> y' = afterwards text y).
Proof.
  intros hash text x y k F. destruct (C50_error _ _ _ _ _ F) as (x0 & R & E). pose proof (C05_span hash text _ _ _ F) as [XY YL]. destruct (wrong_img text _ R) as ([|k' x1 y1] & R' & AL); [contradiction|]. cbn in AL. destruct AL as (-> & A & B & C).
  destruct (C50_reports hash _ _ _ _ R') as (x' & F' & E'). exists x', y1. split; [exact F'|]. assert (XE : k <> BadSequenceTerminator -> x' = afterwards text x).
  { intros NS. rewrite (E' (or_introl NS)), (A NS), (E (or_introl NS)). apply place_count. unfold bytes, byte in *. lia. }
  split; [exact XE|]. split.
  - intros K. assert (NS : k <> BadSequenceTerminator) by (intros X; subst; destruct K as [K|[K|K]]; discriminate K). specialize (B K). rewrite (E' (or_introl NS)). rewrite (E (or_introl NS)) in B. lia.
  - intros K. rewrite (C K). apply place_count. unfold bytes, byte in *. lia.
Qed.
Print Assumptions C63_error.

(* That start need not be at the same byte: the CR at the end of a block scalar belongs to its
   last line, so the layout behind it starts at the LF. *)
Theorem C63_start_refuted : exists hash text x y x' y', (forall u v, hash u = hash v -> u = v) /\ from_slice hash text = Err x y BadSequenceTerminator /\
  from_slice hash (crlf text) = Err x' y' BadSequenceTerminator /\ x' <> afterwards text x.
Proof.
  exists idhash, (b "[|" ++ [NEWLINE] ++ b " a" ++ [NEWLINE]), 5%nat, 6%nat, 7%nat, 8%nat. split; [auto|]. split; [vm_compute; reflexivity|]. split; [vm_compute; reflexivity|]. vm_compute. discriminate.
Qed.
Print Assumptions C63_start_refuted.

(* Nothing else is reported. *)
Theorem C63_errors : forall hash text x' y' k, from_slice hash (crlf text) = Err x' y' k -> exists x y, from_slice hash text = Err x y k.
Proof.
  intros hash text x' y' k F. pose proof (parse_no_panic hash text) as [NP NF]. destruct (from_slice hash text) as [doc|x y k0| | |] eqn:G; try congruence.
  - exfalso. destruct (proj2 (C60_accepted hash text) ltac:(eauto)) as (doc' & F'). congruence.
  - destruct (C63_error hash text x y k0 G) as (x2 & y2 & F2 & _). rewrite F in F2. injection F2 as -> -> ->. eauto.
  - exfalso. apply (C63_hang hash text) in G. congruence.
Qed.
Print Assumptions C63_errors.

(* ---- cases ---- *)
Definition c63_key : bytes := b "a: 1
b: 2
cd
".
Definition c63_escape : bytes := b "a: 1
b: ""\
"" ".
Definition c63_hex : bytes := b "a:
- ""\x4
"" ".
Definition c63_open : bytes := b "a: {b: 1,
 c: 2
".
Definition c63_bracket : bytes := b "[1
".
Example C63_case :
  load c63_key = Err 10 13 BadMappingSeparator /\ load (crlf c63_key) = Err 12 16 BadMappingSeparator /\ afterwards c63_key 10 = 12%nat /\ afterwards c63_key 13 = 16%nat /\
  load c63_escape = Err 9 11 BadEscape /\ load (crlf c63_escape) = Err 10 12 BadEscape /\
  load c63_hex = Err 6 10 BadHexEscape /\ load (crlf c63_hex) = Err 7 11 BadHexEscape /\
  load c63_open = Err 16 16 BadMappingTerminator /\ load (crlf c63_open) = Err 18 18 BadMappingTerminator /\
  load c63_bracket = Err 2 3 BadSequenceTerminator /\ load (crlf c63_bracket) = Err 2 4 BadSequenceTerminator /\
  load (b "'a" ++ [NEWLINE]) = Hang /\ load (crlf (b "'a" ++ [NEWLINE])) = Hang.
Proof. repeat split; vm_compute; reflexivity. Qed.
