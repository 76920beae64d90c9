(* C62: white space behind a text that ends with a newline. *)
From Coq Require Import String.
From Coq Require Import List NArith ZArith Bool Arith Lia.
From Verif Require Import Bytes Utf8 Data Parser Render Tree Abs Refine Scan AbsText AbsNice Shown Valid Exact TextProps Built Grammar Api
  Tests PropsParse White Plain Lexed Means Places MeansSound MeansComplete PropsMeans Printed PropsPrinted Fails PropsFails Trail.
Import ListNotations.
Local Open Scope N_scope.

(* Data whose last value is a string. *)
Inductive string_last : datum -> Prop :=
| sl_str s : string_last (DStr s)
| sl_seq l d : string_last d -> string_last (DSeq (l ++ [d]))
| sl_map l s d : string_last d -> string_last (DMap (l ++ [(s, d)])).
Lemma tail_last d d' : tail d d' -> d = d' \/ string_last d.
Proof.
  induction 1 as [d|t x y WX WY|l d d' TL IH|l s d d' TL IH].
  - now left.
  - right. apply sl_str.
  - destruct IH as [->|IH]; [now left|right; now apply sl_seq].
  - destruct IH as [->|IH]; [now left|right; now apply sl_map].
Qed.

Theorem C62_accepted : forall hash text w, (exists u, text = u ++ [NEWLINE]) -> Forall white w ->
  ((exists doc, from_slice hash (text ++ w) = Ok doc) <-> exists doc, from_slice hash text = Ok doc).
Proof.
  intros hash text w NL WH. rewrite !(proj1 (C47_exact hash _)). split.
  - intros (d & S). exact (stands_back text w NL WH d S).
  - intros (d & S). destruct (stands_trail text w NL WH d S) as (d' & S' & _). eauto.
Qed.
Print Assumptions C62_accepted.

(* The data is the same but for white space at the end of the last string. *)
Theorem C62_same : forall hash text w doc doc', (exists u, text = u ++ [NEWLINE]) -> Forall white w ->
  from_slice hash text = Ok doc -> from_slice hash (text ++ w) = Ok doc' ->
  no_collision hash (doc_data doc) -> no_collision hash (doc_data doc') -> exists d d',
  shows (doc_data doc) (doc_root doc) d /\ shows (doc_data doc') (doc_root doc') d' /\ tail d d'.
Proof.
  intros hash text w doc doc' NL WH F F' N N'. destruct (C47_means _ _ _ F) as (d & S & H). destruct (stands_trail text w NL WH d S) as (d' & S' & TL).
  exists d, d'. split; [exact (H N)|]. split; [|exact TL]. now apply (proj2 (C47_exact hash (text ++ w)) doc' F' N' d').
Qed.
Print Assumptions C62_same.

(* All of it is the same if the last value is no string. *)
Theorem C62_value : forall hash text w doc doc' d, (exists u, text = u ++ [NEWLINE]) -> Forall white w ->
  from_slice hash text = Ok doc -> from_slice hash (text ++ w) = Ok doc' ->
  no_collision hash (doc_data doc) -> no_collision hash (doc_data doc') ->
  shows (doc_data doc) (doc_root doc) d -> ~ string_last d -> shows (doc_data doc') (doc_root doc') d.
Proof.
  intros hash text w doc doc' d NL WH F F' N N' S NS. destruct (C62_same hash text w doc doc' NL WH F F' N N') as (d0 & d' & S0 & S' & TL).
  rewrite (proj1 (shows_det _) _ _ S _ S0) in *. destruct (tail_last _ _ TL) as [->|X]; [exact S'|contradiction].
Qed.
Print Assumptions C62_value.

(* Parsing returns if and only if it did before. *)
Theorem C62_hang : forall hash text w, (exists u, text = u ++ [NEWLINE]) -> Forall white w ->
  (from_slice hash (text ++ w) = Hang <-> from_slice hash text = Hang).
Proof.
  intros hash text w NL WH. rewrite !C50_stuck. split; intros X.
  - destruct (C50_total text) as [(d & out & P)|(r & R)].
    + exfalso. destruct (proj1 (C49_means text d) ltac:(eauto)) as (n & i & j & S). destruct (stands_trail text w NL WH d ltac:(exists n, i, j; exact S)) as (d' & S' & _). apply C49_means in S' as (out' & P'). exact (proj2 (C50_one _ _ X) _ _ P').
    + destruct (wrong_trail text w NL WH r R) as (r' & R' & AL). rewrite (proj1 (C50_one _ _ X) _ R') in AL. destruct r; [exact R|contradiction].
  - destruct (wrong_trail text w NL WH _ X) as ([|k x y] & R' & AL); [exact R'|contradiction].
Qed.
Print Assumptions C62_hang.

(* What becomes of a place of the text: its end moves. *)
Definition moved (text w : bytes) (y : nat) : nat := if (y =? length text)%nat then length (text ++ w) else y.
(* A refused text is refused for the same reason. An error in an escape has the same span. The
   span of another one moves with the end of the text; the start of a missing bracket of a flow
   sequence under the condition that the hash function has no collisions. *)
Theorem C62_error : forall hash text w x y k, (exists u, text = u ++ [NEWLINE]) -> Forall white w ->
  from_slice hash text = Err x y k -> exists x' y', from_slice hash (text ++ w) = Err x' y' k /\
    (k = BadEscape \/ k = BadHexEscape \/ k = BadUnicodeEscape -> x' = x /\ y' = y) /\
    (~ (k = BadEscape \/ k = BadHexEscape \/ k = BadUnicodeEscape) -> y' = moved text w y /\ (k <> BadSequenceTerminator \/ (forall u v, hash u = hash v -> u = v) -> x' = moved text w x)).
Proof.
  intros hash text w x y k NL WH F. destruct (C50_error _ _ _ _ _ F) as (x0 & R & E). destruct (wrong_trail text w NL WH _ R) as ([|k' x1 y1] & R' & AL); [contradiction|]. cbn in AL. destruct AL as (-> & A & B).
  destruct (C50_reports hash _ _ _ _ R') as (x' & F' & E'). exists x', y1. split; [exact F'|]. split.
  - intros K. destruct (A K) as (-> & ->). split; [|reflexivity]. rewrite E' by (left; intros X; subst; destruct K as [K|[K|K]]; discriminate K). rewrite E by (left; intros X; subst; destruct K as [K|[K|K]]; discriminate K). reflexivity.
  - intros K. destruct (B K) as (-> & B'). split; [reflexivity|]. intros NS. rewrite (E' NS), B', (E NS). reflexivity.
Qed.
Print Assumptions C62_error.

(* Nothing else is reported. *)
Theorem C62_errors : forall hash text w x' y' k, (exists u, text = u ++ [NEWLINE]) -> Forall white w ->
  from_slice hash (text ++ w) = Err x' y' k -> exists x y, from_slice hash text = Err x y k.
Proof.
  intros hash text w x' y' k NL WH F. pose proof (parse_no_panic hash text) as [NP NF]. destruct (from_slice hash text) as [doc|x y k0| | |] eqn:G; try congruence.
  - exfalso. destruct (proj2 (C62_accepted hash text w NL WH) ltac:(eauto)) as (doc' & F'). congruence.
  - destruct (C62_error hash text w x y k0 NL WH G) as (x2 & y2 & F2 & _). rewrite F in F2. injection F2 as -> -> ->. eauto.
  - exfalso. apply (C62_hang hash text w NL WH) in G. congruence.
Qed.
Print Assumptions C62_errors.

(* ---- cases ---- *)
Definition c62_block : bytes := b "a: 1
b: |
  x
".
Definition c62_number : bytes := b "b: |
  x
a: [1, 2]
".
Definition c62_bad : bytes := b "a: [1
".
(* a block string at the end grows, one in the middle does not *)
Example C62_case : Forall white (b " 

") /\
  at_path (load c62_block) [K (b "b")] as_bstr = Some (Some (b "x" ++ [NEWLINE])) /\
  at_path (load (c62_block ++ b " 

")) [K (b "b")] as_bstr = Some (Some (b "x" ++ [NEWLINE; NEWLINE; NEWLINE])) /\
  at_path (load c62_number) [K (b "b")] as_bstr = at_path (load (c62_number ++ b " 

")) [K (b "b")] as_bstr /\
  load c62_bad = Err 5 6 BadSequenceTerminator /\ load (c62_bad ++ b " 

") = Err 5 9 BadSequenceTerminator /\
  load (b "[|" ++ [NEWLINE] ++ b "  a" ++ [NEWLINE] ++ b "# c" ++ [NEWLINE]) = Err 6 11 BadSequenceTerminator /\
  load (b "[|" ++ [NEWLINE] ++ b "  a" ++ [NEWLINE] ++ b "# c" ++ [NEWLINE] ++ b "  ") = Err 6 13 BadSequenceTerminator /\
  load (b """\" ++ [NEWLINE]) = Err 1 3 BadEscape /\ load (b """\" ++ [NEWLINE] ++ b "  ") = Err 1 3 BadEscape /\
  load (b "'a" ++ [NEWLINE]) = Hang /\ load (b "'a" ++ [NEWLINE] ++ b "  ") = Hang.
Proof.
  split; [repeat (apply Forall_cons; [vm_compute; auto 8|]); apply Forall_nil|]. split; [vm_compute; reflexivity|]. split; [vm_compute; reflexivity|]. split; [vm_compute; reflexivity|].
  repeat split; vm_compute; reflexivity.
Qed.
