(* What is wrong with every text that is not accepted, and where, by rules over places of the
   text: the definitions for C50. The rules follow those of Printed.v. *)
From Coq Require Import String.
From Coq Require Import List NArith Bool Arith Lia.
From Verif Require Import Bytes Utf8 Data Parser Shown Plain White Valid Lexed Means Printed.
Import ListNotations.
Local Open Scope N_scope.

(* The parser never returns, or reports an error of kind k from x to y. *)
Inductive fault := stuck | bad (k : ekind) (x y : nat).
Definition hexdigit (c : byte) : Prop := exists v, hex c v.
(* c is no first byte of an escape: the letters of YAML's escapes and the backslash *)
Definition no_letter (c : byte) : Prop := ~ In c (b "0abtnvfrexu\").

Section Fails.
Variable text : bytes.
Local Notation len := (length text).
Local Notation at_ i := (nth i text 0).
Local Notation part := (slice text).
Local Notation gap_to := (gap_to text).
Local Notation column := (column text).
Local Notation puts := (puts text).
Local Notation after := (after text).

(* The backslash at p begins no escape, which is known at e. *)
Inductive bad_escape (p : nat) : ekind -> nat -> Prop :=
| be_end : S p = len -> bad_escape p BadEscape len
| be_letter : (S p < len)%nat -> no_letter (at_ (S p)) -> bad_escape p BadEscape (2 + p)
| be_digit k c n q : (k, c, n) = (BadHexEscape, b "x", 2%nat) \/ (k, c, n) = (BadUnicodeEscape, b "u", 4%nat) -> [at_ (S p)] = c ->
    (2 + p <= q < 2 + p + n)%nat -> (q <= len)%nat -> (forall i, (2 + p <= i < q)%nat -> hexdigit (at_ i)) -> ~ hexdigit (at_ q) ->
    bad_escape p k (Nat.min (S q) len)
| be_surrogate v1 v2 v3 v4 : [at_ (S p)] = b "u" -> hex (at_ (2 + p)) v1 -> hex (at_ (3 + p)) v2 -> hex (at_ (4 + p)) v3 -> hex (at_ (5 + p)) v4 ->
    surrogate (4096 * v1 + 256 * v2 + 16 * v3 + v4) -> bad_escape p BadUnicodeEscape (6 + p).
Inductive bad_quote (i : nat) : fault -> Prop :=
| bq_open v : at_ i = SQUOTE -> sq_content (part (S i) len) v -> bad_quote i stuck
| bq_escape p v k e : at_ i = DQUOTE -> (S i <= p)%nat -> dq_shown (part (S i) p) v -> at_ p = BACKSLASH -> bad_escape p k e ->
    bad_quote i (bad k p e).

(* What is wrong with the value at i. *)
Inductive fails : bool -> option nat -> nat -> fault -> Prop :=
| fa_quote flow outer i r : bad_quote i r -> fails flow outer i r
| fa_seq outer i r : at_ i = DASH -> white (at_ (S i)) -> fails_dashes (column i) i r -> fails false outer i r
| fa_map outer i s k r : key_at text i s k -> under outer (column i) -> fails_pairs (column i) k r -> fails false outer i r
| fa_flow_seq flow outer i n r : at_ i = LBRACK -> gap_to (S i) n -> fails_flow_seq n (part (S i) n) r -> fails flow outer i r
| fa_flow_map flow outer i n r : at_ i = LBRACE -> gap_to (S i) n -> fails_flow_map (S i) n r -> fails flow outer i r
with fails_behind : option nat -> nat -> fault -> Prop :=
| fb_value outer i m r : gap_to i m -> fails false outer m r -> fails_behind outer i r
with fails_dashes : nat -> nat -> fault -> Prop :=
| fd_here c i r : fails_behind None (S i) r -> fails_dashes c i r
| fd_more c i d o w n r : puts_behind text None (S i) d o w n -> column n = c -> at_ n = DASH -> fails_dashes c n r -> fails_dashes c i r
(* from the colon at k. A later key must have a colon before the next NUL or the end. *)
with fails_pairs : nat -> nat -> fault -> Prop :=
| fp_here c k r : fails_behind (Some c) (S k) r -> fails_pairs c k r
| fp_more c k d o w n s' k' r : puts_behind text (Some c) (S k) d o w n -> column n = c -> later_key_at text n s' k' -> fails_pairs c k' r ->
    fails_pairs c k r
| fp_key c k d o w n k' : puts_behind text (Some c) (S k) d o w n -> column n = c -> (n < k' <= len)%nat -> ~ In COLON (part n k') ->
    ~ In 0 (part n k') -> at_ k' = 0 -> fails_pairs c k (bad BadMappingSeparator n (Nat.min (S k') len))
(* The rest of a flow sequence, p being the layout before it. A missing bracket is reported from
   where that layout would start. *)
with fails_flow_seq : nat -> bytes -> fault -> Prop :=
| fs_open n p : at_ n = 0 -> fails_flow_seq n p (bad BadSequenceTerminator (n - length p) n)
| fs_value n p m r : ~ In (at_ n) [RBRACK; 0] -> gap_to n m -> fails true None m r -> fails_flow_seq n p r
| fs_comma n p m d o w e w' n' r : ~ In (at_ n) [RBRACK; 0] -> gap_to n m -> puts true None m d o w e -> at_ e = COMMA ->
    after w (S e) w' n' -> fails_flow_seq n' w' r -> fails_flow_seq n p r
| fs_last_open n p m d o w e w' n' : ~ In (at_ n) [RBRACK; 0] -> gap_to n m -> puts true None m d o w e -> at_ e <> COMMA ->
    after w e w' n' -> at_ n' = 0 -> fails_flow_seq n p (bad BadSequenceTerminator (n' - length w') n')
| fs_last_value n p m d o w e w' n' r : ~ In (at_ n) [RBRACK; 0] -> gap_to n m -> puts true None m d o w e -> at_ e <> COMMA ->
    after w e w' n' -> ~ In (at_ n') [RBRACK; 0] -> fails true None n' r -> fails_flow_seq n p r
| fs_last_end n p m d o w e w' n' d' o' w2 e' w3 n'' : ~ In (at_ n) [RBRACK; 0] -> gap_to n m -> puts true None m d o w e -> at_ e <> COMMA ->
    after w e w' n' -> ~ In (at_ n') [RBRACK; 0] -> puts true None n' d' o' w2 e' -> after w2 e' w3 n'' -> at_ n'' <> RBRACK ->
    fails_flow_seq n p (bad BadSequenceTerminator (n'' - length w3) n'')
(* The rest of a flow mapping, st being the place behind the last brace or comma, or behind the
   last value if no comma follows. *)
with fails_flow_map : nat -> nat -> fault -> Prop :=
| fm_open st n : at_ n = 0 -> fails_flow_map st n (bad BadMappingTerminator st n)
| fm_pair st n r : fails_pair st n r -> fails_flow_map st n r
| fm_comma st n s d o w e n' r : puts_pair text n s d o w e -> at_ e = COMMA -> gap_to (S e) n' -> fails_flow_map (S e) n' r ->
    fails_flow_map st n r
| fm_last_open st n s d o w e : puts_pair text n s d o w e -> at_ e = 0 -> fails_flow_map st n (bad BadMappingTerminator e e)
| fm_last_pair st n s d o w e r : puts_pair text n s d o w e -> at_ e <> COMMA -> fails_pair e e r -> fails_flow_map st n r
| fm_last_end st n s d o w e s' d' o' w' e' : puts_pair text n s d o w e -> at_ e <> COMMA -> puts_pair text e s' d' o' w' e' -> at_ e' <> RBRACE ->
    fails_flow_map st n (bad BadMappingTerminator e e')
with fails_pair : nat -> nat -> fault -> Prop :=
| fr_key st n : ~ In (at_ n) [RBRACE; 0] -> ~ In COLON (part n len) -> ~ In 0 (part n len) ->
    fails_pair st n (bad BadMappingSeparator st len)
| fr_value st n s k m r : ~ In (at_ n) [RBRACE; 0] -> flow_key_at text n s k -> gap_to (S k) m -> fails true None m r -> fails_pair st n r.

(* What is wrong with the text. *)
Inductive wrong : fault -> Prop :=
| wr_value n p i r : gap_to 0 n -> puts_header text (part 0 n) n p i -> fails false None i r -> wrong r
| wr_more n p i d o w j w' n' : gap_to 0 n -> puts_header text (part 0 n) n p i -> puts false None i d o w j -> after w j w' n' -> (n' < len)%nat ->
    wrong (bad ExpectedEof n' len).
End Fails.
Scheme fails_mut := Minimality for fails Sort Prop
  with fails_behind_mut := Minimality for fails_behind Sort Prop
  with fails_dashes_mut := Minimality for fails_dashes Sort Prop
  with fails_pairs_mut := Minimality for fails_pairs Sort Prop
  with fails_flow_seq_mut := Minimality for fails_flow_seq Sort Prop
  with fails_flow_map_mut := Minimality for fails_flow_map Sort Prop
  with fails_pair_mut := Minimality for fails_pair Sort Prop.
Combined Scheme fails_all from fails_mut, fails_behind_mut, fails_dashes_mut, fails_pairs_mut, fails_flow_seq_mut, fails_flow_map_mut, fails_pair_mut.
