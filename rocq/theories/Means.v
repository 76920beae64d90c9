(* What every text stands for: the texts that are accepted and the data they show, said without
   the parser. Places are counted from the start of the text; [means .. i d j] says that the text
   from place i to place j is a value shown as d. The rules follow YAML where the crate does; where
   it does not, the rules say what it does instead. MeansSound.v and MeansComplete.v prove that the
   parser accepts exactly these texts and shows exactly these data. *)
From Coq Require Import String.
From Coq Require Import List NArith Bool Arith.
From Verif Require Import Bytes Utf8 Data Scan Shown Plain White Valid Lexed.
Import ListNotations.
Local Open Scope N_scope.

(* The number of characters of a text; a maximal part that is no UTF-8 counts as one. *)
Inductive counted : bytes -> nat -> Prop :=
| cn_nil : counted [] 0
| cn_char x r n : encoding x -> counted r n -> counted (x ++ r) (S n)
| cn_bad x r n : bad_part x r -> counted r n -> counted (x ++ r) (S n).

Section Means.
Variable text : bytes.
Local Notation len := (length text).
(* The byte at a place; 0 behind the end. *)
Local Notation at_ i := (nth i text 0).
Local Notation part := (slice text).
(* The column of a place: the characters since the last newline; column_spec below says what
   these are. *)
Definition column (i : nat) : nat := count_indent (firstn i text).
(* k is the end of the line of i *)
Definition line_to (i k : nat) : Prop := (i <= k <= len)%nat /\ ~ In NEWLINE (part i k) /\ (k = len \/ at_ k = NEWLINE).
(* All white space and comments from i end at j. *)
Inductive gap_to : nat -> nat -> Prop :=
| ga_none i : (i <= len)%nat -> ~ white (at_ i) -> at_ i <> HASH -> gap_to i i
| ga_white i j : white (at_ i) -> gap_to (S i) j -> gap_to i j
| ga_comment i k j : at_ i = HASH -> line_to i k -> gap_to k j -> gap_to i j.
Definition ends_key (i : nat) : Prop := white (at_ i) \/ at_ i = 0.

(* ---- scalars ---- *)
(* Quoted strings. A double quote is also ended by a NUL or the end of the text. *)
Inductive quote_at (i : nat) (s : bytes) (j : nat) : Prop :=
| qa_single y : (i <= j <= len)%nat -> part i j = b "'" ++ y ++ b "'" -> sq_content y s -> at_ j <> SQUOTE -> quote_at i s j
| qa_double y e : (i <= j <= len)%nat -> part i j = b """" ++ y ++ e -> dq_shown y s ->
    e = b """" \/ e = [0] \/ e = [] /\ j = len -> quote_at i s j.
(* The longest number at i; outside of flow collections only blanks follow on its line. *)
Definition number_at (flow : bool) (i : nat) (h : hint) (j : nat) : Prop :=
  (i <= j <= len)%nat /\ number_text (part i j) h /\
  (forall k h', (j < k <= len)%nat -> ~ number_text (part i k) h') /\
  (flow = false -> exists k, line_to j k /\ Forall blank (part j k)).
(* No plain word starts here. *)
Definition no_word (flow : bool) (i : nat) : Prop :=
  In (at_ i) (b """'[{|>") \/ flow = false /\ at_ i = DASH /\ white (at_ (S i)).
(* A word goes to the end of its line, which has no key, or in flow collections up to one of
   ,:]} or a NUL or the end of the text. *)
Definition word_to (flow : bool) (i j : nat) : Prop :=
  if flow then (i <= j <= len)%nat /\ (forall c, In c (part i j) -> ~ In c (0 :: b ",:]}")) /\ In (at_ j) (0 :: b ",:]}")
  else line_to i j /\ forall k, (i <= k < j)%nat -> at_ k = COLON -> ~ ends_key (S k).

(* ---- block scalars ---- *)
Definition newlines_in (w : bytes) : bytes := repeat NEWLINE (count_occ N.eq_dec w NEWLINE).
(* Lines from n on whose column is c at least; the last ends at e, and other text starts at m. *)
Inductive lines_at (folded : bool) (c : nat) : nat -> bytes -> nat -> nat -> Prop :=
| la_last n l t m : (n < len)%nat -> line_to n l -> trimmed (part n l) t -> gap_to l m -> (column m < c)%nat ->
    lines_at folded c n t l m
| la_end n l t : (n < len)%nat -> line_to n l -> trimmed (part n l) t -> gap_to l len -> (c <= column len)%nat ->
    lines_at folded c n (t ++ joined folded (part l len)) l len
| la_more n l t n' v e m : (n < len)%nat -> line_to n l -> trimmed (part n l) t -> gap_to l n' -> (n' < len)%nat ->
    (c <= column n')%nat -> lines_at folded c n' v e m ->
    lines_at folded c n (t ++ joined folded (part l n') ++ v) e m.
(* The content behind the header, and what the newlines at its end are taken from. *)
Inductive block_body (folded : bool) (k : nat) : bytes -> bytes -> nat -> Prop :=
| bb_empty : gap_to k len -> In NEWLINE (part k len) -> block_body folded k [] (part k len) len
| bb_lines n v e m : gap_to k n -> In NEWLINE (part k n) -> (n < len)%nat -> lines_at folded (column n) n v e m ->
    block_body folded k v (part e m) e
| bb_head l t : (exists n, gap_to k n /\ ~ In NEWLINE (part k n)) -> line_to k l -> trimmed (part k l) t -> gap_to l len ->
    block_body folded k t (part l len) len
| bb_more l t n v e m : (exists n, gap_to k n /\ ~ In NEWLINE (part k n)) -> line_to k l -> trimmed (part k l) t -> gap_to l n -> (n < len)%nat ->
    lines_at folded (column n) n v e m ->
    block_body folded k (t ++ (if folded then b " " else [NEWLINE]) ++ v) (part e m) e.
(* > or |, perhaps with - or +; all newlines at the end are kept unless there is a - *)
Inductive block_at (i : nat) (s : bytes) (j : nat) : Prop :=
| bl_plain (folded : bool) v w : at_ i = (if folded then GT else PIPE) -> ~ In (at_ (S i)) (b "-+") ->
    block_body folded (1 + i) v w j -> s = v ++ newlines_in w -> block_at i s j
| bl_keep (folded : bool) v w : at_ i = (if folded then GT else PIPE) -> at_ (S i) = PLUS ->
    block_body folded (2 + i) v w j -> s = v ++ newlines_in w -> block_at i s j
| bl_strip (folded : bool) v w : at_ i = (if folded then GT else PIPE) -> at_ (S i) = DASH ->
    block_body folded (2 + i) v w j -> s = v -> block_at i s j.

(* ---- collections ---- *)
(* The first key of a block mapping, from i to its colon: in quotes, or plain up to the first
   colon before white space, a NUL or the end. *)
Inductive key_at (i : nat) (s : bytes) (k : nat) : Prop :=
| ka_quoted : quote_at i s k -> at_ k = COLON -> key_at i s k
| ka_plain : ~ no_word false i -> (i <= k < len)%nat -> ~ In NEWLINE (part i k) -> at_ k = COLON -> ends_key (S k) ->
    (forall k', (i <= k' < k)%nat -> at_ k' = COLON -> ~ ends_key (S k')) -> s = part i k -> key_at i s k.
(* The other keys go up to the next colon, whatever they contain. *)
Definition later_key_at (i : nat) (s : bytes) (k : nat) : Prop :=
  (i < k < len)%nat /\ s = part i k /\ ~ In COLON s /\ ~ In 0 s /\ at_ k = COLON.
(* Keys of flow mappings go up to the next colon or NUL. *)
Definition flow_key_at (i : nat) (s : bytes) (k : nat) : Prop :=
  (i <= k < len)%nat /\ s = part i k /\ ~ In COLON s /\ ~ In 0 s /\ In (at_ k) [COLON; 0].
(* deeper than the mapping the value belongs to *)
Definition under (outer : option nat) (c : nat) : Prop := match outer with Some o => (o < c)%nat | None => True end.

(* flow: inside a flow collection; outer: the column of the block mapping whose value it is *)
Inductive means : bool -> option nat -> nat -> datum -> nat -> Prop :=
| me_quote flow outer i s j : quote_at i s j -> flow = true \/ at_ j <> COLON -> means flow outer i (DStr s) j
| me_number flow outer i h j : number_at flow i h j -> means flow outer i (DNum (part i j) h) j
| me_word flow outer i d j : ~ no_word flow i -> (forall h k, ~ number_at flow i h k) -> word_to flow i j ->
    plain_datum (part i j) d -> means flow outer i d j
| me_block outer i s j : block_at i s j -> means false outer i (DStr s) j
| me_seq outer i l j : at_ i = DASH -> white (at_ (S i)) -> dashes_at (column i) i l j -> means false outer i (DSeq l) j
| me_map outer i s k l j : key_at i s k -> under outer (column i) -> pairs_at (column i) s k l j ->
    means false outer i (DMap l) j
| me_flow_seq flow outer i n l j : at_ i = LBRACK -> gap_to (S i) n -> flow_seq_at n l j -> means flow outer i (DSeq l) j
| me_flow_map flow outer i n l j : at_ i = LBRACE -> gap_to (S i) n -> flow_map_at n l j -> means flow outer i (DMap l) j
(* behind a colon or dash: a value, or nothing if a key follows that is not deeper *)
with behind : option nat -> nat -> datum -> nat -> Prop :=
| be_value outer i m d j : gap_to i m -> means false outer m d j -> behind outer i d j
| be_none o i m s k : gap_to i m -> key_at m s k -> (column m <= o)%nat -> behind (Some o) i DNull i
(* items of a block sequence at column c, the first at i *)
with dashes_at : nat -> nat -> list datum -> nat -> Prop :=
| da_last c i d e n : behind None (S i) d e -> gap_to e n -> column n <> c \/ at_ n <> DASH -> dashes_at c i [d] e
| da_more c i d e n l j : behind None (S i) d e -> gap_to e n -> column n = c -> at_ n = DASH -> dashes_at c n l j ->
    dashes_at c i (d :: l) j
(* entries of a block mapping at column c; the colon of the first key s is at k *)
with pairs_at : nat -> bytes -> nat -> list (bytes * datum) -> nat -> Prop :=
| pa_last c s k d e n : behind (Some c) (S k) d e -> gap_to e n -> column n <> c \/ In (at_ n) [COLON; 0] -> pairs_at c s k [(s, d)] e
| pa_more c s k d e n s' k' l j : behind (Some c) (S k) d e -> gap_to e n -> column n = c -> later_key_at n s' k' ->
    pairs_at c s' k' l j -> pairs_at c s k ((s, d) :: l) j
(* a value of a flow collection, and where the text goes on; the flag tells that white space was
   skipped *)
with held_at : nat -> datum -> nat -> bool -> Prop :=
| he_value i d j : means true None i d j -> held_at i d j false
| he_block i s e n : block_at i s e -> gap_to e n -> held_at i (DStr s) n true
(* the rest of a flow sequence. A comma may be missing, but only before the last item. *)
with flow_seq_at : nat -> list datum -> nat -> Prop :=
| fq_end n : at_ n = RBRACK -> flow_seq_at n [] (S n)
| fq_comma n m d e (skipped : bool) n' l j : ~ In (at_ n) [RBRACK; 0] -> gap_to n m -> held_at m d e skipped -> at_ e = COMMA ->
    (if skipped then n' = S e else gap_to (S e) n') -> flow_seq_at n' l j -> flow_seq_at n (d :: l) j
| fq_last n m d e skipped n' : ~ In (at_ n) [RBRACK; 0] -> gap_to n m -> held_at m d e skipped -> at_ e <> COMMA ->
    gap_to e n' -> at_ n' = RBRACK -> flow_seq_at n [d] (S n')
| fq_two n m d e skipped n' d' e' skipped' n'' : ~ In (at_ n) [RBRACK; 0] -> gap_to n m -> held_at m d e skipped -> at_ e <> COMMA ->
    gap_to e n' -> ~ In (at_ n') [RBRACK; 0] -> held_at n' d' e' skipped' -> gap_to e' n'' -> at_ n'' = RBRACK ->
    flow_seq_at n [d; d'] (S n'')
(* the rest of a flow mapping *)
with flow_map_at : nat -> list (bytes * datum) -> nat -> Prop :=
| fp_end n : at_ n = RBRACE -> flow_map_at n [] (S n)
| fp_comma n d e n' l j s : flow_pair_at n s d e -> at_ e = COMMA -> gap_to (S e) n' -> flow_map_at n' l j ->
    flow_map_at n ((s, d) :: l) j
| fp_last n d e s : flow_pair_at n s d e -> at_ e = RBRACE -> flow_map_at n [(s, d)] (S e)
| fp_two n d e s d' e' s' : flow_pair_at n s d e -> at_ e <> COMMA -> flow_pair_at e s' d' e' -> at_ e' = RBRACE ->
    flow_map_at n [(s, d); (s', d')] (S e')
with flow_pair_at : nat -> bytes -> datum -> nat -> Prop :=
| fp_pair n s k m d e skipped e' : ~ In (at_ n) [RBRACE; 0] -> flow_key_at n s k -> gap_to (S k) m -> held_at m d e skipped ->
    gap_to e e' -> flow_pair_at n s d e'.

(* Directives, then perhaps a document marker. *)
Inductive header_to : nat -> nat -> Prop :=
| hd_none i : at_ i <> PERCENT -> ~ (at_ i = DASH /\ at_ (1 + i) = DASH /\ at_ (2 + i) = DASH) -> header_to i i
| hd_directive i k n j : at_ i = PERCENT -> line_to i k -> gap_to k n -> header_to n j -> header_to i j
| hd_marker i j : at_ i = DASH -> at_ (1 + i) = DASH -> at_ (2 + i) = DASH -> gap_to (3 + i) j -> header_to i j.
Definition stands_for (d : datum) : Prop :=
  exists n i j, gap_to 0 n /\ header_to n i /\ means false None i d j /\ gap_to j len.
End Means.
Scheme means_mut := Minimality for means Sort Prop
  with behind_mut := Minimality for behind Sort Prop
  with dashes_mut := Minimality for dashes_at Sort Prop
  with pairs_mut := Minimality for pairs_at Sort Prop
  with held_mut := Minimality for held_at Sort Prop
  with flow_seq_at_mut := Minimality for flow_seq_at Sort Prop
  with flow_map_at_mut := Minimality for flow_map_at Sort Prop
  with flow_pair_mut := Minimality for flow_pair_at Sort Prop.
Combined Scheme means_all from means_mut, behind_mut, dashes_mut, pairs_mut, held_mut, flow_seq_at_mut, flow_map_at_mut, flow_pair_mut.
