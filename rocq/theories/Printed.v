(* What an unedited document writes back, for every accepted text, by rules over places of the
   text: the definitions for C49. The rules follow those of Means.v. *)
From Coq Require Import String.
From Coq Require Import List NArith Bool Arith Lia.
From Verif Require Import Bytes Utf8 Data Shown Plain White Valid Lexed Means.
Import ListNotations.
Local Open Scope N_scope.

Section Printed.
Variable text : bytes.
Local Notation len := (length text).
Local Notation at_ i := (nth i text 0).
Local Notation part := (slice text).
Local Notation gap_to := (gap_to text).
Local Notation column := (column text).

(* A block scalar from i to j. w is the layout counted as behind it. It is the text behind j,
   unless the block scalar ends the text: then it is also part of the scalar. *)
Inductive block_laid (i : nat) (s w : bytes) (j : nat) : Prop :=
| bd_plain (folded : bool) v : at_ i = (if folded then GT else PIPE) -> ~ In (at_ (S i)) (b "-+") ->
    block_body text folded (1 + i) v w j -> s = v ++ newlines_in w -> block_laid i s w j
| bd_keep (folded : bool) v : at_ i = (if folded then GT else PIPE) -> at_ (S i) = PLUS ->
    block_body text folded (2 + i) v w j -> s = v ++ newlines_in w -> block_laid i s w j
| bd_strip (folded : bool) v : at_ i = (if folded then GT else PIPE) -> at_ (S i) = DASH ->
    block_body text folded (2 + i) v w j -> s = v -> block_laid i s w j.
(* The layout behind a value, which was read with it or not yet. *)
Inductive after : option bytes -> nat -> bytes -> nat -> Prop :=
| af_read w n : after (Some w) n w n
| af_skip e n : gap_to e n -> after None e (part e n) n.

(* The value at i shows d and is written as o. Layout w behind it was read up to j (Some), or
   the value ends at j (None). *)
Inductive puts : bool -> option nat -> nat -> datum -> bytes -> option bytes -> nat -> Prop :=
| pu_quote flow outer i s j : quote_at text i s j -> flow = true \/ at_ j <> COLON -> puts flow outer i (DStr s) (part i j) None j
| pu_number flow outer i h j : number_at text flow i h j -> puts flow outer i (DNum (part i j) h) (part i j) None j
| pu_word flow outer i d j : ~ no_word text flow i -> (forall h k, ~ number_at text flow i h k) -> word_to text flow i j ->
    plain_datum (part i j) d -> puts flow outer i d (part i j) None j
| pu_block flow outer i s w j n : block_laid i s w j -> gap_to j n -> puts flow outer i (DStr s) (part i j) (Some w) n
| pu_seq outer i l o w n : at_ i = DASH -> white (at_ (S i)) -> puts_dashes (column i) i l o w n ->
    puts false outer i (DSeq l) o (Some w) n
| pu_map outer i s k l o w n : key_at text i s k -> under outer (column i) -> puts_pairs (column i) s k l o w n ->
    puts false outer i (DMap l) (part i k ++ o) (Some w) n
| pu_flow_seq flow outer i n l o j : at_ i = LBRACK -> gap_to (S i) n -> puts_flow_seq n (part (S i) n) l o j ->
    puts flow outer i (DSeq l) (b "[" ++ o) None j
| pu_flow_map flow outer i n l o j : at_ i = LBRACE -> gap_to (S i) n -> puts_flow_map n (part (S i) n) l o j ->
    puts flow outer i (DMap l) (b "{" ++ o) None j
(* What is written behind a colon or dash; then layout w up to n. *)
with puts_behind : option nat -> nat -> datum -> bytes -> bytes -> nat -> Prop :=
| bh_value outer i m d o w e w' n : gap_to i m -> puts false outer m d o w e -> after w e w' n ->
    puts_behind outer i d (part i m ++ o) w' n
| bh_none c i m s k : gap_to i m -> key_at text m s k -> (column m <= c)%nat -> puts_behind (Some c) i DNull [] (part i m) m
(* Invalid UTF-8 in comments between items is replaced. *)
with puts_dashes : nat -> nat -> list datum -> bytes -> bytes -> nat -> Prop :=
| pd_last c i d o w n : puts_behind None (S i) d o w n -> column n <> c \/ at_ n <> DASH -> puts_dashes c i [d] (b "-" ++ o) w n
| pd_more c i d o w n v l o' w' n' : puts_behind None (S i) d o w n -> column n = c -> at_ n = DASH -> made_valid w v ->
    puts_dashes c n l o' w' n' -> puts_dashes c i (d :: l) (b "-" ++ o ++ v ++ o') w' n'
(* from the colon at k *)
with puts_pairs : nat -> bytes -> nat -> list (bytes * datum) -> bytes -> bytes -> nat -> Prop :=
| pp_last c s k d o w n : puts_behind (Some c) (S k) d o w n -> column n <> c \/ In (at_ n) [COLON; 0] ->
    puts_pairs c s k [(s, d)] (b ":" ++ o) w n
| pp_more c s k d o w n s' k' l o' w' n' : puts_behind (Some c) (S k) d o w n -> column n = c -> later_key_at text n s' k' ->
    puts_pairs c s' k' l o' w' n' -> puts_pairs c s k ((s, d) :: l) (b ":" ++ o ++ w ++ s' ++ o') w' n'
(* The rest of a flow sequence, p being the layout before it. Every item but the last gets a
   comma, the last one if there is one. Layout before a comma, possible behind block scalars
   only, is moved behind it. *)
with puts_flow_seq : nat -> bytes -> list datum -> bytes -> nat -> Prop :=
| ps_end n p : at_ n = RBRACK -> puts_flow_seq n p [] (p ++ b "]") (S n)
| ps_comma n p v m d o w e w' n' l o' j : ~ In (at_ n) [RBRACK; 0] -> made_valid p v -> gap_to n m -> puts true None m d o w e ->
    at_ e = COMMA -> after w (S e) w' n' -> puts_flow_seq n' w' l o' j ->
    puts_flow_seq n p (d :: l) (v ++ part n m ++ o ++ b "," ++ o') j
| ps_last n p v m d o w e w' n' : ~ In (at_ n) [RBRACK; 0] -> made_valid p v -> gap_to n m -> puts true None m d o w e ->
    at_ e <> COMMA -> after w e w' n' -> at_ n' = RBRACK -> puts_flow_seq n p [d] (v ++ part n m ++ o ++ w' ++ b "]") (S n')
| ps_two n p v m d o w e w' v' n' d' o' w2 e' w3 n'' : ~ In (at_ n) [RBRACK; 0] -> made_valid p v -> gap_to n m -> puts true None m d o w e ->
    at_ e <> COMMA -> after w e w' n' -> ~ In (at_ n') [RBRACK; 0] -> made_valid w' v' -> puts true None n' d' o' w2 e' -> after w2 e' w3 n'' ->
    at_ n'' = RBRACK ->
    puts_flow_seq n p [d; d'] (v ++ part n m ++ o ++ b "," ++ v' ++ o' ++ w3 ++ b "]") (S n'')
(* The rest of a flow mapping. Layout before a comma or the closing brace is lost. *)
with puts_flow_map : nat -> bytes -> list (bytes * datum) -> bytes -> nat -> Prop :=
| pm_end n p : at_ n = RBRACE -> puts_flow_map n p [] (p ++ b "}") (S n)
| pm_comma n p s d o w e n' l o' j : puts_pair n s d o w e -> at_ e = COMMA -> gap_to (S e) n' ->
    puts_flow_map n' (part (S e) n') l o' j -> puts_flow_map n p ((s, d) :: l) (p ++ o ++ b "," ++ o') j
| pm_last n p s d o w e : puts_pair n s d o w e -> at_ e = RBRACE -> puts_flow_map n p [(s, d)] (p ++ o ++ b "}") (S e)
| pm_two n p s d o w e s' d' o' w' e' : puts_pair n s d o w e -> at_ e <> COMMA -> puts_pair e s' d' o' w' e' -> at_ e' = RBRACE ->
    puts_flow_map n p [(s, d); (s', d')] (p ++ o ++ b "," ++ o' ++ w' ++ b "}") (S e')
(* A pair always gets a colon, also where a NUL ended its key. *)
with puts_pair : nat -> bytes -> datum -> bytes -> bytes -> nat -> Prop :=
| pr_pair n s k m d o w e w' e' : ~ In (at_ n) [RBRACE; 0] -> flow_key_at text n s k -> gap_to (S k) m -> puts true None m d o w e ->
    after w e w' e' -> puts_pair n s d (s ++ b ":" ++ part (S k) m ++ o) w' e'.

(* Directives and marker are lost; the layout behind the last of them is kept. *)
Inductive puts_header : bytes -> nat -> bytes -> nat -> Prop :=
| ph_none p i : at_ i <> PERCENT -> ~ (at_ i = DASH /\ at_ (1 + i) = DASH /\ at_ (2 + i) = DASH) -> puts_header p i p i
| ph_directive p i k n p' j : at_ i = PERCENT -> line_to text i k -> gap_to k n -> puts_header (part k n) n p' j -> puts_header p i p' j
| ph_marker p i j : at_ i = DASH -> at_ (1 + i) = DASH -> at_ (2 + i) = DASH -> gap_to (3 + i) j -> puts_header p i (part (3 + i) j) j.
(* The text stands for d and is written back as out. *)
Inductive printed (d : datum) : bytes -> Prop :=
| printed_as n p i o w j w' : gap_to 0 n -> puts_header (part 0 n) n p i -> puts false None i d o w j -> after w j w' len ->
    printed d (p ++ o ++ w').
End Printed.
Scheme puts_mut := Minimality for puts Sort Prop
  with puts_behind_mut := Minimality for puts_behind Sort Prop
  with puts_dashes_mut := Minimality for puts_dashes Sort Prop
  with puts_pairs_mut := Minimality for puts_pairs Sort Prop
  with puts_flow_seq_mut := Minimality for puts_flow_seq Sort Prop
  with puts_flow_map_mut := Minimality for puts_flow_map Sort Prop
  with puts_pair_mut := Minimality for puts_pair Sort Prop.
Combined Scheme puts_all from puts_mut, puts_behind_mut, puts_dashes_mut, puts_pairs_mut, puts_flow_seq_mut, puts_flow_map_mut, puts_pair_mut.
