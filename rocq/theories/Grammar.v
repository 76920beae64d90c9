(* A grammar of texts: which data a text stands for, said without the parser. GrammarSound.v
   proves that the parser reads every such text so, and prints it back unchanged.
   The grammar covers block mappings and sequences with any indentation, blank lines and
   comments, plain and quoted scalars, literal and folded block scalars, and flow collections.
   Where the crate differs from YAML (see Refuted.v) the grammar stays on the common ground. *)
From Coq Require Import String.
From Coq Require Import List NArith Bool Arith.
From Verif Require Import Bytes Utf8 Data Scan Shown Plain.
From Verif Require Export White.
Import ListNotations.
Local Open Scope N_scope.

(* ---- layout ---- *)
(* White space and whole comments. *)
Inductive closed : bytes -> Prop :=
| cl_nil : closed []
| cl_ws c w : white c -> closed w -> closed (c :: w)
| cl_comment s w : ~ In NEWLINE s -> closed w -> closed (b "#" ++ s ++ [NEWLINE] ++ w).
Definition gap (w : bytes) : Prop := closed w /\ white (hd EOF w).
(* Layout that ends with m blanks at the start of a line. *)
Definition newline_at (m : nat) (w : bytes) : Prop := white (hd EOF w) /\
  exists u t, w = u ++ [NEWLINE] ++ t /\ closed (u ++ [NEWLINE]) /\ Forall blank t /\ length t = m.
Definition breaks (post : bytes) : Prop := post = [] \/ white (hd EOF post).

(* ---- flow collections ---- *)
Definition flow_word (x : bytes) : Prop := exists c r, x = c :: r /\ ~ white c /\ ~ digit c /\
  ~ In c (b "-.#""'[{>|") /\ Forall (fun c => ~ In c (b ",:]}") /\ c <> 0) x.
Definition flow_key (x : bytes) : Prop := exists c r, x = c :: r /\ ~ white c /\ ~ In c (b "#""'") /\
  Forall (fun c => ~ In c (b ",:]}[{") /\ c <> 0) x.
(* The item x with the byte that follows it. *)
Inductive flow_item : bytes -> datum -> byte -> Prop :=
| fi_word x d c : flow_word x -> plain_datum x d -> In c (b ",]}") -> flow_item x d c
| fi_number x h c : number_text x h -> In c (b ",]}#") \/ white c -> flow_item x (DNum x h) c
| fi_quoted x v c : quoted_text x v -> In c (b ",]}#") \/ white c -> flow_item x (DStr v) c
| fi_nested x d c : flow x d -> flow_item x d c
with flow : bytes -> datum -> Prop :=
| fl_seq x l : flow_seq x l -> flow (b "[" ++ x) (DSeq l)
| fl_map x l : flow_map x l -> flow (b "{" ++ x) (DMap l)
(* behind the opening bracket *)
with flow_seq : bytes -> list datum -> Prop :=
| fs_end w : closed w -> flow_seq (w ++ b "]") []
| fs_last i x d w : closed i -> utf8 i = true -> closed w -> flow_item x d (hd EOF (w ++ b "]")) -> flow_seq (i ++ x ++ w ++ b "]") [d]
| fs_cons i x d y l : closed i -> utf8 i = true -> flow_item x d COMMA -> flow_seq y l -> flow_seq (i ++ x ++ b "," ++ y) (d :: l)
with flow_map : bytes -> list (bytes * datum) -> Prop :=
| fm_end w : closed w -> flow_map (w ++ b "}") []
| fm_last i k w x d : closed i -> flow_key k -> closed w -> flow_item x d RBRACE -> flow_map (i ++ k ++ b ":" ++ w ++ x ++ b "}") [(k, d)]
| fm_cons i k w x d y l : closed i -> flow_key k -> closed w -> flow_item x d COMMA -> flow_map y l ->
    flow_map (i ++ k ++ b ":" ++ w ++ x ++ b "," ++ y) ((k, d) :: l).

(* ---- block scalars ---- *)
(* A line: white space neither at its start nor at its end. *)
Definition block_line (l : bytes) : Prop := l <> [] /\ hd EOF l <> HASH /\ outer_clean l /\ ~ In NEWLINE l.
Definition newlines (k : nat) : bytes := repeat NEWLINE k.
(* Lines at column m and their content; between them, newlines and blanks. *)
Inductive block_lines (folded : bool) (m : nat) : bytes -> bytes -> Prop :=
| bk_last l : block_line l -> block_lines folded m l l
| bk_more l k t x v : block_line l -> (folded = true -> k = 1%nat) -> (0 < k)%nat -> Forall blank t -> length t = m ->
    block_lines folded m x v ->
    block_lines folded m (l ++ newlines k ++ t ++ x) (l ++ (if folded then b " " else newlines k) ++ v).
Inductive chomping := CStrip | CKeep | CNone.
Definition chomp_text (c : chomping) : bytes := match c with CStrip => b "-" | CKeep => b "+" | CNone => [] end.
(* The block scalar x, its content, and what follows: k newlines and then a line that is not
   indented as far, or the end. *)
Inductive block_scalar : bytes -> bytes -> bytes -> Prop :=
| bs_block (folded : bool) c m w x v k t post : newline_at m w -> (0 < m)%nat -> block_lines folded m x v ->
    (0 < k)%nat -> Forall blank t -> (length t < m)%nat ->
    (post = [] \/ ~ white (hd EOF post) /\ hd EOF post <> HASH) ->
    block_scalar (b (if folded then ">" else "|")%string ++ chomp_text c ++ w ++ x)
      (v ++ match c with CStrip => [] | _ => newlines k end) (newlines k ++ t ++ post)
| bs_end c m w x v : newline_at m w -> block_lines false m x v ->
    block_scalar (b "|" ++ chomp_text c ++ w ++ x) v [].

(* ---- block collections ---- *)
(* A value written within its line, block scalars apart, with the text behind it. *)
Inductive leaf : bytes -> datum -> bytes -> Prop :=
| lf_plain x d post : plain_line x -> plain_datum x d -> ended post -> leaf x d post
| lf_quoted x v post : quoted_text x v -> breaks post -> leaf x (DStr v) post
| lf_flow x d post : flow x d -> breaks post -> leaf x d post
| lf_block x v post : block_scalar x v post -> leaf x (DStr v) post.
Definition plain_key (k : bytes) : Prop := plain_start k /\ ~ In COLON k /\ ~ In NEWLINE k /\ ~ In 0 k.
(* The first key of a mapping and its content. *)
Definition start_key (x k : bytes) : Prop := (plain_key x /\ k = x) \/ quoted_text x k.
(* A key follows, at column n or before. *)
Definition key_follows (n : nat) (post : bytes) : Prop :=
  exists w m k r, post = w ++ k ++ b ":" ++ r /\ newline_at m w /\ (m <= n)%nat /\ plain_key k /\ breaks r.
(* The next line does not belong to the mapping, or sequence, at column n. *)
Definition map_ends (n : nat) (post : bytes) : Prop := layout post \/
  exists w m r, post = w ++ r /\ newline_at m w /\ (m < n)%nat /\ r <> [] /\ ~ white (hd EOF r) /\ hd EOF r <> HASH.
Definition seq_ends (n : nat) (post : bytes) : Prop := layout post \/
  exists w m r, post = w ++ r /\ newline_at m w /\ ((m < n)%nat \/ m = n /\ hd EOF r <> DASH) /\
    r <> [] /\ ~ white (hd EOF r) /\ hd EOF r <> HASH.

(* block_map n x l post: the text x at column n, followed by post, is a mapping with the
   entries l. *)
Inductive block_map : nat -> bytes -> list (bytes * datum) -> bytes -> Prop :=
| bm_items n x k t d y l post : start_key x k -> key_value n t d (y ++ post) -> map_rest n y l post ->
    block_map n (x ++ b ":" ++ t ++ y) ((k, d) :: l) post
with map_rest : nat -> bytes -> list (bytes * datum) -> bytes -> Prop :=
| mr_nil n post : map_ends n post -> map_rest n [] [] post
| mr_cons n w k t d y l post : newline_at n w -> plain_key k -> key_value n t d (y ++ post) -> map_rest n y l post ->
    map_rest n (w ++ k ++ b ":" ++ t ++ y) ((k, d) :: l) post
(* behind the colon of a key at column n *)
with key_value : nat -> bytes -> datum -> bytes -> Prop :=
| kv_leaf n w x d post : gap w -> leaf x d post -> key_value n (w ++ x) d post
| kv_none n post : key_follows n post -> key_value n [] DNull post
| kv_map n m w x l post : newline_at m w -> (n < m)%nat -> block_map m x l post -> key_value n (w ++ x) (DMap l) post
| kv_seq n m w x l post : newline_at m w -> (n <= m)%nat -> block_seq m x l post -> key_value n (w ++ x) (DSeq l) post
with block_seq : nat -> bytes -> list datum -> bytes -> Prop :=
| bs_items n t d y l post : dash_value (1 + n) t d (y ++ post) -> seq_rest n y l post ->
    block_seq n (b "-" ++ t ++ y) (d :: l) post
with seq_rest : nat -> bytes -> list datum -> bytes -> Prop :=
| sr_nil n post : seq_ends n post -> seq_rest n [] [] post
| sr_cons n w t d y l post : newline_at n w -> utf8 w = true -> dash_value (1 + n) t d (y ++ post) -> seq_rest n y l post ->
    seq_rest n (w ++ b "-" ++ t ++ y) (d :: l) post
(* behind a dash, from column n *)
with dash_value : nat -> bytes -> datum -> bytes -> Prop :=
| dv_leaf n w x d post : gap w -> leaf x d post -> dash_value n (w ++ x) d post
| dv_map n w x l post : Forall blank w -> w <> [] -> block_map (n + length w) x l post -> dash_value n (w ++ x) (DMap l) post
| dv_seq n w x l post : Forall blank w -> w <> [] -> block_seq (n + length w) x l post -> dash_value n (w ++ x) (DSeq l) post
| dv_map_below n m w x l post : newline_at m w -> (n <= m)%nat -> block_map m x l post -> dash_value n (w ++ x) (DMap l) post
| dv_seq_below n m w x l post : newline_at m w -> (n <= m)%nat -> block_seq m x l post -> dash_value n (w ++ x) (DSeq l) post.

(* A whole text: layout, the value, layout; no directive and no document marker. *)
Definition doc_start (l : bytes) : Prop := ~ (exists r, l = b "%" ++ r) /\ ~ (exists r, l = b "---" ++ r).
Definition line_start (n : nat) (w : bytes) : Prop :=
  (Forall blank w /\ length w = n) \/ exists u t, w = u ++ [NEWLINE] ++ t /\ closed (u ++ [NEWLINE]) /\ Forall blank t /\ length t = n.
Inductive doc_text : bytes -> datum -> Prop :=
| dt_leaf w x d post : closed w -> leaf x d post -> layout post -> doc_start x -> doc_text (w ++ x ++ post) d
| dt_map w n x l post : line_start n w -> block_map n x l post -> layout post -> doc_start x -> doc_text (w ++ x ++ post) (DMap l)
| dt_seq w n x l post : line_start n w -> block_seq n x l post -> layout post -> doc_text (w ++ x ++ post) (DSeq l).

Scheme flow_item_mut := Minimality for flow_item Sort Prop
  with flow_mut := Minimality for flow Sort Prop
  with flow_seq_mut := Minimality for flow_seq Sort Prop
  with flow_map_mut := Minimality for flow_map Sort Prop.
Combined Scheme flow_all from flow_item_mut, flow_mut, flow_seq_mut, flow_map_mut.
Scheme block_map_mut := Minimality for block_map Sort Prop
  with map_rest_mut := Minimality for map_rest Sort Prop
  with key_value_mut := Minimality for key_value Sort Prop
  with block_seq_mut := Minimality for block_seq Sort Prop
  with seq_rest_mut := Minimality for seq_rest Sort Prop
  with dash_value_mut := Minimality for dash_value Sort Prop.
Combined Scheme block_all from block_map_mut, map_rest_mut, key_value_mut, block_seq_mut, seq_rest_mut, dash_value_mut.
