(* Texts that the parser reads as a given tree. [reads] describes, value by value and without
   running the parser, when the text printed for a tree is read as that tree in its
   surroundings; the parser is proved to do so. *)
From Coq Require Import List NArith Bool Arith Lia.
From Verif Require Import Bytes Utf8 Data Parser Render Tree Abs Scan.
Import ListNotations.
Local Open Scope N_scope.

Definition col := count_indent.
(* w is all the layout there is before r *)
Definition cut (w r : bytes) : Prop := fst (ws_scan false (w ++ r)) = length w.

(* ---- scalars ---- *)
(* One escape sequence, without the backslash, and the bytes it stands for. *)
Fixpoint hex_number (c : N) (ds : bytes) : option N :=
  match ds with
  | [] => Some c
  | d :: ds => match hex_value d with Some v => hex_number (N.lor (N.shiftl c 4) v) ds | None => None end
  end.
Inductive escape : bytes -> bytes -> Prop :=
| esc_char c o : escape_char c = Some o -> escape [c] [o]
| esc_hex ds c : length ds = 2%nat -> hex_number 0 ds = Some c -> is_scalar_value c = true ->
    escape (120 :: ds) (encode_utf8 c)
| esc_uni ds c : length ds = 4%nat -> hex_number 0 ds = Some c -> is_scalar_value c = true ->
    escape (117 :: ds) (encode_utf8 c).
(* The text between double quotes and its content. *)
Inductive dqbody : bytes -> bytes -> Prop :=
| db_nil : dqbody [] []
| db_byte c y v : c <> DQUOTE -> c <> EOF -> c <> BACKSLASH -> dqbody y v -> dqbody (c :: y) (c :: v)
| db_esc e x y v : escape e x -> dqbody y v -> dqbody (BACKSLASH :: e ++ y) (x ++ v).
Definition dquoted (x v : bytes) : Prop :=
  exists y c, x = DQUOTE :: y ++ [c] /\ dqbody y v /\ (c = DQUOTE \/ c = EOF).
Definition dopen (x v : bytes) : Prop := exists y, x = DQUOTE :: y /\ dqbody y v.
(* The text between single quotes and its content. *)
Inductive sqbody : bytes -> bytes -> Prop :=
| sb_nil : sqbody [] []
| sb_byte c y v : c <> SQUOTE -> sqbody y v -> sqbody (c :: y) (c :: v)
| sb_pair y v : sqbody y v -> sqbody (SQUOTE :: SQUOTE :: y) (SQUOTE :: v).
Definition squoted (x v : bytes) : Prop := exists y, x = SQUOTE :: y ++ [SQUOTE] /\ sqbody y v.

(* The text starts something other than a plain scalar. *)
Definition special (inl : bool) (r : bytes) : bool :=
  ((hd EOF r =? DASH) && is_ws (nth 1 r EOF) && negb inl) ||
  (hd EOF r =? DQUOTE) || (hd EOF r =? SQUOTE) || (hd EOF r =? LBRACK) || (hd EOF r =? LBRACE) ||
  (hd EOF r =? GT) || (hd EOF r =? PIPE).
(* The number a text starts with: its length and type. *)
Definition num_read (inl : bool) (r : bytes) : option (nat * hint) :=
  let neg := hd EOF r =? DASH in
  let r1 := if neg then tl r else r in
  let '(k, fl) := num_scan true true false r1 in
  if Nat.eqb k 0 then None
  else if negb inl && negb (eol_scan (skipn k r1)) then None
  else Some (if neg then S k else k, if fl then Float64 else if neg then Signed64 else Unsigned64).

(* The lines of a block scalar: [blines join folded ind pre r x w r' nl v]: after pre, the text
   r starts with the lines x, then layout w with nl newlines, then r'; the content is v. *)
Inductive blines (join : byte) (folded : bool) (ind : nat) : bytes -> bytes -> bytes -> bytes -> bytes -> bytes -> Prop :=
| bl_end pre l w r : ~ In NEWLINE l -> l ++ w ++ r <> [] -> (w ++ r = [] \/ hd EOF (w ++ r) = NEWLINE) -> cut w r ->
    (col (pre ++ l ++ w) < ind)%nat ->
    blines join folded ind pre (l ++ w ++ r) l w r (trim l)
| bl_eof pre l w : ~ In NEWLINE l -> l ++ w <> [] -> (w = [] \/ hd EOF w = NEWLINE) -> cut w [] ->
    (ind <= col (pre ++ l ++ w))%nat ->
    blines join folded ind pre (l ++ w) l w [] (trim l ++ repeat join (if folded then 1%nat else nl_count w))
| bl_more pre l w r x w' r' v : ~ In NEWLINE l -> (hd EOF (w ++ r) = NEWLINE) -> cut w r ->
    r <> [] -> (ind <= col (pre ++ l ++ w))%nat ->
    blines join folded ind (pre ++ l ++ w) r x w' r' v ->
    blines join folded ind pre (l ++ w ++ r) (l ++ w ++ x) w' r'
      (trim l ++ repeat join (if folded then 1%nat else nl_count w) ++ v).
(* The header of a block scalar. *)
Definition bjoin (h : bytes) : byte := if hd EOF h =? GT then SPACE else NEWLINE.
Definition bfolded (h : bytes) : bool := hd EOF h =? GT.
Definition bchomp (h : bytes) : bool := negb (nth 1 h EOF =? DASH).
Definition bend (h w : bytes) : bytes :=
  repeat NEWLINE (if bchomp h then nl_count w else 0%nat).
Definition bheader (h r : bytes) : Prop :=
  (h = [GT] \/ h = [PIPE]) /\ hd EOF r <> DASH /\ hd EOF r <> PLUS \/
  (exists a c, h = [a; c] /\ (a = GT \/ a = PIPE) /\ (c = DASH \/ c = PLUS)).
(* Text of a block scalar behind its header. *)
Inductive block_text (h : bytes) : bytes -> bytes -> bytes -> bytes -> Prop :=
| bt_next pre w0 r1 x w r v : cut w0 r1 -> In NEWLINE w0 -> r1 = x ++ w ++ r ->
    blines (bjoin h) (bfolded h) (col (pre ++ h ++ w0)) (pre ++ h ++ w0) r1 x w r v ->
    block_text h pre (w0 ++ x) (w ++ r) (v ++ bend h w)
| bt_line pre w0 l w1 r2 x w r v : cut w0 (l ++ w1 ++ r2) -> ~ In NEWLINE w0 -> ~ In NEWLINE l ->
    hd EOF (w1 ++ r2) = NEWLINE -> cut w1 r2 -> r2 <> [] -> r2 = x ++ w ++ r ->
    blines (bjoin h) (bfolded h) (col (pre ++ h ++ w0 ++ l ++ w1)) (pre ++ h ++ w0 ++ l ++ w1) r2 x w r v ->
    block_text h pre (w0 ++ l ++ w1 ++ x) (w ++ r) ((trim (w0 ++ l) ++ [bjoin h]) ++ v ++ bend h w)
| bt_one pre w0 l : cut w0 l -> ~ In NEWLINE w0 -> ~ In NEWLINE l ->
    block_text h pre (w0 ++ l) [] (trim (w0 ++ l) ++ []).

Inductive scal : bool -> bytes -> scalar bytes -> bytes -> Prop :=
| L_num inl pre x h post : special inl (x ++ post) = false -> num_read inl (x ++ post) = Some (length x, h) ->
    scal inl pre (ScNum x h) post
| L_flow pre x post : special true (x ++ post) = false -> num_read true (x ++ post) = None ->
    ctl_scan (x ++ post) = length x -> scal true pre (a_plain x) post
| L_plain pre x post : special false (x ++ post) = false -> num_read false (x ++ post) = None ->
    key_scan (x ++ post) = (length x, false) -> scal false pre (a_plain x) post
| L_dq inl pre x v post : dquoted x v -> (inl = true \/ hd EOF post <> COLON) ->
    scal inl pre (ScStr (RS KOriginal v x)) post
| L_dopen inl pre x v : dopen x v -> scal inl pre (ScStr (RS KOriginal v x)) []
| L_sq inl pre x v post : squoted x v -> hd EOF post <> SQUOTE -> (inl = true \/ hd EOF post <> COLON) ->
    scal inl pre (ScStr (RS KOriginal v x)) post
| L_block inl pre h o v post : bheader h (o ++ post) -> block_text h pre o post v ->
    scal inl pre (ScStr (RS (KMultiline h) v o)) post.

(* A key at the start of a block mapping. *)
Inductive first_key : rstr bytes -> bytes -> Prop :=
| K_plain x r : special false (x ++ r) = false -> num_read false (x ++ r) = None ->
    key_scan (x ++ r) = (length x, true) -> first_key (RS KBare x x) r
| K_dq x v r : dquoted x v -> hd EOF r = COLON -> first_key (RS KOriginal v x) r
| K_sq x v r : squoted x v -> hd EOF r = COLON -> first_key (RS KOriginal v x) r.
(* A later key, with what follows its colon. *)
Definition later_key (k : bytes) (r : bytes) : Prop :=
  k <> [] /\ ~ In COLON k /\ ~ In EOF k /\ (is_ws (hd EOF r) = true \/ hd EOF r = EOF) /\
  (hd EOF k = DQUOTE -> exists v, dquoted k v) /\ (hd EOF k = SQUOTE -> exists v, squoted k v).
(* Layout before the next item of a block collection, or at the end of the text. *)
Definition line_end (w r : bytes) : Prop := cut w r /\ (r = [] \/ In NEWLINE w).

Definition mtext1 {I} (it : mitem I) : bytes := let '(_, ip, key, v) := it in ip ++ wstr key ++ [COLON] ++ tpre v ++ wtree v.
Definition stext1 {I} (it : sitem I) : bytes := let '(_, ip, v) := it in ip ++ [DASH] ++ tpre v ++ wtree v.
Definition ftext1 {I} (it : sitem I) : bytes := let '(_, ip, v) := it in ip ++ tpre v ++ wtree v.
Definition mtext {I} (l : list (mitem I)) : bytes := concat (map mtext1 l).
Definition stext {I} (l : list (sitem I)) : bytes := concat (map stext1 l).

(* [reads inl pi pre v post]: after pre (which includes the layout before the value), the text
   of v followed by post is read as v. inl: inside a flow collection; pi: the column of the
   block mapping whose value it is. *)
Inductive reads : bool -> option nat -> bytes -> tree unit -> bytes -> Prop :=
| R_leaf inl pi pre p sc post : scal inl pre sc post -> reads inl pi pre (TLeaf tt p sc) post
| R_map pi pre p key v rest w r :
    match pi with Some i => (i < col pre)%nat | None => True end ->
    first_key key ([COLON] ++ tpre v ++ wtree v ++ mtext rest ++ w ++ r) ->
    line_end w r ->
    mreads (col pre) pre ((tt, [], key, v) :: rest) w r ->
    reads false pi pre (TMap tt p (col pre) CBlock ((tt, [], key, v) :: rest)) (w ++ r)
| R_seq pi pre p v rest w r :
    is_ws (hd EOF (tpre v ++ wtree v ++ stext rest ++ w ++ r)) = true ->
    line_end w r ->
    sreads (col pre) pre ((tt, [], v) :: rest) w r ->
    reads false pi pre (TSeq tt p (col pre) CBlock ((tt, [], v) :: rest)) (w ++ r)
| R_fmap inl pi pre p items tr suf post :
    fmreads (pre ++ [LBRACE]) items tr suf post ->
    reads inl pi pre (TMap tt p 0 (CInline tr suf) items) post
| R_fseq inl pi pre p items tr suf post :
    fsreads (pre ++ [LBRACK]) items tr suf post ->
    reads inl pi pre (TSeq tt p 0 (CInline tr suf) items) post
(* a value with the layout before it; the text of the collection goes on with w ++ r *)
with vreads : option nat -> bytes -> tree unit -> bytes -> Prop :=
| V_value pi pre v post : cut (tpre v) (wtree v ++ post) -> reads false pi (pre ++ tpre v) v post ->
    vreads pi pre v post
| V_null i pre w key r : cut w (wstr key ++ [COLON] ++ r) -> first_key key ([COLON] ++ r) -> (col (pre ++ w) <= i)%nat ->
    vreads (Some i) pre (TLeaf tt [] (ScNull NEmpty)) (w ++ wstr key ++ [COLON] ++ r)
(* the items of a block mapping; pre includes the layout before the first one *)
with mreads : nat -> bytes -> list (mitem unit) -> bytes -> bytes -> Prop :=
| M_last ind pre ip key v w r :
    vreads (Some ind) (pre ++ wstr key ++ [COLON]) v (w ++ r) ->
    (col (pre ++ wstr key ++ [COLON] ++ tpre v ++ wtree v ++ w) <> ind \/ colon_scan r = 0%nat) ->
    mreads ind pre [(tt, ip, key, v)] w r
| M_cons ind pre ip key v w' x v' rest w r :
    vreads (Some ind) (pre ++ wstr key ++ [COLON]) v (w' ++ x ++ [COLON] ++ tpre v' ++ wtree v' ++ mtext rest ++ w ++ r) ->
    cut w' (x ++ [COLON]) -> In NEWLINE w' ->
    col (pre ++ wstr key ++ [COLON] ++ tpre v ++ wtree v ++ w') = ind ->
    later_key x (tpre v' ++ wtree v' ++ mtext rest ++ w ++ r) ->
    mreads ind (pre ++ wstr key ++ [COLON] ++ tpre v ++ wtree v ++ w') ((tt, w', RS KBare x x, v') :: rest) w r ->
    mreads ind pre ((tt, ip, key, v) :: (tt, w', RS KBare x x, v') :: rest) w r
with sreads : nat -> bytes -> list (sitem unit) -> bytes -> bytes -> Prop :=
| S_last ind pre ip v w r :
    vreads None (pre ++ [DASH]) v (w ++ r) ->
    (col (pre ++ [DASH] ++ tpre v ++ wtree v ++ w) <> ind \/ hd EOF r <> DASH) ->
    sreads ind pre [(tt, ip, v)] w r
| S_cons ind pre ip v w' v' rest w r :
    vreads None (pre ++ [DASH]) v (w' ++ [DASH] ++ tpre v' ++ wtree v' ++ stext rest ++ w ++ r) ->
    cut w' [DASH] -> In NEWLINE w' -> lossy w' = w' ->
    col (pre ++ [DASH] ++ tpre v ++ wtree v ++ w') = ind ->
    (is_ws (hd EOF (tpre v' ++ wtree v' ++ stext rest ++ w ++ r)) = true \/ tpre v' ++ wtree v' ++ stext rest ++ w ++ r = []) ->
    sreads ind (pre ++ [DASH] ++ tpre v ++ wtree v ++ w') ((tt, w', v') :: rest) w r ->
    sreads ind pre ((tt, ip, v) :: (tt, w', v') :: rest) w r
(* flow collections; pre is everything before the items, post what follows the bracket *)
with fsreads : bytes -> list (sitem unit) -> bool -> bytes -> bytes -> Prop :=
| F_end pre suf post : cut suf ([RBRACK] ++ post) -> fsreads pre [] false suf post
| F_last pre ip v suf post : cut ip (wtree v ++ suf ++ [RBRACK] ++ post) -> lossy ip = ip -> tpre v = [] ->
    hd EOF (wtree v ++ suf ++ [RBRACK] ++ post) <> RBRACK -> hd EOF (wtree v ++ suf ++ [RBRACK] ++ post) <> EOF ->
    reads true None (pre ++ ip) v (suf ++ [RBRACK] ++ post) -> cut suf ([RBRACK] ++ post) ->
    fsreads pre [(tt, ip, v)] false suf post
| F_trail pre ip v suf post : cut ip (wtree v ++ [COMMA] ++ suf ++ [RBRACK] ++ post) -> lossy ip = ip -> tpre v = [] ->
    hd EOF (wtree v ++ [COMMA]) <> RBRACK -> hd EOF (wtree v ++ [COMMA]) <> EOF ->
    reads true None (pre ++ ip) v ([COMMA] ++ suf ++ [RBRACK] ++ post) -> cut suf ([RBRACK] ++ post) ->
    fsreads pre [(tt, ip, v)] true suf post
| F_cons pre ip v it rest tr suf post :
    let more := sep [COMMA] (map ftext1 (it :: rest)) ++ closing (fun x => x) RBRACK (CInline tr suf) ++ post in
    cut ip (wtree v ++ [COMMA] ++ more) -> lossy ip = ip -> tpre v = [] ->
    hd EOF (wtree v ++ [COMMA]) <> RBRACK -> hd EOF (wtree v ++ [COMMA]) <> EOF ->
    reads true None (pre ++ ip) v ([COMMA] ++ more) ->
    fsreads (pre ++ ip ++ wtree v ++ [COMMA]) (it :: rest) tr suf post ->
    fsreads pre ((tt, ip, v) :: it :: rest) tr suf post
with fmreads : bytes -> list (mitem unit) -> bool -> bytes -> bytes -> Prop :=
| G_end pre suf post : cut suf ([RBRACE] ++ post) -> fmreads pre [] false suf post
| G_last pre ip x v post : ~ In COLON x -> ~ In EOF x ->
    cut ip (x ++ [COLON]) -> hd EOF (x ++ [COLON]) <> RBRACE ->
    cut (tpre v) (wtree v ++ [RBRACE] ++ post) ->
    reads true None (pre ++ ip ++ x ++ [COLON] ++ tpre v) v ([RBRACE] ++ post) ->
    fmreads pre [(tt, ip, RS KBare x x, v)] false [] post
| G_trail pre ip x v suf post : ~ In COLON x -> ~ In EOF x ->
    cut ip (x ++ [COLON]) -> hd EOF (x ++ [COLON]) <> RBRACE ->
    cut (tpre v) (wtree v ++ [COMMA] ++ suf ++ [RBRACE] ++ post) ->
    reads true None (pre ++ ip ++ x ++ [COLON] ++ tpre v) v ([COMMA] ++ suf ++ [RBRACE] ++ post) ->
    cut suf ([RBRACE] ++ post) ->
    fmreads pre [(tt, ip, RS KBare x x, v)] true suf post
| G_cons pre ip x v it rest tr suf post :
    let more := sep [COMMA] (map mtext1 (it :: rest)) ++ closing (fun x => x) RBRACE (CInline tr suf) ++ post in
    ~ In COLON x -> ~ In EOF x ->
    cut ip (x ++ [COLON]) -> hd EOF (x ++ [COLON]) <> RBRACE ->
    cut (tpre v) (wtree v ++ [COMMA] ++ more) ->
    reads true None (pre ++ ip ++ x ++ [COLON] ++ tpre v) v ([COMMA] ++ more) ->
    fmreads (pre ++ ip ++ x ++ [COLON] ++ tpre v ++ wtree v ++ [COMMA]) (it :: rest) tr suf post ->
    fmreads pre ((tt, ip, RS KBare x x, v) :: it :: rest) tr suf post.
(* A document: header-free text. *)
Definition headless (r : bytes) : Prop :=
  hd EOF r <> PERCENT /\ ~ (hd EOF r = DASH /\ nth 1 r EOF = DASH /\ nth 2 r EOF = DASH).
Definition dreads (t : tree unit) (suf : bytes) : Prop :=
  cut (tpre t) (wtree t ++ suf) /\ headless (wtree t ++ suf) /\ reads false None (tpre t) t suf /\ cut suf [].

Scheme reads_mut := Induction for reads Sort Prop
  with vreads_mut := Induction for vreads Sort Prop
  with mreads_mut := Induction for mreads Sort Prop
  with sreads_mut := Induction for sreads Sort Prop
  with fsreads_mut := Induction for fsreads Sort Prop
  with fmreads_mut := Induction for fmreads Sort Prop.
Combined Scheme reads_all from reads_mut, vreads_mut, mreads_mut, sreads_mut, fsreads_mut, fmreads_mut.
