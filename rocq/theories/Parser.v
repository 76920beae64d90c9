(* Model of src/yaml/parsing.rs, function by function.
   The cursor self.n is an index into the input. Loops that only move the cursor are
   structural recursions over the rest of the input (the *_scan functions), which return the
   number of bytes consumed. Loops over items carry fuel. *)
From Coq Require Import List NArith Bool Arith.
From Verif Require Import Bytes Utf8 Data.
Import ListNotations.
Local Open Scope N_scope.

(* parsing.rs 35-86: State and its builder methods. *)
Record state := State {
  st_prefix : sid;
  st_parent : option nat;
  st_inline : bool;
  st_tabular : bool;
  st_parent_indent : option nat }.

(* parsing.rs 90-95: Parser, without the constant field input. *)
Record pst := Pst { p_n : nat; p_scratch : bytes; p_data : data }.

(* ---- scanning loops ---- *)

(* parsing.rs 215-233, the loop of ws_nl: consumed bytes and newlines. [comment] is true
   between a hash sign and the end of its line, which self.find skips. *)
Fixpoint ws_scan (comment : bool) (r : bytes) : nat * nat :=
  match r with
  | [] => (O, O)
  | c :: r =>
    if comment then
      if c =? NEWLINE then let '(k, nl) := ws_scan false r in (S k, S nl)
      else let '(k, nl) := ws_scan true r in (S k, nl)
    else if c =? HASH then let '(k, nl) := ws_scan true r in (S k, nl)
    else if is_ws c then
      let '(k, nl) := ws_scan false r in (S k, if c =? NEWLINE then S nl else nl)
    else (O, O)
  end.

(* parsing.rs 241-259: is_eol *)
Fixpoint eol_scan (r : bytes) : bool :=
  match r with
  | [] => true
  | c :: r => if c =? NEWLINE then true else if is_other_ws c then eol_scan r else false
  end.

(* parsing.rs 275-296, the loop of number: consumed bytes, whether the hint became F64. *)
Fixpoint num_scan (wants_dot wants_e has_number : bool) (r : bytes) : nat * bool :=
  match r with
  | [] => (O, false)
  | c :: r =>
    if (c =? DOT) && wants_dot then
      let '(k, _) := num_scan false wants_e has_number r in (S k, true)
    else if ((c =? 101) || (c =? 69)) && has_number && wants_e then
      let '(k, _) := num_scan false false has_number r in (S k, true)
    else if is_digit c then
      let '(k, fl) := num_scan wants_dot wants_e true r in (S k, fl)
    else (O, false)
  end.

(* parsing.rs 322-334, the loop of single_quoted. At the end of the input peek returns
   [EOF, EOF] and bump(1) leaves the cursor where it is, so the loop never ends: SqHang. *)
Inductive sq_result := SqHang | SqEnd (k : nat) | SqEscape (k : nat).
Fixpoint sq_scan (r : bytes) : sq_result :=
  match r with
  | [] => SqHang
  | c :: r' =>
    if c =? SQUOTE then
      match r' with
      | c' :: _ => if c' =? SQUOTE then SqEscape O else SqEnd O
      | [] => SqEnd O
      end
    else match sq_scan r' with
         | SqHang => SqHang
         | SqEnd k => SqEnd (S k)
         | SqEscape k => SqEscape (S k)
         end
  end.

(* parsing.rs 347-361, the loop of single_quoted_escaped: consumed bytes and what is pushed
   on the scratch buffer. None: the loop never ends (and pushes EOF bytes forever). *)
Fixpoint sqe_scan (r : bytes) : option (nat * bytes) :=
  match r with
  | [] => None
  | c :: r' =>
    if c =? SQUOTE then
      match r' with
      | c' :: r'' =>
        if c' =? SQUOTE then
          match sqe_scan r'' with Some (k, o) => Some (S (S k), SQUOTE :: o) | None => None end
        else Some (O, [])
      | [] => Some (O, [])
      end
    else match sqe_scan r' with Some (k, o) => Some (S k, c :: o) | None => None end
  end.

(* parsing.rs 378-388, the loop of double_quoted: consumed bytes, and whether it stopped at
   a backslash. *)
Fixpoint dq_scan (r : bytes) : nat * bool :=
  match r with
  | [] => (O, false)
  | c :: r =>
    if (c =? DQUOTE) || (c =? EOF) then (O, false)
    else if c =? BACKSLASH then (O, true)
    else let '(k, e) := dq_scan r in (S k, e)
  end.

(* parsing.rs 748-765, the loop of key_or_eol: consumed bytes, and whether it stopped at a
   key's colon. *)
Fixpoint key_scan (r : bytes) : nat * bool :=
  match r with
  | [] => (O, false)
  | c :: r =>
    if c =? NEWLINE then (O, false)
    else if (c =? COLON) && (is_ws (hd EOF r) || (hd EOF r =? EOF)) then (O, true)
    else let '(k, e) := key_scan r in (S k, e)
  end.

(* parsing.rs 770-772 (until_colon) and 936-951 (next_mapping_key): bytes before a colon or
   an EOF byte. *)
Fixpoint colon_scan (r : bytes) : nat :=
  match r with
  | [] => O
  | c :: r => if (c =? COLON) || (c =? EOF) then O else S (colon_scan r)
  end.

(* parsing.rs 898-900: bytes before a control character. *)
Fixpoint ctl_scan (r : bytes) : nat :=
  match r with
  | [] => O
  | c :: r => if is_ctl c then O else S (ctl_scan r)
  end.

(* parsing.rs 472-480: one hexadecimal digit. *)
Definition hex_value (c : byte) : option N :=
  if is_digit c then Some (c - 48)
  else if (97 <=? c) && (c <=? 102) then Some (c - 97 + 10)
  else if (65 <=? c) && (c <=? 70) then Some (c - 65 + 10)
  else None.

Section Parser.
Variable hash : bytes -> sid.
Variable input : bytes.

Definition M A := ST pst A.
Definition len : nat := length input.

(* Lift an operation on self.data. *)
Definition lift {A} (m : D A) : M A := fun s =>
  match m (p_data s) with
  | Ok (a, d) => Ok (a, Pst (p_n s) (p_scratch s) d)
  | Err x y k => Err x y k
  | Hang => Hang
  | Panic => Panic
  | OutOfFuel => OutOfFuel
  end.

Definition get_n : M nat := fun s => Ok (p_n s, s).
Definition set_n (n : nat) : M unit := fun s => Ok (tt, Pst n (p_scratch s) (p_data s)).
Definition rest : M bytes := fun s => Ok (skipn (p_n s) input, s).
Definition error {A} (start stop : nat) (k : ekind) : M A := fun _ => Err start stop k.
(* self.scratch.push / extend, and insert_str(&self.scratch) followed by clear *)
Definition push_scratch (x : bytes) : M unit := fun s =>
  Ok (tt, Pst (p_n s) (p_scratch s ++ x) (p_data s)).
Definition get_scratch : M bytes := fun s => Ok (p_scratch s, s).
Definition clear_scratch : M unit := fun s => Ok (tt, Pst (p_n s) [] (p_data s)).

(* parsing.rs 155-157 *)
Definition is_eof : M bool := fun s => Ok (Nat.eqb (p_n s) len, s).
(* parsing.rs 160-173: peek1, peek; [peek_at i] is component i of peek *)
Definition peek_at (i : nat) : M byte := fun s => Ok (nth (p_n s + i) input EOF, s).
Definition peek1 : M byte := peek_at 0.
(* parsing.rs 176-178 *)
Definition bump (k : nat) : M unit := fun s =>
  Ok (tt, Pst (Nat.min (p_n s + k) len) (p_scratch s) (p_data s)).
(* parsing.rs 181-184 *)
Definition span_back (id : sid) : M nat := fun s =>
  match str (p_data s) id with
  | Ok x => Ok ((p_n s - length x)%nat, s)
  | _ => Panic
  end.
(* parsing.rs 188-190 *)
Definition string (start : nat) : M bytes := fun s => Ok (slice input start (p_n s), s).
(* parsing.rs 193-201 *)
Definition find (a : byte) : M unit :=
  r <- rest ;;
  match memchr a r with Some k => bump k | None => set_n len end.

Definition intern (s : bytes) : M sid := lift (insert_str hash s).

(* parsing.rs 215-233 *)
Definition ws_nl : M (sid * nat) :=
  start <- get_n ;;
  r <- rest ;;
  let '(k, nl) := ws_scan false r in
  bump k ;;;
  s <- string start ;;
  id <- intern s ;;
  ret (id, nl).
(* parsing.rs 236-238 *)
Definition ws : M sid := '(id, _) <- ws_nl ;; ret id.

(* next_prefix.unwrap_or_else(|| self.ws()) *)
Definition or_ws (o : option sid) : M sid :=
  match o with Some x => ret x | None => ws end.

(* parsing.rs 241-259 *)
Definition is_eol : M bool := r <- rest ;; ret (eol_scan r).

(* parsing.rs 262-308 *)
Definition number (s : state) (start : nat) : M (option (scalar sid)) :=
  c <- peek1 ;;
  (if c =? DASH then bump 1 else ret tt) ;;;
  r <- rest ;;
  let '(k, fl) := num_scan true true false r in
  bump k ;;;
  if Nat.eqb k 0 then ret None else
  eol <- is_eol ;;
  if st_tabular s && negb eol then ret None else
  x <- string start ;;
  id <- intern x ;;
  ret (Some (ScNum id (if fl then Float64 else if c =? DASH then Signed64 else Unsigned64))).

(* parsing.rs 311-314 *)
Definition placeholder (prefix : sid) (parent : option nat) : M nat :=
  lift (insert (RScalar (ScNull NEmpty)) prefix parent).

(* parsing.rs 344-370 *)
Definition single_quoted_escaped (start original : nat) : M (rstr sid) :=
  x <- string start ;;
  push_scratch x ;;;
  r <- rest ;;
  match sqe_scan r with
  | None => fail Hang
  | Some (k, o) =>
    bump k ;;; push_scratch o ;;;
    x <- get_scratch ;;
    id <- intern x ;;
    clear_scratch ;;;
    bump 1 ;;;
    x <- string original ;;
    orig <- intern x ;;
    ret (RS KOriginal id orig)
  end.

(* parsing.rs 317-341 *)
Definition single_quoted : M (rstr sid) :=
  original <- get_n ;;
  bump 1 ;;;
  start <- get_n ;;
  r <- rest ;;
  match sq_scan r with
  | SqHang => fail Hang
  | SqEscape k => bump k ;;; single_quoted_escaped start original
  | SqEnd k =>
    bump k ;;;
    x <- string start ;;
    id <- intern x ;;
    eof <- is_eof ;;
    bump (if eof then 0 else 1) ;;;
    x <- string original ;;
    orig <- intern x ;;
    ret (RS KOriginal id orig)
  end.

(* parsing.rs 466-491; the loop over count digits *)
Fixpoint unescape_digits (start count : nat) (err : ekind) (c : N) : M N :=
  match count with
  | O => ret c
  | S count =>
    d <- peek1 ;;
    match hex_value d with
    | None => bump 1 ;;; n <- get_n ;; error start n err
    | Some v => bump 1 ;;; unescape_digits start count err (N.lor (N.shiftl c 4) v)
    end
  end.
Definition unescape_unicode (start count : nat) (err : ekind) : M unit :=
  c <- unescape_digits start count err 0 ;;
  if is_scalar_value c then push_scratch (encode_utf8 c)
  else n <- get_n ;; error start n err.

(* parsing.rs 435-458: the single-character escapes *)
Definition escape_char (c : byte) : option byte :=
  if c =? 110 then Some NEWLINE          (* n *)
  else if c =? 48 then Some 0            (* 0 *)
  else if c =? 97 then Some 7            (* a *)
  else if c =? 98 then Some 8            (* b *)
  else if c =? 116 then Some 9           (* t *)
  else if c =? 118 then Some 11          (* v *)
  else if c =? 102 then Some 12          (* f *)
  else if c =? 114 then Some CR          (* r *)
  else if c =? 101 then Some 27          (* e *)
  else if c =? BACKSLASH then Some DQUOTE
  else None.
(* parsing.rs 434-463 *)
Definition unescape (start : nat) : M unit :=
  c <- peek1 ;;
  match escape_char c with
  | Some o => push_scratch [o] ;;; bump 1
  | None =>
    if c =? 120 then bump 1 ;;; unescape_unicode start 2 BadHexEscape
    else if c =? 117 then bump 1 ;;; unescape_unicode start 4 BadUnicodeEscape
    else bump 1 ;;; n <- get_n ;; error start n BadEscape
  end.

(* parsing.rs 405-418, the loop of double_quoted_escaped. Each round consumes a byte, so the
   length of the input is enough fuel. *)
Fixpoint dqe_loop (f : nat) : M unit :=
  match f with
  | O => fail OutOfFuel
  | S f =>
    c <- peek1 ;;
    if (c =? DQUOTE) || (c =? EOF) then ret tt
    else if c =? BACKSLASH then
      start <- get_n ;; bump 1 ;;; unescape start ;;; dqe_loop f
    else push_scratch [c] ;;; bump 1 ;;; dqe_loop f
  end.

(* parsing.rs 402-431 *)
Definition double_quoted_escaped (start original : nat) : M (rstr sid) :=
  x <- string start ;;
  push_scratch x ;;;
  dqe_loop (S len) ;;;
  x <- get_scratch ;;
  id <- intern x ;;
  clear_scratch ;;;
  bump 1 ;;;
  x <- string original ;;
  orig <- intern x ;;
  ret (RS KOriginal id orig).

(* parsing.rs 373-399 *)
Definition double_quoted : M (rstr sid) :=
  original <- get_n ;;
  bump 1 ;;;
  start <- get_n ;;
  r <- rest ;;
  let '(k, esc) := dq_scan r in
  bump k ;;;
  if esc : bool then double_quoted_escaped start original else
  x <- string start ;;
  id <- intern x ;;
  eof <- is_eof ;;
  bump (if eof then 0 else 1) ;;;
  x <- string original ;;
  orig <- intern x ;;
  ret (RS KOriginal id orig).

(* parsing.rs 741-744 and 736-738 *)
Definition indent_from (to : nat) : nat := count_indent (slice input 0 to).
Definition indent : M nat := n <- get_n ;; ret (indent_from n).

(* parsing.rs 747-766 *)
Definition key_or_eol (start : nat) : M (option (rstr sid)) :=
  r <- rest ;;
  let '(k, key) := key_scan r in
  bump k ;;;
  if key : bool then
    x <- string start ;; id <- intern x ;; ret (Some (RS KBare id id))
  else ret None.

(* parsing.rs 769-780 *)
Definition until_colon (start : nat) : M (option (rstr sid)) :=
  r <- rest ;;
  bump (colon_scan r) ;;;
  eof <- is_eof ;;
  if eof : bool then ret None else
  x <- string start ;; id <- intern x ;; ret (Some (RS KBare id id)).

(* parsing.rs 933-955 *)
Definition next_mapping_key : M (option (rstr sid)) :=
  start <- get_n ;;
  r <- rest ;;
  bump (colon_scan r) ;;;
  x <- string start ;;
  match x with
  | [] => ret None
  | _ => id <- intern x ;; ret (Some (RS KBare id id))
  end.

(* parsing.rs 813-829, the loop of block; carries ws, nl and end *)
Fixpoint block_loop (f : nat) (join : byte) (folded : bool) (ind : nat)
    (w : sid) (nl stop : nat) : M (sid * nat * nat) :=
  match f with
  | O => fail OutOfFuel
  | S f =>
    eof <- is_eof ;;
    if eof : bool then ret (w, nl, stop) else
    s <- get_n ;;
    find NEWLINE ;;;
    x <- string s ;;
    push_scratch (trim x) ;;;
    stop <- get_n ;;
    '(w, nl) <- ws_nl ;;
    i <- indent ;;
    if (i <? ind)%nat then ret (w, nl, stop) else
    push_scratch (repeat join (if folded then 1%nat else nl)) ;;;
    block_loop f join folded ind w nl stop
  end.

(* parsing.rs 783-850; block_loop consumes at least a byte per round *)
Definition block (n : nat) (join : byte) (folded chomp clip : bool)
  : M (scalar sid * option sid) :=
  start <- get_n ;;
  bump n ;;;
  x <- string start ;;
  prefix <- intern x ;;
  start <- get_n ;;
  '(w, nl) <- ws_nl ;;
  '(w, nl) <-
    (if Nat.eqb nl 0 then
       find NEWLINE ;;;
       x <- string start ;;
       push_scratch (trim x) ;;;
       p <- ws_nl ;;
       eof <- is_eof ;;
       (if eof : bool then ret tt else push_scratch [join]) ;;;
       ret p
     else ret (w, nl)) ;;
  stop <- get_n ;;
  ind <- indent ;;
  '(w, nl, stop) <- block_loop (S len) join folded ind w nl stop ;;
  push_scratch (repeat NEWLINE (if chomp then (if clip then Nat.min nl 1 else nl) else 0%nat)) ;;;
  x <- get_scratch ;;
  id <- intern x ;;
  clear_scratch ;;;
  orig <- intern (slice input start stop) ;;
  ret (ScStr (RS (KMultiline prefix) id orig), Some w).

Section Value.
(* The recursive call self.value(..). *)
Variable value : state -> M (nat * option sid).

(* parsing.rs 504-529 *)
Fixpoint iseq_loop (f : nat) (id : nat) (items : list nat) (last trailing : bool)
    (item_prefix : sid) : M (list nat * bool * sid) :=
  match f with
  | O => fail OutOfFuel
  | S f =>
    c <- peek1 ;;
    if (c =? RBRACK) || (c =? EOF) then ret (items, trailing, item_prefix) else
    item_id <- placeholder item_prefix (Some id) ;;
    value_prefix <- ws ;;
    '(v, next_prefix) <- value (State value_prefix (Some item_id) true false None) ;;
    lift (replace item_id (RSeqItem v)) ;;;
    let items := items ++ [item_id] in
    if last then
      p <- or_ws next_prefix ;; ret (items, false, p)
    else
      c <- peek1 ;;
      if c =? COMMA then
        bump 1 ;;; p <- or_ws next_prefix ;; iseq_loop f id items false true p
      else
        p <- or_ws next_prefix ;; iseq_loop f id items true false p
  end.

(* parsing.rs 494-553 *)
Definition inline_sequence (s : state) : M nat :=
  id <- placeholder (st_prefix s) (st_parent s) ;;
  bump 1 ;;;
  p <- ws ;;
  '(items, trailing, p) <- iseq_loop (S (S len)) id [] false false p ;;
  c <- peek1 ;;
  if negb (c =? RBRACK) then
    x <- span_back p ;; n <- get_n ;; error x n BadSequenceTerminator
  else
    bump 1 ;;;
    lift (replace id (RSeq 0 (CInline trailing p) items)) ;;;
    ret id.

(* parsing.rs 566-597; also returns the variable start *)
Fixpoint imap_loop (f : nat) (id : nat) (items : list nat) (last trailing : bool)
    (start : nat) (item_prefix : sid) : M (list nat * bool * sid * nat) :=
  match f with
  | O => fail OutOfFuel
  | S f =>
    c <- peek1 ;;
    if (c =? RBRACE) || (c =? EOF) then ret (items, trailing, item_prefix, start) else
    n <- get_n ;;
    key <- until_colon n ;;
    match key with
    | None => n <- get_n ;; error start n BadMappingSeparator
    | Some key =>
      item_id <- placeholder item_prefix (Some id) ;;
      bump 1 ;;;
      value_prefix <- ws ;;
      '(v, next_prefix) <- value (State value_prefix (Some item_id) true false None) ;;
      lift (replace item_id (RMapItem key v)) ;;;
      let items := items ++ [item_id] in
      p <- or_ws next_prefix ;;
      if last then ret (items, false, p, start) else
      c <- peek1 ;;
      if c =? COMMA then
        bump 1 ;;; start <- get_n ;; p <- ws ;; imap_loop f id items false true start p
      else
        start <- get_n ;; p <- ws ;; imap_loop f id items true false start p
    end
  end.

(* parsing.rs 556-618 *)
Definition inline_mapping (s : state) : M nat :=
  id <- placeholder (st_prefix s) (st_parent s) ;;
  bump 1 ;;;
  start <- get_n ;;
  p <- ws ;;
  '(items, trailing, p, start) <- imap_loop (S (S len)) id [] false false start p ;;
  c <- peek1 ;;
  if negb (c =? RBRACE) then
    n <- get_n ;; error start n BadMappingTerminator
  else
    bump 1 ;;;
    lift (replace id (RMap 0 (CInline trailing p) items)) ;;;
    ret id.

(* parsing.rs 629-648; item_prefix is previous_ws.take().unwrap_or(empty) *)
Fixpoint seq_loop (f : nat) (id ind : nat) (items : list nat) (item_prefix : sid)
  : M (list nat * sid) :=
  match f with
  | O => fail OutOfFuel
  | S f =>
    item_id <- placeholder item_prefix (Some id) ;;
    bump 1 ;;;
    value_prefix <- ws ;;
    '(v, w) <- value (State value_prefix (Some item_id) false true None) ;;
    lift (replace item_id (RSeqItem v)) ;;;
    let items := items ++ [item_id] in
    w <- or_ws w ;;
    i <- indent ;;
    c <- peek1 ;;
    if negb (Nat.eqb i ind) || negb (c =? DASH) then ret (items, w)
    else seq_loop f id ind items w
  end.

(* parsing.rs 621-660 *)
Definition sequence (s : state) : M (nat * option sid) :=
  empty <- intern [] ;;
  id <- placeholder (st_prefix s) (st_parent s) ;;
  ind <- indent ;;
  '(items, w) <- seq_loop (S len) id ind [] empty ;;
  lift (replace id (RSeq ind CBlock items)) ;;;
  ret (id, Some w).

(* parsing.rs 689-720; the loop is entered with a key *)
Fixpoint map_loop (f : nat) (id ind : nat) (items : list nat) (start : nat) (key : rstr sid)
    (item_prefix : sid) : M (list nat * sid) :=
  match f with
  | O => fail OutOfFuel
  | S f =>
    c <- peek1 ;;
    if negb (c =? COLON) then
      bump 1 ;;; n <- get_n ;; error start n BadMappingSeparator
    else
      item_id <- placeholder item_prefix (Some id) ;;
      bump 1 ;;;
      value_prefix <- ws ;;
      '(v, w) <- value (State value_prefix (Some item_id) false true (Some ind)) ;;
      lift (replace item_id (RMapItem key v)) ;;;
      let items := items ++ [item_id] in
      w <- or_ws w ;;
      i <- indent ;;
      if negb (Nat.eqb i ind) then ret (items, w) else
      start <- get_n ;;
      key <- next_mapping_key ;;
      match key with
      | None => ret (items, w)
      | Some key => map_loop f id ind items start key w
      end
  end.

(* parsing.rs 665-732 *)
Definition mapping_or_nul (s : state) (start : nat) (key : rstr sid) : M (nat * option sid) :=
  empty <- intern [] ;;
  id <- placeholder (st_prefix s) (st_parent s) ;;
  let ind := indent_from start in
  if match st_parent_indent s with Some i => (ind <=? i)%nat | None => false end then
    set_n start ;;;
    lift (replace_with id empty (RScalar (ScNull NEmpty))) ;;;
    ret (id, Some (st_prefix s))
  else
    '(items, w) <- map_loop (S len) id ind [] start key empty ;;
    lift (replace id (RMap ind CBlock items)) ;;;
    ret (id, Some w).

(* parsing.rs 908-923: classification of a plain scalar. *)
Definition plain (x : bytes) : M (scalar sid) :=
  if beq x [TILDE] then ret (ScNull NTilde)
  else if eq_ignore_case x kw_null then id <- intern x ;; ret (ScNull (NKeyword id))
  else if eq_ignore_case x kw_true then id <- intern x ;; ret (ScBool true id)
  else if eq_ignore_case x kw_false then id <- intern x ;; ret (ScBool false id)
  else id <- intern x ;; ret (ScStr (RS KBare id id)).

(* parsing.rs 928-929 *)
Definition finish (s : state) (r : scalar sid) (w : option sid) : M (nat * option sid) :=
  v <- lift (insert (RScalar r) (st_prefix s) (st_parent s)) ;; ret (v, w).

(* parsing.rs 853-930 *)
Definition value_body (s : state) : M (nat * option sid) :=
  a <- peek_at 0 ;;
  c <- peek_at 1 ;;
  if (a =? DASH) && is_ws c && negb (st_inline s) then sequence s
  else if a =? DQUOTE then
    start <- get_n ;;
    x <- double_quoted ;;
    p <- peek1 ;;
    if negb (st_inline s) && (p =? COLON) then mapping_or_nul s start x
    else finish s (ScStr x) None
  else if a =? SQUOTE then
    start <- get_n ;;
    x <- single_quoted ;;
    p <- peek1 ;;
    if negb (st_inline s) && (p =? COLON) then mapping_or_nul s start x
    else finish s (ScStr x) None
  else if a =? LBRACK then id <- inline_sequence s ;; ret (id, None)
  else if a =? LBRACE then id <- inline_mapping s ;; ret (id, None)
  else if (a =? GT) || (a =? PIPE) then
    '(r, w) <- block (if (c =? DASH) || (c =? PLUS) then 2%nat else 1%nat)
                     (if a =? GT then SPACE else NEWLINE)
                     (a =? GT) (negb (c =? DASH)) (c =? DASH) ;;
    finish s r w
  else
    start <- get_n ;;
    num <- number s start ;;
    match num with
    | Some r => finish s r None
    | None =>
      if st_inline s then
        r <- rest ;;
        bump (ctl_scan r) ;;;
        x <- string start ;; r <- plain x ;; finish s r None
      else
        key <- key_or_eol start ;;
        match key with
        | Some key => mapping_or_nul s start key
        | None => x <- string start ;; r <- plain x ;; finish s r None
        end
    end.
End Value.

(* value; nested values start at a later byte, so the length of the input bounds the depth. *)
Fixpoint value (f : nat) (s : state) : M (nat * option sid) :=
  match f with
  | O => fail OutOfFuel
  | S f => value_body (value f) s
  end.

(* parsing.rs 129-152; the loop *)
Fixpoint sod_loop (f : nat) (prefix : sid) : M sid :=
  match f with
  | O => fail OutOfFuel
  | S f =>
    a <- peek_at 0 ;; c <- peek_at 1 ;; d <- peek_at 2 ;;
    if a =? PERCENT then find NEWLINE ;;; p <- ws ;; sod_loop f p
    else if (a =? DASH) && (c =? DASH) && (d =? DASH) then bump 3 ;;; ws
    else ret prefix
  end.
Definition start_of_document : M sid := p <- ws ;; sod_loop (S len) p.

(* parsing.rs 109-124 *)
Definition parse : M document :=
  prefix <- start_of_document ;;
  '(root, suffix) <- value (S len) (State prefix None false true None) ;;
  suffix <- or_ws suffix ;;
  eof <- is_eof ;;
  if negb eof then n <- get_n ;; error n len ExpectedEof else
  fun s => Ok (Doc suffix root (p_data s), s).
End Parser.

(* mod.rs 179-185: from_slice *)
Definition from_slice (hash : bytes -> sid) (input : bytes) : outcome document :=
  match parse hash input (Pst 0 [] data_empty) with
  | Ok (d, _) => Ok d
  | Err x y k => Err x y k
  | Hang => Hang
  | Panic => Panic
  | OutOfFuel => OutOfFuel
  end.
