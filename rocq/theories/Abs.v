(* The parser without the store: the same control flow as Parser.v, but the state is only the
   cursor, strings are kept as bytes and values as trees. A proof device; Refine.v proves that
   the model of the crate's parser computes exactly this. *)
From Coq Require Import List NArith Bool Arith.
From Verif Require Import Bytes Utf8 Data Parser Tree.
Import ListNotations.
Local Open Scope N_scope.

Record astate := AState {
  as_prefix : bytes; as_inline : bool; as_tabular : bool; as_parent_indent : option nat }.

Section Abs.
Variable input : bytes.
Definition AM A := ST nat A.
Local Notation len := (length input).

Definition a_get : AM nat := fun n => Ok (n, n).
Definition a_set (m : nat) : AM unit := fun _ => Ok (tt, m).
Definition a_rest : AM bytes := fun n => Ok (skipn n input, n).
Definition a_err {A} (x y : nat) (k : ekind) : AM A := fun _ => Err x y k.
Definition a_eof : AM bool := fun n => Ok (Nat.eqb n len, n).
Definition a_peek (i : nat) : AM byte := fun n => Ok (nth (n + i) input EOF, n).
Definition a_bump (k : nat) : AM unit := fun n => Ok (tt, Nat.min (n + k) len).
Definition a_string (start : nat) : AM bytes := fun n => Ok (slice input start n, n).
Definition a_find (c : byte) : AM unit :=
  r <- a_rest ;; match memchr c r with Some k => a_bump k | None => a_set len end.

Definition a_ws_nl : AM (bytes * nat) :=
  start <- a_get ;;
  r <- a_rest ;;
  let '(k, nl) := ws_scan false r in
  a_bump k ;;;
  s <- a_string start ;;
  ret (s, nl).
Definition a_ws : AM bytes := '(s, _) <- a_ws_nl ;; ret s.
Definition a_or_ws (o : option bytes) : AM bytes :=
  match o with Some x => ret x | None => a_ws end.
Definition a_is_eol : AM bool := r <- a_rest ;; ret (eol_scan r).

Definition a_number (tab : bool) (start : nat) : AM (option (scalar bytes)) :=
  c <- a_peek 0 ;;
  (if c =? DASH then a_bump 1 else ret tt) ;;;
  r <- a_rest ;;
  let '(k, fl) := num_scan true true false r in
  a_bump k ;;;
  if Nat.eqb k 0 then ret None else
  eol <- a_is_eol ;;
  if tab && negb eol then ret None else
  x <- a_string start ;;
  ret (Some (ScNum x (if fl then Float64 else if c =? DASH then Signed64 else Unsigned64))).

Definition a_single_quoted_escaped (start original : nat) : AM (rstr bytes) :=
  x <- a_string start ;;
  r <- a_rest ;;
  match sqe_scan r with
  | None => fail Hang
  | Some (k, o) =>
    a_bump k ;;;
    a_bump 1 ;;;
    y <- a_string original ;;
    ret (RS KOriginal (x ++ o) y)
  end.
Definition a_single_quoted : AM (rstr bytes) :=
  original <- a_get ;;
  a_bump 1 ;;;
  start <- a_get ;;
  r <- a_rest ;;
  match sq_scan r with
  | SqHang => fail Hang
  | SqEscape k => a_bump k ;;; a_single_quoted_escaped start original
  | SqEnd k =>
    a_bump k ;;;
    x <- a_string start ;;
    eof <- a_eof ;;
    a_bump (if eof then 0 else 1) ;;;
    y <- a_string original ;;
    ret (RS KOriginal x y)
  end.

Fixpoint a_unescape_digits (start count : nat) (err : ekind) (c : N) : AM N :=
  match count with
  | O => ret c
  | S count =>
    d <- a_peek 0 ;;
    match hex_value d with
    | None => a_bump 1 ;;; n <- a_get ;; a_err start n err
    | Some v => a_bump 1 ;;; a_unescape_digits start count err (N.lor (N.shiftl c 4) v)
    end
  end.
Definition a_unescape_unicode (start count : nat) (err : ekind) : AM bytes :=
  c <- a_unescape_digits start count err 0 ;;
  if is_scalar_value c then ret (encode_utf8 c)
  else n <- a_get ;; a_err start n err.
Definition a_unescape (start : nat) : AM bytes :=
  c <- a_peek 0 ;;
  match escape_char c with
  | Some o => a_bump 1 ;;; ret [o]
  | None =>
    if c =? 120 then a_bump 1 ;;; a_unescape_unicode start 2 BadHexEscape
    else if c =? 117 then a_bump 1 ;;; a_unescape_unicode start 4 BadUnicodeEscape
    else a_bump 1 ;;; n <- a_get ;; a_err start n BadEscape
  end.
Fixpoint a_dqe_loop (f : nat) (acc : bytes) : AM bytes :=
  match f with
  | O => fail OutOfFuel
  | S f =>
    c <- a_peek 0 ;;
    if (c =? DQUOTE) || (c =? EOF) then ret acc
    else if c =? BACKSLASH then
      start <- a_get ;; a_bump 1 ;;; x <- a_unescape start ;; a_dqe_loop f (acc ++ x)
    else a_bump 1 ;;; a_dqe_loop f (acc ++ [c])
  end.
Definition a_double_quoted_escaped (start original : nat) : AM (rstr bytes) :=
  x <- a_string start ;;
  x <- a_dqe_loop (S len) x ;;
  a_bump 1 ;;;
  y <- a_string original ;;
  ret (RS KOriginal x y).
Definition a_double_quoted : AM (rstr bytes) :=
  original <- a_get ;;
  a_bump 1 ;;;
  start <- a_get ;;
  r <- a_rest ;;
  let '(k, esc) := dq_scan r in
  a_bump k ;;;
  if esc : bool then a_double_quoted_escaped start original else
  x <- a_string start ;;
  eof <- a_eof ;;
  a_bump (if eof then 0 else 1) ;;;
  y <- a_string original ;;
  ret (RS KOriginal x y).

Definition a_indent : AM nat := n <- a_get ;; ret (indent_from input n).

Definition a_key_or_eol (start : nat) : AM (option (rstr bytes)) :=
  r <- a_rest ;;
  let '(k, key) := key_scan r in
  a_bump k ;;;
  if key : bool then x <- a_string start ;; ret (Some (RS KBare x x)) else ret None.
Definition a_until_colon (start : nat) : AM (option (rstr bytes)) :=
  r <- a_rest ;;
  a_bump (colon_scan r) ;;;
  eof <- a_eof ;;
  if eof : bool then ret None else
  x <- a_string start ;; ret (Some (RS KBare x x)).
Definition a_next_mapping_key : AM (option (rstr bytes)) :=
  start <- a_get ;;
  r <- a_rest ;;
  a_bump (colon_scan r) ;;;
  x <- a_string start ;;
  match x with [] => ret None | _ => ret (Some (RS KBare x x)) end.

Fixpoint a_block_loop (f : nat) (join : byte) (folded : bool) (ind : nat)
    (w : bytes) (nl stop : nat) (acc : bytes) : AM (bytes * nat * nat * bytes) :=
  match f with
  | O => fail OutOfFuel
  | S f =>
    eof <- a_eof ;;
    if eof : bool then ret (w, nl, stop, acc) else
    s <- a_get ;;
    a_find NEWLINE ;;;
    x <- a_string s ;;
    stop <- a_get ;;
    '(w, nl) <- a_ws_nl ;;
    i <- a_indent ;;
    if (i <? ind)%nat then ret (w, nl, stop, acc ++ trim x) else
    a_block_loop f join folded ind w nl stop
      ((acc ++ trim x) ++ repeat join (if folded then 1%nat else nl))
  end.
Definition a_block (n : nat) (join : byte) (folded chomp clip : bool)
  : AM (scalar bytes * option bytes) :=
  start <- a_get ;;
  a_bump n ;;;
  prefix <- a_string start ;;
  start <- a_get ;;
  '(w, nl) <- a_ws_nl ;;
  '(w, nl, acc) <-
    (if Nat.eqb nl 0 then
       a_find NEWLINE ;;;
       x <- a_string start ;;
       '(w, nl) <- a_ws_nl ;;
       eof <- a_eof ;;
       ret (w, nl, trim x ++ (if eof : bool then [] else [join]))
     else ret (w, nl, [])) ;;
  stop <- a_get ;;
  ind <- a_indent ;;
  '(w, nl, stop, acc) <- a_block_loop (S len) join folded ind w nl stop acc ;;
  ret (ScStr (RS (KMultiline prefix)
                 (acc ++ repeat NEWLINE (if chomp then (if clip then Nat.min nl 1 else nl) else 0%nat))
                 (slice input start stop)), Some w).

Section Value.
Variable value : astate -> AM (tree unit * option bytes).

Fixpoint a_iseq_loop (f : nat) (items : list (sitem unit)) (last trailing : bool)
    (item_prefix : bytes) : AM (list (sitem unit) * bool * bytes) :=
  match f with
  | O => fail OutOfFuel
  | S f =>
    c <- a_peek 0 ;;
    if (c =? RBRACK) || (c =? EOF) then ret (items, trailing, item_prefix) else
    value_prefix <- a_ws ;;
    '(v, next_prefix) <- value (AState value_prefix true false None) ;;
    let items := items ++ [(tt, item_prefix, v)] in
    if last then
      p <- a_or_ws next_prefix ;; ret (items, false, p)
    else
      c <- a_peek 0 ;;
      if c =? COMMA then
        a_bump 1 ;;; p <- a_or_ws next_prefix ;; a_iseq_loop f items false true p
      else
        p <- a_or_ws next_prefix ;; a_iseq_loop f items true false p
  end.
Definition a_inline_sequence (s : astate) : AM (tree unit) :=
  a_bump 1 ;;;
  p <- a_ws ;;
  '(items, trailing, p) <- a_iseq_loop (S (S len)) [] false false p ;;
  c <- a_peek 0 ;;
  if negb (c =? RBRACK) then
    n <- a_get ;; a_err (n - length p)%nat n BadSequenceTerminator
  else
    a_bump 1 ;;;
    ret (TSeq tt (as_prefix s) 0 (CInline trailing p) items).

Fixpoint a_imap_loop (f : nat) (items : list (mitem unit)) (last trailing : bool)
    (start : nat) (item_prefix : bytes) : AM (list (mitem unit) * bool * bytes * nat) :=
  match f with
  | O => fail OutOfFuel
  | S f =>
    c <- a_peek 0 ;;
    if (c =? RBRACE) || (c =? EOF) then ret (items, trailing, item_prefix, start) else
    n <- a_get ;;
    key <- a_until_colon n ;;
    match key with
    | None => n <- a_get ;; a_err start n BadMappingSeparator
    | Some key =>
      a_bump 1 ;;;
      value_prefix <- a_ws ;;
      '(v, next_prefix) <- value (AState value_prefix true false None) ;;
      let items := items ++ [(tt, item_prefix, key, v)] in
      p <- a_or_ws next_prefix ;;
      if last then ret (items, false, p, start) else
      c <- a_peek 0 ;;
      if c =? COMMA then
        a_bump 1 ;;; start <- a_get ;; p <- a_ws ;; a_imap_loop f items false true start p
      else
        start <- a_get ;; p <- a_ws ;; a_imap_loop f items true false start p
    end
  end.
Definition a_inline_mapping (s : astate) : AM (tree unit) :=
  a_bump 1 ;;;
  start <- a_get ;;
  p <- a_ws ;;
  '(items, trailing, p, start) <- a_imap_loop (S (S len)) [] false false start p ;;
  c <- a_peek 0 ;;
  if negb (c =? RBRACE) then
    n <- a_get ;; a_err start n BadMappingTerminator
  else
    a_bump 1 ;;;
    ret (TMap tt (as_prefix s) 0 (CInline trailing p) items).

Fixpoint a_seq_loop (f : nat) (ind : nat) (items : list (sitem unit)) (item_prefix : bytes)
  : AM (list (sitem unit) * bytes) :=
  match f with
  | O => fail OutOfFuel
  | S f =>
    a_bump 1 ;;;
    value_prefix <- a_ws ;;
    '(v, w) <- value (AState value_prefix false true None) ;;
    let items := items ++ [(tt, item_prefix, v)] in
    w <- a_or_ws w ;;
    i <- a_indent ;;
    c <- a_peek 0 ;;
    if negb (Nat.eqb i ind) || negb (c =? DASH) then ret (items, w)
    else a_seq_loop f ind items w
  end.
Definition a_sequence (s : astate) : AM (tree unit * option bytes) :=
  ind <- a_indent ;;
  '(items, w) <- a_seq_loop (S len) ind [] [] ;;
  ret (TSeq tt (as_prefix s) ind CBlock items, Some w).

Fixpoint a_map_loop (f : nat) (ind : nat) (items : list (mitem unit)) (start : nat)
    (key : rstr bytes) (item_prefix : bytes) : AM (list (mitem unit) * bytes) :=
  match f with
  | O => fail OutOfFuel
  | S f =>
    c <- a_peek 0 ;;
    if negb (c =? COLON) then
      a_bump 1 ;;; n <- a_get ;; a_err start n BadMappingSeparator
    else
      a_bump 1 ;;;
      value_prefix <- a_ws ;;
      '(v, w) <- value (AState value_prefix false true (Some ind)) ;;
      let items := items ++ [(tt, item_prefix, key, v)] in
      w <- a_or_ws w ;;
      i <- a_indent ;;
      if negb (Nat.eqb i ind) then ret (items, w) else
      start <- a_get ;;
      key <- a_next_mapping_key ;;
      match key with
      | None => ret (items, w)
      | Some key => a_map_loop f ind items start key w
      end
  end.
Definition a_mapping_or_nul (s : astate) (start : nat) (key : rstr bytes)
  : AM (tree unit * option bytes) :=
  let ind := indent_from input start in
  if match as_parent_indent s with Some i => (ind <=? i)%nat | None => false end then
    a_set start ;;;
    ret (TLeaf tt [] (ScNull NEmpty), Some (as_prefix s))
  else
    '(items, w) <- a_map_loop (S len) ind [] start key [] ;;
    ret (TMap tt (as_prefix s) ind CBlock items, Some w).

Definition a_plain (x : bytes) : scalar bytes :=
  if beq x [TILDE] then ScNull NTilde
  else if eq_ignore_case x kw_null then ScNull (NKeyword x)
  else if eq_ignore_case x kw_true then ScBool true x
  else if eq_ignore_case x kw_false then ScBool false x
  else ScStr (RS KBare x x).

Definition a_value_body (s : astate) : AM (tree unit * option bytes) :=
  a <- a_peek 0 ;;
  c <- a_peek 1 ;;
  if (a =? DASH) && is_ws c && negb (as_inline s) then a_sequence s
  else if a =? DQUOTE then
    start <- a_get ;;
    x <- a_double_quoted ;;
    p <- a_peek 0 ;;
    if negb (as_inline s) && (p =? COLON) then a_mapping_or_nul s start x
    else ret (TLeaf tt (as_prefix s) (ScStr x), None)
  else if a =? SQUOTE then
    start <- a_get ;;
    x <- a_single_quoted ;;
    p <- a_peek 0 ;;
    if negb (as_inline s) && (p =? COLON) then a_mapping_or_nul s start x
    else ret (TLeaf tt (as_prefix s) (ScStr x), None)
  else if a =? LBRACK then t <- a_inline_sequence s ;; ret (t, None)
  else if a =? LBRACE then t <- a_inline_mapping s ;; ret (t, None)
  else if (a =? GT) || (a =? PIPE) then
    '(r, w) <- a_block (if (c =? DASH) || (c =? PLUS) then 2%nat else 1%nat)
                       (if a =? GT then SPACE else NEWLINE)
                       (a =? GT) (negb (c =? DASH)) (c =? DASH) ;;
    ret (TLeaf tt (as_prefix s) r, w)
  else
    start <- a_get ;;
    num <- a_number (as_tabular s) start ;;
    match num with
    | Some r => ret (TLeaf tt (as_prefix s) r, None)
    | None =>
      if as_inline s then
        r <- a_rest ;;
        a_bump (ctl_scan r) ;;;
        x <- a_string start ;; ret (TLeaf tt (as_prefix s) (a_plain x), None)
      else
        key <- a_key_or_eol start ;;
        match key with
        | Some key => a_mapping_or_nul s start key
        | None => x <- a_string start ;; ret (TLeaf tt (as_prefix s) (a_plain x), None)
        end
    end.
End Value.

Fixpoint a_value (f : nat) (s : astate) : AM (tree unit * option bytes) :=
  match f with
  | O => fail OutOfFuel
  | S f => a_value_body (a_value f) s
  end.

Fixpoint a_sod_loop (f : nat) (prefix : bytes) : AM bytes :=
  match f with
  | O => fail OutOfFuel
  | S f =>
    a <- a_peek 0 ;; c <- a_peek 1 ;; d <- a_peek 2 ;;
    if a =? PERCENT then a_find NEWLINE ;;; p <- a_ws ;; a_sod_loop f p
    else if (a =? DASH) && (c =? DASH) && (d =? DASH) then a_bump 3 ;;; a_ws
    else ret prefix
  end.
Definition a_start_of_document : AM bytes := p <- a_ws ;; a_sod_loop (S len) p.

Definition a_parse_m : AM (tree unit * bytes) :=
  prefix <- a_start_of_document ;;
  '(root, suffix) <- a_value (S len) (AState prefix false true None) ;;
  suffix <- a_or_ws suffix ;;
  eof <- a_eof ;;
  if negb eof then n <- a_get ;; a_err n len ExpectedEof else
  ret (root, suffix).
Definition a_parse : outcome (tree unit * bytes) :=
  match a_parse_m O with
  | Ok (r, _) => Ok r
  | Err x y k => Err x y k
  | Hang => Hang
  | Panic => Panic
  | OutOfFuel => OutOfFuel
  end.
End Abs.
