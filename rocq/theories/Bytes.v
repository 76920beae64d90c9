(* Byte strings and the small library functions (memchr, slices) used by the crate.
   A Rust u8 is an N; a byte slice is a list of N. *)
From Coq Require Import List NArith Bool Arith String Ascii.
Import ListNotations.
Local Open Scope N_scope.

Definition byte := N.
Definition bytes := list N.

(* Text literals for examples and constants: b "abc". *)
Fixpoint of_string (s : string) : bytes :=
  match s with
  | EmptyString => []
  | String c s => N_of_ascii c :: of_string s
  end.
Notation b s := (of_string s%string) (only parsing).

Fixpoint beq (x y : bytes) : bool :=
  match x, y with
  | [], [] => true
  | a :: x, c :: y => (a =? c) && beq x y
  | _, _ => false
  end.

(* src/yaml/raw.rs 15-17; src/yaml/parsing.rs 13. *)
Definition NEWLINE : byte := 10.
Definition SPACE : byte := 32.
Definition EOF : byte := 0.

Definition TAB : byte := 9.
Definition FF : byte := 12.
Definition CR : byte := 13.
Definition DQUOTE : byte := 34.
Definition HASH : byte := 35.
Definition PERCENT : byte := 37.
Definition SQUOTE : byte := 39.
Definition PLUS : byte := 43.
Definition COMMA : byte := 44.
Definition DASH : byte := 45.
Definition DOT : byte := 46.
Definition COLON : byte := 58.
Definition GT : byte := 62.
Definition LBRACK : byte := 91.
Definition BACKSLASH : byte := 92.
Definition RBRACK : byte := 93.
Definition LBRACE : byte := 123.
Definition PIPE : byte := 124.
Definition RBRACE : byte := 125.
Definition TILDE : byte := 126.

(* parsing.rs 16-20: ctl!() *)
Definition is_ctl (c : byte) : bool :=
  (c =? COMMA) || (c =? COLON) || (c =? RBRACK) || (c =? RBRACE) || (c =? EOF).

(* parsing.rs 23-27: other_ws!() *)
Definition is_other_ws (c : byte) : bool :=
  (c =? TAB) || (c =? FF) || (c =? CR) || (c =? SPACE).

(* parsing.rs 29-33: ws!() *)
Definition is_ws (c : byte) : bool := is_other_ws c || (c =? NEWLINE).

Definition is_digit (c : byte) : bool := (48 <=? c) && (c <=? 57).

(* memchr::memchr *)
Fixpoint memchr (a : byte) (s : bytes) : option nat :=
  match s with
  | [] => None
  | c :: s => if c =? a then Some O else option_map S (memchr a s)
  end.

(* slice.get(i..j).unwrap_or_default() *)
Definition slice (s : bytes) (i j : nat) : bytes :=
  if (i <=? j)%nat && (j <=? List.length s)%nat then firstn (j - i) (skipn i s) else [].

(* Text after the last newline: raw.rs 20-28, indent (memrchr). *)
Fixpoint after_last_nl (s : bytes) : bytes :=
  match s with
  | [] => []
  | c :: r => if existsb (N.eqb NEWLINE) r then after_last_nl r
              else if c =? NEWLINE then r else c :: r
  end.

(* u8::to_ascii_lowercase and slice::eq_ignore_ascii_case *)
Definition to_lower (c : byte) : byte :=
  if (65 <=? c) && (c <=? 90) then c + 32 else c.
Fixpoint eq_ignore_case (x y : bytes) : bool :=
  match x, y with
  | [], [] => true
  | a :: x, c :: y => (to_lower a =? to_lower c) && eq_ignore_case x y
  | _, _ => false
  end.

(* u8::is_ascii_control *)
Definition is_ascii_control (c : byte) : bool := (c <? 32) || (c =? 127).

(* One lowercase hexadecimal digit, as written by the format spec 02x. *)
Definition hex_digit (n : N) : byte := if n <? 10 then 48 + n else 87 + n.

(* Keywords, parsing.rs 911-917. *)
Definition kw_null : bytes := b "null".
Definition kw_true : bytes := b "true".
Definition kw_false : bytes := b "false".
