(* The parts of bstr 1.x and core::char used by the crate.
   bstr is an external dependency: modelled after its documentation. Invalid UTF-8 is
   replaced by U+FFFD by the substitution of maximal subparts practice. *)
From Coq Require Import List NArith Bool Arith.
From Verif Require Import Bytes.
Import ListNotations.
Local Open Scope N_scope.

Definition between (lo hi c : N) : bool := (lo <=? c) && (c <=? hi).
Definition is_cont (c : byte) : bool := between 128 191 c.

(* U+FFFD *)
Definition replacement : bytes := [239; 191; 189].

(* Accepted range of the second byte for a leading byte, and the length of the sequence
   (Unicode 15, table 3-7). None: the leading byte is ill formed. *)
Definition lead (c : byte) : option (nat * N * N) :=
  if between 194 223 c then Some (2%nat, 128, 191)
  else if c =? 224 then Some (3%nat, 160, 191)
  else if between 225 236 c then Some (3%nat, 128, 191)
  else if c =? 237 then Some (3%nat, 128, 159)
  else if between 238 239 c then Some (3%nat, 128, 191)
  else if c =? 240 then Some (4%nat, 144, 191)
  else if between 241 243 c then Some (4%nat, 128, 191)
  else if c =? 244 then Some (4%nat, 128, 143)
  else None.

(* bstr::decode_utf8: whether the next char is well formed, and its length in bytes. *)
Definition decode1 (c : byte) (r : bytes) : bool * nat :=
  if c <? 128 then (true, 1%nat) else
  match lead c with
  | None => (false, 1%nat)
  | Some (len, lo, hi) =>
    match r with
    | [] => (false, 1%nat)
    | c1 :: r1 =>
      if negb (between lo hi c1) then (false, 1%nat) else
      if (len =? 2)%nat then (true, 2%nat) else
      match r1 with
      | [] => (false, 2%nat)
      | c2 :: r2 =>
        if negb (is_cont c2) then (false, 2%nat) else
        if (len =? 3)%nat then (true, 3%nat) else
        match r2 with
        | [] => (false, 3%nat)
        | c3 :: _ => if negb (is_cont c3) then (false, 3%nat) else (true, 4%nat)
        end
      end
    end
  end.

(* ByteSlice::chars: the UTF-8 encodings of the decoded chars. The fuel is the length of
   the string, which suffices since a char is at least one byte. *)
Fixpoint chars_f (f : nat) (s : bytes) : list bytes :=
  match f, s with
  | S f, c :: r =>
    let '(ok, n) := decode1 c r in
    (if ok then firstn n s else replacement) :: chars_f f (skipn n s)
  | _, _ => []
  end.
Definition chars (s : bytes) : list bytes := chars_f (length s) s.

(* Display for BStr (also write!(o, .., bstr) of an io::Write). *)
Definition lossy (s : bytes) : bytes := concat (chars s).

(* ByteSlice::to_str().is_ok() *)
Fixpoint utf8_f (f : nat) (s : bytes) : bool :=
  match f, s with
  | _, [] => true
  | O, _ => false
  | S f, c :: r => let '(ok, n) := decode1 c r in ok && utf8_f f (skipn n s)
  end.
Definition utf8 (s : bytes) : bool := utf8_f (length s) s.

(* raw.rs 31-33: count_indent *)
Definition count_indent (s : bytes) : nat := length (chars (after_last_nl s)).

(* char::encode_utf8; the argument is a scalar value below 0x10000 in this crate. *)
Definition encode_utf8 (c : N) : bytes :=
  if c <? 128 then [c]
  else if c <? 2048 then [192 + c / 64; 128 + c mod 64]
  else if c <? 65536 then [224 + c / 4096; 128 + (c / 64) mod 64; 128 + c mod 64]
  else [240 + c / 262144; 128 + (c / 4096) mod 64; 128 + (c / 64) mod 64; 128 + c mod 64].

(* char::from_u32(c).is_some() *)
Definition is_scalar_value (c : N) : bool :=
  (c <? 55296) || ((57343 <? c) && (c <? 1114112)).

(* UTF-8 encodings of the chars with the Unicode property White_Space, longest first. *)
Definition white_space : list bytes :=
  [ [225; 154; 128];
    [226; 128; 128]; [226; 128; 129]; [226; 128; 130]; [226; 128; 131]; [226; 128; 132];
    [226; 128; 133]; [226; 128; 134]; [226; 128; 135]; [226; 128; 136]; [226; 128; 137];
    [226; 128; 138]; [226; 128; 168]; [226; 128; 169]; [226; 128; 175];
    [226; 129; 159]; [227; 128; 128];
    [194; 133]; [194; 160];
    [9]; [10]; [11]; [12]; [13]; [32] ].

(* Remove prefix p from s. *)
Fixpoint strip_prefix (p s : bytes) : option bytes :=
  match p, s with
  | [], _ => Some s
  | a :: p, c :: s => if a =? c then strip_prefix p s else None
  | _, _ => None
  end.
Fixpoint strip_any (ps : list bytes) (s : bytes) : option bytes :=
  match ps with
  | [] => None
  | p :: ps => match strip_prefix p s with Some r => Some r | None => strip_any ps s end
  end.
Fixpoint trim_with (ps : list bytes) (f : nat) (s : bytes) : bytes :=
  match f with
  | O => s
  | S f => match strip_any ps s with Some r => trim_with ps f r | None => s end
  end.
(* ByteSlice::trim *)
Definition trim_start (s : bytes) : bytes := trim_with white_space (length s) s.
Definition trim_end (s : bytes) : bytes :=
  rev (trim_with (map (@rev N) white_space) (length s) (rev s)).
Definition trim (s : bytes) : bytes := trim_end (trim_start s).

(* char::is_control (Unicode category Cc) of a char given by its UTF-8 encoding. *)
Definition char_is_control (c : bytes) : bool :=
  match c with
  | [c] => is_ascii_control c
  | [194; c] => between 128 159 c
  | _ => false
  end.
