(* How errors are displayed: error.rs. *)
From Coq Require Import String.
From Coq Require Import List NArith.
From Verif Require Import Bytes Utf8 Data Parser Num.
Import ListNotations.

(* impl Display for ErrorKind: error.rs 169-181 *)
Definition kind_text (k : ekind) : bytes :=
  match k with
  | ExpectedEof => b "expected end-of-file"
  | BadSequenceTerminator => b "bad sequence terminator"
  | BadMappingSeparator => b "bad mapping separator"
  | BadMappingTerminator => b "bad mapping terminator"
  | BadEscape => b "bad escape"
  | BadHexEscape => b "bad hex escape"
  | BadUnicodeEscape => b "bad unicode escape"
  end.
(* impl Display for Error: error.rs 35-44. The bounds are usize, displayed in decimal. *)
Definition error_text (x y : nat) (k : ekind) : bytes :=
  kind_text k ++ b " (at " ++ digits (N.of_nat x) ++ b "-" ++ digits (N.of_nat y) ++ b ")".
