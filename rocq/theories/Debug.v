(* How handles, documents, ids and errors are formatted with {:?} and, when [alt] is true, with
   {:#?}. Display of a value ignores the options of the formatter it is given, since it writes
   through write!. *)
From Coq Require Import String.
From Coq Require Import List NArith Bool.
From Verif Require Import Bytes Utf8 Data Parser Render Num Api ErrorText.
Import ListNotations.
Local Open Scope N_scope.

(* ---- core::fmt::builders ---- *)
(* PadAdapter: four spaces before the first byte of a line. *)
Fixpoint pad_from (on_newline : bool) (s : bytes) : bytes :=
  match s with
  | [] => []
  | c :: s => (if on_newline then repeat SPACE 4 else []) ++ c :: pad_from (c =? NEWLINE) s
  end.
Definition pad (s : bytes) : bytes := pad_from true s.
Definition end_entry : bytes := [COMMA; NEWLINE].
(* DebugTuple with one field *)
Definition debug_tuple (alt : bool) (name x : bytes) : bytes :=
  if alt then name ++ b "(" ++ [NEWLINE] ++ pad (x ++ end_entry) ++ b ")" else name ++ b "(" ++ x ++ b ")".
(* DebugInner::entry and DebugMap::entry, once for each entry *)
Fixpoint debug_entries (alt has_fields : bool) (l : list bytes) : bytes :=
  match l with
  | [] => []
  | x :: l =>
    (if alt then (if has_fields then [] else [NEWLINE]) ++ pad (x ++ end_entry) else (if has_fields then b ", " else []) ++ x)
    ++ debug_entries alt true l
  end.
Definition debug_list (alt : bool) (l : list bytes) : bytes := b "[" ++ debug_entries alt false l ++ b "]".
(* DebugStruct with at least one field *)
Fixpoint debug_fields (alt has_fields : bool) (l : list (bytes * bytes)) : bytes :=
  match l with
  | [] => []
  | (n, v) :: l =>
    (if alt then (if has_fields then [] else b " {" ++ [NEWLINE]) ++ pad (n ++ b ": " ++ v ++ end_entry)
     else (if has_fields then b ", " else b " { ") ++ n ++ b ": " ++ v)
    ++ debug_fields alt true l
  end.
Definition debug_struct (alt : bool) (name : bytes) (l : list (bytes * bytes)) : bytes :=
  name ++ debug_fields alt false l ++ (if alt then b "}" else b " }").
Definition debug_struct_open (alt : bool) (name : bytes) (l : list (bytes * bytes)) : bytes :=
  name ++ debug_fields alt false l ++ (if alt then pad (b ".." ++ [NEWLINE]) ++ b "}" else b ", .. }").

(* ---- data.rs ---- *)
(* data.rs 37-45 *)
Definition hex_text (s : bytes) : bytes := flat_map (fun c => [hex_digit (c / 16); hex_digit (c mod 16)]) s.
(* data.rs 28-33 *)
Definition debug_string_id (alt : bool) (s : sid) : bytes := debug_tuple alt (b "StringId") (hex_text s).
(* data.rs 66-70 (derived) and 249-257: the number in an id is the slot plus one. *)
Definition debug_id (alt : bool) (id : nat) : bytes := debug_tuple alt (b "Id") (digits (N.of_nat (S id))).
(* data.rs 80-84, with the {:x} of usize and its padding to eight digits by core::fmt *)
Fixpoint hex_num (f : nat) (n : N) (acc : bytes) : bytes :=
  match f with
  | O => acc
  | S f => if n <? 16 then hex_digit n :: acc else hex_num f (n / 16) (hex_digit (n mod 16) :: acc)
  end.
Definition pad_zero (w : nat) (s : bytes) : bytes := repeat 48 (w - length s)%nat ++ s.
Definition display_id (id : nat) : bytes := pad_zero 8 (hex_num (S (N.size_nat (N.of_nat id))) (N.of_nat id) []).
(* data.rs 21-26 *)
Definition display_string_id (s : sid) : bytes := hex_text s.
(* document.rs 330-337 *)
Definition debug_document (alt : bool) (doc : document) : bytes :=
  debug_struct_open alt (b "Document") [(b "suffix", debug_string_id alt (doc_suffix doc)); (b "root", debug_id alt (doc_root doc))].

Section Debug.
(* Debug for BStr, of the bstr crate. *)
Variable bstr_debug : bool -> bytes -> bytes.
Variable d : data.

(* value.rs 585-590, mapping.rs 234-239, sequence.rs 314-319: Display of the three handles *)
Definition display_mapping (id : nat) : outcome bytes :=
  match Data.mapping d id with Ok (i, k, items) => disp_raw d (render_fuel d) (RMap i k items) None | _ => Panic end.
Definition display_sequence (id : nat) : outcome bytes :=
  match Data.sequence d id with Ok (i, k, items) => disp_raw d (render_fuel d) (RSeq i k items) None | _ => Panic end.
(* value.rs 592-608 *)
Definition debug_value (alt : bool) (id : nat) : outcome bytes :=
  match get_raw d id with
  | Ok r => omap (debug_tuple alt (b "Value")) (disp_raw d (render_fuel d) r (Some id))
  | _ => Panic
  end.
(* entries(self.iter()): every entry is formatted when the iterator gives it. *)
Fixpoint gather {A} (next : list nat -> outcome (option A * list nat)) (show : A -> outcome bytes) (f : nat) (it : list nat) : outcome (list bytes) :=
  match f with
  | O => OutOfFuel
  | S f =>
    match next it with
    | Ok (None, _) => Ok []
    | Ok (Some x, it) =>
      match show x with
      | Ok t => match gather next show f it with Ok l => Ok (t :: l) | _ => Panic end
      | _ => Panic
      end
    | _ => Panic
    end
  end.
(* mapping.rs 241-246; DebugMap writes the key, a colon and a space before each value. *)
Definition debug_mapping (alt : bool) (id : nat) : outcome bytes :=
  match map_iter d id with
  | Ok it =>
    match gather (map_next d) (fun '(k, v) => omap (fun t => bstr_debug alt k ++ b ": " ++ t) (debug_value alt v)) (S (length it)) it with
    | Ok l => Ok (b "{" ++ debug_entries alt false l ++ b "}")
    | _ => Panic
    end
  | _ => Panic
  end.
(* sequence.rs 321-326 *)
Definition debug_sequence (alt : bool) (id : nat) : outcome bytes :=
  match seq_iter d id with
  | Ok it => match gather (seq_next d) (debug_value alt) (S (length it)) it with Ok l => Ok (debug_list alt l) | _ => Panic end
  | _ => Panic
  end.
(* number.rs 94-102 *)
Definition debug_number (x : bytes) : bytes := if utf8 x then x else b "NaN".
(* any.rs 10-27 (derived); string.rs 83-88 *)
Definition debug_any (alt : bool) (a : any) : outcome bytes :=
  match a with
  | ANull => Ok (b "Null")
  | ABool v => Ok (debug_tuple alt (b "Bool") (if v then kw_true else kw_false))
  | ANumber x _ => Ok (debug_tuple alt (b "Number") (debug_number x))
  | AString x => Ok (debug_tuple alt (b "String") (bstr_debug alt x))
  | AMapping id => omap (debug_tuple alt (b "Mapping")) (debug_mapping alt id)
  | ASequence id => omap (debug_tuple alt (b "Sequence")) (debug_sequence alt id)
  | ARaw id => omap (debug_tuple alt (b "Raw")) (debug_value alt id)
  end.
End Debug.

(* error.rs 7-11 and 49-50 (derived); Debug for Range<usize> of core *)
Definition kind_name (k : ekind) : bytes :=
  match k with
  | ExpectedEof => b "ExpectedEof"
  | BadSequenceTerminator => b "BadSequenceTerminator"
  | BadMappingSeparator => b "BadMappingSeparator"
  | BadMappingTerminator => b "BadMappingTerminator"
  | BadEscape => b "BadEscape"
  | BadHexEscape => b "BadHexEscape"
  | BadUnicodeEscape => b "BadUnicodeEscape"
  end.
Definition debug_error (alt : bool) (x y : nat) (k : ekind) : bytes :=
  debug_struct alt (b "Error") [(b "span", digits (N.of_nat x) ++ b ".." ++ digits (N.of_nat y)); (b "kind", kind_name k)].
