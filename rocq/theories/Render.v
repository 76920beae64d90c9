(* Model of the two renderers: display and write_to of src/yaml/raw.rs and
   src/yaml/document.rs. Both return the bytes written. Recursion goes through ids, so it
   carries fuel. *)
From Coq Require Import List NArith Bool Arith.
From Verif Require Import Bytes Utf8 Data.
Import ListNotations.
Local Open Scope N_scope.

(* Sequential composition of writers. *)
Definition cat (x y : outcome bytes) : outcome bytes :=
  match x with
  | Ok x => match y with Ok y => Ok (x ++ y) | o => o end
  | o => o
  end.
Infix "+++" := cat (at level 60, right associativity).
Definition omap (f : bytes -> bytes) (x : outcome bytes) : outcome bytes :=
  match x with Ok x => Ok (f x) | o => o end.

(* raw.rs 620-639: escape_single_quoted of write_to. The chunked loop writes every byte and
   doubles the quotes. *)
Fixpoint esc_single_body (s : bytes) : bytes :=
  match s with
  | [] => []
  | c :: s => if c =? SQUOTE then SQUOTE :: SQUOTE :: esc_single_body s
              else c :: esc_single_body s
  end.
Definition esc_single (s : bytes) : bytes := [SQUOTE] ++ esc_single_body s ++ [SQUOTE].

(* raw.rs 651-671 (and 558-577 for chars): replacement of one byte. *)
Definition esc_double_byte (c : byte) : bytes :=
  if c =? 0 then [BACKSLASH; 48]
  else if c =? 7 then [BACKSLASH; 97]
  else if c =? 8 then [BACKSLASH; 98]
  else if c =? 9 then [BACKSLASH; 116]
  else if c =? NEWLINE then [BACKSLASH; 110]
  else if c =? 11 then [BACKSLASH; 118]
  else if c =? 12 then [BACKSLASH; 102]
  else if c =? CR then [BACKSLASH; 114]
  else if c =? 27 then [BACKSLASH; 101]
  else if c =? DQUOTE then [BACKSLASH; DQUOTE]
  else if is_ascii_control c then [BACKSLASH; 120; hex_digit (c / 16); hex_digit (c mod 16)]
  else [c].
(* raw.rs 643-681: escape_double_quoted of write_to *)
Definition esc_double (s : bytes) : bytes :=
  [DQUOTE] ++ flat_map esc_double_byte s ++ [DQUOTE].

(* raw.rs 532-548: escape_single_quoted of display: chunks between quotes are displayed
   lossily. [acc] is the current chunk, reversed. *)
Fixpoint esc_single_disp_body (acc s : bytes) : bytes :=
  match s with
  | [] => lossy (rev acc)
  | c :: s => if c =? SQUOTE then lossy (rev acc) ++ [SQUOTE; SQUOTE] ++ esc_single_disp_body [] s
              else esc_single_disp_body (c :: acc) s
  end.
Definition esc_single_disp (s : bytes) : bytes :=
  [SQUOTE] ++ esc_single_disp_body [] s ++ [SQUOTE].
(* raw.rs 552-586: escape_double_quoted of display iterates over chars; the chunks between
   escapes are displayed lossily, which is char by char. *)
Definition esc_double_disp (s : bytes) : bytes :=
  [DQUOTE] ++ flat_map (fun c => match c with [c] => esc_double_byte c | c => c end) (chars s)
           ++ [DQUOTE].

Section Render.
Variable d : data.

Definition pre (id : nat) : outcome bytes := prefix d id.
Definition raw_of (id : nat) : outcome (raw sid) := get_raw d id.

(* ---- write_to ---- *)

(* raw.rs 614-705 (match at 683-702) *)
Definition write_string (s : rstr sid) : outcome bytes :=
  match rs_kind s with
  | KBare => str d (rs_id s)
  | KDouble => omap esc_double (str d (rs_id s))
  | KSingle => omap esc_single (str d (rs_id s))
  | KOriginal => str d (rs_orig s)
  | KMultiline p => str d p +++ str d (rs_orig s)
  end.
(* raw.rs 383-400 Null, 422-427 Boolean, 451-456 Number *)
Definition write_scalar (s : scalar sid) : outcome bytes :=
  match s with
  | ScNull (NKeyword s) => str d s
  | ScNull NTilde => Ok [TILDE]
  | ScNull NEmpty => Ok []
  | ScBool _ s => str d s
  | ScNum s _ => str d s
  | ScStr s => write_string s
  end.
Definition comma_if {S} (k : ckind S) : bytes :=
  match k with CInline _ _ => [COMMA] | CBlock => [] end.
Definition open_if {S} (c : byte) (k : ckind S) : bytes :=
  match k with CInline _ _ => [c] | CBlock => [] end.
Definition close_with (f : bytes -> bytes) (c : byte) (k : ckind sid) : outcome bytes :=
  match k with
  | CInline trailing suffix =>
    Ok (if trailing then [COMMA] else []) +++ omap f (str d suffix) +++ Ok [c]
  | CBlock => Ok []
  end.
Section WriteItems.
  Variable write_raw : raw sid -> outcome bytes.
  (* o.write_all(prefix(value)); raw(value).write_to *)
  Definition write_value (v : nat) : outcome bytes :=
    pre v +++ match raw_of v with Ok r => write_raw r | _ => Panic end.
  (* raw.rs 793-829, the loop; 845-852 SequenceItem. The item prefix goes through write!,
     hence lossy. *)
  Fixpoint write_seq_items (k : ckind sid) (items : list nat) : outcome bytes :=
    match items with
    | [] => Ok []
    | it :: rest =>
      omap lossy (pre it)
      +++ Ok (match k with CBlock => [DASH] | _ => [] end)
      +++ match sequence_item d it with Ok v => write_value v | _ => Panic end
      +++ Ok (match rest with [] => [] | _ => comma_if k end)
      +++ write_seq_items k rest
    end.
  (* raw.rs 936-967, the loop; 986-995 MappingItem *)
  Fixpoint write_map_items (k : ckind sid) (items : list nat) : outcome bytes :=
    match items with
    | [] => Ok []
    | it :: rest =>
      pre it
      +++ match mapping_item d it with
          | Ok (key, v) => write_string key +++ Ok [COLON] +++ write_value v
          | _ => Panic
          end
      +++ Ok (match rest with [] => [] | _ => comma_if k end)
      +++ write_map_items k rest
    end.
End WriteItems.
(* raw.rs 277-309: Raw::write_to *)
Fixpoint write_raw (f : nat) (r : raw sid) : outcome bytes :=
  match f with
  | O => OutOfFuel
  | S f =>
    match r with
    | RScalar s => write_scalar s
    | RMap _ k items =>
      Ok (open_if LBRACE k) +++ write_map_items (write_raw f) k items
      +++ close_with (fun x => x) RBRACE k
    | RMapItem key v => write_string key +++ Ok [COLON] +++ write_value (write_raw f) v
    | RSeq _ k items =>
      Ok (open_if LBRACK k) +++ write_seq_items (write_raw f) k items
      +++ close_with (fun x => x) RBRACK k
    | RSeqItem v => write_value (write_raw f) v
    end
  end.

(* ---- display ---- *)

(* write!(f, .., data.str(id)): Display for BStr *)
Definition show (id : sid) : outcome bytes := omap lossy (str d id).
Definition show_pre (p : option nat) : outcome bytes :=
  match p with Some id => omap lossy (pre id) | None => Ok [] end.
(* raw.rs 529-612 (match at 588-609) *)
Definition disp_string (s : rstr sid) : outcome bytes :=
  match rs_kind s with
  | KBare => show (rs_id s)
  | KDouble => omap esc_double_disp (str d (rs_id s))
  | KSingle => omap esc_single_disp (str d (rs_id s))
  | KOriginal => show (rs_orig s)
  | KMultiline p => show p +++ show (rs_orig s)
  end.
(* raw.rs 228-251 and 354-381: scalars, with the prefix of id [p] *)
Definition disp_scalar (s : scalar sid) (p : option nat) : outcome bytes :=
  match s with
  | ScNull (NKeyword s) => show_pre p +++ show s
  | ScNull NTilde => show_pre p +++ Ok [TILDE]
  | ScNull NEmpty => Ok []
  | ScBool _ s => show_pre p +++ show s
  | ScNum s _ => show_pre p +++ show s
  | ScStr s => show_pre p +++ disp_string s
  end.
(* raw.rs 754-758 and 900-904: the prefix of a collection *)
Definition coll_pre (k : ckind sid) (items : list nat) (p : option nat) : outcome bytes :=
  match k, items with
  | CBlock, [] => Ok []
  | _, _ => show_pre p
  end.
Section DispItems.
  Variable disp_raw : raw sid -> option nat -> outcome bytes.
  Definition disp_value (v : nat) : outcome bytes :=
    match raw_of v with Ok r => disp_raw r (Some v) | _ => Panic end.
  (* raw.rs 764-780, 840-843 *)
  Fixpoint disp_seq_items (k : ckind sid) (items : list nat) : outcome bytes :=
    match items with
    | [] => Ok []
    | it :: rest =>
      omap lossy (pre it)
      +++ Ok (match k with CBlock => [DASH] | _ => [] end)
      +++ match sequence_item d it with Ok v => disp_value v | _ => Panic end
      +++ Ok (match rest with [] => [] | _ => comma_if k end)
      +++ disp_seq_items k rest
    end.
  (* raw.rs 910-922, 979-984 *)
  Fixpoint disp_map_items (k : ckind sid) (items : list nat) : outcome bytes :=
    match items with
    | [] => Ok []
    | it :: rest =>
      match mapping_item d it with
      | Ok (key, v) =>
        omap lossy (pre it) +++ disp_string key +++ Ok [COLON] +++ disp_value v
      | _ => Panic
      end
      +++ Ok (match rest with [] => [] | _ => comma_if k end)
      +++ disp_map_items k rest
    end.
End DispItems.
(* raw.rs 221-275: Raw::display *)
Fixpoint disp_raw (f : nat) (r : raw sid) (p : option nat) : outcome bytes :=
  match f with
  | O => OutOfFuel
  | S f =>
    match r with
    | RScalar s => disp_scalar s p
    | RMap _ k items =>
      coll_pre k items p +++ Ok (open_if LBRACE k) +++ disp_map_items (disp_raw f) k items
      +++ close_with lossy RBRACE k
    | RMapItem key v =>
      show_pre p +++ disp_string key +++ Ok [COLON] +++ disp_value (disp_raw f) v
    | RSeq _ k items =>
      coll_pre k items p +++ Ok (open_if LBRACK k) +++ disp_seq_items (disp_raw f) k items
      +++ close_with lossy RBRACK k
    | RSeqItem v => show_pre p +++ disp_value (disp_raw f) v
    end
  end.
End Render.

(* Nesting is bounded by the number of slots in a tree-shaped slab. *)
Definition render_fuel (d : data) : nat := S (length (sl_entries (d_slab d))).

(* document.rs 266-274 *)
Definition write_to (doc : document) : outcome bytes :=
  let d := doc_data doc in
  prefix d (doc_root doc)
  +++ match get_raw d (doc_root doc) with
      | Ok r => write_raw d (render_fuel d) r
      | _ => Panic
      end
  +++ str d (doc_suffix doc).
(* document.rs 277-284 *)
Definition to_string (doc : document) : outcome bytes :=
  let d := doc_data doc in
  omap lossy (prefix d (doc_root doc))
  +++ match get_raw d (doc_root doc) with
      | Ok r => disp_raw d (render_fuel d) r None
      | _ => Panic
      end
  +++ omap lossy (str d (doc_suffix doc)).
(* value.rs 585-590: Display for Value *)
Definition value_to_string (d : data) (id : nat) : outcome bytes :=
  match get_raw d id with
  | Ok r => disp_raw d (render_fuel d) r None
  | _ => Panic
  end.
(* There is no public write_to of a value; this is the part of Document::write_to that
   writes the value id, without its prefix. *)
Definition value_write_to (d : data) (id : nat) : outcome bytes :=
  match get_raw d id with
  | Ok r => write_raw d (render_fuel d) r
  | _ => Panic
  end.
