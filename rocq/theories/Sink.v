(* Model of the two renderers against an arbitrary sink, call by call: write_to of
   src/yaml/raw.rs and src/yaml/document.rs on an io::Write, display on a fmt::Formatter.
   Render.v says which bytes come out when no call fails; here every call may fail, and the
   escapes are written by the loops of the code, chunk by chunk. *)
From Coq Require Import List NArith Bool Arith.
From Verif Require Import Bytes Utf8 Data Render.
Import ListNotations.
Local Open Scope N_scope.

Section Sink.
(* A sink: its state, its errors, and one call. For io::Write a call is write_all, for
   fmt::Formatter it is write_str (write_char). *)
Variables (W E : Type) (put : W -> bytes -> W * option E).
(* How the formatting machinery of the standard library and of bstr cuts the text of one
   write! into calls. The theorems hold for every way of cutting. *)
Variable cut : bytes -> list bytes.
Variable d : data.

(* An action on the sink: the new state, and the error that ended it. *)
Definition action := W -> outcome (W * option E).
Definition done : action := fun w => Ok (w, None).
(* The operator ?: go on only if there was no error. *)
Definition next (m n : action) : action := fun w =>
  match m w with Ok (w, None) => n w | o => o end.
Infix ";;;" := next (at level 61, right associativity).
(* o.write_all(s)? *)
Definition emit (s : bytes) : action := fun w => Ok (put w s).
Fixpoint emits (l : list bytes) : action :=
  match l with [] => done | c :: l => emit c ;;; emits l end.
(* write!(o, ..)? with text s *)
Definition fmt (s : bytes) : action := emits (cut s).
(* Look something up; every lookup panics if it fails. *)
Definition look {A} (x : outcome A) (k : A -> action) : action :=
  match x with Ok a => k a | Err a e k => fun _ => Err a e k | Hang => fun _ => Hang
             | Panic => fun _ => Panic | OutOfFuel => fun _ => OutOfFuel end.

(* ---- write_to ---- *)

(* raw.rs 627-636: the loop of escape_single_quoted. Every turn drops a byte. *)
Fixpoint w_single_loop (f : nat) (s : bytes) : action :=
  match f with
  | O => fun _ => OutOfFuel
  | S f =>
    match memchr SQUOTE s with
    | None => emit s
    | Some n => emit (firstn n s) ;;; emit [SQUOTE; SQUOTE] ;;; w_single_loop f (skipn (n + 1) s)
    end
  end.
(* raw.rs 620-640 *)
Definition w_single (s : bytes) : action :=
  emit [SQUOTE] ;;; w_single_loop (S (length s)) s ;;; emit [SQUOTE].

(* raw.rs 652-662: the named escapes *)
Definition named (c : byte) : option bytes :=
  if c =? 0 then Some [BACKSLASH; 48]
  else if c =? 7 then Some [BACKSLASH; 97]
  else if c =? 8 then Some [BACKSLASH; 98]
  else if c =? 9 then Some [BACKSLASH; 116]
  else if c =? NEWLINE then Some [BACKSLASH; 110]
  else if c =? 11 then Some [BACKSLASH; 118]
  else if c =? 12 then Some [BACKSLASH; 102]
  else if c =? CR then Some [BACKSLASH; 114]
  else if c =? 27 then Some [BACKSLASH; 101]
  else if c =? DQUOTE then Some [BACKSLASH; DQUOTE]
  else None.
Definition hex2 (c : byte) : bytes := [BACKSLASH; 120; hex_digit (c / 16); hex_digit (c mod 16)].
(* &string[a..z] *)
Definition piece (string : bytes) (a z : nat) : bytes := skipn a (firstn z string).
(* raw.rs 651-679: the loop over the bytes, [rest] from [index] on; the bytes from [start] on
   are not yet written. *)
Fixpoint w_double_loop (string : bytes) (start index : nat) (rest : bytes) : action :=
  match rest with
  | [] => emit (skipn start string)
  | c :: rest =>
    match named c with
    | Some esc =>
      emit (piece string start index) ;;; emit esc
      ;;; w_double_loop string (index + 1) (index + 1) rest
    | None =>
      if is_ascii_control c then
        emit (piece string start index) ;;; fmt (hex2 c)
        ;;; w_double_loop string (index + 1) (index + 1) rest
      else w_double_loop string start (index + 1) rest
    end
  end.
(* raw.rs 644-682 *)
Definition w_double (s : bytes) : action :=
  emit [DQUOTE] ;;; w_double_loop s 0 0 s ;;; emit [DQUOTE].

(* raw.rs 684-703 *)
Definition w_string (s : rstr sid) : action :=
  match rs_kind s with
  | KBare => look (str d (rs_id s)) emit
  | KDouble => look (str d (rs_id s)) w_double
  | KSingle => look (str d (rs_id s)) w_single
  | KOriginal => look (str d (rs_orig s)) emit
  | KMultiline p => look (str d p) emit ;;; look (str d (rs_orig s)) emit
  end.
(* raw.rs 383-400 Null, 422-427 Boolean, 451-456 Number *)
Definition w_scalar (s : scalar sid) : action :=
  match s with
  | ScNull (NKeyword s) => look (str d s) emit
  | ScNull NTilde => fmt [TILDE]
  | ScNull NEmpty => done
  | ScBool _ s => look (str d s) emit
  | ScNum s _ => look (str d s) emit
  | ScStr s => w_string s
  end.
(* write! of a text that is there only for inline collections *)
Definition if_inline (k : ckind sid) (c : byte) : action :=
  match k with CInline _ _ => fmt [c] | CBlock => done end.
Definition if_block (k : ckind sid) (c : byte) : action :=
  match k with CInline _ _ => done | CBlock => fmt [c] end.
(* raw.rs 819-826 and 957-964 *)
Definition w_close (c : byte) (k : ckind sid) : action :=
  match k with
  | CInline trailing suffix =>
    (if trailing then fmt [COMMA] else done) ;;; look (str d suffix) emit ;;; fmt [c]
  | CBlock => done
  end.
Section WriteItems.
  Variable w_raw : raw sid -> action.
  Definition w_value (v : nat) : action :=
    look (prefix d v) emit ;;; look (get_raw d v) w_raw.
  (* raw.rs 801-817, 845-852 *)
  Fixpoint w_seq_items (k : ckind sid) (items : list nat) : action :=
    match items with
    | [] => done
    | it :: rest =>
      look (prefix d it) (fun p => fmt (lossy p))
      ;;; if_block k DASH
      ;;; look (sequence_item d it) w_value
      ;;; match rest with [] => done | _ => if_inline k COMMA end
      ;;; w_seq_items k rest
    end.
  (* raw.rs 944-955, 986-995 *)
  Fixpoint w_map_items (k : ckind sid) (items : list nat) : action :=
    match items with
    | [] => done
    | it :: rest =>
      look (prefix d it) emit
      ;;; look (mapping_item d it) (fun kv => w_string (fst kv) ;;; fmt [COLON] ;;; w_value (snd kv))
      ;;; match rest with [] => done | _ => if_inline k COMMA end
      ;;; w_map_items k rest
    end.
End WriteItems.
(* raw.rs 277-309 *)
Fixpoint w_raw (f : nat) (r : raw sid) : action :=
  match f with
  | O => fun _ => OutOfFuel
  | S f =>
    match r with
    | RScalar s => w_scalar s
    | RMap _ k items => if_inline k LBRACE ;;; w_map_items (w_raw f) k items ;;; w_close RBRACE k
    | RMapItem key v => w_string key ;;; fmt [COLON] ;;; w_value (w_raw f) v
    | RSeq _ k items => if_inline k LBRACK ;;; w_seq_items (w_raw f) k items ;;; w_close RBRACK k
    | RSeqItem v => w_value (w_raw f) v
    end
  end.
(* document.rs 266-274 *)
Definition w_document (root : nat) (suffix : sid) : action :=
  look (prefix d root) emit
  ;;; look (get_raw d root) (w_raw (render_fuel d))
  ;;; look (str d suffix) emit.

(* ---- display ---- *)

(* raw.rs 535-544 *)
Fixpoint f_single_loop (f : nat) (s : bytes) : action :=
  match f with
  | O => fun _ => OutOfFuel
  | S f =>
    match memchr SQUOTE s with
    | None => fmt (lossy s)
    | Some n =>
      fmt (lossy (firstn n s)) ;;; emit [SQUOTE; SQUOTE] ;;; f_single_loop f (skipn (n + 1) s)
    end
  end.
(* raw.rs 532-548 *)
Definition f_single (s : bytes) : action :=
  emit [SQUOTE] ;;; f_single_loop (S (length s)) s ;;; emit [SQUOTE].
(* raw.rs 557-582: the loop over char_indices. A char that is one byte long and well formed is
   that byte; every other char is above U+007F, so it is not escaped. *)
Fixpoint f_double_loop (f : nat) (string : bytes) (start index : nat) (rest : bytes) : action :=
  match f with
  | O => fun _ => OutOfFuel
  | S f =>
    match rest with
    | [] => fmt (lossy (skipn start string))
    | c :: r =>
      let stop := (index + snd (decode1 c r))%nat in
      let rest := skipn (snd (decode1 c r)) rest in
      match named c with
      | Some esc =>
        fmt (lossy (piece string start index) ++ esc) ;;; f_double_loop f string stop stop rest
      | None =>
        if is_ascii_control c then
          fmt (lossy (piece string start index) ++ hex2 c) ;;; f_double_loop f string stop stop rest
        else f_double_loop f string start stop rest
      end
    end
  end.
(* raw.rs 552-586 *)
Definition f_double (s : bytes) : action :=
  emit [DQUOTE] ;;; f_double_loop (S (length s)) s 0 0 s ;;; emit [DQUOTE].

Definition f_show (id : sid) : action := look (str d id) (fun s => fmt (lossy s)).
Definition f_prefix (id : nat) : action := look (prefix d id) (fun s => fmt (lossy s)).
Definition f_pre (p : option nat) : action :=
  match p with Some id => f_prefix id | None => done end.
(* raw.rs 588-609 *)
Definition f_string (s : rstr sid) : action :=
  match rs_kind s with
  | KBare => f_show (rs_id s)
  | KDouble => look (str d (rs_id s)) f_double
  | KSingle => look (str d (rs_id s)) f_single
  | KOriginal => f_show (rs_orig s)
  | KMultiline p => f_show p ;;; f_show (rs_orig s)
  end.
(* raw.rs 228-251 and 354-381 *)
Definition f_scalar (s : scalar sid) (p : option nat) : action :=
  match s with
  | ScNull (NKeyword s) => f_pre p ;;; f_show s
  | ScNull NTilde => f_pre p ;;; fmt [TILDE]
  | ScNull NEmpty => done
  | ScBool _ s => f_pre p ;;; f_show s
  | ScNum s _ => f_pre p ;;; f_show s
  | ScStr s => f_pre p ;;; f_string s
  end.
(* raw.rs 754-758 and 900-904 *)
Definition f_coll (k : ckind sid) (items : list nat) (p : option nat) : action :=
  match k, items with
  | CBlock, [] => done
  | _, _ => f_pre p
  end.
(* raw.rs 782-788 and 924-931 *)
Definition f_close (c : byte) (k : ckind sid) : action :=
  match k with
  | CInline trailing suffix =>
    (if trailing then fmt [COMMA] else done) ;;; look (str d suffix) (fun s => fmt (lossy s ++ [c]))
  | CBlock => done
  end.
Section DispItems.
  Variable f_raw : raw sid -> option nat -> action.
  Definition f_value (v : nat) : action := look (get_raw d v) (fun r => f_raw r (Some v)).
  (* raw.rs 764-780, 840-843 *)
  Fixpoint f_seq_items (k : ckind sid) (items : list nat) : action :=
    match items with
    | [] => done
    | it :: rest =>
      f_prefix it
      ;;; if_block k DASH
      ;;; look (sequence_item d it) f_value
      ;;; match rest with [] => done | _ => if_inline k COMMA end
      ;;; f_seq_items k rest
    end.
  (* raw.rs 910-922, 979-984 *)
  Fixpoint f_map_items (k : ckind sid) (items : list nat) : action :=
    match items with
    | [] => done
    | it :: rest =>
      look (mapping_item d it) (fun kv =>
        f_prefix it ;;; f_string (fst kv) ;;; fmt [COLON] ;;; f_value (snd kv))
      ;;; match rest with [] => done | _ => if_inline k COMMA end
      ;;; f_map_items k rest
    end.
End DispItems.
(* raw.rs 221-275 *)
Fixpoint f_raw (f : nat) (r : raw sid) (p : option nat) : action :=
  match f with
  | O => fun _ => OutOfFuel
  | S f =>
    match r with
    | RScalar s => f_scalar s p
    | RMap _ k items =>
      f_coll k items p ;;; if_inline k LBRACE ;;; f_map_items (f_raw f) k items ;;; f_close RBRACE k
    | RMapItem key v => f_pre p ;;; f_string key ;;; fmt [COLON] ;;; f_value (f_raw f) v
    | RSeq _ k items =>
      f_coll k items p ;;; if_inline k LBRACK ;;; f_seq_items (f_raw f) k items ;;; f_close RBRACK k
    | RSeqItem v => f_pre p ;;; f_value (f_raw f) v
    end
  end.
(* document.rs 277-284; the formatter has no options set *)
Definition f_document (root : nat) (suffix : sid) : action :=
  f_prefix root
  ;;; look (get_raw d root) (fun r => f_raw (render_fuel d) r None)
  ;;; f_show suffix.
(* value.rs 585-590 *)
Definition f_of_value (id : nat) : action :=
  look (get_raw d id) (fun r => f_raw (render_fuel d) r None).
End Sink.

(* Document::write_to(output) and Display for Document and Value, on the sink w. *)
Definition write_to_sink {W E} (put : W -> bytes -> W * option E) (cut : bytes -> list bytes)
  (doc : document) (w : W) : outcome (W * option E) :=
  w_document W E put cut (doc_data doc) (doc_root doc) (doc_suffix doc) w.
Definition display_sink {W E} (put : W -> bytes -> W * option E) (cut : bytes -> list bytes)
  (doc : document) (w : W) : outcome (W * option E) :=
  f_document W E put cut (doc_data doc) (doc_root doc) (doc_suffix doc) w.
Definition display_value_sink {W E} (put : W -> bytes -> W * option E) (cut : bytes -> list bytes)
  (d : data) (id : nat) (w : W) : outcome (W * option E) :=
  f_of_value W E put cut d id w.
