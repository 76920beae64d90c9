(* Reading and writing with a bound on the nesting of calls. Parser::value, Raw::write_to,
   Raw::display and Data::drop_kind are recursive and follow the nesting of a document; here the
   number of their calls that may be active at a time is a parameter. *)
From Coq Require Import List NArith Bool Arith.
From Verif Require Import Bytes Utf8 Data Parser Render Api Shown.
Import ListNotations.

(* parsing.rs 109-124 and mod.rs 179-185, with at most d nested calls of value *)
Definition parse_within (d : nat) (hash : bytes -> sid) (input : bytes) : M document :=
  prefix <- start_of_document hash input ;;
  '(root, suffix) <- value hash input d (State prefix None false true None) ;;
  suffix <- or_ws hash input suffix ;;
  eof <- is_eof input ;;
  if negb eof then n <- get_n ;; error n (length input) ExpectedEof else
  fun s => Ok (Doc suffix root (p_data s), s).
Definition from_slice_within (d : nat) (hash : bytes -> sid) (input : bytes) : outcome document :=
  match parse_within d hash input (Pst 0 [] data_empty) with
  | Ok (d, _) => Ok d
  | Err x y k => Err x y k
  | Hang => Hang
  | Panic => Panic
  | OutOfFuel => OutOfFuel
  end.
(* document.rs 266-274 and 277-284, with at most n nested calls of Raw::write_to and
   Raw::display *)
Definition write_to_within (n : nat) (doc : document) : outcome bytes :=
  let d := doc_data doc in
  prefix d (doc_root doc)
  +++ match get_raw d (doc_root doc) with Ok r => write_raw d n r | _ => Panic end
  +++ str d (doc_suffix doc).
Definition to_string_within (n : nat) (doc : document) : outcome bytes :=
  let d := doc_data doc in
  omap lossy (prefix d (doc_root doc))
  +++ match get_raw d (doc_root doc) with Ok r => disp_raw d n r None | _ => Panic end
  +++ omap lossy (str d (doc_suffix doc)).
(* data.rs 297-307: Data::replace, by which values are set, with at most n nested calls of
   drop_kind (data.rs 272-294) *)
Definition replace_within (n : nat) (id : nat) (r : raw sid) : D unit := fun d =>
  match slab_get (d_slab d) id with
  | None => Ok (tt, d)
  | Some e =>
    drop_kind_f n (e_raw e) (set_slab d (slab_set (d_slab d) id (Entry r (e_prefix e) (e_parent e))))
  end.

(* How deep data are nested. *)
Fixpoint nesting (x : datum) : nat :=
  match x with
  | DMap l => S (list_max (map (fun p => nesting (snd p)) l))
  | DSeq l => S (list_max (map nesting l))
  | _ => 1
  end.
