(* Model of the reading and editing API: value.rs, value_mut.rs, mapping/*.rs, sequence/*.rs
   and the constructors of raw.rs. Handles (Value, ValueMut, Mapping, ...) are ids. *)
From Coq Require Import List NArith ZArith Bool Arith.
From Verif Require Import Bytes Utf8 Data Num.
Import ListNotations.
Local Open Scope N_scope.

(* ---- value.rs: readers ---- *)
Section Readers.
Variable d : data.
Local Notation "x <-o m ;; k" :=
  (match m with Ok x => k | Err x y e => Err x y e | Hang => Hang | Panic => Panic
   | OutOfFuel => OutOfFuel end)
  (at level 61, m at next level, right associativity).

(* value.rs 356-361 *)
Definition as_bstr (id : nat) : outcome (option bytes) :=
  r <-o get_raw d id ;;
  match r with
  | RScalar (ScStr s) => x <-o str d (rs_id s) ;; Ok (Some x)
  | _ => Ok None
  end.
(* value.rs 430-435 *)
Definition as_str (id : nat) : outcome (option bytes) :=
  o <-o as_bstr id ;;
  match o with Some x => Ok (if utf8 x then Some x else None) | None => Ok None end.
(* value.rs 453-458 *)
Definition as_bool (id : nat) : outcome (option bool) :=
  r <-o get_raw d id ;;
  match r with RScalar (ScBool v _) => Ok (Some v) | _ => Ok None end.
(* value.rs 490-495, 521-526: Some when the value is a mapping (sequence) *)
Definition as_mapping (id : nat) : outcome (option nat) :=
  r <-o get_raw d id ;;
  match r with RMap _ _ _ => Ok (Some id) | _ => Ok None end.
Definition as_sequence (id : nat) : outcome (option nat) :=
  r <-o get_raw d id ;;
  match r with RSeq _ _ _ => Ok (Some id) | _ => Ok None end.
(* value.rs 543-548 and number.rs 76: as_number().as_raw(), with the hint *)
Definition as_number (id : nat) : outcome (option (bytes * hint)) :=
  r <-o get_raw d id ;;
  match r with
  | RScalar (ScNum s h) => x <-o str d s ;; Ok (Some (x, h))
  | _ => Ok None
  end.
(* value.rs 143-169, 573-582: as_u8 .. as_i128; [t] names the type *)
Definition as_int (t : hint) (id : nat) : outcome (option Z) :=
  r <-o get_raw d id ;;
  match r with
  | RScalar (ScNum s _) =>
    x <-o str d s ;;
    Ok (match int_range t with Some (lo, hi) => parse_int lo hi x | None => None end)
  | _ => Ok None
  end.
(* value.rs 209-219 and 254-264: into_any, as_any *)
Inductive any :=
| ANull | ABool (v : bool) | ANumber (s : bytes) (h : hint) | AString (s : bytes)
| AMapping (id : nat) | ASequence (id : nat) | ARaw (id : nat).
Definition as_any (id : nat) : outcome any :=
  r <-o get_raw d id ;;
  match r with
  | RScalar (ScNull _) => Ok ANull
  | RScalar (ScBool v _) => Ok (ABool v)
  | RScalar (ScNum s h) => x <-o str d s ;; Ok (ANumber x h)
  | RScalar (ScStr s) => x <-o str d (rs_id s) ;; Ok (AString x)
  | RMap _ _ _ => Ok (AMapping id)
  | RSeq _ _ _ => Ok (ASequence id)
  | _ => Ok (ARaw id)
  end.

(* ---- mapping.rs ---- *)
(* mapping.rs 135-137, 161-163 *)
Definition map_len (id : nat) : outcome nat :=
  m <-o mapping d id ;; let '(_, _, items) := m in Ok (length items).
Definition map_is_empty (id : nat) : outcome bool :=
  m <-o mapping d id ;; let '(_, _, items) := m in
  Ok (match items with [] => true | _ => false end).
(* mapping.rs 195-205 (also mapping_mut.rs 316-326, 364-374): the first item whose key has
   the text [key]; returns its position as well (mapping_mut.rs 415-422). *)
Fixpoint find_text (i : nat) (items : list nat) (key : bytes) : outcome (option (nat * nat)) :=
  match items with
  | [] => Ok None
  | it :: items =>
    m <-o mapping_item d it ;; let '(k, v) := m in
    x <-o str d (rs_id k) ;;
    if beq x key then Ok (Some (i, v)) else find_text (S i) items key
  end.
Definition map_get (id : nat) (key : bytes) : outcome (option nat) :=
  m <-o mapping d id ;; let '(_, _, items) := m in
  o <-o find_text 0 items key ;;
  Ok (match o with Some (_, v) => Some v | None => None end).

(* ---- sequence.rs ---- *)
Definition seq_len (id : nat) : outcome nat :=
  m <-o sequence d id ;; let '(_, _, items) := m in Ok (length items).
Definition seq_is_empty (id : nat) : outcome bool :=
  m <-o sequence d id ;; let '(_, _, items) := m in
  Ok (match items with [] => true | _ => false end).
Definition seq_item_opt (it : option nat) : outcome (option nat) :=
  match it with
  | None => Ok None
  | Some it => v <-o sequence_item d it ;; Ok (Some v)
  end.
(* sequence.rs 223-227, 252-256, 281-285 *)
Definition seq_get (id : nat) (i : nat) : outcome (option nat) :=
  m <-o sequence d id ;; let '(_, _, items) := m in seq_item_opt (nth_error items i).
Definition seq_first (id : nat) : outcome (option nat) :=
  m <-o sequence d id ;; let '(_, _, items) := m in seq_item_opt (hd_error items).
Definition seq_last (id : nat) : outcome (option nat) :=
  m <-o sequence d id ;; let '(_, _, items) := m in seq_item_opt (hd_error (rev items)).

(* ---- iter.rs: an iterator is the list of the remaining item ids (slice::Iter) ---- *)
(* slice::Iter::next, next_back, nth: the item, and what remains. *)
Definition sl_next (l : list nat) : option nat * list nat :=
  match l with [] => (None, []) | x :: l => (Some x, l) end.
Definition sl_next_back (l : list nat) : option nat * list nat :=
  match rev l with [] => (None, []) | x :: r => (Some x, rev r) end.
Definition sl_nth (n : nat) (l : list nat) : option nat * list nat :=
  (nth_error l n, skipn (S n) l).
Definition map_item_opt (it : option nat) : outcome (option (bytes * nat)) :=
  match it with
  | None => Ok None
  | Some it =>
    m <-o mapping_item d it ;; let '(k, v) := m in
    x <-o str d (rs_id k) ;; Ok (Some (x, v))
  end.
Definition iter_step {A} (item : option nat -> outcome A) (r : option nat * list nat)
  : outcome (A * list nat) :=
  x <-o item (fst r) ;; Ok (x, snd r).
(* mapping/iter.rs 30-35, 38-43, 46-48, 53-58, 61-66 (nth_back calls nth) *)
Definition map_iter (id : nat) : outcome (list nat) :=
  m <-o mapping d id ;; let '(_, _, items) := m in Ok items.
Definition map_next (it : list nat) := iter_step map_item_opt (sl_next it).
Definition map_nth (n : nat) (it : list nat) := iter_step map_item_opt (sl_nth n it).
Definition map_next_back (it : list nat) := iter_step map_item_opt (sl_next_back it).
Definition map_nth_back (n : nat) (it : list nat) := iter_step map_item_opt (sl_nth n it).
(* sequence/iter.rs 28-31, 34-37, 40-42, 47-50, 53-56 *)
Definition seq_iter (id : nat) : outcome (list nat) :=
  m <-o sequence d id ;; let '(_, _, items) := m in Ok items.
Definition seq_next (it : list nat) := iter_step seq_item_opt (sl_next it).
Definition seq_nth (n : nat) (it : list nat) := iter_step seq_item_opt (sl_nth n it).
Definition seq_next_back (it : list nat) := iter_step seq_item_opt (sl_next_back it).
Definition seq_nth_back (n : nat) (it : list nat) := iter_step seq_item_opt (sl_nth n it).
(* both: size_hint = (len, Some len) *)
Definition iter_len (it : list nat) : nat := length it.
End Readers.

(* value.rs 14-24 Chomp, 39-54 StringKind, 59-77 Block, 87-102 Separator, 108-115 Null *)
Inductive chomp := Strip | Clip | Keep.
Inductive string_kind := SBare | SSingle | SDouble.
Inductive block_kind := Literal (c : chomp) | Folded (c : chomp).
Inductive separator := Auto | Custom (s : bytes).
Inductive null_kind := NuKeyword | NuTilde | NuEmpty.

(* raw.rs 484-507: the loop of detect over chars *)
Fixpoint detect_loop (first : bool) (kind : strk sid) (cs : list bytes) : strk sid :=
  match cs with
  | [] => kind
  | c :: cs =>
    if first && (match c with [c] => is_digit c | _ => false end) then detect_loop false KSingle cs
    else if beq c [SQUOTE] then KDouble
    else if beq c [COLON] then detect_loop false KSingle cs
    else if char_is_control c then KDouble
    else detect_loop false kind cs
  end.
(* raw.rs 478-509: RawStringKind::detect *)
Definition detect (s : bytes) : strk sid :=
  if beq s kw_true || beq s kw_false || beq s kw_null then KSingle
  else detect_loop true KBare (chars s).

(* value.rs 27-33: Chomp::as_byte *)
Definition chomp_byte (c : chomp) : bytes :=
  match c with Strip => [DASH] | Clip => [] | Keep => [PLUS] end.
(* raw.rs 162-171: the written text and the content of a block *)
Fixpoint block_original (prefix : bytes) (indent : nat) (parts : list bytes) : bytes :=
  match parts with
  | [] => []
  | p :: ps => [NEWLINE] ++ prefix ++ repeat SPACE indent ++ p ++ block_original prefix indent ps
  end.
Fixpoint block_content (join : byte) (parts : list bytes) : bytes :=
  match parts with
  | [] => []
  | [p] => p
  | p :: ps => p ++ [join] ++ block_content join ps
  end.

Section Edit.
Variable hash : bytes -> sid.
Local Notation intern := (insert_str hash).

(* raw.rs 36-39 *)
Definition new_bool (v : bool) : D (raw sid) :=
  s <- intern (if v then kw_true else kw_false) ;; ret (RScalar (ScBool v s)).
(* raw.rs 42-49 *)
Definition new_string (s : bytes) : D (raw sid) :=
  x <- intern s ;; ret (RScalar (ScStr (RS (detect s) x x))).
(* raw.rs 120-132 *)
Definition new_string_with (s : bytes) (k : string_kind) : D (raw sid) :=
  x <- intern s ;;
  ret (RScalar (ScStr (RS (match k with SBare => KBare | SSingle => KSingle | SDouble => KDouble end) x x))).
(* raw.rs 52-117 *)
Definition make_indent (id extra : nat) : D (nat * sid) :=
  parent <- read (fun d => parent_id d id) ;;
  container <- match parent with
               | None => ret None
               | Some p => read (fun d => parent_id d p)
               end ;;
  found <- match container with
           | None => ret None
           | Some c =>
             e <- read (fun d => get_entry d c) ;;
             match e_raw e with
             | RMap i _ _ => ret (Some (i, false, e_prefix e))
             | RSeq i k _ => ret (Some (i, match k with CBlock => true | _ => false end, e_prefix e))
             | _ => ret None
             end
           end ;;
  match found with
  | None =>
    p <- read (fun d => prefix_id d id) ;;
    x <- read (fun d => str d p) ;;
    let indent := (count_indent x + extra)%nat in
    if (extra =? 0)%nat then ret (indent, p) else
    q <- intern (x ++ repeat SPACE extra) ;; ret (indent, q)
  | Some (indent, is_sequence_mapping, layout) =>
    item <- (if is_sequence_mapping : bool then
               match parent with
               | None => ret None
               | Some p =>
                 e <- read (fun d => get_entry d p) ;;
                 ret (match e_raw e with RSeqItem _ => Some (e_prefix e) | _ => None end)
               end
             else ret None) ;;
    match item with
    | Some lp =>
      x <- read (fun d => str d lp) ;;
      q <- intern [SPACE] ;;
      ret ((count_indent x + 2 + extra)%nat, q)
    | None =>
      let indent := (indent + 2)%nat in
      x <- read (fun d => str d layout) ;;
      q <- intern (NEWLINE :: concat (firstn indent (chars (after_last_nl x) ++ repeat [SPACE] indent))) ;;
      ret (indent, q)
    end
  end.
(* raw.rs 135-185 *)
Definition new_block (id : nat) (parts : list bytes) (block : block_kind) : D (raw sid) :=
  r <- read (fun d => get_raw d id) ;;
  '(indent, prefix) <-
    match r with
    | RMap i _ _ | RSeq i _ _ => ret ((i + 2)%nat, [])
    | _ => p <- read (fun d => prefix_id d id) ;;
           x <- read (fun d => str d p) ;;
           ret (2%nat, after_last_nl x)
    end ;;
  let '(mark, join, chomp) :=
    match block with
    | Literal c => (PIPE, NEWLINE, c)
    | Folded c => (GT, SPACE, c)
    end in
  let original := [mark] ++ chomp_byte chomp ++ block_original prefix indent parts in
  let out := block_content join parts ++ (match chomp with Strip => [] | _ => [NEWLINE] end) in
  o <- intern original ;;
  s <- intern out ;;
  ret (RScalar (ScStr (RS KOriginal s o))).

(* ---- value_mut.rs ---- *)
(* value_mut.rs 389-396 *)
Definition set_null (id : nat) (k : null_kind) : D unit :=
  r <- match k with
       | NuKeyword => s <- intern kw_null ;; ret (NKeyword s)
       | NuTilde => ret NTilde
       | NuEmpty => ret NEmpty
       end ;;
  replace id (RScalar (ScNull r)).
(* value_mut.rs 441-447 *)
Definition set_string (id : nat) (s : bytes) : D unit := r <- new_string s ;; replace id r.
(* value_mut.rs 467-473 *)
Definition set_string_with (id : nat) (s : bytes) (k : string_kind) : D unit :=
  r <- new_string_with s k ;; replace id r.
(* value_mut.rs 572-579 *)
Definition set_block (id : nat) (parts : list bytes) (k : block_kind) : D unit :=
  r <- new_block id parts k ;; replace id r.
(* value_mut.rs 595-598 *)
Definition set_bool (id : nat) (v : bool) : D unit := r <- new_bool v ;; replace id r.
(* value_mut.rs 334-338 and 358-362: the text is that of ryu or itoa *)
Definition new_number (text : bytes) (h : hint) : D (raw sid) :=
  s <- intern text ;; ret (RScalar (ScNum s h)).
Definition set_number (id : nat) (text : bytes) (h : hint) : D unit :=
  r <- new_number text h ;; replace id r.
Definition set_int (id : nat) (h : hint) (z : Z) : D unit := set_number id (itoa z) h.
(* value_mut.rs 692-708 *)
Definition make_mapping (id : nat) : D nat :=
  r <- read (fun d => get_raw d id) ;;
  match r with
  | RMap _ _ _ => ret id
  | _ => '(indent, prefix) <- make_indent id 0 ;;
         replace_with id prefix (RMap indent CBlock []) ;;; ret id
  end.
(* value_mut.rs 758-774 *)
Definition make_sequence (id : nat) : D nat :=
  r <- read (fun d => get_raw d id) ;;
  match r with
  | RSeq _ _ _ => ret id
  | _ => '(indent, prefix) <- make_indent id 0 ;;
         replace_with id prefix (RSeq indent CBlock []) ;;; ret id
  end.

(* ---- mapping_mut.rs ---- *)
(* out = [NEWLINE]; out.resize(n, SPACE): mapping_mut.rs 140-148, sequence_mut.rs 94-102 *)
Definition nl_indent (n : nat) : bytes := firstn n (NEWLINE :: repeat SPACE (n - 1)).
(* mapping_mut.rs 154-161: the value of the first item whose key is the interned string *)
Fixpoint find_key (items : list nat) (key : sid) (d : data) : outcome (option nat) :=
  match items with
  | [] => Ok None
  | it :: items =>
    match mapping_item d it with
    | Ok (k, v) => if beq (rs_id k) key then Ok (Some v) else find_key items key d
    | _ => Panic
    end
  end.
(* raw.rs 311-322: is_tabular *)
Definition is_tabular (r : raw sid) : bool :=
  match r with RSeq _ CBlock _ | RMap _ CBlock _ => true | _ => false end.
(* mapping_mut.rs 204, sequence_mut.rs 132: items.push *)
Definition map_push (id item : nat) : D unit :=
  '(i, k, items) <- read (fun d => mapping d id) ;; set_raw id (RMap i k (items ++ [item])).
Definition seq_push (id item : nat) : D unit :=
  '(i, k, items) <- read (fun d => sequence d id) ;; set_raw id (RSeq i k (items ++ [item])).
(* mapping_mut.rs 151-206 *)
Definition inner_insert (id : nat) (key : bytes) (sep : separator) (value : raw sid) : D nat :=
  k <- intern key ;;
  '(indent, _, items) <- read (fun d => mapping d id) ;;
  found <- read (find_key items k) ;;
  match found with
  | Some v => replace v value ;;; ret v
  | None =>
    item_prefix <- intern (match items with [] => [] | _ => nl_indent (indent + 1) end) ;;
    item_id <- insert (RScalar (ScNull NEmpty)) item_prefix (Some id) ;;
    value_prefix <-
      match sep with
      | Custom s => intern s
      | Auto =>
        if is_tabular value then
          match hd_error (rev items) with
          | Some last =>
            '(_, v) <- read (fun d => mapping_item d last) ;; read (fun d => prefix_id d v)
          | None => intern (nl_indent (indent + 2))
          end
        else intern [SPACE]
      end ;;
    v <- insert value value_prefix (Some item_id) ;;
    replace item_id (RMapItem (RS KBare k k) v) ;;;
    map_push id item_id ;;;
    ret v
  end.
(* mapping_mut.rs 500-506, 534-541, 652-660, 688-694, 81-89 and 122-130 *)
Definition map_insert (id : nat) (key : bytes) (sep : separator) : D nat :=
  inner_insert id key sep (RScalar (ScNull NEmpty)).
Definition map_insert_str (id : nat) (key s : bytes) : D nat :=
  r <- new_string s ;; inner_insert id key Auto r.
Definition map_insert_block (id : nat) (key : bytes) (parts : list bytes) (k : block_kind) : D nat :=
  r <- new_block id parts k ;; inner_insert id key Auto r.
Definition map_insert_bool (id : nat) (key : bytes) (v : bool) : D nat :=
  r <- new_bool v ;; inner_insert id key Auto r.
Definition map_insert_number (id : nat) (key : bytes) (text : bytes) (h : hint) : D nat :=
  r <- new_number text h ;; inner_insert id key Auto r.
(* Vec::remove *)
Definition remove_at {A} (i : nat) (l : list A) : list A := firstn i l ++ skipn (S i) l.
(* mapping_mut.rs 412-431 *)
Definition map_remove (id : nat) (key : bytes) : D bool :=
  '(ind, k, items) <- read (fun d => mapping d id) ;;
  o <- read (fun d => find_text d 0 items key) ;;
  match o with
  | None => ret false
  | Some (i, _) =>
    match nth_error items i with
    | None => panic
    | Some item =>
      set_raw id (RMap ind k (remove_at i items)) ;;;
      drop item ;;;
      ret true
    end
  end.
(* The loop of clear: self.data.drop(item) for each item *)
Fixpoint drop_items (l : list nat) : D unit :=
  match l with
  | [] => ret tt
  | x :: l => drop x ;;; drop_items l
  end.
(* mapping_mut.rs 459-467 *)
Definition map_clear (id : nat) : D unit :=
  '(ind, k, items) <- read (fun d => mapping d id) ;;
  set_raw id (RMap ind k []) ;;;
  drop_items items ;;;
  '(ind, k, _) <- read (fun d => mapping d id) ;;
  set_raw id (RMap ind k []).

(* ---- sequence_mut.rs ---- *)
(* sequence_mut.rs 105-134 *)
Definition inner_push (id : nat) (sep : separator) (value : raw sid) : D nat :=
  '(indent, _, items) <- read (fun d => sequence d id) ;;
  item_prefix <- intern (match items with [] => [] | _ => nl_indent (indent + 1) end) ;;
  item_id <- insert (RScalar (ScNull NEmpty)) item_prefix (Some id) ;;
  value_prefix <-
    match sep with
    | Custom s => intern s
    | Auto =>
      match hd_error (rev items) with
      | Some last => v <- read (fun d => sequence_item d last) ;; read (fun d => prefix_id d v)
      | None => intern [SPACE]
      end
    end ;;
  v <- insert value value_prefix (Some item_id) ;;
  replace item_id (RSeqItem v) ;;;
  seq_push id item_id ;;;
  ret v.
(* sequence_mut.rs 393-396, 425-431, 542-549, 578-581, 41-46 and 79-84 *)
Definition seq_push_null (id : nat) (sep : separator) : D nat :=
  inner_push id sep (RScalar (ScNull NEmpty)).
Definition seq_push_string (id : nat) (s : bytes) : D nat :=
  r <- new_string s ;; inner_push id Auto r.
Definition seq_push_block (id : nat) (parts : list bytes) (k : block_kind) : D nat :=
  r <- new_block id parts k ;; inner_push id Auto r.
Definition seq_push_bool (id : nat) (v : bool) : D nat :=
  r <- new_bool v ;; inner_push id Auto r.
Definition seq_push_number (id : nat) (text : bytes) (h : hint) : D nat :=
  r <- new_number text h ;; inner_push id Auto r.
(* sequence_mut.rs 316-326 *)
Definition seq_remove (id i : nat) : D bool :=
  '(ind, k, items) <- read (fun d => sequence d id) ;;
  match nth_error items i with
  | None => ret false
  | Some item =>
    set_raw id (RSeq ind k (remove_at i items)) ;;;
    drop item ;;;
    ret true
  end.
(* sequence_mut.rs 353-361 *)
Definition seq_clear (id : nat) : D unit :=
  '(ind, k, items) <- read (fun d => sequence d id) ;;
  set_raw id (RSeq ind k []) ;;;
  drop_items items ;;;
  '(ind, k, _) <- read (fun d => sequence d id) ;;
  set_raw id (RSeq ind k []).

(* ---- One call on a document: value_mut(id), then (for mapping and sequence operations)
   as_mapping_mut / as_sequence_mut, then the operation ---- *)
Inductive edit :=
| SetNull (k : null_kind) | SetString (s : bytes) | SetStringWith (s : bytes) (k : string_kind)
| SetBlock (parts : list bytes) (k : block_kind) | SetBool (v : bool)
| SetInt (h : hint) (z : Z) | SetFloat (h : hint) (text : bytes)
| MakeMapping | MakeSequence
| Insert (key : bytes) (sep : separator) | InsertStr (key s : bytes)
| InsertBlock (key : bytes) (parts : list bytes) (k : block_kind)
| InsertBool (key : bytes) (v : bool) | InsertInt (key : bytes) (h : hint) (z : Z)
| InsertFloat (key : bytes) (h : hint) (text : bytes)
| RemoveKey (key : bytes) | ClearMapping
| Push (sep : separator) | PushString (s : bytes)
| PushBlock (parts : list bytes) (k : block_kind)
| PushBool (v : bool) | PushInt (h : hint) (z : Z) | PushFloat (h : hint) (text : bytes)
| RemoveIndex (i : nat) | ClearSequence.
(* What the call gives back: nothing, a handle, a bool, or None of as_*_mut. *)
Inductive edit_result := Done | Handle (id : nat) | Removed (v : bool) | NotApplicable.

(* value_mut.rs 172-177, 269-274 *)
Definition on_mapping (id : nat) (m : D edit_result) : D edit_result :=
  r <- read (fun d => get_raw d id) ;;
  match r with RMap _ _ _ => m | _ => ret NotApplicable end.
Definition on_sequence (id : nat) (m : D edit_result) : D edit_result :=
  r <- read (fun d => get_raw d id) ;;
  match r with RSeq _ _ _ => m | _ => ret NotApplicable end.
Definition done (m : D unit) : D edit_result := m ;;; ret Done.
Definition handle (m : D nat) : D edit_result := x <- m ;; ret (Handle x).
Definition removed (m : D bool) : D edit_result := x <- m ;; ret (Removed x).
Definition run (id : nat) (e : edit) : D edit_result :=
  match e with
  | SetNull k => done (set_null id k)
  | SetString s => done (set_string id s)
  | SetStringWith s k => done (set_string_with id s k)
  | SetBlock ps k => done (set_block id ps k)
  | SetBool v => done (set_bool id v)
  | SetInt h z => done (set_int id h z)
  | SetFloat h t => done (set_number id t h)
  | MakeMapping => handle (make_mapping id)
  | MakeSequence => handle (make_sequence id)
  | Insert k s => on_mapping id (handle (map_insert id k s))
  | InsertStr k s => on_mapping id (handle (map_insert_str id k s))
  | InsertBlock k ps b => on_mapping id (handle (map_insert_block id k ps b))
  | InsertBool k v => on_mapping id (handle (map_insert_bool id k v))
  | InsertInt k h z => on_mapping id (handle (map_insert_number id k (itoa z) h))
  | InsertFloat k h t => on_mapping id (handle (map_insert_number id k t h))
  | RemoveKey k => on_mapping id (removed (map_remove id k))
  | ClearMapping => on_mapping id (done (map_clear id))
  | Push s => on_sequence id (handle (seq_push_null id s))
  | PushString s => on_sequence id (handle (seq_push_string id s))
  | PushBlock ps b => on_sequence id (handle (seq_push_block id ps b))
  | PushBool v => on_sequence id (handle (seq_push_bool id v))
  | PushInt h z => on_sequence id (handle (seq_push_number id (itoa z) h))
  | PushFloat h t => on_sequence id (handle (seq_push_number id t h))
  | RemoveIndex i => on_sequence id (removed (seq_remove id i))
  | ClearSequence => on_sequence id (done (seq_clear id))
  end.
End Edit.
