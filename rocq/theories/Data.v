(* Model of src/yaml/data.rs and of the data types of src/yaml/raw.rs. *)
From Coq Require Import List NArith Bool Arith.
From Verif Require Import Bytes.
Import ListNotations.

(* ErrorKind, src/yaml/error.rs. *)
Inductive ekind :=
| ExpectedEof | BadEscape | BadHexEscape | BadUnicodeEscape
| BadSequenceTerminator | BadMappingTerminator | BadMappingSeparator.

(* Result of running Rust code: a value, an Err return with its span, a loop that can never
   leave its state again, a panic, or (model only) too little fuel. *)
Inductive outcome (A : Type) :=
| Ok (a : A)
| Err (start stop : nat) (k : ekind)
| Hang
| Panic
| OutOfFuel.
Arguments Ok {A} _.
Arguments Err {A} _ _ _.
Arguments Hang {A}.
Arguments Panic {A}.
Arguments OutOfFuel {A}.

(* State monad with outcomes. *)
Definition ST (S A : Type) := S -> outcome (A * S).
Definition ret {S A} (a : A) : ST S A := fun s => Ok (a, s).
Definition bind {S A B} (m : ST S A) (f : A -> ST S B) : ST S B :=
  fun s => match m s with
           | Ok (a, s) => f a s
           | Err x y k => Err x y k
           | Hang => Hang
           | Panic => Panic
           | OutOfFuel => OutOfFuel
           end.
Definition fail {S A} (o : outcome (A * S)) : ST S A := fun _ => o.
Notation "x <- m ;; k" := (bind m (fun x => k)) (at level 61, m at next level, right associativity).
Notation "' p <- m ;; k" := (bind m (fun x => let p := x in k))
  (at level 61, p pattern, m at next level, right associativity).
Notation "m ;;; k" := (bind m (fun _ => k)) (at level 61, right associativity).
Definition panic {S A} : ST S A := fail Panic.

(* Data types of raw.rs, polymorphic in the type of strings: StringId in the store, bytes in
   the abstract trees of the proofs. Ids (data.rs 70) are slab indices. *)
(* raw.rs 344: Null *)
Inductive nullk (S : Type) := NKeyword (s : S) | NTilde | NEmpty.
Arguments NKeyword {S} _. Arguments NTilde {S}. Arguments NEmpty {S}.
(* raw.rs 464: RawStringKind *)
Inductive strk (S : Type) := KBare | KSingle | KDouble | KOriginal | KMultiline (prefix : S).
Arguments KBare {S}. Arguments KSingle {S}. Arguments KDouble {S}. Arguments KOriginal {S}.
Arguments KMultiline {S} _.
(* raw.rs 514: String *)
Record rstr (S : Type) := RS { rs_kind : strk S; rs_id : S; rs_orig : S }.
Arguments RS {S} _ _ _. Arguments rs_kind {S} _. Arguments rs_id {S} _. Arguments rs_orig {S} _.
(* mod.rs 112-137: RawNumberHint (with feature serde) *)
Inductive hint :=
| Float32 | Float64 | Unsigned8 | Unsigned16 | Unsigned32 | Unsigned64 | Unsigned128
| Signed8 | Signed16 | Signed32 | Signed64 | Signed128.
(* The four scalar variants of raw.rs 201: Raw, with raw.rs 406 Boolean, 433 Number. *)
Inductive scalar (S : Type) :=
| ScNull (k : nullk S)
| ScBool (v : bool) (s : S)
| ScNum (s : S) (h : hint)
| ScStr (s : rstr S).
Arguments ScNull {S} _. Arguments ScBool {S} _ _. Arguments ScNum {S} _ _. Arguments ScStr {S} _.
(* raw.rs 712 SequenceKind and 859 MappingKind, which have the same shape. *)
Inductive ckind (S : Type) := CBlock | CInline (trailing : bool) (suffix : S).
Arguments CBlock {S}. Arguments CInline {S} _ _.
(* raw.rs 201: Raw *)
Inductive raw (S : Type) :=
| RScalar (s : scalar S)
| RMap (indent : nat) (kind : ckind S) (items : list nat)
| RMapItem (key : rstr S) (value : nat)
| RSeq (indent : nat) (kind : ckind S) (items : list nat)
| RSeqItem (value : nat).
Arguments RScalar {S} _. Arguments RMap {S} _ _ _. Arguments RMapItem {S} _ _.
Arguments RSeq {S} _ _ _. Arguments RSeqItem {S} _.

(* StringId([u8; 16]), data.rs 19. *)
Definition sid := bytes.

(* data.rs 87: Entry, with raw.rs 189: Layout. *)
Record entry := Entry { e_raw : raw sid; e_prefix : sid; e_parent : option nat }.

(* ---- slab::Slab (external crate): slots chained into a LIFO free list ---- *)
Inductive slot := Occupied (e : entry) | Vacant (next : nat).
Record slab := Slab { sl_entries : list slot; sl_next : nat }.
Definition slab_empty : slab := Slab [] 0.
Definition slab_get (s : slab) (k : nat) : option entry :=
  match nth_error (sl_entries s) k with Some (Occupied e) => Some e | _ => None end.
Fixpoint list_set {A} (l : list A) (k : nat) (x : A) : list A :=
  match l, k with
  | [], _ => []
  | _ :: l, O => x :: l
  | y :: l, S k => y :: list_set l k x
  end.
(* Slab::insert; the last case is unreachable!() in the crate. *)
Definition slab_insert (s : slab) (e : entry) : option (nat * slab) :=
  let k := sl_next s in
  if k =? length (sl_entries s) then Some (k, Slab (sl_entries s ++ [Occupied e]) (S k))
  else match nth_error (sl_entries s) k with
       | Some (Vacant next) => Some (k, Slab (list_set (sl_entries s) k (Occupied e)) next)
       | _ => None
       end.
(* Slab::get_mut followed by an assignment through the reference. *)
Definition slab_set (s : slab) (k : nat) (e : entry) : slab :=
  Slab (list_set (sl_entries s) k (Occupied e)) (sl_next s).
(* Slab::try_remove *)
Definition slab_try_remove (s : slab) (k : nat) : option (entry * slab) :=
  match slab_get s k with
  | Some e => Some (e, Slab (list_set (sl_entries s) k (Vacant (sl_next s))) k)
  | None => None
  end.
(* Number of occupied slots: Slab::len. *)
Definition slab_len (s : slab) : nat :=
  length (filter (fun x => match x with Occupied _ => true | _ => false end) (sl_entries s)).

(* data.rs 95: Data. The HashMap is an association list in which the first entry of a key
   counts. Strings whose id was already taken by another string are recorded behind it, where
   no lookup finds them: this does not change what the code can observe, and it allows to say
   that no collision has happened. *)
Record data := Data { d_strings : list (sid * bytes); d_slab : slab }.
Definition data_empty : data := Data [] slab_empty.

Definition set_slab (d : data) (s : slab) : data := Data (d_strings d) s.

Fixpoint assoc (k : sid) (l : list (sid * bytes)) : option bytes :=
  match l with
  | [] => None
  | (k', v) :: l => if beq k k' then Some v else assoc k l
  end.

Section Data.
(* The xxh3-128 hash of data.rs 117-121, arbitrary. *)
Variable hash : bytes -> sid.

Definition D A := ST data A.

(* data.rs 104-110: str *)
Definition str (d : data) (id : sid) : outcome bytes :=
  match assoc id (d_strings d) with Some s => Ok s | None => Panic end.

(* data.rs 113-128: insert_str *)
Definition insert_str (s : bytes) : D sid := fun d =>
  let id := hash s in
  match assoc id (d_strings d) with
  | Some s' => if beq s s' then Ok (id, d)
               else Ok (id, Data (d_strings d ++ [(id, s)]) (d_slab d))
  | None => Ok (id, Data ((id, s) :: d_strings d) (d_slab d))
  end.

(* Lift a reader into the monad. *)
Definition read {S A} (f : S -> outcome A) : ST S A := fun s =>
  match f s with
  | Ok a => Ok (a, s)
  | Err x y k => Err x y k
  | Hang => Hang
  | Panic => Panic
  | OutOfFuel => OutOfFuel
  end.

Definition get_entry (d : data) (id : nat) : outcome entry :=
  match slab_get (d_slab d) id with Some e => Ok e | None => Panic end.

(* data.rs 131-137: layout; 145-151: pair; 154-160: raw (all panic when absent). *)
Definition prefix_id (d : data) (id : nat) : outcome sid :=
  match get_entry d id with Ok e => Ok (e_prefix e) | _ => Panic end.
Definition parent_id (d : data) (id : nat) : outcome (option nat) :=
  match get_entry d id with Ok e => Ok (e_parent e) | _ => Panic end.
Definition get_raw (d : data) (id : nat) : outcome (raw sid) :=
  match get_entry d id with Ok e => Ok (e_raw e) | _ => Panic end.
(* data.rs 140-142: prefix *)
Definition prefix (d : data) (id : nat) : outcome bytes :=
  match prefix_id d id with Ok p => str d p | _ => Panic end.

(* data.rs 172-182: sequence; 198-208: mapping; 211-221: sequence_item; 224-234: mapping_item *)
Definition sequence (d : data) (id : nat) : outcome (nat * ckind sid * list nat) :=
  match get_raw d id with Ok (RSeq i k l) => Ok (i, k, l) | _ => Panic end.
Definition mapping (d : data) (id : nat) : outcome (nat * ckind sid * list nat) :=
  match get_raw d id with Ok (RMap i k l) => Ok (i, k, l) | _ => Panic end.
Definition sequence_item (d : data) (id : nat) : outcome nat :=
  match get_raw d id with Ok (RSeqItem v) => Ok v | _ => Panic end.
Definition mapping_item (d : data) (id : nat) : outcome (rstr sid * nat) :=
  match get_raw d id with Ok (RMapItem k v) => Ok (k, v) | _ => Panic end.

(* data.rs 163-169, 185-195, 237-247: raw_mut, sequence_mut, mapping_mut followed by an
   assignment of the whole value. *)
Definition set_raw (id : nat) (r : raw sid) : D unit := fun d =>
  match slab_get (d_slab d) id with
  | Some e => Ok (tt, set_slab d (slab_set (d_slab d) id (Entry r (e_prefix e) (e_parent e))))
  | None => Panic
  end.

(* data.rs 251-258: insert (the expect on NonZeroUsize needs usize::MAX slots) *)
Definition insert (r : raw sid) (prefix : sid) (parent : option nat) : D nat := fun d =>
  match slab_insert (d_slab d) (Entry r prefix parent) with
  | Some (k, s) => Ok (k, set_slab d s)
  | None => Panic
  end.

(* data.rs 262-268: drop, and 272-294: drop_kind, mutually recursive; [f] is fuel. The two
   loops over items are [drop_all]. *)
Section Drop.
  Variable drop_kind : raw sid -> D unit.
  Definition drop_id (id : nat) : D unit := fun d =>
    match slab_try_remove (d_slab d) id with
    | None => Ok (tt, d)
    | Some (e, s) => drop_kind (e_raw e) (set_slab d s)
    end.
  Fixpoint drop_all (l : list nat) : D unit :=
    match l with
    | [] => ret tt
    | id :: l => drop_id id ;;; drop_all l
    end.
  Definition drop_value (id : nat) : D unit := fun d =>
    match slab_try_remove (d_slab d) id with
    | None => Panic
    | Some (e, s) => drop_kind (e_raw e) (set_slab d s)
    end.
End Drop.
Fixpoint drop_kind_f (f : nat) (r : raw sid) : D unit :=
  match f with
  | O => fail OutOfFuel
  | S f =>
    match r with
    | RMap _ _ items | RSeq _ _ items => drop_all (drop_kind_f f) items
    | RMapItem _ v | RSeqItem v => drop_value (drop_kind_f f) v
    | RScalar _ => ret tt
    end
  end.
(* Each nested call removed an entry first, so the number of slots bounds the depth. *)
Definition drop_fuel (d : data) : nat := S (S (length (sl_entries (d_slab d)))).
Definition drop_kind (r : raw sid) : D unit := fun d => drop_kind_f (drop_fuel d) r d.
Definition drop (id : nat) : D unit := fun d => drop_id (drop_kind_f (drop_fuel d)) id d.

(* data.rs 297-307: replace *)
Definition replace (id : nat) (r : raw sid) : D unit := fun d =>
  match slab_get (d_slab d) id with
  | None => Ok (tt, d)
  | Some e =>
    drop_kind (e_raw e) (set_slab d (slab_set (d_slab d) id (Entry r (e_prefix e) (e_parent e))))
  end.

(* data.rs 310-318: replace_with *)
Definition replace_with (id : nat) (prefix : sid) (r : raw sid) : D unit := fun d =>
  match slab_get (d_slab d) id with
  | None => Ok (tt, d)
  | Some e =>
    drop_kind (e_raw e) (set_slab d (slab_set (d_slab d) id (Entry r prefix (e_parent e))))
  end.
End Data.

(* document.rs 32: Document *)
Record document := Doc { doc_suffix : sid; doc_root : nat; doc_data : data }.
