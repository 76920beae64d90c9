(* Sessions: a text of the grammar is loaded and edited, and the data it stands for change with
   it. Everything here is said through the iterators, the printed text of values and the grammar
   of Grammar.v. *)
From Coq Require Import String.
From Coq Require Import List NArith Bool Arith.
From Verif Require Import Bytes Utf8 Data Parser Render Tree Scan Num Api Ctx Built Shown Plain Grammar Laid Swap Grow Open Tidy.
Import ListNotations.
Local Open Scope N_scope.

(* ---- what the API shows ---- *)
(* The value at a place, given by positions, through the iterators. *)
Inductive place (doc : document) : list nat -> nat -> Prop :=
| place_root : place doc [] (doc_root doc)
| place_map p id l j k x : place doc p id -> map_entries (doc_data doc) id l -> nth_error l j = Some (k, x) -> place doc (p ++ [j]) x
| place_seq p id l j x : place doc p id -> seq_entries (doc_data doc) id l -> nth_error l j = Some x -> place doc (p ++ [j]) x.
Definition prints (doc : document) (id : nat) (x : bytes) : Prop := value_write_to (doc_data doc) id = Ok x.
(* The place is in no flow collection. *)
Definition outside (doc : document) (p : list nat) : Prop := forall q r id y, p = q ++ r -> r <> [] ->
  place doc q id -> prints doc id y -> ~ In (hd EOF y) (b "[{").
(* The place is in a flow collection and right behind it is a comma or a bracket. *)
Definition no_space_at_end (y : bytes) : Prop := exists z c, y = z ++ [c; RBRACK] /\ ~ white c.
Definition tight (doc : document) (p : list nat) : Prop := exists q j id y, p = q ++ [j] /\ place doc q id /\ prints doc id y /\
  (hd EOF y = LBRACE \/ hd EOF y = LBRACK /\ ((exists x, place doc (q ++ [S j]) x) \/ no_space_at_end y)).
(* No block scalar, no empty value, at the place or in the collection there. *)
Definition in_lines (doc : document) (p : list nat) : Prop := forall q id y, place doc (p ++ q) id -> prints doc id y -> ~ In (hd EOF y) (b "|>").
Definition filled (doc : document) (p : list nat) : Prop := forall q id y, place doc (p ++ q) id -> prints doc id y -> y <> [].
(* A scalar of text x, standing for d, can be written at the place. *)
Definition fitting (doc : document) (p : list nat) (x : bytes) (d : datum) : Prop := (p = [] -> doc_start x) /\
  (portable x d \/ (written x d /\ (outside doc p \/ (flow_word x /\ tight doc p)))).

(* ---- what the calls mean ---- *)
Inductive means : edit -> datum -> Prop :=
| m_null k : k <> NuEmpty -> means (SetNull k) DNull
| m_bool v : means (SetBool v) (DBool v)
| m_int h z h' : means (SetInt h z) (DNum (itoa z) h')
| m_float h t h' : means (SetFloat h t) (DNum t h')
| m_string s : means (SetString s) (DStr s)
| m_string_with s k : means (SetStringWith s k) (DStr s)
| m_insert_bool k v : means (InsertBool k v) (DBool v)
| m_insert_int k h z h' : means (InsertInt k h z) (DNum (itoa z) h')
| m_insert_float k h t h' : means (InsertFloat k h t) (DNum t h')
| m_insert_str k s : means (InsertStr k s) (DStr s)
| m_push_bool v : means (PushBool v) (DBool v)
| m_push_int h z h' : means (PushInt h z) (DNum (itoa z) h')
| m_push_float h t h' : means (PushFloat h t) (DNum t h')
| m_push_str s : means (PushString s) (DStr s).
(* Calls that write a block scalar, and its content: the lines, joined. *)
Fixpoint joined (sep : bytes) (parts : list bytes) : bytes :=
  match parts with [] => [] | [l] => l | l :: ls => l ++ sep ++ joined sep ls end.
Definition lines_value (parts : list bytes) (k : block_kind) : bytes :=
  let '(sep, c) := match k with Literal c => ([NEWLINE], c) | Folded c => ([SPACE], c) end in
  joined sep parts ++ match c with Strip => [] | _ => [NEWLINE] end.
Inductive means_block : edit -> bytes -> Prop :=
| mb_set ps k : means_block (SetBlock ps k) (lines_value ps k)
| mb_insert key ps k : means_block (InsertBlock key ps k) (lines_value ps k)
| mb_push ps k : means_block (PushBlock ps k) (lines_value ps k).
(* The text behind the value, seen by writing two words in its place. *)
Definition behind (hash : bytes -> sid) (doc : document) (id : nat) (post : bytes) : Prop := exists pre d1 d2,
  run hash id (SetNull NuTilde) (doc_data doc) = Ok (Done, d1) /\ run hash id (SetBool true) (doc_data doc) = Ok (Done, d2) /\
  no_collision hash d1 /\ no_collision hash d2 /\
  write_to (edited doc d1) = Ok (pre ++ b "~" ++ post) /\ write_to (edited doc d2) = Ok (pre ++ b "true" ++ post).
(* Calls that leave an empty value, to be written next. *)
Definition sep_ok (s : separator) : Prop := match s with Custom x => gap x /\ utf8 x = true | Auto => True end.
Inductive unwritten : edit -> Prop :=
| un_null : unwritten (SetNull NuEmpty)
| un_insert k s : sep_ok s -> unwritten (Insert k s)
| un_push s : sep_ok s -> unwritten (Push s).
Definition set_call (e : edit) : Prop := match e with
  | SetNull _ | SetBool _ | SetInt _ _ | SetFloat _ _ | SetString _ | SetStringWith _ _ | SetBlock _ _ => True
  | _ => False
  end.
Definition insert_key (e : edit) : option bytes := match e with
  | Insert k _ | InsertStr k _ | InsertBool k _ | InsertInt k _ _ | InsertFloat k _ _ | InsertBlock k _ _ => Some k
  | _ => None
  end.
Definition push_call (e : edit) : Prop := match e with
  | Push _ | PushString _ | PushBool _ | PushInt _ _ | PushFloat _ _ | PushBlock _ _ => True
  | _ => False
  end.
(* The call has written the value h at the place, for the datum d; or it is to be written. *)
Definition fills (hash : bytes -> sid) (doc doc' : document) (p : list nat) (h : nat) (e : edit) (d : datum) (o : option (list nat)) : Prop :=
  (o = None /\ means e d /\ exists x, prints doc' h x /\ fitting doc p x d) \/ (o = Some p /\ unwritten e /\ d = DNull) \/
  (o = None /\ exists x v post, means_block e v /\ d = DStr v /\ outside doc p /\ prints doc' h x /\ behind hash doc' h post /\ block_scalar x v post).

(* ---- where there is room ---- *)
Definition flow_at (doc : document) (id : nat) (y : bytes) : Prop := prints doc id y /\ In (hd EOF y) (b "[{").
Definition block_at (doc : document) (id : nat) : Prop := exists y, prints doc id y /\ ~ In (hd EOF y) (b "[{").
(* For another entry at the end of the mapping whose entries are l. *)
Definition room_key (doc : document) (p : list nat) (id : nat) (key : bytes) (l : list (bytes * nat)) : Prop :=
  (block_at doc id /\ plain_key key /\ (l <> [] -> hd EOF key <> DASH) /\ (p = [] -> l = [] -> doc_start key) /\
    forall j, length l = S j -> in_lines doc (p ++ [j])) \/
  (exists y, flow_at doc id y /\ flow_key key /\ (l = [] -> y = b "{}")).
Definition room_item (doc : document) (p : list nat) (id : nat) (l : list nat) : Prop :=
  (block_at doc id /\ forall j, length l = S j -> in_lines doc (p ++ [j]) /\ filled doc (p ++ [j])) \/ exists y, flow_at doc id y.
(* For what is left when an entry between l1 and l2 is taken away; y is printed afterwards. *)
Definition closes_key (doc doc' : document) (p : list nat) (id : nat) (l1 l2 : list (bytes * nat)) (o : option (list nat)) : Prop :=
  (block_at doc id /\ l1 ++ l2 <> [] /\ o = None /\
    (p = [] -> l1 = [] -> forall k x l, l2 = (k, x) :: l -> doc_start k) /\
    (l1 <> [] -> forall k x l, l2 = (k, x) :: l -> hd EOF k <> DASH) /\
    forall j, length l1 = S j -> in_lines doc (p ++ [j]) /\ (l2 = [] -> filled doc (p ++ [j]))) \/
  (block_at doc id /\ l1 ++ l2 = [] /\ o = Some p) \/
  (exists y y', flow_at doc id y /\ prints doc' id y' /\ o = None /\ (l1 ++ l2 = [] -> flow y' (DMap []))).
Definition closes_item (doc doc' : document) (p : list nat) (id : nat) (l1 l2 : list nat) (o : option (list nat)) : Prop :=
  (block_at doc id /\ l1 ++ l2 <> [] /\ o = None /\ forall j, length l1 = S j -> in_lines doc (p ++ [j]) /\ filled doc (p ++ [j])) \/
  (block_at doc id /\ l1 ++ l2 = [] /\ o = Some p) \/
  (exists y y', flow_at doc id y /\ prints doc' id y' /\ o = None /\
    (l2 = [] -> l1 <> [] -> no_space_at_end y') /\ (l1 ++ l2 = [] -> flow y' (DSeq []))).
Definition clears (doc doc' : document) (p : list nat) (id : nat) (d : datum) (o : option (list nat)) : Prop :=
  (block_at doc id /\ o = Some p) \/ (exists y y', flow_at doc id y /\ prints doc' id y' /\ flow y' d /\ o = None).
(* For a block collection: not in a flow collection, not the first item of a sequence. *)
Definition room_block (doc : document) (p : list nat) : Prop := outside doc p /\
  forall q id, p = q ++ [O] -> place doc q id -> exists l, map_entries (doc_data doc) id l.

(* ---- edits and the data ---- *)
(* The call e on the value id at the place p, with the result r, turns the data D into D'. The
   option says which place, if any, is still to be written before and after. *)
Definition ready (doc : document) (p : list nat) (h : nat) (o : option (list nat)) : Prop :=
  o = Some p \/ (o = None /\ exists x, prints doc h x /\ x <> []).
Definition at_hand (p : list nat) (o : option (list nat)) : Prop := o = None \/ o = Some p.
Inductive change (hash : bytes -> sid) (doc doc' : document) (p : list nat) (id : nat) (D : datum) (o : option (list nat)) : edit -> edit_result -> datum -> option (list nat) -> Prop :=
| ch_nothing e r : r = NotApplicable \/ r = Removed false -> change hash doc doc' p id D o e r D o
| ch_kept_map r i : as_any (doc_data doc) id = Ok (AMapping i) -> change hash doc doc' p id D o MakeMapping r D o
| ch_kept_seq r i : as_any (doc_data doc) id = Ok (ASequence i) -> change hash doc doc' p id D o MakeSequence r D o
| ch_set e r d u D' o' : set_call e -> ready doc p id o -> fills hash doc doc' p id e d o' -> replaced u d p D D' -> change hash doc doc' p id D o e r D' o'
| ch_insert_old e key l1 h l2 r d u D' o' : insert_key e = Some key -> map_entries (doc_data doc) id (l1 ++ (key, h) :: l2) -> ~ In key (map fst l1) ->
    ready doc (p ++ [length l1]) h o -> fills hash doc doc' (p ++ [length l1]) h e d o' -> replaced u d (p ++ [length l1]) D D' ->
    change hash doc doc' p id D o e r D' o'
| ch_insert_new e key l h d m D' o' : insert_key e = Some key -> map_entries (doc_data doc) id l -> ~ In key (map fst l) -> at_hand p o ->
    room_key doc p id key l -> fills hash doc doc' (p ++ [length l]) h e d o' -> replaced (DMap m) (DMap (m ++ [(key, d)])) p D D' ->
    change hash doc doc' p id D o e (Handle h) D' o'
| ch_push e l h d m D' o' : push_call e -> seq_entries (doc_data doc) id l -> at_hand p o ->
    room_item doc p id l -> fills hash doc doc' (p ++ [length l]) h e d o' -> replaced (DSeq m) (DSeq (m ++ [d])) p D D' ->
    change hash doc doc' p id D o e (Handle h) D' o'
| ch_remove_key key l1 h l2 m1 x m2 D' o' : o = None -> map_entries (doc_data doc) id (l1 ++ (key, h) :: l2) -> ~ In key (map fst l1) ->
    closes_key doc doc' p id l1 l2 o' -> length m1 = length l1 -> replaced (DMap (m1 ++ x :: m2)) (DMap (m1 ++ m2)) p D D' ->
    change hash doc doc' p id D o (RemoveKey key) (Removed true) D' o'
| ch_remove_at l1 h l2 m1 x m2 D' o' : o = None -> seq_entries (doc_data doc) id (l1 ++ h :: l2) ->
    closes_item doc doc' p id l1 l2 o' -> length m1 = length l1 -> replaced (DSeq (m1 ++ x :: m2)) (DSeq (m1 ++ m2)) p D D' ->
    change hash doc doc' p id D o (RemoveIndex (length l1)) (Removed true) D' o'
| ch_clear_map l m D' o' : map_entries (doc_data doc) id l -> at_hand p o -> clears doc doc' p id (DMap []) o' ->
    replaced (DMap m) (DMap []) p D D' -> change hash doc doc' p id D o ClearMapping Done D' o'
| ch_clear_seq l m D' o' : seq_entries (doc_data doc) id l -> at_hand p o -> clears doc doc' p id (DSeq []) o' ->
    replaced (DSeq m) (DSeq []) p D D' -> change hash doc doc' p id D o ClearSequence Done D' o'
| ch_make_map r a u D' : as_any (doc_data doc) id = Ok a -> a <> AMapping id -> at_hand p o -> room_block doc p -> replaced u (DMap []) p D D' ->
    change hash doc doc' p id D o MakeMapping r D' (Some p)
| ch_make_seq r a u D' : as_any (doc_data doc) id = Ok a -> a <> ASequence id -> at_hand p o -> room_block doc p -> replaced u (DSeq []) p D D' ->
    change hash doc doc' p id D o MakeSequence r D' (Some p).

Inductive session (hash : bytes -> sid) : document -> datum -> option (list nat) -> Prop :=
| se_load x D doc : doc_text x D -> tidy x -> from_slice hash x = Ok doc -> session hash doc D None
| se_empty x doc : closed x -> from_slice hash x = Ok doc -> session hash doc (DStr []) (Some [])
| se_edit doc D o p id e r d' D' o' : session hash doc D o -> place doc p id -> run hash id e (doc_data doc) = Ok (r, d') ->
    change hash doc (edited doc d') p id D o e r D' o' -> session hash (edited doc d') D' o'.
