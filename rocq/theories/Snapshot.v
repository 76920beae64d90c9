(* Model of the derived Serialize and Deserialize of Document (feature serde-edits): document.rs
   30-36 with data.rs 14-19, 66-71, 84-98 and raw.rs 187-201 and the derives on the variants.
   They copy every field. What is not field by field is in two other crates: the map of the
   strings and the slab. A format is taken to carry numbers, strings and maps unchanged; the
   order of the entries of a map is left open. *)
From Coq Require Import List NArith Bool Arith.
From Verif Require Import Bytes Data.
Import ListNotations.

(* What is stored. *)
Record snapshot := Snap {
  n_suffix : sid; n_root : nat;
  n_strings : list (sid * bytes);    (* HashMap: key and value of every entry *)
  n_slab : list (nat * entry)        (* slab::Slab: index and value of every occupied slot *)
}.
(* Serialize: the entries in any order. Slots that are free are not stored. *)
Definition takes (doc : document) (s : snapshot) : Prop :=
  n_suffix s = doc_suffix doc /\ n_root s = doc_root doc /\
  (NoDup (map fst (n_strings s)) /\ forall k x, In (k, x) (n_strings s) <-> assoc k (d_strings (doc_data doc)) = Some x) /\
  (NoDup (map fst (n_slab s)) /\ forall k e, In (k, e) (n_slab s) <-> slab_get (d_slab (doc_data doc)) k = Some e).

(* slab::Builder, which Deserialize for Slab uses (crate slab 0.4, src/builder.rs and
   src/serde.rs). *)
Record builder := Builder { bu_entries : list slot; bu_next : nat; bu_broken : bool; bu_first : option nat }.
Definition builder_new : builder := Builder [] 0 false None.
Definition is_vacant (x : option slot) : bool := match x with Some (Vacant _) => true | _ => false end.
(* while entries.len() < key: n holes at the end *)
Fixpoint holes (n : nat) (es : list slot) (next : nat) : list slot * nat :=
  match n with
  | O => (es, next)
  | S n => holes n (es ++ [Vacant next]) (length es)
  end.
(* Builder::pair *)
Definition pair_in (p : nat * entry) (u : builder) : builder :=
  let '(key, e) := p in
  let es := bu_entries u in
  if key <? length es then
    Builder (list_set es key (Occupied e)) (bu_next u) (bu_broken u || is_vacant (nth_error es key)) (bu_first u)
  else
    let first := match bu_first u with None => if length es <? key then Some (length es) else None | x => x end in
    let '(es', next) := holes (key - length es) es (bu_next u) in
    Builder (es' ++ [Occupied e]) next (bu_broken u) first.
(* Slab::recreate_vacant_list: backwards over the slots. It stops early when every free slot has
   been met, which changes nothing. *)
Fixpoint relink (i : nat) (es : list slot) (next : nat) : list slot * nat :=
  match es with
  | [] => ([], next)
  | x :: es =>
    let '(es', n) := relink (S i) es next in
    match x with Vacant _ => (Vacant n :: es', i) | _ => (x :: es', n) end
  end.
(* Builder::build; the last case is unreachable!() in the crate. *)
Definition build (u : builder) : option slab :=
  let es := bu_entries u in
  if slab_len (Slab es 0) =? length es then Some (Slab es (length es))
  else if bu_broken u then let '(es', n) := relink 0 es (length es) in Some (Slab es' n)
  else match bu_first u with
       | Some f => Some (Slab (list_set es f (Vacant (length es))) (bu_next u))
       | None => None
       end.
Definition slab_from (l : list (nat * entry)) : option slab := build (fold_left (fun u p => pair_in p u) l builder_new).
(* Deserialize *)
Definition restore (s : snapshot) : option document :=
  match slab_from (n_slab s) with
  | Some sl => Some (Doc (n_suffix s) (n_root s) (Data (n_strings s) sl))
  | None => None
  end.
