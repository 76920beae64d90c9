(* Model of src/yaml/serde/de.rs and ser.rs.
   A visitor is arbitrary: deserialization is modelled as the sequence of dispatch steps up
   to the visitor method that is finally called. *)
From Coq Require Import List NArith ZArith Bool Arith.
From Verif Require Import Bytes Utf8 Data Num Api.
Import ListNotations.

Section Serde.
(* f32/f64 values, and lexical_core::parse for them: external and arbitrary. *)
Variable F : Type.
Variable parse_float : hint -> bytes -> option F.
Variable d : data.

Local Notation "x <-o m ;; k" :=
  (match m with Ok x => k | Err x y e => Err x y e | Hang => Hang | Panic => Panic
   | OutOfFuel => OutOfFuel end)
  (at level 61, m at next level, right associativity).

(* value.rs 571-572: as_f32, as_f64 *)
Definition as_float (t : hint) (id : nat) : outcome (option F) :=
  o <-o as_number d id ;;
  Ok (match o with Some (x, _) => parse_float t x | None => None end).

(* The Deserializer methods of Value. *)
Inductive req :=
| QAny          (* any, unit, unit_struct, newtype_struct, tuple_struct, struct, enum,
                   identifier, ignored_any: de.rs 35, 263-292, 317-328, 341-380 *)
| QBool         (* de.rs 76-84 *)
| QInt (h : hint)   (* de.rs 87-172; u128 and i128 are not overridden: serde's default fails *)
| QFloat (h : hint) (* de.rs 175-194 *)
| QStr          (* char, str, string: de.rs 197-227 *)
| QBytes        (* bytes, byte_buf: de.rs 230-249 *)
| QOption       (* de.rs 252-260 *)
| QSeq          (* seq, tuple: de.rs 295-314 *)
| QMap.         (* de.rs 331-339 *)
(* The visitor method called; items are the iterator given to visit_seq and visit_map. *)
Inductive call :=
| VNone | VSome | VBool (v : bool) | VInt (h : hint) (z : Z) | VFloat (h : hint) (x : F)
| VStr (s : bytes) | VBytes (s : bytes) | VSeq (items : list nat) | VMap (items : list nat)
| VError.
Inductive step := Visit (c : call) | Again (q : req).

Definition req_of_hint (h : hint) : req :=
  match h with Float32 | Float64 => QFloat h | _ => QInt h end.

(* de.rs 35-73: deserialize_any, up to its tail call *)
Definition de_any (id : nat) : outcome step :=
  r <-o get_raw d id ;;
  match r with
  | RScalar (ScNull _) => Ok (Visit VNone)
  | RScalar (ScBool v _) => Ok (Visit (VBool v))
  | RScalar (ScNum _ h) => Ok (Again (req_of_hint h))
  | RScalar (ScStr s) =>
    x <-o str d (rs_id s) ;; Ok (Visit (if utf8 x then VStr x else VBytes x))
  | RMap _ _ items => Ok (Visit (VMap items))
  | RSeq _ _ items => Ok (Visit (VSeq items))
  | _ => Ok (Visit VError)
  end.
Definition or_any {A} (f : A -> call) (o : outcome (option A)) : outcome step :=
  o <-o o ;; Ok (match o with Some x => Visit (f x) | None => Again QAny end).
(* One method of the Deserializer, up to its tail call. *)
Definition de_step (id : nat) (q : req) : outcome step :=
  match q with
  | QAny => de_any id
  | QBool => or_any VBool (as_bool d id)
  | QInt Unsigned128 | QInt Signed128 => Ok (Visit VError)
  | QInt h => or_any (VInt h) (as_int d h id)
  | QFloat h => or_any (VFloat h) (as_float h id)
  | QStr => or_any VStr (as_str d id)
  | QBytes => or_any VBytes (as_bstr d id)
  | QOption =>
    r <-o get_raw d id ;;
    Ok (Visit (match r with RScalar (ScNull _) => VNone | _ => VSome end))
  | QSeq => o <-o as_sequence d id ;;
            match o with
            | Some _ => it <-o seq_iter d id ;; Ok (Visit (VSeq it))
            | None => Ok (Again QAny)
            end
  | QMap => o <-o as_mapping d id ;;
            match o with
            | Some _ => it <-o map_iter d id ;; Ok (Visit (VMap it))
            | None => Ok (Again QAny)
            end
  end.
(* Tail calls until a visitor method is called. *)
Fixpoint dispatch (f : nat) (id : nat) (q : req) : outcome call :=
  match f with
  | O => OutOfFuel
  | S f => s <-o de_step id q ;; match s with Visit c => Ok c | Again q => dispatch f id q end
  end.

(* ---- de.rs: what a visitor draws from a collection ---- *)
(* de.rs 653-664: MappingIter, the iterator and the value held back for next_value_seed *)
Definition map_access := (list nat * option nat)%type.
(* de.rs 669-679. The key is given to the visitor by visit_bytes (de.rs 383-651). *)
Definition next_key (m : map_access) : outcome (option bytes * map_access) :=
  r <-o map_next d (fst m) ;;
  Ok (match r with
      | (Some (k, v), it) => (Some k, (it, Some v))
      | (None, it) => (None, (it, snd m))
      end).
(* de.rs 682-691; None: the error "missing value" *)
Definition next_value (m : map_access) : option nat * map_access := (snd m, (fst m, None)).

(* A visitor that takes what it is given, as those of self-describing types do: it asks for
   any value and draws every entry of a collection. None: an error. *)
Inductive gathered :=
| GNone | GBool (v : bool) | GInt (h : hint) (z : Z) | GFloat (h : hint) (x : F)
| GStr (s : bytes) | GBytes (s : bytes)
| GSeq (items : list gathered) | GMap (items : list (bytes * gathered)).
Definition opt_cons {A} (x : option A) (l : option (list A)) : option (list A) :=
  match x, l with Some x, Some l => Some (x :: l) | _, _ => None end.
Section Draw.
  Variable gather : nat -> outcome (option gathered).
  (* de.rs 709-718: next_element_seed until it gives None *)
  Fixpoint draw_seq (f : nat) (it : list nat) : outcome (option (list gathered)) :=
    match f with
    | O => OutOfFuel
    | S f =>
      r <-o seq_next d it ;;
      match r with
      | (None, _) => Ok (Some [])
      | (Some v, it) => x <-o gather v ;; xs <-o draw_seq f it ;; Ok (opt_cons x xs)
      end
    end.
  Fixpoint draw_map (f : nat) (m : map_access) : outcome (option (list (bytes * gathered))) :=
    match f with
    | O => OutOfFuel
    | S f =>
      r <-o next_key m ;;
      match r with
      | (None, _) => Ok (Some [])
      | (Some k, m) =>
        match next_value m with
        | (None, _) => Ok None
        | (Some v, m) =>
          x <-o gather v ;; xs <-o draw_map f m ;; Ok (opt_cons (option_map (pair k) x) xs)
        end
      end
    end.
End Draw.
Fixpoint gather (f : nat) (id : nat) : outcome (option gathered) :=
  match f with
  | O => OutOfFuel
  | S f =>
    c <-o dispatch f id QAny ;;
    match c with
    | VNone => Ok (Some GNone)
    | VSome | VError => Ok None
    | VBool v => Ok (Some (GBool v))
    | VInt h z => Ok (Some (GInt h z))
    | VFloat h x => Ok (Some (GFloat h x))
    | VStr s => Ok (Some (GStr s))
    | VBytes s => Ok (Some (GBytes s))
    | VSeq it => xs <-o draw_seq (gather f) f it ;; Ok (option_map GSeq xs)
    | VMap it => xs <-o draw_map (gather f) f (it, None) ;; Ok (option_map GMap xs)
    end
  end.

(* ---- ser.rs: the calls on the Serializer as a tree ---- *)
Inductive ser :=
| SNone | SBool (v : bool) | SInt (h : hint) (z : Z) | SFloat (h : hint) (x : F)
| SStr (s : bytes) | SBytes (s : bytes)
| SSeq (len : nat) (items : list ser)
| SMap (len : nat) (items : list ((bool * bytes) * ser)) (* key: as a str or as bytes *)
| SError.
(* ser.rs 18-67 *)
Definition ser_number (id : nat) (h : hint) : outcome ser :=
  match h with
  | Float32 | Float64 =>
    o <-o as_float h id ;; Ok (match o with Some x => SFloat h x | None => SNone end)
  | _ => o <-o as_int d h id ;; Ok (match o with Some z => SInt h z | None => SNone end)
  end.
Section Items.
  Variable ser_value : nat -> outcome ser.
  (* ser.rs 92-94 *)
  Fixpoint ser_seq (items : list nat) : outcome (list ser) :=
    match items with
    | [] => Ok []
    | it :: items =>
      v <-o sequence_item d it ;;
      x <-o ser_value v ;;
      xs <-o ser_seq items ;; Ok (x :: xs)
    end.
  (* ser.rs 108-114 *)
  Fixpoint ser_map (items : list nat) : outcome (list ((bool * bytes) * ser)) :=
    match items with
    | [] => Ok []
    | it :: items =>
      m <-o mapping_item d it ;; let '(k, v) := m in
      key <-o str d (rs_id k) ;;
      x <-o ser_value v ;;
      xs <-o ser_map items ;; Ok (((utf8 key, key), x) :: xs)
    end.
End Items.
(* ser.rs 10-118 *)
Fixpoint serialize (f : nat) (id : nat) : outcome ser :=
  match f with
  | O => OutOfFuel
  | S f =>
    r <-o get_raw d id ;;
    match r with
    | RScalar (ScNull _) => Ok SNone
    | RScalar (ScBool v _) => Ok (SBool v)
    | RScalar (ScNum _ h) => ser_number id h
    | RScalar (ScStr s) =>
      x <-o str d (rs_id s) ;; Ok (if utf8 x then SStr x else SBytes x)
    | RMap _ _ items => xs <-o ser_map (serialize f) items ;; Ok (SMap (length items) xs)
    | RSeq _ _ items => xs <-o ser_seq (serialize f) items ;; Ok (SSeq (length items) xs)
    | _ => Ok SError
    end
  end.
End Serde.
