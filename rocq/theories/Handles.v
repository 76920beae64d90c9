(* Model of the handles that Api.v leaves out: String::as_raw (string.rs) and AnyMut
   (any_mut.rs). A handle is the id of its value. *)
From Coq Require Import List NArith Bool Arith.
From Verif Require Import Bytes Utf8 Data Num Api.
Import ListNotations.

(* value.rs 254-264 with any.rs (into_string), then string.rs 69-71: None when the value is no
   string. *)
Definition as_raw (d : data) (id : nat) : outcome (option bytes) :=
  match get_raw d id with
  | Ok (RScalar (ScStr s)) =>
    match str d (rs_orig s) with
    | Ok x => Ok (Some x)
    | Err x y e => Err x y e | Hang => Hang | Panic => Panic | OutOfFuel => OutOfFuel
    end
  | Ok _ => Ok None
  | Err x y e => Err x y e | Hang => Hang | Panic => Panic | OutOfFuel => OutOfFuel
  end.

(* any_mut.rs 8-15 *)
Inductive any_mut := MScalar (id : nat) | MMapping (id : nat) | MSequence (id : nat).
(* value_mut.rs 53-59 *)
Definition into_any_mut (d : data) (id : nat) : outcome any_mut :=
  match get_raw d id with
  | Ok (RMap _ _ _) => Ok (MMapping id)
  | Ok (RSeq _ _ _) => Ok (MSequence id)
  | Ok _ => Ok (MScalar id)
  | Err x y e => Err x y e | Hang => Hang | Panic => Panic | OutOfFuel => OutOfFuel
  end.
(* any_mut.rs 42-48 *)
Definition any_mut_id (m : any_mut) : nat := match m with MScalar id | MMapping id | MSequence id => id end.
