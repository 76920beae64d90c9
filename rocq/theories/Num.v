(* itoa and lexical_core for integers, as used in value_mut.rs 335-362, mapping_mut.rs 85-129,
   sequence_mut.rs 42-83, value.rs 163 and number.rs 27. Both are external crates, modelled
   after their documentation. *)
From Coq Require Import List NArith ZArith Bool.
From Verif Require Import Bytes Data.
Import ListNotations.
Local Open Scope Z_scope.

(* Decimal digits of n, most significant first, without leading zeros. *)
Fixpoint digits_f (f : nat) (n : N) (acc : bytes) : bytes :=
  match f with
  | O => acc
  | S f =>
    let acc := (48 + n mod 10)%N :: acc in
    if (n <? 10)%N then acc else digits_f f (n / 10)%N acc
  end.
Definition digits (n : N) : bytes := digits_f (S (N.to_nat (N.log2 n))) n [].
(* itoa::Buffer::format *)
Definition itoa (z : Z) : bytes :=
  if z <? 0 then DASH :: digits (Z.to_N (- z)) else digits (Z.to_N z).

(* Value of a string of decimal digits; None when a byte is not a digit. *)
Fixpoint digits_value (acc : N) (s : bytes) : option N :=
  match s with
  | [] => Some acc
  | c :: s => if is_digit c then digits_value (acc * 10 + (c - 48))%N s else None
  end.
(* lexical_core::parse::<T>(s).ok() for an integer type with values in [lo, hi]: an optional
   sign (a minus sign only for signed types), then at least one digit, nothing else. *)
Definition parse_int (lo hi : Z) (s : bytes) : option Z :=
  let '(neg, ds) :=
    match s with
    | c :: r => if (c =? DASH)%N && (lo <? 0) then (true, r)
                else if (c =? PLUS)%N then (false, r) else (false, s)
    | [] => (false, s)
    end in
  match ds with
  | [] => None
  | _ =>
    match digits_value 0 ds with
    | None => None
    | Some v =>
      let z := if neg then - Z.of_N v else Z.of_N v in
      if (lo <=? z) && (z <=? hi) then Some z else None
    end
  end.

(* The integer types, named by their hints. *)
Definition int_range (h : hint) : option (Z * Z) :=
  match h with
  | Unsigned8 => Some (0, 2 ^ 8 - 1)
  | Unsigned16 => Some (0, 2 ^ 16 - 1)
  | Unsigned32 => Some (0, 2 ^ 32 - 1)
  | Unsigned64 => Some (0, 2 ^ 64 - 1)
  | Unsigned128 => Some (0, 2 ^ 128 - 1)
  | Signed8 => Some (- 2 ^ 7, 2 ^ 7 - 1)
  | Signed16 => Some (- 2 ^ 15, 2 ^ 15 - 1)
  | Signed32 => Some (- 2 ^ 31, 2 ^ 31 - 1)
  | Signed64 => Some (- 2 ^ 63, 2 ^ 63 - 1)
  | Signed128 => Some (- 2 ^ 127, 2 ^ 127 - 1)
  | Float32 | Float64 => None
  end.
