(* Replay of the doc tests of the crate on the model, by computation. These are tests of the
   model, not proofs of properties. Tests that differ only in the handle they go through are given
   once. Not replayed: as_f32 and as_f64 (lexical_core on floats), and the two assertions of
   serde/mod.rs that go through serde_yaml and a derived Deserialize, for which the values of
   the record are read with the API. *)
From Coq Require Import String.
From Coq Require Import List NArith ZArith Bool Arith.
From Verif Require Import Bytes Utf8 Data Parser Render Num Api Handles Tests.
Import ListNotations.

Definition u32 (d : data) (id : nat) : outcome (option Z) := as_int d Unsigned32 id.
(* Which variant of Any. *)
Definition kind (d : data) (id : nat) : outcome nat :=
  match as_any d id with
  | Ok a => Ok match a with ANull => 0 | ABool _ => 1 | AString _ => 2 | AMapping _ => 3 | ASequence _ => 4 | ANumber _ _ => 5 | ARaw _ => 6 end
  | _ => Panic
  end.
Fixpoint each_of {A} (f : nat -> outcome (option A)) (l : list nat) : outcome (list A) :=
  match l with
  | [] => Ok []
  | x :: l => match f x, each_of f l with Ok (Some a), Ok r => Ok (a :: r) | Ok None, o => o | _, _ => Panic end
  end.
(* iter().flat_map(|v| v.as_u32()), and the same of mappings and of strings *)
Definition over {A} (items : outcome (list nat)) (value : nat -> outcome (option nat)) (f : nat -> outcome (option A)) : outcome (list A) :=
  match items with
  | Ok l => each_of (fun it => match value it with Ok (Some v) => f v | _ => Panic end) l
  | _ => Panic
  end.
Definition numbers (d : data) (id : nat) : outcome (list Z) := over (seq_iter d id) (fun it => seq_item_opt d (Some it)) (u32 d).
Definition strings (d : data) (id : nat) : outcome (list bytes) := over (seq_iter d id) (fun it => seq_item_opt d (Some it)) (as_str d).
Definition map_numbers (d : data) (id : nat) : outcome (list Z) :=
  over (map_iter d id) (fun it => match map_item_opt d (Some it) with Ok (Some (_, v)) => Ok (Some v) | _ => Panic end) (u32 d).
Definition first_str (d : data) (id : nat) : outcome (option bytes) := match seq_first d id with Ok (Some v) => as_str d v | _ => Panic end.
Definition last_str (d : data) (id : nat) : outcome (option bytes) := match seq_last d id with Ok (Some v) => as_str d v | _ => Panic end.
Definition answer (p : list seg) (e : edit) (doc : outcome document) : option edit_result :=
  at_path doc p (fun d id => match run idhash id e d with Ok (r, _) => Ok r | _ => Panic end).
(* The second call, through the id found before the first. *)
Definition panics (p : list seg) (g f : data -> nat -> outcome (edit_result * data)) (doc : outcome document) : bool :=
  match doc with
  | Ok (Doc _ root d) =>
    match walk d root p, f d root with
    | Some id, Ok (_, d') => match g d' id with Panic => true | _ => false end
    | _, _ => false
    end
  | _ => false
  end.
(* Kind and span of an error, as in &INPUT[error.span()]. *)
Definition error_at (input : bytes) : option (ekind * bytes) :=
  match load input with Err x y k => Some (k, slice input x y) | _ => None end.
(* Which variant of AnyMut. *)
Definition any_kind (d : data) (id : nat) : outcome nat :=
  match into_any_mut d id with Ok (MScalar _) => Ok 0 | Ok (MMapping _) => Ok 1 | Ok (MSequence _) => Ok 2 | _ => Panic end.
(* document.rs 14-29 *)
Example doc1_t :
  at_path (load (b "
%YAML 1.2
---
first: 32
second: 64
")) [K (b "first")] u32 = Some (Some 32%Z) /\
  at_path (load (b "
%YAML 1.2
---
first: 32
second: 64
")) [K (b "second")] u32 = Some (Some 64%Z).
Proof. t. Qed.

(* document.rs 48-56, mod.rs 42-50 *)
Example doc2_t :
  at_path (load (b "32")) [] u32 = Some (Some 32%Z).
Proof. t. Qed.

(* document.rs 67-76 *)
Example doc3_t :
  print (edit_path [] (SetInt Unsigned32 42) (load (b "  32"))) = Ok (b "  42").
Proof. t. Qed.

(* document.rs 117-135, value.rs 303-321 *)
Example doc4_t :
  at_path (load (b "
    first: 32
    second: [1, 2, 3]
    ")) [K (b "second")] value_to_string = Some (b "[1, 2, 3]").
Proof. t. Qed.

(* document.rs 92-113 and 153-174, value.rs 278-299 (should_panic): as_mapping through the id of a removed value *)
Example doc5_t :
  panics [K (b "second")] (fun d id => match get_raw d id with Ok _ => Ok (Done, d) | _ => Panic end) (fun d id => run idhash id (RemoveKey (b "second")) d) (load (b "
    first: 32
    second: [1, 2, 3]
    ")) = true.
Proof. t. Qed.

(* document.rs 153-174 (should_panic): into_mapping_mut through the id of a removed value *)
Example doc6_t :
  panics [K (b "second")] (fun d id => run idhash id (Insert (b "x") Auto) d) (fun d id => run idhash id (RemoveKey (b "second")) d) (load (b "
    first: 32
    second: [1, 2, 3]
    ")) = true.
Proof. t. Qed.

(* document.rs 178-204 *)
Example doc7_t :
  print (edit_path [K (b "second")] (SetString (b "Hello World")) (load (b "
    first: 32
    second: [1, 2, 3]
    "))) = Ok (b "
    first: 32
    second: Hello World
    ").
Proof. t. Qed.

(* document.rs 218-265 *)
Example doc8_t :
  write (edit_path [] (InsertInt (b "second") Unsigned32 2) (edit_path [] (InsertInt (b "first") Unsigned32 1) (edit_path [] (MakeMapping) (load (b "
    string
    "))))) = Ok (b "
    first: 1
    second: 2
    ") /\
  write (edit_path [K (b "first")] (InsertInt (b "third") Unsigned32 3) (edit_path [K (b "first")] (InsertInt (b "second") Unsigned32 2) (edit_path [K (b "first")] (MakeMapping) (load (b "
    first: second
    "))))) = Ok (b "
    first:
      second: 2
      third: 3
    ").
Proof. t. Qed.

(* value.rs 121-137 *)
Example doc9_t :
  at_path (load (b "string")) [] as_str = Some (Some (b "string")) /\
  at_path (load (b """a double-quoted string""")) [] as_str = Some (Some (b "a double-quoted string")) /\
  at_path (load (b "'a single-quoted string'")) [] as_str = Some (Some (b "a single-quoted string")) /\
  at_path (load (b "'It''s a bargain!'")) [] as_str = Some (Some (b "It's a bargain!")).
Proof. t. Qed.

(* value.rs 181-207 and 226-252 *)
Example doc10_t :
  at_path (load (b "Hello World")) [] kind = Some 2 /\
  at_path (load (b "
    number1: 10
    number2: 20
    ")) [] kind = Some 3 /\
  at_path (load (b "
    - 10
    - 20
    ")) [] kind = Some 4.
Proof. t. Qed.

(* value.rs 332-354 *)
Example doc11_t :
  at_path (load (b "
    - It's the same string!
    - ""It's the same string!""
    - 'It''s the same string!'
    ")) [I 0] as_bstr = Some (Some (b "It's the same string!")) /\
  at_path (load (b "
    - It's the same string!
    - ""It's the same string!""
    - 'It''s the same string!'
    ")) [I 1] as_bstr = Some (Some (b "It's the same string!")) /\
  at_path (load (b "
    - It's the same string!
    - ""It's the same string!""
    - 'It''s the same string!'
    ")) [I 2] as_bstr = Some (Some (b "It's the same string!")).
Proof. t. Qed.

(* value.rs 410-428 *)
Example doc12_t :
  at_path (load (b "
    - It's the same string!
    - ""It's the same string!""
    - 'It''s the same string!'
    ")) [I 0] as_str = Some (Some (b "It's the same string!")) /\
  at_path (load (b "
    - It's the same string!
    - ""It's the same string!""
    - 'It''s the same string!'
    ")) [I 1] as_str = Some (Some (b "It's the same string!")) /\
  at_path (load (b "
    - It's the same string!
    - ""It's the same string!""
    - 'It''s the same string!'
    ")) [I 2] as_str = Some (Some (b "It's the same string!")) /\
  at_path (load (b "
    - It's the same string!
    - ""It's the same string!""
    - 'It''s the same string!'
    ")) [] seq_len = Some 3.
Proof. t. Qed.

(* value.rs 373-380 *)
Example doc13_t :
  at_path (load (b "フェリスと言います！")) [] as_str = Some (Some (b "フェリスと言います！")).
Proof. t. Qed.

(* value.rs 382-390 *)
Example doc14_t :
  at_path (load (b """hello \x20 world""")) [] as_str = Some (Some (b "hello   world")) /\
  print (load (b """hello \x20 world""")) = Ok (b """hello \x20 world""").
Proof. t. Qed.

(* value.rs 396-406 *)
Example doc15_t :
  at_path (load (b "string")) [] as_str = Some (Some (b "string")) /\
  at_path (load (b "key::value")) [] as_str = Some (Some (b "key::value")).
Proof. t. Qed.

(* value.rs 441-451 *)
Example doc16_t :
  at_path (load (b "true")) [] as_bool = Some (Some true) /\
  at_path (load (b "string")) [] as_bool = Some None.
Proof. t. Qed.

(* value.rs 464-488, mapping.rs 13-37 and 169-193, mapping/mod.rs 5-29, value_mut.rs 68-92 and 107-131, mapping_mut.rs 215-240 and 252-276 *)
Example doc17_t :
  at_path (load (b "
    number1: 10
    number2: 20
    mapping:
        inner: 400
    string3: ""I am a quoted string!""
    ")) [K (b "number1")] u32 = Some (Some 10%Z) /\
  at_path (load (b "
    number1: 10
    number2: 20
    mapping:
        inner: 400
    string3: ""I am a quoted string!""
    ")) [K (b "number2")] u32 = Some (Some 20%Z) /\
  at_path (load (b "
    number1: 10
    number2: 20
    mapping:
        inner: 400
    string3: ""I am a quoted string!""
    ")) [K (b "mapping"); K (b "inner")] u32 = Some (Some 400%Z) /\
  at_path (load (b "
    number1: 10
    number2: 20
    mapping:
        inner: 400
    string3: ""I am a quoted string!""
    ")) [K (b "string3")] as_str = Some (Some (b "I am a quoted string!")).
Proof. t. Qed.

(* value.rs 501-519, sequence.rs 11-29 and 202-220, sequence/mod.rs 5-23, sequence_mut.rs 143-162 and 174-192 *)
Example doc18_t :
  at_path (load (b "
    - one
    - two
    - three
    ")) [I 0] as_str = Some (Some (b "one")) /\
  at_path (load (b "
    - one
    - two
    - three
    ")) [I 1] as_str = Some (Some (b "two")) /\
  at_path (load (b "
    - one
    - two
    - three
    ")) [I 2] as_str = Some (Some (b "three")).
Proof. t. Qed.

(* value.rs 532-541 and 554-562 *)
Example doc19_t :
  at_path (load (b "42")) [] kind = Some 5.
Proof. t. Qed.

(* any.rs 34-44, 54-65, 78-89, 102-113 *)
Example doc20_t :
  at_path (load (b "null")) [] as_any = Some ANull /\
  at_path (load (b "true")) [] as_any = Some (ABool true) /\
  at_path (load (b """Hello World""")) [] as_any = Some (AString (b "Hello World")) /\
  at_path (load (b "42")) [] u32 = Some (Some 42%Z).
Proof. t. Qed.

(* any_mut.rs 22-40 *)
Example doc21_t :
  at_path (load (b "
    - 10
    - 20
    ")) [] (fun d id => match into_any_mut d id with Ok a => value_to_string d (any_mut_id a) | _ => Panic end) = Some (b "- 10
    - 20").
Proof. t. Qed.

(* number.rs 38-48 and 63-73 *)
Example doc22_t :
  at_path (load (b "42")) [] u32 = Some (Some 42%Z) /\
  at_path (load (b "3.1415")) [] (fun d id => match as_any d id with Ok (ANumber x _) => Ok x | _ => Panic end) = Some (b "3.1415").
Proof. t. Qed.

(* string.rs 19-31 and 47-66 *)
Example doc23_t :
  at_path (load (b """Hello\n World""")) [] as_str = Some (Some (b "Hello
 World")) /\
  at_path (load (b """Hello\n World""")) [] as_raw = Some (Some (b """Hello\n World""")) /\
  at_path (load (b """Hello World""")) [] as_raw = Some (Some (b """Hello World""")) /\
  at_path (load (b "'Hello World'")) [] as_raw = Some (Some (b "'Hello World'")).
Proof. t. Qed.

(* value_mut.rs 21-51 *)
Example doc24_t :
  at_path (load (b "
    Hello World
    ")) [] any_kind = Some 0 /\
  at_path (load (b "
    number1: 10
    number2: 20
    ")) [] any_kind = Some 1 /\
  at_path (load (b "
    - 10
    - 20
    ")) [] any_kind = Some 2.
Proof. t. Qed.

(* value_mut.rs 142-171, mapping_mut.rs 11-47, 287-315 and 333-362 *)
Example doc25_t :
  print (edit_path [K (b "number2")] (SetInt Unsigned32 30) (load (b "
    number1: 10
    number2: 20
    mapping:
        inner: 400
    string3: ""I am a quoted string!""
    "))) = Ok (b "
    number1: 10
    number2: 30
    mapping:
        inner: 400
    string3: ""I am a quoted string!""
    ").
Proof. t. Qed.

(* value_mut.rs 184-228 *)
Example doc26_t :
  print (edit_path [K (b "string3")] (SetString (b "i-am-a-bare-string")) (edit_path [K (b "number2")] (SetInt Unsigned32 30) (load (b "
    number1: 10
    number2: 20
    mapping:
        inner: 400
    string3: ""I am a quoted string!""
    ")))) = Ok (b "
    number1: 10
    number2: 30
    mapping:
        inner: 400
    string3: i-am-a-bare-string
    ") /\
  print (edit_path [K (b "string3")] (SetString (b "It's 
 a good day!")) (edit_path [K (b "string3")] (SetString (b "i-am-a-bare-string")) (edit_path [K (b "number2")] (SetInt Unsigned32 30) (load (b "
    number1: 10
    number2: 20
    mapping:
        inner: 400
    string3: ""I am a quoted string!""
    "))))) = Ok (b "
    number1: 10
    number2: 30
    mapping:
        inner: 400
    string3: ""It's \n a good day!""
    ").
Proof. t. Qed.

(* value_mut.rs 241-268 and 281-308, sequence_mut.rs 203-230 and 244-271 *)
Example doc27_t :
  print (edit_path [I 1] (SetInt Unsigned32 30) (load (b "
    - 10
    - 20
    - inner: 400
    - ""I am a quoted string!""
    "))) = Ok (b "
    - 10
    - 30
    - inner: 400
    - ""I am a quoted string!""
    ").
Proof. t. Qed.

(* value_mut.rs 371-387 *)
Example doc28_t :
  print (edit_path [] (SetNull NuKeyword) (load (b "  string"))) = Ok (b "  null") /\
  print (edit_path [] (SetNull NuTilde) (edit_path [] (SetNull NuKeyword) (load (b "  string")))) = Ok (b "  ~") /\
  print (edit_path [] (SetNull NuEmpty) (edit_path [] (SetNull NuTilde) (edit_path [] (SetNull NuKeyword) (load (b "  string"))))) = Ok (b "  ").
Proof. t. Qed.

(* value_mut.rs 412-439 *)
Example doc29_t :
  print (edit_path [] (SetString (b "i-am-a-string")) (load (b "  string"))) = Ok (b "  i-am-a-string") /\
  print (edit_path [] (SetString (b "I am a string")) (edit_path [] (SetString (b "i-am-a-string")) (load (b "  string")))) = Ok (b "  I am a string") /\
  print (edit_path [] (SetString (b "I am a
 string")) (edit_path [] (SetString (b "I am a string")) (edit_path [] (SetString (b "i-am-a-string")) (load (b "  string"))))) = Ok (b "  ""I am a\n string""") /\
  print (edit_path [] (SetString (b "I am a string with ""quotes""")) (edit_path [] (SetString (b "I am a
 string")) (edit_path [] (SetString (b "I am a string")) (edit_path [] (SetString (b "i-am-a-string")) (load (b "  string")))))) = Ok (b "  I am a string with ""quotes""") /\
  print (edit_path [] (SetString (b "null")) (edit_path [] (SetString (b "I am a string with ""quotes""")) (edit_path [] (SetString (b "I am a
 string")) (edit_path [] (SetString (b "I am a string")) (edit_path [] (SetString (b "i-am-a-string")) (load (b "  string"))))))) = Ok (b "  'null'") /\
  print (edit_path [] (SetString (b "1.65")) (edit_path [] (SetString (b "null")) (edit_path [] (SetString (b "I am a string with ""quotes""")) (edit_path [] (SetString (b "I am a
 string")) (edit_path [] (SetString (b "I am a string")) (edit_path [] (SetString (b "i-am-a-string")) (load (b "  string")))))))) = Ok (b "  '1.65'") /\
  print (edit_path [] (SetString (b "rust@1.65")) (edit_path [] (SetString (b "1.65")) (edit_path [] (SetString (b "null")) (edit_path [] (SetString (b "I am a string with ""quotes""")) (edit_path [] (SetString (b "I am a
 string")) (edit_path [] (SetString (b "I am a string")) (edit_path [] (SetString (b "i-am-a-string")) (load (b "  string"))))))))) = Ok (b "  rust@1.65").
Proof. t. Qed.

(* value_mut.rs 453-465 *)
Example doc30_t :
  print (edit_path [] (SetStringWith (b "i-am-a-string") SDouble) (load (b "  string"))) = Ok (b "  ""i-am-a-string""") /\
  print (edit_path [] (SetStringWith (b "It's a great success!") SSingle) (edit_path [] (SetStringWith (b "i-am-a-string") SDouble) (load (b "  string")))) = Ok (b "  'It''s a great success!'").
Proof. t. Qed.

(* value_mut.rs 483-571 *)
Example doc31_t :
  at_path (edit_path [] (SetBlock [(b "foo"); (b "bar"); (b "baz")] (Literal Clip)) (load (b "
    string
    "))) [] as_str = Some (Some (b "foo
bar
baz
")) /\
  print (edit_path [] (SetBlock [(b "foo"); (b "bar"); (b "baz")] (Literal Clip)) (load (b "
    string
    "))) = Ok (b "
    |
      foo
      bar
      baz
    ") /\
  at_path (edit_path [] (SetBlock [(b "foo"); (b "bar"); (b "baz")] (Literal Keep)) (edit_path [] (SetBlock [(b "foo"); (b "bar"); (b "baz")] (Literal Clip)) (load (b "
    string
    ")))) [] as_str = Some (Some (b "foo
bar
baz
")) /\
  print (edit_path [] (SetBlock [(b "foo"); (b "bar"); (b "baz")] (Literal Keep)) (edit_path [] (SetBlock [(b "foo"); (b "bar"); (b "baz")] (Literal Clip)) (load (b "
    string
    ")))) = Ok (b "
    |+
      foo
      bar
      baz
    ") /\
  at_path (edit_path [] (SetBlock [(b "foo"); (b "bar"); (b "baz")] (Literal Strip)) (edit_path [] (SetBlock [(b "foo"); (b "bar"); (b "baz")] (Literal Keep)) (edit_path [] (SetBlock [(b "foo"); (b "bar"); (b "baz")] (Literal Clip)) (load (b "
    string
    "))))) [] as_str = Some (Some (b "foo
bar
baz")) /\
  print (edit_path [] (SetBlock [(b "foo"); (b "bar"); (b "baz")] (Literal Strip)) (edit_path [] (SetBlock [(b "foo"); (b "bar"); (b "baz")] (Literal Keep)) (edit_path [] (SetBlock [(b "foo"); (b "bar"); (b "baz")] (Literal Clip)) (load (b "
    string
    "))))) = Ok (b "
    |-
      foo
      bar
      baz
    ") /\
  at_path (edit_path [] (SetBlock [(b "foo"); (b "bar"); (b "baz")] (Folded Clip)) (edit_path [] (SetBlock [(b "foo"); (b "bar"); (b "baz")] (Literal Strip)) (edit_path [] (SetBlock [(b "foo"); (b "bar"); (b "baz")] (Literal Keep)) (edit_path [] (SetBlock [(b "foo"); (b "bar"); (b "baz")] (Literal Clip)) (load (b "
    string
    ")))))) [] as_str = Some (Some (b "foo bar baz
")) /\
  print (edit_path [] (SetBlock [(b "foo"); (b "bar"); (b "baz")] (Folded Clip)) (edit_path [] (SetBlock [(b "foo"); (b "bar"); (b "baz")] (Literal Strip)) (edit_path [] (SetBlock [(b "foo"); (b "bar"); (b "baz")] (Literal Keep)) (edit_path [] (SetBlock [(b "foo"); (b "bar"); (b "baz")] (Literal Clip)) (load (b "
    string
    ")))))) = Ok (b "
    >
      foo
      bar
      baz
    ") /\
  at_path (edit_path [] (SetBlock [(b "foo"); (b "bar"); (b "baz")] (Folded Keep)) (edit_path [] (SetBlock [(b "foo"); (b "bar"); (b "baz")] (Folded Clip)) (edit_path [] (SetBlock [(b "foo"); (b "bar"); (b "baz")] (Literal Strip)) (edit_path [] (SetBlock [(b "foo"); (b "bar"); (b "baz")] (Literal Keep)) (edit_path [] (SetBlock [(b "foo"); (b "bar"); (b "baz")] (Literal Clip)) (load (b "
    string
    "))))))) [] as_str = Some (Some (b "foo bar baz
")) /\
  print (edit_path [] (SetBlock [(b "foo"); (b "bar"); (b "baz")] (Folded Keep)) (edit_path [] (SetBlock [(b "foo"); (b "bar"); (b "baz")] (Folded Clip)) (edit_path [] (SetBlock [(b "foo"); (b "bar"); (b "baz")] (Literal Strip)) (edit_path [] (SetBlock [(b "foo"); (b "bar"); (b "baz")] (Literal Keep)) (edit_path [] (SetBlock [(b "foo"); (b "bar"); (b "baz")] (Literal Clip)) (load (b "
    string
    "))))))) = Ok (b "
    >+
      foo
      bar
      baz
    ") /\
  at_path (edit_path [] (SetBlock [(b "foo"); (b "bar"); (b "baz")] (Folded Strip)) (edit_path [] (SetBlock [(b "foo"); (b "bar"); (b "baz")] (Folded Keep)) (edit_path [] (SetBlock [(b "foo"); (b "bar"); (b "baz")] (Folded Clip)) (edit_path [] (SetBlock [(b "foo"); (b "bar"); (b "baz")] (Literal Strip)) (edit_path [] (SetBlock [(b "foo"); (b "bar"); (b "baz")] (Literal Keep)) (edit_path [] (SetBlock [(b "foo"); (b "bar"); (b "baz")] (Literal Clip)) (load (b "
    string
    ")))))))) [] as_str = Some (Some (b "foo bar baz")) /\
  print (edit_path [] (SetBlock [(b "foo"); (b "bar"); (b "baz")] (Folded Strip)) (edit_path [] (SetBlock [(b "foo"); (b "bar"); (b "baz")] (Folded Keep)) (edit_path [] (SetBlock [(b "foo"); (b "bar"); (b "baz")] (Folded Clip)) (edit_path [] (SetBlock [(b "foo"); (b "bar"); (b "baz")] (Literal Strip)) (edit_path [] (SetBlock [(b "foo"); (b "bar"); (b "baz")] (Literal Keep)) (edit_path [] (SetBlock [(b "foo"); (b "bar"); (b "baz")] (Literal Clip)) (load (b "
    string
    ")))))))) = Ok (b "
    >-
      foo
      bar
      baz
    ").
Proof. t. Qed.

(* value_mut.rs 585-594 *)
Example doc32_t :
  print (edit_path [] (SetBool true) (load (b "  string"))) = Ok (b "  true").
Proof. t. Qed.

(* value_mut.rs 617-658 *)
Example doc33_t :
  print (edit_path [] (InsertInt (b "second") Unsigned32 2) (edit_path [] (InsertInt (b "first") Unsigned32 1) (edit_path [] (MakeMapping) (load (b "
    string
    "))))) = Ok (b "
    first: 1
    second: 2
    ") /\
  print (edit_path [K (b "first")] (InsertInt (b "third") Unsigned32 3) (edit_path [K (b "first")] (InsertInt (b "second") Unsigned32 2) (edit_path [K (b "first")] (MakeMapping) (load (b "
    first: second
    "))))) = Ok (b "
    first:
      second: 2
      third: 3
    ").
Proof. t. Qed.

(* value_mut.rs 662-689 *)
Example doc34_t :
  print (edit_path [I 2] (InsertInt (b "four") Unsigned32 4) (edit_path [I 2] (InsertInt (b "three") Unsigned32 3) (edit_path [I 2] (MakeMapping) (edit_path [] (Push Auto) (load (b "
    - one
    - two
    ")))))) = Ok (b "
    - one
    - two
    - three: 3
      four: 4
    ").
Proof. t. Qed.

(* value_mut.rs 714-755 *)
Example doc35_t :
  print (edit_path [] (PushInt Unsigned32 2) (edit_path [] (PushInt Unsigned32 1) (edit_path [] (MakeSequence) (load (b "
    string
    "))))) = Ok (b "
    - 1
    - 2
    ") /\
  print (edit_path [K (b "first")] (PushInt Unsigned32 3) (edit_path [K (b "first")] (PushInt Unsigned32 2) (edit_path [K (b "first")] (MakeSequence) (load (b "
    first: second
    "))))) = Ok (b "
    first:
      - 2
      - 3
    ").
Proof. t. Qed.

(* mapping_mut.rs 99-121, 698-707: insert_u8 to insert_i128 *)
Example doc36_t :
  print (edit_path [] (InsertInt (b "number2") Unsigned8 (42)) (load (b "
    number1: 10
    "))) = Ok (b "
    number1: 10
    number2: 42
    ") /\
  print (edit_path [] (InsertInt (b "number2") Signed8 (-42)) (load (b "
    number1: 10
    "))) = Ok (b "
    number1: 10
    number2: -42
    ") /\
  print (edit_path [] (InsertInt (b "number2") Unsigned16 (42)) (load (b "
    number1: 10
    "))) = Ok (b "
    number1: 10
    number2: 42
    ") /\
  print (edit_path [] (InsertInt (b "number2") Signed16 (-42)) (load (b "
    number1: 10
    "))) = Ok (b "
    number1: 10
    number2: -42
    ") /\
  print (edit_path [] (InsertInt (b "number2") Unsigned32 (42)) (load (b "
    number1: 10
    "))) = Ok (b "
    number1: 10
    number2: 42
    ") /\
  print (edit_path [] (InsertInt (b "number2") Signed32 (-42)) (load (b "
    number1: 10
    "))) = Ok (b "
    number1: 10
    number2: -42
    ") /\
  print (edit_path [] (InsertInt (b "number2") Unsigned64 (42)) (load (b "
    number1: 10
    "))) = Ok (b "
    number1: 10
    number2: 42
    ") /\
  print (edit_path [] (InsertInt (b "number2") Signed64 (-42)) (load (b "
    number1: 10
    "))) = Ok (b "
    number1: 10
    number2: -42
    ") /\
  print (edit_path [] (InsertInt (b "number2") Unsigned128 (42)) (load (b "
    number1: 10
    "))) = Ok (b "
    number1: 10
    number2: 42
    ") /\
  print (edit_path [] (InsertInt (b "number2") Signed128 (-42)) (load (b "
    number1: 10
    "))) = Ok (b "
    number1: 10
    number2: -42
    ").
Proof. t. Qed.

(* mapping_mut.rs 59-80, 696-697: insert_f32 and insert_f64, with the text of ryu *)
Example doc37_t :
  print (edit_path [] (InsertFloat (b "number2") Float32 (b "10.42")) (load (b "
    number1: 10
    "))) = Ok (b "
    number1: 10
    number2: 10.42
    ") /\
  print (edit_path [] (InsertFloat (b "number2") Float64 (b "10.42")) (load (b "
    number1: 10
    "))) = Ok (b "
    number1: 10
    number2: 10.42
    ").
Proof. t. Qed.

(* value_mut.rs 348-357, 602-611: set_u8 to set_i128 *)
Example doc38_t :
  print (edit_path [] (SetInt Unsigned8 (42)) (load (b "  10"))) = Ok (b "  42") /\
  print (edit_path [] (SetInt Signed8 (-42)) (load (b "  10"))) = Ok (b "  -42") /\
  print (edit_path [] (SetInt Unsigned16 (42)) (load (b "  10"))) = Ok (b "  42") /\
  print (edit_path [] (SetInt Signed16 (-42)) (load (b "  10"))) = Ok (b "  -42") /\
  print (edit_path [] (SetInt Unsigned32 (42)) (load (b "  10"))) = Ok (b "  42") /\
  print (edit_path [] (SetInt Signed32 (-42)) (load (b "  10"))) = Ok (b "  -42") /\
  print (edit_path [] (SetInt Unsigned64 (42)) (load (b "  10"))) = Ok (b "  42") /\
  print (edit_path [] (SetInt Signed64 (-42)) (load (b "  10"))) = Ok (b "  -42") /\
  print (edit_path [] (SetInt Unsigned128 (42)) (load (b "  10"))) = Ok (b "  42") /\
  print (edit_path [] (SetInt Signed128 (-42)) (load (b "  10"))) = Ok (b "  -42").
Proof. t. Qed.

(* value_mut.rs 324-333, 600-601: set_f32 and set_f64 *)
Example doc39_t :
  print (edit_path [] (SetFloat Float32 (b "10.42")) (load (b "10"))) = Ok (b "10.42") /\
  print (edit_path [] (SetFloat Float64 (b "10.42")) (load (b "10"))) = Ok (b "10.42").
Proof. t. Qed.

(* value.rs 149-157, 573-582, number.rs 14-23, 82-91: as_u8 to as_i128 *)
Example doc40_t :
  at_path (load (b "42")) [] (fun d => as_int d Unsigned8) = Some (Some (42)%Z) /\
  at_path (load (b "-42")) [] (fun d => as_int d Signed8) = Some (Some (-42)%Z) /\
  at_path (load (b "42")) [] (fun d => as_int d Unsigned16) = Some (Some (42)%Z) /\
  at_path (load (b "-42")) [] (fun d => as_int d Signed16) = Some (Some (-42)%Z) /\
  at_path (load (b "42")) [] (fun d => as_int d Unsigned32) = Some (Some (42)%Z) /\
  at_path (load (b "-42")) [] (fun d => as_int d Signed32) = Some (Some (-42)%Z) /\
  at_path (load (b "42")) [] (fun d => as_int d Unsigned64) = Some (Some (42)%Z) /\
  at_path (load (b "-42")) [] (fun d => as_int d Signed64) = Some (Some (-42)%Z) /\
  at_path (load (b "42")) [] (fun d => as_int d Unsigned128) = Some (Some (42)%Z) /\
  at_path (load (b "-42")) [] (fun d => as_int d Signed128) = Some (Some (-42)%Z).
Proof. t. Qed.

(* mapping_mut.rs 381-411 *)
Example doc41_t :
  answer [] (RemoveKey (b "no such key")) (load (b "
    number1: 10
    number2: 20
    mapping:
        inner: 400
    string3: ""I am a quoted string!""
    ")) = Some (Removed false) /\
  answer [] (RemoveKey (b "mapping")) (load (b "
    number1: 10
    number2: 20
    mapping:
        inner: 400
    string3: ""I am a quoted string!""
    ")) = Some (Removed true) /\
  answer [] (RemoveKey (b "mapping")) (edit_path [] (RemoveKey (b "mapping")) (load (b "
    number1: 10
    number2: 20
    mapping:
        inner: 400
    string3: ""I am a quoted string!""
    "))) = Some (Removed false) /\
  print (edit_path [] (RemoveKey (b "mapping")) (load (b "
    number1: 10
    number2: 20
    mapping:
        inner: 400
    string3: ""I am a quoted string!""
    "))) = Ok (b "
    number1: 10
    number2: 20
    string3: ""I am a quoted string!""
    ").
Proof. t. Qed.

(* mapping_mut.rs 437-458, sequence_mut.rs 332-352 *)
Example doc42_t :
  print (edit_path [] (ClearMapping) (load (b "
    number1: 10
    number2: 20
    mapping:
        inner: 400
    string3: ""I am a quoted string!""
    "))) = Ok (b "
    
    ") /\
  print (edit_path [] (ClearSequence) (load (b "
    - 10
    - 20
    - inner: 400
    - ""I am a quoted string!""
    "))) = Ok (b "
    
    ").
Proof. t. Qed.

(* mapping_mut.rs 476-499 *)
Example doc43_t :
  print (edit_path [K (b "three")] (SetInt Unsigned32 3) (edit_path [] (Insert (b "three") (Custom (b "   "))) (load (b "
    one: 1
    two: 2
    ")))) = Ok (b "
    one: 1
    two: 2
    three:   3
    ").
Proof. t. Qed.

(* mapping_mut.rs 512-533 and 666-687 *)
Example doc44_t :
  print (edit_path [] (InsertStr (b "string2") (b "hello")) (load (b "
    number1: 10
    "))) = Ok (b "
    number1: 10
    string2: hello
    ") /\
  print (edit_path [] (InsertBool (b "bool2") true) (load (b "
    number1: 10
    "))) = Ok (b "
    number1: 10
    bool2: true
    ").
Proof. t. Qed.

(* mapping_mut.rs 551-651 *)
Example doc45_t :
  at_path (edit_path [] (InsertBlock (b "key") [(b "foo"); (b "bar"); (b "baz")] (Literal Clip)) (edit_path [] (ClearMapping) (edit_path [] (MakeMapping) (load (b "
    string
    "))))) [K (b "key")] as_str = Some (Some (b "foo
bar
baz
")) /\
  print (edit_path [] (InsertBlock (b "key") [(b "foo"); (b "bar"); (b "baz")] (Literal Clip)) (edit_path [] (ClearMapping) (edit_path [] (MakeMapping) (load (b "
    string
    "))))) = Ok (b "
    key: |
      foo
      bar
      baz
    ") /\
  at_path (edit_path [] (InsertBlock (b "key") [(b "foo"); (b "bar"); (b "baz")] (Literal Keep)) (edit_path [] (ClearMapping) (edit_path [] (MakeMapping) (edit_path [] (InsertBlock (b "key") [(b "foo"); (b "bar"); (b "baz")] (Literal Clip)) (edit_path [] (ClearMapping) (edit_path [] (MakeMapping) (load (b "
    string
    ")))))))) [K (b "key")] as_str = Some (Some (b "foo
bar
baz
")) /\
  print (edit_path [] (InsertBlock (b "key") [(b "foo"); (b "bar"); (b "baz")] (Literal Keep)) (edit_path [] (ClearMapping) (edit_path [] (MakeMapping) (edit_path [] (InsertBlock (b "key") [(b "foo"); (b "bar"); (b "baz")] (Literal Clip)) (edit_path [] (ClearMapping) (edit_path [] (MakeMapping) (load (b "
    string
    ")))))))) = Ok (b "
    key: |+
      foo
      bar
      baz
    ") /\
  at_path (edit_path [] (InsertBlock (b "key") [(b "foo"); (b "bar"); (b "baz")] (Literal Strip)) (edit_path [] (ClearMapping) (edit_path [] (MakeMapping) (edit_path [] (InsertBlock (b "key") [(b "foo"); (b "bar"); (b "baz")] (Literal Keep)) (edit_path [] (ClearMapping) (edit_path [] (MakeMapping) (edit_path [] (InsertBlock (b "key") [(b "foo"); (b "bar"); (b "baz")] (Literal Clip)) (edit_path [] (ClearMapping) (edit_path [] (MakeMapping) (load (b "
    string
    "))))))))))) [K (b "key")] as_str = Some (Some (b "foo
bar
baz")) /\
  print (edit_path [] (InsertBlock (b "key") [(b "foo"); (b "bar"); (b "baz")] (Literal Strip)) (edit_path [] (ClearMapping) (edit_path [] (MakeMapping) (edit_path [] (InsertBlock (b "key") [(b "foo"); (b "bar"); (b "baz")] (Literal Keep)) (edit_path [] (ClearMapping) (edit_path [] (MakeMapping) (edit_path [] (InsertBlock (b "key") [(b "foo"); (b "bar"); (b "baz")] (Literal Clip)) (edit_path [] (ClearMapping) (edit_path [] (MakeMapping) (load (b "
    string
    "))))))))))) = Ok (b "
    key: |-
      foo
      bar
      baz
    ") /\
  at_path (edit_path [] (InsertBlock (b "key") [(b "foo"); (b "bar"); (b "baz")] (Folded Clip)) (edit_path [] (ClearMapping) (edit_path [] (MakeMapping) (edit_path [] (InsertBlock (b "key") [(b "foo"); (b "bar"); (b "baz")] (Literal Strip)) (edit_path [] (ClearMapping) (edit_path [] (MakeMapping) (edit_path [] (InsertBlock (b "key") [(b "foo"); (b "bar"); (b "baz")] (Literal Keep)) (edit_path [] (ClearMapping) (edit_path [] (MakeMapping) (edit_path [] (InsertBlock (b "key") [(b "foo"); (b "bar"); (b "baz")] (Literal Clip)) (edit_path [] (ClearMapping) (edit_path [] (MakeMapping) (load (b "
    string
    ")))))))))))))) [K (b "key")] as_str = Some (Some (b "foo bar baz
")) /\
  print (edit_path [] (InsertBlock (b "key") [(b "foo"); (b "bar"); (b "baz")] (Folded Clip)) (edit_path [] (ClearMapping) (edit_path [] (MakeMapping) (edit_path [] (InsertBlock (b "key") [(b "foo"); (b "bar"); (b "baz")] (Literal Strip)) (edit_path [] (ClearMapping) (edit_path [] (MakeMapping) (edit_path [] (InsertBlock (b "key") [(b "foo"); (b "bar"); (b "baz")] (Literal Keep)) (edit_path [] (ClearMapping) (edit_path [] (MakeMapping) (edit_path [] (InsertBlock (b "key") [(b "foo"); (b "bar"); (b "baz")] (Literal Clip)) (edit_path [] (ClearMapping) (edit_path [] (MakeMapping) (load (b "
    string
    ")))))))))))))) = Ok (b "
    key: >
      foo
      bar
      baz
    ") /\
  at_path (edit_path [] (InsertBlock (b "key") [(b "foo"); (b "bar"); (b "baz")] (Folded Keep)) (edit_path [] (ClearMapping) (edit_path [] (MakeMapping) (edit_path [] (InsertBlock (b "key") [(b "foo"); (b "bar"); (b "baz")] (Folded Clip)) (edit_path [] (ClearMapping) (edit_path [] (MakeMapping) (edit_path [] (InsertBlock (b "key") [(b "foo"); (b "bar"); (b "baz")] (Literal Strip)) (edit_path [] (ClearMapping) (edit_path [] (MakeMapping) (edit_path [] (InsertBlock (b "key") [(b "foo"); (b "bar"); (b "baz")] (Literal Keep)) (edit_path [] (ClearMapping) (edit_path [] (MakeMapping) (edit_path [] (InsertBlock (b "key") [(b "foo"); (b "bar"); (b "baz")] (Literal Clip)) (edit_path [] (ClearMapping) (edit_path [] (MakeMapping) (load (b "
    string
    "))))))))))))))))) [K (b "key")] as_str = Some (Some (b "foo bar baz
")) /\
  print (edit_path [] (InsertBlock (b "key") [(b "foo"); (b "bar"); (b "baz")] (Folded Keep)) (edit_path [] (ClearMapping) (edit_path [] (MakeMapping) (edit_path [] (InsertBlock (b "key") [(b "foo"); (b "bar"); (b "baz")] (Folded Clip)) (edit_path [] (ClearMapping) (edit_path [] (MakeMapping) (edit_path [] (InsertBlock (b "key") [(b "foo"); (b "bar"); (b "baz")] (Literal Strip)) (edit_path [] (ClearMapping) (edit_path [] (MakeMapping) (edit_path [] (InsertBlock (b "key") [(b "foo"); (b "bar"); (b "baz")] (Literal Keep)) (edit_path [] (ClearMapping) (edit_path [] (MakeMapping) (edit_path [] (InsertBlock (b "key") [(b "foo"); (b "bar"); (b "baz")] (Literal Clip)) (edit_path [] (ClearMapping) (edit_path [] (MakeMapping) (load (b "
    string
    "))))))))))))))))) = Ok (b "
    key: >+
      foo
      bar
      baz
    ") /\
  at_path (edit_path [] (InsertBlock (b "key") [(b "foo"); (b "bar"); (b "baz")] (Folded Strip)) (edit_path [] (ClearMapping) (edit_path [] (MakeMapping) (edit_path [] (InsertBlock (b "key") [(b "foo"); (b "bar"); (b "baz")] (Folded Keep)) (edit_path [] (ClearMapping) (edit_path [] (MakeMapping) (edit_path [] (InsertBlock (b "key") [(b "foo"); (b "bar"); (b "baz")] (Folded Clip)) (edit_path [] (ClearMapping) (edit_path [] (MakeMapping) (edit_path [] (InsertBlock (b "key") [(b "foo"); (b "bar"); (b "baz")] (Literal Strip)) (edit_path [] (ClearMapping) (edit_path [] (MakeMapping) (edit_path [] (InsertBlock (b "key") [(b "foo"); (b "bar"); (b "baz")] (Literal Keep)) (edit_path [] (ClearMapping) (edit_path [] (MakeMapping) (edit_path [] (InsertBlock (b "key") [(b "foo"); (b "bar"); (b "baz")] (Literal Clip)) (edit_path [] (ClearMapping) (edit_path [] (MakeMapping) (load (b "
    string
    ")))))))))))))))))))) [K (b "key")] as_str = Some (Some (b "foo bar baz")) /\
  print (edit_path [] (InsertBlock (b "key") [(b "foo"); (b "bar"); (b "baz")] (Folded Strip)) (edit_path [] (ClearMapping) (edit_path [] (MakeMapping) (edit_path [] (InsertBlock (b "key") [(b "foo"); (b "bar"); (b "baz")] (Folded Keep)) (edit_path [] (ClearMapping) (edit_path [] (MakeMapping) (edit_path [] (InsertBlock (b "key") [(b "foo"); (b "bar"); (b "baz")] (Folded Clip)) (edit_path [] (ClearMapping) (edit_path [] (MakeMapping) (edit_path [] (InsertBlock (b "key") [(b "foo"); (b "bar"); (b "baz")] (Literal Strip)) (edit_path [] (ClearMapping) (edit_path [] (MakeMapping) (edit_path [] (InsertBlock (b "key") [(b "foo"); (b "bar"); (b "baz")] (Literal Keep)) (edit_path [] (ClearMapping) (edit_path [] (MakeMapping) (edit_path [] (InsertBlock (b "key") [(b "foo"); (b "bar"); (b "baz")] (Literal Clip)) (edit_path [] (ClearMapping) (edit_path [] (MakeMapping) (load (b "
    string
    ")))))))))))))))))))) = Ok (b "
    key: >-
      foo
      bar
      baz
    ").
Proof. t. Qed.

(* mapping.rs 41-72 *)
Example doc46_t :
  print (load (b "{}")) = Ok (b "{}") /\
  at_path (load (b "{test: 1,}")) [] map_is_empty = Some false /\
  at_path (load (b "{test: 1,}")) [] map_len = Some 1 /\
  print (load (b "{test: 1,}")) = Ok (b "{test: 1,}") /\
  at_path (load (b "
    {one: one, two: two, three: 3,}
    ")) [K (b "one")] as_str = Some (Some (b "one")) /\
  at_path (load (b "
    {one: one, two: two, three: 3,}
    ")) [K (b "two")] as_str = Some (Some (b "two")) /\
  at_path (load (b "
    {one: one, two: two, three: 3,}
    ")) [K (b "three")] u32 = Some (Some 3%Z) /\
  print (load (b "
    {one: one, two: two, three: 3,}
    ")) = Ok (b "
    {one: one, two: two, three: 3,}
    ").
Proof. t. Qed.

(* mapping.rs 87-106, sequence.rs 120-139 *)
Example doc47_t :
  at_path (load (b "
    first: 32
    second: [1, 2, 3]
    ")) [K (b "second")] numbers = Some [1; 2; 3]%Z /\
  at_path (load (b "
    - 32
    - [1, 2, 3]
    ")) [I 1] numbers = Some [1; 2; 3]%Z.
Proof. t. Qed.

(* mapping.rs 117-132, 143-158, 211-226, 252-267, 282-297 *)
Example doc48_t :
  at_path (load (b "
    one: 1
    two: 2
    three: 3
    ")) [] map_len = Some 3 /\
  at_path (load (b "
    one: 1
    two: 2
    three: 3
    ")) [] map_is_empty = Some false /\
  at_path (load (b "
    one: 1
    two: 2
    three: 3
    ")) [] map_numbers = Some [1; 2; 3]%Z.
Proof. t. Qed.

(* sequence_mut.rs 56-78, 585-594: push_u8 to push_i128 *)
Example doc49_t :
  print (edit_path [] (PushInt Unsigned8 (42)) (load (b "
    - 10
    "))) = Ok (b "
    - 10
    - 42
    ") /\
  print (edit_path [] (PushInt Signed8 (-42)) (load (b "
    - 10
    "))) = Ok (b "
    - 10
    - -42
    ") /\
  print (edit_path [] (PushInt Unsigned16 (42)) (load (b "
    - 10
    "))) = Ok (b "
    - 10
    - 42
    ") /\
  print (edit_path [] (PushInt Signed16 (-42)) (load (b "
    - 10
    "))) = Ok (b "
    - 10
    - -42
    ") /\
  print (edit_path [] (PushInt Unsigned32 (42)) (load (b "
    - 10
    "))) = Ok (b "
    - 10
    - 42
    ") /\
  print (edit_path [] (PushInt Signed32 (-42)) (load (b "
    - 10
    "))) = Ok (b "
    - 10
    - -42
    ") /\
  print (edit_path [] (PushInt Unsigned64 (42)) (load (b "
    - 10
    "))) = Ok (b "
    - 10
    - 42
    ") /\
  print (edit_path [] (PushInt Signed64 (-42)) (load (b "
    - 10
    "))) = Ok (b "
    - 10
    - -42
    ") /\
  print (edit_path [] (PushInt Unsigned128 (42)) (load (b "
    - 10
    "))) = Ok (b "
    - 10
    - 42
    ") /\
  print (edit_path [] (PushInt Signed128 (-42)) (load (b "
    - 10
    "))) = Ok (b "
    - 10
    - -42
    ").
Proof. t. Qed.

(* sequence_mut.rs 19-40, 583-584: push_f32 and push_f64 *)
Example doc50_t :
  print (edit_path [] (PushFloat Float32 (b "10.42")) (load (b "
    - 10
    "))) = Ok (b "
    - 10
    - 10.42
    ") /\
  print (edit_path [] (PushFloat Float64 (b "10.42")) (load (b "
    - 10
    "))) = Ok (b "
    - 10
    - 10.42
    ").
Proof. t. Qed.

(* sequence_mut.rs 287-315 *)
Example doc51_t :
  answer [] (RemoveIndex 4) (load (b "
    - 10
    - 20
    - inner: 400
    - ""I am a quoted string!""
    ")) = Some (Removed false) /\
  answer [] (RemoveIndex 2) (load (b "
    - 10
    - 20
    - inner: 400
    - ""I am a quoted string!""
    ")) = Some (Removed true) /\
  print (edit_path [] (RemoveIndex 2) (load (b "
    - 10
    - 20
    - inner: 400
    - ""I am a quoted string!""
    "))) = Ok (b "
    - 10
    - 20
    - ""I am a quoted string!""
    ").
Proof. t. Qed.

(* sequence_mut.rs 369-392 *)
Example doc52_t :
  print (edit_path [I 2] (SetBool true) (edit_path [] (Push (Custom (b "   "))) (load (b "
    - one
    - two
    ")))) = Ok (b "
    - one
    - two
    -   true
    ").
Proof. t. Qed.

(* sequence_mut.rs 402-424 and 555-577 *)
Example doc53_t :
  print (edit_path [I 0] (PushString (b "nice string")) (load (b "
    - - 10
    "))) = Ok (b "
    - - 10
      - nice string
    ") /\
  print (edit_path [I 0] (PushBool false) (load (b "
    - - 10
    "))) = Ok (b "
    - - 10
      - false
    ").
Proof. t. Qed.

(* sequence_mut.rs 441-541 *)
Example doc54_t :
  at_path (edit_path [] (PushBlock [(b "foo"); (b "bar"); (b "baz")] (Literal Clip)) (edit_path [] (ClearSequence) (edit_path [] (MakeSequence) (load (b "
    string
    "))))) [] last_str = Some (Some (b "foo
bar
baz
")) /\
  print (edit_path [] (PushBlock [(b "foo"); (b "bar"); (b "baz")] (Literal Clip)) (edit_path [] (ClearSequence) (edit_path [] (MakeSequence) (load (b "
    string
    "))))) = Ok (b "
    - |
      foo
      bar
      baz
    ") /\
  at_path (edit_path [] (PushBlock [(b "foo"); (b "bar"); (b "baz")] (Literal Keep)) (edit_path [] (ClearSequence) (edit_path [] (MakeSequence) (edit_path [] (PushBlock [(b "foo"); (b "bar"); (b "baz")] (Literal Clip)) (edit_path [] (ClearSequence) (edit_path [] (MakeSequence) (load (b "
    string
    ")))))))) [] last_str = Some (Some (b "foo
bar
baz
")) /\
  print (edit_path [] (PushBlock [(b "foo"); (b "bar"); (b "baz")] (Literal Keep)) (edit_path [] (ClearSequence) (edit_path [] (MakeSequence) (edit_path [] (PushBlock [(b "foo"); (b "bar"); (b "baz")] (Literal Clip)) (edit_path [] (ClearSequence) (edit_path [] (MakeSequence) (load (b "
    string
    ")))))))) = Ok (b "
    - |+
      foo
      bar
      baz
    ") /\
  at_path (edit_path [] (PushBlock [(b "foo"); (b "bar"); (b "baz")] (Literal Strip)) (edit_path [] (ClearSequence) (edit_path [] (MakeSequence) (edit_path [] (PushBlock [(b "foo"); (b "bar"); (b "baz")] (Literal Keep)) (edit_path [] (ClearSequence) (edit_path [] (MakeSequence) (edit_path [] (PushBlock [(b "foo"); (b "bar"); (b "baz")] (Literal Clip)) (edit_path [] (ClearSequence) (edit_path [] (MakeSequence) (load (b "
    string
    "))))))))))) [] last_str = Some (Some (b "foo
bar
baz")) /\
  print (edit_path [] (PushBlock [(b "foo"); (b "bar"); (b "baz")] (Literal Strip)) (edit_path [] (ClearSequence) (edit_path [] (MakeSequence) (edit_path [] (PushBlock [(b "foo"); (b "bar"); (b "baz")] (Literal Keep)) (edit_path [] (ClearSequence) (edit_path [] (MakeSequence) (edit_path [] (PushBlock [(b "foo"); (b "bar"); (b "baz")] (Literal Clip)) (edit_path [] (ClearSequence) (edit_path [] (MakeSequence) (load (b "
    string
    "))))))))))) = Ok (b "
    - |-
      foo
      bar
      baz
    ") /\
  at_path (edit_path [] (PushBlock [(b "foo"); (b "bar"); (b "baz")] (Folded Clip)) (edit_path [] (ClearSequence) (edit_path [] (MakeSequence) (edit_path [] (PushBlock [(b "foo"); (b "bar"); (b "baz")] (Literal Strip)) (edit_path [] (ClearSequence) (edit_path [] (MakeSequence) (edit_path [] (PushBlock [(b "foo"); (b "bar"); (b "baz")] (Literal Keep)) (edit_path [] (ClearSequence) (edit_path [] (MakeSequence) (edit_path [] (PushBlock [(b "foo"); (b "bar"); (b "baz")] (Literal Clip)) (edit_path [] (ClearSequence) (edit_path [] (MakeSequence) (load (b "
    string
    ")))))))))))))) [] last_str = Some (Some (b "foo bar baz
")) /\
  print (edit_path [] (PushBlock [(b "foo"); (b "bar"); (b "baz")] (Folded Clip)) (edit_path [] (ClearSequence) (edit_path [] (MakeSequence) (edit_path [] (PushBlock [(b "foo"); (b "bar"); (b "baz")] (Literal Strip)) (edit_path [] (ClearSequence) (edit_path [] (MakeSequence) (edit_path [] (PushBlock [(b "foo"); (b "bar"); (b "baz")] (Literal Keep)) (edit_path [] (ClearSequence) (edit_path [] (MakeSequence) (edit_path [] (PushBlock [(b "foo"); (b "bar"); (b "baz")] (Literal Clip)) (edit_path [] (ClearSequence) (edit_path [] (MakeSequence) (load (b "
    string
    ")))))))))))))) = Ok (b "
    - >
      foo
      bar
      baz
    ") /\
  at_path (edit_path [] (PushBlock [(b "foo"); (b "bar"); (b "baz")] (Folded Keep)) (edit_path [] (ClearSequence) (edit_path [] (MakeSequence) (edit_path [] (PushBlock [(b "foo"); (b "bar"); (b "baz")] (Folded Clip)) (edit_path [] (ClearSequence) (edit_path [] (MakeSequence) (edit_path [] (PushBlock [(b "foo"); (b "bar"); (b "baz")] (Literal Strip)) (edit_path [] (ClearSequence) (edit_path [] (MakeSequence) (edit_path [] (PushBlock [(b "foo"); (b "bar"); (b "baz")] (Literal Keep)) (edit_path [] (ClearSequence) (edit_path [] (MakeSequence) (edit_path [] (PushBlock [(b "foo"); (b "bar"); (b "baz")] (Literal Clip)) (edit_path [] (ClearSequence) (edit_path [] (MakeSequence) (load (b "
    string
    "))))))))))))))))) [] last_str = Some (Some (b "foo bar baz
")) /\
  print (edit_path [] (PushBlock [(b "foo"); (b "bar"); (b "baz")] (Folded Keep)) (edit_path [] (ClearSequence) (edit_path [] (MakeSequence) (edit_path [] (PushBlock [(b "foo"); (b "bar"); (b "baz")] (Folded Clip)) (edit_path [] (ClearSequence) (edit_path [] (MakeSequence) (edit_path [] (PushBlock [(b "foo"); (b "bar"); (b "baz")] (Literal Strip)) (edit_path [] (ClearSequence) (edit_path [] (MakeSequence) (edit_path [] (PushBlock [(b "foo"); (b "bar"); (b "baz")] (Literal Keep)) (edit_path [] (ClearSequence) (edit_path [] (MakeSequence) (edit_path [] (PushBlock [(b "foo"); (b "bar"); (b "baz")] (Literal Clip)) (edit_path [] (ClearSequence) (edit_path [] (MakeSequence) (load (b "
    string
    "))))))))))))))))) = Ok (b "
    - >+
      foo
      bar
      baz
    ") /\
  at_path (edit_path [] (PushBlock [(b "foo"); (b "bar"); (b "baz")] (Folded Strip)) (edit_path [] (ClearSequence) (edit_path [] (MakeSequence) (edit_path [] (PushBlock [(b "foo"); (b "bar"); (b "baz")] (Folded Keep)) (edit_path [] (ClearSequence) (edit_path [] (MakeSequence) (edit_path [] (PushBlock [(b "foo"); (b "bar"); (b "baz")] (Folded Clip)) (edit_path [] (ClearSequence) (edit_path [] (MakeSequence) (edit_path [] (PushBlock [(b "foo"); (b "bar"); (b "baz")] (Literal Strip)) (edit_path [] (ClearSequence) (edit_path [] (MakeSequence) (edit_path [] (PushBlock [(b "foo"); (b "bar"); (b "baz")] (Literal Keep)) (edit_path [] (ClearSequence) (edit_path [] (MakeSequence) (edit_path [] (PushBlock [(b "foo"); (b "bar"); (b "baz")] (Literal Clip)) (edit_path [] (ClearSequence) (edit_path [] (MakeSequence) (load (b "
    string
    ")))))))))))))))))))) [] last_str = Some (Some (b "foo bar baz")) /\
  print (edit_path [] (PushBlock [(b "foo"); (b "bar"); (b "baz")] (Folded Strip)) (edit_path [] (ClearSequence) (edit_path [] (MakeSequence) (edit_path [] (PushBlock [(b "foo"); (b "bar"); (b "baz")] (Folded Keep)) (edit_path [] (ClearSequence) (edit_path [] (MakeSequence) (edit_path [] (PushBlock [(b "foo"); (b "bar"); (b "baz")] (Folded Clip)) (edit_path [] (ClearSequence) (edit_path [] (MakeSequence) (edit_path [] (PushBlock [(b "foo"); (b "bar"); (b "baz")] (Literal Strip)) (edit_path [] (ClearSequence) (edit_path [] (MakeSequence) (edit_path [] (PushBlock [(b "foo"); (b "bar"); (b "baz")] (Literal Keep)) (edit_path [] (ClearSequence) (edit_path [] (MakeSequence) (edit_path [] (PushBlock [(b "foo"); (b "bar"); (b "baz")] (Literal Clip)) (edit_path [] (ClearSequence) (edit_path [] (MakeSequence) (load (b "
    string
    ")))))))))))))))))))) = Ok (b "
    - >-
      foo
      bar
      baz
    ").
Proof. t. Qed.

(* sequence.rs 33-70 *)
Example doc55_t :
  at_path (load (b "
    - one
    - two
    - - three
      - four: 2
        five: 1
    - six
    ")) [I 0] as_str = Some (Some (b "one")) /\
  at_path (load (b "
    - one
    - two
    - - three
      - four: 2
        five: 1
    - six
    ")) [I 1] as_str = Some (Some (b "two")) /\
  at_path (load (b "
    - one
    - two
    - - three
      - four: 2
        five: 1
    - six
    ")) [I 2; I 0] as_str = Some (Some (b "three")) /\
  at_path (load (b "
    - one
    - two
    - - three
      - four: 2
        five: 1
    - six
    ")) [I 2; I 1; K (b "four")] u32 = Some (Some 2%Z) /\
  at_path (load (b "
    - one
    - two
    - - three
      - four: 2
        five: 1
    - six
    ")) [I 2; I 1; K (b "five")] u32 = Some (Some 1%Z) /\
  at_path (load (b "
    - one
    - two
    - - three
      - four: 2
        five: 1
    - six
    ")) [I 3] as_str = Some (Some (b "six")).
Proof. t. Qed.

(* sequence.rs 74-105 *)
Example doc56_t :
  print (load (b "[]")) = Ok (b "[]") /\
  at_path (load (b "[,]")) [] seq_is_empty = Some false /\
  at_path (load (b "[,]")) [] seq_len = Some 1 /\
  print (load (b "[,]")) = Ok (b "[,]") /\
  at_path (load (b "
    [one, two, 3,]
    ")) [I 0] as_str = Some (Some (b "one")) /\
  at_path (load (b "
    [one, two, 3,]
    ")) [I 1] as_str = Some (Some (b "two")) /\
  at_path (load (b "
    [one, two, 3,]
    ")) [I 2] u32 = Some (Some 3%Z) /\
  print (load (b "
    [one, two, 3,]
    ")) = Ok (b "
    [one, two, 3,]
    ").
Proof. t. Qed.

(* sequence.rs 150-165, 176-191, 233-249, 262-278, 291-306, 332-347, 362-377 *)
Example doc57_t :
  at_path (load (b "
    - one
    - two
    - three
    ")) [] seq_len = Some 3 /\
  at_path (load (b "
    - one
    - two
    - three
    ")) [] seq_is_empty = Some false /\
  at_path (load (b "
    - one
    - two
    - three
    ")) [] first_str = Some (Some (b "one")) /\
  at_path (load (b "
    - one
    - two
    - three
    ")) [] last_str = Some (Some (b "three")) /\
  at_path (load (b "
    - one
    - two
    - three
    ")) [] strings = Some [(b "one"); (b "two"); (b "three")].
Proof. t. Qed.

(* lib.rs 31-59 *)
Example doc58_t :
  at_path (load (b "
    greeting: Hello World!
    ")) [K (b "greeting")] as_str = Some (Some (b "Hello World!")) /\
  print (edit_path [] (InsertStr (b "greeting2") (b "Hello Rust!")) (load (b "
    greeting: Hello World!
    "))) = Ok (b "
    greeting: Hello World!
    greeting2: Hello Rust!
    ").
Proof. t. Qed.

(* lib.rs 96-135 *)
Example doc59_t :
  at_path (load (b "
    - 10
    - 24
    - 30
    ")) [] numbers = Some [10; 24; 30]%Z /\
  print (edit_path [I 2] (SetInt Unsigned32 3) (edit_path [I 0] (SetInt Unsigned32 1) (load (b "
    - 10
    - 24
    - 30
    ")))) = Ok (b "
    - 1
    - 24
    - 3
    ").
Proof. t. Qed.

(* lib.rs 146-176 *)
Example doc60_t :
  at_path (load (b "
    name: Descartes
    country: Grece
    ")) [K (b "name")] as_str = Some (Some (b "Descartes")) /\
  print (edit_path [K (b "country")] (SetString (b "Greece")) (edit_path [K (b "name")] (SetString (b "Plato")) (load (b "
    name: Descartes
    country: Grece
    ")))) = Ok (b "
    name: Plato
    country: Greece
    ").
Proof. t. Qed.

(* error.rs 55-165 *)
Example doc61_t :
  error_at (b "
{hello: world}
42
") = Some (ExpectedEof, (b "42
")) /\
  error_at (b "[Aristotle, # this is a comment") = Some (BadSequenceTerminator, (b " # this is a comment")) /\
  error_at (b "{name: Aristotle, age # this is a comment") = Some (BadMappingSeparator, (b " age # this is a comment")) /\
  error_at (b "
name: Aristotle
age # end") = Some (BadMappingSeparator, (b "age # end")) /\
  error_at (b "{name: Aristotle, # this is a comment") = Some (BadMappingTerminator, (b " # this is a comment")) /\
  error_at (b """hello \o1u world""") = Some (BadEscape, (b "\o")) /\
  error_at (b """hello \x1u world""") = Some (BadHexEscape, (b "\x1u")) /\
  error_at (b """hello \ud800 world""") = Some (BadUnicodeEscape, (b "\ud800")).
Proof. t. Qed.

Definition source : outcome document := load (b "
name: Descartes
year: 1596
books:
- year: 1618
  title: Musicae Compendium
- year: 1628
  title: Regulae ad directionem ingenii
- year: 1630
  title: De solidorum elementis
- year: 1631
  title: La recherche de la vérité par la lumière naturelle
- year: 1633
  title: Le Monde and L'Homme
- year: 1637
  title: Discours de la méthode
- year: 1637
  title: La Géométrie
- year: 1641
  title: Meditationes de prima philosophia
- year: 1644
  title: Principia philosophiae
- year: 1647
  title: Notae in programma
- year: 1648
  title: La description du corps humain
- year: 1648
  title: Responsiones Renati Des Cartes...
- year: 1649
  title: Les passions de l'âme
- year: 1657
  title: Correspondance
").

(* serde/mod.rs 17-86: the values of the record (read with the API) *)
Example doc62_t :
  at_path (source) [K (b "name")] as_str = Some (Some (b "Descartes")) /\
  at_path (source) [K (b "year")] u32 = Some (Some 1596%Z) /\
  at_path source [K (b "books")] seq_len = Some 14 /\
  at_path (source) [K (b "books"); I 0; K (b "year")] u32 = Some (Some 1618%Z) /\
  at_path (source) [K (b "books"); I 13; K (b "year")] u32 = Some (Some 1657%Z) /\
  at_path (source) [K (b "books"); I 3; K (b "title")] as_str = Some (Some (b "La recherche de la vérité par la lumière naturelle")) /\
  print (source) = Ok (b "
name: Descartes
year: 1596
books:
- year: 1618
  title: Musicae Compendium
- year: 1628
  title: Regulae ad directionem ingenii
- year: 1630
  title: De solidorum elementis
- year: 1631
  title: La recherche de la vérité par la lumière naturelle
- year: 1633
  title: Le Monde and L'Homme
- year: 1637
  title: Discours de la méthode
- year: 1637
  title: La Géométrie
- year: 1641
  title: Meditationes de prima philosophia
- year: 1644
  title: Principia philosophiae
- year: 1647
  title: Notae in programma
- year: 1648
  title: La description du corps humain
- year: 1648
  title: Responsiones Renati Des Cartes...
- year: 1649
  title: Les passions de l'âme
- year: 1657
  title: Correspondance
").
Proof. t. Qed.
