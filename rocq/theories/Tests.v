(* Replay of the crate's own unit tests (src/yaml/tests) and of some doc tests on the model,
   by computation. These are tests of the model, not proofs of properties. *)
From Coq Require Import String.
From Coq Require Import List NArith ZArith Bool Arith.
From Verif Require Import Bytes Utf8 Data Parser Render Num Api.
Import ListNotations.

Definition idhash : bytes -> sid := fun s => s.
Definition load (s : bytes) : outcome document := from_slice idhash s.

(* Follow keys and indices from the root. *)
Inductive seg := K (k : bytes) | I (i : nat).
Fixpoint walk (d : data) (id : nat) (p : list seg) : option nat :=
  match p with
  | [] => Some id
  | K k :: p => match map_get d id k with Ok (Some v) => walk d v p | _ => None end
  | I i :: p => match seq_get d id i with Ok (Some v) => walk d v p | _ => None end
  end.
Definition at_path {A} (doc : outcome document) (p : list seg) (f : data -> nat -> outcome A)
  : option A :=
  match doc with
  | Ok (Doc _ root d) =>
    match walk d root p with
    | Some id => match f d id with Ok x => Some x | _ => None end
    | None => None
    end
  | _ => None
  end.
Definition edit_path (p : list seg) (e : edit) (doc : outcome document) : outcome document :=
  match doc with
  | Ok (Doc s root d) =>
    match walk d root p with
    | Some id => match run idhash id e d with Ok (_, d) => Ok (Doc s root d) | _ => Panic end
    | None => Panic
    end
  | o => o
  end.
Definition print (doc : outcome document) : outcome bytes :=
  match doc with Ok doc => to_string doc | _ => Panic end.
Definition write (doc : outcome document) : outcome bytes :=
  match doc with Ok doc => write_to doc | _ => Panic end.
Definition both (doc : outcome document) (s : bytes) : Prop :=
  print doc = Ok s /\ write doc = Ok s.
Definition roundtrip (s : bytes) : Prop := both (load s) s.
Ltac t := vm_compute; repeat split; reflexivity.

(* tests/mod.rs *)
Example make_mapping_t :
  both
    (edit_path [K (b "first")] (InsertInt (b "third") Unsigned32 3)
    (edit_path [K (b "first")] (InsertInt (b "second") Unsigned32 2)
    (edit_path [K (b "first")] MakeMapping (load (b "
        first: second
        ")))))
  (b "
        first:
          second: 2
          third: 3
        ").
Proof. t. Qed.
Example property_eol_t :
  at_path (load (b "
        mapping:
            inner: so this is as a matter of @ course, a large document
        string3: ""I am a quoted string!""
        ")) [K (b "mapping"); K (b "inner")] as_str
  = Some (Some (b "so this is as a matter of @ course, a large document")).
Proof. t. Qed.
Definition seqs := load (b "
        - one
        - two
        - - three
          - four: 2
            five: 1
        - six
        ").
Example sequences_t :
  at_path seqs [I 0] as_str = Some (Some (b "one")) /\
  at_path seqs [I 1] as_str = Some (Some (b "two")) /\
  at_path seqs [I 2; I 0] as_str = Some (Some (b "three")) /\
  at_path seqs [I 2; I 1; K (b "four")] (fun d => as_int d Unsigned32) = Some (Some 2%Z) /\
  at_path seqs [I 2; I 1; K (b "five")] (fun d => as_int d Unsigned32) = Some (Some 1%Z) /\
  at_path seqs [I 3] as_str = Some (Some (b "six")).
Proof. t. Qed.
(* tests/escape.rs *)
Definition text (s : bytes) := at_path (load s) [] as_str.
Example escape_t :
  text (b """a \n b""") = Some (Some (b "a " ++ [10%N] ++ b " b")) /\
  text (b """a \0 b""") = Some (Some (b "a " ++ [0%N] ++ b " b")) /\
  text (b """a \a b""") = Some (Some (b "a " ++ [7%N] ++ b " b")) /\
  text (b """a \b b""") = Some (Some (b "a " ++ [8%N] ++ b " b")) /\
  text (b """a \t b""") = Some (Some (b "a " ++ [9%N] ++ b " b")) /\
  text (b """a \v b""") = Some (Some (b "a " ++ [11%N] ++ b " b")) /\
  text (b """a \f b""") = Some (Some (b "a " ++ [12%N] ++ b " b")) /\
  text (b """a \r b""") = Some (Some (b "a " ++ [13%N] ++ b " b")) /\
  text (b """a \e b""") = Some (Some (b "a " ++ [27%N] ++ b " b")) /\
  text (b """a \\ b""") = Some (Some (b "a "" b")) /\
  text (b """a \x77 b""") = Some (Some (b "a w b")) /\
  text (b """a 私 b""") = Some (Some (b "a " ++ [231; 167; 129]%N ++ b " b")) /\
  text (b "'It is a party!'") = Some (Some (b "It is a party!")) /\
  text (b "'It''s a party!'") = Some (Some (b "It's a party!")).
Proof. t. Qed.
(* tests/mapping.rs *)
Example mapping_t : roundtrip (b "
        one: 1
        two: 2
        three:
          four: 4
          five: 5
        ").
Proof. t. Qed.
Example inline_mapping_t : roundtrip (b "
        one: 1
        two: 2
        three:
          four: {inner: 10, inner2: 20}
          five: 5
        ").
Proof. t. Qed.
Definition inl := load (b "
        {one: one, two: two, three: 3,}
        ").
Example inline_mapping_only_t :
  at_path inl [K (b "one")] as_str = Some (Some (b "one")) /\
  at_path inl [K (b "two")] as_str = Some (Some (b "two")) /\
  at_path inl [K (b "three")] (fun d => as_int d Unsigned32) = Some (Some 3%Z) /\
  both inl (b "
        {one: one, two: two, three: 3,}
        ").
Proof. t. Qed.
Example make_preserve_whitespace_t :
  both
    (edit_path [] (InsertInt (b "second") Unsigned32 2)
    (edit_path [] (InsertInt (b "first") Unsigned32 1)
    (edit_path [] MakeMapping (load (b "
        string
        ")))))
  (b "
        first: 1
        second: 2
        ").
Proof. t. Qed.
Definition abc := edit_path [K (b "a")] MakeMapping (load (b "a:
b:
c:")).
Example edit_element_t :
  at_path (load (b "a:
b:
c:")) [] map_len = Some 3 /\
  print abc = Ok (b "a:
b:
c:") /\
  both
    (edit_path [K (b "a"); K (b "inner")] (PushString (b "value"))
    (edit_path [K (b "a"); K (b "inner")] MakeSequence
    (edit_path [K (b "a")] (Insert (b "inner") Auto) abc)))
  (b "a:
  inner:
    - value
b:
c:").
Proof. t. Qed.
(* tests/sequence.rs *)
Example sequence_t : roundtrip (b "
        - 1
        - 2
        - - 4
          - 5
        ").
Proof. t. Qed.
Example inline_sequence_t : roundtrip (b "
        - 1
        - 2
        - - [one, two, three]
          - 5
        ").
Proof. t. Qed.
Example mutable_nested_sequence_t :
  both (edit_path [I 0] (PushString (b "nice string")) (load (b "
        - - 10
        ")))
  (b "
        - - 10
          - nice string
        ").
Proof. t. Qed.
(* tests/multiline.rs *)
Definition ml1 := b "
        first: |
          foo

          bar
          baz
        second: 2
        ".
Definition ml2 := b "
        first: | foo

          bar
          baz
        second: 2
        ".
Definition first_str (s : bytes) := at_path (load s) [K (b "first")] as_str.
Example string_newlines_t :
  first_str ml1 = Some (Some (b "foo

bar
baz
")) /\ roundtrip ml1 /\
  first_str ml2 = Some (Some (b "foo
bar
baz
")) /\ roundtrip ml2 /\
  at_path (load ml1) [K (b "second")] (fun d => as_int d Unsigned32) = Some (Some 2%Z) /\
  at_path (load ml2) [K (b "second")] (fun d => as_int d Unsigned32) = Some (Some 2%Z).
Proof. t. Qed.
Example string_newlines_chomped_t : first_str (b "
        first: |-
          foo

          bar
          baz
        second: 2
        ") = Some (Some (b "foo

bar
baz")).
Proof. t. Qed.
Example string_newlines_keep_t : first_str (b "
        first: |+
          foo

          bar
          baz

        second: 2
        ") = Some (Some (b "foo

bar
baz

")).
Proof. t. Qed.
Definition sp1 := b "
        first: > foo

          bar
          baz
        second: 2
        ".
Definition sp2 := b "
        first: >
          foo

          bar
          baz
        second: 2
        ".
Example string_spaces_t :
  first_str sp1 = Some (Some (b "foo bar baz
")) /\ roundtrip sp1 /\
  first_str sp2 = Some (Some (b "foo bar baz
")) /\ roundtrip sp2 /\
  both (edit_path [K (b "first")] (SetString (b "removed")) (load sp1)) (b "
        first: removed
        second: 2
        ").
Proof. t. Qed.

(* tests/*.yaml: documents of tests/yaml-compare.rs (the round trip only) *)
Example file_bug1_t : roundtrip (b "# https://github.com/udoprog/nondestructive/issues/1

version: 1.6.3
name: ""app""
").
Proof. t. Qed.
Example file_bug1_sequence_t : roundtrip (b "# https://github.com/udoprog/nondestructive/issues/1
#
# Extra test case where we ensure that the same processing also applies to
# structural sequnces.

- 1.6.3
- ""app""
").
Proof. t. Qed.
Example file_bug1_suffix_t : roundtrip (b "# reported by denizoztreves
#
# Comment: https://github.com/udoprog/nondestructive/issues/1#issuecomment-1508337593

version: '1.4.5'
memory: 600m
").
Proof. t. Qed.
Example file_case_preserving_t : roundtrip (b "true_value: true
upper_true_value: TRUE
mixed_true_value: True

false_value: true
upper_false_value: TRUE
mixed_false_value: True

null_value: null
upper_null_value: NULL
mixed_null_value: Null").
Proof. t. Qed.
Example file_null_t : roundtrip (b "empty_value:
null_value: null
tilde_null_value: ~

tilde_quoted_value: ""~""
tilde_quoted_path_value: ""~/some/path""
tilde_string_path_value: ~/some/path").
Proof. t. Qed.
Example file_numerical_t : roundtrip (b "n0: 0
n1: 0e10
n2: .e10
n3: .0e10
n4: 1.0e10
").
Proof. t. Qed.
Example file_value_with_e_t : roundtrip (b "# There was an issue where a lone e prefix would be considered numerical.
# https://github.com/udoprog/nondestructive/pull/6
value: [eb]
").
Proof. t. Qed.
(* tests/actions.rs is ignored in the crate (Doesnt work as intended for now). *)
Definition actions := b "name: CI

on:
  pull_request: {}
  push:
    branches:
      - main

concurrency:
  group: ${{ github.workflow }}-${{ github.ref }}
  cancel-in-progress: true

jobs:
  test:
    runs-on: ubuntu-latest
    strategy:
      fail-fast: false
      matrix:
        rust: [""1.73"", stable]
    steps:
    - uses: actions/checkout@v3
    - uses: dtolnay/rust-toolchain@master
      with:
        toolchain: ${{matrix.rust}}
    - run: cargo test --workspace --all-targets

  clippy:
    runs-on: ubuntu-latest
    steps:
    - uses: actions/checkout@v3
    - uses: dtolnay/rust-toolchain@1.68
      with:
        components: clippy
    - run: cargo clippy --workspace --all-features --all-targets -- -D warnings

  rustfmt:
    runs-on: ubuntu-latest
    steps:
    - uses: actions/checkout@v3
    - uses: dtolnay/rust-toolchain@stable
      with:
        components: rustfmt
    - run: cargo fmt --check --all

  miri:
    runs-on: ubuntu-latest
    steps:
    - uses: actions/checkout@v3
    - uses: dtolnay/rust-toolchain@nightly
      with:
        components: miri
    - run: cargo miri test --all-targets
      env:
        RUSTFLAGS: -Zrandomize-layout
        MIRIFLAGS: -Zmiri-strict-provenance -Zmiri-symbolic-alignment-check
".

(* tests/insert-strip.rs *)
Definition bty := InsertBlock (b "my_string") [b "one"; b "two"] (Literal Strip).
Example insert_strip1_t : both (edit_path [] bty (load (b "doc: test"))) (b "doc: test
my_string: |-
  one
  two").
Proof. t. Qed.
Example insert_strip2_t : both (edit_path [] bty (load (b "
doc: test"))) (b "
doc: test
my_string: |-
  one
  two").
Proof. t. Qed.
Definition bty' k := InsertBlock (b k) [b "one"; b "two"] (Literal Strip).
Example insert_strip_varying_t :
  both
  (edit_path [K (b "obj_array"); I 0] (bty' "my_string_inner2")
  (edit_path [K (b "obj")] (bty' "my_string_inner1")
  (edit_path [] (bty' "my_string_outer") (load (b "
    doc: test
    obj:
      title: Object
    obj_array:
      - title: Object in an array")))))
  (b "
    doc: test
    obj:
      title: Object
      my_string_inner1: |-
        one
        two
    obj_array:
      - title: Object in an array
        my_string_inner2: |-
          one
          two
    my_string_outer: |-
      one
      two").
Proof. t. Qed.
(* tests/push-mapping.rs *)
Example push_mapping_t :
  both
  (edit_path [I 2; K (b "five")] (InsertStr (b "seven") (b "seven"))
  (edit_path [I 2; K (b "five")] (InsertStr (b "six") (b "six"))
  (edit_path [I 2; K (b "five")] MakeMapping
  (edit_path [I 2] (Insert (b "five") Auto)
  (edit_path [I 2] (InsertInt (b "four") Unsigned32 4)
  (edit_path [I 2] (InsertInt (b "three") Unsigned32 3)
  (edit_path [I 2] MakeMapping
  (edit_path [] (Push Auto) (load (b "
        - one
        - two
        "))))))))))
  (b "
        - one
        - two
        - three: 3
          four: 4
          five:
            six: six
            seven: seven
        ").
Proof. t. Qed.
(* tests/quoted-map-key.rs *)
Example quoted_map_key_t :
  at_path (load (b "'!quoted_keys': |-
  are compliant")) [K (b "!quoted_keys")] as_str = Some (Some (b "are compliant")).
Proof. t. Qed.
(* value_mut.rs 420-438 (doc test) *)
Definition sets (s : bytes) := print (edit_path [] (SetString s) (load (b "  string"))).
Example set_string_t :
  sets (b "i-am-a-string") = Ok (b "  i-am-a-string") /\
  sets (b "I am a string") = Ok (b "  I am a string") /\
  sets (b "I am a
 string") = Ok (b "  ""I am a\n string""") /\
  sets (b "I am a string with ""quotes""") = Ok (b "  I am a string with ""quotes""") /\
  sets (b "null") = Ok (b "  'null'") /\
  sets (b "1.65") = Ok (b "  '1.65'") /\
  sets (b "rust@1.65") = Ok (b "  rust@1.65").
Proof. t. Qed.
(* value_mut.rs 475-571 (doc test) *)
Definition blk (k : block_kind) :=
  let doc := edit_path [] (SetBlock [b "foo"; b "bar"; b "baz"] k) (load (b "
    string
    ")) in (print doc, at_path doc [] as_str).
Example set_block_t :
  blk (Literal Clip) = (Ok (b "
    |
      foo
      bar
      baz
    "), Some (Some (b "foo
bar
baz
"))) /\
  blk (Literal Keep) = (Ok (b "
    |+
      foo
      bar
      baz
    "), Some (Some (b "foo
bar
baz
"))) /\
  blk (Folded Strip) = (Ok (b "
    >-
      foo
      bar
      baz
    "), Some (Some (b "foo bar baz"))).
Proof. t. Qed.
(* sequence.rs 71-79 (doc test) *)
Example flow_t : roundtrip (b "[]") /\ roundtrip (b "[,]") /\
  at_path (load (b "[,]")) [] seq_len = Some 1.
Proof. t. Qed.
(* document.rs 85-107 (should_panic doc test) *)
Example stale_t :
  match load (b "
    first: 32
    second: [1, 2, 3]
    ") with
  | Ok (Doc _ root d) =>
    match walk d root [K (b "second")], run idhash root (RemoveKey (b "second")) d with
    | Some id, Ok (_, d') => as_mapping d' id = Panic
    | _, _ => False
    end
  | _ => False
  end.
Proof. t. Qed.
