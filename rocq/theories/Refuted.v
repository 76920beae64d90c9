(* Properties that are false of the crate: witnesses, checked by computation.
   The string ids are the strings themselves (hash = identity), so no hash collision is
   involved in any of them. *)
From Coq Require Import String.
From Coq Require Import List NArith ZArith Bool Arith.
From Verif Require Import Bytes Utf8 Data Parser Render Num Api Serde Tests.
Import ListNotations.

(* C01: parse then print is not the identity. Seven separate causes. *)
Definition prints (input output : bytes) : Prop :=
  exists doc, load input = Ok doc /\ write_to doc = Ok output.
Ltac w := eexists; split; [vm_compute; reflexivity|vm_compute; reflexivity].
Theorem C01_identity_refuted :
  exists input output, prints input output /\ output <> input.
Proof.
  exists (b "[""a"" ""b""]"), (b "[""a"", ""b""]"). split; [w|discriminate].
Qed.
Print Assumptions C01_identity_refuted.
Theorem C01_flow_mapping_layout_refuted :
  exists input output, input = b "{a: 1 , b: 2 }" /\ prints input output /\ output <> input.
Proof. exists (b "{a: 1 , b: 2 }"), (b "{a: 1, b: 2}"). split; [reflexivity|]. split; [w|discriminate]. Qed.
Print Assumptions C01_flow_mapping_layout_refuted.
Theorem C01_flow_mapping_comment_refuted :
  exists input output, input = b "{a: 1 # one
}" /\ prints input output /\ output <> input.
Proof. exists (b "{a: 1 # one
}"), (b "{a: 1}"). split; [reflexivity|]. split; [w|discriminate]. Qed.
Print Assumptions C01_flow_mapping_comment_refuted.
Theorem C01_number_split_refuted :
  exists input output, input = b "[1.6.3]" /\ prints input output /\ output <> input.
Proof. exists (b "[1.6.3]"), (b "[1.6,.3]"). split; [reflexivity|]. split; [w|discriminate]. Qed.
Print Assumptions C01_number_split_refuted.
Theorem C01_empty_block_refuted :
  exists input output, input = b "a: |
" /\ prints input output /\ output <> input.
Proof. exists (b "a: |
"), (b "a: |

"). split; [reflexivity|]. split; [w|discriminate]. Qed.
Print Assumptions C01_empty_block_refuted.
Theorem C01_block_in_list_refuted :
  exists input output, input = b "[|
 a
, b]" /\ prints input output /\ output <> input.
Proof. exists (b "[|
 a
, b]"), (b "[|
 a,
 b]"). split; [reflexivity|]. split; [w|discriminate]. Qed.
Print Assumptions C01_block_in_list_refuted.
Theorem C01_nul_refuted :
  exists input output, input = b "{a" ++ [0%N] ++ b " 1}" /\ prints input output /\ output <> input.
Proof. exists (b "{a" ++ [0%N] ++ b " 1}"), (b "{a: 1}"). split; [reflexivity|]. split; [w|discriminate]. Qed.
Print Assumptions C01_nul_refuted.
(* Printing is not even idempotent. *)
Theorem C01_idempotent_refuted :
  exists x y z, prints x y /\ prints y z /\ y <> z.
Proof. exists (b "------a"), (b "---a"), (b "a"). split; [w|split; [w|discriminate]]. Qed.
Print Assumptions C01_idempotent_refuted.

(* C04: an unclosed single quote never returns. *)
Theorem C04_terminates_refuted : exists input, load input = Hang.
Proof. exists (b "a: 'it"). reflexivity. Qed.
Print Assumptions C04_terminates_refuted.

(* C27: the header is lost. *)
Theorem C27_header_refuted :
  exists input output, input = b "%YAML 1.2
---
a: 1" /\ prints input output /\ output <> input.
Proof. exists (b "%YAML 1.2
---
a: 1"), (b "
a: 1"). split; [reflexivity|]. split; [w|discriminate]. Qed.
Print Assumptions C27_header_refuted.

(* C03: after an edit the two renderers differ. *)
Theorem C03_after_edit_refuted :
  exists input e doc x y,
    edit_path [] e (load input) = Ok doc /\ to_string doc = Ok x /\ write_to doc = Ok y /\ x <> y.
Proof.
  exists (b "a: 1"), (Insert (b "c") Auto). do 3 eexists.
  split; [vm_compute; reflexivity|]. split; [vm_compute; reflexivity|].
  split; [vm_compute; reflexivity|]. discriminate.
Qed.
Print Assumptions C03_after_edit_refuted.

(* C14: nth_back counts from the front. *)
Theorem C14_nth_back_refuted :
  exists d it, seq_nth_back d 0 it = seq_next d it /\ seq_nth_back d 0 it <> seq_next_back d it.
Proof.
  exists (Data [] (Slab [Occupied (Entry (RSeqItem 5) [] None); Occupied (Entry (RSeqItem 6) [] None)] 2)), [0; 1].
  split; [reflexivity|discriminate].
Qed.
Print Assumptions C14_nth_back_refuted.

(* C16: double quotes do not read back: a backslash disappears, a quote is rejected. *)
Definition reread (input : bytes) (k : string_kind) (s : bytes) : option (option bytes) :=
  match write (edit_path [] (SetStringWith s k) (load input)) with
  | Ok text => at_path (load text) [] as_bstr
  | _ => None
  end.
Theorem C16_backslash_refuted :
  exists s s', reread (b "a") SDouble s = Some (Some s') /\ s' <> s.
Proof. exists (b "a\nb"). eexists. split; [vm_compute; reflexivity|discriminate]. Qed.
Print Assumptions C16_backslash_refuted.
Theorem C16_quote_refuted : exists s, reread (b "a") SDouble s = None.
Proof. exists (b """"). vm_compute; reflexivity. Qed.
Print Assumptions C16_quote_refuted.

(* C17: set_string leaves strings bare that read back as something else. *)
Definition reread_auto (s : bytes) : option (option bytes) :=
  match write (edit_path [] (SetString s) (load (b "a"))) with
  | Ok text => at_path (load text) [] as_bstr
  | _ => None
  end.
Definition c17_witnesses : list bytes :=
  [b "~"; b "True"; b "NULL"; b "-5"; b ".5"; b "# x"; b " x"; b "- a"; b "[a"; b "{a"; b "|"; b """"].
Theorem C17_set_string_refuted :
  exists s, utf8 s = true /\ reread_auto s <> Some (Some s).
Proof. exists (b "~"). split; [reflexivity|vm_compute; discriminate]. Qed.
Print Assumptions C17_set_string_refuted.
Theorem C17_more_refuted :
  exists l, l = c17_witnesses /\ Forall (fun s => reread_auto s <> Some (Some s)) l.
Proof. eexists. split; [reflexivity|]. repeat constructor; vm_compute; discriminate. Qed.
Print Assumptions C17_more_refuted.

(* C19: the escaped backslash decodes to a double quote and the escaped quote is rejected. *)
Theorem C19_backslash_refuted :
  exists input s, input = b """a\\b""" /\ at_path (load input) [] as_bstr = Some (Some s) /\ s <> b "a\b".
Proof. do 2 eexists. split; [reflexivity|]. split; [vm_compute; reflexivity|discriminate]. Qed.
Print Assumptions C19_backslash_refuted.
Theorem C19_quote_refuted :
  exists input, input = b """a\""b""" /\ load input = Err 2 4 BadEscape.
Proof. eexists. split; [reflexivity|vm_compute; reflexivity]. Qed.
Print Assumptions C19_quote_refuted.

(* C20: without indicator the trailing newlines are all kept. *)
Theorem C20_clip_refuted :
  exists input s, input = b "a: |
  foo


b: 1" /\ at_path (load input) [K (b "a")] as_bstr = Some (Some s) /\ s <> b "foo
".
Proof. do 2 eexists. split; [reflexivity|]. split; [vm_compute; reflexivity|discriminate]. Qed.
Print Assumptions C20_clip_refuted.

(* C21: a mapping made in the first item of an indented block sequence is not aligned. *)
Theorem C21_aligned_refuted :
  exists doc,
    edit_path [K (b "a"); I 0] (InsertInt (b "k2") Unsigned8 2)
    (edit_path [K (b "a"); I 0] (InsertInt (b "k1") Unsigned8 1)
    (edit_path [K (b "a"); I 0] MakeMapping
    (edit_path [K (b "a")] (Push Auto)
    (edit_path [K (b "a")] MakeSequence (load (b "a: x")))))) = Ok doc /\
    write_to doc = Ok (b "a:
  - k1: 1
  k2: 2").
Proof. w. Qed.
Print Assumptions C21_aligned_refuted.

(* C22: a block set inside a nested mapping swallows the next sibling when read back. *)
Theorem C22_block_refuted :
  exists text,
    write (edit_path [K (b "a"); K (b "b"); K (b "c")] (SetBlock [b "one"; b "two"] (Literal Clip))
      (load (b "a:
  b:
    c: x
    d: y"))) = Ok text /\
    at_path (load text) [K (b "a"); K (b "b"); K (b "d")] as_bstr = None.
Proof. w. Qed.
Print Assumptions C22_block_refuted.
(* At the end of a text without a line break, the line break that ends the block is lost. *)
Theorem C22_end_refuted :
  exists doc text s t,
    edit_path [] (InsertBlock (b "b") [b "one"; b "two"] (Literal Clip)) (load (b "a: 1")) = Ok doc /\ write_to doc = Ok text /\
    at_path (Ok doc) [K (b "b")] as_bstr = Some s /\ at_path (load text) [K (b "b")] as_bstr = Some t /\ s <> t.
Proof.
  eexists _, _, _, _. split; [vm_compute; reflexivity|]. split; [vm_compute; reflexivity|]. split; [vm_compute; reflexivity|]. split; [vm_compute; reflexivity|]. discriminate.
Qed.
Print Assumptions C22_end_refuted.

(* C23: a number that does not parse at its own type sends deserialization into a loop. *)
Theorem C23_deserialize_refuted :
  exists doc, load (b "99999999999999999999") = Ok doc /\
  forall F pf f, dispatch F pf (doc_data doc) f (doc_root doc) QAny = OutOfFuel.
Proof.
  eexists. split; [vm_compute; reflexivity|]. intros F pf.
  cbn [doc_data doc_root].
  match goal with |- forall f, dispatch _ _ ?d f _ _ = _ => set (dd := d) end.
  assert (H : forall f, dispatch F pf dd f 0 QAny = OutOfFuel /\
                        dispatch F pf dd f 0 (QInt Unsigned64) = OutOfFuel).
  { induction f as [|f [IH1 IH2]]; [split; reflexivity|].
    assert (E1 : de_step F pf dd 0 QAny = Ok (Again F (QInt Unsigned64))) by (vm_compute; reflexivity).
    assert (E2 : de_step F pf dd 0 (QInt Unsigned64) = Ok (Again F QAny)) by (vm_compute; reflexivity).
    cbn [dispatch]. rewrite E1, E2. auto. }
  intros f. apply H.
Qed.
Print Assumptions C23_deserialize_refuted.

(* C26: quoted keys are found by their content only in the first item of a block mapping. *)
Theorem C26_block_key_refuted :
  exists input, input = b "x: 1
""a"": 2" /\ at_path (load input) [] (fun d id => map_get d id (b "a")) = Some None.
Proof. eexists. split; [reflexivity|vm_compute; reflexivity]. Qed.
Print Assumptions C26_block_key_refuted.
Theorem C26_flow_key_refuted :
  exists input, input = b "{""a"": 2}" /\ at_path (load input) [] (fun d id => map_get d id (b "a")) = Some None.
Proof. eexists. split; [reflexivity|vm_compute; reflexivity]. Qed.
Print Assumptions C26_flow_key_refuted.

(* C32: the last key without a value is an empty string, not null. *)
Theorem C32_last_key_refuted :
  exists input, input = b "a: 1
b:" /\ at_path (load input) [K (b "b")] as_any = Some (AString []).
Proof. eexists. split; [reflexivity|vm_compute; reflexivity]. Qed.
Print Assumptions C32_last_key_refuted.

(* C09: an id of a removed value can come to denote another value. *)
Theorem C09_stale_id_refuted :
  exists doc doc' old,
    load (b "- 1
- 2") = Ok doc /\ walk (doc_data doc) (doc_root doc) [I 0] = Some old /\
    edit_path [] (PushString (b "x")) (edit_path [] (RemoveIndex 1)
      (edit_path [] (PushString (b "y")) (edit_path [] (RemoveIndex 0) (Ok doc)))) = Ok doc' /\
    as_bstr (doc_data doc') old = Ok (Some (b "x")).
Proof. do 3 eexists. do 3 (split; [vm_compute; reflexivity|]). vm_compute; reflexivity. Qed.
Print Assumptions C09_stale_id_refuted.
