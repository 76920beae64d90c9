(* C39: texts that do not read back after an edit. Every text below is read and printed back
   unchanged before the edit; afterwards the printed text is refused, or read as other data. *)
From Coq Require Import String.
From Coq Require Import List NArith ZArith Bool Arith Lia.
From Verif Require Import Bytes Utf8 Data Parser Render Tree Abs Refine Scan Num Api Ctx Edit Built Shown Plain Grammar Open Session Back Tests Check.
Import ListNotations.
Local Open Scope N_scope.

(* The text of the document is read as the same data, up to the type hints of numbers. *)
Definition reads_back (hash : bytes -> sid) (doc : document) : Prop := exists out doc' x y, write_to doc = Ok out /\ from_slice hash out = Ok doc' /\
  shows (doc_data doc) (doc_root doc) x /\ shows (doc_data doc') (doc_root doc') y /\ sim x y.
(* The part that holds: the sessions of C38. *)
Theorem C39_session_partial : forall hash doc D, session hash doc D None -> no_collision hash (doc_data doc) ->
  (forall out doc', write_to doc = Ok out -> from_slice hash out = Ok doc' -> no_collision hash (doc_data doc')) -> reads_back hash doc.
Proof.
  intros hash doc D SS N N'. destruct (session_reads hash _ _ SS N) as (out & x & W & _ & (doc' & F & G) & SH & SI).
  destruct (G (N' _ _ W F)) as [SH' _]. exists out, doc', x, D. auto.
Qed.
Print Assumptions C39_session_partial.

Definition spoils (text : bytes) (p : list seg) (e : edit) (doc doc' : document) : Prop :=
  load text = Ok doc /\ reads_back idhash doc /\ edit_path p e (Ok doc) = Ok doc' /\ ~ reads_back idhash doc'.
Definition peeked (n : nat) (o : outcome document) : option datum := match o with Ok doc => peek n (doc_data doc) (doc_root doc) | _ => None end.
Definition again (n : nat) (o : outcome document) : option datum := match write o with Ok out => peeked n (load out) | _ => None end.
Definition refuses (o : outcome document) : bool := match write o with Ok out => match load out with Ok _ => false | _ => true end | _ => false end.
Lemma peeked_again n doc x : peeked n (Ok doc) = Some x -> again n (Ok doc) = Some x -> reads_back idhash doc.
Proof.
  intros X Y. unfold again in Y. cbn [write] in Y. destruct (write_to doc) as [out|? ? ?| | |] eqn:W; try discriminate. unfold peeked in Y.
  destruct (load out) as [doc'|? ? ?| | |] eqn:L; try discriminate. apply peek_shows in X, Y. exists out, doc', x, x. split; [exact W|]. split; [exact L|]. split; [exact X|]. split; [exact Y|]. apply sim_refl.
Qed.
Lemma mistaken n text p e u x y : peeked n (load text) = Some u -> again n (load text) = Some u ->
  peeked n (edit_path p e (load text)) = Some x -> again n (edit_path p e (load text)) = Some y -> bare x <> bare y -> exists doc doc', spoils text p e doc doc'.
Proof.
  intros U V X Y NE. unfold spoils. destruct (load text) as [doc|? ? ?| | |]; try discriminate. destruct (edit_path p e (Ok doc)) as [doc'|? ? ?| | |] eqn:E; try discriminate.
  exists doc, doc'. split; [reflexivity|]. split; [eapply peeked_again; eauto|]. split; [exact E|]. intros (out & doc2 & x' & y' & W & F & X' & Y' & S).
  unfold again in Y. cbn [write] in Y. rewrite W in Y. unfold load in Y. rewrite F in Y. unfold peeked in *.
  apply peek_shows in X, Y. pose proof (proj1 (shows_det _) _ _ X _ X'). pose proof (proj1 (shows_det _) _ _ Y _ Y'). subst. apply NE. now apply sim_bare.
Qed.
Lemma refused n text p e u : peeked n (load text) = Some u -> again n (load text) = Some u -> refuses (edit_path p e (load text)) = true -> exists doc doc', spoils text p e doc doc'.
Proof.
  intros U V R. unfold spoils. destruct (load text) as [doc|? ? ?| | |]; try discriminate. destruct (edit_path p e (Ok doc)) as [doc'|? ? ?| | |] eqn:E; try discriminate.
  exists doc, doc'. split; [reflexivity|]. split; [eapply peeked_again; eauto|]. split; [exact E|]. intros (out & doc2 & x' & y' & W & F & _).
  unfold refuses in R. cbn [write] in R. rewrite W in R. unfold load in R. rewrite F in R. discriminate.
Qed.
Ltac refuse := eapply (refused 20); vm_compute; reflexivity.
Ltac mistake := eapply (mistaken 20); [vm_compute; reflexivity|vm_compute; reflexivity|vm_compute; reflexivity|vm_compute; reflexivity|vm_compute; discriminate].

(* A key without a value has no space behind the colon, and setting it adds none. *)
Theorem C39_set_empty_refuted : exists doc doc', spoils (b "a:
b: 1") [K (b "a")] (SetInt Unsigned8 5) doc doc'.
Proof. refuse. Qed.
Print Assumptions C39_set_empty_refuted.
(* A comment behind a quoted value becomes part of the plain value set in its place, of the
   plain value before it when it is removed, or of the next entry. *)
Theorem C39_set_comment_refuted : exists doc doc', spoils (b "a: 'x' # c
b: 1") [K (b "a")] (SetInt Unsigned8 5) doc doc'.
Proof. mistake. Qed.
Print Assumptions C39_set_comment_refuted.
Theorem C39_remove_comment_refuted : exists doc doc', spoils (b "a: 5
b: 'x' # c
c: 1") [] (RemoveKey (b "b")) doc doc'.
Proof. mistake. Qed.
Print Assumptions C39_remove_comment_refuted.
Theorem C39_insert_comment_refuted : exists doc doc', spoils (b "a: 'x' # c
") [] (InsertInt (b "b") Unsigned8 5) doc doc'.
Proof. mistake. Qed.
Print Assumptions C39_insert_comment_refuted.
Theorem C39_push_comment_refuted : exists doc doc', spoils (b "- 'x' # c
") [] (PushInt Unsigned8 5) doc doc'.
Proof. mistake. Qed.
Print Assumptions C39_push_comment_refuted.
(* A comment at the end without a newline swallows the value. *)
Theorem C39_set_after_comment_refuted : exists doc doc', spoils (b "# c") [] (SetInt Unsigned8 5) doc doc'.
Proof. mistake. Qed.
Print Assumptions C39_set_after_comment_refuted.
(* Blank lines at the end belong to a block scalar until another entry is put before them. *)
Theorem C39_insert_block_scalar_refuted : exists doc doc', spoils (b "a: |
  x


") [] (InsertInt (b "b") Unsigned8 5) doc doc'.
Proof. mistake. Qed.
Print Assumptions C39_insert_block_scalar_refuted.
(* A cleared block mapping prints as nothing and is read as null. *)
Theorem C39_clear_refuted : exists doc doc', spoils (b "a:
  b: 6
c: 5") [K (b "a")] ClearMapping doc doc'.
Proof. mistake. Qed.
Print Assumptions C39_clear_refuted.
(* A cleared flow mapping keeps its comma. *)
Theorem C39_clear_flow_refuted : exists doc doc', spoils (b "{a: 1,}") [] ClearMapping doc doc'.
Proof. refuse. Qed.
Print Assumptions C39_clear_flow_refuted.
(* Keys that look like directives or document markers, once they are first. *)
Theorem C39_remove_directive_refuted : exists doc doc', spoils (b "a: 1
%b: 2") [] (RemoveKey (b "a")) doc doc'.
Proof. mistake. Qed.
Print Assumptions C39_remove_directive_refuted.
Theorem C39_remove_marker_refuted : exists doc doc', spoils (b "a: 1
---b: 2") [] (RemoveKey (b "a")) doc doc'.
Proof. mistake. Qed.
Print Assumptions C39_remove_marker_refuted.
(* A null that becomes the last value is read as an empty string. *)
Theorem C39_remove_last_refuted : exists doc doc', spoils (b "a:
b: 2") [] (RemoveKey (b "b")) doc doc'.
Proof. mistake. Qed.
Print Assumptions C39_remove_last_refuted.
(* The empty string prints as nothing and is read as null. *)
Theorem C39_empty_string_refuted : exists doc doc', spoils (b "a: 1
b: 2") [K (b "a")] (SetString []) doc doc'.
Proof. mistake. Qed.
Print Assumptions C39_empty_string_refuted.
(* Strings are not quoted for the flow collection they are put in, and plain values take the
   spaces before the closing bracket. *)
Theorem C39_flow_string_refuted : exists doc doc', spoils (b "[1, 2]") [I 0] (SetString (b "x, y")) doc doc'.
Proof. mistake. Qed.
Print Assumptions C39_flow_string_refuted.
Theorem C39_flow_bool_refuted : exists doc doc', spoils (b "[1, 2 ]") [I 1] (SetBool true) doc doc'.
Proof. mistake. Qed.
Print Assumptions C39_flow_bool_refuted.
(* Block mappings are made inside flow collections. *)
Theorem C39_flow_make_refuted : exists doc doc', spoils (b "[{a: 1}]") [I 0; K (b "a")] MakeMapping doc doc'.
Proof. mistake. Qed.
Print Assumptions C39_flow_make_refuted.
(* Keys are not quoted. *)
Theorem C39_key_refuted : exists doc doc', spoils (b "a: 1") [] (InsertInt (b "x: y") Unsigned8 5) doc doc'.
Proof. mistake. Qed.
Print Assumptions C39_key_refuted.
(* The document marker is dropped, and the entries that follow are no longer aligned. *)
Theorem C39_header_refuted : exists doc doc', spoils (b "--- a: 1
") [] (InsertInt (b "b") Unsigned8 5) doc doc'.
Proof. refuse. Qed.
Print Assumptions C39_header_refuted.
