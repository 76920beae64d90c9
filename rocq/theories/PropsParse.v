(* Properties of parsing and printing: C01-C05, C27, C33. The hash is arbitrary; where strings
   are read back, two different strings of the document must not have the same hash. *)
From Coq Require Import String.
From Coq Require Import List NArith ZArith Bool Arith Lia.
From Verif Require Import Bytes Utf8 Data Slab Parser Render Tree Abs Refine Utf8Props Scan AbsText
  TextProps AbsNice RenderProps Num Api Serde Tests.
Import ListNotations.
Local Open Scope N_scope.

(* ---- tools for the concrete cases ---- *)
Lemma id_no_collision d : no_collision (fun x => x) d.
Proof. apply inj_no_collision. auto. Qed.
Definition memb (c : byte) (s : bytes) : bool := existsb (N.eqb c) s.
Lemma not_in c s : memb c s = false -> ~ In c s.
Proof.
  intros H I. enough (memb c s = true) by congruence. apply existsb_exists. exists c.
  split; [exact I|apply N.eqb_refl].
Qed.
Lemma not_headed c s : memb c [9; 10; 12; 13; 32; HASH; PERCENT; DASH] = false -> ~ headed (c :: s).
Proof.
  intros H (w & r & L & E). apply not_in in H. apply H. destruct L as [|a w IN L|u w N L|u N]; cbn in E.
  - destruct E as [E|E]; injection E as -> _; cbn; tauto.
  - destruct E as [E|E]; injection E as -> _; cbn in *; tauto.
  - destruct E as [E|E]; injection E as -> _; cbn; tauto.
  - destruct E as [E|E]; injection E as -> _; cbn; tauto.
Qed.
Lemma layout_last w : layout w -> w <> [] -> ~ In HASH w -> memb (last w 0) [9; 10; 12; 13; 32] = true.
Proof.
  intros L. induction L as [|a w IN L IH|u w N L|u N]; intros NE NH; try (exfalso; apply NH; now left); [congruence|].
  destruct w as [|c w].
  - cbn [last]. apply existsb_exists. exists a. split; [exact IN|apply N.eqb_refl].
  - change (last (a :: c :: w) 0) with (last (c :: w) 0). apply IH; [discriminate|]. intros X. apply NH. now right.
Qed.
Lemma not_empty_block_end s : memb HASH s = false -> memb (last s 0) [9; 10; 12; 13; 32] = false ->
  ~ empty_block_end s.
Proof.
  intros H1 H2 (h & u & w & -> & _ & _ & L & NE). apply not_in in H1.
  assert (NH : ~ In HASH w) by (intros X; apply H1; rewrite !in_app_iff; auto).
  pose proof (layout_last w L NE NH) as E. rewrite app_assoc in H2. clear - E H2 NE.
  destruct w as [|c w]; [congruence|]. clear NE. revert E H2. generalize (h ++ u). intros l E H2.
  assert (X : last (l ++ c :: w) 0 = last (c :: w) 0).
  { clear. induction l as [|a l IH]; [reflexivity|]. cbn [app]. rewrite <- IH. destruct l; reflexivity. }
  rewrite X in H2. congruence.
Qed.

(* A document with comments, nesting, quotes and a block scalar. *)
Definition sample : bytes := b "name: ""a \x41"" 
list:
  - 'it''s'
  -   - 12
      - ~
text: |+
  foo

  bar
last: é".
Definition sample_doc : document :=
  match load sample with Ok d => d | _ => Doc [] 0 data_empty end.
Example sample_loads : load sample = Ok sample_doc.
Proof. vm_compute. reflexivity. Qed.

(* ---- C01 ---- *)
(* The identity holds for UTF-8 texts without a header, without flow collections, and which do
   not end in an empty block scalar. The refutations show that each condition is needed. *)
Theorem C01_identity_partial : forall hash input doc,
  from_slice hash input = Ok doc -> no_collision hash (doc_data doc) ->
  utf8 input = true -> ~ headed input -> ~ In LBRACE input -> ~ In LBRACK input ->
  ~ empty_block_end input ->
  write_to doc = Ok input.
Proof.
  intros hash input doc E N U H B K X.
  destruct (written_exact hash input doc E N U B K X) as (h & body & H1 & H2 & H3).
  rewrite H1 in H. apply (header_nil _ body) in H2; [|exact H]. now subst.
Qed.
Print Assumptions C01_identity_partial.
Example C01_identity_case : write_to sample_doc = Ok sample.
Proof.
  apply (C01_identity_partial (fun x => x)).
  - exact sample_loads.
  - apply id_no_collision.
  - vm_compute. reflexivity.
  - apply not_headed. reflexivity.
  - apply not_in. vm_compute. reflexivity.
  - apply not_in. vm_compute. reflexivity.
  - apply not_empty_block_end; vm_compute; reflexivity.
Qed.
(* With flow sequences allowed, the only difference are inserted commas. *)
Theorem C01_commas_partial : forall hash input doc,
  from_slice hash input = Ok doc -> no_collision hash (doc_data doc) ->
  utf8 input = true -> ~ headed input -> ~ In LBRACE input -> ~ In PIPE input -> ~ In GT input ->
  exists out, write_to doc = Ok out /\ inserted COMMA input out.
Proof.
  intros hash input doc E N U H B K X.
  destruct (written_commas hash input doc E N U B K X) as (h & body & out & H1 & H2 & H3 & H4).
  exists out. rewrite H1 in H. apply (header_nil _ body) in H2; [|exact H]. subst. auto.
Qed.
Print Assumptions C01_commas_partial.
Example C01_commas_case : exists doc, load (b "a: [1, [], ""x"" ""y"" ]
b: [ 'c' ]") = Ok doc /\ exists out, write_to doc = Ok out /\ inserted COMMA (b "a: [1, [], ""x"" ""y"" ]
b: [ 'c' ]") out.
Proof.
  eexists. split; [vm_compute; reflexivity|].
  apply (C01_commas_partial (fun x => x)); [vm_compute; reflexivity|apply id_no_collision|vm_compute; reflexivity|..].
  - apply not_headed. reflexivity.
  - apply not_in. vm_compute. reflexivity.
  - apply not_in. vm_compute. reflexivity.
  - apply not_in. vm_compute. reflexivity.
Qed.

(* ---- C02 ---- *)
(* The text behind the header is cut into keys and scalars (Tok), layout (Lay) and single
   punctuation bytes (Pun). What is written has the same keys and scalars in the same order,
   and arises from the input by the differences listed in [step]. *)
Theorem C02_nothing_lost : forall hash input doc,
  from_slice hash input = Ok doc -> no_collision hash (doc_data doc) ->
  exists h ls ls',
    input = h ++ flat ls /\ header h /\ Forall lay_ok ls /\
    steps input ls ls' /\ toks ls' = toks ls /\
    write_to doc = Ok (flat ls').
Proof.
  intros hash input doc E N.
  destruct (written_account hash input doc E N)
    as (h & body & ls & ls' & t & suffix & H1 & H2 & H3 & H4 & H5 & H6 & H7 & _).
  exists h, ls, ls'. subst body. auto 10.
Qed.
Print Assumptions C02_nothing_lost.
Example C02_case : exists doc, load (b "%YAML 1.2
--- # start
a: {b: 1 , c: [""x"" 'y'] }") = Ok doc /\ exists h ls ls',
  b "%YAML 1.2
--- # start
a: {b: 1 , c: [""x"" 'y'] }" = h ++ flat ls /\ header h /\ write_to doc = Ok (flat ls').
Proof.
  eexists. split; [vm_compute; reflexivity|].
  destruct (C02_nothing_lost (fun x => x) (b "%YAML 1.2
--- # start
a: {b: 1 , c: [""x"" 'y'] }") _ ltac:(vm_compute; reflexivity) (id_no_collision _)) as (h & ls & ls' & H1 & H2 & _ & _ & _ & H3).
  exists h, ls, ls'. auto.
Qed.

(* ---- C03 ---- *)
Theorem C03_agree_parsed_partial : forall hash input doc,
  from_slice hash input = Ok doc -> no_collision hash (doc_data doc) ->
  utf8 input = true -> to_string doc = write_to doc.
Proof.
  intros hash input doc E N U. pose proof (from_slice_cases hash input) as H. rewrite E in H.
  destruct H as (t & suffix & h & body & M & P & _).
  rewrite (models_to_string hash doc t suffix N M), (models_write_to hash doc t suffix N M).
  apply parse_nice in P as [P1 P2]. apply utf8_text in U. specialize (P2 U). f_equal.
  unfold shape in *. rewrite strings_tmap in P2. apply nice_calm in P1 as [_ P1]. rewrite calm_tmap in P1.
  now apply ddoc_same.
Qed.
Print Assumptions C03_agree_parsed_partial.
Example C03_agree_parsed_case : to_string sample_doc = write_to sample_doc.
Proof.
  apply (C03_agree_parsed_partial (fun x => x) sample); [exact sample_loads|apply id_no_collision|vm_compute; reflexivity].
Qed.

(* ---- C04 ---- *)
(* The only texts on which the parser does not return contain an opening single quote that is
   never closed: behind it, single quotes only come in pairs. *)
Theorem C04_terminates_partial : forall hash input,
  from_slice hash input <> OutOfFuel /\ (~ quote_open input -> from_slice hash input <> Hang).
Proof. intros hash input. split; [apply parse_no_panic|]. intros Q. now apply parse_terminates. Qed.
Print Assumptions C04_terminates_partial.
Lemma no_quote_closed s : memb SQUOTE s = false -> ~ quote_open s.
Proof. intros H (h & r & -> & _). apply not_in in H. apply H. apply in_or_app. right. now left. Qed.
Example C04_terminates_case : ~ quote_open (b "[""a\u00e9"", {x: }") /\ load (b "[""a\u00e9"", {x: }") = Err 17 17 BadSequenceTerminator.
Proof. split; [apply no_quote_closed; vm_compute; reflexivity|vm_compute; reflexivity]. Qed.

(* ---- C05 ---- *)
Theorem C05_no_panic : forall hash input, from_slice hash input <> Panic.
Proof. intros hash input. apply (parse_no_panic hash input). Qed.
Theorem C05_span : forall hash input x y k,
  from_slice hash input = Err x y k -> (x <= y <= length input)%nat.
Proof. exact parse_span. Qed.
Print Assumptions C05_no_panic.
Print Assumptions C05_span.
Example C05_span_case : from_slice (fun _ => []) (b "a: [1, 2, # c
 ") = Err 15 15 BadSequenceTerminator /\ (15 <= 15 <= 15)%nat.
Proof.
  split; [vm_compute; reflexivity|]. apply (C05_span (fun _ => []) (b "a: [1, 2, # c
 ") 15 15 BadSequenceTerminator). vm_compute. reflexivity.
Qed.

(* ---- C27 ---- *)
(* What is printed is the text behind the header; a text without header loses nothing. *)
Theorem C27_rest_partial : forall hash input doc,
  from_slice hash input = Ok doc -> no_collision hash (doc_data doc) ->
  utf8 input = true -> ~ In LBRACE input -> ~ In LBRACK input -> ~ empty_block_end input ->
  exists h body, input = h ++ body /\ header h /\ (~ headed input -> h = []) /\ write_to doc = Ok body.
Proof.
  intros hash input doc E N U B K X.
  destruct (written_exact hash input doc E N U B K X) as (h & body & H1 & H2 & H3).
  exists h, body. repeat split; auto. intros H. rewrite H1 in H. now apply (header_nil h body).
Qed.
Print Assumptions C27_rest_partial.
Example C27_rest_case : exists doc, load (b "%YAML 1.2
---
a: 1") = Ok doc /\ exists h body, b "%YAML 1.2
---
a: 1" = h ++ body /\ header h /\ write_to doc = Ok body.
Proof.
  eexists. split; [vm_compute; reflexivity|].
  destruct (C27_rest_partial (fun x => x) (b "%YAML 1.2
---
a: 1") _ ltac:(vm_compute; reflexivity) (id_no_collision _) eq_refl) as (h & body & H1 & H2 & _ & H3).
  - apply not_in. vm_compute. reflexivity.
  - apply not_in. vm_compute. reflexivity.
  - apply not_empty_block_end; vm_compute; reflexivity.
  - exists h, body. auto.
Qed.
