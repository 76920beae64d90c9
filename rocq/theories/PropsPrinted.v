(* C49: exactly what every accepted text is written back as. *)
From Coq Require Import String.
From Coq Require Import List NArith ZArith Bool Arith Lia.
From Verif Require Import Bytes Utf8 Data Parser Render Tree Abs Refine Scan AbsText AbsNice Shown Valid Exact TextProps Built Back
  Tests PropsParse Means Places MeansSound MeansComplete PropsMeans Printed PrintedSound PrintedComplete.
Import ListNotations.
Local Open Scope N_scope.

Lemma root_writes hash input doc : from_slice hash input = Ok doc -> no_collision hash (doc_data doc) ->
  exists t suf, a_parse input = Ok (t, suf) /\ write_to doc = Ok (wdoc t suf).
Proof.
  intros F N. destruct (parse_models hash input doc F) as (t & suf & P & M). exists (shape t), suf. split; [exact P|]. rewrite wdoc_shape. now apply (models_write_to hash).
Qed.
(* Every accepted text is written back as the rules say. *)
Theorem C49_writes : forall hash input doc, from_slice hash input = Ok doc -> no_collision hash (doc_data doc) ->
  exists d out, printed input d out /\ shows (doc_data doc) (doc_root doc) d /\ write_to doc = Ok out.
Proof.
  intros hash input doc F N. destruct (root_writes _ _ _ F N) as (t & suf & P & W). destruct (root_shows _ _ _ F N) as (t' & suf' & P' & S). rewrite P in P'. injection P' as <- <-.
  exists (see t), (wdoc t suf). split; [now apply printed_sound|]. auto.
Qed.
Print Assumptions C49_writes.
(* The rules leave no choice. *)
Theorem C49_one : forall input d out d' out', printed input d out -> printed input d' out' -> d = d' /\ out = out'.
Proof.
  intros input d out d' out' H H'. destruct (printed_complete _ _ _ H) as (t & suf & P & <- & <-). destruct (printed_complete _ _ _ H') as (t' & suf' & P' & <- & <-).
  rewrite P in P'. injection P' as <- <-. auto.
Qed.
Print Assumptions C49_one.
Theorem C49_exact : forall hash input,
  ((exists doc, from_slice hash input = Ok doc) <-> exists d out, printed input d out) /\
  (forall doc, from_slice hash input = Ok doc -> no_collision hash (doc_data doc) -> forall d out,
     shows (doc_data doc) (doc_root doc) d /\ write_to doc = Ok out <-> printed input d out).
Proof.
  intros hash input. split; [split|].
  - intros (doc & F). destruct (parse_models hash input doc F) as (t & suf & P & M). exists (see (shape t)), (wdoc (shape t) suf). now apply printed_sound.
  - intros (d & out & H). apply (proj1 (C47_exact hash input)). destruct (printed_complete _ _ _ H) as (t & suf & P & <- & _). exists (see t). now apply (means_sound input t suf).
  - intros doc F N d out. destruct (C49_writes _ _ _ F N) as (d0 & out0 & H & S & W). split.
    + intros [S' W']. rewrite W in W'. injection W' as <-. now rewrite (proj1 (shows_det _) _ _ S' _ S).
    + intros H'. destruct (C49_one _ _ _ _ _ H H') as [<- <-]. auto.
Qed.
Print Assumptions C49_exact.
(* The rules accept what C47 accepts, with the same data. *)
Theorem C49_means : forall input d, (exists out, printed input d out) <-> stands_for input d.
Proof.
  intros input d. split.
  - intros (out & H). destruct (printed_complete _ _ _ H) as (t & suf & P & <- & _). now apply (means_sound input t suf).
  - intros H. destruct (means_complete _ _ H) as (t & suf & P & <-). exists (wdoc t suf). now apply printed_sound.
Qed.
Print Assumptions C49_means.
(* The texts that come back unchanged. *)
Theorem C49_identity : forall hash input doc, from_slice hash input = Ok doc -> no_collision hash (doc_data doc) ->
  (write_to doc = Ok input <-> exists d, printed input d input).
Proof.
  intros hash input doc F N. destruct (C49_writes _ _ _ F N) as (d & out & H & S & W). split.
  - intros W'. rewrite W in W'. injection W' as ->. eauto.
  - intros (d' & H'). destruct (C49_one _ _ _ _ _ H H') as [_ ->]. exact W.
Qed.
Print Assumptions C49_identity.
(* The hash does not matter. *)
Theorem C48_writes : forall hash hash' input doc doc', from_slice hash input = Ok doc -> from_slice hash' input = Ok doc' ->
  no_collision hash (doc_data doc) -> no_collision hash' (doc_data doc') -> write_to doc = write_to doc'.
Proof.
  intros hash hash' input doc doc' F F' N N'. destruct (C49_writes _ _ _ F N) as (d & out & H & _ & ->). destruct (C49_writes _ _ _ F' N') as (d' & out' & H' & _ & ->).
  now destruct (C49_one _ _ _ _ _ H H') as [_ ->].
Qed.
Print Assumptions C48_writes.
(* A text that begins with a value comes back with the layout before the value first; directives
   and marker do not come back. *)
Theorem C27_header : forall hash input doc, from_slice hash input = Ok doc -> no_collision hash (doc_data doc) ->
  exists n p i o w j w', gap_to input 0 n /\ puts_header input (slice input 0 n) n p i /\
    (exists d, puts input false None i d o w j) /\ after input w j w' (length input) /\ write_to doc = Ok (p ++ o ++ w').
Proof.
  intros hash input doc F N. destruct (C49_writes _ _ _ F N) as (d & out & [n p i o w j w' G H M A] & _ & W). exists n, p, i, o, w, j, w'. repeat split; eauto.
Qed.
Print Assumptions C27_header.

(* ---- cases ---- *)
Lemma printed_by text t suf : a_parse text = Ok (t, suf) -> forall d out, see t = d -> wdoc t suf = out -> printed text d out.
Proof. intros P d out <- <-. now apply printed_sound. Qed.
Ltac printed := eapply printed_by; [vm_compute; reflexivity|vm_compute; reflexivity|vm_compute; reflexivity].
(* one text by the rules alone *)
Definition printed_src : bytes := b "{a: """" }" ++ [10].
Local Ltac no_gap := apply ga_none; [vm_compute; lia|vm_compute; intuition discriminate|vm_compute; discriminate].
Local Ltac one_white := apply ga_white; [vm_compute; auto 6|].
Example C49_case : printed printed_src (DMap [(b "a", DStr [])]) (b "{a: """"}" ++ [10]).
Proof.
  assert (L : length printed_src = 9%nat) by reflexivity.
  change (b "{a: """"}" ++ [10]) with ([] ++ (b "{" ++ [] ++ (b "a" ++ b ":" ++ slice printed_src 3 4 ++ slice printed_src 4 6) ++ b "}") ++ slice printed_src 8 9).
  apply (printed_as _ _ 0 [] 0 _ None 8); [no_gap| | |rewrite <- L; apply af_skip; one_white; rewrite L; no_gap].
  { apply ph_none; vm_compute; intuition discriminate. }
  apply (pu_flow_map _ _ _ 0 1); [reflexivity|no_gap|]. change (slice printed_src 1 1) with (@nil byte).
  apply (pm_last _ 1 [] (b "a") (DStr []) _ (slice printed_src 6 7) 7); [|reflexivity].
  apply (pr_pair _ 1 (b "a") 2 4 (DStr []) _ None 6); [vm_compute; intuition discriminate| |one_white; no_gap| |apply af_skip; one_white; no_gap].
  { split; [rewrite L; lia|]. repeat split; vm_compute; auto; intuition discriminate. }
  apply pu_quote; [|auto]. apply (qa_double _ _ _ _ [] (b """")); [rewrite L; lia|reflexivity|constructor|auto].
Qed.
(* texts that come back changed *)
Example printed_comma : printed (b "[""a"" ""b""]") (DSeq [DStr (b "a"); DStr (b "b")]) (b "[""a"", ""b""]").
Proof. printed. Qed.
Example printed_split : printed (b "[1.6.3]") (DSeq [DNum (b "1.6") Float64; DNum (b ".3") Float64]) (b "[1.6,.3]").
Proof. printed. Qed.
Example printed_empty_block : printed (b "a: |" ++ [10]) (DMap [(b "a", DStr [10])]) (b "a: |" ++ [10; 10]).
Proof. printed. Qed.
Example printed_header : printed (b "%Y" ++ [10] ++ b "--- # c" ++ [10] ++ b "a") (DStr (b "a")) (b " # c" ++ [10] ++ b "a").
Proof. printed. Qed.
Example printed_nul : printed (b "{a" ++ [0] ++ b " """"}") (DMap [(b "a", DStr [])]) (b "{a: """"}").
Proof. printed. Qed.
Example printed_invalid : printed (b "[ #" ++ [255; 10] ++ b """""]") (DSeq [DStr []]) (b "[ #" ++ [239; 191; 189; 10] ++ b """""]").
Proof. printed. Qed.
Example printed_same : exists d, printed (b "# c" ++ [10] ++ b "a: 'x' # d" ++ [10] ++ b "b:" ++ [10] ++ b "- [1, 2,]") d (b "# c" ++ [10] ++ b "a: 'x' # d" ++ [10] ++ b "b:" ++ [10] ++ b "- [1, 2,]").
Proof. eexists. printed. Qed.
Example C27_header_case : exists doc, from_slice idhash (b "---" ++ [10] ++ b "a") = Ok doc /\ write_to doc = Ok ([10] ++ b "a").
Proof. eexists. split; [vm_compute; reflexivity|vm_compute; reflexivity]. Qed.
