(* C58: texts one behind the other. *)
From Coq Require Import String.
From Coq Require Import List NArith ZArith Bool Arith Lia.
From Verif Require Import Bytes Utf8 Data Parser Render Tree Abs Refine Utf8Props Scan Num Api Ctx Edit Built Reads ReadsSound
  Shown Plain Grammar Laid GrammarSound Tests Refuted PropsParse PropsEdit PropsColl PropsValue PropsScalar PropsText.
From Verif Require Import Join.
Import ListNotations.
Local Open Scope N_scope.

(* A file that holds a block mapping, or a block sequence, at column 0 and ends with a newline. *)
Definition map_file (text : bytes) (l : list (bytes * datum)) : Prop := exists x w, text = x ++ w /\ block_map 0 x l w /\ newline_at 0 w /\
  doc_start x /\ ~ In (hd EOF text) [DQUOTE; SQUOTE; DASH].
Definition seq_file (text : bytes) (l : list datum) : Prop := exists x w, text = x ++ w /\ block_seq 0 x l w /\ newline_at 0 w /\ utf8 w = true.

Lemma map_nonempty n x l p : block_map n x l p -> x <> [].
Proof. intros [? y k t d z m ? _ _ _]. destruct y; discriminate. Qed.
Lemma hd_of x w : x <> [] -> hd EOF (x ++ w) = hd EOF x.
Proof. now destruct x. Qed.
Lemma map_file_reads hash u text l : map_file text l -> line_start 0 u -> reads_as_datum hash (u ++ text) (DMap l).
Proof.
  intros (x & w & -> & M & NA & DS & _) U. apply C35_grammar. apply (dt_map u 0 x l w); auto. apply closed_layout. now apply (newline_closed 0).
Qed.
Lemma seq_file_reads hash u text l : seq_file text l -> line_start 0 u -> reads_as_datum hash (u ++ text) (DSeq l).
Proof.
  intros (x & w & -> & M & NA & _) U. apply C35_grammar. apply (dt_seq u 0 x l w); auto. apply closed_layout. now apply (newline_closed 0).
Qed.
Lemma start_nil : line_start 0 [].
Proof. left. split; [constructor|reflexivity]. Qed.
Lemma map_file_app t1 l1 t2 l2 : map_file t1 l1 -> map_file t2 l2 -> map_file (t1 ++ t2) (l1 ++ l2).
Proof.
  intros (x & w & -> & M & NA & DS & Q) (x2 & w2 & -> & M2 & NA2 & DS2 & Q2). pose proof (map_nonempty _ _ _ _ M) as N. pose proof (map_nonempty _ _ _ _ M2) as N2.
  rewrite hd_of in Q, Q2 by assumption. exists (x ++ w ++ x2), w2. split; [now rewrite <- !app_assoc|]. split; [now apply join_map|]. split; [exact NA2|].
  split; [|destruct x; [congruence|exact Q]]. destruct x as [|c x]; [congruence|]. split.
  - intros [r E]. injection E as -> E. apply (proj1 DS). now exists x.
  - intros [r E]. injection E as -> E. apply Q. cbn. auto.
Qed.
Lemma seq_file_app t1 l1 t2 l2 : seq_file t1 l1 -> seq_file t2 l2 -> seq_file (t1 ++ t2) (l1 ++ l2).
Proof.
  intros (x & w & -> & M & NA & U) (x2 & w2 & -> & M2 & NA2 & U2). exists (x ++ w ++ x2), w2. split; [now rewrite <- !app_assoc|]. split; [now apply join_seq|]. auto.
Qed.

(* Files put one behind the other hold the entries of the files, in order; the result prints
   back. The same of each file by itself. *)
Theorem C58_maps : forall hash files data, Forall2 map_file files data -> files <> [] ->
  Forall2 (fun text l => reads_as_datum hash text (DMap l)) files data /\ reads_as_datum hash (concat files) (DMap (concat data)).
Proof.
  intros hash files data F N. split.
  - clear N. induction F as [|t l files data H F IH]; constructor; [|exact IH]. exact (map_file_reads hash [] t l H start_nil).
  - assert (H : map_file (concat files) (concat data)); [|exact (map_file_reads hash [] _ _ H start_nil)].
    induction F as [|t l files data H F IH]; [congruence|]. cbn [concat]. destruct F as [|t2 l2 files data H2 F].
    + cbn [concat]. rewrite !app_nil_r. exact H.
    + apply map_file_app; [exact H|]. apply IH. discriminate.
Qed.
Print Assumptions C58_maps.
Theorem C58_seqs : forall hash files data, Forall2 seq_file files data -> files <> [] ->
  Forall2 (fun text l => reads_as_datum hash text (DSeq l)) files data /\ reads_as_datum hash (concat files) (DSeq (concat data)).
Proof.
  intros hash files data F N. split.
  - clear N. induction F as [|t l files data H F IH]; constructor; [|exact IH]. exact (seq_file_reads hash [] t l H start_nil).
  - assert (H : seq_file (concat files) (concat data)); [|exact (seq_file_reads hash [] _ _ H start_nil)].
    induction F as [|t l files data H F IH]; [congruence|]. cbn [concat]. destruct F as [|t2 l2 files data H2 F].
    + cbn [concat]. rewrite !app_nil_r. exact H.
    + apply seq_file_app; [exact H|]. apply IH. discriminate.
Qed.
Print Assumptions C58_seqs.

(* White space and comment lines in front do not matter. *)
Theorem C58_lead : forall hash u text d, closed (u ++ [NEWLINE]) -> doc_text text d ->
  reads_as_datum hash text d /\ reads_as_datum hash ((u ++ [NEWLINE]) ++ text) d.
Proof.
  intros hash u text d C D. split; [now apply C35_grammar|]. apply C35_grammar.
  assert (L : forall n w, line_start n w -> line_start n ((u ++ [NEWLINE]) ++ w)).
  { intros n w [[B E]|(v & t & -> & CV & B & E)]; right.
    - exists u, w. rewrite <- app_assoc. auto.
    - exists ((u ++ [NEWLINE]) ++ v), t. rewrite <- !app_assoc. split; [reflexivity|]. split; [|auto]. rewrite !app_assoc. rewrite <- (app_assoc (u ++ [NEWLINE])). now apply closed_app. }
  destruct D as [w x d post W LF LY DS|w n x l post W M LY DS|w n x l post W M LY].
  - rewrite app_assoc. apply dt_leaf; auto. now apply closed_app.
  - rewrite app_assoc. apply (dt_map _ n); auto.
  - rewrite app_assoc. apply (dt_seq _ n); auto.
Qed.
Print Assumptions C58_lead.

(* Two files, the first of which ends with a block scalar that keeps its newlines. *)
Definition c58_one : bytes := b "a: |+
  x

".
Definition c58_two : bytes := b "b: 2
".
Example C58_case : Forall2 map_file [c58_one; c58_two] [[(b "a", DStr (b "x" ++ newlines 2))]; [(b "b", DNum (b "2") Unsigned64)]] /\
  at_path (load (c58_one ++ c58_two)) [K (b "a")] as_bstr = Some (Some (b "x" ++ newlines 2)) /\
  at_path (load (c58_one ++ c58_two)) [K (b "b")] (fun d => as_int d Unsigned32) = Some (Some 2%Z).
Proof.
  split; [|split; vm_compute; reflexivity]. assert (WH : forall c, is_ws c = true -> white c) by (intros c; apply is_ws_white).
  assert (NW : forall c, is_ws c = false -> ~ white c) by (intros c H X; apply is_ws_white in X; congruence).
  assert (DS : forall c x, c <> 37 -> c <> DASH -> doc_start (c :: x)) by (intros c x A B; split; intros [r E]; [apply A|apply B]; apply (f_equal (hd EOF)) in E; exact E).
  constructor; [|constructor; [|constructor]].
  - exists (b "a: |+
  x"), (newlines 2). split; [reflexivity|]. assert (NA : newline_at 0 (newlines 2)).
    { split; [apply WH; reflexivity|]. exists (newlines 1), []. split; [reflexivity|]. split; [|split; [constructor|reflexivity]]. exact (newlines_closed 2). }
    split; [|split; [exact NA|split; [now apply DS|cbn; intuition discriminate]]].
    apply (bm_items 0 (b "a") (b "a") (b " |+
  x") (DStr (b "x" ++ newlines 2)) [] []); [left; split; [apply key_checked; reflexivity|reflexivity]| |].
    + apply (kv_leaf 0 (b " ") (b "|+
  x")); [apply space_gap|]. apply lf_block. apply (bs_block false CKeep 2 (line 2) (b "x") (b "x") 2 [] []); [apply (line_at 2)|lia| |lia|constructor|cbn; lia|now left].
      apply bk_last. split; [discriminate|]. split; [discriminate|]. split; [apply graphic_clean; cbn; lia|]. cbn. unfold NEWLINE. intuition discriminate.
    + constructor. left. apply closed_layout. exact (newlines_closed 2).
  - exists (b "b: 2"), [NEWLINE]. split; [reflexivity|].
    split; [|split; [apply (line_at 0)|split; [now apply DS|cbn; intuition discriminate]]].
    apply (bm_items 0 (b "b") (b "b") (b " 2") (DNum (b "2") Unsigned64) [] []); [left; split; [apply key_checked; reflexivity|reflexivity]| |].
    + apply (kv_leaf 0 (b " ") (b "2")); [apply space_gap|]. change (DNum (b "2") Unsigned64) with (pdat (b "2")). apply line_leaf; [now apply line_checked|now right].
    + constructor. left. apply closed_layout. apply (newlines_closed 1).
Qed.
(* Why the second file must not start with white space, with a quoted key or with a dash, and why the first must
   end with a newline. *)
Definition keys_of (text : bytes) : option (list bytes) := at_path (load text) [] (fun d id =>
  match map_iter d id with
  | Ok it => Ok (flat_map (fun i => match map_item_opt d (Some i) with Ok (Some (k, _)) => [k] | _ => [] end) it)
  | _ => Panic
  end).
Example c58_needed :
  at_path (load (c58_one ++ [NEWLINE] ++ c58_two)) [K (b "a")] as_bstr = Some (Some (b "x" ++ newlines 3)) /\
  keys_of (b "'b': 2
") = Some [b "b"] /\ keys_of (c58_two ++ b "'b': 2
") = Some [b "b"; b "'b'"] /\
  keys_of (b "-c: 2
") = Some [b "-c"] /\ keys_of (b "b:
- 1
-c: 2
") <> Some [b "b"; b "-c"] /\
  keys_of (b "a: 1" ++ c58_two) <> Some [b "a"; b "b"].
Proof. split; [vm_compute; reflexivity|]. repeat split; vm_compute; try reflexivity; discriminate. Qed.
