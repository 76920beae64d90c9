(* C47: exactly which texts are accepted, and what each of them shows.
   C48: the hash has no influence on either. *)
From Coq Require Import String.
From Coq Require Import List NArith ZArith Bool Arith Lia.
From Verif Require Import Bytes Utf8 Data Parser Render Tree Abs Refine Utf8Props RenderProps Scan AbsText AbsNice Num Reads ReadsSound Shown Plain White Valid Lexed Exact TextProps Built
  Tests PropsParse Means Places MeansSound MeansComplete.
Import ListNotations.
Local Open Scope N_scope.

(* ---- C47 ---- *)
Theorem C47_accepts : forall hash input d, stands_for input d ->
  exists doc, from_slice hash input = Ok doc /\ (no_collision hash (doc_data doc) -> shows (doc_data doc) (doc_root doc) d).
Proof.
  intros hash input d H. destruct (means_complete input d H) as (t & suf & P & <-). pose proof (refine hash input) as R. rewrite P in R.
  destruct (from_slice hash input) as [doc|? ? ?| | |] eqn:F; try tauto. exists doc. split; [reflexivity|]. intros N.
  destruct (root_shows hash input doc F N) as (t' & suf' & P' & S). rewrite P in P'. injection P' as <- <-; exact S.
Qed.
Print Assumptions C47_accepts.
Theorem C47_means : forall hash input doc, from_slice hash input = Ok doc ->
  exists d, stands_for input d /\ (no_collision hash (doc_data doc) -> shows (doc_data doc) (doc_root doc) d).
Proof.
  intros hash input doc F. destruct (parse_models hash input doc F) as (t & suf & P & M). exists (see (shape t)). split; [now apply (means_sound input _ suf)|].
  intros N. destruct (root_shows hash input doc F N) as (t' & suf' & P' & S). rewrite P in P'. injection P' as <- <-; exact S.
Qed.
Print Assumptions C47_means.
(* A text stands for one thing at most. *)
Theorem C47_one : forall input d d', stands_for input d -> stands_for input d' -> d = d'.
Proof.
  intros input d d' H H'. destruct (means_complete _ _ H) as (t & suf & P & <-). destruct (means_complete _ _ H') as (t' & suf' & P' & <-). congruence.
Qed.
Print Assumptions C47_one.
Theorem C47_exact : forall hash input,
  ((exists doc, from_slice hash input = Ok doc) <-> exists d, stands_for input d) /\
  (forall doc, from_slice hash input = Ok doc -> no_collision hash (doc_data doc) -> forall d, shows (doc_data doc) (doc_root doc) d <-> stands_for input d).
Proof.
  intros hash input. split; [split|].
  - intros (doc & F). destruct (C47_means hash input doc F) as (d & S & _). eauto.
  - intros (d & S). destruct (C47_accepts hash input d S) as (doc & F & _). eauto.
  - intros doc F N d. split.
    + intros H. destruct (C47_means hash input doc F) as (d' & S & H'). now rewrite (proj1 (shows_det _) _ _ H _ (H' N)).
    + intros S. destruct (C47_accepts hash input d S) as (doc' & F' & H'). rewrite F in F'. injection F' as <-. auto.
Qed.
Print Assumptions C47_exact.
Theorem C47_refused : forall hash input, (forall d, ~ stands_for input d) <-> (forall doc, from_slice hash input <> Ok doc).
Proof.
  intros hash input. split.
  - intros H doc F. destruct (C47_means hash input doc F) as (d & S & _). exact (H d S).
  - intros H d S. destruct (C47_accepts hash input d S) as (doc & F & _). exact (H doc F).
Qed.
Print Assumptions C47_refused.
(* The columns in which block collections are arranged count characters since the last newline;
   each maximal part that begins a character and is no character counts as one. *)
Theorem C47_column : forall text i c, column text i = c <->
  exists a l, firstn i text = a ++ l /\ (a = [] \/ exists x, a = x ++ [NEWLINE]) /\ ~ In NEWLINE l /\ counted l c.
Proof. exact column_spec. Qed.
Print Assumptions C47_column.

(* ---- C48 ---- *)
Theorem C48_hash : forall hash hash' input,
  match from_slice hash input, from_slice hash' input with
  | Ok doc, Ok doc' => no_collision hash (doc_data doc) -> no_collision hash' (doc_data doc') ->
      forall x, shows (doc_data doc) (doc_root doc) x <-> shows (doc_data doc') (doc_root doc') x
  | Err _ y k, Err _ y' k' => y = y' /\ k = k'
  | Hang, Hang => True
  | _, _ => False
  end.
Proof.
  intros hash hash' input. pose proof (refine hash input) as R. pose proof (refine hash' input) as R'.
  pose proof (parse_no_panic hash input) as NP.
  destruct (a_parse input) as [[t suf]|x y k| | |] eqn:P;
    destruct (from_slice hash input) as [doc|? ? ?| | |] eqn:F; try tauto;
    destruct (from_slice hash' input) as [doc'|? ? ?| | |] eqn:F'; try tauto.
  - intros N N'. destruct (root_shows _ _ _ F N) as (t1 & s1 & P1 & S1). destruct (root_shows _ _ _ F' N') as (t2 & s2 & P2 & S2).
    rewrite P in P1, P2. injection P1 as <- <-. injection P2 as <- <-. intros z. split; intros Z.
    + now rewrite (proj1 (shows_det _) _ _ Z _ S1).
    + now rewrite (proj1 (shows_det _) _ _ Z _ S2).
  - destruct R as (_ & <- & <-), R' as (_ & <- & <-). auto.
Qed.
Print Assumptions C48_hash.

(* ---- cases ---- *)
Lemma stands_by text t suf : a_parse text = Ok (t, suf) -> forall d, see t = d -> stands_for text d.
Proof. intros P d <-. now apply (means_sound text t suf). Qed.
Lemma stands_not text x y k : a_parse text = Err x y k -> forall d, ~ stands_for text d.
Proof. intros P d H. destruct (means_complete _ _ H) as (t & suf & E & _). congruence. Qed.
Ltac stands := eapply stands_by; [vm_compute; reflexivity|vm_compute; reflexivity].
Ltac stands_no := eapply stands_not; vm_compute; reflexivity.
(* one text by the rules alone *)
Definition means_src : bytes := b "# c" ++ [10] ++ b "a: [1, x]" ++ [10].
Local Ltac neither := cbn; intros ?; intuition discriminate.
Local Ltac no_gap := apply ga_none; [vm_compute; lia|vm_compute; intuition discriminate|vm_compute; discriminate].
Local Ltac one_white := apply ga_white; [vm_compute; auto 6|].
Example C47_case : stands_for means_src (DMap [(b "a", DSeq [DNum (b "1") Unsigned64; DStr (b "x")])]).
Proof.
  exists 4%nat, 4%nat, 13%nat.
  assert (L : length means_src = 14%nat) by reflexivity.
  split. { apply (ga_comment _ _ 3); [reflexivity| |one_white; no_gap]. split; [rewrite L; lia|]. split; [vm_compute; intuition discriminate|right; reflexivity]. }
  split. { apply hd_none; [vm_compute; discriminate|vm_compute; intuition discriminate]. }
  split; [|one_white; no_gap].
  apply (me_map _ None 4 (b "a") 5).
  { apply ka_plain; [vm_compute; intuition discriminate|rewrite L; lia|vm_compute; intuition discriminate|reflexivity|left; vm_compute; auto 6| |reflexivity].
    intros k' K. assert (k' = 4%nat) as -> by lia. vm_compute. discriminate. }
  { exact Logic.I. }
  apply (pa_last _ _ (b "a") 5 _ 13 14).
  - apply (be_value _ _ 6 7); [one_white; no_gap|]. apply (me_flow_seq _ _ _ 7 8); [reflexivity|no_gap|].
    apply (fq_comma _ 8 8 (DNum (b "1") Unsigned64) 9 false 11); [vm_compute; intuition discriminate|no_gap| |reflexivity|one_white; no_gap|].
    + apply he_value. change (DNum (b "1") Unsigned64) with (DNum (slice means_src 8 9) Unsigned64). apply me_number. split; [rewrite L; lia|]. split.
      { left. exists false. split; [|reflexivity]. apply un_int; [|discriminate]. repeat constructor; vm_compute; intuition discriminate. }
      split; [|discriminate]. intros k h' K U. assert (I : In COMMA (slice means_src 8 k)).
      { apply part_in; [lia|]. exists 9%nat. split; [lia|reflexivity]. }
      destruct (number_bytes _ _ U _ I) as [D|D]; [unfold digit, COMMA in D; lia|]. vm_compute in D. intuition discriminate.
    + apply (fq_last _ 11 11 (DStr (b "x")) 12 false 12); [vm_compute; intuition discriminate|no_gap| |vm_compute; discriminate|no_gap|reflexivity].
      apply he_value. apply me_word; [vm_compute; intuition discriminate| | |].
      * intros h k N. pose proof (number_le _ _ _ _ _ N) as LE. destruct N as (_ & U & _). apply number_hd in U as (c & r & E & D). rewrite part_at in E by lia. injection E as <- _.
        vm_compute in D. intuition discriminate.
      * split; [rewrite L; lia|]. split; [|vm_compute; auto 6]. intros c I. vm_compute in I. destruct I as [<-|[]]. vm_compute. intuition discriminate.
      * change (slice means_src 11 12) with (b "x"). apply pd_str; try discriminate; try (intros S; inversion S as [|? ? ? ? A B]; subst; inversion B; fail).
        intros h U. apply number_hd in U as (c & r & E & D). injection E as <- _. vm_compute in D. intuition discriminate.
  - one_white. no_gap.
  - right. vm_compute. auto.
Qed.
(* what the rules say of texts that are not YAML, or mean something else there *)
(* dashes after the first need no space; keys after the first may span lines *)
Example means_dashes : stands_for (b "- a" ++ [10] ++ b "-b") (DSeq [DStr (b "a"); DStr (b "b")]).
Proof. stands. Qed.
Example means_lines : stands_for (b "a: 1" ++ [10] ++ b "b" ++ [10] ++ b "c:2") (DMap [(b "a", DNum (b "1") Unsigned64); (b "b" ++ [10] ++ b "c", DNum (b "2") Unsigned64)]).
Proof. stands. Qed.
(* a comma may be missing once, before the last item *)
Example means_no_comma : stands_for (b "[1a]") (DSeq [DNum (b "1") Unsigned64; DStr (b "a")]).
Proof. stands. Qed.
Example means_two_commas : forall d, ~ stands_for (b "[1 2 3]") d.
Proof. stands_no. Qed.
(* a block scalar takes the next line in whatever column it is *)
Example means_empty_block : stands_for (b "a: |" ++ [10] ++ b "b: 1") (DMap [(b "a", DStr (b "b: 1"))]).
Proof. stands. Qed.
Example means_none : stands_for (b "a:" ++ [10] ++ b "b:" ++ [10] ++ b "- 1") (DMap [(b "a", DNull); (b "b", DSeq [DNum (b "1") Unsigned64])]).
Proof. stands. Qed.
Example means_colon : forall d, ~ stands_for (b "a: 1" ++ [10] ++ b "b") d.
Proof. stands_no. Qed.
Example means_rest : forall d, ~ stands_for (b "[1] 2") d.
Proof. stands_no. Qed.
(* columns count characters: the second key is in the column of the first *)
Example means_column : stands_for (b "- " ++ [195; 164] ++ b ": 1" ++ [10] ++ b "  b: 2") (DSeq [DMap [([195; 164], DNum (b "1") Unsigned64); (b "b", DNum (b "2") Unsigned64)]]).
Proof. stands. Qed.
Example C48_case : exists doc doc', from_slice idhash means_src = Ok doc /\ from_slice (fun x => 1 :: x) means_src = Ok doc' /\ doc_data doc <> doc_data doc' /\
  exists d, shows (doc_data doc) (doc_root doc) d.
Proof.
  destruct (C47_accepts idhash means_src _ C47_case) as (doc & F & S). destruct (C47_accepts (fun x => 1 :: x) means_src _ C47_case) as (doc' & F' & _).
  exists doc, doc'. split; [exact F|]. split; [exact F'|]. split; [|eexists; apply S, id_no_collision].
  clear S. vm_compute in F, F'. injection F as <-. injection F' as <-. discriminate.
Qed.
