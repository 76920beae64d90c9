(* Consequences of the lexeme account for documents: C01, C02, C04, C05, C27. *)
From Coq Require Import List NArith Bool Arith Lia Relation_Operators.
From Verif Require Import Bytes Utf8 Data Parser Render Tree Abs Refine Utf8Props Scan AbsText.
Import ListNotations.
Local Open Scope N_scope.

Lemma from_slice_cases hash input :
  match from_slice hash input with
  | Ok doc => exists t suffix h body, models hash doc t suffix /\
      a_parse input = Ok (shape t, suffix) /\
      input = h ++ body /\ header h /\ T input body (lexdoc t suffix)
  | Err x y _ => (x <= y <= length input)%nat
  | Hang => quote_open input
  | Panic | OutOfFuel => False
  end.
Proof.
  pose proof (refine hash input) as R. pose proof (parse_text input) as P.
  destruct (a_parse input) as [[t0 suffix]|x y k| | |], (from_slice hash input) as [doc|x' y' k'| | |];
    try contradiction; auto.
  - destruct R as (t & -> & M). destruct P as (h & body & H1 & H2 & H3).
    exists t, suffix, h, body. repeat split; auto; try apply M.
    assert (E : forall (t : tree nat), lexes (shape t) = lexes t).
    { clear. intros t. induction t as [i p s|i p n k items IH|i p n k items IH] using tree_ind'.
      - reflexivity.
      - cbn. do 3 f_equal. rewrite map_map. apply map_ext_Forall. revert IH. apply Forall_impl.
        intros [[[ii ip] key] v] H. cbn in *. unfold shape in H. rewrite H. destruct v; reflexivity.
      - cbn. do 3 f_equal. rewrite map_map. apply map_ext_Forall. revert IH. apply Forall_impl.
        intros [[ii ip] v] H. cbn in *. unfold shape in H. rewrite H. destruct v; reflexivity. }
    unfold lexdoc in *. rewrite E in H3. destruct t; exact H3.
  - destruct R as (R & -> & ->). destruct R as [->|[R _]]; [exact P|lia].
Qed.

Section Exact.
Variable text : bytes.

(* The text ends in a block scalar without content: a bar or a greater-than sign, the rest of
   its line, and then nothing but layout. *)
Definition empty_block_end : Prop := exists h u w, text = h ++ u ++ w /\
  (hd EOF u = PIPE \/ hd EOF u = GT) /\ ~ In NEWLINE u /\ layout w /\ w <> [].

Lemma steps_exact x y : utf8 text = true -> ~ In LBRACE text -> ~ In LBRACK text -> ~ empty_block_end ->
  steps text x y -> flat y = flat x.
Proof.
  intros U B K E. induction 1 as [|y z S R IH]; [reflexivity|]. rewrite <- IH. clear IH R.
  inversion S; subst; rewrite ?flat_app; cbn; rewrite ?flat_app; try reflexivity; try congruence; try tauto.
  exfalso. apply E. destruct H as [h H]. exists h, u, w. auto.
Qed.

(* y is x with some bytes c inserted *)
Inductive inserted (c : byte) : bytes -> bytes -> Prop :=
| ins_nil : inserted c [] []
| ins_keep a x y : inserted c x y -> inserted c (a :: x) (a :: y)
| ins_new x y : inserted c x y -> inserted c x (c :: y).
Lemma inserted_refl c x : inserted c x x.
Proof. induction x; constructor; auto. Qed.
Lemma inserted_trans c x y z : inserted c x y -> inserted c y z -> inserted c x z.
Proof.
  intros H1 H2. revert x H1. induction H2; intros x' H1; auto.
  - inversion H1; subst; constructor; auto.
  - constructor. auto.
Qed.
Lemma inserted_app c x y z w : inserted c x y -> inserted c z w -> inserted c (x ++ z) (y ++ w).
Proof. induction 1; cbn; intros; auto; constructor; auto. Qed.
Lemma inserted_length c x y : inserted c x y -> (length x <= length y)%nat.
Proof. induction 1; cbn; lia. Qed.
Lemma inserted_same c x y : inserted c x y -> length x = length y -> x = y.
Proof.
  induction 1; cbn; intros L; auto.
  - f_equal. apply IHinserted. lia.
  - apply inserted_length in H. lia.
Qed.

Lemma steps_commas x y : utf8 text = true -> ~ In LBRACE text -> ~ In PIPE text -> ~ In GT text ->
  steps text x y -> inserted COMMA (flat x) (flat y).
Proof.
  intros U B P G. induction 1 as [|y z S R IH]; [apply inserted_refl|].
  eapply inserted_trans; [exact IH|]. clear IH R.
  inversion S; subst; rewrite ?flat_app; cbn; rewrite ?flat_app; try apply inserted_refl; try congruence; try tauto.
  - apply inserted_app; [apply inserted_refl|]. constructor. apply inserted_refl.
  - exfalso. destruct H as [h ->]. rewrite !in_app_iff in *. destruct u as [|c u]; cbn in *; destruct H0; subst; try discriminate; tauto.
Qed.
End Exact.

(* ---- documents without a header ---- *)
Definition headed (s : bytes) : Prop :=
  exists w r, layout w /\ (s = w ++ PERCENT :: r \/ s = w ++ DASH :: DASH :: DASH :: r).
Lemma header_nil h body : header h -> ~ headed (h ++ body) -> h = [].
Proof.
  intros [D|(g & w & -> & D & L)] N.
  - destruct D as [|w s h L]; [reflexivity|]. exfalso. apply N. exists w, (s ++ h ++ body).
    split; [exact L|left]. rewrite <- app_assoc. cbn. now rewrite <- app_assoc.
  - exfalso. apply N. destruct D as [|w' s h L'].
    + exists w, body. split; [exact L|right]. cbn. rewrite <- app_assoc. reflexivity.
    + exists w', (s ++ h ++ w ++ [DASH; DASH; DASH] ++ body). split; [exact L'|left].
      rewrite <- !app_assoc. cbn. rewrite <- !app_assoc. reflexivity.
Qed.

Section Docs.
Variable hash : bytes -> sid.
Variable input : bytes.

Theorem parse_no_panic : from_slice hash input <> Panic /\ from_slice hash input <> OutOfFuel.
Proof.
  pose proof (from_slice_cases hash input) as H.
  destruct (from_slice hash input); try contradiction; split; discriminate.
Qed.
Theorem parse_span x y k : from_slice hash input = Err x y k -> (x <= y <= length input)%nat.
Proof. intros E. pose proof (from_slice_cases hash input) as H. rewrite E in H. exact H. Qed.
Theorem parse_terminates : ~ quote_open input -> from_slice hash input <> Hang /\ from_slice hash input <> OutOfFuel.
Proof.
  intros Q. pose proof (from_slice_cases hash input) as H.
  destruct (from_slice hash input); try contradiction; split; discriminate.
Qed.

Theorem written_account doc : from_slice hash input = Ok doc -> no_collision hash (doc_data doc) ->
  exists h body ls ls' t suffix,
    input = h ++ body /\ header h /\
    body = flat ls /\ Forall lay_ok ls /\ steps input ls ls' /\ toks ls' = toks ls /\
    write_to doc = Ok (flat ls') /\ models hash doc t suffix /\ ls' = lexdoc t suffix.
Proof.
  intros E NC. pose proof (from_slice_cases hash input) as H. rewrite E in H.
  destruct H as (t & suffix & h & body & M & _ & H1 & H2 & ls & H3 & H4 & H5).
  exists h, body, ls, (lexdoc t suffix), t, suffix. repeat split; auto; try apply M.
  - now apply steps_toks in H5.
  - rewrite flat_lexdoc. now apply (models_write_to hash).
Qed.
Theorem written_exact doc : from_slice hash input = Ok doc -> no_collision hash (doc_data doc) ->
  utf8 input = true -> ~ In LBRACE input -> ~ In LBRACK input -> ~ empty_block_end input ->
  exists h body, input = h ++ body /\ header h /\ write_to doc = Ok body.
Proof.
  intros E NC U B K N. destruct (written_account doc E NC) as (h & body & ls & ls' & t & suffix & H1 & H2 & H3 & _ & H4 & _ & H5 & _).
  exists h, body. repeat split; auto. rewrite H5, H3. f_equal. eapply steps_exact; eauto.
Qed.
Theorem written_commas doc : from_slice hash input = Ok doc -> no_collision hash (doc_data doc) ->
  utf8 input = true -> ~ In LBRACE input -> ~ In PIPE input -> ~ In GT input ->
  exists h body out, input = h ++ body /\ header h /\ write_to doc = Ok out /\
    inserted COMMA body out.
Proof.
  intros E NC U B K N. destruct (written_account doc E NC) as (h & body & ls & ls' & t & suffix & H1 & H2 & H3 & _ & H4 & _ & H5 & _).
  exists h, body, (flat ls'). repeat split; auto. rewrite H3. eapply steps_commas; eauto.
Qed.
End Docs.
