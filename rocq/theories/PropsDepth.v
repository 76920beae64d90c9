(* C52: how deep calls nest. *)
From Coq Require Import String.
From Coq Require Import List NArith ZArith Bool Arith Lia.
From Verif Require Import Bytes Utf8 Data Parser Render Tree Abs Refine Num Api Ctx Edit Built Reads ReadsSound Shown Plain Grammar GrammarSound
  TextProps Depth DepthProps Check Tests Refuted PropsParse PropsEdit PropsText.
Import ListNotations.
Local Open Scope N_scope.

(* A text is read with d nested calls exactly if the data it stands for are nested at most d deep. *)
Theorem C52_read : forall hash text doc x d, from_slice hash text = Ok doc -> shows (doc_data doc) (doc_root doc) x ->
  from_slice_within d hash text = if (nesting x <=? d)%nat then Ok doc else OutOfFuel.
Proof.
  intros hash text doc x d F S. destruct (parse_models hash text doc F) as (t & suf & A & M). pose proof (root_need _ _ _ _ _ M S) as E.
  rewrite <- need_shape in E. destruct (Nat.leb_spec (nesting x) d) as [L|L].
  - eapply within_enough; [exact F|exact A|]. cbn [fst]. lia.
  - eapply within_least; [exact F|exact A|]. cbn [fst]. lia.
Qed.
(* A refused text: a bound never changes the reason. *)
Theorem C52_refused : forall hash text d, from_slice_within d hash text = OutOfFuel \/ from_slice_within d hash text = from_slice hash text.
Proof.
  intros hash text d. rewrite <- within_all. destruct (le_ge_dec d (S (length text))) as [L|L].
  - exact (mono_within hash text _ _ L).
  - destruct (mono_within hash text _ _ L) as [E|E]; [|right; congruence]. exfalso. rewrite within_all in E. exact (proj2 (parse_no_panic hash text) E).
Qed.
(* A call for every byte is enough. *)
Theorem C52_length : forall hash text d, (length text < d)%nat -> from_slice_within d hash text = from_slice hash text.
Proof.
  intros hash text d L. rewrite <- within_all. destruct (mono_within hash text (S (length text)) d ltac:(lia)) as [E|E]; [|congruence].
  exfalso. rewrite within_all in E. exact (proj2 (parse_no_panic hash text) E).
Qed.
(* The same for the two ways of writing, for every document however edited. *)
Theorem C52_write : forall hash doc x d, built hash doc -> shows (doc_data doc) (doc_root doc) x ->
  write_to_within d doc = if (nesting x <=? d)%nat then write_to doc else OutOfFuel.
Proof.
  intros hash doc x d B S. destruct (built_models _ _ _ _ B) as (t & suf & M). rewrite <- (root_need _ _ _ _ _ M S).
  destruct (C06_readable hash doc B) as ((out & W) & _). rewrite W. eapply write_within; [exact M|exact W].
Qed.
Theorem C52_display : forall hash doc x d, built hash doc -> shows (doc_data doc) (doc_root doc) x ->
  to_string_within d doc = if (nesting x <=? d)%nat then to_string doc else OutOfFuel.
Proof.
  intros hash doc x d B S. destruct (built_models _ _ _ _ B) as (t & suf & M). rewrite <- (root_need _ _ _ _ _ M S).
  destruct (C06_readable hash doc B) as (_ & (out & W) & _). rewrite W. eapply string_within; [exact M|exact W].
Qed.

(* Setting a value removes what it was: two calls for every level but the last. *)
Theorem C52_replace : forall hash doc id x r n, built hash doc -> value_of doc id -> shows (doc_data doc) id x ->
  replace_within n id r (doc_data doc) = if (2 * nesting x <=? S n)%nat then replace id r (doc_data doc) else OutOfFuel.
Proof.
  intros hash doc id x r n B V S. destruct (built_models _ _ _ _ B) as (t & suf & M). destruct (value_ctx _ _ _ _ _ M V) as (c & v & -> & <-).
  rewrite <- (shown_need _ _ _ _ _ _ M (sub_plug c v) S). eapply replace_need; [exact M|apply sub_plug].
Qed.

(* No stack is large enough: n brackets need n nested calls. *)
Definition brackets (n : nat) : bytes := repeat LBRACK n ++ repeat RBRACK n.
Fixpoint lists (n : nat) : datum := match n with S (S m as k) => DSeq [lists k] | _ => DSeq [] end.
Lemma nesting_lists n : nesting (lists (S n)) = S n.
Proof. induction n as [|n IH]; [reflexivity|]. change (lists (S (S n))) with (DSeq [lists (S n)]). cbn [nesting map list_max fold_right]. rewrite IH. lia. Qed.
Lemma brackets_S n : brackets (S n) = b "[" ++ brackets n ++ b "]".
Proof.
  unfold brackets. change (b "[") with [LBRACK]. change (b "]") with [RBRACK]. cbn [repeat app]. f_equal. rewrite <- app_assoc. f_equal. exact (repeat_cons n RBRACK).
Qed.
Lemma brackets_flow n : flow (brackets (S n)) (lists (S n)).
Proof.
  induction n as [|n IH]; [apply fl_seq, (fs_end []); constructor|]. rewrite brackets_S. change (lists (S (S n))) with (DSeq [lists (S n)]).
  apply fl_seq. apply (fs_last [] (brackets (S n)) (lists (S n)) []); [constructor|reflexivity|constructor|apply fi_nested; exact IH].
Qed.
Theorem C52_brackets : forall hash n, reads_as_datum hash (brackets (S n)) (lists (S n)).
Proof.
  intros hash n. apply doc_text_reads. rewrite <- (app_nil_r (brackets (S n))). apply (dt_leaf []); [constructor| |constructor|].
  - apply lf_flow; [apply brackets_flow|now left].
  - split; intros (r & E); discriminate E.
Qed.
Theorem C52_no_bound_refuted : forall d, exists text doc, from_slice idhash text = Ok doc /\ length text = (2 * S d)%nat /\
  from_slice_within d idhash text = OutOfFuel /\ write_to_within d doc = OutOfFuel /\ to_string_within d doc = OutOfFuel.
Proof.
  intro d. destruct (C52_brackets idhash d) as (doc & F & K). destruct (K (id_no_collision _)) as [S _].
  exists (brackets (Datatypes.S d)), doc. split; [exact F|]. split; [unfold brackets; rewrite app_length, !repeat_length; lia|].
  assert (L : (nesting (lists (Datatypes.S d)) <=? d)%nat = false) by (apply Nat.leb_gt; rewrite nesting_lists; lia).
  assert (B : built idhash doc) by (exact (built_parse _ _ _ (brackets (Datatypes.S d)) doc Logic.I F)).
  split; [|split].
  - now rewrite (C52_read _ _ _ _ d F S), L.
  - now rewrite (C52_write _ _ _ d B S), L.
  - now rewrite (C52_display _ _ _ d B S), L.
Qed.
Print Assumptions C52_read.
Print Assumptions C52_refused.
Print Assumptions C52_length.
Print Assumptions C52_write.
Print Assumptions C52_display.
Print Assumptions C52_replace.
Print Assumptions C52_brackets.
Print Assumptions C52_no_bound_refuted.

Definition c52_text : bytes := b "a:
  - [x, {k: []}]
  - 1
b: 'two'
".
Example C52_read_case : exists doc x, from_slice idhash c52_text = Ok doc /\ shows (doc_data doc) (doc_root doc) x /\ nesting x = 5%nat /\
  from_slice_within 5 idhash c52_text = Ok doc /\ from_slice_within 4 idhash c52_text = OutOfFuel.
Proof.
  destruct (from_slice idhash c52_text) as [doc|? ? ?| | |] eqn:F; try (vm_compute in F; discriminate F). exists doc.
  destruct (peek 20 (doc_data doc) (doc_root doc)) as [x|] eqn:P; [|exfalso; revert P; vm_compute in F; injection F as <-; vm_compute; discriminate].
  exists x. assert (N : nesting x = 5%nat) by (revert P; vm_compute in F; injection F as <-; vm_compute; intros [= <-]; reflexivity).
  apply peek_shows in P. split; [reflexivity|]. split; [exact P|]. split; [exact N|]. split; rewrite (C52_read _ _ _ _ _ F P), N; reflexivity.
Qed.
Example C52_run_case : match from_slice_within 5 idhash c52_text, from_slice_within 4 idhash c52_text with Ok _, OutOfFuel => True | _, _ => False end.
Proof. vm_compute. exact Logic.I. Qed.
(* A refused text: with few calls nothing can be said, with enough the reason is the same. *)
Example C52_refused_case : from_slice_within 2 idhash (b "[[[") = OutOfFuel /\
  from_slice_within 4 idhash (b "[[[") = from_slice idhash (b "[[[") /\ exists x y k, from_slice idhash (b "[[[") = Err x y k.
Proof. split; [vm_compute; reflexivity|]. split; [vm_compute; reflexivity|]. do 3 eexists. vm_compute. reflexivity. Qed.
Example C52_write_case : exists x, shows (doc_data world) (doc_root world) x /\ nesting x = 4%nat /\
  write_to_within 4 world = write_to world /\ write_to_within 3 world = OutOfFuel /\
  to_string_within 4 world = to_string world /\ to_string_within 3 world = OutOfFuel.
Proof.
  destruct (peek 20 (doc_data world) (doc_root world)) as [x|] eqn:P; [|vm_compute in P; discriminate P].
  exists x. assert (N : nesting x = 4%nat) by (revert P; vm_compute; intros [= <-]; reflexivity).
  apply peek_shows in P. split; [exact P|]. split; [exact N|].
  rewrite !(C52_write _ _ _ _ world_built P), !(C52_display _ _ _ _ world_built P), N. repeat split; reflexivity.
Qed.
Example C52_replace_case : exists x, shows (doc_data world) (id_of [K (b "list")]) x /\ nesting x = 3%nat /\
  replace_within 5 (id_of [K (b "list")]) (RScalar (ScNull NTilde)) (doc_data world) = replace (id_of [K (b "list")]) (RScalar (ScNull NTilde)) (doc_data world) /\
  replace_within 4 (id_of [K (b "list")]) (RScalar (ScNull NTilde)) (doc_data world) = OutOfFuel.
Proof.
  assert (V : value_of world (id_of [K (b "list")])) by (apply (walk_value world [K (b "list")]); vm_compute; reflexivity).
  destruct (peek 20 (doc_data world) (id_of [K (b "list")])) as [x|] eqn:P; [|vm_compute in P; discriminate P].
  exists x. assert (N : nesting x = 3%nat) by (revert P; vm_compute; intros [= <-]; reflexivity).
  apply peek_shows in P. split; [exact P|]. split; [exact N|]. rewrite !(C52_replace _ _ _ _ _ _ world_built V P), N. split; reflexivity.
Qed.
Example C52_no_bound_case : brackets 3 = b "[[[]]]" /\ lists 3 = DSeq [DSeq [DSeq []]].
Proof. split; reflexivity. Qed.
