(* C61: lines of white space and comments in front of any text change nothing. *)
From Coq Require Import String.
From Coq Require Import List NArith ZArith Bool Arith Lia.
From Verif Require Import Bytes Utf8 Data Parser Render Tree Abs Refine Scan AbsText AbsNice Shown Valid Exact TextProps Built Back Grammar Api
  Tests PropsParse White Plain Lexed Means Places MeansSound MeansComplete PropsMeans Printed PrintedSound PrintedComplete PropsPrinted Fails PropsFails Lead.
Import ListNotations.
Local Open Scope N_scope.

(* Lines of white space and comments. *)
Definition lead (w : bytes) : Prop := closed w /\ (w = [] \/ exists u, w = u ++ [NEWLINE]).
Lemma lead_last w x : lead w -> after_last_nl (w ++ x) = after_last_nl x.
Proof. intros (_ & [->|(u & ->)]); [reflexivity|apply last_nl_app]. Qed.
Lemma lead_printed w text d out : lead w -> printed text d out ->
  (has_header text -> printed (w ++ text) d out) /\ (~ has_header text -> printed (w ++ text) d (w ++ out)).
Proof. intros L. apply printed_front; [apply L|]. intros x. now apply lead_last. Qed.
Lemma lead_wrong w text r : lead w -> wrong text r -> wrong (w ++ text) (mvf w r).
Proof. intros L. apply wrong_front; [apply L|]. intros x. now apply lead_last. Qed.
Lemma header_decided text d out : printed text d out -> has_header text \/ ~ has_header text.
Proof.
  intros [n p i x w j w' G H P A]. destruct (header_mv [] text _ _ _ _ H) as [(HA & _)|(HA & _)]; [left|right]; now rewrite <- (has_header_at text n G).
Qed.

Theorem C61_accepted : forall hash w text, lead w ->
  ((exists doc, from_slice hash (w ++ text) = Ok doc) <-> exists doc, from_slice hash text = Ok doc).
Proof.
  intros hash w text L. rewrite !(proj1 (C49_exact hash _)). split.
  - intros (d & out & P). destruct (C50_total text) as [X|(r & R)]; [exact X|]. exfalso. exact (proj2 (C50_one _ _ (lead_wrong _ _ _ L R)) _ _ P).
  - intros (d & out & P). destruct (lead_printed w _ _ _ L P) as (A & B). destruct (header_decided _ _ _ P) as [H|H]; eauto.
Qed.
Print Assumptions C61_accepted.

(* The data is the same, and the new lines are written back in front of the old output; if the
   text has a directive or a document marker, they are lost like all that stands before it. *)
Theorem C61_same : forall hash w text doc doc', lead w -> from_slice hash text = Ok doc -> from_slice hash (w ++ text) = Ok doc' ->
  no_collision hash (doc_data doc) -> no_collision hash (doc_data doc') -> exists d out,
  shows (doc_data doc) (doc_root doc) d /\ shows (doc_data doc') (doc_root doc') d /\ write_to doc = Ok out /\
  (has_header text -> write_to doc' = Ok out) /\ (~ has_header text -> write_to doc' = Ok (w ++ out)).
Proof.
  intros hash w text doc doc' L F F' N N'. destruct (C49_writes _ _ _ F N) as (d & out & P & S & O). exists d, out.
  pose proof (proj2 (C49_exact hash (w ++ text)) _ F' N') as X. destruct (lead_printed w _ _ _ L P) as (A & B).
  split; [exact S|]. split; [|split; [exact O|split; intros H; [exact (proj2 (proj2 (X d out) (A H)))|exact (proj2 (proj2 (X d (w ++ out)) (B H)))]]].
  destruct (header_decided _ _ _ P) as [H|H]; [exact (proj1 (proj2 (X d out) (A H)))|exact (proj1 (proj2 (X d (w ++ out)) (B H)))].
Qed.
Print Assumptions C61_same.

Theorem C61_hang : forall hash w text, lead w -> (from_slice hash (w ++ text) = Hang <-> from_slice hash text = Hang).
Proof.
  intros hash w text L. rewrite !C50_stuck. split; [|apply (lead_wrong w text stuck L)]. intros X. destruct (C50_total text) as [(d & out & P)|(r & R)].
  - exfalso. destruct (lead_printed w _ _ _ L P) as (A & B). destruct (header_decided _ _ _ P) as [H|H]; [exact (proj2 (C50_one _ _ X) _ _ (A H))|exact (proj2 (C50_one _ _ X) _ _ (B H))].
  - pose proof (proj1 (C50_one _ _ X) _ (lead_wrong _ _ _ L R)) as E. destruct r; [exact R|discriminate].
Qed.
Print Assumptions C61_hang.

(* The start is exact under the condition of C50_error. *)
Theorem C61_error : forall hash w text x y k, lead w -> from_slice hash text = Err x y k ->
  exists x', from_slice hash (w ++ text) = Err x' (y + length w) k /\
    (k <> BadSequenceTerminator \/ (forall u v, hash u = hash v -> u = v) -> x' = (x + length w)%nat).
Proof.
  intros hash w text x y k L F. destruct (C50_error _ _ _ _ _ F) as (x0 & R & E). destruct (C50_reports hash _ _ _ _ (lead_wrong w _ _ L R)) as (x' & F' & E').
  exists x'. split; [exact F'|]. intros H. rewrite <- (E H). exact (E' H).
Qed.
Print Assumptions C61_error.

(* Nothing else is reported. *)
Theorem C61_errors : forall hash w text x' y' k, lead w -> from_slice hash (w ++ text) = Err x' y' k ->
  exists x y, from_slice hash text = Err x y k /\ y' = (y + length w)%nat /\
    (k <> BadSequenceTerminator \/ (forall u v, hash u = hash v -> u = v) -> x' = (x + length w)%nat).
Proof.
  intros hash w text x' y' k L F. pose proof (parse_no_panic hash text) as [NP NF]. destruct (from_slice hash text) as [doc|x y k0| | |] eqn:G; try congruence.
  - exfalso. destruct (proj2 (C61_accepted hash w text L) ltac:(eauto)) as (doc' & F'). congruence.
  - destruct (C61_error hash w text x y k0 L G) as (x2 & F2 & E). rewrite F in F2. injection F2 as -> -> ->. exists x, y. auto.
  - exfalso. apply (C61_hang hash w text L) in G. congruence.
Qed.
Print Assumptions C61_errors.

(* ---- cases ---- *)
Definition c61_lead : bytes := b "# a comment

  # and one more
".
Lemma c61_is_lead : lead c61_lead.
Proof.
  split; [|right; exists (b "# a comment

  # and one more"); reflexivity].
  apply (cl_comment (b " a comment")); [vm_compute; intuition discriminate|]. do 3 (apply cl_ws; [vm_compute; auto 8|]).
  apply (cl_comment (b " and one more")); [vm_compute; intuition discriminate|]. apply cl_nil.
Qed.
Definition c61_text : bytes := b "a: |
  x
 # y
b: [1, {c: ~}]".
Definition c61_marked : bytes := b "%YAML 1.2
--- 12".
Definition back (s : bytes) : outcome bytes := match load s with Ok doc => write_to doc | _ => Panic end.
(* what is read and written; the header; an error and where it is *)
Example C61_case : lead c61_lead /\
  at_path (load (c61_lead ++ c61_text)) [K (b "a")] as_bstr = at_path (load c61_text) [K (b "a")] as_bstr /\
  at_path (load c61_text) [K (b "a")] as_bstr = Some (Some (b "x" ++ [NEWLINE; NEWLINE])) /\
  back c61_text = Ok c61_text /\ back (c61_lead ++ c61_text) = Ok (c61_lead ++ c61_text) /\
  has_header c61_marked /\ ~ has_header c61_text /\ back c61_marked = Ok (b " 12") /\ back (c61_lead ++ c61_marked) = Ok (b " 12") /\
  length c61_lead = 30%nat /\ load (b "[1, 2 # c") = Err 5 9 BadSequenceTerminator /\
  load (c61_lead ++ b "[1, 2 # c") = Err 35 39 BadSequenceTerminator.
Proof.
  split; [exact c61_is_lead|]. split; [vm_compute; reflexivity|]. split; [vm_compute; reflexivity|]. split; [vm_compute; reflexivity|]. split; [vm_compute; reflexivity|].
  split; [exists [], (b "YAML 1.2
--- 12"); split; [apply cl_nil|now left]|]. split; [|repeat split; vm_compute; reflexivity].
  rewrite <- (has_header_at c61_text 0); [vm_compute; intuition discriminate|]. apply ga_none; [vm_compute; lia|vm_compute; intuition discriminate|vm_compute; discriminate].
Qed.
