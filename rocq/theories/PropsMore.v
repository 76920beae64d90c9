(* What the crate does where a property does not hold: C04. *)
From Coq Require Import String.
From Coq Require Import List NArith Bool Arith Lia.
From Verif Require Import Bytes Utf8 Data Parser Render Tree Abs Refine Scan AbsText Reads ReadsSound Shown Plain Grammar Laid GrammarSound Tests.
Import ListNotations.
Local Open Scope N_scope.

(* ---- C04 ---- *)
Lemma unclosed_sqe r : unclosed r -> sqe_scan r = None.
Proof.
  induction 1 as [|c r N U IH|r U IH]; cbn [sqe_scan]; [reflexivity|..].
  - apply N.eqb_neq in N. now rewrite N, IH.
  - now rewrite !N.eqb_refl, IH.
Qed.
Lemma unclosed_sq r : unclosed r -> match sq_scan r with SqHang => True | SqEscape k => sqe_scan (skipn k r) = None | SqEnd _ => False end.
Proof.
  induction 1 as [|c r N U IH|r U IH]; cbn [sq_scan]; [exact Logic.I|..].
  - apply N.eqb_neq in N. rewrite N. destruct (sq_scan r); auto.
  - rewrite !N.eqb_refl. apply unclosed_sqe. now constructor.
Qed.
Section Hang.
Variable input : bytes.
Lemma hang_single pre r : input = pre ++ SQUOTE :: r -> unclosed r -> a_single_quoted input (length pre) = Hang.
Proof.
  intros E U. unfold a_single_quoted. rewrite (bind_ok _ _ _ _ _ (r_get _)).
  rewrite (bind_ok _ _ _ _ _ (r_bump input pre [SQUOTE] r 1 E eq_refl)). rewrite (bind_ok _ _ _ _ _ (r_get _)).
  assert (E1 : input = (pre ++ [SQUOTE]) ++ r) by (rewrite <- app_assoc; exact E).
  rewrite (bind_ok _ _ _ _ _ (r_rest _ _ _ E1)). pose proof (unclosed_sq r U) as H.
  destruct (sq_scan r) as [|k|k] eqn:S; [reflexivity|contradiction|].
  pose proof (sq_scan_spec r) as L. rewrite S in L. destruct L as [L _].
  assert (E2 : input = (pre ++ [SQUOTE]) ++ firstn k r ++ skipn k r) by now rewrite firstn_skipn.
  rewrite (bind_ok _ _ _ _ _ (r_bump input _ _ _ k E2 ltac:(rewrite firstn_length; unfold byte, bytes in *; lia))).
  unfold a_single_quoted_escaped. rewrite (bind_ok _ _ _ _ _ (r_string _ _ _ _ E2)).
  rewrite app_assoc in E2. rewrite (bind_ok _ _ _ _ _ (r_rest _ _ _ E2)). unfold byte, bytes in *. now rewrite H.
Qed.
Lemma hang_body value st pre r : input = pre ++ SQUOTE :: r -> unclosed r -> a_value_body input value st (length pre) = Hang.
Proof.
  intros E U. unfold a_value_body. rewrite (bind_ok _ _ _ _ _ (r_peek0 _ _ _ E)), (bind_ok _ _ _ _ _ (r_peek _ _ _ 1 E)).
  change (hd EOF (SQUOTE :: r)) with SQUOTE. change (SQUOTE =? DASH) with false. change (SQUOTE =? DQUOTE) with false.
  change (SQUOTE =? SQUOTE) with true. cbn [andb]. cbv iota. rewrite (bind_ok _ _ _ _ _ (r_get _)).
  pose proof (hang_single pre r E U) as H. unfold bind, byte, bytes in *. now rewrite H.
Qed.
Lemma sq_stops r : stops (SQUOTE :: r).
Proof. split; cbn; [unfold white, blank, SQUOTE; cbn; intuition discriminate|discriminate]. Qed.
Lemma start_after w x : input = w ++ x -> closed w -> starts x -> doc_start x -> a_start_of_document input O = Ok (w, length w).
Proof.
  intros E1 C S [D1 D2]. unfold a_start_of_document. assert (E : input = [] ++ w ++ x) by exact E1.
  assert (CU : cut w x) by (rewrite <- (app_nil_r x); now apply starts_cut). change O with (length (@nil N)).
  rewrite (bind_ok _ _ _ _ _ (r_ws _ _ _ _ E CU)). rewrite app_nil_l. cbn [a_sod_loop].
  rewrite (bind_ok _ _ _ _ _ (r_peek0 _ _ _ E1)), (bind_ok _ _ _ _ _ (r_peek _ _ _ 1 E1)), (bind_ok _ _ _ _ _ (r_peek _ _ _ 2 E1)).
  destruct (N.eqb_spec (hd EOF x) PERCENT) as [X|_]; [elim D1; destruct x as [|c x]; [discriminate|]; cbn in X; subst; eexists; reflexivity|].
  destruct (_ && _) eqn:X; [|reflexivity]. exfalso. apply D2. rewrite !andb_true_iff, !N.eqb_eq in X. destruct X as [[X1 X2] X3].
  destruct x as [|c1 [|c2 [|c3 x]]]; cbn in *; try discriminate. subst. eexists. reflexivity.
Qed.
End Hang.
(* A single quote that is not closed, as the document or as the value of its first key, keeps
   the parser busy for ever. *)
Theorem C04_hangs : forall hash w r, closed w -> unclosed r ->
  from_slice hash (w ++ b "'" ++ r) = Hang /\
  (forall x k g, start_key x k -> doc_start (x ++ b ":") -> gap g -> from_slice hash (w ++ x ++ b ":" ++ g ++ b "'" ++ r) = Hang).
Proof.
  intros hash w r C U.
  assert (FS : forall input, a_parse input = Hang -> from_slice hash input = Hang).
  { intros input A. pose proof (refine hash input) as R. rewrite A in R. destruct (from_slice hash input); tauto. }
  split.
  - apply FS. set (input := w ++ b "'" ++ r). assert (E : input = w ++ SQUOTE :: r) by reflexivity.
    unfold a_parse, a_parse_m. rewrite (bind_ok _ _ _ _ _ (start_after input w _ E C ltac:(split; [discriminate|apply sq_stops]) ltac:(split; intros (q & X); discriminate X))).
    cbn [a_value]. pose proof (fun v st => hang_body input v st w r E U) as H. unfold bind, byte, bytes in *. now rewrite H.
  - intros x k g K D [G G0]. apply FS. set (tail := g ++ b "'" ++ r).
    assert (BR : breaks tail) by (right; unfold tail; destruct g; [|exact G0]; cbn in G0; unfold white, blank, EOF in G0; cbn in G0; intuition discriminate).
    destruct (start_first x k tail K BR) as (ST & key & W & _ & FK).
    set (input := w ++ x ++ b ":" ++ tail). assert (E : input = w ++ x ++ [COLON] ++ tail) by reflexivity.
    assert (DS : doc_start (x ++ [COLON] ++ tail)).
    { destruct D as [D1 D2], ST as [NE _]. split; intros (q & X).
      - apply D1. destruct x as [|c x]; [congruence|]. cbn in X. injection X as -> X. eexists. reflexivity.
      - apply D2. destruct x as [|c1 [|c2 [|c3 x]]]; try congruence; cbn in X; try discriminate X.
        injection X as -> -> -> X. eexists. reflexivity. }
    unfold a_parse, a_parse_m. rewrite (bind_ok _ _ _ _ _ (start_after input w _ E C ltac:(destruct ST as [NE SS]; split; [destruct x; [congruence|discriminate]|destruct x; [congruence|exact SS]]) DS)).
    rewrite <- W in E. assert (E1 : input = (w ++ wstr key) ++ [COLON] ++ tail) by (rewrite <- app_assoc; exact E).
    assert (E2 : input = ((w ++ wstr key) ++ [COLON]) ++ g ++ SQUOTE :: r) by (rewrite <- app_assoc; exact E1).
    assert (E3 : input = (((w ++ wstr key) ++ [COLON]) ++ g) ++ SQUOTE :: r) by (rewrite <- app_assoc; exact E2).
    assert (CU : cut g (SQUOTE :: r)) by (apply closed_cut; [exact G|apply sq_stops]).
    destruct (length input) as [|n] eqn:L; [exfalso; apply (f_equal (@length N)) in E3; unfold byte, bytes in *; rewrite app_length in E3; cbn in E3; lia|].
    assert (ML : forall ind start ip, a_map_loop input (a_value input (S n)) (S (S n)) ind [] start key ip (length (w ++ wstr key)) = Hang).
    { intros ind start ip. remember (a_value input (S n)) as v eqn:EV. cbn [a_map_loop]. rewrite (bind_ok _ _ _ _ _ (r_peek0 _ _ _ E1)).
      change (negb (hd EOF ([COLON] ++ tail) =? COLON)) with false. cbv iota.
      rewrite (bind_ok _ _ _ _ _ (r_bump input _ _ _ 1 E1 eq_refl)), (bind_ok _ _ _ _ _ (r_ws _ _ _ _ E2 CU)). rewrite EV. cbn [a_value].
      pose proof (fun v st => hang_body input v st _ r E3 U) as H. unfold bind, byte, bytes in *. now rewrite H. }
    assert (V : a_value input (S (S n)) (AState w false true None) (length w) = Hang).
    { remember (S n) as m eqn:EM. cbn [a_value]. rewrite (r_first_key input _ (AState w false true None) w key _ FK eq_refl eq_refl E). unfold a_mapping_or_nul. cbn [as_parent_indent].
      rewrite L. unfold bind, byte, bytes in *. now rewrite ML. }
    unfold bind, byte, bytes in *. now rewrite V.
Qed.
Print Assumptions C04_hangs.
Example C04_hangs_case : closed (b "# c
") /\ unclosed (b "it''s
a: 1") /\ load (b "# c
key: 'it''s
a: 1") = Hang.
Proof.
  split; [|split].
  - apply (cl_comment (b " c") []); [|constructor]. cbn. unfold NEWLINE. intuition discriminate.
  - do 2 (apply un_byte; [discriminate|]). apply un_pair. apply unclosed_plain. cbn. unfold SQUOTE. intuition discriminate.
  - vm_compute. reflexivity.
Qed.
