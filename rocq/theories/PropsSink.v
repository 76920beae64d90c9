(* Properties of output to a sink that may fail: C51. *)
From Coq Require Import String.
From Coq Require Import List NArith ZArith Bool Arith Lia.
From Verif Require Import Bytes Utf8 Data Parser Render Tree Api Ctx Edit Built Tests Refuted PropsParse PropsEdit Sink SinkProps.
Import ListNotations.
Local Open Scope N_scope.

(* What a sink has received. Each call takes a beginning of its bytes, all of them if it
   succeeds. *)
Definition keeps {W E} (got : W -> bytes) (put : W -> bytes -> W * option E) : Prop :=
  forall w c, exists x y, c = x ++ y /\ got (fst (put w c)) = got w ++ x /\ (snd (put w c) = None -> y = []).
(* A sink with room for n bytes, like &mut [u8]: write_all fills it up and then fails. *)
Definition room (n : nat) (w c : bytes) : bytes * option unit :=
  if (length w + length c <=? n)%nat then (w ++ c, None) else (w ++ firstn (n - length w) c, Some tt).
(* A way of cutting formatted text into calls. *)
Definition cuts (cut : bytes -> list bytes) : Prop := forall s, concat (cut s) = s.

Lemma feed_keeps {W E} (got : W -> bytes) (put : W -> bytes -> W * option E) : keeps got put -> forall cs w, exists x y, concat cs = x ++ y /\ got (fst (feed put cs w)) = got w ++ x /\ (snd (feed put cs w) = None -> y = []).
Proof.
  intro K. induction cs as [|c cs IH]; intro w; cbn [feed concat].
  - exists [], []. cbn. rewrite app_nil_r. auto.
  - destruct (K w c) as (x & y & C & G & Z). destruct (put w c) as [w' [e|]]; cbn [fst snd] in *.
    + exists x, (y ++ concat cs). rewrite C, <- app_assoc. split; [reflexivity|]. split; [exact G|discriminate].
    + specialize (Z eq_refl). subst y. rewrite app_nil_r in C. subst x. destruct (IH w') as (x & y & C2 & G2 & Z2).
      exists (c ++ x), y. rewrite C2, <- app_assoc. split; [reflexivity|]. split; [|exact Z2]. rewrite G2, G, <- app_assoc. reflexivity.
Qed.
Lemma feed_room n : forall cs w, (length w <= n)%nat -> feed (room n) cs w = (firstn n (w ++ concat cs), if (length (w ++ concat cs) <=? n)%nat then None else Some tt).
Proof.
  induction cs as [|c cs IH]; intros w L; cbn [feed concat].
  - rewrite app_nil_r, firstn_all2 by exact L. apply Nat.leb_le in L. rewrite L. reflexivity.
  - unfold room at 1. destruct (length w + length c <=? n)%nat eqn:B.
    + apply Nat.leb_le in B. rewrite IH by (rewrite app_length; exact B). rewrite <- app_assoc. reflexivity.
    + apply Nat.leb_gt in B. rewrite firstn_app, (firstn_all2 w) by exact L. rewrite firstn_app.
      replace (n - length w - length c)%nat with O by lia. cbn [firstn]. rewrite app_nil_r.
      replace (length (w ++ c ++ concat cs) <=? n)%nat with false; [reflexivity|]. symmetry. apply Nat.leb_gt. rewrite !app_length. lia.
Qed.
Lemma feed_fine {W E} (put : W -> bytes -> W * option E) cs : (forall w c, snd (put w c) = None) -> forall w, snd (feed put cs w) = None.
Proof. intro F. induction cs as [|c cs IH]; intro w; [reflexivity|]. cbn [feed]. pose proof (F w c) as Q. destruct (put w c) as [w' [e|]]; [discriminate|apply IH]. Qed.
Lemma feed_error {W E} (put : W -> bytes -> W * option E) w' e : forall cs w, feed put cs w = (w', Some e) <-> exists xs c ys w1, cs = xs ++ c :: ys /\ feed put xs w = (w1, None) /\ put w1 c = (w', Some e).
Proof.
  induction cs as [|c cs IH]; intro w; cbn [feed]; (split; [intro H|intros (xs & c1 & ys & w1 & Q & F & P)]).
  - discriminate H.
  - destruct xs; discriminate Q.
  - destruct (put w c) as [w2 [e2|]] eqn:P.
    + injection H as -> ->. exists [], c, cs, w. auto.
    + apply IH in H as (xs & c1 & ys & w1 & -> & F & P1). exists (c :: xs), c1, ys, w1. cbn [feed]. rewrite P. auto.
  - destruct xs as [|c2 xs]; cbn [app] in Q; injection Q as -> ->.
    + injection F as <-. rewrite P. reflexivity.
    + cbn [feed] in F. destruct (put w c2) as [w2 [e2|]]; [discriminate|]. apply IH. exists xs, c1, ys, w1. auto.
Qed.

(* The calls do not depend on the sink, and stop at the first error. *)
Theorem C51_calls : forall doc out, write_to doc = Ok out -> forall cut, cuts cut -> exists cs, concat cs = out /\
  forall W E (put : W -> bytes -> W * option E) w, write_to_sink put cut doc w = Ok (feed put cs w).
Proof. intros doc out H cut C. exact (says_write_to cut C doc out H). Qed.
Theorem C51_display_calls : forall doc out, to_string doc = Ok out -> forall cut, cuts cut -> exists cs, concat cs = out /\
  forall W E (put : W -> bytes -> W * option E) w, display_sink put cut doc w = Ok (feed put cs w).
Proof. intros doc out H cut C. exact (says_display cut C doc out H). Qed.
Theorem C51_value_calls : forall d id out, value_to_string d id = Ok out -> forall cut, cuts cut -> exists cs, concat cs = out /\
  forall W E (put : W -> bytes -> W * option E) w, display_value_sink put cut d id w = Ok (feed put cs w).
Proof. intros d id out H cut C. exact (says_display_value cut C d id out H). Qed.

(* Every document that can be reached writes to every sink without a panic; the sink has
   received a beginning of the output, all of it if there is no error. *)
Theorem C51_beginning : forall hash doc, built hash doc -> exists out, write_to doc = Ok out /\
  forall cut, cuts cut -> forall W E (got : W -> bytes) (put : W -> bytes -> W * option E), keeps got put -> forall w,
  exists w' r x y, write_to_sink put cut doc w = Ok (w', r) /\ out = x ++ y /\ got w' = got w ++ x /\ (r = None -> y = []).
Proof.
  intros hash doc B. destruct (proj1 (C06_readable hash doc B)) as (out & H). exists out. split; [exact H|].
  intros cut C W E got put K w. destruct (C51_calls doc out H cut C) as (cs & <- & F). destruct (feed_keeps got put K cs w) as (x & y & Q & G & Z).
  exists (fst (feed put cs w)), (snd (feed put cs w)), x, y. rewrite F. split; [destruct (feed put cs w); reflexivity|auto].
Qed.
Theorem C51_display_beginning : forall hash doc, built hash doc -> exists out, to_string doc = Ok out /\
  forall cut, cuts cut -> forall W E (got : W -> bytes) (put : W -> bytes -> W * option E), keeps got put -> forall w,
  exists w' r x y, display_sink put cut doc w = Ok (w', r) /\ out = x ++ y /\ got w' = got w ++ x /\ (r = None -> y = []).
Proof.
  intros hash doc B. destruct (proj1 (proj2 (C06_readable hash doc B))) as (out & H). exists out. split; [exact H|].
  intros cut C W E got put K w. destruct (C51_display_calls doc out H cut C) as (cs & <- & F). destruct (feed_keeps got put K cs w) as (x & y & Q & G & Z).
  exists (fst (feed put cs w)), (snd (feed put cs w)), x, y. rewrite F. split; [destruct (feed put cs w); reflexivity|auto].
Qed.
(* A buffer with room for n bytes receives the first n bytes of the output, and writing fails
   exactly if there are more. *)
Theorem C51_room : forall doc out, write_to doc = Ok out -> forall cut, cuts cut -> forall n,
  write_to_sink (room n) cut doc [] = Ok (firstn n out, if (length out <=? n)%nat then None else Some tt).
Proof. intros doc out H cut C n. destruct (C51_calls doc out H cut C) as (cs & <- & F). rewrite F, feed_room by (cbn; lia). reflexivity. Qed.
Theorem C51_display_room : forall doc out, to_string doc = Ok out -> forall cut, cuts cut -> forall n,
  display_sink (room n) cut doc [] = Ok (firstn n out, if (length out <=? n)%nat then None else Some tt).
Proof. intros doc out H cut C n. destruct (C51_display_calls doc out H cut C) as (cs & <- & F). rewrite F, feed_room by (cbn; lia). reflexivity. Qed.
(* A sink that never fails: no error. *)
Theorem C51_fine : forall doc out, write_to doc = Ok out -> forall cut, cuts cut -> forall W E (put : W -> bytes -> W * option E), (forall w c, snd (put w c) = None) ->
  forall w, exists w', write_to_sink put cut doc w = Ok (w', None).
Proof.
  intros doc out H cut C W E put P w. destruct (C51_calls doc out H cut C) as (cs & _ & F). exists (fst (feed put cs w)). rewrite F. f_equal.
  rewrite <- (feed_fine put cs P w). destruct (feed put cs w); reflexivity.
Qed.
(* The error returned is the error of the last call made, and all calls before it succeeded. *)
Theorem C51_error : forall doc out, write_to doc = Ok out -> forall cut, cuts cut -> exists cs, concat cs = out /\
  forall W E (put : W -> bytes -> W * option E) w w' e,
  write_to_sink put cut doc w = Ok (w', Some e) <-> exists xs c ys w1, cs = xs ++ c :: ys /\ feed put xs w = (w1, None) /\ put w1 c = (w', Some e).
Proof.
  intros doc out H cut C. destruct (C51_calls doc out H cut C) as (cs & Q & F). exists cs. split; [exact Q|]. intros W E put w w' e. rewrite F.
  rewrite <- feed_error. split; [intro X; injection X as X; exact X|intros ->; reflexivity].
Qed.
(* The text does not depend on how the library cuts it. *)
Theorem C51_cut : forall doc out, write_to doc = Ok out -> forall c1 c2, cuts c1 -> cuts c2 -> forall n, write_to_sink (room n) c1 doc [] = write_to_sink (room n) c2 doc [].
Proof. intros doc out H c1 c2 C1 C2 n. rewrite !(C51_room doc out H) by assumption. reflexivity. Qed.

(* ---- concrete cases ---- *)
Definition bytewise (s : bytes) : list bytes := map (fun c => [c]) s.
Lemma bytewise_cuts : cuts bytewise.
Proof. intro s. unfold bytewise. induction s as [|c s IH]; [reflexivity|]. cbn [map concat app]. f_equal. exact IH. Qed.
Lemma whole_cuts : cuts (fun s => [s]).
Proof. intro s. cbn. apply app_nil_r. Qed.
(* All kinds of strings and collections, written into six bytes, and into a large buffer. *)
Definition sink_text : bytes := b "# head
a: 'it''s' # say
b: [x, ""q\n"", {k: ~, l: 1}]
c:
- |
  one
-  true
".
Example C51_case_short : exists doc, from_slice idhash sink_text = Ok doc /\ built idhash doc /\ write_to_sink (room 20) bytewise doc [] = Ok (b "# head
a: 'it''s' # ", Some tt).
Proof. eexists. split; [vm_compute; reflexivity|]. split; [apply (built_parse _ _ _ sink_text); [exact Logic.I|vm_compute; reflexivity]|vm_compute; reflexivity]. Qed.
Example C51_case_long : exists doc, from_slice idhash sink_text = Ok doc /\ write_to_sink (room 200) (fun s => [s]) doc [] = Ok (sink_text, None) /\ display_sink (room 200) bytewise doc [] = Ok (sink_text, None).
Proof. eexists. split; [vm_compute; reflexivity|]. split; vm_compute; reflexivity. Qed.
(* The calls of an edited string, by a sink that notes them: a quote, the pieces between the
   escapes and the escapes. *)
Definition notes (w : list bytes) (c : bytes) : list bytes * option unit := (w ++ [c], None).
Example C51_case_double : exists doc d', from_slice idhash (b "x") = Ok doc /\ run idhash (doc_root doc) (SetString (b "it's" ++ [10; 1] ++ b "ok")) (doc_data doc) = Ok (Done, d') /\
  write_to_sink notes (fun s => [s]) (edited doc d') [] = Ok ([[]; b """"; b "it's"; b "\n"; []; b "\x01"; b "ok"; b """"; []], None) /\
  display_sink notes (fun s => [s]) (edited doc d') [] = Ok ([[]; b """"; b "it's\n"; b "\x01"; b "ok"; b """"; []], None).
Proof. eexists. eexists. split; [vm_compute; reflexivity|]. split; [vm_compute; reflexivity|]. split; vm_compute; reflexivity. Qed.
Example C51_case_single : exists doc d', from_slice idhash (b "x") = Ok doc /\ run idhash (doc_root doc) (SetStringWith (b "it's: ok") SSingle) (doc_data doc) = Ok (Done, d') /\
  write_to_sink notes (fun s => [s]) (edited doc d') [] = Ok ([[]; b "'"; b "it"; b "''"; b "s: ok"; b "'"; []], None).
Proof. eexists. eexists. split; [vm_compute; reflexivity|]. split; [vm_compute; reflexivity|]. vm_compute; reflexivity. Qed.
(* Invalid bytes between escapes are shown as replacement characters. *)
Example C51_case_invalid : exists doc d', from_slice idhash (b "x") = Ok doc /\ run idhash (doc_root doc) (SetStringWith ([226; 130] ++ [10] ++ [255]) SDouble) (doc_data doc) = Ok (Done, d') /\
  display_sink notes (fun s => [s]) (edited doc d') [] = Ok ([[]; b """"; replacement ++ b "\n"; replacement; b """"; []], None).
Proof. eexists. eexists. split; [vm_compute; reflexivity|]. split; [vm_compute; reflexivity|]. vm_compute; reflexivity. Qed.
Print Assumptions C51_calls.
Print Assumptions C51_display_calls.
Print Assumptions C51_value_calls.
Print Assumptions C51_beginning.
Print Assumptions C51_display_beginning.
Print Assumptions C51_room.
Print Assumptions C51_display_room.
Print Assumptions C51_fine.
Print Assumptions C51_error.
Print Assumptions C51_cut.
