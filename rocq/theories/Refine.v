(* The model of the parser computes the abstract parse: same outcome, and on success the
   store models the tree. *)
From Coq Require Import List NArith Bool Arith Lia Permutation.
From Verif Require Import Bytes Utf8 Data Slab Parser Tree Abs.
Import ListNotations.
Local Open Scope N_scope.

Section Refine.
Variable hash : bytes -> sid.
Variable input : bytes.
Local Notation len := (length input).
Local Notation cells := (cells hash).
Local Notation scells := (scells hash).
Local Notation mcells := (mcells hash).
Local Notation logged := (logged hash).

(* The slab holds exactly F and has no free slots. *)
Definition packed (s : slab) (F : list (nat * entry)) : Prop := has s F /\ length (sl_entries s) = length F.
(* The strings L are interned, the slab holds exactly F, the scratch buffer is sc. *)
Definition St (L : list bytes) (sc : bytes) (F : list (nat * entry)) (s : pst) : Prop :=
  packed (d_slab (p_data s)) F /\ table_ok hash (p_data s) /\
  Forall (logged (p_data s)) L /\ p_scratch s = sc.

Lemma St_incl L L' sc F s : incl L' L -> St L sc F s -> St L' sc F s.
Proof.
  intros I (H & T & A & S). repeat split; auto; try apply H.
  rewrite Forall_forall in *. auto.
Qed.
Lemma St_perm L sc F F' s : Permutation F F' -> St L sc F s -> St L sc F' s.
Proof.
  intros P (H & T & A & S). split; [|repeat split; auto]. split; [eapply has_perm; [exact P|apply H]|]. rewrite (proj2 H). now apply Permutation_length.
Qed.

(* Two strings with the same hash. *)
Definition collides : Prop := exists u v : bytes, u <> v /\ hash u = hash v.
Definition sim {A B} (m : M A) (am : AM B) (s : pst) (Q : A -> B -> pst -> Prop) : Prop :=
  match am (p_n s), m s with
  | Ok (y, n), Ok (x, s') => p_n s' = n /\ Q x y s'
  | Err x y k, Err x' y' k' => (x' = x \/ (x' <= y)%nat /\ k = BadSequenceTerminator /\ collides) /\ y = y' /\ k = k'
  | Hang, Hang => True
  | OutOfFuel, OutOfFuel => True
  | _, _ => False
  end.

Lemma sim_bind {A B C D} (m : M A) (am : AM B) (f : A -> M C) (g : B -> AM D) s Q1 Q :
  sim m am s Q1 -> (forall x y s', Q1 x y s' -> sim (f x) (g y) s' Q) ->
  sim (bind m f) (bind am g) s Q.
Proof.
  unfold sim, bind. intros H1 H2.
  destruct (am (p_n s)) as [[y n]|x y k| | |]; destruct (m s) as [[x' s']|x' y' k'| | |]; try tauto.
  destruct H1 as [<- H1]. specialize (H2 _ _ _ H1). exact H2.
Qed.
(* A step of the model that leaves the cursor alone and has no counterpart. *)
Lemma sim_left {A C D} (m : M A) (f : A -> M C) (am : AM D) s s' x Q :
  m s = Ok (x, s') -> p_n s' = p_n s -> sim (f x) am s' Q -> sim (bind m f) am s Q.
Proof. unfold sim, bind. intros -> <-. auto. Qed.
Lemma sim_ret {A B} (x : A) (y : B) s (Q : A -> B -> pst -> Prop) : Q x y s -> sim (ret x) (ret y) s Q.
Proof. unfold sim, ret. auto. Qed.
Lemma sim_mono {A B} (m : M A) (am : AM B) s (Q1 Q : A -> B -> pst -> Prop) :
  sim m am s Q1 -> (forall x y s', Q1 x y s' -> Q x y s') -> sim m am s Q.
Proof.
  unfold sim. intros H1 H2.
  destruct (am (p_n s)) as [[y n]|x y k| | |]; destruct (m s) as [[x' s']|x' y' k'| | |]; try tauto.
  destruct H1; auto.
Qed.

(* Steps that read the cursor or the input. *)
Lemma sim_get {C D} (f : nat -> M C) (g : nat -> AM D) s Q :
  sim (f (p_n s)) (g (p_n s)) s Q -> sim (bind get_n f) (bind a_get g) s Q.
Proof. intros H; exact H. Qed.
Lemma sim_rest {C D} (f : bytes -> M C) (g : bytes -> AM D) s Q :
  sim (f (skipn (p_n s) input)) (g (skipn (p_n s) input)) s Q -> sim (bind (rest input) f) (bind (a_rest input) g) s Q.
Proof. intros H; exact H. Qed.
Lemma sim_peek {C D} i (f : byte -> M C) (g : byte -> AM D) s Q :
  sim (f (nth (p_n s + i) input EOF)) (g (nth (p_n s + i) input EOF)) s Q ->
  sim (bind (peek_at input i) f) (bind (a_peek input i) g) s Q.
Proof. intros H; exact H. Qed.
Lemma sim_eof {C D} (f : bool -> M C) (g : bool -> AM D) s Q :
  sim (f (Nat.eqb (p_n s) len)) (g (Nat.eqb (p_n s) len)) s Q -> sim (bind (is_eof input) f) (bind (a_eof input) g) s Q.
Proof. intros H; exact H. Qed.
Lemma sim_string {C D} st (f : bytes -> M C) (g : bytes -> AM D) s Q :
  sim (f (slice input st (p_n s))) (g (slice input st (p_n s))) s Q ->
  sim (bind (string input st) f) (bind (a_string input st) g) s Q.
Proof. intros H; exact H. Qed.
Lemma sim_eol {C D} (f : bool -> M C) (g : bool -> AM D) s Q :
  sim (f (eol_scan (skipn (p_n s) input))) (g (eol_scan (skipn (p_n s) input))) s Q ->
  sim (bind (is_eol input) f) (bind (a_is_eol input) g) s Q.
Proof. intros H; exact H. Qed.
Lemma sim_indent {C D} (f : nat -> M C) (g : nat -> AM D) s Q :
  sim (f (indent_from input (p_n s))) (g (indent_from input (p_n s))) s Q ->
  sim (bind (indent input) f) (bind (a_indent input) g) s Q.
Proof. intros H; exact H. Qed.
(* Steps that move the cursor. *)
Definition at_n (n : nat) (s : pst) : pst := Pst n (p_scratch s) (p_data s).
Lemma sim_bump {C D} k (f : unit -> M C) (g : unit -> AM D) s Q :
  sim (f tt) (g tt) (at_n (Nat.min (p_n s + k) len) s) Q -> sim (bind (bump input k) f) (bind (a_bump input k) g) s Q.
Proof. intros H; exact H. Qed.
Lemma sim_set {C D} n (f : unit -> M C) (g : unit -> AM D) s Q :
  sim (f tt) (g tt) (at_n n s) Q -> sim (bind (set_n n) f) (bind (a_set n) g) s Q.
Proof. intros H; exact H. Qed.
Lemma sim_find {C D} c (f : unit -> M C) (g : unit -> AM D) s Q :
  (forall n, sim (f tt) (g tt) (at_n n s) Q) -> sim (bind (find input c) f) (bind (a_find input c) g) s Q.
Proof.
  intros H. unfold find, a_find, rest, a_rest, bind, sim.
  destruct (memchr c (skipn (p_n s) input)) as [k|].
  - exact (H _).
  - exact (H _).
Qed.
Lemma St_at L sc F n s : St L sc F (at_n n s) <-> St L sc F s.
Proof. reflexivity. Qed.

(* Steps on the store. *)
Lemma intern_St L sc F s x :
  St L sc F s -> exists s', intern hash x s = Ok (hash x, s') /\ p_n s' = p_n s /\ St (x :: L) sc F s'.
Proof.
  intros (H & T & A & S). unfold intern, lift.
  destruct (insert_str_ok hash x (p_data s) T) as (d & E & E1 & E2 & E3 & E4). rewrite E.
  eexists; split; [reflexivity|]. split; [reflexivity|]. unfold St. cbn [p_data p_scratch].
  rewrite E1. split; [exact H|]. split; [exact E2|]. split; [|exact S].
  constructor; [exact E4|]. revert A. apply Forall_impl. exact E3.
Qed.
Lemma sim_intern {C D} x (f : sid -> M C) (am : AM D) L sc F s Q :
  St L sc F s -> (forall s', St (x :: L) sc F s' -> p_n s' = p_n s -> sim (f (hash x)) am s' Q) ->
  sim (bind (intern hash x) f) am s Q.
Proof.
  intros H H'. destruct (intern_St _ _ _ _ x H) as (s' & E & N & H1).
  eapply sim_left; [exact E|exact N|]. now apply H'.
Qed.
Lemma sim_push {C D} x (f : unit -> M C) (am : AM D) L sc F s Q :
  St L sc F s -> (forall s', St L (sc ++ x) F s' -> p_n s' = p_n s -> sim (f tt) am s' Q) ->
  sim (bind (push_scratch x) f) am s Q.
Proof.
  intros (H & T & A & S) H'. eapply sim_left; [reflexivity|reflexivity|]. apply H'; [|reflexivity].
  repeat split; auto; try apply H. cbn. now rewrite S.
Qed.
Lemma sim_scratch {C D} (f : bytes -> M C) (am : AM D) L sc F s Q :
  St L sc F s -> sim (f sc) am s Q -> sim (bind get_scratch f) am s Q.
Proof. intros (H & T & A & S) H'. eapply sim_left; [reflexivity|reflexivity|]. now rewrite S. Qed.
Lemma sim_clear {C D} (f : unit -> M C) (am : AM D) L sc F s Q :
  St L sc F s -> (forall s', St L [] F s' -> p_n s' = p_n s -> sim (f tt) am s' Q) ->
  sim (bind clear_scratch f) am s Q.
Proof.
  intros (H & T & A & S) H'. eapply sim_left; [reflexivity|reflexivity|]. apply H'; [|reflexivity].
  repeat split; auto; apply H.
Qed.
Lemma sim_insert {C D} r p par (f : nat -> M C) (am : AM D) L sc F s Q :
  St L sc F s ->
  (forall id s', St L sc ((id, Entry r p par) :: F) s' -> p_n s' = p_n s -> sim (f id) am s' Q) ->
  sim (bind (lift (insert r p par)) f) am s Q.
Proof.
  intros (H & T & A & S) H'. destruct (has_insert _ _ (Entry r p par) (proj1 H)) as (k & sl & E & H1).
  assert (P1 : packed sl ((k, Entry r p par) :: F)).
  { split; [exact H1|]. rewrite (has_grow _ _ _ _ _ (proj1 H) E), (proj2 H). cbn. lia. }
  eapply sim_left with (s' := Pst (p_n s) (p_scratch s) (set_slab (p_data s) sl)).
  - unfold lift, insert. rewrite E. reflexivity.
  - reflexivity.
  - apply H'; [|reflexivity]. split; [exact P1|]. repeat split; auto.
Qed.
Lemma sim_replace {C D} id r sc0 p par (f : unit -> M C) (am : AM D) L sc F s Q :
  St L sc ((id, Entry (RScalar sc0) p par) :: F) s ->
  (forall s', St L sc ((id, Entry r p par) :: F) s' -> p_n s' = p_n s -> sim (f tt) am s' Q) ->
  sim (bind (lift (replace id r)) f) am s Q.
Proof.
  intros (H & T & A & S) H'.
  assert (H1 : packed (slab_set (d_slab (p_data s)) id (Entry r p par)) ((id, Entry r p par) :: F)).
  { split; [exact (has_set _ _ _ _ (Entry r p par) (proj1 H))|]. rewrite slab_set_length. exact (proj2 H). }
  assert (G : slab_get (d_slab (p_data s)) id = Some (Entry (RScalar sc0) p par)).
  { eapply has_get; [exact (proj1 H)|now left]. }
  eapply sim_left with (s' := Pst (p_n s) (p_scratch s) (set_slab (p_data s) (slab_set (d_slab (p_data s)) id (Entry r p par)))).
  - unfold lift, replace. rewrite G. reflexivity.
  - reflexivity.
  - apply H'; [|reflexivity]. split; [exact H1|]. repeat split; auto.
Qed.
Lemma sim_replace_with {C D} id q r sc0 p par (f : unit -> M C) (am : AM D) L sc F s Q :
  St L sc ((id, Entry (RScalar sc0) p par) :: F) s ->
  (forall s', St L sc ((id, Entry r q par) :: F) s' -> p_n s' = p_n s -> sim (f tt) am s' Q) ->
  sim (bind (lift (replace_with id q r)) f) am s Q.
Proof.
  intros (H & T & A & S) H'.
  assert (H1 : packed (slab_set (d_slab (p_data s)) id (Entry r q par)) ((id, Entry r q par) :: F)).
  { split; [exact (has_set _ _ _ _ (Entry r q par) (proj1 H))|]. rewrite slab_set_length. exact (proj2 H). }
  assert (G : slab_get (d_slab (p_data s)) id = Some (Entry (RScalar sc0) p par)).
  { eapply has_get; [exact (proj1 H)|now left]. }
  eapply sim_left with (s' := Pst (p_n s) (p_scratch s) (set_slab (p_data s) (slab_set (d_slab (p_data s)) id (Entry r q par)))).
  - unfold lift, replace_with. rewrite G. reflexivity.
  - reflexivity.
  - apply H'; [|reflexivity]. split; [exact H1|]. repeat split; auto.
Qed.

(* incl goals over concrete lists *)
Ltac incl := let x := fresh in intros x; unfold rs_strings, sc_strings in *; cbn [rs_kind rs_id rs_orig app] in *; rewrite ?in_app_iff in *; cbn [In] in *; rewrite ?in_app_iff in *; tauto.

(* ---- lexical functions ---- *)
Definition Qstr (L : list bytes) sc F (x : sid) (y : bytes) (s : pst) : Prop :=
  x = hash y /\ St (y :: L) sc F s.

Lemma sim_ws_nl L sc F s : St L sc F s ->
  sim (ws_nl hash input) (a_ws_nl input) s
    (fun x y s' => fst x = hash (fst y) /\ snd x = snd y /\ St (fst y :: L) sc F s').
Proof.
  intros H. unfold ws_nl, a_ws_nl. apply sim_get, sim_rest.
  destruct (ws_scan false (skipn (p_n s) input)) as [k nl].
  apply sim_bump, sim_string. eapply sim_intern; [exact H|]. intros s' H' N.
  cbn [p_n at_n] in *. apply sim_ret. cbn. auto.
Qed.
Lemma sim_ws L sc F s : St L sc F s -> sim (ws hash input) (a_ws input) s (Qstr L sc F).
Proof.
  intros H. unfold ws, a_ws. eapply sim_bind; [eapply sim_ws_nl, H|].
  intros [x nl] [y nl'] s' (E1 & E2 & H'). cbn in *. subst. apply sim_ret. split; auto.
Qed.
Lemma sim_or_ws o L sc F s :
  St L sc F s -> (forall y, o = Some y -> In y L) ->
  sim (or_ws hash input (option_map hash o)) (a_or_ws input o) s (Qstr L sc F).
Proof.
  intros H I. destruct o as [y|]; cbn.
  - apply sim_ret. split; auto. eapply St_incl; [|exact H].
    intros z [<-|Z]; auto.
  - now apply sim_ws.
Qed.

Lemma sim_number st tab start L sc F s : St L sc F s -> st_tabular st = tab ->
  sim (number hash input st start) (a_number input tab start) s
    (fun x y s' => x = option_map (scmap hash) y /\
       St (match y with Some r => sc_strings r | None => [] end ++ L) sc F s').
Proof.
  intros H <-. unfold number, a_number. apply sim_peek.
  set (c := nth (p_n s + 0) input EOF).
  eapply sim_bind with (Q1 := fun _ _ s' => St L sc F s').
  - destruct (c =? DASH); cbn; unfold sim; cbn; auto.
  - intros u1 u2 s1 H1. apply sim_rest.
    destruct (num_scan true true false (skipn (p_n s1) input)) as [k fl].
    apply sim_bump. destruct (Nat.eqb k 0); [apply sim_ret; cbn; auto|].
    apply sim_eol. destruct (st_tabular st && negb _); [apply sim_ret; cbn; auto|].
    apply sim_string. eapply sim_intern; [exact H1|]. intros s' H' N.
    apply sim_ret. cbn. auto.
Qed.

Definition Qrs L sc F (x : rstr sid) (y : rstr bytes) (s : pst) : Prop :=
  x = rsmap hash y /\ St (rs_strings y ++ L) sc F s.

Lemma sim_single_quoted_escaped st og L F s : St L [] F s ->
  sim (single_quoted_escaped hash input st og) (a_single_quoted_escaped input st og) s (Qrs L [] F).
Proof.
  intros H. unfold single_quoted_escaped, a_single_quoted_escaped. apply sim_string.
  set (x := slice input st (p_n s)).
  eapply sim_push; [exact H|]. intros s1 H1 N1. cbn [app] in *. apply sim_rest.
  destruct (sqe_scan (skipn (p_n s1) input)) as [[k o]|]; [|exact I].
  apply sim_bump. eapply sim_push; [exact H1|]. intros s2 H2 N2.
  eapply sim_scratch; [exact H2|]. eapply sim_intern; [exact H2|]. intros s3 H3 N3.
  eapply sim_clear; [exact H3|]. intros s4 H4 N4.
  apply sim_bump, sim_string. eapply sim_intern; [exact H4|]. intros s5 H5 N5.
  apply sim_ret. split; [reflexivity|]. eapply St_incl; [|exact H5]. incl.
Qed.
Lemma sim_single_quoted L F s : St L [] F s ->
  sim (single_quoted hash input) (a_single_quoted input) s (Qrs L [] F).
Proof.
  intros H. unfold single_quoted, a_single_quoted. apply sim_get, sim_bump, sim_get, sim_rest.
  destruct (sq_scan _) as [|k|k]; [exact I| |].
  - apply sim_bump, sim_string. eapply sim_intern; [exact H|]. intros s3 H3 N3.
    apply sim_eof, sim_bump, sim_string. eapply sim_intern; [exact H3|]. intros s5 H5 N5.
    apply sim_ret. split; [reflexivity|]. eapply St_incl; [|exact H5]. incl.
  - apply sim_bump. now apply sim_single_quoted_escaped.
Qed.

Lemma sim_unescape_digits st cnt err : forall c s L sc F, St L sc F s ->
  sim (unescape_digits input st cnt err c) (a_unescape_digits input st cnt err c) s
    (fun x y s' => x = y /\ St L sc F s').
Proof.
  induction cnt as [|cnt IH]; intros c s L sc F H; cbn [unescape_digits a_unescape_digits].
  - apply sim_ret; auto.
  - apply sim_peek. destruct (hex_value _) as [v|]; apply sim_bump.
    + now apply IH.
    + apply sim_get. unfold sim; cbn. auto.
Qed.
Lemma sim_unescape_unicode st cnt err s L sc F : St L sc F s ->
  sim (unescape_unicode input st cnt err) (a_unescape_unicode input st cnt err) s
    (fun _ y s' => St L (sc ++ y) F s').
Proof.
  intros H. unfold unescape_unicode, a_unescape_unicode.
  eapply sim_bind; [eapply sim_unescape_digits; exact H|]. intros c c' s1 [<- H1].
  destruct (is_scalar_value c).
  - destruct H1 as (A1 & A2 & A3 & A4). unfold sim; cbn. split; [reflexivity|].
    repeat split; auto; try apply A1. cbn. now rewrite A4.
  - apply sim_get. unfold sim; cbn. auto.
Qed.
Lemma sim_unescape st s L sc F : St L sc F s ->
  sim (unescape input st) (a_unescape input st) s (fun _ y s' => St L (sc ++ y) F s').
Proof.
  intros H. unfold unescape, a_unescape. apply sim_peek.
  destruct (escape_char _) as [o|].
  - destruct H as (A1 & A2 & A3 & A4). unfold sim; cbn. split; [reflexivity|].
    repeat split; auto; try apply A1. cbn. now rewrite A4.
  - destruct (_ =? 120); [apply sim_bump; now apply sim_unescape_unicode|].
    destruct (_ =? 117); [apply sim_bump; now apply sim_unescape_unicode|].
    apply sim_bump, sim_get. unfold sim; cbn. auto.
Qed.
Lemma sim_dqe_loop f : forall s L sc F, St L sc F s ->
  sim (dqe_loop input f) (a_dqe_loop input f sc) s (fun _ y s' => St L y F s').
Proof.
  induction f as [|f IH]; intros s L sc F H; cbn [dqe_loop a_dqe_loop]; [exact I|].
  apply sim_peek. destruct (_ || _); [apply sim_ret; exact H|].
  destruct (_ =? BACKSLASH).
  - apply sim_get, sim_bump. eapply sim_bind; [eapply sim_unescape; exact H|].
    intros u y s' H'. now apply IH.
  - eapply sim_push; [exact H|]. intros s1 H1 N1. apply sim_bump. now apply IH.
Qed.
Lemma sim_double_quoted_escaped st og L F s : St L [] F s ->
  sim (double_quoted_escaped hash input st og) (a_double_quoted_escaped input st og) s (Qrs L [] F).
Proof.
  intros H. unfold double_quoted_escaped, a_double_quoted_escaped. apply sim_string.
  eapply sim_push; [exact H|]. intros s1 H1 N1. cbn [app] in *.
  eapply sim_bind; [eapply sim_dqe_loop; exact H1|]. intros u y s2 H2.
  eapply sim_scratch; [exact H2|]. eapply sim_intern; [exact H2|]. intros s3 H3 N3.
  eapply sim_clear; [exact H3|]. intros s4 H4 N4.
  apply sim_bump, sim_string. eapply sim_intern; [exact H4|]. intros s5 H5 N5.
  apply sim_ret. split; [reflexivity|]. eapply St_incl; [|exact H5]. incl.
Qed.
Lemma sim_double_quoted L F s : St L [] F s ->
  sim (double_quoted hash input) (a_double_quoted input) s (Qrs L [] F).
Proof.
  intros H. unfold double_quoted, a_double_quoted. apply sim_get, sim_bump, sim_get, sim_rest.
  destruct (dq_scan _) as [k [|]]; apply sim_bump.
  - now apply sim_double_quoted_escaped.
  - apply sim_string. eapply sim_intern; [exact H|]. intros s3 H3 N3.
    apply sim_eof, sim_bump, sim_string. eapply sim_intern; [exact H3|]. intros s5 H5 N5.
    apply sim_ret. split; [reflexivity|]. eapply St_incl; [|exact H5]. incl.
Qed.

Definition Qkey L sc F (x : option (rstr sid)) (y : option (rstr bytes)) (s : pst) : Prop :=
  x = option_map (rsmap hash) y /\
  St (match y with Some r => rs_strings r | None => [] end ++ L) sc F s.
Lemma sim_key_or_eol st L sc F s : St L sc F s ->
  sim (key_or_eol hash input st) (a_key_or_eol input st) s (Qkey L sc F).
Proof.
  intros H. unfold key_or_eol, a_key_or_eol. apply sim_rest.
  destruct (key_scan _) as [k [|]]; apply sim_bump.
  - apply sim_string. eapply sim_intern; [exact H|]. intros s1 H1 N1.
    apply sim_ret. split; [reflexivity|]. eapply St_incl; [|exact H1]. incl.
  - apply sim_ret. split; auto.
Qed.
Lemma sim_until_colon st L sc F s : St L sc F s ->
  sim (until_colon hash input st) (a_until_colon input st) s (Qkey L sc F).
Proof.
  intros H. unfold until_colon, a_until_colon. apply sim_rest, sim_bump, sim_eof.
  destruct (Nat.eqb _ _).
  - apply sim_ret. split; auto.
  - apply sim_string. eapply sim_intern; [exact H|]. intros s1 H1 N1.
    apply sim_ret. split; [reflexivity|]. eapply St_incl; [|exact H1]. incl.
Qed.
Lemma sim_next_mapping_key L sc F s : St L sc F s ->
  sim (next_mapping_key hash input) (a_next_mapping_key input) s (Qkey L sc F).
Proof.
  intros H. unfold next_mapping_key, a_next_mapping_key. apply sim_get, sim_rest, sim_bump, sim_string.
  destruct (slice _ _ _) as [|c x].
  - apply sim_ret. split; auto.
  - eapply sim_intern; [exact H|]. intros s1 H1 N1.
    apply sim_ret. split; [reflexivity|]. eapply St_incl; [|exact H1]. incl.
Qed.

Lemma sim_block_loop f join folded ind : forall w nl stop s L acc F, St L acc F s -> In w L ->
  sim (block_loop hash input f join folded ind (hash w) nl stop)
      (a_block_loop input f join folded ind w nl stop acc) s
    (fun x y s' => let '(w1, nl1, stop1) := x in let '(w2, nl2, stop2, acc2) := y in
       w1 = hash w2 /\ nl1 = nl2 /\ stop1 = stop2 /\ St (w2 :: L) acc2 F s').
Proof.
  induction f as [|f IH]; intros w nl stop s L acc F H HI; cbn [block_loop a_block_loop]; [exact I|].
  apply sim_eof. destruct (Nat.eqb _ _).
  { apply sim_ret. repeat split; auto; try apply H. constructor; [|apply H].
    destruct H as (_ & _ & A & _). rewrite Forall_forall in A. auto. }
  apply sim_get, sim_find. intros n. apply sim_string.
  eapply sim_push; [exact H|]. intros s1 H1 N1. apply sim_get.
  eapply sim_bind; [eapply sim_ws_nl; exact H1|].
  intros [w1 nl1] [w2 nl2] s2 (E1 & E2 & H2). cbn [fst snd] in *. subst.
  apply sim_indent. destruct (_ <? _)%nat.
  - apply sim_ret. auto.
  - eapply sim_push; [exact H2|]. intros s3 H3 N3.
    eapply sim_mono; [eapply IH; [exact H3|now left]|].
    intros [[a1 a2] a3] [[[b1 b2] b3] b4] s4 (E1 & E2 & E3 & H4). repeat split; auto; try apply H4.
    eapply St_incl; [|exact H4]. incl.
Qed.
Lemma sim_block n join folded chomp clip L F s : St L [] F s ->
  sim (block hash input n join folded chomp clip) (a_block input n join folded chomp clip) s
    (fun x y s' => fst x = scmap hash (fst y) /\ snd x = option_map hash (snd y) /\
       St (match snd y with Some w => [w] | None => [] end ++ sc_strings (fst y) ++ L) [] F s').
Proof.
  intros H. unfold block, a_block. apply sim_get, sim_bump, sim_string.
  eapply sim_intern; [exact H|]. intros s1 H1 N1. apply sim_get.
  eapply sim_bind; [eapply sim_ws_nl; exact H1|].
  intros [w1 nl1] [w2 nl2] s2 (E1 & E2 & H2). cbn [fst snd] in *. subst.
  match type of H1 with St (?P :: _) _ _ _ => set (P0 := P) in * end.
  eapply sim_bind with (Q1 := fun x y s' => let '(w1, nl1) := x in let '(w2, nl2, acc) := y in
     w1 = hash w2 /\ nl1 = nl2 /\ St (w2 :: P0 :: L) acc F s').
  { destruct (Nat.eqb nl2 0).
    - apply sim_find. intros m. apply sim_string. eapply sim_push; [exact H2|]. intros s3 H3 N3.
      eapply sim_bind; [eapply sim_ws_nl; exact H3|].
      intros [w3 nl3] [w4 nl4] s4 (E1 & E2 & H4). cbn [fst snd] in *. subst.
      apply sim_eof. cbn [app] in *.
      destruct (Nat.eqb _ _).
      + apply sim_ret. rewrite app_nil_r. repeat split; auto; try apply H4.
        eapply St_incl; [|exact H4]. incl.
      + eapply sim_left; [reflexivity|reflexivity|].
        apply sim_ret. repeat split; auto; try apply H4; cbn.
        * destruct H4 as (_ & _ & A & _). rewrite Forall_forall in *. cbn. intros z [<-|[<-|Z]]; apply A; cbn; auto.
        * destruct H4 as (_ & _ & _ & ->). reflexivity.
    - apply sim_ret. repeat split; auto; apply H2. }
  intros [w3 nl3] [[w4 nl4] acc] s3 (-> & -> & H3). apply sim_get, sim_indent.
  eapply sim_bind; [eapply sim_block_loop; [exact H3|now left]|].
  intros [[a1 a2] a3] [[[b1 b2] b3] b4] s4 (-> & -> & -> & H4).
  eapply sim_push; [exact H4|]. intros s5 H5 N5. eapply sim_scratch; [exact H5|].
  eapply sim_intern; [exact H5|]. intros s6 H6 N6. eapply sim_clear; [exact H6|]. intros s7 H7 N7.
  eapply sim_intern; [exact H7|]. intros s8 H8 N8.
  apply sim_ret. cbn. repeat split; auto; try apply H8.
  eapply St_incl; [|exact H8]. incl.
Qed.

(* ---- values ---- *)
Definition mshape (it : mitem nat) : mitem unit :=
  let '(_, ip, key, v) := it in (tt, ip, key, shape v).
Definition sshape (it : sitem nat) : sitem unit :=
  let '(_, ip, v) := it in (tt, ip, shape v).
Definition mstrings {I} (it : mitem I) : list bytes :=
  let '(_, ip, key, v) := it in ip :: rs_strings key ++ strings v.
Definition sstrings {I} (it : sitem I) : list bytes :=
  let '(_, ip, v) := it in ip :: strings v.

Definition state_rel (st : state) (ast : astate) : Prop :=
  st_prefix st = hash (as_prefix ast) /\ st_inline st = as_inline ast /\
  st_tabular st = as_tabular ast /\ st_parent_indent st = as_parent_indent ast.
Definition wlist (w : option bytes) : list bytes := match w with Some w => [w] | None => [] end.
Definition Qval (par : option nat) L F (x : nat * option sid) (y : tree unit * option bytes) (s : pst) : Prop :=
  exists t, fst y = shape t /\ fst x = tid t /\ snd x = option_map hash (snd y) /\
    St (wlist (snd y) ++ strings t ++ L) [] (cells par t ++ F) s.
Definition Qtree (par : option nat) L F (x : nat) (y : tree unit) (s : pst) : Prop :=
  exists t, y = shape t /\ x = tid t /\ St (strings t ++ L) [] (cells par t ++ F) s.

Lemma sim_finish st par pre r w L F s :
  St L [] F s -> st_prefix st = hash pre -> st_parent st = par ->
  incl (wlist w ++ pre :: sc_strings r) L ->
  sim (finish st (scmap hash r) (option_map hash w)) (ret (TLeaf tt pre r, w)) s (Qval par L F).
Proof.
  intros H E1 E2 I. unfold finish. eapply sim_insert; [exact H|]. intros id s1 H1 N1.
  apply sim_ret. exists (TLeaf id pre r). cbn [fst snd shape tmap tid]. do 3 (split; [reflexivity|]).
  assert (C : cells par (TLeaf id pre r) = [(id, Entry (RScalar (scmap hash r)) (st_prefix st) (st_parent st))])
    by (cbn; unfold tentry; cbn; rewrite E1, E2; reflexivity).
  rewrite C. eapply St_incl; [|exact H1].
  intros x X. rewrite in_app_iff in X. cbn in X. rewrite in_app_iff in X.
  assert (In x L \/ In x (wlist w ++ pre :: sc_strings r)) as [Y|Y]; auto.
  rewrite in_app_iff. cbn. tauto.
Qed.

Section Value.
Variable value : state -> M (nat * option sid).
Variable avalue : astate -> AM (tree unit * option bytes).
Hypothesis value_ok : forall st ast L F s,
  state_rel st ast -> In (as_prefix ast) L -> St L [] F s ->
  sim (value st) (avalue ast) s (Qval (st_parent st) L F).

Lemma mstrings_flat {I} (its : list (mitem I)) :
  flat_map (fun '(_, ip, key, v) => ip :: rs_strings key ++ strings v) its = flat_map mstrings its.
Proof. apply flat_map_ext. intros [[[? ?] ?] ?]; reflexivity. Qed.
Lemma sstrings_flat {I} (its : list (sitem I)) :
  flat_map (fun '(_, ip, v) => ip :: strings v) its = flat_map sstrings its.
Proof. apply flat_map_ext. intros [[? ?] ?]; reflexivity. Qed.
Lemma shape_map id p n k its : shape (TMap id p n k its) = TMap tt p n k (map mshape its).
Proof. reflexivity. Qed.
Lemma shape_seq id p n k its : shape (TSeq id p n k its) = TSeq tt p n k (map sshape its).
Proof. reflexivity. Qed.

Lemma sim_iseq_loop f : forall id pre par its last tr ip L F s,
  In ip L -> incl (flat_map sstrings its) L ->
  St L [] ((id, Entry (RScalar (ScNull NEmpty)) pre par) :: flat_map (scells id) its ++ F) s ->
  sim (iseq_loop hash input value f id (map sitem_id its) last tr (hash ip))
      (a_iseq_loop input avalue f (map sshape its) last tr ip) s
    (fun x y s' => let '(items, tr1, p1) := x in let '(aitems, tr2, p2) := y in
       exists its' L', items = map sitem_id its' /\ aitems = map sshape its' /\ tr1 = tr2 /\ p1 = hash p2 /\
         incl L L' /\ In p2 L' /\ incl (flat_map sstrings its') L' /\
         St L' [] ((id, Entry (RScalar (ScNull NEmpty)) pre par) :: flat_map (scells id) its' ++ F) s').
Proof.
  induction f as [|f IH]; intros id pre par its last tr ip L F s Hip Hits H;
    cbn [iseq_loop a_iseq_loop]; [exact I|].
  apply sim_peek. destruct (_ || _).
  { apply sim_ret. exists its, L. repeat split; auto; try apply H. apply incl_refl. }
  unfold placeholder. eapply sim_insert; [exact H|]. intros item s1 H1 N1.
  eapply sim_bind; [eapply sim_ws; exact H1|]. intros vp vp' s2 (-> & H2).
  eapply sim_bind.
  { eapply value_ok with (ast := AState vp' true false None); [repeat split| |exact H2]; now left. }
  intros [v np] [t np'] s3 (tv & E1 & E2 & E3 & H3). cbn [fst snd st_parent] in *. subst.
  eapply sim_replace.
  { eapply St_perm; [|exact H3]. symmetry; apply Permutation_middle. }
  intros s4 H4 N4.
  set (its' := its ++ [(item, ip, tv)]).
  replace (map sitem_id its ++ [item]) with (map sitem_id its') by (unfold its'; rewrite map_app; reflexivity).
  replace (map sshape its ++ [(tt, ip, shape tv)]) with (map sshape its') by (unfold its'; rewrite map_app; reflexivity).
  set (L4 := wlist np' ++ strings tv ++ vp' :: L) in *.
  assert (P4 : St L4 [] ((id, Entry (RScalar (ScNull NEmpty)) pre par) :: flat_map (scells id) its' ++ F) s4).
  { eapply St_perm; [|exact H4]. unfold its'. rewrite flat_map_app. cbn [flat_map scells]. rewrite app_nil_r.
    rewrite <- app_assoc. cbn [app].
    etransitivity; [apply perm_skip; symmetry; apply Permutation_middle|].
    etransitivity; [apply perm_swap|]. apply perm_skip.
    etransitivity; [|apply Permutation_middle]. apply perm_skip.
    rewrite !app_assoc. apply Permutation_app_tail. apply Permutation_app_comm. }
  assert (I4 : incl (flat_map sstrings its') L4).
  { unfold its'. rewrite flat_map_app. cbn [flat_map sstrings]. rewrite app_nil_r.
    intros x. rewrite in_app_iff. cbn. unfold L4. rewrite !in_app_iff. cbn. intros [X|[X|X]]; auto.
    subst; auto. }
  assert (IL : incl L L4) by (unfold L4; incl).
  assert (W4 : forall y, np' = Some y -> In y L4) by (intros y ->; unfold L4; cbn; auto).
  assert (FIN : forall s5 p, St (p :: L4) [] ((id, Entry (RScalar (ScNull NEmpty)) pre par) :: flat_map (scells id) its' ++ F) s5 ->
     exists its'' L', map sitem_id its' = map sitem_id its'' /\ map sshape its' = map sshape its'' /\ false = false /\ hash p = hash p /\
         incl L L' /\ In p L' /\ incl (flat_map sstrings its'') L' /\
         St L' [] ((id, Entry (RScalar (ScNull NEmpty)) pre par) :: flat_map (scells id) its'' ++ F) s5).
  { intros s5 p H5. exists its', (p :: L4). repeat split; auto; try apply H5.
    - intros x X; right; auto.
    - now left.
    - intros x X; right; auto. }
  assert (REC : forall s5 p last tr, St (p :: L4) [] ((id, Entry (RScalar (ScNull NEmpty)) pre par) :: flat_map (scells id) its' ++ F) s5 ->
    sim (iseq_loop hash input value f id (map sitem_id its') last tr (hash p))
      (a_iseq_loop input avalue f (map sshape its') last tr p) s5
    (fun x y s' => let '(items, tr1, p1) := x in let '(aitems, tr2, p2) := y in
       exists its' L', items = map sitem_id its' /\ aitems = map sshape its' /\ tr1 = tr2 /\ p1 = hash p2 /\
         incl L L' /\ In p2 L' /\ incl (flat_map sstrings its') L' /\
         St L' [] ((id, Entry (RScalar (ScNull NEmpty)) pre par) :: flat_map (scells id) its' ++ F) s')).
  { intros s5 p last' tr' H5. eapply sim_mono; [apply IH; [| |exact H5]; [now left|]|].
    - intros x X; right; auto.
    - intros [[a1 a2] a3] [[b1 b2] b3] s6 (its'' & L' & A1 & A2 & A3 & A4 & A5 & A6 & A7 & A8).
      exists its'', L'. repeat split; auto; try apply A8.
      intros x X. apply A5. right; auto. }
  destruct last.
  { eapply sim_bind; [eapply sim_or_ws; [exact P4|exact W4]|]. intros p p' s5 (-> & H5). apply sim_ret. auto. }
  apply sim_peek. destruct (_ =? COMMA).
  - apply sim_bump. eapply sim_bind; [eapply sim_or_ws; [exact P4|exact W4]|]. intros p p' s5 (-> & H5). auto.
  - eapply sim_bind; [eapply sim_or_ws; [exact P4|exact W4]|]. intros p p' s5 (-> & H5). auto.
Qed.

Lemma sim_inline_sequence st ast L F s :
  state_rel st ast -> In (as_prefix ast) L -> St L [] F s ->
  sim (inline_sequence hash input value st) (a_inline_sequence input avalue ast) s (Qtree (st_parent st) L F).
Proof.
  intros (R1 & _) HI H. unfold inline_sequence, a_inline_sequence, placeholder.
  eapply sim_insert; [exact H|]. intros id s1 H1 N1. apply sim_bump.
  eapply sim_bind; [eapply sim_ws; exact H1|]. intros p p' s2 (-> & H2).
  eapply sim_bind.
  { eapply sim_iseq_loop with (its := []); [|intros x []|exact H2]. now left. }
  intros [[items tr] p] [[aitems tr'] p2] s3 (its & L' & -> & -> & -> & -> & I1 & I2 & I3 & H3).
  apply sim_peek. destruct (negb _).
  - assert (LG : logged (p_data s3) p2).
    { destruct H3 as (_ & _ & A & _). rewrite Forall_forall in A. auto. }
    destruct (in_assoc hash _ _ _ LG) as [z E]. eapply sim_left.
    + unfold span_back, str. rewrite E. reflexivity.
    + reflexivity.
    + apply sim_get. unfold sim; cbn. split; [|auto]. destruct (list_eq_dec N.eq_dec z p2) as [->|NE]; [now left|].
      right. split; [lia|]. split; [reflexivity|]. exists z, p2. split; [exact NE|].
      destruct H3 as (_ & T & _). symmetry. apply T. now apply assoc_in.
  - apply sim_bump. eapply sim_replace; [exact H3|]. intros s4 H4 N4.
    apply sim_ret. exists (TSeq id (as_prefix ast) 0 (CInline tr' p2) its).
    split; [now rewrite shape_seq|]. split; [reflexivity|].
    eapply St_incl; [|rewrite R1 in H4; exact H4].
      intros x X. cbn in X. rewrite sstrings_flat, in_app_iff in X. destruct X as [<-|[<-|[X|X]]]; auto.
    + apply I1. right. auto.
    + apply I1. right. auto.
Qed.

Lemma sim_imap_loop f : forall id pre par its last tr start ip L F s,
  In ip L -> incl (flat_map mstrings its) L ->
  St L [] ((id, Entry (RScalar (ScNull NEmpty)) pre par) :: flat_map (mcells id) its ++ F) s ->
  sim (imap_loop hash input value f id (map mitem_id its) last tr start (hash ip))
      (a_imap_loop input avalue f (map mshape its) last tr start ip) s
    (fun x y s' => let '(items, tr1, p1, st1) := x in let '(aitems, tr2, p2, st2) := y in
       exists its' L', items = map mitem_id its' /\ aitems = map mshape its' /\ tr1 = tr2 /\ p1 = hash p2 /\ st1 = st2 /\
         incl L L' /\ In p2 L' /\ incl (flat_map mstrings its') L' /\
         St L' [] ((id, Entry (RScalar (ScNull NEmpty)) pre par) :: flat_map (mcells id) its' ++ F) s').
Proof.
  induction f as [|f IH]; intros id pre par its last tr start ip L F s Hip Hits H;
    cbn [imap_loop a_imap_loop]; [exact I|].
  apply sim_peek. destruct (_ || _).
  { apply sim_ret. exists its, L. repeat split; auto; try apply H. apply incl_refl. }
  apply sim_get.
  eapply sim_bind; [eapply sim_until_colon; exact H|].
  intros ky key s0 (-> & H0). destruct key as [key|]; cbn [option_map].
  2: { apply sim_get. unfold sim; cbn. auto. }
  unfold placeholder. eapply sim_insert; [exact H0|]. intros item s1 H1 N1.
  apply sim_bump.
  eapply sim_bind; [eapply sim_ws; exact H1|]. intros vp vp' s2 (-> & H2).
  eapply sim_bind.
  { eapply value_ok with (ast := AState vp' true false None); [repeat split| |exact H2]; now left. }
  intros [v np] [t np'] s3 (tv & E1 & E2 & E3 & H3). cbn [fst snd st_parent] in *. subst.
  eapply sim_replace.
  { eapply St_perm; [|exact H3]. symmetry; apply Permutation_middle. }
  intros s4 H4 N4.
  set (its' := its ++ [(item, ip, key, tv)]).
  replace (map mitem_id its ++ [item]) with (map mitem_id its') by (unfold its'; rewrite map_app; reflexivity).
  replace (map mshape its ++ [(tt, ip, key, shape tv)]) with (map mshape its') by (unfold its'; rewrite map_app; reflexivity).
  set (L4 := wlist np' ++ strings tv ++ vp' :: rs_strings key ++ L) in *.
  assert (P4 : St L4 [] ((id, Entry (RScalar (ScNull NEmpty)) pre par) :: flat_map (mcells id) its' ++ F) s4).
  { eapply St_perm; [|exact H4]. unfold its'. rewrite flat_map_app. cbn [flat_map mcells]. rewrite app_nil_r.
    rewrite <- app_assoc. cbn [app].
    etransitivity; [apply perm_skip; symmetry; apply Permutation_middle|].
    etransitivity; [apply perm_swap|]. apply perm_skip.
    etransitivity; [|apply Permutation_middle]. apply perm_skip.
    rewrite !app_assoc. apply Permutation_app_tail. apply Permutation_app_comm. }
  assert (I4 : incl (flat_map mstrings its') L4).
  { unfold its'. rewrite flat_map_app. cbn [flat_map mstrings]. rewrite app_nil_r.
    intros x. rewrite in_app_iff. cbn. unfold L4. rewrite !in_app_iff. cbn. rewrite !in_app_iff.
    intros [X|[X|[X|X]]]; [apply Hits in X| subst x | |]; tauto. }
  assert (IL : incl L L4) by (intros x X; unfold L4; rewrite !in_app_iff; cbn; rewrite in_app_iff; auto 10).
  assert (W4 : forall y, np' = Some y -> In y L4) by (intros y ->; unfold L4; cbn; auto).
  eapply sim_bind; [eapply sim_or_ws; [exact P4|exact W4]|]. intros p p' s5 (-> & H5).
  assert (REC : forall s5 p last tr st, St (p :: L4) [] ((id, Entry (RScalar (ScNull NEmpty)) pre par) :: flat_map (mcells id) its' ++ F) s5 ->
    sim (imap_loop hash input value f id (map mitem_id its') last tr st (hash p))
      (a_imap_loop input avalue f (map mshape its') last tr st p) s5
    (fun x y s' => let '(items, tr1, p1, st1) := x in let '(aitems, tr2, p2, st2) := y in
       exists its' L', items = map mitem_id its' /\ aitems = map mshape its' /\ tr1 = tr2 /\ p1 = hash p2 /\ st1 = st2 /\
         incl L L' /\ In p2 L' /\ incl (flat_map mstrings its') L' /\
         St L' [] ((id, Entry (RScalar (ScNull NEmpty)) pre par) :: flat_map (mcells id) its' ++ F) s')).
  { intros s6 p last' tr' st' H6. eapply sim_mono; [apply IH; [| |exact H6]; [now left|]|].
    - intros x X; right; auto.
    - intros [[[a1 a2] a3] a4] [[[b1 b2] b3] b4] s7 (its'' & L' & A1 & A2 & A3 & A4 & A5 & A6 & A7 & A8 & A9).
      exists its'', L'. repeat split; auto; try apply A9.
      intros x X. apply A6. right; auto. }
  destruct last.
  { apply sim_ret. exists its', (p' :: L4). repeat split; auto; try apply H5.
    - intros x X; right; auto.
    - now left.
    - intros x X; right; auto. }
  apply sim_peek. destruct (_ =? COMMA).
  - apply sim_bump, sim_get. eapply sim_bind; [eapply sim_ws; exact H5|]. intros q q' s6 (-> & H6).
    apply REC. eapply St_incl; [|exact H6]. incl.
  - apply sim_get. eapply sim_bind; [eapply sim_ws; exact H5|]. intros q q' s6 (-> & H6).
    apply REC. eapply St_incl; [|exact H6]. incl.
Qed.

Lemma sim_inline_mapping st ast L F s :
  state_rel st ast -> In (as_prefix ast) L -> St L [] F s ->
  sim (inline_mapping hash input value st) (a_inline_mapping input avalue ast) s (Qtree (st_parent st) L F).
Proof.
  intros (R1 & _) HI H. unfold inline_mapping, a_inline_mapping, placeholder.
  eapply sim_insert; [exact H|]. intros id s1 H1 N1. apply sim_bump, sim_get.
  eapply sim_bind; [eapply sim_ws; exact H1|]. intros p p' s2 (-> & H2).
  eapply sim_bind.
  { eapply sim_imap_loop with (its := []); [|intros x []|exact H2]. now left. }
  intros [[[items tr] p] start] [[[aitems tr'] p2] start'] s3 (its & L' & -> & -> & -> & -> & -> & I1 & I2 & I3 & H3).
  apply sim_peek. destruct (negb _).
  - apply sim_get. unfold sim; cbn. auto.
  - apply sim_bump. eapply sim_replace; [exact H3|]. intros s4 H4 N4.
    apply sim_ret. exists (TMap id (as_prefix ast) 0 (CInline tr' p2) its).
    split; [now rewrite shape_map|]. split; [reflexivity|].
    eapply St_incl; [|rewrite R1 in H4; exact H4].
    intros x X. cbn in X. rewrite mstrings_flat, in_app_iff in X. destruct X as [<-|[<-|[X|X]]]; auto.
    + apply I1. right. auto.
    + apply I1. right. auto.
Qed.

Lemma sim_seq_loop f : forall id ind pre par its ip L F s,
  In ip L -> incl (flat_map sstrings its) L ->
  St L [] ((id, Entry (RScalar (ScNull NEmpty)) pre par) :: flat_map (scells id) its ++ F) s ->
  sim (seq_loop hash input value f id ind (map sitem_id its) (hash ip))
      (a_seq_loop input avalue f ind (map sshape its) ip) s
    (fun x y s' => let '(items, p1) := x in let '(aitems, p2) := y in
       exists its' L', items = map sitem_id its' /\ aitems = map sshape its' /\ p1 = hash p2 /\
         incl L L' /\ In p2 L' /\ incl (flat_map sstrings its') L' /\
         St L' [] ((id, Entry (RScalar (ScNull NEmpty)) pre par) :: flat_map (scells id) its' ++ F) s').
Proof.
  induction f as [|f IH]; intros id ind pre par its ip L F s Hip Hits H;
    cbn [seq_loop a_seq_loop]; [exact I|].
  unfold placeholder. eapply sim_insert; [exact H|]. intros item s1 H1 N1. apply sim_bump.
  eapply sim_bind; [eapply sim_ws; exact H1|]. intros vp vp' s2 (-> & H2).
  eapply sim_bind.
  { eapply value_ok with (ast := AState vp' false true None); [repeat split| |exact H2]; now left. }
  intros [v np] [t np'] s3 (tv & E1 & E2 & E3 & H3). cbn [fst snd st_parent] in *. subst.
  eapply sim_replace.
  { eapply St_perm; [|exact H3]. symmetry; apply Permutation_middle. }
  intros s4 H4 N4.
  set (its' := its ++ [(item, ip, tv)]).
  replace (map sitem_id its ++ [item]) with (map sitem_id its') by (unfold its'; rewrite map_app; reflexivity).
  replace (map sshape its ++ [(tt, ip, shape tv)]) with (map sshape its') by (unfold its'; rewrite map_app; reflexivity).
  set (L4 := wlist np' ++ strings tv ++ vp' :: L) in *.
  assert (P4 : St L4 [] ((id, Entry (RScalar (ScNull NEmpty)) pre par) :: flat_map (scells id) its' ++ F) s4).
  { eapply St_perm; [|exact H4]. unfold its'. rewrite flat_map_app. cbn [flat_map scells]. rewrite app_nil_r.
    rewrite <- app_assoc. cbn [app].
    etransitivity; [apply perm_skip; symmetry; apply Permutation_middle|].
    etransitivity; [apply perm_swap|]. apply perm_skip.
    etransitivity; [|apply Permutation_middle]. apply perm_skip.
    rewrite !app_assoc. apply Permutation_app_tail. apply Permutation_app_comm. }
  assert (I4 : incl (flat_map sstrings its') L4).
  { unfold its'. rewrite flat_map_app. cbn [flat_map sstrings]. rewrite app_nil_r.
    intros x. rewrite in_app_iff. cbn. unfold L4. rewrite !in_app_iff. cbn. intros [X|[X|X]]; auto.
    subst; auto. }
  assert (IL : incl L L4) by (unfold L4; incl).
  assert (W4 : forall y, np' = Some y -> In y L4) by (intros y ->; unfold L4; cbn; auto).
  eapply sim_bind; [eapply sim_or_ws; [exact P4|exact W4]|]. intros p p' s5 (-> & H5).
  apply sim_indent, sim_peek. destruct (_ || _).
  - apply sim_ret. exists its', (p' :: L4). repeat split; auto; try apply H5.
    + intros x X; right; auto.
    + now left.
    + intros x X; right; auto.
  - eapply sim_mono; [apply IH; [| |exact H5]; [now left|]|].
    + intros x X; right; auto.
    + intros [a1 a2] [b1 b2] s6 (its'' & L' & A1 & A2 & A3 & A4 & A5 & A6 & A7).
      exists its'', L'. repeat split; auto; try apply A7.
      intros x X. apply A4. right; auto.
Qed.

Lemma sim_sequence st ast L F s :
  state_rel st ast -> In (as_prefix ast) L -> St L [] F s ->
  sim (sequence hash input value st) (a_sequence input avalue ast) s (Qval (st_parent st) L F).
Proof.
  intros (R1 & _) HI H. unfold sequence, a_sequence, placeholder.
  eapply sim_intern; [exact H|]. intros s0 H0 N0.
  eapply sim_insert; [exact H0|]. intros id s1 H1 N1. apply sim_indent.
  eapply sim_bind.
  { eapply sim_seq_loop with (its := []); [|intros x []|exact H1]. now left. }
  intros [items p] [aitems p2] s3 (its & L' & -> & -> & -> & I1 & I2 & I3 & H3).
  eapply sim_replace; [exact H3|]. intros s4 H4 N4.
  apply sim_ret. exists (TSeq id (as_prefix ast) (indent_from input (p_n s1)) CBlock its).
  cbn [fst snd option_map wlist]. split; [now rewrite shape_seq|]. do 2 (split; [reflexivity|]).
  eapply St_incl; [|rewrite R1 in H4; exact H4].
  { intros x X. cbn in X. rewrite sstrings_flat, in_app_iff in X. destruct X as [<-|[<-|[X|X]]]; auto.
    + apply I1. right. auto.
    + apply I1. right. auto. }
Qed.

Lemma sim_map_loop f : forall id ind pre par its start key ip L F s,
  In ip L -> incl (rs_strings key) L -> incl (flat_map mstrings its) L ->
  St L [] ((id, Entry (RScalar (ScNull NEmpty)) pre par) :: flat_map (mcells id) its ++ F) s ->
  sim (map_loop hash input value f id ind (map mitem_id its) start (rsmap hash key) (hash ip))
      (a_map_loop input avalue f ind (map mshape its) start key ip) s
    (fun x y s' => let '(items, p1) := x in let '(aitems, p2) := y in
       exists its' L', items = map mitem_id its' /\ aitems = map mshape its' /\ p1 = hash p2 /\
         incl L L' /\ In p2 L' /\ incl (flat_map mstrings its') L' /\
         St L' [] ((id, Entry (RScalar (ScNull NEmpty)) pre par) :: flat_map (mcells id) its' ++ F) s').
Proof.
  induction f as [|f IH]; intros id ind pre par its start key ip L F s Hip Hkey Hits H;
    cbn [map_loop a_map_loop]; [exact I|].
  apply sim_peek. destruct (negb _).
  { apply sim_bump, sim_get. unfold sim; cbn; auto. }
  unfold placeholder. eapply sim_insert; [exact H|]. intros item s1 H1 N1. apply sim_bump.
  eapply sim_bind; [eapply sim_ws; exact H1|]. intros vp vp' s2 (-> & H2).
  eapply sim_bind.
  { eapply value_ok with (ast := AState vp' false true (Some ind)); [repeat split| |exact H2]; now left. }
  intros [v np] [t np'] s3 (tv & E1 & E2 & E3 & H3). cbn [fst snd st_parent] in *. subst.
  eapply sim_replace.
  { eapply St_perm; [|exact H3]. symmetry; apply Permutation_middle. }
  intros s4 H4 N4.
  set (its' := its ++ [(item, ip, key, tv)]).
  replace (map mitem_id its ++ [item]) with (map mitem_id its') by (unfold its'; rewrite map_app; reflexivity).
  replace (map mshape its ++ [(tt, ip, key, shape tv)]) with (map mshape its') by (unfold its'; rewrite map_app; reflexivity).
  set (L4 := wlist np' ++ strings tv ++ vp' :: L) in *.
  assert (P4 : St L4 [] ((id, Entry (RScalar (ScNull NEmpty)) pre par) :: flat_map (mcells id) its' ++ F) s4).
  { eapply St_perm; [|exact H4]. unfold its'. rewrite flat_map_app. cbn [flat_map mcells]. rewrite app_nil_r.
    rewrite <- app_assoc. cbn [app].
    etransitivity; [apply perm_skip; symmetry; apply Permutation_middle|].
    etransitivity; [apply perm_swap|]. apply perm_skip.
    etransitivity; [|apply Permutation_middle]. apply perm_skip.
    rewrite !app_assoc. apply Permutation_app_tail. apply Permutation_app_comm. }
  assert (IL : incl L L4) by (unfold L4; incl).
  assert (I4 : incl (flat_map mstrings its') L4).
  { unfold its'. rewrite flat_map_app. cbn [flat_map mstrings]. rewrite app_nil_r.
    intros x. rewrite in_app_iff. cbn. rewrite in_app_iff.
    intros [X|[X|[X|X]]]; auto. { subst; auto. } unfold L4. rewrite !in_app_iff. auto. }
  assert (W4 : forall y, np' = Some y -> In y L4) by (intros y ->; unfold L4; cbn; auto).
  eapply sim_bind; [eapply sim_or_ws; [exact P4|exact W4]|]. intros p p' s5 (-> & H5).
  apply sim_indent. destruct (negb _).
  { apply sim_ret. exists its', (p' :: L4). repeat split; auto; try apply H5.
    - intros x X; right; auto.
    - now left.
    - intros x X; right; auto. }
  apply sim_get. eapply sim_bind; [eapply sim_next_mapping_key; exact H5|].
  intros ky key' s6 (-> & H6). destruct key' as [key'|]; cbn [option_map].
  - eapply sim_mono; [apply IH; [| | |exact H6]|].
    + apply in_or_app; right; now left.
    + intros x X; apply in_or_app; now left.
    + intros x X; apply in_or_app; right; right; auto.
    + intros [a1 a2] [b1 b2] s7 (its'' & L' & A1 & A2 & A3 & A4 & A5 & A6 & A7).
      exists its'', L'. repeat split; auto; try apply A7.
      intros x X. apply A4. apply in_or_app; right; right; auto.
  - apply sim_ret. exists its', (p' :: L4). repeat split; auto; try apply H6.
    + intros x X; right; auto.
    + now left.
    + intros x X; right; auto.
Qed.

Lemma sim_mapping_or_nul st ast start key L F s :
  state_rel st ast -> In (as_prefix ast) L -> incl (rs_strings key) L -> St L [] F s ->
  sim (mapping_or_nul hash input value st start (rsmap hash key))
      (a_mapping_or_nul input avalue ast start key) s (Qval (st_parent st) L F).
Proof.
  intros (R1 & R2 & R3 & R4) HI HK H. unfold mapping_or_nul, a_mapping_or_nul, placeholder.
  eapply sim_intern; [exact H|]. intros s0 H0 N0.
  eapply sim_insert; [exact H0|]. intros id s1 H1 N1. rewrite R4.
  destruct (match as_parent_indent ast with Some i => _ | None => false end).
  - apply sim_set. eapply sim_replace_with; [exact H1|]. intros s2 H2 N2.
    apply sim_ret. exists (TLeaf id [] (ScNull NEmpty)). cbn [fst snd option_map wlist].
    rewrite R1. repeat split; try apply H2.
    destruct H2 as (_ & _ & A & _). rewrite Forall_forall in *. cbn in *.
    intros x [<-|[<-|X]]; auto.
  - eapply sim_bind.
    { eapply sim_map_loop with (its := []); [| |intros x []|exact H1]; [now left|].
      intros x X; right; auto. }
    intros [items p] [aitems p2] s3 (its & L' & -> & -> & -> & I1 & I2 & I3 & H3).
    eapply sim_replace; [exact H3|]. intros s4 H4 N4.
    apply sim_ret. exists (TMap id (as_prefix ast) (indent_from input start) CBlock its).
    cbn [fst snd option_map wlist]. split; [now rewrite shape_map|]. do 2 (split; [reflexivity|]).
    eapply St_incl; [|rewrite R1 in H4; exact H4].
    { intros x X. cbn in X. rewrite mstrings_flat, in_app_iff in X. destruct X as [<-|[<-|[X|X]]]; auto.
      * apply I1. right. auto.
      * apply I1. right. auto. }
Qed.

Lemma sim_plain x L sc F s : St L sc F s ->
  sim (plain hash x) (ret (a_plain x)) s
    (fun r r' s' => r = scmap hash r' /\ St (sc_strings r' ++ L) sc F s').
Proof.
  intros H. unfold plain, a_plain.
  destruct (beq x [TILDE]); [apply sim_ret; auto|].
  destruct (eq_ignore_case x kw_null); [eapply sim_intern; [exact H|]; intros s1 H1 _; apply sim_ret; auto|].
  destruct (eq_ignore_case x kw_true); [eapply sim_intern; [exact H|]; intros s1 H1 _; apply sim_ret; auto|].
  destruct (eq_ignore_case x kw_false); [eapply sim_intern; [exact H|]; intros s1 H1 _; apply sim_ret; auto|].
  eapply sim_intern; [exact H|]; intros s1 H1 _; apply sim_ret; split; [reflexivity|].
  eapply St_incl; [|exact H1]. intros z Z. cbn in *. tauto.
Qed.
Lemma sim_plain_finish st ast x L F s :
  state_rel st ast -> In (as_prefix ast) L -> St L [] F s ->
  sim (r <- plain hash x ;; finish st r None) (ret (TLeaf tt (as_prefix ast) (a_plain x), None)) s
    (Qval (st_parent st) L F).
Proof.
  intros (R1 & R) HI H.
  change (ret (TLeaf tt (as_prefix ast) (a_plain x), None))
    with (bind (ret (a_plain x) : AM (scalar bytes)) (fun r => ret (TLeaf tt (as_prefix ast) r, @None bytes))).
  eapply sim_bind; [eapply sim_plain; exact H|]. intros r r' s1 (-> & H1).
  eapply sim_mono; [eapply (sim_finish _ _ (as_prefix ast) r' None); [exact H1|exact R1|reflexivity|]|].
  - intros y. cbn. rewrite in_app_iff. intros [<-|Y]; auto.
  - intros a y s2 (t & E1 & E2 & E3 & H2). exists t. repeat split; auto; try apply H2.
    eapply St_incl; [|exact H2]. incl.
Qed.

Lemma Qval_incl par L L' F x y s : incl L L' -> Qval par L' F x y s -> Qval par L F x y s.
Proof.
  intros I (t & E1 & E2 & E3 & H). exists t. repeat split; auto; try apply H.
  eapply St_incl; [|exact H]. intros z. rewrite !in_app_iff. intros [|[|]]; auto.
Qed.

Lemma sim_value_body st ast L F s :
  state_rel st ast -> In (as_prefix ast) L -> St L [] F s ->
  sim (value_body hash input value st) (a_value_body input avalue ast) s (Qval (st_parent st) L F).
Proof.
  intros R HI H. pose proof R as (R1 & R2 & R3 & R4). unfold value_body, a_value_body.
  apply sim_peek, sim_peek. rewrite R2.
  destruct (_ && negb (as_inline ast)); [now apply sim_sequence|].
  destruct (_ =? DQUOTE).
  { apply sim_get. eapply sim_bind; [eapply sim_double_quoted; exact H|]. intros r r' s1 (-> & H1).
    apply sim_peek. destruct (_ && _).
    - eapply sim_mono; [eapply sim_mapping_or_nul; [exact R| | |exact H1]|].
      + apply in_or_app; auto.
      + intros x X; apply in_or_app; auto.
      + intros a y s2. apply Qval_incl. intros x X; apply in_or_app; auto.
    - eapply sim_mono; [eapply (sim_finish _ _ (as_prefix ast) (ScStr r') None); [exact H1|exact R1|reflexivity|]|].
      + intros y. cbn. rewrite in_app_iff. intros [<-|Y]; auto.
      + intros a y s2. apply Qval_incl. intros x X; apply in_or_app; auto. }
  destruct (_ =? SQUOTE).
  { apply sim_get. eapply sim_bind; [eapply sim_single_quoted; exact H|]. intros r r' s1 (-> & H1).
    apply sim_peek. destruct (_ && _).
    - eapply sim_mono; [eapply sim_mapping_or_nul; [exact R| | |exact H1]|].
      + apply in_or_app; auto.
      + intros x X; apply in_or_app; auto.
      + intros a y s2. apply Qval_incl. intros x X; apply in_or_app; auto.
    - eapply sim_mono; [eapply (sim_finish _ _ (as_prefix ast) (ScStr r') None); [exact H1|exact R1|reflexivity|]|].
      + intros y. cbn. rewrite in_app_iff. intros [<-|Y]; auto.
      + intros a y s2. apply Qval_incl. intros x X; apply in_or_app; auto. }
  destruct (_ =? LBRACK).
  { eapply sim_bind; [eapply sim_inline_sequence; [exact R|exact HI|exact H]|].
    intros x y s1 (t & -> & -> & H1). apply sim_ret. exists t. auto. }
  destruct (_ =? LBRACE).
  { eapply sim_bind; [eapply sim_inline_mapping; [exact R|exact HI|exact H]|].
    intros x y s1 (t & -> & -> & H1). apply sim_ret. exists t. auto. }
  destruct (_ || _).
  { eapply sim_bind; [eapply sim_block; exact H|]. intros [r w] [r' w'] s1 (E1 & E2 & H1).
    cbn [fst snd] in *. subst.
    eapply sim_mono; [eapply (sim_finish _ _ (as_prefix ast) r' w'); [exact H1|exact R1|reflexivity|]|].
    - intros y. unfold wlist. cbn. rewrite !in_app_iff. cbn. intros [Y|[<-|Y]]; auto.
    - intros a y s2. apply Qval_incl. intros x X; apply in_or_app; right; apply in_or_app; auto. }
  apply sim_get. eapply sim_bind; [eapply sim_number; [exact H|exact R3]|].
  intros r r' s1 (-> & H1). destruct r' as [r'|]; cbn [option_map].
  - eapply sim_mono; [eapply (sim_finish _ _ (as_prefix ast) r' None); [exact H1|exact R1|reflexivity|]|].
    + intros y. cbn. rewrite in_app_iff. intros [<-|Y]; auto.
    + intros a y s2. apply Qval_incl. intros x X; apply in_or_app; auto.
  - cbn [app] in H1. destruct (as_inline ast).
    + apply sim_rest, sim_bump, sim_string. apply sim_plain_finish; auto.
    + eapply sim_bind; [eapply sim_key_or_eol; exact H1|]. intros ky key s2 (-> & H2).
      destruct key as [key|]; cbn [option_map].
      * eapply sim_mono; [eapply sim_mapping_or_nul; [exact R| | |exact H2]|].
        -- apply in_or_app; auto.
        -- intros x X; apply in_or_app; auto.
        -- intros a y s3. apply Qval_incl. intros x X; apply in_or_app; auto.
      * apply sim_string. apply sim_plain_finish; auto.
Qed.
End Value.

Lemma sim_value f : forall st ast L F s,
  state_rel st ast -> In (as_prefix ast) L -> St L [] F s ->
  sim (value hash input f st) (a_value input f ast) s (Qval (st_parent st) L F).
Proof.
  induction f as [|f IH]; intros st ast L F s R HI H; cbn [value a_value]; [exact I|].
  eapply sim_value_body; eauto.
Qed.

Lemma sim_sod_loop f : forall p L sc F s, St L sc F s -> In p L ->
  sim (sod_loop hash input f (hash p)) (a_sod_loop input f p) s (Qstr L sc F).
Proof.
  induction f as [|f IH]; intros p L sc F s H HI; cbn [sod_loop a_sod_loop]; [exact I|].
  apply sim_peek, sim_peek, sim_peek.
  destruct (_ =? PERCENT).
  { apply sim_find. intros n. eapply sim_bind; [eapply sim_ws; exact H|]. intros q q' s1 (-> & H1).
    eapply sim_mono; [eapply IH; [exact H1|]; now left|].
    intros a y s2 (-> & H2). split; auto. eapply St_incl; [|exact H2]. incl. }
  destruct (_ && _).
  { apply sim_bump. now apply sim_ws. }
  apply sim_ret. split; auto. eapply St_incl; [|exact H]. intros x [<-|X]; auto.
Qed.

Definition Qdoc (x : document) (y : tree unit * bytes) (s : pst) : Prop :=
  exists t, fst y = shape t /\ models hash x t (snd y) /\ length (sl_entries (d_slab (doc_data x))) = slab_len (d_slab (doc_data x)).

Lemma table_ok_empty : table_ok hash data_empty.
Proof. intros k x E. destruct E. Qed.

Theorem sim_parse : sim (parse hash input) (a_parse_m input) (Pst 0 [] data_empty) Qdoc.
Proof.
  assert (H : St [] [] [] (Pst 0 [] data_empty)).
  { split; [split; [apply has_empty|reflexivity]|]. split; [apply table_ok_empty|]. split; [constructor|reflexivity]. }
  unfold parse, a_parse_m. eapply sim_bind with (Q1 := Qstr [] [] []).
  { unfold start_of_document, a_start_of_document.
    eapply sim_bind; [eapply sim_ws; exact H|]. intros p p' s1 (-> & H1).
    eapply sim_mono; [eapply sim_sod_loop; [exact H1|]; now left|].
    intros x y s2 (-> & H2). split; [reflexivity|]. eapply St_incl; [|exact H2]. incl. }
  intros p p' s1 (-> & H1). eapply sim_bind.
  { eapply sim_value with (ast := AState p' false true None); [repeat split| |exact H1]. now left. }
  intros [x o] [t o'] s2 (t' & E1 & E2 & E3 & H2). cbn [fst snd st_parent] in *. subst.
  eapply sim_bind.
  { eapply sim_or_ws; [exact H2|]. intros y ->. now left. }
  intros w w' s3 (-> & H3). apply sim_eof. destruct (Nat.eqb _ _); cbn [negb].
  2: { apply sim_get. unfold sim; cbn; auto. }
  unfold sim. cbn. split; [reflexivity|]. exists t'. split; [reflexivity|].
  destruct H3 as (A1 & A2 & A3 & A4). rewrite app_nil_r in A1. destruct A1 as [A1 AL].
  split; [|cbn [doc_data]; rewrite (has_len _ _ A1); exact AL]. repeat split; auto; try apply A1.
  - rewrite Forall_forall in *. intros x X. apply A3. right. rewrite !in_app_iff. auto.
  - now inversion A3.
Qed.

(* from_slice and the abstract parse agree. The start of one kind of error span is computed
   from the length of an interned string, hence the exception. *)
Theorem refine :
  match a_parse input, from_slice hash input with
  | Ok (t0, suffix), Ok doc => exists t, t0 = shape t /\ models hash doc t suffix
  | Err x y k, Err x' y' k' => (x' = x \/ (x' <= y)%nat /\ k = BadSequenceTerminator /\ collides) /\ y = y' /\ k = k'
  | Hang, Hang => True
  | OutOfFuel, OutOfFuel => True
  | _, _ => False
  end.
Proof.
  pose proof sim_parse as H. unfold sim, a_parse, from_slice in *. cbn [p_n] in H.
  destruct (a_parse_m input O) as [[[y1 y2] n]|x y k| | |];
  destruct (parse hash input (Pst 0 [] data_empty)) as [[x' s']|x' y' k'| | |]; try tauto.
  destruct H as (_ & t & E & M & _). exists t. split; [exact E|exact M].
Qed.
(* Parsing leaves no free slots. *)
Theorem parse_packed doc : from_slice hash input = Ok doc -> length (sl_entries (d_slab (doc_data doc))) = slab_len (d_slab (doc_data doc)).
Proof.
  intros P. pose proof sim_parse as H. unfold sim, from_slice in *. cbn [p_n] in H.
  destruct (a_parse_m input O) as [[[y1 y2] n]|x y k| | |];
  destruct (parse hash input (Pst 0 [] data_empty)) as [[x' s']|x' y' k'| | |]; try tauto; try discriminate.
  injection P as ->. destruct H as (_ & t & _ & _ & E). exact E.
Qed.
End Refine.
