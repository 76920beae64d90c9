(* Where the errors of the parser are: what the text looks like at the two ends of the span. *)
From Coq Require Import List NArith Bool Arith Lia.
From Verif Require Import Bytes Utf8 Data Parser Render Tree Abs Refine Utf8Props Scan AbsText Reads.
Import ListNotations.
Local Open Scope N_scope.

Section Loc.
Variable input : bytes.
Local Notation len := (length input).
Local Notation seg := (slice input).
Local Notation at_stop := (at_stop input).
Local Notation at_ i := (nth i input EOF).

Definition hexs (ds : bytes) : Prop := Forall (fun d => hex_value d <> None) ds.
(* Digits that are no character: too few, or of a surrogate. *)
Definition bad_digits (k : nat) (ds : bytes) (y : nat) : Prop :=
  (hexs ds /\ (length ds < k)%nat /\ y = len) \/
  (exists hs c, ds = hs ++ [c] /\ hexs hs /\ (length hs < k)%nat /\ hex_value c = None) \/
  (length ds = k /\ exists v, hex_number 0 ds = Some v /\ is_scalar_value v = false).
Definition no_block : Prop := ~ In PIPE input /\ ~ In GT input.
(* Layout, and then an entry of a mapping or the end. *)
Definition entry_or_end (x y : nat) : Prop :=
  exists j, (x <= j <= y)%nat /\ layout (seg x j) /\ (j = y /\ at_ y = EOF \/ exists c, In c [COLON; EOF] /\ In c (seg j y)).
Definition located (x y : nat) (k : ekind) : Prop :=
  match k with
  | ExpectedEof => (x < y)%nat /\ y = len /\ at_stop x
  | BadSequenceTerminator => (y <= len)%nat /\ at_stop y /\ at_ y <> RBRACK /\
      exists j, (j < y)%nat /\ at_ j = LBRACK /\ (no_block -> (j < x <= y)%nat /\ layout (seg x y))
  | BadMappingTerminator => (x <= y <= len)%nat /\ at_stop y /\ at_ y <> RBRACE /\ (exists j, (j < x)%nat /\ at_ j = LBRACE) /\ entry_or_end x y
  | BadMappingSeparator => exists j, (x <= j < y)%nat /\ (y <= len)%nat /\ layout (seg x j) /\ ~ In COLON (seg j y) /\
      (y = len \/ at_ (y - 1) = EOF) /\ exists i, (i < x)%nat /\ (at_ i = LBRACE \/ at_ i = COLON)
  | BadEscape => exists t, (x < y <= len)%nat /\ seg x y = BACKSLASH :: t /\
      (t = [] /\ y = len \/ exists c, t = [c] /\ escape_char c = None /\ c <> 120 /\ c <> 117)
  | BadHexEscape => exists ds, (x < y <= len)%nat /\ seg x y = BACKSLASH :: 120 :: ds /\ bad_digits 2 ds y
  | BadUnicodeEscape => exists ds, (x < y <= len)%nat /\ seg x y = BACKSLASH :: 117 :: ds /\ bad_digits 4 ds y
  end.

Definition ewp {A} (m : AM A) (n : nat) (Q : A -> nat -> Prop) : Prop :=
  match m n with Ok (a, n') => Q a n' | Err x y k => located x y k | _ => True end.
Lemma ewp_ret {A} (a : A) n (Q : A -> nat -> Prop) : Q a n -> ewp (ret a) n Q.
Proof. intros H. exact H. Qed.
Lemma ewp_bind {A B} (m : AM A) (k : A -> AM B) n Q R :
  ewp m n R -> (forall a n', R a n' -> ewp (k a) n' Q) -> ewp (bind m k) n Q.
Proof. unfold ewp, bind. intros H K. destruct (m n) as [[a n']|x y e| | |]; auto. apply K, H. Qed.
Lemma ewp_mono {A} (m : AM A) n (Q R : A -> nat -> Prop) : ewp m n R -> (forall a n', R a n' -> Q a n') -> ewp m n Q.
Proof. unfold ewp. intros H K. destruct (m n) as [[a n']|x y e| | |]; auto. Qed.
Lemma ewp_err {A} x y k n (Q : A -> nat -> Prop) : located x y k -> ewp (a_err x y k) n Q.
Proof. intros H. exact H. Qed.
(* From wp, for what gives no error. *)
Definition quiet {A} (m : AM A) n : Prop := match m n with Err _ _ _ => False | _ => True end.
Lemma ewp_wp {A} (m : AM A) n Q : quiet m n -> wp input m n Q -> ewp m n Q.
Proof. unfold quiet, wp, ewp. destruct (m n) as [[a n']|x y e| | |]; auto. contradiction. Qed.
Lemma quiet_bind {A B} (m : AM A) (k : A -> AM B) n : quiet m n -> (forall a n', quiet (k a) n') -> quiet (bind m k) n.
Proof. unfold quiet, bind. intros H K. destruct (m n) as [[a n']|x y e| | |]; auto. apply K. Qed.
Ltac run := repeat (lazymatch goal with
  | |- ewp (bind a_get ?k) ?n ?Q => change (ewp (k n) n Q)
  | |- ewp (bind (a_rest _) ?k) ?n ?Q => change (ewp (k (skipn n input)) n Q)
  | |- ewp (bind (a_peek _ ?i) ?k) ?n ?Q => change (ewp (k (nth (n + i) input EOF)) n Q)
  | |- ewp (bind (a_eof _) ?k) ?n ?Q => change (ewp (k (Nat.eqb n len)) n Q)
  | |- ewp (bind (a_string _ ?s) ?k) ?n ?Q => change (ewp (k (seg s n)) n Q)
  | |- ewp (bind (a_indent _) ?k) ?n ?Q => change (ewp (k (indent_from input n)) n Q)
  | |- ewp (bind (a_set ?m) ?k) ?n ?Q => change (ewp (k tt) m Q)
  | |- ewp (bind (a_bump _ ?i) ?k) ?n ?Q => change (ewp (k tt) (Nat.min (n + i) len) Q)
  | |- ewp (bind (ret ?x) ?k) ?n ?Q => change (ewp (k x) n Q)
  end; cbv beta).
Ltac hush := repeat first
  [ apply quiet_bind; [|intros]
  | match goal with
    | |- quiet (ret _) _ => exact I
    | |- quiet (fail _) _ => exact I
    | |- quiet a_get _ => exact I
    | |- quiet (a_rest _) _ => exact I
    | |- quiet (a_peek _ _) _ => exact I
    | |- quiet (a_eof _) _ => exact I
    | |- quiet (a_string _ _) _ => exact I
    | |- quiet (a_bump _ _) _ => exact I
    | |- quiet (a_set _) _ => exact I
    | |- quiet (a_indent _) _ => exact I
    | |- quiet (if ?z then _ else _) _ => destruct z
    | |- quiet (match ?z with _ => _ end) _ => destruct z
    end ].
Lemma at_end : at_stop len.
Proof. split; rewrite nth_overflow by lia; [reflexivity|discriminate]. Qed.
Lemma at_eof n : at_ n = EOF -> at_stop n.
Proof. intros E. split; rewrite E; [reflexivity|discriminate]. Qed.

Lemma e_ws_nl n : (n <= len)%nat ->
  ewp (a_ws_nl input) n (fun r n' => (n <= n' <= len)%nat /\ fst r = seg n n' /\ layout (fst r) /\ at_stop n').
Proof.
  intros L. eapply ewp_mono; [apply ewp_wp; [unfold a_ws_nl; hush|now apply wp_ws_nl]|].
  intros r n' (H1 & H2 & (H3 & _) & _ & H4). auto.
Qed.
Lemma e_ws n : (n <= len)%nat ->
  ewp (a_ws input) n (fun w n' => (n <= n' <= len)%nat /\ w = seg n n' /\ layout w /\ at_stop n').
Proof.
  intros L. unfold a_ws. eapply ewp_bind; [now apply e_ws_nl|]. intros [s nl] n' H. apply ewp_ret. exact H.
Qed.
Lemma e_or_ws (w : option bytes) n : (n <= len)%nat -> (w <> None -> at_stop n) ->
  ewp (a_or_ws input w) n (fun p n' => (n <= n' <= len)%nat /\ at_stop n' /\ (w = None -> p = seg n n' /\ layout p)).
Proof.
  intros L H. destruct w as [w|]; cbn [a_or_ws].
  - apply ewp_ret. repeat split; try lia; try (apply H; discriminate); discriminate.
  - eapply ewp_mono; [now apply e_ws|]. intros p n' (H1 & H2 & H3 & H4). auto.
Qed.
Lemma e_find c n : (n <= len)%nat -> ewp (a_find input c) n (fun _ n' => (n <= n' <= len)%nat).
Proof.
  intros L. apply ewp_wp; [unfold a_find; hush|]. apply wp_find; [exact L|]. auto.
Qed.
Lemma e_number tab n : (n <= len)%nat -> ewp (a_number input tab n) n (fun _ n' => (n <= n' <= len)%nat).
Proof.
  intros L. apply ewp_wp; [unfold a_number, a_is_eol; hush|]. eapply wp_mono; [now apply wp_number|]. intros a n' H. apply H.
Qed.
Lemma e_single n : at_ (n + 0) = SQUOTE -> ewp (a_single_quoted input) n (fun _ n' => (n < n' <= len)%nat).
Proof.
  intros E. apply ewp_wp; [unfold a_single_quoted, a_single_quoted_escaped; hush|].
  eapply wp_mono; [now apply wp_single_quoted|]. intros a n' H. apply H.
Qed.

(* ---- escapes ---- *)
Lemma seg_snoc s n c : (s <= n)%nat -> at_ n = c -> c <> EOF -> (n < len)%nat /\ seg s (S n) = seg s n ++ [c].
Proof.
  intros L E NE. apply nth_lt in E as [L1 S1]; [|exact NE]. split; [exact L1|].
  rewrite <- (seg_app input s n (S n)) by lia. now rewrite S1.
Qed.
Lemma e_digits (start k : nat) err (h : bytes) :
  (forall ds y, (start < y <= len)%nat -> seg start y = h ++ ds -> bad_digits k ds y -> located start y err) ->
  forall count acc ds n, (start < n <= len)%nat -> seg start n = h ++ ds -> hexs ds -> (length ds + count = k)%nat ->
  (forall more, hex_number acc more = hex_number 0 (ds ++ more)) ->
  ewp (a_unescape_digits input start count err acc) n
    (fun v n' => (start < n' <= len)%nat /\ exists ds', seg start n' = h ++ ds' /\ length ds' = k /\ hex_number 0 ds' = Some v).
Proof.
  intros LOC. induction count as [|count IH]; intros acc ds n L S1 H K V; cbn [a_unescape_digits].
  - apply ewp_ret. split; [lia|]. exists ds. repeat split; auto; [lia|]. specialize (V []). rewrite app_nil_r in V. now rewrite <- V.
  - run. rewrite Nat.add_0_r. destruct (hex_value (at_ n)) as [v|] eqn:E.
    + run. destruct (seg_snoc start n _ ltac:(lia) eq_refl (hex_byte _ _ E)) as [L1 S2].
      rewrite Nat.min_l by lia. rewrite Nat.add_1_r. apply (IH _ (ds ++ [at_ n])); [lia| | |rewrite app_length; cbn; lia|].
      * rewrite S2, S1. now rewrite app_assoc.
      * apply Forall_app. split; [exact H|]. constructor; [congruence|constructor].
      * intros more. rewrite <- app_assoc. cbn [app]. rewrite <- V. cbn [hex_number]. now rewrite E.
    + run. apply ewp_err. destruct (Nat.eq_dec n len) as [->|NE].
      * rewrite Nat.min_r by lia. apply (LOC ds); [lia|exact S1|]. left. repeat split; auto. lia.
      * rewrite Nat.min_l by lia. rewrite Nat.add_1_r. apply (LOC (ds ++ [at_ n])); [lia| |].
        -- rewrite app_assoc, <- S1. rewrite <- (seg_app input start n (S n)) by lia. now rewrite nth_seg by lia.
        -- right. left. exists ds, (at_ n). repeat split; auto. lia.
Qed.
Lemma e_unicode start n c k err : (start < n <= len)%nat -> seg start n = [BACKSLASH; c] ->
  (forall ds y, (start < y <= len)%nat -> seg start y = [BACKSLASH; c] ++ ds -> bad_digits k ds y -> located start y err) ->
  ewp (a_unescape_unicode input start k err) n (fun _ n' => (start < n' <= len)%nat).
Proof.
  intros L S1 LOC. unfold a_unescape_unicode. eapply ewp_bind.
  { apply (e_digits start k err [BACKSLASH; c] LOC k 0 []); auto; [constructor]. }
  intros v n' (L' & ds & S2 & K & V). destruct (is_scalar_value v) eqn:E; [apply ewp_ret; lia|].
  run. apply ewp_err, (LOC ds); auto. right. right. eauto.
Qed.
Lemma e_unescape start : (start < len)%nat -> at_ start = BACKSLASH ->
  ewp (a_unescape input start) (start + 1) (fun _ n' => (start < n' <= len)%nat).
Proof.
  intros L E. unfold a_unescape. run. rewrite Nat.add_0_r. apply nth_lt in E as [_ S1]; [|discriminate].
  replace (S start) with (start + 1)%nat in S1 by lia.
  destruct (escape_char (at_ (start + 1))) as [o|] eqn:EC; [run; apply ewp_ret; lia|].
  assert (X : forall c k err, at_ (start + 1) = c -> c <> EOF ->
    (forall ds y, (start < y <= len)%nat -> seg start y = [BACKSLASH; c] ++ ds -> bad_digits k ds y -> located start y err) ->
    ewp (a_bump input 1 ;;; a_unescape_unicode input start k err) (start + 1) (fun _ n' => (start < n' <= len)%nat)).
  { intros c k err Ec Nc LOC. run. destruct (seg_snoc start (start + 1) c ltac:(lia) Ec Nc) as [L2 S2].
    rewrite Nat.min_l by lia. apply (e_unicode start _ c); auto; [lia|].
    replace (start + 1 + 1)%nat with (S (start + 1)) by lia. rewrite S2, S1. reflexivity. }
  destruct (N.eqb_spec (at_ (start + 1)) 120) as [E1|N1].
  { apply (X 120); [exact E1|discriminate|]. intros ds y Ly Sy B. exists ds. auto. }
  destruct (N.eqb_spec (at_ (start + 1)) 117) as [E2|N2].
  { apply (X 117); [exact E2|discriminate|]. intros ds y Ly Sy B. exists ds. auto. }
  run. apply ewp_err. destruct (Nat.eq_dec (start + 1) len) as [El|Nl].
  - exists []. rewrite Nat.min_r by lia. rewrite <- El. split; [lia|]. split; [exact S1|]. left. auto.
  - exists [at_ (start + 1)]. rewrite Nat.min_l by lia. split; [lia|]. split; [|right; eauto 6].
    rewrite <- (seg_app input start (start + 1)) by lia. rewrite S1. replace (start + 1 + 1)%nat with (S (start + 1)) by lia.
    now rewrite nth_seg by lia.
Qed.
Lemma e_dqe_loop f : forall acc n, (n <= len)%nat -> ewp (a_dqe_loop input f acc) n (fun _ n' => (n <= n' <= len)%nat).
Proof.
  induction f as [|f IH]; intros acc n L; [exact I|]. cbn [a_dqe_loop]. run. rewrite Nat.add_0_r.
  destruct (_ || _) eqn:E; [apply ewp_ret; lia|]. apply orb_false_elim in E as [_ E].
  apply N.eqb_neq in E. pose proof (nth_lt input n _ eq_refl E) as [L1 _].
  destruct (N.eqb_spec (at_ n) BACKSLASH) as [EB|NB].
  - run. rewrite Nat.min_l by lia. eapply ewp_bind; [now apply e_unescape|]. cbv beta. intros x n' L'.
    eapply ewp_mono; [apply IH; lia|]. cbv beta. intros; lia.
  - run. eapply ewp_mono; [apply IH; lia|]. cbv beta. intros; lia.
Qed.
Lemma e_double n : at_ (n + 0) = DQUOTE -> ewp (a_double_quoted input) n (fun _ n' => (n < n' <= len)%nat).
Proof.
  intros E. apply nth_byte in E as [L _]; [|discriminate]. unfold a_double_quoted. run.
  destruct (dq_scan _) as [k [|]]; cbv beta iota.
  - run. unfold a_double_quoted_escaped. run. eapply ewp_bind; [apply e_dqe_loop; lia|]. cbv beta. intros x n2 L2.
    run. apply ewp_ret. lia.
  - run. apply ewp_ret. lia.
Qed.

(* ---- keys ---- *)
Lemma colon_scan_none r : ~ In COLON (firstn (colon_scan r) r).
Proof.
  induction r as [|c r IH]; cbn; [auto|]. destruct (_ || _) eqn:E; [intros []|]. cbn.
  apply orb_false_elim in E as [E _]. apply N.eqb_neq in E. intuition.
Qed.
Lemma e_colon n : (n <= len)%nat -> let n' := Nat.min (n + colon_scan (skipn n input)) len in
  (n <= n' <= len)%nat /\ ~ In COLON (seg n n') /\ (n' = len \/ at_ n' = COLON \/ at_ n' = EOF).
Proof.
  intros L n'. pose proof (colon_scan_le (skipn n input)) as S. rewrite skipn_length in S.
  pose proof (colon_scan_stop (skipn n input)) as C. pose proof (colon_scan_none (skipn n input)) as NC.
  assert (E : n' = (n + colon_scan (skipn n input))%nat) by (unfold n'; lia). clearbody n'. subst n'.
  split; [lia|]. split; [rewrite seg_scan by (rewrite ?skipn_length; lia); exact NC|].
  destruct (Nat.eq_dec (n + colon_scan (skipn n input)) len) as [El|Nl]; [now left|]. right.
  destruct (nth_error_nth input (colon_scan (skipn n input)) n) as [H|H]; [|lia]. rewrite H in C. exact C.
Qed.
Lemma e_until_colon n : (n <= len)%nat -> ewp (a_until_colon input n) n (fun r n' => (n <= n' <= len)%nat /\
  match r with Some _ => (n' < len)%nat /\ (at_ n' = COLON \/ at_ n' = EOF) | None => n' = len /\ ~ In COLON (seg n len) end).
Proof.
  intros L. unfold a_until_colon. run. pose proof (e_colon n L) as (H1 & H2 & H3).
  set (n' := Nat.min (n + colon_scan (skipn n input)) len) in *. destruct (Nat.eqb_spec n' len) as [E|E].
  - apply ewp_ret. rewrite <- E at 3. auto.
  - run. apply ewp_ret. split; [lia|]. split; [lia|]. destruct H3 as [H3|H3]; [contradiction|exact H3].
Qed.
Lemma e_next_key n : (n <= len)%nat -> ewp (a_next_mapping_key input) n (fun r n' => (n <= n' <= len)%nat /\
  match r with Some _ => (n < n')%nat /\ ~ In COLON (seg n n') /\ (n' = len \/ at_ n' = COLON \/ at_ n' = EOF) | None => n' = n end).
Proof.
  intros L. unfold a_next_mapping_key. run. pose proof (e_colon n L) as (H1 & H2 & H3).
  set (n' := Nat.min (n + colon_scan (skipn n input)) len) in *. pose proof (seg_length input n n') as SL.
  destruct (seg n n') as [|c s] eqn:E; apply ewp_ret.
  - split; [lia|]. cbn in SL. lia.
  - rewrite E. split; [auto|]. split; [cbn in SL; lia|auto].
Qed.
Lemma e_key_or_eol start n : (n <= len)%nat -> ewp (a_key_or_eol input start) n (fun r n' => (n <= n' <= len)%nat /\
  match r with Some _ => at_ n' = COLON | None => True end).
Proof.
  intros L. unfold a_key_or_eol. run. pose proof (key_scan_spec (skipn n input)) as S.
  destruct (key_scan (skipn n input)) as [k [|]]; destruct S as (S1 & S2); rewrite skipn_length in S1; run; cbv beta iota; run; apply ewp_ret.
  - rewrite Nat.min_l by lia. split; [lia|]. destruct S2 as [S2 _]. destruct (nth_error_nth input k n); [congruence|lia].
  - split; [lia|exact I].
Qed.

(* ---- block scalars ---- *)
Lemma e_block_loop f join folded ind : forall w nl stop acc n, (n <= len)%nat -> at_stop n ->
  ewp (a_block_loop input f join folded ind w nl stop acc) n (fun _ n' => (n <= n' <= len)%nat /\ at_stop n').
Proof.
  induction f as [|f IH]; intros w nl stop acc n L A; [exact I|]. cbn [a_block_loop]. run.
  destruct (Nat.eqb n len); [apply ewp_ret; split; [lia|exact A]|]. run.
  eapply ewp_bind; [now apply e_find|]. cbv beta. intros _ n1 L1. run. eapply ewp_bind; [apply e_ws_nl; lia|].
  intros [w' nl'] n2 (L2 & _ & _ & A2). run. destruct (_ <? _)%nat; [apply ewp_ret; split; [lia|exact A2]|].
  eapply ewp_mono; [apply IH; [lia|exact A2]|]. cbv beta. intros _ n' [L' A']. split; [lia|exact A'].
Qed.
Lemma e_block k join folded chomp clip n : (n <= len)%nat ->
  ewp (a_block input k join folded chomp clip) n (fun _ n' => (n <= n' <= len)%nat /\ at_stop n').
Proof.
  intros L. unfold a_block. run. eapply ewp_bind; [apply e_ws_nl; lia|]. intros [w nl] n2 (L2 & _ & _ & A2).
  eapply ewp_bind with (R := fun _ n' => (n <= n' <= len)%nat /\ at_stop n').
  { destruct (Nat.eqb nl 0); [|apply ewp_ret; split; [lia|exact A2]].
    eapply ewp_bind; [apply e_find; lia|]. cbv beta. intros _ n3 L3. run. eapply ewp_bind; [apply e_ws_nl; lia|].
    intros [w' nl'] n4 (L4 & _ & _ & A4). run. apply ewp_ret. split; [lia|exact A4]. }
  intros [[w1 nl1] acc] n3 (L3 & A3). run. eapply ewp_bind; [apply e_block_loop; [lia|exact A3]|].
  intros [[[w' nl'] stop'] acc'] n' (L' & A'). apply ewp_ret. split; [lia|exact A'].
Qed.

(* ---- values ---- *)
Definition epost (a : astate) (n : nat) (r : tree unit * option bytes) (n' : nat) : Prop :=
  (n <= n' <= len)%nat /\ (snd r <> None -> at_stop n' /\ (as_inline a = true -> ~ no_block)).
Section Value.
Variable value : astate -> AM (tree unit * option bytes).
Hypothesis VH : forall a n, (n <= len)%nat -> at_stop n -> ewp (value a) n (epost a n).

Lemma e_iseq_loop o f' : forall items (last tr : bool) ip n, (o < n <= len)%nat ->
  (no_block -> exists m, (o < m <= n)%nat /\ ip = seg m n /\ layout ip) ->
  ewp (a_iseq_loop input value f' items last tr ip) n (fun r n' => (n <= n' <= len)%nat /\ (at_ n' = RBRACK \/ at_stop n') /\
    (no_block -> exists m, (o < m <= n')%nat /\ snd r = seg m n' /\ layout (snd r))).
Proof.
  induction f' as [|f' IH]; intros items last tr ip n L P; [exact I|]. cbn [a_iseq_loop]. run. rewrite Nat.add_0_r.
  destruct (_ || _) eqn:C0.
  { apply ewp_ret. split; [lia|]. split; [|exact P].
    apply orb_prop in C0 as [C0|C0]; apply N.eqb_eq in C0; [now left|right; now apply at_eof]. }
  eapply ewp_bind; [apply e_ws; lia|]. intros p n1 (L1 & _ & _ & A1).
  eapply ewp_bind; [apply VH; [lia|exact A1]|]. intros [v w] n2 (L2 & W2). cbn [snd as_inline] in W2. cbv beta iota zeta.
  assert (W2' : w <> None -> at_stop n2) by (intros H; now apply W2).
  assert (W3 : no_block -> w = None) by (intros NB; destruct w; [|reflexivity]; exfalso; now apply (proj2 (W2 ltac:(discriminate)))).
  destruct last.
  - eapply ewp_bind; [apply (e_or_ws w); [lia|exact W2']|]. intros q n3 (L3 & A3 & P3). apply ewp_ret.
    split; [lia|]. split; [now right|]. intros NB. destruct (P3 (W3 NB)) as [E3 Y3]. exists n2. repeat split; [lia|lia|exact E3|exact Y3].
  - run. rewrite Nat.add_0_r. destruct (N.eqb_spec (at_ n2) COMMA) as [EC|EC].
    + run. apply nth_lt in EC as [L3 _]; [|discriminate]. rewrite Nat.min_l by lia.
      destruct w as [w|]; cbn [a_or_ws].
      * run. eapply ewp_mono; [apply IH; [lia|]|].
        -- intros NB. discriminate (W3 NB).
        -- intros [[its t] q] n' (L' & A' & P'). split; [lia|]. auto.
      * eapply ewp_bind; [apply e_ws; lia|]. intros q n3 (L4 & E4 & Y4 & A4).
        eapply ewp_mono; [apply IH; [lia|]|].
        -- intros _. exists (n2 + 1)%nat. repeat split; auto; lia.
        -- intros [[its t] q'] n' (L' & A' & P'). split; [lia|]. auto.
    + eapply ewp_bind; [apply (e_or_ws w); [lia|exact W2']|]. intros q n3 (L3 & A3 & P3).
      eapply ewp_mono; [apply IH; [lia|]|].
      * intros NB. destruct (P3 (W3 NB)) as [E3 Y3]. exists n2. repeat split; auto; lia.
      * intros [[its t] q'] n' (L' & A' & P'). split; [lia|]. auto.
Qed.
Lemma e_inline_sequence a n : at_ (n + 0) = LBRACK ->
  ewp (a_inline_sequence input value a) n (fun _ n' => (n < n' <= len)%nat).
Proof.
  intros E. rewrite Nat.add_0_r in E. pose proof (nth_lt input n _ E ltac:(discriminate)) as [L _].
  unfold a_inline_sequence. run. rewrite Nat.min_l by lia. eapply ewp_bind; [apply e_ws; lia|].
  intros p n1 (L1 & E1 & Y1 & _). eapply ewp_bind.
  { apply (e_iseq_loop n); [lia|]. intros _. exists (n + 1)%nat. repeat split; auto; lia. }
  intros [[its t] q] n2 (L2 & A2 & P2). cbn [snd] in P2. run. rewrite Nat.add_0_r.
  destruct (N.eqb_spec (at_ n2) RBRACK) as [ER|NR]; cbn [negb]; [run; apply ewp_ret; lia|].
  run. apply ewp_err. split; [lia|]. destruct A2 as [A2|A2]; [contradiction|]. split; [exact A2|]. split; [exact NR|].
  exists n. split; [lia|]. split; [exact E|]. intros NB. destruct (P2 NB) as (m & Lm & -> & Y).
  rewrite seg_length by lia. replace (n2 - (n2 - m))%nat with m by lia. split; [lia|exact Y].
Qed.

Lemma e_imap_loop o f' : forall items (last tr : bool) start ip n, (o < start <= n)%nat -> (n <= len)%nat -> layout (seg start n) -> at_ o = LBRACE ->
  ewp (a_imap_loop input value f' items last tr start ip) n (fun r n' => (n <= n' <= len)%nat /\ (at_ n' = RBRACE \/ at_stop n' /\ entry_or_end (snd r) n') /\
    (o < snd r <= n')%nat).
Proof.
  induction f' as [|f' IH]; intros items last tr start ip n L Ln Y O; [exact I|]. cbn [a_imap_loop]. run. rewrite Nat.add_0_r.
  destruct (_ || _) eqn:C0.
  { apply ewp_ret. split; [lia|]. split; [|exact L].
    apply orb_prop in C0 as [C0|C0]; apply N.eqb_eq in C0; [now left|right; split; [now apply at_eof|]]. cbn [snd]. exists n. split; [lia|]. split; [exact Y|left; auto]. }
  run. eapply ewp_bind; [apply e_until_colon; lia|]. intros key n1 (L1 & K1). destruct key as [key|].
  2:{ run. destruct K1 as [-> K1]. apply ewp_err. apply orb_false_elim in C0 as [_ C0]. apply N.eqb_neq in C0.
      assert (n < len)%nat by (destruct (Nat.eq_dec n len) as [Q|Q]; [elim C0; rewrite Q; now apply nth_overflow|lia]).
      exists n. repeat split; auto; try lia. exists o. split; [lia|now left]. }
  run. rewrite Nat.min_l by lia. eapply ewp_bind; [apply e_ws; lia|]. intros p n2 (L2 & _ & _ & A2).
  eapply ewp_bind; [apply VH; [lia|exact A2]|]. intros [v w] n3 (L3 & W3). cbn [snd] in W3. cbv beta iota zeta.
  eapply ewp_bind; [apply (e_or_ws w); [lia|intros H; now apply W3]|]. intros q n4 (L4 & A4 & _).
  destruct last; [apply ewp_ret; split; [lia|]; split; [right; split; [exact A4|]|cbn [snd]; lia]|].
  { cbn [snd]. exists n. split; [lia|]. split; [exact Y|]. right. rewrite <- (seg_app input n n1 n4) by lia. rewrite <- (seg_app input n1 (S n1) n4) by lia.
    rewrite nth_seg by lia. exists (at_ n1). split; [cbn; destruct K1 as [_ [->| ->]]; auto|]. apply in_or_app. right. now left. }
  run. rewrite Nat.add_0_r. destruct (N.eqb_spec (at_ n4) COMMA) as [EC|EC].
  - run. apply nth_lt in EC as [L5 _]; [|discriminate]. rewrite Nat.min_l by lia.
    eapply ewp_bind; [apply e_ws; lia|]. intros q' n5 (L6 & E6 & Y6 & _).
    eapply ewp_mono; [apply IH; [lia|lia|now rewrite <- E6|exact O]|]. intros r n' (L' & A' & S'). split; [lia|]. auto.
  - run. eapply ewp_bind; [apply e_ws; lia|]. intros q' n5 (L6 & E6 & Y6 & _).
    eapply ewp_mono; [apply IH; [lia|lia|now rewrite <- E6|exact O]|]. intros r n' (L' & A' & S'). split; [lia|]. auto.
Qed.
Lemma e_inline_mapping a n : at_ (n + 0) = LBRACE ->
  ewp (a_inline_mapping input value a) n (fun _ n' => (n < n' <= len)%nat).
Proof.
  intros E. rewrite Nat.add_0_r in E. pose proof (nth_lt input n _ E ltac:(discriminate)) as [L _].
  unfold a_inline_mapping. run. rewrite Nat.min_l by lia. eapply ewp_bind; [apply e_ws; lia|].
  intros p n1 (L1 & E1 & Y1 & _). eapply ewp_bind.
  { apply (e_imap_loop n); [lia|lia|now rewrite <- E1|exact E]. }
  intros [[[its t] q] s] n2 (L2 & A2 & S2). cbn [snd] in S2, A2. run. rewrite Nat.add_0_r.
  destruct (N.eqb_spec (at_ n2) RBRACE) as [ER|NR]; cbn [negb]; [run; apply ewp_ret; lia|].
  run. apply ewp_err. split; [lia|]. destruct A2 as [A2|[A2 A3]]; [contradiction|]. split; [exact A2|]. split; [exact NR|].
  split; [|exact A3]. exists n. split; [lia|exact E].
Qed.
Lemma e_seq_loop ind f' : forall items ip n, (n < len)%nat ->
  ewp (a_seq_loop input value f' ind items ip) n (fun _ n' => (n <= n' <= len)%nat /\ at_stop n').
Proof.
  induction f' as [|f' IH]; intros items ip n L; [exact I|]. cbn [a_seq_loop]. run. rewrite Nat.min_l by lia.
  eapply ewp_bind; [apply e_ws; lia|]. intros p n1 (L1 & _ & _ & A1).
  eapply ewp_bind; [apply VH; [lia|exact A1]|]. intros [v w] n2 (L2 & W2). cbn [snd] in W2. cbv beta iota zeta.
  eapply ewp_bind; [apply (e_or_ws w); [lia|intros H; now apply W2]|]. intros q n3 (L3 & A3 & _).
  run. destruct (_ || _) eqn:C; [apply ewp_ret; split; [lia|exact A3]|].
  apply orb_false_elim in C as [_ C]. apply negb_false_iff, N.eqb_eq in C. rewrite Nat.add_0_r in C. apply nth_lt in C as [L4 _]; [|discriminate].
  eapply ewp_mono; [apply IH; lia|]. intros r n' (L' & A'). split; [lia|exact A'].
Qed.
Lemma e_map_loop ind f' : forall items start key ip n, (start <= n <= len)%nat ->
  (at_ n = COLON \/ (start < n)%nat /\ (exists i, (i < start)%nat /\ at_ i = COLON) /\ ~ In COLON (seg start n) /\ (n = len \/ at_ n = EOF)) ->
  ewp (a_map_loop input value f' ind items start key ip) n (fun _ n' => (n <= n' <= len)%nat /\ at_stop n').
Proof.
  induction f' as [|f' IH]; intros items start key ip n L K; [exact I|]. cbn [a_map_loop]. run. rewrite Nat.add_0_r.
  destruct (N.eqb_spec (at_ n) COLON) as [EC|NC]; cbn [negb].
  - run. pose proof EC as EC'. apply nth_lt in EC as [L1 _]; [|discriminate]. rewrite Nat.min_l by lia.
    eapply ewp_bind; [apply e_ws; lia|]. intros p n1 (L2 & _ & _ & A1).
    eapply ewp_bind; [apply VH; [lia|exact A1]|]. intros [v w] n2 (L3 & W2). cbn [snd] in W2. cbv beta iota zeta.
    eapply ewp_bind; [apply (e_or_ws w); [lia|intros H; now apply W2]|]. intros q n3 (L4 & A3 & _).
    run. destruct (negb _); [apply ewp_ret; split; [lia|exact A3]|]. run.
    eapply ewp_bind; [apply e_next_key; lia|]. intros key' n4 (L5 & K4). destruct key' as [key'|].
    + assert (EI : exists i, (i < n3)%nat /\ at_ i = COLON) by (exists n; split; [lia|exact EC']).
      eapply ewp_mono; [apply IH; [lia|destruct K4 as [K3 [K4 [K5|[K5|K5]]]]; auto 10]|]. intros r n' (L' & A'). split; [lia|exact A'].
    + subst n4. apply ewp_ret. split; [lia|exact A3].
  - run. destruct K as [K|(K0 & (i & Li & Ei) & K1 & K2)]; [contradiction|]. apply ewp_err.
    destruct (Nat.eq_dec n len) as [E|NE].
    + rewrite Nat.min_r by lia. exists start. rewrite seg_nil. repeat split; [lia|lia|lia|constructor|now rewrite <- E|now left|exists i; auto].
    + destruct K2 as [K2|K2]; [contradiction|]. rewrite Nat.min_l by lia. exists start. rewrite seg_nil.
      repeat split; [lia|lia|lia|constructor| | |exists i; auto].
      * rewrite <- (seg_app input start n (n + 1)) by lia. rewrite Nat.add_1_r, nth_seg, K2 by lia.
        rewrite in_app_iff. intros [J|[J|[]]]; [contradiction|discriminate].
      * right. now replace (n + 1 - 1)%nat with n by lia.
Qed.
Lemma e_mapping_or_nul a start key n : (start <= n <= len)%nat -> at_ n = COLON -> at_stop start -> as_inline a = false ->
  ewp (a_mapping_or_nul input value a start key) n (epost a start).
Proof.
  intros L EC A NI. unfold a_mapping_or_nul. destruct (match as_parent_indent a with Some _ => _ | _ => _ end).
  - run. apply ewp_ret. split; [lia|]. intros _. split; [exact A|congruence].
  - eapply ewp_bind; [apply e_map_loop; [lia|now left]|]. intros [its w] n' (L' & A'). apply ewp_ret.
    split; [lia|]. intros _. split; [exact A'|congruence].
Qed.
Lemma e_leaf a n n' t : (n <= n' <= len)%nat -> epost a n (t, None) n'.
Proof. intros L. split; [exact L|]. cbn. congruence. Qed.
Lemma e_value_body a n : (n <= len)%nat -> at_stop n -> ewp (a_value_body input value a) n (epost a n).
Proof.
  intros L A. unfold a_value_body. run. destruct (_ && _) eqn:C1.
  { apply andb_prop in C1 as [C1 NI]. apply andb_prop in C1 as [C1 _]. apply N.eqb_eq in C1. apply negb_true_iff in NI.
    rewrite Nat.add_0_r in C1. apply nth_lt in C1 as [L1 _]; [|discriminate]. unfold a_sequence. run.
    eapply ewp_bind; [now apply e_seq_loop|]. intros [its w] n' (L' & A'). apply ewp_ret. split; [lia|]. intros _. split; [exact A'|congruence]. }
  clear C1. destruct (N.eqb_spec (nth (n + 0) input EOF) DQUOTE) as [C2|_].
  { run. eapply ewp_bind; [now apply e_double|]. cbv beta. intros x n1 L1. run. rewrite Nat.add_0_r. destruct (negb (as_inline a) && _) eqn:C.
    - apply andb_prop in C as [NI C]. apply negb_true_iff in NI. apply N.eqb_eq in C. apply e_mapping_or_nul; auto; lia.
    - apply ewp_ret, e_leaf. lia. }
  destruct (N.eqb_spec (nth (n + 0) input EOF) SQUOTE) as [C2|_].
  { run. eapply ewp_bind; [now apply e_single|]. cbv beta. intros x n1 L1. run. rewrite Nat.add_0_r. destruct (negb (as_inline a) && _) eqn:C.
    - apply andb_prop in C as [NI C]. apply negb_true_iff in NI. apply N.eqb_eq in C. apply e_mapping_or_nul; auto; lia.
    - apply ewp_ret, e_leaf. lia. }
  destruct (N.eqb_spec (nth (n + 0) input EOF) LBRACK) as [C2|_].
  { eapply ewp_bind; [now apply e_inline_sequence|]. cbv beta. intros t n1 L1. apply ewp_ret, e_leaf. lia. }
  destruct (N.eqb_spec (nth (n + 0) input EOF) LBRACE) as [C2|_].
  { eapply ewp_bind; [now apply e_inline_mapping|]. cbv beta. intros t n1 L1. apply ewp_ret, e_leaf. lia. }
  destruct (_ || _) eqn:C3.
  { assert (IN : ~ no_block).
    { intros [P G]. rewrite Nat.add_0_r in C3.
      apply orb_prop in C3 as [C3|C3]; apply N.eqb_eq in C3; [apply G|apply P]; eapply nth_in; eauto; discriminate. }
    eapply ewp_bind; [apply e_block; exact L|]. intros [r w] n' (L' & A'). apply ewp_ret. split; [lia|]. auto. }
  run. eapply ewp_bind; [apply e_number; exact L|]. cbv beta. intros num n1 L1. destruct num as [r|]; [apply ewp_ret, e_leaf; lia|].
  destruct (as_inline a) eqn:NI.
  - run. apply ewp_ret, e_leaf. lia.
  - eapply ewp_bind; [apply e_key_or_eol; lia|]. intros key n2 (L2 & K2). destruct key as [key|].
    + apply e_mapping_or_nul; auto. lia.
    + run. apply ewp_ret, e_leaf. lia.
Qed.
End Value.
Lemma e_value f : forall a n, (n <= len)%nat -> at_stop n -> ewp (a_value input f a) n (epost a n).
Proof. induction f as [|f IH]; intros a n L A; [exact I|]. cbn [a_value]. now apply e_value_body. Qed.
Lemma e_sod_loop f : forall p n, (n <= len)%nat -> at_stop n -> ewp (a_sod_loop input f p) n (fun _ n' => (n' <= len)%nat /\ at_stop n').
Proof.
  induction f as [|f IH]; intros p n L A; [exact I|]. cbn [a_sod_loop]. run. destruct (_ =? PERCENT).
  { eapply ewp_bind; [now apply e_find|]. cbv beta. intros _ n1 L1. eapply ewp_bind; [apply e_ws; lia|].
    intros q n2 (L2 & _ & _ & A2). apply IH; [lia|exact A2]. }
  destruct (_ && _).
  - run. eapply ewp_mono; [apply e_ws; lia|]. intros q n' (L' & _ & _ & A'). split; [lia|exact A'].
  - apply ewp_ret. auto.
Qed.
Lemma e_parse_m : ewp (a_parse_m input) 0 (fun _ _ => True).
Proof.
  unfold a_parse_m, a_start_of_document. eapply ewp_bind with (R := fun _ n' => (n' <= len)%nat /\ at_stop n').
  { eapply ewp_bind; [apply e_ws; lia|]. intros p n (L & _ & _ & A). apply e_sod_loop; [lia|exact A]. }
  intros p n (L & A). eapply ewp_bind; [apply e_value; auto|]. intros [t w] n1 (L1 & W1). cbn [snd] in W1.
  eapply ewp_bind; [apply (e_or_ws w); [lia|intros H; now apply W1]|]. intros q n2 (L2 & A2 & _). run.
  destruct (Nat.eqb_spec n2 len) as [E|NE]; cbn [negb]; [apply ewp_ret; exact I|].
  run. apply ewp_err. repeat split; [lia|apply A2|apply A2].
Qed.
Theorem parse_located x y k : a_parse input = Err x y k -> located x y k.
Proof.
  pose proof e_parse_m as H. unfold ewp in H. unfold a_parse. intros E.
  destruct (a_parse_m input O) as [[r n]|x' y' k'| | |]; try discriminate. injection E as -> -> ->. exact H.
Qed.
End Loc.
