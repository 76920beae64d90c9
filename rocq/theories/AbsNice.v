(* The trees built by the parser: block collections are not empty, an empty null has no white
   space before it, strings keep their original form, headers of block scalars are ASCII, and
   all strings are UTF-8 if the input is. *)
From Coq Require Import List NArith Bool Arith Lia.
From Verif Require Import Bytes Utf8 Data Parser Render Tree Abs Utf8Props Scan AbsText.
Import ListNotations.
Local Open Scope N_scope.

Definition rs_nice (r : rstr bytes) : bool :=
  match rs_kind r with KSingle | KDouble => false | KMultiline p => forallb (fun c => c <? 128) p | _ => true end.
Definition sc_nice (s : scalar bytes) : bool := match s with ScStr r => rs_nice r | _ => true end.
Definition is_nil {A} (l : list A) : bool := match l with [] => true | _ => false end.
Definition filled {A} (k : ckind bytes) (l : list A) : bool :=
  match k with CBlock => negb (is_nil l) | _ => true end.
Fixpoint nice {I} (t : tree I) : bool :=
  match t with
  | TLeaf _ p s => sc_nice s && match s with ScNull NEmpty => is_nil p | _ => true end
  | TMap _ _ _ k items => filled k items && forallb (fun '(_, _, key, v) => rs_nice key && nice v) items
  | TSeq _ _ _ k items => filled k items && forallb (fun '(_, _, v) => nice v) items
  end.

Section Nice.
Variable input : bytes.
Local Notation len := (length input).
Local Notation seg := (slice input).

Definition wlp {A} (m : AM A) (n : nat) (Q : A -> nat -> Prop) : Prop :=
  match m n with Ok (a, n') => Q a n' | _ => True end.
Lemma wlp_wp {A} (m : AM A) n Q : wp input m n Q -> wlp m n Q.
Proof. unfold wp, wlp. destruct (m n) as [[a n']|x y e| | |]; auto. Qed.
Lemma wlp_and {A} (m : AM A) n Q R : wlp m n Q -> wlp m n R -> wlp m n (fun a n' => Q a n' /\ R a n').
Proof. unfold wlp. destruct (m n) as [[a n']|x y e| | |]; auto. Qed.
Lemma wlp_ret {A} (a : A) n (Q : A -> nat -> Prop) : Q a n -> wlp (ret a) n Q.
Proof. intros H. exact H. Qed.
Lemma wlp_bind {A B} (m : AM A) (k : A -> AM B) n Q R :
  wlp m n R -> (forall a n', R a n' -> wlp (k a) n' Q) -> wlp (bind m k) n Q.
Proof.
  unfold wlp, bind. intros H K. destruct (m n) as [[a n']|x y e| | |]; auto. apply K, H.
Qed.
Lemma wlp_mono {A} (m : AM A) n (Q R : A -> nat -> Prop) :
  wlp m n R -> (forall a n', R a n' -> Q a n') -> wlp m n Q.
Proof. unfold wlp. intros H K. destruct (m n) as [[a n']|x y e| | |]; auto. Qed.
Lemma wlp_err {A} x y e n (Q : A -> nat -> Prop) : wlp (a_err x y e) n Q.
Proof. exact I. Qed.
Lemma wlp_bump k n (Q : unit -> nat -> Prop) : Q tt (Nat.min (n + k) len) -> wlp (a_bump input k) n Q.
Proof. intros H. exact H. Qed.

Ltac run := repeat (lazymatch goal with
  | |- wlp (bind a_get ?k) ?n ?Q => change (wlp (k n) n Q)
  | |- wlp (bind (a_rest _) ?k) ?n ?Q => change (wlp (k (skipn n input)) n Q)
  | |- wlp (bind (a_peek _ ?i) ?k) ?n ?Q => change (wlp (k (nth (n + i) input EOF)) n Q)
  | |- wlp (bind (a_eof _) ?k) ?n ?Q => change (wlp (k (Nat.eqb n len)) n Q)
  | |- wlp (bind (a_string _ ?s) ?k) ?n ?Q => change (wlp (k (seg s n)) n Q)
  | |- wlp (bind (a_indent _) ?k) ?n ?Q => change (wlp (k (indent_from input n)) n Q)
  | |- wlp (bind (a_set ?m) ?k) ?n ?Q => change (wlp (k tt) m Q)
  | |- wlp (bind (a_bump _ ?i) ?k) ?n ?Q => change (wlp (k tt) (Nat.min (n + i) len) Q)
  | |- wlp (bind (ret ?x) ?k) ?n ?Q => change (wlp (k x) n Q)
  end; cbv beta).
Lemma wlp_bind_assoc {A B C} (m : AM A) (f : A -> AM B) (g : B -> AM C) n Q :
  wlp (bind m (fun a => bind (f a) g)) n Q -> wlp (bind (bind m f) g) n Q.
Proof. unfold wlp, bind. destruct (m n) as [[a n']|x y e| | |]; auto. Qed.

(* n is a char boundary *)
Definition bnd (n : nat) : Prop := text input -> text (skipn n input).
Definition sok (s : bytes) : Prop := text input -> text s.
Lemma bnd_nth n : nth n input EOF < 128 -> bnd n.
Proof.
  intros H T. rewrite <- (firstn_skipn n input) in T. rewrite nth_skipn in H.
  destruct (skipn n input) as [|c r]; [constructor|]. cbn in H.
  apply text_split in T; [apply T|]. now apply ascii_not_cont.
Qed.
Lemma bnd_len : bnd len.
Proof. intros _. rewrite skipn_all. constructor. Qed.
Lemma bnd_0 : bnd 0.
Proof. intros T. exact T. Qed.
Lemma bnd_succ n : nth n input EOF < 128 -> bnd (Nat.min (n + 1) len).
Proof.
  intros H T. destruct (Nat.le_gt_cases len (n + 1)) as [G|L].
  { rewrite Nat.min_r by lia. rewrite skipn_all. constructor. }
  rewrite Nat.min_l by lia.
  pose proof (bnd_nth n H T) as T'. rewrite Nat.add_comm, <- skipn_add.
  rewrite nth_skipn in H. destruct (skipn n input) as [|c r]; cbn; [constructor|].
  now apply text_ascii in T'.
Qed.
Lemma seg_sok i j : bnd i -> bnd j -> sok (seg i j).
Proof.
  intros B1 B2 T. unfold slice. destruct (_ && _) eqn:E; [|constructor].
  apply andb_prop in E as [E1 E2]. apply Nat.leb_le in E1, E2.
  specialize (B1 T). specialize (B2 T). apply (text_app_l _ (skipn j input)); [|exact B2].
  replace (skipn j input) with (skipn (j - i) (skipn i input)) by (rewrite skipn_add; f_equal; lia).
  now rewrite firstn_skipn.
Qed.
Lemma ascii_lt c x : c = x -> x < 128 -> c < 128. Proof. intros ->. auto. Qed.

Lemma bnd_ws n : bnd n -> wlp (a_ws_nl input) n (fun r n' => bnd n').
Proof.
  intros B. unfold a_ws_nl. run. destruct (ws_scan false (skipn n input)) as [k nl] eqn:E. run.
  apply wlp_ret. intros T. specialize (B T).
  destruct (proj1 (ws_scan_text _ _ _) E B) as [_ H]. rewrite skipn_add in H.
  destruct (Nat.le_gt_cases len (n + k)) as [G|L].
  - rewrite Nat.min_r by lia. rewrite skipn_all. constructor.
  - rewrite Nat.min_l by lia. now rewrite Nat.add_comm.
Qed.
Lemma nl_ws n : (n <= len)%nat -> bnd n ->
  wlp (a_ws_nl input) n (fun r n' => (n <= n' <= len)%nat /\ bnd n' /\ fst r = seg n n' /\ sok (fst r) /\ layout (fst r)).
Proof.
  intros L B. eapply wlp_mono; [apply wlp_and; [apply wlp_wp, wp_ws_nl, L|apply bnd_ws, B]|].
  cbn. intros r n' ((H1 & H2 & H3 & _) & H4). repeat split; auto; try lia; try apply H3.
  unfold sok. rewrite H2. now apply seg_sok.
Qed.
Lemma n_ws n : (n <= len)%nat -> bnd n ->
  wlp (a_ws input) n (fun r n' => (n <= n' <= len)%nat /\ bnd n' /\ r = seg n n' /\ sok r /\ layout r).
Proof.
  intros L B. unfold a_ws. eapply wlp_bind; [now apply nl_ws|]. intros [s nl] n' H. apply wlp_ret. exact H.
Qed.
Lemma n_or_ws w n : (n <= len)%nat -> bnd n -> match w with Some w => sok w | None => True end ->
  wlp (a_or_ws input w) n (fun r n' => (n <= n' <= len)%nat /\ bnd n' /\ sok r).
Proof.
  intros L B W. destruct w as [w|]; cbn [a_or_ws].
  - apply wlp_ret. auto.
  - eapply wlp_mono; [now apply n_ws|]. cbn. intuition.
Qed.

Lemma num_scan_ascii r : forall d e h, Forall (fun c => c < 128) (firstn (fst (num_scan d e h r)) r).
Proof.
  induction r as [|c r IH]; intros d e h; cbn; [constructor|].
  destruct (N.eqb_spec c DOT) as [->|_]; cbn [andb].
  { destruct d.
    { specialize (IH false e h). destruct (num_scan false e h r); cbn in *. constructor; [reflexivity|auto]. }
    cbn. constructor. }
  destruct (_ && e) eqn:E.
  { specialize (IH false false h). destruct (num_scan false false h r); cbn in *. constructor; auto.
    apply andb_prop in E as [E _]. apply andb_prop in E as [E _]. apply orb_prop in E as [E|E]; apply N.eqb_eq in E; subst; reflexivity. }
  destruct (is_digit c) eqn:D.
  { specialize (IH d e true). destruct (num_scan d e true r); cbn in *. constructor; auto.
    unfold is_digit in D. apply andb_prop in D as [_ D]. apply N.leb_le in D. lia. }
  cbn. constructor.
Qed.
Lemma bnd_after n k : (n + k <= len)%nat -> (0 < k)%nat -> Forall (fun c => c < 128) (firstn k (skipn n input)) -> bnd (n + k).
Proof.
  intros L K F. destruct k as [|k]; [lia|].
  assert (H : nth (n + k) input EOF < 128).
  { rewrite Forall_forall in F. apply F.
    destruct (nth_error_nth input k n) as [E|E]; [|lia].
    apply (nth_error_In _ k). rewrite <- E.
    rewrite <- (firstn_skipn (S k) (skipn n input)) at 2. rewrite nth_error_app1; [reflexivity|].
    rewrite firstn_length, skipn_length. lia. }
  apply bnd_succ in H. rewrite Nat.min_l in H by lia. replace (n + S k)%nat with (n + k + 1)%nat by lia. exact H.
Qed.
Lemma n_number tab n : (n <= len)%nat -> bnd n ->
  wlp (a_number input tab n) n (fun r n' => match r with
     | Some r => bnd n' /\ sc_nice r = true /\ r <> ScNull NEmpty /\ Forall sok (sc_strings r) | None => True end).
Proof.
  intros L B. unfold a_number. run.
  eapply wlp_bind with (R := fun _ n' => (n <= n' <= len)%nat).
  { destruct (N.eqb_spec (nth (n + 0) input EOF) DASH) as [E|E].
    - apply wlp_bump. lia.
    - apply wlp_ret. lia. }
  intros _ n1 L1. run. pose proof (num_scan_le (skipn n1 input) true true false) as K.
  pose proof (num_scan_ascii (skipn n1 input) true true false) as A.
  destruct (num_scan true true false (skipn n1 input)) as [k fl]. cbn [fst] in *.
  rewrite skipn_length in K. run. rewrite Nat.min_l by lia.
  destruct (Nat.eqb_spec k 0) as [|NZ]; [apply wlp_ret; exact I|].
  unfold a_is_eol. apply wlp_bind_assoc. run.
  destruct (tab && negb _); [apply wlp_ret; exact I|]. run.
  assert (BN : bnd (n1 + k)) by (apply bnd_after; [lia|lia|exact A]).
  apply wlp_ret. cbn. split; [exact BN|]. split; [reflexivity|]. split; [discriminate|]. constructor; [|constructor].
  now apply seg_sok.
Qed.

Lemma sqe_scan_text m : forall r k o acc, (length r <= m)%nat -> sqe_scan r = Some (k, o) -> text (acc ++ r) -> text (acc ++ o).
Proof.
  induction m as [|m IH]; intros r k o acc L H T.
  - destruct r; [discriminate|cbn in L; lia].
  - destruct r as [|c r]; [discriminate|]. cbn in L. cbn [sqe_scan] in H.
    destruct (N.eqb_spec c SQUOTE) as [->|NE].
    + destruct (text_split _ _ _ (eq_refl : is_cont SQUOTE = false) T) as [T1 T2].
      destruct r as [|c' r']; [injection H as <- <-; now rewrite app_nil_r|].
      destruct (N.eqb_spec c' SQUOTE) as [->|NE]; [|injection H as <- <-; now rewrite app_nil_r].
      destruct (sqe_scan r') as [[k' o']|] eqn:E; [|discriminate]. injection H as <- <-.
      cbn in L. specialize (IH r' k' o' (acc ++ [SQUOTE])). rewrite <- !app_assoc in IH. apply IH; [lia|exact E|].
      apply text_app; [exact T1|]. now apply text_ascii in T2.
    + destruct (sqe_scan r) as [[k' o']|] eqn:E; [|discriminate]. injection H as <- <-.
      specialize (IH r k' o' (acc ++ [c])). rewrite <- !app_assoc in IH. apply IH; [lia|exact E|exact T].
Qed.
Lemma sqe_scan_stop m : forall r k o, (length r <= m)%nat -> sqe_scan r = Some (k, o) -> nth_error r k = Some SQUOTE.
Proof.
  induction m as [|m IH]; intros r k o L H.
  - destruct r; [discriminate|cbn in L; lia].
  - destruct r as [|c r]; [discriminate|]. cbn in L. cbn [sqe_scan] in H.
    destruct (N.eqb_spec c SQUOTE) as [->|NE].
    + destruct r as [|c' r']; [injection H as <- <-; reflexivity|].
      destruct (N.eqb_spec c' SQUOTE) as [->|NE]; [|injection H as <- <-; reflexivity].
      destruct (sqe_scan r') as [[k' o']|] eqn:E; [|discriminate]. injection H as <- <-. cbn.
      cbn in L. eapply IH; [|exact E]. lia.
    + destruct (sqe_scan r) as [[k' o']|] eqn:E; [|discriminate]. injection H as <- <-. cbn.
      eapply IH; [|exact E]. lia.
Qed.
Lemma Forall_2 (P : bytes -> Prop) x y : P x -> P y -> Forall P [x; y].
Proof. auto. Qed.
Definition rpost (r : rstr bytes) (n' : nat) : Prop :=
  bnd n' /\ rs_nice r = true /\ Forall sok (rs_strings r).
Lemma nth_err k n c : nth_error (skipn n input) k = Some c -> nth (n + k) input EOF = c.
Proof.
  intros H. destruct (nth_error_nth input k n) as [E|E]; [congruence|].
  assert (nth_error (skipn n input) k = None) by (apply nth_error_None; rewrite skipn_length; lia). congruence.
Qed.
Lemma n_single_quoted n : (n < len)%nat -> bnd n -> nth n input EOF = SQUOTE ->
  wlp (a_single_quoted input) n rpost.
Proof.
  intros L B E. unfold a_single_quoted. run.
  assert (B1 : bnd (Nat.min (n + 1) len)) by (apply bnd_succ; rewrite E; reflexivity).
  rewrite Nat.min_l in * by lia.
  pose proof (sq_scan_spec (skipn (n + 1) input)) as S. rewrite skipn_length in S.
  destruct (sq_scan (skipn (n + 1) input)) as [|k|k].
  - exact I.
  - run. destruct S as [S1 S2]. apply nth_err in S2. rewrite Nat.min_l by lia.
    replace (Nat.eqb (n + 1 + k) len) with false by (symmetry; apply Nat.eqb_neq; lia).
    assert (B2 : bnd (n + 1 + k)) by (apply bnd_nth; rewrite S2; reflexivity).
    assert (B3 : bnd (Nat.min (n + 1 + k + 1) len)) by (apply bnd_succ; rewrite S2; reflexivity).
    apply wlp_ret. split; [exact B3|]. split; [reflexivity|]. apply Forall_2; now apply seg_sok.
  - destruct S as [S1 S2]. apply nth_err in S2. run. unfold a_single_quoted_escaped. rewrite Nat.min_l by lia. run.
    assert (B2 : bnd (n + 1 + k)) by (apply bnd_nth; rewrite S2; reflexivity).
    destruct (sqe_scan (skipn (n + 1 + k) input)) as [[k2 o]|] eqn:E2; [|exact I].
    pose proof (sqe_scan_le _ (skipn (n + 1 + k) input) (le_n _)) as S3. rewrite skipn_length, E2 in S3.
    pose proof (sqe_scan_stop _ _ _ _ (le_n _) E2) as S4. apply nth_err in S4.
    run. rewrite (Nat.min_l (n + 1 + k + k2)) by lia.
    assert (B3 : bnd (Nat.min (n + 1 + k + k2 + 1) len)) by (apply bnd_succ; rewrite S4; reflexivity).
    apply wlp_ret. split; [exact B3|]. split; [reflexivity|]. apply Forall_2; [|now apply seg_sok].
    intros T. eapply sqe_scan_text; [apply le_n|exact E2|].
    apply text_app; [now apply seg_sok|apply B2, T].
Qed.


(* ---- double quotes ---- *)
Lemma hex_ascii c v : hex_value c = Some v -> c < 128.
Proof.
  unfold hex_value, is_digit. intros H. repeat match goal with H : context [if ?x then _ else _] |- _ => destruct x eqn:? end;
  try discriminate; repeat match goal with H : _ && _ = true |- _ => apply andb_prop in H as [? ?] | H : (_ <=? _) = true |- _ => apply N.leb_le in H end; lia.
Qed.
Lemma escape_ascii c o : escape_char c = Some o -> c < 128 /\ o < 128.
Proof.
  unfold escape_char. intros H. repeat match goal with H : context [if ?x =? ?y then _ else _] |- _ => destruct (N.eqb_spec x y) end;
  try discriminate; injection H as <-; subst; split; reflexivity.
Qed.
Lemma n_digits start err count : forall c n, (n <= len)%nat -> bnd n ->
  wlp (a_unescape_digits input start count err c) n (fun _ n' => (n' <= len)%nat /\ bnd n').
Proof.
  induction count as [|count IH]; intros c n L B; cbn [a_unescape_digits].
  - apply wlp_ret. auto.
  - run. destruct (hex_value _) as [v|] eqn:E; [|run; apply wlp_err].
    run. apply hex_ascii in E. rewrite Nat.add_0_r in E. apply bnd_succ in E. apply IH; [lia|exact E].
Qed.
Lemma n_unescape start n : (n <= len)%nat -> bnd n ->
  wlp (a_unescape input start) n (fun x n' => (n' <= len)%nat /\ bnd n' /\ text x).
Proof.
  intros L B. unfold a_unescape. run. destruct (escape_char _) as [o|] eqn:E.
  - apply escape_ascii in E as [E1 E2]. rewrite Nat.add_0_r in E1. run. apply bnd_succ in E1.
    apply wlp_ret. split; [lia|]. split; [exact E1|]. apply text_ascii_all. auto.
  - assert (U : forall c count err, nth (n + 0) input EOF = c -> c < 128 ->
      wlp (a_bump input 1 ;;; a_unescape_unicode input start count err) n
                (fun x n' => (n' <= len)%nat /\ bnd n' /\ text x)).
    { intros c count err EC CA. rewrite Nat.add_0_r in EC. rewrite <- EC in CA. apply bnd_succ in CA. run.
      unfold a_unescape_unicode. eapply wlp_bind; [apply n_digits; [lia|exact CA]|].
      intros c' n2 (L2 & B2); cbn in L2. destruct (is_scalar_value c') eqn:SV; [|run; apply wlp_err].
      apply wlp_ret. repeat split; auto. now apply encode_text. }
    destruct (N.eqb_spec (nth (n + 0) input EOF) 120) as [E1|_]; [apply (U _ _ _ E1); reflexivity|].
    destruct (N.eqb_spec (nth (n + 0) input EOF) 117) as [E1|_]; [apply (U _ _ _ E1); reflexivity|].
    run. apply wlp_err.
Qed.
Lemma n_dqe_loop f : forall acc n, (n <= len)%nat -> (text input -> text (acc ++ skipn n input)) ->
  wlp (a_dqe_loop input f acc) n (fun x n' => (n' <= len)%nat /\ sok x /\ nth n' input EOF < 128).
Proof.
  induction f as [|f IH]; intros acc n L I; [exact Logic.I|]. cbn [a_dqe_loop]. run.
  rewrite Nat.add_0_r.
  assert (CUT : nth n input EOF < 128 -> text input -> text acc /\ text (skipn (Nat.min (n + 1) len) input)).
  { intros H T. split; [|now apply bnd_succ]. specialize (I T).
    apply bnd_nth in H. now apply (text_app_l _ _ I), H. }
  destruct (_ || _) eqn:E.
  - assert (A : nth n input EOF < 128).
    { apply orb_prop in E as [E|E]; apply N.eqb_eq in E; rewrite E; reflexivity. }
    apply wlp_ret. split; [exact L|]. split; [|exact A]. intros T. now apply CUT.
  - destruct (N.eqb_spec (nth n input EOF) BACKSLASH) as [EB|EB].
    + run. assert (A : nth n input EOF < 128) by (rewrite EB; reflexivity).
      eapply wlp_bind; [apply n_unescape; [lia|intros T; now apply CUT]|].
      intros x n2 (L2 & B2 & X2). apply IH; [exact L2|]. intros T. rewrite <- app_assoc.
      apply text_app; [now apply CUT|]. apply text_app; [exact X2|now apply B2].
    + run. apply orb_false_elim in E as [_ E]. apply N.eqb_neq in E.
      pose proof (nth_lt input n _ eq_refl E) as [L2 _].
      eapply wlp_mono; [apply IH; [lia|]|auto]. intros T. specialize (I T). rewrite <- app_assoc.
      rewrite Nat.min_l by lia.
      enough (SK : skipn n input = nth n input EOF :: skipn (n + 1) input) by (rewrite SK in I; exact I).
      rewrite Nat.add_comm, <- skipn_add. rewrite nth_skipn. clear - L2.
      assert (0 < length (skipn n input))%nat by (rewrite skipn_length; lia).
      destruct (skipn n input); [cbn in *; lia|reflexivity].
Qed.
Lemma dq_scan_stop r : match dq_scan r with
  | (k, true) => nth_error r k = Some BACKSLASH
  | (k, false) => match nth_error r k with Some c => c = DQUOTE \/ c = EOF | None => True end
  end.
Proof.
  induction r as [|c r IH]; cbn; [auto|].
  destruct (_ || _) eqn:E.
  - cbn. apply orb_prop in E as [E|E]; apply N.eqb_eq in E; auto.
  - destruct (N.eqb_spec c BACKSLASH) as [->|]; [reflexivity|].
    destruct (dq_scan r) as [k [|]]; exact IH.
Qed.
Lemma nth_err_ascii k n (P : byte -> Prop) : (forall c, P c -> c < 128) ->
  match nth_error (skipn n input) k with Some c => P c | None => True end -> nth (n + k) input EOF < 128.
Proof.
  intros A H. destruct (nth_error_nth input k n) as [E|E].
  - rewrite E in H. auto.
  - rewrite nth_overflow by lia. reflexivity.
Qed.
Lemma n_double_quoted n : (n < len)%nat -> bnd n -> nth n input EOF = DQUOTE ->
  wlp (a_double_quoted input) n rpost.
Proof.
  intros L B E. unfold a_double_quoted. run.
  assert (B1 : bnd (Nat.min (n + 1) len)) by (apply bnd_succ; rewrite E; reflexivity).
  rewrite Nat.min_l in * by lia.
  pose proof (dq_scan_spec (skipn (n + 1) input)) as S. rewrite skipn_length in S.
  pose proof (dq_scan_stop (skipn (n + 1) input)) as S2.
  destruct (dq_scan (skipn (n + 1) input)) as [k [|]]; run; rewrite Nat.min_l by lia.
  - apply nth_err in S2. unfold a_double_quoted_escaped. run.
    assert (B2 : bnd (n + 1 + k)) by (apply bnd_nth; rewrite S2; reflexivity).
    eapply wlp_bind; [apply n_dqe_loop; [lia|]|].
    { intros T. apply text_app; [now apply seg_sok|now apply B2]. }
    intros x n2 (L2 & X2 & A2). run. apply bnd_succ in A2. apply wlp_ret. split; [exact A2|].
    split; [reflexivity|]. apply Forall_2; [exact X2|now apply seg_sok].
  - assert (A : nth (n + 1 + k) input EOF < 128).
    { eapply nth_err_ascii; [|exact S2]. intros c [->| ->]; reflexivity. }
    assert (B2 : bnd (n + 1 + k)) by now apply bnd_nth.
    run. apply wlp_ret.
    assert (B3 : bnd (Nat.min (n + 1 + k + (if (n + 1 + k =? len)%nat then 0 else 1)) len)).
    { destruct (Nat.eqb_spec (n + 1 + k) len) as [EL|EL]; [|now apply bnd_succ].
      rewrite Nat.min_l by lia. now rewrite Nat.add_0_r. }
    split; [exact B3|]. split; [reflexivity|]. apply Forall_2; now apply seg_sok.
Qed.
Lemma key_scan_stop r : match nth_error r (fst (key_scan r)) with Some c => c = NEWLINE \/ c = COLON | None => True end.
Proof.
  induction r as [|c r IH]; cbn; [auto|]. destruct (N.eqb_spec c NEWLINE) as [->|]; [cbn; auto|].
  destruct (_ && _) eqn:E.
  - apply andb_prop in E as [E _]. apply N.eqb_eq in E. cbn. auto.
  - destruct (key_scan r) as [k e]. exact IH.
Qed.
Lemma key_post start n : bnd start -> bnd n -> rpost (RS KBare (seg start n) (seg start n)) n.
Proof. intros B1 B2. split; [exact B2|]. split; [reflexivity|]. apply Forall_2; now apply seg_sok. Qed.
Lemma n_key_or_eol start n : (n <= len)%nat -> bnd start ->
  wlp (a_key_or_eol input start) n (fun r n' => bnd n' /\ match r with Some key => rpost key n' | None => True end).
Proof.
  intros L B. unfold a_key_or_eol. run. pose proof (key_scan_stop (skipn n input)) as S.
  pose proof (key_scan_spec (skipn n input)) as S2.
  destruct (key_scan (skipn n input)) as [k e]. cbn [fst] in S.
  assert (B2 : bnd (n + k)).
  { apply bnd_nth. eapply nth_err_ascii; [|exact S]. intros c [->| ->]; reflexivity. }
  run. rewrite Nat.min_l.
  2:{ rewrite skipn_length in S2. destruct e; lia. }
  destruct e; run; apply wlp_ret; split; auto. now apply key_post.
Qed.
Lemma bnd_colon n : (n <= len)%nat -> bnd (n + colon_scan (skipn n input)).
Proof.
  intros L. apply bnd_nth. eapply nth_err_ascii; [|apply colon_scan_stop]. intros c [->| ->]; reflexivity.
Qed.
Lemma n_until_colon n : (n <= len)%nat -> bnd n ->
  wlp (a_until_colon input n) n (fun r n' => bnd n' /\ match r with Some key => rpost key n' | None => True end).
Proof.
  intros L B. unfold a_until_colon. pose proof (bnd_colon n L) as B2.
  pose proof (colon_scan_le (skipn n input)) as S. rewrite skipn_length in S.
  run. rewrite Nat.min_l by lia. destruct (Nat.eqb _ _); run; apply wlp_ret; split; auto. now apply key_post.
Qed.
Lemma n_next_mapping_key n : (n <= len)%nat -> bnd n ->
  wlp (a_next_mapping_key input) n (fun r n' => bnd n' /\ match r with Some key => rpost key n' | None => True end).
Proof.
  intros L B. unfold a_next_mapping_key. pose proof (bnd_colon n L) as B2.
  pose proof (colon_scan_le (skipn n input)) as S. rewrite skipn_length in S.
  run. rewrite Nat.min_l by lia. destruct (seg n _) eqn:E; run; apply wlp_ret; split; auto.
  rewrite <- E. now apply key_post.
Qed.

(* ---- block scalars ---- *)
Lemma n_find c n : (n <= len)%nat -> c < 128 ->
  wlp (a_find input c) n (fun _ n' => (n <= n' <= len)%nat /\ bnd n').
Proof.
  intros L A. apply wlp_wp. apply wp_find; [exact L|]. intros n' H1 _ [->|E].
  - split; [lia|apply bnd_len].
  - split; [lia|]. apply bnd_nth. now rewrite E.
Qed.
Lemma repeat_text c k : c < 128 -> text (repeat c k).
Proof. intros H. apply text_ascii_all. apply Forall_forall. intros x I. apply repeat_spec in I. now subst. Qed.
Lemma n_block_loop join folded ind f : join < 128 -> forall w nl stop acc n,
  (n <= len)%nat -> bnd n -> bnd stop -> sok w -> sok acc ->
  wlp (a_block_loop input f join folded ind w nl stop acc) n (fun r n' =>
    let '(w', nl', stop', acc') := r in (n' <= len)%nat /\ bnd n' /\ bnd stop' /\ sok w' /\ sok acc').
Proof.
  intros J. induction f as [|f IH]; intros w nl stop acc n L B BS W A; [exact I|].
  cbn [a_block_loop]. run. destruct (Nat.eqb _ _); run; [apply wlp_ret; auto 6|].
  eapply wlp_bind; [apply n_find; [exact L|reflexivity]|]. intros _ n1 (L1 & B1). run.
  eapply wlp_bind; [apply nl_ws; [lia|exact B1]|]. intros [w1 nl1] n2 (L2 & B2 & _ & W2 & _). cbn [fst snd] in *. run.
  assert (A2 : sok (acc ++ trim (seg n n1))).
  { intros T. apply text_app; [now apply A|]. apply text_trim. now apply seg_sok. }
  destruct (_ <? ind)%nat.
  - apply wlp_ret. repeat split; auto. lia.
  - apply IH; auto; [lia|]. intros T. apply text_app; [now apply A2|]. now apply repeat_text.
Qed.
Lemma n_block n k join folded chomp clip : join < 128 -> (n <= len)%nat -> bnd n ->
  bnd (Nat.min (n + k) len) -> forallb (fun c => c <? 128) (seg n (Nat.min (n + k) len)) = true ->
  wlp (a_block input k join folded chomp clip) n (fun r n' => (n' <= len)%nat /\ bnd n' /\
     sc_nice (fst r) = true /\ Forall sok (sc_strings (fst r)) /\ (fst r <> ScNull NEmpty) /\
     match snd r with Some w => sok w | None => True end).
Proof.
  intros J L B Bk HA. unfold a_block. run. set (n1 := Nat.min (n + k) len) in *.
  eapply wlp_bind; [apply nl_ws; [lia|exact Bk]|].
  intros [w nl] n2 (L2 & B2 & _ & W2 & _). cbn [fst snd] in *.
  eapply wlp_bind with (R := fun r n' => (n' <= len)%nat /\ bnd n' /\ sok (fst (fst r)) /\ sok (snd r)).
  { destruct (Nat.eqb nl 0).
    - eapply wlp_bind; [apply n_find; [lia|reflexivity]|]. intros _ n3 (L3 & B3). run.
      eapply wlp_bind; [apply nl_ws; [lia|exact B3]|]. intros [w' nl'] n4 (L4 & B4 & _ & W4 & _).
      cbn [fst snd] in *. run. apply wlp_ret. cbn [fst snd]. repeat split; auto; [lia|].
      intros T. apply text_app; [apply text_trim; now apply seg_sok|].
      destruct (Nat.eqb _ _); [constructor|]. apply text_ascii_all. auto.
    - apply wlp_ret. cbn [fst snd]. repeat split; auto; [lia|]. intros _. constructor. }
  intros [[w1 nl1] acc] n3 (L3 & B3 & W3 & A3). cbn [fst snd] in *. run.
  eapply wlp_bind; [apply n_block_loop; auto|].
  intros [[[w' nl'] stop'] acc'] n' (L' & B' & BS & W' & A'). apply wlp_ret. cbn [fst snd].
  split; [exact L'|]. split; [exact B'|]. split; [exact HA|]. split; [|split; [discriminate|exact W']].
  cbn. apply Forall_cons; [now apply seg_sok|]. apply Forall_2; [|now apply seg_sok].
  intros T. apply text_app; [now apply A'|]. now apply repeat_text.
Qed.

Lemma ctl_scan_stop r : match nth_error r (ctl_scan r) with Some c => is_ctl c = true | None => True end.
Proof. induction r as [|c r IH]; cbn; [auto|]. destruct (is_ctl c) eqn:E; cbn; auto. Qed.
Lemma ctl_ascii c : is_ctl c = true -> c < 128.
Proof.
  unfold is_ctl. intros H. repeat (apply orb_prop in H as [H|H]; [|apply N.eqb_eq in H; subst; reflexivity]).
  apply N.eqb_eq in H. subst. reflexivity.
Qed.
(* ---- values ---- *)
Definition npost (r : tree unit * option bytes) (n' : nat) : Prop :=
  (n' <= len)%nat /\ bnd n' /\ nice (fst r) = true /\ Forall sok (strings (fst r)) /\
  match snd r with Some w => sok w | None => True end.
Section Value.
Variable value : astate -> AM (tree unit * option bytes).
Hypothesis VH : forall a n, (n <= len)%nat -> bnd n -> sok (as_prefix a) -> wlp (value a) n npost.

Lemma n_ws_value {X} (k : tree unit * option bytes -> AM X) inl tab ind n Q :
  (n <= len)%nat -> bnd n ->
  (forall r n', npost r n' -> wlp (k r) n' Q) ->
  wlp (p <- a_ws input ;; r <- value (AState p inl tab ind) ;; k r) n Q.
Proof.
  intros L B K. eapply wlp_bind; [now apply n_ws|]. intros p n1 (L1 & B1 & _ & W1 & _).
  eapply wlp_bind; [apply VH; [lia|exact B1|exact W1]|]. exact K.
Qed.
Definition snice (its : list (sitem unit)) : Prop :=
  Forall (fun '(_, ip, v) => sok ip /\ nice v = true /\ Forall sok (strings v)) its.
Definition mnice (its : list (mitem unit)) : Prop :=
  Forall (fun '(_, ip, key, v) => sok ip /\ rs_nice key = true /\ Forall sok (rs_strings key) /\
            nice v = true /\ Forall sok (strings v)) its.
Lemma snice_tree its p n k : snice its -> filled k its = true -> sok p -> Forall sok (ck_strings k) ->
  nice (TSeq tt p n k its) = true /\ Forall sok (strings (TSeq tt p n k its)).
Proof.
  intros S F P K. split.
  - cbn [nice]. apply andb_true_intro. split; [exact F|]. apply forallb_forall. unfold snice in S. rewrite Forall_forall in S.
    intros [[ii ip] v] I. apply S in I. apply I.
  - cbn [strings tpre]. apply Forall_cons; [exact P|]. apply Forall_app. split; [exact K|].
    apply Forall_flat_map. revert S. apply Forall_impl. intros [[ii ip] v] (H1 & H2 & H3). auto.
Qed.
Lemma mnice_tree its p n k : mnice its -> filled k its = true -> sok p -> Forall sok (ck_strings k) ->
  nice (TMap tt p n k its) = true /\ Forall sok (strings (TMap tt p n k its)).
Proof.
  intros S F P K. split.
  - cbn [nice]. apply andb_true_intro. split; [exact F|]. apply forallb_forall. unfold mnice in S. rewrite Forall_forall in S.
    intros [[[ii ip] key] v] I. apply S in I as (_ & H1 & _ & H2 & _). now rewrite H1, H2.
  - cbn [strings tpre]. apply Forall_cons; [exact P|]. apply Forall_app. split; [exact K|].
    apply Forall_flat_map. revert S. apply Forall_impl. intros [[[ii ip] key] v] (H1 & H2 & H3 & H4 & H5).
    apply Forall_cons; [exact H1|]. apply Forall_app. auto.
Qed.
Lemma snice_snoc its ip v n' w : snice its -> sok ip -> npost (v, w) n' -> snice (its ++ [(tt, ip, v)]).
Proof.
  intros S P (_ & _ & H1 & H2 & _). apply Forall_app. split; [exact S|]. constructor; [auto|constructor].
Qed.
Lemma mnice_snoc its ip key v n' n'' w : mnice its -> sok ip -> rpost key n'' -> npost (v, w) n' ->
  mnice (its ++ [(tt, ip, key, v)]).
Proof.
  intros S P (_ & K1 & K2) (_ & _ & H1 & H2 & _). apply Forall_app. split; [exact S|].
  constructor; [auto|constructor].
Qed.
Lemma n_iseq_loop f : forall items last tr ip n, (n <= len)%nat -> bnd n -> sok ip -> snice items ->
  wlp (a_iseq_loop input value f items last tr ip) n (fun r n' =>
    let '(items', _, p) := r in (n' <= len)%nat /\ bnd n' /\ snice items' /\ sok p).
Proof.
  induction f as [|f IH]; intros items last tr ip n L B P S; [exact I|]. cbn [a_iseq_loop]. run.
  destruct (_ || _); [apply wlp_ret; auto|].
  apply n_ws_value; auto. intros [v w] n2 V2. pose proof V2 as (L2 & B2 & _ & _ & W2). cbn [snd] in W2.
  cbv beta iota zeta.
  assert (S2 : snice (items ++ [(tt, ip, v)])) by (eapply snice_snoc; eauto).
  destruct last.
  - eapply wlp_bind; [apply n_or_ws; auto|]. intros p n3 (L3 & B3 & P3). apply wlp_ret. split; [lia|]. auto.
  - run. destruct (N.eqb_spec (nth (n2 + 0) input EOF) COMMA) as [E|_].
    + run. rewrite Nat.add_0_r in E. assert (B3 : bnd (Nat.min (n2 + 1) len)) by (apply bnd_succ; rewrite E; reflexivity).
      eapply wlp_bind; [apply n_or_ws; [lia|exact B3|exact W2]|]. intros p n3 (L3 & B3' & P3). apply IH; auto. lia.
    + eapply wlp_bind; [apply n_or_ws; auto|]. intros p n3 (L3 & B3 & P3). apply IH; auto. lia.
Qed.
Lemma n_inline_sequence a n : (n <= len)%nat -> bnd n -> sok (as_prefix a) -> nth n input EOF = LBRACK ->
  wlp (a_inline_sequence input value a) n (fun t n' => npost (t, None) n').
Proof.
  intros L B P E. unfold a_inline_sequence. run.
  eapply wlp_bind; [apply n_ws; [lia|apply bnd_succ; rewrite E; reflexivity]|].
  intros p n2 (L2 & B2 & _ & P2 & _).
  eapply wlp_bind; [apply n_iseq_loop; auto; [lia|constructor]|]. intros [[its tr] p'] n3 (L3 & B3 & S3 & P3). run.
  destruct (N.eqb_spec (nth (n3 + 0) input EOF) RBRACK) as [EC|_]; cbn [negb]; run; [|apply wlp_err].
  rewrite Nat.add_0_r in EC.
  apply wlp_ret. assert (K : Forall sok (ck_strings (CInline tr p'))) by (constructor; [exact P3|constructor]).
  pose proof (snice_tree its (as_prefix a) 0 (CInline tr p') S3 eq_refl P K) as [H1 H2].
  split; [lia|]. split; [apply bnd_succ; rewrite EC; reflexivity|]. cbn [fst snd]. auto.
Qed.
Lemma n_imap_loop f : forall items last tr start ip n, (n <= len)%nat -> bnd n -> sok ip -> mnice items ->
  wlp (a_imap_loop input value f items last tr start ip) n (fun r n' =>
    let '(items', _, p, _) := r in (n' <= len)%nat /\ bnd n' /\ mnice items' /\ sok p).
Proof.
  induction f as [|f IH]; intros items last tr start ip n L B P S; [exact I|]. cbn [a_imap_loop]. run.
  destruct (_ || _); [apply wlp_ret; auto|]. run.
  eapply wlp_bind; [apply wlp_and; [apply wlp_wp, wp_until_colon, L|now apply n_until_colon]|].
  intros key n1 ((L1 & K1) & B1 & K2). destruct key as [key|]; run; [|apply wlp_err].
  destruct K1 as (L1' & _ & KC).
  apply n_ws_value; [lia|apply bnd_succ; destruct KC as [->| ->]; reflexivity|].
  intros [v w] n2 V2. pose proof V2 as (L2 & B2 & _ & _ & W2). cbn [snd] in W2. cbv beta iota zeta.
  assert (S2 : mnice (items ++ [(tt, ip, key, v)])) by (eapply mnice_snoc; eauto).
  eapply wlp_bind; [apply n_or_ws; auto|]. intros p n3 (L3 & B3 & P3).
  destruct last; [apply wlp_ret; split; [lia|]; auto|]. run.
  destruct (N.eqb_spec (nth (n3 + 0) input EOF) COMMA) as [E|_]; run.
  - rewrite Nat.add_0_r in E. eapply wlp_bind; [apply n_ws; [lia|apply bnd_succ; rewrite E; reflexivity]|].
    intros p' n4 (L4 & B4 & _ & P4 & _). apply IH; auto. lia.
  - eapply wlp_bind; [apply n_ws; [lia|exact B3]|].
    intros p' n4 (L4 & B4 & _ & P4 & _). apply IH; auto. lia.
Qed.
Lemma n_inline_mapping a n : (n <= len)%nat -> bnd n -> sok (as_prefix a) -> nth n input EOF = LBRACE ->
  wlp (a_inline_mapping input value a) n (fun t n' => npost (t, None) n').
Proof.
  intros L B P E. unfold a_inline_mapping. run.
  eapply wlp_bind; [apply n_ws; [lia|apply bnd_succ; rewrite E; reflexivity]|].
  intros p n2 (L2 & B2 & _ & P2 & _).
  eapply wlp_bind; [apply n_imap_loop; auto; [lia|constructor]|]. intros [[[its tr] p'] st] n3 (L3 & B3 & S3 & P3). run.
  destruct (N.eqb_spec (nth (n3 + 0) input EOF) RBRACE) as [EC|_]; cbn [negb]; run; [|apply wlp_err].
  rewrite Nat.add_0_r in EC.
  apply wlp_ret. assert (K : Forall sok (ck_strings (CInline tr p'))) by (constructor; [exact P3|constructor]).
  pose proof (mnice_tree its (as_prefix a) 0 (CInline tr p') S3 eq_refl P K) as [H1 H2].
  split; [lia|]. split; [apply bnd_succ; rewrite EC; reflexivity|]. cbn [fst snd]. auto.
Qed.
Lemma n_seq_loop ind f : forall items ip n, (n <= len)%nat -> nth n input EOF = DASH -> sok ip -> snice items ->
  wlp (a_seq_loop input value f ind items ip) n (fun r n' =>
    let '(items', w) := r in (n' <= len)%nat /\ bnd n' /\ snice items' /\ sok w /\ items' <> []).
Proof.
  induction f as [|f IH]; intros items ip n L E P S; [exact I|]. cbn [a_seq_loop]. run.
  apply n_ws_value; [lia|apply bnd_succ; rewrite E; reflexivity|].
  intros [v w] n2 V2. pose proof V2 as (L2 & B2 & _ & _ & W2). cbn [snd] in W2. cbv beta iota zeta.
  assert (S2 : snice (items ++ [(tt, ip, v)])) by (eapply snice_snoc; eauto).
  eapply wlp_bind; [apply n_or_ws; auto|]. intros p n3 (L3 & B3 & P3). run.
  destruct (_ || _) eqn:C.
  - apply wlp_ret. split; [lia|]. repeat split; auto. destruct items; discriminate.
  - apply orb_false_elim in C as [_ C]. apply negb_false_iff, N.eqb_eq in C. rewrite Nat.add_0_r in C.
    apply IH; auto. lia.
Qed.
Lemma n_sequence a n : (n <= len)%nat -> bnd n -> sok (as_prefix a) -> nth n input EOF = DASH ->
  wlp (a_sequence input value a) n npost.
Proof.
  intros L B P E. unfold a_sequence. run.
  eapply wlp_bind; [apply n_seq_loop; auto; [intros _; constructor|constructor]|].
  intros [its w] n' (L2 & B2 & S2 & W2 & NE). apply wlp_ret.
  assert (F : filled CBlock its = true) by (destruct its; [congruence|reflexivity]).
  pose proof (snice_tree its (as_prefix a) (indent_from input n) CBlock S2 F P ltac:(constructor)) as [H1 H2].
  split; [exact L2|]. split; [exact B2|]. cbn [fst snd]. auto.
Qed.
Lemma n_map_loop ind f : forall items start key ip n, (n <= len)%nat -> rpost key n -> sok ip -> mnice items ->
  wlp (a_map_loop input value f ind items start key ip) n (fun r n' =>
    let '(items', w) := r in (n' <= len)%nat /\ bnd n' /\ mnice items' /\ sok w /\ items' <> []).
Proof.
  induction f as [|f IH]; intros items start key ip n L K P S; [exact I|]. cbn [a_map_loop]. run.
  destruct (N.eqb_spec (nth (n + 0) input EOF) COLON) as [E|_]; cbn [negb]; run; [|apply wlp_err].
  rewrite Nat.add_0_r in E. apply n_ws_value; [lia|apply bnd_succ; rewrite E; reflexivity|].
  intros [v w] n2 V2. pose proof V2 as (L2 & B2 & _ & _ & W2). cbn [snd] in W2. cbv beta iota zeta.
  assert (S2 : mnice (items ++ [(tt, ip, key, v)])) by (eapply mnice_snoc; eauto).
  assert (NE : items ++ [(tt, ip, key, v)] <> []) by (destruct items; discriminate).
  eapply wlp_bind; [apply n_or_ws; auto|]. intros p n3 (L3 & B3 & P3). run.
  destruct (negb _); [apply wlp_ret; split; [lia|]; auto|]. run.
  eapply wlp_bind; [apply wlp_and; [apply wlp_wp, wp_next_mapping_key; lia|apply n_next_mapping_key; [lia|exact B3]]|].
  intros key' n4 ((L4 & K4) & B4 & K5). destruct key' as [key'|]; [|apply wlp_ret; split; [lia|]; auto].
  apply IH; auto. lia.
Qed.
Lemma n_mapping_or_nul a start key n : (start <= n <= len)%nat -> bnd start -> sok (as_prefix a) -> rpost key n ->
  wlp (a_mapping_or_nul input value a start key) n npost.
Proof.
  intros L B P K. unfold a_mapping_or_nul. destruct (match as_parent_indent a with Some _ => _ | _ => _ end).
  - run. apply wlp_ret. split; [lia|]. split; [exact B|]. cbn [fst snd]. split; [reflexivity|]. split; [|exact P].
    cbn. apply Forall_cons; [intros _; constructor|constructor].
  - eapply wlp_bind; [apply n_map_loop; auto; [lia|intros _; constructor|constructor]|].
    intros [its w] n' (L2 & B2 & S2 & W2 & NE). apply wlp_ret.
    assert (F : filled CBlock its = true) by (destruct its; [congruence|reflexivity]).
    pose proof (mnice_tree its (as_prefix a) (indent_from input start) CBlock S2 F P ltac:(constructor)) as [H1 H2].
    split; [exact L2|]. split; [exact B2|]. cbn [fst snd]. auto.
Qed.
Lemma plain_nice x p : sok x -> sok p -> nice (TLeaf tt p (a_plain x)) = true /\ Forall sok (strings (TLeaf tt p (a_plain x))).
Proof.
  intros X P. cbn [nice strings tpre]. unfold a_plain.
  repeat (destruct (beq _ _) || destruct (eq_ignore_case _ _)); cbn; (split; [reflexivity|]); auto 6.
Qed.
Lemma leaf_post a r w n' : (n' <= len)%nat -> bnd n' -> sok (as_prefix a) -> sc_nice r = true -> r <> ScNull NEmpty ->
  Forall sok (sc_strings r) -> match w with Some w => sok w | None => True end ->
  npost (TLeaf tt (as_prefix a) r, w) n'.
Proof.
  intros L B P N NE F W. split; [exact L|]. split; [exact B|]. cbn [fst snd nice strings tpre].
  split; [|split; [now constructor|exact W]]. rewrite N. destruct r as [[| |]|?|?|?]; auto.
Qed.
Lemma n_value_body a n : (n <= len)%nat -> bnd n -> sok (as_prefix a) ->
  wlp (a_value_body input value a) n npost.
Proof.
  intros L B P. unfold a_value_body. run. rewrite Nat.add_0_r.
  destruct (_ && _) eqn:C1.
  { apply andb_prop in C1 as [C1 _]. apply andb_prop in C1 as [C1 _]. apply N.eqb_eq in C1. now apply n_sequence. }
  clear C1. destruct (N.eqb_spec (nth n input EOF) DQUOTE) as [C2|_].
  { pose proof (nth_lt input n _ C2 ltac:(discriminate)) as [LT _]. run.
    eapply wlp_bind; [apply wlp_and; [apply wlp_wp, wp_double_quoted; now rewrite Nat.add_0_r|now apply n_double_quoted]|].
    intros x n1 ((L1 & K1 & K2) & R1). run. pose proof R1 as (R2 & R3 & R4).
    destruct (negb (as_inline a) && _) eqn:C.
    - apply n_mapping_or_nul; auto; lia.
    - apply wlp_ret, leaf_post; auto; try discriminate. lia. }
  destruct (N.eqb_spec (nth n input EOF) SQUOTE) as [C2|_].
  { pose proof (nth_lt input n _ C2 ltac:(discriminate)) as [LT _]. run.
    eapply wlp_bind; [apply wlp_and; [apply wlp_wp, wp_single_quoted; now rewrite Nat.add_0_r|now apply n_single_quoted]|].
    intros x n1 ((L1 & K1 & K2) & R1). run. pose proof R1 as (R2 & R3 & R4).
    destruct (negb (as_inline a) && _) eqn:C.
    - apply n_mapping_or_nul; auto; lia.
    - apply wlp_ret, leaf_post; auto; try discriminate. lia. }
  destruct (N.eqb_spec (nth n input EOF) LBRACK) as [C2|_].
  { eapply wlp_bind; [now apply n_inline_sequence|]. intros t n1 H. apply wlp_ret. exact H. }
  destruct (N.eqb_spec (nth n input EOF) LBRACE) as [C2|_].
  { eapply wlp_bind; [now apply n_inline_mapping|]. intros t n1 H. apply wlp_ret. exact H. }
  destruct (_ || _) eqn:C3.
  { assert (A : nth n input EOF < 128).
    { apply orb_prop in C3 as [C3|C3]; apply N.eqb_eq in C3; rewrite C3; reflexivity. }
    assert (NZ : nth n input EOF <> EOF).
    { apply orb_prop in C3 as [C3|C3]; apply N.eqb_eq in C3; rewrite C3; discriminate. }
    pose proof (nth_lt input n _ eq_refl NZ) as [LT _].
    eapply wlp_bind.
    { apply n_block; auto.
      - destruct (nth n input EOF =? GT); reflexivity.
      - destruct ((nth (n + 1) input EOF =? DASH) || (nth (n + 1) input EOF =? PLUS)) eqn:C4; [|now apply bnd_succ].
        replace (n + 2)%nat with (n + 1 + 1)%nat by lia. apply bnd_succ.
        apply orb_prop in C4 as [C4|C4]; apply N.eqb_eq in C4; rewrite C4; reflexivity.
      - destruct ((nth (n + 1) input EOF =? DASH) || (nth (n + 1) input EOF =? PLUS)) eqn:C4.
        + assert (A2 : nth (n + 1) input EOF < 128 /\ nth (n + 1) input EOF <> EOF).
          { apply orb_prop in C4 as [C4|C4]; apply N.eqb_eq in C4; rewrite C4; split; (reflexivity || discriminate). }
          destruct A2 as [A2 NZ2]. pose proof (nth_lt input (n + 1) _ eq_refl NZ2) as [LT2 SG2].
          pose proof (nth_lt input n _ eq_refl NZ) as [_ SG]. rewrite Nat.min_l by lia. replace (n + 2)%nat with (S (n + 1)) by lia.
          replace (seg n (S (n + 1))) with (seg n (S n) ++ seg (n + 1) (S (n + 1))).
          2: { rewrite Nat.add_1_r. apply seg_app; lia. }
          rewrite SG, SG2. cbn [app forallb]. apply N.ltb_lt in A, A2. now rewrite A, A2.
        + rewrite Nat.min_l by lia. rewrite Nat.add_1_r. pose proof (nth_lt input n _ eq_refl NZ) as [_ SG]. rewrite SG. cbn. apply N.ltb_lt in A. now rewrite A. }
    intros [r w] n1 (L1 & B1 & H1 & H2 & H3 & H4). cbn [fst snd] in *. apply wlp_ret, leaf_post; auto. }
  run. eapply wlp_bind; [apply wlp_and; [apply wlp_wp, wp_number; lia|now apply n_number]|].
  intros num n1 ((L1 & _) & N1). destruct num as [r|].
  { destruct N1 as (B1 & H1 & H2 & H3). apply wlp_ret, leaf_post; auto. lia. }
  destruct (as_inline a) eqn:NI.
  - run. pose proof (ctl_scan_le (skipn n1 input)) as K. rewrite skipn_length in K. rewrite Nat.min_l by lia.
    assert (B2 : bnd (n1 + ctl_scan (skipn n1 input))).
    { apply bnd_nth. eapply nth_err_ascii; [|apply ctl_scan_stop]. apply ctl_ascii. }
    apply wlp_ret. destruct (plain_nice (seg n (n1 + ctl_scan (skipn n1 input))) (as_prefix a)) as [H1 H2]; auto.
    { now apply seg_sok. }
    split; [lia|]. split; [exact B2|]. cbn [fst snd]. auto.
  - eapply wlp_bind; [apply wlp_and; [apply wlp_wp, (wp_key_or_eol input n); lia|apply n_key_or_eol; [lia|exact B]]|].
    intros key n2 ((L2 & _) & B2 & K2). destruct key as [key|].
    + apply n_mapping_or_nul; auto; lia.
    + run. apply wlp_ret. destruct (plain_nice (seg n n2) (as_prefix a)) as [H1 H2]; auto; [now apply seg_sok|].
      split; [lia|]. split; [exact B2|]. cbn [fst snd]. auto.
Qed.
End Value.
Lemma n_value f : forall a n, (n <= len)%nat -> bnd n -> sok (as_prefix a) -> wlp (a_value input f a) n npost.
Proof.
  induction f as [|f IH]; intros a n L B P; [exact I|]. cbn [a_value]. now apply n_value_body.
Qed.
Lemma n_sod_loop f : forall p n, (n <= len)%nat -> bnd n -> sok p ->
  wlp (a_sod_loop input f p) n (fun p n' => (n' <= len)%nat /\ bnd n' /\ sok p).
Proof.
  induction f as [|f IH]; intros p n L B P; [exact I|]. cbn [a_sod_loop]. run.
  destruct (_ =? PERCENT).
  - eapply wlp_bind; [apply n_find; [exact L|reflexivity]|]. intros _ n1 (L1 & B1).
    eapply wlp_bind; [apply n_ws; [lia|exact B1]|]. intros w n2 (L2 & B2 & _ & W2 & _). apply IH; auto. lia.
  - destruct (_ && _) eqn:E; [|apply wlp_ret; auto].
    apply andb_prop in E as [E E3]. apply N.eqb_eq in E3. run.
    assert (B3 : bnd (Nat.min (n + 3) len)).
    { replace (n + 3)%nat with (n + 2 + 1)%nat by lia. apply bnd_succ. rewrite E3. reflexivity. }
    eapply wlp_mono; [apply n_ws; [lia|exact B3]|]. cbn. intros w n2 (L2 & B2 & _ & W2 & _). split; [lia|]. auto.
Qed.
(* All strings of a parsed UTF-8 text are UTF-8, and the tree is nice. *)
Theorem parse_nice t suffix : a_parse input = Ok (t, suffix) ->
  nice t = true /\ (text input -> Forall text (suffix :: strings t)).
Proof.
  intros H. unfold a_parse in H.
  assert (W : wlp (a_parse_m input) 0 (fun r _ => nice (fst r) = true /\ Forall sok (snd r :: strings (fst r)))).
  { unfold a_parse_m, a_start_of_document. apply wlp_bind_assoc.
    eapply wlp_bind; [apply n_ws; [lia|apply bnd_0]|]. intros p n (L & B & _ & P & _).
    eapply wlp_bind; [apply n_sod_loop; auto; lia|]. intros p1 n1 (L1 & B1 & P1).
    eapply wlp_bind; [apply n_value; auto|]. intros [t' w] n2 (L2 & B2 & H1 & H2 & W2). cbn [fst snd] in *.
    eapply wlp_bind; [apply n_or_ws; auto|]. intros p3 n3 (L3 & B3 & P3). run.
    destruct (negb _); run; [apply wlp_err|]. apply wlp_ret. cbn [fst snd]. split; [exact H1|]. now constructor. }
  unfold wlp in W. destruct (a_parse_m input O) as [[[t' s'] n]|? ? ?| | |]; try discriminate.
  injection H as -> ->. cbn [fst snd] in W. destruct W as [W1 W2]. split; [exact W1|].
  intros T. revert W2. apply Forall_impl. intros x X. now apply X.
Qed.
End Nice.
