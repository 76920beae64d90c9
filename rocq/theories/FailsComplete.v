(* Whatever is wrong by the rules of Fails.v is what the parser reports: the other direction of
   C50. By induction on the rules. *)
From Coq Require Import String.
From Coq Require Import List NArith Bool Arith Lia.
From Verif Require Import Bytes Utf8 Data Parser Render Tree Abs Scan AbsText AbsNice Num Reads ReadsSound Shown Plain White Valid Lexed PropsScalar2 PropsMore Means Places MeansSound MeansComplete Printed PrintedSound PrintedComplete Fails FailsSound.
Import ListNotations.
Local Open Scope N_scope.

Section Complete.
Variable text : bytes.
Local Notation len := (length text).
Local Notation at_ i := (nth i text 0).
Local Notation part := (slice text).
Local Notation gap_to := (gap_to text).
Local Notation column := (column text).
Local Notation puts := (puts text).
Local Notation after := (after text).

(* the call fails with fault r, or Q holds of its result *)
Definition xwp {A} (r : fault) (m : AM A) (n : nat) (Q : A -> nat -> Prop) : Prop :=
  match m n with Ok (a, n') => Q a n' | Err x y k => r = bad k x y | Hang => r = stuck | _ => False end.
Definition fl {A} (r : fault) (m : AM A) (n : nat) : Prop := xwp r m n (fun _ _ => False).
Lemma xwp_ret {A} r (a : A) n (Q : A -> nat -> Prop) : Q a n -> xwp r (ret a) n Q.
Proof. auto. Qed.
Lemma xwp_bind {A B} r (m : AM A) (k : A -> AM B) n R Q : xwp r m n R -> (forall a n', R a n' -> xwp r (k a) n' Q) -> xwp r (bind m k) n Q.
Proof. unfold xwp, bind. destruct (m n) as [[a n']|? ? ?| | |]; intros H K; auto. now apply K. Qed.
Lemma xwp_eval {A B} r (m : AM A) (k : A -> AM B) n a n' Q : m n = Ok (a, n') -> xwp r (k a) n' Q -> xwp r (bind m k) n Q.
Proof. unfold xwp, bind. now intros ->. Qed.
Lemma xwp_twp {A B} r (m : AM A) (k : A -> AM B) n R Q : twp m n R -> (forall a n', R a n' -> xwp r (k a) n' Q) -> xwp r (bind m k) n Q.
Proof. intros (a & n' & E & H) K. eapply xwp_eval; [exact E|]. now apply K. Qed.
Lemma xwp_mono {A} r (m : AM A) n (R Q : A -> nat -> Prop) : xwp r m n R -> (forall a n', R a n' -> Q a n') -> xwp r m n Q.
Proof. unfold xwp. destruct (m n) as [[a n']|? ? ?| | |]; auto. Qed.
Lemma xwp_fl {A} r (m : AM A) n (Q : A -> nat -> Prop) : fl r m n -> xwp r m n Q.
Proof. intros H. eapply xwp_mono; [exact H|]. contradiction. Qed.
Lemma xwp_stop {A B} r (m : AM A) (k : A -> AM B) n Q : fl r m n -> xwp r (bind m k) n Q.
Proof. intros H. eapply xwp_bind; [exact H|]. contradiction. Qed.
Ltac run := repeat (lazymatch goal with
  | |- xwp ?r (bind a_get ?k) ?n ?Q => change (xwp r (k n) n Q)
  | |- xwp ?r (bind (a_rest _) ?k) ?n ?Q => change (xwp r (k (skipn n text)) n Q)
  | |- xwp ?r (bind (a_peek _ ?i) ?k) ?n ?Q => change (xwp r (k (nth (n + i) text EOF)) n Q)
  | |- xwp ?r (bind (a_eof _) ?k) ?n ?Q => change (xwp r (k (Nat.eqb n len)) n Q)
  | |- xwp ?r (bind (a_string _ ?s) ?k) ?n ?Q => change (xwp r (k (part s n)) n Q)
  | |- xwp ?r (bind (a_indent _) ?k) ?n ?Q => change (xwp r (k (indent_from text n)) n Q)
  | |- xwp ?r (bind (a_set ?m) ?k) ?n ?Q => change (xwp r (k tt) m Q)
  | |- xwp ?r (bind (a_bump _ ?i) ?k) ?n ?Q => change (xwp r (k tt) (Nat.min (n + i) len) Q)
  | |- xwp ?r (bind (ret ?x) ?k) ?n ?Q => change (xwp r (k x) n Q)
  end; cbv beta).
Ltac lits := repeat match goal with |- context [N.eqb ?x ?y] => is_const x; is_const y; let v := eval vm_compute in (N.eqb x y) in change (N.eqb x y) with v end; cbn [andb orb negb]; cbv iota.

(* ---- quotes ---- *)
Lemma split_at i c : (i < len)%nat -> at_ i = c -> text = firstn i text ++ c :: skipn (S i) text /\ length (firstn i text) = i.
Proof.
  intros L E. split; [|rewrite firstn_length; lia]. destruct (split3 text i (S i) ltac:(lia)) as (T & _ & _). rewrite part_at, seg_nil, E in T by lia. exact T.
Qed.
Lemma x_quote i r : bad_quote text i r -> (at_ i = DQUOTE /\ fl r (a_double_quoted text) i) \/ (at_ i = SQUOTE /\ fl r (a_single_quoted text) i).
Proof.
  intros [v E C|p v k e E L D B X].
  - right. split; [exact E|]. pose proof (at_lt _ _ _ E ltac:(discriminate)) as LT. destruct (split_at i _ LT E) as (T & LI). rewrite part_rest in C by lia. apply content_unclosed in C.
    assert (H : a_single_quoted text i = Hang) by (rewrite <- LI; apply (hang_single text _ _ T C)). unfold fl, xwp. now rewrite H.
  - left. split; [exact E|]. pose proof (at_lt _ _ _ E ltac:(discriminate)) as LT. pose proof (at_lt _ _ _ B ltac:(discriminate)) as LP.
    destruct (split_at i _ LT E) as (T & LI). destruct (split_at p _ LP B) as (T2 & LI2).
    assert (T3 : text = firstn i text ++ DQUOTE :: part (S i) p ++ BACKSLASH :: skipn (S p) text).
    { destruct (split3 text i p ltac:(lia)) as (T3 & _ & _). rewrite T3 at 1. f_equal. rewrite part_at, E by lia. cbn [app]. f_equal. f_equal. rewrite T2 at 1. rewrite skipn_app, LI2, Nat.sub_diag, skipn_all2 by lia. reflexivity. }
    assert (NE : forall e' x q, skipn (S p) text = e' ++ q -> ~ escape e' x).
    { intros e' x q S H. assert (T4 : text = (firstn p text ++ [BACKSLASH]) ++ e' ++ q) by (rewrite <- S, <- app_assoc; exact T2).
      assert (L4 : Datatypes.S p = length (firstn p text ++ [BACKSLASH])) by (rewrite app_length; unfold bytes, byte in *; rewrite LI2; cbn [length]; lia).
      assert (R : exists o, a_unescape text p (Datatypes.S p) = Ok o) by (rewrite L4; eexists; exact (r_unescape text p _ e' x q H T4)).
      rewrite (unescape_bad text p k e LP X) in R. destruct R as (? & R). discriminate R. }
    assert (LL : length (firstn i text ++ DQUOTE :: part (S i) p) = p) by (rewrite app_length; unfold bytes, byte in *; rewrite LI; cbn [length]; rewrite seg_length by lia; lia).
    assert (H : exists n k', a_double_quoted text i = Err p n k').
    { destruct (bad_dq text _ _ _ (shown_dqbody _ _ D) NE _ T3) as (n & k' & H & _). exists n, k'. transitivity (a_double_quoted text (length (firstn i text))); [f_equal; symmetry; exact LI|]. etransitivity; [exact H|]. f_equal. exact LL. }
    destruct H as (n & k' & H).
    pose proof (double_fault text i E) as F. unfold fwp in F. rewrite H in F. inversion F; subst.
    match goal with Y : bad_escape text p k' n |- _ => destruct (bad_escape_det text p k e k' n LP X Y) as [<- <-] end. unfold fl, xwp. now rewrite H.
Qed.

Section Value.
Variable value : astate -> AM (tree unit * option bytes).
Definition fgives (flow : bool) (outer : option nat) (i : nat) (r : fault) : Prop := forall p, fl r (value (AState p flow (negb flow) outer)) i.
Definition fgives_behind (outer : option nat) (i : nat) (r : fault) : Prop := exists m, gap_to i m /\ forall p, fl r (value (AState p false true outer)) m.
Definition fgives_dashes (c i : nat) (r : fault) : Prop := (i < len)%nat -> forall f items ip, (len - i < f)%nat -> fl r (a_seq_loop text value f c items ip) i.
Definition fgives_pairs (c k : nat) (r : fault) : Prop := at_ k = COLON -> forall f items start (key : rstr bytes) ip, (len - k < f)%nat -> fl r (a_map_loop text value f c items start key ip) k.
Definition seq_ends (r : fault) (x : list (sitem unit) * bool * bytes) (n' : nat) : Prop := let '(_, _, p') := x in at_ n' <> RBRACK /\ r = bad BadSequenceTerminator (n' - length p') n'.
Definition fgives_flow_seq (n : nat) (p : bytes) (r : fault) : Prop := forall f items tr, (S (len - n) < f)%nat -> xwp r (a_iseq_loop text value f items false tr p) n (seq_ends r).
Definition map_ends (r : fault) (x : list (mitem unit) * bool * bytes * nat) (n' : nat) : Prop := let '(_, _, _, st) := x in at_ n' <> RBRACE /\ r = bad BadMappingTerminator st n'.
Definition fgives_flow_map (st n : nat) (r : fault) : Prop := forall f items tr p, (S (len - n) < f)%nat -> xwp r (a_imap_loop text value f items false tr st p) n (map_ends r).
(* the pair at n fails *)
Definition fgives_pair (st n : nat) (r : fault) : Prop := ~ In (at_ n) [RBRACE; 0] /\ (n <= len)%nat /\ forall X (k : rstr bytes -> tree unit * option bytes -> AM X),
  fl r (m <- a_get ;; key <- a_until_colon text m ;;
       match key with
       | None => m <- a_get ;; a_err st m BadMappingSeparator
       | Some key => a_bump text 1 ;;; p <- a_ws text ;; r <- value (AState p true false None) ;; k key r
       end) n.

Lemma x_iseq_open f items last tr ip n : (0 < f)%nat -> at_ n = 0 -> xwp (bad BadSequenceTerminator (n - length ip) n) (a_iseq_loop text value f items last tr ip) n (seq_ends (bad BadSequenceTerminator (n - length ip) n)).
Proof. intros L E. destruct f as [|f]; [lia|]. cbn [a_iseq_loop]. run. rewrite Nat.add_0_r. unfold EOF. rewrite E. lits. apply xwp_ret. split; [rewrite E; discriminate|reflexivity]. Qed.
Lemma x_imap_open f items last tr st ip n : (0 < f)%nat -> at_ n = 0 -> xwp (bad BadMappingTerminator st n) (a_imap_loop text value f items last tr st ip) n (map_ends (bad BadMappingTerminator st n)).
Proof. intros L E. destruct f as [|f]; [lia|]. cbn [a_imap_loop]. run. rewrite Nat.add_0_r. unfold EOF. rewrite E. lits. apply xwp_ret. split; [rewrite E; discriminate|reflexivity]. Qed.
Lemma x_iseq_value f items last tr ip n m r : (0 < f)%nat -> ~ In (at_ n) [RBRACK; 0] -> gap_to n m -> fgives true None m r -> fl r (a_iseq_loop text value f items last tr ip) n.
Proof.
  intros L NC G H. destruct f as [|f]; [lia|]. cbn [a_iseq_loop]. unfold fl. run. rewrite Nat.add_0_r, (eof_or _ RBRACK) by auto. eapply xwp_eval; [apply gap_ws; exact G|]. cbv beta. apply xwp_stop, H.
Qed.
Lemma x_iseq_comma f items tr ip n m d o w e w' n' r Q : (0 < f)%nat -> (n <= len)%nat -> ~ In (at_ n) [RBRACK; 0] -> gap_to n m -> pgives value true None m d o w e -> at_ e = COMMA -> after w (S e) w' n' ->
  (forall items', xwp r (a_iseq_loop text value (f - 1) items' false true w') n' Q) -> xwp r (a_iseq_loop text value f items false tr ip) n Q.
Proof.
  intros L LN NC G H E A IH. destruct f as [|f]; [lia|]. cbn [a_iseq_loop]. run. rewrite Nat.add_0_r, (eof_or _ RBRACK) by auto.
  eapply xwp_eval; [apply gap_ws; exact G|]. cbv beta. eapply xwp_twp; [apply H|]. intros [t w1] n1 (D & O & T & EW1 & ->). cbn [fst snd] in *. subst w1. run. rewrite Nat.add_0_r. unfold EOF. rewrite E. cbv iota beta.
  change (COMMA =? COMMA) with true. cbv iota. run. pose proof (at_lt _ _ _ E ltac:(discriminate)). rewrite Nat.min_l by lia. rewrite Nat.add_1_r.
  eapply xwp_eval; [apply after_eval; exact A|]. cbv beta. cbn [Nat.sub] in IH. rewrite Nat.sub_0_r in IH. apply IH.
Qed.
Lemma x_iseq_rest f items tr ip n m d o w e w' n' r Q : (0 < f)%nat -> (n <= len)%nat -> ~ In (at_ n) [RBRACK; 0] -> gap_to n m -> pgives value true None m d o w e -> at_ e <> COMMA -> after w e w' n' ->
  (forall items', xwp r (a_iseq_loop text value (f - 1) items' true false w') n' Q) -> xwp r (a_iseq_loop text value f items false tr ip) n Q.
Proof.
  intros L LN NC G H E A IH. destruct f as [|f]; [lia|]. cbn [a_iseq_loop]. run. rewrite Nat.add_0_r, (eof_or _ RBRACK) by auto.
  eapply xwp_eval; [apply gap_ws; exact G|]. cbv beta. eapply xwp_twp; [apply H|]. intros [t w1] n1 (D & O & T & EW1 & ->). cbn [fst snd] in *. subst w1. run. rewrite Nat.add_0_r. unfold EOF. rewrite (proj2 (N.eqb_neq _ _) E). cbv iota beta.
  eapply xwp_eval; [apply after_eval; exact A|]. cbv beta. cbn [Nat.sub] in IH. rewrite Nat.sub_0_r in IH. apply IH.
Qed.
Lemma x_iseq_last f items tr ip n d o w e w' n' : (0 < f)%nat -> ~ In (at_ n) [RBRACK; 0] -> gap_to n n -> pgives value true None n d o w e -> after w e w' n' -> at_ n' <> RBRACK ->
  let r := bad BadSequenceTerminator (n' - length w') n' in xwp r (a_iseq_loop text value f items true tr ip) n (seq_ends r).
Proof.
  intros L NC G H A NR r. destruct f as [|f]; [lia|]. cbn [a_iseq_loop]. run. rewrite Nat.add_0_r, (eof_or _ RBRACK) by auto. eapply xwp_eval; [apply gap_ws; exact G|]. cbv beta.
  eapply xwp_twp; [apply H|]. intros [t w1] n1 (D & O & T & EW1 & ->). cbn [fst snd] in *. subst w1. eapply xwp_eval; [apply after_eval; exact A|]. apply xwp_ret. split; [exact NR|reflexivity].
Qed.
Lemma x_pair {X} (k : rstr bytes -> tree unit * option bytes -> AM X) n s d o w e' r Q (bad : AM X) : pgives_pair text value n s d o w e' ->
  (forall key x e, a_or_ws text (snd x) e = Ok (w, e') -> xwp r (k key x) e Q) ->
  xwp r (m <- a_get ;; key <- a_until_colon text m ;; match key with None => bad | Some key => a_bump text 1 ;;; p <- a_ws text ;; r <- value (AState p true false None) ;; k key r end) n Q.
Proof.
  intros (NC & kk & m & FK & G & G' & V) K. run. apply flow_key_iff in FK as (T & LT & Es). eapply xwp_eval; [apply until_colon_at; exact T|].
  destruct (Nat.eqb_spec kk len) as [E|_]; [lia|]. run. rewrite Nat.min_l by lia. rewrite Nat.add_1_r. eapply xwp_eval; [apply gap_ws; exact G|]. cbv beta.
  eapply xwp_twp; [apply V|]. intros x e (D & O & OW). now apply K.
Qed.
Lemma x_imap_pair f items last tr st ip n r : (0 < f)%nat -> fgives_pair st n r -> fl r (a_imap_loop text value f items last tr st ip) n.
Proof.
  intros L (NC & _ & H). destruct f as [|f]; [lia|]. cbn [a_imap_loop]. unfold fl. run. rewrite Nat.add_0_r, (eof_or _ RBRACE) by auto. apply H.
Qed.
Lemma x_imap_comma f items tr st ip n s d o w e n' r Q : (0 < f)%nat -> pgives_pair text value n s d o w e -> at_ e = COMMA -> gap_to (S e) n' ->
  (forall items' p, xwp r (a_imap_loop text value (f - 1) items' false true (S e) p) n' Q) -> xwp r (a_imap_loop text value f items false tr st ip) n Q.
Proof.
  intros L P E G IH. destruct f as [|f]; [lia|]. cbn [a_imap_loop]. run. rewrite Nat.add_0_r, (eof_or _ RBRACE) by (auto; apply P). eapply x_pair; [exact P|].
  intros key [v w1] e1 OW. cbn [fst snd] in *. eapply xwp_eval; [exact OW|]. run. rewrite Nat.add_0_r. unfold EOF. rewrite E. change (COMMA =? COMMA) with true. cbv iota. run.
  pose proof (at_lt _ _ _ E ltac:(discriminate)). rewrite Nat.min_l by lia. rewrite Nat.add_1_r. eapply xwp_eval; [apply gap_ws; exact G|]. cbv beta. cbn [Nat.sub] in IH. rewrite Nat.sub_0_r in IH. apply IH.
Qed.
Lemma x_imap_rest f items tr st ip n s d o w e r Q : (0 < f)%nat -> pgives_pair text value n s d o w e -> at_ e <> COMMA ->
  (forall items' p, xwp r (a_imap_loop text value (f - 1) items' true false e p) e Q) -> xwp r (a_imap_loop text value f items false tr st ip) n Q.
Proof.
  intros L P E IH. destruct f as [|f]; [lia|]. cbn [a_imap_loop]. run. rewrite Nat.add_0_r, (eof_or _ RBRACE) by (auto; apply P). eapply x_pair; [exact P|].
  intros key [v w1] e1 OW. cbn [fst snd] in *. eapply xwp_eval; [exact OW|]. run. rewrite Nat.add_0_r. unfold EOF. rewrite (proj2 (N.eqb_neq _ _) E). run.
  assert (G : gap_to e e) by (destruct P as (_ & kk & m & _ & _ & G & _); exact G). eapply xwp_eval; [apply gap_ws; exact G|]. cbv beta. cbn [Nat.sub] in IH. rewrite Nat.sub_0_r in IH. apply IH.
Qed.
Lemma x_imap_last f items tr st ip n s d o w e : (0 < f)%nat -> pgives_pair text value n s d o w e -> at_ e <> RBRACE ->
  let r := bad BadMappingTerminator st e in xwp r (a_imap_loop text value f items true tr st ip) n (map_ends r).
Proof.
  intros L P NR r. destruct f as [|f]; [lia|]. cbn [a_imap_loop]. run. rewrite Nat.add_0_r, (eof_or _ RBRACE) by (auto; apply P). eapply x_pair; [exact P|].
  intros key [v w1] e1 OW. cbn [fst snd] in *. eapply xwp_eval; [exact OW|]. apply xwp_ret. split; [exact NR|reflexivity].
Qed.
(* a dash or colon whose value fails, then one whose value is read *)
Lemma x_behind {X} (k : tree unit * option bytes -> AM X) outer i r : fgives_behind outer i r -> fl r (p <- a_ws text ;; r <- value (AState p false true outer) ;; k r) i.
Proof. intros (m & G & V). eapply xwp_eval; [apply gap_ws; exact G|]. cbv beta. apply xwp_stop, V. Qed.
Lemma x_past {X} (k : tree unit * option bytes -> AM X) outer i d o w n r Q : pgives_behind text value outer i d o w n ->
  (forall x n1, a_or_ws text (snd x) n1 = Ok (w, n) -> xwp r (k x) n1 Q) ->
  xwp r (p <- a_ws text ;; r <- value (AState p false true outer) ;; k r) i Q.
Proof. intros (m & G & V) K. eapply xwp_eval; [apply gap_ws; exact G|]. cbv beta. eapply xwp_twp; [apply V|]. intros x n1 (D & O & OW). now apply K. Qed.
Lemma x_dash c i f items ip r : (i < len)%nat -> fgives_behind None (S i) r -> (0 < f)%nat -> fl r (a_seq_loop text value f c items ip) i.
Proof. intros L B F. destruct f as [|f]; [lia|]. cbn [a_seq_loop]. unfold fl. run. rewrite Nat.min_l by lia. rewrite Nat.add_1_r. now apply x_behind. Qed.
Lemma x_dashes c i d o w n f items ip r : (i < n <= len)%nat -> pgives_behind text value None (S i) d o w n -> column n = c -> at_ n = DASH -> (0 < f)%nat ->
  (forall items', fl r (a_seq_loop text value (f - 1) c items' w) n) -> fl r (a_seq_loop text value f c items ip) i.
Proof.
  intros L B C E F K. destruct f as [|f]; [lia|]. cbn [a_seq_loop]. unfold fl. run. rewrite Nat.min_l by lia. rewrite Nat.add_1_r. eapply x_past; [exact B|].
  intros [v w1] n1 OW. cbn [fst snd] in *. eapply xwp_eval; [exact OW|]. run. rewrite Nat.add_0_r. rewrite column_indent by lia. rewrite C, Nat.eqb_refl. unfold EOF. rewrite E. lits. cbn [Nat.sub] in K. rewrite Nat.sub_0_r in K. apply K.
Qed.
Lemma x_colon c k f items start (key : rstr bytes) ip r : at_ k = COLON -> fgives_behind (Some c) (S k) r -> (0 < f)%nat -> fl r (a_map_loop text value f c items start key ip) k.
Proof.
  intros E B F. destruct f as [|f]; [lia|]. pose proof (at_lt _ _ _ E ltac:(discriminate)). cbn [a_map_loop]. unfold fl. run. rewrite Nat.add_0_r. unfold EOF. rewrite E. lits. run. rewrite Nat.min_l by lia. rewrite Nat.add_1_r. now apply x_behind.
Qed.
Lemma x_colons c k d o w n j f items start (key : rstr bytes) ip r : at_ k = COLON -> (k < n <= len)%nat -> pgives_behind text value (Some c) (S k) d o w n -> column n = c -> to_colon text n j -> (n < j)%nat -> (0 < f)%nat ->
  (forall items' key', fl r (a_map_loop text value (f - 1) c items' n key' w) j) -> fl r (a_map_loop text value f c items start key ip) k.
Proof.
  intros E LE B C T LT F K. destruct f as [|f]; [lia|]. pose proof (at_lt _ _ _ E ltac:(discriminate)). cbn [a_map_loop]. unfold fl. run. rewrite Nat.add_0_r. unfold EOF. rewrite E. lits. run. rewrite Nat.min_l by lia. rewrite Nat.add_1_r. eapply x_past; [exact B|].
  intros [v w1] n1 OW. cbn [fst snd] in *. eapply xwp_eval; [exact OW|]. run. rewrite column_indent by lia. rewrite C, Nat.eqb_refl. cbn [negb]. run. pose proof (proj1 T). eapply xwp_eval; [apply next_key_at; exact T|].
  destruct (part n j) as [|x y] eqn:EP. { pose proof (seg_length text n j ltac:(lia)) as KK. rewrite EP in KK. cbn in KK. lia. }
  cbv beta iota. cbn [Nat.sub] in K. rewrite Nat.sub_0_r in K. apply K.
Qed.
End Value.

Section Body.
Variable value : astate -> AM (tree unit * option bytes).
Local Notation body := (a_value_body text value).
Lemma x_fa_quote flow outer i r : bad_quote text i r -> fgives body flow outer i r.
Proof.
  intros B p. unfold fl, a_value_body. run. cbn [as_inline as_prefix]. rewrite Nat.add_0_r.
  destruct (x_quote i r B) as [[E R]|[E R]]; unfold EOF in *; rewrite E; lits; run; apply xwp_stop, R.
Qed.
Lemma x_fa_seq outer i r : at_ i = DASH -> white (at_ (S i)) -> fgives_dashes value (column i) i r -> fgives body false outer i r.
Proof.
  intros E W H p. pose proof (at_lt _ _ _ E ltac:(discriminate)) as L. unfold fl, a_value_body. run. rewrite Nat.add_0_r. unfold EOF. rewrite E. cbn [as_inline]. replace (i + 1)%nat with (S i) by lia.
  rewrite (proj2 (is_ws_white _) W). lits. unfold a_sequence. run. rewrite column_indent by lia. apply xwp_stop, H; lia.
Qed.
Lemma x_plain {Q} r s i : (i <= len)%nat -> ~ no_word text (as_inline s) i ->
  xwp r (num <- a_number text (as_tabular s) i ;;
    match num with
    | Some r => ret (TLeaf tt (as_prefix s) r, None)
    | None =>
      if as_inline s then
        r <- a_rest text ;;
        a_bump text (ctl_scan r) ;;;
        x <- a_string text i ;; ret (TLeaf tt (as_prefix s) (a_plain x), None)
      else
        key <- a_key_or_eol text i ;;
        match key with
        | Some key => a_mapping_or_nul text value s i key
        | None => x <- a_string text i ;; ret (TLeaf tt (as_prefix s) (a_plain x), None)
        end
    end) i Q -> xwp r (body s) i Q.
Proof.
  intros L W H. unfold a_value_body. run. rewrite Nat.add_0_r. pose proof (white_dash _ _ _ W) as X. unfold EOF in *. rewrite X. clear X.
  assert (NI : ~ In (at_ i) (b """'[{|>")) by (intros I; apply W; now left). cbn in NI.
  repeat match goal with |- context [nth i text 0 =? ?c] => lazymatch c with _ => destruct (N.eqb_spec (at_ i) c) as [E|_]; [exfalso; apply NI; rewrite E; cbn; intuition fail|] end end.
  cbn [orb]. exact H.
Qed.
Lemma x_key s i k p outer r Q : key_at text i s k -> (forall key, xwp r (a_mapping_or_nul text value (AState p false true outer) i key) k Q) -> xwp r (body (AState p false true outer)) i Q.
Proof.
  intros K H. pose proof (key_le _ _ _ _ K) as [KL KE]. destruct K as [QA E|W L N E EK F ->].
  - unfold a_value_body. run. cbn [as_inline as_prefix]. rewrite Nat.add_0_r. destruct (quote_eval _ _ _ _ QA) as [[E1 R]|[E1 R]]; unfold EOF; rewrite E1; lits; run; (eapply xwp_eval; [exact R|]); run; rewrite Nat.add_0_r;
      unfold EOF; cbn [as_inline]; rewrite E; lits; now apply H.
  - apply x_plain; [lia|exact W|]. cbn [as_tabular as_prefix as_inline].
    assert (FC : first_colon text i k) by (repeat split; auto; lia). pose proof (colon_number _ _ _ FC) as NN. destruct (number_none text false i ltac:(lia) NN) as (m & LM & R & NC).
    eapply xwp_eval; [exact R|]. cbv beta iota. destruct (key_or_eol_at text i m ltac:(lia) ltac:(intros k' K; destruct (NC k' K) as (? & ? & _); auto)) as [(k' & F' & R')|(j' & W' & R')].
    + rewrite <- (first_colon_det _ _ _ _ FC F') in R'. eapply xwp_eval; [exact R'|]. cbv beta iota. now apply H.
    + exfalso. eapply first_colon_word; eauto.
Qed.
Lemma x_fa_map outer i s k r : key_at text i s k -> under outer (column i) -> fgives_pairs value (column i) k r -> fgives body false outer i r.
Proof.
  intros K U H p. pose proof (key_le _ _ _ _ K) as [KL KE]. eapply x_key; [exact K|]. intros key. unfold a_mapping_or_nul. cbn [as_parent_indent as_prefix]. rewrite column_indent by lia.
  assert (X : match outer with Some o => (column i <=? o)%nat | None => false end = false) by (destruct outer; [apply Nat.leb_gt; exact U|reflexivity]). rewrite X.
  apply xwp_stop, H; [exact KE|lia].
Qed.
Lemma x_fa_flow_seq flow outer i n r : at_ i = LBRACK -> gap_to (S i) n -> fgives_flow_seq value n (part (S i) n) r -> fgives body flow outer i r.
Proof.
  intros E G H p. pose proof (at_lt _ _ _ E ltac:(discriminate)) as L. pose proof (gap_le _ _ _ G). unfold fl, a_value_body. run. rewrite Nat.add_0_r. unfold EOF. rewrite E. lits. apply xwp_stop.
  unfold fl, a_inline_sequence. run. rewrite Nat.min_l by lia. rewrite Nat.add_1_r. eapply xwp_eval; [apply gap_ws; exact G|]. eapply xwp_bind; [apply H; lia|].
  intros [[its tr] q] n' (E' & ->). run. rewrite Nat.add_0_r. unfold EOF. rewrite (proj2 (N.eqb_neq _ _) E'). reflexivity.
Qed.
Lemma x_fa_flow_map flow outer i n r : at_ i = LBRACE -> gap_to (S i) n -> fgives_flow_map value (S i) n r -> fgives body flow outer i r.
Proof.
  intros E G H p. pose proof (at_lt _ _ _ E ltac:(discriminate)) as L. pose proof (gap_le _ _ _ G). unfold fl, a_value_body. run. rewrite Nat.add_0_r. unfold EOF. rewrite E. lits. apply xwp_stop.
  unfold fl, a_inline_mapping. run. rewrite Nat.min_l by lia. rewrite Nat.add_1_r. eapply xwp_eval; [apply gap_ws; exact G|]. eapply xwp_bind; [apply H; lia|].
  intros [[[its tr] q] st] n' (E' & ->). run. rewrite Nat.add_0_r. unfold EOF. rewrite (proj2 (N.eqb_neq _ _) E'). reflexivity.
Qed.
End Body.

Local Notation val := (a_value text).
Theorem fails_eval :
  (forall flow outer i r, fails text flow outer i r -> forall f, (len - i < f)%nat -> fgives (val f) flow outer i r) /\
  (forall outer i r, fails_behind text outer i r -> forall f, (len - i < f)%nat -> fgives_behind (val f) outer i r) /\
  (forall c i r, fails_dashes text c i r -> forall f, (len - S i < f)%nat -> fgives_dashes (val f) c i r) /\
  (forall c k r, fails_pairs text c k r -> forall f, (len - S k < f)%nat -> fgives_pairs (val f) c k r) /\
  (forall n p r, fails_flow_seq text n p r -> (n <= len)%nat -> forall f, (len - n < f)%nat -> fgives_flow_seq (val f) n p r) /\
  (forall st n r, fails_flow_map text st n r -> (n <= len)%nat -> forall f, (len - n < f)%nat -> fgives_flow_map (val f) st n r) /\
  (forall st n r, fails_pair text st n r -> (n <= len)%nat -> forall f, (len - n < f)%nat -> fgives_pair (val f) st n r).
Proof.
  destruct (puts_le text) as (LM & LB & LD & LP & LS & LF & LR). destruct (puts_eval text) as (PM & PB & _ & _ & _ & _ & PR).
  apply fails_all.
  - intros flow outer i r B f F. destruct f as [|f]; [lia|]. rewrite val_S. now apply x_fa_quote.
  - intros outer i r E W H IH f F. pose proof (at_lt _ _ _ E ltac:(discriminate)). destruct f as [|f]; [lia|]. rewrite val_S. apply x_fa_seq; auto. apply IH. lia.
  - intros outer i s k r K U H IH f F. pose proof (key_le _ _ _ _ K). destruct f as [|f]; [lia|]. rewrite val_S. apply (x_fa_map _ _ _ s k); auto. apply IH. lia.
  - intros flow outer i n r E G H IH f F. pose proof (at_lt _ _ _ E ltac:(discriminate)). pose proof (gap_le _ _ _ G). destruct f as [|f]; [lia|]. rewrite val_S. apply (x_fa_flow_seq _ _ _ _ n); auto. apply IH; lia.
  - intros flow outer i n r E G H IH f F. pose proof (at_lt _ _ _ E ltac:(discriminate)). pose proof (gap_le _ _ _ G). destruct f as [|f]; [lia|]. rewrite val_S. apply (x_fa_flow_map _ _ _ _ n); auto. apply IH; lia.
  - (* fb_value *) intros outer i m r G H IH f F. pose proof (gap_le _ _ _ G). exists m. split; [exact G|]. apply IH. lia.
  - (* fd_here *) intros c i r B IH f F L f' items ip F'. apply x_dash; [exact L|apply IH; exact F|lia].
  - (* fd_more *) intros c i d o w n r B C E H IH f F L f' items ip F'. pose proof (PB _ _ _ _ _ _ B f F) as PG. apply LB in B. pose proof (at_lt _ _ _ E ltac:(discriminate)).
    eapply (x_dashes _ c i d o w n); eauto; try lia. intros items'. apply IH; lia.
  - (* fp_here *) intros c k r B IH f F E f' items start key ip F'. apply x_colon; [exact E|apply IH; exact F|lia].
  - (* fp_more *) intros c k d o w n s' k' r B C K H IH f F E f' items start key ip F'. pose proof (PB _ _ _ _ _ _ B f F) as PG. apply LB in B. apply later_key_iff in K as (T & LT & EK & ->). pose proof (proj1 T).
    eapply (x_colons _ c k d o w n k'); eauto; try lia. intros items' key'. apply IH; [lia|exact EK|lia].
  - (* fp_key *) intros c k d o w n k' B C LK N1 N2 EK f F E f' items start key ip F'. pose proof (PB _ _ _ _ _ _ B f F) as PG. apply LB in B.
    assert (T : to_colon text n k'). { split; [lia|]. split; [now apply (no_colon_part text n k' ltac:(lia))|]. rewrite EK. cbn. auto. }
    eapply (x_colons _ c k d o w n k'); eauto; try lia. intros items' key'. assert (exists f2, f' - 1 = S f2)%nat as (f2 & ->) by (exists (f' - 2)%nat; lia).
    cbn [a_map_loop]. unfold fl. run. rewrite Nat.add_0_r. unfold EOF. rewrite EK. change (0 =? COLON) with false. cbn [negb]. run. rewrite Nat.add_1_r. reflexivity.
  - (* fs_open *) intros n p E L f F f' items tr F'. apply x_iseq_open; [lia|exact E].
  - (* fs_value *) intros n p m r NC G H IH L f F f' items tr F'. pose proof (gap_le _ _ _ G). apply xwp_fl. apply (x_iseq_value _ _ _ _ _ _ n m); auto; [lia|]. apply IH. lia.
  - (* fs_comma *) intros n p m d o w e w' n' r NC G H E A H2 IH L f F f' items tr F'. pose proof (gap_le _ _ _ G). pose proof (LM _ _ _ _ _ _ _ H). pose proof (at_lt _ _ _ E ltac:(discriminate)). pose proof (after_le _ _ _ _ _ A ltac:(lia)).
    eapply (x_iseq_comma _ _ _ _ _ n m d o w e); eauto; [lia|apply (PM _ _ _ _ _ _ _ H); lia|]. intros items'. apply IH; lia.
  - (* fs_last_open *) intros n p m d o w e w' n' NC G H E A Z L f F f' items tr F'. pose proof (gap_le _ _ _ G). pose proof (LM _ _ _ _ _ _ _ H).
    eapply (x_iseq_rest _ _ _ _ _ n m d o w e); eauto; [lia|apply (PM _ _ _ _ _ _ _ H); lia|]. intros items'. apply x_iseq_open; [lia|exact Z].
  - (* fs_last_value *) intros n p m d o w e w' n' r NC G H E A NC' H2 IH L f F f' items tr F'. pose proof (gap_le _ _ _ G). pose proof (LM _ _ _ _ _ _ _ H). pose proof (after_le _ _ _ _ _ A ltac:(lia)).
    eapply (x_iseq_rest _ _ _ _ _ n m d o w e); eauto; [lia|apply (PM _ _ _ _ _ _ _ H); lia|]. intros items'. apply xwp_fl. apply (x_iseq_value _ _ _ _ _ _ n' n'); auto; [lia|exact (after_stop _ _ _ _ _ _ _ _ H A)|]. apply IH. lia.
  - (* fs_last_end *) intros n p m d o w e w' n' d' o' w2 e' w3 n'' NC G H E A NC' H2 A2 Z L f F f' items tr F'. pose proof (gap_le _ _ _ G). pose proof (LM _ _ _ _ _ _ _ H). pose proof (after_le _ _ _ _ _ A ltac:(lia)).
    eapply (x_iseq_rest _ _ _ _ _ n m d o w e); eauto; [lia|apply (PM _ _ _ _ _ _ _ H); lia|]. intros items'. apply (x_iseq_last _ _ _ _ _ n' d' o' w2 e'); auto; [lia|exact (after_stop _ _ _ _ _ _ _ _ H A)|]. apply (PM _ _ _ _ _ _ _ H2). lia.
  - (* fm_open *) intros st n E L f F f' items tr p F'. apply x_imap_open; [lia|exact E].
  - (* fm_pair *) intros st n r H IH L f F f' items tr p F'. apply xwp_fl. apply x_imap_pair; [lia|]. now apply IH.
  - (* fm_comma *) intros st n s d o w e n' r P E G H IH L f F f' items tr p F'. pose proof (LR _ _ _ _ _ _ P). pose proof (gap_le _ _ _ G). pose proof (at_lt _ _ _ E ltac:(discriminate)).
    eapply (x_imap_comma _ _ _ _ _ _ n s d o w e); eauto; [lia|]. intros items' p'. apply IH; lia.
  - (* fm_last_open *) intros st n s d o w e P E L f F f' items tr p F'. pose proof (LR _ _ _ _ _ _ P).
    eapply (x_imap_rest _ _ _ _ _ _ n s d o w e); eauto; [lia|rewrite E; discriminate|]. intros items' p'. apply x_imap_open; [lia|exact E].
  - (* fm_last_pair *) intros st n s d o w e r P E H IH L f F f' items tr p F'. pose proof (LR _ _ _ _ _ _ P).
    eapply (x_imap_rest _ _ _ _ _ _ n s d o w e); eauto; [lia|]. intros items' p'. apply xwp_fl. apply x_imap_pair; [lia|]. apply IH; lia.
  - (* fm_last_end *) intros st n s d o w e s' d' o' w' e' P E P' E' L f F f' items tr p F'. pose proof (LR _ _ _ _ _ _ P).
    eapply (x_imap_rest _ _ _ _ _ _ n s d o w e); eauto; [lia|]. intros items' p'. apply (x_imap_last _ _ _ _ _ _ e s' d' o' w' e'); auto; [lia|]. apply (PR _ _ _ _ _ _ P'). lia.
  - (* fr_key *) intros st n NC N1 N2 L f F. split; [exact NC|]. split; [exact L|]. intros X k. unfold fl. run.
    assert (T : to_colon text n len). { split; [lia|]. split; [now apply (no_colon_part text n len ltac:(lia))|]. rewrite nth_overflow by lia. cbn. auto. }
    eapply xwp_eval; [apply until_colon_at; exact T|]. rewrite Nat.eqb_refl. run. reflexivity.
  - (* fr_value *) intros st n s k m r NC FK G H IH L f F. split; [exact NC|]. split; [exact L|]. intros X kk. unfold fl. run. pose proof (gap_le _ _ _ G). apply flow_key_iff in FK as (T & LT & Es). pose proof (proj1 T). eapply xwp_eval; [apply until_colon_at; exact T|].
    destruct (Nat.eqb_spec k len) as [E|_]; [lia|]. run. rewrite Nat.min_l by lia. rewrite Nat.add_1_r. eapply xwp_eval; [apply gap_ws; exact G|]. cbv beta. apply xwp_stop. apply IH. lia.
Qed.
Theorem fails_complete r : wrong text r -> match a_parse text with Err x y k => r = bad k x y | Hang => r = stuck | _ => False end.
Proof.
  intros H. assert (T : fl r (a_parse_m text) 0).
  { unfold fl, a_parse_m.
    assert (SD : forall n p i, gap_to 0 n -> puts_header text (part 0 n) n p i -> (n <= len)%nat /\ (n <= i <= len)%nat /\ a_start_of_document text O = Ok (p, i)).
    { intros n p i G P. pose proof (gap_le _ _ _ G) as GL. pose proof (puts_header_le _ _ _ _ _ P ltac:(lia)) as HL. pose proof (puts_header_eval _ _ _ _ _ P ltac:(lia) (S len) ltac:(lia)) as R.
      split; [lia|]. split; [exact HL|]. unfold a_start_of_document. rewrite (bind_ok _ _ _ _ _ (gap_ws _ _ _ G)). exact R. }
    destruct H as [n p i r G P F|n p i d o w j w' n' G P M A L]; destruct (SD n p i G P) as (L1 & L2 & R); (eapply xwp_eval; [exact R|]).
    - apply xwp_stop. apply (proj1 fails_eval _ _ _ _ F). lia.
    - eapply xwp_twp; [apply (proj1 (puts_eval text) _ _ _ _ _ _ _ M); lia|]. intros [t w1] n1 (D & O & TP & EW1 & ->). cbn [fst snd] in *. subst w1.
      eapply xwp_eval; [apply after_eval; exact A|]. run. destruct (Nat.eqb_spec n' len) as [E|_]; [lia|]. cbn [negb]. run. reflexivity. }
  unfold fl, xwp in T. unfold a_parse. destruct (a_parse_m text O) as [[[t' s'] n]|? ? ?| | |]; auto.
Qed.
End Complete.
