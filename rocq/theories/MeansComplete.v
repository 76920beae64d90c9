(* The parser accepts every text that stands for some data, and shows that data: the other
   direction of C47. By induction on what a place of the text means. *)
From Coq Require Import String.
From Coq Require Import List NArith Bool Arith Lia.
From Verif Require Import Bytes Utf8 Data Parser Render Tree Abs Scan AbsText AbsNice Num Reads ReadsSound Shown Plain White Valid Lexed Means Places MeansSound.
Import ListNotations.
Local Open Scope N_scope.

Section Complete.
Variable text : bytes.
Local Notation len := (length text).
Local Notation at_ i := (nth i text 0).
Local Notation part := (slice text).
Local Notation gap_to := (gap_to text).
Local Notation column := (column text).
Local Notation means := (means text).
Local Notation behind := (behind text).
Local Notation held_at := (held_at text).

(* the call succeeds *)
Definition twp {A} (m : AM A) (n : nat) (Q : A -> nat -> Prop) : Prop := exists a n', m n = Ok (a, n') /\ Q a n'.
Lemma twp_ret {A} (a : A) n (Q : A -> nat -> Prop) : Q a n -> twp (ret a) n Q.
Proof. intros H. exists a, n. split; [reflexivity|exact H]. Qed.
Lemma twp_eval {A B} (m : AM A) (k : A -> AM B) n a n' Q : m n = Ok (a, n') -> twp (k a) n' Q -> twp (bind m k) n Q.
Proof. intros E H. unfold twp in *. rewrite (bind_ok _ _ _ _ _ E). exact H. Qed.
Lemma twp_bind {A B} (m : AM A) (k : A -> AM B) n R Q : twp m n R -> (forall a n', R a n' -> twp (k a) n' Q) -> twp (bind m k) n Q.
Proof. intros (a & n' & E & H) K. eapply twp_eval; [exact E|]. now apply K. Qed.
Lemma twp_mono {A} (m : AM A) n (R Q : A -> nat -> Prop) : twp m n R -> (forall a n', R a n' -> Q a n') -> twp m n Q.
Proof. intros (a & n' & E & H) K. exists a, n'. auto. Qed.
Ltac run := repeat (lazymatch goal with
  | |- twp (bind a_get ?k) ?n ?Q => change (twp (k n) n Q)
  | |- twp (bind (a_rest _) ?k) ?n ?Q => change (twp (k (skipn n text)) n Q)
  | |- twp (bind (a_peek _ ?i) ?k) ?n ?Q => change (twp (k (nth (n + i) text EOF)) n Q)
  | |- twp (bind (a_eof _) ?k) ?n ?Q => change (twp (k (Nat.eqb n len)) n Q)
  | |- twp (bind (a_string _ ?s) ?k) ?n ?Q => change (twp (k (part s n)) n Q)
  | |- twp (bind (a_indent _) ?k) ?n ?Q => change (twp (k (indent_from text n)) n Q)
  | |- twp (bind (a_set ?m) ?k) ?n ?Q => change (twp (k tt) m Q)
  | |- twp (bind (a_bump _ ?i) ?k) ?n ?Q => change (twp (k tt) (Nat.min (n + i) len) Q)
  | |- twp (bind (ret ?x) ?k) ?n ?Q => change (twp (k x) n Q)
  end; cbv beta).

Ltac lits := repeat match goal with |- context [N.eqb ?x ?y] => is_const x; is_const y; let v := eval vm_compute in (N.eqb x y) in change (N.eqb x y) with v end; cbn [andb orb negb]; cbv iota.

(* ---- where things are ---- *)
Lemma key_le i s k : key_at text i s k -> (i <= k < len)%nat /\ at_ k = COLON.
Proof. intros [Q E|W L N E _ _ _]; [|auto]. pose proof (quote_le _ _ _ _ Q). split; [|exact E]. pose proof (at_lt _ _ _ E ltac:(discriminate)). lia. Qed.
Lemma word_le flow i j : word_to text flow i j -> (i <= j <= len)%nat.
Proof. destruct flow; intros W; apply W. Qed.
Lemma lines_next folded c n v e m : lines_at text folded c n v e m -> (n <= e)%nat.
Proof. induction 1 as [n l t m L K T G C|n l t L K T G C|n l t n' v e m L K T G L' C H IH]; [destruct K; lia|destruct K; lia|]. destruct K as [K _]. apply gap_le in G. lia. Qed.
Lemma block_next i s j : block_at text i s j -> (i <= j)%nat.
Proof.
  assert (B : forall folded k v w e, block_body text folded k v w e -> (k <= e)%nat).
  { intros folded k v w e [G _|n v' e' m G _ L H|l t _ K _ G|l t n v' e' m _ K _ G L H]; try (apply lines_next in H); apply gap_le in G; try destruct K as [K _]; lia. }
  intros [folded v w _ _ H _|folded v w _ _ H _|folded v w _ _ H _]; apply B in H; lia.
Qed.
Lemma all_le : (forall flow outer i d j, means flow outer i d j -> (i <= j <= len)%nat) /\
  (forall outer i d j, behind outer i d j -> (i <= j <= len)%nat) /\
  (forall c i l j, dashes_at text c i l j -> (i < j <= len)%nat) /\
  (forall c s k l j, pairs_at text c s k l j -> (k < j <= len)%nat) /\
  (forall i d j (skipped : bool), held_at i d j skipped -> (i <= j <= len)%nat) /\
  (forall n l j, flow_seq_at text n l j -> (n < j <= len)%nat) /\
  (forall n l j, flow_map_at text n l j -> (n < j <= len)%nat) /\
  (forall n s d e, flow_pair_at text n s d e -> (n < e <= len)%nat).
Proof.
  apply means_all; intros; repeat match goal with
    | H : quote_at _ _ _ _ |- _ => apply quote_le in H | H : number_at _ _ _ _ _ |- _ => apply number_le in H
    | H : word_to _ _ _ _ |- _ => apply word_le in H | H : Means.gap_to _ _ _ |- _ => apply gap_le in H | H : key_at _ _ _ _ |- _ => apply key_le in H
    | H : block_at _ _ _ _ |- _ => pose proof (block_le _ _ _ _ H); apply block_next in H
    | H : later_key_at _ _ _ _ |- _ => destruct H as [H _] | H : flow_key_at _ _ _ _ |- _ => destruct H as [H _]
    | H : nth ?i text 0 = _ |- _ => lazymatch goal with _ : (i < len)%nat |- _ => fail | _ => pose proof (at_lt _ _ _ H ltac:(discriminate)) end
    end; try lia.
  destruct skipped; [lia|]. apply gap_le in H4. lia.
Qed.

(* ---- which rule applies ---- *)
Lemma number_word flow i h j : number_at text flow i h j -> ~ no_word text flow i.
Proof.
  intros N. pose proof (number_le _ _ _ _ _ N) as L. destruct N as (_ & U & _). rewrite part_at in U by lia. intros [I|(_ & E & W)].
  - apply number_hd in U as (c & r & E & D). injection E as E _. rewrite E in I. cbn in I. unfold digit, DOT, DASH in D. intuition (subst; lia).
  - rewrite E in U. destruct U as [(fl & U & _)|(y & fl & Ey & U & _)].
    + destruct (unsigned_hd _ _ U) as (c & r & Ec & D). injection Ec as <- _. unfold digit, DOT, DASH in D. intuition (try discriminate; lia).
    + injection Ey as Ey. destruct (unsigned_hd _ _ U) as (c & r & -> & D). destruct (Nat.eq_dec (S i) j) as [EJ|NE].
      { subst j. pose proof (seg_length text (S i) (S i) ltac:(lia)) as K. rewrite Ey in K. cbn in K. lia. }
      rewrite part_at in Ey by lia. injection Ey as Ey _. rewrite Ey in W. cbn in W. unfold digit, DOT in D. intuition (subst; lia).
Qed.
Lemma colon_number n k : first_colon text n k -> forall h j, ~ number_at text false n h j.
Proof.
  intros (L & N & E & _) h j (LJ & U & _ & B). destruct (B eq_refl) as (l & (LL & NL & EL) & F). destruct (Nat.lt_ge_cases k j) as [H|H].
  - assert (I : In COLON (part n j)) by (apply part_in; [lia|]; exists k; split; [lia|exact E]).
    destruct (number_bytes _ _ U _ I) as [D|D]; [unfold digit, COLON in D; lia|]. cbn in D. intuition discriminate.
  - destruct (Nat.lt_ge_cases k l) as [H'|H'].
    + rewrite Forall_forall in F. specialize (F COLON). assert (I : In COLON (part j l)) by (apply part_in; [lia|]; exists k; split; [lia|exact E]). apply F in I. cbn in I. intuition discriminate.
    + destruct EL as [->|EL]; [lia|]. destruct (Nat.eq_dec k l) as [->|NE]; [rewrite E in EL; discriminate|]. apply N. apply part_in; [lia|]. exists l. split; [lia|exact EL].
Qed.
Lemma white_dash flow n : ~ no_word text flow n -> (at_ n =? DASH) && is_ws (nth (n + 1) text EOF) && negb flow = false.
Proof.
  intros W. destruct flow; [apply andb_false_r|]. rewrite andb_true_r. apply andb_false_iff. destruct (N.eqb_spec (at_ n) DASH) as [E|E]; [right|left; reflexivity].
  apply not_white. intros H. apply W. right. replace (n + 1)%nat with (S n) in H by lia. auto.
Qed.

Section Value.
Variable value : astate -> AM (tree unit * option bytes).
Definition gives (flow : bool) (outer : option nat) (i : nat) (d : datum) (j : nat) : Prop := forall p,
  twp (value (AState p flow (negb flow) outer)) i (fun r n' => see (fst r) = d /\ (flow = true -> snd r = None) /\ match snd r with Some _ => gap_to j n' | None => n' = j end).
Definition gives_behind (outer : option nat) (i : nat) (d : datum) (e : nat) : Prop := exists m, gap_to i m /\ forall p,
  twp (value (AState p false true outer)) m (fun r n1 => see (fst r) = d /\ forall n', gap_to e n' -> exists q, a_or_ws text (snd r) n1 = Ok (q, n')).
Definition gives_held (i : nat) (d : datum) (j : nat) (skipped : bool) : Prop := forall p,
  twp (value (AState p true false None)) i (fun r n' => see (fst r) = d /\ n' = j /\ (if skipped then snd r <> None /\ gap_to j j else snd r = None)).
Definition gives_dashes (c i : nat) (l : list datum) (j : nat) : Prop := (i < len)%nat -> forall f items ip, (len - i < f)%nat ->
  twp (a_seq_loop text value f c items ip) i (fun r n' => sdata (fst r) = sdata items ++ l /\ gap_to j n').
Definition gives_pairs (c : nat) (s : bytes) (k : nat) (l : list (bytes * datum)) (j : nat) : Prop := at_ k = COLON -> forall f items start (key : rstr bytes) ip, (len - k < f)%nat -> rs_id key = s ->
  twp (a_map_loop text value f c items start key ip) k (fun r n' => mdata (fst r) = mdata items ++ l /\ gap_to j n').
Definition gives_flow_seq (n : nat) (l : list datum) (j : nat) : Prop := forall f items tr ip, (S (len - n) < f)%nat ->
  twp (a_iseq_loop text value f items false tr ip) n (fun r n' => sdata (fst (fst r)) = sdata items ++ l /\ at_ n' = RBRACK /\ j = S n').
Definition gives_flow_map (n : nat) (l : list (bytes * datum)) (j : nat) : Prop := forall f items tr start ip, (S (len - n) < f)%nat ->
  twp (a_imap_loop text value f items false tr start ip) n (fun r n' => mdata (fst (fst (fst r))) = mdata items ++ l /\ at_ n' = RBRACE /\ j = S n').
Definition gives_pair (n : nat) (s : bytes) (d : datum) (e' : nat) : Prop := ~ In (at_ n) [RBRACE; 0] /\ exists k m, flow_key_at text n s k /\ gap_to (S k) m /\ gap_to e' e' /\ forall p,
  twp (value (AState p true false None)) m (fun r e => see (fst r) = d /\ exists q, a_or_ws text (snd r) e = Ok (q, e')).

Lemma eof_or c x y : ~ In c [x; 0] -> y = x -> (c =? y) || (c =? EOF) = false.
Proof. intros N ->. apply orb_false_iff. unfold EOF. rewrite !N.eqb_neq. cbn in N. intuition. Qed.

Lemma t_iseq_end f items last tr ip n : (0 < f)%nat -> at_ n = RBRACK -> a_iseq_loop text value f items last tr ip n = Ok ((items, tr, ip), n).
Proof. intros L E. destruct f as [|f]; [lia|]. cbn [a_iseq_loop]. unfold bind, a_peek. rewrite Nat.add_0_r. unfold EOF. rewrite E. reflexivity. Qed.
Lemma t_imap_end f items last tr st ip n : (0 < f)%nat -> at_ n = RBRACE -> a_imap_loop text value f items last tr st ip n = Ok ((items, tr, ip, st), n).
Proof. intros L E. destruct f as [|f]; [lia|]. cbn [a_imap_loop]. unfold bind, a_peek. rewrite Nat.add_0_r. unfold EOF. rewrite E. reflexivity. Qed.
Lemma held_or_ws w (skipped : bool) e n' : (if skipped then w <> None /\ gap_to e e else w = None) -> gap_to e n' -> exists p, a_or_ws text w e = Ok (p, n').
Proof.
  intros W G. apply or_ws_at. destruct skipped.
  - destruct W as [W G']. destruct w; [|congruence]. now rewrite (gap_det _ _ _ G _ G').
  - subst. exact G.
Qed.
Lemma t_iseq_last f items tr ip n d e skipped n' : (0 < f)%nat -> ~ In (at_ n) [RBRACK; 0] -> gap_to n n -> gives_held n d e skipped -> gap_to e n' ->
  twp (a_iseq_loop text value f items true tr ip) n (fun r n2 => sdata (fst (fst r)) = sdata items ++ [d] /\ n2 = n').
Proof.
  intros L NC G H G'. destruct f as [|f]; [lia|]. cbn [a_iseq_loop]. run. rewrite Nat.add_0_r, (eof_or _ RBRACK) by auto. eapply twp_eval; [apply gap_ws; exact G|].
  eapply twp_bind; [apply H|]. intros [v w] n1 (S & -> & W). cbn [fst snd] in *. destruct (held_or_ws _ _ _ _ W G') as (p & E). eapply twp_eval; [exact E|].
  apply twp_ret. cbn [fst snd]. now rewrite sdata_snoc, S.
Qed.
Lemma t_fq_comma n m d e (skipped : bool) n' l j : (n <= len)%nat -> ~ In (at_ n) [RBRACK; 0] -> gap_to n m -> (m <= e)%nat -> gives_held m d e skipped -> at_ e = COMMA ->
  (if skipped then n' = S e else gap_to (S e) n') -> gives_flow_seq n' l j -> gives_flow_seq n (d :: l) j.
Proof.
  intros L NC G LE H E W IH f items tr ip F. pose proof (gap_le _ _ _ G). destruct f as [|f]; [lia|]. cbn [a_iseq_loop]. run. rewrite Nat.add_0_r, (eof_or _ RBRACK) by auto.
  eapply twp_eval; [apply gap_ws; exact G|]. eapply twp_bind; [apply H|]. intros [v w] n1 (D & -> & W1). cbn [fst snd] in *. run. rewrite Nat.add_0_r. unfold EOF. rewrite E. cbv iota beta.
  change (COMMA =? COMMA) with true. cbv iota. run. pose proof (at_lt _ _ _ E ltac:(discriminate)). rewrite Nat.min_l by lia. rewrite Nat.add_1_r.
  assert (OW : exists p, a_or_ws text w (S e) = Ok (p, n')).
  { apply or_ws_at. destruct skipped; [destruct W1 as [W1 _]; destruct w; [exact W|congruence]|subst w; exact W]. }
  destruct OW as (p & OW). eapply twp_eval; [exact OW|]. eapply twp_mono; [apply IH|].
  - assert (S e <= n' <= len)%nat by (destruct skipped; [lia|apply gap_le in W; lia]). lia.
  - cbv beta. intros r n2 (D2 & X & Y). rewrite D2, sdata_snoc, <- app_assoc, D. auto.
Qed.
Lemma t_fq_rest n m d e (skipped : bool) n' l n2 : (n <= len)%nat -> ~ In (at_ n) [RBRACK; 0] -> gap_to n m -> (m <= e)%nat -> gives_held m d e skipped -> at_ e <> COMMA ->
  gap_to e n' -> at_ n2 = RBRACK ->
  (forall f items tr ip, (0 < f)%nat -> twp (a_iseq_loop text value f items true tr ip) n' (fun r n3 => sdata (fst (fst r)) = sdata items ++ l /\ n3 = n2)) -> gives_flow_seq n (d :: l) (S n2).
Proof.
  intros L NC G LE H E G' Q IH f items tr ip F. pose proof (gap_le _ _ _ G). destruct f as [|f]; [lia|]. cbn [a_iseq_loop]. run. rewrite Nat.add_0_r, (eof_or _ RBRACK) by auto.
  eapply twp_eval; [apply gap_ws; exact G|]. eapply twp_bind; [apply H|]. intros [v w] n1 (D & -> & W1). cbn [fst snd] in *. run. rewrite Nat.add_0_r. unfold EOF. rewrite (proj2 (N.eqb_neq _ _) E). cbv iota beta.
  destruct (held_or_ws _ _ _ _ W1 G') as (p & OW). eapply twp_eval; [exact OW|]. eapply twp_mono; [apply IH; lia|].
  cbv beta. intros r n3 (D2 & ->). rewrite D2, sdata_snoc, <- app_assoc, D. auto.
Qed.
Lemma t_pair {X} (k : rstr bytes -> tree unit * option bytes -> AM X) n s d e' Q (bad : AM X) : gives_pair n s d e' ->
  (forall key r e q, rs_id key = s -> see (fst r) = d -> a_or_ws text (snd r) e = Ok (q, e') -> twp (k key r) e Q) ->
  twp (m <- a_get ;; key <- a_until_colon text m ;; match key with None => bad | Some key => a_bump text 1 ;;; p <- a_ws text ;; r <- value (AState p true false None) ;; k key r end) n Q.
Proof.
  intros (NC & kk & m & FK & G & G' & V) K. run. apply flow_key_iff in FK as (T & LT & Es). eapply twp_eval; [apply until_colon_at; exact T|].
  destruct (Nat.eqb_spec kk len) as [E|_]; [lia|]. run. rewrite Nat.min_l by lia. rewrite Nat.add_1_r. eapply twp_eval; [apply gap_ws; exact G|].
  eapply twp_bind; [apply V|]. intros r e (D & q & OW). eapply K; [|exact D|exact OW]. now subst s.
Qed.
Lemma t_fp_comma n d e n' l j s : (n < e)%nat -> gives_pair n s d e -> at_ e = COMMA -> gap_to (S e) n' -> gives_flow_map n' l j -> gives_flow_map n ((s, d) :: l) j.
Proof.
  intros LT P E G IH f items tr start ip F. destruct f as [|f]; [lia|]. cbn [a_imap_loop]. run. rewrite Nat.add_0_r, (eof_or _ RBRACE) by (auto; apply P). eapply t_pair; [exact P|].
  intros key [v w] e1 q K D OW. cbn [fst snd] in *. eapply twp_eval; [exact OW|]. run. rewrite Nat.add_0_r. unfold EOF. rewrite E. change (COMMA =? COMMA) with true. cbv iota. run.
  pose proof (at_lt _ _ _ E ltac:(discriminate)). rewrite Nat.min_l by lia. rewrite Nat.add_1_r. eapply twp_eval; [apply gap_ws; exact G|]. pose proof (gap_le _ _ _ G).
  eapply twp_mono; [apply IH; lia|]. cbv beta. intros r n2 (D2 & X & Y). rewrite D2, mdata_snoc, <- app_assoc, D, K. auto.
Qed.
Lemma t_fp_rest n d e s l n2 : (n < e)%nat -> gives_pair n s d e -> at_ e <> COMMA -> at_ n2 = RBRACE ->
  (forall f items tr start ip, (0 < f)%nat -> twp (a_imap_loop text value f items true tr start ip) e (fun r n3 => mdata (fst (fst (fst r))) = mdata items ++ l /\ n3 = n2)) ->
  gives_flow_map n ((s, d) :: l) (S n2).
Proof.
  intros LT P E Q IH f items tr start ip F. destruct f as [|f]; [lia|]. cbn [a_imap_loop]. run. rewrite Nat.add_0_r, (eof_or _ RBRACE) by (auto; apply P). eapply t_pair; [exact P|].
  intros key [v w] e1 q K D OW. cbn [fst snd] in *. eapply twp_eval; [exact OW|]. run. rewrite Nat.add_0_r. unfold EOF. rewrite (proj2 (N.eqb_neq _ _) E). run.
  assert (G : gap_to e e) by (destruct P as (_ & kk & m & _ & _ & G & _); exact G). eapply twp_eval; [apply gap_ws; exact G|].
  eapply twp_mono; [apply IH; lia|]. cbv beta. intros r n3 (D2 & ->). rewrite D2, mdata_snoc, <- app_assoc, D, K. auto.
Qed.
Lemma t_imap_last f items tr start ip n s d e : (0 < f)%nat -> gives_pair n s d e ->
  twp (a_imap_loop text value f items true tr start ip) n (fun r n2 => mdata (fst (fst (fst r))) = mdata items ++ [(s, d)] /\ n2 = e).
Proof.
  intros L P. destruct f as [|f]; [lia|]. cbn [a_imap_loop]. run. rewrite Nat.add_0_r, (eof_or _ RBRACE) by (auto; apply P). eapply t_pair; [exact P|].
  intros key [v w] e1 q K D OW. cbn [fst snd] in *. eapply twp_eval; [exact OW|]. apply twp_ret. cbn [fst snd]. now rewrite mdata_snoc, D, K.
Qed.
(* a dash, its value and the white space behind it *)
Lemma t_behind {X} (k : tree unit * option bytes -> AM X) outer i d e n' Q : gives_behind outer i d e -> gap_to e n' ->
  (forall r n1 q, see (fst r) = d -> a_or_ws text (snd r) n1 = Ok (q, n') -> twp (k r) n1 Q) ->
  twp (p <- a_ws text ;; r <- value (AState p false true outer) ;; k r) i Q.
Proof.
  intros (m & G & V) G' K. eapply twp_eval; [apply gap_ws; exact G|]. eapply twp_bind; [apply V|]. intros r n1 (D & OW). destruct (OW _ G') as (q & OW'). eapply K; eauto.
Qed.
Lemma t_dash c i d e n f items ip Q : (i < len)%nat -> (i < e)%nat -> gives_behind None (S i) d e -> gap_to e n -> (len - i < f)%nat ->
  (forall f' items' q, (len - n < f')%nat -> sdata items' = sdata items ++ [d] ->
     twp (if negb (Nat.eqb (column n) c) || negb (at_ n =? DASH) then ret (items', q) else a_seq_loop text value f' c items' q) n Q) ->
  twp (a_seq_loop text value f c items ip) i Q.
Proof.
  intros L LE B G F K. destruct f as [|f]; [lia|]. cbn [a_seq_loop]. run. rewrite Nat.min_l by lia. rewrite Nat.add_1_r. eapply t_behind; [exact B|exact G|].
  intros [v w] n1 q D OW. cbn [fst snd] in *. eapply twp_eval; [exact OW|]. run. rewrite Nat.add_0_r. pose proof (gap_le _ _ _ G). rewrite column_indent by lia. apply K; [lia|]. now rewrite sdata_snoc, D.
Qed.
Lemma t_colon c s k d e n f items start (key : rstr bytes) ip Q : at_ k = COLON -> (k < e)%nat -> gives_behind (Some c) (S k) d e -> gap_to e n -> (len - k < f)%nat -> rs_id key = s ->
  (forall f' items' q, (len - n < f')%nat -> mdata items' = mdata items ++ [(s, d)] ->
     twp (if negb (Nat.eqb (column n) c) then ret (items', q) else
          start <- a_get ;; key <- a_next_mapping_key text ;; match key with None => ret (items', q) | Some key => a_map_loop text value f' c items' start key q end) n Q) ->
  twp (a_map_loop text value f c items start key ip) k Q.
Proof.
  intros E LE B G F KS K. destruct f as [|f]; [lia|]. pose proof (at_lt _ _ _ E ltac:(discriminate)). cbn [a_map_loop]. run. rewrite Nat.add_0_r. unfold EOF. rewrite E. change (COLON =? COLON) with true. cbn [negb]. run. rewrite Nat.min_l by lia. rewrite Nat.add_1_r.
  eapply t_behind; [exact B|exact G|].
  intros [v w] n1 q D OW. cbn [fst snd] in *. eapply twp_eval; [exact OW|]. run. pose proof (gap_le _ _ _ G). rewrite column_indent by lia. apply K; [lia|]. now rewrite mdata_snoc, D, KS.
Qed.
End Value.

Section Body.
Variable value : astate -> AM (tree unit * option bytes).
Local Notation body := (a_value_body text value).
Lemma t_me_quote flow outer i s j : quote_at text i s j -> flow = true \/ at_ j <> COLON -> gives body flow outer i (DStr s) j.
Proof.
  intros Q C p. unfold a_value_body. run. cbn [as_inline as_prefix]. rewrite Nat.add_0_r.
  assert (X : negb flow && (nth j text EOF =? COLON) = false).
  { destruct C as [->|C]; [reflexivity|]. unfold EOF. rewrite (proj2 (N.eqb_neq _ _) C). apply andb_false_r. }
  destruct (quote_eval _ _ _ _ Q) as [[E R]|[E R]]; unfold EOF in *; rewrite E; lits; run; (eapply twp_eval; [exact R|]); run; rewrite Nat.add_0_r;
    unfold EOF; cbn [as_inline]; (destruct flow; cbn [negb andb] in X |- *; rewrite ?X; apply twp_ret; cbn [fst snd see rs_id]; auto).
Qed.
(* the start of anything plain *)
Lemma t_plain {Q} s i : (i <= len)%nat -> ~ no_word text (as_inline s) i ->
  twp (num <- a_number text (as_tabular s) i ;;
    match num with
    | Some r => ret (TLeaf tt (as_prefix s) r, None)
    | None =>
      if as_inline s then
        r <- a_rest text ;;
        a_bump text (ctl_scan r) ;;;
        x <- a_string text i ;; ret (TLeaf tt (as_prefix s) (a_plain x), None)
      else
        key <- a_key_or_eol text i ;;
        match key with
        | Some key => a_mapping_or_nul text value s i key
        | None => x <- a_string text i ;; ret (TLeaf tt (as_prefix s) (a_plain x), None)
        end
    end) i Q -> twp (body s) i Q.
Proof.
  intros L W H. unfold a_value_body. run. rewrite Nat.add_0_r. pose proof (white_dash _ _ W) as X. unfold EOF in *. rewrite X. clear X.
  assert (NI : ~ In (at_ i) (b """'[{|>")) by (intros I; apply W; now left). cbn in NI.
  repeat match goal with |- context [nth i text 0 =? ?c] => lazymatch c with _ => destruct (N.eqb_spec (at_ i) c) as [E|_]; [exfalso; apply NI; rewrite E; cbn; intuition fail|] end end.
  cbn [orb]. exact H.
Qed.
Lemma t_me_number flow outer i h j : number_at text flow i h j -> gives body flow outer i (DNum (part i j) h) j.
Proof.
  intros N p. pose proof (number_le _ _ _ _ _ N). apply t_plain; [lia|eapply number_word; exact N|]. cbn [as_tabular as_prefix]. eapply twp_eval; [apply number_eval; exact N|]. cbv beta iota. apply twp_ret. cbn [fst snd see]. auto.
Qed.
Lemma t_me_word flow outer i d j : ~ no_word text flow i -> (forall h k, ~ number_at text flow i h k) -> word_to text flow i j -> plain_datum (part i j) d -> gives body flow outer i d j.
Proof.
  intros NW NN W D p. pose proof (word_le _ _ _ W). apply t_plain; [lia|exact NW|]. cbn [as_tabular as_prefix as_inline].
  assert (PL : see (TLeaf tt p (a_plain (part i j))) = d).
  { change (see (TLeaf tt (@nil byte) (a_plain (part i j))) = d). apply a_plain_see; [exact D|]. intros h U. apply (NN h j). now apply word_number. }
  destruct (number_none text flow i ltac:(lia) NN) as (m & LM & E & NC). eapply twp_eval; [exact E|]. cbv beta iota. destruct flow.
  - run. destruct (ctl_scan_at text m ltac:(lia)) as (HL & _ & _). rewrite Nat.min_l by lia.
    assert (W' : word_to text true i (m + ctl_scan (skipn m text))) by (apply word_flow; [lia|]; intros k K; now apply NC).
    rewrite <- (word_flow_det _ _ _ _ W W'). apply twp_ret. cbn [fst snd]. auto.
  - destruct (key_or_eol_at text i m ltac:(lia) ltac:(intros k K; destruct (NC k K) as (? & ? & _); auto)) as [(k & F & R)|(j' & W' & R)].
    + exfalso. eapply first_colon_word; eauto.
    + rewrite <- (word_line_det _ _ _ _ W W') in R. eapply twp_eval; [exact R|]. cbv beta iota. run. apply twp_ret. cbn [fst snd]. auto.
Qed.
Lemma t_block i s j m p fl pi : block_at text i s j -> gap_to j m -> exists t w, body (AState p fl (negb fl) pi) i = Ok ((t, Some w), m) /\ see t = DStr s.
Proof.
  intros B G. destruct (block_eval _ _ _ _ _ B G) as (pp & o & q & R). pose proof (block_char _ _ _ _ B) as C.
  exists (TLeaf tt p (ScStr (RS (KMultiline pp) s o))), q. split; [|reflexivity]. unfold a_value_body, a_block_at in *. cbv zeta in R. unfold bind at 1, a_peek at 1. cbv beta iota. unfold bind at 1, a_peek at 1. cbv beta iota.
  rewrite Nat.add_0_r. unfold EOF in *. cbn [as_inline as_prefix].
  destruct C as [C|C]; revert R; rewrite C; lits; intros R; rewrite (bind_ok _ _ _ _ _ R); reflexivity.
Qed.
Lemma t_me_block outer i s j : block_at text i s j -> gives body false outer i (DStr s) j.
Proof.
  intros B p. pose proof (block_le _ _ _ _ B). destruct (gap_ex text j ltac:(lia)) as (m & G). destruct (t_block i s j m p false outer B G) as (t & w & R & D).
  exists (t, Some w), m. split; [exact R|]. cbn [fst snd]. split; [exact D|]. split; [discriminate|exact G].
Qed.
Lemma t_he_block i s e n : block_at text i s e -> gap_to e n -> gives_held body i (DStr s) n true.
Proof.
  intros B G p. destruct (t_block i s e n p true None B G) as (t & w & R & D). exists (t, Some w), n. split; [exact R|]. cbn [fst snd]. split; [exact D|]. split; [reflexivity|]. split; [discriminate|]. eapply gap_stop; eauto.
Qed.
Lemma t_me_seq outer i l j : at_ i = DASH -> white (at_ (S i)) -> gives_dashes value (column i) i l j -> gives body false outer i (DSeq l) j.
Proof.
  intros E W H p. pose proof (at_lt _ _ _ E ltac:(discriminate)) as L. unfold a_value_body. run. rewrite Nat.add_0_r. unfold EOF. rewrite E. cbn [as_inline]. replace (i + 1)%nat with (S i) by lia.
  rewrite (proj2 (is_ws_white _) W). lits. unfold a_sequence. run. rewrite column_indent by lia. eapply twp_bind; [apply H; lia|].
  intros [its w] n' (D & G). apply twp_ret. cbn [fst snd see] in *. fold (sdata its). rewrite D. split; [reflexivity|]. split; [discriminate|exact G].
Qed.
Lemma t_map s outer i k l j (key : rstr bytes) p : (i <= len)%nat -> at_ k = COLON -> rs_id key = s -> under outer (column i) -> gives_pairs value (column i) s k l j ->
  twp (a_mapping_or_nul text value (AState p false true outer) i key) k (fun r n' => see (fst r) = DMap l /\ (false = true -> snd r = None) /\ match snd r with Some _ => gap_to j n' | None => n' = j end).
Proof.
  intros L E K U H. unfold a_mapping_or_nul. cbn [as_parent_indent as_prefix]. rewrite column_indent by lia.
  assert (X : match outer with Some o => (column i <=? o)%nat | None => false end = false) by (destruct outer; [apply Nat.leb_gt; exact U|reflexivity]). rewrite X.
  eapply twp_bind; [apply H; auto; lia|]. intros [its w] n' (D & G). apply twp_ret. cbn [fst snd see] in *. fold (mdata its). rewrite D. split; [reflexivity|]. split; [discriminate|exact G].
Qed.
Lemma t_none o i k (key : rstr bytes) p : (i <= len)%nat -> (column i <= o)%nat ->
  twp (a_mapping_or_nul text value (AState p false true (Some o)) i key) k (fun r n1 => see (fst r) = DNull /\ n1 = i /\ snd r <> None).
Proof.
  intros L C. unfold a_mapping_or_nul. cbn [as_parent_indent as_prefix]. rewrite column_indent by lia. rewrite (proj2 (Nat.leb_le _ _) C). run. apply twp_ret. cbn [fst snd see]. repeat split; congruence.
Qed.
(* a key leads to a mapping or to nothing *)
Lemma t_key s i k p outer Q : key_at text i s k -> (forall key, rs_id key = s -> twp (a_mapping_or_nul text value (AState p false true outer) i key) k Q) ->
  twp (body (AState p false true outer)) i Q.
Proof.
  intros K H. pose proof (key_le _ _ _ K) as [KL KE]. destruct K as [QA E|W L N E EK F ->].
  - unfold a_value_body. run. cbn [as_inline as_prefix]. rewrite Nat.add_0_r. destruct (quote_eval _ _ _ _ QA) as [[E1 R]|[E1 R]]; unfold EOF; rewrite E1; lits; run; (eapply twp_eval; [exact R|]); run; rewrite Nat.add_0_r;
      unfold EOF; cbn [as_inline]; rewrite E; lits; now apply H.
  - apply t_plain; [lia|exact W|]. cbn [as_tabular as_prefix as_inline].
    assert (FC : first_colon text i k) by (repeat split; auto; lia). pose proof (colon_number _ _ FC) as NN. destruct (number_none text false i ltac:(lia) NN) as (m & LM & R & NC).
    eapply twp_eval; [exact R|]. cbv beta iota. destruct (key_or_eol_at text i m ltac:(lia) ltac:(intros k' K; destruct (NC k' K) as (? & ? & _); auto)) as [(k' & F' & R')|(j' & W' & R')].
    + rewrite <- (first_colon_det _ _ _ _ FC F') in R'. eapply twp_eval; [exact R'|]. cbv beta iota. now apply H.
    + exfalso. eapply first_colon_word; eauto.
Qed.
Lemma t_me_map outer i s k l j : key_at text i s k -> under outer (column i) -> gives_pairs value (column i) s k l j -> gives body false outer i (DMap l) j.
Proof. intros K U H p. pose proof (key_le _ _ _ K) as [KL KE]. eapply t_key; [exact K|]. intros key E. apply (t_map s); auto. lia. Qed.
Lemma t_me_flow_seq flow outer i n l j : at_ i = LBRACK -> gap_to (S i) n -> gives_flow_seq value n l j -> gives body flow outer i (DSeq l) j.
Proof.
  intros E G H p. pose proof (at_lt _ _ _ E ltac:(discriminate)) as L. pose proof (gap_le _ _ _ G). unfold a_value_body. run. rewrite Nat.add_0_r. unfold EOF. rewrite E. lits.
  eapply twp_bind.
  { unfold a_inline_sequence. run. rewrite Nat.min_l by lia. rewrite Nat.add_1_r. eapply twp_eval; [apply gap_ws; exact G|]. eapply twp_bind; [apply H; lia|].
    intros [[its tr] q] n' (D & E' & J). cbn [fst snd] in *. run. rewrite Nat.add_0_r. unfold EOF. rewrite E'. change (RBRACK =? RBRACK) with true. cbn [negb]. run.
    apply (twp_ret _ _ (fun t n'' => see t = DSeq l /\ n'' = j)). pose proof (at_lt _ _ _ E' ltac:(discriminate)). rewrite Nat.min_l by lia. split; [|lia]. cbn [see]. fold (sdata its). now rewrite D. }
  cbv beta. intros t n' (D & ->). apply twp_ret. cbn [fst snd]. auto.
Qed.
Lemma t_me_flow_map flow outer i n l j : at_ i = LBRACE -> gap_to (S i) n -> gives_flow_map value n l j -> gives body flow outer i (DMap l) j.
Proof.
  intros E G H p. pose proof (at_lt _ _ _ E ltac:(discriminate)) as L. pose proof (gap_le _ _ _ G). unfold a_value_body. run. rewrite Nat.add_0_r. unfold EOF. rewrite E. lits.
  eapply twp_bind.
  { unfold a_inline_mapping. run. rewrite Nat.min_l by lia. rewrite Nat.add_1_r. eapply twp_eval; [apply gap_ws; exact G|]. eapply twp_bind; [apply H; lia|].
    intros [[[its tr] q] st] n' (D & E' & J). cbn [fst snd] in *. run. rewrite Nat.add_0_r. unfold EOF. rewrite E'. change (RBRACE =? RBRACE) with true. cbn [negb]. run.
    apply (twp_ret _ _ (fun t n'' => see t = DMap l /\ n'' = j)). pose proof (at_lt _ _ _ E' ltac:(discriminate)). rewrite Nat.min_l by lia. split; [|lia]. cbn [see]. fold (mdata its). now rewrite D. }
  cbv beta. intros t n' (D & ->). apply twp_ret. cbn [fst snd]. auto.
Qed.
End Body.

(* values of enough fuel *)
Local Notation val := (a_value text).
Lemma val_S f : val (S f) = a_value_body text (val f).
Proof. reflexivity. Qed.
Theorem means_eval :
  (forall flow outer i d j, means flow outer i d j -> forall f, (len - i < f)%nat -> gives (val f) flow outer i d j) /\
  (forall outer i d j, behind outer i d j -> forall f, (len - i < f)%nat -> gives_behind (val f) outer i d j) /\
  (forall c i l j, dashes_at text c i l j -> forall f, (len - S i < f)%nat -> gives_dashes (val f) c i l j) /\
  (forall c s k l j, pairs_at text c s k l j -> forall f, (len - S k < f)%nat -> gives_pairs (val f) c s k l j) /\
  (forall i d j (skipped : bool), held_at i d j skipped -> forall f, (len - i < f)%nat -> gives_held (val f) i d j skipped) /\
  (forall n l j, flow_seq_at text n l j -> forall f, (len - n < f)%nat -> gives_flow_seq (val f) n l j) /\
  (forall n l j, flow_map_at text n l j -> forall f, (len - n < f)%nat -> gives_flow_map (val f) n l j) /\
  (forall n s d e, flow_pair_at text n s d e -> forall f, (len - n < f)%nat -> gives_pair (val f) n s d e).
Proof.
  destruct all_le as (LM & LB & LD & LP & LH & LS & LF & LR).
  apply means_all.
  - intros flow outer i s j Q C f F. destruct f as [|f]; [lia|]. rewrite val_S. now apply t_me_quote.
  - intros flow outer i h j N f F. destruct f as [|f]; [lia|]. rewrite val_S. now apply t_me_number.
  - intros flow outer i d j NW NN W D f F. destruct f as [|f]; [lia|]. rewrite val_S. now apply t_me_word.
  - intros outer i s j B f F. destruct f as [|f]; [lia|]. rewrite val_S. now apply t_me_block.
  - intros outer i l j E W H IH f F. pose proof (at_lt _ _ _ E ltac:(discriminate)). destruct f as [|f]; [lia|]. rewrite val_S. apply t_me_seq; auto. apply IH. lia.
  - intros outer i s k l j K U H IH f F. pose proof (key_le _ _ _ K). destruct f as [|f]; [lia|]. rewrite val_S. apply (t_me_map _ _ _ s k); auto. apply IH. lia.
  - intros flow outer i n l j E G H IH f F. pose proof (at_lt _ _ _ E ltac:(discriminate)). pose proof (gap_le _ _ _ G). destruct f as [|f]; [lia|]. rewrite val_S. apply (t_me_flow_seq _ _ _ _ n); auto. apply IH. lia.
  - intros flow outer i n l j E G H IH f F. pose proof (at_lt _ _ _ E ltac:(discriminate)). pose proof (gap_le _ _ _ G). destruct f as [|f]; [lia|]. rewrite val_S. apply (t_me_flow_map _ _ _ _ n); auto. apply IH. lia.
  - (* be_value *) intros outer i m d j G H IH f F. pose proof (gap_le _ _ _ G). exists m. split; [exact G|]. intros p. eapply twp_mono; [apply (IH f); lia|].
    cbv beta. intros [t w] n1 (D & _ & W). cbn [fst snd] in *. split; [exact D|]. intros n' G'. apply or_ws_at. destruct w; [|now subst]. symmetry. rewrite (gap_det _ _ _ W _ G'). reflexivity.
  - (* be_none *) intros o i m s k G K C f F. pose proof (gap_le _ _ _ G). exists m. split; [exact G|]. intros p. destruct f as [|f]; [lia|]. rewrite val_S.
    eapply t_key; [exact K|]. intros key _. eapply twp_mono; [apply (t_none (val f)); [lia|exact C]|]. cbv beta. intros [t w] n1 (D & -> & W). cbn [fst snd] in *. split; [exact D|].
    intros n' G'. apply or_ws_at. destruct w; [|congruence]. symmetry. rewrite (gap_det _ _ _ G _ G'). reflexivity.
  - (* da_last *) intros c i d e n B IH G C f F L f' items ip F'. apply LB in B. eapply (t_dash _ c i d e n); [exact L|lia|apply IH; exact F|exact G|exact F'|].
    intros f2 its q _ D. assert (X : negb (Nat.eqb (column n) c) || negb (at_ n =? DASH) = true).
    { apply orb_true_iff. rewrite !negb_true_iff, Nat.eqb_neq, N.eqb_neq. exact C. }
    rewrite X. apply twp_ret. cbn [fst snd]. auto.
  - (* da_more *) intros c i d e n l j B IH G C E H IH2 f F L f' items ip F'. apply LB in B. pose proof (gap_le _ _ _ G). pose proof (at_lt _ _ _ E ltac:(discriminate)). eapply (t_dash _ c i d e n); [exact L|lia|apply IH; exact F|exact G|exact F'|].
    intros f2 its q F2 D. rewrite C, Nat.eqb_refl, E. change (DASH =? DASH) with true. cbn [negb orb]. eapply twp_mono; [apply (IH2 f); auto; lia|].
    cbv beta. intros r n' (D2 & G2). rewrite D2, D, <- app_assoc. auto.
  - (* pa_last *) intros c s k d e n B IH G C f F E f' items start key ip F' KS. apply LB in B. eapply (t_colon _ c s k d e n); [exact E|lia|apply IH; exact F|exact G|exact F'|exact KS|].
    intros f2 its q _ D. destruct (Nat.eqb_spec (column n) c) as [CE|CE]; cbn [negb]; [|apply twp_ret; cbn [fst snd]; auto].
    destruct C as [C|C]; [contradiction|]. run. pose proof (gap_le _ _ _ G). assert (T : to_colon text n n) by (split; [lia|]; split; [lia|exact C]).
    eapply twp_eval; [apply next_key_at; exact T|]. assert (part n n = []) as ->. { apply length_zero_iff_nil. rewrite seg_length; lia. }
    cbv beta iota. apply twp_ret. cbn [fst snd]. auto.
  - (* pa_more *) intros c s k d e n s' k' l j B IH G C K H IH2 f F E f' items start key ip F' KS. apply LB in B. pose proof (gap_le _ _ _ G). eapply (t_colon _ c s k d e n); [exact E|lia|apply IH; exact F|exact G|exact F'|exact KS|].
    intros f2 its q F2 D. rewrite C, Nat.eqb_refl. cbn [negb]. run. apply later_key_iff in K as (T & LT & EK & ->). eapply twp_eval; [apply next_key_at; exact T|]. pose proof (proj1 T).
    destruct (part n k') as [|x y] eqn:EP. { pose proof (seg_length text n k' ltac:(lia)) as KK. rewrite EP in KK. cbn in KK. lia. }
    cbv beta iota. eapply twp_mono; [apply (IH2 f); auto; lia|]. cbv beta. intros r n' (D2 & G2). rewrite D2, D, <- app_assoc. auto.
  - (* he_value *) intros i d j H IH f F p. eapply twp_mono; [apply (IH f F)|]. cbv beta. intros [t w] n' (D & W & X). cbn [fst snd] in *. rewrite (W eq_refl) in *. auto.
  - intros i s e n B G f F. destruct f as [|f]; [lia|]. rewrite val_S. now apply (t_he_block _ i s e).
  - (* fq_end *) intros n E f F f' items tr ip F'. exists (items, tr, ip), n. split; [apply t_iseq_end; [lia|exact E]|]. cbn [fst snd]. rewrite app_nil_r. auto.
  - intros n m d e skipped n' l j NC G H IH E W H2 IH2 f F. pose proof (gap_le _ _ _ G). apply LH in H. pose proof (LS _ _ _ H2). apply (t_fq_comma _ n m d e skipped n'); auto; try lia; [apply IH; lia|].
    pose proof (at_lt _ _ _ E ltac:(discriminate)). apply IH2. assert (S e <= n')%nat by (destruct skipped; [lia|apply gap_le in W; lia]). lia.
  - intros n m d e skipped n' NC G H IH E G' Q f F. pose proof (gap_le _ _ _ G). apply LH in H. apply (t_fq_rest _ n m d e skipped n'); auto; try lia; [apply IH; lia|].
    intros f2 items tr ip F2. exists (items, tr, ip), n'. split; [now apply t_iseq_end|]. cbn [fst snd]. rewrite app_nil_r. auto.
  - intros n m d e skipped n' d' e' skipped' n'' NC G H IH E G' NC' H' IH' G'' Q f F. pose proof (gap_le _ _ _ G). pose proof (gap_le _ _ _ G'). apply LH in H. apply LH in H'.
    apply (t_fq_rest _ n m d e skipped n'); auto; try lia; [apply IH; lia|]. intros f2 items tr ip F2. eapply t_iseq_last; eauto; [eapply gap_stop; eauto|]. apply IH'. lia.
  - (* fp_end *) intros n E f F f' items tr st ip F'. exists (items, tr, ip, st), n. split; [apply t_imap_end; [lia|exact E]|]. cbn [fst snd]. rewrite app_nil_r. auto.
  - intros n d e n' l j s P IH E G H IH2 f F. apply LR in P. pose proof (gap_le _ _ _ G). apply (t_fp_comma _ n d e n'); auto; try lia. apply IH2. lia.
  - intros n d e s P IH E f F. apply LR in P. apply t_fp_rest with (e := e); auto; try lia; [rewrite E; discriminate|].
    intros f2 items tr st ip F2. exists (items, tr, ip, st), e. split; [now apply t_imap_end|]. cbn [fst snd]. rewrite app_nil_r. auto.
  - intros n d e s d' e' s' P IH E P' IH' E' f F. apply LR in P. apply t_fp_rest with (e := e); auto; try lia.
    intros f2 items tr st ip F2. apply t_imap_last; [exact F2|]. apply IH'. lia.
  - (* fp_pair *) intros n s k m d e skipped e' NC FK G H IH G' f F. split; [exact NC|]. pose proof (gap_le _ _ _ G). pose proof (proj1 FK). exists k, m. split; [exact FK|]. split; [exact G|]. split; [eapply gap_stop; eauto|].
    intros p. eapply twp_mono; [apply (IH f); lia|]. cbv beta. intros [t w] n' (D & -> & W). cbn [fst snd] in *. split; [exact D|]. eapply held_or_ws; eauto.
Qed.
Lemma header_le i j : header_to text i j -> (i <= len)%nat -> (i <= j <= len)%nat.
Proof.
  induction 1 as [i A B|i k n j E K G H IH|i j A B C G]; intros L; [lia| |apply gap_le in G; lia]. destruct K as [K _]. apply gap_le in G. lia.
Qed.
Lemma header_eval i j : header_to text i j -> (i <= len)%nat -> forall f p, (len - i < f)%nat -> exists q, a_sod_loop text f p i = Ok (q, j).
Proof.
  assert (X : header_to text i j -> (i <= len)%nat -> forall f p, (len - i < f)%nat -> twp (a_sod_loop text f p) i (fun _ n => n = j)).
  { clear. induction 1 as [i A B|i k n j E K G H IH|i j A B C G]; intros L f p F; (destruct f as [|f]; [lia|]); cbn [a_sod_loop]; run; rewrite Nat.add_0_r; unfold EOF; replace (i + 1)%nat with (1 + i)%nat by lia; replace (i + 2)%nat with (2 + i)%nat by lia.
    - rewrite (proj2 (N.eqb_neq _ _) A). destruct (_ && _) eqn:Z; [|now apply twp_ret]. exfalso. apply B. apply andb_prop in Z as [Z Z3]. apply andb_prop in Z as [Z1 Z2]. apply N.eqb_eq in Z1, Z2, Z3. auto.
    - pose proof (at_lt _ _ _ E ltac:(discriminate)). rewrite E. change (PERCENT =? PERCENT) with true. cbv iota. eapply twp_eval; [apply line_eval; exact K|]. eapply twp_eval; [apply gap_ws; exact G|].
      assert (i < k)%nat. { destruct K as (K & _ & [->|EK]); [lia|]. destruct (Nat.eq_dec i k) as [->|NE]; [rewrite E in EK; discriminate|lia]. }
      pose proof (gap_le _ _ _ G). apply IH; lia.
    - pose proof (at_lt _ _ _ C ltac:(discriminate)). rewrite A, B, C. lits. run. rewrite Nat.min_l by lia. replace (i + 3)%nat with (3 + i)%nat by lia. exists (part (3 + i) j), j. split; [now apply gap_ws|reflexivity]. }
  intros H L f p F. destruct (X H L f p F) as (q & n & E & ->). eauto.
Qed.
Theorem means_complete d : stands_for text d -> exists t suffix, a_parse text = Ok (t, suffix) /\ see t = d.
Proof.
  intros (n & i & j & G & H & M & G').
  assert (T : twp (a_parse_m text) 0 (fun r _ => see (fst r) = d)).
  { unfold a_parse_m. pose proof (gap_le _ _ _ G) as GL. pose proof (header_le _ _ H ltac:(lia)) as HL.
    destruct (header_eval _ _ H ltac:(lia) (S len) (part 0 n) ltac:(lia)) as (q & R).
    assert (SD : a_start_of_document text O = Ok (q, i)). { unfold a_start_of_document. rewrite (bind_ok _ _ _ _ _ (gap_ws _ _ _ G)). exact R. }
    eapply twp_eval; [exact SD|]. eapply twp_bind; [apply (proj1 means_eval _ _ _ _ _ M); lia|]. intros [t w] n' (D & _ & W). cbn [fst snd] in *.
    assert (OW : exists p, a_or_ws text w n' = Ok (p, len)). { apply or_ws_at. destruct w; [|now subst]. symmetry. apply (gap_det _ _ _ W _ G'). }
    destruct OW as (p & OW). eapply twp_eval; [exact OW|]. run. rewrite Nat.eqb_refl. cbn [negb]. now apply twp_ret. }
  destruct T as ([t s] & n' & E & D). exists t, s. unfold a_parse. rewrite E. auto.
Qed.
End Complete.
