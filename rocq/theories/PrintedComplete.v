(* What the rules of Printed.v give is what the parsed document writes: the other direction of
   C49. By induction on the rules. *)
From Coq Require Import String.
From Coq Require Import List NArith Bool Arith Lia.
From Verif Require Import Bytes Utf8 Data Parser Render Tree Abs Scan AbsText AbsNice Num Reads ReadsSound Shown Plain White Valid Lexed Means Places MeansSound MeansComplete Printed PrintedSound.
Import ListNotations.
Local Open Scope N_scope.

Section Complete.
Variable text : bytes.
Local Notation len := (length text).
Local Notation at_ i := (nth i text 0).
Local Notation part := (slice text).
Local Notation gap_to := (gap_to text).
Local Notation column := (column text).
Local Notation puts := (puts text).
Local Notation after := (after text).

Ltac run := repeat (lazymatch goal with
  | |- twp (bind a_get ?k) ?n ?Q => change (twp (k n) n Q)
  | |- twp (bind (a_rest _) ?k) ?n ?Q => change (twp (k (skipn n text)) n Q)
  | |- twp (bind (a_peek _ ?i) ?k) ?n ?Q => change (twp (k (nth (n + i) text EOF)) n Q)
  | |- twp (bind (a_eof _) ?k) ?n ?Q => change (twp (k (Nat.eqb n len)) n Q)
  | |- twp (bind (a_string _ ?s) ?k) ?n ?Q => change (twp (k (part s n)) n Q)
  | |- twp (bind (a_indent _) ?k) ?n ?Q => change (twp (k (indent_from text n)) n Q)
  | |- twp (bind (a_set ?m) ?k) ?n ?Q => change (twp (k tt) m Q)
  | |- twp (bind (a_bump _ ?i) ?k) ?n ?Q => change (twp (k tt) (Nat.min (n + i) len) Q)
  | |- twp (bind (ret ?x) ?k) ?n ?Q => change (twp (k x) n Q)
  end; cbv beta).
Ltac lits := repeat match goal with |- context [N.eqb ?x ?y] => is_const x; is_const y; let v := eval vm_compute in (N.eqb x y) in change (N.eqb x y) with v end; cbn [andb orb negb]; cbv iota.

(* ---- where things are ---- *)
Lemma laid_le i s w j : block_laid text i s w j -> (i < j <= len)%nat.
Proof.
  intros B. assert (A : at_ i = GT \/ at_ i = PIPE) by (destruct B as [f v A _ _ _|f v A _ _ _|f v A _ _ _]; destruct f; auto).
  destruct (block_printed text i A) as (s' & j' & m & p & o & q & B' & G & PO & JL & R). destruct (block_laid_det _ _ _ _ _ _ _ _ B B') as (_ & _ & ->). exact JL.
Qed.
Lemma after_le w e w' n : after w e w' n -> (e <= len)%nat -> (e <= n <= len)%nat.
Proof. intros [w0 n0|e0 n0 G] L; [lia|]. apply gap_le in G. lia. Qed.
Lemma puts_le : (forall flow outer i d o w j, puts flow outer i d o w j -> (i <= j <= len)%nat) /\
  (forall outer i d o w n, puts_behind text outer i d o w n -> (i <= n <= len)%nat) /\
  (forall c i l o w n, puts_dashes text c i l o w n -> (i < n <= len)%nat) /\
  (forall c s k l o w n, puts_pairs text c s k l o w n -> (k < n <= len)%nat) /\
  (forall n p l o j, puts_flow_seq text n p l o j -> (n < j <= len)%nat) /\
  (forall n p l o j, puts_flow_map text n p l o j -> (n < j <= len)%nat) /\
  (forall n s d o w e, puts_pair text n s d o w e -> (n < e <= len)%nat).
Proof.
  apply puts_all; intros; repeat match goal with
    | H : quote_at _ _ _ _ |- _ => apply quote_le in H | H : number_at _ _ _ _ _ |- _ => apply number_le in H
    | H : word_to _ _ _ _ |- _ => apply word_le in H | H : Means.gap_to _ _ _ |- _ => apply gap_le in H | H : key_at _ _ _ _ |- _ => apply key_le in H
    | H : block_laid _ _ _ _ _ |- _ => apply laid_le in H
    | H : later_key_at _ _ _ _ |- _ => destruct H as [H _] | H : flow_key_at _ _ _ _ |- _ => destruct H as [H _]
    | H : nth ?i text 0 = _ |- _ => lazymatch goal with _ : (i < len)%nat |- _ => fail | _ => pose proof (at_lt _ _ _ H ltac:(discriminate)) end
    | H : Printed.after _ _ _ _ _ |- _ => apply after_le in H; [|lia]
    end; try lia.
Qed.

Section Value.
Variable value : astate -> AM (tree unit * option bytes).
Definition pgives (flow : bool) (outer : option nat) (i : nat) (d : datum) (o : bytes) (w : option bytes) (j : nat) : Prop := forall p,
  twp (value (AState p flow (negb flow) outer)) i (fun r n' => see (fst r) = d /\ wtree (fst r) = o /\ tpre (fst r) = p /\ snd r = w /\ n' = j).
Definition pgives_behind (outer : option nat) (i : nat) (d : datum) (o w : bytes) (n : nat) : Prop := exists m, gap_to i m /\
  twp (value (AState (part i m) false true outer)) m (fun r n1 => see (fst r) = d /\ tpre (fst r) ++ wtree (fst r) = o /\ a_or_ws text (snd r) n1 = Ok (w, n)).
Definition pgives_dashes (c i : nat) (l : list datum) (o w : bytes) (n : nat) : Prop := (i < len)%nat -> forall f items ip, (len - i < f)%nat ->
  twp (a_seq_loop text value f c items ip) i (fun r n' => sdata (fst r) = sdata items ++ l /\ sout CBlock (fst r) = sout CBlock items ++ lossy ip ++ o /\ snd r = w /\ n' = n).
Definition pgives_pairs (c : nat) (s : bytes) (k : nat) (l : list (bytes * datum)) (o w : bytes) (n : nat) : Prop := at_ k = COLON -> forall f items start (key : rstr bytes) ip, (len - k < f)%nat -> rs_id key = s ->
  twp (a_map_loop text value f c items start key ip) k (fun r n' => mdata (fst r) = mdata items ++ l /\ mout CBlock (fst r) = mout CBlock items ++ ip ++ wstr key ++ o /\ snd r = w /\ n' = n).
Definition pgives_flow_seq (n : nat) (p : bytes) (l : list datum) (o : bytes) (j : nat) : Prop := forall f items tr, (tr = true <-> items <> []) -> (S (len - n) < f)%nat ->
  twp (a_iseq_loop text value f items false tr p) n (fun r n' => let '(its, tr', p') := r in
    sdata its = sdata items ++ l /\ at_ n' = RBRACK /\ j = S n' /\ sout flowk its ++ comma tr' ++ p' ++ b "]" = sout flowk items ++ comma tr ++ o).
Definition pgives_flow_map (n : nat) (p : bytes) (l : list (bytes * datum)) (o : bytes) (j : nat) : Prop := forall f items tr start, (tr = true <-> items <> []) -> (S (len - n) < f)%nat ->
  twp (a_imap_loop text value f items false tr start p) n (fun r n' => let '(its, tr', p', _) := r in
    mdata its = mdata items ++ l /\ at_ n' = RBRACE /\ j = S n' /\ mout flowk its ++ comma tr' ++ p' ++ b "}" = mout flowk items ++ comma tr ++ o).
Definition pgives_pair (n : nat) (s : bytes) (d : datum) (o w : bytes) (e' : nat) : Prop := ~ In (at_ n) [RBRACE; 0] /\ exists k m, flow_key_at text n s k /\ gap_to (S k) m /\ gap_to e' e' /\
  twp (value (AState (part (S k) m) true false None)) m (fun r e => see (fst r) = d /\ s ++ b ":" ++ tpre (fst r) ++ wtree (fst r) = o /\ a_or_ws text (snd r) e = Ok (w, e')).

Lemma made_lossy p v : made_valid p v -> lossy p = v.
Proof. apply lossy_spec. Qed.
Lemma comma_items {A} (items : list A) tr : (tr = true <-> items <> []) -> (if items then [] else [COMMA]) = comma tr.
Proof. intros [T1 T2]. destruct items; destruct tr; try reflexivity; exfalso; [now apply T1|]. discriminate T2. discriminate. Qed.
Lemma sout_next items tr ip v : (tr = true <-> items <> []) -> sout flowk (items ++ [(tt, ip, v)]) = sout flowk items ++ comma tr ++ lossy ip ++ tpre v ++ wtree v.
Proof. intros T. rewrite sout_snoc, <- (comma_items items tr T). now destruct items. Qed.
Lemma mout_next items tr ip key v : (tr = true <-> items <> []) -> mout flowk (items ++ [(tt, ip, key, v)]) = mout flowk items ++ comma tr ++ ip ++ wstr key ++ b ":" ++ tpre v ++ wtree v.
Proof. intros T. rewrite mout_snoc, <- (comma_items items tr T). now destruct items. Qed.
Lemma snoc_ne {A} (items : list A) x : items ++ [x] <> [].
Proof. destruct items; discriminate. Qed.
(* the end of a flow sequence, then of a flow mapping *)
Lemma p_iseq_last f items tr ip v n d o w e w' n' : (0 < f)%nat -> items <> [] -> ~ In (at_ n) [RBRACK; 0] -> made_valid ip v -> gap_to n n -> pgives true None n d o w e -> after w e w' n' ->
  twp (a_iseq_loop text value f items true tr ip) n (fun r n2 => let '(its, tr', p') := r in sdata its = sdata items ++ [d] /\ n2 = n' /\ tr' = false /\ p' = w' /\ sout flowk its = sout flowk items ++ b "," ++ v ++ o).
Proof.
  intros L NE NC V G H A. destruct f as [|f]; [lia|]. cbn [a_iseq_loop]. run. rewrite Nat.add_0_r, (eof_or _ RBRACK) by auto. eapply twp_eval; [apply gap_ws; exact G|]. rewrite seg_nil.
  eapply twp_bind; [apply H|]. intros [t w1] n1 (S & O & T & EW1 & ->). cbn [fst snd] in *. subst w1. eapply twp_eval; [apply after_eval; exact A|].
  apply twp_ret. rewrite sdata_snoc, S, (sout_next _ true), (made_lossy _ _ V), T, O by tauto. auto.
Qed.
Lemma p_ps_comma n p v m d o w e w' n' l o' j : (n <= len)%nat -> ~ In (at_ n) [RBRACK; 0] -> made_valid p v -> gap_to n m -> (m <= e)%nat -> pgives true None m d o w e -> at_ e = COMMA ->
  after w (S e) w' n' -> pgives_flow_seq n' w' l o' j -> pgives_flow_seq n p (d :: l) (v ++ part n m ++ o ++ b "," ++ o') j.
Proof.
  intros L NC V G LE H E A IH f items tr TR F. pose proof (gap_le _ _ _ G). destruct f as [|f]; [lia|]. cbn [a_iseq_loop]. run. rewrite Nat.add_0_r, (eof_or _ RBRACK) by auto.
  eapply twp_eval; [apply gap_ws; exact G|]. eapply twp_bind; [apply H|]. intros [t w1] n1 (D & O & T & EW1 & ->). cbn [fst snd] in *. subst w1. run. rewrite Nat.add_0_r. unfold EOF. rewrite E. cbv iota beta.
  change (COMMA =? COMMA) with true. cbv iota. run. pose proof (at_lt _ _ _ E ltac:(discriminate)). rewrite Nat.min_l by lia. rewrite Nat.add_1_r.
  eapply twp_eval; [apply after_eval; exact A|]. apply after_le in A; [|lia]. eapply twp_mono; [apply IH; [split; auto using snoc_ne|lia]|].
  intros [[its tr'] p'] n2 (D2 & X & Y & Z). rewrite D2, sdata_snoc, <- app_assoc, D, Z, (sout_next _ _ _ _ TR), (made_lossy _ _ V), T, O. cbn [comma]. rewrite <- !app_assoc. auto.
Qed.
Lemma p_ps_rest n p v m d o w e w' n' l o' n2 : (n <= len)%nat -> ~ In (at_ n) [RBRACK; 0] -> made_valid p v -> gap_to n m -> (m <= e)%nat -> pgives true None m d o w e -> at_ e <> COMMA ->
  after w e w' n' -> at_ n2 = RBRACK ->
  (forall f items, (0 < f)%nat -> items <> [] -> twp (a_iseq_loop text value f items true false w') n' (fun r n3 => let '(its, tr', p') := r in
     sdata its = sdata items ++ l /\ n3 = n2 /\ sout flowk its ++ comma tr' ++ p' ++ b "]" = sout flowk items ++ o')) -> pgives_flow_seq n p (d :: l) (v ++ part n m ++ o ++ o') (S n2).
Proof.
  intros L NC V G LE H E A Q IH f items tr TR F. pose proof (gap_le _ _ _ G). destruct f as [|f]; [lia|]. cbn [a_iseq_loop]. run. rewrite Nat.add_0_r, (eof_or _ RBRACK) by auto.
  eapply twp_eval; [apply gap_ws; exact G|]. eapply twp_bind; [apply H|]. intros [t w1] n1 (D & O & T & EW1 & ->). cbn [fst snd] in *. subst w1. run. rewrite Nat.add_0_r. unfold EOF. rewrite (proj2 (N.eqb_neq _ _) E). cbv iota beta.
  eapply twp_eval; [apply after_eval; exact A|]. eapply twp_mono; [apply IH; [lia|apply snoc_ne]|].
  intros [[its tr'] p'] n3 (D2 & -> & Z). rewrite D2, sdata_snoc, <- app_assoc, D, Z, (sout_next _ _ _ _ TR), (made_lossy _ _ V), T, O. rewrite <- !app_assoc. auto.
Qed.
Lemma p_pair {X} (k : rstr bytes -> tree unit * option bytes -> AM X) n s d o w e' Q (bad : AM X) : pgives_pair n s d o w e' ->
  (forall key r e, rs_id key = s -> see (fst r) = d -> wstr key ++ b ":" ++ tpre (fst r) ++ wtree (fst r) = o -> a_or_ws text (snd r) e = Ok (w, e') -> twp (k key r) e Q) ->
  twp (m <- a_get ;; key <- a_until_colon text m ;; match key with None => bad | Some key => a_bump text 1 ;;; p <- a_ws text ;; r <- value (AState p true false None) ;; k key r end) n Q.
Proof.
  intros (NC & kk & m & FK & G & G' & V) K. run. apply flow_key_iff in FK as (T & LT & Es). eapply twp_eval; [apply until_colon_at; exact T|].
  destruct (Nat.eqb_spec kk len) as [E|_]; [lia|]. run. rewrite Nat.min_l by lia. rewrite Nat.add_1_r. eapply twp_eval; [apply gap_ws; exact G|].
  eapply twp_bind; [apply V|]. intros r e (D & O & OW). subst s. eapply K; [reflexivity|exact D|exact O|exact OW].
Qed.
Lemma p_pm_comma n p d o w e n' l o' j s : (n < e)%nat -> pgives_pair n s d o w e -> at_ e = COMMA -> gap_to (S e) n' -> pgives_flow_map n' (part (S e) n') l o' j ->
  pgives_flow_map n p ((s, d) :: l) (p ++ o ++ b "," ++ o') j.
Proof.
  intros LT P E G IH f items tr start TR F. destruct f as [|f]; [lia|]. cbn [a_imap_loop]. run. rewrite Nat.add_0_r, (eof_or _ RBRACE) by (auto; apply P). eapply p_pair; [exact P|].
  intros key [v w1] e1 K D O OW. cbn [fst snd] in *. eapply twp_eval; [exact OW|]. run. rewrite Nat.add_0_r. unfold EOF. rewrite E. change (COMMA =? COMMA) with true. cbv iota. run.
  pose proof (at_lt _ _ _ E ltac:(discriminate)). rewrite Nat.min_l by lia. rewrite Nat.add_1_r. eapply twp_eval; [apply gap_ws; exact G|]. pose proof (gap_le _ _ _ G).
  eapply twp_mono; [apply IH; [split; auto using snoc_ne|lia]|]. intros [[[its tr'] p'] st'] n2 (D2 & X & Y & Z). rewrite D2, mdata_snoc, <- app_assoc, D, K, Z, (mout_next _ _ _ _ _ TR), O. cbn [comma]. rewrite <- !app_assoc. auto.
Qed.
Lemma p_pm_rest n p d o w e s l o' n2 : (n < e)%nat -> pgives_pair n s d o w e -> at_ e <> COMMA -> at_ n2 = RBRACE ->
  (forall f items start, (0 < f)%nat -> items <> [] -> twp (a_imap_loop text value f items true false start []) e (fun r n3 => let '(its, tr', p', _) := r in
     mdata its = mdata items ++ l /\ n3 = n2 /\ mout flowk its ++ comma tr' ++ p' ++ b "}" = mout flowk items ++ o')) ->
  pgives_flow_map n p ((s, d) :: l) (p ++ o ++ o') (S n2).
Proof.
  intros LT P E Q IH f items tr start TR F. destruct f as [|f]; [lia|]. cbn [a_imap_loop]. run. rewrite Nat.add_0_r, (eof_or _ RBRACE) by (auto; apply P). eapply p_pair; [exact P|].
  intros key [v w1] e1 K D O OW. cbn [fst snd] in *. eapply twp_eval; [exact OW|]. run. rewrite Nat.add_0_r. unfold EOF. rewrite (proj2 (N.eqb_neq _ _) E). run.
  assert (G : gap_to e e) by (destruct P as (_ & kk & m & _ & _ & G & _); exact G). eapply twp_eval; [apply gap_ws; exact G|]. rewrite seg_nil.
  eapply twp_mono; [apply IH; [lia|apply snoc_ne]|]. intros [[[its tr'] p'] st'] n3 (D2 & -> & Z). rewrite D2, mdata_snoc, <- app_assoc, D, K, Z, (mout_next _ _ _ _ _ TR), O. rewrite <- !app_assoc. auto.
Qed.
Lemma p_imap_last f items tr start n s d o w e : (0 < f)%nat -> items <> [] -> pgives_pair n s d o w e ->
  twp (a_imap_loop text value f items true tr start []) n (fun r n2 => let '(its, tr', p', _) := r in mdata its = mdata items ++ [(s, d)] /\ n2 = e /\ tr' = false /\ p' = w /\ mout flowk its = mout flowk items ++ b "," ++ o).
Proof.
  intros L NE P. destruct f as [|f]; [lia|]. cbn [a_imap_loop]. run. rewrite Nat.add_0_r, (eof_or _ RBRACE) by (auto; apply P). eapply p_pair; [exact P|].
  intros key [v w1] e1 K D O OW. cbn [fst snd] in *. eapply twp_eval; [exact OW|]. apply twp_ret. rewrite mdata_snoc, D, K, (mout_next _ true), O by tauto. auto.
Qed.
(* a dash or colon, its value and the white space behind it *)
Lemma p_behind {X} (k : tree unit * option bytes -> AM X) outer i d o w n Q : pgives_behind outer i d o w n ->
  (forall r n1, see (fst r) = d -> tpre (fst r) ++ wtree (fst r) = o -> a_or_ws text (snd r) n1 = Ok (w, n) -> twp (k r) n1 Q) ->
  twp (p <- a_ws text ;; r <- value (AState p false true outer) ;; k r) i Q.
Proof.
  intros (m & G & V) K. eapply twp_eval; [apply gap_ws; exact G|]. eapply twp_bind; [apply V|]. intros r n1 (D & O & OW). eapply K; eauto.
Qed.
Lemma p_dash c i d o w n f items ip Q : (i < n <= len)%nat -> pgives_behind None (S i) d o w n -> (len - i < f)%nat ->
  (forall f' items', (len - n < f')%nat -> sdata items' = sdata items ++ [d] -> sout CBlock items' = sout CBlock items ++ lossy ip ++ b "-" ++ o ->
     twp (if negb (Nat.eqb (column n) c) || negb (at_ n =? DASH) then ret (items', w) else a_seq_loop text value f' c items' w) n Q) ->
  twp (a_seq_loop text value f c items ip) i Q.
Proof.
  intros L B F K. destruct f as [|f]; [lia|]. cbn [a_seq_loop]. run. rewrite Nat.min_l by lia. rewrite Nat.add_1_r. eapply p_behind; [exact B|].
  intros [v w1] n1 D O OW. cbn [fst snd] in *. eapply twp_eval; [exact OW|]. run. rewrite Nat.add_0_r. rewrite column_indent by lia. apply K; [lia|now rewrite sdata_snoc, D|].
  rewrite sout_snoc, <- O. now destruct items.
Qed.
Lemma p_colon c s k d o w n f items start (key : rstr bytes) ip Q : at_ k = COLON -> (k < n <= len)%nat -> pgives_behind (Some c) (S k) d o w n -> (len - k < f)%nat -> rs_id key = s ->
  (forall f' items', (len - n < f')%nat -> mdata items' = mdata items ++ [(s, d)] -> mout CBlock items' = mout CBlock items ++ ip ++ wstr key ++ b ":" ++ o ->
     twp (if negb (Nat.eqb (column n) c) then ret (items', w) else
          start <- a_get ;; key <- a_next_mapping_key text ;; match key with None => ret (items', w) | Some key => a_map_loop text value f' c items' start key w end) n Q) ->
  twp (a_map_loop text value f c items start key ip) k Q.
Proof.
  intros E LE B F KS K. destruct f as [|f]; [lia|]. pose proof (at_lt _ _ _ E ltac:(discriminate)). cbn [a_map_loop]. run. rewrite Nat.add_0_r. unfold EOF. rewrite E. change (COLON =? COLON) with true. cbn [negb]. run. rewrite Nat.min_l by lia. rewrite Nat.add_1_r.
  eapply p_behind; [exact B|].
  intros [v w1] n1 D O OW. cbn [fst snd] in *. eapply twp_eval; [exact OW|]. run. rewrite column_indent by lia. apply K; [lia|now rewrite mdata_snoc, D, KS|].
  rewrite mout_snoc, <- O. now destruct items.
Qed.
End Value.

Section Body.
Variable value : astate -> AM (tree unit * option bytes).
Local Notation body := (a_value_body text value).
Lemma p_pu_quote flow outer i s j : quote_at text i s j -> flow = true \/ at_ j <> COLON -> pgives body flow outer i (DStr s) (part i j) None j.
Proof.
  intros Q C p. unfold a_value_body. run. cbn [as_inline as_prefix]. rewrite Nat.add_0_r.
  assert (X : negb flow && (nth j text EOF =? COLON) = false).
  { destruct C as [->|C]; [reflexivity|]. unfold EOF. rewrite (proj2 (N.eqb_neq _ _) C). apply andb_false_r. }
  destruct (quote_eval _ _ _ _ Q) as [[E R]|[E R]]; unfold EOF in *; rewrite E; lits; run; (eapply twp_eval; [exact R|]); run; rewrite Nat.add_0_r;
    unfold EOF; cbn [as_inline]; (destruct flow; cbn [negb andb] in X |- *; rewrite ?X; apply twp_ret; cbn [fst snd see rs_id wtree wscalar wstr rs_kind rs_orig tpre]; auto).
Qed.
Lemma p_pu_number flow outer i h j : number_at text flow i h j -> pgives body flow outer i (DNum (part i j) h) (part i j) None j.
Proof.
  intros N p. pose proof (number_le _ _ _ _ _ N). apply t_plain; [lia|eapply number_word; exact N|]. cbn [as_tabular as_prefix]. eapply twp_eval; [apply number_eval; exact N|]. cbv beta iota. apply twp_ret. cbn [fst snd see wtree wscalar tpre]. auto.
Qed.
Lemma p_pu_word flow outer i d j : ~ no_word text flow i -> (forall h k, ~ number_at text flow i h k) -> word_to text flow i j -> plain_datum (part i j) d -> pgives body flow outer i d (part i j) None j.
Proof.
  intros NW NN W D p. pose proof (word_le _ _ _ _ W). apply t_plain; [lia|exact NW|]. cbn [as_tabular as_prefix as_inline].
  assert (PL : see (TLeaf tt p (a_plain (part i j))) = d).
  { change (see (TLeaf tt (@nil byte) (a_plain (part i j))) = d). apply a_plain_see; [exact D|]. intros h U. apply (NN h j). now apply word_number. }
  assert (PW : wtree (TLeaf tt p (a_plain (part i j))) = part i j) by apply wscalar_plain.
  destruct (number_none text flow i ltac:(lia) NN) as (m & LM & E & NC). eapply twp_eval; [exact E|]. cbv beta iota. destruct flow.
  - run. destruct (ctl_scan_at text m ltac:(lia)) as (HL & _ & _). rewrite Nat.min_l by lia.
    assert (W' : word_to text true i (m + ctl_scan (skipn m text))) by (apply word_flow; [lia|]; intros k K; now apply NC).
    rewrite <- (word_flow_det _ _ _ _ W W'). apply twp_ret. cbn [fst snd]. auto.
  - destruct (key_or_eol_at text i m ltac:(lia) ltac:(intros k K; destruct (NC k K) as (? & ? & _); auto)) as [(k & F & R)|(j' & W' & R)].
    + exfalso. eapply first_colon_word; eauto.
    + rewrite <- (word_line_det _ _ _ _ W W') in R. eapply twp_eval; [exact R|]. cbv beta iota. run. apply twp_ret. cbn [fst snd]. auto.
Qed.
Lemma p_pu_block flow outer i s w j n : block_laid text i s w j -> gap_to j n -> pgives body flow outer i (DStr s) (part i j) (Some w) n.
Proof.
  intros B G p. assert (C : at_ i = GT \/ at_ i = PIPE) by (destruct B as [f v A _ _ _|f v A _ _ _|f v A _ _ _]; destruct f; auto).
  destruct (block_printed text i C) as (s' & j' & m & pp & o & q & B' & G' & PO & _ & R). destruct (block_laid_det _ _ _ _ _ _ _ _ B B') as (<- & <- & <-). rewrite <- (gap_det _ _ _ G _ G') in R.
  exists (TLeaf tt p (ScStr (RS (KMultiline pp) s o)), Some w), n. split; [|cbn [fst snd see rs_id wtree wscalar wstr rs_kind rs_orig tpre]; auto]. unfold a_value_body, a_block_at in *. cbv zeta in R. unfold bind at 1, a_peek at 1. cbv beta iota. unfold bind at 1, a_peek at 1. cbv beta iota.
  rewrite Nat.add_0_r. unfold EOF in *. cbn [as_inline as_prefix].
  destruct C as [C|C]; revert R; rewrite C; lits; intros R; rewrite (bind_ok _ _ _ _ _ R); reflexivity.
Qed.
Lemma p_pu_seq outer i l o w n : at_ i = DASH -> white (at_ (S i)) -> pgives_dashes value (column i) i l o w n -> pgives body false outer i (DSeq l) o (Some w) n.
Proof.
  intros E W H p. pose proof (at_lt _ _ _ E ltac:(discriminate)) as L. unfold a_value_body. run. rewrite Nat.add_0_r. unfold EOF. rewrite E. cbn [as_inline]. replace (i + 1)%nat with (S i) by lia.
  rewrite (proj2 (is_ws_white _) W). lits. unfold a_sequence. run. rewrite column_indent by lia. eapply twp_bind; [apply H; lia|].
  intros [its w1] n' (D & O & EW1 & ->). cbn [fst snd] in *. subst w1. apply twp_ret. cbn [fst snd tpre]. rewrite see_seq, wtree_seq, D, O. auto.
Qed.
(* a key leads to a mapping or to nothing *)
Lemma p_key s i k p outer Q : key_at text i s k -> (forall key, rs_id key = s -> wstr key = part i k -> twp (a_mapping_or_nul text value (AState p false true outer) i key) k Q) ->
  twp (body (AState p false true outer)) i Q.
Proof.
  intros K H. pose proof (key_le _ _ _ _ K) as [KL KE]. destruct K as [QA E|W L N E EK F ->].
  - unfold a_value_body. run. cbn [as_inline as_prefix]. rewrite Nat.add_0_r. destruct (quote_eval _ _ _ _ QA) as [[E1 R]|[E1 R]]; unfold EOF; rewrite E1; lits; run; (eapply twp_eval; [exact R|]); run; rewrite Nat.add_0_r;
      unfold EOF; cbn [as_inline]; rewrite E; lits; now apply H.
  - apply t_plain; [lia|exact W|]. cbn [as_tabular as_prefix as_inline].
    assert (FC : first_colon text i k) by (repeat split; auto; lia). pose proof (colon_number _ _ _ FC) as NN. destruct (number_none text false i ltac:(lia) NN) as (m & LM & R & NC).
    eapply twp_eval; [exact R|]. cbv beta iota. destruct (key_or_eol_at text i m ltac:(lia) ltac:(intros k' K; destruct (NC k' K) as (? & ? & _); auto)) as [(k' & F' & R')|(j' & W' & R')].
    + rewrite <- (first_colon_det _ _ _ _ FC F') in R'. eapply twp_eval; [exact R'|]. cbv beta iota. now apply H.
    + exfalso. eapply first_colon_word; eauto.
Qed.
Lemma p_pu_map outer i s k l o w n : key_at text i s k -> under outer (column i) -> pgives_pairs value (column i) s k l o w n -> pgives body false outer i (DMap l) (part i k ++ o) (Some w) n.
Proof.
  intros K U H p. pose proof (key_le _ _ _ _ K) as [KL KE]. eapply p_key; [exact K|]. intros key E EW. unfold a_mapping_or_nul. cbn [as_parent_indent as_prefix]. rewrite column_indent by lia.
  assert (X : match outer with Some o => (column i <=? o)%nat | None => false end = false) by (destruct outer; [apply Nat.leb_gt; exact U|reflexivity]). rewrite X.
  eapply twp_bind; [apply H; auto; lia|]. intros [its w1] n' (D & O & EW1 & ->). cbn [fst snd] in *. subst w1. apply twp_ret. cbn [fst snd tpre]. rewrite see_map, wtree_map, D, O, EW. auto.
Qed.
Lemma p_none c i s k p : key_at text i s k -> (i <= len)%nat -> (column i <= c)%nat ->
  twp (body (AState p false true (Some c))) i (fun r n1 => see (fst r) = DNull /\ tpre (fst r) ++ wtree (fst r) = [] /\ n1 = i /\ snd r = Some p).
Proof.
  intros K L C. eapply p_key; [exact K|]. intros key _ _. unfold a_mapping_or_nul. cbn [as_parent_indent as_prefix]. rewrite column_indent by lia. rewrite (proj2 (Nat.leb_le _ _) C). run. apply twp_ret. cbn [fst snd see]. auto.
Qed.
Lemma p_pu_flow_seq flow outer i n l o j : at_ i = LBRACK -> gap_to (S i) n -> pgives_flow_seq value n (part (S i) n) l o j -> pgives body flow outer i (DSeq l) (b "[" ++ o) None j.
Proof.
  intros E G H p. pose proof (at_lt _ _ _ E ltac:(discriminate)) as L. pose proof (gap_le _ _ _ G). unfold a_value_body. run. rewrite Nat.add_0_r. unfold EOF. rewrite E. lits.
  eapply twp_bind.
  { unfold a_inline_sequence. run. rewrite Nat.min_l by lia. rewrite Nat.add_1_r. eapply twp_eval; [apply gap_ws; exact G|]. eapply twp_bind; [apply H; [split; [discriminate|congruence]|lia]|].
    intros [[its tr] q] n' (D & E' & J & O). run. rewrite Nat.add_0_r. unfold EOF. rewrite E'. change (RBRACK =? RBRACK) with true. cbn [negb]. run.
    apply (twp_ret _ _ (fun t n'' => see t = DSeq l /\ wtree t = b "[" ++ o /\ tpre t = p /\ n'' = j)). pose proof (at_lt _ _ _ E' ltac:(discriminate)). rewrite Nat.min_l by lia.
    rewrite see_seq, wtree_flow_seq, D, O. repeat split. lia. }
  cbv beta. intros t n' (D & O & T & ->). apply twp_ret. cbn [fst snd]. auto.
Qed.
Lemma p_pu_flow_map flow outer i n l o j : at_ i = LBRACE -> gap_to (S i) n -> pgives_flow_map value n (part (S i) n) l o j -> pgives body flow outer i (DMap l) (b "{" ++ o) None j.
Proof.
  intros E G H p. pose proof (at_lt _ _ _ E ltac:(discriminate)) as L. pose proof (gap_le _ _ _ G). unfold a_value_body. run. rewrite Nat.add_0_r. unfold EOF. rewrite E. lits.
  eapply twp_bind.
  { unfold a_inline_mapping. run. rewrite Nat.min_l by lia. rewrite Nat.add_1_r. eapply twp_eval; [apply gap_ws; exact G|]. eapply twp_bind; [apply H; [split; [discriminate|congruence]|lia]|].
    intros [[[its tr] q] st] n' (D & E' & J & O). run. rewrite Nat.add_0_r. unfold EOF. rewrite E'. change (RBRACE =? RBRACE) with true. cbn [negb]. run.
    apply (twp_ret _ _ (fun t n'' => see t = DMap l /\ wtree t = b "{" ++ o /\ tpre t = p /\ n'' = j)). pose proof (at_lt _ _ _ E' ltac:(discriminate)). rewrite Nat.min_l by lia.
    rewrite see_map, wtree_flow_map, D, O. repeat split. lia. }
  cbv beta. intros t n' (D & O & T & ->). apply twp_ret. cbn [fst snd]. auto.
Qed.
End Body.

(* values of enough fuel *)
Local Notation val := (a_value text).
Lemma val_S f : val (S f) = a_value_body text (val f).
Proof. reflexivity. Qed.
Theorem puts_eval :
  (forall flow outer i d o w j, puts flow outer i d o w j -> forall f, (len - i < f)%nat -> pgives (val f) flow outer i d o w j) /\
  (forall outer i d o w n, puts_behind text outer i d o w n -> forall f, (len - i < f)%nat -> pgives_behind (val f) outer i d o w n) /\
  (forall c i l o w n, puts_dashes text c i l o w n -> forall f, (len - S i < f)%nat -> pgives_dashes (val f) c i l o w n) /\
  (forall c s k l o w n, puts_pairs text c s k l o w n -> forall f, (len - S k < f)%nat -> pgives_pairs (val f) c s k l o w n) /\
  (forall n p l o j, puts_flow_seq text n p l o j -> forall f, (len - n < f)%nat -> pgives_flow_seq (val f) n p l o j) /\
  (forall n p l o j, puts_flow_map text n p l o j -> forall f, (len - n < f)%nat -> pgives_flow_map (val f) n p l o j) /\
  (forall n s d o w e, puts_pair text n s d o w e -> forall f, (len - n < f)%nat -> pgives_pair (val f) n s d o w e).
Proof.
  destruct puts_le as (LM & LB & LD & LP & LS & LF & LR).
  apply puts_all.
  - intros flow outer i s j Q C f F. destruct f as [|f]; [lia|]. rewrite val_S. now apply p_pu_quote.
  - intros flow outer i h j N f F. destruct f as [|f]; [lia|]. rewrite val_S. now apply p_pu_number.
  - intros flow outer i d j NW NN W D f F. destruct f as [|f]; [lia|]. rewrite val_S. now apply p_pu_word.
  - intros flow outer i s w j n B G f F. destruct f as [|f]; [lia|]. rewrite val_S. now apply p_pu_block.
  - intros outer i l o w n E W H IH f F. pose proof (at_lt _ _ _ E ltac:(discriminate)). destruct f as [|f]; [lia|]. rewrite val_S. apply p_pu_seq; auto. apply IH. lia.
  - intros outer i s k l o w n K U H IH f F. pose proof (key_le _ _ _ _ K). destruct f as [|f]; [lia|]. rewrite val_S. apply (p_pu_map _ _ _ s k); auto. apply IH. lia.
  - intros flow outer i n l o j E G H IH f F. pose proof (at_lt _ _ _ E ltac:(discriminate)). pose proof (gap_le _ _ _ G). destruct f as [|f]; [lia|]. rewrite val_S. apply (p_pu_flow_seq _ _ _ _ n); auto. apply IH. lia.
  - intros flow outer i n l o j E G H IH f F. pose proof (at_lt _ _ _ E ltac:(discriminate)). pose proof (gap_le _ _ _ G). destruct f as [|f]; [lia|]. rewrite val_S. apply (p_pu_flow_map _ _ _ _ n); auto. apply IH. lia.
  - (* bh_value *) intros outer i m d o w e w' n G H IH A f F. pose proof (gap_le _ _ _ G). exists m. split; [exact G|]. eapply twp_mono; [apply (IH f); lia|].
    cbv beta. intros [t w1] n1 (D & O & T & EW1 & ->). cbn [fst snd] in *. subst w1. split; [exact D|]. split; [now rewrite T, O|now apply after_eval].
  - (* bh_none *) intros c i m s k G K C f F. pose proof (gap_le _ _ _ G). exists m. split; [exact G|]. destruct f as [|f]; [lia|]. rewrite val_S.
    eapply twp_mono; [apply (p_none (val f) c m s k); auto; lia|]. cbv beta. intros [t w1] n1 (D & O & -> & EW1). cbn [fst snd] in *. subst w1. auto.
  - (* pd_last *) intros c i d o w n B IH C f F L f' items ip F'. apply LB in B. eapply (p_dash _ c i d o w n); [lia|apply IH; exact F|exact F'|].
    intros f2 its _ D O. assert (X : negb (Nat.eqb (column n) c) || negb (at_ n =? DASH) = true).
    { apply orb_true_iff. rewrite !negb_true_iff, Nat.eqb_neq, N.eqb_neq. exact C. }
    rewrite X. apply twp_ret. cbn [fst snd]. auto.
  - (* pd_more *) intros c i d o w n v l o' w' n' B IH C E V H IH2 f F L f' items ip F'. apply LB in B. pose proof (at_lt _ _ _ E ltac:(discriminate)). eapply (p_dash _ c i d o w n); [lia|apply IH; exact F|exact F'|].
    intros f2 its F2 D O. rewrite C, Nat.eqb_refl, E. change (DASH =? DASH) with true. cbn [negb orb]. eapply twp_mono; [apply (IH2 f); auto; lia|].
    cbv beta. intros r n2 (D2 & O2 & W2 & N2). rewrite D2, D, O2, O, (made_lossy _ _ V). rewrite <- !app_assoc. auto.
  - (* pp_last *) intros c s k d o w n B IH C f F E f' items start key ip F' KS. apply LB in B. eapply (p_colon _ c s k d o w n); [exact E|lia|apply IH; exact F|exact F'|exact KS|].
    intros f2 its _ D O. destruct (Nat.eqb_spec (column n) c) as [CE|CE]; cbn [negb]; [|apply twp_ret; cbn [fst snd]; auto].
    destruct C as [C|C]; [contradiction|]. run. assert (T : to_colon text n n) by (split; [lia|]; split; [lia|exact C]).
    eapply twp_eval; [apply next_key_at; exact T|]. rewrite seg_nil. cbv beta iota. apply twp_ret. cbn [fst snd]. auto.
  - (* pp_more *) intros c s k d o w n s' k' l o' w' n' B IH C K H IH2 f F E f' items start key ip F' KS. apply LB in B. eapply (p_colon _ c s k d o w n); [exact E|lia|apply IH; exact F|exact F'|exact KS|].
    intros f2 its F2 D O. rewrite C, Nat.eqb_refl. cbn [negb]. run. apply later_key_iff in K as (T & LT & EK & ->). eapply twp_eval; [apply next_key_at; exact T|]. pose proof (proj1 T).
    destruct (part n k') as [|x y] eqn:EP. { pose proof (seg_length text n k' ltac:(lia)) as KK. rewrite EP in KK. cbn in KK. lia. }
    cbv beta iota. eapply twp_mono; [apply (IH2 f); auto; lia|]. cbv beta. intros r n2 (D2 & O2 & W2 & N2). rewrite D2, D, O2, O. cbn [wstr rs_kind rs_id]. rewrite <- !app_assoc. auto.
  - (* ps_end *) intros n p E f F f' items tr TR F'. exists (items, tr, p), n. split; [apply t_iseq_end; [lia|exact E]|]. rewrite app_nil_r. auto.
  - intros n p v m d o w e w' n' l o' j NC V G H IH E A H2 IH2 f F. pose proof (gap_le _ _ _ G). apply LM in H. pose proof (LS _ _ _ _ _ H2). apply (p_ps_comma _ n p v m d o w e w' n'); auto; try lia; [apply IH; lia|].
    pose proof (at_lt _ _ _ E ltac:(discriminate)). apply IH2. apply after_le in A; lia.
  - intros n p v m d o w e w' n' NC V G H IH E A Q f F. pose proof (gap_le _ _ _ G). apply LM in H. apply (p_ps_rest _ n p v m d o w e w' n'); auto; try lia; [apply IH; lia|].
    intros f2 items F2 NE. exists (items, false, w'), n'. split; [now apply t_iseq_end|]. rewrite app_nil_r. auto.
  - intros n p v m d o w e w' v' n' d' o' w2 e' w3 n'' NC V G H IH E A NC' V' H' IH' A' Q f F. pose proof (gap_le _ _ _ G). pose proof (after_stop _ _ _ _ _ _ _ _ H A) as GS. apply LM in H. apply LM in H'. pose proof (after_le _ _ _ _ A ltac:(lia)).
    apply (p_ps_rest _ n p v m d o w e w' n'); auto; try lia; [apply IH; lia|]. intros f2 items F2 NE. eapply twp_mono; [eapply p_iseq_last; eauto; apply IH'; lia|].
    intros [[its tr'] p'] n3 (D & -> & -> & -> & O). rewrite O. cbn [comma app]. rewrite <- !app_assoc. auto.
  - (* pm_end *) intros n p E f F f' items tr st TR F'. exists (items, tr, p, st), n. split; [apply t_imap_end; [lia|exact E]|]. rewrite app_nil_r. auto.
  - intros n p s d o w e n' l o' j P IH E G H IH2 f F. apply LR in P. pose proof (gap_le _ _ _ G). apply (p_pm_comma _ n p d o w e n'); auto; try lia. apply IH2. lia.
  - intros n p s d o w e P IH E f F. apply LR in P. apply p_pm_rest with (w := w) (e := e); auto; try lia; [rewrite E; discriminate|].
    intros f2 items st F2 NE. exists (items, false, [], st), e. split; [now apply t_imap_end|]. rewrite app_nil_r. auto.
  - intros n p s d o w e s' d' o' w' e' P IH E P' IH' E' f F. apply LR in P. apply p_pm_rest with (w := w) (e := e); auto; try lia.
    intros f2 items st F2 NE. eapply twp_mono; [eapply p_imap_last; eauto; apply IH'; lia|].
    intros [[[its tr'] p'] st'] n3 (D & -> & -> & -> & O). rewrite O. cbn [comma app]. rewrite <- !app_assoc. auto.
  - (* pr_pair *) intros n s k m d o w e w' e' NC FK G H IH A f F. split; [exact NC|]. pose proof (gap_le _ _ _ G). pose proof (proj1 FK). exists k, m. split; [exact FK|]. split; [exact G|]. split; [eapply after_stop; eauto|].
    eapply twp_mono; [apply (IH f); lia|]. cbv beta. intros [t w1] n' (D & O & T & EW1 & ->). cbn [fst snd] in *. subst w1. split; [exact D|]. split; [now rewrite T, O|now apply after_eval].
Qed.
Lemma puts_header_le p i p' j : puts_header text p i p' j -> (i <= len)%nat -> (i <= j <= len)%nat.
Proof.
  induction 1 as [p i A B|p i k n p' j E K G H IH|p i j A B C G]; intros L; [lia| |apply gap_le in G; lia]. destruct K as [K _]. apply gap_le in G. lia.
Qed.
Lemma puts_header_eval p i p' j : puts_header text p i p' j -> (i <= len)%nat -> forall f, (len - i < f)%nat -> a_sod_loop text f p i = Ok (p', j).
Proof.
  assert (X : puts_header text p i p' j -> (i <= len)%nat -> forall f, (len - i < f)%nat -> twp (a_sod_loop text f p) i (fun q n => q = p' /\ n = j)).
  { clear. induction 1 as [p i A B|p i k n p' j E K G H IH|p i j A B C G]; intros L f F; (destruct f as [|f]; [lia|]); cbn [a_sod_loop]; run; rewrite Nat.add_0_r; unfold EOF; replace (i + 1)%nat with (1 + i)%nat by lia; replace (i + 2)%nat with (2 + i)%nat by lia.
    - rewrite (proj2 (N.eqb_neq _ _) A). destruct (_ && _) eqn:Z; [|now apply twp_ret]. exfalso. apply B. apply andb_prop in Z as [Z Z3]. apply andb_prop in Z as [Z1 Z2]. apply N.eqb_eq in Z1, Z2, Z3. auto.
    - pose proof (at_lt _ _ _ E ltac:(discriminate)). rewrite E. change (PERCENT =? PERCENT) with true. cbv iota. eapply twp_eval; [apply line_eval; exact K|]. eapply twp_eval; [apply gap_ws; exact G|].
      assert (i < k)%nat. { destruct K as (K & _ & [->|EK]); [lia|]. destruct (Nat.eq_dec i k) as [->|NE]; [rewrite E in EK; discriminate|lia]. }
      pose proof (gap_le _ _ _ G). apply IH; lia.
    - pose proof (at_lt _ _ _ C ltac:(discriminate)). rewrite A, B, C. lits. run. rewrite Nat.min_l by lia. replace (i + 3)%nat with (3 + i)%nat by lia. exists (part (3 + i) j), j. split; [now apply gap_ws|auto]. }
  intros H L f F. destruct (X H L f F) as (q & n & E & -> & ->). exact E.
Qed.
Theorem printed_complete d out : printed text d out -> exists t suffix, a_parse text = Ok (t, suffix) /\ see t = d /\ wdoc t suffix = out.
Proof.
  intros [n p i o w j w' G H M A].
  assert (T : twp (a_parse_m text) 0 (fun r _ => see (fst r) = d /\ wdoc (fst r) (snd r) = p ++ o ++ w')).
  { unfold a_parse_m. pose proof (gap_le _ _ _ G) as GL. pose proof (puts_header_le _ _ _ _ H ltac:(lia)) as HL.
    pose proof (puts_header_eval _ _ _ _ H ltac:(lia) (S len) ltac:(lia)) as R.
    assert (SD : a_start_of_document text O = Ok (p, i)). { unfold a_start_of_document. rewrite (bind_ok _ _ _ _ _ (gap_ws _ _ _ G)). exact R. }
    eapply twp_eval; [exact SD|]. eapply twp_bind; [apply (proj1 puts_eval _ _ _ _ _ _ _ M); lia|]. intros [t w1] n' (D & O & TP & EW1 & ->). cbn [fst snd] in *. subst w1.
    eapply twp_eval; [apply after_eval; exact A|]. run. rewrite Nat.eqb_refl. cbn [negb]. apply twp_ret. cbn [fst snd]. unfold wdoc. now rewrite TP, O. }
  destruct T as ([t s] & n' & E & D). exists t, s. unfold a_parse. rewrite E. auto.
Qed.
End Complete.
