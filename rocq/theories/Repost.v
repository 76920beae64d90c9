(* What may stand behind a laid out value in place of what stands there. *)
From Coq Require Import String.
From Coq Require Import List NArith Bool Arith Lia.
From Verif Require Import Bytes Utf8 Data Parser Render Tree Abs Refine Scan Ctx Reads ReadsSound Shown Plain Grammar Laid Swap.
Import ListNotations.
Local Open Scope N_scope.

(* Every scalar of the tree. *)
Inductive each {I} (P : scalar bytes -> Prop) : tree I -> Prop :=
| each_leaf i p sc : P sc -> each P (TLeaf i p sc)
| each_map i p n k items : Forall (fun it => each P (snd it)) items -> each P (TMap i p n k items)
| each_seq i p n k items : Forall (fun it => each P (snd it)) items -> each P (TSeq i p n k items).
Definition within_line (sc : scalar bytes) : Prop := ~ In (hd EOF (wscalar sc)) [PIPE; GT].
Definition visible (sc : scalar bytes) : Prop := wscalar sc <> [].

Lemma map_ends_le n m p : (n <= m)%nat -> map_ends n p -> map_ends m p.
Proof. intros L [H|(w & k & r & E & NA & K & R)]; [now left|]. right. exists w, k, r. repeat (split; [first [assumption|lia]|]). auto. Qed.
Lemma map_seq_ends n m p : (n <= m)%nat -> map_ends n p -> seq_ends m p.
Proof. intros L [H|(w & k & r & E & NA & K & R)]; [now left|]. right. exists w, k, r. repeat (split; [first [assumption|lia]|]). auto. Qed.
Lemma seq_map_ends n m p : (n < m)%nat -> seq_ends n p -> map_ends m p.
Proof. intros L [H|(w & k & r & E & NA & K & R)]; [now left|]. right. exists w, k, r. repeat (split; [first [assumption|lia]|]). auto. Qed.
Lemma seq_ends_le n m p : (n <= m)%nat -> seq_ends n p -> seq_ends m p.
Proof.
  intros L [H|(w & k & r & E & NA & K & R)]; [now left|]. right. exists w, k, r. split; [exact E|]. split; [exact NA|].
  split; [|exact R]. destruct K as [K|[-> K]]; [left; lia|]. destruct (Nat.eq_dec n m) as [->|]; [now right|left; lia].
Qed.
Lemma key_follows_le n m p : (n <= m)%nat -> key_follows n p -> key_follows m p.
Proof. intros L (w & k & x & r & E & NA & K & R). exists w, k, x, r. repeat (split; [first [assumption|lia]|]). auto. Qed.
Lemma ended_breaks p : ended p -> breaks p.
Proof. intros [E|E]; [now left|right]. rewrite E. cbn. tauto. Qed.
Lemma leaf_post x d post post' : leaf x d post -> ~ In (hd EOF x) [PIPE; GT] -> ended post' -> leaf x d post'.
Proof.
  intros [y e q P D E|y v q Q B|y e q F B|y v q B] W E'.
  - now apply lf_plain.
  - apply lf_quoted; [exact Q|now apply ended_breaks].
  - apply lf_flow; [exact F|now apply ended_breaks].
  - exfalso. apply W. destruct B as [[] c m w0 z u k t q NA M L K0 B LT ST|c m w0 z u NA L]; cbn; auto.
Qed.

Lemma repost : (forall n items l post, lmap n items l post -> forall post', Forall (fun it => each within_line (snd it)) items ->
    map_ends n post' -> ended post' -> key_follows n post' \/ Forall (fun it => each visible (snd it)) items -> lmap n items l post') /\
  (forall n items l post, lmrest n items l post -> forall post', Forall (fun it => each within_line (snd it)) items ->
    map_ends n post' -> ended post' -> key_follows n post' \/ Forall (fun it => each visible (snd it)) items -> lmrest n items l post') /\
  (forall n v d post, lval n v d post -> forall post', each within_line v ->
    seq_ends n post' -> ended post' -> key_follows n post' \/ each visible v -> lval n v d post') /\
  (forall n items l post, lseq n items l post -> forall post', Forall (fun it => each within_line (snd it)) items ->
    seq_ends n post' -> ended post' -> key_follows n post' \/ Forall (fun it => each visible (snd it)) items -> lseq n items l post') /\
  (forall n items l post, lsrest n items l post -> forall post', Forall (fun it => each within_line (snd it)) items ->
    seq_ends n post' -> ended post' -> key_follows n post' \/ Forall (fun it => each visible (snd it)) items -> lsrest n items l post') /\
  (forall n v d post, ldash n v d post -> forall post', each within_line v ->
    map_ends n post' -> ended post' -> key_follows n post' \/ each visible v -> ldash n v d post').
Proof.
  assert (FT : forall (P : Prop) A (Q : A -> Prop) x l, P \/ Forall Q (x :: l) -> P \/ Forall Q l).
  { intros P A Q x l [H|H]; [now left|]. right. now inversion H. }
  assert (FH : forall (P : Prop) A (Q : A -> Prop) x l, P \/ Forall Q (x :: l) -> P \/ Q x).
  { intros P A Q x l [H|H]; [now left|]. right. now inversion H. }
  apply laid_all.
  - intros n i ip key v d rest l post K V IV R IR post' W ME EP KF. inversion W as [|? ? W1 W2]; subst. cbn [snd] in *.
    apply lm_items; [exact K| |apply IR; auto; now apply FT in KF].
    destruct rest as [|it rest]; [|exact V]. cbn [next_key] in *. apply IV; auto; [now apply (map_seq_ends n)|]. now apply FH in KF.
  - intros n post ME0 post' W ME EP KF. now apply lmr_nil.
  - intros n i w k v d rest l post NA K V IV R IR post' W ME EP KF. inversion W as [|? ? W1 W2]; subst. cbn [snd] in *.
    apply lmr_cons; [exact NA|exact K| |apply IR; auto; now apply FT in KF].
    destruct rest as [|[[[j jp] jk] jv] rest]; [|exact V]. cbn [next_key] in *. apply IV; auto; [now apply (map_seq_ends n)|]. now apply FH in KF.
  - intros n i p sc d post G N L post' W SE EP KF. inversion W as [? ? ? W1| |]; subst. apply lv_leaf; auto. eapply leaf_post; eauto.
  - intros n v d post G F B post' W SE EP KF. apply lv_flow; auto. now apply ended_breaks.
  - intros n i post K post' W SE EP KF. apply lv_none. destruct KF as [KF|KF]; [exact KF|]. inversion KF as [? ? ? V| |]; subst. now elim V.
  - intros n m i p items l post G NA LT M IM post' W SE EP KF. inversion W as [|? ? ? ? ? W1|]; subst. apply lv_map; auto.
    apply IM; auto; [now apply (seq_map_ends n)|]. destruct KF as [KF|KF]; [left; apply (key_follows_le n); [lia|exact KF]|right; now inversion KF].
  - intros n m i p items l post G NA LT M IM post' W SE EP KF. inversion W as [| |? ? ? ? ? W1]; subst. apply lv_seq; auto.
    apply IM; auto; [now apply (seq_ends_le n)|]. destruct KF as [KF|KF]; [left; apply (key_follows_le n); [lia|exact KF]|right; now inversion KF].
  - intros n i ip v d rest l post U V IV R IR post' W SE EP KF. inversion W as [|? ? W1 W2]; subst. cbn [snd] in *.
    apply ls_items; [exact U| |apply IR; auto; now apply FT in KF].
    destruct rest as [|it rest]; [|exact V]. cbn [next_dash] in *. apply FH in KF. apply IV; auto; [now apply (seq_map_ends n); [lia|]|].
    destruct KF as [KF|KF]; [left; apply (key_follows_le n); [lia|exact KF]|now right].
  - intros n post SE0 post' W SE EP KF. now apply lsr_nil.
  - intros n i w v d rest l post NA U V IV R IR post' W SE EP KF. inversion W as [|? ? W1 W2]; subst. cbn [snd] in *.
    apply lsr_cons; [exact NA|exact U| |apply IR; auto; now apply FT in KF].
    destruct rest as [|[[j jp] jv] rest]; [|exact V]. cbn [next_dash] in *. apply FH in KF. apply IV; auto; [now apply (seq_map_ends n); [lia|]|].
    destruct KF as [KF|KF]; [left; apply (key_follows_le n); [lia|exact KF]|now right].
  - intros n i p sc d post G N L post' W SE EP KF. inversion W as [? ? ? W1| |]; subst. apply ld_leaf; auto. eapply leaf_post; eauto.
  - intros n v d post G F B post' W SE EP KF. apply ld_flow; auto. now apply ended_breaks.
  - intros n m i p items l post BL NE -> LD M IM post' W SE EP KF. inversion W as [|? ? ? ? ? W1|]; subst. apply ld_map; auto.
    apply IM; auto; [apply (map_ends_le n); [lia|exact SE]|].
    destruct KF as [KF|KF]; [left; apply (key_follows_le n); [lia|exact KF]|right; now inversion KF].
  - intros n m i p items l post BL NE -> LD M IM post' W SE EP KF. inversion W as [| |? ? ? ? ? W1]; subst. apply ld_seq; auto.
    apply IM; auto; [apply (map_seq_ends n); [lia|exact SE]|].
    destruct KF as [KF|KF]; [left; apply (key_follows_le n); [lia|exact KF]|right; now inversion KF].
  - intros n m i p items l post G NA LT M IM post' W SE EP KF. inversion W as [|? ? ? ? ? W1|]; subst. apply ld_map_below; auto.
    apply IM; auto; [apply (map_ends_le n); [lia|exact SE]|].
    destruct KF as [KF|KF]; [left; apply (key_follows_le n); [lia|exact KF]|right; now inversion KF].
  - intros n m i p items l post G NA LT M IM post' W SE EP KF. inversion W as [| |? ? ? ? ? W1]; subst. apply ld_seq_below; auto.
    apply IM; auto; [apply (map_seq_ends n); [lia|exact SE]|].
    destruct KF as [KF|KF]; [left; apply (key_follows_le n); [lia|exact KF]|right; now inversion KF].
Qed.

(* ---- changing the items of a block collection ---- *)
Lemma key_ends n w k : newline_at n w -> plain_key k -> hd EOF k <> DASH -> seq_ends n (w ++ stand_in (RS KBare k k)).
Proof.
  intros NA K ND. right. exists w, n, (stand_in (RS KBare k k)). split; [reflexivity|]. split; [exact NA|].
  unfold stand_in. change (wstr (RS KBare k k)) with k. cbn [hd]. split; [now right|]. split; [discriminate|].
  destruct K as ((c & q & -> & W & I & _) & _). cbn [hd]. split; [exact W|]. intros ->. apply I. now left.
Qed.
Lemma key_after n w k : newline_at n w -> plain_key k -> key_follows n (w ++ stand_in (RS KBare k k)).
Proof.
  intros NA K. destruct (stand_in_key (RS KBare k k) K) as (k' & q & E & K' & B). rewrite E. exists w, n, k', q. auto.
Qed.
Lemma dash_ends n w : newline_at n w -> map_ends (1 + n) (w ++ b "-").
Proof.
  intros NA. right. exists w, n, (b "-"). split; [reflexivity|]. split; [exact NA|]. split; [lia|]. split; [discriminate|].
  cbn. split; [unfold white; cbn|]; intuition discriminate.
Qed.
Lemma ended_app w r : hd EOF w = NEWLINE -> ended (w ++ r).
Proof. intros E. right. destruct w; [discriminate|exact E]. Qed.

Lemma lmap_append n l i ip key v L post w k i' v' d' : lmap n (l ++ [(i, ip, key, v)]) L post -> each within_line v ->
  newline_at n w -> hd EOF w = NEWLINE -> plain_key k -> hd EOF k <> DASH -> lval n v' d' post ->
  lmap n ((l ++ [(i, ip, key, v)]) ++ [(i', w, RS KBare k k, v')]) (L ++ [(k, d')]) post.
Proof.
  intros M W NA NL K ND V'. destruct (lmap_cut _ _ _ _ _ _ _ _ _ M) as (L1 & d & L2 & -> & LE & V & R & G).
  inversion R as [? ? ME|]; subst. rewrite <- !app_assoc. cbn [app]. apply (G v d).
  - cbn [next_key]. destruct repost as (_ & _ & RV & _). apply (RV _ _ _ _ V); auto; [now apply key_ends|now apply ended_app|].
    left. now apply key_after.
  - now apply lmr_cons.
Qed.
Lemma lseq_append n l i ip v L post w i' v' d' : lseq n (l ++ [(i, ip, v)]) L post -> each within_line v -> each visible v ->
  newline_at n w -> utf8 w = true -> hd EOF w = NEWLINE -> ldash (1 + n) v' d' post ->
  lseq n ((l ++ [(i, ip, v)]) ++ [(i', w, v')]) (L ++ [d']) post.
Proof.
  intros M W VI NA U NL V'. destruct (lseq_cut _ _ _ _ _ _ _ _ M) as (L1 & d & L2 & -> & LE & V & R & G).
  inversion R as [? ? ME|]; subst. rewrite <- !app_assoc. cbn [app]. apply (G v d).
  - cbn [next_dash]. destruct repost as (_ & _ & _ & _ & _ & RD). apply (RD _ _ _ _ V); auto; [now apply dash_ends|now apply ended_app].
  - now apply lsr_cons.
Qed.
(* Take away an item that is not the first. *)
Lemma lmap_drop n l i ip key v it r L post : lmap n (l ++ (i, ip, key, v) :: it :: r) L post -> each within_line v ->
  Forall (fun it => hd EOF (mpre it) = NEWLINE) r -> ended post ->
  match r with [] => each visible v | jt :: _ => hd EOF (wstr (mkey jt)) <> DASH end ->
  exists L1 x L2, L = L1 ++ x :: L2 /\ length L1 = S (length l) /\ lmap n (l ++ (i, ip, key, v) :: r) (L1 ++ L2) post.
Proof.
  intros M W NL EP C. destruct (lmap_cut _ _ _ _ _ _ _ _ _ M) as (L1 & d & L2 & -> & LE & V & R & G).
  destruct it as [[[j jp] jk] jv]. inversion R as [|? ? ? k ? d1 ? L2' ? NA K V1 R1]; subst.
  exists (L1 ++ [(rs_id key, d)]), (k, d1), L2'. split; [now rewrite <- app_assoc|]. split; [rewrite app_length; cbn; unfold bytes, byte in *; lia|].
  rewrite <- app_assoc. cbn [app]. apply (G v d); [|exact R1]. destruct repost as (_ & _ & RV & _). apply (RV _ _ _ _ V); auto.
  - inversion R1 as [? ? ME|? ? w k' ? ? ? ? ? NA' K' ? ?]; subst; cbn [next_key]; [now apply (map_seq_ends n)|]. now apply key_ends.
  - now apply ended_key.
  - inversion R1 as [? ? ME|? ? w k' ? ? ? ? ? NA' K' ? ?]; subst; cbn [next_key]; [now right|]. left. now apply key_after.
Qed.
Lemma lmap_drop_first n it r L post : lmap n (it :: r) L post -> r <> [] ->
  exists x L2, L = x :: L2 /\ lmap n r L2 post /\ newline_at n (mlead r) /\ exists k, first_text r = k /\ plain_key k.
Proof.
  intros M NE. inversion M as [? ? ? ? ? d ? L2 ? SK V R]; subst. exists (rs_id key, d), L2. split; [reflexivity|].
  inversion R as [|? ? w k ? ? ? ? ? NA K V1 R1]; subst; [congruence|]. split; [|split; [exact NA|exists k; auto]].
  apply (lm_items n i0 w (RS KBare k k)); auto. left. auto.
Qed.
Lemma lseq_drop n l i ip v it r L post : lseq n (l ++ (i, ip, v) :: it :: r) L post -> each within_line v -> each visible v ->
  Forall (fun it => hd EOF (spre it) = NEWLINE) r -> ended post ->
  exists L1 x L2, L = L1 ++ x :: L2 /\ length L1 = S (length l) /\ lseq n (l ++ (i, ip, v) :: r) (L1 ++ L2) post.
Proof.
  intros M W VI NL EP. destruct (lseq_cut _ _ _ _ _ _ _ _ M) as (L1 & d & L2 & -> & LE & V & R & G).
  destruct it as [[j jp] jv]. inversion R as [|? ? ? ? d1 ? L2' ? NA U V1 R1]; subst.
  exists (L1 ++ [d]), d1, L2'. split; [now rewrite <- app_assoc|]. split; [rewrite app_length; cbn; unfold bytes, byte in *; lia|].
  rewrite <- app_assoc. cbn [app]. apply (G v d); [|exact R1]. destruct repost as (_ & _ & _ & _ & _ & RD). apply (RD _ _ _ _ V); auto.
  - inversion R1 as [? ? ME|? ? w ? ? ? ? ? NA' ? ? ?]; subst; cbn [next_dash]; [apply (seq_map_ends n); [lia|exact ME]|]. now apply dash_ends.
  - now apply ended_dash.
Qed.
Lemma lseq_drop_first n it r L post : lseq n (it :: r) L post -> r <> [] ->
  exists x L2, L = x :: L2 /\ lseq n r L2 post /\ newline_at n (slead r).
Proof.
  intros M NE. inversion M as [? ? ? ? d ? L2 ? U V R]; subst. exists d, L2. split; [reflexivity|].
  inversion R as [|? ? w ? ? ? ? ? NA U' V1 R1]; subst; [congruence|]. split; [|exact NA]. now apply ls_items.
Qed.
