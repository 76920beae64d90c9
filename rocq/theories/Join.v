(* Texts of the grammar one behind the other: what follows a block collection at column 0 may be
   a further item at column 0. *)
From Coq Require Import String.
From Coq Require Import List NArith Bool Arith Lia.
From Verif Require Import Bytes Utf8 Data Parser Render Tree Abs Scan Reads ReadsSound Shown Plain Grammar Laid.
Import ListNotations.
Local Open Scope N_scope.

Lemma newline_hd n w r : newline_at n w -> hd EOF (w ++ r) = hd EOF w /\ w <> [].
Proof.
  intros [W _]. destruct w as [|c w]; [|split; [reflexivity|discriminate]]. exfalso. cbn in W. unfold EOF in W. intuition discriminate.
Qed.

Section Next.
(* What comes at column 0. *)
Variable r : bytes.
Hypothesis SR : stops r.
Hypothesis NR : r <> [].
Definition next (p p' : bytes) : Prop := alike p p' \/ (newline_at 0 p /\ p' = p ++ r).

Lemma next_map_ends n p p' : next p p' -> (0 < n)%nat -> map_ends n p -> map_ends n p'.
Proof.
  intros [A|[NA ->]] L; [now apply alike_map_ends|]. intros _. right. exists p, O, r. destruct SR. repeat (split; [first [assumption|reflexivity]|]). assumption.
Qed.
Definition fits (n : nat) : Prop := (0 < n)%nat \/ hd EOF r <> DASH.
Lemma next_seq_ends n p p' : next p p' -> fits n -> seq_ends n p -> seq_ends n p'.
Proof.
  intros [A|[NA ->]] L; [now apply alike_seq_ends|]. intros _. right. exists p, O, r. destruct SR. split; [reflexivity|]. split; [exact NA|].
  split; [|auto]. destruct n; [right; split; [reflexivity|destruct L; [lia|assumption]]|left; lia].
Qed.
Lemma next_key_follows n p p' : next p p' -> key_follows n p -> key_follows n p'.
Proof.
  intros [A|[NA ->]] K; [now apply (alike_key_follows n p)|]. exfalso. destruct K as (w & m & k & q & -> & NW & _ & PK & _).
  destruct (plain_key_stops k (b ":" ++ q) PK) as [S N]. apply N. apply (layout_split w); [|now apply (newline_closed m)|exact S].
  apply closed_layout. now apply (newline_closed 0).
Qed.
Lemma next_breaks p p' : next p p' -> breaks p -> breaks p'.
Proof.
  intros [A|[NA ->]] B; [now apply (alike_breaks p)|]. right. destruct (newline_hd _ _ r NA) as [-> _]. apply NA.
Qed.
Lemma next_ended p p' : next p p' -> ended p -> ended p'.
Proof.
  intros [A|[NA ->]] B; [now apply (alike_ended p)|]. destruct (newline_hd _ _ r NA) as [E N]. right. rewrite E. destruct B as [B|B]; [congruence|exact B].
Qed.
Lemma next_block x v p p' : next p p' -> block_scalar x v p -> block_scalar x v p'.
Proof.
  intros [A|[NA ->]] B; [now apply (alike_block x v p)|]. destruct B as [fo c m w0 y u k t post NW M L K0 B LT ST|c m w0 y u NW L].
  - assert (SP : stops post) by (destruct ST as [->|ST]; [apply stops_nil|exact ST]).
    assert (post = []) as ->.
    { apply (layout_split (newlines k ++ t)); [|apply closed_app; [apply newlines_closed|now apply blanks_closed]|exact SP].
      rewrite <- app_assoc. apply closed_layout. now apply (newline_closed 0). }
    rewrite app_nil_r in *. assert (t = []) as ->.
    { destruct NA as (_ & u0 & t0 & E & _ & _ & L0). apply length_zero_iff_nil in L0 as ->. rewrite app_nil_r in E.
      destruct (list_eq_dec N.eq_dec t []) as [e|NE]; [exact e|]. destruct (exists_last NE) as (t1 & c1 & ->). rewrite app_assoc in E.
      apply app_inj_tail in E as [_ ->]. apply Forall_app in B as [_ B]. inversion B as [|? ? B1 _]; subst. unfold blank, NEWLINE in B1. cbn in B1. intuition discriminate. }
    rewrite app_nil_r. change (newlines k ++ r) with (newlines k ++ [] ++ r). apply bs_block with (m := m); auto.
  - exfalso. destruct (newline_hd _ _ [] NA) as [_ N]. congruence.
Qed.
Lemma next_leaf x d p p' : next p p' -> leaf x d p -> leaf x d p'.
Proof.
  intros A L. revert A. destruct L as [y e q P D E|y v q Q B|y e q F B|y v q B]; intros A.
  - apply lf_plain; [exact P|exact D|exact (next_ended _ _ A E)].
  - apply lf_quoted; [exact Q|exact (next_breaks _ _ A B)].
  - apply lf_flow; [exact F|exact (next_breaks _ _ A B)].
  - apply lf_block. exact (next_block _ _ _ _ A B).
Qed.

(* behind a colon or a dash *)
Lemma app_breaks t p p' : (t = [] -> breaks p -> breaks p') -> breaks (t ++ p) -> breaks (t ++ p').
Proof. intros H [B|B]; [apply app_eq_nil in B as [-> ->]; apply H; [reflexivity|now left]|]. destruct t; [apply H; [reflexivity|now right]|now right]. Qed.
Lemma gap_breaks w x : gap w -> breaks (w ++ x).
Proof. intros G. right. now apply gap_hd. Qed.
Lemma value_breaks n t d p : key_value n t d p -> breaks (t ++ p).
Proof.
  intros [? w x ? ? G _|? ? (w & m & k & q & -> & NW & _)|? m w x ? ? NW _ _|? m w x ? ? NW _ _]; rewrite <- ?app_assoc; try (apply gap_breaks; first [exact G|now apply (newline_gap m)]).
  cbn [app]. apply gap_breaks. now apply (newline_gap m).
Qed.
Lemma dash_breaks n t d p : dash_value n t d p -> breaks (t ++ p).
Proof.
  intros [? w x ? ? G _|? w x ? ? BW NW _|? w x ? ? BW NW _|? m w x ? ? NW _ _|? m w x ? ? NW _ _]; rewrite <- app_assoc; apply gap_breaks;
    first [exact G|now apply blanks_gap|now apply (newline_gap m)].
Qed.
Lemma rest_next n y l p p' : map_rest n y l p -> next p p' -> next (y ++ p) (y ++ p').
Proof.
  intros R. revert p'. induction R as [n post ME|n w k t d y l post NW PK KV R IH] using map_rest_ind; intros p' A; [exact A|].
  left. right. exists w, (k ++ b ":" ++ t ++ y ++ post), (k ++ b ":" ++ t ++ y ++ p'). rewrite <- !app_assoc. cbn [app].
  split; [reflexivity|]. split; [reflexivity|]. split; [now apply (newline_closed n)|]. destruct (plain_key_stops k (b ":" ++ t ++ y ++ post) PK) as [S N].
  split; [exact N|]. split; [apply (plain_key_stops k (b ":" ++ t ++ y ++ p') PK)|]. split; [exact S|].
  split; [destruct PK as ((c & q & -> & _) & _); reflexivity|]. intros _. exists k, (t ++ y ++ p'). split; [reflexivity|]. split; [exact PK|].
  apply (app_breaks t (y ++ post)); [intros _; apply next_breaks, IH, A|now apply value_breaks in KV].
Qed.
Lemma srest_next n y l p p' : seq_rest n y l p -> next p p' -> next (y ++ p) (y ++ p').
Proof.
  intros R. revert p'. induction R as [n post ME|n w t d y l post NW U DV R IH] using seq_rest_ind; intros p' A; [exact A|].
  left. right. exists w, (b "-" ++ t ++ y ++ post), (b "-" ++ t ++ y ++ p'). rewrite <- !app_assoc. cbn [app].
  split; [reflexivity|]. split; [reflexivity|]. split; [now apply (newline_closed n)|]. split; [discriminate|]. split; [discriminate|].
  split; [split; cbn; intuition discriminate|]. split; [reflexivity|]. intros K. exfalso. revert K. apply not_keyish_dash. now apply dash_breaks in DV.
Qed.

Lemma follow : (forall n x l post, block_map n x l post -> (0 < n)%nat -> forall post', next post post' -> block_map n x l post') /\
  (forall n y l post, map_rest n y l post -> (0 < n)%nat -> forall post', next post post' -> map_rest n y l post') /\
  (forall n t d post, key_value n t d post -> fits n -> forall post', next post post' -> key_value n t d post') /\
  (forall n x l post, block_seq n x l post -> fits n -> forall post', next post post' -> block_seq n x l post') /\
  (forall n y l post, seq_rest n y l post -> fits n -> forall post', next post post' -> seq_rest n y l post') /\
  (forall n t d post, dash_value n t d post -> (0 < n)%nat -> forall post', next post post' -> dash_value n t d post').
Proof.
  apply block_all.
  - intros n x k t d y l post SK KV IV R IR L post' A. apply bm_items; auto. apply IV; [now left|]. now apply (rest_next n y l).
  - intros n post ME L post' A. apply mr_nil. now apply (next_map_ends n post).
  - intros n w k t d y l post NW PK KV IV R IR L post' A. apply mr_cons; auto. apply IV; [now left|]. now apply (rest_next n y l).
  - intros n w x d post G LF F post' A. apply kv_leaf; [exact G|]. now apply (next_leaf x d post).
  - intros n post KF F post' A. apply kv_none. now apply (next_key_follows n post).
  - intros n m w x l post NW LT M IM F post' A. apply (kv_map n m); auto. apply IM; [lia|exact A].
  - intros n m w x l post NW LT M IM F post' A. apply (kv_seq n m); auto. apply IM; [|exact A]. destruct F as [F|F]; [left; lia|now right].
  - intros n t d y l post DV ID R IR F post' A. apply bs_items; auto. apply ID; [lia|]. now apply (srest_next n y l).
  - intros n post SE F post' A. apply sr_nil. now apply (next_seq_ends n post).
  - intros n w t d y l post NW U DV ID R IR F post' A. apply sr_cons; auto. apply ID; [lia|]. now apply (srest_next n y l).
  - intros n w x d post G LF F post' A. apply dv_leaf; [exact G|]. now apply (next_leaf x d post).
  - intros n w x l post BW NW M IM F post' A. apply dv_map; auto. apply IM; [lia|exact A].
  - intros n w x l post BW NW M IM F post' A. apply dv_seq; auto. apply IM; [left; lia|exact A].
  - intros n m w x l post NW LT M IM F post' A. apply (dv_map_below n m); auto. apply IM; [lia|exact A].
  - intros n m w x l post NW LT M IM F post' A. apply (dv_seq_below n m); auto. apply IM; [left; lia|exact A].
Qed.
End Next.

(* ---- joining ---- *)
Lemma join_rest y l p x2 l2 p2 : map_rest 0 y l p -> newline_at 0 p -> map_rest 0 (p ++ x2) l2 p2 -> stops (x2 ++ p2) -> x2 <> [] -> hd EOF (x2 ++ p2) <> DASH ->
  map_rest 0 (y ++ p ++ x2) (l ++ l2) p2.
Proof.
  intros R. remember O as n eqn:E. revert E. induction R as [n post ME|n w k t d y l post NW PK KV R IH] using map_rest_ind; intros -> NA R2 S N D; [exact R2|].
  rewrite <- !app_assoc. cbn [app]. apply mr_cons; auto. destruct (follow (x2 ++ p2)) as (_ & _ & F & _); [exact S|destruct x2; [congruence|discriminate]|].
  rewrite <- !app_assoc. refine (F _ _ _ _ KV (or_intror D) _ _). apply (rest_next _ 0 y l); auto. right. auto.
Qed.
Lemma join_map x l p x2 l2 p2 : block_map 0 x l p -> newline_at 0 p -> block_map 0 x2 l2 p2 -> ~ In (hd EOF x2) [DQUOTE; SQUOTE; DASH] ->
  block_map 0 (x ++ p ++ x2) (l ++ l2) p2.
Proof.
  intros M NA M2 Q. inversion M2 as [? x3 k3 t3 d3 y3 l3 ? SK KV3 R3]; subst. destruct SK as [[PK ->]|QT].
  2:{ exfalso. apply Q. destruct QT; cbn; auto. }
  assert (HS : stops ((x3 ++ b ":" ++ t3 ++ y3) ++ p2)) by (rewrite <- !app_assoc; now apply plain_key_stops).
  assert (HD : hd EOF ((x3 ++ b ":" ++ t3 ++ y3) ++ p2) <> DASH).
  { destruct PK as ((c & q & -> & _) & _). cbn [app hd] in *. intros ->. apply Q. cbn. auto. }
  assert (R2 : map_rest 0 (p ++ x3 ++ b ":" ++ t3 ++ y3) ((x3, d3) :: l3) p2) by now apply mr_cons.
  assert (NE : x3 ++ b ":" ++ t3 ++ y3 <> []) by (destruct PK as ((c & q & -> & _) & _); discriminate).
  inversion M as [? x1 k1 t1 d1 y1 l1 ? SK KV R]; subst. rewrite <- !app_assoc. cbn [app]. apply (bm_items 0 x1 k1 t1 d1 (y1 ++ p ++ x3 ++ COLON :: t3 ++ y3)); [exact SK| |].
  - destruct (follow ((x3 ++ b ":" ++ t3 ++ y3) ++ p2)) as (_ & _ & F & _); [exact HS|destruct x3; discriminate|].
    refine (F _ _ _ _ KV (or_intror HD) _ _). rewrite <- !app_assoc. change (COLON :: t3 ++ y3 ++ p2) with (b ":" ++ t3 ++ y3 ++ p2).
    apply (rest_next _ 0 y1 l1); [exact R|]. right. split; [exact NA|]. rewrite <- ?app_assoc. cbn [app]. now rewrite <- ?app_assoc.
  - apply join_rest; auto.
Qed.
Lemma join_srest y l p x2 l2 p2 : seq_rest 0 y l p -> newline_at 0 p -> seq_rest 0 (p ++ x2) l2 p2 -> stops (x2 ++ p2) -> x2 <> [] ->
  seq_rest 0 (y ++ p ++ x2) (l ++ l2) p2.
Proof.
  intros R. remember O as n eqn:E. revert E. induction R as [n post ME|n w t d y l post NW U DV R IH] using seq_rest_ind; intros -> NA R2 S N; [exact R2|].
  rewrite <- !app_assoc. cbn [app]. apply sr_cons; auto. destruct (follow (x2 ++ p2)) as (_ & _ & _ & _ & _ & F); [exact S|destruct x2; [congruence|discriminate]|].
  rewrite <- !app_assoc. refine (F _ _ _ _ DV (Nat.lt_0_succ _) _ _). apply (srest_next _ 0 y l); auto. right. auto.
Qed.
Lemma join_seq x l p x2 l2 p2 : block_seq 0 x l p -> newline_at 0 p -> utf8 p = true -> block_seq 0 x2 l2 p2 -> block_seq 0 (x ++ p ++ x2) (l ++ l2) p2.
Proof.
  intros M NA U M2. inversion M2 as [? t3 d3 y3 l3 ? DV3 R3]; subst.
  assert (HS : stops ((b "-" ++ t3 ++ y3) ++ p2)) by (split; cbn; intuition discriminate).
  assert (R2 : seq_rest 0 (p ++ b "-" ++ t3 ++ y3) (d3 :: l3) p2) by now apply sr_cons.
  inversion M as [? t1 d1 y1 l1 ? DV R]; subst. rewrite <- !app_assoc. cbn [app]. apply (bs_items 0 t1 d1 (y1 ++ p ++ DASH :: t3 ++ y3)).
  - destruct (follow ((b "-" ++ t3 ++ y3) ++ p2)) as (_ & _ & _ & _ & _ & F); [exact HS|discriminate|].
    refine (F _ _ _ _ DV (Nat.lt_0_succ _) _ _). rewrite <- !app_assoc. cbn [app]. rewrite <- app_assoc.
    apply (srest_next _ 0 y1 l1); [exact R|]. right. split; [exact NA|]. cbn [app]. now rewrite <- ?app_assoc.
  - apply join_srest; auto. discriminate.
Qed.
