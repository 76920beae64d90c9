(* What line ends of two bytes, CR LF, change in what is reported for a text. *)
From Coq Require Import String.
From Coq Require Import List NArith Bool Arith Lia.
From Verif Require Import Bytes Utf8 Data Scan Shown Plain White Valid Lexed Means Printed Fails Places Parser Abs ReadsSound MeansSound MeansComplete PrintedComplete Crlf.
Import ListNotations.
Local Open Scope N_scope.

Section CrlfErr.
Variable T : bytes.
Local Notation T' := (crlf T).
Local Notation len := (length T).
Local Notation len' := (length (crlf T)).
Local Notation at_ i := (nth i T 0).
Local Notation at' i := (nth i (crlf T) 0).
Local Notation place := (place T).
Local Notation img := (img T).

Definition ends_at (w v : option bytes) (j j' : nat) : Prop :=
  match w, v with None, None => img j j' | Some _, Some _ => j' = place j | _, _ => False end.
Lemma ends_img2 w v j j' : ends_at w v j j' -> img j j'.
Proof. destruct w, v; cbn; try contradiction; [now left|auto]. Qed.
Lemma after_img w v e e' w' n : ends_at w v e e' -> after T w e w' n -> exists v', after T' v e' v' (place n).
Proof.
  intros F AF. revert F. destruct AF as [x m|e0 m G]; intros F; destruct v as [v|]; cbn in F; try contradiction.
  - subst. exists v. apply af_read.
  - exists (slice T' e' (place m)). apply af_skip. now apply (gap_img T _ _ G).
Qed.
Lemma valid_of w : exists v, made_valid w v.
Proof. exists (lossy w). now apply lossy_spec. Qed.
Ltac some A := let L := fresh "L" in let A' := fresh "A'" in let P := fresh "P" in
  destruct (at_some T _ _ A ltac:(discriminate) ltac:(discriminate)) as (L & A' & P).
Ltac no_in := apply not_in; [lia|cbn; unfold CR; intuition discriminate|assumption].
Lemma laid_img i s w j : block_laid T i s w j -> exists w', block_laid T' (place i) s w' (eol T j).
Proof.
  intros [folded v A N B ->|folded v A N B ->|folded v A N B ->]; destruct (body_img T _ _ _ _ _ B) as (w' & B' & E); exists w';
    destruct (at_some T _ i A ltac:(destruct folded; discriminate) ltac:(destruct folded; discriminate)) as (L & A' & P).
  - apply (bd_plain _ _ _ _ _ folded v); [exact A'| |now rewrite Nat.add_1_l, P|now rewrite E]. rewrite P. no_in.
  - some N. apply (bd_keep _ _ _ _ _ folded v); [exact A'|now rewrite P| |now rewrite E]. replace (2 + place i)%nat with (place (2 + i)) by (cbn [Nat.add]; lia). exact B'.
  - some N. apply (bd_strip _ _ _ _ _ folded v); [exact A'|now rewrite P| |reflexivity]. replace (2 + place i)%nat with (place (2 + i)) by (cbn [Nat.add]; lia). exact B'.
Qed.
Lemma puts_img :
  (forall flow outer i d o w j, puts T flow outer i d o w j -> exists d' o' w' j', puts T' flow outer (place i) d' o' w' j' /\ ends_at w w' j j') /\
  (forall outer i d o w n, puts_behind T outer i d o w n -> exists d' o' w', puts_behind T' outer (place i) d' o' w' (place n)) /\
  (forall c i l o w n, puts_dashes T c i l o w n -> at_ i = DASH -> exists l' o' w', puts_dashes T' c (place i) l' o' w' (place n)) /\
  (forall c s k l o w n, puts_pairs T c s k l o w n -> at_ k = COLON -> forall s', exists l' o' w', puts_pairs T' c s' (place k) l' o' w' (place n)) /\
  (forall n p l o j, puts_flow_seq T n p l o j -> forall p', exists l' o', puts_flow_seq T' (place n) p' l' o' (place j)) /\
  (forall n p l o j, puts_flow_map T n p l o j -> forall p', exists l' o', puts_flow_map T' (place n) p' l' o' (place j)) /\
  (forall n s d o w e, puts_pair T n s d o w e -> exists s' d' o' w', puts_pair T' (place n) s' d' o' w' (place e)).
Proof.
  destruct (puts_le T) as (LM & LB & LD & LP & LS & LF & LR).
  apply puts_all.
  - intros flow outer i s j Q C. destruct (quote_img T i s j Q) as (s' & Q' & _). exists (DStr s'). do 3 eexists. split; [apply pu_quote; [exact Q'|]|now left].
    destruct C as [C|C]; [now left|right]. apply at_not; [apply quote_le in Q; lia|discriminate|exact C].
  - intros flow outer i h j N. destruct (number_img T flow i h j N) as (N' & _). do 4 eexists. split; [apply pu_number; exact N'|now left].
  - intros flow outer i d j NW NN Wd D. destruct (word_img T flow i d j NW NN Wd D) as (d' & j' & I & W' & D' & _). pose proof (word_le T flow i j Wd). do 2 eexists. exists None, j'. split; [|exact I].
    apply pu_word; [rewrite <- no_word_img by lia; exact NW| |exact W'|exact D']. intros h k N. destruct (number_back T flow i h k ltac:(lia) N) as (k0 & N0). now apply (NN h k0).
  - intros flow outer i s w j n B G. destruct (laid_img i s w j B) as (w' & B'). do 4 eexists. split; [apply (pu_block _ _ _ _ s w' (eol T j) (place n)); [exact B'|apply (gap_img T _ _ G), img_eol]|reflexivity].
  - intros outer i l o w n A Wh _ IH. destruct (IH A) as (l' & o' & w' & H). some A. exists (DSeq l'), o', (Some w'), (place n). split; [|reflexivity]. apply pu_seq; [exact A'|rewrite P; apply white_img; [lia|exact Wh]|]. rewrite column_place by lia. exact H.
  - intros outer i s k l o w n K U _ IH. destruct (key_img T i s k K) as (s' & K' & _). pose proof (key_le T i s k K) as LK. assert (CK : at_ k = COLON) by now destruct K. destruct (IH CK s') as (l' & o' & w' & H).
    do 4 eexists. split; [apply (pu_map _ _ _ s' (place k) l' o' w' (place n)); [exact K'| |]; rewrite column_place by lia; assumption|reflexivity].
  - intros flow outer i n l o j A G _ IH. some A. destruct (IH (slice T' (S (place i)) (place n))) as (l' & o' & H). do 4 eexists. split; [apply (pu_flow_seq _ _ _ _ (place n) l' o' (place j)); [exact A'| |exact H]; rewrite P; apply (gap_img T _ _ G); now left|now left].
  - intros flow outer i n l o j A G _ IH. some A. destruct (IH (slice T' (S (place i)) (place n))) as (l' & o' & H). do 4 eexists. split; [apply (pu_flow_map _ _ _ _ (place n) l' o' (place j)); [exact A'| |exact H]; rewrite P; apply (gap_img T _ _ G); now left|now left].
  - intros outer i m d o w e w' n G _ (d' & o' & v & e' & H & F) AF. destruct (after_img w v e e' w' n F AF) as (v' & AF2). do 3 eexists. apply (bh_value _ _ _ (place m) d' o' v e' v'); [apply (gap_img T _ _ G); now left|exact H|exact AF2].
  - intros o i m s k G K LE. destruct (key_img T m s k K) as (s' & K' & _). pose proof (gap_le T _ _ G). do 3 eexists. apply (bh_none _ _ _ (place m) s' (place k)); [apply (gap_img T _ _ G); now left|exact K'|]. rewrite column_place by lia. exact LE.
  - intros c i d o w n P0 (d' & o' & w' & H) C A. pose proof (LB _ _ _ _ _ _ P0) as GL. some A. do 3 eexists. apply (pd_last _ _ _ d' o' w'); [rewrite P; exact H|]. rewrite column_place by lia. destruct C as [C|C]; [now left|right]. apply at_not; [lia|discriminate|exact C].
  - intros c i d o w n v l o' w' n' P0 (d2 & o2 & w2 & H) C AN _ _ IH A. pose proof (LB _ _ _ _ _ _ P0) as GL. destruct (IH AN) as (l2 & o3 & w3 & H2). some A. destruct (valid_of w2) as (v2 & V2).
    do 3 eexists. apply (pd_more _ _ _ d2 o2 w2 (place n) v2 l2 o3 w3); [rewrite P; exact H|rewrite column_place by lia; exact C|now apply at_some|exact V2|exact H2].
  - intros c s k d o w n P0 (d' & o' & w' & H) C A s'. pose proof (LB _ _ _ _ _ _ P0) as GL. some A. do 3 eexists. apply (pp_last _ _ _ _ d' o' w'); [rewrite P; exact H|]. rewrite column_place by lia. destruct C as [C|C]; [now left|right].
    rewrite at_other; [exact C|lia|]. intros E. rewrite E in C. cbn in C. unfold COLON, NEWLINE in C. intuition discriminate.
  - intros c s k d o w n s2 k2 l o' w' n' P0 (d2 & o2 & w2 & H) C K _ IH A s'. pose proof (LB _ _ _ _ _ _ P0) as GL. assert (AK : at_ k2 = COLON) by apply K. destruct (IH AK (crlf s2)) as (l2 & o3 & w3 & H2). some A.
    do 3 eexists. apply (pp_more _ _ _ _ d2 o2 w2 (place n) (crlf s2) (place k2) l2 o3 w3); [rewrite P; exact H|rewrite column_place by lia; exact C|now apply later_img|exact H2].
  - intros n p A p'. some A. rewrite <- P. do 2 eexists. now apply ps_end.
  - intros n p v m d o w e w' n' l o' j N _ G P0 (d2 & o2 & w2 & e' & H & F) A AF _ IH p'. some A. pose proof (gap_le T _ _ G). assert (e' = place e) as -> by (apply (img_other T); [now apply (ends_img2 w w2)|rewrite A; discriminate]).
    assert (X : ends_at w w2 (S e) (S (place e))) by (destruct w, w2; cbn in *; try contradiction; [exact P|now left]). destruct (after_img w w2 (S e) _ w' n' X AF) as (w3 & AF2). destruct (IH w3) as (l2 & o3 & H2). destruct (valid_of p') as (v2 & V2).
    do 2 eexists. apply (ps_comma _ _ p' v2 (place m) d2 o2 w2 (place e) w3 (place n') l2 o3); [no_in|exact V2|apply (gap_img T _ _ G); now left|exact H|exact A'|exact AF2|exact H2].
  - intros n p v m d o w e w' n' N _ G P0 (d2 & o2 & w2 & e' & H & F) A AF A2 p'. some A2. pose proof (gap_le T _ _ G). pose proof (LM _ _ _ _ _ _ _ P0). destruct (after_img w w2 e e' w' n' F AF) as (w3 & AF2). destruct (valid_of p') as (v2 & V2). rewrite <- P.
    do 2 eexists. apply (ps_last _ _ p' v2 (place m) d2 o2 w2 e' w3 (place n')); [no_in|exact V2|apply (gap_img T _ _ G); now left|exact H| |exact AF2|exact A']. apply (img_not T _ e); [lia|now apply (ends_img2 w w2)|discriminate|exact A].
  - intros n p v m d o w e w' v' n' d' o' w2 e' w3 n'' N _ G P0 (d2 & o2 & x2 & f & H & F) A AF N' _ P1 (d3 & o3 & x3 & f' & H3 & F3) AF3 A2 p'. some A2. pose proof (gap_le T _ _ G). pose proof (LM _ _ _ _ _ _ _ P0). pose proof (LM _ _ _ _ _ _ _ P1).
    destruct (after_img w x2 e f w' n' F AF) as (w4 & AF2). destruct (after_img w2 x3 e' f' w3 n'' F3 AF3) as (w5 & AF5). destruct (valid_of p') as (v2 & V2). destruct (valid_of w4) as (v4 & V4). rewrite <- P.
    do 2 eexists. apply (ps_two _ _ p' v2 (place m) d2 o2 x2 f w4 v4 (place n') d3 o3 x3 f' w5 (place n'')); [no_in|exact V2|apply (gap_img T _ _ G); now left|exact H| |exact AF2|no_in|exact V4|exact H3|exact AF5|exact A'].
    apply (img_not T _ e); [lia|now apply (ends_img2 w x2)|discriminate|exact A].
  - intros n p A p'. some A. rewrite <- P. do 2 eexists. now apply pm_end.
  - intros n p s d o w e n' l o' j _ (s2 & d2 & o2 & w2 & H) A G _ IH p'. some A. destruct (IH (slice T' (S (place e)) (place n'))) as (l2 & o3 & H2). do 2 eexists. apply (pm_comma _ _ p' s2 d2 o2 w2 (place e) (place n') l2 o3); [exact H|exact A'|rewrite P; apply (gap_img T _ _ G); now left|exact H2].
  - intros n p s d o w e _ (s2 & d2 & o2 & w2 & H) A p'. some A. rewrite <- P. do 2 eexists. apply (pm_last _ _ p' s2 d2 o2 w2 (place e)); [exact H|exact A'].
  - intros n p s d o w e s' d' o' w' e' P0 (s2 & d2 & o2 & w2 & H) A P1 (s3 & d3 & o3 & w3 & H3) A2 p'. some A2. rewrite <- P. pose proof (LR _ _ _ _ _ _ P0). do 2 eexists. apply (pm_two _ _ p' s2 d2 o2 w2 (place e) s3 d3 o3 w3 (place e')); [exact H| |exact H3|exact A'].
    apply at_not; [lia|discriminate|exact A].
  - intros n s k m d o w e w' e2 N K G _ (d2 & o2 & w2 & e' & H & F) AF. destruct (flow_key_img T n s k K) as (K' & P). destruct (after_img w w2 e e' w' e2 F AF) as (w3 & AF2). assert (NL : (n <= len)%nat) by (destruct K; lia).
    do 4 eexists. apply (pr_pair _ _ _ (place k) (place m) d2 o2 w2 e' w3 (place e2)); [no_in|exact K'|rewrite P; apply (gap_img T _ _ G); now left|exact H|exact AF2].
Qed.

Definition of_escape (k : ekind) : Prop := k = BadEscape \/ k = BadHexEscape \/ k = BadUnicodeEscape.
(* An error is at the places that correspond; the length of one in an escape stays the same. *)
Definition alike (r r' : fault) : Prop :=
  match r, r' with
  | stuck, stuck => True
  | bad k x y, bad k' x' y' => k' = k /\ (k <> BadSequenceTerminator -> x' = place x) /\ (of_escape k -> (y' + x = y + x')%nat) /\ (~ of_escape k -> y' = place y)
  | _, _ => False
  end.
Lemma alike_at k x y x' y' : ~ of_escape k -> y' = place y -> (k <> BadSequenceTerminator -> x' = place x) -> alike (bad k x y) (bad k x' y').
Proof. intros E -> X. cbn. split; [reflexivity|]. split; [exact X|]. split; [intros N; contradiction|auto]. Qed.
Lemma alike_esc k x y x' y' : of_escape k -> x' = place x -> (y' + x = y + x')%nat -> alike (bad k x y) (bad k x' y').
Proof. intros E -> X. cbn. split; [reflexivity|]. split; [auto|]. split; [auto|]. intros N. contradiction. Qed.
Lemma hex_bare c : hexdigit c -> c <> 0 /\ c <> NEWLINE.
Proof. intros (v & H). inversion H as [c0 D|c0 D|c0 D]; subst; try unfold digit in D; unfold NEWLINE; lia. Qed.
Lemma hex_run p q : (p <= q <= len)%nat -> (forall i, (p <= i < q)%nat -> hexdigit (at_ i)) -> place q = (place p + (q - p))%nat /\ forall i, (p <= i <= q)%nat -> place i = (place p + (i - p))%nat.
Proof.
  intros L D. assert (H : forall i, (p <= i <= q)%nat -> place i = (place p + (i - p))%nat).
  { intros i. remember (i - p)%nat as n eqn:E. revert i E. induction n as [|n IH]; intros i E I; [replace i with p by lia; lia|].
    destruct (hex_bare _ (D (p + n)%nat ltac:(lia))) as (_ & N). pose proof (next_place T (p + n) ltac:(lia) N) as S1. replace (S (p + n)) with i in S1 by lia. rewrite <- S1, (IH (p + n)%nat) by lia. lia. }
  split; [|exact H]. apply H. lia.
Qed.
Lemma letter_img i : (i <= len)%nat -> no_letter (at_ i) -> no_letter (at' (place i)).
Proof. intros L N. unfold no_letter in *. apply not_in; [exact L|vm_compute; intuition discriminate|exact N]. Qed.
Lemma hex_at i : (i <= len)%nat -> hexdigit (at_ i) -> at' (place i) = at_ i.
Proof. intros L H. destruct (hex_bare _ H) as (_ & N). now apply at_other. Qed.
Lemma not_hex i : (i <= len)%nat -> ~ hexdigit (at_ i) -> ~ hexdigit (at' (place i)).
Proof.
  intros L N. rewrite at_place by exact L. destruct (_ =? _); [|exact N]. intros (v & H). inversion H as [c0 D|c0 D|c0 D]; subst; try unfold digit in D; unfold CR in D; lia.
Qed.
Lemma escape_img p k e : at_ p = BACKSLASH -> bad_escape T p k e -> of_escape k /\ exists e', bad_escape T' (place p) k e' /\ (e' + p = e + place p)%nat.
Proof.
  intros A. some A. intros [E|L0 N|k0 c n q K C L0 QL D ND|v1 v2 v3 v4 C H1 H2 H3 H4 SU].
  - split; [now left|]. exists len'. rewrite <- (place_end T), <- E, <- P. split; [|lia]. rewrite E in P. rewrite P, (place_end T). apply be_end. now rewrite P, (place_end T).
  - split; [now left|]. exists (2 + place p)%nat. split; [|lia]. apply be_letter; [rewrite P, <- (place_end T); apply place_mono; lia|rewrite P; apply letter_img; [lia|exact N]].
  - split; [destruct K as [K|K]; injection K as -> _ _; unfold of_escape; auto|].
    assert (X : (S p < len)%nat /\ [at' (S (place p))] = c /\ S (S (place p)) = place (2 + p)).
    { destruct K as [K|K]; injection K as _ -> _; injection C as C; some C; rewrite P; rewrite A'0; split; auto. }
    destruct X as (SL & C' & P2). destruct (hex_run (2 + p) q ltac:(lia) D) as (PQ & PI). pose proof (place_in T q QL) as PL.
    exists (Nat.min (S (place q)) len'). split.
    + apply (be_digit _ _ k0 c n (place q)); [exact K|exact C'|lia|exact PL| |now apply not_hex]. intros i I. replace i with (place (i + p - place p)%nat) by (rewrite PI; lia). assert (D0 : hexdigit (at_ (i + p - place p)%nat)) by (apply D; lia). rewrite hex_at by (lia || exact D0). exact D0.
    + destruct (Nat.eq_dec q len) as [->|NE]; [rewrite (place_end T) in *; lia|]. pose proof (place_mono T q len ltac:(lia)) as M. rewrite (place_end T) in M. lia.
  - split; [unfold of_escape; auto|]. exists (6 + place p)%nat. split; [|lia].
    assert (HX : forall i v, hex (at_ i) v -> hexdigit (at_ i)) by (intros i v H; now exists v). assert (H4L : (5 + p < len)%nat) by (destruct (hex_bare _ (HX _ _ H4)) as (Z & _); destruct (Nat.lt_ge_cases (5 + p) len) as [Q|Q]; [exact Q|]; now rewrite nth_overflow in Z by lia).
    injection C as C. some C. assert (D : forall i, (2 + p <= i < 6 + p)%nat -> hexdigit (at_ i)) by (intros i I; assert (i = 2 + p \/ i = 3 + p \/ i = 4 + p \/ i = 5 + p)%nat as [-> | [-> | [-> | ->]]] by lia; eauto).
    destruct (hex_run (2 + p) (6 + p) ltac:(lia) D) as (_ & PI). change (S (S p)) with (2 + p)%nat in *.
    assert (G : forall t, (2 <= t <= 5)%nat -> at' (t + place p)%nat = at_ (t + p)%nat). { intros t I. replace (t + place p)%nat with (place (t + p)) by (rewrite PI; lia). apply hex_at; [lia|]. apply D. lia. }
    apply (be_surrogate _ _ v1 v2 v3 v4); rewrite ?(G 2%nat), ?(G 3%nat), ?(G 4%nat), ?(G 5%nat) by lia; auto. rewrite P, A'0. reflexivity.
Qed.
Lemma bad_quote_img i r : bad_quote T i r -> exists r', bad_quote T' (place i) r' /\ alike r r'.
Proof.
  intros [v A C|p v k e A L0 D B E].
  - some A. exists stuck. split; [|exact Logic.I]. apply (bq_open _ _ (crlf v)); [exact A'|]. rewrite P, <- (place_end T), part_place by lia. now apply sq_img.
  - some A. destruct (escape_img p k e B E) as (K & e' & E' & X). exists (bad k (place p) e'). split; [|now apply alike_esc]. some B. destruct (dq_img _ _ D) as (v' & D' & _).
    apply (bq_escape _ _ (place p) v'); [exact A'|rewrite P; apply place_le; lia| |exact A'0|exact E']. rewrite P, part_place by lia. exact D'.
Qed.
Ltac noesc := unfold of_escape; intuition discriminate.
Lemma fails_img :
  (forall flow outer i r, fails T flow outer i r -> exists r', fails T' flow outer (place i) r' /\ alike r r') /\
  (forall outer i r, fails_behind T outer i r -> exists r', fails_behind T' outer (place i) r' /\ alike r r') /\
  (forall c i r, fails_dashes T c i r -> at_ i = DASH -> exists r', fails_dashes T' c (place i) r' /\ alike r r') /\
  (forall c k r, fails_pairs T c k r -> at_ k = COLON -> exists r', fails_pairs T' c (place k) r' /\ alike r r') /\
  (forall n p r, fails_flow_seq T n p r -> (n <= len)%nat -> forall p', exists r', fails_flow_seq T' (place n) p' r' /\ alike r r') /\
  (forall st n r, fails_flow_map T st n r -> (n <= len)%nat -> exists r', fails_flow_map T' (place st) (place n) r' /\ alike r r') /\
  (forall st n r, fails_pair T st n r -> (n <= len)%nat -> exists r', fails_pair T' (place st) (place n) r' /\ alike r r').
Proof.
  destruct puts_img as (PV & PB & _ & _ & _ & _ & PP). destruct (puts_le T) as (LM & LB & _ & _ & _ & _ & LR).
  assert (ZE : forall n, (n <= len)%nat -> at_ n = 0 -> at' (place n) = 0) by (intros n L A; rewrite at_other; [exact A|exact L|rewrite A; discriminate]).
  apply fails_all.
  - intros flow outer i r Q. destruct (bad_quote_img i r Q) as (r' & Q2 & AL). exists r'. split; [now apply fa_quote|exact AL].
  - intros outer i r A Wh _ IH. destruct (IH A) as (r' & H & AL). some A. exists r'. split; [|exact AL]. apply fa_seq; [exact A'|rewrite P; apply white_img; [lia|exact Wh]|]. rewrite column_place by lia. exact H.
  - intros outer i s k r K U _ IH. destruct (key_img T i s k K) as (s' & K' & _). pose proof (key_le T i s k K) as LK. assert (CK : at_ k = COLON) by now destruct K. destruct (IH CK) as (r' & H & AL). exists r'. split; [|exact AL].
    apply (fa_map _ _ _ s' (place k)); [exact K'| |]; rewrite column_place by lia; assumption.
  - intros flow outer i n r A G _ IH. some A. destruct (IH (proj2 (gap_le T _ _ G)) (slice T' (S (place i)) (place n))) as (r' & H & AL). exists r'. split; [|exact AL]. apply (fa_flow_seq _ _ _ _ (place n)); [exact A'| |exact H]. rewrite P. apply (gap_img T _ _ G). now left.
  - intros flow outer i n r A G _ IH. some A. destruct (IH (proj2 (gap_le T _ _ G))) as (r' & H & AL). exists r'. split; [|exact AL]. apply (fa_flow_map _ _ _ _ (place n)); [exact A'| |now rewrite P]. rewrite P. apply (gap_img T _ _ G). now left.
  - intros outer i m r G _ (r' & H & AL). exists r'. split; [|exact AL]. apply (fb_value _ _ _ (place m)); [apply (gap_img T _ _ G); now left|exact H].
  - intros c i r _ (r' & H & AL) A. some A. exists r'. split; [|exact AL]. apply fd_here. now rewrite P.
  - intros c i d o w n r P0 C AN _ IH A. destruct (IH AN) as (r' & H & AL). destruct (PB _ _ _ _ _ _ P0) as (d' & o' & w' & P2). pose proof (LB _ _ _ _ _ _ P0). some A. exists r'. split; [|exact AL].
    apply (fd_more _ _ _ d' o' w' (place n)); [now rewrite P|rewrite column_place by lia; exact C|now apply at_some|exact H].
  - intros c k r _ (r' & H & AL) A. some A. exists r'. split; [|exact AL]. apply fp_here. now rewrite P.
  - intros c k d o w n s' k' r P0 C K _ IH A. assert (AK : at_ k' = COLON) by apply K. destruct (IH AK) as (r' & H & AL). destruct (PB _ _ _ _ _ _ P0) as (d' & o' & w' & P2). pose proof (LB _ _ _ _ _ _ P0). some A. exists r'. split; [|exact AL].
    apply (fp_more _ _ _ d' o' w' (place n) (crlf s') (place k')); [now rewrite P|rewrite column_place by lia; exact C|now apply later_img|exact H].
  - intros c k d o w n k' P0 C L N1 N2 AZ A. destruct (PB _ _ _ _ _ _ P0) as (d' & o' & w' & P2). some A. exists (bad BadMappingSeparator (place n) (Nat.min (S (place k')) len')). split.
    + apply (fp_key _ _ _ d' o' w' (place n)); [now rewrite P|rewrite column_place by lia; exact C|split; [apply place_mono; lia|apply place_in; lia]|rewrite part_place by lia; rewrite crlf_in by discriminate; exact N1|rewrite part_place by lia; rewrite crlf_in by discriminate; exact N2|apply ZE; [lia|exact AZ]].
    + apply alike_at; [noesc| |reflexivity]. destruct (Nat.eq_dec k' len) as [->|NE]; [rewrite (Nat.min_r (S len) len) by lia; rewrite (place_end T); lia|]. rewrite (Nat.min_l _ len) by lia. pose proof (next_place T k' ltac:(lia) ltac:(rewrite AZ; discriminate)) as S1. pose proof (place_in T (S k') ltac:(lia)). lia.
  - intros n p A L p'. exists (bad BadSequenceTerminator (place n - length p') (place n)). split; [apply fs_open; now apply ZE|apply alike_at; [noesc|reflexivity|congruence]].
  - intros n p m r N G _ (r' & H & AL) L p'. exists r'. split; [|exact AL]. apply (fs_value _ _ _ (place m)); [no_in|apply (gap_img T _ _ G); now left|exact H].
  - intros n p m d o w e w' n' r N G P0 A AF _ IH L p'. some A. destruct (PV _ _ _ _ _ _ _ P0) as (d2 & o2 & w2 & e' & P2 & F). assert (e' = place e) as -> by (apply (img_other T); [now apply (ends_img2 w w2)|rewrite A; discriminate]).
    assert (X : ends_at w w2 (S e) (S (place e))) by (destruct w, w2; cbn in *; try contradiction; [exact P|now left]). destruct (after_img w w2 (S e) _ w' n' X AF) as (w3 & AF2). pose proof (after_le T _ _ _ _ AF ltac:(lia)) as LN. destruct (IH (proj2 LN) w3) as (r' & H & AL). exists r'. split; [|exact AL].
    apply (fs_comma _ _ p' (place m) d2 o2 w2 (place e) w3 (place n')); [no_in|apply (gap_img T _ _ G); now left|exact P2|exact A'|exact AF2|exact H].
  - intros n p m d o w e w' n' N G P0 A AF AZ L p'. pose proof (LM _ _ _ _ _ _ _ P0) as LP. destruct (PV _ _ _ _ _ _ _ P0) as (d2 & o2 & w2 & e' & P2 & F). destruct (after_img w w2 e e' w' n' F AF) as (w3 & AF2). pose proof (after_le T _ _ _ _ AF ltac:(lia)) as LN.
    exists (bad BadSequenceTerminator (place n' - length w3) (place n')). split; [|apply alike_at; [noesc|reflexivity|congruence]].
    apply (fs_last_open _ _ p' (place m) d2 o2 w2 e' w3 (place n')); [no_in|apply (gap_img T _ _ G); now left|exact P2| |exact AF2|apply ZE; [lia|exact AZ]]. apply (img_not T _ e); [lia|now apply (ends_img2 w w2)|discriminate|exact A].
  - intros n p m d o w e w' n' r N G P0 A AF N' _ (r' & H & AL) L p'. pose proof (LM _ _ _ _ _ _ _ P0) as LP. destruct (PV _ _ _ _ _ _ _ P0) as (d2 & o2 & w2 & e' & P2 & F). destruct (after_img w w2 e e' w' n' F AF) as (w3 & AF2). pose proof (after_le T _ _ _ _ AF ltac:(lia)) as LN. exists r'. split; [|exact AL].
    apply (fs_last_value _ _ p' (place m) d2 o2 w2 e' w3 (place n')); [no_in|apply (gap_img T _ _ G); now left|exact P2| |exact AF2|no_in|exact H]. apply (img_not T _ e); [lia|now apply (ends_img2 w w2)|discriminate|exact A].
  - intros n p m d o w e w' n' d' o' w2 e' w3 n'' N G P0 A AF N' P1 AF' A2 L p'. pose proof (LM _ _ _ _ _ _ _ P0) as LP. pose proof (LM _ _ _ _ _ _ _ P1) as LP'. destruct (PV _ _ _ _ _ _ _ P0) as (d2 & o2 & x2 & f & P2 & F). destruct (after_img w x2 e f w' n' F AF) as (x3 & AF2).
    destruct (PV _ _ _ _ _ _ _ P1) as (d3 & o3 & x4 & f' & P3 & F3). destruct (after_img w2 x4 e' f' w3 n'' F3 AF') as (x5 & AF3). pose proof (after_le T _ _ _ _ AF' ltac:(lia)) as LN.
    exists (bad BadSequenceTerminator (place n'' - length x5) (place n'')). split; [|apply alike_at; [noesc|reflexivity|congruence]].
    apply (fs_last_end _ _ p' (place m) d2 o2 x2 f x3 (place n') d3 o3 x4 f' x5 (place n'')); [no_in|apply (gap_img T _ _ G); now left|exact P2| |exact AF2|no_in|exact P3|exact AF3|apply at_not; [lia|discriminate|exact A2]]. apply (img_not T _ e); [lia|now apply (ends_img2 w x2)|discriminate|exact A].
  - intros st n A L. exists (bad BadMappingTerminator (place st) (place n)). split; [apply fm_open; now apply ZE|apply alike_at; [noesc|reflexivity|reflexivity]].
  - intros st n r _ IH L. destruct (IH L) as (r' & H & AL). exists r'. split; [now apply fm_pair|exact AL].
  - intros st n s d o w e n' r P0 A G _ IH L. destruct (PP _ _ _ _ _ _ P0) as (s2 & d2 & o2 & w2 & P2). some A. destruct (IH (proj2 (gap_le T _ _ G))) as (r' & H & AL). exists r'. split; [|exact AL].
    apply (fm_comma _ _ _ s2 d2 o2 w2 (place e) (place n')); [exact P2|exact A'|rewrite P; apply (gap_img T _ _ G); now left|now rewrite P].
  - intros st n s d o w e P0 A L. destruct (PP _ _ _ _ _ _ P0) as (s2 & d2 & o2 & w2 & P2). pose proof (LR _ _ _ _ _ _ P0). exists (bad BadMappingTerminator (place e) (place e)). split; [|apply alike_at; [noesc|reflexivity|reflexivity]].
    apply (fm_last_open _ _ _ s2 d2 o2 w2 (place e)); [exact P2|apply ZE; [lia|exact A]].
  - intros st n s d o w e r P0 A _ IH L. destruct (PP _ _ _ _ _ _ P0) as (s2 & d2 & o2 & w2 & P2). pose proof (LR _ _ _ _ _ _ P0) as LE. destruct (IH (proj2 LE)) as (r' & H & AL). exists r'. split; [|exact AL].
    apply (fm_last_pair _ _ _ s2 d2 o2 w2 (place e)); [exact P2|apply at_not; [lia|discriminate|exact A]|exact H].
  - intros st n s d o w e s' d' o' w' e' P0 A P1 A2 L. destruct (PP _ _ _ _ _ _ P0) as (s2 & d2 & o2 & w2 & P2). destruct (PP _ _ _ _ _ _ P1) as (s3 & d3 & o3 & w3 & P3). pose proof (LR _ _ _ _ _ _ P0). pose proof (LR _ _ _ _ _ _ P1).
    exists (bad BadMappingTerminator (place e) (place e')). split; [|apply alike_at; [noesc|reflexivity|reflexivity]]. apply (fm_last_end _ _ _ s2 d2 o2 w2 (place e) s3 d3 o3 w3 (place e')); [exact P2|apply at_not; [lia|discriminate|exact A]|exact P3|apply at_not; [lia|discriminate|exact A2]].
  - intros st n N C Z L. exists (bad BadMappingSeparator (place st) len'). split; [|apply alike_at; [noesc|now rewrite (place_end T)|reflexivity]].
    apply fr_key; [no_in|rewrite <- (place_end T), part_place by lia; rewrite crlf_in by discriminate; exact C|rewrite <- (place_end T), part_place by lia; rewrite crlf_in by discriminate; exact Z].
  - intros st n s k m r N K G _ (r' & H & AL) L. destruct (flow_key_img T n s k K) as (K' & P). exists r'. split; [|exact AL]. apply (fr_value _ _ _ (crlf s) (place k) (place m)); [no_in|exact K'|rewrite P; apply (gap_img T _ _ G); now left|exact H].
Qed.
Lemma puts_header_img p i p' j : puts_header T p i p' j -> (i <= len)%nat -> at_ i <> NEWLINE -> (j <= len)%nat /\ forall q, exists q', puts_header T' q (place i) q' (place j).
Proof.
  intros H. induction H as [p i A D|p i k n p' j A L G H IH|p i j D1 D2 D3 G]; intros L0 N0.
  - split; [exact L0|]. intros q. exists q. apply ph_none; [rewrite at_other by assumption; exact A|]. intros (E1 & E2 & E3). apply D. rewrite at_other in E1 by assumption.
    pose proof (at_lt T i _ E1 ltac:(discriminate)) as L1.
    replace (1 + place i)%nat with (place (S i)) in E2 by (rewrite <- next_place by assumption; lia). rewrite at_place in E2 by lia. destruct (at_ (S i) =? NEWLINE) eqn:X2; [discriminate|]. apply N.eqb_neq in X2.
    pose proof (at_lt T (S i) _ E2 ltac:(discriminate)) as L2.
    replace (2 + place i)%nat with (place (S (S i))) in E3 by (rewrite <- !next_place by assumption; lia). rewrite at_place in E3 by lia. destruct (at_ (S (S i)) =? NEWLINE); [discriminate|]. auto.
  - pose proof (gap_le T _ _ G) as GL. destruct (IH ltac:(lia) (gap_nl T _ _ G)) as (JL & H2). split; [exact JL|]. intros q. destruct (H2 (slice T' (eol T k) (place n))) as (q' & H3). exists q'.
    apply (ph_directive _ _ _ (eol T k) (place n)); [rewrite at_other by assumption; exact A|now apply line_img|apply (gap_img T _ _ G), img_eol|exact H3].
  - cbn [Nat.add] in D2, D3, G. some D1. some D2. some D3. split; [apply (gap_le T _ _ G)|]. intros q. eexists.
    apply ph_marker; [assumption|cbn [Nat.add]; now rewrite P|cbn [Nat.add]; now rewrite P, P0|]. cbn [Nat.add]. rewrite P, P0, P1. apply (gap_img T _ _ G). now left.
Qed.
Lemma wrong_img r : wrong T r -> exists r', wrong T' r' /\ alike r r'.
Proof.
  intros [n p i r0 G H F|n p i d o w j w' n' G H P A L]; destruct (puts_header_img _ _ _ _ H (proj2 (gap_le T _ _ G)) (gap_nl T _ _ G)) as (IL & H2); destruct (H2 (slice T' 0 (place n))) as (q' & H3);
    assert (G2 : gap_to T' 0 (place n)) by (rewrite <- (place_0 T); apply (gap_img T _ _ G); now left).
  - destruct (proj1 fails_img _ _ _ _ F) as (r' & F2 & AL). exists r'. split; [exact (wr_value _ _ _ _ _ G2 H3 F2)|exact AL].
  - destruct (proj1 puts_img _ _ _ _ _ _ _ P) as (d2 & o2 & w2 & j' & P2 & AF). destruct (after_img w w2 j j' w' n' AF A) as (w3 & A2). exists (bad ExpectedEof (place n') len'). split.
    + apply (wr_more _ _ _ _ _ _ _ _ _ _ G2 H3 P2 A2). rewrite <- (place_end T). apply place_mono. lia.
    + apply alike_at; [noesc|now rewrite (place_end T)|reflexivity].
Qed.
End CrlfErr.
