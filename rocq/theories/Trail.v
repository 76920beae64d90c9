(* White space behind a text that ends with a newline: what is read stays the same, but for white
   space at the end of the last string. *)
From Coq Require Import String.
From Coq Require Import List NArith Bool Arith Lia.
From Verif Require Import Bytes Utf8 Data Parser Scan Shown Plain White Valid Lexed Grammar Means Printed Fails Places MeansComplete PrintedComplete.
Import ListNotations.
Local Open Scope N_scope.

(* The same data, but for white space at the end of the last string. *)
Inductive tail : datum -> datum -> Prop :=
| ta_same d : tail d d
| ta_str t x y : Forall white x -> Forall white y -> tail (DStr (t ++ x)) (DStr (t ++ y))
| ta_seq l d d' : tail d d' -> tail (DSeq (l ++ [d])) (DSeq (l ++ [d']))
| ta_map l s d d' : tail d d' -> tail (DMap (l ++ [(s, d)])) (DMap (l ++ [(s, d')])).

Section Trail.
Variables T W : bytes.
Hypothesis NL : exists u, T = u ++ [NEWLINE].
Hypothesis WH : Forall white W.
Local Notation T2 := (T ++ W).
Local Notation len := (length T).
Local Notation len2 := (length (T ++ W)).
Local Notation at_ i := (nth i T 0).
Local Notation at2 i := (nth i (T ++ W) 0).
Definition en (i : nat) : nat := if (i =? len)%nat then len2 else i.

Lemma le2 : (len <= len2)%nat.
Proof. rewrite app_length. lia. Qed.
Lemma en_lt i : (i < len)%nat -> en i = i.
Proof. intros L. unfold en. now rewrite (proj2 (Nat.eqb_neq _ _)) by lia. Qed.
Lemma en_len : en len = len2.
Proof. unfold en. now rewrite Nat.eqb_refl. Qed.
Lemma en_le i : (i <= len)%nat -> (i <= en i <= len2)%nat.
Proof. pose proof le2. intros L. unfold en. destruct (Nat.eqb_spec i len); lia. Qed.
Lemma at_lt i : (i < len)%nat -> at2 i = at_ i.
Proof. intros L. now apply app_nth1. Qed.
Lemma at_white i : (len <= i < len2)%nat -> white (at2 i).
Proof. intros (L & L2). rewrite app_nth2 by lia. rewrite Forall_forall in WH. apply WH, nth_In. rewrite app_length in L2. lia. Qed.
Lemma at_over i : (len <= i)%nat -> at_ i = 0.
Proof. intros L. now apply nth_overflow. Qed.
Lemma at_over2 i : (len2 <= i)%nat -> at2 i = 0.
Proof. intros L. now apply nth_overflow. Qed.
Lemma at_en i : (i <= len)%nat -> at2 (en i) = at_ i.
Proof. intros L. unfold en. destruct (Nat.eqb_spec i len) as [->|N]; [now rewrite at_over, at_over2 by lia|apply at_lt; lia]. Qed.
Lemma in_lt i : at_ i <> 0 -> (i < len)%nat.
Proof. intros N. destruct (Nat.lt_ge_cases i len) as [L|L]; [exact L|]. now rewrite at_over in N. Qed.
Lemma last_byte : (0 < len)%nat /\ at_ (len - 1) = NEWLINE.
Proof. destruct NL as (u & ->). rewrite app_length. cbn [length]. split; [lia|]. rewrite app_nth2 by lia. now replace (length u + 1 - 1 - length u)%nat with 0%nat by lia. Qed.
Lemma next_lt i : at_ i <> 0 -> at_ i <> NEWLINE -> (S i < len)%nat.
Proof. intros N M. apply in_lt in N. destruct last_byte as (L & B). destruct (Nat.eq_dec i (len - 1)) as [->|]; [contradiction|lia]. Qed.
Lemma next_at i c : at_ i = c -> c <> 0 -> c <> NEWLINE -> (S i < len)%nat.
Proof. intros <-. apply next_lt. Qed.
Lemma sl_lt i j : (j <= len)%nat -> slice T2 i j = slice T i j.
Proof.
  intros L. pose proof le2. unfold slice. rewrite !(proj2 (Nat.leb_le j _)) by lia. destruct (i <=? j)%nat eqn:E; [|reflexivity]. cbn [andb]. apply Nat.leb_le in E.
  rewrite skipn_app, firstn_app, skipn_length. replace (j - i - (len - i))%nat with 0%nat by lia. cbn [firstn]. now rewrite app_nil_r.
Qed.
Lemma sl_end i : (i <= len)%nat -> slice T2 i len2 = slice T i len ++ W.
Proof.
  intros L. pose proof le2. rewrite <- (seg_app T2 i len len2) by lia. rewrite sl_lt by lia. f_equal. rewrite seg_full by lia. rewrite skipn_app, skipn_all, Nat.sub_diag. reflexivity.
Qed.
Lemma in_end i j : (i < len)%nat -> (len <= j <= len2)%nat -> In NEWLINE (slice T2 i j).
Proof.
  intros L J. destruct last_byte as (_ & B). rewrite <- (seg_app T2 i len j), sl_lt by lia. apply in_app_iff. left. rewrite <- (seg_app T i (len - 1) len) by lia. apply in_app_iff. right.
  destruct (seg_one T (len - 1) NEWLINE B ltac:(discriminate)) as (_ & E). replace (S (len - 1)) with len in E by lia. rewrite E. now left.
Qed.
Lemma in_end1 i : (i < len)%nat -> In NEWLINE (slice T i len).
Proof. intros L. rewrite <- sl_lt by lia. apply in_end; [exact L|]. pose proof le2. lia. Qed.
Lemma col_lt i : (i <= len)%nat -> column T2 i = column T i.
Proof. intros L. unfold column. rewrite firstn_app. replace (i - len)%nat with 0%nat by lia. cbn [firstn]. now rewrite app_nil_r. Qed.

Lemma line_in i k : (i < len)%nat -> line_to T i k -> (k < len)%nat /\ line_to T2 i k.
Proof.
  intros L (LE & N & E). pose proof le2. destruct (Nat.eq_dec k len) as [->|NE]; [now apply in_end1 in L|]. split; [lia|]. split; [lia|]. rewrite sl_lt by lia. split; [exact N|].
  right. rewrite at_lt by lia. destruct E; [lia|assumption].
Qed.
Lemma line_back i k : (i < len)%nat -> line_to T2 i k -> (k < len)%nat /\ line_to T i k.
Proof.
  intros L (LE & N & E). pose proof le2. destruct (Nat.lt_ge_cases k len) as [K|K]; [|exfalso; apply N, in_end; lia]. split; [exact K|]. split; [lia|]. rewrite sl_lt in N by lia. split; [exact N|].
  right. rewrite at_lt in E by lia. destruct E; [lia|assumption].
Qed.
Lemma line_end : line_to T2 len2 len2.
Proof. split; [lia|]. rewrite seg_nil. cbn. auto. Qed.
Lemma gap_end2 i : (len <= i <= len2)%nat -> gap_to T2 i len2.
Proof.
  intros L. remember (len2 - i)%nat as n eqn:E. revert i L E. induction n as [|n IH]; intros i L E.
  - replace i with len2 by lia. apply ga_none; [lia|rewrite at_over2 by lia; cbn; intuition discriminate|rewrite at_over2 by lia; discriminate].
  - apply ga_white; [apply at_white; lia|]. apply IH; lia.
Qed.
Lemma gap_en i j : gap_to T i j -> gap_to T2 i (en j).
Proof.
  induction 1 as [i L Wh H|i j Wh G IH|i k j H L G IH].
  - destruct (Nat.eq_dec i len) as [->|N]; [rewrite en_len; apply gap_end2; pose proof le2; lia|]. rewrite en_lt by lia. apply ga_none; [pose proof le2; lia|now rewrite at_lt by lia|now rewrite at_lt by lia].
  - apply ga_white; [|exact IH]. rewrite at_lt; [exact Wh|]. apply in_lt. intros E. rewrite E in Wh. cbn in Wh. intuition discriminate.
  - assert (IL : (i < len)%nat) by (apply in_lt; rewrite H; discriminate). apply (ga_comment _ _ k); [now rewrite at_lt|now apply line_in|exact IH].
Qed.
Lemma gap_from i j : gap_to T i j -> gap_to T2 (en i) (en j).
Proof.
  intros G. pose proof (gap_le T _ _ G). destruct (Nat.eq_dec i len) as [->|N]; [|rewrite (en_lt i) by lia; now apply gap_en].
  replace j with len by lia. rewrite en_len. apply gap_end2. pose proof le2. lia.
Qed.
Lemma gap_here i : (i < len)%nat -> ~ white (at_ i) -> at_ i <> HASH -> gap_to T i i.
Proof. intros L. apply ga_none. lia. Qed.
(* j is not before layout up to the end *)
Definition inner (j : nat) : Prop := exists m, gap_to T j m /\ (m < len)%nat.
Lemma inner_lt j : inner j -> (j < len)%nat.
Proof. intros (m & G & L). pose proof (gap_le T _ _ G). lia. Qed.
Lemma inner_gap j n : inner j -> gap_to T j n -> (n < len)%nat.
Proof. intros (m & G & L) G'. now rewrite (gap_det T _ _ G' _ G). Qed.

Lemma dq_more y v : dq_shown y v -> dq_shown (y ++ W) (v ++ W).
Proof.
  induction 1 as [|c y v N Z H IH|e x y v E H IH|y v H IH].
  - cbn [app]. clear - WH. induction WH as [|c w C F IH]; [apply ds_nil|]. apply ds_byte; [| |now apply IH]; cbn in *; intuition (subst; discriminate).
  - cbn [app]. now apply ds_byte.
  - rewrite <- !app_assoc. now apply ds_esc.
  - rewrite <- !app_assoc. now apply ds_slash.
Qed.
Lemma ends_not i j z c : (i <= j <= len)%nat -> slice T i j = z ++ [c] -> c <> NEWLINE -> (j < len)%nat.
Proof.
  intros L E N. destruct (Nat.eq_dec j len) as [->|]; [|lia]. exfalso. destruct last_byte as (L0 & B). destruct (Nat.eq_dec i len) as [->|NE]; [rewrite seg_nil in E; now destruct z|].
  rewrite <- (seg_app T i (len - 1) len) in E by lia. destruct (seg_one T (len - 1) NEWLINE B ltac:(discriminate)) as (_ & E1). replace (S (len - 1)) with len in E1 by lia. rewrite E1 in E. apply app_inj_tail in E as (_ & E). congruence.
Qed.
Lemma quote_en i s j : quote_at T i s j -> (i < len)%nat /\ (((j < len)%nat /\ quote_at T2 i s j) \/ (j = len /\ quote_at T2 i (s ++ W) len2)).
Proof.
  pose proof le2 as LE2. intros [y L E C N|y e L E C D].
  - assert (JL : (j < len)%nat) by (apply (ends_not i j (b "'" ++ y) SQUOTE L); [now rewrite E, <- !app_assoc|discriminate]).
    assert (IL : (i < j)%nat) by (destruct (Nat.eq_dec i j) as [->|]; [rewrite seg_nil in E; discriminate|lia]). split; [lia|]. left. split; [exact JL|].
    apply (qa_single _ _ _ _ y); [lia|now rewrite sl_lt by lia|exact C|now rewrite at_lt].
  - assert (IL : (i < j)%nat) by (destruct (Nat.eq_dec i j) as [->|]; [rewrite seg_nil in E; discriminate|lia]). split; [lia|]. destruct D as [D|[D|(D & J)]].
    + left. assert (JL : (j < len)%nat) by (apply (ends_not i j (b """" ++ y) DQUOTE L); [now rewrite E, D, <- !app_assoc|discriminate]). split; [exact JL|].
      apply (qa_double _ _ _ _ y e); [lia|now rewrite sl_lt by lia|exact C|auto].
    + left. assert (JL : (j < len)%nat) by (apply (ends_not i j (b """" ++ y) 0 L); [now rewrite E, D, <- !app_assoc|discriminate]). split; [exact JL|].
      apply (qa_double _ _ _ _ y e); [lia|now rewrite sl_lt by lia|exact C|auto].
    + right. split; [exact J|]. apply (qa_double _ _ _ _ (y ++ W) []); [lia| |now apply dq_more|auto]. rewrite sl_end by lia. rewrite <- J, E, D, !app_nil_r. now rewrite <- app_assoc.
Qed.
Lemma number_no_nl x h : number_text x h -> ~ In NEWLINE x.
Proof. intros N I. destruct (number_bytes x h N _ I) as [D|D]; [unfold digit in D; cbn in D; unfold NEWLINE in D; lia|cbn in D; intuition discriminate]. Qed.
Lemma number_some x h : number_text x h -> x <> [].
Proof. intros N E. destruct (number_hd x h N) as (c & r & -> & _). discriminate. Qed.
Lemma number_en flow i h j : number_at T flow i h j -> (j < len)%nat /\ number_at T2 flow i h j.
Proof.
  intros (L & N & M & E). pose proof le2. assert (IJ : (i < j)%nat) by (destruct (Nat.eq_dec i j) as [->|]; [rewrite seg_nil in N; now apply number_some in N|lia]).
  assert (JL : (j < len)%nat) by (destruct (Nat.eq_dec j len) as [->|]; [|lia]; exfalso; apply (number_no_nl _ _ N), in_end1; lia). split; [exact JL|].
  split; [lia|]. rewrite sl_lt by lia. split; [exact N|]. split.
  - intros k h' K X. destruct (Nat.lt_ge_cases len k) as [Q|Q]; [apply (number_no_nl _ _ X), in_end; lia|]. rewrite sl_lt in X by lia. apply (M k h'); [lia|exact X].
  - intros F. destruct (E F) as (k & LK & B). destruct (line_in j k JL LK) as (KL & LK2). exists k. rewrite sl_lt by lia. auto.
Qed.
Lemma number_back flow i h j : (i < len)%nat -> number_at T2 flow i h j -> number_at T flow i h j.
Proof.
  intros IL (L & N & M & E). pose proof le2. assert (JL : (j < len)%nat) by (destruct (Nat.lt_ge_cases j len) as [Q|Q]; [exact Q|]; exfalso; apply (number_no_nl _ _ N), in_end; lia).
  split; [lia|]. rewrite sl_lt in N by lia. split; [exact N|]. split.
  - intros k h' K X. apply (M k h'); [lia|]. now rewrite sl_lt by lia.
  - intros F. destruct (E F) as (k & LK & B). destruct (line_back j k JL LK) as (KL & LK2). exists k. rewrite sl_lt in B by lia. auto.
Qed.
Lemma white_next i : at_ i = DASH -> white (at2 (S i)) <-> white (at_ (S i)).
Proof. intros A. rewrite at_lt; [reflexivity|]. apply (next_at i DASH A); discriminate. Qed.
Lemma no_word_en flow i : (i <= len)%nat -> no_word T2 flow (en i) <-> no_word T flow i.
Proof.
  intros L. unfold no_word. rewrite at_en by exact L. split; (intros [X|(F & A & Wh)]; [now left|right]); split; auto; split; auto.
  - rewrite en_lt in Wh by (apply in_lt; rewrite A; discriminate). now apply white_next in Wh.
  - rewrite en_lt by (apply in_lt; rewrite A; discriminate). now apply white_next.
Qed.
Lemma no_number_en flow i : (i <= len)%nat -> (forall h k, ~ number_at T flow i h k) -> forall h k, ~ number_at T2 flow (en i) h k.
Proof.
  intros L N h k X. destruct (Nat.eq_dec i len) as [->|NE]; [|rewrite en_lt in X by lia; apply number_back in X; [now apply N in X|lia]].
  rewrite en_len in X. destruct X as (LK & X & _). replace k with len2 in X by lia. rewrite seg_nil in X. now apply number_some in X.
Qed.
Lemma ends_en k : at_ k = COLON -> ends_key T2 (S k) <-> ends_key T (S k).
Proof. intros A. unfold ends_key. rewrite at_lt; [reflexivity|]. apply (next_at k COLON A); discriminate. Qed.
Lemma colons_en i j : (j <= len)%nat -> (forall k, (i <= k < j)%nat -> at_ k = COLON -> ~ ends_key T (S k)) -> forall k, (i <= k < j)%nat -> at2 k = COLON -> ~ ends_key T2 (S k).
Proof. intros L H k K E. rewrite at_lt in E by lia. rewrite ends_en by exact E. now apply H. Qed.
Lemma plain_nl x d : plain_datum x d -> In NEWLINE x -> d = DStr x.
Proof.
  assert (S : forall x kw, spelled x kw -> In NEWLINE x -> In NEWLINE kw \/ In (NEWLINE + 32) kw).
  { induction 1 as [|a c x0 kw [E|E] F IH]; cbn [In]; [tauto| |]; intros [->|I]; subst; auto; destruct (IH I); auto. }
  intros [|y Y|y Y|y Y|y h Y|y]; intros I; try reflexivity; try (apply S in Y; [|exact I]; cbn in Y; intuition discriminate).
  - cbn in I. intuition discriminate.
  - now apply number_no_nl in Y.
Qed.
Lemma plain_more x : In NEWLINE x -> plain_datum x (DStr x).
Proof.
  assert (S : forall x kw, spelled x kw -> In NEWLINE x -> In NEWLINE kw \/ In (NEWLINE + 32) kw).
  { induction 1 as [|a c x0 kw [E|E] F IH]; cbn [In]; [tauto| |]; intros [->|I]; subst; auto; destruct (IH I); auto. }
  intros I. apply pd_str; [intros ->|intros Y|intros Y|intros Y|intros h Y; now apply number_no_nl in Y]; try (apply S in Y; [|exact I]; cbn in Y; intuition discriminate). cbn in I. intuition discriminate.
Qed.
Lemma word_en flow i j d : (i <= len)%nat -> word_to T flow i j -> plain_datum (slice T i j) d ->
  word_to T2 flow (en i) (en j) /\ exists d', plain_datum (slice T2 (en i) (en j)) d' /\ tail d d' /\ (inner j -> d' = d).
Proof.
  intros L Wd P. pose proof le2 as LE2. destruct (Nat.eq_dec i len) as [->|NE].
  - assert (j = len) as ->. { destruct flow; unfold word_to in Wd; [lia|]. destruct Wd as ((X & _) & _). lia. }
    rewrite en_len, seg_nil. rewrite seg_nil in P. split; [|exists d; split; [exact P|split; [apply ta_same|reflexivity]]].
    destruct flow; [|split; [apply line_end|intros; lia]]. split; [lia|]. rewrite seg_nil, at_over2 by lia. split; [intros c []|now left].
  - rewrite (en_lt i) by lia. destruct flow.
    + destruct Wd as (LJ & N & E). destruct (Nat.eq_dec j len) as [->|NJ].
      * assert (IN : In NEWLINE (slice T i len)) by (apply in_end1; lia). rewrite en_len, sl_end by lia. split; [split; [lia|]|].
        -- rewrite sl_end, at_over2 by lia. split; [|now left]. intros c I. apply in_app_iff in I as [I|I]; [now apply N|]. rewrite Forall_forall in WH. apply WH in I. cbn in *. intuition (subst; discriminate).
        -- rewrite (plain_nl _ _ P IN). exists (DStr (slice T i len ++ W)). split; [apply plain_more, in_app_iff; now left|]. split; [|intros X; apply inner_lt in X; lia].
           pattern (slice T i len) at 1. rewrite <- (app_nil_r (slice T i len)). apply ta_str; auto.
      * rewrite (en_lt j), sl_lt by lia. split; [split; [lia|]; rewrite sl_lt, at_lt by lia; auto|]. exists d. split; [exact P|split; [apply ta_same|reflexivity]].
    + destruct Wd as (LJ & N). destruct (line_in i j) as (JL & L2); [lia|exact LJ|]. rewrite (en_lt j), sl_lt by lia. split; [split; [exact L2|]; apply colons_en; [lia|exact N]|].
      exists d. split; [exact P|split; [apply ta_same|reflexivity]].
Qed.

(* the same bytes, but for white space at the end *)
Definition ends (v v' : bytes) : Prop := exists t x y, v = t ++ x /\ v' = t ++ y /\ Forall white x /\ Forall white y.
Lemma ends_same v : ends v v.
Proof. exists v, [], []. rewrite app_nil_r. auto. Qed.
Lemma ends_app u v v' : ends v v' -> ends (u ++ v) (u ++ v').
Proof. intros (t & x & y & -> & -> & X & Y). exists (u ++ t), x, y. rewrite <- !app_assoc. auto. Qed.
Lemma ends_more v v' z z' : ends v v' -> Forall white z -> Forall white z' -> ends (v ++ z) (v' ++ z').
Proof. intros (t & x & y & -> & -> & X & Y) Z Z'. exists t, (x ++ z), (y ++ z'). rewrite <- !app_assoc, !Forall_app. auto. Qed.
Lemma newlines_white n : Forall white (repeat NEWLINE n).
Proof. apply Forall_forall. intros c I. apply repeat_spec in I as ->. cbn. auto. Qed.
Lemma joined_white folded w : Forall white (joined folded w).
Proof. unfold joined. destruct folded; [apply Forall_cons; [cbn; auto 8|apply Forall_nil]|apply newlines_white]. Qed.
Lemma lines_gap folded c n v e m : lines_at T folded c n v e m -> (e < len)%nat /\ gap_to T e m.
Proof. induction 1 as [n l t m L K U G C|n l t L K U G C|n l t n' v e m L K U G L' C H IH]; [|split; [|exact G]; now apply (line_in n l)|exact IH]. split; [|exact G]. now apply (line_in n l). Qed.
Lemma lines_en folded c n v e m : lines_at T folded c n v e m -> exists v', lines_at T2 folded c n v' e (en m) /\ ((m < len)%nat -> v' = v) /\ ends v v'.
Proof.
  pose proof le2 as LE2. induction 1 as [n l t m L K U G C|n l t L K U G C|n l t n' v e m L K U G L' C H IH].
  - destruct (line_in n l L K) as (LL & K2). pose proof (gap_le T _ _ G) as GL. pose proof (gap_en l m G) as G2. assert (U2 : trimmed (slice T2 n l) t) by (now rewrite sl_lt by lia).
    destruct (Nat.lt_ge_cases (column T2 (en m)) c) as [CC|CC].
    + exists t. split; [apply la_last; auto; lia|]. split; [reflexivity|apply ends_same].
    + destruct (Nat.eq_dec m len) as [->|NM]; [|rewrite en_lt, col_lt in CC by lia; lia]. rewrite en_len in *. exists (t ++ joined folded (slice T2 l len2)). split; [apply la_end; auto; lia|]. split; [lia|].
      exists t, [], (joined folded (slice T2 l len2)). rewrite app_nil_r. repeat split; auto. apply joined_white.
  - destruct (line_in n l L K) as (LL & K2). pose proof (gap_en l len G) as G2. rewrite en_len in *. assert (U2 : trimmed (slice T2 n l) t) by (now rewrite sl_lt by lia).
    destruct (Nat.lt_ge_cases (column T2 len2) c) as [CC|CC].
    + exists t. split; [apply la_last; auto; lia|]. split; [lia|]. exists t, (joined folded (slice T l len)), []. rewrite app_nil_r. repeat split; auto. apply joined_white.
    + exists (t ++ joined folded (slice T2 l len2)). split; [apply la_end; auto; lia|]. split; [lia|]. apply ends_app. exists [], (joined folded (slice T l len)), (joined folded (slice T2 l len2)). repeat split; apply joined_white.
  - destruct (line_in n l L K) as (LL & K2). pose proof (gap_en l n' G) as G2. rewrite en_lt in G2 by exact L'. destruct IH as (v' & IH & S & E). pose proof (gap_le T _ _ G) as GL.
    exists (t ++ joined folded (slice T2 l n') ++ v'). split; [apply (la_more _ _ _ _ _ _ n'); auto; [lia|now rewrite sl_lt by lia|lia|now rewrite col_lt by lia]|].
    rewrite sl_lt by lia. split; [intros M; now rewrite S|]. now apply ends_app, ends_app.
Qed.
(* Layout w before n and layout v before the image of n start at the same place. *)
Definition back (w v : bytes) (n : nat) : Prop := (en n - length v)%nat = en (n - length w) /\ ((n < len)%nat -> length v = length w).
Lemma part_len s a n : (a <= n <= length s)%nat -> length (slice s a n) = (n - a)%nat.
Proof. intros L. unfold slice. rewrite (proj2 (Nat.leb_le a n)), (proj2 (Nat.leb_le n (length s))) by lia. cbn. rewrite firstn_length, skipn_length. lia. Qed.
Lemma back_part a n : gap_to T a n -> back (slice T a n) (slice T2 (en a) (en n)) n.
Proof.
  intros G. pose proof (gap_le T _ _ G) as L. pose proof le2 as LE2. assert (E : (en a <= en n <= len2)%nat) by (unfold en; destruct (Nat.eqb_spec a len), (Nat.eqb_spec n len); lia).
  unfold back. rewrite !part_len by (exact L || exact E). replace (n - (n - a))%nat with a by lia. split; [lia|]. intros N. rewrite !en_lt by lia. reflexivity.
Qed.
Lemma back_end a n : (a < len)%nat -> gap_to T a len -> gap_to T len n -> back (slice T a len) (slice T2 a len2) n.
Proof. intros A G GN. pose proof (gap_le T _ _ GN). replace n with len by lia. pose proof (back_part a len G) as B. now rewrite en_lt, en_len in B by exact A. Qed.
Lemma back_lines folded c n v e m n' : lines_at T folded c n v e m -> gap_to T e n' -> back (slice T e m) (slice T2 e (en m)) n'.
Proof.
  intros L G'. destruct (lines_gap _ _ _ _ _ _ L) as (EL & G). rewrite (gap_det T _ _ G' _ G). pose proof (back_part e m G) as B. now rewrite (en_lt e) in B by exact EL.
Qed.
Lemma body_en folded k v w j : (k < len)%nat -> block_body T folded k v w j -> exists v' w', block_body T2 folded k v' w' (en j) /\ (inner j -> v' = v /\ w' = w) /\ ends v v' /\ forall n, gap_to T j n -> back w w' n.
Proof.
  pose proof le2 as LE2. intros KL B.
  assert (HD : (exists n, gap_to T k n /\ ~ In NEWLINE (slice T k n)) -> exists n', gap_to T2 k n' /\ ~ In NEWLINE (slice T2 k n')).
  { intros (n & G & N). pose proof (gap_le T _ _ G). destruct (Nat.eq_dec n len) as [->|NE]; [now apply in_end1 in KL|]. exists n. rewrite sl_lt by lia. split; [|exact N]. rewrite <- (en_lt n) by lia. now apply gap_en. }
  assert (LS : forall n v e m, lines_at T folded (column T n) n v e m -> (n < len)%nat -> exists v', lines_at T2 folded (column T2 n) n v' e (en m) /\ en e = e /\ (inner e -> v' = v /\ slice T2 e (en m) = slice T e m) /\ ends v v').
  { intros n v0 e m L NL'. destruct (lines_en _ _ _ _ _ _ L) as (v' & L2 & S & E). destruct (lines_gap _ _ _ _ _ _ L) as (EL & G). exists v'. rewrite col_lt by lia. split; [exact L2|]. split; [now apply en_lt|]. split; [|exact E].
    intros I. pose proof (inner_gap e m I G) as ML. split; [now apply S|]. rewrite en_lt, sl_lt by lia. reflexivity. }
  destruct B as [G I|n v e m G I L B|l t H L U G|l t n v e m H L U G LN' B].
  - pose proof (gap_en k len G) as G2. rewrite en_len in *. exists [], (slice T2 k len2). split; [apply bb_empty; [exact G2|apply in_end; lia]|]. split; [|split; [apply ends_same|intros n GN; now apply back_end]]. intros X. apply inner_lt in X. lia.
  - destruct (LS n v e m B L) as (v' & B2 & EE & S & E). rewrite EE. pose proof (gap_en k n G) as G2. rewrite en_lt in G2 by lia. exists v', (slice T2 e (en m)). split; [|split; [exact S|split; [exact E|intros n' GN; exact (back_lines _ _ _ _ _ _ _ B GN)]]].
    apply (bb_lines _ _ _ n); auto; [now rewrite sl_lt by lia|lia].
  - destruct (line_in k l KL L) as (LL & L2). pose proof (gap_en l len G) as G2. rewrite en_len in *. exists t, (slice T2 l len2). split; [apply (bb_head _ _ _ l); auto; now rewrite sl_lt by lia|]. split; [|split; [apply ends_same|intros n GN; now apply back_end]]. intros X. apply inner_lt in X. lia.
  - destruct (line_in k l KL L) as (LL & L2). destruct (LS n v e m B LN') as (v' & B2 & EE & S & E). rewrite EE. pose proof (gap_en l n G) as G2. rewrite en_lt in G2 by lia.
    exists (t ++ (if folded then b " " else [NEWLINE]) ++ v'), (slice T2 e (en m)). split; [apply (bb_more _ _ _ l t n); auto; [now rewrite sl_lt by lia|lia]|]. split; [|split; [now apply ends_app, ends_app|intros n' GN; exact (back_lines _ _ _ _ _ _ _ B GN)]].
    intros I. destruct (S I) as (-> & ->). auto.
Qed.
Lemma block_en i s j : block_at T i s j -> (i < len)%nat /\ exists s', block_at T2 i s' (en j) /\ (inner j -> s' = s) /\ ends s s'.
Proof.
  intros B. assert (P : forall folded : bool, at_ i = (if folded then GT else PIPE) -> (S i < len)%nat) by (intros [] A; apply (next_at i _ A); discriminate).
  destruct B as [folded v w A N B E|folded v w A N B E|folded v w A N B E]; pose proof (P folded A) as SL; (split; [lia|]).
  - destruct (body_en folded (1 + i) v w j) as (v' & w' & B2 & S & X & _); [lia|exact B|]. exists (v' ++ newlines_in w'). subst s. split; [|split; [intros I; now destruct (S I) as (-> & ->)|apply ends_more; [exact X|apply newlines_white|apply newlines_white]]].
    apply (bl_plain _ _ _ _ folded v' w'); rewrite ?at_lt by lia; auto.
  - assert (SS : (S (S i) < len)%nat) by (apply (next_at (S i) _ N); discriminate).
    destruct (body_en folded (2 + i) v w j) as (v' & w' & B2 & S & X & _); [lia|exact B|]. exists (v' ++ newlines_in w'). subst s. split; [|split; [intros I; now destruct (S I) as (-> & ->)|apply ends_more; [exact X|apply newlines_white|apply newlines_white]]].
    apply (bl_keep _ _ _ _ folded v' w'); rewrite ?at_lt by lia; auto.
  - assert (SS : (S (S i) < len)%nat) by (apply (next_at (S i) _ N); discriminate).
    destruct (body_en folded (2 + i) v w j) as (v' & w' & B2 & S & X & _); [lia|exact B|]. exists v'. subst s. split; [|split; [intros I; now destruct (S I) as (-> & _)|exact X]].
    apply (bl_strip _ _ _ _ folded v' w'); rewrite ?at_lt by lia; auto.
Qed.
Lemma ends_tail s s' : ends s s' -> tail (DStr s) (DStr s').
Proof. intros (t & x & y & -> & -> & X & Y). now apply ta_str. Qed.
Lemma key_en i s k : key_at T i s k -> (i <= k < len)%nat /\ key_at T2 i s k.
Proof.
  intros [Q A|NW L N A E M ->].
  - destruct (quote_en i s k Q) as (IL & [(KL & Q2)|(-> & _)]); [|rewrite at_over in A by lia; discriminate]. split; [destruct Q; lia|]. apply ka_quoted; [exact Q2|now rewrite at_lt].
  - split; [lia|]. pose proof le2. apply ka_plain; rewrite ?sl_lt, ?at_lt by lia; auto; try lia.
    + rewrite <- (en_lt i) by lia. rewrite no_word_en by lia. exact NW.
    + now apply ends_en.
    + apply colons_en; [lia|exact M].
Qed.
Lemma later_en i s k : later_key_at T i s k -> (i < k < len)%nat /\ later_key_at T2 i s k.
Proof. unfold later_key_at. intros (L & E & H). pose proof le2. split; [lia|]. rewrite sl_lt, at_lt by lia. split; [lia|auto]. Qed.
Lemma flow_key_en i s k : flow_key_at T i s k -> (i <= k < len)%nat /\ flow_key_at T2 i s k.
Proof. unfold flow_key_at. intros (L & E & H). pose proof le2. split; [lia|]. rewrite sl_lt, at_lt by lia. split; [lia|auto]. Qed.
Definition tails {X} (rel : X -> X -> Prop) (l l' : list X) : Prop := l = l' \/ exists u x x', l = u ++ [x] /\ l' = u ++ [x'] /\ rel x x'.
Lemma tails_cons {X} (rel : X -> X -> Prop) a l l' : tails rel l l' -> tails rel (a :: l) (a :: l').
Proof. intros [->|(u & x & x' & -> & -> & R)]; [now left|]. right. exists (a :: u), x, x'. auto. Qed.
Definition ptail (p p' : bytes * datum) : Prop := fst p = fst p' /\ tail (snd p) (snd p').
Lemma tails_seq l l' : tails tail l l' -> tail (DSeq l) (DSeq l').
Proof. intros [->|(u & x & x' & -> & -> & R)]; [apply ta_same|now apply ta_seq]. Qed.
Lemma tails_map l l' : tails ptail l l' -> tail (DMap l) (DMap l').
Proof. intros [->|(u & [s x] & [s' x'] & -> & -> & (E & R))]; [apply ta_same|]. cbn in *. subst. now apply ta_map. Qed.

Lemma col_en n c d : (n <= len)%nat -> column T n <> c \/ at_ n <> d -> d <> 0 -> column T2 (en n) <> c \/ at2 (en n) <> d.
Proof. intros L H D. destruct (Nat.eq_dec n len) as [->|NE]; [right; rewrite at_en, at_over by lia; congruence|]. rewrite en_lt, col_lt, at_lt by lia. exact H. Qed.
Lemma col_en2 n c : (n <= len)%nat -> column T n <> c \/ In (at_ n) [COLON; 0] -> column T2 (en n) <> c \/ In (at2 (en n)) [COLON; 0].
Proof. intros L H. destruct (Nat.eq_dec n len) as [->|NE]; [right; rewrite at_en, at_over by lia; cbn; auto|]. rewrite en_lt, col_lt, at_lt by lia. exact H. Qed.
Lemma means_trail :
  (forall flow outer i d j, means T flow outer i d j -> exists d', means T2 flow outer (en i) d' (en j) /\ tail d d' /\ (inner j -> d' = d)) /\
  (forall outer i d j, behind T outer i d j -> exists d', behind T2 outer i d' (en j) /\ tail d d' /\ (inner j -> d' = d)) /\
  (forall c i l j, dashes_at T c i l j -> exists l', dashes_at T2 c i l' (en j) /\ tails tail l l' /\ (inner j -> l' = l)) /\
  (forall c s k l j, pairs_at T c s k l j -> exists l', pairs_at T2 c s k l' (en j) /\ tails ptail l l' /\ (inner j -> l' = l)) /\
  (forall i d j skipped, held_at T i d j skipped -> exists d', held_at T2 (en i) d' (en j) skipped /\ (inner j -> d' = d)) /\
  (forall n l j, flow_seq_at T n l j -> (n < len)%nat /\ (j < len)%nat /\ flow_seq_at T2 n l j) /\
  (forall n l j, flow_map_at T n l j -> (n < len)%nat /\ (j < len)%nat /\ flow_map_at T2 n l j) /\
  (forall n s d e, flow_pair_at T n s d e -> (n < len)%nat /\ exists d', flow_pair_at T2 n s d' (en e) /\ ((e < len)%nat -> d' = d)).
Proof.
  pose proof le2 as LE2.
  apply means_all.
  - intros flow outer i s j Q C. destruct (quote_en i s j Q) as (IL & [(JL & Q2)|(-> & Q2)]); rewrite (en_lt i) by exact IL.
    + rewrite en_lt by exact JL. exists (DStr s). split; [apply me_quote; [exact Q2|now rewrite at_lt]|]. split; [apply ta_same|reflexivity].
    + rewrite en_len. exists (DStr (s ++ W)). split; [apply me_quote; [exact Q2|right; rewrite at_over2 by lia; discriminate]|]. split; [|intros X; apply inner_lt in X; lia].
      apply ends_tail. exists s, [], W. rewrite app_nil_r. auto.
  - intros flow outer i h j N. destruct (number_en flow i h j N) as (JL & N2). assert (IL : (i <= j)%nat) by apply N. rewrite !en_lt by lia. exists (DNum (slice T i j) h). split; [|split; [apply ta_same|reflexivity]].
    rewrite <- sl_lt by lia. now apply me_number.
  - intros flow outer i d j NW NN Wd P. assert (IL : (i <= len)%nat) by (destruct flow; unfold word_to in Wd; [lia|destruct Wd as ((X & _) & _); lia]).
    destruct (word_en flow i j d IL Wd P) as (W2 & d' & P2 & TL & I). exists d'. split; [|auto]. apply me_word; auto; [now rewrite no_word_en|now apply no_number_en].
  - intros outer i s j B. destruct (block_en i s j B) as (IL & s' & B2 & I & E). rewrite (en_lt i) by exact IL. exists (DStr s'). split; [now apply me_block|]. split; [now apply ends_tail|]. intros X. now rewrite I.
  - intros outer i l j A Wh _ (l' & H & TL & I). assert (SL : (S i < len)%nat) by (apply (next_at i _ A); discriminate). rewrite (en_lt i) by lia. exists (DSeq l'). split; [apply me_seq; rewrite ?at_lt, ?col_lt by lia; auto|]. split; [now apply tails_seq|]. intros X. now rewrite I.
  - intros outer i s k l j K U _ (l' & H & TL & I). destruct (key_en i s k K) as (IL & K2). rewrite (en_lt i) by lia. exists (DMap l'). split; [apply (me_map _ _ _ s k); rewrite ?col_lt by lia; auto|]. split; [now apply tails_map|]. intros X. now rewrite I.
  - intros flow outer i n l j A G _ (NN & JL & H). assert (SL : (S i < len)%nat) by (apply (next_at i _ A); discriminate). pose proof (gap_en _ _ G) as G2. rewrite en_lt in G2 by exact NN. rewrite (en_lt i), (en_lt j) by lia. exists (DSeq l).
    split; [|split; [apply ta_same|reflexivity]]. apply (me_flow_seq _ _ _ _ n); [now rewrite at_lt by lia|exact G2|exact H].
  - intros flow outer i n l j A G _ (NN & JL & H). assert (SL : (S i < len)%nat) by (apply (next_at i _ A); discriminate). pose proof (gap_en _ _ G) as G2. rewrite en_lt in G2 by exact NN. rewrite (en_lt i), (en_lt j) by lia. exists (DMap l).
    split; [|split; [apply ta_same|reflexivity]]. apply (me_flow_map _ _ _ _ n); [now rewrite at_lt by lia|exact G2|exact H].
  - intros outer i m d j G _ (d' & H & TL & I). exists d'. split; [|auto]. apply (be_value _ _ _ (en m)); [now apply gap_en|exact H].
  - intros o i m s k G K LE. destruct (key_en m s k K) as (ML & K2). pose proof (gap_le T _ _ G) as GL. pose proof (gap_en _ _ G) as G2. rewrite en_lt in G2 by lia. rewrite (en_lt i) by lia. exists DNull. split; [|split; [apply ta_same|reflexivity]].
    apply (be_none _ _ _ m s k); auto. now rewrite col_lt by lia.
  - intros c i d e n _ (d' & H & TL & I) G C. pose proof (gap_le T _ _ G) as GL. exists [d']. split; [apply (da_last _ _ _ _ _ (en n)); [exact H|now apply gap_from|apply col_en; [lia|exact C|discriminate]]|].
    split; [right; exists [], d, d'; auto|]. intros X. now rewrite I.
  - intros c i d e n l j _ (d' & H & TL & I) G C A _ (l' & H2 & TL2 & I2). assert (NN : (n < len)%nat) by (apply in_lt; rewrite A; discriminate). rewrite I in H by (exists n; auto).
    exists (d :: l'). split; [apply (da_more _ _ _ _ (en e) n); rewrite ?col_lt, ?at_lt by lia; auto; rewrite <- (en_lt n) by exact NN; now apply gap_from|]. split; [now apply tails_cons|]. intros X. now rewrite I2.
  - intros c s k d e n _ (d' & H & TL & I) G C. pose proof (gap_le T _ _ G) as GL. exists [(s, d')]. split; [apply (pa_last _ _ _ _ _ _ (en n)); [exact H|now apply gap_from|apply col_en2; [lia|exact C]]|].
    split; [right; exists [], (s, d), (s, d'); split; [reflexivity|split; [reflexivity|split; [reflexivity|exact TL]]]|]. intros X. now rewrite I.
  - intros c s k d e n s' k' l j _ (d' & H & TL & I) G C K _ (l' & H2 & TL2 & I2). destruct (later_en n s' k' K) as (NN & K2). rewrite I in H by (exists n; split; [exact G|lia]).
    exists ((s, d) :: l'). split; [apply (pa_more _ _ _ _ _ (en e) n s' k'); rewrite ?col_lt by lia; auto; rewrite <- (en_lt n) by lia; now apply gap_from|]. split; [now apply tails_cons|]. intros X. now rewrite I2.
  - intros i d j _ (d' & H & _ & I). exists d'. split; [now apply he_value|exact I].
  - intros i s e n B G. destruct (block_en i s e B) as (IL & s' & B2 & I & _). exists (DStr s'). split; [apply (he_block _ _ _ (en e)); [rewrite en_lt by exact IL; exact B2|now apply gap_from]|].
    intros X. rewrite I; [reflexivity|]. exists n. split; [exact G|now apply inner_lt].
  - intros n A. assert (SL : (S n < len)%nat) by (apply (next_at n _ A); discriminate). split; [lia|]. split; [exact SL|]. apply fq_end. now rewrite at_lt by lia.
  - intros n m d e skipped n' l j N G _ (d' & H & I) A G' _ (NN & JL & H2). assert (NL0 : (n < len)%nat) by (apply in_lt; intros Z; apply N; rewrite Z; cbn; auto). assert (SE : (S e < len)%nat) by (apply (next_at e _ A); discriminate).
    rewrite I in H by (exists e; split; [apply gap_here; [lia|rewrite A; cbn; intuition discriminate|rewrite A; discriminate]|lia]). split; [exact NL0|]. split; [exact JL|].
    rewrite (en_lt e) in H by lia. apply (fq_comma _ n (en m) d e skipped n'); rewrite ?at_lt by lia; auto; [now apply gap_en|]. destruct skipped; [exact G'|]. rewrite <- (en_lt n') by exact NN. now apply gap_en.
  - intros n m d e skipped n' N G _ (d' & H & I) A G' A'. assert (NL0 : (n < len)%nat) by (apply in_lt; intros Z; apply N; rewrite Z; cbn; auto). assert (SE : (S n' < len)%nat) by (apply (next_at n' _ A'); discriminate). pose proof (gap_le T _ _ G') as GL.
    rewrite I in H by (exists n'; split; [exact G'|lia]). split; [exact NL0|]. split; [exact SE|].
    apply (fq_last _ n (en m) d (en e) skipped n'); rewrite ?(at_lt n), ?(at_lt n'), ?at_en by lia; auto; [now apply gap_en|]. rewrite <- (en_lt n') by lia. now apply gap_from.
  - intros n m d e skipped n' d2 e' skipped' n'' N G _ (d' & H & I) A G' N' _ (d2' & H2 & I2) G'' A''. assert (NL0 : (n < len)%nat) by (apply in_lt; intros Z; apply N; rewrite Z; cbn; auto). assert (NL1 : (n' < len)%nat) by (apply in_lt; intros Z; apply N'; rewrite Z; cbn; auto).
    assert (SE : (S n'' < len)%nat) by (apply (next_at n'' _ A''); discriminate). pose proof (gap_le T _ _ G') as GL. pose proof (gap_le T _ _ G'') as GL2.
    rewrite I in H by (exists n'; split; [exact G'|lia]). rewrite I2 in H2 by (exists n''; split; [exact G''|lia]). split; [exact NL0|]. split; [exact SE|]. rewrite (en_lt n') in H2 by lia.
    apply (fq_two _ n (en m) d (en e) skipped n' d2 (en e') skipped' n''); rewrite ?(at_lt n), ?(at_lt n'), ?(at_lt n''), ?at_en by lia; auto; [now apply gap_en|rewrite <- (en_lt n') by lia; now apply gap_from|rewrite <- (en_lt n'') by lia; now apply gap_from].
  - intros n A. assert (SL : (S n < len)%nat) by (apply (next_at n _ A); discriminate). split; [lia|]. split; [exact SL|]. apply fp_end. now rewrite at_lt by lia.
  - intros n d e n' l j s _ (NL0 & d' & H & I) A G' _ (NN & JL & H2). assert (SE : (S e < len)%nat) by (apply (next_at e _ A); discriminate). rewrite I in H by lia. rewrite en_lt in H by lia. split; [exact NL0|]. split; [exact JL|].
    apply (fp_comma _ n d e n'); rewrite ?at_lt by lia; auto. rewrite <- (en_lt n') by exact NN. now apply gap_en.
  - intros n d e s _ (NL0 & d' & H & I) A. assert (SE : (S e < len)%nat) by (apply (next_at e _ A); discriminate). rewrite I in H by lia. rewrite en_lt in H by lia. split; [exact NL0|]. split; [exact SE|]. apply fp_last; rewrite ?at_lt by lia; auto.
  - intros n d e s d2 e' s' _ (NL0 & d' & H & I) A _ (NL1 & d2' & H2 & I2) A'. assert (SE : (S e' < len)%nat) by (apply (next_at e' _ A'); discriminate). rewrite I in H by lia. rewrite I2 in H2 by lia. rewrite en_lt in H, H2 by lia. split; [exact NL0|]. split; [exact SE|].
    apply (fp_two _ n d e s d2 e' s'); rewrite ?at_lt by lia; auto.
  - intros n s k m d e skipped e' N K G _ (d' & H & I) G'. destruct (flow_key_en n s k K) as (NK & K2). assert (NL0 : (n < len)%nat) by lia. split; [exact NL0|]. exists d'. split; [|intros EL; apply I; exists e'; auto].
    apply (fp_pair _ n s k (en m) d' (en e) skipped (en e')); rewrite ?at_lt by lia; auto; [now apply gap_en|now apply gap_from].
Qed.
Lemma header_en i j : header_to T i j -> (i <= len)%nat -> (j <= len)%nat /\ header_to T2 (en i) (en j).
Proof.
  induction 1 as [i A N|i k n j A L G H IH|i j A B C G]; intros IL.
  - split; [exact IL|]. apply hd_none; rewrite at_en by exact IL; [exact A|]. intros (X & Y & Z). apply N. assert (IS : (S i < len)%nat) by (apply (next_at i _ X); discriminate). rewrite en_lt in Y, Z by lia.
    split; [exact X|]. change (1 + i)%nat with (S i) in *. rewrite at_lt in Y by lia. split; [exact Y|]. assert (IS2 : (S (S i) < len)%nat) by (apply (next_at (S i) _ Y); discriminate). change (2 + i)%nat with (S (S i)) in *. now rewrite at_lt in Z by lia.
  - assert (IS : (i < len)%nat) by (apply in_lt; rewrite A; discriminate). destruct (line_in i k IS L) as (KL & L2). destruct (IH (proj2 (gap_le T _ _ G))) as (JL & H2). split; [exact JL|]. rewrite (en_lt i) by lia.
    apply (hd_directive _ i k (en n)); [now rewrite at_lt|exact L2|now apply gap_en|exact H2].
  - assert (IS : (S (2 + i) < len)%nat) by (apply (next_at (2 + i) _ C); discriminate). split; [apply (gap_le T _ _ G)|]. rewrite (en_lt i) by lia. apply hd_marker; rewrite ?at_lt by lia; auto. now apply gap_en.
Qed.
Lemma stands_trail d : stands_for T d -> exists d', stands_for T2 d' /\ tail d d'.
Proof.
  intros (n & i & j & G & H & M & GE). destruct (header_en n i H (proj2 (gap_le T _ _ G))) as (IL & H2). destruct (proj1 means_trail _ _ _ _ _ M) as (d' & M2 & TL & _). exists d'. split; [|exact TL].
  exists (en n), (en i), (en j). split; [now apply gap_en|]. split; [exact H2|]. split; [exact M2|]. rewrite <- en_len. now apply gap_from.
Qed.

(* ---- back ---- *)
Lemma en_inj i j : (i <= len)%nat -> (j <= len)%nat -> en i = en j -> i = j.
Proof. pose proof le2. unfold en. destruct (Nat.eqb_spec i len), (Nat.eqb_spec j len); lia. Qed.
Lemma in_lt2 i : at2 i <> 0 -> ~ white (at2 i) -> (i < len)%nat.
Proof.
  intros N NW. destruct (Nat.lt_ge_cases i len) as [L|L]; [exact L|]. exfalso. destruct (Nat.lt_ge_cases i len2) as [L2|L2]; [apply NW, at_white; lia|]. now rewrite at_over2 in N by exact L2.
Qed.
Lemma in_lt2c i c : at2 i = c -> c <> 0 -> ~ white c -> (i < len)%nat /\ at_ i = c.
Proof. intros <- N NW. pose proof (in_lt2 i N NW) as L. split; [exact L|]. now rewrite at_lt. Qed.
Lemma gap_back0 i j' : (i <= len)%nat -> gap_to T2 i j' -> exists j, (j <= len)%nat /\ j' = en j /\ gap_to T i j.
Proof. intros L G. destruct (gap_ex T i L) as (j & G0). exists j. split; [apply (gap_le T _ _ G0)|]. split; [exact (gap_det T2 _ _ G _ (gap_en i j G0))|exact G0]. Qed.
Lemma gap_back i j' : (i <= len)%nat -> gap_to T2 (en i) j' -> exists j, (j <= len)%nat /\ j' = en j /\ gap_to T i j.
Proof. intros L G. destruct (gap_ex T i L) as (j & G0). exists j. split; [apply (gap_le T _ _ G0)|]. split; [exact (gap_det T2 _ _ G _ (gap_from i j G0))|exact G0]. Qed.
Lemma esc_no_nl e x : yaml_escape e x -> ~ In NEWLINE (b "\" ++ e).
Proof.
  assert (H : forall d v, hex d v -> d <> NEWLINE) by (intros d v [c D|c D|c D] E; unfold digit, NEWLINE in *; lia).
  destruct 1 as [| | | | | | | | |d1 d2 v1 v2 o H1 H2 U|d1 d2 d3 d4 v1 v2 v3 v4 c o H1 H2 H3 H4 E NS U]; try (cbn; intuition discriminate);
    repeat match goal with X : hex _ _ |- _ => apply H in X end; cbn [of_string app In]; cbn; intuition (try discriminate; try congruence).
Qed.
Lemma dq_less y v : dq_shown y v -> forall y0 w, y = y0 ++ w -> (y0 = [] \/ exists u, y0 = u ++ [NEWLINE]) -> exists v0, dq_shown y0 v0.
Proof.
  assert (ST : forall e y1 y0 w, e ++ y1 = y0 ++ w -> ~ In NEWLINE e -> (y0 = [] \/ exists u, y0 = u ++ [NEWLINE]) -> y0 = [] \/ exists z, y0 = e ++ z /\ y1 = z ++ w /\ (z = [] \/ exists u, z = u ++ [NEWLINE])).
  { intros e y1 y0 w E N [->|(u & ->)]; [now left|]. right. apply app_eq_app in E as (l & [(E1 & E2)|(E1 & E2)]).
    - exfalso. apply N. rewrite E1, !in_app_iff. left. right. now left.
    - exists l. split; [exact E1|]. split; [exact E2|]. destruct (exists_last (l := e ++ l)) as (l0 & x & _); [destruct u; rewrite <- E1; discriminate|]. destruct l as [|c l] using rev_ind; [now left|]. right. exists l. rewrite app_assoc in E1. apply app_inj_tail in E1 as (_ & <-). reflexivity. }
  induction 1 as [|c y v N Z H IH|e x y v E H IH|y v H IH]; intros y0 w EQ L.
  - symmetry in EQ. apply app_eq_nil in EQ as (-> & _). exists []. apply ds_nil.
  - destruct y0 as [|c0 y0]; [exists []; apply ds_nil|]. injection EQ as -> ->. destruct (IH y0 w eq_refl) as (v0 & D); [|exists (c0 :: v0); now apply ds_byte].
    destruct L as [L|(u & L)]; [discriminate|]. destruct y0 as [|c y0] using rev_ind; [now left|]. right. exists y0. rewrite app_comm_cons in L. apply app_inj_tail in L as (_ & <-). reflexivity.
  - rewrite app_assoc in EQ. destruct (ST _ _ _ _ EQ (esc_no_nl e x E) L) as [->|(z & -> & E1 & LZ)]; [exists []; apply ds_nil|]. destruct (IH z w E1 LZ) as (v0 & D). exists (x ++ v0). rewrite <- app_assoc. now apply ds_esc.
  - destruct (ST (b "\\") _ _ _ EQ ltac:(cbn; intuition discriminate) L) as [->|(z & -> & E1 & LZ)]; [exists []; apply ds_nil|]. destruct (IH z w E1 LZ) as (v0 & D). exists (b """" ++ v0). now apply ds_slash.
Qed.
Lemma last_of i j z c : (i <= j <= len2)%nat -> slice T2 i j = z ++ [c] -> ~ white c -> (j < len)%nat.
Proof.
  intros L E N. assert (IJ : (i < j)%nat) by (destruct (Nat.eq_dec i j) as [->|]; [rewrite seg_nil in E; now destruct z|lia]).
  rewrite <- (seg_app T2 i (j - 1) j) in E by lia. assert (SE : slice T2 (j - 1) j = [at2 (j - 1)]).
  { rewrite seg_eq by lia. replace (j - (j - 1))%nat with 1%nat by lia. assert (Q : forall (t : bytes) n, (n < length t)%nat -> firstn 1 (skipn n t) = [nth n t 0]) by (intros t; induction t as [|x t IHt]; intros [|n] LN; cbn [length] in LN; try lia; [reflexivity|cbn [skipn nth]; apply IHt; lia]). apply Q. lia. }
  rewrite SE in E. apply app_inj_tail in E as (_ & E). destruct (Nat.lt_ge_cases (j - 1) len) as [K|K]; [|exfalso; apply N; rewrite <- E; apply at_white; lia].
  rewrite at_lt in E by exact K. destruct last_byte as (L0 & B). destruct (Nat.eq_dec (j - 1) (len - 1)) as [Q|]; [|lia]. exfalso. apply N. rewrite <- E, Q, B. cbn. auto.
Qed.
Lemma quote_back i s j' : (i < len)%nat -> quote_at T2 i s j' -> exists s0 j, (j <= len)%nat /\ j' = en j /\ quote_at T i s0 j /\ ((j' < len)%nat -> s0 = s).
Proof.
  intros IL. pose proof le2 as LE2. intros [y L E C N|y e L E C D].
  - assert (JL : (j' < len)%nat) by (apply (last_of i j' (b "'" ++ y) SQUOTE L); [now rewrite E, <- !app_assoc|cbn; intuition discriminate]). exists s, j'. rewrite en_lt by exact JL. split; [lia|]. split; [reflexivity|]. split; [|auto].
    rewrite sl_lt in E by lia. rewrite at_lt in N by lia. apply (qa_single _ _ _ _ y); auto. lia.
  - assert (CL : (j' < len)%nat -> e = b """" \/ e = [0] -> exists s0 j, (j <= len)%nat /\ j' = en j /\ quote_at T i s0 j /\ ((j' < len)%nat -> s0 = s)).
    { intros JL DD. exists s, j'. rewrite en_lt by exact JL. split; [lia|]. split; [reflexivity|]. split; [|auto]. rewrite sl_lt in E by lia. apply (qa_double _ _ _ _ y e); auto; [lia|tauto]. }
    destruct D as [D|[D|(D & J)]].
    + apply CL; [|auto]. apply (last_of i j' (b """" ++ y) DQUOTE L); [now rewrite E, D, <- !app_assoc|cbn; intuition discriminate].
    + apply CL; [|auto]. apply (last_of i j' (b """" ++ y) 0 L); [now rewrite E, D, <- !app_assoc|cbn; intuition discriminate].
    + assert (Q : exists y0, slice T i len = b """" ++ y0 /\ y = y0 ++ W /\ (y0 = [] \/ exists u, y0 = u ++ [NEWLINE])).
      { rewrite J, D, app_nil_r, sl_end in E by lia. destruct last_byte as (L0 & B). assert (SB : slice T i len = slice T i (len - 1) ++ [NEWLINE]).
        { rewrite <- (seg_app T i (len - 1) len) by lia. f_equal. destruct (seg_one T (len - 1) NEWLINE B ltac:(discriminate)) as (_ & E1). now replace (S (len - 1)) with len in E1 by lia. }
        destruct (slice T i len) as [|c y0] eqn:SL; [destruct (slice T i (len - 1)); discriminate|]. change (b """" ++ y) with (DQUOTE :: y) in E. cbn [app] in E. injection E as -> <-. exists y0. split; [reflexivity|]. split; [reflexivity|].
        destruct y0 as [|c y0] using rev_ind; [now left|]. right. exists y0. rewrite app_comm_cons in SB. apply app_inj_tail in SB as (_ & ->). reflexivity. }
      destruct Q as (y0 & E0 & -> & LY). destruct (dq_less _ _ C y0 W eq_refl LY) as (v0 & D0). exists v0, len. rewrite en_len. split; [lia|]. split; [exact J|]. split; [|intros; lia].
      apply (qa_double _ _ _ _ y0 []); [lia|now rewrite E0, app_nil_r|exact D0|auto].
Qed.
Lemma key_back i s k : (i < len)%nat -> key_at T2 i s k -> (i <= k < len)%nat /\ key_at T i s k.
Proof.
  intros IL [Q A|NW L N A E M ->].
  - destruct (in_lt2c k COLON A) as (KL & A0); [discriminate|cbn; intuition discriminate|]. destruct (quote_back i s k IL Q) as (s0 & j & JL & EJ & Q0 & S). rewrite (S KL) in Q0. assert (j = k) as -> by (unfold en in EJ; destruct (Nat.eqb_spec j len); pose proof le2; lia).
    split; [destruct Q0; lia|]. now apply ka_quoted.
  - destruct (in_lt2c k COLON A) as (KL & A0); [discriminate|cbn; intuition discriminate|]. split; [lia|]. rewrite sl_lt in * by lia. apply ka_plain; auto; try lia.
    + rewrite <- (no_word_en false i), en_lt by lia. exact NW.
    + now apply ends_en.
    + intros k' K' A'. rewrite <- ends_en by exact A'. apply M; [exact K'|]. now rewrite at_lt by lia.
Qed.
Lemma later_back i s k : later_key_at T2 i s k -> (i < k < len)%nat /\ later_key_at T i s k.
Proof.
  unfold later_key_at. intros (L & E & N & Z & A). destruct (in_lt2c k COLON A) as (KL & A0); [discriminate|cbn; intuition discriminate|]. rewrite sl_lt in E by lia. split; [lia|]. split; [lia|auto].
Qed.
Lemma flow_key_back i s k : flow_key_at T2 i s k -> (i <= k < len)%nat /\ flow_key_at T i s k.
Proof.
  unfold flow_key_at. intros (L & E & N & Z & A). assert (KL : (k < len)%nat). { destruct (Nat.lt_ge_cases k len) as [Q|Q]; [exact Q|]. pose proof (at_white k ltac:(lia)) as X. cbn in A. destruct A as [A|[A|[]]]; rewrite <- A in X; cbn in X; intuition discriminate. }
  rewrite sl_lt in E by lia. rewrite at_lt in A by lia. split; [lia|]. split; [lia|auto].
Qed.
Lemma word_back flow i j' : (i <= len)%nat -> word_to T2 flow (en i) j' -> exists j, (j <= len)%nat /\ j' = en j /\ word_to T flow i j /\ (forall d', plain_datum (slice T2 (en i) j') d' -> exists d, plain_datum (slice T i j) d).
Proof.
  intros L Wd. pose proof le2 as LE2. destruct (Nat.eq_dec i len) as [->|NE].
  - rewrite en_len in *. assert (j' = len2) as ->. { destruct flow; unfold word_to in Wd; [lia|]. destruct Wd as ((X & _) & _). lia. }
    exists len. rewrite en_len, !seg_nil. split; [lia|]. split; [reflexivity|]. split; [|eauto]. destruct flow; [|split; [split; [lia|]; rewrite seg_nil; cbn; auto|intros; lia]]. split; [lia|]. rewrite seg_nil, at_over by lia. split; [intros c []|now left].
  - rewrite (en_lt i) in * by lia. destruct flow.
    + destruct Wd as (LJ & N & E). destruct (Nat.lt_ge_cases j' len) as [JL|JL].
      * exists j'. rewrite en_lt by exact JL. rewrite sl_lt in * by lia. rewrite at_lt in E by lia. split; [lia|]. split; [reflexivity|]. split; [split; [lia|auto]|eauto].
      * assert (j' = len2) as ->. { destruct (Nat.eq_dec j' len2) as [Q|Q]; [exact Q|]. exfalso. pose proof (at_white j' ltac:(lia)) as X. cbn in E, X. intuition congruence. }
        exists len. rewrite en_len. split; [lia|]. split; [reflexivity|]. rewrite sl_end in N by lia. split; [split; [lia|]; split; [intros c I; apply N, in_app_iff; now left|rewrite at_over by lia; now left]|]. intros d' _. exists (DStr (slice T i len)). apply plain_more, in_end1. lia.
    + destruct Wd as (LJ & N). destruct (line_back i j') as (JL & L2); [lia|exact LJ|]. exists j'. rewrite en_lt, sl_lt by lia. split; [lia|]. split; [reflexivity|]. split; [|eauto]. split; [exact L2|]. intros k K A. rewrite <- ends_en by exact A. apply N; [exact K|]. now rewrite at_lt by lia.
Qed.
Lemma start_back i : (i <= len)%nat -> at2 (en i) <> 0 -> (i < len)%nat /\ en i = i.
Proof. intros L N. rewrite at_en in N by exact L. apply in_lt in N. split; [exact N|now apply en_lt]. Qed.
Definition found (j' : nat) (P : nat -> Prop) : Prop := exists j, (j <= len)%nat /\ j' = en j /\ P j.
Lemma start_c i c : (i <= len)%nat -> at2 (en i) = c -> c <> 0 -> c <> NEWLINE -> (S i < len)%nat /\ at_ i = c /\ en i = i.
Proof. intros L A N M. rewrite at_en in A by exact L. pose proof (next_at i c A N M) as SL. split; [exact SL|]. split; [exact A|]. apply en_lt. lia. Qed.
Lemma not_in i x : (i <= len)%nat -> ~ In (at2 (en i)) [x; 0] -> (i < len)%nat /\ en i = i /\ ~ In (at_ i) [x; 0].
Proof. intros L N. rewrite at_en in N by exact L. assert (IL : (i < len)%nat) by (apply in_lt; intros Z; apply N; rewrite Z; cbn; auto). split; [exact IL|]. split; [now apply en_lt|exact N]. Qed.
Lemma quote_start i s j : (i <= len)%nat -> quote_at T2 (en i) s j -> (i < len)%nat /\ en i = i.
Proof.
  intros L Q. destruct (Nat.eq_dec i len) as [->|]; [|split; [lia|apply en_lt; lia]]. exfalso. rewrite en_len in Q.
  destruct Q as [y LQ E _ _|y e LQ E _ _]; replace j with len2 in E by lia; rewrite seg_nil in E; discriminate E.
Qed.
Lemma key_start i s k : (i <= len)%nat -> key_at T2 (en i) s k -> (i < len)%nat /\ en i = i.
Proof.
  intros L [Q A|_ LK _ _ _ _ _]; [now apply (quote_start i s k)|]. destruct (Nat.eq_dec i len) as [->|]; [|split; [lia|apply en_lt; lia]]. rewrite en_len in LK. lia.
Qed.
Lemma means_back :
  (forall flow outer i' d' j', means T2 flow outer i' d' j' -> forall i, (i <= len)%nat -> i' = en i -> found j' (fun j => exists d, means T flow outer i d j)) /\
  (forall outer i d' j', behind T2 outer i d' j' -> (i < len)%nat -> found j' (fun j => exists d, behind T outer i d j)) /\
  (forall c i l' j', dashes_at T2 c i l' j' -> (S i < len)%nat -> found j' (fun j => exists l, dashes_at T c i l j)) /\
  (forall c s k l' j', pairs_at T2 c s k l' j' -> (S k < len)%nat -> found j' (fun j => exists l, pairs_at T c s k l j)) /\
  (forall i' d' j' skipped, held_at T2 i' d' j' skipped -> forall i, (i <= len)%nat -> i' = en i -> found j' (fun j => exists d, held_at T i d j skipped)) /\
  (forall n' l' j', flow_seq_at T2 n' l' j' -> forall n, (n <= len)%nat -> n' = en n -> found j' (fun j => exists l, flow_seq_at T n l j)) /\
  (forall n' l' j', flow_map_at T2 n' l' j' -> forall n, (n <= len)%nat -> n' = en n -> found j' (fun j => exists l, flow_map_at T n l j)) /\
  (forall n' s d' e', flow_pair_at T2 n' s d' e' -> forall n, (n <= len)%nat -> n' = en n -> found e' (fun e => exists d, flow_pair_at T n s d e)).
Proof.
  pose proof le2 as LE2.
  apply means_all.
  - intros flow outer i' s j' Q C i L ->. assert (IL : (i < len)%nat /\ en i = i) by now apply (quote_start i s j').
    destruct IL as (IL & EI). rewrite EI in Q. destruct (quote_back i s j' IL Q) as (s0 & j & JL & -> & Q0 & _). exists j. split; [exact JL|]. split; [reflexivity|]. exists (DStr s0). apply me_quote; [exact Q0|]. now rewrite at_en in C.
  - intros flow outer i' h j' N i L ->. assert (IL : (i < len)%nat). { destruct (Nat.eq_dec i len) as [->|]; [|lia]. rewrite en_len in N. destruct N as (LN & N & _). replace j' with len2 in N by lia. rewrite seg_nil in N. now apply number_some in N. }
    rewrite en_lt in N by exact IL. apply number_back in N; [|exact IL]. destruct (number_en _ _ _ _ N) as (JL & _). exists j'. split; [lia|]. split; [now rewrite en_lt|]. exists (DNum (slice T i j') h). now apply me_number.
  - intros flow outer i' d' j' NW NN Wd P i L ->. destruct (word_back flow i j' L Wd) as (j & JL & -> & W0 & PD). destruct (PD d' P) as (d & P0). exists j. split; [exact JL|]. split; [reflexivity|]. exists d. apply me_word; auto; [now rewrite <- no_word_en|].
    intros h k X. destruct (number_en _ _ _ _ X) as (KL & X2). apply (NN h k). rewrite en_lt; [exact X2|]. destruct X as (X & _). lia.
  - intros outer i' s j' B i L ->. pose proof (block_char T2 _ _ _ B) as C. rewrite at_en in C by exact L. destruct (block_ex T i C) as (s0 & j & _ & _ & _ & _ & B0 & _). destruct (block_en i s0 j B0) as (IL & s' & B2 & _). rewrite en_lt in B by exact IL.
    destruct (block_det T2 _ _ _ _ _ B B2) as (_ & ->). exists j. split; [apply (block_le T _ _ _ B0)|]. split; [reflexivity|]. exists (DStr s0). now apply me_block.
  - intros outer i' l' j' A Wh _ IH i L ->. destruct (start_c i DASH L A) as (SL & A0 & EI); [discriminate|discriminate|]. rewrite EI in *. rewrite at_lt in Wh by exact SL. destruct (IH SL) as (j & JL & -> & l & H). exists j. split; [exact JL|]. split; [reflexivity|]. exists (DSeq l). rewrite col_lt in H by lia. now apply me_seq.
  - intros outer i' s k l' j' K U _ IH i L ->. assert (IL : (i < len)%nat /\ en i = i) by now apply (key_start i s k).
    destruct IL as (IL & EI). rewrite EI in *. destruct (key_back i s k IL K) as (KL & K0). assert (SK : (S k < len)%nat) by (apply (next_at k COLON); [destruct K0; assumption|discriminate|discriminate]).
    rewrite col_lt in IH by lia. rewrite col_lt in U by lia. destruct (IH SK) as (j & JL & -> & l & H). exists j. split; [exact JL|]. split; [reflexivity|]. exists (DMap l). now apply (me_map _ _ _ s k).
  - intros flow outer i' n' l' j' A G _ IH i L ->. destruct (start_c i LBRACK L A) as (SL & A0 & EI); [discriminate|discriminate|]. rewrite EI in *. destruct (gap_back0 (S i) n') as (n & NL0 & -> & G0); [lia|exact G|]. destruct (IH n NL0 eq_refl) as (j & JL & -> & l & H).
    exists j. split; [exact JL|]. split; [reflexivity|]. exists (DSeq l). now apply (me_flow_seq _ _ _ _ n).
  - intros flow outer i' n' l' j' A G _ IH i L ->. destruct (start_c i LBRACE L A) as (SL & A0 & EI); [discriminate|discriminate|]. rewrite EI in *. destruct (gap_back0 (S i) n') as (n & NL0 & -> & G0); [lia|exact G|]. destruct (IH n NL0 eq_refl) as (j & JL & -> & l & H).
    exists j. split; [exact JL|]. split; [reflexivity|]. exists (DMap l). now apply (me_flow_map _ _ _ _ n).
  - intros outer i m' d' j' G _ IH IL. destruct (gap_back0 i m') as (m & ML & -> & G0); [lia|exact G|]. destruct (IH m ML eq_refl) as (j & JL & -> & d & H). exists j. split; [exact JL|]. split; [reflexivity|]. exists d. now apply (be_value _ _ _ m).
  - intros o i m' s k G K LE IL. destruct (gap_back0 i m') as (m & ML & -> & G0); [lia|exact G|]. exists i. split; [lia|]. split; [now rewrite en_lt|]. exists DNull. destruct (key_start m s k ML K) as (ML' & EM). rewrite EM in *. destruct (key_back m s k ML' K) as (KL & K0). rewrite col_lt in LE by lia. now apply (be_none _ _ _ m s k).
  - intros c i d' e' n' _ IH G C SL. destruct (IH SL) as (e & EL & -> & d & H). destruct (gap_back e n' EL G) as (n & NL0 & -> & G0). exists e. split; [exact EL|]. split; [reflexivity|]. exists [d]. apply (da_last _ _ _ _ _ n); auto.
    destruct (Nat.eq_dec n len) as [->|NE]; [right; rewrite at_over by lia; discriminate|]. rewrite en_lt, col_lt, at_lt in C by lia. exact C.
  - intros c i d' e' n' l' j' _ IH G C A _ IH2 SL. destruct (IH SL) as (e & EL & -> & d & H). destruct (gap_back e n' EL G) as (n & NL0 & -> & G0). destruct (start_c n DASH NL0 A) as (SN & A0 & EN); [discriminate|discriminate|]. rewrite EN in *.
    destruct (IH2 SN) as (j & JL & -> & l & H2). exists j. split; [exact JL|]. split; [reflexivity|]. exists (d :: l). rewrite col_lt in C by lia. now apply (da_more _ _ _ _ e n).
  - intros c s k d' e' n' _ IH G C SL. destruct (IH SL) as (e & EL & -> & d & H). destruct (gap_back e n' EL G) as (n & NL0 & -> & G0). exists e. split; [exact EL|]. split; [reflexivity|]. exists [(s, d)]. apply (pa_last _ _ _ _ _ _ n); auto.
    destruct (Nat.eq_dec n len) as [->|NE]; [right; rewrite at_over by lia; cbn; auto|]. rewrite en_lt, col_lt, at_lt in C by lia. exact C.
  - intros c s k d' e' n' s' k' l' j' _ IH G C K _ IH2 SL. destruct (IH SL) as (e & EL & -> & d & H). destruct (gap_back e n' EL G) as (n & NL0 & -> & G0). destruct (later_back _ s' k' K) as (NK & K0).
    assert (EN : en n = n) by (unfold en in *; destruct (Nat.eqb_spec n len); lia). rewrite EN in *. assert (SK : (S k' < len)%nat) by (apply (next_at k' COLON); [apply K0|discriminate|discriminate]).
    destruct (IH2 SK) as (j & JL & -> & l & H2). exists j. split; [exact JL|]. split; [reflexivity|]. exists ((s, d) :: l). rewrite col_lt in C by lia. now apply (pa_more _ _ _ _ _ e n s' k').
  - intros i' d' j' _ IH i L E. destruct (IH i L E) as (j & JL & -> & d & H). exists j. split; [exact JL|]. split; [reflexivity|]. exists d. now apply he_value.
  - intros i' s e' n' B G i L ->. pose proof (block_char T2 _ _ _ B) as C. rewrite at_en in C by exact L. destruct (block_ex T i C) as (s0 & j & _ & _ & _ & _ & B0 & _). destruct (block_en i s0 j B0) as (IL & s' & B2 & _). rewrite en_lt in B by exact IL.
    destruct (block_det T2 _ _ _ _ _ B B2) as (_ & ->). pose proof (block_le T _ _ _ B0) as BL. destruct (gap_back j n') as (n & NL0 & -> & G0); [lia|exact G|]. exists n. split; [exact NL0|]. split; [reflexivity|]. exists (DStr s0). now apply (he_block _ _ _ j).
  - intros n' A n L ->. destruct (start_c n RBRACK L A) as (SL & A0 & EI); [discriminate|discriminate|]. exists (S n). split; [lia|]. split; [rewrite EI; now rewrite en_lt|]. exists []. now apply fq_end.
  - intros n0 m' d' e' skipped n' l' j' N G _ IH A G' _ IH2 n L ->. destruct (not_in n RBRACK L N) as (NL0 & EN & N0). rewrite EN in *. destruct (gap_back0 n m' L G) as (m & ML & -> & G0). destruct (IH m ML eq_refl) as (e & EL & -> & d & H).
    destruct (start_c e COMMA EL A) as (SE & A0 & EE); [discriminate|discriminate|]. rewrite EE in *.
    assert (X : exists n1, (n1 <= len)%nat /\ n' = en n1 /\ if skipped then n1 = S e else gap_to T (S e) n1). { destruct skipped; [exists (S e); rewrite en_lt by lia; auto with arith|apply gap_back0; [lia|exact G']]. }
    destruct X as (n1 & NL1 & E1 & X). destruct (IH2 n1 NL1 E1) as (j & JL & -> & l & H2). exists j. split; [exact JL|]. split; [reflexivity|]. exists (d :: l). now apply (fq_comma _ n m d e skipped n1).
  - intros n0 m' d' e' skipped n' N G _ IH A G' A' n L ->. destruct (not_in n RBRACK L N) as (NL0 & EN & N0). rewrite EN in *. destruct (gap_back0 n m' L G) as (m & ML & -> & G0). destruct (IH m ML eq_refl) as (e & EL & -> & d & H). destruct (gap_back e n' EL G') as (n1 & NL1 & -> & G1).
    destruct (start_c n1 RBRACK NL1 A') as (SE & A0 & EE); [discriminate|discriminate|]. rewrite EE in *. exists (S n1). split; [lia|]. split; [now rewrite en_lt|]. exists [d]. rewrite at_en in A by exact EL. now apply (fq_last _ n m d e skipped n1).
  - intros n0 m' d' e' skipped n' d2' e2' skipped' n2' N G _ IH A G' N' _ IH2 G'' A'' n L ->. destruct (not_in n RBRACK L N) as (NL0 & EN & N0). rewrite EN in *. destruct (gap_back0 n m' L G) as (m & ML & -> & G0). destruct (IH m ML eq_refl) as (e & EL & -> & d & H). destruct (gap_back e n' EL G') as (n1 & NL1 & -> & G1).
    destruct (not_in n1 RBRACK NL1 N') as (NL2 & EN1 & N1). destruct (IH2 n1 NL1 eq_refl) as (e2 & EL2 & -> & d2 & H2). destruct (gap_back e2 n2' EL2 G'') as (n2 & NL3 & -> & G2).
    destruct (start_c n2 RBRACK NL3 A'') as (SE & A0 & EE); [discriminate|discriminate|]. rewrite EE in *. exists (S n2). split; [lia|]. split; [now rewrite en_lt|]. exists [d; d2]. rewrite at_en in A by exact EL. now apply (fq_two _ n m d e skipped n1 d2 e2 skipped' n2).
  - intros n' A n L ->. destruct (start_c n RBRACE L A) as (SL & A0 & EI); [discriminate|discriminate|]. exists (S n). split; [lia|]. split; [rewrite EI; now rewrite en_lt|]. exists []. now apply fp_end.
  - intros n0 d' e' n' l' j' s _ IH A G' _ IH2 n L E. destruct (IH n L E) as (e & EL & -> & d & H). destruct (start_c e COMMA EL A) as (SE & A0 & EE); [discriminate|discriminate|]. rewrite EE in *. destruct (gap_back0 (S e) n') as (n1 & NL1 & -> & G1); [lia|exact G'|].
    destruct (IH2 n1 NL1 eq_refl) as (j & JL & -> & l & H2). exists j. split; [exact JL|]. split; [reflexivity|]. exists ((s, d) :: l). now apply (fp_comma _ n d e n1).
  - intros n0 d' e' s _ IH A n L E. destruct (IH n L E) as (e & EL & -> & d & H). destruct (start_c e RBRACE EL A) as (SE & A0 & EE); [discriminate|discriminate|]. rewrite EE in *. exists (S e). split; [lia|]. split; [now rewrite en_lt|]. exists [(s, d)]. now apply fp_last.
  - intros n0 d' e' s d2' e2' s' _ IH A _ IH2 A' n L E. destruct (IH n L E) as (e & EL & -> & d & H). destruct (IH2 e EL eq_refl) as (e2 & EL2 & -> & d2 & H2). destruct (start_c e2 RBRACE EL2 A') as (SE & A0 & EE); [discriminate|discriminate|]. rewrite EE in *.
    exists (S e2). split; [lia|]. split; [now rewrite en_lt|]. exists [(s, d); (s', d2)]. rewrite at_en in A by exact EL. now apply (fp_two _ n d e s d2 e2 s').
  - intros n0 s k m' d' e' skipped e2' N K G _ IH G' n L ->. destruct (not_in n RBRACE L N) as (NL0 & EN & N0). rewrite EN in *. destruct (flow_key_back n s k K) as (NK & K0). destruct (gap_back0 (S k) m') as (m & ML & -> & G0); [lia|exact G|]. destruct (IH m ML eq_refl) as (e & EL & -> & d & H). destruct (gap_back e e2' EL G') as (e2 & EL2 & -> & G1).
    exists e2. split; [exact EL2|]. split; [reflexivity|]. exists d. now apply (fp_pair _ n s k m d e skipped e2).
Qed.
Lemma header_back i' j' : header_to T2 i' j' -> forall i, (i <= len)%nat -> i' = en i -> exists j, (j <= len)%nat /\ j' = en j /\ header_to T i j.
Proof.
  induction 1 as [i' A N|i' k n' j' A L G H IH|i' j' A B C G]; intros i IL ->.
  - exists i. split; [exact IL|]. split; [reflexivity|]. rewrite at_en in A by exact IL. apply hd_none; [exact A|]. intros (X & Y & Z). apply N. assert (I1 : (S i < len)%nat) by (apply (next_at i _ X); discriminate).
    assert (I2 : (S (1 + i) < len)%nat) by (apply (next_at (1 + i) _ Y); discriminate). rewrite en_lt by lia. rewrite !at_lt by lia. auto.
  - destruct (start_c i PERCENT IL A) as (SL & A0 & EI); [discriminate|discriminate|]. rewrite EI in *. destruct (line_back i k ltac:(lia) L) as (KL & L0).
    destruct (gap_back0 k n') as (n & NL0 & -> & G0); [lia|exact G|]. destruct (IH n NL0 eq_refl) as (j & JL & -> & H0). exists j. split; [exact JL|]. split; [reflexivity|]. now apply (hd_directive _ i k n).
  - destruct (start_c i DASH IL A) as (SL & A0 & EI); [discriminate|discriminate|]. rewrite EI in *. rewrite at_lt in B by lia. assert (I2 : (S (1 + i) < len)%nat) by (apply (next_at (1 + i) _ B); discriminate). rewrite at_lt in C by lia.
    assert (I3 : (S (2 + i) < len)%nat) by (apply (next_at (2 + i) _ C); discriminate). destruct (gap_back0 (3 + i) j') as (j & JL & -> & G0); [lia|exact G|]. exists j. split; [exact JL|]. split; [reflexivity|]. now apply hd_marker.
Qed.
Lemma stands_back d' : stands_for T2 d' -> exists d, stands_for T d.
Proof.
  intros (n' & i' & j' & G & H & M & GE). destruct (gap_back0 0 n') as (n & NL0 & -> & G0); [lia|exact G|]. destruct (header_back _ _ H n NL0 eq_refl) as (i & IL & -> & H0). destruct (proj1 means_back _ _ _ _ _ M i IL eq_refl) as (j & JL & -> & d & M0).
  exists d, n, i, j. split; [exact G0|]. split; [exact H0|]. split; [exact M0|]. destruct (gap_back j _ JL GE) as (e & EL & E & GE0). now rewrite (en_inj e len EL (le_n _)) in GE0 by (rewrite en_len; congruence).
Qed.

(* ---- errors ---- *)
Definition aft (flow : bool) (j : nat) (w v : option bytes) : Prop := match w, v with None, None => True | Some w, Some v => flow = true -> back w v j | _, _ => False end.
Lemma after_en {flow j} w v e w' n : aft flow j w v -> after T w e w' n -> exists v', after T2 v (en e) v' (en n).
Proof.
  intros F AF. revert F. destruct AF as [x m|e0 m G]; intros F; destruct v as [v|]; cbn in F; try contradiction.
  - exists v. apply af_read.
  - exists (slice T2 (en e0) (en m)). apply af_skip. now apply gap_from.
Qed.
Lemma after_back w v j e w' n : aft true j w v -> e = j \/ e = S j /\ (e < len)%nat -> after T w e w' n -> exists v', after T2 v (en e) v' (en n) /\ back w' v' n.
Proof.
  intros F EJ AF. revert F. destruct AF as [x m|e0 m G]; intros F; destruct v as [v|]; cbn in F; try contradiction.
  - exists v. split; [apply af_read|]. specialize (F eq_refl). destruct EJ as [->|(-> & L)]; [exact F|]. destruct F as (F1 & F2). unfold back. rewrite F2 by lia. rewrite !en_lt by lia. auto.
  - exists (slice T2 (en e0) (en m)). split; [apply af_skip; now apply gap_from|now apply back_part].
Qed.
Lemma valid_of w : exists v, made_valid w v.
Proof. exists (lossy w). now apply lossy_spec. Qed.
Lemma laid_en i s w j : block_laid T i s w j -> (i < len)%nat /\ exists s' w', block_laid T2 i s' w' (en j) /\ forall n, gap_to T j n -> back w w' n.
Proof.
  intros B. assert (P : forall folded : bool, at_ i = (if folded then GT else PIPE) -> (S i < len)%nat) by (intros [] A; apply (next_at i _ A); discriminate).
  destruct B as [folded v A N B E|folded v A N B E|folded v A N B E]; pose proof (P folded A) as SL; (split; [lia|]).
  - destruct (body_en folded (1 + i) v w j) as (v' & w' & B2 & _ & _ & BK); [lia|exact B|]. exists (v' ++ newlines_in w'), w'. split; [|exact BK]. apply (bd_plain _ _ _ _ _ folded v'); rewrite ?at_lt by lia; auto.
  - assert (SS : (S (S i) < len)%nat) by (apply (next_at (S i) _ N); discriminate). destruct (body_en folded (2 + i) v w j) as (v' & w' & B2 & _ & _ & BK); [lia|exact B|]. exists (v' ++ newlines_in w'), w'. split; [|exact BK]. apply (bd_keep _ _ _ _ _ folded v'); rewrite ?at_lt by lia; auto.
  - assert (SS : (S (S i) < len)%nat) by (apply (next_at (S i) _ N); discriminate). destruct (body_en folded (2 + i) v w j) as (v' & w' & B2 & _ & _ & BK); [lia|exact B|]. exists v', w'. split; [|exact BK]. apply (bd_strip _ _ _ _ _ folded v'); rewrite ?at_lt by lia; auto.
Qed.
Lemma not_at n x : ~ In (at_ n) [x; 0] -> (n < len)%nat.
Proof. intros N. apply in_lt. intros Z. apply N. rewrite Z. cbn. auto. Qed.
Lemma puts_trail :
  (forall flow outer i d o w j, puts T flow outer i d o w j -> exists d' o' w', puts T2 flow outer (en i) d' o' w' (en j) /\ aft flow j w w') /\
  (forall outer i d o w n, puts_behind T outer i d o w n -> exists d' o' w', puts_behind T2 outer i d' o' w' (en n)) /\
  (forall c i l o w n, puts_dashes T c i l o w n -> exists l' o' w', puts_dashes T2 c i l' o' w' (en n)) /\
  (forall c s k l o w n, puts_pairs T c s k l o w n -> exists l' o' w', puts_pairs T2 c s k l' o' w' (en n)) /\
  (forall n p l o j, puts_flow_seq T n p l o j -> (n < len)%nat /\ (j < len)%nat /\ forall p', exists l' o', puts_flow_seq T2 n p' l' o' j) /\
  (forall n p l o j, puts_flow_map T n p l o j -> (n < len)%nat /\ (j < len)%nat /\ forall p', exists l' o', puts_flow_map T2 n p' l' o' j) /\
  (forall n s d o w e, puts_pair T n s d o w e -> (n < len)%nat /\ exists d' o' w', puts_pair T2 n s d' o' w' (en e)).
Proof.
  pose proof le2 as LE2. destruct (puts_le T) as (LM & LB & _).
  apply puts_all.
  - intros flow outer i s j Q C. destruct (quote_en i s j Q) as (IL & [(JL & Q2)|(-> & Q2)]); rewrite (en_lt i) by exact IL.
    + rewrite en_lt by exact JL. do 3 eexists. split; [apply pu_quote; [exact Q2|now rewrite at_lt]|exact Logic.I].
    + rewrite en_len. do 3 eexists. split; [apply pu_quote; [exact Q2|right; rewrite at_over2 by lia; discriminate]|exact Logic.I].
  - intros flow outer i h j N. destruct (number_en flow i h j N) as (JL & N2). assert (IL : (i <= j)%nat) by apply N. rewrite !en_lt by lia. do 3 eexists. split; [apply pu_number; exact N2|exact Logic.I].
  - intros flow outer i d j NW NN Wd P. assert (IL : (i <= len)%nat) by (destruct flow; unfold word_to in Wd; [lia|destruct Wd as ((X & _) & _); lia]).
    destruct (word_en flow i j d IL Wd P) as (W2 & d' & P2 & TL & _). do 3 eexists. split; [apply pu_word; [now rewrite no_word_en|now apply no_number_en|exact W2|exact P2]|exact Logic.I].
  - intros flow outer i s w j n B G. destruct (laid_en i s w j B) as (IL & s' & w' & B2 & BK). rewrite (en_lt i) by exact IL. do 3 eexists. split; [apply (pu_block _ _ _ _ s' w' (en j)); [exact B2|now apply gap_from]|intros _; exact (BK n G)].
  - intros outer i l o w n A Wh _ (l' & o' & w' & H). assert (SL : (S i < len)%nat) by (apply (next_at i _ A); discriminate). rewrite (en_lt i) by lia. exists (DSeq l'), o', (Some w'). split; [apply pu_seq; rewrite ?at_lt, ?col_lt by lia; auto|intros X; discriminate X].
  - intros outer i s k l o w n K U _ (l' & o' & w' & H). destruct (key_en i s k K) as (IL & K2). rewrite (en_lt i) by lia. do 3 eexists. split; [apply (pu_map _ _ _ s k l' o' w'); rewrite ?col_lt by lia; auto|intros X; discriminate X].
  - intros flow outer i n l o j A G _ (NN & JL & H). assert (SL : (S i < len)%nat) by (apply (next_at i _ A); discriminate). pose proof (gap_en _ _ G) as G2. rewrite en_lt in G2 by exact NN. rewrite (en_lt i), (en_lt j) by lia.
    destruct (H (slice T2 (S i) n)) as (l' & o' & H2). do 3 eexists. split; [apply (pu_flow_seq _ _ _ _ n l' o'); [now rewrite at_lt by lia|exact G2|exact H2]|exact Logic.I].
  - intros flow outer i n l o j A G _ (NN & JL & H). assert (SL : (S i < len)%nat) by (apply (next_at i _ A); discriminate). pose proof (gap_en _ _ G) as G2. rewrite en_lt in G2 by exact NN. rewrite (en_lt i), (en_lt j) by lia.
    destruct (H (slice T2 (S i) n)) as (l' & o' & H2). do 3 eexists. split; [apply (pu_flow_map _ _ _ _ n l' o'); [now rewrite at_lt by lia|exact G2|exact H2]|exact Logic.I].
  - intros outer i m d o w e w' n G _ (d' & o' & v & H & F) AF. destruct (after_en w v e w' n F AF) as (v' & AF2). do 3 eexists. apply (bh_value _ _ _ (en m) d' o' v (en e) v'); [now apply gap_en|exact H|exact AF2].
  - intros o i m s k G K LE. destruct (key_en m s k K) as (ML & K2). pose proof (gap_en _ _ G) as G2. rewrite en_lt in G2 by lia. rewrite en_lt by lia. do 3 eexists. apply (bh_none _ _ _ m s k); auto. now rewrite col_lt by lia.
  - intros c i d o w n P (d' & o' & w' & H) C. assert (GL : (n <= len)%nat) by exact (proj2 (LB _ _ _ _ _ _ P)). do 3 eexists. apply (pd_last _ _ _ d' o' w'); [exact H|apply col_en; [exact GL|exact C|discriminate]].
  - intros c i d o w n v l o' w' n' _ (d2 & o2 & w2 & H) C A _ _ (l2 & o3 & w3 & H2). assert (NN : (n < len)%nat) by (apply in_lt; rewrite A; discriminate). rewrite en_lt in H by exact NN. destruct (valid_of w2) as (v2 & V2).
    do 3 eexists. apply (pd_more _ _ _ d2 o2 w2 n v2 l2 o3 w3); rewrite ?col_lt, ?at_lt by lia; auto.
  - intros c s k d o w n P (d' & o' & w' & H) C. assert (GL : (n <= len)%nat) by exact (proj2 (LB _ _ _ _ _ _ P)). do 3 eexists. apply (pp_last _ _ _ _ d' o' w'); [exact H|now apply col_en2].
  - intros c s k d o w n s' k' l o' w' n' _ (d2 & o2 & w2 & H) C K _ (l2 & o3 & w3 & H2). destruct (later_en n s' k' K) as (NN & K2). rewrite en_lt in H by lia.
    do 3 eexists. apply (pp_more _ _ _ _ d2 o2 w2 n s' k' l2 o3 w3); rewrite ?col_lt by lia; auto.
  - intros n p A. assert (SL : (S n < len)%nat) by (apply (next_at n _ A); discriminate). split; [lia|]. split; [exact SL|]. intros p'. do 2 eexists. apply ps_end. now rewrite at_lt by lia.
  - intros n p v m d o w e w' n' l o' j N _ G _ (d2 & o2 & w2 & H & F) A AF _ (NN & JL & H2). pose proof (not_at n _ N) as NL0. assert (SE : (S e < len)%nat) by (apply (next_at e _ A); discriminate). split; [exact NL0|]. split; [exact JL|]. intros p'.
    destruct (after_en w w2 (S e) w' n' F AF) as (w3 & AF2). rewrite en_lt in AF2 by lia. rewrite (en_lt n') in AF2 by exact NN. destruct (valid_of p') as (v2 & V2). rewrite (en_lt e) in H by lia. destruct (H2 w3) as (l2 & o3 & H3).
    do 2 eexists. apply (ps_comma _ n p' v2 (en m) d2 o2 w2 e w3 n' l2 o3); rewrite ?at_lt by lia; auto. now apply gap_en.
  - intros n p v m d o w e w' n' N _ G P (d2 & o2 & w2 & H & F) A AF A'. pose proof (not_at n _ N) as NL0. assert (SE : (S n' < len)%nat) by (apply (next_at n' _ A'); discriminate). split; [exact NL0|]. split; [exact SE|]. intros p'.
    destruct (after_en w w2 e w' n' F AF) as (w3 & AF2). rewrite (en_lt n') in AF2 by lia. destruct (valid_of p') as (v2 & V2). pose proof (LM _ _ _ _ _ _ _ P) as LE.
    do 2 eexists. apply (ps_last _ n p' v2 (en m) d2 o2 w2 (en e) w3 n'); rewrite ?(at_lt n), ?(at_lt n'), ?at_en by lia; auto. now apply gap_en.
  - intros n p v m d o w e w' v' n' d' o' w2 e' w3 n'' N _ G P (d2 & o2 & x2 & H & F) A AF N' _ P' (d3 & o3 & x3 & H3 & F3) AF3 A''. pose proof (not_at n _ N) as NL0. pose proof (not_at n' _ N') as NL1. assert (SE : (S n'' < len)%nat) by (apply (next_at n'' _ A''); discriminate).
    split; [exact NL0|]. split; [exact SE|]. intros p'. destruct (after_en w x2 e w' n' F AF) as (w4 & AF2). rewrite (en_lt n') in AF2 by lia. destruct (after_en w2 x3 e' w3 n'' F3 AF3) as (w5 & AF5). rewrite (en_lt n'') in AF5 by lia. destruct (valid_of p') as (v2 & V2). destruct (valid_of w4) as (v4 & V4).
    pose proof (LM _ _ _ _ _ _ _ P) as LE. rewrite (en_lt n') in H3 by lia.
    do 2 eexists. apply (ps_two _ n p' v2 (en m) d2 o2 x2 (en e) w4 v4 n' d3 o3 x3 (en e') w5 n''); rewrite ?(at_lt n), ?(at_lt n'), ?(at_lt n''), ?at_en by lia; auto. now apply gap_en.
  - intros n p A. assert (SL : (S n < len)%nat) by (apply (next_at n _ A); discriminate). split; [lia|]. split; [exact SL|]. intros p'. do 2 eexists. apply pm_end. now rewrite at_lt by lia.
  - intros n p s d o w e n' l o' j _ (NL0 & d2 & o2 & w2 & H) A G _ (NN & JL & H2). assert (SE : (S e < len)%nat) by (apply (next_at e _ A); discriminate). rewrite en_lt in H by lia. pose proof (gap_en _ _ G) as G2. rewrite en_lt in G2 by exact NN. split; [exact NL0|]. split; [exact JL|]. intros p'.
    destruct (H2 (slice T2 (S e) n')) as (l2 & o3 & H3). do 2 eexists. apply (pm_comma _ n p' s d2 o2 w2 e n' l2 o3); rewrite ?at_lt by lia; auto.
  - intros n p s d o w e _ (NL0 & d2 & o2 & w2 & H) A. assert (SE : (S e < len)%nat) by (apply (next_at e _ A); discriminate). rewrite en_lt in H by lia. split; [exact NL0|]. split; [exact SE|]. intros p'. do 2 eexists. apply (pm_last _ n p' s d2 o2 w2 e); rewrite ?at_lt by lia; auto.
  - intros n p s d o w e s' d' o' w' e' _ (NL0 & d2 & o2 & w2 & H) A _ (NL1 & d3 & o3 & w3 & H3) A'. assert (SE : (S e' < len)%nat) by (apply (next_at e' _ A'); discriminate). rewrite en_lt in H, H3 by lia. split; [exact NL0|]. split; [exact SE|]. intros p'.
    do 2 eexists. apply (pm_two _ n p' s d2 o2 w2 e s' d3 o3 w3 e'); rewrite ?at_lt by lia; auto.
  - intros n s k m d o w e w' e' N K G _ (d2 & o2 & w2 & H & F) AF. destruct (flow_key_en n s k K) as (NK & K2). split; [lia|]. destruct (after_en w w2 e w' e' F AF) as (w3 & AF2).
    do 3 eexists. apply (pr_pair _ n s k (en m) d2 o2 w2 (en e) w3 (en e')); rewrite ?at_lt by lia; auto. now apply gap_en.
Qed.

Definition of_escape (k : ekind) : Prop := k = BadEscape \/ k = BadHexEscape \/ k = BadUnicodeEscape.
(* Errors in escapes stay where they are; an end of others at the end of the text moves with it. *)
Definition alike (r r' : fault) : Prop :=
  match r, r' with
  | stuck, stuck => True
  | bad k x y, bad k' x' y' => k' = k /\ (of_escape k -> x' = x /\ y' = y) /\ (~ of_escape k -> y' = en y /\ x' = en x)
  | _, _ => False
  end.
Lemma alike_esc k x y : of_escape k -> alike (bad k x y) (bad k x y).
Proof. intros E. cbn. split; [reflexivity|]. split; [auto|]. intros N. contradiction. Qed.
Lemma alike_en k x y x' y' : ~ of_escape k -> y' = en y -> x' = en x -> alike (bad k x y) (bad k x' y').
Proof. intros E -> X. cbn. split; [reflexivity|]. split; [intros N; contradiction|auto]. Qed.
Lemma sq_more y v : sq_content y v -> sq_content (y ++ W) (v ++ W).
Proof.
  induction 1 as [|c y v N H IH|y v H IH].
  - clear NL. induction W as [|c u IH]; [apply sc_nil|]. inversion WH as [|? ? C U]. subst. apply sc_byte; [intros ->; cbn in C; intuition discriminate|now apply IH].
  - now apply sc_byte.
  - now apply (sc_pair (y ++ W) (v ++ W)).
Qed.
Lemma hex_in i : hexdigit (at_ i) -> (S i < len)%nat.
Proof. intros (v & H). apply next_lt; intros E; rewrite E in H; inversion H as [c D|c D|c D]; try (unfold digit in D); try (vm_compute in D; intuition discriminate); lia. Qed.
Lemma escape_en p k e : at_ p = BACKSLASH -> bad_escape T p k e -> bad_escape T2 p k e /\ of_escape k.
Proof.
  intros A. assert (SP : (S p < len)%nat) by (apply (next_at p _ A); discriminate). pose proof le2 as LE2.
  intros [E|L N|k0 c n q K C L QL D ND|v1 v2 v3 v4 C H1 H2 H3 H4 SU].
  - lia.
  - split; [|now left]. apply be_letter; [lia|now rewrite at_lt by lia].
  - assert (S2 : (2 + p < len)%nat). { destruct K as [K|K]; injection K as _ -> _; injection C as C; apply (next_at (S p) _ C); discriminate. }
    assert (Q : (q < len)%nat). { destruct (Nat.eq_dec q len) as [->|]; [|lia]. exfalso. assert (X : hexdigit (at_ (len - 1))) by (apply D; lia). apply hex_in in X. lia. }
    split; [|destruct K as [K|K]; injection K as -> _ _; unfold of_escape; auto]. replace (Nat.min (S q) len) with (Nat.min (S q) len2) by lia. apply (be_digit _ p k0 c n q); rewrite ?at_lt by lia; auto; [lia|].
    intros i I. rewrite at_lt by lia. now apply D.
  - assert (X : (S (5 + p) < len)%nat) by (apply hex_in; now exists v4). split; [|unfold of_escape; auto]. apply (be_surrogate _ p v1 v2 v3 v4); rewrite ?at_lt by lia; auto.
Qed.
Lemma bad_quote_en i r : bad_quote T i r -> (i < len)%nat /\ exists r', bad_quote T2 i r' /\ alike r r'.
Proof.
  intros [v A C|p v k e A L D B E].
  - assert (SL : (S i < len)%nat) by (apply (next_at i _ A); discriminate). split; [lia|]. exists stuck. split; [|exact Logic.I]. apply (bq_open _ _ (v ++ W)); [now rewrite at_lt by lia|]. rewrite sl_end by lia. now apply sq_more.
  - assert (SL : (S i < len)%nat) by (apply (next_at i _ A); discriminate). assert (SP : (S p < len)%nat) by (apply (next_at p _ B); discriminate). destruct (escape_en p k e B E) as (E2 & K). split; [lia|]. exists (bad k p e). split; [|now apply alike_esc].
    apply (bq_escape _ _ p v); rewrite ?at_lt, ?sl_lt by lia; auto.
Qed.
Lemma none_end c n : (n <= len)%nat -> ~ white c -> ~ In c (slice T n len) -> ~ In c (slice T2 n len2).
Proof. intros L C N X. rewrite sl_end in X by exact L. apply in_app_iff in X as [X|X]; [contradiction|]. rewrite Forall_forall in WH. now apply WH in X. Qed.
Ltac noesc := unfold of_escape; intuition discriminate.
Lemma fails_trail :
  (forall flow outer i r, fails T flow outer i r -> (i < len)%nat /\ exists r', fails T2 flow outer i r' /\ alike r r') /\
  (forall outer i r, fails_behind T outer i r -> exists r', fails_behind T2 outer i r' /\ alike r r') /\
  (forall c i r, fails_dashes T c i r -> exists r', fails_dashes T2 c i r' /\ alike r r') /\
  (forall c k r, fails_pairs T c k r -> exists r', fails_pairs T2 c k r' /\ alike r r') /\
  (forall n p r, fails_flow_seq T n p r -> (n <= len)%nat -> forall p', back p p' n -> exists r', fails_flow_seq T2 (en n) p' r' /\ alike r r') /\
  (forall st n r, fails_flow_map T st n r -> (n <= len)%nat -> exists r', fails_flow_map T2 (en st) (en n) r' /\ alike r r') /\
  (forall st n r, fails_pair T st n r -> (n < len)%nat /\ exists r', fails_pair T2 (en st) n r' /\ alike r r').
Proof.
  destruct puts_trail as (PV & PB & _ & _ & _ & _ & PP). destruct (puts_le T) as (LM & LB & _ & _ & _ & _ & LR). pose proof le2 as LE2.
  assert (WC : forall c, In c [COLON; 0] -> ~ white c) by (intros c [<-|[<-|[]]]; cbn; intuition discriminate).
  apply fails_all.
  - intros flow outer i r Q. destruct (bad_quote_en i r Q) as (IL & r' & Q2 & AL). split; [exact IL|]. exists r'. split; [now apply fa_quote|exact AL].
  - intros outer i r A Wh _ (r' & H & AL). assert (SL : (S i < len)%nat) by (apply (next_at i _ A); discriminate). split; [lia|]. exists r'. split; [|exact AL]. apply fa_seq; rewrite ?at_lt, ?col_lt by lia; auto.
  - intros outer i s k r K U _ (r' & H & AL). destruct (key_en i s k K) as (IL & K2). split; [lia|]. exists r'. split; [|exact AL]. apply (fa_map _ _ _ s k); rewrite ?col_lt by lia; auto.
  - intros flow outer i n r A G _ IH. assert (SL : (S i < len)%nat) by (apply (next_at i _ A); discriminate). split; [lia|]. destruct (IH (proj2 (gap_le T _ _ G)) (slice T2 (S i) (en n)) ltac:(pose proof (back_part _ _ G) as BK; rewrite (en_lt (S i)) in BK by lia; exact BK)) as (r' & H & AL). exists r'. split; [|exact AL].
    apply (fa_flow_seq _ _ _ _ (en n)); [now rewrite at_lt by lia|now apply gap_en|exact H].
  - intros flow outer i n r A G _ IH. assert (SL : (S i < len)%nat) by (apply (next_at i _ A); discriminate). split; [lia|]. destruct (IH (proj2 (gap_le T _ _ G))) as (r' & H & AL). exists r'. split; [|exact AL].
    rewrite (en_lt (S i)) in H by lia. apply (fa_flow_map _ _ _ _ (en n)); [now rewrite at_lt by lia|now apply gap_en|exact H].
  - intros outer i m r G _ (ML & r' & H & AL). exists r'. split; [|exact AL]. apply (fb_value _ _ _ m); [rewrite <- (en_lt m) by exact ML; now apply gap_en|exact H].
  - intros c i r _ (r' & H & AL). exists r'. split; [now apply fd_here|exact AL].
  - intros c i d o w n r P C A _ (r' & H & AL). assert (NN : (n < len)%nat) by (apply in_lt; rewrite A; discriminate). destruct (PB _ _ _ _ _ _ P) as (d' & o' & w' & P2). rewrite en_lt in P2 by exact NN.
    exists r'. split; [|exact AL]. apply (fd_more _ _ _ d' o' w' n); rewrite ?at_lt, ?col_lt by lia; auto.
  - intros c k r _ (r' & H & AL). exists r'. split; [now apply fp_here|exact AL].
  - intros c k d o w n s' k' r P C K _ (r' & H & AL). destruct (later_en n s' k' K) as (NN & K2). destruct (PB _ _ _ _ _ _ P) as (d' & o' & w' & P2). rewrite en_lt in P2 by lia.
    exists r'. split; [|exact AL]. apply (fp_more _ _ _ d' o' w' n s' k'); rewrite ?col_lt by lia; auto.
  - intros c k d o w n k' P C L N1 N2 A. destruct (PB _ _ _ _ _ _ P) as (d' & o' & w' & P2). rewrite en_lt in P2 by lia. exists (bad BadMappingSeparator n (Nat.min (S (en k')) len2)). destruct (Nat.eq_dec k' len) as [->|NE].
    + rewrite en_len. split; [apply (fp_key _ _ _ d' o' w' n); rewrite ?col_lt by lia; auto; [lia|apply none_end; [lia|apply WC; cbn; auto|exact N1]|apply none_end; [lia|apply WC; cbn; auto|exact N2]|apply at_over2; lia]|].
      apply alike_en; [noesc| |now rewrite en_lt by lia]. replace (Nat.min (S len) len) with len by lia. rewrite en_len. lia.
    + assert (SK : (S k' < len)%nat). { destruct (Nat.eq_dec (S k') len) as [X|X]; [|lia]. destruct last_byte as (_ & LB0). replace (len - 1)%nat with k' in LB0 by lia. rewrite A in LB0. discriminate. }
      rewrite en_lt by lia. split; [apply (fp_key _ _ _ d' o' w' n); rewrite ?col_lt, ?sl_lt, ?at_lt by lia; auto; lia|]. apply alike_en; [noesc| |now rewrite en_lt by lia]. replace (Nat.min (S k') len) with (S k') by lia. rewrite en_lt by lia. lia.
  - intros n p A L p' BK. exists (bad BadSequenceTerminator (en n - length p') (en n)). split; [apply fs_open; now rewrite at_en|apply alike_en; [noesc|reflexivity|apply BK]].
  - intros n p m r N G _ (ML & r' & H & AL) L p' _. pose proof (not_at n _ N) as NL0. rewrite en_lt by exact NL0. exists r'. split; [|exact AL]. apply (fs_value _ _ _ m); [now rewrite at_lt|rewrite <- (en_lt m) by exact ML; now apply gap_en|exact H].
  - intros n p m d o w e w' n' r N G P A AF _ IH L p' _. pose proof (not_at n _ N) as NL0. rewrite en_lt by exact NL0. assert (SE : (S e < len)%nat) by (apply (next_at e _ A); discriminate). destruct (PV _ _ _ _ _ _ _ P) as (d2 & o2 & w2 & P2 & F). rewrite (en_lt e) in P2 by lia.
    destruct (after_back w w2 e (S e) w' n' F (or_intror (conj eq_refl SE)) AF) as (w3 & AF2 & BK). rewrite (en_lt (S e)) in AF2 by lia. pose proof (after_le T _ _ _ _ AF ltac:(lia)) as LN. destruct (IH (proj2 LN) w3 BK) as (r' & H & AL). exists r'. split; [|exact AL].
    apply (fs_comma _ n p' (en m) d2 o2 w2 e w3 (en n')); rewrite ?at_lt by lia; auto. now apply gap_en.
  - intros n p m d o w e w' n' N G P A AF A' L p' _. pose proof (not_at n _ N) as NL0. rewrite en_lt by exact NL0. pose proof (LM _ _ _ _ _ _ _ P) as LP. destruct (PV _ _ _ _ _ _ _ P) as (d2 & o2 & w2 & P2 & F). destruct (after_back w w2 e e w' n' F (or_introl eq_refl) AF) as (w3 & AF2 & BK).
    pose proof (after_le T _ _ _ _ AF ltac:(lia)) as LN. exists (bad BadSequenceTerminator (en n' - length w3) (en n')). split; [|apply alike_en; [noesc|reflexivity|apply BK]].
    apply (fs_last_open _ n p' (en m) d2 o2 w2 (en e) w3 (en n')); rewrite ?(at_lt n), ?at_en by lia; auto. now apply gap_en.
  - intros n p m d o w e w' n' r N G P A AF A' _ (NN & r' & H & AL) L p' _. pose proof (not_at n _ N) as NL0. rewrite en_lt by exact NL0. pose proof (LM _ _ _ _ _ _ _ P) as LP. destruct (PV _ _ _ _ _ _ _ P) as (d2 & o2 & w2 & P2 & F). destruct (after_en w w2 e w' n' F AF) as (w3 & AF2).
    rewrite (en_lt n') in AF2 by exact NN. exists r'. split; [|exact AL]. apply (fs_last_value _ n p' (en m) d2 o2 w2 (en e) w3 n'); rewrite ?(at_lt n), ?(at_lt n'), ?at_en by lia; auto. now apply gap_en.
  - intros n p m d o w e w' n' d' o' w2 e' w3 n'' N G P A AF A' P' AF' A'' L p' _. pose proof (not_at n _ N) as NL0. pose proof (not_at n' _ A') as NL1. rewrite en_lt by exact NL0. pose proof (LM _ _ _ _ _ _ _ P) as LP. pose proof (LM _ _ _ _ _ _ _ P') as LP'.
    destruct (PV _ _ _ _ _ _ _ P) as (d2 & o2 & x2 & P2 & F). destruct (after_en w x2 e w' n' F AF) as (x3 & AF2). rewrite (en_lt n') in AF2 by exact NL1. destruct (PV _ _ _ _ _ _ _ P') as (d3 & o3 & x4 & P3 & F3). rewrite (en_lt n') in P3 by exact NL1. destruct (after_back w2 x4 e' e' w3 n'' F3 (or_introl eq_refl) AF') as (x5 & AF3 & BK).
    pose proof (after_le T _ _ _ _ AF' ltac:(lia)) as LN. exists (bad BadSequenceTerminator (en n'' - length x5) (en n'')). split; [|apply alike_en; [noesc|reflexivity|apply BK]].
    apply (fs_last_end _ n p' (en m) d2 o2 x2 (en e) x3 n' d3 o3 x4 (en e') x5 (en n'')); rewrite ?(at_lt n), ?(at_lt n'), ?at_en by lia; auto. now apply gap_en.
  - intros st n A L. exists (bad BadMappingTerminator (en st) (en n)). split; [apply fm_open; now rewrite at_en|apply alike_en; [noesc|reflexivity|reflexivity]].
  - intros st n r _ (NN & r' & H & AL) L. rewrite (en_lt n) by exact NN. exists r'. split; [now apply fm_pair|exact AL].
  - intros st n s d o w e n' r P A G _ IH L. destruct (PP _ _ _ _ _ _ P) as (NN & d2 & o2 & w2 & P2). assert (SE : (S e < len)%nat) by (apply (next_at e _ A); discriminate). rewrite (en_lt e) in P2 by lia. rewrite (en_lt n) by exact NN. destruct (IH (proj2 (gap_le T _ _ G))) as (r' & H & AL). rewrite (en_lt (S e)) in H by lia.
    exists r'. split; [|exact AL]. apply (fm_comma _ _ n s d2 o2 w2 e (en n')); rewrite ?at_lt by lia; auto. now apply gap_en.
  - intros st n s d o w e P A L. destruct (PP _ _ _ _ _ _ P) as (NN & d2 & o2 & w2 & P2). pose proof (LR _ _ _ _ _ _ P) as LE. rewrite (en_lt n) by exact NN. exists (bad BadMappingTerminator (en e) (en e)). split; [|apply alike_en; [noesc|reflexivity|reflexivity]].
    apply (fm_last_open _ _ n s d2 o2 w2 (en e)); [exact P2|now rewrite at_en by lia].
  - intros st n s d o w e r P A _ (EL & r' & H & AL) L. destruct (PP _ _ _ _ _ _ P) as (NN & d2 & o2 & w2 & P2). rewrite (en_lt n) by exact NN. rewrite (en_lt e) in * by exact EL. exists r'. split; [|exact AL].
    apply (fm_last_pair _ _ n s d2 o2 w2 e); [exact P2|now rewrite at_lt by lia|exact H].
  - intros st n s d o w e s' d' o' w' e' P A P' A' L. destruct (PP _ _ _ _ _ _ P) as (NN & d2 & o2 & w2 & P2). destruct (PP _ _ _ _ _ _ P') as (EL & d3 & o3 & w3 & P3). pose proof (LR _ _ _ _ _ _ P') as LE. rewrite (en_lt n) by exact NN. rewrite (en_lt e) in P2 by exact EL.
    exists (bad BadMappingTerminator e (en e')). split; [|apply alike_en; [noesc|reflexivity|now rewrite en_lt]]. apply (fm_last_end _ _ n s d2 o2 w2 e s' d3 o3 w3 (en e')); rewrite ?(at_lt e), ?at_en by lia; auto.
  - intros st n N C Z. pose proof (not_at n _ N) as NL0. split; [exact NL0|]. exists (bad BadMappingSeparator (en st) len2). split; [|apply alike_en; [noesc|now rewrite en_len|reflexivity]].
    apply fr_key; [now rewrite at_lt|apply none_end; [lia|apply WC; cbn; auto|exact C]|apply none_end; [lia|apply WC; cbn; auto|exact Z]].
  - intros st n s k m r N K G _ (ML & r' & H & AL). destruct (flow_key_en n s k K) as (NK & K2). split; [lia|]. exists r'. split; [|exact AL]. apply (fr_value _ _ n s k m); [now rewrite at_lt by lia|exact K2|rewrite <- (en_lt m) by exact ML; now apply gap_en|exact H].
Qed.
Lemma puts_header_en p i p' j : puts_header T p i p' j -> (i <= len)%nat -> (j <= len)%nat /\ forall q, exists q', puts_header T2 q (en i) q' (en j).
Proof.
  induction 1 as [p i A N|p i k n p' j A L G H IH|p i j A B C G]; intros IL.
  - split; [exact IL|]. intros q. exists q. apply ph_none; rewrite at_en by exact IL; [exact A|]. intros (X & Y & Z). apply N. assert (IS : (S i < len)%nat) by (apply (next_at i _ X); discriminate). rewrite en_lt in Y, Z by lia.
    split; [exact X|]. change (1 + i)%nat with (S i) in *. rewrite at_lt in Y by lia. split; [exact Y|]. assert (IS2 : (S (S i) < len)%nat) by (apply (next_at (S i) _ Y); discriminate). change (2 + i)%nat with (S (S i)) in *. now rewrite at_lt in Z by lia.
  - assert (IS : (i < len)%nat) by (apply in_lt; rewrite A; discriminate). destruct (line_in i k IS L) as (KL & L2). destruct (IH (proj2 (gap_le T _ _ G))) as (JL & H2). split; [exact JL|]. intros q. rewrite (en_lt i) by lia.
    destruct (H2 (slice T2 k (en n))) as (q' & H3). exists q'. apply (ph_directive _ _ _ k (en n)); [now rewrite at_lt|exact L2|now apply gap_en|exact H3].
  - assert (IS : (S (2 + i) < len)%nat) by (apply (next_at (2 + i) _ C); discriminate). split; [apply (gap_le T _ _ G)|]. intros q. rewrite (en_lt i) by lia. eexists. apply ph_marker; rewrite ?at_lt by lia; auto. now apply gap_en.
Qed.
Lemma wrong_trail r : wrong T r -> exists r', wrong T2 r' /\ alike r r'.
Proof.
  pose proof le2 as LE2. intros [n p i r0 G H F|n p i d o w j w' n' G H P A L]; destruct (puts_header_en _ _ _ _ H (proj2 (gap_le T _ _ G))) as (IL & H2); destruct (H2 (slice T2 0 (en n))) as (q' & H3); pose proof (gap_en _ _ G) as G2.
  - destruct (proj1 fails_trail _ _ _ _ F) as (IL2 & r' & F2 & AL). rewrite (en_lt i) in H3 by exact IL2. exists r'. split; [exact (wr_value _ _ _ _ _ G2 H3 F2)|exact AL].
  - destruct (proj1 puts_trail _ _ _ _ _ _ _ P) as (d2 & o2 & w2 & P2 & AF). destruct (after_en w w2 j w' n' AF A) as (w3 & A2). rewrite (en_lt n') in A2 by exact L. exists (bad ExpectedEof n' len2). split; [apply (wr_more _ _ _ _ _ _ _ _ _ _ G2 H3 P2 A2); lia|].
    apply alike_en; [noesc|now rewrite en_len|now rewrite en_lt].
Qed.
End Trail.
