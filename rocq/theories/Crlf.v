(* What line ends of two bytes, CR LF, change in what a text stands for. *)
From Coq Require Import String.
From Coq Require Import List NArith Bool Arith Lia.
From Verif Require Import Bytes Utf8 Data Scan Shown Plain White Valid Lexed Means Places Parser Abs ReadsSound MeansSound MeansComplete Nest.
Import ListNotations.
Local Open Scope N_scope.

(* ---- definitions ---- *)
Definition crlf (text : bytes) : bytes := flat_map (fun c => if c =? NEWLINE then [CR; NEWLINE] else [c]) text.
(* The same string with a CR before some newlines. *)
Inductive with_cr : bytes -> bytes -> Prop :=
| wc_nil : with_cr [] []
| wc_byte c s s' : with_cr s s' -> with_cr (c :: s) (c :: s')
| wc_line s s' : with_cr s s' -> with_cr (NEWLINE :: s) (CR :: NEWLINE :: s').
Inductive cr_datum : datum -> datum -> Prop :=
| cd_null : cr_datum DNull DNull
| cd_bool v : cr_datum (DBool v) (DBool v)
| cd_num s h : cr_datum (DNum s h) (DNum s h)
| cd_str s s' : with_cr s s' -> cr_datum (DStr s) (DStr s')
(* a plain word at the end of its line *)
| cd_word x d : plain_datum x d -> (forall h, ~ number_text x h) -> ~ In NEWLINE x -> cr_datum d (DStr (x ++ [CR]))
| cd_map l l' : Forall2 (fun e e' => with_cr (fst e) (fst e') /\ cr_datum (snd e) (snd e')) l l' -> cr_datum (DMap l) (DMap l')
| cd_seq l l' : Forall2 cr_datum l l' -> cr_datum (DSeq l) (DSeq l').

(* ---- proofs ---- *)
Lemma crlf_app x y : crlf (x ++ y) = crlf x ++ crlf y.
Proof. apply flat_map_app. Qed.
Lemma crlf_same x : ~ In NEWLINE x -> crlf x = x.
Proof.
  induction x as [|c x IH]; intros N; [reflexivity|]. change (crlf (c :: x)) with ((if c =? NEWLINE then [CR; NEWLINE] else [c]) ++ crlf x).
  assert (c =? NEWLINE = false) as -> by (apply N.eqb_neq; intros ->; apply N; now left). rewrite IH; [reflexivity|]. intros I. apply N. now right.
Qed.
Lemma crlf_in c x : c <> CR -> In c (crlf x) <-> In c x.
Proof.
  intros N. unfold crlf. rewrite in_flat_map. split.
  - intros (a & A & I). destruct (a =? NEWLINE) eqn:E; [apply N.eqb_eq in E as ->; destruct I as [I|[I|[]]]; [congruence|now subst c]|]. destruct I as [->|[]]. exact A.
  - intros I. exists c. split; [exact I|]. destruct (c =? NEWLINE) eqn:E; [apply N.eqb_eq in E as ->|]; cbn; auto.
Qed.
Lemma crlf_count x : count_occ N.eq_dec (crlf x) NEWLINE = count_occ N.eq_dec x NEWLINE.
Proof.
  induction x as [|c x IH]; [reflexivity|]. change (crlf (c :: x)) with ((if c =? NEWLINE then [CR; NEWLINE] else [c]) ++ crlf x).
  destruct (c =? NEWLINE) eqn:E; [apply N.eqb_eq in E as ->; cbn; now rewrite IH|]. cbn [app]. cbn [count_occ]. destruct (N.eq_dec c NEWLINE); now rewrite IH.
Qed.
Lemma crlf_exists x : existsb (N.eqb NEWLINE) (crlf x) = existsb (N.eqb NEWLINE) x.
Proof.
  induction x as [|c x IH]; [reflexivity|]. change (crlf (c :: x)) with ((if c =? NEWLINE then [CR; NEWLINE] else [c]) ++ crlf x).
  destruct (c =? NEWLINE) eqn:E; [apply N.eqb_eq in E as ->; reflexivity|]. cbn [app existsb]. now rewrite IH.
Qed.
Lemma crlf_last x : after_last_nl (crlf x) = after_last_nl x.
Proof.
  induction x as [|c x IH]; [reflexivity|]. change (crlf (c :: x)) with ((if c =? NEWLINE then [CR; NEWLINE] else [c]) ++ crlf x).
  assert (S : existsb (N.eqb NEWLINE) x = false -> crlf x = x).
  { intros E. apply crlf_same. intros I. apply not_true_iff_false in E. apply E. apply existsb_exists. exists NEWLINE. split; [exact I|reflexivity]. }
  destruct (c =? NEWLINE) eqn:E.
  - apply N.eqb_eq in E as ->. cbn [app after_last_nl existsb]. change (NEWLINE =? NEWLINE) with true. cbn [orb]. rewrite crlf_exists.
    destruct (existsb (N.eqb NEWLINE) x) eqn:X; [exact IH|]. now apply S.
  - cbn [app after_last_nl]. rewrite crlf_exists, E. destruct (existsb (N.eqb NEWLINE) x) eqn:X; [exact IH|]. now rewrite S.
Qed.
Lemma with_cr_refl s : with_cr s s.
Proof. induction s; now constructor. Qed.
Lemma with_cr_all s : with_cr s (crlf s).
Proof.
  induction s as [|c x IH]; [constructor|]. change (crlf (c :: x)) with ((if c =? NEWLINE then [CR; NEWLINE] else [c]) ++ crlf x).
  destruct (c =? NEWLINE) eqn:E; [apply N.eqb_eq in E as ->|]; now constructor.
Qed.
Lemma with_cr_app s s' t t' : with_cr s s' -> with_cr t t' -> with_cr (s ++ t) (s' ++ t').
Proof. induction 1; intros T; cbn [app]; auto; constructor; auto. Qed.

Lemma number_cr x h : number_text x h -> ~ In CR x.
Proof.
  assert (D : forall a, Forall digit a -> ~ In CR a) by (intros a F I; rewrite Forall_forall in F; apply F in I; unfold digit, CR in I; lia).
  assert (U : forall y fl, unsigned_number y fl -> ~ In CR y).
  { intros y fl [a A _|a c A C|a e c A _ E C|a c e f A C _ E F] I; rewrite ?in_app_iff in I; cbn [In] in I; unfold DOT in I;
      repeat match goal with H : Forall digit _ |- _ => apply D in H end; unfold CR in *; intuition (subst; discriminate). }
  intros [(fl & H & _)|(y & fl & -> & H & _)]; [now apply (U x fl)|]. intros [I|I]; [discriminate|]. now apply (U y fl).
Qed.
Lemma spelled_cr x kw : spelled x kw -> Forall (fun c => 65 <= c) kw -> ~ In CR x.
Proof. induction 1 as [|a c x kw A S IH]; intros F I; [destruct I|]. inversion F as [|? ? F1 F2]; subst. destruct I as [->|I]; [unfold CR in A; lia|now apply IH]. Qed.
Lemma cr_str x : In CR x -> plain_datum x (DStr x).
Proof.
  intros I. apply pd_str; [intros ->; cbn in I; unfold CR in I; intuition discriminate|..|intros h N; now apply (number_cr x h)];
    intros S; apply (spelled_cr x _ S); auto; repeat constructor; cbn; lia.
Qed.

Lemma escape_bare e x : yaml_escape e x -> ~ In NEWLINE e /\ ~ In CR e.
Proof.
  intros Y. assert (HX : forall c v, hex c v -> c <> 10 /\ c <> 13) by (intros c n [? X1|? X1|? X1]; unfold digit in *; lia).
  change NEWLINE with 10. change CR with 13.
  split; intros I; destruct Y; rewrite ?in_app_iff in I; cbn in I; repeat match goal with H : hex _ _ |- _ => apply HX in H end; intuition congruence.
Qed.
Lemma crlf_cons c x : crlf (c :: x) = (if c =? NEWLINE then [CR; NEWLINE] else [c]) ++ crlf x.
Proof. reflexivity. Qed.
Lemma crlf_prefix e : forall x y', crlf x = e ++ y' -> ~ In CR e -> exists y, x = e ++ y /\ y' = crlf y.
Proof.
  induction e as [|c e IH]; intros x y' E N; [exists x; auto|]. destruct x as [|a x]; [discriminate|]. rewrite crlf_cons in E. destruct (a =? NEWLINE) eqn:A; cbn [app] in E; injection E as EC E; subst c.
  - exfalso. apply N. now left.
  - destruct (IH x y' E) as (y & -> & ->); [intros I; apply N; now right|]. exists y. auto.
Qed.
Lemma crlf_suffix c x y' : crlf x = y' ++ [c] -> c <> NEWLINE -> exists y, x = y ++ [c] /\ y' = crlf y.
Proof.
  intros E N. destruct x as [|a x _] using rev_ind; [destruct y'; discriminate|]. rewrite crlf_app in E. cbn in E. destruct (a =? NEWLINE) eqn:A; cbn [app] in E.
  - change [CR; NEWLINE] with ([CR] ++ [NEWLINE]) in E. rewrite app_assoc in E. apply app_inj_tail in E as [_ E]. congruence.
  - apply app_inj_tail in E as [<- <-]. exists x. auto.
Qed.
Lemma sq_back y : forall v', sq_content (crlf y) v' -> exists v, sq_content y v.
Proof.
  enough (H : forall n y, (length y <= n)%nat -> forall v', sq_content (crlf y) v' -> exists v, sq_content y v) by (intros v'; now apply (H (length y))).
  clear y. induction n as [|n IH]; intros y L v' S; (destruct y as [|c y]; [exists []; constructor|]); [cbn in L; lia|]. cbn [length] in L. rewrite crlf_cons in S. destruct (c =? NEWLINE) eqn:E.
  - apply N.eqb_eq in E as ->. cbn [app] in S. inversion S as [|? ? v1 _ S1|]; subst. inversion S1 as [|? ? v2 _ S2|]; subst. destruct (IH y ltac:(lia) _ S2) as (v & V). exists (NEWLINE :: v). apply sc_byte; [discriminate|exact V].
  - cbn [app] in S. inversion S as [|? ? v1 N S1|y1 v1 S1 E1]; subst.
    + destruct (IH y ltac:(lia) _ S1) as (v & V). exists (c :: v). now apply sc_byte.
    + destruct (crlf_prefix (b "'") y y1) as (y2 & -> & ->); [cbn [app]; now symmetry|intros [X|[]]; discriminate X|]. cbn in L. destruct (IH y2 ltac:(lia) _ S1) as (v & V). exists (b "'" ++ v). now apply (sc_pair y2).
Qed.
Lemma dq_back y : forall v', dq_shown (crlf y) v' -> exists v, dq_shown y v.
Proof.
  enough (H : forall n y, (length y <= n)%nat -> forall v', dq_shown (crlf y) v' -> exists v, dq_shown y v) by (intros v'; now apply (H (length y))).
  clear y. induction n as [|n IH]; intros y L v' S; (destruct y as [|c y]; [exists []; constructor|]); [cbn in L; lia|]. cbn [length] in L. rewrite crlf_cons in S. destruct (c =? NEWLINE) eqn:E.
  - apply N.eqb_eq in E as ->. cbn [app] in S. inversion S as [|? ? v1 _ _ S1| |]; subst. inversion S1 as [|? ? v2 N2 Z2 S2| |]; subst. destruct (IH y ltac:(lia) _ S2) as (v & V). exists (NEWLINE :: v). now apply ds_byte.
  - cbn [app] in S. inversion S as [|? ? v1 N Z S1|e x y1 v1 X S1 E1|y1 v1 S1 E1]; subst.
    + destruct (IH y ltac:(lia) _ S1) as (v & V). exists (c :: v). now apply ds_byte.
    + destruct (crlf_prefix e y y1) as (y2 & -> & ->); [now symmetry|now apply (escape_bare e x)|]. rewrite app_length in L. destruct (IH y2 ltac:(lia) _ S1) as (v & V). exists (x ++ v). now apply (ds_esc e x).
    + destruct (crlf_prefix (b "\") y y1) as (y2 & -> & ->); [cbn [app]; now symmetry|intros [X|[]]; discriminate X|]. cbn in L. destruct (IH y2 ltac:(lia) _ S1) as (v & V). exists (b """" ++ v). now apply (ds_slash y2).
Qed.

Section Crlf.
Variable T : bytes.
Local Notation T' := (crlf T).
Local Notation at_ i := (nth i T 0).
Local Notation at' i := (nth i (crlf T) 0).
Definition place (i : nat) : nat := length (crlf (firstn i T)).
Lemma place_rest i : (i <= length T)%nat -> firstn (place i) T' = crlf (firstn i T) /\ skipn (place i) T' = crlf (skipn i T).
Proof.
  intros L. assert (E : T' = crlf (firstn i T) ++ crlf (skipn i T)) by now rewrite <- crlf_app, firstn_skipn. unfold place. rewrite E.
  rewrite firstn_app, Nat.sub_diag, firstn_all, firstn_O, app_nil_r. split; [reflexivity|]. now rewrite skipn_app, Nat.sub_diag, skipn_all.
Qed.
Lemma place_0 : place 0 = O. Proof. reflexivity. Qed.
Lemma place_end : place (length T) = length T'.
Proof. unfold place. now rewrite firstn_all. Qed.
Lemma place_S i : (i < length T)%nat -> place (S i) = (place i + if N.eqb (at_ i) NEWLINE then 2 else 1)%nat.
Proof.
  intros L. unfold place. assert (E : firstn (S i) T = firstn i T ++ [at_ i]).
  { clear -L. revert i L. induction T as [|c t IH]; intros i L; cbn in L; [lia|]. destruct i as [|i]; [reflexivity|]. cbn [nth]. rewrite 2!firstn_cons. cbn [app]. f_equal. apply IH. lia. }
  rewrite E, crlf_app, app_length. f_equal. cbn. destruct (_ =? _); reflexivity.
Qed.
Lemma place_mono i j : (i < j <= length T)%nat -> (place i < place j)%nat.
Proof.
  intros [L LE]. induction L as [|j L IH].
  - rewrite place_S by lia. destruct (_ =? _); lia.
  - specialize (IH ltac:(lia)). rewrite place_S by lia. destruct (_ =? _); lia.
Qed.
Lemma place_le i j : (i <= j <= length T)%nat -> (place i <= place j)%nat.
Proof. intros L. destruct (Nat.eq_dec i j) as [->|N]; [lia|]. pose proof (place_mono i j). lia. Qed.
Lemma place_in i : (i <= length T)%nat -> (place i <= length T')%nat.
Proof. intros L. rewrite <- place_end. apply place_le. lia. Qed.
Lemma at_place i : (i <= length T)%nat -> at' (place i) = if N.eqb (at_ i) NEWLINE then CR else at_ i.
Proof.
  intros L. rewrite (at_hd T'), (proj2 (place_rest i L)), (at_hd T). destruct (skipn i T) as [|c r]; [reflexivity|].
  change (crlf (c :: r)) with ((if c =? NEWLINE then [CR; NEWLINE] else [c]) ++ crlf r). cbn [hd]. destruct (c =? NEWLINE); reflexivity.
Qed.
Lemma at_other i : (i <= length T)%nat -> at_ i <> NEWLINE -> at' (place i) = at_ i.
Proof. intros L N. rewrite at_place by exact L. apply N.eqb_neq in N as ->. reflexivity. Qed.
Lemma next_place i : (i < length T)%nat -> at_ i <> NEWLINE -> S (place i) = place (S i).
Proof. intros L N. rewrite place_S by exact L. apply N.eqb_neq in N as ->. lia. Qed.
Lemma at_line i : at_ i = NEWLINE -> (i < length T)%nat /\ at' (place i) = CR /\ at' (S (place i)) = NEWLINE /\ place (S i) = S (S (place i)).
Proof.
  intros E. assert (L : (i < length T)%nat) by (apply (at_lt T i _ E); discriminate). split; [exact L|].
  assert (S : skipn (place i) T' = [CR; NEWLINE] ++ crlf (skipn (S i) T)).
  { rewrite (proj2 (place_rest i ltac:(lia))), (rest_at T i L), E. reflexivity. }
  split; [rewrite at_hd, S; reflexivity|]. split; [|rewrite place_S, E by exact L; cbn; lia].
  pose proof (nth_rest T' (place i) 1) as H. rewrite S in H. cbn in H. rewrite Nat.add_1_r in H. now symmetry.
Qed.
Lemma part_place i j : (i <= j <= length T)%nat -> slice T' (place i) (place j) = crlf (slice T i j).
Proof.
  intros L. destruct (split3 T i j L) as (E & E1 & E2).
  assert (H : T' = crlf (firstn i T) ++ crlf (slice T i j) ++ crlf (skipn j T)) by (rewrite <- !crlf_app; f_equal; exact E).
  assert (J : firstn j T = firstn i T ++ slice T i j).
  { rewrite E at 1. rewrite app_assoc. rewrite <- E2 at 1. rewrite firstn_app, Nat.sub_diag, firstn_O, firstn_all, app_nil_r. reflexivity. }
  unfold place. rewrite J, crlf_app. now apply (r_slice T' _ _ (crlf (skipn j T))).
Qed.
Lemma column_place i : (i <= length T)%nat -> column T' (place i) = column T i.
Proof. intros L. unfold column, count_indent. now rewrite (proj1 (place_rest i L)), crlf_last. Qed.
Lemma place_inv k : (k <= length T')%nat -> exists i, (i <= length T)%nat /\ (k = place i \/ (at_ i = NEWLINE /\ k = S (place i))).
Proof.
  induction k as [|k IH]; intros L; [exists O; split; [lia|now left]|]. destruct (IH ltac:(lia)) as (i & LI & H).
  assert (N : i <> length T). { intros ->. destruct H as [->|[H _]]; [rewrite place_end in L; lia|]. apply at_line in H as [H _]. lia. }
  destruct (N.eq_dec (at_ i) NEWLINE) as [E|E].
  - destruct (at_line i E) as (_ & _ & _ & P). destruct H as [->|[_ ->]]; [exists i; auto|]. exists (S i). split; [lia|]. left. lia.
  - exists (S i). split; [lia|]. left. rewrite <- next_place by (lia || exact E). destruct H as [->|[H _]]; [reflexivity|contradiction].
Qed.
(* Where a place between two items may be found again. *)
Definition img (j j' : nat) : Prop := j' = place j \/ (at_ j = NEWLINE /\ j' = S (place j)).
Definition eol (k : nat) : nat := if at_ k =? NEWLINE then S (place k) else place k.
Lemma img_eol k : img k (eol k).
Proof. unfold img, eol. destruct (at_ k =? NEWLINE) eqn:E; [|now left]. apply N.eqb_eq in E. now right. Qed.
Lemma img_other j j' : img j j' -> at_ j <> NEWLINE -> j' = place j.
Proof. intros [H|[H _]] N; [exact H|contradiction]. Qed.
Lemma img_at j j' : (j <= length T)%nat -> img j j' -> at' j' = at_ j \/ at_ j = NEWLINE /\ In (at' j') [CR; NEWLINE].
Proof.
  intros L [->|[E ->]].
  - rewrite at_place by exact L. destruct (at_ j =? NEWLINE) eqn:E; [apply N.eqb_eq in E; right; cbn; auto|now left].
  - destruct (at_line j E) as (_ & _ & H & _). left. congruence.
Qed.
Lemma img_not c j j' : (j <= length T)%nat -> img j j' -> c <> CR -> at_ j <> c -> at' j' <> c.
Proof. intros L I N A. destruct (img_at j j' L I) as [->|[E [H|[H|[]]]]]; congruence. Qed.
Lemma img_le j j' : (j <= length T)%nat -> img j j' -> (place j <= j' <= length T')%nat.
Proof.
  intros L [->|[E ->]]; [split; [lia|now apply place_in]|]. destruct (at_line j E) as (L' & _ & _ & P). pose proof (place_in (S j) ltac:(lia)). lia.
Qed.
(* parts *)
Lemma part_img i j j' : (i <= j <= length T)%nat -> img j j' -> slice T' (place i) j' = crlf (slice T i j) ++ (if Nat.eqb j' (place j) then [] else [CR]).
Proof.
  intros L I. pose proof (img_le j j' ltac:(lia) I) as LE. rewrite <- (seg_app T' (place i) (place j) j') by (pose proof (place_le i j L); lia). rewrite part_place by exact L. f_equal.
  destruct I as [->|[E ->]].
  - rewrite Nat.eqb_refl. apply length_zero_iff_nil. rewrite seg_length by lia. lia.
  - replace (S (place j) =? place j)%nat with false by (symmetry; apply Nat.eqb_neq; lia). destruct (at_line j E) as (_ & C & _).
    rewrite part_at by lia. rewrite C. f_equal. apply length_zero_iff_nil. rewrite seg_length by lia. lia.
Qed.
Lemma count_img i i' j : (i <= j <= length T)%nat -> img i i' -> at_ j <> NEWLINE \/ (i < j)%nat -> count_occ N.eq_dec (slice T' i' (place j)) NEWLINE = count_occ N.eq_dec (slice T i j) NEWLINE.
Proof.
  intros L I N. rewrite <- (crlf_count (slice T i j)), <- part_place by exact L. destruct I as [->|[E ->]]; [reflexivity|].
  assert (L' : (i < j)%nat). { destruct N as [N|N]; [|exact N]. destruct (Nat.eq_dec i j) as [->|]; [contradiction|lia]. }
  pose proof (place_mono i j ltac:(lia)). pose proof (place_in j ltac:(lia)). destruct (at_line i E) as (_ & C & _).
  rewrite (part_at T' (place i) (place j)) by lia. rewrite C. reflexivity.
Qed.
(* lines *)
Lemma line_img i k : line_to T i k -> line_to T' (place i) (eol k).
Proof.
  intros (L & N & E). pose proof (img_le k _ ltac:(lia) (img_eol k)) as LE. pose proof (place_le i k ltac:(lia)) as PL. split; [lia|].
  rewrite (part_img i k) by (lia || apply img_eol). split.
  - rewrite in_app_iff. intros [I|I]; [now apply (proj1 (crlf_in NEWLINE _ ltac:(discriminate))) in I|]. destruct (Nat.eqb _ _); [destruct I|]. destruct I as [I|[]]. discriminate.
  - unfold eol. destruct E as [->|E].
    + left. assert (H : at_ (length T) <> NEWLINE) by (rewrite nth_overflow by lia; discriminate). apply N.eqb_neq in H as ->. apply place_end.
    + right. rewrite E. apply at_line. exact E.
Qed.
Lemma line_part i k : line_to T i k -> exists e, slice T' (place i) (eol k) = slice T i k ++ e /\ Forall blank e /\ (e = [] \/ at_ k = NEWLINE /\ e = [CR]).
Proof.
  intros (L & N & _). rewrite (part_img i k) by (lia || apply img_eol). rewrite crlf_same by exact N. eexists. split; [reflexivity|]. unfold eol. destruct (at_ k =? NEWLINE) eqn:E.
  - apply N.eqb_eq in E. replace (S (place k) =? place k)%nat with false by (symmetry; apply Nat.eqb_neq; lia). split; [constructor; [unfold blank, CR; cbn; auto|constructor]|auto].
  - rewrite Nat.eqb_refl. split; [constructor|auto].
Qed.
Lemma gap_img i j : gap_to T i j -> forall i', img i i' -> gap_to T' i' (place j).
Proof.
  induction 1 as [i L W H|i j W G IH|i k j H L G IH]; intros i' I.
  - assert (N : at_ i <> NEWLINE) by now apply white_nl. rewrite (img_other _ _ I N). apply ga_none; [now apply place_in|now rewrite at_other|now rewrite at_other].
  - pose proof (white_lt T i W) as L. destruct (N.eq_dec (at_ i) NEWLINE) as [E|E].
    + destruct (at_line i E) as (_ & C & N & P). specialize (IH (place (S i)) (or_introl eq_refl)). rewrite P in IH.
      assert (G2 : gap_to T' (S (place i)) (place j)) by (apply ga_white; [rewrite N; cbn; auto|exact IH]).
      destruct I as [->|[_ ->]]; [|exact G2]. apply ga_white; [rewrite C; cbn; auto|exact G2].
    + rewrite (img_other _ _ I E). apply ga_white; [rewrite at_other by (lia || exact E); exact W|]. rewrite next_place by (lia || exact E). apply IH. now left.
  - assert (N : at_ i <> NEWLINE) by (rewrite H; discriminate). rewrite (img_other _ _ I N). pose proof (at_lt T i _ H ltac:(discriminate)).
    apply (ga_comment _ _ (eol k)); [now rewrite at_other by (lia || exact N)|now apply line_img|]. apply IH, img_eol.
Qed.
Lemma gap_nl i j : gap_to T i j -> at_ j <> NEWLINE.
Proof. induction 1 as [i L W H| |]; auto. now apply white_nl. Qed.
Lemma ends_img i : (i <= length T)%nat -> ends_key T i <-> ends_key T' (place i).
Proof.
  intros L. unfold ends_key. rewrite at_place by exact L. destruct (at_ i =? NEWLINE) eqn:E; [|reflexivity]. apply N.eqb_eq in E. rewrite E. split; intros _; left; cbn; auto.
Qed.
Lemma colon_img i j j' : (i <= j <= length T)%nat -> img j j' -> (forall k, (i <= k < j)%nat -> at_ k = COLON -> ~ ends_key T (S k)) ->
  forall k, (place i <= k < j')%nat -> at' k = COLON -> ~ ends_key T' (S k).
Proof.
  intros L I H k K E. pose proof (img_le j j' ltac:(lia) I) as LE. destruct (place_inv k ltac:(lia)) as (m & LM & [->|[X ->]]).
  2:{ destruct (at_line m X) as (_ & _ & Y & _). rewrite E in Y. discriminate. }
  rewrite at_place in E by exact LM. destruct (at_ m =? NEWLINE) eqn:N; [discriminate|]. apply N.eqb_neq in N. pose proof (at_lt T m _ E ltac:(discriminate)) as LT.
  assert (M : (i <= m < j)%nat).
  { split; [destruct (le_lt_dec i m) as [X|X]; [exact X|pose proof (place_mono m i ltac:(lia)); lia]|]. destruct (le_lt_dec j m) as [X|X]; [|exact X]. exfalso.
    destruct (Nat.eq_dec j m) as [->|X']; [rewrite (img_other _ _ I N) in K; lia|]. pose proof (place_mono j m ltac:(lia)). destruct I as [->|[_ ->]]; [lia|].
    lia. }
  rewrite next_place by (lia || exact N). rewrite <- ends_img by lia. now apply H.
Qed.

(* quotes *)
Lemma sq_img y v : sq_content y v -> sq_content (crlf y) (crlf v).
Proof.
  induction 1 as [|c y v N S IH|y v S IH]; [constructor| |].
  - change (crlf (c :: y)) with ((if c =? NEWLINE then [CR; NEWLINE] else [c]) ++ crlf y). change (crlf (c :: v)) with ((if c =? NEWLINE then [CR; NEWLINE] else [c]) ++ crlf v).
    destruct (c =? NEWLINE); cbn [app]; repeat (constructor; [first [discriminate|exact N]|]); exact IH.
  - now apply (sc_pair (crlf y) (crlf v)).
Qed.
Lemma escape_nl e x : yaml_escape e x -> ~ In NEWLINE e.
Proof.
  intros Y I. assert (HX : forall c v, hex c v -> c <> NEWLINE) by (intros c n [? X1|? X1|? X1] ->; unfold digit, NEWLINE in X1; lia).
  destruct Y; rewrite ?in_app_iff in I; cbn in I; unfold NEWLINE in I; repeat match goal with H : hex _ _ |- _ => apply HX in H end; unfold NEWLINE in *; intuition congruence.
Qed.
Lemma dq_img y v : dq_shown y v -> exists v', dq_shown (crlf y) v' /\ with_cr v v'.
Proof.
  induction 1 as [|c y v N Z S (v' & IH & W)|e x y v X S (v' & IH & W)|y v S (v' & IH & W)].
  - exists []. split; constructor.
  - change (crlf (c :: y)) with ((if c =? NEWLINE then [CR; NEWLINE] else [c]) ++ crlf y). destruct (c =? NEWLINE) eqn:E.
    + apply N.eqb_eq in E as ->. exists (CR :: NEWLINE :: v'). split; [|now constructor]. cbn [app]. repeat (apply ds_byte; [cbn; unfold CR, NEWLINE; intuition discriminate|discriminate|]). exact IH.
    + exists (c :: v'). split; now constructor.
  - exists (x ++ v'). rewrite !crlf_app, (crlf_same e) by now apply (escape_nl e x). split; [now apply (ds_esc e x)|]. apply with_cr_app; [apply with_cr_refl|exact W].
  - exists (b """" ++ v'). split; [now apply (ds_slash (crlf y))|]. apply with_cr_app; [apply with_cr_refl|exact W].
Qed.
Lemma quote_img i s j : quote_at T i s j -> exists s', quote_at T' (place i) s' (place j) /\ with_cr s s'.
Proof.
  intros Q. assert (LE : (i <= j <= length T)%nat) by (apply quote_le in Q; lia). pose proof (place_le i j LE). pose proof (place_in j ltac:(lia)).
  pose proof (part_place i j LE) as P. destruct Q as [y L E S N|y e L E S X].
  - exists (crlf s). rewrite E, !crlf_app in P. split; [|apply with_cr_all]. apply (qa_single _ _ _ _ (crlf y)); [lia|exact P|now apply sq_img|].
    rewrite at_place by lia. destruct (at_ j =? NEWLINE); [discriminate|exact N].
  - destruct (dq_img _ _ S) as (s' & S' & W). exists s'. split; [|exact W]. rewrite E, !crlf_app in P.
    assert (EE : crlf e = e) by (apply crlf_same; destruct X as [->|[->|[-> _]]]; cbn; unfold NEWLINE; intuition discriminate). rewrite EE in P.
    apply (qa_double _ _ _ _ (crlf y) e); [lia|exact P|exact S'|]. destruct X as [X|[X|[X J]]]; auto. right. right. split; [exact X|]. subst j. apply place_end.
Qed.

(* numbers *)
Lemma crlf_firstn x : forall n, (n <= length (crlf x))%nat -> ~ In CR (firstn n (crlf x)) -> (n <= length x)%nat /\ firstn n (crlf x) = firstn n x /\ ~ In NEWLINE (firstn n x).
Proof.
  induction x as [|c x IH]; intros n L N; [cbn in *; assert (n = O) by lia; subst n; cbn; auto|].
  change (crlf (c :: x)) with ((if c =? NEWLINE then [CR; NEWLINE] else [c]) ++ crlf x) in *. destruct n as [|n]; [cbn; repeat split; auto; lia|].
  destruct (c =? NEWLINE) eqn:E; [exfalso; apply N; cbn; auto|]. cbn [app] in *. rewrite firstn_cons in *. cbn [length] in L.
  destruct (IH n ltac:(lia)) as (A & B & C); [intros I; apply N; now right|]. split; [cbn; lia|]. rewrite ?firstn_cons. split; [f_equal; exact B|]. apply N.eqb_neq in E. intros [I|I]; [congruence|contradiction].
Qed.
Lemma part_back i k' : (i <= length T)%nat -> (place i <= k' <= length T')%nat -> ~ In CR (slice T' (place i) k') ->
  exists k, (i <= k <= length T)%nat /\ k' = place k /\ slice T i k = slice T' (place i) k'.
Proof.
  intros L K N. assert (D : forall s a c, (a <= c <= length s)%nat -> slice s a c = firstn (c - a) (skipn a s)).
  { intros s a c L1. unfold slice. assert ((a <=? c)%nat && (c <=? length s)%nat = true) as ->; [|reflexivity]. apply andb_true_iff. split; apply Nat.leb_le; lia. }
  rewrite D, (proj2 (place_rest i L)) in N by lia. assert (LS : (k' - place i <= length (crlf (skipn i T)))%nat).
  { rewrite <- (proj2 (place_rest i L)), skipn_length. lia. }
  destruct (crlf_firstn _ _ LS N) as (A & B & C). rewrite skipn_length in A. exists (i + (k' - place i))%nat. split; [lia|].
  assert (P : slice T i (i + (k' - place i)) = slice T' (place i) k').
  { rewrite !D by lia. rewrite (proj2 (place_rest i L)), B. f_equal. lia. }
  split; [|exact P]. assert (X : length (slice T' (place i) (place (i + (k' - place i)))) = length (slice T' (place i) k')).
  { rewrite part_place by lia. rewrite <- P. rewrite crlf_same; [reflexivity|]. rewrite D by lia. replace (i + (k' - place i) - i)%nat with (k' - place i)%nat by lia. exact C. }
  pose proof (place_le i (i + (k' - place i)) ltac:(lia)). pose proof (place_in (i + (k' - place i)) ltac:(lia)). rewrite !seg_length in X by lia. lia.
Qed.
Lemma number_img flow i h j : number_at T flow i h j -> number_at T' flow (place i) h (place j) /\ slice T' (place i) (place j) = slice T i j.
Proof.
  intros (L & N & M & E). pose proof (place_le i j L). pose proof (place_in j ltac:(lia)). pose proof (part_place i j L) as P. rewrite (crlf_same (slice T i j)) in P by now apply (number_nl _ h).
  split; [|exact P]. split; [lia|]. rewrite P. split; [exact N|]. split.
  - intros k h' K N'. destruct (part_back i k ltac:(lia) ltac:(lia) (number_cr _ _ N')) as (k0 & L0 & -> & P0). apply (M k0 h'); [|now rewrite P0].
    split; [|lia]. destruct (le_lt_dec k0 j) as [X|X]; [|exact X]. pose proof (place_le k0 j ltac:(lia)). lia.
  - intros FL. destruct (E FL) as (k & LT & B). exists (eol k). split; [now apply line_img|]. destruct (line_part j k LT) as (e & -> & BE & _). now apply Forall_app.
Qed.
Lemma number_back flow i h k' : (i <= length T)%nat -> number_at T' flow (place i) h k' -> exists k, number_at T flow i h k.
Proof.
  intros L (L' & N & M & E). destruct (part_back i k' L L' (number_cr _ _ N)) as (k & LK & -> & P). exists k. split; [lia|]. rewrite P. split; [exact N|]. split.
  - intros k0 h' K N'. apply (M (place k0) h'); [split; [apply place_mono; lia|apply place_in; lia]|]. rewrite part_place by lia. rewrite crlf_same by now apply (number_nl _ h'). exact N'.
  - intros FL. destruct (E FL) as (k1 & LT & B). destruct (line_find T k ltac:(lia)) as (k2 & L2 & _). exists k2. split; [exact L2|].
    pose proof (line_img k k2 L2) as L3. rewrite (line_det T' _ _ _ LT L3) in B. destruct (line_part k k2 L2) as (e & X & _). rewrite X in B. now apply Forall_app in B.
Qed.

(* words *)
Lemma no_word_img flow i : (i <= length T)%nat -> no_word T flow i <-> no_word T' flow (place i).
Proof.
  intros L. unfold no_word. destruct (N.eq_dec (at_ i) NEWLINE) as [E|E].
  - destruct (at_line i E) as (_ & C & _). rewrite E, C. unfold CR, NEWLINE, DASH. cbn. intuition discriminate.
  - rewrite at_other by assumption. destruct (N.eq_dec (at_ i) DASH) as [D|D]; [|intuition]. pose proof (at_lt T i _ D ltac:(discriminate)).
    rewrite next_place by (lia || exact E). rewrite at_place by lia. destruct (at_ (S i) =? NEWLINE) eqn:N; [|reflexivity]. apply N.eqb_eq in N. rewrite N. cbn. intuition.
Qed.
Lemma word_img flow i d j : ~ no_word T flow i -> (forall h k, ~ number_at T flow i h k) -> word_to T flow i j -> plain_datum (slice T i j) d ->
  exists d' j', img j j' /\ word_to T' flow (place i) j' /\ plain_datum (slice T' (place i) j') d' /\ cr_datum d d'.
Proof.
  intros NW NN W D. pose proof (word_le T flow i j W) as L. pose proof (place_le i j L) as PL. pose proof (place_in j ltac:(lia)) as PI.
  assert (NUM : forall h, ~ number_text (slice T i j) h) by (intros h N; apply (NN h j); now apply word_number).
  assert (SAME : plain_datum (slice T i j) d -> cr_datum d d) by (intros [| | | | |]; constructor; apply with_cr_refl).
  pose proof cr_str as STR.
  destruct flow.
  - destruct W as (_ & WC & WE). assert (EN : at_ j <> NEWLINE) by (intros E; rewrite E in WE; cbn in WE; unfold NEWLINE in WE; intuition discriminate).
    destruct (in_dec N.eq_dec NEWLINE (slice T i j)) as [I|I].
    + exists (DStr (crlf (slice T i j))), (place j). split; [now left|]. rewrite part_place by exact L. split; [split; [lia|split]|split].
      * intros c C X. rewrite part_place in C by exact L. destruct (N.eq_dec c CR) as [->|NC]; [cbn in X; unfold CR in X; intuition discriminate|].
        apply (WC c); [|exact X]. now apply (proj1 (crlf_in c _ NC)).
      * rewrite at_other by (lia || exact EN). exact WE.
      * apply STR. unfold crlf. apply in_flat_map. exists NEWLINE. split; [exact I|now left].
      * rewrite (datum_nl _ _ D I). constructor. apply with_cr_all.
    + exists d, (place j). split; [now left|]. rewrite part_place, (crlf_same (slice T i j)) by (exact L || exact I). split; [split; [lia|split]|split; [exact D|now apply SAME]].
      * rewrite part_place, (crlf_same (slice T i j)) by assumption. exact WC.
      * rewrite at_other by (lia || exact EN). exact WE.
  - destruct W as (LT & WC). destruct (line_part i j LT) as (e & PE & _ & [->|[EJ ->]]).
    + exists d, (eol j). split; [apply img_eol|]. rewrite PE, app_nil_r. split; [|split; [exact D|now apply SAME]].
      split; [now apply line_img|]. now apply (colon_img i j (eol j) L (img_eol j)).
    + exists (DStr (slice T i j ++ [CR])), (eol j). split; [apply img_eol|]. rewrite PE. split; [|split].
      * split; [now apply line_img|]. now apply (colon_img i j (eol j) L (img_eol j)).
      * apply STR. apply in_app_iff. right. now left.
      * apply cd_word; [exact D|exact NUM|apply LT].
Qed.

(* block scalars *)
Lemma space_cr : space_char [CR].
Proof. apply space_table. vm_compute. tauto. Qed.
Lemma trimmed_img i k t : line_to T i k -> trimmed (slice T i k) t -> trimmed (slice T' (place i) (eol k)) t.
Proof.
  intros L (u & v & U & V & E & C). destruct (line_part i k L) as (e & -> & _ & [->|[_ ->]]); [rewrite app_nil_r; exists u, v; auto|].
  exists u, (v ++ [[CR]]). split; [exact U|]. split; [apply Forall_app; split; [exact V|constructor; [exact space_cr|constructor]]|]. split; [|exact C].
  rewrite E, concat_app. cbn [concat]. rewrite app_nil_r, <- !app_assoc. reflexivity.
Qed.
Lemma gap_count i i' j : gap_to T i j -> img i i' -> count_occ N.eq_dec (slice T' i' (place j)) NEWLINE = count_occ N.eq_dec (slice T i j) NEWLINE.
Proof. intros G I. pose proof (gap_le T i j G). apply count_img; [lia|exact I|]. left. now apply (gap_nl i j). Qed.
Lemma lines_img folded c n v e m : lines_at T folded c n v e m -> lines_at T' folded c (place n) v (eol e) (place m).
Proof.
  induction 1 as [n l t m L K U G C|n l t L K U G C|n l t n' v e m L K U G L' C H IH].
  - pose proof (gap_le T l m G) as GL. apply la_last; [rewrite <- place_end; apply place_mono; lia|now apply line_img|now apply trimmed_img|apply (gap_img l m G), img_eol|].
    rewrite column_place by lia. exact C.
  - assert (E : joined folded (slice T l (length T)) = joined folded (slice T' (eol l) (place (length T)))).
    { unfold joined. destruct folded; [reflexivity|]. f_equal. symmetry. apply gap_count; [exact G|apply img_eol]. }
    rewrite E. rewrite place_end. apply la_end; [rewrite <- place_end; apply place_mono; lia|now apply line_img|now apply trimmed_img|rewrite <- place_end; apply (gap_img l _ G), img_eol|].
    rewrite <- place_end, column_place by lia. exact C.
  - assert (E : joined folded (slice T l n') = joined folded (slice T' (eol l) (place n'))).
    { unfold joined. destruct folded; [reflexivity|]. f_equal. symmetry. apply gap_count; [exact G|apply img_eol]. }
    rewrite E. apply (la_more _ _ _ _ _ _ (place n')); [rewrite <- place_end; apply place_mono; lia|now apply line_img|now apply trimmed_img|apply (gap_img l _ G), img_eol|rewrite <- place_end; apply place_mono; lia| |exact IH].
    rewrite column_place by lia. exact C.
Qed.
Lemma lines_gap folded c n v e m : lines_at T folded c n v e m -> gap_to T e m.
Proof. induction 1; assumption. Qed.
Lemma in_count (x : bytes) : In NEWLINE x <-> (0 < count_occ N.eq_dec x NEWLINE)%nat.
Proof. rewrite (count_occ_In N.eq_dec). reflexivity. Qed.
Lemma eol_end : eol (length T) = length T'.
Proof.
  unfold eol. assert (H : at_ (length T) <> NEWLINE) by (rewrite nth_overflow by lia; discriminate). apply N.eqb_neq in H as ->. apply place_end.
Qed.
Lemma body_img folded k v w j : block_body T folded k v w j -> exists w', block_body T' folded (place k) v w' (eol j) /\ newlines_in w' = newlines_in w.
Proof.
  assert (HD : (exists n, gap_to T k n /\ ~ In NEWLINE (slice T k n)) -> exists n', gap_to T' (place k) n' /\ ~ In NEWLINE (slice T' (place k) n')).
  { intros (n & G & N). exists (place n). split; [apply (gap_img k n G); now left|]. rewrite in_count, (gap_count k (place k) n G (or_introl eq_refl)), <- in_count. exact N. }
  intros [G I|n v0 e m G I L B|l t H L U G|l t n v0 e m H L U G LN B].
  - pose proof (gap_count k (place k) _ G (or_introl eq_refl)) as C. rewrite place_end in C. eexists. split; [rewrite eol_end; apply bb_empty|].
    + rewrite <- place_end. apply (gap_img k _ G). now left.
    + rewrite in_count, C, <- in_count. exact I.
    + unfold newlines_in. now rewrite C.
  - pose proof (gap_count k (place k) _ G (or_introl eq_refl)) as C. pose proof (lines_img _ _ _ _ _ _ B) as B'. pose proof (lines_gap _ _ _ _ _ _ B) as GE.
    exists (slice T' (eol e) (place m)). split; [apply (bb_lines _ _ _ (place n))|].
    + apply (gap_img k n G). now left.
    + rewrite in_count, C, <- in_count. exact I.
    + rewrite <- place_end. apply place_mono. lia.
    + rewrite column_place by lia. exact B'.
    + unfold newlines_in. rewrite (gap_count e _ m GE (img_eol e)). reflexivity.
  - pose proof (gap_count l _ _ G (img_eol l)) as C. rewrite place_end in C. eexists. rewrite eol_end. split; [apply (bb_head _ _ _ (eol l)); [now apply HD|now apply line_img|now apply trimmed_img|]|].
    + rewrite <- place_end. apply (gap_img l _ G), img_eol.
    + unfold newlines_in. now rewrite C.
  - pose proof (lines_img _ _ _ _ _ _ B) as B'. pose proof (lines_gap _ _ _ _ _ _ B) as GE. exists (slice T' (eol e) (place m)). split; [apply (bb_more _ _ _ (eol l) _ (place n))|].
    + now apply HD.
    + now apply line_img.
    + now apply trimmed_img.
    + apply (gap_img l _ G), img_eol.
    + rewrite <- place_end. apply place_mono. lia.
    + rewrite column_place by lia. exact B'.
    + unfold newlines_in. rewrite (gap_count e _ m GE (img_eol e)). reflexivity.
Qed.
Lemma at_not c i : (i <= length T)%nat -> c <> CR -> at_ i <> c -> at' (place i) <> c.
Proof. intros L N A. now apply (img_not c i (place i) L (or_introl eq_refl)). Qed.
Lemma not_in l i : (i <= length T)%nat -> ~ In CR l -> ~ In (at_ i) l -> ~ In (at' (place i)) l.
Proof. intros L N A. rewrite at_place by exact L. destruct (_ =? _); assumption. Qed.
Lemma at_some c i : at_ i = c -> c <> 0 -> c <> NEWLINE -> (i < length T)%nat /\ at' (place i) = c /\ S (place i) = place (S i).
Proof.
  intros E Z N. assert (L : (i < length T)%nat) by now apply (at_lt T i c). split; [exact L|]. split; [rewrite at_other; [exact E|lia|congruence]|]. apply next_place; [exact L|congruence].
Qed.
Lemma block_img i s j : block_at T i s j -> block_at T' (place i) s (eol j).
Proof.
  intros [folded v w A N B ->|folded v w A N B ->|folded v w A N B ->]; destruct (body_img _ _ _ _ _ B) as (w' & B' & E);
    destruct (at_some _ i A ltac:(destruct folded; discriminate) ltac:(destruct folded; discriminate)) as (L & A' & P).
  - apply (bl_plain _ _ _ _ folded v w'); [exact A'| |now rewrite Nat.add_1_l, P|now rewrite E]. rewrite P. apply not_in; [lia|cbn; unfold CR; intuition discriminate|exact N].
  - destruct (at_some _ (S i) N ltac:(discriminate) ltac:(discriminate)) as (L2 & N' & P2). apply (bl_keep _ _ _ _ folded v w'); [exact A'|now rewrite P| |now rewrite E].
    replace (2 + place i)%nat with (place (2 + i)) by (cbn [Nat.add]; lia). exact B'.
  - destruct (at_some _ (S i) N ltac:(discriminate) ltac:(discriminate)) as (L2 & N' & P2). apply (bl_strip _ _ _ _ folded v w'); [exact A'|now rewrite P| |reflexivity].
    replace (2 + place i)%nat with (place (2 + i)) by (cbn [Nat.add]; lia). exact B'.
Qed.

(* keys *)
Lemma key_img i s k : key_at T i s k -> exists s', key_at T' (place i) s' (place k) /\ with_cr s s'.
Proof.
  intros [Q A|NW L N A E M ->].
  - destruct (quote_img i s k Q) as (s' & Q' & W). exists s'. split; [|exact W]. apply ka_quoted; [exact Q'|]. now apply at_some.
  - exists (slice T i k). split; [|apply with_cr_refl]. destruct (at_some _ k A ltac:(discriminate) ltac:(discriminate)) as (_ & A' & P).
    assert (PP : slice T' (place i) (place k) = slice T i k) by (rewrite part_place by lia; now apply crlf_same).
    apply ka_plain.
    + rewrite <- no_word_img by lia. exact NW.
    + split; [apply place_le; lia|rewrite <- place_end; apply place_mono; lia].
    + now rewrite PP.
    + exact A'.
    + rewrite P. apply ends_img; [lia|exact E].
    + now apply (colon_img i k (place k) ltac:(lia) (or_introl eq_refl)).
    + now symmetry.
Qed.
Lemma later_img i s k : later_key_at T i s k -> later_key_at T' (place i) (crlf s) (place k).
Proof.
  intros (L & -> & C & Z & A). split; [split; [apply place_mono; lia|rewrite <- place_end; apply place_mono; lia]|]. split; [symmetry; apply part_place; lia|].
  split; [rewrite crlf_in by discriminate; exact C|]. split; [rewrite crlf_in by discriminate; exact Z|]. now apply at_some.
Qed.
Lemma flow_key_img i s k : flow_key_at T i s k -> flow_key_at T' (place i) (crlf s) (place k) /\ S (place k) = place (S k).
Proof.
  intros (L & -> & C & Z & A). assert (N : at_ k <> NEWLINE) by (intros E; rewrite E in A; cbn in A; unfold COLON, NEWLINE in A; intuition discriminate).
  split; [|apply next_place; [lia|exact N]]. split; [split; [apply place_le; lia|rewrite <- place_end; apply place_mono; lia]|]. split; [symmetry; apply part_place; lia|].
  split; [rewrite crlf_in by discriminate; exact C|]. split; [rewrite crlf_in by discriminate; exact Z|]. rewrite at_other by (lia || exact N). exact A.
Qed.

(* values *)
Definition cr_entries (l l' : list (bytes * datum)) : Prop := Forall2 (fun e e' => with_cr (fst e) (fst e') /\ cr_datum (snd e) (snd e')) l l'.
Lemma white_img i : (i <= length T)%nat -> white (at_ i) -> white (at' (place i)).
Proof. intros L W. rewrite at_place by exact L. destruct (_ =? _); [unfold white, CR; cbn; auto|exact W]. Qed.
Lemma all_img :
  (forall flow outer i d j, means T flow outer i d j -> exists d' j', img j j' /\ means T' flow outer (place i) d' j' /\ cr_datum d d') /\
  (forall outer i d j, behind T outer i d j -> exists d' j', img j j' /\ behind T' outer (place i) d' j' /\ cr_datum d d') /\
  (forall c i l j, dashes_at T c i l j -> at_ i = DASH -> exists l' j', img j j' /\ dashes_at T' c (place i) l' j' /\ Forall2 cr_datum l l') /\
  (forall c s k l j, pairs_at T c s k l j -> at_ k = COLON -> forall s', with_cr s s' -> exists l' j', img j j' /\ pairs_at T' c s' (place k) l' j' /\ cr_entries l l') /\
  (forall i d j sk, held_at T i d j sk -> exists d' j', img j j' /\ held_at T' (place i) d' j' sk /\ cr_datum d d') /\
  (forall n l j, flow_seq_at T n l j -> exists l', flow_seq_at T' (place n) l' (place j) /\ Forall2 cr_datum l l') /\
  (forall n l j, flow_map_at T n l j -> exists l', flow_map_at T' (place n) l' (place j) /\ cr_entries l l') /\
  (forall n s d j, flow_pair_at T n s d j -> exists d', flow_pair_at T' (place n) (crlf s) d' (place j) /\ cr_datum d d').
Proof.
  pose proof (all_le T) as (ML & BL & DL & PL & HL & SL & FL & QL).
  apply means_all.
  - intros flow outer i s j Q C. destruct (quote_img i s j Q) as (s' & Q' & W). exists (DStr s'), (place j). split; [now left|]. split; [|now constructor].
    apply me_quote; [exact Q'|]. destruct C as [C|C]; [now left|right]. apply at_not; [apply quote_le in Q; lia|discriminate|exact C].
  - intros flow outer i h j N. destruct (number_img flow i h j N) as (N' & E). exists (DNum (slice T i j) h), (place j). split; [now left|]. split; [rewrite <- E; now apply me_number|constructor].
  - intros flow outer i d j NW NN W D. destruct (word_img flow i d j NW NN W D) as (d' & j' & I & W' & D' & C). exists d', j'. split; [exact I|]. split; [|exact C].
    pose proof (word_le T flow i j W). apply me_word; [rewrite <- no_word_img by lia; exact NW| |exact W'|exact D'].
    intros h k N. destruct (number_back flow i h k ltac:(lia) N) as (k0 & N0). now apply (NN h k0).
  - intros outer i s j B. exists (DStr s), (eol j). split; [apply img_eol|]. split; [now apply me_block, block_img|constructor; apply with_cr_refl].
  - intros outer i l j A W _ IH. destruct (IH A) as (l' & j' & I & D & C). exists (DSeq l'), j'. split; [exact I|]. split; [|now constructor].
    destruct (at_some _ i A ltac:(discriminate) ltac:(discriminate)) as (L & A' & P). apply me_seq; [exact A'|rewrite P; apply white_img; [lia|exact W]|]. rewrite column_place by lia. exact D.
  - intros outer i s k l j K U _ IH. destruct (key_img i s k K) as (s' & K' & W). pose proof (key_le T i s k K) as LK.
    assert (CK : at_ k = COLON) by now destruct K. destruct (IH CK s' W) as (l' & j' & I & D & C). exists (DMap l'), j'. split; [exact I|]. split; [|now constructor].
    apply (me_map _ _ _ s' (place k)); [exact K'| |]; rewrite column_place by lia; assumption.
  - intros flow outer i n l j A G _ (l' & S & C). exists (DSeq l'), (place j). split; [now left|]. split; [|now constructor].
    destruct (at_some _ i A ltac:(discriminate) ltac:(discriminate)) as (L & A' & P). apply (me_flow_seq _ _ _ _ (place n)); [exact A'| |exact S]. rewrite P. apply (gap_img _ _ G). now left.
  - intros flow outer i n l j A G _ (l' & S & C). exists (DMap l'), (place j). split; [now left|]. split; [|now constructor].
    destruct (at_some _ i A ltac:(discriminate) ltac:(discriminate)) as (L & A' & P). apply (me_flow_map _ _ _ _ (place n)); [exact A'| |exact S]. rewrite P. apply (gap_img _ _ G). now left.
  - intros outer i m d j G _ (d' & j' & I & M & C). exists d', j'. split; [exact I|]. split; [|exact C]. apply (be_value _ _ _ (place m)); [apply (gap_img _ _ G); now left|exact M].
  - intros o i m s k G K LE. destruct (key_img m s k K) as (s' & K' & W). exists DNull, (place i). split; [now left|]. split; [|constructor].
    pose proof (gap_le T _ _ G). apply (be_none _ _ _ (place m) s' (place k)); [apply (gap_img _ _ G); now left|exact K'|]. rewrite column_place by lia. exact LE.
  - intros c i d e n _ (d' & e' & I & B & C) G H A. exists [d'], e'. split; [exact I|]. split; [|repeat constructor; exact C]. pose proof (gap_le T _ _ G) as GL.
    destruct (at_some _ i A ltac:(discriminate) ltac:(discriminate)) as (L & A' & P). apply (da_last _ _ _ _ _ (place n)); [rewrite P; exact B|now apply (gap_img _ _ G)|].
    rewrite column_place by lia. destruct H as [H|H]; [now left|right]. apply at_not; [lia|discriminate|exact H].
  - intros c i d e n l j _ (d' & e' & I & B & C) G H AN _ IH A. destruct (IH AN) as (l' & j' & I2 & D & C2). exists (d' :: l'), j'. split; [exact I2|]. split; [|now constructor].
    pose proof (gap_le T _ _ G) as GL. destruct (at_some _ i A ltac:(discriminate) ltac:(discriminate)) as (L & A' & P).
    apply (da_more _ _ _ _ e' (place n)); [rewrite P; exact B|now apply (gap_img _ _ G)|rewrite column_place by lia; exact H|now apply at_some|exact D].
  - intros c s k d e n _ (d' & e' & I & B & C) G H A s' W. exists [(s', d')], e'. split; [exact I|]. split; [|constructor; [now split|constructor]]. pose proof (gap_le T _ _ G) as GL.
    destruct (at_some _ k A ltac:(discriminate) ltac:(discriminate)) as (L & A' & P). apply (pa_last _ _ _ _ _ _ (place n)); [rewrite P; exact B|now apply (gap_img _ _ G)|].
    rewrite column_place by lia. destruct H as [H|H]; [now left|right]. rewrite at_other; [exact H|lia|]. intros E. rewrite E in H. cbn in H. unfold COLON, NEWLINE in H. intuition discriminate.
  - intros c s k d e n s2 k2 l j _ (d' & e' & I & B & C) G H K _ IH A s' W. assert (AK : at_ k2 = COLON) by apply K.
    destruct (IH AK (crlf s2) (with_cr_all s2)) as (l' & j' & I2 & D & C2). exists ((s', d') :: l'), j'. split; [exact I2|]. split; [|constructor; [now split|exact C2]]. pose proof (gap_le T _ _ G) as GL.
    destruct (at_some _ k A ltac:(discriminate) ltac:(discriminate)) as (L & A' & P).
    apply (pa_more _ _ _ _ _ e' (place n) (crlf s2) (place k2)); [rewrite P; exact B|now apply (gap_img _ _ G)|rewrite column_place by lia; exact H|now apply later_img|exact D].
  - intros i d j _ (d' & j' & I & M & C). exists d', j'. split; [exact I|]. split; [now apply he_value|exact C].
  - intros i s e n B G. exists (DStr s), (place n). split; [now left|]. split; [|constructor; apply with_cr_refl]. apply (he_block _ _ _ (eol e)); [now apply block_img|apply (gap_img _ _ G), img_eol].
  - intros n A. destruct (at_some _ n A ltac:(discriminate) ltac:(discriminate)) as (L & A' & P). exists []. split; [|constructor]. rewrite <- P. now apply fq_end.
  - intros n m d e skipped n' l j N G H (d' & e' & I & H' & C) A SK _ (l' & S & C2). exists (d' :: l'). split; [|now constructor].
    destruct (at_some _ e A ltac:(discriminate) ltac:(discriminate)) as (L & A' & P). pose proof (gap_le T _ _ G).
    assert (e' = place e) as -> by (apply img_other; [exact I|rewrite A; discriminate]).
    apply (fq_comma _ _ (place m) _ (place e) skipped (place n')); [apply not_in; [lia|cbn; unfold CR; intuition discriminate|exact N]|apply (gap_img _ _ G); now left|exact H'|exact A'| |exact S].
    destruct skipped; [subst n'; now symmetry|]. rewrite P. apply (gap_img _ _ SK). now left.
  - intros n m d e skipped n' N G H (d' & e' & I & H' & C) A G2 A2. exists [d']. split; [|repeat constructor; exact C]. pose proof (gap_le T _ _ G). pose proof (gap_le T _ _ G2).
    destruct (at_some _ n' A2 ltac:(discriminate) ltac:(discriminate)) as (L & A' & P). rewrite <- P.
    apply (fq_last _ _ (place m) _ e' skipped (place n')); [apply not_in; [lia|cbn; unfold CR; intuition discriminate|exact N]|apply (gap_img _ _ G); now left|exact H'| |now apply (gap_img _ _ G2)|exact A'].
    apply (img_not _ e); [lia|exact I|discriminate|exact A].
  - intros n m d e skipped n' d2 e2 skipped2 n2 N G H (d' & e' & I & H' & C) A G2 N2 H2 (d2' & e2' & I2 & H2' & C2) G3 A3. exists [d'; d2']. split; [|repeat constructor; assumption].
    pose proof (gap_le T _ _ G). pose proof (gap_le T _ _ G2). pose proof (gap_le T _ _ G3).
    destruct (at_some _ n2 A3 ltac:(discriminate) ltac:(discriminate)) as (L & A' & P). rewrite <- P.
    apply (fq_two _ _ (place m) _ e' skipped (place n') _ e2' skipped2 (place n2)); [apply not_in; [lia|cbn; unfold CR; intuition discriminate|exact N]|apply (gap_img _ _ G); now left|exact H'|
      apply (img_not _ e); [lia|exact I|discriminate|exact A]|now apply (gap_img _ _ G2)|apply not_in; [lia|cbn; unfold CR; intuition discriminate|exact N2]|exact H2'|now apply (gap_img _ _ G3)|exact A'].
  - intros n A. destruct (at_some _ n A ltac:(discriminate) ltac:(discriminate)) as (L & A' & P). exists []. split; [|constructor]. rewrite <- P. now apply fp_end.
  - intros n d e n' l j s _ (d' & Q & C) A G _ (l' & S & C2). exists ((crlf s, d') :: l'). split; [|constructor; [split; [apply with_cr_all|exact C]|exact C2]].
    destruct (at_some _ e A ltac:(discriminate) ltac:(discriminate)) as (L & A' & P). apply (fp_comma _ _ _ (place e) (place n')); [exact Q|exact A'|rewrite P; apply (gap_img _ _ G); now left|exact S].
  - intros n d e s _ (d' & Q & C) A. exists [(crlf s, d')]. split; [|constructor; [split; [apply with_cr_all|exact C]|constructor]].
    destruct (at_some _ e A ltac:(discriminate) ltac:(discriminate)) as (L & A' & P). rewrite <- P. now apply fp_last.
  - intros n d e s d2 e2 s2 Q0 (d' & Q & C) A Q0' (d2' & Q2 & C2) A2. exists [(crlf s, d'); (crlf s2, d2')]. split; [|repeat (constructor; [split; [apply with_cr_all|assumption]|]); constructor].
    destruct (at_some _ e2 A2 ltac:(discriminate) ltac:(discriminate)) as (L & A' & P). rewrite <- P. apply (fp_two _ _ _ (place e)); [exact Q| |exact Q2|exact A'].
    apply at_not; [apply QL in Q0; lia|discriminate|exact A].
  - intros n s k m d e skipped e2 N K G H (d' & e' & I & H' & C) G2. exists d'. split; [|exact C]. destruct (flow_key_img n s k K) as (K' & P).
    apply (fp_pair _ _ _ (place k) (place m) _ e' skipped); [apply not_in; [destruct K; lia|cbn; unfold CR; intuition discriminate|exact N]|exact K'|rewrite P; apply (gap_img _ _ G); now left|exact H'|now apply (gap_img _ _ G2)].
Qed.
Lemma header_img i j : (i <= length T)%nat -> at_ i <> NEWLINE -> header_to T i j -> header_to T' (place i) (place j).
Proof.
  intros L0 N0 H. induction H as [i P D|i k n j P L G H IH|i j D1 D2 D3 G].
  - apply hd_none; [rewrite at_other by assumption; exact P|]. intros (E1 & E2 & E3). apply D. rewrite at_other in E1 by assumption.
    pose proof (at_lt T i _ E1 ltac:(discriminate)) as L1.
    replace (1 + place i)%nat with (place (S i)) in E2 by (rewrite <- next_place by assumption; lia). rewrite at_place in E2 by lia. destruct (at_ (S i) =? NEWLINE) eqn:X2; [discriminate|]. apply N.eqb_neq in X2.
    pose proof (at_lt T (S i) _ E2 ltac:(discriminate)) as L2.
    replace (2 + place i)%nat with (place (S (S i))) in E3 by (rewrite <- !next_place by assumption; lia). rewrite at_place in E3 by lia. destruct (at_ (S (S i)) =? NEWLINE); [discriminate|]. auto.
  - apply (hd_directive _ _ (eol k) (place n)); [rewrite at_other by assumption; exact P|now apply line_img|apply (gap_img _ _ G), img_eol|]. apply gap_le in G as GL. apply IH; [lia|now apply (gap_nl k)].
  - destruct (at_some _ i D1 ltac:(discriminate) ltac:(discriminate)) as (L1 & A1 & P1). destruct (at_some _ (S i) D2 ltac:(discriminate) ltac:(discriminate)) as (L2 & A2 & P2).
    destruct (at_some _ (S (S i)) D3 ltac:(discriminate) ltac:(discriminate)) as (L3 & A3 & P3).
    apply hd_marker; [exact A1|cbn [Nat.add]; now rewrite P1|cbn [Nat.add]; now rewrite P1, P2|]. cbn [Nat.add]. rewrite P1, P2, P3. apply (gap_img _ _ G). now left.
Qed.
Lemma stands_crlf d : stands_for T d -> exists d', stands_for T' d' /\ cr_datum d d'.
Proof.
  intros (n & i & j & G & H & M & E). destruct (proj1 all_img _ _ _ _ _ M) as (d' & j' & I & M' & C). exists d'. split; [|exact C]. pose proof (gap_le T _ _ G) as GL.
  exists (place n), (place i), j'. split; [rewrite <- place_0; apply (gap_img _ _ G); now left|]. split; [apply header_img; [lia|now apply (gap_nl O)|exact H]|]. split; [exact M'|].
  rewrite <- place_end. now apply (gap_img _ _ E).
Qed.

(* ---- back ---- *)
Lemma gap_back i i' j' : (i <= length T)%nat -> img i i' -> gap_to T' i' j' -> exists j, gap_to T i j /\ j' = place j.
Proof. intros L I G. destruct (gap_ex T i L) as (j & GJ). exists j. split; [exact GJ|]. exact (gap_det T' _ _ G _ (gap_img _ _ GJ _ I)). Qed.
Lemma line_back i k' : (i <= length T)%nat -> line_to T' (place i) k' -> exists k, line_to T i k /\ k' = eol k.
Proof. intros L G. destruct (line_find T i L) as (k & LK & _). exists k. split; [exact LK|]. exact (line_det T' _ _ _ G (line_img _ _ LK)). Qed.
Lemma block_back i s j' : (i <= length T)%nat -> block_at T' (place i) s j' -> exists j, block_at T i s j /\ j' = eol j.
Proof.
  intros L B. pose proof (block_char T' _ _ _ B) as C. assert (C0 : at_ i = GT \/ at_ i = PIPE).
  { rewrite at_place in C by exact L. destruct (_ =? _); [destruct C; discriminate|exact C]. }
  destruct (block_ex T i C0) as (s0 & j & _ & _ & _ & _ & B0 & _). destruct (block_det T' _ _ _ _ _ B (block_img _ _ _ B0)) as [-> ->]. exists j. auto.
Qed.
Lemma img_find c j' : (j' <= length T')%nat -> at' j' = c -> c <> CR -> c <> NEWLINE -> exists j, (j <= length T)%nat /\ j' = place j /\ at_ j = c.
Proof.
  intros L E C N. destruct (place_inv j' L) as (j & LJ & [->|[X ->]]).
  - exists j. split; [exact LJ|]. split; [reflexivity|]. rewrite at_place in E by exact LJ. destruct (_ =? _); congruence.
  - destruct (at_line j X) as (_ & _ & Y & _). congruence.
Qed.
Lemma place_lt i j : (i <= length T)%nat -> (j <= length T)%nat -> (place i < place j)%nat -> (i < j)%nat.
Proof. intros LI LJ H. destruct (le_lt_dec j i) as [X|X]; [|exact X]. pose proof (place_le j i ltac:(lia)). lia. Qed.
Lemma place_leb i j : (i <= length T)%nat -> (j <= length T)%nat -> (place i <= place j)%nat -> (i <= j)%nat.
Proof. intros LI LJ H. destruct (le_lt_dec i j) as [X|X]; [exact X|]. pose proof (place_mono j i ltac:(lia)). lia. Qed.
Lemma at_back c i : (i <= length T)%nat -> at' (place i) = c -> c <> CR -> at_ i = c.
Proof. intros L E C. rewrite at_place in E by exact L. destruct (_ =? _); congruence. Qed.
Lemma img_back c j j' : (j <= length T)%nat -> img j j' -> at' j' = c -> c <> CR -> c <> NEWLINE -> j' = place j /\ at_ j = c.
Proof.
  intros L [->|[E ->]] A C N; [split; [reflexivity|]; now apply at_back|]. destruct (at_line j E) as (_ & _ & Y & _). congruence.
Qed.
Lemma img_not_back c j j' : (j <= length T)%nat -> img j j' -> c <> NEWLINE -> at' j' <> c -> at_ j <> c.
Proof. intros L I N A E. destruct (img_at j j' L I) as [X|[X _]]; congruence. Qed.
Lemma not_in_back l i : (i <= length T)%nat -> ~ In NEWLINE l -> ~ In (at' (place i)) l -> ~ In (at_ i) l.
Proof. intros L N A. rewrite at_place in A by exact L. destruct (at_ i =? NEWLINE) eqn:E; [|exact A]. apply N.eqb_eq in E. now rewrite E. Qed.
Lemma white_back i : (i <= length T)%nat -> white (at' (place i)) -> white (at_ i).
Proof. intros L W. rewrite at_place in W by exact L. destruct (at_ i =? NEWLINE) eqn:E; [|exact W]. apply N.eqb_eq in E. rewrite E. cbn. auto. Qed.
Lemma quote_back i s' j' : (i <= length T)%nat -> quote_at T' (place i) s' j' -> exists s j, quote_at T i s j /\ j' = place j.
Proof.
  intros LI Q. assert (LE : (place i <= j' <= length T')%nat) by (apply quote_le in Q; lia).
  assert (PJ : exists j, (i <= j <= length T)%nat /\ j' = place j).
  { destruct (place_inv j' ltac:(lia)) as (j & LJ & [->|[X ->]]); [exists j; split; [split; [apply place_leb; lia|exact LJ]|reflexivity]|]. exfalso.
    assert (P : slice T' (place i) (S (place j)) = crlf (slice T i j) ++ [CR]).
    { rewrite (part_img i j (S (place j))); [|split; [|exact LJ]|now right].
      - f_equal. replace (S (place j) =? place j)%nat with false by (symmetry; apply Nat.eqb_neq; lia). reflexivity.
      - destruct (le_lt_dec i j) as [Y|Y]; [exact Y|]. pose proof (place_le (S j) i ltac:(lia)). destruct (at_line j X) as (_ & _ & _ & Z). lia. }
    destruct Q as [y L E S N|y e L E S D]; rewrite P in E.
    - rewrite app_assoc in E. apply app_inj_tail in E as [_ E]. discriminate.
    - destruct D as [->|[->|[-> D]]]; [rewrite app_assoc in E; apply app_inj_tail in E as [_ E]; discriminate..|].
      apply at_line in X as (X & _ & _ & Z). pose proof (place_in (Datatypes.S j) ltac:(lia)). lia. }
  destruct PJ as (j & L & ->). pose proof (part_place i j L) as P. destruct Q as [y L' E S N|y e L' E S D]; rewrite P in E.
  - destruct (crlf_prefix (b "'") _ _ E) as (x1 & E1 & E2); [intros [X|[]]; discriminate X|]. symmetry in E2. destruct (crlf_suffix SQUOTE _ _ E2) as (y0 & -> & ->); [discriminate|].
    destruct (sq_back _ _ S) as (v & V). exists v, j. split; [|reflexivity]. apply (qa_single _ _ _ _ y0); [exact L|exact E1|exact V|].
    apply (img_not_back _ j (place j)); [lia|now left|discriminate|exact N].
  - destruct (crlf_prefix (b """") _ _ E) as (x1 & E1 & E2); [intros [X|[]]; discriminate X|]. symmetry in E2.
    assert (X : exists y0, x1 = y0 ++ e /\ y = crlf y0).
    { destruct D as [->|[->|[-> _]]]; [apply (crlf_suffix DQUOTE); [exact E2|discriminate]|apply (crlf_suffix 0); [exact E2|discriminate]|]. exists x1. rewrite app_nil_r in *. auto. }
    destruct X as (y0 & -> & ->). destruct (dq_back _ _ S) as (v & V). exists v, j. split; [|reflexivity]. apply (qa_double _ _ _ _ y0 e); [exact L|exact E1|exact V|].
    destruct D as [D|[D|[D K]]]; auto. right. right. split; [exact D|]. destruct (Nat.eq_dec j (length T)) as [X|X]; [exact X|]. pose proof (place_mono j (length T) ltac:(lia)). rewrite place_end in *. lia.
Qed.
Lemma number_back2 flow i h k' : (i <= length T)%nat -> number_at T' flow (place i) h k' -> exists k, number_at T flow i h k /\ k' = place k.
Proof.
  intros L N. destruct (number_back flow i h k' L N) as (k & K). exists k. split; [exact K|]. destruct (number_img flow i h k K) as (N' & _).
  destruct N as (L1 & N1 & M1 & _), N' as (L2 & N2 & M2 & _). destruct (Nat.lt_trichotomy k' (place k)) as [X|[X|X]]; [|exact X|]; exfalso; [now apply (M1 (place k) h); [lia|]|now apply (M2 k' h); [lia|]].
Qed.
Lemma word_back flow i d' j' : (i <= length T)%nat -> word_to T' flow (place i) j' -> plain_datum (slice T' (place i) j') d' ->
  exists j d, img j j' /\ word_to T flow i j /\ plain_datum (slice T i j) d.
Proof.
  intros L W D. destruct flow.
  - destruct W as (LW & WC & WE). assert (X : exists j, (j <= length T)%nat /\ j' = place j /\ at_ j = at' j').
    { apply img_find; [lia|reflexivity|intros E; rewrite E in WE; cbn in WE; unfold CR in WE; intuition discriminate|intros E; rewrite E in WE; cbn in WE; unfold NEWLINE in WE; intuition discriminate]. }
    destruct X as (j & LJ & -> & E). pose proof (place_leb i j L LJ ltac:(lia)) as LE. destruct (plain_total (slice T i j)) as (d & DD). exists j, d. split; [now left|]. split; [|exact DD].
    split; [lia|]. split; [|rewrite E; exact WE]. intros c C I. destruct (N.eq_dec c CR) as [->|NC]; [cbn in I; unfold CR in I; intuition discriminate|].
    apply (WC c); [|exact I]. rewrite part_place by lia. now apply (crlf_in c).
  - destruct W as (LT & WC). destruct (line_back i j' L LT) as (j & LJ & ->). destruct (plain_total (slice T i j)) as (d & DD). exists j, d. split; [apply img_eol|]. split; [|exact DD].
    split; [exact LJ|]. intros k K E X. destruct LJ as (LJ & _). destruct (at_some _ k E ltac:(discriminate) ltac:(discriminate)) as (LK & E' & P). apply (WC (place k)); [|exact E'|rewrite P; apply ends_img; [lia|exact X]].
    pose proof (img_le j _ ltac:(lia) (img_eol j)). pose proof (place_mono k j ltac:(lia)). pose proof (place_le i k ltac:(lia)). lia.
Qed.
Lemma key_back i s' k' : (i <= length T)%nat -> key_at T' (place i) s' k' -> exists s k, key_at T i s k /\ k' = place k.
Proof.
  intros L [Q A|NW LK N A E M ->].
  - destruct (quote_back i s' k' L Q) as (s & k & Q0 & ->). exists s, k. split; [|reflexivity]. apply ka_quoted; [exact Q0|]. apply quote_le in Q0. apply at_back; [lia|exact A|discriminate].
  - destruct (img_find _ k' ltac:(lia) A ltac:(discriminate) ltac:(discriminate)) as (k & LE & -> & A0). exists (slice T i k), k. split; [|reflexivity]. pose proof (place_leb i k L LE ltac:(lia)).
    destruct (at_some _ k A0 ltac:(discriminate) ltac:(discriminate)) as (LT & _ & P). rewrite part_place in N by lia. rewrite crlf_in in N by discriminate.
    apply ka_plain; [rewrite no_word_img by lia; exact NW|lia|exact N|exact A0|apply ends_img; [lia|rewrite <- P; exact E]| |reflexivity].
    intros k0 K0 E0 X. destruct (at_some _ k0 E0 ltac:(discriminate) ltac:(discriminate)) as (LK0 & E0' & P0). apply (M (place k0)); [|exact E0'|rewrite P0; apply ends_img; [lia|exact X]].
    pose proof (place_mono k0 k ltac:(lia)). pose proof (place_le i k0 ltac:(lia)). lia.
Qed.
Lemma later_back i s' k' : (i <= length T)%nat -> later_key_at T' (place i) s' k' -> exists s k, later_key_at T i s k /\ k' = place k.
Proof.
  intros L (LK & -> & C & Z & A). destruct (img_find _ k' ltac:(lia) A ltac:(discriminate) ltac:(discriminate)) as (k & LE & -> & A0). exists (slice T i k), k. split; [|reflexivity].
  pose proof (place_lt i k L LE ltac:(lia)) as LT. rewrite part_place, crlf_in in C, Z by (lia || discriminate). destruct (at_some _ k A0 ltac:(discriminate) ltac:(discriminate)) as (LK0 & _).
  split; [lia|]. auto.
Qed.
Lemma flow_key_back i s' k' : (i <= length T)%nat -> flow_key_at T' (place i) s' k' -> exists s k, flow_key_at T i s k /\ k' = place k.
Proof.
  intros L (LK & -> & C & Z & A). assert (X : exists k, (k <= length T)%nat /\ k' = place k /\ at_ k = at' k').
  { apply img_find; [lia|reflexivity|intros E; rewrite E in A; cbn in A; unfold CR, COLON in A; intuition discriminate|intros E; rewrite E in A; cbn in A; unfold NEWLINE, COLON in A; intuition discriminate]. }
  destruct X as (k & LE & -> & A0). exists (slice T i k), k. split; [|reflexivity]. pose proof (place_leb i k L LE ltac:(lia)) as LT.
  rewrite part_place, crlf_in in C, Z by (lia || discriminate). assert (k <> length T) by (intros ->; rewrite place_end in LK; lia). split; [lia|]. split; [reflexivity|]. split; [exact C|]. split; [exact Z|]. rewrite A0. exact A.
Qed.
Lemma all_back :
  (forall flow outer i' d' j', means T' flow outer i' d' j' -> forall i, (i <= length T)%nat -> i' = place i -> exists d j, img j j' /\ means T flow outer i d j) /\
  (forall outer i' d' j', behind T' outer i' d' j' -> forall i, (i <= length T)%nat -> i' = place i -> exists d j, img j j' /\ behind T outer i d j) /\
  (forall c i' l' j', dashes_at T' c i' l' j' -> forall i, at_ i = DASH -> i' = place i -> exists l j, img j j' /\ dashes_at T c i l j) /\
  (forall c s' k' l' j', pairs_at T' c s' k' l' j' -> forall s k, at_ k = COLON -> k' = place k -> exists l j, img j j' /\ pairs_at T c s k l j) /\
  (forall i' d' j' sk, held_at T' i' d' j' sk -> forall i, (i <= length T)%nat -> i' = place i -> exists d j, img j j' /\ held_at T i d j sk) /\
  (forall n' l' j', flow_seq_at T' n' l' j' -> forall n, (n <= length T)%nat -> n' = place n -> exists l j, j' = place j /\ flow_seq_at T n l j) /\
  (forall n' l' j', flow_map_at T' n' l' j' -> forall n, (n <= length T)%nat -> n' = place n -> exists l j, j' = place j /\ flow_map_at T n l j) /\
  (forall n' s' d' j', flow_pair_at T' n' s' d' j' -> forall n, (n <= length T)%nat -> n' = place n -> exists s d j, j' = place j /\ flow_pair_at T n s d j).
Proof.
  pose proof (all_le T) as (ML & BL & DL & PL & HL & SL & FL & QL).
  apply means_all.
  - intros flow outer i' s j' Q C i L ->. destruct (quote_back i s j' L Q) as (s0 & j & Q0 & ->). exists (DStr s0), j. split; [now left|]. apply me_quote; [exact Q0|]. destruct C as [C|C]; [now left|right].
    apply quote_le in Q0. apply (img_not_back _ j (place j)); [lia|now left|discriminate|exact C].
  - intros flow outer i' h j' N i L ->. destruct (number_back2 flow i h j' L N) as (j & N0 & ->). exists (DNum (slice T i j) h), j. split; [now left|now apply me_number].
  - intros flow outer i' d' j' NW NN W D i L ->. destruct (word_back flow i d' j' L W D) as (j & d & I & W0 & D0). exists d, j. split; [exact I|]. apply me_word; [rewrite no_word_img by exact L; exact NW| |exact W0|exact D0].
    intros h k N. apply (NN h (place k)). now apply number_img.
  - intros outer i' s j' B i L ->. destruct (block_back i s j' L B) as (j & B0 & ->). exists (DStr s), j. split; [apply img_eol|now apply me_block].
  - intros outer i' l' j' A W _ IH i L ->. apply at_back in A; [|exact L|discriminate]. destruct (IH i A eq_refl) as (l & j & I & D). exists (DSeq l), j. split; [exact I|].
    destruct (at_some _ i A ltac:(discriminate) ltac:(discriminate)) as (LT & _ & P). rewrite P in W. apply white_back in W; [|lia]. rewrite column_place in D by exact L. now apply me_seq.
  - intros outer i' s' k' l' j' K U _ IH i L ->. destruct (key_back i s' k' L K) as (s & k & K0 & ->). destruct (key_le T i s k K0) as (LK & AK). destruct (IH s k AK eq_refl) as (l & j & I & D).
    exists (DMap l), j. split; [exact I|]. rewrite column_place in * by exact L. now apply (me_map _ _ _ s k).
  - intros flow outer i' n' l' j' A G _ IH i L ->. apply at_back in A; [|exact L|discriminate]. destruct (at_some _ i A ltac:(discriminate) ltac:(discriminate)) as (LT & _ & P). rewrite P in G.
    destruct (gap_back (S i) _ n' ltac:(lia) (or_introl eq_refl) G) as (n & G0 & ->). pose proof (gap_le T _ _ G0). destruct (IH n ltac:(lia) eq_refl) as (l & j & -> & S). exists (DSeq l), j. split; [now left|]. now apply (me_flow_seq _ _ _ _ n).
  - intros flow outer i' n' l' j' A G _ IH i L ->. apply at_back in A; [|exact L|discriminate]. destruct (at_some _ i A ltac:(discriminate) ltac:(discriminate)) as (LT & _ & P). rewrite P in G.
    destruct (gap_back (S i) _ n' ltac:(lia) (or_introl eq_refl) G) as (n & G0 & ->). pose proof (gap_le T _ _ G0). destruct (IH n ltac:(lia) eq_refl) as (l & j & -> & S). exists (DMap l), j. split; [now left|]. now apply (me_flow_map _ _ _ _ n).
  - intros outer i' m' d' j' G _ IH i L ->. destruct (gap_back i _ m' L (or_introl eq_refl) G) as (m & G0 & ->). pose proof (gap_le T _ _ G0). destruct (IH m ltac:(lia) eq_refl) as (d & j & I & M). exists d, j. split; [exact I|]. now apply (be_value _ _ _ m).
  - intros o i' m' s' k' G K LE i L ->. destruct (gap_back i _ m' L (or_introl eq_refl) G) as (m & G0 & ->). pose proof (gap_le T _ _ G0). destruct (key_back m s' k' ltac:(lia) K) as (s & k & K0 & ->).
    rewrite column_place in LE by lia. exists DNull, i. split; [now left|]. now apply (be_none _ _ _ m s k).
  - intros c i' d' e' n' _ IH G H i A ->. destruct (at_some _ i A ltac:(discriminate) ltac:(discriminate)) as (LT & _ & P). destruct (IH (S i) ltac:(lia) P) as (d & e & I & B). pose proof (BL _ _ _ _ B).
    destruct (gap_back e _ n' ltac:(lia) I G) as (n & G0 & ->). pose proof (gap_le T _ _ G0). rewrite column_place in H by lia. exists [d], e. split; [exact I|]. apply (da_last _ _ _ _ _ n); [exact B|exact G0|].
    destruct H as [H|H]; [now left|right]. apply (img_not_back _ n (place n)); [lia|now left|discriminate|exact H].
  - intros c i' d' e' n' l' j' _ IH G H AN _ IHL i A ->. destruct (at_some _ i A ltac:(discriminate) ltac:(discriminate)) as (LT & _ & P). destruct (IH (S i) ltac:(lia) P) as (d & e & I & B). pose proof (BL _ _ _ _ B).
    destruct (gap_back e _ n' ltac:(lia) I G) as (n & G0 & ->). pose proof (gap_le T _ _ G0). rewrite column_place in H by lia. apply at_back in AN; [|lia|discriminate]. destruct (IHL n AN eq_refl) as (l & j & I2 & D).
    exists (d :: l), j. split; [exact I2|]. now apply (da_more _ _ _ _ e n).
  - intros c s' k' d' e' n' _ IH G H s k A ->. destruct (at_some _ k A ltac:(discriminate) ltac:(discriminate)) as (LT & _ & P). destruct (IH (S k) ltac:(lia) P) as (d & e & I & B). pose proof (BL _ _ _ _ B).
    destruct (gap_back e _ n' ltac:(lia) I G) as (n & G0 & ->). pose proof (gap_le T _ _ G0). rewrite column_place in H by lia. exists [(s, d)], e. split; [exact I|]. apply (pa_last _ _ _ _ _ _ n); [exact B|exact G0|].
    destruct H as [H|H]; [now left|right]. rewrite at_other in H; [exact H|lia|now apply (gap_nl e)].
  - intros c s' k' d' e' n' s2' k2' l' j' _ IH G H K _ IHL s k A ->. destruct (at_some _ k A ltac:(discriminate) ltac:(discriminate)) as (LT & _ & P). destruct (IH (S k) ltac:(lia) P) as (d & e & I & B). pose proof (BL _ _ _ _ B).
    destruct (gap_back e _ n' ltac:(lia) I G) as (n & G0 & ->). pose proof (gap_le T _ _ G0). rewrite column_place in H by lia. destruct (later_back n s2' k2' ltac:(lia) K) as (s2 & k2 & K0 & ->).
    assert (AK : at_ k2 = COLON) by apply K0. destruct (IHL s2 k2 AK eq_refl) as (l & j & I2 & D). exists ((s, d) :: l), j. split; [exact I2|]. now apply (pa_more _ _ _ _ _ e n s2 k2).
  - intros i' d' j' _ IH i L ->. destruct (IH i L eq_refl) as (d & j & I & M). exists d, j. split; [exact I|now apply he_value].
  - intros i' s e' n' B G i L ->. destruct (block_back i s e' L B) as (e & B0 & ->). pose proof (block_le T _ _ _ B0). destruct (gap_back e _ n' ltac:(lia) (img_eol e) G) as (n & G0 & ->).
    exists (DStr s), n. split; [now left|]. now apply (he_block _ _ _ e).
  - intros n' A n L ->. apply at_back in A; [|exact L|discriminate]. destruct (at_some _ n A ltac:(discriminate) ltac:(discriminate)) as (LT & _ & P). exists [], (S n). split; [exact P|now apply fq_end].
  - intros n' m' d' e' skipped n2' l' j' N G H IH A SK _ IHL n L ->. destruct (gap_back n _ m' L (or_introl eq_refl) G) as (m & G0 & ->). pose proof (gap_le T _ _ G0).
    destruct (IH m ltac:(lia) eq_refl) as (d & e & I & HB). pose proof (HL _ _ _ _ HB). destruct (img_back _ e e' ltac:(lia) I A ltac:(discriminate) ltac:(discriminate)) as [-> A0].
    destruct (at_some _ e A0 ltac:(discriminate) ltac:(discriminate)) as (LT & _ & P). rewrite P in SK. apply not_in_back in N; [|exact L|cbn; unfold NEWLINE; intuition discriminate].
    assert (X : exists n2, (n2 <= length T)%nat /\ n2' = place n2 /\ (if skipped then n2 = S e else gap_to T (S e) n2)).
    { destruct skipped; [exists (S e); auto|]. destruct (gap_back (S e) _ n2' ltac:(lia) (or_introl eq_refl) SK) as (n2 & G2 & ->). pose proof (gap_le T _ _ G2). exists n2. split; [lia|auto]. }
    destruct X as (n2 & L2 & -> & SK0). destruct (IHL n2 L2 eq_refl) as (l & j & -> & S). exists (d :: l), j. split; [reflexivity|]. now apply (fq_comma _ _ m _ e skipped n2).
  - intros n' m' d' e' skipped n2' N G H IH A G2 A2 n L ->. destruct (gap_back n _ m' L (or_introl eq_refl) G) as (m & G0 & ->). pose proof (gap_le T _ _ G0).
    destruct (IH m ltac:(lia) eq_refl) as (d & e & I & HB). pose proof (HL _ _ _ _ HB). apply (img_not_back _ e) in A; [|lia|exact I|discriminate].
    destruct (gap_back e _ n2' ltac:(lia) I G2) as (n2 & G3 & ->). pose proof (gap_le T _ _ G3). apply at_back in A2; [|lia|discriminate]. apply not_in_back in N; [|exact L|cbn; unfold NEWLINE; intuition discriminate].
    destruct (at_some _ n2 A2 ltac:(discriminate) ltac:(discriminate)) as (LT & _ & P). exists [d], (S n2). split; [exact P|]. now apply (fq_last _ _ m _ e skipped n2).
  - intros n' m' d' e' skipped n2' d2' e2' skipped2 n3' N G H IH A G2 N2 H2 IH2 G3 A3 n L ->. destruct (gap_back n _ m' L (or_introl eq_refl) G) as (m & G0 & ->). pose proof (gap_le T _ _ G0).
    destruct (IH m ltac:(lia) eq_refl) as (d & e & I & HB). pose proof (HL _ _ _ _ HB). apply (img_not_back _ e) in A; [|lia|exact I|discriminate].
    destruct (gap_back e _ n2' ltac:(lia) I G2) as (n2 & G4 & ->). pose proof (gap_le T _ _ G4). apply not_in_back in N; [|exact L|cbn; unfold NEWLINE; intuition discriminate]. apply not_in_back in N2; [|lia|cbn; unfold NEWLINE; intuition discriminate].
    destruct (IH2 n2 ltac:(lia) eq_refl) as (d2 & e2 & I2 & HB2). pose proof (HL _ _ _ _ HB2). destruct (gap_back e2 _ n3' ltac:(lia) I2 G3) as (n3 & G5 & ->). pose proof (gap_le T _ _ G5). apply at_back in A3; [|lia|discriminate].
    destruct (at_some _ n3 A3 ltac:(discriminate) ltac:(discriminate)) as (LT & _ & P). exists [d; d2], (S n3). split; [exact P|]. now apply (fq_two _ _ m _ e skipped n2 _ e2 skipped2 n3).
  - intros n' A n L ->. apply at_back in A; [|exact L|discriminate]. destruct (at_some _ n A ltac:(discriminate) ltac:(discriminate)) as (LT & _ & P). exists [], (S n). split; [exact P|now apply fp_end].
  - intros n' d' e' n2' l' j' s' _ IH A G _ IHL n L ->. destruct (IH n L eq_refl) as (s & d & e & -> & Q). pose proof (QL _ _ _ _ Q). apply at_back in A; [|lia|discriminate].
    destruct (at_some _ e A ltac:(discriminate) ltac:(discriminate)) as (LT & _ & P). rewrite P in G. destruct (gap_back (S e) _ n2' ltac:(lia) (or_introl eq_refl) G) as (n2 & G2 & ->). pose proof (gap_le T _ _ G2).
    destruct (IHL n2 ltac:(lia) eq_refl) as (l & j & -> & S). exists ((s, d) :: l), j. split; [reflexivity|]. now apply (fp_comma _ _ _ e n2).
  - intros n' d' e' s' _ IH A n L ->. destruct (IH n L eq_refl) as (s & d & e & -> & Q). pose proof (QL _ _ _ _ Q). apply at_back in A; [|lia|discriminate].
    destruct (at_some _ e A ltac:(discriminate) ltac:(discriminate)) as (LT & _ & P). exists [(s, d)], (S e). split; [exact P|now apply fp_last].
  - intros n' d' e' s' d2' e2' s2' _ IH A _ IH2 A2 n L ->. destruct (IH n L eq_refl) as (s & d & e & -> & Q). pose proof (QL _ _ _ _ Q). destruct (IH2 e ltac:(lia) eq_refl) as (s2 & d2 & e2 & -> & Q2). pose proof (QL _ _ _ _ Q2).
    apply at_back in A2; [|lia|discriminate]. apply (img_not_back _ e) in A; [|lia|now left|discriminate].
    destruct (at_some _ e2 A2 ltac:(discriminate) ltac:(discriminate)) as (LT & _ & P). exists [(s, d); (s2, d2)], (S e2). split; [exact P|now apply (fp_two _ _ _ e)].
  - intros n' s' k' m' d' e' skipped e2' N K G H IH G2 n L ->. apply not_in_back in N; [|exact L|cbn; unfold NEWLINE; intuition discriminate]. destruct (flow_key_back n s' k' L K) as (s & k & K0 & ->).
    destruct (flow_key_img n s k K0) as (_ & P). rewrite P in G. destruct K0 as (LK & K1). destruct (gap_back (S k) _ m' ltac:(lia) (or_introl eq_refl) G) as (m & G0 & ->). pose proof (gap_le T _ _ G0).
    destruct (IH m ltac:(lia) eq_refl) as (d & e & I & HB). pose proof (HL _ _ _ _ HB). destruct (gap_back e _ e2' ltac:(lia) I G2) as (e2 & G3 & ->). exists s, d, e2. split; [reflexivity|].
    apply (fp_pair _ _ _ k m _ e skipped); auto. split; [exact LK|exact K1].
Qed.
Lemma header_back i' j' : header_to T' i' j' -> forall i, (i <= length T)%nat -> at_ i <> NEWLINE -> i' = place i -> exists j, (j <= length T)%nat /\ j' = place j /\ header_to T i j.
Proof.
  induction 1 as [i' P D|i' k' n' j' P L G H IH|i' j' D1 D2 D3 G]; intros i LI NI ->.
  - exists i. split; [exact LI|]. split; [reflexivity|]. apply hd_none; [apply (img_not_back _ i (place i)); [exact LI|now left|discriminate|exact P]|]. intros (E1 & E2 & E3). apply D.
    destruct (at_some _ i E1 ltac:(discriminate) ltac:(discriminate)) as (L1 & A1 & P1). destruct (at_some _ (S i) E2 ltac:(discriminate) ltac:(discriminate)) as (L2 & A2 & P2).
    destruct (at_some _ (S (S i)) E3 ltac:(discriminate) ltac:(discriminate)) as (L3 & A3 & P3). cbn [Nat.add]. rewrite P1, P2. auto.
  - destruct (line_back i k' LI L) as (k & L0 & ->). assert (LK : (k <= length T)%nat) by (destruct L0; lia). destruct (gap_back k _ n' LK (img_eol k) G) as (n & G0 & ->). pose proof (gap_le T _ _ G0).
    destruct (IH n ltac:(lia) (gap_nl _ _ G0) eq_refl) as (j & LJ & E & HD0). exists j. split; [exact LJ|]. split; [exact E|]. apply (hd_directive _ _ k n); auto. apply at_back; [exact LI|exact P|discriminate].
  - apply at_back in D1; [|exact LI|discriminate]. destruct (at_some _ i D1 ltac:(discriminate) ltac:(discriminate)) as (L1 & A1 & P1). cbn [Nat.add] in *. rewrite P1 in *.
    apply at_back in D2; [|lia|discriminate]. destruct (at_some _ (S i) D2 ltac:(discriminate) ltac:(discriminate)) as (L2 & A2 & P2). rewrite P2 in *.
    apply at_back in D3; [|lia|discriminate]. destruct (at_some _ (S (S i)) D3 ltac:(discriminate) ltac:(discriminate)) as (L3 & A3 & P3). rewrite P3 in *.
    destruct (gap_back (S (S (S i))) _ j' ltac:(lia) (or_introl eq_refl) G) as (j & G0 & ->). pose proof (gap_le T _ _ G0). exists j. split; [lia|]. split; [reflexivity|]. now apply hd_marker.
Qed.
Lemma stands_back d' : stands_for T' d' -> exists d, stands_for T d.
Proof.
  intros (n' & i' & j' & G & H & M & E). rewrite <- place_0 in G. destruct (gap_back O _ n' ltac:(lia) (or_introl eq_refl) G) as (n & G0 & ->). pose proof (gap_le T _ _ G0).
  destruct (header_back _ _ H n ltac:(lia) (gap_nl _ _ G0) eq_refl) as (i & LI & -> & HD0). destruct (proj1 all_back _ _ _ _ _ M i LI eq_refl) as (d & j & I & M0).
  pose proof (proj1 (all_le T) _ _ _ _ _ M0). destruct (gap_back j _ _ ltac:(lia) I E) as (k & G1 & EK). pose proof (gap_le T _ _ G1).
  assert (k = length T) as -> by (destruct (Nat.eq_dec k (length T)) as [X|X]; [exact X|]; pose proof (place_mono k (length T) ltac:(lia)); rewrite place_end in *; lia).
  exists d, n, i, j. auto.
Qed.
End Crlf.
