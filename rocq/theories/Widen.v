(* What it changes in what a text stands for to move all its lines to the right. *)
From Coq Require Import String.
From Coq Require Import List NArith Bool Arith Lia.
From Verif Require Import Bytes Utf8 Data Scan Shown Plain White Valid Lexed Means Places Parser Abs ReadsSound GrammarSound MeansSound MeansComplete Nest.
Import ListNotations.
Local Open Scope N_scope.

(* ---- definitions ---- *)
(* Blanks behind every newline; and with blanks in front of the first line. *)
Definition wide (sh : nat) (text : bytes) : bytes := flat_map (fun c => if c =? NEWLINE then NEWLINE :: repeat SPACE sh else [c]) text.
Definition widen (sh : nat) (text : bytes) : bytes := repeat SPACE sh ++ wide sh text.
(* The same string with blanks behind some newlines. *)
Inductive with_sp (sh : nat) : bytes -> bytes -> Prop :=
| ws_nil : with_sp sh [] []
| ws_byte c s s' : with_sp sh s s' -> with_sp sh (c :: s) (c :: s')
| ws_line s s' : with_sp sh s s' -> with_sp sh (NEWLINE :: s) (NEWLINE :: repeat SPACE sh ++ s').
Inductive sp_datum (sh : nat) : datum -> datum -> Prop :=
| sd_null : sp_datum sh DNull DNull
| sd_bool v : sp_datum sh (DBool v) (DBool v)
| sd_num s h : sp_datum sh (DNum s h) (DNum s h)
| sd_str s s' : with_sp sh s s' -> sp_datum sh (DStr s) (DStr s')
| sd_map l l' : Forall2 (fun e e' => with_sp sh (fst e) (fst e') /\ sp_datum sh (snd e) (snd e')) l l' -> sp_datum sh (DMap l) (DMap l')
| sd_seq l l' : Forall2 (sp_datum sh) l l' -> sp_datum sh (DSeq l) (DSeq l').

(* ---- proofs ---- *)
Section Wide.
Variable sh : nat.
Local Notation wide := (wide sh).
Local Notation pads := (repeat SPACE sh).
Lemma wide_app x y : wide (x ++ y) = wide x ++ wide y.
Proof. apply flat_map_app. Qed.
Lemma wide_cons c x : wide (c :: x) = (if c =? NEWLINE then NEWLINE :: pads else [c]) ++ wide x.
Proof. reflexivity. Qed.
Lemma pads_in c : In c pads -> c = SPACE.
Proof. intros I. now apply repeat_spec in I. Qed.
Lemma pads_nl : ~ In NEWLINE pads.
Proof. intros I. apply pads_in in I. discriminate. Qed.
Lemma wide_same x : ~ In NEWLINE x -> wide x = x.
Proof.
  induction x as [|c x IH]; intros N; [reflexivity|]. rewrite wide_cons.
  assert (c =? NEWLINE = false) as -> by (apply N.eqb_neq; intros ->; apply N; now left). rewrite IH; [reflexivity|]. intros I. apply N. now right.
Qed.
Lemma wide_in c x : c <> SPACE -> In c (wide x) <-> In c x.
Proof.
  intros N. unfold wide. rewrite in_flat_map. split.
  - intros (a & A & I). destruct (a =? NEWLINE) eqn:E; [apply N.eqb_eq in E as ->; destruct I as [I|I]; [now subst c|apply pads_in in I; congruence]|]. destruct I as [->|[]]. exact A.
  - intros I. exists c. split; [exact I|]. destruct (c =? NEWLINE) eqn:E; [apply N.eqb_eq in E as ->|]; cbn; auto.
Qed.
Lemma pads_nth t : (t < sh)%nat -> nth t pads 0 = SPACE.
Proof. intros L. rewrite (nth_indep pads 0 SPACE) by (rewrite repeat_length; exact L). apply nth_repeat. Qed.
Lemma wide_count x : count_occ N.eq_dec (wide x) NEWLINE = count_occ N.eq_dec x NEWLINE.
Proof.
  assert (P : forall n y, count_occ N.eq_dec (repeat SPACE n ++ y) NEWLINE = count_occ N.eq_dec y NEWLINE) by (induction n as [|n IH]; intros y; [reflexivity|exact (IH y)]).
  induction x as [|c x IH]; [reflexivity|]. rewrite wide_cons. destruct (c =? NEWLINE) eqn:E.
  - apply N.eqb_eq in E as ->. cbn [app count_occ]. rewrite P, IH. reflexivity.
  - cbn [app count_occ]. rewrite IH. reflexivity.
Qed.
Lemma wide_last x : after_last_nl (pads ++ wide x) = pads ++ after_last_nl x.
Proof.
  destruct (last_line x) as (a & l & E & A & L). pose proof (after_nl a l A L) as Z. subst x. transitivity (after_last_nl (pads ++ wide a ++ l)); [now rewrite wide_app, (wide_same l L)|]. transitivity (pads ++ l); [|now f_equal]. clear Z. destruct A as [->|(a' & ->)].
  - cbn [wide flat_map app]. apply (after_nl [] (pads ++ l)); [now left|]. rewrite in_app_iff. intros [I|I]; [now apply pads_nl|contradiction].
  - rewrite wide_app. replace (pads ++ (wide a' ++ wide [NEWLINE]) ++ l) with ((pads ++ wide a' ++ [NEWLINE]) ++ pads ++ l).
    + apply after_nl; [right; exists (pads ++ wide a'); now rewrite app_assoc|]. rewrite in_app_iff. intros [I|I]; [now apply pads_nl|contradiction].
    + rewrite <- !app_assoc. do 2 f_equal. rewrite wide_cons. cbn. now rewrite app_nil_r.
Qed.
Lemma chars_pads x : length (chars (pads ++ x)) = (sh + length (chars x))%nat.
Proof. induction sh as [|n IH]; [reflexivity|]. cbn [repeat app]. change (chars (SPACE :: repeat SPACE n ++ x)) with ([SPACE] :: chars (repeat SPACE n ++ x)). cbn [length]. rewrite IH. lia. Qed.
Lemma with_sp_refl s : with_sp sh s s.
Proof. induction s; now constructor. Qed.
Lemma with_sp_all s : with_sp sh s (wide s).
Proof. induction s as [|c x IH]; [constructor|]. rewrite wide_cons. destruct (c =? NEWLINE) eqn:E; [apply N.eqb_eq in E as ->|]; now constructor. Qed.
Lemma with_sp_app s s' t t' : with_sp sh s s' -> with_sp sh t t' -> with_sp sh (s ++ t) (s' ++ t').
Proof. induction 1; intros T; cbn [app]; auto; [apply ws_byte; auto|]. rewrite <- app_assoc. apply ws_line. auto. Qed.
Lemma nl_str x : In NEWLINE x -> plain_datum x (DStr x).
Proof.
  intros I. apply pd_str; [intros ->; cbn in I; unfold NEWLINE in I; intuition discriminate|..|intros h N; now apply (number_nl x h)];
    intros S; apply (spelled_nl x _ S); auto; repeat constructor; cbn; lia.
Qed.
Lemma white_pad : white SPACE. Proof. cbn. auto 10. Qed.
End Wide.

Section Widen.
Variable sh : nat.
Variable T : bytes.
Local Notation pads := (repeat SPACE sh).
Local Notation wide := (wide sh).
Local Notation T' := (widen sh T).
Local Notation with_sp := (with_sp sh).
Local Notation sp_datum := (sp_datum sh).
Local Notation at_ i := (nth i T 0).
Local Notation at' i := (nth i (widen sh T) 0).
Definition place (i : nat) : nat := length (widen sh (firstn i T)).
Lemma place_rest i : (i <= length T)%nat -> firstn (place i) T' = widen sh (firstn i T) /\ skipn (place i) T' = wide (skipn i T).
Proof.
  intros L. assert (E : T' = widen sh (firstn i T) ++ wide (skipn i T)) by (unfold widen; rewrite <- app_assoc, <- wide_app, firstn_skipn; reflexivity). unfold place. rewrite E.
  rewrite firstn_app, Nat.sub_diag, firstn_all, firstn_O, app_nil_r. split; [reflexivity|]. now rewrite skipn_app, Nat.sub_diag, skipn_all.
Qed.
Lemma place_0 : place 0 = sh. Proof. unfold place, widen. cbn. now rewrite app_nil_r, repeat_length. Qed.
Lemma place_end : place (length T) = length T'.
Proof. unfold place. now rewrite firstn_all. Qed.
Lemma place_S i : (i < length T)%nat -> place (S i) = (place i + if N.eqb (at_ i) NEWLINE then S sh else 1)%nat.
Proof.
  intros L. unfold place. assert (E : firstn (S i) T = firstn i T ++ [at_ i]).
  { clear -L. revert i L. induction T as [|c t IH]; intros i L; cbn in L; [lia|]. destruct i as [|i]; [reflexivity|]. cbn [nth]. rewrite 2!firstn_cons. cbn [app]. f_equal. apply IH. lia. }
  rewrite E. unfold widen. rewrite wide_app, !app_length, Nat.add_assoc. f_equal. rewrite wide_cons. destruct (_ =? _); cbn; rewrite ?app_nil_r, ?repeat_length; reflexivity.
Qed.
Lemma place_mono i j : (i < j <= length T)%nat -> (place i < place j)%nat.
Proof.
  intros [L LE]. induction L as [|j L IH].
  - rewrite place_S by lia. destruct (_ =? _); lia.
  - specialize (IH ltac:(lia)). rewrite place_S by lia. destruct (_ =? _); lia.
Qed.
Lemma place_le i j : (i <= j <= length T)%nat -> (place i <= place j)%nat.
Proof. intros L. destruct (Nat.eq_dec i j) as [->|N]; [lia|]. pose proof (place_mono i j). lia. Qed.
Lemma place_in i : (i <= length T)%nat -> (place i <= length T')%nat.
Proof. intros L. rewrite <- place_end. apply place_le. lia. Qed.
Lemma at_place i : (i <= length T)%nat -> at' (place i) = at_ i.
Proof.
  intros L. rewrite (at_hd T'), (proj2 (place_rest i L)), (at_hd T). destruct (skipn i T) as [|c r]; [reflexivity|].
  rewrite wide_cons. cbn [hd]. destruct (c =? NEWLINE) eqn:E; [apply N.eqb_eq in E as ->|]; reflexivity.
Qed.
Lemma next_place i : (i < length T)%nat -> at_ i <> NEWLINE -> S (place i) = place (S i).
Proof. intros L N. rewrite place_S by exact L. apply N.eqb_neq in N as ->. lia. Qed.
Lemma at_line i : at_ i = NEWLINE -> (i < length T)%nat /\ place (S i) = (S (place i) + sh)%nat /\ forall t, (t < sh)%nat -> at' (S (place i) + t)%nat = SPACE.
Proof.
  intros E. assert (L : (i < length T)%nat) by (apply (at_lt T i _ E); discriminate). split; [exact L|]. split; [rewrite place_S, E by exact L; cbn; lia|].
  intros t H. assert (S : skipn (place i) T' = (NEWLINE :: pads) ++ wide (skipn (S i) T)).
  { rewrite (proj2 (place_rest i ltac:(lia))), (rest_at T i L), E. reflexivity. }
  pose proof (nth_rest T' (place i) (Datatypes.S t)) as R. rewrite S in R. cbn [nth app] in R. rewrite app_nth1 in R by (rewrite repeat_length; exact H). rewrite pads_nth in R by exact H.
  replace (Datatypes.S (place i) + t)%nat with (place i + Datatypes.S t)%nat by lia. now symmetry.
Qed.
Lemma part_place i j : (i <= j <= length T)%nat -> slice T' (place i) (place j) = wide (slice T i j).
Proof.
  intros L. destruct (split3 T i j L) as (E & E1 & E2).
  assert (H : T' = widen sh (firstn i T) ++ wide (slice T i j) ++ wide (skipn j T)) by (unfold widen; rewrite <- app_assoc, <- !wide_app; f_equal; f_equal; exact E).
  assert (J : firstn j T = firstn i T ++ slice T i j).
  { rewrite E at 1. rewrite app_assoc. rewrite <- E2 at 1. rewrite firstn_app, Nat.sub_diag, firstn_O, firstn_all, app_nil_r. reflexivity. }
  unfold place. rewrite J. unfold widen at 3. rewrite wide_app, app_assoc. now apply (r_slice T' _ _ (wide (skipn j T))).
Qed.
Lemma column_place i : (i <= length T)%nat -> column T' (place i) = (sh + column T i)%nat.
Proof. intros L. unfold column, count_indent. rewrite (proj1 (place_rest i L)). unfold widen. rewrite wide_last. apply chars_pads. Qed.
Lemma place_inv k : (place 0 <= k <= length T')%nat -> exists i, (i <= length T)%nat /\ (k = place i \/ (at_ i = NEWLINE /\ (place i < k < place (S i))%nat)).
Proof.
  induction k as [|k IH]; intros L; [exists O; split; [lia|left; lia]|]. destruct (Nat.eq_dec (place 0) (S k)) as [E0|E0]; [exists O; split; [lia|now left]|]. destruct (IH ltac:(lia)) as (i & LI & H).
  assert (N : i <> length T). { intros ->. destruct H as [->|[H _]]; [rewrite place_end in L; lia|]. apply at_line in H as [H _]. lia. }
  destruct (N.eq_dec (at_ i) NEWLINE) as [E|E].
  - destruct (at_line i E) as (_ & P & _). destruct (Nat.eq_dec (S k) (place (S i))) as [X|X]; [exists (S i); split; [lia|now left]|]. exists i. split; [exact LI|]. right. split; [exact E|]. destruct H as [->|[_ H]]; lia.
  - exists (S i). split; [lia|]. left. rewrite <- next_place by (lia || exact E). destruct H as [->|[H _]]; [reflexivity|contradiction].
Qed.
(* lines *)
Lemma line_img i k : line_to T i k -> line_to T' (place i) (place k).
Proof.
  intros (L & N & E). pose proof (place_in k ltac:(lia)) as LE. pose proof (place_le i k ltac:(lia)) as PL. split; [lia|]. rewrite part_place by lia. rewrite wide_in by discriminate. split; [exact N|].
  destruct E as [->|E]; [left; apply place_end|right]. rewrite at_place by lia. exact E.
Qed.
Lemma line_part i k : line_to T i k -> slice T' (place i) (place k) = slice T i k.
Proof. intros (L & N & _). rewrite part_place by lia. now apply wide_same. Qed.
Lemma gap_pads i n j : (forall t, (t < n)%nat -> at' (i + t)%nat = SPACE) -> gap_to T' (i + n) j -> gap_to T' i j.
Proof.
  revert i. induction n as [|n IH]; intros i H G; [now rewrite Nat.add_0_r in G|]. apply ga_white; [specialize (H O ltac:(lia)); rewrite Nat.add_0_r in H; rewrite H; exact white_pad|].
  apply IH; [|now replace (S i + n)%nat with (i + S n)%nat by lia]. intros t L. replace (S i + t)%nat with (i + S t)%nat by lia. apply H. lia.
Qed.
Lemma gap_img i j : gap_to T i j -> gap_to T' (place i) (place j).
Proof.
  induction 1 as [i L W H|i j W G IH|i k j H L G IH].
  - apply ga_none; [now apply place_in|now rewrite at_place|now rewrite at_place].
  - pose proof (white_lt T i W) as L. apply ga_white; [rewrite at_place by lia; exact W|]. destruct (N.eq_dec (at_ i) NEWLINE) as [E|E].
    + destruct (at_line i E) as (_ & P & N). apply (gap_pads _ sh); [exact N|]. now rewrite <- P.
    + rewrite next_place by (lia || exact E). exact IH.
  - pose proof (at_lt T i _ H ltac:(discriminate)). apply (ga_comment _ _ (place k)); [now rewrite at_place by lia|now apply line_img|exact IH].
Qed.
Lemma gap_nl i j : gap_to T i j -> at_ j <> NEWLINE.
Proof. induction 1 as [i L W H| |]; auto. now apply white_nl. Qed.
Lemma ends_img i : (i <= length T)%nat -> ends_key T i <-> ends_key T' (place i).
Proof. intros L. unfold ends_key. rewrite at_place by exact L. reflexivity. Qed.
Lemma colon_img i j : (i <= j <= length T)%nat -> (forall k, (i <= k < j)%nat -> at_ k = COLON -> ~ ends_key T (S k)) ->
  forall k, (place i <= k < place j)%nat -> at' k = COLON -> ~ ends_key T' (S k).
Proof.
  intros L H k K E. pose proof (place_in j ltac:(lia)). pose proof (place_le 0 i ltac:(lia)). destruct (place_inv k ltac:(lia)) as (m & LM & [->|[X Y]]).
  2:{ exfalso. destruct (at_line m X) as (_ & P & Z). specialize (Z (k - S (place m))%nat ltac:(lia)). replace (S (place m) + (k - S (place m)))%nat with k in Z by lia. rewrite E in Z. discriminate. }
  rewrite at_place in E by exact LM. pose proof (at_lt T m _ E ltac:(discriminate)) as LT. assert (N : at_ m <> NEWLINE) by (rewrite E; discriminate).
  assert (M : (i <= m < j)%nat).
  { split; [destruct (le_lt_dec i m) as [X|X]; [exact X|pose proof (place_mono m i ltac:(lia)); lia]|]. destruct (le_lt_dec j m) as [X|X]; [|exact X]. pose proof (place_le j m ltac:(lia)). lia. }
  rewrite next_place by (lia || exact N). rewrite <- ends_img by lia. now apply H.
Qed.

(* quotes *)
Lemma sq_pads n y v : sq_content y v -> sq_content (repeat SPACE n ++ y) (repeat SPACE n ++ v).
Proof. intros S. induction n as [|n IH]; [exact S|]. cbn [repeat app]. constructor; [discriminate|exact IH]. Qed.
Lemma sq_img y v : sq_content y v -> sq_content (wide y) (wide v).
Proof.
  induction 1 as [|c y v N S IH|y v S IH]; [constructor| |].
  - rewrite !wide_cons. destruct (c =? NEWLINE) eqn:E; cbn [app]; [constructor; [discriminate|now apply sq_pads]|now constructor].
  - now apply (sc_pair (wide y) (wide v)).
Qed.
Lemma escape_nl e x : yaml_escape e x -> ~ In NEWLINE e.
Proof.
  intros Y I. assert (HX : forall c v, hex c v -> c <> NEWLINE) by (intros c n [? X1|? X1|? X1] ->; unfold digit, NEWLINE in X1; lia).
  destruct Y; rewrite ?in_app_iff in I; cbn in I; unfold NEWLINE in I; repeat match goal with H : hex _ _ |- _ => apply HX in H end; unfold NEWLINE in *; intuition congruence.
Qed.
Lemma dq_pads n y v : dq_shown y v -> dq_shown (repeat SPACE n ++ y) (repeat SPACE n ++ v).
Proof. intros S. induction n as [|n IH]; [exact S|]. cbn [repeat app]. apply ds_byte; [cbn; unfold SPACE; intuition discriminate|discriminate|exact IH]. Qed.
Lemma dq_img y v : dq_shown y v -> exists v', dq_shown (wide y) v' /\ with_sp v v'.
Proof.
  induction 1 as [|c y v N Z S (v' & IH & W)|e x y v X S (v' & IH & W)|y v S (v' & IH & W)].
  - exists []. split; constructor.
  - rewrite wide_cons. destruct (c =? NEWLINE) eqn:E.
    + apply N.eqb_eq in E as ->. exists (NEWLINE :: pads ++ v'). split; [|now constructor]. cbn [app]. apply ds_byte; [exact N|discriminate|now apply dq_pads].
    + exists (c :: v'). split; now constructor.
  - exists (x ++ v'). rewrite !wide_app, (wide_same sh e) by now apply (escape_nl e x). split; [now apply (ds_esc e x)|]. apply with_sp_app; [apply with_sp_refl|exact W].
  - exists (b """" ++ v'). split; [now apply (ds_slash (wide y))|]. apply with_sp_app; [apply with_sp_refl|exact W].
Qed.
Lemma quote_img i s j : quote_at T i s j -> exists s', quote_at T' (place i) s' (place j) /\ with_sp s s'.
Proof.
  intros Q. assert (LE : (i <= j <= length T)%nat) by (apply quote_le in Q; lia). pose proof (place_le i j LE). pose proof (place_in j ltac:(lia)).
  pose proof (part_place i j LE) as P. destruct Q as [y L E S N|y e L E S X].
  - exists (wide s). rewrite E, !wide_app in P. split; [|apply with_sp_all]. apply (qa_single _ _ _ _ (wide y)); [lia|exact P|now apply sq_img|]. rewrite at_place by lia. exact N.
  - destruct (dq_img _ _ S) as (s' & S' & W). exists s'. split; [|exact W]. rewrite E, !wide_app in P.
    assert (EE : wide e = e) by (apply wide_same; destruct X as [->|[->|[-> _]]]; cbn; unfold NEWLINE; intuition discriminate). rewrite EE in P.
    apply (qa_double _ _ _ _ (wide y) e); [lia|exact P|exact S'|]. destruct X as [X|[X|[X J]]]; auto. right. right. split; [exact X|]. subst j. apply place_end.
Qed.

(* numbers *)
Lemma wide_firstn x : forall n, (n <= length (wide x))%nat -> ~ In NEWLINE (firstn n (wide x)) -> (n <= length x)%nat /\ firstn n (wide x) = firstn n x.
Proof.
  induction x as [|c x IH]; intros n L N; [cbn in *; assert (n = O) by lia; subst n; cbn; auto|].
  rewrite wide_cons in *. destruct n as [|n]; [cbn; repeat split; auto; lia|].
  destruct (c =? NEWLINE) eqn:E; [exfalso; apply N; cbn; auto|]. cbn [app] in *. rewrite firstn_cons in *. cbn [length] in L.
  destruct (IH n ltac:(lia)) as (A & B); [intros I; apply N; now right|]. split; [cbn; lia|]. rewrite ?firstn_cons. f_equal; exact B.
Qed.
Lemma part_back i k' : (i <= length T)%nat -> (place i <= k' <= length T')%nat -> ~ In NEWLINE (slice T' (place i) k') ->
  exists k, (i <= k <= length T)%nat /\ k' = place k /\ slice T i k = slice T' (place i) k'.
Proof.
  intros L K N. assert (D : forall s a c, (a <= c <= length s)%nat -> slice s a c = firstn (c - a) (skipn a s)).
  { intros s a c L1. unfold slice. assert ((a <=? c)%nat && (c <=? length s)%nat = true) as ->; [|reflexivity]. apply andb_true_iff. split; apply Nat.leb_le; lia. }
  pose proof N as N0. rewrite D, (proj2 (place_rest i L)) in N by lia. assert (LS : (k' - place i <= length (wide (skipn i T)))%nat).
  { rewrite <- (proj2 (place_rest i L)), skipn_length. lia. }
  destruct (wide_firstn _ _ LS N) as (A & B). rewrite skipn_length in A. exists (i + (k' - place i))%nat. split; [lia|].
  assert (P : slice T i (i + (k' - place i)) = slice T' (place i) k').
  { rewrite !D by lia. rewrite (proj2 (place_rest i L)), B. f_equal. lia. }
  split; [|exact P]. assert (X : length (slice T' (place i) (place (i + (k' - place i)))) = length (slice T' (place i) k')).
  { rewrite part_place by lia. rewrite P. rewrite wide_same; [reflexivity|exact N0]. }
  pose proof (place_le i (i + (k' - place i)) ltac:(lia)). pose proof (place_in (i + (k' - place i)) ltac:(lia)). rewrite !seg_length in X by lia. lia.
Qed.
Lemma number_img flow i h j : number_at T flow i h j -> number_at T' flow (place i) h (place j) /\ slice T' (place i) (place j) = slice T i j.
Proof.
  intros (L & N & M & E). pose proof (place_le i j L). pose proof (place_in j ltac:(lia)). pose proof (part_place i j L) as P. rewrite (wide_same sh (slice T i j)) in P by now apply (number_nl _ h).
  split; [|exact P]. split; [lia|]. rewrite P. split; [exact N|]. split.
  - intros k h' K N'. destruct (part_back i k ltac:(lia) ltac:(lia) (number_nl _ _ N')) as (k0 & L0 & -> & P0). apply (M k0 h'); [|now rewrite P0].
    split; [|lia]. destruct (le_lt_dec k0 j) as [X|X]; [|exact X]. pose proof (place_le k0 j ltac:(lia)). lia.
  - intros FL. destruct (E FL) as (k & LT & B). exists (place k). split; [now apply line_img|]. now rewrite (line_part j k LT).
Qed.
Lemma number_back flow i h k' : (i <= length T)%nat -> number_at T' flow (place i) h k' -> exists k, number_at T flow i h k.
Proof.
  intros L (L' & N & M & E). destruct (part_back i k' L L' (number_nl _ _ N)) as (k & LK & -> & P). exists k. split; [lia|]. rewrite P. split; [exact N|]. split.
  - intros k0 h' K N'. apply (M (place k0) h'); [split; [apply place_mono; lia|apply place_in; lia]|]. rewrite part_place by lia. rewrite wide_same by now apply (number_nl _ h'). exact N'.
  - intros FL. destruct (E FL) as (k1 & LT & B). destruct (line_find T k ltac:(lia)) as (k2 & L2 & _). exists k2. split; [exact L2|].
    pose proof (line_img k k2 L2) as L3. rewrite (line_det T' _ _ _ LT L3) in B. now rewrite (line_part k k2 L2) in B.
Qed.

(* words *)
Lemma at_some c i : at_ i = c -> c <> 0 -> c <> NEWLINE -> (i < length T)%nat /\ at' (place i) = c /\ S (place i) = place (S i).
Proof.
  intros E Z N. assert (L : (i < length T)%nat) by now apply (at_lt T i c). split; [exact L|]. split; [rewrite at_place; [exact E|lia]|]. apply next_place; [exact L|congruence].
Qed.
Lemma white_img i : (i <= length T)%nat -> white (at_ i) -> white (at' (place i)).
Proof. intros L W. now rewrite at_place. Qed.
Lemma no_word_img flow i : (i <= length T)%nat -> no_word T flow i <-> no_word T' flow (place i).
Proof.
  intros L. unfold no_word. rewrite at_place by exact L. destruct (N.eq_dec (at_ i) DASH) as [D|D]; [|intuition]. destruct (at_some DASH i D ltac:(discriminate) ltac:(discriminate)) as (L1 & _ & P).
  rewrite P, at_place by lia. reflexivity.
Qed.
Lemma word_img flow i d j : word_to T flow i j -> plain_datum (slice T i j) d ->
  exists d', word_to T' flow (place i) (place j) /\ plain_datum (slice T' (place i) (place j)) d' /\ sp_datum d d'.
Proof.
  intros W D. pose proof (word_le T flow i j W) as L. pose proof (place_le i j L) as PL. pose proof (place_in j ltac:(lia)) as PI.
  assert (SAME : plain_datum (slice T i j) d -> sp_datum d d) by (intros [| | | | |]; constructor; apply with_sp_refl).
  destruct flow.
  - destruct W as (_ & WC & WE). assert (W' : word_to T' true (place i) (place j)).
    { split; [lia|]. split; [|rewrite at_place by lia; exact WE]. intros c C X. rewrite part_place in C by exact L. destruct (N.eq_dec c SPACE) as [->|NC]; [cbn in X; unfold SPACE in X; intuition discriminate|].
      apply (WC c); [|exact X]. now apply (proj1 (wide_in sh c _ NC)). }
    rewrite part_place by exact L. destruct (in_dec N.eq_dec NEWLINE (slice T i j)) as [I|I].
    + exists (DStr (wide (slice T i j))). split; [exact W'|]. split; [apply nl_str; apply wide_in; [discriminate|exact I]|]. rewrite (datum_nl _ _ D I). constructor. apply with_sp_all.
    + exists d. split; [exact W'|]. rewrite wide_same by exact I. split; [exact D|now apply SAME].
  - destruct W as (LT & WC). exists d. rewrite (line_part i j LT). split; [|split; [exact D|now apply SAME]]. split; [now apply line_img|]. now apply colon_img.
Qed.

(* block scalars *)
Lemma gap_count i j : gap_to T i j -> count_occ N.eq_dec (slice T' (place i) (place j)) NEWLINE = count_occ N.eq_dec (slice T i j) NEWLINE.
Proof. intros G. pose proof (gap_le T i j G). rewrite part_place by lia. apply wide_count. Qed.
Lemma gap_joined folded i j : gap_to T i j -> joined folded (slice T' (place i) (place j)) = joined folded (slice T i j).
Proof. intros G. unfold joined. now rewrite gap_count. Qed.
Lemma lines_img folded c n v e m : lines_at T folded c n v e m -> lines_at T' folded (sh + c) (place n) v (place e) (place m).
Proof.
  assert (LT : forall x, (x < length T)%nat -> (place x < length (widen sh T))%nat) by (intros x L; rewrite <- place_end; apply place_mono; lia).
  induction 1 as [n l t m L K U G C|n l t L K U G C|n l t n' v e m L K U G L' C H IH].
  - pose proof (gap_le T l m G) as GL. apply la_last; [now apply LT|now apply line_img|now rewrite line_part|now apply gap_img|]. rewrite column_place by lia. lia.
  - rewrite <- (gap_joined _ _ _ G). rewrite place_end. apply la_end; [now apply LT|now apply line_img|now rewrite line_part|rewrite <- place_end; now apply gap_img|]. rewrite <- place_end, column_place by lia. lia.
  - rewrite <- (gap_joined _ _ _ G). apply (la_more _ _ _ _ _ _ (place n')); [now apply LT|now apply line_img|now rewrite line_part|now apply gap_img|now apply LT| |exact IH]. rewrite column_place by lia. lia.
Qed.
Lemma lines_gap folded c n v e m : lines_at T folded c n v e m -> gap_to T e m.
Proof. induction 1; assumption. Qed.
Lemma in_count (x : bytes) : In NEWLINE x <-> (0 < count_occ N.eq_dec x NEWLINE)%nat.
Proof. rewrite (count_occ_In N.eq_dec). reflexivity. Qed.
Lemma body_img folded k v w j : block_body T folded k v w j -> exists w', block_body T' folded (place k) v w' (place j) /\ newlines_in w' = newlines_in w.
Proof.
  assert (LT : forall x, (x < length T)%nat -> (place x < length (widen sh T))%nat) by (intros x L; rewrite <- place_end; apply place_mono; lia).
  assert (HD : (exists n, gap_to T k n /\ ~ In NEWLINE (slice T k n)) -> exists n', gap_to T' (place k) n' /\ ~ In NEWLINE (slice T' (place k) n')).
  { intros (n & G & N). exists (place n). split; [now apply gap_img|]. rewrite in_count, (gap_count k n G), <- in_count. exact N. }
  intros [G I|n v0 e m G I L B|l t H L U G|l t n v0 e m H L U G LN B].
  - pose proof (gap_count _ _ G) as C. rewrite place_end in *. eexists. split; [apply bb_empty|].
    + rewrite <- place_end. now apply gap_img.
    + rewrite in_count, C, <- in_count. exact I.
    + unfold newlines_in. now rewrite C.
  - pose proof (gap_count _ _ G) as C. pose proof (lines_img _ _ _ _ _ _ B) as B'. pose proof (lines_gap _ _ _ _ _ _ B) as GE.
    exists (slice T' (place e) (place m)). split; [apply (bb_lines _ _ _ (place n))|].
    + now apply gap_img.
    + rewrite in_count, C, <- in_count. exact I.
    + now apply LT.
    + rewrite column_place by lia. exact B'.
    + unfold newlines_in. rewrite (gap_count e m GE). reflexivity.
  - pose proof (gap_count _ _ G) as C. rewrite place_end in *. eexists. split; [apply (bb_head _ _ _ (place l)); [now apply HD|now apply line_img|now rewrite line_part|]|].
    + rewrite <- place_end. now apply gap_img.
    + unfold newlines_in. now rewrite C.
  - pose proof (lines_img _ _ _ _ _ _ B) as B'. pose proof (lines_gap _ _ _ _ _ _ B) as GE. exists (slice T' (place e) (place m)). split; [apply (bb_more _ _ _ (place l) _ (place n))|].
    + now apply HD.
    + now apply line_img.
    + now rewrite line_part.
    + now apply gap_img.
    + now apply LT.
    + rewrite column_place by lia. exact B'.
    + unfold newlines_in. rewrite (gap_count e m GE). reflexivity.
Qed.
Lemma block_img i s j : block_at T i s j -> block_at T' (place i) s (place j).
Proof.
  intros [folded v w A N B ->|folded v w A N B ->|folded v w A N B ->]; destruct (body_img _ _ _ _ _ B) as (w' & B' & E);
    destruct (at_some _ i A ltac:(destruct folded; discriminate) ltac:(destruct folded; discriminate)) as (L & A' & P).
  - apply (bl_plain _ _ _ _ folded v w'); [exact A'| |now rewrite Nat.add_1_l, P|now rewrite E]. rewrite P, at_place by lia. exact N.
  - destruct (at_some _ (S i) N ltac:(discriminate) ltac:(discriminate)) as (L2 & N' & P2). apply (bl_keep _ _ _ _ folded v w'); [exact A'|now rewrite P| |now rewrite E].
    replace (2 + place i)%nat with (place (2 + i)) by (cbn [Nat.add]; lia). exact B'.
  - destruct (at_some _ (S i) N ltac:(discriminate) ltac:(discriminate)) as (L2 & N' & P2). apply (bl_strip _ _ _ _ folded v w'); [exact A'|now rewrite P| |reflexivity].
    replace (2 + place i)%nat with (place (2 + i)) by (cbn [Nat.add]; lia). exact B'.
Qed.

(* keys *)
Lemma key_img i s k : key_at T i s k -> exists s', key_at T' (place i) s' (place k) /\ with_sp s s'.
Proof.
  intros [Q A|NW L N A E M ->].
  - destruct (quote_img i s k Q) as (s' & Q' & W). exists s'. split; [|exact W]. apply ka_quoted; [exact Q'|]. now apply at_some.
  - exists (slice T i k). split; [|apply with_sp_refl]. destruct (at_some _ k A ltac:(discriminate) ltac:(discriminate)) as (_ & A' & P).
    assert (PP : slice T' (place i) (place k) = slice T i k) by (rewrite part_place by lia; now apply wide_same).
    apply ka_plain.
    + rewrite <- no_word_img by lia. exact NW.
    + split; [apply place_le; lia|rewrite <- place_end; apply place_mono; lia].
    + now rewrite PP.
    + exact A'.
    + rewrite P. apply ends_img; [lia|exact E].
    + now apply (colon_img i k ltac:(lia)).
    + now symmetry.
Qed.
Lemma later_img i s k : later_key_at T i s k -> later_key_at T' (place i) (wide s) (place k).
Proof.
  intros (L & -> & C & Z & A). split; [split; [apply place_mono; lia|rewrite <- place_end; apply place_mono; lia]|]. split; [symmetry; apply part_place; lia|].
  split; [rewrite wide_in by discriminate; exact C|]. split; [rewrite wide_in by discriminate; exact Z|]. now apply at_some.
Qed.
Lemma flow_key_img i s k : flow_key_at T i s k -> flow_key_at T' (place i) (wide s) (place k) /\ S (place k) = place (S k).
Proof.
  intros (L & -> & C & Z & A). assert (N : at_ k <> NEWLINE) by (intros E; rewrite E in A; cbn in A; unfold COLON, NEWLINE in A; intuition discriminate).
  split; [|apply next_place; [lia|exact N]]. split; [split; [apply place_le; lia|rewrite <- place_end; apply place_mono; lia]|]. split; [symmetry; apply part_place; lia|].
  split; [rewrite wide_in by discriminate; exact C|]. split; [rewrite wide_in by discriminate; exact Z|]. rewrite at_place by lia. exact A.
Qed.

(* values *)
Definition sp_entries (l l' : list (bytes * datum)) : Prop := Forall2 (fun e e' => with_sp (fst e) (fst e') /\ sp_datum (snd e) (snd e')) l l'.
Definition up (outer : option nat) : option nat := option_map (fun o => (sh + o)%nat) outer.
Lemma up_under outer c : under outer c -> under (up outer) (sh + c).
Proof. destruct outer; cbn; [lia|auto]. Qed.
Ltac some A := let L := fresh "L" in let A' := fresh "A'" in let P := fresh "P" in
  destruct (at_some _ _ A ltac:(discriminate) ltac:(discriminate)) as (L & A' & P).
Ltac same := rewrite at_place by lia; assumption.
Lemma all_img :
  (forall flow outer i d j, means T flow outer i d j -> exists d', means T' flow (up outer) (place i) d' (place j) /\ sp_datum d d') /\
  (forall outer i d j, behind T outer i d j -> exists d', behind T' (up outer) (place i) d' (place j) /\ sp_datum d d') /\
  (forall c i l j, dashes_at T c i l j -> at_ i = DASH -> exists l', dashes_at T' (sh + c) (place i) l' (place j) /\ Forall2 sp_datum l l') /\
  (forall c s k l j, pairs_at T c s k l j -> at_ k = COLON -> forall s', with_sp s s' -> exists l', pairs_at T' (sh + c) s' (place k) l' (place j) /\ sp_entries l l') /\
  (forall i d j sk, held_at T i d j sk -> exists d', held_at T' (place i) d' (place j) sk /\ sp_datum d d') /\
  (forall n l j, flow_seq_at T n l j -> exists l', flow_seq_at T' (place n) l' (place j) /\ Forall2 sp_datum l l') /\
  (forall n l j, flow_map_at T n l j -> exists l', flow_map_at T' (place n) l' (place j) /\ sp_entries l l') /\
  (forall n s d j, flow_pair_at T n s d j -> exists d', flow_pair_at T' (place n) (wide s) d' (place j) /\ sp_datum d d').
Proof.
  pose proof (all_le T) as (ML & BL & DL & PL & HL & SL & FL & QL).
  apply means_all.
  - intros flow outer i s j Q C. destruct (quote_img i s j Q) as (s' & Q' & W). exists (DStr s'). split; [|now constructor].
    apply me_quote; [exact Q'|]. destruct C as [C|C]; [now left|right]. rewrite at_place by (apply quote_le in Q; lia). exact C.
  - intros flow outer i h j N. destruct (number_img flow i h j N) as (N' & E). exists (DNum (slice T i j) h). split; [rewrite <- E; now apply me_number|constructor].
  - intros flow outer i d j NW NN W D. destruct (word_img flow i d j W D) as (d' & W' & D' & C). exists d'. split; [|exact C].
    pose proof (word_le T flow i j W). apply me_word; [rewrite <- no_word_img by lia; exact NW| |exact W'|exact D'].
    intros h k N. destruct (number_back flow i h k ltac:(lia) N) as (k0 & N0). now apply (NN h k0).
  - intros outer i s j B. exists (DStr s). split; [now apply me_block, block_img|constructor; apply with_sp_refl].
  - intros outer i l j A W _ IH. destruct (IH A) as (l' & D & C). exists (DSeq l'). split; [|now constructor].
    some A. apply me_seq; [exact A'|rewrite P; apply white_img; [lia|exact W]|]. rewrite column_place by lia. exact D.
  - intros outer i s k l j K U _ IH. destruct (key_img i s k K) as (s' & K' & W). pose proof (key_le T i s k K) as LK.
    assert (CK : at_ k = COLON) by now destruct K. destruct (IH CK s' W) as (l' & D & C). exists (DMap l'). split; [|now constructor].
    apply (me_map _ _ _ s' (place k)); [exact K'| |]; rewrite column_place by lia; [now apply up_under|assumption].
  - intros flow outer i n l j A G _ (l' & S & C). exists (DSeq l'). split; [|now constructor]. some A. apply (me_flow_seq _ _ _ _ (place n)); [exact A'| |exact S]. rewrite P. now apply gap_img.
  - intros flow outer i n l j A G _ (l' & S & C). exists (DMap l'). split; [|now constructor]. some A. apply (me_flow_map _ _ _ _ (place n)); [exact A'| |exact S]. rewrite P. now apply gap_img.
  - intros outer i m d j G _ (d' & M & C). exists d'. split; [|exact C]. apply (be_value _ _ _ (place m)); [now apply gap_img|exact M].
  - intros o i m s k G K LE. destruct (key_img m s k K) as (s' & K' & W). exists DNull. split; [|constructor].
    pose proof (gap_le T _ _ G). apply (be_none _ _ _ (place m) s' (place k)); [now apply gap_img|exact K'|]. rewrite column_place by lia. lia.
  - intros c i d e n _ (d' & B & C) G H A. exists [d']. split; [|repeat constructor; exact C]. pose proof (gap_le T _ _ G) as GL. some A.
    apply (da_last _ _ _ _ _ (place n)); [rewrite P; exact B|now apply gap_img|]. rewrite column_place by lia. destruct H as [H|H]; [left; lia|right; same].
  - intros c i d e n l j _ (d' & B & C) G H AN _ IH A. destruct (IH AN) as (l' & D & C2). exists (d' :: l'). split; [|now constructor].
    pose proof (gap_le T _ _ G) as GL. some A. apply (da_more _ _ _ _ (place e) (place n)); [rewrite P; exact B|now apply gap_img|rewrite column_place by lia; lia|same|exact D].
  - intros c s k d e n _ (d' & B & C) G H A s' W. exists [(s', d')]. split; [|constructor; [now split|constructor]]. pose proof (gap_le T _ _ G) as GL. some A.
    apply (pa_last _ _ _ _ _ _ (place n)); [rewrite P; exact B|now apply gap_img|]. rewrite column_place by lia. destruct H as [H|H]; [left; lia|right; same].
  - intros c s k d e n s2 k2 l j _ (d' & B & C) G H K _ IH A s' W. assert (AK : at_ k2 = COLON) by apply K.
    destruct (IH AK (wide s2) (with_sp_all sh s2)) as (l' & D & C2). exists ((s', d') :: l'). split; [|constructor; [now split|exact C2]]. pose proof (gap_le T _ _ G) as GL. some A.
    apply (pa_more _ _ _ _ _ (place e) (place n) (wide s2) (place k2)); [rewrite P; exact B|now apply gap_img|rewrite column_place by lia; lia|now apply later_img|exact D].
  - intros i d j _ (d' & M & C). exists d'. split; [now apply he_value|exact C].
  - intros i s e n B G. exists (DStr s). split; [|constructor; apply with_sp_refl]. apply (he_block _ _ _ (place e)); [now apply block_img|now apply gap_img].
  - intros n A. some A. exists []. split; [|constructor]. rewrite <- P. now apply fq_end.
  - intros n m d e skipped n' l j N G H (d' & H' & C) A SK _ (l' & S & C2). exists (d' :: l'). split; [|now constructor]. some A. pose proof (gap_le T _ _ G).
    apply (fq_comma _ _ (place m) _ (place e) skipped (place n')); [same|now apply gap_img|exact H'|exact A'| |exact S].
    destruct skipped; [subst n'; now symmetry|]. rewrite P. now apply gap_img.
  - intros n m d e skipped n' N G H (d' & H' & C) A G2 A2. exists [d']. split; [|repeat constructor; exact C]. pose proof (gap_le T _ _ G). pose proof (gap_le T _ _ G2). some A2. rewrite <- P.
    apply (fq_last _ _ (place m) _ (place e) skipped (place n')); [same|now apply gap_img|exact H'|same|now apply gap_img|exact A'].
  - intros n m d e skipped n' d2 e2 skipped2 n2 N G H (d' & H' & C) A G2 N2 H2 (d2' & H2' & C2) G3 A3. exists [d'; d2']. split; [|repeat constructor; assumption].
    pose proof (gap_le T _ _ G). pose proof (gap_le T _ _ G2). pose proof (gap_le T _ _ G3). some A3. rewrite <- P.
    apply (fq_two _ _ (place m) _ (place e) skipped (place n') _ (place e2) skipped2 (place n2)); [same|now apply gap_img|exact H'|same|now apply gap_img|same|exact H2'|now apply gap_img|exact A'].
  - intros n A. some A. exists []. split; [|constructor]. rewrite <- P. now apply fp_end.
  - intros n d e n' l j s _ (d' & Q & C) A G _ (l' & S & C2). exists ((wide s, d') :: l'). split; [|constructor; [split; [apply with_sp_all|exact C]|exact C2]].
    some A. apply (fp_comma _ _ _ (place e) (place n')); [exact Q|exact A'|rewrite P; now apply gap_img|exact S].
  - intros n d e s _ (d' & Q & C) A. exists [(wide s, d')]. split; [|constructor; [split; [apply with_sp_all|exact C]|constructor]]. some A. rewrite <- P. now apply fp_last.
  - intros n d e s d2 e2 s2 Q0 (d' & Q & C) A Q0' (d2' & Q2 & C2) A2. exists [(wide s, d'); (wide s2, d2')]. split; [|repeat (constructor; [split; [apply with_sp_all|assumption]|]); constructor].
    some A2. rewrite <- P. apply QL in Q0. apply (fp_two _ _ _ (place e)); [exact Q|same|exact Q2|exact A'].
  - intros n s k m d e skipped e2 N K G H (d' & H' & C) G2. exists d'. split; [|exact C]. destruct (flow_key_img n s k K) as (K' & P). assert (LK : (n <= length T)%nat) by (destruct K; lia).
    apply (fp_pair _ _ _ (place k) (place m) _ (place e) skipped); [same|exact K'|rewrite P; now apply gap_img|exact H'|now apply gap_img].
Qed.
Lemma marker_img i : (i <= length T)%nat -> ~ (at_ i = DASH /\ at_ (1 + i) = DASH /\ at_ (2 + i) = DASH) -> ~ (at' (place i) = DASH /\ at' (1 + place i)%nat = DASH /\ at' (2 + place i)%nat = DASH).
Proof.
  intros L D (E1 & E2 & E3). apply D. rewrite at_place in E1 by exact L. some E1. cbn [Nat.add] in *. rewrite P, at_place in E2 by lia. some E2. rewrite P, P0, at_place in E3 by lia. auto.
Qed.
Lemma header_img i j : (i <= length T)%nat -> header_to T i j -> header_to T' (place i) (place j).
Proof.
  intros L0 H. induction H as [i P D|i k n j P L G H IH|i j D1 D2 D3 G].
  - apply hd_none; [same|now apply marker_img].
  - apply (hd_directive _ _ (place k) (place n)); [same|now apply line_img|now apply gap_img|]. apply gap_le in G as GL. apply IH; lia.
  - cbn [Nat.add] in *. some D1. some D2. some D3. apply hd_marker; [exact A'|cbn [Nat.add]; now rewrite P|cbn [Nat.add]; now rewrite P, P0|]. cbn [Nat.add]. rewrite P, P0, P1. now apply gap_img.
Qed.
Lemma first_gap n : gap_to T 0 n -> gap_to T' 0 (place n).
Proof.
  intros G. apply gap_img in G. rewrite place_0 in G. apply (gap_pads 0 sh); [|exact G]. intros t L. cbn [Nat.add]. unfold widen. rewrite app_nth1 by (rewrite repeat_length; exact L). now apply pads_nth.
Qed.
Lemma stands_wide d : stands_for T d -> exists d', stands_for T' d' /\ sp_datum d d'.
Proof.
  intros (n & i & j & G & H & M & E). destruct (proj1 all_img _ _ _ _ _ M) as (d' & M' & C). exists d'. split; [|exact C]. pose proof (gap_le T _ _ G) as GL.
  exists (place n), (place i), (place j). split; [now apply first_gap|]. split; [apply header_img; [lia|exact H]|]. split; [exact M'|].
  rewrite <- place_end. now apply gap_img.
Qed.
End Widen.
