(* Text in front that ends with a newline moves every place by its length and changes nothing else. *)
From Coq Require Import String.
From Coq Require Import List NArith Bool Arith Lia.
From Verif Require Import Bytes Utf8 Data Parser Scan Shown Plain White Valid Lexed Grammar Means Places MeansComplete Printed Fails.
Import ListNotations.
Local Open Scope N_scope.

Lemma last_nl_none x : existsb (N.eqb NEWLINE) x = false -> after_last_nl x = x.
Proof. destruct x as [|c x]; [reflexivity|]. cbn [existsb after_last_nl]. intros E. apply orb_false_iff in E as (E & ->). now rewrite N.eqb_sym, E. Qed.
Lemma last_nl_app u x : after_last_nl ((u ++ [NEWLINE]) ++ x) = after_last_nl x.
Proof.
  induction u as [|c u IH].
  - cbn [app after_last_nl]. destruct (existsb (N.eqb NEWLINE) x) eqn:X; [reflexivity|]. now rewrite last_nl_none.
  - cbn [app after_last_nl]. assert (E2 : existsb (N.eqb NEWLINE) ((u ++ [NEWLINE]) ++ x) = true) by (rewrite !existsb_app; cbn; now rewrite orb_true_r). rewrite E2. exact IH.
Qed.

Section Lead.
Variables W T : bytes.
Hypothesis LN : forall x, after_last_nl (W ++ x) = after_last_nl x.
Local Notation T2 := (W ++ T).
Local Notation at_ i := (nth i T 0).
Local Notation at2 i := (nth i (W ++ T) 0).
Definition mv (i : nat) : nat := (i + length W)%nat.

Lemma len2 : length T2 = mv (length T).
Proof. unfold mv. rewrite app_length. lia. Qed.
Lemma at_mv i : at2 (mv i) = at_ i.
Proof. unfold mv. rewrite app_nth2 by lia. f_equal. lia. Qed.
Lemma at_S i : at2 (S (mv i)) = at_ (S i). Proof. apply (at_mv (S i)). Qed.
Lemma at_1 i : at2 (1 + mv i) = at_ (1 + i). Proof. apply (at_mv (1 + i)). Qed.
Lemma at_2 i : at2 (2 + mv i) = at_ (2 + i). Proof. apply (at_mv (2 + i)). Qed.
Lemma sl_mv i j : slice T2 (mv i) (mv j) = slice T i j.
Proof.
  unfold slice. rewrite len2. unfold mv. replace (i + length W <=? j + length W)%nat with (i <=? j)%nat by (destruct (Nat.leb_spec i j), (Nat.leb_spec (i + length W) (j + length W)); lia || reflexivity).
  replace (j + length W <=? length T + length W)%nat with (j <=? length T)%nat by (destruct (Nat.leb_spec j (length T)), (Nat.leb_spec (j + length W) (length T + length W)); lia || reflexivity).
  destruct (_ && _); [|reflexivity]. replace (j + length W - (i + length W))%nat with (j - i)%nat by lia. f_equal. rewrite skipn_app, skipn_all2 by lia. cbn [app]. f_equal. lia.
Qed.
Lemma sl_S i j : slice T2 (S (mv i)) (mv j) = slice T (S i) j. Proof. apply (sl_mv (S i)). Qed.
Lemma sl_3 i j : slice T2 (3 + mv i) (mv j) = slice T (3 + i) j. Proof. apply (sl_mv (3 + i)). Qed.
Lemma col_mv i : column T2 (mv i) = column T i.
Proof. unfold column, count_indent, mv. rewrite firstn_app, firstn_all2 by lia. replace (i + length W - length W)%nat with i by lia. now rewrite LN. Qed.
Lemma inv_mv k i : (mv i <= k)%nat -> exists k0, k = mv k0 /\ (i <= k0)%nat.
Proof. intros L. exists (k - length W)%nat. unfold mv in *. lia. Qed.
Ltac mvs := rewrite ?len2, ?at_S, ?at_1, ?at_2, ?sl_S, ?sl_3, ?at_mv, ?sl_mv, ?col_mv.
Ltac mvh H := rewrite ?len2, ?at_S, ?at_1, ?at_2, ?sl_S, ?sl_3, ?at_mv, ?sl_mv, ?col_mv in H.
Ltac arith := rewrite ?len2; unfold mv in *; lia.

Lemma line_mv i k : line_to T2 (mv i) (mv k) <-> line_to T i k.
Proof.
  unfold line_to. mvs. split; intros (L & N & E); (split; [arith|]; split; [exact N|]); (destruct E as [E|E]; [left; arith|now right]).
Qed.
Lemma gap_mv i j : gap_to T i j -> gap_to T2 (mv i) (mv j).
Proof.
  induction 1 as [i L Wh H|i j Wh G IH|i k j H L G IH].
  - apply ga_none; mvs; auto; arith.
  - apply ga_white; [now mvs|exact IH].
  - apply (ga_comment _ _ (mv k)); [now mvs|now apply line_mv|exact IH].
Qed.
Lemma ends_mv i : ends_key T2 (mv i) <-> ends_key T i.
Proof. unfold ends_key. mvs. reflexivity. Qed.
Lemma ends_S i : ends_key T2 (S (mv i)) <-> ends_key T (S i).
Proof. apply (ends_mv (S i)). Qed.
Lemma quote_mv i s j : quote_at T i s j -> quote_at T2 (mv i) s (mv j).
Proof.
  intros [y L E C N|y e L E C D]; [apply (qa_single _ _ _ _ y)|apply (qa_double _ _ _ _ y e)]; mvs; auto; try arith.
  destruct D as [D|[D|[D J]]]; subst; auto.
Qed.
Lemma number_mv flow i h j : number_at T2 flow (mv i) h (mv j) <-> number_at T flow i h j.
Proof.
  unfold number_at. mvs. split; intros (L & N & M & E); (split; [arith|]; split; [exact N|]; split).
  - intros k h' K X. apply (M (mv k) h'); [arith|now mvs].
  - intros F. destruct (E F) as (k & LK & B). destruct (inv_mv k j) as (k0 & -> & _); [apply LK|]. exists k0. mvh B. split; [now apply line_mv|exact B].
  - intros k h' K X. destruct (inv_mv k j) as (k0 & -> & _); [lia|]. mvh X. apply (M k0 h'); [arith|exact X].
  - intros F. destruct (E F) as (k & LK & B). exists (mv k). mvs. split; [now apply line_mv|exact B].
Qed.
Lemma no_number_mv flow i : (forall h k, ~ number_at T flow i h k) -> forall h k, ~ number_at T2 flow (mv i) h k.
Proof. intros N h k X. destruct (inv_mv k i) as (k0 & -> & _); [apply X|]. apply number_mv in X. now apply (N h k0). Qed.
Lemma no_word_mv flow i : no_word T2 flow (mv i) <-> no_word T flow i.
Proof. unfold no_word. mvs. reflexivity. Qed.
Lemma colons_mv i j : (forall k, (i <= k < j)%nat -> at_ k = COLON -> ~ ends_key T (S k)) -> forall k, (mv i <= k < mv j)%nat -> at2 k = COLON -> ~ ends_key T2 (S k).
Proof. intros H k K E. destruct (inv_mv k i) as (k0 & -> & _); [lia|]. mvh E. rewrite ends_S. apply H; [arith|exact E]. Qed.
Lemma word_mv flow i j : word_to T flow i j -> word_to T2 flow (mv i) (mv j).
Proof.
  unfold word_to. destruct flow.
  - intros (L & C & E). mvs. split; [arith|]. auto.
  - intros (L & C). split; [now apply line_mv|]. now apply colons_mv.
Qed.
Lemma lines_mv folded c n v e m : lines_at T folded c n v e m -> lines_at T2 folded c (mv n) v (mv e) (mv m).
Proof.
  induction 1 as [n l t m L K U G C|n l t L K U G C|n l t n' v e m L K U G L' C H IH].
  - apply la_last; mvs; auto; [arith|now apply line_mv|now apply gap_mv].
  - rewrite <- (sl_mv l). rewrite <- len2. apply la_end; [arith|now apply line_mv|now mvs|rewrite len2; now apply gap_mv|rewrite len2; now mvs].
  - rewrite <- (sl_mv l). apply (la_more _ _ _ _ _ _ (mv n')); [arith|now apply line_mv|now mvs|now apply gap_mv|arith|now mvs|exact IH].
Qed.
Lemma body_mv folded k v w j : block_body T folded k v w j -> block_body T2 folded (mv k) v w (mv j).
Proof.
  assert (HD : (exists n, gap_to T k n /\ ~ In NEWLINE (slice T k n)) -> exists n', gap_to T2 (mv k) n' /\ ~ In NEWLINE (slice T2 (mv k) n')).
  { intros (n & G & N). exists (mv n). mvs. split; [now apply gap_mv|exact N]. }
  intros [G I|n v0 e m G I L B|l t H L U G|l t n v0 e m H L U G LN' B].
  - rewrite <- (sl_mv k). rewrite <- len2. apply bb_empty; rewrite len2; [now apply gap_mv|now mvs].
  - rewrite <- (sl_mv e). apply (bb_lines _ _ _ (mv n)); [now apply gap_mv|now mvs|arith|mvs; now apply lines_mv].
  - rewrite <- (sl_mv l). rewrite <- len2. apply (bb_head _ _ _ (mv l)); [now apply HD|now apply line_mv|now mvs|rewrite len2; now apply gap_mv].
  - rewrite <- (sl_mv e). apply (bb_more _ _ _ (mv l) _ (mv n) _ _ (mv m)); [now apply HD|now apply line_mv|now mvs|now apply gap_mv|arith|mvs; now apply lines_mv].
Qed.
Lemma laid_mv i s w j : block_laid T i s w j -> block_laid T2 (mv i) s w (mv j).
Proof.
  intros [folded v A N B E|folded v A N B E|folded v A N B E]; [apply (bd_plain _ _ _ _ _ folded v)|apply (bd_keep _ _ _ _ _ folded v)|apply (bd_strip _ _ _ _ _ folded v)]; mvs; auto.
  - exact (body_mv _ (1 + i) _ _ _ B).
  - exact (body_mv _ (2 + i) _ _ _ B).
  - exact (body_mv _ (2 + i) _ _ _ B).
Qed.
Lemma key_mv i s k : key_at T i s k -> key_at T2 (mv i) s (mv k).
Proof.
  intros [Q A|NW L N A E M ->]; [apply ka_quoted; mvs; auto; now apply quote_mv|]. apply ka_plain; mvs; auto.
  - now rewrite no_word_mv.
  - arith.
  - now apply ends_S.
  - now apply colons_mv.
Qed.
Lemma later_mv i s k : later_key_at T i s k -> later_key_at T2 (mv i) s (mv k).
Proof. unfold later_key_at. mvs. intros (L & H). split; [arith|exact H]. Qed.
Lemma flow_key_mv i s k : flow_key_at T i s k -> flow_key_at T2 (mv i) s (mv k).
Proof. unfold flow_key_at. mvs. intros (L & H). split; [arith|exact H]. Qed.
Lemma after_mv w e w' n : after T w e w' n -> after T2 w (mv e) w' (mv n).
Proof. intros [w0 n0|e0 n0 G]; [apply af_read|]. rewrite <- sl_mv. apply af_skip. now apply gap_mv. Qed.
Hint Resolve gap_mv quote_mv word_mv laid_mv key_mv later_mv flow_key_mv after_mv no_number_mv : mv.
(* the layout w read behind a value is no longer than the text so far *)
Definition short (w : option bytes) (n : nat) : Prop := match w with Some w => (length w <= n)%nat | None => True end.
Lemma sl_len s i j : (length (slice s i j) <= j)%nat.
Proof. unfold slice. destruct (_ && _); [rewrite firstn_length; lia|cbn; lia]. Qed.
Lemma after_short w e w' n : after T w e w' n -> short w e -> (length w' <= n)%nat.
Proof. intros [w0 n0|e0 n0 G] S; [exact S|apply sl_len]. Qed.
Lemma lines_last folded c n v e m : lines_at T folded c n v e m -> gap_to T e m.
Proof. induction 1; assumption. Qed.
Lemma laid_short i s w j n : block_laid T i s w j -> gap_to T j n -> (length w <= n)%nat.
Proof.
  assert (B : forall folded k v, block_body T folded k v w j -> gap_to T j n -> (length w <= n)%nat).
  { intros folded k v [G I|n0 v0 e m G I L B|l t H L U G|l t n0 v0 e m H L U G LN' B] GN; pose proof (gap_le T _ _ GN).
    - pose proof (sl_len T k (length T)). lia.
    - rewrite <- (gap_det T _ _ (lines_last _ _ _ _ _ _ B) _ GN). apply sl_len.
    - pose proof (sl_len T l (length T)). lia.
    - rewrite <- (gap_det T _ _ (lines_last _ _ _ _ _ _ B) _ GN). apply sl_len. }
  intros [folded v A N H E|folded v A N H E|folded v A N H E] GN; exact (B _ _ _ H GN).
Qed.
Lemma puts_move :
  (forall flow outer i d o w j, puts T flow outer i d o w j -> puts T2 flow outer (mv i) d o w (mv j) /\ short w j) /\
  (forall outer i d o w n, puts_behind T outer i d o w n -> puts_behind T2 outer (mv i) d o w (mv n) /\ (length w <= n)%nat) /\
  (forall c i l o w n, puts_dashes T c i l o w n -> puts_dashes T2 c (mv i) l o w (mv n) /\ (length w <= n)%nat) /\
  (forall c s k l o w n, puts_pairs T c s k l o w n -> puts_pairs T2 c s (mv k) l o w (mv n) /\ (length w <= n)%nat) /\
  (forall n p l o j, puts_flow_seq T n p l o j -> puts_flow_seq T2 (mv n) p l o (mv j)) /\
  (forall n p l o j, puts_flow_map T n p l o j -> puts_flow_map T2 (mv n) p l o (mv j)) /\
  (forall n s d o w j, puts_pair T n s d o w j -> puts_pair T2 (mv n) s d o w (mv j)).
Proof.
  apply puts_all.
  - intros flow outer i s j Q C. split; [|exact Logic.I]. rewrite <- sl_mv. apply pu_quote; mvs; auto with mv.
  - intros flow outer i h j N. split; [|exact Logic.I]. rewrite <- sl_mv. apply pu_number. now apply number_mv.
  - intros flow outer i d j NW NN Wd D. split; [|exact Logic.I]. rewrite <- sl_mv. apply pu_word; auto with mv; [now rewrite no_word_mv|now mvs].
  - intros flow outer i s w j n B G. split; [|exact (laid_short i s w j n B G)]. rewrite <- sl_mv. apply pu_block; auto with mv.
  - intros outer i l o w n A Wh _ (IH & S). split; [|exact S]. apply pu_seq; mvs; auto.
  - intros outer i s k l o w n K U _ (IH & S). split; [|exact S]. rewrite <- sl_mv. apply (pu_map _ _ _ s); mvs; auto with mv.
  - intros flow outer i n l o j A G _ IH. split; [|exact Logic.I]. apply (pu_flow_seq _ _ _ _ (mv n)); [now mvs|exact (gap_mv _ _ G)|now mvs].
  - intros flow outer i n l o j A G _ IH. split; [|exact Logic.I]. apply (pu_flow_map _ _ _ _ (mv n)); [now mvs|exact (gap_mv _ _ G)|now mvs].
  - intros outer i m d o w e w' n G _ (IH & S) A. split; [|now apply (after_short w e)]. rewrite <- sl_mv. apply (bh_value _ _ _ (mv m) _ _ w (mv e)); auto with mv.
  - intros c i m s k G K LE. split; [|apply sl_len]. rewrite <- sl_mv. apply (bh_none _ _ _ _ s (mv k)); mvs; auto with mv.
  - intros c i d o w n _ (IH & S) H. split; [|exact S]. apply pd_last; mvs; auto.
  - intros c i d o w n v l o' w' n' _ (IH & S) C A V _ (IH2 & S2). split; [|exact S2]. apply (Printed.pd_more _ _ _ _ _ w (mv n)); mvs; auto.
  - intros c s k d o w n _ (IH & S) H. split; [|exact S]. apply pp_last; mvs; auto.
  - intros c s k d o w n s' k' l o' w' n' _ (IH & S) C K _ (IH2 & S2). split; [|exact S2]. apply (pp_more _ _ _ _ _ _ _ (mv n) _ (mv k')); mvs; auto with mv.
  - intros n p A. apply (ps_end _ (mv n)). now mvs.
  - intros n p v m d o w e w' n' l o' j N V G _ (IH & S) A AF _ IH2. rewrite <- (sl_mv n m). apply (ps_comma _ (mv n) _ _ (mv m) _ _ w (mv e) w' (mv n')); mvs; auto with mv. exact (after_mv w (Datatypes.S e) w' n' AF).
  - intros n p v m d o w e w' n' N V G _ (IH & S) A AF A2. rewrite <- (sl_mv n m). apply (ps_last _ (mv n) _ _ (mv m) _ _ w (mv e) w' (mv n')); mvs; auto with mv.
  - intros n p v m d o w e w' v' n' d' o' w2 e' w3 n'' N V G _ (IH & S) A AF N2 V2 _ (IH2 & S2) AF2 A2. rewrite <- (sl_mv n m). apply (ps_two _ (mv n) _ _ (mv m) _ _ w (mv e) w' _ (mv n') _ _ w2 (mv e') w3 (mv n'')); mvs; auto with mv.
  - intros n p A. apply (pm_end _ (mv n)). now mvs.
  - intros n p s d o w e n' l o' j _ IH A G _ IH2. apply (pm_comma _ (mv n) _ _ _ _ w (mv e) (mv n')); mvs; auto with mv. exact (gap_mv _ _ G).
  - intros n p s d o w e _ IH A. apply (pm_last _ (mv n) _ _ _ _ w (mv e)); mvs; auto.
  - intros n p s d o w e s' d' o' w' e' _ IH A _ IH2 A2. apply (pm_two _ (mv n) _ _ _ _ w (mv e) _ _ _ _ (mv e')); mvs; auto.
  - intros n s k m d o w e w' e' N K G _ (IH & S) AF. rewrite <- (sl_mv (Datatypes.S k) m). apply (pr_pair _ (mv n) _ (mv k) (mv m) _ _ w (mv e)); mvs; auto with mv. exact (gap_mv _ _ G).
Qed.

Definition mvf (r : fault) : fault := match r with stuck => stuck | bad k x y => bad k (mv x) (mv y) end.
Lemma escape_mv p k e : bad_escape T p k e -> bad_escape T2 (mv p) k (mv e).
Proof.
  intros [E|L N|k0 c n q K A L LQ H N|v1 v2 v3 v4 A H1 H2 H3 H4 S].
  - rewrite <- len2. apply be_end. rewrite len2, <- E. reflexivity.
  - apply (be_letter T2 (mv p)); [arith|now mvs].
  - replace (mv (Nat.min (Datatypes.S q) (length T))) with (Nat.min (Datatypes.S (mv q)) (length T2)) by arith.
    apply (be_digit T2 (mv p) k0 c n (mv q)); [exact K|now mvs|arith|arith| |now mvs].
    intros i I. destruct (inv_mv i (2 + p)) as (i0 & -> & _); [arith|]. mvs. apply H. arith.
  - apply (be_surrogate T2 (mv p) v1 v2 v3 v4); [now mvs|now mvs|exact (eq_ind_r (fun c => hex c _) H2 (at_mv (3 + p)))|exact (eq_ind_r (fun c => hex c _) H3 (at_mv (4 + p)))|exact (eq_ind_r (fun c => hex c _) H4 (at_mv (5 + p)))|exact S].
Qed.
Lemma bad_quote_mv i r : bad_quote T i r -> bad_quote T2 (mv i) (mvf r).
Proof.
  intros [v A C|p v k e A L C E B]; cbn [mvf].
  - apply (bq_open _ _ v); mvs; auto.
  - apply (bq_escape _ _ (mv p) v); mvs; auto; [arith|now apply escape_mv].
Qed.
Hint Resolve escape_mv bad_quote_mv : mv.
Lemma fails_move :
  (forall flow outer i r, fails T flow outer i r -> fails T2 flow outer (mv i) (mvf r)) /\
  (forall outer i r, fails_behind T outer i r -> fails_behind T2 outer (mv i) (mvf r)) /\
  (forall c i r, fails_dashes T c i r -> fails_dashes T2 c (mv i) (mvf r)) /\
  (forall c k r, fails_pairs T c k r -> fails_pairs T2 c (mv k) (mvf r)) /\
  (forall n p r, fails_flow_seq T n p r -> (length p <= n)%nat -> fails_flow_seq T2 (mv n) p (mvf r)) /\
  (forall st n r, fails_flow_map T st n r -> fails_flow_map T2 (mv st) (mv n) (mvf r)) /\
  (forall st n r, fails_pair T st n r -> fails_pair T2 (mv st) (mv n) (mvf r)).
Proof.
  destruct puts_move as (PV & PB & _ & _ & _ & _ & PP).
  assert (SUB : forall n (w : bytes), (length w <= n)%nat -> mv (n - length w) = (mv n - length w)%nat) by (intros n w L; arith).
  apply fails_all.
  - intros flow outer i r Q. apply fa_quote. auto with mv.
  - intros outer i r A Wh _ IH. apply fa_seq; mvs; auto.
  - intros outer i s k r K U _ IH. apply (fa_map _ _ _ s (mv k)); mvs; auto with mv.
  - intros flow outer i n r A G _ IH. apply (fa_flow_seq _ _ _ _ (mv n)); [now mvs|exact (gap_mv _ _ G)|mvs; apply IH, sl_len].
  - intros flow outer i n r A G _ IH. apply (fa_flow_map _ _ _ _ (mv n)); [now mvs|exact (gap_mv _ _ G)|exact IH].
  - intros outer i m r G _ IH. apply (fb_value _ _ _ (mv m)); auto with mv.
  - intros c i r _ IH. apply fd_here. exact IH.
  - intros c i d o w n r P C A _ IH. apply (fd_more _ _ _ d o w (mv n)); mvs; auto. apply (PB _ _ _ _ _ _ P).
  - intros c k r _ IH. apply fp_here. exact IH.
  - intros c k d o w n s' k' r P C K _ IH. apply (fp_more _ _ _ d o w (mv n) s' (mv k')); mvs; auto with mv. apply (PB _ _ _ _ _ _ P).
  - intros c k d o w n k' P C L N1 N2 A. cbn [mvf]. replace (mv (Nat.min (S k') (length T))) with (Nat.min (S (mv k')) (length T2)) by arith.
    apply (fp_key _ _ _ d o w (mv n)); mvs; auto; [apply (PB _ _ _ _ _ _ P)|arith].
  - intros n p A L. cbn [mvf]. rewrite SUB by exact L. apply fs_open. now mvs.
  - intros n p m r N G _ IH L. apply (fs_value _ _ _ (mv m)); mvs; auto with mv.
  - intros n p m d o w e w' n' r N G P A AF _ IH L. destruct (PV _ _ _ _ _ _ _ P) as (P2 & SH).
    apply (fs_comma _ _ _ (mv m) d o w (mv e) w' (mv n')); mvs; auto with mv; [exact (after_mv w (S e) w' n' AF)|].
    apply IH. apply (after_short w (S e)); [exact AF|]. destruct w; cbn in *; [lia|exact Logic.I].
  - intros n p m d o w e w' n' N G P A AF A2 L. destruct (PV _ _ _ _ _ _ _ P) as (P2 & SH). cbn [mvf]. rewrite SUB by (now apply (after_short w e)).
    apply (fs_last_open _ _ _ (mv m) d o w (mv e) w' (mv n')); mvs; auto with mv.
  - intros n p m d o w e w' n' r N G P A AF A2 _ IH L. destruct (PV _ _ _ _ _ _ _ P) as (P2 & SH).
    apply (fs_last_value _ _ _ (mv m) d o w (mv e) w' (mv n')); mvs; auto with mv.
  - intros n p m d o w e w' n' d' o' w2 e' w3 n'' N G P A AF A2 P' AF' A3 L. destruct (PV _ _ _ _ _ _ _ P) as (P2 & SH). destruct (PV _ _ _ _ _ _ _ P') as (P3 & SH').
    cbn [mvf]. rewrite SUB by (now apply (after_short w2 e')).
    apply (fs_last_end _ _ _ (mv m) d o w (mv e) w' (mv n') d' o' w2 (mv e') w3 (mv n'')); mvs; auto with mv.
  - intros st n A. cbn [mvf]. apply fm_open. now mvs.
  - intros st n r _ IH. apply fm_pair. exact IH.
  - intros st n s d o w e n' r P A G _ IH. apply (fm_comma _ _ _ s d o w (mv e) (mv n')); mvs; auto. exact (gap_mv _ _ G).
  - intros st n s d o w e P A. cbn [mvf]. apply (fm_last_open _ _ _ s d o w (mv e)); mvs; auto.
  - intros st n s d o w e r P A _ IH. apply (fm_last_pair _ _ _ s d o w (mv e)); mvs; auto.
  - intros st n s d o w e s' d' o' w' e' P A P' A'. cbn [mvf]. apply (fm_last_end _ _ _ s d o w (mv e) s' d' o' w' (mv e')); mvs; auto.
  - intros st n N C Z. cbn [mvf]. rewrite <- len2. apply fr_key; rewrite ?len2; mvs; auto.
  - intros st n s k m r N K G _ IH. apply (fr_value _ _ _ s (mv k) (mv m)); mvs; auto with mv. exact (gap_mv _ _ G).
Qed.

(* A directive or a marker stands at i. *)
Definition header_at (i : nat) : Prop := at_ i = PERCENT \/ at_ i = DASH /\ at_ (1 + i) = DASH /\ at_ (2 + i) = DASH.
Lemma header_mv p i p' j : puts_header T p i p' j ->
  (header_at i /\ forall q, puts_header T2 q (mv i) p' (mv j)) \/
  (~ header_at i /\ p' = p /\ forall q, puts_header T2 q (mv i) q (mv j)).
Proof.
  induction 1 as [p i A N|p i k n p' j A L G H IH|p i j A B C G].
  - right. split; [intros [X|X]; contradiction|]. split; [reflexivity|]. intros q. apply ph_none; mvs; auto.
  - left. split; [now left|]. intros q. apply (ph_directive _ _ _ (mv k) (mv n)); mvs; [exact A|now apply line_mv|now apply gap_mv|].
    destruct IH as [(_ & IH)|(_ & E & IH)]; [apply IH|]. rewrite E. apply IH.
  - left. split; [right; auto|]. intros q. rewrite <- (sl_3 i j). apply ph_marker; mvs; auto. exact (gap_mv _ _ G).
Qed.
End Lead.

Lemma slice_in p m t : slice (p ++ m ++ t) (length p) (length p + length m) = m.
Proof.
  unfold slice. rewrite !app_length. replace (length p <=? length p + length m)%nat with true by (symmetry; apply Nat.leb_le; lia).
  replace (length p + length m <=? length p + (length m + length t))%nat with true by (symmetry; apply Nat.leb_le; lia). cbn [andb].
  rewrite skipn_app, skipn_all, Nat.sub_diag. cbn [app skipn]. replace (length p + length m - length p)%nat with (length m + 0)%nat by lia. rewrite firstn_app_2. cbn [firstn]. now rewrite app_nil_r.
Qed.
(* Layout in front is skipped. *)
Lemma gap_lead w : closed w -> forall pre t j, gap_to (pre ++ w ++ t) (length pre + length w) j -> gap_to (pre ++ w ++ t) (length pre) j.
Proof.
  induction 1 as [|c w Wh H IH|s w N H IH]; intros pre t j G.
  - cbn [length] in G. now rewrite Nat.add_0_r in G.
  - apply ga_white; [now rewrite app_nth2, Nat.sub_diag by lia|]. specialize (IH (pre ++ [c]) t j). rewrite <- app_assoc, app_length in IH. cbn [length app] in *.
    replace (S (length pre)) with (length pre + 1)%nat by lia. apply IH. now replace (length pre + 1 + length w)%nat with (length pre + S (length w))%nat by lia.
  - unfold bytes, byte in *. assert (LC : length (b "#" ++ s ++ [NEWLINE] ++ w) = (length s + 2 + length w)%nat) by (change (b "#") with [HASH]; cbn [app length]; rewrite app_length; cbn [length]; lia).
    unfold bytes, byte in *. rewrite LC in G. assert (E1 : pre ++ (b "#" ++ s ++ [NEWLINE] ++ w) ++ t = pre ++ (HASH :: s) ++ (NEWLINE :: w ++ t)) by (change (b "#") with [HASH]; cbn [app]; now rewrite <- !app_assoc).
    assert (E2 : pre ++ (HASH :: s) ++ (NEWLINE :: w ++ t) = (pre ++ HASH :: s ++ [NEWLINE]) ++ w ++ t) by (rewrite <- !app_assoc; cbn [app]; now rewrite <- !app_assoc).
    unfold bytes, byte in *. rewrite E1 in *. assert (AN : nth (length pre + S (length s)) (pre ++ (HASH :: s) ++ (NEWLINE :: w ++ t)) 0 = NEWLINE).
    { unfold bytes, byte in *. rewrite app_nth2 by lia. rewrite app_nth2 by (cbn [length]; unfold byte in *; lia). cbn [length]. now replace (length pre + S (length s) - length pre - S (length s))%nat with 0%nat by lia. }
    unfold bytes, byte in *. apply (ga_comment _ _ (length pre + S (length s))).
    + rewrite app_nth2, Nat.sub_diag by lia. reflexivity.
    + split; [rewrite !app_length; cbn [length]; lia|]. split; [|now right].
      change (S (length s)) with (length (HASH :: s)). rewrite slice_in. intros [X|X]; [discriminate X|now apply N in X].
    + apply ga_white; [rewrite AN; cbn; auto|]. specialize (IH (pre ++ HASH :: s ++ [NEWLINE]) t j). unfold bytes, byte in *. rewrite E2 in *.
      assert (LP : length (pre ++ HASH :: s ++ [NEWLINE]) = S (length pre + S (length s))) by (rewrite app_length; cbn [length]; rewrite app_length; cbn [length]; lia).
      unfold bytes, byte in *. rewrite LP in IH.
      apply IH. now replace (S (length pre + S (length s)) + length w)%nat with (length pre + (length s + 2 + length w))%nat by lia.
Qed.

Lemma skipn_nth (t : bytes) i : (i < length t)%nat -> skipn i t = nth i t 0 :: skipn (S i) t.
Proof. revert i. induction t as [|c t IH]; intros [|i] L; cbn [length] in L; try lia; [reflexivity|]. cbn [skipn nth]. apply IH. lia. Qed.
Lemma slice_cons t i j : (i < j <= length t)%nat -> slice t i j = nth i t 0 :: slice t (S i) j.
Proof.
  intros L. rewrite !seg_eq by lia. rewrite (skipn_nth t i) by lia. replace (j - i)%nat with (S (j - S i)) by lia. reflexivity.
Qed.
(* The text has a directive or a document marker. *)
Definition has_header (s : bytes) : Prop := exists w r, closed w /\ (s = w ++ b "%" ++ r \/ s = w ++ b "---" ++ r).
Lemma gap_closed t i j : gap_to t i j -> (j < length t)%nat -> closed (slice t i j).
Proof.
  induction 1 as [i L Wh H|i j Wh G IH|i k j H L G IH]; intros LT.
  - rewrite seg_nil. apply cl_nil.
  - pose proof (gap_le t _ _ G). rewrite (slice_cons t i j) by lia. apply cl_ws; [exact Wh|now apply IH].
  - pose proof (gap_le t _ _ G). destruct L as (LE & N & [E|E]); [lia|]. specialize (IH LT). destruct (Nat.eq_dec k j) as [->|NE].
    { exfalso. apply (gap_stop t) in G. inversion G as [x A B C|x y A B|x y z A B C]; subst; [apply B; rewrite E; cbn; auto|pose proof (gap_le t _ _ B); lia|rewrite E in A; discriminate]. }
    rewrite (slice_cons t k j) in IH by lia. rewrite E in IH. assert (CW : closed (slice t (S k) j)) by (inversion IH; assumption).
    rewrite <- (seg_app t i k j) by lia. rewrite (slice_cons t k j), E by lia. 
    assert (IK : (i < k)%nat) by (destruct (Nat.eq_dec i k) as [<-|]; [rewrite E in H; discriminate|lia]).
    rewrite (slice_cons t i k) in N by lia. rewrite (slice_cons t i k), H by lia.
    apply (cl_comment (slice t (S i) k)); [|exact CW]. intros X. apply N. now right.
Qed.
Lemma has_header_at t n : gap_to t 0 n -> header_at t n <-> has_header t.
Proof.
  intros G. pose proof (gap_le t _ _ G) as LE. split.
  - intros H. assert (LT : (n < length t)%nat).
    { destruct (Nat.lt_ge_cases n (length t)) as [X|X]; [exact X|]. unfold header_at in H. rewrite (nth_overflow t 0 X) in H. destruct H as [H|(H & _)]; discriminate. }
    exists (slice t 0 n). pose proof (gap_closed t _ _ G LT) as C.
    assert (E : t = slice t 0 n ++ skipn n t). { unfold slice. rewrite (proj2 (Nat.leb_le n (length t))) by lia. cbn [Nat.leb andb skipn]. rewrite Nat.sub_0_r. now rewrite firstn_skipn. }
    assert (A : forall k, nth (k + n) t 0 = nth k (skipn n t) 0) by (intros k; rewrite E at 1; rewrite app_nth2, seg_length by (rewrite ?seg_length; lia); f_equal; lia).
    unfold header_at in H. rewrite (A 1%nat), (A 2%nat) in H. specialize (A 0%nat). cbn [Nat.add] in A. rewrite A in H. destruct (skipn n t) as [|c0 [|c1 [|c2 r]]] eqn:SK; cbn [nth] in H.
    + destruct H as [H|(H & _)]; discriminate.
    + destruct H as [H|(_ & H & _)]; [|discriminate]. exists []. split; [exact C|]. left. rewrite H in E. exact E.
    + destruct H as [H|(_ & _ & H)]; [|discriminate]. exists [c1]. split; [exact C|]. left. rewrite H in E. exact E.
    + destruct H as [H|(H0 & H1 & H2)]; [exists (c1 :: c2 :: r); split; [exact C|]; left; rewrite H in E; exact E|]. exists r. split; [exact C|]. right. rewrite H0, H1, H2 in E. exact E.
  - intros (w & r & C & E).
    assert (X : forall h r', t = w ++ h :: r' -> ~ white h -> h <> HASH -> n = length w).
    { intros h r' -> NW NH. apply (gap_det (w ++ h :: r') _ _ G). apply (gap_lead w C [] (h :: r')). cbn [app length Nat.add].
      apply ga_none; rewrite ?app_nth2, ?Nat.sub_diag by lia; [rewrite app_length; lia|exact NW|exact NH]. }
    destruct E as [E|E].
    + assert (n = length w) as -> by (apply (X PERCENT r E); [cbn; intuition discriminate|discriminate]). left. rewrite E, app_nth2, Nat.sub_diag by lia. reflexivity.
    + assert (n = length w) as -> by (apply (X DASH (b "--" ++ r) E); [cbn; intuition discriminate|discriminate]). right.
      rewrite E. repeat split; rewrite app_nth2 by lia; [now rewrite Nat.sub_diag|now replace (1 + length w - length w)%nat with 1%nat by lia|now replace (2 + length w - length w)%nat with 2%nat by lia].
Qed.

(* ---- whole texts ---- *)
Section Whole.
Variables W T : bytes.
Hypothesis CW : closed W.
Hypothesis LN : forall x, after_last_nl (W ++ x) = after_last_nl x.
Lemma gap_front n : gap_to T 0 n -> gap_to (W ++ T) 0 (mv W n).
Proof. intros G. apply (gap_lead W CW [] T). cbn [app length Nat.add]. exact (gap_mv W T 0 n G). Qed.
Lemma slice_front n : (n <= length T)%nat -> slice (W ++ T) 0 (mv W n) = W ++ slice T 0 n.
Proof.
  intros L. unfold slice. rewrite (len2 W T). rewrite !(proj2 (Nat.leb_le _ _)) by (unfold mv; lia). cbn [Nat.leb andb skipn]. rewrite !Nat.sub_0_r. unfold mv.
  rewrite firstn_app, firstn_all2 by lia. do 2 f_equal. lia.
Qed.
Lemma printed_front d o : printed T d o -> (has_header T -> printed (W ++ T) d o) /\ (~ has_header T -> printed (W ++ T) d (W ++ o)).
Proof.
  intros [n p i x w j w' G H P A]. pose proof (gap_le T _ _ G) as LE. pose proof (has_header_at T n G) as HH. pose proof (gap_front n G) as G2.
  destruct puts_move with (W := W) (T := T) as (PV & _); [exact LN|]. destruct (PV _ _ _ _ _ _ _ P) as (P2 & _). pose proof (after_mv W T _ _ _ _ A) as A2. rewrite <- (len2 W T) in A2.
  destruct (header_mv W T _ _ _ _ H) as [(HA & Q)|(HA & -> & Q)]; (split; intros HT; [|]); try (exfalso; tauto).
  - exact (printed_as (W ++ T) d (mv W n) p (mv W i) x w (mv W j) w' G2 (Q _) P2 A2).
  - rewrite app_assoc. refine (printed_as (W ++ T) d (mv W n) (W ++ slice T 0 n) (mv W i) x w (mv W j) w' G2 _ P2 A2). rewrite slice_front by lia. apply Q.
Qed.
Lemma wrong_front r : wrong T r -> wrong (W ++ T) (mvf W r).
Proof.
  assert (Q : forall n p i, gap_to T 0 n -> puts_header T (slice T 0 n) n p i -> exists p', puts_header (W ++ T) (slice (W ++ T) 0 (mv W n)) (mv W n) p' (mv W i)).
  { intros n p i G H. destruct (header_mv W T _ _ _ _ H) as [(_ & Q)|(_ & _ & Q)]; eauto. }
  intros [n p i r0 G H F|n p i d o w j w' n' G H P A L]; destruct (Q n p i G H) as (p' & H2); pose proof (gap_front n G) as G2.
  - destruct fails_move with (W := W) (T := T) as (FV & _); [exact LN|]. exact (wr_value _ _ _ _ _ G2 H2 (FV _ _ _ _ F)).
  - destruct puts_move with (W := W) (T := T) as (PV & _); [exact LN|]. destruct (PV _ _ _ _ _ _ _ P) as (P2 & _). cbn [mvf]. rewrite <- (len2 W T).
    refine (wr_more _ _ _ _ _ _ _ _ _ _ G2 H2 P2 (after_mv W T _ _ _ _ A) _). rewrite (len2 W T). unfold mv. lia.
Qed.
End Whole.
