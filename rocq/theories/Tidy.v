(* Texts whose lines end where their values end. *)
From Coq Require Import String.
From Coq Require Import List NArith Bool Arith Lia.
From Verif Require Import Bytes Utf8 Utf8Props Data Parser Render Tree Abs Refine Scan Ctx Reads ReadsSound Shown Plain Grammar Laid GrammarSound LaidText Swap.
Import ListNotations.
Local Open Scope N_scope.

(* A line without blanks at its end and without a comment behind a value. A line that is a
   comment is not looked at; to tell it from the continuation of a quoted text or a flow
   collection, it has none of the closing characters. *)
Definition comment_line (l : bytes) : Prop := exists t r, l = t ++ HASH :: r /\ Forall blank t /\ forall q, In q r -> ~ In q (b "'""]}").
Definition tidy_line (l : bytes) : Prop := comment_line l \/
  forall u c t r, l = u ++ [c] ++ t ++ r -> ~ white c -> Forall blank t -> t <> [] -> r <> [] /\ hd EOF r <> HASH.
Definition tidy (x : bytes) : Prop := forall u l z, x = u ++ l ++ z -> (u = [] \/ exists u', u = u' ++ [NEWLINE]) ->
  ~ In NEWLINE l -> (z = [] \/ hd EOF z = NEWLINE) -> tidy_line l.

Definition live (l : bytes) : Prop := exists t c r, l = t ++ c :: r /\ Forall blank t /\ ~ white c /\
  (c = HASH -> exists q, In q r /\ In q (b "'""]}")).
Definition line_of (P : bytes -> Prop) (s : bytes) : Prop := exists a l, s = a ++ l /\ (a = [] \/ exists a', a = a' ++ [NEWLINE]) /\ ~ In NEWLINE l /\ P l.
Definition okS := line_of (fun l => Forall blank l \/ live l).
Definition liveS (s : bytes) : Prop := line_of live s /\ ~ white (last s 0).
Lemma live_ok s : liveS s -> okS s.
Proof. intros [(a & l & E & A & N & L) _]. exists a, l. auto. Qed.
Ltac norm_app_in H := repeat first [rewrite <- app_assoc in H | rewrite app_nil_r in H | progress cbn [app] in H].
Lemma blank_not_nl c : blank c -> c <> NEWLINE.
Proof. unfold blank, white, NEWLINE. cbn. lia. Qed.
Lemma white_cases c : white c -> c = NEWLINE \/ blank c.
Proof. unfold blank, white, NEWLINE. cbn. lia. Qed.
Lemma ok_blank s c : okS s -> blank c -> okS (s ++ [c]).
Proof.
  intros (a & l & -> & A & N & L) B. exists a, (l ++ [c]). split; [now rewrite app_assoc|]. split; [exact A|].
  split. { intros I. apply in_app_or in I as [I|[E|[]]]; [auto|]. now apply (blank_not_nl _ B). }
  destruct L as [L|(t & c0 & r & -> & F & W & Q)]; [left; apply Forall_app; auto|]. right. exists t, c0, (r ++ [c]). split; [now rewrite <- app_assoc|].
  split; [exact F|]. split; [exact W|]. intros H. destruct (Q H) as (q & I & J). exists q. split; [apply in_or_app; auto|exact J].
Qed.
Lemma ok_newline s : okS (s ++ [NEWLINE]).
Proof. exists (s ++ [NEWLINE]), []. split; [now rewrite app_nil_r|]. split; [right; eauto|]. split; [intros []|]. left. constructor. Qed.
Lemma ok_closed w : closed w -> forall s, okS s -> okS (s ++ w).
Proof.
  induction 1 as [|c w W C IH|x w N C IH]; intros s O.
  - now rewrite app_nil_r.
  - replace (s ++ c :: w) with ((s ++ [c]) ++ w) by (rewrite <- app_assoc; reflexivity). apply IH.
    destruct (white_cases _ W) as [->|B]; [apply ok_newline|now apply ok_blank].
  - replace (s ++ b "#" ++ x ++ [NEWLINE] ++ w) with (((s ++ b "#" ++ x) ++ [NEWLINE]) ++ w) by (rewrite <- !app_assoc; reflexivity). apply IH, ok_newline.
Qed.
Lemma last_app {A} (s x : list A) (z : A) : x <> [] -> last (s ++ x) z = last x z.
Proof.
  intros N. induction s as [|a s IH]; [reflexivity|]. cbn [app]. rewrite <- IH. cbn [last]. destruct (s ++ x) eqn:E; [|reflexivity].
  apply app_eq_nil in E as [_ E]. congruence.
Qed.
Lemma ok_text s c r : okS s -> ~ white c -> c <> HASH -> ~ In NEWLINE (c :: r) -> ~ white (last (c :: r) 0) -> liveS (s ++ c :: r).
Proof.
  intros (a & l & -> & A & N & L) W H NN LW. split.
  - exists a, (l ++ c :: r). split; [now rewrite app_assoc|]. split; [exact A|]. split; [intros I; apply in_app_or in I as [I|I]; auto|].
    destruct L as [L|(t & c0 & r0 & -> & F & W0 & Q)]; [exists l, c, r; split; [reflexivity|]; split; [exact L|]; split; [exact W|congruence]|].
    exists t, c0, (r0 ++ c :: r). split; [now rewrite <- app_assoc|].
    split; [exact F|]. split; [exact W0|]. intros E. destruct (Q E) as (q & I & J). exists q. split; [apply in_or_app; auto|exact J].
  - rewrite last_app by discriminate. exact LW.
Qed.
Lemma split_line (s : bytes) : exists a l, s = a ++ l /\ (a = [] \/ exists a', a = a' ++ [NEWLINE]) /\ ~ In NEWLINE l.
Proof.
  induction s as [|c s (a & l & -> & A & N)]; [exists [], []; auto|].
  destruct A as [->|(a' & ->)]; [|exists (c :: a' ++ [NEWLINE]), l; split; [reflexivity|]; split; [right; now exists (c :: a')|exact N]].
  destruct (N.eq_dec c NEWLINE) as [->|NE].
  - exists [NEWLINE], l. split; [reflexivity|]. split; [right; now exists []|exact N].
  - exists [], (c :: l). split; [reflexivity|]. split; [now left|]. intros [E|I]; [now apply NE|auto].
Qed.
Lemma closes s q : In q (b "'""]}") -> liveS (s ++ [q]).
Proof.
  intros Q. destruct (split_line s) as (a & l & -> & A & N).
  assert (QW : ~ white q /\ q <> HASH /\ q <> NEWLINE) by (cbn in Q; unfold HASH, NEWLINE; cbn; lia). destruct QW as (QW & QH & QN).
  split; [|rewrite last_app by discriminate; exact QW]. exists a, (l ++ [q]). split; [now rewrite app_assoc|]. split; [exact A|].
  split. { intros I. apply in_app_or in I as [I|[E|[]]]; auto. }
  clear A. induction l as [|c l IH]; [exists [], q, []; split; [reflexivity|]; split; [constructor|]; split; [exact QW|congruence]|].
  destruct (is_ws c) eqn:E.
  - apply is_ws_white in E. destruct (white_cases _ E) as [->|B]; [exfalso; apply N; now left|].
    destruct IH as (t & c0 & r & X & F & W & H); [intros I; apply N; now right|]. exists (c :: t), c0, r. cbn [app]. rewrite X. split; [reflexivity|].
    split; [now constructor|]. auto.
  - exists [], c, (l ++ [q]). split; [reflexivity|]. split; [constructor|]. split; [intros W; apply is_ws_white in W; congruence|].
    intros _. exists q. split; [apply in_or_app; right; now left|exact Q].
Qed.
Lemma layout_first w : layout w -> exists t r, w = t ++ r /\ Forall blank t /\
  (r = [] \/ (exists w', r = NEWLINE :: w') \/ (exists s, r = HASH :: s /\ ~ In NEWLINE s) \/ exists s w', r = HASH :: s ++ NEWLINE :: w' /\ ~ In NEWLINE s).
Proof.
  induction 1 as [|c w C L (t & r & -> & F & R)|s w N L _|s N].
  - exists [], []. auto.
  - destruct (white_cases c C) as [->|B]; [exists [], (NEWLINE :: t ++ r); split; [reflexivity|]; split; [constructor|]; right; left; eauto|].
    exists (c :: t), r. split; [reflexivity|]. split; [now constructor|exact R].
  - exists [], (HASH :: s ++ NEWLINE :: w). split; [reflexivity|]. split; [constructor|]. right. right. right. eauto.
  - exists [], (HASH :: s). split; [reflexivity|]. split; [constructor|]. right. right. left. eauto.
Qed.
Lemma live_not_comment l x : live l -> ~ comment_line (l ++ x).
Proof.
  intros (t & c & r & -> & F & W & Q) (t' & r' & E & F' & H). rewrite <- app_assoc in E. cbn [app] in E.
  assert (X : t = t' /\ c = HASH /\ r ++ x = r').
  { revert t' E F'. clear H Q. induction F as [|a t B F IH]; intros t' E F'.
    - destruct F' as [|a' t' B' F']; cbn in E; injection E as -> E; [auto|]. exfalso. apply W. revert B'. cbn. lia.
    - destruct F' as [|a' t' B' F']; cbn in E; injection E as E0 E; [subst a; exfalso; revert B; cbn; unfold HASH; lia|]. subst a'.
      destruct (IH _ E F') as (-> & -> & ->). auto. }
  destruct X as (-> & -> & <-). destruct (Q eq_refl) as (q & I & J). apply (H q); [apply in_or_app; auto|exact J].
Qed.
Lemma tidy_break s w r : tidy (s ++ w ++ r) -> liveS s -> layout w -> breaks w -> In NEWLINE w \/ r = [] -> ended w.
Proof.
  intros T [(a & l & -> & A & N & L) LW] LY [->|B] NW; [now left|].
  destruct (layout_first _ LY) as (t & q & -> & F & R). destruct t as [|c0 t0] eqn:ET.
  { cbn [app] in *. destruct R as [->|[(w' & ->)|[(x & -> & NX)|(x & w' & -> & NX)]]]; [now left|now right| |]; exfalso; cbn in B; unfold HASH in B; lia. }
  rewrite <- ET in *. assert (TN : t <> []) by now rewrite ET. clear ET.
  assert (LN : l <> []) by (destruct L as (u & c & x & -> & _); now destruct u).
  assert (LW' : ~ white (last l 0)) by (now rewrite last_app in LW). clear LW.
  assert (TL : ~ In NEWLINE t). { intros I. rewrite Forall_forall in F. now apply (blank_not_nl NEWLINE) in F. }
  assert (G : forall y z, q ++ r = y ++ z -> ~ In NEWLINE y -> (z = [] \/ hd EOF z = NEWLINE) -> y = [] \/ hd EOF y = HASH -> False).
  { intros y z E NY Z HY. assert (TY : tidy_line (l ++ t ++ y)).
    { apply (T a (l ++ t ++ y) z); auto.
      - rewrite <- !app_assoc. do 3 f_equal. exact E.
      - intros I. apply in_app_or in I as [I|I]; [auto|]. apply in_app_or in I as [I|I]; auto. }
    destruct TY as [TY|TY]; [now apply (live_not_comment l (t ++ y)) in L|].
    destruct (TY (removelast l) (last l 0) t y) as [Y1 Y2]; auto.
    - pose proof (app_removelast_last 0 LN) as AR. rewrite (app_assoc (removelast l)). rewrite <- AR. reflexivity.
    - destruct HY; auto. }
  exfalso. destruct R as [->|[(w' & ->)|[(x & -> & NX)|(x & w' & -> & NX)]]].
  - destruct NW as [I| ->]; [rewrite app_nil_r in I; auto|]. apply (G [] []); auto.
  - apply (G [] (NEWLINE :: w' ++ r)); auto.
  - destruct NW as [I| ->].
    + apply in_app_or in I as [I|[I|I]]; [auto|discriminate I|auto].
    + apply (G (HASH :: x) []); auto. intros [I|I]; [discriminate I|auto].
  - apply (G (HASH :: x) (NEWLINE :: w' ++ r)); auto.
    + cbn [app]. rewrite <- app_assoc. reflexivity.
    + intros [I|I]; [discriminate I|auto].
Qed.

(* ---- laid out trees with tidy texts are neat ---- *)
Definition Qval (v : tree unit) := forall pre post, liveS pre -> tidy (pre ++ vtext v ++ post) -> neat v /\ liveS (pre ++ vtext v).
Definition Qmap (items : list (mitem unit)) := forall pre post, okS pre -> closed (mlead items) -> tidy (pre ++ mtext items ++ post) ->
  Forall (fun it => neat (snd it)) items /\ Forall (fun it => hd EOF (mpre it) = NEWLINE) (tl items) /\ liveS (pre ++ mtext items).
Definition Qmrest (items : list (mitem unit)) := forall pre post, liveS pre -> tidy (pre ++ mtext items ++ post) ->
  Forall (fun it => neat (snd it)) items /\ Forall (fun it => hd EOF (mpre it) = NEWLINE) items /\ liveS (pre ++ mtext items).
Definition Qseq (items : list (sitem unit)) := losslessS items /\ forall pre post, okS pre -> closed (slead items) -> tidy (pre ++ stext items ++ post) ->
  Forall (fun it => neat (snd it)) items /\ Forall (fun it => hd EOF (spre it) = NEWLINE) (tl items) /\ liveS (pre ++ stext items).
Definition Qsrest (items : list (sitem unit)) := losslessS items /\ forall pre post, liveS pre -> tidy (pre ++ stext items ++ post) ->
  Forall (fun it => neat (snd it)) items /\ Forall (fun it => hd EOF (spre it) = NEWLINE) items /\ liveS (pre ++ stext items).
Lemma quoted_closes x v s : quoted_text x v -> liveS (s ++ x).
Proof.
  intros [y u _|y u _].
  - replace (s ++ b """" ++ y ++ b """") with ((s ++ b """" ++ y) ++ [DQUOTE]) by (rewrite <- !app_assoc; reflexivity). apply closes. cbn. auto.
  - replace (s ++ b "'" ++ y ++ b "'") with ((s ++ b "'" ++ y) ++ [SQUOTE]) by (rewrite <- !app_assoc; reflexivity). apply closes. cbn. auto.
Qed.
Lemma flow_closes x d s : flow x d -> liveS (s ++ x).
Proof.
  intros F. assert (E : exists y q, x = y ++ [q] /\ In q (b "'""]}")).
  { destruct F as [x l F|x l F].
    - assert (E : exists y, x = y ++ b "]") by (induction F as [w C|i x d w CI U C I|i x d y l CI U I F (y' & ->)]; [now exists w|exists (i ++ x ++ w)|exists (i ++ x ++ b "," ++ y')]; now rewrite <- !app_assoc).
      destruct E as [y ->]. exists (b "[" ++ y), RBRACK. split; [reflexivity|]. cbn. auto.
    - assert (E : exists y, x = y ++ b "}") by (induction F as [w C|i k w x d CI U C I|i k w x d y l CI U C I F (y' & ->)]; [now exists w|exists (i ++ k ++ b ":" ++ w ++ x)|exists (i ++ k ++ b ":" ++ w ++ x ++ b "," ++ y')]; now rewrite <- !app_assoc).
      destruct E as [y ->]. exists (b "{" ++ y), RBRACE. split; [reflexivity|]. cbn. auto 6. }
  destruct E as (y & q & -> & Q). rewrite app_assoc. now apply closes.
Qed.
Lemma plain_live s x : okS s -> plain_line x -> liveS (s ++ x).
Proof.
  intros O ((c & r & -> & W & I & _) & [K _] & L). apply ok_text; auto. intros ->. apply I. now left.
Qed.
Lemma block_live fo m x v : block_lines fo m x v -> forall s, okS s -> liveS (s ++ x).
Proof.
  induction 1 as [l B|l k t x v B K P F LE BL IH]; intros s O.
  - destruct B as (NE & H & C & N). pose proof (clean_last _ NE C) as GL. destruct l as [|c r]; [congruence|]. apply ok_text; auto. now apply clean_first in C.
  - replace (s ++ l ++ newlines k ++ t ++ x) with ((((s ++ l) ++ newlines k) ++ t) ++ x) by (rewrite <- !app_assoc; reflexivity).
    apply IH. apply ok_closed; [now apply blanks_closed|]. apply ok_closed; [apply newlines_closed|]. apply live_ok.
    destruct B as (NE & H & C & N). pose proof (clean_last _ NE C) as GL. destruct l as [|c r]; [congruence|]. apply ok_text; auto. now apply clean_first in C.
Qed.
Lemma leaf_live x d post s : leaf x d post -> okS s -> liveS (s ++ x).
Proof.
  intros [y e q P D E|y v q Q B|y e q F B|y v q B] O.
  - now apply plain_live.
  - eapply quoted_closes; eauto.
  - eapply flow_closes; eauto.
  - destruct B as [fo c m w z u k t q NA M L K0 B LT ST|c m w z u NA L].
    + pose proof (newline_closed _ _ NA) as C. destruct NA as (_ & a & t' & -> & CL & F & _).
      match goal with |- liveS ?g => replace g with (((((s ++ b (if fo then ">" else "|")%string ++ chomp_text c) ++ a) ++ [NEWLINE]) ++ t') ++ z) by (rewrite <- !app_assoc; reflexivity) end.
      eapply block_live; [exact L|]. apply ok_closed; [now apply blanks_closed|]. apply ok_newline.
    + destruct NA as (_ & a & t' & -> & CL & F & _).
      match goal with |- liveS ?g => replace g with (((((s ++ b "|" ++ chomp_text c) ++ a) ++ [NEWLINE]) ++ t') ++ z) by (rewrite <- !app_assoc; reflexivity) end.
      eapply block_live; [exact L|]. apply ok_closed; [now apply blanks_closed|]. apply ok_newline.
Qed.
Lemma key_live s x k : okS s -> start_key x k -> liveS (s ++ x ++ b ":").
Proof.
  intros O [[((c & r & -> & W & I & _) & _ & N & _) _]|Q].
  - cbn [app]. apply ok_text; auto; [intros ->; apply I; now left| |].
    + intros [J|J]; [apply N; now left|]. apply in_app_or in J as [J|[J|[]]]; [apply N; now right|discriminate].
    + rewrite app_comm_cons, last_app by discriminate. cbn. lia.
  - rewrite app_assoc. apply ok_text; [eapply live_ok, quoted_closes; exact Q|..]; cbn; unfold HASH; cbn; intuition (try discriminate; lia).
Qed.
Lemma dash_live s : okS s -> liveS (s ++ b "-").
Proof. intros O. apply ok_text; auto; cbn; intuition (try discriminate; lia). Qed.
Lemma newline_at_in m w : newline_at m w -> In NEWLINE w.
Proof. intros (_ & u & t & -> & _). apply in_or_app. right. now left. Qed.
Lemma newline_first s m w r : tidy (s ++ w ++ r) -> liveS s -> newline_at m w -> hd EOF w = NEWLINE.
Proof.
  intros T L NA. destruct (tidy_break s w r T L) as [->|E]; auto.
  - apply closed_layout. eapply newline_closed; eauto.
  - right. apply NA.
  - left. eapply newline_at_in; eauto.
  - apply newline_at_in in NA. destruct NA.
Qed.
Lemma laid_tidy : (forall n items l post, lmap n items l post -> Qmap items) /\
  (forall n items l post, lmrest n items l post -> Qmrest items) /\
  (forall n v d post, lval n v d post -> Qval v) /\
  (forall n items l post, lseq n items l post -> Qseq items) /\
  (forall n items l post, lsrest n items l post -> Qsrest items) /\
  (forall n v d post, ldash n v d post -> Qval v).
Proof.
  assert (LF : forall i p sc d post, gap p -> leaf (wscalar sc) d post -> Qval (TLeaf i p sc)).
  { intros i p sc d post G L pre z LP T. split; [constructor|]. unfold vtext. cbn [tpre wtree]. rewrite app_assoc. eapply leaf_live; [exact L|].
    apply ok_closed; [apply G|now apply live_ok]. }
  assert (FL : forall v d, lflow v d -> Qval v).
  { intros v d F pre z LP T. split; [destruct F; constructor|]. unfold vtext. rewrite app_assoc. apply lflow_text in F. eapply flow_closes; eauto. }
  assert (BM : forall i p n items, closed p -> closed (mlead items) -> Qmap items -> Qval (TMap i p n CBlock items)).
  { intros i p n items C CL M pre z LP T. rewrite vtext_map in *. destruct (M (pre ++ p) z) as (N1 & N2 & LV); auto.
    - apply ok_closed; [exact C|now apply live_ok].
    - now rewrite <- !app_assoc in *.
    - rewrite <- app_assoc in LV. split; [now constructor|exact LV]. }
  assert (BS : forall i p n items, closed p -> closed (slead items) -> Qseq items -> Qval (TSeq i p n CBlock items)).
  { intros i p n items C CL [LL M] pre z LP T. rewrite vtext_seq in * by exact LL. destruct (M (pre ++ p) z) as (N1 & N2 & LV); auto.
    - apply ok_closed; [exact C|now apply live_ok].
    - now rewrite <- !app_assoc in *.
    - rewrite <- app_assoc in LV. split; [now constructor|exact LV]. }
  assert (LC : forall m w, lead m w -> closed w) by (intros m w [->|N]; [constructor|eapply newline_closed; eauto]).
  apply laid_all.
  - intros n i ip key v d rest l post K _ V _ R pre z O CL T. rewrite mtext_item in *. cbn [mlead] in CL.
    assert (LK : liveS (pre ++ ip ++ wstr key ++ b ":")) by (rewrite app_assoc; eapply key_live; [now apply ok_closed|exact K]).
    destruct (V (pre ++ ip ++ wstr key ++ b ":") (mtext rest ++ z) LK) as [NV LV]; [norm_app; norm_app_in T; exact T|].
    destruct (R _ z LV) as (N1 & N2 & LR); [norm_app; norm_app_in T; exact T|].
    split; [constructor; assumption|]. split; [exact N2|]. norm_app. norm_app_in LR. exact LR.
  - intros n post _ pre z LP T. cbn in *. rewrite app_nil_r. split; [constructor|]. split; [constructor|exact LP].
  - intros n i w k v d rest l post NA K _ V _ R pre z LP T. rewrite mtext_item in *.
    assert (LK : liveS (pre ++ w ++ k ++ b ":")) by (rewrite app_assoc; eapply key_live; [apply ok_closed; [eapply newline_closed; exact NA|now apply live_ok]|left; eauto]).
    change (wstr (RS KBare k k)) with k in *.
    destruct (V (pre ++ w ++ k ++ b ":") (mtext rest ++ z) LK) as [NV LV]; [norm_app; norm_app_in T; exact T|].
    destruct (R _ z LV) as (N1 & N2 & LR); [norm_app; norm_app_in T; exact T|].
    assert (NH : hd EOF w = NEWLINE) by (norm_app_in T; eapply newline_first; [exact T|exact LP|exact NA]).
    split; [constructor; assumption|]. split; [constructor; assumption|]. norm_app. norm_app_in LR. exact LR.
  - intros n i p sc d post G N L. eapply LF; eauto.
  - intros n v d post G F B. eapply FL; eauto.
  - intros n i post K pre z LP T. split; [constructor|]. unfold vtext. cbn. rewrite app_nil_r. exact LP.
  - intros n m i p items l post NA LD LT _ M. apply BM; auto; [eapply newline_closed; eauto|eapply LC; eauto].
  - intros n m i p items l post NA LD LT _ M. apply BS; auto; [eapply newline_closed; eauto|eapply LC; eauto].
  - intros n i ip v d rest l post U _ V _ [LL R]. split; [constructor; [now apply lossy_utf8|exact LL]|]. intros pre z O CL T. rewrite stext_item in *. cbn [slead] in CL.
    assert (LK : liveS (pre ++ ip ++ b "-")) by (rewrite app_assoc; apply dash_live; now apply ok_closed).
    destruct (V (pre ++ ip ++ b "-") (stext rest ++ z) LK) as [NV LV]; [norm_app; norm_app_in T; exact T|].
    destruct (R _ z LV) as (N1 & N2 & LR); [norm_app; norm_app_in T; exact T|].
    split; [constructor; assumption|]. split; [exact N2|]. norm_app. norm_app_in LR. exact LR.
  - intros n post _. split; [constructor|]. intros pre z LP T. cbn in *. rewrite app_nil_r. split; [constructor|]. split; [constructor|exact LP].
  - intros n i w v d rest l post NA U _ V _ [LL R]. split; [constructor; [now apply lossy_utf8|exact LL]|]. intros pre z LP T. rewrite stext_item in *.
    assert (LK : liveS (pre ++ w ++ b "-")) by (rewrite app_assoc; apply dash_live; apply ok_closed; [eapply newline_closed; exact NA|now apply live_ok]).
    destruct (V (pre ++ w ++ b "-") (stext rest ++ z) LK) as [NV LV]; [norm_app; norm_app_in T; exact T|].
    destruct (R _ z LV) as (N1 & N2 & LR); [norm_app; norm_app_in T; exact T|].
    assert (NH : hd EOF w = NEWLINE) by (norm_app_in T; eapply newline_first; [exact T|exact LP|exact NA]).
    split; [constructor; assumption|]. split; [constructor; assumption|]. norm_app. norm_app_in LR. exact LR.
  - intros n i p sc d post G N L. eapply LF; eauto.
  - intros n v d post G F B. eapply FL; eauto.
  - intros n m i p items l post BL NE _ LD _ M. apply BM; auto; [now apply blanks_closed|eapply LC; eauto].
  - intros n m i p items l post BL NE _ LD _ M. apply BS; auto; [now apply blanks_closed|eapply LC; eauto].
  - intros n m i p items l post NA LD LT _ M. apply BM; auto; [eapply newline_closed; eauto|eapply LC; eauto].
  - intros n m i p items l post NA LD LT _ M. apply BS; auto; [eapply newline_closed; eauto|eapply LC; eauto].
Qed.
Lemma ok_nil : okS [].
Proof. exists [], []. split; [reflexivity|]. split; [now left|]. split; [intros []|]. left. constructor. Qed.
Lemma leaf_breaks x d post : leaf x d post -> breaks post.
Proof.
  intros [y e q P D E|y v q Q B|y e q F B|y v q B]; auto.
  - destruct E as [->|E]; [now left|right]. rewrite E. cbn. auto.
  - destruct B as [fo c m w z u k t q NA M L K0 B LT ST|c m w z u NA L]; [|now left]. right. destruct k; [lia|]. cbn. auto.
Qed.
Lemma key_breaks n post : key_follows n post -> breaks post.
Proof. intros (w & m & k & r & -> & NA & _). apply (breaks_white w), NA. Qed.
Lemma laid_breaks : (forall n items l post, lmap n items l post -> breaks post) /\
  (forall n items l post, lmrest n items l post -> items <> [] -> breaks post) /\
  (forall n v d post, lval n v d post -> breaks post) /\
  (forall n items l post, lseq n items l post -> breaks post) /\
  (forall n items l post, lsrest n items l post -> items <> [] -> breaks post) /\
  (forall n v d post, ldash n v d post -> breaks post).
Proof.
  apply laid_all; intros; auto; try congruence; try (eapply leaf_breaks; eassumption); try (eapply key_breaks; eassumption).
  - destruct rest; auto. match goal with H : _ -> breaks post |- _ => apply H; discriminate end.
  - destruct rest; auto. match goal with H : _ -> breaks post |- _ => apply H; discriminate end.
  - destruct rest; auto. match goal with H : _ -> breaks post |- _ => apply H; discriminate end.
  - destruct rest; auto. match goal with H : _ -> breaks post |- _ => apply H; discriminate end.
Qed.
Lemma doc_breaks t d suf : ldoc t d suf -> breaks suf.
Proof.
  intros [i p sc e s C N L LP D|v e s C F B LP|i p n items l s LS0 LD M LP D|i p n items l s LS0 LD M LP]; auto.
  - eapply leaf_breaks; eauto.
  - now apply laid_breaks in M.
  - now apply laid_breaks in M.
Qed.
Lemma ldoc_tidy t d suf : ldoc t d suf -> tidy (wdoc t suf) -> neat t /\ liveS (tpre t ++ wtree t) /\ layout suf.
Proof.
  assert (LC : forall m w, lead m w -> closed w) by (intros m w [->|N]; [constructor|eapply newline_closed; eauto]).
  unfold wdoc. intros [i p sc e s C N L LP D|v e s C F B LP|i p n items l s LS0 LD M LP D|i p n items l s LS0 LD M LP] T.
  - split; [constructor|]. split; [|exact LP]. cbn [tpre wtree] in *. eapply leaf_live; [exact L|]. apply (ok_closed p C []), ok_nil.
  - split; [destruct F; constructor|]. split; [|exact LP]. apply lflow_text in F. eapply flow_closes; eauto.
  - apply laid_tidy in M. destruct i. rewrite map_text_at in *. cbn [tpre] in *. destruct (M p s) as (N1 & N2 & LV); auto.
    + apply (ok_closed p) with (s := []); [eapply line_start_closed; eauto|apply ok_nil].
    + eapply LC; eauto.
    + split; [now constructor|]. auto.
  - apply laid_tidy in M as [LL M]. destruct i. rewrite seq_text_at in * by exact LL. cbn [tpre] in *. destruct (M p s) as (N1 & N2 & LV); auto.
    + apply (ok_closed p) with (s := []); [eapply line_start_closed; eauto|apply ok_nil].
    + eapply LC; eauto.
    + split; [now constructor|]. auto.
Qed.
Theorem tidy_neat t d suf : ldoc t d suf -> tidy (wdoc t suf) -> neat t /\ ended suf.
Proof.
  intros L T. destruct (ldoc_tidy _ _ _ L T) as (N & LV & LY). split; [exact N|]. apply (tidy_break (tpre t ++ wtree t) suf []); auto.
  - rewrite app_nil_r, <- app_assoc. exact T.
  - eapply doc_breaks; eauto.
Qed.
