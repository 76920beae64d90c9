(* Replacing a value in a laid out tree. *)
From Coq Require Import String.
From Coq Require Import List NArith Bool Arith Lia.
From Verif Require Import Bytes Utf8 Data Parser Render Tree Abs Refine Utf8Props Scan Ctx Edit Reads ReadsSound Shown Plain Grammar Laid GrammarSound.
Import ListNotations.
Local Open Scope N_scope.

(* ---- data with one place changed ---- *)
(* Y is X with the datum x at the place given by positions replaced by y. *)
Inductive replaced (x y : datum) : list nat -> datum -> datum -> Prop :=
| rp_here : replaced x y [] x y
| rp_map path l k u w r : replaced x y path u w ->
    replaced x y (length l :: path) (DMap (l ++ (k, u) :: r)) (DMap (l ++ (k, w) :: r))
| rp_seq path l u w r : replaced x y path u w ->
    replaced x y (length l :: path) (DSeq (l ++ u :: r)) (DSeq (l ++ w :: r)).
(* The positions that lead to the hole. *)
Fixpoint cpath (c : ctx) : list nat :=
  match c with
  | CHole => []
  | CMapC _ _ _ _ l _ _ _ c _ => length l :: cpath c
  | CSeqC _ _ _ _ l _ _ c _ => length l :: cpath c
  end.
Fixpoint in_flow (c : ctx) : bool :=
  match c with
  | CHole => false
  | CMapC _ _ _ (CInline _ _) _ _ _ _ _ _ => true
  | CSeqC _ _ _ (CInline _ _) _ _ _ _ _ => true
  | CMapC _ _ _ _ _ _ _ _ c _ => in_flow c
  | CSeqC _ _ _ _ _ _ _ c _ => in_flow c
  end.

(* ---- one item of a list ---- *)
Lemma next_key_mid l i ip key v v' r post : next_key (l ++ (i, ip, key, v) :: r) post = next_key (l ++ (i, ip, key, v') :: r) post.
Proof. destruct l; reflexivity. Qed.
Lemma next_dash_mid l i ip v v' r post : next_dash (l ++ (i, ip, v) :: r) post = next_dash (l ++ (i, ip, v') :: r) post.
Proof. destruct l; reflexivity. Qed.
Lemma mlead_mid l i ip key v v' r : mlead (l ++ (i, ip, key, v) :: r) = mlead (l ++ (i, ip, key, v') :: r).
Proof. destruct l; reflexivity. Qed.
Lemma slead_mid l i ip v v' r : slead (l ++ (i, ip, v) :: r) = slead (l ++ (i, ip, v') :: r).
Proof. destruct l; reflexivity. Qed.
Lemma first_text_mid l i ip key v v' r : first_text (l ++ (i, ip, key, v) :: r) = first_text (l ++ (i, ip, key, v') :: r).
Proof. destruct l; reflexivity. Qed.
Lemma lmrest_cut n l : forall i ip key v r L post, lmrest n (l ++ (i, ip, key, v) :: r) L post ->
  exists L1 d L2, L = L1 ++ (rs_id key, d) :: L2 /\ length L1 = length l /\ lval n v d (next_key r post) /\ lmrest n r L2 post /\
    forall v' d' r' L2' post', lval n v' d' (next_key r' post') -> lmrest n r' L2' post' ->
      lmrest n (l ++ (i, ip, key, v') :: r') (L1 ++ (rs_id key, d') :: L2') post'.
Proof.
  induction l as [|[[[j jp] jk] w] l IH]; intros i ip key v r L post H; cbn [app] in H.
  - inversion H as [|? ? ? k ? d ? l' ? NA K V R]; subst. exists [], d, l'. do 4 (split; [auto|]).
    intros v' d' r' L2' post' V' R'. cbn [app rs_id]. now apply lmr_cons.
  - inversion H as [|? ? ? k ? d ? l' ? NA K V R]; subst. destruct (IH _ _ _ _ _ _ _ R) as (L1 & d1 & L2 & -> & LE & V1 & R1 & G).
    exists ((k, d) :: L1), d1, L2. split; [reflexivity|]. split; [cbn in *; congruence|]. split; [exact V1|]. split; [exact R1|].
    intros v' d' r' L2' post' V' R'. cbn [app]. apply lmr_cons; auto. destruct l; exact V.
Qed.
Lemma lmap_cut n l : forall i ip key v r L post, lmap n (l ++ (i, ip, key, v) :: r) L post ->
  exists L1 d L2, L = L1 ++ (rs_id key, d) :: L2 /\ length L1 = length l /\ lval n v d (next_key r post) /\ lmrest n r L2 post /\
    forall v' d' r' L2' post', lval n v' d' (next_key r' post') -> lmrest n r' L2' post' ->
      lmap n (l ++ (i, ip, key, v') :: r') (L1 ++ (rs_id key, d') :: L2') post'.
Proof.
  intros i ip key v r L post H. destruct l as [|[[[j jp] jk] w] l]; cbn [app] in H;
    inversion H as [? ? ? ? ? d ? l' ? SK V R]; subst.
  - exists [], d, l'. do 4 (split; [auto|]). intros v' d' r' L2' post' V' R'. cbn [app]. now apply lm_items.
  - destruct (lmrest_cut _ _ _ _ _ _ _ _ _ R) as (L1 & d1 & L2 & -> & LE & V1 & R1 & G).
    exists ((rs_id jk, d) :: L1), d1, L2. split; [reflexivity|]. split; [cbn in *; congruence|]. split; [exact V1|]. split; [exact R1|].
    intros v' d' r' L2' post' V' R'. cbn [app]. apply lm_items; auto. destruct l; exact V.
Qed.
Lemma lsrest_cut n l : forall i ip v r L post, lsrest n (l ++ (i, ip, v) :: r) L post ->
  exists L1 d L2, L = L1 ++ d :: L2 /\ length L1 = length l /\ ldash (1 + n) v d (next_dash r post) /\ lsrest n r L2 post /\
    forall v' d' r' L2' post', ldash (1 + n) v' d' (next_dash r' post') -> lsrest n r' L2' post' ->
      lsrest n (l ++ (i, ip, v') :: r') (L1 ++ d' :: L2') post'.
Proof.
  induction l as [|[[j jp] w] l IH]; intros i ip v r L post H; cbn [app] in H.
  - inversion H as [|? ? ? ? d ? l' ? NA U V R]; subst. exists [], d, l'. do 4 (split; [auto|]).
    intros v' d' r' L2' post' V' R'. cbn [app]. now apply lsr_cons.
  - inversion H as [|? ? ? ? d ? l' ? NA U V R]; subst. destruct (IH _ _ _ _ _ _ R) as (L1 & d1 & L2 & -> & LE & V1 & R1 & G).
    exists (d :: L1), d1, L2. split; [reflexivity|]. split; [cbn in *; congruence|]. split; [exact V1|]. split; [exact R1|].
    intros v' d' r' L2' post' V' R'. cbn [app]. apply lsr_cons; auto. destruct l; exact V.
Qed.
Lemma lseq_cut n l : forall i ip v r L post, lseq n (l ++ (i, ip, v) :: r) L post ->
  exists L1 d L2, L = L1 ++ d :: L2 /\ length L1 = length l /\ ldash (1 + n) v d (next_dash r post) /\ lsrest n r L2 post /\
    forall v' d' r' L2' post', ldash (1 + n) v' d' (next_dash r' post') -> lsrest n r' L2' post' ->
      lseq n (l ++ (i, ip, v') :: r') (L1 ++ d' :: L2') post'.
Proof.
  intros i ip v r L post H. destruct l as [|[[j jp] w] l]; cbn [app] in H;
    inversion H as [? ? ? ? d ? l' ? U V R]; subst.
  - exists [], d, l'. do 4 (split; [auto|]). intros v' d' r' L2' post' V' R'. cbn [app]. now apply ls_items.
  - destruct (lsrest_cut _ _ _ _ _ _ _ _ R) as (L1 & d1 & L2 & -> & LE & V1 & R1 & G).
    exists (d :: L1), d1, L2. split; [reflexivity|]. split; [cbn in *; congruence|]. split; [exact V1|]. split; [exact R1|].
    intros v' d' r' L2' post' V' R'. cbn [app]. apply ls_items; auto. destruct l; exact V.
Qed.

(* A place for a value: the whole document, behind a key, behind a dash, or in a flow collection
   with the byte that follows. *)
Inductive slot := SRoot | SVal (n : nat) | SDash (n : nat) | SItem (sq : bool) (c : byte).
Definition fits (s : slot) (v : tree unit) (d : datum) (post : bytes) : Prop :=
  match s with
  | SRoot => ldoc v d post
  | SVal n => lval n v d post
  | SDash n => ldash n v d post
  | SItem sq c => closed (tpre v) /\ (sq = true -> utf8 (tpre v) = true) /\ litem v d c
  end.
Definition is_item (s : slot) : bool := match s with SItem _ _ => true | _ => false end.
Lemma lfseq_at l : forall i ip v r tr suf L, lfseq (l ++ (i, ip, v) :: r) tr suf L ->
  exists L1 d L2 c, L = L1 ++ d :: L2 /\ length L1 = length l /\ fits (SItem true c) v d [] /\ (In c (b ",]#") \/ white c) /\
    (r <> [] /\ c = COMMA \/ r = [] /\ c = hd EOF (closing (fun x => x) RBRACK (CInline tr suf))) /\
    forall v' d', fits (SItem true c) v' d' [] -> lfseq (l ++ (i, ip, v') :: r) tr suf (L1 ++ d' :: L2).
Proof.
  induction l as [|[[j jp] w] l IH]; intros i ip v r tr suf L H; cbn [app] in H.
  - inversion H as [|? ? ? d ? ? CI UI CP UP CS LI|? ? ? d it rest ? ? l' CI UI CP UP LI R]; subst.
    + exists [], d, [], (hd EOF (closing (fun x => x) RBRACK (CInline tr suf))). split; [reflexivity|]. split; [reflexivity|].
      split; [cbn; auto|]. split.
      * cbn [closing]. destruct tr; [left; now left|]. destruct CS as [|c w C CL|s w NN CL]; cbn; [tauto|now right|tauto].
      * split; [right; auto|]. intros v' d' (CP' & UP' & LI'). cbn [app]. apply lfs_last; auto.
    + exists [], d, l', COMMA. split; [reflexivity|]. split; [reflexivity|]. split; [cbn; auto|]. split; [left; now left|].
      split; [left; split; [discriminate|reflexivity]|]. intros v' d' (CP' & UP' & LI'). cbn [app]. apply lfs_cons; auto.
  - destruct l as [|it l]; cbn [app] in H.
    + inversion H as [|? ? ? ? ? ? ? ? ? ? ? ?|? ? ? d ? ? ? ? l' CI UI CP UP LI R]; subst.
      destruct (IH i ip v r tr suf l' R) as (L1 & d1 & L2 & c & -> & LE & F & IC & CE & G). exists (d :: L1), d1, L2, c.
      split; [reflexivity|]. split; [cbn in *; congruence|]. split; [exact F|]. split; [exact IC|]. split; [exact CE|]. intros v' d' F'. cbn [app]. apply lfs_cons; auto.
      apply (G v' d' F').
    + inversion H as [|? ? ? ? ? ? ? ? ? ? ? ?|? ? ? d ? ? ? ? l' CI UI CP UP LI R]; subst.
      destruct (IH i ip v r tr suf l' R) as (L1 & d1 & L2 & c & -> & LE & F & IC & CE & G). exists (d :: L1), d1, L2, c.
      split; [reflexivity|]. split; [cbn in *; congruence|]. split; [exact F|]. split; [exact IC|]. split; [exact CE|]. intros v' d' F'. cbn [app]. apply lfs_cons; auto.
      apply (G v' d' F').
Qed.
Lemma lfmap_at l : forall i ip key v r tr suf L, lfmap (l ++ (i, ip, key, v) :: r) tr suf L ->
  exists L1 d L2 c, L = L1 ++ (rs_id key, d) :: L2 /\ length L1 = length l /\ fits (SItem false c) v d [] /\ In c (b ",}") /\
    forall v' d', fits (SItem false c) v' d' [] -> lfmap (l ++ (i, ip, key, v') :: r) tr suf (L1 ++ (rs_id key, d') :: L2).
Proof.
  induction l as [|[[[j jp] jk] w] l IH]; intros i ip key v r tr suf L H; cbn [app] in H.
  - inversion H as [|? ? k ? d ? ? CI FK CP CS TS LI|? ? k ? d it rest ? ? l' CI FK CP LI R]; subst.
    + exists [], d, [], (if tr then COMMA else RBRACE). split; [reflexivity|]. split; [reflexivity|].
      split; [cbn; split; [auto|split; [discriminate|auto]]|]. split; [destruct tr; cbn; auto|].
      intros v' d' (CP' & _ & LI'). cbn [app rs_id]. apply lfm_last; auto.
    + exists [], d, l', COMMA. split; [reflexivity|]. split; [reflexivity|]. split; [cbn; split; [auto|split; [discriminate|auto]]|].
      split; [now left|]. intros v' d' (CP' & _ & LI'). cbn [app rs_id]. apply lfm_cons; auto.
  - destruct l as [|it l]; cbn [app] in H.
    + inversion H as [|? ? ? ? ? ? ? ? ? ? ? ?|? ? k ? d ? ? ? ? l' CI FK CP LI R]; subst.
      destruct (IH i ip key v r tr suf l' R) as (L1 & d1 & L2 & c & -> & LE & F & IC & G). exists ((k, d) :: L1), d1, L2, c.
      split; [reflexivity|]. split; [cbn in *; congruence|]. split; [exact F|]. split; [exact IC|]. intros v' d' F'. cbn [app]. apply lfm_cons; auto.
      apply (G v' d' F').
    + inversion H as [|? ? ? ? ? ? ? ? ? ? ? ?|? ? k ? d ? ? ? ? l' CI FK CP LI R]; subst.
      destruct (IH i ip key v r tr suf l' R) as (L1 & d1 & L2 & c & -> & LE & F & IC & G). exists ((k, d) :: L1), d1, L2, c.
      split; [reflexivity|]. split; [cbn in *; congruence|]. split; [exact F|]. split; [exact IC|]. intros v' d' F'. cbn [app]. apply lfm_cons; auto.
      apply (G v' d' F').
Qed.

(* ---- collections in their place ---- *)
(* The layout before a block collection at column n in a slot; lt says whether it has to be
   deeper than the key before it. *)
Definition frame (s : slot) (lt : bool) (p : bytes) (n : nat) (post : bytes) : Prop :=
  match s with
  | SRoot => line_start n p /\ layout post
  | SVal m => newline_at n p /\ if lt then (m < n)%nat else (m <= n)%nat
  | SDash m => (Forall blank p /\ p <> [] /\ n = (m + length p)%nat) \/ (newline_at n p /\ (m <= n)%nat)
  | SItem _ _ => False
  end.
Definition flow_frame (s : slot) (p post : bytes) : Prop :=
  match s with
  | SRoot => closed p /\ breaks post /\ layout post
  | SItem sq _ => closed p /\ (sq = true -> utf8 p = true)
  | _ => gap p /\ breaks post
  end.
Lemma fits_bmap s p n its d post : fits s (TMap tt p n CBlock its) d post <->
  exists L, d = DMap L /\ frame s true p n post /\ lead n (mlead its) /\ lmap n its L post /\ (s = SRoot -> doc_start (first_text its)).
Proof.
  split.
  - intros F. destruct s as [|m|m|sq c]; cbn [fits frame] in *.
    + inversion F as [|? ? ? C FL B LY|? ? ? ? L ? LS LD M LY DS|]; subst; [inversion FL|]. exists L. auto 9.
    + inversion F as [|? ? ? ? G FL B| |? ? ? ? ? L ? NA LD LT M|]; subst; [inversion FL|]. exists L. do 4 (split; [auto|]). discriminate.
    + inversion F as [|? ? ? ? G FL B|? ? ? ? ? L ? BL NE ME LD M| |? ? ? ? ? L ? NA LD LT M|]; subst; [inversion FL| |]; exists L;
        (split; [reflexivity|]); (split; [auto|]); (split; [exact LD|]); (split; [exact M|]); discriminate.
    + destruct F as (_ & _ & F). inversion F as [|? ? ? FL]; subst. inversion FL.
  - intros (L & -> & FR & LD & M & DS). destruct s as [|m|m|sq c]; cbn [fits frame] in *.
    + destruct FR. apply ldoc_map; auto.
    + destruct FR. apply lv_map; auto.
    + destruct FR as [(B & N & E)|[N LE]]; [now apply ld_map|now apply ld_map_below].
    + contradiction.
Qed.
Lemma fits_bseq s p n its d post : fits s (TSeq tt p n CBlock its) d post <->
  exists L, d = DSeq L /\ frame s false p n post /\ lead n (slead its) /\ lseq n its L post.
Proof.
  split.
  - intros F. destruct s as [|m|m|sq c]; cbn [fits frame] in *.
    + inversion F as [|? ? ? C FL B LY| |? ? ? ? L ? LS LD M LY]; subst; [inversion FL|]. exists L. auto 9.
    + inversion F as [|? ? ? ? G FL B| | |? ? ? ? ? L ? NA LD LT M]; subst; [inversion FL|]. exists L. auto.
    + inversion F as [|? ? ? ? G FL B| |? ? ? ? ? L ? BL NE ME LD M| |? ? ? ? ? L ? NA LD LT M]; subst; [inversion FL| |]; exists L; auto 9.
    + destruct F as (_ & _ & F). inversion F as [|? ? ? FL]; subst. inversion FL.
  - intros (L & -> & FR & LD & M). destruct s as [|m|m|sq c]; cbn [fits frame] in *.
    + destruct FR. apply ldoc_seq; auto.
    + destruct FR. apply lv_seq; auto.
    + destruct FR as [(B & N & E)|[N LE]]; [now apply ld_seq|now apply ld_seq_below].
    + contradiction.
Qed.
Lemma fits_fmap s p n tr suf its d post : fits s (TMap tt p n (CInline tr suf) its) d post <->
  exists L, d = DMap L /\ flow_frame s p post /\ lfmap its tr suf L.
Proof.
  split.
  - intros F. destruct s as [|m|m|sq c]; cbn [fits flow_frame] in *.
    + inversion F as [|? ? ? C FL B LY| |]; subst. inversion FL as [|? ? ? ? ? ? L H]; subst. exists L. auto.
    + inversion F as [|? ? ? ? G FL B| | |]; subst. inversion FL as [|? ? ? ? ? ? L H]; subst. exists L. auto.
    + inversion F as [|? ? ? ? G FL B| | | |]; subst. inversion FL as [|? ? ? ? ? ? L H]; subst. exists L. auto.
    + destruct F as (C & U & F). inversion F as [|? ? ? FL]; subst. inversion FL as [|? ? ? ? ? ? L H]; subst. exists L. auto.
  - intros (L & -> & FR & H). assert (FL : lflow (TMap tt p n (CInline tr suf) its) (DMap L)) by now constructor.
    destruct s as [|m|m|sq c]; cbn [fits flow_frame] in *.
    + destruct FR as (C & B & LY). now apply ldoc_flow.
    + destruct FR. now apply lv_flow.
    + destruct FR. now apply ld_flow.
    + destruct FR. split; [assumption|]. split; [assumption|]. now apply li_flow.
Qed.
Lemma fits_fseq s p n tr suf its d post : fits s (TSeq tt p n (CInline tr suf) its) d post <->
  exists L, d = DSeq L /\ flow_frame s p post /\ lfseq its tr suf L.
Proof.
  split.
  - intros F. destruct s as [|m|m|sq c]; cbn [fits flow_frame] in *.
    + inversion F as [|? ? ? C FL B LY| |]; subst. inversion FL as [? ? ? ? ? ? L H|]; subst. exists L. auto.
    + inversion F as [|? ? ? ? G FL B| | |]; subst. inversion FL as [? ? ? ? ? ? L H|]; subst. exists L. auto.
    + inversion F as [|? ? ? ? G FL B| | | |]; subst. inversion FL as [? ? ? ? ? ? L H|]; subst. exists L. auto.
    + destruct F as (C & U & F). inversion F as [|? ? ? FL]; subst. inversion FL as [? ? ? ? ? ? L H|]; subst. exists L. auto.
  - intros (L & -> & FR & H). assert (FL : lflow (TSeq tt p n (CInline tr suf) its) (DSeq L)) by now constructor.
    destruct s as [|m|m|sq c]; cbn [fits flow_frame] in *.
    + destruct FR as (C & B & LY). now apply ldoc_flow.
    + destruct FR. now apply lv_flow.
    + destruct FR. now apply ld_flow.
    + destruct FR. split; [assumption|]. split; [assumption|]. now apply li_flow.
Qed.

(* ---- line breaks right behind values ---- *)
Definition mpre (it : mitem unit) : bytes := snd (fst (fst it)).
Definition spre (it : sitem unit) : bytes := snd (fst it).
(* In block collections every item but the first starts with a line break. *)
Inductive neat : tree unit -> Prop :=
| nt_leaf i p sc : neat (TLeaf i p sc)
| nt_fmap i p n tr suf items : neat (TMap i p n (CInline tr suf) items)
| nt_fseq i p n tr suf items : neat (TSeq i p n (CInline tr suf) items)
| nt_map i p n items : Forall (fun it => neat (snd it)) items -> Forall (fun it => hd EOF (mpre it) = NEWLINE) (tl items) ->
    neat (TMap i p n CBlock items)
| nt_seq i p n items : Forall (fun it => neat (snd it)) items -> Forall (fun it => hd EOF (spre it) = NEWLINE) (tl items) ->
    neat (TSeq i p n CBlock items).
Lemma litem_neat v d c : litem v d c -> neat v.
Proof. intros [i p sc e y _ _|w e y F]; [constructor|]. destruct F; constructor. Qed.
Lemma nl_tail {A} (P : A -> Prop) l x x' r : (P x -> P x') -> Forall P (tl (l ++ x :: r)) -> Forall P (tl (l ++ x' :: r)).
Proof.
  intros I. destruct l as [|y l]; cbn [app tl]; [auto|]. intros F. apply Forall_app in F as [F1 F2]. apply Forall_app. split; [exact F1|].
  inversion F2; subst. constructor; auto.
Qed.
Lemma nl_next {A} (P : A -> Prop) l x r : Forall P (tl (l ++ x :: r)) -> Forall P r.
Proof.
  destruct l as [|y l]; cbn [app tl]; [auto|]. intros F. apply Forall_app in F as [_ F]. now inversion F.
Qed.
Lemma ended_next_key n r L post : lmrest n r L post -> Forall (fun it => hd EOF (mpre it) = NEWLINE) r -> ended post -> ended (next_key r post).
Proof.
  intros M F E. destruct r as [|[[[i ip] key] v] r]; [exact E|]. cbn [next_key]. right. inversion F as [|? ? H _]; subst. cbn in H.
  destruct ip as [|c ip]; [discriminate|]. exact H.
Qed.
Lemma ended_key r post : Forall (fun it => hd EOF (mpre it) = NEWLINE) r -> ended post -> ended (next_key r post).
Proof.
  intros F E. destruct r as [|[[[i ip] key] v] r]; [exact E|]. cbn [next_key]. right. inversion F as [|? ? H _]; subst. cbn in H.
  destruct ip as [|c ip]; [discriminate|]. exact H.
Qed.
Lemma ended_dash r post : Forall (fun it => hd EOF (spre it) = NEWLINE) r -> ended post -> ended (next_dash r post).
Proof.
  intros F E. destruct r as [|[[i ip] v] r]; [exact E|]. cbn [next_dash]. right. inversion F as [|? ? H _]; subst. cbn in H.
  destruct ip as [|c ip]; [discriminate|]. exact H.
Qed.

(* ---- the place of the hole ---- *)
Lemma map_mid {A B} (f : A -> B) l x r : map f (l ++ x :: r) = map f l ++ f x :: map f r.
Proof. now rewrite map_app. Qed.
(* What follows a value in a slot. *)
Definition follow_ok (s : slot) (post : bytes) : Prop :=
  match s with
  | SRoot => layout post /\ ended post
  | SVal n => map_ends (S n) post /\ ended post
  | SDash n => map_ends n post /\ ended post
  | SItem _ y => In y (b ",]}#") \/ white y
  end.
Lemma follow_key n r L post : lmrest n r L post -> Forall (fun it => hd EOF (mpre it) = NEWLINE) r -> ended post -> follow_ok (SVal n) (next_key r post).
Proof.
  intros R NL EP. split; [|now apply ended_key]. inversion R as [? ? ME|? ? w k ? ? ? ? ? NA K V R']; subst; cbn [next_key].
  - destruct ME as [H|(w & m & x & E & NA & K & Z)]; [now left|]. right. exists w, m, x. repeat (split; [first [assumption|lia]|]). auto.
  - right. exists w, n, (stand_in (RS KBare k k)). split; [reflexivity|]. split; [exact NA|]. split; [lia|]. split; [discriminate|].
    unfold stand_in. change (wstr (RS KBare k k)) with k. cbn [hd]. destruct K as ((c & q & -> & W & I & _) & _). cbn [hd]. split; [exact W|].
    intros ->. apply I. now left.
Qed.
Lemma follow_dash n r L post : lsrest n r L post -> Forall (fun it => hd EOF (spre it) = NEWLINE) r -> ended post -> follow_ok (SDash (1 + n)) (next_dash r post).
Proof.
  intros R NL EP. split; [|now apply ended_dash]. inversion R as [? ? ME|? ? w ? ? ? ? ? NA U V R']; subst; cbn [next_dash].
  - destruct ME as [H|(w & m & x & E & NA & K & Z)]; [now left|]. right. exists w, m, x. repeat (split; [first [assumption|lia]|]). auto.
  - right. exists w, n, (b "-"). split; [reflexivity|]. split; [exact NA|]. split; [lia|]. split; [discriminate|].
    cbn. split; [unfold white; cbn|]; intuition discriminate.
Qed.

(* ---- the place of the hole ---- *)
(* ---- where a new collection goes ---- *)
Lemma blank_chars t : Forall blank t -> chars t = map (fun c => [c]) t.
Proof.
  induction 1 as [|c t B F IH]; [reflexivity|]. change (c :: t) with ([c] ++ t). rewrite chars_char; [cbn; now rewrite IH|].
  apply ascii_uchar. cbn in B. lia.
Qed.
Lemma padded t k : Forall blank t ->
  Forall blank (concat (firstn k (chars t ++ repeat [SPACE] k))) /\ length (concat (firstn k (chars t ++ repeat [SPACE] k))) = k.
Proof.
  intros F. rewrite (blank_chars _ F). revert t F.
  assert (R : forall k, Forall blank (concat (firstn k (repeat [SPACE] k))) /\ length (concat (firstn k (repeat [SPACE] k))) = k).
  { clear. induction k as [|k [IH1 IH2]]; [split; [constructor|reflexivity]|]. cbn [repeat firstn concat app]. split; [constructor; [cbn; auto|exact IH1]|].
    cbn. f_equal. exact IH2. }
  assert (G : forall k j t, Forall blank t -> (k <= j)%nat -> Forall blank (concat (firstn k (map (fun c => [c]) t ++ repeat [SPACE] j))) /\
    length (concat (firstn k (map (fun c => [c]) t ++ repeat [SPACE] j))) = k).
  { clear. induction k as [|k IH]; intros j t F LE; [split; [constructor|reflexivity]|].
    destruct F as [|c t C F]; cbn [map app].
    - destruct j as [|j]; [lia|]. cbn [repeat firstn concat app]. destruct (IH j [] (Forall_nil _)) as [I1 I2]; [lia|]. cbn [map app] in *.
      split; [constructor; [cbn; auto|exact I1]|]. cbn. f_equal. exact I2.
    - cbn [firstn concat app]. destruct (IH j t F) as [I1 I2]; [lia|]. split; [now constructor|]. cbn. f_equal. exact I2. }
  intros t F. now apply G.
Qed.
Lemma under_newline p n : Forall blank (after_last_nl p) -> newline_at (fst (under p n)) (snd (under p n)).
Proof.
  intros F. destruct (padded _ (n + 2) F) as [P1 P2]. unfold under. cbn [fst snd]. split; [cbn; auto|].
  exists [], (concat (firstn (n + 2) (chars (after_last_nl p) ++ repeat [SPACE] (n + 2)))). split; [reflexivity|].
  split; [constructor; [cbn; auto|constructor]|]. split; [exact P1|exact P2].
Qed.
Lemma blanks_last a t : (a = [] \/ exists a', a = a' ++ [NEWLINE]) -> Forall blank t -> after_last_nl (a ++ t) = t.
Proof.
  intros A F. apply after_nl; [exact A|]. intros I. rewrite Forall_forall in F. specialize (F _ I). cbn in F. unfold NEWLINE in F. lia.
Qed.
Lemma newline_last n p : newline_at n p -> Forall blank (after_last_nl p) /\ length (after_last_nl p) = n.
Proof.
  intros (_ & u & t & -> & _ & F & <-). rewrite app_assoc. rewrite blanks_last; [auto|right; eauto|exact F].
Qed.
Lemma blank_last t : Forall blank t -> Forall blank (after_last_nl t).
Proof. intros F. pose proof (blanks_last [] t (or_introl eq_refl) F) as E. cbn [app] in E. now rewrite E. Qed.
Lemma line_start_last n p : line_start n p -> Forall blank (after_last_nl p).
Proof.
  intros [[F _]|(u & t & -> & _ & F & _)]; [now apply blank_last|]. rewrite app_assoc. rewrite blanks_last; [exact F|right; eauto|exact F].
Qed.
Lemma frame_blank s lt p n post : frame s lt p n post -> Forall blank (after_last_nl p).
Proof.
  destruct s as [|m|m|sq c]; cbn [frame].
  - intros [L _]. eapply line_start_last; eauto.
  - intros [L _]. eapply newline_last; eauto.
  - intros [(F & _)|[L _]]; [now apply blank_last|]. eapply newline_last; eauto.
  - easy.
Qed.
Lemma frame_any s p n post : frame s true p n post -> forall lt, frame s lt p n post.
Proof.
  intros F [|]; [exact F|]. destruct s as [|m|m|sq c]; cbn [frame] in *; auto. destruct F. split; [assumption|lia].
Qed.
(* The hole is the value of a key, or an item that is not the first of its sequence. *)
Fixpoint settled (c : ctx) : Prop :=
  match c with
  | CHole => False
  | CMapC _ _ _ _ _ _ _ _ CHole _ => True
  | CSeqC _ _ _ _ l _ _ CHole _ => l <> []
  | CMapC _ _ _ _ _ _ _ _ c _ | CSeqC _ _ _ _ _ _ _ c _ => settled c
  end.
Lemma lsrest_pre n r L post : lsrest n r L post -> Forall (fun it => newline_at n (spre it)) r.
Proof.
  revert L. induction r as [|[[i ip] v] r IH]; intros L R; [constructor|]. inversion R; subst. constructor; [assumption|]. eapply IH; eauto.
Qed.

(* In a flow collection, a comma or a bracket stands right behind the hole. *)
Fixpoint firm (c : ctx) : Prop :=
  match c with
  | CHole => False
  | CMapC _ _ _ _ _ _ _ _ CHole _ => True
  | CSeqC _ _ _ k _ _ _ CHole r => r <> [] \/ In (hd EOF (closing (fun x => x) RBRACK k)) (b ",]}")
  | CMapC _ _ _ _ _ _ _ _ c _ | CSeqC _ _ _ _ _ _ _ c _ => firm c
  end.

(* The text right behind the hole: the same layout, and then the same byte. *)
Definition near (p p' : bytes) : Prop := p = p' \/ exists w r r', p = w ++ r /\ p' = w ++ r' /\ closed w /\
  r <> [] /\ r' <> [] /\ stops r /\ hd EOF r = hd EOF r'.
Definition lays (x : bytes) : Prop := x = [] \/ exists w r, x = w ++ r /\ closed w /\ r <> [] /\ stops r.
Lemma near_sym p p' : near p p' -> near p' p.
Proof.
  intros [->|(w & r & r' & -> & -> & C & N & N' & S & H)]; [now left|]. right. exists w, r', r. do 5 (split; [assumption || reflexivity|]).
  split; [exact (stops_hd _ _ H S)|now symmetry].
Qed.
Lemma near_trans p q r : near p q -> near q r -> near p r.
Proof.
  intros [->|(w & a & a' & -> & -> & C & N & N' & S & H)]; [auto|]. intros [<-|(w2 & c & c' & E & -> & C2 & N2 & N2' & S2 & H2)].
  - right. exists w, a, a'. auto 9.
  - destruct (split_unique w a' w2 c) as [-> ->]; auto; [exact (stops_hd _ _ H S)|]. right. exists w2, a, c'. rewrite H, H2. auto 9.
Qed.
Lemma lays_app x y : lays x -> lays y -> lays (x ++ y).
Proof.
  intros [->|(w & r & -> & C & N & S)] Y; [exact Y|]. right. exists w, (r ++ y). rewrite <- app_assoc. split; [reflexivity|]. split; [exact C|].
  split; [now destruct r|]. destruct r; [now elim N|exact S].
Qed.
Lemma near_behind p x q q' : near p (x ++ q) -> lays x -> near q q' -> near p (x ++ q').
Proof.
  intros P [->|(w & r & -> & C & N & S)] Q; [cbn [app] in *; eapply near_trans; eauto|]. eapply near_trans; [exact P|]. right.
  exists w, (r ++ q), (r ++ q'). rewrite <- !app_assoc. do 2 (split; [reflexivity|]). split; [exact C|]. destruct r; [now elim N|]. do 2 (split; [discriminate|]). now split.
Qed.
Definition behind_hole (c : ctx) (post : bytes) (s0 : slot) (post0 : bytes) : Prop :=
  follow_ok s0 post0 /\ (is_item s0 = false -> lays (wright c) /\ near post0 (wright c ++ post)).
Lemma behind_key n (r : list (mitem nat)) L post : lmrest n (map mshape r) L post ->
  lays (sepr [] (map wmitem r)) /\ near (next_key (map mshape r) post) (sepr [] (map wmitem r) ++ post).
Proof.
  intros R. destruct r as [|[[[i ip] key] v] r]; [split; now left|]. cbn [map] in R. change (mshape (i, ip, key, v)) with (tt, ip, key, shape v) in *.
  inversion R as [|? ? w k ? ? ? ? ? NA K V R']; subst. cbn [map next_key sepr app]. destruct (plain_key_stops k [] K) as [S0 N0]. rewrite app_nil_r in S0, N0.
  assert (X : exists y, sep [] (wmitem (i, ip, RS KBare k k, v) :: map wmitem r) = ip ++ k ++ y).
  { cbn [sep wmitem]. change (wstr (RS KBare k k)) with k. destruct (map wmitem r); rewrite <- ?app_assoc; eauto. }
  destruct X as [y ->]. pose proof (newline_closed _ _ NA) as C. destruct k as [|c k]; [now elim N0|]. split.
  - right. exists ip, ((c :: k) ++ y). split; [reflexivity|]. split; [exact C|]. split; [discriminate|exact S0].
  - right. exists ip, (stand_in (RS KBare (c :: k) (c :: k))), ((c :: k) ++ y ++ post). rewrite <- !app_assoc. do 2 (split; [reflexivity|]). split; [exact C|].
    do 2 (split; [discriminate|]). split; [exact S0|reflexivity].
Qed.
Lemma behind_dash n (r : list (sitem nat)) L post : lsrest n (map sshape r) L post ->
  lays (sepr [] (map (wsitem CBlock) r)) /\ near (next_dash (map sshape r) post) (sepr [] (map (wsitem CBlock) r) ++ post).
Proof.
  intros R. destruct r as [|[[i ip] v] r]; [split; now left|]. cbn [map] in R. change (sshape (i, ip, v)) with (tt, ip, shape v) in *.
  inversion R as [|? ? w ? ? ? ? ? NA U V R']; subst. cbn [map next_dash sepr app].
  assert (X : exists y, sep [] (wsitem CBlock (i, ip, v) :: map (wsitem CBlock) r) = ip ++ b "-" ++ y).
  { cbn [sep wsitem]. rewrite (lossy_utf8 _ U). destruct (map (wsitem CBlock) r); rewrite <- ?app_assoc; eauto. }
  destruct X as [y ->]. pose proof (newline_closed _ _ NA) as C. assert (S : forall z, stops (b "-" ++ z)) by (intros z; split; cbn; intuition discriminate). split.
  - right. exists ip, (b "-" ++ y). split; [reflexivity|]. split; [exact C|]. split; [discriminate|apply S].
  - right. exists ip, (b "-"), (b "-" ++ y ++ post). rewrite <- !app_assoc. do 2 (split; [reflexivity|]). split; [exact C|].
    do 2 (split; [discriminate|]). split; [apply (S [])|reflexivity].
Qed.

(* The hole of c in the slot s is the slot s0; with d0 in it, the whole is d. *)
Definition opens (s : slot) (c : ctx) (post : bytes) (s0 : slot) (post0 : bytes) (d0 d : datum) : Prop :=
  behind_hole c post s0 post0 /\ is_item s0 = (is_item s || in_flow c)%bool /\ (s0 = SRoot -> c = CHole) /\ (c = CHole -> s0 = s) /\
  (settled c -> is_item s0 = false -> forall v n p, amake c v = (n, p) -> frame s0 true p n post0) /\
  (firm c -> forall sq y, s0 = SItem sq y -> In y (b ",]}")) /\
  forall v' d0', fits s0 (shape v') d0' post0 -> neat (shape v') ->
    exists d', fits s (shape (plug c v')) d' post /\ neat (shape (plug c v')) /\ replaced d0 d0' (cpath c) d d'.
Lemma hole c : forall v s d post, fits s (shape (plug c v)) d post -> neat (shape (plug c v)) -> follow_ok s post ->
  exists s0 d0 post0, fits s0 (shape v) d0 post0 /\ neat (shape v) /\ opens s c post s0 post0 d0 d.
Proof.
  induction c as [|i p n k l ii ip key c IH r|i p n k l ii ip c IH r]; intros v s d post F NT EP.
  - exists s, d, post. split; [exact F|]. split; [exact NT|]. split; [split; [exact EP|intros _; split; now left]|]. cbn [in_flow]. rewrite orb_false_r. do 3 (split; [auto|]). split; [intros []|]. split; [intros []|].
    intros v' d0' F' NT'. exists d0'. split; [exact F'|]. split; [exact NT'|]. constructor.
  - cbn [plug] in F, NT. rewrite shape_map, map_mid in F, NT. change (mshape (ii, ip, key, plug c v)) with (tt, ip, key, shape (plug c v)) in F, NT.
    assert (SH : forall x, shape (plug (CMapC i p n k l ii ip key c r) x) =
      TMap tt p n k (map mshape l ++ (tt, ip, key, shape (plug c x)) :: map mshape r)) by (intros x; cbn [plug]; now rewrite shape_map, map_mid).
    destruct k as [|tr suf].
    + apply fits_bmap in F as (L & -> & FR & LD & M & DS).
      assert (IS : is_item s = false) by (destruct s; [reflexivity..|contradiction]).
      assert (EE : ended post) by (destruct s; [apply EP..|contradiction]).
      inversion NT as [| | |? ? ? ? NV NL|]; subst. apply Forall_app in NV as NV'. destruct NV' as [_ NV']. inversion NV' as [|? ? NW NR]; subst.
      cbn [snd] in NW. destruct (lmap_cut _ _ _ _ _ _ _ _ _ M) as (L1 & d1 & L2 & -> & LE & V & R & GL).
      destruct (IH v (SVal n) d1 (next_key (map mshape r) post) V NW) as (s0 & d0 & post0 & F0 & N0 & E0 & I0 & R0 & C0 & A0 & B0 & K0).
      { eapply follow_key; [exact R|eapply nl_next; exact NL|exact EE]. }
      exists s0, d0, post0. split; [exact F0|]. split; [exact N0|]. split.
      { destruct E0 as [FO0 NB0]. split; [exact FO0|]. intros IT. destruct (NB0 IT) as [LA0 NB1]. destruct (behind_key _ _ _ _ R) as [LR NX].
        cbn [wright comma_if closing]. rewrite app_nil_r. split; [now apply lays_app|]. rewrite <- app_assoc. eapply near_behind; eauto. }
      split; [cbn [in_flow]; rewrite I0, IS; reflexivity|].
      split. { intros X. specialize (R0 X). subst c. rewrite (C0 eq_refl) in X. discriminate. }
      split; [discriminate|].
      split. { destruct c as [|? ? ? ? ? ? ? ? c ?|? ? ? ? ? ? ? c ?].
        - intros _ _ x n' p' A. rewrite (C0 eq_refl). cbn in A. injection A as <- <-. cbn [frame].
          split; [apply (under_newline p n); eapply frame_blank; exact FR|lia].
        - intros ST IT x. exact (A0 ST IT x).
        - intros ST IT x. exact (A0 ST IT x). }
      split. { destruct c as [|? ? ? ? ? ? ? ? c ?|? ? ? ? ? ? ? c ?]; [intros _ sq z E; rewrite (C0 eq_refl) in E; discriminate|exact B0|exact B0]. }
      intros v' d0' F' NT'. destruct (K0 v' d0' F' NT') as (d' & F1 & N1 & RP). exists (DMap (L1 ++ (rs_id key, d') :: L2)). rewrite SH. split.
      * apply fits_bmap. eexists. split; [reflexivity|]. split; [exact FR|]. split; [now rewrite (mlead_mid _ _ _ _ _ (shape (plug c v)))|].
        split; [exact (GL _ _ _ _ _ F1 R)|]. intros X. rewrite (first_text_mid _ _ _ _ _ (shape (plug c v))). now apply DS.
      * split.
        -- constructor.
           ++ apply Forall_app. apply Forall_app in NV as [NA _]. split; [exact NA|]. constructor; [exact N1|exact NR].
           ++ eapply nl_tail; [|exact NL]. auto.
        -- cbn [cpath]. assert (LL : length l = length L1) by (rewrite LE, map_length; reflexivity). rewrite LL. now constructor.
    + apply fits_fmap in F as (L & -> & FR & M).
      destruct (lfmap_at _ _ _ _ _ _ _ _ _ M) as (L1 & d1 & L2 & y & -> & LE & V & IC & GL).
      assert (NW : neat (shape (plug c v))) by (eapply litem_neat; apply V).
      destruct (IH v (SItem false y) d1 [] V NW) as (s0 & d0 & post0 & F0 & N0 & E0 & I0 & R0 & C0 & A0 & B0 & K0); [cbn in *; tauto|].
      exists s0, d0, post0. split; [exact F0|]. split; [exact N0|]. split; [split; [apply E0|intros IT; rewrite I0 in IT; discriminate IT]|].
      split; [cbn [in_flow]; rewrite I0; cbn; now rewrite orb_true_r|].
      split. { intros X. specialize (R0 X). subst c. rewrite (C0 eq_refl) in X. discriminate. }
      split; [discriminate|].
      split. { intros ST IT. rewrite I0 in IT. cbn in IT. discriminate. }
      split. { destruct c as [|? ? ? ? ? ? ? ? c ?|? ? ? ? ? ? ? c ?]; [|exact B0|exact B0]. intros _ sq z E. rewrite (C0 eq_refl) in E. injection E as _ <-. cbn in IC |- *. tauto. }
      intros v' d0' F' NT'. destruct (K0 v' d0' F' NT') as (d' & F1 & N1 & RP). exists (DMap (L1 ++ (rs_id key, d') :: L2)). rewrite SH.
      split; [apply fits_fmap; eexists; split; [reflexivity|]; split; [exact FR|]; now apply GL|].
      split; [constructor|]. cbn [cpath]. assert (LL : length l = length L1) by (rewrite LE, map_length; reflexivity). rewrite LL. now constructor.
  - cbn [plug] in F, NT. rewrite shape_seq, map_mid in F, NT. change (sshape (ii, ip, plug c v)) with (tt, ip, shape (plug c v)) in F, NT.
    assert (SH : forall x, shape (plug (CSeqC i p n k l ii ip c r) x) =
      TSeq tt p n k (map sshape l ++ (tt, ip, shape (plug c x)) :: map sshape r)) by (intros x; cbn [plug]; now rewrite shape_seq, map_mid).
    destruct k as [|tr suf].
    + apply fits_bseq in F as (L & -> & FR & LD & M).
      assert (IS : is_item s = false) by (destruct s; [reflexivity..|contradiction]).
      assert (EE : ended post) by (destruct s; [apply EP..|contradiction]).
      inversion NT as [| | | |? ? ? ? NV NL]; subst. apply Forall_app in NV as NV'. destruct NV' as [_ NV']. inversion NV' as [|? ? NW NR]; subst.
      cbn [snd] in NW. destruct (lseq_cut _ _ _ _ _ _ _ _ M) as (L1 & d1 & L2 & -> & LE & V & R & GL).
      destruct (IH v (SDash (1 + n)) d1 (next_dash (map sshape r) post) V NW) as (s0 & d0 & post0 & F0 & N0 & E0 & I0 & R0 & C0 & A0 & B0 & K0).
      { eapply follow_dash; [exact R|eapply nl_next; exact NL|exact EE]. }
      exists s0, d0, post0. split; [exact F0|]. split; [exact N0|]. split.
      { destruct E0 as [FO0 NB0]. split; [exact FO0|]. intros IT. destruct (NB0 IT) as [LA0 NB1]. destruct (behind_dash _ _ _ _ R) as [LR NX].
        cbn [wright comma_if closing]. rewrite app_nil_r. split; [now apply lays_app|]. rewrite <- app_assoc. eapply near_behind; eauto. }
      split; [cbn [in_flow]; rewrite I0, IS; reflexivity|].
      split. { intros X. specialize (R0 X). subst c. rewrite (C0 eq_refl) in X. discriminate. }
      split; [discriminate|].
      split. { destruct c as [|? ? ? ? ? ? ? ? c ?|? ? ? ? ? ? ? c ?].
        - intros ST _ x n' p' A. rewrite (C0 eq_refl). cbn in A. injection A as <- <-. cbn [frame]. left.
          split; [constructor; [cbn; auto|constructor]|]. split; [discriminate|]. cbn in ST.
          assert (NI : newline_at n ip).
          { destruct l as [|[[j jp] w] l]; [now elim ST|]. cbn [map app] in M. inversion M as [? ? ? ? ? ? ? ? U V1 R1]; subst.
            apply lsrest_pre in R1. rewrite Forall_app in R1. destruct R1 as [_ R1]. inversion R1; subst. assumption. }
          apply newline_last in NI as [B <-]. unfold count_indent. rewrite (blank_chars _ B), map_length. unfold bytes, byte in *. cbn [length]. lia.
        - intros ST IT x. exact (A0 ST IT x).
        - intros ST IT x. exact (A0 ST IT x). }
      split. { destruct c as [|? ? ? ? ? ? ? ? c ?|? ? ? ? ? ? ? c ?]; [intros _ sq z E; rewrite (C0 eq_refl) in E; discriminate|exact B0|exact B0]. }
      intros v' d0' F' NT'. destruct (K0 v' d0' F' NT') as (d' & F1 & N1 & RP). exists (DSeq (L1 ++ d' :: L2)). rewrite SH. split.
      * apply fits_bseq. eexists. split; [reflexivity|]. split; [exact FR|]. split; [now rewrite (slead_mid _ _ _ _ (shape (plug c v)))|].
        exact (GL _ _ _ _ _ F1 R).
      * split.
        -- constructor.
           ++ apply Forall_app. apply Forall_app in NV as [NA _]. split; [exact NA|]. constructor; [exact N1|exact NR].
           ++ eapply nl_tail; [|exact NL]. auto.
        -- cbn [cpath]. assert (LL : length l = length L1) by (rewrite LE, map_length; reflexivity). rewrite LL. now constructor.
    + apply fits_fseq in F as (L & -> & FR & M).
      destruct (lfseq_at _ _ _ _ _ _ _ _ M) as (L1 & d1 & L2 & y & -> & LE & V & IC & CE & GL).
      assert (NW : neat (shape (plug c v))) by (eapply litem_neat; apply V).
      destruct (IH v (SItem true y) d1 [] V NW) as (s0 & d0 & post0 & F0 & N0 & E0 & I0 & R0 & C0 & A0 & B0 & K0); [cbn in *; tauto|].
      exists s0, d0, post0. split; [exact F0|]. split; [exact N0|]. split; [split; [apply E0|intros IT; rewrite I0 in IT; discriminate IT]|].
      split; [cbn [in_flow]; rewrite I0; cbn; now rewrite orb_true_r|].
      split. { intros X. specialize (R0 X). subst c. rewrite (C0 eq_refl) in X. discriminate. }
      split; [discriminate|].
      split. { intros ST IT. rewrite I0 in IT. cbn in IT. discriminate. }
      split. { destruct c as [|? ? ? ? ? ? ? ? c ?|? ? ? ? ? ? ? c ?]; [|exact B0|exact B0]. intros FM sq z E. rewrite (C0 eq_refl) in E. injection E as _ <-. cbn [firm] in FM.
        destruct CE as [[_ ->]|[RN ->]]; [now left|]. destruct FM as [NR|FM]; [|exact FM]. elim NR. destruct r; [reflexivity|discriminate]. }
      intros v' d0' F' NT'. destruct (K0 v' d0' F' NT') as (d' & F1 & N1 & RP). exists (DSeq (L1 ++ d' :: L2)). rewrite SH.
      split; [apply fits_fseq; eexists; split; [reflexivity|]; split; [exact FR|]; now apply GL|].
      split; [constructor|]. cbn [cpath]. assert (LL : length l = length L1) by (rewrite LE, map_length; reflexivity). rewrite LL. now constructor.
Qed.
