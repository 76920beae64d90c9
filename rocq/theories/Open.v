(* Places for new values in laid out trees. *)
From Coq Require Import String.
From Coq Require Import List NArith Bool Arith Lia.
From Verif Require Import Bytes Utf8 Data Parser Render Tree Abs Refine Utf8Props Scan Api Ctx Edit Reads ReadsSound Shown Plain Grammar Laid GrammarSound Swap Repost Grow.
Import ListNotations.
Local Open Scope N_scope.

(* ---- data with one place changed ---- *)
Lemma mid_inj {A} (l : list A) : forall l' x x' r r', length l = length l' -> l ++ x :: r = l' ++ x' :: r' -> l = l' /\ x = x' /\ r = r'.
Proof.
  induction l as [|a l IH]; intros [|a' l'] x x' r r' LE E; try discriminate; cbn in *.
  - injection E as -> ->. auto.
  - injection E as -> E. injection LE as LE. destruct (IH _ _ _ _ _ LE E) as (-> & -> & ->). auto.
Qed.
Lemma replaced_fun x y p D D' : replaced x y p D D' -> forall x2 D2, replaced x2 y p D D2 -> x = x2 /\ D' = D2.
Proof.
  induction 1 as [|p l k u w r H IH|p l u w r H IH]; intros x2 D2 H2; inversion H2; subst; [auto| |].
  - match goal with H : _ ++ _ :: _ = _ ++ _ :: _ |- _ => apply mid_inj in H; [|congruence]; destruct H as (-> & E & ->) end.
    injection E as -> ->. match goal with H : replaced x2 y p u _ |- _ => destruct (IH _ _ H) as [-> ->] end. auto.
  - match goal with H : _ ++ _ :: _ = _ ++ _ :: _ |- _ => apply mid_inj in H; [|congruence]; destruct H as (-> & -> & ->) end.
    match goal with H : replaced x2 y p u _ |- _ => destruct (IH _ _ H) as [-> ->] end. auto.
Qed.
Lemma replaced_comp x a p D D1 : replaced x a p D D1 -> forall x2 b' D2 u w q, replaced x2 b' p D D2 -> replaced u w q a b' -> replaced u w (p ++ q) D1 D2.
Proof.
  induction 1 as [|p l k u w r H IH|p l u w r H IH]; intros x2 b' D2 u' w' q H2 Q; inversion H2; subst; [exact Q| |]; cbn [app].
  - match goal with H : _ ++ _ :: _ = _ ++ _ :: _ |- _ => apply mid_inj in H; [|congruence]; destruct H as (-> & E & ->) end.
    injection E as -> ->. constructor. eapply IH; eauto.
  - match goal with H : _ ++ _ :: _ = _ ++ _ :: _ |- _ => apply mid_inj in H; [|congruence]; destruct H as (-> & -> & ->) end.
    constructor. eapply IH; eauto.
Qed.
Lemma replaced_any x a p D D1 : replaced x a p D D1 -> forall b', exists D2, replaced x b' p D D2.
Proof.
  induction 1 as [|p l k u w r H IH|p l u w r H IH]; intros b'.
  - exists b'. constructor.
  - destruct (IH b') as [w' Q]. eexists. constructor. exact Q.
  - destruct (IH b') as [w' Q]. eexists. constructor. exact Q.
Qed.
Lemma see_replaced c v v' : replaced (see v) (see v') (cpath c) (see (plug c v)) (see (plug c v')).
Proof.
  induction c as [|i p n k l ii ip key c IH r|i p n k l ii ip c IH r]; cbn [plug cpath see]; [constructor| |].
  - rewrite !map_app. cbn [map]. match goal with |- replaced _ _ (?z :: _) (DMap (?m ++ _)) _ => replace z with (length m) by apply map_length end. now constructor.
  - rewrite !map_app. cbn [map]. match goal with |- replaced _ _ (?z :: _) (DSeq (?m ++ _)) _ => replace z with (length m) by apply map_length end. now constructor.
Qed.
(* Equal up to the types of numbers. *)
Inductive sim : datum -> datum -> Prop :=
| sim_null : sim DNull DNull
| sim_bool v : sim (DBool v) (DBool v)
| sim_num s h h' : sim (DNum s h) (DNum s h')
| sim_str s : sim (DStr s) (DStr s)
| sim_map l l' : Forall2 (fun x y => fst x = fst y /\ sim (snd x) (snd y)) l l' -> sim (DMap l) (DMap l')
| sim_seq l l' : Forall2 sim l l' -> sim (DSeq l) (DSeq l').
Lemma forall2_mid {A B} (P : A -> B -> Prop) l x r l' y r' : length l = length l' ->
  (Forall2 P (l ++ x :: r) (l' ++ y :: r') <-> Forall2 P l l' /\ P x y /\ Forall2 P r r').
Proof.
  revert l'. induction l as [|a l IH]; intros [|a' l'] LE; try discriminate; cbn [app].
  - split; [intros H; inversion H; subst; auto|]. intros (_ & ? & ?). now constructor.
  - injection LE as LE. split.
    + intros H. inversion H; subst. match goal with H : Forall2 _ (_ ++ _) _ |- _ => apply IH in H; [|exact LE] end. intuition.
    + intros (H & ? & ?). inversion H; subst. constructor; [assumption|]. apply IH; auto.
Qed.
Lemma sim_replaced x a p X X1 : replaced x a p X X1 -> forall D d d' D', sim X D -> replaced d d' p D D' -> sim x d /\ (sim a d' -> sim X1 D').
Proof.
  induction 1 as [|p l k u w r H IH|p l u w r H IH]; intros D d d' D' S R.
  - inversion R; subst. auto.
  - inversion R as [|? l2 k2 u2 w2 r2 R2|? l2 u2 w2 r2 R2]; subst; [|inversion S].
    inversion S as [| | | |? ? F|]; subst. apply forall2_mid in F; [|congruence]. destruct F as (F1 & [K F2] & F3). cbn [fst snd] in *.
    destruct (IH _ _ _ _ F2 R2) as [S1 S2]. split; [exact S1|]. intros A. constructor. apply forall2_mid; [congruence|]. cbn. auto.
  - inversion R as [|? l2 k2 u2 w2 r2 R2|? l2 u2 w2 r2 R2]; subst; [inversion S|].
    inversion S as [| | | | |? ? F]; subst. apply forall2_mid in F; [|congruence]. destruct F as (F1 & F2 & F3).
    destruct (IH _ _ _ _ F2 R2) as [S1 S2]. split; [exact S1|]. intros A. constructor. apply forall2_mid; [congruence|]. auto.
Qed.

(* ---- contexts in contexts ---- *)
Lemma cpath_comp c c2 : cpath (ccomp c c2) = cpath c ++ cpath c2.
Proof. induction c as [|i p n k l ii ip key c IH r|i p n k l ii ip c IH r]; cbn; congruence. Qed.
Lemma wright_comp c c2 : wright (ccomp c c2) = wright c2 ++ wright c.
Proof.
  induction c as [|i p n k l ii ip key c IH r|i p n k l ii ip c IH r]; cbn [ccomp wright]; [now rewrite app_nil_r|..]; rewrite IH; now rewrite <- app_assoc.
Qed.
Lemma in_flow_comp c c2 : in_flow (ccomp c c2) = (in_flow c || in_flow c2)%bool.
Proof. induction c as [|i p n [|] l ii ip key c IH r|i p n [|] l ii ip c IH r]; cbn; auto. Qed.
Lemma ccomp_hole c c2 : ccomp c c2 = CHole -> c = CHole /\ c2 = CHole.
Proof. destruct c; cbn; [auto|discriminate|discriminate]. Qed.
Lemma settled_comp c c2 : c2 <> CHole -> settled (ccomp c c2) -> settled c2.
Proof.
  intros NE. induction c as [|i p n k l ii ip key c IH r|i p n k l ii ip c IH r]; cbn [ccomp]; [auto| |].
  - intros H. apply IH. cbn [settled] in H. destruct (ccomp c c2) eqn:E; [apply ccomp_hole in E as [_ E]; now elim NE|exact H|exact H].
  - intros H. apply IH. cbn [settled] in H. destruct (ccomp c c2) eqn:E; [apply ccomp_hole in E as [_ E]; now elim NE|exact H|exact H].
Qed.
Lemma amake_in_comp c c2 : c2 <> CHole -> forall x y, amake_in (ccomp c c2) x = amake_in c2 y.
Proof.
  intros NE. induction c as [|i p n k l ii ip key c IH r|i p n k l ii ip c IH r]; intros x y; cbn [ccomp amake_in].
  - now apply amake_in_other.
  - apply IH.
  - destruct k; apply IH.
Qed.
Lemma firm_comp c c2 : c2 <> CHole -> firm (ccomp c c2) -> firm c2.
Proof.
  intros NE. induction c as [|i p n k l ii ip key c IH r|i p n k l ii ip c IH r]; cbn [ccomp]; [auto| |].
  - intros H. apply IH. cbn [firm] in H. destruct (ccomp c c2) eqn:E; [apply ccomp_hole in E as [_ E]; now elim NE|exact H|exact H].
  - intros H. apply IH. cbn [firm] in H. destruct (ccomp c c2) eqn:E; [apply ccomp_hole in E as [_ E]; now elim NE|exact H|exact H].
Qed.
Lemma opens_comp s c post s1 post1 d1 D c2 s0 post0 d0 d1' D1 : opens s c post s1 post1 d1 D -> opens s1 c2 post1 s0 post0 d0 d1' ->
  c2 <> CHole -> replaced d1 d1' (cpath c) D D1 -> opens s (ccomp c c2) post s0 post0 d0 D1.
Proof.
  intros (E1 & I1 & R1 & C1 & A1 & B1 & K1) (E0 & I0 & R0 & C0 & A0 & B0 & K0) NE RP.
  split.
  { split; [apply E0|]. intros IT. destruct E0 as [_ E0]. destruct (E0 IT) as [L0 N0]. rewrite I0 in IT. apply orb_false_iff in IT as [IT _].
    destruct E1 as [_ E1]. destruct (E1 IT) as [L1 N1]. rewrite wright_comp. split; [now apply lays_app|]. rewrite <- app_assoc. eapply near_behind; eauto. }
  split; [rewrite I0, I1, in_flow_comp; apply eq_sym, orb_assoc|].
  split. { intros X. apply R0 in X. contradiction. }
  split. { intros X. apply ccomp_hole in X as [_ X]. contradiction. }
  split.
  - intros ST IT v n p A. apply (A0 (settled_comp _ _ NE ST) IT v). rewrite <- A. unfold amake. symmetry. now apply amake_in_comp.
  - split; [intros FM; exact (B0 (firm_comp _ _ NE FM))|]. intros v' d0' F NT. destruct (K0 _ _ F NT) as (d1'' & F1 & N1 & RP1). destruct (K1 _ _ F1 N1) as (D'' & F2 & N2 & RP2).
    exists D''. rewrite plug_comp, cpath_comp. split; [exact F2|]. split; [exact N2|]. eapply replaced_comp; eauto.
Qed.
Lemma opens_shift s c post s0 post0 d0 D d0' D1 : opens s c post s0 post0 d0 D -> replaced d0 d0' (cpath c) D D1 -> opens s c post s0 post0 d0' D1.
Proof.
  intros (E1 & I1 & R1 & C1 & A1 & B1 & K1) RP. do 6 (split; [assumption|]). intros v' d2 F NT. destruct (K1 _ _ F NT) as (D'' & F2 & N2 & RP2).
  exists D''. split; [exact F2|]. split; [exact N2|]. rewrite <- (app_nil_r (cpath c)). eapply replaced_comp; [exact RP|exact RP2|constructor].
Qed.

(* ---- a new item of a collection ---- *)
Lemma nl_indent_at n : newline_at n (nl_indent (n + 1)) /\ hd EOF (nl_indent (n + 1)) = NEWLINE /\ utf8 (nl_indent (n + 1)) = true.
Proof.
  unfold nl_indent. rewrite Nat.add_1_r. cbn [firstn]. rewrite Nat.sub_succ, Nat.sub_0_r.
  assert (E : firstn n (repeat SPACE n) = repeat SPACE n) by (rewrite <- (repeat_length SPACE n) at 1; apply firstn_all). rewrite E.
  assert (F : Forall blank (repeat SPACE n)) by (clear; induction n; constructor; [cbn; auto|assumption]).
  split; [|split; [reflexivity|]].
  - split; [cbn; auto|]. exists [], (repeat SPACE n). split; [reflexivity|]. split; [constructor; [cbn; auto|constructor]|]. split; [exact F|apply repeat_length].
  - apply utf8_text. apply text_ascii_all. constructor; [reflexivity|]. eapply Forall_impl; [|exact F]. intros c B. cbn in B. lia.
Qed.
Lemma frame_ends s lt p n post : frame s lt p n post -> follow_ok s post ->
  (lt = true -> map_ends n post) /\ map_ends (1 + n) post /\ ended post.
Proof.
  destruct s as [|m|m|sq c]; cbn [frame follow_ok].
  - intros _ [L E]. split; [now left|]. split; [now left|exact E].
  - intros [_ LE] [M E]. split; [intros ->; apply (map_ends_le (S m)); [lia|exact M]|].
    split; [apply (map_ends_le (S m)); [destruct lt; lia|exact M]|exact E].
  - intros F [M E]. assert (LE : (m <= n)%nat) by (destruct F as [(_ & _ & ->)|[_ LE]]; lia).
    split; [intros _; apply (map_ends_le m); [lia|exact M]|]. split; [apply (map_ends_le m); [lia|exact M]|exact E].
  - easy.
Qed.
Lemma last_split {A} (l : list A) : l = [] \/ exists r x, l = r ++ [x].
Proof. destruct l using rev_ind; [now left|right; eauto]. Qed.

Definition last_value {I} (P : tree I -> Prop) (items : list (mitem I)) : Prop := forall l it, items = l ++ [it] -> P (snd it).
Definition last_item {I} (P : tree I -> Prop) (items : list (sitem I)) : Prop := forall l it, items = l ++ [it] -> P (snd it).
Lemma each_shape P (v : tree nat) : each P v -> each P (shape v).
Proof.
  induction v as [i p sc|i p n k items IH|i p n k items IH] using tree_ind'; intros E; inversion E as [|? ? ? ? ? F|? ? ? ? ? F]; subst.
  - now constructor.
  - rewrite shape_map. constructor. apply Forall_map. rewrite Forall_forall in *. intros [[[ii ip] key] v] J. cbn. apply (IH _ J). apply (F _ J).
  - rewrite shape_seq. constructor. apply Forall_map. rewrite Forall_forall in *. intros [[ii ip] v] J. cbn. apply (IH _ J). apply (F _ J).
Qed.

(* A block mapping with its entries, or an empty one in its place. *)
Definition roomy_map (s : slot) (p : bytes) (n : nat) (items : list (mitem nat)) (L : list (bytes * datum)) (post : bytes) : Prop :=
  (items = [] /\ L = [] /\ frame s true p n post) \/
  (fits s (shape (TMap 0%nat p n CBlock items)) (DMap L) post /\ neat (shape (TMap 0%nat p n CBlock items))).
Definition roomy_seq (s : slot) (p : bytes) (n : nat) (items : list (sitem nat)) (L : list datum) (post : bytes) : Prop :=
  (items = [] /\ L = [] /\ frame s false p n post /\ seq_ends n post) \/
  (fits s (shape (TSeq 0%nat p n CBlock items)) (DSeq L) post /\ neat (shape (TSeq 0%nat p n CBlock items))).
Lemma insert_opens s i p n items L post ii key x : roomy_map s p n items L post -> follow_ok s post ->
  plain_key key -> (items <> [] -> hd EOF key <> DASH) -> last_value (each within_line) items -> (s = SRoot -> items = [] -> doc_start key) ->
  opens s (CMapC i p n CBlock items ii (item_gap n items) (RS KBare key key) CHole []) post (SVal n) post x (DMap (L ++ [(key, x)])).
Proof.
  intros RM FO PK ND LV DS.
  assert (FR : frame s true p n post).
  { destruct RM as [(_ & _ & FR)|[F _]]; [exact FR|]. rewrite shape_map in F. apply fits_bmap in F as (L' & _ & FR & _). exact FR. }
  destruct (frame_ends _ _ _ _ _ FR FO) as (_ & ME & EE).
  assert (IS : is_item s = false) by (destruct s; [reflexivity..|contradiction]).
  split; [split; [split; [exact ME|exact EE]|intros _; split; now left]|]. split; [cbn; now rewrite IS|]. split; [discriminate|]. split; [discriminate|].
  split. { intros _ _ v n' p' A. cbn in A. injection A as <- <-. cbn [frame]. split; [apply (under_newline p n); eapply frame_blank; exact FR|lia]. }
  split; [discriminate|].
  intros v' d0' F' NT'. cbn [fits] in F'. exists (DMap (L ++ [(key, d0')])). cbn [plug cpath]. rewrite shape_map, map_mid. cbn [map].
  change (mshape (ii, item_gap n items, RS KBare key key, v')) with (tt, item_gap n items, RS KBare key key, shape v').
  destruct (nl_indent_at n) as (NA & NH & _). destruct RM as [(-> & -> & _)|[F NT]].
  - cbn [map app length item_gap]. split; [|split].
    + apply fits_bmap. exists [(key, d0')]. split; [reflexivity|]. split; [exact FR|]. split; [now left|]. split; [|intros E; now apply DS].
      apply (lm_items n tt [] (RS KBare key key)); [left; auto|exact F'|]. apply lmr_nil. now apply (frame_ends _ _ _ _ _ FR FO).
    + constructor; [|constructor]. constructor; [exact NT'|constructor].
    + apply (rp_map x d0' [] [] key x d0' []). constructor.
  - assert (IG : items <> [] -> item_gap n items = nl_indent (n + 1)) by (destruct items; [congruence|reflexivity]). revert IG. generalize (item_gap n items). intros g IG.
    rewrite shape_map in F, NT. apply fits_bmap in F as (L' & E & _ & LD & M & DS'). injection E as <-. inversion NT as [| | |? ? ? ? NV NL|]; subst.
    destruct (last_split items) as [->|(l & [[[j jp] jk] w] & ->)]; [inversion M|].
    assert (NE : l ++ [(j, jp, jk, w)] <> []) by now destruct l. specialize (ND NE). specialize (LV _ _ eq_refl). cbn [snd] in LV. apply each_shape in LV.
    rewrite (IG NE).
    rewrite map_app in *. cbn [map] in *. change (mshape (j, jp, jk, w)) with (tt, jp, jk, shape w) in *. split; [|split].
    + apply fits_bmap. exists (L ++ [(key, d0')]). split; [reflexivity|]. split; [exact FR|].
      split; [destruct l; exact LD|]. split; [|destruct l; exact DS']. eapply lmap_append; eauto.
    + constructor.
      * apply Forall_app. split; [exact NV|]. constructor; [exact NT'|constructor].
      * destruct l as [|[[[j2 jp2] jk2] w2] l]; cbn [map app tl] in *; [constructor; [exact NH|constructor]|].
        apply Forall_app. split; [exact NL|]. constructor; [exact NH|constructor].
    + assert (LL : length (l ++ [(j, jp, jk, w)]) = length L).
      { destruct (lmap_cut _ _ _ _ _ _ _ _ _ M) as (L1 & d1 & L2 & -> & LE & _ & R & _). inversion R; subst. rewrite map_length in LE. rewrite !app_length. cbn. unfold bytes, byte in *. lia. }
      match goal with |- replaced _ _ [?z] _ _ => replace z with (length L) by (symmetry; exact LL) end. apply (rp_map x d0' [] L key x d0' []). constructor.
Qed.
Lemma push_opens s i p n items L post ii x : roomy_seq s p n items L post -> follow_ok s post ->
  last_item (each within_line) items -> last_item (each visible) items ->
  opens s (CSeqC i p n CBlock items ii (item_gap n items) CHole []) post (SDash (1 + n)) post x (DSeq (L ++ [x])).
Proof.
  intros RM FO LW LV.
  assert (FR : frame s false p n post).
  { destruct RM as [(_ & _ & FR & _)|[F _]]; [exact FR|]. rewrite shape_seq in F. apply fits_bseq in F as (L' & _ & FR & _). exact FR. }
  destruct (frame_ends _ _ _ _ _ FR FO) as (_ & ME & EE).
  assert (IS : is_item s = false) by (destruct s; [reflexivity..|contradiction]).
  destruct (nl_indent_at n) as (NA & NH & NU).
  split; [split; [split; [exact ME|exact EE]|intros _; split; now left]|]. split; [cbn; now rewrite IS|]. split; [discriminate|]. split; [discriminate|].
  split.
  { intros ST _ v n' p' A. cbn in A. injection A as <- <-. cbn [frame settled] in *. left. split; [constructor; [cbn; auto|constructor]|].
    split; [discriminate|]. destruct items as [|it items]; [now elim ST|]. cbn [item_gap]. apply newline_last in NA as [B LE].
    unfold count_indent. rewrite (blank_chars _ B), map_length. unfold bytes, byte in *. cbn [length]. lia. }
  split; [discriminate|].
  intros v' d0' F' NT'. cbn [fits] in F'. exists (DSeq (L ++ [d0'])). cbn [plug cpath]. rewrite shape_seq, map_mid. cbn [map].
  change (sshape (ii, item_gap n items, v')) with (tt, item_gap n items, shape v').
  destruct RM as [(-> & -> & _ & SE)|[F NT]].
  - cbn [map app length item_gap]. split; [|split].
    + apply fits_bseq. exists [d0']. split; [reflexivity|]. split; [exact FR|]. split; [now left|].
      apply (ls_items n tt []); [reflexivity|exact F'|]. apply lsr_nil. exact SE.
    + constructor; [|constructor]. constructor; [exact NT'|constructor].
    + apply (rp_seq x d0' [] [] x d0' []). constructor.
  - assert (IG : items <> [] -> item_gap n items = nl_indent (n + 1)) by (destruct items; [congruence|reflexivity]). revert IG. generalize (item_gap n items). intros g IG.
    rewrite shape_seq in F, NT. apply fits_bseq in F as (L' & E & _ & LD & M). injection E as <-. inversion NT as [| | | |? ? ? ? NV NL]; subst.
    destruct (last_split items) as [->|(l & [[j jp] w] & ->)]; [inversion M|].
    specialize (LW _ _ eq_refl). specialize (LV _ _ eq_refl). cbn [snd] in LW, LV. apply each_shape in LW. apply each_shape in LV.
    assert (NE : l ++ [(j, jp, w)] <> []) by now destruct l. rewrite (IG NE).
    rewrite map_app in *. cbn [map] in *. change (sshape (j, jp, w)) with (tt, jp, shape w) in *. split; [|split].
    + apply fits_bseq. exists (L ++ [d0']). split; [reflexivity|]. split; [exact FR|].
      split; [destruct l; exact LD|]. eapply lseq_append; eauto.
    + constructor.
      * apply Forall_app. split; [exact NV|]. constructor; [exact NT'|constructor].
      * destruct l as [|[[j2 jp2] w2] l]; cbn [map app tl] in *; [constructor; [exact NH|constructor]|].
        apply Forall_app. split; [exact NL|]. constructor; [exact NH|constructor].
    + assert (LL : length (l ++ [(j, jp, w)]) = length L).
      { destruct (lseq_cut _ _ _ _ _ _ _ _ M) as (L1 & d1 & L2 & -> & LE & _ & R & _). inversion R; subst. rewrite map_length in LE. rewrite !app_length. cbn. unfold bytes, byte in *. lia. }
      match goal with |- replaced _ _ [?z] _ _ => replace z with (length L) by (symmetry; exact LL) end. apply (rp_seq x d0' [] L x d0' []). constructor.
Qed.
Lemma insert_opens_flow s i p n tr suf items L post ii key x : fits s (shape (TMap 0%nat p n (CInline tr suf) items)) (DMap L) post ->
  flow_key key -> (items = [] -> suf = []) ->
  opens s (CMapC i p n (CInline tr suf) items ii (item_gap n items) (RS KBare key key) CHole []) post
    (SItem false (if tr then COMMA else RBRACE)) [] x (DMap (L ++ [(key, x)])).
Proof.
  intros F FK SF. rewrite shape_map in F. apply fits_fmap in F as (L' & E & FR & M). injection E as <-.
  split; [split; [left; destruct tr; cbn; auto|discriminate]|]. split; [cbn; now rewrite orb_true_r|]. split; [discriminate|]. split; [discriminate|].
  split; [discriminate|]. split. { intros _ sq y E. injection E as _ <-. destruct tr; cbn; auto. }
  intros v' d0' F' NT'. exists (DMap (L ++ [(key, d0')])). cbn [plug cpath]. rewrite shape_map, map_mid. cbn [map].
  change (mshape (ii, item_gap n items, RS KBare key key, v')) with (tt, item_gap n items, RS KBare key key, shape v').
  destruct (nl_indent_at n) as (NA & _ & _). destruct F' as (C & _ & LI).
  split; [|split; [constructor|]].
  - apply fits_fmap. exists (L ++ [(key, d0')]). split; [reflexivity|]. split; [exact FR|]. apply lfmap_append; auto.
    + intros Z. apply SF. now destruct items.
    + destruct items; [constructor|]. cbn [item_gap]. eapply newline_closed; eauto.
  - assert (LL : length items = length L).
    { transitivity (length (map mshape items)); [symmetry; apply map_length|]. revert M. generalize (map mshape items). clear. intros its M.
      revert L M. induction its as [|[[[j jp] jk] w] its IH]; intros L M; inversion M; subst; cbn; f_equal; [reflexivity|]. now apply IH. }
    match goal with |- replaced _ _ [?z] _ _ => replace z with (length L) by (symmetry; exact LL) end. apply (rp_map x d0' [] L key x d0' []). constructor.
Qed.
Lemma push_opens_flow s i p n tr suf items L post ii x : fits s (shape (TSeq 0%nat p n (CInline tr suf) items)) (DSeq L) post ->
  opens s (CSeqC i p n (CInline tr suf) items ii (item_gap n items) CHole []) post
    (SItem true (hd EOF (closing (fun x => x) RBRACK (CInline tr suf)))) [] x (DSeq (L ++ [x])).
Proof.
  intros F. rewrite shape_seq in F. apply fits_fseq in F as (L' & E & FR & M). injection E as <-.
  assert (CS : closed suf).
  { revert M. generalize (map sshape items). clear. intros its M. revert L M. induction its as [|[[j jp] w] its IH]; intros L M; inversion M; subst; auto. eapply IH; eauto. }
  split; [split; [now apply closing_first|discriminate]|]. split; [cbn [is_item in_flow]; now rewrite orb_true_r|]. split; [discriminate|]. split; [discriminate|].
  split; [discriminate|]. split. { intros FM sq y E. injection E as _ <-. cbn [firm] in FM. destruct FM as [FM|FM]; [now elim FM|exact FM]. }
  intros v' d0' F' NT'. exists (DSeq (L ++ [d0'])). cbn [plug cpath]. rewrite shape_seq, map_mid. cbn [map].
  change (sshape (ii, item_gap n items, v')) with (tt, item_gap n items, shape v').
  destruct (nl_indent_at n) as (NA & _ & NU). destruct F' as (C & U & LI).
  split; [|split; [constructor|]].
  - apply fits_fseq. exists (L ++ [d0']). split; [reflexivity|]. split; [exact FR|]. apply lfseq_append; auto.
    + destruct items; [constructor|]. cbn [item_gap]. eapply newline_closed; eauto.
    + destruct items; [reflexivity|]. exact NU.
  - assert (LL : length items = length L).
    { transitivity (length (map sshape items)); [symmetry; apply map_length|]. revert M. generalize (map sshape items). clear. intros its M.
      revert L M. induction its as [|[[j jp] w] its IH]; intros L M; inversion M; subst; cbn; f_equal; [reflexivity|]. now apply IH. }
    match goal with |- replaced _ _ [?z] _ _ => replace z with (length L) by (symmetry; exact LL) end. apply (rp_seq x d0' [] L x d0' []). constructor.
Qed.

(* ---- taking an item away ---- *)
Lemma lmrest_keys n r L post : lmrest n r L post -> Forall (fun it => wstr (mkey it) = rs_id (mkey it)) r.
Proof.
  revert L. induction r as [|it r IH]; intros L R; [constructor|]. inversion R; subst. constructor; [reflexivity|]. eapply IH; eauto.
Qed.
Lemma follow_ended s post : follow_ok s post -> is_item s = false -> ended post.
Proof. destruct s; cbn; try tauto; discriminate. Qed.
Definition keeps_map (s : slot) (p : bytes) (n : nat) (k : ckind bytes) (items : list (mitem nat)) (L : list (bytes * datum)) (post : bytes) : Prop :=
  fits s (shape (TMap 0%nat p n k items)) (DMap L) post /\ neat (shape (TMap 0%nat p n k items)).
Definition keeps_seq (s : slot) (p : bytes) (n : nat) (k : ckind bytes) (items : list (sitem nat)) (L : list datum) (post : bytes) : Prop :=
  fits s (shape (TSeq 0%nat p n k items)) (DSeq L) post /\ neat (shape (TSeq 0%nat p n k items)).
Lemma tail_drop {A} (P : A -> Prop) l x r : Forall P (tl (l ++ x :: r)) -> Forall P (tl (l ++ r)).
Proof.
  destruct l as [|y l]; cbn [app tl]; [destruct r; cbn; [auto|now inversion 1]|]. intros F. apply Forall_app in F as [F1 F2]. inversion F2; subst.
  apply Forall_app. auto.
Qed.
Lemma all_drop {A} (P : A -> Prop) l x r : Forall P (l ++ x :: r) -> Forall P (l ++ r).
Proof. intros F. apply Forall_app in F as [F1 F2]. inversion F2; subst. apply Forall_app. auto. Qed.
Lemma remove_key_fits s p n l it r L post : keeps_map s p n CBlock (l ++ it :: r) L post -> follow_ok s post -> l ++ r <> [] ->
  (s = SRoot -> l = [] -> forall kt r', r = kt :: r' -> doc_start (rs_id (mkey kt))) ->
  (l <> [] -> forall kt r', r = kt :: r' -> hd EOF (rs_id (mkey kt)) <> DASH) ->
  last_value (each within_line) l -> (r = [] -> last_value (each visible) l) ->
  exists L1 x L2, L = L1 ++ x :: L2 /\ length L1 = length l /\ keeps_map s p n CBlock (l ++ r) (L1 ++ L2) post.
Proof.
  intros [F NT] FO NE DS ND LW LV. rewrite shape_map in F, NT. apply fits_bmap in F as (L' & E & FR & LD & M & DS'). injection E as <-.
  assert (IS : is_item s = false) by (destruct s; [reflexivity..|contradiction]). pose proof (follow_ended _ _ FO IS) as EE.
  inversion NT as [| | |? ? ? ? NV NL|]; subst.
  rewrite map_app in *. cbn [map] in *. unfold keeps_map. rewrite shape_map, map_app.
  assert (N' : neat (TMap tt p n CBlock (map mshape l ++ map mshape r))).
  { constructor; [eapply all_drop; exact NV|eapply tail_drop; exact NL]. }
  assert (NR : Forall (fun it => hd EOF (mpre it) = NEWLINE) (map mshape r)).
  { clear - NL. destruct (map mshape l) as [|y l']; cbn [app tl] in NL; [exact NL|]. apply Forall_app in NL as [_ NL]. now inversion NL. }
  destruct (last_split l) as [->|(l' & [[[j jp] jk] w] & ->)]; cbn [map app] in *.
  - destruct (lmap_drop_first _ _ _ _ _ M) as (x & L2 & -> & M2 & NA & k & FT & PK); [now destruct r|].
    exists [], x, L2. split; [reflexivity|]. split; [reflexivity|]. split; [|exact N'].
    apply fits_bmap. exists L2. split; [reflexivity|]. split; [exact FR|]. split; [now right|]. split; [exact M2|].
    intros Z. destruct r as [|[[[a ap] ak] aw] r]; [congruence|]. specialize (DS Z eq_refl _ _ eq_refl).
    inversion M as [? ? ? ? ? ? ? ? ? SK V R]; subst. apply lmrest_keys in R. inversion R as [|? ? KE _]; subst.
    cbn [map first_text] in *. assert (KE' : wstr ak = rs_id ak) by exact KE. change (doc_start (wstr ak)). rewrite KE'. exact DS.
  - rewrite map_app in *. cbn [map] in *. change (mshape (j, jp, jk, w)) with (tt, jp, jk, shape w) in *. rewrite <- !app_assoc in *. cbn [app] in *.
    specialize (LW _ _ eq_refl). cbn [snd] in LW. apply each_shape in LW.
    destruct (lmap_drop _ _ _ _ _ _ _ _ _ _ M LW NR EE) as (L1 & x & L2 & -> & LE & M2).
    { destruct r as [|[[[a ap] ak] aw] r]; cbn [map].
      - specialize (LV eq_refl _ _ eq_refl). now apply each_shape.
      - destruct (lmap_cut _ _ _ _ _ _ _ _ _ M) as (L1 & d1 & L2 & _ & _ & _ & R & _). apply lmrest_keys in R. inversion R as [|? ? _ R2]; subst. inversion R2 as [|? ? KE _]; subst.
        assert (KE' : wstr ak = rs_id ak) by exact KE. change (hd EOF (wstr ak) <> DASH). rewrite KE'.
        assert (NL' : l' ++ [(j, jp, jk, w)] <> []) by now destruct l'. exact (ND NL' _ _ eq_refl). }
    exists L1, x, L2. split; [reflexivity|]. split; [rewrite app_length; cbn; rewrite map_length in LE; unfold bytes, byte in *; lia|].
    split; [|exact N']. apply fits_bmap. exists (L1 ++ L2). split; [reflexivity|]. split; [exact FR|].
    split; [destruct l'; exact LD|]. split; [exact M2|]. destruct l'; exact DS'.
Qed.
Lemma remove_at_fits s p n l it r L post : keeps_seq s p n CBlock (l ++ it :: r) L post -> follow_ok s post -> l ++ r <> [] ->
  last_item (each within_line) l -> last_item (each visible) l ->
  exists L1 x L2, L = L1 ++ x :: L2 /\ length L1 = length l /\ keeps_seq s p n CBlock (l ++ r) (L1 ++ L2) post.
Proof.
  intros [F NT] FO NE LW LV. rewrite shape_seq in F, NT. apply fits_bseq in F as (L' & E & FR & LD & M). injection E as <-.
  assert (IS : is_item s = false) by (destruct s; [reflexivity..|contradiction]). pose proof (follow_ended _ _ FO IS) as EE.
  inversion NT as [| | | |? ? ? ? NV NL]; subst.
  rewrite map_app in *. cbn [map] in *. unfold keeps_seq. rewrite shape_seq, map_app.
  assert (N' : neat (TSeq tt p n CBlock (map sshape l ++ map sshape r))).
  { constructor; [eapply all_drop; exact NV|eapply tail_drop; exact NL]. }
  assert (NR : Forall (fun it => hd EOF (spre it) = NEWLINE) (map sshape r)).
  { clear - NL. destruct (map sshape l) as [|y l']; cbn [app tl] in NL; [exact NL|]. apply Forall_app in NL as [_ NL]. now inversion NL. }
  destruct (last_split l) as [->|(l' & [[j jp] w] & ->)]; cbn [map app] in *.
  - destruct (lseq_drop_first _ _ _ _ _ M) as (x & L2 & -> & M2 & NA); [now destruct r|].
    exists [], x, L2. split; [reflexivity|]. split; [reflexivity|]. split; [|exact N'].
    apply fits_bseq. exists L2. split; [reflexivity|]. split; [exact FR|]. split; [now right|exact M2].
  - rewrite map_app in *. cbn [map] in *. change (sshape (j, jp, w)) with (tt, jp, shape w) in *. rewrite <- !app_assoc in *. cbn [app] in *.
    specialize (LW _ _ eq_refl). specialize (LV _ _ eq_refl). cbn [snd] in LW, LV. apply each_shape in LW. apply each_shape in LV.
    destruct (lseq_drop _ _ _ _ _ _ _ _ _ M LW LV NR EE) as (L1 & x & L2 & -> & LE & M2).
    exists L1, x, L2. split; [reflexivity|]. split; [rewrite app_length; cbn; rewrite map_length in LE; unfold bytes, byte in *; lia|].
    split; [|exact N']. apply fits_bseq. exists (L1 ++ L2). split; [reflexivity|]. split; [exact FR|].
    split; [destruct l'; exact LD|exact M2].
Qed.
Lemma remove_key_flow s p n tr suf l it r L post : keeps_map s p n (CInline tr suf) (l ++ it :: r) L post -> l ++ r <> [] ->
  exists L1 x L2, L = L1 ++ x :: L2 /\ length L1 = length l /\ keeps_map s p n (CInline tr suf) (l ++ r) (L1 ++ L2) post.
Proof.
  intros [F NT] NE. rewrite shape_map in F. apply fits_fmap in F as (L' & E & FR & M). injection E as <-. rewrite map_app in M. cbn [map] in M.
  destruct (lfmap_drop _ _ _ _ _ _ M) as (L1 & x & L2 & -> & LE & M2).
  { rewrite <- map_app. destruct (l ++ r); [congruence|discriminate]. }
  exists L1, x, L2. split; [reflexivity|]. rewrite map_length in LE. split; [exact LE|]. unfold keeps_map. rewrite shape_map. split; [|constructor].
  apply fits_fmap. exists (L1 ++ L2). rewrite map_app. auto.
Qed.
Lemma remove_at_flow s p n tr suf l it r L post : keeps_seq s p n (CInline tr suf) (l ++ it :: r) L post -> r <> [] ->
  exists L1 x L2, L = L1 ++ x :: L2 /\ length L1 = length l /\ keeps_seq s p n (CInline tr suf) (l ++ r) (L1 ++ L2) post.
Proof.
  intros [F NT] NE. rewrite shape_seq in F. apply fits_fseq in F as (L' & E & FR & M). injection E as <-. rewrite map_app in M. cbn [map] in M.
  destruct (lfseq_drop _ _ _ _ _ _ M) as (L1 & x & L2 & -> & LE & M2); [now destruct r|].
  exists L1, x, L2. split; [reflexivity|]. rewrite map_length in LE. split; [exact LE|]. unfold keeps_seq. rewrite shape_seq. split; [|constructor].
  apply fits_fseq. exists (L1 ++ L2). rewrite map_app. auto.
Qed.
