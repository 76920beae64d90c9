(* Trees that are laid out as the grammar of Grammar.v says: the same grammar, with the pieces
   of a text replaced by the nodes of a tree. What follows a value matters to it only through
   the layout before the next item and that item's first byte, so inside a collection a stand-in
   for the next item is used. *)
From Coq Require Import String.
From Coq Require Import List NArith Bool Arith Lia.
From Verif Require Import Bytes Utf8 Data Parser Render Tree Abs Scan Reads ReadsSound Shown Plain Grammar.
Import ListNotations.
Local Open Scope N_scope.

(* ---- layout ---- *)
Definition stops (r : bytes) : Prop := ~ white (hd EOF r) /\ hd EOF r <> HASH.
Lemma stops_nil : stops [].
Proof. split; cbn; unfold EOF, HASH; intuition discriminate. Qed.
Lemma closed_app u w : closed u -> closed w -> closed (u ++ w).
Proof.
  induction 1 as [|c u C L IH|s u N L IH]; intros W; [exact W|cbn; constructor; auto|].
  rewrite <- !app_assoc. apply cl_comment; auto.
Qed.
Lemma blanks_closed t : Forall blank t -> closed t.
Proof. induction 1 as [|c t C F IH]; constructor; auto. cbn in *. tauto. Qed.
Lemma closed_layout w : closed w -> layout w.
Proof.
  induction 1 as [|c w C L IH|s w N L IH]; [constructor|now constructor|]. now apply (lay_comment s w).
Qed.
Lemma ws_white c r : white c -> fst (ws_scan false (c :: r)) = S (fst (ws_scan false r)).
Proof.
  intros C. cbn [ws_scan]. apply is_ws_white in C. rewrite C.
  assert (c =? HASH = false) as ->. { apply N.eqb_neq. intros ->. discriminate. }
  now destruct (ws_scan false r).
Qed.
Lemma ws_hash r : fst (ws_scan false (HASH :: r)) = S (fst (ws_scan true r)).
Proof. cbn [ws_scan]. rewrite N.eqb_refl. now destruct (ws_scan true r). Qed.
Lemma ws_nl r : fst (ws_scan true (NEWLINE :: r)) = S (fst (ws_scan false r)).
Proof. cbn [ws_scan]. rewrite N.eqb_refl. now destruct (ws_scan false r). Qed.
Lemma ws_comment s r : ~ In NEWLINE s -> fst (ws_scan true (s ++ r)) = (length s + fst (ws_scan true r))%nat.
Proof.
  induction s as [|c s IH]; intros N; [reflexivity|]. cbn [app ws_scan length].
  assert (c =? NEWLINE = false) as ->. { apply N.eqb_neq. intros ->. apply N. now left. }
  specialize (IH (fun I => N (or_intror I))). unfold bytes, byte in *. destruct (ws_scan true (s ++ r)). cbn in *. now rewrite IH.
Qed.
Lemma ws_stop r : stops r -> fst (ws_scan false r) = O.
Proof.
  intros [S1 S2]. destruct r as [|c r]; [reflexivity|]. cbn [hd] in *. cbn [ws_scan]. apply not_white in S1 as ->. apply N.eqb_neq in S2 as ->. reflexivity.
Qed.
Lemma closed_cut w r : closed w -> stops r -> cut w r.
Proof.
  intros C S. unfold cut. induction C as [|c w C L IH|s w N L IH].
  - now apply ws_stop.
  - cbn [app length]. now rewrite ws_white, IH.
  - change (b "#" ++ s ++ [NEWLINE] ++ w) with (HASH :: s ++ [NEWLINE] ++ w). cbn [app length]. rewrite ws_hash, <- app_assoc, ws_comment by exact N.
    cbn [app]. rewrite ws_nl. unfold bytes, byte in *. rewrite IH, app_length. reflexivity.
Qed.
Lemma layout_end w : layout w -> cut w [].
Proof.
  unfold cut. rewrite app_nil_r. induction 1 as [|c w C L IH|s w N L IH|s N].
  - reflexivity.
  - cbn [length]. now rewrite ws_white, IH.
  - cbn [length]. rewrite ws_hash, ws_comment, ws_nl, IH, app_length by exact N. reflexivity.
  - cbn [length]. rewrite ws_hash. rewrite <- (app_nil_r s) at 1. rewrite ws_comment by exact N. cbn. now rewrite Nat.add_0_r.
Qed.

(* ---- what follows ---- *)
Definition keyish (r : bytes) : Prop := exists k q, r = k ++ b ":" ++ q /\ plain_key k /\ breaks q.
(* The same layout, and then texts that start alike. *)
Definition alike (p p' : bytes) : Prop := p = p' \/ exists w r r', p = w ++ r /\ p' = w ++ r' /\ closed w /\
  r <> [] /\ r' <> [] /\ stops r /\ hd EOF r = hd EOF r' /\ (keyish r -> keyish r').
Definition stand_in (key : rstr bytes) : bytes := hd EOF (wstr key) :: b "k:".
Definition next_key (rest : list (mitem unit)) (post : bytes) : bytes :=
  match rest with [] => post | (_, ip, key, _) :: _ => ip ++ stand_in key end.
Definition next_dash (rest : list (sitem unit)) (post : bytes) : bytes :=
  match rest with [] => post | (_, ip, _) :: _ => ip ++ b "-" end.
Definition mlead (items : list (mitem unit)) : bytes := match items with [] => [] | (_, ip, _, _) :: _ => ip end.
Definition slead (items : list (sitem unit)) : bytes := match items with [] => [] | (_, ip, _) :: _ => ip end.
(* Layout before the first item of a block collection; it is there when an earlier item was
   taken away. *)
Definition lead (m : nat) (w : bytes) : Prop := w = [] \/ newline_at m w.

(* ---- flow collections ---- *)
Definition bracket (x : bytes) : Prop := In (hd EOF x) (b "[{").
Inductive lflow : tree unit -> datum -> Prop :=
| lf_seq i p n tr suf items l : lfseq items tr suf l -> lflow (TSeq i p n (CInline tr suf) items) (DSeq l)
| lf_map i p n tr suf items l : lfmap items tr suf l -> lflow (TMap i p n (CInline tr suf) items) (DMap l)
with lfseq : list (sitem unit) -> bool -> bytes -> list datum -> Prop :=
| lfs_end suf : closed suf -> lfseq [] false suf []
| lfs_last i ip v d tr suf : closed ip -> utf8 ip = true -> closed (tpre v) -> utf8 (tpre v) = true -> closed suf ->
    litem v d (hd EOF (closing (fun x => x) RBRACK (CInline tr suf))) -> lfseq [(i, ip, v)] tr suf [d]
| lfs_cons i ip v d it rest tr suf l : closed ip -> utf8 ip = true -> closed (tpre v) -> utf8 (tpre v) = true ->
    litem v d COMMA -> lfseq (it :: rest) tr suf l -> lfseq ((i, ip, v) :: it :: rest) tr suf (d :: l)
with lfmap : list (mitem unit) -> bool -> bytes -> list (bytes * datum) -> Prop :=
| lfm_end suf : closed suf -> lfmap [] false suf []
| lfm_last i ip k v d (tr : bool) suf : closed ip -> flow_key k -> closed (tpre v) -> closed suf -> (tr = false -> suf = []) ->
    litem v d (if tr then COMMA else RBRACE) -> lfmap [(i, ip, RS KBare k k, v)] tr suf [(k, d)]
| lfm_cons i ip k v d it rest tr suf l : closed ip -> flow_key k -> closed (tpre v) ->
    litem v d COMMA -> lfmap (it :: rest) tr suf l -> lfmap ((i, ip, RS KBare k k, v) :: it :: rest) tr suf ((k, d) :: l)
with litem : tree unit -> datum -> byte -> Prop :=
| li_leaf i p sc d c : ~ bracket (wscalar sc) -> flow_item (wscalar sc) d c -> litem (TLeaf i p sc) d c
| li_flow v d c : lflow v d -> litem v d c.

(* ---- block collections ---- *)
Inductive lmap : nat -> list (mitem unit) -> list (bytes * datum) -> bytes -> Prop :=
| lm_items n i ip key v d rest l post : start_key (wstr key) (rs_id key) -> lval n v d (next_key rest post) -> lmrest n rest l post ->
    lmap n ((i, ip, key, v) :: rest) ((rs_id key, d) :: l) post
with lmrest : nat -> list (mitem unit) -> list (bytes * datum) -> bytes -> Prop :=
| lmr_nil n post : map_ends n post -> lmrest n [] [] post
| lmr_cons n i w k v d rest l post : newline_at n w -> plain_key k -> lval n v d (next_key rest post) -> lmrest n rest l post ->
    lmrest n ((i, w, RS KBare k k, v) :: rest) ((k, d) :: l) post
with lval : nat -> tree unit -> datum -> bytes -> Prop :=
| lv_leaf n i p sc d post : gap p -> ~ bracket (wscalar sc) -> leaf (wscalar sc) d post -> lval n (TLeaf i p sc) d post
| lv_flow n v d post : gap (tpre v) -> lflow v d -> breaks post -> lval n v d post
| lv_none n i post : key_follows n post -> lval n (TLeaf i [] (ScNull NEmpty)) DNull post
| lv_map n m i p items l post : newline_at m p -> lead m (mlead items) -> (n < m)%nat -> lmap m items l post ->
    lval n (TMap i p m CBlock items) (DMap l) post
| lv_seq n m i p items l post : newline_at m p -> lead m (slead items) -> (n <= m)%nat -> lseq m items l post ->
    lval n (TSeq i p m CBlock items) (DSeq l) post
with lseq : nat -> list (sitem unit) -> list datum -> bytes -> Prop :=
| ls_items n i ip v d rest l post : utf8 ip = true -> ldash (1 + n) v d (next_dash rest post) -> lsrest n rest l post ->
    lseq n ((i, ip, v) :: rest) (d :: l) post
with lsrest : nat -> list (sitem unit) -> list datum -> bytes -> Prop :=
| lsr_nil n post : seq_ends n post -> lsrest n [] [] post
| lsr_cons n i w v d rest l post : newline_at n w -> utf8 w = true -> ldash (1 + n) v d (next_dash rest post) -> lsrest n rest l post ->
    lsrest n ((i, w, v) :: rest) (d :: l) post
with ldash : nat -> tree unit -> datum -> bytes -> Prop :=
| ld_leaf n i p sc d post : gap p -> ~ bracket (wscalar sc) -> leaf (wscalar sc) d post -> ldash n (TLeaf i p sc) d post
| ld_flow n v d post : gap (tpre v) -> lflow v d -> breaks post -> ldash n v d post
| ld_map n m i p items l post : Forall blank p -> p <> [] -> m = (n + length p)%nat -> lead m (mlead items) ->
    lmap m items l post -> ldash n (TMap i p m CBlock items) (DMap l) post
| ld_seq n m i p items l post : Forall blank p -> p <> [] -> m = (n + length p)%nat -> lead m (slead items) ->
    lseq m items l post -> ldash n (TSeq i p m CBlock items) (DSeq l) post
| ld_map_below n m i p items l post : newline_at m p -> lead m (mlead items) -> (n <= m)%nat -> lmap m items l post ->
    ldash n (TMap i p m CBlock items) (DMap l) post
| ld_seq_below n m i p items l post : newline_at m p -> lead m (slead items) -> (n <= m)%nat -> lseq m items l post ->
    ldash n (TSeq i p m CBlock items) (DSeq l) post.

Definition first_text (items : list (mitem unit)) : bytes := match items with [] => [] | (_, _, key, _) :: _ => wstr key end.
Inductive ldoc : tree unit -> datum -> bytes -> Prop :=
| ldoc_leaf i p sc d suf : closed p -> ~ bracket (wscalar sc) -> leaf (wscalar sc) d suf -> layout suf -> doc_start (wscalar sc) ->
    ldoc (TLeaf i p sc) d suf
| ldoc_flow v d suf : closed (tpre v) -> lflow v d -> breaks suf -> layout suf -> ldoc v d suf
| ldoc_map i p n items l suf : line_start n p -> lead n (mlead items) -> lmap n items l suf -> layout suf -> doc_start (first_text items) ->
    ldoc (TMap i p n CBlock items) (DMap l) suf
| ldoc_seq i p n items l suf : line_start n p -> lead n (slead items) -> lseq n items l suf -> layout suf ->
    ldoc (TSeq i p n CBlock items) (DSeq l) suf.

Scheme lflow_mut := Minimality for lflow Sort Prop
  with lfseq_mut := Minimality for lfseq Sort Prop
  with lfmap_mut := Minimality for lfmap Sort Prop
  with litem_mut := Minimality for litem Sort Prop.
Combined Scheme lflow_all from lflow_mut, lfseq_mut, lfmap_mut, litem_mut.
Scheme lmap_mut := Minimality for lmap Sort Prop
  with lmrest_mut := Minimality for lmrest Sort Prop
  with lval_mut := Minimality for lval Sort Prop
  with lseq_mut := Minimality for lseq Sort Prop
  with lsrest_mut := Minimality for lsrest Sort Prop
  with ldash_mut := Minimality for ldash Sort Prop.
Combined Scheme laid_all from lmap_mut, lmrest_mut, lval_mut, lseq_mut, lsrest_mut, ldash_mut.

(* ---- texts that start alike ---- *)
Lemma newline_closed m w : newline_at m w -> closed w.
Proof. intros (_ & u & t & -> & C & F & _). rewrite app_assoc. apply closed_app; [exact C|now apply blanks_closed]. Qed.
Lemma newline_gap m w : newline_at m w -> gap w.
Proof. intros N. split; [eapply newline_closed; eauto|apply N]. Qed.
Lemma blanks_gap w : Forall blank w -> w <> [] -> gap w.
Proof.
  intros F N. split; [now apply blanks_closed|]. destruct w as [|c w]; [congruence|]. inversion F as [|? ? B _]; subst. cbn in *. tauto.
Qed.
Lemma line_start_closed n w : line_start n w -> closed w.
Proof.
  intros [[F _]|(u & t & -> & C & F & _)]; [now apply blanks_closed|]. rewrite app_assoc. apply closed_app; [exact C|now apply blanks_closed].
Qed.
Lemma gap_hd p w : gap p -> white (hd EOF (p ++ w)).
Proof. intros [_ W]. destruct p as [|c p]; [|exact W]. cbn in W. unfold EOF in W. intuition discriminate. Qed.
Lemma newline_after n p w : gap p -> newline_at n w -> newline_at n (p ++ w).
Proof.
  intros G (_ & u & t & -> & C & F & LE). split; [now apply gap_hd|]. exists (p ++ u), t. split; [now rewrite <- !app_assoc|].
  split; [|auto]. rewrite <- app_assoc. apply closed_app; [apply G|exact C].
Qed.
Lemma start_after n p w : closed p -> newline_at n w -> line_start n (p ++ w).
Proof.
  intros G (_ & u & t & -> & C & F & LE). right. exists (p ++ u), t. split; [now rewrite <- !app_assoc|].
  split; [|auto]. rewrite <- app_assoc. now apply closed_app.
Qed.
Lemma newline_lead m p w : newline_at m p -> lead m w -> newline_at m (p ++ w).
Proof. intros N [->|L]; [now rewrite app_nil_r|]. apply newline_after; [eapply newline_gap; eauto|exact L]. Qed.
Lemma start_lead m p w : line_start m p -> lead m w -> line_start m (p ++ w).
Proof. intros N [->|L]; [now rewrite app_nil_r|]. apply start_after; [eapply line_start_closed; eauto|exact L]. Qed.
Lemma split_unique w r w' r' : closed w -> stops r -> closed w' -> stops r' -> w ++ r = w' ++ r' -> w = w' /\ r = r'.
Proof.
  intros C S C' S' E. pose proof (closed_cut w r C S) as H. pose proof (closed_cut w' r' C' S') as H'. unfold cut in *.
  rewrite E in H. unfold bytes, byte in *. rewrite H in H'. split.
  - apply (f_equal (firstn (length w))) in E. rewrite firstn_app, Nat.sub_diag, firstn_all, app_nil_r in E.
    rewrite H', firstn_app, Nat.sub_diag, firstn_all, app_nil_r in E. exact E.
  - apply (f_equal (skipn (length w))) in E. rewrite skipn_app, Nat.sub_diag, skipn_all in E.
    rewrite H', skipn_app, Nat.sub_diag, skipn_all in E. exact E.
Qed.
Lemma layout_split w r : layout (w ++ r) -> closed w -> stops r -> r = [].
Proof.
  intros L C S. pose proof (layout_end _ L) as H. pose proof (closed_cut w r C S) as H'. unfold cut in *. rewrite app_nil_r in H.
  unfold bytes, byte in *. rewrite H, app_length in H'. destruct r; [reflexivity|]. cbn in H'. lia.
Qed.
Lemma alike_refl p : alike p p. Proof. now left. Qed.
Lemma stops_hd r r' : hd EOF r = hd EOF r' -> stops r -> stops r'.
Proof. unfold stops. now intros ->. Qed.
Lemma alike_map_ends n p p' : alike p p' -> map_ends n p -> map_ends n p'.
Proof.
  intros [<-|(w & r & r' & -> & -> & C & N & N' & S & H & _)]; [auto|]. intros [L|(w2 & m & r2 & E & NA & M & N2 & S1 & S2)].
  - now apply layout_split in L.
  - destruct (split_unique w r w2 r2) as [-> ->]; auto; [now apply (newline_closed m)|split; auto|].
    right. exists w2, m, r'. destruct (stops_hd _ _ H S). repeat (split; auto).
Qed.
Lemma alike_seq_ends n p p' : alike p p' -> seq_ends n p -> seq_ends n p'.
Proof.
  intros [<-|(w & r & r' & -> & -> & C & N & N' & S & H & _)]; [auto|]. intros [L|(w2 & m & r2 & E & NA & M & N2 & S1 & S2)].
  - now apply layout_split in L.
  - destruct (split_unique w r w2 r2) as [-> ->]; auto; [now apply (newline_closed m)|split; auto|].
    right. exists w2, m, r'. destruct (stops_hd _ _ H S). rewrite <- H at 1. split; [reflexivity|]. split; [exact NA|]. split; [exact M|]. auto.
Qed.
Lemma plain_key_stops k r : plain_key k -> stops (k ++ r) /\ k ++ r <> [].
Proof.
  intros ((c & q & -> & W & I & _) & _). split; [|discriminate]. split; cbn; [exact W|]. intros ->. apply I. now left.
Qed.
Lemma alike_key_follows n p p' : alike p p' -> key_follows n p -> key_follows n p'.
Proof.
  intros [<-|(w & r & r' & -> & -> & C & N & N' & S & H & K)]; [auto|]. intros (w2 & m & k & q & E & NA & M & PK & B).
  destruct (plain_key_stops k (b ":" ++ q) PK) as [SK NK]. destruct (split_unique w r w2 (k ++ b ":" ++ q)) as [-> ->]; auto; [now apply (newline_closed m)|].
  destruct K as (k' & q' & -> & PK' & B'); [exists k, q; auto|]. exists w2, m, k', q'. auto.
Qed.
Lemma breaks_app w r r' : r <> [] -> stops r -> breaks (w ++ r) -> breaks (w ++ r').
Proof.
  intros N S [B|B]; [apply app_eq_nil in B as [_ B]; congruence|]. destruct w as [|c w]; [now destruct S|]. right. exact B.
Qed.
Lemma alike_breaks p p' : alike p p' -> breaks p -> breaks p'.
Proof. intros [<-|(w & r & r' & -> & -> & C & N & N' & S & H & K)]; [auto|]. now apply breaks_app. Qed.
Lemma alike_ended p p' : alike p p' -> ended p -> ended p'.
Proof.
  intros [<-|(w & r & r' & -> & -> & C & N & N' & S & H & K)]; [auto|]. intros [B|B]; [apply app_eq_nil in B as [_ B]; congruence|].
  destruct w as [|c w]; [|right; exact B]. destruct S as [S _]. exfalso. apply S. cbn [app] in B. rewrite B. cbn. auto.
Qed.
Lemma newlines_closed k : closed (newlines k).
Proof. induction k as [|k IH]; [constructor|]. cbn. constructor; [cbn; auto|exact IH]. Qed.
Lemma alike_block x v p p' : alike p p' -> block_scalar x v p -> block_scalar x v p'.
Proof.
  intros [<-|(w & r & r' & -> & -> & C & N & N' & S & H & K)]; [auto|]. intros B.
  remember (w ++ r) as p eqn:E. destruct B as [fo c m w0 y u k t post NA M L K0 B LT ST|c m w0 y u NA L].
  - assert (SP : stops post) by (destruct ST as [->|ST]; [apply stops_nil|exact ST]).
    destruct (split_unique w r (newlines k ++ t) post) as [-> ->]; auto.
    + apply closed_app; [apply newlines_closed|now apply blanks_closed].
    + rewrite <- app_assoc. now symmetry.
    + rewrite <- app_assoc. apply bs_block with (m := m); auto. right. apply (stops_hd _ _ H S).
  - symmetry in E. apply app_eq_nil in E as [_ E]. congruence.
Qed.
Lemma alike_leaf x d p p' : alike p p' -> leaf x d p -> leaf x d p'.
Proof.
  intros A L. revert A. destruct L as [y e q P D E|y v q Q B|y e q F B|y v q B]; intros A.
  - apply lf_plain; [exact P|exact D|exact (alike_ended _ _ A E)].
  - apply lf_quoted; [exact Q|exact (alike_breaks _ _ A B)].
  - apply lf_flow; [exact F|exact (alike_breaks _ _ A B)].
  - apply lf_block. exact (alike_block _ _ _ _ A B).
Qed.
Lemma stand_in_key key : plain_key (wstr key) -> keyish (stand_in key).
Proof.
  intros ((c & q & E & W & I & D) & NC & NN & NZ). unfold stand_in. rewrite E in *. cbn [hd]. exists [c; 107], [].
  split; [reflexivity|]. split; [|now left]. split; [|split; [|split]].
  - exists c, [107]. split; [reflexivity|]. split; [exact W|]. split; [exact I|]. intros _. exists 107, []. split; [reflexivity|]. cbn. unfold white. cbn. intuition discriminate.
  - intros [J|[J|[]]]; [apply NC; subst; now left|discriminate].
  - intros [J|[J|[]]]; [apply NN; subst; now left|discriminate].
  - intros [J|[J|[]]]; [apply NZ; subst; now left|discriminate].
Qed.
Lemma alike_key m w key r : newline_at m w -> plain_key (wstr key) -> breaks r -> alike (w ++ wstr key ++ b ":" ++ r) (w ++ stand_in key) /\
  alike (w ++ stand_in key) (w ++ wstr key ++ b ":" ++ r).
Proof.
  intros NA K B. pose proof (newline_closed _ _ NA) as C. destruct (plain_key_stops _ (b ":" ++ r) K) as [S N]. pose proof (stand_in_key _ K) as SK.
  assert (H : hd EOF (wstr key ++ b ":" ++ r) = hd EOF (stand_in key)). { destruct K as ((c & q & E & _) & _). unfold stand_in. now rewrite E. }
  assert (SS : stops (stand_in key)) by (eapply stops_hd; eauto).
  split; right; do 3 eexists; (split; [reflexivity|]); (split; [reflexivity|]); (split; [exact C|]).
  - repeat (split; [first [exact N|exact S|exact H|discriminate]|]). intros _. exact SK.
  - repeat (split; [first [exact N|exact SS|now symmetry|discriminate]|]). intros _. exists (wstr key), r. auto.
Qed.
Lemma not_keyish_dash r : breaks r -> ~ keyish (b "-" ++ r).
Proof.
  intros B (k & q & E & ((c & k' & -> & W & I & D) & NC & _) & _). cbn in E. injection E as <- E. destruct (D eq_refl) as (c' & k2 & -> & W').
  cbn in E. subst r. destruct B as [B|B]; [discriminate|]. now apply W'.
Qed.
Lemma alike_dash m w r : newline_at m w -> breaks r -> alike (w ++ b "-" ++ r) (w ++ b "-") /\ alike (w ++ b "-") (w ++ b "-" ++ r).
Proof.
  intros NA B. pose proof (newline_closed _ _ NA) as C. assert (S : forall z, stops (b "-" ++ z)) by (intros z; split; cbn; intuition discriminate).
  split; right; do 3 eexists; (split; [reflexivity|]); (split; [reflexivity|]); (split; [exact C|]).
  - repeat (split; [first [apply S|reflexivity|discriminate]|]). intros K. now apply not_keyish_dash in K.
  - split; [discriminate|]. split; [discriminate|]. split; [apply (S [])|]. split; [reflexivity|]. intros K. apply (not_keyish_dash []) in K; [easy|now left].
Qed.

(* A leaf or a flow collection. *)
Definition lleaf (v : tree unit) (d : datum) (post : bytes) : Prop :=
  (exists i p sc, v = TLeaf i p sc /\ ~ bracket (wscalar sc) /\ leaf (wscalar sc) d post) \/ (lflow v d /\ breaks post).
Lemma lleaf_alike v d p p' : alike p p' -> lleaf v d p -> lleaf v d p'.
Proof.
  intros A [(i & q & sc & -> & N & L)|[F B]].
  - left. exists i, q, sc. split; [reflexivity|]. split; [exact N|]. now apply (alike_leaf _ _ p).
  - right. split; [exact F|]. now apply (alike_breaks p).
Qed.
Lemma lleaf_val n v d post : lleaf v d post -> gap (tpre v) -> lval n v d post.
Proof. intros [(i & q & sc & -> & N & L)|[F B]] G; [now apply lv_leaf|now apply lv_flow]. Qed.
Lemma lleaf_dash n v d post : lleaf v d post -> gap (tpre v) -> ldash n v d post.
Proof. intros [(i & q & sc & -> & N & L)|[F B]] G; [now apply ld_leaf|now apply ld_flow]. Qed.
