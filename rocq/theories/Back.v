(* Sessions keep the document laid out. *)
From Coq Require Import String.
From Coq Require Import List NArith Bool Arith Lia.
From Verif Require Import Bytes Utf8 Data Parser Render Tree Abs Refine Utf8Props Scan Num Api Ctx Edit Built Reads ReadsSound Shown Plain Grammar Laid GrammarSound LaidText Swap Repost Grow Open Tidy Session.
Import ListNotations.
Local Open Scope N_scope.

(* ---- contexts ---- *)
Lemma plug_inj c : forall c' v v', plug c v = plug c' v' -> cpath c = cpath c' -> c = c' /\ v = v'.
Proof.
  induction c as [|i p n k l ii ip key c IH r|i p n k l ii ip c IH r]; intros [|i' p' n' k' l' ii' ip' key' c' r'|i' p' n' k' l' ii' ip' c' r'] v v' E P;
    try discriminate; cbn [plug cpath] in *; [auto| |].
  - injection E as -> -> -> -> E. injection P as LE P. apply mid_inj in E; [|exact LE]. destruct E as (-> & E & ->).
    injection E as -> -> -> E. destruct (IH _ _ _ E P) as [-> ->]. auto.
  - injection E as -> -> -> -> E. injection P as LE P. apply mid_inj in E; [|exact LE]. destruct E as (-> & E & ->).
    injection E as -> -> E. destruct (IH _ _ _ E P) as [-> ->]. auto.
Qed.
Lemma ccomp_assoc a d e : ccomp (ccomp a d) e = ccomp a (ccomp d e).
Proof. induction a as [|i p n k l ii ip key c IH r|i p n k l ii ip c IH r]; cbn; congruence. Qed.
(* The innermost collection around the hole. *)
Lemma ctx_last c q j : cpath c = q ++ [j] -> exists c1 c2, c = ccomp c1 c2 /\ cpath c1 = q /\ cpath c2 = [j] /\
  ((exists i p n k l ii ip key r, c2 = CMapC i p n k l ii ip key CHole r /\ length l = j) \/
   exists i p n k l ii ip r, c2 = CSeqC i p n k l ii ip CHole r /\ length l = j).
Proof.
  revert q. induction c as [|i p n k l ii ip key c IH r|i p n k l ii ip c IH r]; intros q E; cbn [cpath] in E.
  - destruct q; discriminate.
  - destruct q as [|x q]; cbn [app] in E.
    + injection E as E P. exists CHole, (CMapC i p n k l ii ip key c r). cbn [ccomp cpath]. split; [reflexivity|]. split; [reflexivity|].
      split; [congruence|]. left. destruct c; [|discriminate|discriminate]. repeat eexists. exact E.
    + injection E as E P. destruct (IH _ P) as (c1 & c2 & -> & P1 & P2 & Q). exists (CMapC i p n k l ii ip key c1 r), c2. cbn [ccomp cpath].
      split; [reflexivity|]. split; [congruence|]. auto.
  - destruct q as [|x q]; cbn [app] in E.
    + injection E as E P. exists CHole, (CSeqC i p n k l ii ip c r). cbn [ccomp cpath]. split; [reflexivity|]. split; [reflexivity|].
      split; [congruence|]. right. destruct c; [|discriminate|discriminate]. repeat eexists. exact E.
    + injection E as E P. destruct (IH _ P) as (c1 & c2 & -> & P1 & P2 & Q). exists (CSeqC i p n k l ii ip c1 r), c2. cbn [ccomp cpath].
      split; [reflexivity|]. split; [congruence|]. auto.
Qed.
Lemma flow_split c : in_flow c = true -> exists c1 c2, c = ccomp c1 c2 /\ c2 <> CHole /\ forall v, In (hd EOF (wtree (plug c2 v))) (b "[{").
Proof.
  induction c as [|i p n k l ii ip key c IH r|i p n k l ii ip c IH r]; cbn [in_flow]; [discriminate| |].
  - destruct k as [|tr suf].
    + intros F. destruct (IH F) as (c1 & c2 & -> & NE & H). exists (CMapC i p n CBlock l ii ip key c1 r), c2. auto.
    + intros _. exists CHole, (CMapC i p n (CInline tr suf) l ii ip key c r). split; [reflexivity|]. split; [discriminate|]. intros v.
      cbn [plug]. rewrite wtree_map. cbn. auto.
  - destruct k as [|tr suf].
    + intros F. destruct (IH F) as (c1 & c2 & -> & NE & H). exists (CSeqC i p n CBlock l ii ip c1 r), c2. auto.
    + intros _. exists CHole, (CSeqC i p n (CInline tr suf) l ii ip c r). split; [reflexivity|]. split; [discriminate|]. intros v.
      cbn [plug]. rewrite wtree_seq. cbn. auto.
Qed.
Lemma each_sub (P : scalar bytes -> Prop) (v : tree nat) : (forall i p sc, sub v (TLeaf i p sc) -> P sc) -> each P v.
Proof.
  induction v as [i p sc|i p n k items IH|i p n k items IH] using tree_ind'; intros H.
  - constructor. eapply H. constructor.
  - constructor. rewrite Forall_forall in *. intros [[[ii ip] key] w] J. apply (IH _ J). intros i' p' sc S. apply (H i' p').
    eapply sub_trans; [|exact S]. eapply sub_map; [constructor|exact J].
  - constructor. rewrite Forall_forall in *. intros [[ii ip] w] J. apply (IH _ J). intros i' p' sc S. apply (H i' p').
    eapply sub_trans; [|exact S]. eapply sub_seq; [constructor|exact J].
Qed.
Lemma wtree_shape (t : tree nat) : wtree (shape t) = wtree t.
Proof.
  induction t as [i p s|i p n k items IH|i p n k items IH] using tree_ind'; [reflexivity| |].
  - cbn. f_equal. f_equal. f_equal. rewrite map_map. apply map_ext_in. intros [[[ii ip] key] v] J. rewrite Forall_forall in IH. specialize (IH _ J). cbn in *. rewrite IH. now destruct v.
  - cbn. f_equal. f_equal. f_equal. rewrite map_map. apply map_ext_in. intros [[ii ip] v] J. rewrite Forall_forall in IH. specialize (IH _ J). cbn in *. rewrite IH. now destruct v.
Qed.
Lemma tpre_shape (t : tree nat) : tpre (shape t) = tpre t. Proof. now destruct t. Qed.
Lemma wdoc_shape (t : tree nat) suf : wdoc (shape t) suf = wdoc t suf.
Proof. unfold wdoc. now rewrite wtree_shape, tpre_shape. Qed.

Lemma firm_comp' c c2 : c2 <> CHole -> firm c2 -> firm (ccomp c c2).
Proof.
  intros NE F. induction c as [|i p n k l ii ip key c IH r|i p n k l ii ip c IH r]; cbn [ccomp]; [exact F| |];
    cbn [firm]; destruct (ccomp c c2) eqn:E; auto; apply ccomp_hole in E as [_ E]; contradiction.
Qed.
Lemma closed_last w : closed w -> w <> [] -> white (last w 0).
Proof.
  induction 1 as [|c w C L IH|s w N L IH]; intros NE; [congruence| |].
  - destruct w as [|c' w]; [exact C|]. apply IH. discriminate.
  - destruct w as [|c' w].
    + rewrite app_nil_r, app_assoc, last_last. cbn. tauto.
    + rewrite !app_assoc. rewrite (last_app _ (c' :: w)) by discriminate. apply IH. discriminate.
Qed.
Lemma replaced_same x p D D' : replaced x x p D D' -> D' = D.
Proof. induction 1 as [|p l k u w r H IH|p l u w r H IH]; congruence. Qed.
Lemma opens_hole s post d : follow_ok s post -> opens s CHole post s post d d.
Proof.
  intros F. split; [split; [exact F|intros _; split; now left]|]. split; [cbn; now rewrite orb_false_r|]. split; [auto|]. split; [auto|]. split; [intros []|]. split; [intros []|].
  intros v' d' FV N. exists d'. split; [exact FV|]. split; [exact N|]. constructor.
Qed.
(* A value that is still to be written. *)
Definition vacant (s : slot) (post : bytes) (v : tree nat) : Prop :=
  match v with
  | TLeaf _ p _ => pre_ok s p
  | TMap _ p n CBlock [] => frame s true p n post
  | TSeq _ p n CBlock [] => frame s false p n post /\ seq_ends n post
  | _ => False
  end.
Lemma vacant_pre s post v : vacant s post v -> pre_ok s (tpre v).
Proof.
  destruct v as [i p sc|i p n [|] [|]|i p n [|] [|]]; cbn; try tauto; [apply frame_pre|]. intros [F _]. revert F. apply frame_pre.
Qed.

Lemma one_number : number_text (b "1") Unsigned64.
Proof. left. exists false. split; [|reflexivity]. constructor; [|discriminate]. repeat constructor; cbn; unfold digit; lia. Qed.
Lemma one_allowed s : allowed s (b "1") (DNum (b "1") Unsigned64).
Proof.
  assert (P : portable (b "1") (DNum (b "1") Unsigned64)) by (left; exists Unsigned64; split; [exact one_number|reflexivity]).
  destruct s; cbn [allowed]; try (now apply portable_written); [|now left]. split; [now apply portable_written|]. split; intros [r E]; discriminate.
Qed.
Lemma space_gap : gap [SPACE] /\ utf8 [SPACE] = true.
Proof. split; [|reflexivity]. split; [constructor; [|constructor]|]; cbn; tauto. Qed.
Lemma gap_pre s p : gap p -> utf8 p = true -> pre_ok s p.
Proof. intros G U. destruct s; cbn [pre_ok]; auto; [apply G|]. split; [apply G|auto]. Qed.
Definition one (p : bytes) : tree nat := TLeaf 0%nat p (ScNum (b "1") Unsigned64).
Lemma one_fits s post : follow_ok s post -> fits s (shape (one [SPACE])) (DNum (b "1") Unsigned64) post /\ neat (shape (one [SPACE])).
Proof. intros F. split; [|constructor]. apply leaf_fits; [now apply gap_pre; apply space_gap|exact F|apply one_allowed]. Qed.
Lemma opens_old s c post s0 post0 d0 D u d' D' : opens s c post s0 post0 d0 D -> replaced u d' (cpath c) D D' -> u = d0.
Proof.
  intros ((FO & _) & _ & _ & _ & _ & _ & K) R. destruct (one_fits s0 post0 FO) as [F N]. destruct (K _ _ F N) as (D2 & _ & _ & R2).
  destruct (replaced_any _ _ _ _ _ R (DNum (b "1") Unsigned64)) as [D3 R3]. now destruct (replaced_fun _ _ _ _ _ R3 _ _ R2).
Qed.
Lemma opens_move s c post s0 post0 d0 D u d' D' : opens s c post s0 post0 d0 D -> replaced u d' (cpath c) D D' -> opens s c post s0 post0 d' D'.
Proof. intros O R. pose proof (opens_old _ _ _ _ _ _ _ _ _ _ O R) as ->. eapply opens_shift; eauto. Qed.
Lemma sim_move c v v' D u d' D' : sim (see (plug c v)) D -> replaced u d' (cpath c) D D' -> sim (see v') d' -> sim (see (plug c v')) D'.
Proof. intros S R S'. destruct (sim_replaced _ _ _ _ _ (see_replaced c v v') _ _ _ _ S R) as [_ H]. auto. Qed.
Lemma sim_old c v D u d' D' : sim (see (plug c v)) D -> replaced u d' (cpath c) D D' -> sim (see v) u.
Proof. intros S R. now destruct (sim_replaced _ _ _ _ _ (see_replaced c v v) _ _ _ _ S R). Qed.
Lemma newline_white n w : newline_at n w -> white (hd EOF w) /\ w <> [].
Proof. intros (W & u & t & -> & _). split; [exact W|]. destruct u; discriminate. Qed.
Lemma white_bracket c : white c -> ~ In c (b "[{").
Proof. unfold white. cbn. intros H. decompose [or] H; subst; intuition discriminate. Qed.
Lemma key_bracket x k : start_key x k -> ~ bracket x /\ x <> [].
Proof.
  intros [[[(c & r & -> & _ & I & _) _] _]|Q].
  - split; [|discriminate]. unfold bracket. cbn in *. intros B. apply I. intuition.
  - split; [now apply (quoted_bracket _ k)|]. destruct (quoted_hd _ _ Q) as (c & r & -> & _). discriminate.
Qed.
Lemma head_app (a c : bytes) : a <> [] -> hd EOF (a ++ c) = hd EOF a. Proof. destruct a; [congruence|reflexivity]. Qed.
Lemma block_map_head s (i : nat) p n items d post : fits s (shape (TMap i p n CBlock items)) d post -> ~ In (hd EOF (wtree (TMap i p n CBlock items))) (b "[{").
Proof.
  rewrite <- wtree_shape, shape_map. intros F. apply fits_bmap in F as (L & _ & _ & LD & M & _). rewrite wtree_map. cbn [open_if app].
  revert LD M. destruct items as [|[[[ii ip] key] v] r]; cbn [map mlead mshape]; intros LD M; [inversion M|].
  inversion M as [? ? ? ? ? ? ? ? ? K]; subst. destruct (key_bracket _ _ K) as [KB KN]. cbn [sep map wmitem]. rewrite <- !app_assoc.
  destruct LD as [->|NA].
  - cbn [app]. rewrite head_app by exact KN. exact KB.
  - apply newline_white in NA as [W NE]. rewrite head_app by exact NE. now apply white_bracket.
Qed.
Lemma block_seq_head s (i : nat) p n items d post : fits s (shape (TSeq i p n CBlock items)) d post -> ~ In (hd EOF (wtree (TSeq i p n CBlock items))) (b "[{").
Proof.
  rewrite <- wtree_shape, shape_seq. intros F. apply fits_bseq in F as (L & _ & _ & LD & M). rewrite wtree_seq. cbn [open_if app].
  revert LD M. destruct items as [|[[ii ip] v] r]; cbn [map slead sshape]; intros LD M; [inversion M|].
  inversion M as [? ? ? ? ? ? ? ? U]; subst. cbn [sep map wsitem dash_if]. rewrite <- !app_assoc. rewrite lossy_utf8 by exact U.
  destruct LD as [->|NA].
  - cbn. intuition discriminate.
  - apply newline_white in NA as [W NE]. rewrite head_app by exact NE. now apply white_bracket.
Qed.

Lemma effect_insert c v e r v' key : effect c v e r v' -> insert_key e = Some key -> is_map v = true ->
  exists s sc h, r = Handle h /\ ascalar v e = Some sc /\ ikey e = Some (key, s) /\ inserted key s sc v h v'.
Proof.
  intros EF IK IM. destruct EF as [e sc A IE PE|IM'|n p IM' AM|IS|n p IS AM|e sc key' s h v' A IE IN|key' b' v' RK|i p n k items E|e sc s h v' A PE PU|x b' v' RA|i p n k items E|e IM' H|e IS H].
  all: try discriminate IK.
  - exfalso. destruct e; discriminate.
  - exists s, sc, h. assert (key' = key) as -> by (destruct e; cbn in *; congruence). auto.
  - exfalso. destruct e; discriminate.
  - congruence.
  - exfalso. destruct H as [H|[->|[x ->]]]; [|discriminate IK..]. apply H. destruct e; cbn in *; congruence.
Qed.
Lemma effect_push c v e r v' : effect c v e r v' -> push_call e -> is_seq v = true ->
  exists s sc h, r = Handle h /\ ascalar v e = Some sc /\ psep e = Some s /\ pushed s sc v h v'.
Proof.
  intros EF PC IM. destruct EF as [e sc A IE PE|IM'|n p IM' AM|IS|n p IS AM|e sc key' s h v' A IE IN|key' b' v' RK|i p n k items E|e sc s h v' A PE PU|x b' v' RA|i p n k items E|e IM' H|e IS H].
  all: try (now elim PC).
  - exfalso. destruct e; try (now elim PC); discriminate.
  - exfalso. destruct e; try (now elim PC); discriminate.
  - exists s, sc, h. auto.
  - exfalso. destruct H as [H|[->|[x ->]]]; [|now elim PC..]. apply H. destruct e; cbn in *; try reflexivity; contradiction.
  - congruence.
Qed.
Lemma fills_key hash doc doc' p h e d o key s : fills hash doc doc' p h e d o -> ikey e = Some (key, s) -> sep_ok s.
Proof. intros [(_ & M & _)|[(_ & U & _)|(_ & x & v & post & M & _)]] E; [destruct M|destruct U|destruct M]; try discriminate E; injection E as <- <-; cbn; auto. Qed.
Lemma fills_push hash doc doc' p h e d o s : fills hash doc doc' p h e d o -> psep e = Some s -> sep_ok s.
Proof. intros [(_ & M & _)|[(_ & U & _)|(_ & x & v & post & M & _)]] E; [destruct M|destruct U|destruct M]; try discriminate E; injection E as <-; cbn; auto. Qed.
(* ---- block scalars ---- *)
Lemma near_block x v p p' : near p p' -> block_scalar x v p -> block_scalar x v p'.
Proof.
  intros [<-|(w & r & r' & -> & -> & C & N & N' & S & H)]; [auto|]. intros B.
  remember (w ++ r) as p eqn:E. destruct B as [fo c m w0 y u k t post NA M L K0 B LT ST|c m w0 y u NA L].
  - assert (SP : stops post) by (destruct ST as [->|ST]; [apply stops_nil|exact ST]).
    destruct (split_unique w r (newlines k ++ t) post) as [-> ->]; auto.
    + apply closed_app; [apply newlines_closed|now apply blanks_closed].
    + rewrite <- app_assoc. now symmetry.
    + rewrite <- app_assoc. apply bs_block with (m := m); auto. right. apply (stops_hd _ _ H S).
  - symmetry in E. apply app_eq_nil in E as [_ E]. congruence.
Qed.
Lemma block_first x v post : block_scalar x v post -> exists c r, x = c :: r /\ (c = PIPE \/ c = GT).
Proof. intros [[|] c m w0 y u k t po NA M L K0 B LT ST|c m w0 y u NA L]; cbn; eauto. Qed.
Lemma block_fits s p post i sc v : is_item s = false -> pre_ok s p -> follow_ok s post -> block_scalar (wscalar sc) v post -> fits s (TLeaf i p sc) (DStr v) post.
Proof.
  intros IS P FO B. destruct (block_first _ _ _ B) as (c & r & E & H).
  assert (NB : ~ bracket (wscalar sc)) by (rewrite E; unfold bracket; cbn; destruct H as [->| ->]; intuition discriminate).
  destruct s as [|n|n|sq y]; cbn [fits pre_ok follow_ok] in *; [| | |discriminate].
  - apply ldoc_leaf; [exact P|exact NB|now apply lf_block|apply FO|]. rewrite E. split; intros [z Z]; cbn in Z; injection Z as Z _; destruct H; subst; discriminate.
  - apply lv_leaf; [exact P|exact NB|now apply lf_block].
  - apply ld_leaf; [exact P|exact NB|now apply lf_block].
Qed.
Lemma two_words (pre l x y : bytes) : pre ++ b "~" ++ x = l ++ b "~" ++ y -> pre ++ b "true" ++ x = l ++ b "true" ++ y -> x = y.
Proof.
  revert l. induction pre as [|c pre IH]; intros [|c' l] E1 E2; cbn in E1, E2.
  - congruence.
  - injection E1 as <- _. injection E2 as E2 _. discriminate.
  - injection E1 as -> _. injection E2 as E2 _. discriminate.
  - injection E1 as _ E1. injection E2 as _ E2. eauto.
Qed.
Lemma content_joined j parts : block_content j parts = joined [j] parts.
Proof. induction parts as [|p [|q ps] IH]; [reflexivity|reflexivity|]. cbn [block_content joined] in *. now rewrite IH. Qed.
Lemma block_see n q ps k i p : see (TLeaf i p (ablock_at n q ps k) : tree nat) = DStr (lines_value ps k).
Proof. destruct k as [c|c]; cbn; rewrite content_joined; now destruct c. Qed.
Lemma first_one {A} (P : A -> Prop) l : forall l' x x' r r', Forall P l -> Forall P l' -> ~ P x -> ~ P x' -> l ++ x :: r = l' ++ x' :: r' -> l = l' /\ x = x' /\ r = r'.
Proof.
  induction l as [|a l IH]; intros [|a' l'] x x' r r' F F' N N' E; cbn in E.
  - injection E as -> ->. auto.
  - injection E as -> ->. inversion F'; subst. contradiction.
  - injection E as -> E. inversion F; subst. contradiction.
  - injection E as -> E. inversion F; inversion F'; subst. destruct (IH l' x x' r r') as (-> & -> & ->); auto.
Qed.
Lemma other_first l key : ~ In key (map fst (map mview l)) -> Forall (other_key key) l.
Proof.
  intros N. rewrite Forall_forall. intros [[[ii ip] kk] v] J. unfold other_key. cbn. intros E. apply N. rewrite map_map. apply in_map_iff. exists (ii, ip, kk, v). auto.
Qed.
Lemma tany_map v i : tany v = AMapping i -> is_map v = true. Proof. destruct v as [? ? []|? ? ? ? ?|? ? ? ? ?]; cbn; try discriminate; reflexivity. Qed.
Lemma tany_seq v i : tany v = ASequence i -> is_seq v = true. Proof. destruct v as [? ? []|? ? ? ? ?|? ? ? ? ?]; cbn; try discriminate; reflexivity. Qed.

Lemma lfseq_closed its tr sf L : lfseq its tr sf L -> closed sf.
Proof. induction 1; auto. Qed.
Lemma lfmap_closed its tr sf L : lfmap its tr sf L -> closed sf.
Proof. induction 1; auto. Qed.
Lemma end_closing (i : nat) p n tr sf items : closed sf -> no_space_at_end (wtree (TSeq i p n (CInline tr sf) items)) ->
  In (hd EOF (closing (fun x => x) RBRACK (CInline tr sf))) (b ",]}").
Proof.
  intros CS (z & e & EZ & NW). cbn [closing]. destruct tr; [now left|]. destruct sf as [|c0 sf]; [right; now left|]. exfalso.
  rewrite wtree_seq in EZ. apply NW. replace e with (last (c0 :: sf) 0); [now apply closed_last|].
  assert (EZ' : exists A, (A ++ (c0 :: sf)) ++ [RBRACK] = (z ++ [e]) ++ [RBRACK]).
  { rewrite app_assoc in EZ. match type of EZ with ?a ++ _ = _ => exists a end. rewrite <- (app_assoc z). cbn [app]. rewrite <- EZ. cbn [closing app]. now rewrite <- app_assoc. }
  destruct EZ' as [A EZ']. apply app_inj_tail in EZ' as [EZ' _]. apply (f_equal (fun x => last x 0)) in EZ'. rewrite last_last, last_app in EZ' by discriminate. exact EZ'.
Qed.
Lemma lfseq_drop_last l it tr suf L : lfseq (l ++ [it]) tr suf L -> l <> [] -> In (hd EOF (closing (fun x => x) RBRACK (CInline tr suf))) (b ",]}") ->
  exists L1 x, L = L1 ++ [x] /\ length L1 = length l /\ lfseq l tr suf L1.
Proof.
  intros F NE H. revert L F. induction l as [|[[j jp] w] l IH]; intros L F; [congruence|]. cbn [app] in F.
  revert F. destruct (l ++ [it]) as [|jt rest] eqn:X; intros F; [now destruct l|].
  inversion F as [| |? ? ? e ? ? ? ? l' CJ UJ CW UW LI R]; subst. destruct l as [|jt' l].
  - injection X as <- <-. pose proof (lfseq_closed _ _ _ _ R) as CS. inversion R as [|? ? ? e' ? ? ? ? ? ? ? ?|]; subst. exists [e], e'. split; [reflexivity|]. split; [reflexivity|].
    apply lfs_last; auto. apply (litem_next _ _ _ _ LI H).
  - destruct (IH ltac:(discriminate) _ R) as (L1 & x & -> & LE & R'). exists (e :: L1), x. split; [reflexivity|]. split; [cbn; f_equal; exact LE|].
    now apply lfs_cons.
Qed.
Lemma closed_brace w : closed (COMMA :: w) -> False.
Proof. intros C. inversion C as [|? ? W|]; subst. cbn in W. unfold COMMA in W. intuition discriminate. Qed.
Lemma flow_empty_map (i : nat) p n tr sf d : flow (wtree (TMap i p n (CInline tr sf) [])) (DMap d) -> d = [] -> tr = false /\ closed sf.
Proof.
  rewrite wtree_map. cbn [open_if map sep app closing]. intros F ->. match type of F with flow ?y _ => remember y as t eqn:E end. remember (DMap []) as dd eqn:ED. destruct F as [x l FM|x l FM]; [discriminate|]. injection ED as ->. cbn in E. injection E as E.
  remember [] as e eqn:EE in FM. destruct FM as [w C|? ? ? ? ? ? ? ? ?|? ? ? ? ? ? ? ? ? ? ? ?]; [|discriminate|discriminate]. rename E into E'. symmetry in E'.
  destruct tr; cbn [app] in E'.
  - destruct w as [|c w]; [discriminate E'|]. injection E' as EC _. subst c. now apply closed_brace in C.
  - apply app_inj_tail in E' as [-> _]. auto.
Qed.
Lemma flow_empty_seq (i : nat) p n tr sf d : flow (wtree (TSeq i p n (CInline tr sf) [])) (DSeq d) -> d = [] -> tr = false /\ closed sf.
Proof.
  rewrite wtree_seq. cbn [open_if map sep app closing]. intros F ->. match type of F with flow ?y _ => remember y as t eqn:E end. remember (DSeq []) as dd eqn:ED. destruct F as [x l FM|x l FM]; [|discriminate]. injection ED as ->. cbn in E. injection E as E.
  remember [] as e eqn:EE in FM. destruct FM as [w C|? ? ? ? ? ? ? ?|? ? ? ? ? ? ? ? ?]; [|discriminate|discriminate]. rename E into E'. symmetry in E'.
  destruct tr; cbn [app] in E'.
  - destruct w as [|c w]; [discriminate E'|]. injection E' as EC _. subst c. now apply closed_brace in C.
  - apply app_inj_tail in E' as [-> _]. auto.
Qed.
Lemma lseq_ends n its L post : lseq n its L post -> seq_ends n post.
Proof.
  assert (H : forall r L', lsrest n r L' post -> seq_ends n post).
  { induction r as [|[[j w] v0] r IH]; intros L' R; inversion R as [|? ? ? ? ? ? ? ? ? ? ? R']; subst; [assumption|exact (IH _ R')]. }
  intros M. inversion M; subst. eauto.
Qed.
Lemma frame_weak s p n post : frame s true p n post -> frame s false p n post.
Proof. destruct s; cbn; auto. intros [H L]. split; [exact H|lia]. Qed.

Section Back.
Variable hash : bytes -> sid.
Local Notation models := (models hash).
Local Notation no_collision := (no_collision hash).

Lemma map_iter_map doc t suf v it : models doc t suf -> sub t v -> map_iter (doc_data doc) (tid v) = Ok it -> exists i p n k items, v = TMap i p n k items.
Proof.
  intros (M & _) S E. unfold map_iter, Data.mapping in E. rewrite (sub_raw hash _ _ _ M v S) in E. destruct v as [i p sc|i p n k items|i p n k items]; cbn in E; try discriminate. eauto 6.
Qed.
Lemma seq_iter_seq doc t suf v it : models doc t suf -> sub t v -> seq_iter (doc_data doc) (tid v) = Ok it -> exists i p n k items, v = TSeq i p n k items.
Proof.
  intros (M & _) S E. unfold seq_iter, Data.sequence in E. rewrite (sub_raw hash _ _ _ M v S) in E. destruct v as [i p sc|i p n k items|i p n k items]; cbn in E; try discriminate. eauto 6.
Qed.
Lemma map_list doc t suf i p n k items l : models doc t suf -> no_collision (doc_data doc) -> sub t (TMap i p n k items) ->
  map_entries (doc_data doc) i l -> l = map mview items.
Proof.
  intros M N S E. pose proof (models_int _ _ _ _ M N) as FI. destruct M as (M & _).
  eapply map_entries_det; [exact E|]. eapply node_entries; eauto.
Qed.
Lemma seq_list doc t suf i p n k items l : models doc t suf -> no_collision (doc_data doc) -> sub t (TSeq i p n k items) ->
  seq_entries (doc_data doc) i l -> l = map sview items.
Proof.
  intros M N S E. destruct M as (M & _). eapply seq_entries_det; [exact E|]. eapply node_sentries; eauto.
Qed.
Lemma nth_map {A B} (f : A -> B) l j y : nth_error (map f l) j = Some y -> exists x l1 l2, l = l1 ++ x :: l2 /\ length l1 = j /\ y = f x.
Proof.
  intros E. destruct (nth_error l j) as [x|] eqn:X.
  - rewrite (map_nth_error f _ _ X) in E. injection E as <-. apply nth_error_split in X as (l1 & l2 & -> & L). exists x, l1, l2. auto.
  - apply nth_error_None in X. rewrite <- (map_length f) in X. apply nth_error_None in X. congruence.
Qed.
Lemma place_ctx doc t suf p id : models doc t suf -> no_collision (doc_data doc) -> place doc p id -> exists c v, t = plug c v /\ tid v = id /\ cpath c = p.
Proof.
  intros M N. induction 1 as [|p id l j k x P (c & v & -> & <- & <-) E X|p id l j x P (c & v & -> & <- & <-) E X].
  - exists CHole, t. split; [reflexivity|]. split; [|reflexivity]. destruct M as (_ & R & _). now rewrite R.
  - destruct (E) as (it & E1 & _). destruct (map_iter_map _ _ _ _ _ M (sub_plug c v) E1) as (i & p & n & kk & items & ->).
    apply (map_list _ _ _ _ _ _ _ _ _ M N (sub_plug c _)) in E. subst l. apply nth_map in X as ([[[ii ip] key] w] & l1 & l2 & -> & LE & Y).
    injection Y as -> ->. exists (ccomp c (CMapC i p n kk l1 ii ip key CHole l2)), w. rewrite plug_comp, cpath_comp. cbn. rewrite LE. auto.
  - destruct (E) as (it & E1 & _). destruct (seq_iter_seq _ _ _ _ _ M (sub_plug c v) E1) as (i & p & n & kk & items & ->).
    apply (seq_list _ _ _ _ _ _ _ _ _ M N (sub_plug c _)) in E. subst l. apply nth_map in X as ([[ii ip] w] & l1 & l2 & -> & LE & Y).
    cbn in Y. subst x. exists (ccomp c (CSeqC i p n kk l1 ii ip CHole l2)), w. rewrite plug_comp, cpath_comp. cbn. rewrite LE. auto.
Qed.
Lemma ctx_place doc c v suf : models doc (plug c v) suf -> no_collision (doc_data doc) -> place doc (cpath c) (tid v).
Proof.
  intros M N. pose proof (models_int _ _ _ _ M N) as FI.
  assert (H : forall c2 c1, c = ccomp c1 c2 -> place doc (cpath c1) (tid (plug c2 v)) -> place doc (cpath c1 ++ cpath c2) (tid v)).
  { induction c2 as [|i p n k l ii ip key c2 IH r|i p n k l ii ip c2 IH r]; intros c1 E P; cbn [cpath plug] in *.
    - now rewrite app_nil_r.
    - change (length l :: cpath c2) with ([length l] ++ cpath c2). rewrite (app_assoc (cpath c1)).
      assert (S : sub (plug c v) (TMap i p n k (l ++ (ii, ip, key, plug c2 v) :: r))) by (rewrite E, plug_comp; apply sub_plug).
      specialize (IH (ccomp c1 (CMapC i p n k l ii ip key CHole r))). rewrite ccomp_assoc, cpath_comp in IH. cbn [ccomp cpath] in IH. apply IH; [exact E|].
      destruct M as (M & _). eapply place_map; [exact P|eapply node_entries; [exact M|exact FI|exact S]|].
      rewrite map_app. cbn [map]. rewrite nth_error_app2; rewrite map_length; [|lia]. rewrite Nat.sub_diag. reflexivity.
    - change (length l :: cpath c2) with ([length l] ++ cpath c2). rewrite (app_assoc (cpath c1)).
      assert (S : sub (plug c v) (TSeq i p n k (l ++ (ii, ip, plug c2 v) :: r))) by (rewrite E, plug_comp; apply sub_plug).
      specialize (IH (ccomp c1 (CSeqC i p n k l ii ip CHole r))). rewrite ccomp_assoc, cpath_comp in IH. cbn [ccomp cpath] in IH. apply IH; [exact E|].
      destruct M as (M & _). eapply place_seq; [exact P|eapply node_sentries; [exact M|exact S]|].
      rewrite map_app. cbn [map]. rewrite nth_error_app2; rewrite map_length; [|lia]. rewrite Nat.sub_diag. reflexivity. }
  apply (H c CHole eq_refl). cbn [cpath]. destruct M as (_ & R & _). rewrite <- R. constructor.
Qed.
Lemma place_at doc c v suf id : models doc (plug c v) suf -> no_collision (doc_data doc) -> place doc (cpath c) id -> tid v = id.
Proof.
  intros M N P. destruct (place_ctx _ _ _ _ _ M N P) as (c' & v' & E & <- & CP). destruct (plug_inj _ _ _ _ E (eq_sym CP)) as [_ ->]. reflexivity.
Qed.
Lemma prints_at doc t v suf y : models doc t suf -> no_collision (doc_data doc) -> sub t v -> prints doc (tid v) y <-> y = wtree v.
Proof.
  intros M N S. pose proof (models_int _ _ _ _ M N) as FI. destruct M as (M & _). unfold prints. rewrite (node_write hash _ _ _ M FI v S).
  split; [now injection 1|now intros ->].
Qed.
Lemma outside_flow doc c v suf : models doc (plug c v) suf -> no_collision (doc_data doc) -> outside doc (cpath c) -> in_flow c = false.
Proof.
  intros M N O. destruct (in_flow c) eqn:F; [|reflexivity]. destruct (flow_split c F) as (c1 & c2 & -> & NE & H). exfalso.
  rewrite plug_comp in M. apply (O (cpath c1) (cpath c2) (tid (plug c2 v)) (wtree (plug c2 v))); [apply cpath_comp| | | |apply H].
  - destruct c2; [now elim NE|discriminate|discriminate].
  - eapply ctx_place; eauto.
  - eapply prints_at; eauto. apply sub_plug.
Qed.
Lemma in_lines_each doc c v suf : models doc (plug c v) suf -> no_collision (doc_data doc) -> in_lines doc (cpath c) -> each within_line v.
Proof.
  intros M N L. apply each_sub. intros i p sc S. destruct (sub_ctx _ _ S) as (c2 & ->). unfold within_line.
  apply (L (cpath c2) i (wscalar sc)).
  - rewrite <- cpath_comp. rewrite <- plug_comp in M. apply (ctx_place doc (ccomp c c2) (TLeaf i p sc) suf M N).
  - apply (prints_at doc _ (TLeaf i p sc) suf (wscalar sc) M N); [|reflexivity]. eapply sub_trans; [apply sub_plug|exact S].
Qed.
Lemma filled_each doc c v suf : models doc (plug c v) suf -> no_collision (doc_data doc) -> filled doc (cpath c) -> each visible v /\ wtree v <> [].
Proof.
  intros M N L. split.
  - apply each_sub. intros i p sc S. destruct (sub_ctx _ _ S) as (c2 & ->). unfold visible.
    apply (L (cpath c2) i (wscalar sc)).
    + rewrite <- cpath_comp. rewrite <- plug_comp in M. apply (ctx_place doc (ccomp c c2) (TLeaf i p sc) suf M N).
    + apply (prints_at doc _ (TLeaf i p sc) suf (wscalar sc) M N); [|reflexivity]. eapply sub_trans; [apply sub_plug|exact S].
  - apply (L [] (tid v)).
    + rewrite app_nil_r. eapply ctx_place; eauto.
    + eapply prints_at; eauto. apply sub_plug.
Qed.

(* ---- the invariant ---- *)
Definition stands (s : slot) (post : bytes) (d : datum) (v : tree nat) (p : list nat) (o : option (list nat)) : Prop :=
  (o = None /\ fits s (shape v) d post /\ neat (shape v)) \/ (o = Some p /\ vacant s post v).
Definition inv (doc : document) (D : datum) (o : option (list nat)) : Prop :=
  exists c v suf s post d, models doc (plug c v) suf /\ opens SRoot c suf s post d D /\ sim (see (plug c v)) D /\
    follow_ok SRoot suf /\ stands s post d v (cpath c) o.
Lemma focus doc D o p id : inv doc D o -> no_collision (doc_data doc) -> place doc p id -> o = None \/ o = Some p ->
  exists c v suf s post d, models doc (plug c v) suf /\ tid v = id /\ cpath c = p /\ opens SRoot c suf s post d D /\ sim (see (plug c v)) D /\
    follow_ok SRoot suf /\ stands s post d v p o.
Proof.
  intros (c & v & suf & s & post & d & M & O & S & FO & ST) N P OO. destruct ST as [(-> & F & NT)|[-> V]].
  - destruct O as (_ & _ & _ & _ & _ & _ & K). destruct (K v d F NT) as (D' & F' & NT' & RP). apply replaced_same in RP as ->.
    destruct (place_ctx _ _ _ _ _ M N P) as (c' & v' & E & TI & CP). rewrite E in *.
    destruct (hole c' v' SRoot D suf F' NT' FO) as (s0 & d0 & post0 & F0 & N0 & O0). exists c', v', suf, s0, post0, d0.
    do 6 (split; [assumption|]). left. auto.
  - destruct OO as [OO|OO]; [discriminate|]. injection OO as OO. subst p. pose proof (place_at _ _ _ _ _ M N P) as <-.
    exists c, v, suf, s, post, d. do 6 (split; [auto|]). right. auto.
Qed.
Lemma tight_firm doc c v suf s post d D : models doc (plug c v) suf -> no_collision (doc_data doc) -> opens SRoot c suf s post d D -> follow_ok SRoot suf ->
  is_item s = true -> tight doc (cpath c) -> firm c.
Proof.
  intros M N O FO IT (q & j & id & y & CP & P & PR & T).
  destruct (ctx_last c q j CP) as (c1 & c2 & -> & CP1 & CP2 & SH).
  assert (NE : c2 <> CHole) by (intros ->; discriminate CP2). apply firm_comp'; [exact NE|].
  destruct O as ((FS & _) & IS & _ & _ & _ & _ & K).
  set (one := TLeaf 0%nat [] (ScNum (b "1") Unsigned64)).
  assert (F1 : fits s (shape one) (DNum (b "1") Unsigned64) post).
  { destruct s as [|m|m|sq c]; try discriminate IT. cbn. split; [constructor|]. split; [auto|]. apply li_leaf; [cbn; intuition discriminate|].
    apply fi_number; [|exact FS]. left. exists false. split; [|reflexivity]. constructor; [|discriminate]. repeat constructor; cbn; unfold digit; lia. }
  destruct (K one _ F1 ltac:(constructor)) as (D' & F' & NT' & _). rewrite plug_comp in F', NT'.
  destruct (hole c1 (plug c2 one) SRoot D' suf F' NT' FO) as (s1 & d1 & post1 & F2 & N2 & O2).
  destruct O2 as (_ & IS1 & _). rewrite in_flow_comp in IS. cbn [is_item orb] in IS, IS1.
  destruct SH as [(i & p & n & k & l & ii & ip & key & r & -> & LE)|(i & p & n & k & l & ii & ip & r & -> & LE)]; [exact I|].
  cbn [firm]. rewrite plug_comp in M.
  assert (Y : y = wtree (plug (CSeqC i p n k l ii ip CHole r) v)).
  { rewrite <- CP1 in P. pose proof (place_at _ _ _ _ _ M N P) as <-. apply (prints_at _ _ _ _ _ M N (sub_plug c1 _)). exact PR. }
  cbn [plug] in Y, F2. destruct k as [|tr sf].
  - exfalso. cbn [in_flow] in IS. rewrite IT, orb_false_r in IS. rewrite <- IS1 in IS. rewrite shape_seq in F2. apply fits_bseq in F2 as (L & _ & FR & _).
    destruct s1; try discriminate IS. exact FR.
  - destruct T as [T|[T [(x & PX)|(z & e & EZ & NW)]]].
    + subst y. discriminate T.
    + left. intros ->. destruct (place_ctx _ _ _ _ _ M N PX) as (c' & v' & E & _ & CP').
      destruct (ctx_last c' q (S j) CP') as (c3 & c4 & -> & CP3 & CP4 & SH'). rewrite plug_comp in E.
      apply plug_inj in E as [_ E]; [|congruence]. cbn [plug] in E.
      destruct SH' as [(i' & p' & n' & k' & l' & ii' & ip' & key' & r' & -> & LE')|(i' & p' & n' & k' & l' & ii' & ip' & r' & -> & LE')]; cbn [plug] in E; [discriminate|].
      injection E as _ _ _ _ E. apply (f_equal (@length _)) in E. rewrite !app_length in E. cbn in E. lia.
    + right. rewrite shape_seq in F2. apply fits_fseq in F2 as (L & _ & _ & LF). apply lfseq_closed in LF. apply (end_closing i p n tr sf (l ++ (ii, ip, v) :: r)); [exact LF|]. exists z, e. rewrite <- Y. auto.
Qed.
Lemma yields_in {A} (item : option nat -> outcome (option A)) it l : item None = Ok None -> yields (fun it => iter_step item (sl_next it)) it l ->
  forall x, In x l -> exists i, In i it /\ item (Some i) = Ok (Some x).
Proof.
  intros E0. induction 1 as [it it' E|it it' y l E Y IH]; intros x [].
  - subst y. unfold iter_step in E. destruct it as [|i it]; cbn [sl_next fst snd] in E; [rewrite E0 in E; discriminate|].
    destruct (item (Some i)) as [z|? ? ?| | |] eqn:Z; try discriminate. injection E as -> ->. exists i. split; [now left|exact Z].
  - unfold iter_step in E. destruct it as [|i it]; cbn [sl_next fst snd] in E; [rewrite E0 in E; discriminate|].
    destruct (item (Some i)) as [z|? ? ?| | |] eqn:Z; try discriminate. injection E as -> ->. destruct (IH x H) as (i' & J & X). exists i'. split; [now right|exact X].
Qed.
Lemma place_value doc p id : place doc p id -> value_of doc id.
Proof.
  induction 1 as [|p id l j k x P IH (it & E & Y) X|p id l j x P IH (it & E & Y) X].
  - constructor.
  - apply nth_error_In in X. destruct (yields_in (map_item_opt (doc_data doc)) it l eq_refl Y _ X) as (i & J & Z). eapply w_map; eauto.
  - apply nth_error_In in X. destruct (yields_in (seq_item_opt (doc_data doc)) it l eq_refl Y _ X) as (i & J & Z). eapply w_seq; eauto.
Qed.
Lemma before doc D o p id e r d' : inv doc D o -> no_collision d' -> place doc p id -> run hash id e (doc_data doc) = Ok (r, d') -> no_collision (doc_data doc).
Proof.
  intros (c0 & v0 & suf & s & post & d & M & _) N P E. apply place_value in P. destruct (value_ctx hash _ _ _ _ M P) as (c & v & Q & <-). rewrite Q in M.
  destruct (edit_step hash _ _ _ _ _ _ _ M E) as (v' & _ & _ & G & _). eapply grows_nc; eauto.
Qed.
Lemma fitting_allowed doc c v suf s post d D x e : models doc (plug c v) suf -> no_collision (doc_data doc) -> opens SRoot c suf s post d D -> follow_ok SRoot suf ->
  fitting doc (cpath c) x e -> allowed s x e.
Proof.
  intros M N O FO [DS F]. assert (W : written x e) by (destruct F as [F|[F _]]; [now apply portable_written|exact F]).
  destruct s as [|m|m|sq y]; cbn [allowed]; try exact W.
  - split; [exact W|]. apply DS. destruct O as (_ & _ & R & _). now rewrite (R eq_refl).
  - destruct F as [F|[_ [F|[FW T]]]]; [now left| |].
    + apply (outside_flow _ _ _ _ M N) in F. destruct O as (_ & IS & _). cbn in IS. congruence.
    + right. split; [exact FW|]. split.
      * destruct W as [[_ W]|(s & Q & _)]; [exact W|]. exfalso. destruct FW as (c0 & r & -> & _ & _ & I & _). destruct (quoted_hd _ _ Q) as (c1 & r1 & E & H).
        injection E as -> _. apply I. destruct H as [->| ->]; cbn; tauto.
      * pose proof (tight_firm _ _ _ _ _ _ _ _ M N O FO eq_refl T) as FM. destruct O as (_ & _ & _ & _ & _ & B & _). apply (B FM sq y eq_refl).
Qed.
(* At the end of a collection. *)
Lemma outside_up doc p j : outside doc (p ++ [j]) -> outside doc p.
Proof. intros O q r id y E NE. apply (O q (r ++ [j])); [now rewrite app_assoc, E|now destruct r]. Qed.
Lemma stands_item s post d v p o : stands s post d v p o -> is_item s = true -> match v with TMap _ _ _ k _ | TSeq _ _ _ k _ => k <> CBlock | _ => True end.
Proof.
  intros ST IT. destruct v as [|i pp n k items|i pp n k items]; [exact I| |]; intros ->.
  - destruct ST as [(_ & F & _)|[_ V]].
    + rewrite shape_map in F. apply fits_bmap in F as (? & _ & FR & _). destruct s; try discriminate IT. exact FR.
    + cbn [vacant] in V. destruct items; [|exact V]. destruct s; try discriminate IT. exact V.
  - destruct ST as [(_ & F & _)|[_ V]].
    + rewrite shape_seq in F. apply fits_bseq in F as (? & _ & FR & _). destruct s; try discriminate IT. exact FR.
    + cbn [vacant] in V. destruct items; [|exact V]. destruct s; try discriminate IT. apply V.
Qed.
Lemma outside_block doc c v suf j : models doc (plug c v) suf -> no_collision (doc_data doc) -> outside doc (cpath c ++ [j]) ->
  in_flow c = false /\ match v with TMap _ _ _ k _ | TSeq _ _ _ k _ => k = CBlock | _ => True end.
Proof.
  intros M N O. split; [eapply outside_flow; eauto; eapply outside_up; eauto|].
  assert (H : ~ In (hd EOF (wtree v)) (b "[{")).
  { apply (O (cpath c) [j] (tid v)); [reflexivity|discriminate| |].
    - eapply ctx_place; eauto.
    - eapply prints_at; eauto. apply sub_plug. }
  destruct v as [|i p n [|] items|i p n [|] items]; auto; exfalso; apply H.
  - rewrite wtree_map. cbn. auto.
  - rewrite wtree_seq. cbn. auto.
Qed.
Lemma written_of doc p x e : fitting doc p x e -> written x e.
Proof. intros [_ [F|[F _]]]; [now apply portable_written|exact F]. Qed.
Lemma word_datum x e : written x e -> flow_word x -> plain_datum x e.
Proof.
  intros [[_ W]|(s & Q & _)] FW; [exact W|]. exfalso. destruct FW as (c0 & r & -> & _ & _ & I & _). destruct (quoted_hd _ _ Q) as (c1 & r1 & E & H).
  injection E as -> _. apply I. destruct H as [->| ->]; cbn; tauto.
Qed.
Lemma fitting_new_map doc c i p n k items suf s post d o ii ip key D s0 post0 d0 D0 x e (PO : list nat) :
  models doc (plug c (TMap i p n k items)) suf -> no_collision (doc_data doc) -> stands s post d (TMap i p n k items) PO o ->
  opens SRoot c suf s post d D -> opens SRoot (ccomp c (CMapC i p n k items ii ip key CHole [])) suf s0 post0 d0 D0 ->
  fitting doc (cpath c ++ [length items]) x e -> allowed s0 x e.
Proof.
  intros M N ST O O2 F. pose proof (written_of _ _ _ _ F) as W. destruct F as [_ F]. destruct O2 as (_ & IS & R & _ & _ & B & _).
  destruct s0 as [|m|m|sq y]; cbn [allowed]; try exact W.
  - specialize (R eq_refl). apply ccomp_hole in R as [_ R]. discriminate R.
  - destruct F as [F|[_ [F|[FW T]]]]; [now left| |].
    + destruct (outside_block _ _ _ _ _ M N F) as [F1 F2]. subst k. rewrite in_flow_comp, F1 in IS. discriminate IS.
    + right. split; [exact FW|]. split; [now apply word_datum|]. apply B with (sq := sq) (y := y); [|reflexivity].
      apply firm_comp'; [discriminate|exact I].
Qed.
Lemma fitting_new_seq doc c i p n k items suf s post d o ii ip D s0 post0 d0 D0 x e (PO : list nat) :
  models doc (plug c (TSeq i p n k items)) suf -> no_collision (doc_data doc) -> stands s post d (TSeq i p n k items) PO o ->
  opens SRoot c suf s post d D -> opens SRoot (ccomp c (CSeqC i p n k items ii ip CHole [])) suf s0 post0 d0 D0 ->
  fitting doc (cpath c ++ [length items]) x e -> allowed s0 x e.
Proof.
  intros M N ST O O2 F. pose proof (written_of _ _ _ _ F) as W. destruct F as [_ F]. destruct O2 as (_ & IS & R & _ & _ & B & _).
  destruct s0 as [|m|m|sq y]; cbn [allowed]; try exact W.
  - specialize (R eq_refl). apply ccomp_hole in R as [_ R]. discriminate R.
  - destruct F as [F|[_ [F|[FW T]]]]; [now left| |].
    + destruct (outside_block _ _ _ _ _ M N F) as [F1 F2]. subst k. rewrite in_flow_comp, F1 in IS. discriminate IS.
    + right. split; [exact FW|]. split; [now apply word_datum|]. apply B with (sq := sq) (y := y); [|reflexivity].
      apply firm_comp'; [discriminate|]. cbn [firm]. right.
      destruct k as [|tr sf].
      { exfalso. rewrite in_flow_comp in IS. cbn [in_flow is_item orb] in IS. rewrite orb_false_r in IS. destruct O as (_ & IS1 & _). cbn [is_item orb] in IS1.
        rewrite <- IS1 in IS. symmetry in IS. now apply (stands_item _ _ _ _ _ _ ST IS). }
      destruct T as (q & j & id & z & CP & P & PR & T). apply app_inj_tail in CP as [<- <-].
      pose proof (place_at _ _ _ _ _ M N P) as <-. apply (prints_at _ _ _ _ _ M N (sub_plug c _)) in PR. subst z.
      destruct ST as [(_ & FS & _)|[_ V]]; [|contradiction V]. rewrite shape_seq in FS. apply fits_fseq in FS as (L & _ & _ & LF). apply lfseq_closed in LF.
      destruct T as [T|[_ [(z & PX)|T]]].
      * rewrite wtree_seq in T. discriminate T.
      * exfalso. destruct (place_ctx _ _ _ _ _ M N PX) as (c' & v' & E & _ & CP').
        destruct (ctx_last c' (cpath c) _ CP') as (c3 & c4 & -> & CP3 & CP4 & SH'). rewrite plug_comp in E.
        apply plug_inj in E as [_ E]; [|congruence].
        destruct SH' as [(i' & p' & n' & k' & l' & ii' & ip' & key' & r' & -> & LE')|(i' & p' & n' & k' & l' & ii' & ip' & r' & -> & LE')]; cbn [plug] in E; [discriminate|].
        injection E as _ _ _ _ E. apply (f_equal (@length _)) in E. rewrite app_length in E. cbn [length] in E. lia.
      * eapply end_closing; eauto.
Qed.
(* A call writes a scalar, or leaves an empty value. *)
Lemma behind_right doc c v suf post : models doc (plug c v) suf -> behind hash doc (tid v) post -> post = wright c ++ suf.
Proof.
  intros M (pre & d1 & d2 & R1 & R2 & N1 & N2 & W1 & W2).
  destruct (edit_step hash _ _ _ _ _ _ _ M R1) as (v1 & _ & M1 & _ & EF1). specialize (EF1 N1).
  destruct (edit_step hash _ _ _ _ _ _ _ M R2) as (v2 & _ & M2 & _ & EF2). specialize (EF2 N2).
  assert (V1 : v1 = TLeaf (tid v) (tpre v) (ScNull NTilde)).
  { inversion EF1 as [? ? A| | | | | | | | | | |? ? H|? ? H]; subst; try discriminate; [cbn in A; injection A as <-; reflexivity|exfalso..];
      destruct H as [H|[H|[? H]]]; try discriminate H; now elim H. }
  assert (V2 : v2 = TLeaf (tid v) (tpre v) (abool true)).
  { inversion EF2 as [? ? A| | | | | | | | | | |? ? H|? ? H]; subst; try discriminate; [cbn in A; injection A as <-; reflexivity|exfalso..];
      destruct H as [H|[H|[? H]]]; try discriminate H; now elim H. }
  subst v1 v2. rewrite (models_write_to hash (edited doc d1) _ _ N1 M1), wdoc_plug in W1. rewrite (models_write_to hash (edited doc d2) _ _ N2 M2), wdoc_plug in W2.
  unfold full in W1, W2. cbn [tpre wtree wscalar abool] in W1, W2. injection W1 as W1. injection W2 as W2. rewrite <- !app_assoc in W1, W2. rewrite app_assoc in W1, W2.
  symmetry in W1, W2. exact (two_words _ _ _ _ W1 W2).
Qed.
Lemma fill doc doc' c h p sc suf s post d D w e o : models doc' (plug c (TLeaf h p sc)) suf -> no_collision (doc_data doc') -> opens SRoot c suf s post d D ->
  (forall x, fitting doc (cpath c) x d -> allowed s x d) -> (outside doc (cpath c) -> is_item s = false) ->
  @ascalar nat w e = Some sc -> pre_ok s p -> fills hash doc doc' (cpath c) h e d o -> stands s post d (TLeaf h p sc) (cpath c) o /\ sim (see (TLeaf h p sc)) d.
Proof.
  intros M N O FO OI A P [(-> & ME & x & PR & F)|[(-> & UN & ->)|(-> & x & v & po & MB & -> & OU & PR & BH & BS)]].
  - apply (prints_at _ _ (TLeaf h p sc) _ _ M N (sub_plug c _)) in PR. cbn in PR. subst x. split.
    + left. split; [reflexivity|]. split; [|constructor]. cbn [shape]. apply leaf_fits; [exact P|apply O|]. now apply FO.
    + destruct ME; cbn in A; injection A as <-; cbn; constructor.
  - split; [right; split; [reflexivity|exact P]|]. destruct UN; cbn in A; injection A as <-; constructor.
  - apply (prints_at _ _ (TLeaf h p sc) _ _ M N (sub_plug c _)) in PR. cbn in PR. subst x. apply (behind_right _ c (TLeaf h p sc) suf _ M) in BH. subst po. specialize (OI OU).
    split.
    + left. split; [reflexivity|]. split; [|constructor]. cbn [shape]. destruct O as ((FS & NB) & _). apply block_fits; [exact OI|exact P|exact FS|].
      eapply near_block; [|exact BS]. apply near_sym. now apply NB.
    + destruct MB; cbn in A; injection A as <-; unfold ablock; destruct w; rewrite ?block_see; constructor.
Qed.
Lemma outside_item doc c v suf s post d D : models doc (plug c v) suf -> no_collision (doc_data doc) -> opens SRoot c suf s post d D ->
  outside doc (cpath c) -> is_item s = false.
Proof. intros M N (_ & IS & _) OU. rewrite IS. apply (outside_flow _ _ _ _ M N) in OU. now rewrite OU. Qed.
Lemma ready_pre doc c v suf s post d p o : models doc (plug c v) suf -> no_collision (doc_data doc) -> stands s post d v p o -> ready doc p (tid v) o -> pre_ok s (tpre v).
Proof.
  intros M N [(-> & F & NT)|[-> V]] R; [|now apply (vacant_pre _ post)]. destruct R as [R|(_ & x & PR & NE)]; [discriminate|].
  apply (prints_at _ _ _ _ _ M N (sub_plug c _)) in PR. subst x. rewrite <- tpre_shape. eapply fits_pre; [exact F|]. now rewrite wtree_shape.
Qed.
Lemma step_set doc D o p id e r d' d u D' o' : inv doc D o -> no_collision d' -> place doc p id -> run hash id e (doc_data doc) = Ok (r, d') ->
  set_call e -> ready doc p id o -> fills hash doc (edited doc d') p id e d o' -> replaced u d p D D' -> inv (edited doc d') D' o'.
Proof.
  intros I N P E SC R FL RP.
  assert (OO : o = None \/ o = Some p) by (destruct R as [R|[R _]]; auto).
  pose proof (before _ _ _ _ _ _ _ _ I N P E) as N0.
  destruct (focus _ _ _ _ _ I N0 P OO) as (c & v & suf & s & post & d0 & M & <- & <- & O & S & FO & ST).
  destruct (edit_step hash _ _ _ _ _ _ _ M E) as (v' & TI & M' & G & EF). specialize (EF N).
  pose proof (ready_pre _ _ _ _ _ _ _ _ _ M N0 ST R) as PO.
  assert (V : exists sc, ascalar v e = Some sc /\ v' = TLeaf (tid v) (tpre v) sc).
  { destruct EF; try (now elim SC); try (destruct e; try discriminate; now elim SC); eauto.
    - destruct H0 as [H0|[->|[key ->]]]; [|now elim SC..]. destruct e; try (now elim SC); now elim H0.
    - destruct H0 as [H0|[->|[key ->]]]; [|now elim SC..]. destruct e; try (now elim SC); now elim H0. }
  destruct V as (sc & A & ->). pose proof (opens_move _ _ _ _ _ _ _ _ _ _ O RP) as O'.
  assert (AL : forall x, fitting doc (cpath c) x d -> allowed s x d) by (intros x FX; exact (fitting_allowed _ _ _ _ _ _ _ _ _ _ M N0 O FO FX)).
  destruct (fill _ _ _ _ _ _ _ _ _ _ _ _ _ _ M' N O' AL (outside_item _ _ _ _ _ _ _ _ M N0 O) A PO FL) as [ST' S'].
  exists c, (TLeaf (tid v) (tpre v) sc), suf, s, post, d. split; [exact M'|]. split; [exact O'|]. split; [eapply sim_move; eauto|]. auto.
Qed.
Lemma any_at doc t v suf a : models doc t suf -> no_collision (doc_data doc) -> sub t v -> as_any (doc_data doc) (tid v) = Ok a -> a = tany v.
Proof. intros M N S. pose proof (models_int _ _ _ _ M N) as FI. destruct M as (M & _). rewrite (node_any hash _ _ _ M FI v S). now injection 1. Qed.
Lemma step_same doc D o p id e r d' : inv doc D o -> no_collision d' -> place doc p id -> run hash id e (doc_data doc) = Ok (r, d') ->
  (forall c v v' suf, models doc (plug c v) suf -> tid v = id -> effect c v e r v' -> v' = v) -> inv (edited doc d') D o.
Proof.
  intros I N P E H. pose proof (before _ _ _ _ _ _ _ _ I N P E) as N0. destruct I as (c0 & v0 & suf & s & post & d & M & I).
  destruct (place_ctx _ _ _ _ _ M N0 P) as (c & v & Q & <- & _). exists c0, v0, suf, s, post, d. split; [|exact I]. rewrite Q in M.
  destruct (edit_step hash _ _ _ _ _ _ _ M E) as (v' & _ & M' & _ & EF). rewrite (H _ _ _ _ M eq_refl (EF N)) in M'. now rewrite Q.
Qed.
Lemma step_nothing doc D o p id e r d' : inv doc D o -> no_collision d' -> place doc p id -> run hash id e (doc_data doc) = Ok (r, d') ->
  r = NotApplicable \/ r = Removed false -> inv (edited doc d') D o.
Proof.
  intros I N P E R. apply (step_same _ _ _ _ _ _ _ _ I N P E). intros c v v' suf _ _ EF. destruct R as [->| ->]; inversion EF as [| | | | | |? ? ? RK| | |? ? ? RA| | |]; subst; try reflexivity.
  - now inversion RK.
  - now inversion RA.
Qed.
Lemma step_kept_map doc D o p id r d' i : inv doc D o -> no_collision d' -> place doc p id -> run hash id MakeMapping (doc_data doc) = Ok (r, d') ->
  as_any (doc_data doc) id = Ok (AMapping i) -> inv (edited doc d') D o.
Proof.
  intros I N P E A. pose proof (before _ _ _ _ _ _ _ _ I N P E) as N0. apply (step_same _ _ _ _ _ _ _ _ I N P E). intros c v v' suf M <- EF.
  apply (any_at _ _ _ _ _ M N0 (sub_plug c v)) in A. symmetry in A. apply tany_map in A. inversion EF; subst; try reflexivity; try discriminate; congruence.
Qed.
Lemma step_kept_seq doc D o p id r d' i : inv doc D o -> no_collision d' -> place doc p id -> run hash id MakeSequence (doc_data doc) = Ok (r, d') ->
  as_any (doc_data doc) id = Ok (ASequence i) -> inv (edited doc d') D o.
Proof.
  intros I N P E A. pose proof (before _ _ _ _ _ _ _ _ I N P E) as N0. apply (step_same _ _ _ _ _ _ _ _ I N P E). intros c v v' suf M <- EF.
  apply (any_at _ _ _ _ _ M N0 (sub_plug c v)) in A. symmetry in A. apply tany_seq in A. inversion EF; subst; try reflexivity; try discriminate; congruence.
Qed.
Lemma step_insert_old doc D o p id e key l1 h l2 r d' d u D' o' : inv doc D o -> no_collision d' -> place doc p id -> run hash id e (doc_data doc) = Ok (r, d') ->
  insert_key e = Some key -> map_entries (doc_data doc) id (l1 ++ (key, h) :: l2) -> ~ In key (map fst l1) ->
  ready doc (p ++ [length l1]) h o -> fills hash doc (edited doc d') (p ++ [length l1]) h e d o' -> replaced u d (p ++ [length l1]) D D' -> inv (edited doc d') D' o'.
Proof.
  intros I N P E IK ME NI R FL RP. pose proof (before _ _ _ _ _ _ _ _ I N P E) as N0.
  assert (OO : o = None \/ o = Some (p ++ [length l1])) by (destruct R as [R|[R _]]; auto).
  assert (PH : place doc (p ++ [length l1]) h).
  { eapply place_map; [exact P|exact ME|]. rewrite nth_error_app2 by lia. rewrite Nat.sub_diag. reflexivity. }
  destruct (focus _ _ _ _ _ I N0 PH OO) as (c & v & suf & s & post & d0 & M & <- & CP & O & S & FO & ST).
  destruct (ctx_last _ _ _ CP) as (c1 & c2 & -> & CP1 & CP2 & SH). rewrite <- CP1 in P. rewrite plug_comp in M.
  pose proof (place_at _ _ _ _ _ M N0 P) as <-.
  destruct SH as [(i & pp & n & k & l & ii & ip & kk & rr & -> & LE)|(i & pp & n & k & l & ii & ip & rr & -> & LE)]; cbn [plug] in *.
  2: { destruct ME as (it & ME & _). destruct (map_iter_map _ _ _ _ _ M (sub_plug c1 _) ME) as (? & ? & ? & ? & ? & X). discriminate X. }
  apply (map_list _ _ _ _ _ _ _ _ _ M N0 (sub_plug c1 _)) in ME. rewrite map_app in ME. cbn [map] in ME.
  apply mid_inj in ME as (EL & EK & _); [|rewrite map_length; auto]. injection EK as EK. subst l1.
  apply other_first in NI.
  destruct (edit_step hash _ _ _ _ _ _ _ M E) as (v' & TI & M' & G & EF). specialize (EF N).
  destruct (effect_insert _ _ _ _ _ _ EF IK eq_refl) as (sp & sc & h' & -> & A & KS & IN).
  assert (V : v' = TMap i pp n k (l ++ (ii, ip, kk, TLeaf (tid v) (tpre v) sc) :: rr)).
  { clear - IN NI EK. cbn in EK. remember (TMap i pp n k (l ++ (ii, ip, kk, v) :: rr)) as t eqn:ET. destruct IN as [i0 p0 n0 k0 l' ii' ip' kk' w r' K' F'|i0 p0 n0 k0 items ii' vi F'].
    - injection ET as -> -> -> -> ET. apply (first_one (other_key key)) in ET as (-> & ET & ->); [|exact F'|exact NI|unfold other_key; cbn; rewrite K'; tauto|unfold other_key; cbn; rewrite EK; tauto].
      injection ET as -> -> -> ->. reflexivity.
    - exfalso. injection ET as _ _ _ _ ->. apply Forall_app in F' as [_ F']. inversion F' as [|? ? X _]. apply X. now rewrite EK. }
  subst v'.
  set (c2 := CMapC i pp n k l ii ip kk CHole rr) in *.
  change (TMap i pp n k (l ++ (ii, ip, kk, TLeaf (tid v) (tpre v) sc) :: rr)) with (plug c2 (TLeaf (tid v) (tpre v) sc)) in M'. rewrite <- plug_comp in M'.
  change (TMap i pp n k (l ++ (ii, ip, kk, v) :: rr)) with (plug c2 v) in M. rewrite <- plug_comp in M.
  rewrite <- CP in *.
  pose proof (ready_pre _ _ _ _ _ _ _ _ _ M N0 ST R) as PO.
  pose proof (opens_move _ _ _ _ _ _ _ _ _ _ O RP) as O'.
  assert (AL : forall x, fitting doc (cpath (ccomp c1 c2)) x d -> allowed s x d) by (intros x FX; exact (fitting_allowed _ _ _ _ _ _ _ _ _ _ M N0 O FO FX)).
  destruct (fill _ _ _ _ _ _ _ _ _ _ _ _ _ _ M' N O' AL (outside_item _ _ _ _ _ _ _ _ M N0 O) A PO FL) as [ST' S'].
  exists (ccomp c1 c2), (TLeaf (tid v) (tpre v) sc), suf, s, post, d. split; [exact M'|]. split; [exact O'|]. split; [eapply sim_move; eauto|]. auto.
Qed.
Lemma kind_block doc c v suf : models doc (plug c v) suf -> no_collision (doc_data doc) -> block_at doc (tid v) ->
  match v with TMap _ _ _ k _ | TSeq _ _ _ k _ => k = CBlock | _ => True end.
Proof.
  intros M N (y & P & H). apply (prints_at _ _ _ _ _ M N (sub_plug c v)) in P. subst y. destruct v as [|i p n [|tr sf] items|i p n [|tr sf] items]; auto; exfalso; apply H.
  - rewrite wtree_map. cbn. auto.
  - rewrite wtree_seq. cbn. auto.
Qed.
Lemma flow_kind doc c v suf s post d p o y : models doc (plug c v) suf -> no_collision (doc_data doc) -> stands s post d v p o -> flow_at doc (tid v) y ->
  y = wtree v /\ match v with TMap _ _ _ k _ | TSeq _ _ _ k _ => exists tr sf, k = CInline tr sf | _ => True end.
Proof.
  intros M N ST (P & H). apply (prints_at _ _ _ _ _ M N (sub_plug c v)) in P. subst y. split; [reflexivity|].
  destruct v as [|i pp n [|tr sf] items|i pp n [|tr sf] items]; eauto; exfalso.
  - destruct ST as [(_ & F & _)|[_ V]]; [now apply block_map_head in F|]. cbn [vacant] in V. destruct items; [|exact V]. cbn in H. intuition discriminate.
  - destruct ST as [(_ & F & _)|[_ V]]; [now apply block_seq_head in F|]. cbn [vacant] in V. destruct items; [|exact V]. cbn in H. intuition discriminate.
Qed.
Lemma map_at doc c v suf l : models doc (plug c v) suf -> no_collision (doc_data doc) -> map_entries (doc_data doc) (tid v) l ->
  exists i p n k items, v = TMap i p n k items /\ l = map mview items.
Proof.
  intros M N E. destruct (E) as (it & E1 & _). destruct (map_iter_map _ _ _ _ _ M (sub_plug c v) E1) as (i & p & n & k & items & ->).
  apply (map_list _ _ _ _ _ _ _ _ _ M N (sub_plug c _)) in E. eauto 9.
Qed.
Lemma seq_at doc c v suf l : models doc (plug c v) suf -> no_collision (doc_data doc) -> seq_entries (doc_data doc) (tid v) l ->
  exists i p n k items, v = TSeq i p n k items /\ l = map sview items.
Proof.
  intros M N E. destruct (E) as (it & E1 & _). destruct (seq_iter_seq _ _ _ _ _ M (sub_plug c v) E1) as (i & p & n & k & items & ->).
  apply (seq_list _ _ _ _ _ _ _ _ _ M N (sub_plug c _)) in E. eauto 9.
Qed.
Lemma lines_last_map doc c i p n k items suf : models doc (plug c (TMap i p n k items)) suf -> no_collision (doc_data doc) ->
  (forall j, length items = S j -> in_lines doc (cpath c ++ [j])) -> last_value (each within_line) items.
Proof.
  intros M N H l [[[ii ip] key] v] ->. cbn [snd]. rewrite app_length in H. cbn [length] in H. specialize (H (length l) ltac:(lia)).
  apply (in_lines_each doc (ccomp c (CMapC i p n k l ii ip key CHole [])) v suf); [now rewrite plug_comp|exact N|]. now rewrite cpath_comp.
Qed.
Lemma lines_last_seq doc c i p n k items suf : models doc (plug c (TSeq i p n k items)) suf -> no_collision (doc_data doc) ->
  (forall j, length items = S j -> in_lines doc (cpath c ++ [j])) -> last_item (each within_line) items.
Proof.
  intros M N H l [[ii ip] v] ->. cbn [snd]. rewrite app_length in H. cbn [length] in H. specialize (H (length l) ltac:(lia)).
  apply (in_lines_each doc (ccomp c (CSeqC i p n k l ii ip CHole [])) v suf); [now rewrite plug_comp|exact N|]. now rewrite cpath_comp.
Qed.
Lemma filled_last_map doc c i p n k items suf : models doc (plug c (TMap i p n k items)) suf -> no_collision (doc_data doc) ->
  (forall j, length items = S j -> filled doc (cpath c ++ [j])) -> last_value (each visible) items.
Proof.
  intros M N H l [[[ii ip] key] v] ->. cbn [snd]. rewrite app_length in H. cbn [length] in H. specialize (H (length l) ltac:(lia)).
  apply (filled_each doc (ccomp c (CMapC i p n k l ii ip key CHole [])) v suf); [now rewrite plug_comp|exact N|]. now rewrite cpath_comp.
Qed.
Lemma filled_last_seq doc c i p n k items suf : models doc (plug c (TSeq i p n k items)) suf -> no_collision (doc_data doc) ->
  (forall j, length items = S j -> filled doc (cpath c ++ [j])) -> last_item (fun v => each visible v /\ wtree v <> []) items.
Proof.
  intros M N H l [[ii ip] v] ->. cbn [snd]. rewrite app_length in H. cbn [length] in H. specialize (H (length l) ltac:(lia)).
  apply (filled_each doc (ccomp c (CSeqC i p n k l ii ip CHole [])) v suf); [now rewrite plug_comp|exact N|]. now rewrite cpath_comp.
Qed.
Lemma sim_map_inv (t : tree nat) m : sim (see t) (DMap m) -> exists l, see t = DMap l /\ Forall2 (fun x y => fst x = fst y /\ sim (snd x) (snd y)) l m.
Proof. intros S. inversion S; subst. eauto. Qed.
Lemma step_insert_new doc D o p id e key l h d' d m D' o' : inv doc D o -> no_collision d' -> place doc p id -> run hash id e (doc_data doc) = Ok (Handle h, d') ->
  insert_key e = Some key -> map_entries (doc_data doc) id l -> ~ In key (map fst l) -> at_hand p o -> room_key doc p id key l ->
  fills hash doc (edited doc d') (p ++ [length l]) h e d o' -> replaced (DMap m) (DMap (m ++ [(key, d)])) p D D' -> inv (edited doc d') D' o'.
Proof.
  intros I N P E IK ME NI AH RK FL RP. pose proof (before _ _ _ _ _ _ _ _ I N P E) as N0.
  destruct (focus _ _ _ _ _ I N0 P AH) as (c & v & suf & s & post & d0 & M & <- & <- & O & S & FO & ST).
  destruct (map_at _ _ _ _ _ M N0 ME) as (i & pp & n & k & items & -> & ->). rewrite map_length in *. apply other_first in NI.
  destruct (edit_step hash _ _ _ _ _ _ _ M E) as (v' & TI & M' & G & EF). specialize (EF N).
  destruct (effect_insert _ _ _ _ _ _ EF IK eq_refl) as (sp & sc & h' & EH & A & KS & IN). injection EH as <-.
  pose proof (fills_key _ _ _ _ _ _ _ _ _ _ FL KS) as SO. set (sep := match sp with Custom x => x | Auto => [SPACE] end) in *.
  assert (V : exists ii, v' = plug (CMapC i pp n k items ii (item_gap n items) (RS KBare key key) CHole []) (TLeaf h sep sc)).
  { clear - IN NI. remember (TMap i pp n k items) as t eqn:ET. destruct IN as [i0 p0 n0 k0 l' ii' ip' kk' w r' K' F'|i0 p0 n0 k0 items' ii' vi F'].
    - exfalso. injection ET as _ _ _ _ ET. subst items. apply Forall_app in NI as [_ F]. inversion F as [|? ? X _]. now elim X.
    - injection ET as -> -> -> -> ->. exists ii'. reflexivity. }
  destruct V as [ii ->]. pose proof (opens_old _ _ _ _ _ _ _ _ _ _ O RP) as <-.
  pose proof (sim_old _ _ _ _ _ _ S RP) as SV.
  set (c2 := CMapC i pp n k items ii (item_gap n items) (RS KBare key key) CHole []) in *.
  assert (O2 : exists s0 post0, opens s c2 post s0 post0 d (DMap (m ++ [(key, d)]))).
  { destruct RK as [(BA & PK & ND & DS & IL)|(y & FA & FK & YE)].
    - pose proof (kind_block _ _ _ _ M N0 BA) as KB. cbn in KB. subst k. exists (SVal n), post. apply insert_opens.
      + destruct ST as [(_ & F & NT)|[_ V]]; [right; split; [exact F|exact NT]|]. left. cbn [vacant] in V. destruct items; [|contradiction]. split; [reflexivity|]. split; [|exact V].
        destruct (sim_map_inv _ _ SV) as (? & X & F2). injection X as <-. now inversion F2.
      + apply O.
      + exact PK.
      + intros NE. apply ND. intros X. apply NE. now apply map_eq_nil in X.
      + apply (lines_last_map _ _ _ _ _ _ _ _ M N0). intros j X. apply IL. now rewrite map_length.
      + intros -> ->. apply DS; [|reflexivity]. destruct O as (_ & _ & R & _). now rewrite (R eq_refl).
    - destruct (flow_kind _ _ _ _ _ _ _ _ _ _ M N0 ST FA) as (EY & tr & sf & ->). destruct ST as [(_ & F & NT)|[_ V]]; [|contradiction V].
      exists (SItem false (if tr then COMMA else RBRACE)), []. apply insert_opens_flow; [exact F|exact FK|].
      intros ->. rewrite (YE eq_refl), wtree_map in EY. destruct sf; [reflexivity|]. exfalso. apply (f_equal (@length _)) in EY. cbn [closing] in EY. rewrite !app_length in EY. cbn in EY. lia. }
  destruct O2 as (s0 & post0 & O2). assert (NE : c2 <> CHole) by discriminate.
  pose proof (opens_comp _ _ _ _ _ _ _ _ _ _ _ _ _ O O2 NE RP) as O3. rewrite <- plug_comp in M'.
  assert (CP : cpath (ccomp c c2) = cpath c ++ [length items]) by apply cpath_comp. match type of FL with fills _ _ _ ?z _ _ _ _ => replace z with (cpath (ccomp c c2)) in FL by exact CP end.
  assert (PO : pre_ok s0 sep) by (apply gap_pre; subst sep; destruct sp; try apply space_gap; apply SO).
  assert (AL : forall x, fitting doc (cpath (ccomp c c2)) x d -> allowed s0 x d).
  { intros x FX. match type of FX with fitting _ ?z _ _ => replace z with (cpath c ++ [length items]) in FX by (symmetry; exact CP) end. exact (fitting_new_map _ _ _ _ _ _ _ _ _ _ _ _ _ _ _ _ _ _ _ _ _ _ _ M N0 ST O O3 FX). }
  assert (OI : outside doc (cpath (ccomp c c2)) -> is_item s0 = false).
  { intros OU. destruct O3 as (_ & IS & _). rewrite IS. apply orb_false_iff. split; [reflexivity|].
    match type of OU with outside _ ?z => replace z with (cpath c ++ [length items]) in OU by (symmetry; exact CP) end.
    destruct (outside_block _ _ _ _ _ M N0 OU) as [F1 F2]. subst c2 k. now rewrite in_flow_comp, F1. }
  destruct (fill _ _ _ _ _ _ _ _ _ _ _ _ _ _ M' N O3 AL OI A PO FL) as [ST' S'].
  exists (ccomp c c2), (TLeaf h sep sc), suf, s0, post0, d. split; [exact M'|]. split; [exact O3|]. split; [|auto].
  rewrite plug_comp. eapply sim_move; [exact S|exact RP|]. destruct (sim_map_inv _ _ SV) as (L & X & F2). cbn in X. injection X as <-.
  subst c2. cbn [plug see]. rewrite map_app. constructor. apply Forall2_app; [exact F2|]. constructor; [|constructor]. cbn. auto.
Qed.
Lemma rev_last {A B} (f : A -> B) (z : B) (l : list A) : (exists r x, l = r ++ [x] /\ match rev l with y :: _ => f y | [] => z end = f x) \/ l = [].
Proof. destruct (last_split l) as [->|(r & x & ->)]; [now right|]. left. exists r, x. split; [reflexivity|]. now rewrite rev_unit. Qed.
Lemma step_push doc D o p id e l h d' d m D' o' : inv doc D o -> no_collision d' -> place doc p id -> run hash id e (doc_data doc) = Ok (Handle h, d') ->
  push_call e -> seq_entries (doc_data doc) id l -> at_hand p o -> room_item doc p id l ->
  fills hash doc (edited doc d') (p ++ [length l]) h e d o' -> replaced (DSeq m) (DSeq (m ++ [d])) p D D' -> inv (edited doc d') D' o'.
Proof.
  intros I N P E PC ME AH RI FL RP. pose proof (before _ _ _ _ _ _ _ _ I N P E) as N0.
  destruct (focus _ _ _ _ _ I N0 P AH) as (c & v & suf & s & post & d0 & M & <- & <- & O & S & FO & ST).
  destruct (seq_at _ _ _ _ _ M N0 ME) as (i & pp & n & k & items & -> & ->). rewrite map_length in *.
  destruct (edit_step hash _ _ _ _ _ _ _ M E) as (v' & TI & M' & G & EF). specialize (EF N).
  destruct (effect_push _ _ _ _ _ EF PC eq_refl) as (sp & sc & h' & EH & A & KS & IN). injection EH as <-.
  pose proof (fills_push _ _ _ _ _ _ _ _ _ FL KS) as SO.
  set (sep := match sp with Custom x => x | Auto => match rev items with (_, _, v) :: _ => tpre v | [] => [SPACE] end end) in *.
  assert (V : exists ii, v' = plug (CSeqC i pp n k items ii (item_gap n items) CHole []) (TLeaf h sep sc)).
  { clear - IN. remember (TSeq i pp n k items) as t eqn:ET. destruct IN as [i0 p0 n0 k0 items' ii' vi]. injection ET as -> -> -> -> ->. exists ii'. reflexivity. }
  destruct V as [ii ->]. pose proof (opens_old _ _ _ _ _ _ _ _ _ _ O RP) as <-.
  pose proof (sim_old _ _ _ _ _ _ S RP) as SV.
  set (c2 := CSeqC i pp n k items ii (item_gap n items) CHole []) in *.
  assert (O2 : exists s0 post0, opens s c2 post s0 post0 d (DSeq (m ++ [d])) /\ pre_ok s0 sep).
  { destruct RI as [(BA & IL)|(y & FA)].
    - pose proof (kind_block _ _ _ _ M N0 BA) as KB. cbn in KB. subst k. exists (SDash (1 + n)), post.
      assert (VI : last_item (fun v => each visible v /\ wtree v <> []) items).
      { apply (filled_last_seq _ _ _ _ _ _ _ _ M N0). intros j X. apply IL. now rewrite map_length. }
      split.
      + apply push_opens.
        * destruct ST as [(_ & F & NT)|[_ V]]; [right; split; [exact F|exact NT]|]. left. cbn [vacant] in V. destruct items; [|contradiction]. split; [reflexivity|]. split; [|exact V].
          inversion SV as [| | | | |? ? F2]; subst. now inversion F2.
        * apply O.
        * apply (lines_last_seq _ _ _ _ _ _ _ _ M N0). intros j X. apply IL. now rewrite map_length.
        * intros l it EI. apply (VI l it EI).
      + subst sep. destruct sp as [|x]; [|now apply gap_pre; apply SO].
        destruct (rev_last (fun it : sitem nat => let '(_, _, v) := it in tpre v) [SPACE] items) as [(l & [[jj jp] w] & EI & X)|EI].
        * match goal with |- pre_ok _ ?z => replace z with (tpre w) by (symmetry; exact X) end.
          destruct (VI _ _ EI) as [_ WN]. cbn [snd] in WN. destruct ST as [(_ & F & NT)|[_ V]]; [|cbn [vacant] in V; rewrite EI in V; destruct l; contradiction].
          change (TSeq i pp n CBlock items) with (TSeq i pp n CBlock items) in F. rewrite EI in F, NT.
          change (TSeq i pp n CBlock (l ++ [(jj, jp, w)])) with (plug (CSeqC i pp n CBlock l jj jp CHole []) w) in F, NT.
          destruct (hole _ _ _ _ _ F NT (proj1 (proj1 O))) as (s3 & d3 & post3 & F3 & _ & (_ & IS & R3 & _)).
          rewrite <- wtree_shape in WN. pose proof (fits_pre _ _ _ _ F3 WN) as PP. rewrite tpre_shape in PP.
          cbn [plug] in F. rewrite shape_seq in F. apply fits_bseq in F as (? & _ & FR & _).
          destruct s3 as [|a|a|a1 a2]; [now specialize (R3 eq_refl)|exact PP|exact PP|]. destruct s; try discriminate IS. contradiction FR.
        * rewrite EI. cbn. apply space_gap.
    - destruct (flow_kind _ _ _ _ _ _ _ _ _ _ M N0 ST FA) as (EY & tr & sf & ->). destruct ST as [(_ & F & NT)|[_ V]]; [|contradiction V].
      eexists _, []. split; [apply push_opens_flow; exact F|].
      subst sep. destruct sp as [|x]; [|now apply gap_pre; apply SO].
      destruct (rev_last (fun it : sitem nat => let '(_, _, v) := it in tpre v) [SPACE] items) as [(l & [[jj jp] w] & EI & X)|EI].
      + match goal with |- pre_ok _ ?z => replace z with (tpre w) by (symmetry; exact X) end.
        rewrite EI, shape_seq, map_app in F. apply fits_fseq in F as (? & _ & _ & LF). cbn [map] in LF.
        destruct (lfseq_at _ _ _ _ _ _ _ _ LF) as (L1 & d3 & L2 & c3 & _ & _ & (C & U & _) & _). rewrite tpre_shape in C, U. cbn. auto.
      + rewrite EI. apply gap_pre; apply space_gap. }
  destruct O2 as (s0 & post0 & O2 & PO). assert (NE : c2 <> CHole) by discriminate.
  pose proof (opens_comp _ _ _ _ _ _ _ _ _ _ _ _ _ O O2 NE RP) as O3. rewrite <- plug_comp in M'.
  assert (CP : cpath (ccomp c c2) = cpath c ++ [length items]) by apply cpath_comp. match type of FL with fills _ _ _ ?z _ _ _ _ => replace z with (cpath (ccomp c c2)) in FL by exact CP end.
  assert (AL : forall x, fitting doc (cpath (ccomp c c2)) x d -> allowed s0 x d).
  { intros x FX. match type of FX with fitting _ ?z _ _ => replace z with (cpath c ++ [length items]) in FX by (symmetry; exact CP) end. exact (fitting_new_seq _ _ _ _ _ _ _ _ _ _ _ _ _ _ _ _ _ _ _ _ _ _ M N0 ST O O3 FX). }
  assert (OI : outside doc (cpath (ccomp c c2)) -> is_item s0 = false).
  { intros OU. destruct O3 as (_ & IS & _). rewrite IS. apply orb_false_iff. split; [reflexivity|].
    match type of OU with outside _ ?z => replace z with (cpath c ++ [length items]) in OU by (symmetry; exact CP) end.
    destruct (outside_block _ _ _ _ _ M N0 OU) as [F1 F2]. subst c2 k. now rewrite in_flow_comp, F1. }
  destruct (fill _ _ _ _ _ _ _ _ _ _ _ _ _ _ M' N O3 AL OI A PO FL) as [ST' S'].
  exists (ccomp c c2), (TLeaf h sep sc), suf, s0, post0, d. split; [exact M'|]. split; [exact O3|]. split; [|auto].
  rewrite plug_comp. eapply sim_move; [exact S|exact RP|]. inversion SV as [| | | | |? ? F2]; subst.
  subst c2. cbn [plug see]. rewrite map_app. constructor. apply Forall2_app; [exact F2|]. constructor; [|constructor]. exact S'.
Qed.
Lemma step_remove_key doc D p id key l1 h l2 d' m1 x m2 D' o' : inv doc D None -> no_collision d' -> place doc p id -> run hash id (RemoveKey key) (doc_data doc) = Ok (Removed true, d') ->
  map_entries (doc_data doc) id (l1 ++ (key, h) :: l2) -> ~ In key (map fst l1) -> closes_key doc (edited doc d') p id l1 l2 o' -> length m1 = length l1 ->
  replaced (DMap (m1 ++ x :: m2)) (DMap (m1 ++ m2)) p D D' -> inv (edited doc d') D' o'.
Proof.
  intros I N P E ME NI CL LE RP. pose proof (before _ _ _ _ _ _ _ _ I N P E) as N0.
  destruct (focus _ _ _ _ _ I N0 P (or_introl eq_refl)) as (c & v & suf & s & post & d0 & M & <- & <- & O & S & FO & ST).
  destruct (map_at _ _ _ _ _ M N0 ME) as (i & pp & n & k & items & -> & EL). symmetry in EL. apply map_eq_app in EL as (la & lb0 & -> & <- & EL).
  apply map_eq_cons in EL as (it & lb & -> & EI & <-). rewrite map_length in LE. apply other_first in NI.
  destruct (edit_step hash _ _ _ _ _ _ _ M E) as (v' & TI & M' & G & EF). specialize (EF N).
  assert (KI : rs_id (mkey it) = key) by (unfold mview in EI; congruence).
  assert (V : v' = TMap i pp n k (la ++ lb)).
  { inversion EF as [| | | | | |? ? ? RK| | | | | |]; subst. clear - RK NI. remember (TMap i pp n k (la ++ it :: lb)) as t eqn:ET. remember true as bb.
    destruct RK as [i0 p0 n0 k0 l' it' r' K' F'|]; [|discriminate]. injection ET as -> -> -> -> ET.
    apply (first_one (other_key (rs_id (mkey it)))) in ET as (-> & _ & ->); auto. }
  subst v'. pose proof (opens_old _ _ _ _ _ _ _ _ _ _ O RP) as <-. pose proof (opens_move _ _ _ _ _ _ _ _ _ _ O RP) as O'.
  pose proof (sim_old _ _ _ _ _ _ S RP) as SV.
  assert (S' : sim (see (TMap i pp n k (la ++ lb))) (DMap (m1 ++ m2))).
  { destruct (sim_map_inv _ _ SV) as (L & X & F2). cbn in X. injection X as <-. rewrite map_app in F2. cbn [map] in F2. apply forall2_mid in F2 as (F1 & _ & F3); [|rewrite map_length; auto].
    cbn [see]. rewrite map_app. constructor. now apply Forall2_app. }
  exists c, (TMap i pp n k (la ++ lb)), suf, s, post, (DMap (m1 ++ m2)). split; [exact M'|]. split; [exact O'|]. split; [eapply sim_move; eauto|]. split; [exact FO|].
  destruct ST as [(_ & F & NT)|[X _]]; [|discriminate].
  destruct CL as [(BA & NE & -> & DS & ND & IL)|[(BA & NE & ->)|(y & y' & FA & PR & -> & EE)]].
  - left. split; [reflexivity|]. pose proof (kind_block _ _ _ _ M N0 BA) as KB. cbn in KB. subst k.
    assert (ML : models doc (plug c (TMap i pp n CBlock (la ++ it :: lb))) suf) by exact M.
    destruct (remove_key_fits s pp n la it lb (m1 ++ x :: m2) post) as (L1 & x' & L2 & EM & LL & K).
    + split; [exact F|exact NT].
    + apply O.
    + rewrite <- map_app in NE. intros X. apply NE. now rewrite X.
    + intros -> -> kt r' ->. cbn [map] in DS. destruct (mview kt) as [kk xx] eqn:EK. unfold mview in EK. injection EK as -> _. eapply DS; [|reflexivity|reflexivity].
      destruct O as (_ & _ & R & _). now rewrite (R eq_refl).
    + intros NL kt r' ->. cbn [map] in ND. destruct (mview kt) as [kk xx] eqn:EK. unfold mview in EK. injection EK as -> _. eapply ND; [|reflexivity]. intros X. apply NL. now apply map_eq_nil in X.
    + intros l' [[[ji jp] jk] w] ->. cbn [snd]. apply (in_lines_each doc (ccomp c (CMapC i pp n CBlock l' ji jp jk CHole (it :: lb))) w suf); [|exact N0|].
      * rewrite plug_comp. cbn [plug]. now rewrite <- app_assoc in M.
      * rewrite cpath_comp. apply IL. now rewrite map_length, app_length, Nat.add_comm.
    + intros -> l' [[[ji jp] jk] w] ->. cbn [snd]. apply (filled_each doc (ccomp c (CMapC i pp n CBlock l' ji jp jk CHole [it])) w suf); [|exact N0|].
      * rewrite plug_comp. cbn [plug]. now rewrite <- app_assoc in M.
      * rewrite cpath_comp. apply IL; [|reflexivity]. now rewrite map_length, app_length, Nat.add_comm.
    + apply mid_inj in EM as (-> & _ & ->); [|congruence]. exact K.
  - right. split; [reflexivity|]. pose proof (kind_block _ _ _ _ M N0 BA) as KB. cbn in KB. subst k. rewrite <- map_app in NE. apply map_eq_nil in NE. rewrite NE. cbn [vacant].
    rewrite shape_map in F. apply fits_bmap in F as (? & _ & FR & _). exact FR.
  - left. split; [reflexivity|]. destruct (flow_kind _ _ _ _ _ _ _ [] None _ M N0 (or_introl (conj eq_refl (conj F NT))) FA) as (EY & tr & sf & ->).
    destruct (la ++ lb) as [|jt jr] eqn:X.
    + apply (prints_at _ _ _ _ _ M' N (sub_plug c _)) in PR. subst y'. rewrite <- map_app, X in EE. specialize (EE eq_refl). apply flow_empty_map in EE as [-> CS]; [|reflexivity].
      split; [|constructor]. rewrite shape_map in F |- *. apply fits_fmap in F as (? & _ & FF & _). apply fits_fmap. exists [].
      apply app_eq_nil in X as [-> ->]. destruct m1; [|discriminate]. destruct (sim_map_inv _ _ S') as (L & X & F2). injection X as <-. inversion F2. split; [reflexivity|].
      split; [exact FF|]. now constructor.
    + destruct (remove_key_flow s pp n tr sf la it lb (m1 ++ x :: m2) post) as (L1 & x' & L2 & EM & LL & K).
      * split; [exact F|exact NT].
      * now rewrite X.
      * apply mid_inj in EM as (-> & _ & ->); [|congruence]. rewrite X in K. exact K.
Qed.
Lemma step_remove_at doc D p id l1 h l2 d' m1 x m2 D' o' : inv doc D None -> no_collision d' -> place doc p id -> run hash id (RemoveIndex (length l1)) (doc_data doc) = Ok (Removed true, d') ->
  seq_entries (doc_data doc) id (l1 ++ h :: l2) -> closes_item doc (edited doc d') p id l1 l2 o' -> length m1 = length l1 ->
  replaced (DSeq (m1 ++ x :: m2)) (DSeq (m1 ++ m2)) p D D' -> inv (edited doc d') D' o'.
Proof.
  intros I N P E ME CL LE RP. pose proof (before _ _ _ _ _ _ _ _ I N P E) as N0.
  destruct (focus _ _ _ _ _ I N0 P (or_introl eq_refl)) as (c & v & suf & s & post & d0 & M & <- & <- & O & S & FO & ST).
  destruct (seq_at _ _ _ _ _ M N0 ME) as (i & pp & n & k & items & -> & EL). symmetry in EL. apply map_eq_app in EL as (la & lb0 & -> & <- & EL).
  apply map_eq_cons in EL as (it & lb & -> & EI & <-). rewrite map_length in *.
  destruct (edit_step hash _ _ _ _ _ _ _ M E) as (v' & TI & M' & G & EF). specialize (EF N).
  assert (V : v' = TSeq i pp n k (la ++ lb)).
  { inversion EF as [| | | | | | | | |? ? ? RK| | |]; subst. clear - RK. remember (TSeq i pp n k (la ++ it :: lb)) as t eqn:ET. remember true as bb.
    destruct RK as [i0 p0 n0 k0 l' it' r' K'|]; [|discriminate]. injection ET as -> -> -> -> ET.
    apply mid_inj in ET as (-> & _ & ->); auto. }
  subst v'. pose proof (opens_old _ _ _ _ _ _ _ _ _ _ O RP) as <-. pose proof (opens_move _ _ _ _ _ _ _ _ _ _ O RP) as O'.
  pose proof (sim_old _ _ _ _ _ _ S RP) as SV.
  assert (S' : sim (see (TSeq i pp n k (la ++ lb))) (DSeq (m1 ++ m2))).
  { inversion SV as [| | | | |? ? F2]; subst. rewrite map_app in F2. cbn [map] in F2. apply forall2_mid in F2 as (F1 & _ & F3); [|rewrite map_length; auto].
    cbn [see]. rewrite map_app. constructor. now apply Forall2_app. }
  exists c, (TSeq i pp n k (la ++ lb)), suf, s, post, (DSeq (m1 ++ m2)). split; [exact M'|]. split; [exact O'|]. split; [eapply sim_move; eauto|]. split; [exact FO|].
  destruct ST as [(_ & F & NT)|[X _]]; [|discriminate].
  destruct CL as [(BA & NE & -> & IL)|[(BA & NE & ->)|(y & y' & FA & PR & -> & NS & EE)]].
  - left. split; [reflexivity|]. pose proof (kind_block _ _ _ _ M N0 BA) as KB. cbn in KB. subst k.
    assert (LI : forall l' ji jp w, la = l' ++ [(ji, jp, w)] -> each within_line w /\ each visible w).
    { intros l' ji jp w ->. rewrite map_length, app_length in IL. cbn [length] in IL. destruct (IL (length l') ltac:(lia)) as [IL1 IL2].
      assert (M2 : models doc (plug (ccomp c (CSeqC i pp n CBlock l' ji jp CHole (it :: lb))) w) suf) by (rewrite plug_comp; cbn [plug]; now rewrite <- app_assoc in M).
      assert (CP : cpath (ccomp c (CSeqC i pp n CBlock l' ji jp CHole (it :: lb))) = cpath c ++ [length l']) by apply cpath_comp.
      split; [eapply (in_lines_each doc _ w suf M2 N0)|eapply (filled_each doc _ w suf M2 N0)]; now rewrite CP. }
    destruct (remove_at_fits s pp n la it lb (m1 ++ x :: m2) post) as (L1 & x' & L2 & EM & LL & K).
    + split; [exact F|exact NT].
    + apply O.
    + rewrite <- map_app in NE. intros X. apply NE. now rewrite X.
    + intros l' [[ji jp] w] EL. cbn [snd]. now apply (LI l' ji jp).
    + intros l' [[ji jp] w] EL. cbn [snd]. now apply (LI l' ji jp).
    + apply mid_inj in EM as (-> & _ & ->); [|congruence]. exact K.
  - right. split; [reflexivity|]. pose proof (kind_block _ _ _ _ M N0 BA) as KB. cbn in KB. subst k. rewrite <- map_app in NE. apply map_eq_nil in NE. rewrite NE. cbn [vacant].
    rewrite shape_seq in F. apply fits_bseq in F as (? & _ & FR & _ & LS). split; [exact FR|]. eapply lseq_ends; eauto.
  - left. split; [reflexivity|]. destruct (flow_kind _ _ _ _ _ _ _ [] None _ M N0 (or_introl (conj eq_refl (conj F NT))) FA) as (EY & tr & sf & ->).
    apply (prints_at _ _ _ _ _ M' N (sub_plug c _)) in PR. subst y'.
    destruct lb as [|jt jr]; [destruct (last_split la) as [->|(lc & jt & EA)]|].
    + cbn [app map] in *. specialize (EE eq_refl). apply flow_empty_seq in EE as [-> CS]; [|reflexivity].
      split; [|constructor]. rewrite shape_seq in F |- *. apply fits_fseq in F as (? & _ & FF & _). apply fits_fseq. exists [].
      destruct m1; [|discriminate]. inversion S' as [| | | | |? ? F2]; subst. inversion F2. split; [reflexivity|].
      split; [exact FF|]. now constructor.
    + assert (NA : la <> []) by (rewrite EA; now destruct lc). rewrite app_nil_r in *. cbn [map] in NS.
      specialize (NS eq_refl). assert (NM : map sview la <> []) by now destruct la. specialize (NS NM).
      rewrite shape_seq in F |- *. apply fits_fseq in F as (L0 & EL0 & FF & LF). injection EL0 as EL0. rewrite map_app in LF. cbn [map] in LF.
      pose proof (lfseq_closed _ _ _ _ LF) as CS. pose proof (end_closing _ _ _ _ _ _ CS NS) as EC.
      destruct (lfseq_drop_last _ _ _ _ _ LF) as (L1 & x' & -> & LL & LF'); [now destruct la|exact EC|]. rewrite map_length in LL.
      apply mid_inj in EL0 as (-> & _ & EM2); [|congruence]. subst m2. rewrite app_nil_r. split; [|constructor].
      apply fits_fseq. exists L1. auto.
    + destruct (remove_at_flow s pp n tr sf la it (jt :: jr) (m1 ++ x :: m2) post) as (L1 & x' & L2 & EM & LL & K).
      * split; [exact F|exact NT].
      * discriminate.
      * apply mid_inj in EM as (-> & _ & ->); [|congruence]. exact K.
Qed.
Lemma step_clear_map doc D o p id r l m d' D' o' : inv doc D o -> no_collision d' -> place doc p id -> run hash id ClearMapping (doc_data doc) = Ok (r, d') ->
  map_entries (doc_data doc) id l -> at_hand p o -> clears doc (edited doc d') p id (DMap []) o' -> replaced (DMap m) (DMap []) p D D' -> inv (edited doc d') D' o'.
Proof.
  intros I N P E ME AH CL RP. pose proof (before _ _ _ _ _ _ _ _ I N P E) as N0.
  destruct (focus _ _ _ _ _ I N0 P AH) as (c & v & suf & s & post & d0 & M & <- & <- & O & S & FO & ST).
  destruct (map_at _ _ _ _ _ M N0 ME) as (i & pp & n & k & items & -> & EL).
  destruct (edit_step hash _ _ _ _ _ _ _ M E) as (v' & TI & M' & G & EF). specialize (EF N).
  assert (V : v' = TMap i pp n k []).
  { clear - EF. remember (TMap i pp n k items) as v eqn:EV. remember ClearMapping as ee eqn:EE. destruct EF; subst; try discriminate; [congruence|]. destruct H0 as [X|[X|[? X]]]; [now elim X|discriminate X..]. }
  subst v'. pose proof (opens_move _ _ _ _ _ _ _ _ _ _ O RP) as O'.
  exists c, (TMap i pp n k []), suf, s, post, (DMap []). split; [exact M'|]. split; [exact O'|]. split; [eapply sim_move; [exact S|exact RP|]; constructor; constructor|]. split; [exact FO|].
  destruct CL as [(BA & ->)|(y & y' & FA & PR & FL & ->)].
  - right. split; [reflexivity|]. pose proof (kind_block _ _ _ _ M N0 BA) as KB. cbn in KB. subst k. cbn [vacant].
    destruct ST as [(_ & F & NT)|[_ V]].
    + rewrite shape_map in F. apply fits_bmap in F as (? & _ & FR & _). exact FR.
    + cbn [vacant] in V. destruct items; [exact V|contradiction].
  - left. split; [reflexivity|]. destruct (flow_kind _ _ _ _ _ _ _ _ _ _ M N0 ST FA) as (EY & tr & sf & ->).
    apply (prints_at _ _ _ _ _ M' N (sub_plug c _)) in PR. subst y'. apply flow_empty_map in FL as [-> CS]; [|reflexivity].
    destruct ST as [(_ & F & NT)|[_ V]]; [|contradiction V]. split; [|constructor]. rewrite shape_map in F |- *. apply fits_fmap in F as (? & _ & FF & _). apply fits_fmap. exists [].
    split; [reflexivity|]. split; [exact FF|]. now constructor.
Qed.
Lemma step_clear_seq doc D o p id r l m d' D' o' : inv doc D o -> no_collision d' -> place doc p id -> run hash id ClearSequence (doc_data doc) = Ok (r, d') ->
  seq_entries (doc_data doc) id l -> at_hand p o -> clears doc (edited doc d') p id (DSeq []) o' -> replaced (DSeq m) (DSeq []) p D D' -> inv (edited doc d') D' o'.
Proof.
  intros I N P E ME AH CL RP. pose proof (before _ _ _ _ _ _ _ _ I N P E) as N0.
  destruct (focus _ _ _ _ _ I N0 P AH) as (c & v & suf & s & post & d0 & M & <- & <- & O & S & FO & ST).
  destruct (seq_at _ _ _ _ _ M N0 ME) as (i & pp & n & k & items & -> & EL).
  destruct (edit_step hash _ _ _ _ _ _ _ M E) as (v' & TI & M' & G & EF). specialize (EF N).
  assert (V : v' = TSeq i pp n k []).
  { clear - EF. remember (TSeq i pp n k items) as v eqn:EV. remember ClearSequence as ee eqn:EE. destruct EF; subst; try discriminate; [congruence|]. destruct H0 as [X|[X|[? X]]]; [now elim X|discriminate X..]. }
  subst v'. pose proof (opens_move _ _ _ _ _ _ _ _ _ _ O RP) as O'.
  exists c, (TSeq i pp n k []), suf, s, post, (DSeq []). split; [exact M'|]. split; [exact O'|]. split; [eapply sim_move; [exact S|exact RP|]; constructor; constructor|]. split; [exact FO|].
  destruct CL as [(BA & ->)|(y & y' & FA & PR & FL & ->)].
  - right. split; [reflexivity|]. pose proof (kind_block _ _ _ _ M N0 BA) as KB. cbn in KB. subst k. cbn [vacant].
    destruct ST as [(_ & F & NT)|[_ V]].
    + rewrite shape_seq in F. apply fits_bseq in F as (? & _ & FR & _ & LS). split; [exact FR|]. eapply lseq_ends; eauto.
    + cbn [vacant] in V. destruct items; [exact V|contradiction].
  - left. split; [reflexivity|]. destruct (flow_kind _ _ _ _ _ _ _ _ _ _ M N0 ST FA) as (EY & tr & sf & ->).
    apply (prints_at _ _ _ _ _ M' N (sub_plug c _)) in PR. subst y'. apply flow_empty_seq in FL as [-> CS]; [|reflexivity].
    destruct ST as [(_ & F & NT)|[_ V]]; [|contradiction V]. split; [|constructor]. rewrite shape_seq in F |- *. apply fits_fseq in F as (? & _ & FF & _). apply fits_fseq. exists [].
    split; [reflexivity|]. split; [exact FF|]. now constructor.
Qed.
Lemma start_count n p : line_start n p -> n = count_indent p.
Proof.
  assert (H : forall a t, (a = [] \/ exists a', a = a' ++ [NEWLINE]) -> Forall blank t -> length t = count_indent (a ++ t)).
  { intros a t A F. unfold count_indent. rewrite (blanks_last _ _ A F), (blank_chars _ F). now rewrite map_length. }
  intros [[F <-]|(u & t & -> & _ & F & <-)]; [apply (H [] p); auto|]. rewrite app_assoc. apply H; eauto.
Qed.
Lemma closed_start p : closed p -> line_start (count_indent p) p.
Proof.
  intros C. assert (H : exists n, line_start n p).
  { induction C as [|c w W C (n & IH)|s w NI C (n & IH)].
    - exists 0%nat. left. auto.
    - destruct IH as [[F <-]|(u & t & -> & CU & F & <-)].
      + destruct (N.eq_dec c NEWLINE) as [->|NE].
        * exists (length w). right. exists [], w. cbn. split; [reflexivity|]. split; [|auto]. constructor; [exact W|constructor].
        * exists (S (length w)). left. split; [|reflexivity]. constructor; [|exact F]. unfold white, blank in *. cbn in *. assert (10 <> c) by (unfold NEWLINE in NE; congruence). tauto.
      + exists (length t). right. exists (c :: u), t. split; [reflexivity|]. split; [|auto]. cbn [app]. now constructor.
    - destruct IH as [[F <-]|(u & t & -> & CU & F & <-)].
      + exists (length w). right. exists (b "#" ++ s), w. split; [now rewrite <- app_assoc|]. split; [|auto].
        rewrite <- app_assoc. apply (cl_comment s []); [exact NI|constructor].
      + exists (length t). right. exists (b "#" ++ s ++ [NEWLINE] ++ u), t. split; [now rewrite <- !app_assoc|]. split; [|auto].
        rewrite <- !app_assoc. apply cl_comment; auto. }
  destruct H as [n H]. now rewrite <- (start_count _ _ H).
Qed.
Lemma root_pre (v : tree nat) d suf : ldoc (shape v) d suf -> closed (tpre v).
Proof.
  intros L. rewrite <- tpre_shape. inversion L; subst; auto; cbn [tpre]; eapply line_start_closed; eauto.
Qed.
Lemma settled_comp c c2 : c2 <> CHole -> settled c2 -> settled (ccomp c c2).
Proof.
  intros NE F. induction c as [|i p n k l ii ip key c IH r|i p n k l ii ip c IH r]; cbn [ccomp]; [exact F| |];
    cbn [settled]; destruct (ccomp c c2) eqn:E; auto; apply ccomp_hole in E as [_ E]; contradiction.
Qed.
Lemma make_frame doc c v suf s post d D o n p : models doc (plug c v) suf -> no_collision (doc_data doc) -> opens SRoot c suf s post d D -> follow_ok SRoot suf ->
  stands s post d v (cpath c) o -> room_block doc (cpath c) -> amake c v = (n, p) -> frame s true p n post.
Proof.
  intros M N O FO ST [OU RB] A. apply (outside_flow _ _ _ _ M N) in OU. destruct O as ((FP & _) & IS & R & H0 & SE & _). rewrite OU in IS. cbn in IS.
  destruct (last_split (cpath c)) as [CP|(q & j & CP)].
  - destruct c; try discriminate CP. rewrite (H0 eq_refl) in *. cbn in A. injection A as <- <-. cbn [frame]. split; [|apply FP].
    apply closed_start. destruct ST as [(_ & F & _)|[_ V]]; [now apply root_pre in F|]. now apply vacant_pre in V.
  - apply (SE) with (v := v); [|exact IS|exact A]. destruct (ctx_last _ _ _ CP) as (c1 & c2 & -> & CP1 & CP2 & SH).
    assert (NE : c2 <> CHole) by (intros ->; discriminate CP2). apply settled_comp; [exact NE|]. rewrite plug_comp in M.
    destruct SH as [(i & pp & n0 & k & l & ii & ip & key & r & -> & LE)|(i & pp & n0 & k & l & ii & ip & r & -> & LE)]; [exact I|]. cbn [settled].
    intros ->. cbn in LE. subst j. rewrite <- CP1 in CP. pose proof (ctx_place _ _ _ _ M N) as PL.
    destruct (RB _ _ CP PL) as (l & it & ME & _). destruct (map_iter_map _ _ _ _ _ M (sub_plug c1 _) ME) as (? & ? & ? & ? & ? & X). discriminate X.
Qed.
Lemma step_make_map doc D o p id r a u d' D' : inv doc D o -> no_collision d' -> place doc p id -> run hash id MakeMapping (doc_data doc) = Ok (r, d') ->
  as_any (doc_data doc) id = Ok a -> a <> AMapping id -> at_hand p o -> room_block doc p -> replaced u (DMap []) p D D' -> inv (edited doc d') D' (Some p).
Proof.
  intros I N P E AA NA AH RB RP. pose proof (before _ _ _ _ _ _ _ _ I N P E) as N0.
  destruct (focus _ _ _ _ _ I N0 P AH) as (c & v & suf & s & post & d0 & M & <- & <- & O & S & FO & ST).
  destruct (edit_step hash _ _ _ _ _ _ _ M E) as (v' & TI & M' & G & EF). specialize (EF N).
  apply (any_at _ _ _ _ _ M N0 (sub_plug c v)) in AA. subst a.
  assert (V : exists n pp, amake c v = (n, pp) /\ v' = TMap (tid v) pp n CBlock []).
  { clear - EF NA. remember MakeMapping as ee eqn:EE. destruct EF; subst; try discriminate; eauto.
    - exfalso. apply NA. destruct v; try discriminate. reflexivity.
    - destruct H0 as [X|[X|[? X]]]; [now elim X|discriminate X..].
    - destruct H0 as [X|[X|[? X]]]; [now elim X|discriminate X..]. }
  destruct V as (n & pp & A & ->). pose proof (opens_move _ _ _ _ _ _ _ _ _ _ O RP) as O'.
  exists c, (TMap (tid v) pp n CBlock []), suf, s, post, (DMap []). split; [exact M'|]. split; [exact O'|]. split; [eapply sim_move; [exact S|exact RP|]; constructor; constructor|]. split; [exact FO|].
  right. split; [reflexivity|]. cbn [vacant]. exact (make_frame _ _ _ _ _ _ _ _ _ _ _ M N0 O FO ST RB A).
Qed.
Lemma step_make_seq doc D o p id r a u d' D' : inv doc D o -> no_collision d' -> place doc p id -> run hash id MakeSequence (doc_data doc) = Ok (r, d') ->
  as_any (doc_data doc) id = Ok a -> a <> ASequence id -> at_hand p o -> room_block doc p -> replaced u (DSeq []) p D D' -> inv (edited doc d') D' (Some p).
Proof.
  intros I N P E AA NA AH RB RP. pose proof (before _ _ _ _ _ _ _ _ I N P E) as N0.
  destruct (focus _ _ _ _ _ I N0 P AH) as (c & v & suf & s & post & d0 & M & <- & <- & O & S & FO & ST).
  destruct (edit_step hash _ _ _ _ _ _ _ M E) as (v' & TI & M' & G & EF). specialize (EF N).
  apply (any_at _ _ _ _ _ M N0 (sub_plug c v)) in AA. subst a.
  assert (V : exists n pp, amake c v = (n, pp) /\ v' = TSeq (tid v) pp n CBlock []).
  { clear - EF NA. remember MakeSequence as ee eqn:EE. destruct EF; subst; try discriminate; eauto.
    - exfalso. apply NA. destruct v; try discriminate. reflexivity.
    - destruct H0 as [X|[X|[? X]]]; [now elim X|discriminate X..].
    - destruct H0 as [X|[X|[? X]]]; [now elim X|discriminate X..]. }
  destruct V as (n & pp & A & ->). pose proof (opens_move _ _ _ _ _ _ _ _ _ _ O RP) as O'.
  exists c, (TSeq (tid v) pp n CBlock []), suf, s, post, (DSeq []). split; [exact M'|]. split; [exact O'|]. split; [eapply sim_move; [exact S|exact RP|]; constructor; constructor|]. split; [exact FO|].
  right. split; [reflexivity|]. cbn [vacant]. pose proof (make_frame _ _ _ _ _ _ _ _ _ _ _ M N0 O FO ST RB A) as FR. split; [now apply frame_weak|].
  destruct O as ((FP & _) & _). destruct (frame_ends _ _ _ _ _ FR FP) as (ME & _). eapply map_seq_ends; [|exact (ME eq_refl)]. lia.
Qed.

(* ---- sessions ---- *)
Lemma sim_see (t : tree nat) : sim (see t) (see t).
Proof.
  induction t as [i p sc|i p n k items IH|i p n k items IH] using tree_ind'.
  - destruct sc; cbn; constructor.
  - cbn. constructor. induction IH as [|[[[ii ip] key] v] r H _ IHr]; cbn; constructor; auto.
  - cbn. constructor. induction IH as [|[[ii ip] v] r H _ IHr]; cbn; constructor; auto.
Qed.
Lemma doc_layout t d suf : ldoc t d suf -> layout suf.
Proof. now inversion 1. Qed.
Lemma start_load x D doc : doc_text x D -> tidy x -> from_slice hash x = Ok doc -> inv doc D None.
Proof.
  intros DT T E. apply doc_text_laid in DT as (t0 & suf0 & -> & R & SE & L). apply dreads_sound in R.
  destruct (parse_models _ _ _ E) as (t & suf & AP & M). rewrite R in AP. injection AP as -> ->.
  destruct (tidy_neat _ _ _ L T) as [NT EN]. pose proof (doc_layout _ _ _ L) as LY. assert (FO : follow_ok SRoot suf) by (split; auto).
  exists CHole, t, suf, SRoot, suf, D. split; [exact M|]. split; [now apply opens_hole|]. cbn [plug cpath].
  split; [rewrite <- SE, see_shape; apply sim_see|]. split; [exact FO|]. left. auto.
Qed.
Lemma start_empty x doc : closed x -> from_slice hash x = Ok doc -> inv doc (DStr []) (Some []).
Proof.
  intros C E. destruct (parse_models _ _ _ E) as (t & suf & AP & M).
  assert (R : dreads (TLeaf tt x (a_plain [])) []).
  { split; [apply layout_end; now apply closed_layout|]. split.
    { split; cbn; [discriminate|intros []; discriminate]. }
    split; [|reflexivity]. constructor. apply (L_plain x [] []); reflexivity. }
  apply dreads_sound in R. unfold wdoc in R. change (wtree (TLeaf tt x (a_plain []))) with (@nil byte) in R. cbn [tpre] in R. rewrite !app_nil_r in R.
  rewrite R in AP. injection AP as ES <-.
  assert (TX : exists i sc, t = TLeaf i x sc /\ sc = a_plain []).
  { destruct t as [i p sc| |]; cbn in ES; try discriminate. injection ES as <- <-. eauto. }
  destruct TX as (i & sc & -> & ->). assert (FO : follow_ok SRoot []) by (split; [constructor|now left]).
  exists CHole, (TLeaf i x (a_plain [])), [], SRoot, [], (DStr []). split; [exact M|]. split; [now apply opens_hole|].
  split; [constructor|]. split; [exact FO|]. right. split; [reflexivity|]. exact C.
Qed.
Theorem session_inv doc D o : session hash doc D o -> no_collision (doc_data doc) -> inv doc D o.
Proof.
  assert (NB : forall doc D o, session hash doc D o -> exists t suf, models doc t suf).
  { clear doc D o. induction 1 as [x D doc _ _ E|x doc _ E|doc D o p id e r d' D' o' _ (t & suf & M) P E _].
    - destruct (parse_models _ _ _ E) as (t & suf & _ & M). eauto.
    - destruct (parse_models _ _ _ E) as (t & suf & _ & M). eauto.
    - apply place_value in P. destruct (value_ctx hash _ _ _ _ M P) as (c & v & -> & <-).
      destruct (edit_step hash _ _ _ _ _ _ _ M E) as (v' & _ & M' & _). eauto. }
  intros SS0; revert SS0; revert doc D o; induction 1 as [x D doc DT T E|x doc C E|doc D o p id e r d' D' o' SS IH P E CH]; intros N.
  - eapply start_load; eauto.
  - eapply start_empty; eauto.
  - cbn [edited doc_data] in N.
    assert (N0 : no_collision (doc_data doc)).
    { destruct (NB _ _ _ SS) as (t & suf & M). apply place_value in P. destruct (value_ctx hash _ _ _ _ M P) as (c & v & -> & <-).
      destruct (edit_step hash _ _ _ _ _ _ _ M E) as (v' & _ & _ & G & _). eapply grows_nc; eauto. }
    specialize (IH N0). destruct CH.
    + eapply step_nothing; eauto.
    + eapply step_kept_map; eauto.
    + eapply step_kept_seq; eauto.
    + eapply step_set; eauto.
    + eapply step_insert_old; eauto.
    + eapply step_insert_new; eauto.
    + eapply step_push; eauto.
    + subst o. eapply step_remove_key; eauto.
    + subst o. eapply step_remove_at; eauto.
    + eapply step_clear_map; eauto.
    + eapply step_clear_seq; eauto.
    + eapply step_make_map; eauto.
    + eapply step_make_seq; eauto.
Qed.
Theorem session_reads doc D : session hash doc D None -> no_collision (doc_data doc) ->
  exists text d, write_to doc = Ok text /\ doc_text text D /\ reads_as_datum hash text D /\ shows (doc_data doc) (doc_root doc) d /\ sim d D.
Proof.
  intros SS N. destruct (session_inv _ _ _ SS N) as (c & v & suf & s & post & d & M & O & S & FO & ST).
  destruct ST as [(_ & F & NT)|[X _]]; [|discriminate]. destruct O as (_ & _ & _ & _ & _ & _ & K).
  destruct (K v d F NT) as (D' & F' & NT' & RP). apply replaced_same in RP as ->. cbn [fits] in F'.
  exists (wdoc (plug c v) suf), (see (plug c v)). pose proof (models_write_to hash _ _ _ N M) as W. split; [exact W|].
  apply ldoc_text in F'. rewrite wdoc_shape in F'. split; [exact F'|]. split; [now apply doc_text_reads|]. split; [|exact S].
  pose proof (models_int _ _ _ _ M N) as FI. destruct M as (M & Ro & _). rewrite Ro. eapply tree_shows; [exact M|exact FI|apply sub_here].
Qed.
(* The datum at a place. *)
Lemma session_built doc D o : session hash doc D o -> built hash doc.
Proof.
  induction 1 as [x D doc _ _ E|x doc _ E|doc D o p id e r d' D' o' _ IH P E _]; [eapply built_parse; eauto; exact Logic.I..|].
  eapply built_edit; eauto. eapply place_value; eauto.
Qed.
Lemma place_datum doc D o p id : session hash doc D o -> no_collision (doc_data doc) -> place doc p id -> at_hand p o ->
  exists c v suf u, models doc (plug c v) suf /\ tid v = id /\ cpath c = p /\ sim (see v) u /\ forall d, exists D', replaced u d p D D'.
Proof.
  intros SS N P AH. pose proof (session_inv _ _ _ SS N) as I. destruct (focus _ _ _ _ _ I N P AH) as (c & v & suf & s & post & u & M & TI & <- & O & S & FO & ST).
  exists c, v, suf, u. split; [exact M|]. split; [exact TI|]. split; [reflexivity|]. destruct O as ((FS & _) & _ & _ & _ & _ & _ & K).
  destruct (one_fits s post FS) as [F1 N1]. destruct (K _ _ F1 N1) as (D1 & _ & _ & R). split; [eapply sim_old; eauto|]. intros d. apply (replaced_any _ _ _ _ _ R d).
Qed.
Lemma place_map_datum doc D o p id l : session hash doc D o -> no_collision (doc_data doc) -> place doc p id -> at_hand p o -> map_entries (doc_data doc) id l ->
  exists m, map fst m = map fst l /\ forall d, exists D', replaced (DMap m) d p D D'.
Proof.
  intros SS N P AH E. destruct (place_datum _ _ _ _ _ SS N P AH) as (c & v & suf & u & M & <- & <- & S & R).
  destruct (map_at _ _ _ _ _ M N E) as (i & pp & n & k & items & -> & ->). inversion S as [| | | |? m F2|]; subst. exists m. split; [|exact R]. clear - F2.
  revert m F2. induction items as [|[[[ii ip] kk] w] items IH]; intros m F2; inversion F2 as [|? y ? m' [EK _] F3]; subst; [reflexivity|]. cbn. f_equal; [cbn in EK; auto|]. now apply IH.
Qed.
Lemma place_seq_datum doc D o p id l : session hash doc D o -> no_collision (doc_data doc) -> place doc p id -> at_hand p o -> seq_entries (doc_data doc) id l ->
  exists m, length m = length l /\ forall d, exists D', replaced (DSeq m) d p D D'.
Proof.
  intros SS N P AH E. destruct (place_datum _ _ _ _ _ SS N P AH) as (c & v & suf & u & M & <- & <- & S & R).
  destruct (seq_at _ _ _ _ _ M N E) as (i & pp & n & k & items & -> & ->). inversion S as [| | | | |? m F2]; subst. exists m. split; [|exact R].
  assert (LE : forall a c, Forall2 sim a c -> length c = length a) by (induction 1; cbn; congruence). apply LE in F2. now rewrite !map_length in *.
Qed.
Lemma session_before doc D o p id e r d' : session hash doc D o -> place doc p id -> run hash id e (doc_data doc) = Ok (r, d') -> no_collision d' -> no_collision (doc_data doc).
Proof.
  intros SS P E N. destruct (built_models _ _ _ _ (session_built _ _ _ SS)) as (t & suf & M). apply place_value in P. destruct (value_ctx hash _ _ _ _ M P) as (c & v & -> & <-).
  destruct (edit_step hash _ _ _ _ _ _ _ M E) as (v' & _ & _ & G & _). eapply grows_nc; eauto.
Qed.
End Back.
