(* Properties of collections made by the API: C21. *)
From Coq Require Import String.
From Coq Require Import List NArith ZArith Bool Arith Lia.
From Verif Require Import Bytes Utf8 Data Parser Render Tree Abs Refine Utf8Props Scan Num Api Ctx Edit Built Reads ReadsSound
  Shown Plain Grammar Laid GrammarSound Tests Refuted PropsParse PropsEdit PropsColl PropsValue PropsScalar PropsScalar2 PropsText.
From Verif Require Import Swap Repost Grow Open Tidy Session Back Check PropsBack.
Import ListNotations.
Local Open Scope N_scope.
Local Notation text := Utf8Props.text.

(* ---- places in the document of a call ---- *)
Lemma ctx_cut c : forall q r, cpath c = q ++ r -> exists c1 c2, c = ccomp c1 c2 /\ cpath c1 = q /\ cpath c2 = r.
Proof.
  induction c as [|i p n k l ii ip key c IH r0|i p n k l ii ip c IH r0]; intros [|j q] r E; cbn [cpath app] in E.
  - exists CHole, CHole. auto.
  - discriminate.
  - eexists CHole, _. split; [reflexivity|]. auto.
  - injection E as <- E. destruct (IH _ _ E) as (c1 & c2 & -> & <- & <-). exists (CMapC i p n k l ii ip key c1 r0), c2. auto.
  - eexists CHole, _. split; [reflexivity|]. auto.
  - injection E as <- E. destruct (IH _ _ E) as (c1 & c2 & -> & <- & <-). exists (CSeqC i p n k l ii ip c1 r0), c2. auto.
Qed.
Lemma map_head (i : nat) p n k ii ip key (v : tree nat) r : k = CBlock -> 
  hd EOF (wtree (TMap i p n k ((ii, ip, key, v) :: r))) = hd EOF (ip ++ wstr key ++ [COLON]).
Proof.
  intros ->. rewrite wtree_map. cbn [open_if app map sep wmitem]. set (a := ip ++ wstr key ++ [COLON]).
  assert (NE : a <> []) by (unfold a; rewrite app_assoc; now destruct (ip ++ wstr key)).
  assert (A : ip ++ wstr key ++ COLON :: full v = a ++ full v) by (unfold a; now rewrite <- !app_assoc).
  rewrite A. destruct (map wmitem r); rewrite <- ?app_assoc; now rewrite head_app.
Qed.
Lemma seq_head (i : nat) p n ii ip (v : tree nat) r : 
  hd EOF (wtree (TSeq i p n CBlock ((ii, ip, v) :: r))) = hd EOF (lossy ip ++ [DASH]).
Proof.
  rewrite wtree_seq. cbn [open_if app map sep wsitem dash_if]. set (a := lossy ip ++ [DASH]).
  assert (NE : a <> []) by (unfold a; now destruct (lossy ip)).
  change (lossy ip ++ DASH :: full v) with (lossy ip ++ [DASH] ++ full v). rewrite (app_assoc (lossy ip)). fold a.
  destruct (map (wsitem CBlock) r); rewrite <- ?app_assoc; now rewrite head_app.
Qed.
Lemma head_plug c v v' : c <> CHole -> hd EOF (wtree (plug c v)) = hd EOF (wtree (plug c v')).
Proof.
  destruct c as [|i p n k l ii ip key c r|i p n k l ii ip c r]; intros NH; [now elim NH| |]; cbn [plug].
  - destruct k as [|tr suf]; [|reflexivity]. destruct l as [|[[[? ?] ?] ?] l]; cbn [app]; now rewrite !map_head.
  - destruct k as [|tr suf]; [|reflexivity]. destruct l as [|[[? ?] ?] l]; cbn [app]; now rewrite !seq_head.
Qed.

Section Make.
Variable hash : bytes -> sid.
Local Notation models := (models hash).
Local Notation no_collision := (no_collision hash).

Lemma kept_outside doc doc' c v v' suf : models doc (plug c v) suf -> no_collision (doc_data doc) ->
  models doc' (plug c v') suf -> no_collision (doc_data doc') -> outside doc (cpath c) -> outside doc' (cpath c).
Proof.
  intros M N M' N' O q r id y E NE P PR. destruct (ctx_cut _ _ _ E) as (c1 & c2 & -> & <- & <-). rewrite plug_comp in M, M'.
  apply (place_at _ _ _ _ _ _ M' N') in P. subst id. apply (prints_at _ _ _ _ _ _ M' N' (sub_plug c1 _)) in PR. subst y.
  assert (NH : c2 <> CHole) by (intros ->; now elim NE). rewrite (head_plug _ _ v) by exact NH.
  apply (O (cpath c1) (cpath c2) (tid (plug c2 v))); [apply cpath_comp|exact NE|eapply ctx_place; eauto|].
  eapply prints_at; eauto. apply sub_plug.
Qed.
Lemma inner_outside doc c v suf j : models doc (plug c v) suf -> no_collision (doc_data doc) -> outside doc (cpath c) ->
  ~ In (hd EOF (wtree v)) (b "[{") -> outside doc (cpath c ++ [j]).
Proof.
  intros M N O H q r id y E NE P PR. destruct (exists_last NE) as (r' & j' & ->). rewrite app_assoc in E. apply app_inj_tail in E as [E _].
  destruct r' as [|x r'].
  - rewrite app_nil_r in E. subst q. apply (place_at _ _ _ _ _ _ M N) in P. subst id. apply (prints_at _ _ _ _ _ _ M N (sub_plug c _)) in PR. now subst y.
  - apply (O q (x :: r') id y); auto. discriminate.
Qed.
Lemma leaf_lines doc c i p sc suf : models doc (plug c (TLeaf i p sc)) suf -> no_collision (doc_data doc) ->
  ~ In (hd EOF (wscalar sc)) (b "|>") -> in_lines doc (cpath c).
Proof.
  intros M N H q id y P PR. destruct (place_ctx _ _ _ _ _ _ M N P) as (c' & v' & E & <- & CP). symmetry in CP.
  destruct (ctx_cut _ _ _ (eq_sym CP)) as (c1 & c2 & -> & E1 & E2). rewrite plug_comp in E. apply plug_inj in E as [-> E]; [|congruence].
  destruct c2; try discriminate. cbn in E. subst v'. apply (prints_at _ _ _ _ _ _ M N (sub_plug c1 _)) in PR. subst y. exact H.
Qed.
Lemma leaf_filled doc c i p sc suf : models doc (plug c (TLeaf i p sc)) suf -> no_collision (doc_data doc) ->
  wscalar sc <> [] -> filled doc (cpath c).
Proof.
  intros M N H q id y P PR. destruct (place_ctx _ _ _ _ _ _ M N P) as (c' & v' & E & <- & CP). symmetry in CP.
  destruct (ctx_cut _ _ _ (eq_sym CP)) as (c1 & c2 & -> & E1 & E2). rewrite plug_comp in E. apply plug_inj in E as [-> E]; [|congruence].
  destruct c2; try discriminate. cbn in E. subst v'. apply (prints_at _ _ _ _ _ _ M N (sub_plug c1 _)) in PR. subst y. exact H.
Qed.
Lemma written_head x d : written x d -> x <> [] /\ ~ In (hd EOF x) (b "|>").
Proof.
  intros [[((c & r & -> & W & I & _) & _) _]|(s & Q & _)].
  - split; [discriminate|]. cbn [hd]. intros J. apply I. cbn in *. unfold PIPE, GT. intuition.
  - destruct (quoted_hd _ _ Q) as (c & r & -> & H). split; [discriminate|]. cbn [hd]. destruct H as [->| ->]; cbn; unfold SQUOTE, DQUOTE; intuition discriminate.
Qed.
(* A mapping, or sequence, that takes further entries. *)
Definition map_open (doc : document) (p : list nat) (id : nat) (l : list (bytes * nat)) : Prop :=
  place doc p id /\ map_entries (doc_data doc) id l /\ (forall j, outside doc (p ++ [j])) /\
  forall j, length l = S j -> in_lines doc (p ++ [j]).
Definition seq_open (doc : document) (p : list nat) (id : nat) (l : list nat) : Prop :=
  place doc p id /\ seq_entries (doc_data doc) id l /\ (forall j, outside doc (p ++ [j])) /\
  forall j, length l = S j -> in_lines doc (p ++ [j]) /\ filled doc (p ++ [j]).
Lemma outside_block_at doc c v suf j : models doc (plug c v) suf -> no_collision (doc_data doc) -> outside doc (cpath c ++ [j]) ->
  block_at doc (tid v) /\ ~ In (hd EOF (wtree v)) (b "[{").
Proof.
  intros M N O. assert (H : ~ In (hd EOF (wtree v)) (b "[{")).
  { apply (O (cpath c) [j] (tid v)); [reflexivity|discriminate|eapply ctx_place; eauto|eapply prints_at; eauto; apply sub_plug]. }
  split; [|exact H]. exists (wtree v). split; [|exact H]. eapply prints_at; eauto. apply sub_plug.
Qed.
Lemma moved x y z p D D1 : replaced x y p D D1 -> exists D2, replaced y z p D1 D2 /\ replaced x z p D D2.
Proof.
  intros R. destruct (replaced_any _ _ _ _ _ R z) as [D2 R2]. exists D2. split; [|exact R2].
  rewrite <- (app_nil_r p). eapply replaced_comp; [exact R|exact R2|constructor].
Qed.
Lemma make_map doc D p id a r d' : session hash doc D None -> place doc p id -> as_any (doc_data doc) id = Ok a -> a <> AMapping id ->
  room_block doc p -> run hash id MakeMapping (doc_data doc) = Ok (r, d') -> no_collision d' ->
  exists u D', replaced u (DMap []) p D D' /\ session hash (edited doc d') D' (Some p) /\ map_open (edited doc d') p id [].
Proof.
  intros SS P A NA RB E N. pose proof (session_before _ _ _ _ _ _ _ _ _ SS P E N) as N0.
  destruct (place_datum _ _ _ _ _ _ SS N0 P (or_introl eq_refl)) as (c & v & suf & u & M & <- & <- & _ & RP). destruct (RP (DMap [])) as [D' R'].
  exists u, D'. split; [exact R'|]. split; [eapply se_edit; [exact SS|exact P|exact E|eapply ch_make_map; eauto; now left]|].
  destruct (edit_step hash _ _ _ _ _ _ _ M E) as (v' & TI & M' & _ & EF). specialize (EF N).
  apply (any_at _ _ _ _ _ _ M N0 (sub_plug c v)) in A.
  assert (V : exists n q, v' = TMap (tid v) q n CBlock []).
  { clear - EF NA A. remember MakeMapping as ee eqn:EE. destruct EF; subst; try discriminate; eauto.
    - exfalso. apply NA. destruct v; try discriminate. reflexivity.
    - destruct H0 as [X|[X|[? X]]]; [now elim X|discriminate X..].
    - destruct H0 as [X|[X|[? X]]]; [now elim X|discriminate X..]. }
  destruct V as (n & q & ->). pose proof (models_int _ _ _ _ M' N) as FI.
  split; [exact (ctx_place _ _ _ _ _ M' N)|]. split; [exact (node_entries hash _ _ _ (proj1 M') FI _ _ _ _ _ (sub_plug c _))|]. split.
  - intros j. eapply inner_outside; [exact M'|exact N| |cbn; intuition discriminate]. eapply kept_outside; [exact M|exact N0|exact M'|exact N|]. apply RB.
  - discriminate.
Qed.
Lemma insert_map doc D o p id l e key x h d' u m D0 : session hash doc D o -> at_hand p o -> map_open doc p id l ->
  run hash id e (doc_data doc) = Ok (Handle h, d') -> no_collision d' -> insert_key e = Some key -> scalar_call e x -> ~ In key (map fst l) ->
  plain_key key -> (l <> [] -> hd EOF key <> DASH) -> (p = [] -> l = [] -> doc_start key) -> replaced u (DMap m) p D0 D ->
  exists D', replaced u (DMap (m ++ [(key, x)])) p D0 D' /\ session hash (edited doc d') D' None /\ map_open (edited doc d') p id (l ++ [(key, h)]).
Proof.
  intros SS AH (P & ME & OU & IL) E N IK SC NI PK ND DS R0. pose proof (session_before _ _ _ _ _ _ _ _ _ SS P E N) as N0.
  destruct (place_datum _ _ _ _ _ _ SS N0 P AH) as (c & v & suf & u1 & M & <- & <- & _ & _).
  destruct (moved _ _ (DMap (m ++ [(key, x)])) _ _ _ R0) as (D' & R1 & R2).
  destruct (outside_block_at _ _ _ _ _ M N0 (OU (length l))) as [BA HV].
  destruct (call_text _ _ _ _ _ _ _ _ _ _ SS P E N ltac:(discriminate) SC) as (y & PY & MN & W & DY & PT). cbn [target] in PY.
  exists D'. split; [exact R2|]. split.
  { eapply se_edit; [exact SS|exact P|exact E|]. eapply ch_insert_new; [exact IK|exact ME|exact NI|exact AH| | |exact R1].
    - left. split; [exact BA|]. auto.
    - left. split; [reflexivity|]. split; [exact MN|]. exists y. split; [exact PY|]. apply (may_fit _ _ e); auto. left. apply OU. }
  destruct (map_at _ _ _ _ _ _ M N0 ME) as (i & pp & n & k & items & -> & ->).
  destruct (edit_step hash _ _ _ _ _ _ _ M E) as (v' & TI & M' & _ & EF). specialize (EF N).
  destruct (effect_insert _ _ _ _ _ _ EF IK eq_refl) as (sp & sc & h' & EH & A & KS & IN). injection EH as <-.
  assert (V : exists ii vp, v' = TMap i pp n k (items ++ [(ii, item_gap n items, RS KBare key key, TLeaf h vp sc)])).
  { remember (TMap i pp n k items) as t eqn:ET. destruct IN as [i0 p0 n0 k0 l' ii' ip' kk' w r' K' F'|i0 p0 n0 k0 items0 ii' vi F'].
    - exfalso. injection ET as -> -> -> -> <-. apply NI. rewrite map_map, map_app. apply in_or_app. right. left. exact K'.
    - injection ET as -> -> -> -> ->. eauto. }
  destruct V as (ii & vp & ->). pose proof (models_int _ _ _ _ M' N) as FI.
  destruct (outside_block _ _ _ _ _ _ M N0 (OU 0%nat)) as [_ KB]. subst k.
  split; [exact (ctx_place _ _ _ _ _ M' N)|]. split.
  { pose proof (node_entries hash _ _ _ (proj1 M') FI _ _ _ _ _ (sub_plug c _)) as NE. rewrite map_app in NE. exact NE. }
  split.
  - intros j. eapply inner_outside; [exact M'|exact N| |].
    + eapply kept_outside; [exact M|exact N0|exact M'|exact N|]. exact (outside_up _ _ _ (OU O)).
    + destruct items as [|[[[i1 p1] k1] v1] items]; cbn [app].
      * rewrite map_head by reflexivity. cbn [item_gap app wstr rs_kind]. destruct PK as ((c0 & r0 & -> & _ & I & _) & _). cbn. intros J. apply I. cbn in *.
        unfold LBRACK, LBRACE. intuition.
      * rewrite map_head by reflexivity. rewrite map_head in HV by reflexivity. exact HV.
  - intros j EL. rewrite app_length, map_length in EL. cbn [length] in EL. rewrite Nat.add_1_r in EL. injection EL as <-.
    assert (Q : plug c (TMap i pp n CBlock (items ++ [(ii, item_gap n items, RS KBare key key, TLeaf h vp sc)])) =
      plug (ccomp c (CMapC i pp n CBlock items ii (item_gap n items) (RS KBare key key) CHole [])) (TLeaf h vp sc)) by now rewrite plug_comp.
    rewrite Q in M'. pose proof (leaf_lines _ _ _ _ _ _ M' N) as LL. rewrite cpath_comp in LL. apply LL.
    apply (prints_at _ _ _ (TLeaf h vp sc) _ _ M' N (sub_plug _ _)) in PY. cbn in PY. subst y. apply (written_head _ _ W).
Qed.
Lemma make_seq doc D p id a r d' : session hash doc D None -> place doc p id -> as_any (doc_data doc) id = Ok a -> a <> ASequence id ->
  room_block doc p -> run hash id MakeSequence (doc_data doc) = Ok (r, d') -> no_collision d' ->
  exists u D', replaced u (DSeq []) p D D' /\ session hash (edited doc d') D' (Some p) /\ seq_open (edited doc d') p id [].
Proof.
  intros SS P A NA RB E N. pose proof (session_before _ _ _ _ _ _ _ _ _ SS P E N) as N0.
  destruct (place_datum _ _ _ _ _ _ SS N0 P (or_introl eq_refl)) as (c & v & suf & u & M & <- & <- & _ & RP). destruct (RP (DSeq [])) as [D' R'].
  exists u, D'. split; [exact R'|]. split; [eapply se_edit; [exact SS|exact P|exact E|eapply ch_make_seq; eauto; now left]|].
  destruct (edit_step hash _ _ _ _ _ _ _ M E) as (v' & TI & M' & _ & EF). specialize (EF N).
  apply (any_at _ _ _ _ _ _ M N0 (sub_plug c v)) in A.
  assert (V : exists n q, v' = TSeq (tid v) q n CBlock []).
  { clear - EF NA A. remember MakeSequence as ee eqn:EE. destruct EF; subst; try discriminate; eauto.
    - exfalso. apply NA. destruct v; try discriminate. reflexivity.
    - destruct H0 as [X|[X|[? X]]]; [now elim X|discriminate X..].
    - destruct H0 as [X|[X|[? X]]]; [now elim X|discriminate X..]. }
  destruct V as (n & q & ->).
  split; [exact (ctx_place _ _ _ _ _ M' N)|]. split; [exact (node_sentries hash _ _ _ (proj1 M') _ _ _ _ _ (sub_plug c _))|]. split.
  - intros j. eapply inner_outside; [exact M'|exact N| |cbn; intuition discriminate]. eapply kept_outside; [exact M|exact N0|exact M'|exact N|]. apply RB.
  - discriminate.
Qed.
Lemma push_seq doc D o p id l e x h d' u m D0 : session hash doc D o -> at_hand p o -> seq_open doc p id l ->
  run hash id e (doc_data doc) = Ok (Handle h, d') -> no_collision d' -> push_call e -> scalar_call e x -> replaced u (DSeq m) p D0 D ->
  exists D', replaced u (DSeq (m ++ [x])) p D0 D' /\ session hash (edited doc d') D' None /\ seq_open (edited doc d') p id (l ++ [h]).
Proof.
  intros SS AH (P & ME & OU & IL) E N PC SC R0. pose proof (session_before _ _ _ _ _ _ _ _ _ SS P E N) as N0.
  destruct (place_datum _ _ _ _ _ _ SS N0 P AH) as (c & v & suf & u1 & M & <- & <- & _ & _).
  destruct (moved _ _ (DSeq (m ++ [x])) _ _ _ R0) as (D' & R1 & R2).
  destruct (outside_block_at _ _ _ _ _ M N0 (OU (length l))) as [BA HV].
  destruct (call_text _ _ _ _ _ _ _ _ _ _ SS P E N ltac:(discriminate) SC) as (y & PY & MN & W & DY & PT). cbn [target] in PY.
  exists D'. split; [exact R2|]. split.
  { eapply se_edit; [exact SS|exact P|exact E|]. eapply ch_push; [exact PC|exact ME|exact AH| | |exact R1].
    - left. split; [exact BA|]. auto.
    - left. split; [reflexivity|]. split; [exact MN|]. exists y. split; [exact PY|]. apply (may_fit _ _ e); auto. left. apply OU. }
  destruct (seq_at _ _ _ _ _ _ M N0 ME) as (i & pp & n & k & items & -> & ->).
  destruct (edit_step hash _ _ _ _ _ _ _ M E) as (v' & TI & M' & _ & EF). specialize (EF N).
  destruct (effect_push _ _ _ _ _ EF PC eq_refl) as (sp & sc & h' & EH & A & KS & IN). injection EH as <-.
  assert (V : exists ii vp, v' = TSeq i pp n k (items ++ [(ii, item_gap n items, TLeaf h vp sc)])).
  { remember (TSeq i pp n k items) as t eqn:ET. destruct IN as [i0 p0 n0 k0 items0 ii' vi]. injection ET as -> -> -> -> ->. eauto. }
  destruct V as (ii & vp & ->).
  destruct (outside_block _ _ _ _ _ _ M N0 (OU 0%nat)) as [_ KB]. subst k.
  split; [exact (ctx_place _ _ _ _ _ M' N)|]. split.
  { pose proof (node_sentries hash _ _ _ (proj1 M') _ _ _ _ _ (sub_plug c _)) as NE. rewrite map_app in NE. exact NE. }
  split.
  - intros j. eapply inner_outside; [exact M'|exact N| |].
    + eapply kept_outside; [exact M|exact N0|exact M'|exact N|]. exact (outside_up _ _ _ (OU O)).
    + destruct items as [|[[i1 p1] v1] items]; cbn [app].
      * rewrite seq_head. cbn. intuition discriminate.
      * rewrite seq_head. rewrite seq_head in HV. exact HV.
  - intros j EL. rewrite app_length, map_length in EL. cbn [length] in EL. rewrite Nat.add_1_r in EL. injection EL as <-.
    assert (Q : plug c (TSeq i pp n CBlock (items ++ [(ii, item_gap n items, TLeaf h vp sc)])) =
      plug (ccomp c (CSeqC i pp n CBlock items ii (item_gap n items) CHole [])) (TLeaf h vp sc)) by now rewrite plug_comp.
    rewrite Q in M'. pose proof (leaf_lines _ _ _ _ _ _ M' N) as LL. pose proof (leaf_filled _ _ _ _ _ _ M' N) as LF. rewrite cpath_comp in LL, LF.
    apply (prints_at _ _ _ (TLeaf h vp sc) _ _ M' N (sub_plug _ _)) in PY. cbn in PY. subst y. apply written_head in W as [W1 W2]. split; [now apply LL|now apply LF].
Qed.
(* Calls on one value, one after the other, each with a handle as result. *)
Inductive calls (id : nat) : data -> list edit -> data -> Prop :=
| calls_none d : calls id d [] d
| calls_more d e h d1 es d2 : run hash id e d = Ok (Handle h, d1) -> calls id d1 es d2 -> calls id d (e :: es) d2.
Lemma calls_before doc c v suf es d2 : models doc (plug c v) suf -> calls (tid v) (doc_data doc) es d2 -> no_collision d2 -> no_collision (doc_data doc).
Proof.
  intros M C N. revert v doc M C. induction es as [|e es IH]; intros v doc M C; inversion C as [|? ? h d1 ? ? E C']; subst; [exact N|].
  destruct (edit_step hash _ _ _ _ _ _ _ M E) as (v' & TI & M' & G & _). rewrite <- TI in C'.
  eapply grows_nc; [exact G|]. exact (IH _ _ M' C').
Qed.
Definition inserts (e : edit) (kx : bytes * datum) : Prop := insert_key e = Some (fst kx) /\ scalar_call e (snd kx).
Definition pushes (e : edit) (x : datum) : Prop := push_call e /\ scalar_call e x.
Lemma built_at doc p id e r d' : built hash doc -> place doc p id -> run hash id e (doc_data doc) = Ok (r, d') ->
  exists c v suf, tid v = id /\ models (edited doc d') (plug c v) suf.
Proof.
  intros B P E. destruct (built_models _ _ _ _ B) as (t & suf & M). apply place_value in P. destruct (value_ctx hash _ _ _ _ M P) as (c & v & -> & <-).
  destruct (edit_step hash _ _ _ _ _ _ _ M E) as (v' & TI & M' & _). eauto.
Qed.
Lemma insert_all es : forall kvs doc D o p id l u m D0 d2, session hash doc D o -> at_hand p o -> map_open doc p id l -> calls id (doc_data doc) es d2 -> no_collision d2 ->
  Forall2 inserts es kvs -> Forall (fun kx => plain_key (fst kx)) kvs -> NoDup (map fst l ++ map fst kvs) ->
  Forall (fun kx => hd EOF (fst kx) <> DASH) (match l with [] => tl kvs | _ => kvs end) ->
  (p = [] -> l = [] -> forall kx r, kvs = kx :: r -> doc_start (fst kx)) -> replaced u (DMap m) p D0 D ->
  exists D', replaced u (DMap (m ++ kvs)) p D0 D' /\ session hash (edited doc d2) D' (match es with [] => o | _ => None end).
Proof.
  induction es as [|e es IH]; intros kvs doc D o p id l u m D0 d2 SS AH MO C N F PK ND NH DS R; inversion F as [|? [k x] ? kvs' [IK SC] F']; subst; inversion C as [|? ? h d1 ? ? E C']; subst.
  - exists D. rewrite app_nil_r. split; [exact R|]. now destruct doc.
  - inversion PK as [|? ? PK1 PK2]; subst. cbn [fst snd map] in *.
    assert (N1 : no_collision d1).
    { destruct (built_at _ _ _ _ _ _ (session_built _ _ _ _ SS) (proj1 MO) E) as (c & v & suf & <- & M). exact (calls_before _ _ _ _ _ _ M C' N). }
    assert (NI : ~ In k (map fst l)) by (apply NoDup_remove_2 in ND; intros J; apply ND, in_or_app; now left).
    assert (NK : l <> [] -> hd EOF k <> DASH) by (intros NE; destruct l; [now elim NE|]; now inversion NH).
    assert (DK : p = [] -> l = [] -> doc_start k) by (intros X Y; exact (DS X Y _ _ eq_refl)).
    destruct (insert_map _ _ _ _ _ _ _ k x _ _ _ _ _ SS AH MO E N1 IK SC NI PK1 NK DK R) as (D1 & R1 & S1 & O1).
    assert (ND1 : NoDup (map fst (l ++ [(k, h)]) ++ map fst kvs')) by (rewrite map_app; cbn [map fst]; rewrite <- app_assoc; exact ND).
    assert (NH1 : Forall (fun kx => hd EOF (fst kx) <> DASH) (match l ++ [(k, h)] with [] => tl kvs' | _ => kvs' end)).
    { destruct l; cbn [app tl] in *; [exact NH|]. now inversion NH. }
    assert (DS1 : p = [] -> l ++ [(k, h)] = [] -> forall kx r, kvs' = kx :: r -> doc_start (fst kx)) by (intros _ X; now destruct l).
    destruct (IH kvs' (edited doc d1) D1 None p id _ u _ D0 d2 S1 (or_introl eq_refl) O1 C' N F' PK2 ND1 NH1 DS1 R1) as (D' & R' & S').
    exists D'. rewrite <- app_assoc in R'. split; [exact R'|]. destruct es; exact S'.
Qed.
Lemma push_all es : forall xs doc D o p id l u m D0 d2, session hash doc D o -> at_hand p o -> seq_open doc p id l -> calls id (doc_data doc) es d2 -> no_collision d2 ->
  Forall2 pushes es xs -> replaced u (DSeq m) p D0 D ->
  exists D', replaced u (DSeq (m ++ xs)) p D0 D' /\ session hash (edited doc d2) D' (match es with [] => o | _ => None end).
Proof.
  induction es as [|e es IH]; intros xs doc D o p id l u m D0 d2 SS AH MO C N F R; inversion F as [|? x ? xs' [PC SC] F']; subst; inversion C as [|? ? h d1 ? ? E C']; subst.
  - exists D. rewrite app_nil_r. split; [exact R|]. now destruct doc.
  - assert (N1 : no_collision d1).
    { destruct (built_at _ _ _ _ _ _ (session_built _ _ _ _ SS) (proj1 MO) E) as (c & v & suf & <- & M). exact (calls_before _ _ _ _ _ _ M C' N). }
    destruct (push_seq _ _ _ _ _ _ _ _ _ _ _ _ _ SS AH MO E N1 PC SC R) as (D1 & R1 & S1 & O1).
    destruct (IH xs' (edited doc d1) D1 None p id _ u _ D0 d2 S1 (or_introl eq_refl) O1 C' N F' R1) as (D' & R' & S').
    exists D'. rewrite <- app_assoc in R'. split; [exact R'|]. destruct es; exact S'.
Qed.
End Make.

(* ---- C21 ---- *)
(* make_mapping on a value that is not a mapping, not in a flow collection and not the first item
   of a sequence, and then inserts of scalars under different plain keys: the text reads back
   with all the entries, and nothing else has changed. *)
Theorem C21_make_mapping_partial : forall hash doc D p id a r d1 es kvs d2, session hash doc D None -> place doc p id ->
  as_any (doc_data doc) id = Ok a -> a <> AMapping id -> room_block doc p ->
  run hash id MakeMapping (doc_data doc) = Ok (r, d1) -> calls hash id d1 es d2 -> no_collision hash d2 ->
  Forall2 inserts es kvs -> kvs <> [] -> NoDup (map fst kvs) -> Forall (fun kx => plain_key (fst kx)) kvs ->
  Forall (fun kx => hd EOF (fst kx) <> DASH) (tl kvs) -> (p = [] -> forall kx l, kvs = kx :: l -> doc_start (fst kx)) ->
  exists u D' out, replaced u (DMap kvs) p D D' /\ session hash (edited doc d2) D' None /\
    write_to (edited doc d2) = Ok out /\ reads_as_datum hash out D'.
Proof.
  intros hash doc D p id a r d1 es kvs d2 SS P A NA RB E C N F NE ND PK NH DS.
  assert (N1 : no_collision hash d1).
  { destruct (built_at _ _ _ _ _ _ _ (session_built _ _ _ _ SS) P E) as (c & v & suf & <- & M). exact (calls_before _ _ _ _ _ _ _ M C N). }
  destruct (make_map _ _ _ _ _ _ _ _ SS P A NA RB E N1) as (u & D1 & R1 & S1 & O1).
  destruct (insert_all hash es kvs (edited doc d1) D1 (Some p) p id [] u [] D d2 S1 (or_intror eq_refl) O1 C N F PK ND NH (fun X _ => DS X) R1) as (D' & R' & S').
  destruct es as [|e es]; [now inversion F; subst|]. destruct (session_reads hash _ _ S' N) as (out & _ & WO & _ & RO & _). exists u, D', out. auto.
Qed.
Print Assumptions C21_make_mapping_partial.
Theorem C21_make_sequence_partial : forall hash doc D p id a r d1 es xs d2, session hash doc D None -> place doc p id ->
  as_any (doc_data doc) id = Ok a -> a <> ASequence id -> room_block doc p ->
  run hash id MakeSequence (doc_data doc) = Ok (r, d1) -> calls hash id d1 es d2 -> no_collision hash d2 ->
  Forall2 pushes es xs -> xs <> [] ->
  exists u D' out, replaced u (DSeq xs) p D D' /\ session hash (edited doc d2) D' None /\
    write_to (edited doc d2) = Ok out /\ reads_as_datum hash out D'.
Proof.
  intros hash doc D p id a r d1 es xs d2 SS P A NA RB E C N F NE.
  assert (N1 : no_collision hash d1).
  { destruct (built_at _ _ _ _ _ _ _ (session_built _ _ _ _ SS) P E) as (c & v & suf & <- & M). exact (calls_before _ _ _ _ _ _ _ M C N). }
  destruct (make_seq _ _ _ _ _ _ _ _ SS P A NA RB E N1) as (u & D1 & R1 & S1 & O1).
  destruct (push_all hash es xs (edited doc d1) D1 (Some p) p id [] u [] D d2 S1 (or_intror eq_refl) O1 C N F R1) as (D' & R' & S').
  destruct es as [|e es]; [now inversion F; subst|]. destruct (session_reads hash _ _ S' N) as (out & _ & WO & _ & RO & _). exists u, D', out. auto.
Qed.
Print Assumptions C21_make_sequence_partial.

(* ---- examples ---- *)
(* The calls at a place of the document of the C38 example. *)
Fixpoint data_calls (id : nat) (es : list edit) (d : data) : option data :=
  match es with
  | [] => Some d
  | e :: es => match run idhash id e d with Ok (Handle _, d') => data_calls id es d' | _ => None end
  end.
Lemma data_called id es : forall d d', data_calls id es d = Some d' -> calls idhash id d es d'.
Proof.
  induction es as [|e es IH]; cbn [data_calls]; intros d d' E; [injection E as <-; constructor|].
  destruct (run idhash id e d) as [[[|h|q|] d1]|? ? ?| | |] eqn:R; try discriminate. econstructor; eauto.
Qed.
Definition c21_doc (p : list nat) (make : edit) (es : list edit) : document :=
  match edit_at p make (c38_doc 0) with
  | Some (id, _, doc) => match data_calls id es (doc_data doc) with Some d => edited (c38_doc 0) d | None => c38_doc 0 end
  | None => c38_doc 0
  end.
Lemma c38_loaded : session idhash (c38_doc 0) (c38_data 0) None.
Proof. apply (se_load idhash c38_text); [exact c38_start|apply tidy_checked; vm_compute; reflexivity|vm_compute; reflexivity]. Qed.
(* The second item of the sequence. *)
Definition c21_map_calls : list edit := [InsertInt (b "k1") Unsigned8 1; InsertBool (b "k2") true].
Definition c21_map_text : bytes := b "a: 1
b:
  # items
  - x
  - k1: 1
    k2: true
".
Lemma item_replaced x u D' : replaced u x [1; 1]%nat (c38_data 0) D' -> u = DStr (b "y").
Proof.
  intros R. assert (R0 : replaced (DStr (b "y")) x [1; 1]%nat (c38_data 0) (DMap [(b "a", DNum (b "1") Unsigned64); (b "b", DSeq [DStr (b "x"); x])])).
  { apply (rp_map _ _ _ [(b "a", DNum (b "1") Unsigned64)] (b "b")). apply (rp_seq _ _ _ [DStr (b "x")]). constructor. }
  now destruct (replaced_fun _ _ _ _ _ R _ _ R0).
Qed.
Example C21_mapping_case : exists D', replaced (DStr (b "y")) (DMap [(b "k1", DNum (b "1") Unsigned64); (b "k2", DBool true)]) [1; 1]%nat (c38_data 0) D' /\
  write_to (c21_doc [1; 1]%nat MakeMapping c21_map_calls) = Ok c21_map_text /\ reads_as_datum idhash c21_map_text D'.
Proof.
  assert (W0 : write_to (c21_doc [1; 1]%nat MakeMapping c21_map_calls) = Ok c21_map_text) by (vm_compute; reflexivity).
  assert (S : exists id d1 d2, place (c38_doc 0) [1; 1]%nat id /\ as_any (doc_data (c38_doc 0)) id = Ok (AString (b "y")) /\
    run idhash id MakeMapping (doc_data (c38_doc 0)) = Ok (Handle id, d1) /\ calls idhash id d1 c21_map_calls d2 /\ write_to (edited (c38_doc 0) d2) = Ok c21_map_text).
  { eexists _, _, _. split; [apply spot_place; vm_compute; reflexivity|]. split; [vm_compute; reflexivity|]. split; [vm_compute; reflexivity|].
    split; [apply data_called; vm_compute; reflexivity|vm_compute; reflexivity]. }
  destruct S as (id & d1 & d2 & P & A & E & C & W1).
  destruct (C21_make_mapping_partial idhash (c38_doc 0) (c38_data 0) [1; 1]%nat id (AString (b "y")) (Handle id) d1 c21_map_calls
    [(b "k1", DNum (b "1") Unsigned64); (b "k2", DBool true)] d2 c38_loaded P) as (u & D' & out & R & _ & W & RO); auto.
  - discriminate.
  - split; [apply outside_checked; vm_compute; reflexivity|]. intros q i EQ. destruct q as [|? [|? [|? ?]]]; discriminate EQ.
  - apply id_no_collision.
  - constructor; [|constructor; [|constructor]]; (split; [reflexivity|]).
    + exact (sc_int (InsertInt (b "k1") Unsigned8 1) 1%Z (itoa 1) eq_refl (itoa_decimal 1)).
    + now constructor.
  - discriminate.
  - repeat constructor; cbn; intuition discriminate.
  - repeat constructor; apply key_checked; reflexivity.
  - repeat constructor; discriminate.
  - discriminate.
  - exists D'. rewrite (item_replaced _ _ _ R) in R. split; [exact R|]. split; [exact W0|]. rewrite W1 in W. injection W as <-. exact RO.
Qed.
(* The value of the first key. *)
Definition c21_seq_calls : list edit := [PushBool false; PushInt Unsigned8 2].
Definition c21_seq_text : bytes := b "a:
  - false
  - 2
b:
  # items
  - x
  - 'y'
".
Example C21_sequence_case : exists D', replaced (DNum (b "1") Unsigned64) (DSeq [DBool false; DNum (b "2") Unsigned64]) [0]%nat (c38_data 0) D' /\
  write_to (c21_doc [0]%nat MakeSequence c21_seq_calls) = Ok c21_seq_text /\ reads_as_datum idhash c21_seq_text D'.
Proof.
  assert (W0 : write_to (c21_doc [0]%nat MakeSequence c21_seq_calls) = Ok c21_seq_text) by (vm_compute; reflexivity).
  assert (S : exists id d1 d2, place (c38_doc 0) [0]%nat id /\ as_any (doc_data (c38_doc 0)) id = Ok (ANumber (b "1") Unsigned64) /\
    run idhash id MakeSequence (doc_data (c38_doc 0)) = Ok (Handle id, d1) /\ calls idhash id d1 c21_seq_calls d2 /\ write_to (edited (c38_doc 0) d2) = Ok c21_seq_text).
  { eexists _, _, _. split; [apply spot_place; vm_compute; reflexivity|]. split; [vm_compute; reflexivity|]. split; [vm_compute; reflexivity|].
    split; [apply data_called; vm_compute; reflexivity|vm_compute; reflexivity]. }
  destruct S as (id & d1 & d2 & P & A & E & C & W1).
  destruct (C21_make_sequence_partial idhash (c38_doc 0) (c38_data 0) [0]%nat id (ANumber (b "1") Unsigned64) (Handle id) d1 c21_seq_calls
    [DBool false; DNum (b "2") Unsigned64] d2 c38_loaded P) as (u & D' & out & R & _ & W & RO); auto.
  - discriminate.
  - split; [apply outside_checked; vm_compute; reflexivity|]. intros q i EQ PL. destruct q as [|? [|? ?]]; try discriminate EQ.
    assert (i = doc_root (c38_doc 0)) as -> by (eapply place_same; [exact PL|apply spot_place; vm_compute; reflexivity]).
    eexists. apply map_listed. vm_compute. reflexivity.
  - apply id_no_collision.
  - constructor; [|constructor; [|constructor]]; (split; [exact Logic.I|]).
    + now constructor.
    + exact (sc_int (PushInt Unsigned8 2) 2%Z (itoa 2) eq_refl (itoa_decimal 2)).
  - discriminate.
  - exists D'. assert (u = DNum (b "1") Unsigned64) as ->.
    { assert (R0 : replaced (DNum (b "1") Unsigned64) (DSeq [DBool false; DNum (b "2") Unsigned64]) [0]%nat (c38_data 0)
        (DMap [(b "a", DSeq [DBool false; DNum (b "2") Unsigned64]); (b "b", DSeq [DStr (b "x"); DStr (b "y")])])).
      { apply (rp_map _ _ _ [] (b "a")). constructor. }
      now destruct (replaced_fun _ _ _ _ _ R _ _ R0). }
    split; [exact R|]. split; [exact W0|]. rewrite W1 in W. injection W as <-. exact RO.
Qed.
