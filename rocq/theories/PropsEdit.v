(* Properties of editing: C06-C09, C30. *)
From Coq Require Import String.
From Coq Require Import List NArith ZArith Bool Arith Lia Permutation.
From Verif Require Import Bytes Utf8 Data Slab Parser Render Tree Abs Refine Utf8Props RenderProps Num Api Ctx Edit Built
  Serde Tests PropsParse.
Import ListNotations.

(* ---- tools for the concrete cases ---- *)
Lemma built_load s doc : load s = Ok doc -> built idhash doc.
Proof. intros E. eapply built_parse; [exact Logic.I|exact E]. Qed.

Lemma find_text_in d key : forall l j x v, find_text d j l key = Ok (Some (x, v)) ->
  exists it k, In it l /\ map_item_opt d (Some it) = Ok (Some (k, v)).
Proof.
  induction l as [|it l IH]; intros j x v; cbn [find_text]; [discriminate|].
  destruct (mapping_item d it) as [[k u]|? ? ?| | |] eqn:E1; try discriminate.
  destruct (str d (rs_id k)) as [y|? ? ?| | |] eqn:E2; try discriminate.
  destruct (beq y key).
  - intros E. injection E as _ ->. exists it, y. split; [now left|]. unfold map_item_opt. now rewrite E1, E2.
  - intros E. destruct (IH _ _ _ E) as (it' & k' & H1 & H2). exists it', k'. split; [now right|exact H2].
Qed.
Lemma walk_within p : forall d a id x, within d a id -> walk d id p = Some x -> within d a x.
Proof.
  induction p as [|[k|i] p IH]; intros d a id x W; cbn [walk].
  - intros E. now injection E as <-.
  - destruct (map_get d id k) as [[v|]|? ? ?| | |] eqn:E; try discriminate. intros E'.
    apply (IH d a v x); [|exact E']. unfold map_get in E.
    destruct (Data.mapping d id) as [[[n kk] items]|? ? ?| | |] eqn:E1; try discriminate.
    destruct (find_text d 0 items k) as [[[j u]|]|? ? ?| | |] eqn:E2; try discriminate. injection E as ->.
    destruct (find_text_in _ _ _ _ _ _ E2) as (it & y & H1 & H2).
    eapply w_map; [exact W| |exact H1|exact H2]. unfold map_iter. now rewrite E1.
  - destruct (seq_get d id i) as [[v|]|? ? ?| | |] eqn:E; try discriminate. intros E'.
    apply (IH d a v x); [|exact E']. unfold seq_get in E.
    destruct (Data.sequence d id) as [[[n kk] items]|? ? ?| | |] eqn:E1; try discriminate.
    destruct (nth_error items i) as [it|] eqn:E2; [|discriminate]. apply nth_error_In in E2.
    eapply w_seq; [exact W| |exact E2|exact E]. unfold seq_iter. now rewrite E1.
Qed.
Lemma walk_value doc p x : walk (doc_data doc) (doc_root doc) p = Some x -> value_of doc x.
Proof. apply walk_within. constructor. Qed.
Lemma built_path doc p e doc' : built idhash doc -> edit_path p e (Ok doc) = Ok doc' -> built idhash doc'.
Proof.
  destruct doc as [s root d]. cbn. intros B. destruct (walk d root p) as [id|] eqn:W; [|discriminate].
  destruct (run idhash id e d) as [[r d']|? ? ?| | |] eqn:R; try discriminate. intros E. injection E as <-.
  eapply (built_edit _ _ _ (Doc s root d)); [exact B|exact (walk_value (Doc s root d) p id W)|exact Logic.I|exact R].
Qed.
(* A document after some edits. *)
Definition got (o : outcome document) : document := match o with Ok d => d | _ => Doc [] 0 data_empty end.
Definition world0 : document := got (edit_path [K (b "list")] (PushString (b "x: y")) (Ok sample_doc)).
Definition world1 : document := got (edit_path [K (b "text")] MakeMapping (Ok world0)).
Definition world : document := got (edit_path [K (b "text")] (InsertInt (b "n") Signed8 (-5)) (Ok world1)).
Lemma world_built : built idhash world.
Proof.
  apply (built_path world1 [K (b "text")] (InsertInt (b "n") Signed8 (-5))); [|vm_compute; reflexivity].
  apply (built_path world0 [K (b "text")] MakeMapping); [|vm_compute; reflexivity].
  apply (built_path sample_doc [K (b "list")] (PushString (b "x: y"))); [|vm_compute; reflexivity].
  apply (built_load sample). exact sample_loads.
Qed.
(* the ids of some of its values *)
Definition id_of (p : list seg) : nat :=
  match walk (doc_data world) (doc_root world) p with Some x => x | None => 1000 end.
(* its data after an edit *)
Definition after (p : list seg) (e : edit) : data :=
  match run idhash (id_of p) e (doc_data world) with Ok (_, d) => d | _ => data_empty end.
(* the handle it gives *)
Definition handle (p : list seg) (e : edit) : nat :=
  match run idhash (id_of p) e (doc_data world) with Ok (Handle h, _) => h | _ => 1000 end.
Example world_values : Forall (fun p => id_of p <> 1000 /\ value_of world (id_of p))
  [[]; [K (b "name")]; [K (b "list")]; [K (b "list"); I 1]; [K (b "list"); I 1; I 0]; [K (b "list"); I 2]; [K (b "text")]; [K (b "text"); K (b "n")]].
Proof.
  repeat (constructor; [split; [vm_compute; discriminate|];
    match goal with |- value_of _ (id_of ?p) => apply (walk_value world p); vm_compute; reflexivity end|]).
  constructor.
Qed.
Example world_prints : to_string world = Ok (b "name: ""a \x41"" 
list:
  - 'it''s'
  -   - 12
      - ~
  -   'x: y'
text:
  n: -5
last: é").
Proof. vm_compute. reflexivity. Qed.

(* ---- C06 ---- *)
(* All reading methods of a value return. *)
Definition readable (d : data) (id : nat) : Prop :=
  (exists s, value_to_string d id = Ok s) /\
  (exists o, as_bool d id = Ok o) /\ (exists o, as_bstr d id = Ok o) /\ (exists o, as_number d id = Ok o) /\
  (forall t, exists o, as_int d t id = Ok o) /\
  exists a, as_any d id = Ok a /\
    match a with
    | AMapping m => m = id /\ (exists l, map_entries d m l) /\ forall key, exists o, map_get d m key = Ok o
    | ASequence m => m = id /\ (exists l, seq_entries d m l) /\ forall i, exists o, seq_get d m i = Ok o
    | ARaw _ => False
    | _ => True
    end.
Lemma node_seq_get hash d t par i p n k (items : list (sitem nat)) x : models_at hash par d t -> sub t (TSeq i p n k items) ->
  seq_get d i x = Ok (nth_error (map sview items) x).
Proof.
  intros M S. unfold seq_get, Data.sequence. rewrite (sub_raw hash d t par M _ S : get_raw d i = _). cbn [traw].
  rewrite !nth_error_map. destruct (nth_error items x) as [[[ii ip] v]|] eqn:E; cbn [option_map seq_item_opt]; [|reflexivity].
  apply nth_error_In in E. exact (sub_sitem_opt hash d t par M _ _ _ _ _ ii ip v S E).
Qed.
Lemma node_readable hash d t par v : models_at hash par d t -> Forall (interned hash d) (strings t) -> sub t v ->
  readable d (tid v).
Proof.
  intros M F S. split; [exists (dtree v); eapply node_display; eauto|].
  assert (SI : forall s, In s (strings v) -> str d (hash s) = Ok s) by (intros s; eapply sub_interned; eauto).
  pose proof (sub_raw hash d t par M v S) as R.
  assert (H : forall r, v = TLeaf (tid v) (tpre v) (ScStr r) -> str d (hash (rs_id r)) = Ok (rs_id r)).
  { intros r E. apply SI. rewrite E. cbn. right. unfold rs_strings. apply in_or_app. right. now left. }
  unfold as_bool, as_bstr, as_number, as_int. rewrite R.
  split; [|split; [|split; [|split]]].
  - destruct v as [i p [[]| | |]| |]; cbn; eauto.
  - destruct v as [i p [[]| | |r]| |]; cbn; eauto. rewrite (H r eq_refl). eauto.
  - destruct v as [i p [[]| |s h|r]| |]; cbn; eauto. rewrite (SI s); [eauto|cbn; auto].
  - intros q. destruct v as [i p [[]| |s h|r]| |]; cbn; eauto. rewrite (SI s); [eauto|cbn; auto].
  - exists (tany v). split; [eapply node_any; eauto|].
    destruct v as [i p [[]| | |]|i p n k items|i p n k items]; cbn [tany tid]; auto.
    + split; [reflexivity|]. split; [eexists; eapply node_entries; eauto|]. intros key. eexists. eapply node_get; eauto.
    + split; [reflexivity|]. split; [eexists; eapply node_sentries; eauto|]. intros x. eexists. eapply node_seq_get; eauto.
Qed.

Theorem C06_edits_run : forall hash doc id e, built hash doc -> value_of doc id ->
  exists r d', run hash id e (doc_data doc) = Ok (r, d') /\ built hash (edited doc d').
Proof.
  intros hash doc id e B V. destruct (built_models _ _ _ _ B) as (t & suf & M).
  destruct (value_ctx _ _ _ _ _ M V) as (c & v & -> & <-). destruct M as (M & _).
  destruct (run_effect hash c v e _ M) as (r & d' & v' & E & _).
  exists r, d'. split; [exact E|]. eapply built_edit; eauto.
Qed.
Theorem C06_readable : forall hash doc, built hash doc ->
  (exists out, write_to doc = Ok out) /\ (exists out, to_string doc = Ok out) /\
  (forall id, value_of doc id -> readable (doc_data doc) id).
Proof.
  intros hash doc B. destruct (built_models _ _ _ _ B) as (t0 & suf & M0 & R & U & L).
  destruct (settle hash None _ _ M0) as (t & M & F & C & T). rewrite <- T in R. clear M0 C T t0.
  assert (X : exists x, str (doc_data doc) (doc_suffix doc) = Ok x).
  { rewrite U. destruct (in_assoc hash _ _ _ L) as [x E]. exists x. unfold str. now rewrite E. }
  destruct X as [x X].
  assert (P : prefix (doc_data doc) (tid t) = Ok (tpre t)).
  { destruct (sub_hold hash _ _ _ M t (sub_here t)) as [q H]. exact (holds_pre hash _ _ _ H F). }
  split; [|split].
  - unfold write_to. rewrite R, P. fold (value_write_to (doc_data doc) (tid t)).
    rewrite (node_write hash _ _ _ M F t (sub_here t)), X. eexists. reflexivity.
  - unfold to_string. rewrite R, P. fold (value_to_string (doc_data doc) (tid t)).
    rewrite (node_display hash _ _ _ M F t (sub_here t)), X. eexists. reflexivity.
  - intros id V. unfold value_of in V. rewrite R in V.
    destruct (within_sub hash _ _ _ M t id (sub_here t) V) as (w & S & <-). eapply node_readable; eauto.
Qed.
(* The handle an edit returns is on a value of the edited document. *)
Theorem C06_handle : forall hash doc id e h d', built hash doc -> value_of doc id ->
  run hash id e (doc_data doc) = Ok (Handle h, d') -> no_collision hash d' ->
  value_of (edited doc d') h.
Proof.
  intros hash doc id e h d' B V E N. destruct (built_models _ _ _ _ B) as (t & suf & M).
  destruct (value_ctx _ _ _ _ _ M V) as (c & v & -> & <-).
  destruct (edit_step _ _ _ _ _ _ _ _ M E) as (v' & T & M' & _ & F). specialize (F N).
  assert (S : exists w, sub v' w /\ tid w = h).
  { remember (Handle h) as r eqn:R. destruct F; inversion R; subst; try (exists v'; split; [constructor|assumption]);
      try (eexists; split; [constructor|reflexivity]).
    - match goal with H : inserted _ _ _ _ _ _ |- _ => destruct H end.
      + eexists. split; [eapply sub_map; [constructor|]; apply in_or_app; right; left; reflexivity|reflexivity].
      + eexists. split; [eapply sub_map; [constructor|]; apply in_or_app; right; left; reflexivity|reflexivity].
    - match goal with H : pushed _ _ _ _ _ |- _ => destruct H end.
      eexists. split; [eapply sub_seq; [constructor|]; apply in_or_app; right; left; reflexivity|reflexivity]. }
  destruct S as (w & S & <-). eapply sub_value; [exact M'|]. eapply sub_trans; [apply sub_plug|exact S].
Qed.
Example C06_case :
  (exists r d', run idhash (id_of [K (b "list"); I 1]) ClearSequence (doc_data world) = Ok (r, d') /\ built idhash (edited world d')) /\
  readable (doc_data world) (id_of [K (b "text")]).
Proof.
  split.
  - apply C06_edits_run; [exact world_built|]. apply (walk_value world [K (b "list"); I 1]). vm_compute. reflexivity.
  - destruct (C06_readable idhash world world_built) as (_ & _ & R). apply R. apply (walk_value world [K (b "text")]). vm_compute. reflexivity.
Qed.
Example C06_handle_case : value_of (edited world (after [K (b "text")] (InsertStr (b "m") (b "v")))) 22.
Proof.
  apply (C06_handle idhash world (id_of [K (b "text")]) (InsertStr (b "m") (b "v"))).
  - exact world_built.
  - apply (walk_value world [K (b "text")]). vm_compute. reflexivity.
  - vm_compute. reflexivity.
  - apply id_no_collision.
Qed.
Print Assumptions C06_edits_run.
Print Assumptions C06_readable.
Print Assumptions C06_handle.

(* ---- C30 ---- *)
Lemma item_cells hash doc t suf x : models hash doc t suf -> item_of doc x <->
  exists e, In (x, e) (cells hash None t) /\ match e_raw e with RMapItem _ _ | RSeqItem _ => True | _ => False end.
Proof.
  intros M. split.
  - intros I. destruct I as [id l it V E I|id l it V E I]; destruct (value_ctx _ _ _ _ _ M V) as (c & v & -> & <-);
      destruct M as (M & _); pose proof (sub_plug c v) as S.
    + apply map_iter_inv in E as (i & k & E). rewrite (sub_raw hash _ _ _ M v S) in E.
      destruct v as [|j p n kk items|]; try discriminate. cbn in E. injection E as _ _ <-.
      apply in_map_iff in I as ([[[ii ip] key] u] & <- & I). pose proof M as (H & _).
      eexists. split; [eapply has_get_in; [exact H|]|].
      * eapply sub_mitem; [exact M|exact S|exact I].
      * exact Logic.I.
    + apply seq_iter_inv in E as (i & k & E). rewrite (sub_raw hash _ _ _ M v S) in E.
      destruct v as [| |j p n kk items]; try discriminate. cbn in E. injection E as _ _ <-.
      apply in_map_iff in I as ([[ii ip] u] & <- & I). pose proof M as (H & _).
      eexists. split; [eapply has_get_in; [exact H|]|].
      * eapply sub_sitem; [exact M|exact S|exact I].
      * exact Logic.I.
  - intros (e & I & K). apply cells_cases in I as [(w & q & S & A & ->)|[(i & p & n & kk & items & ip & key & v & S & A & ->)|(i & p & n & kk & items & ip & v & S & A & ->)]].
    + destruct w; cbn in K; contradiction.
    + eapply i_map; [exact (sub_value _ _ _ _ _ M S)| |]; destruct M as (M & _).
      * exact (sub_map_iter hash _ _ _ M _ _ _ _ _ S).
      * apply in_map_iff. exists (x, ip, key, v). auto.
    + eapply i_seq; [exact (sub_value _ _ _ _ _ M S)| |]; destruct M as (M & _).
      * exact (sub_seq_iter hash _ _ _ M _ _ _ _ _ S).
      * apply in_map_iff. exists (x, ip, v). auto.
Qed.
Lemma value_cells hash doc t suf x : models hash doc t suf -> value_of doc x <->
  exists e, In (x, e) (cells hash None t) /\ match e_raw e with RMapItem _ _ | RSeqItem _ => False | _ => True end.
Proof.
  intros M. split.
  - intros V. destruct (value_ctx _ _ _ _ _ M V) as (c & v & -> & <-). destruct M as (M & _).
    destruct (sub_cells hash _ _ _ M v (sub_plug c v)) as [q J]. exists (tentry hash q v). split.
    + apply J. rewrite cells_eq. now left.
    + destruct v; exact Logic.I.
  - intros (e & I & K). apply cells_cases in I as [(w & q & S & A & ->)|[(i & p & n & kk & items & ip & key & v & S & A & ->)|(i & p & n & kk & items & ip & v & S & A & ->)]].
    + subst x. exact (sub_value _ _ _ _ _ M S).
    + contradiction.
    + contradiction.
Qed.
(* The live slots are exactly the values and items of the document. *)
Theorem C30_live : forall hash doc, built hash doc -> forall x,
  slab_get (d_slab (doc_data doc)) x <> None <-> value_of doc x \/ item_of doc x.
Proof.
  intros hash doc B x. destruct (built_models _ _ _ _ B) as (t & suf & M).
  rewrite (value_cells hash doc t suf x M), (item_cells hash doc t suf x M).
  destruct M as ((H & _) & _). split.
  - destruct (slab_get _ x) as [e|] eqn:E; [|congruence]. intros _. apply (has_get_in _ _ _ _ H) in E.
    destruct (e_raw e) eqn:R; [left|left|right|left|right]; exists e; rewrite R; auto.
  - intros [(e & I & _)|(e & I & _)]; rewrite (has_get _ _ _ _ H I); discriminate.
Qed.
(* Their number is the number of values and items. *)
Theorem C30_count : forall hash doc, built hash doc -> exists values items,
  NoDup values /\ NoDup items /\ (forall x, In x values <-> value_of doc x) /\ (forall x, In x items <-> item_of doc x) /\
  slab_len (d_slab (doc_data doc)) = length values + length items.
Proof.
  intros hash doc B. destruct (built_models _ _ _ _ B) as (t & suf & M).
  pose (isv := fun x : nat * entry => match e_raw (snd x) with RMapItem _ _ | RSeqItem _ => false | _ => true end).
  pose proof (value_cells hash doc t suf) as VC. pose proof (item_cells hash doc t suf) as IC.
  assert (H : has (d_slab (doc_data doc)) (cells hash None t)) by apply M.
  assert (ND : forall f : nat * entry -> bool, NoDup (map fst (filter f (cells hash None t)))).
  { intros f. pose proof (has_nodup _ _ H) as N. revert N. generalize (cells hash None t) as L. clear.
    induction L as [|a L IH]; cbn; intros N; [constructor|]. inversion N as [|? ? NI N']; subst.
    destruct (f a); cbn; auto. constructor; auto. intros X. apply NI. apply in_map_iff in X as (y & <- & Y).
    apply filter_In in Y as [Y _]. now apply in_map. }
  exists (map fst (filter isv (cells hash None t))), (map fst (filter (fun x => negb (isv x)) (cells hash None t))).
  split; [apply ND|]. split; [apply ND|]. split; [|split].
  - intros x. rewrite (VC x M), in_map_iff. split.
    + intros ([y e] & <- & I). apply filter_In in I as [I J]. exists e. split; [exact I|]. unfold isv in J. cbn in J.
      destruct (e_raw e); congruence || exact Logic.I.
    + intros (e & I & K). exists (x, e). split; [reflexivity|]. apply filter_In. split; [exact I|]. unfold isv. cbn.
      destruct (e_raw e); tauto.
  - intros x. rewrite (IC x M), in_map_iff. split.
    + intros ([y e] & <- & I). apply filter_In in I as [I J]. exists e. split; [exact I|]. unfold isv in J. cbn in J.
      destruct (e_raw e); cbn in J; congruence || exact Logic.I.
    + intros (e & I & K). exists (x, e). split; [reflexivity|]. apply filter_In. split; [exact I|]. unfold isv. cbn.
      destruct (e_raw e); tauto.
  - rewrite (has_len _ _ H), !map_length. clear. induction (cells hash None t) as [|a L IH]; [reflexivity|]. cbn.
    destruct (isv a); cbn; lia.
Qed.
Example C30_case : slab_len (d_slab (doc_data world)) = 21 /\
  slab_get (d_slab (doc_data world)) (id_of [K (b "list"); I 1; I 0]) <> None.
Proof.
  split; [vm_compute; reflexivity|]. apply (C30_live idhash world world_built). left.
  apply (walk_value world [K (b "list"); I 1; I 0]). vm_compute. reflexivity.
Qed.
Print Assumptions C30_live.
Print Assumptions C30_count.

(* ---- C07 ---- *)
(* the printed text around a hole, by Display *)
Definition dfull {I} (t : tree I) : bytes := dpre t ++ dtree t.
Definition dmitem {I} (it : mitem I) : bytes := let '(_, ip, key, v) := it in lossy ip ++ dstr key ++ [COLON] ++ dfull v.
Definition dsitem {I} (k : ckind bytes) (it : sitem I) : bytes := let '(_, ip, v) := it in lossy ip ++ dash_if k ++ dfull v.
Fixpoint dleft (c : ctx) : bytes :=
  match c with
  | CHole => []
  | CMapC i p n k l ii ip key c r =>
    lossy p ++ open_if LBRACE k ++ sepl (comma_if k) (map dmitem l) ++ lossy ip ++ dstr key ++ [COLON] ++ dleft c
  | CSeqC i p n k l ii ip c r =>
    lossy p ++ open_if LBRACK k ++ sepl (comma_if k) (map (dsitem k) l) ++ lossy ip ++ dash_if k ++ dleft c
  end.
Fixpoint dright (c : ctx) : bytes :=
  match c with
  | CHole => []
  | CMapC i p n k l ii ip key c r =>
    dright c ++ sepr (comma_if k) (map dmitem r) ++ closing lossy RBRACE k
  | CSeqC i p n k l ii ip c r =>
    dright c ++ sepr (comma_if k) (map (dsitem k) r) ++ closing lossy RBRACK k
  end.
Lemma app_cons_not {A} (l r : list A) x : l ++ x :: r <> []. Proof. destruct l; discriminate. Qed.
Lemma plug_not_blank c v : c <> CHole -> is_blank (plug c v) = false.
Proof.
  destruct c as [|i p n k l ii ip key c r|i p n k l ii ip c r]; [congruence|intros _..]; cbn; destruct k; auto; destruct l; reflexivity.
Qed.
Lemma dfull_plug c v : dfull (plug c v) = dleft c ++ dfull v ++ dright c.
Proof.
  induction c as [|i p n k l ii ip key c IH r|i p n k l ii ip c IH r]; cbn [dleft dright].
  - cbn. now rewrite app_nil_r.
  - unfold dfull at 1. unfold dpre. rewrite plug_not_blank by discriminate. cbn [plug tpre dtree].
    rewrite map_app. cbn [map]. rewrite sep_split. fold (dfull (plug c v)). rewrite IH. rewrite <- !app_assoc. reflexivity.
  - unfold dfull at 1. unfold dpre. rewrite plug_not_blank by discriminate. cbn [plug tpre dtree].
    rewrite map_app. cbn [map]. rewrite sep_split. fold (dfull (plug c v)). rewrite IH. rewrite <- !app_assoc. reflexivity.
Qed.
Lemma ddoc_plug c v suf : is_blank v = false -> ddoc (plug c v) suf = dleft c ++ (lossy (tpre v) ++ dtree v) ++ dright c ++ lossy suf.
Proof.
  intros B. assert (E : dfull v = lossy (tpre v) ++ dtree v) by (unfold dfull, dpre; now rewrite B).
  rewrite <- E. unfold ddoc. rewrite app_assoc.
  replace (lossy (tpre (plug c v)) ++ dtree (plug c v)) with (dfull (plug c v)).
  - rewrite dfull_plug, <- !app_assoc. reflexivity.
  - unfold dfull, dpre. destruct c as [|i p n k l ii ip key c r|i p n k l ii ip c r];
      [cbn [plug]; now rewrite B|rewrite plug_not_blank by discriminate; reflexivity..].
Qed.
Lemma blank_empty {I} (t : tree I) : dtree t <> [] -> is_blank t = false.
Proof.
  destruct t as [i p [[]| | |]|i p n [] []|i p n [] []]; cbn; congruence.
Qed.
Definition is_set (e : edit) : Prop :=
  match e with
  | SetNull _ | SetString _ | SetStringWith _ _ | SetBlock _ _ | SetBool _ | SetInt _ _ | SetFloat _ _ => True
  | _ => False
  end.
Lemma set_effect c v e r v' : is_set e -> effect c v e r v' ->
  exists sc, ascalar v e = Some sc /\ r = Done /\ v' = TLeaf (tid v) (tpre v) sc.
Proof.
  intros S F. destruct F; try (destruct S; fail); try (destruct e; cbn in *; try contradiction; discriminate); eauto.
  - destruct e; cbn in *; try contradiction; destruct H0 as [H0|[H0|[? H0]]]; congruence.
  - destruct e; cbn in *; try contradiction; destruct H0 as [H0|[H0|[? H0]]]; congruence.
Qed.
(* Setting a value changes the written document only inside the text of that value. *)
Theorem C07_set_local : forall hash doc id e r d',
  built hash doc -> value_of doc id -> is_set e ->
  run hash id e (doc_data doc) = Ok (r, d') -> no_collision hash d' ->
  exists before old new after,
    write_to doc = Ok (before ++ old ++ after) /\ value_write_to (doc_data doc) id = Ok old /\
    write_to (edited doc d') = Ok (before ++ new ++ after) /\ value_write_to d' id = Ok new.
Proof.
  intros hash doc id e r d' B V S E N. destruct (edit_setup _ _ _ _ _ _ _ _ B V E N) as (c & v & v' & suf & ST).
  destruct (set_effect _ _ _ _ _ S (st_eff ST)) as (sc & _ & _ & EV).
  rewrite (st_w ST), (st_w' ST), !wdoc_plug.
  exists (wleft c ++ tpre v), (wtree v), (wtree v'), (wright c ++ suf).
  split; [unfold full; rewrite <- !app_assoc; reflexivity|].
  split; [rewrite <- (st_id ST); apply (st_vw ST), sub_plug|].
  split; [unfold full; rewrite EV; rewrite <- !app_assoc; reflexivity|].
  rewrite <- (st_id' ST). apply (st_vw' ST), sub_plug.
Qed.
(* The same of to_string, when the value is printed as something before and after. *)
Theorem C07_set_local_display : forall hash doc id e r d' old new,
  built hash doc -> value_of doc id -> is_set e ->
  run hash id e (doc_data doc) = Ok (r, d') -> no_collision hash d' ->
  value_to_string (doc_data doc) id = Ok old -> old <> [] ->
  value_to_string d' id = Ok new -> new <> [] ->
  exists before after,
    to_string doc = Ok (before ++ old ++ after) /\ to_string (edited doc d') = Ok (before ++ new ++ after).
Proof.
  intros hash doc id e r d' old new B V S E N O1 O2 P1 P2.
  destruct (edit_setup _ _ _ _ _ _ _ _ B V E N) as (c & v & v' & suf & ST).
  destruct (set_effect _ _ _ _ _ S (st_eff ST)) as (sc & _ & _ & EV).
  pose proof (st_vd ST v (sub_plug c v)) as D0.
  pose proof (st_vd' ST v' (sub_plug c v')) as D1.
  rewrite (st_id ST), O1 in D0. rewrite (st_id' ST), P1 in D1.
  injection D0 as ->. injection D1 as ->.
  rewrite (st_d ST), (st_d' ST), !ddoc_plug by now apply blank_empty.
  exists (dleft c ++ lossy (tpre v)), (dright c ++ lossy suf).
  subst v'. cbn [tpre]. rewrite <- !app_assoc. split; reflexivity.
Qed.
Print Assumptions C07_set_local.
Print Assumptions C07_set_local_display.
Example C07_case : exists before old new aft,
  write_to world = Ok (before ++ old ++ aft) /\ value_write_to (doc_data world) (id_of [K (b "list"); I 1]) = Ok old /\
  write_to (edited world (after [K (b "list"); I 1] (SetBlock [b "p"; b "q"] (Literal Keep)))) = Ok (before ++ new ++ aft) /\
  value_write_to (after [K (b "list"); I 1] (SetBlock [b "p"; b "q"] (Literal Keep))) (id_of [K (b "list"); I 1]) = Ok new.
Proof.
  apply (C07_set_local idhash world (id_of [K (b "list"); I 1]) (SetBlock [b "p"; b "q"] (Literal Keep)) Done).
  - exact world_built.
  - apply (walk_value world [K (b "list"); I 1]). vm_compute. reflexivity.
  - exact Logic.I.
  - vm_compute. reflexivity.
  - apply id_no_collision.
Qed.

(* ---- C08 ---- *)
Lemma sub_leaf i p s w : sub (TLeaf i p s) w -> w = TLeaf i p s.
Proof.
  intros S. apply sub_head in S as [->|[(? & ? & ? & ? & ? & ? & ? & ? & ? & E & _)|(? & ? & ? & ? & ? & ? & ? & ? & E & _)]];
    [reflexivity|discriminate..].
Qed.
Lemma sub_map_inv i p n k (items : list (mitem nat)) w : sub (TMap i p n k items) w ->
  w = TMap i p n k items \/ exists it, In it items /\ sub (snd it) w.
Proof.
  intros S. apply sub_head in S as [->|[(? & ? & ? & ? & its & ii & ip & key & v & E & I & S)|(? & ? & ? & ? & ? & ? & ? & ? & E & _)]];
    [now left| |discriminate]. injection E as <- <- <- <- <-. right. exists (ii, ip, key, v). auto.
Qed.
Lemma sub_seq_inv i p n k (items : list (sitem nat)) w : sub (TSeq i p n k items) w ->
  w = TSeq i p n k items \/ exists it, In it items /\ sub (snd it) w.
Proof.
  intros S. apply sub_head in S as [->|[(? & ? & ? & ? & ? & ? & ? & ? & ? & E & _)|(? & ? & ? & ? & its & ii & ip & v & E & I & S)]];
    [now left|discriminate|]. injection E as <- <- <- <- <-. right. exists (ii, ip, v). auto.
Qed.
Lemma sub_of_mitem i p n k (items : list (mitem nat)) it w : In it items -> sub (snd it) w -> sub (TMap i p n k items) w.
Proof. destruct it as [[[ii ip] key] v]. intros I S. eapply sub_trans; [eapply sub_map; [constructor|exact I]|exact S]. Qed.
Lemma sub_of_sitem i p n k (items : list (sitem nat)) it w : In it items -> sub (snd it) w -> sub (TSeq i p n k items) w.
Proof. destruct it as [[ii ip] v]. intros I S. eapply sub_trans; [eapply sub_seq; [constructor|exact I]|exact S]. Qed.
(* The values below the edited value were there before, except the one of the handle. *)
Lemma effect_sub c v e r v' : effect c v e r v' -> forall w, sub v' w -> w = v' \/ r = Handle (tid w) \/ sub v w.
Proof.
  intros F w S. destruct F as [e sc _ _ _| |n p _ _| |n p _ _|e sc key s h v' _ _ F|key x v' F|i p n k items ->
    |e sc s h v' _ _ F|x y v' F|i p n k items ->|e _ _|e _ _]; auto.
  - apply sub_leaf in S. auto.
  - apply sub_map_inv in S as [->|(it & [] & _)]. auto.
  - apply sub_seq_inv in S as [->|(it & [] & _)]. auto.
  - destruct F as [i p n k l ii ip kk v r EK FL|i p n k items ii vi FL]; apply sub_map_inv in S as [->|(it & I & S)]; auto;
      apply in_app_or in I as [I|[I|I]].
    + right. right. eapply sub_of_mitem; [|exact S]. apply in_or_app. auto.
    + subst it. apply sub_leaf in S. subst w. auto.
    + right. right. eapply sub_of_mitem; [|exact S]. apply in_or_app. right. now right.
    + right. right. eapply sub_of_mitem; eauto.
    + subst it. apply sub_leaf in S. subst w. auto.
    + destruct I.
  - destruct F as [i p n k l it r EK FL|i p n k items FL]; auto. apply sub_map_inv in S as [->|(it' & I & S)]; auto.
    right. right. eapply sub_of_mitem; [|exact S]. apply in_app_or in I as [I|I]; apply in_or_app; [auto|]. right. now right.
  - apply sub_map_inv in S as [->|(it & [] & _)]. auto.
  - destruct F as [i p n k items ii vi]; apply sub_seq_inv in S as [->|(it & I & S)]; auto; apply in_app_or in I as [I|[I|I]].
    + right. right. eapply sub_of_sitem; eauto.
    + subst it. apply sub_leaf in S. subst w. auto.
    + destruct I.
  - destruct F as [i p n k l it r EK|i p n k items FL]; auto. apply sub_seq_inv in S as [->|(it' & I & S)]; auto.
    right. right. eapply sub_of_sitem; [|exact S]. apply in_app_or in I as [I|I]; apply in_or_app; [auto|]. right. now right.
  - apply sub_seq_inv in S as [->|(it & [] & _)]. auto.
Qed.
Lemma value_sub hash doc t suf id : models hash doc t suf -> value_of doc id -> exists w, sub t w /\ tid w = id.
Proof.
  intros M V. destruct (value_ctx _ _ _ _ _ M V) as (c & v & -> & <-). exists v. split; [apply sub_plug|reflexivity].
Qed.
Lemma models_unique hash doc t suf v w : models hash doc t suf -> sub t v -> sub t w -> tid v = tid w -> v = w.
Proof. intros ((H & _) & _). eapply sub_unique. eapply has_nodup. exact H. Qed.
Lemma models_within hash doc t suf v w : models hash doc t suf -> sub t v -> sub t w -> within (doc_data doc) (tid v) (tid w) <-> sub v w.
Proof.
  intros M S W. split; intros H.
  - assert (X := M). destruct X as (X & _). destruct (within_sub hash _ _ _ X v _ S H) as (u & U1 & U2).
    assert (u = w) as <-; [|exact U1]. apply (models_unique hash doc t suf); auto. exact (sub_trans _ _ _ S U1).
  - destruct M as (M & _). eapply sub_within; eauto.
Qed.
(* What the reading methods of a value give. *)
Definition same_reading (d d' : data) (id : nat) : Prop :=
  as_any d' id = as_any d id /\ as_bstr d' id = as_bstr d id /\ as_bool d' id = as_bool d id /\
  (forall t, as_int d' t id = as_int d t id) /\
  (forall l, map_entries d id l <-> map_entries d' id l) /\ (forall l, seq_entries d id l <-> seq_entries d' id l).
(* ... which is determined by the node, up to the subtrees *)
Definition node_like (v w : tree nat) : Prop :=
  match v, w with
  | TLeaf i _ s, TLeaf j _ s' => i = j /\ s = s'
  | TMap i _ _ _ l, TMap j _ _ _ m => i = j /\ map mview l = map mview m
  | TSeq i _ _ _ l, TSeq j _ _ _ m => i = j /\ map sview l = map sview m
  | _, _ => False
  end.
Lemma node_like_refl v : node_like v v. Proof. destruct v; cbn; auto. Qed.
Lemma map_entries_kind d id l : map_entries d id l -> exists n k its, get_raw d id = Ok (RMap n k its).
Proof. intros (it & E & _). apply map_iter_inv in E as (n & k & E). eauto. Qed.
Lemma seq_entries_kind d id l : seq_entries d id l -> exists n k its, get_raw d id = Ok (RSeq n k its).
Proof. intros (it & E & _). apply seq_iter_inv in E as (n & k & E). eauto. Qed.
Section Like.
Variable hash : bytes -> sid.
Variables (d d' : data) (t t' : tree nat).
Hypothesis M : models_at hash None d t.
Hypothesis M' : models_at hash None d' t'.
Hypothesis F : Forall (interned hash d) (strings t).
Hypothesis F' : Forall (interned hash d') (strings t').
Lemma like_reading v v' : sub t v -> sub t' v' -> node_like v v' -> same_reading d d' (tid v).
Proof.
  intros S S' L.
  assert (T : tid v' = tid v) by (destruct v, v'; cbn in *; try contradiction; destruct L; auto).
  pose proof (node_any hash _ _ _ M F v S) as A. pose proof (node_any hash _ _ _ M' F' v' S') as A'.
  pose proof (sub_raw hash _ _ _ M v S) as R. pose proof (sub_raw hash _ _ _ M' v' S') as R'.
  rewrite T in A', R'.
  assert (ST : forall s, In s (strings v) -> str d (hash s) = Ok s) by (intros s; eapply sub_interned; eauto).
  assert (ST' : forall s, In s (strings v') -> str d' (hash s) = Ok s) by (intros s; eapply sub_interned; eauto).
  split; [|split; [|split; [|split; [|split]]]].
  - rewrite A, A'. f_equal. destruct v as [i p s|i p n k l|i p n k l], v' as [j q s'|j q m kk l'|j q m kk l']; cbn in *; try contradiction; destruct L; now subst.
  - unfold as_bstr. rewrite R, R'. destruct v as [i p s|i p n k l|i p n k l], v' as [j q s'|j q m kk l'|j q m kk l']; cbn in *; try contradiction; try reflexivity.
    destruct L as [-> <-]. destruct s as [[]| | |r]; cbn; try reflexivity.
    rewrite ST, ST'; [reflexivity|cbn; right; unfold rs_strings; apply in_or_app; right; now left..].
  - unfold as_bool. rewrite R, R'. destruct v as [i p s|i p n k l|i p n k l], v' as [j q s'|j q m kk l'|j q m kk l']; cbn in *; try contradiction; try reflexivity.
    destruct L as [-> <-]. reflexivity.
  - intros ty. unfold as_int. rewrite R, R'. destruct v as [i p s|i p n k l|i p n k l], v' as [j q s'|j q m kk l'|j q m kk l']; cbn in *; try contradiction; try reflexivity.
    destruct L as [-> <-]. destruct s as [[]| |s h|r]; cbn; try reflexivity.
    rewrite ST, ST'; [reflexivity|cbn; auto..].
  - intros l. destruct v as [i p s|i p n k li|i p n k li], v' as [j q s'|j q m kk l'|j q m kk l']; cbn in L; try contradiction.
    + split; intros H; apply map_entries_kind in H as (? & ? & ? & H); cbn in R, R', H; congruence.
    + destruct L as [-> L]. pose proof (node_entries hash _ _ _ M F _ _ _ _ _ S) as E.
      pose proof (node_entries hash _ _ _ M' F' _ _ _ _ _ S') as E'. cbn [tid]. rewrite <- L in E'.
      split; intros H.
      * now rewrite (map_entries_det _ _ _ _ H E).
      * now rewrite (map_entries_det _ _ _ _ H E').
    + split; intros H; apply map_entries_kind in H as (? & ? & ? & H); cbn in R, R', H; congruence.
  - intros l. destruct v as [i p s|i p n k li|i p n k li], v' as [j q s'|j q m kk l'|j q m kk l']; cbn in L; try contradiction.
    + split; intros H; apply seq_entries_kind in H as (? & ? & ? & H); cbn in R, R', H; congruence.
    + split; intros H; apply seq_entries_kind in H as (? & ? & ? & H); cbn in R, R', H; congruence.
    + destruct L as [-> L]. pose proof (node_sentries hash _ _ _ M _ _ _ _ _ S) as E.
      pose proof (node_sentries hash _ _ _ M' _ _ _ _ _ S') as E'. cbn [tid]. rewrite <- L in E'.
      split; intros H.
      * now rewrite (seq_entries_det _ _ _ _ H E).
      * now rewrite (seq_entries_det _ _ _ _ H E').
Qed.
End Like.
Lemma plug_like c v v' : c <> CHole -> tid v = tid v' -> node_like (plug c v) (plug c v').
Proof.
  intros N T. destruct c as [|i p n k l ii ip key c r|i p n k l ii ip c r]; [congruence|..]; cbn [plug node_like]; (split; [reflexivity|]);
    rewrite !map_app; cbn [map]; do 2 f_equal; unfold mview, sview; cbn [mkey fst snd]; rewrite !tid_plug, T; reflexivity.
Qed.
(* Values outside the edited value stay in the document and read the same; those which do not
   contain it also print the same. Values inside it, if they are still there, read and print
   the same, except the one the edit gave a handle on. *)
Theorem C08_stable : forall hash doc id e r d' x,
  built hash doc -> value_of doc id -> run hash id e (doc_data doc) = Ok (r, d') -> no_collision hash d' ->
  value_of doc x -> x <> id -> r <> Handle x ->
  (~ within (doc_data doc) id x -> value_of (edited doc d') x) /\
  (value_of (edited doc d') x ->
     same_reading (doc_data doc) d' x /\
     (~ within (doc_data doc) x id ->
        value_to_string d' x = value_to_string (doc_data doc) x /\
        value_write_to d' x = value_write_to (doc_data doc) x)).
Proof.
  intros hash doc id e r d' x B V E N X NX NH.
  destruct (edit_setup _ _ _ _ _ _ _ _ B V E N) as (c & v & v' & suf & ST).
  destruct (value_sub _ _ _ _ _ (st_m ST) X) as (w & W & <-).
  pose proof (st_id ST) as TI. pose proof (st_id' ST) as TI'.
  assert (MA := st_m ST). destruct MA as (MA & _). assert (MB := st_m' ST). destruct MB as (MB & _). cbn [edited doc_data] in MB.
  split.
  - intros NW. destruct (sub_plug_cases hash c v w W) as [H|[(c1 & c2 & EC & NC & ->)|[H _]]].
    + exfalso. apply NW. rewrite <- TI. now apply (models_within _ _ _ _ _ _ (st_m ST) (sub_plug c v) W).
    + replace (tid (plug c2 v)) with (tid (plug c2 v')) by now rewrite !tid_plug, TI, TI'.
      eapply sub_value; [exact (st_m' ST)|]. rewrite EC, plug_comp. apply sub_plug.
    + eapply sub_value; [exact (st_m' ST)|]. apply H.
  - intros X'. destruct (value_sub _ _ _ _ _ (st_m' ST) X') as (w' & W' & T').
    assert (C : w' = w \/ (exists c2, c2 <> CHole /\ w = plug c2 v /\ w' = plug c2 v')).
    { destruct (sub_plug_cases hash c v' w' W') as [H|[(c1 & c2 & EC & NC & ->)|[H _]]].
      - destruct (effect_sub _ _ _ _ _ (st_eff ST) w' H) as [->|[->|S]]; [congruence|congruence|].
        left. eapply models_unique; [exact (st_m ST)| |exact W|exact T']. eapply sub_trans; [apply sub_plug|exact S].
      - right. exists c2. split; [exact NC|]. split; [|reflexivity].
        eapply models_unique; [exact (st_m ST)|exact W| |].
        + rewrite EC, plug_comp. apply sub_plug.
        + rewrite <- T', !tid_plug, TI, TI'. reflexivity.
      - left. eapply models_unique; [exact (st_m ST)|apply H|exact W|exact T']. }
    split.
    + eapply like_reading; [exact MA|exact MB|exact (st_int ST)|exact (st_int' ST)|exact W|exact W'|].
      destruct C as [->|(c2 & NC & -> & ->)]; [apply node_like_refl|]. apply plug_like; congruence.
    + intros NW. destruct C as [->|(c2 & NC & -> & ->)].
      * rewrite (st_vd' ST w W'), (st_vw' ST w W'), (st_vd ST w W), (st_vw ST w W). auto.
      * exfalso. apply NW. rewrite <- TI. apply (models_within _ _ _ _ _ _ (st_m ST) W (sub_plug c v)). apply sub_plug.
Qed.
Print Assumptions C08_stable.
(* Pushing to the inner sequence: the value of a sibling key and the outer sequence. *)
Example C08_case :
  let d' := after [K (b "list"); I 1] (PushBool true) in
  let h := handle [K (b "list"); I 1] (PushBool true) in
  (value_of (edited world d') (id_of [K (b "name")]) /\
   same_reading (doc_data world) d' (id_of [K (b "name")])) /\
  same_reading (doc_data world) d' (id_of [K (b "list")]) /\
  same_reading (doc_data world) d' (id_of [K (b "list"); I 1; I 0]) /\
  value_to_string d' (id_of [K (b "list")]) <> value_to_string (doc_data world) (id_of [K (b "list")]).
Proof.
  intros d' h.
  assert (H : forall p, walk (doc_data world) (doc_root world) p = Some (id_of p) ->
    walk d' (doc_root world) p = Some (id_of p) ->
    id_of p <> id_of [K (b "list"); I 1] -> Handle h <> Handle (id_of p) ->
    value_of (edited world d') (id_of p) /\ same_reading (doc_data world) d' (id_of p)).
  { intros p W W' N1 N2. assert (V : value_of (edited world d') (id_of p)) by (apply (walk_value (edited world d') p); exact W').
    split; [exact V|].
    destruct (C08_stable idhash world (id_of [K (b "list"); I 1]) (PushBool true) (Handle h) d' (id_of p)) as [_ R].
    - exact world_built.
    - apply (walk_value world [K (b "list"); I 1]). vm_compute. reflexivity.
    - vm_compute. reflexivity.
    - apply id_no_collision.
    - apply (walk_value world p). exact W.
    - exact N1.
    - exact N2.
    - exact (proj1 (R V)). }
  split; [apply H; vm_compute; congruence|]. split; [apply H; vm_compute; congruence|]. split; [apply H; vm_compute; congruence|].
  vm_compute. discriminate.
Qed.
