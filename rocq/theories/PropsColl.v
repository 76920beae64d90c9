(* Properties of mappings and sequences: C12, C13, C29. *)
From Coq Require Import String.
From Coq Require Import List NArith ZArith Bool Arith Lia Permutation.
From Verif Require Import Bytes Utf8 Data Slab Parser Render Tree Abs Refine Utf8Props RenderProps Num Api Ctx Edit Built
  Serde Tests PropsParse PropsEdit.
Import ListNotations.

(* ---- the ids of a tree ---- *)
Fixpoint ids (t : tree nat) : list nat :=
  match t with
  | TLeaf i _ _ => [i]
  | TMap i _ _ _ items => i :: flat_map (fun '(ii, _, _, v) => ii :: ids v) items
  | TSeq i _ _ _ items => i :: flat_map (fun '(ii, _, v) => ii :: ids v) items
  end.
Definition mids (it : mitem nat) : list nat := let '(ii, _, _, v) := it in ii :: ids v.
Definition sids (it : sitem nat) : list nat := let '(ii, _, v) := it in ii :: ids v.
Lemma ids_map i p n k items : ids (TMap i p n k items) = i :: flat_map mids items. Proof. reflexivity. Qed.
Lemma ids_seq i p n k items : ids (TSeq i p n k items) = i :: flat_map sids items. Proof. reflexivity. Qed.
Lemma flat_map_fst {A B C} (f : A -> list (B * C)) l : map fst (flat_map f l) = flat_map (fun a => map fst (f a)) l.
Proof. induction l as [|a l IH]; [reflexivity|]. cbn [flat_map]. now rewrite map_app, IH. Qed.
Section Ids.
Variable hash : bytes -> sid.
Lemma mcells_ids par it : (forall par, map fst (cells hash par (snd it)) = ids (snd it)) -> map fst (mcells hash par it) = mids it.
Proof. destruct it as [[[ii ip] key] v]. intros H. cbn. f_equal. apply H. Qed.
Lemma scells_ids par it : (forall par, map fst (cells hash par (snd it)) = ids (snd it)) -> map fst (scells hash par it) = sids it.
Proof. destruct it as [[ii ip] v]. intros H. cbn. f_equal. apply H. Qed.
Lemma cells_ids t : forall par, map fst (cells hash par t) = ids t.
Proof.
  induction t as [i p s|i p n k items IH|i p n k items IH] using tree_ind'; intros par; [reflexivity|..].
  - rewrite cells_map, ids_map. cbn [map fst]. f_equal. rewrite flat_map_fst.
    induction IH as [|it items H _ IHi]; [reflexivity|]. cbn [flat_map]. f_equal; [now apply mcells_ids|exact IHi].
  - rewrite cells_seq, ids_seq. cbn [map fst]. f_equal. rewrite flat_map_fst.
    induction IH as [|it items H _ IHi]; [reflexivity|]. cbn [flat_map]. f_equal; [now apply scells_ids|exact IHi].
Qed.
Fixpoint cids (c : ctx) : list nat :=
  match c with
  | CHole => []
  | CMapC i _ _ _ l ii _ _ c r => i :: flat_map mids l ++ ii :: cids c ++ flat_map mids r
  | CSeqC i _ _ _ l ii _ c r => i :: flat_map sids l ++ ii :: cids c ++ flat_map sids r
  end.
Lemma ids_plug c v : Permutation (ids (plug c v)) (cids c ++ ids v).
Proof.
  induction c as [|i p n k l ii ip key c IH r|i p n k l ii ip c IH r]; cbn [plug cids].
  - reflexivity.
  - rewrite ids_map. cbn [app]. apply perm_skip. rewrite flat_map_app, <- app_assoc. apply Permutation_app_head.
    cbn [flat_map mids app]. apply perm_skip. rewrite IH, <- !app_assoc. apply Permutation_app_head, Permutation_app_comm.
  - rewrite ids_seq. cbn [app]. apply perm_skip. rewrite flat_map_app, <- app_assoc. apply Permutation_app_head.
    cbn [flat_map sids app]. apply perm_skip. rewrite IH, <- !app_assoc. apply Permutation_app_head, Permutation_app_comm.
Qed.
Lemma models_nodup doc t suf : models hash doc t suf -> NoDup (ids t).
Proof. intros ((H & _) & _). rewrite <- (cells_ids t None). eapply has_nodup. exact H. Qed.
Lemma ctx_nodup doc c v suf : models hash doc (plug c v) suf -> NoDup (cids c ++ ids v).
Proof. intros M. eapply Permutation_NoDup; [apply ids_plug|]. eapply models_nodup; eauto. Qed.
Lemma sub_ids v w : sub v w -> In (tid w) (ids v).
Proof.
  intros S. destruct (sub_ctx _ _ S) as [c ->]. eapply Permutation_in; [symmetry; apply ids_plug|].
  apply in_or_app. right. destruct w; now left.
Qed.
Lemma value_ids doc c v suf x : models hash doc (plug c v) suf -> value_of doc x -> In x (cids c ++ ids v).
Proof.
  intros M V. destruct (value_sub _ _ _ _ _ M V) as (w & S & <-). eapply Permutation_in; [apply ids_plug|]. now apply sub_ids.
Qed.
End Ids.
Lemma nodup_mid {A} (l m r : list A) : NoDup (l ++ m ++ r) -> forall x, In x m -> ~ In x (l ++ r).
Proof.
  intros N x X Y. apply in_app_or in Y as [Y|Y].
  - eapply nodup_app_disj; [exact N|exact Y|]. apply in_or_app. now left.
  - apply nodup_app_r in N. eapply nodup_app_disj; [exact N|exact X|exact Y].
Qed.

(* ---- C12 ---- *)
(* The value of the first entry with a key, or none. *)
Definition first_entry (key : bytes) (l : list (bytes * nat)) (o : option nat) : Prop :=
  match o with
  | Some v => exists l1 l2, l = l1 ++ (key, v) :: l2 /\ ~ In key (map fst l1)
  | None => ~ In key (map fst l)
  end.
Lemma lookup_first key l : first_entry key l (lookup key l).
Proof.
  induction l as [|[k v] l IH]; cbn [lookup]; [intros []|]. destruct (beq k key) eqn:E.
  - apply beq_eq in E as ->. exists [], l. auto.
  - assert (k <> key) by (intros ->; now rewrite beq_refl in E).
    destruct (lookup key l) as [x|]; cbn in *.
    + destruct IH as (l1 & l2 & -> & N). exists ((k, v) :: l1), l2. split; [reflexivity|]. cbn. tauto.
    + tauto.
Qed.
Lemma first_det key l o : first_entry key l o -> lookup key l = o.
Proof.
  destruct o as [v|]; cbn.
  - intros (l1 & l2 & -> & N). induction l1 as [|[k u] l1 IH]; cbn in *.
    + now rewrite beq_refl.
    + destruct (beq k key) eqn:E; [apply beq_eq in E; tauto|]. tauto.
  - intros N. induction l as [|[k u] l IH]; cbn in *; [reflexivity|].
    destruct (beq k key) eqn:E; [apply beq_eq in E; tauto|]. tauto.
Qed.
Lemma first_split (key : bytes) l1 (v : nat) l2 : forall m1 u m2, l1 ++ (key, v) :: l2 = m1 ++ (key, u) :: m2 ->
  ~ In key (map fst l1) -> ~ In key (map fst m1) -> l1 = m1 /\ v = u /\ l2 = m2.
Proof.
  induction l1 as [|[k x] l1 IH]; intros [|[k' x'] m1] u m2 E N N'; cbn in *.
  - injection E as -> ->. auto.
  - injection E as -> _ _. tauto.
  - injection E as -> _ _. tauto.
  - injection E as -> -> E. destruct (IH _ _ _ E) as (-> & -> & ->); auto.
Qed.
Lemma other_first key (items : list (mitem nat)) : Forall (other_key key) items -> ~ In key (map fst (map mview items)).
Proof.
  intros F I. rewrite map_map in I. apply in_map_iff in I as (it & E & I). rewrite Forall_forall in F. now apply (F _ I).
Qed.

(* a mapping in a document *)
Lemma mapping_node hash doc t suf id l : models hash doc t suf -> value_of doc id -> map_entries (doc_data doc) id l ->
  Forall (interned hash (doc_data doc)) (strings t) ->
  exists p n k (items : list (mitem nat)), sub t (TMap id p n k items) /\ l = map mview items.
Proof.
  intros M V L F. destruct (value_sub _ _ _ _ _ M V) as (v & S & <-). assert (X := M). destruct X as (X & _).
  pose proof (sub_raw hash _ _ _ X v S) as R. destruct (map_entries_kind _ _ _ L) as (n & k & its & R'). rewrite R in R'.
  destruct v as [i p [[]| | |]|i p n' k' items|i p n' k' items]; try discriminate.
  exists p, n', k', items. split; [exact S|]. eapply map_entries_det; [exact L|]. exact (node_entries hash _ _ _ X F _ _ _ _ _ S).
Qed.
Lemma sequence_node hash doc t suf id l : models hash doc t suf -> value_of doc id -> seq_entries (doc_data doc) id l ->
  exists p n k (items : list (sitem nat)), sub t (TSeq id p n k items) /\ l = map sview items.
Proof.
  intros M V L. destruct (value_sub _ _ _ _ _ M V) as (v & S & <-). assert (X := M). destruct X as (X & _).
  pose proof (sub_raw hash _ _ _ X v S) as R. destruct (seq_entries_kind _ _ _ L) as (n & k & its & R'). rewrite R in R'.
  destruct v as [i p [[]| | |]|i p n' k' items|i p n' k' items]; try discriminate.
  exists p, n', k', items. split; [exact S|]. eapply seq_entries_det; [exact L|]. exact (node_sentries hash _ _ _ X _ _ _ _ _ S).
Qed.

(* The readers agree with iteration. *)
Theorem C12_reads : forall hash doc id,
  built hash doc -> no_collision hash (doc_data doc) -> value_of doc id -> as_mapping (doc_data doc) id = Ok (Some id) ->
  exists l, map_entries (doc_data doc) id l /\
    map_len (doc_data doc) id = Ok (length l) /\
    map_is_empty (doc_data doc) id = Ok (match l with [] => true | _ => false end) /\
    (forall key, exists o, map_get (doc_data doc) id key = Ok o /\ first_entry key l o) /\
    Forall (fun '(_, v) => value_of doc v) l.
Proof.
  intros hash doc id B N V A. destruct (built_models _ _ _ _ B) as (t & suf & M).
  pose proof (models_int _ _ _ _ M N) as F. destruct (value_sub _ _ _ _ _ M V) as (v & S & <-).
  assert (X := M). destruct X as (X & _). pose proof (sub_raw hash _ _ _ X v S) as R.
  unfold as_mapping in A. rewrite R in A. destruct v as [i p [[]| | |]|i p n k items|i p n k items]; try discriminate.
  exists (map mview items). cbn [tid] in *. cbn [traw] in R. split; [exact (node_entries hash _ _ _ X F _ _ _ _ _ S)|].
  unfold map_len, map_is_empty, Data.mapping. rewrite R. rewrite !map_length. split; [reflexivity|].
  split; [now destruct items|]. split.
  - intros key. eexists. split; [exact (node_get hash _ _ _ X F _ _ _ _ _ key S)|]. apply lookup_first.
  - apply Forall_forall. intros [y z] I. apply in_map_iff in I as ([[[ii ip] key] u] & E & I). injection E as <- <-. cbn [snd].
    eapply sub_value; [exact M|]. eapply sub_map; eauto.
Qed.

(* the key of an inserting call *)
Definition inserts (e : edit) : option bytes :=
  match e with
  | Insert k _ | InsertStr k _ | InsertBlock k _ _ | InsertBool k _ | InsertInt k _ _ | InsertFloat k _ _ => Some k
  | _ => None
  end.
Lemma inserts_ikey e key : inserts e = Some key -> exists s, ikey e = Some (key, s).
Proof. destruct e; cbn; intros E; try discriminate; injection E as ->; eauto. Qed.
Lemma insert_effect c v e r v' key : inserts e = Some key -> effect c v e r v' -> is_map v = true ->
  exists sc s h, ascalar v e = Some sc /\ ikey e = Some (key, s) /\ r = Handle h /\ inserted key s sc v h v'.
Proof.
  intros S F M. destruct (inserts_ikey _ _ S) as [s' S'].
  destruct F as [e sc _ K _| |n p _ _| |n p _ _|e sc key0 s h v' A K F|key0 x v' F|i p n k items EV
    |e sc s h v' A P F|x y v' F|i p n k items EV|e FM _|e FS P]; try discriminate; try congruence.
  - rewrite S' in K. injection K as <- <-. eauto 9.
  - destruct e; discriminate.
  - destruct P as [P|[P|[? P]]]; subst; try discriminate. destruct e; try discriminate; now elim P.
Qed.
(* insert of a present key keeps the entries and gives the first value with the key; insert of an
   absent key appends one entry, whose value is new. *)
Theorem C12_insert : forall hash doc id e key r d' l,
  built hash doc -> value_of doc id -> map_entries (doc_data doc) id l -> inserts e = Some key ->
  run hash id e (doc_data doc) = Ok (r, d') -> no_collision hash d' ->
  exists h, r = Handle h /\
    (first_entry key l (Some h) /\ map_entries d' id l \/
     first_entry key l None /\ map_entries d' id (l ++ [(key, h)]) /\ ~ value_of doc h /\ value_of (edited doc d') h).
Proof.
  intros hash doc id e key r d' l B V L IK E N.
  destruct (edit_setup _ _ _ _ _ _ _ _ B V E N) as (c & v & v' & suf & ST).
  destruct (mapping_node _ _ _ _ _ _ (st_m ST) V L (st_int ST)) as (p & n & k & items & S & ->).
  assert (v = TMap id p n k items) as ->.
  { eapply models_unique; [exact (st_m ST)|apply sub_plug|exact S|]. apply (st_id ST). }
  destruct (insert_effect _ _ _ _ _ _ IK (st_eff ST) eq_refl) as (sc & s & h & _ & _ & -> & I).
  exists h. split; [reflexivity|]. assert (MB := st_m' ST). destruct MB as (MB & _). cbn [edited doc_data] in MB.
  pose proof (sub_plug c v') as S'. 
  remember (TMap id p n k items) as v eqn:EV. destruct I as [i p' n' k' l1 ii ip kk v r EK FL|i p' n' k' items' ii vi FL];
    injection EV as -> -> -> -> EI.
  - subst items. left. split.
    + exists (map mview l1), (map mview r). rewrite map_app. split; [|now apply other_first].
      cbn [map]. unfold mview at 2. cbn [mkey fst snd]. now rewrite EK.
    + pose proof (node_entries hash _ _ _ MB (st_int' ST) _ _ _ _ _ S') as Q.
      revert Q. rewrite !map_app. cbn [map]. exact (fun Q => Q).
  - subst items'. right. split; [now apply other_first|]. split; [|split].
    + pose proof (node_entries hash _ _ _ MB (st_int' ST) _ _ _ _ _ S') as Q. rewrite map_app in Q. exact Q.
    + intros VH. pose proof (value_ids _ _ _ _ _ _ (st_m ST) VH) as I.
      pose proof (ctx_nodup _ _ _ _ _ (st_m' ST)) as D. rewrite ids_map in I, D. rewrite flat_map_app in D.
      cbn [flat_map mids ids] in D. rewrite app_nil_r in D.
      replace (cids c ++ id :: flat_map mids items ++ [ii; vi]) with ((cids c ++ id :: flat_map mids items) ++ [ii; vi]) in D
        by now rewrite <- app_assoc.
      eapply nodup_app_disj; [exact D|exact I|]. right. now left.
    + eapply (sub_value hash (edited doc d') _ (TLeaf vi _ sc)); [exact (st_m' ST)|].
      eapply sub_trans; [exact S'|]. eapply sub_map; [constructor|]. apply in_or_app. right. now left.
Qed.

(* remove takes away the first entry with the key, and its value is no longer in the document. *)
Theorem C12_remove : forall hash doc id key r d' l,
  built hash doc -> value_of doc id -> map_entries (doc_data doc) id l ->
  run hash id (RemoveKey key) (doc_data doc) = Ok (r, d') -> no_collision hash d' ->
  (exists l1 v l2, l = l1 ++ (key, v) :: l2 /\ ~ In key (map fst l1) /\ r = Removed true /\
     map_entries d' id (l1 ++ l2) /\ forall x, within (doc_data doc) v x -> ~ value_of (edited doc d') x) \/
  (~ In key (map fst l) /\ r = Removed false /\ map_entries d' id l).
Proof.
  intros hash doc id key r d' l B V L E N.
  destruct (edit_setup _ _ _ _ _ _ _ _ B V E N) as (c & v & v' & suf & ST).
  destruct (mapping_node _ _ _ _ _ _ (st_m ST) V L (st_int ST)) as (p & n & k & items & S & ->).
  assert (v = TMap id p n k items) as ->.
  { eapply models_unique; [exact (st_m ST)|apply sub_plug|exact S|]. apply (st_id ST). }
  assert (MB := st_m' ST). destruct MB as (MB & _). cbn [edited doc_data] in MB.
  pose proof (sub_plug c v') as S'. assert (MA := st_m ST). destruct MA as (MA & _).
  assert (H : exists x, r = Removed x /\ removed_key key (TMap id p n k items) x v').
  { pose proof (st_eff ST) as F. inversion F; subst; try discriminate; eauto.
    destruct H0 as [H0|[H0|[? H0]]]; try discriminate. now elim H0. }
  destruct H as (x & -> & H). remember (TMap id p n k items) as v eqn:EV.
  destruct H as [i p' n' k' l1 [[[ii ip] kk] v] r EK FL|i p' n' k' items' FL]; injection EV as -> -> -> -> EI.
  - subst items. left. cbn in EK. exists (map mview l1), (tid v), (map mview r).
    split; [rewrite map_app; cbn [map]; unfold mview at 2; cbn; now rewrite EK|]. split; [now apply other_first|].
    split; [reflexivity|]. split.
    + rewrite <- map_app. exact (node_entries hash _ _ _ MB (st_int' ST) _ _ _ _ _ S').
    + intros x W VX. assert (SV : sub (plug c (TMap id p n k (l1 ++ (ii, ip, kk, v) :: r))) v).
      { eapply sub_map; [exact S|]. apply in_or_app. right. left. reflexivity. }
      destruct (within_sub hash _ _ _ MA v x SV W) as (w & SW & <-). apply sub_ids in SW.
      pose proof (value_ids _ _ _ _ _ _ (st_m' ST) VX) as I. pose proof (ctx_nodup _ _ _ _ _ (st_m ST)) as D.
      rewrite ids_map in I, D. rewrite flat_map_app in I, D. cbn [flat_map mids] in D.
      replace (cids c ++ id :: flat_map mids l1 ++ (ii :: ids v) ++ flat_map mids r)
        with ((cids c ++ id :: flat_map mids l1) ++ (ii :: ids v) ++ flat_map mids r) in D by now rewrite <- app_assoc.
      eapply (nodup_mid _ _ _ D (tid w)); [now right|]. rewrite <- app_assoc. exact I.
  - subst items'. right. split; [now apply other_first|]. split; [reflexivity|].
    exact (node_entries hash _ _ _ MB (st_int' ST) _ _ _ _ _ S').
Qed.
Theorem C12_clear : forall hash doc id r d' l,
  built hash doc -> value_of doc id -> map_entries (doc_data doc) id l ->
  run hash id ClearMapping (doc_data doc) = Ok (r, d') -> no_collision hash d' ->
  r = Done /\ map_entries d' id [] /\
  forall v x, In v (map snd l) -> within (doc_data doc) v x -> ~ value_of (edited doc d') x.
Proof.
  intros hash doc id r d' l B V L E N.
  destruct (edit_setup _ _ _ _ _ _ _ _ B V E N) as (c & v & v' & suf & ST).
  destruct (mapping_node _ _ _ _ _ _ (st_m ST) V L (st_int ST)) as (p & n & k & items & S & ->).
  assert (v = TMap id p n k items) as ->.
  { eapply models_unique; [exact (st_m ST)|apply sub_plug|exact S|]. apply (st_id ST). }
  assert (MB := st_m' ST). destruct MB as (MB & _). cbn [edited doc_data] in MB.
  pose proof (sub_plug c v') as S'. assert (MA := st_m ST). destruct MA as (MA & _).
  assert (H : r = Done /\ v' = TMap id p n k []).
  { pose proof (st_eff ST) as F. inversion F as [| | | | | | |i' p' n' k' items' EV| | | |e' FM P|e' FM P]; subst; try discriminate.
    - injection EV as <- <- <- <- <-. auto.
    - destruct P as [P|[P|[? P]]]; try discriminate. now elim P. }
  destruct H as [-> ->]. split; [reflexivity|]. split; [exact (node_entries hash _ _ _ MB (st_int' ST) _ _ _ _ _ S')|].
  intros y x Y W VX. rewrite map_map in Y. apply in_map_iff in Y as ([[[ii ip] key] u] & <- & I). cbn [mview snd] in W.
  assert (SV : sub (plug c (TMap id p n k items)) u) by (eapply sub_map; [exact S|exact I]).
  destruct (within_sub hash _ _ _ MA u x SV W) as (w & SW & <-). apply sub_ids in SW.
  pose proof (value_ids _ _ _ _ _ _ (st_m' ST) VX) as I'. pose proof (ctx_nodup _ _ _ _ _ (st_m ST)) as D.
  rewrite ids_map in I', D. cbn [flat_map] in I'.
  replace (cids c ++ id :: flat_map mids items) with ((cids c ++ [id]) ++ flat_map mids items) in D by now rewrite <- app_assoc.
  eapply nodup_app_disj; [exact D|exact I'|]. apply in_flat_map. exists (ii, ip, key, u). split; [exact I|]. now right.
Qed.
Print Assumptions C12_reads.
Print Assumptions C12_insert.
Print Assumptions C12_remove.
Print Assumptions C12_clear.
Local Opaque id_of handle after.
Lemma handle_inj x y : Handle x = Handle y -> x = y. Proof. congruence. Qed.
Lemma entries_root : map_entries (doc_data world) (id_of [])
  [(b "name", id_of [K (b "name")]); (b "list", id_of [K (b "list")]); (b "text", id_of [K (b "text")]); (b "last", id_of [K (b "last")])].
Proof.
  eexists. split; [vm_compute; reflexivity|].
  repeat (eapply yields_item; [vm_compute; reflexivity|]). eapply yields_end. vm_compute. reflexivity.
Qed.
Lemma root_value : value_of world (id_of []).
Proof. apply (walk_value world []). vm_compute. reflexivity. Qed.
Example C12_insert_case :
  (exists h, run idhash (id_of []) (InsertBool (b "list") true) (doc_data world) = Ok (Handle h, after [] (InsertBool (b "list") true)) /\
    h = id_of [K (b "list")]) /\
  exists h, run idhash (id_of []) (Insert (b "new") (Custom [])) (doc_data world) = Ok (Handle h, after [] (Insert (b "new") (Custom []))) /\
    ~ value_of world h.
Proof.
  split.
  - exists (handle [] (InsertBool (b "list") true)). split; [vm_compute; reflexivity|].
    destruct (C12_insert idhash world (id_of []) (InsertBool (b "list") true) (b "list")
      (Handle (handle [] (InsertBool (b "list") true))) (after [] (InsertBool (b "list") true)) _ world_built root_value entries_root eq_refl)
      as (h & H & [[F _]|[F _]]).
    + vm_compute. reflexivity.
    + apply id_no_collision.
    + apply handle_inj in H as ->. apply first_det in F. vm_compute in F. injection F as <-. vm_compute. reflexivity.
    + exfalso. apply F. right. now left.
  - exists (handle [] (Insert (b "new") (Custom []))). split; [vm_compute; reflexivity|].
    destruct (C12_insert idhash world (id_of []) (Insert (b "new") (Custom [])) (b "new")
      (Handle (handle [] (Insert (b "new") (Custom [])))) (after [] (Insert (b "new") (Custom []))) _ world_built root_value entries_root eq_refl)
      as (h & H & [[F _]|[_ [_ [F _]]]]).
    + vm_compute. reflexivity.
    + apply id_no_collision.
    + exfalso. apply first_det in F. vm_compute in F. discriminate.
    + apply handle_inj in H as ->. exact F.
Qed.
Example C12_remove_case :
  map_entries (after [] (RemoveKey (b "list"))) (id_of [])
    [(b "name", id_of [K (b "name")]); (b "text", id_of [K (b "text")]); (b "last", id_of [K (b "last")])] /\
  ~ value_of (edited world (after [] (RemoveKey (b "list")))) (id_of [K (b "list"); I 1; I 0]).
Proof.
  destruct (C12_remove idhash world (id_of []) (b "list") (Removed true) (after [] (RemoveKey (b "list"))) _ world_built root_value entries_root)
    as [(l1 & v & l2 & E & NI & _ & L & G)|(NI & R & _)].
  - vm_compute. reflexivity.
  - apply id_no_collision.
  - destruct (first_split (b "list") l1 v l2 [(b "name", id_of [K (b "name")])] (id_of [K (b "list")])
      [(b "text", id_of [K (b "text")]); (b "last", id_of [K (b "last")])] (eq_sym E) NI) as (-> & -> & ->).
    { vm_compute. intros [H|[]]. discriminate. }
    split.
    + exact L.
    + apply G. apply (walk_within [I 1; I 0] (doc_data world) _ (id_of [K (b "list")])); [constructor|vm_compute; reflexivity].
  - discriminate.
Qed.
Example C12_reads_case : exists l, map_entries (doc_data world) (id_of []) l /\ map_len (doc_data world) (id_of []) = Ok (length l).
Proof.
  destruct (C12_reads idhash world (id_of []) world_built (id_no_collision _) root_value) as (l & H & L & _).
  - vm_compute. reflexivity.
  - eauto.
Qed.

(* ---- C13 ---- *)
Theorem C13_reads : forall hash doc id,
  built hash doc -> value_of doc id -> as_sequence (doc_data doc) id = Ok (Some id) ->
  exists l, seq_entries (doc_data doc) id l /\
    seq_len (doc_data doc) id = Ok (length l) /\
    seq_is_empty (doc_data doc) id = Ok (match l with [] => true | _ => false end) /\
    (forall i, seq_get (doc_data doc) id i = Ok (nth_error l i)) /\
    seq_first (doc_data doc) id = Ok (nth_error l 0) /\
    seq_last (doc_data doc) id = Ok (match l with [] => None | _ => nth_error l (length l - 1) end) /\
    Forall (value_of doc) l.
Proof.
  intros hash doc id B V A. destruct (built_models _ _ _ _ B) as (t & suf & M).
  destruct (value_sub _ _ _ _ _ M V) as (v & S & <-).
  assert (X := M). destruct X as (X & _). pose proof (sub_raw hash _ _ _ X v S) as R.
  unfold as_sequence in A. rewrite R in A. destruct v as [i p [[]| | |]|i p n k items|i p n k items]; try discriminate.
  exists (map sview items). cbn [tid] in *. cbn [traw] in R. split; [exact (node_sentries hash _ _ _ X _ _ _ _ _ S)|].
  assert (G : forall x, seq_get (doc_data doc) i x = Ok (nth_error (map sview items) x)) by (intros x; eapply node_seq_get; eauto).
  pose proof G as G'. unfold seq_get in G'. unfold seq_len, seq_is_empty, seq_first, seq_last, Data.sequence in *. rewrite R in *.
  rewrite !map_length. split; [reflexivity|]. split; [now destruct items|]. split; [exact G|]. split; [|split].
  - rewrite <- (G' 0). now destruct items.
  - clear - G'. destruct items as [|a items _] using rev_ind; [reflexivity|]. specialize (G' (length items)).
    assert (EN : forall {A} (f : sitem nat -> A), nth_error (map f (items ++ [a])) (length items) = Some (f a)).
    { intros A f. rewrite map_app, nth_error_app2; rewrite map_length; [|lia]. now rewrite Nat.sub_diag. }
    rewrite !EN in G'. rewrite map_app, rev_app_distr. cbn [map rev app hd_error]. rewrite G'. f_equal.
    pose proof (EN _ sview) as E2. rewrite app_length. cbn [length]. replace (length items + 1 - 1) with (length items) by lia.
    rewrite <- E2. destruct (map sview (items ++ [a])); [now destruct (length items)|reflexivity].
  - apply Forall_forall. intros z I. apply in_map_iff in I as ([[ii ip] u] & <- & I). cbn [sview snd].
    eapply sub_value; [exact M|]. eapply sub_seq; eauto.
Qed.
Definition pushes (e : edit) : bool :=
  match e with
  | Push _ | PushString _ | PushBlock _ _ | PushBool _ | PushInt _ _ | PushFloat _ _ => true
  | _ => false
  end.
Lemma push_effect c v e r v' : pushes e = true -> effect c v e r v' -> is_seq v = true ->
  exists sc s h, ascalar v e = Some sc /\ psep e = Some s /\ r = Handle h /\ pushed s sc v h v'.
Proof.
  intros S F M.
  destruct F as [e sc _ _ P| |n p _ _| |n p _ _|e sc key0 s h v' A K F|key0 x v' F|i p n k items EV
    |e sc s h v' A P F|x y v' F|i p n k items EV|e FM P|e FS P]; try discriminate; try congruence.
  - destruct e; discriminate.
  - destruct e; discriminate.
  - eauto 9.
  - destruct P as [P|[P|[? P]]]; subst; try discriminate. destruct e; try discriminate; now elim P.
Qed.
Theorem C13_push : forall hash doc id e r d' l,
  built hash doc -> value_of doc id -> seq_entries (doc_data doc) id l -> pushes e = true ->
  run hash id e (doc_data doc) = Ok (r, d') -> no_collision hash d' ->
  exists h, r = Handle h /\ seq_entries d' id (l ++ [h]) /\ ~ value_of doc h /\ value_of (edited doc d') h.
Proof.
  intros hash doc id e r d' l B V L IK E N.
  destruct (edit_setup _ _ _ _ _ _ _ _ B V E N) as (c & v & v' & suf & ST).
  destruct (sequence_node _ _ _ _ _ _ (st_m ST) V L) as (p & n & k & items & S & ->).
  assert (v = TSeq id p n k items) as ->.
  { eapply models_unique; [exact (st_m ST)|apply sub_plug|exact S|]. apply (st_id ST). }
  destruct (push_effect _ _ _ _ _ IK (st_eff ST) eq_refl) as (sc & s & h & _ & _ & -> & I).
  exists h. split; [reflexivity|]. assert (MB := st_m' ST). destruct MB as (MB & _). cbn [edited doc_data] in MB.
  pose proof (sub_plug c v') as S'.
  remember (TSeq id p n k items) as v eqn:EV. destruct I as [i p' n' k' items' ii vi].
  injection EV as -> -> -> -> EI. subst items'. split; [|split].
  - pose proof (node_sentries hash _ _ _ MB _ _ _ _ _ S') as Q. rewrite map_app in Q. exact Q.
  - intros VH. pose proof (value_ids _ _ _ _ _ _ (st_m ST) VH) as I.
    pose proof (ctx_nodup _ _ _ _ _ (st_m' ST)) as D. rewrite ids_seq in I, D. rewrite flat_map_app in D.
    cbn [flat_map sids ids] in D. rewrite app_nil_r in D.
    assert (D2 : NoDup ((cids c ++ id :: flat_map sids items) ++ [ii; vi])) by (rewrite <- app_assoc; exact D).
    eapply nodup_app_disj; [exact D2|exact I|]. right. now left.
  - eapply (sub_value hash (edited doc d') _ (TLeaf vi _ sc)); [exact (st_m' ST)|].
    eapply sub_trans; [exact S'|]. eapply sub_seq; [constructor|]. apply in_or_app. right. now left.
Qed.
Theorem C13_remove : forall hash doc id i r d' l,
  built hash doc -> value_of doc id -> seq_entries (doc_data doc) id l ->
  run hash id (RemoveIndex i) (doc_data doc) = Ok (r, d') -> no_collision hash d' ->
  (exists l1 v l2, l = l1 ++ v :: l2 /\ length l1 = i /\ r = Removed true /\
     seq_entries d' id (l1 ++ l2) /\ forall x, within (doc_data doc) v x -> ~ value_of (edited doc d') x) \/
  (length l <= i /\ r = Removed false /\ seq_entries d' id l).
Proof.
  intros hash doc id x r d' l B V L E N.
  destruct (edit_setup _ _ _ _ _ _ _ _ B V E N) as (c & v & v' & suf & ST).
  destruct (sequence_node _ _ _ _ _ _ (st_m ST) V L) as (p & n & k & items & S & ->).
  assert (v = TSeq id p n k items) as ->.
  { eapply models_unique; [exact (st_m ST)|apply sub_plug|exact S|]. apply (st_id ST). }
  assert (MB := st_m' ST). destruct MB as (MB & _). cbn [edited doc_data] in MB.
  pose proof (sub_plug c v') as S'. assert (MA := st_m ST). destruct MA as (MA & _).
  assert (H : exists y, r = Removed y /\ removed_at x (TSeq id p n k items) y v').
  { pose proof (st_eff ST) as F. inversion F; subst; try discriminate; eauto.
    destruct H0 as [H0|[H0|[? H0]]]; try discriminate. now elim H0. }
  destruct H as (y & -> & H). remember (TSeq id p n k items) as v eqn:EV.
  destruct H as [i p' n' k' l1 [[ii ip] v] r EK|i p' n' k' items' FL]; injection EV as -> -> -> -> EI.
  - subst items. left. exists (map sview l1), (tid v), (map sview r).
    split; [now rewrite map_app|]. split; [now rewrite map_length|].
    split; [reflexivity|]. split.
    + rewrite <- map_app. exact (node_sentries hash _ _ _ MB _ _ _ _ _ S').
    + intros z W VX. assert (SV : sub (plug c (TSeq id p n k (l1 ++ (ii, ip, v) :: r))) v).
      { eapply sub_seq; [exact S|]. apply in_or_app. right. left. reflexivity. }
      destruct (within_sub hash _ _ _ MA v z SV W) as (w & SW & <-). apply sub_ids in SW.
      pose proof (value_ids _ _ _ _ _ _ (st_m' ST) VX) as I. pose proof (ctx_nodup _ _ _ _ _ (st_m ST)) as D.
      rewrite ids_seq in I, D. rewrite flat_map_app in I, D. cbn [flat_map sids] in D.
      assert (D2 : NoDup ((cids c ++ id :: flat_map sids l1) ++ (ii :: ids v) ++ flat_map sids r)) by (rewrite <- app_assoc; exact D).
      eapply (nodup_mid _ _ _ D2 (tid w)); [now right|]. rewrite <- app_assoc. exact I.
  - subst items'. right. rewrite map_length. split; [exact FL|]. split; [reflexivity|].
    exact (node_sentries hash _ _ _ MB _ _ _ _ _ S').
Qed.
Theorem C13_clear : forall hash doc id r d' l,
  built hash doc -> value_of doc id -> seq_entries (doc_data doc) id l ->
  run hash id ClearSequence (doc_data doc) = Ok (r, d') -> no_collision hash d' ->
  r = Done /\ seq_entries d' id [] /\
  forall v x, In v l -> within (doc_data doc) v x -> ~ value_of (edited doc d') x.
Proof.
  intros hash doc id r d' l B V L E N.
  destruct (edit_setup _ _ _ _ _ _ _ _ B V E N) as (c & v & v' & suf & ST).
  destruct (sequence_node _ _ _ _ _ _ (st_m ST) V L) as (p & n & k & items & S & ->).
  assert (v = TSeq id p n k items) as ->.
  { eapply models_unique; [exact (st_m ST)|apply sub_plug|exact S|]. apply (st_id ST). }
  assert (MB := st_m' ST). destruct MB as (MB & _). cbn [edited doc_data] in MB.
  pose proof (sub_plug c v') as S'. assert (MA := st_m ST). destruct MA as (MA & _).
  assert (H : r = Done /\ v' = TSeq id p n k []).
  { pose proof (st_eff ST) as F. inversion F as [| | | | | | | | | |i' p' n' k' items' EV|e' FM P|e' FM P]; subst; try discriminate.
    - injection EV as <- <- <- <- <-. auto.
    - destruct P as [P|[P|[? P]]]; try discriminate. now elim P. }
  destruct H as [-> ->]. split; [reflexivity|]. split; [exact (node_sentries hash _ _ _ MB _ _ _ _ _ S')|].
  intros y x Y W VX. apply in_map_iff in Y as ([[ii ip] u] & <- & I). cbn [sview snd] in W.
  assert (SV : sub (plug c (TSeq id p n k items)) u) by (eapply sub_seq; [exact S|exact I]).
  destruct (within_sub hash _ _ _ MA u x SV W) as (w & SW & <-). apply sub_ids in SW.
  pose proof (value_ids _ _ _ _ _ _ (st_m' ST) VX) as I'. pose proof (ctx_nodup _ _ _ _ _ (st_m ST)) as D.
  rewrite ids_seq in I', D. cbn [flat_map] in I'.
  assert (D2 : NoDup ((cids c ++ [id]) ++ flat_map sids items)) by (rewrite <- app_assoc; exact D).
  eapply nodup_app_disj; [exact D2|exact I'|]. apply in_flat_map. exists (ii, ip, u). split; [exact I|]. now right.
Qed.
Print Assumptions C13_reads.
Print Assumptions C13_push.
Print Assumptions C13_remove.
Print Assumptions C13_clear.
Lemma entries_list : seq_entries (doc_data world) (id_of [K (b "list")])
  [id_of [K (b "list"); I 0]; id_of [K (b "list"); I 1]; id_of [K (b "list"); I 2]].
Proof.
  eexists. split; [vm_compute; reflexivity|].
  repeat (eapply yields_item; [vm_compute; reflexivity|]). eapply yields_end. vm_compute. reflexivity.
Qed.
Lemma list_value : value_of world (id_of [K (b "list")]).
Proof. apply (walk_value world [K (b "list")]). vm_compute. reflexivity. Qed.
Lemma split_at1 (x y z : nat) l1 v l2 : [x; y; z] = l1 ++ v :: l2 -> length l1 = 1 -> l1 = [x] /\ v = y /\ l2 = [z].
Proof. intros E L. destruct l1 as [|p [|q l1]]; try discriminate. injection E as <- <- <-. auto. Qed.
Example C13_case :
  seq_last (doc_data world) (id_of [K (b "list")]) = Ok (Some (id_of [K (b "list"); I 2])) /\
  (exists h, seq_entries (after [K (b "list")] (PushString (b "a"))) (id_of [K (b "list")])
    [id_of [K (b "list"); I 0]; id_of [K (b "list"); I 1]; id_of [K (b "list"); I 2]; h] /\ ~ value_of world h) /\
  seq_entries (after [K (b "list")] (RemoveIndex 1)) (id_of [K (b "list")])
    [id_of [K (b "list"); I 0]; id_of [K (b "list"); I 2]] /\
  ~ value_of (edited world (after [K (b "list")] (RemoveIndex 1))) (id_of [K (b "list"); I 1; I 0]).
Proof.
  split; [|split].
  - destruct (C13_reads idhash world (id_of [K (b "list")]) world_built list_value) as (l & H & _ & _ & _ & _ & L & _).
    { vm_compute. reflexivity. }
    rewrite (seq_entries_det _ _ _ _ H entries_list) in L. exact L.
  - destruct (C13_push idhash world (id_of [K (b "list")]) (PushString (b "a")) (Handle (handle [K (b "list")] (PushString (b "a"))))
      (after [K (b "list")] (PushString (b "a"))) _ world_built list_value entries_list eq_refl) as (h & _ & H & NV & _).
    + vm_compute. reflexivity.
    + apply id_no_collision.
    + exists h. split; [exact H|exact NV].
  - destruct (C13_remove idhash world (id_of [K (b "list")]) 1 (Removed true)
      (after [K (b "list")] (RemoveIndex 1)) _ world_built list_value entries_list) as [(l1 & v & l2 & E & LE & _ & L & G)|(_ & R & _)].
    + vm_compute. reflexivity.
    + apply id_no_collision.
    + destruct (split_at1 _ _ _ _ _ _ E LE) as (-> & -> & ->). split; [exact L|]. apply G.
      apply (walk_within [I 0] (doc_data world) _ (id_of [K (b "list"); I 1])); [constructor|vm_compute; reflexivity].
    + discriminate.
Qed.

(* ---- C29 ---- *)
(* The text of a collection: an opening, the texts of the items with a separator between them, a
   closing. *)
Fixpoint join (c : bytes) (l : list bytes) : bytes :=
  match l with
  | [] => []
  | [x] => x
  | x :: r => x ++ c ++ join c r
  end.
Inductive brackets (o c : byte) : bytes -> bytes -> bytes -> Prop :=
| br_block : brackets o c [] [] []
| br_flow s : brackets o c [o] [COMMA] (s ++ [c]).
(* the text of an entry of a mapping ends with a colon, white space and the text of the value *)
Definition entry_text (d : data) (kv : bytes * nat) (t : bytes) : Prop :=
  exists head space text, value_write_to d (snd kv) = Ok text /\ t = head ++ [COLON] ++ space ++ text.
(* the text of an item of a sequence ends with a dash, in block style, white space and the text of the value *)
Definition dash_of (opening : bytes) : bytes := match opening with [] => [DASH] | _ => [] end.
Definition item_text (d : data) (opening : bytes) (v : nat) (space t : bytes) : Prop :=
  exists head text, value_write_to d v = Ok text /\ t = head ++ dash_of opening ++ space ++ text.
Lemma sep_join c l : sep c l = join c l.
Proof. induction l as [|x [|y l] IH]; [reflexivity|cbn; now rewrite app_nil_r|]. cbn [sep join] in *. now rewrite IH. Qed.
Lemma brackets_map k : brackets LBRACE RBRACE (open_if LBRACE k) (comma_if k) (closing (fun x => x) RBRACE k).
Proof. destruct k as [|tr s]; [constructor|]. cbn [open_if comma_if closing]. rewrite app_assoc. constructor. Qed.
Lemma brackets_seq k : brackets LBRACK RBRACK (open_if LBRACK k) (comma_if k) (closing (fun x => x) RBRACK k).
Proof. destruct k as [|tr s]; [constructor|]. cbn [open_if comma_if closing]. rewrite app_assoc. constructor. Qed.
(* the white space before a new item: none before the first, otherwise a new line and spaces *)
Definition new_gap {B} (l : list B) (n : nat) : bytes := match l with [] => [] | _ => NEWLINE :: repeat SPACE n end.
Lemma gap_new {A B} n (items : list A) (l : list B) : length items = length l ->
  exists m, item_gap n items = new_gap l m.
Proof.
  intros L. destruct items, l; try discriminate; [now exists 0|]. exists n. unfold item_gap, nl_indent.
  replace (n + 1) with (S n) by lia. unfold new_gap. cbn [firstn]. f_equal. replace (S n - 1) with n by lia.
  rewrite <- (repeat_length SPACE n) at 1. apply firstn_all.
Qed.
Lemma mtexts hash doc c id p n k (items : list (mitem nat)) suf e r d' v' :
  step_at hash doc id e r d' c (TMap id p n k items) v' suf ->
  Forall2 (entry_text (doc_data doc)) (map mview items) (map wmitem items).
Proof.
  intros ST. assert (H : incl items items) by apply incl_refl. revert H. generalize items at 1 3 4.
  intros l. induction l as [|[[[ii ip] key] v] l IH]; intros H; cbn [map]; constructor.
  - exists (ip ++ wstr key), (tpre v), (wtree v). cbn [mview snd]. split.
    + apply (st_vw ST). eapply sub_map; [apply sub_plug|]. apply H. now left.
    + cbn [wmitem]. unfold full. now rewrite <- !app_assoc.
  - apply IH. intros x X. apply H. now right.
Qed.
Lemma stexts hash doc c id p n k (items : list (sitem nat)) suf e r d' v' :
  step_at hash doc id e r d' c (TSeq id p n k items) v' suf ->
  Forall2 (fun v t => exists space, item_text (doc_data doc) (open_if LBRACK k) v space t) (map sview items) (map (wsitem k) items).
Proof.
  intros ST. assert (H : incl items items) by apply incl_refl. revert H. generalize items at 1 3 4.
  intros l. induction l as [|[[ii ip] v] l IH]; intros H; cbn [map]; constructor.
  - exists (tpre v), (lossy ip), (wtree v). cbn [sview snd]. split.
    + apply (st_vw ST). eapply sub_seq; [apply sub_plug|]. apply H. now left.
    + cbn [wsitem]. unfold full. now destruct k.
  - apply IH. intros x X. apply H. now right.
Qed.
Definition gap_of (e : edit) : bytes := match e with Insert _ (Custom s) => s | _ => [SPACE] end.

(* insert of a new key adds the text of the new entry after the last one *)
Theorem C29_insert : forall hash doc id e key h d' l,
  built hash doc -> value_of doc id -> map_entries (doc_data doc) id l -> inserts e = Some key -> first_entry key l None ->
  run hash id e (doc_data doc) = Ok (Handle h, d') -> no_collision hash d' ->
  exists before opening comma texts closing aft n text,
    brackets LBRACE RBRACE opening comma closing /\ Forall2 (entry_text (doc_data doc)) l texts /\
    value_write_to (doc_data doc) id = Ok (opening ++ join comma texts ++ closing) /\
    write_to doc = Ok (before ++ (opening ++ join comma texts ++ closing) ++ aft) /\
    value_write_to d' h = Ok text /\
    write_to (edited doc d') = Ok (before ++ (opening ++
      join comma (texts ++ [new_gap l n ++ key ++ [COLON] ++ gap_of e ++ text]) ++ closing) ++ aft).
Proof.
  intros hash doc id e key h d' l B V L IK FE E N.
  destruct (edit_setup _ _ _ _ _ _ _ _ B V E N) as (c & v & v' & suf & ST).
  destruct (mapping_node _ _ _ _ _ _ (st_m ST) V L (st_int ST)) as (p & n & k & items & S & ->).
  assert (v = TMap id p n k items) as ->.
  { eapply models_unique; [exact (st_m ST)|apply sub_plug|exact S|]. apply (st_id ST). }
  destruct (insert_effect _ _ _ _ _ _ IK (st_eff ST) eq_refl) as (sc & s & h' & _ & KE & EH & I). injection EH as <-.
  pose proof (mtexts _ _ _ _ _ _ _ _ _ _ _ _ _ ST) as T. pose proof (sub_plug c v') as S'.
  remember (TMap id p n k items) as v eqn:EV. destruct I as [i p' n' k' l1 ii ip kk v r EK FL|i p' n' k' items' ii vi FL];
    injection EV as -> -> -> -> EI; subst.
  { exfalso. apply FE. rewrite map_map. apply in_map_iff. eexists. split; [|apply in_or_app; right; left; reflexivity]. reflexivity. }
  destruct (gap_new n items (map mview items)) as [m G]; [now rewrite map_length|].
  exists (wleft c ++ p), (open_if LBRACE k), (comma_if k), (map wmitem items), (closing (fun x => x) RBRACE k), (wright c ++ suf), m, (wscalar sc).
  split; [apply brackets_map|]. split; [exact T|].
  split; [rewrite <- sep_join; apply (st_vw ST (TMap id p n k items)), sub_plug|].
  split; [rewrite (st_w ST), wdoc_plug, <- sep_join; unfold full; cbn [tpre]; rewrite wtree_map, <- !app_assoc; reflexivity|].
  split.
  { refine (st_vw' ST (TLeaf vi _ sc) _). eapply sub_trans; [exact S'|]. eapply sub_map; [constructor|].
    apply in_or_app. right. left. reflexivity. }
  rewrite (st_w' ST), wdoc_plug, <- sep_join, <- G. unfold full. cbn [tpre]. rewrite wtree_map, map_app. cbn [map wmitem].
  unfold full. cbn [tpre wtree]. cbn [wstr rs_kind rs_id].
  assert (EG : @eq bytes (match s with Auto => [SPACE] | Custom x => x end) (gap_of e)).
  { clear -KE. destruct e; cbn in *; try discriminate; injection KE as _ <-; reflexivity. }
  rewrite EG, <- !app_assoc. reflexivity.
Qed.
(* insert of a present key replaces the text of its value *)
Theorem C29_insert_present : forall hash doc id e key h d' l,
  built hash doc -> value_of doc id -> map_entries (doc_data doc) id l -> inserts e = Some key -> ~ first_entry key l None ->
  run hash id e (doc_data doc) = Ok (Handle h, d') -> no_collision hash d' ->
  exists before old new aft,
    value_write_to (doc_data doc) h = Ok old /\ write_to doc = Ok (before ++ old ++ aft) /\
    value_write_to d' h = Ok new /\ write_to (edited doc d') = Ok (before ++ new ++ aft).
Proof.
  intros hash doc id e key h d' l B V L IK FE E N.
  destruct (edit_setup _ _ _ _ _ _ _ _ B V E N) as (c & v & v' & suf & ST).
  destruct (mapping_node _ _ _ _ _ _ (st_m ST) V L (st_int ST)) as (p & n & k & items & S & ->).
  assert (v = TMap id p n k items) as ->.
  { eapply models_unique; [exact (st_m ST)|apply sub_plug|exact S|]. apply (st_id ST). }
  destruct (insert_effect _ _ _ _ _ _ IK (st_eff ST) eq_refl) as (sc & s & h' & _ & KE & EH & I). injection EH as <-.
  remember (TMap id p n k items) as v eqn:EV. destruct I as [i p' n' k' l1 ii ip kk v r EK FL|i p' n' k' items' ii vi FL];
    injection EV as -> -> -> -> EI; subst items.
  2: { exfalso. apply FE. now apply other_first. }
  assert (P : forall w, plug c (TMap id p n k (l1 ++ (ii, ip, kk, w) :: r)) = plug (ccomp c (CMapC id p n k l1 ii ip kk CHole r)) w)
    by (intros w; now rewrite plug_comp).
  pose proof (st_w ST) as W. pose proof (st_w' ST) as W'. rewrite P in W, W'. rewrite W, W', !wdoc_plug.
  set (c2 := ccomp _ _). exists (wleft c2 ++ tpre v), (wtree v), (wscalar sc), (wright c2 ++ suf).
  split; [apply (st_vw ST); rewrite P; apply sub_plug|].
  split; [unfold full; rewrite <- !app_assoc; reflexivity|].
  split; [refine (st_vw' ST (TLeaf (tid v) (tpre v) sc) _); rewrite P; apply sub_plug|].
  unfold full. cbn [tpre wtree]. rewrite <- !app_assoc. reflexivity.
Qed.
(* remove deletes the text of the entry and one separator *)
Theorem C29_remove_key : forall hash doc id key r d' l,
  built hash doc -> value_of doc id -> map_entries (doc_data doc) id l ->
  run hash id (RemoveKey key) (doc_data doc) = Ok (r, d') -> no_collision hash d' ->
  exists before opening comma texts texts' closing aft,
    brackets LBRACE RBRACE opening comma closing /\ Forall2 (entry_text (doc_data doc)) l texts /\
    value_write_to (doc_data doc) id = Ok (opening ++ join comma texts ++ closing) /\
    write_to doc = Ok (before ++ (opening ++ join comma texts ++ closing) ++ aft) /\
    write_to (edited doc d') = Ok (before ++ (opening ++ join comma texts' ++ closing) ++ aft) /\
    (~ In key (map fst l) /\ texts' = texts \/
     exists l1 v l2 t1 t t2, l = l1 ++ (key, v) :: l2 /\ ~ In key (map fst l1) /\
       texts = t1 ++ t :: t2 /\ length t1 = length l1 /\ texts' = t1 ++ t2).
Proof.
  intros hash doc id key r d' l B V L E N.
  destruct (edit_setup _ _ _ _ _ _ _ _ B V E N) as (c & v & v' & suf & ST).
  destruct (mapping_node _ _ _ _ _ _ (st_m ST) V L (st_int ST)) as (p & n & k & items & S & ->).
  assert (v = TMap id p n k items) as ->.
  { eapply models_unique; [exact (st_m ST)|apply sub_plug|exact S|]. apply (st_id ST). }
  pose proof (mtexts _ _ _ _ _ _ _ _ _ _ _ _ _ ST) as T.
  assert (H : exists x, r = Removed x /\ removed_key key (TMap id p n k items) x v').
  { pose proof (st_eff ST) as F. inversion F; subst; try discriminate; eauto.
    destruct H0 as [H0|[H0|[? H0]]]; try discriminate. now elim H0. }
  destruct H as (x & -> & H).
  assert (Q : exists items', v' = TMap id p n k items' /\
    (~ In key (map fst (map mview items)) /\ items' = items \/
     exists l1 it l2, items = l1 ++ it :: l2 /\ rs_id (mkey it) = key /\ ~ In key (map fst (map mview l1)) /\ items' = l1 ++ l2)).
  { remember (TMap id p n k items) as v eqn:EV.
    destruct H as [i p' n' k' l1 it r EK FL|i p' n' k' items' FL]; injection EV as -> -> -> -> EI; subst.
    - eexists. split; [reflexivity|]. right. exists l1, it, r. split; [reflexivity|]. split; [reflexivity|].
      split; [now apply other_first|reflexivity].
    - eexists. split; [reflexivity|]. left. split; [now apply other_first|reflexivity]. }
  destruct Q as (items' & -> & Q).
  exists (wleft c ++ p), (open_if LBRACE k), (comma_if k), (map wmitem items), (map wmitem items'), (closing (fun x => x) RBRACE k), (wright c ++ suf).
  split; [apply brackets_map|]. split; [exact T|].
  split; [rewrite <- sep_join; apply (st_vw ST (TMap id p n k items)), sub_plug|].
  split; [rewrite (st_w ST), wdoc_plug, <- sep_join; unfold full; cbn [tpre]; rewrite wtree_map, <- !app_assoc; reflexivity|].
  split; [rewrite (st_w' ST), wdoc_plug, <- sep_join; unfold full; cbn [tpre]; rewrite wtree_map, <- !app_assoc; reflexivity|].
  destruct Q as [[Q ->]|(l1 & it & l2 & -> & EK & NI & ->)]; [now left|]. right.
  exists (map mview l1), (tid (snd it)), (map mview l2), (map wmitem l1), (wmitem it), (map wmitem l2).
  rewrite !map_app. cbn [map]. split; [unfold mview at 2; now rewrite EK|]. split; [exact NI|]. split; [reflexivity|].
  now rewrite !map_length.
Qed.
(* clear deletes the entries *)
Theorem C29_clear_mapping : forall hash doc id r d' l,
  built hash doc -> value_of doc id -> map_entries (doc_data doc) id l ->
  run hash id ClearMapping (doc_data doc) = Ok (r, d') -> no_collision hash d' ->
  exists before opening comma texts closing aft,
    brackets LBRACE RBRACE opening comma closing /\ Forall2 (entry_text (doc_data doc)) l texts /\
    value_write_to (doc_data doc) id = Ok (opening ++ join comma texts ++ closing) /\
    write_to doc = Ok (before ++ (opening ++ join comma texts ++ closing) ++ aft) /\
    write_to (edited doc d') = Ok (before ++ (opening ++ closing) ++ aft).
Proof.
  intros hash doc id r d' l B V L E N.
  destruct (edit_setup _ _ _ _ _ _ _ _ B V E N) as (c & v & v' & suf & ST).
  destruct (mapping_node _ _ _ _ _ _ (st_m ST) V L (st_int ST)) as (p & n & k & items & S & ->).
  assert (v = TMap id p n k items) as ->.
  { eapply models_unique; [exact (st_m ST)|apply sub_plug|exact S|]. apply (st_id ST). }
  pose proof (mtexts _ _ _ _ _ _ _ _ _ _ _ _ _ ST) as T.
  assert (v' = TMap id p n k []) as ->.
  { pose proof (st_eff ST) as F. inversion F as [| | | | | | |i' p' n' k' items' EV| | | |e' FM P|e' FM P]; subst; try discriminate.
    - injection EV as <- <- <- <- <-. auto.
    - destruct P as [P|[P|[? P]]]; try discriminate. now elim P. }
  exists (wleft c ++ p), (open_if LBRACE k), (comma_if k), (map wmitem items), (closing (fun x => x) RBRACE k), (wright c ++ suf).
  split; [apply brackets_map|]. split; [exact T|].
  split; [rewrite <- sep_join; apply (st_vw ST (TMap id p n k items)), sub_plug|].
  split; [rewrite (st_w ST), wdoc_plug, <- sep_join; unfold full; cbn [tpre]; rewrite wtree_map, <- !app_assoc; reflexivity|].
  rewrite (st_w' ST), wdoc_plug; unfold full; cbn [tpre]; rewrite wtree_map, <- !app_assoc; reflexivity.
Qed.

(* push adds the text of the new item after the last one; the white space after its dash is that
   of the last item *)
Theorem C29_push : forall hash doc id e h d' l,
  built hash doc -> value_of doc id -> seq_entries (doc_data doc) id l -> pushes e = true ->
  run hash id e (doc_data doc) = Ok (Handle h, d') -> no_collision hash d' ->
  exists before opening comma texts closing aft n space text,
    brackets LBRACK RBRACK opening comma closing /\
    Forall2 (fun v t => exists sp, item_text (doc_data doc) opening v sp t) l texts /\
    value_write_to (doc_data doc) id = Ok (opening ++ join comma texts ++ closing) /\
    write_to doc = Ok (before ++ (opening ++ join comma texts ++ closing) ++ aft) /\
    value_write_to d' h = Ok text /\
    write_to (edited doc d') = Ok (before ++ (opening ++
      join comma (texts ++ [new_gap l n ++ dash_of opening ++ space ++ text]) ++ closing) ++ aft) /\
    match e with
    | Push (Custom s) => space = s
    | _ => (l = [] /\ space = [SPACE]) \/
           exists l1 v t1 t, l = l1 ++ [v] /\ texts = t1 ++ [t] /\ item_text (doc_data doc) opening v space t
    end.
Proof.
  intros hash doc id e h d' l B V L IK E N.
  destruct (edit_setup _ _ _ _ _ _ _ _ B V E N) as (c & v & v' & suf & ST).
  destruct (sequence_node _ _ _ _ _ _ (st_m ST) V L) as (p & n & k & items & S & ->).
  assert (v = TSeq id p n k items) as ->.
  { eapply models_unique; [exact (st_m ST)|apply sub_plug|exact S|]. apply (st_id ST). }
  destruct (push_effect _ _ _ _ _ IK (st_eff ST) eq_refl) as (sc & s & h' & _ & KE & EH & I). injection EH as <-.
  pose proof (stexts _ _ _ _ _ _ _ _ _ _ _ _ _ ST) as T. pose proof (sub_plug c v') as S'.
  remember (TSeq id p n k items) as v eqn:EV. destruct I as [i p' n' k' items' ii vi].
  injection EV as -> -> -> -> EI; subst items'.
  destruct (gap_new n items (map sview items)) as [m G]; [now rewrite map_length|].
  set (sp := match s with Custom x => x | Auto => match rev items with (_, _, v) :: _ => tpre v | [] => [SPACE] end end) in *.
  exists (wleft c ++ p), (open_if LBRACK k), (comma_if k), (map (wsitem k) items), (closing (fun x => x) RBRACK k), (wright c ++ suf), m, sp, (wscalar sc).
  split; [apply brackets_seq|]. split; [exact T|].
  split; [rewrite <- sep_join; apply (st_vw ST (TSeq id p n k items)), sub_plug|].
  split; [rewrite (st_w ST), wdoc_plug, <- sep_join; unfold full; cbn [tpre]; rewrite wtree_seq, <- !app_assoc; reflexivity|].
  split.
  { refine (st_vw' ST (TLeaf vi sp sc) _). eapply sub_trans; [exact S'|]. eapply sub_seq; [constructor|].
    apply in_or_app. right. left. reflexivity. }
  split.
  { rewrite (st_w' ST), wdoc_plug, <- sep_join, <- G. unfold full. cbn [tpre]. rewrite wtree_seq, map_app. cbn [map wsitem].
    unfold full. cbn [tpre wtree].
    assert (EL : lossy (item_gap n items) = item_gap n items).
    { apply lossy_text, text_ascii_all. rewrite G. unfold new_gap. destruct (map sview items); constructor; [reflexivity|].
      apply Forall_forall. intros y Y. apply repeat_spec in Y as ->. reflexivity. }
    assert (ED : dash_of (open_if LBRACK k) = dash_if k) by now destruct k.
    match goal with |- context [lossy ?x] => replace (lossy x) with x by (symmetry; exact EL) end.
    rewrite ED, <- !app_assoc. reflexivity. }
  assert (AU : s = Auto -> (map sview items = [] /\ sp = [SPACE]) \/
    exists l1 v t1 t, map sview items = l1 ++ [v] /\ map (wsitem k) items = t1 ++ [t] /\ item_text (doc_data doc) (open_if LBRACK k) v sp t).
  { clear - ST. intros ->. destruct items as [|[[iz ip] v] items _] using rev_ind; [now left|]. right. subst sp.
    rewrite rev_app_distr. cbn [rev app]. rewrite !map_app. cbn [map]. do 4 eexists. split; [reflexivity|]. split; [reflexivity|].
    exists (lossy ip), (wtree v). cbn [sview snd]. split.
    - apply (st_vw ST). eapply sub_seq; [apply sub_plug|]. apply in_or_app. right. now left.
    - cbn [wsitem]. unfold full. now destruct k. }
  clear -KE AU IK. destruct e as [| | | | | | | | | | | | | | | | |[|q]| | | | | | |]; try discriminate; cbn [psep] in KE; injection KE as KE; subst s; auto.
Qed.
Theorem C29_remove_index : forall hash doc id i r d' l,
  built hash doc -> value_of doc id -> seq_entries (doc_data doc) id l ->
  run hash id (RemoveIndex i) (doc_data doc) = Ok (r, d') -> no_collision hash d' ->
  exists before opening comma texts closing aft,
    brackets LBRACK RBRACK opening comma closing /\
    Forall2 (fun v t => exists sp, item_text (doc_data doc) opening v sp t) l texts /\
    value_write_to (doc_data doc) id = Ok (opening ++ join comma texts ++ closing) /\
    write_to doc = Ok (before ++ (opening ++ join comma texts ++ closing) ++ aft) /\
    write_to (edited doc d') = Ok (before ++ (opening ++ join comma (firstn i texts ++ skipn (S i) texts) ++ closing) ++ aft).
Proof.
  intros hash doc id x r d' l B V L E N.
  destruct (edit_setup _ _ _ _ _ _ _ _ B V E N) as (c & v & v' & suf & ST).
  destruct (sequence_node _ _ _ _ _ _ (st_m ST) V L) as (p & n & k & items & S & ->).
  assert (v = TSeq id p n k items) as ->.
  { eapply models_unique; [exact (st_m ST)|apply sub_plug|exact S|]. apply (st_id ST). }
  pose proof (stexts _ _ _ _ _ _ _ _ _ _ _ _ _ ST) as T.
  assert (H : exists y, r = Removed y /\ removed_at x (TSeq id p n k items) y v').
  { pose proof (st_eff ST) as F. inversion F; subst; try discriminate; eauto.
    destruct H0 as [H0|[H0|[? H0]]]; try discriminate. now elim H0. }
  destruct H as (y & -> & H).
  assert (Q : v' = TSeq id p n k (firstn x items ++ skipn (1 + x) items)).
  { remember (TSeq id p n k items) as v eqn:EV.
    destruct H as [i p' n' k' l1 it r EK|i p' n' k' items' FL]; injection EV as -> -> -> -> EI; subst.
    - replace (1 + length l1) with (length (l1 ++ [it])) by (rewrite app_length; cbn; lia).
      replace (l1 ++ it :: r) with ((l1 ++ [it]) ++ r) at 2 by now rewrite <- app_assoc.
      rewrite skipn_app, skipn_all, Nat.sub_diag, firstn_app, firstn_all, Nat.sub_diag. cbn [firstn skipn app]. now rewrite app_nil_r.
    - rewrite firstn_all2 by exact FL. rewrite skipn_all2 by (apply le_S; exact FL). now rewrite app_nil_r. }
  subst v'.
  exists (wleft c ++ p), (open_if LBRACK k), (comma_if k), (map (wsitem k) items), (closing (fun x => x) RBRACK k), (wright c ++ suf).
  split; [apply brackets_seq|]. split; [exact T|].
  split; [rewrite <- sep_join; apply (st_vw ST (TSeq id p n k items)), sub_plug|].
  split; [rewrite (st_w ST), wdoc_plug, <- sep_join; unfold full; cbn [tpre]; rewrite wtree_seq, <- !app_assoc; reflexivity|].
  rewrite (st_w' ST), wdoc_plug, <- sep_join; unfold full; cbn [tpre]; rewrite wtree_seq, map_app, firstn_map, skipn_map, <- !app_assoc; reflexivity.
Qed.
Theorem C29_clear_sequence : forall hash doc id r d' l,
  built hash doc -> value_of doc id -> seq_entries (doc_data doc) id l ->
  run hash id ClearSequence (doc_data doc) = Ok (r, d') -> no_collision hash d' ->
  exists before opening comma texts closing aft,
    brackets LBRACK RBRACK opening comma closing /\
    Forall2 (fun v t => exists sp, item_text (doc_data doc) opening v sp t) l texts /\
    value_write_to (doc_data doc) id = Ok (opening ++ join comma texts ++ closing) /\
    write_to doc = Ok (before ++ (opening ++ join comma texts ++ closing) ++ aft) /\
    write_to (edited doc d') = Ok (before ++ (opening ++ closing) ++ aft).
Proof.
  intros hash doc id r d' l B V L E N.
  destruct (edit_setup _ _ _ _ _ _ _ _ B V E N) as (c & v & v' & suf & ST).
  destruct (sequence_node _ _ _ _ _ _ (st_m ST) V L) as (p & n & k & items & S & ->).
  assert (v = TSeq id p n k items) as ->.
  { eapply models_unique; [exact (st_m ST)|apply sub_plug|exact S|]. apply (st_id ST). }
  pose proof (stexts _ _ _ _ _ _ _ _ _ _ _ _ _ ST) as T.
  assert (v' = TSeq id p n k []) as ->.
  { pose proof (st_eff ST) as F. inversion F as [| | | | | | | | | |i' p' n' k' items' EV|e' FM P|e' FM P]; subst; try discriminate.
    - injection EV as <- <- <- <- <-. auto.
    - destruct P as [P|[P|[? P]]]; try discriminate. now elim P. }
  exists (wleft c ++ p), (open_if LBRACK k), (comma_if k), (map (wsitem k) items), (closing (fun x => x) RBRACK k), (wright c ++ suf).
  split; [apply brackets_seq|]. split; [exact T|].
  split; [rewrite <- sep_join; apply (st_vw ST (TSeq id p n k items)), sub_plug|].
  split; [rewrite (st_w ST), wdoc_plug, <- sep_join; unfold full; cbn [tpre]; rewrite wtree_seq, <- !app_assoc; reflexivity|].
  rewrite (st_w' ST), wdoc_plug; unfold full; cbn [tpre]; rewrite wtree_seq, <- !app_assoc; reflexivity.
Qed.
Print Assumptions C29_insert.
Print Assumptions C29_insert_present.
Print Assumptions C29_remove_key.
Print Assumptions C29_clear_mapping.
Print Assumptions C29_push.
Print Assumptions C29_remove_index.
Print Assumptions C29_clear_sequence.
Lemma forall2_len {A B} (R : A -> B -> Prop) l m : Forall2 R l m -> length l = length m.
Proof. induction 1; cbn; congruence. Qed.
Example C29_case_insert : exists before opening comma texts closing aft n text,
  brackets LBRACE RBRACE opening comma closing /\ length texts = 4 /\
  write_to world = Ok (before ++ (opening ++ join comma texts ++ closing) ++ aft) /\
  write_to (edited world (after [] (InsertInt (b "new") Signed8 7))) = Ok (before ++ (opening ++
      join comma (texts ++ [(NEWLINE :: repeat SPACE n) ++ b "new" ++ [COLON] ++ [SPACE] ++ text]) ++ closing) ++ aft).
Proof.
  destruct (C29_insert idhash world (id_of []) (InsertInt (b "new") Signed8 7) (b "new") (handle [] (InsertInt (b "new") Signed8 7))
    (after [] (InsertInt (b "new") Signed8 7)) _ world_built root_value entries_root eq_refl)
    as (before & opening & comma & texts & closing & aft & n & text & BR & T & VW & W & _ & W').
  - vm_compute. intros H. repeat (destruct H as [H|H]; [discriminate|]). exact H.
  - vm_compute. reflexivity.
  - apply id_no_collision.
  - exists before, opening, comma, texts, closing, aft, n, text. split; [exact BR|]. split; [symmetry; exact (forall2_len _ _ _ T)|].
    split; [exact W|exact W'].
Qed.
Example C29_case_push : exists before opening comma texts closing aft n space text,
  brackets LBRACK RBRACK opening comma closing /\ length texts = 3 /\
  write_to (edited world (after [K (b "list")] (PushBool true))) = Ok (before ++ (opening ++
      join comma (texts ++ [(NEWLINE :: repeat SPACE n) ++ dash_of opening ++ space ++ text]) ++ closing) ++ aft).
Proof.
  destruct (C29_push idhash world (id_of [K (b "list")]) (PushBool true) (handle [K (b "list")] (PushBool true))
    (after [K (b "list")] (PushBool true)) _ world_built list_value entries_list eq_refl)
    as (before & opening & comma & texts & closing & aft & n & space & text & BR & T & VW & W & _ & W' & _).
  - vm_compute. reflexivity.
  - apply id_no_collision.
  - exists before, opening, comma, texts, closing, aft, n, space, text. split; [exact BR|]. split; [symmetry; exact (forall2_len _ _ _ T)|exact W'].
Qed.
Example C29_case_remove : exists before opening comma texts closing aft,
  length texts = 3 /\ write_to world = Ok (before ++ (opening ++ join comma texts ++ closing) ++ aft) /\
  write_to (edited world (after [K (b "list")] (RemoveIndex 1))) =
    Ok (before ++ (opening ++ join comma (firstn 1 texts ++ skipn 2 texts) ++ closing) ++ aft).
Proof.
  destruct (C29_remove_index idhash world (id_of [K (b "list")]) 1 (Removed true)
    (after [K (b "list")] (RemoveIndex 1)) _ world_built list_value entries_list)
    as (before & opening & comma & texts & closing & aft & BR & T & VW & W & W').
  - vm_compute. reflexivity.
  - apply id_no_collision.
  - exists before, opening, comma, texts, closing, aft. split; [symmetry; exact (forall2_len _ _ _ T)|]. split; [exact W|exact W'].
Qed.
