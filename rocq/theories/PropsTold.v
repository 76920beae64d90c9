(* C44: every scalar and key of every accepted text shows what its own characters say.
   C45: the raw text of a string. C46: the kinds of mutable values. *)
From Coq Require Import String.
From Coq Require Import List NArith ZArith Bool Arith Lia.
From Verif Require Import Bytes Utf8 Data Parser Render Tree Abs Refine Utf8Props RenderProps Scan AbsText AbsNice Num Reads ReadsSound Shown Plain White Api Slab Ctx Edit Built
  TextProps Tests PropsParse PropsEdit PropsColl PropsScalar2 PropsValue PropsWhite Handles Lexed.
Import ListNotations.
Local Open Scope N_scope.

(* ---- C44 ---- *)
(* The data that a handle for a scalar shows. *)
Definition scalar_of (a : any) : option datum :=
  match a with
  | ANull => Some DNull
  | ABool v => Some (DBool v)
  | ANumber s h => Some (DNum s h)
  | AString s => Some (DStr s)
  | _ => None
  end.
Lemma lexed_map {I} input i p n k (items : list (mitem I)) : lexed input (TMap i p n k items) ->
  Forall (fun '(_, _, key, v) => lex_key input key /\ lexed input v) items.
Proof. cbn [lexed]. induction items as [|[[[ii ip] key] v] items IH]; cbn [fold_right]; [constructor|]. intros (H1 & H2). constructor; auto. Qed.
Lemma lexed_seq {I} input i p n k (items : list (sitem I)) : lexed input (TSeq i p n k items) -> Forall (fun '(_, _, v) => lexed input v) items.
Proof. cbn [lexed]. induction items as [|[[ii ip] v] items IH]; cbn [fold_right]; [constructor|]. intros (H1 & H2). constructor; auto. Qed.
Lemma lexed_sub input t v : sub t v -> lexed input t -> lexed input v.
Proof.
  induction 1 as [|i p n k items ii ip key v S IH X|i p n k items ii ip v S IH X]; intros L; [exact L|..]; specialize (IH L).
  - apply lexed_map in IH. rewrite Forall_forall in IH. now apply (IH _ X).
  - apply lexed_seq in IH. rewrite Forall_forall in IH. now apply (IH _ X).
Qed.
Lemma lexed_shape input (t : tree nat) : lexed input (shape t) -> lexed input t.
Proof.
  induction t as [i p s|i p n k items IH|i p n k items IH] using tree_ind'; [exact (fun H => H)|..]; unfold shape in *; cbn [tmap].
  - cbn [lexed]. induction IH as [|[[[ii ip] key] v] items IV _ IH]; cbn [map fold_right]; [auto|]. intros ((H1 & H2) & H3). split; [split; [exact H1|now apply IV]|now apply IH].
  - cbn [lexed]. induction IH as [|[[ii ip] v] items IV _ IH]; cbn [map fold_right]; [auto|]. intros (H2 & H3). split; [now apply IV|now apply IH].
Qed.
Lemma nice_sub t v : sub t v -> nice t = true -> nice v = true.
Proof.
  induction 1 as [|i p n k items ii ip key v S IH X|i p n k items ii ip v S IH X]; intros L; [exact L|..]; specialize (IH L);
    cbn [nice] in IH; apply andb_prop in IH as [_ IH]; rewrite forallb_forall in IH; specialize (IH _ X); cbn in IH; [|exact IH].
  now apply andb_prop in IH.
Qed.
Lemma here_split input x P : here input x P -> exists pre post, input = pre ++ x ++ post /\ P post x.
Proof.
  intros (i & j & L & E & H). exists (firstn i input), (skipn j input). split; [|exact H].
  rewrite E, <- (seg_full input j) by lia. rewrite seg_app by lia. rewrite seg_full by lia. symmetry. apply firstn_skipn.
Qed.
Lemma parsed_lexed hash input doc : from_slice hash input = Ok doc -> exists t suf, models hash doc t suf /\ lexed input t /\ nice t = true.
Proof.
  intros E. destruct (parse_models _ _ _ E) as (t & suf & P & M). exists t, suf. split; [exact M|].
  split; [apply lexed_shape; eapply parse_lexed; eauto|]. apply parse_nice in P as [P _]. unfold shape in P. now rewrite nice_tmap in P.
Qed.
(* A scalar prints a piece of the input, and shows what that piece says. *)
Theorem C44_scalars : forall hash input doc id a x, from_slice hash input = Ok doc -> no_collision hash (doc_data doc) -> value_of doc id ->
  as_any (doc_data doc) id = Ok a -> scalar_of a = Some x ->
  exists pre text post, value_write_to (doc_data doc) id = Ok text /\ input = pre ++ text ++ post /\ told post text x.
Proof.
  intros hash input doc id a x E N V A SA. destruct (parsed_lexed _ _ _ E) as (t & suf & M & X & _).
  pose proof (models_int _ _ _ _ M N) as F. destruct (value_sub _ _ _ _ _ M V) as (v & S & <-).
  assert (Y := M). destruct Y as (Y & _). rewrite (node_any hash _ _ _ Y F v S) in A. injection A as <-.
  pose proof (lexed_sub _ _ _ S X) as XV. destruct v as [i p s|i p n k items|i p n k items]; try discriminate.
  destruct XV as [XV _]. apply here_split in XV as (pre & post & Q & T). exists pre, (wscalar s), post.
  split; [exact (node_write hash _ _ _ Y F _ S)|]. split; [exact Q|].
  replace x with (see (TLeaf tt [] s)); [exact T|]. destruct s; cbn in SA |- *; congruence.
Qed.
(* A key stands in the input, before a colon (or a NUL), and shows what it says. *)
Theorem C44_keys : forall hash input doc id l key v, from_slice hash input = Ok doc -> no_collision hash (doc_data doc) -> value_of doc id ->
  map_entries (doc_data doc) id l -> In (key, v) l ->
  exists pre text post, input = pre ++ text ++ post /\ told_key post text key /\ In (hd 0 post) [COLON; 0].
Proof.
  intros hash input doc id l key v E N V L J. destruct (parsed_lexed _ _ _ E) as (t & suf & M & X & _).
  pose proof (models_int _ _ _ _ M N) as F. destruct (mapping_node _ _ _ _ _ _ M V L F) as (p & n & k & items & S & ->).
  apply in_map_iff in J as ([[[ii ip] key'] w] & J1 & J2). unfold mview in J1. cbn in J1. injection J1 as <- <-.
  pose proof (lexed_map _ _ _ _ _ _ (lexed_sub _ _ _ S X)) as XV. rewrite Forall_forall in XV. destruct (XV _ J2) as [XK _].
  apply here_split in XK as (pre & post & Q & T). eauto.
Qed.
Print Assumptions C44_scalars.
Print Assumptions C44_keys.

(* A text that is not empty and no block scalar says one thing. *)
Lemma app_len_inj {A} (x x' y y' : list A) : length x = length x' -> x ++ y = x' ++ y' -> x = x' /\ y = y'.
Proof.
  revert x'. induction x as [|c x IH]; intros [|c' x'] L E; try discriminate; [auto|]. cbn in *. injection L as L. injection E as -> E.
  destruct (IH _ L E) as [-> ->]. auto.
Qed.
Lemma escape_det e x e' x' y y' : escape e x -> escape e' x' -> e ++ y = e' ++ y' -> e = e' /\ x = x' /\ y = y'.
Proof.
  intros [c o H|ds c L H V|ds c L H V] [c' o' H'|ds' c' L' H' V'|ds' c' L' H' V'] E; cbn [app] in E; injection E; intros.
  - subst. rewrite H in H'. injection H' as <-. auto.
  - subst. discriminate.
  - subst. discriminate.
  - subst. discriminate.
  - destruct (app_len_inj ds ds' y y') as [-> ->]; [congruence|assumption|]. rewrite H in H'. injection H' as <-. auto.
  - subst. discriminate.
  - subst. discriminate.
  - subst. discriminate.
  - destruct (app_len_inj ds ds' y y') as [-> ->]; [congruence|assumption|]. rewrite H in H'. injection H' as <-. auto.
Qed.
Definition stops (e : bytes) : Prop := e = [] \/ hd DQUOTE e = DQUOTE \/ hd DQUOTE e = EOF.
Lemma dqbody_det y v : dqbody y v -> forall y' v' e e', dqbody y' v' -> y ++ e = y' ++ e' -> stops e -> stops e' -> v = v' /\ e = e'.
Proof.
  induction 1 as [|c y v N1 N2 N3 B IH|x o y v X B IH]; intros y' v' e e' B' E S1 S2.
  - destruct B' as [|c' y' v' M1 M2 M3 B'|x' o' y' v' X' B']; [auto|..]; cbn [app] in E; subst e; exfalso; destruct S1 as [S1|[S1|S1]]; try discriminate; cbn in S1; congruence.
  - destruct B' as [|c' y' v' M1 M2 M3 B'|x' o' y' v' X' B']; cbn [app] in E.
    + subst e'. exfalso. destruct S2 as [S2|[S2|S2]]; try discriminate; cbn in S2; congruence.
    + injection E as -> E. destruct (IH _ _ _ _ B' E S1 S2) as [-> ->]. auto.
    + injection E as -> E. congruence.
  - destruct B' as [|c' y' v' M1 M2 M3 B'|x' o' y' v' X' B']; cbn [app] in E.
    + subst e'. exfalso. destruct S2 as [S2|[S2|S2]]; discriminate.
    + injection E as <- E. congruence.
    + injection E as E. rewrite <- !app_assoc in E. destruct (escape_det _ _ _ _ _ _ X X' E) as (-> & -> & E').
      destruct (IH _ _ _ _ B' E' S1 S2) as [-> ->]. auto.
Qed.
Lemma shown_dqbody y v : dq_shown y v -> dqbody y v.
Proof.
  induction 1 as [|c y v N1 N2 D IH|e x y v X D IH|y v D IH]; [constructor|..].
  - constructor; auto; intros ->; apply N1; cbn; auto.
  - apply (db_esc e x y v); [now apply escape_of|exact IH].
  - apply (db_esc [BACKSLASH] [DQUOTE] y v); [now constructor|exact IH].
Qed.
Lemma sq_content_det y v : sq_content y v -> forall v', sq_content y v' -> v = v'.
Proof.
  induction 1 as [|c y v N S IH|y v S IH]; intros v' H; inversion H as [|c' y' u' N' S' Q|y' u' S' Q]; subst; auto; try (exfalso; apply N; reflexivity);
    try (exfalso; apply N'; reflexivity); now rewrite (IH _ S').
Qed.
Lemma quote_det post x v v' : quote_shown post x v -> quote_shown post x v' -> v = v'.
Proof.
  intros [y u S|y u e D E] H; inversion H as [y' u' S' Q|y' u' e' D' E' Q]; subst.
  - apply app_inj_tail in Q as [-> _]. eapply sq_content_det; eauto.
  - apply shown_dqbody in D, D'.
    assert (ST : forall z, z = b """" \/ z = [0] \/ z = [] /\ post = [] -> stops z).
    { intros z [->|[->|[-> _]]]; [right; left|right; right|left]; reflexivity. }
    symmetry in Q. now destruct (dqbody_det _ _ D _ _ _ _ D' Q (ST _ E) (ST _ E')).
Qed.
Lemma quote_hd post x v : quote_shown post x v -> In (hd 0 x) (b """'").
Proof. intros [y u S|y u e D E]; cbn; auto. Qed.
Lemma block_hd h folded x : block_header h folded -> In (hd 0 (h ++ x)) (b "|>").
Proof. intros (i & -> & _). destruct folded; cbn; auto. Qed.
Theorem C44_definite : forall post x d d', told post x d -> told post x d' -> x <> [] -> ~ In (hd 0 x) (b "|>") -> d = d'.
Proof.
  intros post x d d' H1 H2 NE NB.
  destruct H1 as [x d S1 _ P1| |x s Q1|h f x v e B1 _ _]; inversion H2 as [x' d2 S2 X2 P2| |x' s2 Q2|h2 f2 x' v2 e2 B2 _ _]; subst; try congruence;
    try (exfalso; apply NB; eapply block_hd; eassumption).
  - eapply plain_det; eauto.
  - exfalso. apply S1. apply quote_hd in Q2. cbn in *. tauto.
  - exfalso. apply S2. apply quote_hd in Q1. cbn in *. tauto.
  - f_equal. eapply quote_det; eauto.
Qed.
Print Assumptions C44_definite.

(* ---- C45 ---- *)
Fixpoint leaves {I} (t : tree I) : list (scalar bytes) :=
  match t with
  | TLeaf _ _ s => [s]
  | TMap _ _ _ _ items => flat_map (fun '(_, _, _, v) => leaves v) items
  | TSeq _ _ _ _ items => flat_map (fun '(_, _, v) => leaves v) items
  end.
Lemma leaves_plug c : forall v s, In s (leaves (plug c v)) <-> In s (leaves (plug c (TSeq O [] O CBlock []))) \/ In s (leaves v).
Proof.
  induction c as [|i p n k l ii ip key c IH r|i p n k l ii ip c IH r]; intros v s; cbn [plug].
  - cbn. tauto.
  - cbn [leaves]. rewrite !flat_map_app. cbn [flat_map]. rewrite !in_app_iff, IH. tauto.
  - cbn [leaves]. rewrite !flat_map_app. cbn [flat_map]. rewrite !in_app_iff, IH. tauto.
Qed.
Definition raw_scalar (s : scalar bytes) : Prop := match s with ScStr r => raw_ok r | ScNull (NKeyword x) => x <> [] | _ => True end.
Lemma lexed_raw {I} input (t : tree I) : lexed input t -> Forall raw_scalar (leaves t).
Proof.
  induction t as [i p s|i p n k items IH|i p n k items IH] using tree_ind'; intros H.
  - constructor; [|constructor]. now destruct H.
  - apply lexed_map in H. cbn [leaves]. apply Forall_flat_map. rewrite Forall_forall in *. intros [[[ii ip] key] v] J. apply (IH _ J). now apply (H _ J).
  - apply lexed_seq in H. cbn [leaves]. apply Forall_flat_map. rewrite Forall_forall in *. intros [[ii ip] v] J. apply (IH _ J). now apply (H _ J).
Qed.
Lemma ascalar_raw (v : tree nat) e sc : ascalar v e = Some sc -> raw_scalar sc.
Proof.
  intros A. assert (BL : forall ps k, raw_scalar (ablock v ps k)).
  { intros ps k. destruct v; cbn [ablock]; unfold ablock_at; destruct k; exact Logic.I. }
  assert (ST : forall s k, (k = KBare \/ k = KSingle \/ k = KDouble) -> raw_scalar (ScStr (RS k s s))).
  { intros s k [->|[->| ->]]; reflexivity. }
  assert (DT : forall s, detect s = KBare \/ detect s = KSingle \/ detect s = KDouble).
  { intros s. pose proof (detect_kinds s) as H. cbn in H. decompose [or] H; auto; contradiction. }
  destruct e; cbn [ascalar] in A; try discriminate; injection A as <-; try exact Logic.I; auto; try (apply ST; auto).
  - destruct k; cbn; auto. discriminate.
  - destruct k; cbn; auto.
Qed.
Lemma effect_raw c v e r v' : effect c v e r v' -> Forall raw_scalar (leaves v) -> Forall raw_scalar (leaves v').
Proof.
  intros F T. rewrite Forall_forall in *.
  destruct F as [e sc A K P| |n p M A| |n p M A|e sc key s h v' A K F|key x v' F|i p n k items EV
    |e sc s h v' A P F|x y v' F|i p n k items EV|e FM P|e FS P]; auto; try (intros q []; fail).
  - intros q [<-|[]]. eapply ascalar_raw; eauto.
  - apply ascalar_raw in A. destruct F as [i p n k l ii ip kk v r EK FL|i p n k items ii vi FL]; cbn [leaves] in *; intros q J.
    + rewrite flat_map_app in J. cbn in J. rewrite in_app_iff in J. destruct J as [J|[<-|J]]; [|exact A|];
        apply T; rewrite flat_map_app; cbn; rewrite !in_app_iff; auto.
    + rewrite flat_map_app in J. cbn in J. rewrite in_app_iff in J. destruct J as [J|[<-|[]]]; [now apply T|exact A].
  - destruct F as [i p n k l it r EK FL|i p n k items FL]; auto. cbn [leaves] in *. intros q J. apply T.
    rewrite flat_map_app in *. cbn. rewrite !in_app_iff in *. tauto.
  - apply ascalar_raw in A. destruct F as [i p n k items ii vi]. cbn [leaves] in *. intros q J.
    rewrite flat_map_app in J. cbn in J. rewrite in_app_iff in J. destruct J as [J|[<-|[]]]; [now apply T|exact A].
  - destruct F as [i p n k l it r EK|i p n k items FL]; auto. cbn [leaves] in *. intros q J. apply T.
    rewrite flat_map_app in *. cbn. rewrite !in_app_iff in *. tauto.
Qed.
Lemma built_raw hash doc : built hash doc -> no_collision hash (doc_data doc) -> exists t suf, models hash doc t suf /\ Forall raw_scalar (leaves t).
Proof.
  induction 1 as [input doc U E|doc id e r d' B IH V U E]; intros N.
  - destruct (parsed_lexed _ _ _ E) as (t & suf & M & X & _). exists t, suf. split; [exact M|]. now apply lexed_raw in X.
  - destruct (built_models _ _ _ _ B) as (t0 & suf0 & M0).
    destruct (value_ctx _ _ _ _ _ M0 V) as (c0 & v0 & -> & E0). subst id.
    destruct (edit_step _ _ _ _ _ _ _ _ M0 E) as (_ & _ & _ & G & _). pose proof (grows_nc hash _ _ G N) as N0.
    destruct (IH N0) as (t & suf & M & T).
    destruct (value_ctx _ _ _ _ _ M V) as (c & v & -> & E1). rewrite <- E1 in E.
    destruct (edit_step _ _ _ _ _ _ _ _ M E) as (v' & _ & M' & _ & F). specialize (F N).
    exists (plug c v'), suf. split; [exact M'|]. rewrite Forall_forall in T. apply Forall_forall. intros s J. apply leaves_plug in J as [J|J].
    + apply T, leaves_plug. now left.
    + pose proof (effect_raw _ _ _ _ _ F) as G'. rewrite !Forall_forall in G'. apply G'; [|exact J]. intros s' J'. apply T, leaves_plug. now right.
Qed.
Lemma leaf_sub t v i p s : sub t v -> v = TLeaf i p s -> In s (leaves t).
Proof.
  intros S ->. destruct (sub_ctx _ _ S) as [c ->]. apply leaves_plug. right. now left.
Qed.
Lemma node_raw hash d t par i p s : models_at hash par d t -> Forall (interned hash d) (strings t) -> sub t (TLeaf i p s) ->
  as_raw d i = Ok (match s with ScStr r => Some (rs_orig r) | _ => None end).
Proof.
  intros M F S. unfold as_raw. pose proof (sub_raw hash d t par M _ S) as R. cbn [tid] in R. rewrite R.
  destruct s as [[]|? ?|? ?|r]; cbn [traw scmap nmap]; try reflexivity.
  cbn [rsmap rs_orig]. rewrite (sub_interned hash _ _ _ M F _ (rs_orig r) S); [reflexivity|]. cbn. right. unfold rs_strings. apply in_or_app. right. cbn. auto.
Qed.
(* Strings, and only strings, have a raw text: the text as printed, without the header of a
   block scalar; or, when it was set in a session, the string itself, printed bare or in quotes. *)
Theorem C45_raw : forall hash doc id, built hash doc -> no_collision hash (doc_data doc) -> value_of doc id ->
  exists o a, as_raw (doc_data doc) id = Ok o /\ as_any (doc_data doc) id = Ok a /\
  match o with
  | None => forall s, a <> AString s
  | Some raw => exists s text, a = AString s /\ value_write_to (doc_data doc) id = Ok text /\
      (text = raw \/
       (exists h folded, block_header h folded /\ text = h ++ raw) \/
       raw = s /\ exists q y, In q (b """'") /\ text = [q] ++ y ++ [q])
  end.
Proof.
  intros hash doc id B N V. destruct (built_raw _ _ B N) as (t & suf & M & T).
  pose proof (models_int _ _ _ _ M N) as F. destruct (value_sub _ _ _ _ _ M V) as (v & S & <-).
  assert (Y := M). destruct Y as (Y & _). pose proof (node_any hash _ _ _ Y F v S) as A. pose proof (node_write hash _ _ _ Y F v S) as W.
  destruct v as [i p s|i p n k items|i p n k items].
  - exists (match s with ScStr r => Some (rs_orig r) | _ => None end), (tany (TLeaf i p s)).
    split; [exact (node_raw _ _ _ _ _ _ _ Y F S)|]. split; [exact A|]. destruct s as [[]|? ?|? ?|r]; try (cbn; intros; discriminate).
    exists (rs_id r), (wstr r). split; [reflexivity|]. split; [exact W|].
    rewrite Forall_forall in T. specialize (T _ (leaf_sub _ _ _ _ _ S eq_refl)). cbn in T. unfold raw_ok in T. unfold wstr.
    destruct (rs_kind r) as [| | | |h].
    + left. auto.
    + right. right. split; [exact T|]. exists SQUOTE. unfold esc_single. eexists. split; [cbn; auto|reflexivity].
    + right. right. split; [exact T|]. exists DQUOTE. unfold esc_double. eexists. split; [cbn; auto|reflexivity].
    + left. reflexivity.
    + right. left. destruct T as [folded T]. eauto.
  - exists None, (AMapping i). split; [unfold as_raw; pose proof (sub_raw hash _ _ _ Y _ S) as R; cbn [tid] in *; now rewrite R|]. split; [exact A|discriminate].
  - exists None, (ASequence i). split; [unfold as_raw; pose proof (sub_raw hash _ _ _ Y _ S) as R; cbn [tid] in *; now rewrite R|]. split; [exact A|discriminate].
Qed.
(* In a text just read, it is the text as written. *)
Theorem C45_source : forall hash input doc id raw, from_slice hash input = Ok doc -> no_collision hash (doc_data doc) -> value_of doc id ->
  as_raw (doc_data doc) id = Ok (Some raw) ->
  exists pre h post s, input = pre ++ h ++ raw ++ post /\ value_write_to (doc_data doc) id = Ok (h ++ raw) /\
    as_any (doc_data doc) id = Ok (AString s) /\ told post (h ++ raw) (DStr s) /\ (h = [] \/ exists folded, block_header h folded).
Proof.
  intros hash input doc id raw E N V R. destruct (parsed_lexed _ _ _ E) as (t & suf & M & X & NI).
  pose proof (models_int _ _ _ _ M N) as F. destruct (value_sub _ _ _ _ _ M V) as (v & S & <-).
  assert (Y := M). destruct Y as (Y & _). pose proof (node_any hash _ _ _ Y F v S) as A. pose proof (node_write hash _ _ _ Y F v S) as W.
  pose proof (lexed_sub _ _ _ S X) as XV. pose proof (nice_sub _ _ S NI) as NV.
  destruct v as [i p s|i p n k items|i p n k items].
  2,3: unfold as_raw in R; pose proof (sub_raw hash _ _ _ Y _ S) as R'; cbn [tid] in *; rewrite R' in R; discriminate.
  cbn [tid] in R. rewrite (node_raw _ _ _ _ _ _ _ Y F S) in R. destruct s as [[]|? ?|? ?|r]; try discriminate. injection R as <-.
  destruct XV as [XV RO]. apply here_split in XV as (pre & post & Q & T). cbn [wscalar see] in Q, T. change (wtree (TLeaf i p (ScStr r))) with (wstr r) in W.
  cbn [raw_scalar] in RO. unfold raw_ok in RO. cbn [nice sc_nice] in NV. apply andb_prop in NV as [NV _]. unfold rs_nice in NV.
  unfold wstr in *. destruct (rs_kind r) as [| | | |h]; try discriminate.
  - exists pre, [], post, (rs_id r). cbn [app]. rewrite RO. auto 6.
  - exists pre, [], post, (rs_id r). cbn [app]. auto 6.
  - exists pre, h, post, (rs_id r). rewrite <- app_assoc in Q. auto 6.
Qed.
Print Assumptions C45_raw.
Print Assumptions C45_source.

(* ---- C46 ---- *)
Theorem C46_any_mut : forall hash doc id, built hash doc -> no_collision hash (doc_data doc) -> value_of doc id ->
  exists m a, into_any_mut (doc_data doc) id = Ok m /\ as_any (doc_data doc) id = Ok a /\ any_mut_id m = id /\
  match a with
  | AMapping _ => m = MMapping id
  | ASequence _ => m = MSequence id
  | ARaw _ => False
  | _ => m = MScalar id
  end.
Proof.
  intros hash doc id B N V. destruct (built_models _ _ _ _ B) as (t & suf & M). pose proof (models_int _ _ _ _ M N) as F.
  destruct (value_sub _ _ _ _ _ M V) as (v & S & <-). destruct M as (Y & _). pose proof (node_any hash _ _ _ Y F v S) as A.
  unfold into_any_mut. rewrite (sub_raw hash _ _ _ Y _ S).
  destruct v as [i p [[]|? ?|? ?|r]|i p n k items|i p n k items]; cbn [traw scmap nmap tid tany] in *; eauto 8.
Qed.
Print Assumptions C46_any_mut.

(* ---- cases ---- *)
Definition told_src : bytes := b "a: ""x\ty"" 
block: |-
  one

  two
'n': -12
l: [~, 'it''s', 1.5]
e:
f: yes sir
".
Definition told_doc : document := got (load told_src).
Lemma told_loads : from_slice idhash told_src = Ok told_doc. Proof. vm_compute. reflexivity. Qed.
Definition told_at (p : list Tests.seg) (a : any) (text : bytes) (raw : option bytes) : Prop :=
  match walk (doc_data told_doc) (doc_root told_doc) p with
  | Some id => as_any (doc_data told_doc) id = Ok a /\ value_write_to (doc_data told_doc) id = Ok text /\ as_raw (doc_data told_doc) id = Ok raw
  | None => False
  end.
Example told_values :
  told_at [K (b "a")] (AString (b "x" ++ [9] ++ b "y")) (b """x\ty""") (Some (b """x\ty""")) /\
  told_at [K (b "block")] (AString (b "one" ++ [10; 10] ++ b "two")) (b "|-" ++ [10] ++ b "  one" ++ [10; 10] ++ b "  two") (Some ([10] ++ b "  one" ++ [10; 10] ++ b "  two")) /\
  told_at [K (b "'n'")] (ANumber (b "-12") Signed64) (b "-12") None /\
  told_at [K (b "l"); Tests.I 0] ANull (b "~") None /\
  told_at [K (b "l"); Tests.I 1] (AString (b "it's")) (b "'it''s'") (Some (b "'it''s'")) /\
  told_at [K (b "e")] ANull [] None /\
  told_at [K (b "f")] (AString (b "yes sir")) (b "yes sir") (Some (b "yes sir")).
Proof. vm_compute. auto 20. Qed.
Example C44_case : exists pre text post, told_src = pre ++ text ++ post /\ told post text (DStr (b "one" ++ [10; 10] ++ b "two")).
Proof.
  destruct (walk (doc_data told_doc) (doc_root told_doc) [K (b "block")]) as [id|] eqn:W; [|vm_compute in W; discriminate].
  destruct (C44_scalars idhash told_src told_doc id (AString (b "one" ++ [10; 10] ++ b "two")) (DStr (b "one" ++ [10; 10] ++ b "two")))
    as (pre & text & post & _ & H1 & H2); [exact told_loads|apply id_no_collision|exact (walk_value told_doc _ _ W)| |reflexivity|eauto].
  vm_compute in W. injection W as <-. vm_compute. reflexivity.
Qed.
(* The relation accepts and rejects. *)
Example told_yes : told (b "]") (b "-12") (DNum (b "-12") Signed64).
Proof.
  apply to_plain; [cbn; intuition discriminate|left|constructor]; [exists Signed64|]; right; exists (b "12"), false;
    (split; [reflexivity|]); (split; [|reflexivity]); apply un_int; try discriminate; repeat constructor; discriminate.
Qed.
Example told_no : ~ told [] (b "'it''s'") (DStr (b "it''s")).
Proof.
  intros H. assert (T : told [] (b "'it''s'") (DStr (b "it's"))).
  { apply to_quoted. apply (qs_single [] (b "it''s")). cbn. repeat (apply sc_byte; [discriminate|]). apply (sc_pair (b "s") (b "s")).
    apply sc_byte; [discriminate|constructor]. }
  pose proof (C44_definite _ _ _ _ H T ltac:(discriminate) ltac:(cbn; intuition discriminate)) as E. discriminate.
Qed.
Example C45_case : exists doc id, built idhash doc /\ value_of doc id /\ as_raw (doc_data doc) id = Ok (Some (b "it's")) /\
  value_write_to (doc_data doc) id = Ok (b """it's""").
Proof.
  destruct (edit_path [K (b "a")] (SetStringWith (b "it's") SDouble) (Ok told_doc)) as [doc|? ? ?| | |] eqn:E; try (vm_compute in E; discriminate).
  assert (B : built idhash doc). { eapply (built_path told_doc); [|exact E]. eapply built_parse; [exact Logic.I|exact told_loads]. }
  destruct (walk (doc_data doc) (doc_root doc) [K (b "a")]) as [id|] eqn:W.
  - exists doc, id. split; [exact B|]. split; [exact (walk_value doc _ _ W)|].
    vm_compute in E. injection E as <-. vm_compute in W. injection W as <-. vm_compute. auto.
  - exfalso. vm_compute in E. injection E as <-. vm_compute in W. discriminate.
Qed.
Example C46_case : exists id m, value_of told_doc id /\ into_any_mut (doc_data told_doc) id = Ok m /\ m = MSequence id.
Proof.
  destruct (walk (doc_data told_doc) (doc_root told_doc) [K (b "l")]) as [id|] eqn:W; [|vm_compute in W; discriminate].
  exists id, (MSequence id). split; [exact (walk_value told_doc _ _ W)|]. vm_compute in W. injection W as <-. vm_compute. auto.
Qed.
