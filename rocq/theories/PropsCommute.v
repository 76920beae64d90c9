(* C57: how editing calls combine. Calls at values that are not inside each other can be swapped,
   a later call takes over from an earlier one that it overwrites, and adding an entry and removing
   it again is no change. *)
From Coq Require Import String.
From Coq Require Import List NArith ZArith Bool Arith Lia.
From Verif Require Import Bytes Utf8 Data Slab Parser Render Tree Abs Refine Num Api Ctx Edit Built Shown Swap Open Session Back Check Tests Handles Snapshot Restore Twins PropsText PropsSnapshot.
Import ListNotations.

(* ---- documents that cannot be told apart ---- *)
Definition same_output (doc doc' : document) : Prop :=
  write_to doc = write_to doc' /\ to_string doc = to_string doc' /\
  forall x, shows (doc_data doc) (doc_root doc) x <-> shows (doc_data doc') (doc_root doc') x.
(* Now and after the same further calls at the same places they print and show the same. *)
Definition alike (hash : bytes -> sid) (doc doc' : document) : Prop := forall l d1 d1',
  plays hash doc l d1 -> plays hash doc' l d1' -> no_collision hash (doc_data d1) -> no_collision hash (doc_data d1') -> same_output d1 d1'.
(* What two calls gave back: the same, or handles at one place. *)
Definition same_answer (doc : document) (r : edit_result) (doc' : document) (r' : edit_result) : Prop :=
  match r, r' with
  | Handle h, Handle h' => exists q, place doc q h /\ place doc' q h'
  | Handle _, _ | _, Handle _ => False
  | _, _ => r = r'
  end.

Section Alike.
Variable hash : bytes -> sid.
Local Notation models := (models hash).
Local Notation no_collision := (no_collision hash).
Lemma plays_models doc l d1 : plays hash doc l d1 -> forall t suf, models doc t suf -> (exists t1 suf1, models d1 t1 suf1) /\ grows (doc_data doc) (doc_data d1).
Proof.
  induction 1 as [doc|doc p id e r d1 l doc1 P E X IH]; intros t suf M.
  - split; [eauto|apply grows_refl].
  - apply place_value in P. destruct (value_ctx _ _ _ _ _ M P) as (c & v & -> & <-). destruct (edit_step _ _ _ _ _ _ _ _ M E) as (a & _ & MA & G & _).
    destruct (IH _ _ MA) as [Q G']. split; [exact Q|]. eapply grows_trans; [exact G|exact G'].
Qed.
Lemma shape_output doc doc' t t' suf : models doc t suf -> models doc' t' suf -> shape t = shape t' -> no_collision (doc_data doc) -> no_collision (doc_data doc') -> same_output doc doc'.
Proof.
  intros M M' S N N'. unfold same_output.
  rewrite (models_write_to _ _ _ _ N M), (models_write_to _ _ _ _ N' M'), (models_to_string _ _ _ _ N M), (models_to_string _ _ _ _ N' M').
  unfold wdoc, ddoc. rewrite (wtree_same _ _ S), (dtree_same _ _ S), (shape_pre _ _ S). split; [reflexivity|]. split; [reflexivity|].
  pose proof (models_int _ _ _ _ M N) as F. pose proof (models_int _ _ _ _ M' N') as F'. destruct M as (M & -> & _), M' as (M' & -> & _).
  pose proof (tree_shows hash _ _ _ M F _ (sub_here t)) as S1. pose proof (tree_shows hash _ _ _ M' F' _ (sub_here t')) as S2. rewrite (see_same _ _ S) in S1.
  intros x. split; intros X; [rewrite (proj1 (shows_det _) _ _ X _ S1)|rewrite (proj1 (shows_det _) _ _ X _ S2)]; assumption.
Qed.
Lemma shape_plays doc l d1 : plays hash doc l d1 -> forall doc' d1' t t' suf, plays hash doc' l d1' -> models doc t suf -> models doc' t' suf -> shape t = shape t' ->
  no_collision (doc_data d1) -> no_collision (doc_data d1') -> same_output d1 d1'.
Proof.
  induction 1 as [doc|doc p id e r d1 l doc1 P E X IH]; intros doc' d1' t t' suf Y M M' S N N'; inversion Y as [|? ? id' ? r' d2 ? ? P' E' Y']; subst.
  - eapply shape_output; eauto.
  - assert (N1 : no_collision d1 /\ no_collision (doc_data doc)).
    { destruct (value_ctx _ _ _ _ _ M (place_value _ _ _ P)) as (c & v & -> & <-). destruct (edit_step _ _ _ _ _ _ _ _ M E) as (a & _ & MA & G & _).
      destruct (plays_models _ _ _ X _ _ MA) as [_ G1]. pose proof (grows_nc hash _ _ G1 N) as N1. split; [exact N1|]. exact (grows_nc hash _ _ G N1). }
    assert (N1' : no_collision d2 /\ no_collision (doc_data doc')).
    { destruct (value_ctx _ _ _ _ _ M' (place_value _ _ _ P')) as (c & v & -> & <-). destruct (edit_step _ _ _ _ _ _ _ _ M' E') as (a & _ & MA & G & _).
      destruct (plays_models _ _ _ Y' _ _ MA) as [_ G1]. pose proof (grows_nc hash _ _ G1 N') as N2. split; [exact N2|]. exact (grows_nc hash _ _ G N2). }
    destruct N1 as [N1 N0], N1' as [N1' N0'].
    destruct (call_same _ _ _ _ _ _ _ _ _ _ _ _ _ _ _ M M' S P P' E E' N1 N1' N0 N0') as (c & a & c' & a' & MA & MA' & _ & _ & SA & _).
    exact (IH _ _ _ _ _ Y' MA MA' SA N N').
Qed.
(* Enough to look at the trees when nothing has collided. *)
Lemma alike_trees doc doc' t0 s0 t0' s0' : models doc t0 s0 -> models doc' t0' s0' ->
  (no_collision (doc_data doc) -> no_collision (doc_data doc') -> exists t t' suf, models doc t suf /\ models doc' t' suf /\ shape t = shape t') -> alike hash doc doc'.
Proof.
  intros M M' H l d1 d1' X Y N N'. destruct (plays_models _ _ _ X _ _ M) as [_ G]. destruct (plays_models _ _ _ Y _ _ M') as [_ G'].
  destruct (H (grows_nc hash _ _ G N) (grows_nc hash _ _ G' N')) as (t & t' & suf & A & A' & S). eapply shape_plays; eauto.
Qed.
End Alike.

(* ---- two holes ---- *)
Lemma app_split {A} (l : list A) : forall x r l' x' r', l ++ x :: r = l' ++ x' :: r' ->
  (l = l' /\ x = x' /\ r = r') \/ (exists m, l' = l ++ x :: m /\ r = m ++ x' :: r') \/ (exists m, l = l' ++ x' :: m /\ r' = m ++ x :: r).
Proof.
  induction l as [|a l IH]; intros x r [|a' l'] x' r' E; cbn in E; injection E as E1 E2.
  - left. auto.
  - right. left. exists l'. cbn. now rewrite E1, E2.
  - right. right. exists l. cbn. now rewrite E1, E2.
  - subst a'. destruct (IH _ _ _ _ _ E2) as [(-> & -> & ->)|[(m & -> & ->)|(m & -> & ->)]]; [left; auto|right; left; exists m; auto|right; right; exists m; auto].
Qed.
Definition apart (c : ctx) (v : tree nat) (c' : ctx) (v' : tree nat) (f g : tree nat -> ctx) : Prop :=
  f v' = c /\ g v = c' /\ (forall x y, plug (f y) x = plug (g x) y) /\ (forall y, cpath (f y) = cpath c) /\ (forall x, cpath (g x) = cpath c') /\
  (forall y z, amake_in (f y) z = amake_in c z) /\ (forall x z, amake_in (g x) z = amake_in c' z).
Lemma apart_sym c v c' v' f g : apart c v c' v' f g -> apart c' v' c v g f.
Proof. intros (A1 & A2 & A3 & A4 & A5 & A6 & A7). split; [exact A2|]. split; [exact A1|]. split; [intros x y; symmetry; apply A3|]. auto. Qed.
Lemma two_holes c : forall c' v v', plug c v = plug c' v' ->
  (exists c2, c' = ccomp c c2 /\ v = plug c2 v') \/ (exists c2, c = ccomp c' c2 /\ v' = plug c2 v) \/ (exists f g, apart c v c' v' f g).
Proof.
  induction c as [|i p n k l ii ip key c IH r|i p n k l ii ip c IH r]; intros c' v v' E.
  - left. exists c'. split; [reflexivity|exact E].
  - destruct c' as [|i' p' n' k' l' ii' ip' key' c' r'|i' p' n' k' l' ii' ip' c' r'].
    + right. left. exists (CMapC i p n k l ii ip key c r). split; [reflexivity|]. symmetry. exact E.
    + cbn [plug] in E. injection E as <- <- <- <- E. apply app_split in E as [(<- & E & <-)|[(m & -> & ->)|(m & -> & ->)]].
      * injection E as <- <- <- E. destruct (IH _ _ _ E) as [(c2 & -> & ->)|[(c2 & -> & ->)|(f & g & A1 & A2 & A3 & A4 & A5 & A6 & A7)]].
        -- left. exists c2. split; reflexivity.
        -- right. left. exists c2. split; reflexivity.
        -- right. right. exists (fun y => CMapC i p n k l ii ip key (f y) r), (fun x => CMapC i p n k l ii ip key (g x) r).
           split; [now rewrite A1|]. split; [now rewrite A2|]. split; [intros x y; cbn [plug]; now rewrite A3|].
           split; [intros y; cbn [cpath]; now rewrite A4|]. split; [intros x; cbn [cpath]; now rewrite A5|]. split; [intros y z; apply A6|intros x z; apply A7].
      * right. right. exists (fun y => CMapC i p n k l ii ip key c (m ++ (ii', ip', key', plug c' y) :: r')), (fun x => CMapC i p n k (l ++ (ii, ip, key, plug c x) :: m) ii' ip' key' c' r').
        split; [reflexivity|]. split; [reflexivity|]. split; [intros x y; cbn [plug]; now rewrite <- app_assoc|].
        split; [reflexivity|]. split; [intros x; cbn [cpath]; now rewrite !app_length|]. split; reflexivity.
      * right. right. exists (fun y => CMapC i p n k (l' ++ (ii', ip', key', plug c' y) :: m) ii ip key c r), (fun x => CMapC i p n k l' ii' ip' key' c' (m ++ (ii, ip, key, plug c x) :: r)).
        split; [reflexivity|]. split; [reflexivity|]. split; [intros x y; cbn [plug]; now rewrite <- app_assoc|].
        split; [intros y; cbn [cpath]; now rewrite !app_length|]. split; [reflexivity|]. split; reflexivity.
    + discriminate E.
  - destruct c' as [|i' p' n' k' l' ii' ip' key' c' r'|i' p' n' k' l' ii' ip' c' r'].
    + right. left. exists (CSeqC i p n k l ii ip c r). split; [reflexivity|]. symmetry. exact E.
    + discriminate E.
    + cbn [plug] in E. injection E as <- <- <- <- E. apply app_split in E as [(<- & E & <-)|[(m & -> & ->)|(m & -> & ->)]].
      * injection E as <- <- E. destruct (IH _ _ _ E) as [(c2 & -> & ->)|[(c2 & -> & ->)|(f & g & A1 & A2 & A3 & A4 & A5 & A6 & A7)]].
        -- left. exists c2. split; reflexivity.
        -- right. left. exists c2. split; reflexivity.
        -- right. right. exists (fun y => CSeqC i p n k l ii ip (f y) r), (fun x => CSeqC i p n k l ii ip (g x) r).
           split; [now rewrite A1|]. split; [now rewrite A2|]. split; [intros x y; cbn [plug]; now rewrite A3|].
           split; [intros y; cbn [cpath]; now rewrite A4|]. split; [intros x; cbn [cpath]; now rewrite A5|]. split; [intros y z; cbn; destruct k; apply A6|intros x z; cbn; destruct k; apply A7].
      * right. right. exists (fun y => CSeqC i p n k l ii ip c (m ++ (ii', ip', plug c' y) :: r')), (fun x => CSeqC i p n k (l ++ (ii, ip, plug c x) :: m) ii' ip' c' r').
        split; [reflexivity|]. split; [reflexivity|]. split; [intros x y; cbn [plug]; now rewrite <- app_assoc|].
        split; [reflexivity|]. split; [intros x; cbn [cpath]; now rewrite !app_length|]. split; reflexivity.
      * right. right. exists (fun y => CSeqC i p n k (l' ++ (ii', ip', plug c' y) :: m) ii ip c r), (fun x => CSeqC i p n k l' ii' ip' c' (m ++ (ii, ip, plug c x) :: r)).
        split; [reflexivity|]. split; [reflexivity|]. split; [intros x y; cbn [plug]; now rewrite <- app_assoc|].
        split; [intros y; cbn [cpath]; now rewrite !app_length|]. split; [reflexivity|]. split; reflexivity.
Qed.
Lemma plug_shape c a a' : shape a = shape a' -> shape (plug c a) = shape (plug c a').
Proof. intros E. destruct (plug_same c c a a eq_refl eq_refl) as (_ & _ & H). now apply H. Qed.

(* ---- calls at separate values ---- *)
Theorem C57_runs : forall hash doc id1 e1 id2 e2, built hash doc -> value_of doc id1 -> value_of doc id2 ->
  ~ within (doc_data doc) id1 id2 -> ~ within (doc_data doc) id2 id1 ->
  exists r1 d1 r2 d2, run hash id1 e1 (doc_data doc) = Ok (r1, d1) /\ run hash id2 e2 d1 = Ok (r2, d2).
Proof.
  intros hash doc id1 e1 id2 e2 B V1 V2 W1 W2. destruct (built_models _ _ _ _ B) as (t & suf & M). destruct (value_ctx _ _ _ _ _ M V1) as (c & v & -> & <-). destruct (value_ctx _ _ _ _ _ M V2) as (c' & v' & E & <-).
  pose proof M as (MA & _). destruct (two_holes _ _ _ _ E) as [(c2 & -> & ->)|[(c2 & -> & ->)|(f & g & A1 & A2 & A3 & _)]].
  - elim W1. eapply sub_within; [exact MA|apply sub_plug|apply sub_plug].
  - elim W2. rewrite E in MA. eapply sub_within; [exact MA|apply sub_plug|apply sub_plug].
  - destruct (run_effect hash c v e1 _ MA) as (r1 & d1 & a & R1 & _ & M1 & _). rewrite <- A1, A3 in M1. destruct (run_effect hash _ _ e2 _ M1) as (r2 & d2 & _ & R2 & _). exists r1, d1, r2, d2. auto.
Qed.
Print Assumptions C57_runs.
Theorem C57_commute : forall hash doc id1 e1 id2 e2 r1 d1 r2 d2 s2 d3 s1 d4, built hash doc -> value_of doc id1 -> value_of doc id2 ->
  ~ within (doc_data doc) id1 id2 -> ~ within (doc_data doc) id2 id1 ->
  run hash id1 e1 (doc_data doc) = Ok (r1, d1) -> run hash id2 e2 d1 = Ok (r2, d2) ->
  run hash id2 e2 (doc_data doc) = Ok (s2, d3) -> run hash id1 e1 d3 = Ok (s1, d4) ->
  alike hash (edited doc d2) (edited doc d4) /\
  (no_collision hash d2 -> no_collision hash d4 -> same_output (edited doc d2) (edited doc d4) /\
     same_answer (edited doc d2) r1 (edited doc d4) s1 /\ same_answer (edited doc d2) r2 (edited doc d4) s2).
Proof.
  intros hash doc id1 e1 id2 e2 r1 d1 r2 d2 s2 d3 s1 d4 B V1 V2 W1 W2 R1 R2 R3 R4. destruct (built_models _ _ _ _ B) as (t & suf & M). destruct (value_ctx _ _ _ _ _ M V1) as (c & v & -> & <-). destruct (value_ctx _ _ _ _ _ M V2) as (c' & v' & E & <-).
  destruct (two_holes _ _ _ _ E) as [(c2 & -> & ->)|[(c2 & -> & ->)|(f & g & A1 & A2 & A3 & A4 & A5 & A6 & A7)]].
  { elim W1. destruct M as (MA & _). eapply sub_within; [exact MA|apply sub_plug|apply sub_plug]. }
  { elim W2. destruct M as (MA & _). rewrite E in MA. eapply sub_within; [exact MA|apply sub_plug|apply sub_plug]. }
  destruct (edit_step _ _ _ _ _ _ _ _ M R1) as (a & _ & M1 & G1 & F1). rewrite <- A1, A3 in M1. destruct (edit_step hash (edited doc d1) _ _ _ _ _ _ M1 R2) as (b2 & _ & M2 & G2 & F2).
  pose proof M as M0. rewrite E in M0. destruct (edit_step _ _ _ _ _ _ _ _ M0 R3) as (b' & _ & M3 & G3 & F3). rewrite <- A2, <- A3 in M3. destruct (edit_step hash (edited doc d3) _ _ _ _ _ _ M3 R4) as (a' & _ & M4 & G4 & F4).
  change (edited (edited doc d1) d2) with (edited doc d2) in M2. change (edited (edited doc d3) d4) with (edited doc d4) in M4.
  assert (H : no_collision hash d2 -> no_collision hash d4 -> shape a = shape a' /\ same_result r1 a s1 a' /\ shape b2 = shape b' /\ same_result r2 b2 s2 b').
  { intros N2 N4. specialize (F2 N2). specialize (F4 N4). specialize (F1 (grows_nc hash _ _ G2 N2)). specialize (F3 (grows_nc hash _ _ G4 N4)).
    destruct (effect_same _ _ _ _ _ _ _ _ _ F1 F4 eq_refl) as [S1 Q1]; [unfold amake; symmetry; apply A6|].
    destruct (effect_same _ _ _ _ _ _ _ _ _ F2 F3 eq_refl) as [S2 Q2]; [unfold amake; apply A7|]. auto. }
  assert (HS : no_collision hash d2 -> no_collision hash d4 -> shape (plug (g a) b2) = shape (plug (f b') a')).
  { intros N2 N4. destruct (H N2 N4) as (S1 & _ & S2 & _). rewrite (plug_shape _ _ _ S2), <- A3. now apply plug_shape. }
  split; [|intros N2 N4; split; [|split]].
  - eapply alike_trees; [exact M2|exact M4|]. cbn [edited doc_data]. intros N2 N4. exists (plug (g a) b2), (plug (f b') a'), suf. auto.
  - eapply shape_output; [exact M2|exact M4|now apply HS|exact N2|exact N4].
  - destruct (H N2 N4) as (_ & Q & _). unfold same_result in Q. destruct r1 as [|h| |], s1 as [|h'| |]; try exact Q. destruct Q as (c1 & w & c1' & w' & -> & <- & -> & <- & CP).
    rewrite <- A3, <- plug_comp in M2. rewrite <- plug_comp in M4. exists (cpath (ccomp (f b2) c1)). split; [eapply ctx_place; [exact M2|exact N2]|].
    replace (cpath (ccomp (f b2) c1)) with (cpath (ccomp (f b') c1')) by (rewrite !cpath_comp, !A4; congruence). eapply ctx_place; [exact M4|exact N4].
  - destruct (H N2 N4) as (_ & _ & _ & Q). unfold same_result in Q. destruct r2 as [|h| |], s2 as [|h'| |]; try exact Q. destruct Q as (c1 & w & c1' & w' & -> & <- & -> & <- & CP).
    rewrite <- plug_comp in M2. rewrite A3, <- plug_comp in M4. exists (cpath (ccomp (g a) c1)). split; [eapply ctx_place; [exact M2|exact N2]|].
    replace (cpath (ccomp (g a) c1)) with (cpath (ccomp (g a') c1')) by (rewrite !cpath_comp, !A5; congruence). eapply ctx_place; [exact M4|exact N4].
Qed.
Print Assumptions C57_commute.

(* ---- overwriting ---- *)
Definition is_set (e : edit) : bool :=
  match e with SetNull _ | SetString _ | SetStringWith _ _ | SetBlock _ _ | SetBool _ | SetInt _ _ | SetFloat _ _ => true | _ => false end.
Definition is_block (e : edit) : bool := match e with SetBlock _ _ => true | _ => false end.
Definition is_make (e : edit) : bool := match e with MakeMapping | MakeSequence => true | _ => false end.
(* The key of an inserting call, and whether it is one for mappings. *)
Definition on_key (e : edit) : option bytes :=
  match e with
  | Insert k _ | InsertStr k _ | InsertBlock k _ _ | InsertBool k _ | InsertInt k _ _ | InsertFloat k _ _ => Some k
  | _ => None
  end.
Definition for_mapping (e : edit) : bool := match on_key e, e with Some _, _ | None, RemoveKey _ | None, ClearMapping => true | _, _ => false end.
Definition is_push (e : edit) : bool :=
  match e with Push _ | PushString _ | PushBlock _ _ | PushBool _ | PushInt _ _ | PushFloat _ _ => true | _ => false end.
Definition for_sequence (e : edit) : bool := match is_push e, e with true, _ | false, RemoveIndex _ | false, ClearSequence => true | _, _ => false end.

Lemma pre_kept c v e r a : effect c v e r a -> is_make e = false -> tpre a = tpre v /\ (forall ps b, is_map v = false -> is_seq v = false -> ablock a ps b = ablock v ps b).
Proof.
  intros X Q. destruct X as [e sc C1 C2 C3|C1|n p C1 C2|C1|n p C1 C2|e sc key s h w C1 C2 C3|key x w C1|i p n k items C1|e sc s h w C1 C2 C3|j x w C1|i p n k items C1|e C1 C2|e C1 C2]; try discriminate Q; try (split; reflexivity).
  - split; [reflexivity|]. intros ps b. destruct v; try discriminate. reflexivity.
  - destruct C3; split; try reflexivity; discriminate.
  - destruct C1; split; try reflexivity; discriminate.
  - subst v. split; [reflexivity|discriminate].
  - destruct C3; split; try reflexivity; discriminate.
  - destruct C1; split; try reflexivity; discriminate.
  - subst v. split; [reflexivity|discriminate].
Qed.
Lemma set_effect c v e r a : effect c v e r a -> is_set e = true -> r = Done /\ exists sc, ascalar v e = Some sc /\ a = TLeaf (tid v) (tpre v) sc.
Proof.
  intros X Q. destruct X as [e sc C1 C2 C3|C1|n p C1 C2|C1|n p C1 C2|e sc key s h w C1 C2 C3|key x w C1|i p n k items C1|e sc s h w C1 C2 C3|j x w C1|i p n k items C1|e C1 C2|e C1 C2]; try discriminate Q;
    try (destruct e; discriminate); try (exfalso; destruct C2 as [C2|[C2|[? C2]]]; destruct e; cbn in *; congruence). split; [reflexivity|]. eauto.
Qed.
Lemma set_scalar v v' e : is_set e = true -> is_block e = false -> ascalar (v : tree nat) e = ascalar (v' : tree nat) e.
Proof. destruct e; cbn; intros; try discriminate; reflexivity. Qed.

(* A set_* call takes over from every call at its value or inside it. Not from make_mapping and
   make_sequence at the value itself, which move it to another line; set_block indents its lines
   by the collection it replaces, so it is only the same when the value was none. *)
Theorem C57_last_set : forall hash doc id id2 e1 e2 r1 d1 r2 d2 s2 d3, built hash doc -> value_of doc id -> within (doc_data doc) id id2 ->
  is_set e2 = true -> (id2 = id -> is_make e1 = false) ->
  (is_block e2 = true -> as_mapping (doc_data doc) id = Ok None /\ as_sequence (doc_data doc) id = Ok None) ->
  run hash id2 e1 (doc_data doc) = Ok (r1, d1) -> run hash id e2 d1 = Ok (r2, d2) -> run hash id e2 (doc_data doc) = Ok (s2, d3) ->
  alike hash (edited doc d2) (edited doc d3) /\ (no_collision hash d2 -> no_collision hash d3 -> same_output (edited doc d2) (edited doc d3)).
Proof.
  intros hash doc id id2 e1 e2 r1 d1 r2 d2 s2 d3 B V W QS QM QB R1 R2 R3. destruct (built_models _ _ _ _ B) as (t & suf & M). destruct (value_ctx _ _ _ _ _ M V) as (c & v & -> & <-).
  pose proof M as (MA & _). destruct (within_sub hash _ _ _ MA _ _ (sub_plug c v) W) as (w & S & <-). destruct (sub_ctx _ _ S) as [c2 ->].
  destruct (edit_step _ _ _ _ _ _ _ _ M R3) as (b3 & _ & M3 & G3 & F3).
  pose proof M as M0. rewrite <- plug_comp in M0. destruct (edit_step _ _ _ _ _ _ _ _ M0 R1) as (a & TA & M1 & G1 & F1). rewrite plug_comp in M1.
  assert (T : tid (plug c2 a) = tid (plug c2 w)) by (rewrite !tid_plug; congruence). rewrite <- T in R2.
  destruct (edit_step hash (edited doc d1) _ _ _ _ _ _ M1 R2) as (b2 & _ & M2 & G2 & F2). change (edited (edited doc d1) d2) with (edited doc d2) in M2.
  assert (K : no_collision hash d1 -> tpre (plug c2 a) = tpre (plug c2 w) /\ (is_block e2 = true -> ascalar (plug c2 a) e2 = ascalar (plug c2 w) e2)).
  { intros N1. specialize (F1 N1). destruct c2 as [|i p n k l ii ip key c2 r|i p n k l ii ip c2 r].
    - cbn [plug] in *. destruct (pre_kept _ _ _ _ _ F1 (QM eq_refl)) as [P AB]. split; [exact P|]. intros Q. destruct (QB Q) as [Q1 Q2].
      pose proof (sub_raw hash _ _ _ MA _ (sub_plug c w)) as RW. unfold as_mapping in Q1. unfold as_sequence in Q2. rewrite RW in Q1, Q2. destruct e2; try discriminate Q. cbn [ascalar]. f_equal. apply AB; destruct w; cbn in *; congruence.
    - split; [reflexivity|]. intros Q. destruct (QB Q) as [Q1 _]. pose proof (sub_raw hash _ _ _ MA _ (sub_plug c _)) as RW. unfold as_mapping in Q1. rewrite RW in Q1. discriminate Q1.
    - split; [reflexivity|]. intros Q. destruct (QB Q) as [_ Q1]. pose proof (sub_raw hash _ _ _ MA _ (sub_plug c _)) as RW. unfold as_sequence in Q1. rewrite RW in Q1. discriminate Q1. }
  assert (H : no_collision hash d2 -> no_collision hash d3 -> shape (plug c b2) = shape (plug c b3)).
  { intros N2 N3. destruct (K (grows_nc hash _ _ G2 N2)) as [KP KA]. destruct (set_effect _ _ _ _ _ (F2 N2) QS) as (_ & sc & E2 & ->). destruct (set_effect _ _ _ _ _ (F3 N3) QS) as (_ & sc' & E3 & ->).
    apply plug_shape. assert (sc = sc') as ->. { destruct (is_block e2) eqn:Q; [rewrite (KA eq_refl) in E2; congruence|]. rewrite (set_scalar _ (plug c2 w) _ QS Q) in E2. congruence. }
    cbn [shape tmap]. rewrite KP. reflexivity. }
  split.
  - eapply alike_trees; [exact M2|exact M3|]. cbn [edited doc_data]. intros N2 N3. exists (plug c b2), (plug c b3), suf. auto.
  - intros N2 N3. eapply shape_output; [exact M2|exact M3|now apply H|exact N2|exact N3].
Qed.
Print Assumptions C57_last_set.

(* ---- clearing ---- *)
Lemma map_kept c i p n k items e r a : effect c (TMap i p n k items) e r a -> for_mapping e = true -> exists items', a = TMap i p n k items'.
Proof.
  intros X Q. inversion X as [e0 sc C1 C2 C3|C1|n0 p0 C1 C2|C1|n0 p0 C1 C2|e0 sc key s h w C1 C2 C3|key x w C1|i0 p0 n0 k0 items0 C1|e0 sc s h w C1 C2 C3|j x w C1|i0 p0 n0 k0 items0 C1|e0 C1 C2|e0 C1 C2]; subst; try discriminate Q; try discriminate C1; eauto.
  - exfalso. destruct e; discriminate.
  - inversion C3; subst; eauto.
  - inversion C1; subst; eauto.
  - injection C1 as <- <- <- <- <-. eauto.
  - inversion C3.
Qed.
Lemma seq_kept c i p n k items e r a : effect c (TSeq i p n k items) e r a -> for_sequence e = true -> exists items', a = TSeq i p n k items'.
Proof.
  intros X Q. inversion X as [e0 sc C1 C2 C3|C1|n0 p0 C1 C2|C1|n0 p0 C1 C2|e0 sc key s h w C1 C2 C3|key x w C1|i0 p0 n0 k0 items0 C1|e0 sc s h w C1 C2 C3|j x w C1|i0 p0 n0 k0 items0 C1|e0 C1 C2|e0 C1 C2]; subst; try discriminate Q; try discriminate C1; eauto.
  - exfalso. destruct e; discriminate.
  - inversion C3.
  - inversion C3; subst; eauto.
  - inversion C1; subst; eauto.
  - injection C1 as <- <- <- <- <-. eauto.
Qed.
Lemma clear_map c i p n k items r a : effect c (TMap i p n k items) ClearMapping r a -> r = Done /\ a = TMap i p n k [].
Proof.
  intros X. inversion X as [e0 sc C1 C2 C3|C1|n0 p0 C1 C2|C1|n0 p0 C1 C2|e0 sc key s h w C1 C2 C3|key x w C1|i0 p0 n0 k0 items0 C1|e0 sc s h w C1 C2 C3|j x w C1|i0 p0 n0 k0 items0 C1|e0 C1 C2|e0 C1 C2]; subst; try discriminate C1; auto.
  - injection C1 as <- <- <- <- <-. auto.
  - exfalso. destruct C2 as [C2|[C2|[? C2]]]; [now elim C2|discriminate C2|discriminate C2].
Qed.
Lemma clear_seq c i p n k items r a : effect c (TSeq i p n k items) ClearSequence r a -> r = Done /\ a = TSeq i p n k [].
Proof.
  intros X. inversion X as [e0 sc C1 C2 C3|C1|n0 p0 C1 C2|C1|n0 p0 C1 C2|e0 sc key s h w C1 C2 C3|key x w C1|i0 p0 n0 k0 items0 C1|e0 sc s h w C1 C2 C3|j x w C1|i0 p0 n0 k0 items0 C1|e0 C1 C2|e0 C1 C2]; subst; try discriminate C1; auto.
  - injection C1 as <- <- <- <- <-. auto.
  - exfalso. destruct C2 as [C2|[C2|[? C2]]]; [now elim C2|discriminate C2|discriminate C2].
Qed.
Lemma is_mapping hash d t par v : models_at hash par d t -> sub t v -> as_mapping d (tid v) = Ok (Some (tid v)) -> exists i p n k items, v = TMap i p n k items.
Proof. intros M S E. pose proof (sub_raw hash _ _ _ M _ S) as RW. unfold as_mapping in E. rewrite RW in E. destruct v; try discriminate E. eauto 6. Qed.
Lemma is_sequence hash d t par v : models_at hash par d t -> sub t v -> as_sequence d (tid v) = Ok (Some (tid v)) -> exists i p n k items, v = TSeq i p n k items.
Proof. intros M S E. pose proof (sub_raw hash _ _ _ M _ S) as RW. unfold as_sequence in E. rewrite RW in E. destruct v; try discriminate E. eauto 6. Qed.
(* clear takes over from the calls on the collection and inside it. *)
Theorem C57_clear : forall hash doc id id2 e1 r1 d1 r2 d2 s2 d3 (mapping : bool), built hash doc -> value_of doc id -> within (doc_data doc) id id2 ->
  (if mapping then as_mapping (doc_data doc) id else as_sequence (doc_data doc) id) = Ok (Some id) ->
  (id2 = id -> (if mapping then for_mapping e1 else for_sequence e1) = true) ->
  let clear := if mapping then ClearMapping else ClearSequence in
  run hash id2 e1 (doc_data doc) = Ok (r1, d1) -> run hash id clear d1 = Ok (r2, d2) -> run hash id clear (doc_data doc) = Ok (s2, d3) ->
  alike hash (edited doc d2) (edited doc d3) /\ (no_collision hash d2 -> no_collision hash d3 -> same_output (edited doc d2) (edited doc d3)).
Proof.
  intros hash doc id id2 e1 r1 d1 r2 d2 s2 d3 mapping B V W IM QM clear R1 R2 R3. destruct (built_models _ _ _ _ B) as (t & suf & M). destruct (value_ctx _ _ _ _ _ M V) as (c & v & -> & <-).
  pose proof M as (MA & _). destruct (within_sub hash _ _ _ MA _ _ (sub_plug c v) W) as (w & S & <-). destruct (sub_ctx _ _ S) as [c2 ->].
  destruct (edit_step _ _ _ _ _ _ _ _ M R3) as (b3 & _ & M3 & G3 & F3).
  pose proof M as M0. rewrite <- plug_comp in M0. destruct (edit_step _ _ _ _ _ _ _ _ M0 R1) as (a & TA & M1 & G1 & F1). rewrite plug_comp in M1.
  assert (T : tid (plug c2 a) = tid (plug c2 w)) by (rewrite !tid_plug; congruence). rewrite <- T in R2.
  destruct (edit_step hash (edited doc d1) _ _ _ _ _ _ M1 R2) as (b2 & _ & M2 & G2 & F2). change (edited (edited doc d1) d2) with (edited doc d2) in M2.
  assert (H : no_collision hash d2 -> no_collision hash d3 -> b2 = b3).
  { intros N2 N3. specialize (F1 (grows_nc hash _ _ G2 N2)). specialize (F2 N2). specialize (F3 N3). destruct mapping; unfold clear in *.
    - destruct (is_mapping _ _ _ _ _ MA (sub_plug c _) IM) as (i & p & n & k & items & EV). rewrite EV in F3. destruct (clear_map _ _ _ _ _ _ _ _ F3) as [_ ->].
      assert (K : exists items', plug c2 a = TMap i p n k items').
      { destruct c2 as [|i0 p0 n0 k0 l0 ii ip key c2 r|i0 p0 n0 k0 l0 ii ip c2 r]; cbn [plug] in *; [|injection EV as -> -> -> -> _; eauto|discriminate EV].
        subst w. exact (map_kept _ _ _ _ _ _ _ _ _ F1 (QM eq_refl)). }
      destruct K as (items' & K). rewrite K in F2. now destruct (clear_map _ _ _ _ _ _ _ _ F2) as [_ ->].
    - destruct (is_sequence _ _ _ _ _ MA (sub_plug c _) IM) as (i & p & n & k & items & EV). rewrite EV in F3. destruct (clear_seq _ _ _ _ _ _ _ _ F3) as [_ ->].
      assert (K : exists items', plug c2 a = TSeq i p n k items').
      { destruct c2 as [|i0 p0 n0 k0 l0 ii ip key c2 r|i0 p0 n0 k0 l0 ii ip c2 r]; cbn [plug] in *; [|discriminate EV|injection EV as -> -> -> -> _; eauto].
        subst w. exact (seq_kept _ _ _ _ _ _ _ _ _ F1 (QM eq_refl)). }
      destruct K as (items' & K). rewrite K in F2. now destruct (clear_seq _ _ _ _ _ _ _ _ F2) as [_ ->]. }
  split.
  - eapply alike_trees; [exact M2|exact M3|]. cbn [edited doc_data]. intros N2 N3. exists (plug c b2), (plug c b3), suf. rewrite (H N2 N3) in *. auto.
  - intros N2 N3. eapply shape_output; [exact M2|exact M3|now rewrite (H N2 N3)|exact N2|exact N3].
Qed.
Print Assumptions C57_clear.

(* ---- adding and removing ---- *)
Definition separator_of (e : edit) : separator := match e with Insert _ s | Push s => s | _ => Auto end.
Lemma ikey_on e key : on_key e = Some key -> ikey e = Some (key, separator_of e).
Proof. destruct e; cbn; intros E; try discriminate E; injection E as ->; reflexivity. Qed.
Lemma psep_on e : is_push e = true -> psep e = Some (separator_of e).
Proof. destruct e; cbn; intros E; try discriminate E; reflexivity. Qed.
Lemma insert_effect c i p n k items e key r a : effect c (TMap i p n k items) e r a -> on_key e = Some key ->
  exists sc h, r = Handle h /\ ascalar (TMap i p n k items) e = Some sc /\ inserted key (separator_of e) sc (TMap i p n k items) h a.
Proof.
  intros X Q. pose proof (ikey_on _ _ Q) as IK. inversion X as [e0 sc C1 C2 C3|C1|n0 p0 C1 C2|C1|n0 p0 C1 C2|e0 sc key0 s h w C1 C2 C3|key0 x w C1|i0 p0 n0 k0 items0 C1|e0 sc s h w C1 C2 C3|j x w C1|i0 p0 n0 k0 items0 C1|e0 C1 C2|e0 C1 C2]; subst; try discriminate Q; try discriminate C1.
  - congruence.
  - rewrite IK in C2. injection C2 as <- <-. eauto.
  - inversion C3.
  - exfalso. destruct C2 as [C2|[C2|[? C2]]]; destruct e; cbn in *; congruence.
Qed.
Lemma push_effect c i p n k items e r a : effect c (TSeq i p n k items) e r a -> is_push e = true ->
  exists sc h, r = Handle h /\ ascalar (TSeq i p n k items) e = Some sc /\ pushed (separator_of e) sc (TSeq i p n k items) h a.
Proof.
  intros X Q. pose proof (psep_on _ Q) as IK. inversion X as [e0 sc C1 C2 C3|C1|n0 p0 C1 C2|C1|n0 p0 C1 C2|e0 sc key0 s h w C1 C2 C3|key0 x w C1|i0 p0 n0 k0 items0 C1|e0 sc s h w C1 C2 C3|j x w C1|i0 p0 n0 k0 items0 C1|e0 C1 C2|e0 C1 C2]; subst; try discriminate Q; try discriminate C1.
  - congruence.
  - inversion C3.
  - rewrite IK in C2. injection C2 as <-. eauto.
  - exfalso. destruct C2 as [C2|[C2|[? C2]]]; destruct e; cbn in *; congruence.
Qed.
Lemma remove_effect c i p n k items key r a : effect c (TMap i p n k items) (RemoveKey key) r a -> exists x, r = Removed x /\ removed_key key (TMap i p n k items) x a.
Proof.
  intros X. inversion X as [e0 sc C1 C2 C3|C1|n0 p0 C1 C2|C1|n0 p0 C1 C2|e0 sc key0 s h w C1 C2 C3|key0 x w C1|i0 p0 n0 k0 items0 C1|e0 sc s h w C1 C2 C3|j x w C1|i0 p0 n0 k0 items0 C1|e0 C1 C2|e0 C1 C2]; subst; try discriminate C1; eauto.
  exfalso. destruct C2 as [C2|[C2|[? C2]]]; [now elim C2|discriminate C2|discriminate C2].
Qed.
Lemma remove_at_effect c i p n k items j r a : effect c (TSeq i p n k items) (RemoveIndex j) r a -> exists x, r = Removed x /\ removed_at j (TSeq i p n k items) x a.
Proof.
  intros X. inversion X as [e0 sc C1 C2 C3|C1|n0 p0 C1 C2|C1|n0 p0 C1 C2|e0 sc key0 s h w C1 C2 C3|key0 x w C1|i0 p0 n0 k0 items0 C1|e0 sc s h w C1 C2 C3|j0 x w C1|i0 p0 n0 k0 items0 C1|e0 C1 C2|e0 C1 C2]; subst; try discriminate C1; eauto.
  exfalso. destruct C2 as [C2|[C2|[? C2]]]; [now elim C2|discriminate C2|discriminate C2].
Qed.
Lemma lookup_none key l : lookup key (map mview l) = None -> Forall (other_key key) l.
Proof.
  induction l as [|it l IH]; cbn [map lookup mview]; intros E; constructor.
  - intros Q. rewrite Q in E. rewrite (proj2 (beq_eq _ _) eq_refl) in E. discriminate E.
  - apply IH. destruct (beq (rs_id (mkey it)) key); [discriminate E|exact E].
Qed.
(* A second call at the same value. *)
Lemma two_calls hash doc c v suf e1 e2 r1 d1 r2 d2 : models hash doc (plug c v) suf -> run hash (tid v) e1 (doc_data doc) = Ok (r1, d1) -> run hash (tid v) e2 d1 = Ok (r2, d2) ->
  exists a a2, tid a2 = tid v /\ models hash (edited doc d2) (plug c a2) suf /\ grows (doc_data doc) d2 /\ (no_collision hash d2 -> effect c v e1 r1 a /\ effect c a e2 r2 a2).
Proof.
  intros M R1 R2. destruct (edit_step _ _ _ _ _ _ _ _ M R1) as (a & T & M1 & G1 & F1). rewrite <- T in R2. destruct (edit_step hash (edited doc d1) _ _ _ _ _ _ M1 R2) as (a2 & T2 & M2 & G2 & F2).
  exists a, a2. split; [congruence|]. split; [exact M2|]. split; [eapply grows_trans; [exact G1|exact G2]|]. intros N. split; [apply F1; exact (grows_nc hash _ _ G2 N)|exact (F2 N)].
Qed.
(* A new entry that is removed again leaves no trace. *)
Theorem C57_undo_insert : forall hash doc id e key r1 d1 r2 d2, built hash doc -> value_of doc id -> as_mapping (doc_data doc) id = Ok (Some id) ->
  on_key e = Some key -> map_get (doc_data doc) id key = Ok None ->
  run hash id e (doc_data doc) = Ok (r1, d1) -> run hash id (RemoveKey key) d1 = Ok (r2, d2) ->
  alike hash (edited doc d2) doc /\ (no_collision hash d2 -> r2 = Removed true /\ same_output (edited doc d2) doc).
Proof.
  intros hash doc id e key r1 d1 r2 d2 B V IM OK G R1 R2. destruct (built_models _ _ _ _ B) as (t & suf & M). destruct (value_ctx _ _ _ _ _ M V) as (c & v & -> & <-).
  destruct (two_calls _ _ _ _ _ _ _ _ _ _ _ M R1 R2) as (a & a2 & _ & M2 & GR & F).
  assert (H : no_collision hash d2 -> r2 = Removed true /\ a2 = v).
  { intros N. destruct (F N) as [F1 F2]. pose proof (models_int _ _ _ _ M (grows_nc hash _ _ GR N)) as FI. destruct M as (MA & _). destruct (is_mapping _ _ _ _ _ MA (sub_plug c v) IM) as (i & p & n & k & items & ->).
    rewrite (node_get hash _ _ _ MA FI _ _ _ _ _ key (sub_plug c _) : map_get _ (tid (TMap i p n k items)) key = _) in G. injection G as G. apply lookup_none in G.
    destruct (insert_effect _ _ _ _ _ _ _ _ _ _ F1 OK) as (sc & h & -> & _ & IN). inversion IN as [? ? ? ? l ii ip kk w r K FO|? ? ? ? ? ii vi FO]; subst.
    - exfalso. rewrite Forall_forall in G. exact (G _ (in_elt _ _ _) eq_refl).
    - destruct (remove_effect _ _ _ _ _ _ _ _ _ F2) as (x & -> & RM). inversion RM as [? ? ? ? l it r K FO2 E|? ? ? ? ? FO2]; subst.
      + split; [reflexivity|]. match goal with EI : _ ++ _ :: _ = _ ++ _ :: _ |- _ => apply app_split in EI as [(-> & _ & ->)|[(m & -> & _)|(m & _ & E)]] end.
        * now rewrite app_nil_r.
        * exfalso. rewrite Forall_forall in G. exact (G _ (in_elt _ _ _) eq_refl).
        * destruct m; discriminate E.
      + exfalso. rewrite Forall_forall in FO2. apply (FO2 _ (in_elt _ _ _)). reflexivity. }
  split.
  - eapply alike_trees; [exact M2|exact M|]. cbn [edited doc_data]. intros N2 N. exists (plug c a2), (plug c v), suf. destruct (H N2) as [_ E]. rewrite E in *. auto.
  - intros N. destruct (H N) as [-> E]. split; [reflexivity|]. eapply shape_output; [exact M2|exact M|now rewrite E|exact N|exact (grows_nc hash _ _ GR N)].
Qed.
Print Assumptions C57_undo_insert.
Theorem C57_undo_push : forall hash doc id e n r1 d1 r2 d2, built hash doc -> value_of doc id -> as_sequence (doc_data doc) id = Ok (Some id) ->
  is_push e = true -> seq_len (doc_data doc) id = Ok n ->
  run hash id e (doc_data doc) = Ok (r1, d1) -> run hash id (RemoveIndex n) d1 = Ok (r2, d2) ->
  alike hash (edited doc d2) doc /\ (no_collision hash d2 -> r2 = Removed true /\ same_output (edited doc d2) doc).
Proof.
  intros hash doc id e len r1 d1 r2 d2 B V IM OK G R1 R2. destruct (built_models _ _ _ _ B) as (t & suf & M). destruct (value_ctx _ _ _ _ _ M V) as (c & v & -> & <-).
  destruct (two_calls _ _ _ _ _ _ _ _ _ _ _ M R1 R2) as (a & a2 & _ & M2 & GR & F).
  assert (H : no_collision hash d2 -> r2 = Removed true /\ a2 = v).
  { intros N. destruct (F N) as [F1 F2]. destruct M as (MA & _). destruct (is_sequence _ _ _ _ _ MA (sub_plug c v) IM) as (i & p & n & k & items & ->).
    pose proof (sub_raw hash _ _ _ MA _ (sub_plug c _)) as RW. unfold seq_len, Data.sequence in G. cbn [tid] in RW, G. rewrite RW in G. cbn in G. rewrite map_length in G. injection G as <-.
    destruct (push_effect _ _ _ _ _ _ _ _ _ F1 OK) as (sc & h & -> & _ & IN). inversion IN as [? ? ? ? ? ii vi]; subst.
    destruct (remove_at_effect _ _ _ _ _ _ _ _ _ F2) as (x & -> & RM). inversion RM as [? ? ? ? l it r LE E|? ? ? ? ? LE]; subst.
    - split; [reflexivity|]. match goal with EI : _ ++ _ :: _ = _ ++ _ :: _ |- _ => apply app_split in EI as [(-> & _ & ->)|[(m & -> & _)|(m & _ & E)]] end.
      + now rewrite app_nil_r.
      + exfalso. unfold sitem in *. match goal with Q : context [length (_ ++ _)] |- _ => rewrite app_length in Q; cbn [length] in Q; lia end.
      + destruct m; discriminate E.
    - exfalso. unfold sitem in *. match goal with Q : context [length (_ ++ _)] |- _ => rewrite app_length in Q; cbn [length] in Q; lia end. }
  split.
  - eapply alike_trees; [exact M2|exact M|]. cbn [edited doc_data]. intros N2 N. exists (plug c a2), (plug c v), suf. destruct (H N2) as [_ E]. rewrite E in *. auto.
  - intros N. destruct (H N) as [-> E]. split; [reflexivity|]. eapply shape_output; [exact M2|exact M|now rewrite E|exact N|exact (grows_nc hash _ _ GR N)].
Qed.
Print Assumptions C57_undo_push.
(* The second of two insertions of a key takes over from the first, with the separator of the
   first if the entry is new. *)
Theorem C57_last_insert : forall hash doc id e1 e2 key r1 d1 r2 d2 s2 d3, built hash doc -> value_of doc id -> as_mapping (doc_data doc) id = Ok (Some id) ->
  on_key e1 = Some key -> on_key e2 = Some key -> separator_of e1 = separator_of e2 \/ map_get (doc_data doc) id key <> Ok None ->
  run hash id e1 (doc_data doc) = Ok (r1, d1) -> run hash id e2 d1 = Ok (r2, d2) -> run hash id e2 (doc_data doc) = Ok (s2, d3) ->
  alike hash (edited doc d2) (edited doc d3) /\
  (no_collision hash d2 -> no_collision hash d3 -> r1 = r2 /\ same_output (edited doc d2) (edited doc d3) /\ same_answer (edited doc d2) r2 (edited doc d3) s2).
Proof.
  intros hash doc id e1 e2 key r1 d1 r2 d2 s2 d3 B V IM OK1 OK2 SP R1 R2 R3. destruct (built_models _ _ _ _ B) as (t & suf & M). destruct (value_ctx _ _ _ _ _ M V) as (c & v & -> & <-).
  destruct (two_calls _ _ _ _ _ _ _ _ _ _ _ M R1 R2) as (a & a2 & _ & M2 & GR & F). destruct (edit_step _ _ _ _ _ _ _ _ M R3) as (a3 & _ & M3 & G3 & F3).
  assert (H : no_collision hash d2 -> no_collision hash d3 -> r1 = r2 /\ shape a2 = shape a3 /\ same_result r2 a2 s2 a3).
  { intros N2 N3. destruct (F N2) as [F1 F2]. specialize (F3 N3). pose proof (models_int _ _ _ _ M (grows_nc hash _ _ GR N2)) as FI. destruct M as (MA & _). destruct (is_mapping _ _ _ _ _ MA (sub_plug c v) IM) as (i & p & n & k & items & ->).
    assert (SP' : separator_of e1 = separator_of e2 \/ ~ Forall (other_key key) items).
    { destruct SP as [SP|SP]; [left; exact SP|right]. intros FA. apply SP. rewrite (node_get hash _ _ _ MA FI _ _ _ _ _ key (sub_plug c _) : map_get _ (tid (TMap i p n k items)) key = _). f_equal.
      clear - FA. induction FA as [|x l H FA IH]; [reflexivity|]. cbn [map lookup mview]. destruct (beq (rs_id (mkey x)) key) eqn:Q; [|exact IH]. apply beq_eq in Q. now elim H. }
    destruct (insert_effect _ _ _ _ _ _ _ _ _ _ F1 OK1) as (sc1 & h1 & -> & A1 & I1). destruct (insert_effect _ _ _ _ _ _ _ _ _ _ F3 OK2) as (sc3 & h3 & -> & A3 & I3).
    assert (exists items', a = TMap i p n k items') as (items' & EA) by (inversion I1; subst; eauto). subst a.
    destruct (insert_effect _ _ _ _ _ _ _ _ _ _ F2 OK2) as (sc2 & h2 & -> & A2 & I2).
    assert (sc2 = sc3) as -> by (destruct e2; try discriminate OK2; cbn in *; congruence).
    assert (I4 : Handle h1 = Handle h2 /\ inserted key (separator_of e2) sc3 (TMap i p n k items) h2 a2).
    { inversion I1 as [? ? ? ? l ii ip kk w r K FO E1 E2 E3|? ? ? ? ? ii vi FO E1 E2 E3]; subst.
      - inversion I2 as [? ? ? ? l0 ii0 ip0 kk0 w0 r0 K0 FO0 EI|? ? ? ? ? ii0 vi0 FO0]; subst.
        + match goal with EI : _ ++ _ :: _ = _ ++ _ :: _ |- _ => apply app_split in EI as [(-> & EQ & ->)|[(m & -> & _)|(m & -> & _)]] end.
          * injection EQ as -> -> -> ->. cbn [tid tpre]. split; [reflexivity|]. now constructor.
          * exfalso. rewrite Forall_forall in FO. exact (FO _ (in_elt _ _ _) ltac:(assumption || reflexivity)).
          * exfalso. rewrite Forall_forall in FO0. exact (FO0 _ (in_elt _ _ _) eq_refl).
        + exfalso. rewrite Forall_forall in FO0. exact (FO0 _ (in_elt _ _ _) eq_refl).
      - destruct SP' as [SP'|SP']; [|now elim SP']. inversion I2 as [? ? ? ? l0 ii0 ip0 kk0 w0 r0 K0 FO0 EI|? ? ? ? ? ii0 vi0 FO0]; subst.
        + match goal with EI : _ ++ _ :: _ = _ ++ _ :: _ |- _ => apply app_split in EI as [(-> & EQ & ->)|[(m & -> & _)|(m & _ & EQ)]] end.
          * injection EQ as -> -> -> ->. cbn [tid tpre]. split; [reflexivity|]. rewrite SP'. now constructor.
          * exfalso. rewrite Forall_forall in FO. exact (FO _ (in_elt _ _ _) ltac:(assumption || reflexivity)).
          * destruct m; discriminate EQ.
        + exfalso. rewrite Forall_forall in FO0. exact (FO0 _ (in_elt _ _ _) eq_refl). }
    destruct I4 as [EH I4]. split; [exact EH|]. destruct (inserted_same _ _ _ _ _ _ _ _ _ I4 I3 eq_refl) as [S1 S2]. split; [exact S1|exact S2]. }
  split; [|intros N2 N3; destruct (H N2 N3) as (-> & SH & Q); split; [reflexivity|]; split].
  - eapply alike_trees; [exact M2|exact M3|]. cbn [edited doc_data]. intros N2 N3. exists (plug c a2), (plug c a3), suf. split; [exact M2|]. split; [exact M3|]. apply plug_shape. now destruct (H N2 N3) as (_ & SH & _).
  - eapply shape_output; [exact M2|exact M3|now apply plug_shape|exact N2|exact N3].
  - unfold same_result in Q. destruct r2 as [|h| |], s2 as [|h'| |]; try exact Q. destruct Q as (c1 & w & c1' & w' & -> & <- & -> & <- & CP).
    rewrite <- plug_comp in M2, M3. exists (cpath (ccomp c c1)). split; [eapply ctx_place; [exact M2|exact N2]|].
    replace (cpath (ccomp c c1)) with (cpath (ccomp c c1')) by (rewrite !cpath_comp; congruence). eapply ctx_place; [exact M3|exact N3].
Qed.
Print Assumptions C57_last_insert.

(* ---- making a collection again ---- *)
Theorem C57_make_again : forall hash doc id e r d1, built hash doc -> value_of doc id -> is_make e = true ->
  run hash id e (doc_data doc) = Ok (r, d1) -> no_collision hash d1 -> r = Handle id /\ run hash id e d1 = Ok (Handle id, d1).
Proof.
  intros hash doc id e r d1 B V Q R N. destruct (built_models _ _ _ _ B) as (t & suf & M). destruct (value_ctx _ _ _ _ _ M V) as (c & v & -> & <-).
  destruct (edit_step _ _ _ _ _ _ _ _ M R) as (a & T & M1 & _ & F). specialize (F N). destruct M1 as (M1 & _). pose proof (sub_raw hash _ _ _ M1 _ (sub_plug c a)) as RW. rewrite T in RW. cbn [edited doc_data] in RW.
  inversion F as [e0 sc C1 C2 C3|C1|n0 p0 C1 C2|C1|n0 p0 C1 C2|e0 sc key0 s h w C1 C2 C3|key0 x w C1|i0 p0 n0 k0 items0 C1|e0 sc s h w C1 C2 C3|j0 x w C1|i0 p0 n0 k0 items0 C1|e0 C1 C2|e0 C1 C2]; subst; try discriminate Q.
  - destruct e; discriminate.
  - split; [reflexivity|]. cbn [run handle]. unfold handle, make_mapping, bind, read. rewrite RW. destruct a; try discriminate C1. reflexivity.
  - split; [reflexivity|]. cbn [run handle]. unfold handle, make_mapping, bind, read. rewrite RW. reflexivity.
  - split; [reflexivity|]. cbn [run handle]. unfold handle, make_sequence, bind, read. rewrite RW. destruct a; try discriminate C1. reflexivity.
  - split; [reflexivity|]. cbn [run handle]. unfold handle, make_sequence, bind, read. rewrite RW. reflexivity.
  - destruct e; discriminate.
  - destruct e; discriminate.
  - exfalso. destruct C2 as [C2|[C2|[? C2]]]; destruct e; cbn in *; congruence.
  - exfalso. destruct C2 as [C2|[C2|[? C2]]]; destruct e; cbn in *; congruence.
Qed.
Print Assumptions C57_make_again.


(* ---- non-vacuity ---- *)
Definition c57_doc : outcome document := load (b "a: 1
b: [2, 3]
c:
  d: x
").
(* Each way the exceptions are needed: after make_mapping the scalar stays on the new line, a block
   is indented by the collection that it replaces, the separator of a new entry is the first one. *)
Example c57_needed :
  write (edit_path [K (b "a")] (SetString (b "y")) (edit_path [K (b "a")] MakeMapping c57_doc)) = Ok (b "a:
  y
b: [2, 3]
c:
  d: x
") /\
  write (edit_path [K (b "a")] (SetString (b "y")) c57_doc) = Ok (b "a: y
b: [2, 3]
c:
  d: x
") /\
  write (edit_path [K (b "b")] (SetBlock [b "p"] (Literal Clip)) (edit_path [K (b "b")] (SetNull NuTilde) c57_doc)) = Ok (b "a: 1
b: |
   p
c:
  d: x
") /\
  write (edit_path [K (b "b")] (SetBlock [b "p"] (Literal Clip)) c57_doc) = Ok (b "a: 1
b: |
  p
c:
  d: x
") /\
  write (edit_path [] (Insert (b "e") (Custom (b "   "))) (edit_path [] (InsertStr (b "e") (b "z")) c57_doc)) <>
  write (edit_path [] (Insert (b "e") (Custom (b "   "))) c57_doc).
Proof. vm_compute. repeat split. discriminate. Qed.
Example c57_swapped :
  write (edit_path [K (b "b")] (PushBool true) (edit_path [K (b "c")] (InsertStr (b "e") (b "z")) c57_doc)) = Ok (b "a: 1
b: [2, 3,
true]
c:
  d: x
  e: z
") /\
  write (edit_path [K (b "c")] (InsertStr (b "e") (b "z")) (edit_path [K (b "b")] (PushBool true) c57_doc)) =
  write (edit_path [K (b "b")] (PushBool true) (edit_path [K (b "c")] (InsertStr (b "e") (b "z")) c57_doc)).
Proof. vm_compute. split; reflexivity. Qed.
(* The slots differ: the handle of the new entry is another number. *)
Example c57_slots :
  at_path (edit_path [K (b "b")] (PushBool true) (edit_path [K (b "c")] (InsertStr (b "e") (b "z")) c57_doc)) [] (fun d id => Ok (walk d id [K (b "c"); K (b "e")])) <>
  at_path (edit_path [K (b "c")] (InsertStr (b "e") (b "z")) (edit_path [K (b "b")] (PushBool true) c57_doc)) [] (fun d id => Ok (walk d id [K (b "c"); K (b "e")])).
Proof. vm_compute. discriminate. Qed.
Example c57_undone :
  write (edit_path [K (b "c")] (RemoveKey (b "e")) (edit_path [K (b "c")] (InsertStr (b "e") (b "z")) c57_doc)) = write c57_doc /\
  write (edit_path [K (b "b")] (RemoveIndex 2) (edit_path [K (b "b")] (PushBool true) c57_doc)) = write c57_doc /\
  write (edit_path [K (b "c")] ClearMapping (edit_path [K (b "c"); K (b "d")] (SetBool true) c57_doc)) = write (edit_path [K (b "c")] ClearMapping c57_doc) /\
  write (edit_path [K (b "c")] (SetBool true) (edit_path [K (b "c"); K (b "d")] MakeSequence c57_doc)) = write (edit_path [K (b "c")] (SetBool true) c57_doc).
Proof. vm_compute. repeat split. Qed.
