(* Documents built from nothing with the editing calls: C31. *)
From Coq Require Import String.
From Coq Require Import List NArith ZArith Bool Arith Lia.
From Verif Require Import Bytes Utf8 Data Parser Render Tree Abs Refine Utf8Props Scan Num Api Ctx Edit Built Reads ReadsSound
  Shown Plain Grammar Laid GrammarSound Tests Refuted PropsParse PropsEdit PropsColl PropsValue PropsScalar PropsScalar2 PropsText.
From Verif Require Import Swap Repost Grow Open Tidy Session Back Check LaidText PropsBack PropsMake RefutedBack.
Import ListNotations.
Local Open Scope N_scope.
Local Notation text := Utf8Props.text.

(* ---- calls only add strings ---- *)
Definition adds {A} (m : D A) : Prop := forall d a d', m d = Ok (a, d') -> grows d d'.
Lemma adds_ret {A} (a : A) : adds (ret a).
Proof. intros d x d' E. injection E as <- <-. apply grows_refl. Qed.
Lemma adds_bind {A C} (m : D A) (f : A -> D C) : adds m -> (forall a, adds (f a)) -> adds (bind m f).
Proof.
  intros M F d x d' E. unfold bind in E. destruct (m d) as [[a d1]|? ? ?| | |] eqn:E1; try discriminate.
  eapply grows_trans; [eapply M; exact E1|eapply F; exact E].
Qed.
Lemma adds_read {A} (f : data -> outcome A) : adds (read f).
Proof. intros d x d' E. unfold read in E. destruct (f d); try discriminate. injection E as <- <-. apply grows_refl. Qed.
Lemma adds_panic {A} : adds (panic (A := A)).
Proof. intros d x d' E. discriminate. Qed.
Lemma adds_intern hash s : adds (insert_str hash s).
Proof.
  intros d x d' E. unfold insert_str in E. unfold grows. destruct (assoc (hash s) (d_strings d)) as [y|]; [destruct (beq s y)|]; injection E as <- <-; cbn.
  - apply incl_refl.
  - apply incl_appl, incl_refl.
  - apply incl_tl, incl_refl.
Qed.
Lemma adds_set_raw id r : adds (set_raw id r).
Proof. intros d x d' E. unfold set_raw in E. destruct (slab_get _ _); [|discriminate]. injection E as <- <-. apply incl_refl. Qed.
Lemma adds_insert r p q : adds (Data.insert r p q).
Proof. intros d x d' E. unfold Data.insert in E. destruct (slab_insert _ _) as [[k s]|]; [|discriminate]. injection E as <- <-. apply incl_refl. Qed.
Lemma adds_kind f : forall r, adds (drop_kind_f f r).
Proof.
  induction f as [|f IH]; intros r; [intros d x d' E; discriminate|]. cbn [drop_kind_f].
  assert (DA : forall l, adds (drop_all (drop_kind_f f) l)).
  { induction l as [|i l IHl]; cbn [drop_all]; [apply adds_ret|]. apply adds_bind; [|intros; exact IHl]. intros d x d' E. unfold drop_id in E.
    destruct (slab_try_remove _ _) as [[e s]|]; [apply IH in E; exact E|injection E as <- <-; apply grows_refl]. }
  assert (DV : forall i, adds (drop_value (drop_kind_f f) i)).
  { intros i d x d' E. unfold drop_value in E. destruct (slab_try_remove _ _) as [[e s]|]; [apply IH in E; exact E|discriminate]. }
  destruct r; auto using (@adds_ret unit).
Qed.
Lemma adds_drop id : adds (drop id).
Proof.
  intros d x d' E. unfold drop, drop_id in E. destruct (slab_try_remove _ _) as [[e s]|]; [apply adds_kind in E; exact E|injection E as <- <-; apply grows_refl].
Qed.
Lemma adds_replace id r : adds (replace id r).
Proof. intros d x d' E. unfold replace in E. destruct (slab_get _ _); [|injection E as <- <-; apply grows_refl]. unfold drop_kind in E. apply adds_kind in E. exact E. Qed.
Lemma adds_replace_with id p r : adds (replace_with id p r).
Proof. intros d x d' E. unfold replace_with in E. destruct (slab_get _ _); [|injection E as <- <-; apply grows_refl]. unfold drop_kind in E. apply adds_kind in E. exact E. Qed.
Lemma adds_drop_items l : adds (drop_items l).
Proof. induction l; cbn [drop_items]; [apply adds_ret|]. apply adds_bind; [apply adds_drop|auto]. Qed.
Ltac adds := repeat match goal with
  | |- adds (bind _ _) => apply adds_bind; [|intros ?]
  | |- adds (ret _) => apply adds_ret
  | |- adds panic => apply adds_panic
  | |- adds (read _) => apply adds_read
  | |- adds (insert_str _ _) => apply adds_intern
  | |- adds (set_raw _ _) => apply adds_set_raw
  | |- adds (Data.insert _ _ _) => apply adds_insert
  | |- adds (replace_with _ _ _) => apply adds_replace_with
  | |- adds (replace _ _) => apply adds_replace
  | |- adds (drop_items _) => apply adds_drop_items
  | |- adds (drop _) => apply adds_drop
  | |- adds (match ?x with _ => _ end) => destruct x
  | _ => progress cbv zeta
  end.
Section Run.
Variable hash : bytes -> sid.
Lemma adds_bool v : adds (new_bool hash v). Proof. unfold new_bool. adds. Qed.
Lemma adds_string s : adds (new_string hash s). Proof. unfold new_string. adds. Qed.
Lemma adds_string_with s k : adds (new_string_with hash s k). Proof. unfold new_string_with. adds. Qed.
Lemma adds_number t h : adds (new_number hash t h). Proof. unfold new_number. adds. Qed.
Lemma adds_block id ps k : adds (new_block hash id ps k). Proof. unfold new_block. adds. Qed.
Lemma adds_indent id x : adds (make_indent hash id x). Proof. unfold make_indent. adds. Qed.
Lemma adds_inner_insert id k s v : adds (inner_insert hash id k s v). Proof. unfold inner_insert, map_push. adds. Qed.
Lemma adds_inner_push id s v : adds (inner_push hash id s v). Proof. unfold inner_push, seq_push. adds. Qed.
Lemma run_adds id e : adds (run hash id e).
Proof.
  destruct e; cbn [run]; unfold Api.done, Api.handle, Api.removed, on_mapping, on_sequence, set_null, set_string, set_string_with, set_block, set_bool, set_int, set_number,
    make_mapping, make_sequence, map_insert, map_insert_str, map_insert_block, map_insert_bool, map_insert_number, map_remove, map_clear,
    seq_push_null, seq_push_string, seq_push_block, seq_push_bool, seq_push_number, seq_remove, seq_clear;
  adds; auto using adds_bool, adds_string, adds_string_with, adds_number, adds_block, adds_indent, adds_inner_insert, adds_inner_push.
Qed.
End Run.

(* ---- plans ---- *)
(* What is to be built at a value: a scalar, set by a call, or a collection. *)
Inductive plan := Put (e : edit) | Entries (l : list (bytes * plan)) | Items (l : list plan).
Definition on_handle (r : edit_result) (k : nat -> D unit) : D unit := match r with Handle h => k h | _ => panic end.
(* The calls that build it: make_mapping, then insert for each key and the calls for its value;
   make_sequence, then push for each item and the calls for the item. *)
Section Calls.
Variable hash : bytes -> sid.
Variable f : plan -> nat -> D unit.
Fixpoint entries_calls (id : nat) (l : list (bytes * plan)) : D unit :=
  match l with
  | [] => ret tt
  | (k, p) :: l => r <- run hash id (Insert k Auto) ;; on_handle r (f p) ;;; entries_calls id l
  end.
Fixpoint items_calls (id : nat) (l : list plan) : D unit :=
  match l with
  | [] => ret tt
  | p :: l => r <- run hash id (Push Auto) ;; on_handle r (f p) ;;; items_calls id l
  end.
End Calls.
Fixpoint follow (hash : bytes -> sid) (p : plan) (id : nat) {struct p} : D unit :=
  match p with
  | Put e => run hash id e ;;; ret tt
  | Entries l => run hash id MakeMapping ;;; entries_calls hash (follow hash) id l
  | Items l => run hash id MakeSequence ;;; items_calls hash (follow hash) id l
  end.
Definition is_put (p : plan) : Prop := match p with Put _ => True | _ => False end.
(* The data of a plan. Scalars are set by calls whose text reads back, collections are not empty,
   and only in the outermost list is the first item a collection. *)
Inductive plans : bool -> plan -> datum -> Prop :=
| pl_put top e d : is_set e -> scalar_call e d -> plans top (Put e) d
| pl_map top l m : l <> [] -> NoDup (map fst l) -> plans_pairs l m -> plans top (Entries l) (DMap m)
| pl_seq top p l m : (top = true \/ is_put p) -> plans_all (p :: l) m -> plans top (Items (p :: l)) (DSeq m)
with plans_pairs : list (bytes * plan) -> list (bytes * datum) -> Prop :=
| pp_nil : plans_pairs [] []
| pp_cons k p d l m : plain_key k -> plans false p d -> plans_pairs l m -> plans_pairs ((k, p) :: l) ((k, d) :: m)
with plans_all : list plan -> list datum -> Prop :=
| pa_nil : plans_all [] []
| pa_cons p d l m : plans false p d -> plans_all l m -> plans_all (p :: l) (d :: m).
Scheme plans_mut := Induction for plans Sort Prop
  with plans_pairs_mut := Induction for plans_pairs Sort Prop
  with plans_all_mut := Induction for plans_all Sort Prop.
Combined Scheme plans_ind3 from plans_mut, plans_pairs_mut, plans_all_mut.
Section plan_ind.
  Variable P : plan -> Prop.
  Hypothesis HS : forall e, P (Put e).
  Hypothesis HM : forall l, Forall (fun '(_, v) => P v) l -> P (Entries l).
  Hypothesis HQ : forall l, Forall P l -> P (Items l).
  Fixpoint plan_each (t : plan) : P t :=
    match t with
    | Put x => HS x
    | Entries l => HM l ((fix go (l : list (bytes * plan)) : Forall (fun '(_, v) => P v) l :=
        match l with [] => Forall_nil _ | (k, v) :: r => Forall_cons (k, v) (plan_each v) (go r) end) l)
    | Items l => HQ l ((fix go (l : list plan) : Forall P l :=
        match l with [] => Forall_nil _ | v :: r => Forall_cons v (plan_each v) (go r) end) l)
    end.
End plan_ind.
Lemma adds_handle r k : (forall h, adds (k h)) -> adds (on_handle r k).
Proof. intros K. destruct r; cbn [on_handle]; auto using (@adds_panic unit). Qed.
Lemma follow_adds hash p : forall id, adds (follow hash p id).
Proof.
  induction p as [e|l F|l F] using plan_each; intros id; cbn [follow].
  - apply adds_bind; [apply run_adds|intros; apply adds_ret].
  - apply adds_bind; [apply run_adds|intros _]. induction F as [|[k v] l V F IH]; cbn [entries_calls]; [apply adds_ret|].
    apply adds_bind; [apply run_adds|intros r]. apply adds_bind; [now apply adds_handle|intros _; exact IH].
  - apply adds_bind; [apply run_adds|intros _]. induction F as [|v l V F IH]; cbn [items_calls]; [apply adds_ret|].
    apply adds_bind; [apply run_adds|intros r]. apply adds_bind; [now apply adds_handle|intros _; exact IH].
Qed.
Lemma entries_adds hash id l : adds (entries_calls hash (follow hash) id l).
Proof.
  induction l as [|[k v] l IH]; cbn [entries_calls]; [apply adds_ret|].
  apply adds_bind; [apply run_adds|intros r]. apply adds_bind; [apply adds_handle, follow_adds|intros _; exact IH].
Qed.
Lemma items_adds hash id l : adds (items_calls hash (follow hash) id l).
Proof.
  induction l as [|v l IH]; cbn [items_calls]; [apply adds_ret|].
  apply adds_bind; [apply run_adds|intros r]. apply adds_bind; [apply adds_handle, follow_adds|intros _; exact IH].
Qed.
Lemma bind_ok {S A C} (m : ST S A) (f : A -> ST S C) s x s' : bind m f s = Ok (x, s') -> exists a s1, m s = Ok (a, s1) /\ f a s1 = Ok (x, s').
Proof. unfold bind. destruct (m s) as [[a s1]|? ? ?| | |]; try discriminate. eauto. Qed.

(* ---- the layout of what is built ---- *)
Definition spaced (p : bytes) : Prop := exists m, after_last_nl p = repeat SPACE m.
Lemma spaces_chars m : chars (repeat SPACE m) = repeat [SPACE] m.
Proof. rewrite blank_chars; [now induction m as [|m IH]; cbn; [|rewrite IH]|]. apply Forall_forall. intros c I. apply repeat_spec in I. subst. cbn. auto 10. Qed.
Lemma concat_spaces m : concat (repeat [SPACE] m) = repeat SPACE m.
Proof. induction m as [|m IH]; cbn; [reflexivity|now rewrite IH]. Qed.
Lemma firstn_repeat {A} (x : A) n m : (n <= m)%nat -> firstn n (repeat x m) = repeat x n.
Proof. revert m. induction n as [|n IH]; intros [|m] L; cbn; try reflexivity; try lia. now rewrite IH by lia. Qed.
Lemma under_line p n : spaced p -> under p n = ((n + 2)%nat, line (n + 2)).
Proof.
  intros [m E]. unfold under. unfold bytes, byte in *. rewrite E, spaces_chars, <- repeat_app, firstn_repeat by lia. rewrite concat_spaces. reflexivity.
Qed.
Lemma after_line n : after_last_nl (line n) = repeat SPACE n.
Proof.
  assert (H : forall m, existsb (N.eqb NEWLINE) (repeat SPACE m) = false) by (induction m; cbn; auto).
  unfold line. cbn [app after_last_nl]. now rewrite H, N.eqb_refl.
Qed.
Lemma line_spaced n : spaced (line n).
Proof. exists n. apply after_line. Qed.
Lemma count_line n : count_indent (line n) = n.
Proof. unfold count_indent. now rewrite after_line, spaces_chars, repeat_length. Qed.
Lemma nl_line n : nl_indent (n + 1) = line n.
Proof. unfold nl_indent. replace (n + 1)%nat with (S n) by lia. cbn [firstn]. replace (S n - 1)%nat with n by lia. now rewrite firstn_repeat by lia. Qed.
Lemma amake_comp c c2 dflt : amake_in (ccomp c c2) dflt = amake_in c2 (amake_in c dflt).
Proof. revert dflt. induction c as [|i p n k l ii ip key c IH r|i p n k l ii ip c IH r]; intros dflt; cbn [ccomp amake_in]; [reflexivity|apply IH|]. destruct k; apply IH. Qed.
Lemma join_snoc s l x : join s (l ++ [x]) = join s l ++ (match l with [] => [] | _ => s end) ++ x.
Proof.
  induction l as [|a l IH]; cbn [app join]; [now rewrite app_nil_r|]. rewrite IH. destruct l; cbn [app]; rewrite <- ?app_assoc; cbn [app]; rewrite ?app_nil_r; reflexivity.
Qed.
Lemma sep_snoc l x : sep [] (l ++ [x]) = sep [] l ++ x.
Proof. rewrite sep_split. cbn [sepr]. rewrite app_nil_r. f_equal. induction l as [|a l IH]; [reflexivity|]. unfold sepl in *. cbn [flat_map sep]. rewrite IH, app_nil_r. now destruct l. Qed.
Lemma pairs_snoc l m k t d : pairs_data l m -> plain_key k -> tree_datum t d -> pairs_data (l ++ [(k, t)]) (m ++ [(k, d)]).
Proof.
  intros P K T. revert m P. induction l as [|[k0 v0] l IH]; intros m P; inversion P; subst; cbn [app]; constructor; auto; constructor.
Qed.
Lemma all_snoc l m t d : all_data l m -> tree_datum t d -> all_data (l ++ [t]) (m ++ [d]).
Proof.
  intros P T. revert m P. induction l as [|v0 l IH]; intros m P; inversion P; subst; cbn [app]; constructor; auto; constructor.
Qed.
Lemma pairs_nil l : pairs_data l [] -> l = []. Proof. now inversion 1. Qed.
Lemma all_nil l : all_data l [] -> l = []. Proof. now inversion 1. Qed.
Lemma written_line x d : written x d -> line_value x d.
Proof. intros [[P D]|(s & Q & ->)]; [now apply lv_plain|now apply lv_quoted]. Qed.

Section Build.
Variable hash : bytes -> sid.
Local Notation models := (models hash).
Local Notation no_collision := (no_collision hash).

Lemma insert_new doc c i p n items k suf r d' : models doc (plug c (TMap i p n CBlock items)) suf -> run hash i (Insert k Auto) (doc_data doc) = Ok (r, d') ->
  no_collision d' -> ~ In k (map (fun it => rs_id (mkey it)) items) ->
  exists ii h, r = Handle h /\ models (edited doc d') (plug c (TMap i p n CBlock (items ++ [(ii, item_gap n items, RS KBare k k, TLeaf h [SPACE] (ScNull NEmpty))]))) suf.
Proof.
  intros M E N NI. destruct (edit_step hash _ _ _ _ _ _ _ M E) as (v' & _ & M' & _ & EF). specialize (EF N).
  destruct (insert_effect _ _ (Insert k Auto) _ _ k eq_refl EF eq_refl) as (sc & s & h & A & K & -> & F). cbn in A, K. injection A as <-. injection K as <-.
  inversion F as [? ? ? ? l ii ip kk v r0 EK FL|? ? ? ? ? ii ? FL]; subst.
  - exfalso. apply NI. rewrite map_app. apply in_or_app. right. now left.
  - exists ii, h. split; [reflexivity|exact M'].
Qed.
Lemma push_new doc c i p n items suf r d' : models doc (plug c (TSeq i p n CBlock items)) suf -> run hash i (Push Auto) (doc_data doc) = Ok (r, d') ->
  no_collision d' -> Forall (fun it : sitem nat => tpre (snd it) = [SPACE]) items ->
  exists ii h, r = Handle h /\ models (edited doc d') (plug c (TSeq i p n CBlock (items ++ [(ii, item_gap n items, TLeaf h [SPACE] (ScNull NEmpty))]))) suf.
Proof.
  intros M E N FA. destruct (edit_step hash _ _ _ _ _ _ _ M E) as (v' & _ & M' & _ & EF). specialize (EF N).
  destruct (push_effect _ _ (Push Auto) _ _ eq_refl EF eq_refl) as (sc & s & h & A & K & -> & F). cbn in A, K. injection A as <-. injection K as <-.
  inversion F as [? ? ? ? ? ii ?]; subst. exists ii, h. split; [reflexivity|].
  assert (X : match rev items with [] => [SPACE] | (_, _, v) :: _ => tpre v end = [SPACE]).
  { destruct (rev items) as [|[[a c0] w] q] eqn:R; [reflexivity|]. rewrite Forall_forall in FA. apply (FA (a, c0, w)). apply in_rev. unfold sitem in *. rewrite R. now left. }
  unfold sitem, bytes, byte in *. rewrite X in M'. exact M'.
Qed.
Lemma make_new_map doc c i p sc suf r d' : models doc (plug c (TLeaf i p sc)) suf -> run hash i MakeMapping (doc_data doc) = Ok (r, d') -> no_collision d' ->
  exists n q, amake c (TLeaf i p sc) = (n, q) /\ models (edited doc d') (plug c (TMap i q n CBlock [])) suf.
Proof.
  intros M E N. destruct (edit_step hash _ _ _ _ _ _ _ M E) as (v' & _ & M' & _ & EF). specialize (EF N).
  remember MakeMapping as ee eqn:EE. remember (TLeaf i p sc) as v eqn:EV. destruct EF; subst; try discriminate; eauto.
  - destruct H0 as [X|[X|[? X]]]; [now elim X|discriminate X..].
  - destruct H0 as [X|[X|[? X]]]; [now elim X|discriminate X..].
Qed.
Lemma make_new_seq doc c i p sc suf r d' : models doc (plug c (TLeaf i p sc)) suf -> run hash i MakeSequence (doc_data doc) = Ok (r, d') -> no_collision d' ->
  exists n q, amake c (TLeaf i p sc) = (n, q) /\ models (edited doc d') (plug c (TSeq i q n CBlock [])) suf.
Proof.
  intros M E N. destruct (edit_step hash _ _ _ _ _ _ _ M E) as (v' & _ & M' & _ & EF). specialize (EF N).
  remember MakeSequence as ee eqn:EE. remember (TLeaf i p sc) as v eqn:EV. destruct EF; subst; try discriminate; eauto.
  - destruct H0 as [X|[X|[? X]]]; [now elim X|discriminate X..].
  - destruct H0 as [X|[X|[? X]]]; [now elim X|discriminate X..].
Qed.
(* The tree has the shape of the plan. *)
Definition shaped (pl : plan) (t : ytree) : Prop :=
  match pl, t with Put _, YScalar x => doc_start x | Entries _, YMap _ | Items _, YSeq _ => True | _, _ => False end.
Definition builds (top : bool) (pl : plan) (D : datum) : Prop := forall doc c i p sc suf n q d',
  models doc (plug c (TLeaf i p sc)) suf -> amake c (TLeaf i p sc) = (n, q) -> spaced q -> (top = true -> n = O) ->
  follow hash pl i (doc_data doc) = Ok (tt, d') -> no_collision d' ->
  exists t v, models (edited doc d') (plug c v) suf /\ tree_datum t D /\ wtree v = layout_of n t /\
    tpre v = (match t with YScalar _ => p | _ => q end) /\ shaped pl t.
Definition builds_pairs (l : list (bytes * plan)) (m : list (bytes * datum)) : Prop := forall doc c i p n items l0 m0 suf d',
  models doc (plug c (TMap i p n CBlock items)) suf -> spaced p -> pairs_data l0 m0 -> wtree (TMap i p n CBlock items) = map_text_of n l0 ->
  map (fun it => rs_id (mkey it)) items = map fst l0 -> NoDup (map fst l0 ++ map fst l) ->
  entries_calls hash (follow hash) i l (doc_data doc) = Ok (tt, d') -> no_collision d' ->
  exists items' l1, models (edited doc d') (plug c (TMap i p n CBlock items')) suf /\ pairs_data l1 (m0 ++ m) /\ wtree (TMap i p n CBlock items') = map_text_of n l1.
Definition builds_all (l : list plan) (m : list datum) : Prop := forall doc c i p n items l0 m0 suf d',
  models doc (plug c (TSeq i p n CBlock items)) suf -> all_data l0 m0 -> wtree (TSeq i p n CBlock items) = seq_text_of n l0 ->
  (items = [] <-> l0 = []) -> Forall (fun it : sitem nat => tpre (snd it) = [SPACE]) items ->
  (items <> [] \/ n = O \/ match l with [] => True | p :: _ => is_put p end) ->
  items_calls hash (follow hash) i l (doc_data doc) = Ok (tt, d') -> no_collision d' ->
  exists items' l1, models (edited doc d') (plug c (TSeq i p n CBlock items')) suf /\ all_data l1 (m0 ++ m) /\ wtree (TSeq i p n CBlock items') = seq_text_of n l1.
Lemma edited_twice doc d1 d2 : edited (edited doc d1) d2 = edited doc d2.
Proof. reflexivity. Qed.
Lemma follow_builds : (forall top pl D, plans top pl D -> builds top pl D) /\ (forall l m, plans_pairs l m -> builds_pairs l m) /\
  (forall l m, plans_all l m -> builds_all l m).
Proof.
  apply plans_ind3; unfold builds, builds_pairs, builds_all.
  - intros top e d S SC doc c i p sc suf n q d' M A SQ T E N. cbn [follow] in E. apply bind_ok in E as (r & d1 & E & R). injection R as <-.
    destruct (edit_step hash _ _ _ _ _ _ _ M E) as (v' & _ & M' & _ & EF). specialize (EF N).
    apply set_effect in EF as (sc' & A' & _ & ->); [|exact S]. destruct (scalar_writes _ _ _ _ SC A') as (_ & W & DS & _).
    exists (YScalar (wscalar sc')). eexists. split; [exact M'|]. split; [constructor; now apply written_line|]. split; [reflexivity|]. split; [reflexivity|exact DS].
  - intros top l m NE ND PP IH doc c i p sc suf n q d' M A SQ T E N. cbn [follow] in E. apply bind_ok in E as (r & d1 & E1 & E2).
    pose proof (grows_nc hash _ _ (entries_adds _ _ _ _ _ _ E2) N) as N1.
    destruct (make_new_map _ _ _ _ _ _ _ _ M E1 N1) as (n' & q' & A' & M1). rewrite A in A'. injection A' as <- <-.
    destruct (IH (edited doc d1) c i q n [] [] [] suf d' M1 SQ pd_nil eq_refl eq_refl ND E2 N) as (items' & l1 & M2 & PD & W).
    assert (NE1 : l1 <> []). { intros ->. inversion PD; subst. inversion PP; subst; [now elim NE|discriminate]. }
    exists (YMap l1). eexists. split; [exact M2|]. split; [constructor; [exact NE1|exact PD]|]. split; [exact W|]. split; [reflexivity|exact Logic.I].
  - intros top p0 l m TP PA IH doc c i p sc suf n q d' M A SQ T E N. cbn [follow] in E. apply bind_ok in E as (r & d1 & E1 & E2).
    pose proof (grows_nc hash _ _ (items_adds _ _ _ _ _ _ E2) N) as N1.
    destruct (make_new_seq _ _ _ _ _ _ _ _ M E1 N1) as (n' & q' & A' & M1). rewrite A in A'. injection A' as <- <-.
    destruct (IH (edited doc d1) c i q n [] [] [] suf d' M1 ad_nil eq_refl (conj (fun _ => eq_refl) (fun _ => eq_refl)) (Forall_nil _) ltac:(tauto) E2 N) as (items' & l1 & M2 & PD & W).
    assert (NE1 : l1 <> []). { intros ->. inversion PD; subst. inversion PA; subst; discriminate. }
    exists (YSeq l1). eexists. split; [exact M2|]. split; [constructor; [exact NE1|exact PD]|]. split; [exact W|]. split; [reflexivity|exact Logic.I].
  - intros doc c i p n items l0 m0 suf d' M SP PD W KS ND E N. injection E as <-. exists items, l0. rewrite app_nil_r. destruct doc. auto.
  - intros k pl d l m PK PL IHp PP IH doc c i p n items l0 m0 suf d' M SP PD W KS ND E N. cbn [entries_calls] in E.
    apply bind_ok in E as (r & d1 & E1 & E). apply bind_ok in E as ([] & d2 & E2 & E3).
    pose proof (grows_nc hash _ _ (entries_adds _ _ _ _ _ _ E3) N) as N2.
    assert (N1 : no_collision d1).
    { eapply grows_nc; [|exact N2]. destruct r; cbn [on_handle] in E2; try discriminate. eapply follow_adds; exact E2. }
    cbn [map fst] in ND. pose proof (NoDup_remove_2 _ _ _ ND) as NK. pose proof (NoDup_remove_1 _ _ _ ND) as ND1.
    destruct (insert_new _ _ _ _ _ _ _ _ _ _ M E1 N1) as (ii & h & -> & M1); [rewrite KS; intros X; apply NK, in_or_app; now left|].
    cbn [on_handle] in E2.
    set (c2 := CMapC i p n CBlock items ii (item_gap n items) (RS KBare k k) CHole []).
    assert (M1' : models (edited doc d1) (plug (ccomp c c2) (TLeaf h [SPACE] (ScNull NEmpty))) suf) by (rewrite plug_comp; exact M1).
    assert (AM : amake (ccomp c c2) (TLeaf h [SPACE] (ScNull NEmpty)) = ((n + 2)%nat, line (n + 2))).
    { unfold amake. rewrite amake_comp. cbn [amake_in c2]. now apply under_line. }
    destruct (IHp _ _ _ _ _ _ _ _ _ M1' AM (line_spaced _) ltac:(discriminate) E2 N2) as (t & v & M2 & TD & WV & TV & _).
    rewrite plug_comp in M2. cbn [plug c2] in M2. rewrite edited_twice in M2.
    set (items1 := items ++ [(ii, item_gap n items, RS KBare k k, v)]) in *.
    assert (IE : items = [] <-> l0 = []). { split; intros ->; [destruct l0; [reflexivity|discriminate]|destruct items; [reflexivity|discriminate]]. }
    assert (GE : item_gap n items = match l0 with [] => [] | _ => line n end).
    { destruct items as [|a items0]; [now rewrite (proj1 IE eq_refl)|]. destruct l0; [discriminate (proj2 IE eq_refl)|]. apply nl_line. }
    assert (W1 : wtree (TMap i p n CBlock items1) = map_text_of n (l0 ++ [(k, t)])).
    { unfold map_text_of in *. rewrite map_app. cbn [map]. rewrite join_snoc. rewrite wtree_map in W |- *. cbn [open_if closing comma_if app] in *. rewrite app_nil_r in *.
      unfold items1. rewrite map_app. cbn [map]. unfold mitem in *. unfold bytes, byte in *. rewrite sep_snoc, W. f_equal. cbn [wmitem wstr rs_kind rs_id]. rewrite GE. f_equal; [now destruct l0|]. f_equal. unfold full.
      rewrite TV, WV. destruct t; reflexivity. }
    destruct (IH (edited doc d2) c i p n items1 (l0 ++ [(k, t)]) (m0 ++ [(k, d)]) suf d') as (items' & l1 & M3 & PD3 & W3); auto.
    + now apply pairs_snoc.
    + unfold items1. rewrite !map_app. unfold mitem in *. unfold bytes, byte in *. now rewrite KS.
    + rewrite map_app, <- app_assoc. exact ND.
    + exists items', l1. rewrite <- app_assoc in PD3. auto.
  - intros doc c i p n items l0 m0 suf d' M PD W IE FA FI E N. injection E as <-. exists items, l0. rewrite app_nil_r. destruct doc. auto.
  - intros pl d l m PL IHp PP IH doc c i p n items l0 m0 suf d' M PD W IE FA FI E N. cbn [items_calls] in E.
    apply bind_ok in E as (r & d1 & E1 & E). apply bind_ok in E as ([] & d2 & E2 & E3).
    pose proof (grows_nc hash _ _ (items_adds _ _ _ _ _ _ E3) N) as N2.
    assert (N1 : no_collision d1).
    { eapply grows_nc; [|exact N2]. destruct r; cbn [on_handle] in E2; try discriminate. eapply follow_adds; exact E2. }
    destruct (push_new _ _ _ _ _ _ _ _ _ M E1 N1 FA) as (ii & h & -> & M1).
    cbn [on_handle] in E2.
    set (c2 := CSeqC i p n CBlock items ii (item_gap n items) CHole []).
    assert (M1' : models (edited doc d1) (plug (ccomp c c2) (TLeaf h [SPACE] (ScNull NEmpty))) suf) by (rewrite plug_comp; exact M1).
    assert (AM : amake (ccomp c c2) (TLeaf h [SPACE] (ScNull NEmpty)) = ((count_indent (item_gap n items) + 2)%nat, [SPACE])).
    { unfold amake. rewrite amake_comp. reflexivity. }
    assert (SS : spaced [SPACE]) by (exists 1%nat; reflexivity).
    destruct (IHp _ _ _ _ _ _ _ _ _ M1' AM SS ltac:(discriminate) E2 N2) as (t & v & M2 & TD & WV & TV & PU).
    rewrite plug_comp in M2. cbn [plug c2] in M2. rewrite edited_twice in M2.
    set (items1 := items ++ [(ii, item_gap n items, v)]) in *.
    assert (GE : item_gap n items = match l0 with [] => [] | _ => line n end).
    { destruct items as [|a items0]; [now rewrite (proj1 IE eq_refl)|]. destruct l0; [discriminate (proj2 IE eq_refl)|]. apply nl_line. }
    assert (WV1 : wtree v = layout_of (n + 2) t).
    { rewrite WV. destruct FI as [NI|[-> |IP]].
      - rewrite GE. destruct l0; [elim NI; tauto|]. now rewrite count_line.
      - rewrite GE. destruct l0; [reflexivity|]. now rewrite count_line.
      - destruct pl; try contradiction IP. now destruct t. }
    assert (TV1 : tpre v = [SPACE]) by (rewrite TV; now destruct t).
    assert (LG : lossy (item_gap n items) = item_gap n items).
    { rewrite GE. destruct l0; [reflexivity|]. apply lossy_utf8, repeat_utf8. }
    assert (W1 : wtree (TSeq i p n CBlock items1) = seq_text_of n (l0 ++ [t])).
    { unfold seq_text_of in *. rewrite map_app. cbn [map]. rewrite join_snoc. rewrite wtree_seq in W |- *. cbn [open_if closing comma_if app] in *. rewrite app_nil_r in *.
      unfold items1. rewrite map_app. cbn [map]. unfold sitem in *. unfold bytes, byte in *. rewrite sep_snoc, W. f_equal. cbn [wsitem dash_if]. rewrite LG, GE. f_equal; [now destruct l0|]. f_equal. unfold full.
      rewrite TV1, WV1. reflexivity. }
    destruct (IH (edited doc d2) c i p n items1 (l0 ++ [t]) (m0 ++ [d]) suf d') as (items' & l1 & M3 & PD3 & W3); auto.
    + now apply all_snoc.
    + unfold items1. split; intros X; [now destruct items|now destruct l0].
    + unfold items1. apply Forall_app. split; [exact FA|]. constructor; [exact TV1|constructor].
    + left. unfold items1. now destruct items.
    + exists items', l1. rewrite <- app_assoc in PD3. auto.
Qed.
End Build.

(* Building in an empty document prints the two-space layout of a tree with the data of the plan,
   and that text reads back as the data. *)
Definition plan_start (p : plan) : Prop := match p with Entries ((k, _) :: _) => doc_start k | _ => True end.
Lemma pairs_keys l m : pairs_data l m -> map fst l = map fst m.
Proof. induction 1 as [|k v d l m _ _ _ IH]; cbn; f_equal. exact IH. Qed.
Lemma plans_keys l m : plans_pairs l m -> map fst l = map fst m.
Proof. induction 1 as [|k v d l m _ _ _ IH]; cbn; f_equal. exact IH. Qed.
Theorem C31_built : forall hash doc pl D d', from_slice hash [] = Ok doc -> plans true pl D -> plan_start pl ->
  follow hash pl (doc_root doc) (doc_data doc) = Ok (tt, d') -> no_collision hash d' ->
  exists t, tree_datum t D /\ write_to (edited doc d') = Ok (layout_of 0 t) /\ reads_as_datum hash (layout_of 0 t) D.
Proof.
  intros hash doc pl D d' E P S F N. destruct (parse_models _ _ _ E) as (t0 & suf & AP & M).
  vm_compute in AP. injection AP as ES <-. destruct t0 as [i p sc| |]; cbn in ES; try discriminate. injection ES as <- <-.
  assert (RI : doc_root doc = i) by (destruct M as (_ & R & _); exact R). rewrite RI in F.
  assert (SP : spaced []) by (exists O; reflexivity).
  destruct (proj1 (follow_builds hash) true pl D P doc CHole i [] _ [] O [] d' M eq_refl SP (fun _ => eq_refl) F N) as (t & v & M' & T & W & PV & SH).
  assert (WR : write_to (edited doc d') = Ok (layout_of 0 t)).
  { rewrite (models_write_to hash (edited doc d') _ _ N M'). unfold wdoc. cbn [plug]. rewrite PV, W, app_nil_r. now destruct t. }
  exists t. split; [exact T|]. split; [exact WR|].
  rewrite <- (app_nil_r (layout_of 0 t)). apply C31_layout; [exact T| |now left|constructor].
  destruct pl as [e|l|l], t as [x|lt|lt]; try contradiction SH.
  - exact SH.
  - inversion P as [|? ? m NE ND PP|]; subst. inversion T as [|? ? NE1 PD|]; subst. pose proof (plans_keys _ _ PP) as K. rewrite <- (pairs_keys _ _ PD) in K.
    destruct l as [|[k p] l]; [congruence|]. destruct lt as [|[k1 t1] lt]; [congruence|]. cbn in K. injection K as <- _.
    cbn [layout_of map join]. rewrite <- !app_assoc. apply doc_start_key. exact S.
  - inversion T as [| |? m NE PD]; subst. destruct lt as [|t1 lt]; [congruence|]. split; intros (r & X); discriminate X.
Qed.
Print Assumptions C31_built.

Definition c31_plan : plan :=
  Entries [(b "a", Put (SetInt Unsigned8 1)); (b "b", Entries [(b "c", Items [Put (SetString (b "x'y"));
    Entries [(b "d", Put (SetBool true)); (b "e", Put (SetStringWith (b "it's") SSingle))]; Items [Put (SetNull NuTilde)]])]); (b "f", Items [Put (SetInt Signed8 (-2))])].
Definition c31_data : datum :=
  DMap [(b "a", DNum (b "1") Unsigned64); (b "b", DMap [(b "c", DSeq [DStr (b "x'y");
    DMap [(b "d", DBool true); (b "e", DStr (b "it's"))]; DSeq [DNull]])]); (b "f", DSeq [DNum (b "-2") Signed64])].
Example C31_built_case : plans true c31_plan c31_data /\ plan_start c31_plan /\
  exists doc d', from_slice idhash [] = Ok doc /\ follow idhash c31_plan (doc_root doc) (doc_data doc) = Ok (tt, d') /\ no_collision idhash d' /\
    write_to (edited doc d') = Ok (b "a: 1
b:
  c:
    - ""x'y""
    - d: true
      e: 'it''s'
    - - ~
f:
  - -2").
Proof.
  split; [|split].
  - assert (SI : forall k z, scalar_call (SetInt k z) (DNum (itoa z) (if (z <? 0)%Z then Signed64 else Unsigned64))) by (intros k z; exact (sc_int (SetInt k z) z (itoa z) eq_refl (itoa_decimal z))).
    assert (ST : scalar_call (SetString (b "x'y")) (DStr (b "x'y"))).
    { apply sc_string; [reflexivity|reflexivity| |discriminate|vm_compute; intuition discriminate]. left. split; [left; vm_compute; auto|]. split; vm_compute; intuition discriminate. }
    unfold c31_plan, c31_data.
    repeat first [apply pl_map | apply pl_seq | apply pl_put | apply pp_cons | apply pp_nil | apply pa_cons | apply pa_nil | apply key_checked; reflexivity |
      exact (SI Unsigned8 1%Z) | exact (SI Signed8 (-2)%Z) | exact ST | apply sc_single | apply sc_null; discriminate | now apply sc_bool |
      exact Logic.I | right; exact Logic.I | discriminate | repeat constructor; cbn; intuition discriminate].
  - split; intros (r & X); discriminate X.
  - do 2 eexists. split; [vm_compute; reflexivity|]. split; [vm_compute; reflexivity|]. split; [apply id_no_collision|vm_compute; reflexivity].
Qed.
(* Outside these conditions the text may not read back: a mapping as the first item of an inner
   list, and a first key that starts like a directive or a document marker. *)
Theorem C31_first_item_refuted : exists pl doc d' out, pl = Entries [(b "a", Items [Entries [(b "k1", Put (SetInt Unsigned8 1)); (b "k2", Put (SetInt Unsigned8 2))]])] /\ from_slice idhash [] = Ok doc /\ follow idhash pl (doc_root doc) (doc_data doc) = Ok (tt, d') /\ write_to (edited doc d') = Ok out /\ forall D, ~ reads_as_datum idhash out D.
Proof.
  do 4 eexists. split; [reflexivity|]. split; [vm_compute; reflexivity|]. split; [vm_compute; reflexivity|]. split; [vm_compute; reflexivity|].
  intros D (doc & E & _). vm_compute in E. discriminate E.
Qed.
Print Assumptions C31_first_item_refuted.
Lemma read_other out doc D D' n : load out = Ok doc -> peek n (doc_data doc) (doc_root doc) = Some D' -> D <> D' -> ~ reads_as_datum idhash out D.
Proof.
  intros L P NE (doc1 & E & G). unfold load in L. rewrite E in L. injection L as <-. destruct (G (id_no_collision _)) as [S _].
  apply peek_shows in P. apply NE. exact (proj1 (shows_det _) _ _ S _ P).
Qed.
Definition c31_start (k : bytes) : plan := Entries [(k, Put (SetInt Unsigned8 1))].
Theorem C31_start_refuted : Forall (fun k => exists doc d' out, plans true (c31_start k) (DMap [(k, DNum (b "1") Unsigned64)]) /\
  from_slice idhash [] = Ok doc /\ follow idhash (c31_start k) (doc_root doc) (doc_data doc) = Ok (tt, d') /\ write_to (edited doc d') = Ok out /\
  ~ reads_as_datum idhash out (DMap [(k, DNum (b "1") Unsigned64)])) [b "%k"; b "---k"].
Proof.
  assert (G : forall k, plain_key k -> plans true (c31_start k) (DMap [(k, DNum (b "1") Unsigned64)])).
  { intros k K. constructor; [discriminate|repeat constructor; cbn; intuition|]. constructor; [exact K| |constructor].
    constructor; [exact Logic.I|]. exact (sc_int (SetInt Unsigned8 1) 1%Z (itoa 1) eq_refl (itoa_decimal 1)). }
  repeat (apply Forall_cons; [|]); [..|apply Forall_nil];
    (do 3 eexists; split; [apply G, key_checked; reflexivity|]; split; [vm_compute; reflexivity|]; split; [vm_compute; reflexivity|]; split; [vm_compute; reflexivity|];
     eapply (read_other _ _ _ _ 20); [vm_compute; reflexivity|vm_compute; reflexivity|discriminate]).
Qed.
Print Assumptions C31_start_refuted.
