(* What the reading API shows of a value, as data: kinds, texts, keys and items in order,
   without the layout. *)
From Coq Require Import List NArith ZArith Bool Arith Lia.
From Verif Require Import Bytes Utf8 Data Parser Render Tree Abs Refine Num Api Ctx Edit Built Reads ReadsSound.
Import ListNotations.

Inductive datum :=
| DNull
| DBool (v : bool)
| DNum (s : bytes) (h : hint)
| DStr (s : bytes)
| DMap (l : list (bytes * datum))
| DSeq (l : list datum).

(* The value with this id is shown as the datum by as_any and the iterators. *)
Inductive shows (d : data) : nat -> datum -> Prop :=
| sh_null id : as_any d id = Ok ANull -> shows d id DNull
| sh_bool id v : as_any d id = Ok (ABool v) -> shows d id (DBool v)
| sh_num id s h : as_any d id = Ok (ANumber s h) -> shows d id (DNum s h)
| sh_str id s : as_any d id = Ok (AString s) -> shows d id (DStr s)
| sh_map id l xs : as_any d id = Ok (AMapping id) -> map_entries d id l -> shows_pairs d l xs -> shows d id (DMap xs)
| sh_seq id l xs : as_any d id = Ok (ASequence id) -> seq_entries d id l -> shows_all d l xs -> shows d id (DSeq xs)
with shows_all (d : data) : list nat -> list datum -> Prop :=
| sa_nil : shows_all d [] []
| sa_cons id x l xs : shows d id x -> shows_all d l xs -> shows_all d (id :: l) (x :: xs)
with shows_pairs (d : data) : list (bytes * nat) -> list (bytes * datum) -> Prop :=
| sp_nil : shows_pairs d [] []
| sp_cons key id x l xs : shows d id x -> shows_pairs d l xs -> shows_pairs d ((key, id) :: l) ((key, x) :: xs).
Scheme shows_mut := Induction for shows Sort Prop
  with shows_all_mut := Induction for shows_all Sort Prop
  with shows_pairs_mut := Induction for shows_pairs Sort Prop.
Combined Scheme shows_ind3 from shows_mut, shows_all_mut, shows_pairs_mut.
(* The datum is determined by the document. *)
Lemma shows_det d : (forall id x, shows d id x -> forall y, shows d id y -> x = y) /\
  (forall l xs, shows_all d l xs -> forall ys, shows_all d l ys -> xs = ys) /\
  (forall l xs, shows_pairs d l xs -> forall ys, shows_pairs d l ys -> xs = ys).
Proof.
  apply shows_ind3.
  - intros id E y H; inversion H; congruence.
  - intros id v E y H; inversion H; congruence.
  - intros id s h E y H; inversion H; congruence.
  - intros id s E y H; inversion H; congruence.
  - intros id l xs E M S IH y H; inversion H; subst; try congruence.
    match goal with M' : map_entries d id _ |- _ => pose proof (map_entries_det _ _ _ _ M M'); subst end. f_equal. auto.
  - intros id l xs E M S IH y H; inversion H; subst; try congruence.
    match goal with M' : seq_entries d id _ |- _ => pose proof (seq_entries_det _ _ _ _ M M'); subst end. f_equal. auto.
  - intros ys H; now inversion H.
  - intros id x l xs S IH1 A IH2 ys H; inversion H; subst. f_equal; auto.
  - intros ys H; now inversion H.
  - intros key id x l xs S IH1 A IH2 ys H; inversion H; subst. f_equal; [f_equal|]; auto.
Qed.

Fixpoint see {I} (t : tree I) : datum :=
  match t with
  | TLeaf _ _ (ScNull _) => DNull
  | TLeaf _ _ (ScBool v _) => DBool v
  | TLeaf _ _ (ScNum s h) => DNum s h
  | TLeaf _ _ (ScStr r) => DStr (rs_id r)
  | TMap _ _ _ _ items => DMap (map (fun '(_, _, key, v) => (rs_id key, see v)) items)
  | TSeq _ _ _ _ items => DSeq (map (fun '(_, _, v) => see v) items)
  end.
Lemma see_shape (t : tree nat) : see (shape t) = see t.
Proof.
  induction t as [i p s|i p n k items IH|i p n k items IH] using tree_ind'.
  - reflexivity.
  - cbn. f_equal. rewrite map_map. apply map_ext_in. intros [[[ii ip] key] v] J. rewrite Forall_forall in IH. specialize (IH _ J). cbn in *. now rewrite IH.
  - cbn. f_equal. rewrite map_map. apply map_ext_in. intros [[ii ip] v] J. rewrite Forall_forall in IH. specialize (IH _ J). cbn in *. now rewrite IH.
Qed.

Section Shown.
Variable hash : bytes -> sid.
Lemma tree_shows d t par : models_at hash par d t -> Forall (interned hash d) (strings t) -> forall v, sub t v -> shows d (tid v) (see v).
Proof.
  intros X FI. induction v as [i p s|i p n k items IH|i p n k items IH] using tree_ind'; intros S;
    pose proof (node_any hash _ _ _ X FI _ S) as A; cbn [tid tany see] in *.
  - destruct s; now constructor.
  - eapply sh_map; [exact A|exact (node_entries hash _ _ _ X FI _ _ _ _ _ S)|].
    rewrite Forall_forall in IH. assert (J : incl items items) by apply incl_refl. revert J. generalize items at 1 3 4.
    induction items0 as [|[[[ii ip] key] v] l IHl]; intros J; cbn [map mview]; constructor.
    + apply (IH _ (J _ (or_introl eq_refl))). eapply sub_map; eauto using in_eq.
    + apply IHl. intros y Y. apply J. now right.
  - eapply sh_seq; [exact A|exact (node_sentries hash _ _ _ X _ _ _ _ _ S)|].
    rewrite Forall_forall in IH. assert (J : incl items items) by apply incl_refl. revert J. generalize items at 1 3 4.
    induction items0 as [|[[ii ip] v] l IHl]; intros J; cbn [map sview]; constructor.
    + apply (IH _ (J _ (or_introl eq_refl))). eapply sub_seq; eauto using in_eq.
    + apply IHl. intros y Y. apply J. now right.
Qed.

(* A text is accepted, shows the datum, and prints back identically. *)
Definition reads_as_datum (text : bytes) (x : datum) : Prop :=
  exists doc, from_slice hash text = Ok doc /\
    (no_collision hash (doc_data doc) ->
      shows (doc_data doc) (doc_root doc) x /\ write_to doc = Ok text).
Lemma doc_reads t suf : dreads t suf -> reads_as_datum (wdoc t suf) (see t).
Proof.
  intros R. apply dreads_sound in R. pose proof (refine hash (wdoc t suf)) as H. rewrite R in H.
  destruct (from_slice hash (wdoc t suf)) as [doc|? ? ?| | |] eqn:F; try tauto. destruct H as (t' & -> & M).
  exists doc. split; [exact F|]. intros N. split.
  - pose proof (models_int _ _ _ _ M N) as FI. rewrite see_shape. destruct M as (M & Ro & _). rewrite Ro.
    eapply tree_shows; [exact M|exact FI|apply sub_here].
  - rewrite (models_write_to hash _ _ _ N M). unfold wdoc. clear. f_equal.
    assert (W : forall t : tree nat, wtree (shape t) = wtree t).
    { induction t as [i p s|i p n k items IH|i p n k items IH] using tree_ind'; [reflexivity| |].
      - cbn. f_equal. f_equal. f_equal. rewrite map_map. apply map_ext_in. intros [[[ii ip] key] v] J. rewrite Forall_forall in IH. specialize (IH _ J). cbn in *. rewrite IH. now destruct v.
      - cbn. f_equal. f_equal. f_equal. rewrite map_map. apply map_ext_in. intros [[ii ip] v] J. rewrite Forall_forall in IH. specialize (IH _ J). cbn in *. rewrite IH. now destruct v. }
    rewrite W. now destruct t'.
Qed.
End Shown.
