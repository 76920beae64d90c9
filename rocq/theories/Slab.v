(* Facts about the slab: which entries it holds, and that its free list stays sound. *)
From Coq Require Import List NArith Bool Arith Lia Permutation.
From Verif Require Import Bytes Data.
Import ListNotations.

Lemma list_set_length {A} (l : list A) k x : length (list_set l k x) = length l.
Proof. revert k; induction l as [|y l IH]; intros [|k]; cbn; auto. Qed.
Lemma list_set_same {A} (l : list A) k x :
  k < length l -> nth_error (list_set l k x) k = Some x.
Proof. revert k; induction l as [|y l IH]; intros [|k] H; cbn in *; try lia; auto. apply IH; lia. Qed.
Lemma list_set_other {A} (l : list A) k j x :
  j <> k -> nth_error (list_set l k x) j = nth_error l j.
Proof. revert k j; induction l as [|y l IH]; intros [|k] [|j] H; cbn; auto; try congruence. Qed.

(* The chain of free slots starting at n. *)
Inductive chain (es : list slot) : nat -> list nat -> Prop :=
| chain_end : chain es (length es) []
| chain_next n m l : nth_error es n = Some (Vacant m) -> chain es m l -> chain es n (n :: l).
(* Every free slot is in l. *)
Definition all_free (es : list slot) (l : list nat) : Prop :=
  forall k m, nth_error es k = Some (Vacant m) -> In k l.
(* The chain from next holds every free slot, each once. *)
Definition slab_wf (s : slab) : Prop :=
  exists l, NoDup l /\ chain (sl_entries s) (sl_next s) l /\ all_free (sl_entries s) l.

(* The slab holds exactly the entries of L. *)
Definition has (s : slab) (L : list (nat * entry)) : Prop :=
  slab_wf s /\ NoDup (map fst L) /\ forall k e, slab_get s k = Some e <-> In (k, e) L.

Lemma has_perm s L L' : Permutation L L' -> has s L -> has s L'.
Proof.
  intros P (W & N & G). split; [exact W|]. split.
  - eapply Permutation_NoDup; [|exact N]. now apply Permutation_map.
  - intros k e. rewrite G. split; apply Permutation_in; auto. now symmetry.
Qed.
Lemma has_wf s L : has s L -> slab_wf s.
Proof. intros (W & _); exact W. Qed.
Lemma has_nodup s L : has s L -> NoDup (map fst L).
Proof. intros (_ & N & _); exact N. Qed.
Lemma has_get s L k e : has s L -> In (k, e) L -> slab_get s k = Some e.
Proof. intros (_ & _ & G) H. now apply G. Qed.
Lemma has_get_in s L k e : has s L -> slab_get s k = Some e -> In (k, e) L.
Proof. intros (_ & _ & G) H. now apply G. Qed.
Lemma has_get_none s L k : has s L -> ~ In k (map fst L) -> slab_get s k = None.
Proof.
  intros (_ & _ & G) H. destruct (slab_get s k) as [e|] eqn:E; [|reflexivity].
  exfalso; apply H. apply G in E. apply (in_map fst) in E. exact E.
Qed.

Lemma has_empty : has slab_empty [].
Proof.
  split; [|split].
  - exists []. split; [constructor|]. split; [constructor|]. intros [|k] m X; discriminate.
  - constructor.
  - intros k e; split; [|intros []].
    unfold slab_get; cbn. destruct k; discriminate.
Qed.

Lemma slab_get_lt s k e : slab_get s k = Some e -> k < length (sl_entries s).
Proof.
  unfold slab_get. intros H.
  assert (nth_error (sl_entries s) k <> None) by (intros E; rewrite E in H; discriminate).
  now apply nth_error_Some.
Qed.

Lemma chain_set es n l k x :
  chain es n l -> ~ In k l -> chain (list_set es k x) n l.
Proof.
  intros C; revert k; induction C as [|n m l E C IH]; intros k H.
  - rewrite <- (list_set_length es k x). constructor.
  - econstructor.
    + rewrite list_set_other; [exact E|]. cbn in H. intuition.
    + apply IH. cbn in H; intuition.
Qed.

Lemma has_insert s L e :
  has s L -> exists k s', slab_insert s e = Some (k, s') /\ has s' ((k, e) :: L).
Proof.
  intros ((fl & ND & C & V) & N & G).
  unfold slab_insert.
  destruct (Nat.eqb_spec (sl_next s) (length (sl_entries s))) as [E|E].
  - (* append *)
    exists (sl_next s), (Slab (sl_entries s ++ [Occupied e]) (S (sl_next s))).
    split; [reflexivity|].
    assert (K : slab_get s (sl_next s) = None).
    { unfold slab_get. replace (nth_error (sl_entries s) (sl_next s)) with (@None slot); auto.
      symmetry; apply nth_error_None. lia. }
    split; [|split].
    + assert (fl = []) as ->.
      { inversion C as [X Y|n m l E1 C1 X Y]; subst; [reflexivity|]. exfalso. assert (sl_next s < length (sl_entries s)) by (apply nth_error_Some; congruence). lia. }
      exists []. split; [constructor|]. cbn. split.
      * replace (S (sl_next s)) with (length (sl_entries s ++ [Occupied e])) by (rewrite app_length; cbn; lia). constructor.
      * intros k m X. destruct (Nat.lt_ge_cases k (length (sl_entries s))) as [H|H].
        -- rewrite nth_error_app1 in X by exact H. now apply V in X.
        -- rewrite nth_error_app2 in X by exact H. destruct (k - length (sl_entries s)) as [|[|j]]; discriminate.
    + cbn. constructor; [|exact N]. intros H. apply in_map_iff in H as ([k' e'] & H1 & H2).
      cbn in H1; subst k'. apply G in H2. congruence.
    + intros k e'. unfold slab_get at 1; cbn.
      destruct (Nat.lt_trichotomy k (length (sl_entries s))) as [H|[H|H]].
      * rewrite nth_error_app1 by exact H. rewrite <- G. unfold slab_get.
        split; [intros ->|intros [X|X]]; auto. exfalso; injection X as X _. lia.
      * subst k. rewrite nth_error_app2 by lia. rewrite Nat.sub_diag; cbn.
        split; intros X.
        -- injection X as <-. left; f_equal; exact E.
        -- destruct X as [X|X]; [now injection X as _ <-|].
           apply G in X. rewrite E in K. congruence.
      * rewrite (proj2 (nth_error_None _ _)) by (rewrite app_length; cbn; lia).
        split; [discriminate|]. intros [X|X].
        -- injection X as X _; lia.
        -- apply G in X. apply slab_get_lt in X. lia.
  - (* reuse *)
    inversion C as [X Y|n m l E1 C1 X Y]; subst; [congruence|].
    rewrite E1.
    exists (sl_next s), (Slab (list_set (sl_entries s) (sl_next s) (Occupied e)) m).
    split; [reflexivity|].
    assert (LT : sl_next s < length (sl_entries s)).
    { apply nth_error_Some. congruence. }
    assert (K : slab_get s (sl_next s) = None) by (unfold slab_get; now rewrite E1).
    inversion ND as [|x y NI ND']; subst.
    split; [|split].
    + exists l. split; [exact ND'|]. cbn. split; [apply chain_set; auto|]. intros k m' X. destruct (Nat.eq_dec k (sl_next s)) as [->|NE].
      * rewrite list_set_same in X by exact LT. discriminate.
      * rewrite list_set_other in X by exact NE. apply V in X as [X|X]; [congruence|exact X].
    + cbn. constructor; [|exact N]. intros H. apply in_map_iff in H as ([k' e'] & H1 & H2).
      cbn in H1; subst k'. apply G in H2. congruence.
    + intros k e'. unfold slab_get at 1; cbn.
      destruct (Nat.eq_dec k (sl_next s)) as [->|NE].
      * rewrite list_set_same by exact LT. split; intros X.
        -- injection X as <-. now left.
        -- destruct X as [X|X]; [now injection X as <-|]. apply G in X. congruence.
      * rewrite list_set_other by exact NE. rewrite <- G. unfold slab_get.
        split; [intros ->|intros [X|X]]; auto. exfalso; injection X as X _. auto.
Qed.

Lemma has_set s L k e e' :
  has s ((k, e) :: L) -> has (slab_set s k e') ((k, e') :: L).
Proof.
  intros ((fl & ND & C & V) & N & G).
  assert (K : slab_get s k = Some e) by (apply G; now left).
  pose proof (slab_get_lt _ _ _ K) as LT.
  assert (NK : ~ In k (map fst L)) by (inversion N; auto).
  split; [|split].
  - exists fl. split; [exact ND|]. cbn. split.
    2:{ intros j m X. destruct (Nat.eq_dec j k) as [->|NE]; [rewrite list_set_same in X by exact LT; discriminate|]. rewrite list_set_other in X by exact NE. now apply V in X. }
    apply chain_set; auto. clear - C K. intros H. induction C as [|n m l E C IH]; cbn in H; [contradiction|].
    destruct H as [->|H]; [|auto]. unfold slab_get in K. rewrite E in K. discriminate.
  - cbn in *. exact N.
  - intros j f. unfold slab_get at 1; cbn.
    destruct (Nat.eq_dec j k) as [->|NE].
    + rewrite list_set_same by exact LT. split; intros X.
      * injection X as <-. now left.
      * destruct X as [X|X]; [now injection X as <-|]. exfalso; apply NK.
        apply (in_map fst) in X. exact X.
    + rewrite list_set_other by exact NE.
      change (slab_get s j = Some f <-> (k, e') = (j, f) \/ In (j, f) L).
      rewrite G. cbn. split; intros [X|X]; auto; exfalso; injection X; auto.
Qed.

Lemma has_remove s L k e :
  has s ((k, e) :: L) ->
  exists s', slab_try_remove s k = Some (e, s') /\ has s' L /\
             length (sl_entries s') = length (sl_entries s).
Proof.
  intros ((fl & ND & C & V) & N & G).
  assert (K : slab_get s k = Some e) by (apply G; now left).
  pose proof (slab_get_lt _ _ _ K) as LT.
  assert (NK : ~ In k (map fst L)) by (inversion N; auto).
  unfold slab_try_remove. rewrite K.
  eexists; split; [reflexivity|]. split; [split; [|split]|].
  - exists (k :: fl). assert (NF : ~ In k fl).
    { clear - C K. intros H. induction C as [|n m l E C IH]; cbn in H; [contradiction|].
      destruct H as [->|H]; [|auto]. unfold slab_get in K. rewrite E in K. discriminate. }
    split; [now constructor|]. cbn. split.
    + econstructor; [now apply list_set_same|now apply chain_set].
    + intros j m X. destruct (Nat.eq_dec j k) as [->|NE]; [now left|]. rewrite list_set_other in X by exact NE. right. now apply V in X.
  - now inversion N.
  - intros j f. unfold slab_get at 1; cbn.
    destruct (Nat.eq_dec j k) as [->|NE].
    + rewrite list_set_same by exact LT. split; [discriminate|]. intros X. exfalso; apply NK.
      apply (in_map fst) in X. exact X.
    + rewrite list_set_other by exact NE.
      change (slab_get s j = Some f <-> In (j, f) L).
      rewrite G. cbn. split; intros X; auto. destruct X as [X|X]; auto. injection X; congruence.
  - cbn. apply list_set_length.
Qed.

(* Distinct occupied slots: the number of entries is at most the number of slots. *)
Lemma has_length s L : has s L -> length L <= length (sl_entries s).
Proof.
  intros (_ & N & G).
  rewrite <- (map_length fst L). rewrite <- (seq_length (length (sl_entries s)) 0).
  apply NoDup_incl_length; [exact N|].
  intros k H. apply in_map_iff in H as ([k' e] & H1 & H2). cbn in H1; subst k'.
  apply G in H2. apply slab_get_lt in H2. apply in_seq. lia.
Qed.
Lemma slab_set_length s k e : length (sl_entries (slab_set s k e)) = length (sl_entries s).
Proof. apply list_set_length. Qed.

(* Slab::len counts the entries. *)
Lemma has_len s L : has s L -> slab_len s = length L.
Proof.
  intros (_ & N & G). unfold slab_len.
  (* the keys of occupied slots, in order *)
  pose (keys := filter (fun k => match slab_get s k with Some _ => true | None => false end)
                       (seq 0 (length (sl_entries s)))).
  assert (E : length (filter (fun x => match x with Occupied _ => true | _ => false end) (sl_entries s))
              = length keys).
  { unfold keys, slab_get. generalize (sl_entries s) as es. clear.
    intros es.
    assert (H : forall pre, length (filter (fun x => match x with Occupied _ => true | _ => false end) es)
      = length (filter (fun k => match match nth_error (pre ++ es) k with
                                       | Some (Occupied e) => Some e | _ => None end
                                 with Some _ => true | None => false end)
                       (seq (length pre) (length es)))).
    { induction es as [|x es IH]; intros pre; [reflexivity|].
      cbn [seq length filter].
      rewrite nth_error_app2 by lia. rewrite Nat.sub_diag; cbn [nth_error].
      specialize (IH (pre ++ [x])). rewrite <- app_assoc in IH. cbn in IH.
      rewrite app_length in IH; cbn in IH. rewrite Nat.add_1_r in IH.
      destruct x; cbn; rewrite IH; reflexivity. }
    exact (H []). }
  rewrite E. rewrite <- (map_length fst L).
  apply Permutation_length. apply NoDup_Permutation.
  - apply NoDup_filter. apply seq_NoDup.
  - exact N.
  - intros k. unfold keys. rewrite filter_In, in_seq, in_map_iff. split.
    + intros (_ & H). destruct (slab_get s k) as [e|] eqn:X; [|discriminate].
      exists (k, e). split; auto. now apply G.
    + intros ((k', e) & H1 & H2). cbn in H1; subst k'. apply G in H2.
      rewrite H2. split; auto. apply slab_get_lt in H2. lia.
Qed.

(* An insertion takes a new slot only if there is no free one. *)
Lemma has_grow s L e k s' : has s L -> slab_insert s e = Some (k, s') ->
  length (sl_entries s') = Nat.max (length (sl_entries s)) (S (length L)).
Proof.
  intros H E. destruct (has_insert _ _ e H) as (k0 & s0 & E0 & H0). rewrite E in E0. injection E0 as <- <-.
  pose proof (has_length _ _ H) as L1. pose proof (has_length _ _ H0) as L2. cbn [length] in L2.
  pose proof (has_len _ _ H) as LN. destruct H as ((fl & ND & C & V) & _). unfold slab_insert in E.
  destruct (Nat.eqb_spec (sl_next s) (length (sl_entries s))) as [X|X].
  - injection E as <- <-. cbn [sl_entries] in *. rewrite app_length in *. cbn [length] in *.
    enough (length L = length (sl_entries s)) by lia. rewrite <- LN. unfold slab_len.
    assert (F : fl = []).
    { inversion C as [Y Z|n m l E1 C1 Y Z]; subst; [reflexivity|]. exfalso. assert (sl_next s < length (sl_entries s)) by (apply nth_error_Some; congruence). lia. }
    subst fl. clear -V. unfold all_free in V. induction (sl_entries s) as [|x es IH]; [reflexivity|].
    destruct x as [e|m]; [|exfalso; exact (V 0 m eq_refl)]. cbn. f_equal. apply IH. intros k m Y. exact (V (S k) m Y).
  - destruct (nth_error (sl_entries s) (sl_next s)) as [[|m]|]; try discriminate. injection E as <- <-. cbn [sl_entries] in *. rewrite list_set_length in *. lia.
Qed.
