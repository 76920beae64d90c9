(* Restoring a snapshot gives a document with the same strings and the same slots, on a sound
   slab. *)
From Coq Require Import List NArith Bool Arith Lia.
From Verif Require Import Bytes Data Slab Tree Snapshot.
Import ListNotations.

(* ---- the same slots ---- *)
Definition occ (es : list slot) (k : nat) : option entry := match nth_error es k with Some (Occupied e) => Some e | _ => None end.
Lemma holes_spec n : forall es next, exists vs, fst (holes n es next) = es ++ vs /\ length vs = n /\ Forall (fun x => is_vacant (Some x) = true) vs.
Proof.
  induction n as [|n IH]; intros es next; cbn [holes].
  - exists []. rewrite app_nil_r. auto.
  - destruct (IH (es ++ [Vacant next]) (length es)) as (vs & E & L & F). exists (Vacant next :: vs). rewrite E, <- app_assoc. cbn. auto.
Qed.
Lemma occ_app_l es vs k : k < length es -> occ (es ++ vs) k = occ es k.
Proof. intros H. unfold occ. now rewrite nth_error_app1. Qed.
Lemma occ_vacant vs k : Forall (fun x => is_vacant (Some x) = true) vs -> occ vs k = None.
Proof.
  intros F. unfold occ. destruct (nth_error vs k) as [[e|m]|] eqn:E; try reflexivity. apply nth_error_In in E. rewrite Forall_forall in F. now apply F in E.
Qed.
Lemma occ_out es k : length es <= k -> occ es k = None.
Proof. intros H. unfold occ. now rewrite (proj2 (nth_error_None _ _)). Qed.
Lemma pair_occ key e u k : occ (bu_entries (pair_in (key, e) u)) k = if k =? key then Some e else occ (bu_entries u) k.
Proof.
  unfold pair_in. destruct (Nat.ltb_spec key (length (bu_entries u))) as [H|H].
  - cbn [bu_entries]. unfold occ. destruct (Nat.eqb_spec k key) as [->|NE]; [now rewrite list_set_same|now rewrite list_set_other].
  - destruct (holes (key - length (bu_entries u)) (bu_entries u) (bu_next u)) as [es next] eqn:E.
    destruct (holes_spec (key - length (bu_entries u)) (bu_entries u) (bu_next u)) as (vs & E' & L & F). rewrite E in E'. cbn in E'. subst es. cbn [bu_entries].
    assert (LE : length (bu_entries u ++ vs) = key) by (rewrite app_length; lia).
    destruct (Nat.eqb_spec k key) as [->|NE].
    + unfold occ. rewrite nth_error_app2 by lia. rewrite LE, Nat.sub_diag. reflexivity.
    + destruct (Nat.lt_ge_cases k (length (bu_entries u))) as [X|X]; [now rewrite <- app_assoc, occ_app_l|]. rewrite (occ_out (bu_entries u)) by lia.
      destruct (Nat.lt_ge_cases k key) as [Y|Y].
      * rewrite occ_app_l by lia. unfold occ. rewrite nth_error_app2 by lia. exact (occ_vacant vs (k - length (bu_entries u)) F).
      * apply occ_out. rewrite app_length, LE. cbn. lia.
Qed.
Lemma fold_occ l : forall u, NoDup (map fst l) -> forall k, occ (bu_entries (fold_left (fun u p => pair_in p u) l u)) k =
  match find (fun p => fst p =? k) l with Some p => Some (snd p) | None => occ (bu_entries u) k end.
Proof.
  induction l as [|[key e] l IH]; intros u ND k; cbn [fold_left find]; [reflexivity|].
  cbn [map fst] in ND. inversion ND as [|? ? NI ND']; subst. rewrite (IH _ ND'), pair_occ. cbn [fst snd].
  rewrite (Nat.eqb_sym key k). destruct (Nat.eqb_spec k key) as [->|NE]; [|reflexivity].
  destruct (find (fun p => fst p =? key) l) as [[k' e']|] eqn:F; [|reflexivity]. exfalso. apply find_some in F as [I E]. cbn in E. apply Nat.eqb_eq in E. subst k'.
  apply NI. now apply (in_map fst) in I.
Qed.

(* ---- a sound free list ---- *)
(* Free slots linked from n to f; the link of f is not set yet. *)
Inductive link (es : list slot) (f : nat) : nat -> list nat -> Prop :=
| link_end m : nth_error es f = Some (Vacant m) -> link es f f [f]
| link_next n m l : nth_error es n = Some (Vacant m) -> link es f m l -> link es f n (n :: l).
Lemma link_app es f n l vs : link es f n l -> link (es ++ vs) f n l.
Proof.
  induction 1 as [m E|n m l E C IH].
  - econstructor. rewrite nth_error_app1; [exact E|]. apply nth_error_Some. congruence.
  - econstructor; [|exact IH]. rewrite nth_error_app1; [exact E|]. apply nth_error_Some. congruence.
Qed.
Lemma link_lt es f n l : link es f n l -> Forall (fun k => k < length es) l.
Proof. induction 1 as [m E|n m l E C IH]; constructor; auto; apply nth_error_Some; congruence. Qed.
Lemma link_set es f n l k x : link es f n l -> ~ In k l -> link (list_set es k x) f n l.
Proof.
  induction 1 as [m E|n m l E C IH]; cbn; intros NI.
  - econstructor. rewrite list_set_other; [exact E|tauto].
  - econstructor; [rewrite list_set_other; [exact E|tauto]|]. apply IH. tauto.
Qed.
Lemma link_vacant es f n l k : link es f n l -> In k l -> is_vacant (nth_error es k) = true.
Proof. induction 1 as [m E|n m l E C IH]; intros [<-|I]; try (now rewrite E); [destruct I|auto]. Qed.
Lemma link_chain es f n l : link es f n l -> NoDup l -> chain (list_set es f (Vacant (length es))) n l.
Proof.
  induction 1 as [m E|n m l E C IH]; intros ND; inversion ND as [|? ? NI ND']; subst.
  - econstructor; [apply list_set_same; apply nth_error_Some; congruence|]. rewrite <- (list_set_length es f (Vacant (length es))) at 2. constructor.
  - econstructor; [|now apply IH]. rewrite list_set_other; [exact E|]. intros ->. apply NI. clear -C. induction C; cbn; auto.
Qed.
(* The state of a builder on which no free slot has been filled again. *)
Definition tidy (es : list slot) (next : nat) (first : option nat) : Prop :=
  match first with
  | None => Forall (fun x => is_vacant (Some x) = false) es
  | Some f => exists l, NoDup l /\ link es f next l /\ all_free es l
  end.
Lemma all_free_app es l e : all_free es l -> all_free (es ++ [Occupied e]) l.
Proof.
  intros V k m X. destruct (Nat.lt_ge_cases k (length es)) as [H|H].
  - rewrite nth_error_app1 in X by exact H. now apply V in X.
  - rewrite nth_error_app2 in X by exact H. destruct (k - length es) as [|[|j]]; discriminate.
Qed.
Lemma all_free_hole es l n : all_free es l -> all_free (es ++ [Vacant n]) (length es :: l).
Proof.
  intros V k m X. destruct (Nat.lt_ge_cases k (length es)) as [H|H].
  - rewrite nth_error_app1 in X by exact H. right. now apply V in X.
  - rewrite nth_error_app2 in X by exact H. left. destruct (k - length es) as [|[|j]] eqn:E; try discriminate. lia.
Qed.
Lemma none_free es l : Forall (fun x => is_vacant (Some x) = false) es -> all_free es l.
Proof. intros F k m X. apply nth_error_In in X. rewrite Forall_forall in F. apply F in X. discriminate. Qed.
Lemma holes_tidy n : forall es next f, (exists l, NoDup l /\ link es f next l /\ all_free es l) ->
  exists l, NoDup l /\ link (fst (holes n es next)) f (snd (holes n es next)) l /\ all_free (fst (holes n es next)) l.
Proof.
  induction n as [|n IH]; intros es next f (l & ND & C & V); cbn [holes fst snd]; [eauto|].
  apply IH. exists (length es :: l). pose proof (link_lt _ _ _ _ C) as LT. split.
  - constructor; [|exact ND]. intros I. rewrite Forall_forall in LT. apply LT in I. lia.
  - split; [|now apply all_free_hole]. econstructor; [rewrite nth_error_app2, Nat.sub_diag by lia; reflexivity|]. now apply link_app.
Qed.
Definition builder_ok (u : builder) : Prop := bu_broken u = false -> tidy (bu_entries u) (bu_next u) (bu_first u).
Lemma pair_ok p u : builder_ok u -> builder_ok (pair_in p u).
Proof.
  destruct p as [key e]. intros K. unfold pair_in. destruct (Nat.ltb_spec key (length (bu_entries u))) as [H|H].
  - unfold builder_ok. cbn. intros BR. apply orb_false_iff in BR as [BR V]. specialize (K BR). unfold tidy in *. destruct (bu_first u) as [f|].
    + destruct K as (l & ND & C & VA). exists l. split; [exact ND|]. split.
      2:{ intros j m X. destruct (Nat.eq_dec j key) as [->|NE]; [rewrite list_set_same in X by exact H; discriminate|]. rewrite list_set_other in X by exact NE. now apply VA in X. }
      apply link_set; [exact C|]. intros I. rewrite (link_vacant _ _ _ _ _ C I) in V. discriminate.
    + rewrite Forall_forall in *. intros x X. apply In_nth_error in X as [j J]. destruct (Nat.eq_dec j key) as [->|NE].
      * rewrite list_set_same in J by exact H. now injection J as <-.
      * rewrite list_set_other in J by exact NE. apply nth_error_In in J. auto.
  - unfold builder_ok. destruct (holes (key - length (bu_entries u)) (bu_entries u) (bu_next u)) as [es next] eqn:E. cbn [bu_broken bu_entries bu_next bu_first]. intros BR. specialize (K BR). unfold tidy in *.
    destruct (bu_first u) as [f|].
    + destruct (holes_tidy (key - length (bu_entries u)) _ _ _ K) as (l & ND & C & V). rewrite E in C, V. cbn in C, V. exists l. split; [exact ND|]. split; [now apply link_app|now apply all_free_app].
    + destruct (Nat.ltb_spec (length (bu_entries u)) key) as [X|X].
      * destruct (key - length (bu_entries u)) as [|n] eqn:KN; [lia|]. cbn [holes] in E.
        destruct (holes_tidy n (bu_entries u ++ [Vacant (bu_next u)]) (length (bu_entries u)) (length (bu_entries u))) as (l & ND & C & V).
        { exists [length (bu_entries u)]. split; [constructor; [intros []|constructor]|]. split; [econstructor; rewrite nth_error_app2, Nat.sub_diag by lia; reflexivity|]. apply all_free_hole. now apply none_free. }
        rewrite E in C, V. cbn in C, V. exists l. split; [exact ND|]. split; [now apply link_app|now apply all_free_app].
      * replace (key - length (bu_entries u)) with 0 in E by lia. cbn in E. injection E as <- <-. apply Forall_app. split; [exact K|]. constructor; [reflexivity|constructor].
Qed.
Lemma fold_ok l : forall u, builder_ok u -> builder_ok (fold_left (fun u p => pair_in p u) l u).
Proof. induction l as [|p l IH]; intros u K; cbn [fold_left]; [exact K|]. apply IH. now apply pair_ok. Qed.
Lemma new_ok : builder_ok builder_new.
Proof. intros _. constructor. Qed.

Lemma occ_cons x es k : occ (x :: es) (S k) = occ es k. Proof. reflexivity. Qed.
Lemma relink_occ es : forall i next k, occ (fst (relink i es next)) k = occ es k.
Proof.
  induction es as [|x es IH]; intros i next k; cbn [relink]; [reflexivity|]. specialize (IH (S i) next). destruct (relink (S i) es next) as [es' n]. cbn [fst] in IH.
  destruct x; cbn [fst]; destruct k; try reflexivity; rewrite !occ_cons; apply IH.
Qed.
Lemma relink_length es : forall i next, length (fst (relink i es next)) = length es.
Proof.
  induction es as [|x es IH]; intros i next; cbn [relink]; [reflexivity|]. specialize (IH (S i) next). destruct (relink (S i) es next) as [es' n]. cbn [fst] in IH. destruct x; cbn; now rewrite IH.
Qed.
(* Relinking behind other slots. *)
Lemma relink_chain es : forall before, let i := length before in let n := length before + length es in
  exists l, NoDup l /\ Forall (fun k => i <= k) l /\ chain (before ++ fst (relink i es n)) (snd (relink i es n)) l /\
  forall k m, nth_error (fst (relink i es n)) k = Some (Vacant m) -> In (i + k) l.
Proof.
  induction es as [|x es IH]; intros before; cbn zeta.
  - exists []. cbn. rewrite Nat.add_0_r, app_nil_r. split; [constructor|]. split; [constructor|]. split; [constructor|]. intros [|k] m X; discriminate.
  - cbn [relink length]. replace (length before + S (length es)) with (length (before ++ [x]) + length es) by (rewrite app_length; cbn; lia).
    replace (S (length before)) with (length (before ++ [x])) by (rewrite app_length; cbn; lia).
    assert (EX : forall y, length (before ++ [y]) = length (before ++ [x])) by (intros y; now rewrite !app_length).
    destruct x as [e|m].
    + destruct (IH (before ++ [Occupied e])) as (l & ND & F & C & V). destruct (relink (length (before ++ [Occupied e])) es (length (before ++ [Occupied e]) + length es)) as [es' n] eqn:R.
      cbn [fst snd] in *. exists l. split; [exact ND|]. split.
      * revert F. apply Forall_impl. intros k. rewrite app_length. cbn. lia.
      * split; [now rewrite <- app_assoc in C|]. intros [|k] m X; [discriminate|]. apply V in X. rewrite app_length in X. cbn in X. now replace (length before + S k) with (length before + 1 + k) by lia.
    + destruct (relink (length (before ++ [Vacant m])) es (length (before ++ [Vacant m]) + length es)) as [es' n] eqn:R.
      destruct (IH (before ++ [Vacant n])) as (l & ND & F & C & V). rewrite (EX (Vacant n)), R in C, V. cbn [fst snd] in *. exists (length before :: l). split; [|split; [|split]].
      * constructor; [|exact ND]. intros I. rewrite Forall_forall in F. apply F in I. rewrite app_length in I. cbn in I. lia.
      * constructor; [lia|]. revert F. apply Forall_impl. intros k. rewrite app_length. cbn. lia.
      * rewrite <- app_assoc in C. cbn [app] in C. econstructor; [|exact C]. rewrite nth_error_app2, Nat.sub_diag by lia. reflexivity.
      * intros [|k] m' X; [left; lia|]. right. apply V in X. rewrite app_length in X. cbn in X. now replace (length before + S k) with (length before + 1 + k) by lia.
Qed.
(* As many slots as the keys need. *)
Lemma holes_length n : forall es next, length (fst (holes n es next)) = length es + n.
Proof. induction n as [|n IH]; intros es next; cbn [holes fst]; [lia|]. rewrite IH, app_length. cbn. lia. Qed.
Lemma pair_length k e u : length (bu_entries (pair_in (k, e) u)) = Nat.max (length (bu_entries u)) (S k).
Proof.
  unfold pair_in. destruct (Nat.ltb_spec k (length (bu_entries u))) as [H|H]; cbn [bu_entries].
  - rewrite list_set_length. lia.
  - pose proof (holes_length (k - length (bu_entries u)) (bu_entries u) (bu_next u)) as HL. destruct (holes (k - length (bu_entries u)) (bu_entries u) (bu_next u)) as [es n]. cbn in *. rewrite app_length. cbn. lia.
Qed.
Lemma fold_length n l : (forall k e, In (k, e) l -> k < n) -> forall u, length (bu_entries u) <= n ->
  length (bu_entries (fold_left (fun u p => pair_in p u) l u)) <= n.
Proof.
  induction l as [|[k e] l IH]; intros K u H; cbn [fold_left]; [exact H|]. apply IH; [intros k' e' I; apply (K k' e'); now right|].
  rewrite pair_length. pose proof (K k e (or_introl eq_refl)). lia.
Qed.
Lemma slab_from_length n l s : (forall k e, In (k, e) l -> k < n) -> slab_from l = Some s -> length (sl_entries s) <= n.
Proof.
  intros K. unfold slab_from. pose proof (fold_length n l K builder_new (Nat.le_0_l _)) as H.
  set (u := fold_left (fun u p => pair_in p u) l builder_new) in *. clearbody u. unfold build.
  destruct (slab_len (Slab (bu_entries u) 0) =? length (bu_entries u)); [intros X; injection X as <-; exact H|].
  destruct (bu_broken u).
  - pose proof (relink_length (bu_entries u) 0 (length (bu_entries u))) as R. destruct (relink 0 (bu_entries u) (length (bu_entries u))) as [es n']. cbn [fst] in R. intros X. injection X as <-. cbn. lia.
  - destruct (bu_first u); [|discriminate]. intros X. injection X as <-. cbn. now rewrite list_set_length.
Qed.
Lemma no_vacant_len es : Forall (fun x => is_vacant (Some x) = false) es -> slab_len (Slab es 0) = length es.
Proof. unfold slab_len. cbn [sl_entries]. induction 1 as [|x es V F IH]; [reflexivity|]. destruct x; [|discriminate]. cbn. now rewrite IH. Qed.
Lemma len_no_vacant es : slab_len (Slab es 0) = length es -> Forall (fun x => is_vacant (Some x) = false) es.
Proof.
  unfold slab_len. cbn [sl_entries]. induction es as [|x es IH]; [constructor|]. destruct x as [e|m]; cbn; intros H.
  - constructor; [reflexivity|]. apply IH. now injection H.
  - exfalso. assert (X : length (filter (fun x => match x with Occupied _ => true | _ => false end) es) <= length es); [|lia].
    clear. induction es as [|x es IH]; cbn; [lia|]. destruct x; cbn; lia.
Qed.
Lemma slab_from_spec l : NoDup (map fst l) -> exists s, slab_from l = Some s /\ slab_wf s /\ forall k e, slab_get s k = Some e <-> In (k, e) l.
Proof.
  intros ND. unfold slab_from. pose proof (fold_occ l builder_new ND) as O. pose proof (fold_ok l builder_new new_ok) as K.
  set (u := fold_left (fun u p => pair_in p u) l builder_new) in *. clearbody u.
  assert (O' : forall k e, occ (bu_entries u) k = Some e <-> In (k, e) l).
  { intros k e. rewrite O. split.
    - destruct (find (fun p => fst p =? k) l) as [[k' e']|] eqn:F.
      + intros X. injection X as <-. apply find_some in F as [I Q]. cbn in Q. apply Nat.eqb_eq in Q. now subst k'.
      + unfold occ. cbn. now destruct k.
    - intros I. destruct (find (fun p => fst p =? k) l) as [[k' e']|] eqn:F.
      + apply find_some in F as [J Q]. cbn in Q. apply Nat.eqb_eq in Q. subst k'. cbn. f_equal. clear -ND I J. induction l as [|[a x] l IH]; [destruct I|].
        cbn in ND. inversion ND as [|? ? NI ND']; subst. destruct I as [I|I], J as [J|J].
        * congruence.
        * injection I as -> ->. apply (in_map fst) in J. now elim NI.
        * injection J as -> ->. apply (in_map fst) in I. now elim NI.
        * auto.
      + pose proof (find_none _ _ F _ I) as Q. cbn in Q. rewrite Nat.eqb_refl in Q. discriminate. }
  clear O. unfold build. destruct (Nat.eqb_spec (slab_len (Slab (bu_entries u) 0)) (length (bu_entries u))) as [L|L].
  - eexists. split; [reflexivity|]. split; [|exact O']. exists []. split; [constructor|]. split; [constructor|]. apply none_free. now apply len_no_vacant.
  - destruct (bu_broken u) eqn:BR.
    + destruct (relink_chain (bu_entries u) []) as (l0 & ND0 & _ & C & V). cbn [app length Nat.add] in C, V. pose proof (relink_occ (bu_entries u) 0 (length (bu_entries u))) as RO.
      destruct (relink 0 (bu_entries u) (length (bu_entries u))) as [es' n]. cbn [fst snd] in *. eexists. split; [reflexivity|]. split; [exists l0; split; [exact ND0|]; split; [exact C|]; intros k m X; now apply V in X|].
      intros k e. rewrite <- O', <- RO. reflexivity.
    + specialize (K BR). unfold tidy in K. destruct (bu_first u) as [f|].
      * destruct K as (l0 & ND0 & C & V). eexists. split; [reflexivity|]. split.
        { exists l0. split; [exact ND0|]. split; [now apply link_chain|]. intros k m. cbn [sl_entries]. destruct (Nat.eq_dec k f) as [->|NE].
          - intros _. clear -C. induction C; cbn; auto.
          - rewrite list_set_other by exact NE. apply V. }
        intros k e. rewrite <- O'. unfold slab_get, occ. cbn [sl_entries]. assert (VF : is_vacant (nth_error (bu_entries u) f) = true) by (eapply link_vacant; [exact C|]; clear -C; induction C; cbn; auto).
        destruct (Nat.eq_dec k f) as [->|NE].
        -- rewrite list_set_same. 2:{ apply nth_error_Some. intros X. rewrite X in VF. discriminate. } destruct (nth_error (bu_entries u) f) as [[|]|]; split; intros X; discriminate.
        -- now rewrite list_set_other.
      * exfalso. apply L. now apply no_vacant_len.
Qed.

(* ---- the restored document ---- *)
Definition restored (doc doc' : document) : Prop :=
  doc_suffix doc' = doc_suffix doc /\ doc_root doc' = doc_root doc /\
  (forall k, assoc k (d_strings (doc_data doc')) = assoc k (d_strings (doc_data doc))) /\
  (forall k s, In (k, s) (d_strings (doc_data doc')) -> assoc k (d_strings (doc_data doc')) = Some s) /\
  (forall k, slab_get (d_slab (doc_data doc')) k = slab_get (d_slab (doc_data doc)) k) /\ slab_wf (d_slab (doc_data doc')).
Lemma assoc_nodup k s l : NoDup (map fst l) -> In (k, s) l -> assoc k l = Some s.
Proof.
  induction l as [|[k' s'] l IH]; intros ND []; cbn in *; inversion ND as [|? ? NI ND']; subst.
  - injection H as -> ->. now rewrite beq_refl.
  - destruct (beq k k') eqn:Q; [|auto]. apply beq_eq in Q. subst k'. exfalso. apply NI. now apply (in_map fst) in H.
Qed.
Lemma restore_ok doc s : takes doc s -> exists doc', restore s = Some doc' /\ restored doc doc'.
Proof.
  intros (SU & RO & (ND & ST) & (ND' & SL)). unfold restore. destruct (slab_from_spec _ ND') as (sl & -> & W & G). eexists. split; [reflexivity|].
  unfold restored. cbn [doc_suffix doc_root doc_data d_strings d_slab]. repeat split; auto.
  - intros k. destruct (assoc k (d_strings (doc_data doc))) as [x|] eqn:E.
    + apply ST in E. now apply assoc_nodup.
    + destruct (assoc k (n_strings s)) as [x|] eqn:E'; [|reflexivity]. apply assoc_in, ST in E'. congruence.
  - intros k x. now apply assoc_nodup.
  - intros k. destruct (slab_get (d_slab (doc_data doc)) k) as [e|] eqn:E.
    + apply G. now apply SL.
    + destruct (slab_get sl k) as [e|] eqn:E'; [|reflexivity]. apply G, SL in E'. congruence.
Qed.
