(* Checks by computation, for the examples beside the theorems. *)
From Coq Require Import String.
From Coq Require Import List NArith Bool Arith Lia.
From Verif Require Import Bytes Utf8 Data Parser Render Tree Scan Num Api Ctx Built Shown Plain Grammar Laid Swap Grow Open Tidy Session.
Import ListNotations.
Local Open Scope N_scope.

(* ---- tidy texts ---- *)
Definition is_blank (c : byte) : bool := is_ws c && negb (c =? NEWLINE).
Lemma is_blank_iff c : is_blank c = true <-> blank c.
Proof.
  unfold is_blank. rewrite andb_true_iff, negb_true_iff, N.eqb_neq, is_ws_white. unfold blank, white, NEWLINE. cbn. lia.
Qed.
Fixpoint skip (x : bytes) : bytes := match x with c :: r => if is_blank c then skip r else x | [] => [] end.
Lemma skip_spec x : exists t, x = t ++ skip x /\ Forall blank t.
Proof.
  induction x as [|c x (t & E & F)]; [now exists []|]. cbn [skip]. destruct (is_blank c) eqn:B; [|now exists []].
  exists (c :: t). split; [cbn [app]; congruence|]. constructor; [now apply is_blank_iff|exact F].
Qed.
Lemma skip_blank t r : Forall blank t -> skip (t ++ r) = skip r.
Proof. induction 1 as [|c t B _ IH]; [reflexivity|]. cbn [app skip]. apply is_blank_iff in B. now rewrite B. Qed.
Fixpoint ends_ok (l : bytes) : bool := match l with
  | [] => true
  | c :: r => (is_ws c || match r with
    | e :: _ => negb (is_blank e) || match skip r with [] => false | h :: _ => negb (h =? HASH) end
    | [] => true
    end) && ends_ok r
  end.
Definition comment_ok (l : bytes) : bool := match skip l with h :: r => (h =? HASH) && negb (existsb (fun c => existsb (N.eqb c) (b "'""]}")) r) | [] => false end.
Fixpoint split_lines (x : bytes) : list bytes := match x with
  | [] => [[]]
  | c :: r => if c =? NEWLINE then [] :: split_lines r else match split_lines r with l :: ls => (c :: l) :: ls | [] => [[c]] end
  end.
Definition tidy_check (x : bytes) : bool := forallb (fun l => comment_ok l || ends_ok l) (split_lines x).
Lemma ends_checked l : ends_ok l = true -> forall u c t r, l = u ++ [c] ++ t ++ r -> ~ white c -> Forall blank t -> t <> [] -> r <> [] /\ hd EOF r <> HASH.
Proof.
  intros H u. revert l H. induction u as [|c0 u IH]; intros l H c t r -> W B NT.
  - cbn [app ends_ok] in H. apply andb_true_iff in H as [H _]. apply orb_true_iff in H as [H|H]; [apply is_ws_white in H; contradiction|].
    destruct t as [|e t]; [congruence|]. cbn [app] in H. inversion B as [|? ? Be Bt]; subst. pose proof (proj2 (is_blank_iff e) Be) as Be'. rewrite Be' in H. cbn [negb orb] in H.
    change (e :: t ++ r) with ((e :: t) ++ r) in H. rewrite skip_blank in H by exact B. destruct (skip_spec r) as (t' & E & F).
    destruct (skip r) as [|h s]; [discriminate|]. destruct t' as [|q t'].
    + cbn [app] in E. subst r. split; [discriminate|]. cbn [hd]. apply negb_true_iff in H. now apply N.eqb_neq.
    + rewrite E. split; [discriminate|]. cbn [app hd]. inversion F as [|? ? Bq _]; subst. intros ->. unfold blank, HASH in Bq. cbn in Bq. lia.
  - cbn [app ends_ok] in H. apply andb_true_iff in H as [_ H]. eapply IH; [exact H|reflexivity|..]; assumption.
Qed.
Lemma comment_checked l : comment_ok l = true -> comment_line l.
Proof.
  unfold comment_ok. destruct (skip_spec l) as (t & E & F). destruct (skip l) as [|h r]; [discriminate|]. rewrite andb_true_iff, negb_true_iff. intros [A B].
  apply N.eqb_eq in A as ->. exists t, r. split; [exact E|]. split; [exact F|]. intros q I J. apply not_true_iff_false in B. apply B. apply existsb_exists.
  exists q. split; [exact I|]. apply existsb_exists. exists q. split; [exact J|apply N.eqb_refl].
Qed.
Lemma split_lines_cons x : exists l ls, split_lines x = l :: ls.
Proof. destruct x as [|c r]; cbn [split_lines]; [eauto|]. destruct (c =? NEWLINE); [eauto|]. destruct (split_lines r); eauto. Qed.
Lemma split_lines_hd l z : ~ In NEWLINE l -> (z = [] \/ hd EOF z = NEWLINE) -> exists ls, split_lines (l ++ z) = l :: ls.
Proof.
  intros N Z. induction l as [|c l IH].
  - destruct Z as [->|Z]; [now exists []|]. destruct z as [|c z]; [discriminate|]. cbn in Z. subst c. cbn. eauto.
  - destruct IH as [ls E]; [intros I; apply N; now right|]. cbn [app split_lines]. destruct (N.eqb_spec c NEWLINE) as [->|C]; [elim N; now left|]. rewrite E. eauto.
Qed.
Lemma split_lines_app u x : exists a p, split_lines (u ++ NEWLINE :: x) = a :: p ++ split_lines x.
Proof.
  induction u as [|c u (a & p & IH)]; [exists [], []; reflexivity|]. cbn [app split_lines]. rewrite IH. destruct (c =? NEWLINE); [exists [], (a :: p)|exists (c :: a), p]; reflexivity.
Qed.
Lemma tidy_checked x : tidy_check x = true -> tidy x.
Proof.
  unfold tidy_check. rewrite forallb_forall. intros H u l z -> U NL Z. assert (I : In l (split_lines (u ++ l ++ z))).
  { destruct (split_lines_hd l z NL Z) as [ls E]. destruct U as [->|[u' ->]]; [change (In l (split_lines (l ++ z))); unfold bytes, byte in *; rewrite E; now left|]. rewrite <- app_assoc. cbn [app].
    destruct (split_lines_app u' (l ++ z)) as (a & p & ->). right. apply in_or_app. right. unfold bytes, byte in *. rewrite E. now left. }
  apply H in I. apply orb_true_iff in I as [I|I]; [left; now apply comment_checked|right; now apply ends_checked].
Qed.

(* The values of a collection, and the value at a place, computed. *)
Section Spot.
Variable d : data.
Fixpoint collect {A} (item : option nat -> outcome (option A)) (it : list nat) : option (list A) := match it with
  | [] => Some []
  | i :: it => match item (Some i) with Ok (Some x) => match collect item it with Some l => Some (x :: l) | None => None end | _ => None end
  end.
Definition map_list (id : nat) : option (list (bytes * nat)) := match map_iter d id with Ok it => collect (map_item_opt d) it | _ => None end.
Definition seq_list (id : nat) : option (list nat) := match seq_iter d id with Ok it => collect (seq_item_opt d) it | _ => None end.
Lemma collected {A} (item : option nat -> outcome (option A)) : item None = Ok None -> (forall i, item (Some i) <> Ok None) ->
  forall it l, collect item it = Some l <-> yields (fun it => iter_step item (sl_next it)) it l.
Proof.
  intros H0 H1. induction it as [|i it IH]; intros l; cbn [collect].
  - split; [intros [= <-]; apply yields_end with (it' := []); unfold iter_step; cbn [sl_next fst snd]; now rewrite H0|].
    intros Y. inversion Y as [? ? E|? ? ? ? E]; subst; [reflexivity|]. unfold iter_step in E. cbn [sl_next fst snd] in E. rewrite H0 in E. discriminate E.
  - split.
    + destruct (item (Some i)) as [[x|]|? ? ?| | |] eqn:E; try discriminate. destruct (collect _ it) as [l'|] eqn:E'; [|discriminate]. intros [= <-].
      eapply yields_item; [unfold iter_step; cbn [sl_next fst snd]; rewrite E; reflexivity|]. now apply IH.
    + intros Y. inversion Y as [? it' E|? it' x l' E Y']; subst; unfold iter_step in E; cbn [sl_next fst snd] in E; pose proof (H1 i) as Hi;
        destruct (item (Some i)) as [[y|]|? ? ?| | |] eqn:EE; try discriminate; try congruence.
      injection E as <- <-. apply IH in Y'. now rewrite Y'.
Qed.
Lemma map_listed id l : map_list id = Some l <-> map_entries d id l.
Proof.
  unfold map_list, map_entries. pose proof (collected (map_item_opt d)) as C. specialize (C eq_refl). 
  assert (H : forall i, map_item_opt d (Some i) <> Ok None).
  { intros i. cbn. destruct (mapping_item d i) as [[k v]|? ? ?| | |]; try discriminate. cbn. destruct (str d (rs_id k)); discriminate. }
  specialize (C H). split.
  - destruct (map_iter d id) as [it|? ? ?| | |]; try discriminate. intros E. exists it. split; [reflexivity|]. now apply C.
  - intros (it & -> & Y). now apply C.
Qed.
Lemma seq_listed id l : seq_list id = Some l <-> seq_entries d id l.
Proof.
  unfold seq_list, seq_entries. pose proof (collected (seq_item_opt d)) as C. specialize (C eq_refl).
  assert (H : forall i, seq_item_opt d (Some i) <> Ok None).
  { intros i. cbn. destruct (sequence_item d i) as [v|? ? ?| | |]; discriminate. }
  specialize (C H). split.
  - destruct (seq_iter d id) as [it|? ? ?| | |]; try discriminate. intros E. exists it. split; [reflexivity|]. now apply C.
  - intros (it & -> & Y). now apply C.
Qed.
Definition kids (id : nat) : list nat := match map_list id with Some l => map snd l | None => match seq_list id with Some l => l | None => [] end end.
Lemma kids_map id l : map_entries d id l -> kids id = map snd l.
Proof. intros M. apply map_listed in M. unfold kids. now rewrite M. Qed.
Lemma kids_seq id l : seq_entries d id l -> kids id = l.
Proof.
  intros M. unfold kids. destruct (map_list id) as [l'|] eqn:E.
  - exfalso. apply map_listed in E. destruct E as (it & E & _), M as (it' & E' & _). unfold map_iter, seq_iter, mapping, Data.sequence in *.
    destruct (get_raw d id) as [[]|? ? ?| | |]; discriminate.
  - apply seq_listed in M. now rewrite M.
Qed.
End Spot.
Fixpoint spot (d : data) (id : nat) (p : list nat) : option nat := match p with
  | [] => Some id
  | j :: p => match nth_error (kids d id) j with Some x => spot d x p | None => None end
  end.
Lemma spot_app d id p q : spot d id (p ++ q) = match spot d id p with Some x => spot d x q | None => None end.
Proof. revert id. induction p as [|j p IH]; intros id; [reflexivity|]. cbn [app spot]. destruct (nth_error _ j); [apply IH|reflexivity]. Qed.
Lemma place_spot doc p id : place doc p id -> spot (doc_data doc) (doc_root doc) p = Some id.
Proof.
  induction 1 as [|p id l j k x _ IH M E|p id l j x _ IH M E]; [reflexivity|..]; rewrite spot_app, IH; cbn [spot].
  - rewrite (kids_map _ _ _ M). apply (map_nth_error snd) in E. now rewrite E.
  - rewrite (kids_seq _ _ _ M). now rewrite E.
Qed.
Lemma spot_place doc p id : spot (doc_data doc) (doc_root doc) p = Some id -> place doc p id.
Proof.
  revert id. induction p as [|j p IH] using rev_ind; intros id; [intros [= <-]; constructor|].
  rewrite spot_app. destruct (spot _ _ p) as [x|]; [|discriminate]. specialize (IH _ eq_refl). cbn [spot]. unfold kids.
  destruct (map_list _ x) as [l|] eqn:E.
  - apply map_listed in E. rewrite nth_error_map. destruct (nth_error l j) as [[k y]|] eqn:EN; [|discriminate]. intros [= <-]. eapply place_map; eauto.
  - destruct (seq_list _ x) as [l|] eqn:E'; [|destruct j; discriminate]. apply seq_listed in E'. destruct (nth_error l j) as [y|] eqn:EN; [|discriminate]. intros [= <-]. eapply place_seq; eauto.
Qed.

(* What is printed at a place, and at all places below it. *)
Definition shown_at (doc : document) (id : nat) (f : bytes -> bool) : bool := match value_write_to (doc_data doc) id with Ok y => f y | _ => true end.
Definition hd_in (l y : bytes) : bool := existsb (N.eqb (hd EOF y)) l.
Lemma hd_in_iff l y : hd_in l y = true <-> In (hd EOF y) l.
Proof. unfold hd_in. rewrite existsb_exists. split; [intros (x & I & E); apply N.eqb_eq in E; now rewrite E|intros I; eexists; split; [exact I|apply N.eqb_refl]]. Qed.
Fixpoint outside_check (doc : document) (id : nat) (p : list nat) : bool := match p with
  | [] => true
  | j :: p => shown_at doc id (fun y => negb (hd_in (b "[{") y)) && match nth_error (kids (doc_data doc) id) j with Some x => outside_check doc x p | None => true end
  end.
Lemma outside_checked doc p : outside_check doc (doc_root doc) p = true -> outside doc p.
Proof.
  intros H q r id y -> NR P PR. apply place_spot in P. revert H P. generalize (doc_root doc). induction q as [|j q IH]; intros x H P.
  - injection P as ->. destruct r as [|j r]; [congruence|]. cbn [app outside_check] in H. apply andb_true_iff in H as [H _]. unfold shown_at in H. rewrite PR in H.
    apply negb_true_iff, not_true_iff_false in H. now rewrite hd_in_iff in H.
  - cbn [app outside_check spot] in H, P. apply andb_true_iff in H as [_ H]. destruct (nth_error _ j) as [x'|]; [|discriminate]. now apply (IH x').
Qed.
Fixpoint below (fuel : nat) (doc : document) (id : nat) (f : bytes -> bool) : bool := match fuel with
  | O => false
  | S fuel => shown_at doc id f && forallb (fun x => below fuel doc x f) (kids (doc_data doc) id)
  end.
Lemma below_all f doc : forall fuel id, below fuel doc id f = true -> forall q x y, spot (doc_data doc) id q = Some x -> prints doc x y -> f y = true.
Proof.
  induction fuel as [|fuel IH]; intros id H q x y SP PR; [discriminate|]. cbn [below] in H. apply andb_true_iff in H as [H1 H2]. destruct q as [|j q].
  - injection SP as ->. unfold shown_at in H1. now rewrite PR in H1.
  - cbn [spot] in SP. destruct (nth_error _ j) as [z|] eqn:E; [|discriminate]. apply nth_error_In in E. rewrite forallb_forall in H2. eapply IH; [apply H2; exact E|exact SP|exact PR].
Qed.
Definition below_check (doc : document) (p : list nat) (f : bytes -> bool) : bool :=
  match spot (doc_data doc) (doc_root doc) p with Some id => below 100 doc id f | None => true end.
Lemma below_place doc p f : below_check doc p f = true -> forall q id y, place doc (p ++ q) id -> prints doc id y -> f y = true.
Proof.
  unfold below_check. intros H q id y P PR. apply place_spot in P. rewrite spot_app in P. destruct (spot _ _ p) as [x|]; [|discriminate]. eapply below_all; eauto.
Qed.
Lemma lines_checked doc p : below_check doc p (fun y => negb (hd_in (b "|>") y)) = true -> in_lines doc p.
Proof. intros H q id y P PR. pose proof (below_place _ _ _ H _ _ _ P PR) as Q. cbn beta in Q. now rewrite negb_true_iff, <- not_true_iff_false, hd_in_iff in Q. Qed.
Lemma filled_checked doc p : below_check doc p (fun y => match y with [] => false | _ => true end) = true -> filled doc p.
Proof. intros H q id y P PR. pose proof (below_place _ _ _ H _ _ _ P PR) as Q. cbn beta in Q. intros ->. discriminate. Qed.
Lemma place_same doc p id id' : place doc p id -> place doc p id' -> id = id'.
Proof. intros P P'. apply place_spot in P, P'. congruence. Qed.

(* What the API shows of a value, computed. *)
Fixpoint peek (fuel : nat) (d : data) (id : nat) {struct fuel} : option datum := match fuel with
  | O => None
  | S fuel => match as_any d id with
    | Ok ANull => Some DNull
    | Ok (ABool v) => Some (DBool v)
    | Ok (ANumber s h) => Some (DNum s h)
    | Ok (AString s) => Some (DStr s)
    | Ok (AMapping i) => if Nat.eqb i id then match map_list d id with
      | Some l => option_map DMap ((fix go l := match l with
        | [] => Some []
        | (k, x) :: l => match peek fuel d x with Some y => match go l with Some r => Some ((k, y) :: r) | None => None end | None => None end
        end) l)
      | None => None
      end else None
    | Ok (ASequence i) => if Nat.eqb i id then match seq_list d id with
      | Some l => option_map DSeq ((fix go l := match l with
        | [] => Some []
        | x :: l => match peek fuel d x with Some y => match go l with Some r => Some (y :: r) | None => None end | None => None end
        end) l)
      | None => None
      end else None
    | _ => None
    end
  end.
Lemma peek_shows : forall fuel d id x, peek fuel d id = Some x -> shows d id x.
Proof.
  induction fuel as [|fuel IH]; intros d id x E; [discriminate|]. cbn [peek] in E. destruct (as_any d id) as [a|? ? ?| | |] eqn:A; try discriminate. destruct a as [|v|s h|s|i|i|i]; try discriminate.
  - injection E as <-. now constructor.
  - injection E as <-. now constructor.
  - injection E as <-. now constructor.
  - injection E as <-. now constructor.
  - destruct (Nat.eqb_spec i id) as [->|]; [|discriminate]. destruct (map_list d id) as [l|] eqn:L; [|discriminate]. apply map_listed in L.
    match type of E with option_map _ (?f l) = _ => set (go := f) in E end. destruct (go l) as [r|] eqn:G; [|discriminate]. injection E as <-. eapply sh_map; [exact A|exact L|].
    clear L A. revert r G. induction l as [|[k y] l IHl]; intros r G; cbn in G; [injection G as <-; constructor|]. destruct (peek fuel d y) as [z|] eqn:Y; [|discriminate]. fold go in G.
    destruct (go l) as [r'|]; [|discriminate]. injection G as <-. constructor; [now apply IH|now apply IHl].
  - destruct (Nat.eqb_spec i id) as [->|]; [|discriminate]. destruct (seq_list d id) as [l|] eqn:L; [|discriminate]. apply seq_listed in L.
    match type of E with option_map _ (?f l) = _ => set (go := f) in E end. destruct (go l) as [r|] eqn:G; [|discriminate]. injection E as <-. eapply sh_seq; [exact A|exact L|].
    clear L A. revert r G. induction l as [|y l IHl]; intros r G; cbn in G; [injection G as <-; constructor|]. destruct (peek fuel d y) as [z|] eqn:Y; [|discriminate]. fold go in G.
    destruct (go l) as [r'|]; [|discriminate]. injection G as <-. constructor; [now apply IH|now apply IHl].
Qed.
(* Data up to the type hints of numbers. *)
Fixpoint bare (x : datum) : datum := match x with
  | DNum s _ => DNum s Float32
  | DMap l => DMap (map (fun '(k, x) => (k, bare x)) l)
  | DSeq l => DSeq (map bare l)
  | _ => x
  end.
Fixpoint sim_bare x y (H : sim x y) {struct H} : bare x = bare y.
Proof.
  destruct H as [|v|s h h'|s|l l' F|l l' F]; try reflexivity.
  - cbn [bare]. f_equal. induction F as [|[k x] [k' y] l l' [E H] F IH]; [reflexivity|]. cbn [map fst snd] in *. subst k'. rewrite (sim_bare _ _ H). now f_equal.
  - cbn [bare]. f_equal. induction F as [|x y l l' H F IH]; [reflexivity|]. cbn [map]. rewrite (sim_bare _ _ H). now f_equal.
Qed.
Fixpoint sim_refl x : sim x x.
Proof.
  destruct x as [|v|s h|s|l|l]; try constructor.
  - induction l as [|[k x] l IH]; constructor; [split; [reflexivity|apply sim_refl]|exact IH].
  - induction l as [|x l IH]; constructor; [apply sim_refl|exact IH].
Qed.
