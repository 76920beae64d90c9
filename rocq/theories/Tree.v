(* Documents as trees. The crate stores values in a slab, linked by ids; here a document is a
   tree whose nodes carry their id, and [models] says that the slab holds exactly the nodes of
   the tree. Rendering a tree needs no store. *)
From Coq Require Import List NArith Bool Arith Lia Permutation.
From Verif Require Import Bytes Utf8 Data Slab Render.
Import ListNotations.

(* ---- change of the type of strings ---- *)
Section SMap.
Context {S T : Type} (f : S -> T).
Definition nmap (n : nullk S) : nullk T :=
  match n with NKeyword s => NKeyword (f s) | NTilde => NTilde | NEmpty => NEmpty end.
Definition kmap (k : strk S) : strk T :=
  match k with
  | KBare => KBare | KSingle => KSingle | KDouble => KDouble | KOriginal => KOriginal
  | KMultiline p => KMultiline (f p)
  end.
Definition rsmap (r : rstr S) : rstr T := RS (kmap (rs_kind r)) (f (rs_id r)) (f (rs_orig r)).
Definition scmap (s : scalar S) : scalar T :=
  match s with
  | ScNull n => ScNull (nmap n)
  | ScBool v s => ScBool v (f s)
  | ScNum s h => ScNum (f s) h
  | ScStr r => ScStr (rsmap r)
  end.
Definition ckmap (k : ckind S) : ckind T :=
  match k with CBlock => CBlock | CInline t s => CInline t (f s) end.
End SMap.

(* The strings of a scalar or a collection kind. *)
Definition rs_strings {S} (r : rstr S) : list S :=
  match rs_kind r with KMultiline p => [p] | _ => [] end ++ [rs_id r; rs_orig r].
Definition sc_strings {S} (s : scalar S) : list S :=
  match s with
  | ScNull (NKeyword s) => [s]
  | ScNull _ => []
  | ScBool _ s => [s]
  | ScNum s _ => [s]
  | ScStr r => rs_strings r
  end.
Definition ck_strings {S} (k : ckind S) : list S :=
  match k with CBlock => [] | CInline _ s => [s] end.

(* ---- trees; I is the type of ids ---- *)
Inductive tree (I : Type) :=
| TLeaf (i : I) (pre : bytes) (s : scalar bytes)
| TMap (i : I) (pre : bytes) (ind : nat) (k : ckind bytes) (items : list (I * bytes * rstr bytes * tree I))
| TSeq (i : I) (pre : bytes) (ind : nat) (k : ckind bytes) (items : list (I * bytes * tree I)).
Arguments TLeaf {I} _ _ _.
Arguments TMap {I} _ _ _ _ _.
Arguments TSeq {I} _ _ _ _ _.

Definition mitem I := (I * bytes * rstr bytes * tree I)%type.
Definition sitem I := (I * bytes * tree I)%type.

Section TreeInd.
Context {I : Type} (P : tree I -> Prop).
Hypothesis HL : forall i pre s, P (TLeaf i pre s).
Hypothesis HM : forall i pre ind k items, Forall (fun it : mitem I => P (snd it)) items -> P (TMap i pre ind k items).
Hypothesis HS : forall i pre ind k items, Forall (fun it : sitem I => P (snd it)) items -> P (TSeq i pre ind k items).
Fixpoint tree_ind' (t : tree I) : P t :=
  match t with
  | TLeaf i pre s => HL i pre s
  | TMap i pre ind k items =>
    HM i pre ind k items
      ((fix go (l : list (mitem I)) : Forall (fun it => P (snd it)) l :=
          match l with
          | [] => Forall_nil _
          | it :: l => Forall_cons it (tree_ind' (snd it)) (go l)
          end) items)
  | TSeq i pre ind k items =>
    HS i pre ind k items
      ((fix go (l : list (sitem I)) : Forall (fun it => P (snd it)) l :=
          match l with
          | [] => Forall_nil _
          | it :: l => Forall_cons it (tree_ind' (snd it)) (go l)
          end) items)
  end.
End TreeInd.

Definition tid {I} (t : tree I) : I :=
  match t with TLeaf i _ _ | TMap i _ _ _ _ | TSeq i _ _ _ _ => i end.
Definition tpre {I} (t : tree I) : bytes :=
  match t with TLeaf _ p _ | TMap _ p _ _ _ | TSeq _ p _ _ _ => p end.

Fixpoint tmap {I J} (f : I -> J) (t : tree I) : tree J :=
  match t with
  | TLeaf i p s => TLeaf (f i) p s
  | TMap i p n k items => TMap (f i) p n k (map (fun '(ii, ip, key, v) => (f ii, ip, key, tmap f v)) items)
  | TSeq i p n k items => TSeq (f i) p n k (map (fun '(ii, ip, v) => (f ii, ip, tmap f v)) items)
  end.
(* Forget the ids. *)
Definition shape {I} (t : tree I) : tree unit := tmap (fun _ => tt) t.

Fixpoint depth {I} (t : tree I) : nat :=
  match t with
  | TLeaf _ _ _ => 0
  | TMap _ _ _ _ items => S (list_max (map (fun it => depth (snd it)) items))
  | TSeq _ _ _ _ items => S (list_max (map (fun it => depth (snd it)) items))
  end.

(* All strings of a tree. *)
Fixpoint strings {I} (t : tree I) : list bytes :=
  tpre t ::
  match t with
  | TLeaf _ _ s => sc_strings s
  | TMap _ _ _ k items =>
    ck_strings k ++ flat_map (fun '(_, ip, key, v) => ip :: rs_strings key ++ strings v) items
  | TSeq _ _ _ k items =>
    ck_strings k ++ flat_map (fun '(_, ip, v) => ip :: strings v) items
  end.

Definition mitem_id {I} (it : mitem I) : I := fst (fst (fst it)).
Definition sitem_id {I} (it : sitem I) : I := fst (fst it).

Lemma beq_eq x : forall y, beq x y = true <-> x = y.
Proof.
  induction x as [|a x IH]; intros [|c y]; cbn; split; intros H; try congruence; try discriminate.
  - apply andb_prop in H as [H1 H2]. apply N.eqb_eq in H1. apply IH in H2. congruence.
  - injection H as -> ->. rewrite N.eqb_refl. cbn. now apply IH.
Qed.
Lemma beq_refl x : beq x x = true.
Proof. now apply beq_eq. Qed.
Lemma beq_neq x y : beq x y = false <-> x <> y.
Proof. rewrite <- beq_eq. destruct (beq x y); split; congruence. Qed.

Section Cells.
Variable hash : bytes -> sid.

(* The slab entries of a tree. *)
Definition traw (t : tree nat) : raw sid :=
  match t with
  | TLeaf _ _ s => RScalar (scmap hash s)
  | TMap _ _ n k items => RMap n (ckmap hash k) (map mitem_id items)
  | TSeq _ _ n k items => RSeq n (ckmap hash k) (map sitem_id items)
  end.
Definition tentry (par : option nat) (t : tree nat) : entry := Entry (traw t) (hash (tpre t)) par.
Fixpoint cells (par : option nat) (t : tree nat) : list (nat * entry) :=
  (tid t, tentry par t) ::
  match t with
  | TLeaf _ _ _ => []
  | TMap i _ _ _ items =>
    flat_map (fun '(ii, ip, key, v) =>
                (ii, Entry (RMapItem (rsmap hash key) (tid v)) (hash ip) (Some i)) :: cells (Some ii) v) items
  | TSeq i _ _ _ items =>
    flat_map (fun '(ii, ip, v) =>
                (ii, Entry (RSeqItem (tid v)) (hash ip) (Some i)) :: cells (Some ii) v) items
  end.
Definition mcells (i : nat) (it : mitem nat) : list (nat * entry) :=
  let '(ii, ip, key, v) := it in
  (ii, Entry (RMapItem (rsmap hash key) (tid v)) (hash ip) (Some i)) :: cells (Some ii) v.
Definition scells (i : nat) (it : sitem nat) : list (nat * entry) :=
  let '(ii, ip, v) := it in
  (ii, Entry (RSeqItem (tid v)) (hash ip) (Some i)) :: cells (Some ii) v.
Definition kids (t : tree nat) : list (nat * entry) :=
  match t with
  | TLeaf _ _ _ => []
  | TMap i _ _ _ items => flat_map (mcells i) items
  | TSeq i _ _ _ items => flat_map (scells i) items
  end.
Lemma cells_eq par t : cells par t = (tid t, tentry par t) :: kids t.
Proof. destruct t; reflexivity. Qed.

(* ---- the string table ---- *)
(* s has been interned. *)
Definition logged (d : data) (s : bytes) : Prop := In (hash s, s) (d_strings d).
(* The id of s yields s. *)
Definition interned (d : data) (s : bytes) : Prop := assoc (hash s) (d_strings d) = Some s.
Definition ext (d d' : data) : Prop := forall s, logged d s -> logged d' s.
Definition table_ok (d : data) : Prop := forall k s, In (k, s) (d_strings d) -> k = hash s.
(* No two strings interned so far have the same hash. *)
Definition no_collision (d : data) : Prop :=
  forall x y, In x (map snd (d_strings d)) -> In y (map snd (d_strings d)) -> hash x = hash y -> x = y.
Lemma ext_refl d : ext d d. Proof. intros s H; exact H. Qed.
Lemma ext_trans d1 d2 d3 : ext d1 d2 -> ext d2 d3 -> ext d1 d3.
Proof. intros H1 H2 s H. auto. Qed.
Lemma ext_all d d' l : ext d d' -> Forall (logged d) l -> Forall (logged d') l.
Proof. intros E. apply Forall_impl. exact E. Qed.
Lemma assoc_in k l s : assoc k l = Some s -> In (k, s) l.
Proof.
  induction l as [|[k' v] l IH]; cbn; [discriminate|]. destruct (beq k k') eqn:B; [|auto].
  apply beq_eq in B. intros H; injection H as ->. left. congruence.
Qed.
Lemma in_assoc k l s : In (k, s) l -> exists s', assoc k l = Some s'.
Proof.
  induction l as [|[k' v] l IH]; cbn; [tauto|]. destruct (beq k k') eqn:B; [eauto|].
  intros [E|H]; [|auto]. injection E as -> ->. rewrite beq_refl in B. discriminate.
Qed.
Lemma logged_interned d s : table_ok d -> no_collision d -> logged d s -> interned d s.
Proof.
  intros T N L. destruct (in_assoc _ _ _ L) as [s' E]. unfold interned. rewrite E. f_equal.
  apply assoc_in in E. apply N; [now apply (in_map snd) in E|now apply (in_map snd) in L|].
  apply T in E. congruence.
Qed.
Lemma insert_str_ok x d : table_ok d -> exists d', insert_str hash x d = Ok (hash x, d') /\
  d_slab d' = d_slab d /\ table_ok d' /\ ext d d' /\ logged d' x.
Proof.
  intros T. unfold insert_str. destruct (assoc (hash x) (d_strings d)) as [y|] eqn:E.
  - destruct (beq x y) eqn:B.
    + apply beq_eq in B as <-. exists d. repeat split; auto; [apply ext_refl|]. now apply assoc_in.
    + eexists. split; [reflexivity|]. split; [reflexivity|]. unfold table_ok, ext, logged. cbn. repeat split.
      * intros k s. rewrite in_app_iff. intros [H|[H|[]]]; [now apply T|]. now injection H as <- <-.
      * intros s H. apply in_or_app. now left.
      * apply in_or_app. right. now left.
  - eexists. split; [reflexivity|]. split; [reflexivity|]. unfold table_ok, ext, logged. cbn. repeat split; auto.
    intros k s [H|H]; [now injection H as <- <-|now apply T].
Qed.
Lemma no_collision_ext d d' : incl (d_strings d) (d_strings d') -> no_collision d' -> no_collision d.
Proof.
  intros I N x y X Y. apply N.
  - apply in_map_iff in X as (p & <- & P). apply in_map, I, P.
  - apply in_map_iff in Y as (p & <- & P). apply in_map, I, P.
Qed.
Lemma inj_no_collision d : (forall x y, hash x = hash y -> x = y) -> no_collision d.
Proof. intros H x y _ _. apply H. Qed.

(* The slab contains at least the entries L. *)
Definition holds (d : data) (L : list (nat * entry)) : Prop :=
  forall k e, In (k, e) L -> slab_get (d_slab d) k = Some e.
Lemma holds_app d L L' : holds d (L ++ L') -> holds d L /\ holds d L'.
Proof. intros H; split; intros k e I; apply H, in_or_app; auto. Qed.
Lemma holds_cons d k e L : holds d ((k, e) :: L) -> slab_get (d_slab d) k = Some e /\ holds d L.
Proof. intros H; split; [apply H; now left|]. intros k' e' I; apply H; now right. Qed.

(* The slab of d holds exactly the nodes of t, and the string table all its strings. *)
Definition models_at (par : option nat) (d : data) (t : tree nat) : Prop :=
  has (d_slab d) (cells par t) /\ table_ok d /\ Forall (logged d) (strings t).
Definition models (doc : document) (t : tree nat) (suffix : bytes) : Prop :=
  models_at None (doc_data doc) t /\ doc_root doc = tid t /\
  doc_suffix doc = hash suffix /\ logged (doc_data doc) suffix.
End Cells.

(* ---- rendering trees ---- *)
Definition wstr (r : rstr bytes) : bytes :=
  match rs_kind r with
  | KBare => rs_id r
  | KDouble => esc_double (rs_id r)
  | KSingle => esc_single (rs_id r)
  | KOriginal => rs_orig r
  | KMultiline p => p ++ rs_orig r
  end.
Definition wscalar (s : scalar bytes) : bytes :=
  match s with
  | ScNull (NKeyword s) => s
  | ScNull NTilde => [TILDE]
  | ScNull NEmpty => []
  | ScBool _ s => s
  | ScNum s _ => s
  | ScStr r => wstr r
  end.
(* Concatenation with a separator. *)
Fixpoint sep (c : bytes) (l : list bytes) : bytes :=
  match l with
  | [] => []
  | x :: r => x ++ match r with [] => [] | _ => c end ++ sep c r
  end.
Definition closing (f : bytes -> bytes) (c : byte) (k : ckind bytes) : bytes :=
  match k with
  | CInline trailing suffix => (if trailing then [COMMA] else []) ++ f suffix ++ [c]
  | CBlock => []
  end.
Definition dash_if {S} (k : ckind S) : bytes := match k with CBlock => [DASH] | _ => [] end.
(* What write_to writes for a value, without the white space before it. *)
Fixpoint wtree {I} (t : tree I) : bytes :=
  match t with
  | TLeaf _ _ s => wscalar s
  | TMap _ _ _ k items =>
    open_if LBRACE k ++
    sep (comma_if k) (map (fun '(_, ip, key, v) => ip ++ wstr key ++ [COLON] ++ tpre v ++ wtree v) items) ++
    closing (fun x => x) RBRACE k
  | TSeq _ _ _ k items =>
    open_if LBRACK k ++
    sep (comma_if k) (map (fun '(_, ip, v) => lossy ip ++ dash_if k ++ tpre v ++ wtree v) items) ++
    closing (fun x => x) RBRACK k
  end.
Definition wdoc {I} (t : tree I) (suffix : bytes) : bytes := tpre t ++ wtree t ++ suffix.

Definition dstr (r : rstr bytes) : bytes :=
  match rs_kind r with
  | KBare => lossy (rs_id r)
  | KDouble => esc_double_disp (rs_id r)
  | KSingle => esc_single_disp (rs_id r)
  | KOriginal => lossy (rs_orig r)
  | KMultiline p => lossy p ++ lossy (rs_orig r)
  end.
Definition dscalar (s : scalar bytes) : bytes :=
  match s with
  | ScNull (NKeyword s) => lossy s
  | ScNull NTilde => [TILDE]
  | ScNull NEmpty => []
  | ScBool _ s => lossy s
  | ScNum s _ => lossy s
  | ScStr r => dstr r
  end.
(* Display leaves out the white space before empty nulls and empty block collections. *)
Definition is_blank {I} (t : tree I) : bool :=
  match t with
  | TLeaf _ _ (ScNull NEmpty) | TMap _ _ _ CBlock [] | TSeq _ _ _ CBlock [] => true
  | _ => false
  end.
Definition dpre {I} (t : tree I) : bytes := if is_blank t then [] else lossy (tpre t).
Fixpoint dtree {I} (t : tree I) : bytes :=
  match t with
  | TLeaf _ _ s => dscalar s
  | TMap _ _ _ k items =>
    open_if LBRACE k ++
    sep (comma_if k) (map (fun '(_, ip, key, v) => lossy ip ++ dstr key ++ [COLON] ++ dpre v ++ dtree v) items) ++
    closing lossy RBRACE k
  | TSeq _ _ _ k items =>
    open_if LBRACK k ++
    sep (comma_if k) (map (fun '(_, ip, v) => lossy ip ++ dash_if k ++ dpre v ++ dtree v) items) ++
    closing lossy RBRACK k
  end.
Definition ddoc {I} (t : tree I) (suffix : bytes) : bytes := lossy (tpre t) ++ dtree t ++ lossy suffix.

(* ---- the model's renderers compute the renderings of the tree ---- *)
Section RenderTree.
Variable hash : bytes -> sid.
Variable d : data.
Local Notation interned := (interned hash d).
Local Notation cells := (cells hash).
Local Notation traw := (traw hash).

Lemma interned_str s : interned s -> str d (hash s) = Ok s.
Proof. unfold interned, str. intros ->. reflexivity. Qed.
Lemma cat_ok x y : Ok x +++ Ok y = Ok (x ++ y).
Proof. reflexivity. Qed.

Lemma write_string_tree r : Forall interned (rs_strings r) -> write_string d (rsmap hash r) = Ok (wstr r).
Proof.
  unfold rs_strings, write_string, wstr. intros H. destruct r as [k i o]; cbn in *.
  destruct k; cbn in *; repeat match goal with H : Forall _ (_ :: _) |- _ => inversion H; clear H; subst end;
  rewrite ?interned_str by assumption; reflexivity.
Qed.
Lemma disp_string_tree r : Forall interned (rs_strings r) -> disp_string d (rsmap hash r) = Ok (dstr r).
Proof.
  unfold rs_strings, disp_string, dstr, show. intros H. destruct r as [k i o]; cbn in *.
  destruct k; cbn in *; repeat match goal with H : Forall _ (_ :: _) |- _ => inversion H; clear H; subst end;
  rewrite ?interned_str by assumption; reflexivity.
Qed.
Lemma write_scalar_tree s : Forall interned (sc_strings s) -> write_scalar d (scmap hash s) = Ok (wscalar s).
Proof.
  destruct s as [[s| |]|v s|s h|r]; cbn; intros H; try reflexivity;
  try (apply interned_str; now inversion H). now apply write_string_tree.
Qed.
Lemma close_tree f c k : Forall interned (ck_strings k) ->
  close_with d f c (ckmap hash k) = Ok (closing f c k).
Proof.
  destruct k as [|t s]; cbn; intros H; [reflexivity|]. inversion H; subst.
  rewrite interned_str by assumption. reflexivity.
Qed.
Lemma comma_if_map (k : ckind bytes) : comma_if (ckmap hash k) = comma_if k.
Proof. destruct k; reflexivity. Qed.
Lemma open_if_map c (k : ckind bytes) : open_if c (ckmap hash k) = open_if c k.
Proof. destruct k; reflexivity. Qed.

Lemma holds_tree par t :
  holds d (cells par t) ->
  get_raw d (tid t) = Ok (traw t) /\ prefix_id d (tid t) = Ok (hash (tpre t)) /\
  parent_id d (tid t) = Ok par /\ get_entry d (tid t) = Ok (tentry hash par t).
Proof.
  rewrite cells_eq. intros H. apply holds_cons in H as [H _].
  unfold get_raw, prefix_id, parent_id, get_entry. rewrite H. auto.
Qed.
Lemma strings_pre {I} (t : tree I) : In (tpre t) (strings t).
Proof. destruct t; now left. Qed.
Lemma holds_pre par t :
  holds d (cells par t) -> Forall interned (strings t) -> pre d (tid t) = Ok (tpre t).
Proof.
  intros H S. apply holds_tree in H as (_ & H & _).
  unfold pre, prefix. rewrite H. apply interned_str.
  rewrite Forall_forall in S. apply S, strings_pre.
Qed.



Lemma write_tree t : forall par f,
  holds d (cells par t) -> Forall interned (strings t) -> depth t < f ->
  write_raw d f (traw t) = Ok (wtree t).
Proof.
  induction t as [i p s|i p n k items IH|i p n k items IH] using tree_ind'; intros par f H S F;
    (destruct f as [|f]; [cbn in F; lia|]).
  - cbn. cbn in S. apply write_scalar_tree. now inversion S.
  - cbn [traw write_raw wtree]. rewrite open_if_map.
    cbn in S. inversion S as [|x y _ S']; subst. apply Forall_app in S' as [Sk Si].
    rewrite close_tree by exact Sk.
    assert (E : write_map_items d (write_raw d f) (ckmap hash k) (map mitem_id items) =
                Ok (sep (comma_if k) (map (fun '(_, ip, key, v) => ip ++ wstr key ++ [COLON] ++ tpre v ++ wtree v) items))).
    { cbn [depth] in F; cbn in H. apply holds_cons in H as [_ H]. apply -> Nat.succ_lt_mono in F.
      clear S Sk. revert H F Si. induction items as [|[[[ii ip] key] v] items IHi]; intros H F Si.
      - reflexivity.
      - cbn in H, Si. cbn [map snd list_max fold_right] in F.
        apply holds_cons in H as [Hi H]. apply holds_app in H as [Hv H].
        inversion IH as [|x y IHv IH']; subst. cbn in IHv.
        inversion Si as [|x y Sp Si']; subst. apply Forall_app in Si' as [Si' Sr].
        apply Forall_app in Si' as [Sk Sv].
        cbn [map write_map_items mitem_id fst].
        unfold pre at 1, prefix, prefix_id, mapping_item, get_raw, get_entry. rewrite Hi. cbn [e_prefix e_raw].
        rewrite interned_str by exact Sp.
        rewrite write_string_tree by exact Sk. unfold write_value.
        rewrite (holds_pre _ _ Hv Sv). unfold raw_of.
        destruct (holds_tree _ _ Hv) as (-> & _).
        rewrite (IHv _ f Hv Sv) by lia.
        rewrite IHi; [|assumption|assumption|unfold list_max; lia|assumption].
        rewrite comma_if_map. cbn [sep map]. rewrite !cat_ok.
        destruct items; cbn [map]; rewrite <- ?app_assoc; reflexivity. }
    rewrite E. reflexivity.
  - cbn [traw write_raw wtree]. rewrite open_if_map.
    cbn in S. inversion S as [|x y _ S']; subst. apply Forall_app in S' as [Sk Si].
    rewrite close_tree by exact Sk.
    assert (E : write_seq_items d (write_raw d f) (ckmap hash k) (map sitem_id items) =
                Ok (sep (comma_if k) (map (fun '(_, ip, v) => lossy ip ++ dash_if k ++ tpre v ++ wtree v) items))).
    { cbn [depth] in F; cbn in H. apply holds_cons in H as [_ H]. apply -> Nat.succ_lt_mono in F.
      clear S Sk. revert H F Si. induction items as [|[[ii ip] v] items IHi]; intros H F Si.
      - reflexivity.
      - cbn in H, Si. cbn [map snd list_max fold_right] in F.
        apply holds_cons in H as [Hi H]. apply holds_app in H as [Hv H].
        inversion IH as [|x y IHv IH']; subst. cbn in IHv.
        inversion Si as [|x y Sp Si']; subst. apply Forall_app in Si' as [Sv Sr].
        cbn [map write_seq_items sitem_id fst].
        unfold pre at 1, prefix, prefix_id, sequence_item, get_raw, get_entry. rewrite Hi. cbn [e_prefix e_raw].
        rewrite interned_str by exact Sp. unfold write_value.
        rewrite (holds_pre _ _ Hv Sv). unfold raw_of.
        destruct (holds_tree _ _ Hv) as (-> & _).
        rewrite (IHv _ f Hv Sv) by lia.
        rewrite IHi; [|assumption|assumption|unfold list_max; lia|assumption].
        rewrite comma_if_map. cbn [sep map omap].
        replace (match ckmap hash k with CBlock => [DASH] | CInline _ _ => [] end) with (dash_if k) by (destruct k; reflexivity).
        rewrite !cat_ok.
        destruct items; cbn [map]; rewrite <- ?app_assoc; reflexivity. }
    rewrite E. reflexivity.
Qed.

Lemma disp_tree t : forall par f p,
  holds d (cells par t) -> Forall interned (strings t) -> depth t < f ->
  p = None \/ p = Some (tid t) ->
  disp_raw d f (traw t) p = Ok ((if p then dpre t else []) ++ dtree t).
Proof.
  induction t as [i pr s|i pr n k items IH|i pr n k items IH] using tree_ind'; intros par f p H S F P;
    (destruct f as [|f]; [cbn in F; lia|]);
    assert (SP : show_pre d p = Ok (if p then lossy pr else []))
      by (destruct P as [->| ->]; [reflexivity|]; cbn [show_pre tid];
          pose proof (holds_pre _ _ H S) as X; cbn [tid tpre] in X; rewrite X; reflexivity).
  - cbn [traw disp_raw dtree]. cbn in S. inversion S as [|? ? _ S']; subst.
    destruct s as [[s| |]|v s|s h|r]; cbn [scmap nmap disp_scalar dscalar]; rewrite ?SP; unfold dpre; cbn [is_blank tpre].
    + cbn in S'. inversion S'; subst. unfold show. rewrite interned_str by assumption. reflexivity.
    + reflexivity.
    + destruct p; reflexivity.
    + cbn in S'. inversion S'; subst. unfold show. rewrite interned_str by assumption. reflexivity.
    + cbn in S'. inversion S'; subst. unfold show. rewrite interned_str by assumption. reflexivity.
    + rewrite disp_string_tree by exact S'. reflexivity.
  - cbn [traw disp_raw dtree]. rewrite open_if_map.
    cbn in S. inversion S as [|x y _ S']; subst. apply Forall_app in S' as [Sk Si].
    rewrite close_tree by exact Sk.
    assert (E : disp_map_items d (disp_raw d f) (ckmap hash k) (map mitem_id items) =
                Ok (sep (comma_if k) (map (fun '(_, ip, key, v) => lossy ip ++ dstr key ++ [COLON] ++ dpre v ++ dtree v) items))).
    { clear SP P. cbn [depth] in F; cbn in H. apply holds_cons in H as [_ H]. apply -> Nat.succ_lt_mono in F.
      clear S Sk. revert H F Si. induction items as [|[[[ii ip] key] v] items IHi]; intros H F Si.
      - reflexivity.
      - cbn in H, Si. cbn [map snd list_max fold_right] in F.
        apply holds_cons in H as [Hi H]. apply holds_app in H as [Hv H].
        inversion IH as [|x y IHv IH']; subst. cbn in IHv.
        inversion Si as [|x y Sp Si']; subst. apply Forall_app in Si' as [Si' Sr].
        apply Forall_app in Si' as [Sk Sv].
        cbn [map disp_map_items mitem_id fst].
        unfold pre at 1, prefix, prefix_id, mapping_item, get_raw, get_entry. rewrite Hi. cbn [e_prefix e_raw].
        rewrite interned_str by exact Sp.
        rewrite disp_string_tree by exact Sk. unfold disp_value, raw_of.
        destruct (holds_tree _ _ Hv) as (-> & _).
        rewrite (IHv _ f (Some (tid v)) Hv Sv) by (auto; lia).
        rewrite IHi; [|assumption|assumption|unfold list_max; lia|assumption].
        rewrite comma_if_map. cbn [sep map omap]. rewrite !cat_ok.
        destruct items; cbn [map]; rewrite <- ?app_assoc; reflexivity. }
    rewrite E. unfold coll_pre. rewrite SP. unfold dpre.
    destruct k; cbn [ckmap is_blank]; [|cbn [tpre]; destruct items; reflexivity].
    destruct items; cbn; [destruct p; reflexivity|reflexivity].
  - cbn [traw disp_raw dtree]. rewrite open_if_map.
    cbn in S. inversion S as [|x y _ S']; subst. apply Forall_app in S' as [Sk Si].
    rewrite close_tree by exact Sk.
    assert (E : disp_seq_items d (disp_raw d f) (ckmap hash k) (map sitem_id items) =
                Ok (sep (comma_if k) (map (fun '(_, ip, v) => lossy ip ++ dash_if k ++ dpre v ++ dtree v) items))).
    { clear SP P. cbn [depth] in F; cbn in H. apply holds_cons in H as [_ H]. apply -> Nat.succ_lt_mono in F.
      clear S Sk. revert H F Si. induction items as [|[[ii ip] v] items IHi]; intros H F Si.
      - reflexivity.
      - cbn in H, Si. cbn [map snd list_max fold_right] in F.
        apply holds_cons in H as [Hi H]. apply holds_app in H as [Hv H].
        inversion IH as [|x y IHv IH']; subst. cbn in IHv.
        inversion Si as [|x y Sp Si']; subst. apply Forall_app in Si' as [Sv Sr].
        cbn [map disp_seq_items sitem_id fst].
        unfold pre at 1, prefix, prefix_id, sequence_item, get_raw, get_entry. rewrite Hi. cbn [e_prefix e_raw].
        rewrite interned_str by exact Sp. unfold disp_value, raw_of.
        destruct (holds_tree _ _ Hv) as (-> & _).
        rewrite (IHv _ f (Some (tid v)) Hv Sv) by (auto; lia).
        rewrite IHi; [|assumption|assumption|unfold list_max; lia|assumption].
        rewrite comma_if_map. cbn [sep map omap].
        replace (match ckmap hash k with CBlock => [DASH] | CInline _ _ => [] end) with (dash_if k) by (destruct k; reflexivity).
        rewrite !cat_ok.
        destruct items; cbn [map]; rewrite <- ?app_assoc; reflexivity. }
    rewrite E. unfold coll_pre. rewrite SP. unfold dpre.
    destruct k; cbn [ckmap is_blank]; [|cbn [tpre]; destruct items; reflexivity].
    destruct items; cbn; [destruct p; reflexivity|reflexivity].
Qed.
End RenderTree.

(* The nesting depth is at most the number of nodes, hence of slots. *)
Lemma depth_cells hash t : forall par, depth t <= length (cells hash par t).
Proof.
  induction t as [i p s|i p n k items IH|i p n k items IH] using tree_ind'; intros par;
    rewrite cells_eq; cbn [depth kids length]; [lia| |]; apply le_n_S.
  - induction IH as [|[[[ii ip] key] v] items IHv IH IHi]; [cbn; lia|].
    cbn [map snd list_max fold_right flat_map mcells app length] in *. specialize (IHv (Some ii)).
    rewrite app_length. unfold list_max in IHi. lia.
  - induction IH as [|[[ii ip] v] items IHv IH IHi]; [cbn; lia|].
    cbn [map snd list_max fold_right flat_map scells app length] in *. specialize (IHv (Some ii)).
    rewrite app_length. unfold list_max in IHi. lia.
Qed.

Lemma has_holds d L : has (d_slab d) L -> holds d L.
Proof. intros H k e I. eapply has_get; eauto. Qed.

Section RenderDoc.
Variable hash : bytes -> sid.
Lemma models_write_to doc t suf : no_collision hash (doc_data doc) -> models hash doc t suf -> write_to doc = Ok (wdoc t suf).
Proof.
  intros N ((H & TB & S) & R & U & IU). apply logged_interned in IU; auto.
  apply (Forall_impl _ (fun s => logged_interned hash _ s TB N)) in S. unfold write_to, wdoc. rewrite R, U.
  rewrite (interned_str hash _ _ IU).
  pose proof (has_holds _ _ H) as HH.
  pose proof (holds_pre hash _ _ _ HH S) as P. unfold pre in P. rewrite P.
  destruct (holds_tree hash _ _ _ HH) as (-> & _).
  rewrite (write_tree hash _ t None); auto.
  unfold render_fuel. pose proof (depth_cells hash t None). apply has_length in H. lia.
Qed.
Lemma models_to_string doc t suf : no_collision hash (doc_data doc) -> models hash doc t suf -> to_string doc = Ok (ddoc t suf).
Proof.
  intros N ((H & TB & S) & R & U & IU). apply logged_interned in IU; auto.
  apply (Forall_impl _ (fun s => logged_interned hash _ s TB N)) in S. unfold to_string, ddoc. rewrite R, U.
  rewrite (interned_str hash _ _ IU).
  pose proof (has_holds _ _ H) as HH.
  pose proof (holds_pre hash _ _ _ HH S) as P. unfold pre in P. rewrite P.
  destruct (holds_tree hash _ _ _ HH) as (-> & _).
  rewrite (disp_tree hash _ t None); auto.
  unfold render_fuel. pose proof (depth_cells hash t None). apply has_length in H. lia.
Qed.
End RenderDoc.
