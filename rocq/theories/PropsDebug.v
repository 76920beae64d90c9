(* C55: what is printed with {:?} and {:#?}. *)
From Coq Require Import String.
From Coq Require Import List NArith ZArith Bool Arith Lia.
From Verif Require Import Bytes Utf8 Data Parser Render Tree Abs Refine Utf8Props Num Api ErrorText Debug Ctx Edit Built Tests PropsEdit PropsValue PropsError SinkProps PropsTold Valid.
Import ListNotations.
Local Open Scope N_scope.

(* ---- statements ---- *)
(* The lines of the first text, each with four spaces before it, are the second text. *)
Inductive indented : bytes -> bytes -> Prop :=
| ind_none : indented [] []
| ind_line l s s' : ~ In NEWLINE l -> indented s s' -> indented (l ++ NEWLINE :: s) (b "    " ++ l ++ NEWLINE :: s').
(* Display leaves out a value that has no text, and the white space before it. *)
Definition without_text (d : data) (id : nat) : Prop :=
  value_to_string d id = Ok [] /\ (as_any d id = Ok ANull \/ map_entries d id [] \/ seq_entries d id []).
(* What is shown of a value: the white space before it and its text. *)
Definition shown_as (d : data) (id : nat) (t : bytes) : Prop :=
  exists p s, prefix d id = Ok p /\ value_to_string d id = Ok s /\
    (without_text d id /\ t = [] \/ ~ without_text d id /\ t = lossy p ++ s).
(* One entry behind the other, or each on lines of its own. *)
Definition plain_list (l : list bytes) : bytes := sep (b ", ") l.
Definition pretty_list (l : list bytes) (u : bytes) : Prop :=
  l = [] /\ u = [] \/ l <> [] /\ exists v, indented (flat_map (fun x => x ++ b "," ++ [NEWLINE]) l) v /\ u = NEWLINE :: v.

(* ---- indentation ---- *)
Lemma pad_line l s : ~ In NEWLINE l -> pad_from false (l ++ NEWLINE :: s) = l ++ NEWLINE :: pad s.
Proof.
  induction l as [|c l IH]; cbn [app pad_from]; intros NI; [reflexivity|]. cbn in NI. assert (E : (c =? NEWLINE) = false) by (apply N.eqb_neq; intros ->; tauto).
  rewrite E. f_equal. apply IH. tauto.
Qed.
Lemma first_nl s : In NEWLINE s -> exists l r, s = l ++ NEWLINE :: r /\ ~ In NEWLINE l.
Proof.
  induction s as [|c s IH]; [intros []|]. intros I. destruct (N.eq_dec c NEWLINE) as [->|NE]; [exists [], s; auto|].
  destruct I as [->|I]; [contradiction|]. destruct (IH I) as (l & r & -> & NI). exists (c :: l), r. split; [reflexivity|]. cbn. intros [->|X]; auto.
Qed.
Definition whole (s : bytes) : Prop := s = [] \/ exists x, s = x ++ [NEWLINE].
Lemma whole_rest l r : whole (l ++ NEWLINE :: r) -> whole r.
Proof.
  intros [E|[x E]]; [destruct l; discriminate|]. destruct (exists_last (l := NEWLINE :: r)) as (y & c & Q); [discriminate|].
  rewrite Q, app_assoc in E. apply app_inj_tail in E as [_ ->]. destruct y as [|c0 y]; [inversion Q; now left|]. cbn [app] in Q. injection Q as _ ->. right. eauto.
Qed.
Lemma pad_indented n : forall s, (length s <= n)%nat -> whole s -> indented s (pad s).
Proof.
  induction n as [|n IH]; intros s L E; [destruct s; [constructor|cbn in L; lia]|].
  destruct s as [|c0 s0] eqn:ES; [constructor|]. rewrite <- ES in *. assert (I : In NEWLINE s).
  { destruct E as [->|[x ->]]; [discriminate|]. apply in_or_app. right. now left. }
  clear ES c0 s0. apply first_nl in I as (l & r & -> & NI). assert (P : pad (l ++ NEWLINE :: r) = b "    " ++ l ++ NEWLINE :: pad r).
  { unfold pad at 1. destruct l as [|c l]; [reflexivity|]. pose proof (pad_line (c :: l) r NI) as PL. cbn [app pad_from] in *. apply (f_equal (fun x => b "    " ++ x)). exact PL. }
  rewrite P. constructor; [exact NI|]. apply IH; [apply le_S_n; etransitivity; [|exact L]; rewrite app_length; apply (Nat.le_add_l (S (length r)) (length l))|exact (whole_rest _ _ E)].
Qed.
Lemma padded x : indented (x ++ b "," ++ [NEWLINE]) (pad (x ++ end_entry)).
Proof. apply (pad_indented (length (x ++ end_entry))); [apply le_n|]. right. exists (x ++ b ","). now rewrite <- app_assoc. Qed.
Lemma indented_app s s' t t' : indented s s' -> indented t t' -> indented (s ++ t) (s' ++ t').
Proof.
  induction 1 as [|l s s' NI H IH]; intros T; [exact T|]. specialize (IH T).
  pose proof (ind_line l (s ++ t) (s' ++ t') NI IH) as Q. rewrite <- !app_assoc. exact Q.
Qed.
Lemma entries_more l : debug_entries false true l = match l with [] => [] | _ => b ", " end ++ sep (b ", ") l.
Proof. induction l as [|x l IH]; [reflexivity|]. cbn [debug_entries sep]. rewrite IH, <- app_assoc. reflexivity. Qed.
Lemma entries_plain l : debug_entries false false l = plain_list l.
Proof. destruct l as [|x l]; [reflexivity|]. unfold plain_list. cbn [debug_entries sep]. rewrite entries_more. reflexivity. Qed.
Lemma entries_pretty l : pretty_list l (debug_entries true false l).
Proof.
  destruct l as [|x l]; [left; auto|]. right. split; [discriminate|].
  assert (H : forall l, indented (flat_map (fun x => x ++ b "," ++ [NEWLINE]) l) (debug_entries true true l)).
  { clear. induction l as [|x l IH]; [constructor|]. cbn [flat_map debug_entries app]. apply indented_app; [apply padded|exact IH]. }
  exists (pad (x ++ end_entry) ++ debug_entries true true l). split; [|reflexivity]. cbn [flat_map]. apply indented_app; [apply padded|apply H].
Qed.

(* ---- values ---- *)
Section Values.
Variable hash : bytes -> sid.
Variable doc : document.
Variable t : tree nat.
Variable suf : bytes.
Hypothesis M : models hash doc t suf.
Hypothesis N : no_collision hash (doc_data doc).
Hypothesis R : Forall raw_scalar (leaves t).
Local Notation d := (doc_data doc).
Let M0 : models_at hash None d t := proj1 M.
Let FI : Forall (interned hash d) (strings t) := models_int _ _ _ _ M N.

Lemma debug_sub alt v : sub t v -> debug_value d alt (tid v) = Ok (debug_tuple alt (b "Value") (dpre v ++ dtree v)).
Proof.
  intros S. destruct (sub_hold hash d t None M0 v S) as [par' H]. unfold debug_value.
  rewrite (sub_raw hash d t None M0 v S). rewrite (disp_tree hash d v par' _ (Some (tid v)) H (sub_int hash d t None M0 FI v S) (fuel_ok hash d t None M0 FI v S) (or_intror eq_refl)). reflexivity.
Qed.
Lemma not_map v l : sub t v -> map_entries d (tid v) l -> exists i p n k items, v = TMap i p n k items /\ l = map mview items.
Proof.
  intros S (it & E & Y). unfold map_iter, Data.mapping in E. rewrite (sub_raw hash d t None M0 v S) in E. destruct v as [i p s|i p n k items|i p n k items]; try discriminate.
  exists i, p, n, k, items. split; [reflexivity|]. destruct (node_entries hash d t None M0 FI _ _ _ _ _ S) as (it' & E' & Y'). 
  unfold map_iter, Data.mapping in E'. rewrite (sub_raw hash d t None M0 _ S : get_raw d i = _) in E'. rewrite E in E'. injection E' as <-. exact (yields_det _ _ _ Y _ Y').
Qed.
Lemma not_seq v l : sub t v -> seq_entries d (tid v) l -> exists i p n k items, v = TSeq i p n k items /\ l = map sview items.
Proof.
  intros S (it & E & Y). unfold seq_iter, Data.sequence in E. rewrite (sub_raw hash d t None M0 v S) in E. destruct v as [i p s|i p n k items|i p n k items]; try discriminate.
  exists i, p, n, k, items. split; [reflexivity|]. destruct (node_sentries hash d t None M0 _ _ _ _ _ S) as (it' & E' & Y').
  unfold seq_iter, Data.sequence in E'. rewrite (sub_raw hash d t None M0 _ S : get_raw d i = _) in E'. rewrite E in E'. injection E' as <-. exact (yields_det _ _ _ Y _ Y').
Qed.
Lemma lossy_nil s : lossy s = [] -> s = [].
Proof. intros E. destruct s as [|c r]; [reflexivity|]. exfalso. unfold lossy, chars in E. cbn [length chars_f] in E. destruct (decode1 c r) as [ok n] eqn:D. pose proof (decode1_size c r) as Z. rewrite D in Z. cbn [snd] in Z. cbn [concat] in E. destruct ok; [destruct n; [lia|discriminate]|discriminate]. Qed.
Lemma without_sub v : sub t v -> without_text d (tid v) <-> is_blank v = true.
Proof.
  intros S. pose proof (node_display hash d t None M0 FI v S) as D. pose proof (node_any hash d t None M0 FI v S) as A. unfold without_text. rewrite D, A. split.
  - intros [E [X|[X|X]]]; injection E as E.
    + destruct v as [i p [[x| |]|? ?|? ?|r]|i p n k items|i p n k items]; try discriminate; [|reflexivity]. exfalso. cbn [dtree dscalar] in E. apply lossy_nil in E.
      pose proof (leaf_sub t _ _ _ _ S eq_refl) as L. rewrite Forall_forall in R. apply (R _ L). exact E.
    + destruct (not_map v [] S X) as (i & p & n & k & items & -> & Q). destruct items; [|discriminate]. destruct k; [reflexivity|discriminate].
    + destruct (not_seq v [] S X) as (i & p & n & k & items & -> & Q). destruct items; [|discriminate]. destruct k; [reflexivity|discriminate].
  - intros B. destruct v as [i p [[]|? ?|? ?|r]|i p n [] []|i p n [] []]; try discriminate; (split; [reflexivity|]).
    + left. reflexivity.
    + right. left. exact (node_entries hash d t None M0 FI _ _ _ _ _ S).
    + right. right. exact (node_sentries hash d t None M0 _ _ _ _ _ S).
Qed.
Lemma shown_sub v : sub t v -> shown_as d (tid v) (dpre v ++ dtree v).
Proof.
  intros S. exists (tpre v), (dtree v). split; [exact (node_prefix hash _ _ _ _ M N S)|]. split; [exact (node_display hash d t None M0 FI v S)|].
  pose proof (without_sub v S) as W. unfold dpre. destruct (is_blank v) eqn:B.
  - left. split; [now apply W|]. destruct v as [i p [[]|? ?|? ?|r]|i p n [] []|i p n [] []]; try discriminate; reflexivity.
  - right. split; [|reflexivity]. intros X. apply W in X. discriminate.
Qed.
Lemma shown_fun id x y : shown_as d id x -> shown_as d id y -> x = y.
Proof. intros (p & s & P & S & [[W ->]|[W ->]]) (p' & s' & P' & S' & [[W' ->]|[W' ->]]); try contradiction; [reflexivity|]. rewrite P in P'. injection P' as <-. rewrite S in S'. injection S' as <-. reflexivity. Qed.
End Values.
Lemma gather_all {A} next (show : A -> outcome bytes) it l : yields next it l -> forall f ts, (length l < f)%nat -> Forall2 (fun x t => show x = Ok t) l ts -> gather next show f it = Ok ts.
Proof.
  induction 1 as [it it' E|it it' x l E Y IH]; intros f ts L F; (destruct f as [|f]; [lia|]); cbn [gather]; rewrite E.
  - inversion F. reflexivity.
  - inversion F as [|? t ? ts' Q F']; subst. rewrite Q. cbn [length] in L. rewrite (IH f ts') by (auto; lia). reflexivity.
Qed.

(* A value is shown with the white space before it. *)
Theorem C55_value : forall hash doc id, built hash doc -> no_collision hash (doc_data doc) -> value_of doc id ->
  exists t, shown_as (doc_data doc) id t /\
    debug_value (doc_data doc) false id = Ok (b "Value(" ++ t ++ b ")") /\
    exists u, indented (t ++ b "," ++ [NEWLINE]) u /\ debug_value (doc_data doc) true id = Ok (b "Value(" ++ [NEWLINE] ++ u ++ b ")").
Proof.
  intros hash doc id B N V. destruct (built_raw hash doc B N) as (t & suf & M & R). destruct (value_ctx hash _ _ _ _ M V) as (c & v & -> & <-). pose proof (sub_plug c v) as S.
  exists (dpre v ++ dtree v). split; [exact (shown_sub hash doc _ suf M N R v S)|]. rewrite !(debug_sub hash doc _ suf M N _ v S). split; [reflexivity|].
  exists (pad ((dpre v ++ dtree v) ++ end_entry)). split; [apply padded|]. reflexivity.
Qed.
Print Assumptions C55_value.
(* The text of one entry. *)
Definition entry_text (bstr_debug : bool -> bytes -> bytes) (d : data) (alt : bool) (e : bytes * nat) (x : bytes) : Prop :=
  exists t, debug_value d alt (snd e) = Ok t /\ x = bstr_debug alt (fst e) ++ b ": " ++ t.
Theorem C55_mapping : forall bstr_debug hash doc id l, built hash doc -> no_collision hash (doc_data doc) -> value_of doc id -> map_entries (doc_data doc) id l ->
  (exists xs, Forall2 (entry_text bstr_debug (doc_data doc) false) l xs /\ debug_mapping bstr_debug (doc_data doc) false id = Ok (b "{" ++ plain_list xs ++ b "}")) /\
  (exists xs u, Forall2 (entry_text bstr_debug (doc_data doc) true) l xs /\ pretty_list xs u /\ debug_mapping bstr_debug (doc_data doc) true id = Ok (b "{" ++ u ++ b "}")).
Proof.
  intros bd hash doc id l B N V ME. destruct (built_raw hash doc B N) as (t & suf & M & R). destruct (value_ctx hash _ _ _ _ M V) as (c & v & -> & <-). pose proof (sub_plug c v) as S.
  destruct (not_map hash doc _ suf M N v l S ME) as (i & p & n & k & items & -> & ->). destruct ME as (it & E & Y). cbn [tid] in E.
  assert (LI : length (map mview items) = length it).
  { pose proof (sub_map_iter hash _ _ _ (proj1 M) _ _ _ _ _ S) as E'. rewrite E' in E. injection E as <-. now rewrite !map_length. }
  assert (H : forall alt, exists xs, Forall2 (entry_text bd (doc_data doc) alt) (map mview items) xs /\ debug_mapping bd (doc_data doc) alt (tid (TMap i p n k items)) = Ok (b "{" ++ debug_entries alt false xs ++ b "}")).
  { intros alt. set (T := fun it : mitem nat => bd alt (rs_id (mkey it)) ++ b ": " ++ debug_tuple alt (b "Value") (dpre (snd it) ++ dtree (snd it))).
    assert (D : forall l, incl l items -> Forall (fun it : mitem nat => debug_value (doc_data doc) alt (tid (snd it)) = Ok (debug_tuple alt (b "Value") (dpre (snd it) ++ dtree (snd it)))) l).
    { intros l I. apply Forall_forall. intros [[[ii ip] key] w] J. cbn [snd]. apply (debug_sub hash doc _ suf M N). eapply sub_map; [exact S|]. exact (I _ J). }
    exists (map T items). split.
    - specialize (D items (incl_refl _)). clear -D. induction D as [|x l Dx D IH]; cbn [map]; constructor; [|exact IH]. eexists. split; [exact Dx|]. reflexivity.
    - unfold debug_mapping. cbn [tid]. rewrite E. rewrite (gather_all _ _ _ _ Y (Datatypes.S (length it)) (map T items)); [reflexivity|rewrite LI; lia|].
      specialize (D items (incl_refl _)). clear -D. induction D as [|x l Dx D IH]; cbn [map]; constructor; [|exact IH]. cbn [mview]. unfold mview. rewrite Dx. reflexivity. }
  split.
  - destruct (H false) as (xs & F & Q). exists xs. rewrite <- entries_plain. auto.
  - destruct (H true) as (xs & F & Q). exists xs, (debug_entries true false xs). split; [exact F|]. split; [apply entries_pretty|exact Q].
Qed.
Print Assumptions C55_mapping.
Theorem C55_sequence : forall hash doc id l, built hash doc -> no_collision hash (doc_data doc) -> value_of doc id -> seq_entries (doc_data doc) id l ->
  (exists xs, Forall2 (fun e x => debug_value (doc_data doc) false e = Ok x) l xs /\ debug_sequence (doc_data doc) false id = Ok (b "[" ++ plain_list xs ++ b "]")) /\
  (exists xs u, Forall2 (fun e x => debug_value (doc_data doc) true e = Ok x) l xs /\ pretty_list xs u /\ debug_sequence (doc_data doc) true id = Ok (b "[" ++ u ++ b "]")).
Proof.
  intros hash doc id l B N V ME. destruct (built_raw hash doc B N) as (t & suf & M & R). destruct (value_ctx hash _ _ _ _ M V) as (c & v & -> & <-). pose proof (sub_plug c v) as S.
  destruct (not_seq hash doc _ suf M v l S ME) as (i & p & n & k & items & -> & ->). destruct ME as (it & E & Y). cbn [tid] in E.
  assert (LI : length (map sview items) = length it).
  { pose proof (sub_seq_iter hash _ _ _ (proj1 M) _ _ _ _ _ S) as E'. rewrite E' in E. injection E as <-. now rewrite !map_length. }
  assert (H : forall alt, exists xs, Forall2 (fun e x => debug_value (doc_data doc) alt e = Ok x) (map sview items) xs /\ debug_sequence (doc_data doc) alt (tid (TSeq i p n k items)) = Ok (b "[" ++ debug_entries alt false xs ++ b "]")).
  { intros alt. set (T := fun it : sitem nat => debug_tuple alt (b "Value") (dpre (snd it) ++ dtree (snd it))).
    assert (D : Forall2 (fun e x => debug_value (doc_data doc) alt e = Ok x) (map sview items) (map T items)).
    { assert (D : forall l, incl l items -> Forall2 (fun e x => debug_value (doc_data doc) alt e = Ok x) (map sview l) (map T l)); [|exact (D items (incl_refl _))].
      induction l as [|[[ii ip] w] l IH]; intros I; cbn [map]; constructor; [|apply IH; intros x X; apply I; now right]. apply (debug_sub hash doc _ suf M N). eapply sub_seq; [exact S|]. apply I. now left. }
    exists (map T items). split; [exact D|]. unfold debug_sequence. cbn [tid]. rewrite E. rewrite (gather_all _ _ _ _ Y (Datatypes.S (length it)) (map T items)); [reflexivity|rewrite LI; lia|exact D]. }
  split.
  - destruct (H false) as (xs & F & Q). exists xs. rewrite <- entries_plain. auto.
  - destruct (H true) as (xs & F & Q). exists xs, (debug_entries true false xs). split; [exact F|]. split; [apply entries_pretty|exact Q].
Qed.
Print Assumptions C55_sequence.

(* ---- the other handles ---- *)
Theorem C55_display : forall hash doc id, built hash doc -> no_collision hash (doc_data doc) -> value_of doc id ->
  (forall l, map_entries (doc_data doc) id l -> display_mapping (doc_data doc) id = value_to_string (doc_data doc) id) /\
  (forall l, seq_entries (doc_data doc) id l -> display_sequence (doc_data doc) id = value_to_string (doc_data doc) id).
Proof.
  intros hash doc id B N V. destruct (built_raw hash doc B N) as (t & suf & M & R). destruct (value_ctx hash _ _ _ _ M V) as (c & v & -> & <-). pose proof (sub_plug c v) as S. split; intros l ME.
  - destruct (not_map hash doc _ suf M N v l S ME) as (i & p & n & k & items & -> & ->). unfold display_mapping, Data.mapping, value_to_string. rewrite (sub_raw hash _ _ _ (proj1 M) _ S). reflexivity.
  - destruct (not_seq hash doc _ suf M v l S ME) as (i & p & n & k & items & -> & ->). unfold display_sequence, Data.sequence, value_to_string. rewrite (sub_raw hash _ _ _ (proj1 M) _ S). reflexivity.
Qed.
Print Assumptions C55_display.
(* A name with parentheses around a text, or around the lines of the text with a comma behind. *)
Definition wrapped (alt : bool) (name x out : bytes) : Prop :=
  if alt then exists u, indented (x ++ b "," ++ [NEWLINE]) u /\ out = name ++ b "(" ++ [NEWLINE] ++ u ++ b ")" else out = name ++ b "(" ++ x ++ b ")".
Definition any_text (bstr_debug : bool -> bytes -> bytes) (d : data) (alt : bool) (a : any) (out : bytes) : Prop :=
  match a with
  | ANull => out = b "Null"
  | ABool v => wrapped alt (b "Bool") (if v then b "true" else b "false") out
  | ANumber x _ => valid x /\ wrapped alt (b "Number") x out \/ ~ valid x /\ wrapped alt (b "Number") (b "NaN") out
  | AString x => wrapped alt (b "String") (bstr_debug alt x) out
  | AMapping id => exists x, debug_mapping bstr_debug d alt id = Ok x /\ wrapped alt (b "Mapping") x out
  | ASequence id => exists x, debug_sequence d alt id = Ok x /\ wrapped alt (b "Sequence") x out
  | ARaw _ => False
  end.
Lemma tuple_wrapped alt name x : wrapped alt name x (debug_tuple alt name x).
Proof. destruct alt; cbn [wrapped debug_tuple]; [|reflexivity]. exists (pad (x ++ end_entry)). split; [apply padded|reflexivity]. Qed.
(* Any names the kind of the value. Nothing that a document holds makes {:?} panic. *)
Theorem C55_any : forall bstr_debug hash doc id alt, built hash doc -> no_collision hash (doc_data doc) -> value_of doc id ->
  exists a x, as_any (doc_data doc) id = Ok a /\ debug_any bstr_debug (doc_data doc) alt a = Ok x /\ any_text bstr_debug (doc_data doc) alt a x.
Proof.
  intros bd hash doc id alt B N V. destruct (built_raw hash doc B N) as (t & suf & M & R). destruct (value_ctx hash _ _ _ _ M V) as (c & v & E & <-). assert (S : sub t v) by (rewrite E; apply sub_plug).
  pose proof (models_int _ _ _ _ M N) as FI. exists (tany v).
  assert (A := node_any hash _ _ _ (proj1 M) FI v S). destruct v as [i p [?|?|s ?|?]|i p n k items|i p n k items].
  - eexists; split; [exact A|]. split; reflexivity.
  - eexists; split; [exact A|]. split; [reflexivity|]. apply tuple_wrapped.
  - eexists; split; [exact A|]. split; [reflexivity|]. cbn [tany any_text]. unfold debug_number. destruct (utf8 s) eqn:U; [left|right]; (split; [|apply tuple_wrapped]).
    + now apply utf8_spec.
    + intros X. apply utf8_spec in X. congruence.
  - eexists; split; [exact A|]. split; [reflexivity|]. apply tuple_wrapped.
  - pose proof (node_entries hash _ _ _ (proj1 M) FI _ _ _ _ _ S) as ME. destruct (C55_mapping bd hash doc _ _ B N V ME) as [(x & _ & Q) (y & z & _ & _ & Q')]. cbn [tid] in *.
    destruct alt; eexists; (split; [exact A|]); cbn [tany debug_any any_text]; rewrite ?Q, ?Q'; (split; [reflexivity|]); eexists; (split; [reflexivity|]); apply tuple_wrapped.
  - pose proof (node_sentries hash _ _ _ (proj1 M) _ _ _ _ _ S) as ME. destruct (C55_sequence hash doc _ _ B N V ME) as [(x & _ & Q) (y & z & _ & _ & Q')]. cbn [tid] in *.
    destruct alt; eexists; (split; [exact A|]); cbn [tany debug_any any_text]; rewrite ?Q, ?Q'; (split; [reflexivity|]); eexists; (split; [reflexivity|]); apply tuple_wrapped.
Qed.
Print Assumptions C55_any.
(* A handle that is not of the document. *)
Theorem C55_dead : forall bstr_debug hash doc id alt, built hash doc -> slab_get (d_slab (doc_data doc)) id = None ->
  debug_value (doc_data doc) alt id = Panic /\ debug_mapping bstr_debug (doc_data doc) alt id = Panic /\ debug_sequence (doc_data doc) alt id = Panic /\
  display_mapping (doc_data doc) id = Panic /\ display_sequence (doc_data doc) id = Panic.
Proof.
  intros bd hash doc id alt _ E. assert (R : get_raw (doc_data doc) id = Panic) by (unfold get_raw, get_entry; now rewrite E).
  unfold debug_value, debug_mapping, debug_sequence, display_mapping, display_sequence, map_iter, seq_iter, Data.mapping, Data.sequence. rewrite R. repeat split; reflexivity.
Qed.
Print Assumptions C55_dead.

(* ---- documents, ids and errors ---- *)
(* Two hexadecimal digits for each byte *)
Inductive spelled : bytes -> bytes -> Prop :=
| sp_none : spelled [] []
| sp_byte c s h l r : nth_error (b "0123456789abcdef") (N.to_nat h) = Some l -> forall k, nth_error (b "0123456789abcdef") (N.to_nat k) = Some r -> c = 16 * h + k ->
    forall t, spelled s t -> spelled (c :: s) (l :: r :: t).
Lemma digit_at n : n < 16 -> nth_error (b "0123456789abcdef") (N.to_nat n) = Some (hex_digit n).
Proof.
  intros L. assert (H : forallb (fun n => match nth_error (b "0123456789abcdef") n with Some x => x =? hex_digit (N.of_nat n) | _ => false end) (seq 0 16) = true) by (vm_compute; reflexivity).
  rewrite forallb_forall in H. specialize (H (N.to_nat n)). rewrite N2Nat.id in H. destruct (nth_error _ _) as [x|].
  - f_equal. apply N.eqb_eq. apply H. apply in_seq. lia.
  - assert (X : false = true) by (apply H; apply in_seq; lia). discriminate.
Qed.
Lemma hex_spelled s : Forall (fun c => c < 256) s -> spelled s (hex_text s).
Proof.
  induction 1 as [|c s L F IH]; [constructor|]. unfold hex_text. cbn [flat_map app].
  assert (H : c / 16 < 16) by (apply N.div_lt_upper_bound; [discriminate|exact L]). assert (K : c mod 16 < 16) by (apply N.mod_lt; discriminate).
  apply (sp_byte c s (c / 16) _ _ (digit_at _ H) (c mod 16) (digit_at _ K)); [|exact IH]. apply N.div_mod. discriminate.
Qed.
Lemma hex_line s : Forall (fun c => c < 256) s -> ~ In NEWLINE (hex_text s).
Proof.
  induction 1 as [|c s L F IH]; [intros []|]. unfold hex_text. cbn [flat_map app]. assert (Z : forall n, hex_digit n <> NEWLINE).
  { intros n. unfold hex_digit, NEWLINE. destruct (n <? 10); lia. }
  intros [X|[X|X]]; [now apply Z in X..|auto].
Qed.
Lemma digits_line n : ~ In NEWLINE (digits n).
Proof. intros I. destruct (digits_canonical n) as [D _]. pose proof (denotes_digits _ _ D) as F. rewrite Forall_forall in F. apply F in I. unfold NEWLINE in I. lia. Qed.
Fixpoint ends (f : bool) (s : bytes) : bool := match s with [] => f | c :: s => ends (c =? NEWLINE) s end.
Lemma pad_app x : forall f s, pad_from f (x ++ s) = pad_from f x ++ pad_from (ends f x) s.
Proof. induction x as [|c x IH]; intros f s; cbn [app pad_from ends]; [reflexivity|]. rewrite IH, app_comm_cons, app_assoc. reflexivity. Qed.
Lemma ends_app x : forall f s, ends f (x ++ s) = ends (ends f x) s.
Proof. induction x as [|c x IH]; intros f s; cbn [app ends]; [reflexivity|]. apply IH. Qed.
Lemma pad_kept x : ~ In NEWLINE x -> pad_from false x = x /\ ends false x = false.
Proof.
  induction x as [|c x IH]; cbn [app pad_from ends]; intros NI; [auto|]. cbn in NI. assert (E : (c =? NEWLINE) = false) by (apply N.eqb_neq; intros ->; tauto).
  rewrite E. destruct IH as [-> ->]; [tauto|]. auto.
Qed.
Lemma tuple_line name x : ~ In NEWLINE x -> debug_tuple true name x = name ++ b "(" ++ [NEWLINE] ++ b "    " ++ x ++ b "," ++ [NEWLINE] ++ b ")".
Proof.
  intros NI. unfold debug_tuple, pad. f_equal. f_equal. f_equal. destruct x as [|c x]; [reflexivity|]. cbn [app pad_from]. pose proof NI as NI'. cbn in NI'.
  assert (E : (c =? NEWLINE) = false) by (apply N.eqb_neq; intros ->; tauto). rewrite E, pad_app. destruct (pad_kept x) as [-> ->]; [tauto|]. 
  change (repeat SPACE 4) with (b "    "). rewrite <- !app_assoc. cbn [app]. rewrite <- app_assoc. reflexivity.
Qed.
Lemma pad_kept1 x f : ~ In NEWLINE x -> f = false -> pad_from f x = x.
Proof. intros H ->. now apply pad_kept. Qed.
Lemma pad_kept2 x f : ~ In NEWLINE x -> f = false -> ends f x = false.
Proof. intros H ->. now apply pad_kept. Qed.
Definition NL : bytes := [NEWLINE].
(* Ids and string ids in full, and nothing else of a document. *)
Theorem C55_document : forall doc, Forall (fun c => c < 256) (doc_suffix doc) -> exists h n, spelled (doc_suffix doc) h /\ canonical n (N.of_nat (S (doc_root doc))) /\
  debug_document false doc = b "Document { suffix: StringId(" ++ h ++ b "), root: Id(" ++ n ++ b "), .. }" /\
  debug_document true doc = b "Document {" ++ NL ++ b "    suffix: StringId(" ++ NL ++ b "        " ++ h ++ b "," ++ NL ++ b "    )," ++ NL
    ++ b "    root: Id(" ++ NL ++ b "        " ++ n ++ b "," ++ NL ++ b "    )," ++ NL ++ b "    .." ++ NL ++ b "}".
Proof.
  intros doc F. exists (hex_text (doc_suffix doc)), (digits (N.of_nat (S (doc_root doc)))). split; [now apply hex_spelled|]. split; [apply digits_canonical|].
  pose proof (hex_line _ F) as H. pose proof (digits_line (N.of_nat (S (doc_root doc)))) as G. set (h := hex_text (doc_suffix doc)) in *. set (n := digits (N.of_nat (S (doc_root doc)))) in *. split.
  - unfold debug_document, debug_struct_open, debug_string_id, debug_id, debug_tuple. cbn [debug_fields]. fold h. fold n. rewrite <- !app_assoc. reflexivity.
  - unfold debug_document, debug_struct_open, debug_string_id, debug_id. fold h. fold n. rewrite (tuple_line _ h H), (tuple_line _ n G). cbn [debug_fields]. unfold pad. rewrite !pad_app, ?ends_app.
    rewrite (fun f => pad_kept1 h f H), (fun f => pad_kept2 h f H) by reflexivity. rewrite (fun f => pad_kept1 n f G), (fun f => pad_kept2 n f G) by reflexivity. rewrite <- !app_assoc. reflexivity.
Qed.
Print Assumptions C55_document.
(* A number in hexadecimal digits *)
Inductive denotes16 : bytes -> N -> Prop :=
| d16_none : denotes16 [] 0
| d16_more s n c k : denotes16 s n -> nth_error (b "0123456789abcdef") (N.to_nat k) = Some c -> denotes16 (s ++ [c]) (16 * n + k).
Lemma d16_zero s n : denotes16 s n -> denotes16 (48 :: s) n.
Proof.
  induction 1 as [|s n c k H IH E]; [exact (d16_more [] 0 48 0 d16_none eq_refl)|]. exact (d16_more (48 :: s) n c k IH E).
Qed.
Lemma d16_zeros k s n : denotes16 s n -> denotes16 (repeat 48 k ++ s) n.
Proof. intros H. induction k as [|k IH]; [exact H|]. exact (d16_zero _ _ IH). Qed.
Lemma hex_num_app f : forall n acc, hex_num f n acc = hex_num f n [] ++ acc.
Proof.
  induction f as [|f IH]; intros n acc; [reflexivity|]. cbn [hex_num]. destruct (n <? 16); [reflexivity|]. rewrite (IH _ (_ :: acc)), (IH _ [_]), <- app_assoc. reflexivity.
Qed.
Lemma size_div n : 16 <= n -> (N.size_nat (n / 16) < N.size_nat n)%nat.
Proof.
  intros L. change (n / 16) with (n / 2 ^ 4). rewrite <- N.shiftr_div_pow2. destruct n as [|p]; [exfalso; apply L; reflexivity|].
  do 4 (destruct p as [p|p|]; [| |exfalso; apply L; reflexivity]); cbn; repeat apply le_n_S; try apply Nat.le_0_l; lia.
Qed.
Lemma hex_num_denotes f : forall n, (N.size_nat n < f)%nat -> denotes16 (hex_num f n []) n /\ hex_num f n [] <> [] /\ (hd 0 (hex_num f n []) = 48 -> n = 0).
Proof.
  induction f as [|f IH]; intros n L; [lia|]. cbn [hex_num]. destruct (N.ltb_spec n 16) as [S|S].
  - split; [exact (d16_more [] 0 _ n d16_none (digit_at n S))|]. split; [discriminate|]. cbn. unfold hex_digit. destruct (n <? 10); lia.
  - pose proof (size_div n S). destruct (IH (n / 16)) as (D & NE & H0); [lia|]. rewrite hex_num_app. split; [|split].
    + rewrite (N.div_mod n 16) at 3 by discriminate. apply d16_more; [exact D|]. apply digit_at. apply N.mod_lt. discriminate.
    + intros E. apply app_eq_nil in E as [E _]. auto.
    + intros E. assert (Q : n / 16 = 0). { apply H0. destruct (hex_num f (n / 16) []); [contradiction|exact E]. }
      pose proof (N.div_mod n 16 ltac:(discriminate)) as W. pose proof (N.mod_lt n 16 ltac:(discriminate)) as V. rewrite Q in W. lia.
Qed.
Lemma d16_one s n : denotes16 s n -> forall m, denotes16 s m -> n = m.
Proof.
  induction 1 as [|s n c k H IH E]; intros m H'.
  - inversion H' as [|s' n' c' k' ? ? Q]; [reflexivity|]. now destruct s'.
  - inversion H' as [Q|s' n' c' k' H2 E' Q]; [now destruct s|]. apply app_inj_tail in Q as [-> ->]. rewrite (IH _ H2). f_equal.
    assert (L : forall k, nth_error (b "0123456789abcdef") (N.to_nat k) = Some c -> (N.to_nat k < 16)%nat) by (intros; apply (proj1 (nth_error_Some (b "0123456789abcdef") _)); congruence).
    pose proof (L _ E) as L1. pose proof (L _ E') as L2. apply N2Nat.inj. revert E E' L1 L2. generalize (N.to_nat k) (N.to_nat k'). clear. intros x y E E' L1 L2.
    assert (U : NoDup (b "0123456789abcdef")) by (repeat constructor; cbn; intuition discriminate).
    apply (proj1 (NoDup_nth_error _) U); [exact L1|congruence].
Qed.
(* Display of an id is its slot in hexadecimal, in at least eight digits; Debug is one more, in decimal. *)
Theorem C55_id : forall id, denotes16 (display_id id) (N.of_nat id) /\ (length (display_id id) = 8%nat \/ (8 < length (display_id id))%nat /\ hd 0 (display_id id) <> 48) /\
  (forall id', display_id id' = display_id id -> id' = id) /\ exists n, canonical n (N.of_nat id + 1) /\ debug_id false id = b "Id(" ++ n ++ b ")".
Proof.
  assert (D : forall id, denotes16 (display_id id) (N.of_nat id)).
  { intros id. unfold display_id, pad_zero. apply d16_zeros. apply hex_num_denotes. lia. }
  intros id. split; [apply D|]. split; [|split].
  - destruct (hex_num_denotes (S (N.size_nat (N.of_nat id))) (N.of_nat id)) as (E & NE & H0); [lia|]. unfold display_id, pad_zero. set (h := hex_num _ _ _) in *.
    destruct (le_lt_dec (length h) 8) as [L|L]; [left; rewrite app_length, repeat_length; lia|]. right. replace (8 - length h)%nat with O by lia. split; [exact L|]. cbn [repeat app].
    intros Q. apply H0 in Q. assert (Z : id = O) by lia. unfold h in L. rewrite Z in L. cbn in L. lia.
  - intros id' E. apply Nat2N.inj. apply (d16_one (display_id id')); [apply D|rewrite E; apply D].
  - exists (digits (N.of_nat (S id))). split; [|reflexivity]. replace (N.of_nat id + 1) with (N.of_nat (S id)) by lia. apply digits_canonical.
Qed.
Print Assumptions C55_id.
(* The names of the kinds, said again on their own. *)
Definition called (k : ekind) (name : bytes) : Prop :=
  In (k, name) [(ExpectedEof, b "ExpectedEof"); (BadSequenceTerminator, b "BadSequenceTerminator"); (BadMappingSeparator, b "BadMappingSeparator");
    (BadMappingTerminator, b "BadMappingTerminator"); (BadEscape, b "BadEscape"); (BadHexEscape, b "BadHexEscape"); (BadUnicodeEscape, b "BadUnicodeEscape")].
Theorem C55_error : forall k, exists name, called k name /\ (forall k', called k' name -> k' = k) /\ forall x y, exists m n, canonical m (N.of_nat x) /\ canonical n (N.of_nat y) /\
  debug_error false x y k = b "Error { span: " ++ m ++ b ".." ++ n ++ b ", kind: " ++ name ++ b " }" /\
  debug_error true x y k = b "Error {" ++ NL ++ b "    span: " ++ m ++ b ".." ++ n ++ b "," ++ NL ++ b "    kind: " ++ name ++ b "," ++ NL ++ b "}".
Proof.
  intros k. exists (kind_name k). split; [destruct k; cbn; tauto|]. split.
  { destruct k; intros k' H; cbn in H; repeat (destruct H as [H|H]; [injection H as H; subst; try reflexivity; discriminate|]); contradiction. }
  intros x y. exists (digits (N.of_nat x)), (digits (N.of_nat y)). split; [apply digits_canonical|]. split; [apply digits_canonical|].
  pose proof (digits_line (N.of_nat x)) as H. pose proof (digits_line (N.of_nat y)) as G. unfold debug_error, debug_struct. cbn [debug_fields]. set (m := digits (N.of_nat x)) in *. set (n := digits (N.of_nat y)) in *. split.
  - rewrite <- !app_assoc. reflexivity.
  - unfold pad. rewrite !pad_app, ?ends_app. rewrite (fun f => pad_kept2 m f H) by reflexivity. rewrite (fun f => pad_kept1 m f H), (fun f => pad_kept2 n f G) by reflexivity. rewrite (fun f => pad_kept1 n f G) by reflexivity. rewrite <- !app_assoc. destruct k; reflexivity.
Qed.
Print Assumptions C55_error.
(* Stand-in for Debug of BStr in the examples *)
Definition quoted (_ : bool) (s : bytes) : bytes := b """" ++ s ++ b """".
Example C55_case : exists doc, load (b "a:" ++ NL ++ b "  b: 1" ++ NL ++ b "c: [1, 2]" ++ NL ++ b "d:") = Ok doc /\
  debug_mapping quoted (doc_data doc) false (doc_root doc) = Ok (b "{""a"": Value(" ++ NL ++ b "  b: 1), ""c"": Value( [1, 2]), ""d"": Value()}") /\
  debug_mapping quoted (doc_data doc) true (doc_root doc) = Ok (b "{" ++ NL ++ b "    ""a"": Value(" ++ NL ++ b "        " ++ NL ++ b "          b: 1," ++ NL ++ b "    )," ++ NL
    ++ b "    ""c"": Value(" ++ NL ++ b "         [1, 2]," ++ NL ++ b "    )," ++ NL ++ b "    ""d"": Value(" ++ NL ++ b "        ," ++ NL ++ b "    )," ++ NL ++ b "}").
Proof. eexists. split; [vm_compute; reflexivity|]. split; vm_compute; reflexivity. Qed.
Example C55_sequence_case : exists doc, load (b "[1, ~, x]") = Ok doc /\
  debug_sequence (doc_data doc) false (doc_root doc) = Ok (b "[Value(1), Value(~), Value(x)]") /\
  debug_any quoted (doc_data doc) false (ASequence (doc_root doc)) = Ok (b "Sequence([Value(1), Value(~), Value(x)])").
Proof. eexists. split; [vm_compute; reflexivity|]. split; vm_compute; reflexivity. Qed.
Example C55_error_case : match load (b "{a") with Err x y k => debug_error false x y k | _ => [] end = b "Error { span: 1..2, kind: BadMappingSeparator }".
Proof. vm_compute. reflexivity. Qed.
Example C55_id_case : debug_id false 0 = b "Id(1)" /\ debug_string_id false [0; 171] = b "StringId(00ab)" /\ display_id 0 = b "00000000" /\ display_id 4096 = b "00001000".
Proof. repeat split; vm_compute; reflexivity. Qed.
