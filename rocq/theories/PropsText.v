(* Properties of whole texts: C20, C26, C31, C32, C34, C35. *)
From Coq Require Import String.
From Coq Require Import List NArith ZArith Bool Arith Lia.
From Verif Require Import Bytes Utf8 Data Parser Render Tree Abs Refine Utf8Props Scan Num Api Ctx Edit Built Reads ReadsSound
  Shown Plain Grammar Laid GrammarSound Tests Refuted PropsParse PropsEdit PropsColl PropsValue PropsScalar.
Import ListNotations.
Local Open Scope N_scope.
Local Notation text := Utf8Props.text.

(* ---- C35: texts of the grammar ---- *)
Theorem C35_grammar : forall hash x d, doc_text x d -> reads_as_datum hash x d.
Proof. exact doc_text_reads. Qed.
Print Assumptions C35_grammar.

(* ---- C31: the layout of the API ---- *)
Inductive ytree :=
| YScalar (x : bytes)
| YMap (l : list (bytes * ytree))
| YSeq (l : list ytree).
Section ytree_ind.
  Variable P : ytree -> Prop.
  Hypothesis HS : forall x, P (YScalar x).
  Hypothesis HM : forall l, Forall (fun '(_, v) => P v) l -> P (YMap l).
  Hypothesis HQ : forall l, Forall P l -> P (YSeq l).
  Fixpoint ytree_all (t : ytree) : P t :=
    match t with
    | YScalar x => HS x
    | YMap l => HM l ((fix go (l : list (bytes * ytree)) : Forall (fun '(_, v) => P v) l :=
        match l with [] => Forall_nil _ | (k, v) :: r => Forall_cons (k, v) (ytree_all v) (go r) end) l)
    | YSeq l => HQ l ((fix go (l : list ytree) : Forall P l :=
        match l with [] => Forall_nil _ | v :: r => Forall_cons v (ytree_all v) (go r) end) l)
    end.
End ytree_ind.
Fixpoint join (s : bytes) (l : list bytes) : bytes :=
  match l with
  | [] => []
  | x :: r => x ++ match r with [] => [] | _ => s ++ join s r end
  end.
Definition line (n : nat) : bytes := [NEWLINE] ++ repeat SPACE n.
Fixpoint layout_of (n : nat) (t : ytree) : bytes :=
  match t with
  | YScalar x => x
  | YMap l => join (line n) (map (fun '(k, v) => k ++ b ":" ++
      match v with YScalar x => b " " ++ x | _ => line (n + 2) ++ layout_of (n + 2) v end) l)
  | YSeq l => join (line n) (map (fun v => b "-" ++ b " " ++ layout_of (n + 2) v) l)
  end.
Inductive line_value : bytes -> datum -> Prop :=
| lv_plain x d : plain_line x -> plain_datum x d -> line_value x d
| lv_quoted x v : quoted_text x v -> line_value x (DStr v)
| lv_flow x d : flow x d -> line_value x d.
(* The data of a tree; collections are not empty and keys are plain. *)
Inductive tree_datum : ytree -> datum -> Prop :=
| td_scalar x d : line_value x d -> tree_datum (YScalar x) d
| td_map l m : l <> [] -> pairs_data l m -> tree_datum (YMap l) (DMap m)
| td_seq l m : l <> [] -> all_data l m -> tree_datum (YSeq l) (DSeq m)
with pairs_data : list (bytes * ytree) -> list (bytes * datum) -> Prop :=
| pd_nil : pairs_data [] []
| pd_cons k v d l m : plain_key k -> tree_datum v d -> pairs_data l m -> pairs_data ((k, v) :: l) ((k, d) :: m)
with all_data : list ytree -> list datum -> Prop :=
| ad_nil : all_data [] []
| ad_cons v d l m : tree_datum v d -> all_data l m -> all_data (v :: l) (d :: m).
(* What follows: the end, or a line at a column before n. *)
Definition tail (n : nat) (post : bytes) : Prop := (ended post /\ layout post) \/
  exists m r, post = line m ++ r /\ (m < n)%nat /\ starts r.
Lemma line_at m : newline_at m (line m).
Proof.
  split; [cbn; auto|]. exists [], (repeat SPACE m). split; [reflexivity|]. split; [apply cl_ws; [cbn; auto|constructor]|]. split; [|apply repeat_length].
  apply Forall_forall. intros c I. apply repeat_spec in I. subst. cbn. auto 10.
Qed.
Lemma tail_map n post : tail n post -> map_ends n post.
Proof.
  intros [[_ L]|(m & r & -> & LT & N & S1 & S2)]; [now left|]. right. exists (line m), m, r. repeat split; auto; apply line_at.
Qed.
Lemma tail_seq n post : tail n post -> seq_ends n post.
Proof.
  intros [[_ L]|(m & r & -> & LT & N & S1 & S2)]; [now left|]. right. exists (line m), m, r. repeat split; auto; apply line_at.
Qed.
Lemma tail_ended n post : tail n post -> ended post.
Proof. intros [[E _]|(m & r & -> & _)]; [exact E|]. now right. Qed.
Lemma tail_le n m post : (n <= m)%nat -> tail n post -> tail m post.
Proof. intros L [E|(k & r & -> & LT & S)]; [now left|right]. exists k, r. repeat split; auto; [lia|apply S..]. Qed.
Lemma ended_breaks post : ended post -> breaks post.
Proof. intros [-> |E]; [now left|right]. rewrite E. cbn. auto. Qed.
Lemma line_leaf x d post : line_value x d -> ended post -> leaf x d post.
Proof. intros [y e P D|y v Q|y e F] E; [now apply lf_plain|apply lf_quoted|apply lf_flow]; auto using ended_breaks. Qed.
Lemma space_gap : gap (b " ").
Proof. split; [|cbn; auto 10]. apply cl_ws; [cbn; auto 10|constructor]. Qed.
Definition Playout (t : ytree) : Prop := forall n d post, tree_datum t d -> tail n post ->
  match t with
  | YScalar x => leaf x d post
  | YMap _ => exists l, d = DMap l /\ block_map n (layout_of n t) l post
  | YSeq _ => exists l, d = DSeq l /\ block_seq n (layout_of n t) l post
  end.
Definition map_text_of (n : nat) (l : list (bytes * ytree)) : bytes := join (line n) (map (fun '(k, v) => k ++ b ":" ++
  match v with YScalar x => b " " ++ x | _ => line (n + 2) ++ layout_of (n + 2) v end) l).
Definition seq_text_of (n : nat) (l : list ytree) : bytes := join (line n) (map (fun v => b "-" ++ b " " ++ layout_of (n + 2) v) l).
Lemma rest_tail n s (l : list bytes) post : Forall starts l -> tail n post -> (n < s)%nat ->
  tail s (match l with [] => [] | _ => line n ++ join (line n) l end ++ post).
Proof.
  intros F T LT. destruct F as [|x l [N S] F]; [cbn; apply (tail_le n); [lia|exact T]|]. right.
  exists n, (join (line n) (x :: l) ++ post). split; [now rewrite <- app_assoc|]. split; [exact LT|].
  destruct x as [|c x]; [congruence|]. split; [discriminate|exact S].
Qed.
Lemma key_starts k r : plain_key k -> starts (k ++ r).
Proof.
  intros [S _]. apply plain_starts in S as [N S]. destruct k as [|c k]; [congruence|]. split; [discriminate|exact S].
Qed.
Lemma layout_map n l : Forall (fun '(_, v) => Playout v) l -> forall m post,
  pairs_data l m -> tail n post ->
  (l <> [] -> block_map n (map_text_of n l) m post) /\
  map_rest n (match l with [] => [] | _ => line n ++ map_text_of n l end) m post.
Proof.
  induction 1 as [|[k v] l IHv F IH]; intros m post F2 T.
  - inversion F2; subst. split; [congruence|]. constructor. now apply tail_map.
  - inversion F2 as [|? ? d ? m' K TD F2']; subst. destruct (IH m' post F2' T) as [_ R]. clear IH.
    set (y := match l with [] => [] | _ => line n ++ map_text_of n l end) in *.
    assert (TY : tail (n + 2) (y ++ post)).
    { unfold y, map_text_of. pose proof (rest_tail n (n + 2) (map (fun '(k, v) => k ++ b ":" ++
        match v with YScalar x => b " " ++ x | _ => line (n + 2) ++ layout_of (n + 2) v end) l) post) as Q.
      destruct l as [|kv l]; (apply Q; [|exact T|lia]); [constructor|]. clear -F2'. revert m' F2'. generalize (kv :: l). clear kv l. intros l.
      induction l as [|[k v] l IH]; intros m F2; [constructor|]. inversion F2 as [|? ? d ? m' K _ F2']; subst.
      cbn [map]. constructor; [now apply key_starts|]. eapply IH; eauto. }
    set (t := match v with YScalar x => b " " ++ x | _ => line (n + 2) ++ layout_of (n + 2) v end).
    assert (V : key_value n t d (y ++ post)).
    { unfold t. specialize (IHv (n + 2)%nat d (y ++ post) TD TY). destruct v as [x|lm|ls].
      - apply kv_leaf; [apply space_gap|exact IHv].
      - destruct IHv as (ml & -> & B). apply (kv_map n (n + 2)); [apply line_at|lia|exact B].
      - destruct IHv as (ml & -> & B). apply (kv_seq n (n + 2)); [apply line_at|lia|exact B]. }
    assert (E : map_text_of n ((k, v) :: l) = k ++ b ":" ++ t ++ y).
    { unfold map_text_of at 1. cbn [map join]. rewrite <- !app_assoc. f_equal. f_equal. f_equal. unfold y, map_text_of. now destruct l. }
    rewrite E. split; intros.
    + apply bm_items; [left; auto|exact V|exact R].
    + apply mr_cons; [apply line_at|exact K|exact V|exact R].
Qed.
Lemma repeat_utf8 n : utf8 (line n) = true.
Proof. apply utf8_text. unfold line. change ([NEWLINE] ++ repeat SPACE n) with (NEWLINE :: repeat SPACE n). apply (text_char [NEWLINE]); [now apply ascii_uchar|]. induction n; cbn; [constructor|]. apply (text_char [SPACE]); [now apply ascii_uchar|assumption]. Qed.
Lemma layout_seq n l : Forall Playout l -> forall m post, all_data l m -> tail n post ->
  (l <> [] -> block_seq n (seq_text_of n l) m post) /\
  seq_rest n (match l with [] => [] | _ => line n ++ seq_text_of n l end) m post.
Proof.
  induction 1 as [|v l IHv F IH]; intros m post F2 T.
  - inversion F2; subst. split; [congruence|]. constructor. now apply tail_seq.
  - inversion F2 as [|? d ? m' TD F2']; subst. destruct (IH m' post F2' T) as [_ R]. clear IH.
    set (y := match l with [] => [] | _ => line n ++ seq_text_of n l end) in *.
    assert (TY : tail (n + 2) (y ++ post)).
    { unfold y, seq_text_of. pose proof (rest_tail n (n + 2) (map (fun v => b "-" ++ b " " ++ layout_of (n + 2) v) l) post) as Q.
      destruct l as [|kv l]; (apply Q; [|exact T|lia]); [constructor|]. apply Forall_forall. intros x I. apply in_map_iff in I as (u & <- & _).
      apply starts_hd; cbn; intuition discriminate. }
    assert (BL : Forall blank (b " ")) by (repeat constructor; cbn; auto 10).
    assert (V : dash_value (1 + n) (b " " ++ layout_of (n + 2) v) d (y ++ post)).
    { specialize (IHv (n + 2)%nat d (y ++ post) TD TY). destruct v as [x|lm|ls].
      - apply dv_leaf; [apply space_gap|exact IHv].
      - destruct IHv as (ml & -> & B). apply dv_map; [exact BL|discriminate|]. change (length (b " ")) with 1%nat. replace (1 + n + 1)%nat with (n + 2)%nat by lia. exact B.
      - destruct IHv as (ml & -> & B). apply dv_seq; [exact BL|discriminate|]. change (length (b " ")) with 1%nat. replace (1 + n + 1)%nat with (n + 2)%nat by lia. exact B. }
    assert (E : seq_text_of n (v :: l) = b "-" ++ (b " " ++ layout_of (n + 2) v) ++ y).
    { unfold seq_text_of at 1. cbn [map join]. rewrite <- !app_assoc. f_equal. f_equal. f_equal. unfold y, seq_text_of. now destruct l. }
    rewrite E. split; intros.
    + apply bs_items; [exact V|exact R].
    + apply sr_cons; [apply line_at|apply repeat_utf8|exact V|exact R].
Qed.
Lemma layout_sound t : Playout t.
Proof.
  induction t as [x|l F|l F] using ytree_all; intros n d post D T.
  - inversion D; subst. apply line_leaf; [assumption|]. now apply (tail_ended n).
  - inversion D as [|? m N P|]; subst. exists m. split; [reflexivity|]. now apply (layout_map n l F m post P T).
  - inversion D as [| |? m N P]; subst. exists m. split; [reflexivity|]. now apply (layout_seq n l F m post P T).
Qed.
(* Every tree, printed with two more columns per level and followed by layout, reads as the
   tree's data and prints back. The one condition is on the start of the text, which must not
   be that of a directive or a document marker. *)
Theorem C31_layout : forall hash t d post, tree_datum t d -> doc_start (layout_of 0 t) -> ended post -> layout post ->
  reads_as_datum hash (layout_of 0 t ++ post) d.
Proof.
  intros hash t d post D S E L. apply doc_text_reads. assert (T : tail 0 post) by (left; auto).
  pose proof (layout_sound t O d post D T) as P. destruct t as [x|l|l].
  - apply (dt_leaf [] x); auto. constructor.
  - destruct P as (m & -> & B). apply (dt_map [] O); auto. left. auto.
  - destruct P as (m & -> & B). apply (dt_seq [] O); auto. left. auto.
Qed.
Print Assumptions C31_layout.
Definition sample : ytree :=
  YMap [(b "a", YScalar (b "1")); (b "b", YMap [(b "c", YSeq [YScalar (b "x y"); YMap [(b "d", YScalar (b "true")); (b "e", YScalar (b "'z'"))]; YSeq [YScalar (b "~")]])]); (b "f", YSeq [YScalar (b "-x")])].
Example C31_case_text : layout_of 0 sample = b "a: 1
b:
  c:
    - x y
    - d: true
      e: 'z'
    - - ~
f:
  - -x".
Proof. vm_compute. reflexivity. Qed.
(* A checker for the examples. *)
Definition pdat (x : bytes) : datum :=
  match num_read true x with
  | Some (k, h) => if Nat.eqb k (length x) then DNum x h else see (TLeaf tt [] (a_plain x))
  | None => see (TLeaf tt [] (a_plain x))
  end.
Lemma pdat_ok x : plain_datum x (pdat x).
Proof.
  assert (G : (forall h, ~ number_text x h) -> plain_datum x (see (TLeaf tt [] (a_plain x)))).
  { intros N. destruct (plain_total x) as [d D]. now rewrite (a_plain_see x d D N). }
  assert (R : forall h, number_text x h -> num_read true x = Some (length x, h)).
  { intros h U. pose proof (num_read_number true x h [] U) as Q. rewrite app_nil_r in Q. apply Q; [|now left].
    split; [reflexivity|]. cbn. unfold EOF, DOT. intuition discriminate. }
  unfold pdat. destruct (num_read true x) as [[k h]|] eqn:E.
  - destruct (Nat.eqb_spec k (length x)) as [L|L].
    + apply num_read_inv in E as (y & r & -> & -> & U & _). rewrite app_length in L. destruct r as [|]; [|cbn in L; lia]. rewrite app_nil_r. now constructor.
    + apply G. intros h' U. apply R in U. congruence.
  - apply G. intros h U. apply R in U. congruence.
Qed.
Definition line_check (x : bytes) : bool := plain_start_check x && keyless_check x && negb (is_ws (last x 0)).
Lemma line_checked x : line_check x = true -> line_value x (pdat x).
Proof.
  unfold line_check. rewrite !andb_true_iff. intros [[A B] C]. apply lv_plain; [|apply pdat_ok].
  split; [now apply plain_start_checked|]. split; [now apply keyless_checked|]. intros W. apply is_ws_white in W. now rewrite W in C.
Qed.
Definition key_check (x : bytes) : bool := plain_start_check x && negb (existsb (fun c => existsb (N.eqb c) [COLON; NEWLINE; 0]) x).
Lemma key_checked x : key_check x = true -> plain_key x.
Proof.
  unfold key_check. rewrite andb_true_iff, negb_true_iff. intros [A B]. split; [now apply plain_start_checked|].
  assert (N : forall c, In c [COLON; NEWLINE; 0] -> ~ In c x).
  { intros c C I. apply not_true_iff_false in B. apply B. apply existsb_exists. exists c. split; [exact I|].
    apply existsb_exists. exists c. split; [exact C|apply N.eqb_refl]. }
  repeat split; apply N; cbn; auto.
Qed.
Example C31_case : exists d, tree_datum sample d /\ doc_start (layout_of 0 sample) /\
  d = DMap [(b "a", DNum (b "1") Unsigned64);
            (b "b", DMap [(b "c", DSeq [DStr (b "x y"); DMap [(b "d", DBool true); (b "e", DStr (b "z"))]; DSeq [DNull]])]);
            (b "f", DSeq [DStr (b "-x")])].
Proof.
  assert (Q : line_value (b "'z'") (DStr (b "z"))).
  { apply lv_quoted. apply (qt_single (b "z")). apply sc_byte; [discriminate|constructor]. }
  assert (P : forall x d, line_check x = true -> pdat x = d -> tree_datum (YScalar x) d) by (intros x d A <-; constructor; now apply line_checked).
  eexists. split; [|split; [|reflexivity]].
  - unfold sample. repeat (first [apply td_map; [discriminate|] | apply td_seq; [discriminate|] | apply pd_cons; [apply key_checked; reflexivity|..] | apply ad_cons | apply pd_nil | apply ad_nil
      | apply td_scalar; exact Q | apply P; vm_compute; reflexivity]).
  - rewrite C31_case_text. split; intros (r & E); discriminate E.
Qed.

(* ---- C34: flow lists ---- *)
(* An item: white space, then a word, a number or a quoted string. *)
Inductive word_datum : bytes -> datum -> Prop :=
| wd_word x d : flow_word x -> plain_datum x d -> word_datum x d
| wd_number x h : number_text x h -> word_datum x (DNum x h)
| wd_quoted x v : quoted_text x v -> word_datum x (DStr v).
Definition white_space_only (w : bytes) : Prop := Forall white w.
Definition flow_list (l : list (bytes * bytes)) : bytes := b "[" ++ join (b ",") (map (fun '(w, x) => w ++ x) l) ++ b "]".
Lemma white_closed w : white_space_only w -> closed w /\ utf8 w = true.
Proof.
  induction 1 as [|c w W F [IH1 IH2]]; [split; [constructor|reflexivity]|]. split; [now constructor|].
  apply utf8_text in IH2. apply utf8_text. apply (text_char [c]); [|exact IH2]. apply ascii_uchar. cbn in W. lia.
Qed.
Lemma word_follow x d c : word_datum x d -> In c (b ",]}") -> flow_item x d c.
Proof.
  intros [y e F P|y h U|y v Q] C; [now apply fi_word|apply fi_number; [exact U|left]|apply fi_quoted; [exact Q|left]]; cbn in *; tauto.
Qed.
Theorem C34_flow_list : forall hash l ds post,
  Forall2 (fun '(w, x) d => white_space_only w /\ word_datum x d) l ds -> breaks post -> layout post ->
  reads_as_datum hash (flow_list l ++ post) (DSeq ds).
Proof.
  intros hash l ds post F B L. apply doc_text_reads. apply (dt_leaf []); [constructor| |exact L|split; intros (r & E); discriminate E].
  apply lf_flow; [|exact B]. apply fl_seq. induction F as [|[w x] d l ds [W D] F IH].
  - apply (fs_end []). constructor.
  - apply white_closed in W as [C U]. cbn [map join]. destruct l as [|[w' x'] l].
    + inversion F; subst. cbn [map]. rewrite app_nil_r, <- app_assoc. apply (fs_last w x d []); auto; [constructor|]. apply word_follow; [exact D|cbn; auto].
    + cbn [map]. rewrite <- !app_assoc. apply fs_cons; auto. apply word_follow; [exact D|cbn; auto].
Qed.
Print Assumptions C34_flow_list.
Example C34_case : let l := [(b "", b "a b"); (b " ", b "-1.5"); (NEWLINE :: b "  ", b "'it''s, ok]'"); (b " ", b "Null")] in
  flow_list l = b "[a b, -1.5,
  'it''s, ok]', Null]" /\
  Forall2 (fun '(w, x) d => white_space_only w /\ word_datum x d) l
    [DStr (b "a b"); DNum (b "-1.5") Float64; DStr (b "it's, ok]"); DNull] /\
  at_path (load (flow_list l)) [I 2] as_bstr = Some (Some (b "it's, ok]")).
Proof.
  cbn zeta. split; [vm_compute; reflexivity|]. split; [|vm_compute; reflexivity].
  assert (WS : forall w, forallb is_ws w = true -> white_space_only w).
  { intros w H. apply Forall_forall. intros c I. rewrite forallb_forall in H. apply is_ws_white. auto. }
  assert (FW : forall c r, negb (is_ws c || is_digit c || existsb (N.eqb c) (b "-.#""'[{>|")) = true ->
    forallb (fun c => negb (existsb (N.eqb c) (b ",:]}") || (c =? 0))) (c :: r) = true -> flow_word (c :: r)).
  { intros c r H1 H2. rewrite negb_true_iff, !orb_false_iff in H1. destruct H1 as [[A A'] A'']. exists c, r. split; [reflexivity|].
    split; [intros W; apply is_ws_white in W; congruence|]. split; [intros W; apply digit_iff in W; congruence|]. split.
    - intros J. apply not_true_iff_false in A''. apply A''. apply existsb_exists. exists c. split; [exact J|apply N.eqb_refl].
    - apply Forall_forall. intros e J. rewrite forallb_forall in H2. apply H2 in J. rewrite negb_true_iff, orb_false_iff in J. destruct J as [J J']. split.
      + intros K. apply not_true_iff_false in J. apply J. apply existsb_exists. exists e. split; [exact K|apply N.eqb_refl].
      + now apply N.eqb_neq. }
  repeat (apply Forall2_cons; [split; [apply WS; reflexivity|]|]); [..|apply Forall2_nil].
  - apply wd_word; [apply FW; reflexivity|]. pose proof (pdat_ok (b "a b")) as Q. exact Q.
  - apply wd_number. right. exists (b "1.5"), true. split; [reflexivity|]. split; [|reflexivity].
    apply (un_point (b "1") (b "5")); repeat constructor; discriminate.
  - apply wd_quoted. apply (qt_single (b "it''s, ok]")). do 2 (apply sc_byte; [discriminate|]). apply (sc_pair (b "s, ok]") (b "s, ok]")).
    repeat (apply sc_byte; [discriminate|]). constructor.
  - apply wd_word; [apply FW; reflexivity|]. pose proof (pdat_ok (b "Null")) as Q. exact Q.
Qed.

(* ---- C32: keys without a value ---- *)
(* Lines of a mapping: a key, and maybe the text of its value with its datum. *)
Definition entry : Type := bytes * option (bytes * datum).
Definition entry_text (e : entry) : bytes :=
  fst e ++ b ":" ++ match snd e with Some (x, _) => b " " ++ x | None => [] end.
Definition entry_datum (e : entry) : bytes * datum :=
  (fst e, match snd e with Some (_, d) => d | None => DNull end).
Definition entry_ok (e : entry) : Prop :=
  plain_key (fst e) /\ match snd e with Some (x, d) => line_value x d | None => True end.
Definition has_value (e : entry) : Prop := snd e <> None.
Lemma entry_breaks (e : entry) r : (r = [] \/ hd EOF r = NEWLINE) -> breaks (match snd e with Some (x, _) => b " " ++ x | None => [] end ++ r).
Proof. destruct e as [k [[x d]|]]; intros E; [right; cbn; auto 10|]. now apply ended_breaks. Qed.
Lemma entries_map l : Forall entry_ok l -> (l = [] \/ has_value (last l ([], None))) -> forall post, ended post -> layout post ->
  (l <> [] -> block_map 0 (join [NEWLINE] (map entry_text l)) (map entry_datum l) post) /\
  map_rest 0 (match l with [] => [] | _ => [NEWLINE] ++ join [NEWLINE] (map entry_text l) end) (map entry_datum l) post.
Proof.
  intros F HV post EP LP. induction F as [|[k o] l [K V] F IH].
  - split; [congruence|]. constructor. now left.
  - assert (HV' : l = [] \/ has_value (last l ([], None))).
    { destruct HV as [HV|HV]; [discriminate|]. destruct l; [now left|right]. exact HV. }
    destruct (IH HV') as [_ R]. clear IH. cbn [fst snd] in *.
    set (y := match l with [] => [] | _ => [NEWLINE] ++ join [NEWLINE] (map entry_text l) end) in *.
    assert (EY : ended (y ++ post)) by (unfold y; destruct l; [exact EP|now right]).
    assert (KV : key_value 0 match o with Some (x, _) => b " " ++ x | None => [] end match o with Some (_, d) => d | None => DNull end (y ++ post)).
    { destruct o as [[x d]|].
      - apply kv_leaf; [apply space_gap|]. now apply line_leaf.
      - destruct l as [|[k' o'] l]; [now destruct HV as [HV|HV]; [discriminate|elim HV]|].
        apply kv_none. inversion F as [|? ? [K' V'] _]; subst. cbn [fst snd] in *.
        set (q := match l with [] => [] | _ => [NEWLINE] ++ join [NEWLINE] (map entry_text l) end).
        exists [NEWLINE], O, k', (match o' with Some (x, _) => b " " ++ x | None => [] end ++ q ++ post).
        split; [|split; [apply (line_at 0)|split; [lia|split; [exact K'|]]]].
        + unfold y, q. cbn [map join]. unfold entry_text at 1. cbn [fst snd]. rewrite <- !app_assoc. now destruct l.
        + apply (entry_breaks (k', o')). unfold q. destruct l; [exact EP|now right]. }
    assert (E : join [NEWLINE] (map entry_text (@cons entry (k, o) l)) = k ++ b ":" ++ match o with Some (x, _) => b " " ++ x | None => [] end ++ y).
    { cbn [map join]. unfold entry_text at 1. cbn [fst snd]. rewrite <- !app_assoc. unfold y. now destruct l. }
    rewrite E. split; intros.
    + apply bm_items; [left; auto|exact KV|exact R].
    + apply (mr_cons 0 [NEWLINE]); [apply (line_at 0)|exact K|exact KV|exact R].
Qed.
(* A key with nothing behind its colon, other than the last, is null, and the others are as
   written. Missing from C32: the last key, see C32_last_key_refuted. Deeper mappings are in
   the grammar of C35, by the rule kv_none. *)
Theorem C32_keys_partial : forall hash l post, l <> [] -> Forall entry_ok l -> has_value (last l ([], None)) ->
  doc_start (join [NEWLINE] (map entry_text l)) -> ended post -> layout post ->
  reads_as_datum hash (join [NEWLINE] (map entry_text l) ++ post) (DMap (map entry_datum l)).
Proof.
  intros hash l post N F HV S E L. apply doc_text_reads. apply (dt_map [] 0); auto; [left; auto|].
  now apply (entries_map l F (or_intror HV) post E L).
Qed.
Print Assumptions C32_keys_partial.
Example C32_case : let l : list entry := [(b "a", None); (b "b", Some (b "1", DNum (b "1") Unsigned64)); (b "c d", None); (b "e", Some (b "x", DStr (b "x")))] in
  join [NEWLINE] (map entry_text l) = b "a:
b: 1
c d:
e: x" /\ Forall entry_ok l /\ has_value (last l ([], None)) /\
  at_path (load (join [NEWLINE] (map entry_text l))) [K (b "c d")] as_any = Some ANull.
Proof.
  cbn zeta. split; [reflexivity|]. split; [|split; [discriminate|vm_compute; reflexivity]].
  repeat (apply Forall_cons; [split; [apply key_checked; reflexivity|try exact Logic.I; apply line_checked; reflexivity]|]). constructor.
Qed.

(* ---- C26: quoted keys ---- *)
Lemma shows_get hash doc id l : built hash doc -> no_collision hash (doc_data doc) -> value_of doc id -> shows (doc_data doc) id (DMap l) ->
  forall key, match List.find (fun '(k, _) => beq k key) l with
  | Some (_, x) => exists v, map_get (doc_data doc) id key = Ok (Some v) /\ shows (doc_data doc) v x
  | None => map_get (doc_data doc) id key = Ok None
  end.
Proof.
  intros B N V S key. inversion S as [| | | |? es xs A ME SP|]; subst.
  destruct (C12_reads hash doc id B N V) as (es' & ME' & _ & _ & G & _).
  { unfold as_any in A. unfold as_mapping. destruct (get_raw (doc_data doc) id) as [r|? ? ?| | |]; try discriminate.
    destruct r as [[]| | | |]; try discriminate; auto;
      match type of A with (match ?z with _ => _ end) = _ => destruct z; discriminate end. }
  rewrite (map_entries_det _ _ _ _ ME ME') in SP. destruct (G key) as (o & -> & F). clear -SP F.
  revert o F. induction SP as [|k v x es xs SV SP IH]; intros o F; cbn [List.find].
  - destruct o as [v|]; [|reflexivity]. destruct F as ([|] & l2 & E & _); discriminate.
  - destruct (beq k key) eqn:Q.
    + apply beq_iff in Q as ->. destruct o as [v'|]; [|elim F; now left]. destruct F as ([|[k1 v1] l1] & l2 & E & NI).
      * injection E as <- _. eauto.
      * cbn in E. injection E as <- _ _. elim NI. now left.
    + assert (NE : k <> key) by (intros ->; assert (T : beq key key = true) by (now apply beq_iff); congruence).
      apply IH. destruct o as [v'|]; [|intros J; apply F; now right]. destruct F as ([|[k1 v1] l1] & l2 & E & NI); [injection E as E _ _; congruence|].
      cbn in E. injection E as _ _ E. exists l1, l2. split; [exact E|]. intros J. apply NI. now right.
Qed.
(* In a block mapping the first key is found by what its quotes stand for. Missing from C26:
   later keys and flow mappings, see C26_block_key_refuted and C26_flow_key_refuted. *)
Theorem C26_first_key_partial : forall hash q k t d y l post,
  quoted_text q k -> key_value 0 t d (y ++ post) -> map_rest 0 y l post -> layout post ->
  exists doc, from_slice hash (q ++ b ":" ++ t ++ y ++ post) = Ok doc /\
    (no_collision hash (doc_data doc) -> exists v, map_get (doc_data doc) (doc_root doc) k = Ok (Some v) /\ shows (doc_data doc) v d).
Proof.
  intros hash q k t d y l post Q KV MR L.
  assert (R : reads_as_datum hash (q ++ b ":" ++ t ++ y ++ post) (DMap ((k, d) :: l))).
  { replace (q ++ b ":" ++ t ++ y ++ post) with ([] ++ (q ++ b ":" ++ t ++ y) ++ post) by (norm_app; reflexivity).
    apply doc_text_reads. apply (dt_map [] 0); [left; auto| |exact L|].
    - apply bm_items; auto. now right.
    - apply quoted_hd in Q as (c & r & -> & [-> | ->]); split; intros (r' & E); discriminate E. }
  destruct R as (doc & E & R). exists doc. split; [exact E|]. intros N. destruct (R N) as [S _].
  assert (B : built hash doc) by now apply (built_parse _ _ _ (q ++ b ":" ++ t ++ y ++ post)).
  pose proof (shows_get hash doc (doc_root doc) _ B N (w_here _ _) S k) as G. cbn [List.find] in G.
  assert (beq k k = true) as X by now apply beq_iff. now rewrite X in G.
Qed.
Print Assumptions C26_first_key_partial.
Example C26_case : at_path (load (b "'it''s': 1
x: 2")) [] (fun d id => map_get d id (b "it's")) <> Some None /\
  at_path (load (b "'it''s': 1
x: 2")) [K (b "it's")] as_any = Some (ANumber (b "1") Unsigned64) /\
  quoted_text (b "'it''s'") (b "it's") /\ key_value 0 (b " 1") (DNum (b "1") Unsigned64) (NEWLINE :: b "x: 2") /\
  map_rest 0 (NEWLINE :: b "x: 2") [(b "x", DNum (b "2") Unsigned64)] [].
Proof.
  split; [vm_compute; discriminate|]. split; [vm_compute; reflexivity|]. split; [|split].
  - apply (qt_single (b "it''s")). do 2 (apply sc_byte; [discriminate|]). apply (sc_pair (b "s") (b "s")). apply sc_byte; [discriminate|constructor].
  - apply (kv_leaf 0 (b " ") (b "1")); [apply space_gap|]. apply line_leaf; [|now right]. apply (line_checked (b "1")). reflexivity.
  - apply (mr_cons 0 [NEWLINE] (b "x") (b " 2") (DNum (b "2") Unsigned64) [] []); [apply (line_at 0)|apply key_checked; reflexivity| |].
    + apply (kv_leaf 0 (b " ") (b "2")); [apply space_gap|]. apply line_leaf; [|now left]. apply (line_checked (b "2")). reflexivity.
    + constructor. left. constructor.
Qed.

(* ---- C20: chomping ---- *)
(* A block scalar with its lines at column m. *)
Definition indicator (folded : bool) : bytes := if folded then b ">" else b "|".
Definition block_of (folded : bool) (c : chomping) (m : nat) (ls : list bytes) : bytes :=
  indicator folded ++ chomp_text c ++ line m ++ join (line m) ls.
Definition content_of (folded : bool) (ls : list bytes) : bytes := join (if folded then b " " else [NEWLINE]) ls.
Lemma block_of_lines fo m ls : ls <> [] -> Forall block_line ls -> block_lines fo m (join (line m) ls) (content_of fo ls).
Proof.
  intros N F. induction F as [|l ls L F IH]; [congruence|]. destruct ls as [|l' ls].
  - cbn [content_of join]. unfold content_of. cbn [join]. rewrite app_nil_r. now constructor.
  - specialize (IH ltac:(discriminate)). unfold content_of in *. set (r := l' :: ls) in *.
    assert (J : forall s, join s (l :: r) = l ++ s ++ join s r) by reflexivity. rewrite !J.
    replace (if fo then b " " else [NEWLINE]) with (if fo then b " " else newlines 1) at 1 by now destruct fo.
    apply (bk_more fo m l 1 (repeat SPACE m)); auto; [|apply repeat_length].
    apply Forall_forall. intros c I. apply repeat_spec in I. subst. cbn. auto 10.
Qed.
Lemma block_of_scalar fo c m ls k post : (0 < m)%nat -> ls <> [] -> Forall block_line ls -> (0 < k)%nat -> (post = [] \/ stops post) ->
  block_scalar (block_of fo c m ls) (content_of fo ls ++ match c with CStrip => [] | _ => newlines k end) (newlines k ++ post).
Proof.
  intros M N F K P. unfold block_of. replace (indicator fo) with (b (if fo then ">" else "|")%string) by now destruct fo.
  apply (bs_block fo c m (line m) (join (line m) ls) (content_of fo ls) k []); auto; [apply line_at|now apply block_of_lines].
Qed.
(* What the crate does: with the indicator - the trailing newlines are dropped, and with + or
   without indicator they are all kept; as a document, and as a value that another key follows. *)
Theorem C20_actual : forall hash fo c m ls k, (0 < m)%nat -> ls <> [] -> Forall block_line ls -> (0 < k)%nat ->
  let content := content_of fo ls ++ match c with CStrip => [] | CKeep | CNone => newlines k end in
  reads_as_datum hash (block_of fo c m ls ++ newlines k) (DStr content) /\
  forall key key' x d, plain_key key -> plain_key key' -> line_value x d -> doc_start key ->
    reads_as_datum hash (key ++ b ": " ++ block_of fo c m ls ++ newlines k ++ key' ++ b ": " ++ x) (DMap [(key, DStr content); (key', d)]).
Proof.
  intros hash fo c m ls k M N F K content.
  assert (EC : content_of fo ls ++ match c with CStrip => [] | _ => newlines k end = content) by (unfold content; destruct c; reflexivity).
  assert (LN : forall j, layout (newlines j)) by (intros j; apply closed_layout, newlines_closed).
  split.
  - apply doc_text_reads. apply (dt_leaf [] _ (DStr content) (newlines k)); [constructor| |apply LN|].
    + apply lf_block. rewrite <- EC. pose proof (block_of_scalar fo c m ls k [] M N F K (or_introl eq_refl)) as Q. now rewrite app_nil_r in Q.
    + split; intros (r & E); destruct fo; discriminate E.
  - intros key key' x d KK KK' X S. apply doc_text_reads.
    set (rest := newlines k ++ key' ++ b ": " ++ x).
    replace (key ++ b ": " ++ block_of fo c m ls ++ rest) with ([] ++ (key ++ b ":" ++ (b " " ++ block_of fo c m ls) ++ rest) ++ [])
      by (norm_app; reflexivity).
    assert (SK : stops (key' ++ b ": " ++ x)) by (apply (key_starts key' (b ": " ++ x) KK')).
    apply (dt_map [] 0); [left; auto| |constructor|].
    + apply bm_items; [left; auto| |].
      * apply kv_leaf; [apply space_gap|]. rewrite app_nil_r. apply lf_block. rewrite <- EC. unfold rest. apply block_of_scalar; auto.
      * assert (ER : rest = newlines k ++ key' ++ b ":" ++ (b " " ++ x) ++ []) by (unfold rest; rewrite app_nil_r; reflexivity). rewrite ER.
        pose proof (newlines_at k [] K (Forall_nil _)) as (NA & _). rewrite app_nil_r in NA. cbn [length] in NA.
        apply mr_cons; [exact NA|exact KK'| |constructor; left; constructor].
        apply kv_leaf; [apply space_gap|]. apply line_leaf; [exact X|now left].
    + destruct S as [S1 S2]. destruct KK as (PS & KC & _). split; intros (r & E).
      * destruct PS as (a & q & -> & _). cbn in E. injection E as -> E. apply S1. exists q. reflexivity.
      * apply S2. destruct key as [|a1 [|a2 [|a3 q]]]; cbn in E; try discriminate; try (injection E as; discriminate).
        injection E as -> -> -> _. exists q. reflexivity.
Qed.
(* With the indicator - the trailing newlines are dropped, with + they are all kept, and
   without indicator a single one is kept; as a document, and as a value that another key
   follows. Missing from C20: the block without indicator and with more newlines, see
   C20_clip_refuted; what such a block gives instead is in C20_actual. *)
Theorem C20_chomp_partial : forall hash fo c m ls k, (0 < m)%nat -> ls <> [] -> Forall block_line ls -> (0 < k)%nat -> (c = CNone -> k = 1%nat) ->
  let content := content_of fo ls ++ match c with CStrip => [] | CKeep => newlines k | CNone => newlines 1 end in
  reads_as_datum hash (block_of fo c m ls ++ newlines k) (DStr content) /\
  forall key key' x d, plain_key key -> plain_key key' -> line_value x d -> doc_start key ->
    reads_as_datum hash (key ++ b ": " ++ block_of fo c m ls ++ newlines k ++ key' ++ b ": " ++ x) (DMap [(key, DStr content); (key', d)]).
Proof.
  intros hash fo c m ls k M N F K NC. pose proof (C20_actual hash fo c m ls k M N F K) as H.
  destruct c; [exact H|exact H|]. rewrite (NC eq_refl) in *. exact H.
Qed.
Print Assumptions C20_actual.
Print Assumptions C20_chomp_partial.
Example C20_case :
  block_of true CStrip 2 [b "one two"; b "three"] ++ newlines 3 = b ">-
  one two
  three


" /\ Forall block_line [b "one two"; b "three"] /\
  at_path (load (b ">-
  one two
  three


")) [] as_bstr = Some (Some (b "one two three")) /\
  at_path (load (b "k: |+
    one


x: 1")) [K (b "k")] as_bstr = Some (Some (b "one" ++ newlines 3)).
Proof.
  split; [reflexivity|]. split; [|split; vm_compute; reflexivity].
  assert (L : forall c r, 33 <= c <= 126 -> c <> HASH -> 33 <= last (c :: r) 0 <= 126 -> ~ In NEWLINE (c :: r) -> block_line (c :: r)).
  { intros c r A B C D. split; [discriminate|]. split; [exact B|]. split; [now apply graphic_clean|exact D]. }
  repeat (apply Forall_cons; [apply L; cbn; try lia; try discriminate; unfold NEWLINE; intuition discriminate|]). constructor.
Qed.
Definition c35_text : bytes := b "# head
a:
    # c
    - 'x' # y
    -
      k: {m: [1, q r]}
b:
c: 2
".
Example C35_case : doc_text c35_text
  (DMap [(b "a", DSeq [DStr (b "x"); DMap [(b "k", DMap [(b "m", DSeq [DNum (b "1") Unsigned64; DStr (b "q r")])])]]); (b "b", DNull); (b "c", DNum (b "2") Unsigned64)]) /\
  at_path (load c35_text) [K (b "a"); I 1; K (b "k"); K (b "m"); I 1] as_bstr = Some (Some (b "q r")).
Proof.
  split; [|vm_compute; reflexivity].
  assert (NA : forall m u t, Forall blank t -> length t = m -> closed (u ++ [NEWLINE]) -> white (hd EOF (u ++ [NEWLINE] ++ t)) -> newline_at m (u ++ [NEWLINE] ++ t))
    by (intros m u t A B C D; split; [exact D|]; exists u, t; auto).
  assert (BL : forall t, forallb is_other_ws t = true -> Forall blank t).
  { intros t H. apply Forall_forall. intros c I. rewrite forallb_forall in H. apply blank_iff. auto. }
  assert (WH : forall c, is_ws c = true -> white c) by (intros c; apply is_ws_white).
  assert (C1 : closed (b "# head" ++ [NEWLINE])) by (apply (cl_comment (b " head") []); [cbn; unfold NEWLINE; intuition discriminate|constructor]).
  assert (C2 : closed (NEWLINE :: b "    # c" ++ [NEWLINE])).
  { do 5 (apply cl_ws; [apply WH; reflexivity|]). apply (cl_comment (b " c") []); [cbn; unfold NEWLINE; intuition discriminate|constructor]. }
  assert (C3 : closed (b " # y" ++ [NEWLINE])).
  { apply cl_ws; [apply WH; reflexivity|]. apply (cl_comment (b " y") []); [cbn; unfold NEWLINE; intuition discriminate|constructor]. }
  assert (E : forall v r post, line_check v = true -> pdat v = r -> ended post -> leaf v r post) by (intros v r post A <- B; apply line_leaf; [now apply line_checked|exact B]).
  assert (M1 : key_value 6 (b " {m: [1, q r]}") (DMap [(b "m", DSeq [DNum (b "1") Unsigned64; DStr (b "q r")])]) (NEWLINE :: b "b:
c: 2
")).
  { apply (kv_leaf 6 (b " ") (b "{m: [1, q r]}")); [apply space_gap|]. apply lf_flow; [|right; apply WH; reflexivity].
    apply (fl_map (b "m: [1, q r]}")). apply (fm_last [] (b "m") (b " ") (b "[1, q r]")); [constructor| |apply space_gap|].
    - exists 109, []. split; [reflexivity|]. split; [intros X; apply is_ws_white in X; discriminate|]. split; [cbn; intuition discriminate|].
      apply Forall_cons; [|constructor]. split; [cbn; intuition discriminate|discriminate].
    - apply fi_nested. apply (fl_seq (b "1, q r]")). apply (fs_cons [] (b "1") (DNum (b "1") Unsigned64) (b " q r]") [DStr (b "q r")]); [constructor|reflexivity| |].
      + apply fi_number; [|cbn; auto]. left. exists false. split; [|reflexivity]. apply un_int; [|discriminate]. repeat constructor; discriminate.
      + apply (fs_last (b " ") (b "q r") (DStr (b "q r")) []); [apply space_gap|reflexivity|constructor|]. apply fi_word; [|apply (pdat_ok (b "q r"))|cbn; auto].
        exists 113, (b " r"). split; [reflexivity|]. split; [intros X; apply is_ws_white in X; discriminate|]. split; [intros X; apply digit_iff in X; discriminate|].
        split; [cbn; intuition discriminate|]. repeat (apply Forall_cons; [split; [cbn; intuition discriminate|discriminate]|]). constructor. }
  assert (S : block_seq 4 (b "- 'x' # y
    -
      k: {m: [1, q r]}") [DStr (b "x"); DMap [(b "k", DMap [(b "m", DSeq [DNum (b "1") Unsigned64; DStr (b "q r")])])]] (NEWLINE :: b "b:
c: 2
")).
  { apply (bs_items 4 (b " 'x'") (DStr (b "x")) (b " # y
    -
      k: {m: [1, q r]}")).
    - apply (dv_leaf 5 (b " ") (b "'x'")); [apply space_gap|]. apply lf_quoted; [|right; apply WH; reflexivity]. apply (qt_single (b "x")). apply sc_byte; [discriminate|constructor].
    - apply (sr_cons 4 (b " # y" ++ [NEWLINE] ++ b "    ") (NEWLINE :: b "      k: {m: [1, q r]}") _ [] []).
      + apply NA; [apply BL; reflexivity|reflexivity|exact C3|apply WH; reflexivity].
      + reflexivity.
      + apply (dv_map_below 5 6 ([] ++ [NEWLINE] ++ b "      ") (b "k: {m: [1, q r]}")); [apply (line_at 6)|lia|].
        rewrite <- (app_nil_r (b "k: {m: [1, q r]}")).
        apply (bm_items 6 (b "k") (b "k") (b " {m: [1, q r]}") _ [] []); [left; split; [apply key_checked; reflexivity|reflexivity]|exact M1|].
        constructor. right. exists [NEWLINE], O, (b "b:
c: 2
"). split; [reflexivity|]. split; [apply (line_at 0)|]. split; [lia|]. split; [discriminate|]. split; [intros X; apply is_ws_white in X; discriminate|discriminate].
      + constructor. right. exists [NEWLINE], O, (b "b:
c: 2
"). split; [reflexivity|]. split; [apply (line_at 0)|]. split; [left; lia|]. split; [discriminate|]. split; [intros X; apply is_ws_white in X; discriminate|discriminate]. }
  apply (dt_map (b "# head" ++ [NEWLINE]) 0 (b "a:
    # c
    - 'x' # y
    -
      k: {m: [1, q r]}
b:
c: 2") _ [NEWLINE]).
  - right. exists (b "# head"), []. split; [reflexivity|]. split; [exact C1|]. split; [constructor|reflexivity].
  - apply (bm_items 0 (b "a") (b "a") (NEWLINE :: b "    # c
    - 'x' # y
    -
      k: {m: [1, q r]}") _ (NEWLINE :: b "b:
c: 2")).
    + left. split; [apply key_checked; reflexivity|reflexivity].
    + apply (kv_seq 0 4 ((NEWLINE :: b "    # c") ++ [NEWLINE] ++ b "    ")); [|lia|exact S].
      apply NA; [apply BL; reflexivity|reflexivity|exact C2|apply WH; reflexivity].
    + apply (mr_cons 0 [NEWLINE] (b "b") [] DNull (NEWLINE :: b "c: 2")); [apply (line_at 0)|apply key_checked; reflexivity| |].
      * apply kv_none. exists [NEWLINE], O, (b "c"), (b " 2" ++ [NEWLINE]). split; [reflexivity|]. split; [apply (line_at 0)|]. split; [lia|].
        split; [apply key_checked; reflexivity|]. right. apply WH. reflexivity.
      * apply (mr_cons 0 [NEWLINE] (b "c") (b " 2") (DNum (b "2") Unsigned64) [] []); [apply (line_at 0)|apply key_checked; reflexivity| |].
        -- apply (kv_leaf 0 (b " ") (b "2")); [apply space_gap|]. apply E; [reflexivity|reflexivity|now right].
        -- constructor. left. apply (closed_layout [NEWLINE]). apply cl_ws; [apply WH; reflexivity|constructor].
  - apply (closed_layout [NEWLINE]). apply cl_ws; [apply WH; reflexivity|constructor].
  - split; intros (r & X); discriminate X.
Qed.
