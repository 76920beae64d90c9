(* C59: texts moved to the right, and texts below keys and dashes. *)
From Coq Require Import String.
From Coq Require Import List NArith ZArith Bool Arith Lia.
From Verif Require Import Bytes Utf8 Data Parser Render Tree Abs Refine Utf8Props Scan Num Api Ctx Edit Built Reads ReadsSound
  Shown Plain Grammar Laid GrammarSound Tests Refuted PropsParse PropsEdit PropsColl PropsValue PropsScalar PropsText.
From Verif Require Import Join PropsJoin Nest.
Import ListNotations.
Local Open Scope N_scope.

(* A value of the grammar behind the layout w and in front of post. *)
Definition value_at (w x : bytes) (d : datum) (post : bytes) : Prop := (closed w /\ leaf x d post) \/
  (exists n l, line_start n w /\ block_map n x l post /\ d = DMap l) \/ (exists n l, line_start n w /\ block_seq n x l post /\ d = DSeq l).
(* A text of the grammar that ends with a newline. *)
Definition doc_file (text : bytes) (d : datum) : Prop := exists w x post, text = w ++ x ++ post /\ value_at w x d post /\ newline_at 0 post /\ utf8 post = true /\
  doc_start x /\ calm text (strings d).

Lemma start_newline n w : line_start n w -> newline_at n (NEWLINE :: w).
Proof.
  intros [[B L]|(u & t & -> & C & B & L)]; (split; [cbn; auto|]).
  - exists [], w. split; [reflexivity|]. split; [|auto]. apply (newlines_closed 1).
  - exists (NEWLINE :: u), t. split; [reflexivity|]. split; [|auto]. cbn [app]. constructor; [cbn; auto|exact C].
Qed.
Lemma value_sub w x post l : calm (w ++ x ++ post) l -> calm x l.
Proof. intros C. apply (calm_sub _ x w post l l C); [reflexivity|apply incl_refl]. Qed.
Lemma nest_key k w x d post : (0 < k)%nat -> value_at w x d post -> calm x (strings d) ->
  key_value 0 (ind k (hd NEWLINE post) (NEWLINE :: w ++ x)) d (ind k NEWLINE post).
Proof.
  intros K V C. change (NEWLINE :: w ++ x) with ((NEWLINE :: w) ++ x). rewrite ind_app. destruct V as [[W L]|[(n & l & W & M & ->)|(n & l & W & M & ->)]].
  - apply kv_leaf; [|now apply ind_leaf]. apply ind_gap. split; [constructor; [cbn; auto|exact W]|cbn; auto].
  - apply (kv_map 0 (n + k)); [apply ind_newline_at; [now apply start_newline|now apply (map_hd n x l post)]|lia|]. now apply ind_block.
  - apply (kv_seq 0 (n + k)); [apply ind_newline_at; [now apply start_newline|now apply (seq_hd n x l post)]|lia|]. now apply ind_block.
Qed.
Lemma nest_dash k w x d post : (0 < k)%nat -> value_at w x d post -> calm x (strings d) ->
  dash_value 1 (ind k (hd NEWLINE post) (NEWLINE :: w ++ x)) d (ind k NEWLINE post).
Proof.
  intros K V C. change (NEWLINE :: w ++ x) with ((NEWLINE :: w) ++ x). rewrite ind_app. destruct V as [[W L]|[(n & l & W & M & ->)|(n & l & W & M & ->)]].
  - apply dv_leaf; [|now apply ind_leaf]. apply ind_gap. split; [constructor; [cbn; auto|exact W]|cbn; auto].
  - apply (dv_map_below 1 (n + k)); [apply ind_newline_at; [now apply start_newline|now apply (map_hd n x l post)]|lia|]. now apply ind_block.
  - apply (dv_seq_below 1 (n + k)); [apply ind_newline_at; [now apply start_newline|now apply (seq_hd n x l post)]|lia|]. now apply ind_block.
Qed.
Lemma nest_split k w x post : NEWLINE :: shift k (w ++ x ++ post) = ind k (hd NEWLINE post) (NEWLINE :: w ++ x) ++ ind k NEWLINE post.
Proof. rewrite shift_ind, app_assoc. change (NEWLINE :: (w ++ x) ++ post) with ((NEWLINE :: w ++ x) ++ post). now rewrite ind_app. Qed.
Lemma file_reads hash text d : doc_file text d -> reads_as_datum hash text d.
Proof.
  intros (w & x & post & -> & V & NA & _ & DS & _). assert (L : layout post) by (apply closed_layout; now apply (newline_closed 0)).
  apply C35_grammar. destruct V as [[W LF]|[(n & l & W & M & ->)|(n & l & W & M & ->)]]; [now apply dt_leaf|now apply (dt_map w n)|now apply (dt_seq w n)].
Qed.

(* ---- one column after the other ---- *)
Theorem C59_shift : forall hash k text d, doc_text text d -> calm text (strings d) ->
  reads_as_datum hash text d /\ reads_as_datum hash (shift k text) d.
Proof.
  intros hash k text d D C. split; [now apply C35_grammar|]. apply C35_grammar.
  assert (DS : forall nx x, doc_start x -> doc_start (ind k nx x)).
  { intros nx x [A B]. split; intros [r E]; apply ind_prefix in E as (r' & ->); [apply A; now exists r'|cbn; unfold NEWLINE; intuition discriminate|apply B; now exists r'|cbn; unfold NEWLINE; intuition discriminate]. }
  assert (S : forall w x post, shift k (w ++ x ++ post) = tl (ind k (hd (hd NEWLINE post) x) (NEWLINE :: w)) ++ ind k (hd NEWLINE post) x ++ ind k NEWLINE post).
  { intros w x post. change (shift k (w ++ x ++ post)) with (tl (NEWLINE :: shift k (w ++ x ++ post))). rewrite nest_split.
    change (NEWLINE :: w ++ x) with ((NEWLINE :: w) ++ x). rewrite ind_app. cbn [ind app tl]. now rewrite <- !app_assoc. }
  assert (LS : forall nx n w, nx <> NEWLINE -> line_start n w -> line_start (n + k) (tl (ind k nx (NEWLINE :: w)))).
  { intros nx n w N L. apply start_newline, (ind_newline_at k nx) in L; [|exact N]. destruct L as (_ & u & t & E & CU & B & LE). rewrite E. destruct u as [|c u].
    - left. cbn [app tl]. auto.
    - right. exists u, t. split; [reflexivity|]. split; [|auto]. cbn [ind] in E. injection E as <- E. cbn [app] in CU. inversion CU; subst. assumption. }
  destruct D as [w x d post W LF LY DX|w n x l post W M LY DX|w n x l post W M LY]; rewrite S; pose proof (value_sub _ _ _ _ C) as CX.
  - apply dt_leaf; [|now apply ind_leaf|now apply ind_layout|now apply DS].
    assert (CL : closed (ind k (hd (hd NEWLINE post) x) (NEWLINE :: w))) by (apply ind_closed; constructor; [cbn; auto|exact W]).
    cbn [ind] in CL |- *. cbn [tl]. inversion CL; subst. assumption.
  - apply (dt_map _ (n + k)); [apply LS; [now apply (map_hd n x l post)|exact W]|now apply ind_block|now apply ind_layout|now apply DS].
  - apply (dt_seq _ (n + k)); [apply LS; [now apply (seq_hd n x l post)|exact W]|now apply ind_block|now apply ind_layout].
Qed.
Print Assumptions C59_shift.

(* ---- below keys and dashes ---- *)
Definition below_key (k : nat) (key text : bytes) : bytes := key ++ b ":" ++ [NEWLINE] ++ shift k text.
Definition below_dash (k : nat) (text : bytes) : bytes := b "-" ++ [NEWLINE] ++ shift k text.
(* A key that starts neither a directive nor a sequence. *)
Definition section_key (key : bytes) : Prop := plain_key key /\ ~ In (hd EOF key) (b "%-").

Lemma key_file k key text d : (0 < k)%nat -> section_key key -> doc_file text d -> map_file (below_key k key text) [(key, d)].
Proof.
  intros K [PK HK] (w & x & post & -> & V & NA & _ & _ & C). apply value_sub in C. exists (key ++ b ":" ++ ind k (hd NEWLINE post) (NEWLINE :: w ++ x)), (ind k NEWLINE post).
  split; [unfold below_key; cbn [app]; rewrite nest_split, <- !app_assoc; reflexivity|].
  assert (NP : newline_at 0 (ind k NEWLINE post)) by now apply ind_newline_end.
  split; [|split; [exact NP|]].
  - rewrite <- (app_nil_r (ind k (hd NEWLINE post) (NEWLINE :: w ++ x))). apply bm_items; [left; auto|now apply nest_key|]. apply mr_nil. left. apply closed_layout. now apply (newline_closed 0).
  - destruct PK as ((c & r & -> & W & S & _) & _). cbn [hd] in HK. split.
    + split; intros [q E]; apply (f_equal (hd EOF)) in E; cbn in E; subst c; apply HK; cbn; auto.
    + unfold below_key. cbn [app hd]. cbn in S, HK |- *. unfold DASH. intuition.
Qed.
Lemma dash_file k text d : (0 < k)%nat -> doc_file text d -> seq_file (below_dash k text) [d].
Proof.
  intros K (w & x & post & -> & V & NA & U & _ & C). apply value_sub in C. exists (b "-" ++ ind k (hd NEWLINE post) (NEWLINE :: w ++ x)), (ind k NEWLINE post).
  split; [unfold below_dash; cbn [app]; rewrite nest_split; reflexivity|].
  assert (NP : newline_at 0 (ind k NEWLINE post)) by now apply ind_newline_end.
  split; [|split; [exact NP|now apply ind_utf8]]. rewrite <- (app_nil_r (ind k (hd NEWLINE post) (NEWLINE :: w ++ x))). apply bs_items; [now apply nest_dash|].
  apply sr_nil. left. apply closed_layout. now apply (newline_closed 0).
Qed.

(* Each text is read as its datum; below keys, they are the values of a mapping; below dashes, the items of a sequence. *)
Theorem C59_keys : forall hash k parts, (0 < k)%nat -> parts <> [] ->
  Forall (fun '(key, text, d) => section_key key /\ doc_file text d) parts ->
  Forall (fun '(_, text, d) => reads_as_datum hash text d) parts /\
  reads_as_datum hash (concat (map (fun '(key, text, _) => below_key k key text) parts)) (DMap (map (fun '(key, _, d) => (key, d)) parts)).
Proof.
  intros hash k parts K N F. split.
  - clear N. induction F as [|[[key text] d] parts [_ H] F IH]; constructor; [now apply file_reads|exact IH].
  - set (E := fun p : bytes * bytes * datum => let '(key, _, d) := p in [(key, d)]).
    assert (G : Forall2 map_file (map (fun '(key, text, _) => below_key k key text) parts) (map E parts)).
    { clear N. induction F as [|[[key text] d] parts [S H] F IH]; constructor; [now apply key_file|exact IH]. }
    apply (C58_maps hash) in G as [_ G]; [|now destruct parts].
    replace (map (fun '(key, _, d) => (key, d)) parts) with (concat (map E parts)); [exact G|].
    clear. induction parts as [|[[key text] d] parts IH]; [reflexivity|]. cbn [map concat E app]. now rewrite IH.
Qed.
Print Assumptions C59_keys.
Theorem C59_dashes : forall hash k parts, (0 < k)%nat -> parts <> [] ->
  Forall (fun '(text, d) => doc_file text d) parts ->
  Forall (fun '(text, d) => reads_as_datum hash text d) parts /\
  reads_as_datum hash (concat (map (fun '(text, _) => below_dash k text) parts)) (DSeq (map snd parts)).
Proof.
  intros hash k parts K N F. split.
  - clear N. induction F as [|[text d] parts H F IH]; constructor; [now apply file_reads|exact IH].
  - set (E := fun p : bytes * datum => [snd p]).
    assert (G : Forall2 seq_file (map (fun '(text, _) => below_dash k text) parts) (map E parts)).
    { clear N. induction F as [|[text d] parts H F IH]; constructor; [now apply dash_file|exact IH]. }
    apply (C58_seqs hash) in G as [_ G]; [|now destruct parts].
    replace (map snd parts) with (concat (map E parts)); [exact G|].
    clear. induction parts as [|[text d] parts IH]; [reflexivity|]. cbn [map concat E app snd]. now rewrite IH.
Qed.
Print Assumptions C59_dashes.

(* No string is written over several lines if no string has a newline. *)
Lemma calm_lines text l : Forall (fun v => ~ In NEWLINE v) l -> calm text l.
Proof.
  intros F v V (u & y & w & -> & N & H). rewrite Forall_forall in F. apply (F v V). destruct H as [Q|[-> _]]; [|exact N].
  assert (D : forall z v, dq_content z v -> In NEWLINE z -> In NEWLINE v).
  { induction 1 as [|c z s C E X IH|e x z s Y X IH]; [now intros []|intros [->|I]; [now left|right; now apply IH]|].
    intros I. rewrite !in_app_iff in *. destruct I as [[I|[]]|[I|I]]; [discriminate| |right; now apply IH]. exfalso.
    assert (HX : forall c v, hex c v -> c <> NEWLINE) by (intros c n [? X1|? X1|? X1] ->; unfold digit, NEWLINE in X1; lia).
    destruct Y; rewrite ?in_app_iff in I; cbn in I; unfold NEWLINE in I;
      repeat match goal with H : hex _ _ |- _ => apply HX in H end; unfold NEWLINE in *; intuition congruence. }
  assert (S : forall z v, sq_content z v -> In NEWLINE z -> In NEWLINE v).
  { induction 1 as [|c z s C X IH|z s X IH]; [now intros []|intros [->|I]; [now left|right; now apply IH]|].
    cbn [app In]. intros [I|[I|I]]; [discriminate|discriminate|right; now apply IH]. }
  destruct Q as [z s Q|z s Q]; rewrite !in_app_iff in N; destruct N as [[N|[]]|[N|[N|[]]]]; try discriminate; eauto.
Qed.
(* Nor if those with a newline neither stand in the text as they are nor can follow a quote in it; this can be computed. *)
Fixpoint starts_with (v t : bytes) : bool :=
  match v, t with
  | [], _ => true
  | a :: v, c :: t => (a =? c) && starts_with v t
  | _, [] => false
  end.
Fixpoint occurs (v t : bytes) : bool := starts_with v t || match t with [] => false | _ :: t => occurs v t end.
Fixpoint opens (c : byte) (t : bytes) : bool :=
  match t with
  | a :: r => ((a =? DQUOTE) || (a =? SQUOTE)) && ((hd EOF r =? c) || (hd EOF r =? BACKSLASH) || (hd EOF r =? SQUOTE)) || opens c r
  | [] => false
  end.
Definition calm_check (text : bytes) (l : list bytes) : bool :=
  forallb (fun v => negb (existsb (N.eqb NEWLINE) v) || negb (occurs v text) && negb (opens (hd EOF v) text)) l.
Lemma occurs_in v u w : occurs v (u ++ v ++ w) = true.
Proof.
  induction u as [|c u IH]; [|cbn [app occurs]; rewrite IH; apply orb_true_r].
  cbn [app]. assert (S : starts_with v (v ++ w) = true) by (clear; induction v as [|a v IH]; [reflexivity|cbn; now rewrite N.eqb_refl, IH]).
  destruct (v ++ w); cbn [occurs]; now rewrite S.
Qed.
Lemma opens_in q c u w : q = DQUOTE \/ q = SQUOTE -> hd EOF w = c \/ hd EOF w = BACKSLASH \/ hd EOF w = SQUOTE -> opens c (u ++ q :: w) = true.
Proof.
  intros Q H. induction u as [|a u IH]; cbn [app opens]; [|now rewrite IH, orb_true_r]. apply orb_true_iff. left. rewrite andb_true_iff, !orb_true_iff, !N.eqb_eq. tauto.
Qed.
Lemma calm_checked text l : calm_check text l = true -> calm text l.
Proof.
  unfold calm_check. rewrite forallb_forall. intros F v V S. apply F in V. clear F.
  assert (N : In NEWLINE v). { destruct (in_dec N.eq_dec NEWLINE v) as [I|I]; [exact I|]. exfalso. apply (calm_lines text [v]) in S; [exact S|auto|now left]. }
  apply orb_true_iff in V as [V|V].
  - apply negb_true_iff in V. apply not_true_iff_false in V. apply V. apply existsb_exists. exists NEWLINE. split; [exact N|reflexivity].
  - apply andb_true_iff in V as [V1 V2]. apply negb_true_iff in V1, V2. destruct S as (u & y & w & -> & NY & [Q|[-> _]]); [|now rewrite occurs_in in V1].
    apply not_true_iff_false in V2. apply V2. destruct Q as [z s Q|z s Q]; cbn [app].
    + apply opens_in; [now left|]. destruct Q as [|c z s C E X|e x z s Y X]; [destruct N|now left|right; now left].
    + apply opens_in; [now right|]. destruct Q as [|c z s C X|z s X]; [destruct N|now left|right; now right].
Qed.

(* A mapping with a quoted string and a block scalar, below two keys, and below dashes. *)
Definition c59_text : bytes := b "q: 'it is'
t: |
  x

  y
".
Definition c59_data : datum := DMap [(b "q", DStr (b "it is")); (b "t", DStr (b "x" ++ newlines 2 ++ b "y" ++ newlines 1))].
Lemma c59_file : doc_file c59_text c59_data.
Proof.
  assert (WH : forall c, is_ws c = true -> white c) by (intros c; apply is_ws_white).
  assert (L1 : layout [NEWLINE]) by (apply closed_layout, (newlines_closed 1)).
  assert (BL : forall c, 33 <= c <= 126 -> c <> HASH -> c <> NEWLINE -> block_line [c]).
  { intros c R H N. split; [discriminate|]. split; [exact H|]. split; [now apply graphic_clean|]. intros [I|[]]. congruence. }
  exists [], (b "q: 'it is'
t: |
  x

  y"), [NEWLINE]. split; [reflexivity|]. split; [|split; [apply (line_at 0)|split; [reflexivity|split; [split; intros [r E]; apply (f_equal (hd EOF)) in E; discriminate E|apply calm_checked; reflexivity]]]].
  right. left. exists O, [(b "q", DStr (b "it is")); (b "t", DStr (b "x" ++ newlines 2 ++ b "y" ++ newlines 1))]. split; [left; auto|]. split; [|reflexivity].
  apply (bm_items 0 (b "q") (b "q") (b " 'it is'") (DStr (b "it is")) (b "
t: |
  x

  y")); [left; split; [apply key_checked; reflexivity|reflexivity]| |].
  - apply (kv_leaf 0 (b " ") (b "'it is'")); [apply space_gap|]. apply lf_quoted; [|right; now apply WH].
    apply (qt_single (b "it is") (b "it is")). cbn. repeat (constructor; [discriminate|]). constructor.
  - apply (mr_cons 0 (line 0) (b "t") (b " |
  x

  y") (DStr (b "x" ++ newlines 2 ++ b "y" ++ newlines 1)) [] []); [apply (line_at 0)|apply key_checked; reflexivity| |constructor; now left].
    apply (kv_leaf 0 (b " ") (b "|
  x

  y")); [apply space_gap|]. apply lf_block. apply (bs_block false CNone 2 (line 2) (b "x

  y") (b "x" ++ newlines 2 ++ b "y") 1 [] []); [apply (line_at 2)|lia| |lia|constructor|cbn; lia|now left].
    apply (bk_more false 2 (b "x") 2 (b "  ") (b "y") (b "y")); [apply BL; cbn; unfold HASH, NEWLINE; lia|discriminate|lia|apply (blank_space 2)|reflexivity|].
    apply bk_last. apply BL; cbn; unfold HASH, NEWLINE; lia.
Qed.
Example C59_case :
  Forall (fun '(key, text, d) => section_key key /\ doc_file text d) [(b "a", c59_text, c59_data); (b "b", c59_text, c59_data)] /\
  below_key 2 (b "a") c59_text ++ below_key 2 (b "b") c59_text = b "a:
  q: 'it is'
  t: |
    x

    y
b:
  q: 'it is'
  t: |
    x

    y
" /\
  at_path (load (below_key 2 (b "a") c59_text ++ below_key 2 (b "b") c59_text)) [K (b "b"); K (b "t")] as_bstr = Some (Some (b "x" ++ newlines 2 ++ b "y" ++ newlines 1)) /\
  at_path (load (below_dash 3 c59_text ++ below_dash 3 c59_text)) [I 1; K (b "t")] as_bstr = Some (Some (b "x" ++ newlines 2 ++ b "y" ++ newlines 1)) /\
  at_path (load (shift 5 c59_text)) [K (b "q")] as_bstr = Some (Some (b "it is")).
Proof.
  split; [|repeat split; vm_compute; reflexivity].
  repeat (constructor; [split; [split; [apply key_checked; reflexivity|cbn; intuition discriminate]|exact c59_file]|]). constructor.
Qed.
(* Why no string may be written over several lines. *)
Definition c59_long : bytes := b "'x
y'
".
Definition c59_flow : bytes := b "[x
y]
".
Example c59_needed :
  at_path (load c59_long) [] as_bstr = Some (Some (b "x" ++ newlines 1 ++ b "y")) /\
  at_path (load (shift 1 c59_long)) [] as_bstr = Some (Some (b "x" ++ newlines 1 ++ b " y")) /\
  at_path (load c59_flow) [I 0] as_bstr = Some (Some (b "x" ++ newlines 1 ++ b "y")) /\
  at_path (load (shift 1 c59_flow)) [I 0] as_bstr = Some (Some (b "x" ++ newlines 1 ++ b " y")).
Proof. repeat split; vm_compute; reflexivity. Qed.
