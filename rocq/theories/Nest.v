(* Texts of the grammar moved to the right by k columns. *)
From Coq Require Import String.
From Coq Require Import List NArith Bool Arith Lia.
From Verif Require Import Bytes Utf8 Utf8Props Data Parser Render Tree Abs Scan Reads ReadsSound Shown Plain Grammar Laid.
Import ListNotations.
Local Open Scope N_scope.

(* ---- definitions ---- *)
(* k blanks in front of every line that is not empty. *)
Definition pad (k : nat) (line : bytes) : bytes := match line with [] => [] | c :: _ => if c =? NEWLINE then [] else repeat SPACE k end.
Fixpoint inner (k : nat) (text : bytes) : bytes :=
  match text with
  | [] => []
  | c :: r => c :: (if c =? NEWLINE then pad k r else []) ++ inner k r
  end.
Definition shift (k : nat) (text : bytes) : bytes := pad k text ++ inner k text.
(* The keys and strings of a datum. *)
Fixpoint strings (d : datum) : list bytes :=
  match d with
  | DStr s => [s]
  | DMap l => flat_map (fun '(k, e) => k :: strings e) l
  | DSeq l => flat_map strings l
  | _ => []
  end.
Definition entry_strings (l : list (bytes * datum)) : list bytes := flat_map (fun '(k, e) => k :: strings e) l.
(* The text writes v over several lines, in quotes or in a flow collection. *)
Definition spans (text v : bytes) : Prop := exists u y w, text = u ++ y ++ w /\ In NEWLINE y /\
  (quoted_text y v \/ (y = v /\ In (hd EOF w) (b ",:]}"))).
(* No string is written so. *)
Definition calm (text : bytes) (l : list bytes) : Prop := forall v, In v l -> ~ spans text v.

(* ---- proofs ---- *)
Lemma calm_sub x y u w l l' : calm x l -> x = u ++ y ++ w -> incl l' l -> calm y l'.
Proof.
  intros C -> I v V (u' & z & w' & -> & N & H). apply (C v (I v V)). exists (u ++ u'), z, (w' ++ w). split; [now rewrite <- !app_assoc|]. split; [exact N|].
  destruct H as [H|[-> H]]; [now left|]. right. split; [reflexivity|]. destruct w' as [|c w']; [|exact H]. exfalso. cbn in H. unfold EOF in H. intuition discriminate.
Qed.
Section Ind.
Variable k : nat.
(* The same with the byte that follows; a newline stands for the end. *)
Fixpoint ind (nx : byte) (x : bytes) : bytes :=
  match x with
  | [] => []
  | c :: r => c :: (if (c =? NEWLINE) && negb (hd nx r =? NEWLINE) then repeat SPACE k else []) ++ ind nx r
  end.
Lemma ind_inner x : inner k x = ind NEWLINE x.
Proof.
  induction x as [|c x IH]; [reflexivity|]. cbn [inner ind]. rewrite IH. do 2 f_equal. destruct (c =? NEWLINE); [|reflexivity]. destruct x as [|a x]; [reflexivity|].
  cbn [pad hd andb]. now destruct (a =? NEWLINE).
Qed.
Lemma shift_ind x : NEWLINE :: shift k x = ind NEWLINE (NEWLINE :: x).
Proof. rewrite <- ind_inner. reflexivity. Qed.
Lemma hd_app {A} (nx : A) x y : hd nx (x ++ y) = hd (hd nx y) x.
Proof. now destruct x. Qed.
Lemma ind_app nx x y : ind nx (x ++ y) = ind (hd nx y) x ++ ind nx y.
Proof. induction x as [|c x IH]; [reflexivity|]. cbn [app ind]. rewrite IH, hd_app, <- app_assoc. reflexivity. Qed.
Lemma ind_hd d nx x : hd d (ind nx x) = hd d x.
Proof. now destruct x. Qed.
Lemma ind_nil nx x : ind nx x = [] <-> x = [].
Proof. destruct x; split; auto; discriminate. Qed.
Lemma ind_same nx x : ~ In NEWLINE x -> ind nx x = x.
Proof.
  induction x as [|c x IH]; intros N; [reflexivity|]. cbn [ind]. assert (c =? NEWLINE = false) as -> by (apply N.eqb_neq; intros ->; apply N; now left).
  cbn [andb app]. rewrite IH; [reflexivity|]. intros I. apply N. now right.
Qed.
Lemma blanks_no_nl t : Forall blank t -> ~ In NEWLINE t.
Proof. intros F I. rewrite Forall_forall in F. apply F in I. cbn in I. unfold NEWLINE in I. intuition discriminate. Qed.
Lemma blank_space j : Forall blank (repeat SPACE j).
Proof. induction j; cbn; constructor; auto. cbn. auto. Qed.
Lemma closed_pad (p : bool) w : closed w -> closed ((if p then repeat SPACE k else []) ++ w).
Proof. intros C. destruct p; [|exact C]. apply closed_app; [apply blanks_closed, blank_space|exact C]. Qed.
Lemma ind_closed nx w : closed w -> closed (ind nx w).
Proof.
  induction 1 as [|c w C L IH|s w N L IH]; [constructor| |].
  - cbn [ind]. constructor; [exact C|]. now apply closed_pad.
  - rewrite !ind_app, (ind_same _ s) by exact N. cbn [app ind]. change (NEWLINE =? NEWLINE) with true. cbn [andb].
    change (HASH :: s ++ NEWLINE :: ((if negb (hd (hd nx w) [] =? NEWLINE) then repeat SPACE k else []) ++ []) ++ ind nx w)
      with (b "#" ++ s ++ [NEWLINE] ++ ((if negb (hd (hd nx w) [] =? NEWLINE) then repeat SPACE k else []) ++ []) ++ ind nx w).
    apply cl_comment; [exact N|]. rewrite app_nil_r. now apply closed_pad.
Qed.
Lemma ind_layout nx w : layout w -> layout (ind nx w).
Proof.
  induction 1 as [|c w C L IH|s w N L IH|s N]; [constructor| | |].
  - cbn [ind]. constructor; [exact C|]. destruct ((c =? NEWLINE) && negb (hd nx w =? NEWLINE)); [|exact IH].
    generalize (blank_space k). generalize (repeat SPACE k). intros t B. induction B as [|a t A B IB]; [exact IH|]. cbn [app]. constructor; [cbn in *; tauto|exact IB].
  - change (HASH :: s ++ NEWLINE :: w) with (b "#" ++ s ++ [NEWLINE] ++ w). rewrite !ind_app, (ind_same _ s) by exact N. cbn [app ind]. apply lay_comment; [exact N|].
    rewrite app_nil_r. destruct (_ && _); [|exact IH].
    generalize (blank_space k). generalize (repeat SPACE k). intros t B. induction B as [|a t A B IB]; [exact IH|]. cbn [app]. constructor; [cbn in *; tauto|exact IB].
  - change (HASH :: s) with (b "#" ++ s). rewrite ind_app, (ind_same _ s) by exact N. cbn. now apply lay_open.
Qed.
Lemma ind_gap nx w : gap w -> gap (ind nx w).
Proof. intros [C W]. split; [now apply ind_closed|now rewrite ind_hd]. Qed.
Lemma ind_blanks nx t : Forall blank t -> ind nx t = t.
Proof. intros B. apply ind_same. now apply blanks_no_nl. Qed.
Lemma not_nl t nx : Forall blank t -> nx <> NEWLINE -> (hd nx t =? NEWLINE) = false.
Proof. intros B N. apply N.eqb_neq. destruct B as [|c t C B]; [exact N|]. cbn in C |- *. unfold NEWLINE. intuition (subst; discriminate). Qed.
Lemma ind_newline_at nx m w : newline_at m w -> nx <> NEWLINE -> newline_at (m + k) (ind nx w).
Proof.
  intros (W & u & t & -> & C & B & L) N. split; [now rewrite ind_hd|]. exists (ind NEWLINE u), (repeat SPACE k ++ t).
  rewrite !ind_app, (ind_blanks _ t) by exact B. cbn [app hd ind]. rewrite (not_nl t nx B N). change (NEWLINE =? NEWLINE) with true. cbn [andb negb]. rewrite app_nil_r.
  split; [now rewrite <- ?app_assoc|]. split; [|split; [apply Forall_app; auto using blank_space|rewrite app_length, repeat_length; lia]].
  apply (ind_closed NEWLINE) in C. rewrite ind_app in C. exact C.
Qed.
Lemma ind_newline_end w : newline_at 0 w -> newline_at 0 (ind NEWLINE w).
Proof.
  intros (W & u & t & -> & C & B & L). apply length_zero_iff_nil in L as ->. rewrite app_nil_r in *. split; [now rewrite ind_hd|]. exists (ind NEWLINE u), [].
  split; [now rewrite ind_app|]. split; [|auto]. apply (ind_closed NEWLINE) in C. rewrite ind_app in C. exact C.
Qed.
Lemma ind_newlines nx j : (0 < j)%nat -> ind nx (newlines j) = newlines j ++ (if nx =? NEWLINE then [] else repeat SPACE k).
Proof.
  induction j as [|j IH]; [lia|]. intros _. destruct j as [|j].
  - cbn. rewrite app_nil_r. now destruct (nx =? NEWLINE).
  - change (newlines (S (S j))) with (NEWLINE :: newlines (S j)). cbn [ind]. rewrite IH by lia. reflexivity.
Qed.
Lemma ind_utf8 nx x : utf8 x = true -> utf8 (ind nx x) = true.
Proof.
  intros U. apply utf8_text in U. induction U as [|ch x C T IH]; [reflexivity|]. rewrite ind_app. apply utf8_app; [|exact IH]. clear T IH.
  assert (S : forall j, utf8 (repeat SPACE j) = true) by (induction j; [reflexivity|exact (utf8_app [SPACE] (repeat SPACE j) eq_refl IHj)]).
  destruct ch as [|c ch]; [destruct C|]. destruct (N.eq_dec c NEWLINE) as [->|N].
  - assert (ch = []) as -> by (unfold uchar, decode1 in C; cbn in C; injection C as C; now destruct ch).
    cbn [ind]. rewrite app_nil_r. change (NEWLINE =? NEWLINE) with true. cbn [andb hd]. refine (utf8_app [NEWLINE] _ eq_refl _). destruct (negb _); [apply S|reflexivity].
  - rewrite ind_same; [apply utf8_text; rewrite <- (app_nil_r (c :: ch)); apply text_char; [exact C|constructor]|].
    intros [E|I]; [congruence|]. destruct (uchar_cont c ch C) as (_ & F & _). rewrite Forall_forall in F. apply F in I. discriminate.
Qed.
Lemma ind_prefix nx p : ~ In NEWLINE p -> forall x r, ind nx x = p ++ r -> exists r', x = p ++ r'.
Proof.
  induction p as [|c p IH]; intros N x r E; [now exists x|]. destruct x as [|a x]; [discriminate|]. cbn [ind app] in E. injection E as -> E.
  assert (c =? NEWLINE = false) as H by (apply N.eqb_neq; intros ->; apply N; now left). rewrite H in E. cbn [andb app] in E.
  destruct (IH (fun I => N (or_intror I)) x r E) as (r' & ->). now exists r'.
Qed.
Lemma ind_breaks nx p : breaks p -> breaks (ind nx p).
Proof. intros [->|B]; [now left|right]. now rewrite ind_hd. Qed.
Lemma ind_ended nx p : ended p -> ended (ind nx p).
Proof. intros [->|B]; [now left|right]. now rewrite ind_hd. Qed.
Lemma hd_default x (c d : byte) : x <> [] -> hd c x = hd d x.
Proof. now destruct x. Qed.
Lemma white_nl c : ~ white c -> c <> NEWLINE.
Proof. intros W ->. apply W. cbn. auto. Qed.

(* flow collections *)
Lemma number_nl x h : number_text x h -> ~ In NEWLINE x.
Proof.
  assert (D : forall a, Forall digit a -> ~ In NEWLINE a) by (intros a F I; rewrite Forall_forall in F; apply F in I; unfold digit, NEWLINE in I; lia).
  assert (U : forall y fl, unsigned_number y fl -> ~ In NEWLINE y).
  { intros y fl [a A _|a c A C|a e c A _ E C|a c e f A C _ E F] I; rewrite ?in_app_iff in I; cbn [In] in I; unfold DOT in I;
      repeat match goal with H : Forall digit _ |- _ => apply D in H end; unfold NEWLINE in *; intuition (subst; discriminate). }
  intros [(fl & H & _)|(y & fl & -> & H & _)]; [now apply (U x fl)|]. intros [I|I]; [discriminate|]. now apply (U y fl).
Qed.
Lemma spelled_nl x kw : spelled x kw -> Forall (fun c => 97 <= c <= 122) kw -> ~ In NEWLINE x.
Proof.
  induction 1 as [|a c x kw H F IH]; intros B; [now intros []|]. inversion B as [|? ? B1 B2]; subst. intros [->|I]; [unfold NEWLINE in H; lia|now apply IH].
Qed.
Lemma datum_nl x d : plain_datum x d -> In NEWLINE x -> d = DStr x.
Proof.
  intros D I. destruct D as [|x S|x S|x S|x h S|x]; [exfalso; cbn in I; unfold NEWLINE in I; intuition discriminate| | | | |reflexivity]; exfalso; revert I;
    first [now apply (number_nl x h)|apply (spelled_nl x _ S); repeat constructor; cbn; lia].
Qed.
Lemma ind_flow :
  (forall x d c, flow_item x d c -> calm (x ++ [c]) (strings d) -> forall nx, flow_item (ind nx x) d c) /\
  (forall x d, flow x d -> calm x (strings d) -> forall nx, flow (ind nx x) d) /\
  (forall x l, flow_seq x l -> calm x (flat_map strings l) -> forall nx, flow_seq (ind nx x) l) /\
  (forall x l, flow_map x l -> calm x (entry_strings l) -> forall nx, flow_map (ind nx x) l).
Proof.
  apply flow_all.
  - intros x d c W D I C nx. rewrite ind_same; [now apply fi_word|]. intros N. pose proof (datum_nl x d D N). subst d. apply (C x); [cbn; auto|].
    exists [], x, [c]. split; [reflexivity|]. split; [exact N|]. right. split; [reflexivity|]. cbn in I |- *. tauto.
  - intros x h c N I C nx. rewrite ind_same; [now apply fi_number|]. now apply (number_nl x h).
  - intros x v c Q I C nx. rewrite ind_same; [now apply fi_quoted|]. intros N. apply (C v); [cbn; auto|]. exists [], x, [c]. auto.
  - intros x d c F IF C nx. apply fi_nested, IF. apply (calm_sub (x ++ [c]) x [] [c] (strings d)); auto using incl_refl.
  - intros x l F IF C nx. cbn [app ind]. apply fl_seq, IF. apply (calm_sub _ x (b "[") [] _ _ C); [now rewrite app_nil_r|apply incl_refl].
  - intros x l F IF C nx. cbn [app ind]. apply fl_map, IF. apply (calm_sub _ x (b "{") [] _ _ C); [now rewrite app_nil_r|apply incl_refl].
  - intros w W C nx. rewrite ind_app. apply fs_end. now apply ind_closed.
  - intros i x d w I U W F IF C nx. rewrite !ind_app. apply fs_last; [now apply ind_closed|now apply ind_utf8|now apply ind_closed|].
    replace (hd EOF (ind (hd nx (b "]")) w ++ b "]")) with (hd EOF (w ++ b "]")) by now destruct w. apply IF. destruct w as [|c w].
    + apply (calm_sub _ (x ++ b "]") i [] _ _ C); [now rewrite app_nil_r, <- ?app_assoc|]. cbn. rewrite app_nil_r. apply incl_refl.
    + apply (calm_sub _ (x ++ [c]) i (w ++ b "]") _ _ C); [now rewrite <- !app_assoc|]. cbn. rewrite app_nil_r. apply incl_refl.
  - intros i x d y l I U F IF S IS C nx. rewrite !ind_app. apply fs_cons; [now apply ind_closed|now apply ind_utf8| |].
    + apply IF. apply (calm_sub _ (x ++ [COMMA]) i y _ _ C); [now rewrite <- !app_assoc|]. cbn. apply incl_appl, incl_refl.
    + apply IS. apply (calm_sub _ y (i ++ x ++ b ",") [] _ _ C); [now rewrite app_nil_r, <- !app_assoc|]. cbn. apply incl_appr, incl_refl.
  - intros w W C nx. rewrite ind_app. apply fm_end. now apply ind_closed.
  - intros i ke w x d I K W F IF C nx. rewrite !ind_app, (ind_same _ ke).
    2:{ intros N. apply (C ke); [cbn; auto|]. exists i, ke, (b ":" ++ w ++ x ++ b "}"). split; [reflexivity|]. split; [exact N|]. right. split; [reflexivity|]. cbn. auto. }
    apply fm_last; [now apply ind_closed|exact K|now apply ind_closed|]. apply IF.
    apply (calm_sub _ (x ++ [RBRACE]) (i ++ ke ++ b ":" ++ w) [] _ _ C); [rewrite <- !app_assoc; now rewrite ?app_nil_r|]. cbn. rewrite app_nil_r. apply incl_tl, incl_refl.
  - intros i ke w x d y l I K W F IF S IS C nx. rewrite !ind_app, (ind_same _ ke).
    2:{ intros N. apply (C ke); [cbn; auto|]. exists i, ke, (b ":" ++ w ++ x ++ b "," ++ y). split; [reflexivity|]. split; [exact N|]. right. split; [reflexivity|]. cbn. auto. }
    apply fm_cons; [now apply ind_closed|exact K|now apply ind_closed| |].
    + apply IF. apply (calm_sub _ (x ++ [COMMA]) (i ++ ke ++ b ":" ++ w) y _ _ C); [now rewrite <- !app_assoc|]. cbn. apply incl_tl, incl_appl, incl_refl.
    + apply IS. apply (calm_sub _ y (i ++ ke ++ b ":" ++ w ++ x ++ b ",") [] _ _ C); [rewrite <- !app_assoc; now rewrite app_nil_r|]. cbn. apply incl_tl, incl_appr, incl_refl.
Qed.

(* scalars *)
Lemma line_hd l : block_line l -> forall c, hd c l <> NEWLINE.
Proof. intros (N & _ & _ & I) c. destruct l as [|a l]; [congruence|]. cbn. intros ->. apply I. now left. Qed.
Lemma ind_lines fo m x v : block_lines fo m x v -> (forall nx, block_lines fo (m + k) (ind nx x) v) /\ forall c, hd c x <> NEWLINE.
Proof.
  induction 1 as [l L|l j t x v L FO J B LT X [IH IN]].
  - split; [|now apply line_hd]. intros nx. rewrite ind_same by apply L. now constructor.
  - split; [|intros c; rewrite hd_app; now apply line_hd]. intros nx. rewrite !ind_app, (ind_same _ l), (ind_blanks _ t) by (assumption || apply L).
    rewrite ind_newlines by exact J. rewrite hd_app, (not_nl t _ B) by apply IN.
    rewrite <- (app_assoc (newlines j)), (app_assoc (repeat SPACE k)). apply bk_more; auto.
    + apply Forall_app; auto using blank_space.
    + rewrite app_length, repeat_length. lia.
Qed.
Lemma ind_scalar x v post : block_scalar x v post -> block_scalar (ind (hd NEWLINE post) x) v (ind NEWLINE post).
Proof.
  intros [fo c m w y u j t p NW M L J B LT ST|c m w y u NW L].
  - destruct (ind_lines _ _ _ _ L) as [IL IN]. rewrite (ind_app _ (b _)), (ind_same _ (b _)) by (destruct fo; cbn; unfold NEWLINE; intuition discriminate).
    rewrite (ind_app _ (chomp_text c)), (ind_same _ (chomp_text c)) by (destruct c; cbn; unfold NEWLINE; intuition discriminate).
    rewrite (ind_app _ w). rewrite (ind_app _ (newlines j)), ind_newlines by exact J. rewrite (ind_app _ t), (ind_blanks _ t) by exact B.
    assert (H : exists t', (newlines j ++ (if hd NEWLINE (t ++ p) =? NEWLINE then [] else repeat SPACE k)) ++ t ++ ind NEWLINE p = newlines j ++ t' ++ ind NEWLINE p /\ Forall blank t' /\ (length t' < m + k)%nat).
    { destruct (hd NEWLINE (t ++ p) =? NEWLINE).
      - exists t. rewrite app_nil_r. split; [reflexivity|]. split; [exact B|apply (Nat.lt_le_trans _ m); [exact LT|lia]].
      - exists (repeat SPACE k ++ t). rewrite <- !app_assoc. split; [reflexivity|]. split; [apply Forall_app; auto using blank_space|rewrite app_length, repeat_length; unfold bytes, byte in *; lia]. }
    destruct H as (t' & E' & B' & L'). unfold bytes, byte in *. rewrite E'. apply (bs_block fo c (m + k)); auto; [apply ind_newline_at; [exact NW|rewrite hd_app; apply IN]|lia|].
    destruct ST as [->|ST]; [now left|right]. now rewrite ind_hd.
  - destruct (ind_lines _ _ _ _ L) as [IL IN]. rewrite (ind_app _ (b _)). rewrite (ind_app _ (chomp_text c)), (ind_same _ (chomp_text c)) by (destruct c; cbn; unfold NEWLINE; intuition discriminate).
    rewrite (ind_app _ w). apply (bs_end c (m + k)); auto. apply ind_newline_at; [exact NW|apply IN].
Qed.
Lemma ind_leaf x d post : leaf x d post -> calm x (strings d) -> leaf (ind (hd NEWLINE post) x) d (ind NEWLINE post).
Proof.
  intros [y e q P D E|y v q Q B|y e q F B|y v q B] C.
  - rewrite ind_same by apply P. apply lf_plain; auto. now apply ind_ended.
  - rewrite ind_same; [apply lf_quoted; auto; now apply ind_breaks|]. intros N. apply (C v); [cbn; auto|]. exists [], y, []. rewrite app_nil_r. auto.
  - apply lf_flow; [now apply ind_flow|now apply ind_breaks].
  - apply lf_block. now apply ind_scalar.
Qed.

(* what follows *)
Lemma ind_follow w r : r <> [] -> ~ white (hd EOF r) -> ind NEWLINE (w ++ r) = ind (hd EOF r) w ++ ind NEWLINE r /\ hd EOF r <> NEWLINE.
Proof. intros N W. rewrite ind_app, (hd_default r NEWLINE EOF) by exact N. split; [reflexivity|now apply white_nl]. Qed.
Lemma ind_map_ends n p : map_ends n p -> map_ends (n + k) (ind NEWLINE p).
Proof.
  intros [L|(w & m & r & -> & NW & LT & N & W & H)]; [left; now apply ind_layout|right]. destruct (ind_follow w r N W) as [E NL]. unfold bytes, byte in *. rewrite E.
  exists (ind (hd EOF r) w), (m + k)%nat, (ind NEWLINE r). split; [reflexivity|]. split; [now apply ind_newline_at|]. split; [lia|].
  split; [now rewrite ind_nil|]. now rewrite ind_hd.
Qed.
Lemma ind_seq_ends n p : seq_ends n p -> seq_ends (n + k) (ind NEWLINE p).
Proof.
  intros [L|(w & m & r & -> & NW & LT & N & W & H)]; [left; now apply ind_layout|right]. destruct (ind_follow w r N W) as [E NL]. unfold bytes, byte in *. rewrite E.
  exists (ind (hd EOF r) w), (m + k)%nat, (ind NEWLINE r). split; [reflexivity|]. split; [now apply ind_newline_at|].
  rewrite ind_hd, ind_nil. split; [|auto]. destruct LT as [LT|[-> LT]]; [left; lia|right; auto].
Qed.
Lemma key_hd ke c r : plain_key ke -> ~ In NEWLINE ke /\ hd c (ke ++ r) <> NEWLINE.
Proof.
  intros ((a & q & -> & W & _) & _ & N & _). split; [exact N|]. cbn. now apply white_nl.
Qed.
Lemma ind_key_follows n p : key_follows n p -> key_follows (n + k) (ind NEWLINE p).
Proof.
  intros (w & m & ke & r & -> & NW & LE & PK & B). destruct (key_hd ke NEWLINE (b ":" ++ r) PK) as [N H]. rewrite !ind_app, (ind_same _ ke) by exact N.
  exists (ind (hd NEWLINE (ke ++ b ":" ++ r)) w), (m + k)%nat, ke, (ind NEWLINE r). split; [reflexivity|]. split; [now apply ind_newline_at|]. split; [lia|]. split; [exact PK|].
  now apply ind_breaks.
Qed.

(* block collections *)
Lemma start_hd x ke c : start_key x ke -> hd c x <> NEWLINE.
Proof.
  intros [[PK ->]|Q].
  - rewrite <- (app_nil_r x). now apply key_hd.
  - destruct Q; discriminate.
Qed.
Lemma map_hd n x l p c : block_map n x l p -> hd c x <> NEWLINE.
Proof. intros [? y ke t d z m ? SK _ _]. rewrite hd_app. now apply (start_hd _ ke). Qed.
Lemma seq_hd n x l p c : block_seq n x l p -> hd c x <> NEWLINE.
Proof. intros [? t d z m ? _ _]. discriminate. Qed.
Lemma ind_block :
  (forall n x l post, block_map n x l post -> calm x (entry_strings l) -> block_map (n + k) (ind (hd NEWLINE post) x) l (ind NEWLINE post)) /\
  (forall n y l post, map_rest n y l post -> calm y (entry_strings l) -> map_rest (n + k) (ind (hd NEWLINE post) y) l (ind NEWLINE post)) /\
  (forall n t d post, key_value n t d post -> calm t (strings d) -> key_value (n + k) (ind (hd NEWLINE post) t) d (ind NEWLINE post)) /\
  (forall n x l post, block_seq n x l post -> calm x (flat_map strings l) -> block_seq (n + k) (ind (hd NEWLINE post) x) l (ind NEWLINE post)) /\
  (forall n y l post, seq_rest n y l post -> calm y (flat_map strings l) -> seq_rest (n + k) (ind (hd NEWLINE post) y) l (ind NEWLINE post)) /\
  (forall n t d post, dash_value n t d post -> calm t (strings d) -> dash_value (n + k) (ind (hd NEWLINE post) t) d (ind NEWLINE post)).
Proof.
  apply block_all.
  - intros n x ke t d y l post SK KV IV R IR C. rewrite !ind_app, (ind_same _ x).
    2:{ destruct SK as [[PK ->]|Q]; [now apply (key_hd x EOF [])|]. intros N. apply (C ke); [cbn; auto|]. exists [], x, (b ":" ++ t ++ y). auto. }
    apply bm_items; [exact SK| |].
    + rewrite <- hd_app, <- ind_app. apply IV. apply (calm_sub _ t (x ++ b ":") y _ _ C); [now rewrite <- !app_assoc|]. cbn. apply incl_tl, incl_appl, incl_refl.
    + apply IR. apply (calm_sub _ y (x ++ b ":" ++ t) [] _ _ C); [rewrite <- !app_assoc; now rewrite app_nil_r|]. cbn. apply incl_tl, incl_appr, incl_refl.
  - intros n post ME _. apply mr_nil. now apply ind_map_ends.
  - intros n w ke t d y l post NW PK KV IV R IR C. destruct (key_hd ke (hd NEWLINE post) (b ":" ++ t ++ y) PK) as [N H].
    rewrite (ind_app _ w), (ind_app _ ke), (ind_same _ ke), (ind_app _ (b ":")), (ind_app _ t) by exact N. apply mr_cons; [now apply ind_newline_at|exact PK| |].
    + rewrite <- hd_app, <- ind_app. apply IV. apply (calm_sub _ t (w ++ ke ++ b ":") y _ _ C); [now rewrite <- !app_assoc|]. cbn. apply incl_tl, incl_appl, incl_refl.
    + apply IR. apply (calm_sub _ y (w ++ ke ++ b ":" ++ t) [] _ _ C); [rewrite <- !app_assoc; now rewrite app_nil_r|]. cbn. apply incl_tl, incl_appr, incl_refl.
  - intros n w x d post G L C. rewrite ind_app. apply kv_leaf; [now apply ind_gap|]. apply ind_leaf; [exact L|].
    apply (calm_sub _ x w [] _ _ C); [now rewrite app_nil_r|apply incl_refl].
  - intros n post KF _. apply kv_none. now apply ind_key_follows.
  - intros n m w x l post NW LT M IM C. rewrite ind_app. apply (kv_map _ (m + k)); [apply ind_newline_at; [exact NW|now apply (map_hd m x l post)]|lia|].
    apply IM. apply (calm_sub _ x w [] _ _ C); [now rewrite app_nil_r|apply incl_refl].
  - intros n m w x l post NW LT M IM C. rewrite ind_app. apply (kv_seq _ (m + k)); [apply ind_newline_at; [exact NW|now apply (seq_hd m x l post)]|lia|].
    apply IM. apply (calm_sub _ x w [] _ _ C); [now rewrite app_nil_r|apply incl_refl].
  - intros n t d y l post DV ID R IR C. rewrite !ind_app. apply bs_items.
    + rewrite <- hd_app, <- ind_app. apply ID. apply (calm_sub _ t (b "-") y _ _ C); [reflexivity|]. cbn. apply incl_appl, incl_refl.
    + apply IR. apply (calm_sub _ y (b "-" ++ t) [] _ _ C); [rewrite <- !app_assoc; now rewrite app_nil_r|]. cbn. apply incl_appr, incl_refl.
  - intros n post SE _. apply sr_nil. now apply ind_seq_ends.
  - intros n w t d y l post NW U DV ID R IR C. rewrite (ind_app _ w), (ind_app _ (b "-")), (ind_app _ t). apply sr_cons; [apply ind_newline_at; [exact NW|discriminate]|now apply ind_utf8| |].
    + rewrite <- hd_app, <- ind_app. apply ID. apply (calm_sub _ t (w ++ b "-") y _ _ C); [now rewrite <- !app_assoc|]. cbn. apply incl_appl, incl_refl.
    + apply IR. apply (calm_sub _ y (w ++ b "-" ++ t) [] _ _ C); [rewrite <- !app_assoc; now rewrite app_nil_r|]. cbn. apply incl_appr, incl_refl.
  - intros n w x d post G L C. rewrite ind_app. apply dv_leaf; [now apply ind_gap|]. apply ind_leaf; [exact L|].
    apply (calm_sub _ x w [] _ _ C); [now rewrite app_nil_r|apply incl_refl].
  - intros n w x l post BW NW M IM C. rewrite ind_app, (ind_blanks _ w) by exact BW. apply dv_map; auto. replace (n + k + length w)%nat with (n + length w + k)%nat by lia.
    apply IM. apply (calm_sub _ x w [] _ _ C); [now rewrite app_nil_r|apply incl_refl].
  - intros n w x l post BW NW M IM C. rewrite ind_app, (ind_blanks _ w) by exact BW. apply dv_seq; auto. replace (n + k + length w)%nat with (n + length w + k)%nat by lia.
    apply IM. apply (calm_sub _ x w [] _ _ C); [now rewrite app_nil_r|apply incl_refl].
  - intros n m w x l post NW LT M IM C. rewrite ind_app. apply (dv_map_below _ (m + k)); [apply ind_newline_at; [exact NW|now apply (map_hd m x l post)]|lia|].
    apply IM. apply (calm_sub _ x w [] _ _ C); [now rewrite app_nil_r|apply incl_refl].
  - intros n m w x l post NW LT M IM C. rewrite ind_app. apply (dv_seq_below _ (m + k)); [apply ind_newline_at; [exact NW|now apply (seq_hd m x l post)]|lia|].
    apply IM. apply (calm_sub _ x w [] _ _ C); [now rewrite app_nil_r|apply incl_refl].
Qed.
End Ind.
