(* What the parser consumes and what the renderer writes back, lexeme by lexeme. *)
From Coq Require Import List NArith Bool Arith Lia Relation_Operators.
From Verif Require Import Bytes Utf8 Data Parser Render Tree Abs Utf8Props Scan.
Import ListNotations.
Local Open Scope N_scope.

(* ---- lexemes ---- *)
(* A text cut into tokens (keys and scalars), layout, and punctuation. *)
Inductive lex := Tok (s : bytes) | Lay (w : bytes) | Pun (c : byte).
Definition lexb (l : lex) : bytes := match l with Tok s => s | Lay w => w | Pun c => [c] end.
Definition flat (ls : list lex) : bytes := flat_map lexb ls.
Definition toks (ls : list lex) : list bytes :=
  flat_map (fun l => match l with Tok s => [s] | _ => [] end) ls.
Definition lay_ok (l : lex) : Prop := match l with Lay w => layout w | _ => True end.

Lemma flat_app a c : flat (a ++ c) = flat a ++ flat c.
Proof. apply flat_map_app. Qed.
Lemma toks_app a c : toks (a ++ c) = toks a ++ toks c.
Proof. apply flat_map_app. Qed.

(* The differences between a text and what is written back for it. Every one changes
   layout or commas only, and happens in texts of a particular form only. *)
Section Steps.
Variable text : bytes.
Inductive step : list lex -> list lex -> Prop :=
(* no difference in the text *)
| s_nil x y : step (x ++ Lay [] :: y) (x ++ y)
(* layout of a flow mapping is dropped *)
| s_drop x w y : In LBRACE text -> layout w -> w <> [] -> step (x ++ Lay w :: y) (x ++ y)
(* a missing comma of a flow collection is added *)
| s_comma x y : In LBRACE text \/ In LBRACK text -> step (x ++ y) (x ++ Pun COMMA :: y)
(* layout between a block scalar and a comma in a flow sequence moves behind the comma *)
| s_swap x w y : In LBRACK text -> In PIPE text \/ In GT text -> layout w ->
    step (x ++ Lay w :: Pun COMMA :: y) (x ++ Pun COMMA :: Lay w :: y)
(* the layout after the header of an empty block scalar at the end of the text is repeated *)
| s_again x u w y : (exists h, text = h ++ u ++ w) -> hd EOF u = PIPE \/ hd EOF u = GT ->
    ~ In NEWLINE u -> layout w -> w <> [] ->
    step (x ++ Tok (u ++ w) :: y) (x ++ Tok (u ++ w) :: Lay w :: y)
(* layout that is not UTF-8 is made UTF-8 *)
| s_lossy x w y : utf8 text = false -> utf8 w = false -> layout w ->
    step (x ++ Lay w :: y) (x ++ Lay (lossy w) :: y)
(* a NUL byte after a key of a flow mapping becomes a colon *)
| s_nul x y : In LBRACE text -> In EOF text -> step (x ++ Pun EOF :: y) (x ++ Pun COLON :: y).
Definition steps := clos_refl_trans_n1 _ step.

(* out is written for the text s *)
Definition T (s : bytes) (out : list lex) : Prop :=
  exists ls, flat ls = s /\ Forall lay_ok ls /\ steps ls out.

Lemma step_ctx c d x y : step x y -> step (c ++ x ++ d) (c ++ y ++ d).
Proof.
  intros H; inversion H; subst; rewrite <- !app_assoc, <- ?app_comm_cons, !(app_assoc c).
  - apply s_nil.
  - now apply s_drop.
  - now apply s_comma.
  - now apply s_swap.
  - eapply s_again; eauto.
  - now apply s_lossy.
  - now apply s_nul.
Qed.
Lemma steps_ctx c d x y : steps x y -> steps (c ++ x ++ d) (c ++ y ++ d).
Proof.
  induction 1; [constructor|]. econstructor; [|eassumption]. now apply step_ctx.
Qed.
Lemma steps_trans x y z : steps x y -> steps y z -> steps x z.
Proof.
  intros H1 H2. induction H2; [exact H1|]. econstructor; eassumption.
Qed.
Lemma T_nil : T [] [].
Proof. exists []. repeat split; [constructor|apply rtn1_refl]. Qed.
Lemma T_tok s : T s [Tok s].
Proof. exists [Tok s]. repeat split; [cbn; apply app_nil_r|repeat constructor|constructor]. Qed.
Lemma T_lay w : layout w -> T w [Lay w].
Proof. exists [Lay w]. repeat split; [cbn; apply app_nil_r|repeat constructor; assumption|constructor]. Qed.
Lemma T_pun c : T [c] [Pun c].
Proof. exists [Pun c]. repeat split; [repeat constructor|constructor]. Qed.
Lemma T_app s x t y : T s x -> T t y -> T (s ++ t) (x ++ y).
Proof.
  intros (l1 & E1 & F1 & S1) (l2 & E2 & F2 & S2). exists (l1 ++ l2). repeat split.
  - rewrite flat_app. congruence.
  - apply Forall_app; auto.
  - eapply steps_trans.
    + exact (steps_ctx [] l2 _ _ S1).
    + cbn. pose proof (steps_ctx x [] _ _ S2) as H. now rewrite !app_nil_r in H.
Qed.
Lemma T_step s x y : T s x -> step x y -> T s y.
Proof.
  intros (l1 & E1 & F1 & S1) H. exists l1. repeat split; auto. econstructor; eassumption.
Qed.
Lemma T_eq s s' x x' : T s x -> s = s' -> x = x' -> T s' x'.
Proof. intros H -> ->. exact H. Qed.

Lemma step_toks x y : step x y -> toks y = toks x.
Proof.
  intros H; inversion H; subst; rewrite ?toks_app; cbn; rewrite ?toks_app; reflexivity.
Qed.
Lemma steps_toks x y : steps x y -> toks y = toks x.
Proof. induction 1; [reflexivity|]. erewrite step_toks by eassumption. assumption. Qed.
End Steps.

(* ---- the lexemes written for a tree ---- *)
Fixpoint sepl {A} (c : list A) (l : list (list A)) : list A :=
  match l with
  | [] => []
  | x :: r => x ++ match r with [] => [] | _ => c end ++ sepl c r
  end.
Definition closel (c : byte) (k : ckind bytes) : list lex :=
  match k with
  | CInline trailing suffix => (if trailing then [Pun COMMA] else []) ++ [Lay suffix; Pun c]
  | CBlock => []
  end.
Definition puns (x : bytes) : list lex := map Pun x.
Fixpoint lexes {I} (t : tree I) : list lex :=
  match t with
  | TLeaf _ _ s => [Tok (wscalar s)]
  | TMap _ _ _ k items =>
    puns (open_if LBRACE k) ++
    sepl (puns (comma_if k))
      (map (fun '(_, ip, key, v) => [Lay ip; Tok (wstr key); Pun COLON; Lay (tpre v)] ++ lexes v) items) ++
    closel RBRACE k
  | TSeq _ _ _ k items =>
    puns (open_if LBRACK k) ++
    sepl (puns (comma_if k))
      (map (fun '(_, ip, v) => [Lay (lossy ip)] ++ puns (dash_if k) ++ Lay (tpre v) :: lexes v) items) ++
    closel RBRACK k
  end.
Definition lexdoc {I} (t : tree I) (suffix : bytes) : list lex :=
  Lay (tpre t) :: lexes t ++ [Lay suffix].

Lemma flat_puns x : flat (puns x) = x.
Proof. induction x as [|c x IH]; [reflexivity|]. cbn. f_equal. exact IH. Qed.
Lemma flat_sepl c l : flat (sepl c l) = sep (flat c) (map flat l).
Proof.
  induction l as [|x r IH]; cbn; [reflexivity|]. rewrite !flat_app, IH. destruct r; reflexivity.
Qed.
Lemma flat_closel c k : flat (closel c k) = closing (fun x => x) c k.
Proof. destruct k as [|[|] s]; cbn; rewrite ?app_nil_r; reflexivity. Qed.
Lemma flat_lexes {I} (t : tree I) : flat (lexes t) = wtree t.
Proof.
  induction t as [i p s|i p n k items IH|i p n k items IH] using tree_ind'; cbn [lexes wtree].
  - cbn. apply app_nil_r.
  - rewrite !flat_app, flat_sepl, !flat_puns, flat_closel. do 2 f_equal. f_equal.
    rewrite map_map. apply map_ext_Forall. revert IH. apply Forall_impl.
    intros [[[ii ip] key] v] H. cbn in *. unfold flat in H. now rewrite H.
  - rewrite !flat_app, flat_sepl, !flat_puns, flat_closel. do 2 f_equal. f_equal.
    rewrite map_map. apply map_ext_Forall. revert IH. apply Forall_impl.
    intros [[ii ip] v] H. cbn in *. rewrite flat_map_app. fold (flat (puns (dash_if k))).
    rewrite flat_puns. cbn. unfold flat in H. now rewrite H.
Qed.
Lemma flat_lexdoc {I} (t : tree I) suffix : flat (lexdoc t suffix) = wdoc t suffix.
Proof.
  unfold lexdoc, wdoc. cbn. f_equal. rewrite flat_map_app. cbn. rewrite app_nil_r. f_equal.
  apply flat_lexes.
Qed.
Lemma sepl_snoc {A} (c : list A) l x :
  sepl c (l ++ [x]) = sepl c l ++ match l with [] => [] | _ => c end ++ x.
Proof.
  induction l as [|y r IH]; cbn; [now rewrite app_nil_r|]. rewrite IH.
  destruct r; cbn; rewrite ?app_nil_r, <- ?app_assoc; reflexivity.
Qed.

(* ---- the parser ---- *)
Section Text.
Variable input : bytes.
Local Notation len := (length input).
Local Notation seg := (slice input).
Local Notation T := (T input).
Local Notation AM := AM.

(* A single quote opens a string that is never closed. *)
Definition quote_open : Prop := exists h r, input = h ++ SQUOTE :: r /\ unclosed r.
(* Errors have a span inside the text; the parser may only hang on an open quote; it never
   runs out of fuel. *)
Definition wp {A} (m : AM A) (n : nat) (Q : A -> nat -> Prop) : Prop :=
  match m n with
  | Ok (a, n') => Q a n'
  | Err x y _ => (x <= y <= len)%nat
  | Hang => quote_open
  | Panic | OutOfFuel => False
  end.
Lemma wp_ret {A} (a : A) n (Q : A -> nat -> Prop) : Q a n -> wp (ret a) n Q.
Proof. intros H. exact H. Qed.
Lemma wp_bind {A B} (m : AM A) (k : A -> AM B) n Q R :
  wp m n R -> (forall a n', R a n' -> wp (k a) n' Q) -> wp (bind m k) n Q.
Proof.
  unfold wp, bind. intros H K. destruct (m n) as [[a n']|x y e| | |]; auto. apply K, H.
Qed.
Lemma wp_mono {A} (m : AM A) n (Q R : A -> nat -> Prop) :
  wp m n R -> (forall a n', R a n' -> Q a n') -> wp m n Q.
Proof. unfold wp. intros H K. destruct (m n) as [[a n']|x y e| | |]; auto. Qed.
Lemma wp_get n (Q : nat -> nat -> Prop) : Q n n -> wp a_get n Q. Proof. intros H. exact H. Qed.
Lemma wp_set m n (Q : unit -> nat -> Prop) : Q tt m -> wp (a_set m) n Q. Proof. intros H. exact H. Qed.
Lemma wp_rest n (Q : bytes -> nat -> Prop) : Q (skipn n input) n -> wp (a_rest input) n Q. Proof. intros H. exact H. Qed.
Lemma wp_peek i n (Q : byte -> nat -> Prop) : Q (nth (n + i) input EOF) n -> wp (a_peek input i) n Q. Proof. intros H. exact H. Qed.
Lemma wp_eof n (Q : bool -> nat -> Prop) : Q (Nat.eqb n len) n -> wp (a_eof input) n Q. Proof. intros H. exact H. Qed.
Lemma wp_string s n (Q : bytes -> nat -> Prop) : Q (seg s n) n -> wp (a_string input s) n Q. Proof. intros H. exact H. Qed.
Lemma wp_bump k n (Q : unit -> nat -> Prop) : (n + k <= len)%nat -> Q tt (n + k)%nat -> wp (a_bump input k) n Q.
Proof. intros L H. unfold wp, a_bump. now rewrite Nat.min_l. Qed.
(* a bump that may be cut off at the end of the input *)
Lemma wp_bump' k n (Q : unit -> nat -> Prop) : (n <= len)%nat ->
  (forall n', (n <= n' <= len)%nat -> Q tt n') -> wp (a_bump input k) n Q.
Proof. intros L H. unfold wp, a_bump. apply H. lia. Qed.
Lemma wp_err {A} x y e n (Q : A -> nat -> Prop) : (x <= y <= len)%nat -> wp (a_err x y e) n Q.
Proof. intros H. exact H. Qed.
Lemma wp_ind n (Q : nat -> nat -> Prop) : Q (indent_from input n) n -> wp (a_indent input) n Q.
Proof. intros H. exact H. Qed.

Lemma wp_get_bind {B} (k : nat -> AM B) n Q : wp (k n) n Q -> wp (bind a_get k) n Q.
Proof. intros H. exact H. Qed.
Lemma wp_rest_bind {B} (k : bytes -> AM B) n Q : wp (k (skipn n input)) n Q -> wp (bind (a_rest input) k) n Q.
Proof. intros H. exact H. Qed.
Lemma wp_peek_bind {B} i (k : byte -> AM B) n Q : wp (k (nth (n + i) input EOF)) n Q -> wp (bind (a_peek input i) k) n Q.
Proof. intros H. exact H. Qed.
Lemma wp_eof_bind {B} (k : bool -> AM B) n Q : wp (k (Nat.eqb n len)) n Q -> wp (bind (a_eof input) k) n Q.
Proof. intros H. exact H. Qed.
Lemma wp_string_bind {B} s (k : bytes -> AM B) n Q : wp (k (seg s n)) n Q -> wp (bind (a_string input s) k) n Q.
Proof. intros H. exact H. Qed.
Lemma wp_ind_bind {B} (k : nat -> AM B) n Q : wp (k (indent_from input n)) n Q -> wp (bind (a_indent input) k) n Q.
Proof. intros H. exact H. Qed.
Lemma wp_set_bind {B} m (k : unit -> AM B) n Q : wp (k tt) m Q -> wp (bind (a_set m) k) n Q.
Proof. intros H. exact H. Qed.
Lemma wp_bump_bind {B} i (k : unit -> AM B) n Q : (n + i <= len)%nat -> wp (k tt) (n + i)%nat Q -> wp (bind (a_bump input i) k) n Q.
Proof. intros L H. unfold wp, bind, a_bump. rewrite Nat.min_l by exact L. exact H. Qed.
Lemma wp_bump_bind' {B} i (k : unit -> AM B) n Q : (n <= len)%nat ->
  (forall n', (n <= n' <= len)%nat -> wp (k tt) n' Q) -> wp (bind (a_bump input i) k) n Q.
Proof. intros L H. unfold wp, bind, a_bump. apply H. lia. Qed.
Lemma wp_ret_bind {A B} (x : A) (k : A -> AM B) n Q : wp (k x) n Q -> wp (bind (ret x) k) n Q.
Proof. intros H. exact H. Qed.
Ltac run := repeat (lazymatch goal with
  | |- wp (bind a_get _) _ _ => apply wp_get_bind
  | |- wp (bind (a_rest _) _) _ _ => apply wp_rest_bind
  | |- wp (bind (a_peek _ _) _) _ _ => apply wp_peek_bind
  | |- wp (bind (a_eof _) _) _ _ => apply wp_eof_bind
  | |- wp (bind (a_string _ _) _) _ _ => apply wp_string_bind
  | |- wp (bind (a_indent _) _) _ _ => apply wp_ind_bind
  | |- wp (bind (a_set _) _) _ _ => apply wp_set_bind
  | |- wp (bind (ret _) _) _ _ => apply wp_ret_bind
  end; cbv beta).
Lemma wp_bind_assoc {A B C} (m : AM A) (f : A -> AM B) (g : B -> AM C) n Q :
  wp (bind m (fun a => bind (f a) g)) n Q -> wp (bind (bind m f) g) n Q.
Proof. unfold wp, bind. destruct (m n) as [[a n']|x y e| | |]; auto. Qed.

Lemma nth_byte n c : nth (n + 0) input EOF = c -> c <> EOF -> (n + 1 <= len)%nat /\ seg n (n + 1) = [c].
Proof.
  rewrite Nat.add_0_r, Nat.add_1_r. intros H NE. apply nth_lt in H as [H1 H2]; auto.
Qed.

(* ---- layout ---- *)
(* Layout that is UTF-8 if the input is. *)
Definition clean (w : bytes) : Prop := layout w /\ (utf8 input = true -> utf8 w = true).
Definition at_stop (n : nat) : Prop := is_ws (nth n input EOF) = false /\ nth n input EOF <> HASH.
Lemma wp_find c n (Q : unit -> nat -> Prop) : (n <= len)%nat ->
  (forall n', (n <= n' <= len)%nat -> ~ In c (seg n n') ->
     (n' = len \/ nth n' input EOF = c) -> Q tt n') ->
  wp (a_find input c) n Q.
Proof.
  intros L H. unfold a_find. run. pose proof (memchr_spec c (skipn n input)) as M.
  destruct (memchr c (skipn n input)) as [k|].
  - destruct M as (M1 & M2 & M3). rewrite skipn_length in M1. apply wp_bump; [lia|]. apply H; [lia| |].
    + rewrite seg_scan by (rewrite ?skipn_length; lia). exact M2.
    + right. destruct (nth_error_nth input k n) as [E|E]; [congruence|lia].
  - apply wp_set, H; [lia| |now left]. now rewrite seg_full.
Qed.
Lemma wp_ws_nl n : (n <= len)%nat ->
  wp (a_ws_nl input) n (fun r n' => (n <= n' <= len)%nat /\ fst r = seg n n' /\ clean (fst r) /\
     snd r = nl_count (fst r) /\ at_stop n').
Proof.
  intros L. unfold a_ws_nl. run. destruct (ws_scan false (skipn n input)) as [k nl] eqn:E.
  assert (TX : utf8 input = true -> utf8 (firstn k (skipn n input)) = true).
  { rewrite !utf8_text. intros TX. eapply (ws_scan_text_at (firstn n input)); [exact E|].
    now rewrite firstn_skipn. }
  apply (proj1 (ws_scan_spec _ k nl)) in E as (H1 & H2 & H3 & H4). rewrite skipn_length in H1.
  apply wp_bump_bind; [lia|]. run. apply wp_ret. cbn [fst snd].
  rewrite (seg_scan input n k) by (rewrite ?skipn_length; lia).
  split; [lia|]. split; [reflexivity|]. split; [split; assumption|]. split; [exact H3|].
  split; rewrite skipn_add, Nat.add_comm in H4;
    rewrite nth_skipn; destruct (skipn (n + k) input); cbn; try reflexivity; try discriminate; apply H4.
Qed.
Lemma wp_ws n : (n <= len)%nat ->
  wp (a_ws input) n (fun w n' => (n <= n' <= len)%nat /\ w = seg n n' /\ clean w /\ at_stop n').
Proof.
  intros L. unfold a_ws. eapply wp_bind; [now apply wp_ws_nl|].
  intros [s nl] n' (H1 & H2 & H3 & _ & H4). apply wp_ret. auto.
Qed.
Definition wlex (w : option bytes) : list lex := match w with Some w => [Lay w] | None => [] end.
Lemma wp_or_ws w n x out : (n <= len)%nat -> T x (out ++ wlex w) ->
  wp (a_or_ws input w) n (fun p n' => (n <= n' <= len)%nat /\ T (x ++ seg n n') (out ++ [Lay p]) /\
     match w with Some w => p = w /\ n' = n | None => p = seg n n' /\ clean p /\ at_stop n' end).
Proof.
  intros L H. destruct w as [w|]; cbn [a_or_ws wlex] in *.
  - apply wp_ret. rewrite seg_nil, app_nil_r. auto.
  - rewrite app_nil_r in H. eapply wp_mono; [now apply wp_ws|].
    cbn. intros p n' (H1 & H2 & H3 & H4). subst p. split; [lia|]. split; [|auto].
    apply T_app; auto. now apply T_lay, H3.
Qed.

(* ---- scalars ---- *)
Lemma wp_number tab n : (n <= len)%nat ->
  wp (a_number input tab n) n (fun r n' => (n <= n' <= len)%nat /\
     match r with Some r => wscalar r = seg n n' | None => True end).
Proof.
  intros L. unfold a_number. run.
  eapply wp_bind with (R := fun _ n' => (n <= n' <= len)%nat).
  { destruct (N.eqb_spec (nth (n + 0) input EOF) DASH) as [E|E].
    - apply nth_byte in E as [E _]; [|discriminate]. apply wp_bump; lia.
    - apply wp_ret. lia. }
  intros _ n1 L1. run. pose proof (num_scan_le (skipn n1 input) true true false) as K.
  destruct (num_scan true true false (skipn n1 input)) as [k fl]. cbn [fst] in K.
  rewrite skipn_length in K. apply wp_bump_bind; [lia|].
  destruct (Nat.eqb k 0); [apply wp_ret; split; [lia|exact I]|].
  unfold a_is_eol. apply wp_bind_assoc. run.
  destruct (tab && negb _); [apply wp_ret; split; [lia|exact I]|]. run.
  apply wp_ret. cbn. split; [lia|reflexivity].
Qed.

Lemma in_sub n x : In x (skipn n input) -> In x input.
Proof. intros H. rewrite <- (firstn_skipn n input). apply in_or_app. now right. Qed.

Lemma nth_in n c : nth n input EOF = c -> c <> EOF -> In c input.
Proof.
  intros H NE. destruct (nth_in_or_default n input EOF) as [I|I]; [congruence|congruence].
Qed.
Lemma wp_single_quoted n : nth (n + 0) input EOF = SQUOTE ->
  wp (a_single_quoted input) n (fun r n' => (n < n' <= len)%nat /\ rs_kind r = KOriginal /\ rs_orig r = seg n n').
Proof.
  intros E. apply nth_byte in E as [L SQ]; [|discriminate]. unfold a_single_quoted. run.
  assert (IN : unclosed (skipn (n + 1) input) -> quote_open).
  { intros U. exists (seg 0 n), (skipn (n + 1) input). split; [|exact U].
    transitivity (seg 0 n ++ seg n (n + 1) ++ seg (n + 1) len).
    - rewrite !seg_app by lia. now rewrite seg_full by lia.
    - rewrite SQ, seg_full by lia. reflexivity. }
  apply wp_bump_bind; [lia|]. run.
  pose proof (sq_scan_spec (skipn (n + 1) input)) as S. rewrite skipn_length in S.
  destruct (sq_scan (skipn (n + 1) input)) as [|k|k] eqn:SE.
  - apply IN. now apply unclosed_plain.
  - destruct S as [S _]. apply wp_bump_bind; [lia|]. run.
    replace (Nat.eqb (n + 1 + k) len) with false by (symmetry; apply Nat.eqb_neq; lia).
    apply wp_bump_bind; [lia|]. run. apply wp_ret. cbn. repeat split; lia.
  - destruct S as [S _]. apply wp_bump_bind; [lia|]. unfold a_single_quoted_escaped. run.
    pose proof (sqe_scan_le _ (skipn (n + 1 + k) input) (le_n _)) as S2. rewrite skipn_length in S2.
    destruct (sqe_scan (skipn (n + 1 + k) input)) as [[k2 o]|] eqn:SE2.
    2:{ apply IN. eapply sq_escape_none; [exact SE|]. rewrite skipn_add. now rewrite (Nat.add_comm k). }
    apply wp_bump_bind; [lia|]. apply wp_bump_bind; [lia|]. run. apply wp_ret. cbn. repeat split; lia.
Qed.

Lemma hex_byte c v : hex_value c = Some v -> c <> EOF.
Proof. intros H ->. discriminate. Qed.
Lemma wp_unescape_digits start err count : forall c n, (start <= n <= len)%nat ->
  wp (a_unescape_digits input start count err c) n (fun _ n' => (n <= n' <= len)%nat).
Proof.
  induction count as [|count IH]; intros c n L; cbn [a_unescape_digits].
  - apply wp_ret. lia.
  - run. destruct (hex_value _) as [v|] eqn:E.
    + apply hex_byte in E. eapply nth_byte in E as [E _]; [|reflexivity].
      apply wp_bump_bind; [lia|]. eapply wp_mono; [apply IH; lia|]. intros; cbn in *; lia.
    + apply wp_bump_bind'; [lia|]. intros n' L'. run. apply wp_err. lia.
Qed.
Lemma escape_byte c o : escape_char c = Some o -> c <> EOF.
Proof. intros H ->. discriminate. Qed.
Lemma wp_unescape start n : (start <= n <= len)%nat ->
  wp (a_unescape input start) n (fun _ n' => (n <= n' <= len)%nat).
Proof.
  intros L. unfold a_unescape. run. destruct (escape_char _) as [o|] eqn:E.
  - apply escape_byte in E. eapply nth_byte in E as [E _]; [|reflexivity].
    apply wp_bump_bind; [lia|]. apply wp_ret. lia.
  - assert (U : forall count err, wp (a_bump input 1 ;;; a_unescape_unicode input start count err) n
                (fun _ n' => (n <= n' <= len)%nat)).
    { intros count err. apply wp_bump_bind'; [lia|]. intros n1 L1. unfold a_unescape_unicode.
      eapply wp_bind; [apply wp_unescape_digits; lia|]. intros c n2 L2; cbn in L2.
      destruct (is_scalar_value c); [apply wp_ret; lia|]. run. apply wp_err; lia. }
    destruct (_ =? 120); [apply U|]. destruct (_ =? 117); [apply U|].
    apply wp_bump_bind'; [lia|]. intros n' L'. run. apply wp_err. lia.
Qed.
Lemma wp_dqe_loop f : forall acc n, (n <= len)%nat -> (len - n < f)%nat ->
  wp (a_dqe_loop input f acc) n (fun _ n' => (n <= n' <= len)%nat).
Proof.
  induction f as [|f IH]; intros acc n L F; [lia|]. cbn [a_dqe_loop]. run.
  destruct (_ || _) eqn:E; [apply wp_ret; lia|]. apply orb_false_elim in E as [_ E].
  apply N.eqb_neq in E. eapply nth_byte in E as [E _]; [|reflexivity].
  destruct (_ =? BACKSLASH).
  - run. apply wp_bump_bind; [lia|]. eapply wp_bind; [apply wp_unescape; lia|].
    intros x n2 L2; cbn in L2. eapply wp_mono; [apply IH; lia|]. intros; cbn in *; lia.
  - apply wp_bump_bind; [lia|]. eapply wp_mono; [apply IH; lia|]. intros; cbn in *; lia.
Qed.
Lemma wp_double_quoted n : nth (n + 0) input EOF = DQUOTE ->
  wp (a_double_quoted input) n (fun r n' => (n < n' <= len)%nat /\ rs_kind r = KOriginal /\ rs_orig r = seg n n').
Proof.
  intros E. apply nth_byte in E as [L _]; [|discriminate]. unfold a_double_quoted. run.
  apply wp_bump_bind; [lia|]. run.
  pose proof (dq_scan_spec (skipn (n + 1) input)) as S. rewrite skipn_length in S.
  destruct (dq_scan (skipn (n + 1) input)) as [k [|]].
  - apply wp_bump_bind; [lia|]. unfold a_double_quoted_escaped. run.
    eapply wp_bind; [apply wp_dqe_loop; lia|]. intros x n2 L2; cbn in L2.
    apply wp_bump_bind'; [lia|]. intros n3 L3. run. apply wp_ret. cbn. repeat split; lia.
  - apply wp_bump_bind; [lia|]. run. apply wp_bump_bind'; [lia|]. intros n3 L3. run.
    apply wp_ret. cbn. repeat split; lia.
Qed.
Lemma wp_key_or_eol start n : (start <= n <= len)%nat ->
  wp (a_key_or_eol input start) n (fun r n' => (n <= n' <= len)%nat /\
    match r with
    | Some key => (n' < len)%nat /\ wstr key = seg start n' /\ nth n' input EOF = COLON
    | None => True
    end).
Proof.
  intros L. unfold a_key_or_eol. run. pose proof (key_scan_spec (skipn n input)) as S.
  destruct (key_scan (skipn n input)) as [k [|]].
  - destruct S as (S1 & S2 & _). rewrite skipn_length in S1.
    apply wp_bump_bind; [lia|]. run. apply wp_ret. cbn. repeat split; try lia.
    destruct (nth_error_nth input k n); [congruence|lia].
  - destruct S as (S1 & _). rewrite skipn_length in S1.
    apply wp_bump_bind; [lia|]. apply wp_ret. split; [lia|exact I].
Qed.
Lemma wp_until_colon n : (n <= len)%nat ->
  wp (a_until_colon input n) n (fun r n' => (n <= n' <= len)%nat /\
    match r with
    | Some key => (n' < len)%nat /\ wstr key = seg n n' /\
                  (nth n' input EOF = COLON \/ nth n' input EOF = EOF)
    | None => True
    end).
Proof.
  intros L. unfold a_until_colon. run. pose proof (colon_scan_le (skipn n input)) as S.
  rewrite skipn_length in S. pose proof (colon_scan_stop (skipn n input)) as C.
  apply wp_bump_bind; [lia|]. run. destruct (Nat.eqb_spec (n + colon_scan (skipn n input)) len) as [E|E].
  - apply wp_ret. split; [lia|exact I].
  - run. apply wp_ret. cbn. repeat split; try lia.
    destruct (nth_error_nth input (colon_scan (skipn n input)) n) as [H|H]; [|lia].
    rewrite H in C. exact C.
Qed.
Lemma wp_next_mapping_key n : (n <= len)%nat ->
  wp (a_next_mapping_key input) n (fun r n' => (n <= n' <= len)%nat /\
    match r with Some key => (n < n')%nat /\ wstr key = seg n n' | None => n' = n end).
Proof.
  intros L. unfold a_next_mapping_key. run. pose proof (colon_scan_le (skipn n input)) as S.
  rewrite skipn_length in S. apply wp_bump_bind; [lia|]. run.
  pose proof (seg_length input n (n + colon_scan (skipn n input))) as SL.
  rewrite Nat.add_comm, Nat.add_sub in SL. rewrite (Nat.add_comm _ n) in SL.
  destruct (seg n (n + colon_scan (skipn n input))) eqn:E; cbn [length] in SL.
  - apply wp_ret. split; lia.
  - apply wp_ret. cbn. rewrite E. repeat split; lia.
Qed.

(* ---- block scalars ---- *)
Definition lay_at (w : bytes) : Prop := clean w /\ exists i j, (i <= j <= len)%nat /\ w = seg i j.
Lemma lay_at_seg i j : (i <= j <= len)%nat -> clean (seg i j) -> lay_at (seg i j).
Proof. intros H L. split; [exact L|]. eauto. Qed.
Lemma lay_at_nil : lay_at [].
Proof. split; [split; [constructor|reflexivity]|]. exists O, O. rewrite seg_nil. split; [lia|reflexivity]. Qed.
Lemma lay_at_in w : lay_at w -> exists h t, input = h ++ w ++ t.
Proof.
  intros (_ & i & j & L & ->). exists (seg 0 i), (seg j len).
  rewrite !seg_app by lia. now rewrite seg_full by lia.
Qed.
Lemma T_lossy x out w : lay_at w -> T x (out ++ [Lay w]) -> T x (out ++ [Lay (lossy w)]).
Proof.
  intros L H. destruct (utf8 w) eqn:E; [now rewrite lossy_utf8|].
  eapply T_step; [exact H|]. apply s_lossy; [|exact E|apply L].
  destruct (utf8 input) eqn:U; [|reflexivity]. apply L in U. congruence.
Qed.

Lemma wp_block_loop join folded ind f : forall w nl stop acc n, (n <= len)%nat -> (len - n < f)%nat ->
  wp (a_block_loop input f join folded ind w nl stop acc) n (fun r n' =>
    let '(w', nl', stop', acc') := r in (n <= n' <= len)%nat /\
      ((n = len /\ n' = len /\ w' = w /\ nl' = nl /\ stop' = stop) \/
       (n < n' /\ n <= stop' <= n')%nat /\ w' = seg stop' n' /\ clean w')).
Proof.
  induction f as [|f IH]; intros w nl stop acc n L F; [lia|]. cbn [a_block_loop]. run.
  destruct (Nat.eqb_spec n len) as [E|E].
  - apply wp_ret. split; [lia|]. left. auto.
  - run. eapply wp_bind.
    { apply (wp_find NEWLINE n (fun _ n' => (n <= n' <= len)%nat /\ (n' = len \/ nth n' input EOF = NEWLINE))); [lia|].
      intros n' H1 _ H2. auto. }
    intros _ n1 (L1 & S1). run. eapply wp_bind; [apply wp_ws_nl; lia|].
    intros [w1 nl1] n2 (L2 & H2 & H3 & H4 & H5). cbn [fst snd] in *. run.
    assert (n < n2)%nat.
    { destruct (Nat.eq_dec n n2) as [->|]; [|lia]. exfalso. replace n1 with n2 in * by lia.
      destruct S1 as [S1|S1]; [lia|]. destruct H5 as [H5 _]. rewrite S1 in H5. discriminate. }
    destruct (_ <? ind)%nat.
    + apply wp_ret. split; [lia|]. right. split; [lia|]. auto.
    + eapply wp_mono; [apply IH; lia|]. intros [[[w' nl'] stop'] acc'] n' (H6 & H7).
      split; [lia|]. right. destruct H7 as [(H7 & H8 & H9 & H10 & H11)|(H7 & H8 & H9)].
      * subst. split; [lia|]. auto.
      * split; [lia|]. auto.
Qed.
Lemma seg_hd i j c : (i < j <= len)%nat -> nth i input EOF = c -> hd EOF (seg i j) = c.
Proof.
  intros L H. rewrite <- (seg_app input i (S i) j) by lia. rewrite nth_seg by lia. exact H.
Qed.
Lemma nl_count_0 s : nl_count s = 0%nat -> ~ In NEWLINE s.
Proof.
  unfold nl_count. intros H I. assert (In NEWLINE (filter (N.eqb NEWLINE) s)) by (apply filter_In; auto).
  destruct (filter _ s); [auto|discriminate].
Qed.
Lemma seg_split n : (n <= len)%nat -> input = seg 0 n ++ seg n len.
Proof. intros L. rewrite seg_app by lia. now rewrite seg_full by lia. Qed.
Lemma wp_block n k join folded chomp clip :
  (n < n + k <= len)%nat -> ~ In NEWLINE (seg n (n + k)) ->
  nth n input EOF = PIPE \/ nth n input EOF = GT ->
  wp (a_block input k join folded chomp clip) n (fun r n' => (n < n' <= len)%nat /\
     T (seg n n') (Tok (wscalar (fst r)) :: wlex (snd r)) /\
     match snd r with Some w => lay_at w | None => True end).
Proof.
  intros L NN HD. unfold a_block. run. apply wp_bump_bind; [lia|]. run.
  set (n1 := (n + k)%nat) in *.
  eapply wp_bind; [apply wp_ws_nl; lia|]. intros [w nl] n2 (L2 & H2 & H3 & H4 & _). cbn [fst snd] in *.
  eapply wp_bind with (R := fun r n' => (n2 <= n' <= len)%nat /\
     exists m, (n1 <= m <= n')%nat /\ fst (fst r) = seg m n' /\ clean (fst (fst r)) /\ ~ In NEWLINE (seg n m)).
  { destruct (Nat.eqb_spec nl 0) as [E|E].
    - eapply wp_bind.
      { apply (wp_find NEWLINE n2 (fun _ n' => (n2 <= n' <= len)%nat /\ ~ In NEWLINE (seg n2 n'))); [lia|].
        intros n' A1 A2 _. auto. }
      intros _ n3 (L3 & N3). run. eapply wp_bind; [apply wp_ws_nl; lia|].
      intros [w' nl'] n4 (L4 & G2 & G3 & _ & _). cbn [fst snd] in *. run. apply wp_ret. cbn [fst].
      split; [lia|]. exists n3. split; [lia|]. split; [exact G2|]. split; [exact G3|].
      rewrite <- (seg_app input n n2 n3), <- (seg_app input n n1 n2) by lia.
      rewrite !in_app_iff. intros [[I|I]|I]; auto. rewrite <- H2 in I. revert I. apply nl_count_0. congruence.
    - apply wp_ret. cbn [fst]. split; [lia|]. exists n1. split; [lia|]. auto. }
  intros [[w1 nl1] acc] n3 (L3 & m & Lm & E1 & E2 & NM). cbn [fst] in *. run.
  eapply wp_bind; [apply wp_block_loop; lia|].
  intros [[[w' nl'] stop'] acc'] n' (L' & D). apply wp_ret. cbn [fst snd wscalar wstr rs_kind rs_orig wlex].
  split; [lia|]. split.
  2:{ destruct D as [(D1 & D2 & D3 & D4 & D5)|(D1 & D2 & D3)]; subst w'.
      - rewrite E1 in *. apply lay_at_seg; [lia|exact E2].
      - apply lay_at_seg; [lia|exact D3]. }
  destruct D as [(D1 & D2 & D3 & D4 & D5)|(D1 & D2 & D3)].
  - subst n' w' nl' stop' n3. rewrite seg_app by lia. rewrite E1.
    destruct (Nat.eq_dec m len) as [->|NE].
    + rewrite seg_nil.
      eapply T_eq; [exact (T_app input (seg n len) [Tok (seg n len)] [] [Lay []] (T_tok _ _) (T_lay _ _ lay_nil))| |];
        [apply app_nil_r|reflexivity].
    + eapply T_step; [apply T_tok|].
      rewrite <- (seg_app input n m len) by lia.
      apply (s_again input [] (seg n m) (seg m len) []); auto.
      * exists (seg 0 n). rewrite seg_app by lia. apply seg_split. lia.
      * rewrite (seg_hd n m _) by (try lia; reflexivity). exact HD.
      * rewrite <- E1. apply E2.
      * intros Z. apply (f_equal (@length _)) in Z. rewrite seg_length in Z by lia. cbn in Z. lia.
  - subst w'. rewrite seg_app by lia. rewrite <- (seg_app input n stop' n') by lia.
    apply (T_app input _ [Tok _]); [apply T_tok|now apply T_lay, D3].
Qed.

Ltac lists := repeat first [progress cbn [app] | rewrite <- app_assoc].
(* ---- values ---- *)
Definition slex {I} (k : ckind bytes) (it : sitem I) : list lex :=
  let '(_, ip, v) := it in [Lay (lossy ip)] ++ puns (dash_if k) ++ Lay (tpre v) :: lexes v.
Definition mlex {I} (it : mitem I) : list lex :=
  let '(_, ip, key, v) := it in [Lay ip; Tok (wstr key); Pun COLON; Lay (tpre v)] ++ lexes v.
Definition comma (t : bool) : list lex := if t then [Pun COMMA] else [].

Definition vpost (a : astate) (n : nat) (r : tree unit * option bytes) (n' : nat) : Prop :=
  (n <= n' <= len)%nat /\
  T (as_prefix a ++ seg n n') (Lay (tpre (fst r)) :: lexes (fst r) ++ wlex (snd r)) /\
  match snd r with
  | Some w => lay_at w /\ (as_inline a = true -> In PIPE input \/ In GT input)
  | None => True
  end.

Section Value.
Variable f : nat.
Variable value : astate -> AM (tree unit * option bytes).
Hypothesis VH : forall a n, (n <= len)%nat -> (len - n < f)%nat -> lay_at (as_prefix a) ->
  wp (value a) n (vpost a n).

Lemma T_put x out y out' : T x out -> T y out' -> forall z o, x ++ y = z -> out ++ out' = o -> T z o.
Proof. intros H1 H2 z o <- <-. now apply T_app. Qed.

(* white space, then a value *)
Lemma wp_ws_value {B} (k : tree unit * option bytes -> AM B) inl tab ind n X out Q :
  (n <= len)%nat -> (len - n < f)%nat -> T X out ->
  (forall v w n', (n <= n' <= len)%nat ->
     T (X ++ seg n n') (out ++ Lay (tpre v) :: lexes v ++ wlex w) ->
     match w with Some w => lay_at w /\ (inl = true -> In PIPE input \/ In GT input) | None => True end ->
     wp (k (v, w)) n' Q) ->
  wp (p <- a_ws input ;; r <- value (AState p inl tab ind) ;; k r) n Q.
Proof.
  intros L F HT K. eapply wp_bind; [now apply wp_ws|].
  intros p n1 (L1 & E1 & E2 & _). subst p.
  eapply wp_bind; [apply VH; [lia|lia|now apply lay_at_seg]|].
  intros [v w] n2 (L2 & T2 & W2). cbn [fst snd as_prefix as_inline] in *. apply K; [lia| |exact W2].
  eapply T_put; [exact HT|exact T2| |reflexivity]. rewrite seg_app by lia. reflexivity.
Qed.

Lemma wp_iseq_loop f' : forall items (last tr : bool) ip n X,
  (n <= len)%nat -> (len - n < f)%nat ->
  (if last then 1 <= f' else len - n + 2 <= f')%nat -> In LBRACK input ->
  T X (Pun LBRACK :: sepl [Pun COMMA] (map (slex (CInline true [])) items) ++ comma tr ++ [Lay ip]) ->
  lay_at ip -> (match items with [] => last = false /\ tr = false | _ => tr = negb last end) ->
  wp (a_iseq_loop input value f' items last tr ip) n (fun r n' =>
    let '(items', tr', p) := r in (n <= n' <= len)%nat /\
    T (X ++ seg n n') (Pun LBRACK :: sepl [Pun COMMA] (map (slex (CInline true [])) items') ++ comma tr' ++ [Lay p])).
Proof.
  induction f' as [|f' IH]; intros items last tr ip n X L F F' IN HT LP INV.
  { exfalso. destruct last; lia. }
  cbn [a_iseq_loop]. run. destruct (_ || _) eqn:C0.
  { apply wp_ret. rewrite seg_nil, app_nil_r. split; [lia|exact HT]. }
  (* the comma and the prefix of the item *)
  assert (H1 : T X (Pun LBRACK :: sepl [Pun COMMA] (map (slex (CInline true [])) items) ++
                    (match items with [] => [] | _ => [Pun COMMA] end) ++ [Lay (lossy ip)])).
  { rewrite app_assoc, app_comm_cons. apply T_lossy; [exact LP|]. rewrite <- app_comm_cons, <- app_assoc.
    destruct items as [|it items].
    - destruct INV as [_ ->]. exact HT.
    - subst tr. destruct last; cbn [negb comma] in HT; [|exact HT].
      cbn [app] in HT. eapply T_step; [exact HT|].
      cbn [app]. rewrite !app_comm_cons. apply s_comma. now right. }
  clear HT. eapply (wp_ws_value _ true false None n X _ _ L F H1).
  intros v w n2 L2 T2 W2. cbv beta iota zeta.
  assert (H2 : T (X ++ seg n n2)
    (Pun LBRACK :: sepl [Pun COMMA] (map (slex (CInline true [])) (items ++ [(tt, ip, v)])) ++ wlex w)).
  { eapply T_eq; [exact T2|reflexivity|]. rewrite map_app. cbn [map].
    rewrite sepl_snoc. cbn [slex dash_if puns map app]. lists.
    f_equal. f_equal. destruct items; cbn; reflexivity. }
  clear T2. rewrite app_comm_cons in H2.
  destruct last.
  - eapply wp_bind; [apply (wp_or_ws w n2 _ _ ltac:(lia) H2)|].
    intros p n3 (L3 & T3 & P3). apply wp_ret. split; [lia|]. cbn [comma app].
    eapply T_eq; [exact T3| |reflexivity]. rewrite <- app_assoc, seg_app by lia. reflexivity.
  - run. destruct (N.eqb_spec (nth (n2 + 0) input EOF) COMMA) as [EC|EC].
    + apply nth_byte in EC as [L3 S3]; [|discriminate]. apply wp_bump_bind; [lia|].
      assert (H3 : T (X ++ seg n (n2 + 1))
        (Pun LBRACK :: sepl [Pun COMMA] (map (slex (CInline true [])) (items ++ [(tt, ip, v)])) ++ [Pun COMMA] ++ wlex w)).
      { assert (H3 : T (X ++ seg n (n2 + 1))
          (Pun LBRACK :: sepl [Pun COMMA] (map (slex (CInline true [])) (items ++ [(tt, ip, v)])) ++ wlex w ++ [Pun COMMA])).
        { eapply T_put; [exact H2|exact (T_pun _ COMMA)| |].
          - rewrite <- app_assoc, <- S3, seg_app by lia. reflexivity.
          - cbn [app]. now rewrite <- app_assoc. }
        destruct w as [w|]; cbn [wlex app] in *; [|exact H3].
        eapply T_step; [exact H3|]. rewrite !app_comm_cons.
        apply (s_swap input _ w []); auto; apply W2; reflexivity. }
      rewrite app_assoc, app_comm_cons in H3.
      eapply wp_bind; [apply (wp_or_ws w (n2 + 1) _ _ L3 H3)|].
      intros p n4 (L4 & T4 & P4).
      eapply wp_mono.
      { apply (IH _ false true p n4 (X ++ seg n n4)); try lia.
        - exact IN.
        - eapply T_eq; [exact T4| |].
          + rewrite <- app_assoc, seg_app by lia. reflexivity.
          + lists. reflexivity.
        - destruct w as [w|]; [destruct P4 as [-> _]; apply W2|].
          destruct P4 as (-> & P4 & _). apply lay_at_seg; [lia|exact P4].
        - destruct items; reflexivity. }
      intros [[its tr'] p'] n5 (L5 & T5). split; [lia|].
      eapply T_eq; [exact T5| |reflexivity]. rewrite <- app_assoc, seg_app by lia. reflexivity.
    + eapply wp_bind; [apply (wp_or_ws w n2 _ _ ltac:(lia) H2)|].
      intros p n4 (L4 & T4 & P4).
      eapply wp_mono.
      { apply (IH _ true false p n4 (X ++ seg n n4)); try lia.
        - exact IN.
        - eapply T_eq; [exact T4| |reflexivity].
          rewrite <- app_assoc, seg_app by lia. reflexivity.
        - destruct w as [w|]; [destruct P4 as [-> _]; apply W2|].
          destruct P4 as (-> & P4 & _). apply lay_at_seg; [lia|exact P4].
        - destruct items; reflexivity. }
      intros [[its tr'] p'] n5 (L5 & T5). split; [lia|].
      eapply T_eq; [exact T5| |reflexivity]. rewrite <- app_assoc, seg_app by lia. reflexivity.
Qed.
Lemma lexes_iseq (its : list (sitem unit)) p tr s :
  lexes (TSeq tt p 0 (CInline tr s) its) =
  Pun LBRACK :: sepl [Pun COMMA] (map (slex (CInline true [])) its) ++ comma tr ++ [Lay s; Pun RBRACK].
Proof. reflexivity. Qed.
Lemma lexes_imap (its : list (mitem unit)) p tr s :
  lexes (TMap tt p 0 (CInline tr s) its) =
  Pun LBRACE :: sepl [Pun COMMA] (map mlex its) ++ comma tr ++ [Lay s; Pun RBRACE].
Proof. reflexivity. Qed.
Lemma wp_inline_sequence a n : (n <= len)%nat -> (len - n < S f)%nat -> lay_at (as_prefix a) ->
  nth (n + 0) input EOF = LBRACK ->
  wp (a_inline_sequence input value a) n (fun t n' => (n < n' <= len)%nat /\
     T (as_prefix a ++ seg n n') (Lay (tpre t) :: lexes t)).
Proof.
  intros L F LP E. pose proof (nth_in _ _ E ltac:(discriminate)) as IN.
  apply nth_byte in E as [L1 S1]; [|discriminate]. unfold a_inline_sequence.
  apply wp_bump_bind; [lia|]. eapply wp_bind; [apply wp_ws; lia|].
  intros p n2 (L2 & E2 & LY & _). subst p. eapply wp_bind.
  { apply (wp_iseq_loop _ [] false false (seg (n + 1) n2) n2 (seg n n2)); try lia; auto.
    - cbn. rewrite <- (seg_app input n (n + 1) n2) by lia. rewrite S1.
      apply (T_app input [_] [_]); [apply T_pun|]. now apply T_lay, LY.
    - apply lay_at_seg; [lia|exact LY]. }
  intros [[its tr] p] n3 (L3 & T3). run.
  destruct (N.eqb_spec (nth (n3 + 0) input EOF) RBRACK) as [EC|EC]; cbn [negb].
  - apply nth_byte in EC as [L4 S4]; [|discriminate]. apply wp_bump_bind; [lia|]. apply wp_ret.
    split; [lia|]. cbn [tpre]. rewrite lexes_iseq.
    apply (T_app input (as_prefix a) [_]); [apply T_lay, LP|].
    eapply T_put; [exact T3|exact (T_pun _ RBRACK)| |].
    + rewrite <- S4, !seg_app by lia. reflexivity.
    + lists. reflexivity.
  - run. apply wp_err. lia.
Qed.

Lemma wp_imap_loop f' : forall items (last tr : bool) start ip n X,
  (start <= n <= len)%nat -> (len - n < f)%nat ->
  (if last then 1 <= f' else len - n + 2 <= f')%nat -> In LBRACE input ->
  T X (Pun LBRACE :: sepl [Pun COMMA] (map mlex items) ++ comma tr ++ [Lay ip]) ->
  (match items with [] => last = false /\ tr = false | _ => tr = negb last end) ->
  wp (a_imap_loop input value f' items last tr start ip) n (fun r n' =>
    let '(items', tr', p, start') := r in (n <= n' <= len)%nat /\ (start' <= n')%nat /\
    T (X ++ seg n n') (Pun LBRACE :: sepl [Pun COMMA] (map mlex items') ++ comma tr' ++ [Lay p])).
Proof.
  induction f' as [|f' IH]; intros items last tr start ip n X L F F' IN HT INV.
  { exfalso. destruct last; lia. }
  cbn [a_imap_loop]. run. destruct (_ || _) eqn:C0.
  { apply wp_ret. rewrite seg_nil, app_nil_r. repeat split; [lia|lia|lia|exact HT]. }
  run.
  assert (H1 : T X (Pun LBRACE :: sepl [Pun COMMA] (map mlex items) ++
                    (match items with [] => [] | _ => [Pun COMMA] end) ++ [Lay ip])).
  { destruct items as [|it items].
    - destruct INV as [_ ->]. exact HT.
    - subst tr. destruct last; cbn [negb comma] in HT; [|exact HT].
      cbn [app] in HT. eapply T_step; [exact HT|].
      cbn [app]. rewrite !app_comm_cons. apply s_comma. now left. }
  clear HT. eapply wp_bind; [apply wp_until_colon; lia|]. intros key n1 (L1 & K1).
  destruct key as [key|]; [|run; apply wp_err; lia].
  destruct K1 as (L1' & K1 & K2). apply wp_bump_bind; [lia|].
  assert (H2 : T (X ++ seg n (n1 + 1)) (Pun LBRACE :: sepl [Pun COMMA] (map mlex items) ++
                 (match items with [] => [] | _ => [Pun COMMA] end) ++ [Lay ip; Tok (wstr key); Pun COLON])).
  { rewrite K1.
    assert (HC : T (seg n1 (n1 + 1)) [Pun COLON]).
    { rewrite Nat.add_1_r, nth_seg by lia. destruct K2 as [->|E0]; [apply T_pun|]. rewrite E0.
      eapply T_step; [apply T_pun|]. apply (s_nul input [] []); [exact IN|].
      rewrite <- E0. apply nth_In. lia. }
    eapply T_put; [eapply T_put; [exact H1|exact (T_tok _ (seg n n1))|reflexivity|reflexivity]|exact HC| |].
    - rewrite <- app_assoc, seg_app by lia. reflexivity.
    - lists. reflexivity. }
  clear H1. eapply (wp_ws_value _ true false None (n1 + 1) _ _ _ ltac:(lia) ltac:(lia) H2).
  intros v w n2 L2 T2 W2. cbv beta iota zeta.
  assert (H3 : T (X ++ seg n n2)
    (Pun LBRACE :: sepl [Pun COMMA] (map mlex (items ++ [(tt, ip, key, v)])) ++ wlex w)).
  { eapply T_eq; [exact T2| |].
    - rewrite <- app_assoc, seg_app by lia. reflexivity.
    - rewrite map_app. cbn [map]. rewrite sepl_snoc. cbn [mlex app].
      lists. f_equal. f_equal. destruct items; cbn; reflexivity. }
  clear T2 H2. rewrite app_comm_cons in H3.
  eapply wp_bind; [apply (wp_or_ws w n2 _ _ ltac:(lia) H3)|]. intros p n3 (L3 & T3 & P3).
  rewrite <- app_assoc, seg_app in T3 by lia.
  destruct last.
  { apply wp_ret. repeat split; [lia|lia|lia|exact T3]. }
  assert (H4 : T (X ++ seg n n3) (Pun LBRACE :: sepl [Pun COMMA] (map mlex (items ++ [(tt, ip, key, v)])))).
  { assert (LY : layout p).
    { destruct w as [w|]; [destruct P3 as [-> _]; apply W2|apply P3]. }
    rewrite <- (app_nil_r (sepl _ _)).
    eapply T_step; [exact T3|]. rewrite !app_comm_cons. destruct p as [|c p]; [apply s_nil|].
    apply s_drop; auto. discriminate. }
  run. destruct (N.eqb_spec (nth (n3 + 0) input EOF) COMMA) as [EC|EC].
  - apply nth_byte in EC as [L4 S4]; [|discriminate]. apply wp_bump_bind; [lia|]. run.
    eapply wp_bind; [apply wp_ws; lia|]. intros p' n4 (L5 & E5 & LY & _). subst p'.
    eapply wp_mono.
    { apply (IH _ false true (n3 + 1)%nat (seg (n3 + 1) n4) n4 (X ++ seg n n4)); try lia; auto.
      - eapply T_put; [eapply T_put; [exact H4|exact (T_pun _ COMMA)|reflexivity|reflexivity]|exact (T_lay _ _ (proj1 LY))| |].
        + rewrite <- S4, <- !app_assoc, !seg_app by lia. reflexivity.
        + lists. reflexivity.
      - destruct items; reflexivity. }
    intros [[[its tr'] p'] s'] n5 (L6 & L7 & T5). repeat split; [lia|lia|lia|].
    eapply T_eq; [exact T5| |reflexivity]. rewrite <- app_assoc, seg_app by lia. reflexivity.
  - run. eapply wp_bind; [apply wp_ws; lia|]. intros p' n4 (L5 & E5 & LY & _). subst p'.
    eapply wp_mono.
    { apply (IH _ true false n3 (seg n3 n4) n4 (X ++ seg n n4)); try lia; auto.
      - eapply T_put; [exact H4|exact (T_lay _ _ (proj1 LY))| |].
        + rewrite <- !app_assoc, !seg_app by lia. reflexivity.
        + reflexivity.
      - destruct items; reflexivity. }
    intros [[[its tr'] p'] s'] n5 (L6 & L7 & T5). repeat split; [lia|lia|lia|].
    eapply T_eq; [exact T5| |reflexivity]. rewrite <- app_assoc, seg_app by lia. reflexivity.
Qed.
Lemma wp_inline_mapping a n : (n <= len)%nat -> (len - n < S f)%nat -> lay_at (as_prefix a) ->
  nth (n + 0) input EOF = LBRACE ->
  wp (a_inline_mapping input value a) n (fun t n' => (n < n' <= len)%nat /\
     T (as_prefix a ++ seg n n') (Lay (tpre t) :: lexes t)).
Proof.
  intros L F LP E. pose proof (nth_in _ _ E ltac:(discriminate)) as IN.
  apply nth_byte in E as [L1 S1]; [|discriminate]. unfold a_inline_mapping.
  apply wp_bump_bind; [lia|]. run. eapply wp_bind; [apply wp_ws; lia|].
  intros p n2 (L2 & E2 & LY & _). subst p. eapply wp_bind.
  { apply (wp_imap_loop _ [] false false (n + 1)%nat (seg (n + 1) n2) n2 (seg n n2)); try lia; auto.
    cbn. rewrite <- (seg_app input n (n + 1) n2) by lia. rewrite S1.
    apply (T_app input [_] [_]); [apply T_pun|]. now apply T_lay, LY. }
  intros [[[its tr] p] st] n3 (L3 & LS & T3). run.
  destruct (N.eqb_spec (nth (n3 + 0) input EOF) RBRACE) as [EC|EC]; cbn [negb].
  - apply nth_byte in EC as [L4 S4]; [|discriminate]. apply wp_bump_bind; [lia|]. apply wp_ret.
    split; [lia|]. cbn [tpre]. rewrite lexes_imap.
    apply (T_app input (as_prefix a) [_]); [apply T_lay, LP|].
    eapply T_put; [exact T3|exact (T_pun _ RBRACE)| |].
    + rewrite <- S4, !seg_app by lia. reflexivity.
    + lists. reflexivity.
  - run. apply wp_err. lia.
Qed.

Lemma sepl_nil_snoc {A} (l : list (list A)) x : sepl [] (l ++ [x]) = sepl [] l ++ x.
Proof. rewrite sepl_snoc. destruct l; reflexivity. Qed.
Lemma wp_seq_loop ind f' : forall items ip n X,
  (n + 1 <= len)%nat -> seg n (n + 1) = [DASH] -> (len - n <= f)%nat -> (len - n < f')%nat ->
  T X (sepl [] (map (slex CBlock) items) ++ [Lay ip]) -> lay_at ip ->
  wp (a_seq_loop input value f' ind items ip) n (fun r n' =>
    let '(items', w) := r in (n < n' <= len)%nat /\ lay_at w /\
    T (X ++ seg n n') (sepl [] (map (slex CBlock) items') ++ [Lay w])).
Proof.
  induction f' as [|f' IH]; intros items ip n X L S1 F F' HT LP; [lia|].
  cbn [a_seq_loop]. apply wp_bump_bind; [lia|].
  assert (H1 : T (X ++ seg n (n + 1)) (sepl [] (map (slex CBlock) items) ++ [Lay (lossy ip); Pun DASH])).
  { rewrite S1. eapply T_put; [apply T_lossy; [exact LP|exact HT]|exact (T_pun _ DASH)|reflexivity|].
    rewrite <- app_assoc. reflexivity. }
  eapply (wp_ws_value _ false true None (n + 1) _ _ _ ltac:(lia) ltac:(lia) H1).
  intros v w n2 L2 T2 W2. cbv beta iota zeta.
  assert (H2 : T (X ++ seg n n2) (sepl [] (map (slex CBlock) (items ++ [(tt, ip, v)])) ++ wlex w)).
  { eapply T_eq; [exact T2| |].
    - rewrite <- app_assoc, seg_app by lia. reflexivity.
    - rewrite map_app. cbn [map]. rewrite sepl_nil_snoc. cbn [slex app dash_if puns map].
      rewrite <- !app_assoc. reflexivity. }
  eapply wp_bind; [apply (wp_or_ws w n2 _ _ ltac:(lia) H2)|]. intros p n3 (L3 & T3 & P3).
  rewrite <- app_assoc, seg_app in T3 by lia.
  assert (LY : lay_at p).
  { destruct w as [w|]; [destruct P3 as [-> _]; apply W2|].
    destruct P3 as (-> & P3 & _). apply lay_at_seg; [lia|exact P3]. }
  run. destruct (_ || _) eqn:C.
  - apply wp_ret. split; [lia|]. split; [exact LY|exact T3].
  - apply orb_false_elim in C as [_ C]. apply negb_false_iff, N.eqb_eq in C.
    apply nth_byte in C as [L4 S4]; [|discriminate].
    eapply wp_mono; [apply (IH _ p n3 (X ++ seg n n3)); auto; lia|].
    intros [its w'] n5 (L5 & L6 & T5). split; [lia|]. split; [exact L6|].
    eapply T_eq; [exact T5| |reflexivity]. rewrite <- app_assoc, seg_app by lia. reflexivity.
Qed.
Lemma lexes_block_seq (its : list (sitem unit)) p i : lexes (TSeq tt p i CBlock its) = sepl [] (map (slex CBlock) its).
Proof. cbn. now rewrite app_nil_r. Qed.
Lemma lexes_block_map (its : list (mitem unit)) p i : lexes (TMap tt p i CBlock its) = sepl [] (map mlex its).
Proof. cbn. now rewrite app_nil_r. Qed.
Lemma wp_sequence a n : (n <= len)%nat -> (len - n < S f)%nat -> lay_at (as_prefix a) ->
  as_inline a = false -> nth (n + 0) input EOF = DASH ->
  wp (a_sequence input value a) n (vpost a n).
Proof.
  intros L F LP NI E. apply nth_byte in E as [L1 S1]; [|discriminate]. unfold a_sequence. run.
  eapply wp_bind.
  { apply (wp_seq_loop _ _ [] [] n []); try lia; auto.
    - cbn. apply T_lay. constructor.
    - apply lay_at_nil. }
  intros [its w] n' (L2 & LW & T2). apply wp_ret. split; [lia|]. cbn [fst snd tpre].
  split; [|split; [exact LW|congruence]].
  rewrite lexes_block_seq. apply (T_app input (as_prefix a) [_]); [apply T_lay, LP|exact T2].
Qed.

Lemma wp_map_loop ind f' : forall items start key ip n X,
  (start <= n <= len)%nat -> (len - n <= f)%nat -> (len - n < f')%nat ->
  T X (sepl [] (map mlex items) ++ [Lay ip; Tok (wstr key)]) -> lay_at ip ->
  wp (a_map_loop input value f' ind items start key ip) n (fun r n' =>
    let '(items', w) := r in (n < n' <= len)%nat /\ lay_at w /\
    T (X ++ seg n n') (sepl [] (map mlex items') ++ [Lay w])).
Proof.
  induction f' as [|f' IH]; intros items start key ip n X L F F' HT LP; [lia|].
  cbn [a_map_loop]. run. destruct (N.eqb_spec (nth (n + 0) input EOF) COLON) as [EC|EC]; cbn [negb].
  2:{ apply wp_bump_bind'; [lia|]. intros n' L'. run. apply wp_err. lia. }
  apply nth_byte in EC as [L1 S1]; [|discriminate]. apply wp_bump_bind; [lia|].
  assert (H1 : T (X ++ seg n (n + 1)) (sepl [] (map mlex items) ++ [Lay ip; Tok (wstr key); Pun COLON])).
  { rewrite S1. eapply T_put; [exact HT|exact (T_pun _ COLON)|reflexivity|].
    rewrite <- app_assoc. reflexivity. }
  eapply (wp_ws_value _ false true (Some ind) (n + 1) _ _ _ ltac:(lia) ltac:(lia) H1).
  intros v w n2 L2 T2 W2. cbv beta iota zeta.
  assert (H2 : T (X ++ seg n n2) (sepl [] (map mlex (items ++ [(tt, ip, key, v)])) ++ wlex w)).
  { eapply T_eq; [exact T2| |].
    - rewrite <- app_assoc, seg_app by lia. reflexivity.
    - rewrite map_app. cbn [map]. rewrite sepl_nil_snoc. cbn [mlex app].
      rewrite <- !app_assoc. reflexivity. }
  eapply wp_bind; [apply (wp_or_ws w n2 _ _ ltac:(lia) H2)|]. intros p n3 (L3 & T3 & P3).
  rewrite <- app_assoc, seg_app in T3 by lia.
  assert (LY : lay_at p).
  { destruct w as [w|]; [destruct P3 as [-> _]; apply W2|].
    destruct P3 as (-> & P3 & _). apply lay_at_seg; [lia|exact P3]. }
  run. destruct (negb _).
  { apply wp_ret. split; [lia|]. split; [exact LY|exact T3]. }
  run. eapply wp_bind; [apply wp_next_mapping_key; lia|]. intros key' n4 (L4 & K4).
  destruct key' as [key'|].
  2:{ subst n4. apply wp_ret. split; [lia|]. split; [exact LY|exact T3]. }
  destruct K4 as [K4 K5].
  eapply wp_mono.
  { apply (IH _ n3 key' p n4 (X ++ seg n n4)); auto; try lia.
    rewrite K5. eapply T_put; [exact T3|exact (T_tok _ (seg n3 n4))| |].
    - rewrite <- app_assoc, seg_app by lia. reflexivity.
    - rewrite <- app_assoc. reflexivity. }
  intros [its w'] n5 (L5 & L6 & T5). split; [lia|]. split; [exact L6|].
  eapply T_eq; [exact T5| |reflexivity]. rewrite <- app_assoc, seg_app by lia. reflexivity.
Qed.
Lemma wp_mapping_or_nul a start key n : (start <= n <= len)%nat -> (len - start < S f)%nat ->
  lay_at (as_prefix a) -> as_inline a = false -> wstr key = seg start n ->
  wp (a_mapping_or_nul input value a start key) n (vpost a start).
Proof.
  intros L F LP NI K. unfold a_mapping_or_nul. destruct (match as_parent_indent a with Some _ => _ | _ => _ end).
  - run. apply wp_ret. split; [lia|]. cbn [fst snd tpre lexes wlex wscalar].
    split; [|split; [exact LP|congruence]].
    rewrite seg_nil, app_nil_r. cbn [app].
    apply (T_app input [] [Lay []; Tok []] (as_prefix a) [Lay (as_prefix a)]); [|apply T_lay, LP].
    apply (T_app input [] [Lay []] [] [Tok []]); [apply T_lay; constructor|apply T_tok].
  - eapply wp_bind.
    { apply (wp_map_loop _ _ [] start key [] n (seg start n)); try lia.
      - cbn. rewrite K. apply (T_app input [] [_]); [apply T_lay; constructor|apply T_tok].
      - apply lay_at_nil. }
    intros [its w] n' (L2 & LW & T2). apply wp_ret. split; [lia|]. cbn [fst snd tpre].
    split; [|split; [exact LW|congruence]].
    rewrite lexes_block_map. rewrite seg_app in T2 by lia.
    apply (T_app input (as_prefix a) [_]); [apply T_lay, LP|exact T2].
Qed.

Lemma wscalar_plain x : wscalar (a_plain x) = x.
Proof.
  unfold a_plain. destruct (beq x [TILDE]) eqn:E.
  - destruct x as [|c [|? ?]]; try discriminate; cbn in E; try (rewrite andb_false_r in E; discriminate).
    rewrite andb_true_r in E. apply N.eqb_eq in E. subst. reflexivity.
  - repeat destruct (eq_ignore_case _ _); reflexivity.
Qed.
Lemma vpost_leaf a n r w n' : (n <= n' <= len)%nat -> lay_at (as_prefix a) ->
  T (seg n n') (Tok (wscalar r) :: wlex w) ->
  match w with Some w => lay_at w /\ (as_inline a = true -> In PIPE input \/ In GT input) | None => True end ->
  vpost a n (TLeaf tt (as_prefix a) r, w) n'.
Proof.
  intros L LP H W. split; [lia|]. cbn [fst snd tpre lexes]. split; [|exact W].
  apply (T_app input (as_prefix a) [_]); [apply T_lay, LP|exact H].
Qed.
Lemma wp_value_body a n : (n <= len)%nat -> (len - n < S f)%nat -> lay_at (as_prefix a) ->
  wp (a_value_body input value a) n (vpost a n).
Proof.
  intros L F LP. unfold a_value_body. run.
  destruct (_ && _) eqn:C1.
  { apply andb_prop in C1 as [C1 NI]. apply andb_prop in C1 as [C1 _]. apply N.eqb_eq in C1.
    apply negb_true_iff in NI. now apply wp_sequence. }
  clear C1. destruct (N.eqb_spec (nth (n + 0) input EOF) DQUOTE) as [C2|_].
  { run. eapply wp_bind; [now apply wp_double_quoted|]. intros x n1 (L1 & K1 & K2). run.
    assert (W : wstr x = seg n n1) by (unfold wstr; now rewrite K1).
    destruct (negb (as_inline a) && _) eqn:C.
    - apply andb_prop in C as [NI _]. apply negb_true_iff in NI. apply wp_mapping_or_nul; auto; lia.
    - apply wp_ret, vpost_leaf; auto; [lia|]. cbn [wscalar]. rewrite W. apply T_tok. }
  destruct (N.eqb_spec (nth (n + 0) input EOF) SQUOTE) as [C2|_].
  { run. eapply wp_bind; [now apply wp_single_quoted|]. intros x n1 (L1 & K1 & K2). run.
    assert (W : wstr x = seg n n1) by (unfold wstr; now rewrite K1).
    destruct (negb (as_inline a) && _) eqn:C.
    - apply andb_prop in C as [NI _]. apply negb_true_iff in NI. apply wp_mapping_or_nul; auto; lia.
    - apply wp_ret, vpost_leaf; auto; [lia|]. cbn [wscalar]. rewrite W. apply T_tok. }
  destruct (N.eqb_spec (nth (n + 0) input EOF) LBRACK) as [C2|_].
  { eapply wp_bind; [now apply wp_inline_sequence|]. intros t n1 (L1 & T1). apply wp_ret.
    repeat split; cbn [fst snd wlex]; try lia. rewrite app_nil_r. exact T1. }
  destruct (N.eqb_spec (nth (n + 0) input EOF) LBRACE) as [C2|_].
  { eapply wp_bind; [now apply wp_inline_mapping|]. intros t n1 (L1 & T1). apply wp_ret.
    repeat split; cbn [fst snd wlex]; try lia. rewrite app_nil_r. exact T1. }
  destruct (_ || _) eqn:C3.
  { assert (HD : nth (n + 0) input EOF = PIPE \/ nth (n + 0) input EOF = GT).
    { apply orb_prop in C3 as [C3|C3]; apply N.eqb_eq in C3; auto. }
    assert (NZ : nth (n + 0) input EOF <> EOF) by (destruct HD as [->| ->]; discriminate).
    assert (IN : In PIPE input \/ In GT input).
    { destruct HD as [H|H]; [left|right]; eapply nth_in; eauto; discriminate. }
    pose proof (nth_byte n _ eq_refl NZ) as [L1 S1].
    eapply wp_bind.
    { apply wp_block with (n := n).
      - destruct ((nth (n + 1) input EOF =? DASH) || (nth (n + 1) input EOF =? PLUS)) eqn:C4; [|lia]. split; [lia|].
        assert (NZ2 : nth (n + 1) input EOF <> EOF)
          by (apply orb_prop in C4 as [C4|C4]; apply N.eqb_eq in C4; rewrite C4; discriminate).
        pose proof (nth_lt input (n + 1) _ eq_refl NZ2) as [L2 _]. lia.
      - destruct ((nth (n + 1) input EOF =? DASH) || (nth (n + 1) input EOF =? PLUS)) eqn:C4.
        + assert (NZ2 : nth (n + 1) input EOF <> EOF)
            by (apply orb_prop in C4 as [C4|C4]; apply N.eqb_eq in C4; rewrite C4; discriminate).
          pose proof (nth_lt input (n + 1) _ eq_refl NZ2) as [L2 S2].
          replace (n + 2)%nat with (S (n + 1)) by lia. rewrite <- (seg_app input n (n + 1)) by lia.
          rewrite S1, S2. cbn. intros [E|[E|[]]]; [rewrite E in HD; destruct HD; discriminate|].
          rewrite E in C4. discriminate.
        + rewrite S1. cbn. intros [E|[]]. rewrite E in HD; destruct HD; discriminate.
      - rewrite Nat.add_0_r in HD. exact HD. }
    intros [r w] n1 (L2 & T2 & W2). cbn [fst snd] in *. apply wp_ret, vpost_leaf; auto; [lia|].
    destruct w as [w|]; [|exact I]. auto. }
  run. eapply wp_bind; [apply wp_number; lia|]. intros num n1 (L1 & N1). destruct num as [r|].
  { apply wp_ret, vpost_leaf; auto. rewrite N1. apply T_tok. }
  destruct (as_inline a) eqn:NI.
  - run. pose proof (ctl_scan_le (skipn n1 input)) as K. rewrite skipn_length in K.
    apply wp_bump_bind; [lia|]. run. apply wp_ret, vpost_leaf; auto; [lia|].
    rewrite wscalar_plain. apply T_tok.
  - eapply wp_bind; [apply wp_key_or_eol; lia|]. intros key n2 (L2 & K2). destruct key as [key|].
    + destruct K2 as (K2 & K3 & _). apply wp_mapping_or_nul; auto; lia.
    + run. apply wp_ret, vpost_leaf; auto; [lia|]. rewrite wscalar_plain. apply T_tok.
Qed.
End Value.

Lemma wp_value f : forall a n, (n <= len)%nat -> (len - n < f)%nat -> lay_at (as_prefix a) ->
  wp (a_value input f a) n (vpost a n).
Proof.
  induction f as [|f IH]; intros a n L F LP; [lia|]. cbn [a_value].
  now apply (wp_value_body f).
Qed.

(* ---- documents ---- *)
(* What the parser accepts before a document: lines starting with a percent sign, then
   possibly a line of three dashes. *)
Inductive directives : bytes -> Prop :=
| dir_nil : directives []
| dir_line w s h : layout w -> ~ In NEWLINE s -> directives h -> directives (w ++ PERCENT :: s ++ h).
Definition header (h : bytes) : Prop :=
  directives h \/ exists g w, h = g ++ w ++ [DASH; DASH; DASH] /\ directives g /\ layout w.

Lemma directives_app w s h : directives h -> layout w -> ~ In NEWLINE s ->
  directives (h ++ w ++ PERCENT :: s).
Proof.
  intros H LW N. induction H as [|w' s' h' L' N' H' IH].
  - cbn. rewrite <- (app_nil_r s). now constructor; [..|constructor].
  - rewrite <- app_assoc. cbn. rewrite <- app_assoc. now constructor.
Qed.
Lemma wp_sod_loop f : forall m n, (m <= n <= len)%nat -> (len - n < f)%nat -> clean (seg m n) ->
  directives (seg 0 m) ->
  wp (a_sod_loop input f (seg m n)) n (fun p n' => (n <= n' <= len)%nat /\ lay_at p /\
    exists m', (m' <= n')%nat /\ p = seg m' n' /\ header (seg 0 m')).
Proof.
  induction f as [|f IH]; intros m n L F LY D; [lia|]. cbn [a_sod_loop]. run.
  destruct (N.eqb_spec (nth (n + 0) input EOF) PERCENT) as [EP|EP].
  - pose proof (nth_byte n _ EP ltac:(discriminate)) as [L1 S1]. eapply wp_bind.
    { apply (wp_find NEWLINE n (fun _ n' => (n <= n' <= len)%nat /\ ~ In NEWLINE (seg n n') /\ n <> n')); [lia|].
      intros n' H1 H2 H3. split; [lia|]. split; [exact H2|]. intros <-.
      rewrite Nat.add_0_r in EP. destruct H3 as [->|H3]; [lia|rewrite EP in H3; discriminate]. }
    intros _ n1 (L2 & N2 & NE). eapply wp_bind; [apply wp_ws; lia|].
    intros p n2 (L3 & E3 & LY3 & _). subst p.
    eapply wp_mono; [apply (IH n1 n2); auto; try lia|].
    + rewrite <- (seg_app input 0 m n1), <- (seg_app input m n n1), <- (seg_app input n (n + 1) n1), S1 by lia.
      apply directives_app; auto; [apply LY|]. intros I. apply N2.
      rewrite <- (seg_app input n (n + 1) n1) by lia. apply in_or_app. now right.
    + cbn. intros p n3 (H1 & H2 & m' & H3). split; [lia|]. split; [exact H2|]. exists m'. exact H3.
  - destruct (_ && _) eqn:ED.
    + apply andb_prop in ED as [ED E3]. apply andb_prop in ED as [E1 E2].
      apply N.eqb_eq in E1, E2, E3. rewrite Nat.add_0_r in E1.
      apply nth_lt in E1 as [L1 S1]; [|discriminate]. apply nth_lt in E2 as [L2 S2]; [|discriminate].
      apply nth_lt in E3 as [L3 S3]; [|discriminate].
      assert (S4 : seg n (n + 3) = [DASH; DASH; DASH]).
      { rewrite <- (seg_app input n (S n)), <- (seg_app input (S n) (n + 2)) by lia.
        rewrite S1. replace (S (n + 1)) with (n + 2)%nat in S2 by lia.
        replace (n + 1)%nat with (S n) in S2 by lia. rewrite S2.
        replace (S (n + 2)) with (n + 3)%nat in S3 by lia. rewrite S3. reflexivity. }
      apply wp_bump_bind; [lia|]. eapply wp_mono; [apply wp_ws; lia|].
      intros p n4 (L5 & E5 & LY5 & A5). subst p. split; [lia|]. split; [now apply lay_at_seg|].
      exists (n + 3)%nat. repeat split; try lia. right. exists (seg 0 m), (seg m n).
      rewrite <- S4, !seg_app by lia. split; [reflexivity|]. split; [exact D|apply LY].
    + apply wp_ret. split; [lia|]. split; [now apply lay_at_seg|]. exists m. repeat split; try lia.
      now left.
Qed.
Lemma wp_start_of_document :
  wp (a_start_of_document input) 0 (fun p n' => (n' <= len)%nat /\ lay_at p /\
    exists m', (m' <= n')%nat /\ p = seg m' n' /\ header (seg 0 m')).
Proof.
  unfold a_start_of_document. eapply wp_bind; [apply wp_ws; lia|].
  intros p n (L & E & LY & _). subst p.
  eapply wp_mono; [apply wp_sod_loop; try lia; auto|].
  - rewrite seg_nil. constructor.
  - cbn. intros p n' (H1 & H2 & H3). split; [lia|]. auto.
Qed.
Lemma wp_parse_m :
  wp (a_parse_m input) 0 (fun r n' => exists h body, input = h ++ body /\ header h /\
    T body (lexdoc (fst r) (snd r)) /\ lay_at (snd r)).
Proof.
  unfold a_parse_m. eapply wp_bind; [apply wp_start_of_document|].
  intros p n (L & LP & m & Lm & E & H). eapply wp_bind; [apply wp_value; [lia|lia|exact LP]|].
  intros [t w] n1 (L1 & T1 & W1). cbn [fst snd as_prefix] in *. rewrite app_comm_cons in T1.
  eapply wp_bind; [apply (wp_or_ws w n1 _ _ ltac:(lia) T1)|]. intros p2 n2 (L2 & T2 & P2).
  run. destruct (Nat.eqb_spec n2 len) as [E2|E2]; cbn [negb].
  - apply wp_ret. exists (seg 0 m), (seg m len). cbn [fst snd].
    split; [apply seg_split; lia|]. split; [exact H|]. split.
    + eapply T_eq; [exact T2| |reflexivity]. subst p n2. rewrite !seg_app by lia. reflexivity.
    + destruct w as [w|]; [destruct P2 as [-> _]; apply W1|].
      destruct P2 as (-> & P2 & _). apply lay_at_seg; [lia|exact P2].
  - run. apply wp_err. lia.
Qed.
Theorem parse_text :
  match a_parse input with
  | Ok (t, suffix) => exists h body, input = h ++ body /\ header h /\ T body (lexdoc t suffix)
  | Err x y _ => (x <= y <= len)%nat
  | Hang => quote_open
  | Panic | OutOfFuel => False
  end.
Proof.
  pose proof wp_parse_m as H. unfold wp in H. unfold a_parse.
  destruct (a_parse_m input O) as [[[t s] n]|x y e| | |]; auto.
  destruct H as (h & body & H1 & H2 & H3 & _). eauto.
Qed.
End Text.
