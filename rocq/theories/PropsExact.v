(* C16 and C17: exactly which strings read back once they are written. *)
From Coq Require Import String.
From Coq Require Import List NArith ZArith Bool Arith Lia.
From Verif Require Import Bytes Utf8 Data Parser Render Tree Abs Refine Utf8Props Scan Num Api Ctx Edit Built Reads ReadsSound
  Shown Plain Grammar Laid GrammarSound Tests Refuted PropsParse PropsEdit PropsValue PropsScalar PropsScalar2 Exact EscByte Slashes.
Import ListNotations.
Local Open Scope N_scope.
Local Notation text := Utf8Props.text.

(* ---- C16 ---- *)
Lemma double_only hash s doc' : from_slice hash (esc_double s) = Ok doc' -> no_collision hash (doc_data doc') ->
  as_bstr (doc_data doc') (doc_root doc') = Ok (Some s) -> ~ In DQUOTE s /\ ~ In BACKSLASH s.
Proof.
  intros F N A. destruct (root_shows hash _ _ F N) as (t & suf & P & S). pose proof (shows_string _ _ _ _ S A) as T.
  destruct (quoted_root _ (flat_map esc_double_byte s ++ [DQUOTE]) t suf eq_refl P s T) as (y & q & E & D & ST).
  destruct (dq_counts (slashes s) s (le_n _) [] y s q E D ST) as (_ & _ & C3 & C4).
  destruct (Nat.eq_dec (slashes s) 0) as [Z|Z]; [|exfalso; specialize (C3 Z); lia].
  split; [now apply C4|]. intros I. apply slashes_in in I. contradiction.
Qed.
(* A string written in double quotes reads back exactly if it has no double quote and no
   backslash: the crate does not escape the backslash, and does not understand the escaped
   quote that it writes. *)
Theorem C16_exact : forall hash doc id s r d' out,
  built hash doc -> value_of doc id -> no_collision hash d' ->
  run hash id (SetStringWith s SDouble) (doc_data doc) = Ok (r, d') -> value_write_to d' id = Ok out ->
  (~ In DQUOTE s /\ ~ In BACKSLASH s -> exists doc', from_slice hash out = Ok doc') /\
  forall doc', from_slice hash out = Ok doc' -> no_collision hash (doc_data doc') ->
    (as_bstr (doc_data doc') (doc_root doc') = Ok (Some s) <-> ~ In DQUOTE s /\ ~ In BACKSLASH s).
Proof.
  intros hash doc id s r d' out B V N E W.
  assert (R : ~ In DQUOTE s /\ ~ In BACKSLASH s -> exists doc', from_slice hash out = Ok doc' /\
    (no_collision hash (doc_data doc') -> as_bstr (doc_data doc') (doc_root doc') = Ok (Some s) /\ write_to doc' = Ok out)).
  { intros [N1 N2]. now apply (C16_double_quotes_partial hash doc id s r d' out). }
  rewrite (set_string_writes _ _ _ _ _ _ _ B V N E) in W. injection W as <-. split.
  - intros H. destruct (R H) as (doc' & F & _). eauto.
  - intros doc' F NC. split; [intros A; now apply (double_only hash s doc')|].
    intros H. destruct (R H) as (doc2 & F2 & G). rewrite F in F2. injection F2 as <-. now apply G.
Qed.
Print Assumptions C16_exact.

(* ---- C17 ---- *)
(* The one string that reads back although a dash starts a sequence item. *)
Definition survives (s : bytes) : Prop := settable s \/ s = b "-".
Lemma bare_only hash s doc' : ~ wants_double s -> ~ wants_single s -> from_slice hash s = Ok doc' -> no_collision hash (doc_data doc') ->
  as_bstr (doc_data doc') (doc_root doc') = Ok (Some s) -> bare_reads s \/ s = b "-".
Proof.
  intros WD WS F N A. destruct (root_shows hash _ _ F N) as (t & suf & P & S). pose proof (shows_string _ _ _ _ S A) as T.
  assert (NL : ~ In NEWLINE s) by (intros I; apply WD; right; left; exists NEWLINE; split; [exact I|left; reflexivity]).
  assert (NQ : ~ In SQUOTE s) by (intros I; apply WD; now left).
  assert (C : (s = [] \/ plain_start s) /\ doc_start s \/ s = b "-").
  { destruct (shows_itself s NL NQ t suf P T) as [->|(H1 & H2 & [H3 H4] & H5)].
    - left. split; [now left|]. split; intros (r & X); discriminate.
    - destruct s as [|c s]; [left; split; [now left|split; intros (r & X); discriminate]|]. cbn [hd] in *.
      assert (DS : doc_start (c :: s)).
      { split; intros (r & X); injection X as -> X; [now elim H3|]. subst s. now elim H4. }
      destruct (N.eq_dec c DASH) as [->|ND].
      + destruct s as [|c' s]; [now right|]. left. split; [right|exact DS]. exists DASH, (c' :: s). split; [reflexivity|]. split; [exact H2|].
        split; [exact H1|]. intros _. exists c', s. split; [reflexivity|]. intros X. now apply H5.
      + left. split; [right|exact DS]. exists c, s. split; [reflexivity|]. split; [exact H2|]. split; [exact H1|]. intros X. now elim ND. }
  destruct C as [[PS DS]|C]; [left|now right].
  assert (PD : plain_doc s []).
  { split; [exact PS|]. split; [|split; [exact DS|split; [now left|constructor]]]. split; [exact NL|].
    intros a c ->. exfalso. apply WS. left. apply in_or_app. right. now left. }
  destruct (C18_plain_line hash s [] PD) as (doc2 & F2 & G). rewrite app_nil_r in *. rewrite F in F2. injection F2 as <-.
  destruct (G N) as (_ & _ & _ & _ & _ & G5). cbn zeta in G5. destruct (G5 s) as [G6 _].
  rewrite T in S. inversion S as [| | |? ? AA| |]; subst. specialize (G6 AA). unfold bare_reads. tauto.
Qed.
Lemma dash_reads hash : reads_as_datum hash (b "-") (DStr (b "-")).
Proof.
  change (b "-") with (wscalar (ScStr (RS KBare (b "-") (b "-"))) ++ []) at 1. apply scalar_doc.
  - reflexivity.
  - change (ScStr (RS KBare (b "-") (b "-"))) with (a_plain (b "-")). apply L_plain; reflexivity.
  - now apply cut_nil.
  - split; cbn; [discriminate|intros (_ & X & _); discriminate].
  - constructor.
Qed.
(* set_string picks the quotes by itself. The strings that it leaves in a form that reads back
   are exactly these. *)
Theorem C17_exact : forall hash doc id s r d' out,
  built hash doc -> value_of doc id -> no_collision hash d' -> utf8 s = true ->
  run hash id (SetString s) (doc_data doc) = Ok (r, d') -> value_write_to d' id = Ok out ->
  (survives s -> exists doc', from_slice hash out = Ok doc') /\
  forall doc', from_slice hash out = Ok doc' -> no_collision hash (doc_data doc') ->
    (as_bstr (doc_data doc') (doc_root doc') = Ok (Some s) <-> survives s).
Proof.
  intros hash doc id s r d' out B V N U E W. pose proof (proj1 (utf8_text s) U) as T.
  assert (WE : value_write_to d' id = Ok (wscalar (ScStr (RS (detect s) s s)))).
  { destruct (edit_setup _ _ _ _ _ _ _ _ B V E N) as (c & v & v' & suf & ST).
    pose proof (st_eff ST) as F. rewrite <- (st_id' ST). rewrite (st_vw' ST v' (sub_plug c v')). f_equal.
    apply set_effect in F as (sc & A & _ & ->); [|exact Logic.I]. cbn in A. injection A as <-. reflexivity. }
  assert (R : survives s -> exists doc', from_slice hash out = Ok doc' /\
    (no_collision hash (doc_data doc') -> as_bstr (doc_data doc') (doc_root doc') = Ok (Some s) /\ write_to doc' = Ok out)).
  { intros [H| ->]; [now apply (C17_set_string_partial hash doc id s r d' out)|].
    rewrite WE in W. injection W as <-. destruct (dash_reads hash) as (doc' & F & G). exists doc'. split; [exact F|]. intros NC.
    destruct (G NC) as [S P]. split; [|exact P]. inversion S as [| | |? ? A| |]; subst. exact (proj1 (proj2 (any_accessors _ _ _ A ltac:(discriminate)))). }
  split.
  - intros H. destruct (R H) as (doc' & F & _). eauto.
  - intros doc' F NC. split.
    2: { intros H. destruct (R H) as (doc2 & F2 & G). rewrite F in F2. injection F2 as <-. now apply G. }
    intros A. rewrite WE in W. injection W as <-. unfold survives, settable. clear WE R.
    destruct (detect_spec s T) as [[D WD]|[(D & WD & WS)|(D & WD & WS)]]; rewrite D in F; cbn [wscalar rs_kind] in F.
    + left. left. split; [exact WD|]. now apply (double_only hash s doc').
    + left. right. auto.
    + destruct (bare_only hash s doc' WD WS F NC A) as [H|H]; auto.
Qed.
Print Assumptions C17_exact.
Example C16_exact_case :
  Forall (fun s => reread (b "a: 1") SDouble s = Some (Some s)) [b "it's: # {a" ++ [NEWLINE; 0; 31; 127; 255]; []] /\
  Forall (fun s => reread (b "a: 1") SDouble s <> Some (Some s)) [b "\"; b "\x5c"; b "a\\b"; b "a""b"; b "\\\x5c"].
Proof. split; repeat constructor; vm_compute; discriminate || reflexivity. Qed.
Example C17_exact_case :
  Forall (fun s => survives s /\ reread_auto s = Some (Some s)) [b "-"; []; b "true"] /\
  Forall (fun s => utf8 s = true /\ reread_auto s <> Some (Some s))
    [b "~"; b "-5"; b "# x"; b " x"; b "- a"; b "[a"; b "{a"; b "|"; b """"; b "%"; b "---a"; b "it's \"; b "NULL"; b "> a"].
Proof.
  split.
  - repeat (apply Forall_cons; [split; [|vm_compute; reflexivity]|]); [..|apply Forall_nil].
    + now right.
    + left. right. split.
      { intros [[]|[(c & [] & _)|([|] & c & r & X & _)]]; discriminate. }
      right. split; [now left|]. split; [split; intros (r & X); discriminate|]. split; [discriminate|].
      assert (SP : forall k kw, ~ spelled [] (k :: kw)) by (intros k kw X; inversion X).
      split; [apply SP|]. split; [apply SP|]. split; [apply SP|].
      intros y h (bl & X & _ & Y). destruct (number_hd _ _ Y) as (c & r & -> & _). discriminate.
    + left. right. split; [|left; right; right; now left].
      intros [X|[(c & X & R)|(a & c & r & X & R)]].
      * cbn in X. intuition discriminate.
      * cbn in X. decompose [or] X; subst; try contradiction; destruct R as [R|R]; try discriminate; lia.
      * assert (I : In 194 (b "true")) by (rewrite X; apply in_or_app; right; now left). cbn in I. intuition discriminate.
  - repeat constructor; vm_compute; discriminate || reflexivity.
Qed.
