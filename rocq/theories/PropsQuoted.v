(* Exactly which texts are a double-quoted string, and which string they are: the rest of C19. *)
From Coq Require Import String.
From Coq Require Import List NArith ZArith Bool Arith Lia.
From Verif Require Import Bytes Utf8 Data Parser Render Tree Abs Refine Utf8Props Scan Num Api Ctx Edit Built Reads ReadsSound
  Shown Plain Grammar Laid GrammarSound Tests PropsParse Valid Lexed Means Places MeansSound PropsMeans.
Import ListNotations.
Local Open Scope N_scope.

Lemma layout_gap text j : (j <= length text)%nat -> layout (skipn j text) <-> gap_to text j (length text).
Proof.
  intros L. destruct (scan_gap_f text (length text - j) j L (le_n _)) as [G _]. split.
  - intros Y. apply layout_end in Y. unfold cut in Y. rewrite app_nil_r, skipn_length in Y.
    rewrite Y in G. now replace (j + (length text - j))%nat with (length text) in G by lia.
  - intros G'. pose proof (gap_det text _ _ G _ G') as D. destruct (ws_scan false (skipn j text)) as [k nl] eqn:E. cbn [fst] in D.
    apply ws_scan_spec in E as (_ & Y & _). rewrite firstn_all2 in Y by (rewrite skipn_length; lia). exact Y.
Qed.
(* Behind an opening double quote: the string with escapes, the closing quote, and layout. An
   escaped backslash is a double quote, and there is no escaped double quote; the closing
   quote may be missing at the end, and a NUL stands for one. *)
Definition double_quoted_text (r v : bytes) : Prop := exists y e post, r = y ++ e ++ post /\ dq_shown y v /\
  (e = b """" \/ e = [0] \/ e = [] /\ post = []) /\ layout post.
Lemma quoted_stands r v : double_quoted_text r v <-> stands_for (b """" ++ r) (DStr v).
Proof.
  set (text := b """" ++ r). assert (A0 : nth 0 text 0 = DQUOTE) by reflexivity. split.
  - intros (y & e & post & -> & D & E & L). set (j := length (b """" ++ y ++ e)).
    assert (T : text = (b """" ++ y ++ e) ++ post) by (unfold text; now rewrite <- !app_assoc).
    assert (LJ : (j <= length text)%nat) by (rewrite T, app_length; unfold j; lia).
    assert (SK : skipn j text = post) by (unfold j; rewrite T, skipn_app, skipn_all, Nat.sub_diag; reflexivity).
    assert (P : slice text 0 j = b """" ++ y ++ e).
    { rewrite seg_eq by lia. rewrite Nat.sub_0_r. cbn [skipn]. unfold j. rewrite T, firstn_app, firstn_all, Nat.sub_diag. cbn [firstn]. now rewrite app_nil_r. }
    exists 0%nat, 0%nat, j. split; [|split; [|split]].
    + apply ga_none; [lia|rewrite A0; cbn; intuition discriminate|rewrite A0; discriminate].
    + apply hd_none; rewrite ?A0; [discriminate|]. intros [Q _]. discriminate.
    + apply me_quote.
      * apply (qa_double text 0 v j y e); [lia|exact P|exact D|]. destruct E as [E|[E|[E F]]]; auto. right; right. split; [exact E|].
        unfold j. rewrite T, F, app_nil_r. reflexivity.
      * right. rewrite (at_hd text), SK. apply layout_hd; [exact L|..]; cbn; intuition discriminate.
    + apply layout_gap; [exact LJ|]. now rewrite SK.
  - intros (n & i & j & G & H & M & GE).
    assert (n = 0%nat) as ->. { inversion G as [? ? ? ?|? ? W|? ? ? W]; subst; [reflexivity|rewrite A0 in W; cbn in W; intuition discriminate|rewrite A0 in W; discriminate]. }
    assert (i = 0%nat) as ->. { inversion H as [|? ? ? ? W|? ? W]; subst; [reflexivity|rewrite A0 in W; discriminate|rewrite A0 in W; discriminate]. }
    assert (Q : quote_at text 0 v j).
    { inversion M as [? ? ? ? ? Q _|? ? ? ? ? NU|? ? ? ? ? NW _ _ _|? ? ? ? B| | | |]; subst; [exact Q| |].
      - elim NW. left. rewrite A0. cbn. auto.
      - apply block_char in B. rewrite A0 in B. destruct B; discriminate. }
    destruct Q as [y LJ P _ _|y e LJ P D E].
    + exfalso. rewrite part_at in P.
      * rewrite A0 in P. discriminate P.
      * split; [|lia]. destruct j; [|lia]. rewrite seg_nil in P. discriminate.
    + exists y, e, (skipn j text). pose proof (split3 text 0 j ltac:(lia)) as (T & _). cbn [firstn app] in T. rewrite P in T.
      split; [|split; [exact D|split]].
      * unfold text in T at 1. rewrite <- !app_assoc in T. cbn [b of_string app] in T. injection T as T. exact T.
      * destruct E as [E|[E|[E F]]]; auto. right; right. split; [exact E|]. rewrite F. apply skipn_all.
      * apply layout_gap; [lia|exact GE].
Qed.
Theorem C19_exact : forall hash r,
  (forall v, double_quoted_text r v -> exists doc, from_slice hash (b """" ++ r) = Ok doc) /\
  forall doc, from_slice hash (b """" ++ r) = Ok doc -> no_collision hash (doc_data doc) ->
    forall v, as_any (doc_data doc) (doc_root doc) = Ok (AString v) <-> double_quoted_text r v.
Proof.
  intros hash r. destruct (C47_exact hash (b """" ++ r)) as [A S]. split.
  - intros v D. apply A. exists (DStr v). now apply quoted_stands.
  - intros doc F N v. rewrite quoted_stands, <- (S doc F N). split.
    + intros Q. now apply sh_str.
    + intros Q. now inversion Q.
Qed.
Print Assumptions C19_exact.
Example C19_exact_case : double_quoted_text (b "a\\b\n"" ") (b "a""b" ++ [10]) /\
  at_path (load (b """a\\b\n"" ")) [] as_any = Some (AString (b "a""b" ++ [10])) /\
  ~ (exists v, double_quoted_text (b "a\"" b""") v) /\ load (b """a\"" b""") = Err 2 4 BadEscape.
Proof.
  split; [|split; [vm_compute; reflexivity|split; [|vm_compute; reflexivity]]].
  - exists (b "a\\b\n"), (b """"), (b " "). split; [reflexivity|]. split; [|split; [now left|]].
    + apply ds_byte; [cbn; intuition discriminate|discriminate|]. apply (ds_slash (b "b\n") (b "b" ++ [10])). apply ds_byte; [cbn; intuition discriminate|discriminate|].
      apply (ds_esc (b "n") [10] [] []); [constructor|constructor].
    + apply lay_ws; [cbn; auto 10|constructor].
  - intros (v & D). destruct (proj1 (C19_exact idhash (b "a\"" b""")) v D) as (doc & F). vm_compute in F. discriminate.
Qed.
