(* Facts about UTF-8. *)
From Coq Require Import List NArith Bool Arith Lia.
From Verif Require Import Bytes Utf8.
Import ListNotations.
Local Open Scope N_scope.

(* The encoding of one char. *)
Definition uchar (ch : bytes) : Prop :=
  match ch with [] => False | c :: r => decode1 c r = (true, length ch) end.
(* Well-formed text: a sequence of chars. *)
Inductive text : bytes -> Prop :=
| text_nil : text []
| text_char ch s : uchar ch -> text s -> text (ch ++ s).

Ltac d1 := unfold decode1; repeat (match goal with
  | |- context [if ?c then _ else _] => destruct c eqn:?
  | |- context [match lead ?c with _ => _ end] => destruct (lead c) as [[[? ?] ?]|] eqn:?
  | |- context [match ?l with [] => _ | _ :: _ => _ end] => is_var l; destruct l
  end; cbn [fst snd]).

Lemma decode1_len c r : let '(ok, n) := decode1 c r in
  (1 <= n <= S (length r))%nat.
Proof. d1; cbn; lia. Qed.
Lemma decode1_ok c r n : decode1 c r = (true, n) ->
  forall x, decode1 c (firstn (n - 1) r ++ x) = (true, n).
Proof.
  unfold decode1. destruct (c <? 128).
  { intros H; injection H as <-. reflexivity. }
  destruct (lead c) as [[[k lo] hi]|]; [|discriminate].
  destruct r as [|c1 r]; [discriminate|].
  destruct (between lo hi c1) eqn:B1; cbn [negb]; [|discriminate].
  destruct (k =? 2)%nat eqn:K2.
  { intros H; injection H as <-. intros x. cbn. now rewrite B1. }
  destruct r as [|c2 r]; [discriminate|].
  destruct (is_cont c2) eqn:B2; cbn [negb]; [|discriminate].
  destruct (k =? 3)%nat eqn:K3.
  { intros H; injection H as <-. intros x. cbn. now rewrite B1, B2. }
  destruct r as [|c3 r]; [discriminate|].
  destruct (is_cont c3) eqn:B3; cbn [negb]; [|discriminate].
  intros H; injection H as <-. intros x. cbn. now rewrite B1, B2, B3.
Qed.
Lemma uchar_ext c ch x : uchar (c :: ch) -> decode1 c (ch ++ x) = (true, S (length ch)).
Proof.
  unfold uchar. intros H. pose proof (decode1_ok _ _ _ H x) as E. cbn in E.
  rewrite Nat.sub_0_r, firstn_all in E. exact E.
Qed.

Lemma text_utf8_f s : text s -> forall f, (length s <= f)%nat -> utf8_f f s = true.
Proof.
  induction 1 as [|ch s H T IH]; intros f L; [destruct f; reflexivity|].
  destruct ch as [|c ch]; [contradiction|]. cbn in L. rewrite app_length in L.
  destruct f as [|f]; [lia|]. cbn [app utf8_f].
  rewrite (uchar_ext c ch s H). cbn [andb]. change (c :: ch ++ s) with ((c :: ch) ++ s).
  rewrite skipn_app, skipn_all2 by (cbn; lia). replace (S (length ch) - length (c :: ch))%nat with O by (cbn; lia).
  cbn. apply IH. lia.
Qed.
Lemma utf8_f_text f : forall s, utf8_f f s = true -> text s.
Proof.
  induction f as [|f IH]; intros s H; destruct s as [|c r]; try constructor; try discriminate.
  cbn [utf8_f] in H. pose proof (decode1_len c r) as L. destruct (decode1 c r) as [ok n] eqn:E.
  destruct ok; [|discriminate]. cbn [andb] in H. apply IH in H.
  rewrite <- (firstn_skipn n (c :: r)). constructor; [|exact H].
  destruct n as [|n]; [lia|]. cbn [firstn uchar].
  pose proof (decode1_ok _ _ _ E []) as K. rewrite app_nil_r in K. cbn in K. rewrite Nat.sub_0_r in K.
  rewrite K. cbn. rewrite firstn_length. do 2 f_equal. lia.
Qed.
Lemma utf8_text s : utf8 s = true <-> text s.
Proof. split; [apply utf8_f_text|]. intros H. now apply text_utf8_f. Qed.

Lemma text_app a c : text a -> text c -> text (a ++ c).
Proof. induction 1; cbn; auto. intros. rewrite <- app_assoc. constructor; auto. Qed.
Lemma utf8_app a c : utf8 a = true -> utf8 c = true -> utf8 (a ++ c) = true.
Proof. rewrite !utf8_text. apply text_app. Qed.

Lemma uchar_prefix a c x y : uchar a -> uchar c -> a ++ x = c ++ y -> a = c.
Proof.
  intros A C E. destruct a as [|a0 a]; [contradiction|]. destruct c as [|c0 c]; [contradiction|].
  injection E as -> E. pose proof (uchar_ext _ _ x A) as H1. pose proof (uchar_ext _ _ y C) as H2.
  rewrite E, H2 in H1. injection H1 as L. f_equal. clear - E L. revert c E L.
  induction a as [|a0 a IH]; intros [|c0 c] E L; try discriminate; auto.
  injection E as -> E. injection L as L. f_equal. auto.
Qed.
Lemma text_cons_inv ch s : uchar ch -> text (ch ++ s) -> text s.
Proof.
  intros U H. inversion H as [E|ch' s' U' T' E].
  - destruct ch; [contradiction|discriminate].
  - assert (ch' = ch) by (eapply uchar_prefix; eauto). subst ch'. apply app_inv_head in E. now subst.
Qed.
Lemma text_app_inv a c : text a -> text (a ++ c) -> text c.
Proof.
  induction 1; intros T; [exact T|]. rewrite <- app_assoc in T. apply text_cons_inv in T; auto.
Qed.
Lemma utf8_app_inv a c : utf8 a = true -> utf8 (a ++ c) = true -> utf8 c = true.
Proof. rewrite !utf8_text. apply text_app_inv. Qed.

Lemma uchar_cont c ch : uchar (c :: ch) -> is_cont c = false /\ Forall (fun x => is_cont x = true) ch /\
  (length ch <= 3)%nat /\ (ch = [] -> c < 128) /\ (ch <> [] -> 128 <= c).
Proof.
  unfold uchar, decode1. destruct (N.ltb_spec c 128) as [L|L].
  { intros H. injection H as H. destruct ch; [|discriminate]. repeat split; auto; try congruence; try (cbn; lia).
    unfold is_cont, between. apply andb_false_iff. left. apply N.leb_gt. lia. }
  destruct (lead c) as [[[k lo] hi]|] eqn:LD; [|discriminate].
  assert (NC : is_cont c = false /\ 128 <= lo /\ hi <= 191).
  { revert LD. unfold lead, is_cont, between.
    repeat match goal with |- context [if ?b then _ else _] =>
      lazymatch b with (_ && _)%bool => destruct b eqn:? | _ => destruct b eqn:? end end;
    intros H; inversion H; subst; clear H;
    repeat match goal with
      | H : _ && _ = true |- _ => apply andb_prop in H as [? ?]
      | H : (_ =? _) = true |- _ => apply N.eqb_eq in H
      | H : (_ <=? _) = true |- _ => apply N.leb_le in H
    end; (split; [apply andb_false_iff; right; apply N.leb_gt; lia|lia]). }
  destruct NC as (NC & Lo & Hi).
  assert (Cn : forall x, between lo hi x = true -> is_cont x = true).
  { intros x. unfold is_cont, between. rewrite !andb_true_iff, !N.leb_le. lia. }
  destruct ch as [|c1 r]; [discriminate|].
  destruct (between lo hi c1) eqn:B1; cbn [negb]; [|discriminate].
  destruct (k =? 2)%nat eqn:K2.
  { intros H; injection H as H. destruct r; [|discriminate]. repeat split; auto; try (cbn; lia); try discriminate. }
  destruct r as [|c2 r]; [discriminate|].
  destruct (is_cont c2) eqn:B2; cbn [negb]; [|discriminate].
  destruct (k =? 3)%nat eqn:K3.
  { intros H; injection H as H. destruct r; [|discriminate]. repeat split; auto; try (cbn; lia); try discriminate. }
  destruct r as [|c3 r]; [discriminate|].
  destruct (is_cont c3) eqn:B3; cbn [negb]; [|discriminate].
  intros H; injection H as H. destruct r; [|discriminate]. repeat split; auto 6; try (cbn; lia); try discriminate.
Qed.

(* A byte that is not a continuation byte starts a char. *)
Lemma text_split a c r : is_cont c = false -> text (a ++ c :: r) -> text a /\ text (c :: r).
Proof.
  intros NC H. remember (a ++ c :: r) as s eqn:E. revert a E.
  induction H as [|ch s U T IH]; intros a E; [destruct a; discriminate|].
  destruct (Nat.le_gt_cases (length ch) (length a)) as [L|G].
  - assert (exists a', a = ch ++ a').
    { exists (skipn (length ch) a). rewrite <- (firstn_skipn (length ch) a) at 1. f_equal.
      assert (H : firstn (length ch) (ch ++ s) = firstn (length ch) (a ++ c :: r)) by now rewrite E.
      rewrite !firstn_app, firstn_all, Nat.sub_diag, firstn_O, app_nil_r in H.
      replace (length ch - length a)%nat with O in H by lia. rewrite firstn_O, app_nil_r in H. congruence. }
    destruct H as [a' ->]. rewrite <- app_assoc in E. apply app_inv_head in E.
    destruct (IH a' E). split; auto. now constructor.
  - destruct a as [|a0 a].
    + cbn in E. split; [constructor|]. rewrite <- E. now constructor.
    + exfalso. destruct ch as [|c0 ch]; [contradiction|]. apply uchar_cont in U as (_ & F & _).
      injection E as -> E. cbn in G.
      assert (I : In c ch).
      { assert (H : nth_error (ch ++ s) (length a) = nth_error (a ++ c :: r) (length a)) by now rewrite E.
        rewrite nth_error_app1 in H by lia. rewrite nth_error_app2, Nat.sub_diag in H by lia.
        cbn in H. eapply nth_error_In; eauto. }
      rewrite Forall_forall in F. apply F in I. congruence.
Qed.
Lemma text_head c r : text (c :: r) -> is_cont c = false.
Proof.
  intros H. inversion H as [|ch s U T E]. destruct ch as [|c0 ch]; [contradiction|].
  injection E as -> _. now apply uchar_cont in U.
Qed.
Lemma text_app_l a c : text (a ++ c) -> text c -> text a.
Proof.
  intros H1 H2. destruct c as [|c r]; [now rewrite app_nil_r in H1|].
  apply text_head in H2. now apply text_split in H1.
Qed.
Lemma ascii_not_cont c : c < 128 -> is_cont c = false.
Proof. intros H. unfold is_cont, between. apply andb_false_iff. left. apply N.leb_gt. exact H. Qed.
Lemma ascii_uchar c : c < 128 -> uchar [c].
Proof. intros H. unfold uchar, decode1. apply N.ltb_lt in H. now rewrite H. Qed.
Lemma text_ascii c s : c < 128 -> (text (c :: s) <-> text s).
Proof.
  intros H. split; intros T.
  - change (c :: s) with ([c] ++ s) in T. apply text_cons_inv in T; auto. now apply ascii_uchar.
  - change (c :: s) with ([c] ++ s). constructor; auto. now apply ascii_uchar.
Qed.
Lemma text_ascii_all s : Forall (fun c => c < 128) s -> text s.
Proof. induction 1; [constructor|]. now apply text_ascii. Qed.

(* ---- lossy ---- *)
Lemma chars_char ch s : uchar ch -> chars (ch ++ s) = ch :: chars s.
Proof.
  intros U. destruct ch as [|c ch]; [contradiction|]. unfold chars. cbn [app length chars_f].
  rewrite (uchar_ext _ _ s U).
  change (c :: ch ++ s) with ((c :: ch) ++ s).
  change (S (length ch)) with (length (c :: ch)).
  rewrite firstn_app, firstn_all, Nat.sub_diag, firstn_O, app_nil_r. f_equal.
  rewrite skipn_app, skipn_all, Nat.sub_diag. cbn [skipn app].
  rewrite app_length.
  assert (G : forall f1 f2 s, (length s <= f1)%nat -> (length s <= f2)%nat -> chars_f f1 s = chars_f f2 s).
  { clear. induction f1 as [|f1 IH]; intros f2 s L1 L2.
    - destruct s; [|cbn in L1; lia]. destruct f2; reflexivity.
    - destruct f2 as [|f2]; [destruct s; [reflexivity|cbn in L2; lia]|].
      destruct s as [|c r]; [reflexivity|]. cbn [chars_f]. pose proof (decode1_len c r) as D.
      destruct (decode1 c r) as [ok n]. cbn in L1, L2. f_equal. apply IH; rewrite skipn_length; cbn [length]; lia. }
  apply G; lia.
Qed.
Lemma lossy_char ch s : uchar ch -> lossy (ch ++ s) = ch ++ lossy s.
Proof. intros U. unfold lossy. now rewrite chars_char. Qed.
Lemma lossy_text_app a s : text a -> lossy (a ++ s) = a ++ lossy s.
Proof.
  induction 1 as [|ch a U T IH]; [reflexivity|]. rewrite <- !app_assoc. rewrite lossy_char by exact U.
  now rewrite IH.
Qed.
Lemma lossy_text s : text s -> lossy s = s.
Proof. intros H. rewrite <- (app_nil_r s) at 1. rewrite lossy_text_app by exact H. apply app_nil_r. Qed.
Lemma lossy_utf8 s : utf8 s = true -> lossy s = s.
Proof. rewrite utf8_text. apply lossy_text. Qed.
Lemma text_lossy s : text (lossy s).
Proof.
  unfold lossy, chars. generalize (length s). intros f. revert s.
  induction f as [|f IH]; intros s; cbn; [constructor|]. destruct s as [|c r]; cbn; [constructor|].
  pose proof (decode1_len c r) as L.
  destruct (decode1 c r) as [ok n] eqn:E. cbn. destruct n as [|n]; [lia|]. constructor; auto.
  destruct ok; [|reflexivity]. cbn [uchar firstn].
  pose proof (decode1_ok _ _ _ E []) as K. rewrite app_nil_r in K. cbn in K. rewrite Nat.sub_0_r in K.
  rewrite K. cbn. rewrite firstn_length. do 2 f_equal. lia.
Qed.
Lemma utf8_lossy s : utf8 (lossy s) = true.
Proof. apply utf8_text, text_lossy. Qed.
Lemma lossy_fix s : lossy s = s <-> utf8 s = true.
Proof. split; [intros <-; apply utf8_lossy|apply lossy_utf8]. Qed.

(* ---- encoding ---- *)
Lemma between_true lo hi c : lo <= c -> c <= hi -> between lo hi c = true.
Proof. intros. unfold between. apply andb_true_iff. split; apply N.leb_le; assumption. Qed.
Lemma between_false lo hi c : c < lo \/ hi < c -> between lo hi c = false.
Proof. intros. unfold between. apply andb_false_iff. rewrite !N.leb_gt. lia. Qed.
Ltac btw := repeat first [ rewrite between_true by lia | rewrite between_false by lia
  | match goal with |- context [?x =? ?y] => rewrite (proj2 (N.eqb_neq x y)) by lia end ].
Lemma uchar_2 a c : 194 <= a <= 223 -> is_cont c = true -> uchar [a; c].
Proof.
  intros A C. unfold uchar, decode1. rewrite (proj2 (N.ltb_ge a 128)) by lia.
  unfold lead. rewrite between_true by lia. unfold is_cont in C. now rewrite C.
Qed.
Lemma uchar_3 a c d : 224 <= a <= 239 -> is_cont c = true -> is_cont d = true ->
  (a = 224 -> 160 <= c) -> (a = 237 -> c <= 159) -> uchar [a; c; d].
Proof.
  intros A C D H1 H2. unfold uchar, decode1. rewrite (proj2 (N.ltb_ge a 128)) by lia.
  unfold is_cont, between in C. apply andb_prop in C as [C1 C2]. apply N.leb_le in C1, C2.
  unfold lead. rewrite between_false by lia.
  destruct (N.eqb_spec a 224) as [->|NE].
  { cbn [negb Nat.eqb]. rewrite between_true by (try lia; auto). cbn [negb Nat.eqb]. now rewrite D. }
  destruct (between 225 236 a) eqn:B.
  { rewrite between_true by lia. cbn [negb Nat.eqb]. now rewrite D. }
  destruct (N.eqb_spec a 237) as [->|NE2].
  { rewrite between_true by (try lia; auto). cbn [negb Nat.eqb]. now rewrite D. }
  unfold between in B. apply andb_false_iff in B. rewrite !N.leb_gt in B.
  rewrite (between_true 238 239) by lia. rewrite between_true by lia. cbn [negb Nat.eqb]. now rewrite D.
Qed.
Lemma uchar_4 a c d e : 240 <= a <= 244 -> is_cont c = true -> is_cont d = true -> is_cont e = true ->
  (a = 240 -> 144 <= c) -> (a = 244 -> c <= 143) -> uchar [a; c; d; e].
Proof.
  intros A C D E H1 H2. unfold uchar, decode1. rewrite (proj2 (N.ltb_ge a 128)) by lia.
  unfold is_cont, between in C. apply andb_prop in C as [C1 C2]. apply N.leb_le in C1, C2.
  unfold lead. rewrite (between_false 194 223), (between_false 225 236), (between_false 238 239) by lia.
  rewrite (proj2 (N.eqb_neq a 224)), (proj2 (N.eqb_neq a 237)) by lia.
  destruct (N.eqb_spec a 240) as [->|NE].
  { rewrite between_true by (try lia; auto). cbn [negb Nat.eqb]. now rewrite D, E. }
  destruct (between 241 243 a) eqn:B.
  { rewrite between_true by lia. cbn [negb Nat.eqb]. now rewrite D, E. }
  unfold between in B. apply andb_false_iff in B. rewrite !N.leb_gt in B.
  rewrite (proj2 (N.eqb_eq a 244)) by lia. rewrite between_true by (try lia; apply H2; lia).
  cbn [negb Nat.eqb]. now rewrite D, E.
Qed.
Lemma cont_mod x : is_cont (128 + x mod 64) = true.
Proof.
  apply between_true; [apply N.le_add_r|]. pose proof (N.mod_lt x 64 ltac:(lia)) as H.
  generalize dependent (x mod 64). intros; lia.
Qed.
Lemma encode_uchar c : is_scalar_value c = true -> uchar (encode_utf8 c).
Proof.
  intros H. assert (S : c < 55296 \/ 57343 < c < 1114112).
  { unfold is_scalar_value in H. apply orb_prop in H as [H|H]; [apply N.ltb_lt in H; lia|].
    apply andb_prop in H as [H1 H2]. apply N.ltb_lt in H1, H2. lia. }
  clear H. unfold encode_utf8. destruct (N.ltb_spec c 128) as [L1|L1]; [now apply ascii_uchar|].
  pose proof (N.div_mod c 64 ltac:(lia)) as D1. pose proof (N.mod_lt c 64 ltac:(lia)) as M1.
  destruct (N.ltb_spec c 2048) as [L2|L2].
  { apply uchar_2; [|apply cont_mod]. clear - D1 M1 L1 L2.
    generalize dependent (c / 64). generalize dependent (c mod 64). intros; lia. }
  assert (Q1 : c / 4096 = c / 64 / 64) by (rewrite N.div_div by lia; reflexivity).
  pose proof (N.div_mod (c / 64) 64 ltac:(lia)) as D2. pose proof (N.mod_lt (c / 64) 64 ltac:(lia)) as M2.
  destruct (N.ltb_spec c 65536) as [L3|L3].
  { apply uchar_3; try apply cont_mod; rewrite Q1; clear Q1;
    generalize dependent (c / 64 / 64); generalize dependent ((c / 64) mod 64);
    generalize dependent (c / 64); generalize dependent (c mod 64); intros; lia. }
  assert (Q2 : c / 262144 = c / 64 / 64 / 64) by (rewrite !N.div_div by lia; reflexivity).
  pose proof (N.div_mod (c / 64 / 64) 64 ltac:(lia)) as D3. pose proof (N.mod_lt (c / 64 / 64) 64 ltac:(lia)) as M3.
  apply uchar_4; try apply cont_mod; rewrite ?Q2, ?Q1; clear Q1 Q2;
    generalize dependent (c / 64 / 64 / 64); generalize dependent ((c / 64 / 64) mod 64);
    generalize dependent (c / 64 / 64); generalize dependent ((c / 64) mod 64);
    generalize dependent (c / 64); generalize dependent (c mod 64); intros; lia.
Qed.
Lemma encode_text c : is_scalar_value c = true -> text (encode_utf8 c).
Proof. intros H. rewrite <- (app_nil_r (encode_utf8 c)). constructor; [now apply encode_uchar|constructor]. Qed.

(* ---- trim ---- *)
Lemma strip_prefix_spec p s r : strip_prefix p s = Some r -> s = p ++ r.
Proof.
  revert s; induction p as [|a p IH]; intros s H; cbn in H; [injection H as ->; reflexivity|].
  destruct s as [|c s]; [discriminate|]. destruct (N.eqb_spec a c) as [->|]; [|discriminate].
  cbn. f_equal. auto.
Qed.
Lemma strip_any_spec ps s r : strip_any ps s = Some r -> exists p, In p ps /\ s = p ++ r.
Proof.
  induction ps as [|p ps IH]; cbn; [discriminate|].
  destruct (strip_prefix p s) as [r'|] eqn:E; intros H.
  - injection H as ->. apply strip_prefix_spec in E. eauto.
  - destruct (IH H) as (q & I & Q). eauto.
Qed.
Lemma trim_with_spec ps f : forall s, exists w, s = w ++ trim_with ps f s /\
  exists ws, w = concat ws /\ Forall (fun p => In p ps) ws.
Proof.
  induction f as [|f IH]; intros s; cbn; [exists []; split; [reflexivity|exists []; auto]|].
  destruct (strip_any ps s) as [r|] eqn:E.
  - apply strip_any_spec in E as (p & I & ->). destruct (IH r) as (w & H & ws & -> & F).
    exists (p ++ concat ws). split; [rewrite <- app_assoc; congruence|]. exists (p :: ws). auto.
  - exists []. split; [reflexivity|]. exists []. auto.
Qed.
Lemma ws_uchar p : In p white_space -> uchar p.
Proof. cbn. intros H. repeat (destruct H as [<-|H]; [reflexivity|]). destruct H. Qed.
Lemma text_trim s : text s -> text (trim s).
Proof.
  intros T. unfold trim.
  assert (T1 : text (trim_start s)).
  { unfold trim_start. destruct (trim_with_spec white_space (length s) s) as (w & H & ws & -> & F).
    rewrite H in T. apply text_app_inv in T; [exact T|]. clear H T. induction F; cbn; [constructor|].
    constructor; [now apply ws_uchar|exact IHF]. }
  generalize dependent (trim_start s). intros x T1. unfold trim_end.
  destruct (trim_with_spec (map (@rev N) white_space) (length x) (rev x)) as (w & H & ws & -> & F).
  set (y := trim_with _ _ _) in *. apply (f_equal (@rev N)) in H. rewrite rev_involutive, rev_app_distr in H.
  rewrite H in T1. apply (text_app_l _ _ T1). clear - F.
  induction F as [|p ws I F IH]; cbn; [constructor|]. rewrite rev_app_distr. apply text_app; [exact IH|].
  apply in_map_iff in I as (q & <- & I). rewrite rev_involutive, <- (app_nil_r q).
  constructor; [now apply ws_uchar|constructor].
Qed.
