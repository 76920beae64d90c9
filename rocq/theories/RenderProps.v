(* The two renderers on trees: when they agree, and that they write UTF-8. *)
From Coq Require Import List NArith Bool Arith Lia.
From Verif Require Import Bytes Utf8 Data Parser Render Tree Abs Utf8Props Scan AbsText AbsNice.
Import ListNotations.
Local Open Scope N_scope.

Lemma esc_single_same s : forall acc, text (rev acc ++ s) -> esc_single_disp_body acc s = rev acc ++ esc_single_body s.
Proof.
  induction s as [|c s IH]; intros acc T; cbn [esc_single_disp_body esc_single_body].
  - rewrite app_nil_r in *. now apply lossy_text.
  - destruct (N.eqb_spec c SQUOTE) as [->|NE].
    + destruct (text_split _ _ _ (eq_refl : is_cont SQUOTE = false) T) as [T1 T2].
      apply text_ascii in T2; [|reflexivity]. rewrite lossy_text by exact T1.
      rewrite IH by exact T2. reflexivity.
    + rewrite IH; cbn [rev]; rewrite <- app_assoc; [reflexivity|exact T].
Qed.
Lemma high_plain c : 128 <= c -> esc_double_byte c = [c].
Proof.
  intros H. unfold esc_double_byte, is_ascii_control.
  repeat match goal with |- context [c =? ?x] => replace (c =? x) with false by (symmetry; apply N.eqb_neq; cbv; lia) end.
  replace (c <? 32) with false by (symmetry; apply N.ltb_ge; lia). reflexivity.
Qed.
Lemma esc_double_same s : text s ->
  flat_map (fun c => match c with [c] => esc_double_byte c | c => c end) (chars s) = flat_map esc_double_byte s.
Proof.
  induction 1 as [|u s U T IH]; [reflexivity|].
  rewrite chars_char by exact U. cbn [flat_map]. rewrite flat_map_app, IH. f_equal.
  destruct u as [|a u]; [reflexivity|]. destruct u as [|b u]; [cbn; now rewrite app_nil_r|].
  pose proof (uchar_cont _ _ U) as (_ & F & HI).
  assert (A : Forall (fun c => 128 <= c) (a :: b :: u)).
  { constructor.
    - destruct (N.lt_ge_cases a 128) as [L|]; [|auto]. exfalso. pose proof (ascii_uchar a L) as UA.
      pose proof (uchar_prefix [a] (a :: b :: u) (b :: u) [] UA U) as E. rewrite app_nil_r in E. specialize (E eq_refl). discriminate.
    - revert F. apply Forall_impl. intros c. unfold is_cont, between. intros H. apply andb_prop in H as [H _]. now apply N.leb_le. }
  revert A. generalize (a :: b :: u). clear. induction 1 as [|c l H _ IH]; [reflexivity|].
  cbn. rewrite high_plain by exact H. cbn. now rewrite <- IH.
Qed.

(* ---- what is written is UTF-8 ---- *)
Lemma ascii_text c s : c < 128 -> text s -> text (c :: s).
Proof. intros H T. now apply text_ascii. Qed.
Lemma esc_single_text s : forall acc, text (acc ++ s) -> text (acc ++ esc_single_body s).
Proof.
  induction s as [|c s IH]; intros acc T; cbn; [exact T|].
  destruct (N.eqb_spec c SQUOTE) as [->|NE].
  - destruct (text_split _ _ _ (eq_refl : is_cont SQUOTE = false) T) as [T1 T2].
    apply text_ascii in T2; [|reflexivity]. apply text_app; [exact T1|].
    do 2 (apply ascii_text; [reflexivity|]). apply (IH []). exact T2.
  - specialize (IH (acc ++ [c])). rewrite <- !app_assoc in IH. now apply IH.
Qed.
Lemma hex_digit_ascii n : n < 16 -> hex_digit n < 128.
Proof. intros H. unfold hex_digit. destruct (n <? 10); lia. Qed.
Lemma esc_double_ascii c : c < 128 -> text (esc_double_byte c).
Proof.
  intros H. apply text_ascii_all. unfold esc_double_byte.
  repeat match goal with |- context [c =? ?x] => destruct (N.eqb_spec c x); [repeat constructor|] end.
  destruct (is_ascii_control c); [|auto].
  assert (c / 16 < 16) by (apply N.div_lt_upper_bound; lia).
  assert (c mod 16 < 16) by (apply N.mod_lt; discriminate).
  repeat constructor; apply hex_digit_ascii; assumption.
Qed.
Lemma esc_double_text s : text s -> text (flat_map esc_double_byte s).
Proof.
  intros T. rewrite <- esc_double_same by exact T. induction T as [|u s U T IH]; [constructor|].
  rewrite chars_char by exact U. cbn [flat_map]. apply text_app; [|exact IH].
  assert (TU : text u) by (rewrite <- (app_nil_r u); constructor; [exact U|constructor]).
  destruct u as [|a [|b u]]; auto.
  destruct (N.lt_ge_cases a 128) as [L|G]; [now apply esc_double_ascii|]. rewrite high_plain by exact G. exact TU.
Qed.
Lemma wstr_text r : Forall text (rs_strings r) -> text (wstr r).
Proof.
  destruct r as [k i o]. unfold rs_strings, wstr. cbn. intros H.
  destruct k; cbn in *; repeat match goal with H : Forall _ (_ :: _) |- _ => inversion H; clear H; subst end; auto.
  - apply ascii_text; [reflexivity|]. apply text_app; [|now apply ascii_text; [|constructor]].
    apply (esc_single_text _ []). assumption.
  - apply ascii_text; [reflexivity|]. apply text_app; [|now apply ascii_text; [|constructor]].
    now apply esc_double_text.
  - now apply text_app.
Qed.
Lemma wscalar_text s : Forall text (sc_strings s) -> text (wscalar s).
Proof.
  destruct s as [[s| |]|v s|s h|r]; cbn; intros H; try (now inversion H); try constructor; auto.
  - now apply ascii_text; [|constructor].
  - now apply wstr_text.
Qed.
Lemma sep_text c l : text c -> Forall text l -> text (sep c l).
Proof.
  intros C. induction 1 as [|x l H F IH]; cbn; [constructor|].
  apply text_app; [exact H|]. apply text_app; [|exact IH]. destruct l; [constructor|exact C].
Qed.
Lemma comma_if_text (k : ckind bytes) : text (comma_if k).
Proof. destruct k; [constructor|]. now apply ascii_text; [|constructor]. Qed.
Lemma open_if_text c (k : ckind bytes) : c < 128 -> text (open_if c k).
Proof. intros H. destruct k; [constructor|]. now apply ascii_text; [|constructor]. Qed.
Lemma dash_if_text (k : ckind bytes) : text (dash_if k).
Proof. destruct k; [|constructor]. now apply ascii_text; [|constructor]. Qed.
Lemma closing_text c k : c < 128 -> Forall text (ck_strings k) -> text (closing (fun x => x) c k).
Proof.
  intros H F. destruct k as [|t s]; cbn; [constructor|]. apply text_app.
  - destruct t; [now apply ascii_text; [|constructor]|constructor].
  - apply text_app; [now inversion F|]. now apply ascii_text; [|constructor].
Qed.
Lemma tpre_text {I} (t : tree I) : Forall text (strings t) -> text (tpre t).
Proof. destruct t; cbn; intros H; now inversion H. Qed.
Lemma wtree_text {I} (t : tree I) : Forall text (strings t) -> text (wtree t).
Proof.
  induction t as [i p s|i p n k items IH|i p n k items IH] using tree_ind'; cbn [wtree strings tpre]; intros H;
    apply Forall_cons_iff in H as [HP H].
  - now apply wscalar_text.
  - apply Forall_app in H as [HK H]. apply text_app; [now apply open_if_text|]. apply text_app.
    + apply sep_text; [apply comma_if_text|]. apply Forall_map. apply Forall_flat_map in H.
      rewrite Forall_forall in IH, H |- *. intros [[[ii ip] key] v] X. specialize (IH _ X). specialize (H _ X). cbn in IH, H.
      apply Forall_cons_iff in H as [H1 H]. apply Forall_app in H as [H2 H3].
      apply text_app; [exact H1|]. apply text_app; [now apply wstr_text|]. apply ascii_text; [reflexivity|].
      apply text_app; [now apply tpre_text|now apply IH].
    + now apply closing_text.
  - apply Forall_app in H as [HK H]. apply text_app; [now apply open_if_text|]. apply text_app.
    + apply sep_text; [apply comma_if_text|]. apply Forall_map. apply Forall_flat_map in H.
      rewrite Forall_forall in IH, H |- *. intros [[ii ip] v] X. specialize (IH _ X). specialize (H _ X). cbn in IH, H.
      apply Forall_cons_iff in H as [H1 H2].
      apply text_app; [apply text_lossy|]. apply text_app; [apply dash_if_text|].
      apply text_app; [now apply tpre_text|now apply IH].
    + now apply closing_text.
Qed.
Lemma wdoc_text {I} (t : tree I) suffix : Forall text (strings t) -> text suffix -> text (wdoc t suffix).
Proof.
  intros H S. apply text_app; [now apply tpre_text|]. apply text_app; [now apply wtree_text|exact S].
Qed.

(* ---- when display writes the same bytes ---- *)
(* No nested empty null or empty block collection has white space before it. *)
Definition tight {I} (t : tree I) : bool := negb (is_blank t) || is_nil (tpre t).
Fixpoint calm {I} (t : tree I) : bool :=
  match t with
  | TLeaf _ _ _ => true
  | TMap _ _ _ _ items => forallb (fun '(_, _, _, v) => tight v && calm v) items
  | TSeq _ _ _ _ items => forallb (fun '(_, _, v) => tight v && calm v) items
  end.
Lemma nice_calm {I} (t : tree I) : nice t = true -> tight t = true /\ calm t = true.
Proof.
  induction t as [i p s|i p n k items IH|i p n k items IH] using tree_ind'; cbn [nice calm]; intros H;
    apply andb_prop in H as [H1 H2].
  - split; [|reflexivity]. unfold tight. cbn. destruct s as [[| |]| | |]; auto.
  - split.
    + unfold tight. cbn. destruct k; [|reflexivity]. destruct items; [discriminate|reflexivity].
    + apply forallb_forall. rewrite forallb_forall in H2. rewrite Forall_forall in IH.
      intros [[[ii ip] key] v] X. specialize (IH _ X). specialize (H2 _ X). cbn in IH, H2.
      apply andb_prop in H2 as [_ H2]. apply andb_true_intro. auto.
  - split.
    + unfold tight. cbn. destruct k; [|reflexivity]. destruct items; [discriminate|reflexivity].
    + apply forallb_forall. rewrite forallb_forall in H2. rewrite Forall_forall in IH.
      intros [[ii ip] v] X. specialize (IH _ X). specialize (H2 _ X). cbn in IH, H2.
      apply andb_true_intro. auto.
Qed.
Lemma dstr_same r : Forall text (rs_strings r) -> dstr r = wstr r.
Proof.
  destruct r as [k i o]. unfold rs_strings, wstr, dstr. cbn [rs_kind rs_id rs_orig]. intros H.
  destruct k; cbn in H; repeat match goal with H : Forall _ (_ :: _) |- _ => inversion H; clear H; subst end;
    rewrite ?lossy_text by assumption; auto.
  - unfold esc_single_disp, esc_single. rewrite (esc_single_same i []); auto.
  - unfold esc_double_disp, esc_double. now rewrite esc_double_same.
Qed.
Lemma dscalar_same s : Forall text (sc_strings s) -> dscalar s = wscalar s.
Proof.
  destruct s as [[s| |]|v s|s h|r]; cbn; intros H; try reflexivity; try (apply lossy_text; now inversion H).
  now apply dstr_same.
Qed.
Lemma dpre_same {I} (t : tree I) : tight t = true -> Forall text (strings t) -> dpre t = tpre t.
Proof.
  intros H T. unfold dpre, tight in *. destruct (is_blank t); cbn in H.
  - destruct (tpre t); [reflexivity|discriminate].
  - apply lossy_text. now apply tpre_text.
Qed.
Lemma closing_same c k : Forall text (ck_strings k) -> closing lossy c k = closing (fun x => x) c k.
Proof. destruct k as [|t s]; cbn; intros H; [reflexivity|]. rewrite lossy_text; [reflexivity|now inversion H]. Qed.
Lemma dtree_same {I} (t : tree I) : calm t = true -> Forall text (strings t) -> dtree t = wtree t.
Proof.
  induction t as [i p s|i p n k items IH|i p n k items IH] using tree_ind'; cbn [wtree dtree calm strings tpre]; intros C H;
    apply Forall_cons_iff in H as [HP H].
  - now apply dscalar_same.
  - apply Forall_app in H as [HK H]. rewrite closing_same by exact HK. f_equal. f_equal. f_equal.
    apply map_ext_Forall. apply Forall_flat_map in H. rewrite forallb_forall in C.
    rewrite Forall_forall in IH, H |- *. intros [[[ii ip] key] v] X. specialize (IH _ X). specialize (H _ X).
    specialize (C _ X). cbn in IH, H, C.
    apply Forall_cons_iff in H as [H1 H]. apply Forall_app in H as [H2 H3]. apply andb_prop in C as [C1 C2].
    rewrite (lossy_text ip H1), (dstr_same key H2), (dpre_same v C1 H3), (IH C2 H3). reflexivity.
  - apply Forall_app in H as [HK H]. rewrite closing_same by exact HK. f_equal. f_equal. f_equal.
    apply map_ext_Forall. apply Forall_flat_map in H. rewrite forallb_forall in C.
    rewrite Forall_forall in IH, H |- *. intros [[ii ip] v] X. specialize (IH _ X). specialize (H _ X).
    specialize (C _ X). cbn in IH, H, C.
    apply Forall_cons_iff in H as [H1 H3]. apply andb_prop in C as [C1 C2].
    rewrite (dpre_same v C1 H3), (IH C2 H3). reflexivity.
Qed.
Lemma ddoc_same {I} (t : tree I) suffix : calm t = true -> Forall text (suffix :: strings t) ->
  ddoc t suffix = wdoc t suffix.
Proof.
  intros C H. apply Forall_cons_iff in H as [HS H]. unfold ddoc, wdoc.
  rewrite (lossy_text suffix HS), (dtree_same t C H), (lossy_text (tpre t)); [reflexivity|now apply tpre_text].
Qed.

(* Ids do not matter. *)
Lemma tpre_tmap {I J} (f : I -> J) t : tpre (tmap f t) = tpre t.
Proof. destruct t; reflexivity. Qed.
Lemma strings_tmap {I J} (f : I -> J) t : strings (tmap f t) = strings t.
Proof.
  induction t as [i p s|i p n k items IH|i p n k items IH] using tree_ind'; cbn [tmap strings tpre]; [reflexivity| |].
  - do 2 f_equal. rewrite flat_map_concat_map, map_map, <- flat_map_concat_map.
    rewrite !flat_map_concat_map. f_equal. apply map_ext_Forall. revert IH. apply Forall_impl.
    intros [[[ii ip] key] v] H. cbn in *. now rewrite H.
  - do 2 f_equal. rewrite flat_map_concat_map, map_map, <- flat_map_concat_map.
    rewrite !flat_map_concat_map. f_equal. apply map_ext_Forall. revert IH. apply Forall_impl.
    intros [[ii ip] v] H. cbn in *. now rewrite H.
Qed.
Lemma tight_tmap {I J} (f : I -> J) t : tight (tmap f t) = tight t.
Proof.
  destruct t as [i p s|i p n k items|i p n k items]; try reflexivity; unfold tight; cbn; destruct k, items; reflexivity.
Qed.
Lemma forallb_map_ext {A B} (f : B -> bool) (h : A -> B) (g : A -> bool) l :
  Forall (fun x => f (h x) = g x) l -> forallb f (map h l) = forallb g l.
Proof. induction 1 as [|x l H _ IH]; cbn; [reflexivity|]. now rewrite H, IH. Qed.
Lemma calm_tmap {I J} (f : I -> J) t : calm (tmap f t) = calm t.
Proof.
  induction t as [i p s|i p n k items IH|i p n k items IH] using tree_ind'; cbn [tmap calm]; [reflexivity| |].
  - apply forallb_map_ext. revert IH. apply Forall_impl. intros [[[ii ip] key] v] H. cbn in *. now rewrite tight_tmap, H.
  - apply forallb_map_ext. revert IH. apply Forall_impl. intros [[ii ip] v] H. cbn in *. now rewrite tight_tmap, H.
Qed.
