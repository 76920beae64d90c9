(* C21: where the entries of a collection made by the API stand, exactly. *)
From Coq Require Import String.
From Coq Require Import List NArith ZArith Bool Arith Lia.
From Verif Require Import Bytes Utf8 Data Parser Render Tree Abs Refine Utf8Props Valid Num Api Ctx Edit Built Shown Means GrammarSound Places SinkProps Swap Open Session Back Check PropsValue PropsText PropsBuild Tests PropsEdit PropsMake.
Import ListNotations.
Local Open Scope N_scope.
Local Notation text := Utf8Props.text.

(* ---- columns ---- *)
(* The text l ends in column n: n characters after its last newline. *)
Definition ends_in (l : bytes) (n : nat) : Prop :=
  exists a t, l = a ++ t /\ (a = [] \/ exists x, a = x ++ [NEWLINE]) /\ ~ In NEWLINE t /\ counted t n.
Lemma ends_in_count l n : ends_in l n <-> count_indent l = n.
Proof.
  pose proof (column_spec l (length l) n) as H. unfold column in H. rewrite firstn_all in H. symmetry. exact H.
Qed.

Definition starts (c : byte) : Prop := is_cont c = false.
Lemma lead_range x len lo hi : lead x = Some (len, lo, hi) -> 128 <= lo /\ hi <= 191.
Proof.
  unfold lead. repeat match goal with |- context [if ?c then _ else _] => destruct c end; intros E; try discriminate; injection E as <- <- <-; lia.
Qed.
Lemma decode1_stop x r c t : starts c -> decode1 x (r ++ c :: t) = decode1 x r.
Proof.
  intros S. unfold decode1. destruct (x <? 128); [reflexivity|]. destruct (lead x) as [[[len lo] hi]|] eqn:L; [|reflexivity].
  assert (B : between lo hi c = false).
  { destruct (lead_range _ _ _ _ L) as [L1 L2]. unfold starts, is_cont, between in *. destruct (lo <=? c) eqn:X; [|reflexivity]. cbn. apply N.leb_le in X.
    apply N.leb_gt. replace (128 <=? c) with true in S by (symmetry; apply N.leb_le; lia). cbn in S. apply N.leb_gt in S. lia. }
  unfold starts in S. destruct r as [|c1 r]; cbn [app]; [now rewrite B|]. destruct (negb (between lo hi c1)); [reflexivity|]. destruct (len =? 2)%nat; [reflexivity|].
  destruct r as [|c2 r]; cbn [app]; [now rewrite S|]. destruct (negb (is_cont c2)); [reflexivity|]. destruct (len =? 3)%nat; [reflexivity|].
  destruct r as [|c3 r]; cbn [app]; [now rewrite S|]. reflexivity.
Qed.
Lemma firstn_short {A} n (l m : list A) : (n <= length l)%nat -> firstn n (l ++ m) = firstn n l.
Proof. intros H. rewrite firstn_app. replace (n - length l)%nat with O by lia. cbn [firstn]. apply app_nil_r. Qed.
Lemma skipn_short {A} n (l m : list A) : (n <= length l)%nat -> skipn n (l ++ m) = skipn n l ++ m.
Proof. intros H. rewrite skipn_app. replace (n - length l)%nat with O by lia. reflexivity. Qed.
Lemma chars_stop c t : starts c -> forall m a, (length a <= m)%nat -> chars (a ++ c :: t) = chars a ++ chars (c :: t).
Proof.
  intros S. induction m as [|m IH]; intros [|x a] L; try reflexivity; [cbn in L; lia|]. cbn [length] in L.
  change ((x :: a) ++ c :: t) with (x :: (a ++ c :: t)). pose proof (chars_cons x (a ++ c :: t)) as E1. pose proof (chars_cons x a) as E2.
  pose proof (decode1_size x a) as Z. unfold the_char in *. rewrite (decode1_stop _ _ _ t S) in E1.
  etransitivity; [exact E1|]. transitivity (((if fst (decode1 x a) then firstn (snd (decode1 x a)) (x :: a) else replacement) :: chars (skipn (snd (decode1 x a)) (x :: a))) ++ chars (c :: t)).
  2:{ apply (f_equal (fun l => l ++ _)). symmetry. exact E2. }
  cbn [app]. f_equal.
  - destruct (fst (decode1 x a)); [|reflexivity]. apply (firstn_short (snd (decode1 x a)) (x :: a) (c :: t)). exact (proj2 Z).
  - etransitivity; [apply (f_equal chars); apply (skipn_short (snd (decode1 x a)) (x :: a) (c :: t)); exact (proj2 Z)|]. apply IH. rewrite skipn_length. cbn [length]. lia.
Qed.
Lemma chars_list l : Forall uchar l -> chars (concat l) = l.
Proof. induction 1 as [|ch l U F IH]; [reflexivity|]. cbn [concat]. rewrite chars_char by exact U. now rewrite IH. Qed.
Lemma chars_of_lossy s : chars (lossy s) = chars s.
Proof. unfold lossy. apply chars_list, chars_uchar. Qed.
Lemma uchar_starts ch s : uchar ch -> exists c r, ch ++ s = c :: r /\ starts c.
Proof.
  destruct ch as [|c r]; cbn; [intros []|]. intros D. exists c, (r ++ s). split; [reflexivity|]. unfold decode1 in D. unfold starts, is_cont, between.
  destruct (c <? 128) eqn:X; [apply N.ltb_lt in X; replace (128 <=? c) with false by (symmetry; apply N.leb_gt; lia); reflexivity|].
  destruct (lead c) as [[[len lo] hi]|] eqn:L; [|discriminate]. destruct (c <=? 191) eqn:Y; [|apply andb_false_r]. apply N.leb_le in Y. exfalso. unfold lead, between in L.
  repeat match type of L with context [if ?q then _ else _] => destruct q eqn:? end; try discriminate;
  repeat match goal with H : _ && _ = true |- _ => apply andb_prop in H as [? ?] | H : _ <=? _ = true |- _ => apply N.leb_le in H | H : _ =? _ = true |- _ => apply N.eqb_eq in H end; lia.
Qed.
Lemma chars_text a s : text s -> chars (a ++ s) = chars a ++ chars s.
Proof.
  intros T. destruct T as [|ch s U T]; [rewrite app_nil_r; cbn; now rewrite app_nil_r|]. destruct (uchar_starts ch s U) as (c & r & E & S). rewrite E. exact (chars_stop c r S (length a) a (le_n _)).
Qed.

Lemma after_with x y : In NEWLINE y -> after_last_nl (x ++ y) = after_last_nl y.
Proof.
  intros I. destruct (last_line y) as (a & t & -> & [->|[a' ->]] & NL); [contradiction|].
  transitivity t; [|symmetry; apply after_nl; eauto]. rewrite app_assoc. apply after_nl; [right; exists (x ++ a'); now rewrite app_assoc|exact NL].
Qed.
Lemma after_without x y : ~ In NEWLINE y -> after_last_nl (x ++ y) = after_last_nl x ++ y.
Proof.
  intros NI. destruct (last_line x) as (a & t & -> & A & NL). transitivity (t ++ y); [|apply (f_equal (fun l => l ++ y)); symmetry; now apply after_nl].
  rewrite <- app_assoc. apply after_nl; [exact A|]. rewrite in_app_iff. tauto.
Qed.
Lemma after_no_nl p : ~ In NEWLINE (after_last_nl p).
Proof.
  destruct (last_line p) as (a & t & -> & A & X). intros I. match type of I with In _ ?z => assert (Q : z = t) by (now apply after_nl); rewrite Q in I end. contradiction.
Qed.
Lemma lossy_nl s : In NEWLINE (lossy s) <-> In NEWLINE s.
Proof.
  unfold lossy, chars. assert (H : forall f s, (length s <= f)%nat -> In NEWLINE (concat (chars_f f s)) <-> In NEWLINE s).
  { induction f as [|f IH]; intros [|c r] L; try reflexivity; [cbn in L; lia|]. cbn [chars_f]. destruct (decode1 c r) as [ok n] eqn:D. cbn [concat].
    rewrite in_app_iff, IH by (pose proof (decode1_size c r) as Z; rewrite D in Z; cbn [snd] in Z; rewrite skipn_length; cbn [length] in *; lia).
    rewrite <- (firstn_skipn n (c :: r)) at 3. rewrite in_app_iff. destruct ok; [reflexivity|].
    assert (X : ~ In NEWLINE (firstn n (c :: r))).
    { intros I. revert D. unfold decode1. destruct (c <? 128) eqn:C; [discriminate|]. apply N.ltb_ge in C.
      assert (NC : c <> NEWLINE) by (intros ->; cbv in C; congruence).
      destruct (lead c) as [[[len lo] hi]|] eqn:LD; [|intros D; injection D as <-; cbn in I; destruct I as [I|[]]; congruence].
      destruct (lead_range _ _ _ _ LD) as [L1 L2].
      assert (NB : forall x, between lo hi x = true -> x <> NEWLINE) by (intros x X ->; unfold between in X; apply andb_prop in X as [X _]; apply N.leb_le in X; unfold NEWLINE in X; lia).
      assert (NK : forall x, is_cont x = true -> x <> NEWLINE) by (intros x X ->; discriminate).
      destruct r as [|c1 r]; [intros D; injection D as <-; cbn in I; destruct I as [I|[]]; congruence|].
      destruct (between lo hi c1) eqn:B1; cbn [negb]; [|intros D; injection D as <-; cbn in I; destruct I as [I|[]]; congruence]. apply NB in B1. destruct (len =? 2)%nat; [discriminate|].
      destruct r as [|c2 r]; [intros D; injection D as <-; cbn in I; destruct I as [I|[I|[]]]; congruence|].
      destruct (is_cont c2) eqn:B2; cbn [negb]; [|intros D; injection D as <-; cbn in I; destruct I as [I|[I|[]]]; congruence]. apply NK in B2. destruct (len =? 3)%nat; [discriminate|].
      destruct r as [|c3 r]; [intros D; injection D as <-; cbn in I; destruct I as [I|[I|[I|[]]]]; congruence|].
      destruct (is_cont c3) eqn:B3; cbn [negb]; [discriminate|]. intros D; injection D as <-; cbn in I; destruct I as [I|[I|[I|[]]]]; congruence. }
    unfold replacement. cbn. unfold NEWLINE in *. intuition discriminate. }
  intros. apply H. lia.
Qed.
Lemma lossy_line a t : lossy (a ++ NEWLINE :: t) = lossy a ++ NEWLINE :: lossy t.
Proof.
  transitivity (concat (chars a ++ chars (NEWLINE :: t))); [apply (f_equal (@concat N)); exact (chars_stop NEWLINE t eq_refl _ a (le_n _))|].
  rewrite concat_app. apply (f_equal (fun l => concat (chars a) ++ l)). pose proof (chars_char [NEWLINE] t eq_refl) as C.
  transitivity (concat ([NEWLINE] :: chars t)); [apply (f_equal (@concat N)); exact C|reflexivity].
Qed.
Lemma lossy_after s : after_last_nl (lossy s) = lossy (after_last_nl s).
Proof.
  destruct (last_line s) as (a & t & -> & A & NL). transitivity (lossy t); [|apply (f_equal lossy); symmetry; now apply after_nl]. destruct A as [->|[a' ->]].
  - cbn [app]. change (lossy t) with ([] ++ lossy t) at 1. apply after_nl; [auto|]. now rewrite lossy_nl.
  - transitivity (after_last_nl ((lossy a' ++ [NEWLINE]) ++ lossy t)).
    + apply (f_equal after_last_nl). rewrite <- !app_assoc. exact (lossy_line a' t).
    + apply after_nl; [eauto|]. now rewrite lossy_nl.
Qed.
Lemma count_lossy s : count_indent (lossy s) = count_indent s.
Proof. unfold count_indent. rewrite lossy_after. now rewrite chars_of_lossy. Qed.

(* ---- where a new collection starts ---- *)
Lemma firstn_In {A} (x : A) n l : In x (firstn n l) -> In x l.
Proof. intros I. rewrite <- (firstn_skipn n l). apply in_or_app. now left. Qed.
Lemma under_column p n l : count_indent (l ++ snd (Edit.under p n)) = (n + 2)%nat.
Proof.
  unfold Edit.under. cbn [snd]. set (cs := firstn (n + 2) (chars (after_last_nl p) ++ repeat [SPACE] (n + 2))).
  assert (F : Forall uchar cs).
  { apply Forall_forall. intros x I. apply firstn_In in I. apply in_app_iff in I as [I|I].
    - pose proof (chars_uchar (after_last_nl p)) as U. rewrite Forall_forall in U. auto.
    - apply repeat_spec in I as ->. reflexivity. }
  assert (NL : ~ In NEWLINE (concat cs)).
  { intros I. apply in_concat in I as (ch & I & J). apply firstn_In in I. apply in_app_iff in I as [I|I].
    - assert (K : In NEWLINE (lossy (after_last_nl p))) by (apply in_concat; eauto). rewrite lossy_nl in K. exact (after_no_nl p K).
    - apply repeat_spec in I as ->. cbn in J. unfold NEWLINE, SPACE in J. intuition discriminate. }
  unfold count_indent. assert (E : after_last_nl (l ++ NEWLINE :: concat cs) = concat cs).
  { replace (l ++ NEWLINE :: concat cs) with ((l ++ [NEWLINE]) ++ concat cs) by now rewrite <- app_assoc. apply after_nl; eauto. }
  rewrite E, (chars_list cs F). unfold cs. rewrite firstn_length, app_length, repeat_length. lia.
Qed.
Lemma chars_dash x : length (chars (x ++ [DASH; SPACE])) = (length (chars x) + 2)%nat.
Proof.
  transitivity (length (chars x ++ chars [DASH; SPACE])); [apply (f_equal (@length bytes)); exact (chars_stop DASH [SPACE] eq_refl _ x (le_n _))|]. rewrite app_length. reflexivity.
Qed.
Lemma dash_plain x : ~ In NEWLINE x -> ~ In NEWLINE (x ++ [DASH; SPACE]).
Proof. rewrite in_app_iff. cbn. unfold NEWLINE, DASH, SPACE. intuition discriminate. Qed.
Lemma dash_column l ip : In NEWLINE ip -> count_indent (l ++ lossy ip ++ [DASH; SPACE]) = (count_indent ip + 2)%nat.
Proof.
  intros I. assert (J : In NEWLINE (lossy ip ++ [DASH; SPACE])) by (apply in_or_app; left; now apply lossy_nl).
  unfold count_indent. transitivity (length (chars (lossy (after_last_nl ip) ++ [DASH; SPACE]))).
  - apply (f_equal (fun x => length (chars x))). etransitivity; [exact (after_with l _ J)|]. etransitivity; [exact (after_without (lossy ip) [DASH; SPACE] (dash_plain [] (@in_nil _ _)))|]. apply (f_equal (fun x => x ++ _)), lossy_after.
  - rewrite chars_dash, chars_of_lossy. reflexivity.
Qed.
Lemma dash_crooked l ip : ~ In NEWLINE ip -> count_indent (l ++ lossy ip ++ [DASH; SPACE]) = (count_indent l + (length (chars ip) + 2))%nat.
Proof.
  intros I. unfold count_indent. assert (J : ~ In NEWLINE (lossy ip)) by now rewrite lossy_nl.
  transitivity (length (chars ((after_last_nl l ++ lossy ip) ++ [DASH; SPACE]))).
  - apply (f_equal (fun x => length (chars x))). rewrite <- app_assoc. exact (after_without l _ (dash_plain _ J)).
  - rewrite chars_dash. rewrite (chars_text _ (lossy ip) (text_lossy ip)), app_length, chars_of_lossy. lia.
Qed.
Lemma wleft_comp c d : wleft (ccomp c d) = wleft c ++ wleft d.
Proof. induction c as [|i p n k l ii ip key c IH r|i p n k l ii ip c IH r]; cbn [ccomp wleft]; rewrite ?IH, <- ?app_assoc; cbn [app]; rewrite <- ?app_assoc; reflexivity. Qed.
Lemma amake_comp c d x : amake_in (ccomp c d) x = amake_in d (amake_in c x).
Proof. revert x. induction c as [|i p n k l ii ip key c IH r|i p n k l ii ip c IH r]; intros x; cbn [ccomp amake_in]; [reflexivity|apply IH|destruct k; apply IH]. Qed.
Lemma ctx_last c : c = CHole \/ (exists c' i p n k l ii ip key r, c = ccomp c' (CMapC i p n k l ii ip key CHole r)) \/
  exists c' i p n k l ii ip r, c = ccomp c' (CSeqC i p n k l ii ip CHole r).
Proof.
  induction c as [|i p n k l ii ip key c IH r|i p n k l ii ip c IH r]; [auto| |]; destruct IH as [->|[(c' & i' & p' & n' & k' & l' & ii' & ip' & key' & r' & ->)|(c' & i' & p' & n' & k' & l' & ii' & ip' & r' & ->)]].
  - right. left. exists CHole. repeat eexists.
  - right. left. exists (CMapC i p n k l ii ip key c' r). repeat eexists.
  - right. right. exists (CMapC i p n k l ii ip key c' r). repeat eexists.
  - right. right. exists CHole. repeat eexists.
  - right. left. exists (CSeqC i p n k l ii ip c' r). repeat eexists.
  - right. right. exists (CSeqC i p n k l ii ip c' r). repeat eexists.
Qed.
Lemma amake_stands c v : let l := wleft c ++ snd (amake c v) in let n := fst (amake c v) in
  (c = CHole /\ count_indent l = n) \/
  (exists c' i p m k before ii ip key r, c = ccomp c' (CMapC i p m k before ii ip key CHole r) /\ n = (m + 2)%nat /\ count_indent l = n) \/
  (exists c' i p m t s before ii ip r, c = ccomp c' (CSeqC i p m (CInline t s) before ii ip CHole r) /\ n = (m + 2)%nat /\ count_indent l = n) \/
  (exists c' i p m before ii ip r l0, c = ccomp c' (CSeqC i p m CBlock before ii ip CHole r) /\ l = l0 ++ lossy ip ++ [DASH; SPACE] /\ n = (count_indent ip + 2)%nat).
Proof.
  cbn zeta. unfold amake. destruct (ctx_last c) as [->|[(c' & i & p & n & k & l & ii & ip & key & r & ->)|(c' & i & p & n & k & l & ii & ip & r & ->)]].
  - left. auto.
  - right. left. exists c', i, p, n, k, l, ii, ip, key, r. rewrite amake_comp. cbn [amake_in]. split; [reflexivity|]. split; [reflexivity|]. apply under_column.
  - rewrite amake_comp, wleft_comp. cbn [amake_in wleft]. destruct k as [|tr suf]; right; right.
    + right. cbn [amake_in fst snd open_if dash_if comma_if]. exists c', i, p, n, l, ii, ip, r, (wleft c' ++ p ++ sepl [] (map (wsitem CBlock) l)). split; [reflexivity|]. split; [|reflexivity].
      rewrite <- !app_assoc. cbn [app]. rewrite <- ?app_assoc. reflexivity.
    + left. exists c', i, p, n, tr, suf, l, ii, ip, r. split; [reflexivity|]. split; [reflexivity|]. apply under_column.
Qed.

(* ---- the entries ---- *)
(* Texts under each other, each but the first on its own line after n spaces. *)
Fixpoint stacked (n : nat) (l : list bytes) : bytes :=
  match l with
  | [] => []
  | [x] => x
  | x :: l => x ++ NEWLINE :: repeat SPACE n ++ stacked n l
  end.
Lemma stacked_snoc n l x : stacked n (l ++ [x]) = stacked n l ++ match l with [] => [] | _ => NEWLINE :: repeat SPACE n end ++ x.
Proof.
  induction l as [|y l IH]; [reflexivity|]. cbn [app stacked]. destruct l as [|z l]; [reflexivity|]. cbn [app] in *. rewrite IH. rewrite <- !app_assoc. cbn [app]. rewrite <- ?app_assoc. reflexivity.
Qed.
Definition keyed (k t : bytes) : bytes := k ++ [COLON] ++ t.
Fixpoint zip {A B C} (f : A -> B -> C) (l : list A) (m : list B) : list C := match l, m with a :: l, b :: m => f a b :: zip f l m | _, _ => [] end.
Lemma zip_snoc {A B C} (f : A -> B -> C) l : forall m a x, length m = length l -> zip f (l ++ [a]) (m ++ [x]) = zip f l m ++ [f a x].
Proof. induction l as [|y l IH]; intros [|z m] a x E; try discriminate; [reflexivity|]. cbn. f_equal. apply IH. now injection E. Qed.

Section Stack.
Variable hash : bytes -> sid.
Local Notation models := (models hash).
Local Notation no_collision := (no_collision hash).

Lemma insert_step c i p n items suf e k h d' doc : models doc (plug c (TMap i p n CBlock items)) suf -> run hash i e (doc_data doc) = Ok (Handle h, d') -> no_collision d' ->
  insert_key e = Some k -> Forall (other_key k) items ->
  exists ii v, models (edited doc d') (plug c (TMap i p n CBlock (items ++ [(ii, item_gap n items, RS KBare k k, v)]))) suf.
Proof.
  intros M E N K F. destruct (edit_step hash _ _ _ _ _ _ _ M E) as (v' & _ & M' & _ & EF). specialize (EF N).
  assert (IK : exists s, ikey e = Some (k, s)) by (destruct e; try discriminate; injection K as ->; cbn; eauto). destruct IK as [s IK].
  inversion EF as [| | | | |e' sc key s' h' v1 SC IK' INS| | | | | | |]; subst; try (cbn in *; congruence); try (destruct e; discriminate).
  rewrite IK in IK'. injection IK' as <- <-. inversion INS as [? ? ? ? l ii ip kk v r KE FO X|? ? ? ? ? ii vi FO X]; subst.
  - exfalso. rewrite Forall_forall in F. apply (F (ii, ip, kk, v)); [apply in_or_app; right; now left|]. reflexivity.
  - eauto.
Qed.
Lemma push_step c i p n items suf e h d' doc : models doc (plug c (TSeq i p n CBlock items)) suf -> run hash i e (doc_data doc) = Ok (Handle h, d') -> no_collision d' ->
  push_call e -> exists ii v, models (edited doc d') (plug c (TSeq i p n CBlock (items ++ [(ii, item_gap n items, v)]))) suf.
Proof.
  intros M E N K. destruct (edit_step hash _ _ _ _ _ _ _ M E) as (v' & _ & M' & _ & EF). specialize (EF N).
  assert (IK : exists s, psep e = Some s) by (destruct e; try contradiction; cbn; eauto). destruct IK as [s IK].
  inversion EF as [| | | | | | | |e' sc s' h' v1 SC IK' INS| | | |]; subst; try (cbn in *; congruence); try (destruct e; (contradiction || discriminate)).
  inversion INS; subst. eauto.
Qed.
Definition mtext (it : mitem nat) : bytes := full (snd it).
Definition map_stack (n : nat) (items : list (mitem nat)) : Prop :=
  concat (map wmitem items) = stacked n (zip keyed (map (fun it => rs_id (mkey it)) items) (map mtext items)).
Lemma map_stack_snoc n items ii k v : map_stack n items -> map_stack n (items ++ [(ii, item_gap n items, RS KBare k k, v)]).
Proof.
  unfold map_stack. intros H. rewrite !map_app, concat_app, H. cbn [map]. rewrite zip_snoc by now rewrite !map_length. rewrite stacked_snoc. f_equal.
  cbn [concat wmitem]. rewrite app_nil_r. unfold item_gap. destruct items as [|it items]; [reflexivity|]. cbn [map zip]. rewrite nl_line. reflexivity.
Qed.
Lemma inserts_stack c suf i p n es : forall ks items doc d2, models doc (plug c (TMap i p n CBlock items)) suf -> calls hash i (doc_data doc) es d2 -> no_collision d2 ->
  Forall2 (fun e k => insert_key e = Some k) es ks -> NoDup (map (fun it => rs_id (mkey it)) items ++ ks) -> map_stack n items ->
  exists items', models (edited doc d2) (plug c (TMap i p n CBlock items')) suf /\ map_stack n items' /\ map (fun it => rs_id (mkey it)) items' = map (fun it => rs_id (mkey it)) items ++ ks.
Proof.
  induction es as [|e es IH]; intros ks items doc d2 M C N F ND MS; inversion F as [|? k ? ks' K F']; subst; inversion C as [|? ? h d1 ? ? E C']; subst.
  - exists items. rewrite app_nil_r. split; [|auto]. destruct doc. exact M.
  - pose proof (edit_step hash _ _ _ _ _ _ _ M E) as (v' & TI & M1 & _ & _). cbn [tid] in TI. rewrite <- TI in C'. pose proof (calls_before hash _ _ _ _ _ _ M1 C' N) as N1. rewrite TI in C'. cbn [edited doc_data] in N1.
    assert (FO : Forall (other_key k) items).
    { apply Forall_forall. intros it I X. apply NoDup_remove_2 in ND. apply ND. apply in_or_app. left. apply in_map_iff. eauto. }
    destruct (insert_step _ _ _ _ _ _ _ _ _ _ _ M E N1 K FO) as (ii & v & M2).
    destruct (IH ks' _ _ _ M2 C' N F') as (items' & M3 & MS' & EK); [|now apply map_stack_snoc|].
    + rewrite map_app. cbn [map mkey rs_id]. now rewrite <- app_assoc.
    + exists items'. split; [exact M3|]. split; [exact MS'|]. rewrite EK, map_app. cbn [map mkey rs_id]. now rewrite <- app_assoc.
Qed.
Definition seq_stack (n : nat) (items : list (sitem nat)) : Prop :=
  concat (map (wsitem CBlock) items) = stacked n (map (fun it : sitem nat => DASH :: full (snd it)) items).
Lemma seq_stack_snoc n items ii v : seq_stack n items -> seq_stack n (items ++ [(ii, item_gap n items, v)]).
Proof.
  unfold seq_stack. intros H. rewrite !map_app, concat_app, H. cbn [map]. rewrite stacked_snoc. f_equal.
  cbn [concat wsitem dash_if]. rewrite app_nil_r. unfold item_gap. destruct items as [|it items]; [reflexivity|]. cbn [map]. rewrite nl_line. apply (f_equal (fun x => x ++ _)).
  assert (A : forallb (fun c => c <? 128) (line n) = true) by (clear; induction n as [|n IH]; [reflexivity|exact IH]).
  pose proof (lossy_ascii (line n) [] A) as L. rewrite !app_nil_r in L. exact L.
Qed.
Lemma pushes_stack c suf i p n es : forall items doc d2, models doc (plug c (TSeq i p n CBlock items)) suf -> calls hash i (doc_data doc) es d2 -> no_collision d2 ->
  Forall push_call es -> seq_stack n items ->
  exists items', models (edited doc d2) (plug c (TSeq i p n CBlock items')) suf /\ seq_stack n items' /\ length items' = (length items + length es)%nat.
Proof.
  induction es as [|e es IH]; intros items doc d2 M C N F MS; inversion F as [|? ? K F']; subst; inversion C as [|? ? h d1 ? ? E C']; subst.
  - exists items. cbn [length]. split; [destruct doc; exact M|]. split; [exact MS|lia].
  - pose proof (edit_step hash _ _ _ _ _ _ _ M E) as (v' & TI & M1 & _ & _). cbn [tid] in TI. rewrite <- TI in C'. pose proof (calls_before hash _ _ _ _ _ _ M1 C' N) as N1. rewrite TI in C'. cbn [edited doc_data] in N1.
    destruct (push_step _ _ _ _ _ _ _ _ _ _ M E N1 K) as (ii & v & M2).
    destruct (IH _ _ _ M2 C' N F') as (items' & M3 & MS' & EL); [now apply seq_stack_snoc|].
    exists items'. split; [exact M3|]. split; [exact MS'|]. rewrite EL, app_length. cbn [length]. lia.
Qed.

(* The text l leads up to the value id of doc when it is made a collection, and n is the
   indentation it gets.  The value is the root, and n is the column in which l ends; or it is in a
   mapping or a flow sequence of indentation m, and l ends in column n = m + 2; or it is in a block
   sequence after the layout g and a dash, where n is the width of the last line of g and two.
   Only there, and only if g has no line break of its own, l need not end in column n. *)
Inductive stands (doc : document) (id : nat) (l : bytes) (n : nat) : Prop :=
| at_root : id = doc_root doc -> ends_in l n -> stands doc id l n
| in_map s m k items it key : value_of doc s -> Data.mapping (doc_data doc) s = Ok (m, k, items) -> In it items -> mapping_item (doc_data doc) it = Ok (key, id) ->
    n = (m + 2)%nat -> ends_in l n -> stands doc id l n
| in_flow s m t x items it : value_of doc s -> Data.sequence (doc_data doc) s = Ok (m, CInline t x, items) -> In it items -> sequence_item (doc_data doc) it = Ok id ->
    n = (m + 2)%nat -> ends_in l n -> stands doc id l n
| after_dash s m items it g l0 w : value_of doc s -> Data.sequence (doc_data doc) s = Ok (m, CBlock, items) -> In it items -> sequence_item (doc_data doc) it = Ok id ->
    prefix (doc_data doc) it = Ok g -> l = l0 ++ lossy g ++ b "- " -> ends_in g w -> n = (w + 2)%nat ->
    (In NEWLINE g -> ends_in l n) -> (~ In NEWLINE g -> forall k, ends_in l0 k -> ends_in l (k + n)) -> stands doc id l n.
Lemma stands_at doc c v suf : models doc (plug c v) suf -> no_collision (doc_data doc) -> stands doc (tid v) (wleft c ++ snd (amake c v)) (fst (amake c v)).
Proof.
  intros M N. destruct (amake_stands c v) as [[-> H]|[(c' & i & p & m & k & before & ii & ip & key & r & E & EN & H)|[(c' & i & p & m & tr & x & before & ii & ip & r & E & EN & H)|(c' & i & p & m & before & ii & ip & r & l0 & E & EL & EN)]]].
  - apply at_root; [|now apply ends_in_count]. destruct M as (_ & R & _). symmetry. exact R.
  - rewrite E in M. rewrite plug_comp in M. cbn [plug] in M.
    pose proof (sub_plug c' (TMap i p m k (before ++ (ii, ip, key, v) :: r))) as S. assert (I : In (ii, ip, key, v) (before ++ (ii, ip, key, v) :: r)) by (apply in_or_app; right; now left).
    pose proof (ctx_value hash _ _ _ _ M) as VS. pose proof M as (M0 & _).
    eapply in_map with (s := i) (it := ii); [exact VS| | |exact (sub_map_item hash _ _ _ M0 _ _ _ _ _ _ _ _ _ S I)|exact EN|now apply ends_in_count].
    + unfold Data.mapping. rewrite (sub_raw hash _ _ _ M0 _ S : get_raw (doc_data doc) i = _). reflexivity.
    + apply in_map_iff. exists (ii, ip, key, v). auto.
  - rewrite E in M. rewrite plug_comp in M. cbn [plug] in M.
    pose proof (sub_plug c' (TSeq i p m (CInline tr x) (before ++ (ii, ip, v) :: r))) as S. assert (I : In (ii, ip, v) (before ++ (ii, ip, v) :: r)) by (apply in_or_app; right; now left).
    pose proof (ctx_value hash _ _ _ _ M) as VS. pose proof M as (M0 & _).
    eapply in_flow with (s := i) (it := ii); [exact VS| | |exact (sub_seq_item hash _ _ _ M0 _ _ _ _ _ _ _ _ S I)|exact EN|now apply ends_in_count].
    + unfold Data.sequence. rewrite (sub_raw hash _ _ _ M0 _ S : get_raw (doc_data doc) i = _). reflexivity.
    + apply in_map_iff. exists (ii, ip, v). auto.
  - rewrite E in M. rewrite plug_comp in M. cbn [plug] in M.
    pose proof (sub_plug c' (TSeq i p m CBlock (before ++ (ii, ip, v) :: r))) as S. assert (I : In (ii, ip, v) (before ++ (ii, ip, v) :: r)) by (apply in_or_app; right; now left).
    pose proof (ctx_value hash _ _ _ _ M) as VS. pose proof M as (M0 & _).
    eapply after_dash with (s := i) (it := ii) (g := ip); [exact VS| | |exact (sub_seq_item hash _ _ _ M0 _ _ _ _ _ _ _ _ S I)| |exact EL|now apply ends_in_count|exact EN| |].
    + unfold Data.sequence. rewrite (sub_raw hash _ _ _ M0 _ S : get_raw (doc_data doc) i = _). reflexivity.
    + apply in_map_iff. exists (ii, ip, v). auto.
    + unfold prefix, prefix_id, get_entry. rewrite (sub_sitem hash _ _ _ M0 _ _ _ _ _ _ _ _ S I). cbn [e_prefix].
      assert (LG : logged hash (doc_data doc) ip).
      { eapply sub_logged; [exact M0|exact S|]. cbn [strings]. right. apply in_or_app. right. apply in_flat_map. exists (ii, ip, v). split; [exact I|]. now left. }
      rewrite (str_look hash _ _ LG), (look_id hash _ _ _ M0 _ N LG). reflexivity.
    + intros I1. apply ends_in_count. rewrite EL, EN. exact (dash_column l0 ip I1).
    + intros I1 k X. apply ends_in_count in X. apply ends_in_count. rewrite EL, EN. etransitivity; [exact (dash_crooked l0 ip I1)|]. rewrite X.
      assert (Q : count_indent ip = length (chars ip)); [|lia]. unfold count_indent. apply (f_equal (fun x => length (chars x))). change ip with ([] ++ ip). apply after_nl; auto.
Qed.
(* What is printed of the value id: its layout and its text. *)
Definition printed (d : data) (id : nat) (t : bytes) : Prop := exists p s, prefix d id = Ok p /\ value_write_to d id = Ok s /\ t = p ++ s.
Lemma printed_sub doc t suf v : models doc t suf -> no_collision (doc_data doc) -> sub t v -> printed (doc_data doc) (tid v) (full v).
Proof.
  intros M N S. exists (tpre v), (wtree v). split; [exact (node_prefix hash _ _ _ _ M N S)|]. split; [|reflexivity].
  pose proof (models_int _ _ _ _ M N) as FI. pose proof M as (M0 & _). exact (node_write hash _ _ _ M0 FI v S).
Qed.
Lemma sep_concat l : sep [] l = concat l.
Proof. induction l as [|x l IH]; [reflexivity|]. cbn [sep concat]. destruct l as [|y l]; [cbn; now rewrite app_nil_r|]. rewrite IH. reflexivity. Qed.
End Stack.

(* Any number of entries: each after the first stands in column n, the first where l ends. *)
Theorem C21_mapping_text : forall hash doc id a r d1 es ks d2, built hash doc -> value_of doc id -> as_any (doc_data doc) id = Ok a -> a <> AMapping id ->
  run hash id MakeMapping (doc_data doc) = Ok (r, d1) -> calls hash id d1 es d2 -> no_collision hash d2 ->
  Forall2 (fun e k => insert_key e = Some k) es ks -> NoDup ks ->
  exists l n entries ts rest, stands doc id l n /\ map_entries d2 id entries /\ map fst entries = ks /\ Forall2 (fun e t => printed d2 (snd e) t) entries ts /\
    write_to (edited doc d2) = Ok (l ++ stacked n (zip keyed ks ts) ++ rest).
Proof.
  intros hash doc id a r d1 es ks d2 B V A NA E C N F ND. destruct (built_models _ _ _ _ B) as (t & suf & M). destruct (value_ctx hash _ _ _ _ M V) as (c & v & -> & <-).
  destruct (edit_step hash _ _ _ _ _ _ _ M E) as (v' & TI & M1 & G & EF).
  assert (N1 : no_collision hash d1) by (rewrite <- TI in C; exact (calls_before hash _ _ _ _ _ _ M1 C N)). pose proof (grows_nc hash _ _ G N1) as N0. specialize (EF N1).
  pose proof (models_int _ _ _ _ M N0) as FI. pose proof M as (M0 & _). rewrite (node_any hash _ _ _ M0 FI v (sub_plug c v)) in A. injection A as <-.
  assert (E' : exists n p, amake c v = (n, p) /\ v' = TMap (tid v) p n CBlock []).
  { inversion EF; subst; try (cbn in *; congruence); try match goal with H : _ \/ _ |- _ => exfalso; destruct H as [H|[H|[? H]]]; cbn in H; congruence end.
    - exfalso. match goal with H : is_map ?w = true |- _ => destruct w; try discriminate end. now apply NA.
    - eauto. }
  destruct E' as (n & p & AM & ->). destruct (inserts_stack hash c suf (tid v) p n es ks [] (edited doc d1) d2 M1 C N F ND eq_refl) as (items & M2 & MS & EK).
  cbn [map app] in EK. change (edited (edited doc d1) d2) with (edited doc d2) in M2.
  pose proof (models_int _ _ _ _ M2 N) as FI2. pose proof M2 as (M3 & _).
  exists (wleft c ++ p), n, (map mview items), (map mtext items), (wright c ++ suf). split; [|split; [|split; [|split]]].
  - pose proof (stands_at hash _ _ _ _ M N0) as ST. rewrite AM in ST. exact ST.
  - exact (node_entries hash _ _ _ M3 FI2 _ _ _ _ _ (sub_plug c _)).
  - rewrite map_map. exact EK.
  - assert (H : forall l, incl l items -> Forall2 (fun (e : bytes * nat) t => printed d2 (snd e) t) (map mview l) (map mtext l)).
    { induction l as [|[[[ii ip] key] w] l IH]; intros I; cbn [map]; constructor; [|apply IH; intros x X; apply I; now right].
      apply (printed_sub hash (edited doc d2) _ _ w M2 N). eapply sub_map; [apply sub_plug|]. apply I. now left. }
    exact (H items (incl_refl _)).
  - rewrite (models_write_to hash (edited doc d2) _ _ N M2). rewrite wdoc_plug. unfold full. cbn [tpre]. rewrite wtree_map. cbn [open_if comma_if closing app].
    rewrite <- EK. unfold map_stack in MS. rewrite <- MS, sep_concat. f_equal. rewrite <- !app_assoc. reflexivity.
Qed.
Print Assumptions C21_mapping_text.
Theorem C21_sequence_text : forall hash doc id a r d1 es d2, built hash doc -> value_of doc id -> as_any (doc_data doc) id = Ok a -> a <> ASequence id ->
  run hash id MakeSequence (doc_data doc) = Ok (r, d1) -> calls hash id d1 es d2 -> no_collision hash d2 -> Forall push_call es ->
  exists l n entries ts rest, stands doc id l n /\ seq_entries d2 id entries /\ length entries = length es /\ Forall2 (printed d2) entries ts /\
    write_to (edited doc d2) = Ok (l ++ stacked n (map (cons DASH) ts) ++ rest).
Proof.
  intros hash doc id a r d1 es d2 B V A NA E C N F. destruct (built_models _ _ _ _ B) as (t & suf & M). destruct (value_ctx hash _ _ _ _ M V) as (c & v & -> & <-).
  destruct (edit_step hash _ _ _ _ _ _ _ M E) as (v' & TI & M1 & G & EF).
  assert (N1 : no_collision hash d1) by (rewrite <- TI in C; exact (calls_before hash _ _ _ _ _ _ M1 C N)). pose proof (grows_nc hash _ _ G N1) as N0. specialize (EF N1).
  pose proof (models_int _ _ _ _ M N0) as FI. pose proof M as (M0 & _). rewrite (node_any hash _ _ _ M0 FI v (sub_plug c v)) in A. injection A as <-.
  assert (E' : exists n p, amake c v = (n, p) /\ v' = TSeq (tid v) p n CBlock []).
  { inversion EF; subst; try (cbn in *; congruence); try match goal with H : _ \/ _ |- _ => exfalso; destruct H as [H|[H|[? H]]]; cbn in H; congruence end.
    - exfalso. match goal with H : is_seq ?w = true |- _ => destruct w; try discriminate end. now apply NA.
    - eauto. }
  destruct E' as (n & p & AM & ->). destruct (pushes_stack hash c suf (tid v) p n es [] (edited doc d1) d2 M1 C N F eq_refl) as (items & M2 & MS & EK).
  change (edited (edited doc d1) d2) with (edited doc d2) in M2.
  pose proof (models_int _ _ _ _ M2 N) as FI2. pose proof M2 as (M3 & _).
  exists (wleft c ++ p), n, (map sview items), (map (fun it : sitem nat => full (snd it)) items), (wright c ++ suf). split; [|split; [|split; [|split]]].
  - pose proof (stands_at hash _ _ _ _ M N0) as ST. rewrite AM in ST. exact ST.
  - exact (node_sentries hash _ _ _ M3 _ _ _ _ _ (sub_plug c _)).
  - rewrite map_length. exact EK.
  - assert (H : forall l, incl l items -> Forall2 (printed d2) (map sview l) (map (fun it : sitem nat => full (snd it)) l)).
    { induction l as [|[[ii ip] w] l IH]; intros I; cbn [map]; constructor; [|apply IH; intros x X; apply I; now right].
      apply (printed_sub hash (edited doc d2) _ _ w M2 N). eapply sub_seq; [apply sub_plug|]. apply I. now left. }
    exact (H items (incl_refl _)).
  - rewrite (models_write_to hash (edited doc d2) _ _ N M2). rewrite wdoc_plug. unfold full. cbn [tpre]. rewrite wtree_seq. cbn [open_if comma_if closing app].
    rewrite map_map. unfold seq_stack in MS. unfold full in MS. rewrite <- MS, sep_concat. f_equal. rewrite <- !app_assoc. reflexivity.
Qed.
Print Assumptions C21_sequence_text.

(* ---- cases ---- *)
Definition c21_list : bytes := b "a:
  - x
  - y
".
Definition c21_keys : list edit := [InsertInt (b "k1") Unsigned8 1; InsertBool (b "k2") true].
Definition c21_loaded : document := match load c21_list with Ok doc => doc | _ => Doc (idhash []) O data_empty end.
Definition c21_id (doc : document) (p : list nat) : nat := match spot (doc_data doc) (doc_root doc) p with Some id => id | None => O end.
Definition c21_made (doc : document) (p : list nat) : data := match run idhash (c21_id doc p) MakeMapping (doc_data doc) with Ok (_, d) => d | _ => data_empty end.
Definition c21_filled (doc : document) (p : list nat) : data := match data_calls (c21_id doc p) c21_keys (c21_made doc p) with Some d => d | None => data_empty end.
Lemma c21_spot doc p : spot (doc_data doc) (doc_root doc) p <> None -> value_of doc (c21_id doc p).
Proof. unfold c21_id. destruct (spot _ _ p) as [id|] eqn:E; [|contradiction]. intros _. exact (place_value _ _ _ (spot_place _ _ _ E)). Qed.
(* The hypotheses of the theorem hold for the document doc and its value at p. *)
Definition c21_fits (doc : document) (p : list nat) : Prop :=
  let id := c21_id doc p in
  built idhash doc /\ value_of doc id /\ (exists a, as_any (doc_data doc) id = Ok a /\ a <> AMapping id) /\
  run idhash id MakeMapping (doc_data doc) = Ok (Handle id, c21_made doc p) /\ calls idhash id (c21_made doc p) c21_keys (c21_filled doc p) /\
  Forall2 (fun e k => insert_key e = Some k) c21_keys [b "k1"; b "k2"].
(* In the second item of a list, on a line of its own, the entries are aligned. *)
Definition c21_lead : bytes := b "a:
  - x
  - ".
Example C21_aligned_case : c21_fits c21_loaded [0; 1]%nat /\ stands c21_loaded (c21_id c21_loaded [0; 1]%nat) c21_lead 4 /\ ends_in c21_lead 4 /\
  write_to (edited c21_loaded (c21_filled c21_loaded [0; 1]%nat)) = Ok (c21_lead ++ stacked 4 (zip keyed [b "k1"; b "k2"] [b " 1"; b " true"]) ++ [NEWLINE]).
Proof.
  assert (EI : ends_in c21_lead 4) by (apply ends_in_count; reflexivity).
  split; [|split; [|split; [exact EI|vm_compute; reflexivity]]].
  - split; [apply (built_load c21_list); vm_compute; reflexivity|]. split; [apply c21_spot; vm_compute; discriminate|]. split; [eexists; split; [vm_compute; reflexivity|discriminate]|].
    split; [vm_compute; reflexivity|]. split; [apply data_called; vm_compute; reflexivity|]. repeat constructor.
  - eapply (after_dash _ _ _ _ (c21_id c21_loaded [0]%nat) _ _ _ (b "
  ") (b "a:
  - x") 2).
    + apply c21_spot. vm_compute. discriminate.
    + vm_compute. reflexivity.
    + right. left. reflexivity.
    + vm_compute. reflexivity.
    + vm_compute. reflexivity.
    + reflexivity.
    + apply ends_in_count. reflexivity.
    + reflexivity.
    + intros _. exact EI.
    + intros X. exfalso. apply X. vm_compute. auto.
Qed.
(* In the first item, which has no layout of its own, they are not: the dash stands in column 2. *)
Definition c21_first : bytes := b "a:
  - ".
Example C21_crooked_case : c21_fits c21_loaded [0; 0]%nat /\ stands c21_loaded (c21_id c21_loaded [0; 0]%nat) c21_first 2 /\ ends_in c21_first 4 /\
  write_to (edited c21_loaded (c21_filled c21_loaded [0; 0]%nat)) = Ok (c21_first ++ stacked 2 (zip keyed [b "k1"; b "k2"] [b " 1"; b " true"]) ++ b "
  - y
").
Proof.
  assert (EI : ends_in c21_first 4) by (apply ends_in_count; reflexivity).
  split; [|split; [|split; [exact EI|vm_compute; reflexivity]]].
  - split; [apply (built_load c21_list); vm_compute; reflexivity|]. split; [apply c21_spot; vm_compute; discriminate|]. split; [eexists; split; [vm_compute; reflexivity|discriminate]|].
    split; [vm_compute; reflexivity|]. split; [apply data_called; vm_compute; reflexivity|]. repeat constructor.
  - eapply (after_dash _ _ _ _ (c21_id c21_loaded [0]%nat) _ _ _ [] (b "a:
  ") 0).
    + apply c21_spot. vm_compute. discriminate.
    + vm_compute. reflexivity.
    + left. reflexivity.
    + vm_compute. reflexivity.
    + vm_compute. reflexivity.
    + reflexivity.
    + apply ends_in_count. reflexivity.
    + reflexivity.
    + intros [].
    + intros _ k X. apply ends_in_count in X. vm_compute in X. subst k. exact EI.
Qed.
