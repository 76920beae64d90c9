(* The calls a renderer makes do not depend on the sink: they are a fixed list of chunks, made
   in order up to the first error, and together the chunks are the rendered bytes. *)
From Coq Require Import List NArith Bool Arith Lia.
From Verif Require Import Bytes Utf8 Utf8Props Data Render Scan Sink.
Import ListNotations.
Local Open Scope N_scope.

(* Make the calls cs in order, up to the first error. *)
Fixpoint feed {W E} (put : W -> bytes -> W * option E) (cs : list bytes) (w : W) : W * option E :=
  match cs with
  | [] => (w, None)
  | c :: cs => match put w c with (w, None) => feed put cs w | r => r end
  end.
Lemma feed_app {W E} (put : W -> bytes -> W * option E) xs ys w : feed put (xs ++ ys) w = match feed put xs w with (w, None) => feed put ys w | r => r end.
Proof.
  revert w; induction xs as [|c xs IH]; intro w; [reflexivity|]. cbn [feed app].
  destruct (put w c) as [w' [e|]]; [reflexivity|apply IH].
Qed.

(* An action for every sink. *)
Definition poly : Type := forall W E : Type, (W -> bytes -> W * option E) -> W -> outcome (W * option E).
Definition calls (m : poly) (cs : list bytes) : Prop := forall W E (put : W -> bytes -> W * option E) w, m W E put w = Ok (feed put cs w).
Definition says (m : poly) (x : outcome bytes) : Prop := forall out, x = Ok out -> exists cs, concat cs = out /\ calls m cs.

Lemma says_ok (m : poly) x : (exists cs, concat cs = x /\ calls m cs) -> says m (Ok x).
Proof. intros H out Q. injection Q as <-. exact H. Qed.
Lemma says_done : says (fun W E put => done W E) (Ok []).
Proof. apply says_ok. exists []. split; [reflexivity|]. intros W E put w. reflexivity. Qed.
Lemma says_emit s : says (fun W E put => emit W E put s) (Ok s).
Proof.
  apply says_ok. exists [s]. split; [cbn; apply app_nil_r|]. intros W E put w. unfold emit. cbn [feed].
  destruct (put w s) as [w' [e|]]; reflexivity.
Qed.
Lemma says_next (m n : poly) x y : says m x -> says n y -> says (fun W E put => next W E (m W E put) (n W E put)) (x +++ y).
Proof.
  intros Hm Hn out Q. destruct x as [a| | | |]; try discriminate. destruct y as [c| | | |]; try discriminate. cbn [cat] in Q. injection Q as <-.
  destruct (Hm a eq_refl) as (xs & X & Cx). destruct (Hn c eq_refl) as (ys & Y & Cy). exists (xs ++ ys). split; [rewrite concat_app, X, Y; reflexivity|].
  intros W E put w. unfold next. rewrite Cx. rewrite feed_app. destruct (feed put xs w) as [w' [e|]]; [reflexivity|apply Cy].
Qed.
Lemma says_look {A} (x : outcome A) (k : A -> poly) (y : A -> outcome bytes) : (forall a, x = Ok a -> says (k a) (y a)) -> says (fun W E put => look W E x (fun a => k a W E put)) (match x with Ok a => y a | Err a e k => Err a e k | Hang => Hang | Panic => Panic | OutOfFuel => OutOfFuel end).
Proof.
  intro H. destruct x as [a|a e kd| | |]; try (intros out Q; discriminate Q). cbn [look]. apply (H a eq_refl).
Qed.
Lemma says_eq m x y : says m x -> (forall out, y = Ok out -> x = Ok out) -> says m y.
Proof. intros H Q out O. apply H. apply Q. exact O. Qed.

Section Cut.
Variable cut : bytes -> list bytes.
Hypothesis whole : forall s, concat (cut s) = s.
Variable d : data.

Lemma says_fmt s : says (fun W E put => fmt W E put cut s) (Ok s).
Proof.
  apply says_ok. exists (cut s). split; [apply whole|]. intros W E put. unfold fmt.
  induction (cut s) as [|c l IH]; intro w; [reflexivity|]. cbn [emits feed]. unfold next, emit.
  destruct (put w c) as [w' [e|]]; [reflexivity|apply IH].
Qed.
(* The text of a look-up followed by one call. *)
Lemma says_str x (f : bytes -> bytes) (k : bytes -> poly) : (forall s, says (k s) (Ok (f s))) -> says (fun W E put => look W E x (fun s => k s W E put)) (omap f x).
Proof.
  intro H. apply (says_eq _ _ _ (says_look x k (fun s => Ok (f s)) (fun s _ => H s))).
  intros out Q. destruct x; exact Q.
Qed.
Lemma omap_id x : omap (fun s => s) x = x.
Proof. destruct x; reflexivity. Qed.
Lemma says_emit_str x : says (fun W E put => look W E x (emit W E put)) x.
Proof.
  apply (says_eq _ _ _ (says_str x (fun s => s) (fun s W E put => emit W E put s) says_emit)). intros out Q. rewrite omap_id. exact Q.
Qed.

(* ---- the escapes of write_to ---- *)

Lemma memchr_none s : memchr SQUOTE s = None -> esc_single_body s = s.
Proof.
  induction s as [|c s IH]; [reflexivity|]. cbn [memchr esc_single_body]. destruct (c =? SQUOTE); [discriminate|].
  destruct (memchr SQUOTE s); [discriminate|]. intros _. f_equal. apply IH. reflexivity.
Qed.
Lemma memchr_some s : forall n, memchr SQUOTE s = Some n -> esc_single_body s = firstn n s ++ [SQUOTE; SQUOTE] ++ esc_single_body (skipn (n + 1) s) /\ (n < length s)%nat.
Proof.
  induction s as [|c s IH]; intros n; [discriminate|]. cbn [memchr esc_single_body]. destruct (c =? SQUOTE).
  - intro Q. injection Q as <-. cbn. split; [reflexivity|lia].
  - destruct (memchr SQUOTE s) as [k|]; [|discriminate]. intro Q. injection Q as <-. destruct (IH k eq_refl) as [I1 I2].
    replace (S k + 1)%nat with (S (k + 1)) by lia. cbn [firstn skipn length]. split; [cbn [app]; f_equal; exact I1|lia].
Qed.
Lemma says_single_loop f : forall s, (length s < f)%nat -> says (fun W E put => w_single_loop W E put f s) (Ok (esc_single_body s)).
Proof.
  induction f as [|f IH]; intros s L; [lia|]. cbn [w_single_loop]. destruct (memchr SQUOTE s) as [n|] eqn:M.
  - destruct (memchr_some s n M) as [-> L2]. apply (says_next _ _ (Ok (firstn n s)) (Ok ([SQUOTE; SQUOTE] ++ esc_single_body (skipn (n + 1) s)))); [apply says_emit|].
    apply (says_next _ _ (Ok [SQUOTE; SQUOTE]) (Ok (esc_single_body (skipn (n + 1) s)))); [apply says_emit|]. apply IH. rewrite skipn_length. lia.
  - rewrite (memchr_none s M). apply says_emit.
Qed.
Lemma says_single s : says (fun W E put => w_single W E put s) (Ok (esc_single s)).
Proof.
  unfold w_single, esc_single. apply (says_next _ _ (Ok [SQUOTE]) (Ok (esc_single_body s ++ [SQUOTE]))); [apply says_emit|].
  apply (says_next _ _ (Ok (esc_single_body s)) (Ok [SQUOTE])); [apply says_single_loop; lia|apply says_emit].
Qed.

Lemma esc_named c e : named c = Some e -> esc_double_byte c = e.
Proof.
  unfold named, esc_double_byte. intro Q.
  repeat (match type of Q with (if ?x then _ else _) = _ => destruct x; [injection Q as <-; reflexivity|] end). discriminate Q.
Qed.
Lemma esc_unnamed c : named c = None -> esc_double_byte c = if is_ascii_control c then hex2 c else [c].
Proof.
  unfold named, esc_double_byte. intro Q.
  repeat (match type of Q with (if ?x then _ else _) = _ => destruct x; [discriminate Q|] end). reflexivity.
Qed.
Lemma piece_all (s : bytes) a : skipn a s = piece s a (length s).
Proof. unfold piece. rewrite firstn_all. reflexivity. Qed.
(* One more byte of the pending piece. *)
Lemma piece_more (s : bytes) a z c r : skipn z s = c :: r -> (a <= z)%nat -> piece s a (z + 1) = piece s a z ++ [c].
Proof.
  intros Q L. unfold piece. assert (Z : (z < length s)%nat) by (destruct (Nat.lt_ge_cases z (length s)) as [Z|Z]; [exact Z|rewrite skipn_all2 in Q by exact Z; discriminate]).
  assert (F : firstn (z + 1) s = firstn z s ++ [c]).
  { rewrite <- (firstn_skipn z s) at 1. rewrite Q. rewrite firstn_app, firstn_length_le by lia. rewrite firstn_all2 by (rewrite firstn_length; lia).
    replace (z + 1 - z)%nat with 1%nat by lia. reflexivity. }
  rewrite F, skipn_app, firstn_length_le by lia. replace (a - z)%nat with O by lia. reflexivity.
Qed.
Lemma skipn_next (s : bytes) z c r : skipn z s = c :: r -> skipn (z + 1) s = r.
Proof. intro Q. rewrite Nat.add_comm, <- skipn_add, Q. reflexivity. Qed.

Lemma skipn_some (s : bytes) z c r : skipn z s = c :: r -> (z < length s)%nat.
Proof. intro Q. destruct (Nat.lt_ge_cases z (length s)) as [Z|Z]; [exact Z|rewrite skipn_all2 in Q by exact Z; discriminate]. Qed.
Lemma piece_none (s : bytes) z : piece s z z = [].
Proof. unfold piece. apply skipn_all2. rewrite firstn_length. lia. Qed.
Lemma says_double_loop s : forall rest start index, skipn index s = rest -> (start <= index)%nat -> says (fun W E put => w_double_loop W E put cut s start index rest) (Ok (piece s start index ++ flat_map esc_double_byte rest)).
Proof.
  induction rest as [|c rest IH]; intros start index Q L; cbn [w_double_loop flat_map].
  - rewrite app_nil_r. replace (piece s start index) with (skipn start s); [apply says_emit|]. unfold piece. f_equal. symmetry. apply firstn_all2.
    destruct (Nat.le_gt_cases (length s) index) as [Z|Z]; [exact Z|]. apply (f_equal (@length _)) in Q. rewrite skipn_length in Q. cbn in Q. lia.
  - pose proof (skipn_next _ _ _ _ Q) as Q'. destruct (named c) as [e|] eqn:Nm.
    + rewrite (esc_named _ _ Nm). apply (says_next _ _ (Ok (piece s start index)) (Ok (e ++ flat_map esc_double_byte rest))); [apply says_emit|].
      apply (says_next _ _ (Ok e) (Ok (flat_map esc_double_byte rest))); [apply says_emit|].
      pose proof (IH (index + 1)%nat (index + 1)%nat Q' (le_n _)) as R. rewrite piece_none in R. exact R.
    + rewrite (esc_unnamed _ Nm). destruct (is_ascii_control c).
      * apply (says_next _ _ (Ok (piece s start index)) (Ok (hex2 c ++ flat_map esc_double_byte rest))); [apply says_emit|].
        apply (says_next _ _ (Ok (hex2 c)) (Ok (flat_map esc_double_byte rest))); [apply says_fmt|].
        pose proof (IH (index + 1)%nat (index + 1)%nat Q' (le_n _)) as R. rewrite piece_none in R. exact R.
      * pose proof (IH start (index + 1)%nat Q' ltac:(lia)) as R. rewrite (piece_more _ _ _ _ _ Q L), <- app_assoc in R. exact R.
Qed.
Lemma says_double s : says (fun W E put => w_double W E put cut s) (Ok (esc_double s)).
Proof.
  unfold w_double, esc_double. apply (says_next _ _ (Ok [DQUOTE]) (Ok (flat_map esc_double_byte s ++ [DQUOTE]))); [apply says_emit|].
  apply (says_next _ _ (Ok (flat_map esc_double_byte s)) (Ok [DQUOTE])); [|apply says_emit].
  apply (says_double_loop s s 0%nat 0%nat); reflexivity.
Qed.

(* ---- the escapes of display ---- *)

Lemma disp_none s : memchr SQUOTE s = None -> forall acc, esc_single_disp_body acc s = lossy (rev acc ++ s).
Proof.
  induction s as [|c s IH]; intros M acc; cbn [esc_single_disp_body]; [rewrite app_nil_r; reflexivity|]. cbn [memchr] in M. destruct (c =? SQUOTE); [discriminate|].
  destruct (memchr SQUOTE s); [discriminate|]. rewrite (IH eq_refl). cbn [rev]. rewrite <- app_assoc. reflexivity.
Qed.
Lemma disp_some s : forall n, memchr SQUOTE s = Some n -> forall acc, esc_single_disp_body acc s = lossy (rev acc ++ firstn n s) ++ [SQUOTE; SQUOTE] ++ esc_single_disp_body [] (skipn (n + 1) s).
Proof.
  induction s as [|c s IH]; intros n; [discriminate|]. cbn [memchr esc_single_disp_body]. destruct (c =? SQUOTE).
  - intros Q acc. injection Q as <-. cbn [firstn]. rewrite app_nil_r. reflexivity.
  - destruct (memchr SQUOTE s) as [k|]; [|discriminate]. intros Q acc. injection Q as <-. rewrite (IH k eq_refl (c :: acc)).
    replace (S k + 1)%nat with (S (k + 1)) by lia. cbn [firstn skipn rev]. rewrite <- app_assoc. reflexivity.
Qed.
Lemma says_f_single_loop f : forall s, (length s < f)%nat -> says (fun W E put => f_single_loop W E put cut f s) (Ok (esc_single_disp_body [] s)).
Proof.
  induction f as [|f IH]; intros s L; [lia|]. cbn [f_single_loop]. destruct (memchr SQUOTE s) as [n|] eqn:M.
  - rewrite (disp_some s n M []). cbn [rev app]. destruct (memchr_some s n M) as [_ L2].
    apply (says_next _ _ (Ok (lossy (firstn n s))) (Ok ([SQUOTE; SQUOTE] ++ esc_single_disp_body [] (skipn (n + 1) s)))); [apply says_fmt|].
    apply (says_next _ _ (Ok [SQUOTE; SQUOTE]) (Ok (esc_single_disp_body [] (skipn (n + 1) s)))); [apply says_emit|]. apply IH. rewrite skipn_length. lia.
  - rewrite (disp_none s M []). apply says_fmt.
Qed.
Lemma says_f_single s : says (fun W E put => f_single W E put cut s) (Ok (esc_single_disp s)).
Proof.
  unfold f_single, esc_single_disp. apply (says_next _ _ (Ok [SQUOTE]) (Ok (esc_single_disp_body [] s ++ [SQUOTE]))); [apply says_emit|].
  apply (says_next _ _ (Ok (esc_single_disp_body [] s)) (Ok [SQUOTE])); [apply says_f_single_loop; lia|apply says_emit].
Qed.

(* Places between chars. *)
Inductive walk : bytes -> nat -> Prop :=
| walk_here s : walk s 0
| walk_char c r n k : snd (decode1 c r) = n -> walk (skipn n (c :: r)) k -> walk (c :: r) (n + k).
Lemma decode1_size c r : (1 <= snd (decode1 c r) <= S (length r))%nat.
Proof. pose proof (decode1_len c r) as H. destruct (decode1 c r) as [ok n]. cbn [snd]. lia. Qed.
(* What a char is does not depend on the bytes behind it. *)
Lemma decode1_cut c r m : (snd (decode1 c r) <= S m)%nat -> decode1 c (firstn m r) = decode1 c r.
Proof.
  unfold decode1. destruct (c <? 128); [reflexivity|]. destruct (lead c) as [[[len lo] hi]|]; [|reflexivity].
  destruct r as [|c1 r1]; [destruct m; reflexivity|]. destruct m as [|m]; cbn [firstn].
  { destruct (negb (between lo hi c1)); [reflexivity|]. destruct (len =? 2)%nat; [intro Y; cbn in Y; lia|]. destruct r1 as [|c2 r2]; [intro Y; cbn in Y; lia|]. destruct (negb (is_cont c2)); [intro Y; cbn in Y; lia|]. destruct (len =? 3)%nat; [intro Y; cbn in Y; lia|]. destruct r2 as [|c3 r3]; [intro Y; cbn in Y; lia|]. destruct (negb (is_cont c3)); intro Y; cbn in Y; lia. }
  destruct (negb (between lo hi c1)); [reflexivity|]. destruct (len =? 2)%nat; [reflexivity|]. destruct r1 as [|c2 r2]; [destruct m; reflexivity|]. destruct m as [|m]; cbn [firstn].
  { destruct (negb (is_cont c2)); [reflexivity|]. destruct (len =? 3)%nat; [intro Y; cbn in Y; lia|]. destruct r2 as [|c3 r3]; [intro Y; cbn in Y; lia|]. destruct (negb (is_cont c3)); intro Y; cbn in Y; lia. }
  destruct (negb (is_cont c2)); [reflexivity|]. destruct (len =? 3)%nat; [reflexivity|]. destruct r2 as [|c3 r3]; [destruct m; reflexivity|]. destruct m as [|m]; cbn [firstn]; [|reflexivity].
  destruct (negb (is_cont c3)); [reflexivity|intro Y; cbn in Y; lia].
Qed.
Definition the_char (c : byte) (r : bytes) : bytes := if fst (decode1 c r) then firstn (snd (decode1 c r)) (c :: r) else replacement.
Lemma chars_f_fuel f : forall g s, (length s <= f)%nat -> (length s <= g)%nat -> chars_f f s = chars_f g s.
Proof.
  induction f as [|f IH]; intros g s F G; [destruct s; [|cbn in F; lia]; destruct g; reflexivity|].
  destruct s as [|c r]; [destruct g; reflexivity|]. destruct g as [|g]; [cbn in G; lia|]. cbn [chars_f]. pose proof (decode1_size c r) as Z.
  destruct (decode1 c r) as [ok n]. cbn [snd] in Z. f_equal. cbn [length] in F, G. apply IH; rewrite skipn_length; cbn [length]; lia.
Qed.
Lemma chars_cons c r : chars (c :: r) = the_char c r :: chars (skipn (snd (decode1 c r)) (c :: r)).
Proof.
  unfold chars at 1, the_char. cbn [length chars_f]. pose proof (decode1_size c r) as Z. destruct (decode1 c r) as [ok n]. cbn [fst snd] in *. f_equal. unfold chars.
  apply chars_f_fuel; rewrite skipn_length; cbn [length]; lia.
Qed.
Lemma walk_snoc s k c r : walk s k -> skipn k s = c :: r -> walk s (k + snd (decode1 c r)).
Proof.
  intro H. induction H as [s|c0 r0 n k E H IH]; intro Q.
  - cbn [skipn] in Q. subst s. rewrite Nat.add_comm. constructor; [reflexivity|constructor].
  - rewrite <- Nat.add_assoc. constructor; [exact E|]. apply IH. rewrite skipn_add, Nat.add_comm. exact Q.
Qed.
Lemma walk_firstn s k : walk s k -> forall m, (k <= m)%nat -> walk (firstn m s) k.
Proof.
  intro H. induction H as [s|c r n k E H IH]; intros m L; [constructor|]. pose proof (decode1_size c r) as Z. destruct m as [|m]; [lia|]. cbn [firstn].
  assert (D : decode1 c (firstn m r) = decode1 c r) by (apply decode1_cut; lia).
  constructor; [rewrite D; exact E|]. specialize (IH (S m - n)%nat ltac:(lia)).
  replace (skipn n (c :: firstn m r)) with (firstn (S m - n) (skipn n (c :: r))); [exact IH|].
  change (c :: firstn m r) with (firstn (S m) (c :: r)). rewrite firstn_skipn_comm. f_equal. f_equal. lia.
Qed.
Lemma walk_chars s k : walk s k -> chars s = chars (firstn k s) ++ chars (skipn k s).
Proof.
  intro H. induction H as [s|c r n k E H IH]; [reflexivity|]. pose proof (decode1_size c r) as Z. transitivity (the_char c r :: chars (skipn n (c :: r))); [rewrite <- E; apply chars_cons|]. rewrite IH.
  destruct n as [|n]; [lia|].
  assert (X : chars (firstn (S n + k) (c :: r)) = the_char c r :: chars (firstn k (skipn (S n) (c :: r)))).
  { assert (D : decode1 c (firstn (n + k) r) = decode1 c r) by (apply decode1_cut; lia).
    transitivity (chars (c :: firstn (n + k) r)); [reflexivity|]. etransitivity; [apply chars_cons|]. rewrite D, E. f_equal.
    - unfold the_char. rewrite D, E. destruct (fst (decode1 c r)); [|reflexivity]. cbn [firstn]. f_equal. rewrite firstn_firstn. f_equal. lia.
    - f_equal. cbn [skipn]. rewrite firstn_skipn_comm. reflexivity. }
  etransitivity; [|apply (f_equal (fun l => l ++ _)); symmetry; exact X]. cbn [app]. f_equal. f_equal. f_equal. rewrite skipn_add, Nat.add_comm. reflexivity.
Qed.
Lemma chars_one c r : chars (firstn (snd (decode1 c r)) (c :: r)) = [the_char c r].
Proof.
  pose proof (decode1_size c r) as Z. destruct (snd (decode1 c r)) as [|n] eqn:E; [lia|].
  assert (D : decode1 c (firstn n r) = decode1 c r) by (apply decode1_cut; lia).
  transitivity (chars (c :: firstn n r)); [reflexivity|]. etransitivity; [apply chars_cons|]. rewrite D, E. f_equal.
  - unfold the_char. rewrite D, E. destruct (fst (decode1 c r)); [|reflexivity]. cbn [firstn]. rewrite firstn_firstn, Nat.min_id. reflexivity.
  - cbn [skipn]. replace (skipn n (firstn n r)) with (@nil byte) by (symmetry; apply skipn_all2; rewrite firstn_length; lia). reflexivity.
Qed.
Lemma lossy_more t k c r : walk t k -> skipn k t = c :: r -> lossy (firstn (k + snd (decode1 c r)) t) = lossy (firstn k t) ++ the_char c r.
Proof.
  intros H Q. pose proof (walk_chars _ _ (walk_firstn t k H (k + snd (decode1 c r)) ltac:(lia))) as R. unfold lossy. rewrite R, concat_app, firstn_firstn.
  replace (Nat.min k (k + snd (decode1 c r))) with k by lia. f_equal.
  rewrite <- (firstn_skipn_comm (snd (decode1 c r)) k t), Q, chars_one. apply app_nil_r.
Qed.

Definition esc_char (c : bytes) : bytes := match c with [c] => esc_double_byte c | c => c end.
Lemma low c : c < 128 -> forall r, decode1 c r = (true, 1%nat).
Proof. intros L r. unfold decode1. apply N.ltb_lt in L. rewrite L. reflexivity. Qed.
Lemma named_low c e : named c = Some e -> c < 128.
Proof.
  unfold named. intro Q.
  repeat (match type of Q with (if ?x then _ else _) = _ => let X := fresh in destruct x eqn:X; [apply N.eqb_eq in X; subst c; unfold NEWLINE, CR, DQUOTE; lia|] end). discriminate Q.
Qed.
Lemma control_low c : is_ascii_control c = true -> c < 128.
Proof. unfold is_ascii_control. intro H. apply orb_true_iff in H as [H|H]; [apply N.ltb_lt in H; lia|apply N.eqb_eq in H; lia]. Qed.
Lemma the_char_low c r : c < 128 -> the_char c r = [c].
Proof. intro L. unfold the_char. rewrite (low c L r). reflexivity. Qed.
(* A char that is not escaped by its first byte is written as it is. *)
Lemma esc_char_kept c r : named c = None -> is_ascii_control c = false -> esc_char (the_char c r) = the_char c r.
Proof.
  intros Nm A. destruct (N.lt_ge_cases c 128) as [L|L].
  - rewrite (the_char_low c r L). cbn [esc_char]. rewrite (esc_unnamed _ Nm), A. reflexivity.
  - pose proof (decode1_ok c r) as K. unfold the_char. destruct (decode1 c r) as [[|] n] eqn:D; cbn [fst snd]; [|reflexivity].
    assert (Z : (2 <= n)%nat).
    { clear K. unfold decode1 in D. apply N.ltb_ge in L. rewrite L in D. destruct (lead c) as [[[len lo] hi]|]; [|discriminate D]. destruct r as [|c1 r1]; [discriminate D|].
      destruct (negb (between lo hi c1)); [discriminate D|]. destruct (len =? 2)%nat; [injection D as <-; lia|]. destruct r1 as [|c2 r2]; [discriminate D|]. destruct (negb (is_cont c2)); [discriminate D|].
      destruct (len =? 3)%nat; [injection D as <-; lia|]. destruct r2 as [|c3 r3]; [discriminate D|]. destruct (negb (is_cont c3)); [discriminate D|]. injection D as <-. lia. }
    pose proof (decode1_size c r) as S1. rewrite D in S1. cbn [snd] in S1. destruct n as [|[|n]]; try lia. destruct r as [|c1 r1]; [cbn in S1; lia|]. reflexivity.
Qed.
Lemma piece_firstn (s : bytes) a z : piece s a z = firstn (z - a) (skipn a s).
Proof. unfold piece. rewrite skipn_firstn_comm. reflexivity. Qed.
Lemma says_f_double_loop s f : forall rest start index, (length rest < f)%nat -> skipn index s = rest -> (start <= index)%nat -> walk (skipn start s) (index - start) ->
  says (fun W E put => f_double_loop W E put cut f s start index rest) (Ok (lossy (piece s start index) ++ flat_map esc_char (chars rest))).
Proof.
  induction f as [|f IH]; intros rest start index F Q L K; [lia|]. cbn [f_double_loop]. destruct rest as [|c r].
  - cbn. rewrite app_nil_r. replace (piece s start index) with (skipn start s); [apply says_fmt|]. unfold piece. f_equal. symmetry. apply firstn_all2.
    destruct (Nat.le_gt_cases (length s) index) as [Z|Z]; [exact Z|]. apply (f_equal (@length _)) in Q. rewrite skipn_length in Q. cbn in Q. lia.
  - set (n := snd (decode1 c r)). pose proof (decode1_size c r) as Z. fold n in Z. cbn [length] in F.
    assert (Q' : skipn (index + n) s = skipn n (c :: r)) by (rewrite <- Q, skipn_add, Nat.add_comm; reflexivity).
    assert (F' : (length (skipn n (c :: r)) < f)%nat) by (rewrite skipn_length; cbn [length]; lia).
    pose proof (IH _ (index + n)%nat (index + n)%nat F' Q' (le_n _) ltac:(rewrite Nat.sub_diag; constructor)) as R. rewrite piece_none in R. cbn [lossy chars length chars_f concat app] in R.
    assert (Kt : skipn (index - start) (skipn start s) = c :: r) by (rewrite skipn_add; replace (index - start + start)%nat with index by lia; exact Q).
    rewrite chars_cons. cbn [flat_map]. fold n. destruct (named c) as [e|] eqn:Nm.
    + rewrite (the_char_low c r (named_low _ _ Nm)). cbn [esc_char]. rewrite (esc_named _ _ Nm), app_assoc.
      apply (says_next _ _ (Ok (lossy (piece s start index) ++ e)) (Ok (flat_map esc_char (chars (skipn n (c :: r)))))); [apply says_fmt|exact R].
    + destruct (is_ascii_control c) eqn:A.
      * rewrite (the_char_low c r (control_low _ A)). cbn [esc_char]. rewrite (esc_unnamed _ Nm), A, app_assoc.
        apply (says_next _ _ (Ok (lossy (piece s start index) ++ hex2 c)) (Ok (flat_map esc_char (chars (skipn n (c :: r)))))); [apply says_fmt|exact R].
      * rewrite (esc_char_kept c r Nm A). pose proof (walk_snoc _ _ _ _ K Kt) as K'. fold n in K'.
        pose proof (IH _ start (index + n)%nat F' Q' ltac:(lia)) as R'. replace (index + n - start)%nat with (index - start + n)%nat in R' by lia. specialize (R' K').
        rewrite piece_firstn in R'. replace (index + n - start)%nat with (index - start + n)%nat in R' by lia.
        pose proof (lossy_more _ _ _ _ K Kt) as LM. fold n in LM. rewrite LM in R'. rewrite <- app_assoc in R'. rewrite piece_firstn. exact R'.
Qed.
Lemma says_f_double s : says (fun W E put => f_double W E put cut s) (Ok (esc_double_disp s)).
Proof.
  unfold f_double, esc_double_disp. fold esc_char. apply (says_next _ _ (Ok [DQUOTE]) (Ok (flat_map esc_char (chars s) ++ [DQUOTE]))); [apply says_emit|].
  apply (says_next _ _ (Ok (flat_map esc_char (chars s))) (Ok [DQUOTE])); [|apply says_emit].
  apply (says_f_double_loop s (S (length s)) s 0%nat 0%nat); try reflexivity; [lia|constructor].
Qed.

(* ---- write_to ---- *)

Lemma says_string s : says (fun W E put => w_string W E put cut d s) (write_string d s).
Proof.
  unfold w_string, write_string. destruct (rs_kind s) as [| | | |p].
  - apply says_emit_str.
  - apply (says_str _ _ (fun s W E put => w_single W E put s) says_single).
  - apply (says_str _ _ (fun s W E put => w_double W E put cut s) says_double).
  - apply says_emit_str.
  - apply says_next; apply says_emit_str.
Qed.
Lemma says_scalar s : says (fun W E put => w_scalar W E put cut d s) (write_scalar d s).
Proof.
  destruct s as [[s| |]|v s|s h|s]; cbn [w_scalar write_scalar]; try apply says_emit_str.
  - apply says_fmt.
  - apply says_done.
  - apply says_string.
Qed.
Lemma says_if_inline k c : says (fun W E put => if_inline W E put cut k c) (Ok (open_if c k)).
Proof. destruct k; cbn [if_inline open_if]; [apply says_done|apply says_fmt]. Qed.
Lemma says_comma k : says (fun W E put => if_inline W E put cut k COMMA) (Ok (comma_if k)).
Proof. destruct k; cbn [if_inline comma_if]; [apply says_done|apply says_fmt]. Qed.
Lemma says_sep {A} (rest : list A) k : says (fun W E put => match rest with [] => done W E | _ => if_inline W E put cut k COMMA end) (Ok (match rest with [] => [] | _ => comma_if k end)).
Proof. destruct rest; [apply says_done|apply says_comma]. Qed.
Lemma says_if_block k : says (fun W E put => if_block W E put cut k DASH) (Ok (match k with CBlock => [DASH] | _ => [] end)).
Proof. destruct k; cbn [if_block]; [apply says_fmt|apply says_done]. Qed.
Lemma says_trailing tr : says (fun W E put => if tr : bool then fmt W E put cut [COMMA] else done W E) (Ok (if tr then [COMMA] else [])).
Proof. destruct tr; [apply says_fmt|apply says_done]. Qed.
Lemma says_close c k : says (fun W E put => w_close W E put cut d c k) (close_with d (fun x => x) c k).
Proof.
  destruct k as [|tr suf]; cbn [w_close close_with]; [apply says_done|]. apply says_next; [apply says_trailing|]. apply says_next; [|apply says_fmt]. rewrite omap_id. apply says_emit_str.
Qed.
Lemma says_lossy x : says (fun W E put => look W E x (fun p => fmt W E put cut (lossy p))) (omap lossy x).
Proof. apply (says_str x lossy (fun s W E put => fmt W E put cut (lossy s))). intro s. apply says_fmt. Qed.
(* A look-up that panics when it fails. *)
Lemma says_get {A} (x : outcome A) (k : A -> poly) (y : A -> outcome bytes) : (forall a, says (k a) (y a)) -> says (fun W E put => look W E x (fun a => k a W E put)) (match x with Ok a => y a | _ => Panic end).
Proof.
  intro H. apply (says_eq _ _ _ (says_look x k y (fun a _ => H a))). intros out Q. destruct x; try discriminate Q; exact Q.
Qed.
Section Items.
  Variable m : raw sid -> poly.
  Variable y : raw sid -> outcome bytes.
  Hypothesis my : forall r, says (m r) (y r).
  Lemma says_value v : says (fun W E put => w_value W E put d (fun r => m r W E put) v) (write_value d y v).
  Proof. unfold w_value, write_value. apply says_next; [apply says_emit_str|]. apply (says_get _ m y my). Qed.
  Lemma says_seq_items k items : says (fun W E put => w_seq_items W E put cut d (fun r => m r W E put) k items) (write_seq_items d y k items).
  Proof.
    induction items as [|it rest IH]; cbn [w_seq_items write_seq_items]; [apply says_done|].
    apply says_next; [apply says_lossy|]. apply says_next; [apply says_if_block|]. apply says_next; [|apply says_next; [apply says_sep|exact IH]].
    apply (says_get _ (fun v W E put => w_value W E put d (fun r => m r W E put) v) (write_value d y)). intro v. apply says_value.
  Qed.
  Lemma says_map_items k items : says (fun W E put => w_map_items W E put cut d (fun r => m r W E put) k items) (write_map_items d y k items).
  Proof.
    induction items as [|it rest IH]; cbn [w_map_items write_map_items]; [apply says_done|].
    apply says_next; [apply says_emit_str|]. apply says_next; [|apply says_next; [apply says_sep|exact IH]].
    apply (says_eq _ (match mapping_item d it with Ok kv => write_string d (fst kv) +++ Ok [COLON] +++ write_value d y (snd kv) | _ => Panic end)).
    - apply (says_get _ (fun kv W E put => next W E (w_string W E put cut d (fst kv)) (next W E (fmt W E put cut [COLON]) (w_value W E put d (fun r => m r W E put) (snd kv))))
        (fun kv => write_string d (fst kv) +++ Ok [COLON] +++ write_value d y (snd kv))).
      intro kv. apply says_next; [apply says_string|]. apply says_next; [apply says_fmt|]. apply says_value.
    - intros out Q. destruct (mapping_item d it) as [[key v]| | | |]; exact Q.
  Qed.
End Items.
Lemma says_raw f : forall r, says (fun W E put => w_raw W E put cut d f r) (write_raw d f r).
Proof.
  induction f as [|f IH]; intro r; cbn [w_raw write_raw]; [intros out Q; discriminate|].
  destruct r as [s|n k items|key v|n k items|v].
  - apply says_scalar.
  - apply says_next; [apply says_if_inline|]. apply says_next; [|apply says_close]. apply (says_map_items (fun r W E put => w_raw W E put cut d f r) (write_raw d f) IH).
  - apply says_next; [apply says_string|]. apply says_next; [apply says_fmt|]. apply (says_value (fun r W E put => w_raw W E put cut d f r) (write_raw d f) IH).
  - apply says_next; [apply says_if_inline|]. apply says_next; [|apply says_close]. apply (says_seq_items (fun r W E put => w_raw W E put cut d f r) (write_raw d f) IH).
  - apply (says_value (fun r W E put => w_raw W E put cut d f r) (write_raw d f) IH).
Qed.

(* ---- display ---- *)

Lemma says_show id : says (fun W E put => f_show W E put cut d id) (show d id).
Proof. apply says_lossy. Qed.
Lemma says_f_pre p : says (fun W E put => f_pre W E put cut d p) (show_pre d p).
Proof. destruct p; cbn [f_pre show_pre]; [apply says_lossy|apply says_done]. Qed.
Lemma says_f_string s : says (fun W E put => f_string W E put cut d s) (disp_string d s).
Proof.
  unfold f_string, disp_string. destruct (rs_kind s) as [| | | |p].
  - apply says_show.
  - apply (says_str _ _ (fun s W E put => f_single W E put cut s) says_f_single).
  - apply (says_str _ _ (fun s W E put => f_double W E put cut s) says_f_double).
  - apply says_show.
  - apply says_next; apply says_show.
Qed.
Lemma says_f_scalar s p : says (fun W E put => f_scalar W E put cut d s p) (disp_scalar d s p).
Proof.
  destruct s as [[s| |]|v s|s h|s]; cbn [f_scalar disp_scalar].
  - apply says_next; [apply says_f_pre|apply says_show].
  - apply says_next; [apply says_f_pre|apply says_fmt].
  - apply says_done.
  - apply says_next; [apply says_f_pre|apply says_show].
  - apply says_next; [apply says_f_pre|apply says_show].
  - apply says_next; [apply says_f_pre|apply says_f_string].
Qed.
Lemma says_f_coll k items p : says (fun W E put => f_coll W E put cut d k items p) (coll_pre d k items p).
Proof. destruct k, items; cbn [f_coll coll_pre]; try apply says_f_pre. apply says_done. Qed.
Lemma says_f_close c k : says (fun W E put => f_close W E put cut d c k) (close_with d lossy c k).
Proof.
  destruct k as [|tr suf]; cbn [f_close close_with]; [apply says_done|]. apply says_next; [apply says_trailing|].
  apply (says_eq _ (omap (fun s => lossy s ++ [c]) (str d suf))).
  - apply (says_str _ _ (fun s W E put => fmt W E put cut (lossy s ++ [c]))). intro s. apply says_fmt.
  - intros out Q. destruct (str d suf); exact Q.
Qed.
Section DItems.
  Variable m : raw sid -> option nat -> poly.
  Variable y : raw sid -> option nat -> outcome bytes.
  Hypothesis my : forall r p, says (m r p) (y r p).
  Lemma says_f_value v : says (fun W E put => f_value W E d (fun r p => m r p W E put) v) (disp_value d y v).
  Proof. unfold f_value, disp_value. apply (says_get _ (fun r => m r (Some v)) (fun r => y r (Some v))). intro r. apply my. Qed.
  Lemma says_f_seq_items k items : says (fun W E put => f_seq_items W E put cut d (fun r p => m r p W E put) k items) (disp_seq_items d y k items).
  Proof.
    induction items as [|it rest IH]; cbn [f_seq_items disp_seq_items]; [apply says_done|].
    apply says_next; [apply says_lossy|]. apply says_next; [apply says_if_block|]. apply says_next; [|apply says_next; [apply says_sep|exact IH]].
    apply (says_get _ (fun v W E put => f_value W E d (fun r p => m r p W E put) v) (disp_value d y)). intro v. apply says_f_value.
  Qed.
  Lemma says_f_map_items k items : says (fun W E put => f_map_items W E put cut d (fun r p => m r p W E put) k items) (disp_map_items d y k items).
  Proof.
    induction items as [|it rest IH]; cbn [f_map_items disp_map_items]; [apply says_done|].
    apply says_next; [|apply says_next; [apply says_sep|exact IH]].
    apply (says_eq _ (match mapping_item d it with Ok kv => omap lossy (pre d it) +++ disp_string d (fst kv) +++ Ok [COLON] +++ disp_value d y (snd kv) | _ => Panic end)).
    - apply (says_get _ (fun kv W E put => next W E (f_prefix W E put cut d it) (next W E (f_string W E put cut d (fst kv)) (next W E (fmt W E put cut [COLON]) (f_value W E d (fun r p => m r p W E put) (snd kv)))))
        (fun kv => omap lossy (pre d it) +++ disp_string d (fst kv) +++ Ok [COLON] +++ disp_value d y (snd kv))).
      intro kv. apply says_next; [apply says_lossy|]. apply says_next; [apply says_f_string|]. apply says_next; [apply says_fmt|]. apply says_f_value.
    - intros out Q. destruct (mapping_item d it) as [[key v]| | | |]; exact Q.
  Qed.
End DItems.
Lemma says_f_raw f : forall r p, says (fun W E put => f_raw W E put cut d f r p) (disp_raw d f r p).
Proof.
  induction f as [|f IH]; intros r p; cbn [f_raw disp_raw]; [intros out Q; discriminate|].
  destruct r as [s|n k items|key v|n k items|v].
  - apply says_f_scalar.
  - apply says_next; [apply says_f_coll|]. apply says_next; [apply says_if_inline|]. apply says_next; [|apply says_f_close]. apply (says_f_map_items (fun r p W E put => f_raw W E put cut d f r p) (disp_raw d f) IH).
  - apply says_next; [apply says_f_pre|]. apply says_next; [apply says_f_string|]. apply says_next; [apply says_fmt|]. apply (says_f_value (fun r p W E put => f_raw W E put cut d f r p) (disp_raw d f) IH).
  - apply says_next; [apply says_f_coll|]. apply says_next; [apply says_if_inline|]. apply says_next; [|apply says_f_close]. apply (says_f_seq_items (fun r p W E put => f_raw W E put cut d f r p) (disp_raw d f) IH).
  - apply says_next; [apply says_f_pre|]. apply (says_f_value (fun r p W E put => f_raw W E put cut d f r p) (disp_raw d f) IH).
Qed.
End Cut.

(* What Document::write_to and Display do on any sink. *)
Lemma says_write_to cut (whole : forall s, concat (cut s) = s) doc : says (fun W E put w => write_to_sink put cut doc w) (write_to doc).
Proof.
  unfold write_to. change (says (fun W E put => w_document W E put cut (doc_data doc) (doc_root doc) (doc_suffix doc)) (write_to doc)).
  unfold w_document, write_to. apply says_next; [apply says_emit_str|]. apply says_next; [|apply says_emit_str].
  apply (says_get _ (fun r W E put => w_raw W E put cut (doc_data doc) (render_fuel (doc_data doc)) r) (write_raw (doc_data doc) (render_fuel (doc_data doc)))).
  intro r. apply says_raw. exact whole.
Qed.
Lemma says_display_value cut (whole : forall s, concat (cut s) = s) d id : says (fun W E put w => display_value_sink put cut d id w) (value_to_string d id).
Proof.
  change (says (fun W E put => f_of_value W E put cut d id) (value_to_string d id)). unfold f_of_value, value_to_string.
  apply (says_get _ (fun r W E put => f_raw W E put cut d (render_fuel d) r None) (fun r => disp_raw d (render_fuel d) r None)). intro r. apply says_f_raw. exact whole.
Qed.
Lemma says_display cut (whole : forall s, concat (cut s) = s) doc : says (fun W E put w => display_sink put cut doc w) (to_string doc).
Proof.
  change (says (fun W E put => f_document W E put cut (doc_data doc) (doc_root doc) (doc_suffix doc)) (to_string doc)).
  unfold f_document, to_string. apply says_next; [apply says_lossy; exact whole|]. apply says_next; [|apply says_lossy; exact whole].
  apply (says_get _ (fun r W E put => f_raw W E put cut (doc_data doc) (render_fuel (doc_data doc)) r None) (fun r => disp_raw (doc_data doc) (render_fuel (doc_data doc)) r None)).
  intro r. apply says_f_raw. exact whole.
Qed.
