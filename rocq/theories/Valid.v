(* Making text valid UTF-8: what Display does with invalid bytes. *)
From Coq Require Import List NArith Bool Arith Lia.
From Verif Require Import Bytes Utf8 Utf8Props.
Import ListNotations.
Local Open Scope N_scope.

(* The UTF-8 encoding of a scalar value: a code point that is not a surrogate. *)
Inductive encoded : N -> bytes -> Prop :=
| en_one c : c < 0x80 -> encoded c [c]
| en_two a c : 0x80 <= 64 * a + c -> a < 32 -> c < 64 -> encoded (64 * a + c) [192 + a; 128 + c]
| en_three a c e : 0x800 <= 4096 * a + 64 * c + e -> a < 16 -> c < 64 -> e < 64 -> ~ 0xd800 <= 4096 * a + 64 * c + e <= 0xdfff ->
    encoded (4096 * a + 64 * c + e) [224 + a; 128 + c; 128 + e]
| en_four a c e f : 0x10000 <= 262144 * a + 4096 * c + 64 * e + f <= 0x10ffff -> a < 8 -> c < 64 -> e < 64 -> f < 64 ->
    encoded (262144 * a + 4096 * c + 64 * e + f) [240 + a; 128 + c; 128 + e; 128 + f].
Definition encoding (x : bytes) : Prop := exists c, encoded c x.
(* x could go on to an encoding. *)
Definition beginning (x : bytes) : Prop := exists y, encoding (x ++ y).
(* U+FFFD takes the place of each maximal part that begins an encoding but does not go on to
   one, and of each byte that begins none. *)
Definition bad_part (x r : bytes) : Prop := x <> [] /\ ~ encoding x /\ (beginning x \/ exists c, x = [c]) /\ forall c r', r = c :: r' -> ~ beginning (x ++ [c]).
Inductive made_valid : bytes -> bytes -> Prop :=
| mv_nil : made_valid [] []
| mv_char x r s : encoding x -> made_valid r s -> made_valid (x ++ r) (x ++ s)
| mv_bad x r s z : bad_part x r -> encoded 0xfffd z -> made_valid r s -> made_valid (x ++ r) (z ++ s).

(* ---- the table ---- *)
Definition tabled (c : byte) (k : nat) (lo hi : N) : Prop :=
  (194 <= c <= 223 /\ k = 2%nat /\ lo = 128 /\ hi = 191) \/ (c = 224 /\ k = 3%nat /\ lo = 160 /\ hi = 191) \/
  (225 <= c <= 236 /\ k = 3%nat /\ lo = 128 /\ hi = 191) \/ (c = 237 /\ k = 3%nat /\ lo = 128 /\ hi = 159) \/
  (238 <= c <= 239 /\ k = 3%nat /\ lo = 128 /\ hi = 191) \/ (c = 240 /\ k = 4%nat /\ lo = 144 /\ hi = 191) \/
  (241 <= c <= 243 /\ k = 4%nat /\ lo = 128 /\ hi = 191) \/ (c = 244 /\ k = 4%nat /\ lo = 128 /\ hi = 143).
Lemma between_iff lo hi c : between lo hi c = true <-> lo <= c <= hi.
Proof. unfold between. rewrite andb_true_iff, !N.leb_le. tauto. Qed.
Lemma between_not lo hi c : between lo hi c = false <-> ~ (lo <= c <= hi).
Proof. rewrite <- between_iff. destruct (between lo hi c); intuition congruence. Qed.
Lemma lead_tabled c k lo hi : lead c = Some (k, lo, hi) <-> tabled c k lo hi.
Proof.
  unfold lead, tabled. destruct (between 194 223 c) eqn:B1; [apply between_iff in B1|apply between_not in B1].
  { split; intros H; [injection H as <- <- <-; tauto|]. repeat (destruct H as [(H & -> & -> & ->)|H]; [first [reflexivity|lia]|]). lia. }
  destruct (N.eqb_spec c 224) as [->|N1]. { split; intros H; [injection H as <- <- <-; lia|]. repeat (destruct H as [(H & -> & -> & ->)|H]; [first [reflexivity|lia]|]). lia. }
  destruct (between 225 236 c) eqn:B2; [apply between_iff in B2|apply between_not in B2].
  { split; intros H; [injection H as <- <- <-; tauto|]. repeat (destruct H as [(H & -> & -> & ->)|H]; [first [reflexivity|lia]|]). lia. }
  destruct (N.eqb_spec c 237) as [->|N2]. { split; intros H; [injection H as <- <- <-; lia|]. repeat (destruct H as [(H & -> & -> & ->)|H]; [first [reflexivity|lia]|]). lia. }
  destruct (between 238 239 c) eqn:B3; [apply between_iff in B3|apply between_not in B3].
  { split; intros H; [injection H as <- <- <-; tauto|]. repeat (destruct H as [(H & -> & -> & ->)|H]; [first [reflexivity|lia]|]). lia. }
  destruct (N.eqb_spec c 240) as [->|N3]. { split; intros H; [injection H as <- <- <-; lia|]. repeat (destruct H as [(H & -> & -> & ->)|H]; [first [reflexivity|lia]|]). lia. }
  destruct (between 241 243 c) eqn:B4; [apply between_iff in B4|apply between_not in B4].
  { split; intros H; [injection H as <- <- <-; tauto|]. repeat (destruct H as [(H & -> & -> & ->)|H]; [first [reflexivity|lia]|]). lia. }
  destruct (N.eqb_spec c 244) as [->|N4]. { split; intros H; [injection H as <- <- <-; lia|]. repeat (destruct H as [(H & -> & -> & ->)|H]; [first [reflexivity|lia]|]). destruct H as (_ & -> & -> & ->). reflexivity. }
  split; [discriminate|]. intros H. exfalso. lia.
Qed.
Definition cont (c : byte) : Prop := 128 <= c <= 191.
(* The encodings, byte by byte. *)
Inductive shaped_char : bytes -> Prop :=
| sh_one c : c < 128 -> shaped_char [c]
| sh_two c lo hi c1 : tabled c 2 lo hi -> lo <= c1 <= hi -> shaped_char [c; c1]
| sh_three c lo hi c1 c2 : tabled c 3 lo hi -> lo <= c1 <= hi -> cont c2 -> shaped_char [c; c1; c2]
| sh_four c lo hi c1 c2 c3 : tabled c 4 lo hi -> lo <= c1 <= hi -> cont c2 -> cont c3 -> shaped_char [c; c1; c2; c3].
Lemma encoding_shaped x : encoding x <-> shaped_char x.
Proof.
  split.
  - intros (v & [c L|a c V A C|a c e V A C E S|a c e f V A C E F]).
    + now constructor.
    + apply (sh_two _ 128 191); [unfold tabled|]; lia.
    + destruct (N.eq_dec a 0) as [->|NZ]; [apply (sh_three _ 160 191)|destruct (N.eq_dec a 13) as [->|ND]; [apply (sh_three _ 128 159)|apply (sh_three _ 128 191)]]; unfold tabled, cont; lia.
    + destruct (N.eq_dec a 0) as [->|NZ]; [apply (sh_four _ 144 191)|destruct (N.eq_dec a 4) as [->|ND]; [apply (sh_four _ 128 143)|apply (sh_four _ 128 191)]]; unfold tabled, cont; lia.
  - intros [c L|c lo hi c1 T R|c lo hi c1 c2 T R C2|c lo hi c1 c2 c3 T R C2 C3]; unfold tabled, cont in *.
    + eexists. now apply en_one.
    + replace c with (192 + (c - 192)) by lia. replace c1 with (128 + (c1 - 128)) by lia. eexists. apply en_two; lia.
    + replace c with (224 + (c - 224)) by lia. replace c1 with (128 + (c1 - 128)) by lia. replace c2 with (128 + (c2 - 128)) by lia. eexists. apply en_three; lia.
    + replace c with (240 + (c - 240)) by lia. replace c1 with (128 + (c1 - 128)) by lia. replace c2 with (128 + (c2 - 128)) by lia. replace c3 with (128 + (c3 - 128)) by lia.
      eexists. apply en_four; lia.
Qed.
Lemma tabled_det c k lo hi k' lo' hi' : tabled c k lo hi -> tabled c k' lo' hi' -> k = k' /\ lo = lo' /\ hi = hi'.
Proof. intros A B. apply lead_tabled in A, B. rewrite A in B. injection B as -> -> ->. auto. Qed.
Lemma tabled_high c k lo hi : tabled c k lo hi -> 128 <= c /\ 128 <= lo <= hi /\ hi <= 191 /\ (k = 2 \/ k = 3 \/ k = 4)%nat.
Proof. unfold tabled. lia. Qed.
(* decode1 finds the encoding at the start, or the bad part. *)
Lemma decode1_split c r : let '(ok, n) := decode1 c r in (1 <= n)%nat /\
  if ok then encoding (firstn n (c :: r)) else bad_part (firstn n (c :: r)) (skipn n (c :: r)).
Proof.
  unfold decode1. destruct (N.ltb_spec c 128) as [L|L]; [cbn; split; [lia|exists c; now constructor]|].
  assert (NO : forall k, ~ shaped_char (c :: k) \/ 128 <= c) by auto.
  destruct (lead c) as [[[k lo] hi]|] eqn:LD.
  - apply lead_tabled in LD. pose proof (tabled_high _ _ _ _ LD) as (_ & LO & HI & K).
    assert (FULL : beginning [c]).
    { destruct K as [->|[->| ->]]; [exists [lo]|exists [lo; 128]|exists [lo; 128; 128]]; apply encoding_shaped; cbn [app];
        [apply (sh_two c lo hi)|apply (sh_three c lo hi)|apply (sh_four c lo hi)]; unfold cont; auto; lia. }
    assert (N1 : ~ encoding [c]) by (intros X; apply encoding_shaped in X; inversion X; subst; lia).
    destruct r as [|c1 r1]; [cbn; split; [lia|]; split; [discriminate|]; split; [exact N1|]; split; [left; exact FULL|discriminate]|].
    destruct (between lo hi c1) eqn:B1; cbn [negb]; [apply between_iff in B1|apply between_not in B1].
    2: { cbn. split; [lia|]. split; [discriminate|]. split; [exact N1|]. split; [left; exact FULL|]. intros c' r' E. injection E as <- <-. intros (y & Y). apply encoding_shaped in Y. cbn [app] in Y.
         inversion Y as [|? ? ? ? T R|? ? ? ? ? T R|? ? ? ? ? ? T R]; subst; destruct (tabled_det _ _ _ _ _ _ _ LD T) as (_ & -> & ->); lia. }
    destruct (Nat.eqb_spec k 2) as [->|K2]. { cbn. split; [lia|]. apply encoding_shaped. now apply (sh_two c lo hi). }
    assert (N2 : ~ encoding [c; c1]) by (intros X; apply encoding_shaped in X; inversion X as [|? ? ? ? T R| |]; subst; destruct (tabled_det _ _ _ _ _ _ _ LD T) as (E & _); lia).
    assert (FULL2 : beginning [c; c1]).
    { destruct K as [->|[->| ->]]; [lia|exists [128]|exists [128; 128]]; apply encoding_shaped; cbn [app];
        [apply (sh_three c lo hi)|apply (sh_four c lo hi)]; unfold cont; auto; lia. }
    destruct r1 as [|c2 r2]; [cbn; split; [lia|]; split; [discriminate|]; split; [exact N2|]; split; [left; exact FULL2|discriminate]|].
    unfold is_cont. destruct (between 128 191 c2) eqn:B2; cbn [negb]; [apply between_iff in B2|apply between_not in B2].
    2: { cbn. split; [lia|]. split; [discriminate|]. split; [exact N2|]. split; [left; exact FULL2|]. intros c' r' E. injection E as <- <-. intros (y & Y). apply encoding_shaped in Y. cbn [app] in Y.
         inversion Y as [| |? ? ? ? ? T R C2|? ? ? ? ? ? T R C2]; subst; unfold cont in C2; lia. }
    destruct (Nat.eqb_spec k 3) as [->|K3]. { cbn. split; [lia|]. apply encoding_shaped. now apply (sh_three c lo hi). }
    assert (k = 4)%nat as -> by lia.
    assert (N3 : ~ encoding [c; c1; c2]) by (intros X; apply encoding_shaped in X; inversion X as [| |? ? ? ? ? T R|]; subst; destruct (tabled_det _ _ _ _ _ _ _ LD T) as (E & _); lia).
    assert (FULL3 : beginning [c; c1; c2]) by (exists [128]; apply encoding_shaped; cbn [app]; apply (sh_four c lo hi); unfold cont; auto; lia).
    destruct r2 as [|c3 r3]; [cbn; split; [lia|]; split; [discriminate|]; split; [exact N3|]; split; [left; exact FULL3|discriminate]|].
    destruct (between 128 191 c3) eqn:B3; cbn [negb]; [apply between_iff in B3|apply between_not in B3].
    2: { cbn. split; [lia|]. split; [discriminate|]. split; [exact N3|]. split; [left; exact FULL3|]. intros c' r' E. injection E as <- <-. intros (y & Y). apply encoding_shaped in Y. cbn [app] in Y.
         inversion Y as [| | |? ? ? ? ? ? T R C2 C3]; subst; unfold cont in C3; lia. }
    cbn. split; [lia|]. apply encoding_shaped. now apply (sh_four c lo hi).
  - assert (NT : forall k lo hi, ~ tabled c k lo hi) by (intros k lo hi T; apply lead_tabled in T; congruence).
    assert (NB : forall y, ~ encoding (c :: y)) by (intros y Y; apply encoding_shaped in Y; inversion Y; subst; [lia|now eapply NT; eauto..]).
    cbn. split; [lia|]. split; [discriminate|]. split; [apply NB|]. split; [right; eauto|]. intros c' r' _ (y & Y). exact (NB _ Y).
Qed.
Lemma chars_f_valid f : forall s, (length s <= f)%nat -> made_valid s (concat (chars_f f s)).
Proof.
  induction f as [|f IH]; intros s L; [destruct s; [constructor|cbn in L; lia]|]. destruct s as [|c r]; [constructor|]. cbn [chars_f].
  pose proof (decode1_split c r) as D. destruct (decode1 c r) as [ok n]. destruct D as [N D]. cbn [concat].
  assert (LE : (length (skipn n (c :: r)) <= f)%nat) by (rewrite skipn_length; cbn [length] in L |- *; unfold bytes, byte in *; lia).
  set (x := firstn n (c :: r)) in *. assert (E : c :: r = x ++ skipn n (c :: r)) by (symmetry; apply firstn_skipn). rewrite E at 1.
  destruct ok; [apply mv_char|apply mv_bad]; auto.
  exact (en_three 15 63 61 ltac:(cbn; lia) ltac:(lia) ltac:(lia) ltac:(lia) ltac:(cbn; lia)).
Qed.
Lemma encoding_prefix x y a c : encoding x -> encoding y -> x ++ a = y ++ c -> x = y.
Proof.
  intros X Y E. apply encoding_shaped in X, Y.
  destruct X as [c0 L|c0 lo hi c1 T R|c0 lo hi c1 c2 T R C2|c0 lo hi c1 c2 c3 T R C2 C3];
  destruct Y as [c0' L'|c0' lo' hi' c1' T' R'|c0' lo' hi' c1' c2' T' R' C2'|c0' lo' hi' c1' c2' c3' T' R' C2' C3']; cbn [app] in E; injection E as; subst; try reflexivity;
  try (match goal with A : tabled ?c ?k _ _, B : tabled ?c ?k' _ _ |- _ => destruct (tabled_det _ _ _ _ _ _ _ A B) as (Q & _); discriminate Q end);
  match goal with A : tabled ?c _ _ _, B : ?c < 128 |- _ => apply tabled_high in A; lia end.
Qed.
Lemma app_two {A} (a c x y : list A) : a ++ c = x ++ y -> a = x \/ (exists h q, x = a ++ h :: q /\ c = h :: q ++ y) \/ (exists h q, a = x ++ h :: q /\ y = h :: q ++ c).
Proof.
  revert x. induction a as [|h a IH]; intros x E; cbn in E.
  - destruct x as [|k x]; [now left|]. right. left. exists k, x. auto.
  - destruct x as [|k x]; cbn in E; [right; right; exists h, a; auto|]. injection E as -> E. destruct (IH _ E) as [->|[(p & q & -> & ->)|(p & q & -> & ->)]]; [now left|right; left|right; right]; exists p, q; auto.
Qed.
Lemma encoding_nonempty x : encoding x -> x <> [].
Proof. intros X. apply encoding_shaped in X. destruct X; discriminate. Qed.
Lemma beginning_shorter x y : beginning (x ++ y) -> beginning x.
Proof. intros (z & Z). exists (y ++ z). now rewrite app_assoc. Qed.
Lemma char_not_bad x r y q : encoding x -> bad_part y q -> x ++ r = y ++ q -> False.
Proof.
  intros X (NE & NY & B & M) E. destruct (app_two _ _ _ _ E) as [->|[(h & z & -> & ->)|(h & z & -> & ->)]].
  - auto.
  - destruct B as [(w & W)|(c & B)].
    + rewrite <- app_assoc in W. pose proof (encoding_prefix _ _ ((h :: z) ++ w) [] X W) as EP. rewrite app_nil_r in EP. specialize (EP eq_refl).
      apply (f_equal (@length N)) in EP. rewrite !app_length in EP. cbn in EP. lia.
    + apply encoding_nonempty in X. destruct x as [|a [|]]; [congruence|discriminate|discriminate].
  - apply (M h (z ++ r) eq_refl). apply (beginning_shorter _ z). rewrite <- app_assoc. exists []. rewrite app_nil_r. exact X.
Qed.
Lemma bad_unique x r y q : bad_part x r -> bad_part y q -> x ++ r = y ++ q -> x = y.
Proof.
  assert (G : forall x r h z q, bad_part x r -> bad_part (x ++ h :: z) q -> r = h :: z ++ q -> False).
  { clear. intros x r h z q (NX & _ & BX & MX) (_ & _ & BY & _) ->. destruct BY as [BY|(c & BY)].
    - apply (MX h (z ++ q) eq_refl). apply (beginning_shorter _ z). now rewrite <- app_assoc.
    - destruct x as [|a [|]]; [congruence|discriminate|discriminate]. }
  intros X Y E. destruct (app_two _ _ _ _ E) as [->|[(h & z & -> & ->)|(h & z & -> & ->)]]; [reflexivity|exfalso..]; eauto.
Qed.
Lemma replacement_det z z' : encoded 0xfffd z -> encoded 0xfffd z' -> z = z'.
Proof.
  assert (G : forall z v, v = 0xfffd -> encoded v z -> z = [239; 191; 189]).
  { clear. intros z v V E. destruct E as [c L|a c V' A C|a c e V' A C E S|a c e f V' A C E F]; try lia.
    assert (a = 15 /\ c = 63 /\ e = 61) as (-> & -> & ->) by lia. reflexivity. }
  intros A B. rewrite (G _ _ eq_refl A), (G _ _ eq_refl B). reflexivity.
Qed.
Lemma made_valid_det s t : made_valid s t -> forall t', made_valid s t' -> t = t'.
Proof.
  induction 1 as [|x r s X M IH|x r s z X Z M IH]; intros t' M'.
  - inversion M' as [|x r s X M E|x r s z X Z M E]; [reflexivity|exfalso..].
    + apply encoding_nonempty in X. now destruct x.
    + destruct X as [X _]. now destruct x.
  - inversion M' as [E|y q u Y N E|y q u z Y Z N E].
    + exfalso. apply encoding_nonempty in X. now destruct x.
    + assert (y = x) as -> by (symmetry; eapply encoding_prefix; eauto). apply app_inv_head in E as ->. now rewrite (IH _ N).
    + exfalso. now apply (char_not_bad x r y q X Y).
  - inversion M' as [E|y q u Y N E|y q u z' Y Z' N E].
    + exfalso. destruct X as [X _]. now destruct x.
    + exfalso. now apply (char_not_bad y q x r Y X).
    + assert (y = x) as -> by (symmetry; eapply bad_unique; eauto). apply app_inv_head in E as ->. now rewrite (IH _ N), (replacement_det _ _ Z Z').
Qed.
(* Display computes the valid text. *)
Theorem lossy_spec s t : lossy s = t <-> made_valid s t.
Proof.
  assert (V : made_valid s (lossy s)) by (apply chars_f_valid; reflexivity).
  split; [now intros <-|]. intros M. exact (made_valid_det _ _ V _ M).
Qed.

(* ---- valid texts ---- *)
Definition valid (s : bytes) : Prop := exists xs, s = concat xs /\ Forall encoding xs.
Lemma made_valid_valid s t : made_valid s t -> valid t.
Proof.
  induction 1 as [|x r s X _ (xs & -> & F)|x r s z _ Z _ (xs & -> & F)]; [exists []; auto|exists (x :: xs)|exists (z :: xs)]; (split; [reflexivity|constructor; auto]).
  now exists 0xfffd.
Qed.
Lemma valid_kept s : valid s -> made_valid s s.
Proof. intros (xs & -> & F). induction F as [|x xs X F IH]; [constructor|]. now apply mv_char. Qed.
Theorem utf8_spec s : utf8 s = true <-> valid s.
Proof.
  rewrite utf8_text. split.
  - intros T. apply lossy_text in T. apply lossy_spec in T. exact (made_valid_valid _ _ T).
  - intros V. apply valid_kept, lossy_spec in V. rewrite <- V. apply text_lossy.
Qed.
Lemma lossy_ascii (p o : bytes) : forallb (fun c => c <? 128) p = true -> lossy (p ++ o) = p ++ lossy o.
Proof.
  intros F. apply lossy_spec. assert (M : made_valid o (lossy o)) by now apply lossy_spec.
  induction p as [|c p IH]; [exact M|]. cbn in F. apply andb_prop in F as [F1 F2]. apply N.ltb_lt in F1.
  apply (mv_char [c]); [exists c; now constructor|auto].
Qed.
