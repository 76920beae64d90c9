(* Reading back what double quoted escaping writes: quotes and backslashes do not survive. *)
From Coq Require Import String.
From Coq Require Import List NArith ZArith Bool Arith Lia.
From Verif Require Import Bytes Utf8 Data Parser Render Tree Abs Utf8Props Scan Reads ReadsSound AbsText Plain Exact EscByte.
Import ListNotations.
Local Open Scope N_scope.
Local Notation E := (flat_map esc_double_byte).
Lemma app_inv_length (a a' r r' : bytes) : length a = length a' -> a ++ r = a' ++ r' -> a = a' /\ r = r'.
Proof.
  revert a'. induction a as [|c a IH]; intros [|c' a'] L Q; try discriminate; [auto|]. injection L as L. injection Q as -> Q.
  destruct (IH _ L Q) as [-> ->]. auto.
Qed.
Lemma escape_prefix (e x e' x' r r' : bytes) : escape e x -> escape e' x' -> e ++ r = e' ++ r' -> e = e' /\ x = x' /\ r = r'.
Proof.
  intros [c o H|ds n L H V|ds n L H V] [c' o' H'|ds' n' L' H' V'|ds' n' L' H' V'] Q; cbn [app] in Q; injection Q; clear Q; intros; subst; try discriminate.
  - assert (o = o') by congruence. subst. auto.
  - assert (ds = ds' /\ r = r') as [-> ->] by (apply app_inv_length; congruence). assert (n = n') by congruence. subst. auto.
  - assert (ds = ds' /\ r = r') as [-> ->] by (apply app_inv_length; congruence). assert (n = n') by congruence. subst. auto.
Qed.
Lemma escape_hd (e x : bytes) : escape e x -> hd EOF e <> DQUOTE /\ e <> [].
Proof. intros [c o H|ds n L H V|ds n L H V]; (split; [|discriminate]); cbn; [|discriminate..]. intros ->. discriminate. Qed.
Lemma plain_hd (s tail z : bytes) (h : byte) : h <> BACKSLASH -> h <> DQUOTE -> E s ++ DQUOTE :: tail = h :: z ->
  exists s2, s = h :: s2 /\ z = E s2 ++ DQUOTE :: tail.
Proof.
  intros N1 N2 Q. destruct s as [|c s]; [cbn in Q; injection Q; congruence|]. cbn [flat_map] in Q.
  destruct (esc_byte_cases c) as [[-> X]|[(_ & _ & X)|(_ & _ & e & X & _)]]; rewrite X in Q; cbn [app] in Q; injection Q as Q1 Q2; try congruence.
  subst. eauto.
Qed.
Lemma plain_run (ds : bytes) : Forall (fun d => d <> BACKSLASH /\ d <> DQUOTE) ds -> forall s tail z : bytes, E s ++ DQUOTE :: tail = ds ++ z ->
  exists s2, s = ds ++ s2 /\ z = E s2 ++ DQUOTE :: tail.
Proof.
  induction 1 as [|d ds P F IH]; intros s tail z Q; [exists s; auto|]. destruct P as [N1 N2]. cbn [app] in Q. destruct (plain_hd _ _ _ _ N1 N2 Q) as (s2 & -> & Q2).
  symmetry in Q2. destruct (IH _ _ _ Q2) as (s3 & -> & ->). exists s3. auto.
Qed.
Lemma hex_plain (ds : bytes) c n : hex_number c ds = Some n -> Forall (fun d => d <> BACKSLASH /\ d <> DQUOTE) ds.
Proof.
  intros H. apply hex_run in H. eapply Forall_impl; [|exact H]. cbn. intros d X. split; intros ->; now elim X.
Qed.
Lemma encode_slashes n : slashes (encode_utf8 n) = O \/ encode_utf8 n = [BACKSLASH].
Proof.
  unfold encode_utf8. destruct (N.ltb_spec n 128) as [L|L].
  { cbn [slashes]. destruct (N.eqb_spec n BACKSLASH) as [->|]; auto. }
  left. assert (G : forall l : bytes, Forall (fun c => 128 <= c) l -> slashes l = O).
  { induction 1 as [|c l C F IH]; [reflexivity|]. cbn [slashes]. destruct (N.eqb_spec c BACKSLASH) as [->|]; [unfold BACKSLASH in C; lia|exact IH]. }
  repeat match goal with |- context [if ?z then _ else _] => destruct z end; apply G; repeat (apply Forall_cons; [match goal with |- 128 <= _ + ?x => generalize x; intros; lia end|]); apply Forall_nil.
Qed.
Lemma dq_counts m : forall s, (slashes s <= m)%nat -> forall (tail y v q : bytes), E s ++ DQUOTE :: tail = y ++ q -> dqbody y v -> stop q ->
  (slashes v <= slashes s)%nat /\ (slashes v = slashes s -> (length v <= length s)%nat) /\
  (slashes s <> O -> (slashes v < slashes s)%nat \/ (length v < length s)%nat) /\ (slashes s = O -> ~ In DQUOTE s).
Proof.
  induction m as [m IHm] using (well_founded_induction lt_wf).
  assert (NS : forall (q z : bytes) (c : byte), stop q -> q = c :: z -> c <> DQUOTE -> c <> EOF -> False).
  { intros q z c S -> N1 N2. destruct S as [S|S]; cbn in S; congruence. }
  induction s as [|c s IHs]; intros M tail y v q Q D S.
  { cbn [flat_map app] in Q. destruct D as [|c y v N1 N2 N3 D|e x y v X D].
    - cbn. split; [lia|]. split; [lia|]. split; [lia|tauto].
    - injection Q as Q _. congruence.
    - discriminate. }
  cbn [flat_map] in Q. destruct (esc_byte_cases c) as [[-> X]|[(ND & NE & X)|(ND & NB & e & X & NN & XE & EE & SE & DE)]]; rewrite X in Q; cbn [app] in Q.
  - exfalso. destruct D as [|c y v N1 N2 N3 D|e x y v Y D].
    + cbn in Q. eapply NS; [exact S|symmetry; exact Q|discriminate|discriminate].
    + injection Q as Q _. congruence.
    + cbn [app] in Q. injection Q as Q. apply escape_hd in Y as [Y1 Y2]. destruct e as [|a e]; [now elim Y2|]. injection Q as Q _. now elim Y1.
  - destruct (N.eq_dec c BACKSLASH) as [->|NB].
    + assert (SM : (slashes s < m)%nat) by (cbn [slashes] in M; rewrite N.eqb_refl in M; lia).
      assert (ST : forall (x v' y' s2 tail2 : bytes), slashes x = O -> (slashes s2 <= slashes s)%nat -> E s2 ++ DQUOTE :: tail2 = y' ++ q -> dqbody y' v' ->
         (slashes (x ++ v') < slashes (BACKSLASH :: s))%nat).
      { intros x v' y' s2 tail2 X0 L2 Q2 D2. rewrite slashes_app, X0. destruct (IHm (slashes s) SM s2 L2 _ _ _ _ Q2 D2 S) as [Z _].
        cbn [slashes]. rewrite N.eqb_refl. lia. }
      assert (FI : forall z : bytes, (slashes z < slashes (BACKSLASH :: s))%nat -> (slashes z <= slashes (BACKSLASH :: s))%nat /\
        (slashes z = slashes (BACKSLASH :: s) -> (length z <= length (BACKSLASH :: s))%nat) /\
        (slashes (BACKSLASH :: s) <> O -> (slashes z < slashes (BACKSLASH :: s))%nat \/ (length z < length (BACKSLASH :: s))%nat) /\
        (slashes (BACKSLASH :: s) = O -> ~ In DQUOTE (BACKSLASH :: s))).
      { intros z Z. repeat split; intros; try lia; auto. }
      destruct D as [|c y v N1 N2 N3 D|e x y v Y D].
      * exfalso. cbn in Q. eapply NS; [exact S|symmetry; exact Q|discriminate|discriminate].
      * exfalso. injection Q as Q _. congruence.
      * cbn [app] in Q. injection Q as Q. rewrite <- app_assoc in Q.
        assert (HX : forall k (ds : bytes) n, k <> BACKSLASH -> k <> DQUOTE -> hex_number 0 ds = Some n -> e = k :: ds -> x = encode_utf8 n ->
          (slashes (x ++ v) <= slashes (BACKSLASH :: s))%nat /\
          (slashes (x ++ v) = slashes (BACKSLASH :: s) -> (length (x ++ v) <= length (BACKSLASH :: s))%nat) /\
          (slashes (BACKSLASH :: s) <> O -> (slashes (x ++ v) < slashes (BACKSLASH :: s))%nat \/ (length (x ++ v) < length (BACKSLASH :: s))%nat) /\
          (slashes (BACKSLASH :: s) = O -> ~ In DQUOTE (BACKSLASH :: s))).
        { intros k ds n K1 K2 H -> ->. assert (PK : Forall (fun d => d <> BACKSLASH /\ d <> DQUOTE) (k :: ds)) by (constructor; [auto|now apply (hex_plain ds 0 n)]).
          destruct (plain_run _ PK _ _ _ Q) as (s2 & -> & Q2).
          symmetry in Q2. assert (SL : slashes ((k :: ds) ++ s2) = slashes s2).
          { rewrite slashes_app. assert (Z : slashes (k :: ds) = O); [|lia]. destruct (Nat.eq_dec (slashes (k :: ds)) 0) as [|Z]; [assumption|].
            apply slashes_in in Z. destruct Z as [->|Z]; [now elim K1|]. apply hex_plain in H. rewrite Forall_forall in H. now elim (proj1 (H _ Z)). }
          destruct (encode_slashes n) as [Z|Z]; [apply FI, (ST _ _ _ _ _ Z (Nat.eq_le_incl _ _ (eq_sym SL)) Q2 D)|].
          rewrite Z. assert (SM2 : (slashes s2 < m)%nat) by (unfold bytes, byte in *; lia). destruct (IHm (slashes s2) SM2 s2 (le_n _) _ _ _ _ Q2 D S) as (Z1 & Z2 & _).
          assert (V1 : slashes ([BACKSLASH] ++ v) = Datatypes.S (slashes v)) by reflexivity.
          assert (S1 : slashes (BACKSLASH :: (k :: ds) ++ s2) = Datatypes.S (slashes s2)) by (rewrite <- SL; reflexivity).
          assert (V2 : length ([BACKSLASH] ++ v) = Datatypes.S (length v)) by reflexivity.
          assert (S2 : length (BACKSLASH :: (k :: ds) ++ s2) = Datatypes.S (Datatypes.S (length ds + length s2))) by (cbn; now rewrite app_length).
          unfold bytes, byte in *. rewrite V1, S1, V2, S2. repeat split; intros; try lia. }
        destruct Y as [k o H|ds n L H V|ds n L H V]; [|now apply (HX 120 ds n)|now apply (HX 117 ds n)].
        apply FI. clear FI HX. assert (SO : slashes [o] = O).
        { unfold escape_char in H. repeat match type of H with (if ?z then _ else _) = _ => destruct z; [injection H as <-; reflexivity|] end. discriminate. }
        cbn [app] in Q. destruct (N.eq_dec k BACKSLASH) as [->|NK].
        -- destruct s as [|h s]; [discriminate|]. cbn [flat_map] in Q.
           destruct (esc_byte_cases h) as [[-> X']|[(ND' & NE' & X')|(ND' & NB' & e' & X' & NN' & XE' & EE' & SE' & DE')]]; rewrite X' in Q; cbn [app] in Q; injection Q as Q.
           ++ apply (ST [o] v y [] (E s ++ DQUOTE :: tail)); auto. cbn. lia.
           ++ subst h. apply (ST [o] v y s tail); auto. cbn [slashes]. rewrite N.eqb_refl. lia.
           ++ apply (ST [o] v y (e' ++ s) tail); auto.
              ** rewrite slashes_app, SE'. cbn [slashes]. destruct (h =? BACKSLASH); lia.
              ** rewrite flat_map_app, EE', <- app_assoc. rewrite <- app_assoc in Q. exact Q.
        -- assert (K2 : k <> DQUOTE) by (intros ->; discriminate). destruct (plain_hd _ _ _ _ NK K2 Q) as (s2 & -> & Q2). symmetry in Q2.
           apply (ST [o] v y s2 tail); auto. cbn [slashes]. destruct (k =? BACKSLASH); lia.
    + destruct D as [|c' y v N1 N2 N3 D|e x y v Y D].
      * exfalso. cbn in Q. eapply NS; [exact S|symmetry; exact Q|exact ND|exact NE].
      * cbn [app] in Q. injection Q as <- Q. cbn [slashes length] in *. apply N.eqb_neq in NB. rewrite NB in *.
        destruct (IHs M _ _ _ _ Q D S) as (I1 & I2 & I3 & I4). split; [exact I1|]. split; [lia|]. split; [lia|].
        intros Z [X0|X0]; [congruence|now apply I4].
      * exfalso. injection Q as Q _. congruence.
  - destruct D as [|c' y v N1 N2 N3 D|e' x y v Y D].
    + exfalso. cbn in Q. eapply NS; [exact S|symmetry; exact Q|discriminate|discriminate].
    + exfalso. injection Q as Q _. congruence.
    + cbn [app] in Q. injection Q as Q. rewrite <- !app_assoc in Q. destruct (escape_prefix _ _ _ _ _ _ XE Y Q) as (<- & <- & Q').
      cbn [slashes length app] in *. apply N.eqb_neq in NB. rewrite NB in *.
      destruct (IHs M _ _ _ _ Q' D S) as (I1 & I2 & I3 & I4). split; [exact I1|]. split; [lia|]. split; [lia|].
      intros Z [X0|X0]; [congruence|now apply I4].
Qed.
