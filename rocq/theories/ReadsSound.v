(* The parser reads every text described by Reads.v as the tree described. *)
From Coq Require Import List NArith Bool Arith Lia.
From Verif Require Import Bytes Utf8 Data Parser Render Tree Abs Scan Reads.
Import ListNotations.
Local Open Scope N_scope.

(* ---- layout ---- *)
Lemma ws_scan_change w c r r' : forall b, fst (ws_scan b (w ++ c :: r)) = length w -> ws_scan b (w ++ c :: r') = ws_scan b (w ++ c :: r).
Proof.
  induction w as [|a w IH]; intros b; cbn [app ws_scan length].
  - destruct b; [destruct (c =? NEWLINE); destruct (ws_scan _ r); discriminate|].
    destruct (c =? HASH); [destruct (ws_scan _ r); discriminate|].
    destruct (is_ws c); [destruct (ws_scan _ r); discriminate|reflexivity].
  - assert (H : forall b', (let '(k, _) := ws_scan b' (w ++ c :: r) in S k) = S (length w) ->
       ws_scan b' (w ++ c :: r') = ws_scan b' (w ++ c :: r)).
    { intros b' H. apply IH. destruct (ws_scan b' (w ++ c :: r)). cbn. congruence. }
    destruct b; [destruct (a =? NEWLINE)|destruct (a =? HASH); [|destruct (is_ws a); [|discriminate]]];
      intros E; (rewrite H; [reflexivity|]); destruct (ws_scan _ (w ++ c :: r)); exact E.
Qed.
Lemma cut_change w r r' : cut w r -> r <> [] -> hd_error r' = hd_error r -> cut w r'.
Proof.
  unfold cut. destruct r as [|c r]; [congruence|]. destruct r' as [|c' r']; [discriminate|].
  intros H _ E. injection E as ->. now rewrite (ws_scan_change _ _ r).
Qed.
Lemma cut_app w r s : cut w r -> r <> [] -> cut w (r ++ s).
Proof. intros H N. eapply cut_change; eauto. destruct r; [congruence|reflexivity]. Qed.
Lemma cut_hd w c r : cut w (c :: r) -> is_ws c = false /\ c <> HASH.
Proof.
  unfold cut. intros H. destruct (ws_scan false (w ++ c :: r)) as [k nl] eqn:E. cbn in H. subst k.
  apply (proj1 (ws_scan_spec _ _ _)) in E as (_ & _ & _ & E).
  rewrite skipn_app, skipn_all, Nat.sub_diag in E. exact E.
Qed.
Lemma cut_layout w r : cut w r -> layout w.
Proof.
  unfold cut. intros H. destruct (ws_scan false (w ++ r)) as [k nl] eqn:E. cbn in H. subst k.
  apply (proj1 (ws_scan_spec _ _ _)) in E as (_ & E & _).
  rewrite firstn_app, firstn_all, Nat.sub_diag in E. cbn in E. now rewrite app_nil_r in E.
Qed.
Lemma cut_scan w r : cut w r -> ws_scan false (w ++ r) = (length w, nl_count w).
Proof.
  unfold cut. intros H. destruct (ws_scan false (w ++ r)) as [k nl] eqn:E. cbn in H. subst k.
  apply (proj1 (ws_scan_spec _ _ _)) in E as (_ & _ & E & _).
  rewrite firstn_app, firstn_all, Nat.sub_diag in E. cbn in E. rewrite app_nil_r in E. now subst.
Qed.
Lemma cut_unique w r w' r' : w ++ r = w' ++ r' -> cut w r -> cut w' r' -> w = w' /\ r = r'.
Proof.
  unfold cut. intros E H H'. rewrite E in H. rewrite H' in H.
  assert (L : w = w').
  { apply (f_equal (firstn (length w))) in E. rewrite !firstn_app, firstn_all, Nat.sub_diag in E.
    rewrite <- H, firstn_all, Nat.sub_diag in E. cbn in E. now rewrite !app_nil_r in E. }
  subst. split; auto. now apply app_inv_head in E.
Qed.
Lemma cut_nil c r : is_ws c = false -> c <> HASH -> cut [] (c :: r).
Proof. intros W H. unfold cut. cbn. apply N.eqb_neq in H. now rewrite H, W. Qed.
Lemma cut_end w r : cut w r -> cut [] r.
Proof. destruct r as [|c r]; [reflexivity|]. intros H. apply cut_hd in H as []. now apply cut_nil. Qed.

Lemma skipn_at {A} (x y : list A) : skipn (length x) (x ++ y) = y.
Proof. rewrite skipn_app, skipn_all, Nat.sub_diag. reflexivity. Qed.
Lemma firstn_at {A} (x y : list A) : firstn (length x) (x ++ y) = x.
Proof. rewrite firstn_app, firstn_all, Nat.sub_diag. cbn. apply app_nil_r. Qed.

(* ---- steps of the parser ---- *)
Section Run.
Variable input : bytes.

Lemma bind_ok {S A B} (m : ST S A) (k : A -> ST S B) n a n' : m n = Ok (a, n') -> bind m k n = k a n'.
Proof. unfold bind. now intros ->. Qed.
Lemma r_peek pre r i : input = pre ++ r -> a_peek input i (length pre) = Ok (nth i r EOF, length pre).
Proof. intros ->. unfold a_peek. rewrite app_nth2 by lia. do 3 f_equal. lia. Qed.
Lemma r_peek0 pre r : input = pre ++ r -> a_peek input 0 (length pre) = Ok (hd EOF r, length pre).
Proof. intros E. rewrite (r_peek _ _ _ E). now destruct r. Qed.
Lemma r_rest pre r : input = pre ++ r -> a_rest input (length pre) = Ok (r, length pre).
Proof. intros ->. unfold a_rest. now rewrite skipn_at. Qed.
Lemma r_get n : a_get n = Ok (n, n). Proof. reflexivity. Qed.
Lemma r_bump pre x r k : input = pre ++ x ++ r -> k = length x -> a_bump input k (length pre) = Ok (tt, length (pre ++ x)).
Proof. intros -> ->. unfold a_bump. rewrite !app_length. do 2 f_equal. lia. Qed.
Lemma r_bump1 pre c r : input = pre ++ c :: r -> a_bump input 1 (length pre) = Ok (tt, length (pre ++ [c])).
Proof. intros E. apply (r_bump pre [c] r 1); [exact E|reflexivity]. Qed.
Lemma r_bump0 n : (n <= length input)%nat -> a_bump input 0 n = Ok (tt, n).
Proof. intros L. unfold a_bump. do 2 f_equal. lia. Qed.
Lemma r_string pre x r : input = pre ++ x ++ r -> a_string input (length pre) (length (pre ++ x)) = Ok (x, length (pre ++ x)).
Proof.
  intros ->. unfold a_string, slice. do 2 f_equal. rewrite skipn_at, !app_length.
  replace (length pre + length x - length pre)%nat with (length x) by lia.
  rewrite !(proj2 (Nat.leb_le _ _)) by lia. cbn [andb]. now rewrite firstn_at.
Qed.
Lemma r_slice pre x r : input = pre ++ x ++ r -> slice input (length pre) (length (pre ++ x)) = x.
Proof. intros E. pose proof (r_string _ _ _ E) as H. unfold a_string in H. congruence. Qed.
Lemma r_indent_from pre r : input = pre ++ r -> indent_from input (length pre) = col pre.
Proof.
  intros ->. unfold indent_from, slice, col. rewrite app_length, !(proj2 (Nat.leb_le _ _)) by lia.
  cbn [andb skipn]. now rewrite Nat.sub_0_r, firstn_at.
Qed.
Lemma r_indent pre r : input = pre ++ r -> a_indent input (length pre) = Ok (col pre, length pre).
Proof. intros E. unfold a_indent, bind, a_get, ret. now rewrite (r_indent_from _ _ E). Qed.
Lemma r_eof pre r : input = pre ++ r -> a_eof input (length pre) = Ok (match r with [] => true | _ => false end, length pre).
Proof.
  intros ->. unfold a_eof. do 2 f_equal. rewrite app_length. destruct r; cbn.
  - apply Nat.eqb_eq. lia.
  - apply Nat.eqb_neq. lia.
Qed.
Lemma r_ws_nl pre w r : input = pre ++ w ++ r -> cut w r -> a_ws_nl input (length pre) = Ok ((w, nl_count w), length (pre ++ w)).
Proof.
  intros E C. unfold a_ws_nl. rewrite (bind_ok _ _ _ _ _ (r_get _)), (bind_ok _ _ _ _ _ (r_rest _ _ E)).
  rewrite (cut_scan _ _ C). rewrite (bind_ok _ _ _ _ _ (r_bump _ _ _ _ E eq_refl)).
  rewrite (bind_ok _ _ _ _ _ (r_string _ _ _ E)). reflexivity.
Qed.
Lemma r_ws pre w r : input = pre ++ w ++ r -> cut w r -> a_ws input (length pre) = Ok (w, length (pre ++ w)).
Proof. intros E C. unfold a_ws. now rewrite (bind_ok _ _ _ _ _ (r_ws_nl _ _ _ E C)). Qed.
Lemma r_ws0 pre r : input = pre ++ r -> cut [] r -> a_ws input (length pre) = Ok ([], length pre).
Proof. intros E C. rewrite (r_ws pre [] r E C). now rewrite app_nil_r. Qed.
Lemma r_eol pre r : input = pre ++ r -> a_is_eol input (length pre) = Ok (eol_scan r, length pre).
Proof. intros E. unfold a_is_eol. now rewrite (bind_ok _ _ _ _ _ (r_rest _ _ E)). Qed.
Lemma memchr_at c l r : ~ In c l -> (r = [] \/ hd EOF r = c) -> c <> EOF ->
  memchr c (l ++ r) = match r with [] => None | _ => Some (length l) end.
Proof.
  intros H R C. induction l as [|a l IH]; cbn.
  - destruct r as [|x r]; [reflexivity|]. cbn. destruct R as [R|R]; [discriminate|]. cbn in R. subst.
    now rewrite N.eqb_refl.
  - destruct (N.eqb_spec a c) as [->|_]; [exfalso; apply H; now left|].
    rewrite IH by (intros I; apply H; now right). now destruct r.
Qed.
Lemma r_find_nl pre l r : input = pre ++ l ++ r -> ~ In NEWLINE l -> (r = [] \/ hd EOF r = NEWLINE) ->
  a_find input NEWLINE (length pre) = Ok (tt, length (pre ++ l)).
Proof.
  intros E L R. unfold a_find. rewrite (bind_ok _ _ _ _ _ (r_rest _ _ E)).
  rewrite memchr_at by (auto; discriminate). destruct r as [|c r].
  - unfold a_set. subst input. now rewrite app_nil_r.
  - apply (r_bump pre l (c :: r)); [exact E|reflexivity].
Qed.

(* ---- numbers and plain scalars ---- *)
Lemma r_number tab pre r : input = pre ++ r ->
  match num_read (negb tab) r with
  | Some (k, h) => forall x s, r = x ++ s -> k = length x ->
      a_number input tab (length pre) (length pre) = Ok (Some (ScNum x h), length (pre ++ x))
  | None => exists x s, r = x ++ s /\ (forall c, In c x -> c <> NEWLINE /\ c <> COLON /\ is_ctl c = false) /\
      a_number input tab (length pre) (length pre) = Ok (None, length (pre ++ x))
  end.
Proof.
  intros E. unfold num_read, a_number. rewrite (bind_ok _ _ _ _ _ (r_peek0 _ _ E)).
  assert (D : exists d r1, r = d ++ r1 /\ (if hd EOF r =? DASH then tl r else r) = r1 /\
     length d = (if hd EOF r =? DASH then 1%nat else 0%nat) /\ (forall c, In c d -> c = DASH) /\
     (if hd EOF r =? DASH then a_bump input 1 else ret tt) (length pre) = Ok (tt, length (pre ++ d))).
  { destruct (N.eqb_spec (hd EOF r) DASH) as [H|H].
    - destruct r as [|c r]; [discriminate|]. cbn in H. subst c. exists [DASH], r. cbn [app tl length].
      repeat split; auto. + cbn. intuition congruence. + now apply r_bump1 with (r := r).
    - exists [], r. rewrite app_nil_r. repeat split; auto. contradiction. }
  destruct D as (d & r1 & Er & -> & Ld & Hd & B). rewrite (bind_ok _ _ _ _ _ B).
  assert (E1 : input = (pre ++ d) ++ r1) by (rewrite <- app_assoc; congruence).
  rewrite (bind_ok _ _ _ _ _ (r_rest _ _ E1)).
  assert (HD : forall c, In c d -> c <> NEWLINE /\ c <> COLON /\ is_ctl c = false).
  { intros c I. apply Hd in I. subst. repeat split; discriminate. }
  destruct (num_scan true true false r1) as [k fl] eqn:NS.
  assert (NC : forall a b h, forall c, In c (firstn (fst (num_scan a b h r1)) r1) -> c <> NEWLINE /\ c <> COLON /\ is_ctl c = false).
  { clear. induction r1 as [|c r1 IH]; intros a b h c' I; [cbn in I; contradiction|].
    cbn [num_scan] in I.
    destruct ((c =? DOT) && a) eqn:X1.
    { specialize (IH false b h). destruct (num_scan false b h r1). cbn in I, IH. destruct I as [<-|I]; [|auto].
      apply andb_prop in X1 as [X1 _]. apply N.eqb_eq in X1. subst. repeat split; discriminate. }
    destruct (((c =? 101) || (c =? 69)) && h && b) eqn:X2.
    { specialize (IH false false h). destruct (num_scan false false h r1). cbn in I, IH. destruct I as [<-|I]; [|auto].
      apply andb_prop in X2 as [X2 _]. apply andb_prop in X2 as [X2 _]. apply orb_prop in X2 as [X2|X2]; apply N.eqb_eq in X2; subst; repeat split; discriminate. }
    destruct (is_digit c) eqn:X3; [|cbn in I; contradiction].
    specialize (IH a b true). destruct (num_scan a b true r1). cbn in I, IH. destruct I as [<-|I]; [|auto].
    unfold is_digit in X3. apply andb_prop in X3 as [A1 A2]. apply N.leb_le in A1, A2.
    unfold is_ctl, NEWLINE, COLON, COMMA, RBRACK, RBRACE, EOF in *. repeat split; try lia.
    repeat rewrite orb_false_iff. repeat split; apply N.eqb_neq; lia. }
  pose proof (num_scan_le r1 true true false) as NL. rewrite NS in NL. cbn in NL.
  specialize (NC true true false). rewrite NS in NC. cbn [fst] in NC.
  assert (E2 : input = (pre ++ d) ++ firstn k r1 ++ skipn k r1) by (rewrite firstn_skipn; exact E1).
  assert (Lk : length (firstn k r1) = k) by (rewrite firstn_length; lia).
  rewrite (bind_ok _ _ _ _ _ (r_bump _ _ _ _ E2 (eq_sym Lk))).
  destruct (Nat.eqb_spec k 0) as [->|K0].
  - exists d, r1. cbn [firstn]. rewrite app_nil_r. auto.
  - assert (E3 : input = ((pre ++ d) ++ firstn k r1) ++ skipn k r1) by now rewrite <- app_assoc.
    rewrite (bind_ok _ _ _ _ _ (r_eol _ _ E3)). rewrite negb_involutive.
    destruct (tab && negb (eol_scan (skipn k r1))).
    + exists (d ++ firstn k r1), (skipn k r1). rewrite <- app_assoc, firstn_skipn. split; auto. split.
      * intros c I. apply in_app_or in I as [I|I]; auto.
      * now rewrite <- !app_assoc.
    + intros x s Ex Lx. 
      assert (X : x = d ++ firstn k r1).
      { assert (Y : r = (d ++ firstn k r1) ++ skipn k r1) by (rewrite <- app_assoc, firstn_skipn; exact Er).
        rewrite Ex in Y. apply (f_equal (firstn (length x))) in Y. rewrite firstn_at in Y. rewrite Y.
        replace (length x) with (length (d ++ firstn k r1)) by (rewrite app_length, Lk, Ld; destruct (hd EOF r =? DASH); lia).
        apply firstn_at. }
      assert (E4 : input = pre ++ x ++ s) by congruence.
      replace ((pre ++ d) ++ firstn k r1) with (pre ++ x) by (rewrite X; apply app_assoc).
      rewrite (bind_ok _ _ _ _ _ (r_string _ _ _ E4)). reflexivity.
Qed.

(* ---- quoted scalars ---- *)
Lemma r_digits start err pre ds r : forall c n, input = pre ++ ds ++ r -> hex_number c ds = Some n ->
  a_unescape_digits input start (length ds) err c (length pre) = Ok (n, length (pre ++ ds)).
Proof.
  revert pre. induction ds as [|d ds IH]; intros pre c n E H; cbn [hex_number] in H; cbn [length a_unescape_digits].
  - injection H as <-. now rewrite app_nil_r.
  - rewrite (bind_ok _ _ _ _ _ (r_peek0 _ _ E)). cbn [app hd]. destruct (hex_value d) as [v|]; [|discriminate].
    rewrite (bind_ok _ _ _ _ _ (r_bump1 pre d (ds ++ r) E)).
    replace (pre ++ d :: ds) with ((pre ++ [d]) ++ ds) by now rewrite <- app_assoc.
    apply IH; auto. now rewrite <- app_assoc.
Qed.
Lemma escape_char_not c o : escape_char c = Some o -> c <> EOF.
Proof. intros H ->. discriminate. Qed.
Lemma r_unescape start pre e x r : escape e x -> input = pre ++ e ++ r -> a_unescape input start (length pre) = Ok (x, length (pre ++ e)).
Proof.
  intros H E. unfold a_unescape. rewrite (bind_ok _ _ _ _ _ (r_peek0 _ _ E)). destruct H as [c o H|ds c L H V|ds c L H V]; cbn [app hd] in *.
  - rewrite H. now rewrite (bind_ok _ _ _ _ _ (r_bump1 pre c r E)).
  - change (escape_char 120) with (@None byte). cbv iota. change (120 =? 120) with true. cbv iota.
    rewrite (bind_ok _ _ _ _ _ (r_bump1 pre 120 (ds ++ r) E)). unfold a_unescape_unicode.
    assert (E1 : input = (pre ++ [120]) ++ ds ++ r) by now rewrite <- app_assoc.
    rewrite <- L. rewrite (bind_ok _ _ _ _ _ (r_digits start BadHexEscape _ _ _ _ _ E1 H)). rewrite V. now rewrite <- app_assoc.
  - change (escape_char 117) with (@None byte). cbv iota. change (117 =? 120) with false. change (117 =? 117) with true. cbv iota.
    rewrite (bind_ok _ _ _ _ _ (r_bump1 pre 117 (ds ++ r) E)). unfold a_unescape_unicode.
    assert (E1 : input = (pre ++ [117]) ++ ds ++ r) by now rewrite <- app_assoc.
    rewrite <- L. rewrite (bind_ok _ _ _ _ _ (r_digits start BadUnicodeEscape _ _ _ _ _ E1 H)). rewrite V. now rewrite <- app_assoc.
Qed.
Definition stop (r : bytes) : Prop := hd EOF r = DQUOTE \/ hd EOF r = EOF.
Lemma r_dqe y v : dqbody y v -> forall f pre acc r, stop r -> input = pre ++ y ++ r -> (length y < f)%nat ->
  a_dqe_loop input f acc (length pre) = Ok (acc ++ v, length (pre ++ y)).
Proof.
  induction 1 as [|c y v N1 N2 N3 _ IH|e x y v X _ IH]; intros f pre acc r S E L; destruct f as [|f]; cbn [length] in L; try lia; cbn [a_dqe_loop].
  - rewrite (bind_ok _ _ _ _ _ (r_peek0 _ _ E)). cbn [app].
    assert (((hd EOF r =? DQUOTE) || (hd EOF r =? EOF)) = true) as ->.
    { apply orb_true_iff. rewrite !N.eqb_eq. exact S. }
    now rewrite !app_nil_r.
  - rewrite (bind_ok _ _ _ _ _ (r_peek0 _ _ E)). cbn [app hd].
    apply N.eqb_neq in N1, N2, N3. rewrite N1, N2, N3. cbn [orb].
    rewrite (bind_ok _ _ _ _ _ (r_bump1 pre c (y ++ r) E)).
    etransitivity; [apply (IH f (pre ++ [c]) (acc ++ [c]) r); [exact S|now rewrite <- app_assoc|lia]|].
    now rewrite <- !app_assoc.
  - rewrite (bind_ok _ _ _ _ _ (r_peek0 _ _ E)). cbn [app hd]. change (BACKSLASH =? DQUOTE) with false. change (BACKSLASH =? EOF) with false.
    rewrite N.eqb_refl. cbn [orb]. rewrite (bind_ok _ _ _ _ _ (r_get _)).
    rewrite (bind_ok _ _ _ _ _ (r_bump1 pre BACKSLASH ((e ++ y) ++ r) E)).
    assert (E1 : input = (pre ++ [BACKSLASH]) ++ e ++ y ++ r) by (rewrite <- !app_assoc; rewrite E; cbn; now rewrite <- app_assoc).
    rewrite (bind_ok _ _ _ _ _ (r_unescape _ _ _ _ _ X E1)).
    etransitivity; [apply (IH f ((pre ++ [BACKSLASH]) ++ e) (acc ++ x) r); [exact S|now rewrite <- !app_assoc in *|]|].
    + rewrite app_length in L. lia.
    + now rewrite <- !app_assoc.
Qed.
Lemma dq_scan_body y v r : dqbody y v -> stop r -> exists y0 y1 v1, y = y0 ++ y1 /\ v = y0 ++ v1 /\ dqbody y1 v1 /\
  dq_scan (y ++ r) = (length y0, match y1 with [] => false | _ => true end).
Proof.
  intros D S. induction D as [|c y v N1 N2 N3 D IH|e x y v X D IH].
  - exists [], [], []. repeat split; auto. + constructor.
    + cbn [app]. destruct r as [|c r]; [reflexivity|]. cbn.
      assert (((c =? DQUOTE) || (c =? EOF)) = true) as ->; [|reflexivity].
      apply orb_true_iff. rewrite !N.eqb_eq. exact S.
  - destruct IH as (y0 & y1 & v1 & -> & -> & D1 & Q). exists (c :: y0), y1, v1. repeat split; auto.
    cbn [app dq_scan]. apply N.eqb_neq in N1, N2, N3. rewrite N1, N2, N3. cbn [orb].
    rewrite Q. reflexivity.
  - exists [], (BACKSLASH :: e ++ y), (x ++ v). repeat split; auto. now constructor.
Qed.
Lemma r_dq pre x v post : dquoted x v \/ dopen x v /\ post = [] -> input = pre ++ x ++ post ->
  a_double_quoted input (length pre) = Ok (RS KOriginal v x, length (pre ++ x)).
Proof.
  intros X E.
  assert (G : exists y t, x = DQUOTE :: y ++ t /\ dqbody y v /\ stop (t ++ post) /\ (length t = 1%nat \/ t ++ post = [])).
  { destruct X as [(y & c & -> & D & S)|[(y & -> & D) ->]].
    - exists y, [c]. repeat split; auto.
    - exists y, []. rewrite app_nil_r. repeat split; auto. now right. }
  clear X. destruct G as (y & t & -> & D & S & T). unfold a_double_quoted.
  rewrite (bind_ok _ _ _ _ _ (r_get _)). cbn [app] in E.
  rewrite (bind_ok _ _ _ _ _ (r_bump1 _ _ _ E)). rewrite (bind_ok _ _ _ _ _ (r_get _)).
  assert (E1 : input = (pre ++ [DQUOTE]) ++ y ++ t ++ post) by (rewrite E, <- !app_assoc; reflexivity).
  rewrite (bind_ok _ _ _ _ _ (r_rest _ _ E1)).
  destruct (dq_scan_body y v _ D S) as (y0 & y1 & v1 & -> & -> & D1 & Q). unfold byte, bytes in *. rewrite Q. clear Q.
  assert (E2 : input = (pre ++ [DQUOTE]) ++ y0 ++ y1 ++ t ++ post) by (rewrite E1, <- !app_assoc; reflexivity).
  rewrite (bind_ok _ _ _ _ _ (r_bump _ _ _ _ E2 eq_refl)).
  assert (E3 : input = ((pre ++ [DQUOTE]) ++ y0) ++ y1 ++ t ++ post) by (rewrite E2, <- !app_assoc; reflexivity).
  assert (E4 : input = (((pre ++ [DQUOTE]) ++ y0) ++ y1) ++ t ++ post) by (rewrite E2, <- !app_assoc; reflexivity).
  assert (E5 : input = pre ++ (DQUOTE :: (y0 ++ y1) ++ t) ++ post) by exact E.
  assert (EX : (((pre ++ [DQUOTE]) ++ y0) ++ y1) ++ t = pre ++ (DQUOTE :: (y0 ++ y1) ++ t)) by (rewrite <- !app_assoc; reflexivity).
  destruct y1 as [|c y1].
  - inversion D1; subst v1. rewrite (bind_ok _ _ _ _ _ (r_string _ _ _ E2)).
    rewrite (bind_ok _ _ _ _ _ (r_eof _ _ E3)). cbn [app].
    rewrite (bind_ok _ _ _ tt (length ((((pre ++ [DQUOTE]) ++ y0) ++ []) ++ t))).
    + rewrite EX, (bind_ok _ _ _ _ _ (r_string _ _ _ E5)). rewrite !app_nil_r. reflexivity.
    + rewrite app_nil_r in E4 |- *. destruct T as [T|T].
      * destruct t as [|c [|? ?]]; try discriminate. cbn [app]. apply (r_bump1 _ _ _ E4).
      * rewrite T. apply app_eq_nil in T as [-> _]. rewrite app_nil_r. apply r_bump0.
        pose proof (f_equal (@length _) E4) as L. rewrite !app_length in *. lia.
  - unfold a_double_quoted_escaped. rewrite (bind_ok _ _ _ _ _ (r_string _ _ _ E2)).
    assert (Ln : (length (c :: y1) < 1 + length input)%nat) by (pose proof (f_equal (@length _) E3) as L; rewrite !app_length in L; lia).
    rewrite (bind_ok _ _ _ _ _ (r_dqe _ _ D1 (1 + length input) _ y0 _ S E3 Ln)).
    rewrite (bind_ok _ _ _ tt (length ((((pre ++ [DQUOTE]) ++ y0) ++ c :: y1) ++ t))).
    + rewrite EX, (bind_ok _ _ _ _ _ (r_string _ _ _ E5)). reflexivity.
    + destruct T as [T|T].
      * destruct t as [|c' [|? ?]]; try discriminate. apply (r_bump1 _ _ _ E4).
      * unfold a_bump. pose proof E4 as E6. rewrite T in E6. apply app_eq_nil in T as [-> _]. rewrite app_nil_r in *. rewrite <- E6.
        do 2 f_equal. lia.
Qed.

Lemma sqe_scan_body y v r : sqbody y v -> hd EOF r <> SQUOTE -> sqe_scan (y ++ SQUOTE :: r) = Some (length y, v).
Proof.
  intros D S. induction D as [|c y v N D IH|y v D IH]; cbn [app sqe_scan].
  - change (SQUOTE =? SQUOTE) with true. cbv iota. destruct r as [|c r]; [reflexivity|]. cbn in S. apply N.eqb_neq in S. now rewrite S.
  - apply N.eqb_neq in N. now rewrite N, IH.
  - change (SQUOTE =? SQUOTE) with true. cbv iota. now rewrite IH.
Qed.
Lemma sq_scan_body y v r : sqbody y v -> hd EOF r <> SQUOTE -> exists y0 y1 v1, y = y0 ++ y1 /\ v = y0 ++ v1 /\ sqbody y1 v1 /\
  sq_scan (y ++ SQUOTE :: r) = match y1 with [] => SqEnd (length y0) | _ => SqEscape (length y0) end.
Proof.
  intros D S. induction D as [|c y v N D IH|y v D IH].
  - exists [], [], []. repeat split; auto. + constructor.
    + cbn [app sq_scan]. change (SQUOTE =? SQUOTE) with true. cbv iota. destruct r as [|c r]; [reflexivity|]. cbn in S. apply N.eqb_neq in S. now rewrite S.
  - destruct IH as (y0 & y1 & v1 & -> & -> & D1 & Q). exists (c :: y0), y1, v1. repeat split; auto.
    cbn [app sq_scan]. apply N.eqb_neq in N. rewrite N, Q. destruct y1; reflexivity.
  - exists [], (SQUOTE :: SQUOTE :: y), (SQUOTE :: v). repeat split; auto. now constructor.
Qed.
Lemma r_sq pre x v post : squoted x v -> hd EOF post <> SQUOTE -> input = pre ++ x ++ post ->
  a_single_quoted input (length pre) = Ok (RS KOriginal v x, length (pre ++ x)).
Proof.
  intros (y & -> & D) P E. unfold a_single_quoted. rewrite (bind_ok _ _ _ _ _ (r_get _)). cbn [app] in E.
  rewrite (bind_ok _ _ _ _ _ (r_bump1 _ _ _ E)). rewrite (bind_ok _ _ _ _ _ (r_get _)).
  assert (E1 : input = (pre ++ [SQUOTE]) ++ y ++ SQUOTE :: post) by (rewrite E, <- !app_assoc; reflexivity).
  rewrite (bind_ok _ _ _ _ _ (r_rest _ _ E1)).
  destruct (sq_scan_body y v _ D P) as (y0 & y1 & v1 & -> & -> & D1 & Q). unfold byte, bytes in *. rewrite Q. clear Q.
  assert (E2 : input = (pre ++ [SQUOTE]) ++ y0 ++ y1 ++ SQUOTE :: post) by (rewrite E1, <- !app_assoc; reflexivity).
  assert (E3 : input = ((pre ++ [SQUOTE]) ++ y0) ++ y1 ++ SQUOTE :: post) by (rewrite E2, <- !app_assoc; reflexivity).
  assert (E4 : input = (((pre ++ [SQUOTE]) ++ y0) ++ y1) ++ SQUOTE :: post) by (rewrite E2, <- !app_assoc; reflexivity).
  assert (E5 : input = pre ++ (SQUOTE :: (y0 ++ y1) ++ [SQUOTE]) ++ post) by exact E.
  assert (EX : (((pre ++ [SQUOTE]) ++ y0) ++ y1) ++ [SQUOTE] = pre ++ (SQUOTE :: (y0 ++ y1) ++ [SQUOTE])) by (rewrite <- !app_assoc; reflexivity).
  destruct y1 as [|c y1].
  - inversion D1; subst v1. rewrite (bind_ok _ _ _ _ _ (r_bump _ _ _ _ E2 eq_refl)).
    rewrite (bind_ok _ _ _ _ _ (r_string _ _ _ E2)). rewrite (bind_ok _ _ _ _ _ (r_eof _ _ E3)). cbn [app].
    rewrite app_nil_r in E4, EX. rewrite (bind_ok _ _ _ _ _ (r_bump1 _ _ _ E4)).
    unfold byte, bytes in *. rewrite EX, (bind_ok _ _ _ _ _ (r_string _ _ _ E5)). rewrite !app_nil_r. reflexivity.
  - rewrite (bind_ok _ _ _ _ _ (r_bump _ _ _ _ E2 eq_refl)). unfold a_single_quoted_escaped.
    rewrite (bind_ok _ _ _ _ _ (r_string _ _ _ E2)). rewrite (bind_ok _ _ _ _ _ (r_rest _ _ E3)).
    rewrite (sqe_scan_body _ _ _ D1 P).
    rewrite (bind_ok _ _ _ _ _ (r_bump _ _ _ _ E3 eq_refl)). rewrite (bind_ok _ _ _ _ _ (r_bump1 _ _ _ E4)).
    unfold byte, bytes in *. rewrite EX, (bind_ok _ _ _ _ _ (r_string _ _ _ E5)). reflexivity.
Qed.

(* ---- block scalars ---- *)
Lemma blines_split join folded ind pre r x w r' v : blines join folded ind pre r x w r' v ->
  r = x ++ w ++ r' /\ cut w r' /\ (w ++ r' = [] \/ hd EOF (w ++ r') = NEWLINE).
Proof.
  induction 1 as [pre l w r N NE H C L|pre l w N NE H C L|pre l w r x w' r' v N H C NE L B (IH & IC & IN)].
  - auto.
  - rewrite app_nil_r. auto.
  - subst. now rewrite <- !app_assoc.
Qed.
Lemma r_blines join folded ind pre r x w r' v : blines join folded ind pre r x w r' v ->
  forall f w0 nl0 stop0 acc, input = pre ++ r -> (length r < f)%nat ->
  a_block_loop input f join folded ind w0 nl0 stop0 acc (length pre) =
  Ok ((w, nl_count w, length (pre ++ x), acc ++ v), length (pre ++ x ++ w)).
Proof.
  induction 1 as [pre l w r N NE H C L|pre l w N NE H C L|pre l w r x w' r' v N H C NE L B IH];
    intros f w0 nl0 stop0 acc E F; (destruct f as [|f]; [lia|]); cbn [a_block_loop]; unfold byte, bytes in *.
  - rewrite (bind_ok _ _ _ _ _ (r_eof _ _ E)). destruct (l ++ w ++ r) eqn:Q; [congruence|]. rewrite <- Q in *. clear Q NE.
    rewrite (bind_ok _ _ _ _ _ (r_get _)), (bind_ok _ _ _ _ _ (r_find_nl _ _ _ E N H)).
    rewrite (bind_ok _ _ _ _ _ (r_string _ _ _ E)), (bind_ok _ _ _ _ _ (r_get _)).
    assert (E1 : input = (pre ++ l) ++ w ++ r) by now rewrite <- app_assoc.
    rewrite (bind_ok _ _ _ _ _ (r_ws_nl _ _ _ E1 C)). cbv beta iota.
    assert (E2 : input = (pre ++ l ++ w) ++ r) by now rewrite <- !app_assoc.
    rewrite <- (app_assoc pre l w). rewrite (bind_ok _ _ _ _ _ (r_indent _ _ E2)).
    rewrite (proj2 (Nat.ltb_lt _ _) L). reflexivity.
  - rewrite (bind_ok _ _ _ _ _ (r_eof _ _ E)). destruct (l ++ w) eqn:Q; [congruence|]. rewrite <- Q in *. 
    rewrite (bind_ok _ _ _ _ _ (r_get _)), (bind_ok _ _ _ _ _ (r_find_nl _ _ _ E N H)).
    rewrite (bind_ok _ _ _ _ _ (r_string _ _ _ E)), (bind_ok _ _ _ _ _ (r_get _)).
    assert (E1 : input = (pre ++ l) ++ w ++ []) by now rewrite <- app_assoc, app_nil_r.
    rewrite (bind_ok _ _ _ _ _ (r_ws_nl _ _ _ E1 C)). cbv beta iota.
    assert (E2 : input = (pre ++ l ++ w) ++ []) by now rewrite app_nil_r.
    rewrite <- (app_assoc pre l w). rewrite (bind_ok _ _ _ _ _ (r_indent _ _ E2)).
    rewrite (proj2 (Nat.ltb_ge _ _) L). destruct f as [|f]; [rewrite Q in F; cbn in F; lia|]. cbn [a_block_loop].
    rewrite (bind_ok _ _ _ _ _ (r_eof _ _ E2)). unfold ret. now rewrite <- app_assoc.
  - rewrite (bind_ok _ _ _ _ _ (r_eof _ _ E)). destruct (l ++ w ++ r) eqn:Q.
    { apply app_eq_nil in Q as [_ Q]. apply app_eq_nil in Q as [_ Q]. congruence. }
    rewrite <- Q in *.
    rewrite (bind_ok _ _ _ _ _ (r_get _)), (bind_ok _ _ _ _ _ (r_find_nl _ _ _ E N (or_intror H))).
    rewrite (bind_ok _ _ _ _ _ (r_string _ _ _ E)), (bind_ok _ _ _ _ _ (r_get _)).
    assert (E1 : input = (pre ++ l) ++ w ++ r) by now rewrite <- app_assoc.
    rewrite (bind_ok _ _ _ _ _ (r_ws_nl _ _ _ E1 C)). cbv beta iota.
    assert (E2 : input = (pre ++ l ++ w) ++ r) by now rewrite <- !app_assoc.
    rewrite <- (app_assoc pre l w). rewrite (bind_ok _ _ _ _ _ (r_indent _ _ E2)).
    rewrite (proj2 (Nat.ltb_ge _ _) L).
    rewrite IH; auto; [now rewrite <- !app_assoc|].
    assert (Lw : (0 < length w)%nat).
    { destruct w; cbn; [|lia]. destruct r as [|c r]; [congruence|]. cbn in H. subst c. apply cut_hd in C as [C _]. discriminate. }
    rewrite !app_length in F. lia.
Qed.
Lemma nl_count_in w : In NEWLINE w -> Nat.eqb (nl_count w) 0 = false.
Proof.
  intros H. apply Nat.eqb_neq. unfold nl_count. intros Z. apply length_zero_iff_nil in Z.
  assert (X : In NEWLINE (filter (N.eqb NEWLINE) w)) by (apply filter_In; auto). now rewrite Z in X.
Qed.
Lemma nl_count_not w : ~ In NEWLINE w -> nl_count w = O.
Proof.
  unfold nl_count. induction w as [|c w IH]; cbn [filter In]; intros H; [reflexivity|].
  destruct (N.eqb_spec NEWLINE c) as [<-|_]; [exfalso; auto|]. apply IH. auto.
Qed.
Lemma bheader_peek h r : bheader h r ->
  ((hd EOF (h ++ r) =? GT) || (hd EOF (h ++ r) =? PIPE)) = true /\
  length h = (if (nth 1 (h ++ r) EOF =? DASH) || (nth 1 (h ++ r) EOF =? PLUS) then 2%nat else 1%nat) /\
  (if hd EOF (h ++ r) =? GT then SPACE else NEWLINE) = bjoin h /\ (hd EOF (h ++ r) =? GT) = bfolded h /\
  negb (nth 1 (h ++ r) EOF =? DASH) = bchomp h.
Proof.
  unfold bjoin, bfolded, bchomp.
  intros [[H [H1 H2]]|(a & c & -> & Ha & Hc)].
  - assert (X : nth 1 (h ++ r) EOF = hd EOF r) by (destruct H as [-> | ->]; cbn; now destruct r).
    rewrite X. apply N.eqb_neq in H1, H2. rewrite H1, H2. destruct H as [-> | ->]; repeat split.
  - destruct Ha as [-> | ->], Hc as [-> | ->]; repeat split.
Qed.
Lemma r_block pre h o v post n join folded chomp clip :
  block_text h pre o post v -> input = pre ++ h ++ o ++ post ->
  n = length h -> join = bjoin h -> folded = bfolded h -> chomp = bchomp h -> clip = negb chomp ->
  exists w r, post = w ++ r /\ cut w r /\ (post = [] \/ hd EOF post = NEWLINE) /\
    a_block input n join folded chomp clip (length pre) =
    Ok ((ScStr (RS (KMultiline h) v o), Some w), length (pre ++ h ++ o ++ w)).
Proof.
  intros B E -> -> -> -> ->. unfold a_block.
  assert (CH : forall w : bytes, repeat NEWLINE (if bchomp h then if negb (bchomp h) then Nat.min (nl_count w) 1 else nl_count w else 0%nat) = bend h w).
  { intros w. unfold bend. destruct (bchomp h); reflexivity. }
  rewrite (bind_ok _ _ _ _ _ (r_get _)), (bind_ok _ _ _ _ _ (r_bump _ _ _ _ E eq_refl)).
  rewrite (bind_ok _ _ _ _ _ (r_string _ _ _ E)), (bind_ok _ _ _ _ _ (r_get _)).
  destruct B as [pre w0 r1 x w r v C0 N0 Er B|pre w0 l w1 r2 x w r v C0 N0 Nl H1 C1 NE Er B|pre w0 l C0 N0 Nl]; unfold byte, bytes in *.
  - exists w, r. pose proof (blines_split _ _ _ _ _ _ _ _ _ B) as (_ & Cw & Nw). split; [reflexivity|]. split; [exact Cw|]. split; [exact Nw|].
    assert (E1 : input = (pre ++ h) ++ w0 ++ r1) by (rewrite E, Er, <- !app_assoc; reflexivity).
    assert (E2 : input = (pre ++ h ++ w0) ++ r1) by (rewrite E1, <- !app_assoc; reflexivity).
    rewrite (bind_ok _ _ _ _ _ (r_ws_nl _ _ _ E1 C0)). cbv beta iota. rewrite (nl_count_in _ N0).
    rewrite (bind_ok _ _ _ (w0, nl_count w0, []) (length (pre ++ h ++ w0))) by (unfold ret; now rewrite <- app_assoc).
    rewrite (bind_ok _ _ _ _ _ (r_get _)). rewrite (bind_ok _ _ _ _ _ (r_indent _ _ E2)).
    rewrite (bind_ok _ _ _ _ _ (r_blines _ _ _ _ _ _ _ _ _ B (1 + length input) _ _ _ _ E2 ltac:(rewrite E2, !app_length; lia))).
    unfold ret. cbn [app]. rewrite CH. 
    assert (E3 : input = (pre ++ h) ++ (w0 ++ x) ++ w ++ r) by (rewrite E, <- !app_assoc; reflexivity).
    replace ((pre ++ h ++ w0) ++ x) with ((pre ++ h) ++ w0 ++ x) by (rewrite <- !app_assoc; reflexivity).
    rewrite (r_slice _ _ _ E3). now rewrite <- !app_assoc.
  - exists w, r. pose proof (blines_split _ _ _ _ _ _ _ _ _ B) as (_ & Cw & Nw). split; [reflexivity|]. split; [exact Cw|]. split; [exact Nw|].
    assert (E1 : input = (pre ++ h) ++ w0 ++ l ++ w1 ++ r2) by (rewrite E, Er, <- !app_assoc; reflexivity).
    assert (E1' : input = ((pre ++ h) ++ w0) ++ l ++ w1 ++ r2) by (rewrite E1, <- !app_assoc; reflexivity).
    assert (E1'' : input = (pre ++ h) ++ (w0 ++ l) ++ w1 ++ r2) by (rewrite E1, <- !app_assoc; reflexivity).
    assert (E2 : input = ((pre ++ h) ++ w0 ++ l) ++ w1 ++ r2) by (rewrite E1, <- !app_assoc; reflexivity).
    assert (E3 : input = (pre ++ h ++ w0 ++ l ++ w1) ++ r2) by (rewrite E1, <- !app_assoc; reflexivity).
    rewrite (bind_ok _ _ _ _ _ (r_ws_nl _ _ _ E1 C0)). cbv beta iota. rewrite (nl_count_not _ N0). cbn [Nat.eqb].
    rewrite (bind_ok _ _ _ (w1, nl_count w1, trim (w0 ++ l) ++ [bjoin h]) (length (pre ++ h ++ w0 ++ l ++ w1))).
    + rewrite (bind_ok _ _ _ _ _ (r_get _)). rewrite (bind_ok _ _ _ _ _ (r_indent _ _ E3)).
      rewrite (bind_ok _ _ _ _ _ (r_blines _ _ _ _ _ _ _ _ _ B (1 + length input) _ _ _ _ E3 ltac:(rewrite E3, !app_length; lia))).
      unfold ret. rewrite CH.
      assert (E4 : input = (pre ++ h) ++ (w0 ++ l ++ w1 ++ x) ++ w ++ r) by (rewrite E, <- !app_assoc; reflexivity).
      replace ((pre ++ h ++ w0 ++ l ++ w1) ++ x) with ((pre ++ h) ++ w0 ++ l ++ w1 ++ x) by (rewrite <- !app_assoc; reflexivity).
      rewrite (r_slice _ _ _ E4). now rewrite <- !app_assoc.
    + rewrite (bind_ok _ _ _ _ _ (r_find_nl _ _ _ E1' Nl (or_intror H1))). rewrite <- app_assoc.
      rewrite (bind_ok _ _ _ _ _ (r_string _ _ _ E1'')). rewrite (bind_ok _ _ _ _ _ (r_ws_nl _ _ _ E2 C1)). cbv beta iota.
      replace (((pre ++ h) ++ w0 ++ l) ++ w1) with (pre ++ h ++ w0 ++ l ++ w1) by (rewrite <- !app_assoc; reflexivity).
      rewrite (bind_ok _ _ _ _ _ (r_eof _ _ E3)). destruct r2; [congruence|]. reflexivity.
  - exists [], []. split; [reflexivity|]. split; [reflexivity|]. split; [now left|].
    assert (E1 : input = (pre ++ h) ++ w0 ++ l) by (rewrite E, app_nil_r, <- !app_assoc; reflexivity).
    assert (E1' : input = ((pre ++ h) ++ w0) ++ l ++ []) by (rewrite E1, app_nil_r, <- !app_assoc; reflexivity).
    assert (E1'' : input = (pre ++ h) ++ (w0 ++ l) ++ []) by (rewrite E1, app_nil_r; reflexivity).
    assert (E2 : input = ((pre ++ h) ++ w0 ++ l) ++ []) by (rewrite E1, app_nil_r, <- ?app_assoc; reflexivity).
    assert (E2' : input = ((pre ++ h) ++ w0 ++ l) ++ [] ++ []) by exact E2.
    rewrite (bind_ok _ _ _ _ _ (r_ws_nl _ _ _ E1 C0)). cbv beta iota. rewrite (nl_count_not _ N0). cbn [Nat.eqb].
    rewrite (bind_ok _ _ _ ([], 0%nat, trim (w0 ++ l)) (length ((pre ++ h) ++ w0 ++ l))).
    + rewrite (bind_ok _ _ _ _ _ (r_get _)). rewrite (bind_ok _ _ _ _ _ (r_indent _ _ E2)).
      cbn [a_block_loop]. rewrite (bind_ok _ _ _ ([], 0%nat, length ((pre ++ h) ++ w0 ++ l), trim (w0 ++ l)) (length ((pre ++ h) ++ w0 ++ l))).
      * unfold ret. rewrite (r_slice _ _ _ E1''). 
        destruct (bchomp h); cbn [negb repeat]; rewrite !app_nil_r, <- !app_assoc; reflexivity.
      * now rewrite (bind_ok _ _ _ _ _ (r_eof _ _ E2)).
    + rewrite (bind_ok _ _ _ _ _ (r_find_nl _ _ _ E1' Nl (or_introl eq_refl))). rewrite <- (app_assoc (pre ++ h) w0 l).
      rewrite (bind_ok _ _ _ _ _ (r_string _ _ _ E1'')). rewrite (bind_ok _ _ _ _ _ (r_ws_nl _ _ _ E2' eq_refl)). cbv beta iota.
      rewrite (app_nil_r ((pre ++ h) ++ w0 ++ l)).
      rewrite (bind_ok _ _ _ _ _ (r_eof _ _ E2)). unfold ret. now rewrite app_nil_r.
Qed.

(* ---- keys and plain scalars ---- *)
Lemma key_scan_app x y : (forall c, In c x -> c <> NEWLINE /\ c <> COLON) ->
  key_scan (x ++ y) = (let '(k, e) := key_scan y in ((length x + k)%nat, e)).
Proof.
  induction x as [|c x IH]; intros H; cbn [app length Nat.add].
  - now destruct (key_scan y).
  - cbn [key_scan]. destruct (H c (or_introl eq_refl)) as [H1 H2]. apply N.eqb_neq in H1, H2. rewrite H1, H2. cbn [andb].
    rewrite IH by (intros c' I; apply H; now right). now destruct (key_scan y).
Qed.
Lemma ctl_scan_app x y : (forall c, In c x -> is_ctl c = false) -> ctl_scan (x ++ y) = (length x + ctl_scan y)%nat.
Proof.
  induction x as [|c x IH]; intros H; cbn [app ctl_scan length Nat.add]; [reflexivity|].
  rewrite (H c (or_introl eq_refl)). now rewrite IH by (intros c' I; apply H; now right).
Qed.
Lemma split_at {A} (x y z t : list A) : x ++ y = z ++ t -> (length x <= length z)%nat -> exists u, z = x ++ u /\ y = u ++ t.
Proof.
  revert z. induction x as [|a x IH]; intros z E L; [now exists z|].
  destruct z as [|a' z]; [cbn in L; lia|]. cbn in E. injection E as <- E. cbn in L.
  destruct (IH z E ltac:(lia)) as (u & -> & ->). now exists u.
Qed.

Lemma body_plain (value : astate -> AM (tree unit * option bytes)) st pre r : input = pre ++ r ->
  special (as_inline st) r = false ->
  a_value_body input value st (length pre) =
    bind (a_number input (as_tabular st) (length pre)) (fun num =>
    match num with
    | Some r => ret (TLeaf tt (as_prefix st) r, None)
    | None =>
      if as_inline st then
        r <- a_rest input ;;
        a_bump input (ctl_scan r) ;;;
        x <- a_string input (length pre) ;; ret (TLeaf tt (as_prefix st) (a_plain x), None)
      else
        key <- a_key_or_eol input (length pre) ;;
        match key with
        | Some key => a_mapping_or_nul input value st (length pre) key
        | None => x <- a_string input (length pre) ;; ret (TLeaf tt (as_prefix st) (a_plain x), None)
        end
    end) (length pre).
Proof.
  intros E S. unfold special in S. repeat rewrite orb_false_iff in S. destruct S as ((((((S1 & S2) & S3) & S4) & S5) & S6) & S7).
  unfold a_value_body. rewrite (bind_ok _ _ _ _ _ (r_peek0 _ _ E)), (bind_ok _ _ _ _ _ (r_peek _ _ 1 E)).
  rewrite S1, S2, S3, S4, S5, S6, S7. cbn [orb]. now rewrite (bind_ok _ _ _ _ _ (r_get _)).
Qed.
Lemma r_key pre r x y k b : input = pre ++ r -> r = x ++ y -> (forall c, In c x -> c <> NEWLINE /\ c <> COLON) ->
  key_scan r = (length k, b) -> (exists s, r = k ++ s) ->
  a_key_or_eol input (length pre) (length (pre ++ x)) =
  Ok (if b then Some (RS KBare k k) else None, length (pre ++ k)).
Proof.
  intros E -> H K (s & Ek). rewrite (key_scan_app _ _ H) in K. destruct (key_scan y) as [n e] eqn:Y. injection K as L ->.
  destruct (split_at _ _ _ _ Ek) as (u & -> & ->); [unfold byte, bytes in *; lia|].
  rewrite app_length in L. assert (n = length u) as -> by (unfold byte, bytes in *; lia).
  assert (E1 : input = (pre ++ x) ++ u ++ s) by (rewrite E, <- !app_assoc; reflexivity).
  assert (E2 : input = pre ++ (x ++ u) ++ s) by (rewrite E, <- !app_assoc; reflexivity).
  unfold a_key_or_eol. rewrite (bind_ok _ _ _ _ _ (r_rest _ _ E1)). rewrite Y.
  rewrite (bind_ok _ _ _ _ _ (r_bump _ _ _ _ E1 eq_refl)). rewrite <- app_assoc.
  destruct b; [|reflexivity]. now rewrite (bind_ok _ _ _ _ _ (r_string _ _ _ E2)).
Qed.
Lemma r_first_key value st pre key r : first_key key r -> as_inline st = false -> as_tabular st = true ->
  input = pre ++ wstr key ++ r ->
  a_value_body input value st (length pre) = a_mapping_or_nul input value st (length pre) key (length (pre ++ wstr key)).
Proof.
  intros K I T E. destruct K as [x r S NR KS|x v r D C|x v r D C].
  - change (wstr (RS KBare x x)) with x in *. rewrite (body_plain _ _ _ _ E) by now rewrite I. rewrite I, T.
    pose proof (r_number true _ _ E) as N. cbn [negb] in N. rewrite NR in N. destruct N as (x0 & s & Ex & Hx & N). rewrite (bind_ok _ _ _ _ _ N).
    rewrite (bind_ok _ _ _ _ _ (r_key _ _ x0 s x true E Ex (fun c J => let (a, b) := Hx c J in let (b, _) := b in conj a b) KS ltac:(eauto))).
    reflexivity.
  - change (wstr (RS KOriginal v x)) with x in *. unfold a_value_body.
    assert (X : hd EOF (x ++ r) = DQUOTE) by (destruct D as (y & c & -> & _); reflexivity).
    rewrite (bind_ok _ _ _ _ _ (r_peek0 _ _ E)), (bind_ok _ _ _ _ _ (r_peek _ _ 1 E)). rewrite X.
    change (DQUOTE =? DASH) with false. change (DQUOTE =? DQUOTE) with true. cbn [andb]. cbv iota.
    rewrite (bind_ok _ _ _ _ _ (r_get _)), (bind_ok _ _ _ _ _ (r_dq _ _ _ _ (or_introl D) E)).
    assert (E1 : input = (pre ++ x) ++ r) by now rewrite <- app_assoc.
    rewrite (bind_ok _ _ _ _ _ (r_peek0 _ _ E1)), C, I. reflexivity.
  - change (wstr (RS KOriginal v x)) with x in *. unfold a_value_body.
    assert (X : hd EOF (x ++ r) = SQUOTE) by (destruct D as (y & -> & _); reflexivity).
    rewrite (bind_ok _ _ _ _ _ (r_peek0 _ _ E)), (bind_ok _ _ _ _ _ (r_peek _ _ 1 E)). rewrite X.
    change (SQUOTE =? DASH) with false. change (SQUOTE =? DQUOTE) with false. change (SQUOTE =? SQUOTE) with true. cbn [andb]. cbv iota.
    assert (C' : hd EOF r <> SQUOTE) by (rewrite C; discriminate).
    rewrite (bind_ok _ _ _ _ _ (r_get _)), (bind_ok _ _ _ _ _ (r_sq _ _ _ _ D C' E)).
    assert (E1 : input = (pre ++ x) ++ r) by now rewrite <- app_assoc.
    rewrite (bind_ok _ _ _ _ _ (r_peek0 _ _ E1)), C, I. reflexivity.
Qed.

(* Where the parser is after a value: right behind it, or behind the layout that follows. *)
Definition vdone (inl : bool) (pre : bytes) (v : tree unit) (post : bytes) (res : outcome (tree unit * option bytes * nat)) : Prop :=
  exists o n, res = Ok ((v, o), n) /\
  (o = None /\ n = length (pre ++ wtree v) \/
   exists w r, post = w ++ r /\ cut w r /\ o = Some w /\ n = length (pre ++ wtree v ++ w) /\
     (inl = true -> post = [] \/ hd EOF post = NEWLINE)).
Lemma wscalar_plain x : wscalar (a_plain x) = x.
Proof.
  unfold a_plain. destruct (beq x [TILDE]) eqn:B; [now apply beq_eq in B|].
  destruct (eq_ignore_case x kw_null); [reflexivity|]. destruct (eq_ignore_case x kw_true); [reflexivity|].
  destruct (eq_ignore_case x kw_false); reflexivity.
Qed.
Lemma r_leaf value st pre sc post : scal (as_inline st) pre sc post -> as_tabular st = negb (as_inline st) ->
  input = pre ++ wscalar sc ++ post ->
  vdone (as_inline st) pre (TLeaf tt (as_prefix st) sc) post (a_value_body input value st (length pre)).
Proof.
  intros S T E. remember (as_inline st) as inl eqn:I. symmetry in I.
  destruct S as [inl pre x h post S NR|pre x post S NR K|pre x post S NR K|inl pre x v post D C|inl pre x v D|inl pre x v post D Q C|inl pre h o v post H B].
  - change (wscalar (ScNum x h)) with x in *. rewrite (body_plain _ _ _ _ E) by now rewrite I. rewrite T.
    pose proof (r_number (negb inl) _ _ E) as N. rewrite negb_involutive, NR in N.
    rewrite (bind_ok _ _ _ _ _ (N x post eq_refl eq_refl)). eexists None, _. split; [reflexivity|]. left. split; reflexivity.
  - rewrite wscalar_plain in E. rewrite (body_plain _ _ _ _ E) by now rewrite I. rewrite T, I.
    pose proof (r_number false _ _ E) as N. cbn [negb] in *. rewrite NR in N. destruct N as (x0 & s & Ex & Hx & N). rewrite (bind_ok _ _ _ _ _ N).
    rewrite Ex, ctl_scan_app in K by (intros c J; apply Hx; exact J).
    destruct (split_at x0 s x post) as (u & -> & ->); [now symmetry|unfold byte, bytes in *; lia|].
    rewrite app_length in K. assert (K' : ctl_scan (u ++ post) = length u) by (unfold byte, bytes in *; lia).
    assert (E1 : input = (pre ++ x0) ++ u ++ post) by (rewrite E, <- !app_assoc; reflexivity).
    assert (E2 : input = pre ++ (x0 ++ u) ++ post) by (rewrite E, <- !app_assoc; reflexivity).
    rewrite (bind_ok _ _ _ _ _ (r_rest _ _ E1)), (bind_ok _ _ _ _ _ (r_bump _ _ _ _ E1 K')). rewrite <- app_assoc.
    rewrite (bind_ok _ _ _ _ _ (r_string _ _ _ E2)). eexists None, _. split; [reflexivity|]. left.
    cbn [wtree]. rewrite wscalar_plain. split; reflexivity.
  - rewrite wscalar_plain in E. rewrite (body_plain _ _ _ _ E) by now rewrite I. rewrite T, I.
    pose proof (r_number true _ _ E) as N. cbn [negb] in *. rewrite NR in N. destruct N as (x0 & s & Ex & Hx & N). rewrite (bind_ok _ _ _ _ _ N).
    rewrite (bind_ok _ _ _ _ _ (r_key _ _ x0 s x false E Ex (fun c J => let (a, b) := Hx c J in let (b, _) := b in conj a b) K ltac:(eauto))).
    cbv iota. rewrite (bind_ok _ _ _ _ _ (r_string _ _ _ E)). eexists None, _. split; [reflexivity|]. left.
    cbn [wtree]. rewrite wscalar_plain. split; reflexivity.
  - change (wscalar (ScStr (RS KOriginal v x))) with x in *. unfold a_value_body.
    assert (X : hd EOF (x ++ post) = DQUOTE) by (destruct D as (y & c & -> & _); reflexivity).
    rewrite (bind_ok _ _ _ _ _ (r_peek0 _ _ E)), (bind_ok _ _ _ _ _ (r_peek _ _ 1 E)). rewrite X.
    change (DQUOTE =? DASH) with false. change (DQUOTE =? DQUOTE) with true. cbn [andb]. cbv iota.
    rewrite (bind_ok _ _ _ _ _ (r_get _)), (bind_ok _ _ _ _ _ (r_dq _ _ _ _ (or_introl D) E)).
    assert (E1 : input = (pre ++ x) ++ post) by now rewrite <- app_assoc.
    rewrite (bind_ok _ _ _ _ _ (r_peek0 _ _ E1)), I.
    assert (negb inl && (hd EOF post =? COLON) = false) as ->.
    { destruct C as [->|C]; [reflexivity|]. apply N.eqb_neq in C. rewrite C. apply andb_false_r. }
    eexists None, _. split; [reflexivity|]. left. split; reflexivity.
  - change (wscalar (ScStr (RS KOriginal v x))) with x in *. unfold a_value_body.
    assert (X : hd EOF (x ++ []) = DQUOTE) by (destruct D as (y & -> & _); reflexivity).
    rewrite (bind_ok _ _ _ _ _ (r_peek0 _ _ E)), (bind_ok _ _ _ _ _ (r_peek _ _ 1 E)). rewrite X.
    change (DQUOTE =? DASH) with false. change (DQUOTE =? DQUOTE) with true. cbn [andb]. cbv iota.
    rewrite (bind_ok _ _ _ _ _ (r_get _)), (bind_ok _ _ _ _ _ (r_dq _ _ _ _ (or_intror (conj D eq_refl)) E)).
    assert (E1 : input = (pre ++ x) ++ []) by now rewrite <- app_assoc.
    rewrite (bind_ok _ _ _ _ _ (r_peek0 _ _ E1)), I. cbn [hd]. change (EOF =? COLON) with false. rewrite andb_false_r.
    eexists None, _. split; [reflexivity|]. left. split; reflexivity.
  - change (wscalar (ScStr (RS KOriginal v x))) with x in *. unfold a_value_body.
    assert (X : hd EOF (x ++ post) = SQUOTE) by (destruct D as (y & -> & _); reflexivity).
    rewrite (bind_ok _ _ _ _ _ (r_peek0 _ _ E)), (bind_ok _ _ _ _ _ (r_peek _ _ 1 E)). rewrite X.
    change (SQUOTE =? DASH) with false. change (SQUOTE =? DQUOTE) with false. change (SQUOTE =? SQUOTE) with true. cbn [andb]. cbv iota.
    rewrite (bind_ok _ _ _ _ _ (r_get _)), (bind_ok _ _ _ _ _ (r_sq _ _ _ _ D Q E)).
    assert (E1 : input = (pre ++ x) ++ post) by now rewrite <- app_assoc.
    rewrite (bind_ok _ _ _ _ _ (r_peek0 _ _ E1)), I.
    assert (negb inl && (hd EOF post =? COLON) = false) as ->.
    { destruct C as [->|C]; [reflexivity|]. apply N.eqb_neq in C. rewrite C. apply andb_false_r. }
    eexists None, _. split; [reflexivity|]. left. split; reflexivity.
  - change (wscalar (ScStr (RS (KMultiline h) v o))) with (h ++ o) in *. rewrite <- app_assoc in E.
    destruct (bheader_peek _ _ H) as (H1 & H2 & H3 & H4 & H5). unfold a_value_body.
    rewrite (bind_ok _ _ _ _ _ (r_peek0 _ _ E)), (bind_ok _ _ _ _ _ (r_peek _ _ 1 E)).
    assert (X : hd EOF (h ++ o ++ post) = GT \/ hd EOF (h ++ o ++ post) = PIPE).
    { apply orb_prop in H1 as [X|X]; apply N.eqb_eq in X; auto. }
    rewrite H1.
    assert (((hd EOF (h ++ o ++ post) =? DASH) && is_ws (nth 1 (h ++ o ++ post) EOF) && negb (as_inline st)) = false /\
      (hd EOF (h ++ o ++ post) =? DQUOTE) = false /\ (hd EOF (h ++ o ++ post) =? SQUOTE) = false /\
      (hd EOF (h ++ o ++ post) =? LBRACK) = false /\ (hd EOF (h ++ o ++ post) =? LBRACE) = false) as (-> & -> & -> & -> & ->).
    { destruct X as [-> | ->]; repeat split; reflexivity. }
    destruct (r_block pre h o v post _ _ _ _ (nth 1 (h ++ o ++ post) EOF =? DASH) B E (eq_sym H2) H3 H4 H5) as (w & r & -> & Cw & Nw & R).
    { now rewrite negb_involutive. }
    rewrite (bind_ok _ _ _ _ _ R). eexists (Some w), _. split; [reflexivity|]. right. exists w, r. split; [reflexivity|].
    split; [exact Cw|]. split; [reflexivity|]. split; [cbn; now rewrite <- !app_assoc|auto].
Qed.

Lemma r_or_ws inl pre (v : tree unit) post o n w r : post = w ++ r -> cut w r -> input = pre ++ wtree v ++ post ->
  (o = None /\ n = length (pre ++ wtree v) \/
   exists w r, post = w ++ r /\ cut w r /\ o = Some w /\ n = length (pre ++ wtree v ++ w) /\
     (inl = true -> post = [] \/ hd EOF post = NEWLINE)) ->
  a_or_ws input o n = Ok (w, length (pre ++ wtree v ++ w)).
Proof.
  intros -> C E [[-> ->]|(w' & r' & Ew & C' & -> & -> & _)]; cbn [a_or_ws].
  - assert (E1 : input = (pre ++ wtree v) ++ w ++ r) by (rewrite E, <- !app_assoc; reflexivity).
    rewrite (r_ws _ _ _ E1 C). now rewrite <- app_assoc.
  - destruct (cut_unique _ _ _ _ Ew C C') as [<- _]. reflexivity.
Qed.
Lemma colon_scan_key k r : ~ In COLON k -> ~ In EOF k -> colon_scan (k ++ COLON :: r) = length k.
Proof.
  intros H1 H2. induction k as [|c k IH]; cbn [app colon_scan length].
  - now rewrite N.eqb_refl.
  - destruct (N.eqb_spec c COLON) as [->|_]; [exfalso; apply H1; now left|].
    destruct (N.eqb_spec c EOF) as [->|_]; [exfalso; apply H2; now left|]. cbn [orb].
    rewrite IH; auto; intros J; [apply H1|apply H2]; now right.
Qed.
End Run.

Section Values.
Lemma sep_nil l : sep [] l = concat l.
Proof. induction l as [|x l IH]; cbn [sep concat]; [reflexivity|]. rewrite IH. now destruct l. Qed.
Lemma map_text items : wtree (TMap tt [] 0 CBlock items) = mtext items.
Proof.
  cbn [wtree open_if comma_if closing]. rewrite app_nil_l, app_nil_r, sep_nil. reflexivity.
Qed.
Lemma seq_text items : Forall (fun it : sitem unit => let '(_, ip, _) := it in lossy ip = ip) items ->
  wtree (TSeq tt [] 0 CBlock items) = stext items.
Proof.
  cbn [wtree open_if comma_if closing dash_if]. rewrite app_nil_l, app_nil_r, sep_nil. unfold stext. intros F. f_equal.
  induction F as [|[[? ip] v] items L F IH]; [reflexivity|]. cbn [map stext1].
  rewrite IH, L. reflexivity.
Qed.

Definition Preads (inl : bool) (pi : option nat) (pre : bytes) (v : tree unit) (post : bytes) := forall input f, input = pre ++ wtree v ++ post ->
  (length (wtree v ++ post) < f)%nat ->
  vdone inl pre v post (a_value input f (AState (tpre v) inl (negb inl) pi) (length pre)).
Definition Pvreads (pi : option nat) (pre : bytes) (v : tree unit) (post : bytes) := forall input f, input = pre ++ tpre v ++ wtree v ++ post ->
  (length (tpre v ++ wtree v ++ post) < f)%nat ->
  exists p n, a_ws input (length pre) = Ok (p, n) /\
    vdone false (pre ++ tpre v) v post (a_value input f (AState p false true pi) n).
Definition Pmreads (ind : nat) (pre : bytes) (items : list (mitem unit)) (w r : bytes) := match items with
  | [] => True
  | (_, ip, key, v) :: rest =>
    let text := wstr key ++ [COLON] ++ tpre v ++ wtree v ++ mtext rest in
    forall input f g acc start, input = pre ++ text ++ w ++ r -> cut w r ->
    (length (text ++ w ++ r) <= f)%nat -> (length (text ++ w ++ r) <= g)%nat ->
    a_map_loop input (a_value input f) g ind acc start key ip (length (pre ++ wstr key)) =
    Ok ((acc ++ items, w), length (pre ++ text ++ w))
  end.
Definition Psreads (ind : nat) (pre : bytes) (items : list (sitem unit)) (w r : bytes) := match items with
  | [] => True
  | (_, ip, v) :: rest =>
    let text := [DASH] ++ tpre v ++ wtree v ++ stext rest in
    forall input f g acc, input = pre ++ text ++ w ++ r -> cut w r ->
    (length (text ++ w ++ r) <= f)%nat -> (length (text ++ w ++ r) <= g)%nat ->
    a_seq_loop input (a_value input f) g ind acc ip (length pre) =
    Ok ((acc ++ items, w), length (pre ++ text ++ w)) /\ Forall (fun it : sitem unit => let '(_, ip, _) := it in lossy ip = ip) rest
  end.
Definition Pfsreads (pre : bytes) (items : list (sitem unit)) (tr : bool) (suf post : bytes) :=
  let text := sep [COMMA] (map ftext1 items) ++ (if tr then [COMMA] else []) ++ suf in
  forall input f g acc tr0, input = pre ++ text ++ [RBRACK] ++ post -> (items = [] -> tr0 = false) ->
    (length (text ++ [RBRACK] ++ post) < f)%nat -> (length (text ++ [RBRACK] ++ post) < g)%nat ->
    exists p n, a_ws input (length pre) = Ok (p, n) /\
    a_iseq_loop input (a_value input f) g acc false tr0 p n = Ok ((acc ++ items, tr, suf), length (pre ++ text)) /\
    Forall (fun it : sitem unit => let '(_, ip, _) := it in lossy ip = ip) items.
Definition Pfmreads (pre : bytes) (items : list (mitem unit)) (tr : bool) (suf post : bytes) :=
  let text := sep [COMMA] (map mtext1 items) ++ (if tr then [COMMA] else []) ++ suf in
  forall input f g acc tr0 start, input = pre ++ text ++ [RBRACE] ++ post -> (items = [] -> tr0 = false) ->
    (length (text ++ [RBRACE] ++ post) < f)%nat -> (length (text ++ [RBRACE] ++ post) < g)%nat ->
    exists p n start', a_ws input (length pre) = Ok (p, n) /\
    a_imap_loop input (a_value input f) g acc false tr0 start p n = Ok ((acc ++ items, tr, suf, start'), length (pre ++ text)).

Ltac asc := rewrite ?app_length in *; cbn [length] in *; unfold byte, bytes in *; lia.

Lemma sound_leaf inl pi pre p sc post : scal inl pre sc post -> Preads inl pi pre (TLeaf tt p sc) post.
Proof.
  intros S input f E F. destruct f as [|f]; [lia|]. cbn [a_value]. cbn [tpre].
  apply (r_leaf input (a_value input f) (AState p inl (negb inl) pi) pre sc post S eq_refl E).
Qed.
Lemma sound_map pi pre p key v rest w r :
  match pi with Some i => (i < col pre)%nat | None => True end ->
  first_key key ([COLON] ++ tpre v ++ wtree v ++ mtext rest ++ w ++ r) -> line_end w r ->
  Pmreads (col pre) pre ((tt, [], key, v) :: rest) w r ->
  Preads false pi pre (TMap tt p (col pre) CBlock ((tt, [], key, v) :: rest)) (w ++ r).
Proof.
  intros PI K [C _] M input f E F.
  change (wtree (TMap tt p (col pre) CBlock ((tt, [], key, v) :: rest))) with (wtree (TMap tt [] 0 CBlock ((tt, [], key, v) :: rest))) in E, F.
  assert (T : wtree (TMap tt [] 0 CBlock ((tt, [], key, v) :: rest)) = wstr key ++ [COLON] ++ tpre v ++ wtree v ++ mtext rest).
  { rewrite map_text. unfold mtext. cbn [map concat mtext1]. rewrite app_nil_l, <- !app_assoc. reflexivity. }
  rewrite T in E, F. destruct f as [|f]; [lia|]. cbn [a_value tpre].
  assert (E1 : input = pre ++ wstr key ++ [COLON] ++ tpre v ++ wtree v ++ mtext rest ++ w ++ r) by (rewrite E, <- !app_assoc; reflexivity).
  rewrite (r_first_key input _ _ _ _ _ K); [|reflexivity|reflexivity|exact E1]. unfold a_mapping_or_nul.
  rewrite (r_indent_from input _ _ E). cbn [as_parent_indent].
  assert ((match pi with Some i => (col pre <=? i)%nat | None => false end) = false) as ->.
  { destruct pi; [|reflexivity]. apply Nat.leb_gt. exact PI. }
  cbn [Pmreads] in M. rewrite (bind_ok _ _ _ _ _ (M input f (1 + length input)%nat [] (length pre) E C ltac:(asc) ltac:(rewrite E; asc))).
  eexists (Some w), _. split; [reflexivity|]. right. exists w, r. repeat split; auto; [|discriminate].
  change (wtree (TMap tt p (col pre) CBlock ((tt, [], key, v) :: rest))) with (wtree (TMap tt [] 0 CBlock ((tt, [], key, v) :: rest))).
  now rewrite T.
Qed.
Lemma sound_seq pi pre p v rest w r :
  is_ws (hd EOF (tpre v ++ wtree v ++ stext rest ++ w ++ r)) = true -> line_end w r ->
  Psreads (col pre) pre ((tt, [], v) :: rest) w r ->
  Preads false pi pre (TSeq tt p (col pre) CBlock ((tt, [], v) :: rest)) (w ++ r).
Proof.
  intros W [C _] M input f E F. cbn [Psreads] in M.
  assert (L : Forall (fun it : sitem unit => let '(_, ip, _) := it in lossy ip = ip) rest).
  { set (text := [DASH] ++ tpre v ++ wtree v ++ stext rest) in *. eapply (M (pre ++ text ++ w ++ r) _ _ []); auto. }
  change (wtree (TSeq tt p (col pre) CBlock ((tt, [], v) :: rest))) with (wtree (TSeq tt [] 0 CBlock ((tt, [], v) :: rest))) in E, F.
  assert (T : wtree (TSeq tt [] 0 CBlock ((tt, [], v) :: rest)) = [DASH] ++ tpre v ++ wtree v ++ stext rest).
  { rewrite seq_text by (constructor; auto). unfold stext. cbn [map concat stext1]. rewrite app_nil_l, <- !app_assoc. reflexivity. }
  rewrite T in E, F. destruct f as [|f]; [lia|]. cbn [a_value tpre].
  unfold a_value_body. rewrite (bind_ok _ _ _ _ _ (r_peek0 _ _ _ E)), (bind_ok _ _ _ _ _ (r_peek _ _ _ 1 E)).
  assert (W1 : is_ws (nth 1 (([DASH] ++ tpre v ++ wtree v ++ stext rest) ++ w ++ r) EOF) = true).
  { rewrite <- W. f_equal. rewrite <- !app_assoc. cbn [app nth]. destruct (tpre v ++ wtree v ++ stext rest ++ w ++ r); reflexivity. }
  unfold byte, bytes in *. rewrite W1.
  change ((hd EOF (([DASH] ++ tpre v ++ wtree v ++ stext rest) ++ w ++ r) =? DASH)) with true. cbn [andb as_inline negb]. cbv iota.
  unfold a_sequence. rewrite (bind_ok _ _ _ _ _ (r_indent _ _ _ E)).
  rewrite (bind_ok _ _ _ _ _ (proj1 (M input f (1 + length input)%nat [] E C ltac:(asc) ltac:(rewrite E; asc)))).
  eexists (Some w), _. split; [reflexivity|]. right. exists w, r. repeat split; auto; [|discriminate].
  exact (f_equal (fun x => length (pre ++ x ++ w)) (eq_sym T)).
Qed.
Lemma sound_fmap inl pi pre p items tr suf post : Pfmreads (pre ++ [LBRACE]) items tr suf post ->
  Preads inl pi pre (TMap tt p 0 (CInline tr suf) items) post.
Proof.
  intros M input f E F.
  assert (T : wtree (TMap tt p 0 (CInline tr suf) items) = [LBRACE] ++ (sep [COMMA] (map mtext1 items) ++ (if tr then [COMMA] else []) ++ suf) ++ [RBRACE]).
  { cbn [wtree open_if comma_if closing]. rewrite <- !app_assoc. reflexivity. }
  unfold Pfmreads in M. rewrite T in E, F. set (text := sep [COMMA] (map mtext1 items) ++ (if tr then [COMMA] else []) ++ suf) in *.
  destruct f as [|f]; [lia|]. cbn [a_value tpre]. unfold a_value_body.
  rewrite (bind_ok _ _ _ _ _ (r_peek0 _ _ _ E)), (bind_ok _ _ _ _ _ (r_peek _ _ _ 1 E)).
  change (hd EOF (([LBRACE] ++ text ++ [RBRACE]) ++ post)) with LBRACE.
  change (LBRACE =? DASH) with false. change (LBRACE =? DQUOTE) with false. change (LBRACE =? SQUOTE) with false.
  change (LBRACE =? LBRACK) with false. change (LBRACE =? LBRACE) with true. cbn [andb]. cbv iota.
  assert (R : a_inline_mapping input (a_value input f) (AState p inl (negb inl) pi) (length pre) = Ok (TMap tt p 0 (CInline tr suf) items, length (pre ++ [LBRACE] ++ text ++ [RBRACE]))).
  { unfold a_inline_mapping. 
    assert (E0 : input = pre ++ LBRACE :: text ++ [RBRACE] ++ post) by (rewrite E, <- !app_assoc; reflexivity).
    rewrite (bind_ok _ _ _ _ _ (r_bump1 _ _ _ _ E0)), (bind_ok _ _ _ _ _ (r_get _)).
    assert (E1 : input = (pre ++ [LBRACE]) ++ text ++ [RBRACE] ++ post) by (rewrite E, <- !app_assoc; reflexivity).
    assert (E2 : input = ((pre ++ [LBRACE]) ++ text) ++ RBRACE :: post) by (rewrite E, <- !app_assoc; reflexivity).
    destruct (M input f (2 + length input)%nat [] false (length (pre ++ [LBRACE])) E1 (fun _ => eq_refl) ltac:(asc) ltac:(rewrite E1; asc)) as (q & n & start' & H1 & H2).
    rewrite (bind_ok _ _ _ _ _ H1), (bind_ok _ _ _ _ _ H2). rewrite (bind_ok _ _ _ _ _ (r_peek0 _ _ _ E2)).
    change (negb (hd EOF (RBRACE :: post) =? RBRACE)) with false. cbv iota.
    rewrite (bind_ok _ _ _ _ _ (r_bump1 _ _ _ _ E2)). cbn [as_prefix app]. unfold ret. now rewrite <- !app_assoc. }
  rewrite (bind_ok _ _ _ _ _ R). eexists None, _. split; [reflexivity|]. left. split; [reflexivity|]. now rewrite T.
Qed.
Lemma sound_fseq inl pi pre p items tr suf post : Pfsreads (pre ++ [LBRACK]) items tr suf post ->
  Preads inl pi pre (TSeq tt p 0 (CInline tr suf) items) post.
Proof.
  intros M input f E F. unfold Pfsreads in M.
  assert (L : Forall (fun it : sitem unit => let '(_, ip, _) := it in lossy ip = ip) items).
  { set (text := sep [COMMA] (map ftext1 items) ++ (if tr then [COMMA] else []) ++ suf) in *.
    destruct (M ((pre ++ [LBRACK]) ++ text ++ [RBRACK] ++ post) _ _ [] false eq_refl (fun _ => eq_refl) (le_n _) (le_n _)) as (? & ? & _ & _ & L). exact L. }
  assert (T : wtree (TSeq tt p 0 (CInline tr suf) items) = [LBRACK] ++ (sep [COMMA] (map ftext1 items) ++ (if tr then [COMMA] else []) ++ suf) ++ [RBRACK]).
  { cbn [wtree open_if comma_if closing dash_if]. f_equal. rewrite <- !app_assoc. f_equal. f_equal. clear -L. induction L as [|[[? ip] ?] l X L IH]; [reflexivity|].
    cbn [map ftext1]. rewrite X, IH. reflexivity. }
  rewrite T in E, F. set (text := sep [COMMA] (map ftext1 items) ++ (if tr then [COMMA] else []) ++ suf) in *.
  destruct f as [|f]; [lia|]. cbn [a_value tpre]. unfold a_value_body.
  rewrite (bind_ok _ _ _ _ _ (r_peek0 _ _ _ E)), (bind_ok _ _ _ _ _ (r_peek _ _ _ 1 E)).
  change (hd EOF (([LBRACK] ++ text ++ [RBRACK]) ++ post)) with LBRACK.
  change (LBRACK =? DASH) with false. change (LBRACK =? DQUOTE) with false. change (LBRACK =? SQUOTE) with false.
  change (LBRACK =? LBRACK) with true. cbn [andb]. cbv iota.
  assert (R : a_inline_sequence input (a_value input f) (AState p inl (negb inl) pi) (length pre) = Ok (TSeq tt p 0 (CInline tr suf) items, length (pre ++ [LBRACK] ++ text ++ [RBRACK]))).
  { unfold a_inline_sequence.
    assert (E0 : input = pre ++ LBRACK :: text ++ [RBRACK] ++ post) by (rewrite E, <- !app_assoc; reflexivity).
    rewrite (bind_ok _ _ _ _ _ (r_bump1 _ _ _ _ E0)).
    assert (E1 : input = (pre ++ [LBRACK]) ++ text ++ [RBRACK] ++ post) by (rewrite E, <- !app_assoc; reflexivity).
    assert (E2 : input = ((pre ++ [LBRACK]) ++ text) ++ RBRACK :: post) by (rewrite E, <- !app_assoc; reflexivity).
    destruct (M input f (2 + length input)%nat [] false E1 (fun _ => eq_refl) ltac:(asc) ltac:(rewrite E1; asc)) as (q & n & H1 & H2 & _).
    rewrite (bind_ok _ _ _ _ _ H1), (bind_ok _ _ _ _ _ H2). rewrite (bind_ok _ _ _ _ _ (r_peek0 _ _ _ E2)).
    change (negb (hd EOF (RBRACK :: post) =? RBRACK)) with false. cbv iota.
    rewrite (bind_ok _ _ _ _ _ (r_bump1 _ _ _ _ E2)). cbn [as_prefix app]. unfold ret. now rewrite <- !app_assoc. }
  rewrite (bind_ok _ _ _ _ _ R). eexists None, _. split; [reflexivity|]. left. split; [reflexivity|]. now rewrite T.
Qed.

Lemma sound_value pi pre v post : cut (tpre v) (wtree v ++ post) -> Preads false pi (pre ++ tpre v) v post -> Pvreads pi pre v post.
Proof.
  intros C R input f E F. exists (tpre v), (length (pre ++ tpre v)). split; [now apply (r_ws _ _ _ _ E)|].
  apply (R input f); [now rewrite <- app_assoc|asc].
Qed.
Lemma sound_null i pre w key r : cut w (wstr key ++ [COLON] ++ r) -> first_key key ([COLON] ++ r) -> (col (pre ++ w) <= i)%nat ->
  Pvreads (Some i) pre (TLeaf tt [] (ScNull NEmpty)) (w ++ wstr key ++ [COLON] ++ r).
Proof.
  intros C K L input f E F. cbn [tpre wtree wscalar app] in E, F.
  assert (E0 : input = pre ++ w ++ wstr key ++ [COLON] ++ r) by exact E.
  exists w, (length (pre ++ w)). split; [now apply (r_ws _ _ _ _ E)|]. destruct f as [|f]; [lia|]. cbn [a_value].
  assert (E1 : input = (pre ++ w) ++ wstr key ++ [COLON] ++ r) by (rewrite E, <- !app_assoc; reflexivity).
  rewrite (r_first_key input _ _ _ _ _ K); [|reflexivity|reflexivity|exact E1]. unfold a_mapping_or_nul.
  rewrite (r_indent_from input _ _ E1). cbn [as_parent_indent]. rewrite (proj2 (Nat.leb_le _ _) L).
  exists (Some w), (length (pre ++ w)). split; [reflexivity|]. right. exists w, (wstr key ++ [COLON] ++ r). repeat split; auto.
  - cbn [tpre wtree wscalar app]. now rewrite app_nil_r.
  - discriminate.
Qed.
Lemma sound_mlast ind pre ip key v w r :
  Pvreads (Some ind) (pre ++ wstr key ++ [COLON]) v (w ++ r) ->
  (col (pre ++ wstr key ++ [COLON] ++ tpre v ++ wtree v ++ w) <> ind \/ colon_scan r = 0%nat) ->
  Pmreads ind pre [(tt, ip, key, v)] w r.
Proof.
  intros V H. unfold Pmreads. cbn [mtext map concat]. rewrite app_nil_r. intros input f g acc start E C F G.
  destruct g as [|g]; [asc|]. cbn [a_map_loop].
  assert (E1 : input = (pre ++ wstr key) ++ COLON :: tpre v ++ wtree v ++ w ++ r) by (rewrite E, <- !app_assoc; reflexivity).
  rewrite (bind_ok _ _ _ _ _ (r_peek0 _ _ _ E1)). change (negb (hd EOF (COLON :: tpre v ++ wtree v ++ w ++ r) =? COLON)) with false. cbv iota.
  rewrite (bind_ok _ _ _ _ _ (r_bump1 _ _ _ _ E1)).
  assert (E2 : input = (pre ++ wstr key ++ [COLON]) ++ tpre v ++ wtree v ++ w ++ r) by (rewrite E, <- !app_assoc; reflexivity).
  destruct (V input f E2 ltac:(asc)) as (p & n & H1 & (o & n' & H2 & H3)).
  rewrite <- app_assoc. rewrite (bind_ok _ _ _ _ _ H1), (bind_ok _ _ _ _ _ H2).
  assert (E3 : input = ((pre ++ wstr key ++ [COLON]) ++ tpre v) ++ wtree v ++ w ++ r) by (rewrite E2, <- !app_assoc; reflexivity).
  rewrite (bind_ok _ _ _ _ _ (r_or_ws input _ _ _ _ _ _ _ _ eq_refl C E3 H3)).
  assert (X : ((pre ++ wstr key ++ [COLON]) ++ tpre v) ++ wtree v ++ w = pre ++ wstr key ++ [COLON] ++ tpre v ++ wtree v ++ w) by (rewrite <- !app_assoc; reflexivity).
  unfold byte, bytes in *. rewrite X.
  assert (E4 : input = (pre ++ wstr key ++ [COLON] ++ tpre v ++ wtree v ++ w) ++ r) by (rewrite E, <- !app_assoc; reflexivity).
  rewrite (bind_ok _ _ _ _ _ (r_indent _ _ _ E4)).
  destruct (Nat.eqb_spec (col (pre ++ wstr key ++ [COLON] ++ tpre v ++ wtree v ++ w)) ind) as [Q|Q]; cbn [negb].
  - destruct H as [H|H]; [contradiction|].
    rewrite (bind_ok _ _ _ _ _ (r_get _)).
    assert (K : a_next_mapping_key input (length (pre ++ wstr key ++ [COLON] ++ tpre v ++ wtree v ++ w)) = Ok (None, length (pre ++ wstr key ++ [COLON] ++ tpre v ++ wtree v ++ w))).
    { unfold a_next_mapping_key. rewrite (bind_ok _ _ _ _ _ (r_get _)), (bind_ok _ _ _ _ _ (r_rest _ _ _ E4)). rewrite H.
      assert (B : (length (pre ++ wstr key ++ [COLON] ++ tpre v ++ wtree v ++ w) <= length input)%nat) by (pose proof (f_equal (@length _) E4); asc).
      rewrite (bind_ok _ _ _ _ _ (r_bump0 _ _ B)).
      pose proof (r_string input (pre ++ wstr key ++ [COLON] ++ tpre v ++ wtree v ++ w) [] r E4) as S. rewrite app_nil_r in S.
      now rewrite (bind_ok _ _ _ _ _ S). }
    rewrite (bind_ok _ _ _ _ _ K). unfold ret. rewrite <- !app_assoc. reflexivity.
  - unfold ret. rewrite <- !app_assoc. reflexivity.
Qed.
Lemma sound_mcons ind pre ip key v w' x v' rest w r :
  Pvreads (Some ind) (pre ++ wstr key ++ [COLON]) v (w' ++ x ++ [COLON] ++ tpre v' ++ wtree v' ++ mtext rest ++ w ++ r) ->
  cut w' (x ++ [COLON]) -> col (pre ++ wstr key ++ [COLON] ++ tpre v ++ wtree v ++ w') = ind ->
  later_key x (tpre v' ++ wtree v' ++ mtext rest ++ w ++ r) ->
  Pmreads ind (pre ++ wstr key ++ [COLON] ++ tpre v ++ wtree v ++ w') ((tt, w', RS KBare x x, v') :: rest) w r ->
  Pmreads ind pre ((tt, ip, key, v) :: (tt, w', RS KBare x x, v') :: rest) w r.
Proof.
  intros V C' Ci (Nx & N1 & N2 & _) M. unfold Pmreads in *. cbn [mtext map concat mtext1] in *. fold (mtext rest) in *.
  change (wstr (RS KBare x x)) with x in *.
  intros input f g acc start E C F G.
  destruct g as [|g]; [asc|]. cbn [a_map_loop].
  assert (E1 : input = (pre ++ wstr key) ++ COLON :: tpre v ++ wtree v ++ w' ++ x ++ [COLON] ++ tpre v' ++ wtree v' ++ mtext rest ++ w ++ r) by (rewrite E, <- !app_assoc; reflexivity).
  rewrite (bind_ok _ _ _ _ _ (r_peek0 _ _ _ E1)). cbn [hd]. rewrite N.eqb_refl. cbn [negb].
  rewrite (bind_ok _ _ _ _ _ (r_bump1 _ _ _ _ E1)).
  assert (E2 : input = (pre ++ wstr key ++ [COLON]) ++ tpre v ++ wtree v ++ w' ++ x ++ [COLON] ++ tpre v' ++ wtree v' ++ mtext rest ++ w ++ r) by (rewrite E, <- !app_assoc; reflexivity).
  destruct (V input f E2 ltac:(asc)) as (p & n & H1 & (o & n' & H2 & H3)).
  rewrite <- app_assoc. rewrite (bind_ok _ _ _ _ _ H1), (bind_ok _ _ _ _ _ H2).
  assert (E3 : input = ((pre ++ wstr key ++ [COLON]) ++ tpre v) ++ wtree v ++ w' ++ x ++ [COLON] ++ tpre v' ++ wtree v' ++ mtext rest ++ w ++ r) by (rewrite E2, <- !app_assoc; reflexivity).
  assert (C2 : cut w' (x ++ [COLON] ++ tpre v' ++ wtree v' ++ mtext rest ++ w ++ r)).
  { rewrite (app_assoc x). apply cut_app; auto. destruct x; discriminate. }
  rewrite (bind_ok _ _ _ _ _ (r_or_ws input _ _ _ _ _ _ _ _ eq_refl C2 E3 H3)).
  set (q := pre ++ wstr key ++ [COLON] ++ tpre v ++ wtree v ++ w') in *.
  assert (X : ((pre ++ wstr key ++ [COLON]) ++ tpre v) ++ wtree v ++ w' = q) by (unfold q; rewrite <- !app_assoc; reflexivity).
  unfold byte, bytes in *. rewrite X.
  assert (E4 : input = q ++ x ++ COLON :: tpre v' ++ wtree v' ++ mtext rest ++ w ++ r) by (unfold q; rewrite E, <- !app_assoc; reflexivity).
  rewrite (bind_ok _ _ _ _ _ (r_indent _ _ _ E4)). rewrite Ci, Nat.eqb_refl. cbn [negb].
  rewrite (bind_ok _ _ _ _ _ (r_get _)).
  assert (K : a_next_mapping_key input (length q) = Ok (Some (RS KBare x x), length (q ++ x))).
  { unfold a_next_mapping_key. rewrite (bind_ok _ _ _ _ _ (r_get _)), (bind_ok _ _ _ _ _ (r_rest _ _ _ E4)).
    rewrite (colon_scan_key x _ N1 N2). rewrite (bind_ok _ _ _ _ _ (r_bump _ _ _ _ _ E4 eq_refl)).
    rewrite (bind_ok _ _ _ _ _ (r_string _ _ _ _ E4)). destruct x; [congruence|reflexivity]. }
  rewrite (bind_ok _ _ _ _ _ K).
  rewrite (M input f g (acc ++ [(tt, ip, key, v)]) (length q)); auto.
  - rewrite <- !app_assoc. unfold q. rewrite <- !app_assoc. reflexivity.
  - rewrite E4. rewrite <- !app_assoc. reflexivity.
  - asc.
  - asc.
Qed.
Lemma sound_slast ind pre ip v w r :
  Pvreads None (pre ++ [DASH]) v (w ++ r) ->
  (col (pre ++ [DASH] ++ tpre v ++ wtree v ++ w) <> ind \/ hd EOF r <> DASH) ->
  Psreads ind pre [(tt, ip, v)] w r.
Proof.
  intros V H. unfold Psreads. cbn [stext map concat]. rewrite app_nil_r. intros input f g acc E C F G. split; [|constructor].
  destruct g as [|g]; [asc|]. cbn [a_seq_loop].
  assert (E1 : input = pre ++ DASH :: tpre v ++ wtree v ++ w ++ r) by (rewrite E, <- !app_assoc; reflexivity).
  rewrite (bind_ok _ _ _ _ _ (r_bump1 _ _ _ _ E1)).
  assert (E2 : input = (pre ++ [DASH]) ++ tpre v ++ wtree v ++ w ++ r) by (rewrite E, <- !app_assoc; reflexivity).
  destruct (V input f E2 ltac:(asc)) as (p & n & H1 & (o & n' & H2 & H3)).
  rewrite (bind_ok _ _ _ _ _ H1), (bind_ok _ _ _ _ _ H2).
  assert (E3 : input = ((pre ++ [DASH]) ++ tpre v) ++ wtree v ++ w ++ r) by (rewrite E2, <- !app_assoc; reflexivity).
  rewrite (bind_ok _ _ _ _ _ (r_or_ws input _ _ _ _ _ _ _ _ eq_refl C E3 H3)).
  assert (X : ((pre ++ [DASH]) ++ tpre v) ++ wtree v ++ w = pre ++ [DASH] ++ tpre v ++ wtree v ++ w) by (rewrite <- !app_assoc; reflexivity).
  unfold byte, bytes in *. rewrite X.
  assert (E4 : input = (pre ++ [DASH] ++ tpre v ++ wtree v ++ w) ++ r) by (rewrite E, <- !app_assoc; reflexivity).
  rewrite (bind_ok _ _ _ _ _ (r_indent _ _ _ E4)), (bind_ok _ _ _ _ _ (r_peek0 _ _ _ E4)).
  assert (Z : (negb (col (pre ++ [DASH] ++ tpre v ++ wtree v ++ w) =? ind)%nat || negb (hd EOF r =? DASH)) = true).
  { unfold byte, bytes in *. destruct H as [H|H]; [apply Nat.eqb_neq in H|apply N.eqb_neq in H]; rewrite H; [reflexivity|apply orb_true_r]. }
  unfold byte, bytes in *. rewrite Z. unfold ret. rewrite <- !app_assoc. reflexivity.
Qed.
Lemma sound_scons ind pre ip v w' v' rest w r :
  Pvreads None (pre ++ [DASH]) v (w' ++ [DASH] ++ tpre v' ++ wtree v' ++ stext rest ++ w ++ r) ->
  cut w' [DASH] -> lossy w' = w' -> col (pre ++ [DASH] ++ tpre v ++ wtree v ++ w') = ind ->
  Psreads ind (pre ++ [DASH] ++ tpre v ++ wtree v ++ w') ((tt, w', v') :: rest) w r ->
  Psreads ind pre ((tt, ip, v) :: (tt, w', v') :: rest) w r.
Proof.
  intros V C' Lw Ci M. unfold Psreads in *. cbn [stext map concat stext1] in *. fold (stext rest) in *.
  intros input f g acc E C F G.
  destruct g as [|g]; [asc|]. cbn [a_seq_loop].
  assert (E1 : input = pre ++ DASH :: tpre v ++ wtree v ++ w' ++ [DASH] ++ tpre v' ++ wtree v' ++ stext rest ++ w ++ r) by (rewrite E, <- !app_assoc; reflexivity).
  rewrite (bind_ok _ _ _ _ _ (r_bump1 _ _ _ _ E1)).
  assert (E2 : input = (pre ++ [DASH]) ++ tpre v ++ wtree v ++ w' ++ [DASH] ++ tpre v' ++ wtree v' ++ stext rest ++ w ++ r) by (rewrite E, <- !app_assoc; reflexivity).
  destruct (V input f E2 ltac:(asc)) as (p & n & H1 & (o & n' & H2 & H3)).
  rewrite (bind_ok _ _ _ _ _ H1), (bind_ok _ _ _ _ _ H2).
  assert (E3 : input = ((pre ++ [DASH]) ++ tpre v) ++ wtree v ++ w' ++ [DASH] ++ tpre v' ++ wtree v' ++ stext rest ++ w ++ r) by (rewrite E2, <- !app_assoc; reflexivity).
  assert (C2 : cut w' ([DASH] ++ tpre v' ++ wtree v' ++ stext rest ++ w ++ r)) by (apply cut_app; auto; discriminate).
  rewrite (bind_ok _ _ _ _ _ (r_or_ws input _ _ _ _ _ _ _ _ eq_refl C2 E3 H3)).
  set (q := pre ++ [DASH] ++ tpre v ++ wtree v ++ w') in *.
  assert (X : ((pre ++ [DASH]) ++ tpre v) ++ wtree v ++ w' = q) by (unfold q; rewrite <- !app_assoc; reflexivity).
  unfold byte, bytes in *. rewrite X.
  assert (E4 : input = q ++ ([DASH] ++ tpre v' ++ wtree v' ++ stext rest) ++ w ++ r) by (unfold q; rewrite E, <- !app_assoc; reflexivity).
  rewrite (bind_ok _ _ _ _ _ (r_indent _ _ _ E4)), (bind_ok _ _ _ _ _ (r_peek0 _ _ _ E4)). rewrite Ci, Nat.eqb_refl. cbn [app hd]. rewrite N.eqb_refl. cbn [negb orb].
  destruct (M input f g (acc ++ [(tt, ip, v)]) E4 C ltac:(asc) ltac:(asc)) as [M1 M2]. split; [|constructor; auto].
  etransitivity; [exact M1|]. unfold q. repeat (cbn [app]; rewrite <- ?app_assoc). reflexivity.
Qed.

Lemma layout_hd w : layout w -> match w with [] => True | c :: _ => is_ws c = true \/ c = HASH end.
Proof. destruct 1; auto. left. now apply in_is_ws. Qed.
Lemma layout_not w r c : layout w -> is_ws c = false -> c <> HASH -> (r = [] -> c <> EOF) -> hd EOF r <> c -> hd EOF (w ++ r) <> c.
Proof.
  intros L W H N R. destruct w as [|a w]; [exact R|]. apply layout_hd in L. cbn. intros ->. destruct L; congruence.
Qed.
Lemma sound_fend pre suf post : cut suf ([RBRACK] ++ post) -> Pfsreads pre [] false suf post.
Proof.
  intros C. unfold Pfsreads. cbn [map sep app]. intros input f g acc tr0 E T F G. rewrite (T eq_refl).
  exists suf, (length (pre ++ suf)). split; [apply (r_ws _ _ _ _ E C)|]. split; [|constructor].
  destruct g as [|g]; [asc|]. cbn [a_iseq_loop].
  assert (E1 : input = (pre ++ suf) ++ RBRACK :: post) by (rewrite E, <- app_assoc; reflexivity).
  rewrite (bind_ok _ _ _ _ _ (r_peek0 _ _ _ E1)). cbn [hd]. rewrite N.eqb_refl. cbn [orb]. unfold ret. now rewrite app_nil_r.
Qed.
(* One item of a flow sequence, up to the byte after it. *)
Lemma fitem pre ip v post input f : input = pre ++ ip ++ wtree v ++ post -> cut ip (wtree v ++ post) -> tpre v = [] ->
  Preads true None (pre ++ ip) v post -> (length (wtree v ++ post) < f)%nat ->
  a_ws input (length pre) = Ok (ip, length (pre ++ ip)) /\
  a_ws input (length (pre ++ ip)) = Ok ([], length (pre ++ ip)) /\
  exists o n, a_value input f (AState [] true false None) (length (pre ++ ip)) = Ok ((v, o), n) /\
    (o = None /\ n = length ((pre ++ ip) ++ wtree v) \/
     exists w r, post = w ++ r /\ cut w r /\ o = Some w /\ n = length ((pre ++ ip) ++ wtree v ++ w) /\
     (true = true -> post = [] \/ hd EOF post = NEWLINE)).
Proof.
  intros E C T R F. split; [apply (r_ws _ _ _ _ E C)|].
  assert (E1 : input = (pre ++ ip) ++ wtree v ++ post) by (rewrite E, <- app_assoc; reflexivity).
  split; [apply (r_ws0 _ _ _ E1 (cut_end _ _ C))|].
  specialize (R input f E1 F). rewrite T in R. exact R.
Qed.
Lemma sound_flast pre ip v suf post : cut ip (wtree v ++ suf ++ [RBRACK] ++ post) -> lossy ip = ip -> tpre v = [] ->
  hd EOF (wtree v ++ suf ++ [RBRACK] ++ post) <> RBRACK -> hd EOF (wtree v ++ suf ++ [RBRACK] ++ post) <> EOF ->
  Preads true None (pre ++ ip) v (suf ++ [RBRACK] ++ post) -> cut suf ([RBRACK] ++ post) ->
  Pfsreads pre [(tt, ip, v)] false suf post.
Proof.
  intros C Lw T G1 G2 R Cs. unfold Pfsreads. cbn [map sep ftext1]. intros input f g acc tr0 E _ F G.
  rewrite T in *. repeat rewrite app_nil_l in *. repeat rewrite app_nil_r in *.
  assert (E0 : input = pre ++ ip ++ wtree v ++ suf ++ [RBRACK] ++ post) by (rewrite E, <- !app_assoc; reflexivity).
  destruct (fitem pre ip v _ input f E0 C T R ltac:(asc)) as (W1 & W2 & o & n & V & N).
  exists ip, (length (pre ++ ip)). split; [exact W1|]. split; [|constructor; auto].
  destruct g as [|g]; [asc|]. cbn [a_iseq_loop].
  assert (E1 : input = (pre ++ ip) ++ wtree v ++ suf ++ [RBRACK] ++ post) by (rewrite E0, <- !app_assoc; reflexivity).
  rewrite (bind_ok _ _ _ _ _ (r_peek0 _ _ _ E1)). apply N.eqb_neq in G1, G2. unfold byte, bytes in *. rewrite G1, G2. cbn [orb].
  rewrite (bind_ok _ _ _ _ _ W2), (bind_ok _ _ _ _ _ V).
  assert (P : exists c, a_peek input 0 n = Ok (c, n) /\ c <> COMMA).
  { destruct N as [[_ ->]|(w & r & Ew & Cw & _ & -> & _)].
    - assert (E2 : input = ((pre ++ ip) ++ wtree v) ++ suf ++ [RBRACK] ++ post) by (rewrite E0, <- !app_assoc; reflexivity).
      eexists. split; [apply (r_peek0 _ _ _ E2)|]. apply layout_not; try discriminate; auto. now apply cut_layout in Cs.
    - destruct (cut_unique _ _ _ _ Ew Cs Cw) as [<- <-].
      assert (E2 : input = ((pre ++ ip) ++ wtree v ++ suf) ++ [RBRACK] ++ post) by (rewrite E0, <- !app_assoc; reflexivity).
      eexists. split; [apply (r_peek0 _ _ _ E2)|]. discriminate. }
  destruct P as (c & P & Pc). rewrite (bind_ok _ _ _ _ _ P). apply N.eqb_neq in Pc. rewrite Pc.
  rewrite (bind_ok _ _ _ _ _ (r_or_ws input _ _ _ _ _ _ _ _ eq_refl Cs E1 N)).
  assert (E3 : input = ((pre ++ ip) ++ wtree v ++ suf) ++ RBRACK :: post) by (rewrite E0, <- !app_assoc; reflexivity).
  destruct g as [|g]; [asc|]. cbn [a_iseq_loop]. rewrite (bind_ok _ _ _ _ _ (r_peek0 _ _ _ E3)). cbn [hd]. rewrite N.eqb_refl. cbn [orb].
  unfold ret. rewrite <- !app_assoc. reflexivity.
Qed.
Lemma comma_none (post : bytes) (pre : bytes) (v : tree unit) o n :
  (o = None /\ n = length (pre ++ wtree v) \/
     exists w r, [COMMA] ++ post = w ++ r /\ cut w r /\ o = Some w /\ n = length (pre ++ wtree v ++ w) /\
     (true = true -> [COMMA] ++ post = [] \/ hd EOF ([COMMA] ++ post) = NEWLINE)) -> o = None /\ n = length (pre ++ wtree v).
Proof. intros [H|(w & r & _ & _ & _ & _ & H)]; [exact H|]. destruct (H eq_refl); discriminate. Qed.
Lemma sound_ftrail pre ip v suf post : cut ip (wtree v ++ [COMMA] ++ suf ++ [RBRACK] ++ post) -> lossy ip = ip -> tpre v = [] ->
  hd EOF (wtree v ++ [COMMA]) <> RBRACK -> hd EOF (wtree v ++ [COMMA]) <> EOF ->
  Preads true None (pre ++ ip) v ([COMMA] ++ suf ++ [RBRACK] ++ post) -> cut suf ([RBRACK] ++ post) ->
  Pfsreads pre [(tt, ip, v)] true suf post.
Proof.
  intros C Lw T G1 G2 R Cs. unfold Pfsreads. cbn [map sep ftext1]. intros input f g acc tr0 E _ F G.
  assert (X : hd EOF (wtree v ++ [COMMA] ++ suf ++ [RBRACK] ++ post) = hd EOF (wtree v ++ [COMMA])) by (destruct (wtree v); reflexivity).
  rewrite T in *. rewrite app_nil_l in *. rewrite !app_nil_r in *.
  assert (E0 : input = pre ++ ip ++ wtree v ++ [COMMA] ++ suf ++ [RBRACK] ++ post) by (rewrite E, <- !app_assoc; reflexivity).
  destruct (fitem pre ip v _ input f E0 C T R ltac:(asc)) as (W1 & W2 & o & n & V & N). apply comma_none in N as [-> ->].
  exists ip, (length (pre ++ ip)). split; [exact W1|]. split; [|constructor; auto].
  destruct g as [|g]; [asc|]. cbn [a_iseq_loop].
  assert (E1 : input = (pre ++ ip) ++ wtree v ++ [COMMA] ++ suf ++ [RBRACK] ++ post) by (rewrite E0, <- !app_assoc; reflexivity).
  rewrite (bind_ok _ _ _ _ _ (r_peek0 _ _ _ E1)). rewrite <- X in G1, G2. apply N.eqb_neq in G1, G2. unfold byte, bytes in *. rewrite G1, G2. cbn [orb].
  rewrite (bind_ok _ _ _ _ _ W2), (bind_ok _ _ _ _ _ V).
  assert (E2 : input = ((pre ++ ip) ++ wtree v) ++ COMMA :: suf ++ [RBRACK] ++ post) by (rewrite E0, <- !app_assoc; reflexivity).
  rewrite (bind_ok _ _ _ _ _ (r_peek0 _ _ _ E2)). cbn [hd]. rewrite N.eqb_refl.
  rewrite (bind_ok _ _ _ _ _ (r_bump1 _ _ _ _ E2)). cbn [a_or_ws].
  assert (E3 : input = (((pre ++ ip) ++ wtree v) ++ [COMMA]) ++ suf ++ [RBRACK] ++ post) by (rewrite E0, <- !app_assoc; reflexivity).
  rewrite (bind_ok _ _ _ _ _ (r_ws _ _ _ _ E3 Cs)).
  assert (E4 : input = ((((pre ++ ip) ++ wtree v) ++ [COMMA]) ++ suf) ++ RBRACK :: post) by (rewrite E0, <- !app_assoc; reflexivity).
  destruct g as [|g]; [asc|]. cbn [a_iseq_loop]. rewrite (bind_ok _ _ _ _ _ (r_peek0 _ _ _ E4)). cbn [hd]. rewrite N.eqb_refl. cbn [orb].
  unfold ret. rewrite <- !app_assoc. reflexivity.
Qed.
Lemma sep_cons2 c x y l : sep c (x :: y :: l) = x ++ c ++ sep c (y :: l).
Proof. reflexivity. Qed.
Lemma sound_fcons pre ip v it rest tr suf post :
  let more := sep [COMMA] (map ftext1 (it :: rest)) ++ closing (fun x => x) RBRACK (CInline tr suf) ++ post in
  cut ip (wtree v ++ [COMMA] ++ more) -> lossy ip = ip -> tpre v = [] ->
  hd EOF (wtree v ++ [COMMA]) <> RBRACK -> hd EOF (wtree v ++ [COMMA]) <> EOF ->
  Preads true None (pre ++ ip) v ([COMMA] ++ more) ->
  Pfsreads (pre ++ ip ++ wtree v ++ [COMMA]) (it :: rest) tr suf post ->
  Pfsreads pre ((tt, ip, v) :: it :: rest) tr suf post.
Proof.
  intros more C Lw T G1 G2 R M. unfold Pfsreads. intros input f g acc tr0 E _ F G.
  assert (X : hd EOF (wtree v ++ [COMMA] ++ more) = hd EOF (wtree v ++ [COMMA])) by (destruct (wtree v); reflexivity).
  cbn [map] in E, F, G |- *. rewrite sep_cons2 in E, F, G |- *. cbn [ftext1] in E, F, G |- *.
  unfold Pfsreads in M. cbn [map] in M.
  set (s := sep [COMMA] (ftext1 it :: map ftext1 rest)) in *.
  assert (Mo : more = (s ++ (if tr then [COMMA] else []) ++ suf) ++ [RBRACK] ++ post).
  { unfold more, s. cbn [closing map]. rewrite <- !app_assoc. reflexivity. }
  rewrite T in *. rewrite app_nil_l in *.
  assert (E0 : input = pre ++ ip ++ wtree v ++ [COMMA] ++ more) by (rewrite E, Mo, <- !app_assoc; reflexivity).
  destruct (fitem pre ip v _ input f E0 C T R ltac:(rewrite Mo; asc)) as (W1 & W2 & o & n & V & N). apply comma_none in N as [-> ->].
  exists ip, (length (pre ++ ip)). split; [exact W1|].
  destruct g as [|g]; [asc|]. cbn [a_iseq_loop].
  assert (E1 : input = (pre ++ ip) ++ wtree v ++ [COMMA] ++ more) by (rewrite E0, <- !app_assoc; reflexivity).
  rewrite (bind_ok _ _ _ _ _ (r_peek0 _ _ _ E1)). rewrite <- X in G1, G2. apply N.eqb_neq in G1, G2. unfold byte, bytes in *. rewrite G1, G2. cbn [orb].
  rewrite (bind_ok _ _ _ _ _ W2), (bind_ok _ _ _ _ _ V).
  assert (E2 : input = ((pre ++ ip) ++ wtree v) ++ COMMA :: more) by (rewrite E0, <- !app_assoc; reflexivity).
  rewrite (bind_ok _ _ _ _ _ (r_peek0 _ _ _ E2)). cbn [hd]. rewrite N.eqb_refl.
  rewrite (bind_ok _ _ _ _ _ (r_bump1 _ _ _ _ E2)). cbn [a_or_ws].
  assert (E3 : input = (pre ++ ip ++ wtree v ++ [COMMA]) ++ (s ++ (if tr then [COMMA] else []) ++ suf) ++ [RBRACK] ++ post) by (rewrite E0, Mo, <- !app_assoc; reflexivity).
  destruct (M input f g (acc ++ [(tt, ip, v)]) true E3 ltac:(discriminate) ltac:(asc) ltac:(asc)) as (p & n & M1 & M2 & M3).
  split; [|constructor; auto].
  rewrite <- !app_assoc. rewrite (bind_ok _ _ _ _ _ M1). etransitivity; [exact M2|]. rewrite <- !app_assoc. reflexivity.
Qed.

(* ---- flow mappings ---- *)
Lemma sound_gend pre suf post : cut suf ([RBRACE] ++ post) -> Pfmreads pre [] false suf post.
Proof.
  intros C. unfold Pfmreads. cbn [map sep app]. intros input f g acc tr0 start E T F G. rewrite (T eq_refl).
  exists suf, (length (pre ++ suf)), start. split; [apply (r_ws _ _ _ _ E C)|].
  destruct g as [|g]; [asc|]. cbn [a_imap_loop].
  assert (E1 : input = (pre ++ suf) ++ RBRACE :: post) by (rewrite E, <- app_assoc; reflexivity).
  rewrite (bind_ok _ _ _ _ _ (r_peek0 _ _ _ E1)). cbn [hd]. rewrite N.eqb_refl. cbn [orb]. unfold ret. now rewrite app_nil_r.
Qed.
(* One item of a flow mapping, up to the byte after it. *)
Lemma gitem pre ip x v post input f : input = pre ++ ip ++ x ++ [COLON] ++ tpre v ++ wtree v ++ post ->
  ~ In COLON x -> ~ In EOF x -> cut ip (x ++ [COLON]) -> hd EOF (x ++ [COLON]) <> RBRACE -> cut (tpre v) (wtree v ++ post) ->
  Preads true None (pre ++ ip ++ x ++ [COLON] ++ tpre v) v post -> (length (wtree v ++ post) < f)%nat ->
  a_ws input (length pre) = Ok (ip, length (pre ++ ip)) /\
  (exists c, a_peek input 0 (length (pre ++ ip)) = Ok (c, length (pre ++ ip)) /\ (c =? RBRACE) || (c =? EOF) = false) /\
  a_until_colon input (length (pre ++ ip)) (length (pre ++ ip)) = Ok (Some (RS KBare x x), length ((pre ++ ip) ++ x)) /\
  a_bump input 1 (length ((pre ++ ip) ++ x)) = Ok (tt, length (pre ++ ip ++ x ++ [COLON])) /\
  a_ws input (length (pre ++ ip ++ x ++ [COLON])) = Ok (tpre v, length (pre ++ ip ++ x ++ [COLON] ++ tpre v)) /\
  exists o n, a_value input f (AState (tpre v) true false None) (length (pre ++ ip ++ x ++ [COLON] ++ tpre v)) = Ok ((v, o), n) /\
    (o = None /\ n = length ((pre ++ ip ++ x ++ [COLON] ++ tpre v) ++ wtree v) \/
     exists w r, post = w ++ r /\ cut w r /\ o = Some w /\ n = length ((pre ++ ip ++ x ++ [COLON] ++ tpre v) ++ wtree v ++ w) /\
     (true = true -> post = [] \/ hd EOF post = NEWLINE)).
Proof.
  intros E N1 N2 C G Cv R F.
  split; [apply (r_ws _ _ _ _ E); rewrite (app_assoc x); apply cut_app; auto; destruct x; discriminate|].
  assert (E1 : input = (pre ++ ip) ++ x ++ COLON :: tpre v ++ wtree v ++ post) by (rewrite E, <- !app_assoc; reflexivity).
  split.
  { eexists. split; [apply (r_peek0 _ _ _ E1)|]. apply orb_false_iff. split; apply N.eqb_neq.
    - destruct x; exact G.
    - destruct x as [|c x]; [discriminate|]. cbn. intros ->. apply N2. now left. }
  assert (E2 : input = ((pre ++ ip) ++ x) ++ COLON :: tpre v ++ wtree v ++ post) by (rewrite E, <- !app_assoc; reflexivity).
  split.
  { unfold a_until_colon. rewrite (bind_ok _ _ _ _ _ (r_rest _ _ _ E1)), (colon_scan_key x _ N1 N2).
    rewrite (bind_ok _ _ _ _ _ (r_bump _ _ _ _ _ E1 eq_refl)), (bind_ok _ _ _ _ _ (r_eof _ _ _ E2)).
    now rewrite (bind_ok _ _ _ _ _ (r_string _ _ _ _ E1)). }
  split.
  { etransitivity; [apply (r_bump1 _ _ _ _ E2)|]. now rewrite <- !app_assoc. }
  assert (E3 : input = (pre ++ ip ++ x ++ [COLON]) ++ tpre v ++ wtree v ++ post) by (rewrite E, <- !app_assoc; reflexivity).
  split.
  { etransitivity; [apply (r_ws _ _ _ _ E3 Cv)|]. now rewrite <- !app_assoc. }
  assert (E4 : input = (pre ++ ip ++ x ++ [COLON] ++ tpre v) ++ wtree v ++ post) by (rewrite E, <- !app_assoc; reflexivity).
  apply (R input f E4 F).
Qed.
Lemma sound_glast pre ip x v post : ~ In COLON x -> ~ In EOF x ->
  cut ip (x ++ [COLON]) -> hd EOF (x ++ [COLON]) <> RBRACE -> cut (tpre v) (wtree v ++ [RBRACE] ++ post) ->
  Preads true None (pre ++ ip ++ x ++ [COLON] ++ tpre v) v ([RBRACE] ++ post) ->
  Pfmreads pre [(tt, ip, RS KBare x x, v)] false [] post.
Proof.
  intros N1 N2 C G0 Cv R. unfold Pfmreads. cbn [map sep mtext1]. change (wstr (RS KBare x x)) with x.
  intros input f g acc tr0 start E _ F G.
  assert (E0 : input = pre ++ ip ++ x ++ [COLON] ++ tpre v ++ wtree v ++ [RBRACE] ++ post) by (rewrite E, <- !app_assoc; reflexivity).
  destruct (gitem pre ip x v _ input f E0 N1 N2 C G0 Cv R ltac:(asc)) as (W1 & (c & P & Pc) & U & B & W2 & o & n & V & N).
  exists ip, (length (pre ++ ip)), (length (pre ++ ip ++ x ++ [COLON] ++ tpre v ++ wtree v)). split; [exact W1|].
  destruct g as [|g]; [asc|]. cbn [a_imap_loop].
  rewrite (bind_ok _ _ _ _ _ P), Pc, (bind_ok _ _ _ _ _ (r_get _)), (bind_ok _ _ _ _ _ U).
  rewrite (bind_ok _ _ _ _ _ B), (bind_ok _ _ _ _ _ W2), (bind_ok _ _ _ _ _ V).
  assert (E1 : input = (pre ++ ip ++ x ++ [COLON] ++ tpre v) ++ wtree v ++ [RBRACE] ++ post) by (rewrite E0, <- !app_assoc; reflexivity).
  assert (C0 : cut [] ([RBRACE] ++ post)) by now apply cut_nil.
  rewrite (bind_ok _ _ _ _ _ (r_or_ws input true _ v _ o n [] _ eq_refl C0 E1 N)).
  set (q := (pre ++ ip ++ x ++ [COLON] ++ tpre v) ++ wtree v ++ []) in *.
  assert (Q : q = pre ++ ip ++ x ++ [COLON] ++ tpre v ++ wtree v) by (unfold q; rewrite app_nil_r, <- !app_assoc; reflexivity).
  assert (E2 : input = q ++ RBRACE :: post) by (rewrite Q, E0, <- !app_assoc; reflexivity).
  rewrite (bind_ok _ _ _ _ _ (r_peek0 _ _ _ E2)). cbn [hd]. change (RBRACE =? COMMA) with false. cbv iota.
  rewrite (bind_ok _ _ _ _ _ (r_get _)), (bind_ok _ _ _ _ _ (r_ws0 _ _ _ E2 C0)).
  destruct g as [|g]; [asc|]. cbn [a_imap_loop]. rewrite (bind_ok _ _ _ _ _ (r_peek0 _ _ _ E2)). cbn [hd]. rewrite N.eqb_refl. cbn [orb].
  unfold ret. rewrite Q. rewrite !app_nil_r. reflexivity.
Qed.
Lemma sound_gtrail pre ip x v suf post : ~ In COLON x -> ~ In EOF x ->
  cut ip (x ++ [COLON]) -> hd EOF (x ++ [COLON]) <> RBRACE -> cut (tpre v) (wtree v ++ [COMMA] ++ suf ++ [RBRACE] ++ post) ->
  Preads true None (pre ++ ip ++ x ++ [COLON] ++ tpre v) v ([COMMA] ++ suf ++ [RBRACE] ++ post) ->
  cut suf ([RBRACE] ++ post) ->
  Pfmreads pre [(tt, ip, RS KBare x x, v)] true suf post.
Proof.
  intros N1 N2 C G0 Cv R Cs. unfold Pfmreads. cbn [map sep mtext1]. change (wstr (RS KBare x x)) with x.
  intros input f g acc tr0 start E _ F G.
  assert (E0 : input = pre ++ ip ++ x ++ [COLON] ++ tpre v ++ wtree v ++ [COMMA] ++ suf ++ [RBRACE] ++ post).
  { rewrite E. rewrite app_nil_l, app_nil_r, <- !app_assoc. reflexivity. }
  destruct (gitem pre ip x v _ input f E0 N1 N2 C G0 Cv R ltac:(asc)) as (W1 & (c & P & Pc) & U & B & W2 & o & n & V & N).
  apply comma_none in N as [-> ->].
  set (q := (pre ++ ip ++ x ++ [COLON] ++ tpre v) ++ wtree v) in *.
  exists ip, (length (pre ++ ip)), (length (q ++ [COMMA])). split; [exact W1|].
  destruct g as [|g]; [asc|]. cbn [a_imap_loop].
  rewrite (bind_ok _ _ _ _ _ P), Pc, (bind_ok _ _ _ _ _ (r_get _)), (bind_ok _ _ _ _ _ U).
  rewrite (bind_ok _ _ _ _ _ B), (bind_ok _ _ _ _ _ W2), (bind_ok _ _ _ _ _ V).
  assert (E2 : input = q ++ COMMA :: suf ++ [RBRACE] ++ post) by (unfold q; rewrite E0, <- !app_assoc; reflexivity).
  assert (C0 : cut [] (COMMA :: suf ++ [RBRACE] ++ post)) by now apply cut_nil.
  cbn [a_or_ws]. rewrite (bind_ok _ _ _ _ _ (r_ws0 _ _ _ E2 C0)).
  rewrite (bind_ok _ _ _ _ _ (r_peek0 _ _ _ E2)). cbn [hd]. rewrite N.eqb_refl.
  rewrite (bind_ok _ _ _ _ _ (r_bump1 _ _ _ _ E2)), (bind_ok _ _ _ _ _ (r_get _)).
  assert (E3 : input = (q ++ [COMMA]) ++ suf ++ [RBRACE] ++ post) by (rewrite E2, <- !app_assoc; reflexivity).
  rewrite (bind_ok _ _ _ _ _ (r_ws _ _ _ _ E3 Cs)).
  assert (E4 : input = ((q ++ [COMMA]) ++ suf) ++ RBRACE :: post) by (rewrite E2, <- !app_assoc; reflexivity).
  destruct g as [|g]; [asc|]. cbn [a_imap_loop]. rewrite (bind_ok _ _ _ _ _ (r_peek0 _ _ _ E4)). cbn [hd]. rewrite N.eqb_refl. cbn [orb].
  unfold ret. unfold q. rewrite app_nil_r, <- !app_assoc. reflexivity.
Qed.
Lemma sound_gcons pre ip x v it rest tr suf post :
  let more := sep [COMMA] (map mtext1 (it :: rest)) ++ closing (fun x => x) RBRACE (CInline tr suf) ++ post in
  ~ In COLON x -> ~ In EOF x ->
  cut ip (x ++ [COLON]) -> hd EOF (x ++ [COLON]) <> RBRACE -> cut (tpre v) (wtree v ++ [COMMA] ++ more) ->
  Preads true None (pre ++ ip ++ x ++ [COLON] ++ tpre v) v ([COMMA] ++ more) ->
  Pfmreads (pre ++ ip ++ x ++ [COLON] ++ tpre v ++ wtree v ++ [COMMA]) (it :: rest) tr suf post ->
  Pfmreads pre ((tt, ip, RS KBare x x, v) :: it :: rest) tr suf post.
Proof.
  intros more N1 N2 C G0 Cv R M. unfold Pfmreads. intros input f g acc tr0 start E _ F G.
  cbn [map] in E, F, G |- *. rewrite sep_cons2 in E, F, G |- *. cbn [mtext1] in E, F, G |- *.
  change (mtext1 (tt, ip, RS KBare x x, v)) with (ip ++ x ++ [COLON] ++ tpre v ++ wtree v) in *.
  change (wstr (RS KBare x x)) with x in *.
  unfold Pfmreads in M. cbn [map] in M.
  set (s := sep [COMMA] (mtext1 it :: map mtext1 rest)) in *.
  assert (Mo : more = (s ++ (if tr then [COMMA] else []) ++ suf) ++ [RBRACE] ++ post).
  { unfold more, s. cbn [closing map]. rewrite <- !app_assoc. reflexivity. }
  assert (E0 : input = pre ++ ip ++ x ++ [COLON] ++ tpre v ++ wtree v ++ [COMMA] ++ more) by (rewrite E, Mo, <- !app_assoc; reflexivity).
  destruct (gitem pre ip x v _ input f E0 N1 N2 C G0 Cv R ltac:(rewrite Mo; asc)) as (W1 & (c & P & Pc) & U & B & W2 & o & n & V & N).
  apply comma_none in N as [-> ->].
  set (q := (pre ++ ip ++ x ++ [COLON] ++ tpre v) ++ wtree v) in *.
  assert (E2 : input = q ++ COMMA :: more) by (unfold q; rewrite E0, <- !app_assoc; reflexivity).
  assert (C0 : cut [] (COMMA :: more)) by now apply cut_nil.
  assert (E3 : input = (pre ++ ip ++ x ++ [COLON] ++ tpre v ++ wtree v ++ [COMMA]) ++ (s ++ (if tr then [COMMA] else []) ++ suf) ++ [RBRACE] ++ post) by (rewrite E0, Mo, <- !app_assoc; reflexivity).
  destruct g as [|g]; [asc|].
  destruct (M input f g (acc ++ [(tt, ip, RS KBare x x, v)]) true (length (q ++ [COMMA])) E3 ltac:(discriminate) ltac:(asc) ltac:(asc)) as (p & n & start' & M1 & M2).
  exists ip, (length (pre ++ ip)), start'. split; [exact W1|]. cbn [a_imap_loop].
  rewrite (bind_ok _ _ _ _ _ P), Pc, (bind_ok _ _ _ _ _ (r_get _)), (bind_ok _ _ _ _ _ U).
  rewrite (bind_ok _ _ _ _ _ B), (bind_ok _ _ _ _ _ W2), (bind_ok _ _ _ _ _ V).
  cbn [a_or_ws]. rewrite (bind_ok _ _ _ _ _ (r_ws0 _ _ _ E2 C0)).
  rewrite (bind_ok _ _ _ _ _ (r_peek0 _ _ _ E2)). cbn [hd]. rewrite N.eqb_refl.
  rewrite (bind_ok _ _ _ _ _ (r_bump1 _ _ _ _ E2)), (bind_ok _ _ _ _ _ (r_get _)).
  assert (Q : q ++ [COMMA] = pre ++ ip ++ x ++ [COLON] ++ tpre v ++ wtree v ++ [COMMA]) by (unfold q; rewrite <- !app_assoc; reflexivity).
  unfold byte, bytes in *. rewrite Q in *. rewrite (bind_ok _ _ _ _ _ M1). etransitivity; [exact M2|]. rewrite <- !app_assoc. reflexivity.
Qed.

Theorem reads_sound :
  (forall inl pi pre v post, reads inl pi pre v post -> Preads inl pi pre v post) /\
  (forall pi pre v post, vreads pi pre v post -> Pvreads pi pre v post) /\
  (forall ind pre items w r, mreads ind pre items w r -> Pmreads ind pre items w r) /\
  (forall ind pre items w r, sreads ind pre items w r -> Psreads ind pre items w r) /\
  (forall pre items tr suf post, fsreads pre items tr suf post -> Pfsreads pre items tr suf post) /\
  (forall pre items tr suf post, fmreads pre items tr suf post -> Pfmreads pre items tr suf post).
Proof.
  apply reads_all; intros.
  - now apply sound_leaf.
  - now apply sound_map.
  - now apply sound_seq.
  - now apply sound_fmap.
  - now apply sound_fseq.
  - now apply sound_value.
  - now apply sound_null.
  - now apply sound_mlast.
  - now apply sound_mcons.
  - now apply sound_slast.
  - now apply sound_scons.
  - now apply sound_fend.
  - now apply sound_flast.
  - now apply sound_ftrail.
  - now apply sound_fcons.
  - now apply sound_gend.
  - now apply sound_glast.
  - now apply sound_gtrail.
  - now apply sound_gcons.
Qed.
Theorem dreads_sound t suf : dreads t suf -> a_parse (wdoc t suf) = Ok (t, suf).
Proof.
  intros (C & [H1 H2] & R & Cs). unfold a_parse, a_parse_m, wdoc.
  set (input := tpre t ++ wtree t ++ suf).
  assert (E : input = [] ++ tpre t ++ wtree t ++ suf) by reflexivity.
  assert (E1 : input = tpre t ++ wtree t ++ suf) by reflexivity.
  assert (W : a_start_of_document input O = Ok (tpre t, length (tpre t))).
  { unfold a_start_of_document. change 0%nat with (length (@nil N)).
    rewrite (bind_ok _ _ _ _ _ (r_ws _ _ _ _ E C)). rewrite app_nil_l. cbn [a_sod_loop].
    rewrite (bind_ok _ _ _ _ _ (r_peek0 _ _ _ E1)), (bind_ok _ _ _ _ _ (r_peek _ _ _ 1 E1)), (bind_ok _ _ _ _ _ (r_peek _ _ _ 2 E1)).
    apply N.eqb_neq in H1. rewrite H1.
    destruct ((hd EOF (wtree t ++ suf) =? DASH) && (nth 1 (wtree t ++ suf) EOF =? DASH) && (nth 2 (wtree t ++ suf) EOF =? DASH)) eqn:X; [|reflexivity].
    exfalso. apply H2. apply andb_prop in X as [X X3]. apply andb_prop in X as [X1 X2]. now rewrite !N.eqb_eq in *. }
  rewrite (bind_ok _ _ _ _ _ W).
  destruct (proj1 reads_sound _ _ _ _ _ R input (1 + length input)%nat E1 ltac:(rewrite E1; asc)) as (o & n & V & N).
  cbn [negb] in V. change (1 + length input)%nat with (S (length input)) in V. rewrite (bind_ok _ _ _ _ _ V).
  rewrite (bind_ok _ _ _ _ _ (r_or_ws input false _ t _ o n suf [] (eq_sym (app_nil_r _)) Cs E1 N)).
  assert (E2 : input = (tpre t ++ wtree t ++ suf) ++ []) by now rewrite app_nil_r.
  rewrite (bind_ok _ _ _ _ _ (r_eof _ _ _ E2)). reflexivity.
Qed.
End Values.
