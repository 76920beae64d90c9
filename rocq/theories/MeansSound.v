(* Every text the parser accepts stands for the data it shows: one direction of C47. A pass over
   the abstract parser like AbsNice.v. *)
From Coq Require Import String.
From Coq Require Import List NArith Bool Arith Lia.
From Verif Require Import Bytes Utf8 Data Parser Render Tree Abs Scan AbsText AbsNice Num Reads ReadsSound Shown Plain White Valid Lexed Means Places.
Import ListNotations.
Local Open Scope N_scope.

Section Sound.
Variable text : bytes.
Local Notation len := (length text).
Local Notation at_ i := (nth i text 0).
Local Notation part := (slice text).
Local Notation gap_to := (gap_to text).
Local Notation column := (column text).
Local Notation means := (means text).
Local Notation behind := (behind text).
Local Notation held_at := (held_at text).

Ltac run := repeat (lazymatch goal with
  | |- wlp (bind a_get ?k) ?n ?Q => change (wlp (k n) n Q)
  | |- wlp (bind (a_rest _) ?k) ?n ?Q => change (wlp (k (skipn n text)) n Q)
  | |- wlp (bind (a_peek _ ?i) ?k) ?n ?Q => change (wlp (k (nth (n + i) text EOF)) n Q)
  | |- wlp (bind (a_eof _) ?k) ?n ?Q => change (wlp (k (Nat.eqb n len)) n Q)
  | |- wlp (bind (a_string _ ?s) ?k) ?n ?Q => change (wlp (k (part s n)) n Q)
  | |- wlp (bind (a_indent _) ?k) ?n ?Q => change (wlp (k (indent_from text n)) n Q)
  | |- wlp (bind (a_set ?m) ?k) ?n ?Q => change (wlp (k tt) m Q)
  | |- wlp (bind (a_bump _ ?i) ?k) ?n ?Q => change (wlp (k tt) (Nat.min (n + i) len) Q)
  | |- wlp (bind (ret ?x) ?k) ?n ?Q => change (wlp (k x) n Q)
  end; cbv beta).
Lemma wlp_eval {A B} (m : AM A) (k : A -> AM B) n a n' Q : m n = Ok (a, n') -> wlp (k a) n' Q -> wlp (bind m k) n Q.
Proof. intros E H. unfold wlp in *. now rewrite (bind_ok _ _ _ _ _ E). Qed.
Lemma or_ws_at w n n' : match w with Some _ => n' = n | None => gap_to n n' end -> exists p, a_or_ws text w n = Ok (p, n').
Proof. destruct w as [w|]; cbn [a_or_ws]; intros G; [subst; exists w; reflexivity|]. exists (part n n'). now apply gap_ws. Qed.

Definition vpost (a : astate) (n : nat) (r : tree unit * option bytes) (n' : nat) : Prop :=
  (n' <= len)%nat /\
  if as_inline a then exists skipped : bool, held_at n (see (fst r)) n' skipped /\ (snd r = None <-> skipped = false)
  else (exists e, means false (as_parent_indent a) n (see (fst r)) e /\ match snd r with Some _ => gap_to e n' | None => n' = e end) \/
       (exists o s k, as_parent_indent a = Some o /\ key_at text n s k /\ (column n <= o)%nat /\ see (fst r) = DNull /\ n' = n /\ snd r <> None).
Definition sdata (its : list (sitem unit)) : list datum := map (fun '(_, _, v) => see v) its.
Definition mdata (its : list (mitem unit)) : list (bytes * datum) := map (fun '(_, _, key, v) => (rs_id key, see v)) its.
Lemma sdata_snoc its ip v : sdata (its ++ [(tt, ip, v)]) = sdata its ++ [see v].
Proof. unfold sdata. now rewrite map_app. Qed.
Lemma mdata_snoc its ip (key : rstr bytes) v : mdata (its ++ [(tt, ip, key, v)]) = mdata its ++ [(rs_id key, see v)].
Proof. unfold mdata. now rewrite map_app. Qed.

Section Value.
Variable value : astate -> AM (tree unit * option bytes).
Hypothesis VH : forall a n, (n <= len)%nat -> as_tabular a = negb (as_inline a) -> (as_inline a = true -> as_parent_indent a = None) -> wlp (value a) n (vpost a n).

(* a value of a flow collection *)
Lemma w_flow {X} (k : tree unit * option bytes -> AM X) n m Q : gap_to n m ->
  (forall v w n' skipped, (n' <= len)%nat -> held_at m (see v) n' skipped -> (w = None <-> skipped = false) -> wlp (k (v, w)) n' Q) ->
  wlp (p <- a_ws text ;; r <- value (AState p true false None) ;; k r) n Q.
Proof.
  intros G K. eapply wlp_eval; [apply gap_ws; eassumption|]. cbv beta. eapply wlp_bind; [apply VH; [apply gap_le in G; lia|reflexivity|reflexivity]|].
  intros [v w] n' (L & sk & H & S). cbn [fst snd] in *. now apply (K v w n' sk).
Qed.
(* the white space behind a value of a flow collection *)
Lemma held_gap w (skipped : bool) m d e : held_at m d e skipped -> (e <= len)%nat -> (w = None <-> skipped = false) ->
  exists p n', a_or_ws text w e = Ok (p, n') /\ gap_to e n'.
Proof.
  intros H L S. destruct w as [w|].
  - exists w, e. split; [reflexivity|]. destruct skipped; [|destruct S as [_ S]; now specialize (S eq_refl)].
    inversion H; subst. eapply gap_stop; eauto.
  - destruct (gap_ex text e L) as (n' & G). exists (part e n'), n'. split; [now apply gap_ws|exact G].
Qed.
Lemma s_iseq_last f : forall items tr ip n, gap_to n n -> wlp (a_iseq_loop text value f items true tr ip) n (fun r n' => let '(items', _, _) := r in
  (n' <= len)%nat /\ exists ds, sdata items' = sdata items ++ ds /\
  (ds = [] /\ n' = n \/ exists d e skipped, ds = [d] /\ ~ In (at_ n) [RBRACK; 0] /\ held_at n d e skipped /\ gap_to e n')).
Proof.
  intros items tr ip n G. pose proof (gap_le _ _ _ G) as L. destruct f as [|f]; [exact Logic.I|]. cbn [a_iseq_loop]. run. rewrite Nat.add_0_r.
  destruct (_ || _) eqn:C.
  { apply wlp_ret. split; [lia|]. exists []. rewrite app_nil_r. auto. }
  assert (NC : ~ In (at_ n) [RBRACK; 0]) by (apply orb_false_elim in C as [C1 C2]; apply N.eqb_neq in C1, C2; cbn; unfold EOF in *; intuition congruence).
  apply (w_flow _ n n); [exact G|]. intros v w e sk LE H SK. cbv beta iota zeta. destruct (held_gap _ _ _ _ _ H LE SK) as (p & n' & E & G').
  eapply wlp_eval; [exact E|]. apply wlp_ret. split; [apply gap_le in G'; lia|]. exists [see v]. rewrite sdata_snoc. split; [reflexivity|]. right. exists (see v), e, sk. auto.
Qed.
Lemma s_iseq_loop f : forall items tr ip n, (n <= len)%nat -> wlp (a_iseq_loop text value f items false tr ip) n (fun r n' => let '(items', _, _) := r in
  (n' <= len)%nat /\ exists ds, sdata items' = sdata items ++ ds /\ (at_ n' = RBRACK -> flow_seq_at text n ds (S n'))).
Proof.
  induction f as [|f IH]; intros items tr ip n L; [exact Logic.I|]. cbn [a_iseq_loop]. run. rewrite Nat.add_0_r.
  destruct (_ || _) eqn:C.
  { apply wlp_ret. split; [lia|]. exists []. rewrite app_nil_r. split; [reflexivity|]. apply fq_end. }
  assert (NC : ~ In (at_ n) [RBRACK; 0]) by (apply orb_false_elim in C as [C1 C2]; apply N.eqb_neq in C1, C2; cbn; unfold EOF in *; intuition congruence).
  destruct (gap_ex text n L) as (m & G). apply (w_flow _ n m); [exact G|]. intros v w e sk LE H SK. cbv beta iota zeta. run. rewrite Nat.add_0_r.
  destruct (N.eqb_spec (nth e text EOF) COMMA) as [E|E].
  - pose proof (at_lt _ _ _ E ltac:(discriminate)) as LT. run. rewrite Nat.min_l by lia. rewrite Nat.add_1_r.
    assert (W : exists p n', a_or_ws text w (S e) = Ok (p, n') /\ (if sk then n' = S e else gap_to (S e) n') /\ (n' <= len)%nat).
    { destruct w as [w|].
      - exists w, (S e). split; [reflexivity|]. split; [|lia]. destruct sk; [reflexivity|]. destruct SK as [_ SK]. now specialize (SK eq_refl).
      - destruct (gap_ex text (S e) ltac:(lia)) as (n' & G'). exists (part (S e) n'), n'. split; [now apply gap_ws|]. destruct SK as [SK _]. rewrite (SK eq_refl). split; [exact G'|]. apply gap_le in G'. lia. }
    destruct W as (p & n' & EW & W & L'). eapply wlp_eval; [exact EW|]. eapply wlp_mono; [now apply IH|].
    intros [[items' tr'] p'] n2 (L2 & ds & D & F). split; [exact L2|]. exists (see v :: ds). rewrite D, sdata_snoc, <- app_assoc. split; [reflexivity|].
    intros Q. eapply fq_comma; eauto.
  - destruct (held_gap _ _ _ _ _ H LE SK) as (p & n' & EW & G'). eapply wlp_eval; [exact EW|]. eapply wlp_mono; [apply s_iseq_last; eapply gap_stop; eauto|].
    intros [[items' tr'] p'] n2 (L2 & ds & D & F). split; [exact L2|]. exists (see v :: ds). rewrite D, sdata_snoc, <- app_assoc. split; [reflexivity|].
    intros Q. destruct F as [[-> ->]|(d' & e' & sk' & -> & NC' & H' & G2)]; [eapply fq_last; eauto|eapply fq_two; eauto].
Qed.
Lemma s_inline_sequence a flow outer n : at_ n = LBRACK -> wlp (a_inline_sequence text value a) n (fun t n' => (n' <= len)%nat /\ means flow outer n (see t) n').
Proof.
  intros E. pose proof (at_lt _ _ _ E ltac:(discriminate)) as L. unfold a_inline_sequence. run. rewrite Nat.min_l by lia. rewrite Nat.add_1_r.
  destruct (gap_ex text (S n) ltac:(lia)) as (m & G). eapply wlp_eval; [apply gap_ws; eassumption|]. pose proof (gap_le _ _ _ G).
  eapply wlp_bind; [apply s_iseq_loop; lia|]. intros [[its tr] p'] n3 (L3 & ds & D & F). run. rewrite Nat.add_0_r.
  destruct (N.eqb_spec (nth n3 text EOF) RBRACK) as [E3|E3]; cbn [negb]; run; [|apply wlp_err]. apply wlp_ret. split; [lia|]. cbn [see]. fold (sdata its). rewrite D.
  pose proof (at_lt _ _ _ E3 ltac:(discriminate)). rewrite Nat.min_l by lia. rewrite Nat.add_1_r. eapply me_flow_seq; eauto.
Qed.
(* one pair of a flow mapping *)
Lemma w_pair {X} (k : rstr bytes -> tree unit * option bytes -> AM X) start n Q : (n <= len)%nat -> ~ In (at_ n) [RBRACE; 0] ->
  (forall key v w e p n', (e <= len)%nat -> flow_pair_at text n (rs_id key) (see v) n' -> a_or_ws text w e = Ok (p, n') -> (n' <= len)%nat -> gap_to n' n' -> wlp (k key (v, w)) e Q) ->
  wlp (m <- a_get ;; key <- a_until_colon text m ;;
       match key with
       | None => m <- a_get ;; a_err start m BadMappingSeparator
       | Some key => a_bump text 1 ;;; p <- a_ws text ;; r <- value (AState p true false None) ;; k key r
       end) n Q.
Proof.
  intros L NC K. run. pose proof (colon_scan_at text n L) as T. pose proof (proj1 T) as TL. eapply wlp_eval; [eapply until_colon_at, T|].
  set (j := (n + colon_scan (skipn n text))%nat) in *. destruct (Nat.eqb_spec j len) as [E|E]; run; [apply wlp_err|]. rewrite Nat.min_l by lia. rewrite Nat.add_1_r.
  destruct (gap_ex text (S j) ltac:(lia)) as (m & G). apply (w_flow _ (S j) m); [exact G|]. intros v w e sk LE H SK.
  destruct (held_gap _ _ _ _ _ H LE SK) as (p & n' & EW & G'). apply (K _ _ _ _ p n'); auto.
  - cbn [rs_id]. eapply fp_pair; eauto. apply flow_key_iff. split; [exact T|]. split; [lia|reflexivity].
  - apply gap_le in G'. lia. - eapply gap_stop; eauto.
Qed.
Lemma s_imap_last f : forall items tr start ip n, gap_to n n -> wlp (a_imap_loop text value f items true tr start ip) n (fun r n' => let '(items', _, _, _) := r in
  (n' <= len)%nat /\ exists ds, mdata items' = mdata items ++ ds /\ (ds = [] /\ n' = n \/ exists s d, ds = [(s, d)] /\ flow_pair_at text n s d n')).
Proof.
  intros items tr start ip n G. pose proof (gap_le _ _ _ G) as L. destruct f as [|f]; [exact Logic.I|]. cbn [a_imap_loop]. run. rewrite Nat.add_0_r.
  destruct (_ || _) eqn:C.
  { apply wlp_ret. split; [lia|]. exists []. rewrite app_nil_r. auto. }
  assert (NC : ~ In (at_ n) [RBRACE; 0]) by (apply orb_false_elim in C as [C1 C2]; apply N.eqb_neq in C1, C2; cbn; unfold EOF in *; intuition congruence).
  apply w_pair; [lia|exact NC|]. intros key v w e p n' LE P EW L' G'. cbv beta iota zeta.
  eapply wlp_eval; [exact EW|]. apply wlp_ret. split; [lia|]. exists [(rs_id key, see v)]. rewrite mdata_snoc. split; [reflexivity|]. right. eauto.
Qed.
Lemma s_imap_loop f : forall items tr start ip n, (n <= len)%nat -> wlp (a_imap_loop text value f items false tr start ip) n (fun r n' => let '(items', _, _, _) := r in
  (n' <= len)%nat /\ exists ds, mdata items' = mdata items ++ ds /\ (at_ n' = RBRACE -> flow_map_at text n ds (S n'))).
Proof.
  induction f as [|f IH]; intros items tr start ip n L; [exact Logic.I|]. cbn [a_imap_loop]. run. rewrite Nat.add_0_r.
  destruct (_ || _) eqn:C.
  { apply wlp_ret. split; [lia|]. exists []. rewrite app_nil_r. split; [reflexivity|]. apply fp_end. }
  assert (NC : ~ In (at_ n) [RBRACE; 0]) by (apply orb_false_elim in C as [C1 C2]; apply N.eqb_neq in C1, C2; cbn; unfold EOF in *; intuition congruence).
  apply w_pair; [lia|exact NC|]. intros key v w e p n' LE P EW L' G'. cbv beta iota zeta.
  eapply wlp_eval; [exact EW|]. run. rewrite Nat.add_0_r. destruct (N.eqb_spec (nth n' text EOF) COMMA) as [E|E].
  - pose proof (at_lt _ _ _ E ltac:(discriminate)) as LT. run. rewrite Nat.min_l by lia. rewrite Nat.add_1_r.
    destruct (gap_ex text (S n') ltac:(lia)) as (m & G). eapply wlp_eval; [apply gap_ws; eassumption|]. pose proof (gap_le _ _ _ G).
    eapply wlp_mono; [apply IH; lia|]. intros [[[items' tr'] p'] st'] n2 (L2 & ds & D & F). split; [exact L2|]. exists ((rs_id key, see v) :: ds).
    rewrite D, mdata_snoc, <- app_assoc. split; [reflexivity|]. intros Q. eapply fp_comma; eauto.
  - run. eapply wlp_eval; [apply gap_ws, G'|]. eapply wlp_mono; [now apply s_imap_last|].
    intros [[[items' tr'] p'] st'] n2 (L2 & ds & D & F). split; [exact L2|]. exists ((rs_id key, see v) :: ds).
    rewrite D, mdata_snoc, <- app_assoc. split; [reflexivity|]. intros Q. destruct F as [[-> ->]|(s & d & -> & F)]; [eapply fp_last; eauto|eapply fp_two; eauto].
Qed.
Lemma s_inline_mapping a flow outer n : at_ n = LBRACE -> wlp (a_inline_mapping text value a) n (fun t n' => (n' <= len)%nat /\ means flow outer n (see t) n').
Proof.
  intros E. pose proof (at_lt _ _ _ E ltac:(discriminate)) as L. unfold a_inline_mapping. run. rewrite Nat.min_l by lia. rewrite Nat.add_1_r.
  destruct (gap_ex text (S n) ltac:(lia)) as (m & G). eapply wlp_eval; [apply gap_ws; eassumption|]. pose proof (gap_le _ _ _ G).
  eapply wlp_bind; [apply s_imap_loop; lia|]. intros [[[its tr] p'] st] n3 (L3 & ds & D & F). run. rewrite Nat.add_0_r.
  destruct (N.eqb_spec (nth n3 text EOF) RBRACE) as [E3|E3]; cbn [negb]; run; [|apply wlp_err]. apply wlp_ret. split; [lia|]. cbn [see]. fold (mdata its). rewrite D.
  pose proof (at_lt _ _ _ E3 ltac:(discriminate)). rewrite Nat.min_l by lia. rewrite Nat.add_1_r. eapply me_flow_map; eauto.
Qed.
(* a value behind a dash or colon, and the white space behind it *)
Lemma w_block {X} (k : tree unit * option bytes -> AM X) outer n Q : (n <= len)%nat ->
  (forall v w n1 p n' e, (n1 <= len)%nat -> a_or_ws text w n1 = Ok (p, n') -> (n' <= len)%nat -> behind outer n (see v) e -> gap_to e n' -> wlp (k (v, w)) n1 Q) ->
  wlp (p <- a_ws text ;; r <- value (AState p false true outer) ;; k r) n Q.
Proof.
  intros L K. destruct (gap_ex text n L) as (m & G). eapply wlp_eval; [apply gap_ws; eassumption|]. cbv beta. pose proof (gap_le _ _ _ G) as GL.
  eapply wlp_bind; [apply VH; [lia|reflexivity|discriminate]|].
  intros [v w] n1 (L1 & [(e & M & W)|(o & s & kk & EO & KA & CO & D & -> & W)]); cbn [fst snd as_parent_indent] in *.
  - destruct w as [w|].
    + apply (K _ _ _ w n1 e); auto. now apply (be_value _ _ _ m).
    + subst e. destruct (gap_ex text n1 L1) as (n' & G'). apply (K _ _ _ (part n1 n') n' n1); auto; [now apply gap_ws|apply gap_le in G'; lia|now apply (be_value _ _ _ m)].
  - destruct w as [w|]; [|congruence]. apply (K _ _ _ w m n); auto. rewrite D, EO. now apply (be_none _ o n m s kk).
Qed.
Lemma s_seq_loop ind f : forall items ip n, (n < len)%nat -> wlp (a_seq_loop text value f ind items ip) n (fun r n' => let '(items', _) := r in
  (n' <= len)%nat /\ exists ds e, sdata items' = sdata items ++ ds /\ dashes_at text ind n ds e /\ gap_to e n').
Proof.
  induction f as [|f IH]; intros items ip n L; [exact Logic.I|]. cbn [a_seq_loop]. run. rewrite Nat.min_l by lia. rewrite Nat.add_1_r.
  apply w_block; [lia|]. intros v w n1 p n' e L1 EW L' B G. cbv beta iota zeta. eapply wlp_eval; [exact EW|]. run. rewrite Nat.add_0_r, column_indent by lia.
  destruct (_ || _) eqn:C.
  - apply wlp_ret. split; [lia|]. exists [see v], e. rewrite sdata_snoc. split; [reflexivity|]. split; [|exact G]. apply (da_last _ ind n (see v) e n'); auto.
    apply orb_prop in C as [C|C]; apply negb_true_iff in C; [left; now apply Nat.eqb_neq|right; now apply N.eqb_neq].
  - apply orb_false_elim in C as [C1 C2]. apply negb_false_iff in C1, C2. apply Nat.eqb_eq in C1. apply N.eqb_eq in C2. pose proof (at_lt _ _ _ C2 ltac:(discriminate)).
    eapply wlp_mono; [now apply IH|]. intros [items' w'] n2 (L2 & ds & e' & D & F & G2). split; [exact L2|]. exists (see v :: ds), e'. rewrite D, sdata_snoc, <- app_assoc. split; [reflexivity|].
    split; [|exact G2]. eapply da_more; eauto.
Qed.
Lemma s_map_loop ind f : forall items start (key : rstr bytes) ip n, (n <= len)%nat -> wlp (a_map_loop text value f ind items start key ip) n (fun r n' => let '(items', _) := r in
  (n' <= len)%nat /\ exists ds e, mdata items' = mdata items ++ ds /\ at_ n = COLON /\ pairs_at text ind (rs_id key) n ds e /\ gap_to e n').
Proof.
  induction f as [|f IH]; intros items start key ip n L; [exact Logic.I|]. cbn [a_map_loop]. run. rewrite Nat.add_0_r.
  destruct (N.eqb_spec (nth n text EOF) COLON) as [E|_]; cbn [negb]; run; [|apply wlp_err]. pose proof (at_lt _ _ _ E ltac:(discriminate)). rewrite Nat.min_l by lia. rewrite Nat.add_1_r.
  apply w_block; [lia|]. intros v w n1 p n' e L1 EW L' B G. cbv beta iota zeta. eapply wlp_eval; [exact EW|]. run. rewrite column_indent by lia.
  destruct (Nat.eqb_spec (column n') ind) as [C|C]; cbn [negb].
  2: { apply wlp_ret. split; [lia|]. exists [(rs_id key, see v)], e. rewrite mdata_snoc. split; [reflexivity|]. split; [exact E|]. split; [|exact G]. apply (pa_last _ ind (rs_id key) n (see v) e n'); auto. }
  run. pose proof (colon_scan_at text n' L') as T. eapply wlp_eval; [eapply next_key_at, T|]. set (j := (n' + colon_scan (skipn n' text))%nat) in *. pose proof (proj1 T) as TL.
  destruct (part n' j) as [|c x] eqn:EP.
  - assert (j = n'). { pose proof (seg_length text n' j TL) as K. rewrite EP in K. cbn in K. lia. }
    apply wlp_ret. split; [lia|]. exists [(rs_id key, see v)], e. rewrite mdata_snoc. split; [reflexivity|]. split; [exact E|]. rewrite H0 in *. split; [|exact G].
    apply (pa_last _ ind (rs_id key) n (see v) e n'); auto. right. apply T.
  - assert (n' < j)%nat. { pose proof (seg_length text n' j TL) as K. rewrite EP in K. cbn in K. lia. }
    eapply wlp_mono; [apply IH; lia|]. intros [items' w'] n2 (L2 & ds & e' & D & EC & F & G2). split; [exact L2|]. exists ((rs_id key, see v) :: ds), e'.
    rewrite D, mdata_snoc, <- app_assoc. split; [reflexivity|]. split; [exact E|]. split; [|exact G2]. cbn [rs_id] in F. rewrite <- EP in F.
    eapply pa_more; eauto. apply later_key_iff. auto.
Qed.
Lemma s_mapping_or_nul a start key n s : as_inline a = false -> (start <= len)%nat -> (n <= len)%nat -> rs_id key = s -> (at_ n = COLON -> key_at text start s n) -> (as_parent_indent a <> None -> at_ n = COLON) ->
  wlp (a_mapping_or_nul text value a start key) n (vpost a start).
Proof.
  intros AI L Ln K KA CO. unfold a_mapping_or_nul. rewrite column_indent by lia. destruct (match as_parent_indent a with Some _ => _ | _ => _ end) eqn:C.
  - run. apply wlp_ret. split; [lia|]. rewrite AI. right. destruct (as_parent_indent a) as [o|] eqn:PO; [|discriminate]. apply Nat.leb_le in C.
    exists o, s, n. cbn [fst snd see]. repeat split; auto; try discriminate. apply KA, CO. discriminate.
  - eapply wlp_bind; [now apply s_map_loop|]. intros [its w] n' (L2 & ds & e & D & E & P & G). apply wlp_ret. split; [exact L2|]. rewrite AI. left. exists e. cbn [fst snd see].
    split; [|exact G]. fold (mdata its). rewrite D. apply (me_map _ _ _ s n); [now apply KA| |].
    + destruct (as_parent_indent a) as [o|]; cbn; [|exact Logic.I]. apply Nat.leb_gt in C. exact C.
    + rewrite K in P. exact P.
Qed.
Lemma word_number flow i j h : word_to text flow i j -> number_text (part i j) h -> number_at text flow i h j.
Proof.
  intros W U.
  assert (X : (i <= j <= len)%nat /\ numless (skipn j text) /\ (flow = true \/ eol_scan (skipn j text) = true)).
  { destruct flow.
    - apply word_flow_iff in W as (L & _ & C). split; [exact L|]. split; [|now left]. apply ctl_numless. rewrite <- at_hd. exact C.
    - destruct W as ((L & _ & E) & _). split; [exact L|]. assert (EN : ended (skipn j text)).
      { destruct E as [->|E]; [left; apply skipn_all|right; rewrite <- at_hd; exact E]. }
      split; [now apply ended_numless|right; now apply ended_eol]. }
  destruct X as (L & N & E). apply number_read; [lia|]. split; [lia|].
  pose proof (num_read_number flow _ _ _ U N E) as R. rewrite <- (seg_full text j) in R by lia. rewrite seg_app in R by lia. rewrite seg_full in R by lia.
  rewrite R, seg_length by lia. reflexivity.
Qed.
Lemma s_value_body a n : (n <= len)%nat -> as_tabular a = negb (as_inline a) -> (as_inline a = true -> as_parent_indent a = None) -> wlp (a_value_body text value a) n (vpost a n).
Proof.
  intros L T PN. unfold a_value_body. run. rewrite Nat.add_0_r. unfold EOF in *.
  assert (FL : forall d e, means (as_inline a) (as_parent_indent a) n d e -> (e <= len)%nat -> forall t, see t = d -> vpost a n (t, None) e).
  { intros d e M LE t S. split; [exact LE|]. destruct (as_inline a) eqn:AI.
    - exists false. cbn [fst snd]. rewrite S. split; [|tauto]. apply he_value. now rewrite (PN eq_refl) in M.
    - left. exists e. cbn [fst snd]. rewrite S. auto. }
  destruct (_ && _) eqn:C0.
  { apply andb_prop in C0 as [C9 C3]. apply andb_prop in C9 as [C1 C2]. apply N.eqb_eq in C1. apply negb_true_iff in C3. apply is_ws_white in C2. rewrite Nat.add_1_r in C2.
    unfold a_sequence. run. rewrite column_indent by lia. pose proof (at_lt _ _ _ C1 ltac:(discriminate)). eapply wlp_bind; [now apply s_seq_loop|].
    intros [its w] n' (L2 & ds & e & D & F & G). apply wlp_ret. split; [exact L2|]. rewrite C3. left. exists e. cbn [fst snd see]. fold (sdata its). rewrite D. split; [|exact G]. now apply me_seq. }
  assert (NS : as_inline a = false -> ~ (at_ n = DASH /\ white (at_ (S n)))).
  { intros AI [E W]. rewrite AI, E in C0. replace (n + 1)%nat with (S n) in C0 by lia. apply is_ws_white in W. rewrite W in C0. discriminate. }
  destruct (N.eqb_spec (at_ n) DQUOTE) as [C1|C1].
  { run. eapply wlp_bind; [now apply double_at|]. intros x n1 Q. unfold quoted_post in Q. pose proof (quote_le _ _ _ _ Q) as QL. run. rewrite Nat.add_0_r. destruct (negb (as_inline a) && _) eqn:C.
    - apply andb_prop in C as [C3 C4]. apply negb_true_iff in C3. apply N.eqb_eq in C4. apply (s_mapping_or_nul _ _ _ _ (rs_id x)); auto; [lia|]. intros _. now apply ka_quoted.
    - apply wlp_ret. eapply FL; [|lia|reflexivity]. apply me_quote; [exact Q|]. apply andb_false_elim in C as [C|C]; [apply negb_false_iff in C; auto|right; now apply N.eqb_neq]. }
  destruct (N.eqb_spec (at_ n) SQUOTE) as [C2|C2].
  { run. eapply wlp_bind; [now apply single_at|]. intros x n1 Q. unfold quoted_post in Q. pose proof (quote_le _ _ _ _ Q) as QL. run. rewrite Nat.add_0_r. destruct (negb (as_inline a) && _) eqn:C.
    - apply andb_prop in C as [C3 C4]. apply negb_true_iff in C3. apply N.eqb_eq in C4. apply (s_mapping_or_nul _ _ _ _ (rs_id x)); auto; [lia|]. intros _. now apply ka_quoted.
    - apply wlp_ret. eapply FL; [|lia|reflexivity]. apply me_quote; [exact Q|]. apply andb_false_elim in C as [C|C]; [apply negb_false_iff in C; auto|right; now apply N.eqb_neq]. }
  destruct (N.eqb_spec (at_ n) LBRACK) as [C3|C3].
  { eapply wlp_bind; [now apply (s_inline_sequence a (as_inline a) (as_parent_indent a))|]. intros t n1 (L1 & M). apply wlp_ret. now apply (FL (see t)). }
  destruct (N.eqb_spec (at_ n) LBRACE) as [C4|C4].
  { eapply wlp_bind; [now apply (s_inline_mapping a (as_inline a) (as_parent_indent a))|]. intros t n1 (L1 & M). apply wlp_ret. now apply (FL (see t)). }
  destruct (_ || _) eqn:C5.
  { assert (A : at_ n = GT \/ at_ n = PIPE) by (apply orb_prop in C5 as [C5|C5]; apply N.eqb_eq in C5; auto).
    destruct (block_ex text n A) as (s & j & m & p & o & q & B & G & R). unfold a_block_at in R. cbv zeta in R. eapply wlp_eval; [exact R|]. apply wlp_ret. pose proof (gap_le _ _ _ G).
    split; [lia|]. cbn [fst snd see rs_id]. destruct (as_inline a).
    - exists true. split; [|split; discriminate]. now apply (he_block _ _ _ j).
    - left. exists j. split; [now apply me_block|exact G]. }
  run.
  assert (NW : ~ no_word text (as_inline a) n).
  { apply orb_false_elim in C5 as [C5 C6]. apply N.eqb_neq in C5, C6. intros [I|(AI & E & W)]; [|now apply NS].
    cbn in I. unfold DQUOTE, SQUOTE, LBRACK, LBRACE, GT, PIPE in *. intuition congruence. }
  assert (PL : forall e d, word_to text (as_inline a) n e -> (forall h j, ~ number_at text (as_inline a) n h j) -> plain_datum (part n e) d ->
    see (TLeaf tt (as_prefix a) (a_plain (part n e))) = d).
  { intros e d W N D. change (see (TLeaf tt (@nil byte) (a_plain (part n e))) = d). apply a_plain_see; [exact D|]. intros h U. apply (N h e). now apply word_number. }
  rewrite T. destruct (number_cases text (as_inline a) n L) as [(h & j & N)|NN].
  { eapply wlp_eval; [apply number_eval, N|]. cbv beta iota. apply wlp_ret. pose proof (number_le _ _ _ _ _ N). eapply FL; [apply me_number, N|lia|reflexivity]. }
  destruct (number_none text (as_inline a) n L NN) as (m & LM & E & NC). eapply wlp_eval; [exact E|]. cbv beta iota. destruct (as_inline a) eqn:AI.
  - run. destruct (ctl_scan_at text m ltac:(lia)) as (HL & _ & _). rewrite Nat.min_l by lia. apply wlp_ret.
    assert (W : word_to text true n (m + ctl_scan (skipn m text))) by (apply word_flow; [lia|]; intros k K; now apply NC).
    destruct (plain_total (part n (m + ctl_scan (skipn m text)))) as (d & D). eapply FL; [|lia|apply PL; eauto]. now apply me_word.
  - destruct (key_or_eol_at text n m ltac:(lia) ltac:(intros k K; destruct (NC k K) as (? & ? & _); auto)) as [(k & F & R)|(j & W & R)].
    + eapply wlp_eval; [exact R|]. cbv beta iota. destruct F as (F1 & F2 & F3 & F4 & F5). apply (s_mapping_or_nul _ _ _ _ (part n k)); auto; [lia|].
      intros _. now apply ka_plain.
    + eapply wlp_eval; [exact R|]. cbv beta iota. run. apply wlp_ret. destruct (plain_total (part n j)) as (d & D).
      eapply FL; [|destruct W as ((W & _) & _); lia|apply PL; eauto]. now apply me_word.
Qed.
End Value.
Lemma s_value f : forall a n, (n <= len)%nat -> as_tabular a = negb (as_inline a) -> (as_inline a = true -> as_parent_indent a = None) -> wlp (a_value text f a) n (vpost a n).
Proof. induction f as [|f IH]; intros a n L T P; [exact Logic.I|]. cbn [a_value]. now apply s_value_body. Qed.
Lemma s_sod_loop f : forall p n, (n <= len)%nat -> wlp (a_sod_loop text f p) n (fun _ n' => (n' <= len)%nat /\ header_to text n n').
Proof.
  induction f as [|f IH]; intros p n L; [exact Logic.I|]. cbn [a_sod_loop]. run. rewrite Nat.add_0_r. destruct (N.eqb_spec (nth n text EOF) PERCENT) as [E|E].
  - destruct (line_find text n L) as (k & K & R). eapply wlp_eval; [exact R|]. pose proof (proj1 K). destruct (gap_ex text k ltac:(lia)) as (m & G).
    eapply wlp_eval; [apply gap_ws; eassumption|]. pose proof (gap_le _ _ _ G). eapply wlp_mono; [apply IH; lia|]. cbv beta. intros _ n' (L' & H'). split; [exact L'|]. eapply hd_directive; eauto.
  - replace (n + 1)%nat with (1 + n)%nat by lia. replace (n + 2)%nat with (2 + n)%nat by lia. destruct (_ && _) eqn:C.
    + apply andb_prop in C as [C C3]. apply andb_prop in C as [C1 C2]. apply N.eqb_eq in C1, C2, C3. pose proof (at_lt _ _ _ C3 ltac:(discriminate)).
      run. rewrite Nat.min_l by lia. destruct (gap_ex text (3 + n) ltac:(lia)) as (m & G). replace (n + 3)%nat with (3 + n)%nat by lia. unfold wlp. rewrite (gap_ws _ _ _ G). pose proof (gap_le _ _ _ G).
      split; [lia|]. now apply hd_marker.
    + apply wlp_ret. split; [exact L|]. apply hd_none; [exact E|]. intros (C1 & C2 & C3). unfold EOF in C. rewrite C1, C2, C3 in C. discriminate.
Qed.
Theorem means_sound t suffix : a_parse text = Ok (t, suffix) -> stands_for text (see t).
Proof.
  intros H. unfold a_parse in H. assert (W : wlp (a_parse_m text) 0 (fun r _ => stands_for text (see (fst r)))).
  { unfold a_parse_m, a_start_of_document. apply wlp_bind_assoc.
    destruct (gap_ex text 0 ltac:(lia)) as (n & G). eapply wlp_eval; [apply gap_ws; eassumption|]. pose proof (gap_le _ _ _ G).
    eapply wlp_bind; [apply s_sod_loop; lia|]. cbv beta. intros p1 n1 (L1 & HD).
    eapply wlp_bind; [apply s_value; [exact L1|reflexivity|discriminate]|]. intros [t' w] n2 (L2 & V). cbn [as_inline as_parent_indent fst snd] in V.
    destruct V as [(e & M & V)|(o & s & k & E & _)]; [|discriminate].
    assert (OW : exists p n3, a_or_ws text w n2 = Ok (p, n3) /\ gap_to e n3).
    { destruct w as [w|]; [exists w, n2; auto|]. subst e. destruct (gap_ex text n2 L2) as (n3 & G3). exists (part n2 n3), n3. split; [now apply gap_ws|exact G3]. }
    destruct OW as (p & n3 & OW & G3). eapply wlp_eval; [exact OW|]. run. destruct (Nat.eqb_spec n3 len) as [E|E]; cbn [negb]; run; [|apply wlp_err]. apply wlp_ret. subst n3.
    exists n, n1, e. auto. }
  unfold wlp in W. destruct (a_parse_m text O) as [[[t' s'] n]|? ? ?| | |]; try discriminate.
  injection H as -> ->. exact W.
Qed.
End Sound.
