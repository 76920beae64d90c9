(* Every accepted text is written back as the rules of Printed.v say: one direction of C49.
   A pass over the abstract parser like MeansSound.v. *)
From Coq Require Import String.
From Coq Require Import List NArith Bool Arith Lia.
From Verif Require Import Bytes Utf8 Data Parser Render Tree Abs Scan AbsText AbsNice Num Reads ReadsSound Shown Plain White Valid Lexed Means Places MeansSound Printed.
Import ListNotations.
Local Open Scope N_scope.

Section Sound.
Variable text : bytes.
Local Notation len := (length text).
Local Notation at_ i := (nth i text 0).
Local Notation part := (slice text).
Local Notation gap_to := (gap_to text).
Local Notation column := (column text).
Local Notation puts := (puts text).
Local Notation after := (after text).

Ltac run := repeat (lazymatch goal with
  | |- wlp (bind a_get ?k) ?n ?Q => change (wlp (k n) n Q)
  | |- wlp (bind (a_rest _) ?k) ?n ?Q => change (wlp (k (skipn n text)) n Q)
  | |- wlp (bind (a_peek _ ?i) ?k) ?n ?Q => change (wlp (k (nth (n + i) text EOF)) n Q)
  | |- wlp (bind (a_eof _) ?k) ?n ?Q => change (wlp (k (Nat.eqb n len)) n Q)
  | |- wlp (bind (a_string _ ?s) ?k) ?n ?Q => change (wlp (k (part s n)) n Q)
  | |- wlp (bind (a_indent _) ?k) ?n ?Q => change (wlp (k (indent_from text n)) n Q)
  | |- wlp (bind (a_set ?m) ?k) ?n ?Q => change (wlp (k tt) m Q)
  | |- wlp (bind (a_bump _ ?i) ?k) ?n ?Q => change (wlp (k tt) (Nat.min (n + i) len) Q)
  | |- wlp (bind (ret ?x) ?k) ?n ?Q => change (wlp (k x) n Q)
  end; cbv beta).

(* ---- primitives ---- *)
Lemma after_eval w e w' n : after w e w' n -> a_or_ws text w e = Ok (w', n).
Proof. intros [w0 n0|e0 n0 G]; [reflexivity|]. cbn [a_or_ws]. now apply gap_ws. Qed.
Lemma after_ex w e : (e <= len)%nat -> exists w' n, after w e w' n /\ (e <= n <= len)%nat.
Proof.
  intros L. destruct w as [w|].
  - exists w, e. split; [constructor|lia].
  - destruct (gap_ex text e L) as (n & G). exists (part e n), n. split; [now constructor|]. apply gap_le in G. lia.
Qed.
Lemma after_det w e w1 n1 w2 n2 : after w e w1 n1 -> after w e w2 n2 -> w1 = w2 /\ n1 = n2.
Proof. intros A B. apply after_eval in A, B. rewrite A in B. injection B as -> ->. auto. Qed.
Lemma quote_printed (m : AM (rstr bytes)) n c : (forall s j, quote_at text n s j -> at_ n = c -> m n = Ok (RS KOriginal s (part n j), j)) -> at_ n = c -> wlp m n (quoted_post text n) ->
  wlp m n (fun x n' => quote_at text n (rs_id x) n' /\ x = RS KOriginal (rs_id x) (part n n')).
Proof.
  unfold wlp, quoted_post. intros E C. destruct (m n) as [[x n']|? ? ?| | |] eqn:M; auto. intros Q. split; [exact Q|]. specialize (E _ _ Q C). injection E as E. exact E.
Qed.
Lemma single_printed n : at_ n = SQUOTE -> wlp (a_single_quoted text) n (fun x n' => quote_at text n (rs_id x) n' /\ x = RS KOriginal (rs_id x) (part n n')).
Proof.
  intros C. apply (quote_printed _ n SQUOTE); [|exact C|now apply single_at]. intros s j Q _. destruct (quote_eval _ _ _ _ Q) as [[_ E]|[C' _]]; [exact E|]. rewrite C in C'. discriminate.
Qed.
Lemma double_printed n : at_ n = DQUOTE -> wlp (a_double_quoted text) n (fun x n' => quote_at text n (rs_id x) n' /\ x = RS KOriginal (rs_id x) (part n n')).
Proof.
  intros C. apply (quote_printed _ n DQUOTE); [|exact C|now apply double_at]. intros s j Q _. destruct (quote_eval _ _ _ _ Q) as [[C' _]|[_ E]]; [|exact E]. rewrite C in C'. discriminate.
Qed.
(* the block scalar at a place, with what it prints *)
Lemma block_printed i : at_ i = GT \/ at_ i = PIPE -> exists s j m p o w, block_laid text i s w j /\ gap_to j m /\ p ++ o = part i j /\ (i < j <= len)%nat /\
  a_block_at text i i = Ok ((ScStr (RS (KMultiline p) s o), Some w), m).
Proof.
  intros H. assert (L : (i < len)%nat) by (destruct H as [H|H]; apply (at_lt _ _ _ H); discriminate).
  set (folded := at_ i =? GT).
  assert (FA : at_ i = if folded then GT else PIPE). { unfold folded. destruct (N.eqb_spec (at_ i) GT) as [E|E]; [exact E|]. now destruct H. }
  unfold a_block_at. cbv zeta. fold folded. replace (i + 1)%nat with (S i) by lia.
  assert (KE : forall k v w e, block_body text folded k v w e -> (k <= e <= len)%nat).
  { intros k v w e [G _|n v' e' m G _ L' V|l t _ K _ G|l t n v' e' m _ K _ G L' V]; try (apply lines_le in V as (V & _ & G2); apply gap_le in G2); apply gap_le in G; try destruct K as [K _]; lia. }
  destruct (N.eqb_spec (at_ (S i)) DASH) as [D|D]; cbn [orb negb].
  - pose proof (at_lt _ _ _ D ltac:(discriminate)) as L2. destruct (body_eval text folded true (2 + i) i ltac:(lia)) as (v & w & e & m & B & G & R). pose proof (KE _ _ _ _ B).
    replace (2 + i - i)%nat with 2%nat in R by lia. rewrite app_nil_r in R. exists v, e, m, (part i (2 + i)), (part (2 + i) e), w. split; [eapply bd_strip; eauto|]. split; [exact G|]. split; [apply seg_app; lia|]. split; [lia|exact R].
  - destruct (N.eqb_spec (at_ (S i)) PLUS) as [P|P].
    + pose proof (at_lt _ _ _ P ltac:(discriminate)) as L2. destruct (body_eval text folded false (2 + i) i ltac:(lia)) as (v & w & e & m & B & G & R). pose proof (KE _ _ _ _ B).
      replace (2 + i - i)%nat with 2%nat in R by lia. exists (v ++ newlines_in w), e, m, (part i (2 + i)), (part (2 + i) e), w. split; [eapply bd_keep; eauto|]. split; [exact G|]. split; [apply seg_app; lia|]. split; [lia|exact R].
    + destruct (body_eval text folded false (1 + i) i ltac:(lia)) as (v & w & e & m & B & G & R). pose proof (KE _ _ _ _ B).
      replace (1 + i - i)%nat with 1%nat in R by lia. exists (v ++ newlines_in w), e, m, (part i (1 + i)), (part (1 + i) e), w. split; [|split; [exact G|split; [apply seg_app; lia|split; [lia|exact R]]]].
      eapply bd_plain; eauto. cbn. unfold DASH, PLUS in *. intuition congruence.
Qed.
Lemma block_laid_det i s w j s' w' j' : block_laid text i s w j -> block_laid text i s' w' j' -> s = s' /\ w = w' /\ j = j'.
Proof.
  intros [f v A C B E|f v A C B E|f v A C B E] [f' v' A' C' B' E'|f' v' A' C' B' E'|f' v' A' C' B' E'];
    (assert (f = f') as <- by (rewrite A in A'; destruct f, f'; reflexivity || discriminate A')); try (exfalso; rewrite ?C, ?C' in *; cbn in *; (discriminate || tauto));
    destruct (body_det _ _ _ _ _ _ B _ _ _ B') as (-> & -> & ->); subst; auto.
Qed.
Lemma flow_stop outer i d o w n : puts true outer i d o (Some w) n -> gap_to n n.
Proof. intros H. inversion H; subst. eapply gap_stop; eauto. Qed.

(* ---- the text of items ---- *)
Lemma sep_snoc c (l : list bytes) x : sep c (l ++ [x]) = sep c l ++ (if l then [] else c) ++ x.
Proof.
  induction l as [|y l IH]; [cbn; now rewrite app_nil_r|]. cbn [app sep]. rewrite IH. destruct l as [|z l]; cbn [app]; [now rewrite app_nil_r|]. now rewrite !app_assoc.
Qed.
Definition sitem_out (k : ckind bytes) : sitem unit -> bytes := fun '(_, ip, v) => lossy ip ++ dash_if k ++ tpre v ++ wtree v.
Definition mitem_out : mitem unit -> bytes := fun '(_, ip, key, v) => ip ++ wstr key ++ [COLON] ++ tpre v ++ wtree v.
Definition sout (k : ckind bytes) (items : list (sitem unit)) : bytes := sep (comma_if k) (map (sitem_out k) items).
Definition mout (k : ckind bytes) (items : list (mitem unit)) : bytes := sep (comma_if k) (map mitem_out items).
Lemma sout_snoc k items ip v : sout k (items ++ [(tt, ip, v)]) = sout k items ++ (if items then [] else comma_if k) ++ lossy ip ++ dash_if k ++ tpre v ++ wtree v.
Proof. unfold sout. rewrite map_app. cbn [map]. rewrite sep_snoc. cbn [sitem_out]. now destruct items. Qed.
Lemma mout_snoc k items ip key v : mout k (items ++ [(tt, ip, key, v)]) = mout k items ++ (if items then [] else comma_if k) ++ ip ++ wstr key ++ [COLON] ++ tpre v ++ wtree v.
Proof. unfold mout. rewrite map_app. cbn [map]. rewrite sep_snoc. cbn [mitem_out]. now destruct items. Qed.
Definition comma (tr : bool) : bytes := if tr then [COMMA] else [].
Definition flowk : ckind bytes := CInline false [].
Lemma wtree_flow_seq i pre ind tr p (items : list (sitem unit)) : wtree (TSeq i pre ind (CInline tr p) items) = b "[" ++ sout flowk items ++ comma tr ++ p ++ b "]".
Proof. reflexivity. Qed.
Lemma wtree_flow_map i pre ind tr p (items : list (mitem unit)) : wtree (TMap i pre ind (CInline tr p) items) = b "{" ++ mout flowk items ++ comma tr ++ p ++ b "}".
Proof. reflexivity. Qed.
Lemma wtree_seq i pre ind (items : list (sitem unit)) : wtree (TSeq i pre ind CBlock items) = sout CBlock items.
Proof. exact (app_nil_r _). Qed.
Lemma wtree_map i pre ind (items : list (mitem unit)) : wtree (TMap i pre ind CBlock items) = mout CBlock items.
Proof. exact (app_nil_r _). Qed.
Lemma see_seq i pre ind k (items : list (sitem unit)) : see (TSeq i pre ind k items) = DSeq (sdata items).
Proof. reflexivity. Qed.
Lemma see_map i pre ind k (items : list (mitem unit)) : see (TMap i pre ind k items) = DMap (mdata items).
Proof. reflexivity. Qed.
Lemma lossy_made p : made_valid p (lossy p).
Proof. now apply lossy_spec. Qed.

Definition vput (a : astate) (n : nat) (r : tree unit * option bytes) (n' : nat) : Prop :=
  (n' <= len)%nat /\
  (puts (as_inline a) (as_parent_indent a) n (see (fst r)) (wtree (fst r)) (snd r) n' /\ tpre (fst r) = as_prefix a \/
   exists c s k, as_inline a = false /\ as_parent_indent a = Some c /\ key_at text n s k /\ (column n <= c)%nat /\ see (fst r) = DNull /\ tpre (fst r) ++ wtree (fst r) = [] /\ snd r = Some (as_prefix a) /\ n' = n).

Section Value.
Variable value : astate -> AM (tree unit * option bytes).
Hypothesis VH : forall a n, (n <= len)%nat -> as_tabular a = negb (as_inline a) -> (as_inline a = true -> as_parent_indent a = None) -> wlp (value a) n (vput a n).

(* a value of a flow collection *)
Lemma w_flow {X} (k : tree unit * option bytes -> AM X) n m Q : gap_to n m ->
  (forall v w n', (n' <= len)%nat -> puts true None m (see v) (wtree v) w n' -> tpre v = part n m -> wlp (k (v, w)) n' Q) ->
  wlp (p <- a_ws text ;; r <- value (AState p true false None) ;; k r) n Q.
Proof.
  intros G K. eapply wlp_eval; [apply gap_ws; eassumption|]. cbv beta. eapply wlp_bind; [apply VH; [apply gap_le in G; lia|reflexivity|reflexivity]|].
  intros [v w] n' (L & [(H & T)|(c & s & kk & E & _)]); [|discriminate]. cbn [fst snd as_inline as_parent_indent as_prefix] in *. now apply K.
Qed.
Lemma part_nil n : part n n = [].
Proof. apply seg_nil. Qed.
Lemma after_stop w m d o e w' n' : puts true None m d o w e -> after w e w' n' -> gap_to n' n'.
Proof. intros H A. inversion A; subst; [eapply flow_stop; eassumption|eapply gap_stop; eassumption]. Qed.
Lemma s_iseq_last f : forall items tr ip n, items <> [] -> gap_to n n -> wlp (a_iseq_loop text value f items true tr ip) n (fun r n' => let '(items', tr', p') := r in
  (n' <= len)%nat /\
  (items' = items /\ tr' = tr /\ p' = ip /\ n' = n \/ exists d o w e, ~ In (at_ n) [RBRACK; 0] /\ puts true None n d o w e /\ after w e p' n' /\ sdata items' = sdata items ++ [d] /\ tr' = false /\
     sout flowk items' = sout flowk items ++ [COMMA] ++ lossy ip ++ o)).
Proof.
  intros items tr ip n NE G. pose proof (gap_le _ _ _ G) as L. destruct f as [|f]; [exact Logic.I|]. cbn [a_iseq_loop]. run. rewrite Nat.add_0_r.
  destruct (_ || _) eqn:C.
  { apply wlp_ret. split; [lia|]. auto. }
  assert (NC : ~ In (at_ n) [RBRACK; 0]) by (apply orb_false_elim in C as [C1 C2]; apply N.eqb_neq in C1, C2; cbn; unfold EOF in *; intuition congruence).
  apply (w_flow _ n n); [exact G|]. intros v w e LE H T. cbv beta iota zeta. rewrite part_nil in T. destruct (after_ex w e LE) as (w' & n' & A & L').
  eapply wlp_eval; [apply after_eval; exact A|]. apply wlp_ret. split; [lia|]. right. exists (see v), (wtree v), w, e. split; [exact NC|]. split; [exact H|]. split; [exact A|].
  rewrite sdata_snoc, sout_snoc, T. split; [reflexivity|]. split; [reflexivity|]. destruct items; [congruence|]. reflexivity.
Qed.
Lemma s_iseq_loop f : forall items tr ip n, (n <= len)%nat -> (tr = true <-> items <> []) -> wlp (a_iseq_loop text value f items false tr ip) n (fun r n' => let '(items', tr', p') := r in
  (n' <= len)%nat /\ exists ds o, sdata items' = sdata items ++ ds /\ (at_ n' = RBRACK -> puts_flow_seq text n ip ds o (S n')) /\
    sout flowk items' ++ comma tr' ++ p' ++ b "]" = sout flowk items ++ comma tr ++ o).
Proof.
  induction f as [|f IH]; intros items tr ip n L TR; [exact Logic.I|]. cbn [a_iseq_loop]. run. rewrite Nat.add_0_r.
  destruct (_ || _) eqn:C.
  { apply wlp_ret. split; [lia|]. exists [], (ip ++ b "]"). rewrite app_nil_r. split; [reflexivity|]. split; [apply ps_end|reflexivity]. }
  assert (NC : ~ In (at_ n) [RBRACK; 0]) by (apply orb_false_elim in C as [C1 C2]; apply N.eqb_neq in C1, C2; cbn; unfold EOF in *; intuition congruence).
  destruct (gap_ex text n L) as (m & G). apply (w_flow _ n m); [exact G|]. intros v w e LE H T. cbv beta iota zeta. run. rewrite Nat.add_0_r.
  assert (PRE : sout flowk (items ++ [(tt, ip, v)]) = sout flowk items ++ comma tr ++ lossy ip ++ part n m ++ wtree v).
  { rewrite sout_snoc, T. cbn [dash_if flowk app]. destruct items; destruct tr; try reflexivity; exfalso; destruct TR as [T1 T2]; [now apply T1|]. discriminate T2. discriminate. }
  assert (NE : items ++ [(tt, ip, v)] <> []) by (destruct items; discriminate).
  destruct (N.eqb_spec (nth e text EOF) COMMA) as [E|E].
  - pose proof (at_lt _ _ _ E ltac:(discriminate)) as LT. run. rewrite Nat.min_l by lia. rewrite Nat.add_1_r.
    destruct (after_ex w (S e) ltac:(lia)) as (w' & n' & A & L'). eapply wlp_eval; [apply after_eval; exact A|]. eapply wlp_mono; [apply IH; [lia|tauto]|].
    intros [[items' tr'] p'] n2 (L2 & ds & o & D & F & O). split; [exact L2|]. exists (see v :: ds), (lossy ip ++ part n m ++ wtree v ++ b "," ++ o). rewrite D, sdata_snoc, <- app_assoc. split; [reflexivity|].
    split; [intros Q; eapply ps_comma; eauto using lossy_made|]. rewrite O, PRE. cbn [comma]. now rewrite <- !app_assoc.
  - destruct (after_ex w e LE) as (w' & n' & A & L'). eapply wlp_eval; [apply after_eval; exact A|]. eapply wlp_mono; [apply s_iseq_last; [exact NE|eapply after_stop; eassumption]|].
    intros [[items' tr'] p'] n2 (L2 & [(-> & -> & -> & ->)|(d' & o' & w2 & e' & NC' & H' & A' & D & -> & O)]); (split; [exact L2|]).
    + exists [see v], (lossy ip ++ part n m ++ wtree v ++ w' ++ b "]"). rewrite sdata_snoc. split; [reflexivity|]. split; [intros Q; eapply ps_last; eauto using lossy_made|]. rewrite PRE. cbn [comma]. now rewrite <- !app_assoc.
    + exists [see v; d'], (lossy ip ++ part n m ++ wtree v ++ b "," ++ lossy w' ++ o' ++ p' ++ b "]"). rewrite D, sdata_snoc, <- app_assoc. split; [reflexivity|].
      split; [intros Q; eapply ps_two; eauto using lossy_made|]. rewrite O, PRE. cbn [comma]. now rewrite <- !app_assoc.
Qed.
Lemma s_inline_sequence a flow outer n : at_ n = LBRACK -> wlp (a_inline_sequence text value a) n (fun t n' => (n' <= len)%nat /\ puts flow outer n (see t) (wtree t) None n' /\ tpre t = as_prefix a).
Proof.
  intros E. pose proof (at_lt _ _ _ E ltac:(discriminate)) as L. unfold a_inline_sequence. run. rewrite Nat.min_l by lia. rewrite Nat.add_1_r.
  destruct (gap_ex text (S n) ltac:(lia)) as (m & G). eapply wlp_eval; [apply gap_ws; eassumption|]. pose proof (gap_le _ _ _ G).
  eapply wlp_bind; [apply s_iseq_loop; [lia|split; [discriminate|congruence]]|]. intros [[its tr] p'] n3 (L3 & ds & o & D & F & O). run. rewrite Nat.add_0_r.
  destruct (N.eqb_spec (nth n3 text EOF) RBRACK) as [E3|E3]; cbn [negb]; run; [|apply wlp_err]. apply wlp_ret. split; [lia|]. split; [|reflexivity]. rewrite see_seq, wtree_flow_seq, D, O.
  pose proof (at_lt _ _ _ E3 ltac:(discriminate)). rewrite Nat.min_l by lia. rewrite Nat.add_1_r.
  cbn [sdata map sout sep comma app]. eapply pu_flow_seq; eauto.
Qed.
(* one pair of a flow mapping *)
Lemma w_pair {X} (k : rstr bytes -> tree unit * option bytes -> AM X) start n Q : (n <= len)%nat -> ~ In (at_ n) [RBRACE; 0] ->
  (forall key v w e p n', (e <= len)%nat -> puts_pair text n (rs_id key) (see v) (wstr key ++ b ":" ++ tpre v ++ wtree v) p n' -> a_or_ws text w e = Ok (p, n') -> (n' <= len)%nat -> gap_to n' n' -> wlp (k key (v, w)) e Q) ->
  wlp (m <- a_get ;; key <- a_until_colon text m ;;
       match key with
       | None => m <- a_get ;; a_err start m BadMappingSeparator
       | Some key => a_bump text 1 ;;; p <- a_ws text ;; r <- value (AState p true false None) ;; k key r
       end) n Q.
Proof.
  intros L NC K. run. pose proof (colon_scan_at text n L) as T. pose proof (proj1 T) as TL. eapply wlp_eval; [eapply until_colon_at, T|].
  set (j := (n + colon_scan (skipn n text))%nat) in *. destruct (Nat.eqb_spec j len) as [E|E]; run; [apply wlp_err|]. rewrite Nat.min_l by lia. rewrite Nat.add_1_r.
  destruct (gap_ex text (S j) ltac:(lia)) as (m & G). apply (w_flow _ (S j) m); [exact G|]. intros v w e LE H TP.
  destruct (after_ex w e LE) as (p & n' & A & L'). apply (K _ _ _ _ p n'); auto; [|now apply after_eval|lia|eapply after_stop; eassumption].
  cbn [rs_id wstr rs_kind]. rewrite TP. eapply pr_pair; eauto. apply flow_key_iff. split; [exact T|]. split; [lia|reflexivity].
Qed.
Lemma s_imap_last f : forall items tr start ip n, items <> [] -> gap_to n n -> wlp (a_imap_loop text value f items true tr start ip) n (fun r n' => let '(items', tr', p', _) := r in
  (n' <= len)%nat /\ (items' = items /\ tr' = tr /\ p' = ip /\ n' = n \/ exists s d o, puts_pair text n s d o p' n' /\ mdata items' = mdata items ++ [(s, d)] /\ tr' = false /\
     mout flowk items' = mout flowk items ++ [COMMA] ++ ip ++ o)).
Proof.
  intros items tr start ip n NE G. pose proof (gap_le _ _ _ G) as L. destruct f as [|f]; [exact Logic.I|]. cbn [a_imap_loop]. run. rewrite Nat.add_0_r.
  destruct (_ || _) eqn:C.
  { apply wlp_ret. split; [lia|]. auto. }
  assert (NC : ~ In (at_ n) [RBRACE; 0]) by (apply orb_false_elim in C as [C1 C2]; apply N.eqb_neq in C1, C2; cbn; unfold EOF in *; intuition congruence).
  apply w_pair; [lia|exact NC|]. intros key v w e p n' LE P EW L' G'. cbv beta iota zeta.
  eapply wlp_eval; [exact EW|]. apply wlp_ret. split; [lia|]. right. exists (rs_id key), (see v), (wstr key ++ b ":" ++ tpre v ++ wtree v). split; [exact P|]. rewrite mdata_snoc, mout_snoc.
  split; [reflexivity|]. split; [reflexivity|]. destruct items; [congruence|]. reflexivity.
Qed.
Lemma s_imap_loop f : forall items tr start ip n, (n <= len)%nat -> (tr = true <-> items <> []) -> wlp (a_imap_loop text value f items false tr start ip) n (fun r n' => let '(items', tr', p', _) := r in
  (n' <= len)%nat /\ exists ds o, mdata items' = mdata items ++ ds /\ (at_ n' = RBRACE -> puts_flow_map text n ip ds o (S n')) /\
    mout flowk items' ++ comma tr' ++ p' ++ b "}" = mout flowk items ++ comma tr ++ o).
Proof.
  induction f as [|f IH]; intros items tr start ip n L TR; [exact Logic.I|]. cbn [a_imap_loop]. run. rewrite Nat.add_0_r.
  destruct (_ || _) eqn:C.
  { apply wlp_ret. split; [lia|]. exists [], (ip ++ b "}"). rewrite app_nil_r. split; [reflexivity|]. split; [apply pm_end|reflexivity]. }
  assert (NC : ~ In (at_ n) [RBRACE; 0]) by (apply orb_false_elim in C as [C1 C2]; apply N.eqb_neq in C1, C2; cbn; unfold EOF in *; intuition congruence).
  apply w_pair; [lia|exact NC|]. intros key v w e p n' LE P EW L' G'. cbv beta iota zeta.
  assert (PRE : mout flowk (items ++ [(tt, ip, key, v)]) = mout flowk items ++ comma tr ++ ip ++ wstr key ++ b ":" ++ tpre v ++ wtree v).
  { rewrite mout_snoc. destruct items; destruct tr; try reflexivity; exfalso; destruct TR as [T1 T2]; [now apply T1|]. discriminate T2. discriminate. }
  assert (NE : items ++ [(tt, ip, key, v)] <> []) by (destruct items; discriminate).
  eapply wlp_eval; [exact EW|]. run. rewrite Nat.add_0_r. destruct (N.eqb_spec (nth n' text EOF) COMMA) as [E|E].
  - pose proof (at_lt _ _ _ E ltac:(discriminate)) as LT. run. rewrite Nat.min_l by lia. rewrite Nat.add_1_r.
    destruct (gap_ex text (S n') ltac:(lia)) as (m & G). eapply wlp_eval; [apply gap_ws; eassumption|]. pose proof (gap_le _ _ _ G).
    eapply wlp_mono; [apply IH; [lia|tauto]|]. intros [[[items' tr'] p'] st'] n2 (L2 & ds & o & D & F & O). split; [exact L2|]. exists ((rs_id key, see v) :: ds), (ip ++ (wstr key ++ b ":" ++ tpre v ++ wtree v) ++ b "," ++ o).
    rewrite D, mdata_snoc, <- app_assoc. split; [reflexivity|]. split; [intros Q; eapply pm_comma; eauto|]. rewrite O, PRE. cbn [comma]. now rewrite <- !app_assoc.
  - run. eapply wlp_eval; [apply gap_ws, G'|]. rewrite part_nil. eapply wlp_mono; [now apply s_imap_last|].
    intros [[[items' tr'] p'] st'] n2 (L2 & [(-> & -> & -> & ->)|(s & d & o & F & D & -> & O)]); (split; [exact L2|]).
    + exists [(rs_id key, see v)], (ip ++ (wstr key ++ b ":" ++ tpre v ++ wtree v) ++ b "}"). rewrite mdata_snoc. split; [reflexivity|]. split; [intros Q; eapply pm_last; eauto|]. rewrite PRE. cbn [comma app]. now rewrite <- !app_assoc.
    + exists [(rs_id key, see v); (s, d)], (ip ++ (wstr key ++ b ":" ++ tpre v ++ wtree v) ++ b "," ++ o ++ p' ++ b "}"). rewrite D, mdata_snoc, <- app_assoc. split; [reflexivity|].
      split; [intros Q; eapply pm_two; eauto|]. rewrite O, PRE. cbn [comma app]. now rewrite <- !app_assoc.
Qed.
Lemma s_inline_mapping a flow outer n : at_ n = LBRACE -> wlp (a_inline_mapping text value a) n (fun t n' => (n' <= len)%nat /\ puts flow outer n (see t) (wtree t) None n' /\ tpre t = as_prefix a).
Proof.
  intros E. pose proof (at_lt _ _ _ E ltac:(discriminate)) as L. unfold a_inline_mapping. run. rewrite Nat.min_l by lia. rewrite Nat.add_1_r.
  destruct (gap_ex text (S n) ltac:(lia)) as (m & G). eapply wlp_eval; [apply gap_ws; eassumption|]. pose proof (gap_le _ _ _ G).
  eapply wlp_bind; [apply s_imap_loop; [lia|split; [discriminate|congruence]]|]. intros [[[its tr] p'] st] n3 (L3 & ds & o & D & F & O). run. rewrite Nat.add_0_r.
  destruct (N.eqb_spec (nth n3 text EOF) RBRACE) as [E3|E3]; cbn [negb]; run; [|apply wlp_err]. apply wlp_ret. split; [lia|]. split; [|reflexivity]. rewrite see_map, wtree_flow_map, D, O.
  pose proof (at_lt _ _ _ E3 ltac:(discriminate)). rewrite Nat.min_l by lia. rewrite Nat.add_1_r.
  cbn [mdata map mout sep comma app]. eapply pu_flow_map; eauto.
Qed.
(* a value behind a dash or colon, and the white space behind it *)
Lemma w_block {X} (k : tree unit * option bytes -> AM X) outer n Q : (n <= len)%nat ->
  (forall v w n1 p n', (n1 <= len)%nat -> a_or_ws text w n1 = Ok (p, n') -> (n' <= len)%nat -> puts_behind text outer n (see v) (tpre v ++ wtree v) p n' -> wlp (k (v, w)) n1 Q) ->
  wlp (p <- a_ws text ;; r <- value (AState p false true outer) ;; k r) n Q.
Proof.
  intros L K. destruct (gap_ex text n L) as (m & G). eapply wlp_eval; [apply gap_ws; eassumption|]. cbv beta. pose proof (gap_le _ _ _ G) as GL.
  eapply wlp_bind; [apply VH; [lia|reflexivity|discriminate]|].
  intros [v w] n1 (L1 & [(M & T)|(c & s & kk & _ & EO & KA & CO & D & W & EW & ->)]); cbn [fst snd as_parent_indent as_inline as_prefix] in *.
  - destruct (after_ex w n1 L1) as (p & n' & A & L'). apply (K _ _ _ p n'); auto; [now apply after_eval|lia|]. rewrite T. eapply bh_value; eauto.
  - subst w. apply (K _ _ _ (part n m) m); auto. rewrite D, W, EO. now apply (bh_none _ c n m s kk).
Qed.
Lemma s_seq_loop ind f : forall items ip n, (n < len)%nat -> wlp (a_seq_loop text value f ind items ip) n (fun r n' => let '(items', w') := r in
  (n' <= len)%nat /\ exists ds o, sdata items' = sdata items ++ ds /\ puts_dashes text ind n ds o w' n' /\ sout CBlock items' = sout CBlock items ++ lossy ip ++ o).
Proof.
  induction f as [|f IH]; intros items ip n L; [exact Logic.I|]. cbn [a_seq_loop]. run. rewrite Nat.min_l by lia. rewrite Nat.add_1_r.
  apply w_block; [lia|]. intros v w n1 p n' L1 EW L' B. cbv beta iota zeta. eapply wlp_eval; [exact EW|]. run. rewrite Nat.add_0_r, column_indent by lia.
  assert (PRE : sout CBlock (items ++ [(tt, ip, v)]) = sout CBlock items ++ lossy ip ++ b "-" ++ tpre v ++ wtree v) by (rewrite sout_snoc; now destruct items).
  destruct (_ || _) eqn:C.
  - apply wlp_ret. split; [lia|]. exists [see v], (b "-" ++ tpre v ++ wtree v). rewrite sdata_snoc. split; [reflexivity|]. split; [|exact PRE]. apply pd_last; auto.
    apply orb_prop in C as [C|C]; apply negb_true_iff in C; [left; now apply Nat.eqb_neq|right; now apply N.eqb_neq].
  - apply orb_false_elim in C as [C1 C2]. apply negb_false_iff in C1, C2. apply Nat.eqb_eq in C1. apply N.eqb_eq in C2. pose proof (at_lt _ _ _ C2 ltac:(discriminate)).
    eapply wlp_mono; [now apply IH|]. intros [items' w'] n2 (L2 & ds & o & D & F & O). split; [exact L2|]. exists (see v :: ds), (b "-" ++ (tpre v ++ wtree v) ++ lossy p ++ o). rewrite D, sdata_snoc, <- app_assoc. split; [reflexivity|].
    split; [eapply pd_more; eauto using lossy_made|]. rewrite O, PRE. now rewrite <- !app_assoc.
Qed.
Lemma s_map_loop ind f : forall items start (key : rstr bytes) ip n, (n <= len)%nat -> wlp (a_map_loop text value f ind items start key ip) n (fun r n' => let '(items', w') := r in
  (n' <= len)%nat /\ exists ds o, mdata items' = mdata items ++ ds /\ at_ n = COLON /\ puts_pairs text ind (rs_id key) n ds o w' n' /\ mout CBlock items' = mout CBlock items ++ ip ++ wstr key ++ o).
Proof.
  induction f as [|f IH]; intros items start key ip n L; [exact Logic.I|]. cbn [a_map_loop]. run. rewrite Nat.add_0_r.
  destruct (N.eqb_spec (nth n text EOF) COLON) as [E|_]; cbn [negb]; run; [|apply wlp_err]. pose proof (at_lt _ _ _ E ltac:(discriminate)). rewrite Nat.min_l by lia. rewrite Nat.add_1_r.
  apply w_block; [lia|]. intros v w n1 p n' L1 EW L' B. cbv beta iota zeta. eapply wlp_eval; [exact EW|]. run. rewrite column_indent by lia.
  assert (PRE : mout CBlock (items ++ [(tt, ip, key, v)]) = mout CBlock items ++ ip ++ wstr key ++ b ":" ++ tpre v ++ wtree v) by (rewrite mout_snoc; now destruct items).
  assert (ONE : column n' <> ind \/ In (at_ n') [COLON; 0] -> exists ds o, mdata (items ++ [(tt, ip, key, v)]) = mdata items ++ ds /\ at_ n = COLON /\ puts_pairs text ind (rs_id key) n ds o p n' /\
    mout CBlock (items ++ [(tt, ip, key, v)]) = mout CBlock items ++ ip ++ wstr key ++ o).
  { intros C. exists [(rs_id key, see v)], (b ":" ++ tpre v ++ wtree v). rewrite mdata_snoc. split; [reflexivity|]. split; [exact E|]. split; [|exact PRE]. now apply pp_last. }
  destruct (Nat.eqb_spec (column n') ind) as [C|C]; cbn [negb].
  2: { apply wlp_ret. split; [lia|]. apply ONE. auto. }
  run. pose proof (colon_scan_at text n' L') as T. eapply wlp_eval; [eapply next_key_at, T|]. set (j := (n' + colon_scan (skipn n' text))%nat) in *. pose proof (proj1 T) as TL.
  destruct (part n' j) as [|c x] eqn:EP.
  - assert (EJ : j = n'). { pose proof (seg_length text n' j TL) as K. rewrite EP in K. cbn in K. lia. }
    apply wlp_ret. split; [lia|]. rewrite EJ in *. apply ONE. right. apply T.
  - assert (n' < j)%nat. { pose proof (seg_length text n' j TL) as K. rewrite EP in K. cbn in K. lia. }
    eapply wlp_mono; [apply IH; lia|]. intros [items' w'] n2 (L2 & ds & o & D & EC & F & O). split; [exact L2|]. exists ((rs_id key, see v) :: ds), (b ":" ++ (tpre v ++ wtree v) ++ p ++ part n' j ++ o).
    rewrite D, mdata_snoc, <- app_assoc. split; [reflexivity|]. split; [exact E|]. cbn [rs_id wstr rs_kind] in F, O. rewrite <- EP in F, O.
    split; [eapply pp_more; eauto; apply later_key_iff; auto|]. rewrite O, PRE. now rewrite <- !app_assoc.
Qed.
Lemma s_mapping_or_nul a start key n s : as_inline a = false -> (start <= len)%nat -> (n <= len)%nat -> rs_id key = s -> wstr key = part start n -> (at_ n = COLON -> key_at text start s n) -> (as_parent_indent a <> None -> at_ n = COLON) ->
  wlp (a_mapping_or_nul text value a start key) n (vput a start).
Proof.
  intros AI L Ln K KW KA CO. unfold a_mapping_or_nul. rewrite column_indent by lia. destruct (match as_parent_indent a with Some _ => _ | _ => _ end) eqn:C.
  - run. apply wlp_ret. split; [lia|]. right. destruct (as_parent_indent a) as [o|] eqn:PO; [|discriminate]. apply Nat.leb_le in C.
    exists o, s, n. cbn [fst snd see tpre wtree wscalar]. repeat split; auto; try discriminate. apply KA, CO. discriminate.
  - eapply wlp_bind; [now apply s_map_loop|]. intros [its w] n' (L2 & ds & o & D & E & P & O). apply wlp_ret. split; [exact L2|]. rewrite AI. left. cbn [fst snd tpre].
    split; [|reflexivity]. rewrite see_map, wtree_map, D, O, KW. cbn [app mout map sep mdata]. apply (pu_map _ _ _ s n); [now apply KA| |].
    + destruct (as_parent_indent a) as [o'|]; cbn; [|exact Logic.I]. apply Nat.leb_gt in C. exact C.
    + rewrite K in P. exact P.
Qed.
Lemma s_value_body a n : (n <= len)%nat -> as_tabular a = negb (as_inline a) -> (as_inline a = true -> as_parent_indent a = None) -> wlp (a_value_body text value a) n (vput a n).
Proof.
  intros L T PN. unfold a_value_body. run. rewrite Nat.add_0_r. unfold EOF in *.
  assert (FL : forall d o e, puts (as_inline a) (as_parent_indent a) n d o None e -> (e <= len)%nat -> forall t, see t = d -> wtree t = o -> tpre t = as_prefix a -> vput a n (t, None) e).
  { intros d o e M LE t S O TP. split; [exact LE|]. left. cbn [fst snd]. rewrite S, O. auto. }
  destruct (_ && _) eqn:C0.
  { apply andb_prop in C0 as [C9 C3]. apply andb_prop in C9 as [C1 C2]. apply N.eqb_eq in C1. apply negb_true_iff in C3. apply is_ws_white in C2. rewrite Nat.add_1_r in C2.
    unfold a_sequence. run. rewrite column_indent by lia. pose proof (at_lt _ _ _ C1 ltac:(discriminate)). eapply wlp_bind; [now apply s_seq_loop|].
    intros [its w] n' (L2 & ds & o & D & F & O). apply wlp_ret. split; [exact L2|]. rewrite C3. left. cbn [fst snd tpre]. split; [|reflexivity]. rewrite see_seq, wtree_seq, D, O. change (lossy []) with (@nil byte). cbn [app sout map sep sdata]. now apply pu_seq. }
  assert (NS : as_inline a = false -> ~ (at_ n = DASH /\ white (at_ (S n)))).
  { intros AI [E W]. rewrite AI, E in C0. replace (n + 1)%nat with (S n) in C0 by lia. apply is_ws_white in W. rewrite W in C0. discriminate. }
  destruct (N.eqb_spec (at_ n) DQUOTE) as [C1|C1].
  { run. eapply wlp_bind; [now apply double_printed|]. intros x n1 (Q & X). pose proof (quote_le _ _ _ _ Q) as QL. assert (WX : wstr x = part n n1) by (rewrite X; reflexivity). run. rewrite Nat.add_0_r. destruct (negb (as_inline a) && _) eqn:C.
    - apply andb_prop in C as [C3 C4]. apply negb_true_iff in C3. apply N.eqb_eq in C4. apply (s_mapping_or_nul _ _ _ _ (rs_id x)); auto; [lia|]. intros _. now apply ka_quoted.
    - apply wlp_ret. eapply FL; [|lia|reflexivity|exact WX|reflexivity]. apply pu_quote; [exact Q|]. apply andb_false_elim in C as [C|C]; [apply negb_false_iff in C; auto|right; now apply N.eqb_neq]. }
  destruct (N.eqb_spec (at_ n) SQUOTE) as [C2|C2].
  { run. eapply wlp_bind; [now apply single_printed|]. intros x n1 (Q & X). pose proof (quote_le _ _ _ _ Q) as QL. assert (WX : wstr x = part n n1) by (rewrite X; reflexivity). run. rewrite Nat.add_0_r. destruct (negb (as_inline a) && _) eqn:C.
    - apply andb_prop in C as [C3 C4]. apply negb_true_iff in C3. apply N.eqb_eq in C4. apply (s_mapping_or_nul _ _ _ _ (rs_id x)); auto; [lia|]. intros _. now apply ka_quoted.
    - apply wlp_ret. eapply FL; [|lia|reflexivity|exact WX|reflexivity]. apply pu_quote; [exact Q|]. apply andb_false_elim in C as [C|C]; [apply negb_false_iff in C; auto|right; now apply N.eqb_neq]. }
  destruct (N.eqb_spec (at_ n) LBRACK) as [C3|C3].
  { eapply wlp_bind; [now apply (s_inline_sequence a (as_inline a) (as_parent_indent a))|]. intros t n1 (L1 & M & TP). apply wlp_ret. now apply (FL (see t) (wtree t)). }
  destruct (N.eqb_spec (at_ n) LBRACE) as [C4|C4].
  { eapply wlp_bind; [now apply (s_inline_mapping a (as_inline a) (as_parent_indent a))|]. intros t n1 (L1 & M & TP). apply wlp_ret. now apply (FL (see t) (wtree t)). }
  destruct (_ || _) eqn:C5.
  { assert (A : at_ n = GT \/ at_ n = PIPE) by (apply orb_prop in C5 as [C5|C5]; apply N.eqb_eq in C5; auto).
    destruct (block_printed n A) as (s & j & m & p & o & q & B & G & PO & JL & R). unfold a_block_at in R. cbv zeta in R. eapply wlp_eval; [exact R|]. apply wlp_ret. pose proof (gap_le _ _ _ G).
    split; [lia|]. left. cbn [fst snd see rs_id wtree wscalar wstr rs_kind rs_orig tpre]. rewrite PO. split; [|reflexivity]. now apply (pu_block _ _ _ _ s q j). }
  run.
  assert (NW : ~ no_word text (as_inline a) n).
  { apply orb_false_elim in C5 as [C5 C6]. apply N.eqb_neq in C5, C6. intros [I|(AI & E & W)]; [|now apply NS].
    cbn in I. unfold DQUOTE, SQUOTE, LBRACK, LBRACE, GT, PIPE in *. intuition congruence. }
  assert (PL : forall e d, word_to text (as_inline a) n e -> (forall h j, ~ number_at text (as_inline a) n h j) -> plain_datum (part n e) d ->
    see (TLeaf tt (as_prefix a) (a_plain (part n e))) = d).
  { intros e d W N D. change (see (TLeaf tt (@nil byte) (a_plain (part n e))) = d). apply a_plain_see; [exact D|]. intros h U. apply (N h e). now apply word_number. }
  rewrite T. destruct (number_cases text (as_inline a) n L) as [(h & j & N)|NN].
  { eapply wlp_eval; [apply number_eval, N|]. cbv beta iota. apply wlp_ret. pose proof (number_le _ _ _ _ _ N). eapply FL; [apply pu_number, N|lia|reflexivity|reflexivity|reflexivity]. }
  destruct (number_none text (as_inline a) n L NN) as (m & LM & E & NC). eapply wlp_eval; [exact E|]. cbv beta iota. destruct (as_inline a) eqn:AI.
  - run. destruct (ctl_scan_at text m ltac:(lia)) as (HL & _ & _). rewrite Nat.min_l by lia. apply wlp_ret.
    assert (W : word_to text true n (m + ctl_scan (skipn m text))) by (apply word_flow; [lia|]; intros k K; now apply NC).
    destruct (plain_total (part n (m + ctl_scan (skipn m text)))) as (d & D). eapply FL; [|lia|apply PL; eauto|apply wscalar_plain|reflexivity]. now apply pu_word.
  - destruct (key_or_eol_at text n m ltac:(lia) ltac:(intros k K; destruct (NC k K) as (? & ? & _); auto)) as [(k & F & R)|(j & W & R)].
    + eapply wlp_eval; [exact R|]. cbv beta iota. destruct F as (F1 & F2 & F3 & F4 & F5). apply (s_mapping_or_nul _ _ _ _ (part n k)); auto; [lia|].
      intros _. now apply ka_plain.
    + eapply wlp_eval; [exact R|]. cbv beta iota. run. apply wlp_ret. destruct (plain_total (part n j)) as (d & D).
      eapply FL; [|destruct W as ((W & _) & _); lia|apply PL; eauto|apply wscalar_plain|reflexivity]. now apply pu_word.
Qed.
End Value.
Lemma s_value f : forall a n, (n <= len)%nat -> as_tabular a = negb (as_inline a) -> (as_inline a = true -> as_parent_indent a = None) -> wlp (a_value text f a) n (vput a n).
Proof. induction f as [|f IH]; intros a n L T P; [exact Logic.I|]. cbn [a_value]. now apply s_value_body. Qed.
Lemma s_sod_loop f : forall p n, (n <= len)%nat -> wlp (a_sod_loop text f p) n (fun p' n' => (n' <= len)%nat /\ puts_header text p n p' n').
Proof.
  induction f as [|f IH]; intros p n L; [exact Logic.I|]. cbn [a_sod_loop]. run. rewrite Nat.add_0_r. destruct (N.eqb_spec (nth n text EOF) PERCENT) as [E|E].
  - destruct (line_find text n L) as (k & K & R). eapply wlp_eval; [exact R|]. pose proof (proj1 K). destruct (gap_ex text k ltac:(lia)) as (m & G).
    eapply wlp_eval; [apply gap_ws; eassumption|]. pose proof (gap_le _ _ _ G). eapply wlp_mono; [apply IH; lia|]. cbv beta. intros p' n' (L' & H'). split; [exact L'|]. eapply ph_directive; eauto.
  - replace (n + 1)%nat with (1 + n)%nat by lia. replace (n + 2)%nat with (2 + n)%nat by lia. destruct (_ && _) eqn:C.
    + apply andb_prop in C as [C C3]. apply andb_prop in C as [C1 C2]. apply N.eqb_eq in C1, C2, C3. pose proof (at_lt _ _ _ C3 ltac:(discriminate)).
      run. rewrite Nat.min_l by lia. destruct (gap_ex text (3 + n) ltac:(lia)) as (m & G). replace (n + 3)%nat with (3 + n)%nat by lia. unfold wlp. rewrite (gap_ws _ _ _ G). pose proof (gap_le _ _ _ G).
      split; [lia|]. now apply ph_marker.
    + apply wlp_ret. split; [exact L|]. apply ph_none; [exact E|]. intros (C1 & C2 & C3). unfold EOF in C. rewrite C1, C2, C3 in C. discriminate.
Qed.
Theorem printed_sound t suffix : a_parse text = Ok (t, suffix) -> printed text (see t) (wdoc t suffix).
Proof.
  intros H. unfold a_parse in H. assert (W : wlp (a_parse_m text) 0 (fun r _ => printed text (see (fst r)) (wdoc (fst r) (snd r)))).
  { unfold a_parse_m, a_start_of_document. apply wlp_bind_assoc.
    destruct (gap_ex text 0 ltac:(lia)) as (n & G). eapply wlp_eval; [apply gap_ws; eassumption|]. pose proof (gap_le _ _ _ G).
    eapply wlp_bind; [apply s_sod_loop; lia|]. cbv beta. intros p1 n1 (L1 & HD).
    eapply wlp_bind; [apply s_value; [exact L1|reflexivity|discriminate]|]. intros [t' w] n2 (L2 & V). cbn [as_inline as_parent_indent as_prefix fst snd] in V.
    destruct V as [(M & TP)|(o & s & k & _ & E & _)]; [|discriminate].
    destruct (after_ex w n2 L2) as (p & n3 & A & L3). eapply wlp_eval; [apply after_eval; exact A|]. run. destruct (Nat.eqb_spec n3 len) as [E|E]; cbn [negb]; run; [|apply wlp_err]. apply wlp_ret. subst n3.
    cbn [fst snd]. unfold wdoc. rewrite TP. eapply printed_as; eauto. }
  unfold wlp in W. destruct (a_parse_m text O) as [[[t' s'] n]|? ? ?| | |]; try discriminate.
  injection H as -> ->. exact W.
Qed.
End Sound.
