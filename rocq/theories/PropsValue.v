(* Properties of the values written and read: C03, C10, C11, C28, C33, C37. *)
From Coq Require Import String.
From Coq Require Import List NArith ZArith Bool Arith Lia Permutation.
From Verif Require Import Bytes Utf8 Data Slab Parser Render Tree Abs Refine Utf8Props AbsNice RenderProps Num Api Ctx Edit Built
  Serde Tests PropsParse PropsEdit PropsColl.
Import ListNotations.

(* ---- decimal numerals ---- *)
(* A non-empty string of digits denotes a number. *)
Inductive denotes : bytes -> N -> Prop :=
| den_one c : (48 <= c <= 57)%N -> denotes [c] (c - 48)
| den_more s n c : denotes s n -> (48 <= c <= 57)%N -> denotes (s ++ [c]) (10 * n + (c - 48)).
Lemma is_digit_iff c : is_digit c = true <-> (48 <= c <= 57)%N.
Proof. unfold is_digit. rewrite andb_true_iff, !N.leb_le. reflexivity. Qed.
Lemma digits_value_app s : forall a r, digits_value a (s ++ r) =
  match digits_value a s with Some n => digits_value n r | None => None end.
Proof. induction s as [|c s IH]; intros a r; cbn; [reflexivity|]. destruct (is_digit c); [apply IH|reflexivity]. Qed.
Lemma digits_value_denotes s n : denotes s n <-> s <> [] /\ digits_value 0 s = Some n.
Proof.
  split.
  - induction 1 as [c H|s n c D [NE IH] H].
    + split; [discriminate|]. cbn. apply is_digit_iff in H as ->. reflexivity.
    + split; [now destruct s|]. rewrite digits_value_app, IH. cbn [digits_value]. apply is_digit_iff in H as ->. now rewrite (N.mul_comm n 10).
  - revert n. induction s as [|c s IH] using rev_ind; intros n [NE E]; [congruence|].
    rewrite digits_value_app in E. destruct (digits_value 0 s) as [m|] eqn:E1; [|discriminate]. cbn [digits_value] in E.
    destruct (is_digit c) eqn:EC; [|discriminate]. injection E as <-. apply is_digit_iff in EC.
    destruct s as [|a s].
    + cbn in E1. injection E1 as <-. cbn [app]. replace (0 * 10 + (c - 48))%N with (c - 48)%N by lia. now constructor.
    + replace (m * 10 + (c - 48))%N with (10 * m + (c - 48))%N by lia. constructor; [|exact EC]. apply IH. split; [discriminate|reflexivity].
Qed.
(* The decimal numeral of z: an optional minus sign and digits, the first of which is 0 only for 0. *)
Definition canonical (s : bytes) (n : N) : Prop := denotes s n /\ (s = [48%N] \/ exists c r, s = c :: r /\ c <> 48%N).
Definition decimal (s : bytes) (z : Z) : Prop :=
  (0 <= z)%Z /\ canonical s (Z.to_N z) \/ (z < 0)%Z /\ exists r, s = DASH :: r /\ canonical r (Z.to_N (- z)).
Lemma digits_spec f : forall n acc, (n < 2 ^ N.of_nat f)%N ->
  exists s, digits_f f n acc = s ++ acc /\ (f = 0 \/ canonical s n).
Proof.
  induction f as [|f IH]; intros n acc L; cbn [digits_f]; [exists []; auto|].
  destruct (n <? 10)%N eqn:E.
  - apply N.ltb_lt in E. exists [(48 + n mod 10)%N]. split; [reflexivity|]. right. rewrite N.mod_small by lia. split.
    + replace n with (48 + n - 48)%N at 2 by lia. constructor. lia.
    + destruct (N.eq_dec n 0) as [->|NZ]; [now left|]. right. exists (48 + n)%N, []. split; [reflexivity|lia].
  - apply N.ltb_ge in E. assert (L2 : (n / 10 < 2 ^ N.of_nat f)%N).
    { apply N.div_lt_upper_bound; [lia|]. rewrite Nat2N.inj_succ, N.pow_succ_r' in L. lia. }
    destruct (IH (n / 10)%N ((48 + n mod 10)%N :: acc) L2) as (s & -> & H).
    exists (s ++ [(48 + n mod 10)%N]). split; [now rewrite <- app_assoc|]. right.
    assert (D : (n / 10 <> 0)%N). { intros D. apply N.div_small_iff in D; lia. }
    pose proof (N.div_mod' n 10) as DM. pose proof (N.mod_lt n 10 ltac:(lia)) as ML.
    destruct H as [->|[H1 H2]].
    { exfalso. cbn in L2. lia. }
    split.
    + enough (Q : denotes (s ++ [(48 + n mod 10)%N]) (10 * (n / 10) + (48 + n mod 10 - 48))).
      { replace (10 * (n / 10) + (48 + n mod 10 - 48))%N with n in Q; [exact Q|]. revert DM. generalize (n / 10)%N (n mod 10)%N. intros; lia. }
      constructor; [exact H1|]. revert ML. generalize (n mod 10)%N. intros; lia.
    + right. destruct H2 as [->|(c & r & -> & H2)].
      * exfalso. apply digits_value_denotes in H1 as [_ H1]. cbn in H1. injection H1 as H1. lia.
      * exists c, (r ++ [(48 + n mod 10)%N]). auto.
Qed.
Lemma digits_canonical n : canonical (digits n) n.
Proof.
  unfold digits. destruct (digits_spec (S (N.to_nat (N.log2 n))) n []) as (s & -> & [E|H]).
  - rewrite Nat2N.inj_succ, N2Nat.id. destruct (N.eq_dec n 0) as [->|NZ]; [reflexivity|]. apply N.log2_spec. lia.
  - discriminate.
  - now rewrite app_nil_r.
Qed.
Lemma itoa_decimal z : decimal (itoa z) z.
Proof.
  unfold itoa. destruct (z <? 0)%Z eqn:E.
  - apply Z.ltb_lt in E. right. split; [exact E|]. eexists. split; [reflexivity|]. apply digits_canonical.
  - apply Z.ltb_ge in E. left. split; [exact E|]. apply digits_canonical.
Qed.

(* ---- C28 ---- *)
(* The text s is read as z by a type that is signed or not. *)
Inductive reads_as (signed : bool) : bytes -> Z -> Prop :=
| ra_plain s n : denotes s n -> reads_as signed s (Z.of_N n)
| ra_plus s n : denotes s n -> reads_as signed (PLUS :: s) (Z.of_N n)
| ra_minus s n : signed = true -> denotes s n -> reads_as signed (DASH :: s) (- Z.of_N n).
(* the ranges of the integer types *)
Definition signed_type (t : hint) : option (bool * Z) :=
  match t with
  | Unsigned8 => Some (false, 8) | Unsigned16 => Some (false, 16) | Unsigned32 => Some (false, 32)
  | Unsigned64 => Some (false, 64) | Unsigned128 => Some (false, 128)
  | Signed8 => Some (true, 8) | Signed16 => Some (true, 16) | Signed32 => Some (true, 32)
  | Signed64 => Some (true, 64) | Signed128 => Some (true, 128)
  | Float32 | Float64 => None
  end%Z.
Definition fits (t : hint) (z : Z) : Prop :=
  match signed_type t with
  | Some (false, w) => (0 <= z < 2 ^ w)%Z
  | Some (true, w) => (- 2 ^ (w - 1) <= z < 2 ^ (w - 1))%Z
  | None => False
  end.
Definition fitsb (t : hint) (z : Z) : bool :=
  match int_range t with Some (lo, hi) => (lo <=? z)%Z && (z <=? hi)%Z | None => false end.
Lemma fitsb_iff t z : fitsb t z = true <-> fits t z.
Proof.
  unfold fitsb, fits, int_range, signed_type.
  destruct t; try (split; [discriminate|intros []]); rewrite andb_true_iff, !Z.leb_le; lia.
Qed.
Definition is_signed (t : hint) : bool := match signed_type t with Some (s, _) => s | None => false end.
Lemma denotes_head s n : denotes s n -> exists c r, s = c :: r /\ (48 <= c <= 57)%N.
Proof.
  induction 1 as [c H|s n c D (a & r & -> & H') H]; [eauto|]. exists a, (r ++ [c]). auto.
Qed.
Lemma parse_int_iff lo hi s z : parse_int lo hi s = Some z <-> reads_as (lo <? 0)%Z s z /\ (lo <= z <= hi)%Z.
Proof.
  unfold parse_int.
  set (p := match s with [] => (false, s) | c :: r => _ end).
  assert (K : forall neg ds, p = (neg, ds) ->
    (reads_as (lo <? 0)%Z s z <-> exists n, denotes ds n /\ z = if neg then (- Z.of_N n)%Z else Z.of_N n)).
  { intros neg ds E. subst p. destruct s as [|c r].
    - injection E as <- <-. split; [intros H; inversion H; subst; eauto|intros (n & H & ->); now constructor].
    - destruct ((c =? DASH)%N && (lo <? 0)%Z) eqn:E1.
      + injection E as <- <-. apply andb_prop in E1 as [E1 E2]. apply N.eqb_eq in E1 as ->. rewrite E2. split.
        * intros H. inversion H; subst; eauto. destruct (denotes_head _ _ H0) as (c & r' & EE & HH). injection EE as <- _. unfold DASH in HH. lia.
        * intros (n & H & ->). now constructor.
      + destruct (c =? PLUS)%N eqn:E2; injection E as <- <-.
        * apply N.eqb_eq in E2 as ->. split.
          { intros H. inversion H; subst; eauto. destruct (denotes_head _ _ H0) as (c & r' & EE & HH). injection EE as <- _. unfold PLUS in HH. lia. }
          { intros (n & H & ->). now constructor. }
        * split.
          { intros H. inversion H; subst; eauto; exfalso; [now rewrite N.eqb_refl in E2|]. rewrite N.eqb_refl in E1. cbn in E1. congruence. }
          { intros (n & H & ->). now constructor. } }
  destruct p as [neg ds] eqn:EP. specialize (K _ _ eq_refl). rewrite K. destruct ds as [|c ds].
  - split; [discriminate|]. intros [(n & H & _) _]. apply denotes_head in H as (? & ? & ? & _). discriminate.
  - destruct (digits_value 0 (c :: ds)) as [v|] eqn:EV.
    + assert (DV : denotes (c :: ds) v) by (apply digits_value_denotes; split; [discriminate|exact EV]).
      set (y := if neg then _ else _). destruct ((lo <=? y)%Z && (y <=? hi)%Z) eqn:EB.
      * apply andb_prop in EB as [B1 B2]. apply Z.leb_le in B1, B2. split.
        { intros E. injection E as <-. split; [|lia]. exists v. auto. }
        { intros [(n & H & ->) _]. apply digits_value_denotes in H as [_ H]. rewrite EV in H. now injection H as <-. }
      * split; [discriminate|]. intros [(n & H & ->) R]. apply digits_value_denotes in H as [_ H]. rewrite EV in H. injection H as <-.
        fold y in R. apply andb_false_iff in EB as [B|B]; apply Z.leb_gt in B; lia.
    + split; [discriminate|]. intros [(n & H & _) _]. apply digits_value_denotes in H as [_ H]. rewrite EV in H. discriminate.
Qed.
Theorem C28_integers : forall d t id s h z,
  as_number d id = Ok (Some (s, h)) ->
  (as_int d t id = Ok (Some z) <-> reads_as (is_signed t) s z /\ fits t z).
Proof.
  intros d t id s h z A. unfold as_number, as_int in *.
  destruct (get_raw d id) as [[[| |x hh|]| | | |]|? ? ?| | |]; try discriminate.
  destruct (str d x) as [y|? ? ?| | |]; try discriminate. injection A as -> ->.
  destruct (int_range t) as [[lo hi]|] eqn:R.
  - assert (H : (lo <? 0)%Z = is_signed t /\ ((lo <= z <= hi)%Z <-> fits t z)).
    { rewrite <- fitsb_iff. unfold fitsb. rewrite R, andb_true_iff, !Z.leb_le.
      split; [|reflexivity]. destruct t; cbn in R; try discriminate; injection R as <- <-; reflexivity. }
    destruct H as [<- <-]. rewrite <- parse_int_iff. split; [intros E; now injection E|intros ->; reflexivity].
  - split; [discriminate|]. intros [_ F]. destruct t; cbn in R; try discriminate; destruct F.
Qed.
(* On a number the accessors return, and on other values they return None. *)
Theorem C28_total : forall hash doc id t, built hash doc -> value_of doc id ->
  exists o, as_int (doc_data doc) t id = Ok o /\ (as_number (doc_data doc) id = Ok None -> o = None).
Proof.
  intros hash doc id t B V. destruct (C06_readable hash doc B) as (_ & _ & R). destruct (R id V) as (_ & _ & _ & _ & R5 & _).
  destruct (R5 t) as [o E]. exists o. split; [exact E|]. intros A. unfold as_number, as_int in *.
  destruct (get_raw (doc_data doc) id) as [[[| |x hh|]| | | |]|? ? ?| | |]; try discriminate; try congruence.
  destruct (str (doc_data doc) x) as [y|? ? ?| | |]; discriminate.
Qed.
Print Assumptions C28_integers.
Print Assumptions C28_total.
Example C28_case : exists d id, as_number d id = Ok (Some (b "-128", Signed64)) /\
  as_int d Signed8 id = Ok (Some (-128)%Z) /\ as_int d Unsigned8 id = Ok None /\
  reads_as true (b "-128") (-128) /\ ~ reads_as false (b "-128") (-128).
Proof.
  exists (doc_data (got (load (b "-128")))), (doc_root (got (load (b "-128")))).
  split; [vm_compute; reflexivity|]. split; [vm_compute; reflexivity|]. split; [vm_compute; reflexivity|]. split.
  - apply (ra_minus true (b "128") 128); [reflexivity|]. apply digits_value_denotes. split; [discriminate|reflexivity].
  - intros H. inversion H as [s n D| |]; try discriminate. subst. apply denotes_head in D as (c & r & E & L). vm_compute in E. injection E as <- <-. lia.
Qed.

(* ---- C11 ---- *)
(* The value a call writes to: the one a handle is given on, or the one it is called on. *)
Definition target (id : nat) (r : edit_result) : nat := match r with Handle h => h | _ => id end.
Definition writes (e : edit) : bool :=
  match e with
  | MakeMapping | MakeSequence | RemoveKey _ | ClearMapping | RemoveIndex _ | ClearSequence => false
  | _ => true
  end.
Lemma written_leaf c v e r v' sc : effect c v e r v' -> writes e = true -> r <> NotApplicable -> ascalar v e = Some sc ->
  exists p, sub v' (TLeaf (target (tid v) r) p sc).
Proof.
  intros F W NA A. destruct F as [e sc' A' _ _| |n p _ _| |n p _ _|e sc' key0 s h v' A' K F|key0 x v' F|i p n k items EV
    |e sc' s h v' A' P F|x y v' F|i p n k items EV|e FM P|e FS P]; try discriminate; try congruence; rewrite A in A'; injection A' as <-; cbn [target].
  - eexists. constructor.
  - destruct F as [i p n k l ii ip kk v r EK FL|i p n k items ii vi FL]; eexists; (eapply sub_map; [constructor|]);
      apply in_or_app; right; left; reflexivity.
  - destruct F as [i p n k items ii vi]; eexists; (eapply sub_seq; [constructor|]); apply in_or_app; right; left; reflexivity.
Qed.
Lemma ascalar_writes {I} (v : tree I) e : writes e = true -> exists sc, ascalar v e = Some sc.
Proof. destruct e; cbn; intros H; try discriminate; eauto. Qed.
(* What is written, as as_any shows it. *)
Definition block_text (parts : list bytes) (k : block_kind) : bytes :=
  let '(sep, chomp) := match k with Literal c => ([NEWLINE], c) | Folded c => ([SPACE], c) end in
  join sep parts ++ match chomp with Strip => [] | _ => [NEWLINE] end.
Definition content (e : edit) (a : any) : Prop :=
  match e with
  | SetNull _ | Insert _ _ | Push _ => a = ANull
  | SetString s | SetStringWith s _ | InsertStr _ s | PushString s => a = AString s
  | SetBlock ps k | InsertBlock _ ps k | PushBlock ps k => a = AString (block_text ps k)
  | SetBool x | InsertBool _ x | PushBool x => a = ABool x
  | SetInt h z | InsertInt _ h z | PushInt h z => exists s, a = ANumber s h /\ decimal s z
  | SetFloat h t | InsertFloat _ h t | PushFloat h t => a = ANumber t h
  | _ => False
  end.
(* The accessors of a value that as_any shows as a. *)
Definition accessors (d : data) (id : nat) (a : any) : Prop :=
  as_any d id = Ok a /\
  as_bstr d id = Ok (match a with AString s => Some s | _ => None end) /\
  as_str d id = Ok (match a with AString s => if utf8 s then Some s else None | _ => None end) /\
  as_bool d id = Ok (match a with ABool x => Some x | _ => None end) /\
  as_number d id = Ok (match a with ANumber s h => Some (s, h) | _ => None end) /\
  as_mapping d id = Ok (match a with AMapping m => Some m | _ => None end) /\
  as_sequence d id = Ok (match a with ASequence m => Some m | _ => None end).
Lemma any_accessors d id a : as_any d id = Ok a -> (forall x, a <> ARaw x) -> accessors d id a.
Proof.
  intros E NR. split; [exact E|]. unfold as_any, as_str, as_bstr, as_bool, as_number, as_mapping, as_sequence in *.
  destruct (get_raw d id) as [[[|v s|s h|r]| | | |]|? ? ?| | |]; try discriminate.
  - injection E as <-. repeat split.
  - injection E as <-. repeat split.
  - destruct (str d s); try discriminate. injection E as <-. repeat split.
  - destruct (str d (rs_id r)); try discriminate. injection E as <-. repeat split.
  - injection E as <-. repeat split.
  - injection E as <-. now elim (NR id).
  - injection E as <-. repeat split.
  - injection E as <-. now elim (NR id).
Qed.
Lemma content_join c parts : block_content c parts = join [c] parts.
Proof. induction parts as [|p [|q ps] IH]; [reflexivity|reflexivity|]. cbn [block_content join] in *. now rewrite IH. Qed.
Lemma scalar_content {I} (v : tree I) e sc i p : ascalar v e = Some sc -> content e (tany (TLeaf i p sc)).
Proof.
  assert (BL : forall n q ps k, tany (TLeaf i p (ablock_at n q ps k)) = AString (block_text ps k)).
  { intros n q ps k. unfold ablock_at, block_text. destruct k as [ch|ch]; cbn; rewrite content_join; reflexivity. }
  assert (BL2 : forall ps k, tany (TLeaf i p (ablock v ps k)) = AString (block_text ps k)).
  { intros ps k. destruct v; apply BL. }
  destruct e; cbn [ascalar content]; intros E; try discriminate; injection E as <-; try reflexivity; try apply BL2;
    (eexists; split; [reflexivity|apply itoa_decimal]).
Qed.
Theorem C11_written : forall hash doc id e r d',
  built hash doc -> value_of doc id -> writes e = true ->
  run hash id e (doc_data doc) = Ok (r, d') -> r <> NotApplicable -> no_collision hash d' ->
  exists a, accessors d' (target id r) a /\ content e a.
Proof.
  intros hash doc id e r d' B V W E NA N.
  destruct (edit_setup _ _ _ _ _ _ _ _ B V E N) as (c & v & v' & suf & ST).
  destruct (ascalar_writes v e W) as [sc A].
  destruct (written_leaf _ _ _ _ _ _ (st_eff ST) W NA A) as [p S]. rewrite (st_id ST) in S.
  exists (tany (TLeaf (target id r) p sc)). split.
  - apply any_accessors.
    + assert (MB := st_m' ST). destruct MB as (MB & _). cbn [edited doc_data] in MB.
      refine (node_any hash _ _ _ MB (st_int' ST) (TLeaf (target id r) p sc) _). eapply sub_trans; [apply sub_plug|exact S].
    + intros x. now destruct sc as [| | |].
  - eapply scalar_content; eauto.
Qed.
(* The calls on a mapping or a sequence are refused exactly on other values. *)
Theorem C11_applicable : forall hash doc id e r d',
  built hash doc -> value_of doc id -> writes e = true ->
  run hash id e (doc_data doc) = Ok (r, d') -> no_collision hash d' ->
  (r = NotApplicable <->
   inserts e <> None /\ as_mapping (doc_data doc) id = Ok None \/ pushes e = true /\ as_sequence (doc_data doc) id = Ok None).
Proof.
  intros hash doc id e r d' B V W E N.
  destruct (edit_setup _ _ _ _ _ _ _ _ B V E N) as (c & v & v' & suf & ST).
  assert (MA := st_m ST). destruct MA as (MA & _). pose proof (sub_raw hash _ _ _ MA v (sub_plug c v)) as R. rewrite (st_id ST) in R.
  unfold as_mapping, as_sequence. rewrite R.
  assert (K1 : inserts e <> None -> psep e = None /\ ikey e <> None) by (destruct e; cbn; intros H; split; congruence).
  assert (K2 : pushes e = true -> psep e <> None /\ ikey e = None) by (destruct e; cbn; intros H; split; congruence).
  assert (K3 : ikey e <> None -> inserts e <> None) by (destruct e; cbn; intros H; congruence).
  assert (K4 : psep e <> None -> pushes e = true) by (destruct e; cbn; intros H; congruence).
  assert (KM : is_map v = false <-> match traw hash v with RMap _ _ _ => Ok (Some id) | _ => Ok None end = Ok None)
    by (clear; destruct v; cbn; split; congruence).
  assert (KS : is_seq v = false <-> match traw hash v with RSeq _ _ _ => Ok (Some id) | _ => Ok None end = Ok None)
    by (clear; destruct v; cbn; split; congruence).
  rewrite <- KM, <- KS. clear KM KS R.
  split.
  - intros ->. pose proof (st_eff ST) as F. inversion F as [| | | | | | | | | | |e' FM P|e' FS P]; subst.
    + left. split; [|exact FM]. destruct P as [P|[->|[? ->]]]; [auto|discriminate..].
    + right. split; [|exact FS]. destruct P as [P|[->|[? ->]]]; [auto|discriminate..].
  - intros H. pose proof (st_eff ST) as F.
    destruct H as [[H1 H2]|[H1 H2]]; [destruct (K1 H1) as [Q1 Q2]|destruct (K2 H1) as [Q1 Q2]];
      (inversion F as [e' sc A Q3 Q4|Q3|n' p' Q3 Q4|Q3|n' p' Q3 Q4|e' sc k s h v1 A Q3 Q4|k x v1 Q3|i p n k items Q3
        |e' sc s h v1 A Q3 Q4|x y v1 Q3|i p n k items Q3|e' Q3 Q4|e' Q3 Q4]; subst; try congruence; try discriminate);
      destruct Q4; discriminate.
Qed.
Print Assumptions C11_written.
Print Assumptions C11_applicable.
Example C11_case :
  let e := PushBlock [b "one"; b "two"] (Folded Strip) in
  exists a, accessors (after [K (b "list")] e) (handle [K (b "list")] e) a /\ a = AString (b "one two").
Proof.
  intros e. destruct (C11_written idhash world (id_of [K (b "list")]) e (Handle (handle [K (b "list")] e)) (after [K (b "list")] e)
    world_built list_value eq_refl) as (a & A & C).
  - vm_compute. reflexivity.
  - discriminate.
  - apply id_no_collision.
  - exists a. split; [exact A|]. rewrite C. reflexivity.
Qed.

(* ---- C10 ---- *)
Definition writes_int (e : edit) : option Z :=
  match e with SetInt _ z | InsertInt _ _ z | PushInt _ z => Some z | _ => None end.
Lemma decimal_reads s z signed : decimal s z -> (forall y, reads_as signed s y -> y = z) /\
  ((0 <= z)%Z \/ signed = true -> reads_as signed s z).
Proof.
  assert (DET : forall s n m, denotes s n -> denotes s m -> n = m).
  { intros t n m H1 H2. apply digits_value_denotes in H1 as [_ H1], H2 as [_ H2]. congruence. }
  intros [(P & D & _)|(P & r & -> & D & _)].
  - split.
    + intros y H. inversion H; subst.
      * rewrite (DET _ _ _ H0 D). lia.
      * exfalso. apply denotes_head in D as (c & q & E & L). injection E as <- _. unfold PLUS in L. lia.
      * exfalso. apply denotes_head in D as (c & q & E & L). injection E as <- _. unfold DASH in L. lia.
    + intros _. replace z with (Z.of_N (Z.to_N z)) by lia. now constructor.
  - split.
    + intros y H. inversion H; subst.
      * exfalso. apply denotes_head in H0 as (c & q & E & L). injection E as <- _. unfold DASH in L. lia.
      * rewrite (DET _ _ _ H2 D). lia.
    + intros [H|H]; [lia|]. replace z with (- Z.of_N (Z.to_N (- z)))%Z by lia. constructor; [exact H|exact D].
Qed.
Theorem C10_integers : forall hash doc id e r d' z,
  built hash doc -> value_of doc id -> writes_int e = Some z ->
  run hash id e (doc_data doc) = Ok (r, d') -> r <> NotApplicable -> no_collision hash d' ->
  (forall t, fits t z -> as_int d' t (target id r) = Ok (Some z)) /\
  (forall t, ~ fits t z -> as_int d' t (target id r) = Ok None) /\
  exists s, value_write_to d' (target id r) = Ok s /\ decimal s z.
Proof.
  intros hash doc id e r d' z B V W E NA N.
  assert (WE : writes e = true) by (destruct e; try discriminate; reflexivity).
  destruct (edit_setup _ _ _ _ _ _ _ _ B V E N) as (c & v & v' & suf & ST).
  assert (A : exists h, ascalar v e = Some (ScNum (itoa z) h)) by (destruct e; try discriminate; cbn in *; injection W as ->; eauto).
  destruct A as [h A].
  destruct (written_leaf _ _ _ _ _ _ (st_eff ST) WE NA A) as [p S]. rewrite (st_id ST) in S.
  assert (MB := st_m' ST). destruct MB as (MB & _). cbn [edited doc_data] in MB.
  assert (SP : sub (plug c v') (TLeaf (target id r) p (ScNum (itoa z) h))) by (eapply sub_trans; [apply sub_plug|exact S]).
  assert (AN : as_any d' (target id r) = Ok (ANumber (itoa z) h)) by exact (node_any hash _ _ _ MB (st_int' ST) _ SP).
  destruct (any_accessors _ _ _ AN) as (_ & _ & _ & _ & NUM & _); [discriminate|].
  pose proof (itoa_decimal z) as D. 
  assert (FZ : forall t, fits t z -> (0 <= z)%Z \/ is_signed t = true).
  { intros t. unfold fits, is_signed. destruct (signed_type t) as [[[] w]|]; [auto|lia|intros []]. }
  split; [|split].
  - intros t F. apply (C28_integers d' t _ _ _ z NUM). split; [|exact F]. apply (decimal_reads _ _ _ D). auto.
  - intros t F. assert (B' : built hash (edited doc d')) by (eapply built_edit; eauto; exact Logic.I).
    destruct (C28_total hash (edited doc d') (target id r) t B') as ([y|] & EY & _).
    + change (value_of (edited doc d') (tid (TLeaf (target id r) p (ScNum (itoa z) h)))). eapply sub_value; [exact (st_m' ST)|exact SP].
    + exfalso. cbn [edited doc_data] in EY. apply (C28_integers d' t _ _ _ y NUM) in EY as [RY FY].
      apply (decimal_reads _ _ _ D) in RY. subst y. contradiction.
    + exact EY.
  - exists (itoa z). split; [|exact D]. exact (st_vw' ST _ SP).
Qed.
Print Assumptions C10_integers.
Example C10_case :
  let e := InsertInt (b "k") Signed16 (-300) in
  as_int (after [] e) Signed16 (handle [] e) = Ok (Some (-300)%Z) /\ as_int (after [] e) Signed8 (handle [] e) = Ok None /\
  as_int (after [] e) Unsigned64 (handle [] e) = Ok None.
Proof.
  intros e. destruct (C10_integers idhash world (id_of []) e (Handle (handle [] e)) (after [] e) (-300)%Z world_built root_value eq_refl) as (H1 & H2 & _).
  - vm_compute. reflexivity.
  - discriminate.
  - apply id_no_collision.
  - split; [apply H1|split; apply H2]; unfold fits; cbn; lia.
Qed.

(* ---- C37 ---- *)
(* Text with its single quotes doubled. *)
Inductive doubled : bytes -> bytes -> Prop :=
| do_nil : doubled [] []
| do_quote s y : doubled s y -> doubled (SQUOTE :: s) (SQUOTE :: SQUOTE :: y)
| do_byte c s y : c <> SQUOTE -> doubled s y -> doubled (c :: s) (c :: y).
Definition single_quoted (s t : bytes) : Prop := exists y, t = b "'" ++ y ++ b "'" /\ doubled s y.
(* Control bytes only occur as escapes. *)
Definition double_quoted (t : bytes) : Prop := exists y, t = [DQUOTE] ++ y ++ [DQUOTE] /\ Forall (fun c => 32 <= c /\ c <> 127)%N y.
Definition block_head (k : block_kind) : bytes :=
  let m c := match c with Strip => b "-" | Keep => b "+" | Clip => [] end in
  match k with Literal c => b "|" ++ m c | Folded c => b ">" ++ m c end.
(* The text that stands in the document for what a call writes. *)
Definition written_text (e : edit) (t : bytes) : Prop :=
  match e with
  | SetNull NuKeyword => t = b "null"
  | SetNull NuTilde => t = b "~"
  | SetNull NuEmpty | Insert _ _ | Push _ => t = []
  | SetBool v | InsertBool _ v | PushBool v => t = if v then b "true" else b "false"
  | SetInt _ z | InsertInt _ _ z | PushInt _ z => decimal t z
  | SetFloat _ x | InsertFloat _ _ x | PushFloat _ x => t = x
  | SetStringWith s SBare => t = s
  | SetStringWith s SSingle => single_quoted s t
  | SetStringWith s SDouble => double_quoted t
  | SetString s | InsertStr _ s | PushString s => t = s \/ single_quoted s t \/ double_quoted t
  | SetBlock ps k | InsertBlock _ ps k | PushBlock ps k => (* every line behind the same indentation *)
    exists pad, t = block_head k ++ flat_map (fun p => [NEWLINE] ++ pad ++ [SPACE; SPACE] ++ p) ps
  | _ => False
  end.
Lemma esc_single_doubled s : single_quoted s (esc_single s).
Proof.
  exists (esc_single_body s). split; [reflexivity|]. induction s as [|c s IH]; cbn [esc_single_body]; [constructor|].
  destruct (N.eqb_spec c SQUOTE) as [->|H]; now constructor.
Qed.
Lemma hex_printable n : (n < 16)%N -> (32 <= hex_digit n /\ hex_digit n <> 127)%N.
Proof. intros H. unfold hex_digit. destruct (n <? 10)%N eqn:E; [apply N.ltb_lt in E|apply N.ltb_ge in E]; lia. Qed.
Lemma esc_double_printable s : double_quoted (esc_double s).
Proof.
  exists (flat_map esc_double_byte s). split; [reflexivity|]. induction s as [|c s IH]; cbn [flat_map]; [constructor|].
  apply Forall_app. split; [|exact IH]. unfold esc_double_byte.
  repeat match goal with |- context [if ?x then _ else _] => destruct x eqn:?; [solve [repeat (constructor; [unfold BACKSLASH, DQUOTE; lia|]); constructor]|] end.
  match goal with |- context [if ?x then _ else _] => destruct x eqn:E end.
  - unfold is_ascii_control in E.
    assert (L : (c <= 127)%N). { apply orb_true_iff in E as [E|E]; [apply N.ltb_lt in E|apply N.eqb_eq in E]; lia. }
    assert (c / 16 < 16)%N by (apply N.div_lt_upper_bound; lia). assert (c mod 16 < 16)%N by (apply N.mod_lt; lia).
    constructor; [unfold BACKSLASH; lia|]. constructor; [lia|]. constructor; [now apply hex_printable|]. constructor; [now apply hex_printable|constructor].
  - constructor; [|constructor]. unfold is_ascii_control in E. apply orb_false_iff in E as [E1 E2]. apply N.ltb_ge in E1. apply N.eqb_neq in E2. lia.
Qed.
Lemma block_text_shape n p ps k : exists pad, wscalar (ablock_at n p ps k) = block_head k ++ flat_map (fun q => [NEWLINE] ++ pad ++ [SPACE; SPACE] ++ q) ps \/ n < 2.
Proof.
  destruct (le_lt_dec 2 n) as [L|L]; [|exists []; now right]. exists (p ++ repeat SPACE (n - 2)). left.
  assert (G : block_original p n ps = flat_map (fun q => [NEWLINE] ++ (p ++ repeat SPACE (n - 2)) ++ [SPACE; SPACE] ++ q) ps).
  { replace n with (n - 2 + 2) at 1 by lia. generalize (n - 2). intros m. induction ps as [|q ps IH]; [reflexivity|]. cbn [block_original flat_map].
    rewrite IH, repeat_app. rewrite <- !app_assoc. reflexivity. }
  unfold ablock_at. destruct k as [[]|[]]; cbn; rewrite G; reflexivity.
Qed.
Lemma detect_kinds s : In (detect s) [KBare; KSingle; KDouble].
Proof.
  assert (G : forall l f k, In k [KBare; KSingle] -> In (detect_loop f k l) [KBare; KSingle; KDouble]).
  { induction l as [|c l IH]; intros f k H; cbn [detect_loop]; [cbn in *; tauto|].
    repeat match goal with |- context [if ?x then _ else _] => destruct x end; try (apply IH); cbn; tauto. }
  unfold detect. destruct (beq s kw_true || beq s kw_false || beq s kw_null); [cbn; tauto|]. apply G. cbn. tauto.
Qed.
Lemma scalar_text {I} (v : tree I) e sc : ascalar v e = Some sc -> written_text e (wscalar sc).
Proof.
  assert (BL : forall ps k, exists pad, wscalar (ablock v ps k) = block_head k ++ flat_map (fun q => [NEWLINE] ++ pad ++ [SPACE; SPACE] ++ q) ps).
  { intros ps k. destruct v as [i p s|i p n kk items|i p n kk items]; cbn [ablock];
      match goal with |- context [ablock_at ?n ?p _ _] => destruct (block_text_shape n p ps k) as [pad [E|L]]; [eauto|lia] end. }
  assert (ST : forall s, wscalar (astring s) = s \/ single_quoted s (wscalar (astring s)) \/ double_quoted (wscalar (astring s))).
  { intros s. unfold astring. cbn [wscalar wstr rs_kind rs_id].
    destruct (detect_kinds s) as [H|[H|[H|[]]]]; rewrite <- H; [now left|right; left; apply esc_single_doubled|right; right; apply esc_double_printable]. }
  destruct e; cbn [ascalar written_text]; intros E; try discriminate; injection E as <-; try reflexivity; try apply BL; try apply ST; try apply itoa_decimal.
  - destruct k; reflexivity.
  - destruct k; [reflexivity|apply esc_single_doubled|apply esc_double_printable].
Qed.
Theorem C37_text : forall hash doc id e r d',
  built hash doc -> value_of doc id -> writes e = true ->
  run hash id e (doc_data doc) = Ok (r, d') -> r <> NotApplicable -> no_collision hash d' ->
  exists t, value_write_to d' (target id r) = Ok t /\ written_text e t.
Proof.
  intros hash doc id e r d' B V W E NA N.
  destruct (edit_setup _ _ _ _ _ _ _ _ B V E N) as (c & v & v' & suf & ST).
  destruct (ascalar_writes v e W) as [sc A].
  destruct (written_leaf _ _ _ _ _ _ (st_eff ST) W NA A) as [p S]. rewrite (st_id ST) in S.
  assert (SP : sub (plug c v') (TLeaf (target id r) p sc)) by (eapply sub_trans; [apply sub_plug|exact S]).
  exists (wscalar sc). split; [exact (st_vw' ST _ SP)|]. eapply scalar_text; eauto.
Qed.
Print Assumptions C37_text.
Example C37_case :
  let e := PushBlock [b "one"; b "two"] (Folded Strip) in
  exists t, value_write_to (after [K (b "list")] e) (handle [K (b "list")] e) = Ok t /\ exists pad,
    t = b ">-" ++ [NEWLINE] ++ pad ++ b "  one" ++ [NEWLINE] ++ pad ++ b "  two".
Proof.
  intros e. destruct (C37_text idhash world (id_of [K (b "list")]) e (Handle (handle [K (b "list")] e)) (after [K (b "list")] e)
    world_built list_value eq_refl) as (t & T & pad & P).
  - vm_compute. reflexivity.
  - discriminate.
  - apply id_no_collision.
  - exists t. split; [exact T|]. exists pad. rewrite P. cbn [flat_map]. rewrite <- !app_assoc. reflexivity.
Qed.

(* ---- C33 ---- *)
Local Notation utext := Utf8Props.text.
Lemma chars_uchar s : Forall uchar (chars s).
Proof.
  unfold chars. generalize (length s). intros f. revert s.
  induction f as [|f IH]; intros s; cbn; [constructor|]. destruct s as [|c r]; cbn; [constructor|].
  pose proof (decode1_len c r) as L.
  destruct (decode1 c r) as [ok n] eqn:E. cbn. destruct n as [|n]; [lia|]. constructor; auto.
  destruct ok; [|reflexivity]. cbn [uchar firstn].
  pose proof (decode1_ok _ _ _ E []) as K. rewrite app_nil_r in K. cbn in K. rewrite Nat.sub_0_r in K.
  rewrite K. cbn. rewrite firstn_length. do 2 f_equal. lia.
Qed.
Lemma concat_uchar l : Forall uchar l -> utext (concat l).
Proof. induction 1; cbn; constructor; auto. Qed.
Lemma forall_firstn {A} (P : A -> Prop) n l : Forall P l -> Forall P (firstn n l).
Proof. intros H. revert n. induction H; intros [|n]; cbn; constructor; auto. Qed.
Lemma spaces_text n : utext (repeat SPACE n).
Proof. apply text_ascii_all, Forall_forall. intros y Y. apply repeat_spec in Y as ->. reflexivity. Qed.
Lemma under_text p n : utext (snd (under p n)).
Proof.
  unfold under. cbn [snd]. apply text_ascii; [reflexivity|]. apply concat_uchar, forall_firstn. apply Forall_app. split; [apply chars_uchar|].
  apply Forall_forall. intros y Y. apply repeat_spec in Y as ->. now apply ascii_uchar.
Qed.
Lemma amake_text c : forall dflt, utext (snd dflt) -> utext (snd (amake_in c dflt)).
Proof.
  induction c as [|i p n k l ii ip key c IH r|i p n k l ii ip c IH r]; intros dflt H; cbn [amake_in]; [exact H| |].
  - apply IH, under_text.
  - destruct k; apply IH; [|apply under_text]. now apply text_ascii; [|constructor].
Qed.
Lemma last_nl_text s : utext s -> utext (after_last_nl s).
Proof.
  enough (H : forall a, utext (a ++ s) -> utext s \/ existsb (N.eqb NEWLINE) s = true -> utext (after_last_nl s)).
  { intros T. apply (H []); auto. }
  induction s as [|c s IH]; intros a T H; cbn [after_last_nl]; [constructor|].
  destruct (existsb (N.eqb NEWLINE) s) eqn:E.
  - apply (IH (a ++ [c])); [now rewrite <- app_assoc|auto].
  - destruct (c =? NEWLINE)%N eqn:E2.
    + apply N.eqb_eq in E2 as ->. apply text_split in T as [_ T]; [|reflexivity]. now apply text_ascii in T.
    + destruct H as [H|H]; [exact H|]. cbn [existsb] in H. rewrite E, N.eqb_sym, E2 in H. discriminate.
Qed.
(* All strings given to a call are UTF-8. *)
Definition utf8_edit (e : edit) : Prop :=
  let u s := utf8 s = true in
  match e with
  | SetString s | SetStringWith s _ | PushString s => u s
  | SetBlock ps _ | PushBlock ps _ => Forall u ps
  | SetFloat _ s | PushFloat _ s => u s
  | Insert k s => u k /\ match s with Custom s => u s | Auto => True end
  | InsertStr k s | InsertFloat k _ s => u k /\ u s
  | InsertBlock k ps _ => u k /\ Forall u ps
  | InsertBool k _ | InsertInt k _ _ => u k
  | Push (Custom s) => u s
  | _ => True
  end.
Lemma digits_ascii s n : denotes s n -> utext s.
Proof.
  induction 1 as [c H|s n c D IH H].
  - apply text_ascii; [lia|constructor].
  - apply text_app; [exact IH|]. apply text_ascii; [lia|constructor].
Qed.
Lemma itoa_text z : utext (itoa z).
Proof.
  destruct (itoa_decimal z) as [(_ & D & _)|(_ & r & -> & D & _)]; [eapply digits_ascii; eauto|].
  apply text_ascii; [reflexivity|]. eapply digits_ascii; eauto.
Qed.
Lemma block_original_text p n ps : utext p -> Forall utext ps -> utext (block_original p n ps).
Proof.
  intros T. induction 1 as [|x ps H F IH]; cbn [block_original]; [constructor|].
  apply text_ascii; [reflexivity|]. apply text_app; [exact T|]. apply text_app; [apply spaces_text|]. now apply text_app.
Qed.
Lemma block_content_text c ps : (c < 128)%N -> Forall utext ps -> utext (block_content c ps).
Proof.
  intros C. induction 1 as [|x ps H F IH]; cbn [block_content]; [constructor|]. destruct ps as [|y ps]; [exact H|].
  apply text_app; [exact H|]. now apply text_ascii.
Qed.
Lemma ablock_at_text n p ps k : utext p -> Forall utext ps -> Forall utext (sc_strings (ablock_at n p ps k)).
Proof.
  intros T F. unfold ablock_at. destruct k as [c|c]; cbn [sc_strings rs_strings rs_kind rs_id rs_orig app].
  - constructor; [|constructor; [|constructor]].
    + apply text_app; [now apply block_content_text|]. destruct c; [constructor|now apply text_ascii; [|constructor]..].
    + apply text_ascii; [reflexivity|]. apply text_app; [destruct c; [now apply text_ascii; [|constructor]|constructor|now apply text_ascii; [|constructor]]|].
      now apply block_original_text.
  - constructor; [|constructor; [|constructor]].
    + apply text_app; [now apply block_content_text|]. destruct c; [constructor|now apply text_ascii; [|constructor]..].
    + apply text_ascii; [reflexivity|]. apply text_app; [destruct c; [now apply text_ascii; [|constructor]|constructor|now apply text_ascii; [|constructor]]|].
      now apply block_original_text.
Qed.
Lemma utf8_all ps : Forall (fun s => utf8 s = true) ps -> Forall utext ps.
Proof. apply Forall_impl. intros s. apply utf8_text. Qed.
Lemma ascalar_text (v : tree nat) e sc : ascalar v e = Some sc -> utf8_edit e -> Forall utext (strings v) -> Forall utext (sc_strings sc).
Proof.
  intros A U F.
  assert (BL : forall ps k, Forall (fun s => utf8 s = true) ps -> Forall utext (sc_strings (ablock v ps k))).
  { intros ps k H. apply utf8_all in H. destruct v; cbn [ablock]; apply ablock_at_text; auto; try constructor.
    apply last_nl_text. cbn in F. now inversion F. }
  assert (ST : forall s, utf8 s = true -> Forall utext (sc_strings (astring s))).
  { intros s H. apply utf8_text in H. cbn [sc_strings astring]. rewrite (detect_strings idhash). repeat constructor; assumption. }
  assert (KW : utext kw_true /\ utext kw_false /\ utext kw_null).
  { repeat split; apply text_ascii_all; repeat constructor. }
  destruct KW as (K1 & K2 & K3).
  destruct e; cbn [ascalar] in A; try discriminate; injection A as <-; cbn [utf8_edit] in U; auto;
    try (now apply BL); try (now apply ST); try (apply BL; now apply U); try (apply ST; now apply U); cbn [sc_strings];
    try (constructor; fail).
  - destruct k; cbn; auto.
  - destruct k; cbn; repeat constructor; now apply utf8_text.
  - cbn. destruct v0; auto.
  - repeat constructor. apply itoa_text.
  - repeat constructor. now apply utf8_text.
  - cbn. destruct v0; auto.
  - repeat constructor. apply itoa_text.
  - repeat constructor. now apply utf8_text.
  - cbn. destruct v0; auto.
  - repeat constructor. apply itoa_text.
  - repeat constructor. now apply utf8_text.
Qed.
Lemma item_gap_text {A} n (l : list A) : utext (item_gap n l).
Proof.
  destruct l; [constructor|]. unfold item_gap, nl_indent. apply text_ascii_all, forall_firstn.
  constructor; [reflexivity|]. apply Forall_forall. intros y Y. apply repeat_spec in Y as ->. reflexivity.
Qed.
Lemma forall_mitems P i p n k (items : list (mitem nat)) : Forall P (strings (TMap i p n k items)) <->
  P p /\ Forall P (ck_strings k) /\ Forall (fun '(_, ip, key, v) => P ip /\ Forall P (rs_strings key) /\ Forall P (strings v)) items.
Proof.
  cbn [strings tpre]. rewrite Forall_cons_iff, Forall_app, Forall_flat_map. do 2 apply and_iff_compat_l.
  rewrite !Forall_forall. split; intros H [[[ii ip] key] v] X; specialize (H _ X); cbn in *; rewrite Forall_cons_iff, Forall_app in *; exact H.
Qed.
Lemma forall_sitems P i p n k (items : list (sitem nat)) : Forall P (strings (TSeq i p n k items)) <->
  P p /\ Forall P (ck_strings k) /\ Forall (fun '(_, ip, v) => P ip /\ Forall P (strings v)) items.
Proof.
  cbn [strings tpre]. rewrite Forall_cons_iff, Forall_app, Forall_flat_map. do 2 apply and_iff_compat_l.
  rewrite !Forall_forall. split; intros H [[ii ip] v] X; specialize (H _ X); cbn in *; rewrite Forall_cons_iff in *; exact H.
Qed.
Lemma tpre_in {I} (v : tree I) : In (tpre v) (strings v). Proof. destruct v; now left. Qed.
Lemma effect_text c v e r v' : effect c v e r v' -> utf8_edit e -> Forall utext (strings v) -> Forall utext (strings v').
Proof.
  intros F U T. assert (TP : utext (tpre v)) by (rewrite Forall_forall in T; apply T, tpre_in).
  destruct F as [e sc A K P| |n p M A| |n p M A|e sc key s h v' A K F|key x v' F|i p n k items EV
    |e sc s h v' A P F|x y v' F|i p n k items EV|e FM P|e FS P]; auto.
  - cbn [strings tpre]. constructor; [exact TP|]. eapply ascalar_text; eauto.
  - cbn. constructor; [|constructor]. pose proof (amake_text c (count_indent (tpre v), tpre v) TP) as H. unfold amake in A. rewrite A in H. exact H.
  - cbn. constructor; [|constructor]. pose proof (amake_text c (count_indent (tpre v), tpre v) TP) as H. unfold amake in A. rewrite A in H. exact H.
  - pose proof (ascalar_text _ _ _ A U T) as SC. destruct F as [i p n k l ii ip kk v r EK FL|i p n k items ii vi FL];
      apply forall_mitems in T as (T1 & T2 & T3); apply forall_mitems; (split; [exact T1|]); (split; [exact T2|]).
    + apply Forall_app in T3 as [T3 T4]. apply Forall_cons_iff in T4 as [(Q1 & Q2 & Q3) T4]. apply Forall_app. split; [exact T3|].
      constructor; [|exact T4]. split; [exact Q1|]. split; [exact Q2|]. cbn. constructor; [|exact SC].
      rewrite Forall_forall in Q3. apply Q3, tpre_in.
    + apply Forall_app. split; [exact T3|]. constructor; [|constructor]. split; [apply item_gap_text|].
      assert (UK : utext key /\ utext (match s with Custom x => x | Auto => [SPACE] end)).
      { assert (SP : utext [SPACE]) by (now apply text_ascii; [|constructor]).
        destruct e as [| | | | | | | | |k0 [|y]| | | | | | | | | | | | | | |]; try discriminate; injection K as <- <-; cbn [utf8_edit] in U;
          (split; [apply utf8_text; tauto|]); auto. apply utf8_text. tauto. }
      destruct UK as [UK US]. split; [unfold rs_strings; cbn; auto|]. cbn. constructor; [exact US|exact SC].
  - destruct F as [i p n k l it r EK FL|i p n k items FL]; auto.
    apply forall_mitems in T as (T1 & T2 & T3); apply forall_mitems; (split; [exact T1|]); (split; [exact T2|]).
    apply Forall_app in T3 as [T3 T4]. apply Forall_cons_iff in T4 as [_ T4]. apply Forall_app. auto.
  - subst v. apply forall_mitems in T as (T1 & T2 & T3). apply forall_mitems. auto.
  - pose proof (ascalar_text _ _ _ A U T) as SC. destruct F as [i p n k items ii vi].
    apply forall_sitems in T as (T1 & T2 & T3); apply forall_sitems; (split; [exact T1|]); (split; [exact T2|]).
    apply Forall_app. split; [exact T3|]. constructor; [|constructor]. split; [apply item_gap_text|]. cbn. constructor; [|exact SC].
    assert (SP : utext [SPACE]) by (now apply text_ascii; [|constructor]).
    destruct s as [|y].
    + destruct (rev items) as [|[[iz ip] w] rest] eqn:ER; [exact SP|].
      assert (IN : In (iz, ip, w) items) by (apply in_rev; rewrite ER; now left).
      rewrite Forall_forall in T3. destruct (T3 _ IN) as [_ Q]. rewrite Forall_forall in Q. apply Q, tpre_in.
    + destruct e; try discriminate. cbn in P. injection P as ->. cbn in U. now apply utf8_text.
  - destruct F as [i p n k l it r EK|i p n k items FL]; auto.
    apply forall_sitems in T as (T1 & T2 & T3); apply forall_sitems; (split; [exact T1|]); (split; [exact T2|]).
    apply Forall_app in T3 as [T3 T4]. apply Forall_cons_iff in T4 as [_ T4]. apply Forall_app. auto.
  - subst v. apply forall_sitems in T as (T1 & T2 & T3). apply forall_sitems. auto.
Qed.
Definition built_utf8 hash := built_from hash (fun input => utf8 input = true) utf8_edit.
Lemma text_models hash doc : built_utf8 hash doc -> no_collision hash (doc_data doc) ->
  exists t suf, models hash doc t suf /\ Forall utext (strings t) /\ utext suf.
Proof.
  induction 1 as [input doc U E|doc id e r d' B IH V U E]; intros N.
  - destruct (parse_models hash _ _ E) as (t & suf & P & M). exists t, suf. split; [exact M|].
    apply parse_nice in P as [_ P]. apply utf8_text in U. specialize (P U). inversion P as [|? ? Q1 Q2]; subst.
    unfold shape in Q2. rewrite strings_tmap in Q2. auto.
  - destruct (built_models _ _ _ _ B) as (t0 & suf0 & M0).
    destruct (value_ctx _ _ _ _ _ M0 V) as (c0 & v0 & -> & E0). subst id.
    destruct (edit_step _ _ _ _ _ _ _ _ M0 E) as (_ & _ & _ & G & _). pose proof (grows_nc hash _ _ G N) as N0.
    destruct (IH N0) as (t & suf & M & T & TS).
    destruct (value_ctx _ _ _ _ _ M V) as (c & v & -> & E1). rewrite <- E1 in E.
    destruct (edit_step _ _ _ _ _ _ _ _ M E) as (v' & _ & M' & _ & F). specialize (F N).
    exists (plug c v'), suf. split; [exact M'|]. split; [|exact TS].
    assert (T2 : Forall utext (cstrings c ++ strings v)) by (eapply Permutation_Forall; [apply strings_plug|exact T]).
    eapply Permutation_Forall; [symmetry; apply strings_plug|]. apply Forall_app in T2 as [T2 T3]. apply Forall_app. split; [exact T2|].
    eapply effect_text; eauto.
Qed.
Theorem C33_printed : forall hash doc, built_utf8 hash doc -> no_collision hash (doc_data doc) ->
  exists out, write_to doc = Ok out /\ utf8 out = true.
Proof.
  intros hash doc B N. destruct (text_models _ _ B N) as (t & suf & M & T & TS).
  exists (wdoc t suf). split; [now apply models_write_to with (hash := hash)|]. apply utf8_text. now apply wdoc_text.
Qed.
Theorem C33_values : forall hash doc id, built_utf8 hash doc -> no_collision hash (doc_data doc) -> value_of doc id ->
  as_str (doc_data doc) id = as_bstr (doc_data doc) id /\
  (forall l, map_entries (doc_data doc) id l -> Forall (fun '(key, _) => utf8 key = true) l) /\
  (exists s, value_write_to (doc_data doc) id = Ok s /\ utf8 s = true).
Proof.
  intros hash doc id B N V. destruct (text_models _ _ B N) as (t & suf & M & T & TS).
  pose proof (models_int _ _ _ _ M N) as F. destruct (value_sub _ _ _ _ _ M V) as (v & S & <-).
  assert (X := M). destruct X as (X & _). pose proof (node_any hash _ _ _ X F v S) as A.
  assert (TV : Forall utext (strings v)).
  { rewrite Forall_forall in *. intros s I. apply T. eapply sub_strings; eauto. }
  split; [|split].
  - destruct (any_accessors _ _ _ A) as (_ & H1 & H2 & _).
    { intros x. now destruct v as [? ? [| | |]| |]. }
    rewrite H1, H2. f_equal. destruct v as [i p [[]| | |r]| |]; try reflexivity. cbn [tany].
    assert (UR : utext (rs_id r)). { rewrite Forall_forall in TV. apply TV. cbn. right. unfold rs_strings. apply in_or_app. right. now left. }
    apply utf8_text in UR. now rewrite UR.
  - intros l L. destruct (mapping_node _ _ _ _ _ _ M V L F) as (p & n & k & items & S' & ->).
    assert (v = TMap (tid v) p n k items) as EV by (eapply models_unique; [exact M|exact S|exact S'|reflexivity]).
    rewrite EV in TV. apply forall_mitems in TV as (_ & _ & TV). apply Forall_map. revert TV. apply Forall_impl.
    intros [[[ii ip] key] w] (_ & Q & _). cbn. apply utf8_text. rewrite Forall_forall in Q. apply Q. unfold rs_strings. apply in_or_app. right. now left.
  - exists (wtree v). split; [eapply node_write; eauto|]. apply utf8_text. now apply wtree_text.
Qed.
Print Assumptions C33_printed.
Print Assumptions C33_values.

Definition odd_bytes : bytes := [195; 169; 226; 130; 172]%N.
Definition odd_edit : edit := InsertBlock odd_bytes [odd_bytes; b "x"] (Literal Keep).
Lemma built_utf8_path doc p e doc' : built_utf8 idhash doc -> utf8_edit e -> edit_path p e (Ok doc) = Ok doc' -> built_utf8 idhash doc'.
Proof.
  destruct doc as [s root d]. cbn. intros B U. destruct (walk d root p) as [id|] eqn:W; [|discriminate].
  destruct (run idhash id e d) as [[r d']|? ? ?| | |] eqn:R; try discriminate. intros E. injection E as <-.
  eapply (built_edit _ _ _ (Doc s root d)); [exact B|exact (walk_value (Doc s root d) p id W)|exact U|exact R].
Qed.
Lemma world_utf8 : built_utf8 idhash world.
Proof.
  apply (built_utf8_path world1 [K (b "text")] (InsertInt (b "n") Signed8 (-5))); [|vm_compute; reflexivity..].
  apply (built_utf8_path world0 [K (b "text")] MakeMapping); [|exact Logic.I|vm_compute; reflexivity].
  apply (built_utf8_path sample_doc [K (b "list")] (PushString (b "x: y"))); [|vm_compute; reflexivity..].
  eapply built_parse; [|exact sample_loads]. vm_compute. reflexivity.
Qed.
Lemma odd_step : run idhash (id_of []) odd_edit (doc_data world) = Ok (Handle (handle [] odd_edit), after [] odd_edit).
Proof. vm_compute. reflexivity. Qed.
Lemma odd_utf8 : built_utf8 idhash (edited world (after [] odd_edit)).
Proof.
  eapply built_edit; [exact world_utf8|exact root_value| |exact odd_step].
  repeat constructor; vm_compute; reflexivity.
Qed.
Example C33_case : exists out, write_to (edited world (after [] odd_edit)) = Ok out /\ utf8 out = true.
Proof. apply (C33_printed idhash); [exact odd_utf8|apply id_no_collision]. Qed.
Example C33_values_case :
  let doc := edited world (after [] odd_edit) in
  as_str (doc_data doc) (handle [] odd_edit) = as_bstr (doc_data doc) (handle [] odd_edit) /\
  as_bstr (doc_data doc) (handle [] odd_edit) = Ok (Some (odd_bytes ++ [NEWLINE] ++ b "x" ++ [NEWLINE])).
Proof.
  intros doc. split; [|vm_compute; reflexivity]. apply (C33_values idhash); [exact odd_utf8|apply id_no_collision|].
  apply (walk_value doc [K odd_bytes]). vm_compute. reflexivity.
Qed.
(* Bytes that are not UTF-8 do come out if they went in. *)
Example C33_needs_utf8 : utf8 [195%N] = false /\
  write (edit_path [] (SetString [195%N]) (load (b "a"))) = Ok [195%N].
Proof. split; vm_compute; reflexivity. Qed.

(* ---- C03 after edits ---- *)
(* A null without text, or a block collection without entries. *)
Definition invisible (d : data) (id : nat) : Prop :=
  match get_raw d id with
  | Ok (RScalar (ScNull NEmpty)) | Ok (RMap _ CBlock []) | Ok (RSeq _ CBlock []) => True
  | _ => False
  end.
(* Bytes that the string renderer leaves out. *)
Fixpoint lost {I} (t : tree I) : nat :=
  match t with
  | TLeaf _ _ _ => O
  | TMap _ _ _ _ items => list_sum (map (fun '(_, _, _, v) => (if is_blank v then length (tpre v) else O) + lost v)%nat items)
  | TSeq _ _ _ _ items => list_sum (map (fun '(_, _, v) => (if is_blank v then length (tpre v) else O) + lost v)%nat items)
  end.
Lemma sep_lost {A} (o e c : bytes) (f g : A -> bytes) (h : A -> nat) l :
  Forall (fun x => length (f x) = (length (g x) + h x)%nat) l ->
  length (o ++ sep c (map f l) ++ e) = (length (o ++ sep c (map g l) ++ e) + list_sum (map h l))%nat.
Proof.
  intros H. rewrite !app_length. enough (length (sep c (map f l)) = (length (sep c (map g l)) + list_sum (map h l))%nat) by lia. revert H.
  induction 1 as [|x l H F IH]; [reflexivity|]. cbn [map sep list_sum fold_right]. rewrite !app_length, IH, H.
  unfold list_sum. destruct l; cbn; lia.
Qed.
Lemma dpre_lost {I} (v : tree I) : Forall utext (strings v) -> length (tpre v) = (length (dpre v) + (if is_blank v then length (tpre v) else O))%nat.
Proof.
  intros T. unfold dpre. destruct (is_blank v); [cbn; lia|]. rewrite (lossy_text (tpre v)) by now apply tpre_text. lia.
Qed.
Lemma dtree_lost {I} (t : tree I) : Forall utext (strings t) -> length (wtree t) = (length (dtree t) + lost t)%nat.
Proof.
  induction t as [i p s|i p n k items IH|i p n k items IH] using tree_ind'; cbn [wtree dtree lost strings tpre]; intros H;
    apply Forall_cons_iff in H as [HP H].
  - rewrite dscalar_same by exact H. lia.
  - apply Forall_app in H as [HK H]. rewrite closing_same by exact HK. apply sep_lost. apply Forall_flat_map in H. rewrite Forall_forall in IH, H |- *.
    intros [[[ii ip] key] v] X. specialize (IH _ X). specialize (H _ X). cbn in IH, H.
    apply Forall_cons_iff in H as [H1 H]. apply Forall_app in H as [H2 H3].
    rewrite (lossy_text ip H1), (dstr_same key H2), !app_length, (IH H3). pose proof (dpre_lost v H3). lia.
  - apply Forall_app in H as [HK H]. rewrite closing_same by exact HK. apply sep_lost. apply Forall_flat_map in H. rewrite Forall_forall in IH, H |- *.
    intros [[ii ip] v] X. specialize (IH _ X). specialize (H _ X). cbn in IH, H.
    apply Forall_cons_iff in H as [H1 H3].
    rewrite !app_length, (IH H3). pose proof (dpre_lost v H3). lia.
Qed.
Lemma sum_zero {A} (f : A -> nat) l : list_sum (map f l) = O -> forall x, In x l -> f x = O.
Proof.
  induction l as [|y l IH]; intros H x X; [destruct X|]. cbn [map] in H.
  assert (E : (f y + list_sum (map f l))%nat = O) by exact H. destruct X as [<-|X]; [lia|]. apply IH; auto. lia.
Qed.
Lemma lost_calm {I} (t : tree I) : lost t = O -> calm t = true.
Proof.
  induction t as [i p s|i p n k items IH|i p n k items IH] using tree_ind'; cbn [lost calm]; intros H; [reflexivity| |];
    apply forallb_forall; rewrite Forall_forall in IH.
  - intros [[[ii ip] key] v] X. specialize (IH _ X). apply (sum_zero _ _ H) in X. cbn in IH, X.
    rewrite IH by lia. unfold tight. destruct (is_blank v); [|reflexivity]. destruct (tpre v); [reflexivity|cbn in X; lia].
  - intros [[ii ip] v] X. specialize (IH _ X). apply (sum_zero _ _ H) in X. cbn in IH, X.
    rewrite IH by lia. unfold tight. destruct (is_blank v); [|reflexivity]. destruct (tpre v); [reflexivity|cbn in X; lia].
Qed.
Lemma calm_sub t w : sub t w -> calm t = true -> calm w = true /\ (w <> t -> tight w = true).
Proof.
  induction 1 as [|i p n k items ii ip key v S IH X|i p n k items ii ip v S IH X]; intros C.
  - split; [exact C|contradiction].
  - apply IH in C as [C _]. cbn [calm] in C. rewrite forallb_forall in C. specialize (C _ X). cbn in C. apply andb_prop in C as []. auto.
  - apply IH in C as [C _]. cbn [calm] in C. rewrite forallb_forall in C. specialize (C _ X). cbn in C. apply andb_prop in C as []. auto.
Qed.
Lemma map_smaller t i p n k items ii ip key x : sub t (TMap i p n k items) -> In (ii, ip, key, x) items -> (length (ids x) < length (ids t))%nat.
Proof.
  intros S X. destruct (sub_ctx _ _ S) as [c ->]. rewrite (Permutation_length (ids_plug _ _)), app_length, ids_map. cbn [length].
  apply in_split in X as (l & r & ->). rewrite flat_map_app, app_length. cbn [flat_map mids]. rewrite app_length. cbn. lia.
Qed.
Lemma seq_smaller t i p n k items ii ip x : sub t (TSeq i p n k items) -> In (ii, ip, x) items -> (length (ids x) < length (ids t))%nat.
Proof.
  intros S X. destruct (sub_ctx _ _ S) as [c ->]. rewrite (Permutation_length (ids_plug _ _)), app_length, ids_seq. cbn [length].
  apply in_split in X as (l & r & ->). rewrite flat_map_app, app_length. cbn [flat_map sids]. rewrite app_length. cbn. lia.
Qed.
Lemma sub_calm t : (forall w, sub t w -> w <> t -> tight w = true) -> forall w, sub t w -> calm w = true.
Proof.
  intros H. induction w as [i p s|i p n k items IH|i p n k items IH] using tree_ind'; intros S; cbn [calm]; [reflexivity| |];
    apply forallb_forall; rewrite Forall_forall in IH.
  - intros [[[ii ip] key] v] X. specialize (IH _ X). cbn in IH. pose proof (sub_map _ _ _ _ _ _ _ _ _ _ S X) as SV.
    rewrite (IH SV), H; auto. intros ->. apply (map_smaller _ _ _ _ _ _ _ _ _ _ S) in X. lia.
  - intros [[ii ip] v] X. specialize (IH _ X). cbn in IH. pose proof (sub_seq _ _ _ _ _ _ _ _ _ S X) as SV.
    rewrite (IH SV), H; auto. intros ->. apply (seq_smaller _ _ _ _ _ _ _ _ _ S) in X. lia.
Qed.
Lemma node_invisible hash doc t suf v : models hash doc t suf -> sub t v -> invisible (doc_data doc) (tid v) <-> is_blank v = true.
Proof.
  intros M S. assert (X := M). destruct X as (X & _). unfold invisible. rewrite (sub_raw hash _ _ _ X v S).
  destruct v as [i p [[]|x s|s h|r]|i p n [|] [|[[[ii ip] key] v] items]|i p n [|] [|[[ii ip] v] items]]; cbn; split; auto; try contradiction; discriminate.
Qed.
Lemma node_prefix hash doc t suf v : models hash doc t suf -> no_collision hash (doc_data doc) -> sub t v -> prefix (doc_data doc) (tid v) = Ok (tpre v).
Proof.
  intros M N S. pose proof (models_int _ _ _ _ M N) as F. assert (X := M). destruct X as (X & _).
  destruct (sub_get hash _ _ _ X v S) as [par E]. unfold prefix, prefix_id, get_entry. rewrite E. unfold tentry. cbn.
  apply interned_str. rewrite Forall_forall in F. apply F. exact (sub_strings hash _ _ _ X v S _ (tpre_in v)).
Qed.
(* The two renderers agree exactly when nothing invisible has layout of its own. *)
Theorem C03_agree_edited : forall hash doc, built_utf8 hash doc -> no_collision hash (doc_data doc) ->
  (to_string doc = write_to doc <->
   forall id, value_of doc id -> id <> doc_root doc -> invisible (doc_data doc) id -> prefix (doc_data doc) id = Ok []).
Proof.
  intros hash doc B N. destruct (text_models _ _ B N) as (t & suf & M & T & TS).
  rewrite (models_to_string hash doc t suf N M), (models_write_to hash doc t suf N M).
  assert (R : doc_root doc = tid t) by apply M. rewrite R. split.
  - intros E id V NR IV. destruct (value_sub _ _ _ _ _ M V) as (v & S & <-).
    apply (node_invisible _ _ _ _ _ M S) in IV. rewrite (node_prefix _ _ _ _ _ M N S).
    injection E as E. apply (f_equal (@length _)) in E. unfold ddoc, wdoc in E.
    rewrite !app_length, (lossy_text suf TS), (lossy_text (tpre t)) in E by now apply tpre_text.
    rewrite (dtree_lost t T) in E. assert (L : lost t = O) by lia. apply lost_calm in L.
    destruct (calm_sub _ _ S L) as [_ TI]. specialize (TI ltac:(congruence)). unfold tight in TI. rewrite IV in TI.
    cbn in TI. destruct (tpre v); [reflexivity|discriminate].
  - intros H. f_equal. apply ddoc_same; [|constructor; auto]. apply (sub_calm t); [|constructor].
    intros w S NW. unfold tight. destruct (is_blank w) eqn:IB; [|reflexivity]. cbn.
    pose proof (node_invisible _ _ _ _ _ M S) as IV. apply IV in IB.
    specialize (H (tid w) (sub_value _ _ _ _ _ M S)). rewrite (node_prefix _ _ _ _ _ M N S) in H.
    assert (E : Ok (tpre w) = Ok (@nil byte)).
    { apply H; auto. intros E. apply NW. eapply models_unique; eauto. constructor. }
    injection E as ->. reflexivity.
Qed.
Print Assumptions C03_agree_edited.
(* It applies to an edited document with an empty value, and it finds the disagreement. *)
Example C03_agree_case : to_string (edited world (after [] odd_edit)) = write_to (edited world (after [] odd_edit)).
Proof. vm_compute. reflexivity. Qed.
Example C03_disagree_case :
  exists id, value_of (edited world (after [] (Insert (b "z") Auto))) id /\ id <> doc_root world /\
    invisible (after [] (Insert (b "z") Auto)) id /\ prefix (after [] (Insert (b "z") Auto)) id = Ok [SPACE].
Proof.
  exists (handle [] (Insert (b "z") Auto)). split.
  - apply (walk_value (edited world (after [] (Insert (b "z") Auto))) [K (b "z")]). vm_compute. reflexivity.
  - split; [vm_compute; discriminate|]. split; [vm_compute; exact Logic.I|]. vm_compute. reflexivity.
Qed.
