(* The bound matters exactly as far as data are nested. *)
From Coq Require Import List NArith Bool Arith Lia.
From Verif Require Import Bytes Utf8 Data Parser Render Slab Tree Abs Refine Num Api Ctx Edit Built Reads ReadsSound Shown Depth.
Import ListNotations.
Local Open Scope N_scope.

(* ---- a larger bound changes nothing but running out of it ---- *)
Definition less {A} (x y : outcome A) : Prop := x = OutOfFuel \/ x = y.
Lemma less_refl {A} (x : outcome A) : less x x.
Proof. right. reflexivity. Qed.
Definition lessm {S A} (m n : ST S A) : Prop := forall s, less (m s) (n s).
Lemma lessm_refl {S A} (m : ST S A) : lessm m m.
Proof. intro s. apply less_refl. Qed.
Lemma lessm_bind {S A B} (m n : ST S A) (f g : A -> ST S B) : lessm m n -> (forall x, lessm (f x) (g x)) -> lessm (bind m f) (bind n g).
Proof.
  intros H K s. unfold bind. destruct (H s) as [->| ->]; [left; reflexivity|]. destruct (n s) as [[a s']| | | |]; try apply less_refl. apply K.
Qed.
Section Mono.
Variable hash : bytes -> sid.
Variable input : bytes.
Variables v1 v2 : state -> M (nat * option sid).
Hypothesis V : forall st, lessm (v1 st) (v2 st).
Ltac mono1 := match goal with
  | |- lessm ?x ?x => apply lessm_refl
  | |- lessm (v1 _) _ => apply V
  | |- lessm (bind _ _) (bind _ _) => apply lessm_bind; [|intros]
  | |- lessm (match ?x with _ => _ end) _ => destruct x
  | |- lessm (let z := ?t in @?f z) (let z := ?t in @?g z) => change (lessm (f t) (g t)); cbv beta
  end.
Ltac mono := repeat mono1.
Lemma mono_iseq f : forall id items last tr p, lessm (iseq_loop hash input v1 f id items last tr p) (iseq_loop hash input v2 f id items last tr p).
Proof. induction f as [|f IH]; intros; cbn [iseq_loop]; [apply lessm_refl|]. mono; apply IH. Qed.
Lemma mono_imap f : forall id items last tr st p, lessm (imap_loop hash input v1 f id items last tr st p) (imap_loop hash input v2 f id items last tr st p).
Proof. induction f as [|f IH]; intros; cbn [imap_loop]; [apply lessm_refl|]. mono; apply IH. Qed.
Lemma mono_seq f : forall id ind items p, lessm (seq_loop hash input v1 f id ind items p) (seq_loop hash input v2 f id ind items p).
Proof. induction f as [|f IH]; intros; cbn [seq_loop]; [apply lessm_refl|]. mono; apply IH. Qed.
Lemma mono_map f : forall id ind items st key p, lessm (map_loop hash input v1 f id ind items st key p) (map_loop hash input v2 f id ind items st key p).
Proof. induction f as [|f IH]; intros; cbn [map_loop]; [apply lessm_refl|]. mono; apply IH. Qed.
Lemma mono_mapping st start key : lessm (mapping_or_nul hash input v1 st start key) (mapping_or_nul hash input v2 st start key).
Proof. unfold mapping_or_nul. mono; apply mono_map. Qed.
Lemma mono_body st : lessm (value_body hash input v1 st) (value_body hash input v2 st).
Proof.
  unfold value_body. apply lessm_bind; [apply lessm_refl|intro a]. apply lessm_bind; [apply lessm_refl|intro c].
  destruct (_ && _ && _). { unfold sequence. mono; apply mono_seq. }
  destruct (a =? DQUOTE). { mono; apply mono_mapping. }
  destruct (a =? SQUOTE). { mono; apply mono_mapping. }
  destruct (a =? LBRACK). { unfold inline_sequence. mono; apply mono_iseq. }
  destruct (a =? LBRACE). { unfold inline_mapping. mono; apply mono_imap. }
  mono; apply mono_mapping.
Qed.
End Mono.
Lemma mono_value hash input f : forall g st, (f <= g)%nat -> lessm (value hash input f st) (value hash input g st).
Proof.
  induction f as [|f IH]; intros g st L; [intro s; left; reflexivity|]. destruct g as [|g]; [lia|]. cbn [value]. apply mono_body. intro st'. apply IH. lia.
Qed.
Lemma mono_parse hash input f g : (f <= g)%nat -> lessm (parse_within f hash input) (parse_within g hash input).
Proof.
  intro L. unfold parse_within. apply lessm_bind; [apply lessm_refl|intro p]. apply lessm_bind; [apply mono_value; exact L|intros [root suf]]. apply lessm_refl.
Qed.
Lemma mono_within hash input f g : (f <= g)%nat -> less (from_slice_within f hash input) (from_slice_within g hash input).
Proof.
  intro L. unfold from_slice_within. destruct (mono_parse hash input f g L (Pst 0 [] data_empty)) as [->| ->]; [left; reflexivity|apply less_refl].
Qed.
Lemma within_all hash input : from_slice_within (S (length input)) hash input = from_slice hash input.
Proof. reflexivity. Qed.

(* ---- reading: what is read tells how much was needed ---- *)
Lemma bind_inv {S A B} (m : ST S A) (k : A -> ST S B) n r : bind m k n = Ok r -> exists a n1, m n = Ok (a, n1) /\ k a n1 = Ok r.
Proof. unfold bind. destruct (m n) as [[a n1]| | | |]; try discriminate. eauto. Qed.
Section Follow.
Variable input : bytes.
Local Notation len := (length input).
Variables v1 v2 : astate -> AM (tree unit * option bytes).
Variable P : tree unit -> Prop.
Hypothesis V : forall st n t o n', v1 st n = Ok ((t, o), n') -> P t -> v2 st n = Ok ((t, o), n').
Definition more {A} (l l' : list A) : Prop := exists r, l' = l ++ r.
Lemma more_refl {A} (l : list A) : more l l.
Proof. exists []. now rewrite app_nil_r. Qed.
Lemma more_last {A} (l l' : list A) x (Q : A -> Prop) : more (l ++ [x]) l' -> more l l' /\ (Forall Q l' -> Q x).
Proof.
  intros [r ->]. split; [exists ([x] ++ r); now rewrite app_assoc|]. intro F. apply Forall_app in F as [F _]. apply Forall_app in F as [_ F]. now inversion F.
Qed.
Definition pick {A} (it : A * tree unit) : Prop := P (snd it).
Lemma fol_iseq f : forall items last tr p n items' tr' p' n', a_iseq_loop input v1 f items last tr p n = Ok ((items', tr', p'), n') ->
  more items items' /\ (Forall pick items' -> a_iseq_loop input v2 f items last tr p n = Ok ((items', tr', p'), n')).
Proof.
  induction f as [|f IH]; intros items last tr p n items' tr' p' n' H; [discriminate|]. cbn [a_iseq_loop] in *.
  apply bind_inv in H as (c & n1 & E1 & H). rewrite (bind_ok _ _ _ _ _ E1).
  destruct (_ || _). { injection H as <- <- <- <-. split; [apply more_refl|reflexivity]. }
  apply bind_inv in H as (vp & n2 & E2 & H). rewrite (bind_ok _ _ _ _ _ E2).
  apply bind_inv in H as ([v np] & n3 & E3 & H). cbv beta iota zeta in H.
  assert (Y : more (items ++ [(tt, p, v)]) items' /\ (Forall pick items' -> forall m1 : AM (list (sitem unit) * bool * bytes),
     m1 = (if last then p0 <- a_or_ws input np ;; ret (items ++ [(tt, p, v)], false, p0)
       else c0 <- a_peek input 0 ;; if c0 =? COMMA then a_bump input 1 ;;; p0 <- a_or_ws input np ;; a_iseq_loop input v2 f (items ++ [(tt, p, v)]) false true p0
         else p0 <- a_or_ws input np ;; a_iseq_loop input v2 f (items ++ [(tt, p, v)]) true false p0) -> m1 n3 = Ok ((items', tr', p'), n'))).
  { destruct last.
    - apply bind_inv in H as (q & n4 & E4 & H). injection H as <- <- <- <-. split; [apply more_refl|]. intros _ m1 ->. now rewrite (bind_ok _ _ _ _ _ E4).
    - apply bind_inv in H as (c' & n4 & E4 & H). destruct (c' =? COMMA) eqn:C.
      + apply bind_inv in H as (u & n5 & E5 & H). apply bind_inv in H as (q & n6 & E6 & H). apply IH in H as [M K]. split; [exact M|].
        intros FA m1 ->. rewrite (bind_ok _ _ _ _ _ E4), C, (bind_ok _ _ _ _ _ E5), (bind_ok _ _ _ _ _ E6). now apply K.
      + apply bind_inv in H as (q & n6 & E6 & H). apply IH in H as [M K]. split; [exact M|].
        intros FA m1 ->. rewrite (bind_ok _ _ _ _ _ E4), C, (bind_ok _ _ _ _ _ E6). now apply K. }
  destruct Y as [M K]. destruct (more_last _ _ _ pick M) as [M' Q]. split; [exact M'|]. intro FA.
  rewrite (bind_ok _ _ _ _ _ (V _ _ _ _ _ E3 (Q FA))). now apply K.
Qed.
Lemma fol_imap f : forall items last tr st p n items' tr' p' st' n', a_imap_loop input v1 f items last tr st p n = Ok ((items', tr', p', st'), n') ->
  more items items' /\ (Forall pick items' -> a_imap_loop input v2 f items last tr st p n = Ok ((items', tr', p', st'), n')).
Proof.
  induction f as [|f IH]; intros items last tr st p n items' tr' p' st' n' H; [discriminate|]. cbn [a_imap_loop] in *.
  apply bind_inv in H as (c & n1 & E1 & H). rewrite (bind_ok _ _ _ _ _ E1).
  destruct (_ || _). { injection H as <- <- <- <- <-. split; [apply more_refl|reflexivity]. }
  apply bind_inv in H as (k0 & n2 & E2 & H). rewrite (bind_ok _ _ _ _ _ E2).
  apply bind_inv in H as (key & n3 & E3 & H). rewrite (bind_ok _ _ _ _ _ E3).
  destruct key as [key|]; [|apply bind_inv in H as (? & ? & ? & H); discriminate].
  apply bind_inv in H as (u & n4 & E4 & H). rewrite (bind_ok _ _ _ _ _ E4).
  apply bind_inv in H as (vp & n5 & E5 & H). rewrite (bind_ok _ _ _ _ _ E5).
  apply bind_inv in H as ([v np] & n6 & E6 & H). cbv beta iota zeta in H.
  apply bind_inv in H as (q & n7 & E7 & H).
  assert (Y : more (items ++ [(tt, p, key, v)]) items' /\ (Forall pick items' -> forall m1 : AM (list (mitem unit) * bool * bytes * nat),
     m1 = (if last then ret (items ++ [(tt, p, key, v)], false, q, st)
       else c0 <- a_peek input 0 ;; if c0 =? COMMA then a_bump input 1 ;;; st <- a_get ;; p0 <- a_ws input ;; a_imap_loop input v2 f (items ++ [(tt, p, key, v)]) false true st p0
         else st <- a_get ;; p0 <- a_ws input ;; a_imap_loop input v2 f (items ++ [(tt, p, key, v)]) true false st p0) -> m1 n7 = Ok ((items', tr', p', st'), n'))).
  { destruct last.
    - injection H as <- <- <- <- <-. split; [apply more_refl|]. intros _ m1 ->. reflexivity.
    - apply bind_inv in H as (c' & n8 & E8 & H). destruct (c' =? COMMA) eqn:C.
      + apply bind_inv in H as (u' & n9 & E9 & H). apply bind_inv in H as (q1 & n10 & E10 & H). apply bind_inv in H as (q2 & n11 & E11 & H). apply IH in H as [M K]. split; [exact M|].
        intros FA m1 ->. rewrite (bind_ok _ _ _ _ _ E8), C, (bind_ok _ _ _ _ _ E9), (bind_ok _ _ _ _ _ E10), (bind_ok _ _ _ _ _ E11). now apply K.
      + apply bind_inv in H as (q1 & n10 & E10 & H). apply bind_inv in H as (q2 & n11 & E11 & H). apply IH in H as [M K]. split; [exact M|].
        intros FA m1 ->. rewrite (bind_ok _ _ _ _ _ E8), C, (bind_ok _ _ _ _ _ E10), (bind_ok _ _ _ _ _ E11). now apply K. }
  destruct Y as [M K]. destruct (more_last _ _ _ pick M) as [M' Q]. split; [exact M'|]. intro FA.
  rewrite (bind_ok _ _ _ _ _ (V _ _ _ _ _ E6 (Q FA))), (bind_ok _ _ _ _ _ E7). now apply K.
Qed.
Lemma fol_seq f : forall ind items p n items' p' n', a_seq_loop input v1 f ind items p n = Ok ((items', p'), n') ->
  more items items' /\ (Forall pick items' -> a_seq_loop input v2 f ind items p n = Ok ((items', p'), n')).
Proof.
  induction f as [|f IH]; intros ind items p n items' p' n' H; [discriminate|]. cbn [a_seq_loop] in *.
  apply bind_inv in H as (u & n1 & E1 & H). rewrite (bind_ok _ _ _ _ _ E1).
  apply bind_inv in H as (vp & n2 & E2 & H). rewrite (bind_ok _ _ _ _ _ E2).
  apply bind_inv in H as ([v w] & n3 & E3 & H). cbv beta iota zeta in H.
  apply bind_inv in H as (q & n4 & E4 & H). apply bind_inv in H as (i & n5 & E5 & H). apply bind_inv in H as (c & n6 & E6 & H).
  assert (Y : more (items ++ [(tt, p, v)]) items' /\ (Forall pick items' ->
     (if negb (Nat.eqb i ind) || negb (c =? DASH) then ret (items ++ [(tt, p, v)], q) else a_seq_loop input v2 f ind (items ++ [(tt, p, v)]) q) n6 = Ok ((items', p'), n'))).
  { destruct (_ || _). { injection H as <- <- <-. split; [apply more_refl|reflexivity]. } apply IH in H. exact H. }
  destruct Y as [M K]. destruct (more_last _ _ _ pick M) as [M' Q]. split; [exact M'|]. intro FA.
  rewrite (bind_ok _ _ _ _ _ (V _ _ _ _ _ E3 (Q FA))), (bind_ok _ _ _ _ _ E4), (bind_ok _ _ _ _ _ E5), (bind_ok _ _ _ _ _ E6). now apply K.
Qed.
Lemma fol_map f : forall ind items st key p n items' p' n', a_map_loop input v1 f ind items st key p n = Ok ((items', p'), n') ->
  more items items' /\ (Forall pick items' -> a_map_loop input v2 f ind items st key p n = Ok ((items', p'), n')).
Proof.
  induction f as [|f IH]; intros ind items st key p n items' p' n' H; [discriminate|]. cbn [a_map_loop] in *.
  apply bind_inv in H as (c & n0 & E0 & H). rewrite (bind_ok _ _ _ _ _ E0).
  destruct (negb (c =? COLON)); [apply bind_inv in H as (? & ? & ? & H); apply bind_inv in H as (? & ? & ? & H); discriminate|].
  apply bind_inv in H as (u & n1 & E1 & H). rewrite (bind_ok _ _ _ _ _ E1).
  apply bind_inv in H as (vp & n2 & E2 & H). rewrite (bind_ok _ _ _ _ _ E2).
  apply bind_inv in H as ([v w] & n3 & E3 & H). cbv beta iota zeta in H.
  apply bind_inv in H as (q & n4 & E4 & H). apply bind_inv in H as (i & n5 & E5 & H).
  assert (Y : more (items ++ [(tt, p, key, v)]) items' /\ (Forall pick items' ->
     (if negb (Nat.eqb i ind) then ret (items ++ [(tt, p, key, v)], q) else
      start <- a_get ;; k <- a_next_mapping_key input ;;
      match k with None => ret (items ++ [(tt, p, key, v)], q) | Some k => a_map_loop input v2 f ind (items ++ [(tt, p, key, v)]) start k q end) n5 = Ok ((items', p'), n'))).
  { destruct (negb _). { injection H as <- <- <-. split; [apply more_refl|reflexivity]. }
    apply bind_inv in H as (s0 & n6 & E6 & H). apply bind_inv in H as (k & n7 & E7 & H). rewrite (bind_ok _ _ _ _ _ E6), (bind_ok _ _ _ _ _ E7).
    destruct k as [k|]; [apply IH in H; exact H|]. injection H as <- <- <-. split; [apply more_refl|reflexivity]. }
  destruct Y as [M K]. destruct (more_last _ _ _ pick M) as [M' Q]. split; [exact M'|]. intro FA.
  rewrite (bind_ok _ _ _ _ _ (V _ _ _ _ _ E3 (Q FA))), (bind_ok _ _ _ _ _ E4), (bind_ok _ _ _ _ _ E5). now apply K.
Qed.
(* every value directly inside *)
Definition inside (t : tree unit) : Prop :=
  match t with TLeaf _ _ _ => True | TMap _ _ _ _ l => Forall pick l | TSeq _ _ _ _ l => Forall pick l end.
Lemma fol_mapping st start key n t o n' : a_mapping_or_nul input v1 st start key n = Ok ((t, o), n') -> inside t ->
  a_mapping_or_nul input v2 st start key n = Ok ((t, o), n').
Proof.
  unfold a_mapping_or_nul. cbv zeta. intros H I. match type of H with (if ?c then _ else _) _ = _ => destruct c end; [exact H|].
  apply bind_inv in H as ([items w] & n1 & E1 & H). injection H as <- <- <-. cbn [inside] in I.
  destruct (fol_map _ _ _ _ _ _ _ _ _ _ E1) as [_ K]. now rewrite (bind_ok _ _ _ _ _ (K I)).
Qed.
Lemma fol_body st n t o n' : a_value_body input v1 st n = Ok ((t, o), n') -> inside t -> a_value_body input v2 st n = Ok ((t, o), n').
Proof.
  unfold a_value_body. intros H I. apply bind_inv in H as (a & n1 & E1 & H). rewrite (bind_ok _ _ _ _ _ E1).
  apply bind_inv in H as (c & n2 & E2 & H). rewrite (bind_ok _ _ _ _ _ E2).
  destruct (_ && _ && _).
  { unfold a_sequence in *. apply bind_inv in H as (i & n3 & E3 & H). rewrite (bind_ok _ _ _ _ _ E3).
    apply bind_inv in H as ([items w] & n4 & E4 & H). injection H as <- <- <-. cbn [inside] in I.
    destruct (fol_seq _ _ _ _ _ _ _ _ E4) as [_ K]. now rewrite (bind_ok _ _ _ _ _ (K I)). }
  destruct (a =? DQUOTE).
  { apply bind_inv in H as (s & n3 & E3 & H). rewrite (bind_ok _ _ _ _ _ E3). apply bind_inv in H as (x & n4 & E4 & H). rewrite (bind_ok _ _ _ _ _ E4).
    apply bind_inv in H as (p & n5 & E5 & H). rewrite (bind_ok _ _ _ _ _ E5). destruct (_ && _); [|exact H]. now apply fol_mapping. }
  destruct (a =? SQUOTE).
  { apply bind_inv in H as (s & n3 & E3 & H). rewrite (bind_ok _ _ _ _ _ E3). apply bind_inv in H as (x & n4 & E4 & H). rewrite (bind_ok _ _ _ _ _ E4).
    apply bind_inv in H as (p & n5 & E5 & H). rewrite (bind_ok _ _ _ _ _ E5). destruct (_ && _); [|exact H]. now apply fol_mapping. }
  destruct (a =? LBRACK).
  { apply bind_inv in H as (t' & n3 & E3 & H). injection H as <- <- <-.
    assert (X : a_inline_sequence input v2 st n2 = Ok (t', n3)); [|now rewrite (bind_ok _ _ _ _ _ X)].
    unfold a_inline_sequence in *. apply bind_inv in E3 as (u & n4 & E4 & H). rewrite (bind_ok _ _ _ _ _ E4).
    apply bind_inv in H as (p & n5 & E5 & H). rewrite (bind_ok _ _ _ _ _ E5). apply bind_inv in H as ([[items tr] q] & n6 & E6 & H).
    cbv beta iota in H. pose proof (fol_iseq _ _ _ _ _ _ _ _ _ _ E6) as [_ K].
    apply bind_inv in H as (c' & n7 & E7 & H). destruct (negb _) eqn:C; [apply bind_inv in H as (? & ? & ? & H); discriminate|].
    apply bind_inv in H as (u' & n8 & E8 & H). injection H as <- <-. cbn [inside] in I.
    now rewrite (bind_ok _ _ _ _ _ (K I)), (bind_ok _ _ _ _ _ E7), C, (bind_ok _ _ _ _ _ E8). }
  destruct (a =? LBRACE).
  { apply bind_inv in H as (t' & n3 & E3 & H). injection H as <- <- <-.
    assert (X : a_inline_mapping input v2 st n2 = Ok (t', n3)); [|now rewrite (bind_ok _ _ _ _ _ X)].
    unfold a_inline_mapping in *. apply bind_inv in E3 as (u & n4 & E4 & H). rewrite (bind_ok _ _ _ _ _ E4).
    apply bind_inv in H as (s & n4' & E4' & H). rewrite (bind_ok _ _ _ _ _ E4').
    apply bind_inv in H as (p & n5 & E5 & H). rewrite (bind_ok _ _ _ _ _ E5). apply bind_inv in H as ([[[items tr] q] s'] & n6 & E6 & H).
    cbv beta iota in H. pose proof (fol_imap _ _ _ _ _ _ _ _ _ _ _ _ E6) as [_ K].
    apply bind_inv in H as (c' & n7 & E7 & H). destruct (negb _) eqn:C; [apply bind_inv in H as (? & ? & ? & H); discriminate|].
    apply bind_inv in H as (u' & n8 & E8 & H). injection H as <- <-. cbn [inside] in I.
    now rewrite (bind_ok _ _ _ _ _ (K I)), (bind_ok _ _ _ _ _ E7), C, (bind_ok _ _ _ _ _ E8). }
  destruct (_ || _); [exact H|].
  apply bind_inv in H as (s & n3 & E3 & H). rewrite (bind_ok _ _ _ _ _ E3). apply bind_inv in H as (x & n4 & E4 & H). rewrite (bind_ok _ _ _ _ _ E4).
  destruct x as [x|]; [exact H|]. destruct (as_inline st); [exact H|].
  apply bind_inv in H as (k & n5 & E5 & H). rewrite (bind_ok _ _ _ _ _ E5). destruct k as [k|]; [|exact H]. now apply fol_mapping.
Qed.
End Follow.

(* ---- reading: no more is needed than what is read is nested ---- *)
Section Least.
Variable input : bytes.
Variable v : astate -> AM (tree unit * option bytes).
Variable P : tree unit -> Prop.
Hypothesis V : forall st n t o n', v st n = Ok ((t, o), n') -> P t.
Lemma pick_last {A} (l : list (A * tree unit)) x : Forall (pick P) l -> P (snd x) -> Forall (pick P) (l ++ [x]).
Proof. intros F X. apply Forall_app. split; [exact F|]. constructor; [exact X|constructor]. Qed.
Ltac open H := repeat match type of H with
  | bind _ _ _ = Ok _ => let E := fresh "E" in let n := fresh "n" in let a := fresh "a" in apply bind_inv in H as (a & n & E & H)
  | (let '(_, _) := ?x in _) _ = Ok _ => destruct x; cbv beta iota zeta in H
  | (if ?x then _ else _) _ = Ok _ => destruct x
  | (match ?x with Some _ => _ | None => _ end) _ = Ok _ => destruct x
  | a_err _ _ _ _ = _ => discriminate H
  end.
Lemma least_iseq f : forall items last tr p n items' tr' p' n', Forall (pick P) items ->
  a_iseq_loop input v f items last tr p n = Ok ((items', tr', p'), n') -> Forall (pick P) items'.
Proof.
  induction f as [|f IH]; intros items last tr p n items' tr' p' n' F H; [discriminate|]. cbn [a_iseq_loop] in H.
  open H; try (injection H as <- <- <- <-); try (eapply IH; [|exact H]); try exact F; apply pick_last; try exact F; eapply V; eassumption.
Qed.
Lemma least_imap f : forall items last tr st p n items' tr' p' st' n', Forall (pick P) items ->
  a_imap_loop input v f items last tr st p n = Ok ((items', tr', p', st'), n') -> Forall (pick P) items'.
Proof.
  induction f as [|f IH]; intros items last tr st p n items' tr' p' st' n' F H; [discriminate|]. cbn [a_imap_loop] in H.
  open H; try (injection H as <- <- <- <- <-); try (eapply IH; [|exact H]); try exact F; apply pick_last; try exact F; eapply V; eassumption.
Qed.
Lemma least_seq f : forall ind items p n items' p' n', Forall (pick P) items ->
  a_seq_loop input v f ind items p n = Ok ((items', p'), n') -> Forall (pick P) items'.
Proof.
  induction f as [|f IH]; intros ind items p n items' p' n' F H; [discriminate|]. cbn [a_seq_loop] in H.
  open H; try (injection H as <- <- <-); try (eapply IH; [|exact H]); try exact F; apply pick_last; try exact F; eapply V; eassumption.
Qed.
Lemma least_map f : forall ind items st key p n items' p' n', Forall (pick P) items ->
  a_map_loop input v f ind items st key p n = Ok ((items', p'), n') -> Forall (pick P) items'.
Proof.
  induction f as [|f IH]; intros ind items st key p n items' p' n' F H; [discriminate|]. cbn [a_map_loop] in H.
  open H; try (injection H as <- <- <-); try (eapply IH; [|exact H]); try exact F; apply pick_last; try exact F; eapply V; eassumption.
Qed.
Lemma least_mapping st start key n t o n' : a_mapping_or_nul input v st start key n = Ok ((t, o), n') -> inside P t.
Proof.
  unfold a_mapping_or_nul. cbv zeta. intro H. open H; injection H as <- <- <-; [exact Logic.I|]. cbn [inside]. eapply least_map; [|eassumption]. constructor.
Qed.
Lemma least_body st n t o n' : a_value_body input v st n = Ok ((t, o), n') -> inside P t.
Proof.
  unfold a_value_body, a_sequence, a_inline_sequence, a_inline_mapping. intro H.
  open H; try (eapply least_mapping; exact H);
    repeat match goal with E : bind _ _ _ = Ok _ |- _ => progress open E end;
    repeat match goal with E : ret _ _ = Ok _ |- _ => injection E; clear E; intros; subst end;
    try exact Logic.I; cbn [inside].
  - eapply least_seq; [|eassumption]. constructor.
  - eapply least_iseq; [|eassumption]. constructor.
  - eapply least_imap; [|eassumption]. constructor.
Qed.
End Least.
Definition need {I} (t : tree I) : nat := nesting (see t).
Lemma need_map {I} (i : I) p n k l : need (TMap i p n k l) = S (list_max (map (fun it => need (snd it)) l)).
Proof. unfold need. cbn [see nesting]. rewrite map_map. do 2 f_equal. apply map_ext. now intros [[[ii ip] key] v]. Qed.
Lemma need_seq {I} (i : I) p n k l : need (TSeq i p n k l) = S (list_max (map (fun it => need (snd it)) l)).
Proof. unfold need. cbn [see nesting]. rewrite map_map. do 2 f_equal. apply map_ext. now intros [[ii ip] v]. Qed.
Lemma need_leaf {I} (i : I) p s : need (TLeaf i p s) = 1%nat.
Proof. unfold need. destruct s; reflexivity. Qed.
Lemma inside_need f t : inside (fun t => (need t <= f)%nat) t <-> (need t <= S f)%nat.
Proof.
  assert (G : forall A (l : list (A * tree unit)), Forall (pick (fun t => (need t <= f)%nat)) l <-> (S (list_max (map (fun it => need (snd it)) l)) <= S f)%nat).
  { intros A l. rewrite <- Nat.succ_le_mono. rewrite list_max_le, Forall_map. reflexivity. }
  destruct t as [i p s|i p n k l|i p n k l]; cbn [inside].
  - rewrite need_leaf. split; [lia|exact (fun _ => Logic.I)].
  - rewrite need_map. apply G.
  - rewrite need_seq. apply G.
Qed.
Lemma need_pos {I} (t : tree I) : (1 <= need t)%nat.
Proof. destruct t; [rewrite need_leaf|rewrite need_map|rewrite need_seq]; lia. Qed.
Lemma a_least input f : forall st n t o n', a_value input f st n = Ok ((t, o), n') -> (need t <= f)%nat.
Proof.
  induction f as [|f IH]; intros st n t o n' H; [discriminate|]. cbn [a_value] in H. apply inside_need.
  eapply least_body; [|exact H]. exact IH.
Qed.
Lemma a_enough input F : forall f st n t o n', a_value input F st n = Ok ((t, o), n') -> (need t <= f)%nat -> a_value input f st n = Ok ((t, o), n').
Proof.
  induction F as [|F IH]; intros f st n t o n' H L; [discriminate|]. pose proof (need_pos t). destruct f as [|f]; [lia|]. cbn [a_value] in *.
  eapply fol_body; [|exact H|apply inside_need; exact L]. intros st' n0 t' o' n0' H' L'. now apply IH.
Qed.

(* ---- the whole text ---- *)
Section Whole.
Variable hash : bytes -> sid.
Variable input : bytes.
Definition a_parse_within (d : nat) : AM (tree unit * bytes) :=
  prefix <- a_start_of_document input ;;
  '(root, suffix) <- a_value input d (AState prefix false true None) ;;
  suffix <- a_or_ws input suffix ;;
  eof <- a_eof input ;;
  if negb eof then n <- a_get ;; a_err n (length input) ExpectedEof else
  ret (root, suffix).
Theorem sim_parse_within d : sim hash (parse_within d hash input) (a_parse_within d) (Pst 0 [] data_empty) (Qdoc hash).
Proof.
  assert (H : St hash [] [] [] (Pst 0 [] data_empty)).
  { split; [split; [apply has_empty|reflexivity]|]. split; [apply table_ok_empty|]. split; [constructor|reflexivity]. }
  unfold parse_within, a_parse_within. eapply sim_bind with (Q1 := Qstr hash [] [] []).
  { unfold start_of_document, a_start_of_document.
    eapply sim_bind; [eapply sim_ws; exact H|]. intros p p' s1 (-> & H1).
    eapply (sim_mono hash input); [eapply sim_sod_loop; [exact H1|]; now left|].
    intros x y s2 (-> & H2). split; [reflexivity|]. eapply St_incl; [|exact H2]. intros z [<-|[]]. now left. }
  intros p p' s1 (-> & H1). eapply sim_bind.
  { eapply sim_value with (ast := AState p' false true None); [repeat split| |exact H1]. now left. }
  intros [x o] [t o'] s2 (t' & E1 & E2 & E3 & H2). cbn [fst snd st_parent] in *. subst.
  eapply sim_bind.
  { eapply sim_or_ws; [exact H2|]. intros y ->. now left. }
  intros w w' s3 (-> & H3). apply sim_eof. destruct (Nat.eqb _ _); cbn [negb].
  2: { apply sim_get. unfold sim; cbn; auto. }
  unfold sim. cbn. split; [reflexivity|]. exists t'. split; [reflexivity|].
  destruct H3 as (A1 & A2 & A3 & A4). rewrite app_nil_r in A1. destruct A1 as [A1 AL].
  split; [|cbn [doc_data]; rewrite (has_len _ _ A1); exact AL]. repeat split; auto; try apply A1.
  - rewrite Forall_forall in *. intros x X. apply A3. right. rewrite !in_app_iff. auto.
  - now inversion A3.
Qed.
Lemma a_parse_value r : a_parse input = Ok r -> exists p n t o n', a_start_of_document input O = Ok (p, n) /\
  a_value input (S (length input)) (AState p false true None) n = Ok ((t, o), n') /\ fst r = t /\
  forall d, (need t <= d)%nat -> exists n'', a_parse_within d O = Ok (r, n'').
Proof.
  unfold a_parse. destruct (a_parse_m input O) as [[r' m]|? ? ?| | |] eqn:E; try discriminate. intros [= ->]. unfold a_parse_m in E.
  apply bind_inv in E as (p & n & E1 & H). apply bind_inv in H as ([t o] & n' & E2 & H). cbv beta iota in H.
  exists p, n, t, o, n'. split; [exact E1|]. split; [exact E2|].
  assert (X : fst r = t).
  { apply bind_inv in H as (? & ? & ? & H). apply bind_inv in H as (? & ? & ? & H). destruct (negb _); [apply bind_inv in H as (? & ? & ? & H); discriminate|].
    injection H as <- _. reflexivity. }
  split; [exact X|]. intros d L. exists m. unfold a_parse_within. rewrite (bind_ok _ _ _ _ _ E1), (bind_ok _ _ _ _ _ (a_enough _ _ _ _ _ _ _ _ E2 L)). exact H.
Qed.
Lemma a_within_value d r m : a_parse_within d O = Ok (r, m) -> exists p n t o n', a_start_of_document input O = Ok (p, n) /\
  a_value input d (AState p false true None) n = Ok ((t, o), n').
Proof.
  unfold a_parse_within. intro E. apply bind_inv in E as (p & n & E1 & H). apply bind_inv in H as ([t o] & n' & E2 & H). exists p, n, t, o, n'. auto.
Qed.
Lemma within_enough doc r d : from_slice hash input = Ok doc -> a_parse input = Ok r -> (need (fst r) <= d)%nat -> from_slice_within d hash input = Ok doc.
Proof.
  intros F A L. destruct (a_parse_value r A) as (p & n & t & o & n' & _ & V & T & K). rewrite T in L. destruct (K d L) as [m W].
  pose proof (sim_parse_within d) as S. unfold sim in S. cbn [p_n] in S. rewrite W in S.
  destruct (parse_within d hash input (Pst 0 [] data_empty)) as [[doc' s']|? ? ?| | |] eqn:E; try tauto.
  assert (F' : from_slice_within d hash input = Ok doc') by (unfold from_slice_within; now rewrite E).
  destruct (le_ge_dec d (Datatypes.S (length input))) as [C|C].
  - destruct (mono_within hash input _ _ C) as [X|X]; [congruence|]. rewrite within_all in X. congruence.
  - destruct (mono_within hash input _ _ C) as [X|X]; rewrite within_all in X; congruence.
Qed.
Lemma within_least doc r d : from_slice hash input = Ok doc -> a_parse input = Ok r -> (d < need (fst r))%nat -> from_slice_within d hash input = OutOfFuel.
Proof.
  intros F A L. destruct (a_parse_value r A) as (p & n & t & o & n' & SD & V & T & _). rewrite T in L. pose proof (a_least _ _ _ _ _ _ _ V) as LT.
  assert (C : (d <= Datatypes.S (length input))%nat) by lia.
  destruct (mono_within hash input _ _ C) as [X|X]; [exact X|]. exfalso. rewrite within_all, F in X.
  pose proof (sim_parse_within d) as S. unfold sim in S. cbn [p_n] in S. unfold from_slice_within in X.
  destruct (parse_within d hash input (Pst 0 [] data_empty)) as [[doc' s']|? ? ?| | |] eqn:E; try discriminate.
  destruct (a_parse_within d O) as [[r' m]|? ? ?| | |] eqn:W; try tauto.
  destruct (a_within_value d r' m W) as (p' & n1 & t' & o' & n1' & SD' & V'). rewrite SD in SD'. injection SD' as <- <-.
  pose proof (a_least _ _ _ _ _ _ _ V') as LT'.
  pose proof (a_enough _ _ (Datatypes.S (length input)) _ _ _ _ _ V' ltac:(lia)) as V''. rewrite V in V''. injection V'' as <- _ _. lia.
Qed.
End Whole.

(* ---- writing ---- *)
Lemma cat_inv x y z : x +++ y = Ok z -> exists u v, x = Ok u /\ y = Ok v /\ z = u ++ v.
Proof. destruct x; cbn; try discriminate. destruct y; cbn; try discriminate. intros [= <-]. eauto. Qed.
Lemma less_cat x x' y y' : less x x' -> less y y' -> less (x +++ y) (x' +++ y').
Proof.
  intros [->| ->] [->| ->]; unfold less; auto. destruct x'; cbn; auto.
Qed.

Lemma less_omap g x y : less x y -> less (omap g x) (omap g y).
Proof. intros [->| ->]; [left; reflexivity|apply less_refl]. Qed.
Section WriteMono.
Variable d : data.
Section Items.
Variables w1 w2 : raw sid -> outcome bytes.
Hypothesis W : forall r, less (w1 r) (w2 r).
Lemma mono_wvalue v : less (write_value d w1 v) (write_value d w2 v).
Proof. unfold write_value. apply less_cat; [apply less_refl|]. destruct (raw_of d v); try apply less_refl. apply W. Qed.
Lemma mono_wseq k l : less (write_seq_items d w1 k l) (write_seq_items d w2 k l).
Proof.
  induction l as [|it l IH]; cbn [write_seq_items]; [apply less_refl|]. repeat (apply less_cat; [try apply less_refl|]); try exact IH.
  destruct (sequence_item d it); try apply less_refl. apply mono_wvalue.
Qed.
Lemma mono_wmap k l : less (write_map_items d w1 k l) (write_map_items d w2 k l).
Proof.
  induction l as [|it l IH]; cbn [write_map_items]; [apply less_refl|]. apply less_cat; [apply less_refl|]. apply less_cat; [|apply less_cat; [apply less_refl|exact IH]].
  destruct (mapping_item d it) as [[key v]| | | |]; try apply less_refl. apply less_cat; [apply less_refl|]. apply less_cat; [apply less_refl|]. apply mono_wvalue.
Qed.
End Items.
Lemma mono_wraw f : forall g r, (f <= g)%nat -> less (write_raw d f r) (write_raw d g r).
Proof.
  induction f as [|f IH]; intros g r L; [left; reflexivity|]. destruct g as [|g]; [lia|]. cbn [write_raw].
  destruct r; repeat match goal with |- less (_ +++ _) (_ +++ _) => apply less_cat end; try apply less_refl;
    (apply mono_wvalue || apply mono_wseq || apply mono_wmap); intro r; apply IH; lia.
Qed.
Section Items2.
Variables w1 w2 : raw sid -> option nat -> outcome bytes.
Hypothesis W : forall r p, less (w1 r p) (w2 r p).
Lemma mono_dvalue v : less (disp_value d w1 v) (disp_value d w2 v).
Proof. unfold disp_value. destruct (raw_of d v); try apply less_refl. apply W. Qed.
Lemma mono_dseq k l : less (disp_seq_items d w1 k l) (disp_seq_items d w2 k l).
Proof.
  induction l as [|it l IH]; cbn [disp_seq_items]; [apply less_refl|]. repeat (apply less_cat; [try apply less_refl|]); try exact IH.
  destruct (sequence_item d it); try apply less_refl. apply mono_dvalue.
Qed.
Lemma mono_dmap k l : less (disp_map_items d w1 k l) (disp_map_items d w2 k l).
Proof.
  induction l as [|it l IH]; cbn [disp_map_items]; [apply less_refl|]. apply less_cat; [|apply less_cat; [apply less_refl|exact IH]].
  destruct (mapping_item d it) as [[key v]| | | |]; try apply less_refl. do 3 (apply less_cat; [apply less_refl|]). apply mono_dvalue.
Qed.
End Items2.
Lemma mono_draw f : forall g r p, (f <= g)%nat -> less (disp_raw d f r p) (disp_raw d g r p).
Proof.
  induction f as [|f IH]; intros g r p L; [left; reflexivity|]. destruct g as [|g]; [lia|]. cbn [disp_raw].
  destruct r; repeat match goal with |- less (_ +++ _) (_ +++ _) => apply less_cat end; try apply less_refl;
    (apply mono_dvalue || apply mono_dseq || apply mono_dmap); intros r q; apply IH; lia.
Qed.
End WriteMono.
Section WriteNeed.
Variable hash : bytes -> sid.
Variable d : data.
Local Notation cells := (cells hash).
Local Notation traw := (traw hash).
Ltac parts H := repeat match type of H with _ +++ _ = Ok _ => let E := fresh "E" in let E' := fresh "E'" in apply cat_inv in H as (? & ? & E & E' & ->); rename E' into H end.
Lemma wvalue_need v par F x : holds d (cells par v) ->
  (forall F x, write_raw d F (traw v) = Ok x -> (need v <= F)%nat /\ forall f, (need v <= f)%nat -> write_raw d f (traw v) = Ok x) ->
  write_value d (write_raw d F) (tid v) = Ok x -> (need v <= F)%nat /\ forall f, (need v <= f)%nat -> write_value d (write_raw d f) (tid v) = Ok x.
Proof.
  intros Hv IH H. unfold write_value, raw_of in *. destruct (holds_tree hash _ _ _ Hv) as (G & _). rewrite G in *.
  apply cat_inv in H as (u & w & E1 & E2 & ->). destruct (IH _ _ E2) as [L K]. split; [exact L|]. intros f Lf. now rewrite E1, (K f Lf).
Qed.
Lemma dvalue_need v par F x : holds d (cells par v) ->
  (forall F p x, disp_raw d F (traw v) p = Ok x -> (need v <= F)%nat /\ forall f, (need v <= f)%nat -> disp_raw d f (traw v) p = Ok x) ->
  disp_value d (disp_raw d F) (tid v) = Ok x -> (need v <= F)%nat /\ forall f, (need v <= f)%nat -> disp_value d (disp_raw d f) (tid v) = Ok x.
Proof.
  intros Hv IH H. unfold disp_value, raw_of in *. destruct (holds_tree hash _ _ _ Hv) as (G & _). rewrite G in *. now apply IH.
Qed.
Lemma wraw_need t : forall par F x, holds d (cells par t) -> write_raw d F (traw t) = Ok x ->
  (need t <= F)%nat /\ forall f, (need t <= f)%nat -> write_raw d f (traw t) = Ok x.
Proof.
  induction t as [i p s|i p n k items IH|i p n k items IH] using tree_ind'; intros par F x H W; (destruct F as [|F]; [discriminate|]).
  - rewrite need_leaf. split; [lia|]. intros [|f] L; [lia|exact W].
  - rewrite need_map. cbn [Tree.traw write_raw] in W. apply cat_inv in W as (u & z & E1 & W & ->). apply cat_inv in W as (y & q & E & Q & ->).
    assert (X : (list_max (map (fun it => need (snd it)) items) <= F)%nat /\ forall f, (list_max (map (fun it => need (snd it)) items) <= f)%nat ->
       write_map_items d (write_raw d f) (ckmap hash k) (map mitem_id items) = Ok y).
    { cbn in H. apply holds_cons in H as [_ H]. clear Q. revert y E. induction items as [|[[[ii ip] key] v] items IHi]; intros y E; [split; [cbn; lia|intros; exact E]|].
      cbn in H. apply holds_cons in H as [Hi H]. apply holds_app in H as [Hv H]. inversion IH as [|? ? IHv IH']; subst. cbn [snd] in IHv.
      cbn [map write_map_items mitem_id fst] in E. 
      assert (MI : mapping_item d ii = Ok (rsmap hash key, tid v)) by (unfold mapping_item, get_raw, get_entry; rewrite Hi; reflexivity).
      rewrite MI in E. apply cat_inv in E as (u1 & z1 & F1 & E & ->). apply cat_inv in E as (u2 & z2 & F2 & E & ->). apply cat_inv in E as (u3 & z3 & F3 & E & ->).
      apply cat_inv in F2 as (u4 & z4 & F4 & F2 & ->). apply cat_inv in F2 as (u5 & z5 & F5 & F2 & ->).
      destruct (wvalue_need v _ F z5 Hv (fun F x => IHv _ F x Hv) F2) as [L1 K1]. destruct (IHi IH' H _ E) as [L2 K2].
      cbn [map snd list_max fold_right]. unfold list_max in *. split; [lia|]. intros f Lf. cbn [map write_map_items mitem_id fst]. rewrite MI.
      rewrite F1, F4, F5, (K1 f) by lia. rewrite F3, K2 by lia. reflexivity. }
    destruct X as [L K]. split; [lia|]. intros [|f] Lf; [lia|]. cbn [Tree.traw write_raw]. rewrite E1, K by lia. now rewrite Q.
  - rewrite need_seq. cbn [Tree.traw write_raw] in W. apply cat_inv in W as (u & z & E1 & W & ->). apply cat_inv in W as (y & q & E & Q & ->).
    assert (X : (list_max (map (fun it => need (snd it)) items) <= F)%nat /\ forall f, (list_max (map (fun it => need (snd it)) items) <= f)%nat ->
       write_seq_items d (write_raw d f) (ckmap hash k) (map sitem_id items) = Ok y).
    { cbn in H. apply holds_cons in H as [_ H]. clear Q. revert y E. induction items as [|[[ii ip] v] items IHi]; intros y E; [split; [cbn; lia|intros; exact E]|].
      cbn in H. apply holds_cons in H as [Hi H]. apply holds_app in H as [Hv H]. inversion IH as [|? ? IHv IH']; subst. cbn [snd] in IHv.
      cbn [map write_seq_items sitem_id fst] in E. 
      assert (MI : sequence_item d ii = Ok (tid v)) by (unfold sequence_item, get_raw, get_entry; rewrite Hi; reflexivity).
      rewrite MI in E. apply cat_inv in E as (u1 & z1 & F1 & E & ->). apply cat_inv in E as (u2 & z2 & F2 & E & ->). apply cat_inv in E as (u3 & z3 & F3 & E & ->).
      apply cat_inv in E as (u4 & z4 & F4 & E & ->).
      destruct (wvalue_need v _ F u3 Hv (fun F x => IHv _ F x Hv) F3) as [L1 K1]. destruct (IHi IH' H _ E) as [L2 K2].
      cbn [map snd list_max fold_right]. unfold list_max in *. split; [lia|]. intros f Lf. cbn [map write_seq_items sitem_id fst]. rewrite MI.
      rewrite F1, F2, (K1 f) by lia. rewrite F4, K2 by lia. reflexivity. }
    destruct X as [L K]. split; [lia|]. intros [|f] Lf; [lia|]. cbn [Tree.traw write_raw]. rewrite E1, K by lia. now rewrite Q.
Qed.
Lemma draw_need t : forall par F p x, holds d (cells par t) -> disp_raw d F (traw t) p = Ok x ->
  (need t <= F)%nat /\ forall f, (need t <= f)%nat -> disp_raw d f (traw t) p = Ok x.
Proof.
  induction t as [i pr s|i pr n k items IH|i pr n k items IH] using tree_ind'; intros par F p x H W; (destruct F as [|F]; [discriminate|]).
  - rewrite need_leaf. split; [lia|]. intros [|f] L; [lia|exact W].
  - rewrite need_map. cbn [Tree.traw disp_raw] in W. apply cat_inv in W as (u0 & z0 & E0 & W & ->). apply cat_inv in W as (u & z & E1 & W & ->). apply cat_inv in W as (y & q & E & Q & ->).
    assert (X : (list_max (map (fun it => need (snd it)) items) <= F)%nat /\ forall f, (list_max (map (fun it => need (snd it)) items) <= f)%nat ->
       disp_map_items d (disp_raw d f) (ckmap hash k) (map mitem_id items) = Ok y).
    { cbn in H. apply holds_cons in H as [_ H]. clear Q E0. revert y E. induction items as [|[[[ii ip] key] v] items IHi]; intros y E; [split; [cbn; lia|intros; exact E]|].
      cbn in H. apply holds_cons in H as [Hi H]. apply holds_app in H as [Hv H]. inversion IH as [|? ? IHv IH']; subst. cbn [snd] in IHv.
      cbn [map disp_map_items mitem_id fst] in E. 
      assert (MI : mapping_item d ii = Ok (rsmap hash key, tid v)) by (unfold mapping_item, get_raw, get_entry; rewrite Hi; reflexivity).
      rewrite MI in E. apply cat_inv in E as (u1 & z1 & F1 & E & ->). apply cat_inv in E as (u2 & z2 & F2 & E & ->).
      apply cat_inv in F1 as (u4 & z4 & F4 & F1 & ->). apply cat_inv in F1 as (u5 & z5 & F5 & F1 & ->). apply cat_inv in F1 as (u6 & z6 & F6 & F1 & ->).
      destruct (dvalue_need v _ F z6 Hv (fun F p x => IHv _ F p x Hv) F1) as [L1 K1]. destruct (IHi IH' H _ E) as [L2 K2].
      cbn [map snd list_max fold_right]. unfold list_max in *. split; [lia|]. intros f Lf. cbn [map disp_map_items mitem_id fst]. rewrite MI.
      rewrite F4, F5, F6, (K1 f) by lia. rewrite F2, K2 by lia. reflexivity. }
    destruct X as [L K]. split; [lia|]. intros [|f] Lf; [lia|]. cbn [Tree.traw disp_raw]. rewrite E0, E1, K by lia. now rewrite Q.
  - rewrite need_seq. cbn [Tree.traw disp_raw] in W. apply cat_inv in W as (u0 & z0 & E0 & W & ->). apply cat_inv in W as (u & z & E1 & W & ->). apply cat_inv in W as (y & q & E & Q & ->).
    assert (X : (list_max (map (fun it => need (snd it)) items) <= F)%nat /\ forall f, (list_max (map (fun it => need (snd it)) items) <= f)%nat ->
       disp_seq_items d (disp_raw d f) (ckmap hash k) (map sitem_id items) = Ok y).
    { cbn in H. apply holds_cons in H as [_ H]. clear Q E0. revert y E. induction items as [|[[ii ip] v] items IHi]; intros y E; [split; [cbn; lia|intros; exact E]|].
      cbn in H. apply holds_cons in H as [Hi H]. apply holds_app in H as [Hv H]. inversion IH as [|? ? IHv IH']; subst. cbn [snd] in IHv.
      cbn [map disp_seq_items sitem_id fst] in E. 
      assert (MI : sequence_item d ii = Ok (tid v)) by (unfold sequence_item, get_raw, get_entry; rewrite Hi; reflexivity).
      rewrite MI in E. apply cat_inv in E as (u1 & z1 & F1 & E & ->). apply cat_inv in E as (u2 & z2 & F2 & E & ->). apply cat_inv in E as (u3 & z3 & F3 & E & ->).
      apply cat_inv in E as (u4 & z4 & F4 & E & ->).
      destruct (dvalue_need v _ F u3 Hv (fun F p x => IHv _ F p x Hv) F3) as [L1 K1]. destruct (IHi IH' H _ E) as [L2 K2].
      cbn [map snd list_max fold_right]. unfold list_max in *. split; [lia|]. intros f Lf. cbn [map disp_seq_items sitem_id fst]. rewrite MI.
      rewrite F1, F2, (K1 f) by lia. rewrite F4, K2 by lia. reflexivity. }
    destruct X as [L K]. split; [lia|]. intros [|f] Lf; [lia|]. cbn [Tree.traw disp_raw]. rewrite E0, E1, K by lia. now rewrite Q.
Qed.
Lemma write_short t par f F x : holds d (cells par t) -> write_raw d F (traw t) = Ok x -> (f < need t)%nat -> write_raw d f (traw t) = OutOfFuel.
Proof.
  intros H W L. destruct (wraw_need t par F x H W) as [LF _]. destruct (mono_wraw d f F (traw t) ltac:(lia)) as [E|E]; [exact E|].
  rewrite W in E. destruct (wraw_need t par f x H E). lia.
Qed.
Lemma disp_short t par f F p x : holds d (cells par t) -> disp_raw d F (traw t) p = Ok x -> (f < need t)%nat -> disp_raw d f (traw t) p = OutOfFuel.
Proof.
  intros H W L. destruct (draw_need t par F p x H W) as [LF _]. destruct (mono_draw d f F (traw t) p ltac:(lia)) as [E|E]; [exact E|].
  rewrite W in E. destruct (draw_need t par f p x H E). lia.
Qed.
End WriteNeed.
Lemma write_within hash doc t suf out f : models hash doc t suf -> write_to doc = Ok out ->
  write_to_within f doc = if (need t <=? f)%nat then Ok out else OutOfFuel.
Proof.
  intros ((H & _) & R & _) W. pose proof (has_holds _ _ H) as HH. destruct (holds_tree hash _ _ _ HH) as (G & _). unfold write_to, write_to_within in *. rewrite R in *. rewrite G in *.
  apply cat_inv in W as (u & z & E1 & W & ->). apply cat_inv in W as (y & q & E & Q & ->). destruct (wraw_need hash _ t _ _ _ HH E) as [L K].
  destruct (Nat.leb_spec (need t) f) as [C|C]; rewrite E1; [now rewrite K, Q|]. now rewrite (write_short hash _ t _ _ _ _ HH E C).
Qed.
Lemma string_within hash doc t suf out f : models hash doc t suf -> to_string doc = Ok out ->
  to_string_within f doc = if (need t <=? f)%nat then Ok out else OutOfFuel.
Proof.
  intros ((H & _) & R & _) W. pose proof (has_holds _ _ H) as HH. destruct (holds_tree hash _ _ _ HH) as (G & _). unfold to_string, to_string_within in *. rewrite R in *. rewrite G in *.
  apply cat_inv in W as (u & z & E1 & W & ->). apply cat_inv in W as (y & q & E & Q & ->). destruct (draw_need hash _ t _ _ _ _ HH E) as [L K].
  destruct (Nat.leb_spec (need t) f) as [C|C]; rewrite E1; [now rewrite K, Q|]. now rewrite (disp_short hash _ t _ _ _ _ _ HH E C).
Qed.

(* ---- nesting can be seen, whatever the hash ---- *)
Lemma need_tsm g (t : tree nat) : need (tsm g t) = need t.
Proof.
  induction t as [i p s|i p n k items IH|i p n k items IH] using tree_ind'.
  - cbn [tsm]. now rewrite !need_leaf.
  - cbn [tsm]. rewrite !need_map. do 2 f_equal. rewrite map_map. apply map_ext_in. intros [[[ii ip] key] v] J. rewrite Forall_forall in IH. exact (IH _ J).
  - cbn [tsm]. rewrite !need_seq. do 2 f_equal. rewrite map_map. apply map_ext_in. intros [[ii ip] v] J. rewrite Forall_forall in IH. exact (IH _ J).
Qed.
Lemma need_shape (t : tree nat) : need (shape t) = need t.
Proof. unfold need. now rewrite see_shape. Qed.
Lemma sub_tsm g t v : sub t v -> sub (tsm g t) (tsm g v).
Proof.
  induction 1 as [|i p n k items ii ip key v S IH J|i p n k items ii ip v S IH J]; [apply sub_here| |]; cbn [tsm] in IH.
  - eapply sub_map; [exact IH|]. apply in_map_iff. exists (ii, ip, key, v). split; [reflexivity|exact J].
  - eapply sub_seq; [exact IH|]. apply in_map_iff. exists (ii, ip, v). split; [reflexivity|exact J].
Qed.
Lemma shown_need hash doc t suf v x : models hash doc t suf -> sub t v -> shows (doc_data doc) (tid v) x -> need v = nesting x.
Proof.
  intros (M & R & _) SV S. destruct M as (H & T & F).
  assert (K : Forall (fun s => hash (look hash (doc_data doc) s) = hash s /\ logged hash (doc_data doc) (look hash (doc_data doc) s) /\ interned hash (doc_data doc) (look hash (doc_data doc) s)) (strings t)).
  { revert F. apply Forall_impl. intros s L. destruct (in_assoc hash _ _ _ L) as [y E]. unfold look, interned, logged.
    rewrite E. pose proof (assoc_in _ _ _ E) as I. pose proof (T _ _ I) as <-. auto. }
  assert (M' : models_at hash None (doc_data doc) (tsm (look hash (doc_data doc)) t)).
  { split; [|split; [exact T|]].
    - rewrite cells_tsm; [exact H|]. revert K. apply Forall_impl. tauto.
    - rewrite strings_tsm. apply Forall_map. revert K. apply Forall_impl. tauto. }
  assert (FI : Forall (interned hash (doc_data doc)) (strings (tsm (look hash (doc_data doc)) t))) by (rewrite strings_tsm; apply Forall_map; revert K; apply Forall_impl; tauto).
  pose proof (tree_shows hash _ _ _ M' FI _ (sub_tsm _ _ _ SV)) as S'. rewrite tid_tsm in S'.
  rewrite <- (proj1 (shows_det _) _ _ S' _ S). symmetry. apply need_tsm.
Qed.
Lemma root_need hash doc t suf x : models hash doc t suf -> shows (doc_data doc) (doc_root doc) x -> need t = nesting x.
Proof. intros M S. pose proof M as (_ & R & _). rewrite R in S. exact (shown_need hash doc t suf t x M (sub_here t) S). Qed.

(* ---- removing ---- *)
Section Removing.
Variable hash : bytes -> sid.
Local Notation kids := (kids hash).
Local Notation traw := (traw hash).
Local Notation mcells := (mcells hash).
Local Notation scells := (scells hash).
Local Open Scope nat_scope.
Lemma drop_need t : forall f d F, has (d_slab d) (kids t ++ F) ->
  (2 * need t <= S f -> exists s', drop_kind_f f (traw t) d = Ok (tt, set_slab d s') /\ has s' F) /\
  (S f < 2 * need t -> drop_kind_f f (traw t) d = OutOfFuel).
Proof.
  induction t as [i p s|i p n k items IH|i p n k items IH] using tree_ind'; intros f d F H.
  - rewrite need_leaf. split; intro L; (destruct f as [|f]; [|]); try lia; [|reflexivity].
    cbn in *. exists (d_slab d). split; [destruct d; reflexivity|exact H].
  - rewrite need_map. destruct f as [|f]; [split; [lia|reflexivity]|].
    cbn [Tree.traw drop_kind_f Tree.kids] in *.
    enough (X : (2 * list_max (map (fun it => need (snd it)) items) <= f -> exists s', drop_all (drop_kind_f f) (map mitem_id items) d = Ok (tt, set_slab d s') /\ has s' F) /\
      (f < 2 * list_max (map (fun it => need (snd it)) items) -> drop_all (drop_kind_f f) (map mitem_id items) d = OutOfFuel)).
    { destruct X as [X Y]. split; intro L; [apply X|apply Y]; lia. }
    revert d H. induction items as [|[[[ii ip] key] v] items IHi]; intros d H; cbn [map drop_all flat_map] in *.
    + split; [|cbn; lia]. intros _. exists (d_slab d). split; [destruct d; reflexivity|exact H].
    + inversion IH as [|x y IHv IH']; subst. cbn [snd] in *. clear IH.
      cbn [Tree.mcells app] in H. rewrite <- app_assoc in H.
      change (list_max (?x :: ?l)) with (Nat.max x (list_max l)).
      destruct (has_remove _ _ _ _ H) as (s1 & E1 & H1 & _).
      rewrite cells_eq in H1. cbn [app] in H1.
      destruct (has_remove _ _ _ _ H1) as (s2 & E2 & H2 & _).
      pose proof (need_pos v) as NP. unfold bind, drop_id. cbn [mitem_id fst]. rewrite E1. cbn [e_raw].
      destruct f as [|f]; [split; [lia|reflexivity]|]. cbn [drop_kind_f].
      unfold drop_value. cbn [d_slab set_slab]. rewrite E2. cbn [tentry e_raw].
      change (Data (d_strings (Data (d_strings d) s1)) s2) with (set_slab (set_slab d s1) s2).
      destruct (IHv f (set_slab (set_slab d s1) s2) (flat_map (mcells i) items ++ F) H2) as [V1 V2].
      destruct (le_lt_dec (2 * need v) (S f)) as [LV|LV]; [|rewrite (V2 LV); split; [lia|reflexivity]].
      destruct (V1 LV) as (s3 & E3 & H3). rewrite E3. destruct (IHi IH' (set_slab d s3) H3) as [I1 I2]. 
      change (set_slab (set_slab (set_slab d s1) s2) s3) with (set_slab d s3). split; intro L.
      * destruct I1 as (s4 & E4 & H4); [lia|]. exists s4. split; [exact E4|exact H4].
      * apply I2. lia.
  - rewrite need_seq. destruct f as [|f]; [split; [lia|reflexivity]|].
    cbn [Tree.traw drop_kind_f Tree.kids] in *.
    enough (X : (2 * list_max (map (fun it => need (snd it)) items) <= f -> exists s', drop_all (drop_kind_f f) (map sitem_id items) d = Ok (tt, set_slab d s') /\ has s' F) /\
      (f < 2 * list_max (map (fun it => need (snd it)) items) -> drop_all (drop_kind_f f) (map sitem_id items) d = OutOfFuel)).
    { destruct X as [X Y]. split; intro L; [apply X|apply Y]; lia. }
    revert d H. induction items as [|[[ii ip] v] items IHi]; intros d H; cbn [map drop_all flat_map] in *.
    + split; [|cbn; lia]. intros _. exists (d_slab d). split; [destruct d; reflexivity|exact H].
    + inversion IH as [|x y IHv IH']; subst. cbn [snd] in *. clear IH.
      cbn [Tree.scells app] in H. rewrite <- app_assoc in H.
      change (list_max (?x :: ?l)) with (Nat.max x (list_max l)).
      destruct (has_remove _ _ _ _ H) as (s1 & E1 & H1 & _).
      rewrite cells_eq in H1. cbn [app] in H1.
      destruct (has_remove _ _ _ _ H1) as (s2 & E2 & H2 & _).
      pose proof (need_pos v) as NP. unfold bind, drop_id. cbn [sitem_id fst]. rewrite E1. cbn [e_raw].
      destruct f as [|f]; [split; [lia|reflexivity]|]. cbn [drop_kind_f].
      unfold drop_value. cbn [d_slab set_slab]. rewrite E2. cbn [tentry e_raw].
      change (Data (d_strings (Data (d_strings d) s1)) s2) with (set_slab (set_slab d s1) s2).
      destruct (IHv f (set_slab (set_slab d s1) s2) (flat_map (scells i) items ++ F) H2) as [V1 V2].
      destruct (le_lt_dec (2 * need v) (S f)) as [LV|LV]; [|rewrite (V2 LV); split; [lia|reflexivity]].
      destruct (V1 LV) as (s3 & E3 & H3). rewrite E3. destruct (IHi IH' (set_slab d s3) H3) as [I1 I2]. 
      change (set_slab (set_slab (set_slab d s1) s2) s3) with (set_slab d s3). split; intro L.
      * destruct I1 as (s4 & E4 & H4); [lia|]. exists s4. split; [exact E4|exact H4].
      * apply I2. lia.
Qed.
Lemma mono_drop f : forall g r, f <= g -> lessm (drop_kind_f f r) (drop_kind_f g r).
Proof.
  induction f as [|f IH]; intros g r L; [intro s; left; reflexivity|]. destruct g as [|g]; [lia|]. cbn [drop_kind_f].
  assert (A : forall l, lessm (drop_all (drop_kind_f f) l) (drop_all (drop_kind_f g) l)).
  { induction l as [|x l IHl]; cbn [drop_all]; [apply lessm_refl|]. apply lessm_bind; [|intros; exact IHl]. intro s. unfold drop_id.
    destruct (slab_try_remove (d_slab s) x) as [[e s']|]; [|apply less_refl]. apply IH. lia. }
  assert (V : forall v, lessm (drop_value (drop_kind_f f) v) (drop_value (drop_kind_f g) v)).
  { intros v s. unfold drop_value. destruct (slab_try_remove (d_slab s) v) as [[e s']|]; [|apply less_refl]. apply IH. lia. }
  destruct r; auto using lessm_refl.
Qed.
Lemma replace_need doc t suf v r n : models hash doc t suf -> sub t v ->
  replace_within n (tid v) r (doc_data doc) = if 2 * need v <=? S n then replace (tid v) r (doc_data doc) else OutOfFuel.
Proof.
  intros ((H & T & _) & _) SV. destruct (sub_ctx _ _ SV) as [c E]. rewrite E in H.
  apply (has_perm _ _ _ (Permutation.Permutation_trans (cells_plug hash c v None) (Permutation.Permutation_app_comm _ _))) in H. rewrite cells_eq in H. cbn [app] in H.
  pose proof (has_get _ _ (tid v) _ H (or_introl eq_refl)) as G. unfold replace_within, replace. rewrite G. cbn [e_raw tentry].
  set (e := Entry r _ _). set (d1 := set_slab (doc_data doc) (slab_set (d_slab (doc_data doc)) (tid v) e)).
  assert (H1 : has (d_slab d1) (kids v ++ (tid v, e) :: ccells hash None c (tid v))).
  { apply (has_perm _ ((tid v, e) :: kids v ++ ccells hash None c (tid v))); [apply Permutation.Permutation_middle|]. exact (has_set _ _ _ _ e H). }
  destruct (drop_need v n d1 _ H1) as [Y X]. destruct (Nat.leb_spec (2 * need v) (S n)) as [L|L]; [|exact (X L)].
  destruct (Y L) as (s1 & E1 & _). assert (Q : exists y, drop_kind (traw v) d1 = Ok y).
  { unfold drop_kind. destruct (drop_tree hash v (drop_fuel d1) d1 _ H1) as (s2 & E2 & _); [|eauto].
    unfold drop_fuel. apply has_length in H1. rewrite app_length in H1. cbn [length] in H1. pose proof (depth_kids hash v). lia. }
  destruct Q as [y Q]. unfold drop_kind in *. destruct (le_ge_dec n (drop_fuel d1)) as [C|C]; destruct (mono_drop _ _ (traw v) C d1) as [Z|Z]; congruence.
Qed.
End Removing.
