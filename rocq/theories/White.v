(* White space in the sense of Unicode, and what trimming does. *)
From Coq Require Import List NArith Bool Arith Lia.
From Verif Require Import Bytes Utf8 Utf8Props Plain.
Import ListNotations.
Local Open Scope N_scope.

(* The code points with the property White_Space (Unicode 15, PropList.txt). *)
Definition space_point (c : N) : Prop :=
  9 <= c <= 13 \/ c = 32 \/ c = 133 \/ c = 160 \/ c = 5760 \/ 8192 <= c <= 8202 \/ c = 8232 \/ c = 8233 \/ c = 8239 \/ c = 8287 \/ c = 12288.
Definition space_char (x : bytes) : Prop := exists c, space_point c /\ utf8_of c x.
(* r is t between white space, and t neither starts nor ends with white space. *)
Definition outer_clean (t : bytes) : Prop := forall x q, space_char x -> t <> x ++ q /\ t <> q ++ x.
Definition trimmed (r t : bytes) : Prop := exists u v, Forall space_char u /\ Forall space_char v /\ r = concat u ++ t ++ concat v /\ outer_clean t.

Lemma point_cases c : space_point c -> In c [5760; 8192; 8193; 8194; 8195; 8196; 8197; 8198; 8199; 8200; 8201; 8202; 8232; 8233; 8239; 8287; 12288; 133; 160; 9; 10; 11; 12; 13; 32].
Proof. unfold space_point. intros H. cbn [In]. lia. Qed.
Lemma space_table x : space_char x <-> In x white_space.
Proof.
  split.
  - intros (c & P & U). apply utf8_encode in U. subst x. apply point_cases in P. cbn [In] in P.
    repeat (destruct P as [<-|P]; [vm_compute; tauto|]). destruct P.
  - intros I.
    assert (G : forall c, c < 65536 -> space_point c -> space_char (encode_utf8 c)) by (intros c L P; exists c; split; [exact P|now apply encode_of]).
    assert (E : white_space = map encode_utf8 [5760; 8192; 8193; 8194; 8195; 8196; 8197; 8198; 8199; 8200; 8201; 8202; 8232; 8233; 8239; 8287; 12288; 133; 160; 9; 10; 11; 12; 13; 32]) by reflexivity.
    rewrite E in I. apply in_map_iff in I as (c & <- & I). cbn [In] in I. apply G; unfold space_point; lia.
Qed.
(* Table entries: a first byte that is no continuation, then continuations. *)
Definition trail (c : byte) : Prop := 128 <= c < 192.
Lemma space_shape x : space_char x -> exists c r, x = c :: r /\ ~ trail c /\ Forall trail r.
Proof.
  intros (c & P & U). apply point_cases in P. destruct U as [c L|a c A C|a c e A C E X].
  - exists c, []. split; [reflexivity|]. split; [unfold trail; lia|constructor].
  - eexists _, _. split; [reflexivity|]. split; [unfold trail; lia|]. repeat constructor; unfold trail; lia.
  - eexists _, _. split; [reflexivity|]. split; [unfold trail; lia|]. repeat constructor; unfold trail; lia.
Qed.
Lemma strip_space x q : space_char x -> strip_any white_space (x ++ q) = Some q.
Proof.
  intros S. apply space_table in S. unfold white_space in S. cbn [In] in S. repeat (destruct S as [<-|S]; [reflexivity|]). destruct S.
Qed.
Lemma strip_space_rev x q : space_char x -> strip_any (map (@rev N) white_space) (rev x ++ q) = Some q.
Proof.
  intros S. apply space_table in S. unfold white_space in S. cbn [In] in S. repeat (destruct S as [<-|S]; [reflexivity|]). destruct S.
Qed.
Lemma trim_all ps u s : (forall x q, In x u -> strip_any ps (x ++ q) = Some q) -> strip_any ps s = None ->
  forall f, (length u <= f)%nat -> trim_with ps f (concat u ++ s) = s.
Proof.
  intros U N. induction u as [|x u IH]; intros f L; cbn [concat app] in *.
  - destruct f; cbn [trim_with]; [reflexivity|]. now rewrite N.
  - destruct f as [|f]; [cbn in L; lia|]. cbn [trim_with]. rewrite <- app_assoc, U by now left. apply IH; [|cbn in L; lia]. intros y q I. apply U. now right.
Qed.
Lemma concat_long u : Forall space_char u -> (length u <= length (concat u))%nat.
Proof.
  induction 1 as [|x u S F IH]; cbn; [lia|]. apply space_shape in S as (c & r & -> & _). rewrite app_length. cbn. lia.
Qed.
Lemma space_start x y : space_char x -> Forall trail y -> y <> [] -> forall q z, y ++ q <> x ++ z.
Proof.
  intros S F N q z E. apply space_shape in S as (c & r & -> & T & _). destruct F as [|a y A F]; [congruence|]. injection E as <- _. tauto.
Qed.
Lemma app_split {A} (a c x y : list A) : a ++ c = x ++ y -> (exists q, a = x ++ q /\ y = q ++ c) \/ (exists q, q <> [] /\ x = a ++ q /\ c = q ++ y).
Proof.
  revert x. induction a as [|h a IH]; intros x E; cbn in E.
  - destruct x as [|k x]; [left; exists []; auto|right]. exists (k :: x). split; [discriminate|auto].
  - destruct x as [|k x]; cbn in E; [left; exists (h :: a); auto|]. injection E as -> E. destruct (IH _ E) as [(q & -> & ->)|(q & N & -> & ->)]; [left|right]; exists q; auto.
Qed.
Lemma clean_start t v : outer_clean t -> t <> [] -> Forall space_char v -> strip_any white_space (t ++ concat v) = None.
Proof.
  intros C N V. destruct (strip_any white_space (t ++ concat v)) as [r|] eqn:E; [exfalso|reflexivity].
  apply strip_any_spec in E as (x & I & E). apply space_table in I. apply app_split in E as [(q & -> & _)|(q & NQ & -> & E)].
  - now elim (proj1 (C x q I)).
  - destruct (space_shape _ I) as (c & z & X & _ & F). destruct t as [|a t]; [congruence|]. injection X as -> <-.
    apply Forall_app in F as [_ F]. destruct V as [|y v Y V]; cbn [concat] in E; [now destruct q|]. symmetry in E. now apply (space_start y q Y F NQ) in E.
Qed.
Lemma clean_end t : outer_clean t -> strip_any (map (@rev N) white_space) (rev t) = None.
Proof.
  intros C. destruct (strip_any (map (@rev N) white_space) (rev t)) as [r|] eqn:E; [exfalso|reflexivity].
  apply strip_any_spec in E as (x & I & E). apply in_map_iff in I as (y & <- & I). apply space_table in I.
  apply (f_equal (@rev N)) in E. rewrite rev_involutive, rev_app_distr, rev_involutive in E. now elim (proj2 (C y (rev r) I)).
Qed.
Lemma rev_concat {A} (l : list (list A)) : rev (concat l) = concat (map (@rev A) (rev l)).
Proof. induction l as [|x l IH]; [reflexivity|]. cbn [concat rev]. rewrite rev_app_distr, map_app, concat_app, IH. cbn. now rewrite app_nil_r. Qed.
Lemma trim_trimmed r t : trimmed r t -> trim r = t.
Proof.
  intros (u & v & U & V & -> & C). destruct t as [|a t].
  - assert (TS : forall w, Forall space_char w -> trim_start (concat w) = []).
    { intros w W. unfold trim_start. pose proof (trim_all white_space w []) as G. rewrite app_nil_r in G. apply G; [|reflexivity|now apply concat_long].
      intros x q I. apply strip_space. rewrite Forall_forall in W. auto. }
    unfold trim. cbn [app]. rewrite <- concat_app, TS; [reflexivity|]. apply Forall_app. auto.
  - set (s := a :: t) in *. assert (NE : s <> []) by discriminate.
    assert (T1 : trim_start (concat u ++ s ++ concat v) = s ++ concat v).
    { unfold trim_start. apply trim_all; [|now apply clean_start|pose proof (concat_long _ U) as CL; rewrite app_length; unfold bytes, byte in *; lia].
      intros x q I. apply strip_space. rewrite Forall_forall in U. auto. }
    unfold trim. rewrite T1. unfold trim_end. rewrite rev_app_distr, rev_concat, app_length.
    rewrite trim_all; [apply rev_involutive| |now apply clean_end|].
    + intros x q I. apply in_map_iff in I as (y & <- & I). apply in_rev in I. apply strip_space_rev. rewrite Forall_forall in V. auto.
    + rewrite map_length, rev_length. pose proof (concat_long _ V) as CL. unfold bytes, byte in *. lia.
Qed.
Lemma trim_with_stops ps f s : (forall p, In p ps -> p <> []) -> (length s <= f)%nat -> strip_any ps (trim_with ps f s) = None.
Proof.
  intros P. revert s. induction f as [|f IH]; intros s L; cbn [trim_with].
  - destruct s as [|]; [|cbn in L; lia]. destruct (strip_any ps []) as [r|] eqn:E; [|reflexivity].
    apply strip_any_spec in E as (p & I & E). destruct p; [now elim (P [] I)|discriminate].
  - destruct (strip_any ps s) as [r|] eqn:E; [|exact E]. apply IH. apply strip_any_spec in E as (p & I & ->). destruct p as [|a p]; [now elim (P [] I)|].
    rewrite app_length in L. cbn in L. lia.
Qed.
Lemma strip_any_none ps s p q : strip_any ps s = None -> In p ps -> s <> p ++ q.
Proof.
  assert (SP : forall p q : bytes, strip_prefix p (p ++ q) = Some q) by (clear; induction p as [|a p IH]; intros q; cbn; [reflexivity|now rewrite N.eqb_refl]).
  intros E I ->. revert E I. induction ps as [|x ps IH]; intros E []; cbn [strip_any] in E.
  - subst x. rewrite SP in E. discriminate.
  - destruct (strip_prefix x (p ++ q)); [discriminate|]. auto.
Qed.
(* Every text has exactly one trimmed text, and trim returns it. *)
Theorem trim_spec r t : trim r = t <-> trimmed r t.
Proof.
  split; [|apply trim_trimmed]. intros <-.
  assert (PS : forall p, In p white_space -> p <> []) by (intros p I; apply space_table, space_shape in I as (c & q & -> & _); discriminate).
  assert (PR : forall p, In p (map (@rev N) white_space) -> p <> []).
  { intros p I. apply in_map_iff in I as (y & <- & I). apply PS in I. intros E. apply I. now apply (f_equal (@rev N)) in E; rewrite rev_involutive in E. }
  set (m := trim_start r).
  destruct (trim_with_spec white_space (length r) r) as (w & H & u & -> & U). fold (trim_start r) in H. fold m in H.
  assert (N1 : strip_any white_space m = None) by (apply trim_with_stops; auto).
  destruct (trim_with_spec (map (@rev N) white_space) (length m) (rev m)) as (w & H2 & v & -> & V).
  assert (N2 : strip_any (map (@rev N) white_space) (trim_with (map (@rev N) white_space) (length m) (rev m)) = None) by (apply trim_with_stops; auto; now rewrite rev_length).
  set (z := trim_with (map (@rev N) white_space) (length m) (rev m)) in *.
  assert (E : m = rev z ++ concat (map (@rev N) (rev v))).
  { apply (f_equal (@rev N)) in H2. rewrite rev_involutive, rev_app_distr in H2. rewrite H2. f_equal. apply rev_concat. }
  assert (TE : trim r = rev z) by reflexivity. rewrite TE. exists u, (map (@rev N) (rev v)). split; [|split; [|split]].
  - eapply Forall_impl; [|exact U]. intros x. apply space_table.
  - apply Forall_forall. intros x I. apply in_map_iff in I as (y & <- & I). apply in_rev in I. rewrite Forall_forall in V. apply V in I.
    apply in_map_iff in I as (p & <- & I). rewrite rev_involutive. now apply space_table.
  - rewrite H at 1. now rewrite E.
  - intros x q S. apply space_table in S. split; intros X.
    + rewrite X, <- app_assoc in E. rewrite E in N1. now apply (strip_any_none _ _ x (q ++ concat (map (@rev N) (rev v))) N1 S).
    + apply (f_equal (@rev N)) in X. rewrite rev_involutive, rev_app_distr in X. apply (strip_any_none _ _ (rev x) (rev q) N2); [now apply in_map|exact X].
Qed.
Lemma white_space_char c : white c -> space_char [c].
Proof. intros W. exists c. split; [unfold space_point; cbn in W; lia|constructor; cbn in W; lia]. Qed.
Lemma clean_first c r : outer_clean (c :: r) -> ~ white c.
Proof. intros C W. now elim (proj1 (C [c] r (white_space_char _ W))). Qed.
Lemma clean_last l : l <> [] -> outer_clean l -> ~ white (last l 0).
Proof.
  intros N C W. destruct (exists_last N) as (a & z & ->). rewrite last_last in W. now elim (proj2 (C [z] a (white_space_char _ W))).
Qed.
Lemma clean_trim l : outer_clean l -> trim l = l.
Proof. intros C. apply trim_trimmed. exists [], []. split; [constructor|]. split; [constructor|]. split; [cbn; now rewrite app_nil_r|exact C]. Qed.
(* A check for the examples: both ends are printing ASCII. *)
Lemma graphic_clean c r : 33 <= c <= 126 -> 33 <= last (c :: r) 0 <= 126 -> outer_clean (c :: r).
Proof.
  intros G GL x q S. destruct (space_shape _ S) as (a & y & -> & T & F). pose proof S as P. apply space_table in P. unfold white_space in P. cbn [In] in P.
  split; intros E.
  - injection E as <- _. repeat (destruct P as [P|P]; [injection P as P; lia|]). destruct P.
  - rewrite E, last_app in GL by discriminate. repeat (destruct P as [P|P]; [rewrite <- P in GL; cbn in GL; lia|]). destruct P.
Qed.
