(* What double quoted escaping does to quotes and backslashes. *)
From Coq Require Import String.
From Coq Require Import List NArith ZArith Bool Arith Lia.
From Verif Require Import Bytes Utf8 Data Parser Render Tree Abs Utf8Props Scan Reads ReadsSound AbsText Plain Exact.
Import ListNotations.
Local Open Scope N_scope.

(* ---- what escaping does to quotes and backslashes ---- *)
Local Notation E := (flat_map esc_double_byte).
Fixpoint slashes (s : bytes) : nat := match s with [] => O | c :: s => if c =? BACKSLASH then S (slashes s) else slashes s end.
Lemma slashes_app (x y : bytes) : slashes (x ++ y) = (slashes x + slashes y)%nat.
Proof. induction x as [|c x IH]; [reflexivity|]. cbn [app slashes]. rewrite IH. destruct (c =? BACKSLASH); reflexivity. Qed.
Lemma slashes_in s : In BACKSLASH s <-> slashes s <> O.
Proof.
  induction s as [|c s IH]; [cbn; tauto|]. cbn [slashes In]. destruct (N.eqb_spec c BACKSLASH) as [->|N]; [split; [discriminate|now left]|].
  rewrite IH. split; [intros [X|X]; [now elim N|exact X]|now right].
Qed.
(* One escaped byte: the byte itself, or a backslash and plain bytes that stand for it. *)
Lemma esc_byte_cases (c : byte) : (c = DQUOTE /\ esc_double_byte c = [BACKSLASH; DQUOTE]) \/
  (c <> DQUOTE /\ c <> EOF /\ esc_double_byte c = [c]) \/
  (c <> DQUOTE /\ c <> BACKSLASH /\ exists e, esc_double_byte c = BACKSLASH :: e /\ e <> [] /\ escape e [c] /\ E e = e /\ slashes e = O /\ ~ In DQUOTE e).
Proof.
  destruct (N.eq_dec c DQUOTE) as [->|ND]; [left; auto|right].
  destruct (N.eq_dec c BACKSLASH) as [->|NB]; [left; repeat split; auto; discriminate|].
  destruct (N.ltb_spec c 128) as [L|L].
  - assert (G : forall n, (n < 128)%nat -> forall c, c = N.of_nat n -> c <> DQUOTE -> c <> BACKSLASH -> (c <> EOF /\ esc_double_byte c = [c]) \/
      exists e, esc_double_byte c = BACKSLASH :: e /\ e <> [] /\ escape e [c] /\ E e = e /\ slashes e = O /\ ~ In DQUOTE e).
    { clear. intros n L c -> N1 N2.
      assert (Q : forall e, esc_double_byte (N.of_nat n) = BACKSLASH :: e -> e <> [] /\ escape e [N.of_nat n] /\ E e = e /\ slashes e = O /\ ~ In DQUOTE e ->
        exists e, esc_double_byte (N.of_nat n) = BACKSLASH :: e /\ e <> [] /\ escape e [N.of_nat n] /\ E e = e /\ slashes e = O /\ ~ In DQUOTE e).
      { intros e X Y. exists e. split; [exact X|exact Y]. }
      do 128 (destruct n as [|n]; [first [now elim N1|now elim N2|(left; split; [discriminate|reflexivity])|
        (right; eapply Q; [reflexivity|split; [discriminate|split; [first [apply esc_char; reflexivity|lazymatch goal with |- escape (?a :: ?ds) [?c] => change (escape (a :: ds) (encode_utf8 c)); apply esc_hex; reflexivity end]|
           split; [reflexivity|split; [reflexivity|vm_compute; intuition discriminate]]]]])]|]).
      lia. }
    destruct (G (N.to_nat c) ltac:(lia) c ltac:(lia) ND NB) as [H|H]; [left|right]; auto.
  - left. split; [exact ND|]. split; [unfold EOF; lia|]. unfold esc_double_byte, NEWLINE, CR, DQUOTE, is_ascii_control in *.
    repeat match goal with |- context [c =? ?k] => destruct (N.eqb_spec c k); [lia|] end.
    destruct (N.ltb_spec c 32); [lia|]. cbn [orb]. auto.
Qed.
