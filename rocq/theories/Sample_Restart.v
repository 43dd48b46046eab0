(** Two processes with three cells in two sections of one zone, and one process with all of the cells. *)
From Coq Require Import List Arith Lia.
From Verif Require Import Arrays Model_Restart Spec_Restart.
Import ListNotations.

(** matrices of 2 rows and 2 columns *)
Definition cf (a : nat) : coeff nat := [[a; a + 1]; [a + 2; a + 3]].
Definition blank (n : nat) : list (list nat) := repeat (repeat 0 n) 4.

(** cells 1 and 2 in section 1, cell 3 in section 2; the second process has the cells 2 and 3 *)
Definition two_processes : list (Part nat) :=
  [ [ [(1, mkSect 1 [cf 10] (blank 1)); (2, mkSect 0 [] (blank 0))] ];
    [ [(1, mkSect 2 [cf 20] (blank 1)); (2, mkSect 3 [cf 30] (blank 1))] ] ].

(** one process that has not been initialised *)
Definition one_process (a b c : nat) : list (Part nat) :=
  [ [ [(1, mkSect 1 [cf a; cf b] (blank 2)); (2, mkSect 3 [cf c] (blank 1))] ] ].

Lemma cf_ok a : is_coeff 2 2 (cf a).
Proof. split; [reflexivity|]. repeat constructor. Qed.

Ltac section_solve :=
  unfold section_ok; cbn [snd head cells fields]; split; [repeat (apply Forall_cons || apply Forall_nil); apply cf_ok|];
  split; [reflexivity|]; split; [repeat (apply Forall_cons || apply Forall_nil); reflexivity|];
  intros H; simpl; try lia; congruence.

Lemma two_ok : parts_ok 2 2 [(3, 2)] two_processes.
Proof.
  split; [discriminate|]. intros p [<-|[<-|[]]]; (split; [reflexivity|]);
    intros [|[|z]] m n ns Hm Hz; try discriminate; injection Hm as <-; injection Hz as <- <-;
    (split; [reflexivity|]); repeat (apply Forall_cons || apply Forall_nil); section_solve.
Qed.

Lemma one_ok a b c : parts_ok 2 2 [(3, 2)] (one_process a b c).
Proof.
  split; [discriminate|]. intros p [<-|[]]; (split; [reflexivity|]);
    intros [|[|z]] m n ns Hm Hz; try discriminate; injection Hm as <-; injection Hz as <- <-;
    (split; [reflexivity|]); repeat (apply Forall_cons || apply Forall_nil); section_solve.
Qed.

Lemma two_holds z id c : holds two_processes z id c ->
  z = 0 /\ (id = 1 /\ c = cf 10 \/ id = 2 /\ c = cf 20 \/ id = 3 /\ c = cf 30).
Proof.
  intros [p [m [k [s [Hp [Hm [Hs [Hid Hc]]]]]]]].
  destruct Hp as [<-|[<-|[]]]; destruct z as [|[|z]]; try discriminate; injection Hm as <-;
    destruct Hs as [E|[E|[]]]; injection E as <- <-; cbn [head cells] in *; (split; [reflexivity|]);
    match goal with H : nth_error _ ?n = Some _ |- _ =>
      destruct n as [|[|?]] eqn:En; try discriminate; injection H as <- end; (assert (id = 1 \/ id = 2 \/ id = 3) by lia);
    intuition (try lia); auto.
Qed.

Lemma two_consistent : consistent two_processes.
Proof.
  intros z id c c' H H'. apply two_holds in H, H'.
  destruct H as [_ H], H' as [_ H']. intuition (subst; try lia; auto); congruence.
Qed.

Lemma two_all id : 1 <= id <= 3 -> exists c, holds two_processes 0 id c.
Proof.
  intros H. assert (E : id = 1 \/ id = 2 \/ id = 3) by lia. destruct E as [->|[->| ->]].
  - eexists _, _, _, _, _. split; [left; reflexivity|]. split; [reflexivity|]. split; [left; reflexivity|]. split; [|reflexivity]. cbn [head]; lia.
  - eexists _, _, _, _, _. split; [right; left; reflexivity|]. split; [reflexivity|]. split; [left; reflexivity|]. split; [|reflexivity]. cbn [head]; lia.
  - eexists _, _, _, _, _. split; [right; left; reflexivity|]. split; [reflexivity|]. split; [right; left; reflexivity|]. split; [|reflexivity]. cbn [head]; lia.
Qed.

Lemma one_holds a b c z id d : holds (one_process a b c) z id d -> z = 0 /\ 1 <= id <= 3.
Proof.
  intros [p [m [k [s [Hp [Hm [Hs [Hid Hc]]]]]]]].
  destruct Hp as [<-|[]]; destruct z as [|[|z]]; try discriminate; injection Hm as <-;
    destruct Hs as [E|[E|[]]]; injection E as <- <-; cbn [head cells] in *; (split; [reflexivity|]);
    apply nth_error_some_lt in Hc; simpl in Hc; lia.
Qed.
