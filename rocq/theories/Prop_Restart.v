(** Properties C100 and C101: restarting from a file. *)
From Coq Require Import List Arith String Lia.
From Verif Require Import Arrays Model_Restart Spec_Restart Proof_RestartMain Sample_Restart.
Import ListNotations.

(** C100: a solution that is gathered and written by some processes and then read and scattered by others,
    which have any of the cells with any coefficients, is the same in every cell. *)
Theorem C100_restart : forall A K N keeps zones (writers readers : list (Part A)),
  parts_ok K N zones writers -> consistent writers -> parts_ok K N zones readers ->
  keeps = true \/ Forall (fun z => snd z <= 1) zones ->
  (forall z id c', holds readers z id c' -> exists c, holds writers z id c) ->
  exists gathered file restored,
    mapM (GatherSolutions K N) writers = Some gathered /\
    WriteSolutions K N keeps (map fst zones) gathered = Some file /\
    mapM (fun p => do q <- ReadSolutions K N file p; ScatterSolutions K N q) readers = Some restored /\
    Forall2 same_part readers restored /\
    forall z id c, holds restored z id c -> holds writers z id c.
Proof. intros. apply restart_ok; auto. Qed.
Print Assumptions C100_restart.

(** C100: if the readers have the same cells as the writers, all coefficients are restored. *)
Theorem C100_round_trip : forall A K N keeps zones (writers readers : list (Part A)),
  parts_ok K N zones writers -> consistent writers -> parts_ok K N zones readers ->
  keeps = true \/ Forall (fun z => snd z <= 1) zones ->
  Forall2 same_part readers writers ->
  exists gathered file restored,
    mapM (GatherSolutions K N) writers = Some gathered /\
    WriteSolutions K N keeps (map fst zones) gathered = Some file /\
    mapM (fun p => do q <- ReadSolutions K N file p; ScatterSolutions K N q) readers = Some restored /\
    map solution restored = map solution writers.
Proof.
  intros A K N keeps zones writers readers Hw Hc Hr Hk Hs.
  destruct (restart_ok K N keeps zones writers readers Hw Hc Hk Hr) as [g [f [r [E1 [E2 [E3 [E4 E5]]]]]]].
  - intros z id c' [p [m [k [s [Hp [Hm [Hin [Hid Hc']]]]]]]].
    destruct (Forall2_in _ _ _ Hs p Hp) as [p' [Hp' Hpp]].
    destruct (Forall2_nth _ _ _ Hpp z m Hm) as [m' [Hm' Hmm]].
    destruct (Forall2_in _ _ _ Hmm (k, s) Hin) as [[k' s'] [Hin' [_ [H1 H2]]]]. cbn [snd] in *.
    destruct (nth_error_lt_some (cells s') (id - head s)) as [c Ec].
    { rewrite <- H2. eapply nth_error_some_lt; eauto. }
    exists c, p', m', k', s'. rewrite <- H1. auto 10.
  - exists g, f, r. split; [exact E1|]. split; [exact E2|]. split; [exact E3|].
    apply round_trip_solution; auto.
    eapply Forall2_join; [exact Hs|exact E4|]. intros p p1 p2. apply same_part_join.
Qed.
Print Assumptions C100_round_trip.

(** C100: field number [n K + k + 1] of the file is component [k] of the coefficient of basis function [n]. *)
Theorem C100_content : forall A K N keeps zones (writers : list (Part A)),
  parts_ok K N zones writers -> consistent writers ->
  keeps = true \/ Forall (fun z => snd z <= 1) zones ->
  exists gathered file,
    mapM (GatherSolutions K N) writers = Some gathered /\
    WriteSolutions K N keeps (map fst zones) gathered = Some file /\
    forall z id c n k, holds writers z id c -> n < N -> k < K ->
      exists v, (do col <- nth_error c n; nth_error col k) = Some v /\
        forall w, entry file z (field_name (n * K + k + 1)) id w <-> w = v.
Proof. intros. apply content_ok; auto. Qed.
Print Assumptions C100_content.

(** Two processes write, one process reads: *)
Example C100_example : forall a b c,
  exists gathered file restored,
    mapM (GatherSolutions 2 2) two_processes = Some gathered /\
    WriteSolutions 2 2 true [3] gathered = Some file /\
    mapM (fun p => do q <- ReadSolutions 2 2 file p; ScatterSolutions 2 2 q) (one_process a b c) = Some restored /\
    map solution restored = map solution (one_process 10 20 30) /\
    entry file 0 "Field3" 2 22 /\ entry file 0 "Field4" 3 33.
Proof.
  intros a b c. do 3 eexists. split; [vm_compute; reflexivity|]. split; [vm_compute; reflexivity|].
  split; [vm_compute; reflexivity|]. split; [vm_compute; reflexivity|]. split.
  - eexists _, _. split; [reflexivity|]. split; [right; right; left; reflexivity|]. split; [lia|reflexivity].
  - eexists _, _. split; [reflexivity|]. split; [right; right; right; left; reflexivity|]. split; [lia|reflexivity].
Qed.
Example C100_hypotheses : forall a b c,
  parts_ok 2 2 [(3, 2)] two_processes /\ consistent two_processes /\ parts_ok 2 2 [(3, 2)] (one_process a b c) /\
  (forall z id c', holds (one_process a b c) z id c' -> exists c, holds two_processes z id c).
Proof.
  intros a b c. split; [exact two_ok|]. split; [exact two_consistent|]. split; [apply one_ok|].
  intros z id c' H. apply one_holds in H. destruct H as [-> H]. apply two_all; auto.
Qed.

(** C101: if the library discards the data of a field that is declared again, the file of a zone with two sections
    lacks the cells of the first section. *)
Theorem C101_redeclared_refuted : exists (writers : list (Part nat)) gathered file,
  parts_ok 2 2 [(3, 2)] writers /\ consistent writers /\
  mapM (GatherSolutions 2 2) writers = Some gathered /\
  WriteSolutions 2 2 false [3] gathered = Some file /\
  (exists c, holds writers 0 1 c) /\
  (forall i w, ~ entry file 0 (field_name i) 1 w) /\
  mapM (fun p => do q <- ReadSolutions 2 2 file p; ScatterSolutions 2 2 q) writers = None.
Proof.
  exists two_processes. do 2 eexists. split; [exact two_ok|]. split; [exact two_consistent|].
  split; [vm_compute; reflexivity|]. split; [vm_compute; reflexivity|]. split; [|split].
  - apply two_all. lia.
  - intros i w [fz [row [E [Hin [_ Hw]]]]]. injection E as <-. cbn [f_fields] in Hin.
    repeat (destruct Hin as [Hin|Hin]; [injection Hin as _ <-; discriminate|]). destruct Hin.
  - vm_compute. reflexivity.
Qed.
Print Assumptions C101_redeclared_refuted.

(** C101: with at most one section of cells in each zone, the file does not depend on the library in this respect. *)
Theorem C101_one_section_partial : forall A K N zones (writers : list (Part A)) keeps,
  parts_ok K N zones writers -> consistent writers -> Forall (fun z => snd z <= 1) zones ->
  exists gathered file,
    mapM (GatherSolutions K N) writers = Some gathered /\
    WriteSolutions K N keeps (map fst zones) gathered = Some file /\
    forall z id c n k, holds writers z id c -> n < N -> k < K ->
      exists v, (do col <- nth_error c n; nth_error col k) = Some v /\
        forall w, entry file z (field_name (n * K + k + 1)) id w <-> w = v.
Proof. intros. apply content_ok; auto. Qed.
Print Assumptions C101_one_section_partial.
Example C101_example :
  WriteSolutions 1 2 false [2] [ [ [(1, mkSect 1 [[[7]; [8]]] [[7]; [8]])] ]; [ [(1, mkSect 2 [[[5]; [6]]] [[5]; [6]])] ] ]
  = Some [mkFZone 2 [("Field1", [Some 7; Some 5]); ("Field2", [Some 8; Some 6])]]%string.
Proof. reflexivity. Qed.
