(** C178: the status of overset cells *)
From Coq Require Import String List Arith ZArith Lia.
From Verif Require Import Arrays Model_Cgns Model_Mapper Spec_Mesh Sample_Mesh Model_Status.
Import ListNotations.
Open Scope nat_scope.
Open Scope list_scope.

(** the entry of the cell with METIS index [i] in the fields of all zones: its zone, and its number among the cells of the zone *)
Definition status_of (fields : list (option (list nat))) (mp : Mapper) (i : nat) : option nat :=
  do index <- nth_error (m2c_cells mp) i;
  let '(z, _, c) := index in
  do field <- at1 fields z;
  do data <- field;
  at1 data c.
(** the numbering of a mesh of one zone, whose cells are numbered before all elements of its boundary *)
Definition one_zone (mp : Mapper) (n : nat) : Prop :=
  (forall i z s c, nth_error (m2c_cells mp) i = Some (z, s, c) -> z = 1 /\ 1 <= c <= n) /\
  (forall i j z s s' c, nth_error (m2c_cells mp) i = Some (z, s, c) -> nth_error (m2c_cells mp) j = Some (z, s', c) -> i = j).

Lemma upd_at {A} (l : list A) : forall k x j, k < length l -> nth_error (upd l k x) j = if j =? k then Some x else nth_error l j.
Proof.
  induction l as [|a l IH]; intros [|k] x [|j] H; cbn in *; try lia; auto. apply IH. lia.
Qed.
Lemma upd_len {A} (l : list A) : forall k x, length (upd l k x) = length l.
Proof. induction l as [|a l IH]; intros [|k] x; cbn; auto. Qed.
Section Loop.
  Variables (mp : Mapper) (n v : nat).
  Hypothesis (O : one_zone mp n).
  Let step field i_cell := do index <- nth_error (m2c_cells mp) i_cell; let '(_, _, c) := index in set_at field c v.
  Lemma loop cells : forall data, length data = n -> (forall i, In i cells -> i < length (m2c_cells mp)) ->
    exists data', foldM step cells data = Some data' /\ length data' = n /\
      forall i z s c, nth_error (m2c_cells mp) i = Some (z, s, c) -> at1 data' c = if existsb (Nat.eqb i) cells then Some v else at1 data c.
  Proof.
    induction cells as [|k cells IH]; intros data L B; cbn [foldM]; [exists data; repeat split; auto|].
    destruct (nth_error (m2c_cells mp) k) as [[[z s] c]|] eqn:E; [|exfalso; apply nth_error_None in E; specialize (B k (or_introl eq_refl)); lia]. destruct (proj1 O _ _ _ _ E) as (Z1 & Rc).
    unfold step at 1. rewrite E. cbn [bind]. destruct c as [|c]; [lia|]. cbn [set_at]. unfold upd_opt. destruct (Nat.ltb_spec c (length data)) as [Lc|]; [|lia]. cbn [bind].
    destruct (IH (upd data c v) ltac:(rewrite upd_len; exact L) (fun i H => B i (or_intror H))) as (data' & F & L' & Q). exists data'. split; [exact F|]. split; [exact L'|]. intros i z' s' c' E'. rewrite (Q i z' s' c' E'). cbn [existsb].
    destruct (existsb (Nat.eqb i) cells); [rewrite Bool.orb_true_r; reflexivity|]. rewrite Bool.orb_false_r. destruct (proj1 O _ _ _ _ E') as (Z2 & Rc'). destruct c' as [|c']; [lia|]. cbn [at1]. rewrite upd_at by exact Lc. destruct (Nat.eqb_spec i k) as [->|Ne].
    - rewrite E in E'. injection E' as <- <- <-. rewrite Nat.eqb_refl. reflexivity.
    - destruct (Nat.eqb_spec c' c) as [->|]; [|reflexivity]. exfalso. apply Ne. subst z z'. apply (proj2 O i k 1 s' s (S c) E' E).
  Qed.
End Loop.
(** on meshes of one zone, exactly the given cells get the status, and the others keep theirs, or are unknown if there was no field *)
Theorem add_cell_status status cells n rest field fields mp : one_zone mp n -> (forall i, In i cells -> i < length (m2c_cells mp)) -> (forall data, field = Some data -> length data = n) ->
  exists fields', AddCellStatus status cells (n :: rest) (field :: fields) mp = Some fields' /\
    (exists data, fields' = Some data :: fields /\ length data = n) /\
    forall i, i < length (m2c_cells mp) -> status_of fields' mp i =
      if existsb (Nat.eqb i) cells then Some (number status) else match field with Some _ => status_of (field :: fields) mp i | None => Some (number kUnknown) end.
Proof.
  intros O B L. unfold AddCellStatus. cbn [at1 nth_error bind]. assert (La : length (add_field n field) = n) by (destruct field as [data|]; [apply L; reflexivity|apply repeat_length]).
  destruct (loop mp n (number status) O cells (add_field n field) La B) as (data & F & Ld & Q). rewrite F. cbn [bind]. unfold upd_opt. cbn [length Nat.ltb Nat.leb upd]. eexists. split; [reflexivity|]. split; [exists data; split; [reflexivity|exact Ld]|].
  intros i Hi. unfold status_of. destruct (nth_error (m2c_cells mp) i) as [[[z s] c]|] eqn:E; [|apply nth_error_None in E; lia]. cbn [bind]. destruct (proj1 O _ _ _ _ E) as (-> & Rc). cbn [at1 nth_error bind]. rewrite (Q i 1 s c E). destruct (existsb _ cells); [reflexivity|].
  destruct field as [d|]; [reflexivity|]. cbn [add_field]. destruct c as [|c]; [lia|]. cbn [at1 number]. rewrite nth_error_repeat by lia. reflexivity.
Qed.
Print Assumptions add_cell_status.
(** two zones: a cell of the second zone is to be marked, but the first cell of the first zone is *)
Theorem add_cell_status_refuted : exists (zones : list (Zone nat)) mp mesh n_cells fields i fields',
  Forall (wf_zone 2) zones /\ Map 2 zones = Some (mp, mesh) /\ i < length (m2c_cells mp) /\
  AddCellStatus kFringe [i] n_cells fields mp = Some fields' /\ status_of fields' mp i = None /\ exists j, j <> i /\ status_of fields' mp j = Some (number kFringe).
Proof.
  pose (mp := mkMapper [(1,1);(1,2);(1,3);(1,4);(1,5);(1,6);(2,1);(2,2);(2,3)] [(1,1,1);(1,1,2);(1,2,3);(2,1,1)] [[0;1;2;3;4;5];[6;7;8]] [[(1,[0;1]);(3,[2]);(0,[])]; [(1,[3])]]).
  exists [zone_a; zone_b], mp, (mkMetis [0;3;6;10;13] [0;1;2; 1;3;2; 2;3;5;4; 8;6;7] 9), [3; 1], [None; None], 3, [Some [1; 0; 0]; None].
  split; [exact sample_wf|]. split; [vm_compute; reflexivity|]. split; [unfold mp; cbn [m2c_cells length]; lia|]. split; [vm_compute; reflexivity|]. split; [vm_compute; reflexivity|]. exists 0. split; [lia|vm_compute; reflexivity].
Qed.
Print Assumptions add_cell_status_refuted.
(** one zone whose boundary comes first: cells are numbered from 3 to 4, beyond the field of two cells *)
Theorem add_cell_status_order_refuted : exists (zone : Zone nat) mp mesh i,
  wf_zone 2 zone /\ Map 2 [zone] = Some (mp, mesh) /\ length (m2c_cells mp) = 2 /\ i < 2 /\ AddCellStatus kFringe [i] [2] [None] mp = None.
Proof.
  exists (mkZone [10; 11; 12; 13] [20; 21; 22; 23] [30; 31; 32; 33] [mkSection 1 "wall"%string 1 2 1%Z BAR_2 [1; 2; 2; 4] []; mkSection 2 "tri"%string 3 2 2%Z TRI_3 [1; 2; 3; 2; 4; 3] []] [] []).
  exists (mkMapper [(1,1);(1,2);(1,3);(1,4)] [(1,2,3);(1,2,4)] [[0;1;2;3]] [[(0,[]);(3,[0;1])]]), (mkMetis [0;3;6] [0;1;2; 1;3;2] 4), 0. split; [solve_zone|]. split; [vm_compute; reflexivity|]. split; [reflexivity|]. split; [lia|vm_compute; reflexivity].
Qed.
Print Assumptions add_cell_status_order_refuted.
(** the first zone alone: two triangles and a quadrangle; unknown, then the first and the last are donors *)
Example add_cell_status_example : exists mp mesh f1 f2, Map 2 [zone_a] = Some (mp, mesh) /\ one_zone mp 3 /\
  AddCellStatus kUnknown [0; 1; 2] [3] [None] mp = Some f1 /\ AddCellStatus kDonor [2; 0] [3] f1 mp = Some f2 /\ map (status_of f2 mp) [0; 1; 2; 3] = [Some 2; Some 0; Some 2; None].
Proof.
  exists (mkMapper [(1,1);(1,2);(1,3);(1,4);(1,5);(1,6)] [(1,1,1);(1,1,2);(1,2,3)] [[0;1;2;3;4;5]] [[(1,[0;1]);(3,[2]);(0,[])]]), (mkMetis [0;3;6;10] [0;1;2; 1;3;2; 2;3;5;4] 6), [Some [0; 0; 0]], [Some [2; 0; 2]].
  split; [vm_compute; reflexivity|]. split; [|split; [vm_compute; reflexivity|split; vm_compute; reflexivity]]. split.
  - intros i z s c E. destruct i as [|[|[|i]]]; cbn in E; [| | |destruct i; discriminate]; injection E as <- <- <-; lia.
  - intros i j z s s' c E E'. destruct i as [|[|[|i]]]; cbn in E; [| | |destruct i; discriminate]; injection E as <- <- <-; (destruct j as [|[|[|j]]]; cbn in E'; [| | |destruct j; discriminate]; injection E'; intros; try discriminate; reflexivity).
Qed.
