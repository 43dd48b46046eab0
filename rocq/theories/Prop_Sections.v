(** C14, C15, C16 *)
From Coq Require Import String List Arith ZArith Permutation Sorted Lia.
From Verif Require Import Arrays Model_Cgns Model_Sections Spec_Mesh Spec_Sections Proof_Sections
  Proof_MergeSplit.
Import ListNotations.

Theorem C14_sections_sorted : forall ss order, sort_contract before ss order ->
  exists r sorted, SortSectionsByDim order ss = Some r /\
    Permutation sorted ss /\ StronglySorted ordered sorted /\
    map contents r = map contents sorted /\
    map s_id r = seq 1 (List.length ss) /\ consecutive 1 r /\
    (forall i, (exists s, In s r /\ has_cell s i) <-> 1 <= i <= CountAllCells ss) /\
    forall d, (forall s, In s ss -> (s_dim s <= d)%Z) ->
      forall i, (exists s, In s r /\ s_dim s = d /\ has_cell s i) <-> 1 <= i <= cells_of_dim d ss.
Proof. exact sort_ok. Qed.
Print Assumptions C14_sections_sorted.

Theorem C15_merge_then_split : forall std_sort hash_order set ss,
  (forall l, sort_contract before l (std_sort l)) ->
  (forall l, Permutation (hash_order l) l) ->
  Forall homogeneous ss ->
  exists m r types,
    MergeSections std_sort set ss = Some m /\ SplitSections std_sort hash_order [] m = Some r /\
    NoDup types /\
    (forall t, In t types <->
       exists s, In s ss /\ selected set s = true /\ s_type s = t /\ 1 <= s_count s) /\
    Permutation (map shape r)
      (map shape (filter (fun s => negb (selected set s)) ss) ++
       map (together (filter (selected set) ss)) types)%list /\
    consecutive 1 r /\ StronglySorted (fun a b => (s_dim b <= s_dim a)%Z) r.
Proof. exact merge_split_ok. Qed.
Print Assumptions C15_merge_then_split.

(** The section taken is the first one whose name ends with the given name. *)
Theorem C16_first_suffix : forall name ss s, GetSection name ss = Some s <->
  exists l1 l2, ss = (l1 ++ s :: l2)%list /\ ends_with (s_name s) name /\
    Forall (fun x => ~ ends_with (s_name x) name) l1.
Proof. exact GetSection_ok. Qed.
Print Assumptions C16_first_suffix.

Theorem C16_ranges_by_name : forall ss bcs,
  (forall b, In b bcs -> exists s, In s ss /\ s_name s = bc_name b) ->
  (forall b s, In b bcs -> In s ss -> ends_with (s_name s) (bc_name b) -> s_name s = bc_name b) ->
  NoDup (map s_name ss) ->
  exists r, UpdateRanges ss bcs = Some r /\ List.length r = List.length bcs /\
    forall k b s, nth_error bcs k = Some b -> In s ss -> s_name s = bc_name b ->
      nth_error r k = Some (mkBC (bc_name b) (s_first s) (s_first s + s_count s - 1)).
Proof. exact UpdateRanges_ok. Qed.
Print Assumptions C16_ranges_by_name.

Open Scope string_scope.

(** two boundaries, "left_wall" and "wall" *)
Definition bc_sections :=
  [ mkSection 1 "left_wall" 1 2 2%Z TRI_3 [1;2;3;2;3;4] [];
    mkSection 2 "wall" 3 1 2%Z TRI_3 [3;4;5] [] ].
Definition bcs := [ mkBC "wall" 0 0; mkBC "left_wall" 0 0 ].

(** the section names are distinct and every condition has its section, yet condition "wall"
    gets the range of "left_wall" *)
Theorem C16_ranges_by_name_refuted :
  exists ss bs r s,
    NoDup (map s_name ss) /\ (forall b, In b bs -> exists s, In s ss /\ s_name s = bc_name b) /\
    UpdateRanges ss bs = Some r /\ In s ss /\
    nth_error bs 0 = Some (mkBC (s_name s) 0 0) /\
    nth_error r 0 <> Some (mkBC (s_name s) (s_first s) (s_first s + s_count s - 1)).
Proof.
  exists bc_sections, bcs, [mkBC "wall" 1 2; mkBC "left_wall" 1 2],
    (mkSection 2 "wall" 3 1 2%Z TRI_3 [3;4;5] []).
  repeat apply conj.
  - repeat constructor; simpl; intuition discriminate.
  - intros b [<-|[<-|[]]].
    + exists (mkSection 2 "wall" 3 1 2%Z TRI_3 [3;4;5] []). simpl. auto.
    + exists (mkSection 1 "left_wall" 1 2 2%Z TRI_3 [1;2;3;2;3;4] []). simpl. auto.
  - vm_compute. reflexivity.
  - simpl. auto.
  - reflexivity.
  - vm_compute. discriminate.
Qed.
Print Assumptions C16_ranges_by_name_refuted.

(** ** Examples *)

Definition raw_sections :=
  [ mkSection 1 "b1" 1 1 2%Z TRI_3 [1;2;3] [];
    mkSection 2 "hex" 2 1 3%Z HEXA_8 [1;2;3;4;5;6;7;8] [];
    mkSection 3 "b2" 3 1 2%Z QUAD_4 [5;6;7;8] [];
    mkSection 4 "tet" 4 2 3%Z TETRA_4 [1;2;3;9; 2;3;4;9] [] ].

Example C14_nonvacuous :
  sort_contract before raw_sections (insertion_sort raw_sections) /\
  SortSectionsByDim (insertion_sort raw_sections) raw_sections = Some
  [ mkSection 1 "hex" 1 1 3%Z HEXA_8 [1;2;3;4;5;6;7;8] [];
    mkSection 2 "tet" 2 2 3%Z TETRA_4 [1;2;3;9; 2;3;4;9] [];
    mkSection 3 "b1" 4 1 2%Z TRI_3 [1;2;3] [];
    mkSection 4 "b2" 5 1 2%Z QUAD_4 [5;6;7;8] [] ].
Proof. split; [apply insertion_sort_ok|vm_compute; reflexivity]. Qed.

(** sections 1, 2 and 4 are merged; the split gives them back *)
Example C15_nonvacuous :
  (forall l, sort_contract before l (insertion_sort l)) /\
  Forall homogeneous raw_sections /\
  (exists m, MergeSections insertion_sort [1; 2; 4] raw_sections = Some m /\
    map shape m = [ (MIXED, 4, [5;1;2;3; 17;1;2;3;4;5;6;7;8; 10;1;2;3;9; 10;2;3;4;9]);
                    (QUAD_4, 1, [5;6;7;8]) ] /\
    exists r, SplitSections insertion_sort (@rev Section) [] m = Some r /\
      map shape r = [ (HEXA_8, 1, [1;2;3;4;5;6;7;8]); (TETRA_4, 2, [1;2;3;9; 2;3;4;9]);
                      (QUAD_4, 1, [5;6;7;8]); (TRI_3, 1, [1;2;3]) ]).
Proof.
  split; [apply insertion_sort_ok|]. split.
  - unfold homogeneous. repeat constructor; discriminate.
  - eexists. split; [vm_compute; reflexivity|]. split; [vm_compute; reflexivity|].
    eexists. split; vm_compute; reflexivity.
Qed.

Definition bc_sections2 :=
  [ mkSection 1 "inlet" 7 2 2%Z TRI_3 [1;2;3;2;3;4] [];
    mkSection 2 "wall" 9 1 2%Z TRI_3 [3;4;5] [] ].

Example C16_nonvacuous :
  (forall b s, In b [mkBC "wall" 0 0; mkBC "inlet" 0 0] -> In s bc_sections2 ->
     ends_with (s_name s) (bc_name b) -> s_name s = bc_name b) /\
  UpdateRanges bc_sections2 [mkBC "wall" 0 0; mkBC "inlet" 0 0] =
    Some [mkBC "wall" 9 9; mkBC "inlet" 7 8].
Proof.
  split; [|vm_compute; reflexivity].
  intros b s [<-|[<-|[]]] [<-|[<-|[]]] H; auto; apply suffix_test in H; discriminate.
Qed.
