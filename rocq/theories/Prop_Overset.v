(** C12, C13 *)
From Coq Require Import String List Arith ZArith Reals Lra Lia.
From Verif Require Import Arrays Model_Cgns Model_Mapper Model_Metis Model_Partition Model_Overset
  Spec_Mesh Spec_Partition Spec_Overset Proof_Overset Sample_Mesh.
Import ListNotations.

Theorem C12_fringe_layers :
  forall A cell_dim (zs : list (Zone A)) mp g, (cell_dim = 2 \/ cell_dim = 3)%Z ->
  Forall (wf_zone cell_dim) zs -> valid_mapper cell_dim zs mp ->
  wf_graph g (List.length (m2c_cells mp)) ->
  forall n_layer, (1 <= n_layer)%Z ->
  exists layers, FindForegroundFringeCells n_layer zs g mp = Some (concat layers) /\
    Z.of_nat (List.length layers) = n_layer /\ NoDup (concat layers) /\
    forall k l, nth_error layers k = Some l -> forall x,
      In x l <-> at_distance (nbr g) (fun _ => True)
                   (fun m => m < List.length (m2c_cells mp) /\ open_cell zs mp g m) k x.
Proof. exact @fringe_ok. Qed.
Print Assumptions C12_fringe_layers.

Theorem C13_donors :
  forall cell_dim search zs_fg mp_fg zs_bg g_bg mp_bg radius fringe,
  Forall (wf_zone cell_dim) zs_fg -> valid_mapper cell_dim zs_fg mp_fg ->
  Forall (wf_zone cell_dim) zs_bg -> valid_mapper cell_dim zs_bg mp_bg ->
  wf_graph g_bg (List.length (m2c_cells mp_bg)) -> (0 <= radius)%R ->
  Forall (fun m => m < List.length (m2c_cells mp_fg)) fringe ->
  (forall x, exists c, search x = [c] /\ c < List.length (m2c_cells mp_bg)) ->
  exists ds, FindBackgroundDonorCells search zs_fg mp_fg fringe zs_bg g_bg mp_bg radius = Some ds /\
    List.length ds = List.length fringe /\
    forall k m d, nth_error fringe k = Some m -> nth_error ds k = Some d ->
      NoDup d /\ exists x, is_center zs_fg mp_fg m x /\
        (exists tl, d = app (search x) tl) /\
        forall j, In j d <-> exists n, walk (nbr g_bg) (near zs_bg mp_bg radius x)
                                          (fun c => search x = [c]) n j.
Proof. exact donors_ok. Qed.
Print Assumptions C13_donors.

(** the merged set of donors: overset.hpp [merge] *)
Theorem C13_merge : forall ls,
  NoDup (merge ls) /\ forall x, In x (merge ls) <-> exists l, In l ls /\ In x l.
Proof. exact merge_ok. Qed.
Print Assumptions C13_merge.

(** ** Examples *)
Open Scope string_scope.

(** a triangle with three neighbours *)
Definition zone_star : Zone nat :=
  mkZone [1;2;3;4;5;6] [1;2;3;4;5;6] [0;0;0;0;0;0]
    [ mkSection 1 "tri" 1 4 2%Z TRI_3 [1;2;3; 1;2;4; 2;3;5; 1;3;6] [] ] [] [].
Definition star_graph := mkGraph [0;3;4;5;6] [1;2;3;0;0;0].

Lemma star_nbr i j : nbr star_graph i j -> i < 4 /\ j < 4.
Proof.
  intros (row & E & H).
  do 4 (destruct i as [|i]; [vm_compute in E; inversion E; subst; simpl in H; lia|]).
  destruct i as [|[|i]]; discriminate.
Qed.

Example C12_nonvacuous :
  Forall (wf_zone 2) [zone_star] /\ wf_graph star_graph 4 /\
  (exists mp mesh, Map 2 [zone_star] = Some (mp, mesh) /\ List.length (m2c_cells mp) = 4 /\
     FindForegroundFringeCells 1 [zone_star] star_graph mp = Some [1; 2; 3] /\
     FindForegroundFringeCells 2 [zone_star] star_graph mp = Some [1; 2; 3; 0] /\
     FindForegroundFringeCells 5 [zone_star] star_graph mp = Some [1; 2; 3; 0]).
Proof.
  split; [repeat apply Forall_cons; try apply Forall_nil; solve_zone|]. split.
  - constructor; [|reflexivity|exact star_nbr].
    intros i Hi. do 4 (destruct i as [|i]; [eexists; vm_compute; reflexivity|]). lia.
  - eexists; eexists. split; [vm_compute; reflexivity|].
    repeat split; vm_compute; reflexivity.
Qed.

(** three triangles in a row with centres (1,1), (2,2) and (4,1) *)
Definition zone_row : Zone R :=
  mkZone [0;0;3;3;6]%R [0;3;0;3;0]%R [0;0;0;0;0]%R
    [ mkSection 1 "tri" 1 3 2%Z TRI_3 [1;2;3; 2;3;4; 3;4;5] [] ] [] [].
Definition row_graph := mkGraph [0;1;3;4] [1;0;2;1].
Definition row_mapper :=
  mkMapper [(1,1);(1,2);(1,3);(1,4);(1,5)] [(1,1,1);(1,1,2);(1,1,3)] [[0;1;2;3;4]] [[(1,[0;1;2])]].

Lemma row_centers :
  cell_center [zone_row] row_mapper 0 = Some (1, 1, 0)%R /\
  cell_center [zone_row] row_mapper 1 = Some (2, 2, 0)%R /\
  cell_center [zone_row] row_mapper 2 = Some (4, 1, 0)%R.
Proof.
  unfold cell_center. cbn -[Rdiv Rplus INR IZR].
  replace (INR 3) with 3%R by (simpl; ring).
  repeat split; apply f_equal; (apply f_equal2; [apply f_equal2|]); field.
Qed.

Lemma row_ball :
  in_ball [zone_row] row_mapper 2 (1, 1, 0)%R 1 = Some true /\
  in_ball [zone_row] row_mapper 2 (1, 1, 0)%R 2 = Some false.
Proof.
  destruct row_centers as (H0 & H1 & H2). unfold in_ball.
  rewrite H1, H2. cbn [bind]. unfold distance.
  replace ((1 - 4) * (1 - 4) + (1 - 1) * (1 - 1) + (0 - 0) * (0 - 0))%R with (3 * 3)%R by ring.
  rewrite (sqrt_square 3) by lra. destruct (Rlt_dec 2 3); [|lra].
  match goal with |- context [Rlt_dec 2 (sqrt ?e)] =>
    assert (S1 : (sqrt e <= 2)%R); [|destruct (Rlt_dec 2 (sqrt e)); [lra|split; reflexivity]] end.
  apply Rle_trans with (sqrt (2 * 2)); [apply sqrt_le_1; lra|rewrite sqrt_square; lra].
Qed.

(** the search starts in cell 0 and takes cell 1 but not cell 2, which is too far *)
Example C13_nonvacuous :
  Forall (wf_zone 2) [zone_row] /\ wf_graph row_graph 3 /\
  (exists mesh, Map 2 [zone_row] = Some (row_mapper, mesh)) /\
  FindBackgroundDonorCells (fun _ => [0]) [zone_row] row_mapper [0] [zone_row] row_graph row_mapper 2
    = Some [[0; 1]].
Proof.
  split; [repeat apply Forall_cons; try apply Forall_nil; solve_zone|]. split; [|split].
  - constructor; [|reflexivity|].
    + intros i Hi. do 3 (destruct i as [|i]; [eexists; vm_compute; reflexivity|]). lia.
    + intros i j (row & E & H).
      do 3 (destruct i as [|i]; [vm_compute in E; inversion E; subst; simpl in H; lia|]).
      destruct i as [|[|i]]; discriminate.
  - eexists. cbn -[IZR]. reflexivity.
  - destruct row_centers as (C0 & C1 & C2). destruct row_ball as (B1 & B2).
    unfold FindBackgroundDonorCells. cbn [mapM]. unfold donors_of. rewrite C0. cbn [bind].
    assert (N0 : neighbors row_graph 0 = Some [1]) by reflexivity.
    assert (N1 : neighbors row_graph 1 = Some [0; 2]) by reflexivity.
    change (CountVertices row_graph) with 3. cbn [donor_loop]. unfold layer. cbn [foldM].
    rewrite N0. cbn [bind foldM]. unfold visit. cbn [mem existsb Nat.eqb orb fst snd bind app].
    rewrite B1. cbn [bind foldM app]. cbn [donor_loop]. unfold layer. cbn [foldM]. rewrite N1.
    cbn [bind foldM]. unfold visit. cbn [mem existsb Nat.eqb orb fst snd bind app].
    rewrite B2. reflexivity.
Qed.
