(** Property theorems C89-C91: the files for visualisation. *)
From Coq Require Import Reals ZArith QArith List Arith Lia Lra Ascii String.
From Verif Require Import Arrays Vec3 Spec_Base64 Model_Shapes Model_Geometry Model_Vtk Spec_Vtk Proof_Vtk Proof_Shapes Proof_VtkPoints.
Import ListNotations.
Open Scope nat_scope.

(** ** C89 *)

(** A process with at least one cell, whose cells are tetrahedra, wedges or hexahedra, and whose numbers have 8
    bytes, writes a file that a reader of VTK's format reads as the same cells in the same order, each with its
    type, and each with the global coordinates and the values of the solution at the nodes of that VTK type. *)
Theorem C89_grid_partial : forall {Coord Scalar : Type} (bytes_of : Coord -> list Z) (of_bytes : list Z -> Coord)
    directory soln_name K field_name rank size (cells : list (Cell Coord Scalar)),
  (forall c, Forall is_char (bytes_of c)) -> (forall c, List.length (bytes_of c) = 24) ->
  (forall c, of_bytes (map byte_of_char (bytes_of c)) = c) ->
  cells <> [] -> (forall c, In c cells -> c_corners c = 4 \/ c_corners c = 6 \/ c_corners c = 8) ->
  (Z.of_nat (24 * list_sum (map (fun c => List.length (vtk_nodes (c_corners c))) cells)) < 2 ^ 64)%Z ->
  exists index file, WriteSolutions bytes_of directory soln_name K field_name rank size cells = Some (index, file) /\
    read_grid of_bytes file = Some (map (fun c => (vtk_code (c_corners c),
      map (fun l => (c_global c l, map (fun k => (field_name k, c_value c l k)) (seq 0 K))) (vtk_locals (c_corners c)))) cells).
Proof.
  intros Coord Scalar bytes_of of_bytes directory soln_name K field_name rank size cells F L OB NE KN B.
  destruct (written bytes_of of_bytes directory soln_name K field_name rank size cells NE KN F L OB) as (i & f & W & _ & _ & Rd).
  - assert (List.length (flat_map points_of cells) = list_sum (map (fun c => List.length (vtk_nodes (c_corners c))) cells)) as ->; [|exact B].
    clear. induction cells as [|c cells IH]; [reflexivity|]. cbn [flat_map map list_sum fold_right]. rewrite app_length, IH.
    unfold points_of, vtk_locals. rewrite !map_length. reflexivity.
  - exists i, f. split; [exact W|exact Rd].
Qed.
Print Assumptions C89_grid_partial.

(** Without cells the first value of an empty array is used; a pyramid fails an assertion. *)
Theorem C89_no_file_refuted : forall {Coord Scalar : Type} (bytes_of : Coord -> list Z) directory soln_name K field_name rank size,
  WriteSolutions (Scalar := Scalar) bytes_of directory soln_name K field_name rank size [] = None /\
  forall before after (pyramid : Cell Coord Scalar), (forall c, In c before -> c_corners c = 4) -> c_corners pyramid = 5 ->
  WriteSolutions bytes_of directory soln_name K field_name rank size (before ++ pyramid :: after) = None.
Proof.
  intros Coord Scalar bytes_of directory soln_name K field_name rank size. split; [reflexivity|].
  intros before after p B P. unfold WriteSolutions.
  assert (forall acc, foldM Prepare (before ++ p :: after) acc = None) as ->; [|reflexivity].
  induction before as [|c before IH]; intros acc; cbn [app foldM].
  - unfold Prepare at 1. rewrite P. reflexivity.
  - destruct (Prepare acc c); [|reflexivity]. apply IH. intros x X. apply B. right. exact X.
Qed.
Print Assumptions C89_no_file_refuted.

(** a type of coordinates with four bytes per number, as for [float]: here just a number below 256, twelve times *)
Definition one_byte_of (b : bool) : Z := if b then 1%Z else 0%Z.
Definition toy_tetra : Cell bool nat := mkCell 4 (fun l => Qle_bool 1 (lX l)) (fun l k => if Qle_bool 1 (lY l) then k else 7).
(** The type is always declared as Float64: the file of a solution with numbers of 4 bytes is not read back. *)
Theorem C89_single_precision_refuted : exists (bytes_of : bool -> list Z) (cells : list (Cell bool nat)) file,
  (forall c, Forall is_char (bytes_of c)) /\ (forall c, List.length (bytes_of c) = 12) /\
  (forall c d, bytes_of c = bytes_of d -> c = d) /\
  cells <> [] /\ (forall c, In c cells -> c_corners c = 4) /\
  WriteSolutions bytes_of "."%string "soln"%string 1 (fun _ => "Density"%string) 1 2 cells = Some (None, file) /\
  forall of_bytes : list Z -> bool, read_grid of_bytes file = None.
Proof.
  exists (fun b => repeat (one_byte_of b) 12), [toy_tetra]. eexists.
  split. { intros [|]; repeat constructor; unfold is_char, one_byte_of; lia. }
  split; [intros []; reflexivity|]. split; [intros [] [] E; (reflexivity || discriminate E)|]. split; [discriminate|].
  split; [intros c [<-|[]]; reflexivity|]. split; [vm_compute; reflexivity|]. intros of_bytes. unfold read_grid. cbn [v_coords v_points].
  match goal with |- context [read_points ?t] => assert (read_points t = Some [repeat 1%Z 12 ++ repeat 0%Z 12; repeat 0%Z 24; repeat 0%Z 24; repeat 0%Z 24; repeat 0%Z 24]) as -> by (vm_compute; reflexivity) end.
  rewrite map_length. reflexivity.
Qed.
Print Assumptions C89_single_precision_refuted.

(** a process with two cells: the hypotheses can be met, and the grid that is read *)
Definition toy_wedge : Cell bool nat := mkCell 6 (fun l => Qle_bool (lZ l) 0) (fun _ k => 10 * k).
Example C89_nonvacuous : let bytes_of b := repeat (one_byte_of b) 24 in let of_bytes l := (hd 0 l =? 1)%Z in
  (forall c, Forall is_char (bytes_of c)) /\ (forall c, List.length (bytes_of c) = 24) /\
  (forall c, of_bytes (map byte_of_char (bytes_of c)) = c) /\
  exists index file, WriteSolutions bytes_of "demo"%string "Frame0"%string 2 (fun k => if k =? 0 then "Rho"%string else "U"%string) 0 3 [toy_tetra; toy_wedge] = Some (Some index, file) /\
  p_pieces index = ["./Frame0/0.vtu"; "./Frame0/1.vtu"; "./Frame0/2.vtu"]%string /\
  v_points file = 25 /\ v_offsets file = [10; 25] /\ v_types file = [24; 26] /\
  option_map (map (fun c => (fst c, nth 1 (snd c) (true, [])))) (read_grid of_bytes file) =
    Some [(24, (false, [("Rho"%string, 0); ("U"%string, 1)])); (26, (true, [("Rho"%string, 0); ("U"%string, 10)]))].
Proof.
  intros bytes_of of_bytes. split. { intros [|]; repeat constructor; unfold is_char, one_byte_of; lia. }
  split; [intros []; reflexivity|]. split; [intros []; reflexivity|]. eexists. eexists.
  split; [vm_compute; reflexivity|]. vm_compute. repeat split.
Qed.

(** ** C90 *)

(** The points of a linear cell are its corners, in the same order, the middles of its edges and, for
    hexahedra, the middles of its faces and of the cell, in VTK's order. *)
Theorem C90_linear_cells : forall e nodes, In e [Tetrahedron4; Wedge6; Hexahedron8] -> built e nodes ->
  map (fun l => LocalToGlobal e nodes (Q2R (lX l)) (Q2R (lY l)) (Q2R (lZ l))) (vtk_locals (List.length nodes)) =
  map (middle nodes) (vtk_nodes (List.length nodes)).
Proof. exact linear_points. Qed.
Print Assumptions C90_linear_cells.

(** VTK's order of the nodes of a quadratic cell in terms of CGNS's numbers *)
Definition vtk_order (corners : nat) : list nat :=
  match corners with
  | 4 => [0; 1; 2; 3; 4; 5; 6; 7; 8; 9]
  | 6 => [0; 1; 2; 3; 4; 5; 6; 7; 8; 12; 13; 14; 9; 10; 11]
  | _ => [0; 1; 2; 3; 4; 5; 6; 7; 8; 9; 10; 11; 16; 17; 18; 19; 12; 13; 14; 15; 24; 22; 21; 23; 20; 25; 26]
  end.
(** The points of a quadratic cell are its nodes (of a hexahedron without nodes on its faces: the first ones). *)
Theorem C90_quadratic_cells : forall e corners nodes k,
  In (corners, e) [(4, Tetrahedron10); (6, Wedge15); (6, Wedge18); (8, Hexahedron20); (8, Hexahedron26); (8, Hexahedron27)] ->
  built e nodes -> k < List.length (vtk_locals corners) -> k < List.length nodes ->
  nth k (map (fun l => LocalToGlobal e nodes (Q2R (lX l)) (Q2R (lY l)) (Q2R (lZ l))) (vtk_locals corners)) v0 =
  nth (nth k (vtk_order corners) 0) nodes v0.
Proof.
  intros e corners nodes k He B L L2. unfold built in B.
  assert (In e elements) as Hee by (repeat (destruct He as [He|He]; [injection He as <- <-; cbn; tauto|]); contradiction He).
  rewrite (nth_indep _ v0 (to_global e nodes (0, 0, 0)%Q)) by (rewrite map_length; exact L).
  rewrite (map_nth (to_global e nodes)).
  enough ((nth k (vtk_order corners) 0 <? List.length (e_coords e)) &&
    (let a := at_ (e_coords e) (nth k (vtk_order corners) 0) in let b := nth k (vtk_locals corners) (0, 0, 0)%Q in
     Qeq_bool (lX a) (lX b) && Qeq_bool (lY a) (lY b) && Qeq_bool (lZ a) (lZ b)) = true)%bool as H.
  { cbv zeta in H. apply andb_prop in H. destruct H as (H1 & H). apply andb_prop in H. destruct H as (H & Hz). apply andb_prop in H. destruct H as (Hx & Hy).
    apply Nat.ltb_lt in H1. apply Qeq_bool_eq, Qreals.Qeq_eqR in Hx, Hy, Hz.
    rewrite <- (node_point e nodes _ _ Hee B H1 eq_refl). unfold to_global. rewrite Hx, Hy, Hz. reflexivity. }
  rewrite B in L2. clear B Hee.
  assert (forall n (f : nat -> bool), forallb f (seq 0 n) = true -> k < n -> f k = true) as FA.
  { intros n f F Lk. rewrite forallb_forall in F. apply F. apply in_seq. lia. }
  repeat (destruct He as [He|He]; [injection He as <- <-|]); try contradiction He; clear nodes;
    match goal with |- ?g = true => let p := eval pattern k in g in match p with ?f _ => change (f k = true) end end;
    first [ apply (FA 20); [vm_compute; reflexivity | exact L2]
          | apply (FA 26); [vm_compute; reflexivity | exact L2]
          | apply (FA (List.length (vtk_locals 4))); [vm_compute; reflexivity | exact L]
          | apply (FA (List.length (vtk_locals 6))); [vm_compute; reflexivity | exact L]
          | apply (FA (List.length (vtk_locals 8))); [vm_compute; reflexivity | exact L] ].
Qed.
Print Assumptions C90_quadratic_cells.

(** a brick: the fifteenth point is the middle of the edge between the corners 6 and 7 *)
Example C90_nonvacuous :
  let brick := [V 0 0 0; V 2 0 0; V 2 4 0; V 0 4 0; V 0 0 6; V 2 0 6; V 2 4 6; V 0 4 6]%R in
  built Hexahedron8 brick /\
  nth 14 (map (fun l => LocalToGlobal Hexahedron8 brick (Q2R (lX l)) (Q2R (lY l)) (Q2R (lZ l))) (vtk_locals 8)) v0 = V 1 4 6.
Proof.
  intros brick. split; [reflexivity|].
  etransitivity; [apply (f_equal (fun l => nth 14 l v0)); exact (C90_linear_cells Hexahedron8 brick ltac:(cbn; tauto) eq_refl)|].
  cbn [vtk_nodes List.length brick map nth]. unfold middle. cbn [List.length fold_right nth brick INR]. unfold vscale, vadd, v0. cbn [vx vy vz]. f_equal; lra.
Qed.

(** ** C91 *)

(** a source named in an index file in the directory [directory] *)
Definition resolve (directory source : string) : string :=
  (match source with
  | String "." (String "/" rest) => directory ++ "/" ++ rest
  | _ => directory ++ "/" ++ source
  end)%string.
(** If the names are not too long, the index file lists exactly the files of the processes, and these are
    different files. *)
Theorem C91_index_partial : forall directory soln_name K field_name size,
  (forall r, r < size -> String.length (directory ++ "/" ++ soln_name ++ "/" ++ decimal r ++ ".vtu") < 1024) ->
  map (resolve directory) (p_pieces (index_file directory soln_name K field_name size)) =
    map (stream_path directory soln_name) (seq 0 size) /\
  NoDup (map (stream_path directory soln_name) (seq 0 size)) /\
  (forall {Coord Scalar} (bytes_of : Coord -> list Z) rank (cells : list (Cell Coord Scalar)) index file,
    WriteSolutions bytes_of directory soln_name K field_name rank size cells = Some (index, file) ->
    v_path file = stream_path directory soln_name rank /\
    index = if rank =? 0 then Some (index_file directory soln_name K field_name size) else None) /\
  p_fields (index_file directory soln_name K field_name size) = map field_name (seq 0 K).
Proof.
  intros directory soln_name K field_name size L. split; [|split; [|split]].
  - cbn [index_file p_pieces]. rewrite map_map. apply map_ext_in. intros r R. apply in_seq in R. cbn [append resolve].
    unfold stream_path, snprintf. specialize (L r ltac:(lia)). change ("." ++ "vtu")%string with ".vtu"%string. rewrite substring_all by lia. reflexivity.
  - apply NoDup_map_in; [|apply seq_NoDup].
    intros a b A B E. apply in_seq in A, B. unfold stream_path, snprintf in E. change ("." ++ "vtu")%string with ".vtu"%string in E.
    pose proof (L a ltac:(lia)). pose proof (L b ltac:(lia)). rewrite !substring_all in E by lia.
    apply append_inj_l, append_inj_l, append_inj_l, append_inj_l, append_inj_r, decimal_inj in E. exact E.
  - intros Coord Scalar bytes_of rank cells index file W. unfold WriteSolutions in W.
    destruct (foldM Prepare cells _) as [acc|]; [|discriminate W]. cbn [bind] in W.
    destruct (nth_error (snd (snd acc)) 0); [|discriminate W]. cbn [bind] in W.
    destruct (encode_points bytes_of (fst (snd acc))); [|discriminate W]. cbn [bind] in W. injection W as <- <-. split; reflexivity.
  - reflexivity.
Qed.
Print Assumptions C91_index_partial.

(** Names are cut after 1023 characters: then two processes write the same file. *)
Theorem C91_long_names_refuted : exists directory soln_name,
  stream_path directory soln_name 0 = stream_path directory soln_name 1.
Proof.
  exists (concat "" (repeat "0123456789"%string 110)), "soln"%string. vm_compute. reflexivity.
Qed.
Print Assumptions C91_long_names_refuted.

Example C91_nonvacuous : stream_path "demo/tube" "Frame12" 10 = "demo/tube/Frame12/10.vtu"%string /\
  p_path (index_file "demo/tube" "Frame12" 5 (fun _ => "Rho"%string) 3) = "demo/tube/Frame12.pvtu"%string /\
  forall r, r < 3 -> String.length ("demo/tube" ++ "/" ++ "Frame12" ++ "/" ++ decimal r ++ ".vtu") < 1024.
Proof.
  split; [reflexivity|]. split; [reflexivity|]. intros [|[|[|r]]] L; try lia; apply Nat.ltb_lt; vm_compute; reflexivity.
Qed.
