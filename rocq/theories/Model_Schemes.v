(** Model of the schemes whose degrees of freedom are values at the Gauss points of hexahedra.
    Sources: include/mini/spatial/dg/lobatto.hpp, include/mini/spatial/fr/general.hpp,
    include/mini/spatial/fr/lobatto.hpp, include/mini/spatial/fem.hpp and the functions of
    include/mini/polynomial/hexahedron.hpp that locate points on faces.

    The three classes have loops over faces of the same shape, which is written once; what they store for a
    point of a face ([entry]) and what they do with a flux there ([put]) are parameters, given below for each class.
    A failed assertion, an exception or an access out of bounds is [None].  Riemann solvers are
    convective: the versions of the member functions for diffusive ones are not modelled here. *)
From Coq Require Import Reals List Arith String.
From Verif Require Import Vec3 Arrays RSum Model_Geometry Model_Basis Model_Nodal Model_Dofs Model_DG.
Import ListNotations.
Open Scope R_scope.

(** a cell whose [Projection] is a polynomial::Hexahedron *)
Record ncell := NCell {
  nc_id : nat;                             (* [id()] *)
  nc_points : nat;                         (* [gauss().CountPoints()] *)
  nc_coord : nat -> vec;                   (* [gauss().GetGlobalCoord(q)] *)
  nc_local_weight : nat -> R;              (* [gauss().GetLocalWeight(q)] *)
  nc_global_weight : nat -> R;             (* [gauss().GetGlobalWeight(q)] *)
  nc_value : nat -> value;                 (* [projection().GetValue(q)] *)
  nc_gradients : nat -> nat -> vec;        (* columns of [projection().GetBasisGradients(q)] *)
  nc_associated : nat -> mat3;             (* [projection().GetJacobianAssociated(q)] *)
  nc_to_global : vec -> vec                (* [lagrange().LocalToGlobal(x, y, z)] *)
}.
(** part.hpp:102-180 *)
Record nface := NFace {
  nf_id : nat;                             (* [id()] *)
  nholder : ncell;
  nsharer : ncell;                         (* not used by faces on a boundary *)
  nf_points : nat;                         (* [gauss().CountPoints()] *)
  nf_coord : nat -> vec;                   (* [gauss().GetGlobalCoord(f)] *)
  nf_weight : nat -> R;                    (* [gauss().GetGlobalWeight(f)] *)
  nf_center : vec;                         (* [lagrange().center()] *)
  nf_normal : nat -> vec;                  (* [riemann(f).normal()] *)
  nf_riemann : nat -> riemann
}.
Record npart := NPart {
  n_local_cells : list ncell;
  n_local_faces : list nface;
  n_ghost_faces : list nface;
  n_boundary : list nface;                 (* [GetBoundaryFaces()], all of them *)
  n_boundary_faces : string -> list nface  (* [GetBoundaryFaces(name)] *)
}.

Definition mem := nat -> R.

(** Eigen's [norm] *)
Definition vnorm (v : vec) : R := sqrt (dot v v).
Definition norm_n (n : nat) (v : nat -> R) : R := sqrt (rsum n (fun i => v i * v i)).
Definition less (a b : R) : bool := if Rlt_dec a b then true else false.
(** fem.hpp:23-25 *)
Definition Near (x y : vec) : bool := less (vnorm (vsub x y)) (/ 10 ^ 12).
(** fr/general.hpp:81-83 and fr/lobatto.hpp:71-73 *)
Definition Collinear (a b : vec) : bool := less (Rabs (1 - Rabs (dot a b / vnorm a / vnorm b))) (/ 10 ^ 8).

Section Scheme.
  Variables K N : nat.
  Variable entry : Type.
  Variable entry_of : ncell -> nface -> nat -> option entry.
  Variable node : entry -> nat.
  Variable check : entry -> entry -> bool.
  (** [put is_holder cell face f entry flux data]; [put_outlet] for supersonic outlets *)
  Variable put : bool -> ncell -> nface -> nat -> entry -> value -> nat -> mem -> option mem.
  Variable put_outlet : ncell -> nface -> nat -> entry -> value -> nat -> mem -> option mem.
  Variable divergence : ncell -> nat -> mem -> option mem.

  Definition cache := list (list entry).

  (** dg/lobatto.hpp:56-74 [MatchGaussianPoints], fr/general.hpp:88-203 and fr/lobatto.hpp:79-161
      [CacheCorrectionGradients]: the new caches at the end of [c] *)
  Definition cache_faces (pick : nface -> ncell) (faces : list nface) (c : cache) : option cache :=
    foldM (fun c f =>
      if (List.length c =? nf_id f)%nat then
        do l <- mapM (entry_of (pick f) f) (seq 0 (nf_points f)); Some (c ++ [l])
      else None) faces c.
  (** the constructors: dg/lobatto.hpp:101-114, fr/general.hpp:207-219, fr/lobatto.hpp:192-206 *)
  Definition construct (p : npart) : option (cache * cache) :=
    do holder <- cache_faces nholder (n_local_faces p) [];
    do sharer <- cache_faces nsharer (n_local_faces p) [];
    do holder <- cache_faces nholder (n_ghost_faces p) holder;
    do sharer <- cache_faces nsharer (n_ghost_faces p) sharer;
    do holder <- cache_faces nholder (n_boundary p) holder;
    Some (holder, sharer).

  Definition nn_cells (p : npart) : nat := List.length (n_local_cells p).

  (** fem.hpp:247-253 *)
  Definition divergences (p : npart) (residual : column) : option column :=
    foldM (fun residual c =>
      do data <- AddCellDataOffset K N (nn_cells p) residual (nc_id c);
      do m <- divergence c data (at_ residual);
      Some (with_mem residual m)) (n_local_cells p) residual.

  (** dg/lobatto.hpp:156-176, fr/general.hpp:302-327, fr/lobatto.hpp:215-236 *)
  Definition local_face (hc sc : cache) (p : npart) (residual : column) (f : nface) : option column :=
    do holder_data <- AddCellDataOffset K N (nn_cells p) residual (nc_id (nholder f));
    do sharer_data <- AddCellDataOffset K N (nn_cells p) residual (nc_id (nsharer f));
    do h <- nth_error hc (nf_id f);
    do s <- nth_error sc (nf_id f);
    do m <- foldM (fun m q =>
      do a <- nth_error h q;
      do b <- nth_error s q;
      let u_holder := nc_value (nholder f) (node a) in
      let u_sharer := nc_value (nsharer f) (node b) in
      let flux := GetFluxUpwind (nf_riemann f q) u_holder u_sharer in
      if check a b then
        do m <- put true (nholder f) f q a flux holder_data m;
        put false (nsharer f) f q b flux sharer_data m
      else None) (seq 0 (nf_points f)) (at_ residual);
    Some (with_mem residual m).
  (** dg/lobatto.hpp:177-195, fr/general.hpp:328-348, fr/lobatto.hpp:237-259 *)
  Definition ghost_face (hc sc : cache) (p : npart) (residual : column) (f : nface) : option column :=
    do holder_data <- AddCellDataOffset K N (nn_cells p) residual (nc_id (nholder f));
    do h <- nth_error hc (nf_id f);
    do s <- nth_error sc (nf_id f);
    do m <- foldM (fun m q =>
      do a <- nth_error h q;
      do b <- nth_error s q;
      let u_holder := nc_value (nholder f) (node a) in
      let u_sharer := nc_value (nsharer f) (node b) in
      let flux := GetFluxUpwind (nf_riemann f q) u_holder u_sharer in
      if check a b then put true (nholder f) f q a flux holder_data m else None) (seq 0 (nf_points f)) (at_ residual);
    Some (with_mem residual m).
  (** the body of the loops over boundary faces: dg/lobatto.hpp:198-210, 215-227, 232-244, 249-262, 267-280, 285-298;
      fr/general.hpp:351-371, 408-424, 430-450, 456-476, 482-502, 508-528; fr/lobatto.hpp:260-391 *)
  Definition boundary_face (hc : cache) (p : npart)
      (put_it : ncell -> nface -> nat -> entry -> value -> nat -> mem -> option mem)
      (flux_at : riemann -> value -> vec -> value) (residual : column) (f : nface) : option column :=
    do holder_data <- AddCellDataOffset K N (nn_cells p) residual (nc_id (nholder f));
    do h <- nth_error hc (nf_id f);
    do m <- foldM (fun m q =>
      do a <- nth_error h q;
      let u_holder := nc_value (nholder f) (node a) in
      let flux := flux_at (nf_riemann f q) u_holder (nf_coord f q) in
      put_it (nholder f) f q a flux holder_data m) (seq 0 (nf_points f)) (at_ residual);
    Some (with_mem residual m).

  Definition n_on_names hc p put_it flux_at (names : list string) (residual : column) : option column :=
    foldM (fun residual name => foldM (boundary_face hc p put_it flux_at) (n_boundary_faces p name) residual) names residual.
  Definition n_on_pairs hc p put_it (flux_at : func -> riemann -> value -> vec -> value)
      (l : list (string * func)) (residual : column) : option column :=
    foldM (fun residual '(name, given) =>
      foldM (boundary_face hc p put_it (flux_at given)) (n_boundary_faces p name) residual) l residual.

  (** the fluxes of the six conditions; [func] is called with the coordinates of the point and the time *)
  Definition n_wall (r : riemann) (u : value) (_ : vec) : value := GetFluxOnSolidWall r u.
  Definition n_sup_out (r : riemann) (u : value) (_ : vec) : value := GetFluxOnSupersonicOutlet r u.
  Definition n_sup_in (t : R) (given : func) (r : riemann) (_ : value) (x : vec) : value :=
    GetFluxOnSupersonicInlet r (given x t).
  Definition n_sub_in (t : R) (given : func) (r : riemann) (u : value) (x : vec) : value :=
    GetFluxOnSubsonicInlet r u (given x t).
  Definition n_sub_out (t : R) (given : func) (r : riemann) (u : value) (x : vec) : value :=
    GetFluxOnSubsonicOutlet r u (given x t).
  Definition n_smart (t : R) (given : func) (r : riemann) (u : value) (x : vec) : value :=
    GetFluxOnSmartBoundary r u (given x t).

  (** fem.hpp:173-226, in the order of the calls; the exchange of ghost values is part of the cells' values *)
  Definition n_boundaries (hc : cache) (s : fem) (p : npart) (residual : column) : option column :=
    do residual <- n_on_names hc p (put true) n_wall (solid_wall s) residual;
    do residual <- n_on_pairs hc p (put true) (n_sup_in (t_curr s)) (supersonic_inlet s) residual;
    do residual <- n_on_names hc p put_outlet n_sup_out (supersonic_outlet s) residual;
    do residual <- n_on_pairs hc p (put true) (n_sub_in (t_curr s)) (subsonic_inlet s) residual;
    do residual <- n_on_pairs hc p (put true) (n_sub_out (t_curr s)) (subsonic_outlet s) residual;
    n_on_pairs hc p (put true) (n_smart (t_curr s)) (smart_boundary s) residual.
  Definition residual_of (hc sc : cache) (s : fem) (p : npart) : option column :=
    do sz <- GetCellDataSize K N (nn_cells p);
    do residual <- divergences p (Col sz (fun _ => 0));
    do residual <- foldM (local_face hc sc p) (n_local_faces p) residual;
    do residual <- n_boundaries hc s p residual;
    foldM (ghost_face hc sc p) (n_ghost_faces p) residual.
End Scheme.

(** ** DG::Lobatto *)
Section DGLobatto.
  Variables K N : nat.
  Variable kLocal : bool.
  Variable cell_to_flux : ncell -> nat -> nat -> vec.   (* rows of [cell_to_flux(cell, q)] *)

  (** the first [n] points from [h] on: dg/lobatto.hpp:66-72 *)
  Fixpoint first_near (x : vec) (coord : nat -> vec) (n h : nat) : option nat :=
    match n with
    | O => None
    | S k => if Near x (coord h) then Some h else first_near x coord k (S h)
    end.
  (** dg/lobatto.hpp:63-73; the conversion of the index to 16 bits is not modelled *)
  Definition MatchGaussianPoint (c : ncell) (f : nface) (q : nat) : option nat :=
    first_near (nf_coord f q) (nc_coord c) (nc_points c) 0.

  (** dg/lobatto.hpp:78-83 *)
  Definition GetWeight (c : ncell) (q : nat) : R := if kLocal then nc_local_weight c q else nc_global_weight c q.
  (** dg/lobatto.hpp:86-98 *)
  Definition GetWeightedFluxMatrix (c : ncell) (q r : nat) : vec :=
    let flux := cell_to_flux c q r in
    let flux := if kLocal then rmul flux (nc_associated c q) else flux in
    vscale (GetWeight c q) flux.
  (** dg/lobatto.hpp:142-151 *)
  Definition DGL_divergence (c : ncell) (data : nat) (m : mem) : option mem :=
    Some (for_q (nc_points c) (fun m q =>
      AddCoeffTo K N (fun r j => dot (GetWeightedFluxMatrix c q r) (nc_gradients c q j)) data m) m).
  (** dg/lobatto.hpp:171-173 and 190-192, 206-207 *)
  Definition DGL_put (is_holder : bool) (c : ncell) (f : nface) (q : nat) (e : nat) (flux : value) (data : nat) (m : mem) : option mem :=
    if is_holder then MinusValue K N (scale (nf_weight f q) flux) data e m
    else AddValueTo K N (scale (nf_weight f q) flux) data e m.
  Definition DGL_construct : npart -> option (list (list nat) * list (list nat)) := construct nat MatchGaussianPoint.

  (** dg/lobatto.hpp:124-139 *)
  Definition ScaleAll (p : npart) (residual : column) : option column :=
    foldM (fun residual c =>
      do data <- AddCellDataOffset K N (nn_cells p) residual (nc_id c);
      let '(m, data) := for_q (nc_points c) (fun st q => ScaleValueAt K (1 / GetWeight c q) st) (at_ residual, data) in
      let residual := with_mem residual m in
      if check_end K N (nn_cells p) residual (nc_id c) data then Some residual else None) (n_local_cells p) residual.
  Definition DGL_GetResidualColumn (s : fem) (p : npart) : option column :=
    do caches <- DGL_construct p;
    do residual <- residual_of K N nat (fun e => e) (fun _ _ => true) DGL_put (DGL_put true) DGL_divergence
                     (fst caches) (snd caches) s p;
    ScaleAll p residual.
End DGLobatto.

(** ** Points on the faces of a hexahedron *)
Section Find.
  Variable Q : nat.
  Variable points : nat -> R.                 (* [GaussX::points], the same on the three axes *)

  (** hexahedron.hpp:580-594 *)
  Definition FindFaceId (c : ncell) (face_center : vec) : option nat :=
    let almost_equal point := less (vnorm (vsub point face_center)) (/ 10 ^ 10) in
    let at_point x y z := almost_equal (nc_to_global c (V x y z)) in
    if at_point 0 0 (-1) then Some 0%nat
    else if at_point 0 (-1) 0 then Some 1%nat
    else if at_point 1 0 0 then Some 2%nat
    else if at_point 0 1 0 then Some 3%nat
    else if at_point (-1) 0 0 then Some 4%nat
    else if at_point 0 0 1 then Some 5%nat
    else None.
  (** the point of face [i_face] with the two coordinates [a] and [b]: hexahedron.hpp:719, 736, 753, 770, 787, 804 *)
  Definition on_face (i_face : nat) (a b : R) : vec :=
    match i_face with
    | 0 => V a b (-1) | 1 => V a (-1) b | 2 => V 1 a b | 3 => V a 1 b | 4 => V (-1) a b | _ => V a b 1
    end%nat.
  (** hexahedron.hpp:706-820: the two nested loops; if no point is close, both indices are [Q] after them *)
  Definition FindCollinearIndex (c : ncell) (global : vec) (i_face : nat) : nat * nat :=
    match find (fun '(a, b) => less (vnorm (vsub (nc_to_global c (on_face i_face (points a) (points b))) global)) (/ 10 ^ 8))
               (list_prod (seq 0 Q) (seq 0 Q)) with
    | Some ab => ab
    | None => (Q, Q)
    end.
  (** [cell_basis.index] of the point [t] of the line through the point ([a], [b]) of a face: fr/general.hpp:111, 127,
      143, 159, 175, 191 *)
  Definition line_index (i_face a b t : nat) : nat :=
    match i_face with
    | 0 | 5 => Hexa_index Q Q a b t
    | 1 | 3 => Hexa_index Q Q a t b
    | _ => Hexa_index Q Q t a b
    end%nat.
  (** the faces 0, 1 and 4 are at -1, the others at +1 *)
  Definition on_left (i_face : nat) : bool := match i_face with 0 | 1 | 4 => true | _ => false end%nat.
  (** the index on the line of the point on the face: fr/general.hpp:105, 121, 137, 153, 169, 185 *)
  Definition end_index (i_face : nat) : nat := if on_left i_face then 0 else (Q - 1).
  Definition column_of (m : mat3) (i_face : nat) : vec :=
    match i_face with
    | 0 | 5 => V (vz (r0 m)) (vz (r1 m)) (vz (r2 m))
    | 1 | 3 => V (vy (r0 m)) (vy (r1 m)) (vy (r2 m))
    | _ => V (vx (r0 m)) (vx (r1 m)) (vx (r2 m))
    end%nat.
End Find.

(** ** FR::General *)
Section FR.
  Variables K Q : nat.
  Let N := (Q * Q * Q)%nat.
  Variable points : nat -> R.
  Variables degree : nat.                     (* [Part::kDegrees] *)
  Variable c_next : R.
  Variable FluxMatrix : value -> nat -> vec.  (* rows of [Riemann::GetFluxMatrix(u)] *)

  (** fr/general.hpp:59-71 *)
  Record line_cache := Line { solution_points : list (R * nat); fp_normal : vec; fp_scale : R; fp_ijk : nat }.

  Definition g_prime (i_face : nat) (local : R) : R :=
    if on_left i_face then LocalToLeftDerivative degree c_next local else LocalToRightDerivative degree c_next local.
  (** fr/general.hpp:88-202; the assertion of line 100, that the two normals of the face are the same, is left out *)
  Definition FR_entry (c : ncell) (f : nface) (q : nat) : option line_cache :=
    do i_face <- FindFaceId c (nf_center f);
    if negb (Q * Q =? nf_points f)%nat then None else
    let '(a, b) := FindCollinearIndex Q points c (nf_coord f q) i_face in
    let ijk := line_index Q i_face a b (end_index Q i_face) in
    if negb (ijk <? nc_points c)%nat then None else
    if negb (Near (nf_coord f q) (nc_coord c ijk)) then None else
    let normal := column_of (nc_associated c ijk) i_face in
    let scale := if on_left i_face then - vnorm normal else vnorm normal in
    if negb (Collinear (nf_normal f q) normal) then None else
    Some (Line (map (fun t => (g_prime i_face (points t), line_index Q i_face a b t)) (seq 0 Q)) normal scale ijk).

  (** fr/general.hpp:232-248, for one component of the value; [cell_to_flux] is fem.hpp:264-267 *)
  Definition FR_divergence (c : ncell) (data : nat) (m : mem) : option mem :=
    let flux q r := rmul (FluxMatrix (nc_value c q) r) (nc_associated c q) in
    foldM (fun m q =>
      let v r := fold_left (fun v k => v + dot (flux k r) (nc_gradients c q k)) (seq 1 (nc_points c - 1))
                   (dot (flux 0%nat r) (nc_gradients c q 0%nat)) in
      MinusValue K N v data q m) (seq 0 (nc_points c)) m.

  (** fr/general.hpp:249-264 and 358-361: the difference of the fluxes at the point of the face *)
  Definition difference (is_holder : bool) (c : ncell) (normal : vec) (scale : R) (ijk : nat) (f_upwind : value) : value :=
    fun r => f_upwind r * (if is_holder then scale else - scale) - dot (FluxMatrix (nc_value c ijk) r) normal.
  (** fr/general.hpp:316-323 *)
  Definition FR_put (is_holder : bool) (c : ncell) (f : nface) (q : nat) (e : line_cache) (flux : value) (data : nat) (m : mem) : option mem :=
    let diff := difference is_holder c (fp_normal e) (fp_scale e) (fp_ijk e) flux in
    foldM (fun m '(g, ijk) => MinusValue K N (fun r => diff r * g) data ijk m) (solution_points e) m.
  (** fr/general.hpp:418-423: with assertions *)
  Definition FR_put_outlet (c : ncell) (f : nface) (q : nat) (e : line_cache) (flux : value) (data : nat) (m : mem) : option mem :=
    let diff := difference true c (fp_normal e) (fp_scale e) (fp_ijk e) flux in
    foldM (fun m '(g, ijk) =>
      if less (norm_n K (fun r => diff r * g)) (/ 10 ^ 6) then MinusValue K N (fun r => diff r * g) data ijk m else None)
      (solution_points e) m.
  Definition FR_construct : npart -> option (list (list line_cache) * list (list line_cache)) := construct line_cache FR_entry.
  (** fem.hpp:173-183 *)
  Definition FR_GetResidualColumn (s : fem) (p : npart) : option column :=
    do caches <- FR_construct p;
    residual_of K N line_cache fp_ijk (fun a b => Collinear (fp_normal a) (fp_normal b)) FR_put FR_put_outlet FR_divergence
      (fst caches) (snd caches) s p.
End FR.

(** ** FR::Lobatto *)
Section FRLobatto.
  Variables K Q : nat.
  Let N := (Q * Q * Q)%nat.
  Variable points : nat -> R.
  Variables degree : nat.
  Variable FluxMatrix : value -> nat -> vec.

  (** fr/lobatto.hpp:61-66 *)
  Record point_cache := Point { pc_normal : vec; pc_scale : R; pc_g_prime : R; pc_ijk : nat }.
  (** fr/lobatto.hpp:78-160 *)
  Definition FRL_entry (c : ncell) (f : nface) (q : nat) : option point_cache :=
    let g_prime := LocalToRightDerivative degree (HuynhLumpingLobatto degree) 1 in
    do i_face <- FindFaceId c (nf_center f);
    if negb (Q * Q =? nf_points f)%nat then None else
    let '(a, b) := FindCollinearIndex Q points c (nf_coord f q) i_face in
    let ijk := line_index Q i_face a b (end_index Q i_face) in
    if negb (ijk <? nc_points c)%nat then None else
    if negb (Near (nf_coord f q) (nc_coord c ijk)) then None else
    let normal := column_of (nc_associated c ijk) i_face in
    if negb (Collinear (nf_normal f q) normal) then None else
    let scale := if on_left i_face then - vnorm normal else vnorm normal in
    Some (Point normal scale (if on_left i_face then - g_prime else g_prime) ijk).
  (** fr/lobatto.hpp:230-233 *)
  Definition FRL_put (is_holder : bool) (c : ncell) (f : nface) (q : nat) (e : point_cache) (flux : value) (data : nat) (m : mem) : option mem :=
    MinusValue K N (fun r => difference FluxMatrix is_holder c (pc_normal e) (pc_scale e) (pc_ijk e) flux r * pc_g_prime e)
      data (pc_ijk e) m.
  (** fr/lobatto.hpp:290-295 *)
  Definition FRL_put_outlet (c : ncell) (f : nface) (q : nat) (e : point_cache) (flux : value) (data : nat) (m : mem) : option mem :=
    let v r := difference FluxMatrix true c (pc_normal e) (pc_scale e) (pc_ijk e) flux r * pc_g_prime e in
    if less (norm_n K v) (/ 10 ^ 6) then MinusValue K N v data (pc_ijk e) m else None.

  (** fr/lobatto.hpp:164-189 [CheckCacheConsistency], for one point of a face *)
  Definition consistent (e : point_cache) (base : line_cache) : Prop :=
    pc_ijk e = fp_ijk base /\ pc_scale e = fp_scale base /\ pc_normal e = fp_normal base
    /\ List.length (solution_points base) = Q
    /\ (forall g ijk, In (g, ijk) (solution_points base) ->
          if (pc_ijk e =? ijk)%nat then g = pc_g_prime e else Rabs g < / 10 ^ 8)
    /\ List.length (filter (fun '(_, ijk) => pc_ijk e =? ijk)%nat (solution_points base)) = 1%nat.
  Definition FRL_construct : npart -> option (list (list point_cache) * list (list point_cache)) := construct point_cache FRL_entry.
  (** the constructor of the base class, fr/lobatto.hpp:193, runs first; the assertions of the consistency check are
      [consistent] above *)
  Definition FRL_GetResidualColumn (s : fem) (p : npart) : option column :=
    do _ <- FR_construct Q points degree (HuynhLumpingLobatto degree) p;
    do caches <- FRL_construct p;
    residual_of K N point_cache pc_ijk (fun a b => Collinear (pc_normal a) (pc_normal b)) FRL_put FRL_put_outlet
      (FR_divergence K Q FluxMatrix) (fst caches) (snd caches) s p.
End FRLobatto.

(** ** The cells of hexahedra *)
(** a cell with a polynomial::Hexahedron for which [kLocal] holds: the members of [ncell] by the functions of
    polynomial/hexahedron.hpp (lines 257-259 [GetValue], 291-293 [GetBasisGradients], 476-479
    [GetJacobianAssociated]) and by the rule of gauss/hexahedron.hpp lines 95-110, whose local weights are [w];
    gradients are zero where the basis of Model_Nodal fails to give any (too few points on a line) *)
Definition hexa_cell (id : nat) (w : nat -> R) (u : Nodal) : ncell :=
  NCell id (b_N (n_basis u)) (fun q => to_global u (point u q)) w (fun q => w q * jacobian_det u q)
    (GetValue u)
    (fun q => match basis_local_gradients (n_basis u) q with Some rows => column3 rows | None => fun _ => v0 end)
    (jacobian_det_inv u) (to_global u).
