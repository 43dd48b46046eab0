(** Specification of the residuals with viscous fluxes: the total fluxes in cells and through faces. *)
From Coq Require Import Reals List Arith String.
From Verif Require Import Vec3 RSum Model_Geometry Model_Basis Model_Dofs Model_DG Model_Diffusive Model_Schemes Model_Viscous
  Spec_DG Spec_Diffusive Spec_Schemes Spec_FR.
Import ListNotations.
Open Scope R_scope.

(** the same face with other solvers *)
Definition with_riemann (f : nface) (r : nat -> riemann) : nface :=
  NFace (nf_id f) (nholder f) (nsharer f) (nf_points f) (nf_coord f) (nf_weight f) (nf_center f) (nf_normal f) r.
(** the same part with other solvers *)
Definition with_solvers (solver : nface -> nat -> riemann) (p : npart) : npart :=
  let change f := with_riemann f (solver f) in
  NPart (n_local_cells p) (map change (n_local_faces p)) (map change (n_ghost_faces p)) (map change (n_boundary p))
    (fun name => map change (n_boundary_faces p name)).

Section Total.
  Variable K : nat.
  Variable FluxMatrix : value -> nat -> vec.
  Variable nu : vec.
  Variables beta_0 beta_1 : R.
  Variable HolderToSharer : nface -> vec.

  (** the flux of diffusion for the gradient [g] *)
  Definition diffusion (g : vec) : vec := V (vx nu * vx g) (vy nu * vy g) (vz nu * vz g).
  (** in a cell: convection minus diffusion *)
  Definition total_matrix (state : value) (k : nat) : vec := vsub (FluxMatrix state k) (diffusion (du_of K state k)).
  (** at a face: the mean of the two gradients and the jumps of the values and of the normal parts of the Hessians *)
  Definition common_gradient (d : R) (n : vec) (left right : value) (k : nat) : vec :=
    vadd (vadd (vscale (1 / 2) (vadd (du_of K left k) (du_of K right k))) (vscale (beta_0 * (right k - left k) / d) n))
         (vscale (beta_1 * d) (vsub (hess_mul (ddu_of K right k) n) (hess_mul (ddu_of K left k) n))).
  (** the total flux through a point of a face with [inside] on the side of the holder: on the boundary diffusion is that
      of the state inside *)
  Definition total_solver (f : nface) (q : nat) (inside : value) : riemann :=
    let r := nf_riemann f q in
    let n := nf_normal f q in
    let minus_inside (flux : value) : value := fun k => flux k - dot (diffusion (du_of K inside k)) n in
    Riemann
      (fun left right k => GetFluxUpwind r left right k
         - dot (diffusion (common_gradient (dot n (HolderToSharer f)) n left right k)) n)
      (fun u => minus_inside (GetFluxOnSolidWall r u))
      (fun u => minus_inside (GetFluxOnSupersonicOutlet r u))
      (fun g => minus_inside (GetFluxOnSupersonicInlet r g))
      (fun u g => minus_inside (GetFluxOnSubsonicInlet r u g))
      (fun u g => minus_inside (GetFluxOnSubsonicOutlet r u g))
      (fun u g => minus_inside (GetFluxOnSmartBoundary r u g)).

  (** [at_node c f q]: the Gauss point of cell [c] that is the point [q] of face [f] *)
  Variable at_node : ncell -> nface -> nat -> nat.
  Definition total_face (f : nface) : nface :=
    with_riemann f (fun q => total_solver f q (nc_value (nholder f) (at_node (nholder f) f q))).
  Definition total_part (p : npart) : npart :=
    NPart (n_local_cells p) (map total_face (n_local_faces p)) (map total_face (n_ghost_faces p))
      (map total_face (n_boundary p)) (fun name => map total_face (n_boundary_faces p name)).
End Total.

(** the components before [K] of the solution are linear: they are continuous at the faces inside, their gradients are [g] *)
Definition linear_solution (K N : nat) (at_node : ncell -> nface -> nat -> nat) (p : npart) (g : nat -> vec) : Prop :=
  (forall c q k, In c (n_local_cells p) \/ (exists f, In f (n_ghost_faces p) /\ c = nsharer f) -> (q < N)%nat -> (k < K)%nat ->
     du_of K (nc_value c q) k = g k /\ ddu_of K (nc_value c q) k = H6 0 0 0 0 0 0)
  /\ (forall f q k, In f (n_local_faces p) \/ In f (n_ghost_faces p) -> (q < nf_points f)%nat -> (k < K)%nat ->
     nc_value (nholder f) (at_node (nholder f) f q) k = nc_value (nsharer f) (at_node (nsharer f) f q) k).

(** a uniform flux has no divergence in a cell *)
Definition no_divergence (Q : nat) (c : ncell) : Prop :=
  forall F j, (j < Q * Q * Q)%nat -> rsum (Q * Q * Q) (fun m => dot (rmul F (nc_associated c m)) (nc_gradients c j m)) = 0.

(** where the points of faces are does not depend on the solvers *)
Definition geometric (place : ncell -> nface -> nat -> position) : Prop :=
  forall c f r q, place c (with_riemann f r) q = place c f q.
(** the sharer of a face is on the side to which its normal points *)
Definition normals_forward (HolderToSharer : nface -> vec) (p : npart) : Prop :=
  forall f q, In f (n_local_faces p) \/ In f (n_ghost_faces p) -> (q < nf_points f)%nat ->
    0 < dot (nf_normal f q) (HolderToSharer f).
