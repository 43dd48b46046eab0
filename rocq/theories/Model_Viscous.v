(** Model of FR::General and FR::Lobatto for Riemann solvers that are both convective and diffusive
    ([ConvectionDiffusion] of a convective solver and [DirectDG] of a linear diffusion model, as in
    demo/linear/single.cpp).
    Sources: include/mini/spatial/fr/general.hpp, include/mini/spatial/fr/lobatto.hpp, include/mini/spatial/fem.hpp,
    include/mini/riemann/concept.hpp.  What is not different from convective solvers is taken from Model_Schemes.

    In this file [nc_value c q] is not only what [projection().GetValue(q)] returns, but the list of
    [GetValue(q)], [GetGlobalGradient(q)] and [GetGlobalHessian(q)], one after the other, see below. *)
From Coq Require Import Reals List Arith String.
From Verif Require Import Vec3 Arrays RSum Model_Geometry Model_Basis Model_Nodal Model_Dofs Model_DG Model_Diffusive Model_Schemes.
Import ListNotations.
Open Scope R_scope.

Section Viscous.
  Variables K Q : nat.
  Let N := (Q * Q * Q)%nat.
  Variable FluxMatrix : value -> nat -> vec.     (* rows of [Riemann::GetFluxMatrix(u)], the convective fluxes *)
  Variable nu : vec.                             (* [nu_x_], [nu_y_], [nu_z_] of the diffusion model *)
  Variables beta_0 beta_1 : R.                   (* [beta_0_], [beta_1_] of DirectDG *)
  Variable HolderToSharer : nface -> vec.        (* part.hpp:173-175 *)

  (** the three parts of [nc_value c q]: [K] values, [K] columns of the gradient, [K] columns of the Hessian *)
  Definition u_of (state : value) : conservative := fun k => state k.
  Definition du_of (state : value) : gradient :=
    fun k => V (state (K + 3 * k)%nat) (state (K + 3 * k + 1)%nat) (state (K + 3 * k + 2)%nat).
  Definition ddu_of (state : value) : hessian :=
    fun k => let h := (4 * K + 6 * k)%nat in
      H6 (state h) (state (h + 1)%nat) (state (h + 2)%nat) (state (h + 3)%nat) (state (h + 4)%nat) (state (h + 5)%nat).

  (** fem.hpp:268-275 [GetFluxMatrix]; also fr/general.hpp:290-291, 294-295, 398-399 *)
  Definition V_FluxMatrix (state : value) : flux_matrix :=
    MinusViscousFluxMatrix nu (u_of state) (du_of state) (FluxMatrix (u_of state)).

  Variable entry : Type.
  Variable entry_of : ncell -> nface -> nat -> option entry.
  Variables (e_normal : entry -> vec) (e_scale : entry -> R) (e_ijk : entry -> nat).
  (** [add f_holder data e]: the loop in which the flux times [g_prime] is subtracted: fr/general.hpp:316-319,
      fr/lobatto.hpp:230-231 *)
  Variable add : value -> nat -> entry -> mem -> option mem.
  (** the same with assertions: fr/general.hpp:418-423, fr/lobatto.hpp:289-292 *)
  Variable add_outlet : value -> nat -> entry -> mem -> option mem.

  (** fr/general.hpp:265-300 [GetFluxOnLocalFace] *)
  Definition V_GetFluxOnLocalFace (f : nface) (q : nat) (a b : entry) : option (value * value) :=
    let holder := nc_value (nholder f) (e_ijk a) in
    let sharer := nc_value (nsharer f) (e_ijk b) in
    let f_upwind := GetFluxUpwind (nf_riemann f q) (u_of holder) (u_of sharer) in
    if negb (Collinear (e_normal a) (e_normal b)) then None else
    let normal := nf_normal f q in
    let distance := dot normal (HolderToSharer f) in
    if negb (less 0 distance) then None else
    let du_common := GetCommonGradientWithHessian beta_0 beta_1 distance normal (u_of holder) (u_of sharer)
                       (du_of holder) (du_of sharer) (ddu_of holder) (ddu_of sharer) in
    let u_common k := (u_of holder k + u_of sharer k) / 2 in
    let f_upwind := MinusViscousFluxNormal nu u_common du_common normal f_upwind in
    let f_mat_holder := V_FluxMatrix holder in
    let f_holder k := f_upwind k * e_scale a - dot (f_mat_holder k) (e_normal a) in
    let f_mat_sharer := V_FluxMatrix sharer in
    let f_sharer k := f_upwind k * (- e_scale b) - dot (f_mat_sharer k) (e_normal b) in
    Some (f_holder, f_sharer).

  (** fr/general.hpp:302-327, fr/lobatto.hpp:215-236 [AddFluxOnLocalFaces] *)
  Definition V_local_face (hc sc : list (list entry)) (p : npart) (residual : column) (f : nface) : option column :=
    do holder_data <- AddCellDataOffset K N (nn_cells p) residual (nc_id (nholder f));
    do sharer_data <- AddCellDataOffset K N (nn_cells p) residual (nc_id (nsharer f));
    do h <- nth_error hc (nf_id f);
    do s <- nth_error sc (nf_id f);
    do m <- foldM (fun m q =>
      do a <- nth_error h q;
      do b <- nth_error s q;
      do fluxes <- V_GetFluxOnLocalFace f q a b;
      do m <- add (fst fluxes) holder_data a m;
      add (snd fluxes) sharer_data b m) (seq 0 (nf_points f)) (at_ residual);
    Some (with_mem residual m).
  (** fr/general.hpp:328-348, fr/lobatto.hpp:237-258 [AddFluxOnGhostFaces] *)
  Definition V_ghost_face (hc sc : list (list entry)) (p : npart) (residual : column) (f : nface) : option column :=
    do holder_data <- AddCellDataOffset K N (nn_cells p) residual (nc_id (nholder f));
    do h <- nth_error hc (nf_id f);
    do s <- nth_error sc (nf_id f);
    do m <- foldM (fun m q =>
      do a <- nth_error h q;
      do b <- nth_error s q;
      do fluxes <- V_GetFluxOnLocalFace f q a b;
      add (fst fluxes) holder_data a m) (seq 0 (nf_points f)) (at_ residual);
    Some (with_mem residual m).

  (** a face of the boundary that is not a supersonic outlet, fr/general.hpp:351-371, 425-525, fr/lobatto.hpp:259-280,
      297-391: only convective fluxes; [flux_at] is the flux function of the condition *)
  Definition V_put (c : ncell) (f : nface) (q : nat) (e : entry) (flux : value) (data : nat) (m : mem) : option mem :=
    let u_holder := u_of (nc_value c (e_ijk e)) in
    add (fun k => flux k * e_scale e - dot (FluxMatrix u_holder k) (e_normal e)) data e m.
  (** fr/general.hpp:383-405 [GetFluxOnSupersonicOutlet], then the loop over the points of the line *)
  Definition V_put_outlet (c : ncell) (f : nface) (q : nat) (e : entry) (f_upwind : value) (data : nat) (m : mem) : option mem :=
    let holder := nc_value c (e_ijk e) in
    let normal := nf_normal f q in
    if negb (Collinear normal (e_normal e)) then None else
    let f_upwind := MinusViscousFluxNormal nu (u_of holder) (du_of holder) normal f_upwind in
    let f_mat_holder := V_FluxMatrix holder in
    let f_holder k := f_upwind k * e_scale e - dot (f_mat_holder k) (e_normal e) in
    if negb (less (norm_n K f_holder) (/ 10 ^ 6)) then None else
    add_outlet f_holder data e m.
  (** the flux functions of the conditions get the value only *)
  Definition of_values (flux_at : riemann -> value -> vec -> value) (r : riemann) (state : value) (x : vec) : value :=
    flux_at r (u_of state) x.

  (** fem.hpp:187-226 *)
  Definition V_boundaries (hc : list (list entry)) (s : fem) (p : npart) (residual : column) : option column :=
    do residual <- n_on_names K N entry e_ijk hc p V_put (of_values n_wall) (solid_wall s) residual;
    do residual <- n_on_pairs K N entry e_ijk hc p V_put (fun g => of_values (n_sup_in (t_curr s) g)) (supersonic_inlet s) residual;
    do residual <- n_on_names K N entry e_ijk hc p V_put_outlet (of_values n_sup_out) (supersonic_outlet s) residual;
    do residual <- n_on_pairs K N entry e_ijk hc p V_put (fun g => of_values (n_sub_in (t_curr s) g)) (subsonic_inlet s) residual;
    do residual <- n_on_pairs K N entry e_ijk hc p V_put (fun g => of_values (n_sub_out (t_curr s) g)) (subsonic_outlet s) residual;
    n_on_pairs K N entry e_ijk hc p V_put (fun g => of_values (n_smart (t_curr s) g)) (smart_boundary s) residual.
  (** fem.hpp:173-183; the first steps are those of convective solvers with the other flux matrix *)
  Definition V_residual_of (hc sc : list (list entry)) (s : fem) (p : npart) : option column :=
    do sz <- GetCellDataSize K N (nn_cells p);
    do residual <- divergences K N (FR_divergence K Q V_FluxMatrix) p (Col sz (fun _ => 0));
    do residual <- foldM (V_local_face hc sc p) (n_local_faces p) residual;
    do residual <- V_boundaries hc s p residual;
    foldM (V_ghost_face hc sc p) (n_ghost_faces p) residual.
  (** the constructor and [GetResidualColumn] *)
  Definition V_GetResidualColumn (s : fem) (p : npart) : option column :=
    do caches <- construct entry entry_of p;
    V_residual_of (fst caches) (snd caches) s p.
End Viscous.

(** the loops over the points of a line in FR::General, and the two statements of FR::Lobatto *)
Section Add.
  Variables K Q : nat.
  Let N := (Q * Q * Q)%nat.
  (** fr/general.hpp:316-319 *)
  Definition FR_add (f_holder : value) (data : nat) (e : line_cache) (m : mem) : option mem :=
    foldM (fun m '(g, ijk) => MinusValue K N (fun r => f_holder r * g) data ijk m) (solution_points e) m.
  (** fr/general.hpp:418-423 *)
  Definition FR_add_outlet (f_holder : value) (data : nat) (e : line_cache) (m : mem) : option mem :=
    foldM (fun m '(g, ijk) =>
      if less (norm_n K (fun r => f_holder r * g)) (/ 10 ^ 6) then MinusValue K N (fun r => f_holder r * g) data ijk m else None)
      (solution_points e) m.
  (** fr/lobatto.hpp:230-231 *)
  Definition FRL_add (f_holder : value) (data : nat) (e : point_cache) (m : mem) : option mem :=
    MinusValue K N (fun r => f_holder r * pc_g_prime e) data (pc_ijk e) m.
  (** fr/lobatto.hpp:289-292 *)
  Definition FRL_add_outlet (f_holder : value) (data : nat) (e : point_cache) (m : mem) : option mem :=
    if less (norm_n K (fun r => f_holder r * pc_g_prime e)) (/ 10 ^ 6)
    then MinusValue K N (fun r => f_holder r * pc_g_prime e) data (pc_ijk e) m else None.
End Add.

(** FR::General *)
Definition VFR_GetResidualColumn (K Q : nat) (points : nat -> R) (degree : nat) (c_next : R) (FluxMatrix : value -> nat -> vec)
    (nu : vec) (beta_0 beta_1 : R) (HolderToSharer : nface -> vec) : fem -> npart -> option column :=
  V_GetResidualColumn K Q FluxMatrix nu beta_0 beta_1 HolderToSharer line_cache (FR_entry Q points degree c_next)
    fp_normal fp_scale fp_ijk (FR_add K Q) (FR_add_outlet K Q).
(** FR::Lobatto; the constructor of the base class runs first *)
Definition VFRL_GetResidualColumn (K Q : nat) (points : nat -> R) (degree : nat) (FluxMatrix : value -> nat -> vec)
    (nu : vec) (beta_0 beta_1 : R) (HolderToSharer : nface -> vec) (s : fem) (p : npart) : option column :=
  do _ <- FR_construct Q points degree (HuynhLumpingLobatto degree) p;
  V_GetResidualColumn K Q FluxMatrix nu beta_0 beta_1 HolderToSharer point_cache (FRL_entry Q points degree)
    pc_normal pc_scale pc_ijk (FRL_add K Q) (FRL_add_outlet K Q) s p.
(** DG::Lobatto: only the volume term, dg/lobatto.hpp:142-151 with fem.hpp:268-275, has viscous fluxes; the functions on
    faces, dg/lobatto.hpp:156-298, call the convective solver *)
Definition VDGL_GetResidualColumn (K Q : nat) (kLocal : bool) (FluxMatrix : value -> nat -> vec) (nu : vec)
    : fem -> npart -> option column :=
  DGL_GetResidualColumn K (Q * Q * Q) kLocal (fun c q => V_FluxMatrix K FluxMatrix nu (nc_value c q)).
