(** Specification of the residuals of the schemes on Gauss points: what they should be, and conservation. *)
From Coq Require Import Reals List Arith String.
From Verif Require Import Vec3 RSum Model_Geometry Model_Basis Model_Dofs Model_DG Model_Schemes Spec_DG.
Import ListNotations.
Open Scope R_scope.

(** the side of a face towards a cell, at one of the points of the face, with the flux through the face there *)
Record contact := Contact { k_cell : ncell; k_face : nface; k_point : nat; k_holder : bool; k_flux : value }.

Section Contacts.
  (** [at_node c f q]: the Gauss point of cell [c] that is the point [q] of face [f] *)
  Variable at_node : ncell -> nface -> nat -> nat.

  Definition value_at (c : ncell) (f : nface) (q : nat) : value := nc_value c (at_node c f q).
  Definition upwind (f : nface) (q : nat) : value :=
    GetFluxUpwind (nf_riemann f q) (value_at (nholder f) f q) (value_at (nsharer f) f q).
  Definition at_local (f : nface) : list contact :=
    flat_map (fun q => [Contact (nholder f) f q true (upwind f q); Contact (nsharer f) f q false (upwind f q)])
      (seq 0 (nf_points f)).
  Definition at_ghost (f : nface) : list contact :=
    map (fun q => Contact (nholder f) f q true (upwind f q)) (seq 0 (nf_points f)).
  Definition at_boundary (flux_at : riemann -> value -> vec -> value) (f : nface) : list contact :=
    map (fun q => Contact (nholder f) f q true (flux_at (nf_riemann f q) (value_at (nholder f) f q) (nf_coord f q)))
      (seq 0 (nf_points f)).

  (** the conditions that apply to faces of the boundary: the faces and their fluxes *)
  Definition n_conditions (s : fem) (p : npart) : list (list nface * (riemann -> value -> vec -> value)) :=
    map (fun name => (n_boundary_faces p name, n_wall)) (solid_wall s)
    ++ map (fun '(name, g) => (n_boundary_faces p name, n_sup_in (t_curr s) g)) (supersonic_inlet s)
    ++ map (fun name => (n_boundary_faces p name, n_sup_out)) (supersonic_outlet s)
    ++ map (fun '(name, g) => (n_boundary_faces p name, n_sub_in (t_curr s) g)) (subsonic_inlet s)
    ++ map (fun '(name, g) => (n_boundary_faces p name, n_sub_out (t_curr s) g)) (subsonic_outlet s)
    ++ map (fun '(name, g) => (n_boundary_faces p name, n_smart (t_curr s) g)) (smart_boundary s).

  Definition inner_contacts (p : npart) : list contact := flat_map at_local (n_local_faces p).
  Definition boundary_contacts (s : fem) (p : npart) : list contact :=
    flat_map (fun '(fs, flux_at) => flat_map (at_boundary flux_at) fs) (n_conditions s p).
  Definition ghost_contacts (p : npart) : list contact := flat_map at_ghost (n_ghost_faces p).
  Definition contacts (s : fem) (p : npart) : list contact :=
    inner_contacts p ++ boundary_contacts s p ++ ghost_contacts p.
End Contacts.

(** the flux out of the cell of a contact *)
Definition outward (t : contact) (k : nat) : R := if k_holder t then k_flux t k else - k_flux t k.
(** the part of a sum over contacts that belongs to cell [c] *)
Definition of_cell (c : ncell) (l : list contact) (g : contact -> R) : R :=
  lsum l (fun t => if_id (nc_id (k_cell t)) (nc_id c) (g t)).

(** a part is well formed: its cells have distinct numbers less than their count; the faces are numbered
    in the order local, ghost, boundary; cells of faces are cells of the part, except the sharers of ghost faces;
    all cells have [N] Gauss points *)
Definition all_faces (p : npart) : list nface := n_local_faces p ++ n_ghost_faces p ++ n_boundary p.
Definition npart_ok (N : nat) (p : npart) : Prop :=
  NoDup (map nc_id (n_local_cells p))
  /\ (forall c, In c (n_local_cells p) -> (nc_id c < List.length (n_local_cells p))%nat /\ nc_points c = N)
  /\ map nf_id (all_faces p) = seq 0 (List.length (all_faces p))
  /\ (forall f, In f (all_faces p) -> In (nholder f) (n_local_cells p))
  /\ (forall f, In f (n_local_faces p) -> In (nsharer f) (n_local_cells p))
  /\ (forall f, In f (n_ghost_faces p) -> nc_points (nsharer f) = N)
  /\ (forall name f, In f (n_boundary_faces p name) -> In f (n_boundary p)).
(** the cells that touch a face of a part *)
Definition touches (p : npart) (c : ncell) (f : nface) : Prop :=
  (In f (all_faces p) /\ c = nholder f) \/ ((In f (n_local_faces p) \/ In f (n_ghost_faces p)) /\ c = nsharer f).

(** ** DG::Lobatto *)
Section DGLobatto.
  Variable at_node : ncell -> nface -> nat -> nat.
  Variable N : nat.
  Variable kLocal : bool.
  Variable cell_to_flux : ncell -> nat -> nat -> vec.

  (** points of faces are Gauss points of the cells, and the Gauss points of a cell are further apart than the
      tolerance of the search *)
  Definition nodes_match (p : npart) : Prop :=
    forall c f, touches p c f ->
      (forall q, (q < nf_points f)%nat -> (at_node c f q < N)%nat /\ nc_coord c (at_node c f q) = nf_coord f q)
      /\ (forall a b, (a < N)%nat -> (b < N)%nat -> a <> b -> / 10 ^ 12 <= vnorm (vsub (nc_coord c a) (nc_coord c b))).

  Definition local_flux (c : ncell) (q k : nat) : vec :=
    if kLocal then rmul (cell_to_flux c q k) (nc_associated c q) else cell_to_flux c q k.
  (** the weak form tested with the function of node [j], with the mass matrix lumped at the nodes *)
  Definition DGL_form (s : fem) (p : npart) (c : ncell) (j k : nat) : R :=
    (rsum N (fun q => GetWeight kLocal c q * dot (local_flux c q k) (nc_gradients c q j))
     - of_cell c (contacts at_node s p) (fun t =>
         if (at_node c (k_face t) (k_point t) =? j)%nat then nf_weight (k_face t) (k_point t) * outward t k else 0))
    / GetWeight kLocal c j.

  (** the integral over a cell of component [k] of a column, by the rule of the cell *)
  Definition n_integral (K : nat) (r : column) (k : nat) (c : ncell) : R :=
    rsum N (fun q => GetWeight kLocal c q * at_ r (address K N (nc_id c) q k)).
  Definition through (k : nat) (t : contact) : R := nf_weight (k_face t) (k_point t) * k_flux t k.
End DGLobatto.
