(** Specification of the flux reconstruction schemes on hexahedra with [Q] points per line. *)
From Coq Require Import Reals List Arith String Permutation.
From Verif Require Import Vec3 RSum Poly Model_Geometry Model_Basis Model_Dofs Model_DG Model_Schemes Spec_DG Spec_Schemes.
Import ListNotations.
Open Scope R_scope.

(** where a point of a face is in a cell: the face of the cube of reference, and the two indices on it *)
Definition position := (nat * (nat * nat))%type.
(** the faces in CGNS order: bottom, front, right, back, left, top; the first index is that of the first free axis *)
Definition face_point (i : nat) (a b : R) : vec :=
  match i with
  | 0 => V a b (-1) | 1 => V a (-1) b | 2 => V 1 a b | 3 => V a 1 b | 4 => V (-1) a b | _ => V a b 1
  end%nat.
(** the axis across a face (0, 1, 2) and the side on which it is *)
Definition across (i : nat) : nat := match i with 0 | 5 => 2 | 1 | 3 => 1 | _ => 0 end%nat.
Definition side (i : nat) : R := match i with 0%nat | 1%nat | 4%nat => -1 | _ => 1 end.
(** the column of a matrix *)
Definition nth_column (m : mat3) (axis : nat) : vec :=
  match axis with
  | 0 => V (vx (r0 m)) (vx (r1 m)) (vx (r2 m))
  | 1 => V (vy (r0 m)) (vy (r1 m)) (vy (r2 m))
  | _ => V (vz (r0 m)) (vz (r1 m)) (vz (r2 m))
  end%nat.

Section FR.
  Variable Q : nat.
  Variable points : nat -> R.
  (** the number of the point [t] of the line from face [i] through its point ([a], [b]) *)
  Definition node_on_line (i a b t : nat) : nat :=
    (match i with
     | 0 | 5 => (a * Q + b) * Q + t
     | 1 | 3 => (a * Q + t) * Q + b
     | _ => (t * Q + a) * Q + b
     end)%nat.
  Definition last_of (i : nat) : nat := (match i with 0 | 1 | 4 => 0 | _ => Q - 1 end)%nat.
  Definition node_at (x : position) : nat := let '(i, (a, b)) := x in node_on_line i a b (last_of i).
  (** all positions *)
  Definition positions : list position := list_prod (seq 0 6) (list_prod (seq 0 Q) (seq 0 Q)).

  (** [place c f q]: where the point [q] of face [f] is in cell [c] *)
  Variable place : ncell -> nface -> nat -> position.
  Definition place_node (c : ncell) (f : nface) (q : nat) : nat := node_at (place c f q).
  (** the vector area of the face per area of the cube of reference, pointing to the increasing coordinate *)
  Definition area (c : ncell) (x : position) : vec := nth_column (nc_associated c (node_at x)) (across (fst x)).

  (** a cell is a hexahedron with the tensor product basis on [points]; [D i a] is the derivative at the point [i] of the
      basis function of the point [a] *)
  Variable D : nat -> nat -> R.
  Definition delta (a b : nat) : R := if (a =? b)%nat then 1 else 0.
  Definition tensor_cell (c : ncell) : Prop :=
    (forall i j k, (i < Q)%nat -> (j < Q)%nat -> (k < Q)%nat ->
       nc_coord c ((i * Q + j) * Q + k) = nc_to_global c (V (points i) (points j) (points k)))
    /\ (forall i j k a b e, (i < Q)%nat -> (j < Q)%nat -> (k < Q)%nat -> (a < Q)%nat -> (b < Q)%nat -> (e < Q)%nat ->
       nc_gradients c ((i * Q + j) * Q + k) ((a * Q + b) * Q + e)
       = V (D i a * delta j b * delta k e) (delta i a * D j b * delta k e) (delta i a * delta j b * D k e)).
  (** centers of different faces, and different points of a face, are further apart than the tolerances *)
  Definition well_separated (c : ncell) : Prop :=
    (forall i i', (i < 6)%nat -> (i' < 6)%nat -> i <> i' ->
       / 10 ^ 10 <= vnorm (vsub (nc_to_global c (face_point i 0 0)) (nc_to_global c (face_point i' 0 0))))
    /\ (forall i a b a' b', (i < 6)%nat -> (a < Q)%nat -> (b < Q)%nat -> (a' < Q)%nat -> (b' < Q)%nat -> (a, b) <> (a', b') ->
       / 10 ^ 8 <= vnorm (vsub (nc_to_global c (face_point i (points a) (points b)))
                               (nc_to_global c (face_point i (points a') (points b'))))).
  (** a face lies on a cell as [place] says, and its normal is that of the cell's side; [n] is the outward normal *)
  Definition lies_on (c : ncell) (f : nface) (n : nat -> vec) : Prop :=
    nf_points f = (Q * Q)%nat
    /\ forall q, (q < Q * Q)%nat ->
         let '(i, (a, b)) := place c f q in
         (i < 6)%nat /\ (a < Q)%nat /\ (b < Q)%nat
         /\ nf_center f = nc_to_global c (face_point i 0 0)
         /\ nf_coord f q = nc_to_global c (face_point i (points a) (points b))
         /\ 0 < vnorm (area c (place c f q)) /\ vnorm (n q) = 1
         /\ area c (place c f q) = vscale (side i * vnorm (area c (place c f q))) (n q).
  Definition geometry_ok (p : npart) : Prop :=
    (forall c f, touches p c f -> tensor_cell c /\ well_separated c)
    /\ (forall c, In c (n_local_cells p) -> tensor_cell c)
    /\ (forall f, In f (all_faces p) -> lies_on (nholder f) f (nf_normal f))
    /\ (forall f, In f (n_local_faces p) \/ In f (n_ghost_faces p) -> lies_on (nsharer f) f (fun q => vneg (nf_normal f q))).

  (** ** The residual *)
  Variable FluxMatrix : value -> nat -> vec.
  Variable gL gR : R -> R.   (* derivatives of the correction functions of the two ends of a line *)

  Definition F_local (c : ncell) (q k : nat) : vec := rmul (FluxMatrix (nc_value c q) k) (nc_associated c q).
  Definition divergence_at (c : ncell) (q k : nat) : R :=
    rsum (Q * Q * Q) (fun m => dot (F_local c m k) (nc_gradients c q m)).
  Definition correction_prime (i : nat) (x : R) : R := match i with 0 | 1 | 4 => gL x | _ => gR x end%nat.
  (** the common flux minus the flux of the cell, both along the axis across the face *)
  Definition jump (t : contact) (k : nat) : R :=
    let x := place (k_cell t) (k_face t) (k_point t) in
    side (fst x) * vnorm (area (k_cell t) x) * outward t k
    - dot (FluxMatrix (nc_value (k_cell t) (node_at x)) k) (area (k_cell t) x).
  Definition FR_form (s : fem) (p : npart) (c : ncell) (j k : nat) : R :=
    - divergence_at c j k
    - of_cell c (contacts place_node s p) (fun t =>
        let '(i, (a, b)) := place (k_cell t) (k_face t) (k_point t) in
        rsum Q (fun m => if (node_on_line i a b m =? j)%nat then jump t k * correction_prime i (points m) else 0)).
  (** with corrections at the points of the faces only *)
  Definition FRL_form (s : fem) (p : npart) (c : ncell) (j k : nat) : R :=
    - divergence_at c j k
    - of_cell c (contacts place_node s p) (fun t =>
        let x := place (k_cell t) (k_face t) (k_point t) in
        if (node_at x =? j)%nat then jump t k * (side (fst x) * gR 1) else 0).
  (** the flux of a supersonic outlet is the flux of the state inside *)
  Definition outlet_ok (s : fem) (p : npart) : Prop :=
    forall name f q k, In name (supersonic_outlet s) -> In f (n_boundary_faces p name) -> (q < nf_points f)%nat ->
      GetFluxOnSupersonicOutlet (nf_riemann f q) (value_at place_node (nholder f) f q) k
      = dot (FluxMatrix (value_at place_node (nholder f) f q) k) (nf_normal f q).

  (** the faces of every cell are covered: its contacts are all the positions, each once *)
  Definition covered (s : fem) (p : npart) : Prop :=
    forall c, In c (n_local_cells p) ->
      Permutation (map (fun t => place c (k_face t) (k_point t))
                     (filter (fun t => nc_id (k_cell t) =? nc_id c)%nat (contacts place_node s p))) positions.
  (** weights of the points of a line; those of faces are products times the area *)
  Variable w : nat -> R.
  Definition face_weights (p : npart) : Prop :=
    forall c f q, touches p c f -> (q < nf_points f)%nat ->
      let '(i, (a, b)) := place c f q in nf_weight f q = w a * w b * vnorm (area c (place c f q)).
  Definition cell_weights (p : npart) : Prop :=
    forall c i j k, In c (n_local_cells p) -> (i < Q)%nat -> (j < Q)%nat -> (k < Q)%nat ->
      nc_local_weight c ((i * Q + j) * Q + k) = w i * w j * w k.
  (** the Gauss points of a cell are further apart than the tolerance of the search of DG::Lobatto *)
  Definition nodes_apart (p : npart) : Prop :=
    forall c f a b, touches p c f -> (a < Q * Q * Q)%nat -> (b < Q * Q * Q)%nat -> a <> b ->
      / 10 ^ 12 <= vnorm (vsub (nc_coord c a) (nc_coord c b)).
  (** the flux of the states of the cells is [F] everywhere, and so are the fluxes through the faces *)
  Definition uniform_flux (s : fem) (p : npart) (F : nat -> vec) : Prop :=
    (forall c q k, In c (n_local_cells p) -> (q < Q * Q * Q)%nat -> FluxMatrix (nc_value c q) k = F k)
    /\ (forall t k, In t (contacts place_node s p) -> k_flux t k = dot (F k) (nf_normal (k_face t) (k_point t))).
End FR.

(** ** One-dimensional facts *)
Section Line.
  Variables xs ws : list R.
  (** [ws] integrates on [xs] the derivatives of polynomials with at most [n] coefficients *)
  Definition integrates (n : nat) : Prop :=
    forall p, (List.length p <= n)%nat ->
      rsum (List.length xs) (fun i => nth i ws 0 * peval (pderiv p) (nth i xs 0)) = peval p 1 - peval p (-1).
  (** [D] holds the derivatives of the Lagrange basis at its nodes *)
  Definition lagrange_derivatives (D : nat -> nat -> R) : Prop :=
    forall i a, (i < List.length xs)%nat -> (a < List.length xs)%nat ->
      derivable_pt_lim (fun x => nth a (Line_GetValues xs x) 0) (nth i xs 0) (D i a).
  (** the points are distinct, with the ends of the segment first and last *)
  Definition with_ends : Prop :=
    NoDup xs /\ List.length ws = List.length xs /\ (2 <= List.length xs)%nat
    /\ nth 0 xs 0 = -1 /\ nth (List.length xs - 1) xs 0 = 1.
  (** inside the segment they are the extrema of the Legendre polynomial *)
  Definition at_extrema : Prop :=
    forall i, (0 < i < List.length xs - 1)%nat -> derivable_pt_lim (legendre (List.length xs - 1)) (nth i xs 0) 0.
End Line.
