(** Model of the damping matrices of artificial viscosity.
    Sources: include/mini/spatial/viscosity.hpp, with the functions AddFluxDivergence of
    include/mini/spatial/dg/general.hpp, dg/lobatto.hpp and fr/general.hpp (also used by fr/lobatto.hpp) and the
    gradients of include/mini/polynomial/projection.hpp and hexahedron.hpp.

    The diffusion model of the Riemann solver is a linear one (riemann/diffusive/linear.hpp) for as many components
    as the class [Diffusion] of viscosity.hpp, so that both share their static coefficients, as in
    test/spatial/viscosity.cpp.  The cells and their neighbours live in a memory indexed by [d_ptr];
    a failed assertion, an exception or an access out of bounds is [None]. *)
From Coq Require Import Reals List Arith.
From Verif Require Import Vec3 Arrays RSum Model_Geometry Model_Basis Model_Nodal Model_Dofs Model_DG Model_Diffusive Model_Schemes.
Import ListNotations.
Open Scope R_scope.

(** what the damping matrices need of a cell and of the scheme; coefficients are arguments, as they change *)
Record dcell := DCell {
  d_ptr : nat;                                          (* the address of the cell *)
  d_id : nat;                                           (* [id()] *)
  d_adj : list nat;                                     (* [adj_cells_], part.hpp:207 *)
  d_points : nat;                                       (* [gauss().CountPoints()] *)
  d_value : coeff -> nat -> conservative;               (* [projection().GetValue(q)] *)
  d_gradient : coeff -> nat -> option gradient;         (* [projection().GetGlobalGradient(q)] *)
  d_divergence : (nat -> flux_matrix) -> mem -> option mem
    (* [AddFluxDivergence(cell_to_flux, cell, data)] of the scheme, given the matrices [cell_to_flux(cell, q)] *)
}.

(** the coefficients of all cells, ghost cells included, and the static members [nu_x_], [nu_y_], [nu_z_] of
    riemann/diffusive/linear.hpp:30-33 *)
Record state := State { coeffs : nat -> coeff; nu_ : vec }.

Definition set_coeff (s : state) (ptr : nat) (u : coeff) : state :=
  State (fun p => if (p =? ptr)%nat then u else coeffs s p) (nu_ s).
(** [coeff().setZero()] *)
Definition zero_coeff : coeff := fun _ _ => 0.
(** [solution.col(c).setOnes()] and [solution.col(c - 1).setZero()] *)
Definition set_col (x : R) (c : nat) (u : coeff) : coeff := fun r j => if (j =? c)%nat then x else u r j.

Section Damping.
  Variables K N : nat.

  (** viscosity.hpp:50-57 [GetDiffusiveFluxMatrix] *)
  Definition GetDiffusiveFluxMatrix (nu : vec) (c : dcell) (u : coeff) (q : nat) : option flux_matrix :=
    let value := d_value c u q in
    let flux_matrix := fun _ => v0 in
    do gradient <- d_gradient c u q;
    Some (MinusViscousFluxMatrix nu value gradient flux_matrix).

  (** viscosity.hpp:100-103: the residual of the cell, column by column; [residual(r, j)] is at [K * j + r] *)
  Definition element_residual (nu : vec) (c : dcell) (u : coeff) : option mem :=
    do fluxes <- mapM (GetDiffusiveFluxMatrix nu c u) (seq 0 (d_points c));
    d_divergence c (fun q => nth q fluxes (fun _ => v0)) (fun _ => 0).

  (** viscosity.hpp:106-108: the assertions on the other rows, [squaredNorm() == 0] *)
  Definition rows_agree (residual : mem) : bool :=
    forallb (fun r =>
      if Req_EM_T (rsum N (fun j => (residual (K * j + r)%nat - residual (K * j)%nat) ^ 2)) 0 then true else false)
      (seq 1 (K - 1)).

  Definition matrix := nat -> nat -> R.       (* [matrix(j, c)] *)

  (** viscosity.hpp:95-109: the body of the loop over columns *)
  Definition build_column (c : dcell) (st : state * matrix) (i : nat) : option (state * matrix) :=
    let '(s, m) := st in
    let solution := coeffs s (d_ptr c) in
    let solution := set_col 1 i solution in
    let solution := if (0 <? i)%nat then set_col 0 (i - 1) solution else solution in
    let s := set_coeff s (d_ptr c) solution in
    do residual <- element_residual (nu_ s) c solution;
    let m := fun j k => if (k =? i)%nat then residual (K * j)%nat else m j k in
    if rows_agree residual then Some (s, m) else None.

  (** viscosity.hpp:87-110: the body of the loop over cells *)
  Definition build_matrix (st : state * list matrix) (c : dcell) : option (state * list matrix) :=
    let '(s, matrices) := st in
    let s := fold_left (fun s neighbor => set_coeff s neighbor zero_coeff) (d_adj c) s in
    do m <- nth_error matrices (d_id c);
    let s := set_coeff s (d_ptr c) zero_coeff in
    do sm <- foldM (build_column c) (seq 0 N) (s, m);
    do matrices <- upd_opt matrices (d_id c) (snd sm);
    Some (fst sm, matrices).

  (** viscosity.hpp:84-113; [garbage] is what the new matrices hold, which Eigen does not initialise *)
  Definition BuildDampingMatrices (garbage : matrix) (cells : list dcell) (s : state) : option (state * list matrix) :=
    let matrices := repeat garbage (List.length cells) in
    let s := State (coeffs s) (isotropic 1) in
    foldM build_matrix cells (s, matrices).

  (** ** The cells of the schemes *)
  (** dg/general.hpp:50-61 with projection.hpp:116-119 and 153-157 *)
  Definition with_flux (c : cell) (flux : nat -> flux_matrix) : cell :=
    Cell (c_id c) (c_points c) (c_coord c) (c_weight c) (c_basis c) (c_gradients c) (c_value c) flux.
  Definition dg_cell (ptr : nat) (adj : list nat) (c : cell) : dcell :=
    DCell ptr (c_id c) adj (c_points c)
      (fun u q k => rsum N (fun j => u k j * c_basis c (c_coord c q) j))
      (fun u q => Some (fun k =>
         V (rsum N (fun j => vx (c_gradients c (c_coord c q) j) * u k j))
           (rsum N (fun j => vy (c_gradients c (c_coord c q) j) * u k j))
           (rsum N (fun j => vz (c_gradients c (c_coord c q) j) * u k j))))
      (fun flux m => Some (AddFluxDivergence_cell K N (with_flux c flux) 0 m)).

  Definition with_coeff (p : Nodal) (u : coeff) : Nodal := mkNodal (n_cell p) (n_nodes p) (n_basis p) u.
  (** hexahedron.hpp:359-369 [GetGlobalGradient] for [kLocal], all components *)
  Definition nodal_gradient (p : Nodal) (u : coeff) (q : nat) : option gradient :=
    let p := with_coeff p u in
    option_map (fun rows k => GetGlobalGradient_with p (GetValue p q k) (sum_columns p rows k) q)
      (basis_local_gradients (n_basis p) q).
  (** hexahedron.hpp:349-352 [GetGlobalGradient] for [!kLocal], all components *)
  Definition nodal_gradient_global (p : Nodal) (u : coeff) (q : nat) : option gradient :=
    let p := with_coeff p u in
    option_map (fun grads k =>
      V (rsum (b_N (n_basis p)) (fun abc => vx (grads abc) * n_coeff p k abc))
        (rsum (b_N (n_basis p)) (fun abc => vy (grads abc) * n_coeff p k abc))
        (rsum (b_N (n_basis p)) (fun abc => vz (grads abc) * n_coeff p k abc)))
      (basis_global_gradients p q).

  (** a cell with a polynomial::Hexahedron for which [kLocal] does not hold (hexahedron.hpp:303-305
      [GetBasisGradients]), otherwise as [hexa_cell] *)
  Definition hexa_cell_global (id : nat) (w : nat -> R) (u : Nodal) : ncell :=
    NCell id (b_N (n_basis u)) (fun q => to_global u (point u q)) w (fun q => w q * jacobian_det u q)
      (GetValue_global u)
      (fun q => match basis_global_gradients u q with Some grads => grads | None => fun _ => v0 end)
      (jacobian_det_inv u) (to_global u).
  Definition nodal_cell (kLocal : bool) (id : nat) (w : nat -> R) (p : Nodal) : ncell :=
    if kLocal then hexa_cell id w p else hexa_cell_global id w p.

  (** dg/lobatto.hpp:142-151 *)
  Definition lobatto_cell (kLocal : bool) (ptr : nat) (adj : list nat) (id : nat) (w : nat -> R) (p : Nodal) : dcell :=
    DCell ptr id adj (b_N (n_basis p))
      (fun u q k => if kLocal then GetValue (with_coeff p u) q k else GetValue_global (with_coeff p u) q k)
      (if kLocal then nodal_gradient p else nodal_gradient_global p)
      (fun flux m => DGL_divergence K N kLocal (fun _ => flux) (nodal_cell kLocal id w p) 0 m).

  (** fr/general.hpp:232-248 for any [cell_to_flux]; needs [kLocal] *)
  Definition FR_AddFluxDivergence (c : ncell) (cell_to_flux : nat -> flux_matrix) (data : nat) (m : mem) : option mem :=
    let flux q r := rmul (cell_to_flux q r) (nc_associated c q) in
    foldM (fun m q =>
      let v r := fold_left (fun v k => v + dot (flux k r) (nc_gradients c q k)) (seq 1 (nc_points c - 1))
                   (dot (flux 0%nat r) (nc_gradients c q 0%nat)) in
      MinusValue K N v data q m) (seq 0 (nc_points c)) m.
  Definition fr_cell (ptr : nat) (adj : list nat) (id : nat) (w : nat -> R) (p : Nodal) : dcell :=
    DCell ptr id adj (b_N (n_basis p))
      (fun u q k => GetValue (with_coeff p u) q k) (nodal_gradient p)
      (fun flux m => FR_AddFluxDivergence (hexa_cell id w p) flux 0 m).
End Damping.
