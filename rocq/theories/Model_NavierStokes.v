(** Model of the viscous fluxes of a gas: include/mini/riemann/diffusive/navier_stokes.hpp.

    No other file of the repository includes this header, and it cannot be compiled as it stands.  It
    is modelled with these repairs, none of which touches an arithmetic expression:
    - semicolons are added after lines 23, 85, 86 and 87;
    - [euler::Conservatives] and [euler::Primitives] (lines 28-29) are taken with three dimensions
      (the second template argument there is the number of components, 5), and the included file
      riemann/euler.hpp, which does not exist, is taken to be riemann/euler/types.hpp;
    - the references to columns (lines 48-57 and so on) are Eigen's column views;
    - line 71 returns the pair of [p_val] and [p_grad], as the declared type says;
    - line 105 updates [flux_z], which is declared only in line 112.  The number of the column that it
      updates is therefore an argument of the model; the text says column 2 (Z).

    [Scalar] is the type of real numbers; a gradient is a function giving the column of each component, and a
    flux matrix a function giving the row of each component, as in Model_Diffusive. *)
From Coq Require Import Reals List.
From Verif Require Import Vec3 Model_Diffusive.
From Verif Require Model_Euler.
Import Model_Euler(Tuple, mkTuple, mass, mX, mY, mZ, energy).
Import ListNotations.
Open Scope R_scope.

(** navier_stokes.hpp lines 40-43: the static members *)
Record property := mkProperty { R_ : R; mu_ : R; zeta_ : R; kappa_ : R }.

(** navier_stokes.hpp lines 33-38 [SetProperty] *)
Definition SetProperty (gas mu kappa : R) : property :=
  mkProperty gas mu (-2 / 3 * mu) kappa.

Definition vdiv (a : vec) (c : R) : vec := V (vx a / c) (vy a / c) (vz a / c).

(** navier_stokes.hpp lines 45-72 [ConservativeToPrimitive]: columns 0, 1, 2 of the second result
    are the gradients of the velocity, 3 of the pressure and 4 of the temperature *)
Definition ConservativeToPrimitive (gamma : R) (q : property) (c_val : Tuple) (c_grad : gradient)
    : Tuple * gradient :=
  let p_val := Model_Euler.ConservativeToPrimitive gamma c_val in
  let grad_rho := c_grad 0%nat in
  let grad_rho_u := c_grad 1%nat in
  let grad_rho_v := c_grad 2%nat in
  let grad_rho_w := c_grad 3%nat in
  let rho := mass p_val in
  let u := mX p_val in let v := mY p_val in let w := mZ p_val in
  let p := energy p_val in
  let grad_u := vdiv (vsub grad_rho_u (vscale u grad_rho)) rho in
  let grad_v := vdiv (vsub grad_rho_v (vscale v grad_rho)) rho in
  let grad_w := vdiv (vsub grad_rho_w (vscale w grad_rho)) rho in
  let rho_u := mX c_val in let rho_v := mY c_val in let rho_w := mZ c_val in
  let grad_p := vadd (vscale u grad_rho_u) (vscale rho_u grad_u) in
  let grad_p := vadd grad_p (vadd (vscale v grad_rho_v) (vscale rho_v grad_v)) in
  let grad_p := vadd grad_p (vadd (vscale w grad_rho_w) (vscale rho_w grad_w)) in
  let grad_p := vscale (-1 / 2) grad_p in
  let grad_p := vadd grad_p (c_grad 4%nat) in
  let grad_p := vscale (gamma - 1) grad_p in
  let grad_T := vsub (vdiv grad_p rho) (vscale (p / (rho * rho)) grad_rho) in
  let grad_T := vdiv grad_T (R_ q) in
  (p_val, fun k => match k with
                   | 0%nat => grad_u | 1%nat => grad_v | 2%nat => grad_w | 3%nat => grad_p | _ => grad_T
                   end).

(** navier_stokes.hpp lines 74-89 [GetViscousStressTensor] *)
Definition GetViscousStressTensor (q : property) (p_grad : gradient) : hess :=
  let grad_u := p_grad 0%nat in
  let grad_v := p_grad 1%nat in
  let grad_w := p_grad 2%nat in
  let div_uvw := vx grad_u + vy grad_v + vz grad_w in
  H6 (2 * mu_ q * vx grad_u + zeta_ q * div_uvw)
     (mu_ q * (vy grad_u + vx grad_v))
     (mu_ q * (vx grad_w + vz grad_u))
     (2 * mu_ q * vy grad_v + zeta_ q * div_uvw)
     (mu_ q * (vz grad_v + vy grad_w))
     (2 * mu_ q * vz grad_w + zeta_ q * div_uvw).

(** navier_stokes.hpp lines 91-93 [Dot] *)
Definition Dot (x y z : R) (v : vec) : R := vx v * x + vy v * y + vz v * z.

(** [momentum()] of a primitive state: its velocity *)
Definition velocity_of (w : Tuple) : vec := V (mX w) (mY w) (mZ w).

(** [flux[a][k] -= value], [a] the column *)
Definition minus (a k : nat) (value : R) (flux : flux_matrix) : flux_matrix :=
  fun j => if Nat.eqb j k then
    match a with
    | 0%nat => V (vx (flux j) - value) (vy (flux j)) (vz (flux j))
    | 1%nat => V (vx (flux j)) (vy (flux j) - value) (vz (flux j))
    | _ => V (vx (flux j)) (vy (flux j)) (vz (flux j) - value)
    end else flux j.

(** navier_stokes.hpp lines 96-117 [MinusViscousFlux] on a flux matrix; [column] is the column that
    line 105 updates (see above) *)
Definition MinusViscousFluxMatrix (column : nat) (gamma : R) (q : property)
    (c_val : Tuple) (c_grad : gradient) (flux : flux_matrix) : flux_matrix :=
  let '(p_val, p_grad) := ConservativeToPrimitive gamma q c_val c_grad in
  let tau := GetViscousStressTensor q p_grad in
  let uvw := velocity_of p_val in
  let grad_T := p_grad 4%nat in
  let flux := minus 0 1 (hxx tau) flux in
  let flux := minus 0 2 (hxy tau) flux in
  let flux := minus 0 3 (hxz tau) flux in
  let flux := minus column 4 (Dot (hxx tau) (hxy tau) (hxz tau) uvw + kappa_ q * vx grad_T) flux in
  let flux := minus 1 1 (hxy tau) flux in
  let flux := minus 1 2 (hyy tau) flux in
  let flux := minus 1 3 (hyz tau) flux in
  let flux := minus 1 4 (Dot (hxy tau) (hyy tau) (hyz tau) uvw + kappa_ q * vy grad_T) flux in
  let flux := minus 2 1 (hxz tau) flux in
  let flux := minus 2 2 (hyz tau) flux in
  let flux := minus 2 3 (hzz tau) flux in
  minus 2 4 (Dot (hxz tau) (hyz tau) (hzz tau) uvw + kappa_ q * vz grad_T) flux.

(** navier_stokes.hpp lines 119-134 [MinusViscousFlux] on the flux through a face *)
Definition MinusViscousFluxNormal (gamma : R) (q : property)
    (c_val : Tuple) (c_grad : gradient) (normal : vec) (flux : Tuple) : Tuple :=
  let '(p_val, p_grad) := ConservativeToPrimitive gamma q c_val c_grad in
  let tau := GetViscousStressTensor q p_grad in
  let momentum_x := mX flux - Dot (hxx tau) (hxy tau) (hxz tau) normal in
  let momentum_y := mY flux - Dot (hxy tau) (hyy tau) (hyz tau) normal in
  let momentum_z := mZ flux - Dot (hxz tau) (hyz tau) (hzz tau) normal in
  let grad_T := p_grad 4%nat in
  let uvw := velocity_of p_val in
  let work_x := Dot (hxx tau) (hxy tau) (hxz tau) uvw + kappa_ q * vx grad_T in
  let work_y := Dot (hxy tau) (hyy tau) (hyz tau) uvw + kappa_ q * vy grad_T in
  let work_z := Dot (hxz tau) (hyz tau) (hzz tau) uvw + kappa_ q * vz grad_T in
  mkTuple (mass flux) momentum_x [momentum_y; momentum_z]
          (energy flux - Dot work_x work_y work_z normal).
