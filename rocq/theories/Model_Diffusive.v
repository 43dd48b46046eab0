(** Model of the interface gradient of the direct discontinuous Galerkin method and of the viscous
    fluxes of the linear diffusion models.
    Sources: include/mini/riemann/diffusive/direct_dg.hpp and include/mini/riemann/diffusive/linear.hpp.
    A [Conservative] value is a function of the component number.  A [Gradient] (a 3-by-K Eigen matrix)
    is a function giving the column of each component, as a vector; a [FluxMatrix] (K-by-3) is a function giving
    the row of each component.  The number K of components is arbitrary.  [Scalar] is the type of
    real numbers, and the static members [beta_0_], [beta_1_], [nu_x_], [nu_y_], [nu_z_] are arguments. *)
From Coq Require Import Reals.
From Verif Require Import Vec3.
Open Scope R_scope.

Definition conservative := nat -> R.
Definition gradient := nat -> vec.
Definition flux_matrix := nat -> vec.
(** rows XX, XY, XZ, YY, YZ, ZZ of a [Hessian]: direct_dg.hpp:25 and the constants of
    include/mini/constant/index.hpp, where YX = XY, ZX = XZ and ZY = YZ *)
Record hess := H6 { hxx : R; hxy : R; hxz : R; hyy : R; hyz : R; hzz : R }.
Definition hessian := nat -> hess.

(** direct_dg.hpp:32-44 *)
Definition GetCommonGradient (beta_0 distance : R) (normal : vec)
    (left_value right_value : conservative) (left_gradient right_gradient : gradient) : gradient :=
  fun k =>
    let common := vscale (1 / 2) (vadd (left_gradient k) (right_gradient k)) in
    let normal := vscale (beta_0 / distance) normal in
    let value_jump := right_value k - left_value k in
    V (vx common + vx normal * value_jump)
      (vy common + vy normal * value_jump)
      (vz common + vz normal * value_jump).

(** direct_dg.hpp:54, the difference of two Hessians *)
Definition hess_sub (a b : hess) : hess :=
  H6 (hxx a - hxx b) (hxy a - hxy b) (hxz a - hxz b) (hyy a - hyy b) (hyz a - hyz b) (hzz a - hzz b).

(** direct_dg.hpp:46-65; [normal] is passed by value to the first version, so that it is scaled
    here only by line 53 *)
Definition GetCommonGradientWithHessian (beta_0 beta_1 distance : R) (normal : vec)
    (left_value right_value : conservative) (left_gradient right_gradient : gradient)
    (left_hessian right_hessian : hessian) : gradient :=
  fun k =>
    let common := GetCommonGradient beta_0 distance normal
                    left_value right_value left_gradient right_gradient k in
    let normal := vscale (beta_1 * distance) normal in
    let jump := hess_sub (right_hessian k) (left_hessian k) in
    V (vx common + vx normal * hxx jump + vy normal * hxy jump + vz normal * hxz jump)
      (vy common + vx normal * hxy jump + vy normal * hyy jump + vz normal * hyz jump)
      (vz common + vx normal * hxz jump + vy normal * hyz jump + vz normal * hzz jump).

(** linear.hpp:40-46 [Anisotropic::MinusViscousFlux] on a flux matrix: column [a] of the matrix loses
    [nu_a] times row [a] of the gradient; the value is not used *)
Definition MinusViscousFluxMatrix (nu : vec) (value : conservative) (g : gradient)
    (flux : flux_matrix) : flux_matrix :=
  fun k => V (vx (flux k) - vx nu * vx (g k)) (vy (flux k) - vy nu * vy (g k)) (vz (flux k) - vz nu * vz (g k)).

(** linear.hpp:48-54 [Anisotropic::MinusViscousFlux] on the flux through a face *)
Definition MinusViscousFluxNormal (nu : vec) (value : conservative) (g : gradient) (normal : vec)
    (flux : conservative) : conservative :=
  fun k => flux k - vx normal * vx nu * vx (g k) - vy normal * vy nu * vy (g k) - vz normal * vz nu * vz (g k).

(** linear.hpp:83-85 [Isotropic::SetDiffusionCoefficient] *)
Definition isotropic (nu : R) : vec := V nu nu nu.
