(** Specification of interface gradients and of viscous fluxes. *)
From Coq Require Import Reals.
From Verif Require Import Vec3 Model_Diffusive.
Open Scope R_scope.

(** the product of the symmetric matrix with these six entries and a vector *)
Definition hess_mul (h : hess) (n : vec) : vec :=
  V (hxx h * vx n + hxy h * vy n + hxz h * vz n)
    (hxy h * vx n + hyy h * vy n + hyz h * vz n)
    (hxz h * vx n + hyz h * vy n + hzz h * vz n).

(** the part of a vector that is tangential to a plane of the unit normal [n] *)
Definition tangential (n g : vec) : vec := vsub g (vscale (dot n g) n).
