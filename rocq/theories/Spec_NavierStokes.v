(** The viscous fluxes of the Navier-Stokes equations, written independently of the code. *)
From Coq Require Import Reals List.
From Verif Require Import Vec3.
From Verif Require Model_Euler.
Import Model_Euler(Tuple, mkTuple).
Import ListNotations.
Open Scope R_scope.

(** [g] is the gradient of [f] at [x]: it gives the derivative along every line *)
Definition slope (f : vec -> R) (x g : vec) : Prop :=
  forall d, derivable_pt_lim (fun t => f (vadd x (vscale t d))) 0 (dot g d).

(** density, momenta and energy as functions of the place *)
Definition fields := nat -> vec -> R.

Definition at_place (U : fields) (x : vec) : Tuple :=
  mkTuple (U 0%nat x) (U 1%nat x) [U 2%nat x; U 3%nat x] (U 4%nat x).

(** velocity, pressure, temperature *)
Definition vel (U : fields) (i : nat) (x : vec) : R := U (S i) x / U 0%nat x.
Definition pres (gamma : R) (U : fields) (x : vec) : R :=
  (gamma - 1) * (U 4%nat x - U 0%nat x * (vel U 0 x * vel U 0 x + vel U 1 x * vel U 1 x + vel U 2 x * vel U 2 x) / 2).
Definition temp (gamma gas : R) (U : fields) (x : vec) : R := pres gamma U x / (U 0%nat x * gas).

(** the stress of a Newtonian fluid without bulk viscosity on a plane of normal [n]:
    mu (G n + G^T n) - 2/3 mu (div u) n, the rows of [G] being the gradients of the velocity components *)
Definition mul3 (G : nat -> vec) (n : vec) : vec := V (dot (G 0%nat) n) (dot (G 1%nat) n) (dot (G 2%nat) n).
Definition mul3t (G : nat -> vec) (n : vec) : vec :=
  vadd (vscale (vx n) (G 0%nat)) (vadd (vscale (vy n) (G 1%nat)) (vscale (vz n) (G 2%nat))).
Definition div3 (G : nat -> vec) : R := vx (G 0%nat) + vy (G 1%nat) + vz (G 2%nat).
Definition traction (mu : R) (G : nat -> vec) (n : vec) : vec :=
  vsub (vscale mu (vadd (mul3 G n) (mul3t G n))) (vscale (2 / 3 * mu * div3 G) n).

(** the heat that the stress makes per volume and time: the sum of stress times velocity gradient *)
Definition heating (mu : R) (G : nat -> vec) : R :=
  dot (traction mu G (V 1 0 0)) (G 0%nat) + dot (traction mu G (V 0 1 0)) (G 1%nat)
  + dot (traction mu G (V 0 0 1)) (G 2%nat).

(** no deformation but a uniform expansion *)
Definition shearless (G : nat -> vec) : Prop :=
  vy (G 0%nat) + vx (G 1%nat) = 0 /\ vz (G 1%nat) + vy (G 2%nat) = 0 /\ vx (G 2%nat) + vz (G 0%nat) = 0
  /\ vx (G 0%nat) = vy (G 1%nat) /\ vy (G 1%nat) = vz (G 2%nat).

(** rotations and reflections, by their rows *)
Record turn := Turn { r1 : vec; r2 : vec; r3 : vec }.
Definition app (Q : turn) (v : vec) : vec := V (dot (r1 Q) v) (dot (r2 Q) v) (dot (r3 Q) v).
Definition back (Q : turn) (v : vec) : vec :=
  vadd (vscale (vx v) (r1 Q)) (vadd (vscale (vy v) (r2 Q)) (vscale (vz v) (r3 Q))).
Definition orthogonal (Q : turn) : Prop := forall v, back Q (app Q v) = v.

Definition turn_state (Q : turn) (t : Tuple) : Tuple :=
  let m := app Q (V (Model_Euler.mX t) (Model_Euler.mY t) (Model_Euler.mZ t)) in
  mkTuple (Model_Euler.mass t) (vx m) [vy m; vz m] (Model_Euler.energy t).

(** the gradients of the turned field with respect to the turned coordinates *)
Definition turn_gradient (Q : turn) (g : nat -> vec) : nat -> vec :=
  let comb r := app Q (vadd (vscale (vx r) (g 1%nat)) (vadd (vscale (vy r) (g 2%nat)) (vscale (vz r) (g 3%nat)))) in
  fun k => match k with
           | 1%nat => comb (r1 Q) | 2%nat => comb (r2 Q) | 3%nat => comb (r3 Q) | _ => app Q (g k)
           end.

(** the same gas seen by an observer who moves with the velocity [- b]: all velocities gain [b] *)
Definition boost_field (b : vec) (U : fields) : fields := fun k x =>
  match k with
  | 0%nat => U 0%nat x
  | 1%nat => U 1%nat x + U 0%nat x * vx b
  | 2%nat => U 2%nat x + U 0%nat x * vy b
  | 3%nat => U 3%nat x + U 0%nat x * vz b
  | _ => U 4%nat x + (U 1%nat x * vx b + U 2%nat x * vy b + U 3%nat x * vz b) + U 0%nat x * dot b b / 2
  end.
