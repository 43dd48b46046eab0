(** Specification of whole simulations: what the mesh must satisfy, the content of the domain and what leaves it. *)
From Coq Require Import Reals List Arith String Permutation.
From Verif Require Import Vec3 RSum Model_DG Spec_DG Model_Temporal Model_Simulation.
Import ListNotations.
Open Scope R_scope.

(** a part and its rank, for all parts *)
Definition ranked (parts : list gpart) : list (nat * gpart) := combine (seq 0 (List.length parts)) parts.

(** a part is well formed: its cells have distinct numbers less than their count, the cells of its faces are among
    them, and its local faces have both cells on this rank *)
Definition gpart_ok (r : nat) (p : gpart) : Prop :=
  NoDup (map g_id (g_local_cells p))
  /\ (forall g, In g (g_local_cells p) -> (g_id g < List.length (g_local_cells p))%nat)
  /\ (forall f, In f (g_local_faces p) ->
        In (g_holder f) (g_local_cells p) /\ In (g_sharer f) (g_local_cells p) /\ g_rank f = r)
  /\ (forall f, In f (g_ghost_faces p) -> In (g_holder f) (g_local_cells p))
  /\ (forall name f, In f (g_boundary_faces p name) -> In (g_holder f) (g_local_cells p)).

(** the basis of a cell: the first function is a constant that is not zero, its gradient vanishes, and it is
    orthogonal to the others and of norm one *)
Definition gbasis_ok (N : nat) (g : gcell) : Prop :=
  exists phi, phi <> 0
    /\ (forall x, g_basis g x 0%nat = phi)
    /\ (forall x, g_gradients g x 0%nat = v0)
    /\ (forall j, (j < N)%nat ->
          rsum (g_points g) (fun q => g_weight g q * (g_basis g (g_coord g q) 0%nat * g_basis g (g_coord g q) j))
          = if (j =? 0)%nat then 1 else 0).

(** the two copies of a face between two parts: each has the cell of its own rank as the holder; they have the same
    quadrature points, maybe in another order, and their solvers give opposite fluxes for exchanged values *)
Definition opposite (k : nat) (rf sg : nat * gface) : Prop :=
  let (r, f) := rf in let (s, g) := sg in
  g_rank f = s /\ g_rank g = r /\ g_holder g = g_sharer f /\ g_sharer g = g_holder f
  /\ g_fpoints g = g_fpoints f
  /\ exists sigma, Permutation (map sigma (seq 0 (g_fpoints f))) (seq 0 (g_fpoints f))
     /\ forall q, (q < g_fpoints f)%nat ->
          g_fcoord g (sigma q) = g_fcoord f q /\ g_fweight g (sigma q) = g_fweight f q
          /\ forall a b, GetFluxUpwind (g_riemann g (sigma q)) b a k = - GetFluxUpwind (g_riemann f q) a b k.

(** the faces between parts come in pairs of opposite copies *)
Definition paired (k : nat) (parts : list gpart) : Prop :=
  exists pairs : list ((nat * gface) * (nat * gface)),
    Permutation (flat_map (fun '(r, p) => map (pair r) (g_ghost_faces p)) (ranked parts))
                (flat_map (fun '(f, g) => [f; g]) pairs)
    /\ forall f g, In (f, g) pairs -> opposite k f g.

Definition mesh_ok (N : nat) (parts : list gpart) : Prop :=
  forall r p, nth_error parts r = Some p ->
    gpart_ok r p /\ forall g, In g (g_local_cells p) -> gbasis_ok N g.

Section Spec.
  Variables K N kDegrees : nat.
  Variable FluxMatrix : value -> nat -> vec.
  Variable s : fem.
  Variable parts : list gpart.

  (** the integral over a cell of component [k] of the solution *)
  Definition content (U : Column (nat * nat)) (k r : nat) (g : gcell) : R :=
    rsum (g_points g) (fun q => g_weight g q * value_of K N U r g (g_coord g q) k).
  (** ... and over the whole mesh *)
  Definition contents (U : Column (nat * nat)) (k : nat) : R :=
    lsum (ranked parts) (fun '(r, p) => lsum (g_local_cells p) (content U k r)).
  (** what leaves through the boundary at a time *)
  Definition outflow (t : R) (U : Column (nat * nat)) (k : nat) : R :=
    lsum (ranked parts) (fun '(r, p) =>
      lsum (conditions (at_time s t) (the_part K N FluxMatrix U r p)) (fun '(fs, flux_at) =>
        lsum fs (flux_through flux_at k))).

  (** a limiter keeps the content of every cell *)
  Definition keeps_contents (limit : Column (nat * nat) -> Column (nat * nat)) : Prop :=
    forall U r p g k, nth_error parts r = Some p -> In g (g_local_cells p) -> (k < K)%nat ->
      content (limit U) k r g = content U k r g.
End Spec.

(** the states at which a Runge-Kutta scheme evaluates the residual, after the first: Heun's and Shu's schemes *)
Definition stage1 {I} (limit : Column I -> Column I) residual (u : Column I) (t dt : R) : Column I :=
  limit (fun i => u i + dt * residual t u i).
Definition stage2 {I} (limit : Column I -> Column I) residual (u : Column I) (t dt : R) : Column I :=
  let u1 := stage1 limit residual u t dt in
  limit (fun i => 3 / 4 * u i + 1 / 4 * (u1 i + dt * residual (t + dt) u1 i)).
(** the time average over a step of a quantity of the time and of the state, with the weights of the scheme of the
    order [order] *)
Definition averaged {I} (limit : Column I -> Column I) residual (order : nat) (q : R -> Column I -> R)
    (u : Column I) (t dt : R) : R :=
  match order with
  | 1%nat => q t u
  | 2%nat => (q t u + q (t + dt) (stage1 limit residual u t dt)) / 2
  | _ => (q t u + q (t + dt) (stage1 limit residual u t dt) + 4 * q (t + dt / 2) (stage2 limit residual u t dt)) / 6
  end.
