(** Specification of simulations with the solvers of the code: what the two copies of an interface must have in common,
    and the states at which the solvers are called. *)
From Coq Require Import Reals List Arith String Permutation.
From Verif Require Import Vec3 RSum Model_DG Spec_DG Model_Temporal Model_Simulation Spec_Simulation
  Model_Euler Spec_Euler Model_Simple Spec_Mirror Model_Solvers.
Import ListNotations.
Open Scope R_scope.

Section Copies.
  Context {F : Type}.
  (** the solver for a frame, and when two frames look in opposite directions *)
  Variable make : F -> riemann.
  Variable turned : F -> F -> Prop.

  (** two copies of one face: the cells are exchanged, the quadrature points are the same, maybe in another order, and the
      frames look in opposite directions *)
  Definition copies (rf sg : nat * gface) : Prop :=
    let (r, f) := rf in let (s, g) := sg in
    g_rank f = s /\ g_rank g = r /\ g_holder g = g_sharer f /\ g_sharer g = g_holder f
    /\ g_fpoints g = g_fpoints f
    /\ exists frames_f frames_g sigma, Permutation (map sigma (seq 0 (g_fpoints f))) (seq 0 (g_fpoints f))
       /\ forall q, (q < g_fpoints f)%nat ->
            g_fcoord g (sigma q) = g_fcoord f q /\ g_fweight g (sigma q) = g_fweight f q
            /\ g_riemann f q = make (frames_f q) /\ g_riemann g (sigma q) = make (frames_g (sigma q))
            /\ turned (frames_f q) (frames_g (sigma q)).

  (** the faces between parts come in pairs of copies *)
  Definition matched (parts : list gpart) : Prop :=
    exists pairs : list ((nat * gface) * (nat * gface)),
      Permutation (flat_map (fun '(r, p) => map (pair r) (g_ghost_faces p)) (ranked parts))
                  (flat_map (fun '(f, g) => [f; g]) pairs)
      /\ forall f g, In (f, g) pairs -> copies f g.
End Copies.

Definition opposite_normals (nu nu' : R * R * R) : Prop := nu' = opp3 nu.
Definition opposite_frames (f g : Frame) : Prop :=
  orthonormal 3 f /\ orthonormal 3 g /\ normal g = map Ropp (normal f).

(** a relation holds between the values on the two sides of every face between parts, in all its points *)
Definition across (K N : nat) (parts : list gpart) (good : gface -> nat -> value -> value -> Prop)
    (U : Column (nat * nat)) : Prop :=
  forall r p f q, nth_error parts r = Some p -> In f (g_ghost_faces p) -> (q < g_fpoints f)%nat ->
    good f q (value_of K N U r (g_holder f) (g_fcoord f q)) (value_of K N U (g_rank f) (g_sharer f) (g_fcoord f q)).
Definition both_physical (gamma : R) (f : gface) (q : nat) (l r : value) : Prop :=
  physicalU gamma (toT l) /\ physicalU gamma (toT r).
(** the normal velocities approach each other slower than the sum of the speeds of sound, for the frame of the solver *)
Definition no_collision (gamma : R) (solver : Tuple -> Tuple -> Tuple) (f : gface) (q : nat) (l r : value) : Prop :=
  forall fr, g_riemann f q = euler_riemann gamma solver fr ->
  let wl := ConservativeToPrimitive gamma (toT l) in let wr := ConservativeToPrimitive gamma (toT r) in
  dotL (momentum wl) (normal fr) - dotL (momentum wr) (normal fr) < GetSpeedOfSound gamma wl + GetSpeedOfSound gamma wr.

(** the states at which a step evaluates the residual, and all steps of a simulation *)
Definition stages {I} (limit : Column I -> Column I) residual (order : nat) (u : Column I) (t dt : R) : list (Column I) :=
  u :: match order with
       | 1%nat => []
       | 2%nat => [stage1 limit residual u t dt]
       | _ => [stage1 limit residual u t dt; stage2 limit residual u t dt]
       end.
Fixpoint visited {I} (limit : Column I -> Column I) residual (order : nat) (steps : list (R * R)) (s : System I) : list (Column I) :=
  match steps with
  | [] => []
  | (t, dt) :: rest => stages limit residual order (s_solution s) t dt
      ++ visited limit residual order rest (L_RK_Update limit residual order s t dt)
  end.

(** only solid walls are set *)
Definition only_walls (s : fem) : Prop :=
  supersonic_outlet s = [] /\ supersonic_inlet s = [] /\ subsonic_inlet s = [] /\ subsonic_outlet s = [] /\ smart_boundary s = [].
(** the solvers of the faces of a boundary *)
Definition walls_made {F} (make : F -> riemann) (good : F -> Prop) (parts : list gpart) : Prop :=
  forall r p name f q, nth_error parts r = Some p -> In f (g_boundary_faces p name) -> (q < g_fpoints f)%nat ->
    exists fr, good fr /\ g_riemann f q = make fr.

(** the flux of the Euler equations through a unit area with the normal [n], from the five components of a value *)
Definition euler_flux (gamma : R) (u : value) (n : list R) (k : nat) : R :=
  let rho := u 0%nat in
  let un := (u 1%nat * nth 0 n 0 + u 2%nat * nth 1 n 0 + u 3%nat * nth 2 n 0) / rho in
  let p := (gamma - 1) * (u 4%nat - (u 1%nat * u 1%nat + u 2%nat * u 2%nat + u 3%nat * u 3%nat) / (2 * rho)) in
  match k with
  | 0%nat => rho * un
  | 1%nat => un * u 1%nat + p * nth 0 n 0
  | 2%nat => un * u 2%nat + p * nth 1 n 0
  | 3%nat => un * u 3%nat + p * nth 2 n 0
  | 4%nat => un * (u 4%nat + p)
  | _ => 0
  end.
