(** Frames, triangles, blades and rotors, written independently of the code. *)
From Coq Require Import Reals List ZArith.
From Verif Require Import Vec3 Model_Aircraft.
Import ListNotations.
Open Scope R_scope.

(** an orthonormal, right-handed frame *)
Definition right_handed (f : Frame) : Prop :=
  dot (fX f) (fX f) = 1 /\ dot (fY f) (fY f) = 1 /\ dot (fZ f) (fZ f) = 1 /\
  dot (fX f) (fY f) = 0 /\ dot (fY f) (fZ f) = 0 /\ dot (fZ f) (fX f) = 0 /\
  cross (fX f) (fY f) = fZ f.

Inductive Turn := TurnX (deg : R) | TurnY (deg : R) | TurnZ (deg : R).
Definition turn (f : Frame) (t : Turn) : Frame :=
  match t with TurnX d => RotateX d f | TurnY d => RotateY d f | TurnZ d => RotateZ d f end.

(** [x] is a weighted mean of the corners *)
Definition in_triangle (a b c x : vec) : Prop :=
  exists l m n, 0 <= l /\ 0 <= m /\ 0 <= n /\ l + m + n = 1 /\
  x = vadd (vscale l a) (vadd (vscale m b) (vscale n c)).
Definition in_tetrahedron (a b c d x : vec) : Prop :=
  exists k l m n, 0 <= k /\ 0 <= l /\ 0 <= m /\ 0 <= n /\ k + l + m + n = 1 /\
  x = vadd (vscale k a) (vadd (vscale l b) (vadd (vscale m c) (vscale n d))).

(** the point at [t] between [p] and [q] *)
Definition between (p q : vec) (t : R) : vec := vadd p (vscale t (vsub q p)).

(** the segment from [p] to [q] is in the triangle at ratio [t] *)
Definition meets (p q a b c : vec) (t : R) : Prop := 0 <= t <= 1 /\ in_triangle a b c (between p q t).

(** [x] is in the plane through [a], [b], [c] *)
Definition in_plane (a b c x : vec) : Prop := det3 (vsub a x) (vsub b x) (vsub c x) = 0.

(** [y1 <= y2], and the value at [y] on the straight line through (y0, v0) and (y1, v1) *)
Definition on_line (y0 u0 y1 u1 y u : R) : Prop := (u - u0) * (y1 - y0) = (u1 - u0) * (y - y0).

(** positions from 0, strictly increasing *)
Fixpoint increasing (l : list R) : Prop :=
  match l with x :: ((y :: _) as rest) => x < y /\ increasing rest | _ => True end.
Definition well_placed {A} (l : list (Station A)) : Prop :=
  match l with [] => True | s :: _ => y_value s = 0 end /\ increasing (map y_value l).

(** the same direction *)
Definition same_angle (x y : R) : Prop := exists k : Z, x = y + IZR k * 360.

(** direction of the vector (u, w) in degrees *)
Definition direction (u w deg : R) : Prop :=
  let v := sqrt (u * u + w * w) in cos (deg2rad deg) = u / v /\ sin (deg2rad deg) = w / v.

(** blade pointers *)
Definition blades_refer_home (m : nat -> option (list nat)) : Prop :=
  forall a bs, m a = Some bs -> forall b, In b bs -> b = a.

(** the ratios at which the line is inside the convex cell are those from [alpha] to [beta]; the
    crossings of the boundary within the segment are found, each on one face *)
Definition crossings (alpha beta : R) (faces : list (option R)) : Prop :=
  alpha < beta /\
  (forall t, In (Some t) faces <-> 0 <= t <= 1 /\ (t = alpha \/ t = beta)) /\
  forall i j t, nth_error faces i = Some (Some t) -> nth_error faces j = Some (Some t) -> i = j.

(** [r], [s] describe the part of the segment inside; if it is not longer than a point then [r >= s] *)
Definition describes (alpha beta r s : R) : Prop :=
  (r < s -> forall t, r <= t <= s <-> 0 <= t <= 1 /\ alpha <= t <= beta) /\
  (s <= r -> forall t, ~ (0 < t < 1 /\ alpha < t < beta)).

(** the faces of a tetrahedron *)
Definition tetrahedron_faces (a b c d : vec) : list (vec * vec * vec) := [(b, c, d); (a, c, d); (a, b, d); (a, b, c)].
Definition in_face (f : vec * vec * vec) (x : vec) : Prop := let '(a, b, c) := f in in_triangle a b c x.

(** the initial azimuth and the rotational speed asked for last *)
Definition asked_initial (d : R) (cs : list RotorCall) : R :=
  fold_left (fun d c => match c with CallSetInitialAzimuth x => x | _ => d end) cs d.
Definition asked_omega (d : R) (cs : list RotorCall) : R :=
  fold_left (fun d c => match c with CallSetRevolutionsPerSecond x => x * 360 | _ => d end) cs d.
