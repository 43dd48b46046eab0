(** The Euler equations of an ideal gas, written independently of the code. *)
From Coq Require Import Reals List.
From Verif Require Import Model_Euler.
Import ListNotations.
Open Scope R_scope.

(** conservative variables of the primitive state (rho, velocity, p) *)
Definition conservative_of (gamma : R) (w : Tuple) (U : Tuple) : Prop :=
  mass U = mass w /\
  momentum U = map (fun v => mass w * v) (momentum w) /\
  energy U = energy w / (gamma - 1) + mass w * dotL (momentum w) (momentum w) / 2.

(** a primitive state with positive density and pressure *)
Definition physical (w : Tuple) : Prop := 0 < mass w /\ 0 < energy w.

(** pressure of conservative variables *)
Definition pressure (gamma : R) (U : Tuple) : R :=
  (gamma - 1) * (energy U - dotL (momentum U) (momentum U) / (2 * mass U)).

Definition scaleL (c : R) (l : list R) : list R := map (fun x => c * x) l.

(** flux of the conservative variables [U] through a unit area with unit normal [n]:
    (rho u_n, u_n m + p n, u_n (E + p)) *)
Definition normal_flux (gamma : R) (U : Tuple) (n : list R) (F : Tuple) : Prop :=
  let un := dotL (momentum U) n / mass U in
  mass F = mass U * un /\
  momentum F = addL (scaleL un (momentum U)) (scaleL (pressure gamma U) n) /\
  energy F = un * (energy U + pressure gamma U).

(** the first axis of the space of dimension [S d] *)
Definition axis (d : nat) : list R := 1 :: repeat 0 d.

(** flux along the first axis of the primitive state [w] *)
Definition axis_flux (gamma : R) (w F : Tuple) : Prop :=
  exists U, conservative_of gamma w U /\ normal_flux gamma U (axis (length (mT w))) F.

(** turn the first axis round *)
Definition mirror (t : Tuple) : Tuple := mkTuple (mass t) (- mX t) (mT t) (energy t).
Definition negT (t : Tuple) : Tuple := mkTuple (- mass t) (- mX t) (map Ropp (mT t)) (- energy t).

(** the frame is orthonormal *)
Definition orthonormal (D : nat) (f : Frame) : Prop :=
  length f = D /\ (forall v, In v f -> length v = D) /\
  forall i j, (i < D)%nat -> (j < D)%nat ->
  dotL (nth i f []) (nth j f []) = if Nat.eq_dec i j then 1 else 0.

(** [D] is 2 or 3 *)
Definition dims (D : nat) : Prop := D = 2%nat \/ D = 3%nat.

(** conservative variables with positive density and pressure *)
Definition physicalU (gamma : R) (U : Tuple) : Prop := 0 < mass U /\ 0 < pressure gamma U.

(** the flux matrix times the normal *)
Definition times_normal (m : Tuple * Tuple * Tuple) (n : list R) : Tuple :=
  let '(c0, c1, c2) := m in
  addT (scaleT (nth 0 n 0) c0) (addT (scaleT (nth 1 n 0) c1) (scaleT (nth 2 n 0) c2)).

(** ** Three dimensions, component by component, for the eigenvector matrices *)

(** five conservative variables: density, momenta, energy *)
Definition U5 := nat -> R.

Definition dot3 (x y : R * R * R) : R :=
  let '(x1, x2, x3) := x in let '(y1, y2, y3) := y in x1 * y1 + x2 * y2 + x3 * y3.

(** the flux along [n], component by component *)
Definition flux5 (gamma : R) (n : R * R * R) (U : U5) (i : nat) : R :=
  let '(n1, n2, n3) := n in
  let un := dot3 (U 1%nat, U 2%nat, U 3%nat) n / U 0%nat in
  let p := (gamma - 1) * (U 4%nat - dot3 (U 1%nat, U 2%nat, U 3%nat) (U 1%nat, U 2%nat, U 3%nat) / (2 * U 0%nat)) in
  match i with
  | 0%nat => un * U 0%nat
  | 1%nat => un * U 1%nat + p * n1
  | 2%nat => un * U 2%nat + p * n2
  | 3%nat => un * U 3%nat + p * n3
  | _ => un * (U 4%nat + p)
  end.

(** entry in row [i] of column [j] *)
Definition entry (m : list (list R)) (i j : nat) : R := nth i (nth j m []) 0.

Definition sum5 (f : nat -> R) : R := f 0%nat + f 1%nat + f 2%nat + f 3%nat + f 4%nat.

Definition rows (nu mu pi : R * R * R) : Prop :=
  (dot3 nu nu = 1 /\ dot3 mu mu = 1 /\ dot3 pi pi = 1) /\
  (dot3 nu mu = 0 /\ dot3 nu pi = 0 /\ dot3 mu pi = 0).

Definition dat0 (f : R -> R) (d : R) : Prop := derivable_pt_lim f 0 d.

Definition line (U W : U5) (t : R) : U5 := fun j => U j + t * W j.

Definition speeds (un a : R) (k : nat) : R :=
  match k with 0%nat => un - a | 4%nat => un + a | _ => un end.

(** the conservative variables as a list of five *)
Definition five (t : Tuple) : U5 :=
  fun j => match j with 0%nat => mass t | 1%nat => mX t | 2%nat => mY t | 3%nat => mZ t | _ => energy t end.
