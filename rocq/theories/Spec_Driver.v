(** Specification for the main programs: what storing a solution and advancing it must do, the states that are
    passed through, and the frames on the disk. *)
From Coq Require Import Reals List Arith String.
From Verif Require Import Arrays Model_Restart Spec_Restart Model_Driver.
Import ListNotations.
Open Scope R_scope.

(** the states after 0, 1, 2, ... steps of the length [dt] from the time [t0] *)
Fixpoint states {State} (advance : State -> R -> R -> State) (t0 dt : R) (s : State) (n : nat) : State :=
  match n with
  | O => s
  | S n => advance (states advance t0 dt s n) (t0 + INR n * dt) dt
  end.

Section Spec.
  Context {State File Mesh : Type}.
  (** [shaped]: parts that a solution can be read into; [valid]: parts with a solution; [same]: the same solution *)
  Variable shaped valid : State -> Prop.
  Variable same : State -> State -> Prop.
  Variable write : State -> option (State * File).
  Variable read : File -> State -> option State.

  (** the file gives the solution of [s] to whoever reads it *)
  Definition stores (f : File) (s : State) : Prop :=
    forall r, shaped r -> exists s', read f r = Some s' /\ valid s' /\ same s' s.

  (** what writing and reading must do *)
  Record storage_ok : Prop := {
    same_refl : forall s, same s s;
    same_sym : forall s s', same s s' -> same s' s;
    same_trans : forall s1 s2 s3, same s1 s2 -> same s2 s3 -> same s1 s3;
    valid_shaped : forall s, valid s -> shaped s;
    writes : forall s, valid s -> exists s' f, write s = Some (s', f) /\ valid s' /\ same s' s /\ stores f s
  }.

  (** a step depends on the solution only *)
  Definition advance_ok (advance : State -> R -> R -> State) : Prop :=
    forall s t dt, valid s -> valid (advance s t dt)
      /\ forall s', valid s' -> same s s' -> same (advance s t dt) (advance s' t dt).

  (** the frame number [k] on the disk has the solution of [s] *)
  Definition has_frame (d : Disk File Mesh) (k : nat) (s : State) : Prop :=
    exists f, lookup (frame_name k) (d_files d) = Some f /\ stores f s.
End Spec.

(** The arguments of the program that continues the run [a] from frame [k] of it, on the same processes: the time of the
    frame, and the remaining frames. *)
Definition continued (a : Args) (k n_core : nat) : Args :=
  mkArgs (a_tetra a) (t_start a + INR (k * n_steps_per_frame a) * dt_of a) (t_stop a)
    (n_steps_per_frame a) (n_frames a - k) [k; n_core].

(** [sessions l last]: a list of restarts, each from a frame [k] that is already there, each interrupted after [j] of its
    steps; [last] is the last frame before them, and the function gives the last frame after them *)
Fixpoint sessions (a : Args) (l : list (nat * nat)) (last : nat) : option nat :=
  match l with
  | [] => Some last
  | (k, j) :: l =>
      if (k <=? last)%nat && (k * n_steps_per_frame a + j <=? n_steps a)%nat
      then sessions a l (Nat.max last (k + j / n_steps_per_frame a)) else None
  end%bool.

Section Runs.
  Context {State File Mesh : Type}.
  Variable PartitionAndShuffle : File -> nat -> option (Mesh * File).
  Variable NewParts : Mesh -> nat -> option State.
  Variable Approximate Reconstruct : State -> State.
  Variable write : State -> option (State * File).
  Variable read : File -> State -> option State.
  Variable Update : State -> R -> R -> State.

  (** what the first run starts from: the initial condition, limited once, and twice on tetrahedra *)
  Definition initial (a : Args) (s : State) : State :=
    let s := Reconstruct (Approximate s) in if a_tetra a then Reconstruct s else s.

  (** the disk after a list of restarts *)
  Fixpoint run_sessions (a : Args) (n_core : nat) (old : File) (l : list (nat * nat)) (d : Disk File Mesh)
      : option (Disk File Mesh) :=
    match l with
    | [] => Some d
    | (k, j) :: l =>
        do x <- Main_until PartitionAndShuffle NewParts Approximate Reconstruct write read Update
          j (continued a k n_core) n_core old d;
        run_sessions a n_core old l (snd x)
    end.
End Runs.

(** parts with the cells of [shape0]; such parts with a solution; the same solution *)
Section Parts.
  Context {A : Type} (K N : nat) (zones : list (nat * nat)) (shape0 : list (Part A)).
  Definition shaped_parts (s : list (Part A)) : Prop := parts_ok K N zones s /\ Forall2 same_part shape0 s.
  Definition valid_parts (s : list (Part A)) : Prop := shaped_parts s /\ consistent s.
  Definition same_parts (s s' : list (Part A)) : Prop := map solution s = map solution s'.
End Parts.

(** two runs that end alike, whatever the rest of the disk *)
Definition agrees {State D : Type} (x y : option (State * nat * D)) : Prop :=
  match x, y with
  | Some (s, i, _), Some (s', i', _) => s = s' /\ i = i'
  | None, None => True
  | _, _ => False
  end.

(** the file [x] has the name of the frame [k0 + i] and the forces of the solution [s] at the time [t] *)
Definition forces_of {State Csv : Type} (valid : State -> Prop) (same : State -> State -> Prop)
    (Forces : State -> R -> Csv) (k0 : nat) (x : string * Csv) (i : nat) (s : State) (t : R) : Prop :=
  fst x = frame_name (k0 + i) /\ exists s', valid s' /\ same s' s /\ snd x = Forces s' t.
