(** Model of the main programs: [Main] of demo/euler/sourceless.cpp and of demo/euler/rotorcraft.cpp.
    The other programs, e.g. demo/linear/single.cpp:227-257, have the same loop.
    The processes are modelled together: a [State] is the parts of all of them.  What the loop does with the parts
    is abstract here: the functions that partition, build, initialise, advance, write and read are variables; the
    properties put in the models of writing and reading (Model_Restart).
    The disk is the directory of the case: the partition, and the files by their names without ".cgns".
    The numbers of frames and steps are natural numbers: negative arguments and overflow are not modelled.  Printing, time
    measurement and the files for visualisation are left out. *)
From Coq Require Import Reals List Arith Bool String DecimalString DecimalNat.
From Verif Require Import Arrays Model_Restart.
Import ListNotations.
Open Scope R_scope.

(** sourceless.cpp:33-48, the arguments: [a_options] are those after the sixth, [a_tetra] is [suffix == "tetra"] *)
Record Args := mkArgs {
  a_tetra : bool;
  t_start : R;
  t_stop : R;
  n_steps_per_frame : nat;
  n_frames : nat;
  a_options : list nat
}.
(** sourceless.cpp:39 *)
Definition n_steps (a : Args) : nat := (n_frames a * n_steps_per_frame a)%nat.
(** sourceless.cpp:40 *)
Definition dt_of (a : Args) : R := (t_stop a - t_start a) / INR (n_steps a).
(** sourceless.cpp:41-44 *)
Definition i_frame_of (a : Args) : nat := nth 0 (a_options a) 0%nat.
(** sourceless.cpp:45-48 *)
Definition n_parts_prev (a : Args) : nat := nth 1 (a_options a) 0%nat.
(** sourceless.cpp:81: [argc == 7] *)
Definition is_first (a : Args) : bool := match a_options a with [] => true | _ => false end.
(** sourceless.cpp:134, 137 *)
Definition t_curr_of (a : Args) (i_step : nat) : R := t_start a + dt_of a * INR (i_step - 1).

(** sourceless.cpp:110, 146 *)
Definition frame_name (i_frame : nat) : string :=
  ("Frame" ++ NilEmpty.string_of_uint (Nat.to_uint i_frame))%string.

Section Driver.
  Context {State File Mesh : Type}.
  (** the directory of the case: partition/ and the files *)
  Record Disk := mkDisk { d_mesh : option Mesh; d_files : list (string * File) }.

  (** opening a file for reading *)
  Fixpoint lookup (name : string) (l : list (string * File)) : option File :=
    match l with
    | [] => None
    | (n, f) :: t => if String.eqb name n then Some f else lookup name t
    end.
  (** creating a file, or overwriting it: part.hpp:1124 *)
  Definition put (d : Disk) (name : string) (f : File) : Disk := mkDisk (d_mesh d) ((name, f) :: d_files d).

  (** shuffler.hpp:508-545 [PartitionAndShuffle]: the partition and the shuffled file *)
  Variable PartitionAndShuffle : File -> nat -> option (Mesh * File).
  (** part.hpp:470-494, the constructor [Part] *)
  Variable NewParts : Mesh -> nat -> option State.
  (** sourceless.cpp:82-84 *)
  Variable Approximate : State -> State.
  (** part.hpp [Reconstruct] *)
  Variable Reconstruct : State -> State.
  (** part.hpp:1101-1109 [GatherSolutions] and 1119-1221 [WriteSolutions] *)
  Variable GatherAndWrite : State -> option (State * File).
  (** part.hpp:1222-1259 [ReadSolutions] and 1110-1118 [ScatterSolutions] *)
  Variable ReadAndScatter : File -> State -> option State.
  (** rk.hpp [Update], with the residual of the scheme *)
  Variable Update : State -> R -> R -> State.

  (** sourceless.cpp:60-65: the partition *)
  Definition partition (a : Args) (n_core : nat) (old : File) (d : Disk) : option Disk :=
    if (n_parts_prev a =? n_core)%nat then Some d
    else do mf <- PartitionAndShuffle old n_core;
         Some (mkDisk (Some (fst mf)) (("shuffled"%string, snd mf) :: d_files d)).

  (** sourceless.cpp:146-149, also 101-103: a frame *)
  Definition write_frame (s : State) (i_frame : nat) (d : Disk) : option (State * Disk) :=
    do sf <- GatherAndWrite s; Some (fst sf, put d (frame_name i_frame) (snd sf)).

  (** sourceless.cpp:108-112 *)
  Definition read_frame (a : Args) (n_core : nat) (s : State) (d : Disk) : option State :=
    let soln_name := if negb (n_parts_prev a =? n_core)%nat then "shuffled"%string else frame_name (i_frame_of a) in
    do f <- lookup soln_name (d_files d); ReadAndScatter f s.

  (** sourceless.cpp:60-117: everything before the loop *)
  Definition start (a : Args) (n_core : nat) (old : File) (d : Disk) : option (State * Disk) :=
    do d <- partition a n_core old d;
    do m <- d_mesh d;
    do s <- NewParts m n_core;
    if is_first a then
      let s := Approximate s in
      let s := Reconstruct s in
      let s := if a_tetra a then Reconstruct s else s in
      write_frame s 0 d
    else do s <- read_frame a n_core s d; Some (s, d).

  (** sourceless.cpp:133-155: one step of the loop *)
  Definition step (a : Args) (x : State * nat * Disk) (i_step : nat) : option (State * nat * Disk) :=
    let '(s, i_frame, d) := x in
    let s := Update s (t_curr_of a i_step) (dt_of a) in
    if (i_step mod n_steps_per_frame a =? 0)%nat then
      do sd <- write_frame s (S i_frame) d; Some (fst sd, S i_frame, snd sd)
    else Some (s, i_frame, d).

  (** the program up to the end of the step [j]: what is left if it is interrupted then *)
  Definition Main_until (j : nat) (a : Args) (n_core : nat) (old : File) (d : Disk) : option (State * nat * Disk) :=
    do sd <- start a n_core old d;
    foldM (step a) (seq 1 j) (fst sd, i_frame_of a, snd sd).

  (** sourceless.cpp:16-165 [Main] with at least seven arguments *)
  Definition Main (a : Args) (n_core : nat) (old : File) (d : Disk) : option (State * nat * Disk) :=
    Main_until (n_steps a) a n_core old d.

  (** ** The forces of the rotors *)

  (** what [WriteForces] writes, rotorcraft.cpp:16-32, for the parts at a time *)
  Context {Csv : Type}.
  Variable WriteForces : State -> R -> Csv.

  (** rotorcraft.cpp:140-142, an inner loop with the same counter *)
  Fixpoint to_frame (fuel n i_step : nat) : nat :=
    match fuel with
    | O => i_step
    | S fuel => if (i_step mod n =? 0)%nat then i_step else to_frame fuel n (S i_step)
    end.

  (** rotorcraft.cpp:136-157 with [write_forces]; [out] has the names and the contents of the files written, the
      last one first *)
  Fixpoint forces_loop (fuel : nat) (a : Args) (s : State) (i_frame i_step : nat) (d : Disk) (out : list (string * Csv))
      : option (list (string * Csv)) :=
    match fuel with
    | O => None
    | S fuel =>
        if (i_step <=? n_steps a)%nat then
          let t_curr := t_curr_of a i_step in
          let i_step := to_frame (n_steps_per_frame a) (n_steps_per_frame a) i_step in
          let i_frame := S i_frame in
          do f <- lookup (frame_name i_frame) (d_files d);
          do s <- ReadAndScatter f s;
          let out := (frame_name i_frame, WriteForces s t_curr) :: out in
          forces_loop fuel a s i_frame (S i_step) d out
        else Some out
    end.

  (** rotorcraft.cpp:34-188 [Main] with ten arguments.  The loop ends after at most [n_steps] turns. *)
  Definition Main_forces (a : Args) (n_core : nat) (old : File) (d : Disk) : option (list (string * Csv)) :=
    do d <- partition a n_core old d;
    do m <- d_mesh d;
    do s <- NewParts m n_core;
    do s <- read_frame a n_core s d;
    let out := [(frame_name (i_frame_of a), WriteForces s (t_start a))] in
    forces_loop (S (n_steps a)) a s (i_frame_of a) 1 d out.
End Driver.

Arguments Disk File Mesh : clear implicits.

(** ** Writing and reading by all processes *)
Section Parts.
  Context {A : Type}.
  (** part.hpp:202-204; [keeps] is explained in Model_Restart; the numbers of cells and sections of the zones *)
  Variables (K N : nat) (keeps : bool) (zones : list (nat * nat)).

  (** sourceless.cpp:147-148 *)
  Definition write_parts (s : list (Part A)) : option (list (Part A) * list (FZone A)) :=
    do g <- mapM (GatherSolutions K N) s; do f <- WriteSolutions K N keeps (map fst zones) g; Some (g, f).
  (** sourceless.cpp:111-112 *)
  Definition read_parts (f : list (FZone A)) (s : list (Part A)) : option (list (Part A)) :=
    mapM (fun p => do q <- ReadSolutions K N f p; ScatterSolutions K N q) s.
End Parts.
