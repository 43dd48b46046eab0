(** A small case for the examples about the main programs: a solution is the list of the cells, each with its name and
    its value; a file has the names and the values in their order, and a mesh without solution has no values.
    Partitioning into two parts puts the cells into the opposite order. *)
From Coq Require Import Reals List Arith Bool String Lra Lia Permutation.
From Verif Require Import Arrays Model_Driver Spec_Driver.
Import ListNotations.
Open Scope R_scope.

Definition S_State := list (nat * R).
Definition S_File := (list nat * list R)%type.
Definition S_Mesh := list nat.

Definition S_Partition (f : S_File) (n : nat) : option (S_Mesh * S_File) :=
  Some (if (n =? 2)%nat then (rev (fst f), (rev (fst f), rev (snd f))) else (fst f, f)).
Definition S_New (m : S_Mesh) (_ : nat) : option S_State := Some (map (fun i => (i, 0)) m).
Definition S_Approximate (s : S_State) : S_State := map (fun x => (fst x, 5 * INR (fst x))) s.
Definition S_Reconstruct (s : S_State) : S_State := s.
Definition S_write (s : S_State) : option (S_State * S_File) := Some (s, (map fst s, map snd s)).
Definition S_read (f : S_File) (s : S_State) : option S_State :=
  if (List.length (snd f) =? List.length s)%nat then Some (combine (map fst s) (snd f)) else None.
Definition S_Update (s : S_State) (t dt : R) : S_State := map (fun x => (fst x, snd x + dt * (INR (fst x) + t))) s.

Definition S_names (m : list nat) (s : S_State) : Prop := map fst s = m.

Lemma S_combine (s : S_State) : combine (map fst s) (map snd s) = s.
Proof. induction s as [|[x y] s IH]; cbn; [reflexivity|]. rewrite IH. reflexivity. Qed.

Lemma S_stores m s : S_names m s -> stores (S_names m) (S_names m) eq S_read (map fst s, map snd s) s.
Proof.
  intros H r Hr. unfold S_read, S_names in *. cbn [snd].
  replace (List.length r) with (List.length s) by (rewrite <- (map_length fst s), <- (map_length fst r); congruence).
  rewrite map_length, Nat.eqb_refl. exists s. rewrite Hr, <- H, S_combine. auto.
Qed.

Lemma S_storage m : storage_ok (S_names m) (S_names m) eq S_write S_read.
Proof.
  constructor; [intros; congruence..|auto|].
  - intros s H. exists s, (map fst s, map snd s). split; [reflexivity|]. split; [exact H|]. split; [reflexivity|].
    exact (S_stores m s H).
Qed.

Lemma S_advance m : advance_ok (S_names m) eq S_Update.
Proof.
  intros s t dt H. split; [|intros s' _ <-; reflexivity]. unfold S_names in *. rewrite <- H. unfold S_Update.
  rewrite map_map. cbn [fst]. reflexivity.
Qed.

(** two cells, two frames of two steps each *)
Definition S_args : Args := mkArgs false 0 4 2 2 [].
Definition S_mesh : S_File := ([1%nat; 2%nat], []).
Definition S_disk0 : Disk S_File S_Mesh := mkDisk None [].
Definition S_first (a : Args) : S_State := initial S_Approximate S_Reconstruct a (map (fun i => (i, 0)) [1%nat; 2%nat]).
Definition S_state : nat -> S_State := states S_Update 0 1 (S_first S_args).
Definition S_file (s : S_State) : S_File := (map fst s, map snd s).

Notation S_until := (Main_until S_Partition S_New S_Approximate S_Reconstruct S_write S_read S_Update).
Notation S_sessions := (run_sessions S_Partition S_New S_Approximate S_Reconstruct S_write S_read S_Update).

Lemma S_dt : dt_of S_args = 1.
Proof. unfold dt_of, S_args, n_steps. cbn [t_stop t_start n_frames n_steps_per_frame Nat.mul Nat.add]. cbn [INR]. lra. Qed.

Lemma S_state_2 : S_state 2 = [(1%nat, 8); (2%nat, 15)].
Proof.
  unfold S_state, S_first, initial, S_args. cbn [a_tetra]. unfold S_Reconstruct, S_Approximate.
  cbn [states map fst]. unfold S_Update. cbn [map fst snd]. cbn [INR]. repeat f_equal; lra.
Qed.

(** the first run up to the first frame leaves the files "Frame1", "Frame0" and "shuffled" *)
Definition S_disk1 : Disk S_File S_Mesh := mkDisk (Some [1%nat; 2%nat])
  [(frame_name 1, S_file (S_state 2)); (frame_name 0, S_file (S_state 0)); ("shuffled"%string, S_mesh)].
Lemma S_run1 : S_until 2 S_args 1 S_mesh S_disk0 = Some (S_state 2, 1%nat, S_disk1).
Proof.
  unfold S_disk1, S_state. rewrite <- S_dt.
  unfold Main_until, start, partition. cbn [n_parts_prev a_options S_args nth Nat.eqb S_Partition bind fst snd d_mesh S_mesh S_New is_first a_tetra].
  unfold write_frame at 1, S_write at 1. cbn [bind fst snd]. cbn [seq foldM]. unfold step at 1.
  change (1 mod n_steps_per_frame S_args =? 0)%nat with false. cbn [bind]. unfold step at 1.
  change (2 mod n_steps_per_frame S_args =? 0)%nat with true.
  unfold write_frame, S_write, put, i_frame_of. cbn [bind fst snd d_files d_mesh S_args a_options nth].
  assert (E : forall s, S_Update (S_Update s (t_curr_of S_args 1) (dt_of S_args)) (t_curr_of S_args 2) (dt_of S_args)
    = states S_Update 0 (dt_of S_args) s 2).
  { intros s. cbn [states]. unfold t_curr_of. f_equal; [f_equal|]; cbn [t_start S_args]; rewrite Rmult_comm; reflexivity. }
  change (mkArgs false 0 4 2 2 []) with S_args. rewrite E. reflexivity.
Qed.
