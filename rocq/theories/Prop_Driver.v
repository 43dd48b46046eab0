(** The main programs: frames, interruptions, restarts, and the forces of the rotors.  C111-C113. *)
From Coq Require Import Reals List Arith Bool String Lra Lia Permutation.
From Verif Require Import Arrays Vec3 Model_Restart Spec_Restart Model_Driver Spec_Driver Proof_Driver Proof_DriverStorage
  Sample_Driver Model_Aircraft.
Import ListNotations.
Open Scope R_scope.

(** C111: a first run that ends, or is interrupted, after any number of steps leaves the frames up to then, each with
    the solution of its step, and no other file is touched except "shuffled". *)
Theorem C111_first : forall {State File Mesh : Type} (Partition : File -> nat -> option (Mesh * File))
    (New : Mesh -> nat -> option State) (Approximate Reconstruct : State -> State)
    (write : State -> option (State * File)) (read : File -> State -> option State) (Update : State -> R -> R -> State)
    (shaped valid : State -> Prop) (same : State -> State -> Prop),
  storage_ok shaped valid same write read -> advance_ok valid same Update ->
  forall a n_core old (d : Disk File Mesh) m f blank, a_options a = [] -> (0 < n_core)%nat ->
  (0 < n_steps_per_frame a)%nat -> Partition old n_core = Some (m, f) -> New m n_core = Some blank ->
  valid (initial Approximate Reconstruct a blank) ->
  forall j, let state := states Update (t_start a) (dt_of a) (initial Approximate Reconstruct a blank) in
  exists s d', Main_until Partition New Approximate Reconstruct write read Update j a n_core old d
      = Some (s, (j / n_steps_per_frame a)%nat, d')
    /\ valid s /\ same s (state j)
    /\ (forall k, (k <= j / n_steps_per_frame a)%nat ->
          has_frame shaped valid same read d' k (state (k * n_steps_per_frame a)%nat))
    /\ d_mesh d' = Some m
    /\ forall n, n <> "shuffled"%string -> (forall k, (k <= j / n_steps_per_frame a)%nat -> n <> frame_name k) ->
         lookup n (d_files d') = lookup n (d_files d).
Proof. intros. eapply first_ok; eassumption. Qed.
Print Assumptions C111_first.

(** C111: a restart from the frame [k0] on the same number of processes goes on from the solution of that frame; the
    files of the earlier frames and [Frame k0] itself stay as they are. *)
Theorem C111_restart : forall {State File Mesh : Type} (Partition : File -> nat -> option (Mesh * File))
    (New : Mesh -> nat -> option State) (Approximate Reconstruct : State -> State)
    (write : State -> option (State * File)) (read : File -> State -> option State) (Update : State -> R -> R -> State)
    (shaped valid : State -> Prop) (same : State -> State -> Prop),
  storage_ok shaped valid same write read -> advance_ok valid same Update ->
  forall a k0 n_core old (d : Disk File Mesh) m blank s0, a_options a = [k0; n_core] ->
  (0 < n_steps_per_frame a)%nat -> d_mesh d = Some m -> New m n_core = Some blank -> shaped blank -> valid s0 ->
  has_frame shaped valid same read d k0 s0 ->
  forall j, let state := states Update (t_start a) (dt_of a) s0 in
  exists s d', Main_until Partition New Approximate Reconstruct write read Update j a n_core old d
      = Some (s, (k0 + j / n_steps_per_frame a)%nat, d')
    /\ valid s /\ same s (state j)
    /\ (forall k, (k <= j / n_steps_per_frame a)%nat ->
          has_frame shaped valid same read d' (k0 + k) (state (k * n_steps_per_frame a)%nat))
    /\ d_mesh d' = Some m
    /\ forall n, (forall k, (1 <= k <= j / n_steps_per_frame a)%nat -> n <> frame_name (k0 + k)) ->
         lookup n (d_files d') = lookup n (d_files d).
Proof. intros. eapply restart_ok; eassumption. Qed.
Print Assumptions C111_restart.

(** C111: a run that is interrupted and restarted any number of times, each time from any frame that is there, leaves
    the frames of the run without interruption. *)
Theorem C111_interrupted : forall {State File Mesh : Type} (Partition : File -> nat -> option (Mesh * File))
    (New : Mesh -> nat -> option State) (Approximate Reconstruct : State -> State)
    (write : State -> option (State * File)) (read : File -> State -> option State) (Update : State -> R -> R -> State)
    (shaped valid : State -> Prop) (same : State -> State -> Prop),
  storage_ok shaped valid same write read -> advance_ok valid same Update ->
  forall a n_core old (d : Disk File Mesh) m f blank, a_options a = [] -> (0 < n_core)%nat ->
  (0 < n_steps_per_frame a)%nat -> Partition old n_core = Some (m, f) -> New m n_core = Some blank -> shaped blank ->
  valid (initial Approximate Reconstruct a blank) ->
  forall j0 l last, (j0 <= n_steps a)%nat -> sessions a l (j0 / n_steps_per_frame a) = Some last ->
  exists s whole d', Main Partition New Approximate Reconstruct write read Update a n_core old d
      = Some (s, n_frames a, whole)
    /\ (do x <- Main_until Partition New Approximate Reconstruct write read Update j0 a n_core old d;
        run_sessions Partition New Approximate Reconstruct write read Update a n_core old l (snd x)) = Some d'
    /\ (last <= n_frames a)%nat
    /\ forall k, (k <= last)%nat ->
         let s := states Update (t_start a) (dt_of a) (initial Approximate Reconstruct a blank)
           (k * n_steps_per_frame a)%nat in
         has_frame shaped valid same read whole k s /\ has_frame shaped valid same read d' k s.
Proof.
  intros State File Mesh Partition New Approximate Reconstruct write read Update shaped valid same SO AO
    a n_core old d m f blank Ho Hn Hs Hp Hb Sb V0 j0 l last Hj Hl.
  assert (Q : (n_steps a / n_steps_per_frame a)%nat = n_frames a) by (unfold n_steps; apply Nat.div_mul; lia).
  destruct (first_ok Partition New Approximate Reconstruct write read Update shaped valid same SO AO
    a n_core old d m f blank Ho Hn Hs Hp Hb V0 (n_steps a)) as (s & whole & Rw & _ & _ & Fw & _).
  destruct (first_ok Partition New Approximate Reconstruct write read Update shaped valid same SO AO
    a n_core old d m f blank Ho Hn Hs Hp Hb V0 j0) as (s1 & d1 & R1 & _ & _ & F1 & M1 & _).
  assert (B : (j0 / n_steps_per_frame a <= n_frames a)%nat) by (rewrite <- Q; apply Nat.div_le_mono; lia).
  destruct (sessions_ok Partition New Approximate Reconstruct write read Update shaped valid same SO AO
    a n_core old m blank (initial Approximate Reconstruct a blank) Hs Hb Sb V0 l _ _ d1 M1 B F1 Hl)
    as (d' & R' & _ & B' & F' & _).
  exists s, whole, d'. rewrite Q in Rw, Fw. split; [exact Rw|]. rewrite R1. cbn [bind snd]. split; [exact R'|].
  split; [lia|]. intros k Hk. split; [apply Fw; lia|apply F'; exact Hk].
Qed.
Print Assumptions C111_interrupted.

(** C111: a restart has the time steps of the original run, and the last step ends at [t_stop]. *)
Theorem C111_times : forall a k n_core, (k < n_frames a)%nat -> (0 < n_steps_per_frame a)%nat ->
  dt_of (continued a k n_core) = dt_of a
  /\ n_steps (continued a k n_core) = (n_steps a - k * n_steps_per_frame a)%nat
  /\ (forall i, (1 <= i)%nat -> t_curr_of (continued a k n_core) i = t_curr_of a (k * n_steps_per_frame a + i))
  /\ t_curr_of a (n_steps a) + dt_of a = t_stop a.
Proof.
  intros a k n_core Hk Hs. pose proof (continued_dt a k n_core Hk Hs) as E. split; [exact E|]. split; [|split].
  - unfold n_steps, continued. cbn [n_frames n_steps_per_frame]. apply Nat.mul_sub_distr_r.
  - intros i Hi. unfold t_curr_of. rewrite E. cbn [continued t_start].
    replace (k * n_steps_per_frame a + i - 1)%nat with (k * n_steps_per_frame a + (i - 1))%nat by lia.
    rewrite plus_INR. ring.
  - assert (P : (1 <= n_steps a)%nat) by (unfold n_steps; nia).
    unfold t_curr_of. rewrite minus_INR by exact P. cbn [INR]. unfold dt_of.
    pose proof (le_INR 1 _ P) as Q. cbn [INR] in Q. field. lra.
Qed.
Print Assumptions C111_times.

(** C111: writing by [GatherSolutions] and [WriteSolutions] and reading by [ReadSolutions] and [ScatterSolutions] do
    what the theorems above need, on any number of processes: unless the zones have more than one section and these
    share the arrays of fields (C101). *)
Theorem C111_storage : forall {A : Type} K N keeps zones (shape0 : list (Part A)),
  keeps = true \/ Forall (fun z => (snd z <= 1)%nat) zones ->
  storage_ok (shaped_parts K N zones shape0) (valid_parts K N zones shape0) same_parts
    (write_parts K N keeps zones) (read_parts K N).
Proof. intros. apply parts_storage. assumption. Qed.
Print Assumptions C111_storage.

(** two cells; the first run is interrupted after three of four steps, the restart from frame 1 is interrupted after
    one step, the next restart from frame 0 after three, and the last one from frame 1 gets to the end *)
Example C111_example :
  sessions S_args [(1, 1); (0, 3); (1, 2)]%nat 1 = Some 2%nat
  /\ exists s whole d', Main S_Partition S_New S_Approximate S_Reconstruct S_write S_read S_Update S_args 1 S_mesh S_disk0
      = Some (s, 2%nat, whole)
    /\ (do x <- S_until 3 S_args 1 S_mesh S_disk0;
        S_sessions S_args 1%nat S_mesh [(1, 1); (0, 3); (1, 2)]%nat (snd x)) = Some d'
    /\ forall k, (k <= 2)%nat ->
         has_frame (S_names [1; 2]%nat) (S_names [1; 2]%nat) eq S_read whole k (S_state (k * 2))
         /\ has_frame (S_names [1; 2]%nat) (S_names [1; 2]%nat) eq S_read d' k (S_state (k * 2)).
Proof.
  split; [reflexivity|].
  destruct (C111_interrupted S_Partition S_New S_Approximate S_Reconstruct S_write S_read S_Update _ _ _
    (S_storage [1; 2]%nat) (S_advance [1; 2]%nat) S_args 1%nat S_mesh S_disk0 [1; 2]%nat S_mesh _
    eq_refl (Nat.lt_0_succ 0) (Nat.lt_0_succ 1) eq_refl eq_refl eq_refl eq_refl 3%nat
    [(1, 1); (0, 3); (1, 2)]%nat 2%nat) as (s & whole & d' & R1 & R2 & _ & F); [cbn; lia|reflexivity|].
  exists s, whole, d'. split; [exact R1|]. split; [exact R2|]. intros k Hk. specialize (F k Hk). cbn zeta in F.
  rewrite S_dt in F. exact F.
Qed.

(** the solution of frame 1, and that it is not the initial one *)
Example C111_frame1 : S_state 2 = [(1%nat, 8); (2%nat, 15)] /\ S_state 0 <> S_state 2.
Proof.
  split; [exact S_state_2|]. rewrite S_state_2. unfold S_state. cbn [states].
  unfold S_first, initial, S_args, S_Reconstruct, S_Approximate. cbn [a_tetra map fst]. cbn [INR].
  intros E. apply (f_equal (fun l => snd (hd (0%nat, 0) l))) in E. cbn [hd snd] in E. lra.
Qed.

(** C112: with the index of a frame but without the number of processes of the earlier run (or with another number) the
    frames on the disk do not matter: the solution is that of the file given as first argument. *)
Theorem C112_ignores_frames : forall {State File Mesh : Type} (Partition : File -> nat -> option (Mesh * File))
    (New : Mesh -> nat -> option State) (Approximate Reconstruct : State -> State)
    (write : State -> option (State * File)) (read : File -> State -> option State) (Update : State -> R -> R -> State)
    a n_core old (d d' : Disk File Mesh) j, n_parts_prev a <> n_core ->
  agrees (Main_until Partition New Approximate Reconstruct write read Update j a n_core old d)
         (Main_until Partition New Approximate Reconstruct write read Update j a n_core old d').
Proof. intros. apply not_read. assumption. Qed.
Print Assumptions C112_ignores_frames.

(** C112: hence a restart from an existing frame, by its index alone, fails. *)
Theorem C112_frame_only_refuted : exists (m : list nat) (d : Disk S_File S_Mesh) (a : Args),
  storage_ok (S_names m) (S_names m) eq S_write S_read /\ advance_ok (S_names m) eq S_Update
  /\ (exists s, S_until 2 S_args 1 S_mesh S_disk0 = Some (s, 1%nat, d))
  /\ has_frame (S_names m) (S_names m) eq S_read d 1 (S_state 2)
  /\ a_options a = [1%nat]
  /\ Main S_Partition S_New S_Approximate S_Reconstruct S_write S_read S_Update a 1 S_mesh d = None.
Proof.
  exists [1; 2]%nat, S_disk1, (mkArgs false 2 4 2 1 [1%nat]).
  split; [apply S_storage|]. split; [apply S_advance|]. split; [exists (S_state 2); exact S_run1|]. split.
  - exists (S_file (S_state 2)). split; [reflexivity|]. apply S_stores. reflexivity.
  - split; reflexivity.
Qed.
Print Assumptions C112_frame_only_refuted.

(** C112: what does hold.  If the file given as first argument has a solution, and partitioning keeps it, then the
    restart on another number of processes goes on from that solution. *)
Theorem C112_repartition_partial : forall {State File Mesh : Type} (Partition : File -> nat -> option (Mesh * File))
    (New : Mesh -> nat -> option State) (Approximate Reconstruct : State -> State)
    (write : State -> option (State * File)) (read : File -> State -> option State) (Update : State -> R -> R -> State)
    (shaped valid : State -> Prop) (same : State -> State -> Prop),
  storage_ok shaped valid same write read -> advance_ok valid same Update ->
  forall a n_core old (d : Disk File Mesh) m f blank s0, a_options a <> [] -> n_parts_prev a <> n_core ->
  (0 < n_steps_per_frame a)%nat -> Partition old n_core = Some (m, f) -> New m n_core = Some blank ->
  shaped blank -> valid s0 -> stores shaped valid same read f s0 ->
  forall j, let state := states Update (t_start a) (dt_of a) s0 in
  exists s d', Main_until Partition New Approximate Reconstruct write read Update j a n_core old d
      = Some (s, (i_frame_of a + j / n_steps_per_frame a)%nat, d')
    /\ valid s /\ same s (state j)
    /\ (forall k, (1 <= k <= j / n_steps_per_frame a)%nat ->
          has_frame shaped valid same read d' (i_frame_of a + k) (state (k * n_steps_per_frame a)%nat))
    /\ d_mesh d' = Some m
    /\ forall n, n <> "shuffled"%string ->
         (forall k, (1 <= k <= j / n_steps_per_frame a)%nat -> n <> frame_name (i_frame_of a + k)) ->
         lookup n (d_files d') = lookup n (d_files d).
Proof. intros. eapply repartition_ok; eassumption. Qed.
Print Assumptions C112_repartition_partial.

(** C112: the frame that such a restart begins with is not written again in the new order of the cells.  A run on one
    process, continued on two from frame 1 and interrupted before frame 2, then continued on two from frame 1 again:
    the second restart has the right solution, the third has the values of the cells exchanged, without any error. *)
Theorem C112_stale_frame_refuted : exists d1 d2 d3 s2 s3 (a2 a3 : Args),
  S_until 2 S_args 1 S_mesh S_disk0 = Some (S_state 2, 1%nat, d1)
  /\ a_options a2 = [1; 1]%nat
  /\ (exists f, lookup (frame_name 1) (d_files d1) = Some f /\ S_until 0 a2 2 f d1 = Some (s2, 1%nat, d2))
  /\ Permutation (S_state 2) s2
  /\ a_options a3 = [1; 2]%nat
  /\ S_until 0 a3 2 S_mesh d2 = Some (s3, 1%nat, d3)
  /\ ~ Permutation (S_state 2) s3.
Proof.
  exists S_disk1. eexists _, _, _, [(2%nat, 8); (1%nat, 15)], (mkArgs false 2 4 2 1 [1; 1]%nat), (mkArgs false 2 4 2 1 [1; 2]%nat).
  split; [exact S_run1|]. split; [reflexivity|]. split; [|split; [|split; [reflexivity|split]]].
  - exists (S_file (S_state 2)). split; [reflexivity|]. rewrite S_state_2. reflexivity.
  - rewrite S_state_2. cbn. apply perm_swap.
  - unfold Main_until, start, partition, read_frame.
    cbn [n_parts_prev a_options nth Nat.eqb bind negb fst snd d_mesh seq foldM S_Partition S_New is_first i_frame_of].
    cbn [d_files S_disk1 lookup]. change (String.eqb (frame_name 1) "shuffled") with false.
    change (String.eqb (frame_name 1) (frame_name 1)) with true. cbv iota. cbn [bind]. rewrite S_state_2. reflexivity.
  - rewrite S_state_2. intros P. apply (Permutation_in (1%nat, 8)) in P; [|left; reflexivity].
    destruct P as [E|[E|[]]].
    + apply (f_equal fst) in E. discriminate E.
    + apply (f_equal snd) in E. cbn [snd] in E. lra.
Qed.
Print Assumptions C112_stale_frame_refuted.

(** the hypotheses of C112_repartition_partial hold for the second run of that example *)
Example C112_example : exists d2 s2,
  S_until 2 (mkArgs false 2 4 2 1 [1; 1]%nat) 2 (S_file (S_state 2)) S_disk1 = Some (s2, 2%nat, d2)
  /\ has_frame (S_names [2; 1]%nat) (S_names [2; 1]%nat) eq S_read d2 2 s2
  /\ s2 = states S_Update 2 1 (rev (S_state 2)) 2.
Proof.
  set (a := mkArgs false 2 4 2 1 [1; 1]%nat).
  assert (D : dt_of a = 1).
  { unfold a, dt_of, n_steps. cbn [t_stop t_start n_frames n_steps_per_frame Nat.mul Nat.add]. cbn [INR]. lra. }
  assert (V : S_names [2; 1]%nat (rev (S_state 2))) by (rewrite S_state_2; reflexivity).
  destruct (C112_repartition_partial S_Partition S_New S_Approximate S_Reconstruct S_write S_read S_Update _ _ _
    (S_storage [2; 1]%nat) (S_advance [2; 1]%nat) a 2%nat (S_file (S_state 2)) S_disk1 [2; 1]%nat
    (S_file (rev (S_state 2))) _ (rev (S_state 2)) ltac:(discriminate) ltac:(cbn; lia) ltac:(cbn; lia)
    ltac:(rewrite S_state_2; reflexivity) eq_refl eq_refl V (S_stores _ _ V) 2%nat)
    as (s & d' & R1 & _ & E & F & _).
  rewrite D in E, F. exists d', s. split; [exact R1|]. split; [|exact E]. rewrite E. apply (F 1%nat). cbn. lia.
Qed.

(** C113: the forces are those of the solutions of the frames, in files with the names of the frames; but the time at
    which the rotors are put is that of the frame before (for the first frame, its own). *)
Theorem C113_forces_partial : forall {State File Mesh Csv : Type} (Partition : File -> nat -> option (Mesh * File))
    (New : Mesh -> nat -> option State) (read : File -> State -> option State) (Forces : State -> R -> Csv)
    (shaped valid : State -> Prop) (same : State -> State -> Prop) (write : State -> option (State * File)),
  storage_ok shaped valid same write read ->
  forall a k0 rest n_core old (d : Disk File Mesh) m blank (frame : nat -> State), a_options a = k0 :: n_core :: rest ->
  (0 < n_steps_per_frame a)%nat -> d_mesh d = Some m -> New m n_core = Some blank -> shaped blank ->
  (forall i, (i <= n_frames a)%nat -> has_frame shaped valid same read d (k0 + i) (frame i)) ->
  exists s new, Main_forces Partition New read Forces a n_core old d
      = Some (new ++ [(frame_name k0, Forces s (t_start a))])
    /\ valid s /\ same s (frame 0%nat)
    /\ Forall2 (fun x i => forces_of valid same Forces k0 x i (frame i)
         (t_start a + INR ((i - 1) * n_steps_per_frame a) * dt_of a)) (rev new) (seq 1 (n_frames a)).
Proof. intros. eapply forces_ok; eassumption. Qed.
Print Assumptions C113_forces_partial.

(** C113: hence they are right if the forces do not depend on the time. *)
Theorem C113_steady_partial : forall {State File Mesh Csv : Type} (Partition : File -> nat -> option (Mesh * File))
    (New : Mesh -> nat -> option State) (read : File -> State -> option State) (Forces : State -> R -> Csv)
    (shaped valid : State -> Prop) (same : State -> State -> Prop) (write : State -> option (State * File)),
  storage_ok shaped valid same write read -> (forall s t t', Forces s t = Forces s t') ->
  forall a k0 rest n_core old (d : Disk File Mesh) m blank (frame : nat -> State), a_options a = k0 :: n_core :: rest ->
  (0 < n_steps_per_frame a)%nat -> d_mesh d = Some m -> New m n_core = Some blank -> shaped blank ->
  (forall i, (i <= n_frames a)%nat -> has_frame shaped valid same read d (k0 + i) (frame i)) ->
  exists out, Main_forces Partition New read Forces a n_core old d = Some out
    /\ Forall2 (fun x i => forces_of valid same Forces k0 x i (frame i)
         (t_start a + INR (i * n_steps_per_frame a) * dt_of a)) (rev out) (seq 0 (S (n_frames a))).
Proof.
  intros State File Mesh Csv Partition New read Forces shaped valid same write SO HF a k0 rest n_core old d m blank frame
    Ho Hs Hm Hn Hb Hf.
  destruct (C113_forces_partial Partition New read Forces shaped valid same write SO a k0 rest n_core old d m blank frame
    Ho Hs Hm Hn Hb Hf) as (s & new & E & V & S0 & F).
  eexists. split; [exact E|]. rewrite rev_app_distr. cbn [rev app seq]. constructor.
  - split; [cbn [fst]; f_equal; lia|]. exists s. split; [exact V|]. split; [exact S0|]. cbn [snd]. apply HF.
  - clear - F HF. induction F as [|x i l l' (N & s' & V & S' & E) _ IH]; constructor; [|exact IH].
    split; [exact N|]. exists s'. split; [exact V|]. split; [exact S'|]. rewrite E. apply HF.
Qed.
Print Assumptions C113_steady_partial.

(** a rotor that turns by 45 degrees per second; its "force" is its azimuth *)
Definition S_rotor : RotorState := mkRotor [] default_frame (V 0 0 0) 0 0 45 (-1).
Definition S_Forces (_ : S_State) (t : R) : R := r_azimuth (UpdateAzimuth t S_rotor).

(** C113: the forces of frame 1 are those at the time of frame 0. *)
Theorem C113_time_refuted : exists (d : Disk S_File S_Mesh) (a : Args) out,
  S_until 2 S_args 1 S_mesh S_disk0 = Some (S_state 2, 1%nat, d)
  /\ a_options a = [0; 1]%nat /\ n_frames a = 1%nat /\ n_steps_per_frame a = 2%nat /\ t_start a = 0 /\ dt_of a = 1
  /\ Main_forces S_Partition S_New S_read S_Forces a 1 S_mesh d = Some out
  /\ exists F1, In (frame_name 1, F1) out /\ F1 = 0 /\ S_Forces (S_state 2) 2 = 90.
Proof.
  exists S_disk1, (mkArgs false 0 2 2 1 [0; 1]%nat).
  set (a := mkArgs false 0 2 2 1 [0; 1]%nat).
  assert (D : dt_of a = 1).
  { unfold a, dt_of, n_steps. cbn [t_stop t_start n_frames n_steps_per_frame Nat.mul Nat.add]. cbn [INR]. lra. }
  eexists. split; [exact S_run1|]. split; [reflexivity|]. split; [reflexivity|]. split; [reflexivity|].
  split; [reflexivity|]. split; [exact D|]. split; [reflexivity|].
  eexists. split; [left; reflexivity|]. split.
  - unfold S_Forces, UpdateAzimuth, t_curr_of. cbn [S_rotor r_time]. destruct (Req_EM_T _ _); cbn; lra.
  - unfold S_Forces, UpdateAzimuth. cbn [S_rotor r_time]. destruct (Req_EM_T _ _); cbn; lra.
Qed.
Print Assumptions C113_time_refuted.

(** the hypotheses of C113_forces_partial hold there *)
Example C113_example : exists s new, Main_forces S_Partition S_New S_read S_Forces (mkArgs false 0 2 2 1 [0; 1]%nat) 1 S_mesh
    S_disk1 = Some (new ++ [(frame_name 0, S_Forces s 0)]) /\ s = S_state 0 /\ List.length new = 1%nat.
Proof.
  destruct (C113_forces_partial S_Partition S_New S_read S_Forces _ _ _ S_write (S_storage [1; 2]%nat)
    (mkArgs false 0 2 2 1 [0; 1]%nat) 0%nat [] 1%nat S_mesh S_disk1 [1; 2]%nat _ (fun i => S_state (i * 2))
    eq_refl (Nat.lt_0_succ 1) eq_refl eq_refl eq_refl) as (s & new & E & _ & H & F).
  - cbn [n_frames]. intros i Hi. destruct i as [|[|i]]; [| |lia].
    + exists (S_file (S_state 0)). split; [reflexivity|]. apply S_stores. reflexivity.
    + exists (S_file (S_state 2)). split; [reflexivity|]. apply S_stores. reflexivity.
  - exists s, new. split; [exact E|]. split; [exact H|].
    transitivity (List.length (rev new)); [symmetry; apply rev_length|]. clear - F. cbn [n_frames seq] in F.
    inversion F as [|x y l l' _ F' E1 E2]. inversion F'. reflexivity.
Qed.
