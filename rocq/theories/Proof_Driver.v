(** Lemmas about the main programs. *)
From Coq Require Import Reals List Arith Bool String DecimalString DecimalNat Lia Lra.
From Verif Require Import Arrays Model_Restart Spec_Restart Model_Driver Spec_Driver.
Import ListNotations.
Open Scope R_scope.

Lemma frame_name_inj i j : frame_name i = frame_name j -> i = j.
Proof.
  intros E. unfold frame_name in E. cbn in E. injection E as E.
  apply (f_equal NilEmpty.uint_of_string) in E. rewrite !NilEmpty.usu in E. injection E as E.
  apply DecimalNat.Unsigned.to_uint_inj. exact E.
Qed.
Lemma frame_not_shuffled k : frame_name k <> "shuffled"%string.
Proof. unfold frame_name. cbn. discriminate. Qed.

Lemma foldM_app {S X} (f : S -> X -> option S) l1 l2 s :
  foldM f (l1 ++ l2) s = bind (foldM f l1 s) (foldM f l2).
Proof. revert s. induction l1 as [|x t IH]; intros s; cbn; [reflexivity|]. destruct (f s x); cbn; auto. Qed.

Section Driver.
  Context {State File Mesh : Type}.
  Variable PartitionAndShuffle : File -> nat -> option (Mesh * File).
  Variable NewParts : Mesh -> nat -> option State.
  Variable Approximate Reconstruct : State -> State.
  Variable write : State -> option (State * File).
  Variable read : File -> State -> option State.
  Variable Update : State -> R -> R -> State.
  Variable shaped valid : State -> Prop.
  Variable same : State -> State -> Prop.
  Hypothesis SO : storage_ok shaped valid same write read.
  Hypothesis AO : advance_ok valid same Update.

  Notation has_frame := (has_frame (Mesh := Mesh) shaped valid same read).
  Notation stores := (stores shaped valid same read).

  Lemma lookup_put (d : Disk File Mesh) n (f : File) n' : lookup n' (d_files (put d n f))
    = if String.eqb n' n then Some f else lookup n' (d_files d).
  Proof. reflexivity. Qed.

  Lemma stores_same f s s' : same s s' -> stores f s -> stores f s'.
  Proof.
    intros E H r Hr. destruct (H r Hr) as (x & Ex & Vx & Sx). exists x. split; [exact Ex|]. split; [exact Vx|].
    exact (same_trans _ _ _ _ _ SO _ _ _ Sx E).
  Qed.
  Lemma has_frame_same d k s s' : same s s' -> has_frame d k s -> has_frame d k s'.
  Proof. intros E (f & L & H). exists f. split; [exact L|exact (stores_same f s s' E H)]. Qed.

  Lemma states_valid t0 dt s n : valid s -> valid (states Update t0 dt s n).
  Proof. intros H. induction n as [|n IH]; [exact H|]. cbn [states]. apply AO. exact IH. Qed.
  Lemma states_same t0 dt s s' n : valid s -> valid s' -> same s s' ->
    same (states Update t0 dt s n) (states Update t0 dt s' n).
  Proof.
    intros Vs Vs' E. induction n as [|n IH]; [exact E|]. cbn [states].
    apply AO; [apply states_valid; exact Vs|apply states_valid; exact Vs'|exact IH].
  Qed.
  Lemma states_shift t0 dt s n m :
    states Update (t0 + INR n * dt) dt (states Update t0 dt s n) m = states Update t0 dt s (n + m).
  Proof.
    induction m as [|m IH]; [rewrite Nat.add_0_r; reflexivity|]. rewrite Nat.add_succ_r. cbn [states]. rewrite IH.
    f_equal. rewrite plus_INR. ring.
  Qed.

  Lemma write_frame_ok s s0 i d : valid s -> same s s0 -> exists s' d', write_frame write s i d = Some (s', d')
    /\ valid s' /\ same s' s0 /\ has_frame d' i s0 /\ d_mesh d' = d_mesh d
    /\ forall n, n <> frame_name i -> lookup n (d_files d') = lookup n (d_files d).
  Proof.
    intros Vs E. destruct (writes _ _ _ _ _ SO s Vs) as (s' & f & W & V' & E' & St). unfold write_frame. rewrite W.
    cbn [bind fst snd]. do 2 eexists. split; [reflexivity|]. split; [exact V'|]. split; [|split; [|split]].
    - exact (same_trans _ _ _ _ _ SO _ _ _ E' E).
    - exists f. rewrite lookup_put, String.eqb_refl. split; [reflexivity|]. exact (stores_same f s s0 E St).
    - reflexivity.
    - intros n Hn. rewrite lookup_put. destruct (String.eqb_spec n (frame_name i)) as [->|]; [congruence|reflexivity].
  Qed.

  (** the loop *)
  Lemma loop_ok a s0 d0 i0 : (0 < n_steps_per_frame a)%nat -> valid s0 -> forall s, valid s -> same s s0 ->
    forall j, exists s' d', foldM (step write Update a) (seq 1 j) (s, i0, d0)
        = Some (s', (i0 + j / n_steps_per_frame a)%nat, d')
      /\ valid s' /\ same s' (states Update (t_start a) (dt_of a) s0 j)
      /\ (forall k, (1 <= k <= j / n_steps_per_frame a)%nat ->
            has_frame d' (i0 + k) (states Update (t_start a) (dt_of a) s0 (k * n_steps_per_frame a)))
      /\ d_mesh d' = d_mesh d0
      /\ forall n, (forall k, (1 <= k <= j / n_steps_per_frame a)%nat -> n <> frame_name (i0 + k)) ->
           lookup n (d_files d') = lookup n (d_files d0).
  Proof.
    intros P V0 s Vs E j. set (m := n_steps_per_frame a) in *. induction j as [|j IH].
    - exists s, d0. cbn [seq foldM states]. rewrite Nat.div_0_l, Nat.add_0_r by lia. split; [reflexivity|].
      split; [exact Vs|]. split; [exact E|]. split; [intros k Hk; lia|]. split; [reflexivity|]. intros; reflexivity.
    - destruct IH as (s1 & d1 & F & V1 & E1 & Fr & M & L). rewrite seq_S, foldM_app, F. cbn [bind foldM].
      unfold step at 1. fold m.
      replace (t_curr_of a (1 + j)) with (t_start a + INR j * dt_of a)
        by (unfold t_curr_of; replace (1 + j - 1)%nat with j by lia; ring).
      assert (V2 : valid (Update s1 (t_start a + INR j * dt_of a) (dt_of a))) by (apply AO; exact V1).
      assert (E2 : same (Update s1 (t_start a + INR j * dt_of a) (dt_of a)) (states Update (t_start a) (dt_of a) s0 (S j))).
      { cbn [states]. apply AO; [exact V1|apply states_valid; exact V0|exact E1]. }
      destruct (Nat.eqb_spec ((1 + j) mod m) 0) as [Z|NZ].
      + assert (Q : (S j / m = S (j / m))%nat /\ (S j = S (j / m) * m)%nat).
        { pose proof (Nat.div_mod (1 + j) m ltac:(lia)) as D1. pose proof (Nat.div_mod j m ltac:(lia)) as D2.
          pose proof (Nat.mod_upper_bound j m ltac:(lia)). rewrite Z in D1.
          replace (S j) with (1 + j)%nat by lia. set (q := ((1 + j) / m)%nat) in *. set (p := (j / m)%nat) in *.
          set (r := (j mod m)%nat) in *. assert (q = S p) by nia. nia. }
        destruct Q as [Q1 Q2].
        destruct (write_frame_ok _ _ (S (i0 + j / m)) d1 V2 E2) as (s2 & d2 & W & V3 & E3 & Hf & M2 & L2).
        rewrite W. cbn [bind fst snd]. exists s2, d2. rewrite Q1. split; [do 3 f_equal; lia|]. split; [exact V3|].
        split; [exact E3|]. split; [|split].
        * intros k Hk. destruct (Nat.eq_dec k (S (j / m))) as [->|Nk].
          { replace (i0 + S (j / m))%nat with (S (i0 + j / m)) by lia. rewrite <- Q2. exact Hf. }
          destruct (Fr k ltac:(lia)) as (f & Lf & Sf). exists f. split; [|exact Sf].
          rewrite L2; [exact Lf|]. intros En. apply frame_name_inj in En. lia.
        * congruence.
        * intros n Hn. rewrite L2, L; [reflexivity| |].
          { intros k Hk. apply Hn. lia. }
          intros En. apply (Hn (S (j / m)) ltac:(lia)). rewrite En. f_equal. lia.
      + assert (Q1 : (S j / m = j / m)%nat).
        { pose proof (Nat.div_mod (1 + j) m ltac:(lia)) as D1. pose proof (Nat.div_mod j m ltac:(lia)) as D2.
          pose proof (Nat.mod_upper_bound j m ltac:(lia)). pose proof (Nat.mod_upper_bound (1 + j) m ltac:(lia)).
          replace (S j) with (1 + j)%nat by lia. set (q := ((1 + j) / m)%nat) in *. set (p := (j / m)%nat) in *.
          set (r := (j mod m)%nat) in *. set (r' := ((1 + j) mod m)%nat) in *. nia. }
        exists (Update s1 (t_start a + INR j * dt_of a) (dt_of a)), d1. rewrite Q1. auto 10.
  Qed.

  Notation initial := (initial Approximate Reconstruct).

  Notation Main_until := (Main_until PartitionAndShuffle NewParts Approximate Reconstruct write read Update).

  Lemma first_ok a n_core old d m f blank : a_options a = [] -> (0 < n_core)%nat -> (0 < n_steps_per_frame a)%nat ->
    PartitionAndShuffle old n_core = Some (m, f) -> NewParts m n_core = Some blank -> valid (initial a blank) ->
    forall j, let state := states Update (t_start a) (dt_of a) (initial a blank) in
    exists s d', Main_until j a n_core old d = Some (s, (j / n_steps_per_frame a)%nat, d')
      /\ valid s /\ same s (state j)
      /\ (forall k, (k <= j / n_steps_per_frame a)%nat -> has_frame d' k (state (k * n_steps_per_frame a)%nat))
      /\ d_mesh d' = Some m
      /\ forall n, n <> "shuffled"%string -> (forall k, (k <= j / n_steps_per_frame a)%nat -> n <> frame_name k) ->
           lookup n (d_files d') = lookup n (d_files d).
  Proof.
    intros Ho Hc Hs Hp Hn Hv j state. unfold Model_Driver.Main_until, start, partition, is_first, i_frame_of, n_parts_prev.
    rewrite Ho. cbn [nth]. destruct (Nat.eqb_spec 0 n_core) as [Z|_]; [lia|]. rewrite Hp. cbn [bind fst snd d_mesh].
    rewrite Hn. cbn [bind]. change (if a_tetra a then Reconstruct (Reconstruct (Approximate blank)) else Reconstruct (Approximate blank))
      with (initial a blank).
    destruct (write_frame_ok (initial a blank) (initial a blank) 0 (mkDisk (Some m) (("shuffled"%string, f) :: d_files d)) Hv
      (same_refl _ _ _ _ _ SO _)) as (s1 & d1 & W & V1 & E1 & F1 & M1 & L1).
    rewrite W. cbn [bind fst snd].
    destruct (loop_ok a (initial a blank) d1 0 Hs Hv s1 V1 E1 j) as (s' & d' & F & V' & E' & Fr & M & L).
    rewrite F. exists s', d'. split; [reflexivity|]. split; [exact V'|]. split; [exact E'|]. split; [|split].
    - intros k Hk. destruct k as [|k].
      + destruct F1 as (g & Lg & Sg). exists g. split; [|exact Sg]. rewrite L; [exact Lg|].
        intros k Hk' En. apply frame_name_inj in En. lia.
      + apply (Fr (S k)). lia.
    - rewrite M, M1. reflexivity.
    - intros n Nn Nf. rewrite L, L1.
      + cbn [d_files lookup]. destruct (String.eqb_spec n "shuffled"); [contradiction|reflexivity].
      + apply Nf. lia.
      + intros k Hk. apply Nf. lia.
  Qed.

  Lemma restart_ok a k0 n_core old d m blank s0 : a_options a = [k0; n_core] -> (0 < n_steps_per_frame a)%nat ->
    d_mesh d = Some m -> NewParts m n_core = Some blank -> shaped blank -> valid s0 -> has_frame d k0 s0 ->
    forall j, let state := states Update (t_start a) (dt_of a) s0 in
    exists s d', Main_until j a n_core old d = Some (s, (k0 + j / n_steps_per_frame a)%nat, d')
      /\ valid s /\ same s (state j)
      /\ (forall k, (k <= j / n_steps_per_frame a)%nat -> has_frame d' (k0 + k) (state (k * n_steps_per_frame a)%nat))
      /\ d_mesh d' = Some m
      /\ forall n, (forall k, (1 <= k <= j / n_steps_per_frame a)%nat -> n <> frame_name (k0 + k)) ->
           lookup n (d_files d') = lookup n (d_files d).
  Proof.
    intros Ho Hs Hm Hn Hb V0 (f & Lf & Sf) j state.
    unfold Model_Driver.Main_until, start, partition, is_first, read_frame, i_frame_of, n_parts_prev.
    rewrite Ho. cbn [nth]. rewrite Nat.eqb_refl. cbn [bind negb]. rewrite Hm. cbn [bind]. rewrite Hn. cbn [bind].
    rewrite Lf. cbn [bind]. destruct (Sf blank Hb) as (s1 & R1 & V1 & E1). rewrite R1. cbn [bind fst snd].
    destruct (loop_ok a s0 d k0 Hs V0 s1 V1 E1 j) as (s' & d' & F & V' & E' & Fr & M & L).
    rewrite F. exists s', d'. split; [reflexivity|]. split; [exact V'|]. split; [exact E'|]. split; [|split].
    - intros k Hk. destruct k as [|k].
      + rewrite Nat.add_0_r. exists f. split; [|exact Sf]. rewrite L; [exact Lf|].
        intros k Hk' En. apply frame_name_inj in En. lia.
      + apply (Fr (S k)). lia.
    - congruence.
    - exact L.
  Qed.

  Lemma repartition_ok a n_core old d m f blank s0 : a_options a <> [] -> n_parts_prev a <> n_core ->
    (0 < n_steps_per_frame a)%nat -> PartitionAndShuffle old n_core = Some (m, f) -> NewParts m n_core = Some blank ->
    shaped blank -> valid s0 -> stores f s0 ->
    forall j, let state := states Update (t_start a) (dt_of a) s0 in
    exists s d', Main_until j a n_core old d = Some (s, (i_frame_of a + j / n_steps_per_frame a)%nat, d')
      /\ valid s /\ same s (state j)
      /\ (forall k, (1 <= k <= j / n_steps_per_frame a)%nat ->
            has_frame d' (i_frame_of a + k) (state (k * n_steps_per_frame a)%nat))
      /\ d_mesh d' = Some m
      /\ forall n, n <> "shuffled"%string ->
           (forall k, (1 <= k <= j / n_steps_per_frame a)%nat -> n <> frame_name (i_frame_of a + k)) ->
           lookup n (d_files d') = lookup n (d_files d).
  Proof.
    intros Ho Np Hs Hp Hn Hb V0 Sf j state.
    unfold Model_Driver.Main_until, start, partition, is_first, read_frame.
    destruct (Nat.eqb_spec (n_parts_prev a) n_core) as [|_]; [contradiction|]. rewrite Hp. cbn [bind fst snd d_mesh negb].
    rewrite Hn. cbn [bind]. destruct (a_options a) as [|o os] eqn:Eo; [congruence|].
    cbn [d_files lookup]. rewrite String.eqb_refl. cbn [bind].
    destruct (Sf blank Hb) as (s1 & R1 & V1 & E1). rewrite R1. cbn [bind fst snd].
    destruct (loop_ok a s0 (mkDisk (Some m) (("shuffled"%string, f) :: d_files d)) (i_frame_of a) Hs V0 s1 V1 E1 j)
      as (s' & d' & F & V' & E' & Fr & M & L).
    rewrite F. exists s', d'. split; [reflexivity|]. split; [exact V'|]. split; [exact E'|]. split; [exact Fr|].
    split; [exact M|]. intros n Nn Nf. rewrite L by exact Nf. cbn [d_files lookup].
    destruct (String.eqb_spec n "shuffled"); [contradiction|reflexivity].
  Qed.

  Lemma continued_dt a k n_core : (k < n_frames a)%nat -> (0 < n_steps_per_frame a)%nat ->
    dt_of (continued a k n_core) = dt_of a.
  Proof.
    intros Lk P. unfold continued, dt_of, n_steps. cbn [t_start t_stop n_frames n_steps_per_frame].
    set (m := n_steps_per_frame a) in *. set (n := n_frames a) in *. set (T := t_stop a - t_start a).
    replace (t_stop a - (t_start a + INR (k * m) * (T / INR (n * m)))) with (T - INR (k * m) * (T / INR (n * m)))
      by (unfold T; ring).
    assert (H1 : INR (n * m) <> 0) by (apply not_0_INR; nia).
    assert (H2 : INR ((n - k) * m) <> 0) by (apply not_0_INR; nia).
    apply (Rmult_eq_reg_r (INR ((n - k) * m))); [|exact H2].
    unfold Rdiv at 1. rewrite Rmult_assoc, Rinv_l, Rmult_1_r by exact H2.
    rewrite Nat.mul_sub_distr_r, minus_INR by nia. field. exact H1.
  Qed.

  (** any number of restarts after an interrupted first run *)
  Notation run_sessions := (run_sessions PartitionAndShuffle NewParts Approximate Reconstruct write read Update).

  Lemma sessions_ok a n_core old m blank s0 : (0 < n_steps_per_frame a)%nat -> NewParts m n_core = Some blank ->
    shaped blank -> valid s0 -> let state := states Update (t_start a) (dt_of a) s0 in
    forall l last last' d, d_mesh d = Some m -> (last <= n_frames a)%nat ->
    (forall k, (k <= last)%nat -> has_frame d k (state (k * n_steps_per_frame a)%nat)) ->
    sessions a l last = Some last' ->
    exists d', run_sessions a n_core old l d = Some d' /\ d_mesh d' = Some m /\ (last <= last' <= n_frames a)%nat
      /\ (forall k, (k <= last')%nat -> has_frame d' k (state (k * n_steps_per_frame a)%nat))
      /\ forall n, (forall k, (k <= last')%nat -> n <> frame_name k) -> lookup n (d_files d') = lookup n (d_files d).
  Proof.
    intros P Hn Hb V0 state. induction l as [|[k0 j] l IH]; intros last last' d Hm Hl Fr E.
    - injection E as <-. exists d. cbn [run_sessions]. auto 10.
    - cbn [sessions] in E. destruct (Nat.leb_spec k0 last) as [L1|]; [|discriminate E].
      destruct (Nat.leb_spec (k0 * n_steps_per_frame a + j) (n_steps a)) as [L2|]; [|discriminate E]. cbn [andb] in E.
      cbn [run_sessions].
      destruct (restart_ok (continued a k0 n_core) k0 n_core old d m blank (state (k0 * n_steps_per_frame a)%nat)
        eq_refl P Hm Hn Hb (states_valid _ _ _ _ V0) (Fr k0 L1) j) as (s & d1 & R & Vs & Es & Fr1 & M1 & Lo).
      rewrite R. cbn [bind snd]. cbn [continued n_steps_per_frame t_start] in Fr1, Lo.
      assert (Hq : (k0 + j / n_steps_per_frame a <= n_frames a)%nat).
      { unfold n_steps in L2. pose proof (Nat.mul_div_le j (n_steps_per_frame a) ltac:(lia)). nia. }
      assert (Fr2 : forall k, (k <= Nat.max last (k0 + j / n_steps_per_frame a))%nat ->
        has_frame d1 k (state (k * n_steps_per_frame a)%nat)).
      { intros k Hk. destruct (Nat.le_gt_cases (S k0) k) as [Gk|Gk].
        - destruct (Nat.le_gt_cases k (k0 + j / n_steps_per_frame a)) as [Hk2|Hk2].
          + specialize (Fr1 (k - k0)%nat ltac:(lia)). replace (k0 + (k - k0))%nat with k in Fr1 by lia.
            eapply has_frame_same; [|exact Fr1]. unfold state.
            rewrite continued_dt by lia. rewrite states_shift.
            replace (k0 * n_steps_per_frame a + (k - k0) * n_steps_per_frame a)%nat with (k * n_steps_per_frame a)%nat by nia.
            apply (same_refl _ _ _ _ _ SO).
          + destruct (Fr k ltac:(lia)) as (f & Lf & Sf). exists f. split; [|exact Sf]. rewrite Lo; [exact Lf|].
            intros k' Hk' En. apply frame_name_inj in En. lia.
        - destruct (Fr k ltac:(lia)) as (f & Lf & Sf). exists f. split; [|exact Sf]. rewrite Lo; [exact Lf|].
          intros k' Hk' En. apply frame_name_inj in En. lia. }
      destruct (IH (Nat.max last (k0 + j / n_steps_per_frame a)) last' d1 M1 ltac:(lia) Fr2 E) as (d' & R' & M' & B & Fr' & L').
      exists d'. split; [exact R'|]. split; [exact M'|]. split; [lia|]. split; [exact Fr'|].
      intros n Hn'. rewrite L' by exact Hn'. apply Lo. intros k Hk. apply Hn'. lia.
  Qed.

  (** without the number of parts the frames are not read *)
  Lemma loop_agrees a l : forall s i (d d' : Disk File Mesh),
    agrees (foldM (step write Update a) l (s, i, d)) (foldM (step write Update a) l (s, i, d')).
  Proof.
    induction l as [|x l IH]; intros s i d d'; [cbn; auto|]. cbn [foldM]. unfold step at 1 3.
    destruct (Nat.eqb _ 0).
    - unfold write_frame. destruct (write _) as [[s1 f]|]; cbn [bind fst snd]; [apply IH|exact I].
    - cbn [bind]. apply IH.
  Qed.
  Lemma not_read a n_core old d d' j : n_parts_prev a <> n_core ->
    agrees (Main_until j a n_core old d) (Main_until j a n_core old d').
  Proof.
    intros H. unfold Model_Driver.Main_until, start, partition, read_frame.
    destruct (Nat.eqb_spec (n_parts_prev a) n_core) as [|_]; [contradiction|]. cbn [negb].
    destruct (PartitionAndShuffle old n_core) as [[m f]|]; cbn [bind fst snd d_mesh]; [|exact I].
    destruct (NewParts m n_core) as [s|]; cbn [bind]; [|exact I]. destruct (is_first a).
    - unfold write_frame. destruct (write _) as [[s1 g]|]; cbn [bind fst snd]; [|exact I]. apply loop_agrees.
    - cbn [d_files lookup]. rewrite String.eqb_refl. cbn [bind]. destruct (read f s) as [s1|]; cbn [bind fst snd]; [|exact I].
      apply loop_agrees.
  Qed.

  (** ** The forces *)
  Context {Csv : Type}.
  Variable Forces : State -> R -> Csv.

  Lemma to_frame_ok m q : (0 < m)%nat -> forall fuel r, (1 <= r <= m)%nat -> (m - r < fuel)%nat \/ r = m ->
    to_frame fuel m (q * m + r) = (S q * m)%nat.
  Proof.
    intros P. induction fuel as [|fuel IH]; intros r Hr Hf.
    - cbn [to_frame]. nia.
    - cbn [to_frame]. destruct (Nat.eq_dec r m) as [->|Nr].
      + replace (q * m + m)%nat with (S q * m)%nat by nia. rewrite Nat.mod_mul by lia. reflexivity.
      + rewrite Nat.add_comm, Nat.mod_add, Nat.mod_small by lia. destruct (Nat.eqb_spec r 0); [lia|].
        replace (S (r + q * m)) with (q * m + S r)%nat by lia. apply IH; lia.
  Qed.

  Notation forces_of := (forces_of valid same Forces).
  Lemma forces_loop_ok a k0 d (S0 : nat -> State) : (0 < n_steps_per_frame a)%nat ->
    (forall i, (i <= n_frames a)%nat -> has_frame d (k0 + i) (S0 i)) ->
    forall n q fuel s out, (q + n = n_frames a)%nat -> (n < fuel)%nat -> shaped s ->
    exists new, forces_loop read Forces fuel a s (k0 + q) (q * n_steps_per_frame a + 1) d out = Some (new ++ out)
      /\ Forall2 (fun x i => forces_of k0 x i (S0 i) (t_start a + INR ((i - 1) * n_steps_per_frame a) * dt_of a)) (rev new) (seq (S q) n).
  Proof.
    intros P Fr. induction n as [|n IH]; intros q fuel s out Hq Hf Hs.
    - destruct fuel as [|fuel]; [lia|]. cbn [forces_loop]. destruct (Nat.leb_spec (q * n_steps_per_frame a + 1) (n_steps a)).
      + unfold n_steps in *. nia.
      + exists []. split; [reflexivity|constructor].
    - destruct fuel as [|fuel]; [lia|]. cbn [forces_loop].
      destruct (Nat.leb_spec (q * n_steps_per_frame a + 1) (n_steps a)) as [_|Hlt]; [|unfold n_steps in *; nia].
      rewrite (to_frame_ok _ q P) by lia.
      destruct (Fr (S q) ltac:(lia)) as (f & Lf & Sf). replace (k0 + S q)%nat with (S (k0 + q)) in * by lia.
      rewrite Lf. cbn [bind]. destruct (Sf s Hs) as (s' & Rs & Vs & Es). rewrite Rs. cbn [bind].
      destruct (IH (S q) fuel s' ((frame_name (S (k0 + q)), Forces s' (t_curr_of a (q * n_steps_per_frame a + 1))) :: out)
        ltac:(lia) ltac:(lia) (valid_shaped _ _ _ _ _ SO _ Vs)) as (new & E & F).
      replace (k0 + S q)%nat with (S (k0 + q)) in E by lia.
      replace (S (S q * n_steps_per_frame a)) with (S q * n_steps_per_frame a + 1)%nat by lia. rewrite E.
      exists (new ++ [(frame_name (S (k0 + q)), Forces s' (t_curr_of a (q * n_steps_per_frame a + 1)))]).
      split; [rewrite <- app_assoc; reflexivity|]. rewrite rev_app_distr. cbn [rev app seq]. constructor; [|exact F].
      split; [cbn [fst]; f_equal; lia|]. exists s'. split; [exact Vs|]. split; [exact Es|]. cbn [snd]. f_equal.
      unfold t_curr_of. replace (q * n_steps_per_frame a + 1 - 1)%nat with ((S q - 1) * n_steps_per_frame a)%nat by nia. ring.
  Qed.

  Lemma forces_ok a k0 rest n_core old d m blank (S0 : nat -> State) : a_options a = k0 :: n_core :: rest ->
    (0 < n_steps_per_frame a)%nat -> d_mesh d = Some m -> NewParts m n_core = Some blank -> shaped blank ->
    (forall i, (i <= n_frames a)%nat -> has_frame d (k0 + i) (S0 i)) ->
    exists s new, Main_forces PartitionAndShuffle NewParts read Forces a n_core old d
        = Some (new ++ [(frame_name k0, Forces s (t_start a))])
      /\ valid s /\ same s (S0 0%nat)
      /\ Forall2 (fun x i => forces_of k0 x i (S0 i) (t_start a + INR ((i - 1) * n_steps_per_frame a) * dt_of a)) (rev new) (seq 1 (n_frames a)).
  Proof.
    intros Ho P Hm Hn Hb Fr. unfold Main_forces, partition, read_frame, i_frame_of, n_parts_prev. rewrite Ho. cbn [nth].
    rewrite Nat.eqb_refl. cbn [bind negb]. rewrite Hm. cbn [bind]. rewrite Hn. cbn [bind].
    destruct (Fr 0%nat ltac:(lia)) as (f & Lf & Sf). rewrite Nat.add_0_r in Lf. rewrite Lf. cbn [bind].
    destruct (Sf blank Hb) as (s & Rs & Vs & Es). rewrite Rs. cbn [bind]. exists s.
    destruct (forces_loop_ok a k0 d S0 P Fr (n_frames a) 0 (S (n_steps a)) s [(frame_name k0, Forces s (t_start a))]
      ltac:(lia) ltac:(unfold n_steps; nia) (valid_shaped _ _ _ _ _ SO _ Vs)) as (new & E & F).
    cbn [Nat.mul Nat.add] in E. rewrite Nat.add_0_r in E. exists new. auto.
  Qed.
End Driver.
