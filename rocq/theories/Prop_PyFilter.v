(** C154, C155: the selective filter of the Python package *)
From Coq Require Import Reals List Arith ZArith Lia Lra.
From Verif Require Import Arrays RSum Model_PyFilter Spec_PyFilter Proof_PyFilter.
Import ListNotations.
Open Scope R_scope.

(** ** C154: what is filtered *)
Theorem py_filter_ring n old sigma :
  ((10 <= n)%nat -> exists new, filter true n old sigma = Some new /\ filtered_ring n sigma old new /\ rsum n new = rsum n old) /\
  ((n < 10)%nat -> filter true n old sigma = None).
Proof.
  split; [|apply filter_short]. intros H. destruct (filter_ring n old sigma H) as (new & E & F). exists new. split; [exact E|]. split; [exact F|]. exact (ring_sum n sigma old new H F).
Qed.
Print Assumptions py_filter_ring.
(** on a line the five values at each end are kept; straight lines are not changed at all *)
Theorem py_filter_line n old sigma : exists new, filter false n old sigma = Some new /\
  (forall i, (i < n)%nat -> (i < 5 \/ n <= i + 5)%nat -> new i = old i) /\
  (forall i, (5 <= i)%nat -> (i + 5 < n)%nat -> new i = old i - sigma * high_part (old i) (fun j => old (i + j)%nat) (fun j => old (i - j)%nat)) /\
  (forall a b, (forall i, (i < n)%nat -> old i = a + b * INR i) -> forall i, (i < n)%nat -> new i = old i).
Proof.
  destruct (filter_line n old sigma) as (new & E & F). exists new. split; [exact E|].
  assert (I : forall i, (5 <= i)%nat -> (i + 5 < n)%nat -> new i = old i - sigma * high_part (old i) (fun j => old (i + j)%nat) (fun j => old (i - j)%nat)).
  { intros i H H'. rewrite F. destruct (Nat.leb_spec 5 i), (Nat.ltb_spec (i + 5) n); try lia. reflexivity. }
  assert (K : forall i, (i < n)%nat -> (i < 5 \/ n <= i + 5)%nat -> new i = old i).
  { intros i _ H. rewrite F. destruct (Nat.leb_spec 5 i), (Nat.ltb_spec (i + 5) n); try lia; reflexivity. }
  split; [exact K|]. split; [exact I|]. intros a b L i Hi. destruct (Nat.lt_ge_cases i 5) as [H|H]; [apply K; [exact Hi|lia]|]. destruct (Nat.lt_ge_cases (i + 5) n) as [H'|H']; [|apply K; [exact Hi|lia]].
  rewrite (I i H H'). unfold high_part. cbn [rsum]. rewrite !L by lia. rewrite !plus_INR, !minus_INR by lia. cbn [weight]. change (INR 5) with (1 + 1 + 1 + 1 + 1). change (INR 4) with (1 + 1 + 1 + 1). change (INR 3) with (1 + 1 + 1). change (INR 2) with (1 + 1). change (INR 1) with 1. lra.
Qed.
Print Assumptions py_filter_line.
(** a peak on a ring of twelve points *)
Example py_filter_example : exists new, filter true 12 (fun i => if (i =? 1)%nat then 1 else 0) (1 / 2) = Some new /\
  new 1%nat = 1 - 0.234810479761700 / 2 /\ new 0%nat = 0.199250131285813 / 2 /\ new 11%nat = - 0.120198310245186 / 2 /\ new 7%nat = 0 /\ rsum 12 new = 1.
Proof.
  destruct (proj1 (py_filter_ring 12 (fun i => if (i =? 1)%nat then 1 else 0) (1 / 2)) ltac:(lia)) as (new & E & F & S). exists new. split; [exact E|]. assert (T : rsum 12 new = 1) by (rewrite S; cbn [rsum Nat.eqb]; lra).
  rewrite !F by lia. unfold high_part, ring_right, ring_left. cbn [rsum Nat.add Nat.sub Nat.modulo Nat.divmod fst snd Nat.eqb weight].
  split; [lra|]. split; [lra|]. split; [lra|]. split; [lra|]. exact T.
Qed.

(** ** C155: waves *)
Theorem py_filter_waves n m phi sigma : (10 <= n)%nat ->
  exists new, filter true n (wave n m phi) sigma = Some new /\
  forall i, (i < n)%nat -> new i = (1 - sigma * damping (2 * PI * INR m / INR n)) * wave n m phi i.
Proof.
  intros H. destruct (filter_ring n (wave n m phi) sigma H) as (new & E & F). exists new. split; [exact E|]. rewrite damping_is. exact (ring_wave n m phi sigma new H F).
Qed.
Print Assumptions py_filter_waves.
(** no wave is amplified, up to the rounding of the coefficients *)
Theorem py_filter_damping theta : damping theta = symbol theta /\ - / 10 ^ 32 <= damping theta <= 1 /\ damping 0 = 0 /\ damping PI = 1 /\
  (0.00000000032 <= 1 - cos theta -> 0 < damping theta) /\
  forall sigma, 0 <= sigma <= 1 -> Rabs (1 - sigma * damping theta) <= 1 + / 10 ^ 32.
Proof.
  assert (P : 0 < / 10 ^ 32) by (apply Rinv_0_lt_compat, pow_lt; lra).
  split; [apply damping_is|]. rewrite !damping_is, !symbol_is. pose proof (half_range theta) as H. pose proof (profile_bounds _ H) as B. split; [exact B|].
  split; [rewrite cos_0; unfold profile; lra|]. split; [rewrite cos_PI; unfold profile; lra|]. split; [intros L; apply profile_positive; lra|].
  intros sigma Hs. set (d := profile ((1 - cos theta) / 2)) in *. apply Rabs_le. split; nra.
Qed.
Print Assumptions py_filter_damping.
(** the wave of alternating signs is removed *)
Example py_filter_waves_example : exists new, filter true 12 (wave 12 6 0) 1 = Some new /\ wave 12 6 0 0 = 1 /\ new 0%nat = 0.
Proof.
  destruct (py_filter_waves 12 6 0 1 ltac:(lia)) as (new & E & F). exists new. split; [exact E|]. assert (W : wave 12 6 0 0 = 1).
  { unfold wave. replace (2 * PI * INR 6 * INR 0 / INR 12 + 0) with 0; [apply cos_0|]. cbn [INR]. field. } split; [exact W|].
  rewrite (F 0%nat) by lia. replace (2 * PI * INR 6 / INR 12) with PI by (cbn [INR]; field). destruct (py_filter_damping PI) as (_ & _ & _ & -> & _). ring.
Qed.
