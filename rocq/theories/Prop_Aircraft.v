(** Frames, line-triangle intersection, blades, rotors and the part of a blade in a cell. *)
From Coq Require Import Reals List Lra Psatz ZArith Lia Permutation.
From Verif Require Import Arrays Vec3 Model_Aircraft Spec_Aircraft Proof_Aircraft Proof_Blade_cell.
Import ListNotations.
Open Scope R_scope.

(** C42: every sequence of rotations leaves an orthonormal, right-handed frame; rotations about the
    same axis add up *)
Theorem C42_frames : (forall ts, right_handed (fold_left turn ts default_frame)) /\
  forall f a b, RotateX b (RotateX a f) = RotateX (a + b) f /\ RotateY b (RotateY a f) = RotateY (a + b) f /\
    RotateZ b (RotateZ a f) = RotateZ (a + b) f.
Proof. split; [intros; apply rotations_right_handed, default_right_handed|exact rotations_add]. Qed.
(** a quarter turn takes x to y and y to -x *)
Example C42_example : RotateZ 90 default_frame = mkFrame (V 0 1 0) (V (-1) 0 0) (V 0 0 1).
Proof.
  unfold RotateZ, CosSin, default_frame. assert (deg2rad 90 = PI / 2) as -> by (unfold deg2rad; field).
  rewrite cos_PI2, sin_PI2. cbn. f_equal; apply vec_eq; cbn; ring.
Qed.
(** and the axis of each rotation stays where it is, while the other two turn by the right angle *)
Theorem C42_angle : forall f d, right_handed f ->
  fX (RotateX d f) = fX f /\ fY (RotateY d f) = fY f /\ fZ (RotateZ d f) = fZ f /\
  (dot (fY (RotateX d f)) (fY f) = cos (deg2rad d) /\ dot (fY (RotateX d f)) (fZ f) = sin (deg2rad d)) /\
  (dot (fZ (RotateY d f)) (fZ f) = cos (deg2rad d) /\ dot (fZ (RotateY d f)) (fX f) = sin (deg2rad d)) /\
  (dot (fX (RotateZ d f)) (fX f) = cos (deg2rad d) /\ dot (fX (RotateZ d f)) (fY f) = sin (deg2rad d)).
Proof.
  intros f d [A [B [C [D [E [F _]]]]]]. destruct f as [[x1 x2 x3] [y1 y2 y3] [z1 z2 z3]].
  unfold RotateX, RotateY, RotateZ, CosSin, dot in *. cbn in *.
  set (c := cos (deg2rad d)). set (s := sin (deg2rad d)).
  repeat split.
  - transitivity (c * (y1*y1+y2*y2+y3*y3) + s * (y1*z1+y2*z2+y3*z3)); [ring|rewrite B, E; ring].
  - transitivity (c * (y1*z1+y2*z2+y3*z3) + s * (z1*z1+z2*z2+z3*z3)); [ring|rewrite C, E; ring].
  - transitivity (c * (z1*z1+z2*z2+z3*z3) + s * (z1*x1+z2*x2+z3*x3)); [ring|rewrite C, F; ring].
  - transitivity (c * (z1*x1+z2*x2+z3*x3) + s * (x1*x1+x2*x2+x3*x3)); [ring|rewrite A, F; ring].
  - transitivity (c * (x1*x1+x2*x2+x3*x3) + s * (x1*y1+x2*y2+x3*y3)); [ring|rewrite A, D; ring].
  - transitivity (c * (x1*y1+x2*y2+x3*y3) + s * (y1*y1+y2*y2+y3*y3)); [ring|rewrite B, D; ring].
Qed.

(** C43: the ratio reported is the one at which the segment meets the triangle, unless the segment is
    in the plane of the triangle *)
Theorem C43_intersect : forall p q a b c, ~ (in_plane a b c p /\ in_plane a b c q) ->
  forall t, Intersect (vsub a p) (vsub b p) (vsub c p) (vsub q p) = Some t <-> meets p q a b c t.
Proof. exact intersect_correct. Qed.
(** the triangle in the plane x = 3; the segment from (0,0,0) to (4,0,0) *)
Example C43_example : Intersect (V 3 2 0) (V 3 (-2) 2) (V 3 (-2) (-2)) (V 4 0 0) = Some (3 / 4).
Proof.
  apply (Intersect_hit _ _ _ _ (2 / 3) (1 / 3) (1 / 3)); try lra.
  - unfold det3, dot, cross; cbn; lra.
  - apply vec_eq; cbn; lra.
Qed.

(** C55: fails; the weights of the two sections are exchanged *)
Definition two_sections : list (Station unit) := [mkStation 0 1 0 tt; mkStation 1 3 0 tt].
Theorem C55_interpolation_refuted : exists (l : list (Station unit)) (ratio : R) (d : SectionData unit),
  well_placed l /\ 0 <= ratio <= 1 /\ GetSection l ratio = Some d /\
  exists s0 s1, l = [s0; s1] /\ y_value s0 < ratio * GetSpan l < y_value s1 /\
    ~ on_line (y_value s0) (chord s0) (y_value s1) (chord s1) (ratio * GetSpan l) (s_chord d).
Proof.
  destruct (get_section_spec two_sections (1 / 4)) as [d [E H]]; [discriminate| |lra|].
  { unfold well_placed, two_sections. cbn. lra. }
  exists two_sections, (1 / 4), d. split; [unfold well_placed, two_sections; cbn; lra|]. split; [lra|]. split; [exact E|].
  eexists _, _. split; [reflexivity|]. unfold GetSpan, two_sections in *. cbn [last y_value chord] in *. split; [lra|].
  destruct H as [[l0 [s [l1 [E1 [Y _]]]]]|[l0 [s0 [s1 [l1 [E1 [Y [Hc _]]]]]]]].
  - exfalso. destruct l0 as [|? [|? [|]]]; try discriminate; injection E1; intros; subst; cbn in Y; lra.
  - destruct l0 as [|? [|? [|]]]; try discriminate; injection E1; intros; subst; cbn in Y, Hc.
    unfold on_line in *. cbn in *. lra.
Qed.
(** what holds: the installed values at the installed positions, and between two of them the straight
    line through their values exchanged *)
Theorem C55_interpolation_partial : forall A (l : list (Station A)) ratio, l <> [] -> well_placed l -> 0 <= ratio <= 1 ->
  let y := ratio * GetSpan l in
  exists d, GetSection l ratio = Some d /\
  ((exists l0 s l1, l = l0 ++ s :: l1 /\ y_value s = y /\ s_chord d = chord s /\ s_twist d = twist s) \/
   exists l0 s0 s1 l1, l = l0 ++ s0 :: s1 :: l1 /\ y_value s0 < y < y_value s1 /\
     on_line (y_value s0) (chord s1) (y_value s1) (chord s0) y (s_chord d) /\
     on_line (y_value s0) (twist s1) (y_value s1) (twist s0) y (s_twist d)).
Proof. exact @get_section_spec. Qed.
(** so the chord at a quarter of the span is 2.5, not 1.5 *)
Example C55_example : exists d, GetSection two_sections (1 / 4) = Some d /\ s_chord d = 5 / 2.
Proof.
  destruct (get_section_spec two_sections (1 / 4)) as [d [E H]]; [discriminate| |lra|].
  { unfold well_placed, two_sections. cbn. lra. }
  exists d. split; [exact E|]. unfold GetSpan, two_sections in *. cbn [last y_value chord] in *.
  destruct H as [[l0 [s [l1 [E1 [Y _]]]]]|[l0 [s0 [s1 [l1 [E1 [Y [Hc _]]]]]]]].
  - exfalso. destruct l0 as [|? [|? [|]]]; try discriminate; injection E1; intros; subst; cbn in Y; lra.
  - destruct l0 as [|? [|? [|]]]; try discriminate; injection E1; intros; subst; cbn in Y, Hc.
    unfold on_line in *. cbn in *. lra.
Qed.

(** C56: positions start at 0 and increase; the call that would break this throws *)
Theorem C56_sections_ordered : forall A,
  (forall ss : list (Station A), well_placed (fold_left try_install ss [])) /\
  (forall (s : Station A) l l', well_placed l -> InstallSection s l = Some l' -> well_placed l' /\ l' = l ++ [s]) /\
  (forall (s : Station A) l, InstallSection s l = None <->
    (l = [] /\ y_value s <> 0) \/ exists l0 x, l = l0 ++ [x] /\ y_value s <= y_value x).
Proof.
  intros A. split; [|split].
  - intros. apply try_install_invariant. split; exact I.
  - exact install_invariant.
  - exact install_throws.
Qed.
(** sections at 1 (refused), 0, 2, 1 (refused) and 3 *)
Example C56_example : map y_value (fold_left try_install
   [mkStation 1 9 0 tt; mkStation 0 1 0 tt; mkStation 2 1 0 tt; mkStation 1 9 0 tt; mkStation 3 1 0 tt] [])
  = [0; 2; 3].
Proof.
  cbn [fold_left try_install]. unfold try_install, InstallSection.
  repeat (cbn [y_value last app map];
    match goal with |- context [Req_EM_T ?a ?b] => destruct (Req_EM_T a b); [try (exfalso; lra)|try (exfalso; lra)]
                  | |- context [Rge_dec ?a ?b] => destruct (Rge_dec a b); [try (exfalso; lra)|try (exfalso; lra)] end).
  reflexivity.
Qed.

(** C57: direction of the inflow plus twist, between -180 and 180 degrees; so the index of the table of
    the SC1095 airfoil is inside *)
Theorem C57_angle_of_attack : forall twist u w, u <> 0 -> -360 <= twist <= 360 ->
  exists phi, direction u w phi /\ same_angle (GetAngleOfAttack twist u w) (phi + twist) /\
  -180 <= GetAngleOfAttack twist u w <= 180 /\
  (0 <= SC1095_index (GetAngleOfAttack twist u w) < SC1095_size)%Z.
Proof.
  intros twist u w N T. exists (inflow u w). destruct (attack_angle twist u w N T) as [B S].
  split; [apply inflow_direction; exact N|]. split; [exact S|]. split; [exact B|]. apply table_index. exact B.
Qed.
(** wind from behind, no twist: (-1, 0) is the direction of -180 degrees; a twist of -10 wraps to 170 *)
Example C57_example : GetAngleOfAttack 0 (-1) 0 = -180 /\ GetAngleOfAttack (-10) (-1) 0 = 170.
Proof.
  assert (rad2deg (atan (0 / -1)) = 0) as Z.
  { replace (0 / -1) with 0 by field. rewrite atan_0. unfold rad2deg. field. apply PI_neq0. }
  unfold GetAngleOfAttack. rewrite Z. destruct (Rlt_dec (-1) 0); [|lra]. destruct (Rgt_dec 0 0); [lra|].
  split.
  - destruct (Rlt_dec (0 - 180 + 0) (-180)); [lra|]. destruct (Rlt_dec 180 (0 - 180 + 0)); lra.
  - destruct (Rlt_dec (0 - 180 + -10) (-180)); [|lra]. destruct (Rlt_dec (0 - 180 + -10) 0); lra.
Qed.

(** C58: drag against the wind, lift across it, nothing along the blade *)
Theorem C58_force : forall f (left_hand : bool) twist chord lift drag vs rho vel,
  right_handed f -> -360 <= twist <= 360 ->
  let v := vsub vel vs in
  let ex := if left_hand then vneg (fX f) else fX f in
  let u := dot v ex in let w := dot v (fZ f) in
  let speed := sqrt (u * u + w * w) in
  let F := GetForce f left_hand twist chord lift drag vs rho vel in
  let deg := GetAngleOfAttack twist u w in
  u <> 0 ->
  dot F (vadd (vscale (u / speed) ex) (vscale (w / speed) (fZ f))) = - (1 / 2) * rho * (speed * speed) * chord * drag deg /\
  dot F (vsub (vscale (u / speed) (fZ f)) (vscale (w / speed) ex)) = - (1 / 2) * rho * (speed * speed) * chord * lift deg /\
  dot F (fY f) = 0.
Proof. exact force_decomposition. Qed.
(** with non-negative density, chord and drag coefficient the force takes energy from the wind *)
Theorem C58_dissipation : forall f (left_hand : bool) twist chord lift drag vs rho vel,
  right_handed f -> -360 <= twist <= 360 -> 0 <= rho -> 0 <= chord -> (forall d, 0 <= drag d) ->
  let v := vsub vel vs in
  dot v (if left_hand then vneg (fX f) else fX f) <> 0 ->
  dot (GetForce f left_hand twist chord lift drag vs rho vel) v <= 0.
Proof.
  intros f lh twist chord lift drag vs rho vel RH T Hr Hc Hd v N.
  destruct (force_decomposition f lh twist chord lift drag vs rho vel RH T N) as [E1 [E2 E3]].
  fold v in E1, E2. set (F := GetForce f lh twist chord lift drag vs rho vel) in *.
  set (ex := if lh then vneg (fX f) else fX f) in *.
  set (u := dot v ex) in *. set (w := dot v (fZ f)) in *. set (s := sqrt (u * u + w * w)) in *.
  set (deg := GetAngleOfAttack twist u w) in *.
  assert (0 < u * u + w * w) as P by nra.
  assert (0 < s) as Ps by (apply sqrt_lt_R0; exact P).
  assert (s * s = u * u + w * w) as Ss by (apply sqrt_sqrt; lra).
  (* v is its components in the frame *)
  assert (v = vadd (vscale u ex) (vadd (vscale (dot v (fY f)) (fY f)) (vscale w (fZ f)))) as Ev.
  { apply frame_components. exact RH. }
  rewrite Ev.
  assert (dot F (vadd (vscale u ex) (vadd (vscale (dot v (fY f)) (fY f)) (vscale w (fZ f)))) =
    s * dot F (vadd (vscale (u / s) ex) (vscale (w / s) (fZ f))) + dot v (fY f) * dot F (fY f)) as ->.
  { generalize (dot v (fY f)). intros k. clear - Ps. destruct F as [F1 F2 F3], ex as [e1 e2 e3], (fY f) as [y1 y2 y3], (fZ f) as [z1 z2 z3].
    unfold dot. cbn. field. lra. }
  rewrite E1, E3.
  pose proof (Hd deg) as Pd.
  assert (0 <= rho * (s * s) * chord * drag deg) as K.
  { apply Rmult_le_pos; [|exact Pd]. apply Rmult_le_pos; [|exact Hc]. apply Rmult_le_pos; [exact Hr|nra]. }
  assert (0 <= s * (rho * (s * s) * chord * drag deg)) by (apply Rmult_le_pos; lra). lra.
Qed.
(** the code's Linear airfoil has such a drag coefficient *)
Example C58_example : forall c d, 0 <= c -> 0 <= Linear_Drag c d.
Proof. intros. unfold Linear_Drag. apply Rmult_le_pos; [auto|apply Rabs_pos]. Qed.

(** C59: fails; the azimuth of a time already asked for is not computed again *)
Definition still_rotor : RotorState := mkRotor [] default_frame v0 0 0 0 0.
Theorem C59_azimuth_refuted : exists r cs t,
  let r' := fold_left call (cs ++ [CallUpdateAzimuth t]) r in
  r_azimuth r' <> asked_initial (r_initial r) cs + t * asked_omega (r_omega r) cs.
Proof.
  exists still_rotor, [CallUpdateAzimuth 1; CallSetRevolutionsPerSecond 1], 1.
  cbn [fold_left app call]. unfold UpdateAzimuth at 2. cbn [r_time still_rotor].
  destruct (Req_EM_T 0 1); [lra|]. unfold SetRevolutionsPerSecond, SetAzimuth, UpdateAzimuth. cbn [r_time r_azimuth].
  destruct (Req_EM_T 1 1); [|lra]. unfold asked_initial, asked_omega. cbn. lra.
Qed.
(** what holds: for a time that was not asked for before; and each blade is where it should be *)
Theorem C59_azimuth_partial : forall r cs t, r_time r <> t -> ~ In (CallUpdateAzimuth t) cs ->
  let r' := fold_left call (cs ++ [CallUpdateAzimuth t]) r in
  r_azimuth r' = asked_initial (r_initial r) cs + t * asked_omega (r_omega r) cs.
Proof.
  intros r cs t H N r'. destruct (history cs r t H N) as [A [B [C _]]].
  unfold r'. rewrite fold_left_app. cbn [fold_left call]. rewrite update_fresh by exact A. rewrite B, C. reflexivity.
Qed.
(** and asking twice in a row changes nothing *)
Theorem C59_azimuth_again : forall t r, UpdateAzimuth t (UpdateAzimuth t r) = UpdateAzimuth t r.
Proof. exact update_again. Qed.
(** two revolutions per second from 30 degrees, after a quarter of a second *)
Example C59_example : r_azimuth (fold_left call
  [CallSetInitialAzimuth 30; CallSetRevolutionsPerSecond 2; CallUpdateAzimuth (1 / 4)] still_rotor) = 210.
Proof.
  pose proof (C59_azimuth_partial still_rotor [CallSetInitialAzimuth 30; CallSetRevolutionsPerSecond 2] (1 / 4)) as H.
  cbn [app] in H. rewrite H; [unfold asked_initial, asked_omega; cbn; lra|cbn; lra|].
  intros [E|[E|[]]]; discriminate.
Qed.

(** C60: every blade of every live rotor refers to it, after any history *)
Theorem C60_blades_refer_home : forall es m, foldM event es (fun _ => None) = Some m -> blades_refer_home m.
Proof. intros es m E. apply (events_home es (fun _ => None) m); [intros a bs H; discriminate|exact E]. Qed.
(** rotor 1 with two blades, copied to 2, 2 moved to 3 *)
Example C60_example : option_map (fun m => (m 1%nat, m 2%nat, m 3%nat))
  (foldM event [Construct 1; InstallBlade 1 7; InstallBlade 1 8; CopyConstruct 2 1; MoveConstruct 3 2] (fun _ => None))
  = Some (Some [1; 1], Some [], Some [3; 3])%nat.
Proof. vm_compute. reflexivity. Qed.

(** C61: fails: for a blade starting in the cell and leaving it at 3/4 the part outside is returned;
    for a blade inside the cell nothing *)
Definition tetA := V 3 2 0. Definition tetB := V 3 (-2) 2. Definition tetC := V 3 (-2) (-2). Definition tetD := V (-1) 0 0.
Lemma tet_line x t : in_tetrahedron tetA tetB tetC tetD (between v0 (V x 0 0) t) <-> -1 <= x * t <= 3.
Proof.
  split.
  - intros [k [l [m [n [K [L [M [N [S E]]]]]]]]]. pose proof (f_equal vx E) as E1. cbn in E1. lra.
  - intros H. exists ((1 + x * t) / 8), ((1 + x * t) / 16), ((1 + x * t) / 16), ((3 - x * t) / 4).
    repeat split; try lra. apply vec_eq; cbn; lra.
Qed.
Lemma tet_hits x : 0 < x ->
  face_hits v0 (V x 0 0) (tetrahedron_faces tetA tetB tetC tetD) =
  [None; None; None; if Rle_dec 3 x then Some (3 / x) else None].
Proof.
  intros P. unfold face_hits, tetrahedron_faces. cbn [map].
  assert (forall v, vsub v v0 = v) as Z by (intros []; apply vec_eq; cbn; ring). rewrite !Z.
  repeat f_equal.
  - apply (Intersect_miss _ _ _ _ 0 0 (- x)); [unfold det3, dot, cross; cbn; lra|apply vec_eq; cbn; lra|lra].
  - apply (Intersect_miss _ _ _ _ 0 0 (- x)); [unfold det3, dot, cross; cbn; lra|apply vec_eq; cbn; lra|lra].
  - apply (Intersect_miss _ _ _ _ 0 0 (- x)); [unfold det3, dot, cross; cbn; lra|apply vec_eq; cbn; lra|lra].
  - destruct (Rle_dec 3 x).
    + apply (Intersect_hit _ _ _ _ (x / 6) (x / 12) (x / 12)); try lra.
      * unfold det3, dot, cross; cbn; lra.
      * apply vec_eq; cbn; lra.
      * field. lra.
    + apply (Intersect_miss _ _ _ _ (x / 6) (x / 12) (x / 12)); [unfold det3, dot, cross; cbn; lra|apply vec_eq; cbn; lra|lra].
Qed.
Theorem C61_blade_in_cell_refuted : exists A B C D p,
  det3 (vsub A D) (vsub B D) (vsub C D) <> 0 /\
  (exists q alpha beta r s, (forall t, in_tetrahedron A B C D (between p q t) <-> alpha <= t <= beta) /\
    Rotorcraft_Intersect (face_hits p q (tetrahedron_faces A B C D)) = (r, s) /\
    r < s /\ in_tetrahedron A B C D (between p q 0) /\
    forall t, r < t <= s -> ~ in_tetrahedron A B C D (between p q t)) /\
  (exists q, (forall t, 0 <= t <= 1 -> in_tetrahedron A B C D (between p q t)) /\
    Rotorcraft_Intersect (face_hits p q (tetrahedron_faces A B C D)) = (-1, -1)).
Proof.
  exists tetA, tetB, tetC, tetD, v0. split; [unfold det3, dot, cross; cbn; lra|]. split.
  - exists (V 4 0 0), (-1 / 4), (3 / 4), (3 / 4), 1.
    split; [intros t; rewrite tet_line; lra|]. split.
    + rewrite tet_hits by lra. destruct (Rle_dec 3 4); [|lra].
      unfold Rotorcraft_Intersect. rewrite hits_none. cbn [found flat_map].
      assert (Valid (3 / 4) = true) as V1 by (apply valid_iff; lra). assert (Valid 1 = true) as V2 by (apply valid_iff; lra).
      rewrite V1. cbn [app]. rewrite V1, minus_one_invalid. cbn [andb negb]. destruct (Rlt_dec (3 / 4) (1 / 2)); [lra|].
      rewrite V2. destruct (Rgt_dec (3 / 4) 1); [lra|reflexivity].
    + split; [lra|]. split; [apply tet_line; lra|]. intros t Ht. rewrite tet_line. lra.
  - exists (V 2 0 0). split; [intros t Ht; apply tet_line; lra|].
    rewrite tet_hits by lra. destruct (Rle_dec 3 2); [lra|].
    unfold Rotorcraft_Intersect. rewrite hits_none. cbn [found flat_map app]. rewrite minus_one_invalid. reflexivity.
Qed.
(** what holds, for a tetrahedron crossed in general position: right if both ends are outside, if the
    blade ends outside and leaves in its first half, or starts outside and enters in its second half *)
Theorem C61_blade_in_cell_partial : forall A B C D p q alpha beta faces,
  det3 (vsub A D) (vsub B D) (vsub C D) <> 0 ->
  alpha < beta -> (forall t, in_tetrahedron A B C D (between p q t) <-> alpha <= t <= beta) ->
  (forall a b c, In (a, b, c) (tetrahedron_faces A B C D) -> ~ (in_plane a b c p /\ in_plane a b c q)) ->
  (forall f g t, t = alpha \/ t = beta ->
    In f (tetrahedron_faces A B C D) -> In g (tetrahedron_faces A B C D) ->
    in_face f (between p q t) -> in_face g (between p q t) -> f = g) ->
  Permutation faces (tetrahedron_faces A B C D) ->
  ~ (alpha < 0 /\ 1 < beta) -> (alpha < 0 -> 0 <= beta -> beta < 1 / 2) -> (1 < beta -> alpha <= 1 -> 1 / 2 <= alpha) ->
  let (r, s) := Rotorcraft_Intersect (face_hits p q faces) in describes alpha beta r s.
Proof.
  intros A B C D p q alpha beta faces N O I Ac On Pm G1 G2 G3.
  apply (blade_part alpha beta (face_hits p q faces)); auto.
  apply (tetra_crossings A B C D N p q alpha beta O I Ac On faces Pm).
Qed.
(** a blade through two faces, the second found first *)
Example C61_example : Rotorcraft_Intersect [None; Some (3 / 4); Some (1 / 4); None] = (1 / 4, 3 / 4).
Proof.
  unfold Rotorcraft_Intersect. rewrite hits_none. cbn [found flat_map app].
  assert (Valid (3 / 4) = true) as V1 by (apply valid_iff; lra). assert (Valid (1 / 4) = true) as V2 by (apply valid_iff; lra).
  rewrite V1, V2. cbn [app]. rewrite V1, V2. cbn [andb negb]. rewrite ?V1, ?V2. destruct (Rgt_dec (3 / 4) (1 / 4)); [reflexivity|lra].
Qed.

(** C68: after setting the azimuth the blades are equally spaced, point along their own y axes from
    the rotor's origin and have the right length *)
Theorem C68_blades_spaced : forall deg r i b, right_handed (r_frame r) -> nth_error (r_blades r) i = Some b ->
  exists b', nth_error (r_blades (SetAzimuth deg r)) i = Some b' /\
  b_azimuth b' = deg + INR i * (360 / INR (length (r_blades r))) /\
  b_frame b' = RotateZ (b_azimuth b') (r_frame r) /\ right_handed (b_frame b') /\
  b_p b' = vadd (r_origin r) (vscale (b_root b) (fY (b_frame b'))) /\
  b_q b' = vadd (r_origin r) (vscale (b_root b + b_span b) (fY (b_frame b'))) /\
  b_pq b' = vsub (b_q b') (b_p b') /\ dot (b_pq b') (b_pq b') = b_span b * b_span b /\
  b_root b' = b_root b /\ b_span b' = b_span b.
Proof.
  intros deg r i b RH E. eexists. split; [apply set_azimuth_blades; exact E|].
  destruct (blade_points (r_frame r) (r_origin r) (deg + INR i * (360 / INR (length (r_blades r)))) b RH) as [A [_ [C [D [F [_ G]]]]]].
  split; [reflexivity|]. split; [reflexivity|]. split; [exact A|]. split; [exact D|]. split; [exact F|].
  split; [reflexivity|]. split; [exact G|]. split; reflexivity.
Qed.
Example C68_example :
  let b := mkBlade 1 2 0 default_frame v0 v0 v0 in
  map b_azimuth (r_blades (SetAzimuth 10 (mkRotor [b; b; b; b] default_frame v0 0 0 0 0))) = [10; 100; 190; 280].
Proof.
  cbn [SetAzimuth r_blades set_azimuths map b_azimuth Blade_SetAzimuth length].
  unfold SetAzimuth. cbn [r_blades set_azimuths map]. unfold Blade_SetAzimuth. cbn [b_azimuth length INR].
  repeat f_equal; field.
Qed.

Print Assumptions C42_frames.
Print Assumptions C42_angle.
Print Assumptions C43_intersect.
Print Assumptions C55_interpolation_refuted.
Print Assumptions C55_interpolation_partial.
Print Assumptions C56_sections_ordered.
Print Assumptions C57_angle_of_attack.
Print Assumptions C58_force.
Print Assumptions C58_dissipation.
Print Assumptions C59_azimuth_refuted.
Print Assumptions C59_azimuth_partial.
Print Assumptions C59_azimuth_again.
Print Assumptions C60_blades_refer_home.
Print Assumptions C61_blade_in_cell_refuted.
Print Assumptions C61_blade_in_cell_partial.
Print Assumptions C68_blades_spaced.
