(** C94, C95 and C96: the source term of rotors. *)
From Coq Require Import Reals List Arith Lia Lra Bool Permutation.
From Coquelicot Require Import Coquelicot.
From Verif Require Import Vec3 Arrays RSum Model_Aircraft Spec_Aircraft Proof_Aircraft Proof_Blade_cell Prop_Aircraft
  Model_Dofs Model_DG Spec_DG Proof_DG Spec_Gauss Model_Source Spec_Source Proof_Source Proof_SourceMain Sample_Source.
Import ListNotations.
Open Scope R_scope.

(** C94.  What [UpdateCoeff] adds to the coefficients of a cell is what the forces listed by [GetForces] give to the
    flow, tested with the basis functions in their points: nothing to the mass, the force times the length to the
    momentum, its power to the energy.  Nothing else is written, the rotors are left in the same state, and one fails
    if and only if the other does. *)
Theorem C94_source_is_force : forall N corners c t data rotors m,
  match GetForces corners c t rotors ([], [], []) with
  | Some (rotors', out) => exists l m', out = as_vectors l
      /\ UpdateCoeff N corners c t data rotors m = Some (rotors', m')
      /\ (forall j k, (j < N)%nat -> (k < 5)%nat ->
            m' (data + (j * 5 + k))%nat = m (data + (j * 5 + k))%nat
              + lsum l (fun x => l_length x * gives (l_force x) (flow_velocity (c_value c (l_point x))) k * c_basis c (l_point x) j))
      /\ (forall a, (a < data \/ data + N * 5 <= a)%nat -> m' a = m a)
  | None => UpdateCoeff N corners c t data rotors m = None
  end.
Proof.
  intros N corners c t data rotors m. rewrite forces_loads.
  pose proof (update_loads N corners c t data rotors m) as U. destruct (loads corners c t rotors) as [l|]; cbn [option_map].
  - destruct (UpdateCoeff N corners c t data rotors m) as [[rs m']|]; [|contradiction]. destruct U as [-> [U1 U2]].
    exists l, m'. split; [reflexivity|]. split; [reflexivity|]. split; [exact U1|exact U2].
  - destruct (UpdateCoeff N corners c t data rotors m); [contradiction|reflexivity].
Qed.
Print Assumptions C94_source_is_force.

(** C94.  [GetForces] appends to the vectors that it is given. *)
Theorem C94_appends : forall corners c t rotors forces points weights,
  GetForces corners c t rotors (forces, points, weights)
  = option_map (fun '(rs, (f, p, w)) => (rs, (forces ++ f, points ++ p, weights ++ w)))
      (GetForces corners c t rotors ([], [], [])).
Proof. intros. rewrite !forces_loads. destruct (loads corners c t rotors); reflexivity. Qed.
Print Assumptions C94_appends.

(** C94.  With blades whose sections were accepted and whose end points are up to date, no assertion fails. *)
Theorem C94_defined : forall corners c t rotors, (forall r, In r rotors -> rotor_ok r) ->
  exists rotors' out, GetForces corners c t rotors ([], [], []) = Some (rotors', out)
    /\ forall r, In r rotors' -> rotor_ok r.
Proof.
  intros corners c t rotors H. destruct (loads_some corners c t rotors H) as [l El]. rewrite forces_loads, El.
  eexists _, _. split; [reflexivity|]. intros r I. apply in_map_iff in I. destruct I as (r' & <- & I). apply rotor_update_ok, H, I.
Qed.
Print Assumptions C94_defined.

Lemma collect_app {A B} (f : A -> option (list B)) l l' :
  collect f (l ++ l') = match collect f l, collect f l' with Some x, Some y => Some (x ++ y) | _, _ => None end.
Proof.
  induction l as [|a l IH]; cbn [collect app]; [destruct (collect f l'); reflexivity|]. rewrite IH. unfold bind.
  destruct (f a); [|reflexivity]. destruct (collect f l); [|reflexivity]. destruct (collect f l'); [|reflexivity].
  rewrite app_assoc. reflexivity.
Qed.
(** C94.  A rotor that is installed adds its forces to those of the rotors before it. *)
Theorem C94_install : forall corners c t rotors r,
  GetForces corners c t (InstallRotor rotors r) ([], [], [])
  = match GetForces corners c t rotors ([], [], []), GetForces corners c t [r] ([], [], []) with
    | Some (rs, (f, p, w)), Some (rs', (f', p', w')) => Some (rs ++ rs', (f ++ f', p ++ p', w ++ w'))
    | _, _ => None
    end.
Proof.
  intros corners c t rotors r. rewrite !forces_loads. unfold loads, InstallRotor.
  rewrite map_app, collect_app. cbn [map].
  destruct (collect _ (map (rotor_update t) rotors)) as [l|]; [|reflexivity].
  destruct (collect _ [rotor_update t r]) as [l'|]; cbn [option_map push app]; [|reflexivity].
  rewrite !map_app. reflexivity.
Qed.
Print Assumptions C94_install.

(** C95.  The residual with a source is the residual without it plus the source; without a source it is the same. *)
Theorem C95_residual : forall N corners kDegrees s p rotors, part_ok p -> (forall r, In r rotors -> rotor_ok r) ->
  exists r0 rotors' r, GetResidualColumn 5 N kDegrees s p = Some r0
    /\ WithSource_GetResidualColumn N corners kDegrees s p (Rotors rotors) = Some (Rotors rotors', r)
    /\ (rotors' = rotors \/ rotors' = map (rotor_update (t_curr s)) rotors)
    /\ size r = size r0
    /\ forall c, In c (local_cells p) -> exists rs l,
         GetForces corners c (t_curr s) rotors ([], [], []) = Some (rs, as_vectors l)
         /\ forall j k, (j < N)%nat -> (k < 5)%nat ->
              at_ r (address 5 N (c_id c) j k) = at_ r0 (address 5 N (c_id c) j k)
                + lsum l (fun x => l_length x * gives (l_force x) (flow_velocity (c_value c (l_point x))) k * c_basis c (l_point x) j).
Proof. exact source_main. Qed.
Theorem C95_no_source : forall N corners kDegrees s p,
  WithSource_GetResidualColumn N corners kDegrees s p Dummy = option_map (pair Dummy) (GetResidualColumn 5 N kDegrees s p).
Proof. intros. unfold WithSource_GetResidualColumn. destruct (GetResidualColumn 5 N kDegrees s p); reflexivity. Qed.
Print Assumptions C95_residual.
Print Assumptions C95_no_source.

(** C95.  The rate of change of mass, momentum and energy in a part is what enters through its boundary and
    its interfaces, plus nothing, the sum of the forces, and the sum of their powers. *)
Theorem C95_balance : forall N corners kDegrees s p rotors src r,
  part_ok p -> (forall c, In c (local_cells p) -> basis_ok N c) -> (0 < N)%nat ->
  (forall r, In r rotors -> rotor_ok r) ->
  WithSource_GetResidualColumn N corners kDegrees s p (Rotors rotors) = Some (src, r) -> forall k, (k < 5)%nat ->
  exists ls, Forall2 (fun c l => exists rs, GetForces corners c (t_curr s) rotors ([], [], []) = Some (rs, as_vectors l)) (local_cells p) ls
  /\ lsum (local_cells p) (cell_integral 5 N r k)
  = - lsum (conditions s p) (fun '(fs, flux_at) => lsum fs (flux_through flux_at k))
    - lsum (ghost_faces p) (flux_through upwind_at k)
    + lsum (combine (local_cells p) ls)
        (fun '(c, l) => lsum l (fun x => l_length x * gives (l_force x) (flow_velocity (c_value c (l_point x))) k)).
Proof. exact total_main. Qed.
Print Assumptions C95_balance.

(** C96.  The forces of one blade in one cell: four points of the blade between the two ends found by [Intersect],
    lengths that add up to the length between them, and an exact integral of polynomials along the blade up to degree 7. *)
Theorem C96_points : forall corners c r b st r0 s0,
  blade_ok r (b, st) -> blade_in_cell corners c b = (r0, s0) -> r0 < s0 ->
  exists ratios l, GetForces_blade corners c r ([], [], []) (b, st) = Some (as_vectors l)
    /\ length l = 4%nat /\ map l_point l = map (between (b_p b) (b_q b)) ratios
    /\ (forall y, In y ratios -> r0 < y < s0)
    /\ lsum l l_length = (s0 - r0) * GetSpan st
    /\ forall co I, is_RInt (poly1 7 co) r0 s0 I ->
         lsum (combine ratios l) (fun '(y, x) => l_length x * poly1 7 co y) = GetSpan st * I.
Proof. exact points_main. Qed.
Print Assumptions C96_points.

(** C96 as stated is false: no force acts on a blade that is inside of a cell, and all forces on a blade that starts
    inside and leaves in its second half are in points outside of the cell. *)
Definition inside_blade (x : R) : BladeState := mkBlade 0 x 0 x_frame v0 (V x 0 0) (V x 0 0).
Definition inside_sections (x : R) : sections := [mkStation 0 1 0 flat; mkStation x 1 0 flat].
Definition inside_rotor : RotorState := mkRotor [] default_frame v0 0 0 0 0.
Lemma inside_ok x : 0 < x -> blade_ok inside_rotor (inside_blade x, inside_sections x).
Proof.
  intros P. cbn [blade_ok]. split; [discriminate|]. split; [unfold well_placed, inside_sections; cbn; lra|]. split; [reflexivity|].
  unfold Blade_GetPoint, Blade_GetOrigin. cbn [inside_rotor r_origin inside_blade b_p b_q b_pq b_span b_root b_frame x_frame fY].
  split; [|split]; apply vec_eq; cbn; lra.
Qed.
Lemma inside_hits x : blade_in_cell (fun _ => tetrahedron_faces tetA tetB tetC tetD) wind_cell (inside_blade x)
  = Rotorcraft_Intersect (face_hits v0 (V x 0 0) (tetrahedron_faces tetA tetB tetC tetD)).
Proof.
  unfold blade_in_cell, face_hits. cbn [inside_blade b_p b_pq].
  assert (vsub (V x 0 0) v0 = V x 0 0) as -> by (apply vec_eq; cbn; ring). reflexivity.
Qed.
Theorem C96_length_refuted : exists A B C D c r,
  det3 (vsub A D) (vsub B D) (vsub C D) <> 0 /\
  (exists b st, blade_ok r (b, st) /\ 0 < GetSpan st
     /\ (forall t, 0 <= t <= 1 -> in_tetrahedron A B C D (between (b_p b) (b_q b) t))
     /\ GetForces_blade (fun _ => tetrahedron_faces A B C D) c r ([], [], []) (b, st) = Some ([], [], [])) /\
  (exists b st l, blade_ok r (b, st) /\ in_tetrahedron A B C D (b_p b) /\ l <> []
     /\ GetForces_blade (fun _ => tetrahedron_faces A B C D) c r ([], [], []) (b, st) = Some (as_vectors l)
     /\ forall x, In x l -> ~ in_tetrahedron A B C D (l_point x)).
Proof.
  exists tetA, tetB, tetC, tetD, wind_cell, inside_rotor. split; [unfold det3, dot, cross; cbn; lra|]. split.
  - exists (inside_blade 2), (inside_sections 2). split; [apply inside_ok; lra|]. split; [unfold GetSpan; cbn; lra|].
    split; [intros t Ht; cbn [inside_blade b_p b_q]; apply tet_line; lra|].
    unfold GetForces_blade. rewrite inside_hits, tet_hits by lra. destruct (Rle_dec 3 2); [lra|].
    unfold Rotorcraft_Intersect. rewrite hits_none. cbn [found flat_map app]. rewrite minus_one_invalid. cbn [andb negb].
    destruct (Rge_dec (-1) (-1)); [reflexivity|lra].
  - assert (E : blade_in_cell (fun _ => tetrahedron_faces tetA tetB tetC tetD) wind_cell (inside_blade 4) = (3 / 4, 1)).
    { rewrite inside_hits, tet_hits by lra. destruct (Rle_dec 3 4); [|lra].
      unfold Rotorcraft_Intersect. rewrite hits_none. cbn [found flat_map].
      assert (Valid (3 / 4) = true) as V1 by (apply valid_iff; lra). assert (Valid 1 = true) as V2 by (apply valid_iff; lra).
      rewrite V1. cbn [app]. rewrite V1, minus_one_invalid. cbn [andb negb]. destruct (Rlt_dec (3 / 4) (1 / 2)); [lra|].
      rewrite V2. destruct (Rgt_dec (3 / 4) 1); [lra|reflexivity]. }
    destruct (points_main _ wind_cell inside_rotor (inside_blade 4) (inside_sections 4) (3 / 4) 1 (inside_ok 4 ltac:(lra)) E ltac:(lra))
      as (ratios & l & G & L & P & I & _).
    exists (inside_blade 4), (inside_sections 4), l. split; [apply inside_ok; lra|]. split.
    { cbn [inside_blade b_p]. replace v0 with (between v0 (V 4 0 0) 0) by (apply vec_eq; cbn; ring). apply tet_line; lra. }
    split; [intros ->; discriminate|]. split; [exact G|].
    intros x Ix. apply (in_map l_point) in Ix. rewrite P in Ix. apply in_map_iff in Ix. destruct Ix as (y & <- & Iy).
    cbn [inside_blade b_p b_q]. rewrite tet_line. pose proof (I y Iy). lra.
Qed.
Print Assumptions C96_length_refuted.

(** what holds: for a tetrahedron crossed in general position as in C61, the lengths add up to the length of the blade
    in the cell *)
Theorem C96_length_partial : forall A B C D corners c r b st alpha beta,
  blade_ok r (b, st) ->
  det3 (vsub A D) (vsub B D) (vsub C D) <> 0 ->
  alpha < beta -> (forall t, in_tetrahedron A B C D (between (b_p b) (b_q b) t) <-> alpha <= t <= beta) ->
  (forall x y z, In (x, y, z) (tetrahedron_faces A B C D) -> ~ (in_plane x y z (b_p b) /\ in_plane x y z (b_q b))) ->
  (forall f g t, t = alpha \/ t = beta ->
    In f (tetrahedron_faces A B C D) -> In g (tetrahedron_faces A B C D) ->
    in_face f (between (b_p b) (b_q b) t) -> in_face g (between (b_p b) (b_q b) t) -> f = g) ->
  Permutation (corners c) (tetrahedron_faces A B C D) ->
  ~ (alpha < 0 /\ 1 < beta) -> (alpha < 0 -> 0 <= beta -> beta < 1 / 2) -> (1 < beta -> alpha <= 1 -> 1 / 2 <= alpha) ->
  exists l, GetForces_blade corners c r ([], [], []) (b, st) = Some (as_vectors l)
    /\ lsum l l_length = inside_length alpha beta * GetSpan st.
Proof.
  intros A B C D corners c r b st alpha beta K N O I Ac On Pm G1 G2 G3.
  pose proof (C61_blade_in_cell_partial A B C D (b_p b) (b_q b) alpha beta (corners c) N O I Ac On Pm G1 G2 G3) as H.
  destruct (Rotorcraft_Intersect (face_hits (b_p b) (b_q b) (corners c))) as [r0 s0] eqn:E.
  assert (E' : blade_in_cell corners c b = (r0, s0)).
  { rewrite <- E. unfold blade_in_cell, face_hits. destruct K as (_ & _ & _ & _ & _ & ->). reflexivity. }
  pose proof (describes_length alpha beta r0 s0 O H) as L. destruct (Rlt_dec r0 s0) as [Lt|Ge].
  - destruct (points_main corners c r b st r0 s0 K E' Lt) as (ratios & l & G & _ & _ & _ & T & _).
    exists l. split; [exact G|]. rewrite T, L. reflexivity.
  - exists []. unfold GetForces_blade. rewrite E'. destruct (Rge_dec r0 s0); [|lra]. split; [reflexivity|]. rewrite <- L. cbn. ring.
Qed.
Print Assumptions C96_length_partial.

(** the blade of the sample: a force of 1 per length along a length of 2, downwards; no mass, no energy *)
Example C94_C95_C96_example :
  rotor_ok x_rotor /\ part_ok wind_part
  /\ exists src r, WithSource_GetResidualColumn 1 wind_corners 0 no_conditions wind_part (Rotors [x_rotor]) = Some (src, r)
     /\ map (fun k => lsum (local_cells wind_part) (cell_integral 5 1 r k)) [0; 1; 2; 3; 4]%nat = [0; 0; 0; -2; 0].
Proof.
  destruct wind_part_ok as [P B]. split; [exact x_rotor_ok|]. split; [exact P|].
  assert (H : forall r, In r [x_rotor] -> rotor_ok r) by (intros r [<-|[]]; exact x_rotor_ok).
  destruct (C95_residual 1 wind_corners 0 no_conditions wind_part [x_rotor] P H) as (r0 & rs' & r & _ & E & _).
  exists (Rotors rs'), r. split; [exact E|].
  destruct (blade_loads_ok wind_corners wind_cell (the_rotor x_rotor) x_blade two_stations (1 / 4) (1 / 2)
    (x_rotor_ok _ (or_introl eq_refl)) x_crossing ltac:(lra)) as (l & El & _ & _ & In01).
  pose proof (length_total wind_corners wind_cell (the_rotor x_rotor) x_blade two_stations (1 / 4) (1 / 2) l
    (x_rotor_ok _ (or_introl eq_refl)) x_crossing ltac:(lra) El) as T. rewrite x_span in T.
  assert (F : forall x, In x l -> l_force x = V 0 0 (-1)).
  { unfold blade_loads in El. rewrite x_crossing in El. destruct (Rlt_dec (1 / 4) (1 / 2)); [|lra].
    refine (x_collect _ l _ El). intros q Iq. pose proof (In01 q Iq). lra. }
  assert (G : GetForces wind_corners wind_cell 0 [x_rotor] ([], [], []) = Some ([x_rotor], as_vectors l)).
  { rewrite forces_loads. unfold loads. cbn [map collect]. rewrite x_update.
    change (r_all x_rotor) with [(x_blade, two_stations)]. cbn [collect]. rewrite El. cbn [bind option_map].
    rewrite !app_nil_r. reflexivity. }
  assert (S : forall k, (k < 5)%nat -> lsum (local_cells wind_part) (cell_integral 5 1 r k)
              = lsum l (fun x => l_length x * gives (V 0 0 (-1)) (V 0 (-1) 0) k)).
  { intros k K. destruct (C95_balance 1 wind_corners 0 no_conditions wind_part [x_rotor] _ r P B ltac:(lia) H E k K) as (ls & Fa & ->).
    cbn [wind_part local_cells ghost_faces no_conditions conditions solid_wall supersonic_inlet supersonic_outlet subsonic_inlet subsonic_outlet
      smart_boundary map app lsum] in *. inversion Fa as [|c' l' cs ls' (rs & G') Fa' E1 E2]. subst.
    inversion Fa'. subst. cbn [combine lsum]. cbn [t_curr no_conditions] in G'. rewrite G in G'.
    assert (M : as_vectors l = as_vectors l') by congruence. assert (l' = l) as ->.
    { unfold as_vectors in M. assert (M1 : map l_force l = map l_force l') by congruence.
      assert (M2 : map l_point l = map l_point l') by congruence. assert (M3 : map l_length l = map l_length l') by congruence.
      clear - M1 M2 M3. revert l' M1 M2 M3. induction l as [|[f p w] l IH]; intros [|[f' p' w'] l'] M1 M2 M3; try discriminate; [reflexivity|].
      cbn [map l_force l_point l_length] in *. f_equal; [congruence|]. apply IH; congruence. }
    rewrite Ropp_0, Rminus_0_r, Rplus_0_l, Rplus_0_r. apply lsum_ext. intros x Ix. rewrite (F x Ix). f_equal. f_equal.
    unfold flow_velocity. cbn [wind_cell c_value]. apply vec_eq; cbn; field. }
  cbn [map]. rewrite !S by lia. cbn [gives vx vy vz].
  assert (Z : forall a, lsum l (fun x => l_length x * a) = a * 2).
  { intros a. rewrite lsum_mul_r, T. field. }
  rewrite !Z. unfold dot. cbn [vx vy vz]. repeat f_equal; ring.
Qed.

(** the hypotheses of [C96_length_partial] hold for the sample: a quarter of the blade is inside *)
Example C96_length_example :
  (forall t, in_tetrahedron ta tb tc td (between (b_p x_blade) (b_q x_blade) t) <-> 1 / 4 <= t <= 1 / 2)
  /\ exists l, GetForces_blade wind_corners wind_cell (the_rotor x_rotor) ([], [], []) (x_blade, two_stations) = Some (as_vectors l)
     /\ lsum l l_length = 2.
Proof.
  assert (M : forall t, in_tetrahedron ta tb tc td (between (b_p x_blade) (b_q x_blade) t) <-> 1 / 4 <= t <= 1 / 2).
  { intros t. split.
    - intros (k & l & m & n & K & L & Mm & Nn & S & E).
      pose proof (f_equal vx E) as E1. pose proof (f_equal vy E) as E2. pose proof (f_equal vz E) as E3. cbn in E1, E2, E3. lra.
    - intros H. exists ((4 - 8 * t) / 4), (1 / 4), (1 / 4), ((8 * t - 2) / 4). repeat split; try lra. apply vec_eq; cbn; lra. }
  split; [exact M|].
  assert (F : forall x y z p, in_triangle x y z p -> forall a b c d : R, a * vx x + b * vy x + c * vz x = d ->
    a * vx y + b * vy y + c * vz y = d -> a * vx z + b * vy z + c * vz z = d -> a * vx p + b * vy p + c * vz p = d).
  { intros x y z p (l & m & n & _ & _ & _ & S & ->) a b c d E1 E2 E3. cbn.
    transitivity (l * (a * vx x + b * vy x + c * vz x) + m * (a * vx y + b * vy y + c * vz y) + n * (a * vx z + b * vy z + c * vz z));
      [ring|]. rewrite E1, E2, E3. replace (l * d + m * d + n * d) with ((l + m + n) * d) by ring. rewrite S. ring. }
  destruct (C96_length_partial ta tb tc td wind_corners wind_cell (the_rotor x_rotor) x_blade two_stations (1 / 4) (1 / 2)) as (l & G & T);
    try lra; try exact M.
  - exact (x_rotor_ok _ (or_introl eq_refl)).
  - unfold det3, dot, cross; cbn; lra.
  - unfold tetrahedron_faces. cbn [In]. intros x y z H [I1 I2]. unfold in_plane, det3, dot, cross in I1, I2.
    destruct H as [H|[H|[H|[H|[]]]]]; injection H as <- <- <-; cbn in I1, I2; lra.
  - unfold tetrahedron_faces. cbn [In]. intros f g t Ht H H' J J'.
    assert (X : forall f, In f (tetrahedron_faces ta tb tc td) -> in_face f (between (b_p x_blade) (b_q x_blade) t) ->
              (t = 1 / 4 /\ f = (ta, tb, tc)) \/ (t = 1 / 2 /\ f = (tb, tc, td))).
    { clear - Ht F. unfold tetrahedron_faces. cbn [In]. intros f [<-|[<-|[<-|[<-|[]]]]] J; unfold in_face in J.
      - pose proof (F _ _ _ _ J 1 1 1 2 ltac:(cbn; lra) ltac:(cbn; lra) ltac:(cbn; lra)) as Q. cbn in Q. right. split; [lra|reflexivity].
      - pose proof (F _ _ _ _ J 0 1 0 (-1) ltac:(cbn; lra) ltac:(cbn; lra) ltac:(cbn; lra)) as Q. cbn in Q. lra.
      - pose proof (F _ _ _ _ J 0 0 1 (-1) ltac:(cbn; lra) ltac:(cbn; lra) ltac:(cbn; lra)) as Q. cbn in Q. lra.
      - pose proof (F _ _ _ _ J 1 0 0 0 ltac:(cbn; lra) ltac:(cbn; lra) ltac:(cbn; lra)) as Q. cbn in Q. left. split; [lra|reflexivity]. }
    destruct (X f H J) as [[Q ->]|[Q ->]], (X g H' J') as [[Q' ->]|[Q' ->]]; try reflexivity; lra.
  - apply Permutation_refl.
  - exists l. split; [exact G|]. rewrite T, x_span. unfold inside_length.
    rewrite (Rmin_right 1 (1 / 2)), (Rmax_right 0 (1 / 4)), Rmax_right; lra.
Qed.
