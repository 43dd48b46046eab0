(** A rotor with one blade of length 8, at rest in a wind of speed 1, that crosses a tetrahedron along a length of 2. *)
From Coq Require Import Reals List Arith Lia Lra Bool String.
From Verif Require Import Vec3 Arrays RSum Model_Aircraft Spec_Aircraft Proof_Aircraft Proof_Blade_cell Model_Dofs Model_DG Spec_DG
  Model_Source Spec_Source Proof_Source.
Import ListNotations.
Open Scope R_scope.

Definition ta := V 0 (-1) (-1). Definition tb := V 0 3 (-1). Definition tc := V 0 (-1) 3. Definition td := V 4 (-1) (-1).
(** one cell: constant basis function 1/2 (its volume is 4), density 1, velocity (0, -1, 0) *)
Definition wind_cell : cell :=
  Cell 0 1 (fun _ => v0) (fun _ => 4) (fun _ _ => / 2) (fun _ _ => v0)
    (fun _ k => match k with 0%nat => 1 | 2%nat => -1 | _ => 0 end) (fun _ _ => v0).
Definition wind_corners : cell -> list (vec * vec * vec) := fun _ => tetrahedron_faces ta tb tc td.
Definition wind_part : part := Part [wind_cell] [] [] (fun _ => []).
Definition no_conditions : fem := Fem [] [] [] [] [] [] 0.

(** lift 2 and drag 0 at every angle *)
Definition flat : airfoil := (fun _ => 2, fun _ => 0).
Definition two_stations : sections := [mkStation 0 1 0 flat; mkStation 8 1 0 flat].
Definition x_frame : Frame := mkFrame (V 0 (-1) 0) (V 1 0 0) (V 0 0 1).
Definition x_blade : BladeState := mkBlade 0 8 0 x_frame (V (-2) 0 0) (V 6 0 0) (V 8 0 0).
Definition x_rotor : rotor := Rotor (mkRotor [x_blade] default_frame (V (-2) 0 0) 0 0 0 0) [two_stations].

Lemma x_span : GetSpan two_stations = 8.
Proof. reflexivity. Qed.
Lemma x_placed : well_placed two_stations.
Proof. unfold well_placed, two_stations. cbn. lra. Qed.
Lemma x_rotor_ok : rotor_ok x_rotor.
Proof.
  intros b [<-|[]]. cbn [blade_ok]. split; [discriminate|]. split; [exact x_placed|]. split; [reflexivity|].
  unfold Blade_GetPoint, Blade_GetOrigin. cbn [x_rotor the_rotor r_origin x_blade b_p b_q b_pq b_span b_root b_frame x_frame fY].
  split; [|split]; apply vec_eq; cbn; lra.
Qed.

Lemma x_crossing : blade_in_cell wind_corners wind_cell x_blade = (1 / 4, 1 / 2).
Proof.
  unfold blade_in_cell, wind_corners, tetrahedron_faces. cbn [map x_blade b_p b_pq].
  rewrite (Intersect_hit (vsub tb (V (-2) 0 0)) _ _ _ (1 / 2) (1 / 2) 1 (1 / 2)); try lra;
    [|unfold det3, dot, cross; cbn; lra|apply vec_eq; cbn; lra].
  rewrite (Intersect_miss (vsub ta (V (-2) 0 0)) (vsub tc _) _ _ (-2) 0 2);
    [|unfold det3, dot, cross; cbn; lra|apply vec_eq; cbn; lra|lra].
  rewrite (Intersect_miss (vsub ta (V (-2) 0 0)) (vsub tb _) (vsub td _) _ (-2) 0 2);
    [|unfold det3, dot, cross; cbn; lra|apply vec_eq; cbn; lra|lra].
  rewrite (Intersect_hit (vsub ta (V (-2) 0 0)) (vsub tb _) (vsub tc _) _ 2 1 1 (1 / 4)); try lra;
    [|unfold det3, dot, cross; cbn; lra|apply vec_eq; cbn; lra].
  unfold Rotorcraft_Intersect. rewrite hits_none. cbn [found flat_map app].
  assert (V1 : Valid (1 / 2) = true) by (apply valid_iff; lra). assert (V2 : Valid (1 / 4) = true) by (apply valid_iff; lra).
  rewrite V1, V2. cbn [app]. rewrite V1, V2. cbn [andb negb]. rewrite ?V1, ?V2. cbn [andb negb]. rewrite ?V1, ?V2.
  destruct (Rgt_dec (1 / 2) (1 / 4)); [reflexivity|lra].
Qed.

(** half the density times the square of the speed times the lift, downwards *)
Lemma x_force d ratio : 0 <= ratio <= 1 -> GetSection two_stations ratio = Some d ->
  section_force (the_rotor x_rotor) x_blade two_stations ratio d 1 (V 0 (-1) 0) = V 0 0 (-1).
Proof.
  intros H E. assert (D : s_twist d = 0 /\ s_chord d = 1 /\ fst (s_left d) = flat /\ fst (s_right d) = flat /\ snd (s_left d) + snd (s_right d) = 1).
  { unfold GetSection in E. destruct (Rle_dec 0 ratio); [|lra]. destruct (Rle_dec ratio 1); [|lra]. rewrite x_span in E.
    cbn [two_stations lower_bound y_value] in E. destruct (Rlt_dec 0 (ratio * 8)); [|].
    - destruct (Rlt_dec 8 (ratio * 8)); [lra|]. cbn [bind y_value] in E. destruct (Req_EM_T 8 (ratio * 8)); inversion E; cbn; repeat split; lra.
    - cbn [bind y_value] in E. destruct (Req_EM_T 0 (ratio * 8)); [|discriminate]. inversion E; cbn; repeat split; lra. }
  destruct D as (T & C & L & R & W). unfold section_force, GetForce. rewrite T, C, L, R.
  assert (RotateLeftHand (the_rotor x_rotor) = false) as ->.
  { unfold RotateLeftHand. cbn [x_rotor the_rotor r_omega]. destruct (Rlt_dec 0 0); [lra|reflexivity]. }
  assert (GetVelocity (b_frame x_blade) (r_omega (the_rotor x_rotor)) (b_root x_blade) (GetSpan two_stations) ratio = v0) as ->.
  { unfold GetVelocity, deg2rad. cbn [x_rotor the_rotor r_omega]. apply vec_eq; cbn; lra. }
  assert (Ev : vsub (V 0 (-1) 0) v0 = V 0 (-1) 0) by (apply vec_eq; cbn; lra). rewrite Ev.
  cbn [x_blade b_frame x_frame fX fZ].
  assert (Eu : dot (V 0 (-1) 0) (V 0 (-1) 0) = 1) by (unfold dot; cbn; lra).
  assert (Ew : dot (V 0 (-1) 0) (V 0 0 1) = 0) by (unfold dot; cbn; lra). rewrite Eu, Ew.
  assert (GetAngleOfAttack 0 1 0 = 0) as ->.
  { unfold GetAngleOfAttack. replace (0 / 1) with 0 by field. rewrite atan_0. unfold rad2deg.
    replace (0 / PI * 180) with 0 by (field; apply PI_neq0).
    destruct (Rlt_dec 1 0); [lra|]. destruct (Rlt_dec (0 + 0) (-180)); [lra|]. destruct (Rlt_dec 180 (0 + 0)); lra. }
  unfold CosSin, deg2rad. replace ((0 - 0) * PI / 180) with 0 by field. rewrite cos_0, sin_0.
  unfold mix. cbn [fst snd flat].
  assert (M : 2 * snd (s_left d) + 2 * snd (s_right d) = 2) by lra. rewrite M. apply vec_eq; cbn; lra.
Qed.

Lemma wind_part_ok : part_ok wind_part /\ (forall c, In c (local_cells wind_part) -> basis_ok 1 c).
Proof.
  unfold part_ok, wind_part. split.
  - cbn -[v0 IZR]. repeat split; try (intros; contradiction).
    + repeat constructor; cbn; intuition discriminate.
    + intros c [<-|[]]; cbn; lia.
  - intros c [<-|[]]. exists (/2). repeat split; try lra. intros j L. replace j with 0%nat by lia. cbn. field.
Qed.

Lemma x_update : rotor_update 0 x_rotor = x_rotor.
Proof.
  unfold rotor_update, UpdateAzimuth. cbn [x_rotor the_rotor r_time]. destruct (Req_EM_T 0 0); [reflexivity|lra].
Qed.
Lemma x_load_at point x : 0 <= fst point <= 1 -> load_at wind_cell (the_rotor x_rotor) x_blade two_stations point = Some x ->
  l_force x = V 0 0 (-1).
Proof.
  destruct point as [ratio w]. cbn [fst load_at]. intros H E.
  destruct (GetSection two_stations ratio) as [d|] eqn:Ed; [|discriminate]. cbn [bind] in E.
  destruct (section_origin _ _ _ ratio) as [xyz|]; [|discriminate]. cbn [bind] in E.
  apply some_eq in E. subst x. cbn [l_force]. unfold GetSourceValue. cbn [fst].
  assert (flow_velocity (c_value wind_cell xyz) = V 0 (-1) 0) as ->.
  { unfold flow_velocity. cbn [wind_cell c_value]. apply vec_eq; cbn; field. }
  cbn [wind_cell c_value]. apply x_force; assumption.
Qed.
Lemma x_collect points l : (forall p, In p points -> 0 <= fst p <= 1) ->
  collect (fun p => option_map (fun x => [x]) (load_at wind_cell (the_rotor x_rotor) x_blade two_stations p)) points = Some l ->
  forall x, In x l -> l_force x = V 0 0 (-1).
Proof.
  revert l. induction points as [|p points IH]; intros l H E x I; cbn [collect] in E.
  - apply some_eq in E. subst l. contradiction.
  - destruct (load_at _ _ _ _ p) as [y|] eqn:Ey; [|discriminate]. cbn [option_map bind] in E.
    destruct (collect _ points) as [z|] eqn:Ez; [|discriminate]. cbn [bind app] in E. apply some_eq in E. subst l.
    destruct I as [<-|I]; [eapply x_load_at; [|eassumption]; apply H; left; reflexivity|].
    apply (IH z (fun q Iq => H q (or_intror Iq)) eq_refl x I).
Qed.
