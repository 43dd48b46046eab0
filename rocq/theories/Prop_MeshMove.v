(** C107 *)
From Coq Require Import Reals String List Arith Lia Lra.
From Verif Require Import Arrays Vec3 Model_Aircraft Model_Cgns Model_Sections Spec_Sections Proof_MergeSplit
  Model_MeshFile Spec_MeshFile Proof_MeshFile Model_MeshMove Spec_MeshMove Proof_MeshMove.
Import ListNotations.
Open Scope R_scope.

(** [Translate] moves every node by the same vector; distances and volumes stay. *)
Theorem C107_translate : forall dx dy dz bs, sized_mesh bs ->
  exists bs' g, Translate dx dy dz bs = Some bs' /\ moved_mesh g bs bs' /\
    (forall p, vsub (g p) p = V dx dy dz) /\ isometry g /\ keeps_volumes g.
Proof.
  intros dx dy dz bs H. destruct (each_zone_ok _ _ bs (translate_ok dx dy dz) H) as (bs' & E & M).
  exists bs', (shifted (V dx dy dz)). split; [auto|]. split; [auto|]. split; [|apply shifted_isometry].
  intros p. apply vec_eq; simpl; ring.
Qed.
Print Assumptions C107_translate.

(** [Dilate] keeps the centre and multiplies every distance from it, and between nodes. *)
Theorem C107_dilate : forall cx cy cz s bs, sized_mesh bs ->
  exists bs' g, Dilate cx cy cz s bs = Some bs' /\ moved_mesh g bs bs' /\
    g (V cx cy cz) = V cx cy cz /\
    (forall p, vsub (g p) (V cx cy cz) = vscale s (vsub p (V cx cy cz))) /\
    (forall p q, dist2 (g p) (g q) = s * s * dist2 p q) /\
    (forall a b c d, volume6 (g a) (g b) (g c) (g d) = s * s * s * volume6 a b c d).
Proof.
  intros cx cy cz s bs H. destruct (each_zone_ok _ _ bs (dilate_ok cx cy cz s) H) as (bs' & E & M).
  exists bs', (dilated (V cx cy cz) s). split; [auto|]. split; [auto|].
  split; [apply vec_eq; simpl; ring|]. split; [intros p; apply vec_eq; simpl; ring|].
  apply dilated_scales.
Qed.
Print Assumptions C107_dilate.

(** [RotateZ] adds the angle, given in degrees, to the polar angle of every node around the axis. *)
Theorem C107_rotate : forall ox oy degree bs, sized_mesh bs ->
  exists bs' g, File_RotateZ ox oy degree bs = Some bs' /\ moved_mesh g bs bs' /\
    (forall r phi w, g (V (ox + r * cos phi) (oy + r * sin phi) w)
       = V (ox + r * cos (phi + degree * (PI / 180))) (oy + r * sin (phi + degree * (PI / 180))) w) /\
    isometry g /\ keeps_volumes g.
Proof.
  intros ox oy degree bs H. destruct (each_zone_ok _ _ bs (rotate_ok ox oy degree) H) as (bs' & E & M).
  exists bs', (rotated ox oy (degree * PI / 180)). split; [auto|]. split; [auto|].
  split; [|apply rotated_isometry]. intros r phi w.
  replace (degree * (PI / 180)) with (degree * PI / 180) by field. apply rotated_polar.
Qed.
Print Assumptions C107_rotate.

(** Moves about the same centre compose, and the opposite move restores every node. *)
Theorem C107_compose : forall bs, sized_mesh bs ->
  (forall a b, exists b1 b2 g, File_RotateZ (fst a) (snd a) b bs = Some b1 /\
     File_RotateZ (fst a) (snd a) (- b) b1 = Some b2 /\ moved_mesh g bs b2 /\ forall p, g p = p) /\
  (forall ox oy a b, exists b1 b2 c g, File_RotateZ ox oy a bs = Some b1 /\
     File_RotateZ ox oy b b1 = Some b2 /\ File_RotateZ ox oy (a + b) bs = Some c /\
     moved_mesh g bs b2 /\ moved_mesh g bs c) /\
  (forall dx dy dz, exists b1 b2 g, Translate dx dy dz bs = Some b1 /\
     Translate (- dx) (- dy) (- dz) b1 = Some b2 /\ moved_mesh g bs b2 /\ forall p, g p = p) /\
  (forall cx cy cz s, s <> 0 -> exists b1 b2 g, Dilate cx cy cz s bs = Some b1 /\
     Dilate cx cy cz (/ s) b1 = Some b2 /\ moved_mesh g bs b2 /\ forall p, g p = p).
Proof.
  intros bs H.
  assert (HS : forall g b1, moved_mesh g bs b1 -> sized_mesh b1).
  { intros g b1 M b z Hb Hz. unfold moved_mesh in M.
    clear H. induction M as [|x y l l' (M1 & M2 & M3 & M4) F IH]; [easy|].
    destruct Hb as [->|Hb]; auto. clear - M4 Hz. induction M4 as [|u v l l' M F IH]; [easy|].
    destruct Hz as [->|Hz]; auto. apply M. }
  assert (HC : forall g h b1 b2, moved_mesh g bs b1 -> moved_mesh h b1 b2 -> moved_mesh (fun p => h (g p)) bs b2).
  { clear. intros g h b1 b2 M N. unfold moved_mesh in *. revert b2 N.
    induction M as [|x y l l' (M1 & M2 & M3 & M4) F IH]; intros b2 N; inversion N as [|y' w l2 l3 (N1 & N2 & N3 & N4) N5]; subst;
      constructor; auto.
    rewrite N1, N2, N3. do 3 (split; [auto|]). clear - M4 N4. revert N4. generalize (me_zones w).
    induction M4 as [|u v l l' M F IH]; intros ws N4; inversion N4 as [|v' w' l2 l3 N5 N6]; subst; constructor; auto.
    destruct M as (A1 & A2 & A3 & A4 & A5 & A6 & A7 & A8).
    destruct N5 as (B1 & B2 & B3 & B4 & B5 & B6 & B7 & B8).
    unfold moved. rewrite B1, B2, B3, B4, B5, B7. do 7 (split; [auto|]). intros k p Hp. auto. }
  assert (HE : forall g h b2, (forall p, g p = h p) -> moved_mesh g bs b2 -> moved_mesh h bs b2).
  { clear. intros g h b2 E M. unfold moved_mesh in *. eapply Forall2_impl; [|exact M]. simpl.
    intros a b (M1 & M2 & M3 & M4). do 3 (split; [auto|]). eapply Forall2_impl; [|exact M4]. simpl.
    intros u v (A1 & A2 & A3 & A4 & A5 & A6 & A7 & A8). unfold moved.
    do 7 (split; [auto|]). intros k p Hp. rewrite <- E. auto. }
  split; [|split; [|split]].
  - intros (ox & oy) b. simpl. destruct (each_zone_ok _ _ bs (rotate_ok ox oy b) H) as (b1 & E1 & M1).
    destruct (each_zone_ok _ _ b1 (rotate_ok ox oy (- b)) (HS _ _ M1)) as (b2 & E2 & M2).
    exists b1, b2. eexists. split; [exact E1|]. split; [exact E2|]. split; [exact (HC _ _ _ _ M1 M2)|].
    intros p. simpl. rewrite rotated_add. replace (b * PI / 180 + - b * PI / 180) with 0 by field.
    unfold rotated. rewrite cos_0, sin_0. apply vec_eq; simpl; ring.
  - intros ox oy a b. destruct (each_zone_ok _ _ bs (rotate_ok ox oy a) H) as (b1 & E1 & M1).
    destruct (each_zone_ok _ _ b1 (rotate_ok ox oy b) (HS _ _ M1)) as (b2 & E2 & M2).
    destruct (each_zone_ok _ _ bs (rotate_ok ox oy (a + b)) H) as (c & E3 & M3).
    exists b1, b2, c. eexists. split; [exact E1|]. split; [exact E2|]. split; [exact E3|]. split; [|exact M3].
    eapply HE; [|exact (HC _ _ _ _ M1 M2)]. intros p. simpl. rewrite rotated_add. f_equal. field.
  - intros dx dy dz. destruct (each_zone_ok _ _ bs (translate_ok dx dy dz) H) as (b1 & E1 & M1).
    destruct (each_zone_ok _ _ b1 (translate_ok (- dx) (- dy) (- dz)) (HS _ _ M1)) as (b2 & E2 & M2).
    exists b1, b2. eexists. split; [exact E1|]. split; [exact E2|]. split; [exact (HC _ _ _ _ M1 M2)|].
    intros p. apply vec_eq; simpl; ring.
  - intros cx cy cz s Hs. destruct (each_zone_ok _ _ bs (dilate_ok cx cy cz s) H) as (b1 & E1 & M1).
    destruct (each_zone_ok _ _ b1 (dilate_ok cx cy cz (/ s)) (HS _ _ M1)) as (b2 & E2 & M2).
    exists b1, b2. eexists. split; [exact E1|]. split; [exact E2|]. split; [exact (HC _ _ _ _ M1 M2)|].
    intros p. apply vec_eq; simpl; field; auto.
Qed.
Print Assumptions C107_compose.

(** A mesh that was read and moved can be written, and reading it gives the moved mesh. *)
Theorem C107_saved : forall zero std_sort, (forall l, sort_contract before l (std_sort l)) ->
  forall (f : list (FBase R)) bs bs', mesh_file f -> ReadBases zero RealDouble std_sort f = Some bs ->
  (exists dx dy dz, Translate dx dy dz bs = Some bs') \/ (exists cx cy cz s, Dilate cx cy cz s bs = Some bs') \/
  (exists ox oy degree, File_RotateZ ox oy degree bs = Some bs') ->
  exists f', Write RealDouble 0 3 bs' = Some f' /\ ReadBases zero RealDouble std_sort f' = Some bs'.
Proof.
  intros zero std_sort HSORT f bs bs' HF HR HM.
  assert (HS : sized_mesh bs).
  { intros b z Hb Hz. unfold ReadBases in HR. apply mapM_Forall2 in HR.
    clear HM HF. induction HR as [|x y l l' E F IH]; [easy|]. destruct Hb as [->|Hb]; auto.
    unfold read_base in E. destruct (mapM (read_zone zero RealDouble std_sort) (fe_zones x)) as [zs|] eqn:EZ;
      [|discriminate]. simpl in E. inversion E; subst b. simpl in Hz. clear - EZ Hz.
    apply mapM_Forall2 in EZ. induction EZ as [|u v l l' E F IH]; [easy|]. destruct Hz as [->|Hz]; auto.
    unfold read_zone in E.
    assert (HC : forall name l, read_coord zero name u = Some l -> List.length l = fz_nodes u).
    { intros name l0. unfold read_coord.
      destruct (find (fun p => String.eqb (fst p) name) (fz_coords u)) as [(n & l1)|].
      - destruct (Nat.eqb_spec (List.length l1) (fz_nodes u)); [|discriminate]. intros E1. inversion E1; subst; auto.
      - intros E1. inversion E1. apply repeat_length. }
    destruct (read_coord zero "CoordinateX" u) eqn:C1; [|discriminate]. simpl in E.
    destruct (read_coord zero "CoordinateY" u) eqn:C2; [|discriminate]. simpl in E.
    destruct (read_coord zero "CoordinateZ" u) eqn:C3; [|discriminate]. simpl in E.
    destruct (ReadAllSections std_sort (fz_sections u)); [|discriminate]. simpl in E.
    destruct (mapM read_boco (fz_bcs u)); [|discriminate]. simpl in E.
    destruct (mapM (read_soln RealDouble (fz_nodes u) (fz_cells u)) (fz_solns u)); [|discriminate].
    simpl in E. inversion E. unfold sized. simpl.
    rewrite (HC _ _ C1), (HC _ _ C2), (HC _ _ C3). auto. }
  destruct HM as [(dx & dy & dz & E)|[(cx & cy & cz & s & E)|(ox & oy & dg & E)]].
  - destruct (each_zone_ok _ _ bs (translate_ok dx dy dz) HS) as (b1 & E1 & M1).
    unfold Translate in E. assert (b1 = bs') by congruence. subst b1. eapply moved_saved; eauto.
  - destruct (each_zone_ok _ _ bs (dilate_ok cx cy cz s) HS) as (b1 & E1 & M1).
    unfold Dilate in E. assert (b1 = bs') by congruence. subst b1. eapply moved_saved; eauto.
  - destruct (each_zone_ok _ _ bs (rotate_ok ox oy dg) HS) as (b1 & E1 & M1).
    unfold File_RotateZ in E. assert (b1 = bs') by congruence. subst b1. eapply moved_saved; eauto.
Qed.
Print Assumptions C107_saved.

(** ** Example: a quarter turn of two nodes about (1, 0) *)
Definition zone_xy : MZone R := mkMZone "z" 0 [1; 3] [0; 0] [5; 7] [] [] [].

Example C107_nonvacuous : sized_mesh [mkMBase "b" 3 3 [zone_xy]] /\
  exists z', rotate 1 0 90 zone_xy = Some z' /\ position z' 0 = Some (V 1 0 5) /\
    position z' 1 = Some (V 1 2 7).
Proof.
  assert (HS : sized zone_xy) by (split; reflexivity). split.
  - intros b z [<-|[]] [<-|[]]. exact HS.
  - destruct (rotate_ok 1 0 90 zone_xy HS) as (z' & E & M). exists z'. split; [exact E|].
    destruct M as (_ & _ & _ & _ & _ & _ & _ & M).
    assert (EA : 90 * PI / 180 = PI / 2) by field.
    rewrite (M 0%nat (V 1 0 5) eq_refl), (M 1%nat (V 3 0 7) eq_refl). rewrite EA. unfold rotated.
    rewrite cos_PI2, sin_PI2. split; f_equal; apply vec_eq; simpl; ring.
Qed.

Example C107_saved_nonvacuous : exists bs b1,
  mesh_file [mkFBase "b" 3 3 [mkFZone "z" 2 0 [("CoordinateX"%string, [1; 3])] [] [] []]] /\
  ReadBases 0 RealDouble insertion_sort [mkFBase "b" 3 3 [mkFZone "z" 2 0 [("CoordinateX"%string, [1; 3])] [] [] []]]
    = Some bs /\ Translate 1 2 3 bs = Some b1 /\
  b1 = [mkMBase "b" 3 3 [mkMZone "z" 0 [1 + 1; 3 + 1] [0 + 2; 0 + 2] [0 + 3; 0 + 3] [] [] []]].
Proof.
  eexists _, _. split; [|split; [reflexivity|split; reflexivity]].
  split.
  - split; [repeat constructor; auto|]. intros x [<-|[]]. simpl. lia.
  - intros b [<-|[]]. split.
    + split; [repeat constructor; auto|]. intros x [<-|[]]. simpl. lia.
    + intros z [<-|[]]. unfold standard_zone. simpl.
      split; [intros name l [E|[]]; inversion E; reflexivity|].
      split; [split; [constructor|easy]|]. split; [easy|]. split; [split; [constructor|easy]|].
      split; [easy|]. split; [split; [constructor|easy]|easy].
Qed.
