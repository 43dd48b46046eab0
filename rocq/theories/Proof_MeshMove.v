(** Lemmas about the model of moving a mesh. *)
From Coq Require Import Reals String List Arith Lia Lra Bool.
From Verif Require Import Arrays Vec3 Model_Aircraft Model_Cgns Model_Sections Spec_Sections
  Model_MeshFile Spec_MeshFile Proof_MeshFile Proof_MeshFileZone Model_MeshMove Spec_MeshMove.
Import ListNotations.
Open Scope R_scope.

(** the points of a translation, of a dilation and of a rotation about a vertical axis *)
Definition shifted (d p : vec) : vec := vadd p d.
Definition dilated (c : vec) (s : R) (p : vec) : vec := vadd c (vscale s (vsub p c)).
Definition rotated (ox oy a : R) (p : vec) : vec :=
  V (ox + ((vx p - ox) * cos a - (vy p - oy) * sin a)) (oy + ((vx p - ox) * sin a + (vy p - oy) * cos a)) (vz p).

Lemma position_map (fx fy fw : R -> R) z k p : position z k = Some p ->
  position (with_coords z (map fx (mz_x z)) (map fy (mz_y z)) (map fw (mz_z z))) k
    = Some (V (fx (vx p)) (fy (vy p)) (fw (vz p))).
Proof.
  unfold position. simpl. rewrite !nth_error_map.
  destruct (nth_error (mz_x z) k), (nth_error (mz_y z) k), (nth_error (mz_z z) k); simpl; try discriminate.
  intros E. inversion E. auto.
Qed.

Lemma map_moved (fx fy fw : R -> R) g z : sized z ->
  (forall p, g p = V (fx (vx p)) (fy (vy p)) (fw (vz p))) ->
  moved g z (with_coords z (map fx (mz_x z)) (map fy (mz_y z)) (map fw (mz_z z))).
Proof.
  intros (S1 & S2) HG. unfold moved, sized. simpl. rewrite !map_length.
  do 5 (split; [auto|]). split; [split; auto|]. split; [auto|].
  intros k p H. rewrite HG. apply position_map. auto.
Qed.

Lemma translate_ok dx dy dz z : sized z -> exists z', translate dx dy dz z = Some z' /\
  moved (shifted (V dx dy dz)) z z'.
Proof. intros HS. eexists. split; [reflexivity|]. apply map_moved; auto. Qed.

Lemma dilate_ok cx cy cz s z : sized z -> exists z', dilate cx cy cz s z = Some z' /\
  moved (dilated (V cx cy cz) s) z z'.
Proof. intros HS. eexists. split; [reflexivity|]. apply map_moved; auto. Qed.

Lemma rotate_loop ox oy c s n : forall a x y, length x = length y -> (a + n <= length x)%nat ->
  exists x' y', foldM (rotate_node ox oy c s) (seq a n) (x, y) = Some (x', y') /\
    length x' = length x /\ length y' = length y /\
    forall k xk yk, nth_error x k = Some xk -> nth_error y k = Some yk ->
      if ((a <=? k)%nat && (k <? a + n)%nat)%bool
      then nth_error x' k = Some (ox + ((xk - ox) * c - (yk - oy) * s)) /\
           nth_error y' k = Some (oy + ((xk - ox) * s + (yk - oy) * c))
      else nth_error x' k = Some xk /\ nth_error y' k = Some yk.
Proof.
  induction n as [|n IH]; intros a x y HL HN; simpl.
  - exists x, y. repeat split; auto. intros k xk yk Hx Hy.
    destruct (Nat.leb_spec a k), (Nat.ltb_spec k (a + 0)); simpl; auto; lia.
  - destruct (nth_error_lt_some x a) as (xa & Hxa); [lia|].
    destruct (nth_error_lt_some y a) as (ya & Hya); [lia|].
    unfold rotate_node at 1. simpl. rewrite Hxa. simpl. rewrite Hya. simpl.
    unfold upd_opt. rewrite !(proj2 (Nat.ltb_lt _ _)) by lia. simpl.
    set (nx := ox + ((xa - ox) * c - (ya - oy) * s)). set (ny := oy + ((xa - ox) * s + (ya - oy) * c)).
    destruct (IH (S a) (upd x a nx) (upd y a ny)) as (x' & y' & E & L1 & L2 & H).
    { rewrite !upd_length. auto. } { rewrite upd_length. lia. }
    exists x', y'. rewrite !upd_length in *. split; [exact E|]. split; [auto|]. split; [auto|].
    intros k xk yk Hx Hy.
    destruct (Nat.eq_dec k a) as [->|Hk].
    + specialize (H a nx ny). rewrite !nth_error_upd_same in H by lia. specialize (H eq_refl eq_refl).
      destruct (Nat.leb_spec (S a) a); [lia|]. simpl in H.
      destruct (Nat.leb_spec a a); [|lia]. destruct (Nat.ltb_spec a (a + S n)); [|lia]. simpl.
      assert (xk = xa) by congruence. assert (yk = ya) by congruence. subst xk yk. exact H.
    + specialize (H k xk yk). rewrite !nth_error_upd_other in H by auto. specialize (H Hx Hy).
      replace (a + S n)%nat with (S a + n)%nat by lia.
      destruct (Nat.leb_spec a k), (Nat.leb_spec (S a) k); try lia; simpl in *; exact H.
Qed.

Lemma rotate_ok ox oy deg z : sized z -> exists z', rotate ox oy deg z = Some z' /\
  moved (rotated ox oy (deg * PI / 180)) z z'.
Proof.
  intros (S1 & S2). unfold rotate, CosSin.
  destruct (rotate_loop ox oy (cos (deg2rad deg)) (sin (deg2rad deg)) (length (mz_x z)) 0 (mz_x z) (mz_y z))
    as (x' & y' & E & L1 & L2 & H); [auto|lia|].
  rewrite E. simpl. eexists. split; [reflexivity|].
  unfold moved, sized. simpl. do 5 (split; [auto|]). split; [split; congruence|]. split; [auto|].
  intros k p. unfold position. simpl.
  destruct (nth_error (mz_x z) k) as [xk|] eqn:Ex; [|discriminate].
  destruct (nth_error (mz_y z) k) as [yk|] eqn:Ey; [|discriminate].
  destruct (nth_error (mz_z z) k) as [wk|] eqn:Ew; [|discriminate].
  intros EP. inversion EP; subst p. specialize (H k xk yk Ex Ey).
  pose proof (nth_error_some_lt _ _ _ Ex).
  destruct (Nat.ltb_spec k (0 + length (mz_x z))); [|lia]. simpl in H. destruct H as (-> & ->).
  reflexivity.
Qed.

Lemma each_zone_ok (move : MZone R -> option (MZone R)) g bs :
  (forall z, sized z -> exists z', move z = Some z' /\ moved g z z') -> sized_mesh bs ->
  exists bs', each_zone move bs = Some bs' /\ moved_mesh g bs bs'.
Proof.
  intros HM HS. unfold each_zone, moved_mesh.
  assert (HB : forall b, In b bs -> exists b', each_base move b = Some b' /\
     (me_name b' = me_name b /\ me_cell_dim b' = me_cell_dim b /\
      me_phys_dim b' = me_phys_dim b /\ Forall2 (moved g) (me_zones b) (me_zones b'))).
  { intros b Hb. destruct (Forall2_exists (fun z z' => move z = Some z' /\ moved g z z') (me_zones b)) as (zs & F).
    { intros z Hz. apply HM. apply (HS b z); auto. }
    unfold each_base. rewrite (Forall2_mapM _ _ zs).
    - simpl. eexists. split; [reflexivity|]. simpl. do 3 (split; [auto|]).
      eapply Forall2_impl; [|exact F]. simpl. tauto.
    - eapply Forall2_impl; [|exact F]. simpl. tauto. }
  destruct (Forall2_exists _ _ HB) as (bs' & F). exists bs'. split.
  - apply Forall2_mapM. eapply Forall2_impl; [|exact F]. simpl. tauto.
  - eapply Forall2_impl; [|exact F]. simpl. tauto.
Qed.

(** ** Geometry *)

Ltac geometry := unfold isometry, keeps_volumes, dist2, volume6, det3, cross, dot, vsub, vadd, vscale; simpl.

Lemma shifted_isometry d : isometry (shifted d) /\ keeps_volumes (shifted d).
Proof. unfold shifted. geometry. split; intros; ring. Qed.

Lemma dilated_scales c s : (forall p q, dist2 (dilated c s p) (dilated c s q) = s * s * dist2 p q) /\
  (forall a b e d, volume6 (dilated c s a) (dilated c s b) (dilated c s e) (dilated c s d)
     = s * s * s * volume6 a b e d).
Proof. unfold dilated. geometry. split; intros; ring. Qed.

Lemma rotated_isometry ox oy a : isometry (rotated ox oy a) /\ keeps_volumes (rotated ox oy a).
Proof.
  pose proof (sin2_cos2 a) as H. unfold Rsqr in H. unfold rotated. geometry. split.
  - intros p q.
    replace ((vx p - vx q) * (vx p - vx q) + (vy p - vy q) * (vy p - vy q) + (vz p - vz q) * (vz p - vz q))
      with ((sin a * sin a + cos a * cos a) * ((vx p - vx q) * (vx p - vx q) + (vy p - vy q) * (vy p - vy q))
        + (vz p - vz q) * (vz p - vz q)) by (rewrite H; ring). ring.
  - intros p q r t.
    set (u1 := vx q - vx p). set (u2 := vy q - vy p). set (u3 := vz q - vz p).
    set (v1 := vx r - vx p). set (v2 := vy r - vy p). set (v3 := vz r - vz p).
    set (w1 := vx t - vx p). set (w2 := vy t - vy p). set (w3 := vz t - vz p).
    transitivity (u3 * (v1 * w2 - v2 * w1) * (sin a * sin a + cos a * cos a)
      + (v3 * (w1 * u2 - w2 * u1) + w3 * (u1 * v2 - u2 * v1)) * (sin a * sin a + cos a * cos a)).
    + unfold u1, u2, u3, v1, v2, v3, w1, w2, w3. ring.
    + rewrite H. ring.
Qed.

Lemma rotated_polar ox oy a r phi w :
  rotated ox oy a (V (ox + r * cos phi) (oy + r * sin phi) w)
  = V (ox + r * cos (phi + a)) (oy + r * sin (phi + a)) w.
Proof. unfold rotated. simpl. rewrite cos_plus, sin_plus. apply vec_eq; simpl; ring. Qed.

Lemma rotated_add ox oy a b p : rotated ox oy b (rotated ox oy a p) = rotated ox oy (a + b) p.
Proof. unfold rotated. simpl. rewrite cos_plus, sin_plus. apply vec_eq; simpl; ring. Qed.

(** ** Saving the moved mesh *)

Lemma moved_zone_saved (zero : R) std_sort (HSORT : forall l, sort_contract before l (std_sort l)) g
    (z : FZone R) m m' : standard_zone z -> read_zone zero RealDouble std_sort z = Some m -> moved g m m' ->
  exists z1, standard_zone z1 /\ fz_name z1 = fz_name z /\ read_zone zero RealDouble std_sort z1 = Some m'.
Proof.
  intros HZ HR (M1 & M2 & M3 & M4 & M5 & (M6 & M7) & M8 & _).
  pose proof HZ as (HC & HSN & HS & HBN & HB & HON & HO).
  assert (L : length (mz_x m) = fz_nodes z).
  { unfold read_zone in HR. unfold read_coord at 1 in HR.
    destruct (find (fun p => String.eqb (fst p) "CoordinateX") (fz_coords z)) as [[nm l]|] eqn:E.
    - destruct (Nat.eqb_spec (length l) (fz_nodes z)) as [EL|]; [|discriminate]. simpl in HR.
      destruct (read_coord zero "CoordinateY" z); [|discriminate]. simpl in HR.
      destruct (read_coord zero "CoordinateZ" z); [|discriminate]. simpl in HR.
      destruct (ReadAllSections std_sort (fz_sections z)); [|discriminate]. simpl in HR.
      destruct (mapM read_boco (fz_bcs z)); [|discriminate]. simpl in HR.
      destruct (mapM (read_soln RealDouble (fz_nodes z) (fz_cells z)) (fz_solns z)); [|discriminate].
      simpl in HR. inversion HR. auto.
    - simpl in HR.
      destruct (read_coord zero "CoordinateY" z); [|discriminate]. simpl in HR.
      destruct (read_coord zero "CoordinateZ" z); [|discriminate]. simpl in HR.
      destruct (ReadAllSections std_sort (fz_sections z)); [|discriminate]. simpl in HR.
      destruct (mapM read_boco (fz_bcs z)); [|discriminate]. simpl in HR.
      destruct (mapM (read_soln RealDouble (fz_nodes z) (fz_cells z)) (fz_solns z)); [|discriminate].
      simpl in HR. inversion HR. simpl. apply repeat_length. }
  exists (mkFZone (fz_name z) (fz_nodes z) (fz_cells z)
    [("CoordinateX"%string, mz_x m'); ("CoordinateY"%string, mz_y m'); ("CoordinateZ"%string, mz_z m')]
    (fz_bcs z) (fz_sections z) (fz_solns z)).
  split; [|split; [auto|]].
  - unfold standard_zone. simpl. split; [|exact (conj HSN (conj HS (conj HBN (conj HB (conj HON HO)))))].
    intros name l [E|[E|[E|[]]]]; inversion E; subst; congruence.
  - unfold read_zone in *.
    destruct (read_coord zero "CoordinateX" z); [|discriminate]. simpl in HR.
    destruct (read_coord zero "CoordinateY" z); [|discriminate]. simpl in HR.
    destruct (read_coord zero "CoordinateZ" z); [|discriminate]. simpl in HR.
    unfold read_coord. simpl. rewrite M6, M7, M8, L, Nat.eqb_refl. simpl.
    destruct (ReadAllSections std_sort (fz_sections z)); [|discriminate]. simpl in *.
    destruct (mapM read_boco (fz_bcs z)); [|discriminate]. simpl in *.
    destruct (mapM (read_soln RealDouble (fz_nodes z) (fz_cells z)) (fz_solns z)); [|discriminate].
    simpl in *. inversion HR; subst m. simpl in *. f_equal. destruct m'; simpl in *. congruence.
Qed.

Lemma moved_saved (zero : R) std_sort (HSORT : forall l, sort_contract before l (std_sort l)) g
    (f : list (FBase R)) bs bs' : mesh_file f -> ReadBases zero RealDouble std_sort f = Some bs ->
  moved_mesh g bs bs' ->
  exists f', Write RealDouble 0 3 bs' = Some f' /\ ReadBases zero RealDouble std_sort f' = Some bs'.
Proof.
  intros (HN & HB) HR HM.
  assert (HF : exists f1, map fe_name f1 = map fe_name f /\
    (forall b, In b f1 -> named 32 fz_name (fe_zones b) /\ forall z, In z (fe_zones b) -> standard_zone z) /\
    ReadBases zero RealDouble std_sort f1 = Some bs').
  { clear HN. unfold ReadBases in HR. apply mapM_Forall2 in HR. revert bs' HM.
    induction HR as [|b m l l' E F IH]; intros bs' HM.
    - inversion HM; subst. exists []. repeat split; try easy.
    - inversion HM as [|m0 m1 l0 l1 (G1 & G2 & G3 & G4) HM']; subst.
      destruct (IH (fun x Hx => HB x (or_intror Hx)) l1 HM') as (f1 & P1 & P2 & P3).
      destruct (HB b (or_introl eq_refl)) as (ZN & HZ).
      unfold read_base in E. destruct (mapM (read_zone zero RealDouble std_sort) (fe_zones b)) as [zs|] eqn:EZ;
        [|discriminate]. simpl in E. inversion E; subst m. simpl in *.
      assert (HZF : exists z1s, map fz_name z1s = map fz_name (fe_zones b) /\
         (forall z, In z z1s -> standard_zone z) /\
         mapM (read_zone zero RealDouble std_sort) z1s = Some (me_zones m1)).
      { apply mapM_Forall2 in EZ. clear - HSORT HZ EZ G4. revert G4. generalize (me_zones m1).
        induction EZ as [|z mz l l' E F IH]; intros ms G4.
        - inversion G4; subst. exists []. repeat split; easy.
        - inversion G4 as [|x mz' l0 ms' Hm G4']; subst.
          destruct (IH (fun x Hx => HZ x (or_intror Hx)) ms' G4') as (z1s & Q1 & Q2 & Q3).
          destruct (moved_zone_saved zero std_sort HSORT g z mz mz') as (z1 & R1 & R2 & R3); auto.
          { apply HZ. left; auto. }
          exists (z1 :: z1s). simpl. split; [congruence|]. split.
          + intros x' [<-|Hx]; auto.
          + rewrite R3, Q3. auto. }
      destruct HZF as (z1s & Q1 & Q2 & Q3).
      exists (mkFBase (fe_name b) (fe_cell_dim b) (fe_phys_dim b) z1s :: f1). split; [simpl; congruence|]. split.
      + intros x [<-|Hx]; auto. simpl. split; auto. destruct ZN as (ND & NN). split; [rewrite Q1; auto|].
        intros z Hz. assert (H : In (fz_name z) (map fz_name (fe_zones b))) by (rewrite <- Q1; apply in_map; auto).
        apply in_map_iff in H. destruct H as (z' & <- & Hz'). auto.
      + unfold ReadBases in *. simpl. unfold read_base at 1. simpl. rewrite Q3. simpl. rewrite P3.
        f_equal. f_equal. destruct m1; simpl in *. congruence. }
  destruct HF as (f1 & P1 & P2 & P3).
  destruct (file_round_trip zero std_sort HSORT f1) as (bs1 & f' & R1 & W1 & R2 & _).
  - split; auto. destruct HN as (ND & NN). split; [rewrite P1; auto|].
    intros z Hz. assert (H : In (fe_name z) (map fe_name f)) by (rewrite <- P1; apply in_map; auto).
    apply in_map_iff in H. destruct H as (z' & <- & Hz'). auto.
  - assert (bs1 = bs') by congruence. subst bs1. eauto.
Qed.
