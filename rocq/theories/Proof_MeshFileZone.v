(** Lemmas about the model of mesh files: zones, bases and files. *)
From Coq Require Import String List Arith ZArith Permutation Sorted Lia Bool.
From Verif Require Import Arrays Model_Cgns Model_Sections
  Spec_Mesh Spec_Sections Proof_Sections Proof_MergeSplit Model_MeshFile Spec_MeshFile Proof_MeshFile.
Import ListNotations.

Lemma ranges_consecutive ss : forall a, 1 <= a -> consecutive a ss ->
  (forall s, In s ss -> 1 <= s_count s) -> ranges_from a (map to_file ss).
Proof.
  induction ss as [|s t IH]; simpl; intros a Ha HC HP; auto.
  destruct HC as (<- & HC). specialize (HP s (or_introl eq_refl)) as H1.
  split; [auto|]. split; [lia|].
  replace (S (s_first s + s_count s - 1)) with (s_first s + s_count s) by lia.
  apply IH; auto. lia.
Qed.

Lemma sorted_in {X} (Q : X -> X -> Prop) l : StronglySorted Q l ->
  StronglySorted (fun a b => In a l /\ In b l /\ Q a b) l.
Proof.
  intros HS. apply StronglySorted_nth. intros i j a b Hij Ha Hb.
  split; [eapply nth_error_In; eauto|]. split; [eapply nth_error_In; eauto|].
  revert i j Hij Ha Hb. induction HS as [|x t HS IH HF]; intros [|i] [|j] Hij Ha Hb; simpl in *;
    try discriminate; try lia.
  - inversion Ha; subst. rewrite Forall_forall in HF. apply HF. eapply nth_error_In; eauto.
  - apply (IH i j); auto. lia.
Qed.

Lemma coords_len_find {A} (l : list (string * list A)) name n p :
  (forall m d, In (m, d) l -> List.length d = n) ->
  find (fun p => String.eqb (fst p) name) l = Some p -> List.length (snd p) = n.
Proof.
  intros H E. apply find_some in E. destruct E as (E & _). destruct p as [m d]. apply (H m d). auto.
Qed.

Lemma bocos_ok bcs : (forall b, In b bcs -> List.length (fb_pnts b) = 2) -> named 31 fb_name bcs ->
  exists bocos, mapM read_boco bcs = Some bocos /\
    write_list fb_name boco_node by_position bocos = Some bcs /\
    Forall2 (fun f b => fb_name f = bc_name (bo_bc b) /\ fb_type f = bo_type b /\
      fb_ptset_type f = bo_ptset_type b /\ fb_loc f = bo_loc b /\
      fb_pnts f = [bc_first (bo_bc b); bc_last (bo_bc b)]) bcs bocos.
Proof.
  intros H2 (ND & HN).
  destruct (Forall2_exists (fun f b => read_boco f = Some b /\ boco_node b = Some f) bcs) as (bocos & F).
  { intros f Hf. unfold read_boco. destruct (HN f Hf) as (_ & Hl). specialize (H2 f Hf).
    destruct (Nat.ltb_spec (String.length (fb_name f)) 32); [|lia].
    destruct f as [fn ft fp [|x [|y [|]]] fl]; simpl in *; try discriminate.
    eexists. split; [reflexivity|]. reflexivity. }
  exists bocos. split; [|split].
  - apply Forall2_mapM. eapply Forall2_impl; [|exact F]. simpl. tauto.
  - apply write_list_ok; auto.
    + clear - F. induction F as [|x y l l' (H1 & H2) F IH]; constructor; auto.
    + split; auto. intros x Hx. specialize (HN x Hx). lia.
  - eapply Forall2_impl; [|exact F]. simpl. intros f b (_ & E). unfold boco_node in E.
    inversion E; subst; simpl. repeat split.
Qed.

Section Zone.
  Context {A : Type} (zero : A) (std_sort : list Section -> list nat).
  Context (HSORT : forall l, sort_contract before l (std_sort l)).

  Lemma fields_read n (fs : list (FField A)) : forall done,
    (forall f, In f fs -> ff_type f = RealDouble /\ List.length (ff_data f) = n) ->
    NoDup (map fst done ++ map ff_name fs) ->
    foldM (read_field RealDouble n) fs done
      = Some (done ++ map (fun f => (ff_name f, ff_data f)) fs)%list.
  Proof.
    induction fs as [|f t IH]; intros done HF ND; simpl.
    - rewrite app_nil_r. auto.
    - unfold read_field at 1. destruct (HF f (or_introl eq_refl)) as (-> & ->). simpl.
      rewrite Nat.eqb_refl.
      replace (existsb (fun x => String.eqb (fst x) (ff_name f)) done) with false.
      2:{ symmetry. apply not_true_is_false. intros H. apply existsb_exists in H.
          destruct H as (x & Hx & Ex). apply String.eqb_eq in Ex.
          simpl in ND. apply NoDup_remove_2 in ND. apply ND. apply in_or_app. left.
          rewrite <- Ex. apply in_map. auto. }
      simpl. rewrite IH.
      + rewrite <- app_assoc. auto.
      + intros g Hg. apply HF. right; auto.
      + rewrite map_app, <- app_assoc. simpl. auto.
  Qed.

  Lemma soln_ok (z : FZone A) (s : FSoln A) : standard_soln z s ->
    exists m, read_soln RealDouble (fz_nodes z) (fz_cells z) s = Some m /\
      soln_node RealDouble (fz_nodes z) (fz_cells z) m = Some s.
  Proof.
    intros (HL & HN & HF). unfold read_soln.
    assert (ES : soln_size (fz_nodes z) (fz_cells z) (fo_loc s) = Some (size_at z (fo_loc s)))
      by (destruct (fo_loc s); auto; congruence).
    rewrite ES. simpl. rewrite fields_read; [|auto|simpl; apply HN]. simpl.
    eexists. split; [reflexivity|]. unfold soln_node. simpl. rewrite ES. simpl.
    rewrite (write_list_ok _ _ _ _ (fo_fields s)); auto.
    - simpl. destruct s; auto.
    - clear HN. induction (fo_fields s) as [|f t IH]; simpl; constructor.
      + unfold field_node. simpl. destruct (HF f (or_introl eq_refl)) as (E1 & E2).
        rewrite slice_whole by auto. simpl. rewrite <- E1. destruct f; auto.
      + apply IH. intros; apply HF; simpl; auto.
  Qed.

  (** reading a zone, writing it with the sections of dimension at least [d], and reading that *)
  Lemma zone_ok (z : FZone A) d : standard_zone z ->
    exists m z' first rest,
      read_zone zero RealDouble std_sort z = Some m /\
      zone_node RealDouble d 3 m = Some z' /\
      mz_sections m = (first ++ rest)%list /\
      (forall s, In s first -> (d <= s_dim s)%Z) /\ (forall s, In s rest -> (s_dim s < d)%Z) /\
      read_zone zero RealDouble std_sort z'
        = Some (mkMZone (mz_name m) (mz_cells m) (mz_x m) (mz_y m) (mz_z m) first (mz_bocos m) (mz_solns m)) /\
      fz_name z' = fz_name z /\ fz_nodes z' = fz_nodes z /\ fz_cells z' = fz_cells z /\
      (forall name, In name ["CoordinateX"; "CoordinateY"; "CoordinateZ"]%string ->
         coordinate zero name z' = coordinate zero name z) /\
      fz_bcs z' = fz_bcs z /\ fz_solns z' = fz_solns z /\ fz_sections z' = map to_file first /\
      ReadAllSections std_sort (fz_sections z) = Some (mz_sections m).
  Proof.
    intros (HC & HSN & HS & HBN & HB & HON & HO).
    assert (RC : forall name, read_coord zero name z = Some (coordinate zero name z) /\
              List.length (coordinate zero name z) = fz_nodes z).
    { intros name. unfold read_coord, coordinate.
      destruct (find (fun p => String.eqb (fst p) name) (fz_coords z)) as [[m l]|] eqn:E.
      - pose proof (coords_len_find _ _ (fz_nodes z) _ HC E) as L. simpl in L. simpl. rewrite L, Nat.eqb_refl. auto.
      - rewrite repeat_length. auto. }
    destruct (sections_read std_sort _ HSORT HS) as (ss & ES & _).
    destruct (sections_written d std_sort _ ss HSORT HS HSN ES) as (first & rest & E1 & E2 & E3 & E4 & E5).
    destruct (bocos_ok _ HB HBN) as (bocos & B1 & B2 & _).
    destruct (Forall2_exists (fun s m => read_soln RealDouble (fz_nodes z) (fz_cells z) s = Some m /\
        soln_node RealDouble (fz_nodes z) (fz_cells z) m = Some s) (fz_solns z)) as (solns & FO).
    { intros s Hs. apply soln_ok. auto. }
    assert (O1 : mapM (read_soln RealDouble (fz_nodes z) (fz_cells z)) (fz_solns z) = Some solns).
    { apply Forall2_mapM. eapply Forall2_impl; [|exact FO]. simpl. tauto. }
    assert (O2 : write_list fo_name (soln_node RealDouble (fz_nodes z) (fz_cells z)) by_position solns
                 = Some (fz_solns z)).
    { apply write_list_ok; auto. clear - FO. induction FO as [|x y l l' (H1 & H2) F IH]; constructor; auto. }
    destruct (RC "CoordinateX"%string) as (X1 & X2). destruct (RC "CoordinateY"%string) as (Y1 & Y2).
    destruct (RC "CoordinateZ"%string) as (Z1 & Z2).
    set (m := mkMZone (fz_name z) (fz_cells z) (coordinate zero "CoordinateX" z)
                (coordinate zero "CoordinateY" z) (coordinate zero "CoordinateZ" z) ss bocos solns).
    set (z' := mkFZone (fz_name z) (fz_nodes z) (fz_cells z)
       [("CoordinateX"%string, coordinate zero "CoordinateX" z);
        ("CoordinateY"%string, coordinate zero "CoordinateY" z);
        ("CoordinateZ"%string, coordinate zero "CoordinateZ" z)]
       (fz_bcs z) (map to_file first) (fz_solns z)).
    exists m, z', first, rest.
    assert (R1 : read_zone zero RealDouble std_sort z = Some m).
    { unfold read_zone. rewrite X1, Y1, Z1. simpl. rewrite ES. simpl. rewrite B1. simpl. rewrite O1. auto. }
    assert (W1 : zone_node RealDouble d 3 m = Some z').
    { unfold zone_node, coords, m. simpl mz_x. simpl mz_y. simpl mz_z. simpl mz_bocos. simpl mz_sections.
      simpl mz_solns. simpl mz_cells. simpl mz_name. rewrite X2.
      rewrite !slice_whole by auto. simpl. rewrite B2. simpl. rewrite E4. simpl. rewrite O2. simpl.
      reflexivity. }
    assert (R2 : read_zone zero RealDouble std_sort z' = Some
       (mkMZone (mz_name m) (mz_cells m) (mz_x m) (mz_y m) (mz_z m) first (mz_bocos m) (mz_solns m))).
    { unfold read_zone, z', read_coord. simpl. rewrite X2, Y2, Z2, Nat.eqb_refl. simpl.
      rewrite E5. simpl. rewrite B1. simpl. rewrite O1. simpl. reflexivity. }
    assert (CO : forall name, In name ["CoordinateX"; "CoordinateY"; "CoordinateZ"]%string ->
         coordinate zero name z' = coordinate zero name z).
    { intros name [<-|[<-|[<-|[]]]]; reflexivity. }
    repeat (split; [first [assumption | reflexivity]|]). assumption.
  Qed.

  Lemma zone_same (z : FZone A) : standard_zone z ->
    exists m z', read_zone zero RealDouble std_sort z = Some m /\ zone_node RealDouble 0 3 m = Some z' /\
      read_zone zero RealDouble std_sort z' = Some m /\ same_zone zero z z'.
  Proof.
    intros HZ.
    destruct (zone_ok z 0 HZ) as (m & z' & first & rest & R1 & W1 & E1 & E2 & E3 & R2 &
       N1 & N2 & N3 & N4 & N5 & N6 & N7 & RS).
    destruct HZ as (HC & HSN & HS & _).
    destruct (sections_read std_sort _ HSORT HS) as (ss & ES & EI & EK & EO & EF & EP).
    rewrite RS in ES. inversion ES; subst ss. clear ES.
    assert (rest = []).
    { destruct rest as [|s t]; auto. exfalso. specialize (E3 s (or_introl eq_refl)).
      destruct (EF s) as (H & _); [rewrite E1; apply in_or_app; right; left; auto|]. lia. }
    subst rest. rewrite app_nil_r in E1. subst first.
    exists m, z'. split; [auto|]. split; [auto|]. split; [rewrite R2; destruct m; auto|].
    unfold same_zone. rewrite N7. do 6 (split; [auto|]). split; [|split].
    - rewrite map_map. auto.
    - apply (StronglySorted_map (fun a b => In a (mz_sections m) /\ In b (mz_sections m) /\ (s_dim b <= s_dim a)%Z)).
      + intros a b (Ha & Hb & Hab) d e Hd He.
        destruct (EF a Ha) as (_ & Fa & f & _ & Ra). destruct (EF b Hb) as (_ & Fb & g & _ & Rb).
        destruct (to_file_like f a Ra Fa) as (_ & _ & _ & _ & _ & _ & Ga & _).
        destruct (to_file_like g b Rb Fb) as (_ & _ & _ & _ & _ & _ & Gb & _).
        rewrite (section_dim_unique _ _ _ Hd Ga), (section_dim_unique _ _ _ He Gb). auto.
      + apply sorted_in. auto.
    - apply ranges_consecutive; auto. intros s Hs. destruct (EF s Hs) as (_ & _ & f & _ & R3).
      destruct R3 as (_ & _ & _ & _ & -> & _). unfold fs_count. lia.
  Qed.

  Lemma base_same (b : FBase A) : named 32 fz_name (fe_zones b) ->
    (forall z, In z (fe_zones b) -> standard_zone z) ->
    exists m b', read_base zero RealDouble std_sort b = Some m /\ base_node RealDouble 0 3 m = Some b' /\
      read_base zero RealDouble std_sort b' = Some m /\ same_base zero b b'.
  Proof.
    intros HN HZ.
    assert (HF : exists zs, exists ms, Forall2 (fun z m => read_zone zero RealDouble std_sort z = Some m) (fe_zones b) ms /\
       Forall2 (fun m z' => zone_node RealDouble 0 3 m = Some z') ms zs /\
       Forall2 (fun z m => read_zone zero RealDouble std_sort z = Some m) zs ms /\
       Forall2 (same_zone zero) (fe_zones b) zs).
    { clear HN. induction (fe_zones b) as [|z t IH].
      - exists [], []. repeat split; constructor.
      - destruct (zone_same z) as (m & z' & Q1 & Q2 & Q3 & Q4); [apply HZ; left; auto|].
        destruct IH as (zs & ms & P1 & P2 & P3 & P4); [intros; apply HZ; right; auto|].
        exists (z' :: zs), (m :: ms). repeat split; try (constructor; auto). }
    destruct HF as (zs & ms & P1 & P2 & P3 & P4).
    exists (mkMBase (fe_name b) (fe_cell_dim b) (fe_phys_dim b) ms),
           (mkFBase (fe_name b) (fe_cell_dim b) (fe_phys_dim b) zs).
    assert (EN : map fz_name zs = map fz_name (fe_zones b)).
    { clear - P4. induction P4 as [|z z' l l' H F IH]; simpl; auto. destruct H as (-> & _). f_equal. auto. }
    unfold read_base, base_node. simpl. rewrite (Forall2_mapM _ _ _ P1). simpl.
    rewrite (write_list_ok _ _ _ _ zs); auto.
    - simpl. rewrite (Forall2_mapM _ _ _ P3). simpl. repeat split; auto.
    - destruct HN as (ND & HN). split; [rewrite EN; auto|]. intros z' Hz.
      assert (H : In (fz_name z') (map fz_name (fe_zones b))) by (rewrite <- EN; apply in_map; auto).
      apply in_map_iff in H. destruct H as (z & <- & Hz'). apply HN. auto.
  Qed.

  Theorem file_round_trip (f : list (FBase A)) : mesh_file f ->
    exists bs f', ReadBases zero RealDouble std_sort f = Some bs /\ Write RealDouble 0 3 bs = Some f' /\
      ReadBases zero RealDouble std_sort f' = Some bs /\ same_file zero f f'.
  Proof.
    intros (HN & HB).
    assert (HF : exists bs, exists ms, Forall2 (fun z m => read_base zero RealDouble std_sort z = Some m) f ms /\
       Forall2 (fun m z' => base_node RealDouble 0 3 m = Some z') ms bs /\
       Forall2 (fun z m => read_base zero RealDouble std_sort z = Some m) bs ms /\
       Forall2 (same_base zero) f bs).
    { clear HN. induction f as [|b t IH].
      - exists [], []. repeat split; constructor.
      - destruct (HB b (or_introl eq_refl)) as (N1 & N2).
        destruct (base_same b N1 N2) as (m & z' & Q1 & Q2 & Q3 & Q4).
        destruct IH as (zs & ms & P1 & P2 & P3 & P4); [intros; apply HB; right; auto|].
        exists (z' :: zs), (m :: ms). repeat split; try (constructor; auto). }
    destruct HF as (bs & ms & P1 & P2 & P3 & P4).
    assert (EN : map fe_name bs = map fe_name f).
    { clear - P4. induction P4 as [|z z' l l' H F IH]; simpl; auto. destruct H as (-> & _). f_equal. auto. }
    exists ms, bs. unfold ReadBases, Write.
    split; [apply Forall2_mapM; auto|]. split; [|split; [apply Forall2_mapM; auto|auto]].
    apply write_list_ok; auto. destruct HN as (ND & HN). split; [rewrite EN; auto|]. intros z' Hz.
    assert (H : In (fe_name z') (map fe_name f)) by (rewrite <- EN; apply in_map; auto).
    apply in_map_iff in H. destruct H as (z & <- & Hz'). apply HN. auto.
  Qed.

  (** ** Writing a part of the dimensions *)

  Lemma zone_cut (z : FZone A) d : standard_zone z ->
    exists m z0 z', read_zone zero RealDouble std_sort z = Some m /\ zone_node RealDouble 0 3 m = Some z0 /\
      zone_node RealDouble d 3 m = Some z' /\ cut_zone d z0 z' /\ fz_name z0 = fz_name z /\
      exists m', read_zone zero RealDouble std_sort z' = Some m'.
  Proof.
    intros HZ.
    destruct (zone_ok z 0 HZ) as (m & z0 & first & rest & R1 & W1 & E1 & E2 & E3 & R2 &
       N1 & N2 & N3 & N4 & N5 & N6 & N7 & RS).
    destruct (zone_ok z d HZ) as (m' & z' & first' & rest' & R1' & W1' & E1' & E2' & E3' & R2' &
       N1' & N2' & N3' & N4' & N5' & N6' & N7' & RS').
    assert (m' = m) by congruence. subst m'.
    destruct HZ as (HC & HSN & HS & _).
    destruct (sections_read std_sort _ HSORT HS) as (ss & ES & EI & EK & EO & EF & EP).
    rewrite RS in ES. inversion ES; subst ss. clear ES.
    assert (rest = []).
    { destruct rest as [|s t]; auto. exfalso. specialize (E3 s (or_introl eq_refl)).
      destruct (EF s) as (H & _); [rewrite E1; apply in_or_app; right; left; auto|]. lia. }
    subst rest. rewrite app_nil_r in E1. subst first.
    assert (EC : fz_coords z' = fz_coords z0).
    { unfold zone_node in W1, W1'. destruct (coords m); [|discriminate]. simpl in *.
      destruct (write_list fb_name boco_node by_position (mz_bocos m)); [|discriminate]. simpl in *.
      destruct (write_sections 0 3 (mz_sections m)); [|discriminate].
      destruct (write_sections d 3 (mz_sections m)); [|discriminate]. simpl in *.
      destruct (write_list fo_name (soln_node RealDouble (Datatypes.length (mz_x m)) (mz_cells m)) by_position
        (mz_solns m)); [|discriminate].
      inversion W1; inversion W1'. auto. }
    assert (HD : forall s, In s (mz_sections m) -> section_dim (to_file s) (s_dim s)).
    { intros s Hs. destruct (EF s Hs) as (_ & Fs & f & _ & Rs).
      apply (to_file_like f s Rs Fs). }
    exists m, z0, z'. do 3 (split; [auto|]). split; [|split; [auto|eauto]].
    unfold cut_zone. rewrite N1', N2', N3', N5', N6', N1, N2, N3, N5, N6, N7, N7', EC.
    do 6 (split; [auto|]). exists (map to_file rest'). rewrite E1', map_app. split; [auto|].
    split; intros f Hf; apply in_map_iff in Hf; destruct Hf as (s & <- & Hs); exists (s_dim s);
      split; auto; apply HD; rewrite E1'; apply in_or_app; auto.
  Qed.

  Theorem file_cut (f : list (FBase A)) d : mesh_file f ->
    exists bs f0 f' bs', ReadBases zero RealDouble std_sort f = Some bs /\ Write RealDouble 0 3 bs = Some f0 /\
      Write RealDouble d 3 bs = Some f' /\ cut_file d f0 f' /\
      ReadBases zero RealDouble std_sort f' = Some bs'.
  Proof.
    intros (HN & HB).
    assert (HBase : forall b, In b f -> exists m b0 b', read_base zero RealDouble std_sort b = Some m /\
       base_node RealDouble 0 3 m = Some b0 /\ base_node RealDouble d 3 m = Some b' /\
       (fe_name b' = fe_name b0 /\ fe_cell_dim b' = fe_cell_dim b0 /\
        fe_phys_dim b' = fe_phys_dim b0 /\ Forall2 (cut_zone d) (fe_zones b0) (fe_zones b')) /\
       fe_name b0 = fe_name b /\ exists m', read_base zero RealDouble std_sort b' = Some m').
    { intros b Hb. destruct (HB b Hb) as (ZN & HZ).
      assert (HF : exists ms z0s zs ms', Forall2 (fun z m => read_zone zero RealDouble std_sort z = Some m) (fe_zones b) ms /\
         Forall2 (fun m z' => zone_node RealDouble 0 3 m = Some z') ms z0s /\
         Forall2 (fun m z' => zone_node RealDouble d 3 m = Some z') ms zs /\
         Forall2 (cut_zone d) z0s zs /\ map fz_name z0s = map fz_name (fe_zones b) /\
         Forall2 (fun z m => read_zone zero RealDouble std_sort z = Some m) zs ms').
      { clear ZN. induction (fe_zones b) as [|z t IH].
        - exists [], [], [], []. repeat split; constructor.
        - destruct (zone_cut z d) as (m & z0 & z' & Q1 & Q2 & Q3 & Q4 & Q5 & m' & Q6); [apply HZ; left; auto|].
          destruct IH as (ms & z0s & zs & ms' & P1 & P2 & P3 & P4 & P5 & P6); [intros; apply HZ; right; auto|].
          exists (m :: ms), (z0 :: z0s), (z' :: zs), (m' :: ms').
          do 4 (split; [constructor; auto|]). split; [simpl; congruence|constructor; auto]. }
      destruct HF as (ms & z0s & zs & ms' & P1 & P2 & P3 & P4 & P5 & P6).
      assert (EN : map fz_name zs = map fz_name z0s).
      { clear - P4. induction P4 as [|z z' l l' H F IH]; simpl; auto. destruct H as (-> & _). f_equal. auto. }
      assert (HN0 : forall l : list (FZone A), map fz_name l = map fz_name (fe_zones b) -> named 32 fz_name l).
      { intros l El. destruct ZN as (ND & NN). split; [rewrite El; auto|]. intros z Hz.
        assert (H : In (fz_name z) (map fz_name (fe_zones b))) by (rewrite <- El; apply in_map; auto).
        apply in_map_iff in H. destruct H as (z1 & <- & Hz'). apply NN. auto. }
      exists (mkMBase (fe_name b) (fe_cell_dim b) (fe_phys_dim b) ms),
             (mkFBase (fe_name b) (fe_cell_dim b) (fe_phys_dim b) z0s),
             (mkFBase (fe_name b) (fe_cell_dim b) (fe_phys_dim b) zs).
      unfold read_base, base_node. simpl. rewrite (Forall2_mapM _ _ _ P1). simpl.
      rewrite (write_list_ok _ _ _ _ z0s) by auto. rewrite (write_list_ok _ _ _ _ zs); auto.
      - simpl. rewrite (Forall2_mapM _ _ _ P6). simpl. repeat split; eauto.
      - apply HN0. congruence. }
    assert (HF : exists ms b0s bs ms', Forall2 (fun z m => read_base zero RealDouble std_sort z = Some m) f ms /\
       Forall2 (fun m z' => base_node RealDouble 0 3 m = Some z') ms b0s /\
       Forall2 (fun m z' => base_node RealDouble d 3 m = Some z') ms bs /\
       cut_file d b0s bs /\ map fe_name b0s = map fe_name f /\
       Forall2 (fun z m => read_base zero RealDouble std_sort z = Some m) bs ms').
    { clear HN HB. induction f as [|z t IH].
      - exists [], [], [], []. repeat split; constructor.
      - destruct (HBase z) as (m & z0 & z' & Q1 & Q2 & Q3 & Q4 & Q5 & m' & Q6); [left; auto|].
        destruct IH as (ms & z0s & zs & ms' & P1 & P2 & P3 & P4 & P5 & P6); [intros; apply HBase; right; auto|].
        exists (m :: ms), (z0 :: z0s), (z' :: zs), (m' :: ms').
        do 4 (split; [constructor; auto|]). split; [simpl; congruence|constructor; auto]. }
    destruct HF as (ms & b0s & bs & ms' & P1 & P2 & P3 & P4 & P5 & P6).
    assert (EN : map fe_name bs = map fe_name b0s).
    { clear - P4. unfold cut_file in P4. induction P4 as [|z z' l l' H F IH]; simpl; auto.
      destruct H as (-> & _). f_equal. auto. }
    assert (HN0 : forall l : list (FBase A), map fe_name l = map fe_name f -> named 32 fe_name l).
    { intros l El. destruct HN as (ND & NN). split; [rewrite El; auto|]. intros z Hz.
      assert (H : In (fe_name z) (map fe_name f)) by (rewrite <- El; apply in_map; auto).
      apply in_map_iff in H. destruct H as (z1 & <- & Hz'). apply NN. auto. }
    exists ms, b0s, bs, ms'. unfold ReadBases, Write.
    split; [apply Forall2_mapM; auto|]. split; [apply write_list_ok; auto|].
    split; [apply write_list_ok; auto; apply HN0; congruence|]. split; [auto|apply Forall2_mapM; auto].
  Qed.

  (** ** Boundary conditions *)

  Lemma updated_bocos (ss : list Section) (bocos : list Boco) bcs :
    UpdateRanges ss (map bo_bc bocos) = Some bcs ->
    Forall2 (fun b c => exists s, GetSection (bc_name (bo_bc b)) ss = Some s /\
       c = mkBC (bc_name (bo_bc b)) (s_first s) (s_first s + s_count s - 1)) bocos bcs.
  Proof.
    unfold UpdateRanges. intros H. apply mapM_Forall2 in H. revert bcs H.
    induction bocos as [|b t IH]; simpl; intros bcs H; inversion H; subst; constructor; auto.
    destruct (GetSection (bc_name (bo_bc b)) ss) as [s|]; [|discriminate]. exists s. split; auto.
    simpl in H2. congruence.
  Qed.

  Theorem bcs_follow (z : FZone A) : standard_zone z ->
    (forall b, In b (fz_bcs z) -> exists s, In s (fz_sections z) /\ fs_name s = fb_name b) ->
    (forall b s, In b (fz_bcs z) -> In s (fz_sections z) -> ends_with (fs_name s) (fb_name b) ->
       fs_name s = fb_name b) ->
    exists m m' z', read_zone zero RealDouble std_sort z = Some m /\ UpdateSectionRanges m = Some m' /\
      zone_node RealDouble 0 3 m' = Some z' /\ map fb_name (fz_bcs z') = map fb_name (fz_bcs z) /\
      (forall b, In b (fz_bcs z') -> names_its_section z' b) /\
      Permutation (map fs_contents (fz_sections z')) (map fs_contents (fz_sections z)).
  Proof.
    intros HZ HB1 HB2.
    destruct (zone_ok z 0 HZ) as (m & z0 & first & rest & R1 & W1 & E1 & E2 & E3 & R2 &
       N1 & N2 & N3 & N4 & N5 & N6 & N7 & RS).
    destruct HZ as (HC & HSN & HS & HBN & HB & _).
    destruct (sections_read std_sort _ HSORT HS) as (ss & ES & EI & EK & EO & EF & EP).
    rewrite RS in ES. inversion ES; subst ss. clear ES.
    assert (rest = []).
    { destruct rest as [|s t]; auto. exfalso. specialize (E3 s (or_introl eq_refl)).
      destruct (EF s) as (H & _); [rewrite E1; apply in_or_app; right; left; auto|]. lia. }
    subst rest. rewrite app_nil_r in E1. subst first.
    destruct (bocos_ok _ HB HBN) as (bocos & B1 & B2 & B3).
    assert (EB : mz_bocos m = bocos).
    { unfold read_zone in R1.
      destruct (read_coord zero "CoordinateX" z); [|discriminate]. simpl in R1.
      destruct (read_coord zero "CoordinateY" z); [|discriminate]. simpl in R1.
      destruct (read_coord zero "CoordinateZ" z); [|discriminate]. simpl in R1.
      rewrite RS in R1. simpl in R1. rewrite B1 in R1. simpl in R1.
      destruct (mapM (read_soln RealDouble (fz_nodes z) (fz_cells z)) (fz_solns z)); [|discriminate].
      simpl in R1. inversion R1. auto. }
    assert (PN : Permutation (map s_name (mz_sections m)) (map fs_name (fz_sections z))).
    { assert (EH := Permutation_map (fun c : _ * _ * _ * _ * _ => fst (fst (fst (fst c)))) EP).
      rewrite !map_map in EH. exact EH. }
    assert (HNB : forall b, In b bocos -> exists f, In f (fz_bcs z) /\ fb_name f = bc_name (bo_bc b)).
    { intros b Hb. clear - B3 Hb. induction B3 as [|f c l l' H F IH]; [easy|].
      destruct Hb as [->|Hb]; [exists f; split; [left; auto|tauto]|].
      destruct (IH Hb) as (g & Hg & Eg). exists g. split; [right|]; auto. }
    destruct (UpdateRanges_ok (mz_sections m) (map bo_bc bocos)) as (bcs & U1 & U2 & U3).
    - intros b Hb. apply in_map_iff in Hb. destruct Hb as (bo & <- & Hb).
      destruct (HNB bo Hb) as (f & Hf & Ef). destruct (HB1 f Hf) as (s & Hs & Es).
      assert (Hin : In (fs_name s) (map s_name (mz_sections m)))
        by (apply (Permutation_in _ (Permutation_sym PN)); apply in_map; auto).
      apply in_map_iff in Hin. destruct Hin as (s' & Es' & Hs'). exists s'. split; auto. congruence.
    - intros b s Hb Hs HE. apply in_map_iff in Hb. destruct Hb as (bo & <- & Hb).
      destruct (HNB bo Hb) as (f & Hf & Ef).
      assert (Hin : In (s_name s) (map fs_name (fz_sections z)))
        by (apply (Permutation_in _ PN); apply in_map; auto).
      apply in_map_iff in Hin. destruct Hin as (s' & Es' & Hs').
      rewrite <- Es', <- Ef in *. apply HB2; auto.
    - apply (Permutation_NoDup (Permutation_sym PN)). apply HSN.
    - set (bocos' := map (fun p => mkBoco (fst p) (bo_type (snd p)) (bo_ptset_type (snd p)) (bo_loc (snd p)))
             (combine bcs bocos)).
      set (fbs := map (fun b => mkFBC (bc_name (bo_bc b)) (bo_type b) (bo_ptset_type b)
             [bc_first (bo_bc b); bc_last (bo_bc b)] (bo_loc b)) bocos').
      assert (FN : Forall2 (fun c b => bc_name c = bc_name (bo_bc b) /\ exists s, In s (mz_sections m) /\
          s_name s = bc_name c /\ c = mkBC (bc_name c) (s_first s) (s_first s + s_count s - 1)) bcs bocos).
      { apply updated_bocos in U1.
        assert (HG : forall n s, GetSection n (mz_sections m) = Some s -> In s (mz_sections m) /\ ends_with (s_name s) n).
        { intros n s Hs. apply GetSection_ok in Hs. destruct Hs as (l1 & l2 & -> & Hs & _).
          split; auto. apply in_or_app. right. left. auto. }
        assert (HE : forall b s, In b bocos -> In s (mz_sections m) -> ends_with (s_name s) (bc_name (bo_bc b)) ->
           s_name s = bc_name (bo_bc b)).
        { intros b s Hb Hs He. destruct (HNB b Hb) as (f & Hf & Ef).
          assert (Hin : In (s_name s) (map fs_name (fz_sections z)))
            by (apply (Permutation_in _ PN); apply in_map; auto).
          apply in_map_iff in Hin. destruct Hin as (s' & Es' & Hs').
          rewrite <- Es', <- Ef in *. apply HB2; auto. }
        clear - U1 HG HE. induction U1 as [|b c l l' (s & H1 & H2) F IH]; constructor.
        - subst c. simpl. split; auto. destruct (HG _ _ H1) as (G1 & G2). exists s.
          split; [auto|]. split; auto. apply HE; auto. left; auto.
        - apply IH. intros b' s' Hb'. apply HE. right; auto. }
      assert (ENB : map fb_name fbs = map fb_name (fz_bcs z)).
      { assert (E1 : map fb_name (fz_bcs z) = map (fun b => bc_name (bo_bc b)) bocos).
        { clear - B3. induction B3 as [|f c l l' H F IH]; simpl; auto. destruct H as (-> & _). f_equal; auto. }
        rewrite E1. unfold fbs, bocos'. rewrite !map_map. simpl. clear - FN.
        induction FN as [|c b l l' (H & _) F IH]; simpl; auto. f_equal; auto. }
      unfold zone_node in W1. unfold coords in W1.
      destruct (slice (mz_x m) 0 (List.length (mz_x m))) as [cx|] eqn:CX; [|discriminate].
      destruct (slice (mz_y m) 0 (List.length (mz_x m))) as [cy|] eqn:CY; [|discriminate].
      destruct (slice (mz_z m) 0 (List.length (mz_x m))) as [cz|] eqn:CZ; [|discriminate].
      simpl in W1. rewrite EB in W1. rewrite B2 in W1. simpl in W1.
      destruct (write_sections 0 3 (mz_sections m)) as [fss|] eqn:WS; [|discriminate]. simpl in W1.
      destruct (write_list fo_name (soln_node RealDouble (List.length (mz_x m)) (mz_cells m)) by_position
        (mz_solns m)) as [os|] eqn:WO; [|discriminate]. simpl in W1. inversion W1; subst z0. clear W1.
      simpl in N7. subst fss.
      exists m, (mkMZone (mz_name m) (mz_cells m) (mz_x m) (mz_y m) (mz_z m) (mz_sections m) bocos' (mz_solns m)),
        (mkFZone (mz_name m) (List.length (mz_x m)) (mz_cells m)
           [("CoordinateX"%string, cx); ("CoordinateY"%string, cy); ("CoordinateZ"%string, cz)]
           fbs (map to_file (mz_sections m)) os).
      split; [auto|]. split; [unfold UpdateSectionRanges; rewrite EB, U1; reflexivity|].
      unfold zone_node, coords. simpl. rewrite CX, CY, CZ. simpl.
      rewrite (write_list_ok _ _ _ _ fbs).
      + simpl. rewrite WS. simpl. rewrite WO. simpl. split; [reflexivity|]. simpl. split; [auto|]. split.
        * intros fb Hfb. apply in_map_iff in Hfb. destruct Hfb as (b & <- & Hb).
          unfold bocos' in Hb. apply in_map_iff in Hb. destruct Hb as ((c & bo) & <- & Hb). simpl in *.
          assert (G : exists s, In s (mz_sections m) /\ s_name s = bc_name c /\
              c = mkBC (bc_name c) (s_first s) (s_first s + s_count s - 1)).
          { clear - FN Hb. induction FN as [|c' b' l l' (_ & H) F IH]; simpl in Hb; [easy|].
            destruct Hb as [Hb|Hb]; auto. inversion Hb; subst. auto. }
          destruct G as (s & G1 & G2 & G3). exists (to_file s). simpl. split; [apply in_map; auto|].
          split; auto. rewrite G3. auto.
        * rewrite map_map. auto.
      + unfold fbs. clear. induction bocos' as [|b t IH]; constructor; auto.
      + destruct HBN as (ND & NN). split; [rewrite ENB; auto|]. intros fb Hfb.
        assert (Hin : In (fb_name fb) (map fb_name (fz_bcs z))) by (rewrite <- ENB; apply in_map; auto).
        apply in_map_iff in Hin. destruct Hin as (f & <- & Hf). specialize (NN f Hf). lia.
      + auto.
  Qed.
End Zone.
