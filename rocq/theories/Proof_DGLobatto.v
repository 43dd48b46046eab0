From Coq Require Import Reals List Arith Lia Lra Bool String.
From Verif Require Import Vec3 Arrays RSum Model_Geometry Model_Basis Model_Dofs Model_DG Model_Schemes Spec_DG Spec_Schemes Proof_Dofs Proof_DG Proof_Schemes.
Import ListNotations.
Open Scope R_scope.

Lemma less_true a b : a < b -> less a b = true.
Proof. intros H. unfold less. destruct (Rlt_dec a b); [reflexivity|contradiction]. Qed.
Lemma less_false a b : b <= a -> less a b = false.
Proof. intros H. unfold less. destruct (Rlt_dec a b); [lra|reflexivity]. Qed.
Lemma vnorm_same x : vnorm (vsub x x) = 0.
Proof.
  unfold vnorm. replace (dot (vsub x x) (vsub x x)) with 0; [apply sqrt_0|].
  destruct x as [a b c]. unfold dot, vsub. cbn [vx vy vz]. ring.
Qed.
Lemma vnorm_sym x y : vnorm (vsub x y) = vnorm (vsub y x).
Proof.
  unfold vnorm. f_equal. destruct x as [a b c], y as [d e f]. unfold dot, vsub. cbn [vx vy vz]. ring.
Qed.
Lemma small n : 0 < / 10 ^ n.
Proof. apply Rinv_0_lt_compat, pow_lt. lra. Qed.
Lemma Near_same x : Near x x = true.
Proof. unfold Near. apply less_true. rewrite vnorm_same. apply small. Qed.

Lemma first_near_finds x coord n h a : (h <= a)%nat -> (a < h + n)%nat -> coord a = x ->
  (forall b, (b < h + n)%nat -> b <> a -> / 10 ^ 12 <= vnorm (vsub (coord a) (coord b))) ->
  first_near x coord n h = Some a.
Proof.
  revert h. induction n as [|n IH]; intros h L U E S; [lia|]. cbn [first_near].
  destruct (Nat.eq_dec h a) as [->|D].
  - rewrite E, Near_same. reflexivity.
  - unfold Near. replace (vnorm (vsub x (coord h))) with (vnorm (vsub (coord a) (coord h))) by (rewrite E; reflexivity).
    rewrite less_false by (apply S; lia). apply IH; auto; try lia. intros. apply S; lia.
Qed.

(** multiplying the values of cells *)
Section Scaling.
  Variables K N n : nat.
  Variable w : ncell -> nat -> R.
  Lemma scale_cell c m off k0 : forall cnt, (cnt <= N)%nat -> (k0 < K)%nat ->
    exists m', for_q cnt (fun st q => ScaleValueAt K (w c q) st) (m, off) = (m', (off + K * cnt)%nat)
      /\ (forall j k, (j < cnt)%nat -> (k < K)%nat -> m' (off + (j * K + k))%nat = m (off + (j * K + k))%nat * w c j)
      /\ (forall a, (a < off \/ off + K * cnt <= a)%nat -> m' a = m a).
  Proof.
    unfold for_q. induction cnt as [|cnt IH]; intros L KK.
    - exists m. cbn. rewrite Nat.mul_0_r, Nat.add_0_r. repeat split; auto. intros. lia.
    - destruct IH as (m1 & E1 & I1 & O1); [lia|exact KK|]. rewrite seq_S, fold_left_app, E1. cbn [fold_left].
      rewrite Nat.add_0_l. destruct (scale_value K (w c cnt) m1 (off + K * cnt)) as (m2 & E2 & I2 & O2).
      exists m2. split; [rewrite E2; f_equal; lia|]. split.
      + intros j k J KK'. destruct (Nat.eq_dec j cnt) as [->|D].
        * replace (off + (cnt * K + k))%nat with (off + K * cnt + k)%nat by lia. rewrite I2 by exact KK'.
          rewrite O1 by lia. reflexivity.
        * rewrite O2 by nia. apply I1; [lia|exact KK'].
      + intros a A. rewrite O2 by nia. apply O1. nia.
  Qed.

  Lemma scale_all (l : list ncell) col : (0 < K)%nat -> NoDup (map nc_id l) ->
    (forall c, In c l -> (nc_id c < n)%nat /\ nc_points c = N) -> size col = (K * N * n)%nat ->
    exists col', foldM (fun residual c =>
        do data <- AddCellDataOffset K N n residual (nc_id c);
        let '(m, data) := for_q (nc_points c) (fun st q => ScaleValueAt K (w c q) st) (at_ residual, data) in
        let residual := with_mem residual m in
        if check_end K N n residual (nc_id c) data then Some residual else None) l col = Some col'
      /\ size col' = (K * N * n)%nat
      /\ (forall c j k, In c l -> (j < N)%nat -> (k < K)%nat ->
            at_ col' (address K N (nc_id c) j k) = at_ col (address K N (nc_id c) j k) * w c j)
      /\ (forall i j k, ~ In i (map nc_id l) -> (j < N)%nat -> (k < K)%nat ->
            at_ col' (address K N i j k) = at_ col (address K N i j k)).
  Proof.
    intros KK. revert col. induction l as [|c l IH]; intros col D H S.
    - exists col. cbn. repeat split; auto. intros; contradiction.
    - cbn [map] in D. apply NoDup_cons_iff in D. destruct D as [D1 D2].
      destruct (H c (or_introl eq_refl)) as [L P]. cbn [foldM]. rewrite (add_offset_some K N n) by assumption. cbn [bind].
      rewrite P. destruct (scale_cell c (at_ col) (K * N * nc_id c) 0 N (le_n N) KK) as (m & E & I & O). rewrite E.
      cbv zeta. rewrite check_end_true by assumption. cbn [bind].
      destruct (IH (with_mem col m) D2) as (col' & E' & S' & V1 & V2); [intros; apply H; right; assumption|exact S|].
      exists col'. split; [exact E'|]. split; [exact S'|]. split.
      + intros c' j k [<-|I'] J K'.
        * rewrite V2 by assumption. cbn [at_ with_mem]. unfold address. apply I; assumption.
        * rewrite V1 by assumption. f_equal. cbn [at_ with_mem]. apply O.
          assert (nc_id c <> nc_id c') as NE by (intros X; apply D1; rewrite X; apply in_map; exact I').
          pose proof (address_out K N (nc_id c) (nc_id c') j k NE J K'). lia.
      + intros i j k NI J K'. rewrite V2; [|intros X; apply NI; right; exact X|exact J|exact K'].
        cbn [at_ with_mem]. apply O.
        assert (nc_id c <> i) as NE by (intros X; apply NI; left; exact X).
        pose proof (address_out K N (nc_id c) i j k NE J K'). lia.
  Qed.
End Scaling.

Section DGLobatto.
  Variables K N : nat.
  Variable kLocal : bool.
  Variable cell_to_flux : ncell -> nat -> nat -> vec.
  Variable at_node : ncell -> nface -> nat -> nat.
  Variable p : npart.
  Variable s : fem.
  Hypothesis KK : (0 < K)%nat.
  Hypothesis P : npart_ok N p.
  Hypothesis M : nodes_match at_node N p.

  Lemma touch_points c f : touches p c f -> nc_points c = N.
  Proof.
    destruct P as (_ & H & _ & HH & HS & HG & _). intros [[I ->]|[[I| I] ->]].
    - apply H, HH, I.
    - apply H, HS, I.
    - apply HG, I.
  Qed.
  Lemma match_some c f q : touches p c f -> (q < nf_points f)%nat -> MatchGaussianPoint c f q = Some (at_node c f q).
  Proof.
    intros T L. destruct (M c f T) as [A B]. destruct (A q L) as [A1 A2]. unfold MatchGaussianPoint.
    rewrite (touch_points c f T). apply first_near_finds; [lia|lia|exact A2|]. intros b Lb D. apply B; auto.
  Qed.

  Definition DGL_D (c : ncell) (j k : nat) : R :=
    rsum N (fun q => GetWeight kLocal c q * dot (local_flux kLocal cell_to_flux c q k) (nc_gradients c q j)).
  Definition DGL_G (t : contact) (j k : nat) : R :=
    if (at_node (k_cell t) (k_face t) (k_point t) =? j)%nat then - (nf_weight (k_face t) (k_point t) * outward t k) else 0.

  Lemma dot_vscale_l a x y : dot (vscale a x) y = a * dot x y.
  Proof. destruct x as [x1 x2 x3], y as [y1 y2 y3]. unfold dot, vscale. cbn [vx vy vz]. ring. Qed.

  Lemma DGL_div_effect c : In c (n_local_cells p) ->
    meffect K N (DGL_divergence K N kLocal cell_to_flux c (K * N * nc_id c)) (fun i j k => if_id (nc_id c) i (DGL_D c j k)).
  Proof.
    intros I. unfold DGL_divergence.
    eapply meffect_ext; [|apply meffect_total; apply (for_q_effect K N (nc_points c) _ (fun q i j k => if_id (nc_id c) i
      (dot (GetWeightedFluxMatrix kLocal cell_to_flux c q k) (nc_gradients c q j)))); intros q; apply add_effect].
    intros i j k J L. cbv beta. destruct P as (_ & H & _). destruct (H c I) as [_ ->].
    unfold if_id, DGL_D. destruct (nc_id c =? i)%nat; [|apply rsum_0].
    apply rsum_ext. intros q _. unfold GetWeightedFluxMatrix, local_flux. apply dot_vscale_l.
  Qed.
  Lemma contact_in t : In t (contacts at_node s p) ->
    touches p (k_cell t) (k_face t) /\ (k_point t < nf_points (k_face t))%nat /\ In (k_cell t) (n_local_cells p).
  Proof using P.
    clear KK. destruct P as (_ & _ & _ & HH & HS & _ & HB).
    unfold contacts. rewrite !in_app_iff. intros [I|[I|I]].
    - unfold inner_contacts in I. apply in_flat_map in I. destruct I as (f & F & I). unfold at_local in I.
      apply in_flat_map in I. destruct I as (q & Q & I). apply in_seq in Q.
      assert (A : In f (all_faces p)) by (apply in_or_app; left; exact F).
      destruct I as [<-|[<-|[]]]; cbn [k_cell k_face k_point]; (split; [|split; [lia|auto]]).
      + left; auto.
      + right; auto.
    - unfold boundary_contacts in I. apply in_flat_map in I. destruct I as ((fs, fl) & C & I).
      apply in_flat_map in I. destruct I as (f & F & I). unfold at_boundary in I. apply in_map_iff in I.
      destruct I as (q & <- & Q). apply in_seq in Q. cbn [k_cell k_face k_point].
      assert (X : exists name, fs = n_boundary_faces p name).
      { unfold n_conditions in C. rewrite !in_app_iff in C.
        destruct C as [C|[C|[C|[C|[C|C]]]]]; apply in_map_iff in C; destruct C as (x & E & _);
          try destruct x as [name g]; eexists; assert (Z := f_equal fst E); cbn in Z; symmetry; exact Z. }
      destruct X as (name & ->). pose proof (HB name f F) as B.
      assert (A : In f (all_faces p)) by (apply in_or_app; right; apply in_or_app; right; exact B).
      split; [left; auto|]. split; [lia|auto].
    - unfold ghost_contacts in I. apply in_flat_map in I. destruct I as (f & F & I). unfold at_ghost in I.
      apply in_map_iff in I. destruct I as (q & <- & Q). apply in_seq in Q. cbn [k_cell k_face k_point].
      assert (A : In f (all_faces p)) by (apply in_or_app; right; apply in_or_app; left; exact F).
      split; [left; auto|]. split; [lia|auto].
  Qed.
  Lemma DGL_put_effect t : In t (contacts at_node s p) ->
    meffect K N (DGL_put K N (k_holder t) (k_cell t) (k_face t) (k_point t) (at_node (k_cell t) (k_face t) (k_point t))
       (k_flux t) (K * N * nc_id (k_cell t))) (adds DGL_G t).
  Proof.
    intros I. destruct (contact_in t I) as (T & L & C). destruct (M _ _ T) as [A _]. destruct (A _ L) as [B _].
    destruct t as [c f q b flux]. cbn [k_cell k_face k_point k_holder k_flux] in *. unfold DGL_put.
    destruct b; [eapply meffect_ext; [|apply minus_value_effect; exact B]|eapply meffect_ext; [|apply add_value_effect; exact B]];
      intros i j k J KL; unfold adds, DGL_G, outward, if_id, scale; cbn [k_cell k_face k_point k_holder k_flux];
      destruct (nc_id c =? i)%nat; try reflexivity; destruct (at_node c f q =? j)%nat; try reflexivity; ring.
  Qed.

  Lemma of_cell_ext c l g h : (forall t, In t l -> nc_id (k_cell t) = nc_id c -> g t = h t) -> of_cell c l g = of_cell c l h.
  Proof.
    intros H. unfold of_cell. apply lsum_ext. intros t I. unfold if_id. destruct (Nat.eqb_spec (nc_id (k_cell t)) (nc_id c)); auto.
  Qed.
  Lemma of_cell_opp c l g : of_cell c l (fun t => - g t) = - of_cell c l g.
  Proof.
    unfold of_cell. rewrite <- lsum_opp. apply lsum_ext. intros. unfold if_id. destruct (_ =? _)%nat; ring.
  Qed.

  Theorem DGL_main : exists r, DGL_GetResidualColumn K N kLocal cell_to_flux s p = Some r
    /\ size r = (K * N * List.length (n_local_cells p))%nat
    /\ forall c j k, In c (n_local_cells p) -> (j < N)%nat -> (k < K)%nat ->
         at_ r (address K N (nc_id c) j k) = DGL_form at_node N kLocal cell_to_flux s p c j k.
  Proof.
    assert (HE : forall c f q, touches p c f -> (q < nf_points f)%nat ->
      MatchGaussianPoint c f q = Some (at_node c f q) /\ at_node c f q = at_node c f q) by (intros; split; [apply match_some; assumption|reflexivity]).
    unfold DGL_GetResidualColumn, DGL_construct.
    rewrite (construct_some N nat MatchGaussianPoint (fun e => e) at_node p P at_node HE). cbn [bind fst snd].
    destruct (residual_main K N nat MatchGaussianPoint (fun e => e) (fun _ _ => true) (DGL_put K N) (DGL_put K N true)
      (DGL_divergence K N kLocal cell_to_flux) at_node p s P at_node HE (fun _ _ _ _ => eq_refl) DGL_D DGL_div_effect
      DGL_G DGL_put_effect) as (r & E & S & V).
    { intros name t I J.
      destruct (in_conditions at_node p s (n_boundary_faces p name) n_sup_out t) as [H C]; [|exact J|].
      - unfold n_conditions. rewrite !in_app_iff. do 2 right. left. apply in_map_iff. exists name. auto.
      - pose proof (DGL_put_effect t C) as X. rewrite H in X. exact X. }
    rewrite E. cbn [bind]. unfold ScaleAll.
    destruct P as (ND & HC & _).
    destruct (scale_all K N (nn_cells p) (fun c q => 1 / GetWeight kLocal c q) (n_local_cells p) r KK ND HC S)
      as (r' & E' & S' & V1 & _).
    exists r'. split; [exact E'|]. split; [exact S'|]. intros c j k I J L. rewrite V1 by assumption. rewrite V by assumption.
    unfold DGL_form. fold (DGL_D c j k).
    rewrite (of_cell_ext c _ (fun t => DGL_G t j k) (fun t => - (if (at_node c (k_face t) (k_point t) =? j)%nat
      then nf_weight (k_face t) (k_point t) * outward t k else 0))).
    - rewrite of_cell_opp. unfold Rdiv. ring.
    - intros t It X. destruct (contact_in t It) as (_ & _ & C).
      unfold DGL_G. assert (k_cell t = c) as -> by (apply (same_ncell (n_local_cells p)); auto).
      destruct (_ =? _)%nat; ring.
  Qed.

  (** conservation *)
  Hypothesis W : forall c q, In c (n_local_cells p) -> (q < N)%nat -> GetWeight kLocal c q <> 0.
  Hypothesis G0 : forall c q, In c (n_local_cells p) -> (q < N)%nat ->
    rsum N (fun j => vx (nc_gradients c q j)) = 0 /\ rsum N (fun j => vy (nc_gradients c q j)) = 0
    /\ rsum N (fun j => vz (nc_gradients c q j)) = 0.

  Lemma rsum_pick n a f : (a < n)%nat -> rsum n (fun j => if (a =? j)%nat then f j else 0) = f a.
  Proof.
    intros L. rewrite (rsum_single n a); [rewrite Nat.eqb_refl; reflexivity|exact L|].
    intros j _ D. destruct (Nat.eqb_spec a j); [congruence|reflexivity].
  Qed.
  Lemma of_cell_rsum c l (f : nat -> contact -> R) n : rsum n (fun j => of_cell c l (f j)) = of_cell c l (fun t => rsum n (fun j => f j t)).
  Proof.
    unfold of_cell. induction l as [|t l IH]; cbn [lsum]; [apply rsum_0|].
    rewrite rsum_add, IH. f_equal. unfold if_id. destruct (_ =? _)%nat; [reflexivity|apply rsum_0].
  Qed.
  Lemma DGL_cell_balance c k : In c (n_local_cells p) ->
    rsum N (fun j => GetWeight kLocal c j * DGL_form at_node N kLocal cell_to_flux s p c j k)
    = - of_cell c (contacts at_node s p) (fun t => nf_weight (k_face t) (k_point t) * outward t k).
  Proof.
    intros I. rewrite (rsum_ext N _ (fun j => DGL_D c j k - of_cell c (contacts at_node s p) (fun t =>
         if (at_node c (k_face t) (k_point t) =? j)%nat then nf_weight (k_face t) (k_point t) * outward t k else 0))).
    2:{ intros j J. unfold DGL_form. fold (DGL_D c j k). field. apply W; assumption. }
    rewrite rsum_sub, of_cell_rsum.
    replace (rsum N (fun j => DGL_D c j k)) with 0.
    - rewrite Rminus_0_l. f_equal. apply of_cell_ext. intros t It X. destruct (contact_in t It) as (T & L & C).
      assert (k_cell t = c) as E by (apply (same_ncell (n_local_cells p)); auto; apply P). rewrite E in T.
      rewrite (rsum_pick N _ (fun _ => nf_weight (k_face t) (k_point t) * outward t k)); [reflexivity|].
      destruct (M _ _ T) as [A _]. apply A. exact L.
    - unfold DGL_D. rewrite rsum_swap. symmetry. erewrite rsum_ext; [apply rsum_0|]. intros q Lq. cbv beta.
      rewrite rsum_mul_l. destruct (G0 c q I Lq) as (A & B & C).
      destruct (local_flux kLocal cell_to_flux c q k) as [x y z]. unfold dot. cbn [vx vy vz].
      rewrite !rsum_add, !rsum_mul_l, A, B, C. ring.
  Qed.
End DGLobatto.

Lemma inner_cancels at_node N p s (w : contact -> R) k : npart_ok N p ->
  (forall f q b b', In f (n_local_faces p) -> (q < nf_points f)%nat -> forall c c' fl, w (Contact c f q b fl) = w (Contact c' f q b' fl)) ->
  lsum (n_local_cells p) (fun c => of_cell c (contacts at_node s p) (fun t => w t * outward t k))
  = lsum (boundary_contacts at_node s p) (fun t => w t * k_flux t k) + lsum (ghost_contacts at_node p) (fun t => w t * k_flux t k).
Proof.
  intros P H. unfold of_cell. rewrite lsum_swap.
  rewrite (lsum_ext (contacts at_node s p) _ (fun t => w t * outward t k)).
  2:{ intros t I. destruct (contact_in N at_node p s P t I) as (_ & _ & C).
      apply (npick (n_local_cells p) (k_cell t) (fun _ => w t * outward t k)); [apply P|exact C]. }
  unfold contacts. rewrite !lsum_app.
  replace (lsum (inner_contacts at_node p) (fun t => w t * outward t k)) with 0.
  - rewrite Rplus_0_l. f_equal.
    + unfold boundary_contacts. rewrite !lsum_flat_map. apply lsum_ext. intros (fs, fl) _. rewrite !lsum_flat_map.
      apply lsum_ext. intros f _. unfold at_boundary. rewrite !lsum_map. reflexivity.
    + unfold ghost_contacts. rewrite !lsum_flat_map. apply lsum_ext. intros f _. unfold at_ghost. rewrite !lsum_map. reflexivity.
  - unfold inner_contacts. rewrite lsum_flat_map. symmetry. erewrite lsum_ext; [apply lsum_zero|]. intros f I. cbv beta.
    unfold at_local. rewrite lsum_flat_map. erewrite lsum_ext; [apply lsum_zero|]. intros q L. cbv beta. cbn [lsum].
    unfold outward. cbn [k_holder k_flux]. apply in_seq in L.
    rewrite (H f q true false I ltac:(lia) (nholder f) (nsharer f)). ring.
Qed.

Theorem DGL_conservation K N kLocal cell_to_flux at_node p s : (0 < K)%nat -> npart_ok N p -> nodes_match at_node N p ->
  (forall c q, In c (n_local_cells p) -> (q < N)%nat -> GetWeight kLocal c q <> 0) ->
  (forall c q, In c (n_local_cells p) -> (q < N)%nat ->
    rsum N (fun j => vx (nc_gradients c q j)) = 0 /\ rsum N (fun j => vy (nc_gradients c q j)) = 0
    /\ rsum N (fun j => vz (nc_gradients c q j)) = 0) ->
  exists r, DGL_GetResidualColumn K N kLocal cell_to_flux s p = Some r
    /\ forall k, (k < K)%nat ->
         lsum (n_local_cells p) (n_integral N kLocal K r k)
         = - lsum (boundary_contacts at_node s p) (through k) - lsum (ghost_contacts at_node p) (through k).
Proof.
  intros KK P M W G0. destruct (DGL_main K N kLocal cell_to_flux at_node p s KK P M) as (r & E & _ & V).
  exists r. split; [exact E|]. intros k L.
  rewrite (lsum_ext (n_local_cells p) _ (fun c => - of_cell c (contacts at_node s p) (fun t => nf_weight (k_face t) (k_point t) * outward t k))).
  - rewrite lsum_opp.
    rewrite (inner_cancels at_node N p s (fun t => nf_weight (k_face t) (k_point t)) k P); [unfold through; ring|reflexivity].
  - intros c I. rewrite <- (DGL_cell_balance N kLocal cell_to_flux at_node p s P M W G0 c k I).
    unfold n_integral. apply rsum_ext. intros q Lq. rewrite V by assumption. reflexivity.
Qed.
