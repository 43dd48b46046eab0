From Coq Require Import Reals List Arith Lia Lra Bool String Permutation.
From Verif Require Import Vec3 Arrays RSum Poly Model_Geometry Model_Basis Model_Dofs Model_DG Model_Schemes Spec_DG Spec_Schemes Spec_FR
  Proof_Dofs Proof_DG Proof_Schemes Proof_DGLobatto.
Import ListNotations.
Open Scope R_scope.

(** ** Vectors *)
Lemma vnorm_unit n : vnorm n = 1 -> dot n n = 1.
Proof.
  unfold vnorm. intros H. rewrite <- (sqrt_sqrt (dot n n)); [rewrite H; ring|].
  destruct n as [a b c]. unfold dot. cbn [vx vy vz]. nra.
Qed.
Lemma dot_scales a b n : dot (vscale a n) (vscale b n) = a * b * dot n n.
Proof. destruct n as [x y z]. unfold dot, vscale. cbn [vx vy vz]. ring. Qed.
Lemma vnorm_scale a n : dot n n = 1 -> vnorm (vscale a n) = Rabs a.
Proof. intros H. unfold vnorm. rewrite dot_scales, H, Rmult_1_r. apply sqrt_Rsqr_abs. Qed.
Lemma collinear_scales a b n : dot n n = 1 -> a <> 0 -> b <> 0 -> Collinear (vscale a n) (vscale b n) = true.
Proof.
  intros H A B. unfold Collinear. rewrite dot_scales, !vnorm_scale, H by exact H. apply less_true.
  replace (Rabs (a * b * 1 / Rabs a / Rabs b)) with 1.
  - rewrite Rminus_diag_eq, Rabs_R0 by reflexivity. apply small.
  - unfold Rdiv. rewrite !Rabs_mult, !Rabs_inv, !Rabs_Rabsolu, Rabs_R1.
    assert (Rabs a <> 0) by (apply Rabs_no_R0; exact A). assert (Rabs b <> 0) by (apply Rabs_no_R0; exact B). field. auto.
Qed.
Lemma vscale_1 n : vscale 1 n = n.
Proof. destruct n as [x y z]. unfold vscale. cbn [vx vy vz]. f_equal; ring. Qed.
Lemma vneg_scale a n : vscale a (vneg n) = vscale (- a) n.
Proof. destruct n as [x y z]. unfold vscale, vneg. cbn [vx vy vz]. f_equal; ring. Qed.
Lemma vnorm_vneg n : vnorm (vneg n) = vnorm n.
Proof. unfold vnorm. f_equal. destruct n as [x y z]. unfold dot, vneg. cbn [vx vy vz]. ring. Qed.
Lemma dot_vscale_r a x y : dot x (vscale a y) = a * dot x y.
Proof. destruct x as [x1 x2 x3], y as [y1 y2 y3]. unfold dot, vscale. cbn [vx vy vz]. ring. Qed.

Lemma find_unique {A} (f : A -> bool) l x : In x l -> f x = true -> (forall y, In y l -> y <> x -> f y = false) ->
  (forall y z : A, {y = z} + {y <> z}) -> find f l = Some x.
Proof.
  induction l as [|a l IH]; intros I T U dec; [contradiction|]. cbn [find]. destruct (dec a x) as [->|D].
  - rewrite T. reflexivity.
  - rewrite U by (cbn; auto). destruct I as [->|I]; [contradiction|]. apply IH; auto. intros; apply U; cbn; auto.
Qed.

(** ** Locating points *)
Section Find.
  Variable Q : nat.
  Variable points : nat -> R.

  Lemma side_on_left i : on_left i = true /\ side i = -1 \/ on_left i = false /\ side i = 1.
  Proof. destruct i as [|[|[|[|[|i]]]]]; cbn; auto. Qed.
  Lemma side_sq i : side i * side i = 1.
  Proof. destruct (side_on_left i) as [[_ ->]|[_ ->]]; ring. Qed.
  Lemma face_on i a b : on_face i a b = face_point i a b. Proof. reflexivity. Qed.
  Lemma line_index_node i a b t : line_index Q i a b t = node_on_line Q i a b t.
  Proof. unfold line_index, node_on_line, Hexa_index. destruct i as [|[|[|[|[|[|i]]]]]]; ring. Qed.
  Lemma end_index_last i : end_index Q i = last_of Q i.
  Proof. unfold end_index, last_of, on_left. destruct i as [|[|[|[|[|i]]]]]; reflexivity. Qed.
  Lemma column_of_area m i : column_of m i = nth_column m (across i).
  Proof. destruct i as [|[|[|[|[|[|i]]]]]]; reflexivity. Qed.

  Variable c : ncell.
  Hypothesis S : well_separated Q points c.
  Lemma FindFaceId_found i : (i < 6)%nat -> FindFaceId c (nc_to_global c (face_point i 0 0)) = Some i.
  Proof.
    intros L. destruct S as [S1 _].
    assert (T : less (vnorm (vsub (nc_to_global c (face_point i 0 0)) (nc_to_global c (face_point i 0 0)))) (/ 10 ^ 10) = true)
      by (apply less_true; rewrite vnorm_same; apply small).
    assert (F : forall i', (i' < 6)%nat -> i' <> i ->
      less (vnorm (vsub (nc_to_global c (face_point i' 0 0)) (nc_to_global c (face_point i 0 0)))) (/ 10 ^ 10) = false)
      by (intros; apply less_false, S1; auto).
    unfold FindFaceId. cbv zeta.
    pose proof (F 0%nat ltac:(lia)) as F0. pose proof (F 1%nat ltac:(lia)) as F1. pose proof (F 2%nat ltac:(lia)) as F2.
    pose proof (F 3%nat ltac:(lia)) as F3. pose proof (F 4%nat ltac:(lia)) as F4. pose proof (F 5%nat ltac:(lia)) as F5.
    clear F.
    destruct i as [|[|[|[|[|[|i]]]]]]; [| | | | | |lia]; cbn [face_point] in *;
      rewrite ?F0, ?F1, ?F2, ?F3, ?F4, ?F5, ?T by lia; reflexivity.
  Qed.
  Lemma FindCollinearIndex_found i a b : (i < 6)%nat -> (a < Q)%nat -> (b < Q)%nat ->
    FindCollinearIndex Q points c (nc_to_global c (face_point i (points a) (points b))) i = (a, b).
  Proof.
    intros L A B. destruct S as [_ S2]. unfold FindCollinearIndex.
    rewrite (find_unique _ _ (a, b)); [reflexivity| | | |].
    - apply in_prod; apply in_seq; lia.
    - rewrite face_on. apply less_true. rewrite vnorm_same. apply small.
    - intros (a', b') I D. apply in_prod_iff in I. destruct I as [I1 I2]. apply in_seq in I1. apply in_seq in I2.
      rewrite face_on. apply less_false. apply S2; auto; lia.
    - intros [y1 y2] [z1 z2]. decide equality; apply Nat.eq_dec.
  Qed.
End Find.

(** ** Entries of the caches *)
Section Entries.
  Variables K Q : nat.
  Let N := (Q * Q * Q)%nat.
  Variable points : nat -> R.
  Variable place : ncell -> nface -> nat -> position.
  Variable D : nat -> nat -> R.
  Variable FluxMatrix : value -> nat -> vec.
  Variables degree : nat.
  Variable c_next : R.
  Hypothesis Q2 : (2 <= Q)%nat.
  Hypothesis P0 : points 0%nat = -1.
  Hypothesis P1 : points (Q - 1)%nat = 1.
  Variable p : npart.
  Variable s : fem.
  Hypothesis P : npart_ok N p.
  Hypothesis G : geometry_ok Q points place D p.

  Lemma node_lt i a b t : (a < Q)%nat -> (b < Q)%nat -> (t < Q)%nat -> (node_on_line Q i a b t < N)%nat.
  Proof.
    unfold N. clear. intros A B T. unfold node_on_line.
    assert (forall x y z, (x < Q)%nat -> (y < Q)%nat -> (z < Q)%nat -> ((x * Q + y) * Q + z < Q * Q * Q)%nat) as H.
    { intros x y z X Y Z. assert (x * Q + y <= Q * Q - 1)%nat by nia. nia. }
    destruct i as [|[|[|[|[|[|i]]]]]]; apply H; assumption.
  Qed.
  Lemma last_lt i : (last_of Q i < Q)%nat.
  Proof. unfold last_of. destruct i as [|[|[|[|[|i]]]]]; lia. Qed.
  Lemma node_inj i a b t t' : (a < Q)%nat -> (b < Q)%nat -> (t < Q)%nat -> (t' < Q)%nat ->
    node_on_line Q i a b t = node_on_line Q i a b t' -> t = t'.
  Proof. clear. unfold node_on_line. intros A B T T' E. destruct i as [|[|[|[|[|[|i]]]]]]; nia. Qed.

  (** what is known at a touching pair *)
  Lemma on_cell c f q : touches p c f -> (q < nf_points f)%nat ->
    nf_points f = (Q * Q)%nat /\ exists i a b n, place c f q = (i, (a, b)) /\ (i < 6)%nat /\ (a < Q)%nat /\ (b < Q)%nat
      /\ nf_center f = nc_to_global c (face_point i 0 0)
      /\ nf_coord f q = nc_to_global c (face_point i (points a) (points b))
      /\ 0 < vnorm (area Q c (place c f q)) /\ vnorm (nf_normal f q) = 1
      /\ (n = side i \/ n = - side i)
      /\ area Q c (place c f q) = vscale (n * vnorm (area Q c (place c f q))) (nf_normal f q)
      /\ (c = nholder f -> In f (all_faces p) -> n = side i).
  Proof.
    intros T L. destruct G as (_ & _ & GH & GS).
    destruct T as [[I E]|[I E]].
    - destruct (GH f I) as [Pf H]. rewrite <- E in H. split; [exact Pf|]. rewrite Pf in L. specialize (H q L).
      destruct (place c f q) as [i [a b]]. destruct H as (A1 & A2 & A3 & A4 & A5 & A6 & A7 & A8).
      exists i, a, b, (side i). repeat (split; [solve [auto]|]). auto.
    - destruct (GS f I) as [Pf H]. rewrite <- E in H. split; [exact Pf|]. rewrite Pf in L. pose proof (H q L) as H'.
      destruct (place c f q) as [i [a b]] eqn:EP. destruct H' as (A1 & A2 & A3 & A4 & A5 & A6 & A7 & A8).
      exists i, a, b, (- side i). rewrite vnorm_vneg in A7. rewrite vneg_scale in A8.
      repeat (split; [solve [auto]|]). split; [rewrite Ropp_mult_distr_l_reverse; exact A8|].
      intros E' I'. destruct (GH f I') as [_ H2]. rewrite <- E' in H2. specialize (H2 q L). rewrite EP in H2.
      destruct H2 as (_ & _ & _ & _ & _ & _ & _ & B8). exfalso.
      rewrite A8 in B8 at 1. apply (f_equal (fun v => dot v (nf_normal f q))) in B8.
      unfold dot, vscale in B8. cbn [vx vy vz] in B8. apply vnorm_unit in A7. unfold dot in A7.
      set (m := vnorm (area Q c (i, (a, b)))) in *. destruct (nf_normal f q) as [x y z]. cbn [vx vy vz] in *.
      assert (- (side i * m) * (x * x + y * y + z * z) = side i * m * (x * x + y * y + z * z)) as B by lra.
      rewrite A7 in B. destruct (side_on_left i) as [[_ Z]|[_ Z]]; rewrite Z in B; lra.
  Qed.

  Lemma coord_node c f q i a b : touches p c f -> (q < nf_points f)%nat -> place c f q = (i, (a, b)) ->
    nc_coord c (node_at Q (place c f q)) = nf_coord f q.
  Proof.
    intros T L E. destruct (on_cell c f q T L) as (_ & i' & a' & b' & n & E' & A1 & A2 & A3 & _ & A5 & _).
    rewrite E in E'. injection E' as <- <- <-. rewrite E, A5. destruct G as (GT & _). destruct (GT c f T) as [[TC _] _].
    unfold node_at, node_on_line, last_of, face_point.
    destruct i as [|[|[|[|[|[|i]]]]]]; [| | | | | |lia]; rewrite TC by lia; rewrite ?P0, ?P1; reflexivity.
  Qed.

  Definition ent (c : ncell) (f : nface) (q : nat) : line_cache :=
    let '(i, (a, b)) := place c f q in
    Line (map (fun t => (g_prime degree c_next i (points t), node_on_line Q i a b t)) (seq 0 Q))
      (area Q c (place c f q)) (side i * vnorm (area Q c (place c f q))) (node_at Q (place c f q)).
  Definition lent (c : ncell) (f : nface) (q : nat) : point_cache :=
    let '(i, (a, b)) := place c f q in
    Point (area Q c (place c f q)) (side i * vnorm (area Q c (place c f q)))
      (side i * LocalToRightDerivative degree (HuynhLumpingLobatto degree) 1) (node_at Q (place c f q)).

  Lemma checks c f q : touches p c f -> (q < nf_points f)%nat -> exists i a b,
    place c f q = (i, (a, b)) /\ FindFaceId c (nf_center f) = Some i
    /\ negb (Q * Q =? nf_points f)%nat = false
    /\ FindCollinearIndex Q points c (nf_coord f q) i = (a, b)
    /\ line_index Q i a b (end_index Q i) = node_at Q (place c f q)
    /\ negb (node_at Q (place c f q) <? nc_points c)%nat = false
    /\ negb (Near (nf_coord f q) (nc_coord c (node_at Q (place c f q)))) = false
    /\ column_of (nc_associated c (node_at Q (place c f q))) i = area Q c (place c f q)
    /\ negb (Collinear (nf_normal f q) (area Q c (place c f q))) = false.
  Proof.
    intros T L. destruct (on_cell c f q T L) as (Pf & i & a & b & n & E & A1 & A2 & A3 & A4 & A5 & A6 & A7 & A8 & A9 & _).
    exists i, a, b. destruct G as (GT & _). destruct (GT c f T) as [_ S].
    split; [exact E|]. split; [rewrite A4; apply (FindFaceId_found Q points); assumption|].
    split; [rewrite Pf, Nat.eqb_refl; reflexivity|].
    split; [rewrite A5; apply FindCollinearIndex_found; assumption|].
    split; [rewrite E, line_index_node, end_index_last; reflexivity|].
    split.
    { rewrite (touch_points N p P c f T). rewrite E. cbn [node_at].
      rewrite (proj2 (Nat.ltb_lt _ _)); [reflexivity|]. apply node_lt; auto using last_lt. }
    split; [rewrite (coord_node c f q i a b T L E), Near_same; reflexivity|].
    split; [rewrite column_of_area; unfold area; rewrite E; reflexivity|].
    rewrite A9. rewrite <- (vscale_1 (nf_normal f q)) at 1. rewrite collinear_scales; [reflexivity|apply vnorm_unit; exact A7|lra|].
    intros Z. apply Rmult_integral in Z. destruct (side_on_left i) as [[_ X]|[_ X]]; rewrite X in A8; lra.
  Qed.
  Lemma scale_is i x : (if on_left i then - x else x) = side i * x.
  Proof. destruct (side_on_left i) as [[-> ->]|[-> ->]]; ring. Qed.

  Lemma FR_entry_some c f q : touches p c f -> (q < nf_points f)%nat ->
    FR_entry Q points degree c_next c f q = Some (ent c f q) /\ fp_ijk (ent c f q) = place_node Q place c f q.
  Proof.
    intros T L. destruct (checks c f q T L) as (i & a & b & E & C1 & C2 & C3 & C4 & C5 & C6 & C7 & C8). split.
    - unfold ent. rewrite E in *. unfold FR_entry. rewrite C1. cbn [bind]. rewrite C2, C3. cbv zeta. rewrite C4, C5, C6, C7, C8.
      rewrite scale_is. apply f_equal. apply (f_equal (fun l => Line l _ _ _)).
      apply map_ext. intros t. rewrite line_index_node. reflexivity.
    - unfold ent, place_node. destruct (place c f q) as [i' [a' b']]. reflexivity.
  Qed.
  Lemma FRL_entry_some c f q : touches p c f -> (q < nf_points f)%nat ->
    FRL_entry Q points degree c f q = Some (lent c f q) /\ pc_ijk (lent c f q) = place_node Q place c f q.
  Proof.
    intros T L. destruct (checks c f q T L) as (i & a & b & E & C1 & C2 & C3 & C4 & C5 & C6 & C7 & C8). split.
    - unfold lent. rewrite E in *. unfold FRL_entry. cbv zeta. rewrite C1. cbn [bind]. rewrite C2, C3, C4, C5, C6, C7, C8.
      rewrite !scale_is. reflexivity.
    - unfold lent, place_node. destruct (place c f q) as [i' [a' b']]. reflexivity.
  Qed.

  Lemma both_collinear f q : In f (n_local_faces p) \/ In f (n_ghost_faces p) -> (q < nf_points f)%nat ->
    Collinear (area Q (nholder f) (place (nholder f) f q)) (area Q (nsharer f) (place (nsharer f) f q)) = true.
  Proof.
    intros I L.
    assert (Th : touches p (nholder f) f).
    { left. split; [|reflexivity]. unfold all_faces. rewrite !in_app_iff. tauto. }
    assert (Ts : touches p (nsharer f) f) by (right; auto).
    destruct (on_cell _ _ _ Th L) as (_ & i & a & b & n & _ & _ & _ & _ & _ & _ & A6 & A7 & A8 & A9 & _).
    destruct (on_cell _ _ _ Ts L) as (_ & i' & a' & b' & n' & _ & _ & _ & _ & _ & _ & B6 & B7 & B8 & B9 & _).
    rewrite A9, B9. apply collinear_scales; [apply vnorm_unit; exact A7| |].
    - intros Z. apply Rmult_integral in Z. destruct (side_on_left i) as [[_ X]|[_ X]]; rewrite X in A8; lra.
    - intros Z. apply Rmult_integral in Z. destruct (side_on_left i') as [[_ X]|[_ X]]; rewrite X in B8; lra.
  Qed.

  (** ** Effects *)
  Lemma fold_sum n (g : nat -> R) : forall v b, fold_left (fun v k => v + g k) (seq b n) v = v + rsum n (fun k => g (b + k)%nat).
  Proof.
    induction n as [|n IH]; intros v b; [cbn; ring|]. cbn [seq fold_left]. rewrite IH, rsum_first, Nat.add_0_r.
    rewrite (rsum_ext n _ (fun k => g (b + S k)%nat)) by (intros; f_equal; lia). ring.
  Qed.
  Lemma FR_div_effect c : In c (n_local_cells p) ->
    meffect K N (FR_divergence K Q FluxMatrix c (K * N * nc_id c))
      (fun i j k => if_id (nc_id c) i (- divergence_at Q FluxMatrix c j k)).
  Proof.
    intros I. unfold FR_divergence. cbv zeta. fold N. destruct P as (_ & H & _). destruct (H c I) as [_ ->].
    eapply meffect_ext; [|apply (meffect_seq K N _ N (fun q i j k => if_id (nc_id c) i (if (q =? j)%nat then - divergence_at Q FluxMatrix c j k else 0)))].
    - intros i j k J L. cbv beta. unfold if_id. destruct (nc_id c =? i)%nat; [|apply rsum_0].
      rewrite (rsum_single N j); [|exact J|intros q _ D'; destruct (Nat.eqb_spec q j); [congruence|reflexivity]].
      rewrite Nat.eqb_refl. reflexivity.
    - intros q Lq. eapply meffect_ext; [|apply minus_value_effect; exact Lq].
      intros i j k J L. cbv beta. unfold if_id. destruct (nc_id c =? i)%nat; [|reflexivity].
      destruct (Nat.eqb_spec q j) as [->|]; [|reflexivity]. f_equal.
      rewrite fold_sum. unfold divergence_at. fold N. assert (E : N = S (N - 1)) by (unfold N in *; nia).
      rewrite E at 2. rewrite rsum_first. f_equal. 
  Qed.

  Definition FR_G (t : contact) (j k : nat) : R :=
    let '(i, (a, b)) := place (k_cell t) (k_face t) (k_point t) in
    rsum Q (fun m => if (node_on_line Q i a b m =? j)%nat then - (jump Q place FluxMatrix t k * g_prime degree c_next i (points m)) else 0).
  Definition FRL_G (t : contact) (j k : nat) : R :=
    let x := place (k_cell t) (k_face t) (k_point t) in
    if (node_at Q x =? j)%nat
    then - (jump Q place FluxMatrix t k * (side (fst x) * LocalToRightDerivative degree (HuynhLumpingLobatto degree) 1)) else 0.

  Lemma difference_jump t k : place (k_cell t) (k_face t) (k_point t) = place (k_cell t) (k_face t) (k_point t) ->
    let x := place (k_cell t) (k_face t) (k_point t) in
    difference FluxMatrix (k_holder t) (k_cell t) (area Q (k_cell t) x) (side (fst x) * vnorm (area Q (k_cell t) x)) (node_at Q x) (k_flux t) k
    = jump Q place FluxMatrix t k.
  Proof. intros _ x. unfold difference, jump, outward. fold x. destruct (k_holder t); ring. Qed.

  Lemma FR_put_effect t : In t (contacts (place_node Q place) s p) ->
    meffect K N (FR_put K Q FluxMatrix (k_holder t) (k_cell t) (k_face t) (k_point t) (ent (k_cell t) (k_face t) (k_point t))
       (k_flux t) (K * N * nc_id (k_cell t))) (adds FR_G t).
  Proof.
    intros I. destruct (contact_in N _ p s P t I) as (T & L & C).
    destruct (on_cell _ _ _ T L) as (_ & i & a & b & n & E & A1 & A2 & A3 & _).
    pose proof (fun k => difference_jump t k eq_refl) as J. cbv zeta in J.
    unfold FR_put, ent, adds, FR_G. rewrite E in *. cbn [solution_points fp_normal fp_scale fp_ijk fst] in *. fold N.
    eapply meffect_ext; [|apply (meffect_foldM K N _ _ (fun x i' j k => if_id (nc_id (k_cell t)) i'
       (if (snd x =? j)%nat then - (jump Q place FluxMatrix t k * fst x) else 0)))].
    - intros i' j k Lj Lk. cbv beta. rewrite lsum_map, lsum_seq. cbn [fst snd]. unfold if_id.
      destruct (_ =? i')%nat; [reflexivity|apply rsum_0].
    - intros (g, ijk) X. apply in_map_iff in X. destruct X as (m & X & Lm). apply in_seq in Lm. injection X as <- <-. cbn [fst snd].
      eapply meffect_ext; [|apply minus_value_effect; apply node_lt; auto; lia].
      intros i' j k Lj Lk. cbv beta. rewrite J. reflexivity.
  Qed.
  Lemma FRL_put_effect t : In t (contacts (place_node Q place) s p) ->
    meffect K N (FRL_put K Q FluxMatrix (k_holder t) (k_cell t) (k_face t) (k_point t) (lent (k_cell t) (k_face t) (k_point t))
       (k_flux t) (K * N * nc_id (k_cell t))) (adds FRL_G t).
  Proof.
    intros I. destruct (contact_in N _ p s P t I) as (T & L & C).
    destruct (on_cell _ _ _ T L) as (_ & i & a & b & n & E & A1 & A2 & A3 & _).
    pose proof (fun k => difference_jump t k eq_refl) as J. cbv zeta in J.
    unfold FRL_put, lent, adds, FRL_G. rewrite E in *. cbn [pc_normal pc_scale pc_g_prime pc_ijk fst] in *. fold N.
    eapply meffect_ext; [|apply minus_value_effect; cbn [node_at]; apply node_lt; auto using last_lt].
    intros i' j k Lj Lk. cbv beta. rewrite J. reflexivity.
  Qed.

  Hypothesis O : outlet_ok Q place FluxMatrix s p.
  Lemma outlet_zero name t : In name (supersonic_outlet s) ->
    In t (flat_map (at_boundary (place_node Q place) n_sup_out) (n_boundary_faces p name)) ->
    In t (contacts (place_node Q place) s p) /\ k_holder t = true /\ forall k, jump Q place FluxMatrix t k = 0.
  Proof.
    intros In1 J.
    destruct (in_conditions (place_node Q place) p s (n_boundary_faces p name) n_sup_out t) as [H C]; [|exact J|].
    { unfold n_conditions. rewrite !in_app_iff. do 2 right. left. apply in_map_iff. exists name. auto. }
    split; [exact C|]. split; [exact H|]. intros k.
    destruct (contact_in N _ p s P t C) as (T & L & _).
    apply in_flat_map in J. destruct J as (f & F & J). unfold at_boundary in J. apply in_map_iff in J.
    destruct J as (q & Et & Lq). apply in_seq in Lq. subst t. cbn [k_cell k_face k_point k_holder k_flux] in *.
    pose proof (O name f q k In1 F L) as OK.
    destruct (on_cell _ _ _ T L) as (_ & i & a & b & n & E & A1 & A2 & A3 & _ & _ & A6 & A7 & _ & A9 & A10).
    assert (If : In f (all_faces p)).
    { unfold all_faces. rewrite !in_app_iff. right. right. destruct P as (_ & _ & _ & _ & _ & _ & B). apply (B name). exact F. }
    rewrite (A10 eq_refl If) in A9. unfold jump, outward. cbn [k_cell k_face k_point k_holder k_flux]. unfold n_sup_out. rewrite OK.
    unfold value_at, place_node. rewrite E in *. cbn [fst].
    set (F0 := FluxMatrix (nc_value (nholder f) (node_at Q (i, (a, b)))) k). rewrite A9 at 2. rewrite dot_vscale_r. ring.
  Qed.
  Lemma norm_zero n v : (forall i, v i = 0) -> norm_n n v = 0.
  Proof.
    intros H. unfold norm_n. rewrite (rsum_ext n _ (fun _ => 0)) by (intros; rewrite H; ring). rewrite rsum_0. apply sqrt_0.
  Qed.
  Lemma foldM_ext {A S} (f g : S -> A -> option S) l : (forall s x, In x l -> f s x = g s x) -> forall s, foldM f l s = foldM g l s.
  Proof.
    clear. induction l as [|x l IH]; intros H s; [reflexivity|]. cbn [foldM]. rewrite (H s x (or_introl eq_refl)).
    destruct (g s x); [|reflexivity]. cbn [bind]. apply IH. intros; apply H; right; assumption.
  Qed.
  Lemma FR_outlet_effect name t : In name (supersonic_outlet s) ->
    In t (flat_map (at_boundary (place_node Q place) n_sup_out) (n_boundary_faces p name)) ->
    meffect K N (FR_put_outlet K Q FluxMatrix (k_cell t) (k_face t) (k_point t) (ent (k_cell t) (k_face t) (k_point t))
       (k_flux t) (K * N * nc_id (k_cell t))) (adds FR_G t).
  Proof.
    intros I J. destruct (outlet_zero name t I J) as (C & H & Z). pose proof (FR_put_effect t C) as X. rewrite H in X.
    intros m. destruct (X m) as (m' & E & V). exists m'. split; [|exact V]. rewrite <- E. unfold FR_put_outlet, FR_put. cbv zeta.
    apply foldM_ext. intros m0 (g, ijk) _. rewrite less_true; [reflexivity|]. rewrite norm_zero; [apply small|]. intros r.
    pose proof (difference_jump t r eq_refl) as DJ. cbv zeta in DJ. rewrite H, Z in DJ. unfold ent.
    destruct (place (k_cell t) (k_face t) (k_point t)) as [i [a b]]. cbn [fp_normal fp_scale fp_ijk fst] in *. rewrite DJ. ring.
  Qed.
  Lemma FRL_outlet_effect name t : In name (supersonic_outlet s) ->
    In t (flat_map (at_boundary (place_node Q place) n_sup_out) (n_boundary_faces p name)) ->
    meffect K N (FRL_put_outlet K Q FluxMatrix (k_cell t) (k_face t) (k_point t) (lent (k_cell t) (k_face t) (k_point t))
       (k_flux t) (K * N * nc_id (k_cell t))) (adds FRL_G t).
  Proof.
    intros I J. destruct (outlet_zero name t I J) as (C & H & Z). pose proof (FRL_put_effect t C) as X. rewrite H in X.
    intros m. destruct (X m) as (m' & E & V). exists m'. split; [|exact V]. rewrite <- E. unfold FRL_put_outlet, FRL_put. cbv zeta.
    rewrite less_true; [reflexivity|]. rewrite norm_zero; [apply small|]. intros r.
    pose proof (difference_jump t r eq_refl) as DJ. cbv zeta in DJ. rewrite H, Z in DJ. unfold lent.
    destruct (place (k_cell t) (k_face t) (k_point t)) as [i [a b]]. cbn [pc_normal pc_scale pc_ijk fst] in *. rewrite DJ. ring.
  Qed.

  (** ** The residuals *)
  Theorem FR_main : exists r, FR_GetResidualColumn K Q points degree c_next FluxMatrix s p = Some r
    /\ size r = (K * N * List.length (n_local_cells p))%nat
    /\ forall c j k, In c (n_local_cells p) -> (j < N)%nat -> (k < K)%nat ->
         at_ r (address K N (nc_id c) j k)
         = FR_form Q points place FluxMatrix (LocalToLeftDerivative degree c_next) (LocalToRightDerivative degree c_next) s p c j k.
  Proof.
    unfold FR_GetResidualColumn, FR_construct. fold N.
    rewrite (construct_some N line_cache (FR_entry Q points degree c_next) fp_ijk (place_node Q place) p P ent FR_entry_some).
    cbn [bind fst snd].
    destruct (residual_main K N line_cache (FR_entry Q points degree c_next) fp_ijk (fun a b => Collinear (fp_normal a) (fp_normal b))
      (FR_put K Q FluxMatrix) (FR_put_outlet K Q FluxMatrix) (FR_divergence K Q FluxMatrix) (place_node Q place) p s P ent FR_entry_some)
      with (D := fun c j k => - divergence_at Q FluxMatrix c j k) (G := FR_G) as (r & E & Sz & V).
    - intros f q I L. unfold ent. pose proof (both_collinear f q I L) as B.
      destruct (place (nholder f) f q) as [i [a b]]. destruct (place (nsharer f) f q) as [i' [a' b']]. exact B.
    - apply FR_div_effect.
    - apply FR_put_effect.
    - apply FR_outlet_effect.
    - exists r. split; [exact E|]. split; [exact Sz|]. intros c j k I J L. rewrite V by assumption. unfold FR_form.
      unfold Rminus. rewrite <- of_cell_opp. f_equal. apply of_cell_ext. intros t _ _. unfold FR_G.
      destruct (place (k_cell t) (k_face t) (k_point t)) as [i [a b]]. rewrite <- rsum_opp. apply rsum_ext. intros m _.
      unfold g_prime, correction_prime. destruct i as [|[|[|[|[|i]]]]]; cbn [on_left]; destruct (_ =? j)%nat; ring.
  Qed.
  Lemma FR_construct_some : exists x, FR_construct Q points degree c_next p = Some x.
  Proof.
    unfold FR_construct. eexists.
    apply (construct_some N line_cache (FR_entry Q points degree c_next) fp_ijk (place_node Q place) p P ent FR_entry_some).
  Qed.
  Theorem FRL_main : (exists x, FR_construct Q points degree (HuynhLumpingLobatto degree) p = Some x) -> exists r, FRL_GetResidualColumn K Q points degree FluxMatrix s p = Some r
    /\ size r = (K * N * List.length (n_local_cells p))%nat
    /\ forall c j k, In c (n_local_cells p) -> (j < N)%nat -> (k < K)%nat ->
         at_ r (address K N (nc_id c) j k)
         = FRL_form Q place FluxMatrix (LocalToRightDerivative degree (HuynhLumpingLobatto degree)) s p c j k.
  Proof.
    intros (x & BC). unfold FRL_GetResidualColumn, FRL_construct. fold N. rewrite BC. cbn [bind]. clear BC.
    rewrite (construct_some N point_cache (FRL_entry Q points degree) pc_ijk (place_node Q place) p P lent FRL_entry_some).
    cbn [bind fst snd].
    destruct (residual_main K N point_cache (FRL_entry Q points degree) pc_ijk (fun a b => Collinear (pc_normal a) (pc_normal b))
      (FRL_put K Q FluxMatrix) (FRL_put_outlet K Q FluxMatrix) (FR_divergence K Q FluxMatrix) (place_node Q place) p s P lent FRL_entry_some)
      with (D := fun c j k => - divergence_at Q FluxMatrix c j k) (G := FRL_G) as (r & E & Sz & V).
    - intros f q I L. unfold lent. pose proof (both_collinear f q I L) as B.
      destruct (place (nholder f) f q) as [i [a b]]. destruct (place (nsharer f) f q) as [i' [a' b']]. exact B.
    - apply FR_div_effect.
    - apply FRL_put_effect.
    - apply FRL_outlet_effect.
    - exists r. split; [exact E|]. split; [exact Sz|]. intros c j k I J L. rewrite V by assumption. unfold FRL_form.
      unfold Rminus. rewrite <- of_cell_opp. f_equal. apply of_cell_ext. intros t _ _. unfold FRL_G.
      destruct (_ =? j)%nat; ring.
  Qed.
End Entries.
