(** The gradients and Hessians of the functions interpolated at the Gauss points of a hexahedron. *)
From Coq Require Import Reals List Arith Lia Lra Permutation.
From Verif Require Import Vec3 RSum Model_Basis Spec_Basis Model_Shapes Model_Geometry Spec_Shapes Proof_Vincent Proof_Shapes Proof_Geometry Model_Nodal Spec_Nodal
  Proof_Chain Proof_NodalBasis Proof_Nodal.
Import ListNotations.
Open Scope R_scope.

(** the index of the pair of axes [a], [c] in the order XX, XY, XZ, YY, YZ, ZZ *)
Definition pair_index (a c : nat) : nat :=
  match a, c with
  | 0, 0 => 0 | 0, 1 | 1, 0 => 1 | 0, 2 | 2, 0 => 2 | 1, 1 => 3 | 1, 2 | 2, 1 => 4 | _, _ => 5
  end%nat.

Section Geometry.
Variables (h : Hexa) (nodes : list vec).
Hypothesis Hh : In h hexas.
Hypothesis Hn : built (h_element h) nodes.
Let e := h_element h.
Let P (x y z : R) : vec := LocalToGlobal e nodes x y z.
Let J (b : nat) (x y z : R) : vec := LocalToJacobian e nodes x y z b.
Let G (a b : nat) (x y z : R) : vec := LocalToJacobianGradient h nodes x y z a b.
Let K (k b : nat) (x y z : R) : vec := LocalToJacobianHessian h nodes x y z k b.
Lemma K_partial_any a c b x y z : (a < 3)%nat -> (c < 3)%nat -> (b < 3)%nat ->
  is_partial_vec [axis_of a] (G c b) x y z (K (pair_index a c) b x y z).
Proof.
  intros Ha Hc Hb.
  apply (partial_vec_head _ (axis_of c) (J b)); [intros; apply G_partial; assumption|].
  apply (partial_vec_head _ (axis_of b) P); [intros; apply J_partial; assumption|].
  assert (forall t w, (t < 10)%nat -> nth t third [] = w -> Permutation w [axis_of b; axis_of c; axis_of a] ->
    is_partial_vec [axis_of b; axis_of c; axis_of a] P x y z
      (weighted nodes (column t (h_tensors h R RealOps x y z)))) as T.
  { intros t w Ht Ew Pm. subst w. apply (LocalToGlobal_perm e nodes _ _ _ _ _ _ (hexas_elements h Hh) Hn Pm). apply tensor_partial; assumption. }
  unfold K, LocalToJacobianHessian.
  assert (forall u v w : axis, Permutation [u; v; w] [w; u; v]) as Rot
    by (intros; apply (Permutation_app_comm [u; v] [w])).
  assert (forall u v w : axis, Permutation [u; v; w] [w; v; u]) as Rev
    by (intros u v w; exact (Permutation_rev [u; v; w])).
  destruct a as [|[|[|a]]]; try lia; destruct c as [|[|[|c]]]; try lia; destruct b as [|[|[|b]]]; try lia; cbn [pair_index];
    (eapply T; [|reflexivity|]; [lia|]); cbn [axis_of];
    solve [apply Permutation_refl | apply perm_swap | apply Rot | apply perm_skip, perm_swap
          | apply Rev | apply Permutation_sym, Rot | eapply perm_trans; [apply Rot|apply perm_swap]].
Qed.
Lemma ddet_partial_any a c : (a < 3)%nat -> (c < 3)%nat -> is_partial1 (axis_of a) (ddet h nodes c) (dddet h nodes (pair_index a c)).
Proof.
  intros Ha Hc.
  assert (forall i, (i < 3)%nat -> forall x y z, is_partial_vec [axis_of a] (J i) x y z (G a i x y z)) as GJ
    by (intros; apply G_partial; assumption).
  assert (forall i, (i < 3)%nat -> forall x y z, is_partial_vec [axis_of a] (G c i) x y z (K (pair_index a c) i x y z)) as KG
    by (intros; apply K_partial_any; assumption).
  assert (0 < 3)%nat as L0 by lia. assert (1 < 3)%nat as L1 by lia. assert (2 < 3)%nat as L2 by lia.
  eapply partial1_ext; [exact (partial1_add _ _ _ _ _ (partial1_add _ _ _ _ _
    (det_partial (axis_of a) (G c 0) (J 1) (J 2) _ _ _ (KG 0%nat L0) (GJ 1%nat L1) (GJ 2%nat L2))
    (det_partial (axis_of a) (J 0) (G c 1) (J 2) _ _ _ (GJ 0%nat L0) (KG 1%nat L1) (GJ 2%nat L2)))
    (det_partial (axis_of a) (J 0) (J 1) (G c 2) _ _ _ (GJ 0%nat L0) (GJ 1%nat L1) (KG 2%nat L2)))|reflexivity|].
  intros x y z. unfold dddet. unfold J, G, K, e in *.
  destruct a as [|[|[|a]]]; try lia; destruct c as [|[|[|c]]]; try lia; cbn [pair_index pair_of fst snd]; ring.
Qed.
End Geometry.

Section Main.
Variables (p : Nodal) (k : nat).
Hypothesis HW : well_built p.
Let h := n_cell p. Let nodes := n_nodes p. Let b := n_basis p. Let N := b_N b.
Let Hh : In h hexas := proj1 HW.
Let Hb : built (h_element h) nodes := proj1 (proj2 HW).

Definition Ud (i j l : nat) (q : vec) : R := rsum N (fun n => n_coeff p k n * dB b i j l n (vx q) (vy q) (vz q)).
Definition U0 := Ud 0 0 0.
Definition U1 (a : nat) : vec -> R := match a with 0%nat => Ud 1 0 0 | 1%nat => Ud 0 1 0 | _ => Ud 0 0 1 end.
Definition U2 (a c : nat) : vec -> R :=
  match pair_index a c with 0 => Ud 2 0 0 | 1 => Ud 1 1 0 | 2 => Ud 1 0 1 | 3 => Ud 0 2 0 | 4 => Ud 0 1 1 | _ => Ud 0 0 2 end%nat.
Definition Mr (c : nat) (l : vec) : vec := LocalToJacobian (h_element h) nodes (vx l) (vy l) (vz l) c.
Definition Gr (a c : nat) (l : vec) : vec := LocalToJacobianGradient h nodes (vx l) (vy l) (vz l) a c.
Definition Jd (l : vec) : R := detJ h nodes (vx l) (vy l) (vz l).
Definition J1 (a : nat) (l : vec) : R := ddet h nodes a (vx l) (vy l) (vz l).
Definition J2 (a c : nat) (l : vec) : R := dddet h nodes (pair_index a c) (vx l) (vy l) (vz l).

Lemma along_partial1 a (f df : R -> R -> R -> R) l : (a < 3)%nat -> is_partial1 (axis_of a) f df ->
  along a (fun l => f (vx l) (vy l) (vz l)) l (df (vx l) (vy l) (vz l)).
Proof. intros Ha H. exact (partial1_move a f df l Ha H). Qed.
Lemma along_partial_vec a (f df : R -> R -> R -> vec) l : (a < 3)%nat -> (forall x y z, is_partial_vec [axis_of a] f x y z (df x y z)) ->
  along_vec a (fun l => f (vx l) (vy l) (vz l)) l (df (vx l) (vy l) (vz l)).
Proof.
  intros Ha H. split; [|split].
  - apply (along_partial1 a (fun x y z => vx (f x y z)) (fun x y z => vx (df x y z))); [exact Ha|]. apply partial1_of. intros; apply H.
  - apply (along_partial1 a (fun x y z => vy (f x y z)) (fun x y z => vy (df x y z))); [exact Ha|]. apply partial1_of. intros; apply H.
  - apply (along_partial1 a (fun x y z => vz (f x y z)) (fun x y z => vz (df x y z))); [exact Ha|]. apply partial1_of. intros; apply H.
Qed.
Lemma X_along a l : (a < 3)%nat -> along_vec a (to_global p) l (Mr a l).
Proof. intros Ha. apply (along_partial_vec a _ (fun x y z => LocalToJacobian (h_element h) nodes x y z a)); [exact Ha|]. intros. apply J_partial; assumption. Qed.
Lemma M_along a c l : (a < 3)%nat -> (c < 3)%nat -> along_vec a (Mr c) l (Gr a c l).
Proof.
  intros Ha Hc. apply (along_partial_vec a (fun x y z => LocalToJacobian (h_element h) nodes x y z c) (fun x y z => LocalToJacobianGradient h nodes x y z a c)); [exact Ha|].
  intros. apply G_partial; assumption.
Qed.
Lemma J_along a l : (a < 3)%nat -> along a Jd l (J1 a l).
Proof. intros Ha. apply along_partial1; [exact Ha|]. apply detJ_partial; assumption. Qed.
Lemma J1_along a c l : (a < 3)%nat -> (c < 3)%nat -> along a (J1 c) l (J2 a c l).
Proof. intros Ha Hc. apply along_partial1; [exact Ha|]. apply ddet_partial_any; assumption. Qed.
Lemma Ud_along a i j m l : (a < 3)%nat ->
  let i' := match a with 0%nat => S i | _ => i end in
  let j' := match a with 1%nat => S j | _ => j end in
  let m' := match a with 2%nat => S m | _ => m end in
  (i' < length (b_x b))%nat -> (j' < length (b_y b))%nat -> (m' < length (b_z b))%nat ->
  along a (Ud i j m) l (Ud i' j' m' l).
Proof.
  intros Ha i' j' m' Hi Hj Hm. unfold along, Ud.
  apply (derivable_rsum _ (fun n t => n_coeff p k n * dB b i j m n (vx (move l a t)) (vy (move l a t)) (vz (move l a t)))).
  intros n Hn. apply (derivable_pt_lim_scal (fun t => dB b i j m n (vx (move l a t)) (vy (move l a t)) (vz (move l a t)))).
  apply (partial1_move a (dB b i j m n) (dB b i' j' m' n) l Ha). apply dB_partial; assumption.
Qed.
Hypothesis L2 : orders_ok b 1 1 1 = true.
Lemma lengths2 : (1 < length (b_x b) /\ 1 < length (b_y b) /\ 1 < length (b_z b))%nat.
Proof.
  unfold orders_ok in L2. apply andb_prop in L2. destruct L2 as [H H3]. apply andb_prop in H. destruct H as [H1 H2].
  apply Nat.ltb_lt in H1, H2, H3. auto.
Qed.
Lemma U_along a l : (a < 3)%nat -> along a U0 l (U1 a l).
Proof.
  intros Ha. destruct lengths2 as (X & Y & Z). unfold U0, U1.
  destruct a as [|[|[|a]]]; [..|lia]; apply Ud_along; lia.
Qed.
Lemma value_U l : LocalToValue p l k = U0 l / Jd l.
Proof.
  pose proof HW as (_ & _ & Dx & Dy & Dz & Mx & My & Mz). unfold LocalToValue, combine_with. f_equal. unfold U0, Ud. apply rsum_ext. intros n Hn.
  rewrite GetValues_nth; auto.
Qed.
Lemma value_U_global l : LocalToValue_global p l k = U0 l / 1.
Proof.
  pose proof HW as (_ & _ & Dx & Dy & Dz & Mx & My & Mz). unfold LocalToValue_global, combine_with. unfold Rdiv. rewrite Rinv_1, Rmult_1_r. unfold U0, Ud.
  apply rsum_ext. intros n Hn. rewrite GetValues_nth; auto.
Qed.
Lemma local_gradient_value l : LocalToLocalGradient p l k = Some (V (U1 0 l) (U1 1 l) (U1 2 l)).
Proof.
  destruct lengths2 as (X & Y & Z).
  assert (orders_ok b 1 0 0 = true /\ orders_ok b 0 1 0 = true /\ orders_ok b 0 0 1 = true) as (O1 & O2 & O3).
  { unfold orders_ok. repeat split; rewrite !(proj2 (Nat.ltb_lt _ _)) by lia; reflexivity. }
  unfold LocalToLocalGradient, gradients_at, GetDerivatives. fold b. rewrite O1, O2, O3. cbn [option_map]. unfold sum_columns, column3. cbn [vx vy vz].
  fold b N. f_equal. unfold U1, Ud. f_equal; apply rsum_ext; intros n Hn; rewrite Hexa_GetDerivatives_nth by exact Hn; ring.
Qed.
Lemma GetLocalGradient_point ijk : GetLocalGradient p ijk k = LocalToLocalGradient p (point p ijk) k.
Proof. reflexivity. Qed.

(** ** gradients *)
Lemma jacobian_rows l : jacobian p l = M3 (Mr 0 l) (Mr 1 l) (Mr 2 l).
Proof. reflexivity. Qed.
Lemma gradient_solution f l g (j : vec -> R) (j1 : nat -> vec -> R) : (forall a l, (a < 3)%nat -> along a j l (j1 a l)) ->
  j l <> 0 -> Jd l <> 0 -> represented (to_global p) (q j U0) f l ->
  has_gradient f (to_global p l) g ->
  g = mcol (minv (jacobian p l)) (V (w j j1 U0 U1 0 l) (w j j1 U0 U1 1 l) (w j j1 U0 U1 2 l)).
Proof.
  intros Hj Nj Nd HR Hg. apply solve_unique; [exact Nd|].
  assert (forall a, (a < 3)%nat -> dot (Mr a l) g = w j j1 U0 U1 a l) as E.
  { intros a Ha. rewrite <- (gradient_equation (to_global p) Mr j j1 U0 U1 X_along Hj U_along f l g a Ha Nj HR Hg). unfold dot. ring. }
  rewrite jacobian_rows. unfold mcol. cbn [r0 r1 r2]. rewrite !E by lia. reflexivity.
Qed.
Lemma det_gradient_J1 l : Jd l <> 0 -> det_gradient p l = V (J1 0 l) (J1 1 l) (J1 2 l).
Proof. intros Nd. unfold det_gradient. rewrite !ddet_formula by exact Nd. reflexivity. Qed.
Lemma represented_ext X u v f l : (forall l, u l = v l) -> represented X u f l -> represented X v f l.
Proof. intros E (r & Hr & H). exists r. split; [exact Hr|]. intros l' Hl. rewrite <- E. apply H, Hl. Qed.

Lemma local_to_global_gradient f l g : mdet (jacobian p l) <> 0 ->
  represented (to_global p) (fun l => LocalToValue p l k) f l -> has_gradient f (to_global p l) g ->
  LocalToGlobalGradient p l k = Some g.
Proof.
  intros Nd HR Hg. change (Jd l <> 0) in Nd.
  pose proof (represented_ext _ _ (q Jd U0) f l value_U HR) as HR'.
  unfold LocalToGlobalGradient. rewrite local_gradient_value. f_equal.
  rewrite (gradient_solution f l g Jd J1 J_along Nd Nd HR' Hg).
  rewrite det_gradient_J1 by exact Nd. rewrite mcol_scale, <- mcol_vscale. f_equal.
  assert (combine_with p (GetValues (n_basis p) (vx l) (vy l) (vz l)) k = U0 l) as ->.
  { pose proof (value_U l) as E. unfold LocalToValue in E. change (mdet (jacobian p l)) with (Jd l) in E. unfold Rdiv in E.
    apply Rmult_eq_reg_r in E; [exact E|apply Rinv_neq_0_compat, Nd]. }
  change (mdet (jacobian p l)) with (Jd l).
  unfold vscale, vsub, w, Rsqr. cbn [vx vy vz]. apply vec_eq; cbn [vx vy vz]; field; exact Nd.
Qed.
Lemma value_at_point ijk : (ijk < N)%nat -> U0 (point p ijk) = n_coeff p k ijk.
Proof.
  intros H. pose proof HW as (_ & _ & Dx & Dy & Dz & Mx & My & Mz). unfold U0, Ud, point.
  rewrite (rsum_ext _ _ (fun n => n_coeff p k n * (if Nat.eqb n ijk then 1 else 0))).
  - clear -H. revert H. generalize N. intros m. induction m; intros H; [lia|]. cbn [rsum]. destruct (Nat.eq_dec m ijk) as [->|E].
    + rewrite Nat.eqb_refl. rewrite (rsum_ext _ _ (fun _ => 0)).
      * rewrite rsum_zero; [ring|reflexivity].
      * intros i Hi. destruct (Nat.eqb_spec i ijk); [lia|ring].
    + rewrite IHm by lia. destruct (Nat.eqb_spec m ijk); [contradiction|ring].
  - intros n Hn. rewrite <- (GetValues_nth b Dx Dy Dz Mx My Mz n _ _ _ Hn). rewrite GetValues_at by assumption. reflexivity.
Qed.
Lemma value_of_GetValue ijk : (ijk < N)%nat -> LocalToValue p (point p ijk) k = GetValue p ijk k.
Proof. intros H. rewrite value_U, value_at_point by exact H. reflexivity. Qed.
Lemma value_of_GetValue_global ijk : (ijk < N)%nat -> LocalToValue_global p (point p ijk) k = GetValue_global p ijk k.
Proof. intros H. rewrite value_U_global, value_at_point by exact H. unfold GetValue_global. field. Qed.

Lemma global_gradient f ijk g : (ijk < N)%nat -> jacobian_det p ijk <> 0 ->
  represented (to_global p) (fun l => LocalToValue p l k) f (point p ijk) -> has_gradient f (to_global p (point p ijk)) g ->
  GetGlobalGradient p ijk k = Some g.
Proof.
  intros Hi Nd HR Hg. rewrite <- (local_to_global_gradient f (point p ijk) g Nd HR Hg).
  unfold GetGlobalGradient, LocalToGlobalGradient. rewrite GetLocalGradient_point, local_gradient_value. cbn [option_map]. f_equal.
  unfold GetGlobalGradient_with, jacobian_det_inv, jacobian_det_grad. rewrite !mcol_scale, mcol_vscale, <- !mcol_vscale. f_equal.
  change (jacobian_det p ijk) with (Jd (point p ijk)) in *. change (mdet (jacobian p (point p ijk))) with (Jd (point p ijk)).
  assert (combine_with p (GetValues (n_basis p) (vx (point p ijk)) (vy (point p ijk)) (vz (point p ijk))) k / Jd (point p ijk) = GetValue p ijk k) as E.
  { rewrite <- value_of_GetValue by exact Hi. reflexivity. }
  rewrite <- E. generalize (det_gradient p (point p ijk)) (U1 0 (point p ijk)) (U1 1 (point p ijk)) (U1 2 (point p ijk)).
  intros [d0 d1 d2] a0 a1 a2. unfold vscale, vsub. cbn [vx vy vz]. apply vec_eq; cbn [vx vy vz]; field; exact Nd.
Qed.
Lemma one_along a l : (a < 3)%nat -> along a (fun _ => 1) l ((fun _ _ => 0) a l).
Proof. intros _. exact (derivable_pt_lim_const 1 _). Qed.
Lemma global_gradient_global f ijk g : (ijk < N)%nat -> mdet (jacobian p (point p ijk)) <> 0 ->
  represented (to_global p) (fun l => LocalToValue_global p l k) f (point p ijk) -> has_gradient f (to_global p (point p ijk)) g ->
  GetGlobalGradient_global p ijk k = Some g.
Proof.
  intros Hi Nd HR Hg. set (l := point p ijk) in *.
  pose proof (represented_ext _ _ (q (fun _ => 1) U0) f l value_U_global HR) as HR'.
  rewrite (gradient_solution f l g (fun _ => 1) (fun a _ => 0) one_along R1_neq_R0 Nd HR' Hg).
  pose proof (local_gradient_value l) as E. unfold LocalToLocalGradient in E.
  unfold GetGlobalGradient_global, basis_global_gradients.
  change (basis_local_gradients (n_basis p) ijk) with (gradients_at (n_basis p) (vx l) (vy l) (vz l)).
  destruct (gradients_at (n_basis p) (vx l) (vy l) (vz l)) as [rows|]; [|discriminate E]. cbn [option_map] in *. f_equal.
  assert (sum_columns p rows k = V (U1 0 l) (U1 1 l) (U1 2 l)) as E' by congruence. clear E.
  replace (V (w (fun _ => 1) (fun a _ => 0) U0 U1 0 l) (w (fun _ => 1) (fun a _ => 0) U0 U1 1 l) (w (fun _ => 1) (fun a _ => 0) U0 U1 2 l))
    with (sum_columns p rows k) by (rewrite E'; unfold w, Rsqr; f_equal; field).
  unfold LocalGradientsToGlobalGradients, sum_columns. fold l. generalize (minv (jacobian p l)). intros [[a0 a1 a2] [b0 b1 b2] [c0 c1 c2]].
  unfold mcol, dot. cbn [vx vy vz r0 r1 r2].
  generalize (column3 rows) (b_N (n_basis p)) (n_coeff p k). clear. intros c n u.
  induction n; [apply vec_eq; cbn; ring|]. cbn [rsum].
  apply vec_eq; cbn [vx vy vz]; [apply (f_equal vx) in IHn|apply (f_equal vy) in IHn|apply (f_equal vz) in IHn]; cbn [vx vy vz] in IHn; rewrite IHn; ring.
Qed.

(** ** Hessians *)
Hypothesis L3 : orders_ok b 2 2 2 = true.
Lemma lengths3 : (2 < length (b_x b) /\ 2 < length (b_y b) /\ 2 < length (b_z b))%nat.
Proof.
  unfold orders_ok in L3. apply andb_prop in L3. destruct L3 as [H H3]. apply andb_prop in H. destruct H as [H1 H2].
  apply Nat.ltb_lt in H1, H2, H3. auto.
Qed.
Lemma U1_along a c l : (a < 3)%nat -> (c < 3)%nat -> along a (U1 c) l (U2 a c l).
Proof.
  intros Ha Hc. destruct lengths3 as (X & Y & Z). unfold U1, U2.
  destruct a as [|[|[|a]]]; [..|lia]; (destruct c as [|[|[|c]]]; [..|lia]); cbn [pair_index]; 
    match goal with |- along ?a (Ud ?i ?j ?m) _ _ => apply (Ud_along a i j m) end; lia.
Qed.
Definition hess_vec (a : nat) (f : nat -> nat -> vec -> R) (l : vec) : vec := V (f a 0%nat l) (f a 1%nat l) (f a 2%nat l).
Lemma local_hessian_value ijk : exists H, GetLocalHessian p ijk k = Some H /\
  forall a c, (a < 3)%nat -> (c < 3)%nat -> H (pair_index a c) = U2 a c (point p ijk).
Proof.
  destruct lengths3 as (X & Y & Z).
  assert (orders_ok b 2 0 0 = true /\ orders_ok b 1 1 0 = true /\ orders_ok b 1 0 1 = true /\
          orders_ok b 0 2 0 = true /\ orders_ok b 0 1 1 = true /\ orders_ok b 0 0 2 = true) as (O1 & O2 & O3 & O4 & O5 & O6).
  { unfold orders_ok. repeat split; rewrite !(proj2 (Nat.ltb_lt _ _)) by lia; reflexivity. }
  unfold GetLocalHessian, basis_local_hessians, GetDerivatives_at, GetDerivatives. fold b. rewrite O1, O2, O3, O4, O5, O6. cbn [option_map].
  eexists. split; [reflexivity|]. intros a c Ha Hc. unfold U2. cbv beta.
  destruct a as [|[|[|a]]]; [..|lia]; (destruct c as [|[|[|c]]]; [..|lia]); cbn [pair_index nth]; unfold Ud;
    apply rsum_ext; intros n Hn; rewrite Hexa_GetDerivatives_nth by exact Hn; fold b; unfold point; fold b; ring.
Qed.
Lemma det_hessian_J2 l a c : (a < 3)%nat -> (c < 3)%nat -> Jd l <> 0 -> det_hessian p l (pair_index a c) = J2 a c l.
Proof. intros Ha Hc Nd. unfold det_hessian. rewrite dddet_formula by exact Nd. reflexivity. Qed.
Lemma row_distr v m n : rmul v (mmul m n) = rmul (rmul v m) n.
Proof.
  destruct m as [[a0 a1 a2] [b0 b1 b2] [c0 c1 c2]], n as [[d0 d1 d2] [e0 e1 e2] [f0 f1 f2]], v as [x y z].
  unfold mmul, rmul, vadd, vscale. cbn [vx vy vz r0 r1 r2]. apply vec_eq; cbn [vx vy vz]; ring.
Qed.

Lemma hessian_main f ijk hx hy hz : (ijk < N)%nat -> jacobian_det p ijk <> 0 ->
  represented (to_global p) (fun l => LocalToValue p l k) f (point p ijk) -> has_hessian (to_global p) f (point p ijk) hx hy hz ->
  GetGlobalHessian p ijk k = Some [vx hx; vx hy; vx hz; vy hy; vy hz; vz hz] /\ vy hx = vx hy /\ vz hx = vx hz /\ vz hy = vy hz.
Proof.
  intros Hi Nd HR (g & r & Hr & Hg & Gx & Gy & Gz). set (l := point p ijk) in *. change (Jd l <> 0) in Nd.
  pose proof (represented_ext _ _ (q Jd U0) f l value_U HR) as HR'.
  assert (near r l l) as Nl by (unfold near; rewrite !Rminus_diag_eq, !Rabs_R0 by reflexivity; auto).
  pose proof (gradient_solution f l (g (to_global p l)) Jd J1 J_along Nd Nd HR' (Hg l Nl)) as GE.
  pose proof (fun a c Ha Hc => hessian_equation (to_global p) Mr Gr Jd J1 J2 U0 U1 U2 X_along M_along J_along U_along J1_along U1_along
    f l hx hy hz g r a c Ha Hc Nd HR' Hr Hg Gx Gy Gz) as HE.
  set (t := fun a c => w2 Jd J1 J2 U0 U1 U2 a c l - dot (g (to_global p l)) (Gr a c l)).
  assert (forall a c, (a < 3)%nat -> (c < 3)%nat ->
    dot hx (Mr a l) * vx (Mr c l) + dot hy (Mr a l) * vy (Mr c l) + dot hz (Mr a l) * vz (Mr c l) = t a c) as HE' by exact HE.
  set (T := M3 (V (t 0%nat 0%nat) (t 0%nat 1%nat) (t 0%nat 2%nat)) (V (t 1%nat 0%nat) (t 1%nat 1%nat) (t 1%nat 2%nat)) (V (t 2%nat 0%nat) (t 2%nat 1%nat) (t 2%nat 2%nat))).
  assert (of_columns hx hy hz = mmul (minv (jacobian p l)) (mmul T (mtranspose (minv (jacobian p l))))) as DE.
  { apply two_sided; [exact Nd|]. rewrite jacobian_rows. unfold T.
    rewrite <- !HE' by lia. generalize (Mr 0 l) (Mr 1 l) (Mr 2 l). intros [a0 a1 a2] [b0 b1 b2] [c0 c1 c2].
    destruct hx as [x0 x1 x2], hy as [y0 y1 y2], hz as [z0 z1 z2]. mats. f_equal; apply vec_eq; cbn [vx vy vz]; ring. }
  assert (forall a c, (a < 3)%nat -> (c < 3)%nat -> t a c = t c a) as Sym.
  { intros a c Ha Hc. unfold t, w2.
    assert (U2 a c l = U2 c a l) as -> by (unfold U2; destruct a as [|[|[|a]]]; [..|lia]; (destruct c as [|[|[|c]]]; [..|lia]); reflexivity).
    assert (J2 a c l = J2 c a l) as -> by (unfold J2; destruct a as [|[|[|a]]]; [..|lia]; (destruct c as [|[|[|c]]]; [..|lia]); reflexivity).
    assert (Gr a c l = Gr c a l) as -> by (unfold Gr; destruct a as [|[|[|a]]]; [..|lia]; (destruct c as [|[|[|c]]]; [..|lia]); reflexivity).
    unfold Rsqr. field. exact Nd. }
  assert (mtranspose T = T) as TS.
  { unfold T. mats. rewrite (Sym 1%nat 0%nat), (Sym 2%nat 0%nat), (Sym 2%nat 1%nat) by lia. reflexivity. }
  assert (mtranspose (of_columns hx hy hz) = of_columns hx hy hz) as DS.
  { rewrite DE at 1. rewrite !mtranspose_mul, TS. symmetry. rewrite DE.
    replace (mtranspose (mtranspose (minv (jacobian p l)))) with (minv (jacobian p l)) by (destruct (minv (jacobian p l)) as [[a0 a1 a2] [b0 b1 b2] [c0 c1 c2]]; reflexivity).
    rewrite mmul_assoc. reflexivity. }
  assert (vy hx = vx hy /\ vz hx = vx hz /\ vz hy = vy hz) as (S1 & S2 & S3).
  { unfold mtranspose, of_columns in DS. cbn [r0 r1 r2 vx vy vz] in DS.
    pose proof (f_equal (fun m => vy (r0 m)) DS) as E1. pose proof (f_equal (fun m => vz (r0 m)) DS) as E2. pose proof (f_equal (fun m => vz (r1 m)) DS) as E3.
    cbn [r0 r1 r2 vx vy vz] in E1, E2, E3. auto. }
  split; [|auto].
  unfold GetGlobalHessian. rewrite GetLocalGradient_point, local_gradient_value. destruct (local_hessian_value ijk) as (H & -> & HH). f_equal.
  fold l in HH |- *.
  set (A := minv (jacobian p l)) in *. set (iJ := / Jd l).
  assert (forall a, (a < 3)%nat ->
    vadd (vadd (rmul (V (U2 a 0 l) (U2 a 1 l) (U2 a 2 l)) (mscale iJ (mtranspose A)))
      (vsub (rmul (V (U1 0 l) (U1 1 l) (U1 2 l)) (mat_after_grad_of_U p ijk a))
        (vscale (U1 a l) (mat_before_grad_of_U p ijk))))
      (vscale (- U0 l) (vadd (rmul (V (J2 a 0 l) (J2 a 1 l) (J2 a 2 l)) (mscale (iJ * iJ) (mtranspose A)))
        (rmul (jacobian_det_grad p ijk) (madd (mscale (/ (Jd l * Jd l)) (inv_T_grad p ijk a))
           (mscale (-2 * component (jacobian_det_grad p ijk) a / (Jd l * Jd l * Jd l)) (inv_T p ijk))))))
    = rmul (V (t a 0%nat) (t a 1%nat) (t a 2%nat)) (mtranspose A)) as Row.
  { intros a Ha. unfold mat_after_grad_of_U, mat_before_grad_of_U, inv_T_grad, inv_T, jacobian_det_grad. fold l A. rewrite det_gradient_J1 by exact Nd.
    change (jacobian_det p ijk) with (Jd l). 
    replace (component (V (J1 0 l) (J1 1 l) (J1 2 l)) a) with (J1 a l) by (destruct a as [|[|[|a]]]; [..|lia]; reflexivity).
    replace (/ (Jd l * Jd l)) with (iJ * iJ) by (unfold iJ; field; exact Nd).
    replace (- J1 a l / (Jd l * Jd l)) with (- J1 a l * (iJ * iJ)) by (unfold iJ; field; exact Nd).
    replace (-2 * J1 a l / (Jd l * Jd l * Jd l)) with (-2 * J1 a l * (iJ * iJ * iJ)) by (unfold iJ; field; exact Nd).
    fold iJ. rewrite row_formula. f_equal.
    unfold jacobian_gradient. change (rows (LocalToJacobianGradient (n_cell p) (n_nodes p) (vx l) (vy l) (vz l) a)) with (M3 (Gr a 0 l) (Gr a 1 l) (Gr a 2 l)).
    assert (mcol A (vadd (vscale iJ (V (U1 0 l) (U1 1 l) (U1 2 l))) (vscale (- U0 l * (iJ * iJ)) (V (J1 0 l) (J1 1 l) (J1 2 l)))) = g (to_global p l)) as ->.
    { rewrite GE. f_equal. unfold w, vadd, vscale, Rsqr. cbn [vx vy vz]. apply vec_eq; cbn [vx vy vz]; unfold iJ; field; exact Nd. }
    unfold t, w2. generalize (g (to_global p l)) (Gr a 0 l) (Gr a 1 l) (Gr a 2 l). intros [g0 g1 g2] [p0 p1 p2] [q0 q1 q2] [s0 s1 s2].
    unfold mcol, dot, vadd, vsub, vscale, Rsqr. cbn [vx vy vz r0 r1 r2]. apply vec_eq; cbn [vx vy vz]; unfold iJ; field; exact Nd. }
  unfold GetGlobalHessian_with.
  rewrite <- (value_at_point ijk Hi). fold l.
  change (H 0%nat) with (H (pair_index 0 0)). change (H 1%nat) with (H (pair_index 0 1)). change (H 2%nat) with (H (pair_index 0 2)).
  change (H 3%nat) with (H (pair_index 1 1)). change (H 4%nat) with (H (pair_index 1 2)). change (H 5%nat) with (H (pair_index 2 2)).
  rewrite !HH by lia.
  assert (forall s, s = of_columns hx hy hz -> [vx (r0 s); vy (r0 s); vz (r0 s); vy (r1 s); vz (r1 s); vz (r2 s)] = [vx hx; vx hy; vx hz; vy hy; vy hz; vz hz]) as Fin
    by (intros s ->; reflexivity).
  cbv zeta. apply Fin. rewrite DE. unfold jacobian_det_inv. fold l. rewrite mmul_scale_l, scale_scale.
  change (jacobian_det p ijk) with (Jd l). rewrite Rinv_l, scale_one by exact Nd. fold A. f_equal.
  unfold mat_before_U, mat_after_hess_of_U. fold l. change (jacobian_det p ijk) with (Jd l). fold iJ. 
  change (det_hessian p l 0) with (det_hessian p l (pair_index 0 0)). change (det_hessian p l 1) with (det_hessian p l (pair_index 0 1)).
  change (det_hessian p l 2) with (det_hessian p l (pair_index 0 2)). change (det_hessian p l 3) with (det_hessian p l (pair_index 1 1)).
  change (det_hessian p l 4) with (det_hessian p l (pair_index 1 2)). change (det_hessian p l 5) with (det_hessian p l (pair_index 2 2)).
  rewrite !det_hessian_J2 by (lia || exact Nd). cbv zeta.
  replace (/ (Jd l * Jd l)) with (iJ * iJ) in * by (unfold iJ; field; exact Nd).
  change (inv_T p ijk) with (mtranspose A) in *.
  apply mat_eq.
  - transitivity (rmul (V (t 0%nat 0%nat) (t 0%nat 1%nat) (t 0%nat 2%nat)) (mtranspose A)); [|reflexivity]. rewrite <- Row by lia. reflexivity.
  - transitivity (rmul (V (t 1%nat 0%nat) (t 1%nat 1%nat) (t 1%nat 2%nat)) (mtranspose A)); [|reflexivity]. rewrite <- Row by lia. reflexivity.
  - transitivity (rmul (V (t 2%nat 0%nat) (t 2%nat 1%nat) (t 2%nat 2%nat)) (mtranspose A)); [|reflexivity]. rewrite <- Row by lia. reflexivity.
Qed.
End Main.
