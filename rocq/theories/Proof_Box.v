(** Small parts on which the theorems about the schemes on Gauss points are tried: one or two hexahedra, with the two
    points of the Lobatto rule per line. *)
From Coq Require Import Reals List Arith Lia Lra Bool String Permutation.
From Verif Require Import Vec3 Arrays RSum Poly Model_Shapes Model_Geometry Model_Basis Model_Nodal Model_Dofs Model_DG Model_Gauss Model_Schemes
  Spec_Basis Spec_Shapes Spec_Nodal Spec_DG Spec_Schemes Spec_FR
  Proof_Lagrange Proof_Shapes Proof_GaussVolume Proof_Dofs Proof_DG Proof_Schemes Proof_DGLobatto Proof_FR Proof_FRLine Proof_FRMain Proof_FRCell Proof_FRStream.
Import ListNotations.
Open Scope R_scope.

Lemma far v k : 1 / 4 <= dot v v -> (1 <= k)%nat -> / 10 ^ k <= vnorm v.
Proof.
  intros H K. unfold vnorm. apply Rle_trans with (1 / 2).
  - apply Rle_trans with (/ 10 ^ 1); [|lra]. apply Rinv_le_contravar; [apply pow_lt; lra|]. apply Rle_pow; [lra|exact K].
  - rewrite <- (sqrt_Rsqr (1 / 2)) by lra. apply sqrt_le_1_alt. unfold Rsqr. lra.
Qed.
Lemma vnorm_vscale a v : vnorm (vscale a v) = Rabs a * vnorm v.
Proof.
  unfold vnorm. replace (dot (vscale a v) (vscale a v)) with (Rsqr a * dot v v).
  - rewrite sqrt_mult; [rewrite sqrt_Rsqr_abs; reflexivity|apply Rle_0_sqr|]. destruct v as [x y z]. unfold dot. cbn [vx vy vz]. nra.
  - destruct v as [x y z]. unfold dot, vscale, Rsqr. cbn [vx vy vz]. ring.
Qed.
Lemma ge1_l u v : 1 <= u * u -> 1 <= u * u + v * v.
Proof. pose proof (Rle_0_sqr v). unfold Rsqr in *. lra. Qed.
Lemma ge1_r u v : 1 <= v * v -> 1 <= u * u + v * v.
Proof. pose proof (Rle_0_sqr u). unfold Rsqr in *. lra. Qed.
Lemma vnorm_pos v : 0 < dot v v -> 0 < vnorm v.
Proof. apply sqrt_lt_R0. Qed.

(** ** Faces made from the sides of cells *)
Section Sides.
  Variables xs ws : list R.
  Let Q := List.length xs.
  Notation X i := (nth i xs 0).
  Notation W i := (nth i ws 0).
  Definition spot (i q : nat) : position := (i, (q / Q, q mod Q)%nat).
  Definition unit_normal (A : ncell) (i q : nat) : vec := vscale (side i / vnorm (area Q A (spot i q))) (area Q A (spot i q)).
  (** the side [i] of cell [A], shared with [B]; [r n] is the solver for the normal [n] *)
  Definition side_face (r : vec -> riemann) (id i : nat) (A B : ncell) : nface :=
    NFace id A B (Q * Q) (fun q => nc_to_global A (face_point i (X (q / Q)) (X (q mod Q))))
      (fun q => W (q / Q) * W (q mod Q) * vnorm (area Q A (spot i q))) (nc_to_global A (face_point i 0 0))
      (unit_normal A i) (fun q => r (unit_normal A i q)).
  Lemma side_lies place r id i A B : (0 < Q)%nat -> (i < 6)%nat ->
    (forall q, (q < Q * Q)%nat -> place A (side_face r id i A B) q = spot i q) ->
    (forall q, (q < Q * Q)%nat -> 0 < vnorm (area Q A (spot i q))) ->
    lies_on Q (fun i => X i) place A (side_face r id i A B) (nf_normal (side_face r id i A B)).
  Proof.
    intros Q0 I EP PA. split; [reflexivity|]. intros q L. rewrite EP by exact L. specialize (PA q L). unfold spot at 1.
    split; [exact I|]. split; [apply Nat.div_lt_upper_bound; lia|]. split; [apply Nat.mod_upper_bound; lia|].
    split; [reflexivity|]. split; [reflexivity|]. split; [exact PA|]. cbn [side_face nf_normal]. unfold unit_normal.
    set (n := vnorm _) in *. split.
    - rewrite vnorm_vscale. fold n. unfold Rdiv. rewrite Rabs_mult, Rabs_inv, (Rabs_pos_eq n) by lra.
      replace (Rabs (side i)) with 1; [field; lra|]. destruct (side_on_left i) as [[_ ->]|[_ ->]]; unfold Rabs; destruct (Rcase_abs _); lra.
    - pose proof (side_sq i) as S. destruct (area Q A (spot i q)) as [x y z]. unfold vscale. cbn [vx vy vz].
      assert (T : forall t, t = side i * n * (side i / n * t)) by (intros t; transitivity (side i * side i * t); [rewrite S; ring|field; lra]).
      f_equal; apply T.
  Qed.
End Sides.

(** ** Hexahedra: the cube, shifted by [o] along x, and distorted by [k] *)
Definition box_nodes (o k : R) : list vec :=
  map (fun '(x, y, z) => V (x + o) (y + k * (x * z)) (z + k * (x * y)))
    [(-1, -1, -1); (1, -1, -1); (1, 1, -1); (-1, 1, -1); (-1, -1, 1); (1, -1, 1); (1, 1, 1); (-1, 1, 1)].
(** advection along x *)
Definition along_x : vec := V 1 0 0.
Definition advect (u : value) (k : nat) : vec := vscale (u k) along_x.
Definition advection (n : vec) : riemann :=
  let through (u : value) : value := fun k => dot (advect u k) n in
  let pick (u v : value) : value := if Rlt_dec (dot along_x n) 0 then through v else through u in
  Riemann pick (fun _ _ => 0) through through pick pick pick.
Definition small_k (k : R) : Prop := k = 0 \/ k = 1 / 4.

Section Boxes.
  Variable Q : nat.                         (* the number of points on a line *)
  Let xs := Lobatto_points Q.
  Let ws := Lobatto_weights Q.
  Notation X i := (nth i xs 0).
  Definition box_matrix : nat -> nat -> R := inverse_matrix xs.
  Definition box_nodal (o k : R) (coeff : nat -> nat -> R) : Nodal := mkNodal Hexa8 (box_nodes o k) (line_basis xs box_matrix) coeff.
  Definition box_weight (n : nat) : R := let '(i, j, k) := Hexa_index_inv Q Q n in nth i ws 0 * nth j ws 0 * nth k ws 0.
  Definition box_cell (id : nat) (o k : R) (coeff : nat -> nat -> R) : ncell := hexa_cell id box_weight (box_nodal o k coeff).
  Definition box_D : nat -> nat -> R := line_D xs box_matrix.
  (** one cell *)
  Definition one_faces (c : ncell) : list nface := map (fun i => side_face xs ws advection i i c c) (seq 0 6).
  Definition one_part (c : ncell) : npart :=
    NPart [c] [] [] (one_faces c) (fun name => if String.eqb name "far" then one_faces c else []).
  Definition one_place (c : ncell) (f : nface) (q : nat) : position := spot xs (nf_id f) q.

  Hypothesis HQ : Q = 2%nat \/ Q = 3%nat.
  Lemma len_xs : List.length xs = Q.
  Proof. unfold xs. destruct HQ as [-> | ->]; reflexivity. Qed.
  Lemma rule_ends : with_ends xs ws.
  Proof. apply Lobatto_ends. lia. Qed.
  Lemma box_inverse : inverse_of xs box_matrix.
  Proof. apply inverse_matrix_ok. exact (proj1 rule_ends). Qed.
  Lemma spaced a b : (a < Q)%nat -> (b < Q)%nat -> a <> b -> 1 <= (X a - X b) * (X a - X b).
  Proof.
    unfold xs. destruct HQ as [-> | ->]; intros A B NE.
    - destruct a as [|[|a]]; [| |lia]; (destruct b as [|[|b]]; [| |lia]); try contradiction; cbn; lra.
    - destruct a as [|[|[|a]]]; [| | |lia]; (destruct b as [|[|[|b]]]; [| | |lia]); try contradiction; cbn; lra.
  Qed.
  Lemma within a : (a < Q)%nat -> -1 <= X a <= 1.
  Proof. unfold xs. destruct HQ as [-> | ->]; intros A; [destruct a as [|[|a]]|destruct a as [|[|[|a]]]]; try lia; cbn; lra. Qed.
  Lemma box_built o k : built (h_element Hexa8) (box_nodes o k).
  Proof. reflexivity. Qed.
  Lemma box_global o k coeff l : to_global (box_nodal o k coeff) l = V (vx l + o) (vy l + k * (vx l * vz l)) (vz l + k * (vx l * vy l)).
  Proof.
    destruct l as [x y z]. unfold to_global. cbn [vx vy vz n_cell n_nodes box_nodal h_element Hexa8].
    apply vec_eq; cbn; unfold Q2R; cbn; field.
  Qed.
  Lemma box_jacobian o k coeff l : jacobian (box_nodal o k coeff) l
    = M3 (V 1 (k * vz l) (k * vy l)) (V 0 1 (k * vx l)) (V 0 (k * vx l) 1).
  Proof.
    destruct l as [x y z]. unfold jacobian, rows. cbn [vx vy vz n_cell n_nodes box_nodal h_element Hexa8].
    f_equal; apply vec_eq; cbn; unfold Q2R; cbn; field.
  Qed.
  Lemma box_point o k coeff i j l : (i < Q)%nat -> (j < Q)%nat -> (l < Q)%nat ->
    point (box_nodal o k coeff) ((i * Q + j) * Q + l) = V (X i) (X j) (X l).
  Proof.
    intros I J L. pose proof (point_nd xs box_matrix Hexa8 (box_nodes o k) coeff i j l) as T. rewrite len_xs in T.
    exact (T I J L).
  Qed.
  Lemma box_nodes_all n : (n < Q * Q * Q)%nat -> exists i j k, (i < Q)%nat /\ (j < Q)%nat /\ (k < Q)%nat /\ n = ((i * Q + j) * Q + k)%nat.
  Proof. intros L. pose proof (nd_all xs n) as T. rewrite len_xs in T. exact (T L). Qed.
  Lemma box_det o k coeff i j l : (i < Q)%nat -> (j < Q)%nat -> (l < Q)%nat ->
    jacobian_det (box_nodal o k coeff) ((i * Q + j) * Q + l) = 1 - k * k * (X i * X i).
  Proof.
    intros I J L. unfold jacobian_det. rewrite box_jacobian, box_point by assumption. unfold mdet, det3, dot, cross. cbn [r0 r1 r2 vx vy vz]. ring.
  Qed.
  Lemma box_det_nz o k coeff n : small_k k -> (n < Q * Q * Q)%nat -> jacobian_det (box_nodal o k coeff) n <> 0.
  Proof.
    intros K L. destruct (box_nodes_all n L) as (i & j & l & I & J & L' & ->). rewrite box_det by assumption.
    pose proof (within i I). destruct K as [-> | ->]; [lra|nra].
  Qed.
  Definition box_column (k : R) (l : vec) (a : nat) : vec :=
    match a with
    | 0%nat => V (1 - k * vx l * (k * vx l)) 0 0
    | 1%nat => V (k * vx l * (k * vy l) - k * vz l) 1 (- (k * vx l))
    | _ => V (k * vz l * (k * vx l) - k * vy l) (- (k * vx l)) 1
    end.
  Lemma box_cofactor o k l a : (a < 3)%nat -> cofactor Hexa8 (box_nodes o k) a (vx l) (vy l) (vz l) = box_column k l a.
  Proof.
    intros A. pose proof (box_jacobian o k (fun _ _ => 0) l) as J.
    pose proof (f_equal r0 J) as J0. pose proof (f_equal r1 J) as J1. pose proof (f_equal r2 J) as J2. cbn [r0 r1 r2] in J0, J1, J2. clear J.
    change (LocalToJacobian (h_element Hexa8) (box_nodes o k) (vx l) (vy l) (vz l) 0 = V 1 (k * vz l) (k * vy l)) in J0.
    change (LocalToJacobian (h_element Hexa8) (box_nodes o k) (vx l) (vy l) (vz l) 1 = V 0 1 (k * vx l)) in J1.
    change (LocalToJacobian (h_element Hexa8) (box_nodes o k) (vx l) (vy l) (vz l) 2 = V 0 (k * vx l) 1) in J2. unfold cofactor.
    rewrite J0, J1, J2. destruct a as [|[|[|a]]]; [| | |lia]; unfold cross, box_column; cbn [vx vy vz]; f_equal; ring.
  Qed.
  Lemma box_associated id o k coeff i j l a : small_k k -> (i < Q)%nat -> (j < Q)%nat -> (l < Q)%nat -> (a < 3)%nat ->
    Spec_FR.nth_column (nc_associated (box_cell id o k coeff) ((i * Q + j) * Q + l)) a = box_column k (V (X i) (X j) (X l)) a.
  Proof.
    intros K I J L A. unfold box_cell, box_nodal.
    rewrite (associated_columns xs box_matrix id box_weight Hexa8 (box_nodes o k) coeff);
      [|exact A|apply (box_det_nz o k coeff _ K); pose proof (nd_lt xs i j l) as T; rewrite len_xs in T; exact (T I J L)].
    rewrite box_cofactor by exact A. fold (box_nodal o k coeff). rewrite box_point by assumption. reflexivity.
  Qed.
  Lemma box_area id o k coeff i a b : small_k k -> (i < 6)%nat -> (a < Q)%nat -> (b < Q)%nat ->
    area Q (box_cell id o k coeff) (i, (a, b)) = box_column k (face_point i (X a) (X b)) (across i).
  Proof.
    intros K I A B. assert (Q2 : (2 <= Q)%nat) by lia. unfold area. cbn [node_at fst]. unfold node_on_line, last_of.
    assert (XF : X 0 = -1). { pose proof (X_first xs ws rule_ends). assumption. }
    assert (XL : X (Q - 1) = 1). { pose proof (X_last xs ws rule_ends) as T. rewrite len_xs in T. exact T. }
    destruct i as [|[|[|[|[|[|i]]]]]]; [| | | | | |lia]; rewrite box_associated by (assumption || (cbn; lia)); cbn [face_point]; rewrite ?XF, ?XL; reflexivity.
  Qed.
  Lemma face_x i a b : (a < Q)%nat -> (b < Q)%nat -> -1 <= vx (face_point i (X a) (X b)) <= 1.
  Proof. intros A B. pose proof (within a A). destruct i as [|[|[|[|[|[|i]]]]]]; cbn [face_point vx]; lra. Qed.
  Lemma box_area_pos id o k coeff i a b : small_k k -> (i < 6)%nat -> (a < Q)%nat -> (b < Q)%nat -> 0 < vnorm (area Q (box_cell id o k coeff) (i, (a, b))).
  Proof.
    intros K I A B. rewrite box_area by assumption. apply vnorm_pos. pose proof (face_x i a b A B) as H. set (l := face_point _ _ _) in *.
    clearbody l. unfold box_column, dot. destruct (across i) as [|[|c]]; cbn [vx vy vz].
    - assert (0 < 1 - k * vx l * (k * vx l)) by (destruct K as [-> | ->]; [lra|nra]). nra.
    - match goal with |- 0 < ?a * ?a + _ + ?b * ?b => pose proof (Rle_0_sqr a); pose proof (Rle_0_sqr b) end. unfold Rsqr in *. lra.
    - match goal with |- 0 < ?a * ?a + ?b * ?b + _ => pose proof (Rle_0_sqr a); pose proof (Rle_0_sqr b) end. unfold Rsqr in *. lra.
  Qed.
  Lemma box_tensor id o k coeff : tensor_cell Q (fun i => X i) box_D (box_cell id o k coeff).
  Proof.
    pose proof (hexa_tensor_cell xs ws box_matrix id box_weight Hexa8 (box_nodes o k) coeff rule_ends box_inverse) as T. rewrite len_xs in T. exact T.
  Qed.
  (** the distance of points of the cell *)
  Lemma box_distance o k coeff (l m : vec) : small_k k -> -1 <= vx l <= 1 -> -1 <= vx m <= 1 ->
    (1 <= (vx l - vx m) * (vx l - vx m) \/ (vx l = vx m /\ 1 <= (vy l - vy m) * (vy l - vy m) + (vz l - vz m) * (vz l - vz m))) ->
    1 / 4 <= dot (vsub (to_global (box_nodal o k coeff) l) (to_global (box_nodal o k coeff) m))
               (vsub (to_global (box_nodal o k coeff) l) (to_global (box_nodal o k coeff) m)).
  Proof.
    intros K HL HM H. rewrite !box_global. destruct l as [x y z], m as [x' y' z']. unfold vsub, dot. cbn [vx vy vz] in *.
    destruct H as [H|[<- H]].
    - replace (x + o - (x' + o)) with (x - x') by ring.
      match goal with |- _ <= _ + ?a * ?a + ?b * ?b => pose proof (Rle_0_sqr a); pose proof (Rle_0_sqr b) end. unfold Rsqr in *. lra.
    - set (t := k * x). assert (T : -1 / 4 <= t <= 1 / 4) by (unfold t; destruct K as [-> | ->]; lra).
      replace (y + k * (x * z) - (y' + k * (x * z'))) with ((y - y') + t * (z - z')) by (unfold t; ring).
      replace (z + k * (x * y) - (z' + k * (x * y'))) with ((z - z') + t * (y - y')) by (unfold t; ring).
      set (dy := y - y') in *. set (dz := z - z') in *. clearbody t dy dz.
      assert (A1 : (dy + t * dz) * (dy + t * dz) + (dz + t * dy) * (dz + t * dy)
              = (1 + t * t) * (dy * dy + dz * dz) + 4 * t * (dy * dz)) by ring.
      assert (A2 : 0 <= dy * dy + 2 * (dy * dz) + dz * dz) by (replace (dy * dy + 2 * (dy * dz) + dz * dz) with (Rsqr (dy + dz)) by (unfold Rsqr; ring); apply Rle_0_sqr).
      assert (A3 : 0 <= dy * dy - 2 * (dy * dz) + dz * dz) by (replace (dy * dy - 2 * (dy * dz) + dz * dz) with (Rsqr (dy - dz)) by (unfold Rsqr; ring); apply Rle_0_sqr).
      assert (A4 : - (1 / 2) * (dy * dy + dz * dz) <= 4 * t * (dy * dz)).
      { assert (A2' : 0 <= (dy * dy + dz * dz) + 2 * (dy * dz)) by lra. assert (A3' : 0 <= (dy * dy + dz * dz) - 2 * (dy * dz)) by lra.
        set (S := dy * dy + dz * dz) in *. set (P := dy * dz) in *. clearbody S P.
        destruct (Rle_dec 0 P) as [HP|HP].
        - assert (-1 / 4 * P <= t * P) by (apply Rmult_le_compat_r; lra). lra.
        - assert (1 / 4 * P <= t * P) by (pose proof (Rmult_le_compat_r (- P) t (1 / 4)); lra). lra. }
      assert (A5 : 0 <= t * t * (dy * dy + dz * dz)) by (apply Rmult_le_pos; [apply Rle_0_sqr|lra]).
      replace (x + o - (x + o)) with 0 by ring. lra.
  Qed.
  Lemma box_separated id o k coeff : small_k k -> well_separated Q (fun i => X i) (box_cell id o k coeff).
  Proof.
    intros K. split.
    - intros i i' I I' NE. unfold box_cell. cbn [hexa_cell nc_to_global]. apply far; [|lia]. apply box_distance; [exact K|..];
      (destruct i as [|[|[|[|[|[|i]]]]]]; [| | | | | |lia]); try (cbn [face_point vx vy vz]; lra);
      (destruct i' as [|[|[|[|[|[|i']]]]]]; [| | | | | |lia]); try contradiction; cbn [face_point vx vy vz]; try lra;
      first [left; lra | right; lra].
    - intros i a b a' b' I A B A' B' NE. unfold box_cell. cbn [hexa_cell nc_to_global]. apply far; [|lia].
      apply box_distance; [exact K|apply face_x; assumption|apply face_x; assumption|].
      assert (H : a <> a' \/ (a = a' /\ b <> b')) by (destruct (Nat.eq_dec a a') as [->|]; [right; split; [reflexivity|congruence]|left; assumption]).
      destruct H as [H|[<- H]].
      + pose proof (spaced a a' A A' H) as S.
        destruct i as [|[|[|[|[|[|i]]]]]]; [| | | | | |lia]; cbn [face_point vx vy vz]; first [left; exact S|right; split; [reflexivity|first [apply ge1_l; exact S|apply ge1_r; exact S]]].
      + pose proof (spaced b b' B B' H) as S.
        destruct i as [|[|[|[|[|[|i]]]]]]; [| | | | | |lia]; cbn [face_point vx vy vz]; right; (split; [reflexivity|first [apply ge1_l; exact S|apply ge1_r; exact S]]).
  Qed.
  Lemma box_apart id o k coeff a b : small_k k -> (a < Q * Q * Q)%nat -> (b < Q * Q * Q)%nat -> a <> b ->
    / 10 ^ 12 <= vnorm (vsub (nc_coord (box_cell id o k coeff) a) (nc_coord (box_cell id o k coeff) b)).
  Proof.
    intros K A B NE. destruct (box_nodes_all a A) as (i & j & l & I & J & L & ->). destruct (box_nodes_all b B) as (i' & j' & l' & I' & J' & L' & ->).
    unfold box_cell. cbn [hexa_cell nc_coord]. apply far; [|lia].
    apply box_distance; [exact K|..]; rewrite !box_point by assumption; cbn [vx vy vz]; [apply within; assumption..|].
    destruct (Nat.eq_dec i i') as [<-|H]; [|left; apply spaced; assumption]. right. split; [reflexivity|].
    destruct (Nat.eq_dec j j') as [<-|H]; [|apply ge1_l, spaced; assumption].
    destruct (Nat.eq_dec l l') as [<-|H]; [contradiction|apply ge1_r, spaced; assumption].
  Qed.
  Lemma box_cell_weights id o k coeff i j l : (i < Q)%nat -> (j < Q)%nat -> (l < Q)%nat ->
    nc_local_weight (box_cell id o k coeff) ((i * Q + j) * Q + l) = nth i ws 0 * nth j ws 0 * nth l ws 0.
  Proof.
    intros I J L. cbn [box_cell hexa_cell nc_local_weight]. unfold box_weight.
    pose proof (index_nd xs i j l) as T. rewrite len_xs in T. rewrite (T I J L). reflexivity.
  Qed.
  Lemma box_points id o k coeff : nc_points (box_cell id o k coeff) = (Q * Q * Q)%nat.
  Proof. cbn [box_cell hexa_cell nc_points]. unfold b_N. cbn [box_nodal n_basis line_basis b_x b_y b_z]. rewrite len_xs. reflexivity. Qed.
  (** the same state everywhere *)
  Definition uniform (u k : R) : nat -> nat -> R := fun _ n => u * (1 - k * k * (X (fst (fst (Hexa_index_inv Q Q n))) * X (fst (fst (Hexa_index_inv Q Q n))))).
  Lemma uniform_value id o k u n c : small_k k -> (n < Q * Q * Q)%nat -> nc_value (box_cell id o k (uniform u k)) n c = u.
  Proof.
    intros K L. pose proof (box_det_nz o k (uniform u k) n K L) as NZ. destruct (box_nodes_all n L) as (i & j & l & I & J & L' & ->).
    cbn [box_cell hexa_cell nc_value]. unfold GetValue. rewrite box_det in * by assumption. cbn [box_nodal n_coeff]. unfold uniform.
    pose proof (index_nd xs i j l) as T. rewrite len_xs in T. rewrite (T I J L'). cbn [fst]. field. exact NZ.
  Qed.

  (** ** One cell *)
  Lemma spot_lt q : (q < Q * Q)%nat -> (q / Q < Q)%nat /\ (q mod Q < Q)%nat.
  Proof. intros L. split; [apply Nat.div_lt_upper_bound; lia|apply Nat.mod_upper_bound; lia]. Qed.
  Lemma one_faces_in c f : In f (one_faces c) -> exists i, (i < 6)%nat /\ f = side_face xs ws advection i i c c.
  Proof. intros I. apply in_map_iff in I. destruct I as (i & <- & I). apply in_seq in I. exists i. split; [lia|reflexivity]. Qed.
  Lemma one_ok o k coeff : npart_ok (Q * Q * Q) (one_part (box_cell 0 o k coeff)).
  Proof.
    set (c := box_cell 0 o k coeff). repeat split.
    - repeat constructor; cbn; tauto.
    - destruct H as [<-|[]]. cbn. lia.
    - destruct H as [<-|[]]. apply box_points.
    - intros f I. cbn [all_faces one_part n_local_faces n_ghost_faces n_boundary app] in I. apply one_faces_in in I. destruct I as (i & _ & ->). left. reflexivity.
    - intros f [].
    - intros f [].
    - intros name f I. cbn [one_part n_boundary_faces n_boundary] in *. destruct (String.eqb name "far"); [exact I|contradiction].
  Qed.
  Lemma box_lies place id i A B : (i < 6)%nat -> (forall q, (q < Q * Q)%nat -> place A (side_face xs ws advection id i A B) q = spot xs i q) ->
    (exists id o k coeff, small_k k /\ A = box_cell id o k coeff) ->
    lies_on Q (fun i => X i) place A (side_face xs ws advection id i A B) (nf_normal (side_face xs ws advection id i A B)).
  Proof.
    intros I EP (id' & o & k & coeff & K & EA). pose proof (side_lies xs ws place advection id i A B) as T. rewrite len_xs in T.
    apply T; [lia|exact I|exact EP|]. intros q Lq. destruct (spot_lt q Lq). unfold spot. rewrite len_xs, EA. apply box_area_pos; assumption.
  Qed.
  Lemma one_geometry o k coeff : small_k k -> geometry_ok Q (fun i => X i) one_place box_D (one_part (box_cell 0 o k coeff)).
  Proof.
    intros K. set (c := box_cell 0 o k coeff).
    assert (T : forall d f, touches (one_part c) d f -> d = c).
    { intros d f [[I ->]|[[[]|[]] _]]. apply one_faces_in in I. destruct I as (i & _ & ->). reflexivity. }
    split; [|split; [|split]].
    - intros d f H. rewrite (T d f H). split; [apply box_tensor|apply box_separated, K].
    - intros d [<-|[]]. apply box_tensor.
    - intros f I. apply one_faces_in in I. destruct I as (i & L & ->). cbn [side_face nholder].
      apply box_lies; [exact L|reflexivity|]. exists 0%nat, o, k, coeff. auto.
    - intros f [[]|[]].
  Qed.
  (** the state far away is [u] *)
  Definition far_away (u : R) : fem := Fem [] [] [("far"%string, fun _ _ _ => u)] [] [] [] 0.
  Lemma one_face_weights o k coeff : face_weights Q one_place (fun i => nth i ws 0) (one_part (box_cell 0 o k coeff)).
  Proof.
    intros d f q [[I ->]|[[[]|[]] _]] L. apply one_faces_in in I. destruct I as (i & Li & ->). unfold one_place, spot. cbn [side_face nf_weight nf_id nholder].
    unfold spot. rewrite len_xs. reflexivity.
  Qed.
  Lemma one_cell_weights o k coeff : cell_weights Q (fun i => nth i ws 0) (one_part (box_cell 0 o k coeff)).
  Proof. intros d i j l [<-|[]] I J L. apply box_cell_weights; assumption. Qed.
  Lemma one_apart o k coeff : small_k k -> nodes_apart Q (one_part (box_cell 0 o k coeff)).
  Proof.
    intros K d f a b [[I ->]|[[[]|[]] _]] A B NE. apply one_faces_in in I. destruct I as (i & Li & ->). cbn [side_face nholder].
    apply box_apart; assumption.
  Qed.
  Lemma one_uniform o k u : small_k k ->
    uniform_flux Q one_place advect (far_away u) (one_part (box_cell 0 o k (uniform u k))) (fun _ => vscale u along_x).
  Proof.
    intros K. split.
    - intros d q n [<-|[]] L. unfold advect. rewrite uniform_value by assumption. reflexivity.
    - intros t n I. unfold contacts in I. cbn [one_part n_local_faces n_ghost_faces inner_contacts ghost_contacts flat_map app] in I.
      rewrite app_nil_r in I. unfold boundary_contacts, n_conditions in I.
      cbn [far_away solid_wall supersonic_inlet supersonic_outlet subsonic_inlet subsonic_outlet smart_boundary map app flat_map] in I. rewrite app_nil_r in I.
      apply in_flat_map in I. destruct I as (f & F & I). unfold at_boundary in I. apply in_map_iff in I. destruct I as (q & <- & _).
      change (In f (one_faces (box_cell 0 o k (uniform u k)))) in F. apply one_faces_in in F. destruct F as (i & Li & ->). reflexivity.
  Qed.
  Lemma one_fine o k u : small_k k -> Q = 3%nat -> forall c, In c (n_local_cells (one_part (box_cell 0 o k (uniform u k)))) -> fine_hexahedron xs box_matrix c.
  Proof.
    intros K Q3 c [<-|[]]. exists 0%nat, box_weight, Hexa8, (box_nodes o k), (uniform u k). split; [reflexivity|]. split; [cbn; tauto|]. split; [reflexivity|].
    split; [rewrite len_xs, Q3; cbn; lia|]. intros q L. rewrite len_xs in L. apply (box_det_nz o k (uniform u k) q K L).
  Qed.
End Boxes.
Lemma one_covered Q o k coeff u : Q = 2%nat \/ Q = 3%nat -> covered Q (one_place Q) (far_away u) (one_part Q (box_cell Q 0 o k coeff)).
Proof.
  intros HQ d [<-|[]]. replace (map _ _) with (positions Q); [apply Permutation_refl|].
  destruct HQ as [-> | ->]; vm_compute; reflexivity.
Qed.

Lemma two_points : 2%nat = 2%nat \/ 2%nat = 3%nat. Proof. auto. Qed.
Lemma three_points : 3%nat = 2%nat \/ 3%nat = 3%nat. Proof. auto. Qed.
Lemma box_divergence id o k u i j l : small_k k -> (i < 2)%nat -> (j < 2)%nat -> (l < 2)%nat ->
  divergence_at 2 advect (box_cell 2 id o k (uniform 2 u k)) ((i * 2 + j) * 2 + l) 0 = 2 * k * k * nth i (Lobatto_points 2) 0 * u.
Proof.
  intros K I J L. set (c := box_cell 2 id o k (uniform 2 u k)). set (xs := Lobatto_points 2).
  pose proof (tensor_divergence xs (box_D 2) advect c i j l 0 (box_tensor 2 two_points id o k (uniform 2 u k)) I J L) as TD.
  change (List.length xs) with 2%nat in TD. rewrite TD. clear TD.
  assert (T : forall i j l a, (i < 2)%nat -> (j < 2)%nat -> (l < 2)%nat -> (a < 3)%nat ->
    axis_flux (F_local advect c ((i * 2 + j) * 2 + l) 0) a = u * vx (box_column k (V (nth i xs 0) (nth j xs 0) (nth l xs 0)) a)).
  { clear I J L i j l. intros i j l a I J L A. assert (NL : ((i * 2 + j) * 2 + l < 2 * 2 * 2)%nat) by lia.
    unfold F_local. rewrite rmul_column. unfold advect, c. rewrite (uniform_value 2 two_points) by assumption.
    rewrite (box_associated 2 two_points) by assumption. unfold dot, along_x, vscale. cbn [vx vy vz]. fold xs. ring. }
  pose proof (D_exact xs (Lobatto_weights 2) (box_D 2) (rule_ends 2 two_points)
    (line_D_ok xs (Lobatto_weights 2) (box_matrix 2) (rule_ends 2 two_points) (box_inverse 2 two_points))) as DE.
  change (List.length xs) with 2%nat in DE.
  assert (S : forall i, (i < 2)%nat -> nth i xs 0 * nth i xs 0 = 1) by (intros [|[|x]] Lx; [cbn; ring|cbn; ring|lia]).
  rewrite (rsum_ext 2 (fun a => _ * vx _) (fun a => box_D 2 i a * peval [u * (1 - k * k)] (nth a xs 0))).
  2:{ intros a A. f_equal. pose proof (T a j l 0%nat A J L ltac:(lia)) as T0. cbn [axis_flux] in T0. rewrite T0. cbn [box_column vx peval].
      transitivity (u * (1 - k * k * (nth a xs 0 * nth a xs 0))); [ring|rewrite S by exact A; ring]. }
  rewrite (rsum_ext 2 (fun b => _ * vy _) (fun b => box_D 2 j b * peval [- (u * k * nth l xs 0); u * (k * k * nth i xs 0)] (nth b xs 0))).
  2:{ intros a A. f_equal. pose proof (T i a l 1%nat I A L ltac:(lia)) as T0. cbn [axis_flux] in T0. rewrite T0. cbn [box_column vx vy vz peval]. ring. }
  rewrite (rsum_ext 2 (fun e => _ * vz _) (fun e => box_D 2 l e * peval [- (u * k * nth j xs 0); u * (k * k * nth i xs 0)] (nth e xs 0))).
  2:{ intros a A. f_equal. pose proof (T i j a 2%nat I J A ltac:(lia)) as T0. cbn [axis_flux] in T0. rewrite T0. cbn [box_column vx vy vz peval]. ring. }
  rewrite !DE by (cbn [List.length]; lia). cbn [pderiv pderiv_from tl peval INR]. ring.
Qed.
(** a uniform state in a distorted cell is not a steady solution *)
Theorem stream_not_preserved : let p := one_part 2 (box_cell 2 0 0 (1 / 4) (uniform 2 1 (1 / 4))) in
  exists r, FR_GetResidualColumn 1 2 (fun i => nth i (Lobatto_points 2) 0) 1 0 advect (far_away 1) p = Some r /\ at_ r (address 1 8 0 0 0) = 1 / 8.
Proof.
  cbv zeta. assert (K : small_k (1 / 4)) by (right; reflexivity).
  destruct (uniform_residual 1 (Lobatto_points 2) (Lobatto_weights 2) (one_place 2) (box_D 2) advect _ (far_away 1) _ (rule_ends 2 two_points)
    (one_ok 2 two_points 0 (1 / 4) (uniform 2 1 (1 / 4))) (one_geometry 2 two_points 0 (1 / 4) (uniform 2 1 (1 / 4)) K) (one_uniform 2 two_points 0 (1 / 4) 1 K) 0) as (r & ER & V).
  exists r. split; [exact ER|].
  transitivity (- divergence_at 2 advect (box_cell 2 0 0 (1 / 4) (uniform 2 1 (1 / 4))) ((0 * 2 + 0) * 2 + 0) 0).
  - apply (V (box_cell 2 0 0 (1 / 4) (uniform 2 1 (1 / 4))) 0%nat 0%nat (or_introl eq_refl)); cbn; lia.
  - rewrite box_divergence by (auto; lia). cbn. lra.
Qed.

(** ** Two cells, side by side along x, with two points per line *)
Definition two_sides : list nat := [2; 0; 1; 3; 4; 5; 0; 1; 2; 3; 5]%nat.   (* the sides of the holders *)
Section Two.
  Variables A B : ncell.
  Let xs := Lobatto_points 2.
  Let ws := Lobatto_weights 2.
  Definition two_face (id : nat) : nface :=
    side_face xs ws advection id (nth id two_sides 0%nat) (if (id <? 6)%nat then A else B) B.
  Definition two_part : npart :=
    NPart [A; B] [two_face 0] [] (map two_face (seq 1 10))
      (fun name => if String.eqb name "inflow" then [two_face 4]
                   else if String.eqb name "outflow" then map two_face [1; 2; 3; 5; 6; 7; 8; 9; 10]%nat else []).
End Two.
Definition two_place (c : ncell) (f : nface) (q : nat) : position :=
  spot (Lobatto_points 2) (if (nf_id f =? 0)%nat then (if (nc_id c =? 0)%nat then 2 else 4) else nth (nf_id f) two_sides 0)%nat q.
(** the state of the inflow is [u] *)
Definition inflow (u : R) : fem := Fem [] ["outflow"%string] [("inflow"%string, fun _ _ _ => u)] [] [] [] 0.

Section TwoCells.
  Variables ca cb : nat -> nat -> R.
  Let A := box_cell 2 0 0 0 ca.
  Let B := box_cell 2 1 2 0 cb.
  Let p := two_part A B.
  Let xs := Lobatto_points 2.
  Notation X i := (nth i xs 0).
  Lemma small_0 : small_k 0. Proof. left. reflexivity. Qed.
  Lemma all_two f : In f (all_faces p) -> exists id, (id < 11)%nat /\ f = two_face A B id.
  Proof.
    unfold all_faces, p, two_part. cbn [n_local_faces n_ghost_faces n_boundary]. rewrite !in_app_iff. intros [[<-|[]]|[[]|I]].
    - exists 0%nat. split; [lia|reflexivity].
    - apply in_map_iff in I. destruct I as (id & <- & I). apply in_seq in I. exists id. split; [lia|reflexivity].
  Qed.
  Lemma two_touch c f : touches p c f -> c = A \/ c = B.
  Proof.
    intros [[I ->]|[[[<-|[]]|[]] ->]]; [|right; reflexivity].
    apply all_two in I. destruct I as (id & L & ->). cbn [two_face side_face nholder]. destruct (id <? 6)%nat; auto.
  Qed.
  Lemma two_ok : npart_ok 8 p.
  Proof.
    repeat split.
    - cbn. repeat constructor; cbn; intuition lia.
    - destruct H as [<-|[<-|[]]]; cbn; lia.
    - destruct H as [<-|[<-|[]]]; reflexivity.
    - intros f I. apply all_two in I. destruct I as (id & _ & ->). cbn [two_face side_face nholder]. destruct (id <? 6)%nat; cbn; auto.
    - intros f [<-|[]]. right. left. reflexivity.
    - intros f [].
    - intros name f I. cbn [p two_part n_boundary_faces n_boundary] in *.
      destruct (String.eqb name "inflow"); [|destruct (String.eqb name "outflow"); [|contradiction]]; cbn in I |- *; tauto.
  Qed.
  Lemma unit_area c x : (c = A \/ c = B) -> let '(i, (a, b)) := x in (i < 6)%nat -> (a < 2)%nat -> (b < 2)%nat ->
    area 2 c x = match across i with 0%nat => V 1 0 0 | 1%nat => V 0 1 0 | _ => V 0 0 1 end.
  Proof.
    intros C. destruct x as [i [a b]]. intros I A' B'.
    assert (E : area 2 c (i, (a, b)) = box_column 0 (face_point i (X a) (X b)) (across i)).
    { destruct C as [-> | ->]; apply (box_area 2 two_points); auto using small_0. }
    rewrite E. destruct (across i) as [|[|n]]; cbn [box_column]; f_equal; ring.
  Qed.
  Lemma two_geometry : geometry_ok 2 (fun i => X i) two_place (box_D 2) p.
  Proof.
    split; [|split; [|split]].
    - intros c f T. destruct (two_touch c f T) as [-> | ->]; (split; [apply (box_tensor 2 two_points)|apply (box_separated 2 two_points), small_0]).
    - intros c [<-|[<-|[]]]; apply (box_tensor 2 two_points).
    - intros f I. apply all_two in I. destruct I as (id & L & ->). cbn [two_face side_face nholder].
      apply (box_lies 2 two_points).
      + do 11 (destruct id as [|id]; [cbn; lia|]). lia.
      + intros q _. unfold two_place. cbn [side_face nf_id]. do 11 (destruct id as [|id]; [reflexivity|]). lia.
      + destruct (id <? 6)%nat; [exists 0%nat, 0, 0, ca|exists 1%nat, 2, 0, cb]; split; auto using small_0.
    - intros f [[<-|[]]|[]]. split; [reflexivity|]. intros q L.
      change (two_place (nsharer (two_face A B 0)) (two_face A B 0) q) with (4%nat, ((q / 2)%nat, (q mod 2)%nat)).
      destruct (spot_lt 2 two_points q L) as [L1 L2]. split; [lia|]. split; [exact L1|]. split; [exact L2|].
      cbn [two_face side_face nf_center nf_coord nf_normal nsharer Nat.ltb Nat.leb nth two_sides].
      split; [|split; [|]].
      + cbn [A B box_cell hexa_cell nc_to_global]. rewrite !box_global. cbn [face_point vx vy vz]. apply vec_eq; cbn [vx vy vz]; ring.
      + cbn [A B box_cell hexa_cell nc_to_global]. rewrite !box_global. cbn [face_point vx vy vz]. change (List.length (Lobatto_points 2)) with 2%nat. fold xs. apply vec_eq; cbn [vx vy vz]; ring.
      + assert (EB : area 2 B (4%nat, ((q / 2)%nat, (q mod 2)%nat)) = V 1 0 0) by (apply (unit_area B (4%nat, ((q / 2)%nat, (q mod 2)%nat))); auto; lia).
        assert (EA : area 2 A (2%nat, ((q / 2)%nat, (q mod 2)%nat)) = V 1 0 0) by (apply (unit_area A (2%nat, ((q / 2)%nat, (q mod 2)%nat))); auto; lia).
        assert (N1 : vnorm (V 1 0 0) = 1) by (unfold vnorm, dot; cbn [vx vy vz]; replace (1 * 1 + 0 * 0 + 0 * 0) with 1 by ring; apply sqrt_1).
        rewrite EB, N1. change (unit_normal (Lobatto_points 2) A 2 q) with (vscale (side 2 / vnorm (area 2 A (2%nat, ((q / 2)%nat, (q mod 2)%nat)))) (area 2 A (2%nat, ((q / 2)%nat, (q mod 2)%nat)))).
        rewrite EA, N1. unfold side. split; [lra|]. split.
        * unfold vnorm, dot, vneg, vscale. cbn [vx vy vz]. match goal with |- sqrt ?x = _ => replace x with 1 by field end. apply sqrt_1.
        * unfold vneg, vscale. cbn [vx vy vz]. f_equal; field.
  Qed.
  Fixpoint remove_one (x : position) (l : list position) : option (list position) :=
    match l with
    | [] => None
    | y :: l => if ((fst x =? fst y) && (fst (snd x) =? fst (snd y)) && (snd (snd x) =? snd (snd y)))%nat%bool then Some l
                else match remove_one x l with Some r => Some (y :: r) | None => None end
    end.
  Fixpoint same_elements (l m : list position) : bool :=
    match l with
    | [] => match m with [] => true | _ => false end
    | x :: l => match remove_one x m with Some r => same_elements l r | None => false end
    end.
  Lemma remove_one_perm x : forall l r, remove_one x l = Some r -> Permutation (x :: r) l.
  Proof.
    induction l as [|y l IH]; intros r H; [discriminate|]. cbn [remove_one] in H.
    destruct x as [x1 [x2 x3]], y as [y1 [y2 y3]]. cbn [fst snd] in H.
    destruct ((x1 =? y1) && (x2 =? y2) && (x3 =? y3))%nat%bool eqn:E.
    - apply andb_prop in E as [E E3]. apply andb_prop in E as [E1 E2]. apply Nat.eqb_eq in E1, E2, E3. injection H as <-. subst. apply Permutation_refl.
    - destruct (remove_one _ l) as [r'|]; [|discriminate]. injection H as <-. rewrite perm_swap. apply perm_skip, IH. reflexivity.
  Qed.
  Lemma same_elements_perm : forall l m, same_elements l m = true -> Permutation l m.
  Proof.
    induction l as [|x l IH]; intros m H; cbn [same_elements] in H; [destruct m; [apply perm_nil|discriminate]|].
    destruct (remove_one x m) as [r|] eqn:E; [|discriminate]. rewrite <- (remove_one_perm x m r E). apply perm_skip, IH, H.
  Qed.
  Lemma two_covered u : covered 2 two_place (inflow u) p.
  Proof. intros c [<-|[<-|[]]]; apply same_elements_perm; vm_compute; reflexivity. Qed.
  Lemma two_outlet u : outlet_ok 2 two_place advect (inflow u) p.
  Proof.
    intros name f q k [<-|[]] I L. cbn [p two_part n_boundary_faces String.eqb Ascii.eqb Bool.eqb] in I.
    apply in_map_iff in I. destruct I as (id & <- & _). reflexivity.
  Qed.
  Lemma two_face_weights : face_weights 2 two_place (fun i => nth i (Lobatto_weights 2) 0) p.
  Proof.
    intros c f q T L. destruct T as [[I ->]|[[[<-|[]]|[]] ->]].
    - apply all_two in I. destruct I as (id & Li & ->). do 11 (destruct id as [|id]; [reflexivity|]). lia.
    - change (two_place (nsharer (two_face A B 0)) (two_face A B 0) q) with (4%nat, ((q / 2)%nat, (q mod 2)%nat)).
      destruct (spot_lt 2 two_points q L) as [L1 L2]. cbn [two_face side_face nf_weight nsharer Nat.ltb Nat.leb nth two_sides].
      change (List.length (Lobatto_points 2)) with 2%nat. unfold spot. change (List.length (Lobatto_points 2)) with 2%nat. f_equal. f_equal.
      rewrite (unit_area B (4%nat, ((q / 2)%nat, (q mod 2)%nat))) by (auto; lia). rewrite (unit_area A (2%nat, ((q / 2)%nat, (q mod 2)%nat))) by (auto; lia). reflexivity.
  Qed.
  Lemma two_cell_weights : cell_weights 2 (fun i => nth i (Lobatto_weights 2) 0) p.
  Proof. intros c i j l [<-|[<-|[]]] I J L; apply (box_cell_weights 2 two_points); assumption. Qed.
  Definition unit_axis (i : nat) : vec := match across i with 0%nat => V (side i) 0 0 | 1%nat => V 0 (side i) 0 | _ => V 0 0 (side i) end.
  Lemma two_face_unit id q : (id < 11)%nat -> (q < 4)%nat ->
    nf_weight (two_face A B id) q = 1 /\ nf_normal (two_face A B id) q = unit_axis (nth id two_sides 0%nat).
  Proof.
    intros L Lq. destruct (spot_lt 2 two_points q Lq) as [L1 L2]. set (i := nth id two_sides 0%nat).
    assert (Li : (i < 6)%nat) by (subst i; do 11 (destruct id as [|id]; [cbn; lia|]); lia).
    assert (EA : area 2 (if (id <? 6)%nat then A else B) (i, ((q / 2)%nat, (q mod 2)%nat))
            = match across i with 0%nat => V 1 0 0 | 1%nat => V 0 1 0 | _ => V 0 0 1 end).
    { apply (unit_area _ (i, ((q / 2)%nat, (q mod 2)%nat))); [destruct (id <? 6)%nat; auto|assumption..]. }
    assert (EN : vnorm (area 2 (if (id <? 6)%nat then A else B) (i, ((q / 2)%nat, (q mod 2)%nat))) = 1).
    { rewrite EA. unfold vnorm, dot. destruct (across i) as [|[|n]]; cbn [vx vy vz]; match goal with |- sqrt ?x = _ => replace x with 1 by ring end; apply sqrt_1. }
    split.
    - change (nf_weight (two_face A B id) q) with (nth (q / 2) (Lobatto_weights 2) 0 * nth (q mod 2) (Lobatto_weights 2) 0
        * vnorm (area 2 (if (id <? 6)%nat then A else B) (i, ((q / 2)%nat, (q mod 2)%nat)))).
      rewrite EN. do 4 (destruct q as [|q]; [cbn; ring|]). lia.
    - change (nf_normal (two_face A B id) q) with (vscale (side i / vnorm (area 2 (if (id <? 6)%nat then A else B) (i, ((q / 2)%nat, (q mod 2)%nat))))
        (area 2 (if (id <? 6)%nat then A else B) (i, ((q / 2)%nat, (q mod 2)%nat)))).
      rewrite EN, EA. unfold unit_axis. destruct (across i) as [|[|n]]; unfold vscale; cbn [vx vy vz]; f_equal; field.
  Qed.
  Lemma two_apart : nodes_apart 2 p.
  Proof. intros c f a b T La Lb NE. destruct (two_touch c f T) as [-> | ->]; apply (box_apart 2 two_points); auto using small_0. Qed.
End TwoCells.

(** the state is 3 in the first cell and 5 in the second, 2 at the inflow *)
Definition two_example : npart := two_part (box_cell 2 0 0 0 (uniform 2 3 0)) (box_cell 2 1 2 0 (uniform 2 5 0)).
Lemma two_outward : lsum (boundary_contacts (place_node 2 two_place) (inflow 2) two_example) (through 0) = 12.
Proof.
  unfold boundary_contacts, n_conditions.
  cbn [inflow solid_wall supersonic_inlet supersonic_outlet subsonic_inlet subsonic_outlet smart_boundary map app flat_map].
  set (A := box_cell 2 0 0 0 (uniform 2 3 0)). set (B := box_cell 2 1 2 0 (uniform 2 5 0)). 
  set (fl_in := n_sup_in _ _).
  change (n_boundary_faces two_example "inflow") with [two_face A B 4].
  change (n_boundary_faces two_example "outflow") with (map (two_face A B) [1; 2; 3; 5; 6; 7; 8; 9; 10]%nat).
  assert (H : forall id fl u, (id < 11)%nat ->
    (forall q, (q < 4)%nat -> fl (nf_riemann (two_face A B id) q) (value_at (place_node 2 two_place) (nholder (two_face A B id)) (two_face A B id) q)
       (nf_coord (two_face A B id) q) 0%nat = u * vx (nf_normal (two_face A B id) q)) ->
    lsum (at_boundary (place_node 2 two_place) fl (two_face A B id)) (through 0) = 4 * (u * vx (unit_axis (nth id two_sides 0%nat)))).
  { intros id fl u L HF. unfold at_boundary. change (nf_points (two_face A B id)) with 4%nat. cbn [seq map lsum]. unfold through. cbn [k_face k_point k_flux].
    rewrite !HF by lia. 
    destruct (two_face_unit (uniform 2 3 0) (uniform 2 5 0) id 0 L ltac:(lia)) as [W0 N0]. destruct (two_face_unit (uniform 2 3 0) (uniform 2 5 0) id 1 L ltac:(lia)) as [W1 N1].
    destruct (two_face_unit (uniform 2 3 0) (uniform 2 5 0) id 2 L ltac:(lia)) as [W2 N2]. destruct (two_face_unit (uniform 2 3 0) (uniform 2 5 0) id 3 L ltac:(lia)) as [W3' N3].
    fold A in W0, N0, W1, N1, W2, N2, W3', N3. fold B in W0, N0, W1, N1, W2, N2, W3', N3.
    rewrite W0, W1, W2, W3', N0, N1, N2, N3. ring. }
  assert (HO : forall id, (id < 11)%nat -> lsum (at_boundary (place_node 2 two_place) n_sup_out (two_face A B id)) (through 0)
    = 4 * ((if (id <? 6)%nat then 3 else 5) * vx (unit_axis (nth id two_sides 0%nat)))).
  { intros id L. apply H; [exact L|]. intros q Lq.
    assert (EV : value_at (place_node 2 two_place) (nholder (two_face A B id)) (two_face A B id) q 0%nat = if (id <? 6)%nat then 3 else 5).
    { unfold value_at.
      assert (LN : (place_node 2 two_place (nholder (two_face A B id)) (two_face A B id) q < 2 * 2 * 2)%nat).
      { destruct (spot_lt 2 two_points q Lq) as [L1 L2]. change (spot (Lobatto_points 2)) with (fun i q : nat => (i, ((q / 2)%nat, (q mod 2)%nat))).
        unfold place_node, two_place, spot, node_at. change (List.length (Lobatto_points 2)) with 2%nat.
        apply node_lt; [assumption..|]. match goal with |- (last_of _ ?i < _)%nat => generalize i end. intros i. unfold last_of. destruct i as [|[|[|[|[|i]]]]]; lia. }
      set (n := place_node _ _ _ _ _) in *. clearbody n. cbn [two_face side_face nholder].
      destruct (id <? 6)%nat; [apply (uniform_value 2 two_points); [left; reflexivity|exact LN]|apply (uniform_value 2 two_points); [left; reflexivity|exact LN]]. }
    unfold n_sup_out. cbn [two_face side_face nf_riemann advection GetFluxOnSupersonicOutlet nf_normal]. unfold advect.
    cbn [two_face side_face nholder] in EV. 
    match goal with |- dot (vscale ?v _) _ = _ => replace v with (if (id <? 6)%nat then 3 else 5) end.
    unfold dot, along_x, vscale. cbn [vx vy vz]. ring. }
  cbn [map flat_map app]. rewrite !lsum_app. change (lsum (@nil contact) (through 0)) with 0.
  rewrite (H 4%nat fl_in 2) by (try lia; intros q Lq; unfold fl_in, n_sup_in; cbn [two_face side_face nf_riemann advection GetFluxOnSupersonicInlet nf_normal]; unfold advect, dot, along_x, vscale; cbn [vx vy vz]; ring).
  rewrite !HO by lia. cbn. ring.
Qed.
