(** Shape functions: checked by computation on polynomials with rational coefficients. *)
From Coq Require Import Reals QArith Qreals List Arith Lia Lra Bool.
From Verif Require Import Vec3 Spec_Basis RSum Model_Shapes Model_Geometry PolyQ Spec_Shapes Proof_Vincent.
Import ListNotations.
Open Scope R_scope.

Definition real (l : Local) : R * R * R := (Q2R (lX l), Q2R (lY l), Q2R (lZ l)).
Definition node (e : Element) (i : nat) : R * R * R := real (at_ (e_coords e) i).

Lemma Dt_correct w : forall e x y z, is_partial w (fun x y z => ev x y z e) x y z (ev x y z (Dt w e)).
Proof.
  unfold Dt. induction w as [|a w IH]; intros e x y z; cbn [fold_left]; [apply tidy_ev|].
  exists (fun x y z => ev x y z (D a (tidy e))). split.
  - intros u v t. pose proof (Dw_correct [a] (tidy e) u v t) as (g & P & _).
    destruct a; [apply (derivable_ext (fun s => ev s v t (tidy e))); [intros; apply tidy_ev|apply D_x]
      |apply (derivable_ext (fun s => ev u s t (tidy e))); [intros; apply tidy_ev|apply D_y]
      |apply (derivable_ext (fun s => ev u v s (tidy e))); [intros; apply tidy_ev|apply D_z]].
  - apply (is_partial_ext _ (fun x y z => ev x y z (D a (tidy e)))); [reflexivity|]. 
    specialize (IH (D a (tidy e)) x y z). exact IH.
Qed.

(** ** the checks *)
Definition sE (e : Element) : list pexp := e_shapes e pexp ExpOps EX EY EZ.
Definition gE (e : Element) : list (list pexp) := e_grads e pexp ExpOps EX EY EZ.
Definition esum (l : list pexp) : pexp := fold_right EAdd (EC 0) l.
Definition nodes_n (e : Element) : nat := length (e_coords e).
Definition check_interpolates (e : Element) : bool :=
  let S := sE e in let n := nodes_n e in
  (Nat.eqb (length S) n && same (esum S) (EC 1) &&
   forallb (fun i => forallb (fun j =>
     let l := at_ (e_coords e) j in
     Qeq_bool (evQ (lX l) (lY l) (lZ l) (nth i S (EC 0))) (if Nat.eqb i j then 1 else 0)%Q) (seq 0 n)) (seq 0 n))%bool.
Definition check_derivatives (ws : list (list axis)) (n : nat) (S : list pexp) (H : list (list pexp)) : bool :=
  (Nat.eqb (length H) n && Nat.eqb (length S) n &&
   forallb (fun i => forallb (fun k => same (Dt (nth k ws []) (nth i S (EC 0))) (nth k (nth i H []) (EC 0)))
     (seq 0 (length ws))) (seq 0 n))%bool.
Definition check_reproduces (e : Element) (f : pexp) : bool :=
  let S := sE e in
  same (esum (map (fun i => let l := at_ (e_coords e) i in EMul (EC (evQ (lX l) (lY l) (lZ l) f)) (nth i S (EC 0)))
    (seq 0 (nodes_n e)))) f.

(** the model over the reals is the evaluation of the model over expressions *)
Definition shapes_match (e : Element) : Prop :=
  forall x y z, map (ev x y z) (sE e) = e_shapes e R RealOps x y z.
Definition vectors_match (E : list (list pexp)) (F : R -> R -> R -> list (list R)) : Prop :=
  forall x y z, map (map (ev x y z)) E = F x y z.

Lemma forallb_nth {A} (f : A -> bool) l i d : forallb f l = true -> (i < length l)%nat -> f (nth i l d) = true.
Proof. intros H L. rewrite forallb_forall in H. apply H, nth_In, L. Qed.
Lemma forallb_seq f n i : forallb f (seq 0 n) = true -> (i < n)%nat -> f i = true.
Proof. intros H L. rewrite forallb_forall in H. apply H, in_seq. lia. Qed.
Lemma nth_ev x y z l i : nth i (map (ev x y z) l) 0 = ev x y z (nth i l (EC 0)).
Proof. rewrite <- (map_nth (ev x y z)). cbn [ev]. rewrite Q2R_0. reflexivity. Qed.
Lemma nth_map2 x y z l i k : nth k (nth i (map (map (ev x y z)) l) []) 0 = ev x y z (nth k (nth i l []) (EC 0)).
Proof. rewrite <- nth_ev. f_equal. change [] with (map (ev x y z) []) at 1. apply map_nth. Qed.
Lemma total_ev x y z l : total (map (ev x y z) l) = ev x y z (esum l).
Proof. induction l; cbn [map total fold_right esum ev]; [symmetry; apply Q2R_0|]. unfold total, esum in IHl. rewrite IHl. reflexivity. Qed.

Lemma interpolates_of e : check_interpolates e = true -> shapes_match e ->
  interpolates (nodes_n e) (e_shapes e R RealOps) (node e).
Proof.
  unfold check_interpolates, shapes_match. intros C M.
  apply andb_prop in C as [C C3]. apply andb_prop in C as [C1 C2]. apply Nat.eqb_eq in C1.
  split; [|split].
  - intros x y z. rewrite <- M, map_length. exact C1.
  - intros x y z. rewrite <- M, total_ev, (same_ev _ _ x y z C2). apply Q2R_1.
  - intros i j Hi Hj. unfold node, real. rewrite <- M, nth_ev, <- evQ_ev.
    apply (forallb_seq _ _ i) in C3; [|exact Hi]. cbv beta in C3. apply (forallb_seq _ _ j) in C3; [|exact Hj].
    cbv beta zeta in C3. apply Qeq_bool_eq in C3. apply Qeq_eqR in C3. rewrite C3. destruct (Nat.eqb i j); [apply Q2R_1|apply Q2R_0].
Qed.

Lemma derivatives_of_check ws e E F : check_derivatives ws (nodes_n e) (sE e) E = true -> shapes_match e -> vectors_match E F ->
  derivatives_of ws (nodes_n e) (e_shapes e R RealOps) F.
Proof.
  unfold check_derivatives, shapes_match, vectors_match. intros C M V.
  apply andb_prop in C as [C C3]. apply andb_prop in C as [C1 C2]. apply Nat.eqb_eq in C1, C2.
  split.
  - intros x y z. rewrite <- V, map_length. exact C1.
  - intros i k x y z Hi Hk. apply (forallb_seq _ _ i) in C3; [|exact Hi]. cbv beta in C3.
    apply (forallb_seq _ _ k) in C3; [|exact Hk]. cbv beta in C3.
    rewrite <- V, nth_map2, <- (same_ev _ _ x y z C3).
    apply (is_partial_ext _ (fun x y z => ev x y z (nth i (sE e) (EC 0)))); [|apply Dt_correct].
    intros u v w. rewrite <- M, nth_ev. reflexivity.
Qed.

Definition first_order (dim : nat) : list (list axis) := map (fun a => [axis_of a]) (seq 0 dim).
Lemma gradients_of_derivatives dim n S G : derivatives_of (first_order dim) n S G -> gradients_of dim n S G.
Proof.
  intros [L H]. split; [exact L|]. intros i a x y z Hi Ha. specialize (H i a x y z Hi).
  unfold first_order in H. rewrite map_length, seq_length in H. specialize (H Ha).
  rewrite (nth_indep _ _ [axis_of 0]) in H by (rewrite map_length, seq_length; exact Ha).
  change [axis_of 0] with ((fun a => [axis_of a]) 0%nat) in H. rewrite map_nth, seq_nth in H by exact Ha. exact H.
Qed.

Lemma reproduces_of e f : check_reproduces e f = true -> shapes_match e ->
  reproduces (nodes_n e) (e_shapes e R RealOps) (node e) (fun x y z => ev x y z f).
Proof.
  unfold check_reproduces, shapes_match. intros C M x y z. rewrite <- (same_ev _ _ x y z C), <- total_ev. f_equal.
  rewrite map_map. apply map_ext. intros i. cbn [ev]. unfold node, real. rewrite evQ_ev, <- M, nth_ev. reflexivity.
Qed.

(** ** the element types *)
Definition elements : list Element :=
  [Triangle3; Triangle6; Quadrangle4; Quadrangle8; Quadrangle9; Tetrahedron4; Tetrahedron10;
   Pyramid5; Pyramid13; Pyramid14; Wedge6; Wedge15; Wedge18; Hexahedron8; Hexahedron20; Hexahedron26; Hexahedron27].

Ltac each H tac := repeat (destruct H as [<-|H]; [tac|]); destruct H.

Lemma all_interpolate_check : forallb check_interpolates elements = true.
Proof. vm_cast_no_check (eq_refl true). Qed.
Lemma all_gradients_check : forallb (fun e => check_derivatives (first_order (e_dim e)) (nodes_n e) (sE e) (gE e)) elements = true.
Proof. vm_cast_no_check (eq_refl true). Qed.
Lemma all_shapes_match e : In e elements -> shapes_match e.
Proof. intros H. each H ltac:(intros x y z; match goal with |- _ = ?b => exact_no_check (eq_refl b) end). Qed.
Lemma all_gradients_match e : In e elements -> vectors_match (gE e) (e_grads e R RealOps).
Proof. intros H. each H ltac:(intros x y z; match goal with |- _ = ?b => exact_no_check (eq_refl b) end). Qed.

Lemma shapes_interpolate e : In e elements -> interpolates (nodes_n e) (e_shapes e R RealOps) (node e).
Proof.
  intros H. apply interpolates_of; [|apply all_shapes_match, H].
  pose proof all_interpolate_check as C. rewrite forallb_forall in C. apply C, H.
Qed.
Lemma shapes_gradients e : In e elements -> gradients_of (e_dim e) (nodes_n e) (e_shapes e R RealOps) (e_grads e R RealOps).
Proof.
  intros H. apply gradients_of_derivatives, (derivatives_of_check _ _ (gE e)); [|apply all_shapes_match, H|apply all_gradients_match, H].
  pose proof all_gradients_check as C. rewrite forallb_forall in C. apply (C e), H.
Qed.

(** ** second and third derivatives of hexahedra *)
Definition hexas : list Hexa := [Hexa8; Hexa20; Hexa26; Hexa27].
Definition hE (h : Hexa) : list (list pexp) := h_hessians h pexp ExpOps EX EY EZ.
Definition tE (h : Hexa) : list (list pexp) := h_tensors h pexp ExpOps EX EY EZ.
Lemma all_hessians_check : forallb (fun h => check_derivatives second (nodes_n (h_element h)) (sE (h_element h)) (hE h)) hexas = true.
Proof. vm_cast_no_check (eq_refl true). Qed.
Lemma all_tensors_check : forallb (fun h => check_derivatives third (nodes_n (h_element h)) (sE (h_element h)) (tE h)) hexas = true.
Proof. vm_cast_no_check (eq_refl true). Qed.
Lemma all_hessians_match h : In h hexas -> vectors_match (hE h) (h_hessians h R RealOps).
Proof. intros H. each H ltac:(intros x y z; match goal with |- _ = ?b => exact_no_check (eq_refl b) end). Qed.
Lemma all_tensors_match h : In h hexas -> vectors_match (tE h) (h_tensors h R RealOps).
Proof. intros H. each H ltac:(intros x y z; match goal with |- _ = ?b => exact_no_check (eq_refl b) end). Qed.
Lemma hexas_elements h : In h hexas -> In (h_element h) elements.
Proof. intros H. each H ltac:(cbn; tauto). Qed.
Lemma shapes_hessians h : In h hexas ->
  derivatives_of second (nodes_n (h_element h)) (e_shapes (h_element h) R RealOps) (h_hessians h R RealOps).
Proof.
  intros H. apply (derivatives_of_check _ _ (hE h)); [|apply all_shapes_match, hexas_elements, H|apply all_hessians_match, H].
  pose proof all_hessians_check as C. rewrite forallb_forall in C. apply (C h), H.
Qed.
Lemma shapes_tensors h : In h hexas ->
  derivatives_of third (nodes_n (h_element h)) (e_shapes (h_element h) R RealOps) (h_tensors h R RealOps).
Proof.
  intros H. apply (derivatives_of_check _ _ (tE h)); [|apply all_shapes_match, hexas_elements, H|apply all_tensors_match, H].
  pose proof all_tensors_check as C. rewrite forallb_forall in C. apply (C h), H.
Qed.

(** ** which polynomials are reproduced *)
Definition linear_elements : list Element :=
  [Triangle3; Triangle6; Quadrangle4; Quadrangle8; Quadrangle9; Tetrahedron4; Tetrahedron10;
   Wedge6; Wedge15; Wedge18; Hexahedron8; Hexahedron20; Hexahedron26; Hexahedron27].
Definition quadratic_elements : list Element :=
  [Triangle6; Quadrangle8; Quadrangle9; Tetrahedron10; Wedge15; Wedge18; Hexahedron20; Hexahedron26; Hexahedron27].
Definition exponents (dim deg : nat) : list pexp :=
  match deg, dim with
  | 1%nat, 2%nat => [EX; EY]
  | 1%nat, _ => [EX; EY; EZ]
  | _, 2%nat => [EMul EX EX; EMul EX EY; EMul EY EY]
  | _, _ => [EMul EX EX; EMul EX EY; EMul EX EZ; EMul EY EY; EMul EY EZ; EMul EZ EZ]
  end.
Lemma linear_check : forallb (fun e => forallb (check_reproduces e) (exponents (e_dim e) 1)) linear_elements = true.
Proof. vm_cast_no_check (eq_refl true). Qed.


Lemma quadratic_check : forallb (fun e => forallb (check_reproduces e) (exponents (e_dim e) 2)) quadratic_elements = true.
Proof. vm_cast_no_check (eq_refl true). Qed.

(** the local coordinates of a pyramid are those of a cube one face of which is collapsed to the apex *)
Definition collapsed_x : pexp := EMul (EMul EX (ESub (EC 1) EZ)) (EC (1 # 2)).
Definition collapsed_y : pexp := EMul (EMul EY (ESub (EC 1) EZ)) (EC (1 # 2)).
Definition pyramids : list Element := [Pyramid5; Pyramid13; Pyramid14].
Lemma pyramid_check : forallb (fun e => forallb (check_reproduces e) [collapsed_x; collapsed_y; EZ]) pyramids = true.
Proof. vm_cast_no_check (eq_refl true). Qed.
Lemma pyramid_check2 : forallb (fun e => forallb (check_reproduces e)
  [EMul collapsed_x collapsed_x; EMul collapsed_x collapsed_y; EMul collapsed_x EZ; EMul collapsed_y collapsed_y; EMul collapsed_y EZ; EMul EZ EZ])
  [Pyramid13; Pyramid14] = true.
Proof. vm_cast_no_check (eq_refl true). Qed.
Lemma reproduce_of es fs e f : forallb (fun e => forallb (check_reproduces e) (fs e)) es = true ->
  In e es -> In e elements -> In f (fs e) -> reproduces (nodes_n e) (e_shapes e R RealOps) (node e) (fun x y z => ev x y z f).
Proof.
  intros C H1 H2 H3. apply reproduces_of; [|apply all_shapes_match, H2].
  rewrite forallb_forall in C. specialize (C e H1). rewrite forallb_forall in C. apply C, H3.
Qed.
Lemma linear_are_elements e : In e linear_elements -> In e elements.
Proof. intros H. each H ltac:(cbn; tauto). Qed.
Lemma quadratic_are_elements e : In e quadratic_elements -> In e elements.
Proof. intros H. each H ltac:(cbn; tauto). Qed.
Lemma pyramids_are_elements e : In e pyramids -> In e elements.
Proof. intros H. each H ltac:(cbn; tauto). Qed.
