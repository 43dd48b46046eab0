(** Coordinates and integrators of the Python package. *)
From Coq Require Import Reals List Arith Lra Lia.
From Coquelicot Require Import Coquelicot.
From Verif Require Import Arrays RSum Spec_Gauss Model_PyEuler Model_PyIntegrator Spec_PyIntegrator Proof_PyIntegrator.
Import ListNotations.
Open Scope R_scope.

(** ** C131: coordinates *)
Theorem py_coordinates : forall c, x_left c <> x_right c ->
  spans (local_to_global c) (x_left c) (x_center c) (x_right c) /\
  x_center c = (x_left c + x_right c) / 2 /\ length_of c = x_right c - x_left c /\
  (forall x, global_to_local c (local_to_global c x) = Some x) /\
  (forall x, exists y, global_to_local c x = Some y /\ local_to_global c y = x) /\
  (forall x, is_derive (local_to_global c) x (local_to_jacobian c x) /\
             global_to_jacobian c (local_to_global c x) = local_to_jacobian c x /\
             Derive_n (local_to_jacobian c) (S (jacobian_degree c)) x = 0).
Proof.
  intros c N. rewrite center_is, length_is. split.
  { unfold spans. rewrite !map_is. repeat split; field. }
  split; [reflexivity|]. split; [reflexivity|]. split; [|split].
  - intros x. rewrite inverse_is by exact N. f_equal. rewrite map_is. field. lra.
  - intros x. eexists. split; [apply inverse_is, N|]. rewrite map_is. field. lra.
  - intros x. split; [|split].
    + apply (is_derive_ext (fun x => (x_left c + x_right c) / 2 + x * ((x_right c - x_left c) / 2))); [intros; symmetry; apply map_is|].
      rewrite jacobian_is. auto_derive; [auto|]. field.
    + rewrite jacobian_is. apply global_jacobian_is.
    + rewrite (Derive_n_ext _ (fun _ => (x_right c - x_left c) / 2)) by apply jacobian_is. apply Derive_n_const.
Qed.
Print Assumptions py_coordinates.

(** A shifted coordinate is the same map moved by the shift. *)
Theorem py_shifted : forall c s, let d := Shifted c s in
  (forall x, local_to_global d x = local_to_global c x + s) /\
  (forall x, global_to_local d (x + s) = global_to_local c x) /\
  (forall x, local_to_jacobian d x = local_to_jacobian c x) /\
  x_left d = x_left c + s /\ x_right d = x_right c + s /\ x_center d = x_center c + s /\ length_of d = length_of c.
Proof.
  intros c s d. unfold d. cbn [local_to_global local_to_jacobian global_to_local x_left x_right x_center length_of].
  repeat split. intros x. f_equal. ring.
Qed.
Print Assumptions py_shifted.

Example py_coordinate_example : let c := Shifted (Linear 1 5) 10 in
  x_left c = 11 /\ x_right c = 15 /\ length_of c = 4 /\ local_to_global c (1 / 2) = 14 /\ global_to_local c 12 = Some (-1 / 2) /\
  local_to_jacobian c 0 = 2.
Proof.
  intros c. split; [cbn; lra|]. split; [cbn; lra|]. split; [cbn; lra|].
  split; [unfold c; cbn [local_to_global]; unfold linear_center, linear_jacobian; field|].
  split; [rewrite inverse_is by (cbn; lra); f_equal; unfold c; cbn [x_left x_right]; field|].
  rewrite jacobian_is. unfold c; cbn [x_left x_right]; field.
Qed.

(** ** C132: Gauss-Lobatto rules *)

(** The tables up to ten points: from -1 to 1 in increasing order, symmetric, with positive weights. *)
Theorem py_lobatto_tables : forall n, (2 <= n <= 10)%nat -> exists ps ws,
  GaussLobatto_points n = Some ps /\ GaussLobatto_weights n = Some ws /\ length ps = n /\ length ws = n /\
  nth 0 ps 0 = -1 /\ nth (n - 1) ps 0 = 1 /\ increasing ps /\ symmetric ps /\ palindrome ws /\ List.Forall (fun w => 0 < w) ws.
Proof.
  intros n H. destruct (moments n H) as (ps & ws & P & W & L1 & L2 & _). exists ps, ws.
  pose proof (tables n ps ws H P W). tauto.
Qed.
Print Assumptions py_lobatto_tables.

(** The integrator on any element: for integrands that are polynomials of degree at most 2 n - 3 of the local
    coordinate the result is the Riemann integral up to [lobatto_error n], which is zero up to six points
    and otherwise the effect of the decimal constants. *)
Theorem py_lobatto_integrates : forall n c ps ws i f k, (2 <= n <= 10)%nat -> x_left c <> x_right c ->
  GaussLobatto_points n = Some ps -> GaussLobatto_weights n = Some ws -> Integrator_init c ps ws = Some i ->
  (forall x, f (local_to_global c x) = poly1 (2 * n - 3) k x) ->
  within (from_to (x_left c) (x_right c)) f (integrate i f) (Rabs (x_right c - x_left c) / 2 * (lobatto_error n * size1 (2 * n - 3) k)).
Proof. exact lobatto_within. Qed.
Print Assumptions py_lobatto_integrates.

(** Up to six points, for polynomials of the global coordinate; and the average. *)
Theorem py_lobatto_exact : forall n c ps ws i k, (2 <= n <= 6)%nat -> x_left c <> x_right c ->
  GaussLobatto_points n = Some ps -> GaussLobatto_weights n = Some ws -> Integrator_init c ps ws = Some i ->
  exactly (from_to (x_left c) (x_right c)) (poly1 (2 * n - 3) k) (integrate i (poly1 (2 * n - 3) k)) /\
  exists a, average i (poly1 (2 * n - 3) k) = Some a /\
    exactly (from_to (x_left c) (x_right c)) (poly1 (2 * n - 3) k) (a * (x_right c - x_left c)).
Proof.
  intros n c ps ws i k H N P W I. pose proof (lobatto_exact n c ps ws i k H P W I) as E. split; [exact E|].
  assert (C : i_coordinate i = c) by (unfold Integrator_init in I; destruct ps; [discriminate|]; injection I as <-; reflexivity).
  unfold average. rewrite C, length_is. unfold div. destruct (Req_EM_T (x_right c - x_left c) 0); [lra|].
  eexists. split; [reflexivity|].
  replace (integrate i (poly1 (2 * n - 3) k) / (x_right c - x_left c) * (x_right c - x_left c)) with (integrate i (poly1 (2 * n - 3) k)) by (field; lra).
  exact E.
Qed.
Print Assumptions py_lobatto_exact.

(** The points of the integrator lie in the element, the first one at the left end and the last one at the right end;
    the sum is bounded by the norm. *)
Theorem py_lobatto_in_element : forall n c ps ws i, (2 <= n <= 10)%nat -> x_left c < x_right c ->
  GaussLobatto_points n = Some ps -> GaussLobatto_weights n = Some ws -> Integrator_init c ps ws = Some i ->
  length (global_points i) = n /\ nth 0 (global_points i) 0 = x_left c /\ nth (n - 1) (global_points i) 0 = x_right c /\
  increasing (global_points i) /\ List.Forall (fun w => 0 < w) (global_weights i) /\
  forall f, Rabs (integrate i f) <= norm_1 i f.
Proof. exact in_element. Qed.
Print Assumptions py_lobatto_in_element.

(** x^3 + x^2 on [0, 2] by three points: Simpson's rule *)
Example py_lobatto_example : exists ps ws i, GaussLobatto_points 3 = Some ps /\ GaussLobatto_weights 3 = Some ws /\
  Integrator_init (Linear 0 2) ps ws = Some i /\ integrate i (fun x => x ^ 3 + x ^ 2) = 20 / 3 /\
  average i (fun x => x ^ 3 + x ^ 2) = Some (10 / 3).
Proof.
  eexists _, _, _. split; [reflexivity|]. split; [reflexivity|]. split; [reflexivity|].
  assert (E : integrate {| i_coordinate := Linear 0 2; global_points := map (local_to_global (Linear 0 2)) [-1; 0; 1];
    global_weights := map (fun pw => snd pw * local_to_jacobian (Linear 0 2) (fst pw)) (combine [-1; 0; 1] [1 / 3; 4 / 3; 1 / 3]) |}
    (fun x => x ^ 3 + x ^ 2) = 20 / 3).
  { unfold integrate. cbn [global_points global_weights map combine local_to_global local_to_jacobian fold_left fst snd].
    unfold linear_center, linear_jacobian. cbn [pow]. field. }
  split; [exact E|]. unfold average. rewrite E. cbn [i_coordinate length_of]. unfold div. destruct (Req_EM_T (2 - 0) 0); [lra|].
  f_equal. field.
Qed.
