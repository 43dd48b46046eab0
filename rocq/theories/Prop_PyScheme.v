(** C151 - C153: columns and residuals of finite element schemes of the Python package *)
From Coq Require Import Reals List Arith ZArith Bool Lia Lra FunctionalExtensionality.
From Coquelicot Require Import Coquelicot.
From Verif Require Import Arrays RSum Proof_PyPoly Model_PyIntegrator Proof_PyIntegrator Model_PyExpansion Spec_PyExpansion Model_PyNodal Proof_PyExpansion Proof_PyNodal Prop_PyNodal.
From Verif Require Import Model_PyElement Spec_PyElement Prop_PyElement Model_PyFR Spec_PyFR Prop_PyFR.
From Verif Require Import Model_PyColumn Spec_PyColumn Proof_PyColumn Model_PyGrid Spec_PyGrid Proof_PyGrid Prop_PyGrid Model_PyScheme Proof_PyScheme.
From Verif Require Prop_PyExpansion.
Import ListNotations.
Open Scope nat_scope.

(** ** C151: columns of coefficients *)
Theorem py_column_set y n column : well_formed y ->
  (length column = n * (n_component y * n_term y) -> exists coeffs, set_solution_column y n column = Some coeffs /\ holds y n column coeffs /\ get_solution_column y n coeffs = Some column) /\
  (length column <> n * (n_component y * n_term y) -> set_solution_column y n column = None).
Proof.
  intros W. split.
  - intros L. destruct (set_is y W n column L) as (co & E & H). exists co. split; [exact E|]. split; [exact H|].
    destruct (get_is y W n co) as (col & G & H'). rewrite G. f_equal. apply (holds_unique y n col column co H' H).
  - intros L. unfold set_solution_column, scheme_n_dof, element_n_dof. destruct (Nat.eqb_spec (length column) (n * (n_term y * n_component y))) as [Q|]; [|reflexivity].
    destruct L. rewrite Q. f_equal. apply Nat.mul_comm.
Qed.
Print Assumptions py_column_set.
Theorem py_column_get y n coeffs : well_formed y ->
  exists column, get_solution_column y n coeffs = Some column /\ holds y n column coeffs /\
    exists coeffs', set_solution_column y n column = Some coeffs' /\ forall e r c, valid y n e r c -> coeffs' e r c = coeffs e r c.
Proof.
  intros W. destruct (get_is y W n coeffs) as (col & G & H). exists col. split; [exact G|]. split; [exact H|].
  destruct (set_is y W n col (proj1 H)) as (co & E & H'). exists co. split; [exact E|]. intros e r c Vd. pose proof (proj2 H e r c Vd). pose proof (proj2 H' e r c Vd). congruence.
Qed.
Print Assumptions py_column_get.
(** two elements, two terms, three components: in each element component after component *)
Example py_column_example : let y := mkLayout true 2 3 in well_formed y /\
  get_solution_column y 2 (fun e r c => INR (100 * e + 10 * r + c)) = Some (map INR [0; 10; 1; 11; 2; 12; 100; 110; 101; 111; 102; 112]) /\
  set_solution_column y 2 (repeat 0%R 11) = None /\
  get_solution_column (mkLayout false 2 1) 2 (fun e r c => INR (10 * e + r)) = Some (map INR [0; 1; 10; 11]).
Proof.
  intros y. split; [discriminate|]. split; [reflexivity|]. split; reflexivity.
Qed.

(** ** C152: conservation.  [balanced]: the residual column, as coefficients of the expansions, has total integral zero
    on periodic grids, and the difference of the fluxes through the ends of the grid otherwise *)
Definition balanced {E} (set : E -> nat -> (nat -> R) -> option E) (value : E -> R -> R) (y : Layout) (g : Grid Values) (solve : Face Values -> option (Values * Values)) (es : nat -> nat -> E) (column : list R) : Prop :=
  exists coeffs, set_solution_column y (n_element g) column = Some coeffs /\
  forall m, m < n_component y -> exists e' total,
    (forall i, i < n_element g -> set (es i m) (n_term y) (fun r => coeffs i r m) = Some (e' i) /\ is_RInt (value (e' i)) (x_left (coordinates g i)) (x_right (coordinates g i)) (total i)) /\
    (periodic g = true -> rsum (n_element g) total = 0%R) /\
    (forall ul ur, periodic g = false -> Spec_PyGrid.open g ul ur -> exists vl vr, solve (Inlet ul 0 true) = Some vl /\ solve (Inlet ur (n_element g - 1) false) = Some vr /\
      rsum (n_element g) total = (fst vl m - fst vr m)%R).

Section Conservation.
  Variables (y : Layout) (n : nat) (a b : R) (g : Grid Values) (solve : Face Values -> option (Values * Values)) (q : nat -> Equation).
  Hypotheses (W : well_formed y) (Sg : scheme n a b g).
  Lemma ends_differ i : x_left (coordinates g i) <> x_right (coordinates g i).
  Proof.
    destruct (scheme_is n a b g Sg) as (L & H & _ & C & _). rewrite C. cbn [x_left x_right]. rewrite S_INR. assert (0 < INR n)%R by (apply lt_0_INR; lia).
    assert (0 < (b - a) / INR n)%R by (apply Rdiv_lt_0_compat; lra). lra.
  Qed.
  Lemma column_length column element : get_residual_column y g solve element = Some column -> length column = n * (n_component y * n_term y).
  Proof.
    intros E. destruct (scheme_is n a b g Sg) as (_ & H & N & _ & _ & I & B). destruct (residual_is y g solve element W column ltac:(lia) I B E) as (v1 & t1 & _ & _ & _ & _ & Ho).
    rewrite <- N. exact (proj1 Ho).
  Qed.
  Lemma balance (E : Type) (set : E -> nat -> (nat -> R) -> option E) (value : E -> R -> R) es
    (ext : forall e d c c' e', set e d c = Some e' -> (forall r, r < d -> c r = c' r) -> exists e'', set e d c' = Some e'' /\ forall x, value e'' x = value e' x)
    (res : nat -> nat -> Values * Values -> Values * Values -> option (nat -> R)) :
    (forall i m l r t, i < n -> m < n_component y -> res i m l r = Some t -> exists e', set (es i m) (n_term y) t = Some e' /\
       conserves (x_left (coordinates g i)) (x_right (coordinates g i)) (value e') (fst l m) (fst r m)) ->
    forall column, get_residual_column y g solve (fun i l r => components (n_component y) (fun m => res i m l r)) = Some column ->
    length column = n * (n_component y * n_term y) /\ balanced set value y g solve es column.
  Proof.
    intros Hc column Ec. destruct (scheme_is n a b g Sg) as (_ & H & N & _ & _ & I & B). assert (Lc := column_length _ _ Ec). split; [exact Lc|].
    rewrite <- N in Lc. destruct (set_is y W (n_element g) column Lc) as (co & Es & _). exists co. split; [exact Es|].
    refine (total_is E set value ext y g solve res es column co W ltac:(lia) I B _ Ec Es). rewrite N. exact Hc.
  Qed.
  Lemma exists_column (res : nat -> nat -> Values * Values -> Values * Values -> option (nat -> R)) :
    (forall f, solve f <> None) -> (forall i m l r, i < n -> m < n_component y -> res i m l r <> None) ->
    exists column, get_residual_column y g solve (fun i l r => components (n_component y) (fun m => res i m l r)) = Some column.
  Proof.
    intros T Te. destruct (scheme_is n a b g Sg) as (_ & H & N & _ & _ & I & B). apply (residual_exists y g solve _ W ltac:(lia) I B T). rewrite N. intros i l r Hi.
    apply components_exist. intros m Hm. apply Te; assumption.
  Qed.
End Conservation.

Theorem py_scheme_legendre_conserves y n a b g solve q roots inv degree es : well_formed y -> scheme n a b g -> n_term y = degree + 1 -> inverts inv -> gauss roots (degree + 1) ->
  (forall i m, i < n -> m < n_component y -> Prop_PyExpansion.made roots inv degree (coordinates g i) (es i m)) ->
  ((forall f, solve f <> None) -> exists column, get_residual_column y g solve (legendre_element y q es) = Some column) /\
  forall column, get_residual_column y g solve (legendre_element y q es) = Some column -> length column = n * (n_component y * n_term y) /\ balanced l_set_coeff l_value y g solve es column.
Proof.
  intros W Sg T V G M. assert (X := ends_differ n a b g Sg). split.
  - intros Tot. apply (exists_column y n a b g solve W Sg (fun i m l r => legendre_residual (q i) (es i) m (faces_of l r m)) Tot). intros i m l r Hi Hm.
    destruct (py_dg_legendre_conserves roots inv degree (coordinates g i) (q i) (es i) m (faces_of l r m) (X i) V G (M i m Hi Hm)) as (t & e' & -> & _). discriminate.
  - apply (balance y n a b g solve W Sg _ l_set_coeff l_value es l_set_ext (fun i m l r => legendre_residual (q i) (es i) m (faces_of l r m))). intros i m l r t Hi Hm E.
    destruct (py_dg_legendre_conserves roots inv degree (coordinates g i) (q i) (es i) m (faces_of l r m) (X i) V G (M i m Hi Hm)) as (t' & e' & E' & Se & C).
    assert (t' = t) by congruence. subst t'. exists e'. rewrite T. split; [exact Se|exact C].
Qed.
Print Assumptions py_scheme_legendre_conserves.
Theorem py_scheme_nodal_conserves y n a b g solve q lsolve kind roots inv degree es : well_formed y -> scheme n a b g -> n_term y = degree + 1 -> inverts inv -> solves lsolve -> exact_rule kind roots degree ->
  (forall i m, i < n -> m < n_component y -> made kind roots inv degree (coordinates g i) (es i m)) ->
  (kind <> UniformRoots -> (forall f, solve f <> None) -> exists column, get_residual_column y g solve (nodal_element lsolve kind y q es) = Some column) /\
  forall column, get_residual_column y g solve (nodal_element lsolve kind y q es) = Some column -> length column = n * (n_component y * n_term y) /\ balanced g_set_coeff g_value y g solve es column.
Proof.
  intros W Sg T V Sv Ex M. assert (X := ends_differ n a b g Sg). split.
  - intros K Tot. apply (exists_column y n a b g solve W Sg (fun i m l r => nodal_residual lsolve kind (q i) (es i) m (faces_of l r m)) Tot). intros i m l r Hi Hm.
    destruct (proj2 (py_dg_nodal_conserves lsolve kind roots inv degree (coordinates g i) (q i) (es i) m (faces_of l r m) (X i) V Sv Ex (M i m Hi Hm)) K) as (t & ->). discriminate.
  - apply (balance y n a b g solve W Sg _ g_set_coeff g_value es g_set_ext (fun i m l r => nodal_residual lsolve kind (q i) (es i) m (faces_of l r m))). intros i m l r t Hi Hm E.
    destruct (proj1 (py_dg_nodal_conserves lsolve kind roots inv degree (coordinates g i) (q i) (es i) m (faces_of l r m) (X i) V Sv Ex (M i m Hi Hm)) t E) as (e' & Se & C).
    exists e'. rewrite T. split; [exact Se|exact C].
Qed.
Print Assumptions py_scheme_nodal_conserves.
Theorem py_scheme_fr_conserves y n a b g solve q h roots inv degree es : well_formed y -> scheme n a b g -> n_term y = degree + 1 -> inverts inv ->
  (forall i m, i < n -> ready LobattoRoots roots inv degree (coordinates g i) (es i m)) -> (forall i m, i < n -> m < n_component y -> add_correction_function (es i m) h = Some h) ->
  proper (g_degree h) (g_at h) (g_slope h) ->
  ((forall f, solve f <> None) -> exists column, get_residual_column y g solve (fr_element LobattoRoots y h q es) = Some column) /\
  forall column, get_residual_column y g solve (fr_element LobattoRoots y h q es) = Some column -> length column = n * (n_component y * n_term y) /\ balanced g_set_coeff g_value y g solve es column.
Proof.
  intros W Sg T V Rd A P. assert (X := ends_differ n a b g Sg). split.
  - intros Tot. apply (exists_column y n a b g solve W Sg (fun i m l r => fr_residual LobattoRoots (q i) (es i) h m (fst l m) (fst r m)) Tot). intros i m l r Hi Hm.
    destruct (py_fr_lobatto_conserves roots inv degree (coordinates g i) (q i) (es i) h m (fst l m) (fst r m) (X i) V (fun k => Rd i k Hi) (A i m Hi Hm) P) as (t & e' & -> & _). discriminate.
  - apply (balance y n a b g solve W Sg _ g_set_coeff g_value es g_set_ext (fun i m l r => fr_residual LobattoRoots (q i) (es i) h m (fst l m) (fst r m))). intros i m l r t Hi Hm E.
    destruct (py_fr_lobatto_conserves roots inv degree (coordinates g i) (q i) (es i) h m (fst l m) (fst r m) (X i) V (fun k => Rd i k Hi) (A i m Hi Hm) P) as (t' & e' & E' & Se & C).
    assert (t' = t) by congruence. subst t'. exists e'. rewrite T. split; [exact Se|exact C].
Qed.
Print Assumptions py_scheme_fr_conserves.

(** expansions with two terms on any element *)
Lemma legendre_any a b : a <> b -> exists e, Legendre_init two_roots inv2 1 (Linear a b) = Some e.
Proof.
  intros X. set (c := Linear a b). unfold Legendre_init, inv2, Prop_PyExpansion.inv2. cbn [Nat.ltb Nat.leb negb jacobian_degree c Nat.eqb Nat.add]. unfold Integrator_init, two_roots, Prop_PyExpansion.two_roots. cbn [fst snd length Nat.eqb Nat.leb].
  cbn [bind]. destruct (Req_EM_T _ 0) as [Z|]; [exfalso|cbn [bind]; eexists; reflexivity].
  unfold legendre_to_taylor, legendre_matrix, eye in Z. cbn [Nat.sub seq fold_left Nat.eqb Nat.leb] in Z. cbn [pow] in Z.
  assert (J2 : local_to_jacobian c 0 = ((b - a) / 2)%R) by (unfold c, local_to_jacobian, linear_jacobian; lra). rewrite J2 in Z.
  assert (E : (1 / ((b - a) / 2) = 0)%R). { rewrite <- Z. field. lra. } apply (f_equal (fun t => t * ((b - a) / 2))%R) in E. rewrite Rmult_0_l in E. replace (1 / ((b - a) / 2) * ((b - a) / 2))%R with 1%R in E by (field; lra). lra.
Qed.
Lemma nodal_any kind a b : (a < b)%R -> exists e, Nodal_init kind two_roots inv2 1 (Linear a b) = Some e.
Proof.
  intros L. set (c := Linear a b). assert (J2 : forall x, local_to_global c x = ((a + b) / 2 + (b - a) / 2 * x)%R) by (intros x; rewrite map_is; unfold c; cbn [x_left x_right]; field).
  assert (Q : (sqrt (1 / 3) > 0)%R) by (apply sqrt_lt_R0; lra).
  destruct kind; cbn [Nodal_init].
  all: unfold UniformRoots_init, LegendreRoots_init, LobattoRoots_init, Integrator_init, two_roots, Prop_PyExpansion.two_roots; cbn [Nat.add GaussLobatto_points GaussLobatto_weights bind fst snd length Nat.eqb Nat.leb].
  all: unfold Lagrange_init, inv2, Prop_PyExpansion.inv2; cbn [bind Nat.eqb Nat.add Nat.leb Nat.ltb negb].
  all: destruct (Req_EM_T _ 0) as [Z|]; [exfalso|cbn [bind]; eexists; reflexivity].
  all: unfold base_rows, taylor_values in Z.
  all: cbn [i_coordinate] in Z; rewrite !x_power_is, !J2 in Z; cbn [pow] in Z.
  - assert (U0 := proj2 (py_uniform_roots 2 0 ltac:(lia))). assert (U1 := proj2 (py_uniform_roots 2 1 ltac:(lia))). cbn [INR] in U0, U1. rewrite U0, U1 in Z. nra.
  - cbn [nth] in Z. nra.
  - cbn [nth] in Z. nra.
Qed.
(** faces with prescribed fluxes: [l + 1] to the right of the element [l], and the given value at the ends *)
Definition given (f : Face Values) : option (Values * Values) :=
  match f with Interface l r => Some (fun _ => INR (l + 1), fun _ => 0%R) | Inlet u _ _ => Some (u, fun _ => 0%R) end.
(** two elements with two terms on [1, 9], and given values 5 and 3 at the ends: the total is 2 *)
Example py_scheme_example : let y := mkLayout false 2 1 in exists g es column, scheme 2 1 9 g /\ periodic g = false /\
  (forall i m, i < 2 -> m < n_component y -> Prop_PyExpansion.made two_roots inv2 1 (coordinates g i) (es i m)) /\
  get_residual_column y g given (legendre_element y (fun _ => scalar_equation (Model_PyRiemann.ELinear 1 0)) es) = Some column /\ length column = 4 /\
  exists coeffs e' total, set_solution_column y 2 column = Some coeffs /\
    (forall i, i < 2 -> l_set_coeff (es i 0) 2 (fun r => coeffs i r 0) = Some (e' i) /\ is_RInt (l_value (e' i)) (x_left (coordinates g i)) (x_right (coordinates g i)) (total i)) /\
    rsum 2 total = 2%R.
Proof.
  intros y. destruct (@init_is Values 2 1 9 ltac:(lra) ltac:(lia)) as (g0 & E0 & N0 & _).
  destruct (boundary_is g0 (fun _ => 5%R) (fun _ => 3%R) ltac:(lia)) as (g & Eg & N & _ & _ & P & I & O). rewrite N0 in N.
  assert (Sg : scheme 2 1 9 g) by (apply (Bounded 2 1 9 g0 (fun _ => 5%R) (fun _ => 3%R)); [constructor; exact E0|exact Eg]).
  assert (W : well_formed y) by (intros _; reflexivity). destruct (scheme_is 2 1 9 g Sg) as (_ & _ & _ & C & _).
  assert (L : forall i, exists e, Legendre_init two_roots inv2 1 (coordinates g i) = Some e).
  { intros i. assert (X := ends_differ 2 1 9 g Sg i). rewrite C in *. apply legendre_any. exact X. }
  destruct (L 0) as (e0 & H0). destruct (L 1) as (e1 & H1). set (es := fun i (_ : nat) => match i with 0 => e0 | _ => e1 end).
  assert (M : forall i m, i < 2 -> m < n_component y -> Prop_PyExpansion.made two_roots inv2 1 (coordinates g i) (es i m)).
  { intros [|[|i]] m Hi _; [| |lia]; constructor; assumption. }
  destruct (py_scheme_legendre_conserves y 2 1 9 g given (fun _ => scalar_equation (Model_PyRiemann.ELinear 1 0)) two_roots inv2 1 es W Sg eq_refl Prop_PyExpansion.inv2_inverts Prop_PyExpansion.two_gauss M) as (A & B).
  destruct A as (column & E); [intros [l r|u i l]; discriminate|]. destruct (B column E) as (Lc & coeffs & Sc & T). destruct (T 0 ltac:(cbn; lia)) as (e' & total & Q & _ & F).
  destruct (F _ _ P O) as (vl & vr & V1 & V2 & Tt). cbn [given] in V1, V2. injection V1 as <-. injection V2 as <-. cbn [fst] in Tt. rewrite N in *.
  exists g, es, column. split; [exact Sg|]. split; [exact P|]. split; [exact M|]. split; [exact E|]. split; [exact Lc|]. exists coeffs, e', total. split; [exact Sc|]. split; [exact Q|]. rewrite Tt. ring.
Qed.

(** ** C153: the flux at a point *)
Lemma flux_is {V} n a b (g : Grid V) solve flux x : scheme n a b g -> (a <= x < b)%R -> exists i, i < n /\ (x_left (coordinates g i) <= x < x_right (coordinates g i))%R /\
  get_flux_value g solve flux x = (do l <- solve (Interface (if i =? 0 then n - 1 else i - 1) i); do r <- solve (Interface i (if i =? n - 1 then 0 else i + 1)); flux i x (fst l) (fst r)).
Proof.
  intros Sg Hx. destruct (proj1 (py_grid_element n a b g x Sg) Hx) as (i & G & Hi & C). destruct (scheme_is n a b g Sg) as (_ & H & N & _ & X & _).
  exists i. split; [exact Hi|]. split; [exact C|]. unfold get_flux_value. unfold get_element in G. set (k := get_element_index g x) in *. rewrite N in *.
  assert (K : k = Z.of_nat i).
  { assert (Kp : (0 <= k)%Z). { unfold k, get_element_index. destruct (bisect_is (x_left_sorted g) (n_element g) x) as (A & B & Cc).
      - intros j. rewrite !X, S_INR. destruct (scheme_is n a b g Sg) as (L & _). assert (0 < INR n)%R by (apply lt_0_INR; lia). assert (0 < (b - a) / INR n)%R by (apply Rdiv_lt_0_compat; lra). lra.
      - destruct (bisect_right (x_left_sorted g) (n_element g) x) as [|j]; [|lia]. specialize (Cc 0 ltac:(lia) ltac:(lia)). rewrite X in Cc. cbn [INR] in Cc. lra. }
    assert (Kn : (k < Z.of_nat n)%Z). { unfold k, get_element_index. destruct (bisect_is (x_left_sorted g) (n_element g) x) as (A & _).
      - intros j. rewrite !X, S_INR. destruct (scheme_is n a b g Sg) as (L & _). assert (0 < INR n)%R by (apply lt_0_INR; lia). assert (0 < (b - a) / INR n)%R by (apply Rdiv_lt_0_compat; lra). lra.
      - lia. }
    rewrite <- (Z2Nat.id k Kp) in G |- *. rewrite index_nat in G by lia. injection G as <-. reflexivity. }
  rewrite K, (index_nat n i) by lia. cbn [bind].
  replace (index n (Z.of_nat i - 1)) with (Some (if i =? 0 then n - 1 else i - 1)).
  2: { destruct (Nat.eqb_spec i 0) as [->|Q]; [change (Z.of_nat 0 - 1)%Z with (- Z.of_nat 1)%Z; symmetry; apply index_neg; lia|]. replace (Z.of_nat i - 1)%Z with (Z.of_nat (i - 1)) by lia. symmetry. apply index_nat. lia. }
  cbn [bind]. destruct (solve (Interface (if i =? 0 then n - 1 else i - 1) i)) as [l|]; [|reflexivity]. cbn [bind].
  replace (index n ((Z.of_nat i + 1) mod Z.of_nat n)) with (Some (if i =? n - 1 then 0 else i + 1)).
  2: { destruct (Nat.eqb_spec i (n - 1)) as [->|Q].
       - replace (Z.of_nat (n - 1) + 1)%Z with (Z.of_nat n) by lia. rewrite Z.mod_same by lia. symmetry. change 0%Z with (Z.of_nat 0). apply index_nat. lia.
       - rewrite Z.mod_small by lia. replace (Z.of_nat i + 1)%Z with (Z.of_nat (i + 1)) by lia. symmetry. apply index_nat. lia. }
  reflexivity.
Qed.
(** on periodic grids, and in elements without a face at the ends of the grid, it is the flux reconstructed from those of
    the faces of the element *)
Theorem py_flux_at_point {V} n a b (g : Grid V) solve flux x s : scheme n a b g -> (a <= x < b)%R -> solve_faces solve g = Some s ->
  exists i l r, i < n /\ (x_left (coordinates g i) <= x < x_right (coordinates g i))%R /\ solved g s (left_face g i) = Some l /\ solved g s (right_face g i) = Some r /\
    (periodic g = true \/ (0 < i < n - 1) -> get_flux_value g solve flux x = flux i x (fst l) (fst r)).
Proof.
  intros Sg Hx Es. destruct (flux_is n a b g solve flux x Sg Hx) as (i & Hi & Ci & ->). destruct (scheme_is n a b g Sg) as (_ & H & N & _ & _ & I & B).
  destruct (element_faces g solve s ltac:(lia) I B Es) as (v & D & L & P & O). rewrite N in *.
  exists i, (v i), (v (S i)). destruct (L i Hi) as (L1 & L2). split; [exact Hi|]. split; [exact Ci|]. split; [exact L1|]. split; [exact L2|]. intros Q.
  assert (F1 : solve (Interface (if i =? 0 then n - 1 else i - 1) i) = Some (v i)).
  { destruct (Nat.eqb_spec i 0) as [->|Ni].
    - destruct Q as [Q|Q]; [|lia]. exact (proj1 (P Q)).
    - specialize (D (i - 1)). rewrite N in D. replace (S (i - 1)) with i in D by lia. apply D. lia. }
  assert (F2 : solve (Interface i (if i =? n - 1 then 0 else i + 1)) = Some (v (S i))).
  { destruct (Nat.eqb_spec i (n - 1)) as [->|Ni].
    - destruct Q as [Q|Q]; [|lia]. destruct (P Q) as (P1 & P2). replace (S (n - 1)) with n by lia. rewrite P2. exact P1.
    - specialize (D i). rewrite N in D. rewrite Nat.add_1_r. apply D. lia. }
  rewrite F1, F2. reflexivity.
Qed.
Print Assumptions py_flux_at_point.
(** at the ends of a grid with given values, the flux at the end is not the flux through the face: the state of the
    opposite end of the grid is used.  Advection with speed one, the state zero in all elements and the given value 5 *)
Definition zero_state : Lagrange -> Lagrange := fun e => g_set_taylor_coeff e (fun _ => 0%R).
Definition advect (es : nat -> Lagrange) (c : nat -> Coordinate) (f : Face R) : option (R * R) :=
  match f with
  | Interface l r => Some (Model_PyRiemann.get_convective_flux (Model_PyRiemann.ELinear 1 0) (g_value (es l) (x_right (c l))), 0%R)
  | Inlet u i true => Some (Model_PyRiemann.get_convective_flux (Model_PyRiemann.ELinear 1 0) u, 0%R)
  | Inlet u i false => Some (Model_PyRiemann.get_convective_flux (Model_PyRiemann.ELinear 1 0) (g_value (es i) (x_right (c i))), 0%R)
  end.
Theorem py_flux_at_point_refuted : exists (g : Grid R) kind roots inv degree es h s l,
  scheme 2 1 9 g /\ Spec_PyGrid.open g 5%R 3%R /\ inverts inv /\ (forall i, i < 2 -> ready kind roots inv degree (coordinates g i) (es i)) /\
  (forall i, i < 2 -> add_correction_function (es i) h = Some h) /\ proper (g_degree h) (g_at h) (g_slope h) /\
  solve_faces (advect es (coordinates g)) g = Some s /\ solved g s (left_face g 0) = Some l /\ fst l = 5%R /\
  get_flux_value g (advect es (coordinates g)) (fun i x fl fr => fr_flux (scalar_equation (Model_PyRiemann.ELinear 1 0)) (fun _ => es i) h 0 fl fr x) 1 = Some 0%R.
Proof.
  destruct (@init_is R 2 1 9 ltac:(lra) ltac:(lia)) as (g0 & E0 & N0 & _).
  destruct (boundary_is g0 5%R 3%R ltac:(lia)) as (g & Eg & N & _ & _ & P & I & O). rewrite N0 in N.
  assert (Sg : scheme 2 1 9 g) by (apply (Bounded 2 1 9 g0 5%R 3%R); [constructor; exact E0|exact Eg]). destruct (scheme_is 2 1 9 g Sg) as (_ & _ & _ & C & _).
  assert (Lg : forall i, (x_left (coordinates g i) < x_right (coordinates g i))%R) by (intros i; rewrite C; cbn [x_left x_right]; rewrite (S_INR i); change (INR 2) with (1 + 1)%R; lra).
  assert (L : forall i, exists e, Nodal_init LobattoRoots two_roots inv2 1 (coordinates g i) = Some e).
  { intros i. specialize (Lg i). rewrite C in *. apply nodal_any. exact Lg. }
  destruct (L 0) as (e0 & H0). destruct (L 1) as (e1 & H1). set (es := fun i => zero_state (match i with 0 => e0 | _ => e1 end)).
  assert (Rd : forall i, i < 2 -> ready LobattoRoots two_roots inv2 1 (coordinates g i) (es i)).
  { intros [|[|i]] Hi; [| |lia]; apply Set_taylor; constructor; assumption. }
  assert (V : forall i x, i < 2 -> g_value (es i) x = 0%R).
  { intros i x Hi. assert (M : made LobattoRoots two_roots inv2 1 (coordinates g i) (match i with 0 => e0 | _ => e1 end)) by (destruct i as [|[|i]]; [| |lia]; constructor; assumption).
    destruct (py_nodal_setters LobattoRoots two_roots inv2 1 (coordinates g i) _ (Rlt_not_eq _ _ (Lg i)) Prop_PyExpansion.inv2_inverts M) as (_ & _ & S & _).
    unfold es, zero_state. rewrite S. cbn [Nat.add rsum]. ring. }
  assert (A : forall i, i < 2 -> add_correction_function (es i) vincent2 = Some vincent2).
  { intros i Hi. destruct (proj2 (made_object LobattoRoots two_roots inv2 1 (coordinates g i)) _ (Rd i Hi)) as (ps & ws & rts & b & F & _).
    assert (Nn : g_n (es i) = 2) by apply F. unfold add_correction_function. rewrite Nn. reflexivity. }
  set (sv := advect es (coordinates g)). assert (T : forall f, sv f <> None) by (intros [l r|u i [|]]; discriminate).
  destruct (solve_faces_exist g sv ltac:(lia) I (or_intror (ex_intro _ 5%R (ex_intro _ 3%R (conj P O)))) T) as (s & Es).
  destruct (element_faces g sv s ltac:(lia) I (or_intror (ex_intro _ 5%R (ex_intro _ 3%R (conj P O)))) Es) as (v & D & Lf & _ & Of). destruct (Of _ _ P O) as (V0 & _).
  exists g, LobattoRoots, two_roots, inv2, 1, es, vincent2, s, (v 0).
  split; [exact Sg|]. split; [exact O|]. split; [exact Prop_PyExpansion.inv2_inverts|]. split; [exact Rd|]. split; [exact A|]. split; [exact vincent2_proper|]. split; [exact Es|].
  split; [apply Lf; lia|]. split; [injection V0 as <-; cbn; ring|].
  destruct (flux_is 2 1 9 g sv (fun i x fl fr => fr_flux (scalar_equation (Model_PyRiemann.ELinear 1 0)) (fun _ => es i) vincent2 0 fl fr x) 1%R Sg ltac:(lra)) as (i & Hi & Ci & Fl). fold sv. transitivity (get_flux_value g sv (fun i x fl fr => fr_flux (scalar_equation (Model_PyRiemann.ELinear 1 0)) (fun _ => es i) vincent2 0 fl fr x) 1%R); [reflexivity|]. rewrite Fl.
  assert (i = 0) as ->. { destruct i as [|[|i]]; [reflexivity| |lia]. rewrite C in Ci. cbn [x_left x_right INR] in Ci. lra. }
  cbn [Nat.eqb Nat.sub Nat.add sv advect bind fst Model_PyRiemann.get_convective_flux]. rewrite !V by lia.
  assert (X0 : x_left (coordinates g 0) = 1%R) by (rewrite C; cbn; ring).
  destruct (py_fr_flux_ends LobattoRoots two_roots inv2 1 (coordinates g 0) (scalar_equation (Model_PyRiemann.ELinear 1 0)) (fun _ => es 0) vincent2 0 (1 * 0) (1 * 0) (Rlt_not_eq _ _ (Lg 0)) Prop_PyExpansion.inv2_inverts (fun _ => Rd 0 ltac:(lia)) (A 0 ltac:(lia)) vincent2_proper) as (F & _).
  rewrite X0 in F. rewrite F. f_equal. ring.
Qed.
Print Assumptions py_flux_at_point_refuted.
