(** C159, C160, C161, C162: the jump detectors of the Python package *)
From Coq Require Import Reals List Arith Lra Lia.
From Coquelicot Require Import Coquelicot.
From Verif Require Import Arrays RSum Model_PyEuler Model_PyPoly Spec_PyPoly Proof_PyPoly Proof_PyCorrect.
From Verif Require Import Model_PyIntegrator Proof_PyIntegrator Model_PyExpansion Spec_PyExpansion Proof_PyExpansion Prop_PyExpansion.
From Verif Require Import Model_PyGrid Model_PyLimiter Proof_PyLimiter Prop_PyScheme Prop_PyLimiter Model_PyDetector Spec_PyDetector Proof_PyDetector.
Import ListNotations.
Open Scope R_scope.

(** cells of positive length whose expansions have been set *)
Definition set_cells {V} roots inv degree (g : Grid V) (es : nat -> Legendre) : Prop :=
  forall i, (i < n_element g)%nat -> x_left (coordinates g i) < x_right (coordinates g i) /\ ready roots inv degree (coordinates g i) (es i).

(** ** C159 *)
Definition element_of (b : Neighbor) : nat := match b with Plain j => j | Moved j _ => j end.
(** jumps at the faces through which the solution flows into the cell [i] *)
Definition inflow_jump {V} (speed : R -> R) (g : Grid V) (es : nat -> Legendre) (i : nat) : R :=
  let u_left := l_value (es i) (x_left (coordinates g i)) in let u_right := l_value (es i) (x_right (coordinates g i)) in
  match left_expansion g i with
  | Some b => if Rle_dec 0 (speed u_left) then Rabs (u_left - l_value (es (element_of b)) (x_right (coordinates g (element_of b)))) else 0
  | None => 0 end +
  match right_expansion g i with
  | Some b => if Rle_dec (speed u_right) 0 then Rabs (u_right - l_value (es (element_of b)) (x_left (coordinates g (element_of b)))) else 0
  | None => 0 end.
Definition linked {V} (g : Grid V) : Prop := forall i b, (i < n_element g)%nat -> left_expansion g i = Some b \/ right_expansion g i = Some b -> (element_of b < n_element g)%nat.
Lemma end_value roots inv degree c e left : x_left c <> x_right c -> inverts inv -> ready roots inv degree c e ->
  l_boundary e 0 left = l_value e (if left then x_left c else x_right c).
Proof.
  intros X V H. destruct (py_legendre_values roots inv degree c e X V H) as (_ & (d & (D0 & _) & _ & _ & B) & _). destruct (B 0%nat) as (Bl & Br).
  destruct left; [rewrite Bl|rewrite Br]; apply D0.
Qed.
Theorem py_kxrcf {V} roots inv degree (g : Grid V) es speed : inverts inv -> set_cells roots inv degree g es -> linked g ->
  exists l, kxrcf speed g es = Some l /\
    lists (n_element g) (fun i => Rpower (x_right (coordinates g i) - x_left (coordinates g i)) ((INR degree + 1) / 2) * (Rabs (l_average (es i)) + 1 / 10 ^ 8) < inflow_jump speed g es i) l.
Proof.
  intros I C L. unfold kxrcf. rewrite (troubled_filter g _ (fun i => exceeds (kxrcf_dividend speed g es i) (kxrcf_divisor (es i)) 1)) by reflexivity.
  eexists. split; [reflexivity|]. apply filter_lists. intros i Hi. destruct (C i Hi) as (X & Rd). assert (X' : x_left (coordinates g i) <> x_right (coordinates g i)) by lra.
  assert (F := proj2 (made_frame roots inv degree _ X') (es i) Rd).
  assert (D : kxrcf_divisor (es i) = Rpower (x_right (coordinates g i) - x_left (coordinates g i)) ((INR degree + 1) / 2) * (Rabs (l_average (es i)) + 1 / 10 ^ 8)).
  { unfold kxrcf_divisor, l_coordinate. rewrite (proj1 (proj2 F)), length_is, (proj1 F). replace (degree + 1 - 1 + 1)%nat with (S degree) by lia. rewrite S_INR. reflexivity. }
  assert (N : kxrcf_dividend speed g es i = inflow_jump speed g es i).
  { assert (E : forall b left, (left_expansion g i = Some b \/ right_expansion g i = Some b) -> neighbor_boundary es b left = l_value (es (element_of b)) (if left then x_left (coordinates g (element_of b)) else x_right (coordinates g (element_of b)))).
    { intros b left Hb. pose proof (L i b Hi Hb) as Hj. destruct (C _ Hj) as (Xj & Rj). unfold neighbor_boundary. destruct b as [j|j s]; cbn [element_of] in *; apply (end_value roots inv degree); try assumption; lra. }
    unfold kxrcf_dividend, inflow_jump. cbv zeta. rewrite !(end_value roots inv degree (coordinates g i) (es i) _ X' I Rd).
    destruct (left_expansion g i) as [b1|] eqn:E1; destruct (right_expansion g i) as [b2|] eqn:E2; try rewrite (E b1 false (or_introl eq_refl)); try rewrite (E b2 true (or_intror eq_refl));
      repeat match goal with |- context [Rle_dec ?a ?b] => destruct (Rle_dec a b) end; ring. }
  rewrite N, D, exceeds_pos; [rewrite Rmult_1_l; reflexivity|]. apply Rmult_lt_0_compat; [apply exp_pos|]. pose proof (Rabs_pos (l_average (es i))).
  assert (0 < 1 / 10 ^ 8) by (apply Rdiv_lt_0_compat; [lra|apply pow_lt; lra]). lra.
Qed.
Print Assumptions py_kxrcf.
(** continuous solutions are not reported *)
Theorem py_kxrcf_continuous {V} roots inv degree (g : Grid V) es speed : inverts inv -> set_cells roots inv degree g es -> linked g ->
  (forall i b, (i < n_element g)%nat -> left_expansion g i = Some b -> l_value (es i) (x_left (coordinates g i)) = l_value (es (element_of b)) (x_right (coordinates g (element_of b)))) ->
  (forall i b, (i < n_element g)%nat -> right_expansion g i = Some b -> l_value (es i) (x_right (coordinates g i)) = l_value (es (element_of b)) (x_left (coordinates g (element_of b)))) ->
  kxrcf speed g es = Some [].
Proof.
  intros I C L HL HR. destruct (py_kxrcf roots inv degree g es speed I C L) as (l & E & (A & _)). rewrite E. f_equal. destruct l as [|i l]; [reflexivity|exfalso].
  destruct (proj1 (A i) (or_introl eq_refl)) as (Hi & Lt). assert (Z : inflow_jump speed g es i = 0).
  { unfold inflow_jump. cbv zeta. destruct (left_expansion g i) as [b1|] eqn:E1; destruct (right_expansion g i) as [b2|] eqn:E2;
      try rewrite <- (HL i b1 Hi E1); try rewrite <- (HR i b2 Hi E2); repeat match goal with |- context [Rle_dec ?a ?b] => destruct (Rle_dec a b) end;
      repeat match goal with |- context [Rabs (?a - ?a)] => replace (a - a) with 0 by ring end; rewrite ?Rabs_R0; ring. }
  rewrite Z in Lt. assert (0 < Rpower (x_right (coordinates g i) - x_left (coordinates g i)) ((INR degree + 1) / 2) * (Rabs (l_average (es i)) + 1 / 10 ^ 8)); [|lra].
  apply Rmult_lt_0_compat; [apply exp_pos|]. pose proof (Rabs_pos (l_average (es i))). assert (0 < 1 / 10 ^ 8) by (apply Rdiv_lt_0_compat; [lra|apply pow_lt; lra]). lra.
Qed.
Print Assumptions py_kxrcf_continuous.
(** two cells with the solution [x], and with the constants 0 and 1 *)
Definition two_cells : Grid R := mkGrid (V := R) 2 (fun i => match i with O => Linear 1 5 | _ => Linear 5 9 end) (fun i => 1 + 4 * INR i) [] (fun _ => None) false (fun _ => None) (fun _ => None)
  (fun i => match i with 1%nat => Some (Plain 0) | _ => None end) (fun i => match i with O => Some (Plain 1) | _ => None end).
Lemma two_linked : linked two_cells.
Proof. intros [|[|i]] b Hi H; cbn in *; try lia; destruct H as [H|H]; try discriminate; injection H as <-; cbn; lia. Qed.
Lemma poly_ready a b f : a < b -> polynomial 1 f -> exists e, ready two_roots inv2 1 (Linear a b) e /\ forall x, l_value e x = f x.
Proof.
  intros L Pf. destruct (legendre_any a b) as (e & E); [lra|]. assert (X : x_left (Linear a b) <> x_right (Linear a b)) by (cbn; lra).
  assert (M : made two_roots inv2 1 (Linear a b) e) by (constructor; exact E).
  destruct (py_legendre_setters two_roots inv2 1 _ e X inv2_inverts two_gauss M) as (_ & _ & _ & A & _). destruct (A f Pf) as (e' & Ae & V).
  exists e'. split; [econstructor 3; eassumption|exact V].
Qed.
Example py_kxrcf_example : exists es, set_cells two_roots inv2 1 two_cells es /\ (forall x, l_value (es 0%nat) x = x) /\ (forall x, l_value (es 1%nat) x = x) /\ kxrcf (fun _ => 1) two_cells es = Some [].
Proof.
  destruct (line_ready 1 5) as (e0 & R0 & V0); [lra|]. destruct (line_ready 5 9) as (e1 & R1 & V1); [lra|]. set (es := fun i => match i with O => e0 | _ => e1 end).
  assert (C : set_cells two_roots inv2 1 two_cells es) by (intros [|[|i]] Hi; [| |cbn in Hi; lia]; (split; [cbn; lra|assumption])).
  exists es. split; [exact C|]. split; [exact V0|]. split; [exact V1|]. apply (py_kxrcf_continuous two_roots inv2 1 two_cells es (fun _ => 1) inv2_inverts C two_linked).
  - intros [|[|i]] b Hi H; cbn in *; try lia; try discriminate. injection H as <-. cbn [element_of]. rewrite V0, V1. reflexivity.
  - intros [|[|i]] b Hi H; cbn in *; try lia; try discriminate. injection H as <-. cbn [element_of]. rewrite V0, V1. reflexivity.
Qed.

(** ** C160 *)
(** Persson's sensor: the part of highest degree, as a part of the solution *)
Theorem py_persson {V} roots inv degree (g : Grid V) es : (1 <= degree)%nat -> inverts inv -> set_cells roots inv degree g es ->
  exists l high all, persson g (fun i => ALegendre (es i)) = Some l /\
    (forall i, (i < n_element g)%nat ->
       is_RInt (fun x => l_value (es i) x * l_value (es i) x) (x_left (coordinates g i)) (x_right (coordinates g i)) (all i) /\
       exists rest, (forall x, truncated_value (degree - 1) (es i) x = Some (rest x)) /\
         is_RInt (fun x => (l_value (es i) x - rest x) * (l_value (es i) x - rest x)) (x_left (coordinates g i)) (x_right (coordinates g i)) (high i)) /\
    lists (n_element g) (fun i => all i + 1 / 10 ^ 8 < INR degree ^ 3 * high i) l.
Proof.
  intros D I C. assert (P3 : 0 < INR degree ^ 3) by (apply pow_lt, lt_0_INR; lia).
  assert (E8 : 0 < 1 / 10 ^ 8) by (apply Rdiv_lt_0_compat; [lra|apply pow_lt; lra]).
  set (all := fun i => rsum (degree + 1) (l_energy (es i))). set (high := fun i => l_energy (es i) degree).
  set (T := fun i => exceeds (high i / (all i + 1 / 10 ^ 8)) (1 / INR degree ^ 3) 1).
  assert (Ps : forall i, (i < n_element g)%nat -> 0 < all i + 1 / 10 ^ 8).
  { intros i Hi. destruct (C i Hi) as (X & Rd). assert (F := proj2 (made_frame roots inv degree (coordinates g i) ltac:(lra)) (es i) Rd).
    assert (0 <= all i) by (apply rsum_nonneg; intros; apply (energy_nonneg _ _ _ _ _ _ X F)). lra. }
  assert (Te : forall i, (i < n_element g)%nat -> persson_test (ALegendre (es i)) = Some (T i)).
  { intros i Hi. pose proof (Ps i Hi). destruct (C i Hi) as (X & Rd). assert (F := proj2 (made_frame roots inv degree (coordinates g i) ltac:(lra)) (es i) Rd).
    unfold persson_test, persson_value. cbn [any_degree]. rewrite energy_fold, (proj1 F). replace (degree + 1 - 1)%nat with degree by lia.
    unfold div. destruct (Req_EM_T (INR degree ^ 3) 0); [lra|]. cbn [bind]. fold (all i). destruct (Req_EM_T _ 0); [lra|]. reflexivity. }
  exists (filter T (seq 0 (n_element g))), high, all. split; [apply (troubled_filter g _ T Te)|]. split.
  - intros i Hi. destruct (C i Hi) as (X & Rd). assert (X' : x_left (coordinates g i) <> x_right (coordinates g i)) by lra.
    destruct (py_legendre_values roots inv degree _ (es i) X' I Rd) as (_ & _ & _ & En & _). split; [exact En|].
    assert (F := proj2 (made_frame roots inv degree _ X') (es i) Rd). assert (Rp := ready_represents _ _ _ _ _ X' I Rd).
    exists (fun x => rsum degree (fun j => l_modes (es i) j * eval_legendre j (xi (coordinates g i) x))). split.
    + intros x. rewrite (truncated_is roots inv degree (coordinates g i) (es i) (degree - 1) x X' F). destruct (Nat.leb_spec (degree - 1) degree); [|lia].
      replace (degree - 1 + 1)%nat with degree by lia. reflexivity.
    + apply (@is_RInt_ext R_NormedModule (fun x => scal (l_modes (es i) degree ^ 2) (eval_legendre degree (xi (coordinates g i) x) * eval_legendre degree (xi (coordinates g i) x)))).
      * intros x _. rewrite (value_modes roots inv degree _ X' (es i) x F Rp). rewrite Nat.add_1_r. cbn [rsum]. unfold scal; cbn; unfold mult; cbn. ring.
      * evar_last; [apply (@is_RInt_scal R_NormedModule), (basis_orthogonal roots inv degree _ X' (es i) degree degree F)|]. rewrite Nat.eqb_refl.
        unfold high, l_energy, scal; cbn; unfold mult; cbn. ring.
  - apply filter_lists. intros i Hi. pose proof (Ps i Hi). unfold T. rewrite exceeds_pos by (apply Rdiv_lt_0_compat; lra). rewrite Rmult_1_l. split; intros Q.
    + apply (Rmult_lt_compat_r (all i + 1 / 10 ^ 8)) in Q; [|assumption]. replace (high i / (all i + 1 / 10 ^ 8) * (all i + 1 / 10 ^ 8)) with (high i) in Q by (field; lra).
      apply (Rmult_lt_compat_l (INR degree ^ 3)) in Q; [|exact P3]. replace (INR degree ^ 3 * (1 / INR degree ^ 3 * (all i + 1 / 10 ^ 8))) with (all i + 1 / 10 ^ 8) in Q by (field; apply not_0_INR; lia). exact Q.
    + apply (Rmult_lt_reg_r (all i + 1 / 10 ^ 8)); [assumption|]. replace (high i / (all i + 1 / 10 ^ 8) * (all i + 1 / 10 ^ 8)) with (high i) by (field; lra).
      apply (Rmult_lt_reg_l (INR degree ^ 3)); [exact P3|]. replace (INR degree ^ 3 * (1 / INR degree ^ 3 * (all i + 1 / 10 ^ 8))) with (all i + 1 / 10 ^ 8) by (field; apply not_0_INR; lia). exact Q.
Qed.
Print Assumptions py_persson.
(** ... but with straight lines no cell is ever reported, ... *)
Theorem py_persson_lines {V} roots inv (g : Grid V) es : inverts inv -> set_cells roots inv 1 g es -> persson g (fun i => ALegendre (es i)) = Some [].
Proof.
  intros I C. destruct (py_persson roots inv 1 g es (le_n 1) I C) as (l & high & all & E & H & (A & _)). rewrite E. f_equal. destruct l as [|i l]; [reflexivity|exfalso].
  destruct (proj1 (A i) (or_introl eq_refl)) as (Hi & Lt). destruct (H i Hi) as (Al & rest & Rs & Hh). destruct (C i Hi) as (X & Rd).
  assert (X' : x_left (coordinates g i) <> x_right (coordinates g i)) by lra. destruct (py_legendre_values roots inv 1 _ (es i) X' I Rd) as (_ & _ & _ & En & _).
  assert (F := proj2 (made_frame roots inv 1 _ X') (es i) Rd). assert (Rp := ready_represents _ _ _ _ _ X' I Rd).
  assert (E1 : all i = rsum 2 (l_energy (es i))) by (apply (@is_RInt_unique R_CompleteNormedModule) in Al; apply (@is_RInt_unique R_CompleteNormedModule) in En; rewrite Al in En; exact En).
  assert (E2 : high i = l_energy (es i) 1).
  { apply (@is_RInt_unique R_CompleteNormedModule) in Hh. rewrite <- Hh. apply (@is_RInt_unique R_CompleteNormedModule).
    apply (@is_RInt_ext R_NormedModule (fun x => scal (l_modes (es i) 1 ^ 2) (eval_legendre 1 (xi (coordinates g i) x) * eval_legendre 1 (xi (coordinates g i) x)))).
    - intros x _. specialize (Rs x). rewrite (truncated_is roots inv 1 (coordinates g i) (es i) (1 - 1) x X' F) in Rs. cbn [Nat.sub Nat.leb Nat.add] in Rs. injection Rs as <-.
      rewrite (value_modes roots inv 1 _ X' (es i) x F Rp). cbn [Nat.add rsum]. unfold scal; cbn -[eval_legendre]; unfold mult; cbn -[eval_legendre]. ring.
    - evar_last; [apply (@is_RInt_scal R_NormedModule), (basis_orthogonal roots inv 1 _ X' (es i) 1 1 F)|]. cbn [Nat.eqb]. unfold l_energy, scal; cbn; unfold mult; cbn. ring. }
  rewrite E1, E2 in Lt. cbn [rsum] in Lt. change (INR 1) with 1 in Lt. pose proof (energy_nonneg _ _ _ _ _ 0 X F).
  assert (0 < 1 / 10 ^ 8) by (apply Rdiv_lt_0_compat; [lra|apply pow_lt; lra]). nra.
Qed.
Print Assumptions py_persson_lines.
(** ... and constants, and expansions which are not Legendre expansions, raise exceptions *)
Theorem py_persson_refuted : (exists (g : Grid R) es, n_element g = 1%nat /\ persson g (fun i => ALegendre (es i)) = None) /\
  exists (g : Grid R) degree, n_element g = 1%nat /\ (1 <= degree)%nat /\ persson g (fun _ => ATaylor degree) = None.
Proof.
  set (g := mkGrid (V := R) 1 (fun _ => Linear 1 5) (fun _ => 1) [] (fun _ => None) true (fun _ => None) (fun _ => None) (fun _ => None) (fun _ => None)).
  split.
  - exists g, (fun _ => mkLegendre 1 (mkIntegrator (Linear 1 5) [] []) (fun _ _ => 1) (fun _ => 3) (fun _ => 3)). split; [reflexivity|].
    unfold persson, troubled_cells. cbn [n_element g seq map all_some]. unfold persson_test. cbn [any_degree l_n Nat.sub]. change (INR 0) with 0. unfold div.
    destruct (Req_EM_T (0 ^ 3) 0) as [_|N]; [reflexivity|]. exfalso. apply N. ring.
  - exists g, 2%nat. split; [reflexivity|]. split; [lia|]. unfold persson, troubled_cells. cbn [n_element g seq map all_some]. unfold persson_test. cbn [persson_value bind].
    destruct (div _ _); reflexivity.
Qed.
Print Assumptions py_persson_refuted.
Example py_persson_example : exists es, set_cells two_roots inv2 1 two_cells es /\ (forall x, l_value (es 0%nat) x = 0) /\ (forall x, l_value (es 1%nat) x = 1000) /\
  persson two_cells (fun i => ALegendre (es i)) = Some [].
Proof.
  assert (Pc : forall k, polynomial 1 (fun _ => k)) by (intros k; apply poly_const).
  destruct (poly_ready 1 5 (fun _ => 0)) as (e0 & R0 & V0); [lra|apply Pc|]. destruct (poly_ready 5 9 (fun _ => 1000)) as (e1 & R1 & V1); [lra|apply Pc|]. set (es := fun i => match i with O => e0 | _ => e1 end).
  assert (C : set_cells two_roots inv2 1 two_cells es) by (intros [|[|i]] Hi; [| |cbn in Hi; lia]; (split; [cbn; lra|assumption])).
  exists es. split; [exact C|]. split; [exact V0|]. split; [exact V1|]. apply (py_persson_lines two_roots inv2 two_cells es inv2_inverts C).
Qed.

(** ** C161 *)
(** Kloeckner's sensor: the rate of decay of energies made positive and monotone, by linear regression of logarithms *)
Theorem py_kloeckner {V} roots inv degree (g : Grid V) es : (2 <= degree)%nat -> inverts inv -> set_cells roots inv degree g es ->
  exists l energies slopes, kloeckner g es = Some l /\
    (forall i, (i < n_element g)%nat -> apply_skyline degree (add_modal_decay degree (l_energy (es i))) = Some (energies i) /\
       nonincreasing degree (energies i) /\ (forall n, (1 <= n <= degree)%nat -> 0 < energies i n) /\
       regression degree (fun k => -2 * log10 (INR (k + 1))) (fun k => log10 (energies i (k + 1)%nat)) (slopes i) /\ 0 <= slopes i) /\
    lists (n_element g) (fun i => slopes i < 3 / 2) l.
Proof.
  intros D I C.
  assert (K : forall i, (i < n_element g)%nat -> exists es' : (nat -> R) * R * bool, apply_skyline degree (add_modal_decay degree (l_energy (es i))) = Some (fst (fst es')) /\
    nonincreasing degree (fst (fst es')) /\ (forall n, (1 <= n <= degree)%nat -> 0 < fst (fst es') n) /\
    regression degree xs (ys (fst (fst es'))) (snd (fst es')) /\ 0 <= snd (fst es') /\ kloeckner_test (es i) = Some (snd es') /\ (snd es' = true <-> snd (fst es') < 3 / 2)).
  { intros i Hi. destruct (C i Hi) as (X & Rd). assert (F := proj2 (made_frame roots inv degree (coordinates g i) ltac:(lra)) (es i) Rd).
    destruct (kloeckner_is roots inv degree _ (es i) X F D) as (en & sl & b & H). exists (en, sl, b). exact H. }
  assert (Ch : exists h : nat -> (nat -> R) * R * bool, forall i, (i < n_element g)%nat -> apply_skyline degree (add_modal_decay degree (l_energy (es i))) = Some (fst (fst (h i))) /\
    nonincreasing degree (fst (fst (h i))) /\ (forall n, (1 <= n <= degree)%nat -> 0 < fst (fst (h i)) n) /\
    regression degree xs (ys (fst (fst (h i)))) (snd (fst (h i))) /\ 0 <= snd (fst (h i)) /\ kloeckner_test (es i) = Some (snd (h i)) /\ (snd (h i) = true <-> snd (fst (h i)) < 3 / 2)).
  { revert K. generalize (n_element g) as n. induction n as [|n IH]; intros K; [exists (fun _ => ((fun _ => 0), 0, true)); intros; lia|].
    destruct IH as (h & Hh); [intros; apply K; lia|]. destruct (K n (le_n _)) as (x & Hx). exists (fun i => if (i =? n)%nat then x else h i).
    intros i Hi. destruct (Nat.eqb_spec i n) as [->|N]; [exact Hx|apply Hh; lia]. }
  destruct Ch as (h & H). exists (filter (fun i => snd (h i)) (seq 0 (n_element g))), (fun i => fst (fst (h i))), (fun i => snd (fst (h i))). split; [|split].
  - apply (troubled_filter g). intros i Hi. apply H, Hi.
  - intros i Hi. destruct (H i Hi) as (A1 & A2 & A3 & A4 & A5 & _). auto.
  - apply filter_lists. intros i Hi. apply (H i Hi).
Qed.
Print Assumptions py_kloeckner.
(** without the skyline the rate is found exactly; what is added to the energies is a distribution *)
Theorem py_kloeckner_rate p C s energy : (2 <= p)%nat -> 0 < C -> (forall n, (1 <= n <= p)%nat -> energy n = C * Rpower (INR n) (-2 * s)) ->
  0 < slope_denominator p energy /\ slope_numerator p energy / slope_denominator p energy = s /\
  rsum p (fun k => b2 p (k + 1)) = 1 /\
  forall n, (1 <= n <= p)%nat -> 0 < b2 p n /\ add_modal_decay p energy n = energy n + (rsum (p + 1) energy + 1 / 10 ^ 8) * b2 p n.
Proof.
  intros P HC H. destruct (slope_parts p energy ltac:(lia)) as (_ & D). pose proof (denominator_pos p P) as Dp. rewrite <- D in Dp.
  split; [exact Dp|]. split; [rewrite (power_law p C s energy P HC H); field; lra|]. split; [apply b2_sum; lia|].
  intros n N. split; [apply b2_pos; lia|]. rewrite decay_is. destruct (Nat.leb_spec 1 n), (Nat.leb_spec n p); try lia. reflexivity.
Qed.
Print Assumptions py_kloeckner_rate.
(** the skyline: not below the energies, made of them, and equal at the two highest degrees *)
Theorem py_skyline p energy : (2 <= p)%nat -> (forall n, (1 <= n <= p)%nat -> 0 < energy n) -> exists e', apply_skyline p energy = Some e' /\
  nonincreasing p e' /\ (forall n, (1 <= n <= p)%nat -> energy n <= e' n) /\ e' p = e' (p - 1)%nat /\
  (forall n, (1 <= n <= p)%nat -> exists j, (1 <= j <= p)%nat /\ e' n = energy j) /\ (forall n, (1 <= n <= p)%nat -> 0 < e' n).
Proof. exact (skyline_is p energy). Qed.
Print Assumptions py_skyline.
(** with straight lines no cell is reported, with polynomials of degree two every cell, ... *)
Theorem py_kloeckner_low {V} roots inv (g : Grid V) es : 
  (set_cells roots inv 2 g es -> kloeckner g es = Some (seq 0 (n_element g))) /\ (set_cells roots inv 1 g es -> kloeckner g es = Some []).
Proof.
  assert (Ff : forall l, filter (fun _ : nat => false) l = []) by (induction l; auto). assert (Ft : forall l, filter (fun _ : nat => true) l = l) by (induction l; cbn; congruence).
  split; intros C.
  - unfold kloeckner. rewrite (troubled_filter g _ (fun _ => true)); [rewrite Ft; reflexivity|]. intros i Hi. destruct (C i Hi) as (X & Rd).
    apply (kloeckner_two roots inv 2 (coordinates g i) (es i) X); [|reflexivity]. apply (proj2 (made_frame roots inv 2 (coordinates g i) ltac:(lra)) (es i) Rd).
  - unfold kloeckner. rewrite (troubled_filter g _ (fun _ => false)); [rewrite Ff; reflexivity|]. intros i Hi. destruct (C i Hi) as (X & Rd).
    apply (kloeckner_one roots inv 1 (coordinates g i) (es i)); [|reflexivity]. apply (proj2 (made_frame roots inv 1 (coordinates g i) ltac:(lra)) (es i) Rd).
Qed.
Print Assumptions py_kloeckner_low.
(** ... even of a constant *)
Definition three_roots (n : nat) : list R * list R := ([- sqrt (3 / 5); 0; sqrt (3 / 5)], [5 / 9; 8 / 9; 5 / 9]).
Definition inv3 (n : nat) (a : nat -> nat -> R) : option (nat -> nat -> R) :=
  if negb (n =? 3)%nat then None else
  let sub := a 1%nat 0%nat ^ 2 + a 2%nat 0%nat ^ 2 + a 2%nat 1%nat ^ 2 + a 0%nat 1%nat ^ 2 + a 1%nat 2%nat ^ 2 in
  if Req_EM_T sub 0 then if Req_EM_T (a 0%nat 0%nat * a 1%nat 1%nat * a 2%nat 2%nat) 0 then None else
    Some (fun i j => match i, j with
      | 0, 0 => 1 / a 0%nat 0%nat | 1, 1 => 1 / a 1%nat 1%nat | 2, 2 => 1 / a 2%nat 2%nat | 0, 2 => - a 0%nat 2%nat / (a 0%nat 0%nat * a 2%nat 2%nat) | _, _ => 0 end)
  else None.
Lemma inv3_inverts : inverts inv3.
Proof.
  intros n a m E i j Hi Hj. unfold inv3 in E. destruct (Nat.eqb_spec n 3) as [->|]; [|discriminate]. cbn [negb] in E.
  destruct (Req_EM_T _ 0) as [Z|]; [|discriminate]. destruct (Req_EM_T _ 0) as [|D]; [discriminate|]. injection E as <-.
  assert (Sq : forall x, 0 <= x ^ 2) by (intros; apply pow2_ge_0). assert (Sz : forall x, x ^ 2 = 0 -> x = 0) by (intros x Hx; apply Rsqr_0_uniq; unfold Rsqr; rewrite <- Hx; ring).
  pose proof (Sq (a 1%nat 0%nat)). pose proof (Sq (a 2%nat 0%nat)). pose proof (Sq (a 2%nat 1%nat)). pose proof (Sq (a 0%nat 1%nat)). pose proof (Sq (a 1%nat 2%nat)).
  assert (Z1 : a 1%nat 0%nat = 0) by (apply Sz; lra). assert (Z2 : a 2%nat 0%nat = 0) by (apply Sz; lra). assert (Z3 : a 2%nat 1%nat = 0) by (apply Sz; lra).
  assert (Z4 : a 0%nat 1%nat = 0) by (apply Sz; lra). assert (Z5 : a 1%nat 2%nat = 0) by (apply Sz; lra).
  assert (D0 : a 0%nat 0%nat <> 0) by (intros Q; apply D; rewrite Q; ring). assert (D1 : a 1%nat 1%nat <> 0) by (intros Q; apply D; rewrite Q; ring). assert (D2 : a 2%nat 2%nat <> 0) by (intros Q; apply D; rewrite Q; ring).
  cbn [rsum]. destruct i as [|[|[|i]]]; [| | |lia]; (destruct j as [|[|[|j]]]; [| | |lia]); cbn [Nat.eqb]; rewrite ?Z1, ?Z2, ?Z3, ?Z4, ?Z5; split; field; auto.
Qed.
Theorem py_kloeckner_refuted : exists (g : Grid R) es, inverts inv3 /\ set_cells three_roots inv3 2 g es /\ (forall i x, l_value (es i) x = 7) /\ n_element g = 2%nat /\ kloeckner g es = Some [0; 1]%nat.
Proof.
  assert (Ex : forall a b, a < b -> exists e, Legendre_init three_roots inv3 2 (Linear a b) = Some e).
  { intros a b L. unfold Legendre_init, inv3. cbn [Nat.ltb Nat.leb negb jacobian_degree Nat.eqb Nat.add]. unfold Integrator_init, three_roots. cbn [fst snd length Nat.eqb Nat.leb bind].
    assert (J2 : local_to_jacobian (Linear a b) 0 = (b - a) / 2) by (unfold local_to_jacobian, linear_jacobian; lra). rewrite J2.
    assert (INR 2 = 2) by (cbn; ring). assert (P : 0 < (b - a) / 2) by lra. set (J := (b - a) / 2) in *.
    assert (Q : 0 < / J) by (apply Rinv_0_lt_compat; exact P).
    destruct (Req_EM_T _ 0) as [_|N].
    - destruct (Req_EM_T _ 0) as [Z|]; [exfalso|cbn [bind]; eexists; reflexivity].
      unfold legendre_to_taylor, legendre_matrix, legendre_round, eye in Z. cbn [Nat.sub seq fold_left Nat.eqb Nat.leb Nat.ltb andb] in Z. rewrite H in Z.
      assert (0 < 3 / 2 / J ^ 2) by (apply Rdiv_lt_0_compat; [lra|apply pow_lt; exact P]). assert (0 < 1 / J ^ 1) by (apply Rdiv_lt_0_compat; [lra|apply pow_lt; exact P]).
      assert (Z' : 1 / J ^ 1 * (3 / 2 / J ^ 2) = 0) by (rewrite <- Z; field; lra). pose proof (Rmult_lt_0_compat _ _ H1 H0). lra.
    - exfalso. apply N. unfold legendre_to_taylor, legendre_matrix, legendre_round, eye. cbn [Nat.sub seq fold_left Nat.eqb Nat.leb Nat.ltb andb]. rewrite H. field. lra. }
  destruct (Ex 1 5) as (e0 & E0); [lra|]. destruct (Ex 5 9) as (e1 & E1); [lra|].
  set (u := fun k : nat => match k with O => 7 | _ => 0 end). set (es := fun i : nat => l_set_taylor_coeff (match i with O => e0 | _ => e1 end) u).
  exists two_cells, es. split; [exact inv3_inverts|].
  assert (C : set_cells three_roots inv3 2 two_cells es) by (intros [|[|i]] Hi; [| |cbn in Hi; lia]; (split; [cbn; lra|]); (constructor 2; constructor; assumption)).
  split; [exact C|]. split; [|split; [reflexivity|apply (py_kloeckner_low three_roots inv3 two_cells es), C]].
  assert (N : forall a b e, a < b -> Legendre_init three_roots inv3 2 (Linear a b) = Some e -> forall x, l_value (l_set_taylor_coeff e u) x = 7).
  { intros a b e L E x. assert (F : frame three_roots inv3 2 (Linear a b) e) by (apply (proj1 (made_frame three_roots inv3 2 (Linear a b) ltac:(cbn; lra)) e); constructor; exact E).
    unfold l_value, global_to_value. cbn [l_n l_taylor l_set_taylor_coeff]. rewrite (proj1 F). unfold dot, taylor_values. cbn [Nat.add rsum u]. cbn. field. }
  intros [|i] x; [apply (N 1 5); [lra|assumption]|apply (N 5 9); [lra|assumption]].
Qed.
Print Assumptions py_kloeckner_refuted.
Example py_kloeckner_example : exists es, set_cells two_roots inv2 1 two_cells es /\ (forall x, l_value (es 0%nat) x = 0) /\ (forall x, l_value (es 1%nat) x = 1000) /\ kloeckner two_cells es = Some [] /\
  slope_numerator 3 (fun n => 5 * Rpower (INR n) (-2 * 4)) / slope_denominator 3 (fun n => 5 * Rpower (INR n) (-2 * 4)) = 4.
Proof.
  assert (Pc : forall k, polynomial 1 (fun _ => k)) by (intros k; apply poly_const).
  destruct (poly_ready 1 5 (fun _ => 0)) as (e0 & R0 & V0); [lra|apply Pc|]. destruct (poly_ready 5 9 (fun _ => 1000)) as (e1 & R1 & V1); [lra|apply Pc|]. set (es := fun i => match i with O => e0 | _ => e1 end).
  assert (C : set_cells two_roots inv2 1 two_cells es) by (intros [|[|i]] Hi; [| |cbn in Hi; lia]; (split; [cbn; lra|assumption])).
  exists es. split; [exact C|]. split; [exact V0|]. split; [exact V1|]. split; [apply (py_kloeckner_low two_roots inv2 two_cells es); exact C|].
  apply (py_kloeckner_rate 3 5 4); [lia|lra|reflexivity].
Qed.

(** ** C162 *)
(** Li Yan-Hui's sensor: constants are not reported, and on grids with ends straight lines are not reported *)
Definition uniform {V} (g : Grid V) (a h : R) : Prop := forall i, (i < n_element g)%nat -> coordinates g i = Linear (a + INR i * h) (a + INR (i + 1) * h).
Theorem py_lyh {V} roots inv degree (g : Grid V) es : set_cells roots inv degree g es ->
  (forall n u i, 0 < psi n u i <= 1) /\
  (forall k, (forall i x, (i < n_element g)%nat -> l_value (es i) x = k) -> lyh g es = []) /\
  (forall a h al be, uniform g a h -> periodic g = false -> (forall i x, (i < n_element g)%nat -> l_value (es i) x = al + be * x) -> lyh g es = []) /\
  (forall i, In i (lyh g es) <-> (i < n_element g)%nat /\ let m := nodes_per_cell es in let n := (n_element g * m)%nat in
     let ps := psi_values (periodic g) n (sample_value g es) in exists j, (m * i <= j < m * i + m)%nat /\ (ps j < psi_c \/ ps ((j + n - 1) mod n)%nat < psi_c \/ ps ((j + 1) mod n)%nat < psi_c)).
Proof.
  intros C. split; [apply psi_range|]. assert (M3 : (3 <= nodes_per_cell es)%nat) by (unfold nodes_per_cell; lia). set (m := nodes_per_cell es) in *. set (n := (n_element g * m)%nat).
  assert (Smooth : (forall j, (j < n)%nat -> psi_c <= psi_values (periodic g) n (sample_value g es) j) -> lyh g es = []).
  { intros H. unfold lyh. fold m. fold n. assert (Fl : forall l, (forall i, In i l -> (i < n_element g)%nat) -> filter (lyh_cell n m (psi_values (periodic g) n (sample_value g es))) l = []).
    { induction l as [|i l IH]; intros Hl; [reflexivity|]. cbn [filter]. pose proof (Hl i (or_introl eq_refl)) as Hi. assert ((m * i + m <= n)%nat) by (unfold n; nia).
      rewrite cell_smooth; [apply IH; intros; apply Hl; right; assumption|lia|assumption|exact H]. }
    apply Fl. intros i Hi. apply in_seq in Hi. lia. }
  assert (Cell : forall j, (j < n)%nat -> (j / m < n_element g)%nat) by (intros j Hj; apply Nat.div_lt_upper_bound; unfold n in Hj; nia).
  split; [|split].
  - intros k H. apply Smooth. apply (constant_psi (periodic g) n _ k). intros j Hj. unfold sample_value. fold m. apply H, Cell, Hj.
  - intros a h al be U Pe H. apply Smooth. rewrite Pe. apply (line_psi n _ (al + be * (a + h / INR m / 2)) (be * (h / INR m))). intros j Hj.
    unfold sample_value. fold m. rewrite H by (apply Cell, Hj). rewrite U by (apply Cell, Hj). unfold sample_point. cbn [x_left x_right length_of].
    assert (E : INR j = INR m * INR (j / m) + INR (j mod m)) by (rewrite <- mult_INR, <- plus_INR; f_equal; apply Nat.div_mod; lia).
    rewrite E, plus_INR, minus_INR by lia. change (INR 1) with 1. assert (INR 3 <= INR m) by (apply le_INR, M3). cbn [INR] in H0.
    replace ((a + (INR (j / m) + 1) * h - (a + INR (j / m) * h))) with h by ring. field. lra.
  - intros i. unfold lyh. fold m. fold n. rewrite filter_In, in_seq. cbv zeta. set (ps := psi_values (periodic g) n (sample_value g es)).
    assert (Q : lyh_cell n m ps i = true <-> exists j, (m * i <= j < m * i + m)%nat /\ (ps j < psi_c \/ ps ((j + n - 1) mod n)%nat < psi_c \/ ps ((j + 1) mod n)%nat < psi_c)).
    { unfold lyh_cell. rewrite existsb_exists. split.
      - intros (j & Hj & E). apply in_seq in Hj. exists j. split; [exact Hj|]. destruct (Rlt_dec _ _) as [Lt|]; [|discriminate]. unfold Rmin in Lt.
        destruct (Rle_dec (ps j) (ps ((j + n - 1) mod n)%nat)); destruct (Rle_dec _ (ps ((j + 1) mod n)%nat)); lra.
      - intros (j & Hj & E). exists j. split; [apply in_seq; exact Hj|]. destruct (Rlt_dec _ _) as [|Ge]; [reflexivity|exfalso]. apply Ge.
        pose proof (Rmin_l (Rmin (ps j) (ps ((j + n - 1) mod n)%nat)) (ps ((j + 1) mod n)%nat)). pose proof (Rmin_r (Rmin (ps j) (ps ((j + n - 1) mod n)%nat)) (ps ((j + 1) mod n)%nat)).
        pose proof (Rmin_l (ps j) (ps ((j + n - 1) mod n)%nat)). pose proof (Rmin_r (ps j) (ps ((j + n - 1) mod n)%nat)). destruct E as [E|[E|E]]; lra. }
    rewrite Q. split; intros (A & B); (split; [lia|exact B]).
Qed.
Print Assumptions py_lyh.
Example py_lyh_example : exists es, set_cells two_roots inv2 1 two_cells es /\ uniform two_cells 1 4 /\ (forall x, l_value (es 0%nat) x = x) /\ lyh two_cells es = [].
Proof.
  destruct (line_ready 1 5) as (e0 & R0 & V0); [lra|]. destruct (line_ready 5 9) as (e1 & R1 & V1); [lra|]. set (es := fun i => match i with O => e0 | _ => e1 end).
  assert (C : set_cells two_roots inv2 1 two_cells es) by (intros [|[|i]] Hi; [| |cbn in Hi; lia]; (split; [cbn; lra|assumption])).
  assert (U : uniform two_cells 1 4) by (intros [|[|i]] Hi; [| |cbn in Hi; lia]; cbn; f_equal; ring).
  exists es. split; [exact C|]. split; [exact U|]. split; [exact V0|].
  destruct (py_lyh two_roots inv2 1 two_cells es C) as (_ & _ & A & _). apply (A 1 4 0 1 U eq_refl). intros [|[|i]] x Hi; [| |cbn in Hi; lia]; cbn [es]; [rewrite V0|rewrite V1]; ring.
Qed.
