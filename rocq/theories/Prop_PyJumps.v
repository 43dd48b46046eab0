(** C163, C164: the jump detectors of the Python package that extend the solutions of neighbors into a cell *)
From Coq Require Import Reals List Arith Lra Lia.
From Coquelicot Require Import Coquelicot.
From Verif Require Import Arrays RSum Model_PyEuler Model_PyPoly Spec_PyPoly Proof_PyPoly Proof_PyCorrect.
From Verif Require Import Model_PyIntegrator Proof_PyIntegrator Model_PyExpansion Spec_PyExpansion Proof_PyExpansion Prop_PyExpansion.
From Verif Require Import Model_PyGrid Model_PyLimiter Proof_PyLimiter Prop_PyScheme Prop_PyLimiter Model_PyDetector Spec_PyDetector Proof_PyDetector Prop_PyDetector Model_PyJumps.
Import ListNotations.
Open Scope R_scope.

(** neighbors of the cell [i]; the previous and the next cell, around the ends *)
Definition around {V} (g : Grid V) (i : nat) : list Neighbor := present [left_expansion g i; right_expansion g i].
Definition chained {V} (g : Grid V) : Prop := forall i b, (i < n_element g)%nat ->
  (left_expansion g i = Some b -> element_of b = if (i =? 0)%nat then (n_element g - 1)%nat else (i - 1)%nat) /\
  (right_expansion g i = Some b -> element_of b = if (i =? n_element g - 1)%nat then 0%nat else (i + 1)%nat).
(** what the neighbor says about the solution at [x]: its polynomial, moved by [x_shift] if it is on the other side of a periodic grid *)
Definition extended (es : nat -> Legendre) (b : Neighbor) (x : R) : R := l_value (es (element_of b)) (x - match b with Plain _ => 0 | Moved _ s => s end).
Definition total (l : list R) : R := fold_right Rplus 0 l.
Definition smallest (m : R) (l : list R) : R := fold_left Rmin l m.
Definition largest (l : list R) : R := fold_left Rmax l 0.
Lemma extended_is es b x : neighbor_value es b x = extended es b x.
Proof. destruct b; unfold extended; cbn [neighbor_value element_of]; [rewrite Rminus_0_r|]; reflexivity. Qed.
Lemma left_is {V} (g : Grid V) i b : chained g -> (i < n_element g)%nat -> left_expansion g i = Some b -> i_left (n_element g) i = element_of b.
Proof.
  intros C Hi E. rewrite (proj1 (C i b Hi) E). unfold i_left. destruct (Nat.eqb_spec i 0) as [->|N].
  - cbn [Nat.add]. apply Nat.mod_small. lia.
  - replace (i + n_element g - 1)%nat with (i - 1 + 1 * n_element g)%nat by lia. rewrite Nat.mod_add by lia. apply Nat.mod_small. lia.
Qed.
Lemma right_is {V} (g : Grid V) i b : chained g -> (i < n_element g)%nat -> right_expansion g i = Some b -> i_right (n_element g) i = element_of b.
Proof.
  intros C Hi E. rewrite (proj2 (C i b Hi) E). unfold i_right. destruct (Nat.eqb_spec i (n_element g - 1)) as [->|N].
  - replace (n_element g - 1 + 1)%nat with (n_element g) by lia. apply Nat.mod_same. lia.
  - apply Nat.mod_small. lia.
Qed.
Lemma smallest_nonneg l : forall m, 0 <= m -> List.Forall (fun x => 0 <= x) l -> 0 <= smallest m l.
Proof. induction l as [|x l IH]; intros m M H; [exact M|]. cbn [smallest fold_left]. apply IH; [apply Rmin_glb; [exact M|]|]; inversion H; assumption. Qed.
Lemma around_linked {V} (g : Grid V) i b : linked g -> (i < n_element g)%nat -> In b (around g i) -> (element_of b < n_element g)%nat.
Proof.
  intros L Hi Hb. apply (L i b Hi). unfold around in Hb. cbn [present flat_map] in Hb. rewrite app_nil_r in Hb. apply in_app_or in Hb.
  destruct Hb as [Hb|Hb]; [left; destruct (left_expansion g i) as [b'|]|right; destruct (right_expansion g i) as [b'|]]; try (destruct Hb as [Hb|[]]; rewrite Hb; reflexivity); destruct Hb.
Qed.
Lemma eps8 : 0 < 1 / 10 ^ 8. Proof. apply Rdiv_lt_0_compat; [lra|apply pow_lt; lra]. Qed.

(** ** C163 *)
Theorem py_lwa_detect {V} roots inv degree (g : Grid V) es averages : inverts inv -> set_cells roots inv degree g es -> chained g -> linked g ->
  (forall i, (i < n_element g)%nat -> mean (x_left (coordinates g i)) (x_right (coordinates g i)) (l_value (es i)) (averages i)) ->
  exists l, lwa_detect g es = Some l /\
    lists (n_element g) (fun i => let c := coordinates g i in let x := (x_left c + x_right c) / 2 in let bs := around g i in
      (if (degree <=? 2)%nat then 1 else 3) * (INR (length bs) * Rpower (x_right c - x_left c) ((INR degree + 1) / 2) *
        (smallest (Rabs (averages i)) (map (fun b => Rabs (averages (element_of b))) bs) + 1 / 10 ^ 8)) <
      total (map (fun b => Rabs (l_value (es i) x - extended es b x)) bs)) l.
Proof.
  intros I C Ch L M. unfold lwa_detect. rewrite (troubled_filter g _ (lwa_test g es)) by reflexivity. eexists. split; [reflexivity|]. apply filter_lists. intros i Hi.
  assert (Av : forall j, (j < n_element g)%nat -> l_average (es j) = averages j).
  { intros j Hj. destruct (C j Hj) as (X & Rd). destruct (py_legendre_values roots inv degree (coordinates g j) (es j) ltac:(lra) I Rd) as (_ & _ & Me & _). apply (mean_unique (x_left (coordinates g j)) (x_right (coordinates g j)) (l_value (es j))); [lra|exact Me|apply M, Hj]. }
  destruct (C i Hi) as (X & Rd). assert (X' : x_left (coordinates g i) <> x_right (coordinates g i)) by lra.
  assert (F := proj2 (made_frame roots inv degree _ X') (es i) Rd). pose proof eps8 as E8.
  set (h := Rpower (x_right (coordinates g i) - x_left (coordinates g i)) ((INR degree + 1) / 2)). assert (Hp : 0 < h) by apply exp_pos.
  assert (Bd : 1 + 2 * (if (2 <? degree)%nat then 1 else 0) = if (degree <=? 2)%nat then 1 else 3) by (destruct (Nat.leb_spec degree 2), (Nat.ltb_spec 2 degree); try lia; ring).
  assert (K : forall n s d, 0 <= s -> (n = 0%nat -> d = 0) -> exceeds d (INR n * h * (s + 1 / 10 ^ 8)) (if (degree <=? 2)%nat then 1 else 3) = true <-> (if (degree <=? 2)%nat then 1 else 3) * (INR n * h * (s + 1 / 10 ^ 8)) < d).
  { intros [|n] s d Hs Z.
    - rewrite (Z eq_refl). change (INR 0) with 0. replace (0 * h * (s + 1 / 10 ^ 8)) with 0 by ring. unfold exceeds. destruct (Req_EM_T 0 0); [|lra]. destruct (Rlt_dec 0 0); [lra|]. rewrite Rmult_0_r. split; [discriminate|lra].
    - apply exceeds_pos. apply Rmult_lt_0_compat; [apply Rmult_lt_0_compat; [apply lt_0_INR; lia|exact Hp]|lra]. }
  assert (D1 : INR (l_n (es i) - 1 + 1) / 2 = (INR degree + 1) / 2) by (rewrite (proj1 F); replace (degree + 1 - 1 + 1)%nat with (S degree) by lia; rewrite S_INR; reflexivity).
  assert (D2 : (l_n (es i) - 1)%nat = degree) by (rewrite (proj1 F); lia).
  unfold lwa_test, around. cbv zeta. rewrite center_is, length_is, D1, D2, Bd. fold h.
  destruct (left_expansion g i) as [b1|] eqn:E1; destruct (right_expansion g i) as [b2|] eqn:E2; cbn [present flat_map app map length total fold_right lwa_add n_neighbor curr_norm lwa_sum smallest fold_left Nat.add];
    try rewrite (left_is g i b1 Ch Hi E1); try rewrite (right_is g i b2 Ch Hi E2);
    try pose proof (L i b1 Hi (or_introl E1)); try pose proof (L i b2 Hi (or_intror E2)); rewrite ?Av by assumption; rewrite ?extended_is, ?Rplus_0_l, ?Rplus_0_r;
    (rewrite K; [reflexivity|repeat apply Rmin_glb; apply Rabs_pos|intros Z; discriminate || reflexivity]).
Qed.
Print Assumptions py_lwa_detect.

(** ** C164 *)
Lemma value_poly roots inv degree c e p q : x_left c <> x_right c -> frame roots inv degree c e -> polynomial degree (fun y => l_value e (p + y * q)).
Proof.
  intros X F. apply (poly_affine 1 degree (l_value e) p q). unfold l_value. apply (poly_ext _ (tsum (l_n e) (l_center e) (l_taylor e) 0)).
  - intros x. reflexivity.
  - replace degree with (l_n e - 1)%nat by (rewrite (proj1 F); lia). apply tsum_poly.
Qed.
Lemma integral_is roots inv degree c e f d : x_left c <> x_right c -> gauss roots (degree + 1) -> frame roots inv degree c e -> (d <= 2 * degree + 1)%nat ->
  polynomial d (fun y => f (local_to_global c y)) -> is_RInt f (x_left c) (x_right c) (integrate (l_integrator e) f).
Proof.
  intros X G F D P. rewrite (rule_is roots inv degree c G e) by exact F. apply change_variable; [|exact X].
  apply (rule_exact roots degree G d); [lia|exact P].
Qed.
(** solutions of neighbors, integrated over the cell, against the least of the norms; the norms are approximated with the points of the elements *)
Theorem py_zj_detect {V} roots inv degree (g : Grid V) es : inverts inv -> gauss roots (degree + 1) -> List.Forall (fun w => 0 <= w) (snd (roots (degree + 1)%nat)) ->
  set_cells roots inv degree g es -> chained g -> linked g ->
  let norms i := integrate (l_integrator (es i)) (fun x => Rabs (l_value (es i) x)) in
  exists l, zj_detect g es = Some l /\
    (forall i, (i < n_element g)%nat -> 0 <= norms i) /\
    (forall i b, (i < n_element g)%nat -> In b (around g i) -> is_RInt (fun x => l_value (es i) x - extended es b x) (x_left (coordinates g i)) (x_right (coordinates g i))
       (RInt (fun x => l_value (es i) x - extended es b x) (x_left (coordinates g i)) (x_right (coordinates g i)))) /\
    lists (n_element g) (fun i => let c := coordinates g i in let bs := around g i in
      (smallest (norms i) (map (fun b => norms (element_of b)) bs) + 1 / 10 ^ 8) * (x_right c - x_left c) <
      largest (map (fun b => Rabs (RInt (fun x => l_value (es i) x - extended es b x) (x_left c) (x_right c))) bs)) l.
Proof.
  intros I G W C Ch L norms. unfold zj_detect. rewrite (troubled_filter g _ (zj_test g es)) by reflexivity. eexists. split; [reflexivity|].
  assert (Nn : forall i, (i < n_element g)%nat -> 0 <= norms i).
  { intros i Hi. destruct (C i Hi) as (X & Rd). assert (F := proj2 (made_frame roots inv degree (coordinates g i) ltac:(lra)) (es i) Rd). unfold norms.
    rewrite (rule_is roots inv degree _ G (es i)) by exact F. apply Rmult_le_pos; [lra|]. unfold quadr.
    assert (Z : forall ps ws, List.Forall (fun w => 0 <= w) ws -> 0 <= fold_right Rplus 0 (map (fun q => snd q * Rabs (l_value (es i) (local_to_global (coordinates g i) (fst q)))) (combine ps ws))).
    { induction ps as [|p ps IH]; intros ws Hw; [cbn; lra|]. destruct ws as [|w ws]; [cbn; lra|]. cbn [combine map fold_right fst snd]. inversion Hw as [|? ? Hw1 Hw2]; subst.
      pose proof (IH ws Hw2). pose proof (Rmult_le_pos _ _ Hw1 (Rabs_pos (l_value (es i) (local_to_global (coordinates g i) p)))). lra. }
    apply Z, W. }
  split; [exact Nn|].
  assert (Ex : forall i b, (i < n_element g)%nat -> In b (around g i) -> is_RInt (fun x => l_value (es i) x - extended es b x) (x_left (coordinates g i)) (x_right (coordinates g i))
    (integrate (l_integrator (es i)) (fun x => l_value (es i) x - neighbor_value es b x))).
  { intros i b Hi Hb. destruct (C i Hi) as (X & Rd). assert (X' : x_left (coordinates g i) <> x_right (coordinates g i)) by lra. assert (F := proj2 (made_frame roots inv degree _ X') (es i) Rd).
    assert (Hj : (element_of b < n_element g)%nat).
    { apply (around_linked g i b L Hi Hb). }
    destruct (C _ Hj) as (Xj & Rj). assert (Fj := proj2 (made_frame roots inv degree (coordinates g (element_of b)) ltac:(lra)) _ Rj).
    apply (@is_RInt_ext R_NormedModule (fun x => l_value (es i) x - neighbor_value es b x)); [intros x _; rewrite extended_is; reflexivity|].
    apply (integral_is roots inv degree _ _ _ degree X' G F); [lia|].
    set (m := (x_left (coordinates g i) + x_right (coordinates g i)) / 2). set (J := (x_right (coordinates g i) - x_left (coordinates g i)) / 2).
    set (sh := match b with Plain _ => 0 | Moved _ s => s end).
    apply (poly_ext _ (fun y => l_value (es i) (m + y * J) + -1 * l_value (es (element_of b)) (m - sh + y * J))).
    - intros y. rewrite extended_is, map_is. fold m J. unfold extended. fold sh. replace (m + y * J - sh) with (m - sh + y * J) by ring. ring.
    - apply poly_plus; [apply (value_poly roots inv degree (coordinates g i)); assumption|]. apply poly_scal. apply (value_poly roots inv degree (coordinates g (element_of b))); [lra|exact Fj]. }
  split; [intros i b Hi Hb; pose proof (Ex i b Hi Hb) as H; pose proof (@is_RInt_unique R_CompleteNormedModule _ _ _ _ H) as U; rewrite U; exact H|].
  apply filter_lists. intros i Hi. destruct (C i Hi) as (X & Rd). pose proof eps8 as E8.
  assert (Ig : forall b, In b (around g i) -> zj_integral es i b = Rabs (RInt (fun x => l_value (es i) x - extended es b x) (x_left (coordinates g i)) (x_right (coordinates g i)))).
  { intros b Hb. pose proof (@is_RInt_unique R_CompleteNormedModule _ _ _ _ (Ex i b Hi Hb)) as U. unfold zj_integral. rewrite U. reflexivity. }
  unfold zj_test. cbv zeta. rewrite length_is. unfold around in *.
  assert (K : forall s d, 0 <= s -> exceeds d ((s + 1 / 10 ^ 8) * (x_right (coordinates g i) - x_left (coordinates g i))) 1 = true <-> (s + 1 / 10 ^ 8) * (x_right (coordinates g i) - x_left (coordinates g i)) < d).
  { intros s d Hs. rewrite exceeds_pos; [rewrite Rmult_1_l; reflexivity|]. apply Rmult_lt_0_compat; lra. }
  unfold zj_add. change (fun k => norm_1 (l_integrator (es k)) (l_value (es k))) with norms.
  destruct (left_expansion g i) as [b1|] eqn:E1; destruct (right_expansion g i) as [b2|] eqn:E2; cbn [present flat_map app map fst snd smallest largest fold_left] in *;
    try rewrite (left_is g i b1 Ch Hi E1); try rewrite (right_is g i b2 Ch Hi E2);
    try pose proof (L i b1 Hi (or_introl E1)); try pose proof (L i b2 Hi (or_intror E2)); rewrite ?Ig by (cbn; auto);
    (rewrite K; [reflexivity|repeat apply Rmin_glb; apply Nn; assumption]).
Qed.
Print Assumptions py_zj_detect.

(** one polynomial over the whole grid is not reported by either detector *)
Theorem py_jumps_smooth {V} roots inv degree (g : Grid V) es : inverts inv -> gauss roots (degree + 1) -> List.Forall (fun w => 0 <= w) (snd (roots (degree + 1)%nat)) ->
  set_cells roots inv degree g es -> chained g -> linked g ->
  (forall i b x, (i < n_element g)%nat -> In b (around g i) -> extended es b x = l_value (es i) x) ->
  lwa_detect g es = Some [] /\ zj_detect g es = Some [].
Proof.
  intros I G W C Ch L S. pose proof eps8 as E8.
  assert (No : forall P l, lists (n_element g) P l -> (forall i, (i < n_element g)%nat -> ~ P i) -> l = []).
  { intros P l (A & _) N. destruct l as [|i l]; [reflexivity|exfalso]. destruct (proj1 (A i) (or_introl eq_refl)) as (Hi & Q). exact (N i Hi Q). }
  split.
  - destruct (py_lwa_detect roots inv degree g es (fun i => l_average (es i)) I C Ch L) as (l & E & Q).
    { intros i Hi. destruct (C i Hi) as (X & Rd). apply (py_legendre_values roots inv degree (coordinates g i) (es i) ltac:(lra) I Rd). }
    rewrite E. f_equal. apply (No _ _ Q). intros i Hi. cbv zeta. intros Lt.
    assert (Z : forall l, (forall b, In b l -> In b (around g i)) -> total (map (fun b => Rabs (l_value (es i) ((x_left (coordinates g i) + x_right (coordinates g i)) / 2) - extended es b ((x_left (coordinates g i) + x_right (coordinates g i)) / 2))) l) = 0).
    { induction l0 as [|b bs IH]; intros Hb; [reflexivity|]. cbn [map total fold_right]. fold (total (map (fun b => Rabs (l_value (es i) ((x_left (coordinates g i) + x_right (coordinates g i)) / 2) - extended es b ((x_left (coordinates g i) + x_right (coordinates g i)) / 2))) bs)).
      rewrite IH by (intros; apply Hb; right; assumption). rewrite (S i b _ Hi (Hb b (or_introl eq_refl))). rewrite Rminus_diag_eq, Rabs_R0 by reflexivity. ring. }
    rewrite (Z _ (fun b H => H)) in Lt.
    assert (0 <= smallest (Rabs (l_average (es i))) (map (fun b => Rabs (l_average (es (element_of b)))) (around g i))).
    { apply smallest_nonneg; [apply Rabs_pos|]. apply List.Forall_forall. intros x Hx. apply in_map_iff in Hx. destruct Hx as (b & <- & _). apply Rabs_pos. }
    assert (0 <= (if (degree <=? 2)%nat then 1 else 3) * (INR (length (around g i)) * Rpower (x_right (coordinates g i) - x_left (coordinates g i)) ((INR degree + 1) / 2) *
        (smallest (Rabs (l_average (es i))) (map (fun b => Rabs (l_average (es (element_of b)))) (around g i)) + 1 / 10 ^ 8))); [|lra].
    apply Rmult_le_pos; [destruct (degree <=? 2)%nat; lra|]. apply Rmult_le_pos; [apply Rmult_le_pos; [apply pos_INR|left; apply exp_pos]|lra].
  - destruct (py_zj_detect roots inv degree g es I G W C Ch L) as (l & E & Nn & _ & Q). rewrite E. f_equal. apply (No _ _ Q). intros i Hi. cbv zeta. intros Lt.
    assert (Z : forall l, (forall b, In b l -> In b (around g i)) -> forall m, m = 0 -> fold_left Rmax (map (fun b => Rabs (RInt (fun x => l_value (es i) x - extended es b x) (x_left (coordinates g i)) (x_right (coordinates g i)))) l) m = 0).
    { induction l0 as [|b bs IH]; intros Hb m Hm; [exact Hm|]. cbn [map fold_left]. apply IH; [intros; apply Hb; right; assumption|].
      assert (R0 : RInt (fun x => l_value (es i) x - extended es b x) (x_left (coordinates g i)) (x_right (coordinates g i)) = 0).
      { apply (@is_RInt_unique R_CompleteNormedModule). apply (@is_RInt_ext R_NormedModule (fun _ => 0)); [intros x _; rewrite (S i b x Hi (Hb b (or_introl eq_refl))); symmetry; apply Rminus_diag_eq; reflexivity|].
        evar_last; [apply (@is_RInt_const R_NormedModule)|]. unfold scal; cbn; unfold mult; cbn. ring. }
      rewrite R0, Rabs_R0, Hm. apply Rmax_left. lra. }
    unfold largest in Lt. rewrite (Z _ (fun b H => H) 0 eq_refl) in Lt. destruct (C i Hi) as (X & _).
    assert (0 <= smallest (integrate (l_integrator (es i)) (fun x => Rabs (l_value (es i) x))) (map (fun b => integrate (l_integrator (es (element_of b))) (fun x => Rabs (l_value (es (element_of b)) x))) (around g i))).
    { apply smallest_nonneg; [apply Nn, Hi|]. apply List.Forall_forall. intros x Hx. apply in_map_iff in Hx. destruct Hx as (b & <- & Hb). apply Nn, (around_linked g i b L Hi Hb). }
    assert (0 < (smallest (integrate (l_integrator (es i)) (fun x => Rabs (l_value (es i) x))) (map (fun b => integrate (l_integrator (es (element_of b))) (fun x => Rabs (l_value (es (element_of b)) x))) (around g i)) + 1 / 10 ^ 8) * (x_right (coordinates g i) - x_left (coordinates g i))) by (apply Rmult_lt_0_compat; lra).
    lra.
Qed.
Print Assumptions py_jumps_smooth.
Lemma two_chained : chained two_cells.
Proof. intros [|[|i]] b Hi; cbn in *; [| |lia]; (split; intros H; [try discriminate; injection H as <-|try discriminate; injection H as <-]; reflexivity). Qed.
Lemma two_weights : List.Forall (fun w => 0 <= w) (snd (two_roots (1 + 1)%nat)).
Proof. cbn [two_roots snd]. repeat constructor; lra. Qed.
Example py_jumps_example : exists es, set_cells two_roots inv2 1 two_cells es /\ (forall x, l_value (es 0%nat) x = x) /\ lwa_detect two_cells es = Some [] /\ zj_detect two_cells es = Some [].
Proof.
  destruct (line_ready 1 5) as (e0 & R0 & V0); [lra|]. destruct (line_ready 5 9) as (e1 & R1 & V1); [lra|]. set (es := fun i => match i with O => e0 | _ => e1 end).
  assert (C : set_cells two_roots inv2 1 two_cells es) by (intros [|[|i]] Hi; [| |cbn in Hi; lia]; (split; [cbn; lra|assumption])).
  exists es. split; [exact C|]. split; [exact V0|]. apply (py_jumps_smooth two_roots inv2 1 two_cells es inv2_inverts two_gauss two_weights C two_chained two_linked).
  intros [|[|i]] b x Hi Hb; [| |cbn in Hi; lia]; (destruct Hb as [<-|[]]); unfold extended, es; cbn [element_of]; rewrite V0, V1; ring.
Qed.
