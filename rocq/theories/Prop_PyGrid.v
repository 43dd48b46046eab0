(** C148 - C150: grids of the Python package *)
From Coq Require Import Reals List Arith ZArith Lia Lra.
From Verif Require Import Arrays Model_PyIntegrator Model_PyGrid Spec_PyGrid Proof_PyGrid.
Import ListNotations.
Open Scope nat_scope.

(** all grids of [n] elements on [a, b]: constructed, then given boundary values any number of times *)
Inductive scheme {V : Type} (n : nat) (a b : R) : Grid V -> Prop :=
| Constructed g : FiniteElement_init n a b = Some g -> scheme n a b g
| Bounded g u_left u_right g' : scheme n a b g -> set_boundary_values g (Some u_left) (Some u_right) = Some g' -> scheme n a b g'.

Lemma scheme_is {V} n a b (g : Grid V) : scheme n a b g -> (a < b)%R /\ 2 <= n /\ n_element g = n /\
  (forall i, coordinates g i = Linear (a + INR i * ((b - a) / INR n)) (a + INR (S i) * ((b - a) / INR n))) /\
  (forall i, x_left_sorted g i = (a + INR i * ((b - a) / INR n))%R) /\ interior g /\
  ((periodic g = true /\ cyclic g) \/ (exists ul ur, periodic g = false /\ open g ul ur)).
Proof.
  induction 1 as [g E|g ul ur g' _ (L & H & N & C & X & I & B) E].
  - assert (L : (a < b)%R /\ 2 <= n). { unfold FiniteElement_init in E. destruct (Rlt_dec a b); [|discriminate]. destruct (Nat.ltb_spec 1 n); [|discriminate]. split; [assumption|lia]. }
    destruct L as (L & H). destruct (@init_is V n a b L H) as (g' & E' & N & P & C & X & I & Cy). assert (g' = g) by congruence. subst g'. auto 10.
  - destruct (boundary_is g ul ur ltac:(lia)) as (g1 & E1 & N1 & C1 & X1 & P1 & I1 & O1). assert (g1 = g') by congruence. subst g1.
    rewrite N1, C1, X1. split; [exact L|]. split; [exact H|]. split; [exact N|]. split; [exact C|]. split; [exact X|]. split; [exact I1|]. right. exists ul, ur. auto.
Qed.

(** ** C148: neighbors are linked by common faces *)
Theorem py_grid_made {V : Type} n a b : (a < b)%R -> 2 <= n ->
  (exists g : Grid V, FiniteElement_init n a b = Some g /\ periodic g = true /\ cyclic g) /\
  forall (g : Grid V) u_left u_right, scheme n a b g ->
    exists g', set_boundary_values g (Some u_left) (Some u_right) = Some g' /\ periodic g' = false /\ open g' u_left u_right.
Proof.
  intros L H. split.
  - destruct (@init_is V n a b L H) as (g & E & N & P & C & X & I & Cy). eauto.
  - intros g ul ur Sg. destruct (scheme_is n a b g Sg) as (_ & _ & N & _). destruct (boundary_is g ul ur ltac:(lia)) as (g1 & E1 & N1 & C1 & X1 & P1 & I1 & O1). eauto.
Qed.
Print Assumptions py_grid_made.
Theorem py_grid_linked {V : Type} n a b (g : Grid V) : scheme n a b g ->
  n_element g = n /\ covers g a b /\ interior g /\ (periodic g = true -> cyclic g) /\
  forall i, i < n ->
    (forall e, left_expansion g i = Some e -> x_right (neighbor_coordinate g e) = x_left (coordinates g i)) /\
    (forall e, right_expansion g i = Some e -> x_left (neighbor_coordinate g e) = x_right (coordinates g i)).
Proof.
  intros Sg. destruct (scheme_is n a b g Sg) as (L & H & N & C & X & I & B). assert (Nn : (0 < INR n)%R) by (apply lt_0_INR; lia).
  assert (D : (0 < (b - a) / INR n)%R) by (apply Rdiv_lt_0_compat; lra). split; [exact N|]. split; [|split; [exact I|split]].
  - unfold covers. rewrite N. split; [rewrite C; cbn; ring|]. split; [|split].
    + rewrite C. cbn [x_right]. replace (S (n - 1)) with n by lia. field. lra.
    + intros i _. rewrite C. cbn [x_left x_right]. rewrite S_INR. lra.
    + intros i _. rewrite !C. reflexivity.
  - intros P. destruct B as [(_ & Cy)|(ul & ur & P' & _)]; [exact Cy|congruence].
  - intros i Hi. assert (E0 : x_left (coordinates g 0) = a) by (rewrite C; cbn; ring).
    assert (E1 : x_right (coordinates g (n - 1)) = b) by (rewrite C; cbn [x_right]; replace (S (n - 1)) with n by lia; field; lra). split.
    + intros e E. destruct i as [|i].
      * destruct B as [(_ & f & _ & _ & _ & Le & _)|(ul & ur & P' & f & f' & _ & _ & _ & Le & _)]; [|congruence]. rewrite Le in E. injection E as <-. cbn [neighbor_coordinate x_right]. rewrite N, E0, E1. lra.
      * destruct (I i ltac:(lia)) as (f & _ & _ & _ & Le). rewrite Le in E. injection E as <-. cbn [neighbor_coordinate]. rewrite !C. reflexivity.
    + intros e E. destruct (Nat.eq_dec (S i) n) as [M|M].
      * replace i with (n - 1) in * by lia. destruct B as [(_ & f & _ & _ & _ & _ & Re)|(ul & ur & P' & f & f' & _ & _ & _ & _ & _ & _ & _ & Re)]; rewrite N in Re; [|congruence].
        rewrite Re in E. injection E as <-. cbn [neighbor_coordinate x_left]. rewrite E0, E1. lra.
      * destruct (I i ltac:(lia)) as (f & _ & _ & Re & _). rewrite Re in E. injection E as <-. cbn [neighbor_coordinate]. rewrite !C. reflexivity.
Qed.
Print Assumptions py_grid_linked.
(** three elements on [0, 6], then boundary values 1 and 7 *)
Example py_grid_example : exists g g' : Grid nat, FiniteElement_init 3 0 6 = Some g /\ set_boundary_values g (Some 1) (Some 7) = Some g' /\ scheme 3 0 6 g' /\
  coordinates g 1 = Linear 2 4 /\
  left_face g 0 = right_face g 2 /\ right_face g 0 = left_face g 1 /\ right_face g 1 = left_face g 2 /\ left_face g 0 <> left_face g 1 /\
  left_expansion g 0 = Some (Moved 2 (-6)) /\ right_expansion g 2 = Some (Moved 0 6) /\
  left_face g' 0 <> right_face g' 2 /\ right_face g' 0 = left_face g' 1 /\ left_expansion g' 0 = None /\ left_expansion g' 1 = Some (Plain 0).
Proof.
  destruct (@init_is nat 3 0 6 ltac:(lra) ltac:(lia)) as (g & E & N & P & C & X & I & f & (J1 & J2 & J3) & F0 & Fn & Le & Re).
  destruct (boundary_is g 1 7 ltac:(lia)) as (g' & E' & N' & C' & X' & P' & I' & f1 & f2 & B1 & B2 & B3 & B4 & B5 & B6 & B7 & B8).
  exists g, g'. rewrite N in *. rewrite N' in *. cbn [Nat.sub] in *.
  destruct (I 0 ltac:(lia)) as (h0 & (K1 & K2 & K3) & _ & _ & _). destruct (I 1 ltac:(lia)) as (h1 & (M1 & M2 & M3) & _ & _ & _). destruct (I' 0 ltac:(lia)) as (h2 & (L1 & L2 & L3) & _ & _ & L4).
  split; [exact E|]. split; [exact E'|]. split; [apply (Bounded 3 0 6 g 1 7); [constructor; exact E|exact E']|]. split; [rewrite C; cbn [INR]; f_equal; field|].
  split; [congruence|]. split; [congruence|]. split; [congruence|]. split; [rewrite J2, K2; intros Q; injection Q as ->; congruence|].
  split; [rewrite Le, !C; cbn [x_left x_right INR]; do 2 f_equal; field|]. split; [rewrite Re, !C; cbn [x_left x_right INR]; do 2 f_equal; field|].
  split; [rewrite B1, B5; intros Q; injection Q as ->; congruence|]. split; [congruence|]. split; [exact B4|exact L4].
Qed.

(** ** C149: a missing boundary value *)
Theorem py_grid_no_value {V : Type} (g : Grid V) u u' : 2 <= n_element g -> (u = None \/ u' = None) -> set_boundary_values g u u' = None.
Proof.
  intros H [-> | ->]; unfold set_boundary_values; cbn [bind make_inlet with_periodic with_left_face with_faces with_right_face n_element]; rewrite (index_nat _ 0) by lia; [reflexivity|].
  destruct u; [|reflexivity]. cbn [bind make_inlet with_periodic with_left_face with_faces with_right_face n_element]. rewrite (index_nat _ 0) by lia.
  cbn [bind make_inlet with_periodic with_left_face with_faces with_right_face n_element]. rewrite (index_neg _ 1) by lia. reflexivity.
Qed.
Print Assumptions py_grid_no_value.
Theorem py_grid_no_value_refuted : exists (g : Grid nat) u_right, scheme 3 0 6 g /\ set_boundary_values g None (Some u_right) = None.
Proof.
  destruct (@init_is nat 3 0 6 ltac:(lra) ltac:(lia)) as (g & E & N & _). exists g, 7. split; [constructor; exact E|]. apply py_grid_no_value; [lia|left; reflexivity].
Qed.
Print Assumptions py_grid_no_value_refuted.

(** ** C150: the element of a point *)
Lemma bisect_is a n x : (forall i, (a i <= a (S i))%R) -> let k := bisect_right a n x in
  k <= n /\ (forall i, i < k -> (a i <= x)%R) /\ (forall i, k <= i -> i < n -> (x < a i)%R).
Proof.
  intros Mo. assert (M : forall d i : nat, (a i <= a (i + d)%nat)%R). { induction d as [|d IH]; intros i; [rewrite Nat.add_0_r; lra|]. rewrite Nat.add_succ_r. specialize (IH i). specialize (Mo (i + d)). lra. }
  induction n as [|n IH]; cbn [bisect_right]; [split; [lia|split; intros; lia]|]. destruct (Rle_dec (a n) x) as [L|L].
  - split; [lia|]. split; [|intros; lia]. intros i Hi. specialize (M (n - i) i). replace (i + (n - i)) with n in M by lia. lra.
  - destruct IH as (A & B & C). split; [lia|]. split; [exact B|]. intros i Hi Hn. destruct (Nat.eq_dec i n) as [->|N]; [lra|apply C; lia].
Qed.
Theorem py_grid_element {V : Type} n a b (g : Grid V) x : scheme n a b g ->
  ((a <= x < b)%R -> exists i, get_element g x = Some i /\ i < n /\ (x_left (coordinates g i) <= x < x_right (coordinates g i))%R) /\
  ((b <= x)%R -> get_element g x = Some (n - 1)) /\ ((x < a)%R -> get_element g x = Some (n - 1)).
Proof.
  intros Sg. destruct (scheme_is n a b g Sg) as (L & H & N & C & X & _). assert (Nn : (0 < INR n)%R) by (apply lt_0_INR; lia).
  assert (D : (0 < (b - a) / INR n)%R) by (apply Rdiv_lt_0_compat; lra).
  destruct (bisect_is (x_left_sorted g) n x) as (A & B & Cc); [intros i; rewrite !X, S_INR; lra|]. unfold get_element, get_element_index. rewrite N. set (k := bisect_right (x_left_sorted g) n x) in *.
  assert (K0 : (x < a)%R -> k = 0). { intros Hx. destruct k as [|k]; [reflexivity|]. specialize (B 0 ltac:(lia)). rewrite X in B. cbn [INR] in B. lra. }
  assert (K1 : (a <= x)%R -> 1 <= k). { intros Hx. destruct k as [|k]; [|lia]. specialize (Cc 0 ltac:(lia) ltac:(lia)). rewrite X in Cc. cbn [INR] in Cc. lra. }
  split; [|split].
  - intros Hx. specialize (K1 ltac:(lra)). exists (k - 1). replace (Z.of_nat k - 1)%Z with (Z.of_nat (k - 1)) by lia. rewrite index_nat by lia. split; [reflexivity|]. split; [lia|].
    rewrite C. cbn [x_left x_right]. split; [rewrite <- X; apply B; lia|]. replace (S (k - 1)) with k by lia. destruct (Nat.eq_dec k n) as [->|M]; [|rewrite <- X; apply Cc; lia].
    replace (a + INR n * ((b - a) / INR n))%R with b by (field; lra). lra.
  - intros Hx. assert (k = n) as ->.
    { destruct (Nat.eq_dec k n) as [|M]; [assumption|]. specialize (Cc k ltac:(lia) ltac:(lia)). rewrite X in Cc. assert (INR k * ((b - a) / INR n) <= INR n * ((b - a) / INR n))%R by (apply Rmult_le_compat_r; [lra|apply le_INR; lia]).
      replace (INR n * ((b - a) / INR n))%R with (b - a)%R in H0 by (field; lra). lra. }
    replace (Z.of_nat n - 1)%Z with (Z.of_nat (n - 1)) by lia. apply index_nat. lia.
  - intros Hx. rewrite (K0 Hx). change (Z.of_nat 0 - 1)%Z with (- Z.of_nat 1)%Z. apply index_neg; lia.
Qed.
Print Assumptions py_grid_element.
Example py_grid_element_example : exists g : Grid nat, scheme 3 0 6 g /\ get_element g 3 = Some 1 /\ get_element g 4 = Some 2 /\ get_element g 6 = Some 2 /\ get_element g (-1) = Some 2.
Proof.
  destruct (@init_is nat 3 0 6 ltac:(lra) ltac:(lia)) as (g & E & N & P & C & _). assert (Sg : scheme 3 0 6 g) by (constructor; exact E).
  exists g. split; [exact Sg|].
  assert (U : forall x i j, (x_left (coordinates g i) <= x < x_right (coordinates g i))%R -> (x_left (coordinates g j) <= x < x_right (coordinates g j))%R -> i = j).
  { intros x i j. rewrite !C. cbn [x_left x_right]. rewrite !S_INR. cbn [INR]. intros H1 H2. replace ((6 - 0) / (1 + 1 + 1))%R with 2%R in * by field.
    apply INR_eq. destruct (Nat.lt_trichotomy i j) as [Q|[->|Q]]; [|reflexivity|]; apply le_INR in Q; rewrite S_INR in Q; lra. }
  split; [|split; [|split]].
  - destruct (proj1 (py_grid_element 3 0 6 g 3 Sg) ltac:(lra)) as (i & G & _ & Hi). rewrite G. f_equal. apply (U 3%R); [exact Hi|]. rewrite C. cbn [x_left x_right INR]. lra.
  - destruct (proj1 (py_grid_element 3 0 6 g 4 Sg) ltac:(lra)) as (i & G & _ & Hi). rewrite G. f_equal. apply (U 4%R); [exact Hi|]. rewrite C. cbn [x_left x_right INR]. lra.
  - apply (proj1 (proj2 (py_grid_element 3 0 6 g 6 Sg))). lra.
  - apply (proj2 (proj2 (py_grid_element 3 0 6 g (-1) Sg))). lra.
Qed.
