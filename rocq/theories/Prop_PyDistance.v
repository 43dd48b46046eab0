(** C171: distances to polygons in the Python package *)
From Coq Require Import Reals List Arith Lra Lia.
From Verif Require Import Arrays Model_PyEuler Model_PyDistance.
Import ListNotations.
Open Scope R_scope.

(** the usual distance of two points *)
Definition euclid (a b : Point) : R := sqrt ((fst a - fst b) ^ 2 + (snd a - snd b) ^ 2).

Lemma min_spec l : l <> [] -> exists m, np_min l = Some m /\ In m l /\ (forall x, In x l -> m <= x).
Proof.
  induction l as [|a l IH]; [contradiction|]. intros _. destruct l as [|b l].
  - exists a. split; [reflexivity|]. split; [left; reflexivity|]. intros x [->|[]]. lra.
  - destruct IH as (m & E & I & L); [discriminate|]. exists (Rmin a m). change (np_min (a :: b :: l)) with (match np_min (b :: l) with Some m => Some (Rmin a m) | None => Some a end). rewrite E. split; [reflexivity|]. split.
    + unfold Rmin. destruct (Rle_dec a m); [left; reflexivity|right; exact I].
    + intros x [<-|H]; [apply Rmin_l|]. eapply Rle_trans; [apply Rmin_r|apply L, H].
Qed.
Lemma sum_zero l : (forall x, In x l -> 0 <= x) -> (np_sum l = 0 <-> forall x, In x l -> x = 0) /\ 0 <= np_sum l.
Proof.
  induction l as [|a l IH]; intros P; [split; [split; [intros _ x []|reflexivity]|cbn; lra]|]. destruct IH as (I & N); [intros; apply P; right; assumption|]. pose proof (P a (or_introl eq_refl)). unfold np_sum in *. cbn [fold_right]. split; [|lra].
  split; [intros E x [<-|H']; [lra|apply I; [lra|exact H']]|]. intros Z. rewrite (Z a (or_introl eq_refl)). rewrite (proj2 I); [lra|]. intros; apply Z; right; assumption.
Qed.
Lemma root_nonneg p s : 0 <= root_of p s.
Proof. unfold root_of. destruct (Rle_dec s 0); [lra|]. left. apply exp_pos. Qed.
Lemma root_zero p s : 0 <= s -> (root_of p s = 0 <-> s = 0).
Proof. intros S. unfold root_of. destruct (Rle_dec s 0); [split; intros; lra|]. split; [|lra]. intros E. pose proof (exp_pos (1 / INR p * ln s)). unfold Rpower in E. lra. Qed.
Lemma root_pow p d : (1 <= p)%nat -> 0 <= d -> root_of p (d ^ p) = d.
Proof.
  intros P D. unfold root_of. destruct (Req_dec d 0) as [->|N].
  - rewrite pow_i by lia. destruct (Rle_dec 0 0); lra.
  - assert (D' : 0 < d) by lra. pose proof (pow_lt d p D'). destruct (Rle_dec (d ^ p) 0); [lra|]. rewrite <- (Rpower_pow p d D'). rewrite Rpower_mult. replace (INR p * (1 / INR p)) with 1 by (field; apply not_0_INR; lia). apply Rpower_1, D'.
Qed.
Lemma root_mono p s t : (1 <= p)%nat -> s <= t -> root_of p s <= root_of p t.
Proof.
  intros P L. unfold root_of at 1. destruct (Rle_dec s 0); [apply root_nonneg|]. unfold root_of. destruct (Rle_dec t 0); [lra|]. apply Rle_Rpower_l; [|lra]. assert (0 < INR p) by (apply lt_0_INR; lia). left. apply Rdiv_lt_0_compat; lra.
Qed.
Lemma abs_zero x : Rabs x = 0 -> x = 0. Proof. intros H. destruct (Req_dec x 0) as [E|E]; [exact E|]. apply Rabs_no_R0 in E. contradiction. Qed.
(** distances to vertices: zero exactly at the vertex, between the largest coordinate and the sum; sum of coordinates for one, the usual one for two *)
Theorem py_vertex_distance p point v : match p with Some p => (1 <= p)%nat | None => True end ->
  let d := vertex_distance p point v in
  (d = 0 <-> v = point) /\ vertex_distance None point v <= d <= vertex_distance (Some 1%nat) point v /\
  vertex_distance (Some 1%nat) point v = Rabs (fst v - fst point) + Rabs (snd v - snd point) /\ vertex_distance (Some 2%nat) point v = euclid v point.
Proof.
  intros P. cbv zeta. destruct point as [x y], v as [a b]. cbn [fst snd]. set (dx := Rabs (a - x)). set (dy := Rabs (b - y)). assert (X : 0 <= dx) by apply Rabs_pos. assert (Y : 0 <= dy) by apply Rabs_pos.
  assert (Zero : dx = 0 -> dy = 0 -> (a, b) = (x, y)) by (intros E1 E2; apply abs_zero in E1; apply abs_zero in E2; f_equal; lra).
  assert (Zero' : (a, b) = (x, y) -> dx = 0 /\ dy = 0) by (intros E; injection E as -> ->; unfold dx, dy; rewrite !Rminus_eq_0, Rabs_R0; split; reflexivity).
  assert (One : vertex_distance (Some 1%nat) (x, y) (a, b) = dx + dy).
  { unfold vertex_distance. cbn [fst snd]. fold dx dy. rewrite <- (root_pow 1 (dx + dy)) by (try lia; lra). f_equal. ring. }
  assert (Max0 : vertex_distance None (x, y) (a, b) = Rmax dx dy) by reflexivity.
  assert (Mx : dx <= Rmax dx dy) by apply Rmax_l. assert (My : dy <= Rmax dx dy) by apply Rmax_r. assert (Mc : Rmax dx dy = dx \/ Rmax dx dy = dy) by (unfold Rmax; destruct (Rle_dec dx dy); tauto).
  split; [|split; [|split]].
  - destruct p as [p|].
    + unfold vertex_distance. cbn [fst snd]. fold dx dy. pose proof (pow_le dx p X). pose proof (pow_le dy p Y). rewrite root_zero by lra. split.
      * intros E. apply Zero; [destruct (Req_dec dx 0) as [Z|Z]; [exact Z|]; pose proof (pow_lt dx p ltac:(lra)); lra|destruct (Req_dec dy 0) as [Z|Z]; [exact Z|]; pose proof (pow_lt dy p ltac:(lra)); lra].
      * intros E. destruct (Zero' E) as (-> & ->). rewrite pow_i by lia. ring.
    + rewrite Max0. split; [intros E; apply Zero; lra|intros E; destruct (Zero' E) as (-> & ->); apply Rmax_left; lra].
  - rewrite One, Max0. destruct p as [p|]; [|rewrite Max0; lra]. unfold vertex_distance. cbn [fst snd]. fold dx dy. pose proof (pow_le dx p X). pose proof (pow_le dy p Y). split.
    + apply Rmax_lub; [rewrite <- (root_pow p dx P X) at 1|rewrite <- (root_pow p dy P Y) at 1]; apply root_mono; try exact P; lra.
    + rewrite <- (root_pow p (dx + dy) P) by lra. apply root_mono; [exact P|]. clear - X Y P. induction p as [|p IH]; [lia|]. destruct p as [|p]; [cbn; lra|]. specialize (IH ltac:(lia)). pose proof (pow_le dx (S p) X). pose proof (pow_le dy (S p) Y).
      change (dx ^ S (S p)) with (dx * dx ^ S p). change (dy ^ S (S p)) with (dy * dy ^ S p). change ((dx + dy) ^ S (S p)) with ((dx + dy) * (dx + dy) ^ S p). generalize dependent ((dx + dy) ^ S p). generalize dependent (dx ^ S p). generalize dependent (dy ^ S p). intros. nra.
  - exact One.
  - unfold vertex_distance, euclid. cbn [fst snd]. fold dx dy. assert (E : dx ^ 2 + dy ^ 2 = (a - x) ^ 2 + (b - y) ^ 2) by (unfold dx, dy; rewrite !pow2_abs; reflexivity). rewrite E. set (s := (a - x) ^ 2 + (b - y) ^ 2) in *.
    assert (S : 0 <= s) by (unfold s; pose proof (pow2_ge_0 (a - x)); pose proof (pow2_ge_0 (b - y)); lra). rewrite <- (root_pow 2 (sqrt s)) by (try lia; apply sqrt_pos). f_equal. symmetry. apply pow2_sqrt, S.
Qed.
Print Assumptions py_vertex_distance.
Theorem py_dist_to_vertices p point polygon : polygon <> [] -> match p with Some p => (1 <= p)%nat | None => True end ->
  (exists m, dist_to_vertices point polygon p np_min = Some m /\ (exists v, In v polygon /\ m = vertex_distance p point v) /\ (forall v, In v polygon -> m <= vertex_distance p point v) /\ (m = 0 <-> In point polygon)) /\
  (dist_to_vertices point polygon p np_sum = 0 <-> forall v, In v polygon -> v = point).
Proof.
  intros N P. assert (Z : forall v, vertex_distance p point v = 0 <-> v = point) by (intros v; apply (py_vertex_distance p point v P)).
  assert (Pos : forall v, 0 <= vertex_distance p point v).
  { intros v. unfold vertex_distance. destruct p; [apply root_nonneg|]. eapply Rle_trans; [apply Rabs_pos|apply Rmax_l]. }
  unfold dist_to_vertices. split.
  - destruct (min_spec (map (vertex_distance p point) polygon)) as (m & E & I & L); [destruct polygon; [contradiction|discriminate]|]. apply in_map_iff in I as (v & V & I). exists m. split; [exact E|]. split; [exists v; split; [exact I|symmetry; exact V]|]. split; [intros w W; apply L, in_map, W|].
    split; [intros M; rewrite <- V in M; apply Z in M; subst v; exact I|]. intros Q. apply Rle_antisym; [|rewrite <- V; apply Pos]. rewrite <- (proj2 (Z point) eq_refl). apply L, in_map, Q.
  - destruct (sum_zero (map (vertex_distance p point) polygon)) as (S & _); [intros x X; apply in_map_iff in X as (v & <- & _); apply Pos|]. rewrite S. split.
    + intros H v V. apply Z, H, in_map, V.
    + intros H x X. apply in_map_iff in X as (v & <- & V). apply Z, H, V.
Qed.
Print Assumptions py_dist_to_vertices.
Lemma pow2_pos x : x <> 0 -> 0 < x ^ 2. Proof. intros N. rewrite <- Rsqr_pow2. apply Rsqr_pos_lt, N. Qed.
(** points of the line through two points *)
Definition on_line (a b q : Point) : Prop := exists s, q = (fst a + s * (fst b - fst a), snd a + s * (snd b - snd a)).
(** points between two points *)
Definition on_edge (a b q : Point) : Prop := exists s, 0 <= s <= 1 /\ q = (fst a + s * (fst b - fst a), snd a + s * (snd b - snd a)).
(** each value is the distance to the line through the edge *)
Theorem py_edge_distance point a b : a <> b -> exists d, edge_distance point a b = Some d /\ (forall q, on_line a b q -> d <= euclid q point) /\ (exists q, on_line a b q /\ d = euclid q point).
Proof.
  intros N. destruct point as [x y], a as [a1 a2], b as [b1 b2]. unfold edge_distance, euclid. cbn [fst snd]. set (n2 := (a2 - b2) ^ 2 + (- (a1 - b1)) ^ 2).
  assert (Pn : 0 < n2). { unfold n2. destruct (Req_dec a1 b1) as [E1|E1]; [destruct (Req_dec a2 b2) as [E2|E2]; [subst; contradiction|]|]; [pose proof (pow2_pos (a2 - b2) ltac:(lra)); pose proof (pow2_ge_0 (- (a1 - b1))); lra|pose proof (pow2_pos (- (a1 - b1)) ltac:(lra)); pose proof (pow2_ge_0 (a2 - b2)); lra]. }
  assert (Ps : 0 < sqrt n2) by (apply sqrt_lt_R0, Pn). assert (Sq : sqrt n2 * sqrt n2 = n2) by (apply sqrt_sqrt; lra). unfold div. destruct (Req_EM_T (sqrt n2) 0); [lra|]. cbn [bind].
  set (c := (a2 - b2) * (a1 - x) + - (a1 - b1) * (a2 - y)). exists (Rabs (c / sqrt n2)). split; [f_equal; f_equal; unfold c; field; lra|].
  assert (D2 : Rabs (c / sqrt n2) = sqrt (c ^ 2 / n2)).
  { rewrite <- sqrt_Rsqr_abs. f_equal. unfold Rsqr. transitivity (c ^ 2 / (sqrt n2 * sqrt n2)); [field; lra|rewrite Sq; reflexivity]. }
  rewrite D2. split.
  - intros q (s & ->). cbn [fst snd]. apply sqrt_le_1_alt. set (u := a1 + s * (b1 - a1) - x). set (v := a2 + s * (b2 - a2) - y).
    assert (C : c = (a2 - b2) * u + - (a1 - b1) * v) by (unfold c, u, v; ring). apply (Rmult_le_reg_r n2); [exact Pn|]. replace (c ^ 2 / n2 * n2) with (c ^ 2) by (field; lra). rewrite C. unfold n2.
    assert (0 <= ((a2 - b2) * v - - (a1 - b1) * u) ^ 2) by apply pow2_ge_0. nra.
  - set (s := ((a1 - b1) * (a1 - x) + (a2 - b2) * (a2 - y)) / n2). exists (a1 + s * (b1 - a1), a2 + s * (b2 - a2)). split; [exists s; reflexivity|]. cbn [fst snd]. f_equal.
    unfold s, c. assert (En : n2 <> 0) by lra. unfold n2 in *. field. exact En.
Qed.
Print Assumptions py_edge_distance.
Lemma edges_spec point : forall polygon previous l, edge_distances point previous polygon = Some l -> length l = length polygon /\ forall i a b, nth_error polygon i = Some a -> nth_error (previous :: polygon) i = Some b -> exists d, nth_error l i = Some d /\ edge_distance point a b = Some d.
Proof.
  induction polygon as [|a polygon IH]; intros previous l E; cbn [edge_distances] in E.
  - injection E as <-. split; [reflexivity|]. intros [|i] a b H; discriminate.
  - destruct (edge_distance point a previous) as [d|] eqn:D; [|discriminate]. cbn [bind] in E. destruct (edge_distances point a polygon) as [l'|] eqn:L; [|discriminate]. cbn [bind] in E. injection E as <-. destruct (IH a l' L) as (Ln & H). split; [cbn; congruence|].
    intros [|i] a' b' Ha Hb; cbn in Ha, Hb; [injection Ha as <-; injection Hb as <-; exists d; split; [reflexivity|exact D]|]. apply (H i a' b' Ha Hb).
Qed.
(** the values are those of the edges from each vertex to the one before, the last one before the first *)
Theorem py_dist_to_edges point polygon : (forall i a b, nth_error polygon i = Some a -> nth_error (last polygon (0, 0) :: polygon) i = Some b -> a <> b) -> polygon <> [] ->
  exists m, dist_to_edges point polygon np_min = Some m /\
    (exists i a b, nth_error polygon i = Some a /\ nth_error (last polygon (0, 0) :: polygon) i = Some b /\ edge_distance point a b = Some m) /\
    (forall i a b, nth_error polygon i = Some a -> nth_error (last polygon (0, 0) :: polygon) i = Some b -> exists d, edge_distance point a b = Some d /\ m <= d).
Proof.
  intros Ne N. assert (Ex : exists l, edge_distances point (last polygon (0, 0)) polygon = Some l).
  { revert Ne. generalize (last polygon (0, 0)). clear N. induction polygon as [|a polygon IH]; intros prev Ne; [eexists; reflexivity|]. cbn [edge_distances].
    destruct (py_edge_distance point a prev (Ne 0%nat a prev eq_refl eq_refl)) as (d & D & _). rewrite D. cbn [bind]. destruct (IH a) as (l & L); [intros i b c Hb Hc; apply (Ne (S i) b c Hb Hc)|]. rewrite L. eexists. reflexivity. }
  destruct Ex as (l & L). destruct (edges_spec point polygon _ l L) as (Ln & H). destruct (min_spec l) as (m & E & I & Le); [destruct l; [destruct polygon; [contradiction|discriminate]|discriminate]|].
  exists m. unfold dist_to_edges. rewrite L. cbn [bind]. split; [exact E|]. split.
  - apply In_nth_error in I as (i & Hi). assert (Lt : (i < length polygon)%nat) by (rewrite <- Ln; apply nth_error_Some; congruence).
    destruct (nth_error polygon i) as [a|] eqn:Ha; [|apply nth_error_None in Ha; lia]. destruct (nth_error (last polygon (0, 0) :: polygon) i) as [b|] eqn:Hb; [|apply nth_error_None in Hb; cbn in Hb; lia].
    destruct (H i a b Ha Hb) as (d & Hd & D). exists i, a, b. split; [exact Ha|]. split; [exact Hb|]. congruence.
  - intros i a b Ha Hb. destruct (H i a b Ha Hb) as (d & Hd & D). exists d. split; [exact D|]. apply Le. apply nth_error_In in Hd. exact Hd.
Qed.
Print Assumptions py_dist_to_edges.
(** ... so beside the square the distance to its edges is zero although all their points are at least two away *)
Theorem py_dist_to_edges_refuted : exists point polygon, dist_to_edges point polygon np_min = Some 0 /\ polygon = [(-1, -1); (1, -1); (1, 1); (-1, 1)] /\
  forall i a b q, nth_error polygon i = Some a -> nth_error (last polygon (0, 0) :: polygon) i = Some b -> on_edge a b q -> 2 <= euclid q point.
Proof.
  exists (3, 1), [(-1, -1); (1, -1); (1, 1); (-1, 1)]. split; [|split; [reflexivity|]].
  - assert (S4 : sqrt 4 = 2) by (replace 4 with (2 * 2) by ring; apply sqrt_square; lra).
    assert (V : forall a b n d, (snd a - snd b) ^ 2 + (- (fst a - fst b)) ^ 2 = 4 -> n = (snd a - snd b) / 2 * (fst a - 3) + - (fst a - fst b) / 2 * (snd a - 1) -> d = Rabs n -> edge_distance (3, 1) a b = Some d).
    { intros a b n d N -> ->. unfold edge_distance. cbn [fst snd]. rewrite N, S4. unfold div. destruct (Req_EM_T 2 0); [lra|]. reflexivity. }
    unfold dist_to_edges. cbn [last edge_distances].
    rewrite (V (-1, -1) (-1, 1) 4 4); [|cbn; ring|cbn; field|rewrite Rabs_right; lra]. rewrite (V (1, -1) (-1, -1) 2 2); [|cbn; ring|cbn; field|rewrite Rabs_right; lra].
    rewrite (V (1, 1) (1, -1) (-2) 2); [|cbn; ring|cbn; field|rewrite Rabs_left; lra]. rewrite (V (-1, 1) (1, 1) 0 0); [|cbn; ring|cbn; field|rewrite Rabs_R0; reflexivity].
    cbn [bind np_min]. f_equal. rewrite (Rmin_right 2 0) by lra. rewrite (Rmin_right 2 0) by lra. apply Rmin_right. lra.
  - intros i a b q Ha Hb (s & S & ->). assert (X : fst a <= 1 /\ fst b <= 1) by (destruct i as [|[|[|[|i]]]]; cbn in Ha, Hb; try (destruct i; discriminate); injection Ha as <-; injection Hb as <-; cbn; lra).
    unfold euclid. cbn [fst snd]. rewrite <- (sqrt_square 2) by lra. apply sqrt_le_1_alt. set (u := fst a + s * (fst b - fst a)). assert (u <= 1) by (unfold u; nra). pose proof (pow2_ge_0 (snd a + s * (snd b - snd a) - 1)). nra.
Qed.
Print Assumptions py_dist_to_edges_refuted.
Example py_distance_example : vertex_distance (Some 2%nat) (0, 0) (3, 4) = 5 /\ vertex_distance (Some 1%nat) (0, 0) (3, 4) = 7 /\ vertex_distance None (0, 0) (3, 4) = 4.
Proof.
  destruct (py_vertex_distance (Some 2%nat) (0, 0) (3, 4)) as (_ & _ & A & B); [lia|]. rewrite A, B. unfold euclid, vertex_distance. cbn [fst snd]. split; [|split].
  - replace ((3 - 0) ^ 2 + (4 - 0) ^ 2) with (5 * 5) by ring. apply sqrt_square. lra.
  - rewrite !Rabs_right by lra. ring.
  - rewrite !Rabs_right by lra. rewrite Rmax_right by lra. ring.
Qed.
