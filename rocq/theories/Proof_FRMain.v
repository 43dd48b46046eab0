From Coq Require Import Reals List Arith Lia Lra Bool String Permutation.
From Verif Require Import Vec3 Arrays RSum Poly Model_Geometry Model_Basis Model_Dofs Model_DG Model_Schemes Spec_DG Spec_Schemes Spec_FR
  Proof_Dofs Proof_DG Proof_Schemes Proof_DGLobatto Proof_FR Proof_Lagrange Proof_Vincent Proof_FRLine.
Import ListNotations.
Open Scope R_scope.

(** ** Sums *)
Lemma rsum_blocks n m f : rsum (n * m) f = rsum n (fun i => rsum m (fun j => f (i * m + j)%nat)).
Proof.
  induction n as [|n IH]; [reflexivity|]. cbn [rsum]. rewrite <- IH. rewrite Nat.mul_succ_l. apply rsum_app.
Qed.
Lemma rsum_cube Q f : rsum (Q * Q * Q) f = rsum Q (fun i => rsum Q (fun j => rsum Q (fun k => f ((i * Q + j) * Q + k)%nat))).
Proof. rewrite rsum_blocks. rewrite (rsum_blocks Q Q). reflexivity. Qed.
Lemma lsum_perm {A} (l l' : list A) f : Permutation l l' -> lsum l f = lsum l' f.
Proof. induction 1; cbn; try congruence; lra. Qed.
Lemma lsum_filter {A} (g : A -> bool) l f : lsum (filter g l) f = lsum l (fun x => if g x then f x else 0).
Proof. induction l as [|x l IH]; cbn; [reflexivity|]. destruct (g x); cbn; rewrite IH; ring. Qed.
Lemma lsum_prod {A B} (l : list A) (l' : list B) f : lsum (list_prod l l') f = lsum l (fun x => lsum l' (fun y => f (x, y))).
Proof. induction l as [|a l IH]; cbn; [reflexivity|]. rewrite lsum_app, lsum_map, IH. reflexivity. Qed.
Lemma positions_sum Q h : lsum (positions Q) h
  = rsum Q (fun a => rsum Q (fun b => h (0, (a, b))%nat)) + rsum Q (fun a => rsum Q (fun b => h (1, (a, b))%nat))
  + rsum Q (fun a => rsum Q (fun b => h (2, (a, b))%nat)) + rsum Q (fun a => rsum Q (fun b => h (3, (a, b))%nat))
  + rsum Q (fun a => rsum Q (fun b => h (4, (a, b))%nat)) + rsum Q (fun a => rsum Q (fun b => h (5, (a, b))%nat)).
Proof.
  transitivity (lsum (seq 0 6) (fun i => lsum (list_prod (seq 0 Q) (seq 0 Q)) (fun y => h (i, y)))); [apply (lsum_prod (seq 0 6))|]. cbn [seq lsum].
  assert (H : forall i, lsum (list_prod (seq 0 Q) (seq 0 Q)) (fun y => h (i, y)) = rsum Q (fun a => rsum Q (fun b => h (i, (a, b))))).
  { intros i. rewrite lsum_prod, lsum_seq. apply rsum_ext. intros. apply lsum_seq. }
  rewrite !H. ring.
Qed.
Lemma of_cell_positions Q place s p c h : covered Q place s p -> In c (n_local_cells p) ->
  of_cell c (contacts (place_node Q place) s p) (fun t => h (place c (k_face t) (k_point t))) = lsum (positions Q) h.
Proof.
  intros C I. rewrite <- (lsum_perm _ _ h (C c I)), lsum_map, lsum_filter. reflexivity.
Qed.
Lemma of_cell_add c l g h : of_cell c l (fun t => g t + h t) = of_cell c l g + of_cell c l h.
Proof. unfold of_cell. rewrite <- lsum_add. apply lsum_ext. intros. unfold if_id. destruct (_ =? _)%nat; ring. Qed.
Lemma of_cell_sub c l g h : of_cell c l (fun t => g t - h t) = of_cell c l g - of_cell c l h.
Proof. unfold of_cell. rewrite <- lsum_sub. apply lsum_ext. intros. unfold if_id. destruct (_ =? _)%nat; ring. Qed.
Lemma of_cell_mul_l c l a g : of_cell c l (fun t => a * g t) = a * of_cell c l g.
Proof.
  unfold of_cell. rewrite (Rmult_comm a), <- lsum_mul_r. apply lsum_ext. intros. unfold if_id. destruct (_ =? _)%nat; ring.
Qed.

Definition axis_flux (v : vec) (axis : nat) : R := match axis with 0%nat => vx v | 1%nat => vy v | _ => vz v end.
Lemma rmul_column v m axis : axis_flux (rmul v m) axis = dot v (nth_column m axis).
Proof. destruct axis as [|[|axis]]; destruct m as [[a b c] [d e f] [g h i]], v as [x y z]; cbn; unfold dot; cbn; ring. Qed.

Section Main.
  Variables K : nat.
  Variables xs ws : list R.
  Let Q := List.length xs.
  Let N := (Q * Q * Q)%nat.
  Notation X := (fun i => nth i xs 0).
  Notation W := (fun i => nth i ws 0).
  Variable D : nat -> nat -> R.
  Hypothesis E : with_ends xs ws.
  Hypothesis LD : lagrange_derivatives xs D.
  Variable place : ncell -> nface -> nat -> position.
  Variable FluxMatrix : value -> nat -> vec.
  Variable p : npart.
  Variable s : fem.
  Hypothesis P : npart_ok N p.
  Hypothesis G : geometry_ok Q X place D p.
  Notation CT := (contacts (place_node Q place) s p).
  Notation nd i j k := ((i * Q + j) * Q + k)%nat.
  Notation div := (divergence_at Q FluxMatrix).
  Notation Fl := (F_local FluxMatrix).

  Lemma nd_lt i j k : (i < Q)%nat -> (j < Q)%nat -> (k < Q)%nat -> (nd i j k < N)%nat.
  Proof. clear. intros. unfold N. assert (i * Q + j <= Q * Q - 1)%nat by nia. nia. Qed.
  Lemma nd_inj i j k a b e : (j < Q)%nat -> (k < Q)%nat -> (b < Q)%nat -> (e < Q)%nat -> nd i j k = nd a b e -> i = a /\ j = b /\ k = e.
  Proof.
    clear. intros J K' B E' H. destruct (Nat.div_mod_unique Q (i * Q + j) (a * Q + b) k e K' E' ltac:(lia)) as [H1 H2].
    destruct (Nat.div_mod_unique Q i a j b J B ltac:(lia)) as [H3 H4]. auto.
  Qed.
  Lemma nd_eqb i j k a b e : (j < Q)%nat -> (k < Q)%nat -> (b < Q)%nat -> (e < Q)%nat ->
    (nd i j k =? nd a b e)%nat = ((i =? a)%nat && (j =? b)%nat && (k =? e)%nat)%bool.
  Proof.
    intros A1 A2 A3 A4. destruct (Nat.eqb_spec (nd i j k) (nd a b e)) as [H|H].
    - destruct (nd_inj i j k a b e A1 A2 A3 A4 H) as (-> & -> & ->). rewrite !Nat.eqb_refl. reflexivity.
    - destruct (Nat.eqb_spec i a) as [->|], (Nat.eqb_spec j b) as [->|], (Nat.eqb_spec k e) as [->|]; auto; congruence.
  Qed.
  Lemma nd_all n : (n < N)%nat -> exists i j k, (i < Q)%nat /\ (j < Q)%nat /\ (k < Q)%nat /\ n = nd i j k.
  Proof.
    clear. intros L. assert (0 < Q)%nat by (unfold N in L; destruct Q; lia).
    exists (n / Q / Q)%nat, (n / Q mod Q)%nat, (n mod Q)%nat.
    pose proof (Nat.div_mod n Q ltac:(lia)) as H1. pose proof (Nat.div_mod (n / Q) Q ltac:(lia)) as H2.
    split; [|split; [apply Nat.mod_upper_bound; lia|split; [apply Nat.mod_upper_bound; lia|nia]]].
    apply Nat.div_lt_upper_bound; [lia|]. apply Nat.div_lt_upper_bound; [lia|]. unfold N in L. nia.
  Qed.

  (** ** The divergence of a tensor product *)
  Lemma tensor_divergence c i j k n : tensor_cell Q X D c -> (i < Q)%nat -> (j < Q)%nat -> (k < Q)%nat ->
    div c (nd i j k) n
    = rsum Q (fun a => D i a * vx (Fl c (nd a j k) n)) + rsum Q (fun b => D j b * vy (Fl c (nd i b k) n))
      + rsum Q (fun e => D k e * vz (Fl c (nd i j e) n)).
  Proof.
    intros [_ T] I J L. unfold divergence_at. rewrite rsum_cube.
    rewrite (rsum_ext Q _ (fun a => rsum Q (fun b => rsum Q (fun e =>
       D i a * delta j b * delta k e * vx (Fl c (nd a b e) n) + delta i a * D j b * delta k e * vy (Fl c (nd a b e) n)
       + delta i a * delta j b * D k e * vz (Fl c (nd a b e) n))))).
    2:{ intros a A. apply rsum_ext. intros b B. apply rsum_ext. intros e E'. rewrite T by assumption.
        destruct (Fl c (nd a b e) n) as [x y z]. unfold dot. cbn [vx vy vz]. ring. }
    assert (S1 : forall m f, (m < Q)%nat -> rsum Q (fun e => delta m e * f e) = f m).
    { intros m f L'. rewrite (rsum_single Q m); [unfold delta; rewrite Nat.eqb_refl; ring|exact L'|].
      intros e _ N'. unfold delta. destruct (Nat.eqb_spec m e); [congruence|ring]. }
    rewrite (rsum_ext Q _ (fun a => D i a * vx (Fl c (nd a j k) n) + delta i a * (rsum Q (fun b => D j b * vy (Fl c (nd a b k) n))
       + rsum Q (fun e => D k e * vz (Fl c (nd a j e) n))))).
    - rewrite rsum_add. rewrite S1 by exact I. ring.
    - intros a A. rewrite (rsum_ext Q _ (fun b => delta j b * (D i a * vx (Fl c (nd a b k) n)
         + delta i a * rsum Q (fun e => D k e * vz (Fl c (nd a b e) n))) + delta i a * (D j b * vy (Fl c (nd a b k) n)))).
      + rewrite rsum_add, S1, rsum_mul_l by exact J. ring.
      + intros b B. rewrite !rsum_add.
        rewrite (rsum_ext Q (fun e => D i a * delta j b * delta k e * _) (fun e => delta k e * (D i a * delta j b * vx (Fl c (nd a b e) n)))) by (intros; ring).
        rewrite (rsum_ext Q (fun e => delta i a * D j b * delta k e * _) (fun e => delta k e * (delta i a * D j b * vy (Fl c (nd a b e) n)))) by (intros; ring).
        rewrite (rsum_ext Q (fun e => delta i a * delta j b * D k e * _) (fun e => delta i a * delta j b * (D k e * vz (Fl c (nd a b e) n)))) by (intros; ring).
        rewrite !S1, rsum_mul_l by exact L. ring.
  Qed.

  (** ** The flux of the cell through its sides *)
  Definition side_flux (c : ncell) (n : nat) (x : position) : R := side (fst x) * dot (FluxMatrix (nc_value c (node_at Q x)) n) (area Q c x).
  Lemma side_flux_axis c n x : side_flux c n x = side (fst x) * axis_flux (Fl c (node_at Q x) n) (across (fst x)).
  Proof. unfold side_flux, F_local, area. rewrite rmul_column. reflexivity. Qed.

  Definition Wab (x : position) : R := let '(i, (a, b)) := x in W a * W b.
  Notation last := (Q - 1)%nat.

  (** the integral of the divergence is the flux through the sides *)
  Lemma divergence_theorem c n : integrates xs ws Q -> tensor_cell Q X D c ->
    rsum Q (fun i => rsum Q (fun j => rsum Q (fun k => W i * W j * W k * div c (nd i j k) n)))
    = lsum (positions Q) (fun x => Wab x * side_flux c n x).
  Proof.
    intros H T. pose proof (Q_ge_2 xs ws E) as Q2. fold Q in Q2.
    assert (WD : forall f, rsum Q (fun i => W i * rsum Q (fun a => D i a * f a)) = f last - f 0%nat).
    { intros f. rewrite (rsum_ext Q _ (fun i => rsum Q (fun a => W i * D i a * f a))) by (intros; rewrite <- rsum_mul_l; apply rsum_ext; intros; ring).
      rewrite rsum_swap. rewrite (rsum_ext Q _ (fun a => (if (a =? last)%nat then f a else 0) - (if (a =? 0)%nat then f a else 0))).
      - rewrite rsum_sub. rewrite (rsum_single Q last); [|lia|intros a _ N'; destruct (Nat.eqb_spec a last); [congruence|reflexivity]].
        rewrite (rsum_single Q 0); [|lia|intros a _ N'; destruct (Nat.eqb_spec a 0); [congruence|reflexivity]].
        rewrite !Nat.eqb_refl. reflexivity.
      - intros a A. rewrite rsum_mul_r. unfold Q. rewrite (W_D xs ws D E LD a H A). fold Q. destruct (a =? last)%nat, (a =? 0)%nat; ring. }
    rewrite positions_sum.
    rewrite (rsum_ext Q _ (fun i => rsum Q (fun j => rsum Q (fun k =>
       W j * W k * (W i * rsum Q (fun a => D i a * vx (Fl c (nd a j k) n)))
       + W i * W k * (W j * rsum Q (fun b => D j b * vy (Fl c (nd i b k) n)))
       + W i * W j * (W k * rsum Q (fun e => D k e * vz (Fl c (nd i j e) n))))))).
    2:{ intros i I. apply rsum_ext. intros j J. apply rsum_ext. intros k L. rewrite tensor_divergence by assumption. ring. }
    rewrite (rsum_ext Q _ (fun i => rsum Q (fun j => rsum Q (fun k => W j * W k * (W i * rsum Q (fun a => D i a * vx (Fl c (nd a j k) n)))))
      + rsum Q (fun k => W i * W k * (vy (Fl c (nd i last k) n) - vy (Fl c (nd i 0 k) n)))
      + rsum Q (fun j => W i * W j * (vz (Fl c (nd i j last) n) - vz (Fl c (nd i j 0) n))))).
    2:{ intros i I. rewrite (rsum_ext Q _ (fun j => rsum Q (fun k => W j * W k * (W i * rsum Q (fun a => D i a * vx (Fl c (nd a j k) n))))
           + rsum Q (fun k => W i * W k * (W j * rsum Q (fun b => D j b * vy (Fl c (nd i b k) n))))
           + W i * W j * (vz (Fl c (nd i j last) n) - vz (Fl c (nd i j 0) n)))).
        - rewrite !rsum_add. f_equal. f_equal. rewrite rsum_swap. apply rsum_ext. intros k L. rewrite rsum_mul_l, WD. reflexivity.
        - intros j J. rewrite !rsum_add. f_equal. rewrite rsum_mul_l, WD. reflexivity. }
    rewrite !rsum_add.
    assert (SX : rsum Q (fun i => rsum Q (fun j => rsum Q (fun k => W j * W k * (W i * rsum Q (fun a => D i a * vx (Fl c (nd a j k) n))))))
       = rsum Q (fun j => rsum Q (fun k => W j * W k * (vx (Fl c (nd last j k) n) - vx (Fl c (nd 0 j k) n))))).
    { rewrite rsum_swap. apply rsum_ext. intros j J. rewrite rsum_swap. apply rsum_ext. intros k L. rewrite rsum_mul_l, WD. reflexivity. }
    rewrite SX.
    assert (M : forall f g : nat -> nat -> R, rsum Q (fun a => rsum Q (fun b => f a b)) + rsum Q (fun a => rsum Q (fun b => g a b))
       = rsum Q (fun a => rsum Q (fun b => f a b + g a b))).
    { intros. rewrite <- rsum_add. apply rsum_ext. intros. rewrite <- rsum_add. reflexivity. }
    match goal with |- _ = ?s0 + ?s1 + ?s2 + ?s3 + ?s4 + ?s5 =>
      transitivity ((s4 + s2) + (s1 + s3) + (s0 + s5)); [|ring] end.
    f_equal; [f_equal|]; rewrite M; apply rsum_ext; intros a A; apply rsum_ext; intros b B; rewrite !side_flux_axis;
      cbn [Wab fst side across axis_flux node_at node_on_line last_of]; ring.
  Qed.

  (** ** The balance of a cell under FR *)
  Variable c_next : R.
  Notation gL := (LocalToLeftDerivative (Q - 1) c_next).
  Notation gR := (LocalToRightDerivative (Q - 1) c_next).
  Lemma W_correction i : integrates xs ws (Q + 1) -> rsum Q (fun m => W m * correction_prime gL gR i (X m)) = side i.
  Proof.
    intros H. unfold correction_prime, side.
    destruct i as [|[|[|[|[|i]]]]]; first [exact (W_right xs ws E c_next H)|exact (W_left xs ws E c_next H)].
  Qed.
  Lemma sum_on_line i a b f (H : forall m, R) : (a < Q)%nat -> (b < Q)%nat ->
    rsum Q (fun x => rsum Q (fun y => rsum Q (fun z =>
      f (nd x y z) * rsum Q (fun m => if (node_on_line Q i a b m =? nd x y z)%nat then H m else 0))))
    = rsum Q (fun m => f (node_on_line Q i a b m) * H m).
  Proof.
    intros A B. pose proof (Q_ge_2 xs ws E) as Q2. fold Q in Q2.
    rewrite <- (rsum_cube Q (fun n => f n * rsum Q (fun m => if (node_on_line Q i a b m =? n)%nat then H m else 0))).
    rewrite (rsum_ext (Q * Q * Q) _ (fun n => rsum Q (fun m => if (node_on_line Q i a b m =? n)%nat then f n * H m else 0))).
    - rewrite rsum_swap. apply rsum_ext. intros m M.
      rewrite (rsum_pick (Q * Q * Q) (node_on_line Q i a b m) (fun n => f n * H m)); [reflexivity|].
      apply node_lt; assumption.
    - intros n _. rewrite <- rsum_mul_l. apply rsum_ext. intros m _. destruct (_ =? n)%nat; ring.
  Qed.
  Definition W3 (n : nat) : R := let '(i, j, k) := Hexa_index_inv Q Q n in W i * W j * W k.
  Lemma W3_nd i j k : (i < Q)%nat -> (j < Q)%nat -> (k < Q)%nat -> W3 (nd i j k) = W i * W j * W k.
  Proof.
    intros I J L. unfold W3, Hexa_index_inv. cbv zeta.
    assert (H : forall x y, (y < Q)%nat -> ((x * Q + y) / Q = x /\ (x * Q + y) mod Q = y)%nat).
    { intros x y Y. rewrite (Nat.add_comm (x * Q)). split.
      - rewrite Nat.div_add, Nat.div_small by lia. reflexivity.
      - rewrite Nat.mod_add, Nat.mod_small by lia. reflexivity. }
    destruct (H (i * Q + j)%nat k L) as [-> ->]. destruct (H i j J) as [-> ->].
    reflexivity.
  Qed.
  Lemma W3_line i a b m : (i < 6)%nat -> (a < Q)%nat -> (b < Q)%nat -> (m < Q)%nat -> W3 (node_on_line Q i a b m) = W a * W b * W m.
  Proof.
    intros I A B M. unfold node_on_line. destruct i as [|[|[|[|[|[|i]]]]]]; [| | | | | |lia]; rewrite W3_nd by assumption; ring.
  Qed.
  Lemma sum_W3 f : rsum Q (fun i => rsum Q (fun j => rsum Q (fun k => W i * W j * W k * f (nd i j k)))) = rsum N (fun n => W3 n * f n).
  Proof.
    unfold N. rewrite rsum_cube. apply rsum_ext. intros i I. apply rsum_ext. intros j J. apply rsum_ext. intros k L.
    rewrite W3_nd by assumption. reflexivity.
  Qed.

  Lemma contact_cell t c : In t CT -> In c (n_local_cells p) -> nc_id (k_cell t) = nc_id c -> k_cell t = c.
  Proof.
    intros It I X. destruct (contact_in N _ p s P t It) as (_ & _ & C). apply (same_ncell (n_local_cells p)); auto. apply P.
  Qed.
  Lemma contact_place t : In t CT -> let '(i, (a, b)) := place (k_cell t) (k_face t) (k_point t) in (i < 6)%nat /\ (a < Q)%nat /\ (b < Q)%nat.
  Proof.
    intros It. destruct (contact_in N _ p s P t It) as (T & L & _).
    destruct (on_cell Q X place D p G _ _ _ T L) as (_ & i & a & b & n & -> & A1 & A2 & A3 & _). auto.
  Qed.

  Theorem FR_cell_balance c n : integrates xs ws (Q + 1) -> covered Q place s p -> In c (n_local_cells p) ->
    rsum N (fun j => W3 j * FR_form Q X place FluxMatrix gL gR s p c j n)
    = - of_cell c CT (fun t => let x := place c (k_face t) (k_point t) in Wab x * vnorm (area Q c x) * outward t n).
  Proof.
    intros H C I. destruct G as (_ & GT & _). pose proof (GT c I) as T. pose proof (Q_ge_2 xs ws E) as Q2. fold Q in Q2.
    assert (HQ : integrates xs ws Q) by (intros q L; apply H; lia).
    unfold FR_form.
    rewrite (rsum_ext N _ (fun j => - (W3 j * div c j n) - of_cell c CT (fun t =>
        let '(i, (a, b)) := place c (k_face t) (k_point t) in
        W3 j * rsum Q (fun m => if (node_on_line Q i a b m =? j)%nat then jump Q place FluxMatrix t n * correction_prime gL gR i (X m) else 0)))).
    2:{ intros j J. replace (of_cell c CT (fun t => let '(i, (a, b)) := place c (k_face t) (k_point t) in
          W3 j * rsum Q (fun m => if (node_on_line Q i a b m =? j)%nat then jump Q place FluxMatrix t n * correction_prime gL gR i (X m) else 0)))
          with (W3 j * of_cell c CT (fun t => let '(i, (a, b)) := place (k_cell t) (k_face t) (k_point t) in
          rsum Q (fun m => if (node_on_line Q i a b m =? j)%nat then jump Q place FluxMatrix t n * correction_prime gL gR i (X m) else 0)));
          [ring|].
        rewrite <- of_cell_mul_l. apply of_cell_ext. intros t It Id. rewrite (contact_cell t c It I Id).
        destruct (place c (k_face t) (k_point t)) as [i [a b]]. reflexivity. }
    rewrite rsum_sub, rsum_opp, <- sum_W3, (divergence_theorem c n HQ T), of_cell_rsum.
    rewrite (of_cell_ext c CT _ (fun t => (let x := place c (k_face t) (k_point t) in Wab x * vnorm (area Q c x) * outward t n)
       - (fun x => Wab x * side_flux c n x) (place c (k_face t) (k_point t)))).
    - rewrite of_cell_sub, (of_cell_positions Q place s p c (fun x => Wab x * side_flux c n x) C I). ring.
    - intros t It Id. pose proof (contact_place t It) as CP. rewrite (contact_cell t c It I Id) in CP.
      unfold jump. rewrite (contact_cell t c It I Id).
      destruct (place c (k_face t) (k_point t)) as [i [a b]] eqn:EP. destruct CP as (A1 & A2 & A3).
      unfold N. rewrite rsum_cube.
      set (JJ := side (fst (i, (a, b))) * vnorm (area Q c (i, (a, b))) * outward t n - dot (FluxMatrix (nc_value c (node_at Q (i, (a, b)))) n) (area Q c (i, (a, b)))).
      rewrite (sum_on_line i a b W3 (fun m => JJ * correction_prime gL gR i (X m)) A2 A3).
      rewrite (rsum_ext Q _ (fun m => W a * W b * JJ * (W m * correction_prime gL gR i (X m)))) by (intros m M; rewrite W3_line by assumption; ring).
      rewrite rsum_mul_l, W_correction by exact H. unfold JJ, side_flux. cbn [Wab fst].
      replace (W a * W b * (side i * vnorm (area Q c (i, (a, b))) * outward t n - dot (FluxMatrix (nc_value c (node_at Q (i, (a, b)))) n) (area Q c (i, (a, b)))) * side i)
        with (W a * W b * ((side i * side i) * vnorm (area Q c (i, (a, b))) * outward t n - side i * dot (FluxMatrix (nc_value c (node_at Q (i, (a, b)))) n) (area Q c (i, (a, b))))) by ring.
      rewrite side_sq. ring.
  Qed.

  Hypothesis O : outlet_ok Q place FluxMatrix s p.
  Lemma W3_node c n : cell_weights Q W p -> In c (n_local_cells p) -> (n < N)%nat -> nc_local_weight c n = W3 n.
  Proof.
    intros CW I L. destruct (nd_all n L) as (i & j & k & A1 & A2 & A3 & ->). rewrite CW, W3_nd by assumption. reflexivity.
  Qed.
  Theorem FR_conservation : integrates xs ws (Q + 1) -> covered Q place s p -> face_weights Q place W p -> cell_weights Q W p ->
    exists r, FR_GetResidualColumn K Q X (Q - 1) c_next FluxMatrix s p = Some r
      /\ forall k, (k < K)%nat ->
           lsum (n_local_cells p) (n_integral N true K r k)
           = - lsum (boundary_contacts (place_node Q place) s p) (through k) - lsum (ghost_contacts (place_node Q place) p) (through k).
  Proof.
    intros H C FW CW. pose proof (Q_ge_2 xs ws E) as Q2.
    destruct (FR_main K Q X place D FluxMatrix (Q - 1) c_next Q2 (X_first xs ws E) (X_last xs ws E) p s P G O) as (r & ER & _ & V).
    exists r. split; [exact ER|]. intros k L.
    rewrite (lsum_ext (n_local_cells p) _ (fun c => - of_cell c CT (fun t => nf_weight (k_face t) (k_point t) * outward t k))).
    - rewrite lsum_opp.
      rewrite (inner_cancels (place_node Q place) N p s (fun t => nf_weight (k_face t) (k_point t)) k P); [unfold through; ring|reflexivity].
    - intros c I. unfold n_integral.
      rewrite (rsum_ext N _ (fun j => W3 j * FR_form Q X place FluxMatrix gL gR s p c j k)).
      2:{ intros j J. unfold N in *. rewrite V by assumption. cbn [GetWeight]. rewrite W3_node by assumption. reflexivity. }
      rewrite FR_cell_balance by assumption. f_equal. apply of_cell_ext. intros t It Id.
      destruct (contact_in N _ p s P t It) as (T & Lq & _). pose proof (FW _ _ _ T Lq) as F. rewrite (contact_cell t c It I Id) in F.
      cbv zeta. destruct (place c (k_face t) (k_point t)) as [i [a b]]. rewrite F. reflexivity.
  Qed.

  (** ** FR::Lobatto is FR::General with the lumping of Huynh *)
  Notation lump := (HuynhLumpingLobatto (Q - 1)).
  Notation hR := (LocalToRightDerivative (Q - 1) lump).
  Notation hL := (LocalToLeftDerivative (Q - 1) lump).
  Hypothesis A : at_extrema xs.
  Lemma FRL_is_FR c j n : FR_form Q X place FluxMatrix hL hR s p c j n = FRL_form Q place FluxMatrix hR s p c j n.
  Proof.
    pose proof (Q_ge_2 xs ws E) as Q2. fold Q in Q2.
    assert (XF : nth 0 xs 0 = -1) by apply (X_first xs ws E). assert (XL : nth (Q - 1) xs 0 = 1) by apply (X_last xs ws E).
    assert (LR : hL (-1) = - hR 1) by apply (left_is_right xs).
    unfold FR_form, FRL_form. f_equal. apply of_cell_ext. intros t It _.
    destruct (place (k_cell t) (k_face t) (k_point t)) as [i [a b]]. cbn [fst].
    rewrite (rsum_single Q (last_of Q i)).
    - cbn [node_at]. destruct (_ =? j)%nat; [|reflexivity]. f_equal.
      unfold correction_prime, side, last_of.
      destruct i as [|[|[|[|[|i]]]]]; rewrite ?XF, ?XL, ?LR; ring.
    - unfold last_of. destruct i as [|[|[|[|[|i]]]]]; lia.
    - intros m M NE. destruct (_ =? j)%nat; [|reflexivity].
      unfold correction_prime, last_of in *.
      destruct i as [|[|[|[|[|i]]]]]; first [unfold Q; rewrite (left_zero xs ws E A m) by (fold Q; lia); ring
        | unfold Q; rewrite (right_zero xs ws E A m) by (fold Q; lia); ring].
  Qed.

  (** ** FR::Lobatto is DG::Lobatto *)
  Definition J3 (a b : nat) : R := (if (a =? b)%nat then 1 else 0).
  Lemma positions_at c n i j k : (i < Q)%nat -> (j < Q)%nat -> (k < Q)%nat ->
    lsum (positions Q) (fun x => if (node_at Q x =? nd i j k)%nat then Wab x * side_flux c n x else 0)
    = W j * W k * (J3 i last - J3 i 0) * vx (Fl c (nd i j k) n) + W i * W k * (J3 j last - J3 j 0) * vy (Fl c (nd i j k) n)
      + W i * W j * (J3 k last - J3 k 0) * vz (Fl c (nd i j k) n).
  Proof.
    intros I J L. pose proof (Q_ge_2 xs ws E) as Q2. fold Q in Q2. rewrite positions_sum.
    assert (pick2 : forall (a0 b0 : nat) (b : bool) f, (a0 < Q)%nat -> (b0 < Q)%nat ->
      (forall a e, (a < Q)%nat -> (e < Q)%nat -> f a e = if ((a =? a0)%nat && (e =? b0)%nat && b)%bool then f a e else 0) ->
      rsum Q (fun a => rsum Q (fun e => f a e)) = if b then f a0 b0 else 0).
    { intros a0 b0 b f A0 B0 HF. rewrite (rsum_single Q a0); [rewrite (rsum_single Q b0)| |].
      - rewrite HF, !Nat.eqb_refl by assumption. destruct b; reflexivity.
      - exact B0.
      - intros e Le Ne. rewrite HF by assumption. destruct (Nat.eqb_spec e b0); [congruence|]. rewrite andb_false_r. reflexivity.
      - exact A0.
      - intros a La Na. apply rsum_zero. intros e Le. rewrite HF by assumption. destruct (Nat.eqb_spec a a0); [congruence|]. reflexivity. }
    rewrite (pick2 i j (k =? 0)%nat), (pick2 i k (j =? 0)%nat), (pick2 j k (i =? last)%nat), (pick2 i k (j =? last)%nat),
      (pick2 j k (i =? 0)%nat), (pick2 i j (k =? last)%nat); try assumption;
      try (intros a e La Le; cbn [node_at node_on_line last_of]; rewrite nd_eqb by (assumption || lia);
           repeat match goal with |- context [(?x =? ?y)%nat] => destruct (Nat.eqb_spec x y) end; cbn [andb]; solve [reflexivity|exfalso; lia]).
    rewrite !side_flux_axis. cbn [node_at node_on_line last_of Wab fst side across axis_flux].
    assert (H : forall a m (f : nat -> R), (if (a =? m)%nat then f m else 0) = J3 a m * f a).
    { intros a m f. unfold J3. destruct (Nat.eqb_spec a m) as [->|]; ring. }
    pose proof (H k 0%nat (fun z => if (nd i j z =? nd i j k)%nat then W i * W j * (-1 * vz (Fl c (nd i j z) n)) else 0)) as T0. cbv beta in T0. rewrite T0.
    pose proof (H j 0%nat (fun z => if (nd i z k =? nd i j k)%nat then W i * W k * (-1 * vy (Fl c (nd i z k) n)) else 0)) as T1. cbv beta in T1. rewrite T1.
    pose proof (H i last (fun z => if (nd z j k =? nd i j k)%nat then W j * W k * (1 * vx (Fl c (nd z j k) n)) else 0)) as T2. cbv beta in T2. rewrite T2.
    pose proof (H j last (fun z => if (nd i z k =? nd i j k)%nat then W i * W k * (1 * vy (Fl c (nd i z k) n)) else 0)) as T3. cbv beta in T3. rewrite T3.
    pose proof (H i 0%nat (fun z => if (nd z j k =? nd i j k)%nat then W j * W k * (-1 * vx (Fl c (nd z j k) n)) else 0)) as T4. cbv beta in T4. rewrite T4.
    pose proof (H k last (fun z => if (nd i j z =? nd i j k)%nat then W i * W j * (1 * vz (Fl c (nd i j z) n)) else 0)) as T5. cbv beta in T5. rewrite T5.
    rewrite !Nat.eqb_refl. ring.
  Qed.
  Lemma weak_strong c i j k n : integrates xs ws (2 * Q - 1) -> tensor_cell Q X D c -> (i < Q)%nat -> (j < Q)%nat -> (k < Q)%nat ->
    rsum N (fun q => W3 q * dot (Fl c q n) (nc_gradients c q (nd i j k)))
    = - (W i * W j * W k * div c (nd i j k) n)
      + lsum (positions Q) (fun x => if (node_at Q x =? nd i j k)%nat then Wab x * side_flux c n x else 0).
  Proof.
    intros H T I J L. rewrite positions_at by assumption. rewrite tensor_divergence by assumption. destruct T as [_ T].
    unfold N. rewrite rsum_cube.
    rewrite (rsum_ext Q _ (fun a => rsum Q (fun b => rsum Q (fun e =>
       delta b j * delta e k * (W a * W b * W e * D a i * vx (Fl c (nd a b e) n))
       + delta a i * delta e k * (W a * W b * W e * D b j * vy (Fl c (nd a b e) n))
       + delta a i * delta b j * (W a * W b * W e * D e k * vz (Fl c (nd a b e) n)))))).
    2:{ intros a A'. apply rsum_ext. intros b B'. apply rsum_ext. intros e E'. rewrite W3_nd, T by assumption.
        destruct (Fl c (nd a b e) n) as [x y z]. unfold dot. cbn [vx vy vz]. ring. }
    assert (S1 : forall m f, (m < Q)%nat -> rsum Q (fun e => delta e m * f e) = f m).
    { intros m f L'. rewrite (rsum_single Q m); [unfold delta; rewrite Nat.eqb_refl; ring|exact L'|].
      intros e _ N'. unfold delta. destruct (Nat.eqb_spec e m); [congruence|ring]. }
    assert (BP : forall i f, (i < Q)%nat -> rsum Q (fun a => W a * D a i * f a) = - (W i * rsum Q (fun a => D i a * f a)) + (J3 i last - J3 i 0) * f i).
    { intros i0 f I0. rewrite (rsum_ext Q _ (fun a => - (W i0) * (D i0 a * f a) + delta a i0 * ((J3 i0 last - J3 i0 0) * f a))).
      - rewrite rsum_add, rsum_mul_l, S1 by exact I0. ring.
      - intros a A'. cbv beta. unfold Q in A', I0. rewrite (by_parts xs ws D E LD a i0 H A' I0). unfold J3, delta, Q. destruct (a =? i0)%nat; ring. }
    rewrite (rsum_ext Q _ (fun a => (W j * W k) * (W a * D a i * vx (Fl c (nd a j k) n))
       + delta a i * (rsum Q (fun b => W a * W k * (W b * D b j * vy (Fl c (nd a b k) n)))
                      + rsum Q (fun e => W a * W j * (W e * D e k * vz (Fl c (nd a j e) n)))))).
    - rewrite rsum_add, S1, rsum_mul_l, !rsum_mul_l, !BP by assumption. ring.
    - intros a A'. rewrite (rsum_ext Q _ (fun b => delta b j * (W a * W b * W k * D a i * vx (Fl c (nd a b k) n)
           + delta a i * rsum Q (fun e => W a * W b * W e * D e k * vz (Fl c (nd a b e) n)))
         + delta a i * (W a * W k * (W b * D b j * vy (Fl c (nd a b k) n))))).
      + rewrite rsum_add, S1, rsum_mul_l by exact J.
        rewrite (rsum_ext Q (fun e => W a * W j * W e * _ * _) (fun e => W a * W j * (W e * D e k * vz (Fl c (nd a j e) n)))) by (intros; ring). ring.
      + intros b B'. rewrite !rsum_add.
        rewrite (rsum_ext Q (fun e => delta b j * delta e k * _) (fun e => delta e k * (delta b j * (W a * W b * W e * D a i * vx (Fl c (nd a b e) n))))) by (intros; ring).
        rewrite (rsum_ext Q (fun e => delta a i * delta e k * _) (fun e => delta e k * (delta a i * (W a * W b * W e * D b j * vy (Fl c (nd a b e) n))))) by (intros; ring).
        rewrite !S1, rsum_mul_l by exact L. ring.
  Qed.
  Lemma W3_at x n : let '(i, (a, b)) := x in (i < 6)%nat -> (a < Q)%nat -> (b < Q)%nat -> integrates xs ws (Q + 1) ->
    node_at Q x = n -> W3 n * hR 1 = Wab x.
  Proof.
    destruct x as [i [a b]]. intros I A' B' H <-. pose proof (Q_ge_2 xs ws E) as Q2. fold Q in Q2.
    cbn [node_at Wab]. rewrite W3_line; [|assumption|assumption|assumption|unfold last_of; destruct i as [|[|[|[|[|i]]]]]; lia].
    destruct (right_weight xs ws E A H) as [R1 R0]. fold Q in R1, R0.
    unfold last_of. destruct i as [|[|[|[|[|i]]]]]; rewrite !Rmult_assoc, ?R1, ?R0; ring.
  Qed.
  Lemma FRL_is_DGL cell_to_flux c j n : integrates xs ws (2 * Q - 1) -> covered Q place s p -> face_weights Q place W p -> cell_weights Q W p ->
    (forall a, (a < Q)%nat -> W a <> 0) -> (forall q k, cell_to_flux c q k = FluxMatrix (nc_value c q) k) ->
    In c (n_local_cells p) -> (j < N)%nat ->
    FRL_form Q place FluxMatrix hR s p c j n = DGL_form (place_node Q place) N true cell_to_flux s p c j n.
  Proof.
    intros H C FW CW WN CF I Lj. pose proof (Q_ge_2 xs ws E) as Q2. fold Q in Q2.
    assert (H1 : integrates xs ws (Q + 1)) by (intros q Lq; apply H; fold Q; lia).
    destruct G as (_ & GT & _). pose proof (GT c I) as T.
    destruct (nd_all j Lj) as (i1 & i2 & i3 & A1 & A2 & A3 & ->).
    assert (NZ : W i1 * W i2 * W i3 <> 0) by (repeat apply Rmult_integral_contrapositive_currified; auto).
    unfold DGL_form. cbn [GetWeight]. rewrite (W3_node c (nd i1 i2 i3) CW I Lj).
    rewrite (rsum_ext N _ (fun q => W3 q * dot (Fl c q n) (nc_gradients c q (nd i1 i2 i3)))).
    2:{ intros q Lq. cbn [GetWeight]. rewrite (W3_node c q CW I Lq). unfold local_flux, F_local. rewrite CF. reflexivity. }
    rewrite weak_strong, W3_nd by assumption. unfold FRL_form.
    apply (Rmult_eq_reg_l (W i1 * W i2 * W i3)); [|exact NZ].
    match goal with |- _ = _ * (?x / _) => replace (W i1 * W i2 * W i3 * (x / (W i1 * W i2 * W i3))) with x by (field; repeat split; auto) end.
    rewrite <- (of_cell_positions Q place s p c _ C I).
    match goal with |- _ * (_ - ?o) = - ?d + ?q - ?f => enough (W i1 * W i2 * W i3 * o = f - q) as X1 by (rewrite Rmult_minus_distr_l, X1; ring) end.
    rewrite <- of_cell_mul_l, <- of_cell_sub. apply of_cell_ext. intros t It Id.
    pose proof (contact_place t It) as CP. rewrite (contact_cell t c It I Id) in *.
    destruct (contact_in N _ p s P t It) as (TT & Lq & _). pose proof (FW _ _ _ TT Lq) as F. rewrite (contact_cell t c It I Id) in F.
    unfold jump, place_node. rewrite (contact_cell t c It I Id).
    destruct (place c (k_face t) (k_point t)) as [i [a b]] eqn:EP. destruct CP as (B1 & B2 & B3).
    destruct (Nat.eqb_spec (node_at Q (i, (a, b))) (nd i1 i2 i3)) as [En|En]; [|ring].
    pose proof (W3_at (i, (a, b)) (nd i1 i2 i3) B1 B2 B3 H1 En) as WA. rewrite W3_nd in WA by assumption.
    rewrite F. unfold side_flux. cbn [fst].
    set (h := hR 1) in *. set (ar := area Q c (i, (a, b))). set (fl := dot _ ar).
    replace (W i1 * W i2 * W i3 * ((side i * vnorm ar * outward t n - fl) * (side i * h)))
      with (W i1 * W i2 * W i3 * h * (side i * side i * vnorm ar * outward t n - side i * fl)) by ring.
    rewrite WA, side_sq. cbn [Wab]. ring.
  Qed.
  Lemma place_nodes_match : nodes_apart Q p -> nodes_match (place_node Q place) N p.
  Proof.
    intros S c f T. pose proof (Q_ge_2 xs ws E) as Q2. split.
    - intros q L. destruct (on_cell Q X place D p G _ _ _ T L) as (_ & i & a & b & n & EP & A1 & A2 & A3 & _).
      unfold place_node. split.
      + rewrite EP. apply node_lt; try assumption. unfold last_of. fold Q in Q2. destruct i as [|[|[|[|[|i]]]]]; lia.
      + apply (coord_node Q X place D Q2 (X_first xs ws E) (X_last xs ws E) p G c f q i a b T L EP).
    - intros a b La Lb NE. apply (S c f); assumption.
  Qed.
  Theorem three_schemes cell_to_flux : integrates xs ws (2 * Q - 1) -> covered Q place s p -> face_weights Q place W p -> cell_weights Q W p ->
    (forall a, (a < Q)%nat -> W a <> 0) -> (forall c q k, cell_to_flux c q k = FluxMatrix (nc_value c q) k) -> nodes_apart Q p -> (0 < K)%nat ->
    exists r1 r2 r3, FR_GetResidualColumn K Q X (Q - 1) lump FluxMatrix s p = Some r1
      /\ FRL_GetResidualColumn K Q X (Q - 1) FluxMatrix s p = Some r2
      /\ DGL_GetResidualColumn K N true cell_to_flux s p = Some r3
      /\ forall c j k, In c (n_local_cells p) -> (j < N)%nat -> (k < K)%nat ->
           at_ r1 (address K N (nc_id c) j k) = at_ r2 (address K N (nc_id c) j k)
           /\ at_ r2 (address K N (nc_id c) j k) = at_ r3 (address K N (nc_id c) j k).
  Proof.
    intros H C FW CW WN CF S KK. pose proof (Q_ge_2 xs ws E) as Q2.
    destruct (FR_main K Q X place D FluxMatrix (Q - 1) lump Q2 (X_first xs ws E) (X_last xs ws E) p s P G O) as (r1 & E1 & _ & V1).
    destruct (FRL_main K Q X place D FluxMatrix (Q - 1) Q2 (X_first xs ws E) (X_last xs ws E) p s P G O
      (FR_construct_some Q X place D (Q - 1) lump Q2 (X_first xs ws E) (X_last xs ws E) p P G)) as (r2 & E2 & _ & V2).
    destruct (DGL_main K N true cell_to_flux (place_node Q place) p s KK P (place_nodes_match S)) as (r3 & E3 & _ & V3).
    exists r1, r2, r3. split; [exact E1|]. split; [exact E2|]. split; [exact E3|]. intros c j k I J L. unfold N in *.
    rewrite V1, V2, V3 by assumption. split; [apply FRL_is_FR|]. apply FRL_is_DGL; auto.
  Qed.
End Main.
