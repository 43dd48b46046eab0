(** Correction functions of the Python package. *)
From Coq Require Import Reals List Lra Lia Arith Bool.
From Coquelicot Require Import Coquelicot.
From Verif Require Import Arrays RSum Spec_Gauss Model_PyEuler Model_PyPoly Spec_PyPoly Proof_PyPoly.
Import ListNotations.
Open Scope R_scope.

Lemma sign_sq n : (-1) ^ n * (-1) ^ n = 1.
Proof. rewrite <- Rpow_mult_distr. replace (-1 * -1) with 1 by ring. apply pow1. Qed.

(** Radau *)
Lemma Radau_loop_S n x : Radau_loop (S n) x = (D n x, D (S n) x).
Proof. unfold D. cbn [Radau_loop]. destruct (Radau_loop n x). reflexivity. Qed.
Lemma radau_ends n : corrects (fun x => snd (Radau_value (S n) x)) (fun x => fst (Radau_value (S n) x)).
Proof.
  unfold corrects, Radau_value. cbn [fst snd]. replace (S n - 1)%nat with n by lia.
  rewrite !P_at_1, !P_at_m1. cbn [pow]. pose proof (sign_sq n). repeat split; try nra.
Qed.
Lemma radau_mirror n : mirrored (fun x => snd (Radau_value (S n) x)) (fun x => fst (Radau_value (S n) x)).
Proof.
  intros x. unfold Radau_value. cbn [fst snd]. replace (S n - 1)%nat with n by lia. rewrite !P_even. cbn [pow]. field.
Qed.
Lemma radau_derive n x :
  is_derive (fun x => fst (Radau_value (S n) x)) x (fst (Radau_gradient (S n) x)) /\
  is_derive (fun x => snd (Radau_value (S n) x)) x (snd (Radau_gradient (S n) x)).
Proof.
  unfold Radau_gradient. rewrite Radau_loop_S. unfold Radau_value. cbn [fst snd]. replace (S n - 1)%nat with n by lia.
  pose proof (P_derive n x) as A. pose proof (P_derive (S n) x) as B.
  split; (auto_derive; [repeat split; eexists; eassumption|]).
  - replace (Derive (fun x0 : R => P n x0) x) with (D n x) by (symmetry; apply is_derive_unique, A).
    replace (Derive (fun x0 : R => P (S n) x0) x) with (D (S n) x) by (symmetry; apply is_derive_unique, B). field.
  - replace (Derive (fun x0 : R => P n x0) x) with (D n x) by (symmetry; apply is_derive_unique, A).
    replace (Derive (fun x0 : R => P (S n) x0) x) with (D (S n) x) by (symmetry; apply is_derive_unique, B). cbn [pow]. field.
Qed.
Lemma radau_orthogonal n :
  orthogonal_below n (fun x => fst (Radau_value (S n) x)) /\ orthogonal_below n (fun x => snd (Radau_value (S n) x)).
Proof.
  assert (A : orthogonal_below n (P (S n))) by (apply (orthogonal_weaken (S n)); [lia|apply P_orthogonal]).
  split.
  - apply (orthogonal_ext n (fun x => / 2 * P (S n) x + / 2 * P n x)).
    { intros x. unfold Radau_value. cbn [fst]. replace (S n - 1)%nat with n by lia. field. }
    apply orthogonal_plus; apply orthogonal_scal; [exact A|apply P_orthogonal].
  - apply (orthogonal_ext n (fun x => (-1) ^ S n / 2 * P (S n) x + - ((-1) ^ S n / 2) * P n x)).
    { intros x. unfold Radau_value. cbn [snd]. replace (S n - 1)%nat with n by lia. field. }
    apply orthogonal_plus; apply orthogonal_scal; [exact A|apply P_orthogonal].
Qed.
Lemma radau_poly n : polynomial (S n) (fun x => fst (Radau_value (S n) x)) /\ polynomial (S n) (fun x => snd (Radau_value (S n) x)).
Proof.
  assert (A : polynomial (S n) (P n)) by (apply (poly_mono n); [lia|apply P_poly]).
  split.
  - apply (poly_ext _ (fun x => / 2 * P (S n) x + / 2 * P n x)).
    { intros x. unfold Radau_value. cbn [fst]. replace (S n - 1)%nat with n by lia. field. }
    apply poly_plus; apply poly_scal; [apply P_poly|exact A].
  - apply (poly_ext _ (fun x => (-1) ^ S n / 2 * P (S n) x + - ((-1) ^ S n / 2) * P n x)).
    { intros x. unfold Radau_value. cbn [snd]. replace (S n - 1)%nat with n by lia. field. }
    apply poly_plus; apply poly_scal; [apply P_poly|exact A].
Qed.

(** Vincent *)
Definition right_of (k : nat) (mu : R) : R -> R := Vincent_right (mkVincent k mu (1 - mu)).
Definition D_prev (k : nat) (x : R) : R := match k with O => 0 | S m => D m x end.
Lemma Vincent_loop_S n x : Vincent_loop (S n) x = (D_prev n x, D n x, D (S n) x).
Proof.
  induction n.
  - change (Vincent_loop 1 x) with (0, 0, INR 1 * P 0 x + x * 0). rewrite D_S, !D_0. cbn [D_prev]. f_equal. cbn [INR]. ring.
  - cbn [Vincent_loop] in *. rewrite IHn. cbn [Nat.ltb Nat.leb D_prev].
    rewrite (D_S (S n)). do 2 f_equal. replace (S n + 1)%nat with (S (S n)) by lia. rewrite S_INR. reflexivity.
Qed.
Lemma prev_derive n x : is_derive (eval_legendre_prev n) x (D_prev n x).
Proof.
  destruct n.
  - apply (is_derive_ext (fun _ => 1)); [reflexivity|]. apply @is_derive_const.
  - apply (is_derive_ext (P n)); [intros; symmetry; apply prev_S|]. apply P_derive.
Qed.
Lemma prev_even n x : (0 < n)%nat -> eval_legendre_prev n (- x) = - (-1) ^ n * eval_legendre_prev n x.
Proof. destruct n; [lia|]. intros _. rewrite !prev_S, P_even. cbn [pow]. ring. Qed.
Lemma D_prev_even n x : D_prev n (- x) = (-1) ^ n * D_prev n x.
Proof. destruct n; cbn [D_prev]; [ring|]. rewrite D_even. cbn [pow]. ring. Qed.
Lemma right_derive k mu x : is_derive (right_of k mu) x ((D k x + (1 - mu) * D_prev k x + mu * D (S k) x) / 2).
Proof.
  unfold right_of, Vincent_right. cbn [v_k next_ratio prev_ratio]. replace (k + 1)%nat with (S k) by lia.
  pose proof (P_derive k x) as A. pose proof (P_derive (S k) x) as B. pose proof (prev_derive k x) as C.
  auto_derive; [repeat split; eexists; eassumption|].
  replace (Derive (fun x0 : R => P k x0) x) with (D k x) by (symmetry; apply is_derive_unique, A).
  replace (Derive (fun x0 : R => eval_legendre_prev k x0) x) with (D_prev k x) by (symmetry; apply is_derive_unique, C).
  replace (Derive (fun x0 : R => P (S k) x0) x) with (D (S k) x) by (symmetry; apply is_derive_unique, B). field.
Qed.
Lemma vincent_gradient_is k mu x : Vincent_gradient (mkVincent k mu (1 - mu)) x =
  (- ((D k (- x) + (1 - mu) * D_prev k (- x) + mu * D (S k) (- x)) / 2), (D k x + (1 - mu) * D_prev k x + mu * D (S k) x) / 2).
Proof.
  unfold Vincent_gradient. cbn [v_k next_ratio prev_ratio]. change (1 + k)%nat with (S k). rewrite Vincent_loop_S.
  rewrite !D_even, D_prev_even. cbn [pow]. f_equal. field.
Qed.
Lemma derive_mirror (f : R -> R) x l : is_derive f (- x) l -> is_derive (fun t => f (- t)) x (- l).
Proof.
  intros H. auto_derive; [repeat split; exists l; exact H|].
  replace (Derive (fun x0 : R => f x0) (- x)) with l by (symmetry; apply is_derive_unique, H). ring.
Qed.
Lemma vincent_derive k mu x :
  is_derive (fun x => fst (Vincent_value (mkVincent k mu (1 - mu)) x)) x (fst (Vincent_gradient (mkVincent k mu (1 - mu)) x)) /\
  is_derive (fun x => snd (Vincent_value (mkVincent k mu (1 - mu)) x)) x (snd (Vincent_gradient (mkVincent k mu (1 - mu)) x)).
Proof.
  rewrite vincent_gradient_is. cbn [Vincent_value fst snd]. split; [|apply right_derive].
  pose proof (right_derive k mu (- x)) as H. unfold right_of in H.
  apply (derive_mirror (Vincent_right (mkVincent k mu (1 - mu)))), H.
Qed.
Lemma right_ends k mu : ((0 < k)%nat \/ mu = 1) -> right_of k mu (-1) = 0 /\ right_of k mu 1 = 1.
Proof.
  intros H. unfold right_of, Vincent_right. cbn [v_k next_ratio prev_ratio]. replace (k + 1)%nat with (S k) by lia.
  destruct k.
  - destruct H as [H| ->]; [lia|]. rewrite P_0, !P_1. cbn. unfold P. cbn. split; field.
  - rewrite !prev_S, !P_at_1, !P_at_m1. cbn [pow]. split; field.
Qed.
Lemma right_orthogonal k mu : orthogonal_below (k - 1) (right_of k mu).
Proof.
  apply (orthogonal_ext _ (fun x => / 2 * P k x + ((1 - mu) / 2 * eval_legendre_prev k x + mu / 2 * P (S k) x))).
  { intros x. unfold right_of, Vincent_right. cbn [v_k next_ratio prev_ratio]. replace (k + 1)%nat with (S k) by lia. field. }
  apply orthogonal_plus; [|apply orthogonal_plus]; apply orthogonal_scal.
  - apply (orthogonal_weaken k); [lia|apply P_orthogonal].
  - destruct k; [intros e c H; lia|]. apply (orthogonal_ext _ (P k)); [intros; symmetry; apply prev_S|].
    replace (S k - 1)%nat with k by lia. apply P_orthogonal.
  - apply (orthogonal_weaken (S k)); [lia|apply P_orthogonal].
Qed.
Lemma right_poly k mu : polynomial (k + 1) (right_of k mu).
Proof.
  replace (k + 1)%nat with (S k) by lia.
  apply (poly_ext _ (fun x => / 2 * P k x + ((1 - mu) / 2 * eval_legendre_prev k x + mu / 2 * P (S k) x))).
  { intros x. unfold right_of, Vincent_right. cbn [v_k next_ratio prev_ratio]. replace (k + 1)%nat with (S k) by lia. field. }
  apply poly_plus; [|apply poly_plus]; apply poly_scal.
  - apply (poly_mono k); [lia|apply P_poly].
  - destruct k; [apply (poly_ext _ (fun _ => 1)); [reflexivity|apply poly_const]|].
    apply (poly_ext _ (P k)); [intros; symmetry; apply prev_S|]. apply (poly_mono k); [lia|apply P_poly].
  - apply P_poly.
Qed.
(** the three choices *)
Lemma right_dg k x : right_of k (discontinuous_galerkin k) x = fst (Radau_value (S k) x).
Proof.
  unfold right_of, Vincent_right, discontinuous_galerkin, Radau_value. cbn [v_k next_ratio prev_ratio fst].
  replace (k + 1)%nat with (S k) by lia. replace (S k - 1)%nat with k by lia. field.
Qed.
Lemma right_sd k x : right_of k (spectral_difference k) x = (1 + x) / 2 * P k x.
Proof.
  unfold right_of, Vincent_right, spectral_difference. cbn [v_k next_ratio prev_ratio].
  replace (k + 1)%nat with (S k) by lia. rewrite P_S. pose proof (pos_INR k). field. lra.
Qed.
Lemma D_at_m1 n : D n (-1) = - (-1) ^ n * (INR n * (INR n + 1) / 2).
Proof. induction n; [rewrite D_0; cbn [INR pow]; field|]. rewrite D_S, IHn, P_at_m1, S_INR. cbn [pow]. field. Qed.
Lemma right_lump k : is_derive (right_of k (huynh_lumping_lobatto k)) (-1) 0.
Proof.
  pose proof (right_derive k (huynh_lumping_lobatto k) (-1)) as H.
  replace 0 with ((D k (-1) + (1 - huynh_lumping_lobatto k) * D_prev k (-1) + huynh_lumping_lobatto k * D (S k) (-1)) / 2); [exact H|].
  destruct k.
  - unfold huynh_lumping_lobatto. cbn [D_prev]. rewrite D_0. cbn [INR]. field.
  - cbn [D_prev]. rewrite !D_at_m1. unfold huynh_lumping_lobatto. rewrite !S_INR. cbn [pow]. pose proof (pos_INR k). field. lra.
Qed.

(** Huynh *)
Section Huynh.
  Variables (degree n_lump : nat) (x w : list R) (c : nat -> R).
  Hypothesis (L : (1 <= n_lump <= degree)%nat).
  Hypothesis (S : forall l, (l <= degree)%nat -> rsum (degree + 1) (fun i => Huynh_a degree n_lump x w l i * c i) = Huynh_b degree l).
  Let g := Huynh_right degree c.

  Lemma huynh_at_1 : g 1 = 1.
  Proof.
    pose proof (S degree (le_n _)) as E. unfold Huynh_b in E. rewrite Nat.eqb_refl in E. apply (fun H => eq_trans H E).
    unfold g, Huynh_right. apply rsum_ext. intros i Hi. unfold Huynh_a.
    destruct (Nat.ltb_spec degree n_lump); [lia|]. destruct (Nat.ltb_spec degree degree); [lia|].
    replace (1 ^ i) with 1 by (symmetry; apply pow1). ring.
  Qed.
  Definition term (l i : nat) (y : R) : R :=
    if (l <=? i)%nat then c i * (INR (fact i) / INR (fact (i - l)) * y ^ (i - l)) else 0.
  Lemma fact_nz n : INR (fact n) <> 0.
  Proof. apply INR_fact_neq_0. Qed.
  Lemma term_derive l i y : is_derive (term l i) y (term (Datatypes.S l) i y).
  Proof.
    unfold term. destruct (Nat.leb_spec l i) as [A|A]; [|destruct (Nat.leb_spec (Datatypes.S l) i); [lia|apply @is_derive_const]].
    destruct (Nat.leb_spec (Datatypes.S l) i) as [B|B].
    - replace (i - l)%nat with (Datatypes.S (i - Datatypes.S l)) by lia. set (k := (i - Datatypes.S l)%nat).
      assert (E : INR (fact (Datatypes.S k)) = (INR k + 1) * INR (fact k)) by (rewrite fact_simpl, mult_INR, S_INR; reflexivity).
      rewrite E. pose proof (fact_nz k) as N. pose proof (nz k) as N'. clearbody k. clear E.
      generalize dependent (INR (fact k)). generalize (INR (fact i)). intros u v Hv.
      apply (is_derive_ext (fun t => c i * (u / ((INR k + 1) * v)) * t ^ Datatypes.S k)); [intros t; change (c i * (u / ((INR k + 1) * v)) * t ^ Datatypes.S k = c i * (u / ((INR k + 1) * v) * t ^ Datatypes.S k)); ring|].
      replace (c i * (u / v * y ^ k)) with (c i * (u / ((INR k + 1) * v)) * (INR (Datatypes.S k) * 1 * y ^ k)) by (rewrite S_INR; field; auto).
      apply @is_derive_scal. apply (is_derive_pow (fun t => t) (Datatypes.S k) y 1). apply @is_derive_id.
    - replace (i - l)%nat with O by lia. cbn [pow].
      apply (is_derive_ext (fun _ => c i * (INR (fact i) / INR (fact 0) * 1))); [reflexivity|apply @is_derive_const].
  Qed.
  Lemma rsum_derive (f f' : nat -> R -> R) m y : (forall i, (i < m)%nat -> is_derive (f i) y (f' i y)) ->
    is_derive (fun t => rsum m (fun i => f i t)) y (rsum m (fun i => f' i y)).
  Proof.
    induction m; intros H; cbn [rsum]; [apply @is_derive_const|].
    apply (is_derive_plus (fun t => rsum m (fun i => f i t)) (f m)); [apply IHm; intros; apply H; lia|apply H; lia].
  Qed.
  Lemma huynh_lumped : lumped n_lump g.
  Proof.
    exists (fun l y => rsum (degree + 1) (fun i => term l i y)). split; [|split].
    - intros y. unfold g, Huynh_right. apply rsum_ext. intros i _. unfold term. cbn [Nat.leb]. rewrite Nat.sub_0_r.
      pose proof (fact_nz i). field. auto.
    - intros l y. apply (rsum_derive (fun i => term l i) (fun i => term (Datatypes.S l) i)). intros. apply term_derive.
    - intros l Hl. pose proof (S l ltac:(lia)) as E. unfold Huynh_b in E. destruct (Nat.eqb_spec l degree); [lia|].
      apply (fun H => eq_trans H E). apply rsum_ext. intros i _. unfold term, Huynh_a. destruct (Nat.ltb_spec l n_lump); [|lia].
      destruct (Nat.leb_spec l i); [|ring]. field. apply fact_nz.
  Qed.
  Lemma huynh_derive y : is_derive g y (Huynh_right_grad degree c y).
  Proof.
    unfold g, Huynh_right, Huynh_right_grad.
    apply (rsum_derive (fun i t => c i * t ^ i) (fun i t => c i * INR i * t ^ (i - 1))). intros i _.
    auto_derive; [auto|]. replace (Nat.pred i) with (i - 1)%nat by lia. ring.
  Qed.

  Hypothesis (Q : integrates (2 * degree - 1) x w).
  Definition quadr (f : R -> R) (pts : list (R * R)) : R := fold_right Rplus 0 (map (fun q => snd q * f (fst q)) pts).
  Lemma quadr_sum (f : nat -> R -> R) m pts : quadr (fun y => rsum m (fun i => f i y)) pts = rsum m (fun i => quadr (f i) pts).
  Proof.
    induction pts as [|p pts IH]; unfold quadr in *; cbn [map fold_right].
    - symmetry. apply rsum_zero. reflexivity.
    - rewrite IH, rsum_add, rsum_mul_l. reflexivity.
  Qed.
  Lemma quadr_scal k (f : R -> R) pts : quadr (fun y => k * f y) pts = k * quadr f pts.
  Proof. induction pts; unfold quadr in *; cbn [map fold_right]; [ring|]. rewrite IHpts. ring. Qed.
  Lemma quadr_ext (f h : R -> R) pts : (forall y, f y = h y) -> quadr f pts = quadr h pts.
  Proof. intros H. induction pts; unfold quadr in *; cbn [map fold_right]; [reflexivity|]. rewrite IHpts, H. reflexivity. Qed.
  Lemma exact_poly d f : (d <= 2 * degree - 1)%nat -> polynomial d f -> is_RInt f (-1) 1 (quadr f (combine x w)).
  Proof.
    intros Hd [k H]. destruct Q as [_ Q'].
    apply (is_RInt_ext (fun y => rsum (Datatypes.S d) (fun i => scal (k i) (y ^ i)))); [intros y _; rewrite H; reflexivity|].
    apply (is_RInt_val' _ _ _ (rsum (Datatypes.S d) (fun i => scal (k i) (quadr (fun y => y ^ i) (combine x w))))).
    - apply (int_sum (fun i y => scal (k i) (y ^ i))). intros i Hi. apply @is_RInt_scal. apply Q'. lia.
    - rewrite (quadr_ext f (poly1 d k)) by exact H. unfold poly1. rewrite quadr_sum. apply rsum_ext. intros i _.
      rewrite quadr_scal. reflexivity.
  Qed.
  Lemma fold_quadr (f : R -> R) pts : forall s, fold_left (fun s q => s + f (fst q) * snd q) pts s = s + quadr f pts.
  Proof. unfold quadr. induction pts as [|p pts IH]; intros s; cbn [fold_left map fold_right]; [ring|]. rewrite IH. ring. Qed.
  Lemma poly_mult d e f h : polynomial d f -> polynomial e h -> polynomial (d + e) (fun y => f y * h y).
  Proof.
    intros [k H]. revert f k H. induction d; intros f k H G.
    - apply (poly_ext _ (fun y => k O * h y)); [intros; rewrite H; unfold poly1; cbn; ring|]. apply poly_scal, G.
    - apply (poly_ext _ (fun y => k O * h y + y * (poly1 d (fun i => k (Datatypes.S i)) y * h y))).
      + intros y. rewrite H. unfold poly1. rewrite (rsum_first (Datatypes.S d)).
        replace (y * (rsum (Datatypes.S d) (fun i => k (Datatypes.S i) * y ^ i) * h y))
          with (y * rsum (Datatypes.S d) (fun i => k (Datatypes.S i) * y ^ i) * h y) by ring.
        rewrite <- rsum_mul_l.
        rewrite (rsum_ext (Datatypes.S d) (fun i => y * (k (Datatypes.S i) * y ^ i)) (fun i => k (Datatypes.S i) * y ^ Datatypes.S i))
          by (intros; cbn [pow]; ring). cbn [pow]. ring.
      + apply poly_plus; [apply poly_scal, (poly_mono e); [lia|exact G]|].
        apply (poly_x (d + e) (fun y => poly1 d (fun i => k (Datatypes.S i)) y * h y)).
        apply (IHd (poly1 d (fun i => k (Datatypes.S i))) (fun i => k (Datatypes.S i))); [reflexivity|exact G].
  Qed.
  Lemma g_poly : polynomial degree g.
  Proof. exists c. intros y. unfold g, Huynh_right, poly1. replace (degree + 1)%nat with (Datatypes.S degree) by lia. reflexivity. Qed.
  Lemma huynh_legendre p : (p < degree - n_lump)%nat -> is_RInt (fun y => g y * P p y) (-1) 1 0.
  Proof.
    intros Hp. apply (is_RInt_val' _ _ _ (quadr (fun y => g y * P p y) (combine x w))).
    - apply (exact_poly (degree + p)); [lia|]. apply poly_mult; [apply g_poly|apply P_poly].
    - pose proof (S (n_lump + p)%nat ltac:(lia)) as E. unfold Huynh_b in E. destruct (Nat.eqb_spec (n_lump + p) degree); [lia|].
      apply (fun H => eq_trans H E). rewrite (quadr_ext _ (fun y => rsum (degree + 1) (fun i => c i * (y ^ i * P p y)))).
      2: { intros y. unfold g, Huynh_right. rewrite <- rsum_mul_r. apply rsum_ext. intros. ring. }
      rewrite quadr_sum. apply rsum_ext. intros i _. rewrite quadr_scal. unfold Huynh_a.
      destruct (Nat.ltb_spec (n_lump + p) n_lump); [lia|]. destruct (Nat.ltb_spec (n_lump + p) degree); [|lia].
      replace (n_lump + p - n_lump)%nat with p by lia.
      rewrite (fold_quadr (fun y => y ^ i * P p y)). ring.
  Qed.
  Lemma huynh_below j : forall p, (p + j < degree - n_lump)%nat -> is_RInt (fun y => g y * (P p y * y ^ j)) (-1) 1 0.
  Proof.
    induction j; intros p Hp.
    - apply (is_RInt_ext (fun y => g y * P p y)); [intros y _; cbn [pow]; change (g y * P p y = g y * (P p y * 1)); ring|].
      apply huynh_legendre. lia.
    - pose proof (pos_INR p).
      assert (E : forall y, P p y * y ^ Datatypes.S j = (INR p + 1) / (2 * INR p + 1) * (P (Datatypes.S p) y * y ^ j)
         + INR p / (2 * INR p + 1) * (eval_legendre_prev p y * y ^ j)).
      { intros y. pose proof (P_S p y) as E. cbn [pow].
        transitivity ((INR p + 1) / (2 * INR p + 1) * P (Datatypes.S p) y * y ^ j + INR p / (2 * INR p + 1) * eval_legendre_prev p y * y ^ j); [|ring].
        rewrite E. field. lra. }
      apply (is_RInt_ext (fun y => plus (scal ((INR p + 1) / (2 * INR p + 1)) (g y * (P (Datatypes.S p) y * y ^ j)))
         (scal (INR p / (2 * INR p + 1)) (g y * (eval_legendre_prev p y * y ^ j))))).
      { intros y _. rewrite E. unfold plus, scal; cbn; unfold mult; cbn.
        match goal with |- @eq _ ?a ?b => change (@eq R a b) end. ring. }
      apply (is_RInt_val' _ _ _ (plus (scal ((INR p + 1) / (2 * INR p + 1)) 0) 0)); [|unfold plus, scal; cbn; unfold mult; cbn; ring].
      apply @is_RInt_plus; [apply @is_RInt_scal; apply IHj; lia|]. destruct p.
      + apply (is_RInt_ext (fun _ => 0)); [intros y _; cbn [INR]; unfold scal; cbn; unfold mult; cbn; match goal with |- @eq _ ?a ?b => change (@eq R a b) end; field|].
        apply (is_RInt_val' _ _ _ (scal (1 - -1) 0)); [apply @is_RInt_const|]. unfold scal; cbn; unfold mult; cbn; ring.
      + apply (is_RInt_val' _ _ _ (scal (INR (Datatypes.S p) / (2 * INR (Datatypes.S p) + 1)) 0)); [|unfold scal; cbn; unfold mult; cbn; ring].
        apply @is_RInt_scal. apply (is_RInt_ext (fun y => g y * (P p y * y ^ j))); [intros y _; rewrite prev_S; reflexivity|].
        apply IHj. lia.
  Qed.
  Lemma huynh_orthogonal : orthogonal_below (degree - n_lump) g.
  Proof.
    intros e k Hk. unfold poly1.
    apply (is_RInt_ext (fun y => rsum (Datatypes.S e) (fun i => scal (k i) (g y * (P 0 y * y ^ i))))).
    { intros y _. rewrite <- rsum_mul_l. apply rsum_ext. intros i _. rewrite P_0. unfold scal; cbn; unfold mult; cbn.
      match goal with |- @eq _ ?a ?b => change (@eq R a b) end. ring. }
    apply (is_RInt_val' _ _ _ (rsum (Datatypes.S e) (fun i => scal (k i) 0))).
    - apply (int_sum (fun i y => scal (k i) (g y * (P 0 y * y ^ i)))). intros i Hi. apply @is_RInt_scal. apply huynh_below. lia.
    - apply rsum_zero. intros. unfold scal; cbn; unfold mult; cbn; ring.
  Qed.
End Huynh.
