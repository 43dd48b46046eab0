(** Proofs about the limiters of the Python package. *)
From Coq Require Import Reals List Arith Lra Lia Bool.
From Coquelicot Require Import Coquelicot.
From Verif Require Import Arrays RSum Model_PyEuler Model_PyPoly Spec_PyPoly Proof_PyPoly Proof_PyCorrect.
From Verif Require Import Model_PyIntegrator Proof_PyIntegrator Model_PyExpansion Spec_PyExpansion Proof_PyExpansion Proof_PyElement.
From Verif Require Import Model_PyGrid Model_PyLimiter Spec_PyLimiter Prop_PyExpansion.
Import ListNotations.
Open Scope R_scope.
Notation AllP := (List.Forall (fun w : R => 0 < w)).

(** ** Lists *)
Lemma all_some_map {A B} (f : A -> option B) (g : A -> B) l : (forall x, In x l -> f x = Some (g x)) -> all_some (map f l) = Some (map g l).
Proof. induction l as [|x l IH]; intros H; cbn; [reflexivity|]. rewrite (H x) by (left; reflexivity). cbn. rewrite IH; [reflexivity|]. intros; apply H; right; assumption. Qed.
Lemma all_some_exists {A B} (Q : A -> B -> Prop) (f : A -> option B) l : (forall x, In x l -> exists y, f x = Some y /\ Q x y) ->
  exists ys, all_some (map f l) = Some ys /\ List.Forall2 Q l ys.
Proof.
  induction l as [|x l IH]; intros H; cbn; [exists []; split; [reflexivity|constructor]|]. destruct (H x (or_introl eq_refl)) as (y & E & K). rewrite E. cbn.
  destruct IH as (ys & E' & K'); [intros; apply H; right; assumption|]. rewrite E'. cbn. exists (y :: ys). split; [reflexivity|constructor; assumption].
Qed.
Lemma sum_list_is l : sum_list l = fold_right Rplus 0 l.
Proof.
  unfold sum_list. assert (H : forall l s, fold_left Rplus l s = s + fold_right Rplus 0 l).
  { clear. induction l as [|x l IH]; intros s; cbn; [ring|]. rewrite IH. ring. }
  rewrite H. ring.
Qed.
Lemma sum_pos l : AllP l -> l <> [] -> 0 < fold_right Rplus 0 l.
Proof.
  assert (K : forall l, AllP l -> 0 <= fold_right Rplus 0 l).
  { clear. induction l; intros A; cbn; [lra|]. inversion A as [|? ? A0 A1]; subst. pose proof (IHl A1). lra. }
  intros A N. destruct l as [|x l]; [contradiction|]. inversion A as [|? ? A0 A1]; subst. cbn. pose proof (K l A1). lra.
Qed.
Lemma normalized ws : AllP ws -> ws <> [] -> exists vs, all_some (map (fun w => div w (sum_list ws)) ws) = Some vs /\
  length vs = length ws /\ AllP vs /\ fold_right Rplus 0 vs = 1.
Proof.
  intros A N. pose proof (sum_pos ws A N) as P0. rewrite sum_list_is. set (s := fold_right Rplus 0 ws) in *.
  exists (map (fun w => w / s) ws). split; [apply all_some_map; intros w _; unfold div; destruct (Req_EM_T s 0); [lra|reflexivity]|].
  split; [apply map_length|]. split.
  - clear N. clearbody s. induction ws; cbn; constructor; inversion A; subst; [apply Rdiv_lt_0_compat; assumption|auto].
  - assert (E : forall l, fold_right Rplus 0 (map (fun w => w / s) l) = fold_right Rplus 0 l / s).
    { induction l; cbn; [field; lra|]. rewrite IHl. field. lra. }
    rewrite E. fold s. field. lra.
Qed.

(** ** Averages *)
Lemma mix_mean a b m : forall parts ws, length ws = length parts -> List.Forall (fun f => mean a b f m) parts ->
  is_RInt (mix ws parts) a b ((b - a) * m * fold_right Rplus 0 ws).
Proof.
  induction parts as [|f parts IH]; intros [|w ws] L A; try discriminate.
  - unfold mix. cbn. apply (is_RInt_val' _ _ _ (scal (b - a) 0)); [apply @is_RInt_const|]. unfold scal; cbn; unfold mult; cbn. ring.
  - inversion A; subst. apply (@is_RInt_ext R_NormedModule (fun x => plus (scal w (f x)) (mix ws parts x))); [intros x _; reflexivity|].
    apply (is_RInt_val' _ _ _ (plus (scal w ((b - a) * m)) ((b - a) * m * fold_right Rplus 0 ws))).
    + apply (@is_RInt_plus R_NormedModule); [apply (@is_RInt_scal R_NormedModule); assumption|]. apply IH; [cbn in L; lia|assumption].
    + unfold scal, plus; cbn; unfold mult; cbn. ring.
Qed.
Lemma convex_mean a b m parts f : convex parts f -> List.Forall (fun f => mean a b f m) parts -> mean a b f m.
Proof.
  intros (ws & L & _ & S1 & E) A. unfold mean. apply (@is_RInt_ext R_NormedModule (mix ws parts)); [intros; symmetry; apply E|].
  apply (is_RInt_val' _ _ _ ((b - a) * m * fold_right Rplus 0 ws)); [apply mix_mean; assumption|]. rewrite S1. ring.
Qed.
Lemma mean_unique a b f m m' : a <> b -> mean a b f m -> mean a b f m' -> m = m'.
Proof.
  unfold mean. intros N H K. apply (@is_RInt_unique R_CompleteNormedModule) in H. apply (@is_RInt_unique R_CompleteNormedModule) in K. rewrite H in K.
  apply Rmult_eq_reg_l with (b - a); [exact K|lra].
Qed.

(** ** Weighted sums of coefficients *)
Definition cval (m : R) (c : Candidate) (x : R) : R := global_to_value (c_n c) m (c_taylor c) x.
Lemma gtv_add n m a b x : global_to_value n m (fun k => a k + b k) x = global_to_value n m a x + global_to_value n m b x.
Proof. unfold global_to_value, dot. rewrite <- rsum_add. apply rsum_ext. intros. ring. Qed.
Lemma gtv_pad n m c w x : (c_n c <= n)%nat -> global_to_value n m (fun k => if (k <? c_n c)%nat then c_taylor c k * w else 0) x = w * cval m c x.
Proof.
  intros L. unfold global_to_value, cval, global_to_value, dot. replace n with (c_n c + (n - c_n c))%nat by lia. rewrite rsum_app.
  rewrite (rsum_zero (n - c_n c)); [|intros i _; destruct (Nat.ltb_spec (c_n c + i) (c_n c)); [lia|ring]].
  rewrite Rplus_0_r, <- rsum_mul_l. apply rsum_ext. intros i Hi. destruct (Nat.ltb_spec i (c_n c)); [ring|lia].
Qed.
Lemma fold_pad n m x : forall l init, (forall wc, In wc l -> (c_n (snd wc) <= n)%nat) ->
  global_to_value n m (fold_left (fun coeff wc k => coeff k + (if (k <? c_n (snd wc))%nat then c_taylor (snd wc) k * fst wc else 0)) l init) x
  = global_to_value n m init x + fold_right (fun wc s => fst wc * cval m (snd wc) x + s) 0 l.
Proof.
  induction l as [|[w c] l IH]; intros init H; cbn [fold_left fold_right fst snd]; [ring|].
  rewrite IH by (intros; apply H; right; assumption). rewrite gtv_add, gtv_pad; [ring|]. apply (H (w, c)). left. reflexivity.
Qed.
Lemma fold_full n m x : forall l init, (forall wc, In wc l -> c_n (snd wc) = n) ->
  global_to_value n m (fold_left (fun coeff wc k => coeff k + c_taylor (snd wc) k * fst wc) l init) x
  = global_to_value n m init x + fold_right (fun wc s => fst wc * cval m (snd wc) x + s) 0 l.
Proof.
  induction l as [|[w c] l IH]; intros init H; cbn [fold_left fold_right fst snd]; [ring|].
  rewrite IH by (intros; apply H; right; assumption). rewrite gtv_add.
  replace (global_to_value n m (fun k => c_taylor c k * w) x) with (w * cval m c x); [ring|].
  rewrite <- (gtv_pad n m c w x) by (pose proof (H (w, c) (or_introl eq_refl)) as E; cbn [snd] in E; lia). unfold global_to_value, dot. apply rsum_ext. intros i Hi.
  pose proof (H (w, c) (or_introl eq_refl)) as E. cbn [snd] in E. rewrite E. destruct (Nat.ltb_spec i n); [reflexivity|lia].
Qed.
Lemma mix_candidates m x : forall ws cs, fold_right (fun wc s => fst wc * cval m (snd wc) x + s) 0 (combine ws cs) = mix ws (map (cval m) cs) x.
Proof. unfold mix. induction ws as [|w ws IH]; intros [|c cs]; cbn; auto. rewrite IH. reflexivity. Qed.

(** ** Smoothness *)
Lemma poly_power d c : polynomial d (fun x => (x - c) ^ d).
Proof.
  induction d; cbn [pow]; [apply poly_const|]. apply (poly_ext _ (fun x => x * (x - c) ^ d + - c * (x - c) ^ d)); [intros; ring|].
  apply poly_plus; [apply poly_x, IHd|]. apply poly_scal, (poly_mono d); [lia|exact IHd].
Qed.
Lemma poly_sum d k (f : nat -> R -> R) : (forall i, (i < k)%nat -> polynomial d (f i)) -> polynomial d (fun y => rsum k (fun i => f i y)).
Proof. induction k; intros H; cbn [rsum]; [apply poly_const|]. apply (poly_plus d (fun y => rsum k (fun i => f i y)) (f k)); [apply IHk; intros; apply H; lia|apply H; lia]. Qed.
Lemma tsum_poly n c a k : polynomial (n - 1) (tsum n c a k).
Proof.
  unfold tsum. apply (poly_sum (n - 1) n (fun l x => a l * taylor_derivatives c x k l)). intros l Hl. apply poly_scal. unfold taylor_derivatives. destruct k.
  - apply (poly_ext _ (fun x => (x - c) ^ l)); [intros; unfold taylor_values; rewrite x_power_is; reflexivity|]. apply (poly_mono l); [lia|apply poly_power].
  - destruct (l <? S k)%nat; [apply poly_const|]. apply (poly_ext _ (fun x => (factorial l / factorial (l - S k)) * (x - c) ^ (l - S k))); [intros; ring|].
    apply poly_scal. apply (poly_mono (l - S k)); [lia|apply poly_power].
Qed.

Section Object.
  Variables (roots : nat -> list R * list R) (inv : nat -> (nat -> nat -> R) -> option (nat -> nat -> R)).
  Variables (degree : nat) (c : Coordinate).
  Hypothesis (X : x_left c < x_right c).
  Lemma X' : x_left c <> x_right c. Proof. lra. Qed.
  Let n := (degree + 1)%nat.
  Let m := (x_left c + x_right c) / 2.
  Let J := (x_right c - x_left c) / 2.
  Hypothesis (V : inverts inv) (G : gauss roots n).
  Lemma derivative_norm_nonneg e k : frame roots inv degree c e -> 0 <= derivative_norm (of_legendre e) k.
  Proof.
    intros F. unfold derivative_norm. cbn [of_legendre c_integrator c_n c_taylor]. rewrite (rule_is roots inv degree c G e) by exact F.
    apply Rmult_le_pos; [lra|]. fold n. destruct (frame_parts _ _ _ _ _ F) as (_ & M & _). unfold l_center, l_coordinate in M. rewrite M. fold m.
    set (g := fun y => _). assert (D : polynomial (degree + degree) g).
    { unfold g. apply (poly_ext _ (fun y => (if (k =? 0)%nat || (k <? l_n e)%nat then tsum (l_n e) m (l_taylor e) k (m + y * J) else 0) * (if (k =? 0)%nat || (k <? l_n e)%nat then tsum (l_n e) m (l_taylor e) k (m + y * J) else 0))).
      - intros y. rewrite derivatives_tsum, map_is. fold m J. destruct (_ || _)%bool; ring.
      - destruct (_ || _)%bool; [|apply (poly_ext _ (fun _ => 0)); [intros; ring|apply poly_const]].
        assert (Q : polynomial degree (fun y => tsum (l_n e) m (l_taylor e) k (m + y * J))).
        { apply (poly_affine degree degree (tsum (l_n e) m (l_taylor e) k)). pose proof (tsum_poly (l_n e) m (l_taylor e) k) as T. rewrite (proj1 F) in *. replace (degree + 1 - 1)%nat with degree in T by lia. exact T. }
        apply (poly_product degree degree _ _ Q Q). }
    pose proof (rule_exact roots degree G (degree + degree) g ltac:(lia) D) as I.
    apply (is_RInt_le (fun _ => 0) g (-1) 1); [lra| |exact I|].
    - apply (is_RInt_val' _ _ _ (scal (1 - -1) 0)); [apply @is_RInt_const|]. unfold scal; cbn; unfold mult; cbn. ring.
    - intros y _. unfold g. destruct (global_to_derivatives _ _ _ _ _); [apply pow2_ge_0|lra].
  Qed.
  Lemma fact_pos k : 0 < factorial k.
  Proof. induction k; cbn [factorial]; [lra|]. apply Rmult_lt_0_compat; [exact IHk|]. apply lt_0_INR. lia. Qed.
  Lemma smoothness_nonneg e : frame roots inv degree c e -> 0 <= z_smoothness (of_legendre e).
  Proof.
    intros F. unfold z_smoothness. assert (H : forall l s, 0 <= s -> 0 <= fold_left (fun beta d => let k := (d + 1)%nat in
      beta + derivative_norm (of_legendre e) k * (length_of (i_coordinate (c_integrator (of_legendre e))) ^ (2 * k - 1) / factorial k ^ 2)) l s).
    { induction l as [|d l IH]; intros s Hs; cbn [fold_left]; [exact Hs|]. apply IH. cbv zeta. apply Rplus_le_le_0_compat; [exact Hs|].
      apply Rmult_le_pos; [apply derivative_norm_nonneg, F|]. cbn [of_legendre c_integrator]. rewrite (proj1 (proj2 F)), length_is.
      apply Rmult_le_pos; [apply pow_le; lra|]. apply Rlt_le, Rinv_0_lt_compat. apply pow_lt, fact_pos. }
    apply H. lra.
  Qed.
  (** the rule integrates constants *)
  Lemma integrate_plus e f g : frame roots inv degree c e -> integrate (l_integrator e) (fun x => f x + g x) = integrate (l_integrator e) f + integrate (l_integrator e) g.
  Proof.
    intros F. rewrite !(rule_is roots inv degree c G e) by exact F. rewrite <- Rmult_plus_distr_l. f_equal.
    unfold quadr. generalize (combine (fst (roots (degree + 1))) (snd (roots (degree + 1)))). induction l as [|[p w] l IH]; cbn [map fold_right fst snd]; [ring|]. rewrite IH. ring.
  Qed.
  Lemma integrate_ext e f g : frame roots inv degree c e -> (forall x, f x = g x) -> integrate (l_integrator e) f = integrate (l_integrator e) g.
  Proof. intros F H. rewrite !(rule_is roots inv degree c G e) by exact F. f_equal. apply quadr_ext. intros. apply H. Qed.
  Lemma integrate_const e k : frame roots inv degree c e -> integrate (l_integrator e) (fun _ => k) = k * (x_right c - x_left c).
  Proof.
    intros F. rewrite !(rule_is roots inv degree c G e) by exact F.
    pose proof (rule_exact roots degree G 0 (fun _ => k) ltac:(lia) (poly_const 0 k)) as I.
    apply (@is_RInt_unique R_CompleteNormedModule) in I. rewrite <- I.
    rewrite (@is_RInt_unique R_CompleteNormedModule _ _ _ _ (@is_RInt_const R_NormedModule (-1) 1 k)). unfold scal; cbn; unfold mult; cbn. lra.
  Qed.
  Lemma init_again : (exists e, made roots inv degree c e) -> exists e, Legendre_init roots inv degree c = Some e.
  Proof.
    intros (e & M). revert e M. apply (proj1 (made_ready roots inv degree c (fun _ _ => exists e, Legendre_init roots inv degree c = Some e)
      (fun _ _ => exists e, Legendre_init roots inv degree c = Some e) (fun e E => ex_intro _ e E) (fun _ _ H => H) (fun _ _ _ _ _ H _ => H) (fun _ _ _ H => H) (fun _ _ _ _ H _ => H))).
  Qed.
  Lemma weight_0 e : frame roots inv degree c e -> l_weight e 0 = x_right c - x_left c.
  Proof. intros F. destruct (frame_parts _ _ _ _ _ F) as (_ & _ & JJ & _). unfold l_weight, mode_weight. rewrite JJ. cbn [INR]. field. Qed.
  Lemma borrow_is e that : frame roots inv degree c e -> (exists e0, Legendre_init roots inv degree c = Some e0) ->
    exists b, z_borrow roots inv e that = Some b /\ frame roots inv degree c b /\ represents degree c b /\ l_average b = l_average e /\
      (polynomial degree that -> exists k, forall x, l_value b x = that x + k).
  Proof.
    intros F (e0 & E0). pose proof (init_frame _ _ _ _ _ E0) as F0. unfold z_borrow. destruct (frame_parts _ _ _ _ _ F) as (C & _).
    rewrite C. rewrite (proj1 F). replace (degree + 1 - 1)%nat with degree by lia. rewrite E0. cbn [bind].
    unfold average. rewrite (proj1 (proj2 F)), length_is. unfold div. destruct (Req_EM_T _ 0); [lra|]. cbn [bind].
    set (B := integrate (l_integrator e) that / (x_right c - x_left c)).
    destruct (approximate_frame roots inv degree c X' e0 (fun x => that x + l_average e - B) F0) as (b & E & Fb & Rb & Mb).
    exists b. split; [exact E|]. split; [exact Fb|]. split; [exact Rb|]. split.
    - unfold l_average at 1. rewrite Mb, (weight_0 e0 F0).
      rewrite (integrate_ext e0 _ (fun x => that x + (l_average e - B)) F0) by (intros; rewrite P_0; ring).
      rewrite integrate_plus, integrate_const by exact F0.
      replace (integrate (l_integrator e0) that) with (integrate (l_integrator e) that) by (rewrite !(rule_is roots inv degree c G) by assumption; reflexivity).
      unfold B. field. lra.
    - intros D. destruct (reproduces roots inv degree c X' G e0 (fun x => that x + l_average e - B) F0) as (b' & E' & _ & _ & K).
      + apply (poly_ext _ (fun x => that x + (l_average e - B))); [intros; ring|]. apply poly_plus; [exact D|apply poly_const].
      + rewrite E in E'. injection E' as <-. exists (l_average e - B). intros x. rewrite K. ring.
  Qed.
  Lemma weights_ok epsilon w_small cs : 0 < epsilon -> 0 < w_small < 1 / 2 -> (1 <= length cs <= 3)%nat -> List.Forall (fun c => 0 <= z_smoothness c) cs ->
    exists ws, z_weights epsilon w_small cs = Some ws /\ length ws = length cs /\ AllP ws /\ fold_right Rplus 0 ws = 1.
  Proof.
    intros E W L A. unfold z_weights. set (lw := fun i => if (i =? 0)%nat then 1 - (INR (length cs) - 1) * w_small else w_small).
    assert (LW : forall i, 0 < lw i).
    { intros i. unfold lw. destruct (i =? 0)%nat; [|lra]. assert (INR (length cs) <= 3) by (replace 3 with (INR 3) by (cbn; lra); apply le_INR; lia).
      assert (INR 1 <= INR (length cs)) by (apply le_INR; lia). cbn [INR] in *. nra. }
    set (f := fun ic : nat * Candidate => lw (fst ic) / (epsilon + z_smoothness (snd ic)) ^ 2).
    assert (Pos : forall ic, In ic (combine (seq 0 (length cs)) cs) -> 0 < (epsilon + z_smoothness (snd ic)) ^ 2).
    { intros [i cc] Hin. apply in_combine_r in Hin. rewrite List.Forall_forall in A. specialize (A _ Hin). apply pow_lt. cbn. lra. }
    rewrite (all_some_map _ f).
    2: { intros [i cc] Hin. cbv beta iota zeta. unfold div. specialize (Pos _ Hin). cbn [snd] in Pos. destruct (Req_EM_T _ 0); [lra|reflexivity]. }
    cbn [bind]. destruct (normalized (map f (combine (seq 0 (length cs)) cs))) as (vs & V1 & V2 & V3 & V4).
    - apply List.Forall_forall. intros w Hw. apply in_map_iff in Hw. destruct Hw as (ic & <- & Hin). apply Rdiv_lt_0_compat; [apply LW|apply Pos, Hin].
    - destruct cs; [cbn in L; lia|discriminate].
    - exists vs. split; [exact V1|]. split; [|auto]. rewrite V2, map_length, combine_length, seq_length. lia.
  Qed.
  Lemma cval_is e : frame roots inv degree c e -> forall x, cval m (of_legendre e) x = l_value e x.
  Proof. intros F x. destruct (frame_parts _ _ _ _ _ F) as (_ & M & _). unfold l_value. rewrite M. reflexivity. Qed.
  Lemma value_set e a x : frame roots inv degree c e -> l_value (l_set_taylor_coeff e a) x = global_to_value n m a x.
  Proof.
    intros F. destruct (frame_parts _ _ _ _ _ F) as (_ & M & _). unfold l_value, l_set_taylor_coeff, l_center, l_coordinate in *. cbn [l_n l_taylor l_integrator]. rewrite M, (proj1 F). reflexivity.
  Qed.
  Lemma set_frame e a : frame roots inv degree c e -> frame roots inv degree c (l_set_taylor_coeff e a).
  Proof. intros F. exact F. Qed.
  Lemma mix_ext ws : forall ps qs x, length ps = length qs -> (forall i, (i < length ps)%nat -> nth i ps (fun _ => 0) x = nth i qs (fun _ => 0) x) -> mix ws ps x = mix ws qs x.
  Proof.
    unfold mix. induction ws as [|w ws IH]; intros [|p ps] [|q qs] x L H; cbn in *; try discriminate; auto.
    rewrite (H 0%nat) by lia. f_equal. apply IH; [lia|]. intros i Hi. apply (H (S i)). lia.
  Qed.
  Lemma zxh_is epsilon w_small e left right : 0 < epsilon -> 0 < w_small < 1 / 2 -> frame roots inv degree c e -> represents degree c e ->
    (exists e0, Legendre_init roots inv degree c = Some e0) ->
    exists coeff bs, z_limit roots inv epsilon w_small e left right = Some coeff /\
      List.Forall2 (fun that b => mean (x_left c) (x_right c) b (l_average e) /\ (polynomial degree that -> exists k, forall x, b x = that x + k)) (present [left; right]) bs /\
      convex (l_value e :: bs) (l_value (l_set_taylor_coeff e coeff)) /\
      l_average (l_set_taylor_coeff e coeff) = l_average e.
  Proof.
    intros E W F Rp I. unfold z_limit, z_candidates.
    destruct (all_some_exists (fun that b => frame roots inv degree c b /\ represents degree c b /\ l_average b = l_average e /\
      (polynomial degree that -> exists k, forall x, l_value b x = that x + k)) (z_borrow roots inv e) (present [left; right])) as (bs & B & K).
    { intros that _. destruct (borrow_is e that F I) as (b & ? & ? & ? & ? & ?). exists b. auto. }
    rewrite B. cbn [bind]. unfold z_scalar.
    assert (Fs : List.Forall (frame roots inv degree c) (e :: bs)).
    { constructor; [exact F|]. clear - K. induction K; constructor; tauto. }
    assert (Lb : (length bs <= 2)%nat).
    { clear - K. assert (E : length (present [left; right]) = length bs) by (induction K; cbn; congruence). rewrite <- E. destruct left, right; cbn; lia. }
    change (of_legendre e :: map of_legendre bs) with (map of_legendre (e :: bs)).
    destruct (weights_ok epsilon w_small (map of_legendre (e :: bs)) E W) as (ws & Wt & Wl & Wp & Ws).
    { rewrite map_length. cbn. lia. }
    { apply List.Forall_forall. intros cc Hc. apply in_map_iff in Hc. destruct Hc as (x & <- & Hx). apply smoothness_nonneg. rewrite List.Forall_forall in Fs. auto. }
    rewrite Wt. cbn [bind]. cbn [map] in Wl |- *. destruct ws as [|w ws]; [cbn in Wl; lia|]. cbn [combine].
    set (coeff := fold_left _ _ _). exists coeff, (map l_value bs). split; [reflexivity|].
    assert (Cv : convex (l_value e :: map l_value bs) (l_value (l_set_taylor_coeff e coeff))).
    { exists (w :: ws). split; [cbn in *; rewrite map_length in *; lia|]. split; [exact Wp|]. split; [exact Ws|]. intros x.
      rewrite value_set by exact F. unfold coeff. rewrite fold_full.
      - rewrite mix_candidates. change (mix (w :: ws) (l_value e :: map l_value bs) x) with (w * l_value e x + mix ws (map l_value bs) x). f_equal.
        + rewrite <- (cval_is e F). unfold cval, global_to_value, dot. cbn [of_legendre c_n c_taylor]. rewrite (proj1 F). fold n. rewrite <- rsum_mul_l. apply rsum_ext. intros. ring.
        + apply mix_ext; [rewrite !map_length; reflexivity|]. intros i Hi. rewrite !map_length in Hi. rewrite map_map.
          rewrite (nth_indep _ _ (cval m (of_legendre e))) by (rewrite map_length; lia). rewrite (map_nth (fun x => cval m (of_legendre x)) bs e).
          rewrite (nth_indep (map l_value bs) _ (l_value e)) by (rewrite map_length; lia). rewrite map_nth. apply cval_is.
          inversion Fs as [|? ? ? Fs']; subst. rewrite List.Forall_forall in Fs'. apply Fs'. apply nth_In. lia.
      - intros [w' cc] Hin. apply in_combine_r in Hin. apply in_map_iff in Hin. destruct Hin as (b & <- & Hb). cbn [snd of_legendre c_n].
        inversion Fs as [|? ? ? Fs']; subst. rewrite List.Forall_forall in Fs'. apply (Fs' _ Hb). }
    assert (K2 : List.Forall2 (fun that b => mean (x_left c) (x_right c) b (l_average e) /\ (polynomial degree that -> exists k, forall x, b x = that x + k)) (present [left; right]) (map l_value bs)).
    { clear - K X. induction K as [|t b ts bs (F & Rp & A & D) K IH]; cbn [map]; constructor; [|exact IH]. split; [|exact D].
      rewrite <- A. apply (mean_is roots inv degree c X' b F Rp). }
    split; [exact K2|]. split; [exact Cv|].
    apply (mean_unique (x_left c) (x_right c) (l_value (l_set_taylor_coeff e coeff)) _ _ X').
    - apply (mean_is roots inv degree c X' _ (set_frame e coeff F)). apply (inverse_represents roots inv degree c); assumption.
    - apply (convex_mean _ _ _ _ _ Cv). constructor; [apply (mean_is roots inv degree c X' e F Rp)|]. clear - K2. induction K2; constructor; tauto.
  Qed.
  (** unchanged: neighbors which differ from the element by constants *)
  Lemma convex_same f parts g : convex parts g -> List.Forall (fun p => forall x, p x = f x) parts -> forall x, g x = f x.
  Proof.
    intros (ws & L & _ & S1 & H) A x. rewrite H. transitivity (fold_right Rplus 0 ws * f x); [|rewrite S1; ring]. clear - L A.
    revert ws L. unfold mix. induction parts as [|p parts IH]; intros [|w ws] L; try discriminate; cbn; [ring|]. inversion A; subst.
    rewrite IH; [rewrite H1; ring|assumption|cbn in L; lia].
  Qed.
End Object.

(** ** The limiter with truncation *)
Lemma modes_mean c N a : x_left c < x_right c -> (1 <= N)%nat -> mean (x_left c) (x_right c) (fun x => rsum N (fun j => a j * eval_legendre j (xi c x))) (a 0%nat).
Proof.
  intros X L. unfold mean.
  apply (is_RInt_val' _ _ _ (rsum N (fun j => a j * ((x_right c - x_left c) / 2 * (if (j =? 0)%nat then 2 else 0))))).
  - apply (int_sum (fun j x => a j * eval_legendre j (xi c x))). intros j _. apply (@is_RInt_scal R_NormedModule).
    apply (to_element c ltac:(lra) (eval_legendre j)). destruct j as [|j].
    + apply (is_RInt_val' _ _ _ (scal (1 - -1) 1)); [apply @is_RInt_const|]. cbn. unfold scal; cbn; unfold mult; cbn; ring.
    + apply P_mean. lia.
  - rewrite (rsum_single N 0); [|lia|intros i _ Hi; destruct (Nat.eqb_spec i 0); [lia|ring]]. cbn [Nat.eqb]. field.
Qed.
Lemma square_integral p q : is_RInt (V := R_NormedModule) (fun y => (p + y * q) * (p + y * q)) (-1) 1 (2 * p ^ 2 + 2 / 3 * q ^ 2).
Proof.
  evar_last; [apply (@is_RInt_derive R_CompleteNormedModule (fun y => p ^ 2 * y + p * q * y ^ 2 + q ^ 2 / 3 * y ^ 3) (fun y => (p + y * q) * (p + y * q)))|].
  - intros y _. auto_derive; [trivial|]. field.
  - intros y _. apply continuity_pt_filterlim, derivable_continuous_pt. reg.
  - unfold minus, plus, opp. cbn -[pow]. field.
Qed.
(** norms over a neighbor *)
Lemma xi_square roots inv degree c c2 e2 : x_left c < x_right c -> x_left c2 < x_right c2 -> (1 <= degree)%nat -> gauss roots (degree + 1) ->
  frame roots inv degree c2 e2 -> integrate (l_integrator e2) (fun x => xi c x * xi c x) =
  (x_right c2 - x_left c2) / 2 * (2 * (((x_left c2 + x_right c2) / 2 - (x_left c + x_right c) / 2) / ((x_right c - x_left c) / 2)) ^ 2
   + 2 / 3 * (((x_right c2 - x_left c2) / 2) / ((x_right c - x_left c) / 2)) ^ 2).
Proof.
  intros X X2 D G F. rewrite (rule_is roots inv degree c2 G e2) by exact F. f_equal.
  set (J := (x_right c - x_left c) / 2). set (J2 := (x_right c2 - x_left c2) / 2). set (p := ((x_left c2 + x_right c2) / 2 - (x_left c + x_right c) / 2) / J).
  assert (JP : 0 < J) by (unfold J; lra). assert (JP2 : 0 < J2) by (unfold J2; lra).
  rewrite (quadr_ext _ (fun y => (p + y * (J2 / J)) * (p + y * (J2 / J)))).
  2: { intros y. unfold xi. rewrite map_is. fold J J2. unfold p. field. lra. }
  pose proof (rule_exact roots degree G 2 (fun y => (p + y * (J2 / J)) * (p + y * (J2 / J))) ltac:(lia)) as I.
  apply (@is_RInt_unique R_CompleteNormedModule) in I.
  - rewrite <- I, (@is_RInt_unique R_CompleteNormedModule _ _ _ _ (square_integral p (J2 / J))). reflexivity.
  - assert (Q : polynomial 1 (fun y => p + y * (J2 / J))).
    { apply poly_plus; [apply poly_const|]. apply (poly_x 0 (fun _ => J2 / J)), poly_const. }
    apply (poly_product 1 1 _ _ Q Q).
Qed.
Lemma norm_square roots inv degree c c2 e2 : gauss roots (degree + 1) -> frame roots inv degree c2 e2 ->
  integrate (l_integrator e2) (fun x => Rabs (xi c x) ^ 2) = integrate (l_integrator e2) (fun x => xi c x * xi c x).
Proof. intros G F. apply (integrate_ext roots inv degree c2 G e2 _ _ F). intros x. rewrite pow2_abs. ring. Qed.
Lemma norm_pos roots inv degree c c2 e2 : x_left c < x_right c -> x_left c2 < x_right c2 -> (1 <= degree)%nat -> gauss roots (degree + 1) ->
  frame roots inv degree c2 e2 -> 0 < norm_2 (l_integrator e2) (xi c).
Proof.
  intros X X2 D G F. unfold norm_2. apply sqrt_lt_R0. rewrite (norm_square roots inv degree c c2 e2 G F), (xi_square roots inv degree c c2 e2 X X2 D G F).
  apply Rmult_lt_0_compat; [lra|]. match goal with |- 0 < 2 * ?p ^ 2 + 2 / 3 * ?q ^ 2 => assert (0 < q ^ 2) by (apply pow_lt, Rdiv_lt_0_compat; lra); pose proof (pow2_ge_0 p); lra end.
Qed.
Lemma loop_ok epsilon k_trunc bm : 0 < epsilon -> forall degree cs, (degree - 1 <= length cs)%nat ->
  exists ws, w_loop epsilon k_trunc bm degree cs = Some ws /\ AllP ws /\ (length ws <= degree - 1)%nat /\ ((2 <= degree)%nat -> ws <> []).
Proof.
  intros E. induction degree as [|d IH]; intros cs L.
  - exists []. split; [destruct cs; reflexivity|]. split; [constructor|]. cbn; split; lia.
  - destruct d as [|d]; [exists []; split; [destruct cs; reflexivity|]; split; [constructor|]; cbn; split; lia|].
    destruct cs as [|cc cs]; [cbn in L; lia|]. cbn [w_loop]. set (b := w_sum cc 2). unfold div.
    assert (Pos : 0 < b ^ 2 + epsilon) by (pose proof (pow2_ge_0 b); lra). destruct (Req_EM_T _ 0); [lra|]. cbn [bind].
    assert (W : 0 < 10 ^ (S (S d) + 1) / (b ^ 2 + epsilon)) by (apply Rdiv_lt_0_compat; [apply pow_lt; lra|exact Pos]).
    destruct (Rlt_dec _ _).
    + eexists. split; [reflexivity|]. split; [constructor; [exact W|constructor]|]; split; [cbn; lia|discriminate].
    + destruct (IH cs) as (ws & Ew & A & Lw & _); [cbn in L; lia|]. rewrite Ew. cbn [bind]. eexists. split; [reflexivity|].
      split; [constructor; [exact W|exact A]|]. split; [cbn [length]; lia|discriminate].
Qed.
Lemma w_weights_ok epsilon ke kt p own bor : 0 < epsilon -> 0 <= ke -> (1 <= p)%nat -> length own = p -> (1 <= length bor <= 2)%nat ->
  (forall first rest, own = first :: rest -> c_n first = (p + 1)%nat) ->
  exists ws, w_weights epsilon ke kt (own ++ bor) = Some ws /\ AllP ws /\ ws <> [] /\ (length ws <= length (own ++ bor))%nat /\ (p = 1%nat -> length ws = length (own ++ bor)).
Proof.
  intros E K Pp Lo Lb C. unfold w_weights. destruct own as [|first rest]; [cbn in Lo; lia|]. cbn [app].
  rewrite (C _ _ eq_refl). replace (p + 1 - 1)%nat with p by lia. change (first :: rest ++ bor) with ((first :: rest) ++ bor). set (cs := (first :: rest) ++ bor) in *.
  assert (Lc : length cs = (p + length bor)%nat) by (unfold cs; rewrite app_length; lia).
  destruct (nth_error cs (p - 1)) as [cu|] eqn:E1; [|apply nth_error_None in E1; lia].
  destruct (nth_error cs p) as [cl|] eqn:E2; [|apply nth_error_None in E2; lia]. cbn [bind]. set (cr := last cs first).
  destruct (loop_ok epsilon kt ((w_sum cu 1 + w_sum cl 1 + w_sum cr 1) / 3) E p cs ltac:(lia)) as (ws & Ew & A & Lw & Ne). rewrite Ew. cbn [bind].
  destruct (Nat.eqb_spec (length ws) (p - 1)) as [El|El].
  2: { exists ws. split; [reflexivity|]. split; [exact A|]. split; [apply Ne; destruct p as [|[|p]]; lia|]. fold cs. lia. }
  set (eps := epsilon + _). assert (EP : 0 < eps).
  { unfold eps. pose proof (pow2_ge_0 (w_sum cl 1)). pose proof (pow2_ge_0 (w_sum cr 1)).
    assert (0 <= ke * (w_sum cl 1 ^ 2 + w_sum cr 1 ^ 2)) by (apply Rmult_le_pos; lra). lra. }
  assert (DP : forall b, 0 < b ^ 2 + eps) by (intros b; pose proof (pow2_ge_0 b); lra).
  unfold div. destruct (Req_EM_T (w_sum cu 1 ^ 2 + eps) 0) as [Z|_]; [pose proof (DP (w_sum cu 1)); lra|]. cbn [bind].
  destruct (Req_EM_T (w_sum cl 1 ^ 2 + eps) 0) as [Z|_]; [pose proof (DP (w_sum cl 1)); lra|]. cbn [bind].
  assert (A2 : forall t, AllP t -> AllP (ws ++ t)) by (intros; apply List.Forall_app; auto).
  assert (QP : forall k b, 0 < k -> 0 < k / (b ^ 2 + eps)) by (intros; apply Rdiv_lt_0_compat; auto).
  destruct (Nat.ltb_spec (p + 1) (length cs)).
  - destruct (Req_EM_T (w_sum cr 1 ^ 2 + eps) 0) as [Z|_]; [pose proof (DP (w_sum cr 1)); lra|]. cbn [bind].
    destruct (Nat.eqb_spec (p + 2) (length cs)); [|lia]. eexists. split; [reflexivity|]. split; [|split]; [| |fold cs].
    + apply A2. repeat constructor; apply QP; lra.
    + destruct ws; discriminate.
    + rewrite app_length. cbn [length]. lia.
  - eexists. split; [reflexivity|]. split; [|split]; [| |fold cs].
    + apply A2. repeat constructor; apply QP; lra.
    + destruct ws; discriminate.
    + rewrite app_length. cbn [length]. lia.
Qed.

Section Object2.
  Variables (roots : nat -> list R * list R) (inv : nat -> (nat -> nat -> R) -> option (nat -> nat -> R)).
  Variables (degree : nat) (c : Coordinate).
  Hypothesis (X : x_left c < x_right c) (D : (1 <= degree)%nat).
  Let n := (degree + 1)%nat.
  Let m := (x_left c + x_right c) / 2.
  Hypothesis (V : inverts inv) (G : gauss roots n).
  Lemma w_borrow_is e (that : Neighborhood) : frame roots inv degree c e -> (exists e1, Legendre_init roots inv 1 c = Some e1) -> 0 < norm_2 (snd that) (xi c) ->
    exists b, w_borrow roots inv e that = Some b /\ frame roots inv 1 c b /\ represents 1 c b /\ l_average b = l_average e /\
      l_modes b 1 = inner_product (snd that) (xi c) (fun x => fst that x - l_average e) / norm_2 (snd that) (xi c).
  Proof.
    intros F (e1 & E1) N. pose proof (init_frame _ _ _ _ _ E1) as F1. unfold w_borrow. destruct (frame_parts _ _ _ _ _ F) as (C & _).
    rewrite C, E1, local_is by lra. cbn [bind]. set (phi := fun x => match global_to_local c x with Some y => eval_legendre 1 y | None => 0 end).
    assert (Ph : phi = xi c) by (apply FunctionalExtensionality.functional_extensionality; intros x; unfold phi; rewrite local_is by lra; rewrite P_1; reflexivity).
    rewrite Ph. unfold div. destruct (Req_EM_T _ 0); [lra|]. cbn [bind]. unfold l_set_coeff. replace (2 =? l_n e1)%nat with true by (rewrite (proj1 F1); reflexivity).
    eexists. split; [reflexivity|]. split; [exact F1|]. split; [|split; reflexivity].
    match goal with |- represents _ _ (l_set_taylor ?x) => apply (set_represents roots inv 1 c x) end.
    exact F1.
  Qed.
  Lemma lwa_is epsilon ke kt e left right : 0 < epsilon -> 0 <= ke -> frame roots inv degree c e -> represents degree c e ->
    (exists e1, Legendre_init roots inv 1 c = Some e1) -> (left <> None \/ right <> None) ->
    List.Forall (fun that : Neighborhood => 0 < norm_2 (snd that) (xi c)) (present [left; right]) ->
    exists coeff parts, w_limit roots inv epsilon ke kt e left right = Some coeff /\
      List.Forall (fun f => mean (x_left c) (x_right c) f (l_average e)) parts /\
      convex parts (l_value (l_set_taylor_coeff e coeff)) /\
      l_average (l_set_taylor_coeff e coeff) = l_average e /\
      (degree = 1%nat -> exists bs, convex (l_value e :: bs) (l_value (l_set_taylor_coeff e coeff)) /\
        List.Forall2 (fun (that : Neighborhood) b => forall x, b x = l_average e +
          inner_product (snd that) (xi c) (fun x => fst that x - l_average e) / norm_2 (snd that) (xi c) * xi c x) (present [left; right]) bs).
  Proof.
    intros E K F Rp I1 Some1 Ns. unfold w_limit, w_candidates. rewrite (proj1 F). replace (degree + 1 - 1)%nat with degree by lia.
    destruct (all_some_exists (fun i cc => c_n cc = (degree - i + 1)%nat /\ forall x, cval m cc x = rsum (degree - i + 1) (fun j => l_modes e j * eval_legendre j (xi c x)))
      (fun i => do taylor <- Truncated_init (degree - i) e; Some (mkCandidate (degree - i + 1) (l_integrator e) taylor)) (seq 0 degree)) as (own & Eo & Ko).
    { intros i Hi. apply in_seq in Hi. pose proof (fun x => truncated_is roots inv degree c e (degree - i) x ltac:(lra) F) as T.
      unfold truncated_value in T. destruct (Truncated_init (degree - i) e) as [t|].
      - cbn [bind] in *. eexists. split; [reflexivity|]. split; [reflexivity|]. intros x. specialize (T x).
        destruct (Nat.leb_spec (degree - i) degree); [|lia]. injection T as T. destruct (frame_parts _ _ _ _ _ F) as (_ & M & _). rewrite M in T. exact T.
      - specialize (T 0). cbn [bind] in T. destruct (Nat.leb_spec (degree - i) degree); [discriminate|lia]. }
    rewrite Eo. cbn [bind].
    destruct (all_some_exists (fun (that : Neighborhood) b => (frame roots inv 1 c b /\ represents 1 c b /\ l_average b = l_average e) /\
      l_modes b 1 = inner_product (snd that) (xi c) (fun x => fst that x - l_average e) / norm_2 (snd that) (xi c)) (w_borrow roots inv e) (present [left; right])) as (bs & Eb & Kb).
    { intros that Hin. rewrite List.Forall_forall in Ns. destruct (w_borrow_is e that F I1 (Ns _ Hin)) as (b & ? & ? & ? & ? & ?). exists b. auto. }
    rewrite Eb. cbn [bind]. unfold w_scalar.
    assert (Lo : length own = degree).
    { transitivity (length (seq 0 degree)); [|apply seq_length]. clear - Ko. induction Ko; cbn; congruence. }
    assert (Lb : (1 <= length bs <= 2)%nat).
    { assert (El : length (present [left; right]) = length bs) by (clear - Kb; induction Kb; cbn; congruence). rewrite <- El. destruct left, right; cbn; try lia. destruct Some1; contradiction. }
    destruct (w_weights_ok epsilon ke kt degree own (map of_legendre bs) E K D Lo ltac:(rewrite map_length; exact Lb)) as (ws & Ew & Aw & Nw & Lw & Lw1).
    { intros first rest Eq. subst own. destruct degree as [|d]; [lia|]. cbn [seq] in Ko. inversion Ko; subst. replace (S d + 1)%nat with (S d - 0 + 1)%nat by lia. tauto. }
    rewrite Ew. cbn [bind]. destruct (normalized ws Aw Nw) as (vs & Ev & Lv & Av & Sv). rewrite Ev. cbn [bind].
    set (cs := own ++ map of_legendre bs) in *. set (coeff := fold_left _ _ _).
    assert (Cs : List.Forall (fun cc => (c_n cc <= n)%nat /\ mean (x_left c) (x_right c) (cval m cc) (l_average e)) cs).
    { apply List.Forall_app. split.
      - assert (Ko' : List.Forall2 (fun i cc => (c_n cc <= n)%nat /\ mean (x_left c) (x_right c) (cval m cc) (l_average e)) (seq 0 degree) own).
        { clear - Ko X. unfold n. induction Ko as [|i cc is ccs (N1 & N2) Ko IH]; constructor; [|exact IH].
          split; [lia|]. unfold mean. apply (@is_RInt_ext R_NormedModule (fun x => rsum (degree - i + 1) (fun j => l_modes e j * eval_legendre j (xi c x)))); [intros; symmetry; apply N2|].
          apply (modes_mean c (degree - i + 1) (l_modes e) X). lia. }
        clear - Ko'. induction Ko'; constructor; auto.
      - clear - Kb X D. induction Kb as [|t b ts bs ((Fb & Rb & Ab) & _) Kb IH]; cbn [map]; constructor; [|exact IH]. split; [cbn; rewrite (proj1 Fb); unfold n; lia|].
        rewrite <- Ab. pose proof (mean_is roots inv 1 c ltac:(lra) b Fb Rb) as Mb. unfold mean in *. apply (@is_RInt_ext R_NormedModule (l_value b)); [|exact Mb].
        intros x _. symmetry. apply (cval_is roots inv 1 c b Fb). }
    exists coeff, (map (cval m) (firstn (length vs) cs)). split; [reflexivity|].
    assert (Ms : List.Forall (fun f => mean (x_left c) (x_right c) f (l_average e)) (map (cval m) (firstn (length vs) cs))).
    { apply List.Forall_forall. intros f Hf. apply in_map_iff in Hf. destruct Hf as (cc & <- & Hc). rewrite List.Forall_forall in Cs. apply Cs.
      rewrite <- (firstn_skipn (length vs) cs). apply in_or_app. left. exact Hc. }
    assert (Cv : convex (map (cval m) (firstn (length vs) cs)) (l_value (l_set_taylor_coeff e coeff))).
    { exists vs. split; [rewrite map_length, firstn_length; lia|]. split; [exact Av|]. split; [exact Sv|]. intros x.
      rewrite (value_set roots inv degree c e coeff x F). unfold coeff. fold m n. rewrite fold_pad.
      - rewrite mix_candidates. replace (global_to_value n m (fun _ => 0) x) with 0 by (unfold global_to_value, dot; symmetry; apply rsum_zero; intros; ring).
        rewrite Rplus_0_l. clear. revert vs. unfold mix. induction cs as [|cc cs IH]; intros [|v vs]; cbn; auto. rewrite IH. reflexivity.
      - intros [w cc] Hin. apply in_combine_r in Hin. rewrite List.Forall_forall in Cs. apply (Cs _ Hin). }
    split; [exact Ms|]. split; [exact Cv|]. split.
    - apply (mean_unique (x_left c) (x_right c) (l_value (l_set_taylor_coeff e coeff)) _ _ ltac:(lra)).
      + apply (mean_is roots inv degree c ltac:(lra) _ (set_frame roots inv degree c e coeff F)). apply (inverse_represents roots inv degree c); assumption.
      + apply (convex_mean _ _ _ _ _ Cv Ms).
    - intros D1. exists (map (fun b => cval m (of_legendre b)) bs). split.
      + rewrite Lv, (Lw1 D1), firstn_all in Cv. unfold cs in Cv. rewrite map_app, map_map in Cv.
        destruct own as [|o [|o2 own]]; [cbn in Lo; lia| |cbn in Lo; lia]. cbn [map app] in Cv. rewrite D1 in Ko. cbn [seq] in Ko.
        assert (Eo1 : cval m o = l_value e).
        { apply FunctionalExtensionality.functional_extensionality. intros x. inversion Ko as [|? ? ? ? (_ & Hx) _]; subst. rewrite Hx.
          rewrite (value_modes roots inv 1 c ltac:(lra) e x F Rp). reflexivity. }
        rewrite Eo1 in Cv. exact Cv.
      + clear - Kb X. induction Kb as [|t b ts bs ((Fb & Rb & Ab) & Mb) Kb IH]; cbn [map]; constructor; [|exact IH].
        intros x. unfold m. rewrite (cval_is roots inv 1 c b Fb), (value_modes roots inv 1 c ltac:(lra) b x Fb Rb). cbn [Nat.add rsum].
        rewrite P_0, P_1, Mb. rewrite <- Ab. unfold l_average. ring.
  Qed.
End Object2.

(** ** All cells *)
Section Cells.
  Context {U : Type}.
  Variables (limit : Legendre -> option (R -> R) -> option (R -> R) -> option (nat -> R)) (g : Grid U) (es : nat -> Legendre).
  Let lim i := limit (es i) (option_map (neighbor_value es) (left_expansion g i)) (option_map (neighbor_value es) (right_expansion g i)).
  Lemma set_again e a b : l_set_taylor_coeff (l_set_taylor_coeff e a) b = l_set_taylor_coeff e b.
  Proof. reflexivity. Qed.
  Lemma reconstruct_is troubled : (forall i, In i troubled -> exists coeff, lim i = Some coeff) ->
    exists es', reconstruct limit g es troubled = Some es' /\ (forall i, ~ In i troubled -> es' i = es i) /\
      (forall i, In i troubled -> exists coeff, lim i = Some coeff /\ es' i = l_set_taylor_coeff (es i) coeff).
  Proof.
    intros H. unfold reconstruct. destruct (all_some_exists (fun i coeff => lim i = Some coeff) lim troubled) as (coeffs & E & K).
    { intros i Hi. destruct (H i Hi) as (coeff & C). exists coeff. auto. }
    unfold lim in E. rewrite E. cbn [bind]. eexists. split; [reflexivity|]. clear E H.
    set (upd := fun (es0 : nat -> Legendre) (ic : nat * (nat -> R)) => let '(i, coeff) := ic in fun j => if (j =? i)%nat then l_set_taylor_coeff (es0 i) coeff else es0 j).
    assert (Q : forall es1 : nat -> Legendre, (forall i, es1 i = es i \/ exists coeff, lim i = Some coeff /\ es1 i = l_set_taylor_coeff (es i) coeff) ->
      (forall i, ~ In i troubled -> fold_left upd (combine troubled coeffs) es1 i = es1 i) /\
      (forall i, (In i troubled \/ exists coeff, lim i = Some coeff /\ es1 i = l_set_taylor_coeff (es i) coeff) ->
         exists coeff, lim i = Some coeff /\ fold_left upd (combine troubled coeffs) es1 i = l_set_taylor_coeff (es i) coeff)).
    { induction K as [|k coeff ts cfs L K IH]; intros es1 H1; cbn [combine fold_left].
      - split; [reflexivity|]. intros i [[]|Hc]. exact Hc.
      - assert (U1 : upd es1 (k, coeff) k = l_set_taylor_coeff (es k) coeff).
        { unfold upd. rewrite Nat.eqb_refl. destruct (H1 k) as [->|(c0 & _ & ->)]; [reflexivity|apply set_again]. }
        assert (U2 : forall j, j <> k -> upd es1 (k, coeff) j = es1 j) by (intros j Hj; unfold upd; destruct (Nat.eqb_spec j k); [contradiction|reflexivity]).
        destruct (IH (upd es1 (k, coeff))) as (A & B).
        { intros i. destruct (Nat.eq_dec i k) as [->|Ne]; [right; exists coeff; auto|rewrite U2 by exact Ne; apply H1]. }
        split.
        + intros i Hi. rewrite A by (intros Hin; apply Hi; right; exact Hin). apply U2. intros ->. apply Hi. left. reflexivity.
        + intros i Hi. apply B. destruct (Nat.eq_dec i k) as [->|Ne]; [right; exists coeff; auto|]. rewrite U2 by exact Ne.
          destruct Hi as [[->|Hi]|Hi]; [contradiction|left; exact Hi|right; exact Hi]. }
    destruct (Q es) as (A & B); [left; reflexivity|]. split; [exact A|]. intros i Hi. apply B. left. exact Hi.
  Qed.
End Cells.
