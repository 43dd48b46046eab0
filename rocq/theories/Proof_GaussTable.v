(** The rules given by decimal constants: checkers for their moments, in exact integer arithmetic for the
    rules on a line and in interval arithmetic for those on the triangle and the tetrahedron. *)
From Coq Require Import Reals QArith Qreals ZArith List Lia Lra Bool.
From Coquelicot Require Import Coquelicot.
From Verif Require Import RSum Vec3 Spec_Gauss Proof_Integral Model_Gauss Proof_Gauss.
Import ListNotations.
Open Scope R_scope.

Definition toV (p : Q * Q * Q) : vec := V (Q2R (fst (fst p))) (Q2R (snd (fst p))) (Q2R (snd p)).
(** the numerator of [q] over the denominator [D] *)
Definition scaled (D : Z) (q : Q) : Z := (Qnum q * D / QDen q)%Z.
Definition scalable (D : Z) (q : Q) : bool := (scaled D q * QDen q =? Qnum q * D)%Z.
Fixpoint zpows (n : nat) (x p : Z) : list Z := p :: match n with O => [] | S n => zpows n x (p * x) end.
(** one row per point: weight and powers of the coordinates *)
Definition row (n : nat) (D E : Z) (p : Q * Q * Q) (w : Q) : Z * list Z * list Z * list Z :=
  (scaled E w, zpows n (scaled D (fst (fst p))) 1, zpows n (scaled D (snd (fst p))) 1, zpows n (scaled D (snd p)) 1).
Fixpoint rows_of (n : nat) (D E : Z) (pts : list (Q * Q * Q)) (ws : list Q) :=
  match pts, ws with p :: pts, w :: ws => row n D E p w :: rows_of n D E pts ws | _, _ => [] end.
Definition momentZ (rs : list (Z * list Z * list Z * list Z)) (m : nat * nat * nat) : Z :=
  fold_right (fun r s => match r with (w, xs, ys, zs) =>
    (w * (nth (fst (fst m)) xs 0 * (nth (snd (fst m)) ys 0 * nth (snd m) zs 0)) + s)%Z end) 0%Z rs.
Definition deg (m : nat * nat * nat) : nat := fst (fst m) + snd (fst m) + snd m.
Definition close (D E : Z) (M : nat -> nat -> nat -> Q) (eps : Q) rs (m : nat * nat * nat) : bool :=
  let e := M (fst (fst m)) (snd (fst m)) (snd m) in
  let T := (E * D ^ Z.of_nat (deg m))%Z in
  (Z.abs (momentZ rs m * QDen e - Qnum e * T) * QDen eps <=? Qnum eps * T * QDen e)%Z.
Definition check (n : nat) (D E : Z) pts ws M eps mons : bool :=
  (0 <? D)%Z && (0 <? E)%Z && forallb (fun p => scalable D (fst (fst p)) && scalable D (snd (fst p)) && scalable D (snd p)) pts
  && forallb (scalable E) ws
  && (let rs := rows_of n D E pts ws in
      forallb (fun m => Nat.leb (fst (fst m)) n && Nat.leb (snd (fst m)) n && Nat.leb (snd m) n && close D E M eps rs m) mons).

Lemma zpows_nth n x : forall p k, (k <= n)%nat -> nth k (zpows n x p) 0%Z = (p * x ^ Z.of_nat k)%Z.
Proof.
  induction n; intros p k H; cbn [zpows].
  - replace k with O by lia. cbn. lia.
  - destruct k; [cbn; lia|]. cbn [nth]. rewrite IHn by lia. rewrite Nat2Z.inj_succ, Z.pow_succ_r by lia. ring.
Qed.
Lemma scalable_spec D q : (0 < D)%Z -> scalable D q = true -> Q2R q = IZR (scaled D q) / IZR D.
Proof.
  unfold scalable. rewrite Z.eqb_eq. intros HD E. apply (f_equal IZR) in E. rewrite !mult_IZR in E. unfold Q2R.
  assert (IZR D <> 0) by (apply not_0_IZR; lia). assert (IZR (QDen q) <> 0) by (apply not_0_IZR; lia).
  apply (Rmult_eq_reg_r (IZR (QDen q) * IZR D)); [|apply Rmult_integral_contrapositive_currified; auto].
  replace (IZR (Qnum q) * / IZR (QDen q) * (IZR (QDen q) * IZR D)) with (IZR (Qnum q) * IZR D) by (field; auto).
  rewrite <- E. field. auto.
Qed.
Lemma IZR_pow z k : IZR (z ^ Z.of_nat k) = IZR z ^ k.
Proof. rewrite pow_IZR. reflexivity. Qed.
Lemma momentZ_cons w xs ys zs rs i j k :
  momentZ ((w, xs, ys, zs) :: rs) (i, j, k) = (w * (nth i xs 0 * (nth j ys 0 * nth k zs 0)) + momentZ rs (i, j, k))%Z.
Proof. reflexivity. Qed.
Lemma momentZ_spec n D E i j k pts : forall ws, (0 < D)%Z -> (0 < E)%Z ->
  forallb (fun p => scalable D (fst (fst p)) && scalable D (snd (fst p)) && scalable D (snd p)) pts = true ->
  forallb (scalable E) ws = true -> (i <= n)%nat -> (j <= n)%nat -> (k <= n)%nat ->
  quad (fun p => vx p ^ i * vy p ^ j * vz p ^ k) (map toV pts) (map Q2R ws) * (IZR E * IZR D ^ (i + j + k))
  = IZR (momentZ (rows_of n D E pts ws) (i, j, k)).
Proof.
  induction pts as [|[[x y] z] pts IH]; intros [|w ws] HD HE Hp Hw Hi Hj Hk; cbn [map quad rows_of]; try (cbn; ring).
  cbn [forallb fst snd] in Hp, Hw. apply andb_prop in Hp as [Hp Hps]. apply andb_prop in Hp as [Hxy Hz]. apply andb_prop in Hxy as [Hx Hy].
  apply andb_prop in Hw as [Hw Hws]. unfold row at 1. rewrite momentZ_cons. cbn [fst snd]. rewrite !zpows_nth by auto.
  rewrite plus_IZR, <- IH by auto. rewrite !mult_IZR, !IZR_pow. unfold toV at 1 2 3. cbn [vx vy vz fst snd].
  rewrite (scalable_spec D x), (scalable_spec D y), (scalable_spec D z), (scalable_spec E w) by auto.
  assert (IZR D <> 0) by (apply not_0_IZR; lia). assert (IZR E <> 0) by (apply not_0_IZR; lia).
  rewrite Rmult_plus_distr_r. f_equal. unfold Rdiv. rewrite !Rpow_mult_distr, !pow_inv, !pow_add by auto. field.
  repeat split; auto; apply pow_nonzero; auto.
Qed.
Lemma check_spec n D E pts ws M eps mons i j k : check n D E pts ws M eps mons = true -> In (i, j, k) mons ->
  Rabs (quad (fun p => vx p ^ i * vy p ^ j * vz p ^ k) (map toV pts) (map Q2R ws) - Q2R (M i j k)) <= Q2R eps.
Proof.
  unfold check. intros H I. apply andb_prop in H as [H Hm]. apply andb_prop in H as [H Hws]. apply andb_prop in H as [H Hp].
  apply andb_prop in H as [HD HE]. apply Z.ltb_lt in HD, HE.
  rewrite forallb_forall in Hm. specialize (Hm _ I). cbn [fst snd] in Hm.
  apply andb_prop in Hm as [Hm Hc]. apply andb_prop in Hm as [Hm Hk]. apply andb_prop in Hm as [Hi Hj].
  apply Nat.leb_le in Hi, Hj, Hk.
  pose proof (momentZ_spec n D E i j k pts ws HD HE Hp Hws Hi Hj Hk) as Q.
  set (q := quad _ _ _) in *. unfold close in Hc. cbn [fst snd] in Hc. set (e := M i j k) in *.
  replace (deg (i, j, k)) with (i + j + k)%nat in Hc by reflexivity.
  set (T := (E * D ^ Z.of_nat (i + j + k))%Z) in *.
  assert (0 < T)%Z as HT by (subst T; apply Z.mul_pos_pos; auto; apply Z.pow_pos_nonneg; lia).
  replace (IZR E * IZR D ^ (i + j + k)) with (IZR T) in Q by (subst T; rewrite mult_IZR, IZR_pow; reflexivity).
  apply Z.leb_le, IZR_le in Hc. rewrite !mult_IZR, abs_IZR, minus_IZR, !mult_IZR, <- Q in Hc.
  assert (0 < IZR T) as PT by (apply IZR_lt; auto).
  assert (0 < IZR (QDen e)) as Pe by (apply IZR_lt; lia). assert (0 < IZR (QDen eps)) as Pp by (apply IZR_lt; lia).
  unfold Q2R at 2. unfold Q2R.
  replace (q * IZR T * IZR (QDen e) - IZR (Qnum e) * IZR T) with ((q - IZR (Qnum e) * / IZR (QDen e)) * (IZR T * IZR (QDen e))) in Hc
    by (field; lra).
  rewrite Rabs_mult, (Rabs_pos_eq (IZR T * IZR (QDen e))) in Hc by (apply Rlt_le, Rmult_lt_0_compat; auto).
  apply (Rmult_le_reg_r (IZR T * IZR (QDen e) * IZR (QDen eps))); [repeat apply Rmult_lt_0_compat; auto|].
  replace (IZR (Qnum eps) * / IZR (QDen eps) * (IZR T * IZR (QDen e) * IZR (QDen eps))) with (IZR (Qnum eps) * IZR T * IZR (QDen e)) by (field; lra).
  lra.
Qed.

(** ** Interval arithmetic: integers over 2^80 *)
Definition itv := (Z * Z)%type.
Definition bits : Z := 80.
Definition scale : R := IZR (2 ^ bits).
Definition holds (I : itv) (x : R) : Prop := 0 <= IZR (fst I) /\ IZR (fst I) <= x * scale <= IZR (snd I).
Definition iadd (a b : itv) : itv := (fst a + fst b, snd a + snd b)%Z.
Definition imul (a b : itv) : itv := (Z.shiftr (fst a * fst b) bits, Z.shiftr (snd a * snd b) bits + 1)%Z.
Definition iofQ (q : Q) : itv := let n := (Z.shiftl (Qnum q) bits / QDen q)%Z in (n, n + 1)%Z.
Definition nonnegQ (q : Q) : bool := (0 <=? Qnum q)%Z.

Lemma scale_pos : 0 < scale.
Proof. apply IZR_lt. reflexivity. Qed.
Lemma iadd_holds a b x y : holds a x -> holds b y -> holds (iadd a b) (x + y).
Proof. unfold holds, iadd. cbn [fst snd]. rewrite !plus_IZR, Rmult_plus_distr_r. lra. Qed.
Lemma div_bounds n d : (0 < d)%Z -> IZR (n / d) * IZR d <= IZR n < (IZR (n / d) + 1) * IZR d.
Proof.
  intros H. pose proof (Z.mul_div_le n d H). pose proof (Z.mul_succ_div_gt n d H).
  apply IZR_le in H0. apply IZR_lt in H1. rewrite mult_IZR in *. rewrite succ_IZR in H1. lra.
Qed.
Lemma shift_bounds n : IZR (Z.shiftr n bits) * scale <= IZR n < (IZR (Z.shiftr n bits) + 1) * scale.
Proof. rewrite Z.shiftr_div_pow2 by (unfold bits; lia). apply div_bounds. reflexivity. Qed.
Lemma imul_holds a b x y : holds a x -> holds b y -> holds (imul a b) (x * y).
Proof.
  intros [Pa Ha] [Pb Hb]. unfold holds, imul. cbn [fst snd]. rewrite plus_IZR.
  destruct (shift_bounds (fst a * fst b)) as [L1 L2]. destruct (shift_bounds (snd a * snd b)) as [U1 U2].
  rewrite mult_IZR in *. pose proof scale_pos as S0. split; [|split].
  - apply IZR_le. apply Z.shiftr_nonneg. apply le_IZR in Pa, Pb. apply Z.mul_nonneg_nonneg; auto.
  - apply (Rmult_le_reg_r scale); auto. eapply Rle_trans; [exact L1|].
    replace (x * y * scale * scale) with ((x * scale) * (y * scale)) by ring. apply Rmult_le_compat; lra.
  - apply (Rmult_le_reg_r scale); auto. apply Rlt_le. eapply Rle_lt_trans; [|exact U2].
    replace (x * y * scale * scale) with ((x * scale) * (y * scale)) by ring. apply Rmult_le_compat; lra.
Qed.
Lemma iofQ_holds q : nonnegQ q = true -> holds (iofQ q) (Q2R q).
Proof.
  intros H. apply Z.leb_le in H. unfold holds, iofQ. cbn [fst snd]. rewrite Z.shiftl_mul_pow2 by (unfold bits; lia).
  assert (0 < QDen q)%Z as D by lia. destruct (div_bounds (Qnum q * 2 ^ bits) (QDen q) D) as [L U]. rewrite mult_IZR in L, U. fold scale in L, U.
  rewrite plus_IZR. assert (0 < IZR (QDen q)) as PD by (apply IZR_lt; lia).
  assert (Q2R q * scale * IZR (QDen q) = IZR (Qnum q) * scale) as E by (unfold Q2R; field; lra).
  split; [apply IZR_le, Z.div_pos; auto; apply Z.mul_nonneg_nonneg; auto; unfold bits; lia|].
  split; apply (Rmult_le_reg_r (IZR (QDen q))); auto; lra.
Qed.

(** ** All the monomials of degree at most [n] ([k] at most [c]), times [v], over any type *)
Section Lists.
Context {T : Type} (mul add : T -> T -> T).
Fixpoint zlist (n : nat) (v z : T) : list T := v :: match n with O => [] | S n => zlist n (mul v z) z end.
Fixpoint ylist (c n : nat) (v y z : T) : list T :=
  zlist (Nat.min c n) v z ++ match n with O => [] | S n => ylist c n (mul v y) y z end.
Fixpoint xlist (c n : nat) (v x y z : T) : list T :=
  ylist c n v y z ++ match n with O => [] | S n => xlist c n (mul v x) x y z end.
Fixpoint ladd (l l' : list T) : list T :=
  match l, l' with a :: l, b :: l' => add a b :: ladd l l' | _, _ => [] end.
End Lists.
Fixpoint zexp (n i j k : nat) : list (nat * nat * nat) := (i, j, k) :: match n with O => [] | S n => zexp n i j (S k) end.
Fixpoint yexp (c n i j : nat) : list (nat * nat * nat) := zexp (Nat.min c n) i j 0 ++ match n with O => [] | S n => yexp c n i (S j) end.
Fixpoint xexp (c n i : nat) : list (nat * nat * nat) := yexp c n i 0 ++ match n with O => [] | S n => xexp c n (S i) end.

Definition mono (v x y z : R) (m : nat * nat * nat) : R := v * (x ^ fst (fst m) * y ^ snd (fst m) * z ^ snd m).
Lemma zlist_R n x y z : forall v i j k, zlist Rmult n (v * (x ^ i * y ^ j * z ^ k)) z = map (mono v x y z) (zexp n i j k).
Proof.
  induction n; intros v i j k; cbn [zlist zexp map]; f_equal. rewrite <- IHn. f_equal. cbn [pow]. ring.
Qed.
Lemma ylist_R c n x y z : forall v i j, ylist Rmult c n (v * (x ^ i * y ^ j)) y z = map (mono v x y z) (yexp c n i j).
Proof.
  induction n; intros v i j; cbn [ylist yexp]; rewrite map_app; f_equal.
  - rewrite <- (zlist_R _ x y z v i j 0). f_equal. cbn [pow]. ring.
  - rewrite <- (zlist_R _ x y z v i j 0). f_equal. cbn [pow]. ring.
  - rewrite <- IHn. f_equal. cbn [pow]. ring.
Qed.
Lemma xlist_R c n x y z : forall v i, xlist Rmult c n (v * x ^ i) x y z = map (mono v x y z) (xexp c n i).
Proof.
  induction n; intros v i; cbn [xlist xexp]; rewrite map_app; f_equal.
  - rewrite <- (ylist_R _ _ x y z v i 0). f_equal. cbn [pow]. ring.
  - rewrite <- (ylist_R _ _ x y z v i 0). f_equal. cbn [pow]. ring.
  - rewrite <- IHn. f_equal. cbn [pow]. ring.
Qed.
Lemma ladd_R l (f g : nat * nat * nat -> R) : ladd Rplus (map f l) (map g l) = map (fun m => f m + g m) l.
Proof. induction l; cbn; congruence. Qed.

Lemma zlist_holds n z z' : holds z z' -> forall v v', holds v v' -> Forall2 holds (zlist imul n v z) (zlist Rmult n v' z').
Proof. intros Hz. induction n; intros v v' Hv; cbn [zlist]; constructor; auto. apply IHn, imul_holds; auto. Qed.
Lemma ylist_holds c n y y' z z' : holds y y' -> holds z z' -> forall v v', holds v v' -> Forall2 holds (ylist imul c n v y z) (ylist Rmult c n v' y' z').
Proof.
  intros Hy Hz. induction n; intros v v' Hv; cbn [ylist]; apply Forall2_app; auto using zlist_holds. apply IHn, imul_holds; auto.
Qed.
Lemma xlist_holds c n x x' y y' z z' : holds x x' -> holds y y' -> holds z z' -> forall v v', holds v v' -> Forall2 holds (xlist imul c n v x y z) (xlist Rmult c n v' x' y' z').
Proof.
  intros Hx Hy Hz. induction n; intros v v' Hv; cbn [xlist]; apply Forall2_app; auto using ylist_holds. apply IHn, imul_holds; auto.
Qed.
Lemma ladd_holds l l' : Forall2 holds l l' -> forall k k', Forall2 holds k k' -> Forall2 holds (ladd iadd l k) (ladd Rplus l' k').
Proof. induction 1; intros k k' H'; destruct H'; cbn; constructor; auto using iadd_holds. Qed.

(** the sums of all the monomials over the points *)
Fixpoint isums (c n : nat) (pts : list (Q * Q * Q)) (ws : list Q) : list itv :=
  match pts, ws with
  | (x, y, z) :: pts, w :: ws => ladd iadd (xlist imul c n (iofQ w) (iofQ x) (iofQ y) (iofQ z)) (isums c n pts ws)
  | _, _ => map (fun _ => (0, 0)%Z) (xexp c n 0)
  end.
Definition all_nonneg (pts : list (Q * Q * Q)) (ws : list Q) : bool :=
  forallb (fun p => nonnegQ (fst (fst p)) && nonnegQ (snd (fst p)) && nonnegQ (snd p)) pts && forallb nonnegQ ws.
Definition mquad (pts : list (Q * Q * Q)) (ws : list Q) (m : nat * nat * nat) : R :=
  quad (fun p => vx p ^ fst (fst m) * vy p ^ snd (fst m) * vz p ^ snd m) (map toV pts) (map Q2R ws).
Lemma zero_holds : holds (0, 0)%Z 0.
Proof. unfold holds. cbn [fst snd]. rewrite Rmult_0_l. lra. Qed.
Lemma isums_holds c n pts : forall ws, all_nonneg pts ws = true -> Forall2 holds (isums c n pts ws) (map (mquad pts ws) (xexp c n 0)).
Proof.
  assert (forall l : list (nat * nat * nat), Forall2 holds (map (fun _ => (0, 0)%Z) l) (map (fun _ => 0) l)) as Z0
    by (induction l; cbn; constructor; auto using zero_holds).
  induction pts as [|[[x y] z] pts IH]; intros [|w ws] H; try (apply Z0).
  unfold all_nonneg in H. cbn [forallb fst snd] in H. rewrite !andb_true_iff in H. destruct H as [[[[Hx Hy] Hz] Hp] [Hw Hws]].
  cbn [isums]. rewrite (map_ext _ (fun m => mono (Q2R w) (Q2R x) (Q2R y) (Q2R z) m + mquad pts ws m)).
  - rewrite <- ladd_R. apply ladd_holds.
    + rewrite <- xlist_R. apply xlist_holds; auto using iofQ_holds. cbn [pow]. rewrite Rmult_1_r. auto using iofQ_holds.
    + apply IH. unfold all_nonneg. rewrite Hp, Hws. reflexivity.
  - intros m. unfold mquad, mono. cbn [map quad]. unfold toV at 1 2 3. cbn [vx vy vz fst snd]. ring.
Qed.

(** compare with the exact values *)
Definition near (eps e : Q) (I : itv) : bool :=
  let D := (QDen e * QDen eps)%Z in
  ((snd I * D <=? Z.shiftl (Qnum e * QDen eps + Qnum eps * QDen e) bits)
   && (Z.shiftl (Qnum e * QDen eps - Qnum eps * QDen e) bits <=? fst I * D))%Z.
Lemma near_spec eps e I x : holds I x -> near eps e I = true -> Rabs (x - Q2R e) <= Q2R eps.
Proof.
  unfold near. intros [_ [L U]] H. apply andb_prop in H as [H1 H2]. apply Z.leb_le, IZR_le in H1, H2.
  rewrite Z.shiftl_mul_pow2, !mult_IZR in H1, H2 by (unfold bits; lia). fold scale in H1, H2.
  rewrite plus_IZR, !mult_IZR in H1. rewrite minus_IZR, !mult_IZR in H2.
  assert (0 < IZR (QDen e)) as Pe by (apply IZR_lt; lia). assert (0 < IZR (QDen eps)) as Pp by (apply IZR_lt; lia).
  pose proof scale_pos as Ps. unfold Q2R.
  set (d := IZR (QDen e)) in *. set (d' := IZR (QDen eps)) in *. set (n := IZR (Qnum e)) in *. set (n' := IZR (Qnum eps)) in *.
  assert (0 < d * d') as Pd by (apply Rmult_lt_0_compat; auto).
  assert (0 < d * d' * scale) as Pds by (apply Rmult_lt_0_compat; auto).
  assert (x * scale * (d * d') <= (n * d' + n' * d) * scale) as A by (eapply Rle_trans; [apply Rmult_le_compat_r; [lra|exact U]|lra]).
  assert ((n * d' - n' * d) * scale <= x * scale * (d * d')) as B by (eapply Rle_trans; [exact H2|apply Rmult_le_compat_r; [lra|exact L]]).
  apply Rabs_le. split; apply (Rmult_le_reg_r (d * d' * scale)); auto.
  - replace (- (n' * / d') * (d * d' * scale)) with (- n' * d * scale) by (field; lra).
    replace ((x - n * / d) * (d * d' * scale)) with (x * scale * (d * d') - n * d' * scale) by (field; lra). lra.
  - replace (n' * / d' * (d * d' * scale)) with (n' * d * scale) by (field; lra).
    replace ((x - n * / d) * (d * d' * scale)) with (x * scale * (d * d') - n * d' * scale) by (field; lra). lra.
Qed.
Fixpoint all_near (eps : Q) (M : nat * nat * nat -> Q) (ms : list (nat * nat * nat)) (l : list itv) : bool :=
  match ms, l with m :: ms, it :: l => near eps (M m) it && all_near eps M ms l | _, _ => true end.
Lemma all_near_spec eps M f : forall ms l, Forall2 holds l (map f ms) -> all_near eps M ms l = true ->
  forall m, In m ms -> Rabs (f m - Q2R (M m)) <= Q2R eps.
Proof.
  induction ms as [|m ms IH]; intros l F H m' I; [destruct I|]. cbn [map] in F. inversion F; subst. cbn [all_near] in H.
  apply andb_prop in H as [H1 H2]. destruct I as [<-|I]; [eapply near_spec; eauto|eapply IH; eauto].
Qed.
Definition icheck (c n : nat) (eps : Q) (M : nat * nat * nat -> Q) pts ws : bool :=
  all_nonneg pts ws && all_near eps M (xexp c n 0) (isums c n pts ws).
Lemma icheck_spec c n eps M pts ws m : icheck c n eps M pts ws = true -> In m (xexp c n 0) ->
  Rabs (mquad pts ws m - Q2R (M m)) <= Q2R eps.
Proof.
  unfold icheck. intros H I. apply andb_prop in H as [H1 H2].
  apply (all_near_spec eps M (mquad pts ws) (xexp c n 0) (isums c n pts ws)); auto. apply isums_holds; auto.
Qed.

Lemma in_zexp n i j : forall k k', (k <= k' <= k + n)%nat -> In (i, j, k') (zexp n i j k).
Proof.
  induction n; intros k k' H; cbn [zexp]; [left; f_equal; lia|].
  destruct (Nat.eq_dec k k') as [->|]; [left; auto|right; apply IHn; lia].
Qed.
Lemma in_yexp c n i : forall j j' k, (j <= j')%nat -> (j' - j + k <= n)%nat -> (k <= c)%nat -> In (i, j', k) (yexp c n i j).
Proof.
  induction n; intros j j' k H L C; cbn [yexp]; apply in_or_app.
  - left. replace j' with j by lia. apply in_zexp. lia.
  - destruct (Nat.eq_dec j j') as [->|]; [left; apply in_zexp; lia|right; apply IHn; lia].
Qed.
Lemma in_xexp c n : forall i i' j k, (i <= i')%nat -> (i' - i + j + k <= n)%nat -> (k <= c)%nat -> In (i', j, k) (xexp c n i).
Proof.
  induction n; intros i i' j k H L C; cbn [xexp]; apply in_or_app.
  - left. replace i' with i by lia. apply in_yexp; lia.
  - destruct (Nat.eq_dec i i') as [->|]; [left; apply in_yexp; lia|right; apply IHn; lia].
Qed.

(** ** The tables *)
Definition line_mons (d : nat) : list (nat * nat * nat) := map (fun i => (i, 0, 0)%nat) (seq 0 (S d)).
Definition D17 : Z := (10 ^ 17)%Z.
Definition tri3 (n : nat) : list (Q * Q * Q) := map (fun p => (fst p, snd p, 0%Q)) (Triangle_points n).
(** the degrees *)
Definition tri_deg (n : nat) : nat := match n with 1 => 1 | 3 => 2 | 6 => 4 | 12 => 6 | 16 => 8 | _ => 0 end%nat.
Definition tri_sizes : list nat := [1; 3; 6; 12; 16]%nat.
Definition tet_deg (n : nat) : nat := match n with 1 => 1 | 4 => 2 | 14 => 5 | 15 => 5 | 24 => 6 | 46 => 8 | _ => 0 end%nat.
Definition tet_sizes : list nat := [1; 4; 14; 15; 24; 46]%nat.
Definition eps20 : Q := 1 # (10 ^ 20).
Definition tet_eps (n : nat) : Q := if Nat.eqb n 15 then 1 # (10 ^ 17) else eps20.

Fixpoint pfact (n : nat) : positive := match n with O => 1 | S m => Pos.of_nat n * pfact m end%positive.
Lemma pfact_spec n : IZR (Zpos (pfact n)) = INR (fact n).
Proof.
  induction n; [reflexivity|]. cbn [pfact]. rewrite Pos2Z.inj_mul, mult_IZR, IHn, fact_R_S. f_equal.
  rewrite INR_IZR_INZ. f_equal. lia.
Qed.
Definition triQ (m : nat * nat * nat) : Q := match m with (i, j, _) => Zpos (pfact i * pfact j) # pfact (i + j + 2) end.
Definition tetQ (m : nat * nat * nat) : Q := match m with (i, j, k) => Zpos (pfact i * pfact j * pfact k) # pfact (i + j + k + 3) end.
Lemma triQ_spec i j k : Q2R (triQ (i, j, k)) = tri_integral i j.
Proof. unfold triQ, tri_integral, Q2R. cbn [Qnum Qden]. rewrite Pos2Z.inj_mul, mult_IZR, !pfact_spec. reflexivity. Qed.
Lemma tetQ_spec i j k : Q2R (tetQ (i, j, k)) = tet_integral i j k.
Proof. unfold tetQ, tet_integral, Q2R. cbn [Qnum Qden]. rewrite !Pos2Z.inj_mul, !mult_IZR, !pfact_spec. reflexivity. Qed.

Lemma tri_checked : forallb (fun n => icheck 0 (tri_deg n) eps20 triQ (tri3 n) (Triangle_weights n)) tri_sizes = true.
Proof. vm_compute. reflexivity. Qed.
Lemma tet_checked : forallb (fun n => icheck (tet_deg n) (tet_deg n) (tet_eps n) tetQ (Tetrahedron_points n) (Tetrahedron_weights n)) tet_sizes = true.
Proof. vm_compute. reflexivity. Qed.

(** moments over [-1, 1], plain and with the factor (1-x)^2 *)
Definition momentQ (k : nat) : Q := if Nat.even k then 2 # Pos.of_nat (S k) else 0.
Lemma momentQ_spec k : Q2R (momentQ k) = moment k.
Proof.
  unfold momentQ, moment. rewrite pow1. destruct (Nat.even k) eqn:E.
  - apply Nat.even_spec in E as [m ->]. replace ((-1) ^ S (2 * m)) with (-1).
    + unfold Q2R. cbn [Qnum Qden]. replace (IZR (Z.pos (Pos.of_nat (S (2 * m))))) with (INR (S (2 * m))); [unfold Rdiv; ring|].
      rewrite INR_IZR_INZ. f_equal. lia.
    + rewrite <- tech_pow_Rmult, pow_1_even. ring.
  - assert (Nat.odd k = true) as O by (unfold Nat.odd; rewrite E; auto). apply Nat.odd_spec in O as [m ->].
    replace (S (2 * m + 1)) with (2 * (S m))%nat by lia. rewrite pow_1_even. unfold Q2R. cbn [Qnum Qden]. unfold Rdiv. ring.
Qed.
Definition on_line (xs : list Q) : list (Q * Q * Q) := map (fun x => (x, 0, 0)%Q) xs.
Definition eps15 : Q := 2 # (10 ^ 15).
Definition leg6_points : list Q := [(- 932469514203152 # 1000000000000000)%Q; (- 6612093864662645 # 10000000000000000)%Q;
  (- 23861918608319693 # 100000000000000000)%Q; (23861918608319693 # 100000000000000000)%Q;
  (6612093864662645 # 10000000000000000)%Q; (932469514203152 # 1000000000000000)%Q].
Definition leg6_weights : list Q := [(17132449237917016 # 100000000000000000)%Q; (36076157304813855 # 100000000000000000)%Q;
  (4679139345726912 # 10000000000000000)%Q; (4679139345726912 # 10000000000000000)%Q;
  (36076157304813855 # 100000000000000000)%Q; (17132449237917016 # 100000000000000000)%Q].
Lemma leg6_checked : check 11 D17 D17 (on_line leg6_points) leg6_weights (fun i _ _ => momentQ i) eps15 (line_mons 11) = true.
Proof. vm_compute. reflexivity. Qed.
Definition jacobiQ (k : nat) : Q := (momentQ k - 2 * momentQ (k + 1) + momentQ (k + 2))%Q.
Lemma jacobi_checked : forallb (fun n => check (2 * n - 1) D17 D17 (on_line (Jacobi_points n)) (Jacobi_weights n) (fun i _ _ => jacobiQ i) eps15 (line_mons (2 * n - 1))) [1; 2; 3; 4; 5]%nat = true.
Proof. vm_compute. reflexivity. Qed.

Lemma quad_map_points {A B} (f : B -> R) (g : A -> B) xs : forall ws, quad f (map g xs) ws = quad (fun x => f (g x)) xs ws.
Proof. induction xs; intros [|w ws]; cbn; auto. rewrite IHxs. reflexivity. Qed.

Lemma tri_moment n i j : In n tri_sizes -> (i + j <= tri_deg n)%nat ->
  Rabs (quad (fun p => vx p ^ i * vy p ^ j) (Triangle_coords_R n) (Triangle_weights_R n) - tri_integral i j) <= Q2R eps20.
Proof.
  intros I L. pose proof (proj1 (forallb_forall _ _) tri_checked n I) as C. cbv beta in C.
  pose proof (icheck_spec _ _ _ _ _ _ (i, j, 0%nat) C (in_xexp 0 (tri_deg n) 0 i j 0 ltac:(lia) ltac:(lia) ltac:(lia))) as K.
  rewrite triQ_spec in K. eapply Rle_trans; [|exact K].
  right. f_equal. f_equal. unfold mquad, Triangle_coords_R, Triangle_weights_R, tri3. rewrite map_map, !quad_map_points. apply quad_ext.
  intros x. unfold toV. cbn [vx vy vz fst snd pow]. ring.
Qed.
Lemma tet_moment n i j k : In n tet_sizes -> (i + j + k <= tet_deg n)%nat ->
  Rabs (quad (fun p => vx p ^ i * vy p ^ j * vz p ^ k) (Tetrahedron_coords_R n) (Tetrahedron_weights_R n) - tet_integral i j k) <= Q2R (tet_eps n).
Proof.
  intros I L. pose proof (proj1 (forallb_forall _ _) tet_checked n I) as C. cbv beta in C.
  pose proof (icheck_spec _ _ _ _ _ _ (i, j, k) C (in_xexp (tet_deg n) (tet_deg n) 0 i j k ltac:(lia) ltac:(lia) ltac:(lia))) as K.
  rewrite tetQ_spec in K. exact K.
Qed.
Lemma leg6_moment i : (i <= 11)%nat -> Rabs (quad (fun x => x ^ i) (Legendre_points 6) (Legendre_weights 6) - moment i) <= Q2R eps15.
Proof.
  intros L. pose proof (check_spec _ _ _ _ _ _ _ _ i 0 0 leg6_checked) as K. cbv beta in K. rewrite momentQ_spec in K. eapply Rle_trans; [|apply K].
  - right. f_equal. f_equal. unfold on_line. change (Legendre_points 6) with (map Q2R leg6_points).
    change (Legendre_weights 6) with (map Q2R leg6_weights). rewrite map_map, !quad_map_points. apply quad_ext.
    intros x. unfold toV. cbn [vx vy vz fst snd pow]. ring.
  - unfold line_mons. apply in_map_iff. exists i. split; auto. apply in_seq. lia.
Qed.
Lemma jacobi_moment n i : (1 <= n <= 5)%nat -> (i <= 2 * n - 1)%nat ->
  Rabs (quad (fun x => x ^ i) (map Q2R (Jacobi_points n)) (map Q2R (Jacobi_weights n)) - (moment i - 2 * moment (i + 1) + moment (i + 2))) <= Q2R eps15.
Proof.
  intros I L. assert (In n [1; 2; 3; 4; 5]%nat) as J by (cbn; lia).
  pose proof (proj1 (forallb_forall _ _) jacobi_checked n J) as C. cbv beta in C.
  pose proof (check_spec _ _ _ _ _ _ _ _ i 0 0 C) as K. cbv beta in K. eapply Rle_trans; [|apply K].
  - right. f_equal. f_equal.
    + unfold on_line. rewrite map_map, !quad_map_points. apply quad_ext. intros x. unfold toV. cbn [vx vy vz fst snd pow]. ring.
    + unfold jacobiQ. rewrite Q2R_plus, Q2R_minus, Q2R_mult, !momentQ_spec. replace (Q2R 2) with 2; [reflexivity|]. unfold Q2R. cbn. lra.
  - unfold line_mons. apply in_map_iff. exists i. split; auto. apply in_seq. lia.
Qed.
