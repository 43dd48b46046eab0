(** Proofs about the discrete inner product and OrthoNormalize. *)
From Coq Require Import Reals List Arith Lia Lra.
From Verif Require Import Vec3 RSum Model_Basis Model_Projection Spec_Projection Proof_Vincent.
Import ListNotations.
Open Scope R_scope.

(** ** Quadrature *)

Lemma fold_sum {A} (h : A -> R) l a : fold_left (fun s p => s + h p) l a = a + fold_left (fun s p => s + h p) l 0.
Proof.
  revert a; induction l as [|p l IH]; intros a; cbn [fold_left]; [ring|]. rewrite (IH (a + h p)), (IH (0 + h p)). ring.
Qed.
Lemma Integrate_cons f p g : Integrate f (p :: g) = f (snd p) * fst p + Integrate f g.
Proof.
  unfold Integrate. cbn [fold_left]. rewrite (fold_sum (fun p => f (snd p) * fst p)). ring.
Qed.
Lemma Integrate_nil f : Integrate f [] = 0. Proof. reflexivity. Qed.
Lemma Integrate_quadrature f g : Integrate f g = quadrature f g.
Proof.
  induction g as [|p g IH]; [reflexivity|]. rewrite Integrate_cons, IH. unfold quadrature.
  cbn [length]. rewrite rsum_first. cbn [nth]. ring.
Qed.
Lemma Integrate_ext f h g : (forall p, In p g -> f (snd p) = h (snd p)) -> Integrate f g = Integrate h g.
Proof.
  intros E. induction g as [|p g IH]; [reflexivity|]. rewrite !Integrate_cons, IH, (E p); [reflexivity|left; reflexivity|].
  intros q Q. apply E. right. exact Q.
Qed.
Lemma Integrate_mul c f g : Integrate (fun x => c * f x) g = c * Integrate f g.
Proof. induction g as [|p g IH]; [rewrite !Integrate_nil; ring|]. rewrite !Integrate_cons, IH. ring. Qed.
Lemma Integrate_add f h g : Integrate (fun x => f x + h x) g = Integrate f g + Integrate h g.
Proof. induction g as [|p g IH]; [rewrite !Integrate_nil; ring|]. rewrite !Integrate_cons, IH. ring. Qed.
Lemma Integrate_0 g : Integrate (fun _ => 0) g = 0.
Proof. induction g as [|p g IH]; [reflexivity|]. rewrite Integrate_cons, IH. ring. Qed.
Lemma Integrate_rsum n (f : nat -> vec -> R) g : Integrate (fun x => rsum n (fun i => f i x)) g = rsum n (fun i => Integrate (f i) g).
Proof.
  induction n as [|n IH]; [apply Integrate_0|]. cbn [rsum]. rewrite <- IH. rewrite <- Integrate_add. reflexivity.
Qed.
Lemma Integrate_nonneg f g : positive_weights g -> (forall p, In p g -> 0 <= f (snd p)) -> 0 <= Integrate f g.
Proof.
  intros W F. induction g as [|p g IH]; [rewrite Integrate_nil; lra|]. rewrite Integrate_cons.
  assert (0 < fst p) by (apply W; left; reflexivity). assert (0 <= f (snd p)) by (apply F; left; reflexivity).
  assert (0 <= Integrate f g) by (apply IH; intros q Q; [apply W|apply F]; right; exact Q). nra.
Qed.
Lemma Integrate_zero_each f g : positive_weights g -> (forall p, In p g -> 0 <= f (snd p)) -> Integrate f g = 0 ->
  forall p, In p g -> f (snd p) = 0.
Proof.
  intros W F. induction g as [|p g IH]; [intros _ p []|]. rewrite Integrate_cons. intros Z.
  assert (0 < fst p) by (apply W; left; reflexivity). assert (0 <= f (snd p)) by (apply F; left; reflexivity).
  assert (0 <= Integrate f g) as N by (apply Integrate_nonneg; intros q Q; [apply W|apply F]; right; exact Q).
  intros q [<-|Q]; [nra|]. apply IH; try assumption; [intros r I; apply W; right; exact I|intros r I; apply F; right; exact I|nra].
Qed.

(** ** Bilinear forms *)

Definition form (N : nat) (a : MatNxN) (u v : nat -> R) : R := rsum N (fun k => rsum N (fun l => u k * a k l * v l)).
Definition symmetric (N : nat) (a : MatNxN) : Prop := forall i j, (i < N)%nat -> (j < N)%nat -> a i j = a j i.
Definition definite (N : nat) (a : MatNxN) : Prop :=
  forall u, (exists i, (i < N)%nat /\ u i <> 0) -> 0 < form N a u u.
Definition kronecker (i j : nat) : R := if Nat.eqb i j then 1 else 0.

Lemma form_ext N a u u' v v' : (forall i, (i < N)%nat -> u i = u' i) -> (forall i, (i < N)%nat -> v i = v' i) ->
  form N a u v = form N a u' v'.
Proof. intros U V. apply rsum_ext. intros k K. apply rsum_ext. intros l L. rewrite U, V by assumption. reflexivity. Qed.
Lemma form_sub_r N a u v c w : form N a u (fun l => v l - c * w l) = form N a u v - c * form N a u w.
Proof.
  unfold form. rewrite <- rsum_mul_l, <- rsum_sub. apply rsum_ext. intros k K.
  rewrite <- rsum_mul_l, <- rsum_sub. apply rsum_ext. intros l L. ring.
Qed.
Lemma form_scale N a c u d v : form N a (fun l => c * u l) (fun l => d * v l) = c * d * form N a u v.
Proof.
  unfold form. rewrite <- rsum_mul_l. apply rsum_ext. intros k K. rewrite <- rsum_mul_l. apply rsum_ext. intros l L. ring.
Qed.
Lemma form_sym N a u v : symmetric N a -> form N a u v = form N a v u.
Proof.
  intros A. unfold form. rewrite rsum_swap. apply rsum_ext. intros k K. apply rsum_ext. intros l L. rewrite A by assumption. ring.
Qed.
Lemma form_unit_r N a u i : (i < N)%nat -> form N a u (identity i) = rsum N (fun k => u k * a k i).
Proof.
  intros L. apply rsum_ext. intros k K. rewrite (rsum_single N i); [unfold identity; rewrite Nat.eqb_refl; ring|exact L|].
  intros l _ D. unfold identity. destruct (Nat.eqb_spec i l); [congruence|ring].
Qed.

(** a sum whose terms vanish after [m] *)
Lemma rsum_cut m n f : (m <= n)%nat -> (forall i, (m <= i < n)%nat -> f i = 0) -> rsum n f = rsum m f.
Proof.
  intros L Z. replace n with (m + (n - m))%nat by lia. rewrite rsum_app, (rsum_zero (n - m)); [ring|].
  intros i I. apply Z. lia.
Qed.

(** ** The loops *)

Lemma ortho_step_row a s i row j l : ortho_step a s i row j l = row l - rsum (S j) (fun k => s j k * a k i) * (if Nat.leb l j then s j l else 0).
Proof. unfold ortho_step. destruct (Nat.leb l j); ring. Qed.

Lemma norm_sq_square m a row : (forall i j, (i < m)%nat -> (j < m)%nat -> a i j = a j i) ->
  rsum m (fun j => row j * (row j * a j j + rsum j (fun k => 2 * row k * a k j))) =
  rsum m (fun k => rsum m (fun l => row k * a k l * row l)).
Proof.
  induction m as [|m IH]; intros A; [reflexivity|].
  cbn [rsum]. rewrite IH by (intros; apply A; lia). rewrite rsum_add.
  rewrite (rsum_ext m (fun l => row m * a m l * row l) (fun k => row k * a k m * row m)).
  2: { intros k K. rewrite (A m k) by lia. ring. }
  rewrite (rsum_ext m (fun k => 2 * row k * a k m) (fun k => 2 * (row k * a k m))) by (intros; ring).
  rewrite rsum_mul_l, rsum_mul_r. ring.
Qed.

Section GramSchmidt.
Variable N : nat.
Variable a : MatNxN.
Hypothesis Sym : symmetric N a.
Hypothesis Def : definite N a.

(** what holds of the first [m] rows *)
Definition done (s : MatNxN) (m : nat) : Prop :=
  (forall j l, (j < m)%nat -> (j < l)%nat -> s j l = 0) /\
  (forall j, (j < m)%nat -> 0 < s j j) /\
  (forall i j, (i < m)%nat -> (j < m)%nat -> form N a (s i) (s j) = kronecker i j).

Definition partial_row (s : MatNxN) (i m : nat) : nat -> R := fold_left (ortho_step a s i) (seq 0 m) (identity i).

Lemma partial_row_S s i m : partial_row s i (S m) = ortho_step a s i (partial_row s i m) m.
Proof. unfold partial_row. rewrite seq_S, fold_left_app. reflexivity. Qed.

Lemma partial_row_form s i : (i < N)%nat -> done s i -> forall m, (m <= i)%nat ->
  (forall l, (m <= l)%nat -> partial_row s i m l = identity i l) /\
  (forall j, (j < i)%nat -> form N a (s j) (partial_row s i m) = if Nat.ltb j m then 0 else form N a (s j) (identity i)).
Proof.
  intros I (T & P & O) m. induction m as [|m IH]; intros M.
  { split; [reflexivity|]. intros j J. reflexivity. }
  destruct (IH ltac:(lia)) as (A & B). rewrite partial_row_S. split.
  - intros l L. unfold ortho_step. destruct (Nat.leb_spec l m); [lia|]. apply A. lia.
  - intros j J. rewrite (form_ext N a (s j) (s j) _ (fun l => partial_row s i m l - rsum (S m) (fun k => s m k * a k i) * s m l)).
    + rewrite form_sub_r. rewrite O by lia. unfold kronecker. rewrite B by exact J.
      replace (rsum (S m) (fun k => s m k * a k i)) with (form N a (s m) (identity i)).
      * destruct (Nat.ltb_spec j m), (Nat.ltb_spec j (S m)), (Nat.eqb_spec j m); try lia; subst; ring.
      * rewrite form_unit_r by exact I. apply rsum_cut; [lia|]. intros k K. rewrite T by lia. ring.
    + reflexivity.
    + intros l L. rewrite ortho_step_row. destruct (Nat.leb_spec l m); [reflexivity|]. rewrite (T m l) by lia. ring.
Qed.

Lemma norm_sq_form s i : (i < N)%nat -> (forall l, (i < l)%nat -> s l = 0) -> ortho_norm_sq a i s = form N a s s.
Proof.
  intros I Z. unfold ortho_norm_sq. cbv zeta.
  rewrite (norm_sq_square (S i) a s) by (intros; apply Sym; lia). unfold form.
  rewrite (rsum_cut (S i) N (fun k => rsum N (fun l => s k * a k l * s l))).
  - apply rsum_ext. intros k K. rewrite (rsum_cut (S i) N); [reflexivity|lia|]. intros l L. rewrite (Z l) by lia. ring.
  - lia.
  - intros k K. apply rsum_zero. intros l L. rewrite (Z k) by lia. ring.
Qed.

Lemma ortho_row_done s i : (i < N)%nat -> done s i ->
  (forall l, (i < l)%nat -> ortho_row a s i l = 0) /\ 0 < ortho_row a s i i /\
  (forall j, (j < i)%nat -> form N a (s j) (ortho_row a s i) = 0) /\
  form N a (ortho_row a s i) (ortho_row a s i) = 1.
Proof.
  intros I D. destruct (partial_row_form s i I D i (Nat.le_refl i)) as (A & B).
  set (row := partial_row s i i) in *. 
  assert (E : forall l, ortho_row a s i l = / sqrt (ortho_norm_sq a i row) * row l).
  { intros l. unfold ortho_row. fold (partial_row s i i). fold row. unfold Rdiv. apply Rmult_comm. }
  assert (Z : forall l, (i < l)%nat -> row l = 0).
  { intros l L. rewrite A by lia. unfold identity. destruct (Nat.eqb_spec i l); [lia|reflexivity]. }
  assert (U : row i = 1). { rewrite A by lia. unfold identity. rewrite Nat.eqb_refl. reflexivity. }
  assert (Q : 0 < ortho_norm_sq a i row).
  { rewrite (norm_sq_form row i I Z). apply Def. exists i. split; [exact I|]. rewrite U. lra. }
  assert (0 < / sqrt (ortho_norm_sq a i row)) as IQ by (apply Rinv_0_lt_compat, sqrt_lt_R0, Q).
  repeat split.
  - intros l L. rewrite E, (Z l L). ring.
  - rewrite E, U. lra.
  - intros j J. rewrite (form_ext N a (s j) (fun l => 1 * s j l) (ortho_row a s i) (fun l => / sqrt (ortho_norm_sq a i row) * row l));
      [|intros; ring|intros; apply E].
    rewrite form_scale, (B j J). destruct (Nat.ltb_spec j i); [ring|lia].
  - rewrite (form_ext N a _ (fun l => / sqrt (ortho_norm_sq a i row) * row l) _ (fun l => / sqrt (ortho_norm_sq a i row) * row l)); try (intros; apply E).
    rewrite form_scale, <- (norm_sq_form row i I Z).
    assert (sqrt (ortho_norm_sq a i row) * sqrt (ortho_norm_sq a i row) = ortho_norm_sq a i row) as SQ by (apply sqrt_sqrt; lra).
    assert (sqrt (ortho_norm_sq a i row) <> 0) by (apply Rgt_not_eq, sqrt_lt_R0, Q).
    rewrite <- SQ at 3. field. assumption.
Qed.

Lemma ortho_matrix_done i : (i < N)%nat -> done (ortho_matrix a i) (S i).
Proof.
  induction i as [|i IH]; intros L.
  - assert (Q : 0 < a 0%nat 0%nat).
    { assert (0 < form N a (identity 0%nat) (identity 0%nat)) as F.
      { apply Def. exists 0%nat. split; [exact L|]. unfold identity. cbn. lra. }
      rewrite form_unit_r in F by exact L. rewrite (rsum_single N 0) in F; [unfold identity in F; cbn [Nat.eqb] in F; lra|exact L|].
      intros k _ K. unfold identity. destruct (Nat.eqb_spec 0 k); [congruence|ring]. }
    assert (0 < sqrt (a 0%nat 0%nat)) as R0 by (apply sqrt_lt_R0, Q).
    assert (E : forall l, ortho_matrix a 0%nat 0%nat l = / sqrt (a 0%nat 0%nat) * identity 0%nat l).
    { intros l. cbn [ortho_matrix]. unfold identity. destruct l; cbn [Nat.eqb andb]; [field; lra|ring]. }
    split; [|split].
    + intros j l J K. replace j with 0%nat by lia. rewrite E. unfold identity. destruct (Nat.eqb_spec 0 l); [lia|ring].
    + intros j J. replace j with 0%nat by lia. rewrite E. unfold identity. cbn [Nat.eqb]. apply Rinv_0_lt_compat in R0. lra.
    + intros j j' J J'. replace j with 0%nat by lia. replace j' with 0%nat by lia.
      rewrite (form_ext N a _ (fun l => / sqrt (a 0%nat 0%nat) * identity 0%nat l) _ (fun l => / sqrt (a 0%nat 0%nat) * identity 0%nat l)); try (intros; apply E).
      rewrite form_scale, form_unit_r by exact L. rewrite (rsum_single N 0); [|exact L|].
      * unfold identity, kronecker. cbn [Nat.eqb]. rewrite <- (sqrt_sqrt (a 0%nat 0%nat)) at 3 by lra. field. lra.
      * intros k _ K. unfold identity. destruct (Nat.eqb_spec 0 k); [congruence|ring].
  - assert (D : done (ortho_matrix a i) (S i)) by (apply IH; lia).
    destruct (ortho_row_done (ortho_matrix a i) (S i) L D) as (A & B & C & F). destruct D as (T & P & O).
    assert (E : forall r l, ortho_matrix a (S i) r l = if Nat.eqb r (S i) then ortho_row a (ortho_matrix a i) (S i) l else ortho_matrix a i r l)
      by reflexivity.
    assert (NE : forall r, (r < S i)%nat -> Nat.eqb r (S i) = false) by (intros r G; apply Nat.eqb_neq; lia).
    split; [|split].
    + intros j l J K. rewrite E. destruct (Nat.eqb_spec j (S i)); [apply A; lia|apply T; lia].
    + intros j J. rewrite E. destruct (Nat.eqb_spec j (S i)); [subst; exact B|apply P; lia].
    + intros j j' J J'. unfold kronecker.
      destruct (Nat.eq_dec j (S i)) as [->|Dj], (Nat.eq_dec j' (S i)) as [->|Dj'].
      * rewrite Nat.eqb_refl. rewrite <- F. apply form_ext; intros l _; rewrite E, Nat.eqb_refl; reflexivity.
      * rewrite (form_sym _ _ _ _ Sym). replace (Nat.eqb (S i) j') with false by (symmetry; apply Nat.eqb_neq; lia).
        rewrite <- (C j' ltac:(lia)). apply form_ext; intros l _; rewrite E; [rewrite NE by lia|rewrite Nat.eqb_refl]; reflexivity.
      * rewrite NE by lia. rewrite <- (C j ltac:(lia)). apply form_ext; intros l _; rewrite E; [rewrite NE by lia|rewrite Nat.eqb_refl]; reflexivity.
      * fold (kronecker j j'). rewrite <- (O j j') by lia. apply form_ext; intros l _; rewrite E, NE by lia; reflexivity.
Qed.
End GramSchmidt.

(** ** From the matrix to the functions *)

Lemma gram_symmetric N b g : symmetric N (gram b g).
Proof. intros i j _ _. apply Integrate_ext. intros. ring. Qed.
Lemma gram_form N b g u v :
  form N (gram b g) u v = Integrate (fun x => rsum N (fun i => u i * nth i (b x) 0) * rsum N (fun j => v j * nth j (b x) 0)) g.
Proof.
  unfold form, gram. rewrite (Integrate_ext _ (fun x => rsum N (fun k => rsum N (fun l => u k * v l * (nth k (b x) 0 * nth l (b x) 0))))).
  - rewrite Integrate_rsum. apply rsum_ext. intros k K. rewrite Integrate_rsum. apply rsum_ext. intros l L.
    rewrite Integrate_mul. ring.
  - intros p _. rewrite rsum_mul. apply rsum_ext. intros k K. apply rsum_ext. intros l L. ring.
Qed.
Lemma gram_definite N b g : positive_weights g -> independent N b g -> definite N (gram b g).
Proof.
  intros W I u (i & L & U). rewrite gram_form.
  set (f := fun x => rsum N (fun i => u i * nth i (b x) 0)).
  assert (forall p : R * vec, In p g -> 0 <= f (snd p) * f (snd p)) as NN by (intros p _; apply Rle_0_sqr).
  destruct (Integrate_nonneg (fun x => f x * f x) g W NN) as [P|Z]; [exact P|]. exfalso. apply U.
  apply (I u); [|exact L]. intros p P. symmetry in Z.
  pose proof (Integrate_zero_each (fun x => f x * f x) g W NN Z p P) as Q. cbv beta in Q. fold (f (snd p)). nra.
Qed.
