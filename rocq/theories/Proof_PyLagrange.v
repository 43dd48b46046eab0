(** Lagrange's polynomials of the Python package. *)
From Coq Require Import Reals List Lra Lia Arith Bool.
From Coquelicot Require Import Coquelicot.
From Verif Require Import Arrays RSum Spec_Gauss Model_PyEuler Model_PyPoly Spec_PyPoly Proof_PyPoly Proof_PyCorrect.
Import ListNotations.
Open Scope R_scope.

Definition prodl {A} (f : A -> R) (l : list A) : R := fold_right Rmult 1 (map f l).
Definition suml {A} (f : A -> R) (l : list A) : R := fold_right Rplus 0 (map f l).
Definition but (i : nat) (l : list nat) : list nat := filter (fun j => negb (j =? i)) l.

Lemma for_range_ext {A} n : forall j (f g : nat -> A -> option A) a,
  (forall k a, (j <= k < j + n)%nat -> f k a = g k a) -> for_range n j f a = for_range n j g a.
Proof.
  induction n; intros j f g a H; cbn; [reflexivity|]. rewrite (H j a) by lia. destruct (g j a); cbn; [|reflexivity].
  apply IHn. intros. apply H. lia.
Qed.
Lemma for_range_prod n q i : forall j a,
  for_range n j (fun k v => if (k =? i)%nat then Some v else Some (v * q k)) a = Some (a * prodl q (but i (seq j n))).
Proof.
  induction n; intros j a; cbn [for_range seq but filter]; [unfold prodl; cbn; f_equal; ring|].
  destruct (Nat.eqb_spec j i); cbn [negb bind]; rewrite IHn; [reflexivity|]. unfold prodl, but. cbn [map fold_right]. f_equal. ring.
Qed.
Lemma for_range_sum n q i : forall j a,
  for_range n j (fun k v => if (k =? i)%nat then Some v else Some (v + q k)) a = Some (a + suml q (but i (seq j n))).
Proof.
  induction n; intros j a; cbn [for_range seq but filter]; [unfold suml; cbn; f_equal; ring|].
  destruct (Nat.eqb_spec j i); cbn [negb bind]; rewrite IHn; [reflexivity|]. unfold suml, but. cbn [map fold_right]. f_equal. ring.
Qed.
Lemma for_range_pair n p q i i' : forall j a,
  for_range n j (fun k d => if (k =? i)%nat || (k =? i')%nat then Some d else Some (fst d * p k, snd d * q k)) a
  = Some (fst a * prodl p (but i' (but i (seq j n))), snd a * prodl q (but i' (but i (seq j n)))).
Proof.
  induction n; intros j a; cbn [for_range seq but filter]; [unfold prodl; cbn; destruct a; cbn; f_equal; f_equal; ring|].
  destruct (Nat.eqb_spec j i); cbn [negb bind orb]; [rewrite IHn; reflexivity|].
  cbn [but filter]. destruct (Nat.eqb_spec j i'); cbn [negb bind orb]; rewrite IHn; [reflexivity|].
  unfold prodl, but. cbn [map fold_right fst snd]. f_equal. f_equal; ring.
Qed.
Lemma in_but i j l : In j (but i l) <-> In j l /\ j <> i.
Proof. unfold but. rewrite filter_In, negb_true_iff, Nat.eqb_neq. tauto. Qed.
Lemma prodl_nz {A} (f : A -> R) l : (forall j, In j l -> f j <> 0) -> prodl f l <> 0.
Proof.
  induction l; intros H; unfold prodl in *; cbn [map fold_right]; [lra|].
  apply Rmult_integral_contrapositive_currified; [apply H; left; auto|apply IHl; intros; apply H; right; auto].
Qed.
Lemma prodl_ext {A} (f g : A -> R) l : (forall j, In j l -> f j = g j) -> prodl f l = prodl g l.
Proof. intros H. unfold prodl. f_equal. apply map_ext_in. auto. Qed.
Lemma suml_ext {A} (f g : A -> R) l : (forall j, In j l -> f j = g j) -> suml f l = suml g l.
Proof. intros H. unfold suml. f_equal. apply map_ext_in. auto. Qed.
Lemma prodl_div {A} (f g : A -> R) l : (forall j, In j l -> g j <> 0) -> prodl (fun j => f j / g j) l = prodl f l / prodl g l.
Proof.
  induction l; intros H; unfold prodl in *; cbn [map fold_right]; [field|].
  rewrite IHl by (intros; apply H; right; auto). field. split; [apply (prodl_nz g l); intros; apply H; right; auto|apply H; left; auto].
Qed.

Section Points.
  Variable points : list R.
  Hypothesis ND : NoDup points.
  Let n := length points.
  Let X (j : nat) := nth j points 0.
  Lemma distinct i j : (i < n)%nat -> (j < n)%nat -> i <> j -> X i - X j <> 0.
  Proof. intros A B C E. apply C. apply (proj1 (NoDup_nth points 0) ND); auto. unfold X in E. lra. Qed.
  Definition ell (i : nat) (x : R) : R := prodl (fun j => (x - X j) / (X i - X j)) (but i (seq 0 n)).
  Definition ell' (i : nat) (x : R) : R :=
    suml (fun j => 1 / (X i - X j) * prodl (fun k => (x - X k) / (X i - X k)) (but j (but i (seq 0 n)))) (but i (seq 0 n)).
  Lemma in_js i j : In j (but i (seq 0 n)) -> (j < n)%nat /\ j <> i.
  Proof. rewrite in_but, in_seq. lia. Qed.
  Lemma value_ell i x : (i < n)%nat -> IthLagrange_value i points x = Some (ell i x).
  Proof.
    intros H. unfold IthLagrange_value. fold n. destruct (Nat.ltb_spec i n); [|lia].
    rewrite (for_range_ext n 0 _ (fun k v => if (k =? i)%nat then Some v else Some (v * ((x - X k) / (X i - X k))))).
    - rewrite (for_range_prod n (fun k => (x - X k) / (X i - X k))). f_equal. unfold ell. ring.
    - intros k a Hk. destruct (Nat.eqb_spec k i); [reflexivity|]. unfold div. fold (X i) (X k).
      destruct (Req_EM_T (X i - X k) 0) as [E|E]; [|reflexivity]. exfalso. revert E. apply distinct; auto; lia.
  Qed.
  Lemma gradient_ell i x : (i < n)%nat -> IthLagrange_gradient i points x = Some (ell' i x).
  Proof.
    intros H. unfold IthLagrange_gradient. fold n. destruct (Nat.ltb_spec i n); [|lia].
    rewrite (for_range_ext n 0 _ (fun k v => if (k =? i)%nat then Some v else
       Some (v + (1 / (X i - X k) * prodl (fun k => (x - X k) / (X i - X k)) (but k (but i (seq 0 n))))))).
    - rewrite (for_range_sum n (fun k => 1 / (X i - X k) * prodl (fun k => (x - X k) / (X i - X k)) (but k (but i (seq 0 n))))).
      f_equal. unfold ell'. ring.
    - intros k a Hk. destruct (Nat.eqb_spec k i); [reflexivity|].
      rewrite (for_range_pair n (fun k => x - nth k points 0) (fun k => nth i points 0 - nth k points 0)). cbn [bind fst snd].
      fold (X i) (X k). unfold div.
      assert (A : X i - X k <> 0) by (apply distinct; auto; lia).
      assert (B : forall j, In j (but k (but i (seq 0 n))) -> X i - X j <> 0).
      { intros j Hj. apply in_but in Hj as [Hj _]. apply in_js in Hj. apply distinct; auto; lia. }
      assert (C : prodl (fun j => X i - X j) (but k (but i (seq 0 n))) <> 0) by (apply prodl_nz; auto).
      unfold X in A, B, C |- *. destruct (Req_EM_T _ 0) as [E|E].
      + exfalso. revert E. apply Rmult_integral_contrapositive_currified; auto.
      + cbn [bind]. f_equal. f_equal. rewrite prodl_div by auto. field. auto.
  Qed.
  Lemma prod_derive (f f' : nat -> R -> R) x l : NoDup l -> (forall j, In j l -> is_derive (f j) x (f' j x)) ->
    is_derive (fun x => prodl (fun j => f j x) l) x (suml (fun j => f' j x * prodl (fun k => f k x) (but j l)) l).
  Proof.
    induction l as [|a l IH]; intros N H.
    - apply (is_derive_ext (fun _ => 1)); [reflexivity|]. unfold suml. cbn. apply @is_derive_const.
    - apply NoDup_cons_iff in N as [N1 N2].
      assert (E : but a (a :: l) = l).
      { unfold but. cbn. rewrite Nat.eqb_refl. cbn. clear -N1. induction l as [|b l IH]; cbn; [reflexivity|].
        destruct (Nat.eqb_spec b a) as [->|E]; [exfalso; apply N1; left; auto|]. cbn. f_equal. apply IH. intros Hc. apply N1. right. auto. }
      assert (F : suml (fun j => f' j x * prodl (fun k => f k x) (but j (a :: l))) l
                  = f a x * suml (fun j => f' j x * prodl (fun k => f k x) (but j l)) l).
      { unfold suml. assert (G : forall m, (forall j, In j m -> j <> a) ->
           fold_right Rplus 0 (map (fun j => f' j x * prodl (fun k => f k x) (but j (a :: l))) m)
           = f a x * fold_right Rplus 0 (map (fun j => f' j x * prodl (fun k => f k x) (but j l)) m)).
        { induction m as [|j m IHm]; intros Hm; cbn [map fold_right]; [ring|].
          rewrite IHm by (intros; apply Hm; right; auto). unfold but at 1. cbn [filter].
          destruct (Nat.eqb_spec a j); [exfalso; apply (Hm j); [left|]; auto|]. cbn [negb]. fold (but j l).
          unfold prodl at 1. cbn [map fold_right]. fold (prodl (fun k => f k x) (but j l)). ring. }
        apply G. intros j Hj ->. auto. }
      unfold suml at 1. cbn [map fold_right]. rewrite E.
      change (fold_right Rplus 0 (map (fun j => f' j x * prodl (fun k => f k x) (but j (a :: l))) l))
        with (suml (fun j => f' j x * prodl (fun k => f k x) (but j (a :: l))) l). rewrite F.
      unfold prodl at 1. cbn [map fold_right].
      apply (is_derive_mult (f a) (fun x => prodl (fun j => f j x) l)); [apply H; left; auto| |intros; apply Rmult_comm].
      apply IH; auto. intros; apply H; right; auto.
  Qed.
  Lemma ell_derive i x : (i < n)%nat -> is_derive (ell i) x (ell' i x).
  Proof.
    intros H. apply (prod_derive (fun j x => (x - X j) / (X i - X j)) (fun j _ => 1 / (X i - X j))).
    - apply NoDup_filter, seq_NoDup.
    - intros j Hj. apply in_js in Hj. pose proof (distinct i j H (proj1 Hj) ltac:(lia)). auto_derive; [auto|]. field. auto.
  Qed.
  Lemma ell_cardinal i j : (i < n)%nat -> (j < n)%nat -> ell i (X j) = if (i =? j)%nat then 1 else 0.
  Proof.
    intros A B. unfold ell. destruct (Nat.eqb_spec i j) as [->|N].
    - rewrite (prodl_ext _ (fun _ => 1)); [unfold prodl; induction (but j (seq 0 n)); cbn; lra|].
      intros k Hk. apply in_js in Hk. field. apply distinct; auto; lia.
    - assert (In j (but i (seq 0 n))) as I by (apply in_but; rewrite in_seq; split; [lia|auto]).
      revert I. generalize (but i (seq 0 n)). intros l I. induction l as [|a l IH]; [destruct I|].
      unfold prodl in *. cbn [map fold_right]. destruct I as [->|I]; [unfold Rdiv; ring|]. rewrite IH by auto. ring.
  Qed.
  Lemma but_length i l : NoDup l -> In i l -> length (but i l) = (length l - 1)%nat.
  Proof.
    induction l as [|a l IH]; intros N I; [destruct I|]. apply NoDup_cons_iff in N as [N1 N2]. unfold but. cbn [filter length].
    destruct (Nat.eqb_spec a i) as [->|E]; cbn [negb].
    - rewrite Nat.sub_succ, Nat.sub_0_r. clear -N1. induction l as [|b l IH]; cbn; [reflexivity|].
      destruct (Nat.eqb_spec b i) as [->|E]; [exfalso; apply N1; left; auto|]. cbn. f_equal. apply IH. intros H; apply N1; right; auto.
    - destruct I as [I|I]; [congruence|]. cbn [length]. fold (but i l). rewrite IH by auto. destruct l; [destruct I|]. cbn. lia.
  Qed.
  Lemma ell_poly i : (i < n)%nat -> polynomial (n - 1) (ell i).
  Proof.
    intros H. assert (L : length (but i (seq 0 n)) = (n - 1)%nat).
    { rewrite but_length, seq_length; [reflexivity|apply seq_NoDup|apply in_seq; lia]. }
    rewrite <- L. clear L. unfold ell. generalize (but i (seq 0 n)). intros l. induction l as [|a l IH].
    - apply (poly_ext _ (fun _ => 1)); [reflexivity|apply poly_const].
    - cbn [length]. unfold prodl in *. cbn [map fold_right].
      set (q := fun x => fold_right Rmult 1 (map (fun j => (x - X j) / (X i - X j)) l)) in *.
      apply (poly_ext _ (fun x => / (X i - X a) * (x * q x) + (- X a / (X i - X a)) * q x)); [intros x; unfold q, Rdiv; ring|].
      apply poly_plus; apply poly_scal; [apply poly_x, IH|apply (poly_mono (length l)); [lia|exact IH]].
  Qed.
  (** counting roots *)
  Lemma poly_factor a : forall d h, polynomial (S d) h -> exists q, polynomial d q /\ forall x, h x = h a + (x - a) * q x.
  Proof.
    induction d; intros h [c H].
    - exists (fun _ => c 1%nat). split; [apply poly_const|]. intros x. rewrite !H. unfold poly1. cbn. ring.
    - set (p := poly1 (S d) (fun i => c (S i))).
      destruct (IHd p ltac:(exists (fun i => c (S i)); reflexivity)) as (q & Q & E).
      assert (F : forall x, h x = c O + x * p x).
      { intros x. rewrite H. unfold p, poly1. rewrite (rsum_first (S (S d))). rewrite <- rsum_mul_l. cbn [pow].
        rewrite (rsum_ext (S (S d)) (fun i => c (S i) * (x * x ^ i)) (fun i => x * (c (S i) * x ^ i))) by (intros; ring). ring. }
      exists (fun x => p a + x * q x). split; [apply poly_plus; [apply poly_const|apply poly_x, Q]|].
      intros x. rewrite !F, (E x). ring.
  Qed.
  Lemma poly_roots : forall d h roots, polynomial d h -> NoDup roots -> length roots = S d -> (forall r, In r roots -> h r = 0) ->
    forall x, h x = 0.
  Proof.
    induction d; intros h roots P N L Z x; (destruct roots as [|a roots]; [cbn in L; lia|]); apply NoDup_cons_iff in N as [N1 N2].
    - destruct P as [c P]. pose proof (Z a (or_introl eq_refl)) as E. rewrite P in E |- *. unfold poly1 in *. cbn in *. lra.
    - destruct (poly_factor a d h P) as (q & Q & E). rewrite E, (Z a) by (left; auto).
      rewrite (IHd q roots Q N2); [ring|cbn in L; lia|]. intros r Hr. pose proof (Z r (or_intror Hr)) as F. rewrite E, (Z a) in F by (left; auto).
      assert (r <> a) by (intros ->; auto). apply Rmult_eq_reg_l with (r - a); lra.
  Qed.
  Lemma sum_poly d (b : nat -> R -> R) (k : nat -> R) m : (forall i, (i < m)%nat -> polynomial d (b i)) ->
    polynomial d (fun x => rsum m (fun i => k i * b i x)).
  Proof.
    induction m; intros H; cbn [rsum]; [apply poly_const|]. apply poly_plus; [apply IHm; intros; apply H; lia|]. apply poly_scal, H. lia.
  Qed.
  Lemma reproduce d f : (d < n)%nat -> polynomial d f -> forall x, interpolate points ell f x = f x.
  Proof.
    intros L P x. unfold interpolate. fold n.
    assert (H : polynomial (n - 1) (fun x => rsum n (fun i => f (X i) * ell i x) + (-1) * f x)).
    { apply poly_plus; [apply sum_poly; apply ell_poly|]. apply poly_scal, (poly_mono d); [lia|exact P]. }
    pose proof (poly_roots (n - 1) _ points H ND ltac:(fold n; lia)) as Z.
    specialize (fun Hz => Z Hz x). cbn beta in Z. unfold X in Z |- *. enough (rsum n (fun i => f (nth i points 0) * ell i x) + -1 * f x = 0) by lra.
    apply Z. intros r Hr. apply (In_nth _ _ 0) in Hr as (j & Hj & <-). fold n in Hj. fold (X j).
    rewrite (rsum_single n j); [|exact Hj|].
    - rewrite ell_cardinal, Nat.eqb_refl by auto. unfold X. ring.
    - intros i Hi Ni. rewrite ell_cardinal by auto. destruct (Nat.eqb_spec i j); [congruence|ring].
  Qed.
End Points.

Lemma basis_list {A} (f : nat -> option A) (v : nat -> A) n : forall j acc, (forall i, (j <= i < j + n)%nat -> f i = Some (v i)) ->
  for_range n j (fun i values => do y <- f i; Some (values ++ [y])) acc = Some (acc ++ map v (seq j n)).
Proof.
  induction n; intros j acc H; cbn [for_range seq map]; [rewrite app_nil_r; reflexivity|].
  rewrite (H j) by lia. cbn [bind]. rewrite IHn by (intros; apply H; lia). rewrite <- app_assoc. reflexivity.
Qed.

(** equal points *)
Lemma for_range_none {A} n (f : nat -> A -> option A) k : (forall a, f k a = None) ->
  forall j a, (j <= k < j + n)%nat -> for_range n j f a = None.
Proof.
  intros H. induction n; intros j a L; [lia|]. cbn [for_range]. destruct (Nat.eq_dec j k) as [->|N]; [rewrite H; reflexivity|].
  destruct (f j a); [|reflexivity]. cbn [bind]. apply IHn. lia.
Qed.
Lemma not_nodup (l : list R) : ~ NoDup l -> exists i j, (i < length l)%nat /\ (j < length l)%nat /\ i <> j /\ nth i l 0 = nth j l 0.
Proof.
  induction l as [|a l IH]; intros H; [destruct H; constructor|].
  destruct (in_dec Req_EM_T a l) as [I|I].
  - apply (In_nth _ _ 0) in I. destruct I as (j & L & E). exists O, (S j). cbn [length nth]. repeat split; try lia. auto.
  - destruct IH as (i & j & A & B & C & D); [intros N; apply H; constructor; auto|].
    exists (S i), (S j). cbn [length nth]. repeat split; try lia. auto.
Qed.
Lemma equal_points points x : ~ NoDup points -> LagrangeBasis_value points x = None.
Proof.
  intros H. destruct (not_nodup points H) as (i & j & A & B & C & D).
  unfold LagrangeBasis_value. apply (for_range_none _ _ i); [|lia]. intros a.
  assert (E : IthLagrange_value i points x = None); [|rewrite E; reflexivity].
  unfold IthLagrange_value. destruct (Nat.ltb_spec i (length points)); [|reflexivity].
  apply (for_range_none _ _ j); [|lia]. intros v. destruct (Nat.eqb_spec j i); [lia|]. unfold div.
  destruct (Req_EM_T (nth i points 0 - nth j points 0) 0); [reflexivity|]. rewrite D in n0. lra.
Qed.
