(** Polynomials in one variable as lists of coefficients, lowest first. *)
From Coq Require Import Reals List Lra Lia Arith.
From Verif Require Import RSum.
Import ListNotations.
Open Scope R_scope.

Fixpoint peval (p : list R) (x : R) : R := match p with [] => 0 | a :: p => a + x * peval p x end.

Lemma peval_sum p x : peval p x = rsum (length p) (fun k => nth k p 0 * x ^ k).
Proof.
  induction p as [|a p IH]; [reflexivity|]. cbn [length peval]. rewrite rsum_first. cbn [nth pow]. rewrite IH, <- rsum_mul_l.
  rewrite Rmult_1_r. f_equal. apply rsum_ext. intros. ring.
Qed.

Lemma peval_app p q x : peval (p ++ q) x = peval p x + x ^ length p * peval q x.
Proof. induction p as [|a p IH]; cbn; [ring|]. rewrite IH. ring. Qed.
Lemma peval_zeros n x : peval (repeat 0 n) x = 0.
Proof. induction n; cbn; [reflexivity|]. rewrite IHn. ring. Qed.

Fixpoint padd (p q : list R) : list R :=
  match p, q with [], _ => q | _, [] => p | a :: p, b :: q => (a + b) :: padd p q end.
Definition pscale (c : R) (p : list R) : list R := map (fun a => c * a) p.
(** times [x - r] *)
Definition plin (r : R) (p : list R) : list R := padd (0 :: p) (pscale (- r) p).

Lemma padd_eval p : forall q x, peval (padd p q) x = peval p x + peval q x.
Proof. induction p as [|a p IH]; intros [|b q] x; cbn; try ring. rewrite IH. ring. Qed.
Lemma padd_length p : forall q, length (padd p q) = Nat.max (length p) (length q).
Proof. induction p as [|a p IH]; intros [|b q]; cbn; auto. Qed.
Lemma pscale_eval c p x : peval (pscale c p) x = c * peval p x.
Proof. induction p; cbn; [ring|]. unfold pscale in IHp. rewrite IHp. ring. Qed.
Lemma pscale_length c p : length (pscale c p) = length p.
Proof. apply map_length. Qed.
Lemma plin_eval r p x : peval (plin r p) x = (x - r) * peval p x.
Proof. unfold plin. rewrite padd_eval, pscale_eval. cbn. ring. Qed.
Lemma plin_length r p : length (plin r p) = S (length p).
Proof. unfold plin. rewrite padd_length, pscale_length. cbn [length]. lia. Qed.


(** quotient without the constant: [p x = (x - r) * q x + p r], with [q] one shorter *)
Fixpoint pquot (r : R) (p : list R) : list R :=
  match p with [] => [] | [_] => [] | _ :: p => peval p r :: pquot r p end.
Lemma pquot_eval r p x : peval p x = (x - r) * peval (pquot r p) x + peval p r.
Proof.
  induction p as [|a p IH]; [cbn; ring|]. destruct p as [|b p]; [cbn; ring|].
  change (pquot r (a :: b :: p)) with (peval (b :: p) r :: pquot r (b :: p)).
  change (peval (a :: b :: p) x) with (a + x * peval (b :: p) x).
  change (peval (a :: b :: p) r) with (a + r * peval (b :: p) r).
  cbn [peval] in *. rewrite IH. ring.
Qed.
Lemma pquot_length r p : length (pquot r p) = (length p - 1)%nat.
Proof. induction p as [|a [|b p] IH]; cbn in *; auto. rewrite IH. lia. Qed.

Lemma pquot_zero r p : (forall a, In a (pquot r p) -> a = 0) -> peval p r = 0 -> forall a, In a p -> a = 0.
Proof.
  induction p as [|a p IH]; intros H E c I; [destruct I|]. destruct p as [|b p].
  - cbn in E. destruct I as [->|[]]. lra.
  - change (pquot r (a :: b :: p)) with (peval (b :: p) r :: pquot r (b :: p)) in H.
    assert (peval (b :: p) r = 0) as Z by (apply H; left; reflexivity).
    change (peval (a :: b :: p) r) with (a + r * peval (b :: p) r) in E. rewrite Z in E.
    destruct I as [<-|I]; [lra|]. apply IH; auto. intros. apply H. right. auto.
Qed.

(** a polynomial with as many distinct roots as coefficients is zero *)
Lemma roots_zero rs : forall p, NoDup rs -> (length p <= length rs)%nat -> (forall r, In r rs -> peval p r = 0) ->
  forall a, In a p -> a = 0.
Proof.
  induction rs as [|r rs IH]; intros p N L H a I; [destruct p; [destruct I|cbn in L; lia]|].
  inversion N as [|? ? Nr Nrs]; subst.
  apply (pquot_zero r p); auto; [|apply H; left; reflexivity].
  apply IH; auto; [rewrite pquot_length; cbn in L; lia|]. intros s Is.
  pose proof (pquot_eval r p s) as E. rewrite (H s) in E by (right; auto). rewrite (H r) in E by (left; auto).
  assert (s - r <> 0) as D by (intros D; apply Nr; replace r with s by lra; exact Is).
  assert ((s - r) * peval (pquot r p) s = 0) as E' by lra. apply Rmult_integral in E'. destruct E'; [contradiction|auto].
Qed.

Lemma peval_zero p x : (forall a, In a p -> a = 0) -> peval p x = 0.
Proof. induction p; intros H; cbn; [auto|]. rewrite (H a), IHp by (intros; try apply H; cbn; auto). ring. Qed.

(** two polynomials that agree at enough points agree *)
Lemma agree_everywhere rs p q : NoDup rs -> (length p <= length rs)%nat -> (length q <= length rs)%nat ->
  (forall r, In r rs -> peval p r = peval q r) -> forall x, peval p x = peval q x.
Proof.
  intros N Lp Lq H x.
  assert (peval (padd p (pscale (-1) q)) x = 0) as Z.
  { apply peval_zero. apply (roots_zero rs); auto.
    - rewrite padd_length, pscale_length. lia.
    - intros r I. rewrite padd_eval, pscale_eval, H by auto. ring. }
  rewrite padd_eval, pscale_eval in Z. lra.
Qed.
Lemma agree_coefficients rs p q : NoDup rs -> length p = length rs -> length q = length rs ->
  (forall r, In r rs -> peval p r = peval q r) -> p = q.
Proof.
  intros N Lp Lq H. apply (nth_ext p q 0 0); [lia|]. intros n Hn.
  assert (nth n (padd p (pscale (-1) q)) 0 = 0) as Z.
  { apply (roots_zero rs (padd p (pscale (-1) q)) N).
    - rewrite padd_length, pscale_length. lia.
    - intros r I. rewrite padd_eval, pscale_eval, H by auto. ring.
    - apply nth_In. rewrite padd_length. lia. }
  assert (forall n (p q : list R), length p = length q -> nth n (padd p (pscale (-1) q)) 0 = nth n p 0 - nth n q 0) as K.
  { clear. induction n; intros [|a p] [|b q] L; cbn in L; try discriminate; cbn; try lra.
    change (map (fun a => -1 * a) q) with (pscale (-1) q). rewrite IHn by lia. reflexivity. }
  rewrite K in Z by lia. lra.
Qed.

(** ** Derivatives *)
Fixpoint pderiv_from (k : nat) (p : list R) : list R :=
  match p with [] => [] | a :: p => INR k * a :: pderiv_from (S k) p end.
Definition pderiv (p : list R) : list R := pderiv_from 1 (tl p).

Lemma pderiv_shift k p x : peval (pderiv_from (S k) p) x = peval p x + peval (pderiv_from k p) x.
Proof.
  revert k. induction p as [|a p IH]; intros k; [cbn; ring|]. cbn [pderiv_from peval]. rewrite IH, S_INR. ring.
Qed.
Lemma pderiv_cons a p x : peval (pderiv (a :: p)) x = peval p x + x * peval (pderiv p) x.
Proof.
  unfold pderiv. cbn [tl]. destruct p as [|b p]; [cbn; ring|]. cbn [pderiv_from peval tl]. rewrite pderiv_shift. cbn [INR]. ring.
Qed.
Lemma pderiv_correct p x : derivable_pt_lim (peval p) x (peval (pderiv p) x).
Proof.
  induction p as [|a p IH]; [apply (derivable_pt_lim_const 0)|].
  rewrite pderiv_cons. replace (peval p x + x * peval (pderiv p) x) with (0 + (1 * peval p x + x * peval (pderiv p) x)) by ring.
  apply (derivable_pt_lim_plus (fct_cte a) (fun x => x * peval p x)); [apply derivable_pt_lim_const|].
  apply (derivable_pt_lim_mult id (peval p)); [apply derivable_pt_lim_id|exact IH].
Qed.
