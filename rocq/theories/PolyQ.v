(** Polynomials in three variables with rational coefficients: expressions, derivatives, and a
    decision procedure for equality. *)
From Coq Require Import Reals QArith Qreals List Arith Lia Lra Bool.
From Verif Require Import Spec_Basis Model_Shapes.
Import ListNotations.
Open Scope R_scope.

Inductive pexp := EX | EY | EZ | EC (q : Q) | EAdd (a b : pexp) | ESub (a b : pexp) | EMul (a b : pexp) | EOpp (a : pexp).

(** the model instantiated with expressions *)
Definition ExpOps : Ops pexp := mkOps EAdd ESub EMul EOpp EC.

Fixpoint ev (x y z : R) (e : pexp) : R :=
  match e with
  | EX => x | EY => y | EZ => z | EC q => Q2R q
  | EAdd a b => ev x y z a + ev x y z b
  | ESub a b => ev x y z a - ev x y z b
  | EMul a b => ev x y z a * ev x y z b
  | EOpp a => - ev x y z a
  end.
Fixpoint evQ (x y z : Q) (e : pexp) : Q :=
  match e with
  | EX => x | EY => y | EZ => z | EC q => q
  | EAdd a b => Qred (evQ x y z a + evQ x y z b)
  | ESub a b => Qred (evQ x y z a - evQ x y z b)
  | EMul a b => Qred (evQ x y z a * evQ x y z b)
  | EOpp a => Qred (- evQ x y z a)
  end%Q.
Lemma Q2R_Qred q : Q2R (Qred q) = Q2R q.
Proof. apply Qeq_eqR, Qred_correct. Qed.
Lemma evQ_ev x y z e : Q2R (evQ x y z e) = ev (Q2R x) (Q2R y) (Q2R z) e.
Proof.
  induction e; cbn [evQ ev]; try reflexivity; rewrite Q2R_Qred.
  - rewrite Q2R_plus; congruence.
  - rewrite Q2R_minus; congruence.
  - rewrite Q2R_mult; congruence.
  - rewrite Q2R_opp; congruence.
Qed.

(** ** derivatives *)
Fixpoint D (a : axis) (e : pexp) : pexp :=
  match e with
  | EX => match a with AX => EC 1 | _ => EC 0 end
  | EY => match a with AY => EC 1 | _ => EC 0 end
  | EZ => match a with AZ => EC 1 | _ => EC 0 end
  | EC _ => EC 0
  | EAdd p q => EAdd (D a p) (D a q)
  | ESub p q => ESub (D a p) (D a q)
  | EMul p q => EAdd (EMul (D a p) q) (EMul p (D a q))
  | EOpp p => EOpp (D a p)
  end.
Lemma Q2R_1 : Q2R 1 = 1. Proof. unfold Q2R. cbn. lra. Qed.
Lemma Q2R_0 : Q2R 0 = 0. Proof. unfold Q2R. cbn. lra. Qed.
Lemma D_x e x y z : derivable_pt_lim (fun t => ev t y z e) x (ev x y z (D AX e)).
Proof.
  induction e; cbn [ev D]; rewrite ?Q2R_0, ?Q2R_1.
  - apply derivable_pt_lim_id.
  - apply (derivable_pt_lim_const y).
  - apply (derivable_pt_lim_const z).
  - apply (derivable_pt_lim_const (Q2R q)).
  - exact (derivable_pt_lim_plus _ _ _ _ _ IHe1 IHe2).
  - exact (derivable_pt_lim_minus _ _ _ _ _ IHe1 IHe2).
  - exact (derivable_pt_lim_mult _ _ _ _ _ IHe1 IHe2).
  - exact (derivable_pt_lim_opp _ _ _ IHe).
Qed.
Lemma D_y e x y z : derivable_pt_lim (fun t => ev x t z e) y (ev x y z (D AY e)).
Proof.
  induction e; cbn [ev D]; rewrite ?Q2R_0, ?Q2R_1.
  - apply (derivable_pt_lim_const x).
  - apply derivable_pt_lim_id.
  - apply (derivable_pt_lim_const z).
  - apply (derivable_pt_lim_const (Q2R q)).
  - exact (derivable_pt_lim_plus _ _ _ _ _ IHe1 IHe2).
  - exact (derivable_pt_lim_minus _ _ _ _ _ IHe1 IHe2).
  - exact (derivable_pt_lim_mult _ _ _ _ _ IHe1 IHe2).
  - exact (derivable_pt_lim_opp _ _ _ IHe).
Qed.
Lemma D_z e x y z : derivable_pt_lim (fun t => ev x y t e) z (ev x y z (D AZ e)).
Proof.
  induction e; cbn [ev D]; rewrite ?Q2R_0, ?Q2R_1.
  - apply (derivable_pt_lim_const x).
  - apply (derivable_pt_lim_const y).
  - apply derivable_pt_lim_id.
  - apply (derivable_pt_lim_const (Q2R q)).
  - exact (derivable_pt_lim_plus _ _ _ _ _ IHe1 IHe2).
  - exact (derivable_pt_lim_minus _ _ _ _ _ IHe1 IHe2).
  - exact (derivable_pt_lim_mult _ _ _ _ _ IHe1 IHe2).
  - exact (derivable_pt_lim_opp _ _ _ IHe).
Qed.
Definition Dw (w : list axis) (e : pexp) : pexp := fold_left (fun e a => D a e) w e.
Lemma Dw_correct w : forall e x y z, is_partial w (fun x y z => ev x y z e) x y z (ev x y z (Dw w e)).
Proof.
  induction w as [|a w IH]; intros e x y z; [reflexivity|].
  exists (fun x y z => ev x y z (D a e)). split; [|apply IH].
  intros u v t. destruct a; [apply D_x|apply D_y|apply D_z].
Qed.

(** ** normal forms: coefficients by exponents *)
Definition mono := (nat * nat * nat * Q)%type.
Definition mev (x y z : R) (m : mono) : R := let '(i, j, k, q) := m in Q2R q * (x ^ i * y ^ j * z ^ k).
Fixpoint pev (x y z : R) (p : list mono) : R :=
  match p with [] => 0 | m :: p => mev x y z m + pev x y z p end.
Definition same_exponents (m n : mono) : bool :=
  let '(i, j, k, _) := m in let '(i', j', k', _) := n in (Nat.eqb i i' && Nat.eqb j j' && Nat.eqb k k')%bool.
Definition plus_coef (m n : mono) : mono :=
  let '(i, j, k, q) := m in let '(_, _, _, q') := n in (i, j, k, Qred (q + q')).
Fixpoint insert (m : mono) (p : list mono) : list mono :=
  match p with
  | [] => [m]
  | n :: p => if same_exponents m n then plus_coef m n :: p else n :: insert m p
  end.
Definition pplus (p q : list mono) : list mono := fold_right insert q p.
Definition mtimes (m n : mono) : mono :=
  let '(i, j, k, q) := m in let '(i', j', k', q') := n in ((i + i')%nat, (j + j')%nat, (k + k')%nat, Qred (q * q')).
Definition ptimes (p q : list mono) : list mono :=
  fold_right (fun m r => pplus (map (mtimes m) q) r) [] p.
Definition popp (p : list mono) : list mono := map (fun m => let '(i, j, k, q) := m in (i, j, k, Qred (- q))) p.
Fixpoint norm (e : pexp) : list mono :=
  match e with
  | EX => [(1, 0, 0, 1%Q)] | EY => [(0, 1, 0, 1%Q)] | EZ => [(0, 0, 1, 1%Q)]
  | EC q => if Qeq_bool q 0 then [] else [(0, 0, 0, q)]
  | EAdd a b => pplus (norm a) (norm b)
  | ESub a b => pplus (popp (norm b)) (norm a)
  | EMul a b => ptimes (norm a) (norm b)
  | EOpp a => popp (norm a)
  end%nat.
Section Norm.
Variables x y z : R.
Lemma insert_ev m p : pev x y z (insert m p) = mev x y z m + pev x y z p.
Proof.
  induction p as [|n p IH]; cbn [insert pev]; [reflexivity|].
  destruct (same_exponents m n) eqn:E; cbn [pev].
  - destruct m as [[[i j] k] q], n as [[[i' j'] k'] q']. cbn [same_exponents] in E.
    apply andb_prop in E as [E E3]. apply andb_prop in E as [E1 E2].
    apply Nat.eqb_eq in E1, E2, E3. subst. cbn [plus_coef mev]. rewrite Q2R_Qred, Q2R_plus. ring.
  - rewrite IH. ring.
Qed.
Lemma pplus_ev p q : pev x y z (pplus p q) = pev x y z p + pev x y z q.
Proof. induction p as [|m p IH]; cbn [pplus fold_right pev]; [ring|]. rewrite insert_ev. unfold pplus in IH. rewrite IH. ring. Qed.
Lemma mtimes_ev m n : mev x y z (mtimes m n) = mev x y z m * mev x y z n.
Proof.
  destruct m as [[[i j] k] q], n as [[[i' j'] k'] q']. cbn [mtimes mev].
  rewrite Q2R_Qred, Q2R_mult, !pow_add. ring.
Qed.
Lemma map_mtimes_ev m q : pev x y z (map (mtimes m) q) = mev x y z m * pev x y z q.
Proof. induction q as [|n q IH]; cbn [map pev]; [ring|]. rewrite IH, mtimes_ev. ring. Qed.
Lemma ptimes_ev p q : pev x y z (ptimes p q) = pev x y z p * pev x y z q.
Proof. induction p as [|m p IH]; cbn [ptimes fold_right pev]; [ring|]. rewrite pplus_ev, map_mtimes_ev. unfold ptimes in IH. rewrite IH. ring. Qed.
Lemma popp_ev p : pev x y z (popp p) = - pev x y z p.
Proof.
  induction p as [|[[[i j] k] q] p IH]; cbn [popp map pev]; [ring|]. unfold popp in IH. rewrite IH.
  cbn [mev]. rewrite Q2R_Qred, Q2R_opp. ring.
Qed.
Lemma norm_ev e : pev x y z (norm e) = ev x y z e.
Proof.
  induction e; cbn [norm ev].
  1-3: cbn [pev mev pow]; rewrite Q2R_1; ring.
  - destruct (Qeq_bool q 0) eqn:E.
    + apply Qeq_bool_eq in E. apply Qeq_eqR in E. rewrite E, Q2R_0. reflexivity.
    + cbn [pev mev pow]. ring.
  - rewrite pplus_ev. congruence.
  - rewrite pplus_ev, popp_ev, IHe1, IHe2. ring.
  - rewrite ptimes_ev. congruence.
  - rewrite popp_ev. congruence.
Qed.
End Norm.
Definition is_zero (p : list mono) : bool := forallb (fun m => Qeq_bool (snd m) 0) p.
Lemma is_zero_ev p x y z : is_zero p = true -> pev x y z p = 0.
Proof.
  induction p as [|[[[i j] k] q] p IH]; cbn [is_zero forallb pev]; [reflexivity|].
  intros H. apply andb_prop in H as [H1 H2]. rewrite IH by exact H2. cbn [snd] in H1.
  apply Qeq_bool_eq in H1. apply Qeq_eqR in H1. cbn [mev]. rewrite H1, Q2R_0. ring.
Qed.
Definition same (a b : pexp) : bool := is_zero (norm (ESub a b)).
Lemma same_ev a b x y z : same a b = true -> ev x y z a = ev x y z b.
Proof.
  intros H. apply (is_zero_ev _ x y z) in H. rewrite norm_ev in H. cbn [ev] in H. lra.
Qed.

(** ** the same derivatives, with intermediate results in normal form *)
Fixpoint power (e : pexp) (n : nat) : pexp := match n with O => EC 1 | S n => EMul e (power e n) end.
Definition rebuild (p : list mono) : pexp :=
  fold_right (fun m r => let '(i, j, k, q) := m in EAdd (EMul (EC q) (EMul (EMul (power EX i) (power EY j)) (power EZ k))) r) (EC 0) p.
Lemma power_ev e n x y z : ev x y z (power e n) = ev x y z e ^ n.
Proof. induction n; cbn [power ev pow]; [apply Q2R_1|]. rewrite IHn. reflexivity. Qed.
Lemma rebuild_ev p x y z : ev x y z (rebuild p) = pev x y z p.
Proof.
  induction p as [|[[[i j] k] q] p IH]; cbn [rebuild fold_right ev pev mev]; [apply Q2R_0|].
  unfold rebuild in IH. rewrite IH, !power_ev. reflexivity.
Qed.
Definition tidy (e : pexp) : pexp := rebuild (norm e).
Lemma tidy_ev e x y z : ev x y z (tidy e) = ev x y z e.
Proof. unfold tidy. rewrite rebuild_ev. apply norm_ev. Qed.
Definition Dt (w : list axis) (e : pexp) : pexp := fold_left (fun e a => tidy (D a e)) w (tidy e).
