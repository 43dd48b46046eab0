(** The eigenvector matrices of the Euler equations. *)
From Coq Require Import Reals List Lra Psatz Lia Nsatz.
From Verif Require Import Model_Euler Spec_Euler Proof_Euler Proof_Rotated.
Import ListNotations.
Open Scope R_scope.






Lemma inverse_algebra (n1 n2 n3 m1 m2 m3 p1 p2 p3 u v w a ia g e0 b1 h : R) :
  rows3 n1 n2 n3 m1 m2 m3 p1 p2 p3 ->
  a * ia = 1 -> e0 = a * a * g -> b1 * e0 = 1 -> 2 * h = 1 ->
  let un := u * n1 + v * n2 + w * n3 in
  let um := u * m1 + v * m2 + w * m3 in
  let up := u * p1 + v * p2 + w * p3 in
  let ek := (u * u + v * v + w * w) * h in
  let h0 := e0 + ek in
  let b2 := b1 * ek in
  let R := [ [1; u - a * n1; v - a * n2; w - a * n3; h0 - a * un];
     [1; u; v; w; ek];
     [0; m1; m2; m3; um];
     [0; p1; p2; p3; up];
     [1; u + a * n1; v + a * n2; w + a * n3; h0 + a * un] ] in
  let L := [ [(b2 + un * ia) * h; 1 - b2; - um; - up; (b2 - un * ia) * h];
     [- (b1 * u + n1 * ia) * h; b1 * u; m1; p1; - (b1 * u - n1 * ia) * h];
     [- (b1 * v + n2 * ia) * h; b1 * v; m2; p2; - (b1 * v - n2 * ia) * h];
     [- (b1 * w + n3 * ia) * h; b1 * w; m3; p3; - (b1 * w - n3 * ia) * h];
     [b1 * h; - b1; 0; 0; b1 * h] ] in
  forall k l, (k < 5)%nat -> (l < 5)%nat ->
  sum5 (fun j => entry L k j * entry R j l) = if Nat.eq_dec k l then 1 else 0.
Proof.
  intros [[Q1 [Q2 Q3]] [Q4 [Q5 Q6]]] A E B H un um up ek h0 b2 R L k l Hk Hl.
  assert (h = / 2) as -> by lra. clear H.
  assert (n1 * n1 = 1 - n2 * n2 - n3 * n3) as P1 by lra.
  assert (m1 * m1 = 1 - m2 * m2 - m3 * m3) as P2 by lra.
  assert (p1 * p1 = 1 - p2 * p2 - p3 * p3) as P3 by lra.
  assert (n1 * m1 = - n2 * m2 - n3 * m3) as P4 by lra.
  assert (n1 * p1 = - n2 * p2 - n3 * p3) as P5 by lra.
  assert (m1 * p1 = - m2 * p2 - m3 * p3) as P6 by lra.
  assert (n3 * m3 = - n2 * m2 - n1 * m1) as P7 by lra.
  subst R L h0 b2 ek un um up.
  destruct k as [|[|[|[|[|k]]]]]; try lia; (destruct l as [|[|[|[|[|l]]]]]; try lia);
    unfold sum5, entry; cbn [List.nth]; simpl Nat.eq_dec; cbv iota beta;
    first [ring | field [P1 P2 P3 P4 P5 P6 A B] | field [P7 A B]].
Qed.

Lemma L_R_inverse gamma w nu mu pi : 1 < gamma -> physical w -> rows nu mu pi ->
  forall k l, (k < 5)%nat -> (l < 5)%nat ->
  sum5 (fun j => entry (snd (EigenMatrices gamma w nu mu pi)) k j * entry (fst (EigenMatrices gamma w nu mu pi)) j l)
  = if Nat.eq_dec k l then 1 else 0.
Proof.
  intros G P O k l Hk Hl.
  destruct nu as [[n1 n2] n3], mu as [[m1 m2] m3], pi as [[p1 p2] p3].
  pose proof (sound_pos gamma w ltac:(lra) P) as A.
  unfold EigenMatrices. set (a := GetSpeedOfSound gamma w) in *.
  pose proof (inverse_algebra n1 n2 n3 m1 m2 m3 p1 p2 p3 (mX w) (mY w) (mZ w) a (/ a) (1 / (gamma - 1))
    (a * a * (1 / (gamma - 1))) (1 / (a * a * (1 / (gamma - 1)))) (/ 2)) as I.
  cbv zeta in I. apply I; auto.
  - field. lra.
  - field. split; lra.
  - field.
Qed.

(** ** The derivative of the flux *)


Lemma dat0_eq f a b : dat0 f a -> a = b -> dat0 f b.
Proof. intros H <-. exact H. Qed.
Lemma dat0_const c : dat0 (fun _ => c) 0.
Proof. apply derivable_pt_lim_const. Qed.
Lemma dat0_affine x y : dat0 (fun t => x + t * y) y.
Proof.
  apply (dat0_eq _ (0 + (1 * y + 0 * 0))); [|ring].
  apply (derivable_pt_lim_plus (fun _ => x) (fun t => t * y)); [apply derivable_pt_lim_const|].
  apply (derivable_pt_lim_mult id (fun _ => y)); [apply derivable_pt_lim_id|apply derivable_pt_lim_const].
Qed.
Lemma dat0_add f g a b : dat0 f a -> dat0 g b -> dat0 (fun t => f t + g t) (a + b).
Proof. apply derivable_pt_lim_plus. Qed.
Lemma dat0_sub f g a b : dat0 f a -> dat0 g b -> dat0 (fun t => f t - g t) (a - b).
Proof. apply derivable_pt_lim_minus. Qed.
Lemma dat0_mul f g a b : dat0 f a -> dat0 g b -> dat0 (fun t => f t * g t) (a * g 0 + f 0 * b).
Proof. apply derivable_pt_lim_mult. Qed.
Lemma dat0_div f g a b : dat0 f a -> dat0 g b -> g 0 <> 0 ->
  dat0 (fun t => f t / g t) ((a * g 0 - b * f 0) / (g 0 * g 0)).
Proof. intros A B N. apply (derivable_pt_lim_div f g); auto. Qed.

Section Jacobian.
  Variables (gamma n1 n2 n3 r m1 m2 m3 e : R) (W : U5).
  Hypothesis Hr : r <> 0.

  Let x0 t := r + t * W 0%nat.
  Let x1 t := m1 + t * W 1%nat.
  Let x2 t := m2 + t * W 2%nat.
  Let x3 t := m3 + t * W 3%nat.
  Let x4 t := e + t * W 4%nat.

  Let un t := (x1 t * n1 + x2 t * n2 + x3 t * n3) / x0 t.
  Let p t := (gamma - 1) * (x4 t - (x1 t * x1 t + x2 t * x2 t + x3 t * x3 t) / (2 * x0 t)).

  Let d_un := (W 1%nat * n1 + W 2%nat * n2 + W 3%nat * n3) / r
              - (m1 * n1 + m2 * n2 + m3 * n3) * W 0%nat / (r * r).
  Let d_p := (gamma - 1) * (W 4%nat - (m1 * W 1%nat + m2 * W 2%nat + m3 * W 3%nat) / r
              + (m1 * m1 + m2 * m2 + m3 * m3) * W 0%nat / (2 * r * r)).

  Ltac start := unfold x0, x1, x2, x3, x4.

  Lemma der_un : dat0 un d_un.
  Proof.
    unfold un. eapply dat0_eq.
    - apply dat0_div.
      + apply dat0_add; [apply dat0_add|]; (apply dat0_mul; [start; apply dat0_affine|apply dat0_const]).
      + start. apply dat0_affine.
      + start. lra.
    - start. unfold d_un. field. lra.
  Qed.

  Lemma der_p : dat0 p d_p.
  Proof.
    unfold p. eapply dat0_eq.
    - apply dat0_mul; [apply dat0_const|]. apply dat0_sub; [start; apply dat0_affine|].
      apply dat0_div.
      + apply dat0_add; [apply dat0_add|]; (apply dat0_mul; start; apply dat0_affine).
      + apply dat0_mul; [apply dat0_const|start; apply dat0_affine].
      + start. lra.
    - start. unfold d_p. cbv beta. field. lra.
  Qed.

  (** derivatives of the five components *)
  Lemma der_flux : 
    dat0 (fun t => un t * x0 t) (d_un * r + un 0 * W 0%nat) /\
    dat0 (fun t => un t * x1 t + p t * n1) (d_un * m1 + un 0 * W 1%nat + d_p * n1) /\
    dat0 (fun t => un t * x2 t + p t * n2) (d_un * m2 + un 0 * W 2%nat + d_p * n2) /\
    dat0 (fun t => un t * x3 t + p t * n3) (d_un * m3 + un 0 * W 3%nat + d_p * n3) /\
    dat0 (fun t => un t * (x4 t + p t)) (d_un * (e + p 0) + un 0 * (W 4%nat + d_p)).
  Proof.
    assert (forall f x y nn, (forall t, f t = x + t * y) ->
      dat0 (fun t => un t * f t + p t * nn) (d_un * x + un 0 * y + d_p * nn)) as M.
    { intros f x y nn E. eapply dat0_eq.
      - apply dat0_add; [|apply dat0_mul; [apply der_p|apply dat0_const]].
        apply dat0_mul; [apply der_un|].
        apply (derivable_pt_lim_ext (fun t => x + t * y)); [intros; symmetry; apply E|apply dat0_affine].
      - cbv beta. rewrite E. ring. }
    split; [|split; [|split; [|split]]].
    - eapply dat0_eq; [apply dat0_mul; [apply der_un|start; apply dat0_affine]|]. cbv beta. unfold x0. ring.
    - apply M. reflexivity.
    - apply M. reflexivity.
    - apply M. reflexivity.
    - eapply dat0_eq.
      + apply dat0_mul; [apply der_un|]. apply dat0_add; [start; apply dat0_affine|apply der_p].
      + cbv beta. unfold x4. ring.
  Qed.
End Jacobian.




Lemma projection n1 n2 n3 m1 m2 m3 p1 p2 p3 x y z : rows3 n1 n2 n3 m1 m2 m3 p1 p2 p3 ->
  m1 * (m1 * x + m2 * y + m3 * z) + p1 * (p1 * x + p2 * y + p3 * z) = x - n1 * (n1 * x + n2 * y + n3 * z) /\
  m2 * (m1 * x + m2 * y + m3 * z) + p2 * (p1 * x + p2 * y + p3 * z) = y - n2 * (n1 * x + n2 * y + n3 * z) /\
  m3 * (m1 * x + m2 * y + m3 * z) + p3 * (p1 * x + p2 * y + p3 * z) = z - n3 * (n1 * x + n2 * y + n3 * z).
Proof.
  intros H. apply rows3_cols in H. destruct H as [[? [? ?]] [? [? ?]]]. repeat split; nsatz.
Qed.

Theorem eigen_jacobian gamma w nu mu pi : 1 < gamma -> physical w -> length (mT w) = 2%nat -> rows nu mu pi ->
  let U := five (PrimitiveToConservative gamma w) in
  let a := GetSpeedOfSound gamma w in
  let un := dot3 (mX w, mY w, mZ w) nu in
  let Rm := fst (EigenMatrices gamma w nu mu pi) in
  let Lm := snd (EigenMatrices gamma w nu mu pi) in
  forall W i, (i < 5)%nat ->
  dat0 (fun t => flux5 gamma nu (line U W t) i)
       (sum5 (fun k => entry Rm i k * speeds un a k * sum5 (fun j => entry Lm k j * W j))).
Proof.
  intros G P Len O U a un Rm Lm W i Hi.
  destruct nu as [[n1 n2] n3], mu as [[m1 m2] m3], pi as [[p1 p2] p3].
  pose proof (sound_pos gamma w ltac:(lra) P) as A. pose proof (sound_sq gamma w ltac:(lra) P) as A2.
  destruct P as [M Pp].
  destruct w as [r u [|v [|z [|]]] p]; try discriminate Len. clear Len. cbn [mass energy] in M, Pp, A2.
  fold a in A, A2.
  assert (p = r * (a * a) / gamma) as Ep by (rewrite A2; field; lra).
  pose proof (der_flux gamma n1 n2 n3 r (u * r) (v * r) (z * r) (p / (gamma - 1) + r * ((u * u + v * v + z * z) / 2)) W ltac:(lra)) as D.
  cbv zeta in D.
  destruct (projection n1 n2 n3 m1 m2 m3 p1 p2 p3 (W 1%nat - u * W 0%nat) (W 2%nat - v * W 0%nat) (W 3%nat - z * W 0%nat) O)
    as [J1 [J2 J3]].
  set (nV := n1 * (W 1%nat - u * W 0%nat) + n2 * (W 2%nat - v * W 0%nat) + n3 * (W 3%nat - z * W 0%nat)) in *.
  set (mV := m1 * (W 1%nat - u * W 0%nat) + m2 * (W 2%nat - v * W 0%nat) + m3 * (W 3%nat - z * W 0%nat)) in *.
  set (pV := p1 * (W 1%nat - u * W 0%nat) + p2 * (W 2%nat - v * W 0%nat) + p3 * (W 3%nat - z * W 0%nat)) in *.
  (* the five characteristic amounts *)
  set (ek := (u * u + v * v + z * z) / 2).
  set (q := (gamma - 1) * (ek * W 0%nat - (u * W 1%nat + v * W 2%nat + z * W 3%nat) + W 4%nat) / (a * a)).
  assert (forall k, (k < 5)%nat -> sum5 (fun j => entry Lm k j * W j) =
    match k with 0%nat => (q - nV / a) / 2 | 1%nat => W 0%nat - q | 2%nat => mV | 3%nat => pV | _ => (q + nV / a) / 2 end) as C.
  { intros k Hk. unfold Lm, EigenMatrices. fold a. cbn [snd mX mT mY mZ List.nth].
    destruct k as [|[|[|[|[|k]]]]]; try lia; unfold sum5, entry; cbn [List.nth]; unfold q, nV, mV, pV, ek; cbn [mY mZ mT List.nth];
      unfold mY, mZ; cbn [mT List.nth]; field; repeat split; lra. }
  assert (sum5 (fun k => entry Rm i k * speeds un a k * sum5 (fun j => entry Lm k j * W j)) =
    entry Rm i 0 * (un - a) * ((q - nV / a) / 2) + entry Rm i 1 * un * (W 0%nat - q) +
    entry Rm i 2 * un * mV + entry Rm i 3 * un * pV + entry Rm i 4 * (un + a) * ((q + nV / a) / 2)) as ->.
  { unfold sum5 at 1. rewrite !C by lia. reflexivity. }
  clear C. unfold Rm, EigenMatrices. fold a. cbn [fst].
  unfold un. cbn [dot3 mX]. unfold mY, mZ. cbn [mT List.nth].
  clearbody a mV pV. clear A2.
  destruct D as [D0 [D1 [D2 [D3 D4]]]].
  destruct i as [|[|[|[|[|i]]]]]; try lia; unfold entry; cbn [List.nth].
  - eapply dat0_eq; [eapply derivable_pt_lim_ext; [|exact D0]|].
    + intros t. unfold flux5, line, U, five. cbn. unfold GetDynamicPressure. cbn. reflexivity.
    + unfold nV, q, ek. field. lra.
  - eapply dat0_eq; [eapply derivable_pt_lim_ext; [|exact D1]|].
    + intros t. unfold flux5, line, U, five, mY, mZ. cbn. unfold GetDynamicPressure. cbn.
      replace (p * (1 / (gamma - 1)) + r * ((u * u + (v * v + (z * z + 0))) * (1 / 2)))
        with (p / (gamma - 1) + r * ((u * u + v * v + z * z) / 2)) by (field; lra). reflexivity.
    + match goal with |- ?x = ?y => 
        transitivity (x - (u * n1 + v * n2 + z * n3) * ((W 1%nat - u * W 0%nat - n1 * nV) - (m1 * mV + p1 * pV))) end.
      { rewrite J1. ring. }
      unfold nV, q, ek. field. repeat split; lra.
  - eapply dat0_eq; [eapply derivable_pt_lim_ext; [|exact D2]|].
    + intros t. unfold flux5, line, U, five, mY, mZ. cbn. unfold GetDynamicPressure. cbn.
      replace (p * (1 / (gamma - 1)) + r * ((u * u + (v * v + (z * z + 0))) * (1 / 2)))
        with (p / (gamma - 1) + r * ((u * u + v * v + z * z) / 2)) by (field; lra). reflexivity.
    + match goal with |- ?x = ?y => 
        transitivity (x - (u * n1 + v * n2 + z * n3) * ((W 2%nat - v * W 0%nat - n2 * nV) - (m2 * mV + p2 * pV))) end.
      { rewrite J2. ring. }
      unfold nV, q, ek. field. repeat split; lra.
  - eapply dat0_eq; [eapply derivable_pt_lim_ext; [|exact D3]|].
    + intros t. unfold flux5, line, U, five, mY, mZ. cbn. unfold GetDynamicPressure. cbn.
      replace (p * (1 / (gamma - 1)) + r * ((u * u + (v * v + (z * z + 0))) * (1 / 2)))
        with (p / (gamma - 1) + r * ((u * u + v * v + z * z) / 2)) by (field; lra). reflexivity.
    + match goal with |- ?x = ?y => 
        transitivity (x - (u * n1 + v * n2 + z * n3) * ((W 3%nat - z * W 0%nat - n3 * nV) - (m3 * mV + p3 * pV))) end.
      { rewrite J3. ring. }
      unfold nV, q, ek. field. repeat split; lra.
  - eapply dat0_eq; [eapply derivable_pt_lim_ext; [|exact D4]|].
    + intros t. unfold flux5, line, U, five, mY, mZ. cbn. unfold GetDynamicPressure. cbn.
      replace (p * (1 / (gamma - 1)) + r * ((u * u + (v * v + (z * z + 0))) * (1 / 2)))
        with (p / (gamma - 1) + r * ((u * u + v * v + z * z) / 2)) by (field; lra). reflexivity.
    + match goal with |- ?x = ?y => 
        transitivity (x - (u * n1 + v * n2 + z * n3) * (u * ((W 1%nat - u * W 0%nat - n1 * nV) - (m1 * mV + p1 * pV))
          + v * ((W 2%nat - v * W 0%nat - n2 * nV) - (m2 * mV + p2 * pV))
          + z * ((W 3%nat - z * W 0%nat - n3 * nV) - (m3 * mV + p3 * pV)))) end.
      { rewrite J1, J2, J3. ring. }
      rewrite Ep. unfold nV, q, ek. field. repeat split; lra.
Qed.
