(** The product of the eigenvector matrices in the other order. *)
From Coq Require Import Reals List Lra Psatz Lia.
From Verif Require Import Model_Euler Spec_Euler Proof_Euler Proof_Rotated Proof_Eigen.
Import ListNotations.
Open Scope R_scope.

Lemma inverse_algebra2 (n1 n2 n3 m1 m2 m3 p1 p2 p3 u v w a ia g e0 b1 h : R) :
  rows3 n1 n2 n3 m1 m2 m3 p1 p2 p3 ->
  a * ia = 1 -> e0 = a * a * g -> b1 * e0 = 1 -> 2 * h = 1 ->
  let un := u * n1 + v * n2 + w * n3 in
  let um := u * m1 + v * m2 + w * m3 in
  let up := u * p1 + v * p2 + w * p3 in
  let ek := (u * u + v * v + w * w) * h in
  let h0 := e0 + ek in
  let b2 := b1 * ek in
  let R := [ [1; u - a * n1; v - a * n2; w - a * n3; h0 - a * un];
     [1; u; v; w; ek];
     [0; m1; m2; m3; um];
     [0; p1; p2; p3; up];
     [1; u + a * n1; v + a * n2; w + a * n3; h0 + a * un] ] in
  let L := [ [(b2 + un * ia) * h; 1 - b2; - um; - up; (b2 - un * ia) * h];
     [- (b1 * u + n1 * ia) * h; b1 * u; m1; p1; - (b1 * u - n1 * ia) * h];
     [- (b1 * v + n2 * ia) * h; b1 * v; m2; p2; - (b1 * v - n2 * ia) * h];
     [- (b1 * w + n3 * ia) * h; b1 * w; m3; p3; - (b1 * w - n3 * ia) * h];
     [b1 * h; - b1; 0; 0; b1 * h] ] in
  forall k l, (k < 5)%nat -> (l < 5)%nat ->
  sum5 (fun j => entry R k j * entry L j l) = if Nat.eq_dec k l then 1 else 0.
Proof.
  intros O A E B H un um up ek h0 b2 R L k l Hk Hl. apply rows3_cols in O. destruct O as [[Q1 [Q2 Q3]] [Q4 [Q5 Q6]]].
  assert (h = / 2) as -> by lra. clear H.
  assert (n1 * n1 = 1 - m1 * m1 - p1 * p1) as P1 by lra.
  assert (n2 * n2 = 1 - m2 * m2 - p2 * p2) as P2 by lra.
  assert (n3 * n3 = 1 - m3 * m3 - p3 * p3) as P3 by lra.
  assert (n1 * n2 = - m1 * m2 - p1 * p2) as P4 by lra.
  assert (n1 * n3 = - m1 * m3 - p1 * p3) as P5 by lra.
  assert (n2 * n3 = - m2 * m3 - p2 * p3) as P6 by lra.
  subst R L h0 b2 ek un um up. clear Q1 Q2 Q3 Q4 Q5 Q6.
  destruct k as [|[|[|[|[|k]]]]]; try lia; (destruct l as [|[|[|[|[|l]]]]]; try lia);
    unfold sum5, entry; cbn [List.nth]; simpl Nat.eq_dec; cbv iota beta;
    first [ring | field [P1 P2 P3 P4 P5 P6 A B] | (field_simplify_eq [A]; first [ring [P1 P2 P3 P4 P5 P6 A B] | lra | idtac])].
  all: pose proof (f_equal (Rmult u) P1); pose proof (f_equal (Rmult v) P4); pose proof (f_equal (Rmult w) P5); pose proof (f_equal (Rmult u) B); lra.
Qed.

Lemma R_L_inverse gamma w nu mu pi : 1 < gamma -> physical w -> rows nu mu pi ->
  forall k l, (k < 5)%nat -> (l < 5)%nat ->
  sum5 (fun j => entry (fst (EigenMatrices gamma w nu mu pi)) k j * entry (snd (EigenMatrices gamma w nu mu pi)) j l)
  = if Nat.eq_dec k l then 1 else 0.
Proof.
  intros G P O k l Hk Hl.
  destruct nu as [[n1 n2] n3], mu as [[m1 m2] m3], pi as [[p1 p2] p3].
  pose proof (sound_pos gamma w ltac:(lra) P) as A.
  unfold EigenMatrices. set (a := GetSpeedOfSound gamma w) in *.
  pose proof (inverse_algebra2 n1 n2 n3 m1 m2 m3 p1 p2 p3 (mX w) (mY w) (mZ w) a (/ a) (1 / (gamma - 1))
    (a * a * (1 / (gamma - 1))) (1 / (a * a * (1 / (gamma - 1)))) (/ 2)) as I.
  cbv zeta in I. apply I; auto.
  - field. lra.
  - field. split; lra.
  - field.
Qed.
