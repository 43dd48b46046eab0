(** C156, C157, C158: the limiters of the Python package *)
From Coq Require Import Reals List Arith Lra Lia.
From Coquelicot Require Import Coquelicot.
From Verif Require Import Arrays RSum Model_PyEuler Model_PyPoly Spec_PyPoly Proof_PyPoly.
From Verif Require Import Model_PyIntegrator Proof_PyIntegrator Model_PyExpansion Spec_PyExpansion Proof_PyExpansion Prop_PyExpansion.
From Verif Require Import Model_PyGrid Model_PyLimiter Spec_PyLimiter Proof_PyLimiter Prop_PyScheme.
Import ListNotations.
Open Scope R_scope.

Lemma present_is {A} (left right : option A) : present [left; right] = neighbors left right.
Proof. destruct left, right; reflexivity. Qed.
Lemma again roots inv degree c e : ready roots inv degree c e -> exists e0, Legendre_init roots inv degree c = Some e0.
Proof. intros H. apply (init_again roots inv degree c). exists e. apply Ready, H. Qed.

(** ** C156 *)
(** the new polynomial is an average, with positive weights, of the old one and of one polynomial from each neighbor; the
    latter have the mean value of the element and are the neighbor's polynomial up to a constant; the mean value is kept *)
Theorem py_zxh_convex roots inv degree c e left right epsilon w_small : x_left c < x_right c -> inverts inv -> gauss roots (degree + 1) ->
  ready roots inv degree c e -> 0 < epsilon -> 0 < w_small < 1 / 2 ->
  exists coeff bs, z_limit roots inv epsilon w_small e left right = Some coeff /\
    List.Forall2 (fun that b => mean (x_left c) (x_right c) b (l_average e) /\ (polynomial degree that -> exists k, forall x, b x = that x + k)) (neighbors left right) bs /\
    convex (l_value e :: bs) (l_value (l_set_taylor_coeff e coeff)) /\
    l_average (l_set_taylor_coeff e coeff) = l_average e.
Proof.
  intros X V G H E W. rewrite <- present_is. assert (X' : x_left c <> x_right c) by lra.
  apply (zxh_is roots inv degree c X V G); [exact E|exact W|apply (made_frame roots inv degree c X'), H|apply (ready_represents roots inv degree c e X' V H)|apply (again _ _ _ _ _ H)].
Qed.
Print Assumptions py_zxh_convex.
(** nothing changes if the neighbors continue the polynomial of the element, up to constants *)
Theorem py_zxh_unchanged roots inv degree c e left right epsilon w_small : x_left c < x_right c -> inverts inv -> gauss roots (degree + 1) ->
  ready roots inv degree c e -> 0 < epsilon -> 0 < w_small < 1 / 2 ->
  (forall that, In that (neighbors left right) -> exists k, forall x, that x = l_value e x + k) ->
  exists coeff, z_limit roots inv epsilon w_small e left right = Some coeff /\ forall x, l_value (l_set_taylor_coeff e coeff) x = l_value e x.
Proof.
  intros X V G H E W S. destruct (py_zxh_convex roots inv degree c e left right epsilon w_small X V G H E W) as (coeff & bs & Z & K & C & _).
  exists coeff. split; [exact Z|]. apply (convex_same (l_value e) (l_value e :: bs) _ C). constructor; [reflexivity|].
  assert (X' : x_left c <> x_right c) by lra. destruct (py_legendre_values roots inv degree c e X' V H) as (_ & _ & Me & _).
  assert (F := proj2 (made_frame roots inv degree c X') e H). pose proof (tsum_poly (l_n e) (l_center e) (l_taylor e) 0) as T. rewrite (proj1 F) in T at 1.
  replace (degree + 1 - 1)%nat with degree in T by lia. clear C Z.
  induction K as [|that b ts bs (Mb & D) K IH]; constructor; [|apply IH; intros; apply S; right; assumption].
  destruct (S that (or_introl eq_refl)) as (k0 & Hk0). destruct D as (k & Hk).
  { apply (poly_ext _ (fun x => l_value e x + k0)); [intros; symmetry; apply Hk0|]. apply poly_plus; [exact T|apply poly_const]. }
  assert (Z0 : k0 + k = 0).
  { assert (M2 : mean (x_left c) (x_right c) b (l_average e + (k0 + k))).
    { unfold mean in *. apply (@is_RInt_ext R_NormedModule (fun x => plus (l_value e x) (k0 + k))); [intros; rewrite Hk, Hk0; unfold plus; cbn; ring|].
      evar_last; [apply (@is_RInt_plus R_NormedModule); [exact Me|apply @is_RInt_const]|]. unfold plus, scal; cbn; unfold mult; cbn. ring. }
    pose proof (mean_unique _ _ _ _ _ X' Mb M2). lra. }
  intros x. rewrite Hk, Hk0. lra.
Qed.
Print Assumptions py_zxh_unchanged.
Lemma line_ready a b : a < b -> exists e, ready two_roots inv2 1 (Linear a b) e /\ forall x, l_value e x = x.
Proof.
  intros L. destruct (legendre_any a b) as (e & E); [lra|]. assert (X : x_left (Linear a b) <> x_right (Linear a b)) by (cbn; lra).
  assert (M : made two_roots inv2 1 (Linear a b) e) by (constructor; exact E).
  destruct (py_legendre_setters two_roots inv2 1 _ e X inv2_inverts two_gauss M) as (_ & _ & _ & A & _).
  destruct (A (fun x => x)) as (e' & Ae & V).
  { exists (fun k => match k with O => 0 | _ => 1 end). intros x. unfold Spec_Gauss.poly1. cbn. ring. }
  exists e'. split; [econstructor 3; eassumption|exact V].
Qed.
Example py_zxh_example : exists e coeff, ready two_roots inv2 1 (Linear 1 5) e /\ (forall x, l_value e x = x) /\
  x_left (Linear 1 5) < x_right (Linear 1 5) /\
  z_limit two_roots inv2 (1 / 1000000) (1 / 1000) e (Some (fun x => x - 4)) (Some (fun x => x + 7)) = Some coeff /\
  forall x, l_value (l_set_taylor_coeff e coeff) x = x.
Proof.
  destruct (line_ready 1 5) as (e & Rd & V); [lra|].
  destruct (py_zxh_unchanged two_roots inv2 1 (Linear 1 5) e (Some (fun x => x - 4)) (Some (fun x => x + 7)) (1 / 1000000) (1 / 1000)) as (coeff & Z & U);
    [cbn; lra|exact inv2_inverts|exact two_gauss|exact Rd|lra|lra| |].
  - cbn. intros that [<-|[<-|[]]]; [exists (-4)|exists 7]; intros x; rewrite V; ring.
  - exists e, coeff. split; [exact Rd|]. split; [exact V|]. split; [cbn; lra|]. split; [exact Z|]. intros x. rewrite U, V. reflexivity.
Qed.

(** ** C157 *)
(** [reconstruct]: every troubled element gets the polynomial limited with the old polynomials of its neighbors, the other elements
    keep theirs, and no mean value changes *)
Theorem py_limiter_reconstruct {U} roots inv degree (g : Grid U) (es : nat -> Legendre) troubled epsilon w_small : inverts inv -> gauss roots (degree + 1) ->
  0 < epsilon -> 0 < w_small < 1 / 2 ->
  (forall i, In i troubled -> x_left (coordinates g i) < x_right (coordinates g i) /\ ready roots inv degree (coordinates g i) (es i)) ->
  exists es', reconstruct (z_limit roots inv epsilon w_small) g es troubled = Some es' /\
    (forall i, ~ In i troubled -> es' i = es i) /\
    (forall i, In i troubled -> exists coeff, z_limit roots inv epsilon w_small (es i)
       (option_map (neighbor_value es) (left_expansion g i)) (option_map (neighbor_value es) (right_expansion g i)) = Some coeff /\
       es' i = l_set_taylor_coeff (es i) coeff) /\
    (forall i, l_average (es' i) = l_average (es i)).
Proof.
  intros V G E W H.
  assert (K : forall i, In i troubled -> exists coeff, z_limit roots inv epsilon w_small (es i)
       (option_map (neighbor_value es) (left_expansion g i)) (option_map (neighbor_value es) (right_expansion g i)) = Some coeff /\ l_average (l_set_taylor_coeff (es i) coeff) = l_average (es i)).
  { intros i Hi. destruct (H i Hi) as (X & Rd). destruct (py_zxh_convex roots inv degree (coordinates g i) (es i) (option_map (neighbor_value es) (left_expansion g i))
      (option_map (neighbor_value es) (right_expansion g i)) epsilon w_small X V G Rd E W) as (coeff & _ & Z & _ & _ & A). exists coeff. auto. }
  destruct (reconstruct_is (z_limit roots inv epsilon w_small) g es troubled) as (es' & Er & A & B).
  { intros i Hi. destruct (K i Hi) as (coeff & Z & _). exists coeff. exact Z. }
  exists es'. split; [exact Er|]. split; [exact A|]. split; [exact B|]. intros i.
  destruct (in_dec Nat.eq_dec i troubled) as [Hi|Hi]; [|rewrite A by exact Hi; reflexivity].
  destruct (B i Hi) as (coeff & Z & ->). destruct (K i Hi) as (coeff' & Z' & Av). rewrite Z in Z'. injection Z' as <-. exact Av.
Qed.
Print Assumptions py_limiter_reconstruct.
(** two elements, both troubled, each limited with the old polynomial of the other *)
Example py_limiter_reconstruct_example : exists (g : Grid R) es es', ready two_roots inv2 1 (coordinates g 0) (es 0%nat) /\ ready two_roots inv2 1 (coordinates g 1) (es 1%nat) /\
  right_expansion g 0 = Some (Plain 1) /\ left_expansion g 1 = Some (Plain 0) /\
  reconstruct (z_limit two_roots inv2 (1 / 1000000) (1 / 1000)) g es [0; 1]%nat = Some es' /\
  l_average (es' 0%nat) = l_average (es 0%nat) /\ l_average (es' 1%nat) = l_average (es 1%nat) /\ es' 2%nat = es 2%nat.
Proof.
  destruct (line_ready 1 5) as (e0 & R0 & _); [lra|]. destruct (line_ready 5 9) as (e1 & R1 & _); [lra|].
  set (g := mkGrid (V := R) 2 (fun i => match i with O => Linear 1 5 | _ => Linear 5 9 end) (fun i => 1 + 4 * INR i) [] (fun _ => None) false (fun _ => None) (fun _ => None)
    (fun i => match i with 1%nat => Some (Plain 0) | _ => None end) (fun i => match i with O => Some (Plain 1) | _ => None end)).
  set (es := fun i => match i with O => e0 | _ => e1 end).
  destruct (py_limiter_reconstruct two_roots inv2 1 g es [0; 1]%nat (1 / 1000000) (1 / 1000) inv2_inverts two_gauss) as (es' & E & A & _ & B); [lra|lra| |].
  - intros i [<-|[<-|[]]]; (split; [cbn; lra|assumption]).
  - exists g, es, es'. split; [exact R0|]. split; [exact R1|]. split; [reflexivity|]. split; [reflexivity|]. split; [exact E|]. split; [apply B|]. split; [apply B|].
    apply A. cbn. lia.
Qed.

(** ** C158 *)
(** Li Wan-Ai's limiter: an average, with positive weights, of polynomials with the mean value of the element, which is kept *)
Theorem py_lwa_average roots inv degree c e left right epsilon k_epsilon k_trunc : x_left c < x_right c -> (1 <= degree)%nat -> inverts inv -> gauss roots (degree + 1) ->
  ready roots inv degree c e -> (exists linear, Legendre_init roots inv 1 c = Some linear) -> 0 < epsilon -> 0 <= k_epsilon ->
  (left <> None \/ right <> None) ->
  (forall that, In that (neighbors left right) -> exists c2 e2, x_left c2 < x_right c2 /\ made roots inv degree c2 e2 /\ snd that = l_integrator e2) ->
  exists coeff parts, w_limit roots inv epsilon k_epsilon k_trunc e left right = Some coeff /\
    List.Forall (fun f => mean (x_left c) (x_right c) f (l_average e)) parts /\
    convex parts (l_value (l_set_taylor_coeff e coeff)) /\
    l_average (l_set_taylor_coeff e coeff) = l_average e.
Proof.
  intros X D V G H L E K S N. assert (X' : x_left c <> x_right c) by lra.
  destruct (lwa_is roots inv degree c X D V G epsilon k_epsilon k_trunc e left right E K) as (coeff & parts & A1 & A2 & A3 & A4 & _);
    [apply (made_frame roots inv degree c X'), H|apply (ready_represents roots inv degree c e X' V H)|exact L|exact S| |exists coeff, parts; auto].
  apply List.Forall_forall. intros that Hin. rewrite present_is in Hin. destruct (N that Hin) as (c2 & e2 & X2 & M2 & ->).
  apply (norm_pos roots inv degree c c2 e2 X X2 D G). apply (proj1 (made_frame roots inv degree c2 ltac:(lra)) e2 M2).
Qed.
Print Assumptions py_lwa_average.
(** ... but what is borrowed is not the neighbor's polynomial: a straight line through both elements is bent *)
Theorem py_lwa_line_refuted epsilon k_epsilon k_trunc : 0 < epsilon -> 0 <= k_epsilon ->
  exists e e2 coeff, ready two_roots inv2 1 (Linear 1 5) e /\ ready two_roots inv2 1 (Linear 5 9) e2 /\
    (forall x, l_value e x = x) /\ (forall x, l_value e2 x = x) /\
    w_limit two_roots inv2 epsilon k_epsilon k_trunc e None (Some (l_value e2, l_integrator e2)) = Some coeff /\
    5 < l_value (l_set_taylor_coeff e coeff) 5.
Proof.
  intros E K. destruct (line_ready 1 5) as (e & Rd & V); [lra|]. destruct (line_ready 5 9) as (e2 & Rd2 & V2); [lra|].
  assert (X : x_left (Linear 1 5) < x_right (Linear 1 5)) by (cbn; lra). assert (X2 : x_left (Linear 5 9) < x_right (Linear 5 9)) by (cbn; lra).
  assert (X' : x_left (Linear 1 5) <> x_right (Linear 1 5)) by lra. assert (X2' : x_left (Linear 5 9) <> x_right (Linear 5 9)) by lra.
  assert (F := proj2 (made_frame two_roots inv2 1 _ X') e Rd). assert (F2 := proj2 (made_frame two_roots inv2 1 _ X2') e2 Rd2).
  destruct (lwa_is two_roots inv2 1 (Linear 1 5) X ltac:(lia) inv2_inverts two_gauss epsilon k_epsilon k_trunc e None (Some (l_value e2, l_integrator e2)) E K) as (coeff & parts & A1 & _ & _ & _ & A5);
    [exact F|apply (ready_represents two_roots inv2 1 _ e X' inv2_inverts Rd)|apply (again _ _ _ _ _ Rd)|right; discriminate| |].
  { constructor; [|constructor]. apply (norm_pos two_roots inv2 1 _ (Linear 5 9) e2 X X2 ltac:(lia) two_gauss F2). }
  exists e, e2, coeff. split; [exact Rd|]. split; [exact Rd2|]. split; [exact V|]. split; [exact V2|]. split; [exact A1|].
  destruct (A5 eq_refl) as (bs & (ws & L & Pw & S1 & C) & B). inversion B as [|that b ? ? Hb B']; subst. inversion B'; subst. cbn [fst snd] in Hb. clear A5 B B'.
  assert (Av : l_average e = 3).
  { destruct (py_legendre_values two_roots inv2 1 _ e X' inv2_inverts Rd) as (_ & _ & Me & _).
    apply (mean_unique _ _ _ _ _ X' Me). unfold mean. cbn [x_left x_right]. apply (@is_RInt_ext R_NormedModule (fun x => x)); [intros; symmetry; apply V|].
    evar_last; [apply (@is_RInt_derive R_CompleteNormedModule (fun x => x ^ 2 / 2) (fun x => x))|].
    - intros y _. auto_derive; [trivial|field].
    - intros y _. apply continuity_pt_filterlim. reg.
    - unfold minus, plus, opp. cbn. field. }
  set (N := integrate (l_integrator e2) (fun x => xi (Linear 1 5) x * xi (Linear 1 5) x)).
  assert (HN : N = 52 / 3).
  { unfold N. rewrite (xi_square two_roots inv2 1 (Linear 1 5) (Linear 5 9) e2 X X2 ltac:(lia) two_gauss F2). cbn [x_left x_right]. field. }
  assert (Hi : inner_product (l_integrator e2) (xi (Linear 1 5)) (fun x => l_value e2 x - l_average e) = N + N).
  { unfold inner_product, N. rewrite <- (integrate_plus two_roots inv2 1 (Linear 5 9) two_gauss e2 _ _ F2). apply (integrate_ext two_roots inv2 1 (Linear 5 9) two_gauss e2 _ _ F2).
    intros x. rewrite V2, Av. unfold xi. cbn [x_left x_right]. field. }
  assert (Hn : norm_2 (l_integrator e2) (xi (Linear 1 5)) = sqrt N).
  { unfold norm_2. rewrite (norm_square two_roots inv2 1 (Linear 1 5) (Linear 5 9) e2 two_gauss F2). reflexivity. }
  rewrite Hi, Hn, Av in Hb. assert (SqN : sqrt N * sqrt N = N) by (apply sqrt_sqrt; lra).
  assert (S4 : 4 < sqrt N). { replace 4 with (sqrt (4 * 4)) by (apply sqrt_square; lra). apply sqrt_lt_1; lra. }
  assert (B5 : b 5 = 3 + 2 * sqrt N).
  { rewrite Hb. replace (xi (Linear 1 5) 5) with 1 by (unfold xi; cbn [x_left x_right]; field). rewrite <- SqN at 1 2. field. lra. }
  destruct ws as [|w1 [|w2 [|w3 ws]]]; try discriminate. inversion Pw as [|? ? P1 Pw2]; subst. inversion Pw2 as [|? ? P2 _]; subst.
  rewrite C. unfold mix. cbn [combine fold_right fst snd] in *. rewrite V, B5. nra.
Qed.
Print Assumptions py_lwa_line_refuted.
Example py_lwa_example : exists e e2 coeff, ready two_roots inv2 1 (Linear 1 5) e /\ made two_roots inv2 1 (Linear 5 9) e2 /\
  w_limit two_roots inv2 (1 / 1000000) (1 / 10) 10 e None (Some ((fun x => x * x), l_integrator e2)) = Some coeff /\ l_average (l_set_taylor_coeff e coeff) = l_average e.
Proof.
  destruct (line_ready 1 5) as (e & Rd & V); [lra|]. destruct (line_ready 5 9) as (e2 & Rd2 & _); [lra|].
  destruct (py_lwa_average two_roots inv2 1 (Linear 1 5) e None (Some ((fun x => x * x), l_integrator e2)) (1 / 1000000) (1 / 10) 10) as (coeff & parts & A & _ & _ & B);
    [cbn; lra|lia|exact inv2_inverts|exact two_gauss|exact Rd|apply (again _ _ _ _ _ Rd)|lra|lra|right; discriminate| |].
  - intros that [<-|[]]. exists (Linear 5 9), e2. split; [cbn; lra|]. split; [apply Ready, Rd2|reflexivity].
  - exists e, e2, coeff. split; [exact Rd|]. split; [apply Ready, Rd2|]. split; [exact A|exact B].
Qed.
