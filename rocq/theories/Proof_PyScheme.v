(** Residuals of all elements. *)
From Coq Require Import Reals List Arith ZArith Bool Lia Lra FunctionalExtensionality.
From Coquelicot Require Import Coquelicot.
From Verif Require Import Arrays RSum Model_PyIntegrator Model_PyExpansion Model_PyNodal Model_PyElement Spec_PyElement Model_PyFR.
From Verif Require Import Model_PyColumn Spec_PyColumn Proof_PyColumn Model_PyGrid Spec_PyGrid Proof_PyGrid Model_PyScheme.
Import ListNotations.
Open Scope nat_scope.

Section Faces.
  Context {V : Type}.
  Variables (g : Grid V) (solve : Face V -> option (V * V)).
  Notation n := (n_element g).
  Lemma solve_faces_is s : solve_faces solve g = Some s ->
    forall i, i < n + (if periodic g then 0 else 1) -> exists f d v, faces g i = Some f /\ nth_error (made_faces g) f = Some d /\ solve d = Some v /\ s f = Some v.
  Proof.
    unfold solve_faces. set (m := n + (if periodic g then 0 else 1)). intros E.
    assert (G : forall k s, k <= m -> fold_left (fun acc i => do s <- acc; do k <- get_face g (Z.of_nat i); do id <- k; do f <- nth_error (made_faces g) id; do v <- solve f; Some (put s id (Some v)))
        (seq 0 k) (Some (fun _ => None)) = Some s -> forall i, i < k -> exists f d v, faces g i = Some f /\ nth_error (made_faces g) f = Some d /\ solve d = Some v /\ s f = Some v).
    { induction k as [|k IH]; intros s1 Hk E1 i Hi; [lia|]. rewrite seq_S, fold_left_app in E1. cbn [fold_left Nat.add] in E1.
      destruct (fold_left _ (seq 0 k) _) as [s0|] eqn:E0; [|discriminate]. cbn [bind] in E1. unfold get_face in E1.
      rewrite index_nat in E1 by (subst m; destruct (periodic g); lia). cbn [bind] in E1. destruct (faces g k) as [f|] eqn:Ef; [|discriminate]. cbn [bind] in E1.
      destruct (nth_error (made_faces g) f) as [d|] eqn:Ed; [|discriminate]. cbn [bind] in E1. destruct (solve d) as [v|] eqn:Ev; [|discriminate]. cbn [bind] in E1. injection E1 as <-.
      destruct (Nat.eq_dec i k) as [->|N].
      - exists f, d, v. rewrite put_same. auto.
      - destruct (IH s0 ltac:(lia) eq_refl i ltac:(lia)) as (f' & d' & v' & A & B & C & D). exists f', d', v'. split; [exact A|]. split; [exact B|]. split; [exact C|].
        unfold put. destruct (Nat.eqb_spec f' f) as [->|]; [|exact D]. assert (d' = d) by congruence. subst d'. congruence. }
    exact (G m s (le_n _) E).
  Qed.
  (** the flux and the jump of the face at the left of element k, for k = 0 .. n *)
  Definition face_data (v : nat -> V * V) : Prop :=
    (forall i, S i < n -> solve (Interface i (S i)) = Some (v (S i))).
  Lemma element_faces s : 2 <= n -> interior g -> (periodic g = true /\ cyclic g) \/ (exists ul ur, periodic g = false /\ open g ul ur) -> solve_faces solve g = Some s ->
    exists v, face_data v /\ (forall i, i < n -> solved g s (left_face g i) = Some (v i) /\ solved g s (right_face g i) = Some (v (S i))) /\
      (periodic g = true -> solve (Interface (n - 1) 0) = Some (v 0) /\ v n = v 0) /\
      (forall ul ur, periodic g = false -> open g ul ur -> solve (Inlet ul 0 true) = Some (v 0) /\ solve (Inlet ur (n - 1) false) = Some (v n)).
  Proof.
    intros H I B E. pose proof (solve_faces_is s E) as S.
    assert (C : forall k, k <= n -> exists f d v, faces g k = Some f /\ nth_error (made_faces g) f = Some d /\ solve d = Some v /\ s f = Some v).
    { intros k Hk. destruct (Nat.eq_dec k n) as [->|N]; [|apply S; destruct (periodic g); lia].
      destruct B as [(P & f & J & F0 & Fn & _)|(ul & ur & P & _)].
      - rewrite Fn, <- F0. apply S. rewrite P. lia.
      - apply S. rewrite P. lia. }
    set (v := fun k => match faces g k with Some f => match s f with Some v => Some v | None => None end | None => None end).
    destruct (C 0 ltac:(lia)) as (f0 & d0 & v0 & A0 & B0 & C0 & D0).
    exists (fun k => match v k with Some w => w | None => v0 end). unfold face_data, solved.
    split; [|split; [|split]].
    - intros i Hi. destruct (I i Hi) as (f & (_ & _ & M) & F & _). destruct (C (Datatypes.S i) ltac:(lia)) as (f' & d & w & F' & M' & W & Sf).
      assert (f' = f) by congruence. subst f'. unfold v. rewrite F, Sf. congruence.
    - intros i Hi. split.
      + destruct (C i ltac:(lia)) as (f & d & w & F & M & W & Sf). assert (L : left_face g i = Some f).
        { destruct i as [|i]; [|destruct (I i ltac:(lia)) as (f' & (_ & Lf & _) & F' & _); congruence].
          destruct B as [(P & f' & (_ & J & _) & F0 & _)|(ul & ur & P & f' & f'' & L & F' & _)]; congruence. }
        rewrite L. cbn [bind]. unfold v. rewrite F, Sf. reflexivity.
      + destruct (C (Datatypes.S i) ltac:(lia)) as (f & d & w & F & M & W & Sf). assert (L : right_face g i = Some f).
        { destruct (Nat.eq_dec (Datatypes.S i) n) as [N|N].
          - replace i with (n - 1) by lia. rewrite N in F. destruct B as [(P & f' & (J & _ & _) & F0 & Fn & _)|(ul & ur & P & f' & f'' & _ & _ & _ & _ & L & F' & _)]; congruence.
          - destruct (I i ltac:(lia)) as (f' & (Rf & _ & _) & F' & _). congruence. }
        rewrite L. cbn [bind]. unfold v. rewrite F, Sf. reflexivity.
    - intros P. destruct B as [(_ & f & (_ & _ & M) & F0 & Fn & _)|(ul & ur & P' & _)]; [|congruence]. unfold v. rewrite F0, Fn.
      assert (f = f0) by congruence. subst f. rewrite D0. split; [congruence|reflexivity].
    - intros ul ur P (f & f' & _ & F0 & M0 & _ & _ & Fn & Mn & _). destruct (C n (le_n _)) as (f1 & d1 & v1 & A1 & B1 & C1 & D1). unfold v. rewrite F0, Fn.
      assert (f = f0) by congruence. assert (f' = f1) by congruence. subst. rewrite D0, D1. split; congruence.
  Qed.
  (** every face is solved *)
  Lemma solve_faces_exist : 2 <= n -> interior g -> (periodic g = true /\ cyclic g) \/ (exists ul ur, periodic g = false /\ open g ul ur) -> (forall f, solve f <> None) ->
    exists s, solve_faces solve g = Some s.
  Proof.
    intros H I B T. unfold solve_faces. set (m := n + (if periodic g then 0 else 1)).
    assert (C : forall k, k < m -> exists f d, faces g k = Some f /\ nth_error (made_faces g) f = Some d).
    { intros k Hk. destruct (Nat.eq_dec k n) as [->|N].
      - destruct B as [(P & _)|(ul & ur & P & f & f' & _ & _ & _ & _ & _ & F & M & _)]; [subst m; rewrite P in Hk; lia|eauto].
      - assert (k < n) by (subst m; destruct (periodic g); lia). destruct k as [|k].
        + destruct B as [(P & f & (_ & _ & M) & F & _)|(ul & ur & P & f & f' & _ & F & M & _)]; eauto.
        + destruct (I k ltac:(lia)) as (f & (_ & _ & M) & F & _). eauto. }
    assert (G : forall k, k <= m -> exists s, fold_left (fun acc i => do s <- acc; do k <- get_face g (Z.of_nat i); do id <- k; do f <- nth_error (made_faces g) id; do v <- solve f; Some (put s id (Some v)))
        (seq 0 k) (Some (fun _ => None)) = Some s).
    { induction k as [|k IH]; intros Hk; [eexists; reflexivity|]. destruct IH as (s & E); [lia|]. rewrite seq_S, fold_left_app, E. cbn [fold_left Nat.add bind]. unfold get_face.
      rewrite index_nat by (subst m; destruct (periodic g); lia). cbn [bind]. destruct (C k ltac:(lia)) as (f & d & -> & M). cbn [bind]. rewrite M. cbn [bind].
      destruct (solve d) eqn:Ed; [|destruct (T d Ed)]. eexists. reflexivity. }
    exact (G m (le_n _)).
  Qed.
End Faces.

Section Columns.
  Variables (y : Layout) (g : Grid Values) (solve : Face Values -> option (Values * Values)) (element : nat -> Values * Values -> Values * Values -> option (nat -> nat -> R)).
  Hypothesis W : well_formed y.
  Notation n := (n_element g).
  Lemma residual_is column : 2 <= n -> interior g -> (periodic g = true /\ cyclic g) \/ (exists ul ur, periodic g = false /\ open g ul ur) ->
    get_residual_column y g solve element = Some column ->
    exists v t, (forall i, S i < n -> solve (Interface i (S i)) = Some (v (S i))) /\
      (periodic g = true -> solve (Interface (n - 1) 0) = Some (v 0) /\ v n = v 0) /\
      (forall ul ur, periodic g = false -> open g ul ur -> solve (Inlet ul 0 true) = Some (v 0) /\ solve (Inlet ur (n - 1) false) = Some (v n)) /\
      (forall i, i < n -> element i (v i) (v (S i)) = Some (t i)) /\ holds y n column t.
  Proof.
    intros H I B E. unfold get_residual_column, residual_loop in E.
    destruct (solve_faces solve g) as [s|] eqn:Es; [|discriminate]. cbn [bind] in E.
    destruct (element_faces g solve s H I B Es) as (v & D & L & P & O).
    set (body := fun (acc : option (list R * nat)) i => do a <- acc; let '(column, i_dof) := a in
          do l <- solved g s (left_face g i); do r <- solved g s (right_face g i); do v <- element i l r; write_to_column y column v i_dof) in E.
    assert (G : forall k c d, k <= n -> fold_left body (seq 0 k) (Some (repeat 0%R (scheme_n_dof y n), 0)) = Some (c, d) ->
      d = k * (n_component y * n_term y) /\ length c = n * (n_component y * n_term y) /\
      exists t, (forall i, i < k -> element i (v i) (v (S i)) = Some (t i)) /\ forall e r m, valid y k e r m -> nth_error c (position y e r m) = Some (t e r m)).
    { induction k as [|k IH]; intros c d Hk Ek.
      - injection Ek as <- <-. split; [lia|]. split; [rewrite repeat_length; unfold scheme_n_dof, element_n_dof; lia|]. exists (fun _ _ _ => 0%R). split; [lia|unfold valid; lia].
      - rewrite seq_S, fold_left_app in Ek. cbn [fold_left Nat.add] in Ek. destruct (fold_left body (seq 0 k) _) as [(c0 & d0)|] eqn:E0; [|discriminate].
        destruct (IH c0 d0 ltac:(lia) eq_refl) as (-> & Lc & t & T1 & T2). unfold body in Ek. cbn [bind] in Ek. destruct (L k ltac:(lia)) as (-> & L2) in Ek. rewrite L2 in Ek. cbn [bind] in Ek.
        destruct (element k (v k) (v (S k))) as [w|] eqn:Ew; [|discriminate]. cbn [bind] in Ek.
        destruct (write_is y W c0 w (k * (n_component y * n_term y))) as (c1 & L1 & E1 & In & Out); [nia|]. rewrite E1 in Ek. injection Ek as <- <-.
        split; [lia|]. split; [lia|]. exists (fun i => if Nat.eqb i k then w else t i). split.
        + intros i Hi. destruct (Nat.eqb_spec i k) as [->|]; [exact Ew|apply T1; lia].
        + intros e r m (He & Hr & Hm). unfold position. destruct (Nat.eqb_spec e k) as [->|N]; [apply In; assumption|]. rewrite Out; [apply T2; unfold valid; lia|].
          left. assert (m * n_term y + r < n_component y * n_term y) by nia. assert (e * (n_component y * n_term y) + n_component y * n_term y <= k * (n_component y * n_term y)) by nia. lia. }
    destruct (fold_left body _ _) as [(c & d)|] eqn:Ef; [|discriminate]. cbn [bind] in E. destruct (G n c d (le_n _) Ef) as (Hd & Lc & t & T1 & T2).
    destruct (Nat.eqb d (scheme_n_dof y n)); [|discriminate]. injection E as <-. exists v, t. split; [exact D|]. split; [exact P|]. split; [exact O|]. split; [exact T1|]. split; [exact Lc|exact T2].
  Qed.
  Lemma residual_exists : 2 <= n -> interior g -> (periodic g = true /\ cyclic g) \/ (exists ul ur, periodic g = false /\ open g ul ur) ->
    (forall f, solve f <> None) -> (forall i l r, i < n -> element i l r <> None) -> exists column, get_residual_column y g solve element = Some column.
  Proof.
    intros H I B T Te. unfold get_residual_column, residual_loop. destruct (solve_faces_exist g solve H I B T) as (s & Es). rewrite Es. cbn [bind].
    destruct (element_faces g solve s H I B Es) as (v & _ & L & _).
    set (body := fun (acc : option (list R * nat)) i => do a <- acc; let '(column, i_dof) := a in
          do l <- solved g s (left_face g i); do r <- solved g s (right_face g i); do v <- element i l r; write_to_column y column v i_dof).
    assert (G : forall k, k <= n -> exists c, fold_left body (seq 0 k) (Some (repeat 0%R (scheme_n_dof y n), 0)) = Some (c, k * (n_component y * n_term y)) /\ length c = n * (n_component y * n_term y)).
    { induction k as [|k IH]; intros Hk; [eexists; split; [reflexivity|rewrite repeat_length; unfold scheme_n_dof, element_n_dof; lia]|].
      destruct IH as (c & E & Lc); [lia|]. rewrite seq_S, fold_left_app, E. cbn [fold_left Nat.add]. unfold body. cbn [bind]. destruct (L k ltac:(lia)) as (-> & L2). rewrite L2. cbn [bind].
      destruct (element k (v k) (v (S k))) as [w|] eqn:Ew; [|destruct (Te k _ _ ltac:(lia) Ew)]. cbn [bind].
      destruct (write_is y W c w (k * (n_component y * n_term y))) as (c1 & L1 & E1 & _); [nia|]. rewrite E1. exists c1. split; [do 2 f_equal; lia|lia]. }
    destruct (G n (le_n _)) as (c & E & _). rewrite E. cbn [bind]. replace (scheme_n_dof y n) with (n * (n_component y * n_term y)) by (unfold scheme_n_dof, element_n_dof; lia). rewrite Nat.eqb_refl. eauto.
  Qed.
End Columns.

Lemma components_is n f t : components n f = Some t -> forall m, m < n -> exists v, f m = Some v /\ forall r, t r m = v r.
Proof.
  revert t. induction n as [|n IH]; intros t E m Hm; [lia|]. cbn [components] in E. destruct (components n f) as [a|]; [|discriminate]. cbn [bind] in E.
  destruct (f n) as [v|] eqn:Ev; [|discriminate]. injection E as <-. destruct (Nat.eq_dec m n) as [->|N].
  - exists v. split; [exact Ev|]. intros r. rewrite Nat.eqb_refl. reflexivity.
  - destruct (IH a eq_refl m ltac:(lia)) as (w & Ew & Hw). exists w. split; [exact Ew|]. intros r. destruct (Nat.eqb_spec m n); [lia|]. apply Hw.
Qed.
Lemma components_exist n f : (forall m, m < n -> f m <> None) -> components n f <> None.
Proof.
  induction n as [|n IH]; intros H; [discriminate|]. cbn [components]. destruct (components n f) as [a|]; [|destruct IH; [intros; apply H; lia|reflexivity]]. cbn [bind].
  destruct (f n) eqn:E; [discriminate|]. destruct (H n ltac:(lia) E).
Qed.
Lemma mat_dot_ext n a c c' : (forall r, r < n -> c r = c' r) -> mat_dot n a c = mat_dot n a c'.
Proof. intros H. apply functional_extensionality. intros i. unfold mat_dot. apply rsum_ext. intros j Hj. rewrite H by exact Hj. reflexivity. Qed.
Lemma l_set_ext e d c c' e' : l_set_coeff e d c = Some e' -> (forall r, r < d -> c r = c' r) ->
  exists e'', l_set_coeff e d c' = Some e'' /\ forall x, l_value e'' x = l_value e' x.
Proof.
  unfold l_set_coeff. destruct (Nat.eqb_spec d (l_n e)) as [->|]; [|discriminate]. intros E H. injection E as <-. eexists. split; [reflexivity|]. intros x.
  change (global_to_value (l_n e) (l_center e) (mat_dot (l_n e) (l_matrix e) c') x = global_to_value (l_n e) (l_center e) (mat_dot (l_n e) (l_matrix e) c) x).
  rewrite (mat_dot_ext _ _ c c' H). reflexivity.
Qed.
Lemma g_set_ext e d c c' e' : g_set_coeff e d c = Some e' -> (forall r, r < d -> c r = c' r) ->
  exists e'', g_set_coeff e d c' = Some e'' /\ forall x, g_value e'' x = g_value e' x.
Proof.
  unfold g_set_coeff. destruct (Nat.eqb_spec d (g_n e)) as [->|]; [|discriminate]. intros E H. injection E as <-. eexists. split; [reflexivity|]. intros x.
  change (global_to_value (g_n e) (g_center e) (mat_dot (g_n e) (g_inverse e) c') x = global_to_value (g_n e) (g_center e) (mat_dot (g_n e) (g_inverse e) c) x).
  rewrite (mat_dot_ext _ _ c c' H). reflexivity.
Qed.
Lemma telescope n (v : nat -> R) : rsum n (fun i => v i - v (S i))%R = (v 0%nat - v n)%R.
Proof. induction n as [|n IH]; cbn [rsum]; [ring|]. rewrite IH. ring. Qed.

(** the sum of the changes of all elements, for any kind of element which conserves *)
Lemma total_is (E : Type) (set : E -> nat -> (nat -> R) -> option E) (value : E -> R -> R)
  (ext : forall e d c c' e', set e d c = Some e' -> (forall r, r < d -> c r = c' r) -> exists e'', set e d c' = Some e'' /\ forall x, value e'' x = value e' x)
  y g solve (res : nat -> nat -> Values * Values -> Values * Values -> option (nat -> R)) (es : nat -> nat -> E) column coeffs :
  well_formed y -> 2 <= n_element g -> interior g -> (periodic g = true /\ cyclic g) \/ (exists ul ur, periodic g = false /\ open g ul ur) ->
  (forall i m l r t, i < n_element g -> m < n_component y -> res i m l r = Some t -> exists e', set (es i m) (n_term y) t = Some e' /\
     conserves (x_left (coordinates g i)) (x_right (coordinates g i)) (value e') (fst l m) (fst r m)) ->
  get_residual_column y g solve (fun i l r => components (n_component y) (fun m => res i m l r)) = Some column ->
  set_solution_column y (n_element g) column = Some coeffs ->
  forall m, m < n_component y -> exists e' total,
    (forall i, i < n_element g -> set (es i m) (n_term y) (fun r => coeffs i r m) = Some (e' i) /\ is_RInt (value (e' i)) (x_left (coordinates g i)) (x_right (coordinates g i)) (total i)) /\
    (periodic g = true -> rsum (n_element g) total = 0%R) /\
    (forall ul ur, periodic g = false -> open g ul ur -> exists vl vr, solve (Inlet ul 0 true) = Some vl /\ solve (Inlet ur (n_element g - 1) false) = Some vr /\
      rsum (n_element g) total = (fst vl m - fst vr m)%R).
Proof.
  intros W H I B Hc Er Es m Hm. destruct (residual_is y g solve _ W column H I B Er) as (v & t & _ & P & O & T & Ho).
  destruct (set_is y W (n_element g) column (proj1 Ho)) as (co & Eco & Hco). assert (co = coeffs) by congruence. subst co.
  assert (Q : forall i, i < n_element g -> exists e', set (es i m) (n_term y) (fun r => coeffs i r m) = Some e' /\
    is_RInt (value e') (x_left (coordinates g i)) (x_right (coordinates g i)) (fst (v i) m - fst (v (S i)) m)%R).
  { intros i Hi. destruct (components_is _ _ _ (T i Hi) m Hm) as (w & Ew & Hw). destruct (Hc i m _ _ w Hi Hm Ew) as (e' & Se & Ce).
    destruct (ext _ _ _ (fun r => coeffs i r m) _ Se) as (e'' & Se' & Ve).
    - intros r Hr. rewrite <- Hw. assert (Vd : valid y (n_element g) i r m) by (unfold valid; auto). pose proof (proj2 Ho _ _ _ Vd). pose proof (proj2 Hco _ _ _ Vd). congruence.
    - exists e''. split; [exact Se'|]. apply (is_RInt_ext (value e')); [intros x _; symmetry; apply Ve|exact Ce]. }
  assert (Ch : exists e', forall i, i < n_element g -> set (es i m) (n_term y) (fun r => coeffs i r m) = Some (e' i) /\
    is_RInt (value (e' i)) (x_left (coordinates g i)) (x_right (coordinates g i)) (fst (v i) m - fst (v (S i)) m)%R).
  { exists (fun i => match set (es i m) (n_term y) (fun r => coeffs i r m) with Some e' => e' | None => es i m end). intros i Hi. destruct (Q i Hi) as (e' & S1 & R1). rewrite S1. auto. }
  destruct Ch as (e' & A). exists e', (fun i => fst (v i) m - fst (v (S i)) m)%R. split; [exact A|].
  pose proof (telescope (n_element g) (fun i => fst (v i) m)) as Te. cbv beta in Te. split.
  - intros Hp. rewrite Te, (proj2 (P Hp)). ring.
  - intros ul ur Hp Ho'. destruct (O ul ur Hp Ho') as (O1 & O2). exists (v 0), (v (n_element g)). auto.
Qed.
