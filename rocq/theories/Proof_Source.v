(** Proofs about the source term of rotors. *)
From Coq Require Import Reals List Arith Lia Lra Bool.
From Verif Require Import Vec3 Arrays RSum Model_Aircraft Spec_Aircraft Proof_Aircraft Model_Dofs Model_DG Spec_DG Proof_Dofs Proof_DG
  Model_Gauss Model_Source Spec_Source.
Import ListNotations.
Open Scope R_scope.

(** the ratios found on a blade are both valid, or the second is not greater *)
Lemma intersect_valid faces r s : Rotorcraft_Intersect faces = (r, s) -> r < s -> 0 <= r /\ s <= 1.
Proof.
  unfold Rotorcraft_Intersect. destruct (hits (-1) (-1) faces) as [r0 s0] eqn:H.
  assert (G : forall fs r s, (Valid r = false -> Valid s = false) -> Valid (fst (hits r s fs)) = false ->
              Valid (snd (hits r s fs)) = false).
  { induction fs as [|f fs IH]; intros x y Hv; [exact Hv|]. cbn [hits].
    destruct (Valid x) eqn:X, (Valid y) eqn:Y; cbn [andb negb]; try (cbn [fst snd]; intros; congruence).
    - set (z := match f with Some t => t | None => -1 end).
      destruct (Valid z); apply IH; congruence.
    - discriminate (Hv eq_refl).
    - set (z := match f with Some t => t | None => -1 end).
      destruct (Valid z) eqn:Z; apply IH; congruence. }
  assert (F : Valid r0 = false -> Valid s0 = false).
  { intros X. specialize (G faces (-1) (-1) (fun e => e)). rewrite H in G. cbn [fst snd] in G. auto. }
  assert (D : forall fs r s, (r = -1 \/ Valid r = true) -> (s = -1 \/ Valid s = true) ->
              (fst (hits r s fs) = -1 \/ Valid (fst (hits r s fs)) = true) /\ (snd (hits r s fs) = -1 \/ Valid (snd (hits r s fs)) = true)).
  { induction fs as [|f fs IH]; intros x y Hx Hy; [split; assumption|]. cbn [hits].
    destruct (andb (Valid x) (Valid y)); [split; assumption|].
    set (z := match f with Some t => t | None => -1 end).
    destruct (Valid z) eqn:Z; [|apply IH; assumption]. destruct (negb (Valid x)); apply IH; auto. }
  specialize (D faces (-1) (-1) (or_introl eq_refl) (or_introl eq_refl)). rewrite H in D. cbn [fst snd] in D. destruct D as [D1 D2].
  destruct (Valid r0) eqn:X.
  - assert (Y : forall y, Valid y = true -> 0 <= y <= 1) by (intros; apply valid_iff; assumption).
    destruct (Valid s0) eqn:Z; cbn [andb negb].
    + rewrite Z. pose proof (Y _ X). pose proof (Y _ Z). destruct (Rgt_dec r0 s0); intros E O; inversion E; subst; lra.
    + assert (V1 : Valid (if Rlt_dec r0 (1 / 2) then 0 else 1) = true).
      { apply valid_iff. destruct (Rlt_dec r0 (1 / 2)); lra. }
      rewrite V1. pose proof (Y _ X). pose proof (Y _ V1). revert H1. generalize (if Rlt_dec r0 (1 / 2) then 0 else 1). intros z Hz.
      destruct (Rgt_dec r0 z); intros E O; inversion E; subst; lra.
  - specialize (F eq_refl). rewrite F. cbn [andb]. intros E O. inversion E; subst.
    destruct D1 as [->|]; [|congruence]. destruct D2 as [->|]; [lra|congruence].
Qed.

(** the points of the rule on a segment are inside it *)
Lemma legendre_inside x : In x (Legendre_points 4) -> -1 < x < 1.
Proof.
  assert (A : 0 <= sqrt (12 / 10) < 2).
  { split; [apply sqrt_pos|]. rewrite <- (sqrt_square 2) by lra. apply sqrt_lt_1; lra. }
  assert (B : sqrt (12 / 10) < 3 / 2).
  { rewrite <- (sqrt_square (3 / 2)) by lra. apply sqrt_lt_1; lra. }
  assert (G : forall y, 0 <= y < 1 -> 0 <= sqrt y < 1).
  { intros y H. split; [apply sqrt_pos|]. rewrite <- sqrt_1. apply sqrt_lt_1; lra. }
  cbn [Legendre_points In].
  pose proof (G ((3 + 2 * sqrt (12 / 10)) / 7) ltac:(lra)). pose proof (G ((3 - 2 * sqrt (12 / 10)) / 7) ltac:(lra)).
  intuition; subst; lra.
Qed.

Lemma line_points_inside r s ratio w : r < s -> In (ratio, w) (line_points r s) -> r < ratio < s.
Proof.
  intros O I. unfold line_points in I. apply in_combine_l in I. unfold Line_coords in I. apply in_map_iff in I.
  destruct I as (x & <- & I). apply legendre_inside in I. unfold Line_LocalToGlobal. nra.
Qed.

(** [coeff->row(row) += x] *)
Lemma add_row_spec N row x data m : (row < 5)%nat ->
  (forall j k, (j < N)%nat -> (k < 5)%nat ->
     add_row N row x data m (data + (j * 5 + k))%nat = m (data + (j * 5 + k))%nat + (if (k =? row)%nat then x j else 0))
  /\ (forall a, (a < data \/ data + N * 5 <= a)%nat -> add_row N row x data m a = m a).
Proof.
  intros L. unfold add_row. induction N as [|N [I O]]; [split; [intros; lia|reflexivity]|].
  rewrite seq_S, fold_left_app. cbn [fold_left]. rewrite Nat.add_0_l.
  set (m' := fold_left _ (seq 0 N) m) in *.
  assert (B : forall j, (j < N)%nat \/ j = N \/ (N < j)%nat) by lia.
  split.
  - intros j k J K. destruct (Nat.eq_dec j N) as [->|D].
    + rewrite (O (data + (N * 5 + k))%nat) by lia.
      destruct (Nat.eqb_spec (data + (N * 5 + k)) (data + (N * 5 + row))); destruct (Nat.eqb_spec k row); try lia; ring.
    + destruct (Nat.eqb_spec (data + (j * 5 + k)) (data + (N * 5 + row))); [lia|]. apply I; lia.
  - intros a H. destruct (Nat.eqb_spec a (data + (N * 5 + row))); [lia|]. apply O. lia.
Qed.

Section Source.
  Variable N : nat.
  Variable corners : cell -> list (vec * vec * vec).

  Definition load_at (c : cell) (r : RotorState) (b : BladeState) (st : sections) (point : R * R) : option load :=
    let (ratio, w) := point in
    do d <- GetSection st ratio;
    do xyz <- section_origin r b st ratio;
    Some (Load (fst (GetSourceValue c r b st ratio d xyz)) xyz (w * GetSpan st)).
  Fixpoint collect {A B} (f : A -> option (list B)) (l : list A) : option (list B) :=
    match l with [] => Some [] | x :: t => do y <- f x; do z <- collect f t; Some (y ++ z) end.
  Definition blade_loads (c : cell) (r : RotorState) (bst : BladeState * sections) : option (list load) :=
    let (b, st) := bst in
    let (r0, s0) := blade_in_cell corners c b in
    if Rlt_dec r0 s0 then collect (fun p => option_map (fun x => [x]) (load_at c r b st p)) (line_points r0 s0) else Some [].
  Definition loads (c : cell) (t : R) (rotors : list rotor) : option (list load) :=
    collect (fun r => collect (blade_loads c (the_rotor r)) (r_all r)) (map (rotor_update t) rotors).

  (** ** GetForces *)
  Definition push (out : vectors) (l : list load) : vectors :=
    let '(f, p, w) := out in (f ++ map l_force l, p ++ map l_point l, w ++ map l_length l).
  Lemma push_nil out : push out [] = out.
  Proof. destruct out as [[f p] w]. cbn. rewrite !app_nil_r. reflexivity. Qed.
  Lemma push_app out l l' : push (push out l) l' = push out (l ++ l').
  Proof. destruct out as [[f p] w]. cbn. rewrite !map_app, <- !app_assoc. reflexivity. Qed.

  Lemma fold_collect {A} (step : vectors -> A -> option vectors) (f : A -> option (list load)) :
    forall l, (forall out x, In x l -> step out x = option_map (push out) (f x)) ->
    forall out, foldM step l out = option_map (push out) (collect f l).
  Proof.
    induction l as [|x l IH]; intros H out; cbn [foldM collect option_map]; [rewrite push_nil; reflexivity|].
    rewrite (H out x (or_introl eq_refl)). destruct (f x) as [y|]; cbn [option_map bind]; [|reflexivity].
    rewrite IH by (intros; apply H; right; assumption). destruct (collect f l); cbn [option_map bind]; [|reflexivity].
    rewrite push_app. reflexivity.
  Qed.

  Lemma forces_blade c r out bst : GetForces_blade corners c r out bst = option_map (push out) (blade_loads c r bst).
  Proof.
    destruct bst as [b st]. unfold GetForces_blade, blade_loads. destruct (blade_in_cell corners c b) as [r0 s0].
    destruct (Rge_dec r0 s0), (Rlt_dec r0 s0); try (exfalso; lra); [cbn; rewrite push_nil; reflexivity|].
    apply fold_collect. intros [[f p] w] [ratio wt] _. cbn [force_at load_at].
    destruct (GetSection st ratio); cbn [bind option_map]; [|reflexivity].
    destruct (section_origin r b st ratio); cbn [bind option_map]; [|reflexivity]. reflexivity.
  Qed.

  Lemma forces_loads c t : forall rotors out,
    GetForces corners c t rotors out
    = option_map (fun l => (map (rotor_update t) rotors, push out l)) (loads c t rotors).
  Proof.
    unfold loads. induction rotors as [|r rotors IH]; intros out; cbn [GetForces map collect option_map]; [rewrite push_nil; reflexivity|].
    rewrite (fold_collect (GetForces_blade corners c (the_rotor (rotor_update t r))) (blade_loads c (the_rotor (rotor_update t r))))
      by (intros; apply forces_blade).
    destruct (collect (blade_loads c (the_rotor (rotor_update t r))) (r_all (rotor_update t r))) as [l|]; cbn [option_map bind]; [|reflexivity].
    rewrite IH. destruct (collect _ (map (rotor_update t) rotors)) as [l'|]; cbn [option_map bind]; [|reflexivity].
    rewrite push_app. reflexivity.
  Qed.

  (** ** UpdateCoeff *)
  Definition source_of (c : cell) (l : list load) (j k : nat) : R :=
    lsum l (fun x => load_on c k x * c_basis c (l_point x) j).
  (** [m'] is [m] with the loads added to the data of the cell *)
  Definition added (c : cell) (l : list load) (data : nat) (m m' : nat -> R) : Prop :=
    (forall j k, (j < N)%nat -> (k < 5)%nat -> m' (data + (j * 5 + k))%nat = m (data + (j * 5 + k))%nat + source_of c l j k)
    /\ (forall a, (a < data \/ data + N * 5 <= a)%nat -> m' a = m a).
  Lemma added_nil c data m : added c [] data m m.
  Proof. split; intros; [cbn; ring|reflexivity]. Qed.
  Lemma added_app c l l' data m m1 m2 : added c l data m m1 -> added c l' data m1 m2 -> added c (l ++ l') data m m2.
  Proof.
    intros [A B] [C D]. split; intros.
    - rewrite C, A by assumption. unfold source_of. rewrite lsum_app. ring.
    - rewrite D, B by assumption. reflexivity.
  Qed.

  Definition agrees (c : cell) (data : nat) (m : nat -> R) (l : option (list load)) (m' : option (nat -> R)) : Prop :=
    match l, m' with Some l, Some m' => added c l data m m' | None, None => True | _, _ => False end.

  (** entry [i], [j] of the integral, before the multiplication by the span *)
  Definition entry (c : cell) (span : R) (i j : nat) (x : load) : R :=
    gives (l_force x) (flow_velocity (c_value c (l_point x))) (S i) * c_basis c (l_point x) j.

  Lemma integrate_loads c r b st : forall points sum0,
    match collect (fun p => option_map (fun x => [x]) (load_at c r b st p)) points,
          foldM (fun sum '(ratio, w) => do y <- integrand c r b st ratio; Some (fun i j => sum i j + y i j * w)) points sum0 with
    | Some l, Some y => forall i j, (i < 4)%nat ->
        y i j * GetSpan st = sum0 i j * GetSpan st + source_of c l j (S i)
    | None, None => True
    | _, _ => False
    end.
  Proof.
    induction points as [|[ratio w] points IH]; intros sum0; cbn [collect foldM].
    - intros. cbn. ring.
    - cbn [load_at]. pose proof (eq_refl (integrand c r b st ratio)) as Ei. unfold integrand at 2 in Ei. rewrite Ei. clear Ei.
      destruct (GetSection st ratio) as [d|]; cbn [bind option_map]; [|exact I].
      destruct (section_origin r b st ratio) as [xyz|]; cbn [bind option_map]; [|exact I].
      destruct (GetSourceValue c r b st ratio d xyz) as [force power] eqn:E. cbn [bind fst].
      match goal with |- context [foldM ?f points ?s] => specialize (IH s); destruct (collect _ points) as [l|], (foldM f points s) as [y|] end;
        cbn [bind]; try exact I; try contradiction.
      intros i j L. rewrite (IH i j L). unfold source_of. cbn [app lsum].
      unfold load_on at 2. cbn [l_force l_point l_length].
      assert (P : power = dot force (flow_velocity (c_value c xyz))).
      { unfold GetSourceValue in E. inversion E. reflexivity. }
      destruct i as [|[|[|[|i]]]]; [| | | |lia]; cbn [gives]; rewrite ?P; ring.
  Qed.

  Lemma update_blade c r bst data m : agrees c data m (blade_loads c r bst) (UpdateCoeff_blade N corners c r bst data m).
  Proof.
    destruct bst as [b st]. unfold agrees, blade_loads, UpdateCoeff_blade.
    destruct (blade_in_cell corners c b) as [r0 s0] eqn:E. destruct (Rlt_dec r0 s0) as [O|O]; [|apply added_nil].
    destruct (intersect_valid _ _ _ E O) as [A B].
    assert (V0 : Valid r0 = true) by (apply valid_iff; lra). assert (V1 : Valid s0 = true) by (apply valid_iff; lra).
    rewrite V0, V1. cbn [andb].
    pose proof (integrate_loads c r b st (line_points r0 s0) (fun _ _ => 0)) as H. unfold integrate.
    destruct (collect _ (line_points r0 s0)) as [l|]; match type of H with match ?x with _ => _ end => destruct x as [y|] end;
      cbn [bind]; try contradiction; [|exact I].
    set (z := fun i j => y i j * GetSpan st).
    assert (Z : forall i j, (i < 4)%nat -> z i j = source_of c l j (S i)).
    { intros i j L. unfold z. rewrite (H i j L). ring. }
    destruct (add_row_spec N 1 (z 0%nat) data m ltac:(lia)) as [I1 O1]. set (m1 := add_row N 1 _ data m) in *.
    destruct (add_row_spec N 2 (z 1%nat) data m1 ltac:(lia)) as [I2 O2]. set (m2 := add_row N 2 _ data m1) in *.
    destruct (add_row_spec N 3 (z 2%nat) data m2 ltac:(lia)) as [I3 O3]. set (m3 := add_row N 3 _ data m2) in *.
    destruct (add_row_spec N 4 (z 3%nat) data m3 ltac:(lia)) as [I4 O4]. split.
    - intros j k J K. rewrite I4, I3, I2, I1 by assumption.
      destruct k as [|[|[|[|[|k]]]]]; [| | | | |lia]; cbn [Nat.eqb]; rewrite ?Z by lia; try ring.
      unfold source_of. rewrite (lsum_ext l _ (fun _ => 0)); [rewrite lsum_zero; ring|].
      intros x _. unfold load_on. cbn [gives]. ring.
    - intros a L. rewrite O4, O3, O2, O1 by assumption. reflexivity.
  Qed.

  Lemma fold_agrees {A} c data (step : (nat -> R) -> A -> option (nat -> R)) (f : A -> option (list load)) :
    forall l, (forall m x, In x l -> agrees c data m (f x) (step m x)) ->
    forall m, agrees c data m (collect f l) (foldM step l m).
  Proof.
    induction l as [|x l IH]; intros H m; cbn [foldM collect]; [apply added_nil|].
    pose proof (H m x (or_introl eq_refl)) as Hx. unfold agrees in Hx.
    destruct (f x) as [y|], (step m x) as [m1|]; cbn [bind]; try contradiction; [|exact I].
    pose proof (IH (fun m y Iy => H m y (or_intror Iy)) m1) as Hl. unfold agrees in *.
    destruct (collect f l) as [z|], (foldM step l m1) as [m2|]; cbn [bind]; try contradiction; [|exact I].
    eapply added_app; eassumption.
  Qed.

  Lemma update_loads c t data : forall rotors m,
    match loads c t rotors, UpdateCoeff N corners c t data rotors m with
    | Some l, Some (rotors', m') => rotors' = map (rotor_update t) rotors /\ added c l data m m'
    | None, None => True
    | _, _ => False
    end.
  Proof.
    unfold loads. induction rotors as [|r rotors IH]; intros m; cbn [UpdateCoeff map collect].
    - split; [reflexivity|apply added_nil].
    - pose proof (fold_agrees c data (fun m b => UpdateCoeff_blade N corners c (the_rotor (rotor_update t r)) b data m)
        (blade_loads c (the_rotor (rotor_update t r))) (r_all (rotor_update t r)) ltac:(intros; apply update_blade) m) as H.
      unfold agrees in H.
      destruct (collect (blade_loads c (the_rotor (rotor_update t r))) (r_all (rotor_update t r))) as [y|];
        match type of H with match ?x with _ => _ end => destruct x as [m1|] end; cbn [bind]; try contradiction; [|exact I].
      specialize (IH m1). destruct (collect _ (map (rotor_update t) rotors)) as [z|], (UpdateCoeff N corners c t data rotors m1) as [[rs m2]|];
        cbn [bind]; try contradiction; [|exact I].
      destruct IH as [-> A]. split; [reflexivity|]. eapply added_app; eassumption.
  Qed.
End Source.
