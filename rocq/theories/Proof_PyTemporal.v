(** The time integrators of the Python package. *)
From Coq Require Import Reals List Arith Bool Lra Lia FunctionalExtensionality.
From Verif Require Import Arrays Model_Temporal Spec_Temporal Proof_Temporal Model_PyTemporal Spec_PyTemporal.
Import ListNotations.
Open Scope R_scope.

Definition tableau (order : nat) : list (R * list R) * list R :=
  match order with
  | 1%nat => ([(0, [])], [1])
  | 2%nat => ([(0, []); (1, [1])], [1 / 2; 1 / 2])
  | 3%nat => ([(0, []); (1, [1]); (1 / 2, [1 / 4; 1 / 4])], [1 / 6; 1 / 6; 2 / 3])
  | _ => ([(0, []); (1 / 2, [1 / 2]); (1 / 2, [0; 1 / 2]); (1, [0; 0; 1])], [1 / 6; 1 / 3; 1 / 3; 1 / 6])
  end.
Lemma tableau_order order : (1 <= order <= 4)%nat -> order_conditions order (fst (tableau order)) (snd (tableau order)).
Proof.
  intros H. assert (order = 1 \/ order = 2 \/ order = 3 \/ order = 4)%nat as [->|[->|[->| ->]]] by lia;
    unfold order_conditions, tableau, nodes, apply_a; cbn [fst snd map dot mul];
    repeat split; intros; try lia; try field; repeat constructor; cbn [fst snd map dot]; field.
Qed.

Lemma order_cases order : (1 <= order <= 4)%nat -> order = 1%nat \/ order = 2%nat \/ order = 3%nat \/ order = 4%nat.
Proof. lia. Qed.
Ltac open_py := unfold rk_update, rk1_update, rk2_update, rk3_update, rk4_update, euler_update, u_next,
  get_residual_column, get_solution_column, set_time, set_solution_column, Model_PyTemporal.plus, times, over; cbn [bind s_solution s_time].

Section Systems.
  Context {I : Type}.
  Implicit Type u : Column I.

  (** without limiter *)
  Definition id_limit (u : Column I) : Column I := u.
  Lemma butcher_form residual order s dt t : (1 <= order <= 4)%nat ->
    rk_update residual id_limit order s dt t =
    Some (mkSystem (t + dt) (butcher (fst (tableau order)) (snd (tableau order)) residual t dt (s_solution s))).
  Proof.
    intros H. destruct s as [t0 u]. unfold id_limit.
    destruct (order_cases order H) as [->|[->|[->| ->]]]; open_py; f_equal; f_equal; unfold butcher, tableau; cbn [fst snd slopes app combination];
      extensionality i.
    - replace (t + 0 * dt) with t by ring. replace (fun j => u j + dt * 0) with u by (extensionality j; ring). ring.
    - replace (t + 0 * dt) with t by ring. replace (t + 1 * dt) with (t + dt) by ring.
      replace (fun j => u j + dt * 0) with u by (extensionality j; ring).
      replace (fun j => u j + dt * (1 * residual t u j + 0)) with (fun j => u j + residual t u j * dt) by (extensionality j; ring). field.
    - replace (t + 0 * dt) with t by ring. replace (t + 1 * dt) with (t + dt) by ring. replace (t + 1 / 2 * dt) with (t + dt / 2) by field.
      replace (fun j => u j + dt * 0) with u by (extensionality j; ring).
      replace (fun j => u j + dt * (1 * residual t u j + 0)) with (fun j => u j + residual t u j * dt) by (extensionality j; ring).
      set (v := fun j => u j + residual t u j * dt).
      replace (fun j => (u j + residual t u j * dt + residual (t + dt) v j * dt + u j * 3) / 4)
        with (fun j => u j + dt * (1 / 4 * residual t u j + (1 / 4 * residual (t + dt) v j + 0))) by (extensionality j; field).
      set (w := fun j => u j + dt * (1 / 4 * residual t u j + (1 / 4 * residual (t + dt) v j + 0))). generalize (residual (t + dt / 2) w i); intros z; unfold w; field.
    - replace (t + 0 * dt) with t by ring. replace (t + 1 * dt) with (t + dt) by ring. replace (t + 1 / 2 * dt) with (t + dt / 2) by field.
      replace (fun j => u j + dt * 0) with u by (extensionality j; ring).
      replace (fun j => u j + dt * (1 / 2 * residual t u j + 0)) with (fun j => u j + residual t u j * dt / 2) by (extensionality j; field).
      set (v := fun j => u j + residual t u j * dt / 2).
      replace (fun j => u j + dt * (0 * residual t u j + (1 / 2 * residual (t + dt / 2) v j + 0)))
        with (fun j => u j + residual (t + dt / 2) v j * dt / 2) by (extensionality j; field).
      set (w := fun j => u j + residual (t + dt / 2) v j * dt / 2).
      replace (fun j => u j + dt * (0 * residual t u j + (0 * residual (t + dt / 2) v j + (1 * residual (t + dt / 2) w j + 0))))
        with (fun j => u j + residual (t + dt / 2) w j * dt) by (extensionality j; ring).
      field.
  Qed.

  Lemma rk_series (a : Column I -> Column I) order s dt t : linear a -> (1 <= order <= 4)%nat ->
    exists s', rk_update (fun _ => a) id_limit order s dt t = Some s' /\ s_time s' = t + dt /\
      forall i, s_solution s' i = taylor order a dt (s_solution s) i.
  Proof.
    intros L H. rewrite butcher_form by exact H. eexists. split; [reflexivity|]. cbn [s_time s_solution]. split; [reflexivity|].
    intros i. destruct s as [t0 u]. cbn [s_solution].
    assert (LC := linear_comb a L).
    assert (E : forall c v, a (fun j => u j + dt * (c * v j + 0)) = fun j => a u j + dt * c * a v j).
    { intros c v. replace (fun j => u j + dt * (c * v j + 0)) with (fun j => 1 * u j + dt * c * v j) by (extensionality j; ring).
      rewrite LC. extensionality j. ring. }
    assert (E0 : a (fun j => u j + dt * 0) = a u) by (f_equal; extensionality j; ring).
    destruct (order_cases order H) as [->|[->|[->| ->]]]; unfold butcher, tableau; cbn [fst snd slopes app combination taylor power]; rewrite ?E0.
    - cbn [fact Nat.mul Nat.add INR pow]. field.
    - rewrite E. cbn [fact Nat.mul Nat.add INR pow]. field.
    - rewrite E. 
      replace (fun j => u j + dt * (1 / 4 * a u j + (1 / 4 * (a u j + dt * 1 * a (a u) j) + 0)))
        with (fun j => 1 * (fun j => 1 * u j + dt / 2 * a u j) j + dt * dt / 4 * a (a u) j) by (extensionality j; field).
      rewrite LC, LC. cbn [fact Nat.mul Nat.add INR pow]. field.
    - rewrite E.
      replace (fun j => u j + dt * (0 * a u j + (1 / 2 * (a u j + dt * (1 / 2) * a (a u) j) + 0)))
        with (fun j => 1 * (fun j => 1 * u j + dt / 2 * a u j) j + dt * dt / 4 * a (a u) j) by (extensionality j; field).
      rewrite LC, LC.
      replace (fun j => u j + dt * (0 * a u j + (0 * (a u j + dt * (1 / 2) * a (a u) j) +
          (1 * (1 * (1 * a u j + dt / 2 * a (a u) j) + dt * dt / 4 * a (a (a u)) j) + 0))))
        with (fun j => 1 * (fun j => 1 * (fun j => 1 * u j + dt * a u j) j + dt * dt / 2 * a (a u) j) j + dt * dt * dt / 4 * a (a (a u)) j)
        by (extensionality j; field).
      rewrite LC, LC, LC. cbn [fact Nat.mul Nat.add INR pow]. field.
  Qed.

  Lemma rk_quadrature (p : I -> list R) order s dt t : (1 <= order <= 4)%nat ->
    (forall i, (length (p i) <= match order with 3 | 4 => 4 | _ => order end)%nat) ->
    exists s', rk_update (fun t _ i => poly (p i) t) id_limit order s dt t = Some s' /\
      forall i, s_solution s' i = s_solution s i + integral (p i) t (t + dt).
  Proof.
    intros H HL. rewrite butcher_form by exact H. eexists. split; [reflexivity|]. intros i. specialize (HL i).
    destruct s as [t0 u]. cbn [s_solution]. unfold butcher, tableau, integral.
    destruct (order_cases order H) as [->|[->|[->| ->]]]; cbn [fst snd slopes app combination];
      (destruct (p i) as [|c0 [|c1 [|c2 [|c3 [|c4 r]]]]]; cbn [length] in HL; try lia; cbn [poly antideriv INR]; field).
  Qed.

  (** with a limiter *)
  Lemma rk_keeps (P : Column I -> Prop) residual limit dt order s t : convex P -> (1 <= order <= 3)%nat ->
    (forall t u, P u -> P (fun i => u i + dt * residual t u i)) -> (forall u, P u -> P (limit u)) -> P (s_solution s) ->
    exists s', rk_update residual limit order s dt t = Some s' /\ s_time s' = t + dt /\ P (s_solution s').
  Proof.
    intros C H E L Hu. destruct s as [t0 u]. cbn [s_solution] in Hu.
    assert (E' : forall t u, P u -> P (fun i => u i + residual t u i * dt)).
    { intros t1 v Hv. replace (fun i => v i + residual t1 v i * dt) with (fun i => v i + dt * residual t1 v i) by (extensionality j; ring). auto. }
    destruct (rk_cases order H) as [->|[->| ->]]; open_py; (eexists; split; [reflexivity|]); cbn [s_time s_solution]; (split; [reflexivity|]); apply L.
    - apply E', Hu.
    - set (v := limit _). assert (Pv : P v) by (apply L, E', Hu).
      apply (convex_use P (1 / 2) _ u _ C) with (2 := E' (t + dt) v Pv); auto; [lra|]. intros i. cbv beta. field.
    - set (v := limit (fun i => u i + residual t u i * dt)). assert (Pv : P v) by (apply L, E', Hu).
      set (w := limit (fun i => (v i + residual (t + dt) v i * dt + u i * 3) / 4)).
      assert (Pw : P w).
      { apply L. apply (convex_use P (1 / 4) _ u _ C) with (2 := E' (t + dt) v Pv); auto; [lra|]. intros i. cbv beta. field. }
      apply (convex_use P (2 / 3) _ u _ C) with (2 := E' (t + dt / 2) w Pw); auto; [lra|]. intros i. cbv beta. field.
  Qed.
  Lemma rk_conserves (l : Column I -> R) residual limit dt order s t : functional l -> (1 <= order <= 4)%nat ->
    (forall t u, l (residual t u) = 0) -> (forall u, l (limit u) = l u) ->
    exists s', rk_update residual limit order s dt t = Some s' /\ l (s_solution s') = l (s_solution s).
  Proof.
    intros (L1 & L2) H Z K. destruct s as [t0 u].
    assert (E : forall c t u v, l (fun i => u i + residual t v i * c) = l u).
    { intros c t1 v w. rewrite (L1 v (fun i => residual t1 w i * c)).
      replace (fun i => residual t1 w i * c) with (fun i => c * residual t1 w i) by (extensionality j; ring). rewrite L2, Z. ring. }
    assert (D : forall c v, l (fun i => v i / c) = l v / c).
    { intros c v. replace (fun i => v i / c) with (fun i => / c * v i) by (extensionality j; unfold Rdiv; ring). rewrite L2. unfold Rdiv. ring. }
    assert (M : forall c v, l (fun i => v i * c) = l v * c).
    { intros c v. replace (fun i => v i * c) with (fun i => c * v i) by (extensionality j; ring). rewrite L2. ring. }
    destruct (order_cases order H) as [->|[->|[->| ->]]]; open_py; (eexists; split; [reflexivity|]); cbn [s_time s_solution]; rewrite K.
    - apply E.
    - rewrite D, (L1 _ u), E, K, E. field.
    - rewrite D, (L1 _ u), M, E, K, D, (L1 _ (fun i => u i * 3)), M, E, K, E. field.
    - match goal with |- l (fun i => u i + (?A i + ?B i + (?F i + ?G i) * 2) * _) = _ =>
        rewrite (L1 u (fun i => (A i + B i + (F i + G i) * 2) * (dt / 6))), M,
          (L1 (fun i => A i + B i) (fun i => (F i + G i) * 2)), (L1 A B), M, (L1 F G) end.
      rewrite !Z. field.
  Qed.
End Systems.

(** ** The time loop *)
Section Loop.
  Context {S : Type} (update : S -> R -> R -> option S) (suggestions : S -> list R).
  Lemma suggest_le s dt : suggest_delta_t suggestions s dt <= dt /\ forall d, In d (suggestions s) -> suggest_delta_t suggestions s dt <= d.
  Proof.
    unfold suggest_delta_t. generalize (suggestions s) as l. intros l. revert dt. induction l as [|a l IH]; intros dt; cbn [fold_left In].
    - split; [lra|intros d []].
    - destruct (IH (Rmin dt a)) as [A B]. pose proof (Rmin_l dt a). pose proof (Rmin_r dt a). split; [lra|].
      intros d [->|Hd]; [lra|auto].
  Qed.
  Lemma suggest_ge s dt m : m <= dt -> (forall d, In d (suggestions s) -> m <= d) -> m <= suggest_delta_t suggestions s dt.
  Proof.
    unfold suggest_delta_t. generalize (suggestions s) as l. intros l. revert dt. induction l as [|a l IH]; intros dt A B; cbn [fold_left]; [exact A|].
    apply IH; [apply Rmin_glb; [exact A|apply B; left; reflexivity]|intros d Hd; apply B; right; exact Hd].
  Qed.
  Local Notation chain := (@chain S update suggestions).
  Lemma advance_chain dt_max t_next fuel : forall s t s' t' l,
    t <= t_next -> advance update suggestions fuel dt_max t_next s t = Some (s', t', l) ->
    t' = t_next /\ chain dt_max s t l s' t'.
  Proof.
    induction fuel as [|fuel IH]; intros s t s' t' l H E; cbn [advance] in E; destruct (Rlt_dec t t_next); try discriminate;
      try (injection E as <- <- <-; split; [lra|constructor]).
    set (dt := Rmin dt_max (suggest_delta_t suggestions s (t_next - t))) in *.
    destruct (suggest_le s (t_next - t)) as [A B]. pose proof (Rmin_l dt_max (suggest_delta_t suggestions s (t_next - t))).
    pose proof (Rmin_r dt_max (suggest_delta_t suggestions s (t_next - t))). fold dt in H0, H1.
    destruct (update s dt t) as [s1|] eqn:U; [|discriminate]. cbn [bind] in E.
    destruct (advance update suggestions fuel dt_max t_next s1 (t + dt)) as [[[s2 t2] l2]|] eqn:V; [|discriminate].
    cbn [bind fst snd] in E. injection E as <- <- <-.
    assert (G : t + dt <= t_next) by lra. destruct (IH _ _ _ _ _ G V) as [-> C]. split; [reflexivity|].
    apply (More _ _ _ s t dt s1); auto. intros d Hd. specialize (B d Hd). lra.
  Qed.
  Lemma chain_app dt_max s t l s1 t1 l' s2 t2 : chain dt_max s t l s1 t1 -> chain dt_max s1 t1 l' s2 t2 -> chain dt_max s t (l ++ l') s2 t2.
  Proof. induction 1; intros K; cbn [app]; [exact K|]. eapply More; eauto. Qed.
  Lemma frames_spec dt_max dpf fuel n : forall s t fs l, 0 <= dpf ->
    frames update suggestions fuel n dt_max dpf s t = Some (fs, l) ->
    length fs = Datatypes.S n /\ (forall i, (i <= n)%nat -> exists si, nth_error fs i = Some (t + INR i * dpf, si)) /\
    nth_error fs 0 = Some (t, s) /\
    (forall i x y, nth_error fs i = Some x -> nth_error fs (Datatypes.S i) = Some y -> exists l', chain dt_max (snd x) (fst x) l' (snd y) (fst y)) /\
    exists s', nth_error fs n = Some (t + INR n * dpf, s') /\ chain dt_max s t l s' (t + INR n * dpf).
  Proof.
    induction n as [|n IH]; intros s t fs l D E; cbn [frames] in E.
    - injection E as <- <-. split; [reflexivity|]. split; [|split; [reflexivity|split]].
      + intros i Hi. replace i with O by lia. exists s. cbn. f_equal. f_equal. ring.
      + intros i x y _ F. destruct i; discriminate.
      + exists s. cbn. replace (t + 0 * dpf) with t by ring. split; [reflexivity|constructor].
    - destruct (advance update suggestions fuel dt_max (t + dpf) s t) as [[[s1 t1] l1]|] eqn:A; [|discriminate]. cbn [bind fst snd] in E.
      destruct (frames update suggestions fuel n dt_max dpf s1 t1) as [[fs2 l2]|] eqn:F; [|discriminate]. cbn [bind fst snd] in E.
      injection E as <- <-. assert (G : t <= t + dpf) by lra. destruct (advance_chain _ _ _ _ _ _ _ _ G A) as [-> C].
      destruct (IH _ _ _ _ D F) as (L & T & Z & Q & s' & N & K).
      split; [cbn; lia|]. split; [|split; [reflexivity|split]].
      + intros i Hi. destruct i as [|i]; [exists s; cbn; f_equal; f_equal; ring|]. destruct (T i ltac:(lia)) as [si Si].
        exists si. cbn [nth_error]. rewrite Si. f_equal. f_equal. rewrite S_INR. ring.
      + intros i x y X Y. destruct i as [|i].
        * cbn in X. injection X as <-. change (nth_error fs2 0 = Some y) in Y. rewrite Z in Y. injection Y as <-. cbn [fst snd]. exists l1. exact C.
        * apply (Q i); [exact X|exact Y].
      + exists s'. replace (t + INR (Datatypes.S n) * dpf) with (t + dpf + INR n * dpf) by (rewrite S_INR; ring).
        split; [exact N|]. eapply chain_app; eauto.
  Qed.
  Lemma advance_total dt_max t_next m : 0 < m -> m <= dt_max -> (forall s d, In d (suggestions s) -> m <= d) ->
    (forall s dt t, exists s', update s dt t = Some s') ->
    forall k s t, t_next - t <= INR k * m -> advance update suggestions (Datatypes.S k) dt_max t_next s t <> None.
  Proof.
    intros M1 M2 M3 T. induction k as [|k IH]; intros s t H.
    - cbn [INR] in H. cbn [advance]. destruct (Rlt_dec t t_next); [lra|discriminate].
    - change (advance update suggestions (Datatypes.S (Datatypes.S k)) dt_max t_next s t) with
        (if Rlt_dec t t_next then
           do s1 <- update s (Rmin dt_max (suggest_delta_t suggestions s (t_next - t))) t;
           do r <- advance update suggestions (Datatypes.S k) dt_max t_next s1 (t + Rmin dt_max (suggest_delta_t suggestions s (t_next - t)));
           Some (fst r, (t, Rmin dt_max (suggest_delta_t suggestions s (t_next - t))) :: snd r)
         else Some (s, t, [])).
      destruct (Rlt_dec t t_next) as [L|L]; [|discriminate].
      set (dt := Rmin dt_max (suggest_delta_t suggestions s (t_next - t))).
      destruct (T s dt t) as [s1 ->]. cbn [bind].
      assert (C : t_next - (t + dt) <= INR k * m).
      { rewrite S_INR in H. destruct (Rle_dec m (t_next - t)) as [A|A].
        - assert (m <= dt) by (apply Rmin_glb; [exact M2|apply suggest_ge; [exact A|intros; eapply M3; eauto]]). lra.
        - apply Rnot_le_lt in A. assert (t_next - t <= dt).
          { apply Rmin_glb; [lra|]. apply suggest_ge; [lra|]. intros d Hd. specialize (M3 s d Hd). lra. }
          pose proof (pos_INR k). nra. }
      specialize (IH s1 (t + dt) C). destruct (advance update suggestions (Datatypes.S k) dt_max t_next s1 (t + dt)); [discriminate|congruence].
  Qed.
End Loop.

Section Total.
  Context {S : Type} (update : S -> R -> R -> option S) (suggestions : S -> list R).
  Lemma advance_more dt_max t_next fuel : forall s t k r, advance update suggestions fuel dt_max t_next s t = Some r ->
    advance update suggestions (fuel + k) dt_max t_next s t = Some r.
  Proof.
    induction fuel as [|fuel IH]; intros s t k r E.
    - cbn [advance] in E. destruct (Rlt_dec t t_next) eqn:L; [discriminate|]. destruct k; cbn [advance Nat.add]; rewrite L; exact E.
    - cbn [advance Nat.add] in *. destruct (Rlt_dec t t_next); [|exact E].
      destruct (update s _ t) as [s1|]; [|discriminate]. cbn [bind] in *.
      destruct (advance update suggestions fuel dt_max t_next s1 _) as [q|] eqn:V; [|discriminate]. rewrite (IH _ _ k _ V). exact E.
  Qed.
  Lemma solve_total t_start t_stop n_step n_frame s m :
    t_start < t_stop -> (0 < n_step)%nat -> (0 < n_frame)%nat -> 0 < m -> (forall s d, In d (suggestions s) -> m <= d) ->
    (forall s dt t, exists s', update s dt t = Some s') ->
    exists fuel, solve_and_write update suggestions fuel t_start t_stop n_step n_frame s <> None.
  Proof.
    intros T N1 N2 M G U. unfold solve_and_write.
    destruct (Nat.eqb_spec n_step 0); [lia|]. destruct (Nat.eqb_spec n_frame 0); [lia|]. cbn [orb].
    set (dt_max := (t_stop - t_start) / INR n_step). set (dpf := (t_stop - t_start) / INR n_frame).
    assert (D1 : 0 < dt_max) by (apply Rdiv_lt_0_compat; [lra|apply lt_0_INR; lia]).
    assert (D2 : 0 < dpf) by (apply Rdiv_lt_0_compat; [lra|apply lt_0_INR; lia]).
    set (m' := Rmin m dt_max). assert (M1 : 0 < m') by (apply Rmin_glb_lt; assumption).
    assert (M2 : m' <= dt_max) by apply Rmin_r. assert (M3 : m' <= m) by apply Rmin_l.
    destruct (archimed (dpf / m')) as [Hk _]. set (k := Z.to_nat (up (dpf / m'))).
    assert (0 < dpf / m') by (apply Rdiv_lt_0_compat; assumption).
    assert (Hi : INR k = IZR (up (dpf / m'))) by (unfold k; rewrite INR_IZR_INZ, Z2Nat.id; [reflexivity|apply le_IZR; lra]). rewrite <- Hi in Hk. assert (Hk' : dpf <= INR k * m').
    { replace dpf with (dpf / m' * m') by (field; lra). apply Rmult_le_compat_r; lra. } exists (Datatypes.S k).
    assert (A : forall s t, advance update suggestions (Datatypes.S k) dt_max (t + dpf) s t <> None).
    { intros s1 t. apply (advance_total update suggestions dt_max (t + dpf) m'); auto; [|replace (t + dpf - t) with dpf by ring; lra].
      intros s2 d Hd. specialize (G s2 d Hd). lra. }
    clear n n0 N2. clearbody dpf. revert s. generalize t_start. clear -A S update suggestions. induction n_frame as [|n IH]; intros t s; cbn [frames]; [discriminate|].
    specialize (A s t) as As. destruct (advance update suggestions (Datatypes.S k) dt_max (t + dpf) s t) as [r|]; [|congruence]. cbn [bind].
    specialize (IH (snd (fst r)) (fst (fst r))). destruct (frames update suggestions (Datatypes.S k) n dt_max dpf (fst (fst r)) (snd (fst r))); [discriminate|congruence].
  Qed.
End Total.
