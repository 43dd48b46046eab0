(** The source term of rotors in the residual, and the length of blade on which its forces act. *)
From Coq Require Import Reals List Arith Lia Lra Bool.
From Coquelicot Require Import Coquelicot.
From Verif Require Import Vec3 Arrays RSum Model_Aircraft Spec_Aircraft Proof_Aircraft Model_Dofs Model_DG Spec_DG Proof_Dofs Proof_DG
  Model_Gauss Spec_Gauss Proof_Gauss Proof_GaussMore Model_Source Spec_Source Proof_Source.
Import ListNotations.
Open Scope R_scope.

(** ** rotors in time *)
Lemma rotor_update_again t r : rotor_update t (rotor_update t r) = rotor_update t r.
Proof. unfold rotor_update. cbn [the_rotor r_sections]. rewrite update_again. reflexivity. Qed.

Lemma set_azimuths_ok frame origin psi : forall bs sts deg bst,
  (forall b st, In (b, st) (combine bs sts) -> st <> [] /\ well_placed st /\ b_span b = GetSpan st) ->
  In bst (combine (set_azimuths frame origin psi deg bs) sts) ->
  let (b, st) := bst : BladeState * sections in
  st <> [] /\ well_placed st /\ b_span b = GetSpan st
  /\ b_p b = Blade_GetPoint origin b 0 /\ b_q b = Blade_GetPoint origin b 1 /\ b_pq b = vsub (b_q b) (b_p b).
Proof.
  induction bs as [|b bs IH]; intros [|st sts] deg bst H I; cbn [set_azimuths combine In] in *; try contradiction.
  destruct I as [<-|I].
  - destruct (H b st (or_introl eq_refl)) as (A & B & C). repeat split; auto; try apply B.
  - apply (IH sts (deg + psi) bst); [|exact I]. intros. apply H. right. assumption.
Qed.

Lemma rotor_update_ok t r : rotor_ok r -> rotor_ok (rotor_update t r).
Proof.
  intros H. unfold rotor_update, rotor_ok, UpdateAzimuth. destruct (Req_EM_T (r_time (the_rotor r)) t) as [E|E].
  { cbn [the_rotor]. destruct r. exact H. }
  unfold r_all, SetAzimuth. cbn [the_rotor r_sections r_blades r_frame r_origin].
  intros bst I. pose proof (set_azimuths_ok (r_frame (the_rotor r)) (r_origin (the_rotor r))
    (360 / INR (length (r_blades (the_rotor r)))) (r_blades (the_rotor r)) (r_sections r) (r_initial (the_rotor r) + t * r_omega (the_rotor r)) bst) as G.
  unfold blade_ok. cbn [r_origin]. destruct bst as [b st]. apply G; [|exact I].
  intros b' st' I'. destruct (H _ I') as (A & B & C & _). auto.
Qed.

Section Main.
  Variable N : nat.
  Variable corners : cell -> list (vec * vec * vec).

  Lemma collect_some {A B} (f : A -> option (list B)) l : (forall x, In x l -> exists y, f x = Some y) -> exists y, collect f l = Some y.
  Proof.
    induction l as [|x l IH]; intros H; cbn [collect]; [eexists; reflexivity|].
    destruct (H x (or_introl eq_refl)) as [y ->]. cbn [bind].
    destruct IH as [z ->]; [intros; apply H; right; assumption|]. eexists. reflexivity.
  Qed.

  Lemma load_some c r b st point r0 s0 : blade_ok r (b, st) -> 0 <= r0 -> s0 <= 1 -> r0 < s0 -> In point (line_points r0 s0) ->
    exists x, load_at c r b st point = Some x
      /\ l_point x = between (b_p b) (b_q b) (fst point) /\ l_length x = snd point * GetSpan st
      /\ r0 < fst point < s0.
  Proof.
    intros (NE & W & Sp & EP & EQ & _) A B O I. destruct point as [ratio w].
    pose proof (line_points_inside _ _ _ _ O I) as L.
    destruct (get_section_spec st ratio NE W ltac:(lra)) as (d & Ed & _).
    unfold load_at. rewrite Ed. cbn [bind]. unfold section_origin.
    assert (V1 : Valid ratio = true) by (apply valid_iff; lra). rewrite V1. cbn [bind].
    eexists. split; [reflexivity|]. cbn [l_point l_length fst snd]. split; [|split; [reflexivity|exact L]].
    unfold between. rewrite EP, EQ. unfold Blade_GetPoint. rewrite Sp.
    destruct (fY (b_frame b)) as [y1 y2 y3], (Blade_GetOrigin (r_origin r) b) as [o1 o2 o3]. apply vec_eq; cbn; ring.
  Qed.

  Lemma collect_line c r b st r0 s0 : forall l,
    (forall point, In point l -> exists x, load_at c r b st point = Some x
      /\ l_point x = between (b_p b) (b_q b) (fst point) /\ l_length x = snd point * GetSpan st /\ r0 < fst point < s0) ->
    exists ls, collect (fun p => option_map (fun x => [x]) (load_at c r b st p)) l = Some ls
      /\ map l_point ls = map (fun p => between (b_p b) (b_q b) (fst p)) l
      /\ map l_length ls = map (fun p => snd p * GetSpan st) l
      /\ (forall p, In p l -> r0 < fst p < s0).
  Proof.
    induction l as [|p l IH]; intros H; cbn [collect map]; [exists []; split; [reflexivity|split; [reflexivity|split; [reflexivity|intros ? []]]]|].
    destruct (H p (or_introl eq_refl)) as (x & -> & P1 & P2 & P3). cbn [option_map bind].
    destruct IH as (ls & -> & Q1 & Q2 & Q3); [intros; apply H; right; assumption|]. cbn [bind app].
    eexists. split; [reflexivity|]. cbn [map]. rewrite P1, P2, Q1, Q2. split; [reflexivity|]. split; [reflexivity|].
    intros q [<-|Iq]; [exact P3|apply Q3; exact Iq].
  Qed.

  Lemma blade_loads_ok c r b st r0 s0 : blade_ok r (b, st) -> blade_in_cell corners c b = (r0, s0) -> r0 < s0 ->
    exists ls, blade_loads corners c r (b, st) = Some ls
      /\ map l_point ls = map (fun p => between (b_p b) (b_q b) (fst p)) (line_points r0 s0)
      /\ map l_length ls = map (fun p => snd p * GetSpan st) (line_points r0 s0)
      /\ (forall p, In p (line_points r0 s0) -> r0 < fst p < s0).
  Proof.
    intros K E O. unfold blade_loads. rewrite E. destruct (Rlt_dec r0 s0); [|contradiction].
    destruct (intersect_valid _ _ _ E O). apply collect_line. intros. apply load_some; auto.
  Qed.

  Lemma blade_loads_some c r bst : blade_ok r bst -> exists ls, blade_loads corners c r bst = Some ls.
  Proof.
    intros K. destruct bst as [b st]. destruct (blade_in_cell corners c b) as [r0 s0] eqn:E.
    destruct (Rlt_dec r0 s0) as [O|O].
    - destruct (blade_loads_ok c r b st r0 s0 K E O) as (ls & H & _). exists ls. exact H.
    - exists []. unfold blade_loads. rewrite E. destruct (Rlt_dec r0 s0); [contradiction|reflexivity].
  Qed.

  Lemma loads_some c t rotors : (forall r, In r rotors -> rotor_ok r) -> exists l, loads corners c t rotors = Some l.
  Proof.
    intros H. apply collect_some. intros r I. apply in_map_iff in I. destruct I as (r' & <- & I).
    apply collect_some. intros b Ib. apply blade_loads_some. apply (rotor_update_ok t r' (H r' I)). exact Ib.
  Qed.

  Lemma loads_again c t rotors : loads corners c t (map (rotor_update t) rotors) = loads corners c t rotors.
  Proof.
    unfold loads. rewrite map_map. f_equal. apply map_ext. intros. apply rotor_update_again.
  Qed.

  Definition loads_of (c : cell) (t : R) (rotors : list rotor) : list load :=
    match loads corners c t rotors with Some l => l | None => [] end.

  (** the loop over cells *)
  Lemma source_loop s p : forall cells rotors col,
    (forall r, In r rotors -> rotor_ok r) -> size col = (5 * N * n_cells p)%nat ->
    (forall c, In c cells -> (c_id c < n_cells p)%nat) ->
    exists rotors' col',
      foldM (fun (x : list rotor * column) c =>
          let (rotors, residual) := x in
          do data <- AddCellDataOffset 5 N (n_cells p) residual (c_id c);
          do y <- UpdateCoeff N corners c (t_curr s) data rotors (at_ residual);
          let (rotors, m) := y : list rotor * (nat -> R) in
          Some (rotors, with_mem residual m)) cells (rotors, col) = Some (rotors', col')
      /\ (rotors' = rotors \/ rotors' = map (rotor_update (t_curr s)) rotors)
      /\ size col' = size col
      /\ forall i j k, (j < N)%nat -> (k < 5)%nat ->
           at_ col' (address 5 N i j k) = at_ col (address 5 N i j k)
             + lsum cells (fun c => if_id (c_id c) i (source_of c (loads_of c (t_curr s) rotors) j k)).
  Proof.
    induction cells as [|c cells IH]; intros rotors col H S L; cbn [foldM].
    - exists rotors, col. repeat split; auto. intros. cbn. ring.
    - rewrite (add_offset_some 5 N (n_cells p)) by (auto; apply L; left; reflexivity). cbn [bind].
      pose proof (update_loads N corners c (t_curr s) (5 * N * c_id c) rotors (at_ col)) as U.
      destruct (loads_some c (t_curr s) rotors H) as [l El]. rewrite El in U.
      destruct (UpdateCoeff N corners c (t_curr s) (5 * N * c_id c) rotors (at_ col)) as [[rs m]|]; [|contradiction].
      destruct U as [-> [U1 U2]]. cbn [bind].
      destruct (IH (map (rotor_update (t_curr s)) rotors) (with_mem col m)) as (rs' & col' & -> & R' & S' & V).
      { intros r I. apply in_map_iff in I. destruct I as (r' & <- & I). apply rotor_update_ok, H, I. }
      { exact S. } { intros; apply L; right; assumption. }
      eexists _, _. split; [reflexivity|]. split.
      { right. destruct R' as [->| ->]; [reflexivity|]. rewrite map_map. apply map_ext. intros. apply rotor_update_again. }
      split; [exact S'|]. intros i j k J K. rewrite (V i j k J K). cbn [at_ with_mem lsum].
      rewrite (lsum_ext cells _ (fun c0 => if_id (c_id c0) i (source_of c0 (loads_of c0 (t_curr s) rotors) j k))).
      2: { intros c0 _. unfold loads_of. rewrite loads_again. reflexivity. }
      enough (m (address 5 N i j k) = at_ col (address 5 N i j k) + if_id (c_id c) i (source_of c (loads_of c (t_curr s) rotors) j k)) as -> by ring.
      unfold if_id. destruct (Nat.eqb_spec (c_id c) i) as [<-|D].
      + unfold address. rewrite U1 by assumption. unfold loads_of. rewrite El. reflexivity.
      + rewrite U2; [ring|]. apply address_out; assumption.
  Qed.

  Theorem source_main kDegrees s p rotors : part_ok p -> (forall r, In r rotors -> rotor_ok r) ->
    exists r0 rotors' r, GetResidualColumn 5 N kDegrees s p = Some r0
      /\ WithSource_GetResidualColumn N corners kDegrees s p (Rotors rotors) = Some (Rotors rotors', r)
      /\ (rotors' = rotors \/ rotors' = map (rotor_update (t_curr s)) rotors)
      /\ size r = size r0
      /\ forall c, In c (local_cells p) -> exists rs l,
           GetForces corners c (t_curr s) rotors ([], [], []) = Some (rs, as_vectors l)
           /\ forall j k, (j < N)%nat -> (k < 5)%nat ->
                at_ r (address 5 N (c_id c) j k) = at_ r0 (address 5 N (c_id c) j k) + source_of c l j k.
  Proof.
    intros P H. destruct (weak_form_main 5 N kDegrees s p P) as (r0 & E0 & S0 & _).
    destruct (source_loop s p (local_cells p) rotors r0 H S0) as (rs' & r & E & Rs & Sz & W).
    { intros c I. apply P. exact I. }
    exists r0, rs', r. split; [exact E0|]. split.
    { unfold WithSource_GetResidualColumn. rewrite E0. cbn [bind AddSourceIntegral]. rewrite E. reflexivity. }
    split; [exact Rs|]. split; [exact Sz|]. intros c I.
    destruct (loads_some c (t_curr s) rotors H) as [l El].
    exists (map (rotor_update (t_curr s)) rotors), l. split.
    { rewrite forces_loads, El. reflexivity. }
    intros j k J K. rewrite (W _ _ _ J K). f_equal. destruct P as (ND & _).
    transitivity (lsum (local_cells p) (fun c0 => if_id (c_id c) (c_id c0) (source_of c0 (loads_of c0 (t_curr s) rotors) j k))).
    { apply lsum_ext. intros. unfold if_id. rewrite Nat.eqb_sym. reflexivity. }
    rewrite (lsum_pick (local_cells p) c (fun c0 => source_of c0 (loads_of c0 (t_curr s) rotors) j k) ND I).
    unfold loads_of. rewrite El. reflexivity.
  Qed.

  Theorem total_main kDegrees s p rotors src r : part_ok p -> (forall c, In c (local_cells p) -> basis_ok N c) -> (0 < N)%nat ->
    (forall r, In r rotors -> rotor_ok r) ->
    WithSource_GetResidualColumn N corners kDegrees s p (Rotors rotors) = Some (src, r) -> forall k, (k < 5)%nat ->
    exists ls, Forall2 (fun c l => exists rs, GetForces corners c (t_curr s) rotors ([], [], []) = Some (rs, as_vectors l)) (local_cells p) ls
    /\ lsum (local_cells p) (cell_integral 5 N r k)
    = - lsum (conditions s p) (fun '(fs, flux_at) => lsum fs (flux_through flux_at k))
      - lsum (ghost_faces p) (flux_through upwind_at k)
      + lsum (combine (local_cells p) ls) (fun '(c, l) => lsum l (load_on c k)).
  Proof.
    intros P B NP H E k K. destruct (source_main kDegrees s p rotors P H) as (r0 & rs' & r' & E0 & E' & _ & _ & W).
    rewrite E in E'. assert (r' = r) as -> by congruence. clear E'.
    rewrite <- (conservation_main 5 N kDegrees s p P B NP r0 E0 k K).
    revert W B. generalize (local_cells p). induction l as [|c cells IH]; intros W B.
    - exists []. split; [constructor|]. cbn. ring.
    - destruct IH as (ls & F & T); [intros; apply W; right; assumption|intros; apply B; right; assumption|].
      destruct (W c (or_introl eq_refl)) as (rs & l & G & V).
      exists (l :: ls). split; [constructor; [exists rs; exact G|exact F]|]. cbn [lsum combine]. rewrite T.
      destruct (B c (or_introl eq_refl)) as (phi & Z & C & _ & O).
      rewrite !(integral_first 5 N NP _ c k phi Z C O), (V 0%nat k NP K).
      assert (source_of c l 0 k = lsum l (load_on c k) * phi) as ->.
      { unfold source_of. rewrite <- lsum_mul_r. apply lsum_ext. intros. rewrite C. reflexivity. }
      field. exact Z.
  Qed.

  (** ** lengths *)
  Lemma length_total c r b st r0 s0 ls : blade_ok r (b, st) -> blade_in_cell corners c b = (r0, s0) -> r0 < s0 ->
    blade_loads corners c r (b, st) = Some ls -> lsum ls l_length = (s0 - r0) * GetSpan st.
  Proof.
    intros K E O El. destruct (blade_loads_ok c r b st r0 s0 K E O) as (ls' & E' & _ & L & _).
    rewrite El in E'. assert (ls' = ls) as -> by congruence.
    transitivity (lsum (map l_length ls) (fun x => x)); [rewrite lsum_map; reflexivity|]. rewrite L.
    rewrite lsum_map. unfold line_points, Line_coords, Line_weights. cbn [Legendre_points Legendre_weights map combine lsum snd].
    rewrite Rabs_left by lra. field.
  Qed.
End Main.

Lemma lsum_combine_maps {A B} (f : A -> R) (g : R -> R) (h : A -> R * R) (l : list A) (b : list B) (len : B -> R) :
  map len b = map f l -> lsum (combine (map (fun p => fst (h p)) l) b) (fun '(y, x) => len x * g y) = lsum l (fun p => f p * g (fst (h p))).
Proof.
  revert b. induction l as [|a l IH]; intros [|y b] E; try discriminate; [reflexivity|].
  cbn [map] in E. injection E as E1 E2. cbn [map combine lsum]. rewrite (IH b E2), E1. reflexivity.
Qed.

Lemma lsum_quad (f : R -> R) (xs : list R) : forall ws, lsum (combine xs ws) (fun p => f (fst p) * snd p) = quad f xs ws.
Proof. induction xs as [|x xs IH]; intros [|w ws]; cbn; try reflexivity. rewrite IH. reflexivity. Qed.

Theorem points_main corners c r b st r0 s0 : blade_ok r (b, st) -> blade_in_cell corners c b = (r0, s0) -> r0 < s0 ->
  exists ratios l, GetForces_blade corners c r ([], [], []) (b, st) = Some (as_vectors l)
    /\ length l = 4%nat /\ map l_point l = map (between (b_p b) (b_q b)) ratios
    /\ (forall y, In y ratios -> r0 < y < s0)
    /\ lsum l l_length = (s0 - r0) * GetSpan st
    /\ forall co I, is_RInt (poly1 7 co) r0 s0 I ->
         lsum (combine ratios l) (fun '(y, x) => l_length x * poly1 7 co y) = GetSpan st * I.
Proof.
  intros K E O. destruct (blade_loads_ok corners c r b st r0 s0 K E O) as (l & El & P1 & P2 & P3).
  exists (map fst (line_points r0 s0)), l. split.
  { rewrite forces_blade, El. reflexivity. }
  split. { rewrite <- (map_length l_point), P1, map_length. reflexivity. }
  split. { rewrite P1, map_map. reflexivity. }
  split. { intros y I. apply in_map_iff in I. destruct I as (p & <- & I). apply P3, I. }
  split. { eapply length_total; eassumption. }
  intros co I HI.
  change (map fst (line_points r0 s0)) with (map (fun p : R * R => fst p) (line_points r0 s0)).
  rewrite (lsum_combine_maps (fun p => snd p * GetSpan st) (poly1 7 co) (fun p => p) (line_points r0 s0) l l_length P2).
  rewrite (lsum_ext _ _ (fun p => poly1 7 co (fst p) * snd p * GetSpan st)) by (intros; ring).
  rewrite lsum_mul_r. unfold line_points. rewrite lsum_quad.
  pose proof (legendre_moments 4 ltac:(lia)) as M. cbn [Nat.mul Nat.sub Nat.add] in M.
  destruct (line_exact (Legendre_points 4) (Legendre_weights 4) 7 co r0 s0 M ltac:(lra)) as [X _].
  apply X in HI. subst I. ring.
Qed.

Lemma describes_length alpha beta r s : alpha < beta -> describes alpha beta r s ->
  (if Rlt_dec r s then s - r else 0) = inside_length alpha beta.
Proof.
  intros O [A B]. unfold inside_length. destruct (Rlt_dec r s) as [L|L].
  - specialize (A L). pose proof (proj1 (A r) ltac:(lra)). pose proof (proj1 (A s) ltac:(lra)).
    assert (Er : r = Rmax 0 alpha).
    { apply Rle_antisym; [|apply Rmax_lub; lra]. apply (proj2 (A (Rmax 0 alpha))).
      pose proof (Rmax_l 0 alpha). pose proof (Rmax_r 0 alpha). pose proof (Rmax_lub 0 alpha r ltac:(lra) ltac:(lra)). lra. }
    assert (Es : s = Rmin 1 beta).
    { apply Rle_antisym; [apply Rmin_glb; lra|]. apply (proj2 (A (Rmin 1 beta))).
      pose proof (Rmin_l 1 beta). pose proof (Rmin_r 1 beta). pose proof (Rmin_glb 1 beta s ltac:(lra) ltac:(lra)). lra. }
    rewrite (Rmax_right 0 (Rmin 1 beta - Rmax 0 alpha)); lra.
  - rewrite (Rmax_left 0 (Rmin 1 beta - Rmax 0 alpha)); [reflexivity|]. destruct (Rle_dec (Rmin 1 beta) (Rmax 0 alpha)); [lra|]. exfalso.
    pose proof (Rmax_l 0 alpha). pose proof (Rmax_r 0 alpha). pose proof (Rmin_l 1 beta). pose proof (Rmin_r 1 beta).
    apply (B ltac:(lra) ((Rmin 1 beta + Rmax 0 alpha) / 2)). lra.
Qed.
