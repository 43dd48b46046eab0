From Coq Require Import Reals List Arith Lia Lra Bool String FunctionalExtensionality.
From Verif Require Import Vec3 Arrays RSum Model_Geometry Model_Basis Model_Dofs Model_DG Model_Diffusive Model_Schemes Model_Viscous
  Spec_DG Spec_Diffusive Spec_Schemes Spec_FR Spec_Viscous Proof_Dofs Proof_DG Proof_Schemes Proof_DGLobatto Proof_FR Proof_FRMain.
Import ListNotations.
Open Scope R_scope.

Lemma foldM_map {A B S} (g : A -> B) (f : S -> B -> option S) l : forall s, foldM f (map g l) s = foldM (fun s x => f s (g x)) l s.
Proof. induction l as [|x l IH]; intros s; [reflexivity|]. cbn [map foldM]. destruct (f s (g x)); [|reflexivity]. apply IH. Qed.

Lemma mapM_ext {A B} (f g : A -> option B) l : (forall x, In x l -> f x = g x) -> mapM f l = mapM g l.
Proof.
  induction l as [|x l IH]; intros H; [reflexivity|]. cbn [mapM]. rewrite (H x (or_introl eq_refl)), IH; [reflexivity|].
  intros y I. apply H. right. exact I.
Qed.

Section Solvers.
  Variable Q : nat.
  Let N := (Q * Q * Q)%nat.
  Variable points : nat -> R.
  Variable place : ncell -> nface -> nat -> position.
  Variable D : nat -> nat -> R.
  Hypothesis Gm : geometric place.
  Variable solver : nface -> nat -> riemann.
  Notation T := (fun f => with_riemann f (solver f)).
  Notation TP := (with_solvers solver).
  Variable p : npart.

  Lemma S_all : all_faces (TP p) = map T (all_faces p).
  Proof. unfold all_faces. cbn. rewrite !map_app. reflexivity. Qed.
  Lemma S_ok : npart_ok N p -> npart_ok N (TP p).
  Proof.
    intros (A1 & A2 & A3 & A4 & A5 & A6 & A7). split; [exact A1|]. split; [exact A2|]. rewrite S_all. split.
    { rewrite map_map, map_length. exact A3. }
    split. { intros f I. apply in_map_iff in I. destruct I as (g & <- & I). apply (A4 g I). }
    split. { intros f I. apply in_map_iff in I. destruct I as (g & <- & I). apply (A5 g I). }
    split. { intros f I. apply in_map_iff in I. destruct I as (g & <- & I). apply (A6 g I). }
    intros name f I. apply in_map_iff in I. destruct I as (g & <- & I). apply (in_map T). apply (A7 name g I).
  Qed.
  Lemma S_touches c f : touches (TP p) c f -> exists g, f = with_riemann g (solver g) /\ touches p c g.
  Proof.
    unfold touches. rewrite S_all. intros [[I E]|[I E]].
    - apply in_map_iff in I. destruct I as (g & <- & I). exists g. split; [reflexivity|]. left. auto.
    - destruct I as [I|I]; apply in_map_iff in I; destruct I as (g & <- & I); exists g; (split; [reflexivity|]); right; auto.
  Qed.
  Lemma S_lies c f n : lies_on Q points place c f n -> lies_on Q points place c (with_riemann f (solver f)) n.
  Proof. intros [A B]. split; [exact A|]. intros q L. rewrite Gm. exact (B q L). Qed.
  Lemma S_geometry : geometry_ok Q points place D p -> geometry_ok Q points place D (TP p).
  Proof.
    intros (A1 & A2 & A3 & A4). split.
    { intros c f I. destruct (S_touches c f I) as (g & -> & J). exact (A1 c g J). }
    split; [exact A2|]. split.
    { rewrite S_all. intros f I. apply in_map_iff in I. destruct I as (g & <- & I). apply S_lies. exact (A3 g I). }
    intros f [I|I]; apply in_map_iff in I; destruct I as (g & <- & I); apply S_lies; apply (A4 g); auto.
  Qed.
  Lemma S_node c f q : place_node Q place c (with_riemann f (solver f)) q = place_node Q place c f q.
  Proof. unfold place_node. rewrite Gm. reflexivity. Qed.
End Solvers.

Section Total.
  Variables K Q : nat.
  Let N := (Q * Q * Q)%nat.
  Variable points : nat -> R.
  Variable place : ncell -> nface -> nat -> position.
  Variable D : nat -> nat -> R.
  Variable FluxMatrix : value -> nat -> vec.
  Variable nu : vec.
  Variables beta_0 beta_1 : R.
  Variable H2S : nface -> vec.
  Hypothesis Gm : geometric place.
  Notation T := (total_face K nu beta_0 beta_1 H2S (place_node Q place)).
  Notation TP := (total_part K nu beta_0 beta_1 H2S (place_node Q place)).
  Notation TM := (total_matrix K FluxMatrix nu).
  Variable p : npart.
  Variable s : fem.

  Notation flux_of := (fun f q => total_solver K nu beta_0 beta_1 H2S f q (nc_value (nholder f) (place_node Q place (nholder f) f q))).
  Lemma T_all : all_faces (TP p) = map T (all_faces p).
  Proof. exact (S_all flux_of p). Qed.
  Lemma T_ok : npart_ok N p -> npart_ok N (TP p).
  Proof. exact (S_ok Q flux_of p). Qed.
  Lemma T_geometry : geometry_ok Q points place D p -> geometry_ok Q points place D (TP p).
  Proof. exact (S_geometry Q points place D Gm flux_of p). Qed.
  Lemma T_node c f q : place_node Q place c (T f) q = place_node Q place c f q.
  Proof. exact (S_node Q place Gm flux_of c f q). Qed.
  Lemma T_outlet : outlet_ok Q place FluxMatrix s p -> outlet_ok Q place TM s (TP p).
  Proof.
    intros O name f q k I F L. apply in_map_iff in F. destruct F as (g & <- & F). pose proof (O name g q k I F L) as H.
    unfold value_at in *. rewrite T_node. cbn [nf_riemann total_face with_riemann total_solver nholder GetFluxOnSupersonicOutlet nf_normal] in *.
    rewrite H. unfold total_matrix. destruct (FluxMatrix _ k) as [a b c], (diffusion nu _) as [x y z], (nf_normal g q) as [n1 n2 n3]. unfold dot, vsub. cbn. ring.
  Qed.

  Lemma V_is_total state k : V_FluxMatrix K FluxMatrix nu state k = TM state k.
  Proof. unfold V_FluxMatrix, total_matrix, MinusViscousFluxMatrix, diffusion, vsub. reflexivity. Qed.
  Lemma V_is_total_fun : V_FluxMatrix K FluxMatrix nu = TM.
  Proof. apply functional_extensionality. intros state. apply functional_extensionality. intros k. apply V_is_total. Qed.
  Lemma minus_normal u g n f k : MinusViscousFluxNormal nu u g n f k = f k - dot (diffusion nu (g k)) n.
  Proof. unfold MinusViscousFluxNormal, dot, diffusion. cbn. ring. Qed.
  Lemma common_is d n left right k :
    GetCommonGradientWithHessian beta_0 beta_1 d n (u_of left) (u_of right) (du_of K left) (du_of K right) (ddu_of K left) (ddu_of K right) k
    = common_gradient K beta_0 beta_1 d n left right k.
  Proof.
    unfold GetCommonGradientWithHessian, GetCommonGradient, common_gradient, u_of. cbv zeta.
    destruct (du_of K left k) as [a1 a2 a3], (du_of K right k) as [b1 b2 b3], (ddu_of K left k) as [c1 c2 c3 c4 c5 c6], (ddu_of K right k) as [d1 d2 d3 d4 d5 d6], n as [n1 n2 n3].
    unfold vadd, vsub, vscale, hess_mul, hess_sub. cbn [vx vy vz hxx hxy hxz hyy hyz hzz].
    apply vec_eq; cbn [vx vy vz]; unfold Rdiv; ring.
  Qed.

  (** ** The same column *)
  Variable entry : Type.
  Variable entry_of : ncell -> nface -> nat -> option entry.
  Variables (e_normal : entry -> vec) (e_scale : entry -> R) (e_ijk : entry -> nat).
  Variables add add_outlet : value -> nat -> entry -> mem -> option mem.
  Hypothesis geo : forall c f q, entry_of c (T f) q = entry_of c f q.
  Variable ent : ncell -> nface -> nat -> entry.
  Hypothesis P : npart_ok N (TP p).
  Hypothesis Hent : forall c f q, touches (TP p) c f -> (q < nf_points f)%nat ->
    entry_of c f q = Some (ent c f q) /\ e_ijk (ent c f q) = place_node Q place c f q.
  Hypothesis Hcheck : forall f q, In f (n_local_faces (TP p)) \/ In f (n_ghost_faces (TP p)) -> (q < nf_points f)%nat ->
    Collinear (e_normal (ent (nholder f) f q)) (e_normal (ent (nsharer f) f q)) = true.
  Hypothesis Hnormal : forall f q, In f (all_faces (TP p)) -> (q < nf_points f)%nat ->
    e_normal (ent (nholder f) f q) = vscale (e_scale (ent (nholder f) f q)) (nf_normal f q)
    /\ Collinear (nf_normal f q) (e_normal (ent (nholder f) f q)) = true.
  Hypothesis Fw : normals_forward H2S p.
  Hypothesis Out : outlet_ok Q place TM s (TP p).

  Definition t_put (is_holder : bool) (c : ncell) (f : nface) (q : nat) (e : entry) (flux : value) (data : nat) (m : mem) : option mem :=
    add (difference TM is_holder c (e_normal e) (e_scale e) (e_ijk e) flux) data e m.
  Definition t_put_outlet (c : ncell) (f : nface) (q : nat) (e : entry) (flux : value) (data : nat) (m : mem) : option mem :=
    add_outlet (difference TM true c (e_normal e) (e_scale e) (e_ijk e) flux) data e m.
  Notation check := (fun a b => Collinear (e_normal a) (e_normal b)).
  Notation HC := (hcache entry (TP p) ent).
  Notation SC := (scache entry (TP p) ent).

  Lemma cache_T pick faces c : (forall f, pick (T f) = pick f) ->
    cache_faces entry entry_of pick (map T faces) c = cache_faces entry entry_of pick faces c.
  Proof.
    intros Hp. unfold cache_faces. rewrite foldM_map. apply foldM_ext. intros c0 f _. change (nf_id (T f)) with (nf_id f). rewrite Hp.
    change (nf_points (T f)) with (nf_points f). rewrite (mapM_ext _ (entry_of (pick f) f)); [reflexivity|]. intros q _. apply geo.
  Qed.
  Lemma construct_T : construct entry entry_of p = Some (HC, SC).
  Proof.
    rewrite <- (construct_some N entry entry_of e_ijk (place_node Q place) (TP p) P ent Hent).
    unfold construct. cbn [n_local_faces n_ghost_faces n_boundary total_part].
    rewrite (cache_T nholder (n_local_faces p)) by reflexivity. destruct (cache_faces _ _ nholder (n_local_faces p) []); [|reflexivity]. cbn [bind].
    rewrite (cache_T nsharer (n_local_faces p)) by reflexivity. destruct (cache_faces _ _ nsharer (n_local_faces p) []); [|reflexivity]. cbn [bind].
    rewrite (cache_T nholder (n_ghost_faces p)) by reflexivity. destruct (cache_faces _ _ nholder (n_ghost_faces p) _); [|reflexivity]. cbn [bind].
    rewrite (cache_T nsharer (n_ghost_faces p)) by reflexivity. destruct (cache_faces _ _ nsharer (n_ghost_faces p) _); [|reflexivity]. cbn [bind].
    rewrite (cache_T nholder (n_boundary p)) by reflexivity. reflexivity.
  Qed.

  Lemma in_all f : In f (n_local_faces p) \/ In f (n_ghost_faces p) -> In (T f) (all_faces (TP p)).
  Proof. intros I. rewrite T_all. apply in_map. unfold all_faces. rewrite !in_app_iff. tauto. Qed.
  Lemma in_inner f : In f (n_local_faces p) \/ In f (n_ghost_faces p) -> In (T f) (n_local_faces (TP p)) \/ In (T f) (n_ghost_faces (TP p)).
  Proof. intros [I|I]; [left|right]; apply (in_map T); exact I. Qed.

  (** the fluxes at a point of an inner face *)
  Lemma fluxes_T f q : In f (n_local_faces p) \/ In f (n_ghost_faces p) -> (q < nf_points f)%nat ->
    let a := ent (nholder f) (T f) q in let b := ent (nsharer f) (T f) q in
    let flux := GetFluxUpwind (nf_riemann (T f) q) (nc_value (nholder f) (e_ijk a)) (nc_value (nsharer f) (e_ijk b)) in
    V_GetFluxOnLocalFace K FluxMatrix nu beta_0 beta_1 H2S entry e_normal e_scale e_ijk f q a b
    = Some (difference TM true (nholder f) (e_normal a) (e_scale a) (e_ijk a) flux,
            difference TM false (nsharer f) (e_normal b) (e_scale b) (e_ijk b) flux).
  Proof.
    intros I L a b flux. unfold V_GetFluxOnLocalFace.
    rewrite (Hcheck (T f) q (in_inner f I) L : Collinear (e_normal a) (e_normal b) = true). cbn [negb].
    rewrite (less_true 0 _ (Fw f q I L)). cbn [negb].
    apply f_equal, f_equal2; apply functional_extensionality; intros k; unfold difference; rewrite V_is_total, minus_normal, common_is; reflexivity.
  Qed.

  Lemma local_T f col : In f (n_local_faces p) ->
    V_local_face K Q FluxMatrix nu beta_0 beta_1 H2S entry e_normal e_scale e_ijk add HC SC p col f
    = local_face K N entry e_ijk check t_put HC SC (TP p) col (T f).
  Proof.
    intros I. unfold V_local_face, local_face. change (nn_cells (TP p)) with (nn_cells p). change (nholder (T f)) with (nholder f). change (nsharer (T f)) with (nsharer f).
    fold N. destruct (AddCellDataOffset K N (nn_cells p) col (nc_id (nholder f))) as [hd|]; [|reflexivity]. cbn [bind].
    destruct (AddCellDataOffset K N (nn_cells p) col (nc_id (nsharer f))) as [sd|]; [|reflexivity]. cbn [bind].
    pose proof (hcache_nth N entry (TP p) P ent (T f) (in_all f (or_introl I))) as EH. change (nf_id (T f)) with (nf_id f) in *. rewrite EH. cbn [bind].
    pose proof (scache_nth N entry (TP p) P ent (T f) (in_inner f (or_introl I))) as ES. change (nf_id (T f)) with (nf_id f) in *. rewrite ES. cbn [bind].
    apply (f_equal (fun e => bind e _)). change (nf_points (T f)) with (nf_points f). apply foldM_ext. intros m q Lq. apply in_seq in Lq.
    rewrite !(entries_nth entry ent) by (change (nf_points (T f)) with (nf_points f); lia). cbn [bind].
    change (nholder (T f)) with (nholder f). change (nsharer (T f)) with (nsharer f).
    rewrite (fluxes_T f q (or_introl I)) by lia. cbn [bind fst snd]. cbv zeta.
    rewrite (Hcheck (T f) q (in_inner f (or_introl I)) ltac:(change (nf_points (T f)) with (nf_points f); lia) : Collinear (e_normal (ent (nholder f) (T f) q)) (e_normal (ent (nsharer f) (T f) q)) = true).
    reflexivity.
  Qed.
  Lemma ghost_T f col : In f (n_ghost_faces p) ->
    V_ghost_face K Q FluxMatrix nu beta_0 beta_1 H2S entry e_normal e_scale e_ijk add HC SC p col f
    = ghost_face K N entry e_ijk check t_put HC SC (TP p) col (T f).
  Proof.
    intros I. unfold V_ghost_face, ghost_face. change (nn_cells (TP p)) with (nn_cells p). change (nholder (T f)) with (nholder f). change (nsharer (T f)) with (nsharer f).
    fold N. destruct (AddCellDataOffset K N (nn_cells p) col (nc_id (nholder f))) as [hd|]; [|reflexivity]. cbn [bind].
    pose proof (hcache_nth N entry (TP p) P ent (T f) (in_all f (or_intror I))) as EH. change (nf_id (T f)) with (nf_id f) in *. rewrite EH. cbn [bind].
    pose proof (scache_nth N entry (TP p) P ent (T f) (in_inner f (or_intror I))) as ES. change (nf_id (T f)) with (nf_id f) in *. rewrite ES. cbn [bind].
    apply (f_equal (fun e => bind e _)). change (nf_points (T f)) with (nf_points f). apply foldM_ext. intros m q Lq. apply in_seq in Lq.
    rewrite !(entries_nth entry ent) by (change (nf_points (T f)) with (nf_points f); lia). cbn [bind].
    change (nholder (T f)) with (nholder f). change (nsharer (T f)) with (nsharer f).
    rewrite (fluxes_T f q (or_intror I)) by lia. cbn [bind fst snd]. cbv zeta.
    rewrite (Hcheck (T f) q (in_inner f (or_intror I)) ltac:(change (nf_points (T f)) with (nf_points f); lia) : Collinear (e_normal (ent (nholder f) (T f) q)) (e_normal (ent (nsharer f) (T f) q)) = true).
    reflexivity.
  Qed.

  (** faces of the boundary: [flux_at] of the total solver is that of the convective one minus the diffusion inside *)
  Definition boundary_like (flux_at : riemann -> value -> vec -> value) : Prop :=
    forall f q u x k, flux_at (nf_riemann (T f) q) u x k
      = flux_at (nf_riemann f q) u x k - dot (diffusion nu (du_of K (nc_value (nholder f) (place_node Q place (nholder f) f q)) k)) (nf_normal f q).
  Lemma boundary_T put_it put_it' flux_at f col : In f (n_boundary p) ->
    (forall q e flux flux' data m, (q < nf_points f)%nat -> e = ent (nholder f) (T f) q ->
       flux = flux_at (nf_riemann f q) (nc_value (nholder f) (e_ijk e)) (nf_coord f q) ->
       flux' = flux_at (nf_riemann (T f) q) (nc_value (nholder f) (e_ijk e)) (nf_coord f q) ->
       put_it (nholder f) f q e flux data m = put_it' (nholder f) (T f) q e flux' data m) ->
    boundary_face K N entry e_ijk HC p put_it (of_values flux_at) col f = boundary_face K N entry e_ijk HC (TP p) put_it' flux_at col (T f).
  Proof.
    intros I Hp. unfold boundary_face. change (nn_cells (TP p)) with (nn_cells p). change (nholder (T f)) with (nholder f).
    destruct (AddCellDataOffset K N (nn_cells p) col (nc_id (nholder f))) as [hd|]; [|reflexivity]. cbn [bind].
    assert (A : In (T f) (all_faces (TP p))) by (rewrite T_all; apply in_map; unfold all_faces; rewrite !in_app_iff; tauto).
    pose proof (hcache_nth N entry (TP p) P ent (T f) A) as EH. change (nf_id (T f)) with (nf_id f) in *. rewrite EH. cbn [bind].
    apply (f_equal (fun e => bind e _)). change (nf_points (T f)) with (nf_points f). apply foldM_ext. intros m q Lq. apply in_seq in Lq.
    rewrite !(entries_nth entry ent) by (change (nf_points (T f)) with (nf_points f); lia). cbn [bind]. cbv zeta.
    apply Hp; [lia|reflexivity..].
  Qed.
  Lemma put_T flux_at f : boundary_like flux_at -> In f (n_boundary p) ->
    forall q e flux flux' data m, (q < nf_points f)%nat -> e = ent (nholder f) (T f) q ->
       flux = flux_at (nf_riemann f q) (nc_value (nholder f) (e_ijk e)) (nf_coord f q) ->
       flux' = flux_at (nf_riemann (T f) q) (nc_value (nholder f) (e_ijk e)) (nf_coord f q) ->
       V_put FluxMatrix entry e_normal e_scale e_ijk add (nholder f) f q e flux data m = t_put true (nholder f) (T f) q e flux' data m.
  Proof.
    intros BL I q e flux flux' data m L Ee -> ->. unfold V_put, t_put. apply (f_equal (fun v => add v data e m)).
    apply functional_extensionality. intros k. unfold difference. rewrite BL.
    assert (A : In (T f) (all_faces (TP p))) by (rewrite T_all; apply in_map; unfold all_faces; rewrite !in_app_iff; tauto).
    destruct (Hnormal (T f) q A L) as [En _]. change (nholder (T f)) with (nholder f) in En. change (nf_normal (T f)) with (nf_normal f) in En. rewrite <- Ee in En.
    assert (Ei : e_ijk e = place_node Q place (nholder f) f q).
    { rewrite Ee, <- (T_node (nholder f) f q). apply Hent; [left; split; [exact A|reflexivity]|exact L]. }
    rewrite <- Ei. unfold total_matrix, u_of. change (fun k0 => nc_value (nholder f) (e_ijk e) k0) with (nc_value (nholder f) (e_ijk e)).
    rewrite En. destruct (FluxMatrix _ k) as [a b c], (diffusion nu _) as [x y z], (nf_normal f q) as [n1 n2 n3]. unfold dot, vsub, vscale. cbn. ring.
  Qed.
  Lemma put_outlet_T name f : In name (supersonic_outlet s) -> In f (n_boundary_faces p name) -> In f (n_boundary p) ->
    forall q e flux flux' data m, (q < nf_points f)%nat -> e = ent (nholder f) (T f) q ->
       flux = n_sup_out (nf_riemann f q) (nc_value (nholder f) (e_ijk e)) (nf_coord f q) ->
       flux' = n_sup_out (nf_riemann (T f) q) (nc_value (nholder f) (e_ijk e)) (nf_coord f q) ->
       V_put_outlet K FluxMatrix nu entry e_normal e_scale e_ijk add_outlet (nholder f) f q e flux data m = t_put_outlet (nholder f) (T f) q e flux' data m.
  Proof.
    intros In1 In2 I q e flux flux' data m L Ee -> ->. unfold V_put_outlet, t_put_outlet.
    assert (A : In (T f) (all_faces (TP p))) by (rewrite T_all; apply in_map; unfold all_faces; rewrite !in_app_iff; tauto).
    destruct (Hnormal (T f) q A L) as [En Cn]. change (nholder (T f)) with (nholder f) in En, Cn. change (nf_normal (T f)) with (nf_normal f) in En, Cn. rewrite <- Ee in En, Cn.
    rewrite Cn. cbn [negb].
    assert (Ei : e_ijk e = place_node Q place (nholder f) f q).
    { rewrite Ee, <- (T_node (nholder f) f q). apply Hent; [left; split; [exact A|reflexivity]|exact L]. }
    set (d := fun k => _). assert (E : d = difference TM true (nholder f) (e_normal e) (e_scale e) (e_ijk e)
      (n_sup_out (nf_riemann (T f) q) (nc_value (nholder f) (e_ijk e)) (nf_coord f q))).
    { apply functional_extensionality. intros k. unfold d, difference. rewrite V_is_total, minus_normal. unfold n_sup_out.
      cbn [nf_riemann total_face with_riemann total_solver GetFluxOnSupersonicOutlet]. rewrite <- Ei. reflexivity. }
    rewrite E. rewrite less_true; [reflexivity|]. rewrite norm_zero; [apply small|]. intros k. unfold difference.
    pose proof (Out name (T f) q k In1 ltac:(apply (in_map T); exact In2) L) as O. unfold value_at in O. rewrite T_node in O. change (nholder (T f)) with (nholder f) in O.
    rewrite <- Ei in O. unfold n_sup_out. rewrite O, En. change (nf_normal (T f)) with (nf_normal f).
    destruct (TM _ k) as [a b c], (nf_normal f q) as [n1 n2 n3]. unfold dot, vscale. cbn. ring.
  Qed.

  Hypothesis P0 : npart_ok N p.
  Lemma in_named name f : In f (n_boundary_faces p name) -> In f (n_boundary p).
  Proof. intros I. destruct P0 as (_ & _ & _ & _ & _ & _ & B). exact (B name f I). Qed.
  Lemma names_T flux_at names col : boundary_like flux_at ->
    n_on_names K N entry e_ijk HC p (V_put FluxMatrix entry e_normal e_scale e_ijk add) (of_values flux_at) names col
    = n_on_names K N entry e_ijk HC (TP p) (t_put true) flux_at names col.
  Proof.
    intros BL. unfold n_on_names. apply foldM_ext. intros c name _. cbn [n_boundary_faces total_part]. rewrite foldM_map. apply foldM_ext. intros c' f I.
    apply boundary_T; [apply (in_named name); exact I|]. apply put_T; [exact BL|apply (in_named name); exact I].
  Qed.
  Lemma pairs_T (flux_at : func -> riemann -> value -> vec -> value) l col : (forall g, boundary_like (flux_at g)) ->
    n_on_pairs K N entry e_ijk HC p (V_put FluxMatrix entry e_normal e_scale e_ijk add) (fun g => of_values (flux_at g)) l col
    = n_on_pairs K N entry e_ijk HC (TP p) (t_put true) flux_at l col.
  Proof.
    intros BL. unfold n_on_pairs. apply foldM_ext. intros c (name, g) _. cbn [n_boundary_faces total_part]. rewrite foldM_map. apply foldM_ext. intros c' f I.
    apply boundary_T; [apply (in_named name); exact I|]. apply put_T; [apply BL|apply (in_named name); exact I].
  Qed.
  Lemma outlets_T col :
    n_on_names K N entry e_ijk HC p (V_put_outlet K FluxMatrix nu entry e_normal e_scale e_ijk add_outlet) (of_values n_sup_out) (supersonic_outlet s) col
    = n_on_names K N entry e_ijk HC (TP p) t_put_outlet n_sup_out (supersonic_outlet s) col.
  Proof.
    unfold n_on_names. apply foldM_ext. intros c name In1. cbn [n_boundary_faces total_part]. rewrite foldM_map. apply foldM_ext. intros c' f I.
    apply boundary_T; [apply (in_named name); exact I|]. apply (put_outlet_T name f In1 I). apply (in_named name). exact I.
  Qed.

  Theorem residual_T :
    V_GetResidualColumn K Q FluxMatrix nu beta_0 beta_1 H2S entry entry_of e_normal e_scale e_ijk add add_outlet s p
    = do caches <- construct entry entry_of (TP p);
      residual_of K N entry e_ijk check t_put t_put_outlet (FR_divergence K Q TM) (fst caches) (snd caches) s (TP p).
  Proof.
    unfold V_GetResidualColumn. rewrite construct_T, (construct_some N entry entry_of e_ijk (place_node Q place) (TP p) P ent Hent). cbn [bind fst snd].
    unfold V_residual_of, residual_of. fold N. change (nn_cells (TP p)) with (nn_cells p). destruct (GetCellDataSize K N (nn_cells p)) as [sz|]; [|reflexivity]. cbn [bind].
    rewrite V_is_total_fun. change (divergences K N (FR_divergence K Q TM) (TP p)) with (divergences K N (FR_divergence K Q TM) p).
    destruct (divergences _ _ _ _ _) as [c1|]; [|reflexivity]. cbn [bind n_local_faces n_ghost_faces total_part].
    rewrite !foldM_map. rewrite (foldM_ext _ (fun c f => local_face K N entry e_ijk check t_put HC SC (TP p) c (T f)) (n_local_faces p)) by (intros c f I; apply local_T; exact I).
    match goal with |- bind ?e _ = bind ?e' _ => change e' with e; destruct e as [c2|]; [|reflexivity] end. cbn [bind].
    assert (B : V_boundaries K Q FluxMatrix nu entry e_normal e_scale e_ijk add add_outlet HC s p c2 = n_boundaries K N entry e_ijk t_put t_put_outlet HC s (TP p) c2).
    { unfold V_boundaries, n_boundaries. fold N. rewrite (names_T n_wall) by (intros f q u x k; reflexivity).
      match goal with |- bind ?e _ = bind ?e' _ => destruct e as [c3|]; [|reflexivity] end. cbn [bind].
      rewrite (pairs_T (n_sup_in (t_curr s))) by (intros g f q u x k; reflexivity).
      match goal with |- bind ?e _ = bind ?e' _ => destruct e as [c4|]; [|reflexivity] end. cbn [bind]. rewrite outlets_T.
      match goal with |- bind ?e _ = bind ?e' _ => destruct e as [c5|]; [|reflexivity] end. cbn [bind].
      rewrite (pairs_T (n_sub_in (t_curr s))) by (intros g f q u x k; reflexivity).
      match goal with |- bind ?e _ = bind ?e' _ => destruct e as [c6|]; [|reflexivity] end. cbn [bind].
      rewrite (pairs_T (n_sub_out (t_curr s))) by (intros g f q u x k; reflexivity).
      match goal with |- bind ?e _ = bind ?e' _ => destruct e as [c7|]; [|reflexivity] end. cbn [bind].
      apply (pairs_T (n_smart (t_curr s))). intros g f q u x k; reflexivity. }
    rewrite B. destruct (n_boundaries _ _ _ _ _ _ _ _ _ _) as [c3|]; [|reflexivity]. cbn [bind]. rewrite foldM_map.
    apply foldM_ext. intros c f I. apply ghost_T. exact I.
  Qed.
End Total.

(** ** FR::General and FR::Lobatto *)
Section Instances.
  Variables K Q : nat.
  Variable points : nat -> R.
  Variable place : ncell -> nface -> nat -> position.
  Variable D : nat -> nat -> R.
  Variable degree : nat.
  Variable c_next : R.
  Variable FluxMatrix : value -> nat -> vec.
  Variable nu : vec.
  Variables beta_0 beta_1 : R.
  Variable H2S : nface -> vec.
  Hypothesis Gm : geometric place.
  Hypothesis Q2 : (2 <= Q)%nat.
  Hypothesis Pt0 : points 0%nat = -1.
  Hypothesis Pt1 : points (Q - 1)%nat = 1.
  Variable p : npart.
  Variable s : fem.
  Hypothesis P : npart_ok (Q * Q * Q) p.
  Hypothesis G : geometry_ok Q points place D p.
  Hypothesis O : outlet_ok Q place FluxMatrix s p.
  Hypothesis Fw : normals_forward H2S p.
  Notation TP := (total_part K nu beta_0 beta_1 H2S (place_node Q place) p).
  Notation TM := (total_matrix K FluxMatrix nu).
  Let P' : npart_ok (Q * Q * Q) TP := T_ok K Q place nu beta_0 beta_1 H2S p P.
  Let G' : geometry_ok Q points place D TP := T_geometry K Q points place D nu beta_0 beta_1 H2S Gm p G.
  Let O' : outlet_ok Q place TM s TP := T_outlet K Q place FluxMatrix nu beta_0 beta_1 H2S Gm p s O.

  Lemma area_normal f q : In f (all_faces TP) -> (q < nf_points f)%nat ->
    area Q (nholder f) (place (nholder f) f q)
    = vscale (side (fst (place (nholder f) f q)) * vnorm (area Q (nholder f) (place (nholder f) f q))) (nf_normal f q)
    /\ Collinear (nf_normal f q) (area Q (nholder f) (place (nholder f) f q)) = true.
  Proof.
    intros I L. assert (Th : touches TP (nholder f) f) by (left; auto).
    destruct (on_cell Q points place D TP G' _ _ _ Th L) as (_ & i & a & b & n & E & _ & _ & _ & _ & _ & _ & _ & _ & A9 & A10).
    destruct (checks Q points place D Q2 Pt0 Pt1 TP P' G' _ _ _ Th L) as (i' & a' & b' & _ & _ & _ & _ & _ & _ & _ & _ & C).
    split; [|destruct (Collinear _ _); [reflexivity|discriminate C]].
    rewrite (A10 eq_refl I) in A9. rewrite E in *. exact A9.
  Qed.
  Lemma VFR_is_FR : VFR_GetResidualColumn K Q points degree c_next FluxMatrix nu beta_0 beta_1 H2S s p
    = FR_GetResidualColumn K Q points degree c_next TM s TP.
  Proof.
    unfold VFR_GetResidualColumn, FR_GetResidualColumn, FR_construct.
    rewrite (residual_T K Q points place D FluxMatrix nu beta_0 beta_1 H2S Gm p s line_cache (FR_entry Q points degree c_next) fp_normal fp_scale fp_ijk
      (FR_add K Q) (FR_add_outlet K Q) (fun _ _ _ => eq_refl) (ent Q points place degree c_next) P'
      (FR_entry_some Q points place D degree c_next Q2 Pt0 Pt1 TP P' G')).
    - reflexivity.
    - intros f q I L. pose proof (both_collinear K Q points place D FluxMatrix TP G' f q I L) as B. unfold ent.
      destruct (place (nholder f) f q) as [i [a b]]. destruct (place (nsharer f) f q) as [i' [a' b']]. exact B.
    - intros f q I L. pose proof (area_normal f q I L) as B. unfold ent.
      destruct (place (nholder f) f q) as [i [a b]]. exact B.
    - exact Fw.
    - exact O'.
    - exact P.
  Qed.
  Lemma VFRL_is_FRL : VFRL_GetResidualColumn K Q points degree FluxMatrix nu beta_0 beta_1 H2S s p
    = FRL_GetResidualColumn K Q points degree TM s TP.
  Proof.
    unfold VFRL_GetResidualColumn, FRL_GetResidualColumn, FRL_construct, FR_construct.
    rewrite (construct_T K Q place nu beta_0 beta_1 H2S p line_cache (FR_entry Q points degree (HuynhLumpingLobatto degree)) fp_ijk (fun _ _ _ => eq_refl)
      (ent Q points place degree (HuynhLumpingLobatto degree)) P' (FR_entry_some Q points place D degree (HuynhLumpingLobatto degree) Q2 Pt0 Pt1 TP P' G')).
    rewrite (construct_some (Q * Q * Q) line_cache (FR_entry Q points degree (HuynhLumpingLobatto degree)) fp_ijk (place_node Q place) TP P' _
      (FR_entry_some Q points place D degree (HuynhLumpingLobatto degree) Q2 Pt0 Pt1 TP P' G')). cbn [bind].
    rewrite (residual_T K Q points place D FluxMatrix nu beta_0 beta_1 H2S Gm p s point_cache (FRL_entry Q points degree) pc_normal pc_scale pc_ijk
      (FRL_add K Q) (FRL_add_outlet K Q) (fun _ _ _ => eq_refl) (lent Q place degree) P'
      (FRL_entry_some Q points place D degree Q2 Pt0 Pt1 TP P' G')).
    - reflexivity.
    - intros f q I L. pose proof (both_collinear K Q points place D FluxMatrix TP G' f q I L) as B. unfold lent.
      destruct (place (nholder f) f q) as [i [a b]]. destruct (place (nsharer f) f q) as [i' [a' b']]. exact B.
    - intros f q I L. pose proof (area_normal f q I L) as B. unfold lent.
      destruct (place (nholder f) f q) as [i [a b]]. exact B.
    - exact Fw.
    - exact O'.
    - exact P.
  Qed.

  Theorem VFR_main : exists r, VFR_GetResidualColumn K Q points degree c_next FluxMatrix nu beta_0 beta_1 H2S s p = Some r
    /\ size r = (K * (Q * Q * Q) * List.length (n_local_cells p))%nat
    /\ forall c j k, In c (n_local_cells p) -> (j < Q * Q * Q)%nat -> (k < K)%nat ->
         at_ r (address K (Q * Q * Q) (nc_id c) j k)
         = FR_form Q points place TM (LocalToLeftDerivative degree c_next) (LocalToRightDerivative degree c_next) s TP c j k.
  Proof. rewrite VFR_is_FR. exact (FR_main K Q points place D TM degree c_next Q2 Pt0 Pt1 TP s P' G' O'). Qed.
  Theorem VFRL_main : exists r, VFRL_GetResidualColumn K Q points degree FluxMatrix nu beta_0 beta_1 H2S s p = Some r
    /\ size r = (K * (Q * Q * Q) * List.length (n_local_cells p))%nat
    /\ forall c j k, In c (n_local_cells p) -> (j < Q * Q * Q)%nat -> (k < K)%nat ->
         at_ r (address K (Q * Q * Q) (nc_id c) j k)
         = FRL_form Q place TM (LocalToRightDerivative degree (HuynhLumpingLobatto degree)) s TP c j k.
  Proof.
    rewrite VFRL_is_FRL. apply (FRL_main K Q points place D TM degree Q2 Pt0 Pt1 TP s P' G' O').
    apply (FR_construct_some Q points place D degree (HuynhLumpingLobatto degree) Q2 Pt0 Pt1 TP P' G').
  Qed.
End Instances.
