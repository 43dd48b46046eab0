(** The schemes with viscous fluxes: conservation, and linear solutions. *)
From Coq Require Import Reals List Arith Lia Lra Bool String FunctionalExtensionality Permutation.
From Verif Require Import Vec3 Arrays RSum Poly Model_Geometry Model_Basis Model_Nodal Model_Dofs Model_DG Model_Gauss Model_Diffusive Model_Schemes Model_Viscous
  Spec_DG Spec_Diffusive Spec_Schemes Spec_Nodal Spec_FR Spec_Viscous
  Proof_Dofs Proof_DG Proof_Schemes Proof_DGLobatto Proof_FR Proof_FRLine Proof_FRMain Proof_FRCell Proof_FRStream Proof_Box Proof_Viscous.
Import ListNotations.
Open Scope R_scope.

(** ** The contacts of the part with other solvers *)
Lemma map_filter_key {A B C} (key : A -> C) (f : A -> B) (g : A -> bool) f' g' l :
  (forall x, f x = f' (key x)) -> (forall x, g x = g' (key x)) -> map f (filter g l) = map f' (filter g' (map key l)).
Proof.
  intros F G. induction l as [|x l IH]; [reflexivity|]. cbn [map filter]. rewrite <- G. destruct (g x); cbn [map]; rewrite IH, ?F; reflexivity.
Qed.
Lemma map_flat_map {A B C} (g : B -> C) (f : A -> list B) l : map g (flat_map f l) = flat_map (fun x => map g (f x)) l.
Proof. induction l as [|x l IH]; [reflexivity|]. cbn [flat_map]. rewrite map_app, IH. reflexivity. Qed.
Lemma flat_map_map {A B C} (g : A -> B) (f : B -> list C) l : flat_map f (map g l) = flat_map (fun x => f (g x)) l.
Proof. induction l as [|x l IH]; [reflexivity|]. cbn [flat_map map]. rewrite IH. reflexivity. Qed.
Lemma flat_map_same {A B} (f g : A -> list B) l : (forall x, In x l -> f x = g x) -> flat_map f l = flat_map g l.
Proof.
  intros H. induction l as [|x l IH]; [reflexivity|]. cbn [flat_map]. rewrite (H x (or_introl eq_refl)), IH; [reflexivity|].
  intros y I. apply H. right. exact I.
Qed.

Section Contacts.
  Variable Q : nat.
  Let N := (Q * Q * Q)%nat.
  Variable place : ncell -> nface -> nat -> position.
  Hypothesis Gm : geometric place.
  Variable solver : nface -> nat -> riemann.
  Notation TP := (with_solvers solver).
  Notation T f := (with_riemann f (solver f)).
  Variable p : npart.
  Variable s : fem.
  Definition key (t : contact) : nat * (ncell -> position) := (nc_id (k_cell t), fun c => place c (k_face t) (k_point t)).
  Lemma place_T f q : (fun c => place c (T f) q) = (fun c => place c f q).
  Proof. apply functional_extensionality. intros c. apply Gm. Qed.
  Lemma keys_local at_node f : map key (at_local at_node (T f)) = map key (at_local at_node f).
  Proof.
    unfold at_local. rewrite !map_flat_map. apply flat_map_same. intros q _. cbn [map]. unfold key. cbn [k_cell k_face k_point nholder nsharer with_riemann].
    rewrite <- (place_T f q). reflexivity.
  Qed.
  Lemma keys_ghost at_node f : map key (at_ghost at_node (T f)) = map key (at_ghost at_node f).
  Proof.
    unfold at_ghost. rewrite !map_map. apply map_ext. intros q. unfold key. cbn [k_cell k_face k_point nholder].
    rewrite <- (place_T f q). reflexivity.
  Qed.
  Lemma keys_boundary at_node flux flux' f : map key (at_boundary at_node flux (T f)) = map key (at_boundary at_node flux' f).
  Proof.
    unfold at_boundary. rewrite !map_map. apply map_ext. intros q. unfold key. cbn [k_cell k_face k_point nholder].
    rewrite <- (place_T f q). reflexivity.
  Qed.
  Lemma keys at_node : map key (contacts at_node s (TP p)) = map key (contacts at_node s p).
  Proof.
    unfold contacts. rewrite !map_app. f_equal; [|f_equal].
    - unfold inner_contacts. cbn [n_local_faces with_solvers]. rewrite flat_map_map, !map_flat_map. apply flat_map_same. intros f _. apply keys_local.
    - unfold boundary_contacts, n_conditions. rewrite !flat_map_app, !map_app. cbn [n_boundary_faces with_solvers].
      repeat apply (f_equal2 (@app _)); rewrite !flat_map_map, !map_flat_map; apply flat_map_same; intros x _; try destruct x as [x g];
        rewrite flat_map_map, !map_flat_map; apply flat_map_same; intros f _; apply keys_boundary.
    - unfold ghost_contacts. cbn [n_ghost_faces with_solvers]. rewrite flat_map_map, !map_flat_map. apply flat_map_same. intros f _. apply keys_ghost.
  Qed.
  Lemma S_covered : covered Q place s p -> covered Q place s (TP p).
  Proof.
    intros C c I. specialize (C c I).
    rewrite (map_filter_key key _ _ (fun x => snd x c) (fun x => (fst x =? nc_id c)%nat)) in C |- * by reflexivity.
    rewrite keys. exact C.
  Qed.
  Lemma S_face_weights w : face_weights Q place w p -> face_weights Q place w (TP p).
  Proof.
    intros H c f q Ht L. destruct (S_touches solver p c f Ht) as (g & -> & Ht'). rewrite Gm. exact (H c g q Ht' L).
  Qed.
End Contacts.

Section Linear.
  Variable K : nat.
  Variables xs ws : list R.
  Let Q := List.length xs.
  Let N := (Q * Q * Q)%nat.
  Notation X i := (nth i xs 0).
  Variable place : ncell -> nface -> nat -> position.
  Variable D : nat -> nat -> R.
  Variable FluxMatrix : value -> nat -> vec.
  Variable nu : vec.
  Variables beta_0 beta_1 : R.
  Variable H2S : nface -> vec.
  Hypothesis Gm : geometric place.
  Hypothesis E : with_ends xs ws.
  Variable p : npart.
  Variable s : fem.
  Hypothesis P : npart_ok N p.
  Hypothesis G : geometry_ok Q (fun i => X i) place D p.
  Hypothesis Fw : normals_forward H2S p.
  Notation at_node := (place_node Q place).
  Notation TP := (total_part K nu beta_0 beta_1 H2S at_node p).
  Notation TM := (total_matrix K FluxMatrix nu).
  Notation T := (total_face K nu beta_0 beta_1 H2S at_node).
  Let Q2 := Q_ge_2 xs ws E.
  Let X0 := X_first xs ws E.
  Let X1 := X_last xs ws E.
  Let P' : npart_ok N TP := T_ok K Q place nu beta_0 beta_1 H2S p P.
  Let G' := T_geometry K Q (fun i => X i) place D nu beta_0 beta_1 H2S Gm p G.

  Theorem V_conservation c_next : lagrange_derivatives xs D -> outlet_ok Q place FluxMatrix s p ->
    integrates xs ws (Q + 1) -> covered Q place s p -> face_weights Q place (fun i => nth i ws 0) p -> cell_weights Q (fun i => nth i ws 0) p ->
    exists r, VFR_GetResidualColumn K Q (fun i => X i) (Q - 1) c_next FluxMatrix nu beta_0 beta_1 H2S s p = Some r
    /\ forall k, (k < K)%nat ->
         lsum (n_local_cells p) (n_integral N true K r k)
         = - lsum (boundary_contacts at_node s TP) (through k) - lsum (ghost_contacts at_node TP) (through k).
  Proof.
    intros LD O I C FW CW.
    rewrite (VFR_is_FR K Q (fun i => X i) place D (Q - 1) c_next FluxMatrix nu beta_0 beta_1 H2S Gm Q2 X0 X1 p s P G O Fw).
    apply (FR_conservation K xs ws D E LD place TM TP s P' G' c_next).
    - exact (T_outlet K Q place FluxMatrix nu beta_0 beta_1 H2S Gm p s O).
    - exact I.
    - apply (S_covered Q place Gm (fun f q => total_solver K nu beta_0 beta_1 H2S f q (nc_value (nholder f) (at_node (nholder f) f q))) p s C).
    - apply (S_face_weights Q place Gm (fun f q => total_solver K nu beta_0 beta_1 H2S f q (nc_value (nholder f) (at_node (nholder f) f q))) p _ FW).
    - exact CW.
  Qed.

  Variables F g : nat -> vec.
  Hypothesis U : uniform_flux Q place FluxMatrix s p F.
  Hypothesis L : linear_solution K N at_node p g.
  Let O : outlet_ok Q place FluxMatrix s p := uniform_outlet xs ws place D FluxMatrix p s F E P G U.
  Notation inside f q := (nc_value (nholder f) (at_node (nholder f) f q)).

  Lemma node_in c f q : touches p c f -> (q < nf_points f)%nat -> (at_node c f q < N)%nat.
  Proof.
    intros Ht Lq. destruct (on_cell Q (fun i => X i) place D p G _ _ _ Ht Lq) as (_ & i & a & b & n & EP & A1 & A2 & A3 & _).
    unfold place_node. rewrite EP. cbn [node_at]. apply node_lt; [exact A2|exact A3|].
    pose proof Q2. fold Q in H. unfold last_of; destruct i as [|[|[|[|[|i]]]]]; lia.
  Qed.
  Lemma holder_linear f q k : In f (all_faces p) -> (q < nf_points f)%nat -> (k < K)%nat ->
    du_of K (inside f q) k = g k /\ ddu_of K (inside f q) k = H6 0 0 0 0 0 0.
  Proof.
    intros I Lq Lk. pose proof P as (_ & _ & _ & P4 & _). apply (proj1 L); [left; exact (P4 f I)| |exact Lk]. apply node_in; [left; auto|exact Lq].
  Qed.
  Lemma sharer_linear f q k : In f (n_local_faces p) \/ In f (n_ghost_faces p) -> (q < nf_points f)%nat -> (k < K)%nat ->
    du_of K (nc_value (nsharer f) (at_node (nsharer f) f q)) k = g k /\ ddu_of K (nc_value (nsharer f) (at_node (nsharer f) f q)) k = H6 0 0 0 0 0 0.
  Proof.
    intros I Lq Lk. pose proof P as (_ & _ & _ & _ & P5 & _). apply (proj1 L); [|apply node_in; [right; auto|exact Lq]|exact Lk].
    destruct I as [I|I]; [left; exact (P5 f I)|right; exists f; auto].
  Qed.
  Lemma upwind_linear f q k : In f (n_local_faces p) \/ In f (n_ghost_faces p) -> (q < nf_points f)%nat -> (k < K)%nat ->
    upwind at_node (T f) q k = upwind at_node f q k - dot (diffusion nu (g k)) (nf_normal f q).
  Proof.
    intros I Lq Lk. unfold upwind, value_at. rewrite !(T_node K Q place nu beta_0 beta_1 H2S Gm).
    cbn [total_face with_riemann nholder nsharer nf_riemann total_solver GetFluxUpwind].
    assert (IA : In f (all_faces p)) by (unfold all_faces; rewrite !in_app_iff; tauto).
    destruct (holder_linear f q k IA Lq Lk) as [A1 A2]. destruct (sharer_linear f q k I Lq Lk) as [B1 B2].
    unfold common_gradient. rewrite A1, A2, B1, B2, (proj2 L f q k I Lq Lk). f_equal. f_equal. f_equal.
    destruct (g k) as [a b c], (nf_normal f q) as [n1 n2 n3]. unfold vadd, vscale, vsub, hess_mul. cbn [vx vy vz hxx hxy hxz hyy hyz hzz].
    unfold Rdiv. generalize (/ dot (V n1 n2 n3) (H2S f)). intros i. apply vec_eq; cbn [vx vy vz]; field.
  Qed.
  Lemma conditions_T fs flux_at : In (fs, flux_at) (n_conditions s TP) -> exists fs0, fs = map T fs0 /\ In (fs0, flux_at) (n_conditions s p)
    /\ forall f q u x k, flux_at (nf_riemann (T f) q) u x k = flux_at (nf_riemann f q) u x k - dot (diffusion nu (du_of K (inside f q) k)) (nf_normal f q).
  Proof.
    unfold n_conditions. rewrite !in_app_iff. cbn [total_part n_boundary_faces].
    intros I; repeat match type of I with _ \/ _ => destruct I as [I|I] end; apply in_map_iff in I; destruct I as (x & Ex & I);
      try (destruct x as [x g0]); injection Ex as <- <-;
      match goal with |- exists _, map T ?l = _ /\ _ => exists l end; (split; [reflexivity|]); (split; [rewrite !in_app_iff|reflexivity]).
    - left. apply in_map_iff. exists x. auto.
    - right; left. apply in_map_iff. exists (x, g0). auto.
    - do 2 right; left. apply in_map_iff. exists x. auto.
    - do 3 right; left. apply in_map_iff. exists (x, g0). auto.
    - do 4 right; left. apply in_map_iff. exists (x, g0). auto.
    - do 5 right. apply in_map_iff. exists (x, g0). auto.
  Qed.
  Lemma sub_dot a b n : dot a n - dot b n = dot (vsub a b) n.
  Proof. destruct a, b, n. unfold dot, vsub. cbn. ring. Qed.
  Lemma linear_uniform k : (k < K)%nat -> uniform_at xs place TM TP s (fun k => vsub (F k) (diffusion nu (g k))) k.
  Proof.
    intros Lk. pose proof U as [U1 U2]. split.
    - intros c q I Lq. unfold total_matrix. rewrite U1 by assumption. rewrite (proj1 (proj1 L c q k (or_introl I) Lq Lk)). reflexivity.
    - intros t I. rewrite <- sub_dot. unfold contacts in I. rewrite !in_app_iff in I. destruct I as [I|[I|I]].
      + unfold inner_contacts in I. cbn [total_part n_local_faces] in I. rewrite flat_map_map in I. apply in_flat_map in I. destruct I as (f & If & I).
        unfold at_local in I. apply in_flat_map in I. destruct I as (q & Iq & I). apply in_seq in Iq. cbn [nf_points total_face with_riemann] in Iq.
        assert (V : upwind at_node (T f) q k = dot (F k) (nf_normal f q) - dot (diffusion nu (g k)) (nf_normal f q)).
        { rewrite (upwind_linear f q k (or_introl If)) by (auto; lia). f_equal.
          apply (U2 (Contact (nholder f) f q true (upwind at_node f q)) k). unfold contacts. rewrite in_app_iff. left. unfold inner_contacts.
          apply in_flat_map. exists f. split; [exact If|]. unfold at_local. apply in_flat_map. exists q. split; [apply in_seq; lia|]. left. reflexivity. }
        destruct I as [<-|[<-|[]]]; exact V.
      + unfold boundary_contacts in I. apply in_flat_map in I. destruct I as ((fs, flux_at) & C & I).
        destruct (conditions_T fs flux_at C) as (fs0 & -> & C0 & V). rewrite flat_map_map in I. apply in_flat_map in I. destruct I as (f & If & I).
        unfold at_boundary in I. apply in_map_iff in I. destruct I as (q & <- & Iq). apply in_seq in Iq. cbn [nf_points total_face with_riemann] in Iq.
        cbn [k_flux k_face k_point]. rewrite V.
        set (t := Contact (nholder f) f q true (flux_at (nf_riemann f q) (value_at at_node (nholder f) f q) (nf_coord f q))).
        assert (It : In t (flat_map (at_boundary at_node flux_at) fs0)).
        { apply in_flat_map. exists f. split; [exact If|]. unfold at_boundary. apply in_map_iff. exists q. split; [reflexivity|apply in_seq; lia]. }
        destruct (in_conditions at_node p s fs0 flux_at t C0 It) as [_ It'].
        pose proof (U2 t k It') as W. cbn [k_flux k_face k_point t] in W.
        destruct (contact_in N at_node p s P t It') as (Ht & _ & _). cbn [k_cell k_face t] in Ht.
        assert (IA : In f (all_faces p)). { destruct Ht as [[A _]|[A _]]; [exact A|unfold all_faces; rewrite !in_app_iff; tauto]. }
        destruct (holder_linear f q k IA ltac:(lia) Lk) as [A1 _]. rewrite A1.
        unfold value_at in *. rewrite (T_node K Q place nu beta_0 beta_1 H2S Gm). cbn [total_face with_riemann nholder nf_coord nf_normal]. rewrite W. reflexivity.
      + unfold ghost_contacts in I. cbn [total_part n_ghost_faces] in I. rewrite flat_map_map in I. apply in_flat_map in I. destruct I as (f & If & I).
        unfold at_ghost in I. apply in_map_iff in I. destruct I as (q & <- & Iq). apply in_seq in Iq. cbn [nf_points total_face with_riemann] in Iq.
        transitivity (upwind at_node f q k - dot (diffusion nu (g k)) (nf_normal f q)); [exact (upwind_linear f q k (or_intror If) ltac:(lia) Lk)|]. f_equal.
        apply (U2 (Contact (nholder f) f q true (upwind at_node f q)) k). unfold contacts. rewrite !in_app_iff. right. right. unfold ghost_contacts.
        apply in_flat_map. exists f. split; [exact If|]. unfold at_ghost. apply in_map_iff. exists q. split; [reflexivity|apply in_seq; lia].
  Qed.
  Theorem linear_steady c_next : (forall c, In c (n_local_cells p) -> no_divergence Q c) ->
    exists r, VFR_GetResidualColumn K Q (fun i => X i) (Q - 1) c_next FluxMatrix nu beta_0 beta_1 H2S s p = Some r
    /\ forall c j k, In c (n_local_cells p) -> (j < N)%nat -> (k < K)%nat -> at_ r (address K N (nc_id c) j k) = 0.
  Proof.
    intros ND. destruct (VFR_main K Q (fun i => X i) place D (Q - 1) c_next FluxMatrix nu beta_0 beta_1 H2S Gm Q2 X0 X1 p s P G O Fw) as (r & ER & _ & V).
    exists r. split; [exact ER|]. intros c j k I J Lk. unfold N in *. rewrite V by assumption. clear V.
    pose proof (linear_uniform k Lk) as UA.
    pose proof (uniform_form xs ws place D TM TP s (fun k => vsub (F k) (diffusion nu (g k))) E P' G' (LocalToLeftDerivative (Q - 1) c_next)
      (LocalToRightDerivative (Q - 1) c_next) c j k UA) as V. fold Q in V. rewrite V. clear V.
    unfold divergence_at. rewrite (rsum_ext (Q * Q * Q) _ (fun m => dot (rmul (vsub (F k) (diffusion nu (g k))) (nc_associated c m)) (nc_gradients c j m))).
    - rewrite (ND c I _ j J). ring.
    - intros m Lm. unfold F_local. rewrite (proj1 UA c m I Lm). reflexivity.
  Qed.
End Linear.

Lemma fine_no_divergence xs ws M c : with_ends xs ws -> inverse_of xs M -> fine_hexahedron xs M c -> no_divergence (List.length xs) c.
Proof.
  intros E MI (id & w & h & nodes & coeff & -> & Hh & Hn & HQ & NZ) F j J.
  exact (uniform_divergence xs ws M id w h nodes coeff E MI Hh Hn (fun _ _ => F) 0%nat F j HQ J NZ (fun _ _ => eq_refl)).
Qed.
