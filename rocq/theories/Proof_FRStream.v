(** Uniform fluxes: the residual is the divergence only, which vanishes on hexahedra if there are enough points. *)
From Coq Require Import Reals List Arith Lia Lra Bool String.
From Verif Require Import Vec3 Arrays RSum Poly Model_Shapes Model_Geometry Model_Basis Model_Nodal Model_Dofs Model_DG Model_Gauss Model_Schemes
  Spec_Basis Spec_Shapes Spec_Nodal Spec_DG Spec_Schemes Spec_FR
  Proof_Lagrange Proof_Shapes Proof_GaussVolume Proof_Dofs Proof_DG Proof_Schemes Proof_DGLobatto Proof_FR Proof_FRLine Proof_FRMain Proof_FRCell.
Import ListNotations.
Open Scope R_scope.

(** which cell a contact belongs to *)
Lemma contact_kind at_node N p s t : npart_ok N p -> In t (contacts at_node s p) ->
  In (k_face t) (all_faces p)
  /\ ((k_holder t = true /\ k_cell t = nholder (k_face t))
      \/ (k_holder t = false /\ k_cell t = nsharer (k_face t) /\ In (k_face t) (n_local_faces p))).
Proof.
  intros (_ & _ & _ & _ & _ & _ & HB). unfold contacts. rewrite !in_app_iff. intros [I|[I|I]].
  - unfold inner_contacts in I. apply in_flat_map in I. destruct I as (f & F & I). unfold at_local in I.
    apply in_flat_map in I. destruct I as (q & _ & I).
    assert (A : In f (all_faces p)) by (apply in_or_app; left; exact F).
    destruct I as [<-|[<-|[]]]; cbn [k_cell k_face k_holder]; auto.
  - unfold boundary_contacts in I. apply in_flat_map in I. destruct I as ((fs, flux_at) & C & I).
    apply in_flat_map in I. destruct I as (f & F & I). unfold at_boundary in I. apply in_map_iff in I. destruct I as (q & <- & _).
    cbn [k_cell k_face k_holder]. split; [|auto]. unfold all_faces. rewrite !in_app_iff. right. right.
    unfold n_conditions in C. rewrite !in_app_iff in C.
    repeat match type of C with _ \/ _ => destruct C as [C|C] end; apply in_map_iff in C; destruct C as (x & Ex & _);
      try destruct x as [x g]; injection Ex as <- _; exact (HB x f F).
  - unfold ghost_contacts in I. apply in_flat_map in I. destruct I as (f & F & I). unfold at_ghost in I. apply in_map_iff in I.
    destruct I as (q & <- & _). cbn [k_cell k_face k_holder]. split; [|auto]. unfold all_faces. rewrite !in_app_iff. auto.
Qed.

Section Stream.
  Variable K : nat.
  Variables xs ws : list R.
  Let Q := List.length xs.
  Let N := (Q * Q * Q)%nat.
  Variable place : ncell -> nface -> nat -> position.
  Variable D : nat -> nat -> R.
  Variable FluxMatrix : value -> nat -> vec.
  Variable p : npart.
  Variable s : fem.
  Variable F : nat -> vec.
  Notation X i := (nth i xs 0).
  Hypothesis E : with_ends xs ws.
  Hypothesis P : npart_ok N p.
  Hypothesis G : geometry_ok Q (fun i => X i) place D p.
  Notation CT := (contacts (place_node Q place) s p).
  (** of one component *)
  Definition uniform_at (k : nat) : Prop :=
    (forall c q, In c (n_local_cells p) -> (q < N)%nat -> FluxMatrix (nc_value c q) k = F k)
    /\ (forall t, In t CT -> k_flux t k = dot (F k) (nf_normal (k_face t) (k_point t))).

  Lemma uniform_jump t k : uniform_at k -> In t CT -> jump Q place FluxMatrix t k = 0.
  Proof.
    intros U It. destruct (contact_in N _ p s P t It) as (T & L & C). destruct (contact_kind _ N p s t P It) as (FA & H).
    destruct U as [U1 U2]. specialize (U2 t It).
    assert (GE : exists i a b, place (k_cell t) (k_face t) (k_point t) = (i, (a, b)) /\ (a < Q)%nat /\ (b < Q)%nat
      /\ area Q (k_cell t) (i, (a, b)) = vscale (side i * vnorm (area Q (k_cell t) (i, (a, b))))
           (if k_holder t then nf_normal (k_face t) (k_point t) else vneg (nf_normal (k_face t) (k_point t)))).
    { destruct G as (_ & _ & GH & GS). destruct H as [[-> EC]|(-> & EC & FL)].
      - destruct (GH _ FA) as [NP HQ]. rewrite NP in L. specialize (HQ _ L). rewrite <- EC in HQ.
        destruct (place _ _ _) as [i [a b]]. exists i, a, b. tauto.
      - destruct (GS _ (or_introl FL)) as [NP HQ]. rewrite NP in L. specialize (HQ _ L). rewrite <- EC in HQ.
        destruct (place _ _ _) as [i [a b]]. exists i, a, b. tauto. }
    destruct GE as (i & a & b & EP & A & B & EA). unfold jump. cbv zeta. rewrite EP. cbn [fst].
    pose proof (Q_ge_2 xs ws E) as Q2. fold Q in Q2.
    rewrite U1; [|exact C|cbn [node_at]; apply node_lt; [exact A|exact B|unfold last_of; destruct i as [|[|[|[|[|i]]]]]; lia]].
    set (v := vnorm (area Q (k_cell t) (i, (a, b)))) in *. rewrite EA, dot_vscale_r. unfold outward. rewrite U2.
    destruct (k_holder t); [ring|]. replace (dot (F k) (vneg (nf_normal (k_face t) (k_point t)))) with (- dot (F k) (nf_normal (k_face t) (k_point t))); [ring|].
    destruct (F k) as [f1 f2 f3], (nf_normal _ _) as [n1 n2 n3]. unfold dot, vneg. cbn [vx vy vz]. ring.
  Qed.
  Lemma uniform_form gL gR c j k : uniform_at k -> FR_form Q (fun i => X i) place FluxMatrix gL gR s p c j k = - divergence_at Q FluxMatrix c j k.
  Proof.
    intros U. unfold FR_form.
    replace (of_cell c CT _) with 0; [ring|]. symmetry. unfold of_cell. rewrite (lsum_ext CT _ (fun _ => 0)); [apply lsum_zero; reflexivity|].
    intros t It. pose proof (uniform_jump t k U It) as J. destruct (place _ _ _) as [i [a b]]. unfold if_id. destruct (_ =? _)%nat; [|reflexivity].
    rewrite J. rewrite (rsum_ext Q _ (fun _ => 0)); [apply rsum_0|]. intros m _. destruct (_ =? _)%nat; ring.
  Qed.
  Hypothesis U : uniform_flux Q place FluxMatrix s p F.
  Lemma uniform_all k : uniform_at k.
  Proof. destruct U as [U1 U2]. split; auto. Qed.
  Lemma uniform_outlet : outlet_ok Q place FluxMatrix s p.
  Proof.
    intros name f q k I J L. destruct U as [U1 U2].
    set (t := Contact (nholder f) f q true (n_sup_out (nf_riemann f q) (value_at (place_node Q place) (nholder f) f q) (nf_coord f q))).
    assert (It : In t CT).
    { destruct (in_conditions (place_node Q place) p s (n_boundary_faces p name) n_sup_out t) as [_ C]; [| |exact C].
      - unfold n_conditions. rewrite !in_app_iff. do 2 right. left. apply in_map_iff. exists name. auto.
      - apply in_flat_map. exists f. split; [exact J|]. unfold at_boundary. apply in_map_iff. exists q. split; [reflexivity|apply in_seq; lia]. }
    pose proof (U2 t k It) as H. cbn [k_flux k_face k_point t] in H. unfold n_sup_out in H. rewrite H.
    destruct (contact_in N _ p s P t It) as (T & _ & C). cbn [k_cell t] in C.
    destruct (on_cell Q (fun i => X i) place D p G _ _ _ T L) as (_ & i & a & b & n & EP & A1 & A2 & A3 & _). cbn [k_cell k_face k_point t] in EP.
    pose proof (Q_ge_2 xs ws E) as Q2. fold Q in Q2.
    unfold value_at, place_node. rewrite EP. rewrite U1; [reflexivity|exact C|].
    cbn [node_at]. apply node_lt; [exact A2|exact A3|unfold last_of; destruct i as [|[|[|[|[|i]]]]]; lia].
  Qed.
  Theorem uniform_residual c_next : exists r, FR_GetResidualColumn K Q (fun i => X i) (Q - 1) c_next FluxMatrix s p = Some r
    /\ forall c j k, In c (n_local_cells p) -> (j < N)%nat -> (k < K)%nat ->
         at_ r (address K N (nc_id c) j k) = - divergence_at Q FluxMatrix c j k.
  Proof.
    destruct (FR_main K Q (fun i => X i) place D FluxMatrix (Q - 1) c_next (Q_ge_2 xs ws E) (X_first xs ws E) (X_last xs ws E) p s P G uniform_outlet)
      as (r & ER & _ & V).
    exists r. split; [exact ER|]. intros c j k I J L. unfold N in *. rewrite V by assumption. apply uniform_form, uniform_all.
  Qed.
  (** a cell of a hexahedron on which the rule has enough points *)
  Definition fine_hexahedron (M : nat -> nat -> R) (c : ncell) : Prop :=
    exists id w h nodes coeff, c = hexa_cell id w (mkNodal h nodes (line_basis xs M) coeff)
      /\ In h hexas /\ built (h_element h) nodes /\ (2 * order (h_element h) + 1 <= Q)%nat
      /\ forall q, (q < N)%nat -> jacobian_det (mkNodal h nodes (line_basis xs M) coeff) q <> 0.
  Theorem free_stream M c_next : inverse_of xs M -> (forall c, In c (n_local_cells p) -> fine_hexahedron M c) ->
    exists r, FR_GetResidualColumn K Q (fun i => X i) (Q - 1) c_next FluxMatrix s p = Some r
    /\ forall c j k, In c (n_local_cells p) -> (j < N)%nat -> (k < K)%nat -> at_ r (address K N (nc_id c) j k) = 0.
  Proof.
    intros MI HC. destruct (uniform_residual c_next) as (r & ER & V). exists r. split; [exact ER|]. intros c j k I J L. rewrite V by assumption.
    destruct (HC c I) as (id & w & h & nodes & coeff & -> & Hh & Hn & HQ & NZ).
    pose proof (uniform_divergence xs ws M id w h nodes coeff E MI Hh Hn FluxMatrix k (F k) j HQ J NZ) as T. fold Q in T. rewrite T; [ring|].
    intros q Lq. apply U; assumption.
  Qed.
End Stream.

(** ** The assertions of FR::Lobatto about its two caches hold *)
Section Caches.
  Variables xs ws : list R.
  Let Q := List.length xs.
  Let N := (Q * Q * Q)%nat.
  Variable place : ncell -> nface -> nat -> position.
  Variable D : nat -> nat -> R.
  Variable p : npart.
  Notation X i := (nth i xs 0).
  Hypothesis E : with_ends xs ws.
  Hypothesis A : at_extrema xs.
  Hypothesis P : npart_ok N p.
  Hypothesis G : geometry_ok Q (fun i => X i) place D p.
  Notation lump := (HuynhLumpingLobatto (Q - 1)).

  Lemma g_prime_end i : g_prime (Q - 1) lump i (X (last_of Q i)) = side i * LocalToRightDerivative (Q - 1) lump 1.
  Proof.
    assert (XF : nth 0 xs 0 = -1) by apply (X_first xs ws E). assert (XL : nth (Q - 1) xs 0 = 1) by apply (X_last xs ws E).
    assert (LR : LocalToLeftDerivative (Q - 1) lump (-1) = - LocalToRightDerivative (Q - 1) lump 1) by apply (left_is_right xs).
    unfold g_prime, on_left, last_of, side. destruct i as [|[|[|[|[|i]]]]]; rewrite ?XF, ?XL, ?LR; ring.
  Qed.
  Lemma g_prime_inside i m : (m < Q)%nat -> m <> last_of Q i -> g_prime (Q - 1) lump i (X m) = 0.
  Proof.
    intros L NE. unfold g_prime, on_left, last_of in *.
    destruct i as [|[|[|[|[|i]]]]]; first [unfold Q; apply (left_zero xs ws E A m); fold Q; lia | unfold Q; apply (right_zero xs ws E A m); fold Q; lia].
  Qed.
  Lemma filter_one (f : nat -> bool) n m : (m < n)%nat -> (forall k, (k < n)%nat -> f k = (k =? m)%nat) -> List.length (filter f (seq 0 n)) = 1%nat.
  Proof.
    intros L H. replace n with (m + (1 + (n - m - 1)))%nat by lia. rewrite !seq_app, !filter_app, !app_length. cbn [seq filter Nat.add].
    assert (Z : forall l, (forall k, In k l -> f k = false) -> filter f l = []).
    { induction l as [|x l IH]; intros HZ; [reflexivity|]. cbn [filter]. rewrite (HZ x (or_introl eq_refl)). apply IH. intros; apply HZ; right; auto. }
    rewrite (Z (seq 0 m)), (Z (seq (m + 1) _)).
    - rewrite (H m L), Nat.eqb_refl. reflexivity.
    - intros k I. apply in_seq in I. rewrite H by lia. apply Nat.eqb_neq. lia.
    - intros k I. apply in_seq in I. rewrite H by lia. apply Nat.eqb_neq. lia.
  Qed.
  Theorem caches_consistent c f q : touches p c f -> (q < nf_points f)%nat ->
    exists e base, FRL_entry Q (fun i => X i) (Q - 1) c f q = Some e /\ FR_entry Q (fun i => X i) (Q - 1) lump c f q = Some base
      /\ consistent Q e base.
  Proof.
    intros T L. pose proof (Q_ge_2 xs ws E) as Q2. fold Q in Q2.
    destruct (FRL_entry_some Q (fun i => X i) place D (Q - 1) Q2 (X_first xs ws E) (X_last xs ws E) p P G c f q T L) as [E1 _].
    destruct (FR_entry_some Q (fun i => X i) place D (Q - 1) lump Q2 (X_first xs ws E) (X_last xs ws E) p P G c f q T L) as [E2 _].
    eexists; eexists. split; [exact E1|]. split; [exact E2|]. clear E1 E2.
    destruct (on_cell Q (fun i => X i) place D p G _ _ _ T L) as (_ & i & a & b & n & EP & A1 & A2 & A3 & _).
    unfold lent, ent. rewrite EP. unfold consistent. cbn [pc_ijk fp_ijk pc_scale fp_scale pc_normal fp_normal solution_points pc_g_prime node_at].
    assert (LL : (last_of Q i < Q)%nat) by (unfold last_of; destruct i as [|[|[|[|[|i]]]]]; lia).
    repeat (split; [reflexivity|]). split; [rewrite map_length, seq_length; reflexivity|]. split.
    - intros g ijk I. apply in_map_iff in I. destruct I as (m & Em & Lm). apply in_seq in Lm. injection Em as <- <-.
      destruct (Nat.eqb_spec (node_on_line Q i a b (last_of Q i)) (node_on_line Q i a b m)) as [H|H].
      + apply (node_inj Q) in H; [|lia..]. subst m. apply g_prime_end.
      + rewrite g_prime_inside; [rewrite Rabs_R0; apply Rinv_0_lt_compat, pow_lt; lra|lia|]. intros ->. contradiction.
    - transitivity (List.length (filter (fun m => node_on_line Q i a b (last_of Q i) =? node_on_line Q i a b m)%nat (seq 0 Q))); [|apply (filter_one _ Q (last_of Q i) LL)].
      + generalize (seq 0 Q). induction l as [|m l IH]; [reflexivity|]. cbn [map filter]. destruct (_ =? _)%nat; cbn [List.length]; rewrite IH; reflexivity.
      + intros k Lk. destruct (Nat.eqb_spec k (last_of Q i)) as [->|H]; [apply Nat.eqb_refl|]. apply Nat.eqb_neq. intros H'.
        apply (node_inj Q) in H'; lia.
  Qed.
End Caches.

(** the gradients of the basis functions of a hexahedron sum to zero *)
Lemma tensor_unity xs ws D c q : with_ends xs ws -> lagrange_derivatives xs D -> let Q := List.length xs in
  tensor_cell Q (fun i => nth i xs 0) D c -> (q < Q * Q * Q)%nat ->
  rsum (Q * Q * Q) (fun j => vx (nc_gradients c q j)) = 0 /\ rsum (Q * Q * Q) (fun j => vy (nc_gradients c q j)) = 0
  /\ rsum (Q * Q * Q) (fun j => vz (nc_gradients c q j)) = 0.
Proof.
  intros E LD Q [_ TG] L. destruct (nd_all xs q L) as (i & j & k & I & J & K & ->). fold Q in I, J, K, TG |- *.
  assert (DZ : forall i, (i < Q)%nat -> rsum Q (fun a => D i a) = 0) by exact (D_const xs ws D E LD).
  assert (DD : forall i, (i < Q)%nat -> rsum Q (fun a => delta i a) = 1).
  { intros i' I'. rewrite (rsum_single Q i'); [unfold delta; rewrite Nat.eqb_refl; reflexivity|exact I'|].
    intros m _ NE. unfold delta. apply not_eq_sym in NE. apply Nat.eqb_neq in NE. rewrite NE. reflexivity. }
  assert (S3 : forall f g h : nat -> R, rsum Q f * rsum Q g * rsum Q h = 0 ->
    rsum Q (fun a => rsum Q (fun b => rsum Q (fun e => f a * g b * h e))) = 0).
  { intros f g h H. rewrite (rsum_ext Q _ (fun a => f a * (rsum Q g * rsum Q h))).
    - rewrite rsum_mul_r. rewrite <- H. ring.
    - intros a _. rewrite (rsum_ext Q _ (fun b => f a * rsum Q h * g b)); [rewrite rsum_mul_l; ring|].
      intros b _. rewrite rsum_mul_l. ring. }
  rewrite !rsum_cube.
  split; [|split];
    [rewrite <- (S3 (D i) (delta j) (delta k))|rewrite <- (S3 (delta i) (D j) (delta k))|rewrite <- (S3 (delta i) (delta j) (D k))];
    try (rewrite !DZ, ?DD by assumption; ring);
    apply rsum_ext; intros a A; apply rsum_ext; intros b B; apply rsum_ext; intros e Le; rewrite TG by assumption; reflexivity.
Qed.
