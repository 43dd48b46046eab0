From Coq Require Import Reals List Arith Lia Lra Bool String.
From Verif Require Import Vec3 Arrays RSum Model_Geometry Model_Basis Model_Dofs Model_DG Model_Schemes Spec_DG Spec_Schemes Proof_Dofs Proof_DG.
Import ListNotations.
Open Scope R_scope.

Lemma lsum_flat_map {A B} (g : A -> list B) l f : lsum (flat_map g l) f = lsum l (fun x => lsum (g x) f).
Proof. induction l as [|a l IH]; cbn; [reflexivity|]. rewrite lsum_app, IH. reflexivity. Qed.
Lemma lsum_seq n f : lsum (seq 0 n) f = rsum n f.
Proof.
  induction n as [|n IH]; [reflexivity|]. rewrite seq_S, lsum_app, IH. cbn [lsum rsum]. rewrite Nat.add_0_l. ring.
Qed.
Lemma npick (l : list ncell) h (g : ncell -> R) :
  NoDup (map nc_id l) -> In h l -> lsum l (fun c => if_id (nc_id h) (nc_id c) (g c)) = g h.
Proof.
  induction l as [|a l IH]; intros D I; [contradiction|]. cbn [map] in D. apply NoDup_cons_iff in D. destruct D as [D1 D2].
  cbn [lsum]. destruct I as [->|I].
  - unfold if_id at 1. rewrite Nat.eqb_refl. rewrite (lsum_ext l _ (fun _ => 0)).
    + rewrite lsum_zero. ring.
    + intros c J. unfold if_id. destruct (Nat.eqb_spec (nc_id h) (nc_id c)) as [E|E]; [|reflexivity].
      elim D1. rewrite E. apply in_map. exact J.
  - unfold if_id at 1. destruct (Nat.eqb_spec (nc_id h) (nc_id a)) as [E|E].
    + elim D1. rewrite <- E. apply in_map. exact I.
    + rewrite Rplus_0_l. apply IH; assumption.
Qed.
Lemma same_ncell (l : list ncell) a b : NoDup (map nc_id l) -> In a l -> In b l -> nc_id a = nc_id b -> a = b.
Proof.
  induction l as [|x l IH]; intros D A B E; [contradiction|]. cbn [map] in D. apply NoDup_cons_iff in D. destruct D as [D1 D2].
  destruct A as [->|A], B as [->|B]; auto.
  - elim D1. rewrite E. apply in_map. exact B.
  - elim D1. rewrite <- E. apply in_map. exact A.
Qed.

(** ** Effects of operations that may fail *)
Section Effects.
  Variables K N : nat.
  Definition meffect (g : mem -> option mem) (E : nat -> nat -> nat -> R) : Prop :=
    forall m, exists m', g m = Some m'
      /\ forall i j k, (j < N)%nat -> (k < K)%nat -> m' (address K N i j k) = m (address K N i j k) + E i j k.

  Lemma meffect_ext g E F : (forall i j k, (j < N)%nat -> (k < K)%nat -> E i j k = F i j k) -> meffect g E -> meffect g F.
  Proof. intros X H m. destruct (H m) as (m' & a & b). exists m'. split; [exact a|]. intros. rewrite b, X; auto. Qed.
  Lemma meffect_total g E : mem_effect K N g E -> meffect (fun m => Some (g m)) E.
  Proof. intros H m. eexists. split; [reflexivity|]. intros. apply H; assumption. Qed.
  Lemma meffect_bind g h E F : meffect g E -> meffect h F ->
    meffect (fun m => do m <- g m; h m) (fun i j k => E i j k + F i j k).
  Proof.
    intros G H m. destruct (G m) as (m1 & -> & V1). cbn. destruct (H m1) as (m2 & -> & V2). exists m2. split; [reflexivity|].
    intros. rewrite V2, V1 by assumption. ring.
  Qed.
  Lemma meffect_foldM {A} (f : mem -> A -> option mem) (l : list A) E :
    (forall x, In x l -> meffect (fun m => f m x) (E x)) -> meffect (foldM f l) (fun i j k => lsum l (fun x => E x i j k)).
  Proof.
    induction l as [|x l IH]; intros H.
    - intros m. exists m. split; [reflexivity|]. intros. cbn. ring.
    - cbn [foldM]. apply (meffect_bind (fun m => f m x) (foldM f l) (E x)).
      + apply H. left. reflexivity.
      + apply IH. intros y I. apply H. right. exact I.
  Qed.
  Lemma meffect_seq (f : mem -> nat -> option mem) n E :
    (forall q, (q < n)%nat -> meffect (fun m => f m q) (E q)) -> meffect (foldM f (seq 0 n)) (fun i j k => rsum n (fun q => E q i j k)).
  Proof.
    intros H. eapply meffect_ext; [|apply (meffect_foldM f (seq 0 n) E)].
    - intros. apply lsum_seq.
    - intros q I. apply H. apply in_seq in I. lia.
  Qed.

  Lemma address_block id i b j : (b < N)%nat -> (j < N)%nat -> forall k, (k < K)%nat ->
    ~ (id = i /\ b = j) -> (address K N i j k < K * N * id + b * K \/ K * N * id + b * K + K <= address K N i j k)%nat.
  Proof.
    intros B J k L X. unfold address. assert (j * K + k < K * N)%nat by nia. assert (b * K + K <= K * N)%nat by nia.
    destruct (Nat.lt_trichotomy id i) as [H1|[H1|H1]].
    - right. nia.
    - subst i. destruct (Nat.lt_trichotomy b j) as [H2|[H2|H2]]; [right; nia|tauto|left; nia].
    - left. nia.
  Qed.
  Lemma minus_value_effect v id b : (b < N)%nat ->
    meffect (MinusValue K N v (K * N * id) b) (fun i j k => if_id id i (if (b =? j)%nat then - v k else 0)).
  Proof.
    intros B m. destruct (minus_value K N v (K * N * id) b m B) as (m' & E & I & O). exists m'. split; [exact E|].
    intros i j k J L. unfold if_id. destruct (Nat.eqb_spec id i) as [->|X].
    - destruct (Nat.eqb_spec b j) as [->|Y].
      + unfold address. rewrite I by exact L. ring.
      + rewrite O; [ring|]. apply address_block; auto. tauto.
    - rewrite O; [ring|]. apply address_block; auto. tauto.
  Qed.
  Lemma add_value_effect v id b : (b < N)%nat ->
    meffect (AddValueTo K N v (K * N * id) b) (fun i j k => if_id id i (if (b =? j)%nat then v k else 0)).
  Proof.
    intros B m. destruct (add_value K N v (K * N * id) b m B) as (m' & E & I & O). exists m'. split; [exact E|].
    intros i j k J L. unfold if_id. destruct (Nat.eqb_spec id i) as [->|X].
    - destruct (Nat.eqb_spec b j) as [->|Y].
      + unfold address. rewrite I by exact L. ring.
      + rewrite O; [ring|]. apply address_block; auto. tauto.
    - rewrite O; [ring|]. apply address_block; auto. tauto.
  Qed.

  Variable n : nat.
  Lemma effect_memM id g E : (id < n)%nat -> meffect (g (K * N * id)%nat) E ->
    effect K N n (fun col => do data <- AddCellDataOffset K N n col id; do m <- g data (at_ col); Some (with_mem col m)) E.
  Proof.
    intros L H col S. rewrite (add_offset_some K N n) by assumption. cbn [bind].
    destruct (H (at_ col)) as (m' & -> & V). cbn [bind]. eexists. split; [reflexivity|]. split; [exact S|]. exact V.
  Qed.
End Effects.

(** ** The residual of any of the schemes *)
Section Scheme.
  Variables K N : nat.
  Variable entry : Type.
  Variable entry_of : ncell -> nface -> nat -> option entry.
  Variable node : entry -> nat.
  Variable check : entry -> entry -> bool.
  Variable put : bool -> ncell -> nface -> nat -> entry -> value -> nat -> mem -> option mem.
  Variable put_outlet : ncell -> nface -> nat -> entry -> value -> nat -> mem -> option mem.
  Variable divergence : ncell -> nat -> mem -> option mem.
  Variable at_node : ncell -> nface -> nat -> nat.
  Variable p : npart.
  Variable s : fem.
  Hypothesis P : npart_ok N p.
  Variable ent : ncell -> nface -> nat -> entry.
  Hypothesis Hent : forall c f q, touches p c f -> (q < nf_points f)%nat ->
    entry_of c f q = Some (ent c f q) /\ node (ent c f q) = at_node c f q.
  Hypothesis Hcheck : forall f q, In f (n_local_faces p) \/ In f (n_ghost_faces p) -> (q < nf_points f)%nat ->
    check (ent (nholder f) f q) (ent (nsharer f) f q) = true.

  Definition entries (pick : nface -> ncell) (f : nface) : list entry := map (ent (pick f) f) (seq 0 (nf_points f)).
  Lemma entries_nth pick f q : (q < nf_points f)%nat -> nth_error (entries pick f) q = Some (ent (pick f) f q).
  Proof.
    intros L. unfold entries. rewrite nth_error_map.
    rewrite (nth_error_nth' _ 0%nat) by (rewrite seq_length; exact L). rewrite seq_nth by exact L. reflexivity.
  Qed.

  Lemma cache_faces_some pick faces c :
    (forall f, In f faces -> touches p (pick f) f) -> map nf_id faces = seq (List.length c) (List.length faces) ->
    cache_faces entry entry_of pick faces c = Some (c ++ map (entries pick) faces).
  Proof.
    revert c. induction faces as [|f l IH]; intros c T E.
    - cbn. rewrite app_nil_r. reflexivity.
    - cbn [map List.length seq] in E. assert (E1 : nf_id f = List.length c) by congruence.
      assert (E2 : map nf_id l = seq (S (List.length c)) (List.length l)) by congruence.
      unfold cache_faces. cbn [foldM]. rewrite E1, Nat.eqb_refl.
      rewrite (mapM_map _ (ent (pick f) f)).
      + cbn [bind]. specialize (IH (c ++ [entries pick f])). unfold cache_faces in IH. change (map (ent (pick f) f) (seq 0 (nf_points f))) with (entries pick f). rewrite IH.
        * rewrite <- app_assoc. reflexivity.
        * intros g I. apply T. right. exact I.
        * rewrite app_length. cbn. rewrite Nat.add_1_r. exact E2.
      + intros q I. apply in_seq in I. apply Hent; [apply T; left; reflexivity|lia].
  Qed.

  Definition hcache : list (list entry) := map (entries nholder) (all_faces p).
  Definition scache : list (list entry) := map (entries nsharer) (n_local_faces p ++ n_ghost_faces p).
  Lemma ids_split : map nf_id (n_local_faces p) = seq 0 (List.length (n_local_faces p))
    /\ map nf_id (n_ghost_faces p) = seq (List.length (n_local_faces p)) (List.length (n_ghost_faces p))
    /\ map nf_id (n_boundary p) = seq (List.length (n_local_faces p) + List.length (n_ghost_faces p)) (List.length (n_boundary p)).
  Proof.
    destruct P as (_ & _ & E & _). unfold all_faces in E. rewrite !map_app, !app_length, !seq_app in E.
    assert (X : forall a b c d : list nat, a ++ b = c ++ d -> List.length a = List.length c -> a = c /\ b = d).
    { induction a as [|x a IH]; intros b [|y c] d A L; cbn in *; try discriminate; auto.
      assert (a ++ b = c ++ d) by congruence. destruct (IH b c d); auto. split; congruence. }
    apply X in E; [|rewrite map_length, seq_length; reflexivity]. destruct E as [E1 E2].
    apply X in E2; [|rewrite map_length, seq_length; reflexivity]. destruct E2 as [E2 E3].
    rewrite Nat.add_0_l in *. auto.
  Qed.
  Lemma construct_some : construct entry entry_of p = Some (hcache, scache).
  Proof.
    destruct ids_split as (E1 & E2 & E3).
    assert (T1 : forall f, In f (n_local_faces p) -> touches p (nholder f) f /\ touches p (nsharer f) f).
    { intros f I. split; [left; split; [apply in_or_app; left; exact I|reflexivity]|right; auto]. }
    assert (T2 : forall f, In f (n_ghost_faces p) -> touches p (nholder f) f /\ touches p (nsharer f) f).
    { intros f I. split; [left; split; [apply in_or_app; right; apply in_or_app; left; exact I|reflexivity]|right; auto]. }
    unfold construct.
    rewrite (cache_faces_some nholder) by (auto; intros f I; apply T1; exact I). cbn [bind app].
    rewrite (cache_faces_some nsharer) by (auto; intros f I; apply T1; exact I). cbn [bind app].
    rewrite (cache_faces_some nholder) by (rewrite ?map_length; auto; intros f I; apply T2; exact I). cbn [bind].
    rewrite (cache_faces_some nsharer) by (rewrite ?map_length; auto; intros f I; apply T2; exact I). cbn [bind].
    rewrite (cache_faces_some nholder).
    - cbn [bind]. unfold hcache, scache, all_faces. rewrite !map_app, app_assoc. reflexivity.
    - intros f I. left. split; [|reflexivity]. apply in_or_app. right. apply in_or_app. right. exact I.
    - rewrite app_length, !map_length. exact E3.
  Qed.

  Lemma nth_by_id (g : nface -> list entry) l f : map nf_id l = seq 0 (List.length l) -> In f l ->
    nth_error (map g l) (nf_id f) = Some (g f).
  Proof.
    intros E I. apply In_nth_error in I. destruct I as [i I].
    assert (nf_id f = i) as ->.
    { assert (X : nth_error (map nf_id l) i = Some (nf_id f)) by (rewrite nth_error_map, I; reflexivity).
      rewrite E in X. assert (L : (i < List.length l)%nat) by (apply nth_error_Some; rewrite I; discriminate).
      rewrite (nth_error_nth' _ 0%nat) in X by (rewrite seq_length; exact L). rewrite seq_nth in X by exact L. cbn in X. congruence. }
    rewrite nth_error_map, I. reflexivity.
  Qed.
  Lemma hcache_nth f : In f (all_faces p) -> nth_error hcache (nf_id f) = Some (entries nholder f).
  Proof. intros I. apply nth_by_id; [apply P|exact I]. Qed.
  Lemma scache_nth f : In f (n_local_faces p) \/ In f (n_ghost_faces p) -> nth_error scache (nf_id f) = Some (entries nsharer f).
  Proof.
    intros I. apply nth_by_id.
    - destruct ids_split as (E1 & E2 & _). rewrite map_app, E1, E2, app_length, seq_app. reflexivity.
    - apply in_or_app. exact I.
  Qed.

  (** what the operations on one point do *)
  Variable D : ncell -> nat -> nat -> R.
  Hypothesis HD : forall c, In c (n_local_cells p) ->
    meffect K N (divergence c (K * N * nc_id c)) (fun i j k => if_id (nc_id c) i (D c j k)).
  Variable G : contact -> nat -> nat -> R.
  Definition adds (t : contact) (i j k : nat) : R := if_id (nc_id (k_cell t)) i (G t j k).
  Hypothesis HP : forall t, In t (contacts at_node s p) ->
    meffect K N (put (k_holder t) (k_cell t) (k_face t) (k_point t) (ent (k_cell t) (k_face t) (k_point t)) (k_flux t)
                   (K * N * nc_id (k_cell t))) (adds t).
  Hypothesis HO : forall name t, In name (supersonic_outlet s) ->
    In t (flat_map (at_boundary at_node n_sup_out) (n_boundary_faces p name)) ->
    meffect K N (put_outlet (k_cell t) (k_face t) (k_point t) (ent (k_cell t) (k_face t) (k_point t)) (k_flux t)
                   (K * N * nc_id (k_cell t))) (adds t).

  Let n := nn_cells p.
  Notation eff := (effect K N n).
  Lemma cell_lt c : In c (n_local_cells p) -> (nc_id c < n)%nat.
  Proof. intros I. destruct P as (_ & H & _). apply H. exact I. Qed.

  Lemma div_effect : eff (divergences K N divergence p) (fun i j k => lsum (n_local_cells p) (fun c => if_id (nc_id c) i (D c j k))).
  Proof.
    apply (effect_foldM K N n _ (n_local_cells p) (fun c i j k => if_id (nc_id c) i (D c j k))). intros c I.
    apply (effect_memM K N n (nc_id c) (divergence c)); [apply cell_lt; exact I|apply HD; exact I].
  Qed.

  Lemma local_face_effect f : In f (n_local_faces p) ->
    eff (fun col => local_face K N entry node check put hcache scache p col f) (fun i j k => lsum (at_local at_node f) (fun t => adds t i j k)).
  Proof.
    intros I.
    assert (A : In f (all_faces p)) by (apply in_or_app; left; exact I).
    assert (Th : touches p (nholder f) f) by (left; auto).
    assert (Ts : touches p (nsharer f) f) by (right; auto).
    assert (Ch : In (nholder f) (n_local_cells p)) by (destruct P as (_ & _ & _ & H & _); apply H; exact A).
    assert (Cs : In (nsharer f) (n_local_cells p)) by (destruct P as (_ & _ & _ & _ & H & _); apply H; exact I).
    intros col S. unfold local_face. fold n.
    rewrite !(add_offset_some K N n) by (auto using cell_lt). cbn [bind].
    rewrite (hcache_nth f A), (scache_nth f (or_introl I)). cbn [bind].
    set (E := fun q i j k => adds (Contact (nholder f) f q true (upwind at_node f q)) i j k
                           + adds (Contact (nsharer f) f q false (upwind at_node f q)) i j k).
    assert (X : meffect K N (foldM (fun (m : mem) (q : nat) =>
        do a <- nth_error (entries nholder f) q; do b <- nth_error (entries nsharer f) q;
        (let u_holder := nc_value (nholder f) (node a) in
         let u_sharer := nc_value (nsharer f) (node b) in
         let flux := GetFluxUpwind (nf_riemann f q) u_holder u_sharer in
         if check a b then
           do m <- put true (nholder f) f q a flux (K * N * nc_id (nholder f)) m;
           put false (nsharer f) f q b flux (K * N * nc_id (nsharer f)) m
         else None)) (seq 0 (nf_points f))) (fun i j k => rsum (nf_points f) (fun q => E q i j k))).
    { apply meffect_seq. intros q L. unfold E.
      assert (It : forall b : bool, In (Contact (if b then nholder f else nsharer f) f q b (upwind at_node f q)) (contacts at_node s p)).
      { intros b. unfold contacts, inner_contacts. apply in_or_app. left. apply in_flat_map. exists f. split; [exact I|].
        unfold at_local. apply in_flat_map. exists q. split; [apply in_seq; lia|]. destruct b; cbn; auto. }
      pose proof (HP _ (It true)) as H1. pose proof (HP _ (It false)) as H2. cbn [k_holder k_cell k_face k_point k_flux] in H1, H2.
      intros m. rewrite !entries_nth by exact L. cbn [bind].
      destruct (Hent _ _ _ Th L) as [_ Nh]. destruct (Hent _ _ _ Ts L) as [_ Ns].
      rewrite (Hcheck f q (or_introl I) L), Nh, Ns. cbv zeta.
      exact (meffect_bind K N _ _ _ _ H1 H2 m). }
    destruct (X (at_ col)) as (m' & E' & V).
    match goal with |- context [bind ?e _] => replace e with (Some m') by (symmetry; exact E') end. cbn [bind]. eexists. split; [reflexivity|]. split; [exact S|].
    intros i j k J L. cbn [at_ with_mem]. rewrite V by assumption. f_equal.
    unfold at_local. rewrite lsum_flat_map, lsum_seq. apply rsum_ext. intros q _. unfold E. cbn [lsum]. ring.
  Qed.

  Lemma ghost_face_effect f : In f (n_ghost_faces p) ->
    eff (fun col => ghost_face K N entry node check put hcache scache p col f) (fun i j k => lsum (at_ghost at_node f) (fun t => adds t i j k)).
  Proof.
    intros I.
    assert (A : In f (all_faces p)) by (apply in_or_app; right; apply in_or_app; left; exact I).
    assert (Th : touches p (nholder f) f) by (left; auto).
    assert (Ts : touches p (nsharer f) f) by (right; auto).
    assert (Ch : In (nholder f) (n_local_cells p)) by (destruct P as (_ & _ & _ & H & _); apply H; exact A).
    intros col S. unfold ghost_face. fold n.
    rewrite !(add_offset_some K N n) by (auto using cell_lt). cbn [bind].
    rewrite (hcache_nth f A), (scache_nth f (or_intror I)). cbn [bind].
    set (E := fun q i j k => adds (Contact (nholder f) f q true (upwind at_node f q)) i j k).
    assert (X : meffect K N (foldM (fun (m : mem) (q : nat) =>
        do a <- nth_error (entries nholder f) q; do b <- nth_error (entries nsharer f) q;
        (let u_holder := nc_value (nholder f) (node a) in
         let u_sharer := nc_value (nsharer f) (node b) in
         let flux := GetFluxUpwind (nf_riemann f q) u_holder u_sharer in
         if check a b then put true (nholder f) f q a flux (K * N * nc_id (nholder f)) m else None)) (seq 0 (nf_points f)))
        (fun i j k => rsum (nf_points f) (fun q => E q i j k))).
    { apply meffect_seq. intros q L. unfold E.
      assert (It : In (Contact (nholder f) f q true (upwind at_node f q)) (contacts at_node s p)).
      { unfold contacts, ghost_contacts. apply in_or_app. right. apply in_or_app. right. apply in_flat_map. exists f. split; [exact I|].
        unfold at_ghost. apply in_map_iff. exists q. split; [reflexivity|apply in_seq; lia]. }
      pose proof (HP _ It) as H1. cbn [k_holder k_cell k_face k_point k_flux] in H1.
      intros m. rewrite !entries_nth by exact L. cbn [bind].
      destruct (Hent _ _ _ Th L) as [_ Nh]. destruct (Hent _ _ _ Ts L) as [_ Ns].
      rewrite (Hcheck f q (or_intror I) L), Nh, Ns. cbv zeta. exact (H1 m). }
    destruct (X (at_ col)) as (m' & E' & V).
    match goal with |- context [bind ?e _] => replace e with (Some m') by (symmetry; exact E') end. cbn [bind]. eexists. split; [reflexivity|]. split; [exact S|].
    intros i j k J L. cbn [at_ with_mem]. rewrite V by assumption. f_equal.
    unfold at_ghost. rewrite lsum_map, lsum_seq. reflexivity.
  Qed.

  Lemma boundary_face_effect put_it flux_at f : In f (n_boundary p) ->
    (forall t, In t (at_boundary at_node flux_at f) ->
       meffect K N (put_it (k_cell t) (k_face t) (k_point t) (ent (k_cell t) (k_face t) (k_point t)) (k_flux t)
                      (K * N * nc_id (k_cell t))%nat) (adds t)) ->
    eff (fun col => boundary_face K N entry node hcache p put_it flux_at col f)
      (fun i j k => lsum (at_boundary at_node flux_at f) (fun t => adds t i j k)).
  Proof.
    intros I Hp.
    assert (A : In f (all_faces p)) by (apply in_or_app; right; apply in_or_app; right; exact I).
    assert (Th : touches p (nholder f) f) by (left; auto).
    assert (Ch : In (nholder f) (n_local_cells p)) by (destruct P as (_ & _ & _ & H & _); apply H; exact A).
    intros col S. unfold boundary_face. fold n.
    rewrite !(add_offset_some K N n) by (auto using cell_lt). cbn [bind].
    rewrite (hcache_nth f A). cbn [bind].
    set (fl := fun q => flux_at (nf_riemann f q) (value_at at_node (nholder f) f q) (nf_coord f q)).
    set (E := fun q i j k => adds (Contact (nholder f) f q true (fl q)) i j k).
    assert (X : meffect K N (foldM (fun (m : mem) (q : nat) =>
        do a <- nth_error (entries nholder f) q;
        (let u_holder := nc_value (nholder f) (node a) in
         let flux := flux_at (nf_riemann f q) u_holder (nf_coord f q) in
         put_it (nholder f) f q a flux (K * N * nc_id (nholder f)) m)%nat) (seq 0 (nf_points f)))
        (fun i j k => rsum (nf_points f) (fun q => E q i j k))).
    { apply meffect_seq. intros q L. unfold E.
      assert (It : In (Contact (nholder f) f q true (fl q)) (at_boundary at_node flux_at f)).
      { unfold at_boundary. apply in_map_iff. exists q. split; [reflexivity|apply in_seq; lia]. }
      pose proof (Hp _ It) as H1. cbn [k_holder k_cell k_face k_point k_flux] in H1.
      intros m. rewrite !entries_nth by exact L. cbn [bind].
      destruct (Hent _ _ _ Th L) as [_ Nh]. rewrite Nh. cbv zeta. exact (H1 m). }
    destruct (X (at_ col)) as (m' & E' & V).
    match goal with |- context [bind ?e _] => replace e with (Some m') by (symmetry; exact E') end. cbn [bind]. eexists. split; [reflexivity|]. split; [exact S|].
    intros i j k J L. cbn [at_ with_mem]. rewrite V by assumption. f_equal.
    unfold at_boundary. rewrite lsum_map, lsum_seq. reflexivity.
  Qed.

  Definition cond_sum i j k (x : list nface * (riemann -> value -> vec -> value)) : R :=
    let '(fs, flux_at) := x in lsum (flat_map (at_boundary at_node flux_at) fs) (fun t => adds t i j k).

  Lemma faces_effect put_it flux_at fs : (forall f, In f fs -> In f (n_boundary p)) ->
    (forall t, In t (flat_map (at_boundary at_node flux_at) fs) ->
       meffect K N (put_it (k_cell t) (k_face t) (k_point t) (ent (k_cell t) (k_face t) (k_point t)) (k_flux t)
                      (K * N * nc_id (k_cell t))%nat) (adds t)) ->
    eff (foldM (boundary_face K N entry node hcache p put_it flux_at) fs) (fun i j k => cond_sum i j k (fs, flux_at)).
  Proof.
    intros B Hp. eapply effect_ext; [|apply (effect_foldM K N n _ fs (fun f i j k => lsum (at_boundary at_node flux_at f) (fun t => adds t i j k)))].
    - intros. unfold cond_sum. rewrite lsum_flat_map. reflexivity.
    - intros f I. apply boundary_face_effect; [apply B; exact I|]. intros t J. apply Hp. apply in_flat_map. exists f. auto.
  Qed.
  Lemma n_names_effect put_it flux_at names :
    (forall name t, In name names -> In t (flat_map (at_boundary at_node flux_at) (n_boundary_faces p name)) ->
       meffect K N (put_it (k_cell t) (k_face t) (k_point t) (ent (k_cell t) (k_face t) (k_point t)) (k_flux t)
                      (K * N * nc_id (k_cell t))%nat) (adds t)) ->
    eff (n_on_names K N entry node hcache p put_it flux_at names)
      (fun i j k => lsum (map (fun name => (n_boundary_faces p name, flux_at)) names) (cond_sum i j k)).
  Proof.
    intros Hp.
    eapply effect_ext; [|apply (effect_foldM K N n _ names (fun name i j k => cond_sum i j k (n_boundary_faces p name, flux_at)))].
    - intros. rewrite lsum_map. reflexivity.
    - intros name J. apply faces_effect; [|intros t; apply Hp; exact J]. destruct P as (_ & _ & _ & _ & _ & _ & B). apply B.
  Qed.
  Lemma n_pairs_effect put_it flux_at l :
    (forall name g t, In (name, g) l -> In t (flat_map (at_boundary at_node (flux_at g)) (n_boundary_faces p name)) ->
       meffect K N (put_it (k_cell t) (k_face t) (k_point t) (ent (k_cell t) (k_face t) (k_point t)) (k_flux t)
                      (K * N * nc_id (k_cell t))%nat) (adds t)) ->
    eff (n_on_pairs K N entry node hcache p put_it flux_at l)
      (fun i j k => lsum (map (fun '(name, g) => (n_boundary_faces p name, flux_at g)) l) (cond_sum i j k)).
  Proof.
    intros Hp.
    eapply effect_ext; [|apply (effect_foldM K N n _ l (fun x i j k => cond_sum i j k (n_boundary_faces p (fst x), flux_at (snd x))))].
    - intros. rewrite lsum_map. apply lsum_ext. intros [name g] _. reflexivity.
    - intros [name g] J. apply faces_effect; [|intros t; apply (Hp name g); exact J]. destruct P as (_ & _ & _ & _ & _ & _ & B). apply B.
  Qed.

  Lemma in_conditions fs flux_at t : In (fs, flux_at) (n_conditions s p) -> In t (flat_map (at_boundary at_node flux_at) fs) ->
    k_holder t = true /\ In t (contacts at_node s p).
  Proof.
    intros I J. split.
    - apply in_flat_map in J. destruct J as (f & _ & J). unfold at_boundary in J. apply in_map_iff in J.
      destruct J as (q & <- & _). reflexivity.
    - unfold contacts, boundary_contacts. apply in_or_app. right. apply in_or_app. left. apply in_flat_map.
      exists (fs, flux_at). auto.
  Qed.
  Lemma put_condition fs flux_at t : In (fs, flux_at) (n_conditions s p) -> In t (flat_map (at_boundary at_node flux_at) fs) ->
    meffect K N (put true (k_cell t) (k_face t) (k_point t) (ent (k_cell t) (k_face t) (k_point t)) (k_flux t)
                   (K * N * nc_id (k_cell t))) (adds t).
  Proof. intros I J. destruct (in_conditions _ _ _ I J) as [H C]. pose proof (HP t C) as X. rewrite H in X. exact X. Qed.

  Lemma boundaries_effect :
    eff (n_boundaries K N entry node put put_outlet hcache s p) (fun i j k => lsum (n_conditions s p) (cond_sum i j k)).
  Proof.
    eapply effect_ext; [|unfold n_boundaries;
      apply effect_bind; [apply (n_names_effect (put true) n_wall)|];
      [|apply effect_bind; [apply (n_pairs_effect (put true) (n_sup_in (t_curr s)))|]];
      [| |apply effect_bind; [apply (n_names_effect put_outlet n_sup_out)|]];
      [| | |apply effect_bind; [apply (n_pairs_effect (put true) (n_sub_in (t_curr s)))|]];
      [| | | |apply effect_bind; [apply (n_pairs_effect (put true) (n_sub_out (t_curr s)))|apply (n_pairs_effect (put true) (n_smart (t_curr s)))]]].
    - intros. unfold n_conditions. rewrite !lsum_app. ring.
    - intros name t I J. eapply put_condition; [|exact J]. unfold n_conditions. rewrite !in_app_iff. left.
      apply in_map_iff. exists name. auto.
    - intros name g t I J. eapply put_condition; [|exact J]. unfold n_conditions. rewrite !in_app_iff. right. left.
      apply in_map_iff. exists (name, g). auto.
    - exact HO.
    - intros name g t I J. eapply put_condition; [|exact J]. unfold n_conditions. rewrite !in_app_iff. do 3 right. left.
      apply in_map_iff. exists (name, g). auto.
    - intros name g t I J. eapply put_condition; [|exact J]. unfold n_conditions. rewrite !in_app_iff. do 4 right. left.
      apply in_map_iff. exists (name, g). auto.
    - intros name g t I J. eapply put_condition; [|exact J]. unfold n_conditions. rewrite !in_app_iff. do 5 right.
      apply in_map_iff. exists (name, g). auto.
  Qed.

  Theorem residual_main : exists r,
    residual_of K N entry node check put put_outlet divergence hcache scache s p = Some r
    /\ size r = (K * N * List.length (n_local_cells p))%nat
    /\ forall c j k, In c (n_local_cells p) -> (j < N)%nat -> (k < K)%nat ->
         at_ r (address K N (nc_id c) j k) = D c j k + of_cell c (contacts at_node s p) (fun t => G t j k).
  Proof.
    unfold residual_of. fold n. rewrite size_some. cbn [bind].
    assert (X : eff (fun residual => do residual <- divergences K N divergence p residual;
        do residual <- foldM (local_face K N entry node check put hcache scache p) (n_local_faces p) residual;
        do residual <- n_boundaries K N entry node put put_outlet hcache s p residual;
        foldM (ghost_face K N entry node check put hcache scache p) (n_ghost_faces p) residual)
      (fun i j k => lsum (n_local_cells p) (fun c => if_id (nc_id c) i (D c j k))
         + (lsum (n_local_faces p) (fun f => lsum (at_local at_node f) (fun t => adds t i j k))
         + (lsum (n_conditions s p) (cond_sum i j k)
         + lsum (n_ghost_faces p) (fun f => lsum (at_ghost at_node f) (fun t => adds t i j k)))))).
    { apply effect_bind; [apply div_effect|]. apply effect_bind.
      { apply (effect_foldM K N n _ (n_local_faces p) (fun f i j k => lsum (at_local at_node f) (fun t => adds t i j k))).
        apply local_face_effect. }
      apply effect_bind; [apply boundaries_effect|].
      apply (effect_foldM K N n _ (n_ghost_faces p) (fun f i j k => lsum (at_ghost at_node f) (fun t => adds t i j k))).
      apply ghost_face_effect. }
    destruct (X (Col (K * N * n) (fun _ => 0)) eq_refl) as (r & E & S & V). exists r. split; [exact E|]. split; [exact S|].
    intros c j k I J L. rewrite V by assumption. cbn [at_]. rewrite Rplus_0_l. f_equal.
    - rewrite <- (npick (n_local_cells p) c (fun c0 => D c0 j k)) by (auto; apply P).
      apply lsum_ext. intros. unfold if_id. rewrite Nat.eqb_sym. reflexivity.
    - unfold of_cell, contacts. rewrite !lsum_app. f_equal; [|f_equal].
      + unfold inner_contacts. rewrite lsum_flat_map. reflexivity.
      + unfold boundary_contacts. rewrite lsum_flat_map. apply lsum_ext. intros [fs fl] _. reflexivity.
      + unfold ghost_contacts. rewrite lsum_flat_map. reflexivity.
  Qed.
End Scheme.
