From Coq Require Import Reals List Arith Lia Lra Bool String.
From Verif Require Import Vec3 Arrays RSum Model_Dofs Model_DG Spec_DG Proof_Dofs.
Import ListNotations.
Open Scope R_scope.

(** ** Sums over lists *)
Lemma lsum_ext {A} (l : list A) f g : (forall x, In x l -> f x = g x) -> lsum l f = lsum l g.
Proof.
  induction l as [|a l IH]; intros H; cbn; [reflexivity|].
  rewrite (H a (or_introl eq_refl)), IH; [reflexivity|]. intros; apply H; right; assumption.
Qed.
Lemma lsum_app {A} (l l' : list A) f : lsum (l ++ l') f = lsum l f + lsum l' f.
Proof. induction l as [|a l IH]; cbn; [ring|]. rewrite IH. ring. Qed.
Lemma lsum_map {A B} (g : A -> B) l f : lsum (map g l) f = lsum l (fun x => f (g x)).
Proof. induction l as [|a l IH]; cbn; [reflexivity|]. rewrite IH. reflexivity. Qed.
Lemma lsum_zero {A} (l : list A) : lsum l (fun _ => 0) = 0.
Proof. induction l as [|a l IH]; cbn; [reflexivity|]. rewrite IH. ring. Qed.
Lemma lsum_add {A} (l : list A) f g : lsum l (fun x => f x + g x) = lsum l f + lsum l g.
Proof. induction l as [|a l IH]; cbn; [ring|]. rewrite IH. ring. Qed.
Lemma lsum_sub {A} (l : list A) f g : lsum l (fun x => f x - g x) = lsum l f - lsum l g.
Proof. induction l as [|a l IH]; cbn; [ring|]. rewrite IH. ring. Qed.
Lemma lsum_opp {A} (l : list A) f : lsum l (fun x => - f x) = - lsum l f.
Proof. induction l as [|a l IH]; cbn; [ring|]. rewrite IH. ring. Qed.
Lemma lsum_mul_r {A} (l : list A) f c : lsum l (fun x => f x * c) = lsum l f * c.
Proof. induction l as [|a l IH]; cbn; [ring|]. rewrite IH. ring. Qed.
Lemma lsum_swap {A B} (l : list A) (l' : list B) f :
  lsum l (fun x => lsum l' (fun y => f x y)) = lsum l' (fun y => lsum l (fun x => f x y)).
Proof.
  induction l as [|a l IH]; cbn; [symmetry; apply lsum_zero|]. rewrite IH, <- lsum_add. reflexivity.
Qed.
(** exactly one cell of a list with distinct numbers has the number of a given member *)
Lemma lsum_pick (l : list cell) h (g : cell -> R) :
  NoDup (map c_id l) -> In h l -> lsum l (fun c => if_id (c_id h) (c_id c) (g c)) = g h.
Proof.
  induction l as [|a l IH]; intros D I; [contradiction|]. cbn [map] in D. apply NoDup_cons_iff in D. destruct D as [D1 D2].
  cbn [lsum]. destruct I as [->|I].
  - unfold if_id at 1. rewrite Nat.eqb_refl. rewrite (lsum_ext l _ (fun _ => 0)).
    + rewrite lsum_zero. ring.
    + intros c J. unfold if_id. destruct (Nat.eqb_spec (c_id h) (c_id c)) as [E|E]; [|reflexivity].
      elim D1. rewrite E. apply in_map. exact J.
  - unfold if_id at 1. destruct (Nat.eqb_spec (c_id h) (c_id a)) as [E|E].
    + elim D1. rewrite <- E. apply in_map. exact I.
    + rewrite Rplus_0_l. apply IH; assumption.
Qed.
Lemma same_cell (l : list cell) a b : NoDup (map c_id l) -> In a l -> In b l -> c_id a = c_id b -> a = b.
Proof.
  induction l as [|x l IH]; intros D A B E; [contradiction|]. cbn [map] in D. apply NoDup_cons_iff in D. destruct D as [D1 D2].
  destruct A as [->|A], B as [->|B]; auto.
  - elim D1. rewrite E. apply in_map. exact B.
  - elim D1. rewrite <- E. apply in_map. exact A.
Qed.

Section DG.
  Variables K N : nat.

  (** ** Effects on memory *)
  Definition mem_effect (g : (nat -> R) -> nat -> R) (E : nat -> nat -> nat -> R) : Prop :=
    forall m i j k, (j < N)%nat -> (k < K)%nat ->
      g m (address K N i j k) = m (address K N i j k) + E i j k.

  Lemma add_effect x id : mem_effect (AddCoeffTo K N x (K * N * id)) (fun i j k => if_id id i (x k j)).
  Proof.
    intros m i j k J L. unfold AddCoeffTo. rewrite for_each_address by assumption. unfold if_id.
    destruct (id =? i)%nat; ring.
  Qed.
  Lemma minus_effect x id : mem_effect (MinusCoeff K N x (K * N * id)) (fun i j k => - if_id id i (x k j)).
  Proof.
    intros m i j k J L. unfold MinusCoeff. rewrite for_each_address by assumption. unfold if_id.
    destruct (id =? i)%nat; ring.
  Qed.
  Lemma for_q_effect n body E : (forall q, mem_effect (fun m => body m q) (E q)) ->
    mem_effect (for_q n body) (fun i j k => rsum n (fun q => E q i j k)).
  Proof.
    intros H m i j k J L. unfold for_q. induction n as [|n IH]; [cbn; ring|].
    rewrite seq_S, fold_left_app. cbn [fold_left rsum]. rewrite Nat.add_0_l.
    pose proof (H n (fold_left body (seq 0 n) m) i j k J L) as X. cbv beta in X. rewrite X, IH. ring.
  Qed.
  Lemma comp_effect g h E F : mem_effect g E -> mem_effect h F ->
    mem_effect (fun m => h (g m)) (fun i j k => E i j k + F i j k).
  Proof. intros G H m i j k J L. rewrite (H _ i j k J L), (G _ i j k J L). ring. Qed.

  (** ** Effects on columns *)
  Variable n : nat.
  Definition effect (op : column -> option column) (E : nat -> nat -> nat -> R) : Prop :=
    forall col, size col = (K * N * n)%nat ->
      exists col', op col = Some col' /\ size col' = (K * N * n)%nat
        /\ forall i j k, (j < N)%nat -> (k < K)%nat ->
             at_ col' (address K N i j k) = at_ col (address K N i j k) + E i j k.

  Lemma effect_ext op E F : (forall i j k, (j < N)%nat -> (k < K)%nat -> E i j k = F i j k) -> effect op E -> effect op F.
  Proof.
    intros X H col S. destruct (H col S) as (col' & a & b & c). exists col'. repeat split; auto.
    intros. rewrite c, X; auto.
  Qed.
  Lemma effect_none : effect Some (fun _ _ _ => 0).
  Proof. intros col S. exists col. repeat split; auto. intros. ring. Qed.
  Lemma effect_bind op op' E F : effect op E -> effect op' F ->
    effect (fun col => do col <- op col; op' col) (fun i j k => E i j k + F i j k).
  Proof.
    intros H G col S. destruct (H col S) as (c1 & -> & S1 & V1). cbn.
    destruct (G c1 S1) as (c2 & -> & S2 & V2). exists c2. repeat split; auto.
    intros. rewrite V2, V1 by assumption. ring.
  Qed.
  Lemma effect_foldM {A} (f : column -> A -> option column) (l : list A) E :
    (forall x, In x l -> effect (fun col => f col x) (E x)) ->
    effect (foldM f l) (fun i j k => lsum l (fun x => E x i j k)).
  Proof.
    induction l as [|x l IH]; intros H.
    - apply effect_none.
    - cbn [foldM]. apply (effect_bind (fun col => f col x) (foldM f l) (E x)).
      + apply H. left. reflexivity.
      + apply IH. intros y I. apply H. right. exact I.
  Qed.
  Lemma effect_mem id g E : (id < n)%nat -> (forall data, data = (K * N * id)%nat -> mem_effect (g data) E) ->
    effect (fun col => do data <- AddCellDataOffset K N n col id; Some (with_mem col (g data (at_ col)))) E.
  Proof.
    intros L H col S. rewrite (add_offset_some K N n) by assumption. cbn. eexists. split; [reflexivity|].
    split; [exact S|]. intros. cbn [at_ with_mem]. apply H; auto.
  Qed.
  Lemma effect_mem2 id id' g E : (id < n)%nat -> (id' < n)%nat ->
    (forall d d', d = (K * N * id)%nat -> d' = (K * N * id')%nat -> mem_effect (g d d') E) ->
    effect (fun col => do d <- AddCellDataOffset K N n col id; do d' <- AddCellDataOffset K N n col id';
                       Some (with_mem col (g d d' (at_ col)))) E.
  Proof.
    intros L L' H col S. rewrite !(add_offset_some K N n) by assumption. cbn. eexists. split; [reflexivity|].
    split; [exact S|]. intros. cbn [at_ with_mem]. apply H; auto.
  Qed.
End DG.

Section Residual.
  Variables K N kDegrees : nat.
  Variable s : fem.
  Variable p : part.
  Hypothesis P : part_ok p.
  Let n := n_cells p.
  Notation eff := (effect K N n).

  Lemma id_lt c : In c (local_cells p) -> (c_id c < n)%nat.
  Proof. apply P. Qed.

  Lemma divergence_effect :
    eff (AddFluxDivergence K N kDegrees p)
      (fun i j k => if (0 <? kDegrees)%nat then lsum (local_cells p) (fun c => if_id (c_id c) i (volume_term c j k)) else 0).
  Proof.
    unfold AddFluxDivergence. destruct (0 <? kDegrees)%nat; [|apply effect_none].
    unfold AddFluxDivergence_base.
    apply (effect_foldM K N n _ (local_cells p) (fun c i j k => if_id (c_id c) i (volume_term c j k))). intros c I.
    eapply effect_ext; [|apply (effect_mem K N n (c_id c) (fun d => AddFluxDivergence_cell K N c d)
      (fun i j k => rsum (c_points c) (fun q =>
         if_id (c_id c) i (dot (vscale (c_weight c q) (c_flux c q k)) (c_gradients c (c_coord c q) j)))))].
    - intros i j k _ _. unfold if_id, volume_term. destruct (c_id c =? i)%nat; [|apply rsum_0].
      apply rsum_ext. intros q _. unfold dot, vscale. cbn. ring.
    - apply id_lt. exact I.
    - intros d ->. unfold AddFluxDivergence_cell.
      apply (for_q_effect K N (c_points c) _ (fun q i j k =>
        if_id (c_id c) i (dot (vscale (c_weight c q) (c_flux c q k)) (c_gradients c (c_coord c q) j)))).
      intros q. apply (add_effect K N (fun r j => dot (vscale (c_weight c q) (c_flux c q r)) (c_gradients c (c_coord c q) j))).
  Qed.

  Lemma local_effect :
    eff (AddFluxOnLocalFaces K N p)
      (fun i j k => lsum (local_faces p) (fun f =>
         - if_id (c_id (holder f)) i (face_term upwind_at (holder f) j k f)
         + if_id (c_id (sharer f)) i (face_term upwind_at (sharer f) j k f))).
  Proof.
    unfold AddFluxOnLocalFaces.
    apply (effect_foldM K N n _ (local_faces p) (fun f i j k =>
      - if_id (c_id (holder f)) i (face_term upwind_at (holder f) j k f)
      + if_id (c_id (sharer f)) i (face_term upwind_at (sharer f) j k f))).
    intros f I. destruct P as (_ & _ & PL & _). destruct (PL f I) as [Ih Is].
    unfold AddFluxOnLocalFace.
    set (E := fun q i j k =>
      - if_id (c_id (holder f)) i (outer (scale (f_weight f q) (upwind_at f q)) (c_basis (holder f) (f_coord f q)) k j)
      + if_id (c_id (sharer f)) i (outer (scale (f_weight f q) (upwind_at f q)) (c_basis (sharer f) (f_coord f q)) k j)).
    eapply effect_ext; [|apply (effect_mem2 K N n (c_id (holder f)) (c_id (sharer f))
      (fun hd sd => for_q (f_points f) (fun m q =>
        AddCoeffTo K N (outer (scale (f_weight f q) (upwind_at f q)) (c_basis (sharer f) (f_coord f q))) sd
          (MinusCoeff K N (outer (scale (f_weight f q) (upwind_at f q)) (c_basis (holder f) (f_coord f q))) hd m)))
      (fun i j k => rsum (f_points f) (fun q => E q i j k)))].
    - intros i j k _ _. unfold E. cbv beta. rewrite rsum_add, rsum_opp. unfold if_id, face_term, outer, scale.
      f_equal; [f_equal|]; (destruct (_ =? i)%nat; [|apply rsum_0]; apply rsum_ext; intros; ring).
    - apply id_lt; exact Ih.
    - apply id_lt; exact Is.
    - intros d d' -> ->. apply for_q_effect. intros q. unfold E.
      apply (comp_effect K N (MinusCoeff K N _ _) (AddCoeffTo K N _ _)); [apply minus_effect|apply add_effect].
  Qed.

  Lemma minus_face_effect flux_at f : In (holder f) (local_cells p) ->
    eff (fun col => minus_on_face K N p flux_at col f)
      (fun i j k => - if_id (c_id (holder f)) i (face_term flux_at (holder f) j k f)).
  Proof.
    intros I. unfold minus_on_face.
    eapply effect_ext; [|apply (effect_mem K N n (c_id (holder f))
      (fun hd => for_q (f_points f) (fun m q =>
        MinusCoeff K N (outer (scale (f_weight f q) (flux_at f q)) (c_basis (holder f) (f_coord f q))) hd m))
      (fun i j k => rsum (f_points f) (fun q =>
        - if_id (c_id (holder f)) i (outer (scale (f_weight f q) (flux_at f q)) (c_basis (holder f) (f_coord f q)) k j))))].
    - intros i j k _ _. cbv beta. rewrite rsum_opp. unfold if_id, face_term, outer, scale.
      f_equal. destruct (_ =? i)%nat; [|apply rsum_0]. apply rsum_ext; intros; ring.
    - apply id_lt; exact I.
    - intros d ->. apply (for_q_effect K N (f_points f) _ (fun q i j k =>
        - if_id (c_id (holder f)) i (outer (scale (f_weight f q) (flux_at f q)) (c_basis (holder f) (f_coord f q)) k j))).
      intros q. apply minus_effect.
  Qed.

  Lemma ghost_effect :
    eff (AddFluxOnGhostFaces K N p)
      (fun i j k => lsum (ghost_faces p) (fun f => - if_id (c_id (holder f)) i (face_term upwind_at (holder f) j k f))).
  Proof.
    apply (effect_foldM K N n _ (ghost_faces p) (fun f i j k => - if_id (c_id (holder f)) i (face_term upwind_at (holder f) j k f))).
    intros f I. apply minus_face_effect. apply P. exact I.
  Qed.

  Definition cond_term i j k (x : list face * (face -> nat -> value)) : R :=
    let '(fs, flux_at) := x in lsum fs (fun f => - if_id (c_id (holder f)) i (face_term flux_at (holder f) j k f)).

  Lemma names_effect flux_at names :
    eff (on_names K N p flux_at names)
      (fun i j k => lsum (map (fun name => (boundary_faces p name, flux_at)) names) (cond_term i j k)).
  Proof.
    eapply effect_ext; [|apply (effect_foldM K N n _ names (fun name i j k => cond_term i j k (boundary_faces p name, flux_at)))].
    - intros. rewrite lsum_map. reflexivity.
    - intros name _. cbn [cond_term].
      apply (effect_foldM K N n _ (boundary_faces p name)
        (fun f i j k => - if_id (c_id (holder f)) i (face_term flux_at (holder f) j k f))).
      intros f I. apply minus_face_effect. destruct P as (_ & _ & _ & _ & B). exact (B name f I).
  Qed.
  Lemma pairs_effect flux_at l :
    eff (on_pairs K N p flux_at l)
      (fun i j k => lsum (map (fun '(name, g) => (boundary_faces p name, flux_at g)) l) (cond_term i j k)).
  Proof.
    eapply effect_ext; [|apply (effect_foldM K N n _ l (fun x i j k => cond_term i j k (boundary_faces p (fst x), flux_at (snd x))))].
    - intros. rewrite lsum_map. apply lsum_ext. intros [name g] _. reflexivity.
    - intros [name g] _. cbn [cond_term fst snd].
      apply (effect_foldM K N n _ (boundary_faces p name)
        (fun f i j k => - if_id (c_id (holder f)) i (face_term (flux_at g) (holder f) j k f))).
      intros f I. apply minus_face_effect. destruct P as (_ & _ & _ & _ & B). exact (B name f I).
  Qed.

  Lemma boundary_effect :
    eff (AddFluxOnBoundaries K N s p) (fun i j k => lsum (conditions s p) (cond_term i j k)).
  Proof.
    eapply effect_ext; [|unfold AddFluxOnBoundaries;
      apply effect_bind; [apply names_effect|];
      apply effect_bind; [apply pairs_effect|];
      apply effect_bind; [apply names_effect|];
      apply effect_bind; [apply pairs_effect|];
      apply effect_bind; [apply pairs_effect|]; apply pairs_effect].
    intros. unfold conditions. rewrite !lsum_app. ring.
  Qed.

  (** the residual of one cell, with the basis of the faces' own cells *)
  Definition total i j k : R :=
    (if (0 <? kDegrees)%nat then lsum (local_cells p) (fun c => if_id (c_id c) i (volume_term c j k)) else 0)
    + (lsum (local_faces p) (fun f =>
         - if_id (c_id (holder f)) i (face_term upwind_at (holder f) j k f)
         + if_id (c_id (sharer f)) i (face_term upwind_at (sharer f) j k f))
    + (lsum (conditions s p) (cond_term i j k)
    + lsum (ghost_faces p) (fun f => - if_id (c_id (holder f)) i (face_term upwind_at (holder f) j k f)))).

  Lemma residual_total : exists r, GetResidualColumn K N kDegrees s p = Some r /\ size r = (K * N * n)%nat
    /\ forall i j k, (j < N)%nat -> (k < K)%nat -> at_ r (address K N i j k) = total i j k.
  Proof.
    unfold GetResidualColumn. rewrite size_some. cbn [bind].
    assert (X : eff (fun residual => do residual <- AddFluxDivergence K N kDegrees p residual;
        do residual <- AddFluxOnLocalFaces K N p residual;
        do residual <- AddFluxOnBoundaries K N s p residual; AddFluxOnGhostFaces K N p residual) total).
    { unfold total. apply effect_bind; [apply divergence_effect|]. apply effect_bind; [apply local_effect|].
      apply effect_bind; [apply boundary_effect|apply ghost_effect]. }
    destruct (X (Col (K * N * n) (fun _ => 0)) eq_refl) as (r & E & S & V). exists r. split; [exact E|]. split; [exact S|].
    intros. rewrite V by assumption. cbn. ring.
  Qed.

  Lemma swap_cell flux_at c h j k f : In c (local_cells p) -> In h (local_cells p) ->
    if_id (c_id h) (c_id c) (face_term flux_at h j k f) = if_id (c_id h) (c_id c) (face_term flux_at c j k f).
  Proof.
    intros I J. unfold if_id. destruct (Nat.eqb_spec (c_id h) (c_id c)) as [E|E]; [|reflexivity].
    rewrite (same_cell (local_cells p) h c); auto. apply P.
  Qed.

  Lemma condition_holder fs flux_at f : In (fs, flux_at) (conditions s p) -> In f fs -> In (holder f) (local_cells p).
  Proof.
    intros I J. destruct P as (_ & _ & _ & _ & B). unfold conditions in I.
    rewrite !in_app_iff, !in_map_iff in I.
    repeat match type of I with _ \/ _ => destruct I as [I|I] end;
      destruct I as (x & E & _); try destruct x; try (apply (f_equal fst) in E; cbn in E; subst fs);
      eapply B; exact J.
  Qed.

  Lemma total_weak c j k : In c (local_cells p) -> total (c_id c) j k = weak_form kDegrees s p c j k.
  Proof.
    intros I. unfold total, weak_form. destruct P as (D & _ & PL & PG & _).
    replace (if (0 <? kDegrees)%nat then lsum (local_cells p) (fun c0 => if_id (c_id c0) (c_id c) (volume_term c0 j k)) else 0)
      with (if (0 <? kDegrees)%nat then volume_term c j k else 0).
    2: { destruct (0 <? kDegrees)%nat; [|reflexivity].
         rewrite <- (lsum_pick (local_cells p) c (fun c0 => volume_term c0 j k)) by assumption.
         apply lsum_ext. intros. unfold if_id. rewrite Nat.eqb_sym. reflexivity. }
    rewrite lsum_add, lsum_opp, lsum_opp.
    rewrite (lsum_ext (local_faces p) (fun f => if_id (c_id (holder f)) (c_id c) (face_term upwind_at (holder f) j k f))
      (fun f => if_id (c_id (holder f)) (c_id c) (face_term upwind_at c j k f)))
      by (intros f J; apply swap_cell; [exact I|apply PL; exact J]).
    rewrite (lsum_ext (local_faces p) (fun f => if_id (c_id (sharer f)) (c_id c) (face_term upwind_at (sharer f) j k f))
      (fun f => if_id (c_id (sharer f)) (c_id c) (face_term upwind_at c j k f)))
      by (intros f J; apply swap_cell; [exact I|apply PL; exact J]).
    rewrite (lsum_ext (ghost_faces p) (fun f => if_id (c_id (holder f)) (c_id c) (face_term upwind_at (holder f) j k f))
      (fun f => if_id (c_id (holder f)) (c_id c) (face_term upwind_at c j k f)))
      by (intros f J; apply swap_cell; [exact I|apply PG; exact J]).
    rewrite (lsum_ext (conditions s p) (cond_term (c_id c) j k)
      (fun x => - (let '(fs, flux_at) := x in lsum fs (fun f => if_id (c_id (holder f)) (c_id c) (face_term flux_at c j k f))))).
    - rewrite lsum_opp.
      replace (lsum (conditions s p) (fun x => let '(fs, flux_at) := x in _)) with
        (lsum (conditions s p) (fun '(fs, flux_at) => lsum fs (fun f => if_id (c_id (holder f)) (c_id c) (face_term flux_at c j k f))))
        by reflexivity.
      ring.
    - intros [fs flux_at] J. cbn [cond_term]. rewrite lsum_opp. f_equal. apply lsum_ext. intros f JJ.
      apply swap_cell; [exact I|]. eapply condition_holder; eassumption.
  Qed.

  Theorem weak_form_main : exists r, GetResidualColumn K N kDegrees s p = Some r
    /\ size r = (K * N * List.length (local_cells p))%nat
    /\ forall c j k, In c (local_cells p) -> (j < N)%nat -> (k < K)%nat ->
         at_ r (address K N (c_id c) j k) = weak_form kDegrees s p c j k.
  Proof.
    destruct residual_total as (r & E & S & V). exists r. split; [exact E|]. split; [exact S|].
    intros. rewrite V by assumption. apply total_weak. assumption.
  Qed.

  (** ** Conservation *)
  Hypothesis B : forall c, In c (local_cells p) -> basis_ok N c.
  Hypothesis NP : (0 < N)%nat.

  Lemma integral_first r c k phi : phi <> 0 -> (forall x, c_basis c x 0%nat = phi) ->
    (forall j, (j < N)%nat ->
      rsum (c_points c) (fun q => c_weight c q * (c_basis c (c_coord c q) 0%nat * c_basis c (c_coord c q) j))
      = if (j =? 0)%nat then 1 else 0) ->
    cell_integral K N r k c = at_ r (address K N (c_id c) 0 k) / phi.
  Proof.
    intros Z C O. unfold cell_integral.
    rewrite (rsum_ext _ _ (fun q => rsum N (fun j => at_ r (address K N (c_id c) j k) * (c_weight c q * c_basis c (c_coord c q) j)))).
    2: { intros q _. rewrite <- rsum_mul_l. apply rsum_ext. intros. ring. }
    rewrite rsum_swap.
    rewrite (rsum_ext _ _ (fun j => at_ r (address K N (c_id c) j k) * ((if (j =? 0)%nat then 1 else 0) / phi))).
    - rewrite (rsum_single N 0%nat).
      + cbn. field. exact Z.
      + exact NP.
      + intros j _ J. apply Nat.eqb_neq in J. rewrite J. field. exact Z.
    - intros j L. rewrite rsum_mul_l. f_equal. rewrite <- (O j L).
      rewrite (rsum_ext _ (fun q => c_weight c q * (c_basis c (c_coord c q) 0%nat * c_basis c (c_coord c q) j))
        (fun q => phi * (c_weight c q * c_basis c (c_coord c q) j))).
      + rewrite rsum_mul_l. field. exact Z.
      + intros q _. rewrite C. ring.
  Qed.

  Lemma face_term_first flux_at c k f phi : (forall x, c_basis c x 0%nat = phi) ->
    face_term flux_at c 0 k f = flux_through flux_at k f * phi.
  Proof.
    intros C. unfold face_term, flux_through. rewrite <- rsum_mul_r. apply rsum_ext. intros. rewrite C. reflexivity.
  Qed.

  Lemma volume_first c k : (forall x, c_gradients c x 0%nat = v0) -> volume_term c 0 k = 0.
  Proof. intros G. unfold volume_term. apply rsum_zero. intros q _. rewrite G. unfold dot, v0. cbn. ring. Qed.

  (** the balance of one cell *)
  Definition balance (c : cell) k : R :=
    - lsum (local_faces p) (fun f => if_id (c_id (holder f)) (c_id c) (flux_through upwind_at k f))
    + lsum (local_faces p) (fun f => if_id (c_id (sharer f)) (c_id c) (flux_through upwind_at k f))
    - lsum (conditions s p) (fun '(fs, flux_at) =>
        lsum fs (fun f => if_id (c_id (holder f)) (c_id c) (flux_through flux_at k f)))
    - lsum (ghost_faces p) (fun f => if_id (c_id (holder f)) (c_id c) (flux_through upwind_at k f)).

  Lemma if_id_mul i j x c : if_id i j (x * c) = if_id i j x * c.
  Proof. unfold if_id. destruct (i =? j)%nat; ring. Qed.

  Lemma cell_balance r c k :
    (forall j, (j < N)%nat -> at_ r (address K N (c_id c) j k) = weak_form kDegrees s p c j k) ->
    In c (local_cells p) -> cell_integral K N r k c = balance c k.
  Proof.
    intros V I. destruct (B c I) as (phi & Z & C & G & O).
    rewrite (integral_first r c k phi Z C O), V by exact NP. unfold weak_form, balance.
    rewrite (volume_first c k G).
    rewrite (lsum_ext (local_faces p) (fun f => if_id (c_id (holder f)) (c_id c) (face_term upwind_at c 0 k f))
      (fun f => if_id (c_id (holder f)) (c_id c) (flux_through upwind_at k f) * phi))
      by (intros f _; rewrite (face_term_first _ _ _ _ phi C); apply if_id_mul).
    rewrite (lsum_ext (local_faces p) (fun f => if_id (c_id (sharer f)) (c_id c) (face_term upwind_at c 0 k f))
      (fun f => if_id (c_id (sharer f)) (c_id c) (flux_through upwind_at k f) * phi))
      by (intros f _; rewrite (face_term_first _ _ _ _ phi C); apply if_id_mul).
    rewrite (lsum_ext (ghost_faces p) (fun f => if_id (c_id (holder f)) (c_id c) (face_term upwind_at c 0 k f))
      (fun f => if_id (c_id (holder f)) (c_id c) (flux_through upwind_at k f) * phi))
      by (intros f _; rewrite (face_term_first _ _ _ _ phi C); apply if_id_mul).
    rewrite (lsum_ext (conditions s p)
      (fun '(fs, flux_at) => lsum fs (fun f => if_id (c_id (holder f)) (c_id c) (face_term flux_at c 0 k f)))
      (fun x => (let '(fs, flux_at) := x in lsum fs (fun f => if_id (c_id (holder f)) (c_id c) (flux_through flux_at k f))) * phi)).
    2: { intros [fs flux_at] _. rewrite <- lsum_mul_r. apply lsum_ext. intros f _.
         rewrite (face_term_first _ _ _ _ phi C). apply if_id_mul. }
    rewrite !lsum_mul_r.
    replace (lsum (conditions s p) (fun x => let '(fs, flux_at) := x in _)) with
      (lsum (conditions s p) (fun '(fs, flux_at) => lsum fs (fun f => if_id (c_id (holder f)) (c_id c) (flux_through flux_at k f))))
      by reflexivity.
    destruct (0 <? kDegrees)%nat; field; exact Z.
  Qed.

  Lemma sum_faces (l : list face) (pick : face -> cell) flux_at k :
    (forall f, In f l -> In (pick f) (local_cells p)) ->
    lsum (local_cells p) (fun c => lsum l (fun f => if_id (c_id (pick f)) (c_id c) (flux_through flux_at k f)))
    = lsum l (flux_through flux_at k).
  Proof.
    intros H. rewrite lsum_swap. apply lsum_ext. intros f I.
    apply (lsum_pick (local_cells p) (pick f) (fun _ => flux_through flux_at k f)); [apply P|apply H; exact I].
  Qed.

  Theorem conservation_main r : GetResidualColumn K N kDegrees s p = Some r -> forall k, (k < K)%nat ->
    lsum (local_cells p) (cell_integral K N r k)
    = - lsum (conditions s p) (fun '(fs, flux_at) => lsum fs (flux_through flux_at k))
      - lsum (ghost_faces p) (flux_through upwind_at k).
  Proof.
    intros E k L. destruct weak_form_main as (r' & E' & _ & V). rewrite E in E'.
    assert (r' = r) as -> by congruence.
    rewrite (lsum_ext _ _ (fun c => balance c k)) by (intros c I; apply cell_balance; [intros; apply V; assumption|exact I]).
    unfold balance. rewrite !lsum_sub, lsum_add, lsum_opp.
    pose proof P as (_ & _ & PL & PG & _).
    rewrite (sum_faces (local_faces p) holder) by (intros; apply PL; assumption).
    rewrite (sum_faces (local_faces p) sharer) by (intros; apply PL; assumption).
    rewrite (sum_faces (ghost_faces p) holder) by assumption.
    rewrite lsum_swap.
    rewrite (lsum_ext (conditions s p) _ (fun x => let '(fs, flux_at) := x in lsum fs (flux_through flux_at k))).
    - replace (lsum (conditions s p) (fun x => let '(fs, flux_at) := x in _)) with
        (lsum (conditions s p) (fun '(fs, flux_at) => lsum fs (flux_through flux_at k))) by reflexivity.
      ring.
    - intros [fs flux_at] I. apply (sum_faces fs holder). intros f J. eapply condition_holder; eassumption.
  Qed.
End Residual.
