(** How the faces of the processes fit together. *)
From Coq Require Import List Arith ZArith Lia Permutation String.
From Verif Require Import Arrays Model_Cgns Model_Mapper Model_Metis Model_Partition Model_Part
  Model_PartFaces Spec_Mesh Spec_Metis Spec_Partition Spec_Part Spec_PartFaces Proof_Pipeline Proof_PartFaces.
Import ListNotations.
Local Open Scope nat_scope.

Local Notation length := List.length.

Lemma mapM_perm {X Y} (g : X -> option Y) l l' : Permutation l l' -> forall r, mapM g l = Some r ->
  exists r', mapM g l' = Some r' /\ Permutation r r'.
Proof.
  induction 1 as [|x l l' P IH|x y l|l l' l'' P IH P' IH']; simpl; intros r E.
  - inversion E; subst. exists []. auto.
  - destruct (g x) as [a|]; [|discriminate]. cbn [bind] in *. destruct (mapM g l) as [t|]; [|discriminate].
    cbn [bind] in *. inversion E; subst. destruct (IH t eq_refl) as (r' & -> & Pr). cbn [bind].
    exists (a :: r'). auto.
  - destruct (g y) as [b|]; [|discriminate]. cbn [bind] in *. destruct (g x) as [a|]; [|discriminate].
    cbn [bind] in *. destruct (mapM g l) as [t|]; [|discriminate]. cbn [bind] in *. inversion E; subst.
    exists (a :: b :: t). split; auto. constructor.
  - destruct (IH r E) as (r1 & E1 & P1). destruct (IH' r1 E1) as (r2 & E2 & P2). exists r2. split; auto.
    eapply Permutation_trans; eauto.
Qed.

(** two faces between the same cells, whoever holds them *)
Lemma same_face {A} (zs : list (Zone A)) mp F F' i j : face_between zs mp F i j -> face_between zs mp F' j i ->
  f_zone F' = f_zone F /\ Permutation (f_nodes F') (f_nodes F) /\ Permutation (f_coords F') (f_coords F).
Proof.
  intros (_ & _ & ri & rj & C1 & C2 & N & H & _ & M) (_ & _ & rj' & ri' & C1' & C2' & N' & H' & _ & M').
  rewrite C1 in C2'. rewrite C2 in C1'. inversion C2'; subst. inversion C1'; subst.
  assert (P : Permutation (f_nodes F') (f_nodes F)).
  { apply NoDup_Permutation; auto. intros k. rewrite H, H'. tauto. }
  split; auto. split; auto. destruct (mapM_perm _ _ _ P _ M') as (r & E & Pr).
  match goal with Z : f_zone F = f_zone F' |- _ => rewrite <- Z in E | Z : f_zone F' = f_zone F |- _ => rewrite Z in E end.
  rewrite M in E. inversion E; subst. auto.
Qed.

Lemma pair_of {A} (zs : list (Zone A)) mp (l : list (@PartFace A)) i j :
  (forall F, In F l -> exists i j, face_between zs mp F i j) -> In (i, Some j) (map face_pair l) ->
  exists F, In F l /\ face_between zs mp F i j.
Proof.
  intros H I. apply in_map_iff in I. destruct I as (F & E & HF). exists F. split; auto.
  destruct (H F HF) as (i' & j' & B). pose proof B as (B1 & B2 & _). unfold face_pair in E. injection E as E1 E2.
  assert (i' = i) by congruence. assert (j' = j) by congruence. congruence.
Qed.

Lemma pair_in {A} (zs : list (Zone A)) mp (l : list (@PartFace A)) F i j : In F l -> face_between zs mp F i j ->
  In (i, Some j) (map face_pair l).
Proof. intros H (E1 & E2 & _). apply in_map_iff. exists F. unfold face_pair. rewrite E1, E2. auto. Qed.

Lemma Forall2_In_l {X Y} (Q : X -> Y -> Prop) l l' x : Forall2 Q l l' -> In x l -> exists y, In y l' /\ Q x y.
Proof.
  induction 1 as [|a b t t' H F IH]; intros Hx; [contradiction|].
  destruct Hx as [<-|Hx]; [exists b; split; [left|]; auto|].
  destruct (IH Hx) as (y & Hy & Hq). exists y. split; [right|]; auto.
Qed.

(** ** Neighbours of a cell *)
Lemma NoDup_flat_map {X Y} (g : X -> list Y) l : NoDup l -> (forall x, In x l -> NoDup (g x)) ->
  (forall x y k, In x l -> In y l -> In k (g x) -> In k (g y) -> x = y) -> NoDup (flat_map g l).
Proof.
  induction 1 as [|x t Hx N IH]; simpl; intros H1 H2; [constructor|].
  apply NoDup_app_intro.
  - apply H1; auto.
  - apply IH; eauto.
  - intros k Hk Hk'. apply in_flat_map in Hk'. destruct Hk' as (y & Hy & Ky).
    apply Hx. rewrite (H2 x y k); auto.
Qed.

Definition local_nbrs (m : nat) (x : nat * option nat) : list nat :=
  (if fst x =? m then match snd x with Some s => [s] | None => [] end else []) ++
  (match snd x with Some s => if s =? m then [fst x] else [] | None => [] end).
Definition ghost_nbrs (m : nat) (x : nat * option nat) : list nat :=
  if fst x =? m then match snd x with Some s => [s] | None => [] end else [].

Lemma adj_cells_pairs {A} (ls gs : list (@PartFace A)) m : adj_cells ls gs m =
  flat_map (local_nbrs m) (map face_pair ls) ++ flat_map (ghost_nbrs m) (map face_pair gs).
Proof. unfold adj_cells. rewrite !flat_map_concat_map, !map_map. reflexivity. Qed.

Lemma adj_cells_ok {A} cell_dim cell_parts graph mesh (zs : list (Zone A)) mp p fs m :
  good_faces cell_dim cell_parts graph mesh zs mp p fs -> symmetric_graph graph ->
  (forall i j, nbr graph i j -> i <> j) -> nth_error cell_parts m = Some p ->
  NoDup (adj_cells (fs_local fs) (fs_ghost fs) m) /\
  forall x, In x (adj_cells (fs_local fs) (fs_ghost fs) m) <-> nbr graph m x.
Proof.
  intros GF Sym Irr Hm. rewrite adj_cells_pairs.
  assert (LL : forall x, In x (map face_pair (fs_local fs)) -> exists i j, x = (i, Some j) /\ nbr graph i j /\ i < j /\
    nth_error cell_parts i = Some p /\ nth_error cell_parts j = Some p).
  { intros x Hx. apply in_map_iff in Hx. destruct Hx as (F & <- & HF).
    destruct (gf_local _ _ _ _ _ _ _ _ GF F HF) as (i & j & B). exists i, j.
    split; [unfold face_pair; destruct B as (-> & -> & _); auto|].
    apply (gf_local_pairs _ _ _ _ _ _ _ _ GF). eapply pair_in; eauto. }
  assert (GG : forall x, In x (map face_pair (fs_ghost fs)) -> exists i j, x = (i, Some j) /\ nbr graph i j /\
    nth_error cell_parts i = Some p /\ nth_error cell_parts j <> Some p).
  { intros x Hx. apply in_map_iff in Hx. destruct Hx as (F & <- & HF).
    destruct (gf_ghost _ _ _ _ _ _ _ _ GF F HF) as (i & j & B). exists i, j.
    split; [unfold face_pair; destruct B as (-> & -> & _); auto|].
    apply (gf_ghost_pairs _ _ _ _ _ _ _ _ GF). eapply pair_in; eauto. }
  assert (IL : forall i j k, i < j -> In k (local_nbrs m (i, Some j)) <-> i = m /\ k = j \/ j = m /\ k = i).
  { intros i j k L. unfold local_nbrs. cbn [fst snd]. rewrite in_app_iff.
    destruct (Nat.eqb_spec i m), (Nat.eqb_spec j m); simpl; intuition lia. }
  assert (IG : forall i j k, In k (ghost_nbrs m (i, Some j)) <-> i = m /\ k = j).
  { intros i j k. unfold ghost_nbrs. cbn [fst snd]. destruct (Nat.eqb_spec i m); simpl; intuition lia. }
  split.
  - apply NoDup_app_intro.
    + apply NoDup_flat_map; [apply (gf_local_once _ _ _ _ _ _ _ _ GF)| |].
      * intros x Hx. destruct (LL x Hx) as (i & j & -> & _ & L & _). unfold local_nbrs. cbn [fst snd].
        destruct (Nat.eqb_spec i m), (Nat.eqb_spec j m); simpl; try lia; repeat constructor; auto.
      * intros x y k Hx Hy. destruct (LL x Hx) as (i & j & -> & _ & L & _).
        destruct (LL y Hy) as (i' & j' & -> & _ & L' & _). rewrite !IL by auto.
        intros [[? ?]|[? ?]] [[? ?]|[? ?]]; subst; auto; lia.
    + apply NoDup_flat_map; [apply (gf_ghost_once _ _ _ _ _ _ _ _ GF)| |].
      * intros x Hx. destruct (GG x Hx) as (i & j & -> & _). unfold ghost_nbrs. cbn [fst snd].
        destruct (i =? m); repeat constructor; auto.
      * intros x y k Hx Hy. destruct (GG x Hx) as (i & j & -> & _). destruct (GG y Hy) as (i' & j' & -> & _).
        rewrite !IG. intros [? ?] [? ?]; subst; auto.
    + intros k Hk Hk'. apply in_flat_map in Hk. destruct Hk as (x & Hx & Kx).
      apply in_flat_map in Hk'. destruct Hk' as (y & Hy & Ky).
      destruct (LL x Hx) as (i & j & -> & _ & L & P1 & P2). destruct (GG y Hy) as (i' & j' & -> & _ & _ & P3).
      apply IL in Kx; auto. apply IG in Ky. destruct Ky; subst. destruct Kx as [[? ?]|[? ?]]; subst; auto.
  - intros x. rewrite in_app_iff, !in_flat_map. split.
    + intros [(y & Hy & K)|(y & Hy & K)].
      * destruct (LL y Hy) as (i & j & -> & H & L & _). apply IL in K; auto.
        destruct K as [[? ?]|[? ?]]; subst; auto.
      * destruct (GG y Hy) as (i & j & -> & H & _). apply IG in K. destruct K; subst; auto.
    + intros H. destruct (Nat.eq_dec (match nth_error cell_parts x with Some q => S q | None => 0 end) (S p)) as [Q|Q].
      * left. assert (Hx : nth_error cell_parts x = Some p)
          by (destruct (nth_error cell_parts x); inversion Q; auto).
        pose proof (Irr _ _ H). destruct (Nat.lt_ge_cases m x) as [L|L].
        -- exists (m, Some x). split; [apply (gf_local_pairs _ _ _ _ _ _ _ _ GF); auto|]. apply IL; auto.
        -- assert (x < m) by lia. exists (x, Some m). split; [apply (gf_local_pairs _ _ _ _ _ _ _ _ GF); auto|].
           apply IL; auto.
      * right. exists (m, Some x). split; [apply (gf_ghost_pairs _ _ _ _ _ _ _ _ GF)|apply IG; auto].
        repeat split; auto. intros X. rewrite X in Q. auto.
Qed.

(** ** Faces by the name of their section *)
Lemma find_last {X} (q : X -> bool) l b : In b l -> q b = true -> (forall b', In b' l -> q b' = true -> b' = b) ->
  List.find q (rev l) = Some b.
Proof.
  intros H Q U. destruct (List.find q (rev l)) as [x|] eqn:E.
  - apply find_some in E. destruct E as [I E]. apply in_rev in I. f_equal. auto.
  - apply in_rev in H. pose proof (find_none _ _ E _ H). congruence.
Qed.

Lemma NoDup_map_inj {X Y} (g : X -> Y) l x y : NoDup (map g l) -> In x l -> In y l -> g x = g y -> x = y.
Proof.
  induction l as [|a t IH]; simpl; intros N Hx Hy E; [contradiction|]. inversion N; subst.
  destruct Hx as [<-|Hx], Hy as [<-|Hy]; auto.
  - exfalso. apply H1. rewrite E. apply in_map; auto.
  - exfalso. apply H1. rewrite <- E. apply in_map; auto.
Qed.

Section Processes.
  Context {A : Type} (cell_dim : Z) (cell_parts : list nat) (graph : Graph) (mesh : MetisMesh)
    (zs : list (Zone A)) (mp : Mapper).
  Let good := good_faces cell_dim cell_parts graph mesh zs mp.

  Lemma ghosts_match p q fs fs' F j : good p fs -> good q fs' -> symmetric_graph graph -> p <> q ->
    In F (fs_ghost fs) -> f_sharer F = Some j -> nth_error cell_parts j = Some q ->
    exists F', In F' (fs_ghost fs') /\ f_holder F' = j /\ f_sharer F' = Some (f_holder F) /\
      f_zone F' = f_zone F /\ Permutation (f_nodes F') (f_nodes F) /\ Permutation (f_coords F') (f_coords F) /\
      forall F'', In F'' (fs_ghost fs') -> f_holder F'' = j -> f_sharer F'' = Some (f_holder F) -> F'' = F'.
  Proof.
    intros G G' Sym Hpq HF Hj Pj. destruct (gf_ghost _ _ _ _ _ _ _ _ G F HF) as (i & j' & B).
    pose proof B as (Bi & Bj & _). rewrite Hj in Bj. injection Bj as <-.
    destruct (proj1 (gf_ghost_pairs _ _ _ _ _ _ _ _ G i j) (pair_in _ _ _ _ _ _ HF B)) as (Hn & Pi & _).
    destruct (pair_of zs mp (fs_ghost fs') j i (gf_ghost _ _ _ _ _ _ _ _ G')) as (F' & HF' & B').
    { apply (gf_ghost_pairs _ _ _ _ _ _ _ _ G'). repeat split; auto. congruence. }
    exists F'. pose proof B' as (B1 & B2 & _). split; auto. split; auto. split; [congruence|].
    destruct (same_face zs mp F F' i j B B') as (Z1 & P1 & P2). repeat (split; [assumption|]).
    intros F'' H'' E1 E2. apply (NoDup_map_inj face_pair (fs_ghost fs')); auto.
    - apply (gf_ghost_once _ _ _ _ _ _ _ _ G').
    - unfold face_pair. congruence.
  Qed.

  Lemma bound_of p fs z s sec : good p fs -> (do zn <- at1 zs z; at1 (z_sections zn) s) = Some sec ->
    (s_dim sec + 1 = cell_dim)%Z -> exists b, In b (fs_bound fs) /\ b_zone b = z /\ b_sect b = s /\ b_name b = s_name sec.
  Proof.
    intros G Hs Hd. pose proof (gf_bound_all _ _ _ _ _ _ _ _ G z s sec Hs Hd) as H.
    apply in_map_iff in H. destruct H as (b & E & Hb). inversion E; subst. exists b. repeat split; auto.
    destruct (gf_bound _ _ _ _ _ _ _ _ G b Hb) as (sec' & cs & Hs' & _ & Hn & _). rewrite Hs in Hs'.
    inversion Hs'; subst. auto.
  Qed.

  Lemma by_name p fs z s sec : good p fs -> distinct_names cell_dim zs ->
    (do zn <- at1 zs z; at1 (z_sections zn) s) = Some sec -> (s_dim sec + 1 = cell_dim)%Z ->
    exists b, In b (fs_bound fs) /\ b_zone b = z /\ b_sect b = s /\
      GetBoundaryFaces (fs_bound fs) (s_name sec) = Some (b_faces b).
  Proof.
    intros G D Hs Hd. destruct (bound_of p fs z s sec G Hs Hd) as (b & Hb & Z1 & S1 & N1).
    exists b. repeat (split; [assumption|]). unfold GetBoundaryFaces. rewrite (find_last _ _ b); auto.
    - rewrite N1. apply String.eqb_refl.
    - intros b' Hb' Eb. apply String.eqb_eq in Eb.
      apply (NoDup_map_inj (fun b => (b_zone b, b_sect b)) (fs_bound fs)); auto.
      + apply (gf_bound_once _ _ _ _ _ _ _ _ G).
      + destruct (gf_bound _ _ _ _ _ _ _ _ G b' Hb') as (sec' & cs & Hs' & Hd' & Hn' & _).
        destruct (D _ _ _ _ _ _ Hs' Hs Hd' Hd) as [E1 E2]; congruence.
  Qed.

  Lemma bound_once (run : nat -> @Faces A) n_parts z s sec c row m :
    (forall p, p < n_parts -> good p (run p)) -> Forall (fun p => p < n_parts) cell_parts ->
    (do zn <- at1 zs z; at1 (z_sections zn) s) = Some sec -> (s_dim sec + 1 = cell_dim)%Z ->
    metis_row zs mp z s c = Some row -> in_cell mesh row m -> m < length cell_parts ->
    (forall m', in_cell mesh row m' -> m' = m) ->
    exists p b F, p < n_parts /\ nth_error cell_parts m = Some p /\ In b (fs_bound (run p)) /\ b_zone b = z /\
      b_sect b = s /\ In F (b_faces b) /\ face_at zs mp mesh z s sec c m F /\
      forall p' b' F' m', p' < n_parts -> In b' (fs_bound (run p')) -> In F' (b_faces b') ->
        face_at zs mp mesh z s sec c m' F' -> p' = p /\ m' = m.
  Proof.
    intros G Fp Hs Hd Hr Hm Lm U. destruct (nth_error_lt_some _ _ Lm) as [p Hp].
    assert (Lp : p < n_parts) by (rewrite Forall_forall in Fp; apply Fp; eapply nth_error_In; eauto).
    destruct (bound_of p (run p) z s sec (G p Lp) Hs Hd) as (b & Hb & Z1 & S1 & _).
    destruct (gf_bound _ _ _ _ _ _ _ _ (G p Lp) b Hb) as (sec' & cs & Hs' & _ & _ & _ & Hc & F2).
    rewrite Z1, S1 in *. rewrite Hs in Hs'. inversion Hs'; subst sec'.
    destruct (Forall2_In_l _ _ _ c F2) as (F & HF & m' & Pm & FA); [apply Hc; eauto|].
    assert (m' = m) as ->.
    { destruct FA as (_ & _ & _ & (row' & R' & I') & _). rewrite Hr in R'. inversion R'; subst. auto. }
    exists p, b, F. repeat (split; [assumption|]).
    intros p' b' F' m' Lp' Hb' HF' FA'.
    assert (m' = m) as ->.
    { destruct FA' as (_ & _ & _ & (row' & R' & I') & _). rewrite Hr in R'. inversion R'; subst. auto. }
    split; auto.
    destruct (gf_bound _ _ _ _ _ _ _ _ (G p' Lp') b' Hb') as (sec'' & cs' & _ & _ & _ & _ & _ & F2').
    destruct (Forall2_In_r _ _ _ _ F2' HF') as (c' & _ & m'' & Pm'' & FA'').
    destruct FA' as (H1 & _). destruct FA'' as (H2 & _). congruence.
  Qed.
End Processes.

(** ** The faces recorded in a cell are those between it and the recorded neighbours *)
Lemma Forall2_flat_map {X B C} (R : B -> C -> Prop) (f : X -> list B) (g : X -> list C) l :
  (forall x, In x l -> Forall2 R (f x) (g x)) -> Forall2 R (flat_map f l) (flat_map g l).
Proof.
  induction l as [|x l IH]; intros H; cbn [flat_map]; [constructor|].
  apply Forall2_app; [apply H; left; reflexivity|apply IH; intros y Y; apply H; right; exact Y].
Qed.
Lemma adj_faces_match {A} (ls gs : list (@PartFace A)) m : (forall F, In F (ls ++ gs) -> exists s, f_sharer F = Some s) ->
  Forall2 (fun x id => exists F, In F (ls ++ gs) /\ f_id F = id /\
    (f_holder F = m /\ f_sharer F = Some x \/ f_sharer F = Some m /\ f_holder F = x)) (adj_cells ls gs m) (adj_faces ls gs m).
Proof.
  intros S. unfold adj_cells, adj_faces. apply Forall2_app; apply Forall2_flat_map; intros F HF.
  - destruct (S F ltac:(apply in_or_app; left; exact HF)) as (s & E). rewrite E. apply Forall2_app.
    + destruct (Nat.eqb_spec (f_holder F) m); [|constructor]. constructor; [|constructor].
      exists F. split; [apply in_or_app; left; exact HF|]. split; [reflexivity|]. left. auto.
    + destruct (Nat.eqb_spec s m) as [->|]; [|constructor]. constructor; [|constructor].
      exists F. split; [apply in_or_app; left; exact HF|]. split; [reflexivity|]. right. auto.
  - destruct (S F ltac:(apply in_or_app; right; exact HF)) as (s & E). rewrite E.
    destruct (Nat.eqb_spec (f_holder F) m); [|constructor]. constructor; [|constructor].
    exists F. split; [apply in_or_app; right; exact HF|]. split; [reflexivity|]. left. auto.
Qed.
