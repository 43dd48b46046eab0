From Coq Require Import ZArith List Arith Bool Permutation Lia.
From Verif Require Import Model_Geometry Spec_Faces.
Import ListNotations.
Local Open Scope nat_scope.

Lemma has_In n l : has n l = true <-> In n l.
Proof.
  unfold has. rewrite existsb_exists. split.
  - intros (m & H & E). apply Nat.eqb_eq in E. subst. exact H.
  - intros H. exists n. split; [exact H|apply Nat.eqb_refl].
Qed.
Lemma has_perm n l l' : Permutation l l' -> has n l = has n l'.
Proof.
  intros P. destruct (has n l) eqn:E, (has n l') eqn:E'; try reflexivity.
  - apply has_In in E. apply (Permutation_in _ P), has_In in E. congruence.
  - apply has_In in E'. apply (Permutation_in _ (Permutation_sym P)), has_In in E'. congruence.
Qed.
Lemma first_three_perm f f' : Permutation f f' -> forall l cnt c s, first_three l f cnt c s = first_three l f' cnt c s.
Proof.
  intros P. induction l as [|n l IH]; intros [|cnt] c s; cbn [first_three]; try reflexivity.
  rewrite (has_perm n f f' P). destruct (has n f'); apply IH.
Qed.
Lemma fold_add_perm (add : nat -> nat) f f' : Permutation f f' -> forall s,
  fold_left (fun s n => s + add n) f s = fold_left (fun s n => s + add n) f' s.
Proof.
  induction 1; intros s; cbn [fold_left]; auto.
  - f_equal. lia.
  - rewrite IHPermutation1. apply IHPermutation2.
Qed.

Ltac cases := match goal with |- match ?t with Some _ => _ | None => _ end = _ => destruct t end.
Section Relabel.
Context (cell : list nat) (n : nat) (L : length cell = n) (ND : NoDup cell).
Definition g (i : nat) : nat := nth i cell 0.
Lemma g_inj i j : i < n -> j < n -> g i = g j -> i = j.
Proof. intros Hi Hj E. subst n. eapply (proj1 (NoDup_nth cell 0) ND); eassumption. Qed.
Lemma has_g i f : i < n -> (forall k, In k f -> k < n) -> has (g i) (map g f) = has i f.
Proof.
  intros Hi F. destruct (has i f) eqn:E.
  - apply has_In in E. apply has_In, in_map, E.
  - destruct (has (g i) (map g f)) eqn:E'; [|reflexivity].
    apply has_In, in_map_iff in E'. destruct E' as (k & Ek & Hk).
    apply g_inj in Ek; auto. subst k. apply has_In in Hk. congruence.
Qed.
Lemma eqb_g i j : i < n -> j < n -> Nat.eqb (g i) (g j) = Nat.eqb i j.
Proof.
  intros Hi Hj. destruct (Nat.eqb_spec i j); [subst; apply Nat.eqb_refl|].
  apply Nat.eqb_neq. intros E. apply n0, g_inj; auto.
Qed.
Lemma cell_map : map g (seq 0 n) = cell.
Proof.
  subst n. unfold g. apply (nth_ext _ _ 0 0); [rewrite map_length, seq_length; reflexivity|].
  intros i Hi. rewrite map_length, seq_length in Hi.
  rewrite (nth_indep _ 0 ((fun i => nth i cell 0) 0)) by (rewrite map_length, seq_length; exact Hi).
  rewrite (map_nth (fun i => nth i cell 0)), seq_nth by exact Hi. reflexivity.
Qed.
Lemma first_three_g f : (forall k, In k f -> k < n) -> forall l cnt c s, (forall k, In k l -> k < n) ->
  first_three (map g l) (map g f) cnt c s = first_three l f cnt c s.
Proof.
  intros F. induction l as [|i l IH]; intros [|cnt] c s Hl; cbn [first_three map]; try reflexivity.
  rewrite has_g by (auto; apply Hl; left; reflexivity).
  destruct (has i f); apply IH; intros; apply Hl; right; assumption.
Qed.
Lemma first_three_cell f cnt c s : (forall k, In k f -> k < n) ->
  first_three cell (map g f) cnt c s = first_three (seq 0 n) f cnt c s.
Proof.
  intros F. rewrite <- cell_map at 1. apply first_three_g; [exact F|]. intros k Hk. apply in_seq in Hk. lia.
Qed.
Lemma fold_g (a b : nat -> nat) f : (forall k, In k f -> a (g k) = b k) -> forall s,
  fold_left (fun s n => s + a n) (map g f) s = fold_left (fun s n => s + b n) f s.
Proof.
  induction f as [|k f IH]; intros H s; cbn [map fold_left]; [reflexivity|].
  rewrite H by (left; reflexivity). apply IH. intros; apply H; right; assumption.
Qed.
Lemma nth_seq0 i : i < n -> nth i (seq 0 n) 0 = i.
Proof. intros H. rewrite seq_nth by exact H. reflexivity. Qed.
Lemma take_g f : take cell f = option_map (map g) (take (seq 0 n) f).
Proof.
  unfold take. rewrite L, seq_length. destruct (forallb (fun k => k <? n) f) eqn:E; [|reflexivity].
  cbn [option_map]. f_equal. rewrite map_map. apply map_ext_in. intros k Hk. unfold g.
  rewrite nth_seq0; [reflexivity|]. rewrite forallb_forall in E. apply Nat.ltb_lt, E, Hk.
Qed.

Context (f : list nat) (F : forall k, In k f -> k < n).
Lemma has_cell c : c < n -> has (nth c cell 0) (map g f) = has (nth c (seq 0 n) 0) f.
Proof. intros Hc. rewrite nth_seq0 by exact Hc. apply (has_g c f Hc F). Qed.
Lemma tetra4_g : Tetrahedron4_Sort cell (map g f) = option_map (map g) (Tetrahedron4_Sort (seq 0 n) f).
Proof.
  unfold Tetrahedron4_Sort. rewrite map_length. destruct (3 =? length f); [|reflexivity].
  rewrite first_three_cell by exact F. destruct (first_three (seq 0 n) f 3 0 0); [|reflexivity].
  destruct (_ && _)%bool; [apply take_g|reflexivity].
Qed.
Lemma tetra10_g : n = 10 -> Tetrahedron10_Sort cell (map g f) = option_map (map g) (Tetrahedron10_Sort (seq 0 n) f).
Proof.
  intros En. unfold Tetrahedron10_Sort. rewrite map_length. destruct (6 =? length f); [|reflexivity].
  rewrite !has_cell by lia.
  repeat match goal with |- context[has ?a ?b] => destruct (has a b) end; cbn [andb];
    try reflexivity; apply take_g.
Qed.
Lemma hexa_g m : Hexahedron_Sort m cell (map g f) = option_map (map g) (Hexahedron_Sort m (seq 0 n) f).
Proof.
  unfold Hexahedron_Sort. rewrite map_length. destruct (m =? length f); [|reflexivity].
  unfold Hexahedron_GetFaceId. rewrite first_three_cell by exact F.
  cases; [apply take_g|reflexivity].
Qed.
Lemma wedge_g nt nq ts qs : 6 <= n -> Wedge_Sort nt nq ts qs cell (map g f) = option_map (map g) (Wedge_Sort nt nq ts qs (seq 0 n) f).
Proof.
  intros En. unfold Wedge_Sort. rewrite map_length. destruct (length f =? nt).
  - unfold GetTriangleId. rewrite has_cell by lia. apply take_g.
  - destruct (length f =? nq); [|reflexivity]. unfold GetQuadrangleId.
    rewrite (fold_g _ (fun n0 => if nth 0 (seq 0 n) 0 =? n0 then 0 else if nth 1 (seq 0 n) 0 =? n0 then 1
                                 else if nth 2 (seq 0 n) 0 =? n0 then 2 else 0)).
    + cases; [apply take_g|reflexivity].
    + intros k Hk. rewrite !nth_seq0 by lia. change (nth 0 cell 0) with (g 0). change (nth 1 cell 0) with (g 1).
      change (nth 2 cell 0) with (g 2). rewrite !eqb_g by (lia || apply F, Hk). reflexivity.
Qed.
Lemma pyramid_g nt nq faces bottom : 5 <= n ->
  Pyramid_Sort nt nq faces bottom cell (map g f) = option_map (map g) (Pyramid_Sort nt nq faces bottom (seq 0 n) f).
Proof.
  intros En. unfold Pyramid_Sort. rewrite map_length. destruct (length f =? nt).
  - unfold Pyramid_GetFaceId. rewrite !has_cell by lia.
    cases; [apply take_g|reflexivity].
  - destruct nq as [q|]; [destruct (length f =? q); [apply take_g|reflexivity]|apply take_g].
Qed.
End Relabel.

Lemma tetra4_perm cell f f' : Permutation f f' -> Tetrahedron4_Sort cell f = Tetrahedron4_Sort cell f'.
Proof. intros P. unfold Tetrahedron4_Sort. rewrite (Permutation_length P), (first_three_perm f f' P). reflexivity. Qed.
Lemma tetra10_perm cell f f' : Permutation f f' -> Tetrahedron10_Sort cell f = Tetrahedron10_Sort cell f'.
Proof.
  intros P. unfold Tetrahedron10_Sort. rewrite (Permutation_length P). destruct (6 =? _); [|reflexivity].
  rewrite !(fun n => has_perm n f f' P). reflexivity.
Qed.
Lemma hexa_perm m cell f f' : Permutation f f' -> Hexahedron_Sort m cell f = Hexahedron_Sort m cell f'.
Proof.
  intros P. unfold Hexahedron_Sort, Hexahedron_GetFaceId. rewrite (Permutation_length P), (first_three_perm f f' P). reflexivity.
Qed.
Lemma wedge_perm nt nq ts qs cell f f' : Permutation f f' -> Wedge_Sort nt nq ts qs cell f = Wedge_Sort nt nq ts qs cell f'.
Proof.
  intros P. unfold Wedge_Sort, GetTriangleId, GetQuadrangleId.
  rewrite (Permutation_length P), (has_perm _ f f' P), (fold_add_perm _ f f' P). reflexivity.
Qed.
Lemma pyramid_perm nt nq faces bottom cell f f' : Permutation f f' ->
  Pyramid_Sort nt nq faces bottom cell f = Pyramid_Sort nt nq faces bottom cell f'.
Proof.
  intros P. unfold Pyramid_Sort, Pyramid_GetFaceId. rewrite (Permutation_length P), !(fun n => has_perm n f f' P). reflexivity.
Qed.

(** the check on the reference cell *)
Open Scope Z_scope.
Definition peqb (p q : point) : bool := ((px p =? px q) && (py p =? py q) && (pz p =? pz q))%bool%Z.
Lemma peqb_eq p q : peqb p q = true -> p = q.
Proof.
  destruct p as [[a b] c], q as [[a' b'] c']. unfold peqb, px, py, pz. cbn [fst snd].
  rewrite !andb_true_iff, !Z.eqb_eq. intros [[-> ->] ->]. reflexivity.
Qed.
Definition outward_b (c : cell) (pl : point * Z) (l : list nat) : bool :=
  let m := n_corners l in
  let p i := pt c (nth i l 0%nat) in
  (forallb (fun i =>
    let a := p i in let b := p ((i + 1) mod m)%nat in let d := p ((i + 2) mod m)%nat in
    0 <? pdot (fst pl) (pcross (psub b a) (psub d b))) (seq 0 m) &&
  (if Nat.leb (2 * m) (length l) then
    forallb (fun i => peqb (pscale 2 (p (m + i)%nat)) (padd (p i) (p ((i + 1) mod m)%nat))) (seq 0 m) else true) &&
  (if Nat.eqb (length l) (2 * m + 1) then
    peqb (pscale (Z.of_nat m) (p (2 * m)%nat)) (fold_right padd (0, 0, 0) (map p (seq 0 m))) else true))%bool.
Lemma outward_b_ok c pl l : outward_b c pl l = true -> outward c pl l.
Proof.
  unfold outward_b, outward. cbv zeta. rewrite !andb_true_iff. intros [[A B] C]. split; [|split].
  - intros i Hi. rewrite forallb_forall in A. apply Z.ltb_lt, A, in_seq. lia.
  - intros i Hi H. apply Nat.leb_le in H. rewrite H in B. rewrite forallb_forall in B. apply peqb_eq, B, in_seq. lia.
  - intros H. apply Nat.eqb_eq in H. rewrite H in C. apply peqb_eq, C.
Qed.
Definition same_nodes (l l' : list nat) : bool :=
  if list_eq_dec Nat.eq_dec (fold_right (fun n s => let fix ins n s := match s with [] => [n] | m :: s' =>
      if Nat.leb n m then n :: s else m :: ins n s' end in ins n s) [] l) l' then true else false.
Lemma same_nodes_ok l l' : same_nodes l l' = true -> Permutation l l'.
Proof.
  unfold same_nodes. destruct (list_eq_dec _ _ l') as [<-|]; [intros _|discriminate].
  induction l as [|n l IH]; cbn [fold_right]; [constructor|].
  set (t := fold_right _ [] l) in *. clearbody t.
  apply (Permutation_trans (perm_skip n IH)).
  clear IH. induction t as [|m t IH]; [reflexivity|].
  cbn. destruct (Nat.leb n m); [reflexivity|].
  apply (Permutation_trans (perm_swap m n t)), perm_skip, IH.
Qed.
Definition sorts_b (c : cell) (sort : list nat -> list nat -> option (list nat)) : bool :=
  forallb (fun pl => match sort (seq 0 (n_nodes c)) (nodes_on c pl) with
    | Some l => (same_nodes l (nodes_on c pl) && outward_b c pl l)%bool
    | None => false end) (planes c).
Lemma sorts_of c sort : sorts_b c sort = true ->
  (forall cell f f', Permutation f f' -> sort cell f = sort cell f') ->
  (forall cell f, length cell = n_nodes c -> NoDup cell -> (forall k, In k f -> (k < n_nodes c)%nat) ->
    sort cell (map (g cell) f) = option_map (map (g cell)) (sort (seq 0 (n_nodes c)) f)) ->
  sorts c sort.
Proof.
  intros B P G cell pl face L ND Hpl global Pm. unfold sorts_b in B. rewrite forallb_forall in B. specialize (B pl Hpl).
  destruct (sort (seq 0 (n_nodes c)) (nodes_on c pl)) as [l|] eqn:E; [|discriminate].
  apply andb_true_iff in B. destruct B as (B1 & B2). exists l. split; [|split].
  - apply same_nodes_ok, B1.
  - apply outward_b_ok, B2.
  - rewrite (P _ _ _ Pm). change global with (g cell). rewrite G, E; [reflexivity|exact L|exact ND|].
    intros k Hk. unfold nodes_on in Hk. apply filter_In in Hk. destruct Hk as (Hk & _). apply in_seq in Hk. lia.
Qed.
Ltac sorts p e := apply sorts_of; [vm_compute; reflexivity | intros; apply p; assumption | intros; apply e; try assumption; vm_compute; lia].
Lemma tetra4_sorts : sorts (tetrahedron 4) Tetrahedron4_Sort.
Proof. sorts tetra4_perm tetra4_g. Qed.
Lemma tetra10_sorts : sorts (tetrahedron 10) Tetrahedron10_Sort.
Proof. sorts tetra10_perm tetra10_g. Qed.
Lemma hexa_sorts n m : In (n, m) [(8, 4); (20, 8); (26, 9); (27, 9)]%nat -> sorts (hexahedron n) (Hexahedron_Sort m).
Proof.
  intros H. cbn in H. destruct H as [E|[E|[E|[E|[]]]]]; injection E as <- <-; sorts hexa_perm hexa_g.
Qed.
Lemma wedge6_sorts : sorts (wedge 6) Wedge6_Sort.
Proof. sorts wedge_perm wedge_g. Qed.
Lemma wedge15_sorts : sorts (wedge 15) Wedge15_Sort.
Proof. sorts wedge_perm wedge_g. Qed.
Lemma wedge18_sorts : sorts (wedge 18) Wedge18_Sort.
Proof. sorts wedge_perm wedge_g. Qed.
Lemma pyramid5_sorts : sorts (pyramid 5) Pyramid5_Sort.
Proof. sorts pyramid_perm pyramid_g. Qed.
Lemma pyramid13_sorts : sorts (pyramid 13) Pyramid13_Sort.
Proof. sorts pyramid_perm pyramid_g. Qed.
Lemma pyramid14_sorts : sorts (pyramid 14) Pyramid14_Sort.
Proof. sorts pyramid_perm pyramid_g. Qed.
