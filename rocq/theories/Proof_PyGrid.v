(** Grids. *)
From Coq Require Import Reals List Arith ZArith Bool Lia Lra.
From Verif Require Import Arrays Model_PyIntegrator Model_PyGrid Spec_PyGrid.
Import ListNotations.
Open Scope nat_scope.

Lemma index_nat n i : i < n -> index n (Z.of_nat i) = Some i.
Proof.
  intros H. unfold index. replace ((0 <=? Z.of_nat i) && (Z.of_nat i <? Z.of_nat n))%Z with true; [rewrite Nat2Z.id; reflexivity|].
  symmetry. apply andb_true_iff. split; [apply Z.leb_le; lia|apply Z.ltb_lt; lia].
Qed.
Lemma index_neg n i : 0 < i -> i <= n -> index n (- Z.of_nat i) = Some (n - i).
Proof.
  intros H H'. unfold index. replace ((0 <=? - Z.of_nat i) && (- Z.of_nat i <? Z.of_nat n))%Z with false.
  - replace ((- Z.of_nat n <=? - Z.of_nat i) && (- Z.of_nat i <? 0))%Z with true; [f_equal; lia|].
    symmetry. apply andb_true_iff. split; [apply Z.leb_le; lia|apply Z.ltb_lt; lia].
  - symmetry. apply andb_false_iff. left. apply Z.leb_gt. lia.
Qed.
Lemma put_same {A} (a : nat -> A) i v : put a i v i = v.
Proof. unfold put. rewrite Nat.eqb_refl. reflexivity. Qed.
Lemma put_other {A} (a : nat -> A) i v j : j <> i -> put a i v j = a j.
Proof. intros H. unfold put. destruct (Nat.eqb_spec j i); [contradiction|reflexivity]. Qed.

Section Linking.
  Context {V : Type}.
  Implicit Types g : Grid V.
  (** the parts of a grid which linking leaves alone *)
  Definition kept g g' : Prop := n_element g' = n_element g /\ coordinates g' = coordinates g /\ x_left_sorted g' = x_left_sorted g /\ periodic g' = periodic g.
  Lemma build_is g i : 1 <= i -> i < n_element g -> exists g', build_interface g (Z.of_nat i) = Some g' /\ kept g g' /\
    made_faces g' = made_faces g ++ [Interface (i - 1) i] /\ faces g' = put (faces g) i (Some (length (made_faces g))) /\
    left_face g' = put (left_face g) i (Some (length (made_faces g))) /\ right_face g' = put (right_face g) (i - 1) (Some (length (made_faces g))) /\
    left_expansion g' = left_expansion g /\ right_expansion g' = right_expansion g.
  Proof.
    intros H H'. unfold build_interface. rewrite index_nat by lia. replace (Z.of_nat i - 1)%Z with (Z.of_nat (i - 1)) by lia. rewrite index_nat by lia. cbn [bind].
    cbn [with_left_face with_right_face n_element]. rewrite index_nat by lia. cbn [bind]. destruct (Z.eqb_spec (Z.of_nat i) 0); [lia|].
    eexists. split; [reflexivity|]. repeat split.
  Qed.
  Lemma build_first g : 2 <= n_element g -> exists g', build_interface g 0 = Some g' /\ kept g g' /\
    made_faces g' = made_faces g ++ [Interface (n_element g - 1) 0] /\ faces g' = put (put (faces g) 0 (Some (length (made_faces g)))) (n_element g) (Some (length (made_faces g))) /\
    left_face g' = put (left_face g) 0 (Some (length (made_faces g))) /\ right_face g' = put (right_face g) (n_element g - 1) (Some (length (made_faces g))) /\
    left_expansion g' = left_expansion g /\ right_expansion g' = right_expansion g.
  Proof.
    intros H. unfold build_interface. rewrite (index_nat _ 0) by lia. change (0 - 1)%Z with (- Z.of_nat 1)%Z. rewrite (index_neg _ 1) by lia. cbn [bind].
    cbn [with_left_face with_right_face n_element]. rewrite (index_nat _ 0) by lia. cbn [bind Z.eqb with_faces n_element]. rewrite (index_neg _ 1) by lia. cbn [bind].
    eexists. split; [reflexivity|]. split; [repeat split|]. split; [reflexivity|]. split; [|repeat split]. cbn [with_faces with_left_face with_right_face faces n_element made_faces right_face]. replace (n_element g + 1 - 1) with (n_element g) by lia. reflexivity.
  Qed.
  Lemma inner_is g i : 1 <= i -> S i < n_element g -> exists g', link_inner g i = Some g' /\ kept g g' /\
    made_faces g' = made_faces g ++ [Interface (i - 1) i] /\ faces g' = put (faces g) i (Some (length (made_faces g))) /\
    left_face g' = put (left_face g) i (Some (length (made_faces g))) /\ right_face g' = put (right_face g) (i - 1) (Some (length (made_faces g))) /\
    left_expansion g' = put (left_expansion g) i (Some (Plain (i - 1))) /\ right_expansion g' = put (right_expansion g) i (Some (Plain (S i))).
  Proof.
    intros H H'. destruct (build_is g i H ltac:(lia)) as (g1 & E1 & (K1 & K2 & K3 & K4) & M & F & L & Rf & Le & Re). unfold link_inner. rewrite E1. cbn [bind].
    unfold plain, set_left, set_right. replace (Z.of_nat i - 1)%Z with (Z.of_nat (i - 1)) by lia. rewrite index_nat by lia. cbn [bind]. rewrite index_nat by lia. cbn [bind].
    replace (Z.of_nat i + 1)%Z with (Z.of_nat (S i)) by lia. cbn [with_left n_element]. rewrite index_nat by lia. cbn [bind]. rewrite index_nat by lia. cbn [bind].
    eexists. split; [reflexivity|]. cbn [with_left with_right]. unfold kept. cbn. rewrite Le, Re. auto 10.
  Qed.
  (** after the loop has linked the elements 1 .. k *)
  Definition partly (g0 : Grid V) (k : nat) g : Prop := kept g0 g /\
    made_faces g = made_faces g0 ++ map (fun i => Interface (i - 1) i) (seq 1 k) /\
    (forall j, faces g j = if (1 <=? j) && (j <=? k) then Some (length (made_faces g0) + j - 1) else faces g0 j) /\
    (forall j, left_face g j = if (1 <=? j) && (j <=? k) then Some (length (made_faces g0) + j - 1) else left_face g0 j) /\
    (forall j, right_face g j = if j <? k then Some (length (made_faces g0) + j) else right_face g0 j) /\
    (forall j, left_expansion g j = if (1 <=? j) && (j <=? k) then Some (Plain (j - 1)) else left_expansion g0 j) /\
    (forall j, right_expansion g j = if (1 <=? j) && (j <=? k) then Some (Plain (S j)) else right_expansion g0 j).
  Ltac cases := repeat match goal with |- context [Nat.leb ?a ?b] => destruct (Nat.leb_spec a b) | |- context [Nat.ltb ?a ?b] => destruct (Nat.ltb_spec a b) | |- context [Nat.eqb ?a ?b] => destruct (Nat.eqb_spec a b) end; cbn [andb].
  Lemma loop_is g k : k + 2 <= n_element g -> exists g', fold_left (fun acc i => do g <- acc; link_inner g i) (seq 1 k) (Some g) = Some g' /\ partly g k g'.
  Proof.
    induction k as [|k IH]; intros H.
    - exists g. split; [reflexivity|]. split; [unfold kept; auto|]. split; [cbn; symmetry; apply app_nil_r|]. repeat split; intros j; cases; try reflexivity; lia.
    - destruct IH as (g1 & E1 & (K1 & K2 & K3 & K4) & M & F & L & Rf & Le & Re); [lia|]. rewrite seq_S, fold_left_app, E1. cbn [fold_left bind]. replace (1 + k) with (S k) by lia.
      destruct (inner_is g1 (S k)) as (g2 & E2 & (J1 & J2 & J3 & J4) & M2 & F2 & L2 & Rf2 & Le2 & Re2); [lia|lia|].
      exists g2. split; [exact E2|]. assert (Ln : length (made_faces g1) = length (made_faces g) + k) by (rewrite M, app_length, map_length, seq_length; reflexivity).
      split; [unfold kept; repeat split; congruence|]. split; [rewrite M2, M, seq_S, map_app, app_assoc; reflexivity|].
      rewrite F2, L2, Rf2, Le2, Re2. unfold put. repeat split; intros j.
      + rewrite F. cases; try reflexivity; try lia; f_equal; lia.
      + rewrite L. cases; try reflexivity; try lia; f_equal; lia.
      + rewrite Rf. cases; try reflexivity; try lia; f_equal; lia.
      + rewrite Le. cases; try reflexivity; try lia; do 2 f_equal; lia.
      + rewrite Re. cases; try reflexivity; try lia; do 2 f_equal; lia.
  Qed.
  Lemma get_face_first g : get_face g 0 = Some (faces g 0).
  Proof. unfold get_face. rewrite (index_nat _ 0) by lia. reflexivity. Qed.
  Lemma get_face_last g : get_face g (-1) = Some (faces g (n_element g)).
  Proof. unfold get_face. rewrite (index_neg _ 1) by lia. cbn [bind]. do 2 f_equal. lia. Qed.

  (** the whole of linking, for both kinds of boundaries *)
  Lemma nth_after {A} (a b : list A) (k : nat) : nth_error (a ++ b) (length a + k) = nth_error b k.
  Proof. rewrite nth_error_app2 by lia. f_equal. lia. Qed.
  Lemma before_boundary g : 2 <= n_element g -> exists g', (do r <- plain g 1; do g <- set_right g 0 r;
      do g <- fold_left (fun acc i => do g <- acc; link_inner g i) (seq 1 (n_element g - 2)) (Some g);
      do g <- build_interface g (Z.of_nat (n_element g) - 1);
      do l <- plain g (-2); set_left g (-1) l) = Some g' /\ kept g g' /\ interior g' /\
      faces g' 0 = faces g 0 /\ faces g' (n_element g) = faces g (n_element g) /\ left_face g' 0 = left_face g 0 /\ right_face g' (n_element g - 1) = right_face g (n_element g - 1) /\
      exists l, made_faces g' = made_faces g ++ l.
  Proof.
    intros H. set (n := n_element g) in *. unfold plain at 1. rewrite (index_nat _ 1) by (fold n; lia). cbn [bind]. unfold set_right at 1. rewrite (index_nat _ 0) by (fold n; lia). cbn [bind].
    set (g0 := with_right g (put (right_expansion g) 0 (Some (Plain 1)))). change (n_element g0) with n.
    destruct (loop_is g0 (n - 2)) as (g1 & E1 & (K1 & K2 & K3 & K4) & M & F & L & Rf & Le & Re); [change (n_element g0) with n; lia|]. rewrite E1. cbn [bind].
    change (n_element g0) with n in K1. rewrite K1. replace (Z.of_nat n - 1)%Z with (Z.of_nat (n - 1)) by lia.
    destruct (build_is g1 (n - 1)) as (g2 & E2 & (J1 & J2 & J3 & J4) & M2 & F2 & L2 & Rf2 & Le2 & Re2); [lia|lia|]. rewrite E2. cbn [bind].
    unfold plain. rewrite (index_neg _ 2) by lia. cbn [bind]. unfold set_left. rewrite (index_neg _ 1) by lia. cbn [bind]. rewrite J1, K1.
    eexists. split; [reflexivity|]. unfold kept, interior, joined. cbn [with_left n_element coordinates x_left_sorted periodic faces left_face right_face made_faces left_expansion right_expansion].
    assert (Ln : length (made_faces g1) = length (made_faces g) + (n - 2)) by (rewrite M, app_length, map_length, seq_length; reflexivity).
    change (faces g0) with (faces g) in F. change (left_face g0) with (left_face g) in L. change (right_face g0) with (right_face g) in Rf. change (left_expansion g0) with (left_expansion g) in Le.
    change (made_faces g0) with (made_faces g) in *. change (right_expansion g0) with (put (right_expansion g) 0 (Some (Plain 1))) in Re.
    split; [split; [rewrite J1; exact K1|]; split; [rewrite J2; exact K2|]; split; [rewrite J3; exact K3|rewrite J4; exact K4]|]. split; [|split; [|split; [|split; [|split]]]].
    - intros i Hi. rewrite J1, K1 in Hi. exists (length (made_faces g) + i). rewrite M2, M, <- app_assoc, nth_after, F2, L2, Rf2, Re2, Le2. unfold put. rewrite F, L, Rf, Re, Le. unfold put.
      destruct (Nat.eq_dec i (n - 2)) as [->|N].
      + repeat split.
        * cases; try reflexivity; try lia; f_equal; lia.
        * cases; try reflexivity; try lia; f_equal; lia.
        * rewrite nth_error_app2 by (rewrite map_length, seq_length; lia). rewrite map_length, seq_length, Nat.sub_diag. cbn [nth_error]. do 2 f_equal; lia.
        * cases; try reflexivity; try lia; f_equal; lia.
        * cases; try reflexivity; try lia; do 2 f_equal; lia.
        * cases; try reflexivity; try lia; do 2 f_equal; lia.
      + repeat split.
        * cases; try reflexivity; try lia; f_equal; lia.
        * cases; try reflexivity; try lia; f_equal; lia.
        * rewrite nth_error_app1 by (rewrite map_length, seq_length; lia). rewrite nth_error_map, (nth_error_nth' _ 0) by (rewrite seq_length; lia). rewrite seq_nth by lia. cbn [option_map]. do 2 f_equal; lia.
        * cases; try reflexivity; try lia; f_equal; lia.
        * cases; try reflexivity; try lia; do 2 f_equal; lia.
        * cases; try reflexivity; try lia; do 2 f_equal; lia.
    - rewrite F2. rewrite put_other by lia. rewrite F. reflexivity.
    - rewrite F2. rewrite put_other by lia. rewrite F. cases; try reflexivity; lia.
    - rewrite L2. rewrite put_other by lia. rewrite L. reflexivity.
    - rewrite Rf2. rewrite put_other by lia. rewrite Rf. cases; try reflexivity; lia.
    - eexists. rewrite M2, M, <- app_assoc. reflexivity.
  Qed.
  Lemma ends g : 2 <= n_element g -> grid_length g = Some (x_right (coordinates g (n_element g - 1)) - x_left (coordinates g 0))%R.
  Proof. intros H. unfold grid_length, grid_x_right, grid_x_left. rewrite (index_neg _ 1), (index_nat _ 0) by lia. reflexivity. Qed.
  Lemma extended (g g' : Grid V) i j f l : joined g i j f -> right_face g' i = right_face g i -> left_face g' j = left_face g j -> made_faces g' = made_faces g ++ l -> joined g' i j f.
  Proof.
    intros (A & B & C) E1 E2 E3. unfold joined. rewrite E1, E2, E3. split; [exact A|]. split; [exact B|]. rewrite nth_error_app1; [exact C|]. apply nth_error_Some. congruence.
  Qed.
  Lemma link_periodic g : 2 <= n_element g -> periodic g = true -> faces g 0 = None -> faces g (n_element g) = None ->
    exists g', link_neighbors g = Some g' /\ kept g g' /\ interior g' /\ cyclic g'.
  Proof.
    intros H P F0 Fn. destruct (before_boundary g H) as (g1 & E & (K1 & K2 & K3 & K4) & I & A0 & An & _ & _ & _).
    assert (X : link_neighbors g = do g <- Some g1; if periodic g then
      do first <- get_face g 0; do last <- get_face g (-1);
      if is_none first && is_none last then
        do g <- build_interface g 0;
        do first <- get_face g 0; do last <- get_face g (-1);
        if same first last && is_interface g first then
          do h <- grid_length g; do l <- shifted g (-1) (- h)%R; do g <- set_left g 0 l;
          do h <- grid_length g; do r <- shifted g 0 h; set_right g (-1) r
        else None
      else None
    else
      do first <- get_face g 0; do last <- get_face g (-1);
      if is_inlet g first && is_inlet g last then do g <- set_left g 0 None; set_right g (-1) None else None).
    { rewrite <- E. unfold link_neighbors. destruct (plain g 1); [|reflexivity]. cbn [bind]. destruct (set_right g 0 o); [|reflexivity]. cbn [bind].
      destruct (fold_left _ _ _); [|reflexivity]. cbn [bind]. destruct (build_interface g2 _); [|reflexivity]. cbn [bind]. destruct (plain g3 (-2)); reflexivity. }
    rewrite X. cbn [bind]. rewrite K4, P, get_face_first, get_face_last, K1, A0, An, F0, Fn. cbn [bind is_none andb].
    destruct (build_first g1) as (g2 & E2 & (J1 & J2 & J3 & J4) & M2 & F2 & L2 & Rf2 & Le2 & Re2); [lia|]. rewrite E2. cbn [bind]. rewrite get_face_first, get_face_last. cbn [bind].
    set (f := length (made_faces g1)) in *. assert (N2 : n_element g2 = n_element g) by congruence.
    assert (G0 : faces g2 0 = Some f). { rewrite F2. rewrite put_other by lia. apply put_same. }
    assert (Gn : faces g2 (n_element g2) = Some f). { rewrite F2, J1. apply put_same. }
    assert (Mf : nth_error (made_faces g2) f = Some (Interface (n_element g - 1) 0)). { rewrite M2, K1. replace f with (length (made_faces g1) + 0) by (unfold f; lia). rewrite nth_after. reflexivity. }
    rewrite G0, Gn. cbn [same]. rewrite Nat.eqb_refl. cbn [andb is_interface]. rewrite Mf.
    rewrite (ends g2) by lia. cbn [bind]. unfold shifted at 1. rewrite (index_neg _ 1) by lia. cbn [bind]. unfold set_left. rewrite (index_nat _ 0) by lia. cbn [bind].
    match goal with |- context [grid_length ?G] => set (g3 := G) end. assert (N3 : n_element g3 = n_element g) by exact N2.
    rewrite (ends g3) by lia. cbn [bind]. unfold shifted. rewrite (index_nat _ 0) by lia. cbn [bind]. unfold set_right. rewrite (index_neg _ 1) by lia. cbn [bind].
    match goal with |- context [Some ?G = Some _] => set (g4 := G) end.
    assert (N4 : n_element g4 = n_element g) by exact N2. exists g4. split; [reflexivity|].
    assert (D4 : coordinates g4 = coordinates g) by (change (coordinates g2 = coordinates g); congruence).
    split; [split; [exact N4|]; split; [exact D4|]; split; [change (x_left_sorted g2 = x_left_sorted g); congruence|change (periodic g2 = periodic g); congruence]|]. split.
    - intros i Hi. rewrite N4, <- K1 in Hi. destruct (I i Hi) as (f' & J & Jf & Jr & Jl). exists f'. split; [|split; [|split]].
      + apply (extended g1 g4 i (S i) f' [Interface (n_element g1 - 1) 0] J); [| |exact M2].
        * change (right_face g2 i = right_face g1 i). rewrite Rf2. apply put_other. lia.
        * change (left_face g2 (S i) = left_face g1 (S i)). rewrite L2. apply put_other. lia.
      + change (faces g2 (S i) = Some f'). rewrite F2. rewrite put_other by lia. rewrite put_other by lia. exact Jf.
      + change (put (right_expansion g2) (n_element g3 - 1) (Some (Moved 0 (x_right (coordinates g3 (n_element g3 - 1)) - x_left (coordinates g3 0)))) i = Some (Plain (S i))). rewrite put_other by lia. rewrite Re2. exact Jr.
      + change (put (left_expansion g2) 0 (Some (Moved (n_element g2 - 1) (- (x_right (coordinates g2 (n_element g2 - 1)) - x_left (coordinates g2 0))))) (S i) = Some (Plain i)). rewrite put_other by lia. rewrite Le2. exact Jl.
    - exists f. rewrite N4, D4. split; [split; [|split]|split; [|split; [|split]]].
      + change (right_face g2 (n_element g - 1) = Some f). rewrite Rf2, K1. apply put_same.
      + change (left_face g2 0 = Some f). rewrite L2. apply put_same.
      + exact Mf.
      + exact G0.
      + rewrite <- N2. exact Gn.
      + change (put (left_expansion g2) 0 (Some (Moved (n_element g2 - 1) (- (x_right (coordinates g2 (n_element g2 - 1)) - x_left (coordinates g2 0))))) 0 = Some (Moved (n_element g - 1) (- (x_right (coordinates g (n_element g - 1)) - x_left (coordinates g 0))))). rewrite put_same, N2, J2, K2. reflexivity.
      + change (put (right_expansion g2) (n_element g2 - 1) (Some (Moved 0 (x_right (coordinates g2 (n_element g2 - 1)) - x_left (coordinates g2 0)))) (n_element g - 1) = Some (Moved 0 (x_right (coordinates g (n_element g - 1)) - x_left (coordinates g 0)))). rewrite N2, put_same, J2, K2. reflexivity.
  Qed.
  Lemma link_open g f f' ul ur : 2 <= n_element g -> periodic g = false -> faces g 0 = Some f -> faces g (n_element g) = Some f' ->
    left_face g 0 = Some f -> right_face g (n_element g - 1) = Some f' ->
    nth_error (made_faces g) f = Some (Inlet ul 0 true) -> nth_error (made_faces g) f' = Some (Inlet ur (n_element g - 1) false) ->
    exists g', link_neighbors g = Some g' /\ kept g g' /\ interior g' /\ open g' ul ur.
  Proof.
    intros H P F0 Fn L0 Rn M0 Mn. destruct (before_boundary g H) as (g1 & E & (K1 & K2 & K3 & K4) & I & A0 & An & B0 & Bn & l & Ml).
    assert (X : link_neighbors g = do g <- Some g1; if periodic g then
      do first <- get_face g 0; do last <- get_face g (-1);
      if is_none first && is_none last then
        do g <- build_interface g 0;
        do first <- get_face g 0; do last <- get_face g (-1);
        if same first last && is_interface g first then
          do h <- grid_length g; do l <- shifted g (-1) (- h)%R; do g <- set_left g 0 l;
          do h <- grid_length g; do r <- shifted g 0 h; set_right g (-1) r
        else None
      else None
    else
      do first <- get_face g 0; do last <- get_face g (-1);
      if is_inlet g first && is_inlet g last then do g <- set_left g 0 None; set_right g (-1) None else None).
    { rewrite <- E. unfold link_neighbors. destruct (plain g 1); [|reflexivity]. cbn [bind]. destruct (set_right g 0 o); [|reflexivity]. cbn [bind].
      destruct (fold_left _ _ _); [|reflexivity]. cbn [bind]. destruct (build_interface g2 _); [|reflexivity]. cbn [bind]. destruct (plain g3 (-2)); reflexivity. }
    assert (Mk : forall k x, nth_error (made_faces g) k = Some x -> nth_error (made_faces g1) k = Some x).
    { intros k x Hx. rewrite Ml, nth_error_app1; [exact Hx|]. apply nth_error_Some. congruence. }
    apply Mk in M0. apply Mk in Mn.
    rewrite X. cbn [bind]. rewrite K4, P, get_face_first, get_face_last, K1, A0, An, F0, Fn. cbn [bind is_inlet]. rewrite M0, Mn. cbn [andb].
    unfold set_left. rewrite (index_nat _ 0) by lia. cbn [bind]. unfold set_right. cbn [with_left n_element]. rewrite (index_neg _ 1) by lia. cbn [bind].
    eexists. split; [reflexivity|]. split; [unfold kept; cbn; auto|]. split.
    - intros i Hi. cbn [with_right with_left n_element] in Hi. destruct (I i Hi) as (f1 & J & Jf & Jr & Jl). exists f1. split; [|split; [|split]].
      + exact J.
      + exact Jf.
      + cbn. rewrite put_other by lia. exact Jr.
      + cbn. exact Jl.
    - exists f, f'. cbn. rewrite K1, A0, An, B0, Bn. rewrite put_same. auto 12.
  Qed.

  (** the constructor *)
  Lemma edges_is a d i : edges a d i = (a + INR i * d)%R.
  Proof. induction i as [|i IH]; [cbn; ring|]. cbn [edges]. rewrite IH, S_INR. ring. Qed.
  Lemma init_is n a b : (a < b)%R -> 2 <= n -> exists g, FiniteElement_init n a b = Some g /\ n_element g = n /\ periodic g = true /\
    (forall i, coordinates g i = Linear (a + INR i * ((b - a) / INR n)) (a + INR (S i) * ((b - a) / INR n))) /\
    (forall i, x_left_sorted g i = (a + INR i * ((b - a) / INR n))%R) /\ interior g /\ cyclic g.
  Proof.
    intros L H. unfold FiniteElement_init. destruct (Rlt_dec a b); [|lra]. destruct (Nat.ltb_spec 1 n); [|lia]. set (d := ((b - a) / INR n)%R).
    assert (Nn : INR n <> 0%R) by (apply not_0_INR; lia).
    match goal with |- context [forallb ?p ?l] => assert (A : forallb p l = true) end.
    { apply forallb_forall. intros i _. rewrite edges_is. destruct (Req_EM_T _ _); [reflexivity|contradiction]. }
    rewrite A. destruct (Req_EM_T (edges a d n) b) as [|N]; [|exfalso; apply N; rewrite edges_is; unfold d; field; exact Nn].
    match goal with |- context [link_neighbors ?G] => destruct (link_periodic G) as (g & E & (K1 & K2 & K3 & K4) & I & C) end; [exact H|reflexivity|reflexivity|reflexivity|].
    rewrite E. exists g. split; [reflexivity|]. cbn in K1, K2, K3, K4. split; [exact K1|]. split; [exact K4|]. split; [|split; [|split; [exact I|exact C]]].
    - intros i. rewrite K2. rewrite !edges_is, S_INR. f_equal. ring.
    - intros i. rewrite K3. apply edges_is.
  Qed.
  Lemma boundary_is g ul ur : 2 <= n_element g -> exists g', set_boundary_values g (Some ul) (Some ur) = Some g' /\
    n_element g' = n_element g /\ coordinates g' = coordinates g /\ x_left_sorted g' = x_left_sorted g /\ periodic g' = false /\ interior g' /\ open g' ul ur.
  Proof.
    intros H. unfold set_boundary_values. cbn [bind make_inlet with_periodic with_left_face with_faces with_right_face n_element]. rewrite (index_nat _ 0) by lia. cbn [bind make_inlet with_periodic with_left_face with_faces with_right_face n_element]. rewrite (index_nat _ 0) by lia. cbn [bind make_inlet with_periodic with_left_face with_faces with_right_face n_element].
    rewrite (index_neg _ 1) by lia. cbn [bind make_inlet with_periodic with_left_face with_faces with_right_face n_element]. rewrite (index_neg _ 1) by lia. cbn [bind make_inlet with_periodic with_left_face with_faces with_right_face n_element].
    match goal with |- context [link_neighbors ?G] => destruct (link_open G (length (made_faces g)) (S (length (made_faces g))) ul ur) as (g' & E & (K1 & K2 & K3 & K4) & I & C) end.
    - exact H.
    - reflexivity.
    - cbn. rewrite put_other by lia. reflexivity.
    - cbn. replace (n_element g + 1 - 1) with (n_element g) by lia. rewrite put_same, app_length. cbn. f_equal. lia.
    - reflexivity.
    - cbn. rewrite put_same, app_length. cbn. f_equal. lia.
    - cbn. rewrite <- app_assoc. rewrite nth_error_app2 by lia. rewrite Nat.sub_diag. reflexivity.
    - cbn [with_right_face with_faces with_left_face with_periodic made_faces]. rewrite <- app_assoc, nth_error_app2 by lia. replace (S (length (made_faces g)) - length (made_faces g)) with 1 by lia. reflexivity.
    - rewrite E. exists g'. cbn in K1, K2, K3, K4. auto 10.
  Qed.
End Linking.
