(** The points written for a cell are corners and middles of corners, or nodes of the cell. *)
From Coq Require Import Reals ZArith QArith Qreals List Arith Lia Lra String DecimalString DecimalNat.
From Verif Require Import Vec3 RSum PolyQ Model_Shapes Proof_Shapes Model_Geometry Proof_Geometry Model_Vtk Spec_Vtk.
Import ListNotations.
Open Scope R_scope.

Definition to_global (e : Element) (nodes : list vec) (l : Local) : vec := LocalToGlobal e nodes (Q2R (lX l)) (Q2R (lY l)) (Q2R (lZ l)).

(** the weights of the middle of [c] among [n] points *)
Definition weights (n : nat) (c : list nat) : list Q :=
  map (fun i => if existsb (Nat.eqb i) c then 1 # Pos.of_nat (List.length c) else 0%Q) (seq 0 n).
Definition same_weights (e : Element) (l : Local) (c : list nat) : bool :=
  forallb (fun wv => Qeq_bool (fst wv) (snd wv)) (combine (map (evQ (lX l) (lY l) (lZ l)) (sE e)) (weights (List.length (e_coords e)) c))
  && (List.length (sE e) =? List.length (e_coords e))%nat.

Lemma weighted_Q (ws vs : list Q) : forall nodes, List.length ws = List.length vs ->
  forallb (fun wv => Qeq_bool (fst wv) (snd wv)) (combine ws vs) = true ->
  weighted nodes (map Q2R ws) = weighted nodes (map Q2R vs).
Proof.
  revert vs. induction ws as [|w ws IH]; intros [|v vs] nodes L F; try discriminate L; [reflexivity|].
  cbn [combine forallb fst snd map] in *. apply andb_prop in F. destruct F as (E & F). apply Qeq_bool_eq in E.
  destruct nodes as [|p nodes]; [reflexivity|]. cbn [weighted]. rewrite (Qeq_eqR _ _ E). f_equal. apply IH; [cbn in L; lia|exact F].
Qed.

Lemma point_of_weights e nodes l c : In e elements -> built e nodes -> same_weights e l c = true ->
  to_global e nodes l = weighted nodes (map Q2R (weights (List.length (e_coords e)) c)).
Proof.
  intros He B S. apply andb_prop in S. destruct S as (S & L). apply Nat.eqb_eq in L. unfold to_global, LocalToGlobal.
  rewrite <- (all_shapes_match e He). rewrite (map_ext _ (fun w => Q2R (evQ (lX l) (lY l) (lZ l) w))) by (intros; symmetry; apply evQ_ev).
  rewrite <- (map_map (evQ _ _ _) Q2R). apply weighted_Q; [|exact S]. unfold weights. rewrite !map_length, seq_length. exact L.
Qed.

Definition linear_cells : list Element := [Tetrahedron4; Wedge6; Hexahedron8].
Definition all_same (e : Element) : bool :=
  forallb (fun lc => same_weights e (fst lc) (snd lc)) (combine (vtk_locals (List.length (e_coords e))) (vtk_nodes (List.length (e_coords e)))).
Lemma linear_same : forallb all_same linear_cells = true.
Proof. vm_compute. reflexivity. Qed.

Lemma Q2R_inv p : Q2R (1 # p) = / IZR (Zpos p).
Proof. unfold Q2R. cbn [Qnum Qden]. ring. Qed.

Lemma middle_weighted e nodes c : In e linear_cells -> built e nodes -> In c (vtk_nodes (List.length (e_coords e))) ->
  weighted nodes (map Q2R (weights (List.length (e_coords e)) c)) = middle nodes c.
Proof.
  intros He B Hc. unfold built in B.
  destruct He as [<-|[<-|[<-|[]]]]; cbn in B;
    repeat (let a := fresh "a" in let b := fresh "b" in let d := fresh "d" in destruct nodes as [|[a b d] nodes]; try discriminate B); clear B;
    cbn in Hc; repeat (destruct Hc as [<-|Hc]; [|try contradiction Hc]);
    cbn [weights e_coords Tetrahedron4 Wedge6 Hexahedron8 Tetrahedron4_coords Wedge6_coords firstn Hexahedron27_coords List.length seq map existsb Nat.eqb orb Pos.of_nat Pos.succ weighted];
    unfold middle; cbn [fold_right nth List.length INR]; rewrite ?Q2R_inv, ?Q2R_0; 
    unfold vadd, vscale, v0; cbn [vx vy vz]; f_equal; lra.
Qed.

Lemma linear_points e nodes : In e linear_cells -> built e nodes ->
  map (to_global e nodes) (vtk_locals (List.length nodes)) = map (middle nodes) (vtk_nodes (List.length nodes)).
Proof.
  intros He B. assert (In e elements) as Hee by (destruct He as [<-|[<-|[<-|[]]]]; cbn; tauto).
  unfold built in B. rewrite B. pose proof linear_same as S. rewrite forallb_forall in S. specialize (S e He). unfold all_same in S.
  unfold vtk_locals in *. rewrite map_map. apply map_ext_in. intros c Hc.
  rewrite (point_of_weights e nodes _ c Hee B).
  - apply middle_weighted; assumption.
  - rewrite forallb_forall in S. apply (S (middleQ (reference_corners (List.length (e_coords e))) c, c)).
    clear S. induction (vtk_nodes (List.length (e_coords e))) as [|d l IH]; [contradiction Hc|]. cbn [map combine]. destruct Hc as [->|Hc]; [left; reflexivity|right; apply IH, Hc].
Qed.

(** the nodes of quadratic cells *)
Lemma node_point e nodes l j : In e elements -> built e nodes -> (j < List.length (e_coords e))%nat -> at_ (e_coords e) j = l ->
  to_global e nodes l = nth j nodes v0.
Proof.
  intros He B Lj E. pose proof (LocalToGlobal_node e nodes j He B Lj) as N. unfold node, real in N. rewrite E in N. exact N.
Qed.

(** ** Names of files *)
Lemma substring_all s : forall n, (String.length s <= n)%nat -> substring 0 n s = s.
Proof.
  induction s as [|c s IH]; intros n L; cbn [String.length] in L; [destruct n; reflexivity|].
  destruct n as [|n]; [lia|]. cbn [substring]. rewrite IH by lia. reflexivity.
Qed.
Lemma decimal_inj m n : decimal m = decimal n -> m = n.
Proof.
  unfold decimal. intros E. apply (f_equal NilEmpty.uint_of_string) in E. rewrite !NilEmpty.usu in E. injection E as E.
  rewrite <- (Unsigned.of_to m), <- (Unsigned.of_to n), E. reflexivity.
Qed.
Lemma append_inj_l a : forall b c, append a b = append a c -> b = c.
Proof. induction a as [|x a IH]; intros b c E; cbn in E; [exact E|]. injection E as E. apply IH, E. Qed.
Lemma append_len a b : String.length (append a b) = (String.length a + String.length b)%nat.
Proof. induction a as [|x a IH]; cbn [append String.length]; [reflexivity|]. rewrite IH. lia. Qed.
Lemma append_inj_r : forall a b c, append a c = append b c -> a = b.
Proof.
  induction a as [|x a IH]; intros [|y b] c E; cbn [append] in E.
  - reflexivity.
  - apply (f_equal String.length) in E. cbn [String.length] in E. rewrite append_len in E. lia.
  - apply (f_equal String.length) in E. cbn [String.length] in E. rewrite append_len in E. lia.
  - injection E as -> E. f_equal. apply (IH _ _ E).
Qed.
Lemma NoDup_map_in {A B} (f : A -> B) l : (forall a b, In a l -> In b l -> f a = f b -> a = b) -> NoDup l -> NoDup (map f l).
Proof.
  induction l as [|x l IH]; intros I N; cbn [map]; [constructor|]. inversion N as [|? ? N1 N2]; subst. constructor.
  - intros H. apply in_map_iff in H. destruct H as (y & E & Y). apply N1. rewrite (I x y); [exact Y|left; reflexivity|right; exact Y|symmetry; exact E].
  - apply IH; [|exact N2]. intros a b Ha Hb. apply I; right; assumption.
Qed.
