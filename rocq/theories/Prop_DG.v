(** C20, C78 and C79: the residual of the discontinuous Galerkin scheme, its boundary conditions, and columns
    of degrees of freedom. *)
From Coq Require Import Reals List Arith Lia Lra Bool String.
From Verif Require Import Vec3 Arrays RSum Model_Dofs Model_DG Spec_DG Proof_Dofs Proof_DG.
Import ListNotations.
Open Scope R_scope.

(** C20.  No assertion fails, and the residual of a cell is the weak form tested with its basis functions. *)
Theorem C20_weak_form : forall K N kDegrees s p, part_ok p ->
  exists r, GetResidualColumn K N kDegrees s p = Some r
    /\ size r = (K * N * List.length (local_cells p))%nat
    /\ forall c j k, In c (local_cells p) -> (j < N)%nat -> (k < K)%nat ->
         at_ r (address K N (c_id c) j k) = weak_form kDegrees s p c j k.
Proof. exact weak_form_main. Qed.
Print Assumptions C20_weak_form.

(** C20.  The integral of the residual over all cells of a part is minus what leaves through the boundary
    and through the interfaces with other parts. *)
Theorem C20_conservation : forall K N kDegrees s p r, part_ok p ->
  (forall c, In c (local_cells p) -> basis_ok N c) -> (0 < N)%nat ->
  GetResidualColumn K N kDegrees s p = Some r -> forall k, (k < K)%nat ->
  lsum (local_cells p) (cell_integral K N r k)
  = - lsum (conditions s p) (fun '(fs, flux_at) => lsum fs (flux_through flux_at k))
    - lsum (ghost_faces p) (flux_through upwind_at k).
Proof. intros K N d s p r P B NP E k L. exact (conservation_main K N d s p P B NP r E k L). Qed.
Print Assumptions C20_conservation.

(** C20.  The fluxes in the statements above: the upwind flux of the values of the two cells in the point, and
    on the boundary the functions of the Riemann solver called with the value of the holder and with the
    given value in the point at the current time, in this order. *)
Theorem C20_fluxes : forall f q t given,
  upwind_at f q = GetFluxUpwind (f_riemann f q) (c_value (holder f) (f_coord f q)) (c_value (sharer f) (f_coord f q))
  /\ wall_at f q = GetFluxOnSolidWall (f_riemann f q) (c_value (holder f) (f_coord f q))
  /\ sup_out_at f q = GetFluxOnSupersonicOutlet (f_riemann f q) (c_value (holder f) (f_coord f q))
  /\ sup_in_at t given f q = GetFluxOnSupersonicInlet (f_riemann f q) (given (f_coord f q) t)
  /\ sub_in_at t given f q
     = GetFluxOnSubsonicInlet (f_riemann f q) (c_value (holder f) (f_coord f q)) (given (f_coord f q) t)
  /\ sub_out_at t given f q
     = GetFluxOnSubsonicOutlet (f_riemann f q) (c_value (holder f) (f_coord f q)) (given (f_coord f q) t)
  /\ smart_at t given f q
     = GetFluxOnSmartBoundary (f_riemann f q) (c_value (holder f) (f_coord f q)) (given (f_coord f q) t).
Proof. intros. repeat split. Qed.
Print Assumptions C20_fluxes.

(** C20 on several parts.  The faces between parts come in pairs, one in each part, with opposite fluxes;
    then the integral of the residual over the whole mesh is minus what leaves through the boundary. *)
Theorem C20_conservation_parts : forall K N kDegrees (sp : list (fem * part * column)) (pairs : list (face * face)),
  (0 < N)%nat ->
  (forall s p r, In (s, p, r) sp ->
     part_ok p /\ (forall c, In c (local_cells p) -> basis_ok N c) /\ GetResidualColumn K N kDegrees s p = Some r) ->
  Permutation.Permutation (flat_map (fun '(_, p, _) => ghost_faces p) sp) (flat_map (fun '(f, g) => [f; g]) pairs) ->
  forall k, (k < K)%nat ->
  (forall f g, In (f, g) pairs -> flux_through upwind_at k f = - flux_through upwind_at k g) ->
  lsum sp (fun '(s, p, r) => lsum (local_cells p) (cell_integral K N r k))
  = - lsum sp (fun '(s, p, r) => lsum (conditions s p) (fun '(fs, flux_at) => lsum fs (flux_through flux_at k))).
Proof.
  intros K N d sp pairs NP H Pm k L O.
  assert (G : forall l : list (fem * part * column), lsum (flat_map (fun '(_, p, _) => ghost_faces p) l) (flux_through upwind_at k)
              = lsum l (fun '(_, p, _) => lsum (ghost_faces p) (flux_through upwind_at k)) :> R).
  { induction l as [|[[s p] r] l IH]; cbn [flat_map lsum]; [reflexivity|]. rewrite lsum_app, IH. reflexivity. }
  assert (Z : lsum (flat_map (fun '(f, g) => [f; g]) pairs) (flux_through upwind_at k) = 0).
  { clear -O. induction pairs as [|[f g] l IH]; cbn [flat_map lsum app]; [reflexivity|].
    rewrite (O f g (or_introl eq_refl)), IH; [ring|]. intros; apply O; right; assumption. }
  assert (PE : forall (l l' : list face) f, Permutation.Permutation l l' -> lsum l f = lsum l' f).
  { intros l l' f. induction 1; cbn; lra. }
  rewrite <- (PE _ _ _ Pm), G in Z. clear G Pm O PE.
  rewrite <- (Ropp_involutive (lsum sp (fun '(s, p, r) => lsum (local_cells p) (cell_integral K N r k)))). f_equal.
  enough (E : lsum sp (fun '(s, p, r) => lsum (local_cells p) (cell_integral K N r k))
    = - lsum sp (fun '(s, p, r) => lsum (conditions s p) (fun '(fs, flux_at) => lsum fs (flux_through flux_at k)))
      - lsum sp (fun '(_, p, _) => lsum (ghost_faces p) (flux_through upwind_at k))) by (rewrite E, Z; ring).
  clear Z. induction sp as [|[[s p] r] l IH]; cbn [lsum]; [ring|].
  rewrite IH by (intros; apply H; right; assumption).
  destruct (H s p r (or_introl eq_refl)) as (P & B & E).
  rewrite (C20_conservation K N d s p r P B NP E k L). ring.
Qed.
Print Assumptions C20_conservation_parts.

(** two cells with one point each, a face between them and a wall at either end *)
Definition two_cells : part :=
  let c i v := Cell i 1 (fun _ => v0) (fun _ => 4) (fun _ _ => / 2) (fun _ _ => v0) (fun _ _ => v) (fun _ _ => V 1 1 1) in
  let rs := Riemann (fun u w k => 3 * u k - w k) (fun u k => u k * u k) (fun u => u) (fun u => u) (fun u w => w) (fun u w => w) (fun u w => w) in
  let f h s w := Face h s 1 (fun _ => v0) (fun _ => w) (fun _ => rs) in
  let a := c 1%nat 5 in let b := c 0%nat 2 in
  Part [a; b] [f a b 7] [] (fun name => if String.eqb name "wall" then [f a a 2; f b b 3] else []).
Definition with_wall : fem := SetSolidWall (Fem [] [] [] [] [] [] 0) "wall".

Lemma two_cells_ok : part_ok two_cells /\ (forall c, In c (local_cells two_cells) -> basis_ok 1 c).
Proof.
  unfold part_ok, two_cells. split; [|intros c [<-|[<-|[]]]].
  - cbn -[v0 IZR]. repeat split.
    + repeat constructor; cbn; intuition discriminate.
    + intros c [<-|[<-|[]]]; cbn; lia.
    + destruct H as [<-|[]]. cbn. auto.
    + destruct H as [<-|[]]. cbn. auto.
    + intros f [].
    + intros name f. destruct (String.eqb name "wall"); [|intros []]. intros [<-|[<-|[]]]; cbn; auto.
  - exists (/2). repeat split; try lra. intros j L. replace j with 0%nat by lia. cbn. field.
  - exists (/2). repeat split; try lra. intros j L. replace j with 0%nat by lia. cbn. field.
Qed.

Example C20_nonvacuous :
  part_ok two_cells /\ (forall c, In c (local_cells two_cells) -> basis_ok 1 c)
  /\ exists r, GetResidualColumn 1 1 0 with_wall two_cells = Some r
     /\ map (cell_integral 1 1 r 0) (local_cells two_cells) = [-50 - 7 * 13; 7 * 13 - 12]
     /\ lsum (local_cells two_cells) (cell_integral 1 1 r 0) = - (2 * (5 * 5) + 3 * (2 * 2)).
Proof.
  destruct two_cells_ok as [P B]. split; [exact P|]. split; [exact B|].
  destruct (C20_weak_form 1 1 0 with_wall two_cells P) as (r & E & _ & W). exists r. split; [exact E|]. split.
  - cbn [two_cells local_cells map].
    pose proof (W _ 0%nat 0%nat (or_introl eq_refl) ltac:(lia) ltac:(lia)) as W1.
    pose proof (W _ 0%nat 0%nat (or_intror (or_introl eq_refl)) ltac:(lia) ltac:(lia)) as W2.
    unfold weak_form, face_term in W1, W2. cbn -[IZR Rinv] in W1, W2. unfold cell_integral. cbn -[IZR Rinv].
    f_equal; [rewrite W1; field|f_equal; rewrite W2; field].
  - rewrite (C20_conservation 1 1 0 with_wall two_cells r P B ltac:(lia) E 0%nat ltac:(lia)). cbn -[IZR]. ring.
Qed.

(** C78 is false: setting the same wall twice subtracts its flux twice. *)
Theorem C78_set_twice_refuted : exists s p name, part_ok p
  /\ option_map (fun r => at_ r 0%nat) (GetResidualColumn 1 1 0 (SetSolidWall s name) p)
     <> option_map (fun r => at_ r 0%nat) (GetResidualColumn 1 1 0 (SetSolidWall (SetSolidWall s name) name) p).
Proof.
  exists (Fem [] [] [] [] [] [] 0), two_cells, "wall"%string. destruct two_cells_ok as [P _]. split; [exact P|].
  destruct (C20_weak_form 1 1 0 (SetSolidWall (Fem [] [] [] [] [] [] 0) "wall") two_cells P) as (r & -> & _ & W).
  destruct (C20_weak_form 1 1 0 (SetSolidWall (SetSolidWall (Fem [] [] [] [] [] [] 0) "wall") "wall") two_cells P) as (r' & -> & _ & W').
  cbn [option_map]. intros E.
  assert (E' : at_ r 0%nat = at_ r' 0%nat) by congruence. clear E.
  pose proof (W _ 0%nat 0%nat (or_intror (or_introl eq_refl)) ltac:(lia) ltac:(lia)) as W1.
  pose proof (W' _ 0%nat 0%nat (or_intror (or_introl eq_refl)) ltac:(lia) ltac:(lia)) as W2.
  unfold weak_form, face_term in W1, W2. cbn -[IZR Rinv] in W1, W2. rewrite W1, W2 in E'. lra.
Qed.
Print Assumptions C78_set_twice_refuted.

(** C78 for the conditions that are given by a function: setting one twice is the same as setting it once,
    with the last function. *)
Lemma map_set_twice m name f g : map_set (map_set m name f) name g = map_set m name g.
Proof.
  induction m as [|[n h] m IH]; cbn.
  - rewrite String.eqb_refl. reflexivity.
  - destruct (String.eqb n name) eqn:E; cbn; rewrite E; [reflexivity|]. rewrite IH. reflexivity.
Qed.
Theorem C78_functions_partial : forall s name f g,
  SetSupersonicInlet (SetSupersonicInlet s name f) name g = SetSupersonicInlet s name g
  /\ SetSubsonicInlet (SetSubsonicInlet s name f) name g = SetSubsonicInlet s name g
  /\ SetSubsonicOutlet (SetSubsonicOutlet s name f) name g = SetSubsonicOutlet s name g
  /\ SetSmartBoundary (SetSmartBoundary s name f) name g = SetSmartBoundary s name g.
Proof.
  intros. unfold SetSupersonicInlet, SetSubsonicInlet, SetSubsonicOutlet, SetSmartBoundary. cbn.
  rewrite !map_set_twice. auto.
Qed.
Print Assumptions C78_functions_partial.

Example C78_nonvacuous :
  let g (v : R) := fun (_ : vec) (_ : R) (_ : nat) => v in
  map fst (subsonic_inlet (SetSubsonicInlet (SetSubsonicInlet (SetSubsonicInlet (Fem [] [] [] [] [] [] 0)
     "a" (g 1)) "b" (g 2)) "a" (g 3))) = ["a"; "b"]%string.
Proof. reflexivity. Qed.

(** C79.  Reading the solution into a column puts each coefficient at its address, and writing that column
    back restores the solution, whatever the solution was meanwhile. *)
Theorem C79_round_trip : forall K N n ids sol other garbage, (forall i, In i ids -> (i < n)%nat) ->
  exists col sol', GetSolutionColumn K N n ids sol garbage = Some col
    /\ size col = (K * N * n)%nat
    /\ (forall i j k, In i ids -> (j < N)%nat -> (k < K)%nat -> at_ col (address K N i j k) = sol i k j)
    /\ SetSolutionColumn K N n ids col other = Some sol'
    /\ (forall i j k, In i ids -> (j < N)%nat -> (k < K)%nat -> sol' i k j = sol i k j).
Proof.
  intros K N n ids sol other garbage OK.
  destruct (get_main K N n ids OK sol garbage) as (col & E & S & V).
  destruct (set_main K N n ids OK col other S) as (sol' & E' & V').
  exists col, sol'. repeat split; auto. intros i j k I J L.
  destruct (V' i j k) as [X _]. rewrite X by exact I. apply V; assumption.
Qed.
Print Assumptions C79_round_trip.

(** C79.  The other way around: for cells numbered from 0 to n-1, the column read after setting one is that
    column. *)
Theorem C79_round_trip_column : forall K N n ids col sol garbage,
  (forall i, (i < n)%nat <-> In i ids) -> size col = (K * N * n)%nat ->
  exists sol' col', SetSolutionColumn K N n ids col sol = Some sol'
    /\ GetSolutionColumn K N n ids sol' garbage = Some col'
    /\ size col' = size col /\ forall a, (a < size col)%nat -> at_ col' a = at_ col a.
Proof.
  intros K N n ids col sol garbage OK S.
  destruct (set_main K N n ids (fun i => proj2 (OK i)) col sol S) as (sol' & E & V).
  destruct (get_main K N n ids (fun i => proj2 (OK i)) sol' garbage) as (col' & E' & S' & V').
  exists sol', col'. repeat split; auto; [congruence|]. intros a L. rewrite S in L.
  assert (KN : (0 < K /\ 0 < N)%nat) by nia.
  set (i := (a / (K * N))%nat). set (b := (a mod (K * N))%nat).
  assert (Eb : a = (K * N * i + b)%nat) by (apply Nat.div_mod; nia).
  assert (Lb : (b < K * N)%nat) by (apply Nat.mod_upper_bound; nia).
  set (j := (b / K)%nat). set (k := (b mod K)%nat).
  assert (Ej : b = (K * j + k)%nat) by (apply Nat.div_mod; lia).
  assert (Lk : (k < K)%nat) by (apply Nat.mod_upper_bound; lia).
  assert (Lj : (j < N)%nat) by nia. assert (Li : (i < n)%nat) by nia.
  replace a with (address K N i j k) by (unfold address; lia).
  rewrite V' by (auto; apply OK; exact Li). destruct (V i j k) as [X _]. apply X. apply OK. exact Li.
Qed.
Print Assumptions C79_round_trip_column.

(** C79.  Adding, subtracting or scaling touches exactly the coefficients meant. *)
Theorem C79_updates : forall K N i i' j k (x : coeff) (m : nat -> R), (j < N)%nat -> (k < K)%nat ->
  AddCoeffTo K N x (K * N * i) m (address K N i' j k)
    = m (address K N i' j k) + (if (i =? i')%nat then x k j else 0)
  /\ MinusCoeff K N x (K * N * i) m (address K N i' j k)
    = m (address K N i' j k) - (if (i =? i')%nat then x k j else 0).
Proof.
  intros K N i i' j k x m J L. unfold AddCoeffTo, MinusCoeff. rewrite !for_each_address by assumption.
  destruct (i =? i')%nat; split; ring.
Qed.
Print Assumptions C79_updates.

Theorem C79_value_updates : forall K N v c off b (m : nat -> R), (b < N)%nat ->
  exists ma ms mc, AddValueTo K N v off b m = Some ma /\ MinusValue K N v off b m = Some ms
  /\ ScaleValueAt K c (m, off) = (mc, (off + K)%nat)
  /\ forall j k, (k < K)%nat ->
       ma (off + (j * K + k))%nat = m (off + (j * K + k))%nat + (if (j =? b)%nat then v k else 0)
       /\ ms (off + (j * K + k))%nat = m (off + (j * K + k))%nat - (if (j =? b)%nat then v k else 0)
       /\ mc (off + (j * K + k))%nat = m (off + (j * K + k))%nat * (if (j =? 0)%nat then c else 1).
Proof.
  intros K N v c off b m L.
  destruct (add_value K N v off b m L) as (ma & Ea & Ia & Oa).
  destruct (minus_value K N v off b m L) as (ms & Es & Is & Os).
  destruct (scale_value K c m off) as (mc & Ec & Ic & Oc).
  exists ma, ms, mc. repeat split; auto.
  - destruct (Nat.eqb_spec j b) as [->|D]; [apply Ia; assumption|]. rewrite Oa by nia. ring.
  - destruct (Nat.eqb_spec j b) as [->|D]; [apply Is; assumption|]. rewrite Os by nia. ring.
  - destruct (Nat.eqb_spec j 0) as [->|D]; [apply Ic; assumption|]. rewrite Oc by nia. ring.
Qed.
Print Assumptions C79_value_updates.

Example C79_nonvacuous :
  match GetSolutionColumn 2 3 2 [1; 0]%nat (fun i r c => INR (100 * i + 10 * r + c)) (fun _ => -1) with
  | Some col => size col = 12%nat /\ map (at_ col) (seq 0 12) = map INR [0; 10; 1; 11; 2; 12; 100; 110; 101; 111; 102; 112]%nat
  | None => False
  end.
Proof. cbn -[INR]. split; reflexivity. Qed.
