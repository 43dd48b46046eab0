(** C108: EnergyBasedViscosity is transparent: used in place of the scheme it wraps, it gives the same results.
    False for boundary conditions: those set on the wrapper are ignored. *)
From Coq Require Import Reals List Arith Lia Lra String.
From Verif Require Import Vec3 Arrays RSum Model_Dofs Model_DG Spec_DG Proof_DG Prop_DG Model_Decorator Spec_Decorator.
Import ListNotations.
Open Scope R_scope.

Definition outcome (K N d : nat) load store (o : object) (calls : list (object * call)) (w : world) :=
  option_map (fun w => observations K N d store w o) (run load calls w).

Lemma observations_base K N d store w o w' o' :
  base w = base w' -> the_part w = the_part w' -> observations K N d store w o = observations K N d store w' o'.
Proof.
  destruct w as [a b p], w' as [a' b' p']. cbn [base the_part]. intros -> ->. destruct o, o'; reflexivity.
Qed.

Lemma run_cons load oc calls w : run load (oc :: calls) w = match do_call load w oc with Some w' => run load calls w' | None => None end.
Proof. unfold run. cbn [foldM]. unfold bind. destruct (do_call load w oc); reflexivity. Qed.

Lemma run_base K N d load store calls : forall w w' o o', conditions_on_base calls ->
  base w = base w' -> the_part w = the_part w' ->
  outcome K N d load store o calls w = outcome K N d load store o' (unwrapped calls) w'.
Proof.
  unfold outcome. induction calls as [|[x c] calls IH]; intros w w' o o' CB E1 E2.
  - unfold run. cbn [unwrapped map foldM option_map]. f_equal. apply observations_base; assumption.
  - cbn [unwrapped map snd]. fold (unwrapped calls). rewrite !run_cons.
    assert (CB' : conditions_on_base calls) by (intros c' I; apply CB; right; exact I).
    assert (S : is_condition c -> x = Base).
    { destruct x; [reflexivity|]. intros I. exfalso. apply (CB c (or_introl eq_refl) I). }
    destruct w as [a b p], w' as [a' b' p']. cbn [base the_part] in E1, E2. subst b' p'.
    destruct c; try (rewrite (S I)); cbn [do_call on_members]; try (apply IH; auto; fail).
    + destruct x; cbn [Model_Decorator.SetTime]; apply IH; auto.
    + destruct x; cbn [Model_Decorator.SetSolutionColumn the_part]; unfold bind;
        (destruct (load _ p); [apply IH; auto|reflexivity]).
Qed.

(** whatever is called on either object, if the boundary conditions are set on the wrapped scheme, then the wrapper
    shows what the scheme alone would show after the same calls *)
Theorem C108_transparent : forall K N d load store t b p calls,
  conditions_on_base calls ->
  outcome K N d load store Wrapper calls (EnergyBasedViscosity_ctor t b p)
  = outcome K N d load store Base (unwrapped calls) (EnergyBasedViscosity_ctor t b p).
Proof. intros. apply run_base; auto. Qed.
Print Assumptions C108_transparent.

(** and both objects always show the same *)
Theorem C108_same : forall K N d load store calls w,
  outcome K N d load store Wrapper calls w = outcome K N d load store Base calls w.
Proof.
  intros. unfold outcome. destruct (run load calls w) as [w'|]; [|reflexivity]. cbn [option_map]. f_equal.
Qed.
Print Assumptions C108_same.

(** the fluxes on the boundaries are the part of the residual that depends on the conditions *)
Theorem C108_boundaries : forall K N w o r,
  Model_Decorator.AddFluxOnBoundaries K N w o r = Model_DG.AddFluxOnBoundaries K N (base w) (the_part w) r.
Proof. intros K N w []; reflexivity. Qed.
Print Assumptions C108_boundaries.

(** each call made on the wrapped scheme acts on it as without the wrapper; the time and the solution may be set on either *)
Theorem C108_calls : forall K N d load w o x name f t c,
  let after oc := option_map (fun w => Model_Decorator.GetResidualColumn K N d w o) (run load [oc] w) in
  let residual s := Some (Model_DG.GetResidualColumn K N d s (the_part w)) in
  after (Base, CallSolidWall name) = residual (SetSolidWall (base w) name) /\
  after (Base, CallSupersonicOutlet name) = residual (SetSupersonicOutlet (base w) name) /\
  after (Base, CallSupersonicInlet name f) = residual (SetSupersonicInlet (base w) name f) /\
  after (Base, CallSubsonicInlet name f) = residual (SetSubsonicInlet (base w) name f) /\
  after (Base, CallSubsonicOutlet name f) = residual (SetSubsonicOutlet (base w) name f) /\
  after (Base, CallSmartBoundary name f) = residual (SetSmartBoundary (base w) name f) /\
  after (x, CallTime t) = residual (Fem (solid_wall (base w)) (supersonic_outlet (base w)) (supersonic_inlet (base w))
    (subsonic_inlet (base w)) (subsonic_outlet (base w)) (smart_boundary (base w)) t) /\
  after (x, CallSolution c) = option_map (Model_DG.GetResidualColumn K N d (base w)) (load c (the_part w)).
Proof.
  intros K N d load [a b p] o x name f t c. cbv zeta. do 6 (split; [destruct o; reflexivity|]).
  split; [destruct o, x; reflexivity|].
  rewrite run_cons. cbn [do_call]. destruct x; cbn [Model_Decorator.SetSolutionColumn Model_Decorator.the_part]; unfold bind;
    destruct (load c p); destruct o; reflexivity.
Qed.
Print Assumptions C108_calls.

Definition no_load : column -> part -> option part := fun _ p => Some p.
Definition no_store : part -> option column := fun _ => None.
Definition nothing_set : fem := Fem [] [] [] [] [] [] 0.

Lemma first_coefficient : forall r r' : column,
  Model_DG.GetResidualColumn 1 1 0 nothing_set two_cells = Some r ->
  Model_DG.GetResidualColumn 1 1 0 (SetSolidWall nothing_set "wall") two_cells = Some r' ->
  at_ r 0%nat = 7 * 13 / 2 /\ at_ r' 0%nat = 7 * 13 / 2 - 6.
Proof.
  intros r r' E E'. destruct two_cells_ok as [P _].
  destruct (C20_weak_form 1 1 0 nothing_set two_cells P) as (q & F & _ & W).
  destruct (C20_weak_form 1 1 0 (SetSolidWall nothing_set "wall") two_cells P) as (q' & F' & _ & W').
  assert (r = q) by congruence. assert (r' = q') by congruence. subst q q'. clear E E' F F'.
  pose proof (W _ 0%nat 0%nat (or_intror (or_introl eq_refl)) ltac:(lia) ltac:(lia)) as W1.
  pose proof (W' _ 0%nat 0%nat (or_intror (or_introl eq_refl)) ltac:(lia) ltac:(lia)) as W2.
  unfold weak_form, face_term in W1, W2. cbn -[IZR Rinv] in W1, W2. rewrite W1, W2. split; field.
Qed.

(** the same program with and without the wrapper *)
Theorem C108_conditions_refuted : exists t b p calls r r',
  part_ok p
  /\ (forall o c, In (o, c) calls -> o = Wrapper)
  /\ option_map (fun w => Model_Decorator.GetResidualColumn 1 1 0 w Wrapper)
       (run no_load calls (EnergyBasedViscosity_ctor t b p)) = Some (Some r)
  /\ option_map (fun w => Model_Decorator.GetResidualColumn 1 1 0 w Base)
       (run no_load (unwrapped calls) (EnergyBasedViscosity_ctor t b p)) = Some (Some r')
  /\ at_ r 0%nat <> at_ r' 0%nat.
Proof.
  destruct two_cells_ok as [P _].
  destruct (C20_weak_form 1 1 0 nothing_set two_cells P) as (r & E & _).
  destruct (C20_weak_form 1 1 0 (SetSolidWall nothing_set "wall") two_cells P) as (r' & E' & _).
  exists 0, nothing_set, two_cells, [(Wrapper, CallSolidWall "wall"%string)], r, r'.
  split; [exact P|]. split; [intros o c [[= <- <-]|[]]; reflexivity|].
  split; [unfold run; cbn [foldM do_call bind on_members EnergyBasedViscosity_ctor option_map Model_Decorator.GetResidualColumn base the_part]; rewrite E; reflexivity|].
  split; [unfold run; cbn [unwrapped map snd foldM do_call bind on_members EnergyBasedViscosity_ctor option_map Model_Decorator.GetResidualColumn base the_part]; rewrite E'; reflexivity|].
  destruct (first_coefficient r r' E E') as [-> ->]. lra.
Qed.
Print Assumptions C108_conditions_refuted.

(** a wall is set on the scheme, the time on the wrapper: the wrapper gives the residual with the wall *)
Example C108_nonvacuous : exists r,
  conditions_on_base [(Base, CallSolidWall "wall"%string); (Wrapper, CallTime 5)]
  /\ option_map (fun w => (t_curr (base w), Model_Decorator.GetResidualColumn 1 1 0 w Wrapper))
       (run no_load [(Base, CallSolidWall "wall"%string); (Wrapper, CallTime 5)] (EnergyBasedViscosity_ctor 0 nothing_set two_cells))
     = Some (5, Some r)
  /\ at_ r 0%nat = 7 * 13 / 2 - 6.
Proof.
  destruct two_cells_ok as [P _].
  destruct (C20_weak_form 1 1 0 nothing_set two_cells P) as (q & F & _).
  destruct (C20_weak_form 1 1 0 (SetSolidWall nothing_set "wall") two_cells P) as (r & E & _).
  exists r. split; [intros c [I|[I|[]]]; [discriminate I|injection I; intros <-; intros []]|].
  split; [|exact (proj2 (first_coefficient q r F E))].
  unfold run. cbn [foldM do_call bind on_members EnergyBasedViscosity_ctor option_map Model_Decorator.SetTime Model_Decorator.GetResidualColumn base the_part own t_curr FiniteElement_SetTime].
  change (Some (5, Model_DG.GetResidualColumn 1 1 0 (SetSolidWall (Fem [] [] [] [] [] [] 5) "wall") two_cells) = Some (5, Some r)).
  rewrite <- E. reflexivity.
Qed.
