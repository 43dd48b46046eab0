(** Model of the class EnergyBasedViscosity as a spatial scheme wrapped around another one.
    Sources: include/mini/spatial/viscosity.hpp 59-155 and include/mini/spatial/fem.hpp 55-61, 125-226.
    The wrapper is itself a FiniteElement, so that there are two records of boundary conditions and two current times,
    its own and those of the wrapped scheme, but only one part.  The wrapped scheme is the discontinuous Galerkin scheme
    of [Model_DG]; how columns get into the coefficients of the part is arbitrary ([load], [store]).
    Not here: the damping matrices, which are in [Model_Damping]. *)
From Coq Require Import Reals List String.
From Verif Require Import Vec3 Arrays Model_Dofs Model_DG.
Import ListNotations.

(** viscosity.hpp:59-61 and fem.hpp:55-61: the two schemes and the part to which both of them point *)
Record world := World {
  own : fem;        (* the members that the wrapper inherits from FiniteElement *)
  base : fem;       (* the members of [*base_ptr_] *)
  the_part : part   (* [*part_ptr_] *)
}.

(** the object on which a method is called *)
Inductive object := Base | Wrapper.

(** the public methods that change something, with their arguments: fem.hpp:125-153 *)
Inductive call :=
| CallSmartBoundary (name : string) (f : func)
| CallSupersonicInlet (name : string) (f : func)
| CallSubsonicInlet (name : string) (f : func)
| CallSubsonicOutlet (name : string) (f : func)
| CallSolidWall (name : string)
| CallSupersonicOutlet (name : string)
| CallTime (t : R)
| CallSolution (c : column).

(** fem.hpp:150-152 *)
Definition FiniteElement_SetTime (s : fem) (t : R) : fem :=
  Fem (solid_wall s) (supersonic_outlet s) (supersonic_inlet s) (subsonic_inlet s) (subsonic_outlet s)
      (smart_boundary s) t.

(** viscosity.hpp:59-61: [Base(base_ptr->part_ptr())] makes a scheme without boundary conditions, and with an
    uninitialised time, here [t] *)
Definition EnergyBasedViscosity_ctor (t : R) (b : fem) (p : part) : world := World (Fem [] [] [] [] [] [] t) b p.

Section Decorator.
  Variables K N kDegrees : nat.
  Variable load : column -> part -> option part.     (* [FiniteElement::SetSolutionColumn], fem.hpp:153-161 *)
  Variable store : part -> option column.            (* [FiniteElement::GetSolutionColumn], fem.hpp:162-172 *)

  (** fem.hpp:126-147 are not virtual: they change the object on which they are called *)
  Definition on_members (w : world) (o : object) (f : fem -> fem) : world :=
    match o with
    | Base => World (own w) (f (base w)) (the_part w)
    | Wrapper => World (f (own w)) (base w) (the_part w)
    end.

  (** fem.hpp:150-152 for the base, viscosity.hpp:123-125 for the wrapper *)
  Definition SetTime (w : world) (o : object) (t : R) : world :=
    match o with
    | Base => World (own w) (FiniteElement_SetTime (base w) t) (the_part w)
    | Wrapper => World (own w) (FiniteElement_SetTime (base w) t) (the_part w)
    end.

  (** fem.hpp:153-161 for the base, viscosity.hpp:120-122 for the wrapper *)
  Definition SetSolutionColumn (w : world) (o : object) (c : column) : option world :=
    match o with
    | Base => do p <- load c (the_part w); Some (World (own w) (base w) p)
    | Wrapper => do p <- load c (the_part w); Some (World (own w) (base w) p)
    end.

  Definition do_call (w : world) (oc : object * call) : option world :=
    let (o, c) := oc in
    match c with
    | CallSmartBoundary name f => Some (on_members w o (fun s => SetSmartBoundary s name f))
    | CallSupersonicInlet name f => Some (on_members w o (fun s => SetSupersonicInlet s name f))
    | CallSubsonicInlet name f => Some (on_members w o (fun s => SetSubsonicInlet s name f))
    | CallSubsonicOutlet name f => Some (on_members w o (fun s => SetSubsonicOutlet s name f))
    | CallSolidWall name => Some (on_members w o (fun s => SetSolidWall s name))
    | CallSupersonicOutlet name => Some (on_members w o (fun s => SetSupersonicOutlet s name))
    | CallTime t => Some (SetTime w o t)
    | CallSolution c => SetSolutionColumn w o c
    end.
  (** a program: its calls one after another *)
  Definition run (calls : list (object * call)) (w : world) : option world := foldM do_call calls w.

  (** fem.hpp:173-183 for the base, viscosity.hpp:114-116 for the wrapper *)
  Definition GetResidualColumn (w : world) (o : object) : option column :=
    match o with
    | Base => Model_DG.GetResidualColumn K N kDegrees (base w) (the_part w)
    | Wrapper => Model_DG.GetResidualColumn K N kDegrees (base w) (the_part w)
    end.
  (** fem.hpp:162-172 for the base, viscosity.hpp:117-119 for the wrapper *)
  Definition GetSolutionColumn (w : world) (o : object) : option column :=
    match o with
    | Base => store (the_part w)
    | Wrapper => store (the_part w)
    end.

  (** the virtual methods of viscosity.hpp:142-157: called on the wrapper, they use the members of the base;
      called on the base, general.hpp:108-212 *)
  Definition members (w : world) (o : object) : fem := match o with Base => base w | Wrapper => base w end.
  Definition ApplySolidWall (w : world) (o : object) (r : column) : option column :=
    on_names K N (the_part w) wall_at (solid_wall (members w o)) r.
  Definition ApplySupersonicInlet (w : world) (o : object) (r : column) : option column :=
    on_pairs K N (the_part w) (sup_in_at (t_curr (members w o))) (supersonic_inlet (members w o)) r.
  Definition ApplySupersonicOutlet (w : world) (o : object) (r : column) : option column :=
    on_names K N (the_part w) sup_out_at (supersonic_outlet (members w o)) r.
  Definition ApplySubsonicInlet (w : world) (o : object) (r : column) : option column :=
    on_pairs K N (the_part w) (sub_in_at (t_curr (members w o))) (subsonic_inlet (members w o)) r.
  Definition ApplySubsonicOutlet (w : world) (o : object) (r : column) : option column :=
    on_pairs K N (the_part w) (sub_out_at (t_curr (members w o))) (subsonic_outlet (members w o)) r.
  Definition ApplySmartBoundary (w : world) (o : object) (r : column) : option column :=
    on_pairs K N (the_part w) (smart_at (t_curr (members w o))) (smart_boundary (members w o)) r.
  (** fem.hpp:185-226, not virtual, but what it calls is *)
  Definition AddFluxOnBoundaries (w : world) (o : object) (r : column) : option column :=
    do r <- ApplySolidWall w o r;
    do r <- ApplySupersonicInlet w o r;
    do r <- ApplySupersonicOutlet w o r;
    do r <- ApplySubsonicInlet w o r;
    do r <- ApplySubsonicOutlet w o r;
    ApplySmartBoundary w o r.
End Decorator.
