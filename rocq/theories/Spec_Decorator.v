(** What it means for one scheme to be wrapped around another. *)
From Coq Require Import List.
From Verif Require Import Model_Dofs Model_DG Model_Decorator.
Import ListNotations.

(** the call sets a boundary condition *)
Definition is_condition (c : call) : Prop :=
  match c with CallTime _ | CallSolution _ => False | _ => True end.

(** no boundary condition is set on the wrapper *)
Definition conditions_on_base (calls : list (object * call)) : Prop :=
  forall c, In (Wrapper, c) calls -> ~ is_condition c.

(** the same program without the wrapper *)
Definition unwrapped (calls : list (object * call)) : list (object * call) :=
  map (fun oc => (Base, snd oc)) calls.

(** what can be seen of a scheme: the residual, the solution, the fluxes on the boundaries *)
Definition observations (K N d : nat) (store : part -> option column) (w : world) (o : object) :=
  (Model_Decorator.GetResidualColumn K N d w o, GetSolutionColumn store w o,
   fun r => Model_Decorator.AddFluxOnBoundaries K N w o r).
