(** What flux reconstruction is for. *)
From Coq Require Import Reals.
From Coquelicot Require Import Coquelicot.
From Verif Require Import Spec_PyPoly.
Open Scope R_scope.

(** a pair of correction functions, given with their slopes: polynomials, one at their own end and zero at the other *)
Definition proper (degree : nat) (value slope : R -> R * R) : Prop :=
  corrects (fun x => fst (value x)) (fun x => snd (value x)) /\
  (forall x, is_derive (fun x => fst (value x)) x (fst (slope x)) /\ is_derive (fun x => snd (value x)) x (snd (slope x))) /\
  polynomial degree (fun x => fst (value x)) /\ polynomial degree (fun x => snd (value x)).
(** a flux that continues the given ones *)
Definition continues (a b : R) (flux : R -> option R) (flux_in flux_out : R) : Prop :=
  flux a = Some flux_in /\ flux b = Some flux_out.
