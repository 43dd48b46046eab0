(** What the bases of polynomials are expected to satisfy. *)
From Coq Require Import Reals List.
Import ListNotations.
Open Scope R_scope.

(** [d] is the [k]-th derivative of [f] at [x] *)
Fixpoint is_deriv_n (k : nat) (f : R -> R) (x d : R) : Prop :=
  match k with
  | O => d = f x
  | S k => exists g, (forall t, derivable_pt_lim f t (g t)) /\ is_deriv_n k g x d
  end.

(** the three axes, and [d] as the partial derivative of [f] with respect to the axes of [w], one after another *)
Inductive axis := AX | AY | AZ.
Definition is_partial1 (a : axis) (f g : R -> R -> R -> R) : Prop :=
  forall x y z,
  match a with
  | AX => derivable_pt_lim (fun t => f t y z) x (g x y z)
  | AY => derivable_pt_lim (fun t => f x t z) y (g x y z)
  | AZ => derivable_pt_lim (fun t => f x y t) z (g x y z)
  end.
Fixpoint is_partial (w : list axis) (f : R -> R -> R -> R) (x y z d : R) : Prop :=
  match w with
  | [] => d = f x y z
  | a :: w => exists g, is_partial1 a f g /\ is_partial w g x y z d
  end.

(** the multi-indices in the order of the columns *)
Definition columns : list (list axis) :=
  [[]; [AX]; [AY]; [AZ];
   [AX; AX]; [AX; AY]; [AX; AZ]; [AY; AY]; [AY; AZ]; [AZ; AZ];
   [AX; AX; AX]; [AX; AX; AY]; [AX; AX; AZ]; [AX; AY; AY]; [AX; AY; AZ]; [AX; AZ; AZ];
   [AY; AY; AY]; [AY; AY; AZ]; [AY; AZ; AZ]; [AZ; AZ; AZ]].
Definition components (k : nat) : nat := match k with 0 => 1 | 1 => 4 | 2 => 10 | _ => 20 end.
(** the monomial of a multi-index *)
Definition monomial (w : list axis) (x y z : R) : R :=
  fold_right (fun a v => match a with AX => x | AY => y | AZ => z end * v) 1 w.
(** the sum of [c j] times the [j]-th monomial *)
Definition combination (k : nat) (c : nat -> R) (x y z : R) : R :=
  fold_right Rplus 0 (map (fun j => c j * monomial (nth j columns []) x y z) (seq 0 (components k))).
