(** Explicit Runge-Kutta methods given by a tableau. *)
From Coq Require Import Reals List.
From Verif Require Import Model_Temporal.
Import ListNotations.
Open Scope R_scope.

Section Butcher.
  Context {I : Type}.
  (** sum of multiples of columns *)
  Fixpoint combination (w : list R) (k : list (Column I)) (i : I) : R :=
    match w, k with a :: w, u :: k => a * u i + combination w k i | _, _ => 0 end.
  (** the slopes, one after the other; a row of the tableau is (c, [a_1; ...]) *)
  Fixpoint slopes (f : R -> Column I -> Column I) (t h : R) (u : Column I) (rows : list (R * list R)) (k : list (Column I)) : list (Column I) :=
    match rows with
    | [] => k
    | (c, a) :: rows => slopes f t h u rows (k ++ [f (t + c * h) (fun i => u i + h * combination a k i)])
    end.
  Definition butcher (rows : list (R * list R)) (b : list R) (f : R -> Column I -> Column I) (t h : R) (u : Column I) (i : I) : R :=
    u i + h * combination b (slopes f t h u rows []) i.
End Butcher.

(** sums over stages *)
Fixpoint dot (x y : list R) : R := match x, y with a :: x, b :: y => a * b + dot x y | _, _ => 0 end.
Definition nodes (rows : list (R * list R)) : list R := map fst rows.
Definition apply_a (rows : list (R * list R)) (x : list R) : list R := map (fun r => dot (snd r) x) rows.
Fixpoint mul (x y : list R) : list R := match x, y with a :: x, b :: y => a * b :: mul x y | _, _ => [] end.
(** the conditions of Butcher on trees with at most [order] nodes, order at most 4 *)
Definition order_conditions (order : nat) (rows : list (R * list R)) (b : list R) : Prop :=
  let c := nodes rows in let A := apply_a rows in
  ((1 <= order)%nat -> dot b (map (fun _ => 1) c) = 1) /\
  ((2 <= order)%nat -> dot b c = 1 / 2) /\
  ((3 <= order)%nat -> dot b (mul c c) = 1 / 3 /\ dot b (A c) = 1 / 6) /\
  ((4 <= order)%nat -> dot b (mul c (mul c c)) = 1 / 4 /\ dot b (mul c (A c)) = 1 / 8 /\
                       dot b (A (mul c c)) = 1 / 12 /\ dot b (A (A c)) = 1 / 24) /\
  (* the nodes are the row sums *)
  List.Forall (fun r => fst r = dot (snd r) (map (fun _ => 1) (snd r))) rows.

(** ** Chains of time steps *)
Section Chain.
  Context {S : Type} (update : S -> R -> R -> option S) (suggestions : S -> list R).
  (** steps from (s, t) to (s', t'), listed as pairs of time and length: each step is an update, no longer than
      the greatest step allowed and than any of the suggestions *)
  Inductive chain (dt_max : R) : S -> R -> list (R * R) -> S -> R -> Prop :=
  | Done s t : chain dt_max s t [] s t
  | More s t dt s1 l s' t' : update s dt t = Some s1 -> dt <= dt_max -> (forall d, In d (suggestions s) -> dt <= d) ->
      chain dt_max s1 (t + dt) l s' t' -> chain dt_max s t ((t, dt) :: l) s' t'.
End Chain.
