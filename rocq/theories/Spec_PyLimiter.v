(** What limiters are for. *)
From Coq Require Import Reals List.
Import ListNotations.
Open Scope R_scope.

(** the sum of functions with weights *)
Definition mix (ws : list R) (parts : list (R -> R)) (x : R) : R := fold_right (fun wp s => fst wp * snd wp x + s) 0 (combine ws parts).
(** [f] is an average of [parts] with positive weights *)
Definition convex (parts : list (R -> R)) (f : R -> R) : Prop :=
  exists ws, length ws = length parts /\ List.Forall (fun w => 0 < w) ws /\ fold_right Rplus 0 ws = 1 /\ forall x, f x = mix ws parts x.
(** the neighbors which are there *)
Definition neighbors {A} (left right : option A) : list A :=
  match left with Some l => [l] | None => [] end ++ match right with Some r => [r] | None => [] end.
