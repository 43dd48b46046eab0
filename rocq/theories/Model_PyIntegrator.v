(** Model of the coordinates and integrators of the Python package: coordinate.py, integrator.py and the
    classes [Coordinate] and [Integrator] of concept.py, lines 32-182.  Numbers are real numbers; decimal
    constants are the rational numbers they denote.  [None]: a failed assertion or a division by zero. *)
From Coq Require Import Reals QArith Qreals List Arith.
From Verif Require Import Arrays Model_PyEuler.
Import ListNotations.
Open Scope R_scope.

(** ** Coordinates *)

(** [Linear] (coordinate.py 49-55) and [Shifted] (coordinate.py 6-12) *)
Inductive Coordinate := Linear (x_left x_right : R) | Shifted (unshifted : Coordinate) (x_shift : R).
(** [self._x_center] and [self._jacobian] of [Linear] (coordinate.py 54-55) *)
Definition linear_center (a b : R) : R := (a + b) / 2.
Definition linear_jacobian (a b : R) : R := (b - a) / 2.
(** coordinate.py 17-19, 60-61 *)
Fixpoint local_to_global (c : Coordinate) (x_local : R) : R :=
  match c with
  | Linear a b => linear_center a b + x_local * linear_jacobian a b
  | Shifted c s => local_to_global c x_local + s
  end.
(** coordinate.py 21-23, 63-64 *)
Fixpoint global_to_local (c : Coordinate) (x_global : R) : option R :=
  match c with
  | Linear a b => div (x_global - linear_center a b) (linear_jacobian a b)
  | Shifted c s => global_to_local c (x_global - s)
  end.
(** coordinate.py 25-26, 66-67 *)
Fixpoint local_to_jacobian (c : Coordinate) (x_local : R) : R :=
  match c with Linear a b => linear_jacobian a b | Shifted c s => local_to_jacobian c x_local end.
(** coordinate.py 28-30, 69-70 *)
Fixpoint global_to_jacobian (c : Coordinate) (x_global : R) : R :=
  match c with Linear a b => linear_jacobian a b | Shifted c s => global_to_jacobian c (x_global - s) end.
(** coordinate.py 14-15, 57-58 *)
Fixpoint jacobian_degree (c : Coordinate) : nat :=
  match c with Linear _ _ => O | Shifted c _ => jacobian_degree c end.
(** coordinate.py 32-42, 72-79 *)
Fixpoint x_left (c : Coordinate) : R := match c with Linear a b => a | Shifted c s => x_left c + s end.
Fixpoint x_right (c : Coordinate) : R := match c with Linear a b => b | Shifted c s => x_right c + s end.
Fixpoint x_center (c : Coordinate) : R := match c with Linear a b => linear_center a b | Shifted c s => x_center c + s end.
(** coordinate.py 44-45; concept.py 77-80 for [Linear] *)
Fixpoint length_of (c : Coordinate) : R := match c with Linear a b => b - a | Shifted c s => length_of c end.

(** ** Local points and weights *)

(** the decimal constants of [GaussLobatto.get_local_points] (integrator.py 42-71), without sign *)
Definition lobatto_decimals (n : nat) : list Q :=
  match n with
  | 7%nat => [83022389627856708 # 100000000000000000; 46884879347071418 # 100000000000000000]
  | 8%nat => [87174014850960668 # 100000000000000000; 59170018143314218 # 100000000000000000;
              20929921790247885 # 100000000000000000]
  | 9%nat => [89975799541146018 # 100000000000000000; 67718627951073762 # 100000000000000000;
              36311746382617827 # 100000000000000000]
  | 10%nat => [91953390816645864 # 100000000000000000; 73877386510550491 # 100000000000000000;
               47792494981044459 # 100000000000000000; 16527895766638698 # 100000000000000000]
  | _ => []
  end.
(** [GaussLobatto.get_local_points] (integrator.py 23-81).  [None]: the failed assertion, and more than 10
    points, which are found by bisection. *)
Definition GaussLobatto_points (n : nat) : option (list R) :=
  match n with
  | 2%nat => Some [-1; 1]
  | 3%nat => Some [-1; 0; 1]
  | 4%nat => let p1 := - sqrt (1 / 5) in Some [-1; p1; - p1; 1]
  | 5%nat => let p1 := - sqrt 21 / 7 in Some [-1; p1; 0; - p1; 1]
  | 6%nat => let p1 := - sqrt ((7 + 2 * sqrt 7) / 21) in let p2 := - sqrt ((7 - 2 * sqrt 7) / 21) in
             Some [-1; p1; p2; - p2; - p1; 1]
  | 7%nat | 9%nat => let p := map (fun q => - Q2R q) (lobatto_decimals n) in
             Some ([-1] ++ p ++ [0] ++ rev (map Ropp p) ++ [1])
  | 8%nat | 10%nat => let p := map (fun q => - Q2R q) (lobatto_decimals n) in
             Some ([-1] ++ p ++ rev (map Ropp p) ++ [1])
  | _ => None
  end.
(** the decimal constants of [GaussLobatto.get_local_weights] (integrator.py 100-121): the first half, with
    the middle one for odd numbers *)
Definition lobatto_weight_decimals (n : nat) : list Q :=
  match n with
  | 7%nat => [476190476190476 # 10000000000000000; 2768260473615660 # 10000000000000000;
              4317453812098626 # 10000000000000000; 4876190476190476 # 10000000000000000]
  | 8%nat => [357142857142857 # 10000000000000000; 2107042271435061 # 10000000000000000;
              3411226924835044 # 10000000000000000; 4124587946587039 # 10000000000000000]
  | 9%nat => [277777777777778 # 10000000000000000; 1654953615608056 # 10000000000000000;
              2745387125001618 # 10000000000000000; 3464285109730465 # 10000000000000000;
              3715192743764172 # 10000000000000000]
  | 10%nat => [222222222222222 # 10000000000000000; 1333059908510700 # 10000000000000000;
               2248893420631265 # 10000000000000000; 2920426836796839 # 10000000000000000;
               3275397611838974 # 10000000000000000]
  | _ => []
  end.
(** [GaussLobatto.get_local_weights] (integrator.py 84-128); two points are treated by the last branch
    (integrator.py 122-127) *)
Definition GaussLobatto_weights (n : nat) : option (list R) :=
  match n with
  | 2%nat => let w := 2 / INR n / (INR n - 1) in Some [w; w]
  | 3%nat => Some [1 / 3; 4 / 3; 1 / 3]
  | 4%nat => Some [1 / 6; 5 / 6; 5 / 6; 1 / 6]
  | 5%nat => Some [1 / 10; 49 / 90; 32 / 45; 49 / 90; 1 / 10]
  | 6%nat => Some [1 / 15; (14 - sqrt 7) / 30; (14 + sqrt 7) / 30; (14 + sqrt 7) / 30; (14 - sqrt 7) / 30; 1 / 15]
  | 7%nat | 9%nat => let w := map Q2R (lobatto_weight_decimals n) in Some (w ++ tl (rev w))
  | 8%nat | 10%nat => let w := map Q2R (lobatto_weight_decimals n) in Some (w ++ rev w)
  | _ => None
  end.

(** ** Integrators *)

(** [Integrator.__init__] (concept.py 97-107): global points and weights *)
Record Integrator := mkIntegrator { i_coordinate : Coordinate; global_points : list R; global_weights : list R }.
Definition Integrator_init (c : Coordinate) (points weights : list R) : option Integrator :=
  match points with
  | [] => None
  | _ => Some (mkIntegrator c (map (local_to_global c) points)
      (map (fun pw => snd pw * local_to_jacobian c (fst pw)) (combine points weights)))
  end.
(** [Integrator.integrate] (concept.py 127-140): the first value, then the others are added *)
Definition integrate (i : Integrator) (f : R -> R) : R :=
  match combine (global_points i) (global_weights i) with
  | [] => 0
  | (x, w) :: rest => fold_left (fun value pw => value + snd pw * f (fst pw)) rest (w * f x)
  end.
(** [Integrator.average] (concept.py 142-146) *)
Definition average (i : Integrator) (f : R -> R) : option R := div (integrate i f) (length_of (i_coordinate i)).
(** [norm_1], [norm_2] and [inner_product] (concept.py 148-160, 179-182) *)
Definition norm_1 (i : Integrator) (f : R -> R) : R := integrate i (fun x => Rabs (f x)).
Definition norm_2 (i : Integrator) (f : R -> R) : R := sqrt (integrate i (fun x => Rabs (f x) ^ 2)).
Definition inner_product (i : Integrator) (phi psi : R -> R) : R := integrate i (fun x => phi x * psi x).
