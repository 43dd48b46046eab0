(** The face data of the WENO limiter for the Euler equations: include/mini/riemann/rotated/euler.hpp
    lines 203-211 and include/mini/riemann/euler/eigen.hpp lines 58-62. *)
From Coq Require Import Reals List.
From Verif Require Import Model_Basis Model_Projection Model_Euler.
Import ListNotations.
Open Scope R_scope.

(** a value with 5 components as a conservative tuple (eigen.hpp line 64) *)
Definition tuple_of (u : Value) : Tuple := mkTuple (u 0%nat) (u 1%nat) [u 2%nat; u 3%nat] (u 4%nat).
(** the entry in row [i] and column [j] of a matrix given by its columns *)
Definition cell_of (m : list (list R)) : MatNxN := fun i j => nth i (nth j m []) 0.
(** euler.hpp lines 203-211 with the frame [a], [b], [c] of the face; [volume] is that of the other cell *)
Definition euler_face (gamma : R) (a b c : R * R * R) (volume : R) : FaceData :=
  mkFaceData (fun u => cell_of (snd (EigenMatrices gamma (ConservativeToPrimitive gamma (tuple_of u)) a b c)))
    (fun u => cell_of (fst (EigenMatrices gamma (ConservativeToPrimitive gamma (tuple_of u)) a b c))) volume.
