(** Model of the bases of polynomials:
    /repo/include/mini/basis/ (taylor.hpp, lagrange.hpp, vincent.hpp, linear.hpp).
    Scalars are real numbers; vectors of a size given by a template parameter are lists, matrices are
    functions of the row and the column. *)
From Coq Require Import Reals List Arith.
From Verif Require Import RSum.
Import ListNotations.
Open Scope R_scope.

(** ** taylor.hpp, one dimension *)

(** taylor.hpp lines 49-51: the loop; [n] rounds are left *)
Fixpoint powers (x x_power : R) (n : nat) : list R :=
  match n with O => [] | S n => x_power * x :: powers x (x_power * x) n end.

(** taylor.hpp lines 45-54 [Taylor<1,P>::GetValues] with [N = P + 1] components *)
Definition Taylor1_GetValues (P : nat) (x : R) : list R := 1 :: powers x 1 P.

(** taylor.hpp lines 72-78: the loop from [j] on *)
Fixpoint deriv_loop (k : nat) (x : R) (n j : nat) (factorial_j factorial_j_minus_k x_power : R) : list R :=
  match n with
  | O => []
  | S n =>
      let j_minus_k := (j - k)%nat in
      let factorial_j_minus_k := factorial_j_minus_k * INR j_minus_k in
      let factorial_j := factorial_j * INR j in
      let x_power := x_power * x in
      x_power * factorial_j / factorial_j_minus_k
        :: deriv_loop k x n (S j) factorial_j factorial_j_minus_k x_power
  end.

(** taylor.hpp lines 63-83 [Taylor<1,P>::GetDerivatives], for [k <= P] (line 64).  [std::tgamma(k+1)]
    is the factorial; the assertions of lines 79-81 compare rounded numbers and are left out. *)
Definition Taylor1_GetDerivatives (P k : nat) (x : R) : list R :=
  let factorial_j := INR (fact k) in
  repeat 0 k ++ factorial_j / 1 :: deriv_loop k x (P - k) (S k) factorial_j 1 1.

(** ** lagrange.hpp, lines *)

(** lagrange.hpp lines 110-118: one component *)
Definition Line_value (nodes : list R) (x : R) (i : nat) : R :=
  fold_left (fun v j => if Nat.eqb i j then v
                        else v * ((x - nth j nodes 0) / (nth i nodes 0 - nth j nodes 0)))
    (seq 0 (length nodes)) 1.

(** lagrange.hpp lines 108-120 [Line::GetValues] *)
Definition Line_GetValues (nodes : list R) (x : R) : list R :=
  map (Line_value nodes x) (seq 0 (length nodes)).

(** lagrange.hpp lines 71-75: [taylor_to_lagrange] *)
Definition taylor_to_lagrange (nodes : list R) (j k : nat) : R :=
  nth k (Taylor1_GetValues (length nodes - 1) (nth j nodes 0)) 0.

(** lagrange.hpp lines 129-132 [Line::GetDerivatives(k, x)]; [lagrange_to_taylor] is the inverse found
    by Eigen in line 76 *)
Definition Line_GetDerivatives (nodes : list R) (lagrange_to_taylor : nat -> nat -> R) (k : nat) (x : R) : list R :=
  let row := Taylor1_GetDerivatives (length nodes - 1) k x in
  map (fun i => rsum (length nodes) (fun j => nth j row 0 * lagrange_to_taylor j i)) (seq 0 (length nodes)).

(** lagrange.hpp lines 79-84, 141-143: the cached derivatives at the nodes *)
Definition Line_GetDerivatives_at (nodes : list R) (lagrange_to_taylor : nat -> nat -> R) (k j : nat) : list R :=
  Line_GetDerivatives nodes lagrange_to_taylor k (nth j nodes 0).

(** ** lagrange.hpp, hexahedra *)

(** lagrange.hpp lines 236-238 [index(i, j, k)] *)
Definition Hexa_index (J K i j k : nat) : nat := (i * J * K + j * K + k)%nat.

(** lagrange.hpp lines 245-250 [index(ijk)] *)
Definition Hexa_index_inv (J K ijk : nat) : nat * nat * nat :=
  let k := (ijk mod K)%nat in
  let j := (ijk / K)%nat in
  let i := (j / J)%nat in
  let j := (j mod J)%nat in
  (i, j, k).

(** the loops of lagrange.hpp lines 277-285 and 317-325 *)
Definition Hexa_products (vx vy vz : list R) : list R :=
  flat_map (fun x => flat_map (fun y => let value_xy := x * y in map (fun z => value_xy * z) vz) vy) vx.

(** lagrange.hpp lines 272-288 [GetValues] *)
Definition Hexa_GetValues (nx ny nz : list R) (x y z : R) : list R :=
  Hexa_products (Line_GetValues nx x) (Line_GetValues ny y) (Line_GetValues nz z).

(** lagrange.hpp lines 311-328 [GetDerivatives] *)
Definition Hexa_GetDerivatives (nx ny nz : list R) (mx my mz : nat -> nat -> R) (a b c : nat) (x y z : R) : list R :=
  Hexa_products (Line_GetDerivatives nx mx a x) (Line_GetDerivatives ny my b y) (Line_GetDerivatives nz mz c z).

(** lagrange.hpp lines 223-226, 258-262 [GetNode(ijk)] *)
Definition Hexa_GetNode (nx ny nz : list R) (ijk : nat) : option (R * R * R) :=
  let '(i, j, k) := Hexa_index_inv (length ny) (length nz) ijk in
  if Nat.eqb (Hexa_index (length ny) (length nz) i j k) ijk
  then Some (nth i nx 0, nth j ny 0, nth k nz 0) else None.

(** ** vincent.hpp *)

(** [std::legendre] by its recurrence: the values for [n] and [n + 1] *)
Fixpoint legendre_pair (n : nat) (x : R) : R * R :=
  match n with
  | O => (1, x)
  | S m => let (p, q) := legendre_pair m x in
           (q, ((2 * INR n + 1) * x * q - INR n * p) / INR (S n))
  end.
Definition legendre (n : nat) (x : R) : R := fst (legendre_pair n x).

(** vincent.hpp lines 37-40 (the constructor), 48-54 [LocalToRightValue]; [degree] is positive *)
Definition LocalToRightValue (degree : nat) (c_next local : R) : R :=
  let c_prev := 1 - c_next in
  let value := legendre degree local in
  let value := value + c_prev * legendre (degree - 1) local in
  let value := value + c_next * legendre (degree + 1) local in
  value * (1 / 2).
(** vincent.hpp lines 61-63 [LocalToLeftValue] *)
Definition LocalToLeftValue (degree : nat) (c_next local : R) : R := LocalToRightValue degree c_next (- local).

(** vincent.hpp lines 75-83: the loop after [k_curr] was 0, .., [k]: (prev, curr, next) *)
Fixpoint legendre_derivatives (k : nat) (local : R) : R * R * R :=
  match k with
  | O => (0, 0, INR 1 * legendre 0 local + local * 0)
  | S k' => let '(prev, curr, next) := legendre_derivatives k' local in
            let prev := curr in
            let curr := next in
            (prev, curr, INR (S k) * legendre k local + local * curr)
  end.
(** vincent.hpp lines 71-87 [LocalToRightDerivative] *)
Definition LocalToRightDerivative (degree : nat) (c_next local : R) : R :=
  let c_prev := 1 - c_next in
  let '(prev, curr, next) := legendre_derivatives degree local in
  1 / 2 * (curr + c_prev * prev + c_next * next).
(** vincent.hpp lines 95-97 [LocalToLeftDerivative] *)
Definition LocalToLeftDerivative (degree : nat) (c_next local : R) : R :=
  - LocalToRightDerivative degree c_next (- local).
(** vincent.hpp lines 24-29: the two choices of [c_next] *)
Definition DiscontinuousGalerkin (degree : nat) : R := 1.
Definition HuynhLumpingLobatto (degree : nat) : R := INR degree / (2 * INR degree + 1).

(** ** taylor.hpp, three dimensions *)

(** taylor.hpp lines 171-175, 214-218, 314-321 [Taylor<3,k>::GetValue], and 136-139 for [k] = 0 *)
Definition Taylor3_GetValue (k : nat) (x y z : R) : list R :=
  match k with
  | 0%nat => [1]
  | 1%nat => [1; x; y; z]
  | 2%nat => [1; x; y; z; x * x; x * y; x * z; y * y; y * z; z * z]
  | _ =>
      let xx := x * x in let xy := x * y in let xz := x * z in
      let yy := y * y in let yz := y * z in let zz := z * z in
      [1; x; y; z; xx; xy; xz; yy; yz; zz;
       x * xx; x * xy; x * xz; x * yy; x * yz; x * zz; y * yy; y * yz; y * zz; z * zz]
  end.

(** taylor.hpp lines 87-127 [Taylor<2,k>::GetValue] *)
Definition Taylor2_GetValue (k : nat) (x y : R) : list R :=
  match k with
  | 1%nat => [1; x; y]
  | 2%nat => [1; x; y; x * x; x * y; y * y]
  | _ => let x_x := x * x in let x_y := x * y in let y_y := y * y in
         [1; x; y; x_x; x_y; y_y; x_x * x; x_x * y; x * y_y; y * y_y]
  end.

(** One row of the matrix [coeff] as a function of the column; one row of the result as a list. *)

(** taylor.hpp lines 183-193 [Taylor<3,1>::GetGradValue], 257-277, 432-474, and 148-152 for [k] = 0 *)
Definition Taylor3_GetGradValue (k : nat) (x y z : R) (c : nat -> R) : list R :=
  match k with
  | 0%nat => [0; 0; 0]
  | 1%nat => [c 1%nat; c 2%nat; c 3%nat]
  | 2%nat =>
      [c 1%nat + c 4%nat * (2 * x) + c 5%nat * y + c 6%nat * z;
       c 2%nat + c 5%nat * x + c 7%nat * (2 * y) + c 8%nat * z;
       c 3%nat + c 6%nat * x + c 8%nat * y + c 9%nat * (2 * z)]
  | _ =>
      let xx := x * x in let xy := x * y in let xz := x * z in
      let yy := y * y in let yz := y * z in let zz := z * z in
      [c 1%nat + c 4%nat * (2 * x) + c 5%nat * y + c 6%nat * z + c 10%nat * (3 * xx) + c 11%nat * (2 * xy)
         + c 12%nat * (2 * xz) + c 13%nat * yy + c 14%nat * yz + c 15%nat * zz;
       c 2%nat + c 5%nat * x + c 7%nat * (2 * y) + c 8%nat * z + c 11%nat * xx + c 14%nat * xz
         + c 13%nat * (2 * xy) + c 16%nat * (3 * yy) + c 17%nat * (2 * yz) + c 18%nat * zz;
       c 3%nat + c 6%nat * x + c 8%nat * y + c 9%nat * (2 * z) + c 12%nat * xx + c 14%nat * xy
         + c 15%nat * (2 * xz) + c 17%nat * yy + c 18%nat * (2 * yz) + c 19%nat * (3 * zz)]
  end.

(** taylor.hpp lines 177-180, 220-254, 323-429 [GetPdvValue], and 142-145 for [k] = 0, without the
    assertions.  In the last case columns 4 and 7 (xx and yy) are named, because line 383 adds the
    finished column 4 to column 7. *)
Definition Taylor3_GetPdvValue (k : nat) (x y z : R) (c : nat -> R) : list R :=
  match k with
  | 0%nat => [0]
  | 1%nat => [0; c 1%nat; c 2%nat; c 3%nat]
  | 2%nat =>
      [0;
       c 1%nat + c 4%nat * (2 * x) + c 5%nat * y + c 6%nat * z;
       c 2%nat + c 5%nat * x + c 7%nat * (2 * y) + c 8%nat * z;
       c 3%nat + c 6%nat * x + c 8%nat * y + c 9%nat * (2 * z);
       c 4%nat + c 4%nat; c 5%nat; c 6%nat; c 7%nat + c 7%nat; c 8%nat; c 9%nat + c 9%nat]
  | _ =>
      let xx := x * x in let xy := x * y in let xz := x * z in
      let yy := y * y in let yz := y * z in let zz := z * z in
      let res_xx := c 4%nat + c 11%nat * y + c 12%nat * z + c 10%nat * x * 3 in
      let res_xx := res_xx + res_xx in
      let res_yy := c 7%nat + c 13%nat * x + c 17%nat * z + c 16%nat * y * 3 in
      let res_yy := res_yy + res_xx in
      let res_zz := c 9%nat + c 15%nat * x + c 18%nat * y + c 19%nat * z * 3 in
      let res_zz := res_zz + res_zz in
      [0;
       c 1%nat + c 4%nat * (2 * x) + c 5%nat * y + c 6%nat * z + c 10%nat * (3 * xx) + c 11%nat * (2 * xy)
         + c 12%nat * (2 * xz) + c 13%nat * yy + c 14%nat * yz + c 15%nat * zz;
       c 2%nat + c 5%nat * x + c 7%nat * (2 * y) + c 8%nat * z + c 11%nat * xx + c 14%nat * xz
         + c 13%nat * (2 * xy) + c 16%nat * (3 * yy) + c 17%nat * (2 * yz) + c 18%nat * zz;
       c 3%nat + c 6%nat * x + c 8%nat * y + c 9%nat * (2 * z) + c 12%nat * xx + c 14%nat * xy
         + c 15%nat * (2 * xz) + c 17%nat * yy + c 18%nat * (2 * yz) + c 19%nat * (3 * zz);
       res_xx;
       c 5%nat + c 11%nat * x * 2 + c 13%nat * y * 2 + c 14%nat * z;
       c 6%nat + c 12%nat * x * 2 + c 15%nat * z * 2 + c 14%nat * y;
       res_yy;
       c 8%nat + c 14%nat * x + c 17%nat * y * 2 + c 18%nat * z * 2;
       res_zz;
       c 10%nat * 6; c 11%nat + c 11%nat; c 12%nat + c 12%nat; c 13%nat + c 13%nat; c 14%nat; c 15%nat + c 15%nat;
       c 16%nat * 6; c 17%nat + c 17%nat; c 18%nat + c 18%nat; c 19%nat * 6]
  end.

(** the two assertions of taylor.hpp that are not about rounding: lines 384-385 and 427 *)
Definition Taylor3_assertions (x y z : R) (c : nat -> R) : Prop :=
  let res := Taylor3_GetPdvValue 3 x y z c in
  nth 7 res 0 = c 16%nat * y * 6 + 2 * (c 7%nat + c 13%nat * x + c 17%nat * z) /\
  nth 19 res 0 = c 19%nat * 2.

(** ** linear.hpp *)

(** linear.hpp lines 81-83 with [N] components: the matrix *)
Definition MatNxN := nat -> nat -> R.
Definition identity : MatNxN := fun i j => if Nat.eqb i j then 1 else 0.
Definition lower (a : MatNxN) : MatNxN := fun i j => if Nat.leb j i then a i j else 0.
Definition mat_mul (N : nat) (a b : MatNxN) : MatNxN := fun i j => rsum N (fun k => a i k * b k j).
Definition mat_vec (N : nat) (a : MatNxN) (v : list R) : list R :=
  map (fun i => rsum N (fun j => a i j * nth j v 0)) (seq 0 N).

(** linear.hpp lines 68-71 and 72-76 [Transform]; the second one writes only the lower triangle *)
Definition Transform (N : nat) (a coeff : MatNxN) : MatNxN := mat_mul N a coeff.
Definition Transform_lower (N : nat) (a coeff : MatNxN) : MatNxN :=
  let temp := mat_mul N (lower a) coeff in
  fun i j => if Nat.leb j i then temp i j else coeff i j.
(** linear.hpp lines 57-61 [Linear::operator()], from the values of the Taylor basis *)
Definition Linear_call (N : nat) (coeff : MatNxN) (taylor : list R) : list R := mat_vec N (lower coeff) taylor.
(** linear.hpp lines 120-125 [OrthoNormal::operator()] *)
Definition OrthoNormal_call (N : nat) (coeff : MatNxN) (taylor : list R) : list R := mat_vec N coeff taylor.
