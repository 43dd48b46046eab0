(** Model of the functions of /repo/include/mini/polynomial/hexahedron.hpp that find the nodes on the line through a point
    of a face: [FindCollinearPoints], [FindCollinearIndexByGlobal] and [FindCollinearIndexByLocal].
    The three rules may be different (Model_Schemes has [FindCollinearIndexByGlobal] for equal rules as the FR schemes
    call it).  [None] stands for a failing assertion, or for Newton's method of [GlobalToLocal] without end. *)
From Coq Require Import Reals List Arith ZArith.
From Verif Require Import Vec3 Arrays Model_Basis Model_Shapes Model_Geometry Model_Nodal Model_Schemes.
Import ListNotations.
Open Scope R_scope.

(** lines 602-604 and 833-835 *)
Definition almost_equal (x y : R) : bool := less (Rabs (x - y)) (/ 10 ^ 10).
(** lines 608-612 and the like: the loop that ends at the first point which is almost equal to [x]; the value of the
    counter after it, which is the number of points if there is none *)
Fixpoint find_point (x : R) (points : list R) : nat :=
  match points with
  | [] => 0
  | p :: points => if almost_equal x p then 0 else S (find_point x points)
  end.

Section Collinear.
  Variable b : Basis.
  Variable e : Element.
  Variable nodes : list vec.
  Variable fuel : nat.

  (** the assertions in lines 607, 623, 639, 655, 671, 687, and 838, 851, 864, 877, 890, 903 *)
  Definition on_side (i_face : nat) (local : vec) : bool :=
    match i_face with
    | 0 => almost_equal (vz local) (-1)
    | 1 => almost_equal (vy local) (-1)
    | 2 => almost_equal (vx local) 1
    | 3 => almost_equal (vy local) 1
    | 4 => almost_equal (vx local) (-1)
    | 5 => almost_equal (vz local) 1
    | _ => false
    end%nat.

  (** lines 595-704 [FindCollinearPoints] *)
  Definition FindCollinearPoints (global : vec) (i_face : nat) : option (list nat) :=
    do local <- GlobalToLocal fuel e nodes global (V 0 0 0);
    if negb (on_side i_face local) then None else
    let index := Hexa_index (length (b_y b)) (length (b_z b)) in
    let i := find_point (vx local) (b_x b) in
    let j := find_point (vy local) (b_y b) in
    let k := find_point (vz local) (b_z b) in
    match i_face with
    | 0 | 5 => Some (map (fun k => index i j k) (seq 0 (length (b_z b))))
    | 1 | 3 => Some (map (fun j => index i j k) (seq 0 (length (b_y b))))
    | _ => Some (map (fun i => index i j k) (seq 0 (length (b_x b))))
    end%nat.

  (** lines 822-831 *)
  Definition local_hint (i_face : nat) : option vec :=
    match i_face with
    | 0 => Some (V 0 0 (-1))
    | 1 => Some (V 0 (-1) 0)
    | 2 => Some (V 1 0 0)
    | 3 => Some (V 0 1 0)
    | 4 => Some (V (-1) 0 0)
    | 5 => Some (V 0 0 1)
    | _ => None
    end%nat.

  (** lines 817-935 [FindCollinearIndexByLocal] *)
  Definition FindCollinearIndexByLocal (global : vec) (i_face : nat) : option (Z * Z * Z) :=
    do hint <- local_hint i_face;
    do local <- GlobalToLocal fuel e nodes global hint;
    if negb (on_side i_face local) then None else
    let i := Z.of_nat (find_point (vx local) (b_x b)) in
    let j := Z.of_nat (find_point (vy local) (b_y b)) in
    let k := Z.of_nat (find_point (vz local) (b_z b)) in
    match i_face with
    | 0 | 5 => Some (i, j, -1)%Z
    | 1 | 3 => Some (i, -1, k)%Z
    | _ => Some (-1, j, k)%Z
    end%nat.

  (** the two nested loops of lines 717-731: the counters after them; both are at their ends if no point is near.
      The rules have at least one point. *)
  Definition scan (place : R -> R -> vec) (us vs : list R) (global : vec) : Z * Z :=
    let near '(i, j) :=
      let l := place (nth i us 0) (nth j vs 0) in
      less (vnorm (vsub (LocalToGlobal e nodes (vx l) (vy l) (vz l)) global)) (/ 10 ^ 8) in
    match find near (list_prod (seq 0 (length us)) (seq 0 (length vs))) with
    | Some (i, j) => (Z.of_nat i, Z.of_nat j)
    | None => (Z.of_nat (length us), Z.of_nat (length vs))
    end.

  (** lines 709-816 [FindCollinearIndexByGlobal], which is called by [FindCollinearIndex], lines 706-708 *)
  Definition FindCollinearIndexByGlobal (global : vec) (i_face : nat) : option (Z * Z * Z) :=
    match i_face with
    | 0 => let '(i, j) := scan (fun x y => V x y (-1)) (b_x b) (b_y b) global in Some (i, j, -1)%Z
    | 1 => let '(i, k) := scan (fun x z => V x (-1) z) (b_x b) (b_z b) global in Some (i, -1, k)%Z
    | 2 => let '(j, k) := scan (fun y z => V 1 y z) (b_y b) (b_z b) global in Some (-1, j, k)%Z
    | 3 => let '(i, k) := scan (fun x z => V x 1 z) (b_x b) (b_z b) global in Some (i, -1, k)%Z
    | 4 => let '(j, k) := scan (fun y z => V (-1) y z) (b_y b) (b_z b) global in Some (-1, j, k)%Z
    | 5 => let '(i, j) := scan (fun x y => V x y 1) (b_x b) (b_y b) global in Some (i, j, -1)%Z
    | _ => None
    end%nat.
End Collinear.
