(** Model of the quadrature rules (include/mini/gauss/*.hpp) on the reference elements.

    Simplifications: [Scalar] is [R]; a decimal constant is the rational number it spells, before any
    rounding to [Scalar]; the arrays filled by nested loops are the lists of the values in the order in which
    the running index meets them. *)
From Coq Require Import Reals QArith Qreals List Arith.
From Verif Require Import Vec3 Model_Projection Model_Shapes Model_Geometry.
Import ListNotations.
Open Scope R_scope.

(** ** gauss/legendre.hpp *)

(** lines 30, 53, 76, 99, 131, 167 [BuildPoints] *)
Definition Legendre_points (q : nat) : list R :=
  match q with
  | 1%nat => [0]
  | 2%nat => [- sqrt (1 / 3); sqrt (1 / 3)]
  | 3%nat => [- sqrt (6 / 10); 0; sqrt (6 / 10)]
  | 4%nat => [- sqrt ((3 + 2 * sqrt (12 / 10)) / 7); - sqrt ((3 - 2 * sqrt (12 / 10)) / 7);
              sqrt ((3 - 2 * sqrt (12 / 10)) / 7); sqrt ((3 + 2 * sqrt (12 / 10)) / 7)]
  | 5%nat => [- sqrt ((5 + sqrt (40 / 7)) / 9); - sqrt ((5 - sqrt (40 / 7)) / 9); 0;
              sqrt ((5 - sqrt (40 / 7)) / 9); sqrt ((5 + sqrt (40 / 7)) / 9)]
  | 6%nat => map Q2R [(- 932469514203152 # 1000000000000000)%Q; (- 6612093864662645 # 10000000000000000)%Q;
                      (- 23861918608319693 # 100000000000000000)%Q; (23861918608319693 # 100000000000000000)%Q;
                      (6612093864662645 # 10000000000000000)%Q; (932469514203152 # 1000000000000000)%Q]
  | _ => []
  end.
(** lines 33, 56, 79, 107, 141, 177 [BuildWeights] *)
Definition Legendre_weights (q : nat) : list R :=
  match q with
  | 1%nat => [2]
  | 2%nat => [1; 1]
  | 3%nat => [5 / 9; 8 / 9; 5 / 9]
  | 4%nat => [(18 - sqrt 30) / 36; (18 + sqrt 30) / 36; (18 + sqrt 30) / 36; (18 - sqrt 30) / 36]
  | 5%nat => [(322 - 13 * sqrt 70) / 900; (322 + 13 * sqrt 70) / 900; 128 / 225;
              (322 + 13 * sqrt 70) / 900; (322 - 13 * sqrt 70) / 900]
  | 6%nat => map Q2R [(17132449237917016 # 100000000000000000)%Q; (36076157304813855 # 100000000000000000)%Q;
                      (4679139345726912 # 10000000000000000)%Q; (4679139345726912 # 10000000000000000)%Q;
                      (36076157304813855 # 100000000000000000)%Q; (17132449237917016 # 100000000000000000)%Q]
  | _ => []
  end.

(** ** gauss/lobatto.hpp *)

(** lines 30, 53, 76, 99, 122 [BuildPoints] *)
Definition Lobatto_points (q : nat) : list R :=
  match q with
  | 2%nat => [-1; 1]
  | 3%nat => [-1; 0; 1]
  | 4%nat => [-1; - sqrt (1 / 5); sqrt (1 / 5); 1]
  | 5%nat => [-1; - sqrt 21 / 7; 0; sqrt 21 / 7; 1]
  | 6%nat => [-1; - sqrt ((7 + 2 * sqrt 7) / 21); - sqrt ((7 - 2 * sqrt 7) / 21);
              sqrt ((7 - 2 * sqrt 7) / 21); sqrt ((7 + 2 * sqrt 7) / 21); 1]
  | _ => []
  end.
(** lines 33, 56, 79, 102, 132 [BuildWeights] *)
Definition Lobatto_weights (q : nat) : list R :=
  match q with
  | 2%nat => [1; 1]
  | 3%nat => [1 / 3; 4 / 3; 1 / 3]
  | 4%nat => [1 / 6; 5 / 6; 5 / 6; 1 / 6]
  | 5%nat => [1 / 10; 49 / 90; 32 / 45; 49 / 90; 1 / 10]
  | 6%nat => [1 / 15; (14 - sqrt 7) / 30; (14 + sqrt 7) / 30; (14 + sqrt 7) / 30; (14 - sqrt 7) / 30; 1 / 15]
  | _ => []
  end.

(** ** gauss/jacobi.hpp, the rules with kAlpha = 2 and kBeta = 0 *)

(** lines 28, 49, 76, 105, 136 [BuildPoints] *)
Definition Jacobi_points (q : nat) : list Q :=
  match q with
  | 1%nat => [- 5 # 10]
  | 2%nat => [- 754970354689117 # 1000000000000000; 8830368802245062 # 100000000000000000]
  | 3%nat => [- 8540119518537006 # 10000000000000000; - 30599246792329643 # 100000000000000000;
              41000441977699675 # 100000000000000000]
  | 4%nat => [- 9029989011060054 # 10000000000000000; - 5227985248962753 # 10000000000000000;
              3409459020873491 # 100000000000000000; 5917028357935458 # 10000000000000000]
  | 5%nat => [- 9308421201635698 # 10000000000000000; - 6530393584566087 # 10000000000000000;
              - 2202272258689614 # 10000000000000000; 26866694526177365 # 100000000000000000;
              7021084258940329 # 10000000000000000]
  | _ => []
  end%Q.
(** lines 31, 55, 83, 113, 145 [BuildWeights] *)
Definition Jacobi_weights (q : nat) : list Q :=
  match q with
  | 1%nat => [26666666666666665 # 10000000000000000]
  | 2%nat => [1860379610028064 # 1000000000000000; 8062870566386026 # 10000000000000000]
  | 3%nat => [12570908885190917 # 10000000000000000; 1169970154078929 # 1000000000000000;
              23960562406864572 # 100000000000000000]
  | 4%nat => [8871073248902219 # 10000000000000000; 11476703183937156 # 10000000000000000;
              5490710973833848 # 10000000000000000; 8281792599934465 # 100000000000000000]
  | 5%nat => [6541182742861681 # 10000000000000000; 1009591695199291 # 1000000000000000;
              7136012897727205 # 10000000000000000; 25644480578369516 # 100000000000000000;
              3291060162479203 # 100000000000000000]
  | _ => []
  end%Q.

(** ** Products of rules *)

(** gauss/quadrangle.hpp lines 61-72 and 73-82; the third local coordinate of a face is not used *)
Definition Quadrangle_coords (px py : list R) : list vec := flat_map (fun x => map (fun y => V x y 0) py) px.
Definition Quadrangle_weights (wx wy : list R) : list R := flat_map (fun a => map (fun b => a * b) wy) wx.
(** gauss/hexahedron.hpp lines 66-80 and 81-93; gauss/pyramid.hpp lines 58-72 fills the same array *)
Definition Hexahedron_coords (px py pz : list R) : list vec :=
  flat_map (fun x => flat_map (fun y => map (fun z => V x y z) pz) py) px.
Definition Hexahedron_weights (wx wy wz : list R) : list R :=
  flat_map (fun a => flat_map (fun b => map (fun c => a * b * c) wz) wy) wx.
(** gauss/pyramid.hpp lines 73-86; [pz] and [wz] are the points and the weights of GaussZ *)
Definition Pyramid_weights (wx wy pz wz : list R) : list R :=
  flat_map (fun a => flat_map (fun b => map (fun zc => a * b * snd zc * / (1 - fst zc) ^ 2) (combine pz wz)) wy) wx.
(** gauss/wedge.hpp lines 58-71 and 72-82 *)
Definition Wedge_coords (pt : list vec) (pz : list R) : list vec :=
  flat_map (fun p => map (fun z => V (vx p) (vy p) z) pz) pt.
Definition Wedge_weights (wt wz : list R) : list R := flat_map (fun a => map (fun b => a * b) wz) wt.

(** ** gauss/triangle.hpp *)

(** lines 153-156, 185-188, 221-224, 274-277: an S21 orbit *)
Definition tri_S21 (a : Q) : list (Q * Q) := let b := (1 - a - a)%Q in [(a, a); (a, b); (b, a)].
(** lines 229-235, 282-288: the S111 orbit *)
Definition tri_S111 (a b : Q) : list (Q * Q) :=
  let c := (1 - a - b)%Q in [(a, b); (a, c); (b, a); (b, c); (c, a); (c, b)].
(** lines 128-133, 147-160, 178-193, 213-239, 261-292 [BuildLocalCoords] *)
Definition Triangle_points (n : nat) : list (Q * Q) :=
  match n with
  | 1%nat => let a := (3333333333333333333333333333333333 # 10000000000000000000000000000000000)%Q in [(a, a)]
  | 3%nat => tri_S21 (1 # 6)
  | 6%nat => tri_S21 (44594849091596488631832925388305199 # 100000000000000000000000000000000000)
          ++ tri_S21 (9157621350977074345957146340220151 # 100000000000000000000000000000000000)
  | 12%nat => tri_S21 (6308901449150222834033160287081916 # 100000000000000000000000000000000000)
          ++ tri_S21 (24928674517091042129163855310701908 # 100000000000000000000000000000000000)
          ++ tri_S111 (5314504984481694735324967163139815 # 100000000000000000000000000000000000)
               (31035245103378440541660773395655215 # 100000000000000000000000000000000000)
  | 16%nat => (let a := (33333333333333333333333333333333333 # 100000000000000000000000000000000000)%Q in [(a, a)])
          ++ tri_S21 (17056930775176020662229350149146450 # 100000000000000000000000000000000000)
          ++ tri_S21 (5054722831703097545842355059659895 # 100000000000000000000000000000000000)
          ++ tri_S21 (45929258829272315602881551449416932 # 100000000000000000000000000000000000)
          ++ tri_S111 (26311282963463811342178578628464359 # 100000000000000000000000000000000000)
               (839477740995760533721383453929445 # 100000000000000000000000000000000000)
  | _ => []
  end.
(** lines 134-137, 161-168, 194-203, 240-251, 293-308 [BuildLocalWeights] *)
Definition Triangle_weights (n : nat) : list Q :=
  match n with
  | 1%nat => [1 / 2]
  | 3%nat => map (fun w => w / 2) (repeat (1 / 3) 3)
  | 6%nat => map (fun w => w / 2)
      (repeat (22338158967801146569500700843312280 # 100000000000000000000000000000000000) 3
       ++ repeat (10995174365532186763832632490021053 # 100000000000000000000000000000000000) 3)
  | 12%nat => map (fun w => w / 2)
      (repeat (5084490637020681692093680910686898 # 100000000000000000000000000000000000) 3
       ++ repeat (11678627572637936602528961138557944 # 100000000000000000000000000000000000) 3
       ++ repeat (8285107561837357519355345642044245 # 100000000000000000000000000000000000) 6)
  | 16%nat => map (fun w => w / 2)
      (repeat (14431560767778716825109111048906462 # 100000000000000000000000000000000000) 1
       ++ repeat (10321737053471825028179155029212903 # 100000000000000000000000000000000000) 3
       ++ repeat (3245849762319808031092592834178060 # 100000000000000000000000000000000000) 3
       ++ repeat (9509163426728462479389610438858432 # 100000000000000000000000000000000000) 3
       ++ repeat (2723031417443499426484469007390892 # 100000000000000000000000000000000000) 6)
  | _ => []
  end%Q.
(** lines 110-119: the arrays as [Scalar]s *)
Definition Triangle_coords_R (n : nat) : list vec := map (fun p => V (Q2R (fst p)) (Q2R (snd p)) 0) (Triangle_points n).
Definition Triangle_weights_R (n : nat) : list R := map Q2R (Triangle_weights n).

(** ** gauss/tetrahedron.hpp *)

(** lines 139-143, 169-173, 220-224, 270-274, 328-332: an S31 orbit *)
Definition tet_S31 (a : Q) : list (Q * Q * Q) :=
  let c := (1 - 3 * a)%Q in [(a, a, a); (a, a, c); (a, c, a); (c, a, a)].
(** lines 177-183, 228-234, 336-342: the S22 orbit *)
Definition tet_S22 (a : Q) : list (Q * Q * Q) :=
  let c := ((1 - 2 * a) * (5 # 10))%Q in [(a, a, c); (a, c, a); (a, c, c); (c, a, a); (c, a, c); (c, c, a)].
(** lines 279-291, 351-363: an S211 orbit *)
Definition tet_S211 (a b : Q) : list (Q * Q * Q) :=
  let c := (1 - a - a - b)%Q in
  [(a, a, b); (a, a, c); (a, b, a); (a, b, c); (a, c, a); (a, c, b);
   (b, a, a); (b, a, c); (b, c, a); (c, a, a); (c, a, b); (c, b, a)].
(** lines 116-121, 134-146, 161-187, 208-238, 261-295, 318-367 [BuildLocalCoords] *)
Definition Tetrahedron_points (n : nat) : list (Q * Q * Q) :=
  match n with
  | 1%nat => let a := (25 # 100)%Q in [(a, a, a)]
  | 4%nat => tet_S31 (13819660112501051517954131656343619 # 100000000000000000000000000000000000)
  | 14%nat => tet_S31 (31088591926330060979734573376345783 # 100000000000000000000000000000000000)
          ++ tet_S31 (9273525031089122640232391373703061 # 100000000000000000000000000000000000)
          ++ tet_S22 (4550370412564964949188052627933943 # 100000000000000000000000000000000000)
  | 15%nat => (let a := (25 # 100)%Q in [(a, a, a)])
          ++ tet_S31 (9197107805272303 # 100000000000000000) ++ tet_S31 (31979362782962991 # 100000000000000000)
          ++ tet_S22 (5635083268962916 # 100000000000000000)
  | 24%nat => tet_S31 (21460287125915202928883921938628499 # 100000000000000000000000000000000000)
          ++ tet_S31 (4067395853461135311557944895641006 # 100000000000000000000000000000000000)
          ++ tet_S31 (32233789014227551034399447076249213 # 100000000000000000000000000000000000)
          ++ tet_S211 (6366100187501752529923552760572698 # 100000000000000000000000000000000000)
               (60300566479164914136743113906093969 # 100000000000000000000000000000000000)
  | 46%nat => tet_S31 (3967542307038990126507132953938949 # 100000000000000000000000000000000000)
          ++ tet_S31 (31448780069809631378416056269714830 # 100000000000000000000000000000000000)
          ++ tet_S31 (10198669306270330000000000000000000 # 100000000000000000000000000000000000)
          ++ tet_S31 (18420369694919151227594641734890918 # 100000000000000000000000000000000000)
          ++ tet_S22 (6343628775453989240514123870189827 # 100000000000000000000000000000000000)
          ++ tet_S211 (2169016206772800480266248262493018 # 100000000000000000000000000000000000)
               (71993192203946593588943495335273478 # 100000000000000000000000000000000000)
          ++ tet_S211 (20448008063679571424133557487274534 # 100000000000000000000000000000000000)
               (58057719012880922417539817139062041 # 100000000000000000000000000000000000)
  | _ => []
  end.
(** lines 122-125, 147-152, 188-199, 239-252, 296-309, 368-387 [BuildLocalWeights] *)
Definition Tetrahedron_weights (n : nat) : list Q :=
  match n with
  | 1%nat => [1 / 6]
  | 4%nat => repeat ((25 # 100) / 6) 4
  | 14%nat => map (fun w => w / 6)
      (repeat (11268792571801585079918565233328633 # 100000000000000000000000000000000000) 4
       ++ repeat (7349304311636194954371020548632750 # 100000000000000000000000000000000000) 4
       ++ repeat (4254602077708146643806942812025744 # 100000000000000000000000000000000000) 6)
  | 15%nat => map (fun w => w / 6)
      (repeat (16 / 135) 1 ++ repeat (7193708377901862 # 100000000000000000) 4
       ++ repeat (6906820722627239 # 100000000000000000) 4 ++ repeat (20 / 378) 6)
  | 24%nat => map (fun w => w / 6)
      (repeat (3992275025816749209969062755747998 # 100000000000000000000000000000000000) 4
       ++ repeat (1007721105532064294801323744593686 # 100000000000000000000000000000000000) 4
       ++ repeat (5535718154365472209515327785372602 # 100000000000000000000000000000000000) 4
       ++ repeat (27 / 560) 12)
  | 46%nat => map (fun w => w / 6)
      (repeat (639714777990232132145142033517302 # 100000000000000000000000000000000000) 4
       ++ repeat (4019044802096617248816115847981783 # 100000000000000000000000000000000000) 4
       ++ repeat (2430797550477032117486910877192260 # 100000000000000000000000000000000000) 4
       ++ repeat (5485889241369744046692412399039144 # 100000000000000000000000000000000000) 4
       ++ repeat (3571961223409918246495096899661762 # 100000000000000000000000000000000000) 6
       ++ repeat (718319069785253940945110521980376 # 100000000000000000000000000000000000) 12
       ++ repeat (1637218194531911754093813975611913 # 100000000000000000000000000000000000) 12)
  | _ => []
  end%Q.
(** lines 100-108: the arrays as [Scalar]s *)
Definition Tetrahedron_coords_R (n : nat) : list vec :=
  map (fun p => V (Q2R (fst (fst p))) (Q2R (snd (fst p))) (Q2R (snd p))) (Tetrahedron_points n).
Definition Tetrahedron_weights_R (n : nat) : list R := map Q2R (Tetrahedron_weights n).

(** ** Using the rules *)

(** gauss/function.hpp lines 26-39 [Quadrature], for one entry of the value *)
Definition Quadrature {A} (local_to_value : A -> R) (coords : list A) (weights : list R) : R :=
  fold_left (fun sum cw => sum + local_to_value (fst cw) * snd cw) (combine coords weights) 0.

(** gauss/line.hpp lines 72-75 and 98-100, in one dimension *)
Definition Line_LocalToGlobal (p q x : R) : R := let x := x * (5 / 10) in p * (5 / 10 - x) + q * (5 / 10 + x).
(** lines 57-65: the global weights and coordinates *)
Definition Line_weights (p q : R) (local_weights : list R) : list R :=
  map (fun w => w * (Rabs (p - q) * (5 / 10))) local_weights.
Definition Line_coords (p q : R) (local_coords : list R) : list R := map (Line_LocalToGlobal p q) local_coords.

(** gauss/element.hpp lines 93-95: the determinant of the local map, for a face in space and for a cell *)
Definition face_det (J : nat -> vec) : R :=
  sqrt (dot (J 0%nat) (J 0%nat) * dot (J 1%nat) (J 1%nat) - dot (J 0%nat) (J 1%nat) * dot (J 1%nat) (J 0%nat)).
Definition cell_det (J : nat -> vec) : R := Rabs (mdet (rows J)).
(** lines 87-100 [BuildQuadraturePoints]: the points with their global weights, and the sum that it returns *)
Definition BuildQuadraturePoints (e : Element) (nodes : list vec) (det : (nat -> vec) -> R) (coords : list vec)
    (weights : list R) : Gauss :=
  map (fun cw => (snd cw * det (LocalToJacobian e nodes (vx (fst cw)) (vy (fst cw)) (vz (fst cw))),
                  LocalToGlobal e nodes (vx (fst cw)) (vy (fst cw)) (vz (fst cw))))
      (combine coords weights).
Definition quadrature_sum (g : Gauss) : R := fold_left (fun sum p => sum + fst p) g 0.
