(** Model of /repo/include/mini/geometry/frame.hpp, intersect.hpp, pi.hpp and of
    /repo/include/mini/aircraft/ (airfoil.hpp, section.hpp, blade.hpp, rotor.hpp, source.hpp).
    Scalars are real numbers, pi is the exact number; a throw or failed assertion is [None]. *)
From Coq Require Import Reals List ZArith.
From Verif Require Import Arrays Vec3.
Import ListNotations.
Open Scope R_scope.

(** ** geometry/pi.hpp and geometry/frame.hpp *)

(** pi.hpp lines 16-18, 19-21 *)
Definition deg2rad (deg : R) : R := deg * PI / 180.
Definition rad2deg (rad : R) : R := rad / PI * 180.
(** pi.hpp lines 22-25 [CosSin] *)
Definition CosSin (deg : R) : R * R := (cos (deg2rad deg), sin (deg2rad deg)).

(** frame.hpp lines 15-55 [Frame] *)
Record Frame := mkFrame { fX : vec; fY : vec; fZ : vec }.
(** frame.hpp line 54 *)
Definition default_frame : Frame := mkFrame (V 1 0 0) (V 0 1 0) (V 0 0 1).

(** frame.hpp lines 29-36 [RotateX] *)
Definition RotateX (deg : R) (f : Frame) : Frame :=
  let (c, s) := CosSin deg in
  mkFrame (fX f) (vadd (vscale c (fY f)) (vscale s (fZ f))) (vsub (vscale c (fZ f)) (vscale s (fY f))).
(** frame.hpp lines 37-44 [RotateY] *)
Definition RotateY (deg : R) (f : Frame) : Frame :=
  let (c, s) := CosSin deg in
  mkFrame (vsub (vscale c (fX f)) (vscale s (fZ f))) (fY f) (vadd (vscale c (fZ f)) (vscale s (fX f))).
(** frame.hpp lines 45-52 [RotateZ] *)
Definition RotateZ (deg : R) (f : Frame) : Frame :=
  let (c, s) := CosSin deg in
  mkFrame (vadd (vscale c (fX f)) (vscale s (fY f))) (vsub (vscale c (fY f)) (vscale s (fX f))) (fZ f).

(** ** geometry/intersect.hpp *)

(** [mat.fullPivLu().solve(b)] for an invertible matrix with columns [a], [b], [c]: the solution *)
Definition solve (a b c q : vec) : vec :=
  let d := det3 a b c in V (det3 q b c / d) (det3 a q c / d) (det3 a b q / d).

(** intersect.hpp lines 12-41 [Intersect]: the ratio written, [None] if the argument is left alone.
    The case of two zero determinants (line 25: "TODO: pq on surface abc", where Eigen solves with a
    singular matrix) is not modelled: [None]. *)
Definition Intersect (pa pb pc pq : vec) : option R :=
  let swap_pq := if Req_EM_T (det3 pa pb pc) 0 then true else false in
  let '(a, b, c) := if swap_pq then (vsub pa pq, vsub pb pq, vsub pc pq) else (pa, pb, pc) in
  if Req_EM_T (det3 a b c) 0 then None
  else
    let lambda := solve a b c pq in
    let lambda := if swap_pq then vneg lambda else lambda in
    if Rge_dec (Rmin (vx lambda) (Rmin (vy lambda) (vz lambda))) 0 then
      let sum := vx lambda + vy lambda + vz lambda in
      if Rge_dec sum 1 then Some ((if swap_pq then sum - 1 else 1) / sum) else None
    else None.

(** ** aircraft/blade.hpp: sections of a blade *)

(** blade.hpp lines 31-33, 55-69: the four vectors, as one list of (y, chord, twist, airfoil) *)
Section Blade.
  Context {airfoil : Type}.
  Record Station := mkStation { y_value : R; chord : R; twist : R; foil : airfoil }.

  (** blade.hpp lines 55-69 [InstallSection]; [None]: throws *)
  Definition InstallSection (s : Station) (stations : list Station) : option (list Station) :=
    match stations with
    | [] => if Req_EM_T (y_value s) 0 then Some [s] else None
    | _ => if Rge_dec (y_value (last stations s)) (y_value s) then None else Some (stations ++ [s])
    end.

  (** a call whose exception is caught: the blade after it *)
  Definition try_install (stations : list Station) (s : Station) : list Station :=
    match InstallSection s stations with Some l => l | None => stations end.

  (** blade.hpp lines 74-76 [GetSpan] *)
  Definition GetSpan (stations : list Station) : R :=
    match stations with [] => 0 | s :: _ => y_value (last stations s) end.

  (** the chord, twist and the two weighted airfoils of section.hpp lines 57-62 *)
  Record SectionData := mkSection
    { s_chord : R; s_twist : R; s_left : airfoil * R; s_right : airfoil * R }.

  (** [std::lower_bound] of blade.hpp line 133: the first station not before [y], and the one before it *)
  Fixpoint lower_bound (prev : option Station) (stations : list Station) (y : R)
      : option (option Station * Station) :=
    match stations with
    | [] => None
    | s :: rest => if Rlt_dec (y_value s) y then lower_bound (Some s) rest y else Some (prev, s)
    end.

  (** blade.hpp lines 130-156 [GetSection] *)
  Definition GetSection (stations : list Station) (y_ratio : R) : option SectionData :=
    if Rle_dec 0 y_ratio then if Rle_dec y_ratio 1 then
      let y := y_ratio * GetSpan stations in
      do x <- lower_bound None stations y;
      let (prev, s1) := x : option Station * Station in
      if Req_EM_T (y_value s1) y then
        Some (mkSection (chord s1) (twist s1) (foil s1, 0) (foil s1, 1))
      else
        do s0 <- prev;
        let lambda_1 := (y_value s1 - y) / (y_value s1 - y_value s0) in
        let lambda_0 := 1 - lambda_1 in
        Some (mkSection (chord s1 * lambda_1 + chord s0 * lambda_0)
                        (twist s1 * lambda_1 + twist s0 * lambda_0)
                        (foil s0, lambda_0) (foil s1, lambda_1))
    else None else None.
End Blade.
Arguments Station : clear implicits.
Arguments SectionData : clear implicits.

(** ** aircraft/airfoil.hpp *)

(** airfoil.hpp lines 24-38 [Linear] *)
Definition Linear_Lift (c_lift deg : R) : R := c_lift * deg.
Definition Linear_Drag (c_drag deg : R) : R := c_drag * Rabs deg.

(** airfoil.hpp lines 122-128: the index of [SC1095] in its tables, a floating-point number converted
    to an integer (towards zero) *)
Definition SC1095_index (deg : R) : Z :=
  let x := (deg + 180) / 2 in if Rlt_dec x 0 then (- (up (- x) - 1))%Z else (up x - 1)%Z.
Definition SC1095_size : Z := 181.

(** ** aircraft/section.hpp *)

(** section.hpp lines 36-54 [GetAngleOfAttack], for [u] that is not 0 *)
Definition GetAngleOfAttack (twist u w : R) : R :=
  let deg := rad2deg (atan (w / u)) in
  let deg := if Rlt_dec u 0 then (if Rgt_dec w 0 then deg + 180 else deg - 180) else deg in
  let deg := deg + twist in
  if Rlt_dec deg (-180) then deg + (if Rlt_dec deg 0 then 360 else -360)
  else if Rlt_dec 180 deg then deg + (if Rlt_dec deg 0 then 360 else -360) else deg.

(** section.hpp lines 75-82 [Lift], [Drag]: two airfoils with weights *)
Definition mix (left right : (R -> R) * R) (deg : R) : R :=
  fst left deg * snd left + fst right deg * snd right.

(** section.hpp lines 91-96 [GetVelocity] *)
Definition GetVelocity (frame : Frame) (omega_deg root span y_ratio : R) : vec :=
  vscale (deg2rad omega_deg * (root + span * y_ratio)) (vneg (fX frame)).

(** section.hpp lines 104-121 [GetForce]; [lift] and [drag] are the functions of lines 75-82,
    [vs] the velocity of the section (line 105) *)
Definition GetForce (frame : Frame) (left_hand : bool) (twist chord : R) (lift drag : R -> R) (vs : vec)
    (rho : R) (velocity : vec) : vec :=
  let velocity := vsub velocity vs in
  let unit_x := if left_hand then vneg (fX frame) else fX frame in
  let u := dot velocity unit_x in
  let w := dot velocity (fZ frame) in
  let deg := GetAngleOfAttack twist u w in
  let c_lift := lift deg in
  let c_drag := drag deg in
  let (c, s) := CosSin (deg - twist) in
  let c_z := c_lift * c + c_drag * s in
  let c_x := c_drag * c - c_lift * s in
  vscale (- (1 / 2) * rho * (u * u + w * w) * chord) (vadd (vscale c_z (fZ frame)) (vscale c_x unit_x)).

(** ** aircraft/rotor.hpp *)

(** blade.hpp lines 34-37: root, azimuth, frame and end points of a blade, and its span *)
Record BladeState := mkBlade
  { b_root : R; b_span : R; b_azimuth : R; b_frame : Frame; b_p : vec; b_q : vec; b_pq : vec }.

(** rotor.hpp lines 25-30 *)
Record RotorState := mkRotor
  { r_blades : list BladeState; r_frame : Frame; r_origin : vec;
    r_initial : R; r_azimuth : R; r_omega : R; r_time : R }.

(** blade.hpp lines 93-97 [GetOrigin], 111-119 [GetPoint] for a ratio between 0 and 1 *)
Definition Blade_GetOrigin (origin : vec) (b : BladeState) : vec :=
  vadd (vscale (b_root b) (fY (b_frame b))) origin.
Definition Blade_GetPoint (origin : vec) (b : BladeState) (ratio : R) : vec :=
  vadd (vscale (ratio * b_span b) (fY (b_frame b))) (Blade_GetOrigin origin b).

(** blade.hpp lines 46-54 [SetAzimuth] *)
Definition Blade_SetAzimuth (frame : Frame) (origin : vec) (deg : R) (b : BladeState) : BladeState :=
  let b := mkBlade (b_root b) (b_span b) deg (RotateZ deg frame) (b_p b) (b_q b) (b_pq b) in
  let p := Blade_GetPoint origin b 0 in
  let q := Blade_GetPoint origin b 1 in
  mkBlade (b_root b) (b_span b) (b_azimuth b) (b_frame b) p q (vsub q p).

(** the loop of rotor.hpp lines 94-97 *)
Fixpoint set_azimuths (frame : Frame) (origin : vec) (psi deg : R) (blades : list BladeState) : list BladeState :=
  match blades with
  | [] => []
  | b :: blades => Blade_SetAzimuth frame origin deg b :: set_azimuths frame origin psi (deg + psi) blades
  end.

(** rotor.hpp lines 91-99 [SetAzimuth] (with no blades the quotient of line 93 is not used) *)
Definition SetAzimuth (deg : R) (r : RotorState) : RotorState :=
  let psi := 360 / INR (length (r_blades r)) in
  mkRotor (set_azimuths (r_frame r) (r_origin r) psi deg (r_blades r))
    (r_frame r) (r_origin r) (r_initial r) deg (r_omega r) (r_time r).

(** rotor.hpp lines 100-104 [SetInitialAzimuth] *)
Definition SetInitialAzimuth (deg : R) (r : RotorState) : RotorState :=
  SetAzimuth deg (mkRotor (r_blades r) (r_frame r) (r_origin r) deg (r_azimuth r) (r_omega r) (r_time r)).

(** rotor.hpp lines 105-113 [UpdateAzimuth] *)
Definition UpdateAzimuth (time : R) (r : RotorState) : RotorState :=
  if Req_EM_T (r_time r) time then r
  else SetAzimuth (r_initial r + time * r_omega r)
    (mkRotor (r_blades r) (r_frame r) (r_origin r) (r_initial r) (r_azimuth r) (r_omega r) time).

(** rotor.hpp lines 76-79 [SetRevolutionsPerSecond] *)
Definition SetRevolutionsPerSecond (rps : R) (r : RotorState) : RotorState :=
  mkRotor (r_blades r) (r_frame r) (r_origin r) (r_initial r) (r_azimuth r) (rps * 360) (r_time r).

(** the calls that move a rotor *)
Inductive RotorCall :=
| CallSetAzimuth (deg : R) | CallSetInitialAzimuth (deg : R)
| CallSetRevolutionsPerSecond (rps : R) | CallUpdateAzimuth (time : R).
Definition call (r : RotorState) (c : RotorCall) : RotorState :=
  match c with
  | CallSetAzimuth deg => SetAzimuth deg r
  | CallSetInitialAzimuth deg => SetInitialAzimuth deg r
  | CallSetRevolutionsPerSecond rps => SetRevolutionsPerSecond rps r
  | CallUpdateAzimuth time => UpdateAzimuth time r
  end.

(** ** Which rotor the blades of a rotor refer to *)

(** every live rotor, by its address, with the [rotor_] pointers (blade.hpp line 38) of its blades *)
Definition Memory := nat -> option (list nat).
Definition set_mem (m : Memory) (a : nat) (v : option (list nat)) : Memory :=
  fun b => if Nat.eq_dec b a then v else m b.

(** what a program does with rotors (rotor.hpp lines 32-68, 115-119); the other members do not matter
    here.  A blade given to [InstallBlade] may refer to any rotor. *)
Inductive RotorEvent :=
| Construct (a : nat)                 (* line 33 *)
| Destroy (a : nat)                   (* line 34 *)
| InstallBlade (a : nat) (old : nat)  (* lines 115-119; [old] is the pointer of the argument *)
| CopyAssign (a b : nat)              (* lines 35-49 *)
| CopyConstruct (a b : nat)           (* lines 50-52 *)
| MoveAssign (a b : nat)              (* lines 53-67 *)
| MoveConstruct (a b : nat).          (* lines 68-70 *)

Definition event (m : Memory) (e : RotorEvent) : option Memory :=
  match e with
  | Construct a => match m a with None => Some (set_mem m a (Some [])) | _ => None end
  | Destroy a => match m a with Some _ => Some (set_mem m a None) | _ => None end
  | InstallBlade a old =>
      (* the new blade is a copy, and then [SetRotor] is called on it *)
      match m a with Some bs => Some (set_mem m a (Some (bs ++ [a]))) | _ => None end
  | CopyAssign a b =>
      match m a, m b with
      | Some _, Some bs => if Nat.eq_dec a b then Some m else Some (set_mem m a (Some (map (fun _ => a) bs)))
      | _, _ => None
      end
  | CopyConstruct a b =>
      match m a, m b with
      | None, Some bs => Some (set_mem m a (Some (map (fun _ => a) bs)))
      | _, _ => None
      end
  | MoveAssign a b =>
      match m a, m b with
      | Some _, Some bs =>
          if Nat.eq_dec a b then Some m
          else Some (set_mem (set_mem m b (Some [])) a (Some (map (fun _ => a) bs)))
      | _, _ => None
      end
  | MoveConstruct a b =>
      match m a, m b with
      | None, Some bs => Some (set_mem (set_mem m b (Some [])) a (Some (map (fun _ => a) bs)))
      | _, _ => None
      end
  end.

(** ** aircraft/source.hpp *)

(** source.hpp lines 41-43 [Valid] *)
Definition Valid (ratio : R) : bool :=
  if Rle_dec 0 ratio then (if Rle_dec ratio 1 then true else false) else false.

(** the loop of source.hpp lines 51-76 over the results of [Intersect] for the faces in turn; a third
    hit is never looked at because of the break in line 52 *)
Fixpoint hits (r s : R) (faces : list (option R)) : R * R :=
  match faces with
  | [] => (r, s)
  | f :: faces =>
      if andb (Valid r) (Valid s) then (r, s)
      else
        let ratio := match f with Some t => t | None => -1 end in
        if Valid ratio then
          if negb (Valid r) then hits ratio s faces
          else hits r ratio faces
        else hits r s faces
  end.

(** source.hpp lines 45-89 [Intersect], from the end points relative to which the faces are given *)
Definition Rotorcraft_Intersect (faces : list (option R)) : R * R :=
  let (r, s) := hits (-1) (-1) faces in
  let s := if andb (Valid r) (negb (Valid s)) then (if Rlt_dec r (1 / 2) then 0 else 1) else s in
  if andb (Valid r) (Valid s) then (if Rgt_dec r s then (s, r) else (r, s)) else (r, s).

(** a cell given by the corners of its triangular faces: source.hpp lines 55-63 *)
Definition face_hits (p q : vec) (faces : list (vec * vec * vec)) : list (option R) :=
  map (fun '(a, b, c) => Intersect (vsub a p) (vsub b p) (vsub c p) (vsub q p)) faces.
