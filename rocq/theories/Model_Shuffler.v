(** Model of [Shuffler::Shuffle] and [Shuffler::FillFaceParts],
    /repo/include/mini/mesh/shuffler.hpp lines 150-314. *)
From Coq Require Import List Arith ZArith Bool.
From Verif Require Import Arrays Model_Cgns Model_Mapper Model_Shuffle.
Import ListNotations.

(** shuffler.hpp lines 159-188: [node_user_cells]: for each METIS node the list
    of cells that use it, as a list of (node, cell) uses in loop order. *)
Fixpoint section_uses (mp : Mapper) (z s : nat) (sec : Section) (cells : list nat)
    : option (list (nat * nat)) :=
  match cells with
  | [] => Some []
  | c :: t =>
    do m_cell <- cell_of mp z s c;
    do row <- cell_row sec c;
    do m_nodes <- mapM (node_of mp z) row;
    do rest <- section_uses mp z s sec t;
    Some (map (fun m_node => (m_node, m_cell)) m_nodes ++ rest)
  end.

Fixpoint sections_uses (cell_dim : Z) (mp : Mapper) (z s : nat) (ss : list Section)
    : option (list (nat * nat)) :=
  match ss with
  | [] => Some []
  | sec :: t =>
    do u <- (if Z.eqb (s_dim sec) cell_dim
             then section_uses mp z s sec (seq (s_first sec) (s_count sec))
             else Some []);
    do us <- sections_uses cell_dim mp z (S s) t;
    Some (u ++ us)
  end.

Fixpoint zones_uses {A} (cell_dim : Z) (mp : Mapper) (z : nat) (zs : list (Zone A))
    : option (list (nat * nat)) :=
  match zs with
  | [] => Some []
  | zn :: t =>
    do u <- sections_uses cell_dim mp z 1 (z_sections zn);
    do us <- zones_uses cell_dim mp (S z) t;
    Some (u ++ us)
  end.

(** [node_user_cells[m_node]] *)
Definition user_cells (uses : list (nat * nat)) (m_node : nat) : list nat :=
  map snd (filter (fun u => Nat.eqb (fst u) m_node) uses).

(** shuffler.hpp lines 208-227: the part of one face.  [None] is a failed
    assertion: of line 220 ([cnt <= npe]) or of line 227 (the cells whose
    counter equals [npe] must be exactly one). *)
Definition face_part (cell_parts : list nat) (uses : list (nat * nat)) (npe : nat)
    (m_nodes : list nat) : option nat :=
  let users := flat_map (user_cells uses) m_nodes in
  let cells := nodup Nat.eq_dec users in
  let cnt c := count_occ Nat.eq_dec users c in
  if forallb (fun c => cnt c <=? npe) cells then
    match filter (fun c => cnt c =? npe) cells with
    | [c] => nth_error cell_parts c
    | _ => None
    end
  else None.

Definition section_face_parts (cell_parts : list nat) (uses : list (nat * nat))
    (mp : Mapper) (z : nat) (sec : Section) : option (list nat) :=
  mapM (fun f =>
          do row <- cell_row sec f;
          do m_nodes <- mapM (node_of mp z) row;
          face_part cell_parts uses (s_npe sec) m_nodes)
    (seq (s_first sec) (s_count sec)).

(** shuffler.hpp lines 189-238: [face_parts_]; only sections with
    dim + 1 = cell_dim get an entry, the others are [None] *)
Fixpoint sections_face_parts (cell_dim : Z) (cell_parts : list nat)
    (uses : list (nat * nat)) (mp : Mapper) (z : nat) (ss : list Section)
    : option (list (option (list nat))) :=
  match ss with
  | [] => Some []
  | sec :: t =>
    do e <- (if Z.eqb (s_dim sec + 1) cell_dim
             then do ps <- section_face_parts cell_parts uses mp z sec; Some (Some ps)
             else Some None);
    do es <- sections_face_parts cell_dim cell_parts uses mp z t;
    Some (e :: es)
  end.

Fixpoint zones_face_parts {A} (cell_dim : Z) (cell_parts : list nat)
    (uses : list (nat * nat)) (mp : Mapper) (z : nat) (zs : list (Zone A))
    : option (list (list (option (list nat)))) :=
  match zs with
  | [] => Some []
  | zn :: t =>
    do e <- sections_face_parts cell_dim cell_parts uses mp z (z_sections zn);
    do es <- zones_face_parts cell_dim cell_parts uses mp (S z) t;
    Some (e :: es)
  end.

Definition FillFaceParts {A} (cell_dim : Z) (cell_parts : list nat) (mp : Mapper)
    (zs : list (Zone A)) : option (list (list (option (list nat)))) :=
  do uses <- zones_uses cell_dim mp 1 zs;
  zones_face_parts cell_dim cell_parts uses mp 1 zs.

Definition with_conn (s : Section) (conn : list nat) : Section :=
  mkSection (s_id s) (s_name s) (s_first s) (s_count s) (s_dim s) (s_type s) conn
    (s_offset s).

(** shuffler.hpp lines 276-311: loop over the sections of one zone.
    [c2m] and [fps] are the entries of [cgns_to_metis_for_cells] and
    [face_parts_] of the same zone; [m2c] is the whole
    [metis_to_cgns_for_cells]; [fields] are the fields on cells.  A missing
    entry of [face_parts_] makes [.at] throw (line 285): [None]. *)
Fixpoint shuffle_sections {A} (cell_dim : Z) (cell_parts : list nat)
    (o2n_nodes : list nat) (ss : list Section) (c2m : list (nat * list nat))
    (fps : list (option (list nat))) (m2c : list (nat * nat * nat))
    (fields : list (list A))
    : option (list Section * list (nat * list nat) * list (nat * nat * nat)
              * list (list A)) :=
  match ss, c2m, fps with
  | [], [], [] => Some ([], [], m2c, fields)
  | s :: ss', (shift, data) :: c2m', fp :: fps' =>
    if negb (Z.eqb (s_dim s) cell_dim) then
      do parts <- fp;
      do parts_n <- slice parts 0 (s_count s);
      let n2o_faces := fst (GetNewOrder parts_n) in
      do conn <- ShuffleConnectivity o2n_nodes n2o_faces (s_npe s) (s_conn s);
      do (rs, rc, rm, rf) <-
        shuffle_sections cell_dim cell_parts o2n_nodes ss' c2m' fps' m2c fields;
      Some (with_conn s conn :: rs, (shift, data) :: rc, rm, rf)
    else
      (* c_to_m_cells[i_zone][i_sect].at(range_min) *)
      do offset <- (if s_first s <? shift then None else nth_error data (s_first s - shift));
      do parts <- slice cell_parts offset (s_count s);
      let '(n2o, o2n) := GetNewOrder parts in
      do m2c1 <- ShuffleData o2n m2c offset;
      do data1 <- ShuffleData n2o data 0;
      do conn <- ShuffleConnectivity o2n_nodes n2o (s_npe s) (s_conn s);
      do fields1 <- mapM (fun f => ShuffleData n2o f (s_first s - 1)) fields;
      do (rs, rc, rm, rf) <-
        shuffle_sections cell_dim cell_parts o2n_nodes ss' c2m' fps' m2c1 fields1;
      Some (with_conn s conn :: rs, (shift, data1) :: rc, rm, rf)
  | _, _, _ => None
  end.

(** shuffler.hpp lines 251-313: loop over zones *)
Fixpoint shuffle_zones {A} (cell_dim : Z) (cell_parts node_parts : list nat)
    (zs : list (Zone A)) (c2mn : list (list nat)) (c2mc : list (list (nat * list nat)))
    (fps : list (list (option (list nat))))
    (m2cn : list (nat * nat)) (m2cc : list (nat * nat * nat))
    : option (list (Zone A) * Mapper) :=
  match zs, c2mn, c2mc, fps with
  | [], [], [], [] => Some ([], mkMapper m2cn m2cc [] [])
  | zn :: zs', nodes :: c2mn', sects :: c2mc', fp :: fps' =>
    do offset <- nth_error nodes 0;
    do parts <- slice node_parts offset (CountNodes zn);
    let '(n2o, o2n) := GetNewOrder parts in
    do x <- ShuffleData n2o (z_x zn) 0;
    do y <- ShuffleData n2o (z_y zn) 0;
    do z <- ShuffleData n2o (z_z zn) 0;
    do nodes1 <- ShuffleData n2o nodes 0;
    do m2cn1 <- ShuffleData o2n m2cn offset;
    do nf <- mapM (fun f => ShuffleData n2o f 0) (z_node_fields zn);
    do (ss, sects1, m2cc1, cf) <-
      shuffle_sections cell_dim cell_parts o2n (z_sections zn) sects fp m2cc
        (z_cell_fields zn);
    do (rz, rm) <-
      shuffle_zones cell_dim cell_parts node_parts zs' c2mn' c2mc' fps' m2cn1 m2cc1;
    Some (mkZone x y z ss nf cf :: rz,
          mkMapper (m2c_nodes rm) (m2c_cells rm)
            (nodes1 :: c2m_nodes rm) (sects1 :: c2m_cells rm))
  | _, _, _, _ => None
  end.

(** shuffler.hpp lines 241-314 (without [UpdateSectionRanges], see
    Model_Sections). *)
Definition Shuffle {A} (cell_dim : Z) (cell_parts node_parts : list nat)
    (zs : list (Zone A)) (mp : Mapper) : option (list (Zone A) * Mapper) :=
  do fps <- FillFaceParts cell_dim cell_parts mp zs;
  shuffle_zones cell_dim cell_parts node_parts zs
    (c2m_nodes mp) (c2m_cells mp) fps (m2c_nodes mp) (m2c_cells mp).
