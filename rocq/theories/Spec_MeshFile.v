(** What reading and writing mesh files should achieve. *)
From Coq Require Import String List Arith ZArith Permutation Sorted.
From Verif Require Import Arrays Model_Cgns Model_Sections Spec_Mesh Spec_Sections Model_MeshFile.
Import ListNotations.

(** names of at most [n] characters, not empty, and different from each other *)
Definition named {X} (n : nat) (name : X -> string) (l : list X) : Prop :=
  NoDup (map name l) /\ forall x, In x l -> 1 <= String.length (name x) <= n.

(** number of cells of a section of a file *)
Definition fs_count (f : FSection) : nat := fs_last f - fs_first f + 1.

(** [t] is the type of one of the cells of [f] *)
Definition cell_type (f : FSection) (t : ElementType) : Prop :=
  if type_eqb (fs_type f) MIXED
  then exists k i, k < fs_count f /\ nth_error (fs_offset f) k = Some i /\
         nth_error (fs_conn f) i = Some (type_code t)
  else t = fs_type f.

(** a section as the CGNS standard has it: a range of positive length; in a mixed section the
    offsets increase up to the size of the connectivity *)
Definition standard_section (f : FSection) : Prop :=
  1 <= fs_first f <= fs_last f /\
  if type_eqb (fs_type f) MIXED
  then List.length (fs_offset f) = fs_count f + 1 /\
       StronglySorted lt (fs_offset f) /\
       nth_error (fs_offset f) (fs_count f) = Some (List.length (fs_conn f))
  else fs_offset f = [] /\ List.length (fs_conn f) = CountNodesByType (fs_type f) * fs_count f.

(** ... all of whose cells have one of the types that the program knows *)
Definition known_types (f : FSection) : Prop :=
  if type_eqb (fs_type f) MIXED
  then forall k i, k < fs_count f -> nth_error (fs_offset f) k = Some i ->
         exists t d, nth_error (fs_conn f) i = Some (type_code t) /\ dim t = Some d /\ t <> MIXED
  else exists d, dim (fs_type f) = Some d.

(** the highest dimension of a cell *)
Definition section_dim (f : FSection) (d : Z) : Prop :=
  (exists t, cell_type f t /\ dim t = Some d) /\
  forall t d', cell_type f t -> dim t = Some d' -> (d' <= d)%Z.

Section Spec.
  Context {A : Type}.

  Definition size_at (z : FZone A) (l : Location) : nat :=
    match l with Vertex => fz_nodes z | _ => fz_cells z end.

  (** the solutions of a zone: double precision, on the nodes or in the cells *)
  Definition standard_soln (z : FZone A) (s : FSoln A) : Prop :=
    fo_loc s <> OtherLocation /\ named 32 ff_name (fo_fields s) /\
    forall f, In f (fo_fields s) ->
      ff_type f = RealDouble /\ List.length (ff_data f) = size_at z (fo_loc s).

  Definition standard_zone (z : FZone A) : Prop :=
    (forall name l, In (name, l) (fz_coords z) -> List.length l = fz_nodes z) /\
    named 32 fs_name (fz_sections z) /\
    (forall f, In f (fz_sections z) -> standard_section f /\ known_types f) /\
    named 31 fb_name (fz_bcs z) /\ (forall b, In b (fz_bcs z) -> List.length (fb_pnts b) = 2) /\
    named 32 fo_name (fz_solns z) /\ (forall s, In s (fz_solns z) -> standard_soln z s).

  (** a mesh file that the program can handle *)
  Definition mesh_file (f : list (FBase A)) : Prop :=
    named 32 fe_name f /\
    forall b, In b f -> named 32 fz_name (fe_zones b) /\ forall z, In z (fe_zones b) -> standard_zone z.

  (** everything about a section but the numbers of its cells *)
  Definition fs_contents (f : FSection) := (fs_name f, fs_type f, fs_count f, fs_conn f, fs_offset f).

  (** the ranges follow each other *)
  Fixpoint ranges_from (first : nat) (l : list FSection) : Prop :=
    match l with
    | [] => True
    | f :: t => fs_first f = first /\ first <= fs_last f /\ ranges_from (S (fs_last f)) t
    end.

  (** the coordinates of the nodes; a coordinate that is missing counts as [zero] *)
  Definition coordinate (zero : A) (name : string) (z : FZone A) : list A :=
    match find (fun p => String.eqb (fst p) name) (fz_coords z) with
    | Some p => snd p
    | None => repeat zero (fz_nodes z)
    end.

  (** [z'] holds the mesh of [z]; only the order of the sections and the numbers of the cells
      differ: higher dimensions come first *)
  Definition same_zone (zero : A) (z z' : FZone A) : Prop :=
    fz_name z' = fz_name z /\ fz_nodes z' = fz_nodes z /\ fz_cells z' = fz_cells z /\
    (forall name, In name ["CoordinateX"; "CoordinateY"; "CoordinateZ"]%string ->
       coordinate zero name z' = coordinate zero name z) /\
    fz_bcs z' = fz_bcs z /\ fz_solns z' = fz_solns z /\
    Permutation (map fs_contents (fz_sections z')) (map fs_contents (fz_sections z)) /\
    StronglySorted (fun f g => forall d e, section_dim f d -> section_dim g e -> (e <= d)%Z)
      (fz_sections z') /\
    ranges_from 1 (fz_sections z').

  Definition same_base (zero : A) (b b' : FBase A) : Prop :=
    fe_name b' = fe_name b /\ fe_cell_dim b' = fe_cell_dim b /\ fe_phys_dim b' = fe_phys_dim b /\
    Forall2 (same_zone zero) (fe_zones b) (fe_zones b').

  Definition same_file (zero : A) (f f' : list (FBase A)) : Prop := Forall2 (same_base zero) f f'.

  (** the boundary condition [b] of the zone [z] covers exactly the cells of the section of its own name *)
  Definition names_its_section (z : FZone A) (b : FBC) : Prop :=
    exists s, In s (fz_sections z) /\ fs_name s = fb_name b /\ fb_pnts b = [fs_first s; fs_last s].
End Spec.

(** [z'] holds of the sections of [z] exactly those that have cells of dimension [d] or higher *)
Definition cut_zone {A} (d : Z) (z z' : FZone A) : Prop :=
  fz_name z' = fz_name z /\ fz_nodes z' = fz_nodes z /\ fz_cells z' = fz_cells z /\
  fz_coords z' = fz_coords z /\ fz_bcs z' = fz_bcs z /\ fz_solns z' = fz_solns z /\
  exists rest, fz_sections z = (fz_sections z' ++ rest)%list /\
    (forall s, In s (fz_sections z') -> exists e, section_dim s e /\ (d <= e)%Z) /\
    (forall s, In s rest -> exists e, section_dim s e /\ (e < d)%Z).

Definition cut_file {A} (d : Z) (f f' : list (FBase A)) : Prop :=
  Forall2 (fun b b' => fe_name b' = fe_name b /\ fe_cell_dim b' = fe_cell_dim b /\
    fe_phys_dim b' = fe_phys_dim b /\ Forall2 (cut_zone d) (fe_zones b) (fe_zones b')) f f'.
