(** What a distributed solution and a file of it are, for properties C100 and C101. *)
From Coq Require Import List Arith String.
From Verif Require Import Arrays Model_Restart.
Import ListNotations.

Section Spec.
  Context {A : Type}.

  (** a matrix of [K] rows and [N] columns *)
  Definition is_coeff (K N : nat) (c : coeff A) : Prop :=
    List.length c = N /\ Forall (fun col => List.length col = K) c.

  (** one of the processes has the cell number [id] of zone [z] (counted from 0), with the coefficients [c] *)
  Definition holds (parts : list (Part A)) (z id : nat) (c : coeff A) : Prop :=
    exists p m k s, In p parts /\ nth_error p z = Some m /\ In (k, s) m /\
      head s <= id /\ nth_error (cells s) (id - head s) = Some c.

  (** a section whose cells have numbers between 1 and [n], with an array for each field *)
  Definition section_ok (K N n : nat) (s : Sect A) : Prop :=
    Forall (is_coeff K N) (cells s) /\
    List.length (fields s) = K * N /\
    Forall (fun row => List.length row = List.length (cells s)) (fields s) /\
    (cells s <> [] -> 1 <= head s /\ head s + List.length (cells s) <= S n).

  (** all processes have the sections numbered 1, .., [n_sects] of each zone; [zones] has the number of cells
      and the number of sections of the zones *)
  Definition parts_ok (K N : nat) (zones : list (nat * nat)) (parts : list (Part A)) : Prop :=
    parts <> [] /\
    forall p, In p parts -> List.length p = List.length zones /\
      forall z m n n_sects, nth_error p z = Some m -> nth_error zones z = Some (n, n_sects) ->
        map fst m = seq 1 n_sects /\ Forall (fun x => section_ok K N n (snd x)) m.

  (** processes that have the same cell agree on it *)
  Definition consistent (parts : list (Part A)) : Prop :=
    forall z id c c', holds parts z id c -> holds parts z id c' -> c = c'.

  (** the same sections with the same numbers of cells *)
  Definition same_section (s s' : Sect A) : Prop :=
    head s = head s' /\ List.length (cells s) = List.length (cells s').
  Definition same_part (p p' : Part A) : Prop :=
    Forall2 (Forall2 (fun x x' => fst x = fst x' /\ same_section (snd x) (snd x'))) p p'.

  (** the values of the coefficients only *)
  Definition solution (p : Part A) : list (list (nat * (nat * list (coeff A)))) :=
    map (map (fun x => (fst x, (head (snd x), cells (snd x))))) p.

  (** entry [id] of the field [name] in zone [z] of the file *)
  Definition entry (file : list (FZone A)) (z : nat) (name : string) (id : nat) (v : A) : Prop :=
    exists fz row, nth_error file z = Some fz /\ In (name, row) (f_fields fz) /\
      1 <= id /\ nth_error row (id - 1) = Some (Some v).
End Spec.
