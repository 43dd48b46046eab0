(** Model of [mini::mesh::vtk::EncodeBase64],
    /repo/include/mini/mesh/vtk.hpp lines 14-57.
    A [Byte] (= [char], line 14) is an integer; the theorems allow both the
    signed range and the unsigned range.  An output character is its ASCII
    code.  [base[i]] outside of the 64-letter table is the outcome [None]. *)
From Coq Require Import ZArith List String Ascii.
Import ListNotations.
Open Scope Z_scope.

(** vtk.hpp lines 22-23: the array [base] *)
Definition base : list Z :=
  map (fun c => Z.of_N (N_of_ascii c))
    (list_ascii_of_string
      "ABCDEFGHIJKLMNOPQRSTUVWXYZabcdefghijklmnopqrstuvwxyz0123456789+/").

(** [base[i]] *)
Definition base_at (i : Z) : option Z :=
  if i <? 0 then None else nth_error base (Z.to_nat i).

(** vtk.hpp lines 24-31: the lambda [encode]; [&], [<<], [>>], [+] act on
    the promoted [int]s. *)
Definition encode (in0 in1 in2 : Z) : option (list Z) :=
  match base_at (Z.shiftr (Z.land in0 252) 2),
        base_at (Z.shiftl (Z.land in0 3) 4 + Z.shiftr (Z.land in1 240) 4),
        base_at (Z.shiftl (Z.land in1 15) 2 + Z.shiftr (Z.land in2 192) 6),
        base_at (Z.land in2 63) with
  | Some a, Some b, Some c, Some d => Some [a; b; c; d]
  | _, _, _, _ => None
  end.

(** vtk.hpp lines 32-38: the loop over whole triplets.  Returns what has been
    written and the remaining input; reading past the end is [None]. *)
Fixpoint triplets (n : nat) (input : list Z) : option (list Z * list Z) :=
  match n with
  | O => Some ([], input)
  | S n' =>
    match input with
    | a :: b :: c :: rest =>
      match encode a b c, triplets n' rest with
      | Some out, Some (outs, rem) => Some (out ++ outs, rem)
      | _, _ => None
      end
    | _ => None
    end
  end.

(** vtk.hpp lines 39-55: padding; [size] is the number of output characters
    still to be filled up to [output_end].  The assertions of lines 46 and 54
    are explicit. *)
Definition padding (rem : list Z) (size : nat) : option (list Z) :=
  match rem with
  | [] => Some []
  | _ =>
    let i := List.length rem in
    if (Nat.eqb i 1 || Nat.eqb i 2)%bool then
      match encode (nth 0 rem 0) (nth 1 rem 0) (nth 2 rem 0) with
      | Some out =>
        let pad := repeat 61 (size - (i + 1)) in
        if Nat.eqb (i + 1 + List.length pad) 4
        then Some (firstn (i + 1) out ++ pad) else None
      | None => None
      end
    else None
  end.

(** vtk.hpp lines 16-57: the whole function.  Line 18 fixes the size of the
    output. *)
Definition EncodeBase64 (input : list Z) : option (list Z) :=
  let n_char := List.length input in
  let size := ((n_char / 3 + (if Nat.eqb (n_char mod 3) 0 then 0 else 1)) * 4)%nat in
  match triplets (n_char / 3) input with
  | Some (outs, rem) =>
    match padding rem (size - List.length outs) with
    | Some tail => Some (outs ++ tail)
    | None => None
    end
  | None => None
  end.
