(** RFC 4648 decoding, written independently of the encoder. *)
From Coq Require Import ZArith List Bool.
Import ListNotations.
Open Scope Z_scope.

(** value of a base64 letter given by its ASCII code (RFC 4648, table 1) *)
Definition letter_value (c : Z) : option Z :=
  if (65 <=? c) && (c <=? 90) then Some (c - 65)
  else if (97 <=? c) && (c <=? 122) then Some (c - 97 + 26)
  else if (48 <=? c) && (c <=? 57) then Some (c - 48 + 52)
  else if c =? 43 then Some 62
  else if c =? 47 then Some 63
  else None.

Definition is_letter (c : Z) : Prop := exists v, letter_value c = Some v.

(** Strict decoder: every quantum has four characters; '=' (code 61) may only
    occur as the last one or two characters of the last quantum, and the
    unused bits of the last letter must be zero. *)
Fixpoint decode (s : list Z) : option (list Z) :=
  match s with
  | [] => Some []
  | a :: b :: c :: d :: rest =>
    match letter_value a, letter_value b with
    | Some va, Some vb =>
      match letter_value c, letter_value d with
      | Some vc, Some vd =>
        match decode rest with
        | Some bytes =>
          let w := ((va * 64 + vb) * 64 + vc) * 64 + vd in
          Some (w / 65536 :: (w / 256) mod 256 :: w mod 256 :: bytes)
        | None => None
        end
      | Some vc, None =>
        match rest with
        | [] =>
          let w := (va * 64 + vb) * 64 + vc in
          if (d =? 61) && (w mod 4 =? 0)
          then Some [w / 1024; (w / 4) mod 256] else None
        | _ => None
        end
      | None, None =>
        match rest with
        | [] =>
          let w := va * 64 + vb in
          if (c =? 61) && (d =? 61) && (w mod 16 =? 0)
          then Some [w / 16] else None
        | _ => None
        end
      | None, Some _ => None
      end
    | _, _ => None
    end
  | _ => None
  end.

(** The unsigned value of a [char], whichever its signedness. *)
Definition byte_of_char (c : Z) : Z := c mod 256.

Definition is_char (c : Z) : Prop := -128 <= c <= 255.

(** Shape of the output for an input of [n] bytes. *)
Definition well_padded (n : nat) (s : list Z) : Prop :=
  List.length s = (4 * ((n + 2) / 3))%nat /\
  exists letters, Forall is_letter letters /\
    s = letters ++ repeat 61 ((3 - n mod 3) mod 3)%nat.
