(** C01 *)
From Coq Require Import ZArith List Lia.
From Verif Require Import Model_Base64 Spec_Base64 Proof_Base64.
Import ListNotations.
Open Scope Z_scope.

Theorem C01_base64_round_trip : forall bytes, Forall is_char bytes ->
  exists s, EncodeBase64 bytes = Some s /\
    decode s = Some (map byte_of_char bytes) /\
    well_padded (List.length bytes) s.
Proof. exact encode_decode. Qed.
Print Assumptions C01_base64_round_trip.

Example C01_nonvacuous :
  Forall is_char [77; -97; 110; 255] /\
  exists s, EncodeBase64 [77; -97; 110; 255] = Some s /\
    decode s = Some [77; 159; 110; 255] /\ s <> [].
Proof.
  split; [repeat constructor; unfold is_char; lia|].
  eexists. split; [vm_compute; reflexivity|]. split; [vm_compute; reflexivity|discriminate].
Qed.
