From Coq Require Import ZArith List Lia Bool.
From Coq Require Import ZifyBool ZifyNat.
From Verif Require Import Model_Base64 Spec_Base64.
Import ListNotations.
Open Scope Z_scope.
Ltac Zify.zify_post_hook ::= Z.div_mod_to_equations.

(** finite sweep over an interval of [Z] *)
Definition zrange (lo : Z) (n : nat) : list Z :=
  map (fun i => lo + Z.of_nat i) (seq 0 n).

Lemma zrange_in lo n x : lo <= x < lo + Z.of_nat n -> In x (zrange lo n).
Proof.
  intros H. unfold zrange. apply in_map_iff.
  exists (Z.to_nat (x - lo)). split; [lia|]. apply in_seq. lia.
Qed.

Definition bits_ok (c : Z) : bool :=
  let u := byte_of_char c in
  (Z.shiftr (Z.land c 252) 2 =? u / 4) && (Z.shiftl (Z.land c 3) 4 =? (u mod 4) * 16)
  && (Z.shiftr (Z.land c 240) 4 =? u / 16) && (Z.shiftl (Z.land c 15) 2 =? (u mod 16) * 4)
  && (Z.shiftr (Z.land c 192) 6 =? u / 64) && (Z.land c 63 =? u mod 64).

Lemma bits c : is_char c -> bits_ok c = true.
Proof.
  intros H.
  assert (A : forallb bits_ok (zrange (-128) 384) = true) by (vm_compute; reflexivity).
  rewrite forallb_forall in A. apply A. apply zrange_in. unfold is_char in H. lia.
Qed.

Definition letter_ok (i : Z) : bool :=
  match base_at i with
  | Some c => match letter_value c with Some v => v =? i | None => false end
  | None => false
  end.

Lemma base_letter i : 0 <= i < 64 ->
  exists c, base_at i = Some c /\ letter_value c = Some i.
Proof.
  intros H.
  assert (A : forallb letter_ok (zrange 0 64) = true) by (vm_compute; reflexivity).
  rewrite forallb_forall in A. specialize (A i (zrange_in 0 64 i ltac:(lia))).
  unfold letter_ok in A. destruct (base_at i) as [c|]; [|discriminate].
  exists c. split; [reflexivity|].
  destruct (letter_value c) as [v|]; [|discriminate]. f_equal. lia.
Qed.

Lemma byte_range c : is_char c -> 0 <= byte_of_char c < 256.
Proof. unfold is_char, byte_of_char. lia. Qed.

Lemma encode_spec a b c : is_char a -> is_char b -> is_char c ->
  exists p q r s, encode a b c = Some [p; q; r; s] /\
    letter_value p = Some (byte_of_char a / 4) /\
    letter_value q = Some ((byte_of_char a mod 4) * 16 + byte_of_char b / 16) /\
    letter_value r = Some ((byte_of_char b mod 16) * 4 + byte_of_char c / 64) /\
    letter_value s = Some (byte_of_char c mod 64).
Proof.
  intros Ha Hb Hc.
  pose proof (bits a Ha) as Ba. pose proof (bits b Hb) as Bb. pose proof (bits c Hc) as Bc.
  pose proof (byte_range a Ha) as Ra. pose proof (byte_range b Hb) as Rb.
  pose proof (byte_range c Hc) as Rc.
  unfold bits_ok in *.
  repeat match goal with H : _ && _ = true |- _ => apply andb_prop in H; destruct H end.
  repeat match goal with H : (_ =? _) = true |- _ => apply Z.eqb_eq in H end.
  unfold encode.
  repeat match goal with H : ?x = _ |- context [?x] => rewrite H end.
  remember (byte_of_char a) as ua. remember (byte_of_char b) as ub.
  remember (byte_of_char c) as uc.
  destruct (base_letter (ua / 4)) as (p & -> & Hp); [lia|].
  destruct (base_letter (ua mod 4 * 16 + ub / 16)) as (q & -> & Hq); [lia|].
  destruct (base_letter (ub mod 16 * 4 + uc / 64)) as (r & -> & Hr); [lia|].
  destruct (base_letter (uc mod 64)) as (s & -> & Hs); [lia|].
  exists p, q, r, s. auto.
Qed.

(** Direct recursive description of the encoder, three bytes at a time. *)
Lemma three_ind (P : list Z -> Prop) :
  P [] -> (forall a, P [a]) -> (forall a b, P [a; b]) ->
  (forall a b c l, P l -> P (a :: b :: c :: l)) -> forall l, P l.
Proof.
  intros H0 H1 H2 H3 l.
  assert (H : forall n l, (List.length l <= n)%nat -> P l).
  { induction n as [|n IH]; intros l0 Hl.
    - destruct l0; [assumption|simpl in Hl; lia].
    - destruct l0 as [|a [|b [|c l1]]]; auto.
      apply H3. apply IH. simpl in Hl. lia. }
  apply (H (List.length l) l). lia.
Qed.

Lemma Encode_cons3 a b c l out : encode a b c = Some out -> List.length out = 4%nat ->
  EncodeBase64 (a :: b :: c :: l) =
    match EncodeBase64 l with Some s => Some (out ++ s) | None => None end.
Proof.
  intros He Hl. unfold EncodeBase64. cbn [List.length].
  set (n := List.length l).
  assert (E1 : (S (S (S n)) / 3 = S (n / 3))%nat) by lia.
  assert (E2 : (S (S (S n)) mod 3 = n mod 3)%nat) by lia.
  rewrite E1, E2. cbn [triplets]. rewrite He.
  destruct (triplets (n / 3) l) as [[outs rem]|]; [|reflexivity].
  rewrite app_length, Hl.
  replace ((S (n / 3) + (if (n mod 3 =? 0)%nat then 0 else 1)) * 4 - (4 + List.length outs))%nat
    with ((n / 3 + (if (n mod 3 =? 0)%nat then 0 else 1)) * 4 - List.length outs)%nat by lia.
  destruct (padding _ _) as [tail|]; [|reflexivity].
  now rewrite app_assoc.
Qed.

Theorem encode_decode bytes : Forall is_char bytes ->
  exists s, EncodeBase64 bytes = Some s /\
    decode s = Some (map byte_of_char bytes) /\
    well_padded (List.length bytes) s.
Proof.
  induction bytes as [| a | a b | a b c l IH] using three_ind; intros F.
  - exists []. repeat split; try reflexivity. exists []. split; [constructor|reflexivity].
  - inversion F as [|? ? Ha _]; subst.
    assert (C0 : is_char 0) by (unfold is_char; lia).
    destruct (encode_spec a 0 0 Ha C0 C0) as (p & q & r & s & He & Hp & Hq & _ & _).
    exists [p; q; 61; 61]. cbn. rewrite He. cbn.
    pose proof (byte_range a Ha) as Ra.
    change (byte_of_char 0) with 0 in *.
    repeat split.
    + change (letter_value 61) with (@None Z). rewrite Hp, Hq.
      destruct (Z.eqb_spec ((byte_of_char a / 4 * 64 + (byte_of_char a mod 4 * 16 + 0 / 16)) mod 16) 0)
        as [_|N]; [|lia].
      cbn [andb Z.eqb Pos.eqb]. f_equal. f_equal. lia.
    + exists [p; q]. split; [|reflexivity].
      repeat constructor; eexists; eassumption.
  - inversion F as [|? ? Ha F']; subst. inversion F' as [|? ? Hb _]; subst.
    assert (C0 : is_char 0) by (unfold is_char; lia).
    destruct (encode_spec a b 0 Ha Hb C0) as (p & q & r & s & He & Hp & Hq & Hr & _).
    exists [p; q; r; 61]. cbn. rewrite He. cbn.
    pose proof (byte_range a Ha) as Ra. pose proof (byte_range b Hb) as Rb.
    change (byte_of_char 0) with 0 in *.
    repeat split.
    + change (letter_value 61) with (@None Z). rewrite Hp, Hq, Hr.
      set (ua := byte_of_char a) in *. set (ub := byte_of_char b) in *.
      destruct (Z.eqb_spec (((ua / 4 * 64 + (ua mod 4 * 16 + ub / 16)) * 64
                              + (ub mod 16 * 4 + 0 / 64)) mod 4) 0) as [_|N]; [|lia].
      cbn [andb Z.eqb Pos.eqb]. f_equal. f_equal; [|f_equal]; lia.
    + exists [p; q; r]. split; [|reflexivity].
      repeat constructor; eexists; eassumption.
  - inversion F as [|? ? Ha F']; subst. inversion F' as [|? ? Hb F'']; subst.
    inversion F'' as [|? ? Hc Fl]; subst.
    destruct (IH Fl) as (s & Es & Ds & Ls & letters & Hletters & Eletters).
    destruct (encode_spec a b c Ha Hb Hc) as (p & q & r & t & He & Hp & Hq & Hr & Ht).
    exists ([p; q; r; t] ++ s). split.
    { rewrite (Encode_cons3 a b c l _ He eq_refl), Es. reflexivity. }
    pose proof (byte_range a Ha) as Ra. pose proof (byte_range b Hb) as Rb.
    pose proof (byte_range c Hc) as Rc.
    split.
    { cbn [app decode]. rewrite Hp, Hq, Hr, Ht, Ds. cbn [map].
      set (ua := byte_of_char a) in *. set (ub := byte_of_char b) in *.
      set (uc := byte_of_char c) in *.
      f_equal. f_equal; [|f_equal; [|f_equal]]; lia. }
    split.
    { rewrite app_length, Ls. cbn [List.length]. lia. }
    exists ([p; q; r; t] ++ letters). split.
    { repeat constructor; try (eexists; eassumption). assumption. }
    rewrite <- app_assoc, Eletters. do 2 f_equal. cbn [List.length]. f_equal. lia.
Qed.
