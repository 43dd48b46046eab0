(** The functions that write and read solutions, part.hpp:1101-1259, are a storage for the main programs. *)
From Coq Require Import Reals List Arith Bool String Lia.
From Verif Require Import Arrays Model_Restart Spec_Restart Proof_Restart Proof_RestartFile Proof_RestartMain Model_Driver Spec_Driver.
Import ListNotations.
Open Scope nat_scope.

Lemma Forall2_length {X Y} (P : X -> Y -> Prop) l l' : Forall2 P l l' -> List.length l = List.length l'.
Proof. induction 1; cbn; congruence. Qed.

Section Storage.
  Context {A : Type} (K N : nat) (keeps : bool) (zones : list (nat * nat)) (shape0 : list (Part A)).
  Hypothesis Hkeeps : keeps = true \/ Forall (fun z => snd z <= 1) zones.

  Lemma holds_same (s s' : list (Part A)) z id c : same_parts s s' -> holds s z id c -> holds s' z id c.
  Proof.
    intros E (p & m & k & x & Hp & Hm & Hx & Hid & Hc).
    apply (in_map solution) in Hp. unfold same_parts in E. rewrite E in Hp. apply in_map_iff in Hp.
    destruct Hp as (p' & Ep & Hp'). unfold solution in Ep.
    apply (f_equal (fun l => nth_error l z)) in Ep. rewrite !nth_error_map, Hm in Ep. cbn [option_map] in Ep.
    destruct (nth_error p' z) as [m'|] eqn:Em'; [|discriminate Ep]. cbn [option_map] in Ep. injection Ep as Ep.
    apply (in_map (fun x => (fst x, (head (snd x), cells (snd x))))) in Hx. rewrite <- Ep in Hx.
    apply in_map_iff in Hx. destruct Hx as ([k' x'] & Ex & Hx'). cbn [fst snd] in Ex. injection Ex as E1 E2 E3.
    exists p', m', k', x'. rewrite E2, E3. auto.
  Qed.

  Lemma parts_ok_kept ps ps' : Forall2 (kept_part (A := A) K N) ps ps' ->
    (forall z id c, holds ps' z id c -> is_coeff K N c) -> parts_ok K N zones ps -> parts_ok K N zones ps'.
  Proof.
    intros F Hc [Hne H]. split.
    - intros ->. inversion F; subst. congruence.
    - intros p' Hp'. destruct (Forall2_in' _ _ _ F p' Hp') as (p & Hp & Hk). destruct (H p Hp) as [L Hz].
      split; [rewrite <- L; symmetry; exact (Forall2_length _ _ _ Hk)|].
      intros z m' n ns Em' Ez. destruct (Forall2_nth' _ _ _ Hk z m' Em') as (m & Em & Hm).
      destruct (Hz z m n ns Em Ez) as [Keys Oks]. split.
      { rewrite <- Keys. exact (keys_rel (fun s s' => same_section s s' /\ shape (fields s') (K * N) (List.length (cells s))) _ _ Hm). }
      rewrite Forall_forall in *. intros [k x'] Hx'. destruct (Forall2_in' _ _ _ Hm (k, x') Hx') as ([k0 x] & Hx & _ & [S1 S2] & [F1 F2]).
      cbn [snd] in *. destruct (Oks (k0, x) Hx) as (_ & _ & _ & R). cbn [snd] in R.
      split; [|split; [|split]].
      + rewrite Forall_forall. intros c Ic. apply In_nth_error in Ic. destruct Ic as [j Ej].
        apply (Hc z (head x' + j) c). exists p', m', k, x'. repeat split; auto; [lia|].
        replace (head x' + j - head x') with j by lia. exact Ej.
      + exact F1.
      + rewrite <- S2. exact F2.
      + intros NE. rewrite <- S1, <- S2. apply R. intros E. apply NE. rewrite E in S2. destruct (cells x'); [reflexivity|discriminate].
  Qed.

  Lemma gathered_kept s g : Forall2 (rel_part (gathered K N)) s g -> Forall2 (kept_part (A := A) K N) s g.
  Proof.
    intros F. eapply Forall2_impl; [|exact F]. intros p p' H1. eapply Forall2_impl; [|exact H1]. intros m m' H2.
    eapply Forall2_impl; [|exact H2]. intros x x' (E & G1 & G2 & G3 & _). split; [exact E|]. split; [|exact G3].
    split; congruence.
  Qed.
  Lemma gathered_same (s g : list (Part A)) : Forall2 (rel_part (gathered K N)) s g -> same_parts g s.
  Proof.
    unfold same_parts. induction 1 as [|p p' s g H _ IH]; [reflexivity|]. cbn [map]. f_equal; [|exact IH].
    unfold solution. induction H as [|m m' p p' H _ IH2]; [reflexivity|]. cbn [map]. f_equal; [|exact IH2].
    induction H as [|x x' m m' (E & G1 & G2 & _) _ IH3]; [reflexivity|]. cbn [map]. f_equal; [|exact IH3]. congruence.
  Qed.
  Lemma same_part_trans (p p1 p2 : Part A) : same_part p p1 -> same_part p1 p2 -> same_part p p2.
  Proof.
    intros H1. revert p2. unfold same_part in *.
    induction H1 as [|m m1 p p1 H _ IH]; intros p2 H2; inversion H2 as [|? m2 ? p2' H3 H4]; subst; constructor; [|apply IH; exact H4].
    clear IH H2 H4. revert m2 H3. induction H as [|x x1 m m1 H _ IH]; intros m2 H3; inversion H3 as [|? x2 ? m2' H5 H6]; subst; constructor.
    - destruct H as [E1 [E2 E3]], H5 as [F1 [F2 F3]]. repeat split; congruence.
    - apply IH. exact H6.
  Qed.
  Lemma shape_kept s g : Forall2 same_part shape0 s -> Forall2 (kept_part (A := A) K N) s g -> Forall2 same_part shape0 g.
  Proof.
    intros H. revert g. induction H as [|p p1 l l1 H _ IH]; intros g F; inversion F as [|? p2 ? g' F1 F2]; subst; constructor.
    - eapply same_part_trans; [exact H|]. apply (kept_same K N). exact F1.
    - apply IH. exact F2.
  Qed.
  Lemma shape_join s r : Forall2 same_part shape0 s -> Forall2 same_part shape0 r -> Forall2 same_part r s.
  Proof.
    intros H1 H2. eapply Forall2_join; [exact H2|exact H1|]. intros p p1 p2. apply same_part_join.
  Qed.
  Lemma parts_coeff (s : list (Part A)) z id c : parts_ok K N zones s -> holds s z id c -> is_coeff K N c.
  Proof.
    intros Hs (p & m & k & x & Hp & Hm & Hx & Hid & Hc).
    destruct (zone_of K N zones s Hs p z m Hp Hm) as (n & ns & _ & _ & Ok).
    destruct (Ok k x Hx) as [Cs _]. rewrite Forall_forall in Cs. apply Cs. eapply nth_error_In. exact Hc.
  Qed.

  Lemma parts_storage : storage_ok (shaped_parts K N zones shape0) (valid_parts K N zones shape0) (@same_parts A)
    (write_parts K N keeps zones) (read_parts K N).
  Proof.
    split.
    - intros s. reflexivity.
    - intros s s' H. symmetry. exact H.
    - intros s1 s2 s3 H1 H2. exact (eq_trans H1 H2).
    - intros s [H _]. exact H.
    - intros s [[Ps Ss] Cs].
      destruct (gather_ok K N zones s Ps) as (g & Eg & Fg).
      destruct (write_ok K N keeps zones s Ps Cs Hkeeps g Fg) as (f & Ef & _).
      assert (Eg' := gathered_same s g Fg). assert (Kg := gathered_kept s g Fg).
      assert (Hg : forall z id c, holds g z id c -> holds s z id c) by (intros z id c; apply holds_same; exact Eg').
      exists g, f. unfold write_parts. rewrite Eg. cbn [bind]. rewrite Ef. cbn [bind]. split; [reflexivity|].
      split; [|split; [exact Eg'|]].
      + split; [split|].
        * apply (parts_ok_kept s g Kg); [|exact Ps]. intros z id c H. apply (parts_coeff s z id c Ps). apply Hg. exact H.
        * exact (shape_kept s g Ss Kg).
        * intros z id c c' H1 H2. eapply Cs; apply Hg; eassumption.
      + intros r [Pr Sr]. pose proof (shape_join s r Ss Sr) as Hrs.
        destruct (restart_kept K N keeps zones s r Ps Cs Hkeeps Pr) as (g' & f' & res & E1 & E2 & E3 & _ & Kr & Hh).
        { intros z id c' (p & m & k & x & Hp & Hm & Hin & Hid & Hc').
          destruct (Forall2_in _ _ _ Hrs p Hp) as (p' & Hp' & Hpp).
          destruct (Forall2_nth _ _ _ Hpp z m Hm) as (m' & Hm' & Hmm).
          destruct (Forall2_in _ _ _ Hmm (k, x) Hin) as ([k' x'] & Hin' & _ & H1 & H2). cbn [snd] in *.
          destruct (nth_error_lt_some (cells x') (id - head x)) as [c Ec].
          { rewrite <- H2. eapply nth_error_some_lt; eauto. }
          exists c, p', m', k', x'. rewrite <- H1. auto 10. }
        rewrite Eg in E1. injection E1 as <-. rewrite Ef in E2. injection E2 as <-.
        exists res. unfold read_parts. split; [exact E3|]. split; [split; [split|]|].
        * apply (parts_ok_kept r res Kr); [|exact Pr]. intros z id c H. apply (parts_coeff s z id c Ps). apply Hh. exact H.
        * exact (shape_kept r res Sr Kr).
        * intros z id c c' H1 H2. eapply Cs; apply Hh; eassumption.
        * unfold same_parts. apply round_trip_solution; auto.
          eapply Forall2_join; [exact Hrs| |].
          { eapply Forall2_impl; [|exact Kr]. exact (kept_same K N). }
          intros p p1 p2. apply same_part_join.
  Qed.
End Storage.
