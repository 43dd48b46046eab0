(** The exact solver of the Euler equations seen from the other side. *)
From Coq Require Import Reals List Lra Lia FunctionalExtensionality.
From Verif Require Import Arrays Model_Euler Spec_Euler Proof_Euler Proof_Rotated Model_Exact Spec_Exact Spec_Mirror Proof_Mirror.
Import ListNotations.
Open Scope R_scope.

Lemma sound_mirror gamma w : GetSpeedOfSound gamma (mirror w) = GetSpeedOfSound gamma w.
Proof. reflexivity. Qed.
Lemma change_mirror gamma w p : SpeedChange gamma (mirror w) p = SpeedChange gamma w p.
Proof. reflexivity. Qed.
Lemma prime_mirror gamma w p : SpeedChange_Prime gamma (mirror w) p = SpeedChange_Prime gamma w p.
Proof. reflexivity. Qed.

Lemma pressure_mirror gamma l r : pressure_function gamma (mirror r) (mirror l) = pressure_function gamma l r.
Proof.
  apply functional_extensionality. intros p. unfold pressure_function, bind. rewrite !change_mirror.
  destruct (SpeedChange gamma r p), (SpeedChange gamma l p); try reflexivity. cbn [mirror mX]. f_equal. ring.
Qed.
Lemma pprime_mirror gamma l r : pressure_prime gamma (mirror r) (mirror l) = pressure_prime gamma l r.
Proof.
  apply functional_extensionality. intros p. unfold pressure_prime, bind. rewrite !prime_mirror.
  destruct (SpeedChange_Prime gamma r p), (SpeedChange_Prime gamma l p); try reflexivity. f_equal. ring.
Qed.

Definition other (k : field) : field := match k with Wave1 => Wave3 | Wave3 => Wave1 end.

Lemma shock_u_mirror b a : Shock_u (mirror b) (mirror a) = - Shock_u b a.
Proof.
  unfold Shock_u. cbn [mirror mX mass energy].
  replace ((- mX a - - mX b) * mass b) with (- ((mX a - mX b) * mass b)) by ring.
  set (d := (mX a - mX b) * mass b). destruct (Req_EM_T (- d) 0), (Req_EM_T d 0); try lra.
  field. exact n0.
Qed.

Lemma shock_mirror k b a :
  PrimitiveNearShock (other k) (mirror b) (mirror a) = option_map mirror (PrimitiveNearShock k b a).
Proof.
  unfold PrimitiveNearShock. rewrite shock_u_mirror. set (u := Shock_u b a).
  assert (T : TimeAxisAfterShock (other k) (- u) = TimeAxisAfterShock k u).
  { destruct k; cbn [other TimeAxisAfterShock]; [destruct (Rgt_dec (- u) 0), (Rlt_dec u 0)|destruct (Rlt_dec (- u) 0), (Rgt_dec u 0)]; try reflexivity; lra. }
  rewrite T. destruct (TimeAxisAfterShock k u); [|reflexivity]. cbn [mirror mX mT mass energy].
  destruct (Req_EM_T (- mX a - - u) 0), (Req_EM_T (mX a - u) 0); try lra; [reflexivity|]. cbn [option_map]. f_equal.
  unfold mirror. cbn [mX mT mass energy]. f_equal. field. split; lra.
Qed.

Lemma inside_mirror gamma g1 g2 : PrimitiveInsideExpansion gamma g1 (- g2) = mirror (PrimitiveInsideExpansion gamma g1 g2).
Proof.
  unfold PrimitiveInsideExpansion, mirror. cbn [mX mT mass energy].
  replace ((gamma - 1) / (gamma + 1) * - g2 * ((gamma - 1) / (gamma + 1) * - g2))
    with ((gamma - 1) / (gamma + 1) * g2 * ((gamma - 1) / (gamma + 1) * g2)) by ring.
  f_equal. ring.
Qed.

Lemma expansion_mirror gamma k b a :
  PrimitiveNearExpansion gamma (other k) (mirror b) (mirror a) = option_map mirror (PrimitiveNearExpansion gamma k b a).
Proof.
  unfold PrimitiveNearExpansion. rewrite sound_mirror. cbn [mirror mX mT mass energy].
  set (ab := GetSpeedOfSound gamma b). set (c := 2 / (gamma - 1)). set (d := (gamma - 1) / 2).
  assert (A : AddOrMinus (other k) ab (d * (- mX b - - mX a)) = AddOrMinus k ab (d * (mX b - mX a)))
    by (destruct k; cbn [other AddOrMinus]; ring).
  assert (G : AddOrMinus (other k) (- mX b) (c * ab) = - AddOrMinus k (mX b) (c * ab))
    by (destruct k; cbn [other AddOrMinus]; ring).
  rewrite A, G, inside_mirror. clear A G. set (aa := AddOrMinus k ab (d * (mX b - mX a))).
  destruct k; cbn [other].
  - replace (if Rgt_dec (- mX a + aa) 0 then true else false) with (if Rlt_dec (mX a - aa) 0 then true else false)
      by (destruct (Rgt_dec (- mX a + aa) 0), (Rlt_dec (mX a - aa) 0); try reflexivity; lra).
    replace (if Rlt_dec (- mX b + ab) 0 then true else false) with (if Rgt_dec (mX b - ab) 0 then true else false)
      by (destruct (Rlt_dec (- mX b + ab) 0), (Rgt_dec (mX b - ab) 0); try reflexivity; lra).
    destruct (Rlt_dec (mX a - aa) 0); [destruct (Req_EM_T (aa * aa) 0); reflexivity|].
    destruct (Rgt_dec (mX b - ab) 0); reflexivity.
  - replace (if Rlt_dec (- mX a - aa) 0 then true else false) with (if Rgt_dec (mX a + aa) 0 then true else false)
      by (destruct (Rlt_dec (- mX a - aa) 0), (Rgt_dec (mX a + aa) 0); try reflexivity; lra).
    replace (if Rgt_dec (- mX b - ab) 0 then true else false) with (if Rlt_dec (mX b + ab) 0 then true else false)
      by (destruct (Rgt_dec (- mX b - ab) 0), (Rlt_dec (mX b + ab) 0); try reflexivity; lra).
    destruct (Rgt_dec (mX a + aa) 0); [destruct (Req_EM_T (aa * aa) 0); reflexivity|].
    destruct (Rlt_dec (mX b + ab) 0); reflexivity.
Qed.

(** the wave of one side *)
Definition near (gamma : R) (k : field) (w star : Tuple) : option Tuple :=
  if Rge_dec (energy star) (energy w) then PrimitiveNearShock k w star else PrimitiveNearExpansion gamma k w star.
Lemma near_mirror gamma k w star : near gamma (other k) (mirror w) (mirror star) = option_map mirror (near gamma k w star).
Proof.
  unfold near. cbn [mirror energy]. destruct (Rge_dec (energy star) (energy w)); [apply shock_mirror|apply expansion_mirror].
Qed.

(** the ordinary case, with what the iteration returns *)
Lemma private_ordinary fuel gamma s l r p f0 cl cr : physical l -> physical r ->
  pressure_function gamma l r 0 = Some f0 -> f0 < 0 ->
  FindRoot (pressure_function gamma l r) (pressure_prime gamma l r) root_eps fuel (energy l) = Some p ->
  SpeedChange gamma l p = Some cl -> SpeedChange gamma r p = Some cr ->
  let u := 1 / 2 * (mX r + cr + mX l - cl) in
  GetPrimitiveUpwind_private fuel gamma s l r
  = match (if Rlt_dec 0 u then near gamma Wave1 l (mkTuple 0 u [] p) else near gamma Wave3 r (mkTuple 0 u [] p)) with
    | Some w => Some (w, u) | None => None end.
Proof.
  intros [Ml El] [Mr Er] F0 N FR CL CR u. unfold GetPrimitiveUpwind_private.
  destruct (Rgt_dec (mass l) 0); [|lra]. destruct (Rgt_dec (mass r) 0); [|lra].
  destruct (Rlt_dec (energy l) 0); [lra|]. destruct (Rlt_dec (energy r) 0); [lra|].
  rewrite F0. unfold bind at 1. destruct (Rlt_dec f0 0); [|lra]. rewrite FR. unfold bind at 1. rewrite CR. unfold bind at 1.
  rewrite CL. unfold bind at 1. fold u. unfold near. cbn [energy]. unfold bind.
  destruct (Rlt_dec 0 u); reflexivity.
Qed.

Lemma changes gamma l r p v : pressure_function gamma l r p = Some v ->
  exists cl cr, SpeedChange gamma l p = Some cl /\ SpeedChange gamma r p = Some cr /\ v = cl + cr + (mX r - mX l).
Proof.
  unfold pressure_function, bind. destruct (SpeedChange gamma l p) as [cl|]; [|discriminate].
  destruct (SpeedChange gamma r p) as [cr|]; [|discriminate]. intros [= <-]. exists cl, cr. auto.
Qed.
Lemma found_value f f' eps fuel x p : FindRoot f f' eps fuel x = Some p -> exists v, f p = Some v.
Proof.
  unfold FindRoot, bind. destruct (FindRoot_halve f fuel x) as [y|]; [|discriminate].
  destruct (FindRoot_newton f f' eps fuel y) as [z|]; [|discriminate].
  destruct (f z) as [v|] eqn:E; [|discriminate]. destruct (Rlt_dec (Rabs v) eps); [|discriminate]. intros [= <-]. exists v. exact E.
Qed.

(** at rest: an exact root and a velocity of zero between the waves *)
Lemma at_rest gamma w p c : 1 < gamma -> physical w -> 0 < p -> SpeedChange gamma w p = Some c -> mX w = c ->
  exists w', near gamma Wave1 w (mkTuple 0 0 [] p) = Some w' /\ mX w' = 0 /\ energy w' = p.
Proof.
  intros G [M E] P C U. unfold near, SpeedChange in *. cbn [energy]. destruct (Rlt_dec p 0); [lra|].
  destruct (Rge_dec p (energy w)) as [Ge|Lt].
  - set (Q := SpeedChange_P gamma (energy w) p) in *.
    assert (HQ : 0 < Q /\ p - energy w < Q) by (unfold Q, SpeedChange_P; split; nra). destruct HQ as [HQ1 HQ2].
    assert (S0 : 0 < sqrt (mass w * Q)) by (apply sqrt_lt_R0; nra).
    assert (SS : sqrt (mass w * Q) * sqrt (mass w * Q) = mass w * Q) by (apply sqrt_sqrt; nra).
    destruct (Req_EM_T (sqrt (mass w * Q)) 0); [lra|]. injection C as C. set (S := sqrt (mass w * Q)) in *.
    unfold PrimitiveNearShock, Shock_u. cbn [mX mT mass energy].
    destruct (Req_EM_T p (energy w)) as [Eq|Ne].
    + assert (c = 0) by (rewrite <- C, Eq; unfold Rdiv; ring).
      replace (mX w) with 0 by lra. replace ((0 - 0) * mass w) with 0 by ring.
      destruct (Req_EM_T 0 0); [|lra]. unfold TimeAxisAfterShock. destruct (Rlt_dec (0 + 0) 0); [lra|].
      exists w. split; [reflexivity|]. split; lra.
    + assert (Cp : 0 < c) by (rewrite <- C; apply Rdiv_lt_0_compat; lra).
      rewrite U. destruct (Req_EM_T ((0 - c) * mass w) 0) as [Z|Z]; [nra|].
      assert (V : c + (p - energy w) / ((0 - c) * mass w) < 0).
      { apply Rmult_lt_reg_r with (c * mass w); [nra|]. rewrite Rmult_0_l.
        replace ((c + (p - energy w) / ((0 - c) * mass w)) * (c * mass w)) with (c * c * mass w - (p - energy w)) by (field; split; lra).
        assert (K : c * c * mass w = (p - energy w) * (p - energy w) / Q).
        { rewrite <- C. replace ((p - energy w) / S * ((p - energy w) / S) * mass w) with ((p - energy w) * (p - energy w) * mass w / (S * S)) by (field; lra).
          rewrite SS. field. split; lra. }
        rewrite K. apply Rmult_lt_reg_r with Q; [exact HQ1|].
        replace (((p - energy w) * (p - energy w) / Q - (p - energy w)) * Q) with ((p - energy w) * ((p - energy w) - Q)) by (field; lra). nra. }
      unfold TimeAxisAfterShock. destruct (Rlt_dec (c + (p - energy w) / ((0 - c) * mass w)) 0); [|lra].
      destruct (Req_EM_T (0 - (c + (p - energy w) / ((0 - c) * mass w))) 0); [lra|].
      eexists. split; [reflexivity|]. split; reflexivity.
  - destruct (Req_EM_T (mass w) 0); [lra|]. injection C as C. unfold PrimitiveNearExpansion, AddOrMinus. cbn [mX mT mass energy].
    set (a := GetSpeedOfSound gamma w) in *.
    assert (A0 : 0 < a).
    { unfold a, GetSpeedOfSound. destruct (Rle_dec (mass w) 0); [lra|]. destruct (Rle_dec (energy w) 0); [lra|].
      apply sqrt_lt_R0. apply Rdiv_lt_0_compat; nra. }
    set (q := powR (p / energy w) ((gamma - 1) / 2 / gamma)) in *.
    assert (Q0 : 0 < q).
    { unfold q, powR. assert (0 < p / energy w) by (apply Rdiv_lt_0_compat; lra). destruct (Req_EM_T (p / energy w) 0); [lra|].
      unfold Rpower. apply exp_pos. }
    replace (a + (gamma - 1) / 2 * (mX w - 0)) with (a * q) by (rewrite U, <- C; field; lra).
    assert (0 < a * q) by nra. destruct (Rlt_dec (0 - a * q) 0); [|lra].
    destruct (Req_EM_T (a * q * (a * q)) 0); [nra|]. eexists. split; [reflexivity|]. split; reflexivity.
Qed.

(** the flux where the gas is at rest *)
Lemma rest_flux gamma w T p : mX w = 0 -> energy w = p ->
  PrimitiveToFlux gamma (mkTuple (mass w) (mX w) T (energy w)) = mkTuple 0 p (map (fun _ => 0) T) 0.
Proof.
  intros -> ->. unfold PrimitiveToFlux, PrimitiveToConservative, VelocityToMomentum, scaleT, set_energy, set_momentum, momentum.
  cbn [mass mX mT energy map]. f_equal; try ring. rewrite map_map. apply map_ext. intros; ring.
Qed.

(** both sides find the same pressure *)
Lemma exact_mirror fuel fuel' gamma s s' l r p f0 : 1 < gamma -> physical l -> physical r -> length (mT l) = length (mT r) ->
  pressure_function gamma l r 0 = Some f0 -> f0 < 0 ->
  FindRoot (pressure_function gamma l r) (pressure_prime gamma l r) root_eps fuel (energy l) = Some p ->
  FindRoot (pressure_function gamma l r) (pressure_prime gamma l r) root_eps fuel' (energy r) = Some p ->
  (exists F u, Exact_GetFluxUpwind fuel gamma s l r = Some (F, u) /\ u <> 0) \/ (0 < p /\ pressure_function gamma l r p = Some 0) ->
  option_map fst (Exact_GetFluxUpwind fuel' gamma s' (mirror r) (mirror l))
  = option_map (fun Fu => negT (mirror (fst Fu))) (Exact_GetFluxUpwind fuel gamma s l r).
Proof.
  intros G Pl Pr Len F0 N FL FR H.
  destruct (found_value _ _ _ _ _ _ FL) as [v V]. destruct (changes _ _ _ _ _ V) as (cl & cr & CL & CR & EV).
  pose proof (private_ordinary fuel gamma s l r p f0 cl cr Pl Pr F0 N FL CL CR) as A. cbv zeta in A.
  assert (B : GetPrimitiveUpwind_private fuel' gamma s' (mirror r) (mirror l)
    = let u := - (1 / 2 * (mX r + cr + mX l - cl)) in
      match (if Rlt_dec 0 u then near gamma Wave1 (mirror r) (mkTuple 0 u [] p) else near gamma Wave3 (mirror l) (mkTuple 0 u [] p)) with
      | Some w => Some (w, u) | None => None end).
  { rewrite (private_ordinary fuel' gamma s' (mirror r) (mirror l) p f0 cr cl); try assumption.
    - cbn [mirror mX]. cbv zeta. replace (1 / 2 * (- mX l + cl + - mX r - cr)) with (- (1 / 2 * (mX r + cr + mX l - cl))) by ring. reflexivity.
    - rewrite pressure_mirror. exact F0.
    - rewrite pressure_mirror, pprime_mirror. exact FR. }
  cbv zeta in B. set (u := 1 / 2 * (mX r + cr + mX l - cl)) in *.
  assert (M : forall k w, near gamma (other k) (mirror w) (mkTuple 0 (- u) [] p) = option_map mirror (near gamma k w (mkTuple 0 u [] p)))
    by (intros k w; exact (near_mirror gamma k w (mkTuple 0 u [] p))).
  unfold Exact_GetFluxUpwind, GetPrimitiveUpwind in *. rewrite A in *. rewrite B. clear A B.
  destruct (Req_EM_T u 0) as [Z|NZ].
  - assert (R : 0 < p /\ cl + cr + (mX r - mX l) = 0).
    { destruct H as [(F & u' & E & NZ)|[P0 E]].
      - exfalso. destruct (if Rlt_dec 0 u then _ else _) as [w|]; cbn [bind] in E; [|discriminate]. injection E as _ E. lra.
      - split; [exact P0|]. rewrite E in V. injection V as V. lra. }
    destruct R as [P0 R]. clear H.
    assert (Ul : mX l = cl) by (unfold u in Z; lra). assert (Ur : - mX r = cr) by (unfold u in Z; lra).
    destruct (at_rest gamma l p cl G Pl P0 CL Ul) as (w & Ew & Xw & pw).
    destruct (at_rest gamma (mirror r) p cr G Pr P0 CR Ur) as (w' & Ew' & Xw' & pw').
    rewrite Z in *. replace (- 0) with 0 in * by ring. destruct (Rlt_dec 0 0); [lra|].
    pose proof (M Wave1 l) as Ml. pose proof (M Wave1 (mirror r)) as Mr. cbn [other] in Ml, Mr.
    rewrite Ew in Ml. rewrite Ew' in Mr. cbn [option_map] in Ml, Mr.
    replace (mirror (mirror r)) with r in Mr by (unfold mirror; destruct r; cbn; f_equal; ring).
    rewrite Ml, Mr. unfold bind, PassiveScalars_Set. cbn [option_map fst]. destruct (Rgt_dec 0 0); [lra|]. f_equal.
    rewrite (rest_flux gamma (mirror w) _ p); [|cbn; lra|exact pw].
    rewrite (rest_flux gamma (mirror w') _ p); [|cbn; lra|exact pw'].
    unfold negT, mirror. cbn [mass mX mT energy]. rewrite map_map, Ropp_0, Ropp_involutive. f_equal.
    apply map_zero_eq, Len.
  - clear H. destruct (Rlt_dec 0 u) as [P|NP].
    + destruct (Rlt_dec 0 (- u)); [lra|]. pose proof (M Wave1 l) as Mk; cbn [other] in Mk; rewrite Mk. destruct (near gamma Wave1 l (mkTuple 0 u [] p)) as [w|]; [|reflexivity].
      cbn [option_map bind fst]. f_equal. rewrite <- flux_mirror. f_equal. unfold PassiveScalars_Set, mirror. cbn [mass mX mT energy].
      destruct (Rgt_dec (- u) 0), (Rgt_dec u 0); try lra. reflexivity.
    + destruct (Rlt_dec 0 (- u)); [|lra]. pose proof (M Wave3 r) as Mk; cbn [other] in Mk; rewrite Mk. destruct (near gamma Wave3 r (mkTuple 0 u [] p)) as [w|]; [|reflexivity].
      cbn [option_map bind fst]. f_equal. rewrite <- flux_mirror. f_equal. unfold PassiveScalars_Set, mirror. cbn [mass mX mT energy].
      destruct (Rgt_dec (- u) 0), (Rgt_dec u 0); try lra. reflexivity.
Qed.
