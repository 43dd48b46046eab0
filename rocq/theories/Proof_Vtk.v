(** The files written by the VTK writer are read back as the grid of the cells. *)
From Coq Require Import ZArith QArith List Arith Lia String Bool DecimalString DecimalNat.
From Verif Require Import Arrays Model_Base64 Spec_Base64 Proof_Base64 Model_Vtk Spec_Vtk.
Import ListNotations.
Open Scope nat_scope.

Lemma locals_ok n t : GetCellType n = Some t ->
  fst (locals t) = vtk_locals n /\ snd (locals t) = List.length (vtk_locals n) /\ CountNodes t = List.length (vtk_locals n) /\
  0 < CountNodes t /\ code t = vtk_code n.
Proof.
  intros H. do 9 (try destruct n as [|n]); try discriminate H; cbn [GetCellType] in H; injection H as <-;
    (split; [vm_compute; reflexivity|]); (split; [vm_compute; reflexivity|]); (split; [vm_compute; reflexivity|]); (split; [cbn; lia|reflexivity]).
Qed.

Section Written.
  Context {Coord Scalar : Type}.
  Notation Cell := (Cell Coord Scalar).

  (** the points of a cell, with their values *)
  Definition points_of (c : Cell) : list (Coord * (nat -> Scalar)) :=
    map (fun l => (c_global c l, c_value c l)) (vtk_locals (c_corners c)).

  Lemma vtk_Prepare_ok (c : Cell) ls : forall coords values,
    vtk_Prepare ls (List.length ls) c coords values = Some (coords ++ map (c_global c) ls, values ++ map (c_value c) ls).
  Proof.
    unfold vtk_Prepare. intros coords values.
    enough (forall post pre coords values, ls = pre ++ post ->
      foldM (fun cv i => do l <- nth_error ls i; Some (fst cv ++ [c_global c l], snd cv ++ [c_value c l])) (seq (List.length pre) (List.length post)) (coords, values)
      = Some (coords ++ map (c_global c) post, values ++ map (c_value c) post)) as H by exact (H ls [] coords values eq_refl).
    clear coords values. induction post as [|l post IH]; intros pre coords values E; cbn [List.length seq foldM].
    - cbn [map]. rewrite !app_nil_r. reflexivity.
    - assert (nth_error ls (List.length pre) = Some l) as N by (rewrite E, nth_error_app2, Nat.sub_diag by lia; reflexivity).
      rewrite N. cbn [bind fst snd]. specialize (IH (pre ++ [l]) (coords ++ [c_global c l]) (values ++ [c_value c l])).
      rewrite app_length in IH. cbn [List.length] in IH. rewrite Nat.add_1_r in IH. rewrite IH by (rewrite <- app_assoc; exact E).
      cbn [map]. rewrite <- !app_assoc. reflexivity.
  Qed.

  Definition knowable (c : Cell) : Prop := c_corners c = 4 \/ c_corners c = 6 \/ c_corners c = 8.
  Lemma knowable_type c : knowable c -> exists t, GetCellType (c_corners c) = Some t.
  Proof. intros [->|[->| ->]]; eexists; reflexivity. Qed.

  Lemma Prepare_all cells : (forall c, In c cells -> knowable c) -> forall types coords values,
    exists ts, mapM (fun c => GetCellType (c_corners c)) cells = Some ts /\
    foldM Prepare cells (types, (coords, values)) = Some (types ++ ts,
      (coords ++ map fst (flat_map points_of cells), values ++ map snd (flat_map points_of cells))).
  Proof.
    induction cells as [|c cells IH]; intros K types coords values; cbn [foldM mapM flat_map map].
    - exists []. rewrite !app_nil_r. split; reflexivity.
    - destruct (knowable_type c (K c (or_introl eq_refl))) as (t & T). destruct (locals_ok _ _ T) as (L1 & L2 & _).
      assert (Prepare (types, (coords, values)) c = Some (types ++ [t], (coords ++ map (c_global c) (vtk_locals (c_corners c)),
        values ++ map (c_value c) (vtk_locals (c_corners c))))) as ->.
      { unfold Prepare. rewrite T. cbn [bind fst snd]. rewrite L1, L2, vtk_Prepare_ok. reflexivity. }
      rewrite T. cbn [bind].
      destruct (IH (fun x X => K x (or_intror X)) (types ++ [t]) (coords ++ map (c_global c) (vtk_locals (c_corners c)))
        (values ++ map (c_value c) (vtk_locals (c_corners c)))) as (ts & M & F).
      rewrite M. exists (t :: ts). split; [reflexivity|]. rewrite F. rewrite !map_app, <- !app_assoc.
      assert (map fst (points_of c) = map (c_global c) (vtk_locals (c_corners c))) as -> by (unfold points_of; rewrite map_map; reflexivity).
      assert (map snd (points_of c) = map (c_value c) (vtk_locals (c_corners c))) as -> by (unfold points_of; rewrite map_map; reflexivity).
      reflexivity.
  Qed.

  (** ** Reading cells *)
  Lemma read_cells_ok : forall cells ts start,
    mapM (fun c : Cell => GetCellType (c_corners c)) cells = Some ts ->
    exists rs, read_cells start (seq start (List.length (flat_map points_of cells))) (offsets start ts) (map code ts) = Some rs /\
      List.length rs = List.length cells /\
      forall B (f : nat -> option B) (g : Coord * (nat -> Scalar) -> B),
        (forall i, f (start + i) = option_map g (nth_error (flat_map points_of cells) i)) ->
        read_all (fun c => match read_all f (snd c) with Some ps => Some (fst c, ps) | None => None end) rs =
        Some (map (fun c => (vtk_code (c_corners c), map g (points_of c))) cells).
  Proof.
    induction cells as [|c cells IH]; intros ts start M; cbn [mapM] in M.
    - injection M as <-. exists []. split; [reflexivity|]. split; [reflexivity|]. intros. reflexivity.
    - destruct (GetCellType (c_corners c)) as [t|] eqn:T; [|discriminate M]. cbn [bind] in M.
      destruct (mapM _ cells) as [ts'|] eqn:M'; [|discriminate M]. cbn [bind] in M. injection M as <-.
      destruct (locals_ok _ _ T) as (_ & _ & N & P & C).
      assert (List.length (points_of c) = CountNodes t) as LP by (unfold points_of; rewrite map_length; symmetry; exact N).
      destruct (IH ts' (start + CountNodes t) eq_refl) as (rs & R & LR & U).
      exists ((code t, seq start (CountNodes t)) :: rs). split; [|split].
      + cbn [offsets map read_cells flat_map]. rewrite app_length, LP, seq_length, seq_app.
        replace (start + CountNodes t - start) with (CountNodes t) by lia.
        destruct (Nat.ltb_spec start (start + CountNodes t)); [|lia]. destruct (Nat.leb_spec (CountNodes t) (CountNodes t + List.length (flat_map points_of cells))); [|lia].
        cbn [andb]. rewrite skipn_app, firstn_app, seq_length, Nat.sub_diag. cbn [firstn skipn].
        rewrite firstn_all2, skipn_all2 by (rewrite seq_length; lia). cbn [app]. rewrite R, app_nil_r. reflexivity.
      + cbn [List.length]. lia.
      + intros B f g F. cbn [read_all snd fst map flat_map] in *.
        assert (read_all f (seq start (CountNodes t)) = Some (map g (points_of c))) as RA.
        { enough (forall mid pre, points_of c = pre ++ mid -> read_all f (seq (start + List.length pre) (List.length mid)) = Some (map g mid)) as G.
          { specialize (G (points_of c) [] eq_refl). cbn [List.length] in G. rewrite Nat.add_0_r, LP in G. exact G. }
          induction mid as [|p mid IHm]; intros pre E; cbn [List.length seq read_all map]; [reflexivity|].
          rewrite F, E, <- app_assoc. cbn [app]. rewrite nth_error_app2, Nat.sub_diag by lia. cbn [nth_error option_map].
          specialize (IHm (pre ++ [p])). rewrite app_length in IHm. cbn [List.length] in IHm.
          replace (start + (List.length pre + 1)) with (S (start + List.length pre)) in IHm by lia.
          rewrite IHm by (rewrite <- app_assoc; exact E). reflexivity. }
        rewrite RA, C. rewrite (U B f g); [reflexivity|].
        intros i. rewrite <- Nat.add_assoc, F, nth_error_app2 by lia. f_equal. f_equal. lia.
  Qed.

  (** ** Reading points *)
  Lemma read_point_ok (P : list (Coord * (nat -> Scalar))) (name : nat -> string) ks i :
    read_point (map fst P) (map (fun k => (name k, map (fun f => f k) (map snd P))) ks) i =
    option_map (fun p => (fst p, map (fun k => (name k, snd p k)) ks)) (nth_error P i).
  Proof.
    unfold read_point. rewrite nth_error_map. destruct (nth_error P i) as [p|] eqn:N; cbn [option_map]; [|reflexivity].
    enough (forall vs, (fix go fs vs := match fs with
       | [] => Some (fst p, rev vs)
       | f :: fs => match nth_error (snd f) i with Some v => go fs ((fst f, v) :: vs) | None => None end
       end) (map (fun k => (name k, map (fun f => f k) (map snd P))) ks) vs = Some (fst p, rev vs ++ map (fun k => (name k, snd p k)) ks)) as H.
    { exact (H []). }
    induction ks as [|k ks IH]; intros vs; cbn [map].
    - rewrite app_nil_r. reflexivity.
    - cbn [snd fst]. rewrite map_map, nth_error_map, N. cbn [option_map]. rewrite IH. cbn [rev]. rewrite <- app_assoc. reflexivity.
  Qed.

  (** ** The text of the points *)
  Lemma number_ok n : forall x, (0 <= x < 256 ^ Z.of_nat n)%Z -> number (map byte_of_char (bytes_of_number n x)) = x.
  Proof.
    induction n as [|n IH]; intros x H; cbn [bytes_of_number map number fold_right].
    - change (256 ^ Z.of_nat 0)%Z with 1%Z in H. lia.
    - rewrite Nat2Z.inj_succ, Z.pow_succ_r in H by lia. unfold number in IH. rewrite IH.
      + unfold byte_of_char. rewrite Z.mod_mod by lia. pose proof (Z.div_mod x 256). lia.
      + split; [apply Z.div_pos; lia|apply Z.div_lt_upper_bound; lia].
  Qed.
  Lemma bytes_of_number_chars n : forall x, Forall is_char (bytes_of_number n x) /\ List.length (bytes_of_number n x) = n.
  Proof.
    induction n as [|n IH]; intros x; cbn [bytes_of_number List.length]; [split; [constructor|reflexivity]|].
    destruct (IH (x / 256)%Z) as (F & L). split; [|lia]. constructor; [|exact F]. unfold is_char. pose proof (Z.mod_pos_bound x 256). lia.
  Qed.

  Variable bytes_of : Coord -> list Z.
  Lemma flat_length n (coords : list Coord) : (forall c, List.length (bytes_of c) = n) ->
    List.length (flat_map bytes_of coords) = n * List.length coords.
  Proof.
    intros L. induction coords as [|c coords IH]; cbn [flat_map List.length]; [lia|]. rewrite app_length, L, IH. lia.
  Qed.
  Lemma encode_points_ok (coords : list Coord) : (forall c, Forall is_char (bytes_of c)) ->
    exists header body, encode_points bytes_of coords = Some (header ++ body) /\ List.length header = 12 /\
      decode header = Some (map byte_of_char (bytes_of_number 8 (Z.of_nat (List.length (flat_map bytes_of coords))))) /\
      decode body = Some (map byte_of_char (flat_map bytes_of coords)).
  Proof.
    intros F. assert (Forall is_char (flat_map bytes_of coords)) as FF.
    { apply Forall_forall. intros x X. apply in_flat_map in X. destruct X as (c & _ & X). exact (proj1 (Forall_forall _ _) (F c) x X). }
    destruct (encode_decode _ FF) as (body & E1 & D1 & _).
    destruct (bytes_of_number_chars 8 (Z.of_nat (List.length (flat_map bytes_of coords)))) as (FN & LN).
    destruct (encode_decode _ FN) as (header & E2 & D2 & (W & _)). rewrite LN in W. change (4 * ((8 + 2) / 3)) with 12 in W.
    exists header, body. split; [|split; [exact W|split; [exact D2|exact D1]]].
    unfold encode_points. cbv zeta. rewrite E1. cbn [bind]. rewrite E2. cbn [bind]. rewrite W. cbn [Nat.sub repeat]. rewrite app_nil_r. reflexivity.
  Qed.
  Lemma groups_ok n (P : 0 < n) (coords : list Coord) : (forall c, List.length (bytes_of c) = n) -> forall fuel, n * List.length coords <= fuel ->
    groups n fuel (map byte_of_char (flat_map bytes_of coords)) = Some (map (fun c => map byte_of_char (bytes_of c)) coords).
  Proof.
    intros L. induction coords as [|c coords IH]; intros fuel Lf; cbn [flat_map map List.length] in *; [destruct fuel; reflexivity|].
    destruct fuel as [|fuel]; [lia|]. rewrite map_app.
    destruct (map byte_of_char (bytes_of c)) as [|b bs] eqn:E.
    { apply (f_equal (@List.length Z)) in E. rewrite map_length, L in E. cbn in E. lia. }
    cbn [app groups]. rewrite app_comm_cons, <- E. assert (List.length (map byte_of_char (bytes_of c)) = n) as LE by (rewrite map_length; apply L).
    rewrite app_length, LE. destruct (Nat.ltb_spec (n + List.length (map byte_of_char (flat_map bytes_of coords))) n); [lia|].
    rewrite skipn_app, firstn_app, LE, Nat.sub_diag. rewrite skipn_all2, firstn_all2 by lia. cbn [skipn firstn app]. rewrite IH by lia.
    rewrite app_nil_r. reflexivity.
  Qed.

  Lemma read_points_ok coords : (forall c, Forall is_char (bytes_of c)) -> (forall c, List.length (bytes_of c) = 24) ->
    (Z.of_nat (24 * List.length coords) < 2 ^ 64)%Z ->
    exists text, encode_points bytes_of coords = Some text /\ read_points text = Some (map (fun c => map byte_of_char (bytes_of c)) coords).
  Proof.
    intros F L B. destruct (encode_points_ok coords F) as (header & body & E & LH & D1 & D2). exists (header ++ body). split; [exact E|].
    assert (firstn 12 (header ++ body) = header) as H1 by (rewrite <- LH, firstn_app, Nat.sub_diag, firstn_all; apply app_nil_r).
    assert (skipn 12 (header ++ body) = body) as H2 by (rewrite <- LH, skipn_app, Nat.sub_diag, skipn_all; reflexivity).
    unfold read_points. rewrite H1, H2, D1, D2.
    rewrite map_length, number_ok by (rewrite (flat_length 24 _ L); change (256 ^ Z.of_nat 8)%Z with (2 ^ 64)%Z; lia).
    rewrite Z.eqb_refl. apply groups_ok; [lia|exact L|]. rewrite (flat_length 24 _ L). lia.
  Qed.

  Variables (of_bytes : list Z -> Coord) (directory soln_name : string) (K : nat) (field_name : nat -> string).
  Lemma written rank size (cells : list Cell) : cells <> [] -> (forall c, In c cells -> knowable c) ->
    (forall c, Forall is_char (bytes_of c)) -> (forall c, List.length (bytes_of c) = 24) ->
    (forall c, of_bytes (map byte_of_char (bytes_of c)) = c) ->
    (Z.of_nat (24 * List.length (flat_map points_of cells)) < 2 ^ 64)%Z ->
    exists index file, WriteSolutions bytes_of directory soln_name K field_name rank size cells = Some (index, file) /\
      v_path file = stream_path directory soln_name rank /\
      index = (if rank =? 0 then Some (index_file directory soln_name K field_name size) else None) /\
      read_grid of_bytes file = Some (map (fun c => (vtk_code (c_corners c),
        map (fun l => (c_global c l, map (fun k => (field_name k, c_value c l k)) (seq 0 K))) (vtk_locals (c_corners c)))) cells).
  Proof.
    intros NE KN F L OB B. destruct (Prepare_all cells KN [] [] []) as (ts & M & PA). cbn [app] in PA.
    set (P := flat_map points_of cells) in *.
    destruct (read_points_ok (map fst P) F L) as (text & E & RP); [rewrite map_length; exact B|].
    assert (exists v, nth_error (map snd P) 0 = Some v) as (v & NV).
    { unfold P. destruct cells as [|c cells]; [congruence|]. cbn [flat_map]. unfold points_of at 1.
      destruct (KN c (or_introl eq_refl)) as [->|[->| ->]]; eexists; reflexivity. }
    unfold WriteSolutions. rewrite PA. cbn [bind fst snd]. rewrite NV. cbn [bind]. rewrite E. cbn [bind].
    eexists. eexists. split; [reflexivity|]. split; [reflexivity|]. split; [reflexivity|].
    unfold read_grid. cbn [v_coords v_points v_fields v_connectivity v_offsets v_types v_cells]. rewrite RP.
    rewrite !map_length. rewrite Nat.eqb_refl. cbn [andb].
    assert (forallb (fun x => List.length (snd x) =? List.length P) (map (fun k => (field_name k, map (fun f => f k) (map snd P))) (seq 0 K)) = true) as ->.
    { apply forallb_forall. intros x X. apply in_map_iff in X. destruct X as (k & <- & _). cbn [snd]. rewrite !map_length. apply Nat.eqb_refl. }
    destruct (read_cells_ok cells ts 0 M) as (rs & RC & LR & U). fold P in RC, U. rewrite RC, LR.
    assert (List.length cells = List.length ts) as LT by (symmetry; eapply mapM_length; exact M).
    rewrite <- LT, Nat.eqb_refl.
    rewrite (U _ _ (fun p => (fst p, map (fun k => (field_name k, snd p k)) (seq 0 K)))).
    - f_equal. apply map_ext. intros c. unfold points_of. rewrite map_map. reflexivity.
    - intros i. cbn [Nat.add].
      assert (forall l, map of_bytes (map (fun c => map byte_of_char (bytes_of c)) l) = l) as ->
        by (intros l; rewrite map_map; erewrite map_ext by apply OB; apply map_id).
      apply read_point_ok.
  Qed.
End Written.
