(** A small two-zone mesh used by the non-vacuity examples: 2D zones with a
    TRI_3 section, a QUAD_4 section and a BAR_2 boundary section. *)
From Coq Require Import String List Arith ZArith Lia.
From Verif Require Import Arrays Model_Cgns Model_Mapper Spec_Mesh.
Import ListNotations.
Open Scope string_scope.

Definition zone_a : Zone nat :=
  mkZone [10;11;12;13;14;15] [20;21;22;23;24;25] [30;31;32;33;34;35]
    [ mkSection 1 "tri" 1 2 2%Z TRI_3 [1;2;3; 2;4;3] [];
      mkSection 2 "quad" 3 1 2%Z QUAD_4 [3;4;6;5] [];
      mkSection 3 "wall" 4 2 1%Z BAR_2 [1;2; 2;4] [] ]
    [[40;41;42;43;44;45]] [[50;51;52]; [60;61;62]].

Definition zone_b : Zone nat :=
  mkZone [110;111;112] [120;121;122] [130;131;132]
    [ mkSection 1 "tri" 1 1 2%Z TRI_3 [3;1;2] [] ]
    [] [[150]].

Ltac solve_sec :=
  constructor; [discriminate | reflexivity | reflexivity
    | repeat (apply Forall_cons; [cbv; lia|]); apply Forall_nil | simpl; lia].
Ltac solve_zone :=
  constructor;
  [ cbv; lia | reflexivity | reflexivity
  | repeat (apply Forall_cons; [reflexivity|]); apply Forall_nil
  | repeat (apply Forall_cons; [solve_sec|]); apply Forall_nil
  | repeat constructor
  | repeat (apply Forall_cons; [intros s H D; repeat destruct H as [<-|H]; try contradiction;
        simpl in *; lia|]); apply Forall_nil ].

Lemma zone_a_wf : wf_zone 2 zone_a.
Proof. solve_zone. Qed.

Lemma zone_b_wf : wf_zone 2 zone_b.
Proof. solve_zone. Qed.

Lemma sample_wf : Forall (wf_zone 2) [zone_a; zone_b].
Proof. repeat apply Forall_cons; try apply zone_a_wf; try apply zone_b_wf; apply Forall_nil. Qed.
