(** C21 and C22: the limiting passes over a distributed mesh. *)
From Coq Require Import List Arith Bool Lia Permutation Reals Lra.
From Verif Require Import Model_Reconstruct Spec_Reconstruct Proof_Reconstruct.
Import ListNotations.

(** C22.  One pass limits exactly the troubled cells of the list, with the limiter evaluated on the values held
    before the pass, and changes nothing else. *)
Theorem C22_one_pass : forall (A : Type) (ins : (nat -> A) -> nat -> bool) lim cells m c,
  limited_at_once ins lim cells m c (Reconstruct_cells ins lim cells m c).
Proof. exact @pass_value. Qed.
Print Assumptions C22_one_pass.

(** C22.  The order in which the cells are visited does not matter. *)
Theorem C22_order : forall (A : Type) (ins : (nat -> A) -> nat -> bool) lim cells cells' m c,
  Permutation cells cells' ->
  Reconstruct_cells ins lim cells m c = Reconstruct_cells ins lim cells' m c.
Proof.
  intros A ins lim cells cells' m c P. apply order. intros d.
  split; apply Permutation_in; [|apply Permutation_sym]; exact P.
Qed.
Print Assumptions C22_order.

(** a pass over three cells in which the limiter reads values that the pass itself changes *)
Example C22_nonvacuous : forall l, Permutation [0; 1; 2] l ->
  let ins m c := 3 <? m c in let lim m c := m (S c) + 10 in let m c := nth c [5; 2; 7; 1] 0 in
  map (Reconstruct_cells ins lim l m) [0; 1; 2; 3] = [12; 2; 11; 1].
Proof.
  intros l P ins lim m. cbn [map]. rewrite <- !(C22_order _ ins lim _ _ m _ P). reflexivity.
Qed.

(** C21 is false: with the limiter [smooth_slopes], which preserves means and reads direct neighbours only,
    splitting a row of three cells after the second one gives other coefficients in that cell than not
    splitting it. *)
Theorem C21_partition_independence_refuted : exists (part part' : nat -> nat) (s : nat -> R * R) (stale : nat -> nat -> R * R),
  local (fun _ _ => true) (smooth_slopes row3) row3
  /\ Reconstruct (fun _ _ => true) (smooth_slopes row3) [0; 1; 2] row3 part 1 stale s 1
     <> Reconstruct (fun _ _ => true) (smooth_slopes row3) [0; 1; 2] row3 part' 1 stale s 1.
Proof.
  exists (fun _ => 0), (fun c => if c =? 2 then 1 else 0),
    (fun c => (INR c, match c with 1 => 6%R | _ => 0%R end)), (fun _ _ => (0, 0)%R).
  split; [apply smooth_slopes_local|]. cbn. intros E. apply (f_equal snd) in E. cbn in E. lra.
Qed.
Print Assumptions C21_partition_independence_refuted.

(** C21 for inner cells: those get the coefficients of one pass over the whole mesh, whatever the partition
    and whatever the ghost cells contain. *)
Theorem C21_inner_partial : forall (A : Type) (ins : (nat -> A) -> nat -> bool) lim adj cells part stale s degrees c,
  local ins lim adj -> degrees <> 0 -> inner adj part c = true ->
  Reconstruct ins lim cells adj part degrees stale s c = Reconstruct_cells ins lim cells s c.
Proof. intros. apply result_inner; assumption. Qed.
Print Assumptions C21_inner_partial.

(** C21 holds for two partitions in both of which no cell at an interface has a troubled neighbour that is not
    at an interface. *)
Theorem C21_partial : forall (A : Type) (ins : (nat -> A) -> nat -> bool) lim adj cells part part' stale stale' s degrees c,
  local ins lim adj ->
  (forall p, p = part \/ p = part' -> inner adj p c = false ->
     forall n, In n (adj c) -> p n = p c -> inner adj p n = true -> ins s n = false) ->
  Reconstruct ins lim cells adj part degrees stale s c = Reconstruct ins lim cells adj part' degrees stale' s c.
Proof.
  intros A ins lim adj cells part part' stale stale' s degrees c L H.
  destruct (Nat.eq_dec degrees 0) as [->|D].
  { unfold Reconstruct, Reconstruct_rank. cbn. rewrite !Nat.eqb_refl. reflexivity. }
  assert (X : forall p st, p = part \/ p = part' ->
    Reconstruct ins lim cells adj p degrees st s c = Reconstruct_cells ins lim cells s c).
  { intros p st E. destruct (inner adj p c) eqn:I; [apply result_inner; assumption|].
    apply result_inter; [exact D|exact L|exact I|]. exact (H p E I). }
  rewrite !X by auto. reflexivity.
Qed.
Print Assumptions C21_partial.

(** C21 holds for every partition when the limiter reads only a quantity of the neighbours that limiting
    preserves, such as the mean value. *)
Theorem C21_means_partial : forall (A B : Type) (f : A -> B) (ins : (nat -> A) -> nat -> bool) lim adj cells part part'
    stale stale' s degrees c,
  local_through ins lim f adj ->
  Reconstruct ins lim cells adj part degrees stale s c = Reconstruct ins lim cells adj part' degrees stale' s c.
Proof.
  intros A B f ins lim adj cells part part' stale stale' s degrees c L.
  destruct (Nat.eq_dec degrees 0) as [->|D].
  { unfold Reconstruct, Reconstruct_rank. cbn. rewrite !Nat.eqb_refl. reflexivity. }
  rewrite !(result_through ins lim cells adj _ _ s degrees D f L). reflexivity.
Qed.
Print Assumptions C21_means_partial.

(** a limiter of the last kind: the slope becomes the difference of the means of the first neighbour and of the cell *)
Example C21_nonvacuous :
  let lim := fun (m : nat -> nat * nat) c => (fst (m c), fst (m (hd c (row3 c))) - fst (m c)) in
  let s := fun c => (c * c + 1, 7) in
  local_through (fun _ _ => true) lim fst row3
  /\ map (Reconstruct (fun _ _ => true) lim [0; 1; 2] row3 (fun c => if c =? 2 then 1 else 0) 1 (fun _ _ => (9, 9)) s)
       [0; 1; 2] = [(1, 1); (2, 0); (5, 0)].
Proof.
  split; [|reflexivity]. split; [|reflexivity].
  intros m m' c E H. split; [reflexivity|]. rewrite E. f_equal. f_equal.
  destruct (row3 c) as [|n l] eqn:Q; cbn [hd]; [rewrite E; reflexivity|].
  apply H. left. reflexivity.
Qed.
