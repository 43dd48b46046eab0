(** Arrays as lists: accesses that would be out of bounds are [None]. *)
From Coq Require Import List Arith Lia Permutation.
Import ListNotations.

Section Arrays.
  Context {A B : Type}.

  (** 1-based access (CGNS numbering) *)
  Definition at1 (l : list A) (i : nat) : option A :=
    match i with O => None | S k => nth_error l k end.

  (** [l[i] = x] *)
  Fixpoint upd (l : list A) (i : nat) (x : A) : list A :=
    match l, i with
    | [], _ => []
    | _ :: t, O => x :: t
    | h :: t, S k => h :: upd t k x
    end.

  (** checked [l[i] = x] *)
  Definition upd_opt (l : list A) (i : nat) (x : A) : option (list A) :=
    if i <? length l then Some (upd l i x) else None.

  (** elements [a .. a+n-1] *)
  Definition slice (l : list A) (a n : nat) : option (list A) :=
    if a + n <=? length l then Some (firstn n (skipn a l)) else None.

  (** overwrite the elements starting from position [a] *)
  Definition write_at (l : list A) (a : nat) (new : list A) : option (list A) :=
    if a + length new <=? length l
    then Some (firstn a l ++ new ++ skipn (a + length new) l) else None.

  Fixpoint mapM (f : A -> option B) (l : list A) : option (list B) :=
    match l with
    | [] => Some []
    | x :: t =>
      match f x, mapM f t with
      | Some y, Some ys => Some (y :: ys)
      | _, _ => None
      end
    end.
End Arrays.

Definition bind {A B} (o : option A) (f : A -> option B) : option B :=
  match o with Some x => f x | None => None end.
Notation "'do' x <- e ; k" := (bind e (fun x => k))
  (at level 200, x pattern, e at level 100, k at level 200).

Section Facts.
  Context {A B : Type}.
  Implicit Types (l : list A).

  Lemma upd_length l i x : length (upd l i x) = length l.
  Proof. revert i; induction l as [|h t IH]; intros [|i]; simpl; auto. Qed.

  Lemma nth_error_upd_same l i x : i < length l -> nth_error (upd l i x) i = Some x.
  Proof.
    revert i; induction l as [|h t IH]; intros [|i] H; simpl in *; try lia; auto.
    apply IH. lia.
  Qed.

  Lemma nth_error_upd_other l i j x : i <> j -> nth_error (upd l i x) j = nth_error l j.
  Proof.
    revert i j; induction l as [|h t IH]; intros [|i] [|j] H; simpl; try lia; auto.
  Qed.

  Lemma nth_error_ext l1 l2 : (forall i, nth_error l1 i = nth_error l2 i) -> l1 = l2.
  Proof.
    revert l2; induction l1 as [|a t IH]; intros [|b u] H; auto.
    - specialize (H 0); discriminate.
    - specialize (H 0); discriminate.
    - pose proof (H 0) as H0. simpl in H0. inversion H0; subst. f_equal. apply IH.
      intros i. exact (H (S i)).
  Qed.

  Lemma slice_some l a n : a + n <= length l -> slice l a n = Some (firstn n (skipn a l)).
  Proof. intros H. unfold slice. destruct (Nat.leb_spec (a + n) (length l)); [auto|lia]. Qed.

  Lemma slice_app (pre seg post : list A) :
    slice (pre ++ seg ++ post) (length pre) (length seg) = Some seg.
  Proof.
    rewrite slice_some by (rewrite !app_length; lia). f_equal.
    rewrite skipn_app, skipn_all, Nat.sub_diag. simpl.
    rewrite firstn_app, firstn_all, Nat.sub_diag. simpl. apply app_nil_r.
  Qed.

  Lemma write_at_app (pre seg post new : list A) : length new = length seg ->
    write_at (pre ++ seg ++ post) (length pre) new = Some (pre ++ new ++ post).
  Proof.
    intros H. unfold write_at. rewrite !app_length.
    destruct (Nat.leb_spec (length pre + length new)
      (length pre + (length seg + length post))); [|lia].
    f_equal. rewrite firstn_app, firstn_all, Nat.sub_diag. simpl. rewrite app_nil_r.
    f_equal. f_equal. rewrite H, app_assoc, <- (app_length pre seg).
    rewrite skipn_app, skipn_all, Nat.sub_diag. reflexivity.
  Qed.

  Lemma mapM_map (f : A -> option B) (g : A -> B) l :
    (forall x, In x l -> f x = Some (g x)) -> mapM f l = Some (map g l).
  Proof.
    induction l as [|x t IH]; intros H; simpl; auto.
    rewrite (H x) by (left; auto). rewrite IH; auto. intros; apply H; right; auto.
  Qed.

  Lemma mapM_length (f : A -> option B) l r : mapM f l = Some r -> length r = length l.
  Proof.
    revert r; induction l as [|x t IH]; simpl; intros r H.
    - inversion H; auto.
    - destruct (f x); [|discriminate]. destruct (mapM f t); [|discriminate].
      inversion H; simpl; f_equal; auto.
  Qed.

  Lemma mapM_nth (f : A -> option B) l r i x : mapM f l = Some r ->
    nth_error l i = Some x -> exists y, f x = Some y /\ nth_error r i = Some y.
  Proof.
    revert r i; induction l as [|h t IH]; simpl; intros r [|i] H Hi; try discriminate.
    - simpl in Hi. inversion Hi; subst.
      destruct (f x) as [y|]; [|discriminate]. destruct (mapM f t); [|discriminate].
      inversion H; subst. exists y; auto.
    - simpl in Hi. destruct (f h) as [y|]; [|discriminate].
      destruct (mapM f t) as [ys|]; [|discriminate].
      inversion H; subst. apply (IH ys i); auto.
  Qed.

  Lemma mapM_app (f : A -> option B) l1 l2 :
    mapM f (l1 ++ l2) =
      match mapM f l1, mapM f l2 with
      | Some a, Some b => Some (a ++ b) | _, _ => None end.
  Proof.
    induction l1 as [|x t IH]; simpl.
    - destruct (mapM f l2); auto.
    - destruct (f x); auto. rewrite IH. destruct (mapM f t); auto. destruct (mapM f l2); auto.
  Qed.

  Lemma nth_error_seq a n i : i < n -> nth_error (seq a n) i = Some (a + i).
  Proof.
    revert a i; induction n as [|n IH]; intros a i H; [lia|].
    destruct i as [|i]; simpl; [f_equal; lia|]. rewrite IH by lia. f_equal. lia.
  Qed.

  Lemma nth_error_some_lt l i x : nth_error l i = Some x -> i < length l.
  Proof. intros H. apply nth_error_Some. rewrite H. discriminate. Qed.

  Lemma nth_error_lt_some l i : i < length l -> exists x, nth_error l i = Some x.
  Proof.
    intros H. destruct (nth_error l i) as [x|] eqn:E; [eauto|].
    apply nth_error_None in E. lia.
  Qed.
End Facts.

Lemma skipn_skipn {A} (l : list A) : forall a b, skipn a (skipn b l) = skipn (a + b) l.
Proof.
  intros a b. revert l; induction b as [|b IH]; intros l.
  - rewrite Nat.add_0_r. reflexivity.
  - rewrite Nat.add_succ_r. destruct l as [|x t]; simpl; [apply skipn_nil|apply IH].
Qed.

Lemma Forall2_impl {A B} (R S : A -> B -> Prop) l l' :
  (forall a b, R a b -> S a b) -> Forall2 R l l' -> Forall2 S l l'.
Proof. intros H; induction 1; constructor; auto. Qed.

Fixpoint foldM {S X} (f : S -> X -> option S) (l : list X) (s : S) : option S :=
  match l with
  | [] => Some s
  | x :: t => do s' <- f s x; foldM f t s'
  end.

(** checked [l[i] = f(l[i])] *)
Definition modify {A} (l : list A) (i : nat) (f : A -> A) : option (list A) :=
  do x <- nth_error l i; Some (upd l i (f x)).

Lemma NoDup_app_intro {A} (l1 l2 : list A) : NoDup l1 -> NoDup l2 ->
  (forall x, In x l1 -> In x l2 -> False) -> NoDup (l1 ++ l2).
Proof.
  induction 1 as [|a t Ha Ht IH]; intros H2 Hd; simpl; auto. constructor.
  - rewrite in_app_iff. intros [H|H]; [auto|]. apply (Hd a); [left|]; auto.
  - apply IH; auto. intros x H1 H3. apply (Hd x); [right|]; auto.
Qed.
