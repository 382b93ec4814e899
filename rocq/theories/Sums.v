(** * Finite sums over a ring, list helpers *)
From Coq Require Import Arith List Lia Permutation.
From Verif Require Import Ring.
Import ListNotations.
Open Scope nat_scope.

Section Sums.
  Context {R : ring}.
  Local Open Scope ring_scope_istl.
  Implicit Types f g : nat -> R.

  (** Sum of [f 0 .. f (n-1)]. *)
  Fixpoint sum (n : nat) (f : nat -> R) : R :=
    match n with
    | O => r0
    | S k => sum k f + f k
    end.

  (** Sum of a list. *)
  Fixpoint lsum (l : list R) : R :=
    match l with
    | nil => r0
    | x :: t => x + lsum t
    end.

  Lemma radd_0_r (a : R) : a + r0 = a.
  Proof. ncring. Qed.
  Lemma rmul_0_l (a : R) : r0 * a = r0.
  Proof. ncring. Qed.
  Lemma rmul_0_r (a : R) : a * r0 = r0.
  Proof. ncring. Qed.
  Lemma rsub_diag (a : R) : a - a = r0.
  Proof. ncring. Qed.
  Lemma rsub_0_r (a : R) : a - r0 = a.
  Proof. ncring. Qed.
  Lemma radd_cancel_l (a b c : R) : a + b = a + c -> b = c.
  Proof.
    intros H. assert (H1 : (- a) + (a + b) = (- a) + (a + c)) by congruence.
    replace ((- a) + (a + b)) with b in H1 by ncring.
    replace ((- a) + (a + c)) with c in H1 by ncring. exact H1.
  Qed.
  Lemma radd_cancel_r (a b c : R) : b + a = c + a -> b = c.
  Proof.
    intros H. apply (radd_cancel_l a). rewrite (radd_comm _ a b), (radd_comm _ a c). exact H.
  Qed.
  Lemma rsub_move_l (a b c : R) : a - b = c <-> a = c + b.
  Proof. split; intros H; subst; ncring. Qed.
  Lemma rsub_eq0 (a b : R) : a - b = r0 -> a = b.
  Proof. intros H. apply rsub_move_l in H. rewrite H. ncring. Qed.
  Lemma ropp_inj (a b : R) : ropp a = ropp b -> a = b.
  Proof. intros H. replace a with (- (- a)) by ncring. rewrite H. ncring. Qed.

  Lemma sum_ext n f g : (forall i, i < n -> f i = g i) -> sum n f = sum n g.
  Proof.
    induction n; intros H; simpl; [reflexivity|].
    rewrite IHn by (intros; apply H; lia). rewrite H by lia. reflexivity.
  Qed.

  Lemma sum_0 n : sum n (fun _ => r0) = r0.
  Proof. induction n; simpl; [reflexivity|]. rewrite IHn. apply radd_0_l. Qed.

  Lemma sum_zero n f : (forall i, i < n -> f i = r0) -> sum n f = r0.
  Proof. intros H. rewrite (sum_ext n f (fun _ => r0)) by exact H. apply sum_0. Qed.

  Lemma sum_add n f g : sum n (fun i => f i + g i) = sum n f + sum n g.
  Proof. induction n; simpl; [ncring|]. rewrite IHn. ncring. Qed.

  Lemma sum_sub n f g : sum n (fun i => f i - g i) = sum n f - sum n g.
  Proof. induction n; simpl; [ncring|]. rewrite IHn. ncring. Qed.

  Lemma sum_opp n f : sum n (fun i => - f i) = - sum n f.
  Proof. induction n; simpl; [ncring|]. rewrite IHn. ncring. Qed.

  Lemma sum_mul_l n (c : R) f : sum n (fun i => c * f i) = c * sum n f.
  Proof. induction n; simpl; [ncring|]. rewrite IHn. ncring. Qed.

  Lemma sum_mul_r n (c : R) f : sum n (fun i => f i * c) = sum n f * c.
  Proof. induction n; simpl; [ncring|]. rewrite IHn. ncring. Qed.

  Lemma sum_swap n m (f : nat -> nat -> R) :
    sum n (fun i => sum m (fun j => f i j)) = sum m (fun j => sum n (fun i => f i j)).
  Proof.
    induction n; simpl.
    - symmetry. apply sum_0.
    - rewrite IHn. symmetry. apply sum_add.
  Qed.

  (** Only one index contributes. *)
  Lemma sum_single n k f :
    k < n -> (forall i, i < n -> i <> k -> f i = r0) -> sum n f = f k.
  Proof.
    induction n; intros Hk H; [lia|]. simpl.
    destruct (Nat.eq_dec k n) as [->|Hn].
    - rewrite sum_zero by (intros; apply H; lia). apply radd_0_l.
    - rewrite IHn by (try lia; intros; apply H; lia).
      rewrite (H n) by lia. apply radd_0_r.
  Qed.

  (** Split off one index. *)
  Lemma sum_remove n k f :
    k < n -> sum n f = f k + sum n (fun i => if Nat.eqb i k then r0 else f i).
  Proof.
    intros Hk.
    assert (H1 : sum n (fun i => if Nat.eqb i k then f i else r0) = f k).
    { rewrite (sum_single n k).
      - now rewrite Nat.eqb_refl.
      - exact Hk.
      - intros i _ Hi. apply Nat.eqb_neq in Hi. now rewrite Hi. }
    rewrite <- H1 at 1. rewrite <- sum_add. apply sum_ext. intros i _.
    destruct (Nat.eqb i k); ncring.
  Qed.

  Lemma sum_split n m f : sum (n + m) f = sum n f + sum m (fun i => f (n + i)%nat).
  Proof.
    induction m; simpl.
    - rewrite Nat.add_0_r. ncring.
    - rewrite Nat.add_succ_r. simpl. rewrite IHm. ncring.
  Qed.

  (** Extend the range by zero terms. *)
  Lemma sum_extend n m f : n <= m -> (forall i, n <= i < m -> f i = r0) -> sum m f = sum n f.
  Proof.
    intros Hle H. replace m with (n + (m - n))%nat by lia. rewrite sum_split.
    rewrite (sum_zero (m - n)).
    - apply radd_0_r.
    - intros i Hi. apply H. lia.
  Qed.

  (** Indicator form. *)
  Definition ind (b : bool) (x : R) : R := if b then x else r0.

  Lemma sum_ind_lt n k f : k <= n -> sum n (fun i => ind (Nat.ltb i k) (f i)) = sum k f.
  Proof.
    intros Hk. rewrite (sum_extend k n).
    - apply sum_ext. intros i Hi. unfold ind. apply Nat.ltb_lt in Hi. now rewrite Hi.
    - exact Hk.
    - intros i Hi. unfold ind. assert (Nat.ltb i k = false) as -> by (apply Nat.ltb_ge; lia). reflexivity.
  Qed.

  (** List sums. *)
  Lemma lsum_app l1 l2 : lsum (l1 ++ l2) = lsum l1 + lsum l2.
  Proof. induction l1; simpl; [ncring|]. rewrite IHl1. ncring. Qed.

  Lemma lsum_perm l1 l2 : Permutation l1 l2 -> lsum l1 = lsum l2.
  Proof.
    induction 1; simpl; try congruence. ncring.
  Qed.

  Lemma lsum_map_add {A} (f g : A -> R) l :
    lsum (map (fun a => f a + g a) l) = lsum (map f l) + lsum (map g l).
  Proof. induction l; simpl; [ncring|]. rewrite IHl. ncring. Qed.

  Lemma lsum_map_mul_l {A} (c : R) (f : A -> R) l :
    lsum (map (fun a => c * f a) l) = c * lsum (map f l).
  Proof. induction l; simpl; [ncring|]. rewrite IHl. ncring. Qed.

  Lemma lsum_map_mul_r {A} (c : R) (f : A -> R) l :
    lsum (map (fun a => f a * c) l) = lsum (map f l) * c.
  Proof. induction l; simpl; [ncring|]. rewrite IHl. ncring. Qed.

  Lemma lsum_map_zero {A} (f : A -> R) l : (forall a, In a l -> f a = r0) -> lsum (map f l) = r0.
  Proof.
    induction l; intros H; simpl; [reflexivity|].
    rewrite H by (left; reflexivity). rewrite IHl by (intros; apply H; right; assumption). ncring.
  Qed.

  Lemma lsum_seq n f : lsum (map f (seq 0 n)) = sum n f.
  Proof.
    induction n; [reflexivity|].
    rewrite seq_S, map_app, lsum_app, IHn. simpl. ncring.
  Qed.

  Lemma sum_lsum_swap {A} n (l : list A) (f : nat -> A -> R) :
    sum n (fun i => lsum (map (f i) l)) = lsum (map (fun a => sum n (fun i => f i a)) l).
  Proof.
    induction l; simpl.
    - apply sum_0.
    - rewrite sum_add, IHl. reflexivity.
  Qed.

  (** Accumulating folds. *)
  Lemma fold_left_add {A} (f : A -> R) l (a : R) :
    fold_left (fun acc x => acc + f x) l a = a + lsum (map f l).
  Proof.
    revert a. induction l; intros a0; simpl; [ncring|]. rewrite IHl. ncring.
  Qed.

  Lemma fold_left_sub {A} (f : A -> R) l (a : R) :
    fold_left (fun acc x => acc - f x) l a = a - lsum (map f l).
  Proof.
    revert a. induction l; intros a0; simpl; [ncring|]. rewrite IHl. ncring.
  Qed.

  (** An element that commutes with everything (scalars: relaxation factors, alpha). *)
  Definition central (w : R) : Prop := forall a : R, w * a = a * w.
End Sums.

(** ** Lists as arrays *)
Section Arr.
  Context {A : Type}.

  (** [upd l i x] overwrites position [i] (no effect out of range). *)
  Fixpoint upd (l : list A) (i : nat) (x : A) : list A :=
    match l, i with
    | nil, _ => nil
    | _ :: t, O => x :: t
    | y :: t, S k => y :: upd t k x
    end.

  Lemma upd_length l i x : length (upd l i x) = length l.
  Proof. revert i. induction l; intros [|i]; simpl; auto. Qed.

  Lemma nth_upd_eq l i x d : i < length l -> nth i (upd l i x) d = x.
  Proof. revert i. induction l; intros [|i] H; simpl in *; try lia; auto. apply IHl. lia. Qed.

  Lemma nth_upd_ne l i j x d : i <> j -> nth j (upd l i x) d = nth j l d.
  Proof.
    revert i j. induction l; intros [|i] [|j] H; simpl; auto; try lia.
  Qed.

  Lemma nth_upd l i j x d :
    nth j (upd l i x) d = if Nat.eqb i j then (if Nat.ltb j (length l) then x else d) else nth j l d.
  Proof.
    destruct (Nat.eqb_spec i j) as [->|H].
    - destruct (Nat.ltb_spec j (length l)).
      + now apply nth_upd_eq.
      + apply nth_overflow. rewrite upd_length. exact H.
    - now apply nth_upd_ne.
  Qed.

  Lemma nth_error_upd l i j x :
    nth_error (upd l i x) j =
    if Nat.eqb i j then (if Nat.ltb j (length l) then Some x else None) else nth_error l j.
  Proof.
    revert i j. induction l; intros [|i] [|j]; simpl; auto; try (now destruct (Nat.eqb i j)).
    rewrite IHl. destruct (Nat.eqb i j); auto.
  Qed.

  Lemma upd_nth_same l i d : upd l i (nth i l d) = l.
  Proof. revert i. induction l; intros [|i]; simpl; auto. now rewrite IHl. Qed.

  Lemma list_ext (l1 l2 : list A) d :
    length l1 = length l2 -> (forall i, i < length l1 -> nth i l1 d = nth i l2 d) -> l1 = l2.
  Proof. intros. eapply nth_ext; eauto. Qed.
End Arr.
