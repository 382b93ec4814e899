(** * Finished sparse matrices as seen by iteration, and their dense meaning

    A finished matrix is represented by what iterating over it shows: for every row the list of
    (column, value) pairs in iteration order ([view] of BcrsModel/BcrsAccess for BCRSMatrix; C01, C03, C04, C05 show
    that the columns are strictly increasing and below M()).  The numerical algorithms of dune-istl access matrices
    only through these iterators, find(), operator[] and exists(). *)
From Coq Require Import Arith List Lia Sorted Bool.
From Verif Require Import Ring Sums.
Import ListNotations.
Open Scope nat_scope.

Section Sparse.
  Context {R : ring}.
  Local Open Scope ring_scope_istl.

  Local Notation srow := (list (nat * R)).
  Local Notation smat := (list (list (nat * R))).
  Local Notation vec := (list R).

  (** ** Specification: the dense matrix / vector behind the data structure *)
  (** value at column [j] of a row, zero where nothing is stored *)
  Fixpoint denrow (row : srow) (j : nat) : R :=
    match row with
    | nil => r0
    | (k, a) :: t => if k =? j then a else denrow t j
    end.
  Definition den (A : smat) (i j : nat) : R := denrow (nth i A nil) j.
  Definition vget (x : vec) (i : nat) : R := nth i x r0.
  (** (i,j) is stored *)
  Definition instored (A : smat) (i j : nat) : Prop := In j (map fst (nth i A nil)).

  Definition row_wf (m : nat) (row : srow) : Prop :=
    StronglySorted lt (map fst row) /\ Forall (fun j => j < m) (map fst row).
  (** [A] is a finished matrix with [n] rows and [m] columns *)
  Definition mat_wf (n m : nat) (A : smat) : Prop := length A = n /\ Forall (row_wf m) A.

  (** the dense matrix-vector product, y_i = sum_j A_ij x_j *)
  Definition dense_mv (m : nat) (A : nat -> nat -> R) (x : nat -> R) (i : nat) : R :=
    sum m (fun j => A i j * x j).

  (** ** Basic facts *)
  Lemma ssorted_NoDup (l : list nat) : StronglySorted lt l -> NoDup l.
  Proof.
    induction 1 as [|a l H IH HF]; constructor; auto.
    intros HI. rewrite Forall_forall in HF. specialize (HF _ HI). lia.
  Qed.
  Lemma row_wf_NoDup m row : row_wf m row -> NoDup (map fst row).
  Proof. intros [H _]. apply ssorted_NoDup, H. Qed.
  Lemma row_wf_nil m : row_wf m nil.
  Proof. split; constructor. Qed.
  Lemma row_wf_tail m e row : row_wf m (e :: row) -> row_wf m row.
  Proof. intros [H1 H2]. simpl in *. inversion H1; inversion H2; subst. split; auto. Qed.
  Lemma mat_wf_row n m A i : mat_wf n m A -> row_wf m (nth i A nil).
  Proof.
    intros [_ H]. rewrite Forall_forall in H. destruct (Nat.lt_ge_cases i (length A)).
    - apply H, nth_In; auto.
    - rewrite nth_overflow by auto. apply row_wf_nil.
  Qed.

  Lemma denrow_notin row j : ~ In j (map fst row) -> denrow row j = r0.
  Proof.
    induction row as [|[k a] t IH]; simpl; intros H; auto.
    destruct (Nat.eqb_spec k j); [exfalso; auto|apply IH; auto].
  Qed.
  Lemma denrow_in row j a : NoDup (map fst row) -> In (j, a) row -> denrow row j = a.
  Proof.
    induction row as [|[k b] t IH]; simpl; intros HN HI; [tauto|]. inversion HN; subst.
    destruct HI as [E|HI].
    - inversion E; subst. now rewrite Nat.eqb_refl.
    - destruct (Nat.eqb_spec k j) as [->|]; auto. exfalso. apply H1. apply in_map_iff. exists (j, a). auto.
  Qed.
  Lemma denrow_big m row j : row_wf m row -> m <= j -> denrow row j = r0.
  Proof.
    intros [_ H] Hj. apply denrow_notin. intros HI. rewrite Forall_forall in H. specialize (H _ HI). lia.
  Qed.

  (** a loop over the stored entries of a row is a sum over all columns *)
  Lemma lsum_row (g : nat -> R -> R) m row : NoDup (map fst row) -> Forall (fun j => j < m) (map fst row) ->
    (forall j, g j r0 = r0) ->
    lsum (map (fun e => g (fst e) (snd e)) row) = sum m (fun j => g j (denrow row j)).
  Proof.
    intros HN HF Hg. induction row as [|[k a] t IH]; simpl.
    - symmetry. apply sum_zero. auto.
    - simpl in HN, HF. inversion HN; inversion HF; subst. rewrite IH by auto.
      rewrite (sum_remove m k (fun j => g j (if k =? j then a else denrow t j))) by auto.
      rewrite Nat.eqb_refl. f_equal. apply sum_ext. intros j Hj. rewrite (Nat.eqb_sym k j).
      destruct (Nat.eqb_spec j k) as [->|]; auto. rewrite denrow_notin; auto.
  Qed.

  Lemma vget_upd x i v j : i < length x -> vget (upd x i v) j = if j =? i then v else vget x j.
  Proof.
    intros Hi. unfold vget. rewrite nth_upd, (Nat.eqb_sym j i). destruct (Nat.eqb_spec i j) as [->|]; auto.
    apply Nat.ltb_lt in Hi. now rewrite Hi.
  Qed.

  (** ** Loops over a matrix, as the C++ code writes them:
      [for (i = begin(); i != end(); ++i) body(i.index(), *i)] *)
  Fixpoint rows_fold {S} (body : nat -> srow -> S -> S) (i : nat) (A : smat) (s : S) : S :=
    match A with
    | nil => s
    | row :: t => rows_fold body (Datatypes.S i) t (body i row s)
    end.
  (** [for (j = row.begin(); j != row.end(); ++j) body(j.index(), *j)] *)
  Definition cols_fold {S} (body : nat -> R -> S -> S) (row : srow) (s : S) : S :=
    fold_left (fun s e => body (fst e) (snd e) s) row s.

  Lemma rows_fold_app {S} (body : nat -> srow -> S -> S) A B k s :
    rows_fold body k (A ++ B) s = rows_fold body (k + length A) B (rows_fold body k A s).
  Proof.
    revert k s. induction A; intros k s; simpl; [now rewrite Nat.add_0_r|].
    rewrite IHA. f_equal. lia.
  Qed.

  (** a loop that only writes entry i in row i *)
  Lemma rows_fold_pointwise (body : nat -> srow -> vec -> vec) (g : nat -> srow -> R -> R) :
    (forall i row (y : vec), i < length y -> body i row y = upd y i (g i row (vget y i))) ->
    forall A k (y : vec), k + length A <= length y ->
      length (rows_fold body k A y) = length y /\
      forall i, vget (rows_fold body k A y) i =
        if (k <=? i) && (i <? k + length A) then g i (nth (i - k) A nil) (vget y i) else vget y i.
  Proof.
    intros Hb A. induction A as [|row A IH]; intros k y Hl; cbn [rows_fold length] in *.
    - split; auto. intros i. replace (i <? k + 0) with (i <? k) by (f_equal; lia).
      destruct (Nat.leb_spec k i), (Nat.ltb_spec i k); auto; lia.
    - rewrite Hb by lia. destruct (IH (S k) (upd y k (g k row (vget y k)))) as [H1 H2]; [rewrite upd_length; lia|].
      rewrite upd_length in H1. split; auto. intros i. rewrite H2, vget_upd by lia.
      replace (S k + length A)%nat with (k + S (length A))%nat by lia.
      destruct (Nat.eqb_spec i k) as [->|Hik].
      + destruct (Nat.leb_spec (S k) k); [lia|]. destruct (Nat.leb_spec k k); [|lia].
        destruct (Nat.ltb_spec k (k + S (length A))); [|lia]. cbn [andb]. rewrite Nat.sub_diag. reflexivity.
      + destruct (Nat.leb_spec (S k) i), (Nat.leb_spec k i); try lia; cbn [andb]; auto.
        destruct (Nat.ltb_spec i (k + S (length A))); auto.
        replace (i - k)%nat with (S (i - S k))%nat by lia. reflexivity.
  Qed.

  (** the same for the full loop from row 0 *)
  Lemma rows_fold_pointwise0 (body : nat -> srow -> vec -> vec) (g : nat -> srow -> R -> R) A (y : vec) :
    (forall i row (y : vec), i < length y -> body i row y = upd y i (g i row (vget y i))) ->
    length y = length A ->
    length (rows_fold body 0 A y) = length A /\
    forall i, i < length A -> vget (rows_fold body 0 A y) i = g i (nth i A nil) (vget y i).
  Proof.
    intros Hb Hl. destruct (rows_fold_pointwise body g Hb A 0 y ltac:(lia)) as [H1 H2]. split; [lia|].
    intros i Hi. rewrite H2. cbn [Nat.leb andb]. destruct (Nat.ltb_spec i (0 + length A)); [|lia].
    now rewrite Nat.sub_0_r.
  Qed.

  Lemma vec_ext (x y : vec) : length x = length y -> (forall i, i < length x -> vget x i = vget y i) -> x = y.
  Proof. intros. eapply (list_ext x y r0); auto. Qed.
End Sparse.
Notation srow R := (list (nat * car R)).         (* a row as row iteration shows it: (column, block) *)
Notation smat R := (list (list (nat * car R))).
Notation vec R := (list (car R)).
