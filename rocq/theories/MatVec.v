(** * Matrix-vector products and matrix arithmetic of BCRSMatrix (C09, C10) *)
From Coq Require Import Arith List Lia Sorted Bool ZArith.
From Verif Require Import Ring Sums RingInst Outcome Sparse.
Import ListNotations.
Open Scope nat_scope.

Section MatVec.
  Context {R : ring}.
  Local Open Scope ring_scope_istl.
  (** block transposition and conjugate transposition (FieldMatrix::umtv / umhv use A^T resp. A^H of the block) *)
  Variables (tr hj : R -> R).

  (** ** Model.  Blocks and block vectors are embedded in one ring (rectangular ones padded with zeros);
      [Impl::asMatrix( *j).umv(xj,yi)] is [yi += ( *j) xj]. *)

  (** bcrsmatrix.hh:1641-1664 *)
  Definition bcrs_mv (A : smat R) (x y : vec R) : vec R :=
    rows_fold (fun i row y => cols_fold (fun j a y => upd y i (vget y i + a * vget x j)) row (upd y i r0)) 0 A y.
  (** bcrsmatrix.hh:1667-1687 *)
  Definition bcrs_umv (A : smat R) (x y : vec R) : vec R :=
    rows_fold (fun i row y => cols_fold (fun j a y => upd y i (vget y i + a * vget x j)) row y) 0 A y.
  (** bcrsmatrix.hh:1690-1710 *)
  Definition bcrs_mmv (A : smat R) (x y : vec R) : vec R :=
    rows_fold (fun i row y => cols_fold (fun j a y => upd y i (vget y i - a * vget x j)) row y) 0 A y.
  (** bcrsmatrix.hh:1713-1733 *)
  Definition bcrs_usmv (alpha : R) (A : smat R) (x y : vec R) : vec R :=
    rows_fold (fun i row y => cols_fold (fun j a y => upd y i (vget y i + alpha * (a * vget x j))) row y) 0 A y.
  (** bcrsmatrix.hh:1751-1771 *)
  Definition bcrs_umtv (A : smat R) (x y : vec R) : vec R :=
    rows_fold (fun i row y => cols_fold (fun j a y => upd y j (vget y j + tr a * vget x i)) row y) 0 A y.
  (** bcrsmatrix.hh:1736-1748: [for i < y.N(): y[i] = 0; umtv(x,y)] *)
  Definition bcrs_mtv (A : smat R) (x y : vec R) : vec R := bcrs_umtv A x (map (fun _ => r0) y).
  (** bcrsmatrix.hh:1774-1792 *)
  Definition bcrs_mmtv (A : smat R) (x y : vec R) : vec R :=
    rows_fold (fun i row y => cols_fold (fun j a y => upd y j (vget y j - tr a * vget x i)) row y) 0 A y.
  (** bcrsmatrix.hh:1795-1815 *)
  Definition bcrs_usmtv (alpha : R) (A : smat R) (x y : vec R) : vec R :=
    rows_fold (fun i row y => cols_fold (fun j a y => upd y j (vget y j + alpha * (tr a * vget x i))) row y) 0 A y.
  (** bcrsmatrix.hh:1818-1838 *)
  Definition bcrs_umhv (A : smat R) (x y : vec R) : vec R :=
    rows_fold (fun i row y => cols_fold (fun j a y => upd y j (vget y j + hj a * vget x i)) row y) 0 A y.
  (** bcrsmatrix.hh:1841-1861 *)
  Definition bcrs_mmhv (A : smat R) (x y : vec R) : vec R :=
    rows_fold (fun i row y => cols_fold (fun j a y => upd y j (vget y j - hj a * vget x i)) row y) 0 A y.
  (** bcrsmatrix.hh:1864-1884 *)
  Definition bcrs_usmhv (alpha : R) (A : smat R) (x y : vec R) : vec R :=
    rows_fold (fun i row y => cols_fold (fun j a y => upd y j (vget y j + alpha * (hj a * vget x i))) row y) 0 A y.

  (** ** Gathering loops *)
  Lemma cols_gather (g : nat -> R -> R) i (row : srow R) (y : vec R) : i < length y ->
    cols_fold (fun j a y => upd y i (vget y i + g j a)) row y =
    upd y i (vget y i + lsum (map (fun e => g (fst e) (snd e)) row)).
  Proof.
    revert y. induction row as [|[j a] t IH]; intros y Hi; simpl.
    - rewrite radd_0_r. unfold vget. symmetry. apply upd_nth_same.
    - unfold cols_fold in *. simpl. rewrite IH by (rewrite upd_length; auto).
      rewrite vget_upd, Nat.eqb_refl by auto.
      apply vec_ext; [now rewrite !upd_length|]. intros k _. rewrite !vget_upd by (rewrite ?upd_length; auto).
      destruct (Nat.eqb_spec k i); auto. ncring.
  Qed.

  Lemma gather_ok (g : nat -> R -> R) n m (A : smat R) (y : vec R) : mat_wf n m A -> length y = n -> (forall j, g j r0 = r0) ->
    let r := rows_fold (fun i row y => cols_fold (fun j a y => upd y i (vget y i + g j a)) row y) 0 A y in
    length r = n /\ forall i, i < n -> vget r i = vget y i + sum m (fun j => g j (den A i j)).
  Proof.
    intros HW Hl Hg r. pose proof (proj1 HW) as HL.
    destruct (rows_fold_pointwise0 (fun i row y => cols_fold (fun j a y => upd y i (vget y i + g j a)) row y)
      (fun i row v => v + lsum (map (fun e => g (fst e) (snd e)) row)) A y) as [H1 H2]; [|lia|].
    - intros i row y0 Hi. now apply cols_gather.
    - split; [exact (eq_trans H1 HL)|]. intros i Hi. unfold r. rewrite H2 by lia. f_equal.
      destruct (mat_wf_row n m A i HW) as [W1 W2]. apply lsum_row; auto. now apply ssorted_NoDup.
  Qed.

  (** ** Scattering loops *)
  Lemma cols_scatter (g : R -> R) (row : srow R) (y : vec R) : NoDup (map fst row) -> Forall (fun j => j < length y) (map fst row) ->
    g r0 = r0 ->
    length (cols_fold (fun j a y => upd y j (vget y j + g a)) row y) = length y /\
    forall j, vget (cols_fold (fun j a y => upd y j (vget y j + g a)) row y) j = vget y j + g (denrow row j).
  Proof.
    intros HN HF Hg. revert y HF. induction row as [|[k a] t IH]; intros y HF; unfold cols_fold in *; simpl.
    - split; auto. intros j. rewrite Hg. ncring.
    - simpl in HN, HF. inversion HN; inversion HF; subst.
      destruct (IH H2 (upd y k (vget y k + g a))) as [L1 L2]; [now rewrite upd_length|].
      rewrite upd_length in L1. split; auto. intros j. rewrite L2, vget_upd by auto.
      rewrite (Nat.eqb_sym k j). destruct (Nat.eqb_spec j k) as [->|]; auto.
      rewrite (denrow_notin t k), Hg by auto. ncring.
  Qed.

  Lemma sum_S_l n (f : nat -> R) : sum (S n) f = f 0 + sum n (fun i => f (S i)).
  Proof. change (S n) with (1 + n)%nat. rewrite sum_split. simpl. rewrite radd_0_l. reflexivity. Qed.

  Lemma scatter_gen (g : nat -> R -> R) m (A : smat R) : Forall (row_wf m) A -> (forall i, g i r0 = r0) ->
    forall k (y : vec R), length y = m ->
    let r := rows_fold (fun i row y => cols_fold (fun j a y => upd y j (vget y j + g i a)) row y) k A y in
    length r = m /\ forall j, vget r j = vget y j + sum (length A) (fun i => g (k + i)%nat (den A i j)).
  Proof.
    intros HW Hg. induction A as [|row A IH]; intros k y Hl; cbn [rows_fold].
    - split; auto. intros j. simpl. ncring.
    - inversion HW as [|? ? [W1 W2] W3]; subst.
      destruct (cols_scatter (g k) row y) as [L1 L2]; auto using ssorted_NoDup.
      destruct (IH W3 (S k) (cols_fold (fun j a y => upd y j (vget y j + g k a)) row y)) as [M1 M2]; [lia|].
      split; auto. intros j. rewrite M2, L2. cbn [length]. rewrite sum_S_l, Nat.add_0_r.
      unfold den at 2. simpl nth.
      replace (sum (length A) (fun i => g (S k + i)%nat (den A i j))) with (sum (length A) (fun i => g (k + S i)%nat (den (row :: A) (S i) j))).
      + ncring.
      + apply sum_ext. intros i _. rewrite Nat.add_succ_r. reflexivity.
  Qed.

  Lemma scatter_ok (g : nat -> R -> R) n m (A : smat R) (y : vec R) : mat_wf n m A -> length y = m -> (forall i, g i r0 = r0) ->
    let r := rows_fold (fun i row y => cols_fold (fun j a y => upd y j (vget y j + g i a)) row y) 0 A y in
    length r = m /\ forall j, vget r j = vget y j + sum n (fun i => g i (den A i j)).
  Proof.
    intros [HL HW] Hl Hg. destruct (scatter_gen g m A HW Hg 0 y Hl) as [H1 H2]. rewrite HL in H2. auto.
  Qed.

  (** ** C09 *)
  (** [is_vec y n f]: y is the vector (f 0, ..., f (n-1)) *)
  Definition is_vec (y : vec R) (n : nat) (f : nat -> R) : Prop := length y = n /\ forall i, i < n -> vget y i = f i.

  Lemma mv_as_umv (A : smat R) (x y : vec R) : length y = length A -> bcrs_mv A x y = bcrs_umv A x (map (fun _ => r0) y).
  Proof.
    intros Hl.
    destruct (rows_fold_pointwise0 (fun i row y => cols_fold (fun j a y => upd y i (vget y i + a * vget x j)) row (upd y i r0))
      (fun i row v => r0 + lsum (map (fun e => snd e * vget x (fst e)) row)) A y) as [H1 H2]; auto.
    { intros i row y0 Hi. rewrite (cols_gather (fun j a => a * vget x j)) by (rewrite upd_length; auto).
      rewrite vget_upd, Nat.eqb_refl by auto. apply vec_ext; [now rewrite !upd_length|].
      intros k _. rewrite !vget_upd by (rewrite ?upd_length; auto). destruct (k =? i); auto. }
    destruct (rows_fold_pointwise0 (fun i row y => cols_fold (fun j a y => upd y i (vget y i + a * vget x j)) row y)
      (fun i row v => v + lsum (map (fun e => snd e * vget x (fst e)) row)) A (map (fun _ => r0) y)) as [H3 H4].
    { intros i row y0 Hi. now rewrite (cols_gather (fun j a => a * vget x j)). }
    { now rewrite map_length. }
    apply vec_ext; unfold bcrs_mv, bcrs_umv; [exact (eq_trans H1 (eq_sym H3))|]. intros i Hi. assert (Hi' : i < length A) by (rewrite <- H1; exact Hi). etransitivity; [apply H2; auto|]. etransitivity; [|symmetry; apply H4; auto]. f_equal.
    unfold vget. symmetry. change r0 with ((fun _ : R => @r0 R) r0) at 2. rewrite map_nth. reflexivity.
  Qed.

  Theorem C09_products n m (A : smat R) (x y : vec R) : mat_wf n m A -> length x = m -> length y = n ->
    is_vec (bcrs_mv A x y) n (fun i => sum m (fun j => den A i j * vget x j)) /\
    is_vec (bcrs_umv A x y) n (fun i => vget y i + sum m (fun j => den A i j * vget x j)) /\
    is_vec (bcrs_mmv A x y) n (fun i => vget y i - sum m (fun j => den A i j * vget x j)) /\
    forall alpha, is_vec (bcrs_usmv alpha A x y) n (fun i => vget y i + alpha * sum m (fun j => den A i j * vget x j)).
  Proof.
    intros HW Hx Hy. pose proof (proj1 HW) as HL. split; [|split; [|split]].
    - rewrite mv_as_umv by lia.
      destruct (gather_ok (fun j a => a * vget x j) n m A (map (fun _ => r0) y)) as [H1 H2]; auto.
      + now rewrite map_length.
      + intros; apply rmul_0_l.
      + split; auto. intros i Hi. unfold bcrs_umv. rewrite H2 by auto.
        replace (vget (map (fun _ => r0) y) i) with (@r0 R); [apply radd_0_l|].
        unfold vget. symmetry. change r0 with ((fun _ : R => @r0 R) r0) at 2. rewrite map_nth. reflexivity.
    - apply (gather_ok (fun j a => a * vget x j) n m A y); auto. intros; apply rmul_0_l.
    - destruct (gather_ok (fun j a => - (a * vget x j)) n m A y) as [H1 H2]; auto.
      + intros; ncring.
      + split; auto. intros i Hi. unfold bcrs_mmv. rewrite H2, sum_opp by auto. ncring.
    - intros alpha. destruct (gather_ok (fun j a => alpha * (a * vget x j)) n m A y) as [H1 H2]; auto.
      + intros; ncring.
      + split; auto. intros i Hi. unfold bcrs_usmv. rewrite H2 by auto. now rewrite sum_mul_l.
  Qed.

  Theorem C09_transposed_products n m (A : smat R) (x y : vec R) : tr r0 = r0 -> mat_wf n m A -> length x = n -> length y = m ->
    is_vec (bcrs_mtv A x y) m (fun j => sum n (fun i => tr (den A i j) * vget x i)) /\
    is_vec (bcrs_umtv A x y) m (fun j => vget y j + sum n (fun i => tr (den A i j) * vget x i)) /\
    is_vec (bcrs_mmtv A x y) m (fun j => vget y j - sum n (fun i => tr (den A i j) * vget x i)) /\
    forall alpha, is_vec (bcrs_usmtv alpha A x y) m (fun j => vget y j + alpha * sum n (fun i => tr (den A i j) * vget x i)).
  Proof.
    intros Ht HW Hx Hy. split; [|split; [|split]].
    - destruct (scatter_ok (fun i a => tr a * vget x i) n m A (map (fun _ => r0) y)) as [H1 H2]; auto.
      + now rewrite map_length.
      + intros; rewrite Ht; apply rmul_0_l.
      + split; auto. intros j Hj. unfold bcrs_mtv, bcrs_umtv. rewrite H2 by auto.
        replace (vget (map (fun _ => r0) y) j) with (@r0 R); [apply radd_0_l|].
        unfold vget. symmetry. change r0 with ((fun _ : R => @r0 R) r0) at 2. rewrite map_nth. reflexivity.
    - destruct (scatter_ok (fun i a => tr a * vget x i) n m A y) as [H1 H2]; auto.
      + intros; rewrite Ht; apply rmul_0_l.
      + split; auto.
    - destruct (scatter_ok (fun i a => - (tr a * vget x i)) n m A y) as [H1 H2]; auto.
      + intros; rewrite Ht; ncring.
      + split; auto. intros j _. unfold bcrs_mmtv. rewrite H2, sum_opp. ncring.
    - intros alpha. destruct (scatter_ok (fun i a => alpha * (tr a * vget x i)) n m A y) as [H1 H2]; auto.
      + intros; rewrite Ht; ncring.
      + split; auto. intros j _. unfold bcrs_usmtv. now rewrite H2, sum_mul_l.
  Qed.

  Theorem C09_conjugate_transposed_products n m (A : smat R) (x y : vec R) : hj r0 = r0 -> mat_wf n m A -> length x = n -> length y = m ->
    is_vec (bcrs_umhv A x y) m (fun j => vget y j + sum n (fun i => hj (den A i j) * vget x i)) /\
    is_vec (bcrs_mmhv A x y) m (fun j => vget y j - sum n (fun i => hj (den A i j) * vget x i)) /\
    forall alpha, is_vec (bcrs_usmhv alpha A x y) m (fun j => vget y j + alpha * sum n (fun i => hj (den A i j) * vget x i)).
  Proof.
    intros Ht HW Hx Hy. split; [|split].
    - destruct (scatter_ok (fun i a => hj a * vget x i) n m A y) as [H1 H2]; auto.
      + intros; rewrite Ht; apply rmul_0_l.
      + split; auto.
    - destruct (scatter_ok (fun i a => - (hj a * vget x i)) n m A y) as [H1 H2]; auto.
      + intros; rewrite Ht; ncring.
      + split; auto. intros j _. unfold bcrs_mmhv. rewrite H2, sum_opp. ncring.
    - intros alpha. destruct (scatter_ok (fun i a => alpha * (hj a * vget x i)) n m A y) as [H1 H2]; auto.
      + intros; rewrite Ht; ncring.
      + split; auto. intros j _. unfold bcrs_usmhv. now rewrite H2, sum_mul_l.
  Qed.

  (** ** C10: matrix += , -= , axpy *)
  (** basearray.hh:331-338: operator[] throws ISTLError if the column is not stored *)
  Fixpoint row_upd (row : srow R) (j : nat) (f : R -> R) : option (srow R) :=
    match row with
    | nil => None
    | (k, a) :: t => if k =? j then Some ((k, f a) :: t) else
                     match row_upd t j f with Some t' => Some ((k, a) :: t') | None => None end
    end.
  (** bvector.hh:777-808: [for i < y.n: operator[](y.j[i]) op= y.p[i]]; the state left behind by an exception is shown *)
  Fixpoint row_acc (f : R -> R -> R) (row y : srow R) : res (srow R) unit :=
    match y with
    | nil => ROk row tt
    | (j, b) :: t => match row_upd row j (fun a => f a b) with
                     | Some row' => row_acc f row' t
                     | None => RThrow row EISTL
                     end
    end.
  (** bcrsmatrix.hh:1574-1636: row by row *)
  Fixpoint mat_acc (f : R -> R -> R) (A B : smat R) : res (smat R) unit :=
    match A, B with
    | nil, _ => ROk nil tt
    | a :: A', b :: B' =>
        match row_acc f a b with
        | ROk a' _ => match mat_acc f A' B' with
                      | ROk A'' _ => ROk (a' :: A'') tt
                      | RThrow A'' e => RThrow (a' :: A'') e
                      | RUB => RUB
                      end
        | RThrow a' e => RThrow (a' :: A') e
        | RUB => RUB
        end
    | _ :: _, nil => RUB
    end.
  (** operator+=, operator-=, bcrsmatrix.hh:1574-1610 *)
  Definition mat_add (A B : smat R) := mat_acc (fun a b => a + b) A B.
  Definition mat_sub (A B : smat R) := mat_acc (fun a b => a - b) A B.
  (** block axpy: a += alpha * b *)
  Definition mat_axpy (alpha : R) (A B : smat R) := mat_acc (fun a b => a + alpha * b) A B.

  Lemma row_upd_some row j f : In j (map fst row) -> exists row', row_upd row j f = Some row' /\ map fst row' = map fst row /\
    forall k, denrow row' k = if k =? j then f (denrow row j) else denrow row k.
  Proof.
    induction row as [|[c a] t IH]; simpl; intros H; [tauto|]. destruct (Nat.eqb_spec c j) as [->|Hc].
    - eexists. split; [reflexivity|]. split; auto. intros k. simpl. rewrite (Nat.eqb_sym j k).
      destruct (Nat.eqb_spec k j); auto.
    - destruct IH as (row' & E1 & E2 & E3); [tauto|]. rewrite E1. eexists. split; [reflexivity|].
      split; [simpl; congruence|]. intros k. simpl. rewrite E3. destruct (Nat.eqb_spec c k) as [->|]; auto.
      destruct (Nat.eqb_spec k j); congruence.
  Qed.
  Lemma row_upd_none row j f : ~ In j (map fst row) -> row_upd row j f = None.
  Proof.
    induction row as [|[c a] t IH]; simpl; intros H; auto. destruct (Nat.eqb_spec c j); [tauto|].
    rewrite IH; tauto.
  Qed.

  Lemma row_acc_ok f row y : (forall a, f a r0 = a) -> NoDup (map fst y) -> incl (map fst y) (map fst row) ->
    exists row', row_acc f row y = ROk row' tt /\ map fst row' = map fst row /\
      forall j, denrow row' j = f (denrow row j) (denrow y j).
  Proof.
    intros Hf HN. revert row. induction y as [|[c b] t IH]; simpl; intros row HI.
    - exists row. repeat split; auto.
    - inversion HN; subst. destruct (row_upd_some row c (fun a => f a b)) as (row1 & E1 & E2 & E3); [apply HI; left; auto|].
      rewrite E1. destruct (IH H2 row1) as (row' & F1 & F2 & F3).
      { rewrite E2. intros k Hk. apply HI. right. auto. }
      exists row'. rewrite F1. split; auto. split; [congruence|]. intros j. rewrite F3, E3, (Nat.eqb_sym c j).
      destruct (Nat.eqb_spec j c) as [->|]; auto. rewrite (denrow_notin t c); auto.
  Qed.
  Lemma row_acc_throw f row y : ~ incl (map fst y) (map fst row) ->
    exists row', row_acc f row y = RThrow row' EISTL /\ map fst row' = map fst row.
  Proof.
    revert row. induction y as [|[c b] t IH]; simpl; intros row H.
    - exfalso. apply H. intros k [].
    - destruct (in_dec Nat.eq_dec c (map fst row)) as [Hc|Hc].
      + destruct (row_upd_some row c (fun a => f a b) Hc) as (row1 & E1 & E2 & E3). rewrite E1.
        destruct (IH row1) as (row' & F1 & F2). { rewrite E2. intros HI. apply H. intros k [<-|Hk]; auto. }
        exists row'. split; auto. congruence.
      + rewrite row_upd_none by auto. eauto.
  Qed.

  (** same pattern *)
  Definition same_pattern (A A' : smat R) : Prop := map (map fst) A' = map (map fst) A.

  Lemma mat_acc_ok f m (A B : smat R) : (forall a, f a r0 = a) -> length B = length A -> Forall (row_wf m) B ->
    (forall i j, instored B i j -> instored A i j) ->
    exists A', mat_acc f A B = ROk A' tt /\ same_pattern A A' /\ forall i j, i < length A -> den A' i j = f (den A i j) (den B i j).
  Proof.
    intros Hf. revert B. induction A as [|a A IH]; intros [|b B] HL HB HS; simpl in *; try discriminate.
    - exists nil. split; auto. split; [reflexivity|]. intros; lia.
    - inversion HB; subst. destruct (row_acc_ok f a b Hf) as (a' & E1 & E2 & E3).
      { eapply row_wf_NoDup; eauto. }
      { intros j Hj. apply (HS 0 j). exact Hj. }
      destruct (IH B) as (A' & F1 & F2 & F3); auto. { intros i j Hij. apply (HS (S i) j). exact Hij. }
      rewrite E1, F1. exists (a' :: A'). split; auto. split; [unfold same_pattern in *; simpl; congruence|].
      intros [|i] j Hi; [apply E3|]. apply (F3 i j). lia.
  Qed.
  Lemma mat_acc_throw f m (A B : smat R) : (forall a, f a r0 = a) -> length B = length A -> Forall (row_wf m) B ->
    (exists i j, instored B i j /\ ~ instored A i j) ->
    exists A', mat_acc f A B = RThrow A' EISTL /\ same_pattern A A'.
  Proof.
    intros Hf. revert B. induction A as [|a A IH]; intros [|b B] HL HB (i & j & H1 & H2); simpl in *; try discriminate.
    - unfold instored in H1. destruct i; destruct H1.
    - inversion HB; subst. destruct (Forall_Exists_dec (fun k => In k (map fst a)) (fun k => in_dec Nat.eq_dec k (map fst a)) (map fst b)) as [D|D].
      + assert (HI : incl (map fst b) (map fst a)) by (intros k Hk; rewrite Forall_forall in D; auto).
        destruct (row_acc_ok f a b Hf (row_wf_NoDup _ _ H3) HI) as (a' & E1 & E2 & _). rewrite E1.
        destruct i as [|i]; [exfalso; apply H2; apply HI; exact H1|].
        destruct (IH B) as (A' & F1 & F2); auto. { exists i, j. auto. }
        rewrite F1. exists (a' :: A'). split; auto. unfold same_pattern in *. simpl. congruence.
      + apply Exists_exists in D. destruct D as (k & D1 & D2).
        destruct (row_acc_throw f a b) as (a' & E1 & E2). { intros HI. apply D2, HI, D1. }
        rewrite E1. exists (a' :: A). split; auto. unfold same_pattern. simpl. congruence.
  Qed.

  Theorem C10_matrix_arithmetic n m (A B : smat R) : mat_wf n m A -> mat_wf n m B -> (forall i j, instored B i j -> instored A i j) ->
    (exists A', mat_add A B = ROk A' tt /\ same_pattern A A' /\ forall i j, i < n -> den A' i j = den A i j + den B i j) /\
    (exists A', mat_sub A B = ROk A' tt /\ same_pattern A A' /\ forall i j, i < n -> den A' i j = den A i j - den B i j) /\
    (forall alpha, exists A', mat_axpy alpha A B = ROk A' tt /\ same_pattern A A' /\
                   forall i j, i < n -> den A' i j = den A i j + alpha * den B i j).
  Proof.
    intros [HA _] [HB HW] HS. split; [|split; [|intros alpha]].
    - destruct (mat_acc_ok (fun a b => a + b) m A B) as (A' & E & P & D); auto; [apply radd_0_r|lia|].
      exists A'. split; auto. split; auto. intros; apply D; lia.
    - destruct (mat_acc_ok (fun a b => a - b) m A B) as (A' & E & P & D); auto; [apply rsub_0_r|lia|].
      exists A'. split; auto. split; auto. intros; apply D; lia.
    - destruct (mat_acc_ok (fun a b => a + alpha * b) m A B) as (A' & E & P & D); auto; [intros; ncring|lia|].
      exists A'. split; auto. split; auto. intros; apply D; lia.
  Qed.

  Theorem C10_missing_entry_throws n m (A B : smat R) : mat_wf n m A -> mat_wf n m B -> (exists i j, instored B i j /\ ~ instored A i j) ->
    (exists A', mat_add A B = RThrow A' EISTL /\ same_pattern A A') /\
    (exists A', mat_sub A B = RThrow A' EISTL /\ same_pattern A A') /\
    (forall alpha, exists A', mat_axpy alpha A B = RThrow A' EISTL /\ same_pattern A A').
  Proof.
    intros [HA _] [HB HW] HS. split; [|split; [|intros alpha]].
    - apply (mat_acc_throw _ m); auto; [apply radd_0_r|lia].
    - apply (mat_acc_throw _ m); auto; [apply rsub_0_r|lia].
    - apply (mat_acc_throw _ m); auto; [intros; ncring|lia].
  Qed.
End MatVec.

(** concrete cases: a 2x3 matrix *)
Definition exA : smat Zring := [[(0, 2%Z); (2, 3%Z)]; [(1, 5%Z)]].
Example C09_nonvacuous : mat_wf 2 3 exA /\ bcrs_mv exA [1;10;100]%Z [7;7]%Z = [302;50]%Z /\
  bcrs_umtv (fun a => a) exA [1;10]%Z [0;0;1]%Z = [2;50;4]%Z.
Proof. split; [|split; reflexivity]. split; auto. repeat constructor. Qed.
Example C10_nonvacuous : mat_add exA [[(2, 1%Z)]; []] = ROk [[(0, 2%Z); (2, 4%Z)]; [(1, 5%Z)]] tt /\
  mat_add exA [[(0,1%Z);(1, 1%Z)]; []] = RThrow [[(0, 3%Z); (2, 3%Z)]; [(1, 5%Z)]] EISTL.
Proof. split; reflexivity. Qed.
Print Assumptions C09_products.
Print Assumptions C09_transposed_products.
Print Assumptions C09_conjugate_transposed_products.
Print Assumptions C10_matrix_arithmetic.
Print Assumptions C10_missing_entry_throws.
