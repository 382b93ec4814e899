(** * Block tridiagonal and block diagonal matrices (dune/istl/btdmatrix.hh, bdmatrix.hh), C21, C22 *)
From Coq Require Import Arith List Lia Sorted Bool ZArith QArith Qcanon.
From Verif Require Import Ring Sums RingInst Outcome Sparse MatVec GsModel Gs Ilu.
Import ListNotations.
Open Scope nat_scope.

Section BTD.
  Context {R : ring}.
  Local Open Scope ring_scope_istl.
  Variable inv : R -> option R.

  (** ** Model *)
  (** (A)[i][j] on a finished matrix: an entry that is not stored is UB (C05) *)
  Definition entry (A : smat R) (i j : nat) : outcome R :=
    match row_find (nth i A nil) j with Some a => Ok a | None => UB end.
  (** c[i] = ( *this)[i][i+1] for i < N-1, btdmatrix.hh:116-118 *)
  Fixpoint right_band (A : smat R) (i k : nat) : outcome (list R) :=
    match k with
    | O => Ok nil
    | S k' => obind (entry A i (S i)) (fun a => obind (right_band A (S i) k') (fun t => Ok (a :: t)))
    end.
  (** The elimination loop for rows i, i+1, ..., btdmatrix.hh:134-156.  Dense block operations are ring operations;
      FieldMatrix::invert throws FMatrixError on a singular block. *)
  Fixpoint thomas (A : smat R) (k i : nat) (c d : list R) : outcome (list R * list R) :=
    match k with
    | O => Ok (c, d)
    | S k' =>
      obind (entry A i (i - 1)) (fun am =>
      obind (entry A i i) (fun aii =>
      match inv (aii - am * nth (i - 1)%nat c r0) with
      | None => Throw EFMatrix
      | Some id =>
        let c' := if i <? length c then upd c i (id * nth i c r0) else c in
        let d1 := nth i d r0 - am * nth (i - 1)%nat d r0 in
        thomas A k' (S i) c' (upd d i (id * d1))
      end))
    end.
  (** Back substitution x[i] = d[i] - c[i] x[i+1] for i = k-1, ..., 0, btdmatrix.hh:160-165 *)
  Fixpoint back (c d : list R) (k : nat) (x : list R) : list R :=
    match k with
    | O => x
    | S i => back c d i (upd x i (nth i d r0 - nth i c r0 * nth (S i) x r0))
    end.
  (** BTDMatrix::solve, btdmatrix.hh:101-167.  FieldMatrix::solve for the 1x1 case is modelled as multiplication with the
      inverse.  N() = 0: std::vector of size SIZE_MAX cannot be allocated. *)
  Definition btd_solve (A : smat R) (x rhs : list R) : outcome (list R) :=
    match length A with
    | O => Throw EAlloc
    | S O => obind (entry A 0 0) (fun a => match inv a with None => Throw EFMatrix | Some b => Ok (upd x 0 (b * nth 0 rhs r0)) end)
    | S m =>
      obind (right_band A 0 m) (fun c =>
      obind (entry A 0 0) (fun a00 =>
      match inv a00 with
      | None => Throw EFMatrix
      | Some i0 =>
        let c0 := upd c 0 (i0 * nth 0 c r0) in
        let d0 := upd rhs 0 (i0 * nth 0 rhs r0) in
        obind (thomas A m 1 c0 d0) (fun cd => let '(c1, d1) := cd in
        Ok (back c1 d1 m (upd x m (nth m d1 r0))))
      end))
    end.
  (** BDMatrix::solve, bdmatrix.hh:117-124 *)
  Fixpoint bd_solve_from (A : smat R) (k i : nat) (x rhs : list R) : outcome (list R) :=
    match k with
    | O => Ok x
    | S k' => obind (entry A i i) (fun a => match inv a with
              | None => Throw EFMatrix
              | Some b => bd_solve_from A k' (S i) (upd x i (b * nth i rhs r0)) rhs end)
    end.
  Definition bd_solve (A : smat R) (x rhs : list R) : outcome (list R) := bd_solve_from A (length A) 0 x rhs.
  (** BDMatrix::invert, bdmatrix.hh:127-130 *)
  Fixpoint row_set (row : srow R) (j : nat) (v : R) : srow R :=
    match row with nil => nil | (k, a) :: t => if k =? j then (k, v) :: t else (k, a) :: row_set t j v end.
  Fixpoint bd_invert_from (A : smat R) (k i : nat) : outcome (smat R) :=
    match k with
    | O => Ok A
    | S k' => obind (entry A i i) (fun a => match inv a with
              | None => Throw EFMatrix
              | Some b => bd_invert_from (upd A i (row_set (nth i A nil) i b)) k' (S i) end)
    end.
  Definition bd_invert (A : smat R) : outcome (smat R) := bd_invert_from A (length A) 0.

  (** ** Specification *)
  Definition tridiagonal (n : nat) (A : smat R) : Prop := mat_wf n n A /\ forall i j, i < n -> (instored A i j <-> j < n /\ i <= S j /\ j <= S i).
  Definition diagonal (n : nat) (A : smat R) : Prop := mat_wf n n A /\ forall i j, i < n -> (instored A i j <-> j = i).
  (** Block elimination: q_k is the inverse of the k-th pivot p_k *)
  Definition tri_pivots (n : nat) (A : smat R) (p q : nat -> R) : Prop :=
    (0 < n -> p 0%nat = den A 0 0) /\
    (forall k, S k < n -> p (S k) = den A (S k) (S k) - den A (S k) k * q k * den A k (S k)) /\
    (forall k, k < n -> inverse_of (p k) (q k)).
  (** the first pivot that cannot be inverted is the one of row k *)
  Definition breaks_at (A : smat R) (k : nat) : Prop :=
    exists p q, tri_pivots k A p q /\
      forall b, ~ inverse_of (match k with O => den A 0 0 | S k' => den A k k - den A k k' * q k' * den A k' k end) b.

  (** ** Proof *)
  Lemma row_find_in (row : srow R) j : In j (map fst row) -> row_find row j = Some (denrow row j).
  Proof.
    induction row as [|[k a] t IH]; [intros []|]. cbn. destruct (Nat.eqb_spec k j); auto. intros [H|H]; [congruence|auto].
  Qed.
  Lemma entry_in A i j : instored A i j -> entry A i j = Ok (den A i j).
  Proof. intros H. unfold entry, den. now rewrite (row_find_in _ _ H). Qed.

  Hypothesis inv_ok : forall a b, inv a = Some b -> inverse_of a b.

  Lemma right_band_spec n A : tridiagonal n A -> forall k i, (i + k < n)%nat ->
    exists c, right_band A i k = Ok c /\ length c = k /\ forall j, j < k -> nth j c r0 = den A (i + j) (S (i + j)).
  Proof.
    intros [HW HT] k. induction k as [|k IH]; intros i Hi; cbn [right_band].
    - exists nil. split; auto. split; auto. intros; lia.
    - rewrite entry_in by (apply HT; lia). cbn [obind]. destruct (IH (S i)) as (c & E & L & V); [lia|]. rewrite E. cbn [obind].
      eexists. split; [reflexivity|]. split; [cbn; auto|]. intros [|j] Hj; cbn [nth]; [now rewrite Nat.add_0_r|].
      rewrite V by lia. f_equal; lia.
  Qed.

  (** state of the elimination before row i *)
  Definition th_inv (n : nat) (A : smat R) (rhs : list R) (i : nat) (c d : list R) (p q : nat -> R) : Prop :=
    length c = (n - 1)%nat /\ length d = n /\
    tri_pivots i A p q /\
    (forall k, k < i -> S k < n -> nth k c r0 = q k * den A k (S k)) /\
    (forall k, i <= k -> S k < n -> nth k c r0 = den A k (S k)) /\
    (0 < i -> nth 0 d r0 = q 0%nat * nth 0 rhs r0) /\
    (forall k, S k < i -> nth (S k) d r0 = q (S k) * (nth (S k) rhs r0 - den A (S k) k * nth k d r0)) /\
    (forall k, i <= k -> nth k d r0 = nth k rhs r0).
  Lemma tri_pivots_ext n A p q p' q' : (forall k, k < n -> p k = p' k) -> (forall k, k < n -> q k = q' k) -> tri_pivots n A p q -> tri_pivots n A p' q'.
  Proof.
    intros Hp Hq (T0 & TS & TI). split; [|split].
    - intros H. rewrite <- Hp by auto. auto.
    - intros k Hk. rewrite <- Hp, <- Hq by lia. auto.
    - intros k Hk. rewrite <- Hp, <- Hq by auto. auto.
  Qed.

  Lemma thomas_spec n A rhs : tridiagonal n A -> length rhs = n -> forall k i c d p q, (1 <= i)%nat -> (i + k = n)%nat -> th_inv n A rhs i c d p q ->
    (exists c' d' p' q', thomas A k i c d = Ok (c', d') /\ th_inv n A rhs n c' d' p' q') \/
    (thomas A k i c d = Throw EFMatrix /\ exists r p' q', r < n /\ tri_pivots r A p' q' /\ inv (match r with O => den A 0 0 | S r' => den A r r - den A r r' * q' r' * den A r' r end) = None).
  Proof.
    intros [HW HT] LR k. induction k as [|k IH]; intros i c d p q Hi Hk HI.
    - left. exists c, d, p, q. split; [reflexivity|]. assert (E : i = n) by lia. now rewrite <- E at 2.
    - cbn [thomas]. destruct HI as (LC & LD & TP & C1 & C2 & D0 & D1 & D2). destruct i as [|i]; [lia|]. cbn [Nat.sub]. rewrite Nat.sub_0_r.
      rewrite entry_in by (apply HT; lia). cbn [obind]. rewrite entry_in by (apply HT; lia). cbn [obind].
      rewrite (C1 i) by lia. replace (den A (S i) i * (q i * den A i (S i))) with (den A (S i) i * q i * den A i (S i)) by ncring.
      set (pv := den A (S i) (S i) - den A (S i) i * q i * den A i (S i)).
      destruct (inv pv) as [id|] eqn:EV; [|right; split; auto; exists (S i), p, q; split; [lia|]; auto].
      apply IH with (p := fun j => if j =? S i then pv else p j) (q := fun j => if j =? S i then id else q j); [lia|lia|].
      assert (LT : forall j, j < S i -> (j =? S i) = false) by (intros; apply Nat.eqb_neq; lia).
      destruct TP as (T0 & TS & TI).
      split; [destruct (S i <? length c); rewrite ?upd_length; auto|]. split; [rewrite upd_length; auto|]. split; [|split; [|split; [|split; [|split]]]].
      + split; [intros _; rewrite LT by lia; apply T0; lia|]. split.
        * intros j Hj. destruct (Nat.eqb_spec (S j) (S i)) as [E|E].
          -- injection E as ->. rewrite LT by lia. reflexivity.
          -- rewrite LT by lia. apply TS. lia.
        * intros j Hj. destruct (Nat.eqb_spec j (S i)) as [E|E]; [apply inv_ok, EV|]. apply TI. lia.
      + intros j Hj Hn. destruct (Nat.ltb_spec (S i) (length c)) as [Hl|Hl].
        * rewrite nth_upd. destruct (Nat.eqb_spec (S i) j) as [<-|E].
          -- destruct (Nat.ltb_spec (S i) (length c)); [|lia]. rewrite Nat.eqb_refl. rewrite C2 by lia. reflexivity.
          -- rewrite LT by lia. apply C1; lia.
        * assert (j <> S i) by lia. rewrite LT by lia. apply C1; lia.
      + intros j Hj Hn. destruct (Nat.ltb_spec (S i) (length c)) as [Hl|Hl]; [|apply C2; lia].
        rewrite nth_upd_ne by lia. apply C2; lia.
      + intros _. rewrite nth_upd_ne by lia. rewrite LT by lia. apply D0. lia.
      + intros j Hj. destruct (Nat.eq_dec j i) as [->|E].
        * rewrite nth_upd_eq by lia. rewrite nth_upd_ne by lia. rewrite Nat.eqb_refl. rewrite (D2 (S i)) by lia. reflexivity.
        * rewrite !nth_upd_ne by lia. rewrite LT by lia. apply D1. lia.
      + intros j Hj. rewrite nth_upd_ne by lia. apply D2. lia.
  Qed.

  Lemma back_spec c d : forall k x, k < length x -> length (back c d k x) = length x /\
    (forall j, k <= j -> nth j (back c d k x) r0 = nth j x r0) /\
    (forall j, j < k -> nth j (back c d k x) r0 = nth j d r0 - nth j c r0 * nth (S j) (back c d k x) r0).
  Proof.
    induction k as [|k IH]; intros x Hk; cbn [back]; [split; auto; split; auto; intros; lia|].
    set (x' := upd x k _). destruct (IH x') as (L & H1 & H2); [unfold x'; rewrite upd_length; lia|].
    split; [rewrite L; apply upd_length|]. split.
    - intros j Hj. rewrite H1 by lia. unfold x'. apply nth_upd_ne. lia.
    - intros j Hj. destruct (Nat.eq_dec j k) as [->|]; [|apply H2; lia].
      rewrite !H1 by lia. unfold x'. rewrite nth_upd_eq by lia. rewrite nth_upd_ne by lia. reflexivity.
  Qed.

  Lemma tri_sum n A (x : nat -> R) i : tridiagonal n A -> i < n ->
    dense_mv n (den A) x i = (match i with O => r0 | S k => den A i k * x k end) + den A i i * x i + (if S i <? n then den A i (S i) * x (S i) else r0).
  Proof.
    intros [HW HT] Hi. unfold dense_mv.
    assert (Z : forall j, ~ (j < n /\ i <= S j /\ j <= S i) -> den A i j = r0).
    { intros j H. apply denrow_notin. intros Q. apply H, HT; auto. }
    rewrite (sum_ext _ _ (fun j => ind (S j =? i) (den A i j * x j) + ind (j =? i) (den A i j * x j) + ind (j =? S i) (den A i j * x j))).
    2:{ intros j Hj. unfold ind. destruct (Nat.eqb_spec (S j) i), (Nat.eqb_spec j i), (Nat.eqb_spec j (S i)); try lia; try ncring.
        rewrite Z by lia. ncring. }
    rewrite !sum_add. f_equal; [f_equal|].
    - destruct i as [|k]; [apply sum_zero; reflexivity|].
      rewrite (sum_single n k) by (first [lia|intros j _ Hj; unfold ind; destruct (Nat.eqb_spec (S j) (S k)); [congruence|reflexivity]]).
      unfold ind. now rewrite Nat.eqb_refl.
    - rewrite (sum_single n i) by (first [lia|intros j _ Hj; unfold ind; destruct (Nat.eqb_spec j i); [congruence|reflexivity]]).
      unfold ind. now rewrite Nat.eqb_refl.
    - destruct (Nat.ltb_spec (S i) n).
      + rewrite (sum_single n (S i)) by (first [lia|intros j _ Hj; unfold ind; destruct (Nat.eqb_spec j (S i)); [congruence|reflexivity]]).
        unfold ind. now rewrite Nat.eqb_refl.
      + apply sum_zero. intros j Hj. unfold ind. destruct (Nat.eqb_spec j (S i)); [lia|reflexivity].
  Qed.

  Lemma pivots_unique n A p q p' q' : tri_pivots n A p q -> tri_pivots n A p' q' -> forall k, k < n -> p k = p' k /\ q k = q' k.
  Proof.
    intros (T0 & TS & TI) (T0' & TS' & TI'). assert (U : forall a b b' : R, inverse_of a b -> inverse_of a b' -> b = b').
    { intros a b b' [H1 H2] [H3 H4]. transitivity (b * (a * b')); [rewrite H3; ncring|]. transitivity (b * a * b'); [ncring|]. rewrite H2. ncring. }
    induction k as [|k IH]; intros Hk.
    - assert (E : p 0%nat = p' 0%nat) by (rewrite T0, T0' by lia; reflexivity). split; auto. eapply U; [apply TI; auto|]. rewrite E. apply TI'. auto.
    - destruct IH as [E1 E2]; [lia|]. assert (E : p (S k) = p' (S k)) by (rewrite TS, TS' by lia; now rewrite E2). split; auto.
      eapply U; [apply TI; auto|]. rewrite E. apply TI'. auto.
  Qed.

  Theorem C21_btd_solve n A x rhs : tridiagonal n A -> 0 < n -> length x = n -> length rhs = n ->
    (exists x' p q, btd_solve A x rhs = Ok x' /\ length x' = n /\ tri_pivots n A p q /\ solves n (den A) (vget x') (vget rhs)) \/
    (btd_solve A x rhs = Throw EFMatrix /\
     exists r p q, r < n /\ tri_pivots r A p q /\ inv (match r with O => den A 0 0 | S r' => den A r r - den A r r' * q r' * den A r' r end) = None).
  Proof.
    intros HT Hn LX LR. pose proof HT as [[LA HW] HP]. unfold btd_solve. rewrite LA. destruct n as [|m]; [lia|]. clear Hn.
    destruct m as [|m].
    - rewrite entry_in by (apply HP; lia). cbn [obind]. destruct (inv (den A 0 0)) as [b|] eqn:EI.
      + left. exists (upd x 0 (b * nth 0 rhs r0)), (fun _ => den A 0 0), (fun _ => b). split; auto. split; [now rewrite upd_length|].
        pose proof (inv_ok _ _ EI) as HI. split; [split; [auto|split; [intros; lia|auto]]|]. intros i Hi. rewrite tri_sum by auto. destruct i; [|lia].
        cbn [Nat.ltb Nat.leb]. unfold vget. rewrite nth_upd_eq by lia. destruct HI as [HI _].
        transitivity (den A 0 0 * b * nth 0 rhs r0); [ncring|]. rewrite HI. ncring.
      + right. split; auto. exists 0%nat, (fun _ => r0), (fun _ => r0). split; auto. split; auto. split; [lia|split; intros; lia].
    - destruct (right_band_spec (S (S m)) A HT (S m) 0) as (c & EC & LC & VC); [lia|]. rewrite EC. cbn [obind].
      rewrite entry_in by (apply HP; lia). cbn [obind]. destruct (inv (den A 0 0)) as [i0|] eqn:EI.
      2:{ right. split; auto. exists 0%nat, (fun _ => r0), (fun _ => r0). split; [lia|]. split; auto. split; [lia|split; intros; lia]. }
      pose proof (inv_ok _ _ EI) as HI.
      destruct (thomas_spec (S (S m)) A rhs HT LR (S m) 1 (upd c 0 (i0 * nth 0 c r0)) (upd rhs 0 (i0 * nth 0 rhs r0)) (fun _ => den A 0 0) (fun _ => i0)) as [(c1 & d1 & p & q & E & I)|(E & r & p & q & I)]; auto.
      { split; [rewrite upd_length; lia|]. split; [now rewrite upd_length|]. split; [split; [auto|split; [intros; lia|intros; auto]]|].
        split; [|split; [|split; [|split]]].
        - intros k Hk Hn. assert (k = 0%nat) by lia. subst. rewrite nth_upd_eq by lia. rewrite VC by lia. reflexivity.
        - intros k Hk Hn. rewrite nth_upd_ne by lia. rewrite VC by lia. reflexivity.
        - intros _. apply nth_upd_eq. lia.
        - intros; lia.
        - intros k Hk. apply nth_upd_ne. lia. }
      + left. rewrite E. cbn [obind]. destruct I as (LC1 & LD1 & TP & C1 & _ & D0 & D1 & _).
        destruct (back_spec c1 d1 (S m) (upd x (S m) (nth (S m) d1 r0))) as (L & B1 & B2); [rewrite upd_length; lia|].
        set (xx := back c1 d1 (S m) _) in *. exists xx, p, q. split; auto. split; [rewrite L, upd_length; auto|]. split; auto.
        assert (BL : nth (S m) xx r0 = nth (S m) d1 r0) by (rewrite B1 by lia; apply nth_upd_eq; lia).
        assert (XD : forall k, k < S (S m) -> nth k d1 r0 = nth k xx r0 + (if S k <? S (S m) then q k * den A k (S k) * nth (S k) xx r0 else r0)).
        { intros k Hk. destruct (Nat.ltb_spec (S k) (S (S m))).
          - rewrite (B2 k) by lia. rewrite (C1 k) by lia. ncring.
          - assert (k = S m) by lia. subst. rewrite BL. ncring. }
        destruct TP as (T0 & TS & TI).
        intros i Hi. rewrite tri_sum by auto. unfold vget. destruct i as [|k].
        * change (1 <? S (S m)) with true. cbv iota. pose proof (D0 ltac:(lia)) as Q. rewrite (XD 0%nat) in Q by lia. change (1 <? S (S m)) with true in Q. cbv iota in Q.
          assert (Q2 : den A 0 0 * (nth 0 xx r0 + q 0%nat * den A 0 1 * nth 1 xx r0) = den A 0 0 * (q 0%nat * nth 0 rhs r0)) by (now rewrite Q).
          destruct (TI 0%nat) as [Q3 _]; [lia|]. rewrite T0 in Q3 by lia.
          transitivity (den A 0 0 * nth 0 xx r0 + r1 * den A 0 1 * nth 1 xx r0); [ncring|]. rewrite <- Q3.
          transitivity (den A 0 0 * (nth 0 xx r0 + q 0%nat * den A 0 1 * nth 1 xx r0)); [ncring|]. rewrite Q2.
          transitivity (den A 0 0 * q 0%nat * nth 0 rhs r0); [ncring|]. rewrite Q3. ncring.
        * pose proof (D1 k Hi) as Q. destruct (TI (S k)) as [Q3 _]; [lia|]. pose proof (TS k Hi) as Q4.
          assert (Q5 : p (S k) * nth (S k) d1 r0 = nth (S k) rhs r0 - den A (S k) k * nth k d1 r0).
          { rewrite Q. transitivity (p (S k) * q (S k) * (nth (S k) rhs r0 - den A (S k) k * nth k d1 r0)); [ncring|]. rewrite Q3. ncring. }
          rewrite (XD (S k)) in Q5 by lia. rewrite (XD k) in Q5 by lia. destruct (Nat.ltb_spec (S k) (S (S m))); [|lia].
          apply (radd_cancel_r (- (den A (S k) k * (nth k xx r0 + q k * den A k (S k) * nth (S k) xx r0)))).
          transitivity (nth (S k) rhs r0 - den A (S k) k * (nth k xx r0 + q k * den A k (S k) * nth (S k) xx r0)); [|ncring]. rewrite <- Q5.
          destruct (S (S k) <? S (S m)).
          -- transitivity ((p (S k)) * nth (S k) xx r0 + (p (S k) * q (S k)) * den A (S k) (S (S k)) * nth (S (S k)) xx r0); [rewrite Q3, Q4; ncring|ncring].
          -- rewrite Q4. ncring.
      + right. rewrite E. split; auto. exists r, p, q. auto.
  Qed.

  (** Hence, when every pivot has an inverse and FieldMatrix::invert finds it, the solve succeeds. *)
  Corollary C21_btd_solve_regular n A x rhs p q : tridiagonal n A -> 0 < n -> length x = n -> length rhs = n ->
    (forall a b, inverse_of a b -> inv a <> None) -> tri_pivots n A p q ->
    exists x', btd_solve A x rhs = Ok x' /\ length x' = n /\ solves n (den A) (vget x') (vget rhs).
  Proof.
    intros HT Hn LX LR HC HP. destruct (C21_btd_solve n A x rhs HT Hn LX LR) as [(x' & p' & q' & E & L & _ & S')|(E & r & p' & q' & Hr & TP & EI)]; [eauto|].
    exfalso. destruct HP as (T0 & TS & TI). assert (TPr : tri_pivots r A p q) by (split; [auto|split; [intros; apply TS; lia|intros; apply TI; lia]]).
    pose proof (pivots_unique r A p q p' q' TPr TP) as U. apply (HC (p r) (q r)); [apply TI; auto|]. rewrite <- EI. f_equal.
    destruct r as [|r]; [apply T0; auto|]. rewrite TS by lia. destruct (U r) as [_ ->]; [lia|]. reflexivity.
  Qed.

  (** *** Diagonal *)
  Lemma bd_solve_from_spec n A rhs : diagonal n A -> length rhs = n -> forall k i x, (i + k = n)%nat -> length x = n ->
    (forall j, j < i -> den A j j * nth j x r0 = nth j rhs r0) ->
    (exists x', bd_solve_from A k i x rhs = Ok x' /\ length x' = n /\ forall j, j < n -> den A j j * nth j x' r0 = nth j rhs r0) \/
    (bd_solve_from A k i x rhs = Throw EFMatrix /\ exists r, r < n /\ inv (den A r r) = None).
  Proof.
    intros [HW HT] LR k. induction k as [|k IH]; intros i x Hi LX HX; cbn [bd_solve_from].
    - left. exists x. split; auto. split; auto. intros. apply HX. lia.
    - rewrite entry_in by (apply HT; lia). cbn [obind]. destruct (inv (den A i i)) as [b|] eqn:EI.
      + apply IH; [lia|now rewrite upd_length|]. intros j Hj. destruct (Nat.eq_dec j i) as [->|].
        * rewrite nth_upd_eq by lia. destruct (inv_ok _ _ EI) as [Q _]. transitivity (den A i i * b * nth i rhs r0); [ncring|]. rewrite Q. ncring.
        * rewrite nth_upd_ne by lia. apply HX. lia.
      + right. split; auto. exists i. split; [lia|auto].
  Qed.
  Lemma diag_mv n A (x : nat -> R) i : diagonal n A -> i < n -> dense_mv n (den A) x i = den A i i * x i.
  Proof.
    intros [HW HT] Hi. unfold dense_mv. apply (sum_single n i (fun j => den A i j * x j)); auto. intros j _ Hj. unfold den. rewrite denrow_notin; [ncring|].
    intros Q. apply HT in Q; auto.
  Qed.
  Theorem C22_bd_solve n A x rhs : diagonal n A -> length x = n -> length rhs = n ->
    (exists x', bd_solve A x rhs = Ok x' /\ length x' = n /\ solves n (den A) (vget x') (vget rhs)) \/
    (bd_solve A x rhs = Throw EFMatrix /\ exists r, r < n /\ inv (den A r r) = None).
  Proof.
    intros HD LX LR. unfold bd_solve. pose proof HD as [[LA _] _]. rewrite LA.
    destruct (bd_solve_from_spec n A rhs HD LR n 0 x) as [(x' & E & L & V)|H]; auto; [intros; lia|]. left. exists x'. split; auto. split; auto.
    intros i Hi. rewrite diag_mv by auto. apply V. auto.
  Qed.

  Lemma row_set_fst row j v : map fst (row_set row j v) = map fst row.
  Proof. induction row as [|[k a] t IH]; cbn; auto. destruct (k =? j); cbn; [auto|now rewrite IH]. Qed.
  Lemma row_set_den row j v c : In j (map fst row) -> denrow (row_set row j v) c = if j =? c then v else denrow row c.
  Proof.
    induction row as [|[k a] t IH]; intros H; [destruct H|]. cbn [row_set]. destruct (Nat.eqb_spec k j) as [->|Hn]; cbn [denrow]; [destruct (j =? c); auto|].
    destruct H as [H|H]; [cbn in H; congruence|]. rewrite IH by auto. destruct (Nat.eqb_spec k c) as [->|]; auto. destruct (Nat.eqb_spec j c); [congruence|auto].
  Qed.
  Lemma diagonal_upd n A i b : diagonal n A -> i < n -> diagonal n (upd A i (row_set (nth i A nil) i b)) /\
    (forall k, den (upd A i (row_set (nth i A nil) i b)) k k = if k =? i then b else den A k k).
  Proof.
    intros [[LA HW] HT] Hi.
    assert (NF : forall k, map fst (nth k (upd A i (row_set (nth i A nil) i b)) nil) = map fst (nth k A nil)).
    { intros k. rewrite nth_upd. destruct (Nat.eqb_spec i k) as [->|]; auto. destruct (Nat.ltb_spec k (length A)); [|lia]. apply row_set_fst. }
    split.
    - split.
      + split; [now rewrite upd_length|]. apply Forall_forall. intros r Hr. apply (In_nth _ _ nil) in Hr. destruct Hr as (k & Hk & <-).
        unfold row_wf. rewrite NF. rewrite upd_length in Hk. rewrite Forall_forall in HW. apply HW, nth_In; auto.
      + intros k j Hk. unfold instored. rewrite NF. apply HT. auto.
    - intros k. unfold den. rewrite nth_upd. destruct (Nat.eqb_spec i k) as [->|Hn].
      + destruct (Nat.ltb_spec k (length A)); [|lia]. rewrite Nat.eqb_refl. rewrite row_set_den by (apply HT; auto). now rewrite Nat.eqb_refl.
      + destruct (Nat.eqb_spec k i); [congruence|auto].
  Qed.
  Theorem C22_bd_invert n A : diagonal n A ->
    (exists B, bd_invert A = Ok B /\ diagonal n B /\ forall i, i < n -> inverse_of (den A i i) (den B i i)) \/
    (bd_invert A = Throw EFMatrix /\ exists r, r < n /\ inv (den A r r) = None).
  Proof.
    intros HD. unfold bd_invert. pose proof HD as [[LA _] _]. rewrite LA.
    assert (G : forall k i B, (i + k = n)%nat -> diagonal n B -> (forall j, j < i -> inverse_of (den A j j) (den B j j)) -> (forall j, i <= j -> den B j j = den A j j) ->
      (exists B', bd_invert_from B k i = Ok B' /\ diagonal n B' /\ forall i, i < n -> inverse_of (den A i i) (den B' i i)) \/
      (bd_invert_from B k i = Throw EFMatrix /\ exists r, r < n /\ inv (den A r r) = None)).
    { induction k as [|k IH]; intros i B Hi HB H1 H2; cbn [bd_invert_from].
      - left. exists B. split; auto. split; auto. intros j Hj. apply H1. lia.
      - rewrite entry_in by (apply HB; lia). cbn [obind]. rewrite H2 by auto. destruct (inv (den A i i)) as [b|] eqn:EI; [|right; split; auto; exists i; split; [lia|auto]].
        destruct (diagonal_upd n B i b HB) as [D1 D2]; [lia|]. apply IH; [lia|auto| |].
        + intros j Hj. rewrite D2. destruct (Nat.eqb_spec j i) as [->|]; [apply inv_ok, EI|]. apply H1. lia.
        + intros j Hj. rewrite D2. destruct (Nat.eqb_spec j i); [lia|]. apply H2. lia. }
    apply G; auto. intros; lia.
  Qed.

  Theorem C21_empty_refuted x rhs : btd_solve nil x rhs = Throw EAlloc.
  Proof. reflexivity. Qed.
End BTD.

(** *** Non-vacuity *)
Definition exT : smat Qcring := [[(0, q 2); (1, q 1)]; [(0, q 1); (1, q 2); (2, q 1)]; [(1, q 1); (2, q 2)]].
Lemma exT_tri : tridiagonal (R := Qcring) 3 exT.
Proof.
  split; [split; [reflexivity|]; repeat (constructor; [split; cbn [map fst]; repeat constructor; lia|]); constructor|].
  intros i j Hi. unfold instored. destruct i as [|[|[|i]]]; [| | |lia]; cbn; lia.
Qed.
Definition exT_pivots : exists p q, tri_pivots (R := Qcring) 3 exT p q.
Proof.
  destruct (C21_btd_solve (R := Qcring) (fun a => if Qc_eq_dec a 0%Qc then None else Some (/ a)%Qc)) with (n := 3) (A := exT) (x := [q 0; q 0; q 0]) (rhs := [q 1; q 2; q 3]) as [(x & p & qq & _ & _ & H & _)|(E & _)];
    [| apply exT_tri | lia | reflexivity | reflexivity | eauto |].
  - intros a b. destruct (Qc_eq_dec a 0%Qc) as [|H]; [discriminate|]. intros E. injection E as <-. split; [exact (Qcmult_inv_r a H)|exact (Qcmult_inv_l a H)].
  - exfalso. vm_compute in E. discriminate.
Qed.
Print Assumptions C21_btd_solve.
Print Assumptions C21_btd_solve_regular.
Print Assumptions C22_bd_solve.
Print Assumptions C22_bd_invert.
