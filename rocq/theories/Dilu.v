(** * Diagonal ILU (dune/istl/dilu.hh), C18 *)
From Coq Require Import Arith List Lia Sorted Bool ZArith QArith Qcanon.
From Verif Require Import Ring Sums RingInst Outcome Sparse MatVec GsModel Gs Ilu IluSolve.
Import ListNotations.
Open Scope nat_scope.

Section Dilu.
  Context {R : ring}.
  Local Open Scope ring_scope_istl.
  Variable inv : R -> option R.

  (** ** Model *)
  (** Dinv_[i] = *A[i].find(i), dilu.hh:54-61; dereferencing end() is UB.  [Dinv_] has N() entries (preconditioners.hh:597) *)
  Definition dilu_init (A : smat R) (D : vec R) : outcome (vec R) :=
    obind (fwd (fun i row (_ : vec R) (_ : unit) => match row_find row i with Some a => Ok (a, tt) | None => UB end) 0 A D tt) (fun r => Ok (fst r)).
  (** loop over the entries left of the diagonal, dilu.hh:66-77 *)
  Fixpoint dilu_loop (A : smat R) (D : vec R) (i : nat) (row : srow R) (acc : R) : outcome R :=
    match row with
    | nil => UB
    | (j, a) :: t => if j <? i then dilu_loop A D i t (match row_find (nth j A nil) i with Some b => acc - (a * vget D j) * b | None => acc end)
                     else Ok acc
    end.
  (** dilu.hh:63-95 *)
  Definition dilu_body (A : smat R) (i : nat) (row : srow R) (D : vec R) (_ : unit) : outcome (R * unit) :=
    obind (dilu_loop A D i row (vget D i)) (fun s => match inv s with Some u => Ok (u, tt) | None => Throw (EBlock i) end).
  Definition blockDILUDecomposition (A : smat R) (D : vec R) : outcome (vec R) :=
    obind (dilu_init A D) (fun D0 => obind (fwd (dilu_body A) 0 A D0 tt) (fun r => Ok (fst r))).
  (** blockDILUBacksolve, dilu.hh:115-157 *)
  Definition dilu_low (Dinv : vec R) (d : vec R) (i : nat) (row : srow R) (v : vec R) (_ : unit) : outcome (R * unit) :=
    let (rhs, rest) := lower_loop r0 blk_mmv i row v (vget d i) in
    match rest with _ :: _ => Ok (vget Dinv i * rhs, tt) | nil => UB end.
  Definition blk_umv (a x r : R) : R := r + a * x.
  Definition dilu_up (Dinv : vec R) (i : nat) (row : srow R) (v : vec R) (_ : unit) : outcome (R * unit) :=
    let (rhs, rest) := upper_loop r0 blk_umv i (rev row) v r0 in
    match rest with _ :: _ => Ok (vget v i - vget Dinv i * rhs, tt) | nil => UB end.
  Definition blockDILUBacksolve (A : smat R) (Dinv v d : vec R) : outcome (vec R) :=
    obind (fwd (dilu_low Dinv d) 0 A v tt) (fun r => obind (bwd (dilu_up Dinv) 0 A (fst r) tt) (fun r' => Ok (fst r'))).

  (** ** Specification: the matrix (D + L_A) D^-1 (D + U_A) *)
  Definition dilu_matrix (n : nat) (A : smat R) (D : nat -> R) (Dinv : vec R) (i j : nat) : R :=
    sum n (fun k => (ind (k =? i) (D i) + Lp A i k) * vget Dinv k * (ind (j =? k) (D k) + Up A k j)).
  Definition inverses (n : nat) (D : nat -> R) (Dinv : vec R) : Prop := forall i, i < n -> inverse_of (D i) (vget Dinv i).
  (** the i-th pivot, given the inverses of the previous ones *)
  Definition dilu_pivot (A : smat R) (Dinv : vec R) (i : nat) : R := den A i i - sum i (fun j => den A i j * vget Dinv j * den A j i).

  (** ** Proof *)
  Lemma fwd_out {B X T} (f : nat -> list (nat * B) -> list X -> T -> outcome (X * T)) (L : nat) : forall rows k x e,
    (forall i x e, i < length rows -> length x = L -> (exists r, f (k + i)%nat (nth i rows nil) x e = Ok r) \/ f (k + i)%nat (nth i rows nil) x e = Throw (EBlock (k + i))) ->
    length x = L ->
    (exists r, fwd f k rows x e = Ok r) \/
    (exists r x' e', r < length rows /\ fwd f k rows x e = Throw (EBlock (k + r)) /\ fwd f k (firstn r rows) x e = Ok (x', e') /\
       f (k + r)%nat (nth r rows nil) x' e' = Throw (EBlock (k + r))).
  Proof.
    induction rows as [|row t IH]; intros k x e H HL; cbn [fwd]; [eauto|].
    destruct (H 0%nat x e ltac:(cbn; lia) HL) as [([u e1] & E)|E]; rewrite Nat.add_0_r in E; cbn [nth] in E; rewrite E; cbn [obind fst snd].
    - destruct (IH (S k) (upd x k u) e1) as [Hr|(r & x' & e' & Hr & E1 & E2 & E3)]; auto.
      + intros i xi ei Hi Hxi. specialize (H (S i) xi ei ltac:(cbn; lia) Hxi). rewrite Nat.add_succ_r in H. exact H.
      + now rewrite upd_length.
      + right. exists (S r), x', e'. replace (k + S r)%nat with (S k + r)%nat by lia. split; [cbn; lia|]. split; auto. split; auto.
        cbn [firstn fwd]. rewrite E. cbn [obind fst snd]. exact E2.
    - right. exists 0%nat, x, e. rewrite Nat.add_0_r. split; [cbn; lia|]. split; auto.
  Qed.

  Lemma init_ok n (A : smat R) (D : vec R) : mat_wf n n A -> diag_stored n A -> length D = n ->
    exists D0, dilu_init A D = Ok D0 /\ length D0 = n /\ forall i, i < n -> vget D0 i = den A i i.
  Proof.
    intros HW HD HL. unfold dilu_init. set (f := fun (i : nat) (row : srow R) (_ : vec R) (_ : unit) => _). pose proof (proj1 HW) as LA.
    assert (ROW : forall i x e, i < n -> f i (nth i A nil) x e = Ok (den A i i, tt)).
    { intros i x e Hi. destruct (wf_split n n A i HW (HD i Hi)) as (lo & hi & E & H1 & _). unfold f. rewrite E, row_find_split by auto. reflexivity. }
    assert (HT : exists x' e', fwd f 0 A D tt = Ok (x', e')).
    { apply fwd_total; [lia|]. intros i xi ei Hi _. cbn [Nat.add]. rewrite ROW by lia. eauto. }
    destruct HT as (D0 & e' & E'). rewrite E'. cbn [obind fst]. exists D0. split; auto.
    destruct (fwd_spec r0 f A 0 D tt D0 e' E' ltac:(lia)) as (L' & _ & HS). split; [congruence|]. intros i Hi.
    destruct (HS i ltac:(lia)) as (xi & ei & ei' & A1 & A2 & A3 & _). cbn [Nat.add] in A2. rewrite ROW in A2 by auto. injection A2 as A2 _. symmetry. exact A2.
  Qed.

  Lemma find_den (row : srow R) m i acc x : row_wf m row ->
    (match row_find row i with Some b => acc - x * b | None => acc end) = acc - x * denrow row i.
  Proof.
    intros _. induction row as [|[k b] t IH]; cbn [row_find denrow].
    - ncring.
    - destruct (k =? i); auto.
  Qed.
  Lemma loop_lo n (A : smat R) (D : vec R) i : mat_wf n n A -> forall lo a hi acc, Forall (fun e => fst e < i) lo ->
    dilu_loop A D i (lo ++ (i, a) :: hi) acc = Ok (acc - lsum (map (fun e => snd e * vget D (fst e) * den A (fst e) i) lo)).
  Proof.
    intros HW. induction lo as [|[j b] t IH]; intros a hi acc H; cbn [app dilu_loop].
    - rewrite Nat.ltb_irrefl. f_equal. cbn. ncring.
    - inversion H; subst. cbn in H2. destruct (Nat.ltb_spec j i); [|lia]. rewrite (find_den _ n) by (eapply mat_wf_row; eauto). rewrite IH by auto.
      f_equal. cbn [map lsum fold_right fst snd]. unfold den. cbn. ncring.
  Qed.
  Lemma loop_ok n (A : smat R) (D : vec R) i acc : mat_wf n n A -> instored A i i -> i < n ->
    dilu_loop A D i (nth i A nil) acc = Ok (acc - sum i (fun j => den A i j * vget D j * den A j i)).
  Proof.
    intros HW HS Hi. destruct (wf_split n n A i HW HS) as (lo & hi & E & H1 & H2 & _). rewrite E, (loop_lo n) by auto. do 2 f_equal.
    destruct (split_den n _ lo hi i _ (mat_wf_row n n A i HW) E H1 H2) as (W1 & _ & _ & D1 & _).
    rewrite (lsum_row (fun j a => a * vget D j * den A j i) n lo) by (first [apply W1|eapply row_wf_NoDup; apply W1|intros; ncring]).
    rewrite <- (sum_ind_lt n i) by lia. apply sum_ext. intros j Hj. rewrite D1. unfold ind, den. destruct (j <? i); auto. ncring.
  Qed.

  Section Rows.
    Variables (n : nat) (A : smat R).
    Hypothesis HW : mat_wf n n A.
    Hypothesis HD : diag_stored n A.
    Lemma body_eq i x e : i < n -> dilu_body A i (nth i A nil) x e =
      match inv (vget x i - sum i (fun j => den A i j * vget x j * den A j i)) with Some u => Ok (u, tt) | None => Throw (EBlock i) end.
    Proof. intros Hi. unfold dilu_body. rewrite (loop_ok n) by auto. reflexivity. Qed.
    Lemma rows_pivots r D0 D' e' : r <= n -> length D0 = n -> (forall i, i < n -> vget D0 i = den A i i) ->
      fwd (dilu_body A) 0 (firstn r A) D0 tt = Ok (D', e') ->
      length D' = n /\ (forall i, i < r -> inv (dilu_pivot A D' i) = Some (vget D' i)) /\ forall i, r <= i -> i < n -> vget D' i = den A i i.
    Proof.
      intros Hr L0 H0 E. assert (LR : length (firstn r A) = r) by (rewrite firstn_length, (proj1 HW); lia).
      destruct (fwd_spec r0 _ _ _ _ _ _ _ E ltac:(rewrite LR; lia)) as (L' & HO & HS). split; [congruence|]. split.
      - intros i Hi. destruct (HS i ltac:(lia)) as (xi & ei & ei' & A1 & A2 & A3 & A4). cbn [Nat.add] in *. rewrite nth_firstn_lt in A2 by auto.
        rewrite body_eq in A2 by lia. unfold dilu_pivot.
        replace (den A i i) with (vget xi i) by (unfold vget; rewrite A4 by lia; apply H0; lia).
        rewrite (sum_ext i _ (fun j => den A i j * vget xi j * den A j i)) by (intros j Hj; unfold vget; now rewrite A3 by lia).
        destruct (inv _); [|discriminate]. injection A2 as A2 _. unfold vget. now rewrite <- A2.
      - intros i H1 H2. unfold vget. rewrite HO by lia. apply H0. auto.
    Qed.
  End Rows.

  Lemma dilu_outcome n (A : smat R) (D : vec R) : mat_wf n n A -> diag_stored n A -> length D = n ->
    (exists Dinv, blockDILUDecomposition A D = Ok Dinv /\ length Dinv = n /\ forall i, i < n -> inv (dilu_pivot A Dinv i) = Some (vget Dinv i)) \/
    (exists r Dinv, r < n /\ blockDILUDecomposition A D = Throw (EBlock r) /\
       (forall i, i < r -> inv (dilu_pivot A Dinv i) = Some (vget Dinv i)) /\ inv (dilu_pivot A Dinv r) = None).
  Proof.
    intros HW HD HL. unfold blockDILUDecomposition. destruct (init_ok n A D HW HD HL) as (D0 & E0 & L0 & H0). rewrite E0. cbn [obind]. pose proof (proj1 HW) as LA.
    destruct (fwd_out (dilu_body A) n A 0 D0 tt) as [([D' e'] & E)|(r & D' & e' & Hr & E1 & E2 & E3)]; auto.
    - intros i x e Hi Hx. cbn [Nat.add]. rewrite (body_eq n) by (auto; lia). destruct (inv _); eauto.
    - left. rewrite E. cbn [obind fst]. exists D'. split; auto. assert (EA : fwd (dilu_body A) 0 (firstn n A) D0 tt = Ok (D', e')) by (rewrite firstn_all2 by lia; exact E).
      destruct (rows_pivots n A HW HD n D0 D' e' ltac:(lia) L0 H0 EA) as (Q1 & Q2 & _). auto.
    - right. rewrite LA in Hr. exists r, D'. rewrite E1. cbn [obind Nat.add]. split; auto. split; auto.
      destruct (rows_pivots n A HW HD r D0 D' e' ltac:(lia) L0 H0 E2) as (Q1 & Q2 & Q3). split; auto.
      cbn [Nat.add] in E3. rewrite (body_eq n) in E3 by auto. unfold dilu_pivot. rewrite <- Q3 by lia. destruct (inv _); [discriminate|auto].
  Qed.

  Hypothesis inv_ok : forall a b, inv a = Some b -> inverse_of a b.

  Lemma sum_ind_eq n i (f : nat -> R) : i < n -> sum n (fun k => ind (k =? i) (f k)) = f i.
  Proof.
    intros Hi. rewrite (sum_single n i) by (first [assumption|intros x _ Hx; unfold ind; destruct (Nat.eqb_spec x i); [congruence|auto]]).
    rewrite Nat.eqb_refl. reflexivity.
  Qed.

  Theorem C18_dilu n (A : smat R) (D : vec R) : mat_wf n n A -> diag_stored n A -> length D = n ->
    (exists Dinv Dg, blockDILUDecomposition A D = Ok Dinv /\ length Dinv = n /\ inverses n Dg Dinv /\
       forall i, i < n -> dilu_matrix n A Dg Dinv i i = den A i i) \/
    (exists r Dinv, r < n /\ blockDILUDecomposition A D = Throw (EBlock r) /\
       (forall i, i < r -> inv (dilu_pivot A Dinv i) = Some (vget Dinv i)) /\ inv (dilu_pivot A Dinv r) = None).
  Proof.
    intros HW HD HL. destruct (dilu_outcome n A D HW HD HL) as [(Dinv & E & L & H)|H]; [left|right; auto].
    exists Dinv, (dilu_pivot A Dinv). split; auto. split; auto.
    assert (HI : inverses n (dilu_pivot A Dinv) Dinv) by (intros i Hi; apply inv_ok; auto). split; auto.
    intros i Hi. unfold dilu_matrix.
    rewrite (sum_ext n _ (fun k => ind (k =? i) (dilu_pivot A Dinv k) + ind (k <? i) (den A i k * vget Dinv k * den A k i))).
    - rewrite sum_add, sum_ind_eq, sum_ind_lt by lia. unfold dilu_pivot. ncring.
    - intros k Hk. unfold Lp, Up, ind. destruct (Nat.eqb_spec k i) as [->|Hn].
      + rewrite Nat.eqb_refl, !Nat.ltb_irrefl. rewrite !radd_0_r. rewrite (proj1 (HI i Hi)). ncring.
      + destruct (Nat.eqb_spec i k); [lia|]. destruct (Nat.ltb_spec k i); ncring.
  Qed.

  Lemma umv_sum m (row : srow R) (v : vec R) r : row_wf m row ->
    minus_all r0 blk_umv (rev row) v r = r + sum m (fun j => denrow row j * vget v j).
  Proof.
    intros H. unfold minus_all, blk_umv. rewrite (fold_left_add (fun e => snd e * nth (fst e) v r0)). f_equal.
    rewrite <- (lsum_row (fun j a => a * vget v j) m row) by (first [apply H|eapply row_wf_NoDup; apply H|intros; ncring]).
    apply lsum_perm. apply Permutation.Permutation_map. apply Permutation.Permutation_sym, Permutation.Permutation_rev.
  Qed.

  Theorem C18_backsolve n (A : smat R) (Dg : nat -> R) (Dinv v d : vec R) : mat_wf n n A -> diag_stored n A -> inverses n Dg Dinv ->
    length v = n -> length d = n ->
    exists v', blockDILUBacksolve A Dinv v d = Ok v' /\ length v' = n /\ solves n (dilu_matrix n A Dg Dinv) (vget v') (vget d).
  Proof.
    intros HW HD HI Hv Hd. unfold blockDILUBacksolve. pose proof (proj1 HW) as LA.
    assert (HT : exists x' e', fwd (dilu_low Dinv d) 0 A v tt = Ok (x', e')).
    { apply fwd_total; [lia|]. intros i xi ei Hi _. cbn [Nat.add]. unfold dilu_low. destruct (wf_split n n A i HW (HD i ltac:(lia))) as (lo & hi & E & H1 & _).
      rewrite E, lower_loop_split by auto. eauto. }
    destruct HT as (y & e & E). rewrite E. cbn [obind fst]. destruct (fwd_spec r0 _ A 0 v tt y e E ltac:(lia)) as (Ly & _ & HS).
    assert (HY : forall i, i < n -> vget y i = vget Dinv i * (vget d i - sum n (fun j => Lp A i j * vget y j))).
    { intros i Hi. destruct (HS i ltac:(lia)) as (xi & ei & ei' & A1 & A2 & A3 & _). cbn [Nat.add] in *. unfold dilu_low in A2.
      destruct (wf_split n n A i HW (HD i Hi)) as (lo & hi & E1 & H1 & H2 & S1 & _).
      rewrite E1, lower_loop_split in A2 by auto. rewrite (lo_ext i lo xi y) in A2 by auto. rewrite S1 in A2. injection A2 as A2 _. symmetry. exact A2. }
    assert (HT : exists x' e', bwd (dilu_up Dinv) 0 A y tt = Ok (x', e')).
    { apply (bwd_total r0); [lia|]. intros i xi ei Hi _. cbn [Nat.add]. unfold dilu_up. destruct (wf_split n n A i HW (HD i ltac:(lia))) as (lo & hi & E1 & H1 & H2 & _).
      rewrite E1, upper_loop_split by auto. eauto. }
    destruct HT as (x & e2 & E2). rewrite E2. cbn [obind fst]. exists x. split; auto. destruct (bwd_spec r0 _ A 0 y tt x e2 E2 ltac:(lia)) as (Lx & _ & HS2).
    assert (HX : forall i, i < n -> vget x i = vget y i - vget Dinv i * sum n (fun j => Up A i j * vget x j)).
    { intros i Hi. destruct (HS2 i ltac:(lia)) as (xi & ei & ei' & A1 & A2 & A3 & A4). cbn [Nat.add] in *. unfold dilu_up in A2.
      destruct (wf_split n n A i HW (HD i Hi)) as (lo & hi & E1 & H1 & H2 & _).
      rewrite E1, upper_loop_split in A2 by auto.
      destruct (split_den n _ lo hi i _ (mat_wf_row n n A i HW) E1 H1 H2) as (_ & W2 & _ & _ & D2).
      rewrite (umv_sum n) in A2 by auto. injection A2 as A2 _. unfold vget at 1. rewrite <- A2. unfold vget at 1. rewrite A3 by lia.
      unfold vget at 1. f_equal. f_equal. rewrite radd_0_l. apply sum_ext. intros j Hj. rewrite D2. unfold Up, den. destruct (Nat.ltb_spec i j); [|ncring].
      unfold vget. now rewrite A4 by auto. }
    split; [congruence|]. intros i Hi. unfold dense_mv, dilu_matrix.
    (* D^-1 (D + U) x = y *)
    assert (HU : forall k, k < n -> sum n (fun j => vget Dinv k * (ind (j =? k) (Dg k) + Up A k j) * vget x j) = vget y k).
    { intros k Hk. rewrite (sum_ext n _ (fun j => ind (j =? k) (vget x j) + vget Dinv k * (Up A k j * vget x j))).
      - rewrite sum_add, sum_ind_eq, sum_mul_l by auto. rewrite (HX k Hk) at 1. ncring.
      - intros j Hj. unfold ind. destruct (Nat.eqb_spec j k) as [->|].
        + transitivity (vget Dinv k * Dg k * vget x k + vget Dinv k * (Up A k k * vget x k)); [ncring|]. rewrite (proj2 (HI k Hk)). ncring.
        + ncring. }
    transitivity (sum n (fun k => (ind (k =? i) (Dg i) + Lp A i k) * vget y k)).
    { rewrite (sum_ext n (fun j => _ * vget x j) (fun j => sum n (fun k => (ind (k =? i) (Dg i) + Lp A i k) * (vget Dinv k * (ind (j =? k) (Dg k) + Up A k j) * vget x j)))).
      - rewrite sum_swap. apply sum_ext. intros k Hk. rewrite sum_mul_l, HU by auto. reflexivity.
      - intros j Hj. rewrite <- sum_mul_r. apply sum_ext. intros k Hk. ncring. }
    rewrite (sum_ext n _ (fun k => ind (k =? i) (Dg i * vget y k) + Lp A i k * vget y k)).
    - rewrite sum_add, sum_ind_eq by auto. rewrite (HY i Hi) at 1. rewrite rmul_assoc, (proj1 (HI i Hi)). ncring.
    - intros k Hk. unfold ind. destruct (k =? i); ncring.
  Qed.
End Dilu.

Example C18_nonvacuous : mat_wf 2 2 exG /\ diag_stored 2 exG /\ match blockDILUDecomposition (R := M2ring Qcring) M2Qinv exG [r0; r0] with Ok _ => True | _ => False end.
Proof. split; [apply C13_nonvacuous|]. split; [apply C13_nonvacuous|]. vm_compute. exact I. Qed.
Example C18_backsolve_nonvacuous : inverses (R := Qcring) 2 (fun _ => q 1) [q 1; q 1].
Proof. intros [|[|i]] Hi; try lia; split; vm_compute; reflexivity. Qed.
Example C18_singular : blockDILUDecomposition (R := Qcring) Qcinv_opt [[(0, q 1); (1, q 2)]; [(0, q 2); (1, q 4)]] [q 0; q 0] = Throw (EBlock 1).
Proof. vm_compute. reflexivity. Qed.
Print Assumptions C18_dilu.
Print Assumptions C18_backsolve.
