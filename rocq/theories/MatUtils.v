(** * Dimension queries (dune/istl/matrixutils.hh), C25 *)
From Coq Require Import Arith ZArith List Lia Bool.
From Verif Require Import Ring Sums Outcome MatMat MatrixMarket.
Import ListNotations.
Open Scope nat_scope.

(** Block type of a sparse matrix: a number, FieldMatrix<K,n,m>, or again a sparse matrix. *)
Inductive btype := TNum | TField (n m : nat) | TCrs (b : btype).
(** Values: a number, a FieldMatrix, or a BCRSMatrix with M columns of blocks of type bt (rows as seen through its iterators). *)
Inductive bm := Num | Field (n m : nat) | Crs (bt : btype) (M : nat) (rows : list (list (nat * bm))).

Section BmInd.
  Variable P : bm -> Prop.
  Hypothesis HN : P Num.
  Hypothesis HF : forall n m, P (Field n m).
  Hypothesis HC : forall bt M rows, Forall (fun row => Forall (fun e => P (snd e)) row) rows -> P (Crs bt M rows).
  Fixpoint bm_rect' (b : bm) : P b :=
    match b with
    | Num => HN
    | Field n m => HF n m
    | Crs bt M rows => HC bt M rows
        ((fix go rows : Forall (fun row => Forall (fun e => P (snd e)) row) rows :=
            match rows with
            | nil => Forall_nil _
            | row :: t => Forall_cons _ ((fix go' row : Forall (fun e => P (snd e)) row :=
                match row with nil => Forall_nil _ | e :: t' => Forall_cons _ (bm_rect' (snd e)) (go' t') end) row) (go t)
            end) rows)
    end.
End BmInd.

(** ** Model *)
(** countNonZeros, matrixutils.hh:114-132 *)
Fixpoint countNonZeros (b : bm) : nat :=
  match b with
  | Num => 1
  | Field n m => n * m
  | Crs _ _ rows => list_sum (map (fun row => list_sum (map (fun e => countNonZeros (snd e)) row)) rows)
  end.
(** MatrixDimension::rowdim(A), matrixutils.hh:213-216 (numbers), :362-365 (FieldMatrix), :338-340 (BCRS of FieldMatrix), and
    :264-272, 294-299 (BCRS in general: the first block of each row, 0 for an empty row) *)
Fixpoint rowdim (b : bm) : nat :=
  match b with
  | Num => 1
  | Field n _ => n
  | Crs (TField n _) _ rows => length rows * n
  | Crs _ _ rows => list_sum (map (fun row => match row with nil => 0 | e :: _ => rowdim (snd e) end) rows)
  end.
(** rowdim(A,i) of a BCRSMatrix, matrixutils.hh:264-272, 328-331 *)
Definition rowdim_at (b : bm) (i : nat) : nat :=
  match b with
  | Crs (TField n _) _ _ => n
  | Crs _ _ rows => match nth i rows nil with nil => 0 | e :: _ => rowdim (snd e) end
  | _ => 1
  end.
(** size_type is a 64 bit word *)
Definition W : Z := 18446744073709551616%Z.
Definition size_max : Z := (W - 1)%Z.
(** MatrixDimension::coldim(A), matrixutils.hh:217-220, 366-369, 341-343, and :301-325 for BCRSMatrix in general: [coldims] starts
    with SIZE_MAX, is filled by the first block found, and everything ">= 0" is added up. *)
Fixpoint coldim (b : bm) : Z :=
  match b with
  | Num => 1%Z
  | Field _ m => Z.of_nat m
  | Crs (TField _ m) M _ => (Z.of_nat M * Z.of_nat m mod W)%Z
  | Crs _ M rows =>
      let coldims := fold_left (fun cd row => fold_left (fun cd p => if Z.eqb (nth (fst p) cd 0%Z) size_max then upd cd (fst p) (snd p) else cd) row cd)
                       (map (fun row => map (fun e => (fst e, coldim (snd e))) row) rows) (repeat size_max M) in
      fold_left (fun s c => if (0 <=? c)%Z then ((s + c) mod W)%Z else s) coldims 0%Z
  end.
(** coldim(A,c), matrixutils.hh:274-298: first block stored in column c (in storage = row order), otherwise 0 *)
Definition coldim_at (b : bm) (c : nat) : Z :=
  match b with
  | Crs (TField _ m) _ _ => Z.of_nat m
  | Crs _ _ rows => match find (fun e => fst e =? c) (concat rows) with Some e => coldim (snd e) | None => 0%Z end
  | _ => 1%Z
  end.
(** CheckIfDiagonalPresent<Matrix,k>::check, matrixutils.hh:46-85; [chk] = DUNE_ISTL_WITH_CHECKING.  A number is viewed as 1x1
    and passes at every level. *)
Fixpoint check_diag (chk : bool) (k : nat) (b : bm) {struct k} : outcome unit :=
  match k with
  | O => match b with
         | Num => Ok tt
         | Field n m => if n <=? m then Ok tt else Throw EISTL
         | Crs _ _ rows => (fix go i rows := match rows with
                             | nil => Ok tt
                             | row :: t => match find (fun e => fst e =? i) row with None => Throw EISTL | Some _ => go (S i) t end
                             end) 0 rows
         end
  | S k' => if chk then
              match b with
              | Num => Ok tt
              | Field n m => if n <=? m then Ok tt else Throw EISTL
              | Crs _ _ rows => (fix go i rows := match rows with
                                 | nil => Ok tt
                                 | row :: t => match find (fun e => fst e =? i) row with
                                               | None => Throw EISTL
                                               | Some e => obind (check_diag chk k' (snd e)) (fun _ => go (S i) t)
                                               end
                                 end) 0 rows
              end
            else Ok tt
  end.

(** ** Specification *)
(** The flat matrix behind [b] has h rows and w columns: the blocks of one block row have a common height, those of one block column a
    common width. *)
Inductive flat_dims : bm -> nat -> nat -> Prop :=
| FNum : flat_dims Num 1 1
| FField n m : flat_dims (Field n m) n m
| FCrs bt M rows hs ws : length hs = length rows -> length ws = M ->
    (forall n m, bt = TField n m -> hs = repeat n (length rows) /\ ws = repeat m M) ->
    (forall i j b, i < length rows -> In (j, b) (nth i rows nil) -> j < M /\ flat_dims b (nth i hs 0) (nth j ws 0)) ->
    flat_dims (Crs bt M rows) (list_sum hs) (list_sum ws).
(** Every block row/column holds a block, at every level (not needed where the block size is static). *)
Inductive no_empty_row : bm -> Prop :=
| RNum : no_empty_row Num
| RField n m : no_empty_row (Field n m)
| RStatic n m M rows : no_empty_row (Crs (TField n m) M rows)
| RCrs bt M rows : (forall row, In row rows -> row <> nil /\ forall e, In e row -> no_empty_row (snd e)) -> no_empty_row (Crs bt M rows).
Inductive no_empty_col : bm -> Prop :=
| CNum : no_empty_col Num
| CField n m : no_empty_col (Field n m)
| CStatic n m M rows : no_empty_col (Crs (TField n m) M rows)
| CCrs bt M rows : (forall j, j < M -> exists row, In row rows /\ In j (map fst row)) ->
    (forall row e, In row rows -> In e row -> no_empty_col (snd e)) -> no_empty_col (Crs bt M rows).
(** Multi-indices of the stored scalars. *)
Inductive scalar_at : bm -> list (nat * nat) -> Prop :=
| SNum : scalar_at Num nil
| SField n m i j : i < n -> j < m -> scalar_at (Field n m) [(i, j)]
| SCrs bt M rows i j b p : i < length rows -> In (j, b) (nth i rows nil) -> scalar_at b p -> scalar_at (Crs bt M rows) ((i, j) :: p).
(** columns of a row are distinct, at every level *)
Inductive distinct_cols : bm -> Prop :=
| DNum : distinct_cols Num
| DField n m : distinct_cols (Field n m)
| DCrs bt M rows : (forall row, In row rows -> NoDup (map fst row) /\ forall e, In e row -> distinct_cols (snd e)) -> distinct_cols (Crs bt M rows).
(** stored diagonal on k+1 levels *)
Fixpoint has_diag (k : nat) (b : bm) : Prop :=
  match b with
  | Num => True
  | Field n m => n <= m
  | Crs _ _ rows => forall i, i < length rows -> exists c, In (i, c) (nth i rows nil) /\ match k with O => True | S k' => has_diag k' c end
  end.

(** ** Proofs *)
Fixpoint paths (b : bm) : list (list (nat * nat)) :=
  match b with
  | Num => [nil]
  | Field n m => flat_map (fun i => map (fun j => [(i, j)]) (seq 0 m)) (seq 0 n)
  | Crs _ _ rows => flat_map (fun r => map (fun p => (fst r, fst p) :: snd p) (snd r))
      (combine (seq 0 (length rows)) (map (fun row => flat_map (fun e => map (fun p => (fst e, p)) (paths (snd e))) row) rows))
  end.
Lemma flat_map_length_sum {X Y} (f : X -> list Y) l : length (flat_map f l) = list_sum (map (fun x => length (f x)) l).
Proof. rewrite flat_map_concat_map, length_concat_sum, map_map. reflexivity. Qed.
Lemma combine_seq_map {X Y} (f : X -> Y) (l : list X) : combine (seq 0 (length l)) (map f l) = map (fun p => (fst p, f (snd p))) (combine (seq 0 (length l)) l).
Proof. generalize 0 at 1 2. induction l as [|x l IH]; intros k; cbn; auto. rewrite IH. reflexivity. Qed.

(** countNonZeros is the number of stored scalars. *)
Theorem C25_countNonZeros b : distinct_cols b ->
  exists l, NoDup l /\ (forall p, In p l <-> scalar_at b p) /\ countNonZeros b = length l.
Proof.
  intros HD. exists (paths b). induction b as [|n m|bt M rows IH] using bm_rect'.
  - split; [repeat constructor; auto|]. split; [|reflexivity]. intros p. cbn. split; [intros [<-|[]]; constructor|]. intros H; inversion H; auto.
  - split; [|split].
    + cbn [paths]. apply NoDup_flat_map; [apply seq_NoDup| |].
      * intros i _. apply NoDup_map_in; [|apply seq_NoDup]. intros j j' _ _ E. injection E; auto.
      * intros i i' p _ _ H1 H2. apply in_map_iff in H1, H2. destruct H1 as [j [<- _]], H2 as [j' [E _]]. injection E; auto.
    + intros p. cbn [paths]. rewrite in_flat_map. split.
      * intros [i [H1 H2]]. apply in_map_iff in H2. destruct H2 as [j [<- H2]]. apply in_seq in H1, H2. constructor; lia.
      * intros H. inversion H; subst. exists i. split; [apply in_seq; lia|]. apply in_map_iff. exists j. split; auto. apply in_seq; lia.
    + cbn [paths countNonZeros]. rewrite flat_map_length_sum. erewrite map_ext with (g := fun _ => m) by (intros; rewrite map_length, seq_length; auto).
      rewrite map_const_sum, seq_length. reflexivity.
  - assert (HR : forall row e, In row rows -> In e row -> NoDup (map fst row) /\ NoDup (paths (snd e)) /\ (forall p, In p (paths (snd e)) <-> scalar_at (snd e) p) /\ countNonZeros (snd e) = length (paths (snd e))).
    { inversion HD as [| |bt' M' rows' HD' E]; subst. intros row e H1 H2. destruct (HD' row H1) as [K1 K2]. split; auto.
      rewrite Forall_forall in IH. specialize (IH row H1). rewrite Forall_forall in IH. apply (IH e H2). apply K2; auto. }
    cbn [paths]. rewrite combine_seq_map. rewrite flat_map_concat_map, map_map, <- flat_map_concat_map. cbn [fst snd].
    assert (HC : forall i row, In (i, row) (combine (seq 0 (length rows)) rows) -> i < length rows /\ row = nth i rows nil /\ In row rows).
    { intros i row H. apply (in_combine_seq rows nil) in H. destruct H as [H ->]. split; auto. split; auto. apply nth_In; auto. }
    split; [|split].
    + apply NoDup_flat_map; [apply NoDup_combine_seq| |].
      * intros [i row] H. destruct (HC i row H) as [_ [_ HI]]. cbn [fst snd]. apply NoDup_map_in; [intros [j p] [j' p'] _ _ E; cbn in E; injection E as -> ->; auto|].
        destruct row as [|e0 row0] eqn:ER; [constructor|]. rewrite <- ER in *.
        assert (HN : NoDup (map fst row)) by (apply (HR row e0); auto; rewrite ER; left; auto).
        apply NoDup_flat_map; [apply (NoDup_map_inv fst); auto| |].
        -- intros e He. apply NoDup_map_in; [intros a b _ _ E; injection E; auto|]. apply (HR row e); auto.
        -- intros [j b] [j' b'] [k p] H1 H2 H3 H4. apply in_map_iff in H3, H4. cbn [fst snd] in *. destruct H3 as [q [E1 _]], H4 as [q' [E2 _]].
           injection E1 as <- <-. injection E2 as -> _. f_equal. pose proof (in_assoc j row b HN H1). pose proof (in_assoc j row b' HN H2). congruence.
      * intros [i row] [i' row'] p H1 H2 H3 H4. apply HC in H1, H2. destruct H1 as [_ [-> _]], H2 as [_ [-> _]]. cbn [fst snd] in *.
        apply in_map_iff in H3, H4. destruct H3 as [[j q] [<- _]], H4 as [[j' q'] [E _]]. cbn in E. injection E as -> _ _. auto.
    + intros p. rewrite in_flat_map. split.
      * intros [[i row] [H1 H2]]. apply HC in H1. destruct H1 as [Hi [-> HI]]. cbn [fst snd] in H2. apply in_map_iff in H2. destruct H2 as [[j q] [<- H2]].
        apply in_flat_map in H2. destruct H2 as [[j' b] [H3 H4]]. cbn [fst snd] in H4. apply in_map_iff in H4. destruct H4 as [q' [E H4]]. injection E as -> ->.
        cbn [fst snd]. apply (SCrs bt M rows i j b q); auto. apply (HR _ (j, b) HI H3). auto.
      * intros H. inversion H as [| |bt' M' rows' i j b q Hi HI HS]; subst. exists (i, nth i rows nil). split; [apply (in_combine_seq rows nil); auto|].
        cbn [fst snd]. apply in_map_iff. exists (j, q). split; auto. apply in_flat_map. exists (j, b). split; auto. cbn [fst snd]. apply in_map_iff.
        exists q. split; auto. apply (HR (nth i rows nil) (j, b)); auto. apply nth_In; auto.
    + rewrite flat_map_length_sum. cbn [countNonZeros].
      assert (EQ : map (fun row => list_sum (map (fun e => countNonZeros (snd e)) row)) rows =
                   map (fun row => list_sum (map (fun e => length (paths (snd e))) row)) rows).
      { apply map_ext_in. intros row Hrow. f_equal. apply map_ext_in. intros e He. apply (HR row e); auto. }
      rewrite EQ. clear. generalize 0. induction rows as [|row rows IH]; intros k; [reflexivity|]. cbn [length seq combine map fst snd].
      change (list_sum (?a :: ?l)) with (a + list_sum l) at 1.
      match goal with |- _ = list_sum (?a :: ?l) => change (list_sum (a :: l)) with (a + list_sum l) end. rewrite <- IH. f_equal.
      rewrite map_length, flat_map_length_sum. f_equal. apply map_ext. intros e. rewrite map_length. reflexivity.
Qed.

Lemma list_sum_ext (l : list nat) n f : length l = n -> (forall i, i < n -> nth i l 0 = f i) -> list_sum l = list_sum (map f (seq 0 n)).
Proof.
  intros H1 H2. f_equal. apply (list_ext _ _ 0); [rewrite map_length, seq_length; auto|]. intros i Hi. rewrite H2 by lia.
  rewrite (nth_map_d _ _ _ 0) by (rewrite seq_length; lia). rewrite seq_nth by lia. reflexivity.
Qed.
Lemma list_sum_repeat n k : list_sum (repeat n k) = k * n.
Proof. induction k; auto. cbn [repeat]. change (list_sum (n :: repeat n k)) with (n + list_sum (repeat n k)). rewrite IHk. cbn. lia. Qed.

(** rowdim is the number of scalar rows. *)
Theorem C25_rowdim b h w : flat_dims b h w -> no_empty_row b -> rowdim b = h.
Proof.
  revert h w. induction b as [|n m|bt M rows IH] using bm_rect'; intros h w HF HE.
  - inversion HF; reflexivity.
  - inversion HF; reflexivity.
  - inversion HF as [| |bt' M' rows' hs ws L1 L2 HS HB]; subst. 
    assert (G : (forall row, In row rows -> row <> nil /\ forall e, In e row -> no_empty_row (snd e)) ->
       list_sum (map (fun row => match row with nil => 0 | e :: _ => rowdim (snd e) end) rows) = list_sum hs).
    { intros HE'. f_equal. apply (list_ext _ _ 0); [rewrite map_length; auto|]. rewrite map_length. intros i Hi. rewrite (nth_map_d _ _ _ nil) by auto.
      assert (HI : In (nth i rows nil) rows) by (apply nth_In; auto). destruct (HE' _ HI) as [K1 K2].
      destruct (nth i rows nil) as [|[j b] t] eqn:ER; [contradiction|]. destruct (HB i j b Hi) as [_ HB']; [rewrite ER; left; auto|].
      rewrite Forall_forall in IH. specialize (IH _ HI). rewrite Forall_forall in IH. cbn [snd].
      apply (IH (j, b) (or_introl eq_refl) _ _ HB'). apply (K2 (j, b)). left; auto. }
    destruct bt as [|n m|bt].
    + cbn [rowdim]. apply G. inversion HE; subst; auto.
    + cbn [rowdim]. destruct (HS n m eq_refl) as [-> _]. rewrite list_sum_repeat. reflexivity.
    + cbn [rowdim]. apply G. inversion HE; subst; auto.
Qed.

Section Coldim.
  Variables (M : nat) (wz : nat -> Z).
  Hypothesis Hw : forall j, j < M -> (0 <= wz j < size_max)%Z.
  Let inv (cd : list Z) := length cd = M /\ forall j, j < M -> nth j cd 0%Z = size_max \/ nth j cd 0%Z = wz j.
  Let step (cd : list Z) (p : nat * Z) := if Z.eqb (nth (fst p) cd 0%Z) size_max then upd cd (fst p) (snd p) else cd.
  Lemma step_inv cd p : inv cd -> fst p < M -> snd p = wz (fst p) ->
    inv (step cd p) /\ nth (fst p) (step cd p) 0%Z = wz (fst p) /\ (forall j, j < M -> nth j cd 0%Z = wz j -> nth j (step cd p) 0%Z = wz j).
  Proof.
    intros [L H] Hp Ep. unfold step. destruct (Z.eqb_spec (nth (fst p) cd 0%Z) size_max) as [e|e].
    - split; [split; [rewrite upd_length; auto|]|split].
      + intros j Hj. rewrite nth_upd_lt by lia. destruct (Nat.eqb_spec (fst p) j); [subst; right; congruence|auto].
      + rewrite nth_upd_lt by lia. rewrite Nat.eqb_refl. auto.
      + intros j Hj E. rewrite nth_upd_lt by lia. destruct (Nat.eqb_spec (fst p) j); [subst; congruence|auto].
    - split; [split; auto|]. split; auto. destruct (H _ Hp); auto. contradiction.
  Qed.
  Lemma steps_inv l cd : inv cd -> (forall p, In p l -> fst p < M /\ snd p = wz (fst p)) ->
    inv (fold_left step l cd) /\ (forall p, In p l -> nth (fst p) (fold_left step l cd) 0%Z = wz (fst p)) /\
    (forall j, j < M -> nth j cd 0%Z = wz j -> nth j (fold_left step l cd) 0%Z = wz j).
  Proof.
    revert cd. induction l as [|p l IH]; intros cd HI HL; cbn [fold_left].
    - split; auto. split; auto. intros p [].
    - destruct (HL p (or_introl eq_refl)) as [P1 P2]. destruct (step_inv cd p HI P1 P2) as [S1 [S2 S3]].
      destruct (IH (step cd p) S1) as [A1 [A2 A3]]; [intros q Hq; apply HL; right; auto|]. split; auto. split.
      + intros q [<-|Hq]; auto.
      + intros j Hj E. apply A3; auto.
  Qed.
  Lemma coldims_all (rs : list (list (nat * Z))) : (forall l p, In l rs -> In p l -> fst p < M /\ snd p = wz (fst p)) ->
    (forall j, j < M -> exists l, In l rs /\ In j (map fst l)) ->
    fold_left (fun cd l => fold_left step l cd) rs (repeat size_max M) = map wz (seq 0 M).
  Proof.
    intros HL HC.
    assert (G : forall rs cd, inv cd -> (forall l p, In l rs -> In p l -> fst p < M /\ snd p = wz (fst p)) ->
      inv (fold_left (fun cd l => fold_left step l cd) rs cd) /\
      (forall l p, In l rs -> In p l -> nth (fst p) (fold_left (fun cd l => fold_left step l cd) rs cd) 0%Z = wz (fst p)) /\
      (forall j, j < M -> nth j cd 0%Z = wz j -> nth j (fold_left (fun cd l => fold_left step l cd) rs cd) 0%Z = wz j)).
    { clear HC HL rs. induction rs as [|l rs IH]; intros cd HI HL; cbn [fold_left].
      - split; auto. split; auto. intros l p [].
      - destruct (steps_inv l cd HI) as [S1 [S2 S3]]; [intros p Hp; apply (HL l); auto; left; auto|].
        destruct (IH _ S1) as [A1 [A2 A3]]; [intros l' p H1 H2; apply (HL l'); auto; right; auto|]. split; auto. split.
        + intros l' p [<-|H1] H2; [|apply (A2 l'); auto]. apply A3; auto. apply (HL l p); auto; left; auto.
        + intros j Hj E. apply A3; auto. }
    destruct (G rs (repeat size_max M)) as [[A1 _] [A2 _]]; auto.
    { split; [apply repeat_length|]. intros j Hj. left. rewrite (nth_indep _ 0%Z size_max) by (rewrite repeat_length; auto). apply nth_repeat. }
    apply (list_ext _ _ 0%Z); [rewrite map_length, seq_length; auto|]. rewrite A1. intros j Hj.
    rewrite (nth_map_d _ _ _ 0) by (rewrite seq_length; auto). rewrite seq_nth by auto. cbn [Nat.add].
    destruct (HC j Hj) as [l [H1 H2]]. apply in_map_iff in H2. destruct H2 as [p [<- H2]]. apply (A2 l p); auto.
  Qed.
End Coldim.
Lemma sum_words (l : list nat) s : (Z.of_nat s + Z.of_nat (list_sum l) < W)%Z ->
  fold_left (fun s c => if (0 <=? c)%Z then ((s + c) mod W)%Z else s) (map Z.of_nat l) (Z.of_nat s) = (Z.of_nat s + Z.of_nat (list_sum l))%Z.
Proof.
  revert s. induction l as [|c l IH]; intros s H; cbn [map fold_left]; [cbn; lia|].
  change (list_sum (c :: l)) with (c + list_sum l) in *. replace (0 <=? Z.of_nat c)%Z with true by (symmetry; apply Z.leb_le; lia).
  rewrite Z.mod_small by lia. rewrite <- Nat2Z.inj_add. rewrite IH by lia. lia.
Qed.
Lemma nth_le_sum l i : nth i l 0 <= list_sum l.
Proof.
  revert i. induction l as [|c l IH]; intros i; [destruct i; cbn; lia|]. change (list_sum (c :: l)) with (c + list_sum l). destruct i; cbn [nth]; [lia|]. specialize (IH i). lia.
Qed.
(** coldim is the number of scalar columns (as long as that fits into the index type). *)
Theorem C25_coldim b h w : flat_dims b h w -> no_empty_col b -> (Z.of_nat w < size_max)%Z -> coldim b = Z.of_nat w.
Proof.
  revert h w. induction b as [|n m|bt M rows IH] using bm_rect'; intros h w HF HE HW.
  - inversion HF; reflexivity.
  - inversion HF; reflexivity.
  - inversion HF as [| |bt' M' rows' hs ws L1 L2 HS HB]; subst.
    assert (G : (forall j, j < length ws -> exists row, In row rows /\ In j (map fst row)) -> (forall row e, In row rows -> In e row -> no_empty_col (snd e)) ->
      fold_left (fun s c => if (0 <=? c)%Z then ((s + c) mod W)%Z else s)
       (fold_left (fun cd row => fold_left (fun cd p => if Z.eqb (nth (fst p) cd 0%Z) size_max then upd cd (fst p) (snd p) else cd) row cd)
                       (map (fun row => map (fun e => (fst e, coldim (snd e))) row) rows) (repeat size_max (length ws))) 0%Z = Z.of_nat (list_sum ws)).
    { intros HE1 HE2. pose proof (coldims_all (length ws) (fun j => Z.of_nat (nth j ws 0))) as CA. rewrite CA; clear CA.
      - replace (map (fun j => Z.of_nat (nth j ws 0)) (seq 0 (length ws))) with (map Z.of_nat ws).
        + pose proof (sum_words ws 0) as SW. cbn [Z.of_nat] in SW. rewrite SW; [lia|]. unfold size_max in HW. lia.
        + apply (list_ext _ _ 0%Z); [rewrite !map_length, seq_length; auto|]. rewrite map_length. intros i Hi.
          rewrite (nth_map_d _ _ _ 0) by auto. rewrite (nth_map_d _ _ _ 0) by (rewrite seq_length; auto). rewrite seq_nth by auto. reflexivity.
      - intros j Hj. pose proof (nth_le_sum ws j). lia.
      - intros l p Hl Hp. apply in_map_iff in Hl. destruct Hl as [row [<- Hrow]]. apply in_map_iff in Hp. destruct Hp as [[j b] [<- He]]. cbn [fst snd].
        apply (In_nth _ _ nil) in Hrow as Hrow'. destruct Hrow' as [i [Hi Ei]]. destruct (HB i j b Hi) as [Hj HB']; [rewrite Ei; auto|]. split; auto.
        rewrite Forall_forall in IH. specialize (IH row Hrow). rewrite Forall_forall in IH. apply (IH (j, b) He _ _ HB'); [apply (HE2 row); auto|].
        pose proof (nth_le_sum ws j). lia.
      - intros j Hj. destruct (HE1 j Hj) as [row [H1 H2]]. exists (map (fun e => (fst e, coldim (snd e))) row). split; [apply in_map_iff; exists row; auto|].
        rewrite map_map. cbn [fst]. auto. }
    destruct bt as [|n m|bt].
    + inversion HE; subst. cbn [coldim]. apply G; auto.
    + cbn [coldim]. destruct (HS n m eq_refl) as [_ E]. rewrite E in HW |- *. rewrite repeat_length in *. rewrite list_sum_repeat in *. unfold size_max in HW. rewrite Z.mod_small; lia.
    + inversion HE; subst. cbn [coldim]. apply G; auto.
Qed.
(** Queries for one block row / block column. *)
Theorem C25_rowdim_at bt M rows hs ws i : length hs = length rows -> length ws = M ->
  (forall n m, bt = TField n m -> hs = repeat n (length rows) /\ ws = repeat m M) ->
  (forall i j b, i < length rows -> In (j, b) (nth i rows nil) -> j < M /\ flat_dims b (nth i hs 0) (nth j ws 0)) ->
  i < length rows -> no_empty_row (Crs bt M rows) -> rowdim_at (Crs bt M rows) i = nth i hs 0.
Proof.
  intros L1 L2 HS HB Hi HE.
  assert (G : (forall row, In row rows -> row <> nil /\ forall e, In e row -> no_empty_row (snd e)) ->
       match nth i rows nil with nil => 0 | e :: _ => rowdim (snd e) end = nth i hs 0).
  { intros HE'. assert (HI : In (nth i rows nil) rows) by (apply nth_In; auto). destruct (HE' _ HI) as [K1 K2].
    destruct (nth i rows nil) as [|[j b] t] eqn:ER; [contradiction|]. destruct (HB i j b Hi) as [_ HB']; [rewrite ER; left; auto|].
    apply (C25_rowdim b _ _ HB'). apply (K2 (j, b)). left; auto. }
  destruct bt as [|n m|bt]; cbn [rowdim_at].
  - apply G. inversion HE; subst; auto.
  - destruct (HS n m eq_refl) as [-> _]. rewrite (nth_indep _ 0 n) by (rewrite repeat_length; auto). symmetry; apply nth_repeat.
  - apply G. inversion HE; subst; auto.
Qed.
Theorem C25_coldim_at bt M rows hs ws c : length hs = length rows -> length ws = M ->
  (forall n m, bt = TField n m -> hs = repeat n (length rows) /\ ws = repeat m M) ->
  (forall i j b, i < length rows -> In (j, b) (nth i rows nil) -> j < M /\ flat_dims b (nth i hs 0) (nth j ws 0)) ->
  c < M -> no_empty_col (Crs bt M rows) -> (Z.of_nat (nth c ws 0%nat) < size_max)%Z -> coldim_at (Crs bt M rows) c = Z.of_nat (nth c ws 0).
Proof.
  intros L1 L2 HS HB Hc HE HW.
  assert (G : (forall j, j < M -> exists row, In row rows /\ In j (map fst row)) -> (forall row e, In row rows -> In e row -> no_empty_col (snd e)) ->
     match find (fun e => fst e =? c) (concat rows) with Some e => coldim (snd e) | None => 0%Z end = Z.of_nat (nth c ws 0)).
  { intros H1 H2. destruct (find _ _) as [[j b]|] eqn:EF.
    - apply find_some in EF. destruct EF as [E1 E2]. cbn in E2. apply Nat.eqb_eq in E2. subst j. apply in_concat in E1. destruct E1 as [row [E1 E3]].
      apply (In_nth _ _ nil) in E1 as E1'. destruct E1' as [i [Hi Ei]]. destruct (HB i c b Hi) as [_ HB']; [rewrite Ei; auto|]. cbn [snd].
      apply (C25_coldim b _ _ HB'); auto. apply (H2 row (c, b)); auto.
    - destruct (H1 c Hc) as [row [K1 K2]]. apply in_map_iff in K2. destruct K2 as [e [K2 K3]].
      pose proof (find_none _ _ EF e) as K. cbn in K. rewrite K2, Nat.eqb_refl in K. assert (true = false); [|discriminate]. apply K. apply in_concat. exists row. auto. }
  destruct bt as [|n m|bt]; cbn [coldim_at].
  - inversion HE; subst; auto.
  - destruct (HS n m eq_refl) as [_ ->]. rewrite (nth_indep _ 0 m) by (rewrite repeat_length; auto). rewrite nth_repeat. reflexivity.
  - inversion HE; subst; auto.
Qed.
(** An empty row of a matrix of numbers is not counted ... *)
Theorem C25_empty_row_refuted : exists b, flat_dims b 2 1 /\ rowdim b = 1.
Proof.
  exists (Crs TNum 1 [[(0, Num)]; []]). split; [|reflexivity].
  apply (FCrs TNum 1 [[(0, Num)]; []] [1; 1] [1]); auto; try (intros ? ? ?; discriminate). intros [|[|i]] j b Hi HI; cbn in *; try lia; try contradiction.
  destruct HI as [HI|[]]. injection HI as <- <-. split; [lia|]. constructor.
Qed.
(** ... and every empty column subtracts one (SIZE_MAX is never recognised as "unknown"). *)
Theorem C25_empty_column_refuted : exists b, flat_dims b 1 3 /\ coldim b = (W - 1)%Z.
Proof.
  exists (Crs TNum 3 [[(0, Num)]]). split; [|reflexivity].
  apply (FCrs TNum 3 [[(0, Num)]] [1] [1; 1; 1]); auto; try (intros ? ? ?; discriminate). intros [|i] j b Hi HI; cbn in *; try lia.
  destruct HI as [HI|[]]. injection HI as <- <-. split; [lia|]. constructor.
Qed.

(** CheckIfDiagonalPresent accepts exactly the matrices with a diagonal on the given number of levels. *)
Lemma go_spec {X} (row_ok : X -> outcome unit) (P : X -> Prop) (rows : list (list (nat * X))) :
  (forall row, In row rows -> NoDup (map fst row)) ->
  (forall row e, In row rows -> In e row -> row_ok (snd e) = Ok tt /\ P (snd e) \/ row_ok (snd e) = Throw EISTL /\ ~ P (snd e)) ->
  forall k, let r := (fix go i rows := match rows with
     | nil => Ok tt
     | row :: t => match find (fun e => fst e =? i) row with None => Throw EISTL | Some e => obind (row_ok (snd e)) (fun _ => go (S i) t) end
     end) k rows in
  (r = Ok tt /\ forall i, i < length rows -> exists c, In (k + i, c) (nth i rows nil) /\ P c) \/
  (r = Throw EISTL /\ ~ forall i, i < length rows -> exists c, In (k + i, c) (nth i rows nil) /\ P c).
Proof.
  induction rows as [|row rows IH]; intros HN HR k r.
  - left. split; auto. cbn; lia.
  - subst r. cbn zeta. destruct (find (fun e => fst e =? k) row) as [[k' c]|] eqn:EF.
    + apply find_some in EF. destruct EF as [E1 E2]. cbn in E2. apply Nat.eqb_eq in E2. subst k'. cbn [snd].
      destruct (HR row (k, c) (or_introl eq_refl) E1) as [[R1 R2]|[R1 R2]]; cbn [snd] in *; rewrite R1; cbn [obind].
      * destruct (IH) with (k := S k) as [[A1 A2]|[A1 A2]].
        { intros; apply HN; right; auto. } { intros row' e H1 H2; apply (HR row'); auto; right; auto. }
        -- left. split; auto. intros [|i] Hi; cbn [nth].
           ++ exists c. rewrite Nat.add_0_r. auto.
           ++ cbn in Hi. destruct (A2 i) as [c' Hc']; [lia|]. exists c'. replace (k + S i) with (S k + i) by lia. auto.
        -- right. split; auto. intros H. apply A2. intros i Hi. destruct (H (S i)) as [c' Hc']; [cbn; lia|]. exists c'. cbn [nth] in Hc'.
           replace (S k + i) with (k + S i) by lia. auto.
      * right. split; auto. intros H. destruct (H 0) as [c' [H1 H2]]; [cbn; lia|]. rewrite Nat.add_0_r in H1. cbn [nth] in H1.
        apply R2. assert (c' = c); [|congruence]. pose proof (HN row (or_introl eq_refl)) as K.
        pose proof (in_assoc k row c K E1). pose proof (in_assoc k row c' K H1). congruence.
    + right. split; auto. intros H. destruct (H 0) as [c' [H1 _]]; [cbn; lia|]. rewrite Nat.add_0_r in H1. cbn [nth] in H1.
      pose proof (find_none _ _ EF _ H1) as K. cbn in K. rewrite Nat.eqb_refl in K. discriminate.
Qed.
Lemma go0_spec {X} (rows : list (list (nat * X))) : forall k, let r := (fix go i rows := match rows with
     | nil => Ok tt
     | row :: t => match find (fun e : nat * X => fst e =? i) row with None => Throw EISTL | Some _ => go (S i) t end
     end) k rows in
  (r = Ok tt /\ forall i, i < length rows -> exists c, In (k + i, c) (nth i rows nil) /\ True) \/
  (r = Throw EISTL /\ ~ forall i, i < length rows -> exists c, In (k + i, c) (nth i rows nil) /\ True).
Proof.
  induction rows as [|row rows IH]; intros k r.
  - left. split; auto. cbn; lia.
  - subst r. cbn zeta. destruct (find (fun e => fst e =? k) row) as [[k' c]|] eqn:EF.
    + apply find_some in EF. destruct EF as [E1 E2]. cbn in E2. apply Nat.eqb_eq in E2. subst k'.
      destruct (IH (S k)) as [[A1 A2]|[A1 A2]].
      * left. split; auto. intros [|i] Hi; cbn [nth].
        -- exists c. rewrite Nat.add_0_r. auto.
        -- cbn in Hi. destruct (A2 i) as [c' Hc']; [lia|]. exists c'. replace (k + S i) with (S k + i) by lia. auto.
      * right. split; auto. intros H. apply A2. intros i Hi. destruct (H (S i)) as [c' Hc']; [cbn; lia|]. exists c'. cbn [nth] in Hc'.
        replace (S k + i) with (k + S i) by lia. auto.
    + right. split; auto. intros H. destruct (H 0) as [c' [H1 _]]; [cbn; lia|]. rewrite Nat.add_0_r in H1. cbn [nth] in H1.
      pose proof (find_none _ _ EF _ H1) as K. cbn in K. rewrite Nat.eqb_refl in K. discriminate.
Qed.
Theorem C25_check_diagonal k b : distinct_cols b ->
  (check_diag true k b = Ok tt /\ has_diag k b) \/ (check_diag true k b = Throw EISTL /\ ~ has_diag k b).
Proof.
  revert b. induction k as [|k IH]; intros b HD.
  - destruct b as [|n m|bt M rows]; cbn [check_diag has_diag]; auto.
    + destruct (Nat.leb_spec n m); [left|right]; split; auto; lia.
    + apply (go0_spec rows 0).
  - destruct b as [|n m|bt M rows]; cbn [check_diag has_diag]; auto.
    + destruct (Nat.leb_spec n m); [left|right]; split; auto; lia.
    + inversion HD as [| |bt' M' rows' HD' E]; subst. apply (go_spec (check_diag true k) (has_diag k) rows).
      * intros row H. apply (HD' row H).
      * intros row e H1 H2. apply IH. apply (HD' row H1); auto.
Qed.
(** The check of the outermost level for a deeper request is only compiled in with DUNE_ISTL_WITH_CHECKING. *)
Theorem C25_check_level0 chk b : check_diag chk 0 b = check_diag true 0 b.
Proof. reflexivity. Qed.
Theorem C25_check_unchecked_refuted k : exists b, distinct_cols b /\ ~ has_diag (S k) b /\ check_diag false (S k) b = Ok tt.
Proof.
  exists (Crs TNum 1 [[]]). split; [constructor; intros row [<-|[]]; split; [constructor|intros e []]|]. split; [|reflexivity].
  cbn [has_diag]. intros H. destruct (H 0) as [c [H1 _]]; [cbn; lia|]. destruct H1.
Qed.

(** ** Non-vacuity *)
Definition exB := Crs (TCrs TNum) 2 [[(0, Crs TNum 2 [[(0, Num); (1, Num)]; [(1, Num)]]); (1, Crs TNum 1 [[(0, Num)]; [(0, Num)]])]; [(0, Crs TNum 2 [[(0, Num)]])]].
Ltac in_cases H := cbn [In] in H; repeat (destruct H as [H|H]; [try (injection H as <- <-); try subst|]); try contradiction.
Example C25_ex : flat_dims exB 3 3 /\ no_empty_row exB /\ countNonZeros exB = 6 /\ rowdim exB = 3 /\ coldim exB = 3%Z.
Proof.
  split; [|split; [|repeat split; reflexivity]].
  - apply (FCrs (TCrs TNum) 2 _ [2; 1] [2; 1]); auto; try (intros ? ? ?; discriminate). intros [|[|i]] j b Hi H; cbn in Hi; try lia; cbn [nth] in H; in_cases H; (split; [lia|]); cbn [nth].
    + apply (FCrs TNum 2 _ [1; 1] [1; 1]); auto; try (intros ? ? ?; discriminate). intros [|[|i]] j b Hi' H; cbn in Hi'; try lia; cbn [nth] in H; in_cases H; (split; [lia|constructor]).
    + apply (FCrs TNum 1 _ [1; 1] [1]); auto; try (intros ? ? ?; discriminate). intros [|[|i]] j b Hi' H; cbn in Hi'; try lia; cbn [nth] in H; in_cases H; (split; [lia|constructor]).
    + apply (FCrs TNum 2 _ [1] [1; 1]); auto; try (intros ? ? ?; discriminate). intros [|i] j b Hi' H; cbn in Hi'; try lia; cbn [nth] in H; in_cases H; (split; [lia|constructor]).
  - apply RCrs. intros row H. in_cases H; (split; [discriminate|]); intros e H; in_cases H; cbn [snd]; apply RCrs; intros row H; in_cases H; (split; [discriminate|]); intros e H; in_cases H; constructor.
Qed.
Print Assumptions C25_countNonZeros.
Print Assumptions C25_coldim.
Print Assumptions C25_check_diagonal.
