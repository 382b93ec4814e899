(** * Sparse matrix products (dune/istl/matrixmatrix.hh), C20 *)
From Coq Require Import Arith List Lia Sorted Bool ZArith QArith Qcanon.
From Verif Require Import Ring Sums RingInst Outcome Sparse MatVec GsModel Gs.
Import ListNotations.
Open Scope nat_scope.

Section MatMat.
  Context {R : ring}.
  Local Open Scope ring_scope_istl.
  Variable tr : R -> R.

  (** ** Model *)
  (** std::set<size_t>::insert *)
  Fixpoint set_ins (j : nat) (l : list nat) : list nat :=
    match l with
    | nil => [j]
    | k :: t => if j =? k then l else if j <? k then j :: l else k :: set_ins j t
    end.
  (** The calls func(a, b, i, j) of NonzeroPatternTraverser<0>::traverse (matrixmatrix.hh:46-70) and <1> (:75-99), in order *)
  Definition call := (R * R * nat * nat)%type.
  Definition calls0 (A B : smat R) : list call :=
    flat_map (fun p => flat_map (fun e => map (fun f => (snd e, snd f, fst p, fst f)) (nth (fst e) B nil)) (snd p)) (combine (seq 0 (length A)) A).
  Definition calls1 (A B : smat R) : list call :=
    flat_map (fun p => flat_map (fun e => map (fun f => (snd e, snd f, fst e, fst f)) (nth (fst p) B nil)) (snd p)) (combine (seq 0 (length A)) A).
  (** MatrixInitializer<0>/<1>::operator(), matrixmatrix.hh:226-230: entries[i].insert(j) *)
  Definition collect (rows : nat) (cs : list call) : list (list nat) :=
    fold_left (fun E c => match c with (_, _, i, j) => upd E i (set_ins j (nth i E nil)) end) cs (repeat nil rows).
  (** nonzeros(), matrixmatrix.hh:235-242 *)
  Definition set_nnz (E : list (list nat)) : nat := fold_left (fun s l => (s + length l)%nat) E 0%nat.
  (** setSize(rows,cols,nnz), row-wise creation (matrixmatrix.hh:243-255, 484-495) and res = 0.0 (:501): creating more entries than
      announced throws (C03); nnz = 0 means "not announced". *)
  Definition create (nnz : nat) (E : list (list nat)) : outcome (smat R) :=
    if (0 <? nnz) && (nnz <? set_nnz E) then Throw EBCRS else Ok (map (map (fun j => (j, r0))) E).
  (** res[i][j] += v; accessing an entry that is not stored is UB *)
  Fixpoint row_add (row : srow R) (j : nat) (v : R) : option (srow R) :=
    match row with
    | nil => None
    | (k, a) :: t => if k =? j then Some ((k, a + v) :: t) else match row_add t j v with Some t' => Some ((k, a) :: t') | None => None end
    end.
  (** EntryAccumulator<0>/<1>, matrixmatrix.hh:376-412 *)
  Fixpoint accumulate (g : R -> R -> R) (cs : list call) (res : smat R) : outcome (smat R) :=
    match cs with
    | nil => Ok res
    | (a, b, i, j) :: t => match row_add (nth i res nil) j (g a b) with
                           | Some row => accumulate g t (upd res i row)
                           | None => UB
                           end
    end.
  (** EntryAccumulatorFather's constructor dereferences begin(), matrixmatrix.hh:330-336 *)
  Definition start_accu (res : smat R) : outcome unit := match res with nil => UB | _ => Ok tt end.
  Definition mult01 (rows : nat) (cs : list call) (g : R -> R -> R) : outcome (smat R) :=
    let E := collect rows cs in
    obind (create (set_nnz E) E) (fun res => obind (start_accu res) (fun _ => accumulate g cs res)).
  (** matMultMat / transposeMatMultMat, matrixmatrix.hh:471-500, 574-594; [mA], [mB] are the numbers of columns *)
  Definition matMultMat (A : smat R) (mA : nat) (B : smat R) (mB : nat) : outcome (smat R) :=
    if mA =? length B then mult01 (length A) (calls0 A B) (fun a b => a * b) else Throw EISTL.
  Definition transposeMatMultMat (A : smat R) (mA : nat) (B : smat R) (mB : nat) : outcome (smat R) :=
    if length A =? length B then mult01 mA (calls1 A B) (fun a b => tr a * b) else Throw EISTL.

  (** NonzeroPatternTraverser<2>, matrixmatrix.hh:104-153: the pairs for which func is called for one row of A and one row of B;
      [brk] = F::do_break *)
  Fixpoint drop_lt (c : nat) (l : srow R) : srow R := match l with (k, _) :: t => if k <? c then drop_lt c t else l | nil => nil end.
  Fixpoint match2 (brk : bool) (mrow mt : srow R) : list (R * R) :=
    match mrow with
    | nil => nil
    | (c, a) :: t => let mt' := drop_lt c mt in
                     match mt' with
                     | (k, b) :: _ => if k =? c then (a, b) :: (if brk then nil else match2 brk t mt') else match2 brk t mt'
                     | nil => match2 brk t mt'
                     end
    end.
  (** MatrixInitializer<2>: number of calls, matrixmatrix.hh:188-213 *)
  Definition count2 (A B : smat R) : nat :=
    fold_left (fun s mrow => fold_left (fun s mt => (s + length (match2 true mrow mt))%nat) B s) A 0%nat.
  (** SparsityPatternInitializer, matrixmatrix.hh:157-185: one insert(j) per call *)
  Definition pattern2_row (mrow : srow R) (B : smat R) : list nat :=
    fold_left (fun S p => fold_left (fun S _ => set_ins (fst p) S) (match2 true mrow (snd p)) S) (combine (seq 0 (length B)) B) nil.
  (** EntryAccumulator<2>, matrixmatrix.hh:414-430 with nextCol()/nextRow(): the cursor walks over the created row *)
  Fixpoint accu2_row (mrow : srow R) (B : smat R) (row : srow R) : outcome (srow R) :=
    match B with
    | nil => Ok row
    | mt :: B' => match match2 false mrow mt with
                  | nil => accu2_row mrow B' row
                  | ps => match row with
                          | nil => UB
                          | (j, x) :: row' => obind (accu2_row mrow B' row') (fun r => Ok ((j, fold_left (fun s p => s + fst p * tr (snd p)) ps x) :: r))
                          end
                  end
    end.
  (** the rows of A one after the other, matrixmatrix.hh:104-153 *)
  Fixpoint accu2 (A B : smat R) (res : smat R) : outcome (smat R) :=
    match A, res with
    | mrow :: A', row :: res' => obind (accu2_row mrow B row) (fun r => obind (accu2 A' B res') (fun rs => Ok (r :: rs)))
    | _, _ => Ok res
    end.
  (** matMultTransposeMat, matrixmatrix.hh:471-500, 559-564 *)
  Definition matMultTransposeMat (A : smat R) (mA : nat) (B : smat R) (mB : nat) : outcome (smat R) :=
    if mA =? mB then
      obind (create (count2 A B) (map (fun mrow => pattern2_row mrow B) A)) (fun res => obind (start_accu res) (fun _ => accu2 A B res))
    else Throw EISTL.

  (** ** Proof *)
  Lemma set_ins_in j l x : In x (set_ins j l) <-> x = j \/ In x l.
  Proof.
    induction l as [|k t IH]; cbn; [intuition|]. destruct (Nat.eqb_spec j k) as [->|]; [cbn; intuition|]. destruct (j <? k); cbn; rewrite ?IH; intuition.
  Qed.
  Lemma set_ins_sorted j l : StronglySorted lt l -> StronglySorted lt (set_ins j l).
  Proof.
    induction l as [|k t IH]; intros H; cbn; [repeat constructor|]. apply StronglySorted_inv in H. destruct H as [H1 H2].
    destruct (Nat.eqb_spec j k) as [->|]; [constructor; auto|]. destruct (Nat.ltb_spec j k).
    - repeat constructor; auto. rewrite Forall_forall in *. intros x Hx. specialize (H2 x Hx). lia.
    - constructor; auto. rewrite Forall_forall in *. intros x Hx. apply set_ins_in in Hx. destruct Hx as [->|Hx]; [lia|auto].
  Qed.

  Lemma collect_gen cs : forall E, Forall (StronglySorted lt) E ->
    let E' := fold_left (fun E (c : call) => match c with (_, _, i, j) => upd E i (set_ins j (nth i E nil)) end) cs E in
    length E' = length E /\ Forall (StronglySorted lt) E' /\
    forall i j, In j (nth i E' nil) <-> In j (nth i E nil) \/ (i < length E /\ exists a b, In (a, b, i, j) cs).
  Proof.
    induction cs as [|[[[a b] i0] j0] t IH]; intros E HE; cbn [fold_left].
    - split; auto. split; auto. intros i j. split; auto. intros [H|(_ & ? & ? & [])]; auto.
    - assert (HN : StronglySorted lt (nth i0 E nil)).
      { destruct (Nat.lt_ge_cases i0 (length E)); [rewrite Forall_forall in HE; apply HE, nth_In; auto|rewrite nth_overflow by auto; constructor]. }
      assert (HU : Forall (StronglySorted lt) (upd E i0 (set_ins j0 (nth i0 E nil)))).
      { apply Forall_forall. intros l Hl. apply (In_nth _ _ nil) in Hl. destruct Hl as (k & Hk & <-). rewrite upd_length in Hk. rewrite nth_upd.
        destruct (Nat.eqb_spec i0 k) as [->|]; [|rewrite Forall_forall in HE; apply HE, nth_In; auto].
        destruct (Nat.ltb_spec k (length E)); [|lia]. apply set_ins_sorted; auto. }
      destruct (IH _ HU) as (L & S' & M). rewrite upd_length in L, M. split; auto. split; auto. intros i j. rewrite M, nth_upd.
      destruct (Nat.eqb_spec i0 i) as [->|Hn].
      + destruct (Nat.ltb_spec i (length E)) as [HL|HL].
        * rewrite set_ins_in. split.
          -- intros [[->|H1]|(H1 & a' & b' & H2)]; auto; right; split; auto; [exists a, b; left; auto|exists a', b'; right; auto].
          -- intros [H1|(H1 & a' & b' & [H2|H2])]; auto; [injection H2 as _ _ ->; auto|right; eauto].
        * rewrite (nth_overflow E) by auto. split; intros [Q|(Q & Q2)]; auto; lia.
      + split; [intros [H1|(H1 & a' & b' & H2)]; auto; right; split; auto; exists a', b'; right; auto|].
        intros [H1|(H1 & a' & b' & [H2|H2])]; auto; [injection H2 as _ _ Q _; congruence|right; eauto].
  Qed.
  Lemma collect_spec rows cs : length (collect rows cs) = rows /\ Forall (StronglySorted lt) (collect rows cs) /\
    forall i j, In j (nth i (collect rows cs) nil) <-> i < rows /\ exists a b, In (a, b, i, j) cs.
  Proof.
    destruct (collect_gen cs (repeat nil rows)) as (L & S' & M).
    - apply Forall_forall. intros l Hl. apply repeat_spec in Hl. subst. constructor.
    - rewrite repeat_length in *. split; auto. split; auto. intros i j. unfold collect. rewrite M. split; [|auto].
      intros [H|H]; auto. exfalso. destruct (Nat.lt_ge_cases i rows).
      + rewrite nth_repeat in H. destruct H.
      + rewrite nth_overflow in H by (rewrite repeat_length; auto). destruct H.
  Qed.

  Lemma zeros_nth (E : list (list nat)) i : nth i (map (map (fun j : nat => (j, r0 : R))) E) nil = map (fun j => (j, r0)) (nth i E nil).
  Proof. change (@nil (nat * R)) with (map (fun j : nat => (j, r0 : R)) nil) at 1. apply map_nth. Qed.
  Lemma zeros_fst (l : list nat) : map fst (map (fun j : nat => (j, r0 : R)) l) = l.
  Proof. rewrite map_map. cbn. apply map_id. Qed.
  Lemma zeros_den (l : list nat) j : denrow (map (fun j => (j, r0 : R)) l) j = r0.
  Proof. induction l; cbn; auto. destruct (a =? j); auto. Qed.

  Lemma row_add_spec row j v : In j (map fst row) -> exists row', row_add row j v = Some row' /\ map fst row' = map fst row /\
    forall c, denrow row' c = if j =? c then denrow row c + v else denrow row c.
  Proof.
    induction row as [|[k a] t IH]; intros H; [destruct H|]. cbn [row_add]. destruct (Nat.eqb_spec k j) as [->|Hn].
    - eexists. split; [reflexivity|]. split; auto. intros c. cbn [denrow]. destruct (j =? c); auto.
    - destruct H as [H|H]; [cbn in H; congruence|]. destruct (IH H) as (t' & -> & C & S'). eexists. split; [reflexivity|]. split; [cbn; now rewrite C|].
      intros c. cbn [denrow]. rewrite S'. destruct (Nat.eqb_spec k c) as [->|]; [|auto]. destruct (Nat.eqb_spec j c); [congruence|auto].
  Qed.

  Definition hits (i j : nat) (g : R -> R -> R) (c : call) : R := match c with (a, b, i', j') => ind ((i' =? i) && (j' =? j)) (g a b) end.
  Lemma accumulate_spec g cs : forall res, (forall a b i j, In (a, b, i, j) cs -> i < length res /\ instored res i j) ->
    exists res', accumulate g cs res = Ok res' /\ same_pattern res res' /\ length res' = length res /\
      forall i j, den res' i j = den res i j + lsum (map (hits i j g) cs).
  Proof.
    induction cs as [|[[[a b] i0] j0] t IH]; intros res H; cbn [accumulate].
    - exists res. split; auto. split; [reflexivity|]. split; auto. intros. cbn. ncring.
    - destruct (H a b i0 j0 (or_introl eq_refl)) as [Hi HS]. destruct (row_add_spec _ j0 (g a b) HS) as (row' & -> & C & S').
      assert (P0 : same_pattern res (upd res i0 row')).
      { unfold same_pattern. apply (list_ext _ _ nil); [now rewrite !map_length, upd_length|]. rewrite map_length, upd_length. intros i Hi'.
        rewrite (nth_indep _ nil (map fst (@nil (nat * R)))) by (rewrite map_length, upd_length; auto). rewrite map_nth.
        rewrite (nth_indep _ nil (map fst (@nil (nat * R)))) by (rewrite map_length; auto). rewrite map_nth. rewrite nth_upd.
        destruct (Nat.eqb_spec i0 i) as [->|]; auto. destruct (Nat.ltb_spec i (length res)); [auto|lia]. }
      destruct (IH (upd res i0 row')) as (res' & E & P & L & V).
      { intros a' b' i j HI. rewrite upd_length. destruct (H a' b' i j (or_intror HI)) as [Q1 Q2]. split; auto.
        unfold instored in *. rewrite <- (map_nth (map fst)) in *. unfold same_pattern in P0. rewrite P0. auto. }
      exists res'. split; auto. split; [unfold same_pattern in *; congruence|]. rewrite upd_length in L. split; auto. intros i j. rewrite V.
      cbn [map lsum]. change (lsum (hits i j g (a, b, i0, j0) :: map (hits i j g) t)) with (hits i j g (a, b, i0, j0) + lsum (map (hits i j g) t)).
      rewrite radd_assoc. f_equal. unfold den. rewrite nth_upd. unfold hits, ind. destruct (Nat.eqb_spec i0 i) as [->|]; cbn [andb]; [|ncring].
      destruct (Nat.ltb_spec i (length res)); [|lia]. rewrite S'. destruct (j0 =? j); ncring.
  Qed.

  Lemma lsum_flat_map {X Y} (f : X -> list Y) (h : Y -> R) l : lsum (map h (flat_map f l)) = lsum (map (fun x => lsum (map h (f x))) l).
  Proof. induction l; [reflexivity|]. cbn [flat_map map]. rewrite map_app, lsum_app, IHl. reflexivity. Qed.
  Lemma lsum_combine {X} (h : nat * X -> R) (l : list X) (d : X) : lsum (map h (combine (seq 0 (length l)) l)) = sum (length l) (fun i => h (i, nth i l d)).
  Proof.
    rewrite <- lsum_seq. f_equal. assert (E : combine (seq 0 (length l)) l = map (fun i => (i, nth i l d)) (seq 0 (length l))).
    { apply (list_ext _ _ (0, d)); [now rewrite combine_length, map_length, seq_length, Nat.min_id|]. intros i Hi.
      rewrite combine_length, seq_length, Nat.min_id in Hi. rewrite combine_nth by (now rewrite seq_length). rewrite seq_nth by auto.
      rewrite (nth_indep _ (0, d) (0%nat, nth 0 l d)) by (now rewrite map_length, seq_length). rewrite (map_nth (fun i => (i, nth i l d))). rewrite seq_nth by auto. reflexivity. }
    rewrite E, map_map. reflexivity.
  Qed.
  Lemma in_combine_seq {X} (l : list X) d i x : In (i, x) (combine (seq 0 (length l)) l) <-> i < length l /\ x = nth i l d.
  Proof.
    split.
    - intros H. apply (In_nth _ _ (0, d)) in H. destruct H as (k & Hk & E). rewrite combine_length, seq_length, Nat.min_id in Hk.
      rewrite combine_nth in E by (now rewrite seq_length). rewrite seq_nth in E by auto. injection E as <- <-. auto.
    - intros [H ->]. replace (i, nth i l d) with (nth i (combine (seq 0 (length l)) l) (0, d)).
      + apply nth_In. now rewrite combine_length, seq_length, Nat.min_id.
      + rewrite combine_nth by (now rewrite seq_length). now rewrite seq_nth by auto.
  Qed.
  Lemma in_row_pair (row : srow R) k : In k (map fst row) <-> exists a, In (k, a) row.
  Proof. rewrite in_map_iff. split; [intros ([k' a] & <- & H); eauto|intros [a H]; exists (k, a); auto]. Qed.

  Lemma set_nnz_refl E : (0 <? set_nnz E) && (set_nnz E <? set_nnz E) = false.
  Proof. rewrite Nat.ltb_irrefl. apply andb_false_r. Qed.

  Lemma mult01_spec rows cols cs g : 0 < rows -> (forall a b i j, In (a, b, i, j) cs -> i < rows /\ j < cols) ->
    exists res, mult01 rows cs g = Ok res /\ mat_wf rows cols res /\ (forall i j, instored res i j <-> exists a b, In (a, b, i, j) cs) /\
      forall i j, den res i j = lsum (map (hits i j g) cs).
  Proof.
    intros Hr HB. unfold mult01. destruct (collect_spec rows cs) as (L & S' & M). unfold create. rewrite set_nnz_refl. cbn [obind].
    set (Z := map (map (fun j : nat => (j, r0 : R))) (collect rows cs)).
    assert (LZ : length Z = rows) by (unfold Z; now rewrite map_length).
    assert (SZ : forall i j, instored Z i j <-> exists a b, In (a, b, i, j) cs).
    { intros i j. unfold instored, Z. rewrite zeros_nth, zeros_fst, M. split; [tauto|]. intros (a & b & H). split; eauto. eapply HB; eauto. }
    assert (ES : start_accu Z = Ok tt) by (destruct Z; [cbn in LZ; lia|reflexivity]). rewrite ES. cbn [obind].
    destruct (accumulate_spec g cs Z) as (res & E & P & LR & V).
    { intros a b i j H. split; [rewrite LZ; eapply HB; eauto|]. apply SZ. eauto. }
    exists res. split; auto.
    assert (ST : forall i j, instored res i j <-> exists a b, In (a, b, i, j) cs).
    { intros i j. rewrite <- SZ. unfold instored. rewrite <- !(map_nth (map fst)). unfold same_pattern in P. rewrite P. tauto. }
    split; [|split; [exact ST|]].
    - split; [congruence|]. apply Forall_forall. intros r Hr'. apply (In_nth _ _ nil) in Hr'. destruct Hr' as (i & Hi & <-). split.
      + rewrite <- (map_nth (map fst)). unfold same_pattern in P. rewrite P, map_nth. unfold Z. rewrite zeros_nth, zeros_fst.
        rewrite Forall_forall in S'. apply S', nth_In. lia.
      + apply Forall_forall. intros j Hj. apply ST in Hj. destruct Hj as (a & b & Hj). eapply HB; eauto.
    - intros i j. rewrite V. unfold den at 1, Z. rewrite zeros_nth, zeros_den. ncring.
  Qed.

  (** *** A B *)
  Lemma calls0_in A B a b i j : In (a, b, i, j) (calls0 A B) <-> i < length A /\ exists k, In (k, a) (nth i A nil) /\ In (j, b) (nth k B nil).
  Proof.
    unfold calls0. rewrite in_flat_map. split.
    - intros ([i' row] & H1 & H2). apply (in_combine_seq A nil) in H1. destruct H1 as [H1 ->]. cbn [fst snd] in H2. apply in_flat_map in H2.
      destruct H2 as ([k a'] & H2 & H3). cbn [fst snd] in H3. apply in_map_iff in H3. destruct H3 as ([j' b'] & E & H3). cbn in E. injection E as <- <- <- <-. eauto.
    - intros (H1 & k & H2 & H3). exists (i, nth i A nil). split; [apply (in_combine_seq A nil); auto|]. cbn [fst snd]. apply in_flat_map.
      exists (k, a). split; auto. cbn [fst snd]. apply in_map_iff. exists (j, b). auto.
  Qed.
  Lemma hits_row i j g i' a (row : srow R) mB : row_wf mB row -> g a r0 = r0 ->
    lsum (map (hits i j g) (map (fun f => (a, snd f, i', fst f)) row)) = if i' =? i then g a (denrow row j) else r0.
  Proof.
    intros HW Hg. rewrite map_map. unfold hits.
    destruct HW as [HW1 HW2]. pose proof (ssorted_NoDup _ HW1) as ND.
    rewrite (lsum_row (fun c b => ind ((i' =? i) && (c =? j)) (g a b)) mB row ND HW2) by (intros c; unfold ind; rewrite Hg; destruct (_ && _); reflexivity).
    destruct (i' =? i); cbn [andb]; [|apply sum_zero; reflexivity].
    destruct (Nat.lt_ge_cases j mB) as [Hj|Hj].
    - rewrite (sum_single mB j) by (first [assumption|intros x _ Hx; unfold ind; destruct (Nat.eqb_spec x j); [congruence|reflexivity]]).
      unfold ind. now rewrite Nat.eqb_refl.
    - rewrite (denrow_big mB) by (first [assumption|split; assumption]). rewrite Hg. apply sum_zero. intros x Hx. unfold ind.
      destruct (Nat.eqb_spec x j); [lia|reflexivity].
  Qed.

  Lemma calls0_val A nA mA B mB g i j : mat_wf nA mA A -> mat_wf mA mB B -> i < nA -> (forall a, g a r0 = r0) -> (forall b, g r0 b = r0) ->
    lsum (map (hits i j g) (calls0 A B)) = sum mA (fun k => g (den A i k) (den B k j)).
  Proof.
    intros HA HB Hi G1 G2. unfold calls0. rewrite lsum_flat_map. rewrite (lsum_combine _ A nil). cbn [fst snd].
    assert (LA : length A = nA) by apply HA. rewrite LA.
    rewrite (sum_single nA i) by (first [assumption|intros x Hx Hxi; rewrite lsum_flat_map; apply lsum_map_zero; intros [k a] _; cbn [fst snd];
      rewrite (hits_row i j g x a _ mB (mat_wf_row _ _ _ _ HB) (G1 a)); destruct (Nat.eqb_spec x i); [congruence|reflexivity]]).
    rewrite lsum_flat_map. destruct (mat_wf_row _ _ _ i HA) as [W1 W2].
    transitivity (sum mA (fun k => g (denrow (nth i A nil) k) (den B k j))); [|reflexivity].
    rewrite <- (lsum_row (fun k a => g a (den B k j)) mA (nth i A nil) (ssorted_NoDup _ W1) W2) by (intros; apply G2).
    f_equal. apply map_ext. intros [k a]. cbn [fst snd]. rewrite (hits_row i j g i a _ mB (mat_wf_row _ _ _ _ HB) (G1 a)).
    now rewrite Nat.eqb_refl.
  Qed.

  Theorem C20_matMultMat A nA mA B nB mB : mat_wf nA mA A -> mat_wf nB mB B ->
    (mA <> nB -> matMultMat A mA B mB = Throw EISTL) /\
    (mA = nB -> 0 < nA -> exists C, matMultMat A mA B mB = Ok C /\ mat_wf nA mB C /\
       (forall i j, instored C i j <-> exists k, instored A i k /\ instored B k j) /\
       (forall i j, i < nA -> j < mB -> den C i j = sum mA (fun k => den A i k * den B k j))).
  Proof.
    intros HA HB. assert (LA : length A = nA) by apply HA. assert (LB : length B = nB) by apply HB. unfold matMultMat. rewrite LB. split.
    - intros Hn. destruct (Nat.eqb_spec mA nB); [congruence|reflexivity].
    - intros <- Hr. rewrite Nat.eqb_refl, LA.
      destruct (mult01_spec nA mB (calls0 A B) (fun a b => a * b) Hr) as (C & E & W & P & V).
      { intros a b i j H. apply calls0_in in H. destruct H as (Hi & k & _ & H). split; [lia|]. destruct (mat_wf_row _ _ _ k HB) as [_ W2].
        rewrite Forall_forall in W2. apply W2. apply in_row_pair. eauto. }
      exists C. split; auto. split; auto. split.
      + intros i j. rewrite P. unfold instored. split.
        * intros (a & b & H). apply calls0_in in H. destruct H as (_ & k & H1 & H2). exists k. rewrite !in_row_pair. eauto.
        * intros (k & H1 & H2). rewrite in_row_pair in H1, H2. destruct H1 as [a H1], H2 as [b H2]. exists a, b. apply calls0_in.
          split; [|eauto]. destruct (Nat.lt_ge_cases i (length A)); auto. rewrite nth_overflow in H1 by auto. destruct H1.
      + intros i j Hi _. rewrite V. apply (calls0_val A nA mA B mB); auto; intros; ncring.
  Qed.

  (** *** A^T B *)
  Lemma calls1_in A B a b i j : In (a, b, i, j) (calls1 A B) <-> exists k, k < length A /\ In (i, a) (nth k A nil) /\ In (j, b) (nth k B nil).
  Proof.
    unfold calls1. rewrite in_flat_map. split.
    - intros ([k row] & H1 & H2). apply (in_combine_seq A nil) in H1. destruct H1 as [H1 ->]. cbn [fst snd] in H2. apply in_flat_map in H2.
      destruct H2 as ([i' a'] & H2 & H3). cbn [fst snd] in H3. apply in_map_iff in H3. destruct H3 as ([j' b'] & E & H3). cbn in E. injection E as <- <- <- <-. eauto.
    - intros (k & H1 & H2 & H3). exists (k, nth k A nil). split; [apply (in_combine_seq A nil); auto|]. cbn [fst snd]. apply in_flat_map.
      exists (i, a). split; auto. cbn [fst snd]. apply in_map_iff. exists (j, b). auto.
  Qed.
  Lemma calls1_val A n mA B mB g i j : mat_wf n mA A -> mat_wf n mB B -> i < mA -> (forall a, g a r0 = r0) -> (forall b, g r0 b = r0) ->
    lsum (map (hits i j g) (calls1 A B)) = sum n (fun k => g (den A k i) (den B k j)).
  Proof.
    intros HA HB Hi G1 G2. unfold calls1. rewrite lsum_flat_map. rewrite (lsum_combine _ A nil). cbn [fst snd].
    assert (LA : length A = n) by apply HA. rewrite LA. apply sum_ext. intros k Hk. rewrite lsum_flat_map.
    destruct (mat_wf_row _ _ _ k HA) as [W1 W2].
    rewrite (map_ext _ (fun e : nat * R => if fst e =? i then g (snd e) (den B k j) else r0)).
    2:{ intros [i' a]. cbn [fst snd]. apply (hits_row i j g i' a _ mB (mat_wf_row _ _ _ _ HB) (G1 a)). }
    rewrite (lsum_row (fun c a => if c =? i then g a (den B k j) else r0) mA (nth k A nil) (ssorted_NoDup _ W1) W2) by (intros c; rewrite G2; destruct (c =? i); reflexivity).
    rewrite (sum_single mA i) by (first [assumption|intros x _ Hx; destruct (Nat.eqb_spec x i); [congruence|reflexivity]]).
    now rewrite Nat.eqb_refl.
  Qed.

  Theorem C20_transposeMatMultMat A nA mA B nB mB : tr r0 = r0 -> mat_wf nA mA A -> mat_wf nB mB B ->
    (nA <> nB -> transposeMatMultMat A mA B mB = Throw EISTL) /\
    (nA = nB -> 0 < mA -> exists C, transposeMatMultMat A mA B mB = Ok C /\ mat_wf mA mB C /\
       (forall i j, instored C i j <-> exists k, instored A k i /\ instored B k j) /\
       (forall i j, i < mA -> j < mB -> den C i j = sum nA (fun k => tr (den A k i) * den B k j))).
  Proof.
    intros T0 HA HB. assert (LA : length A = nA) by apply HA. assert (LB : length B = nB) by apply HB. unfold transposeMatMultMat. rewrite LA, LB. split.
    - intros Hn. destruct (Nat.eqb_spec nA nB); [congruence|reflexivity].
    - intros <- Hr. rewrite Nat.eqb_refl.
      destruct (mult01_spec mA mB (calls1 A B) (fun a b => tr a * b) Hr) as (C & E & W & P & V).
      { intros a b i j H. apply calls1_in in H. destruct H as (k & Hk & H1 & H2). split.
        - destruct (mat_wf_row _ _ _ k HA) as [_ W2]. rewrite Forall_forall in W2. apply W2. apply in_row_pair. eauto.
        - destruct (mat_wf_row _ _ _ k HB) as [_ W2]. rewrite Forall_forall in W2. apply W2. apply in_row_pair. eauto. }
      exists C. split; auto. split; auto. split.
      + intros i j. rewrite P. unfold instored. split.
        * intros (a & b & H). apply calls1_in in H. destruct H as (k & _ & H1 & H2). exists k. rewrite !in_row_pair. eauto.
        * intros (k & H1 & H2). rewrite in_row_pair in H1, H2. destruct H1 as [a H1], H2 as [b H2]. exists a, b. apply calls1_in.
          exists k. split; auto. destruct (Nat.lt_ge_cases k (length A)); auto. rewrite nth_overflow in H1 by auto. destruct H1.
      + intros i j Hi _. rewrite V. apply (calls1_val A nA mA B mB); auto; intros; [ncring|rewrite T0; ncring].
  Qed.

  (** *** A B^T *)
  Lemma drop_lt_wf c l m : row_wf m l -> row_wf m (drop_lt c l).
  Proof. induction l as [|[k b] t IH]; intros H; cbn; auto. destruct (k <? c); auto. apply IH. eapply row_wf_tail; eauto. Qed.
  Lemma drop_lt_den c l k : c <= k -> denrow (drop_lt c l) k = denrow l k.
  Proof.
    intros Hk. induction l as [|[k' b] t IH]; cbn; auto. destruct (Nat.ltb_spec k' c); auto. rewrite IH. destruct (Nat.eqb_spec k' k); [lia|auto].
  Qed.
  Lemma drop_lt_in c l k : c <= k -> In k (map fst (drop_lt c l)) <-> In k (map fst l).
  Proof.
    intros Hk. induction l as [|[k' b] t IH]; cbn; [tauto|]. destruct (Nat.ltb_spec k' c); [|cbn; tauto]. rewrite IH. split; auto. intros [->|]; [lia|auto].
  Qed.
  Lemma drop_lt_head c l k b t : drop_lt c l = (k, b) :: t -> c <= k.
  Proof. induction l as [|[k' b'] l IH]; cbn; [discriminate|]. destruct (Nat.ltb_spec k' c); auto. intros E. injection E as -> -> ->. auto. Qed.
  Lemma sorted_head_eq m k b (t : srow R) c : row_wf m ((k, b) :: t) -> c <= k -> c <> k -> denrow ((k, b) :: t) c = r0 /\ ~ In c (map fst ((k, b) :: t)).
  Proof.
    intros [H _] Hc Hn. cbn [map fst] in H. apply StronglySorted_inv in H. destruct H as [_ H]. rewrite Forall_forall in H.
    assert (HN : ~ In c (map fst ((k, b) :: t))). { cbn. intros [E|E]; [congruence|]. specialize (H c E). lia. }
    split; auto. now apply denrow_notin.
  Qed.
  (** The pairs met by the two cursors are exactly the common columns. *)
  Lemma match2_spec mrow : forall mt m, row_wf m mrow -> row_wf m mt ->
    lsum (map (fun p => fst p * tr (snd p)) (match2 false mrow mt)) = lsum (map (fun e => ind (if in_dec Nat.eq_dec (fst e) (map fst mt) then true else false) (snd e * tr (denrow mt (fst e)))) mrow)
    /\ (forall brk, match2 brk mrow mt = nil <-> forall k, In k (map fst mrow) -> ~ In k (map fst mt)).
  Proof.
    induction mrow as [|[c a] t IH]; intros mt m HW HM; [cbn; split; [reflexivity|intros brk; split; [tauto|reflexivity]]|].
    pose proof (row_wf_tail _ _ _ HW) as HWt. pose proof (drop_lt_wf c mt m HM) as HD.
    destruct (IH (drop_lt c mt) m HWt HD) as [IH1 IH2].
    assert (HB : forall k, In k (map fst t) -> c < k).
    { destruct HW as [HW _]. cbn [map fst] in HW. apply StronglySorted_inv in HW. destruct HW as [_ HW]. now rewrite Forall_forall in HW. }
    assert (E1 : map (fun e : nat * R => ind (if in_dec Nat.eq_dec (fst e) (map fst (drop_lt c mt)) then true else false) (snd e * tr (denrow (drop_lt c mt) (fst e)))) t
               = map (fun e => ind (if in_dec Nat.eq_dec (fst e) (map fst mt) then true else false) (snd e * tr (denrow mt (fst e)))) t).
    { apply map_ext_in. intros [k b] Hk. cbn [fst snd]. assert (c < k) by (apply HB; apply in_map_iff; exists (k, b); auto).
      rewrite drop_lt_den by lia. pose proof (drop_lt_in c mt k ltac:(lia)) as Q.
      destruct (in_dec Nat.eq_dec k (map fst (drop_lt c mt))), (in_dec Nat.eq_dec k (map fst mt)); tauto. }
    rewrite E1 in IH1.
    assert (E2 : forall brk, match2 brk t (drop_lt c mt) = nil <-> (forall k, In k (map fst t) -> ~ In k (map fst mt))).
    { intros brk. rewrite IH2. split; intros H k Hk; specialize (H k Hk); specialize (HB k Hk); rewrite drop_lt_in in *; auto; lia. }
    assert (HDC : In c (map fst (drop_lt c mt)) <-> In c (map fst mt)) by (apply drop_lt_in; lia).
    assert (HDD : denrow (drop_lt c mt) c = denrow mt c) by (apply drop_lt_den; lia).
    cbn [match2 map lsum fst snd].
    destruct (drop_lt c mt) as [|[k b] l] eqn:ED.
    - assert (HN : ~ In c (map fst mt)) by (intros Q; apply HDC in Q; destruct Q).
      destruct (in_dec Nat.eq_dec c (map fst mt)) as [Q|_]; [tauto|]. unfold ind at 1. rewrite IH1. split; [ncring|].
      intros brk. rewrite E2. split; intros H k Hk; [destruct Hk as [<-|Hk]; auto|apply H; right; auto].
    - destruct (Nat.eqb_spec k c) as [->|Hn].
      + assert (HI : In c (map fst mt)) by (apply HDC; left; auto). destruct (in_dec Nat.eq_dec c (map fst mt)) as [_|Q]; [|tauto].
        cbn [map lsum fst snd]. rewrite IH1. split; [unfold ind at 2; f_equal; f_equal; rewrite <- HDD; cbn; now rewrite Nat.eqb_refl|].
        intros brk. split; [discriminate|]. intros H. exfalso. apply (H c); [left; auto|auto].
      + destruct (sorted_head_eq m k b l c HD) as [Q1 Q2]; [eapply drop_lt_head; eauto|congruence|].
        destruct (in_dec Nat.eq_dec c (map fst mt)) as [Q|_]; [tauto|]. unfold ind at 1. rewrite IH1. split; [ncring|].
        intros brk. rewrite E2. split; intros H k' Hk; [destruct Hk as [<-|Hk]; [tauto|auto]|apply H; right; auto].
  Qed.
  Lemma match2_true_len mrow : forall mt, length (match2 true mrow mt) <= 1.
  Proof.
    induction mrow as [|[c a] t IH]; intros mt; cbn [match2]; [cbn; lia|]. destruct (drop_lt c mt) as [|[k b] l]; [apply IH|].
    destruct (k =? c); [cbn; lia|apply IH].
  Qed.
  Lemma match2_sum mrow mt m : tr r0 = r0 -> row_wf m mrow -> row_wf m mt ->
    lsum (map (fun p => fst p * tr (snd p)) (match2 false mrow mt)) = sum m (fun k => denrow mrow k * tr (denrow mt k)).
  Proof.
    intros T0 HW HM. destruct (match2_spec mrow mt m HW HM) as [-> _]. destruct HW as [W1 W2].
    rewrite <- (lsum_row (fun k a => a * tr (denrow mt k)) m mrow (ssorted_NoDup _ W1) W2) by (intros; ncring).
    f_equal. apply map_ext. intros [k a]. cbn [fst snd]. destruct (in_dec Nat.eq_dec k (map fst mt)) as [H|H]; cbn [ind]; auto.
    rewrite denrow_notin by auto. rewrite T0. unfold ind. ncring.
  Qed.

  (** is row j of B met by [mrow]? *)
  Definition meets (mrow mt : srow R) : bool := match match2 true mrow mt with nil => false | _ => true end.
  Lemma meets_spec mrow mt m : row_wf m mrow -> row_wf m mt -> meets mrow mt = true <-> exists k, In k (map fst mrow) /\ In k (map fst mt).
  Proof.
    intros HW HM. unfold meets. destruct (match2_spec mrow mt m HW HM) as [_ H]. specialize (H true). destruct (match2 true mrow mt).
    - split; [discriminate|]. intros (k & H1 & H2). exfalso. apply (proj1 H eq_refl k); auto.
    - split; [|auto]. intros _. destruct (existsb (fun k => existsb (Nat.eqb k) (map fst mt)) (map fst mrow)) eqn:EX.
      + apply existsb_exists in EX. destruct EX as (k & H1 & H2). apply existsb_exists in H2. destruct H2 as (k' & H2 & H3). apply Nat.eqb_eq in H3. subst. eauto.
      + exfalso. assert (Q : p :: l = nil); [|discriminate]. apply H. intros k H1 H2.
        assert (existsb (fun k => existsb (Nat.eqb k) (map fst mt)) (map fst mrow) = true); [|congruence].
        apply existsb_exists. exists k. split; auto. apply existsb_exists. exists k. split; auto. apply Nat.eqb_refl.
  Qed.
  (** the columns of the created row: the rows of B met by mrow, in order *)
  Fixpoint hit_cols (mrow : srow R) (B : smat R) (j : nat) : list nat :=
    match B with nil => nil | mt :: B' => if meets mrow mt then j :: hit_cols mrow B' (S j) else hit_cols mrow B' (S j) end.
  Lemma hit_cols_lb mrow B : forall j k, In k (hit_cols mrow B j) -> j <= k < (j + length B)%nat.
  Proof.
    induction B as [|mt B IH]; intros j k H; cbn in H; [destruct H|]. cbn [length]. destruct (meets mrow mt); [destruct H as [<-|H]; [lia|]|]; specialize (IH _ _ H); lia.
  Qed.
  Lemma hit_cols_sorted mrow B : forall j, StronglySorted lt (hit_cols mrow B j).
  Proof.
    induction B as [|mt B IH]; intros j; cbn; [constructor|]. destruct (meets mrow mt); auto. constructor; auto. apply Forall_forall. intros k Hk.
    apply hit_cols_lb in Hk. lia.
  Qed.
  Lemma hit_cols_in mrow B : forall j k, In k (hit_cols mrow B j) <-> j <= k < (j + length B)%nat /\ meets mrow (nth (k - j) B nil) = true.
  Proof.
    induction B as [|mt B IH]; intros j k; cbn [hit_cols length]; [cbn; lia|].
    assert (Q : k = j \/ j < k \/ k < j) by lia. destruct Q as [->|[Q|Q]].
    - replace (j - j)%nat with 0%nat by lia. cbn [nth]. assert (~ In j (hit_cols mrow B (S j))) by (intros H; apply hit_cols_lb in H; lia).
      destruct (meets mrow mt); cbn [In]; [|intuition; lia]. intuition; lia.
    - replace (k - j)%nat with (S (k - S j)) by lia. cbn [nth]. specialize (IH (S j) k).
      destruct (meets mrow mt); cbn [In]; rewrite IH; intuition; lia.
    - assert (~ In k (hit_cols mrow B (S j))) by (intros H; apply hit_cols_lb in H; lia). destruct (meets mrow mt); cbn [In]; intuition; lia.
  Qed.
  Lemma set_ins_last l j : (forall k, In k l -> k < j) -> set_ins j l = l ++ [j].
  Proof.
    induction l as [|k t IH]; intros H; cbn; auto. assert (k < j) by (apply H; left; auto). destruct (Nat.eqb_spec j k); [lia|].
    destruct (Nat.ltb_spec j k); [lia|]. rewrite IH; auto. intros; apply H; right; auto.
  Qed.
  Lemma pattern2_row_hit mrow B : pattern2_row mrow B = hit_cols mrow B 0.
  Proof.
    unfold pattern2_row. assert (H : forall B j S0, (forall k, In k S0 -> k < j) ->
      fold_left (fun S p => fold_left (fun S _ => set_ins (fst p) S) (match2 true mrow (snd p)) S) (combine (seq j (length B)) B) S0 = S0 ++ hit_cols mrow B j).
    { clear B. induction B as [|mt B IH]; intros j S0 H0; cbn [length seq combine fold_left hit_cols]; [now rewrite app_nil_r|]. cbn [fst snd]. unfold meets.
      pose proof (match2_true_len mrow mt) as L. destruct (match2 true mrow mt) as [|p [|p' l]]; cbn [fold_left length] in *; [|rewrite set_ins_last by auto|lia].
      - apply IH. intros k Hk. apply H0 in Hk. lia.
      - rewrite IH; [now rewrite <- app_assoc|]. intros k Hk. apply in_app_iff in Hk. destruct Hk as [Hk|[<-|[]]]; [apply H0 in Hk; lia|lia]. }
    apply H. intros k [].
  Qed.
  Lemma count2_eq A B : count2 A B = set_nnz (map (fun mrow => pattern2_row mrow B) A).
  Proof.
    unfold count2, set_nnz. generalize 0%nat as s. induction A as [|mrow A IH]; intros s; [reflexivity|]. cbn [map fold_left]. rewrite IH. f_equal. rewrite pattern2_row_hit.
    clear. generalize 0%nat as j. revert s. induction B as [|mt B IH]; intros s j; cbn [fold_left hit_cols length]; [lia|]. rewrite (IH _ (S j)). unfold meets.
    pose proof (match2_true_len mrow mt) as L. destruct (match2 true mrow mt) as [|p [|p' l]]; cbn [length] in *; lia.
  Qed.
  Lemma accu2_row_spec mrow m : tr r0 = r0 -> row_wf m mrow -> forall B j, Forall (row_wf m) B ->
    exists r, accu2_row mrow B (map (fun k => (k, r0)) (hit_cols mrow B j)) = Ok r /\ map fst r = hit_cols mrow B j /\
      forall k, j <= k -> denrow r k = sum m (fun c => denrow mrow c * tr (denrow (nth (k - j) B nil) c)).
  Proof.
    intros T0 HW B. induction B as [|mt B IH]; intros j HB.
    - exists nil. cbn. split; auto. split; auto. intros k _. symmetry. apply sum_zero. intros c _. destruct (k - j)%nat; cbn; rewrite T0; ncring.
    - inversion HB as [|? ? HM HB' EB]. subst. cbn [hit_cols accu2_row]. destruct (IH (S j) HB') as (r & E & C & V).
      assert (MM : meets mrow mt = match match2 false mrow mt with nil => false | _ => true end).
      { unfold meets. destruct (match2_spec mrow mt m HW HM) as [_ Q]. pose proof (Q true) as Q1. pose proof (Q false) as Q2.
        destruct (match2 true mrow mt), (match2 false mrow mt); auto; exfalso; [pose proof (proj2 Q2 (proj1 Q1 eq_refl))|pose proof (proj2 Q1 (proj1 Q2 eq_refl))]; discriminate. }
      pose proof (match2_sum mrow mt m T0 HW HM) as SUM. rewrite MM. destruct (match2 false mrow mt) as [|p ps] eqn:EM.
      + exists r. split; auto. split; auto. intros k Hk. destruct (Nat.eq_dec k j) as [->|].
        * replace (j - j)%nat with 0%nat by lia. cbn [nth]. rewrite <- SUM. apply denrow_notin. rewrite C. intros H. apply hit_cols_lb in H. lia.
        * rewrite V by lia. replace (k - j)%nat with (S (k - S j)) by lia. reflexivity.
      + cbn [map]. rewrite E. cbn [obind]. eexists. split; [reflexivity|]. split; [cbn [map fst]; now rewrite C|]. intros k Hk. cbn [denrow].
        rewrite fold_left_add, SUM. destruct (Nat.eqb_spec j k) as [->|].
        * replace (k - k)%nat with 0%nat by lia. cbn [nth]. ncring.
        * rewrite V by lia. replace (k - j)%nat with (S (k - S j)) by lia. reflexivity.
  Qed.
  Lemma accu2_spec m B : tr r0 = r0 -> Forall (row_wf m) B -> forall A, Forall (row_wf m) A ->
    exists rs, accu2 A B (map (fun mrow => map (fun k => (k, r0)) (hit_cols mrow B 0)) A) = Ok rs /\ length rs = length A /\
      (forall i, i < length A -> map fst (nth i rs nil) = hit_cols (nth i A nil) B 0) /\
      (forall i k, i < length A -> den rs i k = sum m (fun c => den A i c * tr (den B k c))).
  Proof.
    intros T0 HB A HA. induction A as [|mrow A IH]; [exists nil; cbn; split; auto; split; auto; split; intros; lia|].
    inversion HA as [|? ? HW HA' EA]. subst. destruct (IH HA') as (rs & E & L & C & V). destruct (accu2_row_spec mrow m T0 HW B 0%nat HB) as (r & E1 & C1 & V1).
    exists (r :: rs). cbn [map accu2]. rewrite E1. cbn [obind]. rewrite E. cbn [obind]. split; auto. split; [cbn; auto|]. split.
    - intros [|i] Hi; cbn [nth]; auto. apply C. cbn in Hi. lia.
    - intros [|i] k Hi; unfold den; cbn [nth].
      + rewrite V1 by lia. now rewrite Nat.sub_0_r.
      + apply V. cbn in Hi. lia.
  Qed.

  Theorem C20_matMultTransposeMat A nA mA B nB mB : tr r0 = r0 -> mat_wf nA mA A -> mat_wf nB mB B ->
    (mA <> mB -> matMultTransposeMat A mA B mB = Throw EISTL) /\
    (mA = mB -> 0 < nA -> exists C, matMultTransposeMat A mA B mB = Ok C /\ mat_wf nA nB C /\
       (forall i j, instored C i j <-> exists k, instored A i k /\ instored B j k) /\
       (forall i j, i < nA -> j < nB -> den C i j = sum mA (fun k => den A i k * tr (den B j k)))).
  Proof.
    intros T0 HA HB. assert (LA : length A = nA) by apply HA. assert (LB : length B = nB) by apply HB. unfold matMultTransposeMat. split.
    - intros Hn. destruct (Nat.eqb_spec mA mB); [congruence|reflexivity].
    - intros <- Hr. rewrite Nat.eqb_refl. unfold create. rewrite count2_eq, set_nnz_refl. cbn [obind]. rewrite map_map.
      destruct A as [|mrow A']; [cbn in LA; lia|]. set (A := mrow :: A') in *.
      assert (ES : forall f : srow R -> srow R, start_accu (map f A) = Ok tt) by reflexivity. rewrite ES. cbn [obind].
      rewrite (map_ext _ (fun mrow => map (fun k => (k, r0)) (hit_cols mrow B 0))) by (intros; now rewrite pattern2_row_hit).
      destruct (accu2_spec mA B T0 (proj2 HB) A (proj2 HA)) as (C & E & L & P & V). exists C. split; auto.
      assert (ST : forall i j, instored C i j <-> exists k, instored A i k /\ instored B j k).
      { intros i j. unfold instored. destruct (Nat.lt_ge_cases i (length A)) as [Hi|Hi].
        - rewrite P by auto. rewrite hit_cols_in. rewrite Nat.sub_0_r, (meets_spec _ _ mA) by (eapply mat_wf_row; eauto). split; [tauto|].
          intros (k & H1 & H2). split; [|eauto]. split; [lia|]. cbn. destruct (Nat.lt_ge_cases j (length B)); auto. rewrite (nth_overflow B) in H2 by auto. destruct H2.
        - rewrite (nth_overflow C) by lia. rewrite (nth_overflow A) by auto. cbn. split; [tauto|]. intros (? & [] & _). }
      split; [|split; [exact ST|]].
      + split; [lia|]. apply Forall_forall. intros r Hr'. apply (In_nth _ _ nil) in Hr'. destruct Hr' as (i & Hi & <-). split.
        * rewrite P by lia. apply hit_cols_sorted.
        * rewrite P by lia. apply Forall_forall. intros j Hj. apply hit_cols_lb in Hj. lia.
      + intros i j Hi _. apply V. lia.
  Qed.

  (** With no rows in the result, the accumulator's constructor dereferences the end row iterator. *)
  Theorem C20_zero_rows_refuted (B : smat R) mB : matMultMat nil (length B) B mB = UB /\ matMultTransposeMat nil mB B mB = UB.
  Proof. unfold matMultMat, matMultTransposeMat. rewrite !Nat.eqb_refl. split; reflexivity. Qed.
End MatMat.

(** *** Non-vacuity: 2x2 blocks, an unsymmetric pattern *)
Definition exM1 : smat Qcring := [[(0, q 1); (2, q 2)]; []; [(1, q 3)]].
Definition exM2 : smat Qcring := [[(1, q 1)]; [(0, q 5); (1, q 4)]; [(1, q 7)]].
Lemma exM1_wf : mat_wf (R := Qcring) 3 3 exM1.
Proof. split; [reflexivity|]. repeat (constructor; [split; cbn [map fst]; repeat constructor; lia|]). constructor. Qed.
Lemma exM2_wf : mat_wf (R := Qcring) 3 2 exM2.
Proof. split; [reflexivity|]. repeat (constructor; [split; cbn [map fst]; repeat constructor; lia|]). constructor. Qed.
Example C20_nonvacuous : match matMultMat (R := Qcring) exM1 3 exM2 2 with
  Ok C => map (map fst) C = [[1]; []; [0; 1]] /\ den C 0 1 = q 15 | _ => False end.
Proof. vm_compute. split; [reflexivity|]. apply Qc_is_canon. reflexivity. Qed.
Print Assumptions C20_matMultMat.
Print Assumptions C20_transposeMatMultMat.
Print Assumptions C20_matMultTransposeMat.
