(** * MatrixMarket files (dune/istl/matrixmarket.hh), C24 *)
From Coq Require Import String Ascii.
From Coq Require Import ZArith Arith List Lia Sorted Bool.
From Verif Require Import Ring Sums RingInst Outcome Sparse MatMat Bccs.
Import ListNotations.
Open Scope nat_scope.
Open Scope list_scope.

(** enum MM_STRUCTURE / MM_TYPE / MM_CTYPE, matrixmarket.hh:299-303 *)
Inductive structure := General | Symmetric | Skew | Hermitian.
Inductive ftype := Coordinate | ArrayT.
Inductive ctype := CInteger | CReal | CComplex | CPattern.

Lemma length_concat_sum {X} (l : list (list X)) : length (concat l) = list_sum (map (@length X) l).
Proof. induction l as [|a l IH]; cbn [concat map]; auto. rewrite app_length, IH. reflexivity. Qed.
Lemma map_const_sum {X} (l : list X) k : list_sum (map (fun _ => k) l) = length l * k.
Proof. induction l as [|a l IH]; auto. change (list_sum (map (fun _ : X => k) (a :: l))) with (k + list_sum (map (fun _ : X => k) l)). rewrite IH. cbn [length]. lia. Qed.

Section MM.
  (** scalar entries; conj is the identity for real types (matrixmarket.hh:727-736) *)
  Context {T : Type}.
  Variable zero : T.
  Variables opp conj : T -> T.
  (** FieldMatrix<T,n,m> (or a number: n = m = 1) *)
  Notation block := (list (list T)).
  Notation bmat := (list (list (nat * block))).

  (** A coordinate file: size line and the entries (1-based).  Printing and parsing of one number is taken to be exact (DESIGN.md). *)
  Record file := mkFile { f_struct : structure; f_rows : nat; f_cols : nat; f_count : nat; f_entries : list (nat * nat * T) }.

  (** ** Writing *)
  (** mm_print_entry, matrixmarket.hh:1029-1045 *)
  Definition print_block (ri ci : nat) (b : block) : list (nat * nat * T) :=
    flat_map (fun p => map (fun q => (ri + fst p, ci + fst q, snd q)) (combine (seq 0 (length (snd p))) (snd p))) (combine (seq 0 (length b)) b).
  (** countNonZeros for a sparse matrix of n x m blocks (matrixutils.hh:117-128): n*m per stored block *)
  Definition count_nonzeros (n m : nat) (A : bmat) : nat :=
    fold_left (fun s row => fold_left (fun s (_ : nat * block) => s + n * m) row s) A 0.
  (** writeMatrixMarket for matrices, matrixmarket.hh:1094-1113 (header: general) *)
  Definition write (n m M : nat) (A : bmat) : file :=
    mkFile General (length A * n) (M * m) (count_nonzeros n m A)
      (flat_map (fun p => flat_map (fun e => print_block (fst p * n + 1) (fst e * m + 1) (snd e)) (snd p)) (combine (seq 0 (length A)) A)).

  (** ** Reading *)
  (** std::set<IndexData>::insert, ordered by index, keeps the first (matrixmarket.hh:628-635) *)
  Fixpoint ins (j : nat) (v : T) (s : list (nat * T)) : list (nat * T) :=
    match s with
    | nil => [(j, v)]
    | (k, w) :: t => if j =? k then s else if j <? k then (j, v) :: s else (k, w) :: ins j v t
    end.
  (** symmetryFixup lambdas, matrixmarket.hh:797-825 *)
  Definition mirror (st : structure) (v : T) : option T :=
    match st with General => None | Symmetric => Some v | Skew => Some (opp v) | Hermitian => Some (conj v) end.
  (** One iteration of readloop, matrixmarket.hh:782-795.  A row outside of the vector [rows] or a column outside of the matrix is
      undefined behaviour (out of bounds access / stored column out of range).  [dbg] = asserts are compiled in. *)
  Definition read_entry (dbg : bool) (st : structure) (N M m : nat) (rows : list (list (nat * T))) (e : nat * nat * T) : outcome (list (list (nat * T))) :=
    match e with (r1, c1, v) =>
      if (r1 =? 0) || (c1 =? 0) then UB else
      let r := r1 - 1 in let c := c1 - 1 in
      if dbg && negb (r / m <? N) then UB else
      if negb (r <? length rows) || negb (c / m <? M) then UB else
      let rows1 := upd rows r (ins c v (nth r rows nil)) in
      if r =? c then Ok rows1 else
      match mirror st v with
      | None => Ok rows1
      | Some w => if negb (c <? length rows1) || negb (r / m <? M) then UB else Ok (upd rows1 c (ins r w (nth c rows1 nil)))
      end
    end.
  (** the loop over the entries of the file, matrixmarket.hh:780-795 *)
  Fixpoint read_entries (dbg : bool) (st : structure) (N M m : nat) (rows : list (list (nat * T))) (es : list (nat * nat * T)) : outcome (list (list (nat * T))) :=
    match es with
    | nil => Ok rows
    | e :: t => obind (read_entry dbg st N M m rows e) (fun rows' => read_entries dbg st N M m rows' t)
    end.
  (** calculateNNZ, matrixmarket.hh:545-569; [None]: 2*entries-rows wraps around and the allocation of that many blocks fails *)
  Definition announced (n m rows entries : nat) (st : structure) : option nat :=
    match st with
    | General => Some (entries / (n * m))
    | Skew => Some (2 * entries / (n * m))
    | _ => if 2 * entries <? rows then None else Some ((2 * entries - rows) / (n * m))
    end.
  (** Pattern of block row r, matrixmarket.hh:833-844: iter.insert(index/bcols) over the n scalar rows *)
  Definition row_pattern (m : nat) (sets : list (list (nat * T))) : list nat :=
    fold_left (fun P s => fold_left (fun P e => set_ins (fst e / m) P) s P) sets nil.
  (** Row-wise creation of N rows with [ann] announced blocks (behaviour proved in C03: 0 = not announced; too many entries throw;
      a matrix without rows cannot be created row-wise), then matrix = 0 (matrixmarket.hh:847). *)
  Definition create_blocks (n m ann : nat) (pats : list (list nat)) : outcome bmat :=
    match pats with
    | nil => Throw EBCRS
    | _ => if (0 <? ann) && (ann <? set_nnz pats) then Throw EBCRS
           else Ok (map (map (fun c => (c, repeat (repeat zero m) n))) pats)
    end.
  (** iter->[c][i][j] = v, matrixmarket.hh:713; a missing block is undefined behaviour *)
  Definition bset (b : block) (i j : nat) (v : T) : block := upd b i (upd (nth i b nil) j v).
  Fixpoint row_bset (row : list (nat * block)) (c i j : nat) (v : T) : outcome (list (nat * block)) :=
    match row with
    | nil => UB
    | (k, b) :: t => if k =? c then Ok ((k, bset b i j v) :: t) else obind (row_bset t c i j v) (fun t' => Ok ((k, b) :: t'))
    end.
  Fixpoint set_srow (m i : nat) (s : list (nat * T)) (row : list (nat * block)) : outcome (list (nat * block)) :=
    match s with
    | nil => Ok row
    | (j, v) :: t => obind (row_bset row (j / m) i (j mod m) v) (set_srow m i t)
    end.
  (** the scalar rows of a block row (MatrixValuesSetter, matrixmarket.hh:676-717) *)
  Fixpoint set_brow (m i : nat) (sets : list (list (nat * T))) (row : list (nat * block)) : outcome (list (nat * block)) :=
    match sets with
    | nil => Ok row
    | s :: t => obind (set_srow m i s row) (set_brow m (S i) t)
    end.
  (** the n scalar rows of block row r *)
  Definition sets_of (n r : nat) (rows : list (list (nat * T))) : list (list (nat * T)) := firstn n (skipn (r * n) rows).
  (** MatrixValuesSetter, matrixmarket.hh:680-717 *)
  Fixpoint set_values (n m r : nat) (rows : list (list (nat * T))) (A : bmat) : outcome bmat :=
    match A with
    | nil => Ok nil
    | row :: t => obind (set_brow m 0 (sets_of n r rows) row) (fun row' => obind (set_values n m (S r) rows t) (fun t' => Ok (row' :: t')))
    end.
  (** readMatrixMarket for matrices, matrixmarket.hh:976-1026, and readSparseEntries, :761-851 *)
  Definition read (dbg : bool) (n m : nat) (f : file) : outcome (nat * nat * bmat) :=
    let N := f_rows f / n in let M := f_cols f / m in
    match announced n m (f_rows f) (f_count f) (f_struct f) with
    | None => Throw EAlloc
    | Some ann =>
      if length (f_entries f) <? f_count f then UB else
      obind (read_entries dbg (f_struct f) N M m (repeat nil (N * n)) (firstn (f_count f) (f_entries f))) (fun rows =>
      obind (create_blocks n m ann (map (fun r => row_pattern m (sets_of n r rows)) (seq 0 N))) (fun A0 =>
      obind (set_values n m 0 rows A0) (fun A => Ok (N, M, A))))
    end.

  (** ** Specification *)
  (** The 0-based entries a file stands for: the listed ones and the mirrored ones. *)
  Definition expand1 (st : structure) (e : nat * nat * T) : list (nat * nat * T) :=
    match e with (r1, c1, v) =>
      (r1 - 1, c1 - 1, v) :: if r1 =? c1 then nil else match mirror st v with None => nil | Some w => [(c1 - 1, r1 - 1, w)] end
    end.
  Definition expand (st : structure) (es : list (nat * nat * T)) : list (nat * nat * T) := flat_map (expand1 st) es.
  (** Value of a scalar entry: the first one in the file counts. *)
  Fixpoint lookup (L : list (nat * nat * T)) (i j : nat) : option T :=
    match L with
    | nil => None
    | (r, c, v) :: t => if (r =? i) && (c =? j) then Some v else lookup t i j
    end.
  Definition bentry (b : block) (i j : nat) : T := nth j (nth i b nil) zero.
  Definition block_dims (n m : nat) (b : block) : Prop := length b = n /\ forall i, i < n -> length (nth i b nil) = m.
  (** [A] is the n x m - block matrix with N block rows described by the scalar entries L *)
  Definition describes (n m N : nat) (L : list (nat * nat * T)) (A : bmat) : Prop :=
    length A = N /\ forall r, r < N ->
      StronglySorted lt (map fst (nth r A nil)) /\
      (forall c, In c (map fst (nth r A nil)) <-> exists a b, a < n /\ b < m /\ lookup L (r * n + a) (c * m + b) <> None) /\
      (forall c b, In (c, b) (nth r A nil) -> block_dims n m b /\
         forall i j, i < n -> j < m -> bentry b i j = match lookup L (r * n + i) (c * m + j) with Some v => v | None => zero end).
  Definition block_wf (n m N M : nat) (A : bmat) : Prop :=
    length A = N /\ forall row, In row A -> StronglySorted lt (map fst row) /\ forall c b, In (c, b) row -> c < M /\ block_dims n m b.

  (** ** Proofs *)
  Fixpoint assoc {X} (j : nat) (s : list (nat * X)) : option X :=
    match s with nil => None | (k, v) :: t => if k =? j then Some v else assoc j t end.
  Lemma assoc_in {X} j (s : list (nat * X)) v : assoc j s = Some v -> In (j, v) s.
  Proof.
    induction s as [|[k w] s IH]; cbn; [discriminate|]. destruct (Nat.eqb_spec k j).
    - intros H; injection H as <-. subst. auto.
    - auto.
  Qed.
  Lemma assoc_none {X} j (s : list (nat * X)) : assoc j s = None <-> ~ In j (map fst s).
  Proof.
    induction s as [|[k w] s IH]; cbn; [intuition|]. destruct (Nat.eqb_spec k j).
    - subst. intuition discriminate.
    - rewrite IH. intuition.
  Qed.
  Lemma in_assoc {X} j (s : list (nat * X)) v : NoDup (map fst s) -> In (j, v) s -> assoc j s = Some v.
  Proof.
    induction s as [|[k w] s IH]; cbn; intros H HI; [contradiction|destruct HI as [E|E]].
    - injection E as -> ->. rewrite Nat.eqb_refl. auto.
    - apply NoDup_cons_iff in H. destruct H as [H1 H2]. destruct (Nat.eqb_spec k j); [|auto].
      subst. exfalso. apply H1. apply in_map_iff. exists (j, v). auto.
  Qed.

  Lemma ins_keys j v s x : In x (map fst (ins j v s)) <-> x = j \/ In x (map fst s).
  Proof.
    induction s as [|[k w] s IH]; cbn; [intuition|].
    destruct (Nat.eqb_spec j k); [subst; cbn; intuition|]. destruct (j <? k) eqn:E1; cbn; [intuition|]. rewrite IH. intuition.
  Qed.
  Lemma ins_sorted j v s : StronglySorted lt (map fst s) -> StronglySorted lt (map fst (ins j v s)).
  Proof.
    induction s as [|[k w] s IH]; intros H; cbn; [repeat constructor|]. cbn in H.
    destruct (Nat.eqb_spec j k); [auto|]. apply StronglySorted_inv in H as H'. destruct H' as [H1 H2].
    destruct (Nat.ltb_spec j k); cbn.
    - constructor; auto. constructor; auto. rewrite Forall_forall in *. intros x Hx. specialize (H2 x Hx). lia.
    - constructor; auto. rewrite Forall_forall in *. intros x Hx. apply ins_keys in Hx. destruct Hx as [->|Hx]; [lia|auto].
  Qed.
  Lemma ins_assoc j v s x : StronglySorted lt (map fst s) ->
    assoc x (ins j v s) = match assoc x s with Some w => Some w | None => if j =? x then Some v else None end.
  Proof.
    induction s as [|[k w] s IH]; intros H; cbn; [destruct (j =? x); auto|]. cbn in H.
    apply StronglySorted_inv in H as H'. destruct H' as [H1 H2].
    destruct (Nat.eqb_spec j k).
    - subst. cbn. destruct (Nat.eqb_spec k x); auto. destruct (assoc x s); auto.
    - destruct (Nat.ltb_spec j k); cbn.
      + destruct (Nat.eqb_spec j x).
        * subst. destruct (Nat.eqb_spec k x); [lia|]. destruct (assoc x s) eqn:E1; auto. apply assoc_in in E1.
          rewrite Forall_forall in H2. specialize (H2 x (in_map fst _ _ E1)). lia.
        * destruct (k =? x); auto. destruct (assoc x s); auto.
      + rewrite IH by auto. destruct (k =? x); auto.
  Qed.

  Lemma nth_upd_lt {X} (l : list X) i j x d : i < length l -> nth j (upd l i x) d = if i =? j then x else nth j l d.
  Proof. intros H. rewrite nth_upd. destruct (Nat.eqb_spec i j); auto. subst. replace (j <? length l) with true by (symmetry; apply Nat.ltb_lt; auto). auto. Qed.

  (** collecting the entries *)
  Definition put (rows : list (list (nat * T))) (e : nat * nat * T) := match e with (i, j, v) => upd rows i (ins j v (nth i rows nil)) end.
  Definition rows_ok (N M n m : nat) (L : list (nat * nat * T)) : Prop := forall i j v, In (i, j, v) L -> i < N * n /\ j < M * m.
  Lemma put_length rows e : length (put rows e) = length rows.
  Proof. destruct e as [[i j] v]. apply upd_length. Qed.
  Lemma puts_length L rows : length (fold_left put L rows) = length rows.
  Proof. revert rows; induction L; intros rows; cbn; auto. rewrite IHL. apply put_length. Qed.
  Lemma puts_spec L rows : (forall i j v, In (i, j, v) L -> i < length rows) -> (forall i, StronglySorted lt (map fst (nth i rows nil))) ->
    (forall i, StronglySorted lt (map fst (nth i (fold_left put L rows) nil))) /\
    (forall i j, assoc j (nth i (fold_left put L rows) nil) = match assoc j (nth i rows nil) with Some w => Some w | None => lookup L i j end).
  Proof.
    revert rows. induction L as [|[[r c] v] L IH]; intros rows HL HS; cbn [fold_left lookup].
    - split; auto. intros i j. destruct (assoc j (nth i rows nil)); auto.
    - assert (Hr : r < length rows) by (apply (HL r c v); left; auto).
      assert (S1 : forall i, StronglySorted lt (map fst (nth i (put rows (r, c, v)) nil))).
      { intros i. cbn. rewrite nth_upd_lt by auto. destruct (Nat.eqb_spec r i); auto. apply ins_sorted; auto. }
      destruct (IH (put rows (r, c, v))) as [A1 A2]; [|auto|].
      { intros i j w H. rewrite put_length. apply (HL i j w). right; auto. }
      split; auto. intros i j. rewrite A2. cbn. rewrite nth_upd_lt by auto. destruct (Nat.eqb_spec r i); cbn.
      + subst. rewrite ins_assoc by auto. destruct (assoc j (nth i rows nil)); auto. destruct (c =? j); auto.
      + auto.
  Qed.
  Lemma div_lt_mul a b m : 0 < m -> (a / m < b <-> a < b * m).
  Proof. intros H. rewrite (Nat.mul_comm b m). split; intros. - pose proof (Nat.mul_succ_div_gt a m). nia. - apply Nat.div_lt_upper_bound; lia. Qed.

  Lemma read_entries_ok dbg st N M n m es rows : 0 < n -> 0 < m -> (dbg = true -> n <= m) -> length rows = N * n ->
    (forall r c v, In (r, c, v) es -> 0 < r /\ 0 < c) -> rows_ok N M n m (expand st es) ->
    read_entries dbg st N M m rows es = Ok (fold_left put (expand st es) rows).
  Proof.
    intros Hn Hm HD. revert rows. induction es as [|[[r c] v] es IH]; intros rows HL HP HR; [reflexivity|].
    cbn [read_entries expand flat_map]. rewrite fold_left_app.
    assert (Hp : 0 < r /\ 0 < c) by (apply (HP r c v); left; auto).
    assert (H1 : r - 1 < N * n /\ c - 1 < M * m).
    { apply (HR (r - 1) (c - 1) v). cbn. left; auto. }
    assert (E1 : read_entry dbg st N M m rows (r, c, v) = Ok (fold_left put (expand1 st (r, c, v)) rows)).
    { unfold read_entry, expand1. destruct (Nat.eqb_spec r 0); [lia|]. destruct (Nat.eqb_spec c 0); [lia|]. cbn [orb].
      replace (dbg && negb ((r - 1) / m <? N)) with false.
      2:{ destruct dbg; cbn; auto. specialize (HD eq_refl). destruct (Nat.ltb_spec ((r - 1) / m) N) as [|G]; auto.
          exfalso. assert (r - 1 < N * m) by nia. apply (div_lt_mul (r - 1) N m Hm) in H. lia. }
      replace (r - 1 <? length rows) with true by (symmetry; apply Nat.ltb_lt; lia).
      replace ((c - 1) / m <? M) with true by (symmetry; apply Nat.ltb_lt, div_lt_mul; lia). cbn [orb negb].
      destruct (Nat.eqb_spec (r - 1) (c - 1)) as [e|e]; destruct (Nat.eqb_spec r c) as [e'|e']; try lia; [reflexivity|].
      destruct (mirror st v) as [w|] eqn:EM; [|reflexivity].
      assert (H2 : c - 1 < N * n /\ r - 1 < M * m).
      { apply (HR (c - 1) (r - 1) w). unfold expand. cbn [flat_map]. apply in_or_app. left. unfold expand1.
        destruct (Nat.eqb_spec r c); [lia|]. rewrite EM. right; left; auto. }
      rewrite upd_length. replace (c - 1 <? length rows) with true by (symmetry; apply Nat.ltb_lt; lia).
      replace ((r - 1) / m <? M) with true by (symmetry; apply Nat.ltb_lt, div_lt_mul; lia). reflexivity. }
    rewrite E1. cbn [obind]. apply IH.
    - rewrite puts_length. auto.
    - intros r' c' v' H. apply (HP r' c' v'). right; auto.
    - intros i j w H. apply (HR i j w). unfold expand. cbn [flat_map]. apply in_or_app. auto.
  Qed.

  (** the pattern *)
  Lemma pat_inner m s P : StronglySorted lt P ->
    StronglySorted lt (fold_left (fun P (e : nat * T) => set_ins (fst e / m) P) s P) /\
    forall c, In c (fold_left (fun P (e : nat * T) => set_ins (fst e / m) P) s P) <-> In c P \/ exists j, In j (map fst s) /\ j / m = c.
  Proof.
    revert P. induction s as [|[j v] s IH]; intros P HP; cbn [fold_left].
    - split; auto. intros c. split; auto. intros [H|[j [[] _]]]; auto.
    - destruct (IH (set_ins (j / m) P) (set_ins_sorted _ _ HP)) as [A1 A2]. split; auto.
      intros c. cbn [fst]. rewrite A2, set_ins_in. cbn [map fst]. split.
      + intros [[->|H]|[j' [H1 H2]]]; auto; right; [exists j|exists j']; cbn; auto.
      + intros [H|[j' [[->|H1] H2]]]; auto. right. exists j'. auto.
  Qed.
  Lemma pat_outer m sets P : StronglySorted lt P ->
    StronglySorted lt (fold_left (fun P s => fold_left (fun P (e : nat * T) => set_ins (fst e / m) P) s P) sets P) /\
    forall c, In c (fold_left (fun P s => fold_left (fun P (e : nat * T) => set_ins (fst e / m) P) s P) sets P) <->
              In c P \/ exists s j, In s sets /\ In j (map fst s) /\ j / m = c.
  Proof.
    revert P. induction sets as [|s sets IH]; intros P HP; cbn [fold_left].
    - split; auto. intros c. split; auto. intros [H|[s [j [[] _]]]]; auto.
    - destruct (pat_inner m s P HP) as [B1 B2]. destruct (IH _ B1) as [A1 A2]. split; auto.
      intros c. rewrite A2, B2. split.
      + intros [[H|[j [H1 H2]]]|[s' [j [H1 [H2 H3]]]]]; auto; right; [exists s, j|exists s', j]; cbn; auto.
      + intros [H|[s' [j [[->|H1] [H2 H3]]]]]; auto. * left; right; exists j; auto. * right. exists s', j. auto.
  Qed.

  (** the values *)
  Definition rget (row : list (nat * block)) (c i j : nat) : option T := match assoc c row with Some b => Some (bentry b i j) | None => None end.
  Definition row_dims (n m : nat) (row : list (nat * block)) : Prop := forall c b, In (c, b) row -> block_dims n m b.
  Lemma bset_dims n m b i j v : i < n -> block_dims n m b -> block_dims n m (bset b i j v).
  Proof.
    intros Hi [H1 H2]. unfold bset. split; [rewrite upd_length; auto|]. intros k Hk. rewrite nth_upd_lt by lia.
    destruct (Nat.eqb_spec i k); [subst; rewrite upd_length; auto|auto].
  Qed.
  Lemma bset_get n m b i j v i' j' : i < n -> j < m -> block_dims n m b ->
    bentry (bset b i j v) i' j' = if (i =? i') && (j =? j') then v else bentry b i' j'.
  Proof.
    intros Hi Hj [H1 H2]. unfold bset, bentry. rewrite nth_upd_lt by lia. destruct (Nat.eqb_spec i i'); cbn; auto. subst.
    rewrite nth_upd_lt by (rewrite H2; lia). destruct (j =? j'); auto.
  Qed.
  Lemma row_bset_ok n m row c i j v : i < n -> j < m -> row_dims n m row -> In c (map fst row) ->
    exists row', row_bset row c i j v = Ok row' /\ map fst row' = map fst row /\ row_dims n m row' /\
      forall c' i' j', rget row' c' i' j' = if (c =? c') && ((i =? i') && (j =? j')) then Some v else rget row c' i' j'.
  Proof.
    intros Hi Hj. induction row as [|[k b] row IH]; intros HD HI; [destruct HI|]. cbn [row_bset].
    assert (Hb : block_dims n m b) by (apply (HD k b); left; auto).
    destruct (Nat.eqb_spec k c).
    - subst. eexists. split; [reflexivity|]. split; [reflexivity|]. split.
      + intros c' b' [H|H]; [injection H as <- <-; apply bset_dims; auto|apply (HD c' b'); right; auto].
      + intros c' i' j'. unfold rget. cbn [assoc]. destruct (Nat.eqb_spec c c'); cbn [andb]; auto. rewrite (bset_get n m) by auto.
        destruct ((i =? i') && (j =? j')); auto.
    - destruct IH as [row' [E1 [E2 [E3 E4]]]].
      + intros c' b' H. apply (HD c' b'). right; auto.
      + destruct HI as [H|H]; [cbn in H; lia|auto].
      + exists ((k, b) :: row'). rewrite E1. split; [reflexivity|]. split; [cbn [map fst]; f_equal; auto|]. split.
        * intros c' b' [H|H]; [injection H as <- <-; auto|apply (E3 c' b'); auto].
        * intros c' i' j'. specialize (E4 c' i' j'). unfold rget in *. cbn [assoc]. destruct (Nat.eqb_spec k c'); [|auto].
          subst. destruct (Nat.eqb_spec c c'); [lia|]. cbn [andb]. auto.
  Qed.
  Lemma key_split m c b j : 0 < m -> b < m -> (c * m + b = j <-> j / m = c /\ j mod m = b).
  Proof.
    intros Hm Hb. pose proof (Nat.div_mod_eq j m). pose proof (Nat.mod_upper_bound j m ltac:(lia)). split.
    - intros H1. assert (j / m = c). { rewrite <- H1. rewrite Nat.div_add_l by lia. rewrite Nat.div_small; lia. } nia.
    - intros [<- <-]. lia.
  Qed.
  Lemma set_srow_ok n m i s row : 0 < m -> i < n -> NoDup (map fst s) -> row_dims n m row ->
    (forall j, In j (map fst s) -> In (j / m) (map fst row)) ->
    exists row', set_srow m i s row = Ok row' /\ map fst row' = map fst row /\ row_dims n m row' /\
      forall c' i' j', j' < m -> rget row' c' i' j' = if i =? i' then match assoc (c' * m + j') s with Some v => Some v | None => rget row c' i' j' end else rget row c' i' j'.
  Proof.
    intros Hm Hi. revert row. induction s as [|[j v] s IH]; intros row HN HD HI.
    - exists row. split; [reflexivity|]. split; [auto|]. split; [auto|]. intros c' i' j' _. cbn [assoc]. destruct (i =? i'); auto.
    - cbn [set_srow]. destruct (row_bset_ok n m row (j / m) i (j mod m) v) as [row1 [E1 [E2 [E3 E4]]]]; auto.
      { apply Nat.mod_upper_bound; lia. } { apply HI. left; auto. }
      rewrite E1. cbn [obind]. cbn [map fst] in HN. apply NoDup_cons_iff in HN. destruct HN as [HN1 HN2].
      destruct (IH row1) as [row' [F1 [F2 [F3 F4]]]]; auto.
      { intros j' H. rewrite E2. apply HI. right; auto. }
      exists row'. split; auto. split; [congruence|]. split; auto. intros c' i' j' Hj'. rewrite F4 by auto. rewrite E4. cbn [assoc].
      destruct (Nat.eqb_spec i i'); cbn [andb].
      2:{ destruct (j / m =? c'); auto. }
      subst. destruct (Nat.eqb_spec j (c' * m + j')) as [e|e].
      + symmetry in e. pose proof e as e'. apply key_split in e; auto. destruct e as [-> ->]. rewrite !Nat.eqb_refl. cbn [andb].
        rewrite e'. destruct (assoc j s) eqn:EA; auto. apply assoc_in in EA. exfalso. apply HN1. apply in_map_iff. exists (j, t). auto.
      + destruct (assoc (c' * m + j') s); auto. destruct (Nat.eqb_spec (j / m) c'); auto. destruct (Nat.eqb_spec (j mod m) j'); auto.
        exfalso. apply e. symmetry. apply key_split; auto.
  Qed.
  Lemma set_brow_ok n m i0 sets row : 0 < m -> i0 + length sets <= n -> (forall s, In s sets -> NoDup (map fst s)) -> row_dims n m row ->
    (forall s j, In s sets -> In j (map fst s) -> In (j / m) (map fst row)) ->
    exists row', set_brow m i0 sets row = Ok row' /\ map fst row' = map fst row /\ row_dims n m row' /\
      forall c' i' j', j' < m -> rget row' c' i' j' =
        if (i0 <=? i') && (i' <? i0 + length sets) then match assoc (c' * m + j') (nth (i' - i0) sets nil) with Some v => Some v | None => rget row c' i' j' end else rget row c' i' j'.
  Proof.
    intros Hm. revert i0 row. induction sets as [|s sets IH]; intros i0 row HL HN HD HI.
    - exists row. split; [reflexivity|]. split; [auto|]. split; [auto|]. intros c' i' j' _. cbn [length].
      destruct (Nat.leb_spec i0 i'); destruct (Nat.ltb_spec i' (i0 + 0)); cbn; auto. lia.
    - cbn [length] in HL. cbn [set_brow]. destruct (set_srow_ok n m i0 s row) as [row1 [E1 [E2 [E3 E4]]]]; auto; [lia|apply HN; left; auto| |].
      { intros j H. apply (HI s j); auto. left; auto. }
      rewrite E1. cbn [obind]. destruct (IH (S i0) row1) as [row' [F1 [F2 [F3 F4]]]]; auto; [lia|intros; apply HN; right; auto| |].
      { intros s' j H H'. rewrite E2. apply (HI s' j); auto. right; auto. }
      exists row'. split; auto. split; [congruence|]. split; auto. intros c' i' j' Hj'. rewrite F4 by auto. rewrite E4 by auto. cbn [length].
      destruct (Nat.leb_spec (S i0) i'); destruct (Nat.ltb_spec i' (S i0 + length sets)); cbn [andb].
      + replace (i0 <=? i') with true by (symmetry; apply Nat.leb_le; lia).
        replace (i' <? i0 + S (length sets)) with true by (symmetry; apply Nat.ltb_lt; lia). cbn [andb].
        destruct (Nat.eqb_spec i0 i'); [lia|]. replace (i' - i0) with (S (i' - S i0)) by lia. reflexivity.
      + replace (i' <? i0 + S (length sets)) with false by (symmetry; apply Nat.ltb_ge; lia). rewrite andb_false_r.
        destruct (Nat.eqb_spec i0 i'); [lia|]. reflexivity.
      + destruct (Nat.eqb_spec i0 i').
        * subst. rewrite Nat.leb_refl, Nat.sub_diag. replace (i' <? i' + S (length sets)) with true by (symmetry; apply Nat.ltb_lt; lia). reflexivity.
        * replace (i0 <=? i') with false by (symmetry; apply Nat.leb_gt; lia). reflexivity.
      + lia.
  Qed.
  Lemma sets_len N n r (rows : list (list (nat * T))) : length rows = N * n -> r < N -> length (sets_of n r rows) = n.
  Proof. intros H1 H2. unfold sets_of. rewrite firstn_length, skipn_length. nia. Qed.
  Lemma nth_firstn_lt {X} (l : list X) k i d : i < k -> nth i (firstn k l) d = nth i l d.
  Proof. revert k i. induction l; intros [|k] [|i] H; cbn; auto; try lia. apply IHl. lia. Qed.
  Lemma nth_skipn {X} (l : list X) k i d : nth i (skipn k l) d = nth (k + i) l d.
  Proof. revert l. induction k; intros [|x l]; cbn; auto. destruct i; auto. Qed.
  Lemma sets_nth n r (rows : list (list (nat * T))) a : a < n -> nth a (sets_of n r rows) nil = nth (r * n + a) rows nil.
  Proof. intros H. unfold sets_of. rewrite nth_firstn_lt by auto. apply nth_skipn. Qed.
  Lemma set_values_ok n m rows (P : nat -> list (nat * block) -> Prop) A r0 :
    (forall k, k < length A -> exists row', set_brow m 0 (sets_of n (r0 + k) rows) (nth k A nil) = Ok row' /\ P (r0 + k) row') ->
    exists A', set_values n m r0 rows A = Ok A' /\ length A' = length A /\ forall k, k < length A -> P (r0 + k) (nth k A' nil).
  Proof.
    revert r0. induction A as [|row A IH]; intros r0 H; cbn [set_values].
    - exists nil. split; [auto|]. split; [auto|]. cbn; lia.
    - destruct (H 0) as [row' [E1 E2]]; [cbn; lia|]. rewrite Nat.add_0_r in *. cbn [nth] in E1. rewrite E1. cbn [obind].
      destruct (IH (S r0)) as [A' [F1 [F2 F3]]].
      { intros k Hk. destruct (H (S k)) as [row1 [G1 G2]]; [cbn; lia|]. exists row1. replace (S r0 + k) with (r0 + S k) by lia. auto. }
      rewrite F1. cbn [obind]. exists (row' :: A'). split; auto. split; [cbn; auto|]. intros [|k] Hk; cbn [nth].
      + rewrite Nat.add_0_r. auto.
      + replace (r0 + S k) with (S r0 + k) by lia. apply F3. cbn in Hk. lia.
  Qed.
  Definition nblocks (A : bmat) : nat := list_sum (map (@length _) A).
  Lemma set_nnz_sum (E : list (list nat)) : set_nnz E = list_sum (map (@length _) E).
  Proof.
    unfold set_nnz. assert (G : forall s, fold_left (fun s l => s + length l) E s = s + list_sum (map (@length nat) E)).
    { induction E as [|l E IH]; intros s; cbn [fold_left map list_sum fold_right]; [lia|]. rewrite IH. unfold list_sum. cbn [fold_right]. lia. }
    apply G.
  Qed.
  Lemma StronglySorted_nodup (l : list nat) : StronglySorted lt l -> NoDup l.
  Proof.
    induction l as [|a l IH]; intros H; constructor; apply StronglySorted_inv in H; destruct H as [H1 H2]; auto.
    intros HI. rewrite Forall_forall in H2. specialize (H2 a HI). lia.
  Qed.
  Lemma nth_repeat_nil {X} i k : nth i (repeat (@nil X) k) nil = nil.
  Proof. revert i. induction k; intros [|i]; cbn; auto. Qed.
  Lemma nth_map_d {X Y} (f : X -> Y) l i d d' : i < length l -> nth i (map f l) d' = f (nth i l d).
  Proof. intros H. rewrite (nth_indep _ d' (f d)) by (rewrite map_length; auto). apply map_nth. Qed.

  Lemma create_blocks_pos n m ann pats : 0 < length pats ->
    create_blocks n m ann pats = if (0 <? ann) && (ann <? set_nnz pats) then Throw EBCRS else Ok (map (map (fun c => (c, repeat (repeat zero m) n))) pats).
  Proof. destruct pats; cbn [length]; [lia|reflexivity]. Qed.

  (** Reading a file in general: the matrix it describes, or an exception if more blocks are needed than were announced. *)
  Theorem C24_read dbg n m f ann : 0 < n -> 0 < m -> (dbg = true -> n <= m) ->
    0 < f_rows f / n -> f_count f = length (f_entries f) ->
    (forall r c v, In (r, c, v) (f_entries f) -> 0 < r /\ 0 < c) ->
    rows_ok (f_rows f / n) (f_cols f / m) n m (expand (f_struct f) (f_entries f)) ->
    announced n m (f_rows f) (length (f_entries f)) (f_struct f) = Some ann ->
    exists A, describes n m (f_rows f / n) (expand (f_struct f) (f_entries f)) A /\
      read dbg n m f = if (0 <? ann) && (ann <? nblocks A) then Throw EBCRS else Ok (f_rows f / n, f_cols f / m, A).
  Proof.
    intros Hn Hm HD HN HC HP HR HA. set (N := f_rows f / n) in *. set (M := f_cols f / m) in *. set (L := expand (f_struct f) (f_entries f)) in *.
    unfold read. fold N M. rewrite HC, HA, Nat.ltb_irrefl, firstn_all.
    rewrite (read_entries_ok dbg (f_struct f) N M n m) by (auto; rewrite repeat_length; auto). fold L. cbn [obind].
    set (rows := fold_left put L (repeat nil (N * n))).
    assert (Hlen : length rows = N * n) by (unfold rows; rewrite puts_length, repeat_length; auto).
    destruct (puts_spec L (repeat nil (N * n))) as [PS PA].
    { intros i j v H. rewrite repeat_length. apply (HR i j v H). } { intros i. rewrite nth_repeat_nil. constructor. }
    fold rows in PS, PA.
    assert (PA' : forall i j, assoc j (nth i rows nil) = lookup L i j) by (intros; rewrite PA, nth_repeat_nil; auto). clear PA.
    set (pats := map (fun r => row_pattern m (sets_of n r rows)) (seq 0 N)).
    assert (Pl : length pats = N) by (unfold pats; rewrite map_length, seq_length; auto).
    assert (Pn : forall r, r < N -> nth r pats nil = row_pattern m (sets_of n r rows)).
    { intros r Hr. unfold pats. rewrite (nth_map_d _ _ _ 0) by (rewrite seq_length; auto). rewrite seq_nth by auto. auto. }
    assert (Pin : forall r s, r < N -> In s (sets_of n r rows) -> exists a, a < n /\ s = nth (r * n + a) rows nil).
    { intros r s Hr Hs. apply (In_nth _ _ nil) in Hs. destruct Hs as [a [Ha Es]]. rewrite (sets_len N) in Ha by auto. exists a. split; auto.
      rewrite <- Es. apply sets_nth; auto. }
    assert (Pp : forall r, r < N -> StronglySorted lt (nth r pats nil) /\
       forall c, In c (nth r pats nil) <-> exists a b, a < n /\ b < m /\ lookup L (r * n + a) (c * m + b) <> None).
    { intros r Hr. rewrite Pn by auto. destruct (pat_outer m (sets_of n r rows) nil) as [Q1 Q2]; [constructor|]. split; [exact Q1|].
      intros c. unfold row_pattern. rewrite Q2. split.
      - intros [[]|[s [j [H1 [H2 H3]]]]]. destruct (Pin r s Hr H1) as [a [Ha ->]]. exists a, (j mod m).
        split; auto. split; [apply Nat.mod_upper_bound; lia|]. rewrite <- H3.
        replace (j / m * m + j mod m) with j by (pose proof (Nat.div_mod_eq j m); lia).
        rewrite <- PA'. intros HH. apply assoc_none in HH. auto.
      - intros [a [b [Ha [Hb HH]]]]. right. exists (nth a (sets_of n r rows) nil), (c * m + b).
        split; [apply nth_In; rewrite (sets_len N); auto|]. rewrite sets_nth by auto. split.
        + rewrite <- PA' in HH. destruct (in_dec Nat.eq_dec (c * m + b) (map fst (nth (r * n + a) rows nil))); auto.
          exfalso. apply HH. apply assoc_none. auto.
        + rewrite Nat.div_add_l by lia. rewrite Nat.div_small; lia. }
    set (zb := repeat (repeat zero m) n).
    assert (Hzb : block_dims n m zb).
    { split; [apply repeat_length|]. intros i Hi. unfold zb. rewrite (nth_indep _ nil (repeat zero m)) by (rewrite repeat_length; auto).
      rewrite nth_repeat, repeat_length. auto. }
    assert (Hz : forall i j, i < n -> j < m -> bentry zb i j = zero).
    { intros i j Hi Hj. unfold bentry, zb. rewrite (nth_indep _ nil (repeat zero m)) by (rewrite repeat_length; auto).
      rewrite nth_repeat. apply nth_repeat. }
    set (A0 := map (map (fun c : nat => (c, zb))) pats).
    assert (A0l : length A0 = N) by (unfold A0; rewrite map_length; auto).
    assert (A0n : forall r, r < N -> nth r A0 nil = map (fun c => (c, zb)) (nth r pats nil)).
    { intros r Hr. unfold A0. apply nth_map_d. lia. }
    assert (A0f : forall l : list nat, map fst (map (fun c => (c, zb)) l) = l).
    { intros l. rewrite map_map. cbn [fst]. apply map_id. }
    destruct (set_values_ok n m rows (fun r row => map fst row = nth r pats nil /\ row_dims n m row /\
        forall c b i j, i < n -> j < m -> In (c, b) row -> bentry b i j = match lookup L (r * n + i) (c * m + j) with Some v => v | None => zero end) A0 0) as [A [E1 [E2 E3]]].
    { intros r Hr. cbn [Nat.add]. rewrite A0l in Hr. rewrite A0n by auto.
      destruct (set_brow_ok n m 0 (sets_of n r rows) (map (fun c => (c, zb)) (nth r pats nil))) as [row' [F1 [F2 [F3 F4]]]]; auto.
      - rewrite (sets_len N); auto.
      - intros s Hs. destruct (Pin r s Hr Hs) as [a [Ha ->]]. apply StronglySorted_nodup, PS.
      - intros c b H. apply in_map_iff in H. destruct H as [c' [H _]]. injection H as _ <-. auto.
      - intros s j Hs Hj. rewrite A0f. apply (Pp r Hr). destruct (Pin r s Hr Hs) as [a [Ha ->]]. exists a, (j mod m).
        split; auto. split; [apply Nat.mod_upper_bound; lia|].
        replace (j / m * m + j mod m) with j by (pose proof (Nat.div_mod_eq j m); lia).
        rewrite <- PA'. intros HH. apply assoc_none in HH. auto.
      - exists row'. split; auto. rewrite A0f in F2. split; auto. split; auto. intros c b i j Hi Hj HI.
        specialize (F4 c i j Hj). rewrite (sets_len N) in F4 by auto. rewrite Nat.leb_refl in F4 || idtac.
        replace (i <? 0 + n) with true in F4 by (symmetry; apply Nat.ltb_lt; auto).
        replace (0 <=? i) with true in F4 by (symmetry; apply Nat.leb_le; lia). cbn [andb] in F4. rewrite Nat.sub_0_r, sets_nth, PA' in F4 by auto.
        unfold rget in F4. rewrite (in_assoc c row' b) in F4; auto.
        2:{ rewrite F2. apply StronglySorted_nodup, (Pp r Hr). }
        rewrite (in_assoc c _ zb) in F4.
        + rewrite Hz in F4 by auto. destruct (lookup L (r * n + i) (c * m + j)); congruence.
        + rewrite A0f. apply StronglySorted_nodup, (Pp r Hr).
        + apply in_map_iff. exists c. split; auto. rewrite <- F2. apply in_map_iff. exists (c, b). auto. }
    exists A. rewrite A0l in *. cbn [Nat.add] in E3. split.
    - split; auto. intros r Hr. destruct (E3 r Hr) as [G1 [G2 G3]]. rewrite G1. destruct (Pp r Hr) as [Q1 Q2]. split; auto. split; auto.
      intros c b HI. split; [apply (G2 c b); auto|]. intros i j Hi Hj. apply G3; auto.
    - assert (EN : set_nnz pats = nblocks A).
      { rewrite set_nnz_sum. unfold nblocks. f_equal. apply (list_ext _ _ 0); rewrite !map_length; [lia|]. intros i Hi. 
        rewrite (nth_map_d _ _ _ nil) by auto. rewrite (nth_map_d _ _ _ nil) by lia. destruct (E3 i) as [G1 _]; [lia|]. rewrite <- G1. apply map_length. }
      rewrite create_blocks_pos by lia. rewrite EN. fold zb A0.
      destruct ((0 <? ann) && (ann <? nblocks A)); [reflexivity|]. cbn [obind]. rewrite E1. reflexivity.
  Qed.

  Lemma lookup_some L i j v : lookup L i j = Some v -> In (i, j, v) L.
  Proof.
    induction L as [|[[r c] w] L IH]; cbn; [discriminate|]. destruct (Nat.eqb_spec r i); destruct (Nat.eqb_spec c j); cbn; auto.
    intros H. injection H as <-. subst. auto.
  Qed.
  Lemma lookup_none L i j v : lookup L i j = None -> ~ In (i, j, v) L.
  Proof.
    induction L as [|[[r c] w] L IH]; cbn; auto. destruct (Nat.eqb_spec r i); destruct (Nat.eqb_spec c j); cbn; try discriminate;
    intros H [H1|H1]; try (injection H1 as -> -> _; contradiction); apply IH; auto.
  Qed.
  Lemma in_print_block n m ri ci b x y v : block_dims n m b ->
    (In (x, y, v) (print_block ri ci b) <-> exists i j, i < n /\ j < m /\ x = ri + i /\ y = ci + j /\ v = bentry b i j).
  Proof.
    intros [H1 H2]. unfold print_block. rewrite in_flat_map. split.
    - intros [[i bi] [G1 G2]]. apply (in_combine_seq b nil) in G1. destruct G1 as [G1 ->]. cbn [snd fst] in G2. apply in_map_iff in G2.
      destruct G2 as [[j w] [G3 G4]]. apply (in_combine_seq _ zero) in G4. destruct G4 as [G4 ->]. cbn [fst snd] in G3. injection G3 as <- <- <-.
      rewrite H1 in G1. rewrite H2 in G4 by auto. exists i, j. repeat (split; auto).
    - intros [i [j [Hi [Hj [-> [-> ->]]]]]]. exists (i, nth i b nil). split; [apply (in_combine_seq b nil); split; auto; lia|].
      cbn [fst snd]. apply in_map_iff. exists (j, bentry b i j). split; auto. apply (in_combine_seq _ zero). split; auto. rewrite H2; auto.
  Qed.
  Lemma print_block_length n m ri ci b : block_dims n m b -> length (print_block ri ci b) = n * m.
  Proof.
    intros [H1 H2]. unfold print_block. rewrite flat_map_concat_map, length_concat_sum, map_map.
    erewrite map_ext_in with (g := fun _ => m).
    - rewrite map_const_sum, combine_length, seq_length, Nat.min_id, H1. auto.
    - intros [i bi] H. apply (in_combine_seq b nil) in H. destruct H as [H ->]. cbn [snd]. rewrite map_length, combine_length, seq_length, Nat.min_id. apply H2. lia.
  Qed.

  Lemma sorted_same (l1 l2 : list nat) : StronglySorted lt l1 -> StronglySorted lt l2 -> (forall x, In x l1 <-> In x l2) -> l1 = l2.
  Proof.
    revert l2. induction l1 as [|a l1 IH]; intros [|b l2] H1 H2 H; auto.
    - exfalso. apply (H b). left; auto.
    - exfalso. apply (H a). left; auto.
    - apply StronglySorted_inv in H1, H2. destruct H1 as [H1 F1], H2 as [H2 F2]. rewrite Forall_forall in F1, F2.
      assert (a = b).
      { destruct (proj1 (H a) (or_introl eq_refl)) as [|K1]; auto. destruct (proj2 (H b) (or_introl eq_refl)) as [|K2]; auto.
        specialize (F1 _ K2). specialize (F2 _ K1). lia. }
      subst b. f_equal. apply IH; auto. intros x. specialize (H x). cbn in H. split; intros K.
      + specialize (F1 _ K). destruct (proj1 H (or_intror K)); [lia|auto].
      + specialize (F2 _ K). destruct (proj2 H (or_intror K)); [lia|auto].
  Qed.
  Lemma block_ext n m b b' : block_dims n m b -> block_dims n m b' -> (forall i j, i < n -> j < m -> bentry b i j = bentry b' i j) -> b = b'.
  Proof.
    intros [H1 H2] [H3 H4] H. apply (list_ext _ _ nil); [lia|]. intros i Hi. apply (list_ext _ _ zero); [rewrite H2, H4; lia|].
    intros j Hj. apply H; [lia|]. rewrite H2 in Hj; lia.
  Qed.
  Lemma assoc_ext {X} (l1 l2 : list (nat * X)) : map fst l1 = map fst l2 -> NoDup (map fst l1) -> (forall c b b', In (c, b) l1 -> In (c, b') l2 -> b = b') -> l1 = l2.
  Proof.
    revert l2. induction l1 as [|[k b] l1 IH]; intros [|[k' b'] l2] HE HN H; cbn in HE; try discriminate; auto.
    injection HE as -> HE. cbn in HN. apply NoDup_cons_iff in HN. destruct HN as [_ HN]. f_equal.
    - f_equal. apply (H k'); left; auto.
    - apply IH; auto. intros c x x' H1 H2. apply (H c); right; auto.
  Qed.
  (** A file describes one matrix only. *)
  Theorem C24_describes_unique n m N L A B : describes n m N L A -> describes n m N L B -> A = B.
  Proof.
    intros [LA HA] [LB HB]. apply (list_ext _ _ nil); [lia|]. intros r Hr. rewrite LA in Hr.
    destruct (HA r Hr) as [SA [PA VA]]. destruct (HB r Hr) as [SB [PB VB]].
    apply assoc_ext.
    - apply sorted_same; auto. intros c. rewrite PA, PB. tauto.
    - apply StronglySorted_nodup; auto.
    - intros c b b' H1 H2. destruct (VA c b H1) as [D1 V1]. destruct (VB c b' H2) as [D2 V2]. apply (block_ext n m); auto.
      intros i j Hi Hj. rewrite V1, V2; auto.
  Qed.

  Lemma in_write n m N M A x y v : block_wf n m N M A ->
    (In (x, y, v) (f_entries (write n m M A)) <->
     exists r c b i j, r < N /\ In (c, b) (nth r A nil) /\ i < n /\ j < m /\ x = r * n + i + 1 /\ y = c * m + j + 1 /\ v = bentry b i j).
  Proof.
    intros [HL HW]. cbn [write f_entries]. rewrite in_flat_map. split.
    - intros [[r row] [G1 G2]]. apply (in_combine_seq A nil) in G1. destruct G1 as [G1 ->]. cbn [fst snd] in G2. apply in_flat_map in G2.
      destruct G2 as [[c b] [G3 G4]]. cbn [fst snd] in G4. destruct (HW (nth r A nil) (nth_In _ _ G1)) as [_ HD]. destruct (HD c b G3) as [_ HD'].
      apply (in_print_block n m) in G4; auto. destruct G4 as [i [j [Hi [Hj [-> [-> ->]]]]]]. exists r, c, b, i, j. rewrite <- HL. repeat (split; auto); lia.
    - intros [r [c [b [i [j [Hr [HI [Hi [Hj [-> [-> ->]]]]]]]]]]]. rewrite <- HL in Hr. exists (r, nth r A nil). split; [apply (in_combine_seq A nil); auto|].
      cbn [fst snd]. apply in_flat_map. exists (c, b). split; auto. cbn [fst snd]. destruct (HW (nth r A nil) (nth_In _ _ Hr)) as [_ HD]. destruct (HD c b HI) as [_ HD'].
      apply (in_print_block n m); auto. exists i, j. repeat (split; auto); lia.
  Qed.
  Lemma count_nonzeros_eq n m A : count_nonzeros n m A = nblocks A * (n * m).
  Proof.
    unfold count_nonzeros. assert (G : forall s, fold_left (fun s row => fold_left (fun s (_ : nat * block) => s + n * m) row s) A s = s + nblocks A * (n * m)).
    { induction A as [|row A IH]; intros s; cbn [fold_left]; [unfold nblocks; cbn; lia|]. rewrite IH.
      assert (G : forall s, fold_left (fun s (_ : nat * block) => s + n * m) row s = s + length row * (n * m)).
      { clear. induction row as [|e row IH]; intros s; cbn [fold_left length]; [lia|]. rewrite IH. lia. }
      rewrite G. unfold nblocks. cbn [map]. change (list_sum (length row :: map (length (A:=nat * block)) A)) with (length row + list_sum (map (length (A:=nat * block)) A)). lia. }
    rewrite G. lia.
  Qed.
  Lemma write_length n m N M A : block_wf n m N M A -> length (f_entries (write n m M A)) = nblocks A * (n * m).
  Proof.
    intros [_ HW]. cbn [write f_entries].
    enough (G : forall k0, length (flat_map (fun p => flat_map (fun e => print_block (fst p * n + 1) (fst e * m + 1) (snd e)) (snd p)) (combine (seq k0 (length A)) A)) = nblocks A * (n * m)) by apply G.
    induction A as [|row A IH]; intros k0; [reflexivity|].
    cbn [length seq combine flat_map fst snd]. rewrite app_length, IH by (intros; apply HW; right; auto).
    unfold nblocks. change (list_sum (map (length (A:=nat * block)) (row :: A))) with (length row + list_sum (map (length (A:=nat * block)) A)).
    rewrite Nat.mul_add_distr_r. f_equal. destruct (HW row (or_introl eq_refl)) as [_ HD]. clear - HD.
    induction row as [|[c b] row IH]; [reflexivity|]. cbn [flat_map fst snd length]. rewrite app_length, IH by (intros c' b' H; apply HD; right; auto).
    rewrite (print_block_length n m) by (apply (HD c b); left; auto). lia.
  Qed.
  Lemma expand_general es : expand General es = map (fun e => match e with (r, c, v) => (r - 1, c - 1, v) end) es.
  Proof. induction es as [|[[r c] v] es IH]; auto. cbn [expand flat_map map expand1 mirror]. unfold expand in IH. rewrite IH. destruct (r =? c); auto. Qed.
  Lemma in_expand_write n m N M A x y v : block_wf n m N M A ->
    (In (x, y, v) (expand General (f_entries (write n m M A))) <->
     exists r c b i j, r < N /\ In (c, b) (nth r A nil) /\ i < n /\ j < m /\ x = r * n + i /\ y = c * m + j /\ v = bentry b i j).
  Proof.
    intros HW. rewrite expand_general, in_map_iff. split.
    - intros [[[x' y'] v'] [E1 E2]]. injection E1 as <- <- <-. apply (in_write n m N M A) in E2; auto.
      destruct E2 as [r [c [b [i [j [Hr [HI [Hi [Hj [-> [-> ->]]]]]]]]]]]. exists r, c, b, i, j. repeat (split; auto); lia.
    - intros [r [c [b [i [j [Hr [HI [Hi [Hj [-> [-> ->]]]]]]]]]]]. exists (r * n + i + 1, c * m + j + 1, bentry b i j). split.
      + f_equal. f_equal; lia.
      + apply (in_write n m N M A); auto. exists r, c, b, i, j. repeat (split; auto).
  Qed.
  Lemma lookup_write n m N M A r c i j : 0 < n -> 0 < m -> block_wf n m N M A -> r < N -> i < n -> j < m ->
    lookup (expand General (f_entries (write n m M A))) (r * n + i) (c * m + j) =
    match assoc c (nth r A nil) with Some b => Some (bentry b i j) | None => None end.
  Proof.
    intros Hn Hm HW Hr Hi Hj. destruct (lookup _ _ _) eqn:EL.
    - apply lookup_some in EL. apply (in_expand_write n m N M A) in EL; auto.
      destruct EL as [r' [c' [b [i' [j' [Hr' [HI [Hi' [Hj' [E1 [E2 ->]]]]]]]]]]].
      apply key_split in E1; auto. rewrite Nat.div_add_l, Nat.div_small, Nat.add_0_r in E1 by lia. destruct E1 as [-> E1].
      apply key_split in E2; auto. rewrite Nat.div_add_l, Nat.div_small, Nat.add_0_r in E2 by lia. destruct E2 as [-> E2].
      rewrite Nat.add_comm, Nat.mod_add, Nat.mod_small in E1, E2 by lia. subst.
      destruct HW as [HL HW]. rewrite (in_assoc _ _ b); auto. apply StronglySorted_nodup. apply HW. apply nth_In. lia.
    - destruct (assoc c (nth r A nil)) as [b|] eqn:EA; auto. exfalso. apply (lookup_none _ _ _ (bentry b i j) EL).
      apply (in_expand_write n m N M A); auto. exists r, c, b, i, j. repeat (split; auto). apply assoc_in; auto.
  Qed.
  Lemma write_describes n m N M A : 0 < n -> 0 < m -> block_wf n m N M A -> describes n m N (expand General (f_entries (write n m M A))) A.
  Proof.
    intros Hn Hm HW. pose proof HW as [HL HW']. split; auto. intros r Hr. destruct (HW' (nth r A nil)) as [HS HD]; [apply nth_In; lia|]. split; auto. split.
    - intros c. split.
      + intros HI. exists 0, 0. split; auto. split; auto. rewrite (lookup_write n m N M A) by auto. destruct (assoc c (nth r A nil)) eqn:EA; [discriminate|].
        apply assoc_none in EA. contradiction.
      + intros [a [b [Ha [Hb HH]]]]. rewrite (lookup_write n m N M A) in HH by auto. destruct (assoc c (nth r A nil)) eqn:EA; [|contradiction].
        apply assoc_in in EA. apply in_map_iff. eexists; split; [|exact EA]; auto.
    - intros c b HI. destruct (HD c b HI) as [_ D]. split; auto. intros i j Hi Hj. rewrite (lookup_write n m N M A) by auto.
      rewrite (in_assoc c (nth r A nil) b); auto. apply StronglySorted_nodup; auto.
  Qed.

  (** Round trip for matrices. *)
  Theorem C24_matrix_roundtrip dbg n m N M A : 0 < n -> 0 < m -> 0 < N -> (dbg = true -> n <= m) -> block_wf n m N M A ->
    read dbg n m (write n m M A) = Ok (N, M, A).
  Proof.
    intros Hn Hm HN HD HW. pose proof HW as [HL HW'].
    assert (EN : f_rows (write n m M A) / n = N) by (cbn [write f_rows]; rewrite HL; apply Nat.div_mul; lia).
    assert (EM : f_cols (write n m M A) / m = M) by (cbn [write f_cols]; apply Nat.div_mul; lia).
    assert (EL : length (f_entries (write n m M A)) = nblocks A * (n * m)) by (apply (write_length n m N M); auto).
    assert (EA : announced n m (f_rows (write n m M A)) (length (f_entries (write n m M A))) (f_struct (write n m M A)) = Some (nblocks A)).
    { rewrite EL. cbn [write f_struct announced]. f_equal. apply Nat.div_mul. nia. }
    destruct (C24_read dbg n m (write n m M A) (nblocks A)) as [B [E1 E2]]; auto.
    - rewrite EN; auto.
    - rewrite EL. cbn [write f_count]. apply count_nonzeros_eq.
    - intros x y v H. apply (in_write n m N M A) in H; auto. destruct H as [r [c [b [i [j [Hr [HI [Hi [Hj [-> [-> ->]]]]]]]]]]]. lia.
    - rewrite EN, EM. intros x y v H. change (f_struct (write n m M A)) with General in H. apply (in_expand_write n m N M A) in H; auto.
      destruct H as [r [c [b [i [j [Hr [HI [Hi [Hj [-> [-> ->]]]]]]]]]]].
      destruct (HW' (nth r A nil)) as [_ HD']; [apply nth_In; lia|]. destruct (HD' c b HI) as [Hc _]. nia.
    - rewrite EN in E1. change (f_struct (write n m M A)) with General in E1.
      pose proof (C24_describes_unique n m N _ B A E1 (write_describes n m N M A Hn Hm HW)) as ->.
      rewrite E2, EN, EM, Nat.ltb_irrefl, andb_false_r. reflexivity.
  Qed.
  (** A matrix without rows cannot be read back. *)
  Theorem C24_no_rows_refuted dbg n m M : 0 < n -> 0 < m -> read dbg n m (write n m M nil) = Throw EBCRS.
  Proof. intros Hn Hm. unfold read. cbn -[Nat.div]. rewrite !Nat.div_0_l by nia. reflexivity. Qed.

  Lemma NoDup_flat_map {X Y} (f : X -> list Y) l : NoDup l -> (forall a, In a l -> NoDup (f a)) ->
    (forall a b y, In a l -> In b l -> In y (f a) -> In y (f b) -> a = b) -> NoDup (flat_map f l).
  Proof.
    induction l as [|a l IH]; intros HN HF HD; cbn [flat_map]; [constructor|]. apply NoDup_cons_iff in HN. destruct HN as [HN1 HN2].
    assert (NoDup_app : forall (u v : list Y), NoDup u -> NoDup v -> (forall y, In y u -> ~ In y v) -> NoDup (u ++ v)).
    { clear. induction u as [|y u IH]; intros v H1 H2 H; auto. cbn. apply NoDup_cons_iff in H1. destruct H1 as [H3 H4]. constructor.
      - rewrite in_app_iff. intros [K|K]; [auto|apply (H y); [left; auto|auto]].
      - apply IH; auto. intros z Hz. apply H. right; auto. }
    apply NoDup_app.
    - apply HF. left; auto.
    - apply IH; auto; [intros; apply HF; right; auto|]. intros b c y Hb Hc. apply HD; right; auto.
    - intros y Hy HI. apply in_flat_map in HI. destruct HI as [b [Hb Hy']]. assert (a = b) by (apply (HD a b y); auto; [left|right]; auto). subst. auto.
  Qed.
  Lemma NoDup_map_in {X Y} (f : X -> Y) l : (forall a b, In a l -> In b l -> f a = f b -> a = b) -> NoDup l -> NoDup (map f l).
  Proof.
    induction l as [|a l IH]; intros H HN; cbn [map]; [constructor|]. apply NoDup_cons_iff in HN. destruct HN as [H1 H2]. constructor.
    - intros HI. apply in_map_iff in HI. destruct HI as [b [E1 E2]]. apply H1. rewrite (H a b); auto; [left|right]; auto.
    - apply IH; auto. intros b c Hb Hc. apply H; right; auto.
  Qed.
  Lemma NoDup_combine_seq {X} k0 (l : list X) : NoDup (combine (seq k0 (length l)) l).
  Proof.
    revert k0. induction l as [|x l IH]; intros k0; cbn; constructor; auto. intros H. apply in_combine_l in H. apply in_seq in H. lia.
  Qed.
  Lemma NoDup_print n m ri ci b : block_dims n m b -> NoDup (print_block ri ci b).
  Proof.
    intros [H1 H2]. unfold print_block. apply NoDup_flat_map.
    - apply NoDup_combine_seq.
    - intros [i bi] _. cbn [fst snd]. apply NoDup_map_in.
      + intros [j v] [j' v'] H3 H4 E. cbn [fst snd] in E. injection E as E1 E2. f_equal; auto. lia.
      + apply NoDup_combine_seq.
    - intros [i bi] [i' bi'] y G1 G2 G3 G4. apply (in_combine_seq b nil) in G1, G2. destruct G1 as [_ ->], G2 as [_ ->]. cbn [fst snd] in G3, G4.
      apply in_map_iff in G3, G4. destruct G3 as [[j v] [E1 _]], G4 as [[j' v'] [E2 _]]. subst y. cbn [fst snd] in E2. injection E2 as E2 _ _. assert (i = i') by lia. subst. auto.
  Qed.
  Lemma NoDup_write n m N M A : block_wf n m N M A -> NoDup (f_entries (write n m M A)).
  Proof.
    intros [HL HW]. cbn [write f_entries].
    assert (HR : forall r row, In (r, row) (combine (seq 0 (length A)) A) -> row = nth r A nil /\ StronglySorted lt (map fst row) /\ forall c b, In (c, b) row -> c < M /\ block_dims n m b).
    { intros r row H. apply (in_combine_seq A nil) in H. destruct H as [H ->]. split; auto. apply HW. apply nth_In; auto. }
    apply NoDup_flat_map.
    - apply NoDup_combine_seq.
    - intros [r row] HI. destruct (HR r row HI) as [_ [HS HD]]. cbn [fst snd]. apply NoDup_flat_map.
      + apply (NoDup_map_inv fst). apply StronglySorted_nodup; auto.
      + intros [c b] HI'. cbn [fst snd]. apply (NoDup_print n m). apply (HD c b HI').
      + intros [c b] [c' b'] [[x y] v] G1 G2 G3 G4. cbn [fst snd] in G3, G4. apply (in_print_block n m) in G3; [|apply (HD c b G1)].
        apply (in_print_block n m) in G4; [|apply (HD c' b' G2)].
        destruct G3 as [i [j [Hi [Hj [E1 [E2 E3]]]]]]. destruct G4 as [i' [j' [Hi' [Hj' [F1 [F2 F3]]]]]].
        assert (c = c') by nia. subst c'. f_equal. pose proof (in_assoc c row b (StronglySorted_nodup _ HS) G1). pose proof (in_assoc c row b' (StronglySorted_nodup _ HS) G2). congruence.
    - intros [r row] [r' row'] [[x y] v] G1 G2 G3 G4. destruct (HR r row G1) as [-> [HS HD]], (HR r' row' G2) as [-> [HS' HD']]. cbn [fst snd] in G3, G4.
      apply in_flat_map in G3, G4. destruct G3 as [[c b] [H1 H2]]. destruct G4 as [[c' b'] [H3 H4]]. cbn [fst snd] in *.
      apply (in_print_block n m) in H2; [|apply (HD c b H1)]. apply (in_print_block n m) in H4; [|apply (HD' c' b' H3)].
      destruct H2 as [i [j [Hi [Hj [E1 [E2 E3]]]]]]. destruct H4 as [i' [j' [Hi' [Hj' [F1 [F2 F3]]]]]]. assert (r = r') by nia. subst. auto.
  Qed.
  (** every block that occurs has all of its n*m entries listed (always so for scalar entries, n = m = 1) *)
  Definition filled (n m : nat) (L : list (nat * nat * T)) : Prop :=
    forall i j i' j', lookup L i j <> None -> i' / n = i / n -> j' / m = j / m -> lookup L i' j' <> None.
  Lemma filled_scalar L : filled 1 1 L.
  Proof. intros i j i' j' H. rewrite !Nat.div_1_r. intros -> ->. auto. Qed.
  Lemma nblocks_filled n m N M L A : 0 < n -> 0 < m -> rows_ok N M n m L -> filled n m L -> describes n m N L A -> nblocks A * (n * m) <= length L.
  Proof.
    intros Hn Hm HR HF [HL HD].
    assert (HW : block_wf n m N M A).
    { split; auto. intros row HI. apply (In_nth _ _ nil) in HI. destruct HI as [r [Hr <-]]. rewrite HL in Hr. destruct (HD r Hr) as [H1 [H2 H3]]. split; auto.
      intros c b HI. split; [|apply (H3 c b HI)]. assert (HK : In c (map fst (nth r A nil))) by (apply in_map_iff; exists (c, b); auto).
      apply H2 in HK. destruct HK as [a [b' [Ha [Hb HH]]]]. destruct (lookup L (r * n + a) (c * m + b')) eqn:E1; [|contradiction]. apply lookup_some in E1. apply HR in E1. nia. }
    rewrite <- (write_length n m N M) by auto.
    rewrite <- (map_length (fun e => match e with (r, c, v) => (r - 1, c - 1, v) end)). rewrite <- expand_general.
    apply NoDup_incl_length.
    - rewrite expand_general. apply NoDup_map_in; [|apply (NoDup_write n m N M); auto].
      intros [[x y] v] [[x' y'] v'] H1 H2 E. apply (in_write n m N M) in H1, H2; auto.
      destruct H1 as [r [c [b [i [j [_ [_ [_ [_ [E1 [E2 E3]]]]]]]]]]]. destruct H2 as [r' [c' [b' [i' [j' [_ [_ [_ [_ [F1 [F2 F3]]]]]]]]]]].
      injection E as G1 G2 G3. f_equal; [f_equal; lia|auto].
    - intros [[x y] v] HI. apply (in_expand_write n m N M) in HI; auto. destruct HI as [r [c [b [i [j [Hr [HI [Hi [Hj [-> [-> ->]]]]]]]]]]].
      destruct (HD r Hr) as [H1 [H2 H3]]. destruct (H3 c b HI) as [_ V]. rewrite V by auto.
      assert (HK : In c (map fst (nth r A nil))) by (apply in_map_iff; exists (c, b); auto).
      apply H2 in HK. destruct HK as [a' [b' [Ha [Hb HH]]]].
      assert (HH2 : lookup L (r * n + i) (c * m + j) <> None).
      { apply (HF _ _ _ _ HH); rewrite !Nat.div_add_l, !Nat.div_small by lia; auto. }
      destruct (lookup L (r * n + i) (c * m + j)) eqn:EL; [|contradiction]. apply lookup_some; auto.
  Qed.
  Definition is_diag (e : nat * nat * T) : bool := match e with (r, c, _) => r =? c end.
  Lemma expand_length st es : length (expand st es) <= 2 * length es /\
    match st with General => length (expand st es) = length es | _ => length (expand st es) + length (filter is_diag es) = 2 * length es end.
  Proof.
    unfold expand. induction es as [|[[r c] v] es [IH1 IH2]]; [destruct st; auto|]. cbn [flat_map filter is_diag].
    unfold expand1 at 1 3 5 7 9. rewrite ?app_length. destruct (r =? c); destruct st; cbn [mirror length app] in *; rewrite ?app_length; cbn [length]; lia.
  Qed.
  (** A file with filled blocks - for the symmetric and hermitian formats: with the full scalar diagonal listed - is accepted. *)
  Theorem C24_read_filled dbg n m f : 0 < n -> 0 < m -> (dbg = true -> n <= m) ->
    0 < f_rows f / n -> f_count f = length (f_entries f) ->
    (forall r c v, In (r, c, v) (f_entries f) -> 0 < r /\ 0 < c) ->
    rows_ok (f_rows f / n) (f_cols f / m) n m (expand (f_struct f) (f_entries f)) ->
    filled n m (expand (f_struct f) (f_entries f)) ->
    (f_struct f = Symmetric \/ f_struct f = Hermitian -> forall i, 1 <= i <= f_rows f -> exists v, In (i, i, v) (f_entries f)) ->
    exists A, describes n m (f_rows f / n) (expand (f_struct f) (f_entries f)) A /\
      read dbg n m f = Ok (f_rows f / n, f_cols f / m, A).
  Proof.
    intros Hn Hm HD HN HC HP HR HF HG.
    assert (HA : exists ann, announced n m (f_rows f) (length (f_entries f)) (f_struct f) = Some ann /\ length (expand (f_struct f) (f_entries f)) / (n * m) <= ann).
    { pose proof (expand_length (f_struct f) (f_entries f)) as [L1 L2].
      assert (HDg : f_struct f = Symmetric \/ f_struct f = Hermitian -> f_rows f <= length (filter is_diag (f_entries f))).
      { intros HS. specialize (HG HS). rewrite <- (seq_length (f_rows f) 1). rewrite <- (map_length (fun e => fst (fst e)) (filter is_diag _)).
        apply NoDup_incl_length; [apply seq_NoDup|]. intros i Hi. apply in_seq in Hi. destruct (HG i) as [v Hv]; [lia|].
        apply in_map_iff. exists (i, i, v). split; auto. apply filter_In. split; auto. cbn. apply Nat.eqb_refl. }
      assert (F : forall es, length (filter is_diag es) <= length es).
      { induction es as [|e es IH]; cbn [filter length]; auto. destruct (is_diag e); cbn [length]; lia. }
      specialize (F (f_entries f)).
      unfold announced. destruct (f_struct f).
      - eexists; split; [reflexivity|]. apply Nat.div_le_mono; [nia|lia].
      - specialize (HDg (or_introl eq_refl)). replace (2 * length (f_entries f) <? f_rows f) with false by (symmetry; apply Nat.ltb_ge; lia).
        eexists; split; [reflexivity|]. apply Nat.div_le_mono; [nia|lia].
      - eexists; split; [reflexivity|]. apply Nat.div_le_mono; [nia|lia].
      - specialize (HDg (or_intror eq_refl)). replace (2 * length (f_entries f) <? f_rows f) with false by (symmetry; apply Nat.ltb_ge; lia).
        eexists; split; [reflexivity|]. apply Nat.div_le_mono; [nia|lia]. }
    destruct HA as [ann [HA1 HA2]].
    destruct (C24_read dbg n m f ann) as [A [E1 E2]]; auto. exists A. split; auto. rewrite E2.
    assert (nblocks A <= ann).
    { etransitivity; [|exact HA2]. apply Nat.div_le_lower_bound; [nia|]. rewrite Nat.mul_comm. apply (nblocks_filled n m (f_rows f / n) (f_cols f / m)); auto. }
    replace (ann <? nblocks A) with false by (symmetry; apply Nat.ltb_ge; auto). rewrite andb_false_r. reflexivity.
  Qed.

  (** ** Vectors *)
  (** BlockVector<FieldVector<T,k>> (or of numbers: k = 1).  An array file: type of the header, size line, values. *)
  Record vfile := mkVFile { v_type : ftype; v_rows : nat; v_cols : nat; v_vals : list T }.
  (** writeMatrixMarket for vectors, matrixmarket.hh:1047-1091 (one SIMD lane) *)
  Definition write_vec (k : nat) (v : list (list T)) : vfile := mkVFile ArrayT (length v * k) 1 (flat_map (fun b => b) v).
  (** mm_read_vector_entries, matrixmarket.hh:896-919: vector[i/k][i%k] = value *)
  Fixpoint read_vals (k i size : nat) (vals : list T) (v : list (list T)) : outcome (list (list T)) :=
    match size with
    | O => Ok v
    | S size' => match vals with
                 | nil => UB
                 | x :: t => read_vals k (S i) size' t (bset v (i / k) (i mod k) x)
                 end
    end.
  (** readMatrixMarket for vectors, matrixmarket.hh:928-968 *)
  Definition read_vec (k : nat) (f : vfile) : outcome (list (list T)) :=
    if negb (v_cols f =? 1) then Throw EMarket else
    match v_type f with
    | Coordinate => Throw EMarket
    | ArrayT => if negb (v_rows f / k * k =? v_rows f) then Throw EMarket
                else read_vals k 0 (v_rows f) (v_vals f) (repeat (repeat zero k) (v_rows f / k))
    end.
  Lemma read_vals_ok k K size : forall i vals v, 0 < k -> length vals = size -> i + size = K * k -> block_dims K k v ->
    exists v', read_vals k i size vals v = Ok v' /\ block_dims K k v' /\
      forall a b, a < K -> b < k -> bentry v' a b = if i <=? a * k + b then nth (a * k + b - i) vals zero else bentry v a b.
  Proof.
    induction size as [|size IH]; intros i vals v Hk HV HI HD.
    - exists v. split; [reflexivity|]. split; auto. intros a b Ha Hb. destruct (Nat.leb_spec i (a * k + b)); auto. nia.
    - destruct vals as [|x vals]; [discriminate|]. cbn [read_vals]. cbn in HV.
      assert (H1 : i / k < K) by (apply div_lt_mul; nia). assert (H2 : i mod k < k) by (apply Nat.mod_upper_bound; lia).
      destruct (IH (S i) vals (bset v (i / k) (i mod k) x)) as [v' [E1 [E2 E3]]]; auto; [lia|apply bset_dims; auto|].
      exists v'. split; auto. split; auto. intros a b Ha Hb. rewrite E3 by auto. rewrite (bset_get K k) by auto.
      destruct (Nat.leb_spec (S i) (a * k + b)); destruct (Nat.leb_spec i (a * k + b)); try lia.
      + replace (a * k + b - i) with (S (a * k + b - S i)) by lia. reflexivity.
      + assert (E : a * k + b = i) by lia. rewrite E, Nat.sub_diag. apply key_split in E; auto. destruct E as [-> ->]. rewrite !Nat.eqb_refl. reflexivity.
      + destruct (Nat.eqb_spec (i / k) a); destruct (Nat.eqb_spec (i mod k) b); cbn [andb]; auto. exfalso. assert (a * k + b = i) by (apply key_split; auto). lia.
  Qed.
  Lemma flat_nth (v : list (list T)) k a b : (forall x, In x v -> length x = k) -> a < length v -> b < k -> nth (a * k + b) (flat_map (fun x => x) v) zero = nth b (nth a v nil) zero.
  Proof.
    revert a. induction v as [|x v IH]; intros a HX Ha Hb; [cbn in Ha; lia|]. cbn [flat_map].
    assert (Hx : length x = k) by (apply HX; left; auto). destruct a as [|a]; cbn [nth].
    - rewrite app_nth1 by lia. reflexivity.
    - rewrite app_nth2 by nia. replace (S a * k + b - length x) with (a * k + b) by nia. apply IH; auto; [intros; apply HX; right; auto|cbn in Ha; lia].
  Qed.
  Lemma flat_length (v : list (list T)) k : (forall x, In x v -> length x = k) -> length (flat_map (fun x => x) v) = length v * k.
  Proof. induction v as [|x v IH]; intros H; auto. cbn [flat_map]. rewrite app_length, IH, (H x) by (try (left; auto); intros; apply H; right; auto). cbn; lia. Qed.
  (** Round trip for vectors. *)
  Theorem C24_vector_roundtrip k v : 0 < k -> (forall b, In b v -> length b = k) -> read_vec k (write_vec k v) = Ok v.
  Proof.
    intros Hk HV. unfold read_vec, write_vec. cbn [v_cols v_type v_rows v_vals]. rewrite Nat.eqb_refl. cbn [negb].
    rewrite Nat.div_mul, Nat.eqb_refl by lia. cbn [negb].
    assert (HD : block_dims (length v) k v) by (split; auto; intros; apply HV, nth_In; auto).
    destruct (read_vals_ok k (length v) (length v * k) 0 (flat_map (fun b => b) v) (repeat (repeat zero k) (length v))) as [v' [E1 [E2 E3]]]; auto.
    - apply flat_length; auto.
    - split; [apply repeat_length|]. intros i Hi. rewrite (nth_indep _ nil (repeat zero k)) by (rewrite repeat_length; auto). rewrite nth_repeat, repeat_length. auto.
    - rewrite E1. f_equal. apply (block_ext (length v) k); auto. intros i j Hi Hj. rewrite E3 by auto.
      replace (0 <=? i * k + j) with true by (symmetry; apply Nat.leb_le; lia). rewrite Nat.sub_0_r. apply (flat_nth v k); auto.
  Qed.
  (** A file that is no (k-)block vector is rejected. *)
  Theorem C24_vector_reject k f : v_cols f <> 1 \/ v_type f = Coordinate \/ (v_type f = ArrayT /\ v_rows f mod k <> 0) -> 0 < k -> read_vec k f = Throw EMarket.
  Proof.
    intros H Hk. unfold read_vec. destruct (Nat.eqb_spec (v_cols f) 1) as [e|e]; cbn [negb]; auto. destruct H as [H|[H|[H1 H2]]]; [contradiction|rewrite H; auto|].
    rewrite H1. destruct (Nat.eqb_spec (v_rows f / k * k) (v_rows f)) as [e'|e']; auto. exfalso. apply H2. pose proof (Nat.div_mod_eq (v_rows f) k). lia.
  Qed.

  (** ** Numbers in the entry lines *)
  (** The words of the entry lines: an index, a number, or a complex number printed by operator<< as "(re,im)". *)
  Inductive word := WInd (i : nat) | WNum (x : T) | WPair (re im : T).
  (** mm_print_entry's stream output, matrixmarket.hh:1036, 1042 *)
  Definition print_real (es : list (nat * nat * T)) : list word := flat_map (fun e => match e with (r, c, v) => [WInd r; WInd c; WNum v] end) es.
  Definition print_complex (es : list (nat * nat * (T * T))) : list word := flat_map (fun e => match e with (r, c, (a, b)) => [WInd r; WInd c; WPair a b] end) es.
  (** operator>>(istream, IndexData<T>), matrixmarket.hh:643-649, and its complex specialisation, :657-671; None = the stream fails *)
  Fixpoint parse_real (k : nat) (ws : list word) : option (list (nat * nat * T)) :=
    match k with
    | O => Some nil
    | S k' => match ws with WInd r :: WInd c :: WNum v :: t => option_map (cons (r, c, v)) (parse_real k' t) | _ => None end
    end.
  Fixpoint parse_complex (k : nat) (ws : list word) : option (list (nat * nat * (T * T))) :=
    match k with
    | O => Some nil
    | S k' => match ws with WInd r :: WInd c :: WNum a :: WNum b :: t => option_map (cons (r, c, (a, b))) (parse_complex k' t) | _ => None end
    end.
  Theorem C24_real_words es : parse_real (length es) (print_real es) = Some es.
  Proof. induction es as [|[[r c] v] es IH]; auto. cbn. unfold print_real in IH. rewrite IH. reflexivity. Qed.
  (** What is written for complex entries is not accepted by the reader. *)
  Theorem C24_complex_words_refuted es : es <> nil -> parse_complex (length es) (print_complex es) = None.
  Proof. destruct es as [|[[r c] [a b]] es]; intros H; [contradiction|reflexivity]. Qed.
End MM.

(** ** The banner *)
Section Banner.
  Local Open Scope string_scope.
  (** std::transform(..., ::tolower) *)
  Definition lower1 (a : ascii) : ascii := let n := nat_of_ascii a in if ((65 <=? n) && (n <=? 90))%nat then ascii_of_nat (n + 32)%nat else a.
  Fixpoint lower (s : string) : string := match s with EmptyString => EmptyString | String a t => String (lower1 a) (lower t) end.
  Record header := mkHeader { h_type : ftype; h_ctype : ctype; h_struct : structure }.
  (** MMHeader(), matrixmarket.hh:307-309 *)
  Definition default_header := mkHeader Coordinate CReal General.
  Definition first (s : string) : ascii := match s with String a _ => a | EmptyString => "000"%char end.
  Definition second (s : string) : ascii := match s with String _ (String a _) => a | _ => "000"%char end.
  (** the three switch statements of readMatrixMarketBanner, matrixmarket.hh:399-424, 438-477, 483-538 *)
  Definition parse_type (b : string) : option ftype :=
    match first b with
    | "a"%char => if b =? "array" then Some ArrayT else None
    | "c"%char => if b =? "coordinate" then Some Coordinate else None
    | _ => None
    end.
  Definition parse_ctype (b : string) : option ctype :=
    match first b with
    | "i"%char => if b =? "integer" then Some CInteger else None
    | "r"%char => if b =? "real" then Some CReal else None
    | "c"%char => if b =? "complex" then Some CComplex else None
    | "p"%char => if b =? "pattern" then Some CPattern else None
    | _ => None
    end.
  Definition parse_struct (b : string) : option structure :=
    match first b with
    | "g"%char => if b =? "general" then Some General else None
    | "h"%char => if b =? "hermitian" then Some Hermitian else None
    | "s"%char => match second b with
                  | "y"%char => if b =? "symmetric" then Some Symmetric else None
                  | "k"%char => if b =? "skew-symmetric" then Some Skew else None
                  | _ => None
                  end
    | _ => None
    end.
  (** readMatrixMarketBanner, matrixmarket.hh:353-543, on the words of the first line.  The header keeps what was parsed before a
      failure. *)
  Definition banner (ws : list string) : bool * header :=
    match ws with
    | b0 :: b1 :: b2 :: rest =>
      if negb (b0 =? "%%MatrixMarket") then (false, default_header) else
      if negb (b1 =? "matrix") then (false, default_header) else
      match parse_type (lower b2) with
      | None => (false, default_header)
      | Some t =>
        match rest with
        | nil => (false, mkHeader t CReal General)
        | b3 :: rest =>
          match parse_ctype (lower b3) with
          | None => (false, mkHeader t CReal General)
          | Some c =>
            match rest with
            | nil => (false, mkHeader t c General)
            | b4 :: _ => match parse_struct (lower b4) with
                         | None => (false, mkHeader t c General)
                         | Some s => (true, mkHeader t c s)
                         end
            end
          end
        end
      end
    | _ => (false, default_header)
    end.
  Definition type_name (t : ftype) := match t with Coordinate => "coordinate" | ArrayT => "array" end.
  Definition ctype_name (c : ctype) := match c with CInteger => "integer" | CReal => "real" | CComplex => "complex" | CPattern => "pattern" end.
  Definition struct_name (s : structure) := match s with General => "general" | Symmetric => "symmetric" | Skew => "skew-symmetric" | Hermitian => "hermitian" end.
  (** mm_header_printer, matrixmarket.hh:141-187 *)
  Definition header_line (h : header) : list string := ["%%MatrixMarket"; "matrix"; type_name (h_type h); ctype_name (h_ctype h); struct_name (h_struct h)].

  Lemma parse_type_iff b t : parse_type b = Some t <-> b = type_name t.
  Proof.
    split.
    - unfold parse_type. intros H. destruct (first b) as [[] [] [] [] [] [] [] []]; try discriminate;
      match type of H with (if ?x then _ else _) = _ => destruct x eqn:E; [|discriminate] end; apply String.eqb_eq in E; injection H as <-; auto.
    - intros ->. destruct t; reflexivity.
  Qed.
  Lemma parse_ctype_iff b t : parse_ctype b = Some t <-> b = ctype_name t.
  Proof.
    split.
    - unfold parse_ctype. intros H. destruct (first b) as [[] [] [] [] [] [] [] []]; try discriminate;
      match type of H with (if ?x then _ else _) = _ => destruct x eqn:E; [|discriminate] end; apply String.eqb_eq in E; injection H as <-; auto.
    - intros ->. destruct t; reflexivity.
  Qed.
  Lemma parse_struct_iff b t : parse_struct b = Some t <-> b = struct_name t.
  Proof.
    split.
    - unfold parse_struct. intros H. destruct (first b) as [[] [] [] [] [] [] [] []]; try discriminate;
      try (destruct (second b) as [[] [] [] [] [] [] [] []]; try discriminate);
      match type of H with (if ?x then _ else _) = _ => destruct x eqn:E; [|discriminate] end; apply String.eqb_eq in E; injection H as <-; auto.
    - intros ->. destruct t; reflexivity.
  Qed.
  (** The banner is accepted exactly if it has the documented form (the last three words in any case), with that header. *)
  Theorem C24_banner ws h : banner ws = (true, h) <->
    exists b2 b3 b4 rest, ws = "%%MatrixMarket" :: "matrix" :: b2 :: b3 :: b4 :: rest /\
      lower b2 = type_name (h_type h) /\ lower b3 = ctype_name (h_ctype h) /\ lower b4 = struct_name (h_struct h).
  Proof.
    split.
    - destruct ws as [|b0 [|b1 [|b2 rest]]]; try discriminate. cbn [banner].
      destruct (b0 =? "%%MatrixMarket") eqn:E0; cbn [negb]; [|discriminate]. destruct (b1 =? "matrix") eqn:E1; cbn [negb]; [|discriminate].
      apply String.eqb_eq in E0, E1. subst. destruct (parse_type (lower b2)) eqn:E2; [|discriminate]. apply parse_type_iff in E2.
      destruct rest as [|b3 rest]; [discriminate|]. destruct (parse_ctype (lower b3)) eqn:E3; [|discriminate]. apply parse_ctype_iff in E3.
      destruct rest as [|b4 rest]; [discriminate|]. destruct (parse_struct (lower b4)) eqn:E4; [|discriminate]. apply parse_struct_iff in E4.
      intros H. injection H as <-. exists b2, b3, b4, rest. cbn. auto.
    - intros [b2 [b3 [b4 [rest [-> [E2 [E3 E4]]]]]]]. cbn [banner]. cbn [negb String.eqb Ascii.eqb Bool.eqb].
      apply parse_type_iff in E2. apply parse_ctype_iff in E3. apply parse_struct_iff in E4. rewrite E2, E3, E4.
      destruct h; reflexivity.
  Qed.
  Theorem C24_banner_roundtrip h : banner (header_line h) = (true, h).
  Proof. destruct h as [[] [] []]; reflexivity. Qed.
  (** "Using default: matrix coordinate real general" is not what happens after a broken banner. *)
  Theorem C24_banner_default_refuted : exists ws, fst (banner ws) = false /\ snd (banner ws) <> default_header.
  Proof. exists ["%%MatrixMarket"; "matrix"; "array"; "foo"; "general"]. split; [reflexivity|discriminate]. Qed.
End Banner.

(** ** Non-vacuity and deviations *)
Section Examples.
  Open Scope nat_scope.
  Local Notation rd := (read (T := Z) 0%Z Z.opp (fun x => x)).
  (** 2x2 block matrix with 2x2 blocks, written and read back *)
  Definition exMM : list (list (nat * list (list Z))) := [[(0, [[1; 2]; [3; 4]]%Z); (1, [[5; 6]; [7; 8]]%Z)]; [(1, [[9; 10]; [11; 12]]%Z)]].
  Example C24_roundtrip_ex : block_wf 2 2 2 2 exMM /\ rd true 2 2 (write 2 2 2 exMM) = Ok (2, 2, exMM).
  Proof.
    split; [|reflexivity]. split; [reflexivity|]. intros row H. repeat (destruct H as [<-|H]); try contradiction;
    (split; [cbn; repeat constructor; lia|]); intros c b HI; repeat (destruct HI as [HI|HI]; [injection HI as <- <-; split; [lia|]; split; [reflexivity|]; intros i Hi; repeat (destruct i as [|i]; [reflexivity|]); lia|]); contradiction.
  Qed.
  (** A symmetric file with its full diagonal *)
  Definition exSym : file (T := Z) := mkFile Symmetric 2 2 3 [(1, 1, 1%Z); (2, 1, 5%Z); (2, 2, 3%Z)].
  Example C24_symmetric_ex : rd true 1 1 exSym = Ok (2, 2, [[(0, [[1]]%Z); (1, [[5]]%Z)]; [(0, [[5]]%Z); (1, [[3]]%Z)]]).
  Proof. reflexivity. Qed.
  Example C24_read_filled_ex : rows_ok (f_rows exSym / 1) (f_cols exSym / 1) 1 1 (expand Z.opp (fun x => x) (f_struct exSym) (f_entries exSym)) /\
    filled 1 1 (expand Z.opp (fun x => x) (f_struct exSym) (f_entries exSym)) /\
    (forall i, 1 <= i <= f_rows exSym -> exists v, In (i, i, v) (f_entries exSym)).
  Proof.
    split; [|split; [apply filled_scalar|]].
    - intros i j v H. cbn in H. cbn. repeat (destruct H as [H|H]; [injection H as <- <- <-; lia|]). contradiction.
    - intros i Hi. cbn in Hi. assert (i = 1 \/ i = 2) as [->| ->] by lia; eexists; cbn; eauto.
  Qed.
  (** A symmetric file is rejected if a zero diagonal entry is left out although the format allows that. *)
  Theorem C24_symmetric_diagonal_refuted : exists f : file (T := Z), f_struct f = Symmetric /\
    rows_ok (f_rows f) (f_cols f) 1 1 (expand Z.opp (fun x => x) (f_struct f) (f_entries f)) /\ f_count f = length (f_entries f) /\ rd true 1 1 f = Throw EBCRS.
  Proof.
    exists (mkFile Symmetric 2 2 2 [(1, 1, 1%Z); (2, 1, 5%Z)]). split; [reflexivity|]. split; [|split; reflexivity].
    intros i j v H. cbn in H. cbn. repeat (destruct H as [H|H]; [injection H as <- <- <-; lia|]). contradiction.
  Qed.
  (** ... and so is a general file in which some block is only partially listed. *)
  Theorem C24_partial_blocks_refuted : exists f : file (T := Z), f_struct f = General /\ f_count f = length (f_entries f) /\
    rows_ok (f_rows f / 2) (f_cols f / 2) 2 2 (expand Z.opp (fun x => x) (f_struct f) (f_entries f)) /\ rd true 2 2 f = Throw EBCRS.
  Proof.
    exists (mkFile General 4 4 5 [(1, 1, 1%Z); (1, 2, 2%Z); (2, 1, 3%Z); (2, 2, 4%Z); (4, 4, 5%Z)]). split; [reflexivity|]. split; [reflexivity|]. split; [|reflexivity].
    intros i j v H. cbn in H. cbn. repeat (destruct H as [H|H]; [injection H as <- <- <-; lia|]). contradiction.
  Qed.
  (** With assertions compiled in, the row check divides by the number of columns per block: a matrix of 2x1 blocks cannot be read
      back. *)
  Theorem C24_tall_blocks_assert_refuted : exists A : list (list (nat * list (list Z))), block_wf 2 1 1 1 A /\ rd true 2 1 (write 2 1 1 A) = UB /\ rd false 2 1 (write 2 1 1 A) = Ok (1, 1, A).
  Proof.
    exists [[(0, [[1]; [2]]%Z)]]. split; [|split; reflexivity]. split; [reflexivity|]. intros row [<-|[]]. split; [cbn; repeat constructor|].
    intros c b [H|[]]. injection H as <- <-. split; [lia|]. split; [reflexivity|]. intros [|[|i]] Hi; [reflexivity|reflexivity|lia].
  Qed.
  Example C24_vector_ex : read_vec 0%Z 2 (write_vec 2 [[1; 2]; [3; 4]; [5; 6]]%Z) = Ok [[1; 2]; [3; 4]; [5; 6]]%Z.
  Proof. reflexivity. Qed.
End Examples.

Print Assumptions C24_read.
Print Assumptions C24_read_filled.
Print Assumptions C24_matrix_roundtrip.
Print Assumptions C24_vector_roundtrip.
Print Assumptions C24_banner.
