(** * The SPQR wrapper (C81): dune/istl/spqr.hh, dune/istl/bccsmatrix.hh

    The wrapper flattens a block matrix, or a set of its block rows and columns, into compressed column arrays, copies these into a matrix of CHOLMOD, has it factorised
    as A E = Q R, and solves least squares problems by multiplying with Q^T and solving with R.  Modelled: the contents of the matrix, the state of every pointer and the
    sequence of calls.  SuiteSparse is not modelled: the functions of [library] are arbitrary, the theorems on solutions assume [promised].  Not modelled: printing, the getters,
    copies of the object, running out of memory in new and in cholmod_l_allocate.  Scalars range over any commutative ring (in the place of double); index types are unbounded. *)
From Coq Require Import Arith List Lia Bool Sorted Permutation.
From Verif Require Import Outcome Ring Sums Sparse Foreach Cholmod Bccs Umfpack.
Import ListNotations.
Open Scope nat_scope.

Section Spqr.
  Context {R : ring}.

  (** SuiteSparseQR_factorize for a matrix with the given number of rows (None: it returns null), the entries of the result of SuiteSparseQR_qmult(SPQR_QTX, ...) and of
      SuiteSparseQR_solve(SPQR_RETX_EQUALS_B, ...) *)
  Record library (F : Type) := Lib { qrfact : nat -> @csc R -> option F; qmult : F -> list R -> list R; rsolve : F -> list R -> list R }.
  Arguments qrfact {F}. Arguments qmult {F}. Arguments rsolve {F}.
  Context {F : Type} (lib : library F).
  (** the template parameters n, m (size of the blocks), and whether T is std::complex<double> *)
  Variables (n m : nat) (complex : bool).

  (** the members of SPQR and of its BCCSMatrix (spqr.hh:376-382, bccsmatrix.hh:150-153); the three array pointers of BCCSMatrix are always set and deleted together and are one
      pointer here, worth three arrays; [lost] counts what no pointer refers to any more.  cc_ is allocated in every constructor and never deleted: it is counted in [destroy].
      matrixIsLoaded_ is never set to true *)
  Record state := St { mN : nat; mM : nat; mNnz : nat; arrays : ptr (@csc R); loaded : bool; mA : ptr (@csc R); mB : ptr unit; mF : ptr F; lost : nat }.
  (** SPQR(), spqr.hh:137-144 and BCCSMatrix(), bccsmatrix.hh:36-38 *)
  Definition init : state := St 0 0 0 Null false Uninit Uninit Uninit 0.
  (** BCCSMatrix::free(), bccsmatrix.hh:139-147 *)
  Definition bccs_free (st : state) : outcome state :=
    obind (delete (arrays st)) (fun a => Ok (St 0 0 0 a (loaded st) (mA st) (mB st) (mF st) (lost st))).
  (** SPQR::free(), spqr.hh:308-315; the functions of SuiteSparse ignore null and set the pointer to null ([umf_free]) *)
  Definition free (st : state) : outcome state :=
    obind (umf_free (mA st)) (fun a => obind (umf_free (mB st)) (fun b => obind (umf_free (mF st)) (fun f =>
    obind (bccs_free (St (mN st) (mM st) (mNnz st) (arrays st) (loaded st) a b f (lost st))) (fun st =>
    Ok (St (mN st) (mM st) (mNnz st) (arrays st) false (mA st) (mB st) (mF st) (lost st)))))).
  (** the test at the top of ~SPQR, setMatrix and setSubMatrix, spqr.hh:149-150, 231-232, 249-250 *)
  Definition release (st : state) : outcome state := if (0 <? mN st + mM st) || loaded st then free st else Ok st.
  (** if (N + M + nonzeroes != 0) free(): spqr.hh:234-235, 252-253 and ~BCCSMatrix, bccsmatrix.hh:41-45 *)
  Definition bccs_release (st : state) : outcome state := if mN st + mM st + mNnz st =? 0 then Ok st else bccs_free st.
  (** ~SPQR(), spqr.hh:147-152, then the destructor of the member spqrMatrix_; the number of objects that are never released, with *cc_ *)
  Definition destroy (st : state) : outcome nat :=
    obind (release st) (fun st => obind (bccs_release st) (fun st => Ok (1 + lost st + 3 * live (arrays st) + live (mA st) + live (mB st) + live (mF st)))).
  (** decompose(), spqr.hh:332-374.  The matrix is always allocated for real entries (xtype 1), so that writing complex ones leaves the allocated memory *)
  Definition decompose (st : state) : outcome state :=
    match arrays st with
    | Live c =>
        match nth_error (cp c) (mM st) with
        | None => UB
        | Some nnz =>
            if (length (ci c) <? nnz) || (length (cx c) <? nnz) then UB else
            if complex && (0 <? nnz) then UB else
            let A := Csc (mM st) (firstn (S (mM st)) (cp c)) (firstn nnz (ci c)) (firstn nnz (cx c)) in
            let f := match qrfact lib (mN st) A with Some f => Live f | None => Null end in
            Ok (St (mN st) (mM st) (mNnz st) (arrays st) (loaded st) (Live A) (Live tt) f (lost st + live (mA st) + live (mB st) + live (mF st)))
        end
    | _ => UB
    end.
  (** the arrays made by copyToBCCSMatrix (model: Bccs.v), with their sizes in rows x columns; what the matrix pointed to before is lost *)
  Definition install (st : state) (rows cols : nat) (out : @ccs R) : state :=
    St rows cols (length (values out)) (Live (Csc cols (colstart out) (map Some (rowindex out)) (map Some (values out)))) (loaded st) (mA st) (mB st) (mF st) (lost st + 3 * live (arrays st)).
  (** setMatrix(matrix), spqr.hh:229-244, for a matrix of N x M blocks *)
  Definition setMatrix (st : state) (M : nat) (A : @bmat R) : outcome state :=
    obind (release st) (fun st => obind (bccs_release st) (fun st =>
    obind (copyToBCCSMatrix r0 n m (M * m) A) (fun out => decompose (install st (length A * n) (M * m) out)))).
  (** setSubMatrix(matrix, rowIndexSet), spqr.hh:246-262: rowdim(matrix) / N, coldim(matrix) / M, division by zero for an empty matrix *)
  Definition setSubMatrix (st : state) (M : nat) (A : @bmat R) (S0 : list nat) : outcome state :=
    obind (release st) (fun st => obind (bccs_release st) (fun st =>
    if (length A =? 0) || (M =? 0) then UB else
    let rows := length S0 * (length A * n) / length A in let cols := length S0 * (M * m) / M in
    obind (copySubset r0 n m cols A S0) (fun out => decompose (install st rows cols out)))).
  (** SPQR(matrix, verbose), spqr.hh:94-122 *)
  Definition construct (M : nat) (A : @bmat R) : outcome state := setMatrix init M A.

  (** the first k entries of a result *)
  Definition first (k : nat) (l : list R) : list R := map (vget l) (seq 0 k).
  (** apply(x, b, res), spqr.hh:155-192, on the scalar entries of the vectors; the number of rows is a multiple of n and that of columns one of m, so that the block loops run over
      all of them.  qmult and solve return null if they get null; the result is (x, res) with res = (iterations, converged) *)
  Definition apply (st : state) (x b : list R) (res : nat * bool) : outcome (state * (list R * (nat * bool))) :=
    let rows := mN st in let cols := mM st in
    if length b <? rows then UB else
    obind (match rows, mB st with 0, _ => Ok tt | _, Live _ => Ok tt | _, _ => UB end) (fun _ =>
    match mB st, mF st with
    | Live _, Live f =>
        let y := first rows (qmult lib f (firstn rows b)) in
        let z := first cols (rsolve lib f y) in
        if length x <? cols then UB else Ok (st, (z ++ skipn cols x, (1, true)))
    | Live _, Null | Null, Live _ | Null, Null =>
        if 0 <? cols then UB else Ok (St (mN st) (mM st) (mNnz st) (arrays st) (loaded st) (mA st) Null (mF st) (lost st), (x, (1, true)))
    | _, _ => UB
    end).

  (** ** Specification *)
  (** the entry in row i and column j of the scalar matrix with blocks of n x m entries, given by its stored blocks *)
  Definition look (A : @bmat R) (r c : nat) : option (@blk R) := option_map snd (find (fun e => fst e =? c) (nth r A nil)).
  Definition scalar (lk : nat -> nat -> option (@blk R)) (i j : nat) : R := match lk (i / n) (j / m) with Some b => b (i mod n) (j mod m) | None => r0 end.
  (** the matrix, and its block rows and columns in S0 *)
  Definition blocks (A : @bmat R) : nat -> nat -> R := scalar (look A).
  Definition subblocks (A : @bmat R) (S0 : list nat) : nat -> nat -> R := scalar (fun r c => look A (nth r S0 0) (nth c S0 0)).
  (** legal input for SPQR: starts from 0 to the number of stored entries, increasing; all entries initialised; row indices strictly increasing in every column and in range *)
  Definition legal (rows : nat) (M : @csc R) : Prop :=
    length (cp M) = S (cN M) /\ nth 0 (cp M) 0 = 0 /\ nth (cN M) (cp M) 0 = length (ci M) /\ length (cx M) = length (ci M) /\
    forall k, k < cN M -> nth k (cp M) 0 <= nth (S k) (cp M) 0 /\ length (column M k) = nth (S k) (cp M) 0 - nth k (cp M) 0 /\ row_wf rows (column M k).
  (** B y and the residual *)
  Definition mulv (cols : nat) (B : nat -> nat -> R) (y : list R) (i : nat) : R := sum cols (fun j => rmul (B i j) (vget y j)).
  (** y solves the least squares problem min |B y - b|: the normal equations hold; and if the system has a solution then y is one *)
  Definition least_squares (rows cols : nat) (B : nat -> nat -> R) (y b : list R) : Prop :=
    (forall j, j < cols -> sum rows (fun i => rmul (B i j) (rsub (mulv cols B y i) (vget b i))) = r0) /\
    ((exists z, forall i, i < rows -> mulv cols B z i = vget b i) -> forall i, i < rows -> mulv cols B y i = vget b i).
  (** what SPQR promises: A E = Q R with a permutation E, an orthogonal Q, and an upper factor that vanishes from some row on and is solved for above it *)
  Definition factorisation (rows cols : nat) (A : nat -> nat -> R) (f : F) : Prop :=
    exists (p : list nat) (Q U : nat -> nat -> R) (rk : nat), Permutation p (seq 0 cols) /\ rk <= rows /\
      (forall l l', l < rows -> l' < rows -> sum rows (fun i => rmul (Q i l) (Q i l')) = if l =? l' then r1 else r0) /\
      (forall i i', i < rows -> i' < rows -> sum rows (fun l => rmul (Q i l) (Q i' l)) = if i =? i' then r1 else r0) /\
      (forall i j, i < rows -> j < cols -> A i (nth j p 0) = sum rows (fun l => rmul (Q i l) (U l j))) /\
      (forall l j, rk <= l -> l < rows -> j < cols -> U l j = r0) /\
      (forall b, length b = rows -> forall l, l < rows -> vget (qmult lib f b) l = sum rows (fun i => rmul (Q i l) (vget b i))) /\
      (forall y, length y = rows -> forall l, l < rk -> sum cols (fun j => rmul (U l j) (vget (rsolve lib f y) (nth j p 0))) = vget y l).
  (** it keeps this promise for the matrix with the entries B *)
  Definition promised (rows cols : nat) (B : nat -> nat -> R) : Prop :=
    forall M f, legal rows M -> cN M = cols -> (forall i j, i < rows -> j < cols -> entry M i j = B i j) -> qrfact lib rows M = Some f -> factorisation rows cols B f.
  (** SPQR does not run out of memory *)
  Definition roomy : Prop := forall rows M, legal rows M -> qrfact lib rows M <> None.

  (** what a client knows the solver to hold: nothing yet; nothing any more; an empty system; a system *)
  Inductive view := Fresh | Freed | Hollow | System (rows cols : nat) (B : nat -> nat -> R).
  Definition system (rows cols : nat) (B : nat -> nat -> R) : view := if rows + cols =? 0 then Hollow else System rows cols B.
  Inductive call := CSet (N M : nat) (A : @bmat R) | CSub (N : nat) (A : @bmat R) (S0 : list nat) | CApply (x b : list R) | CFree.
  (** any matrix; increasing existing indices of block rows and columns of a matrix with as many of the ones as of the others *)
  Definition wf_call (c : call) : Prop :=
    match c with
    | CSet N M A => bmat_wf N M A
    | CSub N A S0 => 0 < N /\ bmat_wf N N A /\ StronglySorted lt S0 /\ Forall (fun x => x < N) S0
    | _ => True
    end.
  (** how a call changes the view and how many objects it leaks.  None, undefined behaviour: solving or releasing before a matrix is set, releasing twice, vectors that are too short *)
  Definition track (v : view) (c : call) : option (view * nat) :=
    let hollow := match v with Hollow => 6 | _ => 0 end in
    match c with
    | CSet N M A => Some (system (N * n) (M * m) (blocks A), hollow)
    | CSub N A S0 => Some (system (length S0 * n) (length S0 * m) (subblocks A S0), hollow)
    | CApply x b => match v with Fresh => None | Freed | Hollow => Some (v, 0) | System rows cols _ => if (cols <=? length x) && (rows <=? length b) then Some (v, 0) else None end
    | CFree => match v with Fresh | Freed => None | _ => Some (Freed, 0) end
    end.
  Fixpoint tracks (v : view) (cs : list call) (leaks : nat) : option (view * nat) :=
    match cs with nil => Some (v, leaks) | c :: t => match track v c with Some (v', l) => tracks v' t (leaks + l) | None => None end end.
  Definition do (st : state) (c : call) : outcome state :=
    match c with
    | CSet N M A => setMatrix st M A
    | CSub N A S0 => setSubMatrix st N A S0
    | CApply x b => obind (apply st x b (0, false)) (fun r => Ok (fst r))
    | CFree => free st
    end.
  Fixpoint run (st : state) (cs : list call) : outcome state := match cs with nil => Ok st | c :: t => obind (do st c) (fun st => run st t) end.

  (** ** The arrays *)
  Lemma in_look (A : @bmat R) r c b : StronglySorted lt (map fst (nth r A nil)) -> In (c, b) (nth r A nil) <-> look A r c = Some b.
  Proof.
    unfold look. generalize (nth r A nil) as row. clear. induction row as [|[c0 b0] row IH]; intros HS; cbn [find option_map]; [split; [intros []|discriminate]|].
    cbn [map fst] in HS. apply StronglySorted_inv in HS. destruct HS as [HS HF]. cbn [fst]. destruct (Nat.eqb_spec c0 c) as [->|NE]; cbn [option_map snd].
    - split; [|intros E; injection E as ->; now left]. intros [E|HI]; [congruence|]. exfalso. rewrite Forall_forall in HF. apply (Nat.lt_irrefl c), HF, in_map_iff. exists (c, b). auto.
    - rewrite <- IH by auto. split; [intros [E|HI]; [congruence|auto]|right; auto].
  Qed.
  Lemma ccs_csc Rb Cb stored out lk : 0 < n -> 0 < m -> is_ccs n m (Cb * m) stored out ->
    (forall r c b, c < Cb -> (stored r c b <-> r < Rb /\ lk r c = Some b)) ->
    let M := Csc (Cb * m) (colstart out) (map Some (rowindex out)) (map Some (values out)) in
    legal (Rb * n) M /\ length (values out) = length (ci M) /\ forall i j, i < Rb * n -> j < Cb * m -> entry M i j = scalar lk i j.
  Proof.
    intros Hn Hm (I1 & I2 & I3 & I4 & I5) HS. set (K := Cb * m) in *. cbv zeta. set (M := Csc K _ _ _). assert (Hn' : n <> 0) by lia. assert (Hm' : m <> 0) by lia.
    assert (MONO : forall k l, k <= l -> l <= K -> nth k (colstart out) 0 <= nth l (colstart out) 0). { intros k l H. induction H as [|l H IH]; intros HL; auto. destruct (I5 l ltac:(lia)) as [J _]. specialize (IH ltac:(lia)). lia. }
    assert (CK : forall k, k < K -> column M k = slice (combine (rowindex out) (values out)) (nth k (colstart out) 0) (nth (S k) (colstart out) 0)).
    { intros k HK. apply column_slice; [auto|apply I5; auto|]. rewrite <- I3. apply MONO; lia. }
    assert (CB : forall k, k < K -> k / m < Cb) by (intros k HK; apply Nat.div_lt_upper_bound; [auto|rewrite Nat.mul_comm; exact HK]).
    split; [|split; [unfold M; cbn [ci]; now rewrite map_length|]].
    - unfold legal. change (cN M) with K. change (cp M) with (colstart out). change (ci M) with (map Some (rowindex out)). change (cx M) with (map Some (values out)). rewrite !map_length.
      split; [auto|]. split; [auto|]. split; [auto|]. split; [auto|]. intros k HK. rewrite CK by auto. destruct (I5 k HK) as (J1 & J2 & J3). split; auto. split.
      + unfold slice. rewrite firstn_length, skipn_length, combine_length. pose proof (MONO (S k) K ltac:(lia) ltac:(lia)). rewrite I3 in H. lia.
      + split; auto. apply Forall_forall. intros rho HI. apply in_map_iff in HI. destruct HI as ([rho' v] & <- & HI). apply J3 in HI. destruct HI as (r & b & i & ST & Hi & -> & _).
        apply HS in ST; [|auto]. destruct ST as [Hr _]. cbn [fst]. nia.
    - intros i j Hi Hj. unfold entry. rewrite CK by auto. destruct (I5 j Hj) as (_ & J2 & J3). unfold scalar.
      assert (RI : i / n < Rb) by (apply Nat.div_lt_upper_bound; [auto|rewrite Nat.mul_comm; exact Hi]). pose proof (Nat.div_mod_eq i n) as DI. pose proof (Nat.mod_upper_bound i n Hn') as MI.
      destruct (lk (i / n) (j / m)) as [b|] eqn:FE.
      + apply denrow_in; [apply ssorted_NoDup; auto|]. apply J3. exists (i / n), b, (i mod n). split; [apply HS; auto|]. split; [auto|]. split; [lia|auto].
      + apply denrow_notin. intros HI. apply in_map_iff in HI. destruct HI as ([rho v] & Q & HI). cbn in Q. subst rho. apply J3 in HI. destruct HI as (r & b & i' & ST & Hi' & Q & _).
        apply HS in ST; [|auto]. destruct ST as [Hr ST]. assert (r = i / n) by (rewrite Q; symmetry; rewrite Nat.add_comm, Nat.div_add by auto; rewrite Nat.div_small by auto; lia). subst r. congruence.
  Qed.
  (** what SPQR gets: the scalar matrix of all blocks, or of the block rows and columns in the set *)
  Theorem C81_matrix N M (A : @bmat R) : 0 < n -> 0 < m -> bmat_wf N M A ->
    exists out, copyToBCCSMatrix r0 n m (M * m) A = Ok out /\ let C := Csc (M * m) (colstart out) (map Some (rowindex out)) (map Some (values out)) in
      legal (N * n) C /\ length (values out) = length (ci C) /\ forall i j, i < N * n -> j < M * m -> entry C i j = blocks A i j.
  Proof.
    intros Hn Hm WF. destruct (C23_copyToBCCSMatrix r0 n m N M A Hm WF) as (out & E & I & _). exists out. split; auto. apply (ccs_csc N M _ out (look A) Hn Hm I).
    intros r c b Hc. destruct WF as [LA WF]. rewrite Forall_forall in WF. split; intros [Hr H]; (split; [auto|]); (apply in_look; [apply WF, nth_In; lia|exact H]).
  Qed.
  Theorem C81_submatrix N (A : @bmat R) S0 : 0 < n -> 0 < m -> bmat_wf N N A -> StronglySorted lt S0 -> Forall (fun x => x < N) S0 ->
    exists out, copySubset r0 n m (length S0 * m) A S0 = Ok out /\ let C := Csc (length S0 * m) (colstart out) (map Some (rowindex out)) (map Some (values out)) in
      legal (length S0 * n) C /\ length (values out) = length (ci C) /\ forall i j, i < length S0 * n -> j < length S0 * m -> entry C i j = subblocks A S0 i j.
  Proof.
    intros Hn Hm WF HS HF. destruct (C23_copySubset r0 n m N A S0 Hm WF HS HF) as (out & E & I). exists out. split; auto. apply (ccs_csc (length S0) (length S0) _ out _ Hn Hm I).
    intros r c b Hc. destruct WF as [LA WF]. rewrite Forall_forall in WF, HF. split.
    - intros (x & y & H1 & H2 & H3). assert (Hr : r < length S0) by (apply nth_error_Some; congruence). split; auto. apply (nth_error_nth _ _ 0) in H1, H2. rewrite H1, H2.
      apply in_look; [apply WF, nth_In; rewrite LA, <- H1; apply HF, nth_In; auto|auto].
    - intros [Hr H]. exists (nth r S0 0), (nth c S0 0). split; [apply nth_error_nth'; auto|]. split; [apply nth_error_nth'; auto|].
      apply in_look; [apply WF, nth_In; rewrite LA; apply HF, nth_In; auto|auto].
  Qed.

  (** ** Solving *)
  Lemma first_length k l : length (first k l) = k.
  Proof. unfold first. now rewrite map_length, seq_length. Qed.
  Lemma first_get k l i : i < k -> vget (first k l) i = vget l i.
  Proof.
    intros H. unfold vget at 1, first. rewrite (nth_indep _ r0 (vget l 0)) by (rewrite map_length, seq_length; auto). rewrite map_nth, seq_nth by auto. reflexivity.
  Qed.
  Lemma sum_permuted k p (g : nat -> R) : Permutation p (seq 0 k) -> sum k g = sum k (fun i => g (nth i p 0)).
  Proof.
    intros HP. assert (LP : length p = k) by (rewrite (Permutation_length HP); apply seq_length). rewrite <- !lsum_seq. rewrite <- (map_map (fun i => nth i p 0) g).
    replace (map (fun i => nth i p 0) (seq 0 k)) with p; [symmetry; apply lsum_perm, Permutation_map; auto|].
    apply (nth_ext _ _ 0 0); [now rewrite map_length, seq_length|]. intros i Hi. rewrite (nth_indep (map _ _) 0 (nth 0 p 0)) by (rewrite map_length, seq_length; lia). rewrite (map_nth (fun i => nth i p 0)), seq_nth by lia. reflexivity.
  Qed.

  Section LeastSquares.
    Hypothesis comm : forall a b : R, rmul a b = rmul b a.
    Lemma qr_solves rows cols A f b : factorisation rows cols A f -> length b = rows -> least_squares rows cols A (first cols (rsolve lib f (first rows (qmult lib f b)))) b.
    Proof.
      intros (p & Q & U & rk & HP & HK & Q1 & Q2 & HA & HU & HM & HR) LB. set (y := first rows (qmult lib f b)). set (x := first cols (rsolve lib f y)).
      assert (LP : length p = cols) by (rewrite (Permutation_length HP); apply seq_length).
      assert (PR : forall j, j < cols -> nth j p 0 < cols). { intros j Hj. assert (I : In (nth j p 0) (seq 0 cols)) by (apply (Permutation_in _ HP), nth_In; lia). apply in_seq in I. lia. }
      assert (ONTO : forall j, j < cols -> exists j', j' < cols /\ nth j' p 0 = j).
      { intros j Hj. assert (I : In j p) by (apply (Permutation_in _ (Permutation_sym HP)), in_seq; lia). apply (In_nth _ _ 0) in I. destruct I as (j' & X & Y'). exists j'. split; [lia|auto]. }
      (* A z = Q (U z') *)
      assert (AZ : forall z i, i < rows -> mulv cols A z i = sum rows (fun l => rmul (Q i l) (sum cols (fun j => rmul (U l j) (vget z (nth j p 0)))))).
      { intros z i Hi. unfold mulv. rewrite (sum_permuted cols p) by auto. transitivity (sum cols (fun j => sum rows (fun l => rmul (Q i l) (rmul (U l j) (vget z (nth j p 0)))))).
        - apply sum_ext. intros j Hj. rewrite HA by auto. rewrite <- sum_mul_r. apply sum_ext. intros l Hl. now rewrite rmul_assoc.
        - rewrite sum_swap. apply sum_ext. intros l Hl. now rewrite sum_mul_l. }
      (* Q^T (A z) = U z' *)
      assert (QAZ : forall z l, l < rows -> sum rows (fun i => rmul (Q i l) (mulv cols A z i)) = sum cols (fun j => rmul (U l j) (vget z (nth j p 0)))).
      { intros z l Hl. set (g := fun l' => sum cols (fun j => rmul (U l' j) (vget z (nth j p 0)))). transitivity (sum rows (fun i => sum rows (fun l' => rmul (rmul (Q i l) (Q i l')) (g l')))).
        - apply sum_ext. intros i Hi. rewrite AZ by auto. rewrite <- sum_mul_l. apply sum_ext. intros l' Hl'. now rewrite rmul_assoc.
        - rewrite sum_swap. transitivity (sum rows (fun l' => rmul (if l =? l' then r1 else r0) (g l'))).
          + apply sum_ext. intros l' Hl'. rewrite sum_mul_r. now rewrite Q1.
          + rewrite (sum_single rows l); auto; [now rewrite Nat.eqb_refl, rmul_1_l|]. intros i Hi NE. destruct (Nat.eqb_spec l i); [congruence|]. apply rmul_0_l. }
      (* the residual in the basis of the columns of Q vanishes above rk *)
      set (res := fun i => rsub (mulv cols A x i) (vget b i)).
      assert (QR : forall l, l < rows -> sum rows (fun i => rmul (Q i l) (res i)) = rsub (sum cols (fun j => rmul (U l j) (vget x (nth j p 0)))) (vget y l)).
      { intros l Hl. unfold res. transitivity (sum rows (fun i => rsub (rmul (Q i l) (mulv cols A x i)) (rmul (Q i l) (vget b i)))); [apply sum_ext; intros; ncring|].
        rewrite sum_sub, QAZ by auto. f_equal. unfold y. rewrite first_get by auto. now rewrite HM. }
      assert (RX : forall l, l < rk -> sum cols (fun j => rmul (U l j) (vget x (nth j p 0))) = vget y l).
      { intros l Hl. rewrite <- (HR y (first_length _ _) l Hl). apply sum_ext. intros j Hj. unfold x. now rewrite first_get by auto. }
      assert (UP : forall l, l < rows -> l < rk -> sum rows (fun i => rmul (Q i l) (res i)) = r0).
      { intros l Hl Hlk. rewrite QR by auto. rewrite RX by auto. apply rsub_diag. }
      split.
      - intros j Hj. destruct (ONTO j Hj) as (j' & Hj' & <-). fold res. transitivity (sum rows (fun i => sum rows (fun l => rmul (U l j') (rmul (Q i l) (res i))))).
        + apply sum_ext. intros i Hi. rewrite HA by auto. change (rsub (mulv cols A x i) (vget b i)) with (res i). rewrite <- sum_mul_r. apply sum_ext. intros l Hl. now rewrite (comm (Q i l) (U l j')), rmul_assoc.
        + rewrite sum_swap. apply sum_zero. intros l Hl. rewrite sum_mul_l. destruct (Nat.lt_ge_cases l rk) as [H|H]; [rewrite UP by auto; apply rmul_0_r|rewrite HU by auto; apply rmul_0_l].
      - intros [z HZ]. assert (ALL : forall l, l < rows -> sum rows (fun i => rmul (Q i l) (res i)) = r0).
        { intros l Hl. destruct (Nat.lt_ge_cases l rk) as [H|H]; [auto|]. rewrite QR by auto. rewrite (sum_zero cols) by (intros j Hj; rewrite HU by auto; apply rmul_0_l).
          assert (Y0 : vget y l = r0). { unfold y. rewrite first_get by auto. rewrite HM by auto. transitivity (sum rows (fun i => rmul (Q i l) (mulv cols A z i))); [apply sum_ext; intros i Hi; now rewrite HZ|].
            rewrite QAZ by auto. apply sum_zero. intros j Hj. rewrite HU by auto. apply rmul_0_l. }
          rewrite Y0. apply rsub_diag. }
        intros i Hi. apply rsub_eq0. change (res i = r0). transitivity (sum rows (fun i' => rmul (if i =? i' then r1 else r0) (res i'))).
        + rewrite (sum_single rows i); auto; [now rewrite Nat.eqb_refl, rmul_1_l|]. intros i' Hi' NE. destruct (Nat.eqb_spec i i'); [congruence|]. apply rmul_0_l.
        + transitivity (sum rows (fun i' => sum rows (fun l => rmul (Q i l) (rmul (Q i' l) (res i'))))).
          * apply sum_ext. intros i' Hi'. rewrite <- Q2 by auto. rewrite <- sum_mul_r. apply sum_ext. intros l Hl. now rewrite rmul_assoc.
          * rewrite sum_swap. apply sum_zero. intros l Hl. rewrite sum_mul_l, ALL by auto. apply rmul_0_r.
    Qed.
  End LeastSquares.

  (** ** Histories *)
  Definition holds (v : view) (leaks : nat) (st : state) : Prop :=
    lost st = leaks /\ loaded st = false /\
    match v with
    | Fresh => st = init
    | Freed => mN st = 0 /\ mM st = 0 /\ mNnz st = 0 /\ arrays st = Dangling /\ mA st = Null /\ mB st = Null /\ mF st = Null
    | Hollow => mN st = 0 /\ mM st = 0 /\ mNnz st = 0 /\ (exists c, arrays st = Live c) /\ (exists c, mA st = Live c) /\ mB st = Live tt /\ exists f, mF st = Live f
    | System rows cols B => 0 < rows + cols /\ mN st = rows /\ mM st = cols /\ (exists c, arrays st = Live c) /\ mB st = Live tt /\
        exists c f, mA st = Live c /\ mF st = Live f /\ legal rows c /\ cN c = cols /\ (forall i j, i < rows -> j < cols -> entry c i j = B i j) /\ qrfact lib rows c = Some f
    end.
  Lemma free_ok v leaks st : holds v leaks st -> v <> Fresh -> v <> Freed -> exists st', free st = Ok st' /\ holds Freed leaks st'.
  Proof.
    destruct st as [N M nz a l ma mb mf lo]. intros (L & LO & H) N1 N2. cbn in L, LO. subst lo l. unfold free, bccs_free. cbn [mN mM mNnz arrays loaded mA mB mF lost].
    destruct v as [| | |rows cols B]; try congruence; cbn in H.
    - destruct H as (-> & -> & -> & (c & ->) & (c' & ->) & -> & f & ->). cbn. eexists. split; [reflexivity|]. repeat split.
    - destruct H as (_ & -> & -> & (c & ->) & -> & c' & f & -> & -> & _). cbn. eexists. split; [reflexivity|]. repeat split.
  Qed.
  (** the state after the release of the previous matrix *)
  Definition left (v : view) : view := match v with System _ _ _ => Freed | _ => v end.
  Lemma release_ok v leaks st : holds v leaks st -> exists st', release st = Ok st' /\ holds (left v) leaks st'.
  Proof.
    intros H. unfold release. destruct v as [| | |rows cols B]; cbn [left].
    - exists st. pose proof H as (_ & _ & ->). cbn. auto.
    - exists st. pose proof H as (_ & -> & -> & -> & _). cbn. auto.
    - exists st. pose proof H as (_ & -> & -> & -> & _). cbn. auto.
    - pose proof H as (_ & _ & K & -> & -> & _). replace (0 <? rows + cols) with true by (symmetry; apply Nat.ltb_lt; lia). cbn [orb]. apply (free_ok (System rows cols B)); auto; discriminate.
  Qed.
  Definition held (v : view) : nat := match v with Hollow => 6 | _ => 0 end.
  Lemma holds_left v leaks st : holds (left v) leaks st -> bccs_release st = Ok st /\ 3 * live (arrays st) + live (mA st) + live (mB st) + live (mF st) = held v.
  Proof.
    intros (_ & _ & H). unfold bccs_release. destruct v as [| | |rows cols B]; cbn [left held] in *.
    - subst st. auto.
    - destruct H as (-> & -> & -> & -> & -> & -> & ->). auto.
    - destruct H as (-> & -> & -> & (c & ->) & (c' & ->) & -> & f & ->). auto.
    - destruct H as (-> & -> & -> & -> & -> & -> & ->). auto.
  Qed.
  Lemma decompose_ok st v leaks rows cols B out : complex = false -> roomy -> holds (left v) leaks st ->
    let M := Csc cols (colstart out) (map Some (rowindex out)) (map Some (values out)) in
    legal rows M -> length (values out) = length (ci M) -> (forall i j, i < rows -> j < cols -> entry M i j = B i j) ->
    exists st', decompose (install st rows cols out) = Ok st' /\ holds (system rows cols B) (leaks + held v) st'.
  Proof.
    intros CF OR H M LG LV EN. destruct (holds_left _ _ _ H) as [_ LIVE]. pose proof H as (L & LO & _).
    unfold decompose, install. cbn [mN mM mNnz arrays loaded mA mB mF lost cp ci cx]. pose proof LG as (C1 & C2 & C3 & C4 & _). change (cN M) with cols in *. change (cp M) with (colstart out) in *.
    rewrite (nth_error_nth' _ 0) by lia. rewrite C3. change (ci M) with (map (@Some nat) (rowindex out)) in *. change (cx M) with (map (@Some R) (values out)) in *.
    rewrite C4, Nat.ltb_irrefl, CF. cbn [orb andb]. rewrite <- C1, firstn_all. rewrite firstn_all. rewrite <- C4, firstn_all. change (Csc cols (colstart out) (map Some (rowindex out)) (map Some (values out))) with M.
    destruct (qrfact lib rows M) as [f|] eqn:FE; [|destruct (OR rows M LG FE)]. eexists. split; [reflexivity|]. unfold holds, system. cbn [mN mM mNnz arrays loaded mA mB mF lost]. destruct (Nat.eqb_spec (rows + cols) 0) as [Z|Z].
    - assert (cols = 0 /\ rows = 0) as [-> ->] by lia. split; [lia|]. split; [auto|]. split; [auto|]. split; [auto|]. split; [|split; [eauto|split; [eauto|eauto]]]. rewrite LV, <- C3. exact C2.
    - split; [lia|]. split; [auto|]. split; [lia|]. split; [auto|]. split; [auto|]. split; [eauto|]. split; [auto|]. exists M, f. auto 10.
  Qed.
  (** solving: the entries beyond the system keep their values, the factors are applied as SuiteSparse says *)
  Lemma apply_ok v leaks st x b : holds v leaks st -> (match v with Fresh => False | Freed | Hollow => True | System rows cols _ => cols <= length x /\ rows <= length b end) -> forall res,
    exists st' x', apply st x b res = Ok (st', (x', (1, true))) /\ holds v leaks st' /\ skipn (mM st) x' = skipn (mM st) x /\ length x' = length x /\
    match v with System rows cols B => (forall a b : R, rmul a b = rmul b a) -> promised rows cols B -> least_squares rows cols B (firstn cols x') (firstn rows b) | _ => x' = x end.
  Proof.
    intros H W res. pose proof H as (HL & HO & HH). unfold apply. destruct v as [| | |rows cols B]; [destruct W| | |].
    - destruct HH as (E1 & E2 & E3 & E4 & E5 & E6 & E7). rewrite E1, E2, E6, E7. replace (length b <? 0) with false by (symmetry; apply Nat.ltb_ge; lia). cbn [obind Nat.ltb Nat.leb]. do 2 eexists. split; [reflexivity|]. split; [repeat split; auto|]. auto.
    - destruct HH as (E1 & E2 & E3 & E4 & E5 & E6 & f & E7). rewrite E1, E2, E6, E7. replace (length b <? 0) with false by (symmetry; apply Nat.ltb_ge; lia). cbn [obind]. replace (length x <? 0) with false by (symmetry; apply Nat.ltb_ge; lia).
      do 2 eexists. split; [reflexivity|]. split; [auto|]. cbn. auto.
    - destruct HH as (K & E1 & E2 & _ & E6 & c & f & _ & E7 & LG & NC & EN & FE). destruct W as [WX WB]. rewrite E1, E2, E6, E7. replace (length b <? rows) with false by (symmetry; apply Nat.ltb_ge; auto).
      replace (match rows with 0 => Ok tt | S _ => Ok tt end) with (@Ok unit tt) by (destruct rows; auto). cbn [obind]. replace (length x <? cols) with false by (symmetry; apply Nat.ltb_ge; auto).
      set (z := first cols _). assert (LZ : length z = cols) by apply first_length. do 2 eexists. split; [reflexivity|]. split; [auto|]. split; [rewrite skipn_app, skipn_all2 by lia; rewrite LZ, Nat.sub_diag; reflexivity|].
      split; [rewrite app_length, skipn_length; lia|]. intros CM SO. rewrite firstn_app, firstn_all2 by lia. rewrite LZ, Nat.sub_diag. cbn [firstn]. rewrite app_nil_r.
      assert (LB : length (firstn rows b) = rows) by (apply firstn_length_le; auto). exact (qr_solves CM rows cols B f _ (SO c f LG NC EN FE) LB).
  Qed.
  Lemma do_ok v leaks st c v' l : 0 < n -> 0 < m -> complex = false -> roomy -> holds v leaks st -> wf_call c -> track v c = Some (v', l) -> exists st', do st c = Ok st' /\ holds v' (leaks + l) st'.
  Proof.
    intros Hn Hm CF OR H W T. destruct c as [N M A|N A S0|x b|]; cbn [track do] in *.
    - injection T as <- <-. change (bmat_wf N M A) in W. destruct (release_ok v leaks st H) as (st1 & E1 & H1). unfold setMatrix. rewrite E1. cbn [obind]. destruct (holds_left _ _ _ H1) as [E2 _]. rewrite E2. cbn [obind].
      destruct (C81_matrix N M A Hn Hm W) as (out & E3 & LG & LV & EN). rewrite E3. cbn [obind]. rewrite (proj1 W). apply (decompose_ok st1 v leaks (N * n) (M * m) (blocks A) out CF OR H1 LG LV EN).
    - injection T as <- <-. destruct W as (HN & WF & HS & HF). destruct (release_ok v leaks st H) as (st1 & E1 & H1). unfold setSubMatrix. rewrite E1. cbn [obind]. destruct (holds_left _ _ _ H1) as [E2 _]. rewrite E2. cbn [obind].
      rewrite (proj1 WF). replace (N =? 0) with false by (symmetry; apply Nat.eqb_neq; lia). cbn [orb].
      assert (DV : forall k, length S0 * (N * k) / N = length S0 * k) by (intros k; replace (length S0 * (N * k)) with (length S0 * k * N) by ring; now rewrite Nat.div_mul by lia). rewrite !DV.
      destruct (C81_submatrix N A S0 Hn Hm WF HS HF) as (out & E3 & LG & LV & EN). rewrite E3. cbn [obind]. apply (decompose_ok st1 v leaks _ _ (subblocks A S0) out CF OR H1 LG LV EN).
    - assert (V' : v' = v /\ l = 0 /\ match v with Fresh => False | Freed | Hollow => True | System rows cols _ => cols <= length x /\ rows <= length b end).
      { destruct v as [| | |rows cols B]; [discriminate|injection T as <- <-; auto|injection T as <- <-; auto|].
        destruct (Nat.leb_spec cols (length x)); [|discriminate]. destruct (Nat.leb_spec rows (length b)); [|discriminate]. injection T as <- <-. auto. }
      destruct V' as (-> & -> & V'). destruct (apply_ok v leaks st x b H V' (0, false)) as (st' & x' & E & H' & _). rewrite E. cbn [obind fst]. exists st'. rewrite Nat.add_0_r. auto.
    - destruct v as [| | |rows cols B]; try discriminate; injection T as <- <-; (destruct (free_ok _ _ _ H) as (st' & E & H'); [discriminate..|]); exists st'; rewrite Nat.add_0_r; auto.
  Qed.
  Lemma run_ok : 0 < n -> 0 < m -> complex = false -> roomy -> forall cs v leaks st v' leaks', holds v leaks st -> Forall wf_call cs -> tracks v cs leaks = Some (v', leaks') -> exists st', run st cs = Ok st' /\ holds v' leaks' st'.
  Proof.
    intros Hn Hm CF OR. induction cs as [|c cs IH]; intros v leaks st v' leaks' H W T; cbn [tracks run] in *.
    - injection T as <- <-. eauto.
    - apply Forall_cons_iff in W. destruct W as [W1 W2]. destruct (track v c) as [[v1 l1]|] eqn:T1; [|discriminate]. destruct (do_ok _ _ _ _ _ _ Hn Hm CF OR H W1 T1) as (st1 & E1 & H1). rewrite E1. cbn [obind]. eapply IH; eauto.
  Qed.
  Lemma init_holds : holds Fresh 0 init.
  Proof. repeat split. Qed.
  Lemma destroy_ok v leaks st : holds v leaks st -> destroy st = Ok (1 + leaks + held v).
  Proof.
    intros H. unfold destroy. destruct (release_ok v leaks st H) as (st1 & E1 & H1). rewrite E1. cbn [obind]. destruct (holds_left _ _ _ H1) as [E2 L2]. rewrite E2. cbn [obind]. rewrite (proj1 H1), <- L2. f_equal. lia.
  Qed.
  (** what apply does when the solver holds v; the second component of the result is x and what is reported *)
  Definition applies (v : view) (st : state) : Prop :=
    match v with
    | Fresh => forall x b res, apply st x b res = UB
    | Freed | Hollow => forall x b res, exists st', apply st x b res = Ok (st', (x, (1, true)))
    | System rows cols B => forall x b res, length x = cols -> length b = rows ->
        exists st' x', apply st x b res = Ok (st', (x', (1, true))) /\ length x' = cols /\ ((forall a b : R, rmul a b = rmul b a) -> promised rows cols B -> least_squares rows cols B x' b)
    end.
  Lemma holds_applies v leaks st : holds v leaks st -> applies v st.
  Proof.
    intros H. destruct v as [| | |rows cols B]; cbn [applies]; intros x b res.
    - destruct H as (_ & _ & ->). unfold apply. cbn [mN mM mB mF init]. replace (length b <? 0) with false by (symmetry; apply Nat.ltb_ge; lia). reflexivity.
    - destruct (apply_ok Freed leaks st x b H Logic.I res) as (st' & x' & E & _ & _ & _ & ->). eauto.
    - destruct (apply_ok Hollow leaks st x b H Logic.I res) as (st' & x' & E & _ & _ & _ & ->). eauto.
    - intros LX LB. destruct (apply_ok (System rows cols B) leaks st x b H ltac:(cbn; lia) res) as (st' & x' & E & _ & _ & LX' & SL). exists st', x'. split; [auto|]. split; [congruence|]. intros CM SO. specialize (SL CM SO). rewrite !firstn_all2 in SL by lia. auto.
  Qed.
  (** C81.  Every history of legal calls, starting from a default constructed solver: no undefined behaviour, apply solves the least squares problem of the matrix given last (and the
      system, if it has a solution), everything is released but *cc_ and six objects for every empty system *)
  Theorem C81_history cs v leaks : 0 < n -> 0 < m -> complex = false -> roomy -> Forall wf_call cs -> tracks Fresh cs 0 = Some (v, leaks) ->
    exists st, run init cs = Ok st /\ applies v st /\ destroy st = Ok (1 + leaks + held v).
  Proof.
    intros Hn Hm CF OR W T. destruct (run_ok Hn Hm CF OR cs Fresh 0 init v leaks init_holds W T) as (st & E & H). exists st. split; auto. split; [eapply holds_applies; eauto|eapply destroy_ok; eauto].
  Qed.
  (** a constructor that gets a matrix makes what the default constructor and setMatrix make *)
  Theorem C81_construct N M A cs : run init (CSet N M A :: cs) = obind (construct M A) (fun st => run st cs).
  Proof. reflexivity. Qed.
  (** Deviation: after free() apply is not an error: it leaves x alone and reports convergence.  A second free() is undefined *)
  Theorem C81_freed_refuted cs v leaks : 0 < n -> 0 < m -> complex = false -> roomy -> Forall wf_call cs -> tracks Fresh cs 0 = Some (v, leaks) -> v <> Fresh -> v <> Freed ->
    exists st st', run init cs = Ok st /\ free st = Ok st' /\ (forall x b res, exists st'', apply st' x b res = Ok (st'', (x, (1, true)))) /\ free st' = UB.
  Proof.
    intros Hn Hm CF OR W T N1 N2. destruct (run_ok Hn Hm CF OR cs Fresh 0 init v leaks init_holds W T) as (st & E & H). destruct (free_ok _ _ _ H N1 N2) as (st' & E' & H'). exists st, st'. split; auto. split; auto. split; [exact (holds_applies Freed leaks st' H')|].
    destruct H' as (_ & _ & _ & _ & _ & A1 & A2 & A3 & A4). unfold free, bccs_free. rewrite A2, A3, A4. cbn [umf_free obind arrays]. rewrite A1. reflexivity.
  Qed.
  (** Deviation: without a matrix apply and free() are undefined *)
  Theorem C81_unset_refuted : (forall x b res, apply init x b res = UB) /\ free init = UB.
  Proof. split; [exact (holds_applies Fresh 0 init init_holds)|reflexivity]. Qed.
  (** Deviation: the sizes of the vectors are not looked at.  Longer ones are used up to the size of the system, shorter ones are read and written past their end *)
  Theorem C81_sizes_refuted cs rows cols B leaks : 0 < n -> 0 < m -> complex = false -> roomy -> Forall wf_call cs -> tracks Fresh cs 0 = Some (System rows cols B, leaks) ->
    exists st, run init cs = Ok st /\ forall x b res,
      (cols <= length x -> rows <= length b -> exists st' x', apply st x b res = Ok (st', (x', (1, true))) /\ skipn cols x' = skipn cols x /\
          ((forall a b : R, rmul a b = rmul b a) -> promised rows cols B -> least_squares rows cols B (firstn cols x') (firstn rows b))) /\
      (length x < cols \/ length b < rows -> apply st x b res = UB).
  Proof.
    intros Hn Hm CF OR W T. destruct (run_ok Hn Hm CF OR cs Fresh 0 init _ leaks init_holds W T) as (st & E & H). exists st. split; auto. intros x b res. split.
    - intros LX LB. destruct (apply_ok (System rows cols B) leaks st x b H ltac:(cbn; lia) res) as (st' & x' & E' & _ & SK & _ & SL). exists st', x'. destruct H as (_ & _ & _ & _ & HM & _). rewrite HM in SK. auto.
    - intros SH. destruct H as (_ & _ & K & E1 & E2 & _ & E6 & c & f & _ & E7 & _). unfold apply. rewrite E1, E2, E6, E7. destruct (Nat.ltb_spec (length b) rows); auto.
      replace (match rows with 0 => Ok tt | S _ => Ok tt end) with (@Ok unit tt) by (destruct rows; auto). cbn [obind]. destruct (Nat.ltb_spec (length x) cols); auto. lia.
  Qed.
  (** Deviation: if SPQR runs out of memory nothing is thrown, and apply dereferences a null pointer *)
  Theorem C81_memory_refuted N M A : 0 < n -> 0 < m -> complex = false -> bmat_wf N M A -> 0 < M -> (forall rows C, qrfact lib rows C = None) ->
    exists st, setMatrix init M A = Ok st /\ forall x b res, apply st x b res = UB.
  Proof.
    intros Hn Hm CF WF HM NF. destruct (C81_matrix N M A Hn Hm WF) as (out & E3 & LG & LV & EN). unfold setMatrix, release, bccs_release. cbn [init mN mM mNnz loaded Nat.add Nat.ltb Nat.leb orb obind Nat.eqb]. rewrite E3. cbn [obind]. rewrite (proj1 WF).
    unfold decompose, install. cbn [mN mM mNnz arrays loaded mA mB mF lost cp ci cx init]. destruct LG as (C1 & C2 & C3 & C4 & _). cbn [cp ci cx cN] in C1, C2, C3, C4.
    rewrite (nth_error_nth' _ 0) by lia. rewrite C3, C4, Nat.ltb_irrefl, CF, NF. cbn [orb andb]. eexists. split; [reflexivity|]. intros x b res. unfold apply. cbn [mN mM mB mF].
    destruct (length b <? N * n); auto. replace (match N * n with 0 => Ok tt | S _ => Ok tt end) with (@Ok unit tt) by (destruct (N * n); auto). cbn [obind]. replace (0 <? M * m) with true by (symmetry; apply Nat.ltb_lt; nia). reflexivity.
  Qed.
  (** Deviation: complex entries are written into memory for real ones *)
  Theorem C81_complex_refuted N M A st : 0 < n -> 0 < m -> complex = true -> bmat_wf N M A -> (exists row, In row A /\ row <> nil) -> setMatrix st M A = UB.
  Proof.
    intros Hn Hm CT WF (row & HI & NR). unfold setMatrix. destruct (C23_copyToBCCSMatrix r0 n m N M A Hm WF) as (out & E & (I1 & I2 & I3 & I4 & I5) & LN).
    assert (UBB : forall st1, decompose (install st1 (length A * n) (M * m) out) = UB).
    { intros st1. unfold decompose, install. cbn [mN mM arrays cp ci cx]. rewrite (nth_error_nth' _ 0) by lia. destruct ((length (map Some (rowindex out)) <? nth (M * m) (colstart out) 0) || (length (map Some (values out)) <? nth (M * m) (colstart out) 0)); auto. rewrite CT. cbn [andb].
      replace (0 <? nth (M * m) (colstart out) 0) with true; auto. symmetry. apply Nat.ltb_lt. rewrite I3, <- I4, LN. assert (1 <= list_sum (map (@length _) A)); [|nia].
      clear -HI NR. induction A as [|a A IH]; [destruct HI|]. change (1 <= length a + list_sum (map (@length _) A)). destruct HI as [->|HI]; [destruct row; [congruence|cbn [length]; lia]|specialize (IH HI); lia]. }
    unfold release. destruct ((0 <? mN st + mM st) || loaded st).
    - unfold free, bccs_free. destruct (mA st), (mB st), (mF st), (arrays st); cbn [umf_free delete obind arrays mN mM mNnz loaded mA mB mF lost]; auto; unfold bccs_release; cbn [mN mM mNnz Nat.add Nat.eqb obind]; rewrite E; cbn [obind]; apply UBB.
    - cbn [obind]. unfold bccs_release. destruct (mN st + mM st + mNnz st =? 0); cbn [obind]; [rewrite E; cbn [obind]; apply UBB|]. unfold bccs_free. destruct (arrays st); cbn [delete obind]; auto; rewrite E; cbn [obind]; apply UBB.
  Qed.
End Spqr.
Arguments qrfact {R F}. Arguments Lib {R F}. Arguments qmult {R F}. Arguments rsolve {R F}.

From Coq Require Import ZArith.
From Verif Require Import RingInst.
(** ** Examples *)
Section SExamples.
  Local Open Scope Z_scope.
  (** a library that factorises [[0, 1], [1, c], [0, 0]]: Q exchanges the first two rows, R = [[1, c], [0, 1], [0, 0]] *)
  Let lib3 : library Z :=
    Lib (R := Zring) (F := Z) (fun rows M => Some (if (rows =? 3)%nat && (cN M =? 2)%nat then @entry Zring M 1 1 else 0))
      (fun f b => [nth 1 b 0; nth 0 b 0; nth 2 b 0]) (fun f y => [nth 0 y 0 - f * nth 1 y 0; nth 1 y 0]).
  Lemma lib3_roomy : roomy (R := Zring) lib3.
  Proof. intros rows M _. discriminate. Qed.
  Let A3 : @bmat Zring := [[(0%nat, fun _ _ => 0); (1%nat, fun _ _ => 1)]; [(0%nat, fun _ _ => 1); (1%nat, fun _ _ => 5)]; []].
  Let A2 : @bmat Zring := [[(0%nat, fun _ _ => 7)]; [(1%nat, fun _ _ => 3)]].
  Lemma A3_wf : bmat_wf 3 2 A3.
  Proof. split; [reflexivity|]. repeat constructor. Qed.
  Lemma A2_wf : bmat_wf 2 2 A2.
  Proof. split; [reflexivity|]. repeat constructor. Qed.
  Lemma A3_promised : promised (R := Zring) lib3 3 2 (blocks (R := Zring) 1 1 A3).
  Proof.
    intros M f LG NC EN FE. cbn [qrfact lib3 Nat.eqb andb] in FE.
    rewrite NC in FE. cbn [Nat.eqb] in FE. assert (f = 5) by (injection FE as <-; rewrite EN by lia; reflexivity). subst f. clear LG NC EN FE M.
    exists [0; 1]%nat, (fun i l => if ((i =? 0) && (l =? 1) || (i =? 1) && (l =? 0) || (i =? 2) && (l =? 2))%nat then 1 else 0), (fun l j => if (l =? j)%nat then 1 else if ((l =? 0) && (j =? 1))%nat then 5 else 0), 2%nat.
    split; [apply Permutation_refl|]. split; [lia|]. repeat split.
    - intros [|[|[|l]]] [|[|[|l']]] Hl Hl'; try lia; reflexivity.
    - intros [|[|[|l]]] [|[|[|l']]] Hl Hl'; try lia; reflexivity.
    - intros [|[|[|i]]] [|[|j]] Hi Hj; try lia; reflexivity.
    - intros [|[|[|l]]] [|[|j]] H1 H2 Hj; try lia; reflexivity.
    - intros b LB [|[|[|l]]] Hl; try lia; unfold vget; cbn [sum Nat.eqb andb orb nth qmult lib3]; change (@radd Zring) with Z.add; change (@rmul Zring) with Z.mul; change (@r0 Zring) with 0; match goal with |- @eq _ ?a ?b => change (@eq Z a b) end; change (car Zring) with Z in *; ring.
    - intros y LY [|[|l]] Hl; try lia; unfold vget; cbn [sum Nat.eqb andb orb nth rsolve lib3]; change (@radd Zring) with Z.add; change (@rmul Zring) with Z.mul; change (@r0 Zring) with 0; match goal with |- @eq _ ?a ?b => change (@eq Z a b) end; change (car Zring) with Z in *; ring.
  Qed.
  (** a history with every kind of call: an empty matrix (six objects leaked), a row and column of a matrix, a solve, free, a solve that does nothing, the 3 x 2 matrix *)
  Let history : list (@call Zring) := [CSet (R := Zring) 0 0 nil; CSub (R := Zring) 2 A2 [1]%nat; CApply (R := Zring) [0] [9]; CFree (R := Zring); CApply (R := Zring) [4] nil; CSet (R := Zring) 3 2 A3].
  Example C81_history_nonvacuous : roomy (R := Zring) lib3 /\ Forall wf_call history /\
    (exists B, tracks (R := Zring) 1 1 Fresh history 0 = Some (System 3 2 B, 6%nat) /\ promised (R := Zring) lib3 3 2 B) /\
    exists st, run lib3 1 1 false (@init Zring Z) history = Ok st /\ destroy st = Ok 7%nat /\
      (exists st', apply lib3 st [0; 0] [9; 4; 8] (0%nat, false) = Ok (st', ([-41; 9], (1%nat, true)))) /\ (exists st', apply lib3 st [0; 0; 6] [9; 4; 8; 2] (0%nat, false) = Ok (st', ([-41; 9; 6], (1%nat, true)))).
  Proof.
    split; [exact lib3_roomy|]. split.
    { constructor; [split; [reflexivity|constructor]|]. constructor; [split; [lia|]; split; [exact A2_wf|]; repeat constructor|]. constructor; [exact Logic.I|]. constructor; [exact Logic.I|]. constructor; [exact Logic.I|]. constructor; [exact A3_wf|constructor]. }
    split; [eexists; split; [reflexivity|]; exact A3_promised|].
    assert (E : obind (run lib3 1 1 false (@init Zring Z) history) (fun st => obind (apply lib3 st [0; 0] [9; 4; 8] (0%nat, false)) (fun x => obind (apply lib3 st [0; 0; 6] [9; 4; 8; 2] (0%nat, false)) (fun y => obind (destroy st) (fun k => Ok (snd x, snd y, k))))) = Ok ([-41; 9], (1%nat, true), ([-41; 9; 6], (1%nat, true)), 7%nat)).
    { match goal with |- _ = ?r => vm_cast_no_check (eq_refl r) end. }
    apply obind_Ok in E. destruct E as (st & E0 & E). apply obind_Ok in E. destruct E as ([s1 x] & E1 & E). apply obind_Ok in E. destruct E as ([s2 y] & E2 & E). apply obind_Ok in E. destruct E as (k & E3 & E). cbn [snd] in E. injection E as -> -> ->. exists st. eauto 10.
  Qed.
  (** the least squares solution of a system that has none: the residual (0, 0, -8) is orthogonal to the columns *)
  Example C81_least_squares_nonvacuous : least_squares (R := Zring) 3 2 (blocks (R := Zring) 1 1 A3) [-41; 9] [9; 4; 8] /\ mulv (R := Zring) 2 (blocks (R := Zring) 1 1 A3) [-41; 9] 2 <> 8.
  Proof.
    split; [|vm_compute; discriminate]. split; [intros [|[|j]] Hj; try lia; reflexivity|]. intros (z & HZ). exfalso. specialize (HZ 2%nat ltac:(lia)). cbn in HZ. discriminate.
  Qed.
  (** Deviation: setSubMatrix of a matrix with more block columns than block rows reads its column table out of bounds *)
  Theorem C81_subset_refuted : bmat_wf (T := Z) 1 2 [[(1%nat, fun _ _ => 1)]] /\ setSubMatrix lib3 1 1 false (@init Zring Z) 2 [[(1%nat, fun _ _ => 1)]] [0%nat] = UB.
  Proof. split; [split; [reflexivity|repeat constructor]|reflexivity]. Qed.
  Example C81_memory_nonvacuous : exists lib : library (R := Zring) Z, (forall rows C, qrfact lib rows C = None) /\ bmat_wf 3 2 A3.
  Proof. exists (Lib (R := Zring) (F := Z) (fun _ _ => None) (fun _ b => b) (fun _ b => b)). split; [auto|exact A3_wf]. Qed.
  Example C81_complex_nonvacuous : exists row, In row A3 /\ row <> nil.
  Proof. eexists. split; [left; reflexivity|discriminate]. Qed.
End SExamples.
Print Assumptions C81_history.
Print Assumptions C81_sizes_refuted.
Print Assumptions C81_history_nonvacuous.
