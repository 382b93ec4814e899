(** * The UMFPACK wrapper (C77): dune/istl/umfpack.hh, dune/istl/bccsmatrix.hh

    The wrapper flattens a matrix of any nesting, or a set of block rows of a block matrix, into UMFPACK's compressed column
    arrays, has it factorised and solves with the factors; it owns the arrays and UMFPACK's Symbolic and Numeric objects
    through raw pointers.  Both are modelled: the contents of the arrays and the state of every pointer.  UMFPACK itself is not
    modelled: the functions of [library] are arbitrary, the theorems on solutions assume [sound].  Not modelled: printing,
    setOption, setVerbosity, apply on plain arrays, getFactorization, getInternalMatrix, copies of the object, running out of memory.
    Scalars range over any ring; index types are unbounded. *)
From Coq Require Import Arith List Lia Bool Sorted.
From Verif Require Import Outcome Ring Sums Sparse Foreach Cholmod Bccs.
Import ListNotations.
Open Scope nat_scope.

(** a raw pointer: not initialised, null, to memory that was released, or to an object *)
Inductive ptr (X : Type) := Uninit | Null | Dangling | Live (x : X).
Arguments Uninit {X}. Arguments Null {X}. Arguments Dangling {X}. Arguments Live {X}.
(** delete[] p, bccsmatrix.hh:141-143: the pointer itself is not changed *)
Definition delete {X} (p : ptr X) : outcome (ptr X) := match p with Null => Ok Null | Live _ => Ok Dangling | _ => UB end.
(** umfpack_dl_free_symbolic(&p), umfpack_dl_free_numeric(&p): documented to ignore null and to set p to null *)
Definition umf_free {X} (p : ptr X) : outcome (ptr X) := match p with Null | Live _ => Ok Null | _ => UB end.
(** the objects a pointer keeps alive *)
Definition live {X} (p : ptr X) : nat := match p with Live _ => 1 | _ => 0 end.

Section Umfpack.
  Context {R : ring}.

  (** UMFPACK: does the symbolic analysis succeed, the factors if the numerical factorisation succeeds, the solution if solving succeeds.
      A matrix is given by its order and its three arrays *)
  Record library (F : Type) := Lib { symb : @csc R -> bool; num : @csc R -> option F; slv : @csc R -> F -> list R -> option (list R) }.
  Arguments symb {F}. Arguments num {F}. Arguments slv {F}.
  Context {F : Type} (lib : library F).

  (** the members of UMFPack and of its BCCSMatrix (umfpack.hh:777-782, bccsmatrix.hh:150-153); the three array pointers of BCCSMatrix are
      always set and deleted together and are one pointer here; [lost] counts objects that were allocated and that no pointer refers to any more *)
  Record state := St { mN : nat; mM : nat; mNnz : nat; arrays : ptr (@csc R); loaded : bool; symbolic : ptr unit; numeric : ptr F; lost : nat }.
  (** UMFPack(), umfpack.hh:333-339 and BCCSMatrix(), bccsmatrix.hh:36-38 *)
  Definition init : state := St 0 0 0 Null false Uninit Uninit 0.
  (** BCCSMatrix::free(), bccsmatrix.hh:139-147 *)
  Definition bccs_free (st : state) : outcome state :=
    obind (delete (arrays st)) (fun a => Ok (St 0 0 0 a (loaded st) (symbolic st) (numeric st) (lost st))).
  (** UMFPack::free(), umfpack.hh:709-718 *)
  Definition free (st : state) : outcome state :=
    obind (if negb (loaded st) then obind (umf_free (symbolic st)) (fun s => bccs_free (St (mN st) (mM st) (mNnz st) (arrays st) (loaded st) s (numeric st) (lost st))) else Ok st) (fun st =>
    obind (umf_free (numeric st)) (fun f => Ok (St (mN st) (mM st) (mNnz st) (arrays st) false (symbolic st) f (lost st)))).
  (** the test at the top of ~UMFPack, setMatrix and setSubMatrix, umfpack.hh:396-397, 522-523, 653-654 *)
  Definition release (st : state) : outcome state := if (0 <? mN st + mM st) || loaded st then free st else Ok st.
  (** if (N + M + nonzeroes != 0) free(): umfpack.hh:527-528, 656-657 and ~BCCSMatrix, bccsmatrix.hh:41-45 *)
  Definition bccs_release (st : state) : outcome state := if mN st + mM st + mNnz st =? 0 then Ok st else bccs_free st.
  (** ~UMFPack(), umfpack.hh:394-398, then the destructor of the member umfpackMatrix_; the number of objects that are never released *)
  Definition destroy (st : state) : outcome nat :=
    obind (release st) (fun st => obind (bccs_release st) (fun st => Ok (lost st + live (arrays st) + live (symbolic st) + live (numeric st)))).
  (** decompose(), umfpack.hh:730-748: the row count is passed for both dimensions, UMFPACK reads N + 1 column starts of the M + 1 that exist;
      a failing call (an order of 0 is one) leaves a null pointer behind; no error code is looked at *)
  Definition decompose (st : state) : outcome state :=
    match arrays st with
    | Live c =>
        if mM st <? mN st then UB else
        let c := Csc (mN st) (cp c) (ci c) (cx c) in
        let s := if (mN st =? 0) || negb (symb lib c) then Null else Live tt in
        let f := match s with Live _ => match num lib c with Some f => Live f | None => Null end | _ => Null end in
        Ok (St (mN st) (mM st) (mNnz st) (arrays st) (loaded st) s f (lost st + live (symbolic st) + live (numeric st)))
    | _ => UB
    end.

  (** N() and M() of the outermost matrix *)
  Definition outerN (t : @mtree R) : nat := match t with MScalar _ => 1 | MSparse _ rows _ => length rows | MDense rows => length rows end.
  Definition outerM (t : @mtree R) : nat := match t with MScalar _ => 1 | MSparse m _ _ => m | MDense rows => length (hd nil rows) end.
  (** the test at the top of the three functors, umfpack.hh:558-560, 599-601, 623-625: is the entry copied? *)
  Definition uvisited (ign : option (list bool)) (r c : nat) : outcome bool :=
    match ign with
    | None => Ok true
    | Some f => match nth_error f r with
                | None => UB
                | Some true => Ok false
                | Some false => match nth_error f c with None => UB | Some b => Ok (negb b) end
                end
    end.
  (** counting the entries that are copied, umfpack.hh:556-563 *)
  Fixpoint nnzLoop (ign : option (list bool)) (calls : list (R * nat * nat)) (nz : nat) : outcome nat :=
    match calls with
    | nil => Ok nz
    | (_, r, c) :: t => obind (uvisited ign r c) (fun v => nnzLoop ign t (if v then S nz else nz))
    end.
  (** counting the entries of every column, umfpack.hh:596-608; useBitVector ? subIndices[i] : i is [reduced] *)
  Fixpoint ucountLoop (ign : option (list bool)) (sub : list (option nat)) (calls : list (R * nat * nat)) (ap : list nat) : outcome (list nat) :=
    match calls with
    | nil => Ok ap
    | (_, r, c) :: t =>
        obind (uvisited ign r c) (fun v => if v then obind (reduced ign sub c) (fun k =>
          if S k <? length ap then ucountLoop ign sub t (upd ap (S k) (S (nth (S k) ap 0))) else UB) else ucountLoop ign sub t ap)
    end.
  (** writing the entries, umfpack.hh:620-641 *)
  Fixpoint ufillLoop (ign : option (list bool)) (sub : list (option nat)) (ap : list nat) (calls : list (R * nat * nat)) (colPos : list nat) (ai : list (option nat)) (ax : list (option R))
    : outcome (list (option nat) * list (option R)) :=
    match calls with
    | nil => Ok (ai, ax)
    | (a, r, c) :: t =>
        obind (uvisited ign r c) (fun v => if v then obind (reduced ign sub r) (fun l => obind (reduced ign sub c) (fun k =>
          if (k <? length colPos) && (nth k ap 0 + nth k colPos 0 <? length ai)
          then let q := nth k ap 0 + nth k colPos 0 in ufillLoop ign sub ap t (upd colPos k (S (nth k colPos 0))) (upd ai q (Some l)) (upd ax q (Some a))
          else UB)) else ufillLoop ign sub ap t colPos ai ax)
    end.
  (** the assembly of the arrays in setMatrix(matrix, bitVector), umfpack.hh:533-641: rows, columns, number of entries, arrays; the bit vector is None for NoBitVector.
      (flatRows - numberOfIgnoredDofs would wrap around if it were negative; the model stops at 0, the theorems assume one flag per row) *)
  Definition assemble (t : @mtree R) (bits : option (@vtree bool)) : outcome (nat * nat * nat * @csc R) :=
    let ign := match bits with None => None | Some v => Some (map fst (fst (fvfe v 0))) end in
    let ignored := match ign with None => 0 | Some f => length (filter (fun b => b) f) end in
    obind (fmfe t 0 0) (fun x => let '(calls, (flatRows, flatCols)) := x in
    obind (nnzLoop ign calls 0) (fun nz =>
    obind (match ign with None => Ok nil | Some f => numberLoop f 0 flatRows 0 (repeat None flatRows) end) (fun sub =>
    let rows := flatRows - ignored in let cols := flatCols - ignored in
    obind (ucountLoop ign sub calls (repeat 0 (S cols))) (fun ap =>
    let ap := accumulate 0 cols ap in
    obind (ufillLoop ign sub ap calls (repeat 0 cols) (repeat None nz) (repeat None nz)) (fun aa =>
    Ok (rows, cols, nz, Csc cols ap (fst aa) (snd aa))))))).
  (** setMatrix(matrix, bitVector), umfpack.hh:520-644 *)
  Definition setMatrix (st : state) (t : @mtree R) (bits : option (@vtree bool)) : outcome state :=
    obind (release st) (fun st =>
    if (outerN t =? 0) || (outerM t =? 0) then Ok st else
    obind (bccs_release st) (fun st =>
    obind (assemble t bits) (fun x => let '(rows, cols, nz, c) := x in
    decompose (St rows cols nz (Live c) (loaded st) (symbolic st) (numeric st) (lost st + live (arrays st)))))).
  (** setSubMatrix(mat, rowIndexSet), umfpack.hh:651-666, for a matrix of N x M blocks with bn x bm scalars: rowdim(mat)/N = bn, coldim(mat)/M = bm
      (division by zero for an empty matrix); the arrays are filled by copyToBCCSMatrix (model: Bccs.v) *)
  Definition setSubMatrix (st : state) (bn bm M : nat) (A : @bmat R) (S0 : list nat) : outcome state :=
    obind (release st) (fun st => obind (bccs_release st) (fun st =>
    if (length A =? 0) || (M =? 0) then UB else
    let rows := length S0 * (length A * bn) / length A in let cols := length S0 * (M * bm) / M in
    obind (copySubset r0 bn bm cols A S0) (fun out =>
    decompose (St rows cols (length (values out)) (Live (Csc cols (colstart out) (map Some (rowindex out)) (map Some (values out)))) (loaded st) (symbolic st) (numeric st) (lost st + live (arrays st)))))).
  (** UMFPack(matrix, verbose), umfpack.hh:290-298, 308-316 and 327-329 *)
  Definition construct (t : @mtree R) : outcome state := setMatrix init t None.
  (** UMFPack(matrix, file, verbose), umfpack.hh:351-370 and 503-508: [file] is what umfpack_dl_load_numeric makes of the file, if it can; [saved] whether writing it succeeds.
      A load that fails sets the Numeric pointer to null; an exception thrown by the constructor runs the destructor of umfpackMatrix_ only *)
  Inductive constructed := Built (st : state) | Failed (never_released : nat).
  Definition construct_cached (t : @mtree R) (file : option F) (saved : bool) : outcome constructed :=
    match file with
    | Some f => Ok (Built (St 0 0 0 Null true Uninit (Live f) 0))
    | None => obind (setMatrix (St 0 0 0 Null false Uninit Null 0) t None) (fun st =>
        match numeric st with
        | Uninit | Dangling => UB
        | Live _ => if saved then Ok (Built st) else obind (bccs_release st) (fun st => Ok (Failed (lost st + live (arrays st) + live (symbolic st) + live (numeric st))))
        | Null => obind (bccs_release st) (fun st => Ok (Failed (lost st + live (arrays st) + live (symbolic st) + live (numeric st))))
        end)
    end.
  (** UMFPack(file, verbose), umfpack.hh:378-392 (its Dune::Exception is EIO) *)
  Definition construct_file (file : option F) : outcome state :=
    match file with Some f => Ok (St 0 0 0 Null true Uninit (Live f) 0) | None => Throw EIO end.

  (** xFlat[offset] = entry for all entries, umfpack.hh:416-424 *)
  Fixpoint store (calls : list (R * nat)) (l : list R) : outcome (list R) :=
    match calls with nil => Ok l | (a, i) :: t => if i <? length l then store t (upd l i a) else UB end.
  (** umfpack_dl_solve as called in apply, umfpack.hh:427-435: a missing Numeric object and a failing call leave x as it is;
      on success the first N entries of x are written *)
  Definition umf_solve (st : state) (x b : list R) : outcome (list R) :=
    match numeric st, arrays st with
    | Null, (Null | Live _) => Ok x
    | Live f, Live c => if mM st <? mN st then UB else match slv lib (Csc (mN st) (cp c) (ci c) (cx c)) f b with Some y => Ok (y ++ skipn (length y) x) | None => Ok x end
    | _, _ => UB
    end.
  (** apply(x, b, res), umfpack.hh:403-449; dim() is the number of scalar entries; res is (iterations, converged); taking the address of the first entry of an empty
      std::vector is undefined *)
  Definition apply (st : state) (x b : @vtree R) (res : nat * bool) : outcome (@vtree R * (nat * bool)) :=
    if negb (mN st =? length (entries b)) then Throw EISTL else
    if negb (mM st =? length (entries x)) then Throw EISTL else
    if vsize b =? 0 then Ok (x, res) else
    obind (store (fst (fvfe x 0)) (repeat r0 (length (entries x)))) (fun xFlat =>
    obind (store (fst (fvfe b 0)) (repeat r0 (length (entries b)))) (fun bFlat =>
    if (length xFlat =? 0) || (length bFlat =? 0) then UB else
    obind (umf_solve st xFlat bFlat) (fun xFlat => Ok (fst (rebuild x xFlat), (1, true))))).

  (** ** Specification *)
  (** the entry in row i and column j of the matrix the arrays describe *)
  Definition entry (M : @csc R) (i j : nat) : R := denrow (column M j) i.
  (** legal input for UMFPACK: starts from 0 to the number of stored entries, increasing; all entries initialised; row indices strictly increasing in every column and in range *)
  Definition ulegal (M : @csc R) : Prop :=
    length (cp M) = S (cN M) /\ nth 0 (cp M) 0 = 0 /\ nth (cN M) (cp M) 0 = length (ci M) /\ length (cx M) = length (ci M) /\
    forall k, k < cN M -> nth k (cp M) 0 <= nth (S k) (cp M) 0 /\ length (column M k) = nth (S k) (cp M) 0 - nth k (cp M) 0 /\ row_wf (cN M) (column M k).
  (** a solution y of the k x k system B y = b *)
  Definition solution (k : nat) (B : nat -> nat -> R) (y b : list R) : Prop := forall i, i < k -> sum k (fun j => rmul (B i j) (vget y j)) = vget b i.
  (** what UMFPACK promises: factors of a legal matrix solve the system of that matrix *)
  Definition sound : Prop := forall M f b, ulegal M -> num lib M = Some f -> length b = cN M -> exists y, slv lib M f b = Some y /\ length y = cN M /\ solution (cN M) (entry M) y b.
  (** the library factorises every legal matrix whose entries satisfy P *)
  Definition factorises (k : nat) (B : nat -> nat -> R) : Prop :=
    forall M, ulegal M -> cN M = k -> (forall i j, i < k -> j < k -> entry M i j = B i j) -> symb lib M = true /\ num lib M <> None.

  (** what a client knows the solver to hold: nothing; the arrays of an empty system; a k x k system; a decomposition read from a file *)
  Inductive view := Nothing | Hollow | System (k : nat) (B : nat -> nat -> R) | FromFile.
  (** the scalar matrix made of the block rows and block columns in S0 *)
  Definition subblocks (bs : nat) (A : @bmat R) (S0 : list nat) (i j : nat) : R :=
    match find (fun e => fst e =? nth (j / bs) S0 0) (nth (nth (i / bs) S0 0) A nil) with Some (_, b) => b (i mod bs) (j mod bs) | None => r0 end.
  (** the calls a client can make; n, A are the order and the entries of the matrix t *)
  Inductive call := CSet (t : @mtree R) (bits : option (@vtree bool)) (n : nat) (A : nat -> nat -> R) | CSub (bs N : nat) (A : @bmat R) (S0 : list nat) | CApply (x b : @vtree R) | CFree.
  (** square matrices, one flag per scalar row; increasing existing block indices; no vector of empty blocks *)
  Definition wf_call (c : call) : Prop :=
    match c with
    | CSet t bits n A => Dim t n n /\ ordered t /\ dense t n A /\ fits bits n
    | CSub bs N A S0 => 0 < bs /\ 0 < N /\ bmat_wf N N A /\ StronglySorted lt S0 /\ Forall (fun x => x < N) S0
    | CApply x b => vsize b = 0 \/ entries b <> nil
    | CFree => True
    end.
  (** how a call changes the view (None: free() without anything to free) and how many objects it leaks *)
  Definition track (v : view) (c : call) : option (view * nat) :=
    let hollow := match v with Hollow => 1 | _ => 0 end in
    match c with
    | CSet t bits n A =>
        if (outerN t =? 0) || (outerM t =? 0) then Some (match v with Hollow => Hollow | _ => Nothing end, 0)
        else Some (match kept bits n with nil => Hollow | ks => System (length ks) (fun i j => A (nth i ks 0) (nth j ks 0)) end, hollow)
    | CSub bs N A S0 => Some (match S0 with nil => Hollow | _ => System (length S0 * bs) (subblocks bs A S0) end, hollow)
    | CApply _ _ => Some (v, 0)
    | CFree => match v with Nothing => None | _ => Some (Nothing, 0) end
    end.
  Fixpoint tracks (v : view) (cs : list call) (leaks : nat) : option (view * nat) :=
    match cs with nil => Some (v, leaks) | c :: t => match track v c with Some (v', l) => tracks v' t (leaks + l) | None => None end end.
  (** running the calls; a client may go on after an exception *)
  Definition do (st : state) (c : call) : outcome state :=
    match c with
    | CSet t bits _ _ => setMatrix st t bits
    | CSub bs N A S0 => setSubMatrix st bs bs N A S0
    | CApply x b => match apply st x b (0, false) with UB => UB | _ => Ok st end
    | CFree => free st
    end.
  Fixpoint run (st : state) (cs : list call) : outcome state := match cs with nil => Ok st | c :: t => obind (do st c) (fun st => run st t) end.

  (** ** Order of the calls of flatMatrixForEach, by columns *)
  Definition cbefore (x y : R * nat * nat) : Prop := snd x = snd y -> snd (fst x) < snd (fst y).
  Lemma fmfe_csorted (t : @mtree R) : forall h w, Dim t h w -> ordered t -> forall ro co cs d, fmfe t ro co = Ok (cs, d) -> StronglySorted cbefore cs.
  Proof.
    induction t as [a|m rows dflt IH IHD|rows IH] using mtree_ind'; intros h w D O ro co cs d E.
    - injection E as <- _. repeat constructor.
    - inversion D as [ |m' rows' dflt' br bc HE HD0 ND PN|]; subst. inversion O as [|? ? ? OS OB|]; subst. cbn [fmfe] in E.
      apply obind_Ok in E. destruct E as ([c0 [br' bc']] & E0 & E).
      assert (BB : br' = br /\ bc' = bc).
      { clear E. revert E0. match goal with |- ?g rows = _ -> _ => set (first := g) end.
        assert (G : forall rs, (forall row j b, In row rs -> In (j, b) row -> Dim b br bc) -> ((forall row, In row rs -> row = nil) -> Dim dflt br bc) -> first rs = Ok (c0, (br', bc')) -> br' = br /\ bc' = bc).
        { induction rs as [|[|[j b] es] rs IHr]; intros G1 G2 E0.
          - destruct (fmfe_block dflt br bc 0 0 _ _ (G2 ltac:(intros ? [])) E0) as [[= -> ->] _]. auto.
          - apply IHr; auto; [intros row j b I1 I2; eapply G1; eauto; right; auto|]. intros H. apply G2. intros row [<-|HI]; auto.
          - destruct (fmfe_block b br bc 0 0 _ _ (G1 _ j b (or_introl eq_refl) (or_introl eq_refl)) E0) as [[= -> ->] _]. auto. }
        apply G; auto. intros; eapply HE; eauto. }
      destruct BB as [-> ->]. destruct ((br =? 0) && (bc =? 0)); [discriminate|]. apply obind_Ok in E. destruct E as (calls & E & [= <- _]).
      revert E. match goal with |- ?g rows 0 nil = _ -> _ => set (rloop := g) end. intros E.
      assert (G : forall rs i0 calls0 out, (forall row, In row rs -> In row rows) -> rloop rs i0 calls0 = Ok out -> exists extra, out = calls0 ++ extra /\ StronglySorted cbefore extra /\ forall a r c, In (a, r, c) extra -> ro + i0 * br <= r).
      { induction rs as [|row rs IHr]; intros i0 calls0 out SUB EX.
        - injection EX as <-. exists nil. rewrite app_nil_r. split; [auto|split; [constructor|intros ? ? ? []]].
        - assert (IRW : In row rows) by (apply SUB; left; auto).
          match type of EX with rloop (row :: rs) i0 calls0 = _ =>
            let e := eval cbv beta iota delta [rloop] in (rloop (row :: rs) i0 calls0) in
            match e with obind (?g row calls0) _ => set (cloop := g) end end.
          change (obind (cloop row calls0) (fun calls => rloop rs (S i0) calls) = Ok out) in EX. apply obind_Ok in EX. destruct EX as (out1 & E1 & E2).
          assert (GC : forall es calls1 out1, (forall j b, In (j, b) es -> In (j, b) row) -> StronglySorted lt (map fst es) -> cloop es calls1 = Ok out1 ->
            exists extra, out1 = calls1 ++ extra /\ StronglySorted cbefore extra /\ forall a r c, In (a, r, c) extra -> ro + i0 * br <= r < ro + i0 * br + br /\ exists j b, In (j, b) es /\ co + j * bc <= c).
          { clear E1 E2. induction es as [|[j b] es IHe]; intros calls1 o1 SE SS EX.
            - injection EX as <-. exists nil. rewrite app_nil_r. split; [auto|split; [constructor|intros ? ? ? []]].
            - change (obind (fmfe b (ro + i0 * br) (co + j * bc)) (fun r => let '(cs, (nr, nc)) := r in if (nr =? br) && (nc =? bc) then cloop es (calls1 ++ cs) else Throw EAbort) = Ok o1) in EX.
              apply obind_Ok in EX. destruct EX as ([cs [nr nc]] & EB & EX). destruct ((nr =? br) && (nc =? bc)); [|discriminate].
              assert (IB : In (j, b) row) by (apply SE; left; auto). destruct (HE row j b IRW IB) as [_ DB]. destruct (fmfe_block _ _ _ _ _ _ _ DB EB) as [_ BB].
              cbn [map fst] in SS. inversion SS as [|? ? SS' FF]; subst. destruct (IHe _ _ (fun j' b' h => SE j' b' (or_intror h)) SS' EX) as (extra & -> & SX & BX).
              exists (cs ++ extra). split; [now rewrite app_assoc|]. split.
              + apply SS_app; auto; [eapply (IH row j b IRW IB); eauto|]. intros [[a r] c] [[a' r'] c'] I1 I2. unfold cbefore; cbn. intros EC. apply BB in I1. apply BX in I2. destruct I2 as (_ & j' & b' & IJ & LE).
                rewrite Forall_forall in FF. apply (in_map fst) in IJ. apply FF in IJ. cbn in IJ. exfalso. nia.
              + intros a r c I. apply in_app_iff in I. destruct I as [I|I]; [apply BB in I; split; [lia|]; exists j, b; split; [left; auto|lia]|]. apply BX in I. destruct I as (I & j' & b' & IJ & LE). split; auto. exists j', b'. split; auto. right; auto. }
          destruct (GC row calls0 out1 (fun _ _ h => h) (OS row IRW) E1) as (e1 & -> & S1 & B1). destruct (IHr (S i0) _ out ltac:(intros; apply SUB; right; auto) E2) as (e2 & -> & S2 & B2).
          exists (e1 ++ e2). split; [now rewrite app_assoc|]. split.
          + apply SS_app; auto. intros [[a r] c] [[a' r'] c'] I1 I2. unfold cbefore; cbn. apply B1 in I1. apply B2 in I2. cbn [Nat.mul] in I2. lia.
          + intros a r c I. apply in_app_iff in I. destruct I as [I|I]; [apply B1 in I; lia|apply B2 in I; cbn [Nat.mul] in I; lia]. }
      destruct (G rows 0 nil calls (fun _ h => h) E) as (extra & -> & S & _). exact S.
    - inversion D as [ | |rows' hs ws NR NW LH LW HE]; subst. inversion O as [| |? OB]; subst. cbn [fmfe] in E.
      revert E. match goal with |- ?g rows 0 0 None nil = _ -> _ => set (rloop := g) end. intros E.
      assert (G : forall rs i0 r0 c0 nr calls0 out d, skipn i0 rows = rs -> rloop rs r0 c0 nr calls0 = Ok (out, d) -> exists extra, out = calls0 ++ extra /\ StronglySorted cbefore extra /\ forall a r c, In (a, r, c) extra -> ro + r0 <= r).
      { induction rs as [|row rs IHr]; intros i0 r0 c0 nr calls0 out d0 SK EX.
        - injection EX as <- _. exists nil. rewrite app_nil_r. split; [auto|split; [constructor|intros ? ? ? []]].
        - assert (LI : i0 < length rows) by (apply (f_equal (@length _)) in SK; rewrite skipn_length in SK; cbn in SK; lia).
          assert (N0 : nth_error rows i0 = Some row). { rewrite <- (firstn_skipn i0 rows), SK, nth_error_app2; rewrite firstn_length_le by lia; [|lia]. now rewrite Nat.sub_diag. }
          assert (SK' : skipn (S i0) rows = rs). { clear - SK. revert i0 SK. induction rows as [|x t IHt]; intros [|i0] SK; cbn in *; try discriminate; [injection SK; auto|]. apply IHt. auto. }
          match type of EX with rloop (row :: rs) r0 c0 nr calls0 = _ =>
            let e := eval cbv beta iota delta [rloop] in (rloop (row :: rs) r0 c0 nr calls0) in
            match e with obind (?g row 0 nr calls0) _ => set (cloop := g) end end.
          change (obind (cloop row 0 nr calls0) (fun x => let '(c', nr', calls') := x in match nr' with None => UB | Some n => rloop rs (r0 + n)%nat c' nr' calls' end) = Ok (out, d0)) in EX.
          apply obind_Ok in EX. destruct EX as ([[c' nr'] out1] & E1 & E2). destruct nr' as [n|]; [|discriminate].
          assert (GC : forall es j0 c1 nr1 calls1 c2 nr2 o1, skipn j0 row = es -> (es = nil -> nr1 = Some (nth i0 hs 0)) -> cloop es c1 nr1 calls1 = Ok (c2, nr2, o1) ->
            nr2 = Some (nth i0 hs 0) /\ exists extra, o1 = calls1 ++ extra /\ StronglySorted cbefore extra /\ forall a r c, In (a, r, c) extra -> ro + r0 <= r < ro + r0 + nth i0 hs 0 /\ co + c1 <= c).
          { clear E1 E2. induction es as [|b es IHe]; intros j0 c1 nr1 calls1 c2 nr2 o1 SKJ NRE EX.
            - injection EX as <- <- <-. split; auto. exists nil. rewrite app_nil_r. split; [auto|split; [constructor|intros ? ? ? []]].
            - change (obind (fmfe b (ro + r0) (co + c1)) (fun x => let '(cs, (n1, n2)) := x in cloop es (c1 + n2)%nat (Some n1) (calls1 ++ cs)) = Ok (c2, nr2, o1)) in EX.
              apply obind_Ok in EX. destruct EX as ([cs1 [n1 n2]] & EB & EX).
              assert (LJ : j0 < length row) by (apply (f_equal (@length _)) in SKJ; rewrite skipn_length in SKJ; cbn in SKJ; lia).
              assert (NB : nth_error row j0 = Some b). { rewrite <- (firstn_skipn j0 row), SKJ, nth_error_app2; rewrite firstn_length_le by lia; [|lia]. now rewrite Nat.sub_diag. }
              assert (SKJ' : skipn (S j0) row = es). { clear - SKJ. revert j0 SKJ. induction row as [|x t IHt]; intros [|j0] SKJ; cbn in *; try discriminate; [injection SKJ; auto|]. apply IHt. auto. }
              pose proof (HE i0 j0 row b N0 NB) as DB. destruct (fmfe_block _ _ _ _ _ _ _ DB EB) as [[= -> ->] BB].
              destruct (IHe (S j0) _ _ _ _ _ _ SKJ' ltac:(auto) EX) as (-> & extra & -> & SX & BX). split; auto. exists (cs1 ++ extra). split; [now rewrite app_assoc|]. split.
              + apply SS_app; auto; [eapply (IH row b); eauto using nth_error_In|]. intros [[a r] c] [[a' r'] c''] I1 I2. unfold cbefore; cbn. intros EC. apply BB in I1. apply BX in I2. lia.
              + intros a r c I. apply in_app_iff in I. destruct I as [I|I]; [apply BB in I; lia|apply BX in I; lia]. }
          assert (RN : row <> nil) by (intros ->; apply NW; specialize (LW i0 nil N0); destruct ws; [auto|discriminate]).
          destruct (GC row 0 0 nr calls0 c' (Some n) out1 eq_refl ltac:(congruence) E1) as ([= ->] & e1 & -> & S1 & B1). destruct (IHr (S i0) _ _ _ _ _ _ SK' E2) as (e2 & -> & S2 & B2).
          exists (e1 ++ e2). split; [now rewrite app_assoc|]. split.
          + apply SS_app; auto. intros [[a r] c] [[a' r'] c''] I1 I2. unfold cbefore; cbn. apply B1 in I1. apply B2 in I2. lia.
          + intros a r c I. apply in_app_iff in I. destruct I as [I|I]; [apply B1 in I; lia|apply B2 in I; lia]. }
      destruct (G rows 0 0 0 None nil cs d eq_refl E) as (extra & -> & S & _). exact S.
  Qed.


  (** ** The arrays *)
  Section ULoops.
    Variables (ign : option (list bool)) (sub : list (option nat)) (p : nat -> nat -> bool) (rk : nat -> nat) (N : nat).
    Definition ugood (e : R * nat * nat) : Prop := let '(_, r, c) := e in uvisited ign r c = Ok (p r c) /\ (p r c = true -> reduced ign sub r = Ok (rk r) /\ reduced ign sub c = Ok (rk c) /\ rk c < N).
    Definition upicked (calls : list (R * nat * nat)) : list (nat * (nat * R)) := flat_map (fun e => let '(a, r, c) := e in if p r c then [(rk c, (rk r, a))] else nil) calls.
    Lemma nnzLoop_ok calls : Forall ugood calls -> forall nz, nnzLoop ign calls nz = Ok (nz + length (upicked calls)).
    Proof.
      induction 1 as [|[[a r] c] t [V G] FA IH]; intros nz; cbn [nnzLoop upicked flat_map length]; [now rewrite Nat.add_0_r|].
      rewrite V. cbn [obind]. change (flat_map _ t) with (upicked t). rewrite IH, app_length. destruct (p r c); cbn [length]; f_equal; lia.
    Qed.
    Lemma ucountLoop_ok calls : Forall ugood calls -> forall ap, length ap = S N ->
      exists ap', ucountLoop ign sub calls ap = Ok ap' /\ length ap' = S N /\ nth 0 ap' 0 = nth 0 ap 0 /\ forall k, k < N -> nth (S k) ap' 0 = nth (S k) ap 0 + length (rowOf k (upicked calls)).
    Proof.
      induction 1 as [|[[a r] c] t [V G] FA IH]; intros ap L; cbn [ucountLoop upicked flat_map].
      - exists ap. repeat split; auto.
      - rewrite V. cbn [obind]. change (flat_map _ t) with (upicked t). destruct (p r c) eqn:P; [|destruct (IH ap L) as (ap' & E & H); exists ap'; auto].
        destruct (G eq_refl) as (_ & E1 & LT). rewrite E1. cbn [obind]. replace (S (rk c) <? length ap) with true by (symmetry; apply Nat.ltb_lt; lia).
        destruct (IH (upd ap (S (rk c)) (S (nth (S (rk c)) ap 0)))) as (ap' & E & L' & Z & H); [now rewrite upd_length|]. exists ap'. split; auto. split; auto. split; [rewrite Z; destruct ap; auto|].
        intros k K. rewrite H by auto. rewrite nth_upd. change ([(rk c, (rk r, a))] ++ upicked t) with (((rk c, (rk r, a))) :: upicked t). unfold rowOf. cbn [filter fst].
        destruct (Nat.eqb_spec (rk c) k) as [Q|Q]; [rewrite Q|].
        + replace (S k =? S k) with true by (symmetry; apply Nat.eqb_refl). cbn [map length]. replace (S k <? length ap) with true by (symmetry; apply Nat.ltb_lt; lia). cbn [andb]. lia.
        + replace (S (rk c) =? S k) with false by (symmetry; apply Nat.eqb_neq; lia). cbn [andb]. auto.
    Qed.
    Lemma ufillLoop_ok E ap : (forall k, k < N -> nth k ap 0 = start E k) -> forall calls D colPos ai ax,
      Forall ugood calls -> E = D ++ upicked calls -> length colPos = N -> (forall k, k < N -> nth k colPos 0 = length (rowOf k D)) -> length E <= length ai -> length ax = length ai ->
      written E D fst ai -> written E D snd ax ->
      exists ai' ax', ufillLoop ign sub ap calls colPos ai ax = Ok (ai', ax') /\ length ai' = length ai /\ length ax' = length ai /\ written E E fst ai' /\ written E E snd ax'.
    Proof.
      intros AP. induction calls as [|[[a r] c] t IH]; intros D colPos ai ax FF EE LR RP LE LX W1 W2.
      - cbn in EE. rewrite app_nil_r in EE. rewrite <- EE in *. exists ai, ax. cbn. auto.
      - inversion FF as [|? ? GG F']; subst. destruct GG as [V G]. cbn [ufillLoop]. rewrite V. cbn [obind]. change (upicked ((a, r, c) :: t)) with ((if p r c then [(rk c, (rk r, a))] else nil) ++ upicked t) in *.
        destruct (p r c) eqn:P; [|cbn [app] in *; apply (IH D); auto].
        destruct (G eq_refl) as (E2 & E1 & LT). rewrite E1, E2. cbn [obind app] in *. set (E := D ++ (rk c, (rk r, a)) :: upicked t) in *.
        rewrite AP, RP by auto.
        assert (QL : start E (rk c) + length (rowOf (rk c) D) < length ai).
        { pose proof (start_S E (rk c)). pose proof (start_le E (S (rk c))). assert (length (rowOf (rk c) D) < length (rowOf (rk c) E)); [|lia]. unfold E. rewrite rowOf_app, app_length. unfold rowOf at 3. cbn [filter fst]. rewrite Nat.eqb_refl. cbn. lia. }
        replace (rk c <? length colPos) with true by (symmetry; apply Nat.ltb_lt; lia). replace (start E (rk c) + length (rowOf (rk c) D) <? length ai) with true by (symmetry; apply Nat.ltb_lt; lia). cbn [andb].
        destruct (IH (D ++ [(rk c, (rk r, a))]) (upd colPos (rk c) (S (length (rowOf (rk c) D)))) (upd ai (start E (rk c) + length (rowOf (rk c) D)) (Some (rk r))) (upd ax (start E (rk c) + length (rowOf (rk c) D)) (Some a))) as (ai' & ax' & X1 & X2 & X3 & X4).
        + auto.
        + unfold E. rewrite <- app_assoc. reflexivity.
        + now rewrite upd_length.
        + intros k K. rewrite nth_upd, rowOf_app, app_length. unfold rowOf at 3. cbn [filter fst]. destruct (Nat.eqb_spec (rk c) k) as [Q|Q]; [rewrite Q|cbn; rewrite RP by auto; lia]. replace (k <? length colPos) with true by (symmetry; apply Nat.ltb_lt; lia). cbn; lia.
        + now rewrite upd_length.
        + now rewrite !upd_length.
        + apply (written_upd E D (upicked t) fst ai (rk c) (rk r, a)); auto.
        + apply (written_upd E D (upicked t) snd ax (rk c) (rk r, a)); auto. lia.
        + rewrite upd_length in *. exists ai', ax'. auto.
    Qed.
    Lemma upicked_in calls k l a : In (k, (l, a)) (upicked calls) <-> exists r c, In (a, r, c) calls /\ p r c = true /\ k = rk c /\ l = rk r.
    Proof.
      unfold upicked. rewrite in_flat_map. split.
      - intros ([[a' r] c] & I & H). destruct (p r c) eqn:P; [|destruct H]. destruct H as [[= <- <- <-]|[]]. exists r, c. auto.
      - intros (r & c & I & P & -> & ->). exists (a, r, c). split; auto. rewrite P. left; auto.
    Qed.
  End ULoops.
  Definition upick (g : option (@vtree bool)) (r c : nat) : bool := keep g r && keep g c.
  Lemma upicked_sorted g calls : StronglySorted cbefore calls -> StronglySorted (fun x y : nat * (nat * R) => fst x = fst y -> fst (snd x) < fst (snd y)) (upicked (upick g) (rank g) calls).
  Proof.
    induction 1 as [|[[a r] c] t S IH FF]; [constructor|]. unfold upicked. cbn [flat_map]. fold (upicked (upick g) (rank g) t). destruct (upick g r c) eqn:P; auto. cbn [app]. constructor; auto.
    rewrite Forall_forall in *. intros [k [l b]] I. apply upicked_in in I. destruct I as (r' & c' & I & P' & -> & ->). cbn [fst snd]. intros E. apply FF in I. unfold cbefore in I. cbn [fst snd] in I.
    unfold upick in P, P'. rewrite !andb_true_iff in P, P'. apply rank_lt; [|tauto]. apply I. apply (rank_inj g); tauto.
  Qed.
  Lemma rank_None i : rank None i = i.
  Proof. unfold rank, kept. cbn [isIgnored negb]. replace (filter _ _) with (seq 0 i); [now rewrite seq_length|]. symmetry. generalize (seq 0 i). induction l as [|x l IH]; cbn; [auto|now rewrite IH]. Qed.
  Lemma nth_repeat0 (k m : nat) : nth k (repeat 0 m) 0 = 0.
  Proof. revert k. induction m as [|m IH]; intros [|k]; cbn; auto. Qed.
  (** the arrays are legal and describe the matrix restricted to the rows and columns that are not excluded *)
  Theorem C77_matrix (t : @mtree R) n A g : Dim t n n -> ordered t -> dense t n A -> fits g n ->
    exists M, assemble t g = Ok (length (kept g n), length (kept g n), length (ci M), M) /\ ulegal M /\ cN M = length (kept g n) /\
      forall i j, i < cN M -> j < cN M -> entry M i j = A (nth i (kept g n) 0) (nth j (kept g n) 0).
  Proof.
    intros D O DE FI. destruct (all_good t n n D) as [BD G]. destruct (G 0 0) as (calls & E & [CI ND]). pose proof (fmfe_csorted t n n D O 0 0 calls _ E) as SS.
    assert (CA : forall a r c, In (a, r, c) calls <-> At t r c a) by (intros; rewrite CI; apply at_shifted). clear CI G.
    unfold assemble. set (N := length (kept g n)).
    set (ign := match g with None => None | Some v => Some (map fst (fst (fvfe v 0))) end).
    assert (IE : ign = match g with None => None | Some v => Some (entries v) end) by (unfold ign; destruct g; [now rewrite flat_ignore|auto]). clearbody ign. subst ign.
    set (ign := match g with None => None | Some v => Some (entries v) end). set (ignored := match ign with None => 0 | Some f => length (filter (fun b => b) f) end). rewrite E. cbn [obind].
    assert (NE1 : ignored + N = n).
    { unfold ignored, ign, N. destruct g as [v|]; cbn [fits] in FI.
      - pose proof (ignored_count v n ltac:(lia)) as H. rewrite firstn_all2 in H by lia. exact H.
      - change (0 + rank None n = n). now rewrite rank_None. }
    replace (n - ignored) with N by lia.
    assert (SUB : exists sub, match ign with None => Ok nil | Some f => numberLoop f 0 n 0 (repeat None n) end = Ok sub /\ forall i, i < n -> keep g i = true -> reduced ign sub i = Ok (rank g i)).
    { destruct g as [v|]; unfold ign; cbn [fits] in FI.
      - destruct (numberLoop_ok v n 0 (repeat None n)) as (sub & E1 & L & H); [lia|rewrite repeat_length; lia|]. exists sub. rewrite repeat_length in L. split; [exact E1|].
        intros i Hi K. cbn [reduced]. rewrite (nth_error_nth' _ None) by lia. rewrite H, K. cbn [Nat.leb andb]. replace (i <? 0 + n) with true by (symmetry; apply Nat.ltb_lt; lia). auto.
      - exists nil. split; auto. intros i Hi _. cbn [reduced]. now rewrite rank_None. }
    destruct SUB as (sub & ES & RD).
    assert (GD : Forall (ugood ign sub (upick g) (rank g) N) calls).
    { apply Forall_forall. intros [[a r] c] I. apply CA, BD in I. destruct I as [Hr Hc]. unfold ugood. split.
      - unfold uvisited, upick, keep, ign. destruct g as [v|]; cbn [fits isIgnored] in *; [|reflexivity]. rewrite !(nth_error_nth' _ false) by lia. destruct (nth r (entries v) false); cbn [negb andb]; auto.
      - unfold upick. rewrite !andb_true_iff. intros [K1 K2]. rewrite !RD by auto. split; auto. split; auto. apply (rank_lt g c n); auto. }
    rewrite (nnzLoop_ok ign sub (upick g) (rank g) N calls GD 0). cbn [obind]. rewrite ES. cbn [obind]. rewrite Nat.add_0_l. clear ES.
    destruct (ucountLoop_ok ign sub (upick g) (rank g) N calls GD (repeat 0 (S N)) (repeat_length _ _)) as (ap & EC & LC & Z & HC). rewrite EC. cbn [obind].
    set (EE := upicked (upick g) (rank g) calls) in *.
    assert (HC' : forall k, k < N -> nth (S k) ap 0 = length (rowOf k EE)) by (intros k K; rewrite HC by auto; rewrite nth_repeat0; auto).
    assert (ST0 : start EE 0 = 0) by (unfold start; clear; induction EE as [|e EE IH]; cbn; auto).
    destruct (accumulate_ok (start EE) N 0 ap) as (LA & _ & HA).
    { auto. } { rewrite Z, nth_repeat0. auto. } { intros k K _. rewrite HC' by lia. apply start_S. }
    set (ap2 := accumulate 0 N ap) in *. rewrite LC in LA.
    destruct (ufillLoop_ok ign sub (upick g) (rank g) N EE ap2 ltac:(intros; apply HA; lia) calls nil (repeat 0 N) (repeat None (length EE)) (repeat None (length EE))) as (ai & ax & EF & L1 & L2 & W1 & W2).
    { auto. } { reflexivity. } { apply repeat_length. } { intros k K. change (length (rowOf k nil)) with 0. apply nth_repeat0. }
    { now rewrite repeat_length. } { now rewrite !repeat_length. } { intros k q e H. destruct q; discriminate. } { intros k q e H. destruct q; discriminate. }
    rewrite EF. cbn [obind fst snd]. rewrite repeat_length in L1, L2. exists (Csc N ap2 ai ax). cbn [ci cN]. split; [now rewrite L1|].
    assert (CK : forall k, k < N -> column (Csc N ap2 ai ax) k = rowOf k EE).
    { intros k K. unfold column. cbn [cp ci cx]. rewrite !HA by lia. rewrite start_S. replace (start EE k + length (rowOf k EE) - start EE k) with (length (rowOf k EE)) by lia.
      apply flat_map_seq. intros q [l a] Q. pose proof (W1 _ _ _ Q) as X1. pose proof (W2 _ _ _ Q) as X2. cbn [fst snd] in X1, X2. apply (nth_error_nth _ _ None) in X1, X2. rewrite X1, X2. auto. }
    assert (RIN : forall k l a, In (l, a) (rowOf k EE) <-> exists r c, At t r c a /\ r < n /\ c < n /\ keep g r = true /\ keep g c = true /\ k = rank g c /\ l = rank g r).
    { intros k l a. rewrite rowOf_in. unfold EE. rewrite upicked_in. unfold upick. split.
      - intros (r & c & I & P & -> & ->). rewrite !andb_true_iff in P. apply CA in I. destruct (BD _ _ _ I). exists r, c. tauto.
      - intros (r & c & H & _ & _ & K1 & K2 & -> & ->). exists r, c. rewrite CA, K1, K2. auto. }
    assert (RS : forall k, StronglySorted lt (map fst (rowOf k EE))) by (intros; apply rowOf_sorted, upicked_sorted, SS).
    assert (ALL : start EE N = length EE).
    { unfold start. f_equal. assert (GA : forall e, In e EE -> fst e < N). { intros [k [l a]] I. apply upicked_in in I. destruct I as (r & c & I & P & -> & _). unfold upick in P. apply andb_true_iff in P. apply CA, BD in I. cbn [fst]. apply (rank_lt g c n); tauto. }
      clear - GA. induction EE as [|e EE IH]; cbn [filter]; auto. pose proof (GA e (or_introl eq_refl)) as H. apply Nat.ltb_lt in H. rewrite H. f_equal. apply IH. intros; apply GA; right; auto. }
    split; [|split; [auto|]].
    - unfold ulegal. cbn [cN cp ci cx]. split; [auto|]. split; [rewrite HA by lia; auto|]. split; [rewrite HA by lia; lia|]. split; [congruence|].
      intros k K. rewrite !HA, CK by lia. rewrite start_S. split; [lia|]. split; [lia|]. split; [apply RS|]. apply Forall_forall; intros l I; apply in_map_iff in I; destruct I as ([l' a] & <- & I); apply RIN in I; destruct I as (r & c & _ & Hr & Hc & K1 & K2 & -> & ->); cbn [fst].
      apply (rank_lt g r n); auto.
    - intros i j Hi Hj. unfold entry. rewrite CK by lia.
      destruct (kept_rank g n i ltac:(unfold N in *; lia)) as (I1 & I2 & I3). destruct (kept_rank g n j ltac:(unfold N in *; lia)) as (J1 & J2 & J3). set (r := nth i (kept g n) 0) in *. set (c := nth j (kept g n) 0) in *.
      destruct (DE r c I1 J1) as [AT|[Z0 NA]].
      + apply denrow_in; [apply ssorted_NoDup; auto|]. apply RIN. exists r, c. repeat split; auto.
      + rewrite Z0. apply denrow_notin. intros I. apply in_map_iff in I. destruct I as ([l a] & Q & I). cbn in Q. subst l. apply RIN in I. destruct I as (r' & c' & AT & _ & _ & K1 & K2 & Q1 & Q2).
        assert (r' = r) by (apply (rank_inj g); auto; congruence). assert (c' = c) by (apply (rank_inj g); auto; congruence). subst r' c'. apply (NA a AT).
  Qed.
  (** ** The arrays of setSubMatrix *)
  Lemma column_slice cols cs (ri : list nat) (va : list R) k : length va = length ri -> nth k cs 0 <= nth (S k) cs 0 -> nth (S k) cs 0 <= length ri ->
    column (Csc cols cs (map Some ri) (map Some va)) k = slice (combine ri va) (nth k cs 0) (nth (S k) cs 0).
  Proof.
    intros LV L1 L2. unfold column. cbn [cp ci cx]. set (sl := slice _ _ _).
    assert (LS : length sl = nth (S k) cs 0 - nth k cs 0). { unfold sl, slice. rewrite firstn_length, skipn_length, combine_length. lia. }
    rewrite <- LS. apply flat_map_seq. intros q [i a] Q. unfold sl in Q. rewrite nth_error_slice in Q by (rewrite combine_length; lia). destruct (Nat.ltb_spec (nth k cs 0 + q) (nth (S k) cs 0)) as [LT|]; [|discriminate].
    rewrite (nth_error_combine _ _ 0 r0) in Q by auto. destruct (Nat.ltb_spec (nth k cs 0 + q) (length ri)); [|discriminate]. injection Q as <- <-.
    rewrite (nth_indep _ None (Some 0)), (map_nth Some) by (rewrite map_length; lia). rewrite (nth_indep _ None (Some r0)), (map_nth Some) by (rewrite map_length; lia). reflexivity.
  Qed.
  Lemma copySubset_entry bs N (A : @bmat R) S0 : 0 < bs -> bmat_wf N N A -> StronglySorted lt S0 -> Forall (fun x => x < N) S0 ->
    exists out, copySubset r0 bs bs (length S0 * bs) A S0 = Ok out /\ let M := Csc (length S0 * bs) (colstart out) (map Some (rowindex out)) (map Some (values out)) in
      ulegal M /\ length (values out) = length (ci M) /\ forall i j, i < length S0 * bs -> j < length S0 * bs -> entry M i j = subblocks bs A S0 i j.
  Proof.
    intros Hb WF HS HF. destruct (C23_copySubset r0 bs bs N A S0 Hb WF HS HF) as (out & E & I1 & I2 & I3 & I4 & I5). exists out. split; auto. cbv zeta. set (K := length S0 * bs) in *. set (M := Csc K _ _ _).
    assert (MONO : forall k l, k <= l -> l <= K -> nth k (colstart out) 0 <= nth l (colstart out) 0). { intros k l H. induction H as [|l H IH]; intros HL; auto. destruct (I5 l ltac:(lia)) as [J _]. specialize (IH ltac:(lia)). lia. }
    assert (CK : forall k, k < K -> column M k = slice (combine (rowindex out) (values out)) (nth k (colstart out) 0) (nth (S k) (colstart out) 0)).
    { intros k HK. apply column_slice; [auto|apply I5; auto|]. rewrite <- I3. apply MONO; lia. }
    destruct WF as [LA WF]. rewrite Forall_forall in HF.
    assert (STB : forall r c b, (exists x y, nth_error S0 r = Some x /\ nth_error S0 c = Some y /\ In (y, b) (nth x A nil)) -> r < length S0 /\ c < length S0 /\ nth c S0 0 = nth c S0 0 /\ In (nth c S0 0, b) (nth (nth r S0 0) A nil)).
    { intros r c b (x & y & H1 & H2 & H3). assert (r < length S0) by (apply nth_error_Some; congruence). assert (c < length S0) by (apply nth_error_Some; congruence). apply (nth_error_nth _ _ 0) in H1, H2. rewrite H1, H2. auto. }
    split; [|split; [unfold M; cbn [ci]; now rewrite map_length|]].
    - unfold ulegal. change (cN M) with K. change (cp M) with (colstart out). change (ci M) with (map Some (rowindex out)). change (cx M) with (map Some (values out)). rewrite !map_length. split; [auto|]. split; [auto|]. split; [auto|]. split; [auto|]. intros k HK. rewrite CK by auto.
      destruct (I5 k HK) as (J1 & J2 & J3). split; auto. split.
      + unfold slice. rewrite firstn_length, skipn_length, combine_length. pose proof (MONO (S k) K ltac:(lia) ltac:(lia)). rewrite I3 in H. lia.
      + split; auto. apply Forall_forall. intros rho HI. apply in_map_iff in HI. destruct HI as ([rho' v] & <- & HI). apply J3 in HI. destruct HI as (r & b & i & ST & Hi & -> & _). apply STB in ST. destruct ST as (Hr & _). cbn [fst]. unfold K. nia.
    - intros i j Hi Hj. unfold entry. rewrite CK by auto. destruct (I5 j Hj) as (_ & J2 & J3). unfold subblocks.
      assert (Hb' : bs <> 0) by lia. assert (RI : i / bs < length S0) by (apply Nat.div_lt_upper_bound; [auto|rewrite Nat.mul_comm; exact Hi]). assert (RJ : j / bs < length S0) by (apply Nat.div_lt_upper_bound; [auto|rewrite Nat.mul_comm; exact Hj]).
      set (x := nth (i / bs) S0 0). set (y := nth (j / bs) S0 0). pose proof (Nat.div_mod_eq i bs) as DI. pose proof (Nat.mod_upper_bound i bs Hb') as MI.
      assert (ROW : StronglySorted lt (map fst (nth x A nil))). { rewrite Forall_forall in WF. apply WF. apply nth_In. rewrite LA. apply HF. apply nth_In. auto. }
      destruct (find (fun e => fst e =? y) (nth x A nil)) as [[y' b]|] eqn:FE.
      + apply find_some in FE. destruct FE as [FI FQ]. cbn in FQ. apply Nat.eqb_eq in FQ. subst y'.
        apply denrow_in; [apply ssorted_NoDup; auto|]. apply J3. exists (i / bs), b, (i mod bs). split; [|split; [auto|split; [lia|auto]]]. exists x, y. unfold x, y. rewrite !(nth_error_nth' _ 0) by auto. auto.
      + apply denrow_notin. intros HI. apply in_map_iff in HI. destruct HI as ([rho v] & Q & HI). cbn in Q. subst rho. apply J3 in HI. destruct HI as (r & b & i' & ST & Hi' & Q & _). apply STB in ST. destruct ST as (Hr & _ & _ & ST).
        assert (r = i / bs) by (rewrite Q; symmetry; rewrite Nat.add_comm, Nat.div_add by auto; rewrite Nat.div_small by auto; lia). subst r.
        pose proof (find_none _ _ FE _ ST) as FN. cbn [fst] in FN. fold y in FN. rewrite Nat.eqb_refl in FN. discriminate.
  Qed.
  (** ** Histories *)
  Definition holds (v : view) (leaks : nat) (st : state) : Prop :=
    lost st = leaks /\
    match v with
    | Nothing => mN st = 0 /\ mM st = 0 /\ mNnz st = 0 /\ loaded st = false /\ (arrays st = Null \/ arrays st = Dangling) /\ (symbolic st = Uninit \/ symbolic st = Null) /\ (numeric st = Uninit \/ numeric st = Null)
    | Hollow => mN st = 0 /\ mM st = 0 /\ mNnz st = 0 /\ loaded st = false /\ (exists c, arrays st = Live c) /\ symbolic st = Null /\ numeric st = Null
    | System k B => 0 < k /\ mN st = k /\ mM st = k /\ loaded st = false /\ exists c, arrays st = Live c /\ ulegal c /\ cN c = k /\ (forall i j, i < k -> j < k -> entry c i j = B i j) /\
        symbolic st = (if symb lib c then Live tt else Null) /\ numeric st = (if symb lib c then match num lib c with Some f => Live f | None => Null end else Null)
    | FromFile => mN st = 0 /\ mM st = 0 /\ mNnz st = 0 /\ loaded st = true /\ arrays st = Null /\ symbolic st = Uninit /\ exists f, numeric st = Live f
    end.
  Lemma free_ok v leaks st : holds v leaks st -> v <> Nothing -> exists st', free st = Ok st' /\ holds Nothing leaks st'.
  Proof.
    destruct st as [N M nz a l s f lo]. intros [L H] NV. cbn in L. subst lo. unfold free, bccs_free. destruct v as [| |k B|]; [congruence| | |]; cbn [holds mN mM mNnz arrays loaded symbolic numeric lost] in *.
    - destruct H as (-> & -> & -> & -> & (c & ->) & -> & ->). cbn. eexists. split; [reflexivity|]. repeat split; cbn; auto.
    - destruct H as (K & -> & -> & -> & c & -> & _ & _ & _ & -> & ->). cbn [negb]. destruct (symb lib c); [destruct (num lib c)|]; cbn; eexists; (split; [reflexivity|]); repeat split; cbn; auto.
    - destruct H as (-> & -> & -> & -> & -> & -> & f' & ->). cbn. eexists. split; [reflexivity|]. repeat split; cbn; auto.
  Qed.
  Lemma release_ok v leaks st : holds v leaks st -> exists st', release st = Ok st' /\ holds (match v with Hollow => Hollow | _ => Nothing end) leaks st'.
  Proof.
    intros H. unfold release. destruct v as [| |k B|].
    - exists st. pose proof H as (_ & -> & -> & _ & -> & _). cbn. auto.
    - exists st. pose proof H as (_ & -> & -> & _ & -> & _). cbn. auto.
    - pose proof H as (_ & K & -> & -> & _). replace (0 <? k + k) with true by (symmetry; apply Nat.ltb_lt; lia). cbn [orb]. apply (free_ok (System k B)); auto. discriminate.
    - pose proof H as (_ & -> & -> & _ & -> & _). cbn [orb Nat.ltb Nat.leb Nat.add]. apply (free_ok FromFile); auto. discriminate.
  Qed.
  Lemma decompose_ok st k B c : arrays st = Live c -> mN st = k -> mM st = k -> loaded st = false -> live (symbolic st) = 0 -> live (numeric st) = 0 -> ulegal c -> cN c = k -> (forall i j, i < k -> j < k -> entry c i j = B i j) -> (k = 0 -> mNnz st = 0) ->
    exists st', decompose st = Ok st' /\ holds (match k with 0 => Hollow | _ => System k B end) (lost st) st'.
  Proof.
    destruct st as [N M nz a l s f lo]. cbn [mN mM mNnz arrays loaded symbolic numeric lost]. intros -> -> -> -> S0 F0 LG NC EN NZ. unfold decompose. cbn [mN mM mNnz arrays loaded symbolic numeric lost]. rewrite Nat.ltb_irrefl, S0, F0, !Nat.add_0_r.
    assert (EC : Csc k (cp c) (ci c) (cx c) = c) by (destruct c; cbn in *; congruence). rewrite EC. eexists. split; [reflexivity|]. destruct k as [|k].
    - rewrite NZ by auto. repeat split; cbn; eauto.
    - cbn [Nat.eqb orb]. split; [reflexivity|]. cbn [mN mM mNnz arrays loaded symbolic numeric lost]. repeat split; auto; [lia|]. exists c. split; [auto|]. split; [auto|]. split; [auto|]. split; [auto|]. destruct (symb lib c); auto.
  Qed.
  Lemma holds_nolive v leaks st : holds v leaks st -> v = Nothing \/ v = Hollow -> loaded st = false /\ live (symbolic st) = 0 /\ live (numeric st) = 0 /\ bccs_release st = Ok st /\ live (arrays st) = match v with Hollow => 1 | _ => 0 end.
  Proof.
    intros [_ H] [-> | ->]; unfold bccs_release.
    - destruct H as (-> & -> & -> & -> & A & S & N). split; auto. split; [destruct S as [-> | ->]; auto|]. split; [destruct N as [-> | ->]; auto|]. split; auto. destruct A as [-> | ->]; auto.
    - destruct H as (-> & -> & -> & -> & (c & ->) & -> & ->). auto.
  Qed.
  Lemma store_ok l : forall s acc, length acc = s + length l -> store (combine l (seq s (length l))) acc = Ok (firstn s acc ++ l).
  Proof.
    induction l as [|a l IH]; intros s acc L; cbn [length seq combine store].
    - cbn in L. rewrite Nat.add_0_r in L. rewrite app_nil_r, firstn_all2 by lia. auto.
    - cbn in L. replace (s <? length acc) with true by (symmetry; apply Nat.ltb_lt; lia). rewrite IH by (rewrite upd_length; lia). f_equal. change (a :: l) with ([a] ++ l). rewrite app_assoc. f_equal. clear IH.
      assert (LS : s < length acc) by lia. clear L. revert acc LS. induction s as [|s IHs]; intros [|x acc] L; cbn in *; try lia; auto. f_equal. apply IHs. lia.
  Qed.
  Lemma store_entries (x : @vtree R) : store (fst (fvfe x 0)) (repeat r0 (length (entries x))) = Ok (entries x).
  Proof. rewrite fvfe_entries, store_ok by (rewrite repeat_length; lia). reflexivity. Qed.
  Lemma vsize_entries (x : @vtree R) : vsize x = 0 -> entries x = nil.
  Proof. destruct x as [a|[|y l]]; cbn; auto; discriminate. Qed.
  Lemma apply_empty leaks v st x b res : holds v leaks st -> (forall k B, v <> System k B) ->
    (entries b <> nil \/ entries x <> nil -> apply st x b res = Throw EISTL) /\ (vsize b = 0 -> entries x = nil -> apply st x b res = Ok (x, res)).
  Proof.
    intros H NS. assert (Z : mN st = 0 /\ mM st = 0) by (destruct v as [| |k B|]; [| |destruct (NS k B eq_refl)|]; destruct H as (_ & -> & -> & _); auto). destruct Z as [Z1 Z2]. unfold apply. rewrite Z1, Z2. split.
    - intros E. destruct (entries b) as [|y l]; cbn [length Nat.eqb negb]; auto. destruct E as [E|E]; [congruence|]. destruct (entries x); [congruence|auto].
    - intros VB EX. rewrite (vsize_entries b VB), EX. cbn [length Nat.eqb negb]. rewrite VB. reflexivity.
  Qed.
  Lemma apply_system leaks k B st x b res : holds (System k B) leaks st ->
    (length (entries b) <> k \/ length (entries x) <> k -> apply st x b res = Throw EISTL) /\
    (length (entries b) = k -> length (entries x) = k -> exists y, apply st x b res = Ok (fst (rebuild x y), (1, true)) /\ exists c, ulegal c /\ cN c = k /\ (forall i j, i < k -> j < k -> entry c i j = B i j) /\
       ((symb lib c = true /\ exists f y0, num lib c = Some f /\ slv lib c f (entries b) = Some y0 /\ y = y0 ++ skipn (length y0) (entries x)) \/ (y = entries x /\ (symb lib c = false \/ num lib c = None \/ exists f, num lib c = Some f /\ slv lib c f (entries b) = None)))).
  Proof.
    intros (_ & K & HN & HM & _ & c & AR & LG & NC & EN & SY & NU). unfold apply. rewrite HN, HM. split.
    - intros [E|E]; [apply not_eq_sym, Nat.eqb_neq in E; now rewrite E|]. destruct (k =? length (entries b)); auto. cbn [negb]. apply not_eq_sym, Nat.eqb_neq in E; now rewrite E.
    - intros LB LX. replace (k =? length (entries b)) with true by (symmetry; apply Nat.eqb_eq; auto). replace (k =? length (entries x)) with true by (symmetry; apply Nat.eqb_eq; auto). cbn [negb]. destruct (vsize b) eqn:VB; [apply vsize_entries in VB; rewrite VB in LB; cbn in LB; lia|]. cbn [Nat.eqb]. rewrite !store_entries. cbn [obind].
      rewrite LB, LX. replace (k =? 0) with false by (symmetry; apply Nat.eqb_neq; lia). cbn [orb]. unfold umf_solve. rewrite NU, AR, HN, HM, Nat.ltb_irrefl.
      assert (EC : Csc k (cp c) (ci c) (cx c) = c) by (destruct c; cbn in *; congruence). rewrite EC.
      destruct (symb lib c) eqn:SB; [destruct (num lib c) as [f|] eqn:NB|].
      + destruct (slv lib c f (entries b)) as [y0|] eqn:SL; cbn [obind]; eexists; (split; [reflexivity|]); exists c; (split; [auto|]; split; [auto|]; split; [auto|]); [left; split; [auto|]; exists f, y0; auto|right; split; [auto|]; right; right; exists f; auto].
      + cbn [obind]. eexists. split; [reflexivity|]. exists c. split; [auto|]. split; [auto|]. split; [auto|]. right. auto.
      + cbn [obind]. eexists. split; [reflexivity|]. exists c. split; [auto|]. split; [auto|]. split; [auto|]. right. auto.
  Qed.
  Lemma do_ok v leaks st c v' l : holds v leaks st -> wf_call c -> track v c = Some (v', l) -> exists st', do st c = Ok st' /\ holds v' (leaks + l) st'.
  Proof.
    intros H W T. destruct c as [t bits n A|bs N A S0|x b|]; cbn [do track wf_call] in *.
    - destruct W as (D & O & DE & FI). unfold setMatrix. destruct (release_ok v leaks st H) as (st1 & E1 & H1). rewrite E1. cbn [obind]. destruct ((outerN t =? 0) || (outerM t =? 0)).
      + injection T as <- <-. rewrite Nat.add_0_r. eauto.
      + destruct (holds_nolive _ _ _ H1) as (L1 & L2 & L3 & E2 & L4); [destruct v; auto|]. rewrite E2. cbn [obind]. destruct (C77_matrix t n A bits D O DE FI) as (M & EA & LG & NC & EN). rewrite EA. cbn [obind].
        edestruct (decompose_ok (St (length (kept bits n)) (length (kept bits n)) (length (ci M)) (Live M) (loaded st1) (symbolic st1) (numeric st1) (lost st1 + live (arrays st1))) (length (kept bits n)) (fun i j => A (nth i (kept bits n) 0) (nth j (kept bits n) 0)) M) as (st' & E3 & H3); cbn [mN mM mNnz arrays loaded symbolic numeric lost]; auto.
        * rewrite <- NC. exact EN.
        * intros Z. destruct LG as (_ & G0 & G1 & _). rewrite NC, Z in G1. lia.
        * exists st'. split; auto. injection T as <- <-. pose proof (proj1 H1) as LL. cbn [lost] in H3. rewrite LL, L4 in H3. replace (match (match v with Hollow => Hollow | _ => Nothing end) with Hollow => 1 | _ => 0 end) with (match v with Hollow => 1 | _ => 0 end) in H3 by (destruct v; auto). destruct (kept bits n); exact H3.
    - destruct W as (Hb & HN & WF & SS & FF). unfold setSubMatrix. destruct (release_ok v leaks st H) as (st1 & E1 & H1). rewrite E1. cbn [obind].
      destruct (holds_nolive _ _ _ H1) as (L1 & L2 & L3 & E2 & L4); [destruct v; auto|]. rewrite E2. cbn [obind]. pose proof WF as [LA _]. rewrite LA. replace (N =? 0) with false by (symmetry; apply Nat.eqb_neq; lia). cbn [orb].
      replace (length S0 * (N * bs) / N) with (length S0 * bs) by (replace (length S0 * (N * bs)) with (length S0 * bs * N) by lia; symmetry; apply Nat.div_mul; lia). destruct (copySubset_entry bs N A S0 Hb WF SS FF) as (out & EA & LG & LV & EN). rewrite EA. cbn [obind].
      set (M := Csc _ _ _ _) in *. edestruct (decompose_ok (St (length S0 * bs) (length S0 * bs) (length (values out)) (Live M) (loaded st1) (symbolic st1) (numeric st1) (lost st1 + live (arrays st1))) (length S0 * bs) (subblocks bs A S0) M) as (st' & E3 & H3); cbn [mN mM mNnz arrays loaded symbolic numeric lost]; auto.
      + intros Z. destruct LG as (_ & G0 & G1 & _). change (cN M) with (length S0 * bs) in G1. rewrite Z in G1. lia.
      + exists st'. split; auto. injection T as <- <-. pose proof (proj1 H1) as LL. cbn [lost] in H3. rewrite LL, L4 in H3. replace (match (match v with Hollow => Hollow | _ => Nothing end) with Hollow => 1 | _ => 0 end) with (match v with Hollow => 1 | _ => 0 end) in H3 by (destruct v; auto).
        destruct S0 as [|s S0]; [exact H3|]. destruct bs as [|bs]; [lia|]. exact H3.
    - injection T as <- <-. rewrite Nat.add_0_r. exists st. split; auto. enough (apply st x b (0, false) <> UB) by (destruct (apply st x b (0, false)); congruence).
      assert (CASES : (forall k B, v <> System k B) \/ exists k B, v = System k B) by (destruct v; [left; discriminate|left; discriminate|right; eauto|left; discriminate]). destruct CASES as [NS|(k & B & ->)].
      + destruct (apply_empty _ _ _ x b (0, false) H NS) as [A1 A2]. destruct (entries x) eqn:EX; [|rewrite A1; [discriminate|right; discriminate]]. destruct W as [W|W]; [rewrite A2; auto; discriminate|rewrite A1; auto; discriminate].
      + destruct (apply_system _ _ _ _ x b (0, false) H) as [A1 A2]. destruct (Nat.eq_dec (length (entries b)) k) as [Q|Q]; [|rewrite A1; auto; discriminate]. destruct (Nat.eq_dec (length (entries x)) k) as [Q'|Q']; [|rewrite A1; auto; discriminate].
        destruct (A2 Q Q') as (y & EA & _). rewrite EA. discriminate.
    - destruct v as [| |k B|]; [discriminate| | |]; injection T as <- <-; rewrite Nat.add_0_r; (eapply free_ok; [exact H|discriminate]).
  Qed.
  Lemma run_ok cs : forall v leaks st v' l, holds v leaks st -> Forall wf_call cs -> tracks v cs leaks = Some (v', l) -> exists st', run st cs = Ok st' /\ holds v' l st'.
  Proof.
    induction cs as [|c cs IH]; intros v leaks st v' l H W T; cbn [tracks run] in *; [injection T as <- <-; eauto|]. inversion W as [|? ? W1 W2]; subst.
    destruct (track v c) as [[v1 l1]|] eqn:T1; [|discriminate]. destruct (do_ok _ _ _ _ _ _ H W1 T1) as (st1 & E1 & H1). rewrite E1. cbn [obind]. eapply IH; eauto.
  Qed.
  Lemma destroy_ok v leaks st : holds v leaks st -> destroy st = Ok (leaks + match v with Hollow => 1 | _ => 0 end).
  Proof.
    intros H. unfold destroy. destruct (release_ok v leaks st H) as (st1 & E1 & H1). rewrite E1. cbn [obind]. destruct (holds_nolive _ _ _ H1) as (_ & L2 & L3 & E2 & L4); [destruct v; auto|]. rewrite E2. cbn [obind]. rewrite L2, L3, L4, (proj1 H1), !Nat.add_0_r. destruct v; auto.
  Qed.
  (** what apply does when the solver holds v *)
  Definition applies (v : view) (st : state) : Prop :=
    match v with
    | System k B => forall x b res,
        (length (entries b) <> k \/ length (entries x) <> k -> apply st x b res = Throw EISTL) /\
        (length (entries b) = k -> length (entries x) = k -> sound -> factorises k B -> exists x', apply st x b res = Ok (x', (1, true)) /\ shape x' = shape x /\ solution k B (entries x') (entries b))
    | _ => forall x b res, (entries b <> nil \/ entries x <> nil -> apply st x b res = Throw EISTL) /\ (vsize b = 0 -> entries x = nil -> apply st x b res = Ok (x, res))
    end.
  Lemma holds_applies v leaks st : holds v leaks st -> applies v st.
  Proof.
    intros H. destruct v as [| |k B|]; cbn [applies]; intros x b res; try (eapply apply_empty; [exact H|discriminate]).
    destruct (apply_system _ _ _ _ x b res H) as [A1 A2]. split; auto. intros LB LX SO FA. destruct (A2 LB LX) as (y & EA & c & LG & NC & EN & CASES). destruct (FA c LG NC EN) as [F1 F2].
    destruct CASES as [(_ & f & y0 & NB & SL & ->)|(_ & [C|[C|(f & NB & SL)]])]; [|congruence|congruence|].
    - destruct (SO c f (entries b) LG NB ltac:(congruence)) as (y1 & SL1 & LY & SOL). rewrite SL in SL1. injection SL1 as <-. rewrite skipn_all2, app_nil_r in EA by lia. destruct (rebuild_ok x y0 ltac:(lia)) as (R1 & _ & R3). exists (fst (rebuild x y0)). split; auto. split; auto. rewrite R1, firstn_all2 by lia.
      intros i Hi. rewrite <- (SOL i ltac:(lia)), NC. apply sum_ext. intros j Hj. now rewrite EN.
    - destruct (SO c f (entries b) LG NB ltac:(congruence)) as (y1 & SL1 & _). congruence.
  Qed.
  (** every history of legal calls, starting from a default constructed solver: no undefined behaviour, apply solves with the matrix given last, everything is released but
      the arrays of empty systems *)
  Theorem C77_history cs v leaks : Forall wf_call cs -> tracks Nothing cs 0 = Some (v, leaks) ->
    exists st, run init cs = Ok st /\ applies v st /\ destroy st = Ok (leaks + match v with Hollow => 1 | _ => 0 end).
  Proof.
    intros W T. assert (H0 : holds Nothing 0 init) by (repeat split; cbn; auto). destruct (run_ok cs Nothing 0 init v leaks H0 W T) as (st & E & H). exists st. split; auto. split; [eapply holds_applies; eauto|eapply destroy_ok; eauto].
  Qed.
  (** the same for a solver that was constructed from a decomposition in a file *)
  Theorem C77_history_file f cs v leaks : Forall wf_call cs -> tracks FromFile cs 0 = Some (v, leaks) ->
    exists st0 st, construct_file (Some f) = Ok st0 /\ (forall t saved, construct_cached t (Some f) saved = Ok (Built st0)) /\ run st0 cs = Ok st /\ applies v st /\ destroy st = Ok (leaks + match v with Hollow => 1 | _ => 0 end).
  Proof.
    intros W T. assert (H0 : holds FromFile 0 (St 0 0 0 Null true Uninit (Live f) 0)) by (repeat split; cbn; eauto). destruct (run_ok cs FromFile 0 _ v leaks H0 W T) as (st & E & H). eexists. exists st. split; [reflexivity|]. split; [reflexivity|]. split; auto. split; [eapply holds_applies; eauto|eapply destroy_ok; eauto].
  Qed.
  Lemma start_null (t : @mtree R) : (outerN t =? 0) || (outerM t =? 0) = false -> setMatrix (St 0 0 0 Null false Uninit Null 0) t None = setMatrix init t None.
  Proof. intros ON. unfold setMatrix, release, bccs_release. cbn. rewrite ON. reflexivity. Qed.
  Lemma outer_nonzero (t : @mtree R) n : Dim t n n -> 0 < n -> (outerN t =? 0) || (outerM t =? 0) = false.
  Proof.
    intros D NP. inversion D as [a|m rows dflt br bc HE HD0 ND PN|rows hs ws NR NW LH LW HE]; subst; cbn [outerN outerM]; auto.
    - destruct (length rows); [lia|]. destruct m; [|auto]. lia.
    - destruct rows as [|row rows]; [congruence|]. cbn [length hd Nat.eqb orb]. specialize (LW 0 row eq_refl). rewrite LW. destruct ws; [congruence|auto].
  Qed.
  (** the constructors that take a matrix give what default construction followed by setMatrix gives, unless the factors cannot be written to the file *)
  Theorem C77_construct (t : @mtree R) n A : Dim t n n -> ordered t -> dense t n A -> 0 < n ->
    exists st v, construct t = Ok st /\ run init [CSet t None n A] = Ok st /\ tracks Nothing [CSet t None n A] 0 = Some (v, 0) /\ v = System n (fun i j => A (nth i (kept None n) 0) (nth j (kept None n) 0)) /\ (forall i, i < n -> nth i (kept None n) 0 = i) /\
      (sound -> factorises n A -> construct_cached t None true = Ok (Built st)).
  Proof.
    intros D O DE NP. assert (KN : length (kept None n) = n) by apply rank_None. assert (KI : forall i, i < n -> nth i (kept None n) 0 = i) by (intros i Hi; rewrite <- (rank_None i) at 1; apply nth_kept; auto).
    pose proof (outer_nonzero t n D NP) as ON.
    assert (T : track Nothing (CSet t None n A) = Some (System n (fun i j => A (nth i (kept None n) 0) (nth j (kept None n) 0)), 0)). { cbn [track]. rewrite ON. destruct (kept None n) eqn:KE; [cbn in KN; lia|]. rewrite KN. reflexivity. }
    destruct (do_ok Nothing 0 init (CSet t None n A) _ _ ltac:(repeat split; cbn; auto) ltac:(cbn; auto) T) as (st & E & H). cbn [do] in E.
    exists st. eexists. unfold construct. split; [exact E|]. split; [cbn [run do]; rewrite E; reflexivity|]. split; [cbn [tracks]; rewrite T; reflexivity|]. split; [reflexivity|]. split; auto.
    intros SO FA. unfold construct_cached. rewrite start_null, E by auto. cbn [obind]. destruct H as (_ & _ & _ & _ & _ & c & _ & LG & NC & EN & _ & NU). destruct (FA c LG NC) as [F1 F2]; [intros i j Hi Hj; rewrite EN, !KI by auto; auto|]. rewrite F1 in NU. destruct (num lib c); [|congruence]. rewrite NU. reflexivity.
  Qed.
  (** Deviation: if UMFPACK cannot factorise the matrix (it is singular, say), nobody is told: apply leaves x as it is and reports convergence *)
  Theorem C77_failure_refuted cs k B leaks : Forall wf_call cs -> tracks Nothing cs 0 = Some (System k B, leaks) ->
    (forall M, ulegal M -> cN M = k -> (forall i j, i < k -> j < k -> entry M i j = B i j) -> symb lib M = false \/ num lib M = None) ->
    exists st, run init cs = Ok st /\ forall x b res, length (entries b) = k -> length (entries x) = k -> exists x', apply st x b res = Ok (x', (1, true)) /\ shape x' = shape x /\ entries x' = entries x.
  Proof.
    intros W T NF. destruct (run_ok cs Nothing 0 init _ leaks ltac:(repeat split; cbn; auto) W T) as (st & E & H). exists st. split; auto. intros x b res LB LX. destruct (apply_system _ _ _ _ x b res H) as [_ A2].
    destruct (A2 LB LX) as (y & EA & c & LG & NC & EN & CASES). assert (Y : y = entries x). { destruct CASES as [(S1 & f & y0 & NB & _)|[Y _]]; auto. destruct (NF c LG NC EN); congruence. } subst y.
    exists (fst (rebuild x (entries x))). split; auto. destruct (rebuild_ok x (entries x) ltac:(lia)) as (R1 & _ & R3). rewrite R1, firstn_all. auto.
  Qed.
  (** Deviation: a decomposition loaded from a file is of no use, apply rejects every right hand side that is not empty *)
  Theorem C77_loaded_refuted f : exists st, construct_file (Some f) = Ok st /\ (forall t saved, construct_cached t (Some f) saved = Ok (Built st)) /\ forall x b res, entries b <> nil -> apply st x b res = Throw EISTL.
  Proof. eexists. split; [reflexivity|]. split; [reflexivity|]. intros x b res NE. unfold apply. cbn [mN]. destruct (entries b); [congruence|reflexivity]. Qed.
  (** a file that cannot be read is reported by the constructor that only loads; the one that is also given a matrix decomposes the matrix instead *)
  Theorem C77_no_file : construct_file None = Throw EIO /\
    forall (t : @mtree R) n A, Dim t n n -> ordered t -> dense t n A -> 0 < n -> sound -> factorises n A -> exists st, construct t = Ok st /\ construct_cached t None true = Ok (Built st).
  Proof.
    split; [reflexivity|]. intros t n A D O DE NP SO FA. destruct (C77_construct t n A D O DE NP) as (st & v & E & _ & _ & _ & _ & C). eauto.
  Qed.
  (** Deviation: free() of a solver that holds nothing releases uninitialised or released memory *)
  Theorem C77_free_refuted : free init = UB /\ forall st k B leaks, holds (System k B) leaks st -> obind (free st) free = UB.
  Proof.
    split; [reflexivity|]. intros st k B leaks (_ & _ & _ & _ & LO & c & AR & _ & _ & _ & SY & NU). unfold free at 1. rewrite LO. unfold bccs_free. cbn [negb arrays]. rewrite AR. cbn [delete]. rewrite SY. destruct (symb lib c); cbn [umf_free obind numeric]; rewrite NU; [destruct (num lib c)|]; reflexivity.
  Qed.
  (** Deviation: a bit vector that excludes everything, or an empty index set: the arrays allocated for the empty system are never released *)
  Theorem C77_hollow_leak_refuted (t : @mtree R) n A bits : Dim t n n -> ordered t -> dense t n A -> fits bits n -> outerN t <> 0 -> outerM t <> 0 -> kept bits n = nil ->
    exists st, setMatrix init t bits = Ok st /\ destroy st = Ok 1.
  Proof.
    intros D O DE FI N1 N2 KE. destruct (C77_history [CSet t bits n A] Hollow 0) as (st & E & _ & DS).
    - constructor; [cbn; auto|constructor].
    - cbn [tracks track]. apply Nat.eqb_neq in N1, N2. rewrite N1, N2, KE. reflexivity.
    - exists st. cbn [run do] in E. destruct (setMatrix init t bits) as [st1| |]; try discriminate. cbn [obind] in E. injection E as <-. auto.
  Qed.
  (** Deviation: if the decomposition computed by the constructor cannot be written to the file, the exception leaves both UMFPACK objects behind *)
  Theorem C77_construct_leak_refuted (t : @mtree R) n A : Dim t n n -> ordered t -> dense t n A -> 0 < n -> factorises n A -> construct_cached t None false = Ok (Failed 2).
  Proof.
    intros D O DE NP FA. destruct (C77_construct t n A D O DE NP) as (st & v & E & E1 & T & -> & KI & _). destruct (run_ok [CSet t None n A] Nothing 0 init _ 0 ltac:(repeat split; cbn; auto) ltac:(constructor; [cbn; auto|constructor]) T) as (st' & E' & H). rewrite E1 in E'. injection E' as <-.
    unfold construct_cached. rewrite start_null by (eapply outer_nonzero; eauto). unfold construct in E. rewrite E. cbn [obind]. destruct H as (L & _ & HN & HM & LO & c & AR & LG & NC & EN & SY & NU). destruct (FA c LG NC) as [F1 F2]; [intros i j Hi Hj; rewrite EN, !KI by auto; auto|]. rewrite F1 in NU, SY. destruct (num lib c) as [f|]; [|congruence]. rewrite NU.
    unfold bccs_release, bccs_free. rewrite HN, HM. destruct n; [lia|]. cbn [Nat.add Nat.eqb]. rewrite AR. cbn [delete obind lost arrays symbolic numeric live]. rewrite L, SY, NU. reflexivity.
  Qed.
End Umfpack.
Arguments symb {R F}. Arguments num {R F}. Arguments slv {R F}. Arguments Lib {R F}.

From Coq Require Import ZArith.
From Verif Require Import RingInst.
(** ** Examples *)
Section UExamples.
  Local Open Scope Z_scope.
  Notation mt := (@mtree Zring).
  Let zs (a : Z) : mt := @MScalar Zring a.
  (** the 4 x 4 matrix [[2,5,0,1],[7,9,0,0],[0,0,3,0],[3,0,0,2]] as a BCRSMatrix of 2 x 2 blocks *)
  Let T4 : mt := MSparse 2 [[(0%nat, MDense [[zs 2; zs 5]; [zs 7; zs 9]]); (1%nat, MDense [[zs 0; zs 1]; [zs 0; zs 0]])]; [(0%nat, MDense [[zs 0; zs 0]; [zs 3; zs 0]]); (1%nat, MDense [[zs 3; zs 0]; [zs 0; zs 2]])]] (MDense [[zs 0; zs 0]; [zs 0; zs 0]]).
  Let A4 : nat -> nat -> Z := fun i j => nth j (nth i [[2; 5; 0; 1]; [7; 9; 0; 0]; [0; 0; 3; 0]; [3; 0; 0; 2]] []) 0.
  Let bits4 : @vtree bool := VNode [VNode [VScalar false; VScalar true]; VNode [VScalar true; VScalar false]].
  Let all4 : @vtree bool := VNode [VNode [VScalar true; VScalar true]; VNode [VScalar true; VScalar true]].
  Let vec2 (a b : Z) : @vtree Zring := VNode [@VScalar Zring a; @VScalar Zring b].
  Let B2 : @bmat Zring := [[(0%nat, fun _ _ => 3); (1%nat, fun _ _ => 5)]; [(0%nat, fun _ _ => 1); (1%nat, fun _ _ => 2)]].
  (** a library that solves systems of order 2 and determinant 1 *)
  Let lib2 : library unit :=
    Lib (fun _ => true) (fun M => let m := @entry Zring M in if (cN M =? 2)%nat && (m 0%nat 0%nat * m 1%nat 1%nat - m 0%nat 1%nat * m 1%nat 0%nat =? 1) then Some tt else None)
      (fun M _ b => let m := @entry Zring M in Some [m 1%nat 1%nat * nth 0 b 0 - m 0%nat 1%nat * nth 1 b 0; m 0%nat 0%nat * nth 1 b 0 - m 1%nat 0%nat * nth 0 b 0]).
  Lemma lib2_sound : @sound Zring unit lib2.
  Proof.
    intros M f b LG NU LB. cbn [num slv lib2] in *. destruct (Nat.eqb_spec (cN M) 2) as [NC|]; [|discriminate]. cbn [andb] in NU. destruct (Z.eqb_spec (@entry Zring M 0 0 * @entry Zring M 1 1 - @entry Zring M 0 1 * @entry Zring M 1 0) 1) as [DT|]; [|discriminate].
    eexists. split; [reflexivity|]. rewrite NC. split; auto. rewrite NC in LB. destruct b as [|b0 [|b1 [|]]]; try discriminate. clear - DT. intros i Hi. unfold vget. cbn [sum nth]. change (@radd Zring) with Z.add. change (@rmul Zring) with Z.mul. change (@r0 Zring) with 0.
    generalize dependent (@entry Zring M). intros m DT. destruct i as [|[|i]]; [| |lia]; cbn [nth]; match goal with |- @eq _ ?a ?b => change (@eq Z a b) end.
    - transitivity ((m 0%nat 0%nat * m 1%nat 1%nat - m 0%nat 1%nat * m 1%nat 0%nat) * b0); [ring|rewrite DT; ring].
    - transitivity ((m 0%nat 0%nat * m 1%nat 1%nat - m 0%nat 1%nat * m 1%nat 0%nat) * b1); [ring|rewrite DT; ring].
  Qed.
  Lemma lib2_factorises (B : nat -> nat -> Z) : B 0%nat 0%nat * B 1%nat 1%nat - B 0%nat 1%nat * B 1%nat 0%nat = 1 -> @factorises Zring unit lib2 2 B.
  Proof.
    intros DT M LG NC EN. split; [reflexivity|]. cbn [num lib2]. rewrite NC. cbn [Nat.eqb andb]. rewrite !EN by lia. apply Z.eqb_eq in DT. rewrite DT. discriminate.
  Qed.
  Lemma T4_wf : Dim T4 4 4 /\ ordered T4 /\ dense T4 4 A4.
  Proof.
    assert (DB : forall a b c d, Dim (MDense [[zs a; zs b]; [zs c; zs d]]) 2 2).
    { intros a b c d. apply (DimDense _ [1; 1]%nat [1; 1]%nat); try discriminate; auto.
      - intros [|[|i]] row H; cbn in H; try (injection H as <-; reflexivity). destruct i; discriminate.
      - intros [|[|i]] [|[|j]] row e H H'; cbn in H; try (destruct i; discriminate); injection H as <-; cbn in H'; try (destruct j; discriminate); injection H' as <-; constructor. }
    assert (D : Dim T4 4 4).
    { unfold T4. match goal with |- Dim (MSparse _ ?rows ?d) _ _ => pose proof (DimSparse 2 rows d 2 2) as X end. refine (X _ _ _ _).
      - intros row j b [<-|[<-|[]]] [[= <- <-]|[[= <- <-]|[]]]; split; auto.
      - auto.
      - intros row [<-|[<-|[]]]; repeat constructor; cbn; intuition discriminate.
      - auto. }
    split; auto. split.
    - assert (OD : forall a b c d, ordered (MDense [[zs a; zs b]; [zs c; zs d]])) by (intros a b c d; constructor; intros row e [<-|[<-|[]]] [<-|[<-|[]]]; constructor).
      constructor; [intros row [<-|[<-|[]]]; repeat constructor|]. intros row j b [<-|[<-|[]]] [[= <- <-]|[[= <- <-]|[]]]; auto.
    - intros r c Hr Hc. destruct (all_good T4 4%nat 4%nat D) as [_ G]. destruct (G 0%nat 0%nat) as (calls & E & [CI _]). cbn in E. injection E as E.
      assert (CA : forall a r c, In (a, r, c) calls <-> At T4 r c a) by (intros; rewrite CI; apply (@at_shifted Zring)).
      left. rewrite <- CA, <- E. clear - Hr Hc. do 4 (destruct r as [|r]; [do 4 (destruct c as [|c]; [cbn; tauto|]); lia|]); lia.
  Qed.
  (** a history with every kind of call: an empty system (leaked), a reduced system, a solve, a submatrix, free, a reduced system again *)
  Let history : list (@call Zring) :=
    [CSet T4 (Some all4) 4 A4; CSet T4 (Some bits4) 4 A4; CApply (vec2 7 7) (vec2 3 5); CSub 1 2 B2 [0; 1]%nat; CFree; CSet T4 (Some bits4) 4 A4].
  Example C77_history_nonvacuous : Forall wf_call history /\ (exists B, tracks (R := Zring) Nothing history 0 = Some (System 2 B, 1%nat) /\ @sound Zring unit lib2 /\ @factorises Zring unit lib2 2 B) /\
    exists st, run lib2 (@init Zring unit) history = Ok st /\ arrays st = Live (@Csc Zring 2 [0; 2; 4]%nat [Some 0%nat; Some 1%nat; Some 0%nat; Some 1%nat] [Some 2; Some 3; Some 1; Some 2]) /\
      (exists x', apply lib2 st (vec2 100 200) (vec2 3 5) (0%nat, false) = Ok (x', (1%nat, true)) /\ entries x' = [1; 1]) /\ destroy st = Ok 1%nat.
  Proof.
    destruct T4_wf as (D & O & DE). split.
    - constructor; [cbn; auto|]. constructor; [cbn; auto|]. constructor; [right; discriminate|]. constructor; [|constructor; [exact Logic.I|constructor; [cbn; auto|constructor]]].
      cbn [wf_call]. split; [lia|]. split; [lia|]. split; [|split; [repeat constructor|repeat constructor]]. split; [reflexivity|]. repeat constructor.
    - split; [eexists; split; [reflexivity|]; split; [exact lib2_sound|]; apply lib2_factorises; reflexivity|]. exists (@St Zring unit 2 2 4 (Live (@Csc Zring 2 [0; 2; 4]%nat [Some 0%nat; Some 1%nat; Some 0%nat; Some 1%nat] [Some 2; Some 3; Some 1; Some 2])) false (Live tt) (Live tt) 1).
      split; [match goal with |- _ = ?r => vm_cast_no_check (eq_refl r) end|]. split; [reflexivity|]. split; [|reflexivity]. exists (vec2 1 1). split; [match goal with |- _ = ?r => vm_cast_no_check (eq_refl r) end|reflexivity].
  Qed.
  Example C77_failure_nonvacuous : exists cs B, Forall wf_call cs /\ tracks (R := Zring) Nothing cs 0 = Some (System 4 B, 0%nat) /\ (forall M, @ulegal Zring M -> cN M = 4%nat -> (forall i j, (i < 4)%nat -> (j < 4)%nat -> @entry Zring M i j = B i j) -> symb lib2 M = false \/ num lib2 M = None).
  Proof.
    destruct T4_wf as (D & O & DE). exists [CSet T4 None 4 A4]. eexists. split; [constructor; [cbn; auto|constructor]|]. split; [reflexivity|]. intros M _ NC _. right. cbn [num lib2]. rewrite NC. reflexivity.
  Qed.
  Example C77_construct_nonvacuous : Dim T4 4 4 /\ ordered T4 /\ dense T4 4 A4 /\ (0 < 4)%nat /\ fits (Some all4) 4 /\ kept (Some all4) 4 = nil /\ (exists lib : @library Zring unit, @factorises Zring unit lib 4 A4).
  Proof. destruct T4_wf as (D & O & DE). split; [auto|]. split; [auto|]. split; [auto|]. split; [lia|]. split; [reflexivity|]. split; [reflexivity|]. exists (Lib (fun _ => true) (fun _ => Some tt) (fun _ _ b => Some b)). split; [reflexivity|discriminate]. Qed.
  (** a library that solves systems of order 1 with the entry 1 *)
  Let lib1 : library unit := Lib (fun _ => true) (fun M => if (cN M =? 1)%nat && (@entry Zring M 0%nat 0%nat =? 1) then Some tt else None) (fun M _ b => Some b).
  Lemma lib1_sound : @sound Zring unit lib1.
  Proof.
    intros M f b LG NU LB. cbn [num slv lib1] in *. destruct (Nat.eqb_spec (cN M) 1) as [NC|]; [|discriminate]. cbn [andb] in NU. destruct (Z.eqb_spec (@entry Zring M 0 0) 1) as [DT|]; [|discriminate].
    eexists. split; [reflexivity|]. split; auto. rewrite NC. intros [|i] Hi; [|lia]. cbn [sum]. rewrite DT. change (@radd Zring) with Z.add. change (@rmul Zring) with Z.mul. change (@r0 Zring) with 0. lia.
  Qed.
  (** Deviation: a matrix that is not square is not rejected.  With more columns than rows, the leading square block is solved and the other entries of x keep their values, so that A x = b does not hold;
      with more rows than columns, UMFPACK reads past the end of the column starts *)
  Theorem C77_not_square_refuted :
    (exists st x', setMatrix lib1 (@init Zring unit) (MSparse 2 [[(0%nat, zs 1); (1%nat, zs 5)]] (zs 0)) None = Ok st /\ apply lib1 st (vec2 7 8) (VNode [@VScalar Zring 3]) (0%nat, false) = Ok (x', (1%nat, true)) /\ entries x' = [3; 8] /\ 1 * 3 + 5 * 8 <> 3) /\
    (forall F (lib : @library Zring F) st, loaded st = false -> mN st = 0%nat -> mM st = 0%nat -> mNnz st = 0%nat -> setMatrix lib st (MSparse 1 [[(0%nat, zs 1)]; [(0%nat, zs 5)]] (zs 0)) None = UB).
  Proof.
    split; [exists (@St Zring unit 1 2 2 (Live (@Csc Zring 2 [0; 1; 2]%nat [Some 0%nat; Some 0%nat] [Some 1; Some 5])) false (Live tt) (Live tt) 0), (vec2 3 8); split; [match goal with |- _ = ?r => vm_cast_no_check (eq_refl r) end|]; split; [match goal with |- _ = ?r => vm_cast_no_check (eq_refl r) end|]; split; [reflexivity|lia]|]. intros F lib [N M nz a l s f lo]. cbn [loaded mN mM mNnz]. intros -> -> -> ->. reflexivity.
  Qed.
End UExamples.
Print Assumptions C77_matrix.
Print Assumptions C77_history.
