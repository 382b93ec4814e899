(** * The LDL wrapper (C78): dune/istl/ldl.hh, dune/istl/bccsmatrix.hh

    The wrapper flattens a block matrix, or a set of its block rows, into compressed column arrays, has them ordered by AMD and
    factorised by LDL, and solves by calling LDL's routines for the permutation and for the three factors one after the other.  It owns
    ten arrays through raw pointers.  Modelled: the contents of the matrix, the state of every pointer and the sequence of calls.  AMD and LDL are not
    modelled: the functions of [library] are arbitrary, the theorems on solutions assume [sound].  Not modelled: printing, the getters,
    copies of the object, running out of memory in new[].  Scalars range over any ring; index types are unbounded. *)
From Coq Require Import Arith List Lia Bool Sorted Permutation.
From Verif Require Import Outcome Ring Sums Sparse Foreach Cholmod Bccs Umfpack.
Import ListNotations.
Open Scope nat_scope.

Section Ldl.
  Context {R : ring}.

  (** AMD and LDL.  A matrix is given by its order and its three arrays.  [amd]: does amd_order return AMD_OK or more; [numeric]: what ldl_symbolic and ldl_numeric leave in
      P_, Pinv_, Lp_, Li_, Lx_ and D_, and whether the returned rank is the order of the matrix; the other functions give the contents of the array
      passed first to ldl_perm, ldl_lsolve, ldl_dsolve, ldl_ltsolve, ldl_permt after the call *)
  Record library (F : Type) := Lib { amd : @csc R -> bool; numeric : @csc R -> F * bool;
    ldl_perm : F -> list R -> list R; ldl_lsolve : F -> list R -> list R; ldl_dsolve : F -> list R -> list R; ldl_ltsolve : F -> list R -> list R; ldl_permt : F -> list R -> list R }.
  Arguments amd {F}. Arguments numeric {F}. Arguments ldl_perm {F}. Arguments ldl_lsolve {F}. Arguments ldl_dsolve {F}. Arguments ldl_ltsolve {F}. Arguments ldl_permt {F}.
  Context {F : Type} (lib : library F).

  (** the array members, ldl.hh:350-360 *)
  Inductive arr := Lp | Parent | Lnz | Flag | Pattern | P | Pinv | D | Y | Lx | Li.
  Definition arr_eqb (a b : arr) : bool :=
    match a, b with Lp, Lp | Parent, Parent | Lnz, Lnz | Flag, Flag | Pattern, Pattern | P, P | Pinv, Pinv | D, D | Y, Y | Lx, Lx | Li, Li => true | _, _ => false end.
  Definition everyone : list arr := [Lp; Parent; Lnz; Flag; Pattern; P; Pinv; D; Y; Lx; Li].
  Definition pointers := arr -> ptr unit.
  Definition set (p : pointers) (a : arr) (v : ptr unit) : pointers := fun b => if arr_eqb a b then v else p b.
  (** delete[] of the given arrays, in this order *)
  Fixpoint deletes (l : list arr) (p : pointers) : outcome pointers :=
    match l with nil => Ok p | a :: t => obind (delete (p a)) (fun v => deletes t (set p a v)) end.
  (** new[] for the given arrays; the second result counts the arrays to which no pointer refers any more *)
  Fixpoint news (l : list arr) (p : pointers) (lost : nat) : pointers * nat :=
    match l with nil => (p, lost) | a :: t => news t (set p a (Live tt)) (lost + live (p a)) end.
  Definition alive (p : pointers) : nat := list_sum (map (fun a => live (p a)) everyone).

  (** the members of LDL and of its BCCSMatrix (ldl.hh:347-360, bccsmatrix.hh:150-153); the three array pointers of BCCSMatrix are always set and deleted together and are one
      pointer here, worth three arrays; [fac] is what LDL left in its arrays; [lost] counts arrays that no pointer refers to any more *)
  Record state := St { mN : nat; mM : nat; mNnz : nat; arrays : ptr (@csc R); loaded : bool; mem : pointers; fac : option F; lost : nat }.
  (** LDL(), ldl.hh:141-142 and BCCSMatrix(), bccsmatrix.hh:36-38 *)
  Definition init : state := St 0 0 0 Null false (fun _ => Uninit) None 0.
  (** BCCSMatrix::free(), bccsmatrix.hh:139-147 *)
  Definition bccs_free (st : state) : outcome state :=
    obind (delete (arrays st)) (fun a => Ok (St 0 0 0 a (loaded st) (mem st) (fac st) (lost st))).
  (** LDL::free(), ldl.hh:246-257 *)
  Definition free (st : state) : outcome state :=
    obind (deletes [D; Y; Lp; Lx; Li; P; Pinv] (mem st)) (fun p =>
    obind (bccs_free (St (mN st) (mM st) (mNnz st) (arrays st) (loaded st) p (fac st) (lost st))) (fun st =>
    Ok (St (mN st) (mM st) (mNnz st) (arrays st) false (mem st) (fac st) (lost st)))).
  (** the test at the top of ~LDL, setMatrix and setSubMatrix, ldl.hh:147-148, 192-193, 209-210 *)
  Definition release (st : state) : outcome state := if (0 <? mN st + mM st) || loaded st then free st else Ok st.
  (** if (N + M + nonzeroes != 0) free(): ldl.hh:195-196, 212-213 and ~BCCSMatrix, bccsmatrix.hh:41-45 *)
  Definition bccs_release (st : state) : outcome state := if mN st + mM st + mNnz st =? 0 then Ok st else bccs_free st.
  (** ~BCCSMatrix on the member ldlMatrix_; the number of arrays that are never released *)
  Definition drop (st : state) : outcome nat := obind (bccs_release st) (fun st => Ok (lost st + 3 * live (arrays st) + alive (mem st))).
  (** ~LDL(), ldl.hh:145-149, then the destructor of the member *)
  Definition destroy (st : state) : outcome nat := obind (release st) drop.
  (** decompose(), ldl.hh:308-345; the second result: was InvalidStateException thrown.  AMD reads N + 1 column starts of the M + 1 that exist *)
  Definition decompose (st : state) : outcome (state * bool) :=
    match arrays st with
    | Live c =>
        if mM st <? mN st then UB else
        let c := Csc (mN st) (cp c) (ci c) (cx c) in
        let '(p, lo) := news [D; Y; Lp; Parent; Lnz; Flag; Pattern; P; Pinv] (mem st) (lost st) in
        if negb (amd lib c) then Ok (St (mN st) (mM st) (mNnz st) (arrays st) (loaded st) p (fac st) lo, true) else
        let '(p, lo) := news [Lx; Li] p lo in
        let '(f, complete) := numeric lib c in
        obind (deletes [Flag; Pattern; Parent; Lnz] p) (fun p =>
        Ok (St (mN st) (mM st) (mNnz st) (arrays st) (loaded st) p (Some f) lo, negb complete))
    | _ => UB
    end.
  (** the arrays made by copyToBCCSMatrix (model: Bccs.v), with their sizes in rows x columns; what the matrix pointed to before is lost *)
  Definition install (st : state) (rows cols : nat) (out : @ccs R) : state :=
    St rows cols (length (values out)) (Live (Csc cols (colstart out) (map Some (rowindex out)) (map Some (values out)))) (loaded st) (mem st) (fac st) (lost st + 3 * live (arrays st)).
  (** setMatrix(matrix), ldl.hh:190-204, for a matrix of N x M blocks with bn x bm scalars *)
  Definition setMatrix (st : state) (bn bm M : nat) (A : @bmat R) : outcome (state * bool) :=
    obind (release st) (fun st => obind (bccs_release st) (fun st =>
    obind (copyToBCCSMatrix r0 bn bm (M * bm) A) (fun out => decompose (install st (length A * bn) (M * bm) out)))).
  (** setSubMatrix(matrix, rowIndexSet), ldl.hh:206-222: rowdim(matrix) / N = bn, coldim(matrix) / M = bm, division by zero for an empty matrix *)
  Definition setSubMatrix (st : state) (bn bm M : nat) (A : @bmat R) (S0 : list nat) : outcome (state * bool) :=
    obind (release st) (fun st => obind (bccs_release st) (fun st =>
    if (length A =? 0) || (M =? 0) then UB else
    let rows := length S0 * (length A * bn) / length A in let cols := length S0 * (M * bm) / M in
    obind (copySubset r0 bn bm cols A S0) (fun out => decompose (install st rows cols out)))).
  (** LDL(matrix, verbose), ldl.hh:104-138; an exception thrown by the constructor runs the destructor of ldlMatrix_ only *)
  Inductive constructed := Built (st : state) | Failed (never_released : nat).
  Definition construct (bn bm M : nat) (A : @bmat R) : outcome constructed :=
    obind (setMatrix init bn bm M A) (fun x => if snd x then obind (drop (fst x)) (fun n => Ok (Failed n)) else Ok (Built (fst x))).

  (** a routine of LDL called with n writes the first n entries of an array *)
  Definition first (n : nat) (l : list R) : list R := map (vget l) (seq 0 n).
  (** the five calls on plain arrays, ldl.hh:176-184: b and x are the arrays the arguments point to *)
  Definition applyArrays (st : state) (x b : list R) : outcome (list R) :=
    match fac st, mem st Y, mem st P, mem st Lp, mem st Li, mem st Lx, mem st D with
    | Some f, Live _, Live _, Live _, Live _, Live _, Live _ =>
        let n := mN st in
        if length b <? n then UB else
        let y := first n (ldl_perm lib f (firstn n b)) in
        let y := first n (ldl_lsolve lib f y) in
        let y := first n (ldl_dsolve lib f y) in
        let y := first n (ldl_ltsolve lib f y) in
        if length x <? n then UB else
        Ok (first n (ldl_permt lib f y) ++ skipn n x)
    | _, _, _, _, _, _, _ => UB
    end.
  (** apply(x, b, res), ldl.hh:152-163, on the scalar entries of the vectors; res is (iterations, converged); the address of the first entry of a vector without entries is undefined *)
  Definition apply (st : state) (x b : list R) (res : nat * bool) : outcome (list R * (nat * bool)) :=
    match b, x with _ :: _, _ :: _ => obind (applyArrays st x b) (fun x => Ok (x, (1, true))) | _, _ => UB end.

  (** ** Specification *)
  (** what LDL promises: for a symmetric matrix A of order k, a complete factorisation is P A P^T = L D L^T, and the routines solve the systems of the factors *)
  Definition factorisation (k : nat) (A : nat -> nat -> R) (f : F) : Prop :=
    exists (p : list nat) (L : nat -> nat -> R) (d : nat -> R), Permutation p (seq 0 k) /\
      (forall i j, i < k -> j < k -> A (nth i p 0) (nth j p 0) = sum k (fun l => rmul (L i l) (rmul (d l) (L j l)))) /\
      (forall b, length b = k -> forall i, i < k -> vget (ldl_perm lib f b) i = vget b (nth i p 0)) /\
      (forall b, length b = k -> forall i, i < k -> sum k (fun j => rmul (L i j) (vget (ldl_lsolve lib f b) j)) = vget b i) /\
      (forall b, length b = k -> forall i, i < k -> rmul (d i) (vget (ldl_dsolve lib f b) i) = vget b i) /\
      (forall b, length b = k -> forall i, i < k -> sum k (fun j => rmul (L j i) (vget (ldl_ltsolve lib f b) j)) = vget b i) /\
      (forall b, length b = k -> forall i, i < k -> vget (ldl_permt lib f b) (nth i p 0) = vget b i).
  Definition symmetric (k : nat) (B : nat -> nat -> R) : Prop := forall i j, i < k -> j < k -> B i j = B j i.
  Definition sound : Prop := forall M f, ulegal M -> symmetric (cN M) (entry M) -> numeric lib M = (f, true) -> factorisation (cN M) (entry M) f.
  (** AMD orders every legal matrix (it does not run out of memory) *)
  Definition orders : Prop := forall M, ulegal M -> amd lib M = true.
  (** LDL factorises every legal matrix whose entries are those of B completely / none of them *)
  Definition factorises (k : nat) (B : nat -> nat -> R) (complete : bool) : Prop :=
    forall M, ulegal M -> cN M = k -> (forall i j, i < k -> j < k -> entry M i j = B i j) -> snd (numeric lib M) = complete.
  (** the scalar matrix made of blocks of order bs *)
  Definition blocks (bs : nat) (A : @bmat R) (i j : nat) : R :=
    match find (fun e => fst e =? j / bs) (nth (i / bs) A nil) with Some (_, b) => b (i mod bs) (j mod bs) | None => r0 end.

  (** what a client knows the solver to hold: nothing; an empty system; a k x k system *)
  Inductive view := Nothing | Hollow | System (k : nat) (B : nat -> nat -> R).
  Definition system (k : nat) (B : nat -> nat -> R) : view := match k with 0 => Hollow | _ => System k B end.
  Inductive call := CSet (bs N : nat) (A : @bmat R) | CSub (bs N : nat) (A : @bmat R) (S0 : list nat) | CApply (x b : list R) | CFree.
  (** square matrices, increasing existing block indices *)
  Definition wf_call (c : call) : Prop :=
    match c with
    | CSet bs N A => 0 < bs /\ bmat_wf N N A
    | CSub bs N A S0 => 0 < bs /\ 0 < N /\ bmat_wf N N A /\ StronglySorted lt S0 /\ Forall (fun x => x < N) S0
    | _ => True
    end.
  (** how a call changes the view and how many arrays it leaks.  None, undefined behaviour: solving or releasing before a matrix is set, solving with vectors that are empty or too short *)
  Definition track (v : view) (c : call) : option (view * nat) :=
    let hollow := match v with Hollow => 10 | _ => 0 end in
    match c with
    | CSet bs N A => Some (system (N * bs) (blocks bs A), hollow)
    | CSub bs N A S0 => Some (system (length S0 * bs) (subblocks bs A S0), hollow)
    | CApply x b => match v with Nothing => None | Hollow => if (0 <? length x) && (0 <? length b) then Some (v, 0) else None | System k _ => if (k <=? length x) && (k <=? length b) then Some (v, 0) else None end
    | CFree => match v with Nothing => None | _ => Some (Nothing, 0) end
    end.
  Fixpoint tracks (v : view) (cs : list call) (leaks : nat) : option (view * nat) :=
    match cs with nil => Some (v, leaks) | c :: t => match track v c with Some (v', l) => tracks v' t (leaks + l) | None => None end end.
  (** running the calls; a client may go on after an exception; the second result: how many of the calls threw *)
  Definition do (st : state) (c : call) : outcome (state * bool) :=
    match c with
    | CSet bs N A => setMatrix st bs bs N A
    | CSub bs N A S0 => setSubMatrix st bs bs N A S0
    | CApply x b => obind (apply st x b (0, false)) (fun _ => Ok (st, false))
    | CFree => obind (free st) (fun st => Ok (st, false))
    end.
  Fixpoint run (st : state) (cs : list call) : outcome state := match cs with nil => Ok st | c :: t => obind (do st c) (fun x => run (fst x) t) end.

  (** ** The arrays of setMatrix *)
  Theorem C78_matrix bs N (A : @bmat R) : 0 < bs -> bmat_wf N N A ->
    exists out, copyToBCCSMatrix r0 bs bs (N * bs) A = Ok out /\ let M := Csc (N * bs) (colstart out) (map Some (rowindex out)) (map Some (values out)) in
      ulegal M /\ length (values out) = length (ci M) /\ forall i j, i < N * bs -> j < N * bs -> entry M i j = blocks bs A i j.
  Proof.
    intros Hb WF. destruct (C23_copyToBCCSMatrix r0 bs bs N N A Hb WF) as (out & E & (I1 & I2 & I3 & I4 & I5) & _). exists out. split; auto. cbv zeta. set (K := N * bs) in *. set (M := Csc K _ _ _).
    assert (MONO : forall k l, k <= l -> l <= K -> nth k (colstart out) 0 <= nth l (colstart out) 0). { intros k l H. induction H as [|l H IH]; intros HL; auto. destruct (I5 l ltac:(lia)) as [J _]. specialize (IH ltac:(lia)). lia. }
    assert (CK : forall k, k < K -> column M k = slice (combine (rowindex out) (values out)) (nth k (colstart out) 0) (nth (S k) (colstart out) 0)).
    { intros k HK. apply column_slice; [auto|apply I5; auto|]. rewrite <- I3. apply MONO; lia. }
    destruct WF as [LA WF]. rewrite Forall_forall in WF. assert (Hb' : bs <> 0) by lia.
    split; [|split; [unfold M; cbn [ci]; now rewrite map_length|]].
    - unfold ulegal. change (cN M) with K. change (cp M) with (colstart out). change (ci M) with (map Some (rowindex out)). change (cx M) with (map Some (values out)). rewrite !map_length. split; [auto|]. split; [auto|]. split; [auto|]. split; [auto|]. intros k HK. rewrite CK by auto.
      destruct (I5 k HK) as (J1 & J2 & J3). split; auto. split.
      + unfold slice. rewrite firstn_length, skipn_length, combine_length. pose proof (MONO (S k) K ltac:(lia) ltac:(lia)). rewrite I3 in H. lia.
      + split; auto. apply Forall_forall. intros rho HI. apply in_map_iff in HI. destruct HI as ([rho' v] & <- & HI). apply J3 in HI. destruct HI as (r & b & i & (Hr & _) & Hi & -> & _). cbn [fst]. unfold K. nia.
    - intros i j Hi Hj. unfold entry. rewrite CK by auto. destruct (I5 j Hj) as (_ & J2 & J3). unfold blocks.
      assert (RI : i / bs < N) by (apply Nat.div_lt_upper_bound; [auto|rewrite Nat.mul_comm; exact Hi]). pose proof (Nat.div_mod_eq i bs) as DI. pose proof (Nat.mod_upper_bound i bs Hb') as MI.
      destruct (find (fun e => fst e =? j / bs) (nth (i / bs) A nil)) as [[y' b]|] eqn:FE.
      + apply find_some in FE. destruct FE as [FI FQ]. cbn in FQ. apply Nat.eqb_eq in FQ. subst y'.
        apply denrow_in; [apply ssorted_NoDup; auto|]. apply J3. exists (i / bs), b, (i mod bs). split; [auto|]. split; [auto|]. split; [lia|auto].
      + apply denrow_notin. intros HI. apply in_map_iff in HI. destruct HI as ([rho v] & Q & HI). cbn in Q. subst rho. apply J3 in HI. destruct HI as (r & b & i' & (Hr & ST) & Hi' & Q & _).
        assert (r = i / bs) by (rewrite Q; symmetry; rewrite Nat.add_comm, Nat.div_add by auto; rewrite Nat.div_small by auto; lia). subst r.
        pose proof (find_none _ _ FE _ ST) as FN. cbn [fst] in FN. rewrite Nat.eqb_refl in FN. discriminate.
  Qed.
  (** ** Solving *)
  Lemma first_length n l : length (first n l) = n.
  Proof. unfold first. now rewrite map_length, seq_length. Qed.
  Lemma first_get n l i : i < n -> vget (first n l) i = vget l i.
  Proof.
    intros H. unfold vget at 1, first. rewrite (nth_indep _ r0 (vget l 0)) by (rewrite map_length, seq_length; auto). rewrite map_nth, seq_nth by auto. reflexivity.
  Qed.
  Lemma sum_permuted k p (g : nat -> R) : Permutation p (seq 0 k) -> sum k g = sum k (fun i => g (nth i p 0)).
  Proof.
    intros HP. assert (LP : length p = k) by (rewrite (Permutation_length HP); apply seq_length). rewrite <- !lsum_seq. rewrite <- (map_map (fun i => nth i p 0) g).
    replace (map (fun i => nth i p 0) (seq 0 k)) with p; [symmetry; apply lsum_perm, Permutation_map; auto|].
    apply (nth_ext _ _ 0 0); [now rewrite map_length, seq_length|]. intros i Hi. rewrite (nth_indep (map _ _) 0 (nth 0 p 0)) by (rewrite map_length, seq_length; lia). rewrite (map_nth (fun i => nth i p 0)), seq_nth by lia. reflexivity.
  Qed.
  Lemma five_calls k A f b : factorisation k A f -> length b = k ->
    solution k A (first k (ldl_permt lib f (first k (ldl_ltsolve lib f (first k (ldl_dsolve lib f (first k (ldl_lsolve lib f (first k (ldl_perm lib f b)))))))))) b.
  Proof.
    intros (p & L & d & HP & HA & H1 & H2 & H3 & H4 & H5) LB. assert (LP : length p = k) by (rewrite (Permutation_length HP); apply seq_length).
    set (y1 := first k (ldl_perm lib f b)). set (y2 := first k (ldl_lsolve lib f y1)). set (y3 := first k (ldl_dsolve lib f y2)). set (y4 := first k (ldl_ltsolve lib f y3)). set (x := first k _).
    assert (RG : forall i, i < k -> nth i p 0 < k). { intros i Hi. assert (I : In (nth i p 0) (seq 0 k)) by (apply (Permutation_in _ HP), nth_In; lia). apply in_seq in I. lia. }
    intros i Hi. assert (exists i', i' < k /\ nth i' p 0 = i) as (i' & Hi' & <-).
    { assert (I : In i p) by (apply (Permutation_in _ (Permutation_sym HP)), in_seq; lia). apply (In_nth _ _ 0) in I. destruct I as (i' & X & Y'). exists i'. split; [lia|auto]. }
    rewrite (sum_permuted k p) by auto. transitivity (sum k (fun l => rmul (L i' l) (vget y2 l))).
    - transitivity (sum k (fun j => sum k (fun l => rmul (rmul (L i' l) (rmul (d l) (L j l))) (vget y4 j)))).
      + apply sum_ext. intros j Hj. rewrite HA by auto. rewrite sum_mul_r. f_equal. unfold x. rewrite first_get by auto. rewrite H5 by (auto; apply first_length). reflexivity.
      + rewrite sum_swap. apply sum_ext. intros l Hl. rewrite <- (H3 y2 (first_length _ _) l Hl). unfold y3 in y4. fold y3 in y4.
        transitivity (rmul (L i' l) (rmul (d l) (vget y3 l))); [|unfold y3; rewrite first_get by auto; reflexivity]. rewrite <- (H4 y3 (first_length _ _) l Hl). rewrite <- !sum_mul_l. apply sum_ext. intros j Hj. unfold y4. rewrite first_get by auto. now rewrite !rmul_assoc.
    - transitivity (vget y1 i'); [|unfold y1; rewrite first_get by auto; apply H1; auto]. rewrite <- (H2 y1 (first_length _ _) i' Hi'). apply sum_ext. intros l Hl. unfold y2. now rewrite first_get.
  Qed.
  (** ** Histories *)
  Definition permanent (a : arr) : bool := match a with Parent | Lnz | Flag | Pattern => false | _ => true end.
  Definition holds (v : view) (leaks : nat) (st : state) : Prop :=
    lost st = leaks /\ loaded st = false /\
    match v with
    | Nothing => mN st = 0 /\ mM st = 0 /\ mNnz st = 0 /\ (arrays st = Null \/ arrays st = Dangling) /\ forall a, mem st a = Uninit \/ mem st a = Dangling
    | Hollow => mN st = 0 /\ mM st = 0 /\ mNnz st = 0 /\ (exists c, arrays st = Live c) /\ (forall a, mem st a = if permanent a then Live tt else Dangling) /\ fac st <> None
    | System k B => 0 < k /\ mN st = k /\ mM st = k /\ (forall a, mem st a = if permanent a then Live tt else Dangling) /\
        exists c, arrays st = Live c /\ ulegal c /\ cN c = k /\ (forall i j, i < k -> j < k -> entry c i j = B i j) /\ fac st = Some (fst (numeric lib c))
    end.
  Lemma free_ok v leaks st : holds v leaks st -> v <> Nothing -> exists st', free st = Ok st' /\ holds Nothing leaks st'.
  Proof.
    destruct st as [N M nz a l p f lo]. intros (L & LO & H) NV. cbn in L, LO. subst lo l. unfold free, bccs_free.
    assert (HM : (forall a, p a = if permanent a then Live tt else Dangling) /\ exists c, a = Live c). { destruct v as [| |k B]; [congruence| |]; cbn in H; [tauto|]. destruct H as (_ & _ & _ & HM & c & H & _). eauto. }
    destruct HM as (HM & c & ->). cbn [mN mM mNnz arrays loaded mem fac lost deletes]. unfold set. cbn [arr_eqb]. repeat (rewrite HM; cbn [permanent delete obind]). cbn [delete obind mN mM mNnz arrays loaded mem fac lost].
    eexists. split; [reflexivity|]. split; [reflexivity|]. split; [reflexivity|]. cbn. repeat split; auto. intros []; cbn; rewrite ?HM; auto.
  Qed.
  Lemma release_ok v leaks st : holds v leaks st -> exists st', release st = Ok st' /\ holds (match v with Hollow => Hollow | _ => Nothing end) leaks st'.
  Proof.
    intros H. unfold release. destruct v as [| |k B].
    - exists st. pose proof H as (_ & -> & -> & -> & _). cbn. auto.
    - exists st. pose proof H as (_ & -> & -> & -> & _). cbn. auto.
    - pose proof H as (_ & -> & K & -> & -> & _). replace (0 <? k + k) with true by (symmetry; apply Nat.ltb_lt; lia). cbn [orb]. apply (free_ok (System k B)); auto. discriminate.
  Qed.
  Definition held (v : view) : nat := match v with Hollow => 10 | _ => 0 end.
  Lemma holds_empty v leaks st : holds v leaks st -> v = Nothing \/ v = Hollow -> bccs_release st = Ok st /\ 3 * live (arrays st) + alive (mem st) = held v.
  Proof.
    intros (_ & _ & H) [-> | ->]; unfold bccs_release.
    - destruct H as (-> & -> & -> & A & HM). split; auto. unfold alive. cbn [map everyone held]. assert (Z : forall a, live (mem st a) = 0) by (intros a; destruct (HM a) as [-> | ->]; auto). rewrite !Z. destruct A as [-> | ->]; auto.
    - destruct H as (-> & -> & -> & (c & ->) & HM & _). split; auto. unfold alive. cbn [map everyone]. rewrite !HM. reflexivity.
  Qed.
  (** after the release of the previous matrix: install and decompose *)
  Lemma decompose_ok st v leaks k B out : orders -> holds v leaks st -> v = Nothing \/ v = Hollow ->
    let M := Csc k (colstart out) (map Some (rowindex out)) (map Some (values out)) in
    ulegal M -> length (values out) = length (ci M) -> (forall i j, i < k -> j < k -> entry M i j = B i j) ->
    exists st', decompose (install st k k out) = Ok (st', negb (snd (numeric lib M))) /\ holds (system k B) (leaks + held v) st'.
  Proof.
    intros OR H V M LG LV EN. destruct (holds_empty _ _ _ H V) as [_ LIVE]. destruct st as [N0 M0 nz a l p f lo]. pose proof H as (L & LO & HH). cbn in L, LO, LIVE. subst lo l.
    unfold decompose, install. cbn [mN mM mNnz arrays loaded mem fac lost news cp ci cx]. rewrite Nat.ltb_irrefl. change (Csc k (colstart out) (map Some (rowindex out)) (map Some (values out))) with M. rewrite (OR M LG). cbn [negb]. destruct (numeric lib M) as [f' comp] eqn:NE.
    unfold deletes, set. cbn [arr_eqb delete obind fst snd]. eexists. split; [reflexivity|].
    assert (LOST : leaks + 3 * live a + live (p D) + live (p Y) + live (p Lp) + live (p Parent) + live (p Lnz) + live (p Flag) + live (p Pattern) + live (p P) + live (p Pinv) + live (p Lx) + live (p Li) = leaks + held v).
    { rewrite <- LIVE. unfold alive. cbn [map everyone list_sum fold_right]. lia. }
    unfold holds. cbn [mN mM mNnz arrays loaded mem fac lost]. split; [lia|]. split; [reflexivity|].
    assert (NZ : k = 0 -> length (values out) = 0). { intros ->. destruct LG as (LC & Z0 & ZN & _). change (cN M) with 0 in *. rewrite LV. lia. }
    destruct k as [|k]; cbn [system].
    - rewrite NZ by auto. repeat split; auto; [eauto|intros []; reflexivity|discriminate].
    - split; [lia|]. split; [auto|]. split; [auto|]. split; [intros []; reflexivity|]. exists M. rewrite NE. auto.
  Qed.
  Lemma apply_ok v leaks st x b : holds v leaks st -> (match v with Nothing => False | Hollow => 0 < length x /\ 0 < length b | System k _ => k <= length x /\ k <= length b end) -> forall res,
    exists x', apply st x b res = Ok (x', (1, true)) /\ skipn (mN st) x' = skipn (mN st) x /\ length x' = length x /\
    match v with System k B => symmetric k B -> sound -> factorises k B true -> solution k B (firstn k x') (firstn k b) | _ => x' = x end.
  Proof.
    intros (_ & _ & H) W res. unfold apply, applyArrays. destruct v as [| |k B]; [destruct W| |].
    - destruct H as (N & _ & _ & _ & HM & HF). destruct b as [|b0 b]; [cbn in W; lia|]. destruct x as [|x0 x]; [cbn in W; lia|]. rewrite N, !HM. destruct (fac st); [|congruence]. cbn [permanent length Nat.ltb Nat.leb first seq map app skipn obind]. eexists. split; [reflexivity|]. auto.
    - destruct H as (K & N & _ & HM & c & _ & LG & NC & EN & HF). destruct W as [WX WB]. destruct b as [|b0 b]; [cbn in WB; lia|]. destruct x as [|x0 x]; [cbn in WX; lia|].
      rewrite N, HF, !HM. cbn [permanent]. replace (length (b0 :: b) <? k) with false by (symmetry; apply Nat.ltb_ge; auto). replace (length (x0 :: x) <? k) with false by (symmetry; apply Nat.ltb_ge; auto). cbn [obind]. set (f := fst (numeric lib c)).
      set (y := first k _). assert (LY : length y = k) by apply first_length. eexists. split; [reflexivity|]. split; [rewrite skipn_app, skipn_all2 by lia; rewrite LY, Nat.sub_diag; reflexivity|]. split; [rewrite app_length, skipn_length; lia|].
      intros SY SO FA. assert (FC : numeric lib c = (f, true)) by (unfold f; rewrite <- (FA c LG NC EN); now destruct (numeric lib c)).
      assert (SC : symmetric (cN c) (entry c)) by (intros i j Hi Hj; rewrite NC in *; rewrite !EN by auto; auto). pose proof (SO c f LG SC FC) as FZ. rewrite NC in FZ.
      rewrite firstn_app, firstn_all2 by lia. rewrite LY, Nat.sub_diag. cbn [firstn]. rewrite app_nil_r.
      assert (LB : length (firstn k (b0 :: b)) = k) by (apply firstn_length_le; auto). pose proof (five_calls k (entry c) f _ FZ LB) as S1. fold y in S1. intros i Hi. rewrite <- (S1 i Hi). apply sum_ext. intros j Hj. now rewrite EN.
  Qed.
  Lemma do_ok v leaks st c v' l : orders -> holds v leaks st -> wf_call c -> track v c = Some (v', l) -> exists st' thrown, do st c = Ok (st', thrown) /\ holds v' (leaks + l) st' /\
    match c with CSet _ _ _ | CSub _ _ _ _ => forall b, match v' with System k B => factorises k B b | _ => False end -> thrown = negb b | _ => thrown = false end.
  Proof.
    intros OR H W T. destruct c as [bs N A|bs N A S0|x b|]; cbn [track do] in *.
    - injection T as <- <-. destruct W as [Hb WF]. destruct (release_ok v leaks st H) as (st1 & E1 & H1). unfold setMatrix. rewrite E1. cbn [obind].
      assert (V : match v with Hollow => Hollow | _ => Nothing end = Nothing \/ match v with Hollow => Hollow | _ => Nothing end = Hollow) by (destruct v; auto).
      destruct (holds_empty _ _ _ H1 V) as [E2 _]. rewrite E2. cbn [obind]. destruct (C78_matrix bs N A Hb WF) as (out & E3 & LG & LV & EN). rewrite E3. cbn [obind]. rewrite (proj1 WF).
      destruct (decompose_ok st1 _ leaks (N * bs) (blocks bs A) out OR H1 V LG LV EN) as (st' & E4 & H4). exists st'. eexists. split; [exact E4|]. split; [destruct v; exact H4|].
      intros b0. destruct (N * bs) as [|k] eqn:K; [intros []|]. cbn [system]. intros FA. f_equal. apply FA; auto.
    - injection T as <- <-. destruct W as (Hb & HN & WF & HS & HF). destruct (release_ok v leaks st H) as (st1 & E1 & H1). unfold setSubMatrix. rewrite E1. cbn [obind].
      assert (V : match v with Hollow => Hollow | _ => Nothing end = Nothing \/ match v with Hollow => Hollow | _ => Nothing end = Hollow) by (destruct v; auto).
      destruct (holds_empty _ _ _ H1 V) as [E2 _]. rewrite E2. cbn [obind]. rewrite (proj1 WF). replace (N =? 0) with false by (symmetry; apply Nat.eqb_neq; lia). cbn [orb].
      replace (length S0 * (N * bs) / N) with (length S0 * bs) by (replace (length S0 * (N * bs)) with (length S0 * bs * N) by ring; now rewrite Nat.div_mul by lia).
      destruct (copySubset_entry bs N A S0 Hb WF HS HF) as (out & E3 & LG & LV & EN). rewrite E3. cbn [obind].
      destruct (decompose_ok st1 _ leaks (length S0 * bs) (subblocks bs A S0) out OR H1 V LG LV EN) as (st' & E4 & H4). exists st'. eexists. split; [exact E4|]. split; [destruct v; exact H4|].
      intros b0. destruct (length S0 * bs) as [|k] eqn:K; [intros []|]. cbn [system]. intros FA. f_equal. apply FA; auto.
    - assert (V' : v' = v /\ l = 0 /\ match v with Nothing => False | Hollow => 0 < length x /\ 0 < length b | System k _ => k <= length x /\ k <= length b end).
      { destruct v as [| |k B]; [discriminate| |].
        - destruct (Nat.ltb_spec 0 (length x)); [|discriminate]. destruct (Nat.ltb_spec 0 (length b)); [|discriminate]. injection T as <- <-. auto.
        - destruct (Nat.leb_spec k (length x)); [|discriminate]. destruct (Nat.leb_spec k (length b)); [|discriminate]. injection T as <- <-. auto. }
      destruct V' as (-> & -> & V'). destruct (apply_ok v leaks st x b H V' (0, false)) as (x' & E & _). rewrite E. cbn [obind]. exists st, false. rewrite Nat.add_0_r. auto.
    - destruct v as [| |k B]; [discriminate| |]; injection T as <- <-; destruct (free_ok _ _ _ H ltac:(discriminate)) as (st' & E & H'); rewrite E; cbn [obind]; exists st', false; rewrite Nat.add_0_r; auto.
  Qed.
  Lemma run_ok : orders -> forall cs v leaks st v' leaks', holds v leaks st -> Forall wf_call cs -> tracks v cs leaks = Some (v', leaks') -> exists st', run st cs = Ok st' /\ holds v' leaks' st'.
  Proof.
    intros OR. induction cs as [|c cs IH]; intros v leaks st v' leaks' H W T; cbn [tracks run] in *.
    - injection T as <- <-. eauto.
    - apply Forall_cons_iff in W. destruct W as [W1 W2]. destruct (track v c) as [[v1 l1]|] eqn:T1; [|discriminate]. destruct (do_ok _ _ _ _ _ _ OR H W1 T1) as (st1 & th & E1 & H1 & _). rewrite E1. cbn [obind fst]. eapply IH; eauto.
  Qed.
  Lemma init_holds : holds Nothing 0 init.
  Proof. repeat split; cbn; auto. Qed.
  Lemma destroy_ok v leaks st : holds v leaks st -> destroy st = Ok (leaks + held v).
  Proof.
    intros H. unfold destroy, drop. destruct (release_ok v leaks st H) as (st1 & E1 & H1). rewrite E1. cbn [obind]. destruct (holds_empty _ _ _ H1) as [E2 L2]; [destruct v; auto|]. rewrite E2. cbn [obind]. rewrite (proj1 H1). f_equal. rewrite <- Nat.add_assoc, L2. destruct v; auto.
  Qed.
  (** what apply does when the solver holds v *)
  Definition applies (v : view) (st : state) : Prop :=
    match v with
    | Nothing => forall x b res, apply st x b res = UB
    | Hollow => forall x b res, x <> nil -> b <> nil -> apply st x b res = Ok (x, (1, true))
    | System k B => forall x b res, symmetric k B -> sound -> factorises k B true -> length x = k -> length b = k ->
        exists x', apply st x b res = Ok (x', (1, true)) /\ applyArrays st x b = Ok x' /\ length x' = k /\ solution k B x' b
    end.
  Lemma holds_applies v leaks st : holds v leaks st -> applies v st.
  Proof.
    intros H. destruct v as [| |k B]; cbn [applies]; intros x b res.
    - destruct H as (_ & _ & _ & _ & _ & _ & HM). unfold apply, applyArrays. destruct b; auto. destruct x; auto. destruct (fac st); auto. destruct (HM Y) as [-> | ->]; auto.
    - intros NX NB. destruct (apply_ok Hollow leaks st x b H ltac:(destruct x, b; try congruence; cbn; lia) res) as (x' & E & _ & _ & ->). auto.
    - intros SY SO FA LX LB. destruct (apply_ok (System k B) leaks st x b H ltac:(cbn; lia) res) as (x' & E & _ & LX' & SL). exists x'. split; [auto|]. split.
      + unfold apply in E. destruct b; [discriminate|]. destruct x; [discriminate|]. destruct (applyArrays st (c0 :: x) (c :: b)); try discriminate. cbn [obind] in E. congruence.
      + split; [congruence|]. specialize (SL SY SO FA). rewrite !firstn_all2 in SL by lia. auto.
  Qed.
  (** every history of legal calls, starting from a default constructed solver: no undefined behaviour, apply solves with the matrix given last if it is symmetric and LDL factorises it,
      everything is released but the arrays of empty systems *)
  Theorem C78_history cs v leaks : orders -> Forall wf_call cs -> tracks Nothing cs 0 = Some (v, leaks) ->
    exists st, run init cs = Ok st /\ applies v st /\ destroy st = Ok (leaks + held v).
  Proof.
    intros OR W T. destruct (run_ok OR cs Nothing 0 init v leaks init_holds W T) as (st & E & H). exists st. split; auto. split; [eapply holds_applies; eauto|eapply destroy_ok; eauto].
  Qed.
  (** setting a matrix throws if and only if the factorisation stops early; the constructors do the same *)
  Theorem C78_throws cs v leaks c k B l complete : orders -> Forall wf_call cs -> tracks Nothing cs 0 = Some (v, leaks) -> wf_call c -> (forall x b, c <> CApply x b) -> track v c = Some (System k B, l) -> factorises k B complete ->
    exists st st', run init cs = Ok st /\ do st c = Ok (st', negb complete) /\ run init (cs ++ [c]) = Ok st'.
  Proof.
    intros OR W T W1 NA T1 FA. destruct (run_ok OR cs Nothing 0 init v leaks init_holds W T) as (st & E & H). destruct (do_ok _ _ _ _ _ _ OR H W1 T1) as (st' & th & E1 & _ & TH). exists st, st'. split; auto.
    assert (RA : forall cs0 st0, run st0 (cs0 ++ [c]) = obind (run st0 cs0) (fun st => obind (do st c) (fun x => Ok (fst x)))). { induction cs0 as [|c0 cs0 IHc]; intros st0; cbn [app run obind]; auto. destruct (do st0 c0); cbn [obind]; auto. }
    destruct c as [bs N A|bs N A S0|x b|].
    - rewrite (TH complete FA) in E1. split; auto. rewrite RA, E. cbn [obind]. now rewrite E1.
    - rewrite (TH complete FA) in E1. split; auto. rewrite RA, E. cbn [obind]. now rewrite E1.
    - now elim (NA x b).
    - cbn [track] in T1. destruct v; discriminate.
  Qed.
  Theorem C78_construct bs N (A : @bmat R) : orders -> 0 < bs -> bmat_wf N N A -> 0 < N ->
    (factorises (N * bs) (blocks bs A) true -> exists st, construct bs bs N A = Ok (Built st) /\ run init [CSet bs N A] = Ok st) /\
    (factorises (N * bs) (blocks bs A) false -> construct bs bs N A = Ok (Failed 7)).
  Proof.
    intros OR Hb WF HN. assert (T : track Nothing (CSet bs N A) = Some (System (N * bs) (blocks bs A), 0)). { cbn [track]. destruct (N * bs) eqn:K; [nia|]. reflexivity. }
    destruct (do_ok _ _ _ (CSet bs N A) _ _ OR init_holds ltac:(cbn; auto) T) as (st' & th & E1 & H & TH). cbn [do] in E1. unfold construct. cbn [run do]. rewrite E1. cbn [obind fst snd]. split; intros FA; rewrite (TH _ FA); cbn [negb]; [eauto|].
    destruct H as (L & _ & K & HN' & HM' & HM & c & AR & _). unfold drop, bccs_release, bccs_free. rewrite HN', HM'. destruct (N * bs); [lia|]. cbn [Nat.add Nat.eqb]. rewrite AR. cbn [delete obind lost arrays mem live]. unfold alive. cbn [map everyone]. rewrite !HM, L. reflexivity.
  Qed.
  (** Deviation: after a factorisation that stopped early, which throws, the solver still solves: apply uses the incomplete factors, reports convergence, and nothing is rejected *)
  Theorem C78_failure_refuted cs k B leaks : orders -> Forall wf_call cs -> tracks Nothing cs 0 = Some (System k B, leaks) -> factorises k B false ->
    exists st, run init cs = Ok st /\ forall x b res, length x = k -> length b = k -> exists x', apply st x b res = Ok (x', (1, true)).
  Proof.
    intros OR W T FA. destruct (run_ok OR cs Nothing 0 init _ leaks init_holds W T) as (st & E & H). exists st. split; auto. intros x b res LX LB. destruct (apply_ok (System k B) leaks st x b H ltac:(cbn; lia) res) as (x' & E' & _). eauto.
  Qed.
  (** Deviation: when AMD fails (it runs out of memory), setting a matrix throws and leaves an object that can be neither destroyed, nor freed, nor given another matrix; the constructors leak nine arrays *)
  Theorem C78_ordering_refuted bs N (A : @bmat R) : 0 < bs -> 0 < N -> bmat_wf N N A -> (forall M, ulegal M -> cN M = N * bs -> amd lib M = false) ->
    exists st, setMatrix init bs bs N A = Ok (st, true) /\ destroy st = UB /\ free st = UB /\ (forall bn bm M A', setMatrix st bn bm M A' = UB) /\ (forall bn bm M A' S0, setSubMatrix st bn bm M A' S0 = UB) /\ construct bs bs N A = Ok (Failed 9).
  Proof.
    intros Hb HN WF NA. destruct (C78_matrix bs N A Hb WF) as (out & E & LG & LV & EN).
    set (p := fst (news [D; Y; Lp; Parent; Lnz; Flag; Pattern; P; Pinv] (fun _ => Uninit) 0)).
    set (st := St (N * bs) (N * bs) (length (values out)) (Live (Csc (N * bs) (colstart out) (map Some (rowindex out)) (map Some (values out)))) false p None 0).
    assert (E0 : setMatrix init bs bs N A = Ok (st, true)).
    { unfold setMatrix. cbn [release init mN mM mNnz loaded Nat.add Nat.ltb Nat.leb orb obind bccs_release Nat.eqb]. unfold release, bccs_release. cbn [init mN mM mNnz loaded Nat.add Nat.ltb Nat.leb orb obind Nat.eqb]. rewrite E. cbn [obind].
      unfold install. rewrite (proj1 WF). unfold decompose. cbn [arrays mM mN mNnz mem lost loaded fac init cp ci cx]. rewrite Nat.ltb_irrefl. rewrite (NA _ LG eq_refl). reflexivity. }
    exists st. split; [exact E0|].
    assert (FR : free st = UB) by reflexivity. assert (RL : release st = UB). { unfold release. change (mN st + mM st) with (N * bs + N * bs). replace (0 <? N * bs + N * bs) with true by (symmetry; apply Nat.ltb_lt; nia). exact FR. }
    split; [unfold destroy; now rewrite RL|]. split; [auto|]. split; [intros; unfold setMatrix; now rewrite RL|]. split; [intros; unfold setSubMatrix; now rewrite RL|].
    unfold construct. rewrite E0. cbn [obind fst snd].
    unfold drop, bccs_release. change (mN st + mM st) with (N * bs + N * bs). replace (N * bs + N * bs + mNnz st =? 0) with false by (symmetry; apply Nat.eqb_neq; nia). reflexivity.
  Qed.
  (** Deviation: the sizes of the vectors are not looked at.  Longer vectors are solved for their first entries only, shorter ones are read and written past their end *)
  Theorem C78_sizes_refuted cs k B leaks : orders -> Forall wf_call cs -> tracks Nothing cs 0 = Some (System k B, leaks) ->
    exists st, run init cs = Ok st /\ forall x b res,
      (k <= length x -> k <= length b -> exists x', apply st x b res = Ok (x', (1, true)) /\ skipn k x' = skipn k x /\ (symmetric k B -> sound -> factorises k B true -> solution k B (firstn k x') (firstn k b))) /\
      (length x < k \/ length b < k -> apply st x b res = UB /\ applyArrays st x b = UB).
  Proof.
    intros OR W T. destruct (run_ok OR cs Nothing 0 init _ leaks init_holds W T) as (st & E & H). exists st. split; auto. intros x b res. split.
    - intros LX LB. destruct (apply_ok (System k B) leaks st x b H ltac:(cbn; lia) res) as (x' & E' & SK & _ & SL). exists x'. destruct H as (_ & _ & _ & HN & _). rewrite HN in SK. auto.
    - intros SH. assert (U : applyArrays st x b = UB).
      { destruct H as (_ & _ & K & HN & _ & HM & c & _ & _ & _ & _ & HF). unfold applyArrays. rewrite HF, !HM, HN. cbn [permanent]. destruct (Nat.ltb_spec (length b) k); auto. destruct (Nat.ltb_spec (length x) k); auto. lia. }
      split; auto. unfold apply. rewrite U. destruct b; auto. destruct x; auto.
  Qed.
  (** Deviation: solving before a matrix is set (or after free()), and freeing a solver that holds nothing, are not rejected but undefined *)
  Theorem C78_empty_refuted : (forall x b res, apply init x b res = UB) /\ free init = UB /\
    forall cs k B leaks, orders -> Forall wf_call cs -> tracks Nothing cs 0 = Some (System k B, leaks) -> exists st st', run init cs = Ok st /\ free st = Ok st' /\ free st' = UB /\ forall x b res, apply st' x b res = UB.
  Proof.
    split; [intros; unfold apply; destruct b; auto; destruct x; auto|]. split; [reflexivity|]. intros cs k B leaks OR W T. destruct (run_ok OR cs Nothing 0 init _ leaks init_holds W T) as (st & E & H).
    destruct (free_ok _ _ _ H ltac:(discriminate)) as (st' & E' & H'). exists st, st'. split; auto. split; auto. split; [|apply (holds_applies Nothing leaks st' H')]. destruct H' as (_ & _ & _ & _ & _ & _ & HM). unfold free. cbn [deletes]. destruct (HM D) as [-> | ->]; auto.
  Qed.
  (** Deviation: the arrays allocated for an empty matrix or for an empty index set are never released *)
  Theorem C78_hollow_leak_refuted : orders -> (exists st, run init [CSet 1 0 nil] = Ok st /\ destroy st = Ok 10) /\
    forall bs N A, wf_call (CSub bs N A nil) -> exists st, run init [CSub bs N A nil] = Ok st /\ destroy st = Ok 10.
  Proof.
    intros OR. split.
    - destruct (C78_history [CSet 1 0 nil] Hollow 0 OR) as (st & E & _ & DS); [repeat constructor|reflexivity|eauto].
    - intros bs N A W. destruct (C78_history [CSub bs N A nil] Hollow 0 OR) as (st & E & _ & DS); [constructor; auto|reflexivity|eauto].
  Qed.
End Ldl.
Arguments amd {R F}. Arguments numeric {R F}. Arguments Lib {R F}.
Arguments ldl_perm {R F}. Arguments ldl_lsolve {R F}. Arguments ldl_dsolve {R F}. Arguments ldl_ltsolve {R F}. Arguments ldl_permt {R F}.

From Coq Require Import ZArith.
From Verif Require Import RingInst.
(** ** Examples *)
Section LExamples.
  Local Open Scope Z_scope.
  (** a library that factorises [[d, c], [c, 1]] with d - c * c = 1 or -1: it exchanges the two rows, L = [[1, 0], [c, 1]] and D = (1, d - c * c) *)
  Let lib2 : library (Z * Z) :=
    Lib (R := Zring) (F := Z * Z) (fun _ => true)
      (fun M => let m := @entry Zring M in let c := m 1%nat 0%nat in let e := m 0%nat 0%nat - c * c in if (cN M =? 2)%nat && (m 1%nat 1%nat =? 1) && (e * e =? 1) then ((c, e), true) else ((0, 0), false))
      (fun f b => [nth 1 b 0; nth 0 b 0]) (fun f y => [nth 0 y 0; nth 1 y 0 - fst f * nth 0 y 0]) (fun f y => [nth 0 y 0; snd f * nth 1 y 0]) (fun f y => [nth 0 y 0 - fst f * nth 1 y 0; nth 1 y 0]) (fun f y => [nth 1 y 0; nth 0 y 0]).
  Lemma lib2_orders : orders lib2.
  Proof. intros M _. reflexivity. Qed.
  Lemma lib2_sound : sound lib2.
  Proof.
    intros M f LG SY NU. cbn [numeric lib2] in NU. destruct (Nat.eqb_spec (cN M) 2) as [NC|]; [|discriminate]. cbn [andb] in NU. destruct (Z.eqb_spec (@entry Zring M 1 1) 1) as [D1|]; [|discriminate]. cbn [andb] in NU.
    destruct (Z.eqb_spec ((@entry Zring M 0 0 - @entry Zring M 1 0 * @entry Zring M 1 0) * (@entry Zring M 0 0 - @entry Zring M 1 0 * @entry Zring M 1 0)) 1) as [DE|]; [|discriminate]. injection NU as <-.
    rewrite NC in *. pose proof (SY 0 1 ltac:(lia) ltac:(lia))%nat as S01. clear SY LG NC. generalize dependent (@entry Zring M). intros m. intros D1 DE S01. change (nat -> nat -> Z) in (type of m). set (c := m 1%nat 0%nat) in *. set (e := m 0%nat 0%nat - c * c) in *.
    exists [1; 0]%nat, (fun i j => if (i =? j)%nat then 1 else if (j <? i)%nat then c else 0), (fun i => if (i =? 0)%nat then 1 else e).
    split; [constructor|]. repeat split.
    - intros [|[|i]] [|[|j]] Hi Hj; try lia; cbn [nth sum Nat.eqb Nat.ltb Nat.leb]; rewrite ?S01, ?D1; change (@radd Zring) with Z.add; change (@rmul Zring) with Z.mul; change (@r0 Zring) with 0; fold c; match goal with |- @eq _ ?a ?b => change (@eq Z a b) end; try ring.
      all: unfold e; match goal with |- @eq _ ?a ?b => change (@eq Z a b) end; ring.
    - intros b LB [|[|i]] Hi; try lia; reflexivity.
    - intros b LB [|[|i]] Hi; try lia; cbn [nth sum Nat.eqb Nat.ltb Nat.leb ldl_lsolve lib2 vget fst snd]; unfold vget; cbn [nth]; change (@radd Zring) with Z.add; change (@rmul Zring) with Z.mul; change (@r0 Zring) with 0; match goal with |- @eq _ ?a ?b => change (@eq Z a b) end; ring.
    - intros b LB [|[|i]] Hi; try lia; cbn [nth sum Nat.eqb Nat.ltb Nat.leb ldl_dsolve lib2 vget fst snd]; unfold vget; cbn [nth]; change (@radd Zring) with Z.add; change (@rmul Zring) with Z.mul; change (@r0 Zring) with 0; match goal with |- @eq _ ?a ?b => change (@eq Z a b) end; [ring|].
      transitivity (e * e * nth 1 b 0); [ring|rewrite DE; ring].
    - intros b LB [|[|i]] Hi; try lia; cbn [nth sum Nat.eqb Nat.ltb Nat.leb ldl_ltsolve lib2 vget fst snd]; unfold vget; cbn [nth]; change (@radd Zring) with Z.add; change (@rmul Zring) with Z.mul; change (@r0 Zring) with 0; match goal with |- @eq _ ?a ?b => change (@eq Z a b) end; ring.
    - intros b LB [|[|i]] Hi; try lia; reflexivity.
  Qed.
  Let A2 : @bmat Zring := [[(0%nat, fun _ _ => 5); (1%nat, fun _ _ => 2)]; [(0%nat, fun _ _ => 2); (1%nat, fun _ _ => 1)]].
  Lemma A2_wf : bmat_wf 2 2 A2.
  Proof. split; [reflexivity|]. repeat constructor. Qed.
  Lemma A2_factorises : symmetric (R := Zring) 2 (blocks (R := Zring) 1 A2) /\ factorises lib2 2 (blocks (R := Zring) 1 A2) true.
  Proof.
    split; [intros [|[|i]] [|[|j]] Hi Hj; try lia; reflexivity|]. intros M LG NC EN. cbn [numeric lib2]. rewrite NC, !EN by lia. reflexivity.
  Qed.
  (** a history with every kind of call: an empty matrix (ten arrays leaked), a 2 x 2 matrix, a solve, one of its rows (the factorisation fails), free, the matrix again *)
  Let history : list (@call Zring) := [CSet (R := Zring) 1 0 nil; CSet (R := Zring) 1 2 A2; CApply (R := Zring) [7; 7] [9; 4]; CSub (R := Zring) 1 2 A2 [1]%nat; CFree (R := Zring); CSet (R := Zring) 1 2 A2].
  Example C78_history_nonvacuous : orders lib2 /\ sound lib2 /\ Forall wf_call history /\ (exists B, tracks (R := Zring) Nothing history 0 = Some (System 2 B, 10%nat) /\ symmetric (R := Zring) 2 B /\ factorises lib2 2 B true) /\
    exists st, run lib2 (@init Zring (Z * Z)) history = Ok st /\ apply lib2 st [7; 7] [9; 4] (0%nat, false) = Ok ([1; 2], (1%nat, true)) /\ apply lib2 st [7; 7; 8] [9; 4; 5] (0%nat, false) = Ok ([1; 2; 8], (1%nat, true)) /\ destroy st = Ok 10%nat.
  Proof.
    split; [exact lib2_orders|]. split; [exact lib2_sound|]. split.
    { constructor; [repeat constructor|]. constructor; [split; [lia|exact A2_wf]|]. constructor; [exact Logic.I|]. constructor; [cbn [wf_call]; split; [lia|]; split; [lia|]; split; [exact A2_wf|]; repeat constructor|].
      constructor; [exact Logic.I|]. constructor; [split; [lia|exact A2_wf]|constructor]. }
    split; [eexists; split; [reflexivity|]; exact A2_factorises|].
    assert (E : obind (run lib2 (@init Zring (Z * Z)) history) (fun st => obind (apply lib2 st [7; 7] [9; 4] (0%nat, false)) (fun x => obind (apply lib2 st [7; 7; 8] [9; 4; 5] (0%nat, false)) (fun y => obind (destroy st) (fun n => Ok (x, y, n))))) = Ok ([1; 2], (1%nat, true), ([1; 2; 8], (1%nat, true)), 10%nat)).
    { match goal with |- _ = ?r => vm_cast_no_check (eq_refl r) end. }
    apply obind_Ok in E. destruct E as (st & E0 & E). apply obind_Ok in E. destruct E as (x & E1 & E). apply obind_Ok in E. destruct E as (y & E2 & E). apply obind_Ok in E. destruct E as (n & E3 & E). injection E as -> -> ->. exists st. auto.
  Qed.
  (** the hypotheses of the other theorems are met: a row whose factorisation stops early, a library in which AMD fails *)
  Example C78_failure_nonvacuous : exists B, wf_call (CSub 1 2 A2 [1]%nat) /\ track (R := Zring) Nothing (CSub 1 2 A2 [1]%nat) = Some (System 1 B, 0%nat) /\ factorises lib2 1 B false.
  Proof. eexists. split; [cbn [wf_call]; split; [lia|]; split; [lia|]; split; [exact A2_wf|]; repeat constructor|]. split; [reflexivity|]. intros M _ NC _. cbn [numeric lib2]. rewrite NC. reflexivity. Qed.
  Example C78_ordering_nonvacuous : exists lib : library (R := Zring) (Z * Z), forall M, ulegal (R := Zring) M -> cN M = (2 * 1)%nat -> amd lib M = false.
  Proof. exists (Lib (R := Zring) (F := Z * Z) (fun _ => false) (fun _ => ((0, 0), false)) (fun _ b => b) (fun _ b => b) (fun _ b => b) (fun _ b => b) (fun _ b => b)). auto. Qed.
End LExamples.
Print Assumptions C78_matrix.
Print Assumptions C78_history.
