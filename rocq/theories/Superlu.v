(** * The SuperLU wrapper (C79): dune/istl/superlu.hh, dune/istl/supermatrix.hh, dune/istl/bccsmatrix.hh

    The wrapper flattens a block matrix, or a set of its block rows, into compressed column arrays, has them factorised by SuperLU's expert driver
    and calls the same driver with the factors to solve.  It owns the arrays, the factors and two descriptions of vectors through raw pointers.  Modelled: the contents of the matrix, the
    state of every pointer, the flags.  SuperLU is not modelled: the functions of [library] are arbitrary, the theorems on solutions assume [sound].  [lwork] is always 0.  Not modelled:
    printing, statistics, setVerbosity, copies of the object, running out of memory in new[].  Scalars range over any ring; index types are unbounded. *)
From Coq Require Import Arith List Lia Bool Sorted.
From Verif Require Import Outcome Ring Sums Sparse Foreach Cholmod Bccs Umfpack Ldl.
Import ListNotations.
Open Scope nat_scope.

Section Superlu.
  Context {R : ring}.

  (** the expert driver.  A matrix is given by its order and its three arrays.  [room]: does the factorisation get as far as creating L and U (false: it runs out of memory);
      [lufact]: what it leaves in perm_c, perm_r, etree, equed, R, C, L, U and in the values of the matrix, which it may scale, and whether no pivot is zero;
      [slv]: what solving with these factors leaves in X and in B, which may be scaled *)
  Record library (F : Type) := Lib { room : @csc R -> bool; lufact : @csc R -> F * bool; slv : F -> list R -> list R * list R }.
  Arguments room {F}. Arguments lufact {F}. Arguments slv {F}.
  Context {F : Type} (lib : library F).

  (** the pointer members: perm_c, perm_r, etree, R, C (superlu.hh:384-385), and L.Store, U.Store, B.Store, X.Store, mat.A.Store *)
  Inductive member := PermC | PermR | Etree | Rs | Cs | LStore | UStore | BStore | XStore | AStore.
  Definition member_eqb (a b : member) : bool :=
    match a, b with PermC, PermC | PermR, PermR | Etree, Etree | Rs, Rs | Cs, Cs | LStore, LStore | UStore, UStore | BStore, BStore | XStore, XStore | AStore, AStore => true | _, _ => false end.
  Definition members : list member := [PermC; PermR; Etree; Rs; Cs; LStore; UStore; BStore; XStore; AStore].
  Definition pointers := member -> ptr unit.
  Definition set (p : pointers) (a : member) (v : ptr unit) : pointers := fun b => if member_eqb a b then v else p b.
  (** delete[], SUPERLU_FREE, Destroy_SuperNode_Matrix and Destroy_CompCol_Matrix leave the pointers as they are *)
  Fixpoint deletes (l : list member) (p : pointers) : outcome pointers :=
    match l with nil => Ok p | a :: t => obind (delete (p a)) (fun v => deletes t (set p a v)) end.
  (** new[], and the allocations inside SuperLU; the second result counts the objects to which no pointer refers any more *)
  Fixpoint news (l : list member) (p : pointers) (lost : nat) : pointers * nat :=
    match l with nil => (p, lost) | a :: t => news t (set p a (Live tt)) (lost + live (p a)) end.
  Definition alive (p : pointers) : nat := list_sum (map (fun a => live (p a)) members).

  (** the members of SuperLU and of its SuperLUMatrix (superlu.hh:382-391, supermatrix.hh:310, bccsmatrix.hh:150-153); the three array pointers of BCCSMatrix are always set and deleted
      together and are one pointer here, worth three objects; [first] is None while it is not initialised; [lost] counts objects that no pointer refers to any more *)
  Record state := St { mN : nat; mM : nat; mNnz : nat; arrays : ptr (@csc R); mem : pointers; fac : option F; first : option bool; reuse : bool; lost : nat }.
  (** SuperLU() (None, superlu.hh:432-435) and the members before the body of SuperLU(mat, verbose, reusevector) (superlu.hh:424-427) *)
  Definition start (reusevector : option bool) : state :=
    St 0 0 0 Null (fun _ => Uninit) None (match reusevector with None => None | Some _ => Some true end) (match reusevector with None => false | Some r => r end) 0.
  (** BCCSMatrix::free(), bccsmatrix.hh:139-147 *)
  Definition bccs_free (st : state) : outcome state :=
    obind (delete (arrays st)) (fun a => Ok (St 0 0 0 a (mem st) (fac st) (first st) (reuse st) (lost st))).
  (** SuperLUMatrix::free(), supermatrix.hh:303-307 *)
  Definition mat_free (st : state) : outcome state :=
    obind (bccs_free st) (fun st => obind (deletes [AStore] (mem st)) (fun p => Ok (St (mN st) (mM st) (mNnz st) (arrays st) p (fac st) (first st) (reuse st) (lost st)))).
  (** SuperLU::free(), superlu.hh:403-420 *)
  Definition free (st : state) : outcome state :=
    obind (deletes [PermC; PermR; Etree; Rs; Cs; LStore; UStore] (mem st)) (fun p =>
    match first st with
    | None => UB
    | Some f => obind (if negb f && reuse st then deletes [BStore; XStore] p else Ok p) (fun p =>
        mat_free (St (mN st) (mM st) (mNnz st) (arrays st) p (fac st) (first st) (reuse st) (lost st)))
    end).
  (** the test at the top of ~SuperLU, setMatrix and setSubMatrix, superlu.hh:398-399, 445-447, 460-462 *)
  Definition release (st : state) : outcome state := if 0 <? mN st + mM st then free st else Ok st.
  (** if (N + M + nonzeroes != 0) free(), supermatrix.hh:239-240, 283-284 *)
  Definition mat_release (st : state) : outcome state := if mN st + mM st + mNnz st =? 0 then Ok st else mat_free st.
  (** ~SuperLU(), superlu.hh:396-400; ~SuperLUMatrix(), supermatrix.hh:219-223, which calls free() if N + M * nonzeroes is not 0; ~BCCSMatrix(), bccsmatrix.hh:41-45, where free() is
      that of BCCSMatrix; the number of objects that are never released *)
  Definition destroy (st : state) : outcome nat :=
    obind (release st) (fun st =>
    obind (if mN st + mM st * mNnz st =? 0 then Ok st else mat_free st) (fun st =>
    obind (if mN st + mM st + mNnz st =? 0 then Ok st else bccs_free st) (fun st =>
    Ok (lost st + 3 * live (arrays st) + alive (mem st))))).
  (** decompose(), superlu.hh:471-559: B.Store and X.Store are left pointing to a local variable; the driver refuses matrices that are not square, no error code is looked at *)
  Definition decompose (st : state) : outcome state :=
    match arrays st, mem st AStore with
    | Live c, Live _ =>
        let '(p, lo) := news [PermC; PermR; Etree; Rs; Cs] (mem st) (lost st) in
        let lo := lo + live (p BStore) + live (p XStore) in
        let p := set (set p BStore Dangling) XStore Dangling in
        if (mN st =? mM st) && room lib c
        then let '(p, lo) := news [LStore; UStore] p lo in Ok (St (mN st) (mM st) (mNnz st) (arrays st) p (Some (fst (lufact lib c))) (Some true) (reuse st) lo)
        else Ok (St (mN st) (mM st) (mNnz st) (arrays st) p None (Some true) (reuse st) lo)
    | _, _ => UB
    end.
  (** the arrays made by copyToBCCSMatrix (model: Bccs.v) and the SuperMatrix for them, whose number of entries is read from colstart[nnzAt]; what the members pointed to before is lost *)
  Definition install (st : state) (rows cols nnzAt : nat) (out : @ccs R) : outcome state :=
    if cols <? nnzAt then UB else
    let '(p, lo) := news [AStore] (mem st) (lost st) in
    Ok (St rows cols (length (values out)) (Live (Csc cols (colstart out) (map Some (rowindex out)) (map Some (values out)))) p (fac st) (first st) (reuse st) (lo + 3 * live (arrays st))).
  (** setMatrix(mat), superlu.hh:443-453 with SuperLUMatrix::operator=, supermatrix.hh:237-253, which reads colstart[N], for a matrix of N x M blocks with bn x bm scalars *)
  Definition setMatrix (st : state) (bn bm M : nat) (A : @bmat R) : outcome state :=
    obind (release st) (fun st => obind (mat_release st) (fun st =>
    obind (copyToBCCSMatrix r0 bn bm (M * bm) A) (fun out => obind (install st (length A * bn) (M * bm) (length A * bn) out) decompose))).
  (** setSubMatrix(mat, mrs), superlu.hh:455-468 with SuperLUMatrix::setMatrix, supermatrix.hh:281-290: the block sizes are those of the first entry of the first row; createMatrix(), supermatrix.hh:329-336,
      reads colstart[cols] *)
  Definition setSubMatrix (st : state) (bn bm : nat) (A : @bmat R) (S0 : list nat) : outcome state :=
    obind (release st) (fun st => obind (mat_release st) (fun st =>
    match A with
    | (_ :: _) :: _ => obind (copySubset r0 bn bm (length S0 * bm) A S0) (fun out => obind (install st (length S0 * bn) (length S0 * bm) (length S0 * bm) out) decompose)
    | _ => UB
    end)).

  (** a routine that writes the first n entries of an array *)
  Definition firsts (n : nat) (l : list R) : list R := map (vget l) (seq 0 n).
  (** the descriptions of the vectors, superlu.hh:573-590, 658-675: with reusevector the members B and X are created by the first call and reused by the others, otherwise local ones
      are created and freed, superlu.hh:642-645, 709-712 *)
  Definition describe (st : state) : outcome state :=
    if reuse st then match first st with
      | None => UB
      | Some true => let '(p, lo) := news [BStore; XStore] (mem st) (lost st) in Ok (St (mN st) (mM st) (mNnz st) (arrays st) p (fac st) (Some false) (reuse st) lo)
      | Some false => match mem st BStore, mem st XStore with Live _, Live _ => Ok st | _, _ => UB end
      end
    else Ok st.
  (** the call of the driver, superlu.hh:606-608, 686-688: X and B have N rows; the factors are used as they are *)
  Definition solve (st : state) (x b : list R) : outcome (list R * list R) :=
    match fac st, arrays st, mem st AStore, mem st PermC, mem st PermR, mem st Etree, mem st Rs, mem st Cs, mem st LStore, mem st UStore with
    | Some f, Live _, Live _, Live _, Live _, Live _, Live _, Live _, Live _, Live _ =>
        let n := mN st in
        if (length b <? n) || (length x <? n) then UB else
        let '(y, b') := slv lib f (firstn n b) in Ok (firsts n y ++ skipn n x, firsts n b' ++ skipn n b)
    | _, _, _, _, _, _, _, _, _, _ => UB
    end.
  (** apply(x, b) on plain arrays, superlu.hh:650-713; the results: the object, x, b *)
  Definition applyArrays (st : state) (x b : list R) : outcome (state * list R * list R) :=
    if mN st + mM st =? 0 then Throw EISTL else
    obind (describe st) (fun st => obind (solve st x b) (fun y => Ok (st, fst y, snd y))).
  (** apply(x, b, res), superlu.hh:561-648, on the scalar entries of the vectors; the last result is (iterations, converged) *)
  Definition apply (st : state) (x b : list R) : outcome (state * list R * list R * (nat * bool)) :=
    if negb (mN st =? length b) then Throw EISTL else
    if negb (mM st =? length x) then Throw EISTL else
    if mM st + mN st =? 0 then Throw EISTL else
    match b, x with
    | _ :: _, _ :: _ => obind (describe st) (fun st => obind (solve st x b) (fun y => Ok (st, fst y, snd y, (1, true))))
    | _, _ => UB
    end.

  (** ** Specification *)
  (** what SuperLU promises: factors of a legal matrix without a zero pivot solve its systems *)
  Definition sound : Prop := forall M f b, ulegal M -> lufact lib M = (f, true) -> length b = cN M -> solution (cN M) (entry M) (fst (slv lib f b)) b.
  (** SuperLU does not run out of memory *)
  Definition roomy : Prop := forall M, ulegal M -> room lib M = true.
  (** SuperLU finds no zero pivot in any legal matrix whose entries are those of B / finds one in all of them *)
  Definition factorises (k : nat) (B : nat -> nat -> R) (regular : bool) : Prop :=
    forall M, ulegal M -> cN M = k -> (forall i j, i < k -> j < k -> entry M i j = B i j) -> snd (lufact lib M) = regular.
  Inductive call := CSet (bs N : nat) (A : @bmat R) | CSub (bs N : nat) (A : @bmat R) (S0 : list nat) | CApply (x b : list R) | CArrays (x b : list R) | CFree.
  (** square matrices, increasing existing block indices; the matrix of which a part is taken has an entry in its first row *)
  Definition wf_call (c : call) : Prop :=
    match c with
    | CSet bs N A => 0 < bs /\ bmat_wf N N A
    | CSub bs N A S0 => 0 < bs /\ bmat_wf N N A /\ nth 0 A nil <> nil /\ StronglySorted lt S0 /\ Forall (fun x => x < N) S0
    | _ => True
    end.
  (** how a call changes the view (C78) and how many objects it leaks.  None, undefined behaviour: plain arrays that are too short, free() of a solver that holds nothing *)
  Definition track (v : @view R) (c : call) : option (@view R * nat) :=
    let hollow := match v with Hollow => 11 | _ => 0 end in
    match c with
    | CSet bs N A => Some (system (N * bs) (blocks bs A), hollow)
    | CSub bs N A S0 => Some (system (length S0 * bs) (subblocks bs A S0), hollow)
    | CApply x b => Some (v, 0)
    | CArrays x b => match v with System k _ => if (k <=? length x) && (k <=? length b) then Some (v, 0) else None | _ => Some (v, 0) end
    | CFree => match v with Nothing => None | _ => Some (Nothing, 0) end
    end.
  Fixpoint tracks (v : @view R) (cs : list call) (leaks : nat) : option (@view R * nat) :=
    match cs with nil => Some (v, leaks) | c :: t => match track v c with Some (v', l) => tracks v' t (leaks + l) | None => None end end.
  (** running the calls; apply changes nothing if it throws, and a client may go on *)
  Definition do (st : state) (c : call) : outcome state :=
    match c with
    | CSet bs N A => setMatrix st bs bs N A
    | CSub bs N A S0 => setSubMatrix st bs bs A S0
    | CApply x b => match apply st x b with Ok (st', _, _, _) => Ok st' | Throw _ => Ok st | UB => UB end
    | CArrays x b => match applyArrays st x b with Ok (st', _, _) => Ok st' | Throw _ => Ok st | UB => UB end
    | CFree => free st
    end.
  Fixpoint run (st : state) (cs : list call) : outcome state := match cs with nil => Ok st | c :: t => obind (do st c) (fun st => run st t) end.
  (** what apply does when the solver holds v *)
  Definition applies (v : @view R) (st : state) : Prop :=
    match v with
    | System k B =>
        (forall x b, length b <> k \/ length x <> k -> apply st x b = Throw EISTL) /\
        (sound -> factorises k B true -> forall x b, length b = k -> length x = k -> exists st' x' b', apply st x b = Ok (st', x', b', (1, true)) /\ length x' = k /\ length b' = k /\ solution k B x' b) /\
        (sound -> factorises k B true -> forall x b, k <= length b -> k <= length x -> exists st' x' b', applyArrays st x b = Ok (st', x', b') /\ skipn k x' = skipn k x /\ skipn k b' = skipn k b /\ solution k B (firstn k x') (firstn k b))
    | _ => forall x b, apply st x b = Throw EISTL /\ applyArrays st x b = Throw EISTL
    end.

  (** ** Proofs *)
  Lemma firsts_length n l : length (firsts n l) = n.
  Proof. unfold firsts. now rewrite map_length, seq_length. Qed.
  Lemma firsts_get n l i : i < n -> vget (firsts n l) i = vget l i.
  Proof. intros H. unfold vget at 1, firsts. rewrite (nth_indep _ r0 (vget l 0)) by (rewrite map_length, seq_length; auto). rewrite map_nth, seq_nth by auto. reflexivity. Qed.
  Definition owned (a : member) : bool := match a with BStore | XStore => false | _ => true end.
  Definition holds (v : @view R) (leaks : nat) (st : state) : Prop :=
    lost st = leaks /\
    match v with
    | Nothing => mN st = 0 /\ mM st = 0 /\ mNnz st = 0 /\ (arrays st = Null \/ arrays st = Dangling) /\ forall a, mem st a = Uninit \/ mem st a = Dangling
    | Hollow => mN st = 0 /\ mM st = 0 /\ mNnz st = 0 /\ (exists c, arrays st = Live c) /\ (forall a, mem st a = if owned a then Live tt else Dangling) /\ first st = Some true
    | System k B => 0 < k /\ mN st = k /\ mM st = k /\
        (exists f, first st = Some f /\ (f = false -> reuse st = true) /\ forall a, mem st a = if owned a || negb f then Live tt else Dangling) /\
        exists c, arrays st = Live c /\ ulegal c /\ cN c = k /\ (forall i j, i < k -> j < k -> entry c i j = B i j) /\ fac st = Some (fst (lufact lib c))
    end.
  Lemma free_ok v leaks st : holds v leaks st -> v <> Nothing -> exists st', free st = Ok st' /\ holds Nothing leaks st'.
  Proof.
    destruct st as [N M nz a p f fi re lo]. intros (L & H) NV. cbn in L. subst lo. unfold free, mat_free, bccs_free.
    assert (HM : exists b c, a = Live c /\ fi = Some b /\ (b = false -> re = true) /\ forall a, p a = if owned a || negb b then Live tt else Dangling).
    { destruct v as [| |k B]; [congruence| |]; cbn in H.
      - destruct H as (_ & _ & _ & (c & ->) & HM & ->). exists true, c. split; auto. split; auto. split; [discriminate|]. intros m. rewrite HM. destruct (owned m); auto.
      - destruct H as (_ & _ & _ & (b & -> & HR & HM) & c & -> & _). exists b, c. auto. }
    destruct HM as (b & c & -> & -> & HR & HM).
    destruct b; [|rewrite (HR eq_refl)].
    - repeat (progress (cbn [deletes member_eqb obind delete arrays mem mN mM mNnz fac first reuse lost andb negb]; try unfold set; rewrite ?HM; cbn [owned orb negb])).
      eexists. split; [reflexivity|]. split; [reflexivity|]. cbn. repeat split; auto. intros []; cbn; rewrite ?HM; auto.
    - repeat (progress (cbn [deletes member_eqb obind delete arrays mem mN mM mNnz fac first reuse lost andb negb]; try unfold set; rewrite ?HM; cbn [owned orb negb])).
      eexists. split; [reflexivity|]. split; [reflexivity|]. cbn. repeat split; auto. intros []; cbn; rewrite ?HM; auto.
  Qed.
  Lemma release_ok v leaks st : holds v leaks st -> exists st', release st = Ok st' /\ holds (match v with Hollow => Hollow | _ => Nothing end) leaks st'.
  Proof.
    intros H. unfold release. destruct v as [| |k B].
    - exists st. pose proof H as (_ & -> & -> & _). cbn. auto.
    - exists st. pose proof H as (_ & -> & -> & _). cbn. auto.
    - pose proof H as (_ & K & -> & -> & _). replace (0 <? k + k) with true by (symmetry; apply Nat.ltb_lt; lia). apply (free_ok (System k B)); auto. discriminate.
  Qed.
  Definition held (v : @view R) : nat := match v with Hollow => 11 | _ => 0 end.
  Lemma holds_empty v leaks st : holds v leaks st -> v = Nothing \/ v = Hollow -> mN st = 0 /\ mM st = 0 /\ mNnz st = 0 /\ 3 * live (arrays st) + alive (mem st) = held v.
  Proof.
    intros (_ & H) [-> | ->].
    - destruct H as (-> & -> & -> & A & HM). split; auto. split; auto. split; auto. unfold alive. cbn [map members held]. assert (Z : forall a, live (mem st a) = 0) by (intros a; destruct (HM a) as [-> | ->]; auto). rewrite !Z. destruct A as [-> | ->]; auto.
    - destruct H as (-> & -> & -> & (c & ->) & HM & _). split; auto. split; auto. split; auto. unfold alive. cbn [map members]. rewrite !HM. reflexivity.
  Qed.
  Lemma decompose_ok st v leaks k B out : roomy -> holds v leaks st -> v = Nothing \/ v = Hollow ->
    let M := Csc k (colstart out) (map Some (rowindex out)) (map Some (values out)) in
    ulegal M -> length (values out) = length (ci M) -> (forall i j, i < k -> j < k -> entry M i j = B i j) ->
    exists st', obind (install st k k k out) decompose = Ok st' /\ holds (system k B) (leaks + held v) st'.
  Proof.
    intros OR H V M LG LV EN. destruct (holds_empty _ _ _ H V) as (_ & _ & _ & LIVE). destruct st as [N0 M0 nz a p f fi re lo]. pose proof H as (L & HH). cbn in L, LIVE. subst lo.
    unfold install. rewrite Nat.ltb_irrefl. cbn [mem lost news]. unfold decompose, set. cbn [member_eqb obind mN mM mNnz arrays mem fac first reuse lost news]. change (Csc k (colstart out) (map Some (rowindex out)) (map Some (values out))) with M. rewrite (OR M LG), Nat.eqb_refl. cbn [andb].
    unfold set. cbn [member_eqb]. eexists. split; [reflexivity|].
    match goal with |- holds _ _ (St _ _ _ _ _ _ _ _ ?l) => assert (LOST : l = leaks + held v) end.
    { rewrite <- LIVE. unfold alive. cbn [map members list_sum fold_right live]. lia. }
    unfold holds. cbn [mN mM mNnz arrays mem fac first reuse lost]. split; [exact LOST|].
    assert (NZ : k = 0 -> length (values out) = 0). { intros ->. destruct LG as (LC & Z0 & ZN & _). change (cN M) with 0 in *. rewrite LV. lia. }
    destruct k as [|k]; cbn [system].
    - rewrite NZ by auto. repeat split; auto; [eauto|intros []; reflexivity].
    - split; [lia|]. split; [auto|]. split; [auto|]. split; [exists true; split; [auto|]; split; [discriminate|]; intros []; reflexivity|]. exists M. auto.
  Qed.
  Lemma describe_ok k B leaks st : holds (System k B) leaks st -> exists st', describe st = Ok st' /\ holds (System k B) leaks st'.
  Proof.
    intros H. destruct st as [N M nz a p f fi re lo]. pose proof H as (L & K & HN & HM0 & (b & FI & HR & HM) & c & AR & REST). cbn in L, HN, HM0, FI, AR, HR, HM. subst lo N M fi a. unfold describe. cbn [reuse first]. destruct re; [|eauto].
    destruct b.
    - cbn [news mem lost]. unfold set. cbn [member_eqb]. rewrite !HM. cbn [owned orb negb live]. rewrite !Nat.add_0_r. eexists. split; [reflexivity|]. split; [reflexivity|]. cbn. split; [auto|]. split; [auto|]. split; [auto|]. split; [|exists c; auto]. exists false. split; auto. split; auto. intros []; cbn; rewrite ?HM; auto.
    - cbn [mem]. rewrite !HM. cbn [owned orb negb]. eauto.
  Qed.
  Lemma solve_ok k B leaks st x b : holds (System k B) leaks st -> k <= length b -> k <= length x ->
    exists x' b', solve st x b = Ok (x', b') /\ skipn k x' = skipn k x /\ skipn k b' = skipn k b /\ length x' = length x /\ length b' = length b /\ (sound -> factorises k B true -> solution k B (firstn k x') (firstn k b)).
  Proof.
    intros (L & K & HN & HM0 & (fi & _ & _ & HM) & c & AR & LG & NC & EN & HF) WB WX. unfold solve. rewrite HF, AR, !HM, HN. cbn [owned orb].
    replace (length b <? k) with false by (symmetry; apply Nat.ltb_ge; auto). replace (length x <? k) with false by (symmetry; apply Nat.ltb_ge; auto). cbn [orb]. destruct (slv lib (fst (lufact lib c)) (firstn k b)) as [y b'] eqn:SE.
    assert (SK : forall u v : list R, skipn k (firsts k u ++ skipn k v) = skipn k v). { intros u v. rewrite skipn_app, skipn_all2 by (rewrite firsts_length; lia). rewrite firsts_length, Nat.sub_diag. reflexivity. }
    eexists. eexists. split; [reflexivity|]. split; [apply SK|]. split; [apply SK|]. split; [rewrite app_length, firsts_length, skipn_length; lia|]. split; [rewrite app_length, firsts_length, skipn_length; lia|].
    intros SO FA. assert (FC : lufact lib c = (fst (lufact lib c), true)) by (rewrite <- (FA c LG NC EN); now destruct (lufact lib c)). rewrite firstn_app, firstn_all2 by (rewrite firsts_length; lia). rewrite firsts_length, Nat.sub_diag. cbn [firstn]. rewrite app_nil_r.
    pose proof (SO c _ (firstn k b) LG FC ltac:(rewrite NC; apply firstn_length_le; auto)) as S1. rewrite SE, NC in S1. cbn [fst] in S1. intros i Hi. rewrite <- (S1 i Hi). apply sum_ext. intros j Hj. rewrite EN by auto. f_equal. apply firsts_get. auto.
  Qed.
  Lemma holds_applies v leaks st : holds v leaks st -> applies v st.
  Proof.
    intros H. destruct v as [| |k B]; cbn [applies].
    - intros x b. destruct H as (_ & HN & HM & _). unfold apply, applyArrays. rewrite HN, HM. split; [|reflexivity]. destruct (0 =? length b); auto. destruct (0 =? length x); auto.
    - intros x b. destruct H as (_ & HN & HM & _). unfold apply, applyArrays. rewrite HN, HM. split; [|reflexivity]. destruct (0 =? length b); auto. destruct (0 =? length x); auto.
    - assert (NZ : 0 < k /\ mN st = k /\ mM st = k) by (destruct H as (_ & K & HN & HM & _); auto). destruct NZ as (K & HN & HM). split; [|split].
      + intros x b NE. unfold apply. rewrite HN, HM. destruct (Nat.eqb_spec k (length b)); [|reflexivity]. destruct (Nat.eqb_spec k (length x)); [lia|reflexivity].
      + intros SO FA x b LB LX. unfold apply. rewrite HN, HM, LB, LX, Nat.eqb_refl. cbn [negb]. replace (k + k =? 0) with false by (symmetry; apply Nat.eqb_neq; lia). destruct b as [|b0 b]; [cbn in LB; lia|]. destruct x as [|x0 x]; [cbn in LX; lia|].
        destruct (describe_ok k B leaks st H) as (st1 & E1 & H1). rewrite E1. cbn [obind]. destruct (solve_ok k B leaks st1 (x0 :: x) (b0 :: b) H1 ltac:(lia) ltac:(lia)) as (x' & b' & E2 & _ & _ & LX' & LB' & SL). rewrite E2. cbn [obind fst snd]. exists st1, x', b'. split; [auto|]. split; [lia|]. split; [lia|].
        specialize (SL SO FA). rewrite !firstn_all2 in SL by lia. auto.
      + intros SO FA x b LB LX. unfold applyArrays. rewrite HN, HM. replace (k + k =? 0) with false by (symmetry; apply Nat.eqb_neq; lia). destruct (describe_ok k B leaks st H) as (st1 & E1 & H1). rewrite E1. cbn [obind].
        destruct (solve_ok k B leaks st1 x b H1 LB LX) as (x' & b' & E2 & S1 & S2 & _ & _ & SL). rewrite E2. cbn [obind fst snd]. exists st1, x', b'. auto.
  Qed.
  Lemma do_ok v leaks st c v' l : roomy -> holds v leaks st -> wf_call c -> track v c = Some (v', l) -> exists st', do st c = Ok st' /\ holds v' (leaks + l) st'.
  Proof.
    intros OR H W T.
    assert (REL : exists st1, (forall X (g : state -> outcome X), obind (release st) (fun st => obind (mat_release st) g) = g st1) /\ holds (match v with Hollow => Hollow | _ => Nothing end) leaks st1).
    { destruct (release_ok v leaks st H) as (st1 & E1 & H1). exists st1. split; auto. intros X g. rewrite E1. cbn [obind]. destruct (holds_empty _ _ _ H1) as (N1 & M1 & Z1 & _); [destruct v; auto|]. unfold mat_release. rewrite N1, M1, Z1. reflexivity. }
    assert (V : match v with Hollow => Hollow | _ => @Nothing R end = Nothing \/ match v with Hollow => Hollow | _ => @Nothing R end = Hollow) by (destruct v; auto).
    destruct c as [bs N A|bs N A S0|x b|x b|]; cbn [track do] in *.
    - injection T as <- <-. destruct W as [Hb WF]. destruct REL as (st1 & E1 & H1). unfold setMatrix. rewrite E1. destruct (C78_matrix bs N A Hb WF) as (out & E3 & LG & LV & EN). rewrite E3. cbn [obind]. rewrite (proj1 WF).
      destruct (decompose_ok st1 _ leaks (N * bs) (blocks bs A) out OR H1 V LG LV EN) as (st' & E4 & H4). exists st'. split; [exact E4|]. destruct v; exact H4.
    - injection T as <- <-. destruct W as (Hb & WF & NE & HS & HF). destruct REL as (st1 & E1 & H1). unfold setSubMatrix. rewrite E1. destruct A as [|[|e row] A]; [cbn in NE; congruence|cbn in NE; congruence|].
      destruct (copySubset_entry bs N _ S0 Hb WF HS HF) as (out & E3 & LG & LV & EN). rewrite E3. cbn [obind].
      destruct (decompose_ok st1 _ leaks (length S0 * bs) (subblocks bs ((e :: row) :: A) S0) out OR H1 V LG LV EN) as (st' & E4 & H4). exists st'. split; [exact E4|]. destruct v; exact H4.
    - injection T as <- <-. rewrite Nat.add_0_r. pose proof (holds_applies v leaks st H) as AP. destruct v as [| |k B]; cbn [applies] in AP; [destruct (AP x b) as [-> _]; eauto|destruct (AP x b) as [-> _]; eauto|].
      pose proof H as (_ & K & HN & HM & _). destruct (Nat.eq_dec (length b) k) as [LB|]; [|rewrite (proj1 AP) by auto; eauto]. destruct (Nat.eq_dec (length x) k) as [LX|]; [|rewrite (proj1 AP) by auto; eauto].
      unfold apply. rewrite HN, HM, LB, LX, Nat.eqb_refl. cbn [negb]. replace (k + k =? 0) with false by (symmetry; apply Nat.eqb_neq; lia). destruct b as [|b0 b]; [cbn in LB; lia|]. destruct x as [|x0 x]; [cbn in LX; lia|].
      destruct (describe_ok k B leaks st H) as (st1 & E1 & H1). rewrite E1. cbn [obind]. destruct (solve_ok k B leaks st1 (x0 :: x) (b0 :: b) H1 ltac:(lia) ltac:(lia)) as (x' & b' & E2 & _). rewrite E2. cbn [obind]. eauto.
    - destruct v as [| |k B].
      + injection T as <- <-. destruct (holds_applies _ _ _ H x b) as [_ ->]. rewrite Nat.add_0_r. eauto.
      + injection T as <- <-. destruct (holds_applies _ _ _ H x b) as [_ ->]. rewrite Nat.add_0_r. eauto.
      + destruct (Nat.leb_spec k (length x)) as [LX|]; [|discriminate]. destruct (Nat.leb_spec k (length b)) as [LB|]; [|discriminate]. injection T as <- <-. pose proof H as (_ & K & HN & HM & _). unfold applyArrays. rewrite HN, HM. replace (k + k =? 0) with false by (symmetry; apply Nat.eqb_neq; lia).
        destruct (describe_ok k B leaks st H) as (st1 & E1 & H1). rewrite E1. cbn [obind]. destruct (solve_ok k B leaks st1 x b H1 ltac:(lia) ltac:(lia)) as (x' & b' & E2 & _). rewrite E2. cbn [obind]. rewrite Nat.add_0_r. eauto.
    - destruct v as [| |k B]; [discriminate| |]; injection T as <- <-; destruct (free_ok _ _ _ H ltac:(discriminate)) as (st' & E & H'); rewrite E; exists st'; rewrite Nat.add_0_r; auto.
  Qed.
  Lemma run_ok : roomy -> forall cs v leaks st v' leaks', holds v leaks st -> Forall wf_call cs -> tracks v cs leaks = Some (v', leaks') -> exists st', run st cs = Ok st' /\ holds v' leaks' st'.
  Proof.
    intros OR. induction cs as [|c cs IH]; intros v leaks st v' leaks' H W T; cbn [tracks run] in *.
    - injection T as <- <-. eauto.
    - apply Forall_cons_iff in W. destruct W as [W1 W2]. destruct (track v c) as [[v1 l1]|] eqn:T1; [|discriminate]. destruct (do_ok _ _ _ _ _ _ OR H W1 T1) as (st1 & E1 & H1). rewrite E1. cbn [obind]. eapply IH; eauto.
  Qed.
  Lemma start_holds r : holds Nothing 0 (start r).
  Proof. repeat split; cbn; auto. Qed.
  Lemma destroy_ok v leaks st : holds v leaks st -> destroy st = Ok (leaks + held v).
  Proof.
    intros H. unfold destroy. destruct (release_ok v leaks st H) as (st1 & E1 & H1). rewrite E1. cbn [obind]. destruct (holds_empty _ _ _ H1) as (N1 & M1 & Z1 & L2); [destruct v; auto|]. rewrite N1, M1, Z1. cbn [Nat.add Nat.mul Nat.eqb obind]. rewrite N1, M1, Z1. cbn [Nat.add Nat.eqb obind]. rewrite (proj1 H1). f_equal. rewrite <- Nat.add_assoc. change (live (arrays st1) + (live (arrays st1) + (live (arrays st1) + 0))) with (3 * live (arrays st1)). rewrite L2. destruct v; auto.
  Qed.
  (** every history of legal calls, starting from a solver that was constructed by default or is being constructed from a matrix (then the first call is CSet), with or without reuse of the vectors *)
  Theorem C79_history r cs v leaks : roomy -> Forall wf_call cs -> tracks Nothing cs 0 = Some (v, leaks) ->
    exists st, run (start r) cs = Ok st /\ applies v st /\ destroy st = Ok (leaks + held v).
  Proof.
    intros OR W T. destruct (run_ok OR cs Nothing 0 (start r) v leaks (start_holds r) W T) as (st & E & H). exists st. split; auto. split; [eapply holds_applies; eauto|eapply destroy_ok; eauto].
  Qed.
  (** Deviation: if SuperLU finds a zero pivot nobody is told: setting the matrix does not throw, apply divides by zero pivots and reports convergence *)
  Theorem C79_failure_refuted r cs k B leaks : roomy -> Forall wf_call cs -> tracks Nothing cs 0 = Some (System k B, leaks) -> factorises k B false ->
    exists st, run (start r) cs = Ok st /\ forall x b, length x = k -> length b = k -> exists st' x' b', apply st x b = Ok (st', x', b', (1, true)).
  Proof.
    intros OR W T FA. destruct (run_ok OR cs Nothing 0 (start r) _ leaks (start_holds r) W T) as (st & E & H). exists st. split; auto. intros x b LX LB.
    pose proof H as (_ & K & HN & HM & _). unfold apply. rewrite HN, HM, LB, LX, Nat.eqb_refl. cbn [negb]. replace (k + k =? 0) with false by (symmetry; apply Nat.eqb_neq; lia). destruct b as [|b0 b]; [cbn in LB; lia|]. destruct x as [|x0 x]; [cbn in LX; lia|].
    destruct (describe_ok k B leaks st H) as (st1 & E1 & H1). rewrite E1. cbn [obind]. destruct (solve_ok k B leaks st1 (x0 :: x) (b0 :: b) H1 ltac:(lia) ltac:(lia)) as (x' & b' & E2 & _). rewrite E2. cbn [obind]. eauto.
  Qed.
  (** Deviation: if SuperLU runs out of memory, setting the matrix does not throw and leaves an object that can be neither used nor destroyed *)
  Theorem C79_memory_refuted r bs N (A : @bmat R) : 0 < bs -> 0 < N -> bmat_wf N N A -> (forall M, ulegal M -> cN M = N * bs -> room lib M = false) ->
    exists st, setMatrix (start r) bs bs N A = Ok st /\ destroy st = UB /\ free st = UB /\ (forall bn bm M A', setMatrix st bn bm M A' = UB) /\ forall x b, length x = N * bs -> length b = N * bs -> apply st x b = UB.
  Proof.
    intros Hb HN WF NA. destruct (C78_matrix bs N A Hb WF) as (out & E & LG & LV & EN). set (K := N * bs) in *. assert (KP : 0 < K) by (unfold K; nia). set (c := Csc K (colstart out) (map Some (rowindex out)) (map Some (values out))).
    assert (E0 : exists p f re, setMatrix (start r) bs bs N A = Ok (St K K (length (values out)) (Live c) p None (Some f) re 0) /\ p LStore = Uninit /\ (forall a, a <> LStore -> a <> UStore -> p a = if owned a then Live tt else Dangling)).
    { unfold setMatrix, release, mat_release, start. cbn [mN mM mNnz Nat.add Nat.ltb Nat.leb obind Nat.eqb]. fold K. rewrite E. cbn [obind]. rewrite (proj1 WF). fold K. unfold install. rewrite Nat.ltb_irrefl. cbn [mem lost news]. unfold decompose, set. cbn [member_eqb obind mN mM mNnz arrays mem fac first reuse lost news]. fold c. rewrite (NA c LG eq_refl), andb_false_r.
      unfold set. cbn [member_eqb live Nat.add Nat.mul]. eexists. eexists. eexists. split; [reflexivity|]. split; [reflexivity|]. intros []; cbn; congruence. }
    destruct E0 as (p & f & re & E0 & PL & HM). eexists. split; [exact E0|]. match goal with |- destroy ?s = _ /\ _ => set (st := s) end.
    assert (FR : free st = UB). { unfold free. cbn [deletes mem st]. unfold set. cbn [member_eqb]. rewrite !HM by discriminate. cbn [owned delete obind]. cbn [member_eqb]. repeat (rewrite !HM by discriminate; cbn [owned delete obind member_eqb]). rewrite PL. reflexivity. }
    assert (RL : release st = UB). { unfold release. cbn [mN mM st]. replace (0 <? K + K) with true by (symmetry; apply Nat.ltb_lt; lia). exact FR. }
    split; [unfold destroy; now rewrite RL|]. split; [auto|]. split; [intros; unfold setMatrix; now rewrite RL|]. intros x b LX LB. unfold apply. cbn [mN mM st]. rewrite LX, LB, Nat.eqb_refl. cbn [negb]. replace (K + K =? 0) with false by (symmetry; apply Nat.eqb_neq; lia).
    destruct b; auto. destruct x; auto. assert (FC : forall st', describe st = Ok st' -> fac st' = None). { unfold describe, st. cbn [reuse first]. destruct re; [|intros st' [= <-]; reflexivity]. destruct f; cbn [news mem lost]; [intros st' [= <-]; reflexivity|]. rewrite !HM by discriminate. discriminate. }
    destruct (describe st) as [st'| |] eqn:DE; auto; cbn [obind]; [unfold solve; rewrite (FC st' eq_refl); reflexivity|]. unfold describe, st in DE. cbn [reuse first] in DE. destruct re; [|discriminate]. destruct f; [discriminate|]. cbn [mem] in DE. rewrite !HM in DE by discriminate. discriminate.
  Qed.
  (** Deviation: a matrix that is not square is not rejected, and the object it leaves cannot be destroyed; with more rows than columns the column starts are read out of bounds *)
  Theorem C79_not_square_refuted r bs N M (A : @bmat R) : 0 < bs -> bmat_wf N M A -> N <> M ->
    (N < M -> exists st, setMatrix (start r) bs bs M A = Ok st /\ destroy st = UB) /\ (M < N -> setMatrix (start r) bs bs M A = UB).
  Proof.
    intros Hb WF NE. destruct (C23_copyToBCCSMatrix r0 bs bs N M A Hb WF) as (out & E & _). assert (S0 : setMatrix (start r) bs bs M A = obind (install (start r) (N * bs) (M * bs) (N * bs) out) decompose).
    { unfold setMatrix, release, mat_release. cbn [start mN mM mNnz Nat.add Nat.ltb Nat.leb obind Nat.eqb]. rewrite E. cbn [obind]. rewrite (proj1 WF). reflexivity. }
    rewrite S0. unfold install. split; intros LT.
    - replace (M * bs <? N * bs) with false by (symmetry; apply Nat.ltb_ge; nia). cbn [start mem lost news]. unfold decompose, set. cbn [member_eqb obind mN mM mNnz arrays mem fac first reuse lost news start]. replace (N * bs =? M * bs) with false by (symmetry; apply Nat.eqb_neq; nia). cbn [andb]. eexists. split; [reflexivity|].
      unfold destroy, release. cbn [mN mM]. replace (0 <? N * bs + M * bs) with true by (symmetry; apply Nat.ltb_lt; nia). reflexivity.
    - replace (M * bs <? N * bs) with true by (symmetry; apply Nat.ltb_lt; nia). reflexivity.
  Qed.
  (** Deviation: setSubMatrix dereferences an iterator past the end if the first row of the matrix is empty, whatever the index set is *)
  Theorem C79_empty_row_refuted r bs (A : @bmat R) S0 : nth 0 A nil = nil -> setSubMatrix (start r) bs bs A S0 = UB.
  Proof. intros NE. unfold setSubMatrix, release, mat_release. cbn [start mN mM mNnz Nat.add Nat.ltb Nat.leb obind Nat.eqb]. destruct A as [|[|e row] A]; [reflexivity|reflexivity|discriminate]. Qed.
  (** Deviation: free() of a solver that holds nothing releases uninitialised or released memory *)
  Theorem C79_free_refuted r : free (start r) = UB /\ forall cs k B leaks, roomy -> Forall wf_call cs -> tracks Nothing cs 0 = Some (System k B, leaks) -> exists st st', run (start r) cs = Ok st /\ free st = Ok st' /\ free st' = UB.
  Proof.
    split; [reflexivity|]. intros cs k B leaks OR W T. destruct (run_ok OR cs Nothing 0 (start r) _ leaks (start_holds r) W T) as (st & E & H). destruct (free_ok _ _ _ H ltac:(discriminate)) as (st' & E' & H'). exists st, st'. split; auto. split; auto.
    destruct H' as (_ & _ & _ & _ & _ & HM). unfold free. cbn [deletes]. destruct (HM PermC) as [-> | ->]; auto.
  Qed.
  (** Deviation: the sizes of plain arrays are not known to the solver, arrays that are too short are read or written past their end *)
  Theorem C79_arrays_refuted r cs k B leaks x b : roomy -> Forall wf_call cs -> tracks Nothing cs 0 = Some (System k B, leaks) -> length b < k \/ length x < k ->
    exists st, run (start r) cs = Ok st /\ applyArrays st x b = UB.
  Proof.
    intros OR W T SH. destruct (run_ok OR cs Nothing 0 (start r) _ leaks ltac:(apply start_holds) W T) as (st & E & H). exists st. split; auto. unfold applyArrays. pose proof H as (_ & K & HN & HM & _).
    rewrite HN, HM. replace (k + k =? 0) with false by (symmetry; apply Nat.eqb_neq; lia). destruct (describe_ok _ _ _ _ H) as (st1 & -> & (_ & _ & HN1 & _ & (fi & _ & _ & HM1) & c & AR & _ & _ & _ & HF)). cbn [obind]. unfold solve. rewrite HF, AR, !HM1, HN1. cbn [owned orb].
    destruct (Nat.ltb_spec (length b) k); auto. destruct (Nat.ltb_spec (length x) k); auto. lia.
  Qed.
  (** Deviation: what is allocated for an empty matrix or for an empty index set is never released *)
  Theorem C79_hollow_leak_refuted r : roomy -> (exists st, run (start r) [CSet 1 0 nil] = Ok st /\ destroy st = Ok 11) /\
    forall bs N A, wf_call (CSub bs N A nil) -> exists st, run (start r) [CSub bs N A nil] = Ok st /\ destroy st = Ok 11.
  Proof.
    intros OR. split.
    - destruct (C79_history r [CSet 1 0 nil] Hollow 0 OR) as (st & E & _ & DS); [repeat constructor|reflexivity|eauto].
    - intros bs N A W. destruct (C79_history r [CSub bs N A nil] Hollow 0 OR) as (st & E & _ & DS); [constructor; auto|reflexivity|eauto].
  Qed.
End Superlu.
Arguments room {R F}. Arguments lufact {R F}. Arguments slv {R F}. Arguments Lib {R F}.

From Coq Require Import ZArith.
From Verif Require Import RingInst.
(** ** Examples *)
Section SExamples.
  Local Open Scope Z_scope.
  (** a library that solves systems of order 2 and determinant 1 and scales the right hand side by -1 *)
  Let lib2 : library (Z * Z * Z * Z) :=
    Lib (R := Zring) (F := Z * Z * Z * Z) (fun _ => true)
      (fun M => let m := @entry Zring M in ((m 0%nat 0%nat, m 0%nat 1%nat, m 1%nat 0%nat, m 1%nat 1%nat), (cN M =? 2)%nat && (m 0%nat 0%nat * m 1%nat 1%nat - m 0%nat 1%nat * m 1%nat 0%nat =? 1)))
      (fun f b => let '(a, c, d, e) := f in ([e * nth 0 b 0 - c * nth 1 b 0; a * nth 1 b 0 - d * nth 0 b 0], map Z.opp b)).
  Lemma lib2_roomy : roomy lib2.
  Proof. intros M _. reflexivity. Qed.
  Lemma lib2_sound : sound lib2.
  Proof.
    intros M f b LG FA LB. cbn [lufact lib2] in FA. injection FA as <- FA. apply andb_true_iff in FA. destruct FA as [NC DT]. apply Nat.eqb_eq in NC. apply Z.eqb_eq in DT. rewrite NC in *. cbn [slv lib2 fst]. clear LG NC. generalize dependent (@entry Zring M). intros m DT.
    destruct b as [|b0 [|b1 [|]]]; try discriminate. intros [|[|i]] Hi; try lia; unfold vget; cbn [sum nth]; change (@radd Zring) with Z.add; change (@rmul Zring) with Z.mul; change (@r0 Zring) with 0; match goal with |- @eq _ ?a ?b => change (@eq Z a b) end.
    - transitivity ((m 0%nat 0%nat * m 1%nat 1%nat - m 0%nat 1%nat * m 1%nat 0%nat) * b0); [ring|rewrite DT; ring].
    - transitivity ((m 0%nat 0%nat * m 1%nat 1%nat - m 0%nat 1%nat * m 1%nat 0%nat) * b1); [ring|rewrite DT; ring].
  Qed.
  Let A2 : @bmat Zring := [[(0%nat, fun _ _ => 5); (1%nat, fun _ _ => 3)]; [(0%nat, fun _ _ => 3); (1%nat, fun _ _ => 2)]].
  Lemma A2_wf : bmat_wf 2 2 A2.
  Proof. split; [reflexivity|]. repeat constructor. Qed.
  (** a history with every kind of call: an empty matrix (eleven objects leaked), a 2 x 2 matrix, solves, a solve with wrong sizes, one row of the matrix, free, a solve without matrix, the matrix again *)
  Let history : list (@call Zring) :=
    [CSet (R := Zring) 1 0 nil; CSet (R := Zring) 1 2 A2; CApply (R := Zring) [7; 7] [9; 4]; CApply (R := Zring) [7; 7] [9; 4; 1]; CArrays (R := Zring) [7; 7] [9; 4]; CSub (R := Zring) 1 2 A2 [1]%nat; CFree (R := Zring); CApply (R := Zring) [1] [1]; CSet (R := Zring) 1 2 A2].
  Example C79_history_nonvacuous : roomy lib2 /\ sound lib2 /\ Forall wf_call history /\ (exists B, tracks (R := Zring) Nothing history 0 = Some (System 2 B, 11%nat) /\ factorises lib2 2 B true) /\
    forall r, In r [None; Some true; Some false] -> exists st st' x' b', run lib2 (start (R := Zring) (F := Z * Z * Z * Z) r) history = Ok st /\ apply lib2 st [7; 7] [8; 5] = Ok (st', x', b', (1%nat, true)) /\ x' = [1; 1] /\ b' = [-8; -5] /\ destroy st' = Ok 11%nat.
  Proof.
    split; [exact lib2_roomy|]. split; [exact lib2_sound|]. split.
    { constructor; [split; [lia|]; split; [reflexivity|constructor]|]. constructor; [split; [lia|exact A2_wf]|]. constructor; [exact Logic.I|]. constructor; [exact Logic.I|]. constructor; [exact Logic.I|].
      constructor; [cbn [wf_call]; split; [lia|]; split; [exact A2_wf|]; split; [discriminate|]; split; repeat constructor|]. constructor; [exact Logic.I|]. constructor; [exact Logic.I|]. constructor; [split; [lia|exact A2_wf]|constructor]. }
    split; [eexists; split; [reflexivity|]; intros M LG NC EN; unfold lib2; cbn [lufact snd]; rewrite NC, !EN by lia; reflexivity|].
    assert (G : forall r, obind (run lib2 (start (R := Zring) (F := Z * Z * Z * Z) r) history) (fun st => obind (apply lib2 st [7; 7] [8; 5]) (fun y => let '(st', x', b', res) := y in obind (destroy st') (fun n => Ok (x', b', res, n)))) = Ok ([1; 1], [-8; -5], (1%nat, true), 11%nat) ->
      exists st st' x' b', run lib2 (start (R := Zring) (F := Z * Z * Z * Z) r) history = Ok st /\ apply lib2 st [7; 7] [8; 5] = Ok (st', x', b', (1%nat, true)) /\ x' = [1; 1] /\ b' = [-8; -5] /\ destroy st' = Ok 11%nat).
    { intros r E. apply obind_Ok in E. destruct E as (st & E0 & E). apply obind_Ok in E. destruct E as ([[[st' x'] b'] res] & E1 & E). apply obind_Ok in E. destruct E as (n & E2 & E). injection E as -> -> -> ->. exists st, st', [1; 1], [-8; -5]. auto. }
    intros r [<-|[<-|[<-|[]]]]; apply G; match goal with |- _ = ?r => vm_cast_no_check (eq_refl r) end.
  Qed.
  (** the hypotheses of the other theorems are met: a matrix with a zero pivot, a library without memory, a matrix that is not square *)
  Example C79_failure_nonvacuous : exists B, wf_call (CSub 1 2 A2 [1]%nat) /\ track (R := Zring) Nothing (CSub 1 2 A2 [1]%nat) = Some (System 1 B, 0%nat) /\ factorises lib2 1 B false.
  Proof. eexists. split; [cbn [wf_call]; split; [lia|]; split; [exact A2_wf|]; split; [discriminate|]; split; repeat constructor|]. split; [reflexivity|]. intros M _ NC _. unfold lib2; cbn [lufact snd]. rewrite NC. reflexivity. Qed.
  Example C79_memory_nonvacuous : exists lib : library (R := Zring) unit, forall M, ulegal (R := Zring) M -> cN M = (2 * 1)%nat -> room lib M = false.
  Proof. exists (Lib (R := Zring) (F := unit) (fun _ => false) (fun _ => (tt, false)) (fun _ b => (b, b))). auto. Qed.
  Example C79_not_square_nonvacuous : bmat_wf (T := Zring) 1 2 [[(1%nat, fun _ _ => 5)]] /\ bmat_wf (T := Zring) 2 1 [[(0%nat, fun _ _ => 5)]; nil].
  Proof. split; (split; [reflexivity|repeat constructor]). Qed.
End SExamples.
Print Assumptions C79_history.
Print Assumptions C79_memory_refuted.
