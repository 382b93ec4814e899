(** * The Krylov cycle (C64): dune/istl/paamg/kamg.hh, sequential case

    The Krylov method is a template parameter of KAMG.  Here it is any program that calls its preconditioner any number of times,
    decides on the answers, and returns a vector or throws ([kprog]); the coarse solver is any function. *)
From Coq Require Import Arith List Lia Bool ZArith.
From Verif Require Import Ring Sums RingInst Outcome Sparse MatVec AmgTransfer Amg.
Import ListNotations.
Open Scope nat_scope.

Section KAmg.
  Context {R : ring}.
  (** InverseOperator::apply(x, b, res) of a Krylov solver as a program: return x, throw, or apply the preconditioner to (v, d) and go on with the new v.
      (KAmgTwoGrid::pre and post do nothing, kamg.hh:57-63) *)
  Inductive kprog := KRet (x : vec R) | KThrow (e : exn) | KPrec (v d : vec R) (k : vec R -> kprog).
  Variable solve : vec R -> vec R -> vec R * vec R * bool.   (* the coarse solver: (x, b) to (x, b, converged) *)
  Variable damp : R.
  Variables (preSteps postSteps : nat).
  Variable K : smat R -> vec R -> vec R -> kprog.             (* the Krylov solver on the operator: (x, b) to a program *)

  (** running a program with a preconditioner that changes a state *)
  Fixpoint krun {S} (f : S -> vec R -> vec R -> outcome (S * vec R)) (p : kprog) (s : S) : outcome (S * vec R) :=
    match p with
    | KRet x => Ok (s, x)
    | KThrow e => Throw e
    | KPrec v d k => obind (f s v d) (fun r => krun f (k (snd r)) (fst r))
    end.
  (** an element of the vector ksolvers: a KAmgTwoGrid, given by its coarse solver: amg.solver_, or a KrylovSolver on the matrix of a level with another element as preconditioner, kamg.hh:253-289 *)
  Inductive ksol := KCoarse | KKrylov (m q : nat).
  (** the while loop of KAMG::pre, kamg.hh:277-289; [matrix] is the level of the iterator, 0 the finest *)
  Fixpoint preLoop (matrix : nat) (es : list ksol) : list ksol :=
    match matrix with 0 => es | S m => preLoop m (es ++ [KKrylov (S m) (length es - 1)]) end.
  (** KAMG::pre, kamg.hh:251-290, for a hierarchy whose coarsest level is number L (hasCoarsest holds sequentially): what it appends to ksolvers *)
  Definition kpre (L : nat) (es : list ksol) : list ksol := match L with 0 => es | S m => preLoop m (es ++ [KCoarse]) end.
  (** KAmgTwoGrid::apply, kamg.hh:66-87, of element number q, with presmooth, moveToCoarseLevel, moveToFineLevel and postsmooth of AMG (amg.hh:932-1023, smoother.hh:406-442);
      ls and st: levels and vectors from the level of the shared context downwards; all: all levels (the Krylov solvers refer to the matrices by reference); without redistribution *)
  Fixpoint tg (es : list ksol) (all : list (@level R)) (ls : list (@level R)) (q : nat) (st : list (@lst R)) (v d : vec R) {struct ls} : outcome (list (@lst R) * vec R) :=
    match ls, st with
    | l :: ls', s :: s1 :: rest =>
      let s := presmooth l preSteps (mklst v d (setzero (t_upd s))) in
      obind (restrictVector (l_agg l) (t_rhs s1) (t_rhs s)) (fun rhs1 =>
      let x := setzero (t_upd s1) in
      let cst := mklst (t_lhs s1) rhs1 x :: rest in
      obind (match nth_error es q with
             | None => UB
             | Some KCoarse => Ok (cst, fst (fst (solve x rhs1)))
             | Some (KKrylov m q') => match nth_error all m with None => UB | Some lm => krun (fun st v d => tg es all ls' q' st v d) (K (l_A lm) x rhs1) cst end
             end) (fun r =>
      match fst r with
      | nil => UB
      | s1' :: rest' =>
        obind (prolongateVector (l_agg l) (snd r) (setzero (t_lhs s)) damp) (fun cf =>
        let s2 := postsmooth l postSteps (mklst (snd cf) (t_rhs s) (pluseq (t_upd s) (snd cf))) in
        Ok (s2 :: mklst (t_lhs s1') (t_rhs s1') (fst cf) :: rest', t_upd s2))
      end))
    | _, _ => UB
    end.
  (** KAMG::apply, kamg.hh:300-320 *)
  Definition kapply (ls : list (@level R)) (es : list ksol) (st : list (@lst R)) (v d : vec R) : outcome (list (@lst R) * vec R) :=
    match es with nil => Ok (st, fst (fst (solve v d))) | _ => tg es ls ls (length es - 1) st v d end.
  (** the vector after n calls of pre() *)
  Fixpoint kpres (n L : nat) : list ksol := match n with 0 => nil | S k => kpre L (kpres k L) end.

  (** ** Specification: the K-cycle, without stored vectors, contexts and solver objects *)
  (** the value of a program with the preconditioner B *)
  Fixpoint keval (B : vec R -> outcome (vec R)) (p : kprog) : outcome (vec R) :=
    match p with KRet x => Ok x | KThrow e => Throw e | KPrec _ d k => obind (B d) (fun y => keval B (k y)) end.
  (** relax, restrict the residual, solve the coarse system by the Krylov method preconditioned with the K-cycle of the next level (or by the coarse solver), from zero, prolongate and add, relax *)
  Fixpoint kcycle (nc : nat) (ls : list (@level R)) (d : vec R) : outcome (vec R) :=
    match ls with
    | nil => Ok (fst (fst (solve (zerov nc) d)))
    | l :: ls' =>
      let n := length (l_A l) in let N := dim nc ls' in
      let u := relax n (l_A l) (l_pre l) preSteps d (zerov n) in
      let r := Rst (l_agg l) n N (residual n (l_A l) d u) in
      obind (match ls' with nil => Ok (fst (fst (solve (zerov nc) r))) | l' :: _ => keval (kcycle nc ls') (K (l_A l') (zerov N) r) end) (fun c =>
      Ok (relax n (l_A l) (l_post l) postSteps d (vadd n u (Pro damp (l_agg l) n N c))))
    end.
  (** the program keeps to vectors of size n *)
  Inductive kfits (n : nat) : kprog -> Prop :=
  | FRet x : length x = n -> kfits n (KRet x)
  | FThrow e : kfits n (KThrow e)
  | FPrec v d k : length v = n -> length d = n -> (forall y, length y = n -> kfits n (k y)) -> kfits n (KPrec v d k).

  (** ** The solver objects *)
  Lemma preLoop_length m : forall es, length (preLoop m es) = length es + m.
  Proof. induction m as [|m IH]; intros es; cbn [preLoop]; [lia|]. rewrite IH, app_length. cbn. lia. Qed.
  Lemma kpre_length L es : length (kpre L es) = length es + L.
  Proof. destruct L; cbn [kpre]; [lia|]. rewrite preLoop_length, app_length. cbn. lia. Qed.
  Lemma preLoop_old m : forall es k, k < length es -> nth_error (preLoop m es) k = nth_error es k.
  Proof. induction m as [|m IH]; intros es k H; cbn [preLoop]; auto. rewrite IH by (rewrite app_length; lia). now apply nth_error_app1. Qed.
  Lemma preLoop_new m : forall es k, k < m -> nth_error (preLoop m es) (length es + k) = Some (KKrylov (m - k) (length es + k - 1)).
  Proof.
    induction m as [|m IH]; intros es k H; [lia|]. cbn [preLoop]. destruct k as [|k].
    - rewrite Nat.add_0_r. rewrite preLoop_old by (rewrite app_length; cbn; lia). rewrite nth_error_app2, Nat.sub_diag by lia. cbn. do 2 f_equal.
    - set (es' := es ++ [KKrylov (S m) (length es - 1)]). assert (L : length es' = S (length es)) by (unfold es'; rewrite app_length; cbn; lia).
      replace (length es + S k) with (length es' + k) by lia. rewrite IH by lia. do 2 f_equal; lia.
  Qed.
  (** the last L elements after pre(): the one for level i (0 the finest) is number base + (L - 1 - i) *)
  Lemma kpre_entry L es i : i < L -> nth_error (kpre L es) (length es + (L - 1 - i)) = Some (if S i =? L then KCoarse else KKrylov (S i) (length es + (L - 1 - i) - 1)).
  Proof.
    intros H. destruct L as [|m]; [lia|]. cbn [kpre]. set (es' := es ++ [KCoarse]). assert (L' : length es' = S (length es)) by (unfold es'; rewrite app_length; cbn; lia).
    destruct (Nat.eqb_spec (S i) (S m)) as [Q|Q].
    - assert (i = m) by lia. subst i. replace (length es + (S m - 1 - m)) with (length es) by lia. rewrite preLoop_old by lia. unfold es'. rewrite nth_error_app2, Nat.sub_diag by lia. reflexivity.
    - replace (length es + (S m - 1 - i)) with (length es' + (m - 1 - i)) by lia. rewrite preLoop_new by lia. do 2 f_equal; lia.
  Qed.

  (** ** The cycle *)
  Variable nc : nat.
  Hypothesis solve_sizes : forall u b, length u = nc -> length b = nc -> length (fst (fst (solve u b))) = nc.
  Hypothesis K_fits : forall n A x b, mat_wf n n A -> length x = n -> length b = n -> kfits n (K A x b).
  Lemma kcycle_length ls d u : length d = dim nc ls -> kcycle nc ls d = Ok u -> length u = dim nc ls.
  Proof.
    intros H E. destruct ls as [|l ls']; cbn [kcycle dim] in *.
    - injection E as <-. apply solve_sizes; auto. apply zerov_length.
    - cbv zeta in E. match type of E with obind ?o _ = _ => destruct o as [c| |] eqn:EC end; cbn [obind] in E; try discriminate. injection E as <-. apply relax_length. apply vadd_length.
  Qed.
  Lemma keval_length n B p : kfits n p -> (forall d u, length d = n -> B d = Ok u -> length u = n) -> forall x, keval B p = Ok x -> length x = n.
  Proof.
    intros F HB. induction F as [x L|e|v d k Lv Ld Fk IH]; intros y E; cbn [keval] in E; [injection E as <-; auto|discriminate|].
    destruct (B d) as [z| |] eqn:EB; cbn [obind] in E; try discriminate. eapply IH; [|exact E]. eapply HB; eauto.
  Qed.
  (** running against the stored vectors and evaluating agree *)
  Lemma krun_ok {S} (Inv : S -> Prop) n f B p : kfits n p ->
    (forall s v d, Inv s -> length v = n -> length d = n -> match B d with Ok u => length u = n /\ exists s', f s v d = Ok (s', u) /\ Inv s' | Throw e => f s v d = Throw e | UB => f s v d = UB end) ->
    forall s, Inv s -> match keval B p with Ok u => exists s', krun f p s = Ok (s', u) /\ Inv s' | Throw e => krun f p s = Throw e | UB => krun f p s = UB end.
  Proof.
    intros F H. induction F as [x L|e|v d k Lv Ld Fk IH]; intros s I; cbn [keval krun]; [eauto|auto|].
    specialize (H s v d I Lv Ld). destruct (B d) as [u|e|]; [|rewrite H; reflexivity|rewrite H; reflexivity]. destruct H as (Lu & s' & E & I'). rewrite E. cbn [obind fst snd]. apply IH; auto.
  Qed.
  Lemma tg_ok es0 all : let es := kpre (length all) es0 in forall ls pre, all = pre ++ ls -> ls <> nil -> hier_ok nc ls -> forall st v d, shape nc ls st -> length v = dim nc ls -> length d = dim nc ls ->
    match kcycle nc ls d with
    | Ok u => exists st', tg es all ls (length es0 + (length ls - 1)) st v d = Ok (st', u) /\ shape nc ls st'
    | Throw e => tg es all ls (length es0 + (length ls - 1)) st v d = Throw e
    | UB => tg es all ls (length es0 + (length ls - 1)) st v d = UB
    end.
  Proof.
    intros es. induction ls as [|l ls IH]; intros pre EA NE HH st v d SH Hv Hd; [congruence|]. clear NE.
    cbn [hier_ok] in HH. destruct HH as [HL HH]. pose proof HL as (HA & HG & HS1 & HS2). cbn [dim] in Hv, Hd. set (n := length (l_A l)) in *. set (N := dim nc ls) in *.
    destruct st as [|s st]; [contradiction|]. cbn [shape] in SH. destruct SH as [SZ SH]. fold n in SZ. destruct st as [|s1 rest]; [destruct ls; contradiction|].
    assert (SZ1 : sized N s1). { unfold N. destruct ls as [|l1 ls1]; cbn [shape] in SH; [destruct rest; [|contradiction]|destruct SH as [SH _]]; exact SH. }
    destruct SZ as (Z1 & Z2 & Z3). destruct SZ1 as (Y1 & Y2 & Y3). cbn [tg kcycle]. rewrite (setzero_eq n) by auto. fold n N.
    destruct (presmooth_ok l n preSteps eq_refl HA HS1 (mklst v d (zerov n)) d (zerov n)) as (SP & RP & x & X1 & X2 & X3); [repeat split; cbn; auto; apply zerov_length|auto|apply zerov_length|cbn; rewrite residual_0; auto|].
    set (sp := presmooth l preSteps (mklst v d (zerov n))) in *. set (u := relax n (l_A l) (l_pre l) preSteps d (zerov n)) in *.
    rewrite vadd_0_l in X2 by auto. subst x. assert (Hu : length u = n) by auto. cbn [t_upd] in X3. rewrite vadd_0_l in X3 by auto.
    rewrite (restrict_eq (l_agg l) n N) by (auto; apply SP). cbn [obind]. rewrite RP. set (r := Rst (l_agg l) n N (residual n (l_A l) d u)).
    assert (Hr : length r = N) by apply vecf_length. rewrite (setzero_eq N) by auto. set (s1a := mklst (t_lhs s1) r (zerov N)).
    assert (SHa : shape nc ls (s1a :: rest)).
    { destruct ls as [|l1 ls1]; cbn [shape] in *; [destruct rest; [|contradiction]; unfold N in *; repeat split; cbn; auto; apply zerov_length|].
      destruct SH as [_ SH]. split; auto. unfold N in *; repeat split; cbn; auto. apply zerov_length. }
    assert (LA : length all = length pre + S (length ls)) by (rewrite EA, app_length; reflexivity).
    assert (NQ : nth_error es (length es0 + (length (l :: ls) - 1)) = Some (if length ls =? 0 then KCoarse else KKrylov (S (length pre)) (length es0 + (length ls - 1)))).
    { pose proof (kpre_entry (length all) es0 (length pre) ltac:(lia)) as E. fold es in E. cbn [length]. replace (length all - 1 - length pre) with (length ls) in E by lia.
      replace (S (length ls) - 1) with (length ls) by lia. rewrite E. replace (S (length pre) =? length all) with (length ls =? 0) by (destruct (Nat.eqb_spec (length ls) 0), (Nat.eqb_spec (S (length pre)) (length all)); auto; lia).
      destruct (Nat.eqb_spec (length ls) 0); auto. do 2 f_equal; lia. }
    rewrite NQ.
    cbv iota.
    set (ccase := match ls with nil => Ok (fst (fst (solve (zerov nc) r))) | l' :: _ => keval (kcycle nc ls) (K (l_A l') (zerov N) r) end).
    set (cs := match (if length ls =? 0 then KCoarse else KKrylov (S (length pre)) (length es0 + (length ls - 1))) with KCoarse => Ok (s1a :: rest, fst (fst (solve (zerov N) r))) | KKrylov m q' => match nth_error all m with None => UB | Some lm => krun (fun st v d => tg es all ls q' st v d) (K (l_A lm) (zerov N) r) (s1a :: rest) end end).
    assert (CC : match ccase with Ok c => length c = N /\ exists st', cs = Ok (st', c) /\ shape nc ls st' | Throw e => cs = Throw e | UB => cs = UB end).
    { unfold ccase, cs. destruct ls as [|l1 ls1]; cbn [length Nat.eqb].
      - split; [apply solve_sizes; auto; apply zerov_length|]. exists (s1a :: rest). auto.
      - assert (NM : nth_error all (S (length pre)) = Some l1). { rewrite EA. change (l :: l1 :: ls1) with ([l] ++ l1 :: ls1). rewrite app_assoc, nth_error_app2 by (rewrite app_length; cbn; lia). rewrite app_length. cbn [length]. replace (S (length pre) - (length pre + 1)) with 0 by lia. reflexivity. }
        rewrite NM. change (length (l1 :: ls1)) with (S (length ls1)). change N with (length (l_A l1)) in *. pose proof HH as [HL1 _]. pose proof HL1 as (HA1 & _).
        pose proof (K_fits (length (l_A l1)) (l_A l1) (zerov (length (l_A l1))) r HA1 (zerov_length _) Hr) as FK.
        pose proof (krun_ok (shape nc (l1 :: ls1)) (length (l_A l1)) (fun st v d => tg es all (l1 :: ls1) (length es0 + (S (length ls1) - 1)) st v d) (kcycle nc (l1 :: ls1)) _ FK) as KR.
        assert (PK : forall (s : list (@lst R)) (v d : vec R), shape nc (l1 :: ls1) s -> length v = length (l_A l1) -> length d = length (l_A l1) -> match kcycle nc (l1 :: ls1) d with
          | Ok u => length u = length (l_A l1) /\ exists s' : list (@lst R), tg es all (l1 :: ls1) (length es0 + (S (length ls1) - 1)) s v d = Ok (s', u) /\ shape nc (l1 :: ls1) s'
          | Throw e => tg es all (l1 :: ls1) (length es0 + (S (length ls1) - 1)) s v d = Throw e | UB => tg es all (l1 :: ls1) (length es0 + (S (length ls1) - 1)) s v d = UB end).
        { intros s2 v2 d2 S2 V2 D2. pose proof (IH (pre ++ [l]) ltac:(rewrite <- app_assoc; exact EA) ltac:(discriminate) HH s2 v2 d2 S2 V2 D2) as I2. change (length (l1 :: ls1)) with (S (length ls1)) in I2.
          destruct (kcycle nc (l1 :: ls1) d2) as [u2| |] eqn:E2; auto. split; [apply (kcycle_length (l1 :: ls1) d2); auto|exact I2]. }
        specialize (KR PK (s1a :: rest) SHa). destruct (keval (kcycle nc (l1 :: ls1)) (K (l_A l1) (zerov (length (l_A l1))) r)) as [c| |] eqn:EK; auto.
        split; auto. eapply (keval_length (length (l_A l1)) (kcycle nc (l1 :: ls1))); [exact FK| |exact EK]. intros d2 u2 D2 E2. apply (kcycle_length (l1 :: ls1) d2); auto. }
    destruct ccase as [c|e|]; cbn [obind].
    - destruct CC as (Hc & st' & EC & SH').
      rewrite EC. cbn [obind fst snd]. destruct st' as [|s1' rest']; [destruct ls; contradiction|].
      assert (SZ1' : sized N s1'). { unfold N. destruct ls as [|l1 ls1]; cbn [shape] in SH'; [destruct rest'; [|contradiction]|destruct SH' as [SH' _]]; exact SH'. }
      destruct SZ1' as (W1 & W2 & W3). destruct SP as (P1 & P2 & P3). rewrite (setzero_eq n) by auto.
      destruct (prolong_eq damp (l_agg l) n N c Hc HG) as (c' & C1 & C2). rewrite C2. cbn [obind fst snd]. set (pc := Pro damp (l_agg l) n N c).
      assert (Hpc : length pc = n) by apply vecf_length. rewrite (pluseq_eq n) by auto. rewrite X3. set (s2 := mklst pc (residual n (l_A l) d u) (vadd n u pc)).
      destruct (postsmooth_ok l n postSteps eq_refl HA HS2 s2 d (vadd n u pc)) as (Q1 & Q2 & y & Q3 & Q4 & Q5); auto.
      { repeat split; cbn; auto; [apply residual_length|apply vadd_length]. }
      { apply vadd_length. }
      { cbn. symmetry. apply residual_add. }
      eexists. split; [f_equal; f_equal; rewrite Q5, Q4; reflexivity|]. cbn [shape]. split; [exact Q1|].
      destruct ls as [|l1 ls1]; cbn [shape] in *; [destruct rest'; [|contradiction]; unfold N in *; repeat split; cbn; auto|]. destruct SH' as [_ SH']. split; auto. unfold N in *; repeat split; cbn; auto.
    - rewrite CC. reflexivity.
    - rewrite CC. reflexivity.
  Qed.
  (** after at least one call of pre(), apply(v, d) computes the K-cycle of d, whatever v and the stored vectors are and however often pre() was called *)
  Theorem C64_kcycle ls st v d times : hier_ok nc ls -> ls <> nil -> shape nc ls st -> length v = dim nc ls -> length d = dim nc ls -> 0 < times ->
    match kcycle nc ls d with
    | Ok u => exists st', kapply ls (kpres times (length ls)) st v d = Ok (st', u) /\ shape nc ls st' /\ length u = length v
    | Throw e => kapply ls (kpres times (length ls)) st v d = Throw e
    | UB => False
    end.
  Proof.
    intros HH NE SH Hv Hd T. destruct times as [|k]; [lia|]. cbn [kpres]. set (es0 := kpres k (length ls)).
    assert (LP : 0 < length ls) by (destruct ls; [congruence|cbn; lia]). pose proof (kpre_length (length ls) es0) as LE.
    assert (EK : kapply ls (kpre (length ls) es0) st v d = tg (kpre (length ls) es0) ls ls (length es0 + (length ls - 1)) st v d).
    { unfold kapply. destruct (kpre (length ls) es0) eqn:E; [cbn in LE; lia|]. rewrite <- E in *. f_equal. lia. }
    rewrite EK. pose proof (tg_ok es0 ls ls nil eq_refl NE HH st v d SH Hv Hd) as TG. cbv zeta in TG. destruct (kcycle nc ls d) as [u|e|] eqn:EC; auto.
    - destruct TG as (st' & E & S'). exists st'. split; auto. split; auto. rewrite Hv. apply (kcycle_length ls d); auto.
    - clear - EC. assert (NU : forall ls d, kcycle nc ls d <> UB); [|exact (NU ls d EC)]. clear. induction ls as [|l ls IH]; intros d E; cbn [kcycle] in E; [discriminate|]. cbv zeta in E. destruct ls as [|l1 ls1]; [discriminate|].
      match type of E with obind ?o _ = _ => destruct o eqn:EO end; cbn [obind] in E; try discriminate.
      clear E. revert EO. generalize (K (l_A l1) (zerov (dim nc (l1 :: ls1))) (Rst (l_agg l) (length (l_A l)) (dim nc (l1 :: ls1)) (residual (length (l_A l)) (l_A l) d (relax (length (l_A l)) (l_A l) (l_pre l) preSteps d (zerov (length (l_A l))))))).
      intros p. induction p as [x|e|v d0 k IHp]; cbn [keval]; try discriminate. destruct (kcycle nc (l1 :: ls1) d0) as [y| |] eqn:EB; cbn [obind]; try discriminate; [apply IHp|]. intros _. apply (IH d0 EB).
  Qed.
End KAmg.

(** ** A Krylov method: LoopSolver *)
Section Loop.
  Context {R : ring}.
  (** iteration.step(i, norm(defect)): a decision on the first defect, the step and the current defect (solver.hh:457-490) *)
  Variable stop : vec R -> nat -> vec R -> bool.
  (** the loop of LoopSolver::apply, solvers.hh:94-103; k iterations are left, i is the number of the next one *)
  Fixpoint loopSteps (A : smat R) (b0 : vec R) (k i : nat) (x b : vec R) : @kprog R :=
    match k with
    | 0 => KRet x
    | S k' => KPrec (setzero x) b (fun v => let x' := pluseq x v in let b' := bcrs_usmv (ropp r1) A v b in if stop b0 i b' then KRet x' else loopSteps A b0 k' (S i) x' b')
    end.
  (** LoopSolver::apply, solvers.hh:73-107 *)
  Definition loopK (maxit : nat) (A : smat R) (x b : vec R) : @kprog R :=
    let b0 := bcrs_usmv (ropp r1) A x b in if stop b0 0 b0 then KRet x else loopSteps A b0 maxit 1 x b0.
  Theorem C64_loop_fits maxit n A x b : mat_wf n n A -> length x = n -> length b = n -> kfits n (loopK maxit A x b).
  Proof.
    intros HA Hx Hb. unfold loopK. rewrite (usmv_eq n) by auto. set (b0 := residual n A b x). destruct (stop b0 0 b0); [constructor; auto|].
    assert (H0 : length b0 = n) by apply residual_length. clearbody b0. assert (G : forall i x b1, length x = n -> length b1 = n -> kfits n (loopSteps A b0 maxit i x b1)); [|apply G; auto]. clear x Hx H0 b Hb. induction maxit as [|k IH]; intros i x b1 Hx H1; cbn [loopSteps]; [constructor; auto|].
    constructor; auto; [unfold setzero; rewrite map_length; auto|]. intros v Hv. cbv zeta. rewrite (usmv_eq n), (pluseq_eq n) by auto. destruct (stop b0 i (residual n A b1 v)); [constructor; apply vadd_length|]. apply IH; [apply vadd_length|apply residual_length].
  Qed.
  (** without an early stop the value is maxit steps of c := c + B (r - A c) *)
  Lemma loop_correct maxit n A B r : (forall b0 i b, stop b0 i b = false) -> mat_wf n n A -> length r = n -> (forall d, length d = n -> length (B d) = n) ->
    keval (fun d => Ok (B d)) (loopK maxit A (zerov n) r) = Ok (correct n A B maxit r (zerov n)).
  Proof.
    intros NS HA Hr HB. unfold loopK. rewrite NS. rewrite (usmv_eq n) by (auto; apply zerov_length). set (b0 := residual n A r (zerov n)).
    assert (G : forall k i x b, length x = n -> b = residual n A r x -> keval (fun d => Ok (B d)) (loopSteps A b0 k i x b) = Ok (correct n A B k r x)).
    { induction k as [|k IH]; intros i x b Hx E; cbn [loopSteps keval correct]; auto. cbn [obind]. rewrite NS. subst b. assert (LB : length (B (residual n A r x)) = n) by (apply HB, residual_length).
      rewrite (pluseq_eq n), (usmv_eq n) by (auto; apply residual_length). apply IH; [apply vadd_length|]. symmetry. apply residual_add. }
    apply G; auto. apply zerov_length.
  Qed.
  Lemma keval_ext (B B' : vec R -> outcome (vec R)) n p : kfits n p -> (forall d, length d = n -> B d = B' d) -> (forall d u, length d = n -> B d = Ok u -> length u = n) -> keval B p = keval B' p.
  Proof.
    intros F E L. induction F as [x H|e|v d k Hv Hd Fk IH]; cbn [keval]; auto. rewrite <- E by auto. destruct (B d) as [u| |] eqn:EB; cbn [obind]; auto. apply IH. eapply L; eauto.
  Qed.
  (** with LoopSolver and maxLevelKrylovSteps = gamma the K-cycle is the cycle of AMG with that gamma (the V-cycle for 1, the W-cycle for 2) *)
  Theorem C64_gamma_cycle solve damp preSteps postSteps gamma nc ls d : (forall b0 i b, stop b0 i b = false) -> gamma <> 0 ->
    (forall u b, length u = nc -> length b = nc -> length (fst (fst (solve u b))) = nc /\ length (snd (fst (solve u b))) = nc) -> hier_ok nc ls -> length d = dim nc ls ->
    kcycle solve damp preSteps postSteps (loopK gamma) nc ls d = Ok (cycle solve damp preSteps postSteps gamma nc ls d).
  Proof.
    intros NS GP SS. revert d. induction ls as [|l ls IH]; intros d HH Hd; [reflexivity|]. cbn [hier_ok] in HH. destruct HH as [HL HH]. cbn [kcycle cycle]. cbv zeta.
    set (n := length (l_A l)). set (N := dim nc ls). match goal with |- context [Rst ?a ?b ?c ?e] => set (r := Rst a b c e) end. assert (Hr : length r = N) by apply vecf_length.
    assert (E : match ls with nil => Ok (fst (fst (solve (zerov nc) r))) | l' :: _ => keval (kcycle solve damp preSteps postSteps (loopK gamma) nc ls) (loopK gamma (l_A l') (zerov N) r) end
      = Ok (match ls with nil => match gamma with 0 => zerov N | _ => cycle solve damp preSteps postSteps gamma nc ls r end | l' :: _ => correct N (l_A l') (cycle solve damp preSteps postSteps gamma nc ls) gamma r (zerov N) end)).
    { destruct ls as [|l1 ls1]; [destruct gamma; [congruence|reflexivity]|]. pose proof HH as [HL1 _]. pose proof HL1 as (HA1 & _). change N with (length (l_A l1)) in *.
      rewrite (keval_ext _ (fun d => Ok (cycle solve damp preSteps postSteps gamma nc (l1 :: ls1) d)) (length (l_A l1))).
      - apply loop_correct; auto. intros d' Hd'. apply (cycle_length solve damp preSteps postSteps gamma nc SS (l1 :: ls1)); auto.
      - apply C64_loop_fits; auto. apply zerov_length.
      - intros d' Hd'. apply IH; auto.
      - intros d' u Hd' EU. rewrite IH in EU by auto. injection EU as <-. apply (cycle_length solve damp preSteps postSteps gamma nc SS (l1 :: ls1)); auto. }
    rewrite E. reflexivity.
  Qed.
End Loop.

(** every call of pre() appends one solver object per level to the vector and none is ever removed (kamg.hh:251-299: post() does not clear it) *)
Theorem C64_growth_refuted times L : length (kpres times L) = times * L.
Proof. induction times as [|k IH]; cbn [kpres]; auto. rewrite kpre_length, IH. cbn. lia. Qed.
(** a hierarchy with one level, or a missing pre(): the coarse solver is applied to v and d as they are *)
Theorem C64_single_level {R : ring} solve (damp : R) preSteps postSteps K ls st v d : (forall times, kpres times 0 = nil) /\ kapply solve damp preSteps postSteps K ls nil st v d = Ok (st, fst (fst (solve v d))).
Proof. split; [|reflexivity]. induction times as [|k IH]; cbn; auto. Qed.

(** ** Examples *)
Definition exK : smat Zring -> vec Zring -> vec Zring -> @kprog Zring := loopK (fun _ _ _ => false) 2.
Example C64_nonvacuous :
  hier_ok 1 [exl4; exl2] /\ shape 1 [exl4; exl2] exst /\ (forall u b, length u = 1 -> length b = 1 -> length (fst (fst (exsolve u b))) = 1) /\ (forall n A x b, mat_wf n n A -> length x = n -> length b = n -> kfits n (exK A x b)) /\
  kpres 2 2 = [KCoarse; KKrylov 1 0; KCoarse; KKrylov 1 2] /\
  match kapply (R := Zring) exsolve 1%Z 1 1 exK [exl4; exl2] (kpres 2 2) exst [8%Z; 8%Z; 8%Z; 8%Z] [1%Z; 2%Z; 3%Z; 4%Z] with Ok (_, v) => Some v | _ => None end = Some (cycle (R := Zring) exsolve 1%Z 1 1 2 1 [exl4; exl2] [1%Z; 2%Z; 3%Z; 4%Z]).
Proof.
  pose proof C36_nonvacuous as (H1 & H2 & _ & H3 & _). split; [exact H1|]. split; [exact H2|]. split; [intros; apply H3; auto|]. split; [intros; apply C64_loop_fits; auto|]. split; [reflexivity|vm_compute; reflexivity].
Qed.
(** a Krylov method that decides on the answers: three levels, stop as soon as the defect vanishes *)
Definition exK3 : smat Zring -> vec Zring -> vec Zring -> @kprog Zring := @loopK Zring (fun _ _ b => forallb (fun z : Z => Z.eqb z 0) b) 3.
Example C64_adaptive_nonvacuous : match kapply (R := Zring) exsolve 1%Z 1 1 exK3 [exl4; exl2] (kpres 1 2) exst [8%Z; 8%Z; 8%Z; 8%Z] [1%Z; 2%Z; 3%Z; 4%Z] with Ok (_, v) => Ok v | Throw e => Throw e | UB => UB end = kcycle (R := Zring) exsolve 1%Z 1 1 exK3 1 [exl4; exl2] [1%Z; 2%Z; 3%Z; 4%Z].
Proof. vm_compute. reflexivity. Qed.
(** Deviation: with one level the initial content of v is used as a start value (an AMG would start from zero): the result depends on it *)
Definition exstep (x b : vec Zring) : vec Zring * vec Zring * bool := (map (fun p => (fst p + (snd p - 2 * fst p))%Z) (combine x b), b, true).
Theorem C64_single_level_refuted : exists st v v' d, match kapply (R := Zring) exstep 1%Z 1 1 exK [] (kpres 1 0) st v d, kapply (R := Zring) exstep 1%Z 1 1 exK [] (kpres 1 0) st v' d with Ok (_, u), Ok (_, u') => u <> u' | _, _ => False end.
Proof. exists [], [0%Z], [1%Z], [5%Z]. cbn. discriminate. Qed.
(** Deviation: a coarse solver that does not converge is not noticed, AMG::apply throws in the same situation *)
Definition exfail (u b : vec Zring) : vec Zring * vec Zring * bool := (map (fun x => (3 * x)%Z) b, b, false).
Theorem C64_divergence_refuted : hier_ok 1 [exl4; exl2] /\ (forall u b, snd (exfail u b) = false) /\
  amg_apply (R := Zring) exfail 1%Z 1 1 1 [exl4; exl2] exst true [0%Z; 0%Z; 0%Z; 0%Z] [1%Z; 2%Z; 3%Z; 4%Z] = Throw EMath /\
  exists st' v, kapply (R := Zring) exfail 1%Z 1 1 exK [exl4; exl2] (kpres 1 2) exst [0%Z; 0%Z; 0%Z; 0%Z] [1%Z; 2%Z; 3%Z; 4%Z] = Ok (st', v).
Proof.
  pose proof C36_nonvacuous as (H1 & _). split; [exact H1|]. split; [reflexivity|]. split; [vm_compute; reflexivity|]. eexists. eexists. vm_compute. reflexivity.
Qed.
