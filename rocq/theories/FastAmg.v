(** * FastAMG (C48): paamg/fastamg.hh and paamg/fastamgsmoother.hh, sequential case *)
From Coq Require Import Arith List Lia Bool.
From Verif Require Import Ring Sums RingInst Outcome Sparse MatVec GsModel Gs Precond AmgTransfer Amg.
Import ListNotations.
Open Scope nat_scope.

Section FwdInv.
  Context {B X E : Type}.
  Lemma fwd_inv (f : nat -> list (nat * B) -> list X -> E -> outcome (X * E)) (P : nat -> list X -> E -> Prop) rows : forall k x e, P k x e ->
    (forall i xi ei, i < length rows -> P (k + i) xi ei -> exists u e', f (k + i) (nth i rows nil) xi ei = Ok (u, e') /\ P (S (k + i)) (upd xi (k + i) u) e') ->
    exists x' e', fwd f k rows x e = Ok (x', e') /\ P (k + length rows) x' e'.
  Proof.
    induction rows as [|row t IH]; intros k x e H0 HS; cbn [fwd length].
    - rewrite Nat.add_0_r. eauto.
    - destruct (HS 0 x e) as (u & e' & F & P1); [cbn; lia|rewrite Nat.add_0_r; auto|]. rewrite Nat.add_0_r in F, P1. cbn [nth] in F. rewrite F. cbn [obind fst snd].
      destruct (IH (S k) (upd x k u) e' P1) as (x' & e2 & F2 & P2).
      + intros i xi ei Hi Hp. destruct (HS (S i) xi ei) as (u' & e3 & F3 & P3); [cbn; lia|rewrite Nat.add_succ_r; auto|]. rewrite Nat.add_succ_r in F3, P3. eauto.
      + exists x', e2. split; auto. rewrite Nat.add_succ_r. exact P2.
  Qed.
  Lemma bwd_len {Y} (f : nat -> list (nat * B) -> list X -> list Y -> outcome (X * list Y)) : (forall i row x e u e', f i row x e = Ok (u, e') -> length e' = length e) ->
    forall rows k x e x' e', bwd f k rows x e = Ok (x', e') -> length e' = length e.
  Proof.
    intros H. induction rows as [|row t IH]; intros k x e x' e' EE; cbn [bwd] in EE; [congruence|].
    destruct (bwd f (S k) t x e) as [[x1 e1]|ex|] eqn:E1; cbn [obind fst snd] in EE; try discriminate. destruct (f k row x1 e1) as [[u e2]|ex|] eqn:E2; cbn [obind fst snd] in EE; try discriminate.
    injection EE as _ <-. apply IH in E1. apply H in E2. congruence.
  Qed.
End FwdInv.

Section FastAmg.
  Context {R : ring}.
  Local Open Scope ring_scope_istl.
  Variable inv : R -> option R.
  Hypothesis inv_ok : forall a u, inv a = Some u -> a * u = r1 /\ u * a = r1.

  (** the last loop of presmoothing, fastamgsmoother.hh:47-48: for(col=row.begin(); col.index()<row.index(); ++col) col->mmv( *xIter, d[col.index()]) *)
  Fixpoint scatter (i : nat) (row : srow R) (xi : R) (d : vec R) : vec R :=
    match row with
    | (j, a) :: t => if j <? i then scatter i t xi (upd d j (blk_mmv a xi (nth j d r0))) else d
    | nil => d
    end.
  (** GaussSeidelPresmoothDefect::apply, fastamgsmoother.hh:20-51; a row without diagonal entry fails the assertion or runs past its end: UB *)
  Definition presmooth_defect (A : smat R) (x d b : vec R) : outcome (vec R * vec R) :=
    fwd (fun i row x d =>
      let (rhs, rest) := lower_loop r0 blk_mmv i row x (nth i b r0) in
      match rest with
      | (j, a) :: _ => if j =? i then obind (blk_solve inv a rhs) (fun u => Ok (u, scatter i row u (upd d i r0))) else UB
      | nil => UB
      end) 0 A x d.
  (** GaussSeidelPostsmoothDefect::apply, fastamgsmoother.hh:58-96 *)
  Definition postsmooth_defect (A : smat R) (x d b : vec R) : outcome (vec R * vec R) :=
    bwd (fun i row x d =>
      let (rhs, rest) := upper_loop r0 blk_mmv i (rev row) x (nth i b r0) in
      match rest with
      | (j, a) :: lo => if j =? i then let v := rest_loop r0 blk_mmv lo x rhs in obind (blk_solve inv a v) (fun u => Ok (u, upd d i (rhs - v))) else UB
      | nil => UB
      end) 0 A x d.

  Variable solve : vec R -> vec R -> vec R * vec R * bool.
  Variable damp : R.
  (** the gamma loop, fastamg.hh:695-698 *)
  Fixpoint fgloop (f : list (@lst R) -> bool -> outcome (list (@lst R) * bool)) (g : nat) (st : list (@lst R)) (conv : bool) : outcome (list (@lst R) * bool) :=
    match g with 0 => Ok (st, conv) | S g' => obind (f st conv) (fun r => fgloop f g' (fst r) (snd r)) end.
  (** mgc with moveToCoarseLevel, moveToFineLevel, presmooth and postsmooth, fastamg.hh:548-712, without redistribution. A level is a matrix and its aggregates map. Of the vectors of a level, t_lhs is v (the member lhs_ on coarse levels), t_rhs is b and t_upd is the member residual_ *)
  Fixpoint fmgc (gamma : nat) (ls : list (smat R * (nat -> aggd))) (finest : bool) (st : list (@lst R)) (conv : bool) {struct ls} : outcome (list (@lst R) * bool) :=
    match ls, st with
    | nil, s :: nil => let '(u, b, ok) := solve (t_lhs s) (t_rhs s) in Ok ([mklst u b (t_upd s)], conv && ok)
    | l :: ls', s :: s1 :: rest =>
      obind (presmooth_defect (fst l) (t_lhs s) (t_upd s) (t_rhs s)) (fun xd =>
      obind (restrictVector (snd l) (t_rhs s1) (snd xd)) (fun rhs1 =>
      obind (fgloop (fmgc gamma ls' false) gamma (mklst (setzero (t_lhs s1)) rhs1 (setzero (t_upd s1)) :: rest) conv) (fun r =>
      match fst r with
      | nil => UB
      | s1' :: rest' =>
        obind (prolongateVector (snd l) (t_lhs s1') (fst xd) damp) (fun cf =>
        if finest && negb (snd r) then Throw EMath else
        obind (postsmooth_defect (fst l) (snd cf) (snd xd) (t_rhs s)) (fun xd2 =>
        Ok (mklst (fst xd2) (t_rhs s) (snd xd2) :: mklst (fst cf) (t_rhs s1') (t_upd s1') :: rest', snd r)))
      end)))
    | _, _ => UB
    end.
  (** FastAMG::apply, fastamg.hh:509-527: v and d are used in place of the finest level's lhs and rhs *)
  Definition fast_apply (gamma : nat) (ls : list (smat R * (nat -> aggd))) (st : list (@lst R)) (conv : bool) (v d : vec R) : outcome (vec R * list (@lst R) * bool) :=
    match st with
    | s :: rest => obind (fmgc gamma ls true (mklst v d (t_upd s) :: rest) conv) (fun r => match fst r with s' :: _ => Ok (t_lhs s', fst r, snd r) | nil => UB end)
    | nil => UB
    end.

  (** ** The smoothers *)
  Lemma scatter_app i lo a hi xi : forall d, Forall (fun e => fst e < i) lo -> scatter i (lo ++ (i, a) :: hi) xi d = fold_left (fun d e => upd d (fst e) (blk_mmv (snd e) xi (nth (fst e) d r0))) lo d.
  Proof.
    induction lo as [|[j c] t IH]; intros d H; cbn [app scatter fold_left fst snd].
    - rewrite Nat.ltb_irrefl. auto.
    - inversion H; subst. cbn in *. destruct (Nat.ltb_spec j i); [|lia]. apply IH. auto.
  Qed.
  Lemma scatter_get m (lo : srow R) xi : row_wf m lo -> forall d, m <= length d -> let d' := fold_left (fun d e => upd d (fst e) (blk_mmv (snd e) xi (nth (fst e) d r0))) lo d in
    length d' = length d /\ forall j, vget d' j = vget d j - denrow lo j * xi.
  Proof.
    cbv zeta. induction lo as [|[k c] t IH]; intros HW d Hd; cbn [fold_left fst snd].
    - split; auto. intros j. cbn [denrow]. ncring.
    - pose proof HW as [HS HF]. cbn [map fst] in HS, HF. apply Sorted.StronglySorted_inv in HS. destruct HS as [HS HL]. inversion HF as [|? ? HK HF']; subst.
      destruct (IH (conj HS HF') (upd d k (blk_mmv c xi (nth k d r0))) ltac:(rewrite upd_length; auto)) as [L V]. rewrite upd_length in L. split; auto. intros j. rewrite V. cbn [denrow].
      destruct (Nat.eqb_spec k j) as [->|NE].
      + rewrite (denrow_notin t j). { unfold vget. rewrite nth_upd_eq by lia. unfold blk_mmv. ncring. }
        intros HI. rewrite Forall_forall in HL. specialize (HL j HI). lia.
      + unfold vget. rewrite nth_upd_ne by auto. reflexivity.
  Qed.
  Lemma wf_split2 n (A : smat R) i : mat_wf n n A -> i < n -> instored A i i ->
    exists lo hi, nth i A nil = lo ++ (i, den A i i) :: hi /\ Forall (fun e => fst e < i) lo /\ Forall (fun e => i < fst e) hi /\ row_wf n lo /\
      (forall v r, minus_all r0 blk_mmv lo v r = r - sum n (fun j => Lp A i j * vget v j)) /\
      (forall v r, minus_all r0 blk_mmv (rev lo) v r = r - sum n (fun j => Lp A i j * vget v j)) /\
      (forall v r, minus_all r0 blk_mmv (rev hi) v r = r - sum n (fun j => Up A i j * vget v j)) /\ forall j, denrow lo j = Lp A i j.
  Proof.
    intros HW Hi HI. pose proof (mat_wf_row n n A i HW) as HR. destruct (split_row _ i (proj1 HR) HI) as (lo & a & hi & E & H1 & H2).
    destruct (split_den n _ lo hi i a HR E H1 H2) as (W1 & W2 & Ea & D1 & D2).
    exists lo, hi. unfold den at 1. rewrite Ea. split; auto. split; auto. split; auto. split; auto. unfold Lp, Up, den.
    split; [|split; [|split]]; [intros v r; rewrite (minus_all_sum n) by auto|intros v r; rewrite (row_wf_rev_sum n) by auto|intros v r; rewrite (row_wf_rev_sum n) by auto|auto];
      f_equal; apply sum_ext; intros j _; rewrite ?D1, ?D2; auto.
  Qed.
  Section Level.
    Variables (n : nat) (A : smat R).
    Hypothesis HW : mat_wf n n A.
    Hypothesis HD : diag_stored n A.
    Hypothesis HI : diag_invertible inv n A.
    Lemma C48_presmooth (x d b : vec R) : length x = n -> length d = n -> length b = n ->
      exists x' d', presmooth_defect A x d b = Ok (x', d') /\ length x' = n /\ length d' = n /\
        solves n (fun i j => Lp A i j + Dp A i j) (vget x') (vget b) /\
        forall j, j < n -> vget d' j = - sum n (fun i => if j <? i then den A i j * vget x' i else r0).
    Proof.
      intros Hx Hd Hb. assert (LA : length A = n) by apply HW.
      set (P := fun k (xi di : vec R) => length xi = n /\ length di = n /\ (forall i, i < k -> den A i i * vget xi i = vget b i - sum n (fun j => Lp A i j * vget xi j)) /\
        forall j, j < k -> vget di j = - sum k (fun i => if j <? i then den A i j * vget xi i else r0)).
      unfold presmooth_defect. match goal with |- context [fwd ?f 0 A x d] => set (body := f) end.
      destruct (fwd_inv body P A 0 x d) as (x' & d' & E & P1 & P2 & P3 & P4).
      - repeat split; auto; lia.
      - cbn [plus]. rewrite LA. intros i xi di Hi (Q1 & Q2 & Q3 & Q4). destruct (wf_split2 n A i HW Hi (HD i Hi)) as (lo & hi & ER & F1 & F2 & WL & S1 & _ & _ & DL).
        unfold body. rewrite ER. rewrite (lower_loop_split r0 blk_mmv i lo (den A i i) hi xi (nth i b r0) F1). rewrite Nat.eqb_refl. rewrite S1.
        destruct (solve_total inv n A HI i (nth i b r0 - sum n (fun j => Lp A i j * vget xi j)) Hi) as [u EU]. rewrite EU. cbn [obind]. exists u, (scatter i (lo ++ (i, den A i i) :: hi) u (upd di i r0)). split; auto.
        apply (solve_spec inv inv_ok) in EU. rewrite scatter_app by auto. destruct (scatter_get n lo u WL (upd di i r0)) as [L V]; [rewrite upd_length; lia|]. rewrite upd_length in L.
        assert (SX : forall i', i' <= i -> sum n (fun j => Lp A i' j * vget (upd xi i u) j) = sum n (fun j => Lp A i' j * vget xi j)).
        { intros i' Hi'. apply sum_ext. intros j Hj. unfold Lp, vget. destruct (Nat.ltb_spec j i'); [rewrite nth_upd_ne by lia; auto|ncring]. }
        split; [rewrite upd_length; auto|]. split; [congruence|]. split.
        + intros i' Hi'. rewrite SX by lia. destruct (Nat.eq_dec i' i) as [->|NE]; [unfold vget at 1; rewrite nth_upd_eq by lia; exact EU|]. unfold vget at 1. rewrite nth_upd_ne by auto. apply Q3. lia.
        + intros j Hj. rewrite V, DL. cbn [sum]. assert (VU : vget (upd xi i u) i = u) by (unfold vget; apply nth_upd_eq; lia). rewrite VU. unfold Lp.
          destruct (Nat.eq_dec j i) as [->|NE].
          * rewrite Nat.ltb_irrefl. unfold vget at 1. rewrite nth_upd_eq by lia. rewrite sum_zero; [ncring|]. intros i' Hi'. destruct (Nat.ltb_spec i i'); [lia|auto].
          * destruct (Nat.ltb_spec j i); [|lia]. unfold vget at 1. rewrite nth_upd_ne by auto. change (nth j di r0) with (vget di j). rewrite Q4 by lia.
            rewrite (sum_ext i (fun i' => if j <? i' then den A i' j * vget (upd xi i u) i' else r0) (fun i' => if j <? i' then den A i' j * vget xi i' else r0)); [ncring|].
            intros i' Hi'. unfold vget. rewrite nth_upd_ne by lia. auto.
      - cbn [plus] in P3, P4. rewrite LA in P3, P4. exists x', d'. split; [exact E|]. split; auto. split; auto. split; auto.
        intros i Hi. rewrite dense_add, dense_D by auto. rewrite (P3 i Hi). unfold dense_mv. ncring.
    Qed.
    Lemma C48_postsmooth (x d b : vec R) : length x = n -> length d = n ->
      exists x' d', postsmooth_defect A x d b = Ok (x', d') /\ length x' = n /\ length d' = n /\
        forall i, i < n -> den A i i * vget x' i = vget b i - sum n (fun j => Up A i j * vget x' j) - sum n (fun j => Lp A i j * vget x j).
    Proof.
      intros Hx Hd. assert (LA : length A = n) by apply HW. unfold postsmooth_defect. match goal with |- context [bwd ?f 0 A x d] => set (body := f) end.
      assert (ST : forall i (xi di : vec R), i < n -> exists u, body i (nth i A nil) xi di = Ok (u, upd di i ((nth i b r0 - sum n (fun j => Up A i j * vget xi j)) - (nth i b r0 - sum n (fun j => Up A i j * vget xi j) - sum n (fun j => Lp A i j * vget xi j)))) /\
                 den A i i * u = nth i b r0 - sum n (fun j => Up A i j * vget xi j) - sum n (fun j => Lp A i j * vget xi j)).
      { intros i xi di Hi. destruct (wf_split2 n A i HW Hi (HD i Hi)) as (lo & hi & ER & F1 & F2 & WL & _ & S2 & S3 & _). unfold body. rewrite ER.
        rewrite (upper_loop_split r0 blk_mmv i lo (den A i i) hi xi (nth i b r0) F2). rewrite Nat.eqb_refl. cbv zeta. rewrite rest_loop_minus, S3, S2.
        match goal with |- context [blk_solve inv _ ?v] => destruct (solve_total inv n A HI i v Hi) as [u EU] end. rewrite EU. exists u. split; [reflexivity|]. apply (solve_spec inv inv_ok) in EU. exact EU. }
      destruct (bwd_total r0 body A 0 x d) as (x' & d' & E); [rewrite LA; lia|intros i xi ei Hi _; rewrite LA in Hi; destruct (ST i xi ei Hi) as (u & EU & _); eauto|].
      exists x', d'. split; auto. destruct (bwd_spec r0 body A 0 x d x' d' E ltac:(rewrite LA; lia)) as (L & _ & H). split; [congruence|]. split.
      { rewrite <- Hd. apply (bwd_len body) in E; auto. clear. intros i row x e u e' H. unfold body in H. destruct (upper_loop r0 blk_mmv i (rev row) x (nth i b r0)) as [rhs [|[j a] lo]]; [discriminate|].
        destruct (j =? i); [|discriminate]. cbv zeta in H. destruct (blk_solve inv a _) as [v|ex|]; cbn [obind] in H; try discriminate. injection H as _ <-. apply upd_length. }
      intros i Hi. rewrite LA in H. destruct (H i Hi) as (xi & ei & ei' & LX & F & G1 & G2). cbn [plus] in *.
      destruct (ST i xi ei Hi) as (u & EU & DU). rewrite F in EU. injection EU as EU1 EU2. change (nth i x' r0) with (vget x' i) in EU1. rewrite EU1, DU. change (nth i b r0) with (vget b i).
      rewrite (sum_ext n (fun j => Up A i j * vget xi j) (fun j => Up A i j * vget x' j)), (sum_ext n (fun j => Lp A i j * vget xi j) (fun j => Lp A i j * vget x j)); auto.
      - intros j Hj. unfold Lp, vget. destruct (Nat.ltb_spec j i); [|ncring]. f_equal. apply G1; lia.
      - intros j Hj. unfold Up, vget. destruct (Nat.ltb_spec i j); [|ncring]. f_equal. auto.
    Qed.
  End Level.

  (** ** The cycle *)
  (** the hierarchy of FastAMG as levels of the textbook cycle: presmoother the solve with L+D, postsmoother the solve with D+U *)
  Definition result (x : vec R) (o : outcome (vec R)) : vec R := match o with Ok v => v | _ => x end.
  Definition flevel (l : smat R * (nat -> aggd)) : @level R := mklevel (fst l) (fun x d => result x (bltsolve inv (fst l) x d)) (fun x d => result x (butsolve inv (fst l) x d)) (snd l).
  (** blocks at mirrored positions are equal *)
  Definition mirrored (n : nat) (A : smat R) : Prop := forall i j, i < n -> j < n -> den A i j = den A j i.
  Definition flevel_ok (K : nat) (l : smat R * (nat -> aggd)) : Prop :=
    let n := length (fst l) in mat_wf n n (fst l) /\ agg_ok (snd l) n K /\ diag_stored n (fst l) /\ diag_invertible inv n (fst l) /\ mirrored n (fst l).
  Fixpoint fhier_ok (nc : nat) (ls : list (smat R * (nat -> aggd))) : Prop := match ls with nil => True | l :: ls' => flevel_ok (dim nc (map flevel ls')) l /\ fhier_ok nc ls' end.
  (** a solver that ignores the start value and leaves the right-hand side alone *)
  Definition direct (nc : nat) : Prop := forall u b, length u = nc -> length b = nc -> solve u b = solve (zerov nc) b /\ snd (fst (solve u b)) = b.

  Section Char.
    Variables (n : nat) (A : smat R).
    Hypothesis HW : mat_wf n n A.
    Hypothesis HD : diag_stored n A.
    Hypothesis HI : diag_invertible inv n A.
    Lemma uniq_lower (x y b : vec R) : solves n (fun i j => Lp A i j + Dp A i j) (vget x) (vget b) -> solves n (fun i j => Lp A i j + Dp A i j) (vget y) (vget b) -> forall i, i < n -> vget x i = vget y i.
    Proof.
      intros H1 H2 i Hi. apply rsub_eq0. apply (split_unique inv inv_ok SorF n A r1 (fun j => vget x j - vget y j)); auto. intros j Hj. rewrite dense_sub, !dense_split by auto.
      specialize (H1 j Hj). specialize (H2 j Hj). rewrite dense_add, dense_D in H1, H2 by auto.
      transitivity ((dense_mv n (Lp A) (vget x) j + den A j j * vget x j) - (dense_mv n (Lp A) (vget y) j + den A j j * vget y j)); [ncring|]. rewrite H1, H2. ncring.
    Qed.
    Lemma uniq_upper (x y : nat -> R) (b : nat -> R) : solves n (fun i j => Dp A i j + Up A i j) x b -> solves n (fun i j => Dp A i j + Up A i j) y b -> forall i, i < n -> x i = y i.
    Proof.
      intros H1 H2 i Hi. apply rsub_eq0. apply (split_unique inv inv_ok SorB n A r1 (fun j => x j - y j)); auto. intros j Hj. rewrite dense_sub, !dense_split by auto.
      specialize (H1 j Hj). specialize (H2 j Hj). rewrite dense_add, dense_D in H1, H2 by auto.
      transitivity ((den A j j * x j + dense_mv n (Up A) x j) - (den A j j * y j + dense_mv n (Up A) y j)); [ncring|]. rewrite H1, H2. ncring.
    Qed.
    Lemma blt_len x d : length x = n -> length d = n -> exists v, bltsolve inv A x d = Ok v /\ length v = n /\ solves n (fun i j => Lp A i j + Dp A i j) (vget v) (vget d).
    Proof. intros Hx Hd. destruct (C13_triangular_solves inv inv_ok n A x d HW HD Hx Hd) as (H & _). auto. Qed.
    Lemma but_len x d : length x = n -> length d = n -> exists v, butsolve inv A x d = Ok v /\ length v = n /\ solves n (fun i j => Dp A i j + Up A i j) (vget v) (vget d).
    Proof. intros Hx Hd. destruct (C13_triangular_solves inv inv_ok n A x d HW HD Hx Hd) as (_ & H & _). auto. Qed.
    (** Presmoothing: the new x solves with the lower triangle whatever x and d were, and d becomes the defect if mirrored blocks agree *)
    Lemma C48_presmooth_defect x d b agg : length x = n -> length d = n -> length b = n -> mirrored n A -> let u := l_pre (flevel (A, agg)) (zerov n) b in
      presmooth_defect A x d b = Ok (u, residual n A b u) /\ length u = n.
    Proof.
      intros Hx Hd Hb HM. cbv zeta. destruct (C48_presmooth n A HW HD HI x d b Hx Hd Hb) as (x' & d' & E & L1 & L2 & S1 & D1). destruct (blt_len (zerov n) b (zerov_length n) Hb) as (v & EV & LV & SV).
      cbn [flevel l_pre fst]. rewrite EV. cbn [result]. assert (x' = v) as <- by (apply vec_ext; [congruence|]; intros i Hi; apply (uniq_lower x' v b); auto; lia). split; auto. rewrite E. f_equal. f_equal. apply vecf_eq; auto.
      intros j Hj. rewrite D1 by auto. change (sum n (fun k => den A j k * vget x' k)) with (dense_mv n (den A) (vget x') j). rewrite dense_LDU by auto. specialize (S1 j Hj). rewrite dense_add, dense_D in S1 by auto. rewrite S1.
      assert (EU : dense_mv n (Up A) (vget x') j = sum n (fun i => if j <? i then den A i j * vget x' i else r0)). { unfold dense_mv. apply sum_ext. intros i Hi. unfold Up. destruct (Nat.ltb_spec j i); [rewrite (HM j i) by auto; auto|ncring]. }
      rewrite EU. ncring.
    Qed.
    (** Postsmoothing: x := x + (D+U)^-1 (b - A x) *)
    Lemma postsmooth_eq x d b agg : length x = n -> length d = n -> length b = n -> let y := vadd n x (l_post (flevel (A, agg)) (zerov n) (residual n A b x)) in
      exists d', postsmooth_defect A x d b = Ok (y, d') /\ length d' = n.
    Proof.
      intros Hx Hd Hb. cbv zeta. destruct (C48_postsmooth n A HW HD HI x d b Hx Hd) as (x' & d' & E & L1 & L2 & S1). exists d'. split; auto. rewrite E. f_equal. f_equal.
      destruct (but_len (zerov n) (residual n A b x) (zerov_length n) (residual_length n A b x)) as (v & EV & LV & SV). cbn [flevel l_post fst]. rewrite EV. cbn [result]. apply vecf_eq; auto. intros i Hi.
      enough (EE : vget x' i - vget x i = vget v i) by (rewrite <- EE; ncring).
      apply (uniq_upper (fun i => vget x' i - vget x i) (vget v) (vget (residual n A b x))); auto. intros j Hj. rewrite dense_sub, !dense_add, !dense_D by auto. rewrite (S1 j Hj). rewrite residual_get by auto.
      change (sum n (fun k => den A j k * vget x k)) with (dense_mv n (den A) (vget x) j). rewrite dense_LDU by auto. unfold dense_mv. ncring.
    Qed.
  End Char.

  Variable nc : nat.
  Hypothesis solve_sizes : forall u b, length u = nc -> length b = nc -> length (fst (fst (solve u b))) = nc /\ length (snd (fst (solve u b))) = nc.
  Hypothesis converges : forall u b, snd (solve u b) = true.
  Notation V := (cycle solve damp 1 1 1 nc).
  Lemma prolong_into agg n K coarse fine : length coarse = K -> length fine = n -> agg_ok agg n K -> exists c, length c = K /\ prolongateVector agg coarse fine damp = Ok (c, vadd n fine (Pro damp agg n K coarse)).
  Proof.
    intros Hc Hf HA. subst K. destruct (C34_prolongate agg n coarse fine damp Hf HA) as (c & f & E & L & L' & V & V'). exists c. split; auto. rewrite E. f_equal. f_equal. apply vecf_eq; [congruence|].
    intros i Hi. rewrite V' by auto. unfold Pro. rewrite vecf_get by auto. reflexivity.
  Qed.
  Lemma fmgc_ok gamma ls : gamma <> 0 -> gamma = 1 \/ direct nc -> fhier_ok nc ls -> forall fin s rest, shape nc (map flevel ls) (s :: rest) -> (ls = nil -> t_lhs s = zerov nc \/ direct nc) ->
    exists s' rest', fmgc gamma ls fin (s :: rest) true = Ok (s' :: rest', true) /\ shape nc (map flevel ls) (s' :: rest') /\ t_lhs s' = V (map flevel ls) (t_rhs s) /\ (ls <> nil \/ direct nc -> t_rhs s' = t_rhs s).
  Proof.
    intros Hg HG. induction ls as [|[A agg] ls IH]; intros HH fin s rest SH HP.
    - cbn [map shape] in SH. destruct rest; [|contradiction]. destruct SH as (Z1 & Z2 & Z3). cbn [fmgc]. destruct (solve (t_lhs s) (t_rhs s)) as [[u b] ok] eqn:E.
      pose proof (converges (t_lhs s) (t_rhs s)) as CV. rewrite E in CV. cbn in CV. subst ok. destruct (solve_sizes (t_lhs s) (t_rhs s) Z1 Z2) as [L1 L2]. rewrite E in L1, L2. cbn in L1, L2.
      eexists _, nil. split; [reflexivity|]. split; [cbn; repeat split; auto|]. split.
      + cbn [map cycle t_lhs]. destruct (HP eq_refl) as [HZ|HDi]; [rewrite <- HZ, E; auto|]. destruct (HDi (t_lhs s) (t_rhs s) Z1 Z2) as [D1 _]. rewrite <- D1, E. auto.
      + intros [C|HDi]; [congruence|]. destruct (HDi (t_lhs s) (t_rhs s) Z1 Z2) as [_ D2]. rewrite E in D2. exact D2.
    - cbn [fhier_ok] in HH. destruct HH as [(HA & HAg & HD & HI & HM) HH]. cbn [fst snd] in *. set (n := length A) in *. set (K := dim nc (map flevel ls)) in *.
      cbn [map shape] in SH. destruct SH as [SZ SH]. change (length (l_A (flevel (A, agg)))) with n in SZ. destruct SZ as (Z1 & Z2 & Z3). destruct rest as [|s1 rest]; [destruct ls; contradiction|]. cbn [fmgc fst snd].
      assert (SZ1 : sized K s1). { unfold K. destruct ls as [|l1 ls1]; cbn [map shape] in SH; [destruct rest; [|contradiction]|destruct SH as [SH _]]; exact SH. }
      destruct SZ1 as (Y1 & Y2 & Y3). set (b := t_rhs s) in *.
      destruct (C48_presmooth_defect n A HA HD HI (t_lhs s) (t_upd s) b agg Z1 Z3 Z2 HM) as [EP LU]. set (u := l_pre (flevel (A, agg)) (zerov n) b) in *. rewrite EP. cbn [obind fst snd].
      rewrite (restrict_eq agg n K) by (auto; apply residual_length). cbn [obind]. set (r := Rst agg n K (residual n A b u)). assert (Hr : length r = K) by apply vecf_length.
      rewrite !(setzero_eq K) by auto. set (s1a := mklst (zerov K) r (zerov K)).
      assert (SHa : forall x y, length x = K -> length y = K -> shape nc (map flevel ls) (mklst x r y :: rest)).
      { intros x y Hx Hy. destruct ls as [|l1 ls1]; cbn [map shape] in *; [destruct rest; [|contradiction]; unfold K in *; repeat split; cbn; auto|].
        destruct SH as [_ SH]. split; auto. unfold K in *; repeat split; cbn; auto. }
      assert (GL : exists s' rest', fgloop (fmgc gamma ls false) gamma (s1a :: rest) true = Ok (s' :: rest', true) /\ shape nc (map flevel ls) (s' :: rest') /\ t_lhs s' = V (map flevel ls) r).
      { assert (G : forall g s2 rest2, g = 0 \/ direct nc -> shape nc (map flevel ls) (s2 :: rest2) -> t_lhs s2 = V (map flevel ls) r -> (direct nc -> t_rhs s2 = r) ->
                    exists s' rest', fgloop (fmgc gamma ls false) g (s2 :: rest2) true = Ok (s' :: rest', true) /\ shape nc (map flevel ls) (s' :: rest') /\ t_lhs s' = V (map flevel ls) r).
        { induction g as [|g IHg]; intros s2 rest2 Hd S2 T2 R2; cbn [fgloop]; [eauto|]. destruct Hd as [|Hd]; [discriminate|].
          destruct (IH HH false s2 rest2 S2 (fun _ => or_intror Hd)) as (s3 & rest3 & E3 & S3 & T3 & R3). rewrite E3. cbn [obind fst snd]. apply IHg; auto; [rewrite T3, R2 by auto; auto|]. intros _. rewrite R3, R2 by auto. auto. }
        destruct gamma as [|g]; [congruence|]. cbn [fgloop]. destruct (IH HH false s1a rest (SHa (zerov K) (zerov K) (zerov_length K) (zerov_length K))) as (s3 & rest3 & E3 & S3 & T3 & R3).
        { intros ->. left. reflexivity. }
        rewrite E3. cbn [obind fst snd]. apply G; auto. destruct HG as [HG|HG]; [left; lia|auto]. }
      destruct GL as (s1' & rest' & E & SH' & U1). rewrite E. cbn [obind fst snd].
      assert (SZ1' : sized K s1'). { unfold K. destruct ls as [|l1 ls1]; cbn [map shape] in SH'; [destruct rest'; [|contradiction]|destruct SH' as [SH' _]]; exact SH'. }
      destruct SZ1' as (W1 & W2 & W3). destruct (prolong_into agg n K (t_lhs s1') u W1 LU HAg) as (c' & C1 & C2). rewrite C2. cbn [obind fst snd]. rewrite andb_false_r.
      set (w := vadd n u (Pro damp agg n K (t_lhs s1'))). destruct (postsmooth_eq n A HA HD HI w (residual n A b u) b agg (vadd_length n _ _) (residual_length n A b u) Z2) as (d' & EQ & LD). rewrite EQ. cbn [obind fst snd].
      eexists _, _. split; [reflexivity|]. split; [|split; auto].
      + cbn [map shape]. change (length (l_A (flevel (A, agg)))) with n. split; [repeat split; cbn; auto; apply vadd_length|]. destruct ls as [|l1 ls1]; cbn [map shape] in *; [destruct rest'; [|contradiction]; unfold K in *; repeat split; cbn; auto|]. destruct SH' as [_ SH']. split; auto. unfold K in *; repeat split; cbn; auto.
      + cbn [map t_lhs]. cbn [cycle]. cbv zeta. change (l_A (flevel (A, agg))) with A. fold n K. cbn [relax]. rewrite (residual_0 n A b) by auto. fold u. rewrite (vadd_0_l n u) by auto. change (l_agg (flevel (A, agg))) with agg. fold r.
        assert (EC : t_lhs s1' = match map flevel ls with nil => V (map flevel ls) r | l' :: _ => correct K (l_A l') (V (map flevel ls)) 1 r (zerov K) end).
        { rewrite U1. destruct ls as [|[A1 g1] ls1]; [reflexivity|]. cbn [map correct]. rewrite residual_0 by auto. rewrite vadd_0_l; [reflexivity|]. change (length (V (map flevel ((A1, g1) :: ls1)) r) = K). rewrite <- U1. exact W1. }
        unfold w. rewrite EC. destruct (map flevel ls); reflexivity.
  Qed.
  (** FastAMG::apply computes the V-cycle of d, for every gamma >= 1 if the coarse solver is direct *)
  Theorem C48_fastamg gamma ls st v d : gamma <> 0 -> gamma = 1 \/ direct nc -> fhier_ok nc ls -> shape nc (map flevel ls) st -> length d = dim nc (map flevel ls) -> 
    length v = dim nc (map flevel ls) -> (ls = nil -> v = zerov nc) ->
    exists st', fast_apply gamma ls st true v d = Ok (V (map flevel ls) d, st', true) /\ shape nc (map flevel ls) st'.
  Proof.
    intros Hg HG HH SH Hd Hv HZ. unfold fast_apply. destruct st as [|s rest]; [destruct ls; contradiction|].
    assert (SH2 : shape nc (map flevel ls) (mklst v d (t_upd s) :: rest)).
    { destruct ls; cbn [map shape dim] in *; [destruct rest; [|contradiction]; destruct SH as (Z1 & Z2 & Z3)|destruct SH as [(Z1 & Z2 & Z3) SH]; split; auto]; repeat split; auto. }
    destruct (fmgc_ok gamma ls Hg HG HH true _ rest SH2) as (s' & rest' & E & SH' & T & _); [intros EN; left; apply HZ; auto|]. rewrite E. cbn [obind fst snd]. exists (s' :: rest'). rewrite T. split; [reflexivity|exact SH'].
  Qed.

  (** Deviation: with gamma >= 2 on two levels, a coarse solver that keeps the contract of InverseOperator::apply (x the solution, b overwritten with the defect) is called again with the defect as right-hand side, and the coarse correction is lost: only smoothing remains *)
  Theorem C48_gamma_iterative_refuted gamma A agg st v d : let n := length A in
    1 < gamma -> flevel_ok nc (A, agg) -> shape nc [flevel (A, agg)] st -> length d = n -> length v = n ->
    (forall u b, length u = nc -> length b = nc -> snd (fst (solve u b)) = zerov nc) -> (forall u, length u = nc -> fst (fst (solve u (zerov nc))) = zerov nc) ->
    exists st', fast_apply gamma [(A, agg)] st true v d =
      Ok (relax n A (l_post (flevel (A, agg))) 1 d (relax n A (l_pre (flevel (A, agg))) 1 d (zerov n)), st', true).
  Proof.
    intros n Hg (HA & HAg & HD & HI & HM) SH Hd Hv HB HZ. cbn [fst snd] in *. fold n in HA, HAg, HD, HI, HM. unfold fast_apply. destruct st as [|s rest]; [contradiction|]. cbn [shape] in SH. destruct SH as [SZ SH]. change (length (l_A (flevel (A, agg)))) with n in SZ.
    destruct rest as [|s1 [|]]; try contradiction. destruct SZ as (Z1 & Z2 & Z3). destruct SH as (Y1 & Y2 & Y3). cbn [fmgc fst snd t_lhs t_rhs t_upd].
    destruct (C48_presmooth_defect n A HA HD HI v (t_upd s) d agg Hv Z3 Hd HM) as [EP LU]. set (u := l_pre (flevel (A, agg)) (zerov n) d) in *. rewrite EP. cbn [obind fst snd].
    rewrite (restrict_eq agg n nc) by (auto; apply residual_length). cbn [obind]. set (r := Rst agg n nc (residual n A d u)). assert (Hr : length r = nc) by apply vecf_length. rewrite !(setzero_eq nc) by auto.
    assert (GL : forall g x b y, length x = nc -> length b = nc -> b = zerov nc \/ g > 1 -> g > 0 -> exists b' , length b' = nc /\ fgloop (fmgc gamma nil false) g [mklst x b y] true = Ok ([mklst (zerov nc) b' y], true)).
    { induction g as [|g IH]; intros x b y Hx Hb H1 H2; [lia|]. cbn [fgloop fmgc t_lhs t_rhs t_upd]. destruct (solve x b) as [[x' b'] ok] eqn:E. pose proof (converges x b) as C. rewrite E in C. cbn in C. subst ok.
      pose proof (HB x b Hx Hb) as Eb. rewrite E in Eb. cbn in Eb. subst b'. destruct (solve_sizes x b Hx Hb) as [L1 _]. rewrite E in L1. cbn in L1. cbn [obind fst snd andb]. destruct g as [|g].
      - cbn [fgloop]. destruct H1 as [->|]; [|lia]. specialize (HZ x Hx). rewrite E in HZ. cbn in HZ. subst x'. exists (zerov nc). split; [apply zerov_length|reflexivity].
      - apply IH; auto; [apply zerov_length|lia]. }
    destruct (GL gamma (zerov nc) r (zerov nc) (zerov_length nc) Hr) as (b' & LB & EG); [right; lia|lia|].
    match goal with |- context [fgloop ?f gamma] => change f with (fmgc gamma nil false) end. rewrite EG. cbn [obind fst snd t_lhs t_rhs t_upd].
    destruct (prolong_into agg n nc (zerov nc) u (zerov_length nc) LU HAg) as (c' & C1 & C2). rewrite C2. cbn [obind fst snd andb negb].
    assert (EZ : vadd n u (Pro damp agg n nc (zerov nc)) = u).
    { symmetry. apply vecf_eq; auto. intros i Hi. unfold Pro. rewrite vecf_get by auto. rewrite sum_zero; [ncring|]. intros k Hk. rewrite zerov_get by auto. ncring. }
    rewrite EZ. destruct (postsmooth_eq n A HA HD HI u (residual n A d u) d agg LU (residual_length n A d u) Hd) as (d' & EQ & LD). rewrite EQ. cbn [obind fst snd t_lhs]. eexists. f_equal.
    cbn [relax]. rewrite (residual_0 n A d) by auto. fold u. rewrite (vadd_0_l n u) by auto. reflexivity.
  Qed.
End FastAmg.

(** ** Concrete cases *)
From Coq Require Import ZArith Sorted.
(** inverses of the units of Z *)
Definition zunit (a : Z) : option Z := if (a =? 1)%Z then Some 1%Z else if (a =? -1)%Z then Some (-1)%Z else None.
Lemma zunit_ok : forall a u : Zring, zunit a = Some u -> rmul a u = r1 /\ rmul u a = r1.
Proof. intros a u. unfold zunit. destruct (Z.eqb_spec a 1) as [->|]; [intros H; injection H as <-; auto|]. destruct (Z.eqb_spec a (-1)) as [->|]; [intros H; injection H as <-; auto|discriminate]. Qed.
Definition fx4 : smat Zring := [[(0, 1%Z); (1, 2%Z)]; [(0, 2%Z); (1, 1%Z); (2, (-1)%Z)]; [(1, (-1)%Z); (2, 1%Z); (3, 3%Z)]; [(2, 3%Z); (3, (-1)%Z)]].
Definition fx2 : smat Zring := [[(0, 1%Z); (1, 2%Z)]; [(0, 2%Z); (1, 1%Z)]].
Definition fxsolve (u b : vec Zring) : vec Zring * vec Zring * bool := (map (fun x => (3 * x)%Z) b, b, true).
Definition fxls : list (smat Zring * (nat -> aggd)) := [(fx4, fun i => Agg (i / 2)); (fx2, fun _ => Agg 0)].
Lemma fxls_ok : fhier_ok (R := Zring) zunit 1 fxls.
Proof.
  split; [|split; [|exact I]].
  - split; [repeat constructor; cbn; lia|]. split; [intros i Hi; right; exists (i / 2); cbn in Hi; destruct i as [|[|[|[|i]]]]; cbn; try lia; split; auto; lia|].
    split; [intros [|[|[|[|i]]]] Hi; cbn in Hi; try lia; cbn; auto|]. split; [intros [|[|[|[|i]]]] Hi; cbn in Hi; try lia; eexists; reflexivity|]. intros [|[|[|[|i]]]] [|[|[|[|j]]]] Hi Hj; cbn in Hi, Hj; try lia; reflexivity.
  - split; [repeat constructor; cbn; lia|]. split; [intros i Hi; right; exists 0; auto|].
    split; [intros [|[|i]] Hi; cbn in Hi; try lia; cbn; auto|]. split; [intros [|[|i]] Hi; cbn in Hi; try lia; eexists; reflexivity|]. intros [|[|i]] [|[|j]] Hi Hj; cbn in Hi, Hj; try lia; reflexivity.
Qed.
Lemma fxsolve_direct : direct (R := Zring) fxsolve 1.
Proof. intros u b _ _. split; reflexivity. Qed.
Definition fast_value (o : outcome (vec Zring * list (@lst Zring) * bool)) : option (vec Zring) := match o with Ok (v, _, _) => Some v | _ => None end.
Example C48_nonvacuous : fhier_ok (R := Zring) zunit 1 fxls /\ direct (R := Zring) fxsolve 1 /\ shape (R := Zring) 1 (map (flevel (R := Zring) zunit) fxls) exst /\
  fast_value (fast_apply (R := Zring) zunit fxsolve 1%Z 1 fxls exst true [0%Z; 0%Z; 0%Z; 0%Z] [1%Z; 2%Z; 3%Z; 4%Z]) = Some (cycle (R := Zring) fxsolve 1%Z 1 1 1 1 (map (flevel (R := Zring) zunit) fxls) [1%Z; 2%Z; 3%Z; 4%Z]).
Proof. split; [exact fxls_ok|]. split; [exact fxsolve_direct|]. split; [repeat split|vm_compute; reflexivity]. Qed.
(** Deviation: gamma = 2 does not give the W-cycle of C36 *)
Theorem C48_wcycle_refuted : fast_value (fast_apply (R := Zring) zunit fxsolve 1%Z 2 fxls exst true [0%Z; 0%Z; 0%Z; 0%Z] [1%Z; 2%Z; 3%Z; 4%Z]) <>
  Some (cycle (R := Zring) fxsolve 1%Z 1 1 2 1 (map (flevel (R := Zring) zunit) fxls) [1%Z; 2%Z; 3%Z; 4%Z]).
Proof. vm_compute. intros H. discriminate H. Qed.

(** Deviation: for a symmetric block matrix, whose mirrored blocks are transposes of one another, the vector d left by presmoothing is not the defect *)
Definition m2transpose (a : m2 Z) : m2 Z := M2 (m11 a) (m21 a) (m12 a) (m22 a).
Definition m2unit (a : m2 Z) : option (m2 Z) :=
  match a with M2 x y z w => if ((x =? 1) && (y =? 0) && (z =? 0) && (w =? 1))%Z then Some a else None end.
Lemma m2unit_ok : forall a u : M2ring Zring, m2unit a = Some u -> rmul a u = r1 /\ rmul u a = r1.
Proof.
  intros [x y z w] u H. unfold m2unit in H. destruct (Z.eqb_spec x 1); [|discriminate]. destruct (Z.eqb_spec y 0); [|discriminate]. destruct (Z.eqb_spec z 0); [|discriminate]. destruct (Z.eqb_spec w 1); [|discriminate].
  subst. cbn in H. injection H as <-. split; reflexivity.
Qed.
Definition fxB : m2 Z := M2 0%Z 1%Z 0%Z 0%Z.
Definition fxblk : smat (M2ring Zring) := [[(0, M2 1%Z 0%Z 0%Z 1%Z); (1, fxB)]; [(0, m2transpose fxB); (1, M2 1%Z 0%Z 0%Z 1%Z)]].
(* the two blocks of b hold their components in the first column *)
Definition fxb : vec (M2ring Zring) := [M2 1%Z 0%Z 0%Z 0%Z; M2 1%Z 0%Z 2%Z 0%Z].
Theorem C48_block_symmetric_refuted :
  mat_wf 2 2 fxblk /\ diag_stored 2 fxblk /\ diag_invertible (R := M2ring Zring) m2unit 2 fxblk /\ (forall i j, i < 2 -> j < 2 -> den fxblk i j = m2transpose (den fxblk j i)) /\
  exists x d, presmooth_defect (R := M2ring Zring) m2unit fxblk (zerov 2) (zerov 2) fxb = Ok (x, d) /\ d <> residual (R := M2ring Zring) 2 fxblk fxb x.
Proof.
  split; [repeat constructor; cbn; lia|]. split; [intros [|[|i]] Hi; try lia; cbn; auto|]. split; [intros [|[|i]] Hi; try lia; eexists; reflexivity|]. split; [intros [|[|i]] [|[|j]] Hi Hj; try lia; reflexivity|].
  eexists _, _. split; [reflexivity|]. vm_compute. intros H. discriminate H.
Qed.
Print Assumptions C48_presmooth.
Print Assumptions C48_postsmooth.
Print Assumptions C48_presmooth_defect.
Print Assumptions C48_fastamg.
Print Assumptions C48_gamma_iterative_refuted.
Print Assumptions C48_wcycle_refuted.
Print Assumptions C48_block_symmetric_refuted.
