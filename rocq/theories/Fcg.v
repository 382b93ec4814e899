(** * RestartedFCGSolver, CompleteFCGSolver, GeneralizedPCGSolver (C53)

    Model of dune/istl/solvers.hh:1391-1475 (GeneralizedPCGSolver::apply), :1583-1658 (RestartedFCGSolver::apply with its two hooks
    [orthogonalizations] and [cycle]) and :1693-1725 (CompleteFCGSolver::apply and its hooks).  The solvers have no guard in front of their
    divisions: [kdiv] may fail (a zero divisor gives inf or nan, which makes the next defect non-finite, so step() throws SolverAbort). *)
From Coq Require Import Arith List Lia Bool ZArith QArith Qcanon.
From Coq Require Import setoid_ring.Ring.
From Verif Require Import Ring Sums RingInst Outcome Solvers CgExact VRing.
Import ListNotations.
Open Scope nat_scope.

Section Model.
  Context {K : ring} {V : vspace K}.
  Variable D : Type.
  Variables (finite : D -> bool) (lt_ : D -> D -> bool) (mul_ div_ : D -> D -> D) (zero_ tiny : D).
  Variable reduction : D.
  Variable A : V -> V.
  Variable dot : V -> V -> K.
  Variable nrm : V -> D.
  Variable kdiv : K -> K -> outcome K.
  Variable P : Type.
  Variable pre : P -> V -> V -> P * V * V.
  Variable papply : P -> V -> V -> P * V.
  Variable post : P -> V -> P * V.
  Local Notation iter := (iter D).
  Local Notation stepf := (step D finite lt_ mul_ tiny reduction).
  Local Notation answer := (P * V * V * result D * list (nat * D))%type.
  Local Notation finishf := (finish (V := V) D lt_ mul_ div_ tiny reduction P post).

  (** std::vector::operator[]: outside the vector is undefined *)
  Definition vat {T} (l : list T) (i : nat) : outcome T := match nth_error l i with Some v => Ok v | None => UB end.

  (** locals of RestartedFCGSolver::apply (solvers.hh:1592-1608): x, b, arrays d, Ad, ddotAd, i_bounded, i, and the member _k_limit of
      CompleteFCGSolver *)
  Record fcg := mkF { f_p : P; f_x : V; f_b : V; f_d : list V; f_Ad : list V; f_dd : list K; f_ib : nat; f_kl : nat; f_i : nat }.
  (** d[i] -= (<Ad[k],w>/<d[k],Ad[k]>) d[k] for k in ks; v is d[i_bounded], which no k in ks addresses (solvers.hh:1647, :1706) *)
  Fixpoint orth (ks : list nat) (d Ad : list V) (dd : list K) (w v : V) : outcome V :=
    match ks with
    | nil => Ok v
    | k :: ks =>
      obind (vat Ad k) (fun a => obind (vat dd k) (fun c => obind (vat d k) (fun u =>
      obind (kdiv (ropp (dot a w)) c) (fun q => orth ks d Ad dd w (vadd v (vscale q u))))))
    end.
  (** the loop of [orthogonalizations]: solvers.hh:1646 (k < i_bounded) and :1704-1705 (k < _k_limit, k != i_bounded) *)
  Definition live (complete : bool) (s : fcg) : list nat :=
    if complete then filter (fun k => negb (f_ib s =? k)) (seq 0 (f_kl s)) else seq 0 (f_ib s).
  (** one pass of the inner loop, solvers.hh:1611-1630; _k_limit :1709-1710 *)
  Definition fcg_body (complete : bool) (s : fcg) (it : iter) : outcome (fcg * iter) :=
    let '(p', w) := papply (f_p s) vz (f_b s) in
    obind (orth (live complete s) (f_d s) (f_Ad s) (f_dd s) w w) (fun dv =>
    let q := A dv in
    let c := dot dv q in
    obind (kdiv (dot dv (f_b s)) c) (fun alpha =>
    let b' := vadd (f_b s) (vscale (ropp alpha) q) in
    obind (stepf (f_i s) (nrm b') it) (fun it' =>
    Ok (mkF p' (vadd (f_x s) (vscale alpha dv)) b' (upd (f_d s) (f_ib s) dv) (upd (f_Ad s) (f_ib s) q) (upd (f_dd s) (f_ib s) c)
          (S (f_ib s)) (if f_kl s <=? f_ib s then S (f_kl s) else f_kl s) (S (f_i s)), it')))).
  (** for (; i_bounded <= _mmax && i <= _maxit; i_bounded++), solvers.hh:1610; every pass increments i, so n = maxit + 1 - i passes suffice *)
  Fixpoint fcg_inner (complete : bool) (mmax maxit n : nat) (s : fcg) (it : iter) : outcome (fcg * iter) :=
    match n with
    | O => Ok (s, it)
    | S n' => if (f_ib s <=? mmax) && (f_i s <=? maxit)
              then obind (fcg_body complete s it) (fun r => fcg_inner complete mmax maxit n' (fst r) (snd r))
              else Ok (s, it)
    end.
  (** std::swap(l[i], l[j]) *)
  Definition swap {T} (df : T) (l : list T) (i j : nat) : list T := upd (upd l i (nth j l df)) j (nth i l df).
  (** [cycle], solvers.hh:1652-1658 and :1715-1720 *)
  Definition cycle (complete : bool) (mmax : nat) (s : fcg) : fcg :=
    if complete then mkF (f_p s) (f_x s) (f_b s) (f_d s) (f_Ad s) (f_dd s) 0 (length (f_Ad s)) (f_i s)
    else mkF (f_p s) (f_x s) (f_b s) (swap vz (f_d s) 0 mmax) (swap vz (f_Ad s) 0 mmax) (swap r0 (f_dd s) 0 mmax) 1 (f_kl s) (f_i s).
  (** while (i <= _maxit && !res.converged), solvers.hh:1609-1634; None: still running after [fuel] rounds *)
  Fixpoint fcg_outer (complete : bool) (mmax maxit fuel : nat) (s : fcg) (it : iter) : option (outcome (fcg * iter)) :=
    match fuel with
    | O => None
    | S fuel' =>
      if (f_i s <=? maxit) && negb (i_conv D it) then
        match fcg_inner complete mmax maxit (S maxit - f_i s) s it with
        | Ok (s1, it1) => fcg_outer complete mmax maxit fuel' (cycle complete mmax s1) it1
        | Throw e => Some (Throw e)
        | UB => Some UB
        end
      else Some (Ok (s, it))
    end.
  (** solvers.hh:1592-1595, :1607-1608 *)
  Definition fcg_start (mmax : nat) (p : P) (x b : V) : fcg :=
    mkF p x b (repeat x (S mmax)) (repeat x (S mmax)) (repeat r0 (S mmax)) 0 0 1.
  (** RestartedFCGSolver::apply (complete = false), CompleteFCGSolver::apply (complete = true): solvers.hh:1583-1640, :1693-1698 *)
  Definition fcg_apply (complete : bool) (mmax maxit fuel : nat) (p : P) (x b : V) : option (outcome answer) :=
    let '(p1, x1, b1) := pre p x b in
    let b2 := vsub b1 (A x1) in
    match stepf 0 (nrm b2) (iter0 D zero_) with
    | Ok it =>
      if i_conv D it then Some (Ok (finishf 1 p1 x1 b2 it)) else
      match fcg_outer complete mmax maxit fuel (fcg_start mmax p1 x1 b2) it with
      | None => None
      | Some o => Some (obind o (fun r => Ok (finishf 1 (f_p (fst r)) (f_x (fst r)) (f_b (fst r)) (snd r))))
      end
    | Throw e => Some (Throw e)
    | UB => Some UB
    end.

  (** ** GeneralizedPCGSolver: solvers.hh:1397-1402; p is a vector of [restart] pointers, null until set *)
  Record gpcg := mkG { g_p : P; g_x : V; g_b : V; g_d : list (option V); g_pp : list K; g_i : nat }.
  (** *(p[i]) *)
  Definition pat (l : list (option V)) (i : nat) : outcome V := match nth_error l i with Some (Some v) => Ok v | _ => UB end.
  (** solvers.hh:1444-1447 *)
  Fixpoint gorth (js : list nat) (ps : list (option V)) (pp : list K) (q v : V) : outcome V :=
    match js with
    | nil => Ok v
    | j :: js => obind (pat ps j) (fun u => obind (vat pp j) (fun c => obind (kdiv (dot q u) c) (fun rho => gorth js ps pp q (vadd v (vscale (ropp rho) u)))))
    end.
  (** one pass of the inner loop, solvers.hh:1437-1461 *)
  Definition gpcg_body (ii : nat) (s : gpcg) (it : iter) : outcome (gpcg * iter) :=
    let '(p', w) := papply (g_p s) vz (g_b s) in
    let q := A w in
    obind (gorth (seq 0 ii) (g_d s) (g_pp s) q w) (fun v =>
    let q := A v in
    let c := dot v q in
    obind (kdiv (dot v (g_b s)) c) (fun lambda =>
    let b' := vadd (g_b s) (vscale (ropp lambda) q) in
    obind (stepf (S (g_i s)) (nrm b') it) (fun it' =>
    Ok (mkG p' (vadd (g_x s) (vscale lambda v)) b' (upd (g_d s) ii (Some v)) (upd (g_pp s) ii c) (S (g_i s)), it')))).
  (** for (ii = 1; ii < end; ++ii), solvers.hh:1434 *)
  Fixpoint gpcg_inner (iis : list nat) (s : gpcg) (it : iter) : outcome (gpcg * iter) :=
    match iis with
    | nil => Ok (s, it)
    | ii :: iis => obind (gpcg_body ii s it) (fun r => gpcg_inner iis (fst r) (snd r))
    end.
  (** while (i < _maxit), solvers.hh:1431-1469 *)
  Fixpoint gpcg_outer (restart maxit fuel : nat) (s : gpcg) (it : iter) : option (outcome (gpcg * iter)) :=
    match fuel with
    | O => None
    | S fuel' =>
      if g_i s <? maxit then
        let e := Nat.min restart (maxit - g_i s + 1) in
        match gpcg_inner (seq 1 (e - 1)) s it with
        | Ok (s1, it1) =>
          if i_conv D it1 then Some (Ok (s1, it1)) else
          gpcg_outer restart maxit fuel' (if e =? restart
            then mkG (g_p s1) (g_x s1) (g_b s1) (upd (g_d s1) 0 (nth (restart - 1) (g_d s1) None)) (upd (g_pp s1) 0 (nth (restart - 1) (g_pp s1) r0)) (g_i s1)
            else s1) it1
        | Throw e => Some (Throw e)
        | UB => Some UB
        end
      else Some (Ok (s, it))
    end.
  (** the first step, solvers.hh:1412-1429 (p[0].reset on an empty vector is undefined) *)
  Definition gpcg_first (restart : nat) (p : P) (x b : V) (it : iter) : outcome (gpcg * iter) :=
    if restart =? 0 then UB else
    let '(p', v) := papply p vz b in
    let rho := dot v b in
    let q := A v in
    let c := dot v q in
    obind (kdiv rho c) (fun lambda =>
    let b' := vadd b (vscale (ropp lambda) q) in
    obind (stepf 1 (nrm b') it) (fun it' =>
    Ok (mkG p' (vadd x (vscale lambda v)) b' (upd (repeat None restart) 0 (Some v)) (upd (repeat r0 restart) 0 c) 1, it'))).
  (** GeneralizedPCGSolver::apply, solvers.hh:1391-1475 *)
  Definition gpcg_apply (restart maxit fuel : nat) (p : P) (x b : V) : option (outcome answer) :=
    let '(p1, x1, b1) := pre p x b in
    let b2 := vsub b1 (A x1) in
    if restart =? 0 then Some UB else
    match stepf 0 (nrm b2) (iter0 D zero_) with
    | Ok it =>
      if i_conv D it then Some (Ok (finishf 1 p1 x1 b2 it)) else
      match gpcg_first restart p1 x1 b2 it with
      | Ok (s1, it1) =>
        if i_conv D it1 then Some (Ok (finishf 1 (g_p s1) (g_x s1) (g_b s1) it1)) else
        match gpcg_outer restart maxit fuel s1 it1 with
        | None => None
        | Some o => Some (obind o (fun r => Ok (finishf 1 (g_p (fst r)) (g_x (fst r)) (g_b (fst r)) (snd r))))
        end
      | Throw e => Some (Throw e)
      | UB => Some UB
      end
    | Throw e => Some (Throw e)
    | UB => Some UB
    end.
End Model.

(** ** Runs *)
Section Runs.
  Context {K : ring} {V : vspace K}.
  Variable D : Type.
  Variables (finite : D -> bool) (lt_ : D -> D -> bool) (mul_ div_ : D -> D -> D) (zero_ tiny : D).
  Variable reduction : D.
  Variable A : V -> V.
  Variable dot : V -> V -> K.
  Variable nrm : V -> D.
  Variable kdiv : K -> K -> outcome K.
  Variable P : Type.
  Variable pre : P -> V -> V -> P * V * V.
  Variable papply : P -> V -> V -> P * V.
  Variable post : P -> V -> P * V.
  Local Notation iter := (iter D).
  Local Notation stepf := (step D finite lt_ mul_ tiny reduction).
  Local Notation stopf := (stop D lt_ mul_ tiny reduction).
  Local Notation bodyf := (fcg_body (V := V) D finite lt_ mul_ tiny reduction A dot nrm kdiv P papply).
  Local Notation innerf := (fcg_inner (V := V) D finite lt_ mul_ tiny reduction A dot nrm kdiv P papply).
  Local Notation outerf := (fcg_outer (V := V) D finite lt_ mul_ tiny reduction A dot nrm kdiv P papply).
  Local Notation fcgf := (fcg_apply (V := V) D finite lt_ mul_ div_ zero_ tiny reduction A dot nrm kdiv P pre papply post).
  Local Notation gpcgf := (gpcg_apply (V := V) D finite lt_ mul_ div_ zero_ tiny reduction A dot nrm kdiv P pre papply post).
  Local Notation st := (fcg (V := V) P).
  Local Notation ib := (f_ib (V := V) P). Local Notation ii := (f_i (V := V) P).

  Lemma body_i c s it s' it' : bodyf c s it = Ok (s', it') -> ii s' = S (ii s) /\ ib s' = S (ib s).
  Proof.
    unfold fcg_body. destruct (papply _ _ _) as [p' w]. destruct (orth _ _ _ _ _ _ _) as [dv| |]; cbn [obind]; try discriminate.
    destruct (kdiv _ _) as [al| |]; cbn [obind]; try discriminate. destruct (stepf _ _ _) as [it1| |]; cbn [obind]; try discriminate.
    intros H. injection H as <- <-. cbn. auto.
  Qed.
  Lemma body_step c s it s' it' : bodyf c s it = Ok (s', it') -> stepf (ii s) (nrm (f_b P s')) it = Ok it'.
  Proof.
    unfold fcg_body. destruct (papply _ _ _) as [p' w]. destruct (orth _ _ _ _ _ _ _) as [dv| |]; cbn [obind]; try discriminate.
    destruct (kdiv _ _) as [al| |]; cbn [obind]; try discriminate. intros H. destruct (stepf (ii s) _ it) as [it1| |] eqn:EX in H; cbn [obind] in H; try discriminate.
    injection H as <- <-. exact EX.
  Qed.
  Lemma cycle_i c m s : ii (cycle P c m s) = ii s.
  Proof. destruct c; reflexivity. Qed.
  Lemma inner_inv c mmax maxit (I : st -> iter -> Prop) :
    (forall s it s' it', I s it -> ib s <= mmax -> ii s <= maxit -> bodyf c s it = Ok (s', it') -> I s' it') ->
    forall n s it s' it', S maxit - ii s <= n -> I s it -> innerf c mmax maxit n s it = Ok (s', it') -> I s' it' /\ (mmax < ib s' \/ maxit < ii s').
  Proof.
    intros HB. induction n as [|n IH]; intros s it s' it' Hn HI H; cbn [fcg_inner] in H.
    - injection H as <- <-. split; [exact HI|]. right. lia.
    - destruct (ib s <=? mmax) eqn:E1; destruct (ii s <=? maxit) eqn:E2; cbn [andb] in H;
        try (injection H as <- <-; split; [exact HI|]; apply Nat.leb_gt in E1 || apply Nat.leb_gt in E2; lia).
      + apply Nat.leb_le in E1. apply Nat.leb_le in E2. destruct (bodyf c s it) as [[s1 it1]| |] eqn:EB; cbn [obind fst snd] in H; try discriminate.
        destruct (body_i _ _ _ _ _ EB) as [B1 B2]. apply (IH s1 it1 s' it'); [lia| |exact H]. eapply HB; eauto.
  Qed.
  (** [I] inside the inner loop, [J] at the test of the outer one *)
  Lemma outer_inv c mmax maxit (I J : st -> iter -> Prop) :
    (forall s it s' it', I s it -> ib s <= mmax -> ii s <= maxit -> bodyf c s it = Ok (s', it') -> I s' it') ->
    (forall s it, J s it -> ii s <= maxit -> i_conv D it = false -> I s it) ->
    (forall s it, I s it -> mmax < ib s \/ maxit < ii s -> J (cycle P c mmax s) it) ->
    forall fuel s it s' it', J s it -> outerf c mmax maxit fuel s it = Some (Ok (s', it')) -> J s' it' /\ (maxit < ii s' \/ i_conv D it' = true).
  Proof.
    intros HB HJ HC. induction fuel as [|fuel IH]; intros s it s' it' HI H; cbn [fcg_outer] in H; [discriminate|].
    destruct (ii s <=? maxit) eqn:E1; destruct (i_conv D it) eqn:E2; cbn [andb negb] in H;
      try (injection H as <- <-; split; [exact HI|]; apply Nat.leb_gt in E1; lia); try (injection H as <- <-; split; [exact HI|right; exact E2]).
    apply Nat.leb_le in E1. destruct (innerf c mmax maxit _ s it) as [[s1 it1]| |] eqn:EI; try discriminate.
    destruct (inner_inv c mmax maxit I HB _ s it s1 it1 (le_n _) (HJ s it HI E1 E2) EI) as [I1 I2].
    apply (IH (cycle P c mmax s1) it1 s' it'); [apply HC; assumption|exact H].
  Qed.

  (** Specification: where a solver looks at the stopping rule.  0, and the iterations at which the stored directions are recycled *)
  Definition checkpoint (complete : bool) (mmax j : nat) : Prop :=
    if complete then exists w, j = w * S mmax else j = 0 \/ exists w, 1 <= w /\ j = w * mmax + 1.
  (** what a finished run reports; as [truthful] of C26, but the rule is only known to fail at the checkpoints before the end *)
  Definition reports (check : nat -> Prop) (maxit : nat) (log : list (nat * D)) (r : result D) : Prop :=
    exists k ds, log = combine (seq 0 (S k)) ds /\ length ds = S k /\ k <= maxit /\ (forall d, In d ds -> finite d = true) /\
      (forall j, j < k -> check j -> stopf (nth 0 ds zero_) (nth j ds zero_) = false) /\
      r_iterations D r = k /\ r_converged D r = stopf (nth 0 ds zero_) (nth k ds zero_) /\
      r_reduction D r = div_ (nth k ds zero_) (nth 0 ds zero_) /\ (r_converged D r = false -> k = maxit).
  (** the iteration object after the steps 0..k with the defects ds *)
  Definition logged (k : nat) (ds : list D) (it : iter) : Prop :=
    i_log D it = combine (seq 0 (S k)) ds /\ length ds = S k /\ (forall d, In d ds -> finite d = true) /\
    i_def0 D it = nth 0 ds zero_ /\ i_def D it = nth k ds zero_ /\ i_i D it = k /\ i_conv D it = stopf (nth 0 ds zero_) (nth k ds zero_).
  Lemma logged0 d it : stepf 0 d (iter0 D zero_) = Ok it -> logged 0 [d] it.
  Proof.
    unfold step. destruct (finite d) eqn:EF; [|discriminate]. cbn. intros H. injection H as <-. repeat (split; auto).
    intros x [<-|[]]; auto.
  Qed.
  Lemma logged_step k ds d it it1 : logged k ds it -> stepf (S k) d it = Ok it1 -> logged (S k) (ds ++ [d]) it1.
  Proof.
    intros [L1 [L2 [L3 [L5 [L6 [L7 L8]]]]]] HS. unfold step in HS. destruct (finite d) eqn:EF; [|discriminate]. cbn [negb Nat.eqb] in HS. injection HS as <-.
    assert (N0 : nth 0 (ds ++ [d]) zero_ = i_def0 D it) by (rewrite L5; apply app_nth1; lia).
    assert (Ni : nth (S k) (ds ++ [d]) zero_ = d) by (rewrite app_nth2 by lia; rewrite L2, Nat.sub_diag; auto).
    unfold logged. cbn [i_log i_def0 i_def i_i i_conv]. rewrite L1, combine_snoc by auto. split; auto.
    split; [rewrite app_length, L2; cbn; lia|]. split; [|rewrite N0, Ni; auto].
    intros x Hx. apply in_app_iff in Hx. destruct Hx as [Hx|[<-|[]]]; auto.
  Qed.
  Lemma logged_reports (check : nat -> Prop) maxit k ds it : logged k ds it -> k <= maxit -> (forall j, j < k -> check j -> stopf (nth 0 ds zero_) (nth j ds zero_) = false) ->
    (i_conv D it = false -> k = maxit) -> reports check maxit (i_log D it) (finalize D lt_ mul_ div_ tiny reduction 1 it).
  Proof.
    intros [L1 [L2 [L3 [L5 [L6 [L7 L8]]]]]] Hk Hc Hm. exists k, ds. unfold finalize. cbn [r_iterations r_converged r_reduction].
    rewrite Nat.div_1_r, L5, L6, L7. repeat (split; auto). rewrite <- L8. exact Hm.
  Qed.

  (** which combinations of (number of steps so far, i_bounded) occur *)
  Definition phase (complete : bool) (mmax k i : nat) : Prop :=
    if complete then exists w, k = w * S mmax + i /\ i <= S mmax
    else k = 0 /\ i = 0 \/ exists w, k = w * mmax + i /\ 1 <= i /\ i <= S mmax.
  Lemma phase_check c mmax k i : phase c mmax k i -> i <= mmax -> ~ checkpoint c mmax (S k) \/ i = mmax.
  Proof.
    intros Hp Hi. destruct (Nat.eq_dec i mmax) as [->|N]; [right; reflexivity|left]. destruct c; cbn [phase checkpoint] in *.
    - destruct Hp as (w & -> & _). intros (v & E). assert (E2 : (w * S mmax + i + 1) mod S mmax = (v * S mmax) mod S mmax) by (f_equal; lia).
      rewrite Nat.mod_mul in E2 by lia. replace (w * S mmax + i + 1) with ((i + 1) + w * S mmax) in E2 by lia. rewrite Nat.mod_add in E2 by lia. rewrite Nat.mod_small in E2 by lia. lia.
    - intros [E|(v & Hv & E)]; [lia|]. destruct Hp as [[-> ->]|(w & -> & H1 & H2)].
      + nia.
      + assert (E2 : (w * mmax + i) mod mmax = (v * mmax) mod mmax) by (f_equal; lia). rewrite Nat.mod_mul in E2 by lia.
        replace (w * mmax + i) with (i + w * mmax) in E2 by lia. rewrite Nat.mod_add in E2 by lia. rewrite Nat.mod_small in E2 by lia. lia.
  Qed.
  Lemma phase_body c mmax k i : phase c mmax k i -> i <= mmax -> phase c mmax (S k) (S i).
  Proof.
    destruct c; cbn [phase].
    - intros (w & -> & _) H. exists w. lia.
    - intros [[-> ->]|(w & -> & H1 & H2)] H; right; [exists 0|exists w]; lia.
  Qed.
  Lemma phase_cycle c mmax k s : phase c mmax k (ib s) -> mmax < ib s -> phase c mmax k (ib (cycle P c mmax s)).
  Proof.
    destruct c; cbn [phase cycle f_ib].
    - intros (w & -> & H) H2. exists (S w). lia.
    - intros [[-> H]|(w & -> & H1 & H2)] H3; [lia|]. right. exists (S w). lia.
  Qed.

  Section Report.
    Variables (c : bool) (mmax maxit : nat) (b1 : V).
    Hypothesis LA : linear A.
    Definition RI (s : st) (it : iter) : Prop :=
      exists ds, let k := ii s - 1 in 1 <= ii s /\ logged k ds it /\ k <= maxit /\ phase c mmax k (ib s) /\ f_b P s = vsub b1 (A (f_x P s)) /\ nth k ds zero_ = nrm (f_b P s) /\
        (forall j, j < k -> checkpoint c mmax j -> stopf (nth 0 ds zero_) (nth j ds zero_) = false) /\
        (checkpoint c mmax k -> ib s <= mmax -> stopf (nth 0 ds zero_) (nth k ds zero_) = false).
    Definition RJ (s : st) (it : iter) : Prop :=
      exists ds, let k := ii s - 1 in 1 <= ii s /\ logged k ds it /\ k <= maxit /\ (phase c mmax k (ib s) \/ maxit < ii s) /\ f_b P s = vsub b1 (A (f_x P s)) /\ nth k ds zero_ = nrm (f_b P s) /\
        (forall j, j < k -> checkpoint c mmax j -> stopf (nth 0 ds zero_) (nth j ds zero_) = false).
    Lemma R_body s it s' it' : RI s it -> ib s <= mmax -> ii s <= maxit -> bodyf c s it = Ok (s', it') -> RI s' it'.
    Proof.
      intros (ds & H1 & HL & Hk & HP & Hb & Hd & Hc & Hcc) Hi Hm H. assert (BI := body_i _ _ _ _ _ H). destruct BI as [B1 B2].
      unfold fcg_body in H. destruct (papply _ _ _) as [p' w]. destruct (orth _ _ _ _ _ _ _) as [dv| |]; cbn [obind] in H; try discriminate.
      destruct (kdiv _ _) as [al| |]; cbn [obind] in H; try discriminate. destruct (stepf _ _ _) as [it1| |] eqn:ES; cbn [obind] in H; try discriminate.
      injection H as H <-.
      remember (vadd (f_b P s) (vscale (ropp al) (A dv))) as b' eqn:Eb.
      assert (Eb' : f_b P s' = b') by (rewrite <- H; reflexivity). assert (Ex' : f_x P s' = vadd (f_x P s) (vscale al dv)) by (rewrite <- H; reflexivity). clear H.
      assert (El : length ds = S (ii s - 1)) by apply HL.
      exists (ds ++ [nrm b']). cbv zeta. rewrite B1, B2. replace (S (ii s) - 1) with (S (ii s - 1)) by lia. split; [lia|].
      assert (HL' : logged (S (ii s - 1)) (ds ++ [nrm b']) it1) by (apply (logged_step _ _ _ it); [exact HL|]; replace (S (ii s - 1)) with (ii s) by lia; exact ES).
      split; [exact HL'|]. split; [lia|]. split; [apply phase_body; assumption|]. rewrite Eb', Ex'.
      split; [rewrite Eb, Hb; apply vsub_axpy, LA|].
      split; [rewrite app_nth2 by lia; rewrite El, Nat.sub_diag; reflexivity|]. split.
      - intros j Hj Cj. rewrite !app_nth1 by lia. destruct (Nat.eq_dec j (ii s - 1)) as [->|N]; [apply Hcc; assumption|apply Hc; [lia|assumption]].
      - intros Ck Hib. destruct (phase_check c mmax (ii s - 1) (ib s) HP Hi) as [N|N]; [contradiction|lia].
    Qed.
    Lemma R_test s it : RJ s it -> ii s <= maxit -> i_conv D it = false -> RI s it.
    Proof.
      intros (ds & H1 & HL & Hk & HP & Hb & Hd & Hc) Hm HC. exists ds. cbv zeta. destruct HP as [HP|HP]; [|lia].
      repeat (split; [assumption|]). intros _ _. rewrite <- HC. symmetry. apply HL.
    Qed.
    Lemma R_cycle s it : RI s it -> mmax < ib s \/ maxit < ii s -> RJ (cycle P c mmax s) it.
    Proof.
      intros (ds & H1 & HL & Hk & HP & Hb & Hd & Hc & Hcc) Hx. exists ds. rewrite cycle_i.
      assert (Eb : f_b P (cycle P c mmax s) = f_b P s) by (destruct c; reflexivity). assert (Ex : f_x P (cycle P c mmax s) = f_x P s) by (destruct c; reflexivity).
      rewrite Eb, Ex. cbv zeta. repeat (split; [assumption|]). split; [|auto].
      destruct (le_lt_dec (ib s) mmax) as [L|L]; [right; lia|left; apply phase_cycle; assumption].
    Qed.
    Lemma R_start p x b2 it ds : logged 0 [nrm b2] it -> i_conv D it = false -> b2 = vsub b1 (A x) -> ds = [nrm b2] -> RJ (fcg_start P mmax p x b2) it.
    Proof.
      intros HL HC Hb ->. exists [nrm b2]. cbn. split; [lia|]. split; [exact HL|]. split; [lia|]. split.
      - left. destruct c; cbn; [exists 0; lia|left; lia].
      - split; [exact Hb|]. split; [reflexivity|]. intros j Hj. lia.
    Qed.
  End Report.

  (** C53.  Floating point or exact, any preconditioner: what RestartedFCGSolver and CompleteFCGSolver report *)
  Theorem C53_fcg_reports complete mmax maxit fuel p x b p1 x1 b1 p' x' b' res log : linear A -> pre p x b = (p1, x1, b1) ->
    fcgf complete mmax maxit fuel p x b = Some (Ok (p', x', b', res, log)) ->
    reports (checkpoint complete mmax) maxit log res /\
    exists p2 x2, post p2 x2 = (p', x') /\ b' = vsub b1 (A x2) /\ snd (last log (0, zero_)) = nrm b'.
  Proof.
    intros LA EP H. unfold fcg_apply in H. rewrite EP in H. destruct (stepf 0 _ _) as [it| |] eqn:ES; try discriminate.
    assert (L0 := logged0 _ _ ES). destruct (i_conv D it) eqn:EC.
    - injection H as H. apply finish_eq in H. destruct H as (F1 & F2 & F3 & F4). split.
      + rewrite <- F3, <- F4. eapply logged_reports; [exact L0|lia|intros; lia|congruence].
      + exists p1, x1. split; [exact F1|]. split; [symmetry; exact F2|]. rewrite <- F4, <- F2. destruct L0 as (-> & _). reflexivity.
    - destruct (outerf _ _ _ _ _ _) as [[[s1 it1]| |]|] eqn:EO; cbn [obind] in H; try discriminate.
      injection H as H. apply finish_eq in H. destruct H as (F1 & F2 & F3 & F4). cbn [fst snd] in *.
      destruct (outer_inv complete mmax maxit (RI complete mmax maxit b1) (RJ complete mmax maxit b1) (R_body complete mmax maxit b1 LA) (R_test complete mmax maxit b1)
        (R_cycle complete mmax maxit b1) fuel _ it s1 it1 (R_start complete mmax maxit b1 p1 x1 _ it _ L0 EC eq_refl eq_refl) EO) as [(ds & H1 & HL & Hk & HP & Hb & Hd & Hc) Hx].
      split.
      + rewrite <- F3, <- F4. eapply logged_reports; [exact HL|exact Hk|exact Hc|]. intros E. destruct Hx as [Hx|Hx]; [lia|congruence].
      + exists (f_p P s1), (f_x P s1). split; [exact F1|]. split; [rewrite <- F2; exact Hb|]. rewrite <- F4, <- F2, <- Hd.
        destruct HL as (-> & El & _). remember (ii s1 - 1) as k eqn:Ek. clear - El.
        assert (G : forall a, snd (last (combine (seq a (S k)) ds) (0, zero_)) = nth k ds zero_).
        { revert k El. induction ds as [|d ds IH]; intros k El a; [discriminate|]. destruct k as [|k].
          - destruct ds; [reflexivity|discriminate].
          - destruct ds as [|d2 ds]; [discriminate|]. specialize (IH k (f_equal pred El) (S a)). change (nth (S k) (d :: d2 :: ds) zero_) with (nth k (d2 :: ds) zero_). rewrite <- IH. reflexivity. }
        apply G.
  Qed.

  (** C53.  Termination: after at most maxit + 1 rounds, if a window holds more than one direction or for the complete variant *)
  Theorem C53_fcg_terminates complete mmax maxit fuel p x b : complete = true \/ 1 <= mmax -> maxit + 1 <= fuel ->
    fcgf complete mmax maxit fuel p x b <> None.
  Proof.
    intros Hm Hf. unfold fcg_apply. destruct (pre p x b) as [[p1 x1] b1]. destruct (stepf 0 _ _) as [it| |]; try discriminate.
    destruct (i_conv D it); [discriminate|].
    assert (G : forall fuel s it, 1 <= ii s -> ib s <= mmax -> S maxit - ii s < fuel -> outerf complete mmax maxit fuel s it <> None).
    { clear - Hm. induction fuel as [|fuel IH]; intros s it Hi Hb Hf.
      - lia.
      - cbn [fcg_outer]. destruct (ii s <=? maxit) eqn:E1; destruct (i_conv D it) eqn:E2; cbn [andb negb]; try discriminate.
        apply Nat.leb_le in E1. destruct (innerf _ _ _ _ _ _) as [[s1 it1]| |] eqn:EI; try discriminate.
        assert (L : ii s < ii s1).
        { replace (S maxit - ii s) with (S (maxit - ii s)) in EI by lia. cbn [fcg_inner] in EI. rewrite (proj2 (Nat.leb_le _ _) E1), (proj2 (Nat.leb_le _ _) Hb) in EI. cbn [andb] in EI.
          destruct (bodyf _ _ _) as [[s2 it2]| |] eqn:EB; cbn [obind fst snd] in EI; try discriminate. apply body_i in EB. destruct EB as [B1 B2].
          apply (inner_inv complete mmax maxit (fun s' _ => ii s < ii s')) in EI; [apply EI| |lia|lia].
          intros sa ita sb itb Ha _ _ Hab. apply body_i in Hab. lia. }
        apply IH; rewrite ?cycle_i; try lia. destruct complete; cbn [cycle f_ib]; [lia|]. destruct Hm; [discriminate|lia]. }
    specialize (G fuel (fcg_start P mmax p1 x1 (vsub b1 (A x1))) it). cbn [fcg_start f_i f_ib] in G.
    destruct (outerf _ _ _ _ _ _) eqn:E; [discriminate|]. exfalso. apply G; try lia. reflexivity.
  Qed.

  (** C53 (deviation).  RestartedFCGSolver with mmax = 0: unless the first iteration converges (or fails) or is the last one allowed,
      apply never returns *)
  Theorem C53_fcg_mmax0_refuted maxit fuel fuel1 p x b p' x' b' res log : 2 <= maxit ->
    fcgf false 0 1 fuel1 p x b = Some (Ok (p', x', b', res, log)) -> r_converged D res = false -> fcgf false 0 maxit fuel p x b = None.
  Proof.
    intros Hm H HC. unfold fcg_apply, fcg_start in *. destruct (pre p x b) as [[p1 x1] b1]. destruct (stepf 0 _ _) as [it| |] eqn:ES; try discriminate.
    assert (L0 := logged0 _ _ ES). destruct (i_conv D it) eqn:EC.
    { exfalso. injection H as H. apply finish_eq in H. destruct H as (_ & _ & F3 & _). rewrite <- F3 in HC. cbn in HC.
      destruct L0 as (_ & _ & _ & E5 & E6 & _ & E8). rewrite E5, E6 in HC. congruence. }
    destruct fuel1 as [|fuel1]; [discriminate|]. cbn [fcg_outer f_i] in H. rewrite EC in H. cbn [Nat.leb andb negb Nat.sub fcg_inner f_ib f_i] in H.
    destruct (bodyf false _ it) as [[s1 it1]| |] eqn:EB; cbn [obind fst snd] in H; try discriminate.
    assert (EBi := body_i _ _ _ _ _ EB). destruct EBi as [B1 B2]. cbn [f_i f_ib] in B1, B2.
    assert (LS : logged 1 ([nrm (vsub b1 (A x1))] ++ [nrm (f_b P s1)]) it1).
    { apply (logged_step 0 _ _ it); [exact L0|]. exact (body_step _ _ _ _ _ EB). }
    assert (C1 : i_conv D it1 = false).
    { destruct fuel1 as [|fuel1]; [discriminate|]. cbn [fcg_outer] in H. rewrite cycle_i, B1 in H. cbn [Nat.leb andb] in H. cbn [obind] in H.
      injection H as H. apply finish_eq in H. destruct H as (_ & _ & F3 & _). cbn [fst snd] in F3. rewrite <- F3 in HC. cbn in HC.
      destruct LS as (_ & _ & _ & E5 & E6 & _ & E8). rewrite E5, E6 in HC. congruence. }
    clear H.
    assert (G : forall fuel s it, ii s = 2 -> ib s = 1 -> i_conv D it = false -> outerf false 0 maxit fuel s it = None).
    { clear - Hm. induction fuel as [|fuel IH]; intros s it H1 H2 H3; [reflexivity|]. cbn [fcg_outer]. rewrite H1, H3. cbn [Nat.sub].
      rewrite (proj2 (Nat.leb_le 2 maxit) Hm). cbn [andb negb].
      assert (E : innerf false 0 maxit (maxit - 1) s it = Ok (s, it)) by (destruct (maxit - 1); cbn [fcg_inner]; [reflexivity|]; rewrite H2; reflexivity).
      rewrite E. apply IH; [rewrite cycle_i; exact H1|reflexivity|exact H3]. }
    destruct fuel as [|fuel]; [reflexivity|]. cbn [fcg_outer f_i]. rewrite EC. replace (S maxit - 1) with (S (maxit - 1)) by lia.
    rewrite (proj2 (Nat.leb_le 1 maxit)) by lia. cbn [andb negb fcg_inner f_ib Nat.leb]. cbn [f_i]. rewrite (proj2 (Nat.leb_le 1 maxit)) by lia. cbn [andb].
    rewrite EB. cbn [obind fst snd].
    assert (E : innerf false 0 maxit (maxit - 1) s1 it1 = Ok (s1, it1)) by (destruct (maxit - 1); cbn [fcg_inner]; [reflexivity|]; rewrite B2; reflexivity).
    rewrite E. rewrite G; [reflexivity|rewrite cycle_i; exact B1|reflexivity|exact C1].
  Qed.
End Runs.

(** ** Specification in exact arithmetic *)
Section ExactSpec.
  Context {K : ring} {V : vspace K}.
  (** scalars of a field; dividing by zero gives inf or nan, which the next step() turns into SolverAbort *)
  Definition exact_div (kdiv : K -> K -> outcome K) : Prop :=
    (forall a b : K, rmul a b = rmul b a) /\ (forall c : K, c = r0 \/ c <> r0) /\ (forall a, kdiv a r0 = Throw EAbort) /\
    (forall a c, c <> r0 -> exists q, kdiv a c = Ok q /\ rmul q c = a).
  Definition selfadjoint (dot : V -> V -> K) (B : V -> V) : Prop := linear B /\ forall a b, dot (B a) b = dot a (B b).
  (** linear combinations *)
  Inductive span (S : V -> Prop) : V -> Prop :=
  | span0 : span S vz
  | span_add c u y : S u -> span S y -> span S (vadd (vscale c u) y).

  Variables (A : V -> V) (dot : V -> V -> K) (b1 x1 : V) (P : Type) (papply : P -> V -> V -> P * V).
  (** a run as the list of its search directions and step lengths *)
  Definition pos (steps : list (V * K)) : V := fold_left (fun x s => vadd x (vscale (snd s) (fst s))) steps x1.
  Definition iterate_ (steps : list (V * K)) (j : nat) : V := pos (firstn j steps).
  Definition resid (steps : list (V * K)) (j : nat) : V := vsub b1 (A (iterate_ steps j)).
  Definition dir (steps : list (V * K)) (i : nat) : V := fst (nth i steps (vz, r0)).
  Definition window (steps : list (V * K)) (lo hi : nat) (u : V) : Prop := exists i, lo <= i < hi /\ u = dir steps i.
  (** [start j]: the oldest direction step j is made conjugate to.  Step j goes along the preconditioned residual, corrected by the
      stored directions and conjugate to them; the residual after it is orthogonal to all of them and to the new direction, which is not
      null. *)
  Definition conjugate_descent (start : nat -> nat) (steps : list (V * K)) : Prop := forall j, j < length steps ->
    (exists p y, span (window steps (start j) j) y /\ dir steps j = vadd (snd (papply p vz (resid steps j))) y) /\
    (forall i, start j <= i < j -> dot (dir steps i) (A (dir steps j)) = r0) /\
    (forall i, start j <= i <= j -> dot (dir steps i) (resid steps (S j)) = r0) /\
    dot (dir steps j) (A (dir steps j)) <> r0.
End ExactSpec.
(** RestartedFCGSolver with mmax = m: windows 0..m, m..2m, 2m..3m, ...; CompleteFCGSolver: always the last m *)
Definition win_start (complete : bool) (m j : nat) : nat := if complete then j - m else (j - 1) / m * m.

Section Exact.
  Context {K : ring} {V : vspace K}.
  Variable D : Type.
  Variables (finite : D -> bool) (lt_ : D -> D -> bool) (mul_ div_ : D -> D -> D) (zero_ tiny : D).
  Variable reduction : D.
  Variable A : V -> V.
  Variable dot : V -> V -> K.
  Variable nrm : V -> D.
  Variable kdiv : K -> K -> outcome K.
  Variable P : Type.
  Variable pre : P -> V -> V -> P * V * V.
  Variable papply : P -> V -> V -> P * V.
  Variable post : P -> V -> P * V.
  Hypothesis HK : exact_div kdiv.
  Hypothesis HD : scalar_product dot.
  Hypothesis HA : selfadjoint dot A.
  Local Notation iter := (iter D).
  Local Notation stepf := (step D finite lt_ mul_ tiny reduction).
  Local Notation bodyf := (fcg_body (V := V) D finite lt_ mul_ tiny reduction A dot nrm kdiv P papply).
  Local Notation outerf := (fcg_outer (V := V) D finite lt_ mul_ tiny reduction A dot nrm kdiv P papply).
  Local Notation fcgf := (fcg_apply (V := V) D finite lt_ mul_ div_ zero_ tiny reduction A dot nrm kdiv P pre papply post).
  Local Notation st := (fcg (V := V) P).
  Local Notation ib := (f_ib (V := V) P). Local Notation ii := (f_i (V := V) P).

  Lemma xring_theory : ring_theory (r0 : K) r1 radd rmul rsub ropp eq.
  Proof. constructor; intros; try ncring; auto. apply HK. Qed.
  Add Ring xring : xring_theory.
  Lemma xdiv a c q : kdiv a c = Ok q -> c <> r0 /\ rmul q c = a.
  Proof.
    destruct HK as (_ & K2 & K3 & K4). intros E. destruct (K2 c) as [->|N]; [rewrite K3 in E; discriminate|].
    split; [exact N|]. destruct (K4 a c N) as (q' & E1 & E2). congruence.
  Qed.
  Lemma xadd_r a b c : dot a (vadd b c) = radd (dot a b) (dot a c).
  Proof. rewrite !(sp_sym _ HD a). apply HD. Qed.
  Lemma xscale_r k a b : dot a (vscale k b) = rmul k (dot a b).
  Proof. rewrite !(sp_sym _ HD a). apply HD. Qed.
  Lemma x0_r a : dot a vz = r0.
  Proof. rewrite <- (vscale_0 K V vz), xscale_r. ring. Qed.
  Lemma span_plus S (y z : V) : span S y -> span S z -> span S (vadd y z).
  Proof. intros Hy Hz. induction Hy; [rewrite vadd_comm, vadd_0; exact Hz|]. rewrite <- vadd_assoc. constructor; auto. Qed.
  Lemma span_in (S : V -> Prop) u : S u -> span S u.
  Proof. intros H. rewrite <- (vscale_1 K V u), <- (vadd_0 K V (vscale r1 u)). constructor; [exact H|constructor]. Qed.
  Lemma span_scale S k (y : V) : span S y -> span S (vscale k y).
  Proof. induction 1; [rewrite vscale_vz; constructor|]. rewrite vscale_add_r, <- vscale_mul. constructor; auto. Qed.
  Lemma span_mono (S T : V -> Prop) y : (forall u, S u -> T u) -> span S y -> span T y.
  Proof. intros H. induction 1; constructor; auto. Qed.
  Lemma span_dot (S : V -> Prop) z y : (forall u, S u -> dot z u = r0) -> span S y -> dot z y = r0.
  Proof. intros H. induction 1 as [|c u y Hu Hy IH]; [apply x0_r|]. rewrite xadd_r, xscale_r, (H u Hu), IH. ring. Qed.

  (** *** the orthogonalisation loop *)
  Lemma orth_ok (u : nat -> V) ks d Ad dd w : forall v v',
    (forall j, In j ks -> nth_error d j = Some (u j) /\ nth_error Ad j = Some (A (u j)) /\ nth_error dd j = Some (dot (u j) (A (u j)))) ->
    NoDup ks -> (forall i j, In i ks -> In j ks -> i <> j -> dot (u i) (A (u j)) = r0) ->
    orth dot kdiv ks d Ad dd w v = Ok v' ->
    (exists y, span (fun z => exists j, In j ks /\ z = u j) y /\ v' = vadd v y) /\
    (forall j, In j ks -> dot (u j) (A v') = radd (dot (u j) (A v)) (ropp (dot (A (u j)) w))) /\
    (forall z, (forall j, In j ks -> dot z (A (u j)) = r0) -> dot z (A v') = dot z (A v)).
  Proof.
    destruct HA as [[A1 A2] A3].
    induction ks as [|k ks IH]; intros v v' Hs HN HC H; cbn [orth] in H.
    - injection H as <-. split; [exists vz; split; [constructor|symmetry; apply vadd_0]|]. split; [intros j []|reflexivity].
    - destruct (Hs k (or_introl eq_refl)) as (E1 & E2 & E3). unfold vat in H. rewrite E1, E2, E3 in H. cbn [obind] in H.
      destruct (kdiv _ _) as [q| |] eqn:EQ; cbn [obind] in H; try discriminate. apply xdiv in EQ. destruct EQ as [Q1 Q2].
      inversion HN as [|? ? N1 N2]; subst.
      destruct (IH (vadd v (vscale q (u k))) v') as ((y & Y1 & Y2) & I2 & I3); [intros j Hj; apply Hs; right; exact Hj|exact N2|intros; apply HC; try (right; assumption); assumption|exact H|].
      split; [|split].
      + exists (vadd (vscale q (u k)) y). split.
        * constructor; [exists k; split; [left|]; reflexivity|]. apply (span_mono (fun z => exists j, In j ks /\ z = u j)); [|exact Y1]. intros z (j & J1 & J2). exists j. split; [right; exact J1|exact J2].
        * rewrite Y2. symmetry. apply vadd_assoc.
      + intros j [<-|Hj].
        * rewrite I3; [|intros j Hj; apply HC; [left; reflexivity|right; exact Hj|intros ->; contradiction]].
          rewrite A1, A2, xadd_r, xscale_r, Q2. reflexivity.
        * rewrite (I2 j Hj), A1, A2, xadd_r, xscale_r, (HC j k); [ring|right; exact Hj|left; reflexivity|intros ->; contradiction].
      + intros z Hz. rewrite I3; [|intros j Hj; apply Hz; right; exact Hj]. rewrite A1, A2, xadd_r, xscale_r, (Hz k (or_introl eq_refl)). ring.
  Qed.

  Variables (b1 x1 : V).
  Local Notation posf := (pos x1). Local Notation residf := (resid A b1 x1).
  Lemma pos_snoc steps dv al : posf (steps ++ [(dv, al)]) = vadd (posf steps) (vscale al dv).
  Proof. unfold pos. rewrite fold_left_app. reflexivity. Qed.
  Lemma resid_app steps e j : j <= length steps -> residf (steps ++ [e]) j = residf steps j.
  Proof. intros H. unfold resid, iterate_. rewrite firstn_app. replace (j - length steps) with 0 by lia. cbn. rewrite app_nil_r. reflexivity. Qed.
  Lemma resid_all steps : residf steps (length steps) = vsub b1 (A (posf steps)).
  Proof. unfold resid, iterate_. rewrite firstn_all. reflexivity. Qed.
  Lemma dir_app (steps : list (V * K)) e i : i < length steps -> dir (steps ++ [e]) i = dir steps i.
  Proof. intros H. unfold dir. rewrite app_nth1 by exact H. reflexivity. Qed.
  Lemma dir_last (steps : list (V * K)) e : dir (steps ++ [e]) (length steps) = fst e.
  Proof. unfold dir. rewrite app_nth2, Nat.sub_diag by lia. reflexivity. Qed.
  Lemma win_app (steps : list (V * K)) e lo hi u : hi <= length steps -> window steps lo hi u <-> window (steps ++ [e]) lo hi u.
  Proof. intros H. split; intros (i & I1 & I2); exists i; (split; [exact I1|]); rewrite dir_app in * by lia; exact I2. Qed.

  Section Win.
  Variable start : nat -> nat.
  Hypothesis Smono : forall i j, i <= j -> start i <= start j.
  Local Notation cd := (conjugate_descent A dot b1 x1 P papply start).
  Lemma cd_conj steps i j : cd steps -> start (length steps) <= i < length steps -> start (length steps) <= j < length steps -> i <> j -> dot (dir steps i) (A (dir steps j)) = r0.
  Proof.
    intros C Hi Hj N. destruct (lt_dec i j) as [L|L].
    - apply (C j); [lia|]. split; [|lia]. assert (S1 := Smono j (length steps)). lia.
    - rewrite <- (proj2 HA), (sp_sym _ HD). apply (C i); [lia|]. split; [|lia]. assert (S1 := Smono i (length steps)). lia.
  Qed.
  Lemma cd_orth steps i : cd steps -> start (length steps) <= i < length steps -> dot (dir steps i) (residf steps (length steps)) = r0.
  Proof.
    intros C Hi. destruct (length steps) as [|k] eqn:E; [lia|]. apply (C k); [lia|]. assert (S1 := Smono k (S k)). lia.
  Qed.
  (** one more step *)
  Lemma cd_snoc steps p w y dv al : cd steps -> let k := length steps in let r := residf steps k in
    w = snd (papply p vz r) -> span (window steps (start k) k) y -> dv = vadd w y ->
    (forall i, start k <= i < k -> dot (dir steps i) (A dv) = r0) -> rmul al (dot dv (A dv)) = dot dv r -> dot dv (A dv) <> r0 -> cd (steps ++ [(dv, al)]).
  Proof.
    intros C k r Ew Hy Ed Hc Ea Hnz j Hj. rewrite app_length in Hj. cbn [length] in Hj.
    destruct (Nat.eq_dec j k) as [->|N].
    - unfold k. rewrite dir_last. cbn [fst]. rewrite resid_app by lia. split; [|split; [|split; [|exact Hnz]]].
      + exists p, y. split; [|subst w; exact Ed]. apply (span_mono (window steps (start k) k)); [|exact Hy]. intros u Hu. apply win_app; [lia|exact Hu].
      + intros i Hi. rewrite dir_app by lia. apply Hc. exact Hi.
      + assert (Er : residf (steps ++ [(dv, al)]) (S (length steps)) = vadd r (vscale (ropp al) (A dv))).
        { replace (S (length steps)) with (length (steps ++ [(dv, al)])) by (rewrite app_length; cbn; lia). rewrite resid_all, pos_snoc. unfold r, k. rewrite resid_all.
          symmetry. apply vsub_axpy. apply HA. }
        intros i Hi. rewrite Er, xadd_r, xscale_r. destruct (Nat.eq_dec i (length steps)) as [->|Ni].
        * rewrite dir_last. cbn [fst]. rewrite <- Ea. ring.
        * rewrite dir_app by lia. rewrite (Hc i) by (fold k in Hi; lia). unfold r, k. rewrite cd_orth; [ring|exact C|lia].
    - assert (Hj' : j < length steps) by (fold k; lia). destruct (C j Hj') as ((q & z & Z1 & Z2) & C2 & C3 & C4).
      rewrite dir_app, !resid_app by lia. split; [|split; [|split; [|exact C4]]].
      + exists q, z. split; [|exact Z2]. apply (span_mono (window steps (start j) j)); [|exact Z1]. intros u Hu. apply win_app; [lia|exact Hu].
      + intros i Hi. rewrite dir_app by lia. apply C2. exact Hi.
      + intros i Hi. rewrite dir_app by lia. apply C3. exact Hi.
  Qed.
  End Win.

  Lemma win_start_mono c m i j : i <= j -> win_start c m i <= win_start c m j.
  Proof.
    intros H. unfold win_start. destruct c; [lia|]. apply Nat.mul_le_mono_r. destruct m as [|m]; [cbn; lia|]. apply Nat.div_le_mono; lia.
  Qed.
  Section Inv.
    Variables (c : bool) (mmax maxit : nat).
    Local Notation start := (win_start c mmax).
    Local Notation cd := (conjugate_descent A dot b1 x1 P papply start).
    (** which step the slot j of the arrays holds *)
    Definition idx (k i j : nat) : nat := if c then (if j <? i then k - i + j else k - i + j - S mmax) else k - i + j.
    Definition held (s : st) (j : nat) : Prop := if c then j < f_kl P s else j < ib s.
    Definition slot (steps : list (V * K)) (s : st) (j : nat) : Prop :=
      let u := dir steps (idx (length steps) (ib s) j) in
      nth_error (f_d P s) j = Some u /\ nth_error (f_Ad P s) j = Some (A u) /\ nth_error (f_dd P s) j = Some (dot u (A u)).
    Definition stored (steps : list (V * K)) (s : st) : Prop :=
      phase c mmax (length steps) (ib s) /\ length (f_d P s) = S mmax /\ length (f_Ad P s) = S mmax /\ length (f_dd P s) = S mmax /\
      f_kl P s = (if c then Nat.min (length steps) (S mmax) else f_kl P s) /\ forall j, held s j -> slot steps s j.
    Definition core (steps : list (V * K)) (s : st) (it : iter) : Prop :=
      ii s = S (length steps) /\ f_x P s = posf steps /\ f_b P s = residf steps (length steps) /\ cd steps /\
      map snd (i_log D it) = map (fun j => nrm (residf steps j)) (seq 0 (S (length steps))) /\ i_i D it = length steps.
    Definition EI (s : st) (it : iter) : Prop := exists steps, core steps s it /\ stored steps s.
    Definition EJ (s : st) (it : iter) : Prop := exists steps, core steps s it /\ (stored steps s \/ maxit < ii s).

    Lemma phase_start k i : phase c mmax k i -> i <= mmax -> if c then start k = k - mmax else start k = k - i /\ i <= k.
    Proof.
      unfold phase, win_start. destruct c.
      - reflexivity.
      - intros [[-> ->]|(w & -> & H1 & H2)] H; [split; [|lia]; destruct mmax; reflexivity|]. split; [|lia].
        replace (w * mmax + i - 1) with ((i - 1) + w * mmax) by lia. rewrite Nat.div_add by lia. rewrite Nat.div_small by lia. lia.
    Qed.
    Lemma live_in s j : In j (live P c s) <-> held s j /\ (c = true -> j <> ib s).
    Proof.
      unfold live, held. destruct c.
      - rewrite filter_In, in_seq, negb_true_iff, Nat.eqb_neq. split; intros [H1 H2]; (split; [lia|]); [intros _; congruence|intros E; exact (H2 eq_refl (eq_sym E))].
      - rewrite in_seq. split; [intros H; split; [lia|discriminate]|lia].
    Qed.
    Lemma live_nodup (s : st) : NoDup (live P c s).
    Proof. unfold live. destruct c; [apply NoDup_filter|]; apply seq_NoDup. Qed.
    (** the slots used by the orthogonalisation are exactly the steps of the window *)
    Lemma live_window steps s : stored steps s -> ib s <= mmax -> let k := length steps in
      (forall j, In j (live P c s) -> start k <= idx k (ib s) j < k) /\
      (forall i, start k <= i < k -> exists j, In j (live P c s) /\ idx k (ib s) j = i) /\
      (forall i j, In i (live P c s) -> In j (live P c s) -> i <> j -> idx k (ib s) i <> idx k (ib s) j).
    Proof.
      intros (HP & _ & _ & _ & Hkl & _) Hi k. fold k in HP, Hkl. assert (HS := phase_start k (ib s) HP Hi).
      assert (LI := live_in s). unfold held in LI.
      unfold idx. unfold phase in HP. destruct c.
      - rewrite HS. destruct HP as (w & Ek & _). rewrite Hkl in LI.
        assert (Hw : w = 0 \/ S mmax + ib s <= k) by (destruct w; [left; reflexivity|right; nia]).
        split; [|split].
        + intros j Hj. apply LI in Hj. destruct Hj as [J1 J2]. specialize (J2 eq_refl). destruct (j <? ib s) eqn:E; [apply Nat.ltb_lt in E|apply Nat.ltb_ge in E]; destruct Hw as [->|Hw]; lia.
        + intros i Hii. destruct (le_lt_dec (k - ib s) i) as [L|L].
          * exists (i - (k - ib s)). split; [apply LI; split; [|intros _]; destruct Hw as [->|Hw]; lia|].
            destruct (_ <? _) eqn:E; [lia|apply Nat.ltb_ge in E; lia].
          * destruct Hw as [->|Hw]; [lia|]. exists (i + S mmax - (k - ib s)). split; [apply LI; split; [|intros _]; lia|].
            destruct (_ <? _) eqn:E; [apply Nat.ltb_lt in E; lia|lia].
        + intros i j Ha Hb N. apply LI in Ha. apply LI in Hb. destruct Ha as [Ha1 Ha2]. destruct Hb as [Hb1 Hb2]. specialize (Ha2 eq_refl). specialize (Hb2 eq_refl).
          destruct (i <? ib s) eqn:E1; destruct (j <? ib s) eqn:E2; (apply Nat.ltb_lt in E1 || apply Nat.ltb_ge in E1); (apply Nat.ltb_lt in E2 || apply Nat.ltb_ge in E2); destruct Hw as [->|Hw]; lia.
      - destruct HS as [-> HS]. split; [|split].
        + intros j Hj. apply LI in Hj. lia.
        + intros i Hii. exists (i - (k - ib s)). split; [apply LI; split; [lia|discriminate]|lia].
        + intros. lia.
    Qed.

    Lemma E_body s it s' it' : EI s it -> ib s <= mmax -> ii s <= maxit -> bodyf c s it = Ok (s', it') -> EI s' it'.
    Proof.
      intros (steps & (C1 & C2 & C3 & C4 & C5 & C6) & HSt) Hi Hm H. assert (BS := H). apply body_step in BS.
      destruct (live_window steps s HSt Hi) as (W1 & W2 & W3). set (k := length steps) in *.
      assert (SM := fun i j => win_start_mono c mmax i j).
      destruct HSt as (HP & Ld & LA & Ldd & Hkl & Hsl). fold k in HP, Hkl.
      unfold fcg_body in H. destruct (papply (f_p P s) vz (f_b P s)) as [p' w] eqn:EP. destruct (orth _ _ _ _ _ _ _) as [dv| |] eqn:EO in H; cbn [obind] in H; try discriminate.
      destruct (kdiv _ _) as [al| |] eqn:EK in H; cbn [obind] in H; try discriminate. apply xdiv in EK. destruct EK as [K1 K2].
      destruct (stepf (ii s) _ it) as [it1| |] eqn:ES in H; cbn [obind] in H; try discriminate. injection H as H Hit. subst it1.
      assert (Sl : forall j, In j (live P c s) -> slot steps s j) by (intros j Hj; apply Hsl; apply live_in in Hj; apply Hj).
      apply (orth_ok (fun j => dir steps (idx k (ib s) j))) in EO; [| |apply live_nodup|].
      2:{ intros j Hj. exact (Sl j Hj). }
      2:{ intros i j Ii Ij N. apply (cd_conj start SM steps); [exact C4|apply W1; assumption|apply W1; assumption|apply W3; assumption]. }
      destruct EO as ((y & Y1 & Y2) & O2 & _).
      assert (Hy : span (window steps (start k) k) y).
      { apply (span_mono (fun z => exists j, In j (live P c s) /\ z = dir steps (idx k (ib s) j))); [|exact Y1]. intros u (j & J1 & J2). exists (idx k (ib s) j). split; [apply W1; exact J1|exact J2]. }
      assert (Hc : forall i, start k <= i < k -> dot (dir steps i) (A dv) = r0).
      { intros i Hii. destruct (W2 i Hii) as (j & J1 & <-). rewrite (O2 j J1), (proj2 HA). ring. }
      assert (Hcd : cd (steps ++ [(dv, al)])).
      { apply (cd_snoc start SM steps (f_p P s) w y dv al); try assumption; fold k; rewrite <- C3; [rewrite EP; reflexivity|exact K2]. }
      exists (steps ++ [(dv, al)]). assert (Lk : length (steps ++ [(dv, al)]) = S k) by (rewrite app_length; cbn; fold k; lia).
      assert (Eb : f_b P s' = residf (steps ++ [(dv, al)]) (S k)).
      { rewrite <- Lk, resid_all, pos_snoc, <- (vsub_axpy A) by apply HA. rewrite <- (resid_all steps). fold k. rewrite <- C3, <- H. reflexivity. }
      split.
      - split; [rewrite Lk, <- H; cbn; congruence|]. split; [rewrite pos_snoc, <- C2, <- H; reflexivity|]. split; [rewrite Lk; exact Eb|]. split; [exact Hcd|].
        unfold step in BS. destruct (negb (finite (nrm (f_b P s')))); [discriminate|]. injection BS as BS. rewrite <- BS, Lk. cbn [i_log i_i].
        split; [|exact C1]. rewrite map_app. cbn [map snd]. rewrite (seq_S (S k)), map_app. cbn [map plus]. rewrite <- Eb. f_equal. rewrite C5. apply map_ext_in.
        intros j Hj. apply in_seq in Hj. rewrite resid_app by (fold k; lia). reflexivity.
      - assert (Eib : ib s' = S (ib s)) by (rewrite <- H; reflexivity).
        split; [rewrite Lk, Eib; apply phase_body; assumption|]. split; [rewrite <- H; cbn; rewrite upd_length; exact Ld|]. split; [rewrite <- H; cbn; rewrite upd_length; exact LA|].
        split; [rewrite <- H; cbn; rewrite upd_length; exact Ldd|]. split.
        + rewrite Lk. destruct c; [|reflexivity]. rewrite <- H. cbn [f_kl]. rewrite Hkl. cbn [phase] in HP. destruct HP as (w0 & Ek & _). fold k in Ek.
          assert (Hw : w0 = 0 \/ S mmax + ib s <= k) by (destruct w0; [left; reflexivity|right; nia]).
          destruct (Nat.min k (S mmax) <=? ib s) eqn:E; [apply Nat.leb_le in E|apply Nat.leb_gt in E]; destruct Hw as [->|Hw]; lia.
        + intros j Hj.
          assert (Hcase : j = ib s \/ j <> ib s /\ held s j /\ idx (S k) (S (ib s)) j = idx k (ib s) j /\ idx k (ib s) j < k).
          { unfold held in *. rewrite Eib in Hj. unfold idx. unfold phase in HP. fold k in HP. destruct c.
            - assert (Hj' : j < S (f_kl P s) /\ (f_kl P s <= ib s \/ j < f_kl P s)).
              { rewrite <- H in Hj. cbn [f_kl] in Hj. destruct (f_kl P s <=? ib s) eqn:E; [apply Nat.leb_le in E|apply Nat.leb_gt in E]; lia. }
              rewrite Hkl in *. destruct HP as (w0 & Ek & _). destruct (Nat.eq_dec j (ib s)) as [->|N]; [left; reflexivity|right].
              assert (Hw : w0 = 0 \/ S mmax + ib s <= k) by (destruct w0; [left; reflexivity|right; nia]).
              split; [exact N|]. split; [destruct Hw as [->|Hw]; lia|].
              destruct (j <? S (ib s)) eqn:E1; destruct (j <? ib s) eqn:E2; (apply Nat.ltb_lt in E1 || apply Nat.ltb_ge in E1); (apply Nat.ltb_lt in E2 || apply Nat.ltb_ge in E2); destruct Hw as [->|Hw]; lia.
            - destruct (Nat.eq_dec j (ib s)) as [->|N]; [left; reflexivity|right]. destruct HP as [[Hk0 Hi0]|(w0 & Ek & _)]; lia. }
          unfold slot. rewrite Lk, Eib, <- H. cbn [f_d f_Ad f_dd]. rewrite !nth_error_upd, Ld, LA, Ldd.
          destruct Hcase as [->|(N & Hh & Ei & Li)].
          * rewrite Nat.eqb_refl, (proj2 (Nat.ltb_lt _ _)) by lia.
            assert (Ei : idx (S k) (S (ib s)) (ib s) = k).
            { unfold idx, phase in *. fold k in HP. rewrite (proj2 (Nat.ltb_lt _ _)) by lia. destruct c; [destruct HP as (w0 & Ek & _)|destruct HP as [[Hk0 Hi0]|(w0 & Ek & _)]]; lia. }
            rewrite Ei. unfold k. rewrite dir_last. cbn. auto.
          * assert (Ne : (ib s =? j) = false) by (apply Nat.eqb_neq; congruence). rewrite Ne, Ei, dir_app by exact Li. exact (Hsl j Hh).
    Qed.
    Lemma E_test s it : EJ s it -> ii s <= maxit -> i_conv D it = false -> EI s it.
    Proof. intros (steps & H1 & [H2|H2]) Hm _; [exists steps; auto|lia]. Qed.
    Lemma swap_length {T} (df : T) l i j : length (swap df l i j) = length l.
    Proof. unfold swap. rewrite !upd_length. reflexivity. Qed.
    Lemma swap_first {T} (df : T) l m : length l = S m -> nth_error (swap df l 0 m) 0 = nth_error l m.
    Proof.
      intros L. unfold swap. rewrite !nth_error_upd, upd_length, L. cbn [Nat.ltb Nat.leb Nat.eqb]. destruct m as [|m]; cbn [Nat.eqb].
      - symmetry. apply nth_error_nth'. lia.
      - symmetry. apply nth_error_nth'. lia.
    Qed.
    Lemma E_cycle s it : EI s it -> mmax < ib s \/ maxit < ii s -> EJ (cycle P c mmax s) it.
    Proof.
      intros (steps & HC & HSt) Hx. exists steps. split.
      - destruct HC as (C1 & C2 & C3 & C4 & C5 & C6). unfold core. rewrite cycle_i. destruct c; cbn [cycle f_x f_b]; auto 10.
      - destruct (le_lt_dec (ib s) mmax) as [L|L]; [right; rewrite cycle_i; lia|left]. destruct HSt as (HP & Ld & LA & Ldd & Hkl & Hsl).
        split; [apply phase_cycle; assumption|]. set (k := length steps) in *.
        assert (Hib : ib s = S mmax /\ S mmax <= k).
        { unfold phase in HP. destruct c; [destruct HP as (w & Ek & Hm1)|destruct HP as [[Hk0 Hi0]|(w & Ek & Hm1)]]; nia. }
        destruct Hib as [Eib Lk]. unfold slot, idx, held in *. destruct c.
        + unfold cycle. cbn [f_d f_Ad f_dd f_ib f_kl]. repeat (split; [assumption|]). split; [rewrite LA; lia|]. rewrite Hkl in Hsl. fold k in Hsl. intros j Hj.
          specialize (Hsl j). rewrite Eib in Hsl. rewrite LA in Hj. replace (j <? S mmax) with true in Hsl by (symmetry; apply Nat.ltb_lt; exact Hj). cbn [Nat.ltb Nat.leb].
          fold k. replace (k - 0 + j - S mmax) with (k - S mmax + j) by lia. apply Hsl. lia.
        + unfold cycle. cbn [f_d f_Ad f_dd f_ib f_kl]. rewrite !swap_length. repeat (split; [assumption|]). intros j Hj. replace j with 0 by lia.
          rewrite !swap_first by assumption. fold k. specialize (Hsl mmax). rewrite Eib in Hsl. fold k in Hsl. replace (k - S mmax + mmax) with (k - 1 + 0) in Hsl by lia. apply Hsl. lia.
    Qed.
    Lemma E_start p b2 it : b2 = vsub b1 (A x1) -> stepf 0 (nrm b2) (iter0 D zero_) = Ok it -> EJ (fcg_start P mmax p x1 b2) it.
    Proof.
      intros Hb ES. exists nil. unfold step in ES. destruct (negb (finite (nrm b2))); [discriminate|]. injection ES as <-. split.
      - split; [reflexivity|]. split; [reflexivity|]. split; [exact Hb|]. split; [intros j Hj; cbn in Hj; lia|]. split; [|reflexivity]. cbn. rewrite Hb. reflexivity.
      - left. unfold stored, fcg_start. cbn [f_ib f_d f_Ad f_dd f_kl length]. rewrite !repeat_length. split; [destruct c; cbn; [exists 0; lia|left; auto]|].
        repeat (split; [reflexivity|]). split; [destruct c; reflexivity|]. unfold held. cbn. intros j Hj. destruct c; lia.
    Qed.
  End Inv.
End Exact.
