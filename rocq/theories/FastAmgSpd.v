(** * FastAMG as a preconditioner of symmetric positive definite systems (C83): paamg/fastamg.hh, sequential case

    The model of FastAMG::apply (FastAmg.v) on the hierarchy that MatrixHierarchy::build makes (AmgSetup.v) for a symmetric positive definite matrix, and CGSolver and LoopSolver with it (SpdSolve.v).
    Exact arithmetic, scalar entries, one process. *)
From Coq Require Import Arith List Lia Bool ZArith QArith Qcanon.
From Coq Require Import setoid_ring.Ring.
From Verif Require Import Ring Sums RingInst Outcome Sparse MatVec GsModel Gs Precond Adjoint AmgTransfer AggPattern Aggregation Amg AmgSetup AmgSpd Solvers CgExact SpdSolve FastAmg.
Import ListNotations.
Open Scope nat_scope.

Section FastSpd.
  Context {R : ring} (pos : R -> Prop).
  Hypothesis HO : ordered R pos.
  Local Open Scope ring_scope_istl.
  Add Ring oring9 : (oring_theory pos HO).
  Variable kdiv : R -> R -> R.
  Hypothesis kdiv_ok : forall a b, b <> r0 -> kdiv a b * b = a.
  Variable inv : R -> option R.
  Hypothesis inv_ok : forall a b, inv a = Some b -> a * b = r1 /\ b * a = r1.
  Hypothesis inv_pos : forall a, pos a -> exists u, inv a = Some u.
  Variable eq0 : R -> bool.
  Hypothesis eq0_ok : forall a, eq0 a = true <-> a = r0.

  (** ** Model *)
  (** the loop over the rows of FastAMG::pre, fastamg.hh:464-479: unlike in AMG::pre (SpdSolve.v: dirichlet) a stored diagonal entry counts only if it is not zero *)
  Fixpoint fast_dirichlet (i : nat) (rows : smat R) (x b : vec R) : outcome (vec R) :=
    match rows with
    | nil => Ok x
    | row :: rows' =>
      obind (match row_flags eq0 i row with
             | (true, Some d) => if eq0 d then Ok x else match inv d with Some u => Ok (upd x i (u * vget b i)) | None => Throw EFMatrix end
             | _ => Ok x end) (fun x' => fast_dirichlet (S i) rows' x' b)
    end.
  (** FastAMG::pre, fastamg.hh:448-496: x, b and the vectors lhs_, rhs_, residual_ of all levels (indeterminate on the coarser levels) *)
  Definition fast_pre (fill1 fill2 fill3 : nat -> vec R) (ls : list (@mlevel R)) (C : smat R) (x b : vec R) : outcome (vec R * vec R * list (@lst R)) :=
    obind (fast_dirichlet 0 (next ls C) x b) (fun x1 =>
      Ok (x1, b, zip3 (coarsen_vector fill1 x1 ls C) (coarsen_vector fill2 b ls C) (coarsen_vector fill3 x1 ls C))).

  (** ** pre *)
  Lemma fast_dirichlet_eq (x b : vec R) : forall rows i x, (forall k d, k < length rows -> row_flags eq0 (i + k) (nth k rows nil) = (true, Some d) -> eq0 d = false) ->
    fast_dirichlet i rows x b = dirichlet inv eq0 i rows x b.
  Proof.
    clear x. induction rows as [|row rows IH]; intros i x H; cbn [fast_dirichlet dirichlet]; auto.
    assert (E : forall x', fast_dirichlet (S i) rows x' b = dirichlet inv eq0 (S i) rows x' b).
    { intros x'. apply IH. intros k d Hk Hd. apply (H (S k) d); [cbn; lia|]. rewrite Nat.add_succ_r. exact Hd. }
    destruct (row_flags eq0 i row) as [[|] [d|]] eqn:EF; cbn [obind]; auto. rewrite (H 0 d) by (cbn [length]; try lia; rewrite Nat.add_0_r; exact EF).
    destruct (inv d); cbn [obind]; auto.
  Qed.
  Lemma fast_pre_eq fill1 fill2 fill3 ls C x b : mat_wf (length (next ls C)) (length (next ls C)) (next ls C) -> (forall i, i < length (next ls C) -> den (next ls C) i i <> r0) ->
    fast_pre fill1 fill2 fill3 ls C x b = amg_pre inv eq0 fill1 fill2 fill3 ls C x b.
  Proof.
    intros HW HD. unfold fast_pre, amg_pre. rewrite fast_dirichlet_eq; auto. intros k d Hk HF. cbn [Nat.add] in HF. pose proof (mat_wf_row _ _ _ k HW) as RW.
    destruct (row_flags_spec eq0 eq0_ok _ k _ RW) as [(E & _ & _)|(E & _)]; [|exfalso; exact (E d HF)]. rewrite E in HF. injection HF as <-. destruct (eq0 _) eqn:EE; auto. exfalso. apply (HD k Hk). unfold den. now apply eq0_ok.
  Qed.
  (** unknowns that are decoupled from the others and have a nonzero diagonal entry *)
  Definition solvable (A : smat R) (k : nat) : Prop := (forall j, j <> k -> den A k j = r0) /\ den A k k <> r0.
  Lemma fast_row n (A : smat R) i (x b : vec R) : mat_wf n n A -> i < n ->
    let here := match row_flags eq0 i (nth i A nil) with
             | (true, Some d) => if eq0 d then Ok x else match inv d with Some u => Ok (upd x i (u * vget b i)) | None => Throw EFMatrix end
             | _ => Ok x end in
    (solvable A i /\ here = match inv (den A i i) with Some u => Ok (upd x i (u * vget b i)) | None => Throw EFMatrix end) \/ (~ solvable A i /\ here = Ok x).
  Proof.
    intros HW Hi. cbv zeta. destruct (row_case eq0 eq0_ok n A i HW Hi) as [[E DC]|[E ND]].
    - rewrite E. destruct (eq0 (den A i i)) eqn:EE.
      + right. split; auto. intros [_ S]. apply S, eq0_ok, EE.
      + left. split; auto. split; [apply DC|]. intros Z. apply eq0_ok in Z. congruence.
    - right. split.
      + intros [S1 S2]. apply ND. split; auto. destruct (in_dec Nat.eq_dec i (map fst (nth i A nil))) as [I|I]; auto. exfalso. apply S2. unfold den. apply denrow_notin. exact I.
      + destruct (row_flags eq0 i (nth i A nil)) as [[] [d|]]; auto. exfalso. apply (E d). reflexivity.
  Qed.
  Lemma fast_dirichlet_ok n (A : smat R) (b : vec R) : mat_wf n n A -> (forall k, k < n -> solvable A k -> exists u, inv (den A k k) = Some u) ->
    forall m i x, (i + m)%nat = n -> length x = n -> exists x1, fast_dirichlet i (skipn i A) x b = Ok x1 /\ length x1 = n /\
      forall k, k < n -> (k < i \/ ~ solvable A k -> vget x1 k = vget x k) /\ (i <= k -> solvable A k -> exists u, inv (den A k k) = Some u /\ vget x1 k = u * vget b k).
  Proof.
    intros HW HI. assert (HL : length A = n) by apply HW. induction m as [|m IH]; intros i x Hi Hx.
    - rewrite skipn_all2 by lia. exists x. cbn [fast_dirichlet]. split; auto. split; auto. intros k Hk. split; auto. intros; lia.
    - rewrite (skipn_nth A nil) by lia. cbn [fast_dirichlet]. destruct (fast_row n A i x b HW ltac:(lia)) as [(DC & E)|(ND & E)]; rewrite E; clear E.
      + destruct (HI i ltac:(lia) DC) as (u & Eu). rewrite Eu. cbn [obind]. destruct (IH (S i) (upd x i (u * vget b i)) ltac:(lia) ltac:(rewrite upd_length; auto)) as (x1 & E1 & L1 & H).
        exists x1. split; auto. split; auto. intros k Hk. destruct (H k Hk) as [H1 H2]. split.
        * intros [HH|HH]; [rewrite H1 by (left; lia)|rewrite H1 by (right; auto)]; rewrite vget_upd by lia; (destruct (Nat.eqb_spec k i); [subst; try lia; contradiction|reflexivity]).
        * intros HH DK. destruct (Nat.eq_dec k i) as [->|N]; [|apply H2; auto; lia]. exists u. split; auto. rewrite H1 by (left; lia). rewrite vget_upd, Nat.eqb_refl by lia. reflexivity.
      + cbn [obind]. destruct (IH (S i) x ltac:(lia) Hx) as (x1 & E1 & L1 & H). exists x1. split; auto. split; auto. intros k Hk. destruct (H k Hk) as [H1 H2]. split.
        * intros [HH|HH]; apply H1; [left; lia|right; auto].
        * intros HH DK. apply H2; auto. destruct (Nat.eq_dec k i); [subst; contradiction|lia].
  Qed.
  Lemma fast_dirichlet_throws n (A : smat R) (b : vec R) k : mat_wf n n A -> k < n -> solvable A k -> inv (den A k k) = None ->
    forall m i x, (i + m)%nat = n -> i <= k -> fast_dirichlet i (skipn i A) x b = Throw EFMatrix.
  Proof.
    intros HW Hk DK EK. assert (HL : length A = n) by apply HW. induction m as [|m IH]; intros i x Hi Hik; [lia|].
    rewrite (skipn_nth A nil) by lia. cbn [fast_dirichlet]. destruct (fast_row n A i x b HW ltac:(lia)) as [(DC & E)|(ND & E)]; rewrite E; clear E.
    - destruct (inv (den A i i)) as [u|] eqn:Eu; [|reflexivity]. cbn [obind]. apply IH; [lia|]. destruct (Nat.eq_dec i k); [subst; congruence|lia].
    - cbn [obind]. apply IH; [lia|]. destruct (Nat.eq_dec i k); [subst; contradiction|lia].
  Qed.
  (** FastAMG::pre satisfies the equations of all unknowns that are decoupled and have a nonzero diagonal entry, leaves all other unknowns and b alone, and prepares vectors of the sizes FastAMG::apply
      needs; if the nonzero diagonal entry of a decoupled unknown is singular it throws FMatrixError.  A decoupled unknown with a stored zero on the diagonal is left alone (AMG::pre throws). *)
  Theorem C83_pre fill1 fill2 fill3 ls C x b : let A := next ls C in let n := length A in
    (forall k, length (fill1 k) = k) -> (forall k, length (fill2 k) = k) -> (forall k, length (fill3 k) = k) ->
    mat_wf n n A -> length x = n -> length b = n ->
    ((forall k, k < n -> solvable A k -> exists u, inv (den A k k) = Some u) ->
      exists x1 st, fast_pre fill1 fill2 fill3 ls C x b = Ok (x1, b, st) /\ shape (length C) (map (flevel inv) ls) st /\ length x1 = n /\
        forall k, k < n -> (solvable A k -> sum n (fun j => den A k j * vget x1 j) = vget b k) /\ (~ solvable A k -> vget x1 k = vget x k)) /\
    ((exists k, k < n /\ solvable A k /\ inv (den A k k) = None) -> fast_pre fill1 fill2 fill3 ls C x b = Throw EFMatrix).
  Proof.
    intros A n F1 F2 F3 HW Hx Hb. split.
    - intros HI. destruct (fast_dirichlet_ok n A b HW HI n 0 x eq_refl Hx) as (x1 & E & L & H). cbn [skipn] in E.
      unfold fast_pre. fold A. rewrite E. cbn [obind]. eexists x1, _. split; [reflexivity|]. split; [change (map (flevel inv) ls) with (coarsen_smoother (fun (B : smat R) x d => result x (bltsolve inv B x d)) (fun (B : smat R) x d => result x (butsolve inv B x d)) ls); apply vectors_shape; auto|]. split; auto.
      intros k Hk. destruct (H k Hk) as [H1 H2]. split; [|intros; apply H1; auto]. intros DK. destruct (H2 (Nat.le_0_l k) DK) as (u & Eu & Ex). destruct (inv_ok _ _ Eu) as [U _].
      rewrite (sum_single n k) by (auto; intros j Hj NE; rewrite (proj1 DK j NE); apply rmul_0_l). rewrite Ex, rmul_assoc, U. apply rmul_1_l.
    - intros (k & Hk & DK & EK). unfold fast_pre. fold A. change A with (skipn 0 A) at 1. rewrite (fast_dirichlet_throws n A b k HW Hk DK EK n 0 x eq_refl (Nat.le_0_l k)). reflexivity.
  Qed.

  (** ** The smoothers of the textbook cycle are one forward and one backward Gauss-Seidel sweep *)
  Definition fpre (B : smat R) (x d : vec R) : vec R := result x (bltsolve inv B x d).
  Definition fpost (B : smat R) (x d : vec R) : vec R := result x (butsolve inv B x d).
  Lemma flevels (ls : list (@mlevel R)) : map (flevel inv) ls = coarsen_smoother fpre fpost ls.
  Proof. reflexivity. Qed.
  Lemma one_step n A k d : mat_wf n n A -> spd pos n A -> length d = n -> exists v, sweeps inv [k] A r1 (zerov n) d = Ok v /\ length v = n /\ solves n (split_matrix k A r1) (vget v) (vget d).
  Proof.
    intros HW HA Hd. destruct (sweeps_run pos HO inv inv_ok inv_pos n A r1 [k] HW HA (zerov n) d (zerov_length n) Hd) as (v & E & L & H). exists v. split; auto. split; auto.
    cbn [map] in H. apply steps_cons_inv in H. destruct H as (r & e & x1 & H1 & H2 & H3 & H4). pose proof (steps_nil_inv n _ _ _ _ H4) as H5.
    intros i Hi. specialize (H2 i Hi). cbv beta in H2. transitivity (r1 * r i).
    - rewrite <- H2. unfold dense_mv. apply sum_ext. intros j Hj. rewrite H5, H3, zerov_get by auto. ring.
    - rewrite H1 by auto. unfold res, dense_mv. rewrite sum_zero by (intros j Hj; rewrite zerov_get by auto; ring). ring.
  Qed.
  Lemma solve_eq n A k d v v' : spd pos n A -> length v = n -> length v' = n -> solves n (split_matrix k A r1) (vget v) (vget d) -> solves n (split_matrix k A r1) (vget v') (vget d) -> v = v'.
  Proof.
    intros HA L L' H1 H2. apply vec_ext; [congruence|]. intros i Hi. apply rsub_eq0. apply (split_unique inv inv_ok k n A r1 (fun j => vget v j - vget v' j)); [apply (spd_invertible pos HO inv inv_pos); auto| |lia].
    intros j Hj. rewrite dense_sub, H1, H2 by auto. ring.
  Qed.
  Lemma fpre_sor n A d : mat_wf n n A -> spd pos n A -> length d = n -> fpre A (zerov n) d = run (preSmooth inv UseSOR 1 r1) A (zerov n) d.
  Proof.
    intros HW HA Hd. destruct (one_step n A SorF d HW HA Hd) as (v & E & L & H).
    destruct (C13_triangular_solves inv inv_ok n A (zerov n) d HW (spd_stored pos HO n A HA) (zerov_length n) Hd) as (T & _). destruct (T (spd_invertible pos HO inv inv_pos n A HA)) as (v' & E' & L' & H').
    unfold fpre, run. rewrite E'. cbn [result]. change (preSmooth inv UseSOR 1 r1 A (zerov n) d) with (sweeps inv [SorF] A r1 (zerov n) d). rewrite E. apply (solve_eq n A SorF d); auto.
    intros i Hi. rewrite <- (H' i Hi). unfold dense_mv. apply sum_ext. intros j Hj. unfold split_matrix. ring.
  Qed.
  Lemma fpost_sor n A d : mat_wf n n A -> spd pos n A -> length d = n -> fpost A (zerov n) d = run (postSmooth inv UseSOR 1 r1) A (zerov n) d.
  Proof.
    intros HW HA Hd. destruct (one_step n A SorB d HW HA Hd) as (v & E & L & H).
    destruct (C13_triangular_solves inv inv_ok n A (zerov n) d HW (spd_stored pos HO n A HA) (zerov_length n) Hd) as (_ & T & _). destruct (T (spd_invertible pos HO inv inv_pos n A HA)) as (v' & E' & L' & H').
    unfold fpost, run. rewrite E'. cbn [result]. change (postSmooth inv UseSOR 1 r1 A (zerov n) d) with (sweeps inv [SorB] A r1 (zerov n) d). rewrite E. apply (solve_eq n A SorB d); auto.
    intros i Hi. rewrite <- (H' i Hi). unfold dense_mv. apply sum_ext. intros j Hj. unfold split_matrix. ring.
  Qed.
  Lemma fast_fit : fit pos fpre fpost.
  Proof.
    intros B n HW HA. pose proof (ord_one _ _ HO) as P1. assert (P2 : pos (@r1 R + r1 - r1)) by (replace (@r1 R + r1 - r1) with (@r1 R) by ring; auto).
    destruct (smoothers_fit pos HO inv inv_ok inv_pos UseSOR 1 r1 P1 P2 (le_n 1) B HW HA) as (K1 & K2 & AD & S1 & S2). fold n in K1, K2, AD, S1, S2.
    split; [|split; [|split; [|split]]].
    - intros x d Hx Hd. unfold fpre. destruct (C13_triangular_solves inv inv_ok n B x d HW (spd_stored pos HO n B HA) Hx Hd) as (T & _). destruct (T (spd_invertible pos HO inv inv_pos n B HA)) as (v & -> & L & _). exact L.
    - intros x d Hx Hd. unfold fpost. destruct (C13_triangular_solves inv inv_ok n B x d HW (spd_stored pos HO n B HA) Hx Hd) as (_ & T & _). destruct (T (spd_invertible pos HO inv inv_pos n B HA)) as (v & -> & L & _). exact L.
    - intros d e Hd He. rewrite fpre_sor, fpost_sor by auto. apply AD; auto.
    - intros d Hd Hz. unfold qf. rewrite fpre_sor by auto. apply S1; auto.
    - intros d Hd Hz. unfold qf. rewrite fpost_sor by auto. apply S2; auto.
  Qed.
  (** the levels meet the requirements of C48 *)
  Lemma levels_ok ls C : hierarchy_of ls C -> Forall (fun A => mat_wf (length A) (length A) A /\ spd pos (length A) A) (map fst ls ++ [C]) -> fhier_ok inv (length C) ls.
  Proof.
    induction ls as [|[B agg] ls IH]; intros H HS; cbn [fhier_ok]; [exact I|]. cbn [map app fst hierarchy_of] in HS, H. apply Forall_cons_iff in HS. destruct HS as [[WB SB] HS], H as [(_ & _ & AO & _) H]. split; [|apply IH; auto].
    unfold flevel_ok. cbn [fst snd]. rewrite flevels, next_dim. split; [exact WB|]. split; [exact AO|]. split; [apply (spd_stored pos HO); auto|]. split; [apply (spd_invertible pos HO inv inv_pos); auto|]. intros i j Hi Hj. apply SB; auto.
  Qed.

  (** ** Theorems *)
  (** The hierarchy set up for a symmetric positive definite matrix consists of such matrices, and with an exact coarse solver FastAMG::apply (the V cycle, or any gamma if the coarse solver is direct)
      does not fail and is a symmetric positive definite map for every damping factor >= 0, which reduces the energy norm of the error for damping factors up to 1. *)
  Theorem C83_fastamg depends influences isolated excludedBorder mn mx maxDist maxConn skip Dt quot dm1 deq dgt maxLevel target rate damp gamma (A : smat R) : let n := length A in
    mn <= mx -> 1 <= mx -> mat_wf n n A -> sym_pat A -> spd pos n A -> le_ pos r0 damp -> gamma <> 0 ->
    exists ls C, build depends influences isolated excludedBorder mn mx maxDist maxConn skip Dt quot dm1 deq dgt maxLevel target rate A = Ok (Some (ls, C)) /\ next ls C = A /\
      Forall (fun B => mat_wf (length B) (length B) B /\ spd pos (length B) B) (map fst ls ++ [C]) /\
      forall solve, exact C solve -> gamma = 1 \/ direct solve (length C) ->
      exists P, spd_map pos n P /\ (le_ pos damp r1 -> reduces pos n A P) /\
        forall st v d, shape (length C) (map (flevel inv) ls) st -> length v = n -> length d = n -> (ls = [] -> v = zerov n) ->
          exists st', fast_apply inv solve damp gamma ls st true v d = Ok (P d, st', true) /\ shape (length C) (map (flevel inv) ls) st'.
  Proof.
    intros n Hm H1 HW HP HA Hd Hg. unfold le_ in Hd. replace (damp - r0) with damp in Hd by ring.
    destruct (build_loop_ok depends influences isolated excludedBorder mn mx maxDist maxConn skip Dt quot dm1 deq dgt maxLevel target rate Hm H1 maxLevel 0 A eq_refl HW HP)
      as (ls & C & E & N & L & H & _ & _ & WC & _ & CV).
    exists ls, C. split; [exact E|]. split; [exact N|].
    assert (HS : Forall (fun A => mat_wf (length A) (length A) A /\ spd pos (length A) A) (map fst ls ++ [C])) by (apply (hierarchy_spd pos HO ls C H CV); rewrite N; auto).
    split; [exact HS|]. intros solve HE HG.
    pose proof (cycle_forms pos HO fpre fpost fast_fit C solve HE damp 1 1 Hd ls H CV) as Q. cbv zeta in Q. rewrite N in Q. fold n in Q.
    destruct (Q HW HA (or_introl (ex_intro _ 0 eq_refl))) as (K1 & K2 & _ & _ & K3). destruct (K3 (or_introl (le_n 1))) as [K4 K5]. clear Q K3.
    exists (cycle solve damp 1 1 1 (length C) (coarsen_smoother fpre fpost ls)).
    split; [split; [exact K1|split; [exact K2|exact K4]]|]. split; [intros Hc; apply (strict_reduces pos HO); [apply HA|apply K5; right; exact Hc]|].
    intros st v d SH Hv Hd' HZ. rewrite <- flevels.
    destruct (C48_fastamg inv inv_ok solve damp (length C) (fun u b Hu Hb => let '(conj X1 (conj X2 _)) := proj2 HE u b Hu Hb in conj X1 X2) (proj1 HE) gamma ls st v d Hg HG (levels_ok ls C H HS) SH) as (st' & EA & SH').
    - rewrite flevels, next_dim, N. exact Hd'.
    - rewrite flevels, next_dim, N. exact Hv.
    - intros EN. rewrite (HZ EN). unfold n. rewrite <- N, EN. reflexivity.
    - exists st'. auto.
  Qed.

  (** FastAMG as a preconditioner object: the state are the vectors lhs_, rhs_, residual_ of all levels, which have the sizes of the levels; post releases them (fastamg.hh:716-727) *)
  Section Obj.
    Variables (fill1 fill2 fill3 : nat -> vec R) (ls : list (@mlevel R)) (C : smat R).
    Variables (solve : vec R -> vec R -> vec R * vec R * bool) (damp : R) (gamma : nat).
    Let L := map (flevel inv) ls.
    Definition fast_obj_pre {n} (p : amg_state (length C) L) (x b : @lvec R n) : amg_state (length C) L * @lvec R n * @lvec R n :=
      match fast_pre fill1 fill2 fill3 ls C (val x) (val b) with Ok (x1, b1, st) => (update_state p st, mk n (vget x1), mk n (vget b1)) | _ => (p, x, b) end.
    Definition fast_obj_papply {n} (p : amg_state (length C) L) (v d : @lvec R n) : amg_state (length C) L * @lvec R n :=
      match fast_apply inv solve damp gamma ls (proj1_sig p) true (val v) (val d) with Ok (x, st, _) => (update_state p st, mk n (vget x)) | _ => (p, v) end.
    Definition fast_obj_post {n} (p : amg_state (length C) L) (x : @lvec R n) : amg_state (length C) L * @lvec R n := (p, x).
  End Obj.

  Variable D : Type.
  Variables (finite : D -> bool) (lessD : D -> D -> bool) (mul_ div_ : D -> D -> D) (zero_ tiny reduction : D) (is0 : D -> bool).
  (** CGSolver, and for damping factors up to 1 LoopSolver, with FastAMG: as C72 *)
  Theorem C83_solvers depends influences isolated excludedBorder mn mx maxDist maxConn skipI Dt quot dm1 deq dgt maxLevel target rate damp gamma (A : smat R) fill1 fill2 fill3 :
    let n := length A in
    mn <= mx -> 1 <= mx -> mat_wf n n A -> sym_pat A -> spd pos n A -> le_ pos r0 damp -> gamma <> 0 ->
    (forall k, length (fill1 k) = k) -> (forall k, length (fill2 k) = k) -> (forall k, length (fill3 k) = k) ->
    exists ls C, build depends influences isolated excludedBorder mn mx maxDist maxConn skipI Dt quot dm1 deq dgt maxLevel target rate A = Ok (Some (ls, C)) /\
      forall solve (nrm : @lvec R n -> D), exact C solve -> gamma = 1 \/ direct solve (length C) -> good_norm D finite lessD tiny is0 nrm ->
      (forall x b, length x = n -> length b = n -> exists x1 st, fast_pre fill1 fill2 fill3 ls C x b = Ok (x1, b, st) /\ shape (length C) (map (flevel inv) ls) st) /\
      (forall maxit p x b, n <= maxit ->
        solved pos D A x b (cg_run kdiv D finite lessD mul_ div_ zero_ tiny reduction is0 nrm A (fast_obj_pre fill1 fill2 fill3 ls C) (fast_obj_papply ls C solve damp gamma) (fast_obj_post ls C) maxit p x b)) /\
      (le_ pos damp r1 -> forall maxit p x b,
        improved pos D A x b (loop_run D finite lessD mul_ div_ zero_ tiny reduction nrm A (fast_obj_pre fill1 fill2 fill3 ls C) (fast_obj_papply ls C solve damp gamma) (fast_obj_post ls C) maxit p x b)).
  Proof.
    intros n Hm H1 HW HP HA Hd Hg F1 F2 F3.
    destruct (C83_fastamg depends influences isolated excludedBorder mn mx maxDist maxConn skipI Dt quot dm1 deq dgt maxLevel target rate damp gamma A Hm H1 HW HP HA Hd Hg) as (ls & C & EB & EN & _ & HS).
    exists ls, C. split; [exact EB|]. intros solve nrm HE HG GN. destruct (HS solve HE HG) as (W & SW & RW & AP). clear HS. fold n in SW, RW, AP.
    assert (HD : forall i, i < n -> pos (den A i i)) by (intros i Hi; apply (spd_diag pos HO n); auto).
    assert (PR : forall x b, length x = n -> length b = n -> exists x1 st, fast_pre fill1 fill2 fill3 ls C x b = Ok (x1, b, st) /\ shape (length C) (map (flevel inv) ls) st /\ length x1 = n /\
       forall xs, length xs = n -> mul n A xs = b -> le_ pos (AmgSpd.energy n A xs x1) (AmgSpd.energy n A xs x)).
    { intros x b Hx Hb. rewrite fast_pre_eq by (rewrite EN; auto; intros i Hi; apply (pos_neq pos HO); auto).
      pose proof (C72_pre inv eq0 inv_ok eq0_ok fill1 fill2 fill3 fpre fpost ls C x b) as CP. cbv zeta in CP. rewrite EN in CP. destruct (CP F1 F2 F3 HW Hx Hb) as [C1 _].
      destruct C1 as (x1 & st & E & SH & L & H). { intros i Hi _. apply inv_pos, HD, Hi. }
      exists x1, st. split; [exact E|]. split; [apply SH|]. split; [exact L|]. intros xs Hxs Exs. apply (pre_energy pos HO n A xs x x1 b); auto; [apply HA| |intros i Hi; apply (pos_neq pos HO); auto].
      intros i Hi. destruct (H i Hi) as [G1 G2]. destruct (row_case eq0 eq0_ok n A i HW Hi) as [[_ DC]|[_ ND]]; [left|right; auto].
      split; [apply DC|]. rewrite <- (G1 DC). symmetry. apply (sum_single n i); auto. intros j Hj NE. rewrite (proj2 DC j NE). ring. }
    assert (OP : forall (p : amg_state (length C) (map (flevel inv) ls)) (x b : @lvec R n), exists p1 x1, fast_obj_pre fill1 fill2 fill3 ls C p x b = (p1, x1, b) /\
       forall xs, length xs = n -> mul n A xs = val b -> le_ pos (AmgSpd.energy n A xs (val x1)) (AmgSpd.energy n A xs (val x))).
    { intros p x b. destruct (PR (val x) (val b) (val_length n x) (val_length n b)) as (x1 & st & E & _ & L & H). unfold fast_obj_pre. rewrite E. eexists _, _. split; [f_equal|].
      - apply val_inj. apply mk_val, val_length.
      - intros xs Hxs Exs. rewrite mk_val by auto. apply H; auto. }
    assert (OA : forall (p : amg_state (length C) (map (flevel inv) ls)) (b : @lvec R n), val (snd (fast_obj_papply ls C solve damp gamma p vz b)) = W (val b)).
    { intros [st SH] b. unfold fast_obj_papply. cbn [proj1_sig]. destruct (AP st (val (vz : @lvec R n)) (val b) SH (val_length n _) (val_length n b)) as (st' & E & _); [reflexivity|]. rewrite E. cbn [snd]. apply mk_val, SW, val_length. }
    split; [intros x b Hx Hb; destruct (PR x b Hx Hb) as (x1 & st & E & SH & _); eauto|]. split.
    - intros maxit p x b Hmx. apply (cg_solved pos HO kdiv kdiv_ok D finite lessD mul_ div_ zero_ tiny reduction is0 n nrm A W); auto.
    - intros HC maxit p x b. apply (loop_improved pos HO D finite lessD mul_ div_ zero_ tiny reduction is0 n nrm A W); auto; [apply SW|apply (adjoint_0 pos HO n W W); apply SW].
  Qed.
End FastSpd.

(** ** Examples *)
Definition fast_result damp gamma (A : smat Qcring) (st : list (@lst Qcring)) (v d : vec Qcring) : option (vec Qcring) :=
  match bld A with
  | Ok (Some (ls, C)) => match fast_apply (R := Qcring) Qcinv_opt (solve1 C) damp gamma ls st true v d with Ok (x, _, _) => Some x | _ => None end
  | _ => None
  end.
(** the hypotheses of C83_fastamg and C83_solvers about the matrix and the coarse solver: C71_nonvacuous, about the numbers: C72_numbers *)
(** CGSolver with FastAMG over three levels with the default damping factor *)
Definition run_fast (A : smat Qcring) maxit : option (nat * bool * list Q * list Q) :=
  match bld A with
  | Ok (Some (ls, C)) =>
    let fill := fun n => repeat (q 7 1) n in
    match shape_dec (R := Qcring) (length C) (map (flevel (R := Qcring) Qcinv_opt) ls) [z_ 4; z_ 2; z_ 1] with
    | left H => qsummary (cg_run (R := Qcring) exDiv Qc (fun _ => true) ltQ Qcmult Qcdiv 0%Qc exTiny exTiny exIs0 (n := 4) qnorm A
        (fast_obj_pre (R := Qcring) Qcinv_opt q_eq0 fill fill fill ls C) (fast_obj_papply (R := Qcring) Qcinv_opt ls C (solve1 C) (q 8 5) 1) (fast_obj_post (R := Qcring) Qcinv_opt ls C)
        maxit (exist _ [z_ 4; z_ 2; z_ 1] H) vz (mk (R := Qcring) 4 (fun i => q (Z.of_nat i) 1)))
    | right _ => None
    end
  | _ => None
  end.
Example C83_runs : run_fast (lap4 (q 1 1)) 4 = Some (3, true, [4 # 7; 8 # 7; 13 # 7; 17 # 7]%Q, [0; 0; 0; 0]%Q).
Proof. vm_compute. reflexivity. Qed.
(** Deviation: with the default damping factor 1.6 of the prolongation (parameters.hh) and the V cycle FastAMG, used as a stationary iteration, can increase the energy norm of the error *)
Theorem C83_default_damping_refuted : let A := lap4 (q 1 100) in let xs := repeat (q 1 1) 4 in let b := mul (R := Qcring) 4 A xs in
  spd qpos 4 A /\ exists x, fast_result (q 8 5) 1 A [z_ 4; z_ 2; z_ 1] (repeat (q 0 1) 4) b = Some x /\
    lt_ qpos (AmgSpd.energy (R := Qcring) 4 A xs (repeat (q 0 1) 4)) (AmgSpd.energy (R := Qcring) 4 A xs x).
Proof. cbv zeta. split; [apply lap4_spd; reflexivity|]. eexists. split; [vm_compute; reflexivity|]. vm_compute. reflexivity. Qed.
(** a decoupled unknown with a stored zero on the diagonal: FastAMG::pre leaves it alone, AMG::pre throws *)
Example C83_pre_runs : let A : smat Qcring := [[(0, q 2 1); (1, q (-1) 1)]; [(0, q (-1) 1); (1, q 2 1)]; [(0, q 0 1); (2, q 0 1)]; [(1, q 0 1); (3, q 4 1)]] in let f := fun n => repeat (q 7 1) n in
  let x := [q 5 1; q 6 1; q 7 1; q 8 1] in let b := [q 1 1; q 1 1; q 1 1; q 1 1] in
  mat_wf 4 4 A /\ solvable (R := Qcring) A 3 /\ ~ solvable (R := Qcring) A 2 /\ decoupled (R := Qcring) A 2 /\
  fast_pre (R := Qcring) Qcinv_opt q_eq0 f f f [] A x b = Ok ([q 5 1; q 6 1; q 7 1; q 1 4], b, [mklst (R := Qcring) [q 5 1; q 6 1; q 7 1; q 1 4] b [q 5 1; q 6 1; q 7 1; q 1 4]]) /\
  amg_pre (R := Qcring) Qcinv_opt q_eq0 f f f [] A x b = Throw EFMatrix.
Proof.
  cbv zeta. split; [split; [reflexivity|]; repeat (constructor; [split; repeat constructor|]); constructor|].
  split; [split; [intros [|[|[|[|j]]]] H; try reflexivity; congruence|discriminate]|]. split; [intros [_ H]; apply H; reflexivity|].
  split; [split; [right; left; reflexivity|intros [|[|[|j]]] H; try reflexivity; congruence]|]. split; vm_compute; reflexivity.
Qed.
Print Assumptions C83_pre.
Print Assumptions C83_fastamg.
Print Assumptions C83_solvers.
Print Assumptions C83_default_damping_refuted.
