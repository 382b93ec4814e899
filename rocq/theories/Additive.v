(** * The additive multigrid cycle (C76): AMG::apply with Parameters::getAdditive(), AMG::additiveMgc (paamg/amg.hh:893-905, 1089-1138), sequential and in parallel *)
From Coq Require Import Arith List Lia Bool ZArith QArith Qcanon.
From Coq Require Import setoid_ring.Ring.
From Verif Require Import Ring Sums RingInst Outcome Solvers Sparse MatVec GsModel Gs Precond Adjoint AmgTransfer AggPattern Aggregation Amg AmgSetup AmgSpd SpdSolve.
Import ListNotations.
Open Scope nat_scope.

Section Additive.
  Context {R : ring}.
  Local Open Scope ring_scope_istl.
  Variable solve : vec R -> vec R -> vec R * vec R * bool.
  (** ** Model *)
  (** restrict the residual to all levels, amg.hh:1098-1102 *)
  Fixpoint restrict_all (ls : list (@level R)) (st : list (@lst R)) : outcome (list (@lst R)) :=
    match ls, st with
    | nil, [s] => Ok [s]
    | l :: ls', s :: s1 :: rest => obind (restrictVector (l_agg l) (t_rhs s1) (t_rhs s)) (fun r => obind (restrict_all ls' (mklst (t_lhs s1) r (t_upd s1) :: rest)) (fun t => Ok (s :: t)))
    | _, _ => UB
    end.
  (** the corrections of all levels, amg.hh:1107-1124: smoothers start from zero, the coarse solver from what *lhs holds; the exception comes after all smoothers have been applied *)
  Fixpoint correct_all (ls : list (@level R)) (st : list (@lst R)) : outcome (list (@lst R)) :=
    match ls, st with
    | nil, [s] => let '(u, b, ok) := solve (t_lhs s) (t_rhs s) in if ok then Ok [mklst u b (t_upd s)] else Throw EMath
    | l :: ls', s :: rest => obind (correct_all ls' rest) (fun t => Ok (mklst (l_pre l (setzero (t_lhs s)) (t_rhs s)) (t_rhs s) (t_upd s) :: t))
    | _, _ => UB
    end.
  (** prolongate and add up, from the coarsest level to the finest, damping factor 1.0, amg.hh:1129-1136 *)
  Fixpoint prolong_all (ls : list (@level R)) (st : list (@lst R)) : outcome (list (@lst R)) :=
    match ls, st with
    | nil, [s] => Ok [s]
    | l :: ls', s :: rest => obind (prolong_all ls' rest) (fun t => match t with
        | s1 :: t' => obind (prolongateVector (l_agg l) (t_lhs s1) (t_lhs s) r1) (fun cf => Ok (mklst (snd cf) (t_rhs s) (t_upd s) :: mklst (fst cf) (t_rhs s1) (t_upd s1) :: t'))
        | nil => UB end)
    | _, _ => UB
    end.
  (** AMG::apply, amg.hh:897-901, and additiveMgc; l_pre is here the smoother's apply (not SmootherApplier::preSmooth).  With one level, --aggregates (:1130) goes before the begin of the list of maps *)
  Definition additive_apply (ls : list (@level R)) (st : list (@lst R)) (d : vec R) : outcome (vec R * list lst) :=
    match st with
    | s :: rest => obind (restrict_all ls (mklst (t_lhs s) d (t_upd s) :: rest)) (fun st1 => obind (correct_all ls st1) (fun st2 =>
        match ls with
        | nil => UB
        | _ => obind (prolong_all ls st2) (fun st3 => match st3 with s' :: _ => Ok (t_lhs s', st3) | nil => UB end)
        end))
    | nil => UB
    end.

  (** ** Specification: the sum over all levels of the corrections of the restricted defect; [sol] solves on the coarsest level *)
  Fixpoint addcycle (sol : vec R -> vec R) (nc : nat) (ls : list (@level R)) (d : vec R) : vec R :=
    match ls with
    | nil => sol d
    | l :: ls' => let n := length (l_A l) in let K := dim nc ls' in vadd n (l_pre l (zerov n) d) (Pro r1 (l_agg l) n K (addcycle sol nc ls' (Rst (l_agg l) n K d)))
    end.
  (** what the left hand side of the coarsest level holds *)
  Fixpoint last_lhs (st : list (@lst R)) : vec R := match st with nil => nil | [s] => t_lhs s | _ :: t => last_lhs t end.
  (** the defect that arrives on the coarsest level *)
  Fixpoint coarse_defect (nc : nat) (ls : list (@level R)) (d : vec R) : vec R := match ls with nil => d | l :: ls' => coarse_defect nc ls' (Rst (l_agg l) (length (l_A l)) (dim nc ls') d) end.

  Variable nc : nat.
  Hypothesis solve_size : forall u b, length u = nc -> length b = nc -> length (fst (fst (solve u b))) = nc /\ length (snd (fst (solve u b))) = nc.
  Fixpoint restricted (ls : list (@level R)) (st : list (@lst R)) (d x0 : vec R) : Prop :=
    match ls, st with nil, [s] => t_rhs s = d /\ t_lhs s = x0 | l :: ls', s :: st' => t_rhs s = d /\ restricted ls' st' (Rst (l_agg l) (length (l_A l)) (dim nc ls') d) x0 | _, _ => False end.
  Fixpoint corrected (ls : list (@level R)) (st : list (@lst R)) (d x0 : vec R) : Prop :=
    match ls, st with nil, [s] => t_lhs s = fst (fst (solve x0 d)) | l :: ls', s :: st' => t_lhs s = l_pre l (zerov (length (l_A l))) d /\ corrected ls' st' (Rst (l_agg l) (length (l_A l)) (dim nc ls') d) x0 | _, _ => False end.
  Lemma shape_head (ls : list (@level R)) (st : list (@lst R)) : shape nc ls st -> exists s rest, st = s :: rest /\ sized (dim nc ls) s.
  Proof. destruct ls as [|l ls], st as [|s st]; cbn [shape]; try contradiction; [destruct st; [|contradiction]|]; intros H; eauto. destruct H. eauto. Qed.
  Lemma last_cons (s : @lst R) st : st <> nil -> last_lhs (s :: st) = last_lhs st.
  Proof. destruct st; [congruence|reflexivity]. Qed.
  Lemma restrict_all_spec ls : forall s rest d, hier_ok nc ls -> shape nc ls (s :: rest) -> t_rhs s = d ->
    exists st1, restrict_all ls (s :: rest) = Ok st1 /\ shape nc ls st1 /\ restricted ls st1 d (last_lhs (s :: rest)).
  Proof.
    induction ls as [|l ls IH]; intros s rest d HH HS HD; cbn [restrict_all].
    - destruct rest; [|contradiction]. exists [s]. cbn. auto.
    - destruct HH as [HL HH], HS as [S1 S2]. destruct (shape_head ls rest S2) as (s1 & rest' & -> & Z1). destruct HL as (W & AO & _).
      rewrite (restrict_eq (l_agg l) (length (l_A l)) (dim nc ls)); [|apply S1|apply Z1|exact AO]. cbn [obind]. set (r := Rst (l_agg l) (length (l_A l)) (dim nc ls) (t_rhs s)).
      destruct (IH (mklst (t_lhs s1) r (t_upd s1)) rest' r HH) as (st1 & E & SH & RS); [|reflexivity|].
      + destruct ls; cbn [shape] in *; [destruct rest'; [|contradiction]|destruct S2; split; auto]; destruct Z1 as (Z1 & Z2 & Z3); repeat split; cbn [t_lhs t_rhs t_upd]; auto; apply vecf_length.
      + rewrite E. cbn [obind]. exists (s :: st1). split; auto. split; [split; auto|]. cbn [restricted]. split; auto. subst d. fold r. rewrite last_cons by discriminate. destruct rest'; exact RS.
  Qed.
  Lemma restricted_sizes ls : forall st d x0, shape nc ls st -> restricted ls st d x0 -> length d = dim nc ls /\ length x0 = nc.
  Proof.
    induction ls as [|l ls IH]; intros st d x0 HS HR.
    - destruct st as [|s [|? ?]]; try contradiction. destruct HR as [<- <-]. cbn [dim]. split; apply HS.
    - destruct st as [|s st]; [contradiction|]. destruct HS as [S1 S2], HR as [<- R2]. split; [apply S1|]. apply (IH _ _ _ S2 R2).
  Qed.
  Lemma correct_all_spec ls : forall st d x0, hier_ok nc ls -> shape nc ls st -> restricted ls st d x0 ->
    if snd (solve x0 (coarse_defect nc ls d)) then exists st2, correct_all ls st = Ok st2 /\ shape nc ls st2 /\ corrected ls st2 d x0 else correct_all ls st = Throw EMath.
  Proof.
    induction ls as [|l ls IH]; intros st d x0 HH HS HR; pose proof (restricted_sizes _ _ _ _ HS HR) as [Ld Lx]; cbn [correct_all coarse_defect].
    - destruct st as [|s [|? ?]]; try contradiction. destruct HR as [R1 R2]. rewrite R1, R2. destruct (solve_size x0 d Lx Ld) as [Z1 Z2]. destruct (solve x0 d) as [[u b] ok] eqn:E. cbn [fst snd] in *. destruct ok; auto.
      eexists. split; [reflexivity|]. cbn [shape corrected t_lhs]. rewrite E. split; auto. split; auto. split; auto. apply HS.
    - destruct st as [|s st]; [contradiction|]. destruct HH as [HL HH], HS as [S1 S2], HR as [R1 R2]. specialize (IH st _ x0 HH S2 R2). destruct (snd _); [|rewrite IH; reflexivity].
      destruct IH as (st2 & E & SH & CO). rewrite E. cbn [obind]. eexists. split; [reflexivity|]. destruct HL as (_ & _ & P1 & _). rewrite (setzero_eq (length (l_A l))) by apply S1. split.
      + split; auto. split; [|split; apply S1]. cbn [t_lhs]. apply P1; [apply zerov_length|apply S1].
      + split; auto. cbn [t_lhs]. rewrite R1. reflexivity.
  Qed.
  Lemma prolong_all_spec ls : forall st d x0, hier_ok nc ls -> shape nc ls st -> corrected ls st d x0 ->
    exists s' rest, prolong_all ls st = Ok (s' :: rest) /\ shape nc ls (s' :: rest) /\ t_lhs s' = addcycle (fun b => fst (fst (solve x0 b))) nc ls d.
  Proof.
    induction ls as [|l ls IH]; intros st d x0 HH HS HC; cbn [prolong_all addcycle].
    - destruct st as [|s [|? ?]]; try contradiction. exists s, nil. auto.
    - destruct st as [|s st]; [contradiction|]. destruct HH as [HL HH], HS as [S1 S2], HC as [C1 C2]. destruct (IH st _ x0 HH S2 C2) as (s1 & rest & E & SH & V). rewrite E. cbn [obind].
      destruct (shape_head ls _ SH) as (s1' & rest' & EQ & Z1). injection EQ as <- <-. destruct HL as (_ & AO & _). pose proof (proj1 Z1) as Lc. pose proof (proj1 S1) as Lf.
      rewrite <- Lc in AO. destruct (C34_prolongate (l_agg l) (length (l_A l)) (t_lhs s1) (t_lhs s) r1 Lf AO) as (c & f & E2 & L1 & L2 & V1 & V2). rewrite E2. cbn [obind fst snd]. eexists _, _. split; [reflexivity|]. split.
      + split; [split; [auto|split; apply S1]|]. destruct ls; cbn [shape] in *; [destruct rest; [|contradiction]|destruct SH; split; auto]; destruct Z1 as (Z1 & Z2 & Z3); repeat split; cbn [t_lhs t_rhs t_upd]; auto; cbn [dim] in *; congruence.
      + cbn [t_lhs]. rewrite <- V, <- C1. apply vecf_eq; auto. intros i Hi. rewrite V2 by auto. f_equal. unfold Pro. rewrite vecf_get by auto. rewrite Lc. reflexivity.
  Qed.

  (** C76: the additive AMG with more than one level computes the sum of the corrections of all levels; the coarse solver starts from the vector the previous call left.  If the coarse solver does not converge, MathError is thrown. *)
  Theorem C76_additive ls st d : hier_ok nc ls -> shape nc ls st -> ls <> nil -> length d = dim nc ls ->
    let start := last_lhs st in
    (snd (solve start (coarse_defect nc ls d)) = true -> exists st', additive_apply ls st d = Ok (addcycle (fun b => fst (fst (solve start b))) nc ls d, st') /\ shape nc ls st') /\
    (snd (solve start (coarse_defect nc ls d)) = false -> additive_apply ls st d = Throw EMath).
  Proof.
    intros HH HS HN Hd start. destruct (shape_head ls st HS) as (s & rest & -> & Z). unfold additive_apply.
    assert (SH : shape nc ls (mklst (t_lhs s) d (t_upd s) :: rest)). { destruct ls; [congruence|]. destruct HS as [_ HS]. split; auto. destruct Z as (Z1 & Z2 & Z3). repeat split; auto. }
    destruct (restrict_all_spec ls _ rest d HH SH eq_refl) as (st1 & E1 & SH1 & R1). rewrite E1. cbn [obind].
    replace (last_lhs (mklst (t_lhs s) d (t_upd s) :: rest)) with start in R1 by (destruct rest; reflexivity).
    pose proof (correct_all_spec ls st1 d start HH SH1 R1) as C. split; intros HS2; rewrite HS2 in C; [|rewrite C; reflexivity].
    destruct C as (st2 & E2 & SH2 & C2). rewrite E2. cbn [obind]. destruct (prolong_all_spec ls st2 d start HH SH2 C2) as (s' & rest' & E3 & SH3 & V). rewrite E3. destruct ls; [congruence|]. cbn [obind]. rewrite V. eauto.
  Qed.
  (** Deviation: with one level the behaviour is undefined *)
  Theorem C76_single_level_refuted s d : snd (solve (t_lhs s) d) = true -> additive_apply nil [s] d = UB.
  Proof. unfold additive_apply. cbn [restrict_all obind correct_all t_lhs t_rhs]. destruct (solve (t_lhs s) d) as [[u b] ok]. cbn [snd]. intros ->. reflexivity. Qed.
End Additive.

(** ** Symmetric positive definite *)
Section Spd.
  Context {R : ring} (pos : R -> Prop).
  Hypothesis HO : ordered R pos.
  Local Open Scope ring_scope_istl.
  Add Ring oring3 : (oring_theory pos HO).
  (** smoothers that are symmetric positive definite for every symmetric positive definite matrix *)
  Definition spd_smoother (pre : smat R -> vec R -> vec R -> vec R) : Prop :=
    forall B, let n := length B in mat_wf n n B -> spd pos n B -> (forall x d, length x = n -> length d = n -> length (pre B x d) = n) /\ spd_map pos n (pre B (zerov n)).
  Lemma dot_Pro_r (damp : R) agg n K (c e : vec R) : dot n e (Pro damp agg n K c) = damp * dot K (Rst agg n K e) c.
  Proof. rewrite (dot_sym (ord_comm _ _ HO)), (dot_Pro (ord_comm _ _ HO)), (dot_sym (ord_comm _ _ HO)). ring. Qed.
  Lemma zerov_dec n (x : vec R) : length x = n -> x = zerov n \/ x <> zerov n.
  Proof. intros H. destruct (vec_dec pos HO n x H) as [E|(i & Hi & E)]; auto. right. intros ->. apply E. apply zerov_get; auto. Qed.
  Lemma spd_map_nonneg n B : spd_map pos n B -> nonneg pos n B.
  Proof. intros (K & A & Q) d Hd. destruct (zerov_dec n d Hd) as [->|H]; [|right; apply Q; auto]. left. rewrite (dot_sym (ord_comm _ _ HO)). apply (dot_0_l pos HO). Qed.
  Lemma add_spd pre sol ls (C : smat R) : spd_smoother pre -> spd_map pos (length C) sol -> Forall (fun A => mat_wf (length A) (length A) A /\ spd pos (length A) A) (map fst ls ++ [C]) ->
    spd_map pos (length (next ls C)) (addcycle sol (length C) (coarsen_smoother pre pre ls)).
  Proof.
    intros HP HC. induction ls as [|[A agg] ls IH]; intros HF; [exact HC|]. cbn [map app fst] in HF. apply Forall_cons_iff in HF. destruct HF as [[WA SA] HF]. specialize (IH HF). destruct (HP A WA SA) as [P1 (P2 & P3 & P4)].
    change (coarsen_smoother pre pre ((A, agg) :: ls)) with (mklevel A (pre A) (pre A) agg :: coarsen_smoother pre pre ls). cbn [addcycle l_A l_pre l_agg next fst]. rewrite next_dim. set (n := length A) in *. set (K := length (next ls C)) in *. set (F := addcycle sol (length C) (coarsen_smoother pre pre ls)) in *.
    pose proof IH as (F1 & F2 & F3). split; [|split].
    - intros d Hd. apply vadd_length.
    - intros d e Hd He. rewrite dot_vadd, (dot_vadd_r pos HO), (P3 d e Hd He). f_equal. rewrite (dot_Pro (ord_comm _ _ HO)), dot_Pro_r. rewrite (F2 (Rst agg n K d) (Rst agg n K e)) by apply vecf_length. ring.
    - intros d Hd Hz. rewrite dot_vadd. apply (pos_add pos HO); [apply P4; auto|]. rewrite (dot_Pro (ord_comm _ _ HO)). apply (nneg_mul pos HO); [apply (spd_map_nonneg K F IH); apply vecf_length|right; apply HO].
  Qed.

  Variable inv : R -> option R.
  Hypothesis inv_ok : forall a b, inv a = Some b -> a * b = r1 /\ b * a = r1.
  Hypothesis inv_pos : forall a, pos a -> exists u, inv a = Some u.
  Lemma ssor_spd k w : lt_ pos r0 w -> lt_ pos w (r1 + r1) -> 1 <= k -> spd_smoother (run (fun B => seqssor_apply inv k B w)).
  Proof.
    intros Hw Hw2 Hk B n HW HA. destruct (C71_sweeps pos HO inv inv_ok inv_pos n B k w HW HA Hw Hw2 Hk) as (F0 & B0 & SS & E & _ & _ & _ & _ & _ & _ & Q). split.
    - intros x d Hx Hd. destruct (smoothers_run pos HO inv inv_ok inv_pos UseSSOR k w n B x d HW HA Hx Hd) as [(v & E1 & L) _]. cbn [preSmooth] in E1. unfold run. rewrite E1. exact L.
    - assert (EQ : forall d, length d = n -> run (fun B => seqssor_apply inv k B w) B (zerov n) d = SS d) by (intros d Hd; destruct (E d Hd) as (_ & _ & E1); unfold run; rewrite E1; reflexivity).
      destruct Q as (Q1 & Q2 & Q3). split; [intros d Hd; rewrite EQ by auto; auto|]. split; [intros d e Hd He; rewrite !EQ by auto; auto|]. intros d Hd Hz. rewrite EQ by auto. auto.
  Qed.
  Lemma jac_value w n B d : mat_wf n n B -> spd pos n B -> length d = n -> exists v, seqjac_apply inv 1 B w (zerov n) d = Ok v /\ length v = n /\ forall i, i < n -> den B i i * vget v i = w * vget d i.
  Proof.
    intros HW HA Hd. destruct (sweeps_run pos HO inv inv_ok inv_pos n B w [Jac] HW HA (zerov n) d (zerov_length n) Hd) as (v & E & L & S). exists v. split; [exact E|]. split; auto. intros i Hi.
    cbn [map] in S. apply steps_cons_inv in S. destruct S as (r & e & x1 & H1 & H2 & H3 & H4). assert (H5 : forall i, i < n -> vget v i = x1 i) by (inversion H4; auto). specialize (H2 i Hi). unfold split_matrix, dense_mv in H2. rewrite (sum_single n i) in H2; auto.
    - unfold Dp in H2. rewrite Nat.eqb_refl in H2. rewrite H5, H3 by auto. rewrite zerov_get by auto. rewrite H1 in H2 by auto. unfold res, dense_mv in H2. rewrite (sum_zero n (fun j => den B i j * vget (zerov n) j)) in H2 by (intros; rewrite zerov_get by auto; ring). transitivity ((den B i i + r0) * e i); [ring|]. rewrite H2. ring.
    - intros j Hj Hn. unfold Dp. destruct (Nat.eqb_spec j i); [congruence|]. ring.
  Qed.
  Lemma jac_spd w : lt_ pos r0 w -> spd_smoother (run (fun B => seqjac_apply inv 1 B w)).
  Proof.
    intros Hw0 B n HW HA. assert (Hw : pos w) by (unfold lt_ in Hw0; replace (w - r0) with w in Hw0 by ring; auto).
    assert (HD : forall i, i < n -> pos (den B i i)) by (intros i Hi; apply (spd_diag pos HO n); auto).
    assert (V : forall d, length d = n -> length (run (fun B => seqjac_apply inv 1 B w) B (zerov n) d) = n /\ forall i, i < n -> den B i i * vget (run (fun B => seqjac_apply inv 1 B w) B (zerov n) d) i = w * vget d i).
    { intros d Hd. destruct (jac_value w n B d HW HA Hd) as (v & E & L & H). unfold run. rewrite E. auto. }
    split; [|split; [|split]].
    - intros x d Hx Hd. destruct (sweeps_run pos HO inv inv_ok inv_pos n B w [Jac] HW HA x d Hx Hd) as (v & E & L & _). unfold run, seqjac_apply. cbn [repeat]. rewrite E. exact L.
    - intros d Hd. apply V; auto.
    - intros d e Hd He. destruct (V d Hd) as [_ V1], (V e He) as [_ V2]. unfold dot. apply sum_ext. intros i Hi. apply rsub_eq0. apply (mul_cancel pos HO w); [apply (pos_neq pos HO); auto|].
      set (x := vget (run _ B (zerov n) d) i) in *. set (y := vget (run _ B (zerov n) e) i) in *. specialize (V1 i Hi). specialize (V2 i Hi). fold x in V1. fold y in V2.
      transitivity (x * (w * vget e i) - (w * vget d i) * y); [ring|]. rewrite <- V1, <- V2. ring.
    - intros d Hd Hz. destruct (V d Hd) as [_ V1]. destruct (vec_dec pos HO n d Hd) as [E|(i & Hi & E)]; [congruence|].
      assert (Q : forall j, j < n -> w * (vget (run (fun B => seqjac_apply inv 1 B w) B (zerov n) d) j * vget d j) = den B j j * (vget (run (fun B => seqjac_apply inv 1 B w) B (zerov n) d) j * vget (run (fun B => seqjac_apply inv 1 B w) B (zerov n) d) j)).
      { intros j Hj. specialize (V1 j Hj). set (x := vget (run _ B (zerov n) d) j) in *. transitivity (x * (w * vget d j)); [ring|]. rewrite <- V1. ring. }
      unfold dot. apply (sum_pos pos HO n _ i Hi).
      + apply (pos_mul_inv pos HO w); auto. rewrite Q by auto. apply HO; auto. apply (sq_pos pos HO). intros EZ. apply E. specialize (V1 i Hi). rewrite EZ in V1. apply (mul_cancel pos HO w); [apply (pos_neq pos HO); auto|]. rewrite <- V1. ring.
      + intros j Hj. apply (nneg_mul_inv pos HO w); auto. rewrite Q by auto. apply (nneg_mul pos HO); [right; auto|]. apply (sq_nneg pos HO).
  Qed.
  (** SeqSSOR with any number of sweeps, or SeqJac with one, as smoother *)
  Inductive add_smoother := AddSSOR (k : nat) (w : R) | AddJac (w : R).
  Definition add_ok (s : add_smoother) : Prop := match s with AddSSOR k w => 1 <= k /\ lt_ pos r0 w /\ lt_ pos w (r1 + r1) | AddJac w => lt_ pos r0 w end.
  Definition add_apply (s : add_smoother) (B : smat R) (x d : vec R) : outcome (vec R) := match s with AddSSOR k w => seqssor_apply inv k B w x d | AddJac w => seqjac_apply inv 1 B w x d end.
  Lemma add_smoother_spd s : add_ok s -> spd_smoother (run (add_apply s)).
  Proof. destruct s as [k w|w]; cbn [add_ok]; intros H; [apply ssor_spd; tauto|apply jac_spd; auto]. Qed.
  Lemma add_smoother_runs s B x d : let n := length B in mat_wf n n B -> spd pos n B -> length x = n -> length d = n -> exists v, add_apply s B x d = Ok v /\ length v = n.
  Proof.
    intros n HW HA Hx Hd. destruct s as [k w|w]; cbn [add_apply].
    - destruct (smoothers_run pos HO inv inv_ok inv_pos UseSSOR k w n B x d HW HA Hx Hd) as [H _]. exact H.
    - destruct (sweeps_run pos HO inv inv_ok inv_pos n B w [Jac] HW HA x d Hx Hd) as (v & E & L & _). eauto.
  Qed.
  (** C76: for a symmetric positive definite matrix the additive AMG with SSOR (0 < w < 2, any number of sweeps) or one Jacobi sweep (any w > 0) and an exact coarse solver does not fail and is, in every state of its vectors,
      one and the same symmetric positive definite map: a preconditioner for CG *)
  Theorem C76_spd depends influences isolated excludedBorder mn mx maxDist maxConn skip D quot dm1 deq dgt maxLevel target rate (s : add_smoother) (A : smat R) : let n := length A in
    mn <= mx -> 1 <= mx -> mat_wf n n A -> sym_pat A -> spd pos n A -> add_ok s ->
    exists ls C, build depends influences isolated excludedBorder mn mx maxDist maxConn skip D quot dm1 deq dgt maxLevel target rate A = Ok (Some (ls, C)) /\ next ls C = A /\
      Forall (fun B => spd pos (length B) B /\ forall x d, length x = length B -> length d = length B -> exists v, add_apply s B x d = Ok v /\ length v = length B) (map fst ls ++ [C]) /\
      forall solve, exact C solve -> ls <> nil ->
      exists P, spd_map pos n P /\ let L := coarsen_smoother (run (add_apply s)) (run (add_apply s)) ls in
        forall st d, shape (length C) L st -> length d = n -> exists st', additive_apply solve L st d = Ok (P d, st') /\ shape (length C) L st'.
  Proof.
    intros n Hm H1 HW HP HA Hs. pose proof (add_smoother_spd s Hs) as HF.
    destruct (build_loop_ok depends influences isolated excludedBorder mn mx maxDist maxConn skip D quot dm1 deq dgt maxLevel target rate Hm H1 maxLevel 0 A eq_refl HW HP)
      as (ls & C & E & N & L & H & _ & _ & WC & _ & CV).
    exists ls, C. split; [exact E|]. split; [exact N|].
    assert (HS : Forall (fun A => mat_wf (length A) (length A) A /\ spd pos (length A) A) (map fst ls ++ [C])) by (apply (hierarchy_spd pos HO ls C H CV); rewrite N; auto).
    split. { eapply Forall_impl; [|exact HS]. cbv beta. intros B [WB SB]. split; [exact SB|]. intros x d Hx Hd'. apply add_smoother_runs; auto. }
    intros solve HE HN. assert (SC : spd pos (length C) C) by (rewrite Forall_forall in HS; apply (HS C); apply in_or_app; right; left; auto).
    destruct (solve_forms pos HO C solve HE SC) as (Q1 & Q2 & _ & _ & _ & Q3 & _).
    assert (SM : spd_map pos (length C) (fun b => fst (fst (solve (zerov (length C)) b)))) by (split; [exact Q1|split; [exact Q2|exact Q3]]).
    pose proof (add_spd _ _ ls C HF SM HS) as SP. rewrite N in SP. fold n in SP. eexists. split; [exact SP|]. cbv zeta. intros st d SH Hd.
    assert (HH : hier_ok (length C) (coarsen_smoother (run (add_apply s)) (run (add_apply s)) ls)).
    { clear - H HS HF. induction ls as [|[B agg] ls IH]; cbn [coarsen_smoother map hier_ok]; [exact Logic.I|].
      cbn [map app fst hierarchy_of] in HS, H. apply Forall_cons_iff in HS. destruct HS as [[WB SB] HS], H as [(_ & _ & AO & _) H]. split; [|apply IH; auto].
      fold (coarsen_smoother (run (add_apply s)) (run (add_apply s)) ls). rewrite next_dim. destruct (HF B WB SB) as (P1 & _). unfold level_ok. cbn [l_A l_agg l_pre l_post fst snd]. auto. }
    assert (HZ : forall u b, length u = length C -> length b = length C -> length (fst (fst (solve u b))) = length C /\ length (snd (fst (solve u b))) = length C) by (intros u b Hu Hb; destruct (proj2 HE u b Hu Hb) as (X1 & X2 & _); auto).
    set (L0 := coarsen_smoother (run (add_apply s)) (run (add_apply s)) ls) in *. assert (LN : L0 <> nil) by (unfold L0; destruct ls; [congruence|discriminate]).
    assert (LD : dim (length C) L0 = n) by (unfold L0; rewrite next_dim, N; reflexivity).
    destruct (C76_additive solve (length C) HZ L0 st d HH SH LN ltac:(congruence)) as [X _]. destruct (X (proj1 HE _ _)) as (st' & E1 & E2). exists st'. split; auto. rewrite E1. f_equal. f_equal.
    (* the exact solution does not depend on the start *)
    assert (LS : length (last_lhs st) = length C). { clear - SH. clearbody L0. revert st SH. induction L0 as [|l L0 IH]; intros st SH; [destruct st as [|t [|? ?]]; try contradiction; apply SH|]. destruct st as [|t st]; [contradiction|]. destruct SH as [_ SH]. rewrite last_cons; [auto|]. intros ->. destruct L0; contradiction. }
    assert (UN : forall b, length b = length C -> fst (fst (solve (last_lhs st) b)) = fst (fst (solve (zerov (length C)) b))).
    { intros b Hb. destruct (proj2 HE (last_lhs st) b LS Hb) as (X1 & _ & X2). destruct (proj2 HE (zerov (length C)) b (zerov_length _) Hb) as (Y1 & _ & Y2). set (x := fst (fst (solve (last_lhs st) b))) in *. set (y := fst (fst (solve (zerov (length C)) b))) in *.
      set (m := length C) in *. set (e := vecf m (fun i => vget x i - vget y i)). assert (ME : mul m C e = zerov m).
      { apply vecf_eq; [apply vecf_length|]. intros i Hi. unfold mul. rewrite vecf_get by auto. transitivity (sum m (fun j => den C i j * vget x j) - sum m (fun j => den C i j * vget y j)).
        - rewrite <- sum_sub. apply sum_ext. intros j Hj. unfold e. rewrite vecf_get by auto. ring.
        - assert (X3 : vget (mul m C x) i = vget (mul m C y) i) by (rewrite X2, Y2; reflexivity). unfold mul in X3. rewrite !vecf_get in X3 by auto. rewrite X3. ring. }
      destruct (zerov_dec m e (vecf_length _ _)) as [E0|E0].
      - transitivity (vecf m (vget y)); [|symmetry; apply vecf_eq; auto]. apply vecf_eq; auto. intros i Hi. assert (E3 : vget e i = r0) by (rewrite E0; apply zerov_get; auto). unfold e in E3. rewrite vecf_get in E3 by auto. transitivity ((vget x i - vget y i) + vget y i); [ring|]. rewrite E3. ring.
      - exfalso. pose proof (proj2 SC e (vecf_length _ _) E0) as PE. rewrite ME in PE. rewrite (dot_0_l pos HO) in PE. apply (ord_irr _ _ HO PE). }
    assert (GN : forall LL d, length d = dim (length C) LL -> addcycle (fun b => fst (fst (solve (last_lhs st) b))) (length C) LL d = addcycle (fun b => fst (fst (solve (zerov (length C)) b))) (length C) LL d).
    { induction LL as [|l LL IH]; intros d0 Hd0; cbn [addcycle]; [apply UN; auto|]. rewrite IH by apply vecf_length. reflexivity. }
    apply GN. congruence.
  Qed.
End Spd.

(** ** CG with the additive AMG *)
Section Cg.
  Context {R : ring} (pos : R -> Prop).
  Hypothesis HO : ordered R pos.
  Local Open Scope ring_scope_istl.
  Add Ring oring4 : (oring_theory pos HO).
  Variable kdiv : R -> R -> R.
  Hypothesis kdiv_ok : forall a b : R, b <> r0 -> kdiv a b * b = a.
  Variable inv : R -> option R.
  Hypothesis inv_ok : forall a b, inv a = Some b -> a * b = r1 /\ b * a = r1.
  Hypothesis inv_pos : forall a, pos a -> exists u, inv a = Some u.
  Variable eq0 : R -> bool.
  Hypothesis eq0_ok : forall a, eq0 a = true <-> a = r0.
  Variable D : Type.
  Variables (finite : D -> bool) (lessD : D -> D -> bool) (mul_ div_ : D -> D -> D) (zero_ tiny reduction : D) (is0 : D -> bool).
  (** AMG::apply as the solvers call it: the state are the vectors of all levels *)
  Definition add_papply {n} (ls : list (@mlevel R)) (C : smat R) (S : smat R -> vec R -> vec R -> vec R) (solve : vec R -> vec R -> vec R * vec R * bool)
    (p : amg_state (length C) (coarsen_smoother S S ls)) (v d : @lvec R n) : amg_state (length C) (coarsen_smoother S S ls) * @lvec R n :=
    match additive_apply solve (coarsen_smoother S S ls) (proj1_sig p) (val d) with Ok (x, st) => (update_state p st, mk n (vget x)) | _ => (p, v) end.
  (** C76: CGSolver with the additive AMG (more than one level) and an exact coarse solver solves every symmetric positive definite system in at most n iterations *)
  Theorem C76_cg depends influences isolated excludedBorder mn mx maxDist maxConn skipI Dt quot dm1 deq dgt maxLevel target rate (s : add_smoother) (A : smat R) fill1 fill2 fill3 :
    let n := length A in let S := run (add_apply inv s) in
    mn <= mx -> 1 <= mx -> mat_wf n n A -> sym_pat A -> spd pos n A -> add_ok pos s ->
    (forall k, length (fill1 k) = k) -> (forall k, length (fill2 k) = k) -> (forall k, length (fill3 k) = k) ->
    exists ls C, build depends influences isolated excludedBorder mn mx maxDist maxConn skipI Dt quot dm1 deq dgt maxLevel target rate A = Ok (Some (ls, C)) /\
      forall solve (nrm : @lvec R n -> D), exact C solve -> good_norm D finite lessD tiny is0 nrm -> ls <> nil ->
      (forall x b, length x = n -> length b = n -> exists x1 st, amg_pre inv eq0 fill1 fill2 fill3 ls C x b = Ok (x1, b, st)) /\
      (forall (p : amg_state (length C) (coarsen_smoother S S ls)) d, length d = n -> exists x st, additive_apply solve (coarsen_smoother S S ls) (proj1_sig p) d = Ok (x, st)) /\
      forall maxit p x b, n <= maxit ->
        solved pos D A x b (cg_run kdiv D finite lessD mul_ div_ zero_ tiny reduction is0 nrm A (obj_pre inv eq0 fill1 fill2 fill3 ls C S S) (add_papply ls C S solve) (obj_post ls C S S) maxit p x b).
  Proof.
    intros n S Hm H1 HW HP HA Hs F1 F2 F3.
    destruct (C76_spd pos HO inv inv_ok inv_pos depends influences isolated excludedBorder mn mx maxDist maxConn skipI Dt quot dm1 deq dgt maxLevel target rate s A Hm H1 HW HP HA Hs) as (ls & C & EB & EN & _ & HS).
    exists ls, C. split; [exact EB|]. intros solve nrm HE GN HN. destruct (HS solve HE HN) as (W & SW & AP). clear HS. cbv zeta in AP. fold S in AP.
    assert (HD : forall i, i < n -> pos (den A i i)) by (intros i Hi; apply (spd_diag pos HO n); auto).
    assert (PR : forall x b, length x = n -> length b = n -> exists x1 st, amg_pre inv eq0 fill1 fill2 fill3 ls C x b = Ok (x1, b, st) /\ length x1 = n /\
       forall xs, length xs = n -> mul n A xs = b -> le_ pos (AmgSpd.energy n A xs x1) (AmgSpd.energy n A xs x)).
    { intros x b Hx Hb. pose proof (C72_pre inv eq0 inv_ok eq0_ok fill1 fill2 fill3 S S ls C x b) as CP. cbv zeta in CP. rewrite EN in CP. destruct (CP F1 F2 F3 HW Hx Hb) as [C1 _].
      destruct C1 as (x1 & st & E & _ & L & H). { intros i Hi _. apply inv_pos, HD, Hi. }
      exists x1, st. split; [exact E|]. split; [exact L|]. intros xs Hxs Exs. apply (pre_energy pos HO n A xs x x1 b); auto; [apply HA| |intros i Hi; apply (pos_neq pos HO); auto].
      intros i Hi. destruct (H i Hi) as [G1 G2]. destruct (row_case eq0 eq0_ok n A i HW Hi) as [[_ DC]|[_ ND]]; [left|right; auto].
      split; [apply DC|]. rewrite <- (G1 DC). symmetry. apply (sum_single n i); auto. intros j Hj NE. rewrite (proj2 DC j NE). ring. }
    split; [intros x b Hx Hb; destruct (PR x b Hx Hb) as (x1 & st & E & _); eauto|].
    split; [intros [st SH] d Hd; destruct (AP st d SH Hd) as (st' & E & _); cbn [proj1_sig]; eauto|].
    intros maxit p x b Hmx. apply (cg_solved pos HO kdiv kdiv_ok D finite lessD mul_ div_ zero_ tiny reduction is0 n nrm A W); auto.
    - intros [st SH] b0. unfold add_papply. cbn [proj1_sig]. destruct (AP st (val b0) SH (val_length n b0)) as (st' & E & _). rewrite E. cbn [snd]. apply mk_val, SW, val_length.
    - intros q y c. destruct (PR (val y) (val c) (val_length n y) (val_length n c)) as (x1 & st & E & L & H). unfold obj_pre. rewrite E. eexists _, _. split; [f_equal|].
      + apply val_inj. apply mk_val, val_length.
      + intros xs Hxs Exs. rewrite mk_val by auto. apply H; auto.
  Qed.
End Cg.

(** ** Examples *)
Definition add_result (s : add_smoother (R := Qcring)) (solve : smat Qcring -> vec Qcring -> vec Qcring -> vec Qcring * vec Qcring * bool) (A : smat Qcring) (st : list (@lst Qcring)) (d : vec Qcring) : outcome (vec Qcring * list (@lst Qcring)) :=
  match bld A with
  | Ok (Some (ls, C)) => additive_apply (R := Qcring) (solve C) (coarsen_smoother (R := Qcring) (run (R := Qcring) (add_apply (R := Qcring) Qcinv_opt s)) (run (R := Qcring) (add_apply (R := Qcring) Qcinv_opt s)) ls) st d
  | _ => UB
  end.
Lemma from_check {X} (o : outcome X) (f : X -> bool) : match o with Ok x => f x | _ => false end = true -> exists x, o = Ok x /\ f x = true.
Proof. destruct o; try discriminate. eauto. Qed.
Definition is_lt (c : comparison) : bool := match c with Lt => true | _ => false end.
Lemma is_lt_ok c : is_lt c = true -> c = Lt.
Proof. destruct c; auto; discriminate. Qed.
Lemma add_example : exists x st, add_result (AddJac (R := Qcring) (q 1 1)) solve1 (lap4 (q 1 100)) [z_ 4; z_ 2; z_ 1] [q 1 1; q 0 1; q 0 1; q 0 1] = Ok (x, st).
Proof.
  assert (H : match add_result (AddJac (R := Qcring) (q 1 1)) solve1 (lap4 (q 1 100)) [z_ 4; z_ 2; z_ 1] [q 1 1; q 0 1; q 0 1; q 0 1] with Ok _ => true | _ => false end = true) by (vm_compute; reflexivity).
  destruct (add_result _ _ _ _ _) as [[x st]| |]; try discriminate. eauto.
Qed.
(** the hypotheses of C76_spd are met by a matrix with a hierarchy of three levels (see also C71_nonvacuous), by both kinds of smoothers *)
Example C76_nonvacuous : let A := lap4 (q 1 100) in mat_wf 4 4 A /\ sym_pat A /\ spd qpos 4 A /\ add_ok (R := Qcring) qpos (AddSSOR (R := Qcring) 2 (q 1 1)) /\ add_ok (R := Qcring) qpos (AddJac (R := Qcring) (q 3 1)) /\
  exists ls C, bld A = Ok (Some (ls, C)) /\ ls <> nil /\ exact (R := Qcring) C (solve1 C) /\ shape (R := Qcring) 1 (coarsen_smoother (R := Qcring) (fun _ _ d => d) (fun _ _ d => d) ls) [z_ 4; z_ 2; z_ 1] /\
    exists x st, add_result (AddJac (R := Qcring) (q 1 1)) solve1 A [z_ 4; z_ 2; z_ 1] [q 1 1; q 0 1; q 0 1; q 0 1] = Ok (x, st).
Proof.
  destruct C71_nonvacuous as (N1 & N2 & N3 & ls & C & N4 & N5 & N6 & N7 & _). cbv zeta. split; [exact N1|]. split; [exact N2|]. split; [exact N3|]. split; [split; [lia|split; reflexivity]|]. split; [reflexivity|].
  exists ls, C. split; [exact N4|]. split; [intros ->; discriminate N5|]. split; [exact N7|]. split.
  - destruct ls as [|[A1 g1] [|[A2 g2] [|? ?]]]; try discriminate N5. cbn in N5. injection N5 as M1 M2. cbn. rewrite M1, M2. repeat split; reflexivity.
  - exact add_example.
Qed.
(** Deviation: as a stationary iteration the additive AMG can increase the energy norm of the error, even with SSOR (two sweeps), relaxation factor 1 and an exact coarse solver (the multiplicative one with damping factor at most 1 never does, C71) *)
Theorem C76_stationary_refuted : let A := lap4 (q 1 1) in let xs := repeat (q 1 1) 4 in let b := mul (R := Qcring) 4 A xs in
  spd qpos 4 A /\ exists x st, add_result (AddSSOR (R := Qcring) 2 (q 1 1)) solve1 A [z_ 4; z_ 2; z_ 1] b = Ok (x, st) /\ lt_ qpos (energy (R := Qcring) 4 A xs (repeat (q 0 1) 4)) (energy (R := Qcring) 4 A xs x).
Proof.
  cbv zeta. split; [apply lap4_spd; reflexivity|].
  destruct (from_check (add_result (AddSSOR (R := Qcring) 2 (q 1 1)) solve1 (lap4 (q 1 1)) [z_ 4; z_ 2; z_ 1] (mul (R := Qcring) 4 (lap4 (q 1 1)) (repeat (q 1 1) 4)))
    (fun r => is_lt (Qccompare (q 0 1) (rsub (energy (R := Qcring) 4 (lap4 (q 1 1)) (repeat (q 1 1) 4) (fst r)) (energy (R := Qcring) 4 (lap4 (q 1 1)) (repeat (q 1 1) 4) (repeat (q 0 1) 4)))))) as ([x st] & E & H).
  { vm_cast_no_check (eq_refl true). }
  exists x, st. split; [exact E|]. apply Qclt_alt. apply is_lt_ok. exact H.
Qed.
(** a coarse solver that halves the residual and calls that converged *)
Definition solve_half (C : smat Qcring) (u b : vec Qcring) : vec Qcring * vec Qcring * bool :=
  let r := Qcminus (vget (R := Qcring) b 0) (Qcmult (den (R := Qcring) C 0 0) (vget (R := Qcring) u 0)) in ([Qcplus (vget (R := Qcring) u 0) (Qcdiv r (Qcmult (q 2 1) (den (R := Qcring) C 0 0)))], [Qcdiv r (q 2 1)], true).
(** Deviation: with an iterative coarse solver the preconditioner is not a function of the defect: the coarse left hand side is not set to zero, so a second call with the same defect returns something else *)
Theorem C76_stale_guess_refuted : let A := lap4 (q 1 100) in let d := [q 1 1; q 0 1; q 0 1; q 0 1] in let s := AddSSOR (R := Qcring) 1 (q 1 1) in
  spd qpos 4 A /\ exists x st x' st', add_result s solve_half A [z_ 4; z_ 2; z_ 1] d = Ok (x, st) /\ add_result s solve_half A st d = Ok (x', st') /\ x <> x'.
Proof.
  cbv zeta. split; [apply lap4_spd; reflexivity|].
  destruct (from_check (add_result (AddSSOR (R := Qcring) 1 (q 1 1)) solve_half (lap4 (q 1 100)) [z_ 4; z_ 2; z_ 1] [q 1 1; q 0 1; q 0 1; q 0 1])
    (fun r => match add_result (AddSSOR (R := Qcring) 1 (q 1 1)) solve_half (lap4 (q 1 100)) (snd r) [q 1 1; q 0 1; q 0 1; q 0 1] with Ok r' => negb (Qeq_bool (this (vget (R := Qcring) (fst r) 0)) (this (vget (R := Qcring) (fst r') 0))) | _ => false end)) as ([x st] & E & H).
  { vm_cast_no_check (eq_refl true). }
  cbn [fst snd] in H. apply from_check in H. destruct H as ([x' st'] & E' & H). exists x, st, x', st'. split; [exact E|]. split; [exact E'|].
  intros ->. cbn [fst] in H. rewrite Qeq_bool_refl in H. discriminate.
Qed.
Print Assumptions C76_additive.
Print Assumptions C76_single_level_refuted.
Print Assumptions C76_spd.
Print Assumptions C76_cg.
Print Assumptions C76_stationary_refuted.
Print Assumptions C76_stale_guess_refuted.
Print Assumptions C76_nonvacuous.
