(** * The multigrid cycle (C36): paamg/amg.hh, paamg/twolevelmethod.hh, paamg/smoother.hh, sequential case *)
From Coq Require Import Arith List Lia Bool.
From Verif Require Import Ring Sums RingInst Outcome Sparse MatVec AmgTransfer.
Import ListNotations.
Open Scope nat_scope.

Section Amg.
  Context {R : ring}.
  Local Open Scope ring_scope_istl.

  (** one level that is not the coarsest: operator, SmootherApplier::preSmooth/postSmooth (smoother.hh:382-398; arguments v and d, the new v), aggregates map *)
  Record level : Type := mklevel { l_A : smat R; l_pre : vec R -> vec R -> vec R; l_post : vec R -> vec R -> vec R; l_agg : nat -> aggd }.
  (** the vectors of one level: lhs, rhs, update (amg.hh:273-310) *)
  Record lst : Type := mklst { t_lhs : vec R; t_rhs : vec R; t_upd : vec R }.
  (** the coarse solver: (update, rhs) to (update, rhs, converged) *)
  Variable solve : vec R -> vec R -> vec R * vec R * bool.
  Variable damp : R.                     (* getProlongationDampingFactor *)
  Variables (preSteps postSteps gamma : nat).

  (** x = 0 and x += y on vectors *)
  Definition setzero (x : vec R) : vec R := map (fun _ => r0) x.
  Fixpoint pluseq (x y : vec R) : vec R := match x with nil => nil | a :: t => match y with nil => a :: t | b :: s => (a + b) :: pluseq t s end end.
  (** presmooth, smoother.hh:406-421; project does nothing in the sequential case *)
  Fixpoint presmooth (l : level) (steps : nat) (s : lst) : lst :=
    match steps with
    | 0 => s
    | S k => let lhs := l_pre l (setzero (t_lhs s)) (t_rhs s) in
             presmooth l k (mklst lhs (bcrs_usmv (- r1) (l_A l) lhs (t_rhs s)) (pluseq (t_upd s) lhs))
    end.
  (** postsmooth, smoother.hh:428-442 *)
  Fixpoint postsmooth (l : level) (steps : nat) (s : lst) : lst :=
    match steps with
    | 0 => s
    | S k => let rhs := bcrs_usmv (- r1) (l_A l) (t_lhs s) (t_rhs s) in
             let lhs := l_post l (setzero (t_lhs s)) rhs in
             postsmooth l k (mklst lhs rhs (pluseq (t_upd s) lhs))
    end.
  (** the gamma loop, amg.hh:1062-1070, for a recursive call f; the break after the coarsest level; next: the matrix of the next level *)
  Fixpoint gloop (f : list lst -> bool -> outcome (list lst * bool)) (next : option (smat R)) (g : nat) (st : list lst) (conv : bool) : outcome (list lst * bool) :=
    match g with
    | 0 => Ok (st, conv)
    | S g' => obind (f st conv) (fun r =>
              match next with
              | None => Ok r
              | Some A => match g', fst r with
                          | 0, _ => Ok r
                          | _, s :: rest => gloop f next g' (mklst (t_lhs s) (bcrs_usmv (- r1) A (t_lhs s) (t_rhs s)) (t_upd s) :: rest) (snd r)
                          | _, nil => UB
                          end
              end)
    end.
  (** mgc with moveToCoarseLevel and moveToFineLevel, amg.hh:932-1088, without redistribution; [conv] is the member coarsesolverconverged; [finest]: the check on the finest level *)
  Fixpoint mgc (ls : list level) (finest : bool) (st : list lst) (conv : bool) {struct ls} : outcome (list lst * bool) :=
    match ls, st with
    | nil, s :: nil => let '(u, b, ok) := solve (t_upd s) (t_rhs s) in Ok ([mklst (t_lhs s) b u], conv && ok)
    | l :: ls', s :: s1 :: rest =>
      let s := presmooth l preSteps s in
      obind (restrictVector (l_agg l) (t_rhs s1) (t_rhs s)) (fun rhs1 =>
      obind (gloop (mgc ls' false) (option_map l_A (hd_error ls')) gamma (mklst (t_lhs s1) rhs1 (setzero (t_upd s1)) :: rest) conv) (fun r =>
      match fst r with
      | nil => UB
      | s1' :: rest' =>
        obind (prolongateVector (l_agg l) (t_upd s1') (setzero (t_lhs s)) damp) (fun cf =>
        let s2 := mklst (snd cf) (t_rhs s) (pluseq (t_upd s) (snd cf)) in
        if finest && negb (snd r) then Throw EMath
        else Ok (postsmooth l postSteps s2 :: mklst (t_lhs s1') (t_rhs s1') (fst cf) :: rest', snd r))
      end))
    | _, _ => UB
    end.
  (** AMG::apply, amg.hh:893-921, multiplicative; the vectors of the coarser levels and the flag persist between calls *)
  Definition amg_apply (ls : list level) (st : list lst) (conv : bool) (v d : vec R) : outcome (vec R * list lst * bool) :=
    match st with
    | s :: rest => obind (mgc ls true (mklst v d (setzero (t_upd s)) :: rest) conv) (fun r => match fst r with s' :: _ => Ok (t_upd s', fst r, snd r) | nil => UB end)
    | nil => UB
    end.
  (** TwoLevelMethod::apply, twolevelmethod.hh:440-463, with AggregationLevelTransferPolicy (:195-210): the policy's lhs_ and rhs_ are clhs, crhs; the result of the coarse solver is ignored *)
  Definition two_level_apply (l : level) (clhs crhs v d : vec R) : outcome (vec R) :=
    let s := presmooth l preSteps (mklst v d v) in
    obind (restrictVector (l_agg l) crhs (t_rhs s)) (fun rhs1 =>
    let '(u, _, _) := solve (setzero clhs) rhs1 in
    obind (prolongateVector (l_agg l) u (setzero (t_lhs s)) damp) (fun cf =>
    Ok (t_upd (postsmooth l postSteps (mklst (snd cf) (t_rhs s) (pluseq (t_upd s) (snd cf))))))).

  (** ** Specification: the textbook cycle on full residuals *)
  Definition vecf (n : nat) (f : nat -> R) : vec R := map f (seq 0 n).
  Definition vadd (n : nat) (a b : vec R) : vec R := vecf n (fun i => vget a i + vget b i).
  Definition zerov (n : nat) : vec R := vecf n (fun _ => r0).
  (** d - A u *)
  Definition residual (n : nat) (A : smat R) (d u : vec R) : vec R := vecf n (fun i => vget d i - sum n (fun j => den A i j * vget u j)).
  (** P^T r and P c damp *)
  Definition Rst (agg : nat -> aggd) (n K : nat) (r : vec R) : vec R := vecf K (fun k => sum n (fun i => prol agg i k * vget r i)).
  Definition Pro (agg : nat -> aggd) (n K : nat) (c : vec R) : vec R := vecf n (fun i => sum K (fun k => prol agg i k * (vget c k * damp))).
  (** k steps of u := u + S(0, d - A u) *)
  Fixpoint relax (n : nat) (A : smat R) (sm : vec R -> vec R -> vec R) (k : nat) (d u : vec R) : vec R :=
    match k with 0 => u | S k' => relax n A sm k' d (vadd n u (sm (zerov n) (residual n A d u))) end.
  (** k steps of c := c + B (r - A c) *)
  Fixpoint correct (n : nat) (A : smat R) (B : vec R -> vec R) (k : nat) (r c : vec R) : vec R :=
    match k with 0 => c | S k' => correct n A B k' r (vadd n c (B (residual n A r c))) end.
  (** number of unknowns of the first level of a hierarchy with nc coarsest unknowns *)
  Definition dim (nc : nat) (ls : list level) : nat := match ls with nil => nc | l :: _ => length (l_A l) end.
  Fixpoint cycle (nc : nat) (ls : list level) (d : vec R) : vec R :=
    match ls with
    | nil => fst (fst (solve (zerov nc) d))
    | l :: ls' =>
      let n := length (l_A l) in let K := dim nc ls' in
      let u := relax n (l_A l) (l_pre l) preSteps d (zerov n) in
      let r := Rst (l_agg l) n K (residual n (l_A l) d u) in
      let c := match ls' with
               | nil => match gamma with 0 => zerov K | _ => cycle nc ls' r end          (* exact solve: once *)
               | l' :: _ => correct K (l_A l') (cycle nc ls') gamma r (zerov K)
               end in
      relax n (l_A l) (l_post l) postSteps d (vadd n u (Pro (l_agg l) n K c))
    end.
  (** sizes fit; smoothers keep the size of the vector *)
  Definition level_ok (K : nat) (l : level) : Prop :=
    let n := length (l_A l) in
    mat_wf n n (l_A l) /\ agg_ok (l_agg l) n K /\
    (forall x d, length x = n -> length d = n -> length (l_pre l x d) = n) /\ (forall x d, length x = n -> length d = n -> length (l_post l x d) = n).
  Fixpoint hier_ok (nc : nat) (ls : list level) : Prop := match ls with nil => True | l :: ls' => level_ok (dim nc ls') l /\ hier_ok nc ls' end.
  (** the vectors have the sizes of the levels *)
  Definition sized (n : nat) (s : lst) : Prop := length (t_lhs s) = n /\ length (t_rhs s) = n /\ length (t_upd s) = n.
  Fixpoint shape (nc : nat) (ls : list level) (st : list lst) : Prop :=
    match ls, st with
    | nil, [s] => sized nc s
    | l :: ls', s :: st' => sized (length (l_A l)) s /\ shape nc ls' st'
    | _, _ => False
    end.

  (** ** Vector facts *)
  Lemma vecf_length n f : length (vecf n f) = n.
  Proof. unfold vecf. rewrite map_length, seq_length. auto. Qed.
  Lemma vecf_get n f i : i < n -> vget (vecf n f) i = f i.
  Proof. intros H. unfold vget, vecf. rewrite (nth_indep _ r0 (f 0)) by (rewrite map_length, seq_length; auto). rewrite map_nth, seq_nth; auto. Qed.
  Lemma vecf_ext n f g : (forall i, i < n -> f i = g i) -> vecf n f = vecf n g.
  Proof. intros H. apply map_ext_in. intros i Hi. apply in_seq in Hi. apply H. lia. Qed.
  Lemma vecf_eq n x f : length x = n -> (forall i, i < n -> vget x i = f i) -> x = vecf n f.
  Proof. intros HL H. apply vec_ext; [rewrite vecf_length; auto|]. intros i Hi. rewrite vecf_get by lia. apply H. lia. Qed.
  Lemma setzero_eq n x : length x = n -> setzero x = zerov n.
  Proof. intros HL. apply vecf_eq; [unfold setzero; rewrite map_length; auto|]. intros i Hi. unfold vget, setzero. apply (map_nth (fun _ => r0) x r0). Qed.
  Lemma pluseq_eq n x : forall y, length x = n -> length y = n -> pluseq x y = vadd n x y.
  Proof.
    intros y Hx Hy. apply vecf_eq.
    - clear - Hx. revert n y Hx. induction x as [|a t IH]; intros n y H; cbn [pluseq]; auto. destruct y; auto. cbn [length] in *. rewrite (IH (length t)); auto.
    - clear - Hx Hy. revert y n Hx Hy. induction x as [|a t IH]; intros [|b y] n Hx Hy i Hi; cbn in Hx, Hy; try lia. cbn [pluseq]. destruct i as [|i]; [reflexivity|]. unfold vget in *. cbn [nth]. apply (IH y (length t)); lia.
  Qed.
  Lemma usmv_eq n A x y : mat_wf n n A -> length x = n -> length y = n -> bcrs_usmv (- r1) A x y = residual n A y x.
  Proof.
    intros HA Hx Hy. destruct (C09_products n n A x y HA Hx Hy) as (_ & _ & _ & H). destruct (H (- r1)) as [L V]. apply vecf_eq; auto. intros i Hi. rewrite V by auto. ncring.
  Qed.
  Lemma residual_length n A d u : length (residual n A d u) = n. Proof. apply vecf_length. Qed.
  Lemma vadd_length n a b : length (vadd n a b) = n. Proof. apply vecf_length. Qed.
  Lemma zerov_length n : length (zerov n) = n. Proof. apply vecf_length. Qed.
  Lemma zerov_get n i : i < n -> vget (zerov n) i = r0. Proof. apply vecf_get. Qed.
  Lemma vadd_get n a b i : i < n -> vget (vadd n a b) i = vget a i + vget b i. Proof. intros. unfold vadd. rewrite vecf_get by auto. auto. Qed.
  Lemma residual_get n A d u i : i < n -> vget (residual n A d u) i = vget d i - sum n (fun j => den A i j * vget u j). Proof. intros. unfold residual. rewrite vecf_get by auto. auto. Qed.
  Lemma vadd_0_l n x : length x = n -> vadd n (zerov n) x = x.
  Proof. intros H. symmetry. apply vecf_eq; auto. intros i Hi. rewrite zerov_get by auto. ncring. Qed.
  Lemma vadd_0_r n x : length x = n -> vadd n x (zerov n) = x.
  Proof. intros H. symmetry. apply vecf_eq; auto. intros i Hi. rewrite zerov_get by auto. ncring. Qed.
  Lemma vadd_assoc n a b c : vadd n a (vadd n b c) = vadd n (vadd n a b) c.
  Proof. apply vecf_ext. intros i Hi. rewrite !vadd_get by auto. ncring. Qed.
  Lemma residual_0 n A d : length d = n -> residual n A d (zerov n) = d.
  Proof. intros H. symmetry. apply vecf_eq; auto. intros i Hi. rewrite sum_zero; [ncring|]. intros j Hj. rewrite zerov_get by auto. ncring. Qed.
  (** d - A (u + x) = (d - A u) - A x *)
  Lemma residual_add n A d u x : residual n A d (vadd n u x) = residual n A (residual n A d u) x.
  Proof.
    apply vecf_ext. intros i Hi. rewrite residual_get by auto.
    rewrite (sum_ext n (fun j => den A i j * vget (vadd n u x) j) (fun j => den A i j * vget u j + den A i j * vget x j)) by (intros j Hj; rewrite vadd_get by auto; ncring).
    rewrite sum_add. ncring.
  Qed.
  (** the steps depend on the residual only *)
  Lemma relax_shift n A sm k : forall d u u0, length u = n -> length u0 = n ->
    relax n A sm k d (vadd n u0 u) = vadd n u0 (relax n A sm k (residual n A d u0) u).
  Proof.
    induction k as [|k IH]; intros d u u0 Hu H0; cbn [relax]; auto. rewrite residual_add, <- vadd_assoc. apply IH; auto. apply vadd_length.
  Qed.
  Lemma relax_length n A sm k : forall d u, length u = n -> length (relax n A sm k d u) = n.
  Proof. induction k as [|k IH]; intros d u H; cbn [relax]; auto. apply IH. apply vadd_length. Qed.
  Lemma correct_length n A B k : forall d u, length u = n -> length (correct n A B k d u) = n.
  Proof. induction k as [|k IH]; intros d u H; cbn [correct]; auto. apply IH. apply vadd_length. Qed.

  (** ** presmooth and postsmooth *)
  (** d is the right-hand side of the level, seen from the current update *)
  Lemma presmooth_ok l n k : n = length (l_A l) -> mat_wf n n (l_A l) -> (forall x d, length x = n -> length d = n -> length (l_pre l x d) = n) ->
    forall s d u, sized n s -> length d = n -> length u = n -> t_rhs s = residual n (l_A l) d u ->
    let s' := presmooth l k s in
    let u' := relax n (l_A l) (l_pre l) k d u in
    sized n s' /\ t_rhs s' = residual n (l_A l) d u' /\ exists x, length x = n /\ u' = vadd n u x /\ t_upd s' = vadd n (t_upd s) x.
  Proof.
    intros Hn HA HS. induction k as [|k IH]; intros s d u (Z1 & Z2 & Z3) Hd Hu HR; cbn [presmooth relax].
    - split; [repeat split; auto|]. split; auto. exists (zerov n). rewrite !vadd_0_r by auto. split; [apply zerov_length|auto].
    - rewrite (setzero_eq n) by auto. rewrite HR. set (lhs := l_pre l (zerov n) (residual n (l_A l) d u)).
      assert (LL : length lhs = n) by (apply HS; [apply zerov_length|apply residual_length]).
      rewrite (usmv_eq n) by (auto; apply residual_length). rewrite (pluseq_eq n) by auto.
      destruct (IH (mklst lhs (residual n (l_A l) (residual n (l_A l) d u) lhs) (vadd n (t_upd s) lhs)) d (vadd n u lhs)) as (S1 & R1 & x & X1 & X2 & X3); auto.
      + repeat split; cbn; auto; [apply residual_length|apply vadd_length].
      + apply vadd_length.
      + cbn. symmetry. apply residual_add.
      + split; auto. split; auto. exists (vadd n lhs x). split; [apply vadd_length|]. rewrite !vadd_assoc. split; auto.
  Qed.
  Lemma postsmooth_ok l n k : n = length (l_A l) -> mat_wf n n (l_A l) -> (forall x d, length x = n -> length d = n -> length (l_post l x d) = n) ->
    forall s d u, sized n s -> length d = n -> length u = n -> residual n (l_A l) (t_rhs s) (t_lhs s) = residual n (l_A l) d u ->
    let s' := postsmooth l k s in
    let u' := relax n (l_A l) (l_post l) k d u in
    sized n s' /\ residual n (l_A l) (t_rhs s') (t_lhs s') = residual n (l_A l) d u' /\ exists x, length x = n /\ u' = vadd n u x /\ t_upd s' = vadd n (t_upd s) x.
  Proof.
    intros Hn HA HS. induction k as [|k IH]; intros s d u (Z1 & Z2 & Z3) Hd Hu HR; cbn [postsmooth relax].
    - split; [repeat split; auto|]. split; auto. exists (zerov n). rewrite !vadd_0_r by auto. split; [apply zerov_length|auto].
    - rewrite (setzero_eq n) by auto. rewrite (usmv_eq n) by auto. rewrite HR. set (lhs := l_post l (zerov n) (residual n (l_A l) d u)).
      assert (LL : length lhs = n) by (apply HS; [apply zerov_length|apply residual_length]).
      rewrite (pluseq_eq n) by auto.
      destruct (IH (mklst lhs (residual n (l_A l) d u) (vadd n (t_upd s) lhs)) d (vadd n u lhs)) as (S1 & R1 & x & X1 & X2 & X3); auto.
      + repeat split; cbn; auto; [apply residual_length|apply vadd_length].
      + apply vadd_length.
      + cbn. symmetry. apply residual_add.
      + split; auto. split; auto. exists (vadd n lhs x). split; [apply vadd_length|]. rewrite !vadd_assoc. split; auto.
  Qed.
  Lemma restrict_eq agg n K coarse fine : length fine = n -> length coarse = K -> agg_ok agg n K -> restrictVector agg coarse fine = Ok (Rst agg n K fine).
  Proof.
    intros Hf Hc HA. subst K. destruct (C34_restrict agg n coarse fine Hf HA) as (c & E & L & V). rewrite E. f_equal. apply vecf_eq; auto.
  Qed.
  Lemma prolong_eq agg n K coarse : length coarse = K -> agg_ok agg n K -> exists c, length c = K /\ prolongateVector agg coarse (zerov n) damp = Ok (c, Pro agg n K coarse).
  Proof.
    intros Hc HA. subst K. destruct (C34_prolongate agg n coarse (zerov n) damp (zerov_length n) HA) as (c & f & E & L & L' & V & V'). exists c. split; auto. rewrite E. f_equal. f_equal. apply vecf_eq; auto.
    intros i Hi. rewrite V' by auto. rewrite zerov_get by auto. ncring.
  Qed.

  (** ** The cycle *)
  Variable nc : nat.
  Hypothesis solve_sizes : forall u b, length u = nc -> length b = nc -> length (fst (fst (solve u b))) = nc /\ length (snd (fst (solve u b))) = nc.
  Lemma cycle_length ls d : length d = dim nc ls -> length (cycle nc ls d) = dim nc ls.
  Proof.
    intros H. destruct ls as [|l ls']; cbn [cycle dim] in *; [apply solve_sizes; auto; apply zerov_length|]. cbv zeta. apply relax_length. apply vadd_length.
  Qed.
  (** what one call of mgc does to the vectors of its level *)
  Definition mgc_post (ls : list level) (s s' : lst) : Prop :=
    let n := dim nc ls in
    t_upd s' = vadd n (t_upd s) (cycle nc ls (t_rhs s)) /\
    match ls with nil => True | l :: _ => residual n (l_A l) (t_rhs s') (t_lhs s') = residual n (l_A l) (t_rhs s) (cycle nc ls (t_rhs s)) end.
  Definition mgc_pre (ls : list level) (s : lst) : Prop := match ls with nil => t_upd s = zerov nc | _ => True end.
  Hypothesis converges : forall u b, snd (solve u b) = true.
  Lemma gloop_ok cv ls l1 f : ls = l1 :: tl ls -> level_ok (dim nc (tl ls)) l1 ->
    (forall s rest, shape nc ls (s :: rest) -> exists s' rest', f (s :: rest) cv = Ok (s' :: rest', cv) /\ shape nc ls (s' :: rest') /\ mgc_post ls s s') ->
    forall g s rest r c, shape nc ls (s :: rest) -> length r = dim nc ls -> t_rhs s = residual (dim nc ls) (l_A l1) r c -> t_upd s = c ->
    exists s' rest', gloop f (Some (l_A l1)) g (s :: rest) cv = Ok (s' :: rest', cv) /\ shape nc ls (s' :: rest') /\ t_upd s' = correct (dim nc ls) (l_A l1) (cycle nc ls) g r c.
  Proof.
    intros EL (HA & _) HF. induction g as [|g IH]; intros s rest r c SH Hr HR HC; cbn [gloop correct].
    - exists s, rest. auto.
    - destruct (HF s rest SH) as (s' & rest' & E & SH' & P1 & P2). rewrite E. cbn [obind fst snd].
      assert (N : dim nc ls = length (l_A l1)) by (rewrite EL; reflexivity).
      rewrite EL in P2. cbv iota in P2. rewrite <- EL in P2. rewrite HR in P1, P2. rewrite HC in P1.
      destruct g as [|g]; [exists s', rest'; split; auto|].
      assert (SZ : sized (dim nc ls) s') by (rewrite EL in SH'; cbn [shape] in SH'; rewrite N; apply SH').
      destruct SZ as (Z1 & Z2 & Z3). apply IH; auto.
      + rewrite EL in SH' |- *. cbn [shape] in *. destruct SH' as [_ SH']. split; auto. rewrite <- N. repeat split; cbn; auto. rewrite (usmv_eq (dim nc ls)) by (auto; rewrite N; auto). apply residual_length.
      + cbn [t_rhs]. rewrite (usmv_eq (dim nc ls)) by (auto; rewrite N; auto). rewrite P2. symmetry. apply residual_add.
  Qed.
  Lemma mgc_ok cv ls : hier_ok nc ls -> forall fin s rest, shape nc ls (s :: rest) -> mgc_pre ls s ->
    if fin && negb cv && negb (length ls =? 0) then mgc ls fin (s :: rest) cv = Throw EMath else
    exists s' rest', mgc ls fin (s :: rest) cv = Ok (s' :: rest', cv) /\ shape nc ls (s' :: rest') /\ mgc_post ls s s'.
  Proof.
    induction ls as [|l ls IH]; intros HH fin s rest SH HP.
    - cbn [shape] in SH. destruct rest; [|contradiction]. destruct SH as (Z1 & Z2 & Z3). cbn [mgc_pre] in HP. cbn [mgc]. destruct (solve (t_upd s) (t_rhs s)) as [[u b] ok] eqn:E.
      pose proof (converges (t_upd s) (t_rhs s)) as CV. rewrite E in CV. cbn in CV. subst ok. destruct (solve_sizes (t_upd s) (t_rhs s) Z3 Z2) as [L1 L2]. rewrite E in L1, L2. cbn in L1, L2.
      rewrite !andb_true_r. cbn [length Nat.eqb negb]. rewrite andb_false_r. eexists _, nil. split; [reflexivity|]. split; [cbn; repeat split; auto|]. split; [|exact I]. cbn [t_upd dim cycle]. rewrite HP in *. rewrite E. cbn [fst]. rewrite vadd_0_l by auto. auto.
    - cbn [hier_ok] in HH. destruct HH as [HL HH]. pose proof HL as (HA & HG & HS1 & HS2). set (n := length (l_A l)) in *. set (K := dim nc ls) in *.
      cbn [shape] in SH. destruct SH as [SZ SH]. fold n in SZ. destruct rest as [|s1 rest]; [destruct ls; contradiction|]. cbn [mgc].
      assert (SZ1 : sized K s1). { unfold K. destruct ls as [|l1 ls1]; cbn [shape] in SH; [destruct rest; [|contradiction]|destruct SH as [SH _]]; exact SH. }
      destruct SZ1 as (Y1 & Y2 & Y3). set (d := t_rhs s). assert (Hd : length d = n) by apply SZ.
      destruct (presmooth_ok l n preSteps eq_refl HA HS1 s d (zerov n) SZ Hd (zerov_length n) ltac:(unfold d; rewrite residual_0; auto)) as (SP & RP & x & X1 & X2 & X3).
      set (sp := presmooth l preSteps s) in *. set (u := relax n (l_A l) (l_pre l) preSteps d (zerov n)) in *.
      rewrite vadd_0_l in X2 by auto. subst x. assert (Hu : length u = n) by auto.
      rewrite (restrict_eq (l_agg l) n K) by (auto; apply SP). cbn [obind]. rewrite RP. set (r := Rst (l_agg l) n K (residual n (l_A l) d u)).
      assert (Hr : length r = K) by apply vecf_length.
      rewrite (setzero_eq K) by auto. set (s1a := mklst (t_lhs s1) r (zerov K)).
      assert (SHa : shape nc ls (s1a :: rest)).
      { destruct ls as [|l1 ls1]; cbn [shape] in *; [destruct rest; [|contradiction]; unfold K in *; repeat split; cbn; auto; apply zerov_length|].
        destruct SH as [_ SH]. split; auto. unfold K in *; repeat split; cbn; auto. apply zerov_length. }
      assert (GL : exists s' rest', gloop (mgc ls false) (option_map l_A (hd_error ls)) gamma (s1a :: rest) cv = Ok (s' :: rest', cv) /\ shape nc ls (s' :: rest') /\
                t_upd s' = match ls with nil => match gamma with 0 => zerov K | _ => cycle nc ls r end | l' :: _ => correct K (l_A l') (cycle nc ls) gamma r (zerov K) end).
      { destruct ls as [|l1 ls1].
        - destruct gamma as [|g]; cbn [gloop hd_error option_map]; [exists s1a, rest; auto|]. destruct (IH HH false s1a rest SHa eq_refl) as (s' & rest' & E & S1 & P1 & _). rewrite E. cbn [obind]. exists s', rest'.
          split; auto. split; auto. rewrite P1. cbn [s1a t_upd t_rhs]. apply vadd_0_l. apply (cycle_length nil). auto.
        - refine (gloop_ok cv (l1 :: ls1) l1 (mgc (l1 :: ls1) false) eq_refl (proj1 HH) _ gamma s1a rest r (zerov K) SHa Hr _ eq_refl); [intros s2 rest2 S2; exact (IH HH false s2 rest2 S2 I)|]. cbn [s1a t_rhs]. symmetry. apply residual_0. auto. }
      destruct GL as (s1' & rest' & E & SH' & U1). rewrite E. cbn [obind fst snd].
      match type of U1 with _ = ?cc => set (c := cc) in * end.
      assert (SZ1' : sized K s1'). { unfold K. destruct ls as [|l1 ls1]; cbn [shape] in SH'; [destruct rest'; [|contradiction]|destruct SH' as [SH' _]]; exact SH'. }
      destruct SZ1' as (W1 & W2 & W3). destruct SP as (P1 & P2 & P3). rewrite (setzero_eq n) by auto.
      destruct (prolong_eq (l_agg l) n K (t_upd s1') W3 HG) as (c' & C1 & C2). rewrite C2. cbn [obind fst snd length Nat.eqb negb]. rewrite andb_true_r. destruct (fin && negb cv) eqn:EFIN; [reflexivity|]. rewrite U1. set (pc := Pro (l_agg l) n K c).
      assert (Hpc : length pc = n) by apply vecf_length. rewrite (pluseq_eq n) by auto. set (s2 := mklst pc (residual n (l_A l) d u) (vadd n (t_upd sp) pc)).
      try rewrite RP; fold s2.
      destruct (postsmooth_ok l n postSteps eq_refl HA HS2 s2 d (vadd n u pc)) as (Q1 & Q2 & y & Q3 & Q4 & Q5); auto.
      { repeat split; cbn; auto; [apply residual_length|apply vadd_length]. }
      { apply vadd_length. }
      { cbn. symmetry. apply residual_add. }
      eexists _, _. split; [reflexivity|]. split; [|split].
      + cbn [shape]. split; [exact Q1|]. destruct ls as [|l1 ls1]; cbn [shape] in *; [destruct rest'; [|contradiction]; unfold K in *; repeat split; cbn; auto|]. destruct SH' as [_ SH']. split; auto. unfold K in *; repeat split; cbn; auto.
      + rewrite Q5. cbn [s2 t_upd]. rewrite X3. cbn [dim cycle]. cbv zeta. fold n K d u r c pc. rewrite Q4. rewrite !vadd_assoc. reflexivity.
      + cbn [dim]. fold n. exact Q2.
  Qed.
  (** AMG::apply computes the textbook cycle of d, whatever v and the stored vectors are *)
  Theorem C36_amg ls st v d : hier_ok nc ls -> shape nc ls st -> length v = dim nc ls -> length d = dim nc ls ->
    exists st', amg_apply ls st true v d = Ok (cycle nc ls d, st', true) /\ shape nc ls st'.
  Proof.
    intros HH SH Hv Hd. unfold amg_apply. destruct st as [|s rest]; [destruct ls; contradiction|].
    assert (SZ : sized (dim nc ls) s) by (destruct ls; cbn [shape dim] in *; [destruct rest; [|contradiction]|destruct SH as [SH _]]; exact SH).
    destruct SZ as (Z1 & Z2 & Z3). rewrite (setzero_eq (dim nc ls)) by auto.
    destruct (mgc_ok true ls HH true (mklst v d (zerov (dim nc ls))) rest) as (s' & rest' & E & SH' & P & _).
    - destruct ls; cbn [shape dim] in *; [destruct rest; [|contradiction]|destruct SH as [_ SH]; split; auto]; repeat split; cbn; auto; apply zerov_length.
    - destruct ls; cbn; auto.
    - rewrite E. cbn [obind fst snd]. exists (s' :: rest'). split; auto. rewrite P. cbn [t_upd t_rhs]. rewrite vadd_0_l; auto. apply cycle_length. auto.
  Qed.
  (** TwoLevelMethod::apply adds the two-level cycle of d to v *)
  Theorem C36_two_level l clhs crhs v d : let n := length (l_A l) in level_ok nc l -> length clhs = nc -> length crhs = nc -> length v = n -> length d = n -> gamma <> 0 ->
    two_level_apply l clhs crhs v d = Ok (vadd n v (cycle nc [l] d)).
  Proof.
    intros n HL H1 H2 Hv Hd Hg. pose proof HL as (HA & HG & HS1 & HS2). fold n in HA, HG, HS1, HS2. unfold two_level_apply.
    destruct (presmooth_ok l n preSteps eq_refl HA HS1 (mklst v d v) d (zerov n)) as (SP & RP & x & X1 & X2 & X3); auto; [repeat split; auto|apply zerov_length|cbn; rewrite residual_0; auto|].
    set (sp := presmooth l preSteps (mklst v d v)) in *. set (u := relax n (l_A l) (l_pre l) preSteps d (zerov n)) in *. rewrite vadd_0_l in X2 by auto. subst x. cbn [t_upd] in X3.
    rewrite (restrict_eq (l_agg l) n nc) by (auto; apply SP). cbn [obind]. rewrite (setzero_eq nc) by auto. rewrite RP. set (r := Rst (l_agg l) n nc (residual n (l_A l) d u)).
    assert (Hr : length r = nc) by apply vecf_length. destruct (solve (zerov nc) r) as [[c b] ok] eqn:E. destruct (solve_sizes (zerov nc) r (zerov_length nc) Hr) as [L1 _]. rewrite E in L1. cbn in L1.
    destruct SP as (P1 & P2 & P3). rewrite (setzero_eq n) by auto. destruct (prolong_eq (l_agg l) n nc c L1 HG) as (c' & C1 & C2). rewrite C2. cbn [obind fst snd]. set (pc := Pro (l_agg l) n nc c).
    assert (Hpc : length pc = n) by apply vecf_length. rewrite (pluseq_eq n) by auto.
    destruct (postsmooth_ok l n postSteps eq_refl HA HS2 (mklst pc (residual n (l_A l) d u) (vadd n (t_upd sp) pc)) d (vadd n u pc)) as (Q1 & Q2 & y & Q3 & Q4 & Q5); auto.
    { repeat split; cbn; auto; [apply residual_length|apply vadd_length]. } { apply vadd_length. } { cbn. symmetry. apply residual_add. }
    f_equal. rewrite Q5. cbn [t_upd]. rewrite X3. cbn [cycle dim]. cbv zeta. fold n u. fold r. destruct gamma; [congruence|]. rewrite E. cbn [fst]. fold pc. rewrite Q4. rewrite !vadd_assoc. reflexivity.
  Qed.
  (** Deviation: once a coarse solve has failed, the flag stays false and every later apply throws, also when its own coarse solves all converge. (The flag is set before the exception, amg.hh:1052-1081.) *)
  Theorem C36_sticky_flag_refuted l ls st v d : hier_ok nc (l :: ls) -> shape nc (l :: ls) st -> length v = length (l_A l) -> length d = length (l_A l) -> amg_apply (l :: ls) st false v d = Throw EMath.
  Proof.
    intros HH SH Hv Hd. unfold amg_apply. destruct st as [|s rest]; [contradiction|]. cbn [shape] in SH. destruct SH as [(Z1 & Z2 & Z3) SH].
    pose proof (mgc_ok false (l :: ls) HH true (mklst v d (setzero (t_upd s))) rest) as Q. cbn [andb negb length Nat.eqb] in Q. rewrite Q; [reflexivity| |exact I].
    cbn [shape]. split; auto. repeat split; cbn; auto. unfold setzero. rewrite map_length. auto.
  Qed.
End Amg.

(** Deviation: with a single level a failing coarse solve is not reported *)
Theorem C36_one_level_refuted {R : ring} (solve : vec R -> vec R -> vec R * vec R * bool) damp pre post gamma s v d conv : snd (solve (setzero (t_upd s)) d) = false ->
  exists st, amg_apply solve damp pre post gamma nil [s] conv v d = Ok (fst (fst (solve (setzero (t_upd s)) d)), st, false).
Proof. intros H. unfold amg_apply. cbn [mgc t_upd t_rhs t_lhs]. destruct (solve (setzero (t_upd s)) d) as [[u b] ok]. cbn in H. subst ok. rewrite andb_false_r. cbn. eauto. Qed.

(** ** The cycle is a symmetric operator *)
Section Symmetric.
  Context {R : ring}.
  Local Open Scope ring_scope_istl.
  Hypothesis comm : forall a b : R, a * b = b * a.
  Definition dot (n : nat) (a b : vec R) : R := sum n (fun i => vget a i * vget b i).
  Definition sym (n : nat) (A : smat R) : Prop := forall i j, i < n -> j < n -> den A i j = den A j i.
  (** F and G map vectors of length n to vectors of length n and are adjoint *)
  Definition adjoint (n : nat) (F G : vec R -> vec R) : Prop := forall d e, length d = n -> length e = n -> dot n (F d) e = dot n d (G e).
  Definition keeps (n : nat) (F : vec R -> vec R) : Prop := forall d, length d = n -> length (F d) = n.
  Lemma dot_sym n a b : dot n a b = dot n b a.
  Proof. apply sum_ext. intros. apply comm. Qed.
  Lemma dot_vadd n a b e : dot n (vadd n a b) e = dot n a e + dot n b e.
  Proof. unfold dot. rewrite <- sum_add. apply sum_ext. intros i Hi. rewrite vadd_get by auto. ncring. Qed.
  Definition mul (n : nat) (A : smat R) (u : vec R) : vec R := vecf n (fun i => sum n (fun j => den A i j * vget u j)).
  Lemma dot_residual n A d u e : dot n (residual n A d u) e = dot n d e - dot n (mul n A u) e.
  Proof. unfold dot. rewrite <- sum_sub. apply sum_ext. intros i Hi. rewrite residual_get by auto. unfold mul. rewrite vecf_get by auto. ncring. Qed.
  Lemma dot_mul n A u e : sym n A -> dot n (mul n A u) e = dot n u (mul n A e).
  Proof.
    intros HS. unfold dot. rewrite (sum_ext n _ (fun i => sum n (fun j => den A i j * vget u j * vget e i))) by (intros i Hi; unfold mul; rewrite vecf_get by auto; rewrite sum_mul_r; auto).
    rewrite sum_swap. apply sum_ext. intros j Hj. unfold mul. rewrite vecf_get by auto. rewrite <- sum_mul_l. apply sum_ext. intros i Hi. rewrite (HS i j) by auto. rewrite (comm (den A j i)). ncring.
  Qed.
  (** a vector is determined by its scalar products *)
  Lemma dot_ext n a b : length a = n -> length b = n -> (forall e, length e = n -> dot n a e = dot n b e) -> a = b.
  Proof.
    intros Ha Hb H. apply vec_ext; [congruence|]. rewrite Ha. intros i Hi. specialize (H (vecf n (fun j => if j =? i then r1 else r0)) (vecf_length n _)). unfold dot in H.
    assert (G : forall x : vec R, sum n (fun j => vget x j * vget (vecf n (fun j => if j =? i then r1 else r0)) j) = vget x i).
    { intros x. rewrite (sum_single n i); auto; [rewrite vecf_get, Nat.eqb_refl by auto; ncring|]. intros j Hj NE. rewrite vecf_get by auto. destruct (Nat.eqb_spec j i); [congruence|ncring]. }
    rewrite !G in H. exact H.
  Qed.
  Lemma adjoint_linear n F G d A u : keeps n F -> adjoint n F G -> length d = n -> length u = n -> F (residual n A d u) = vecf n (fun i => vget (F d) i - vget (F (mul n A u)) i).
  Proof.
    intros HK HA Hd Hu. apply (dot_ext n); [apply HK, residual_length|apply vecf_length|]. intros e He. rewrite HA by (auto; apply residual_length). rewrite dot_residual.
    rewrite <- (HA d), <- (HA (mul n A u)) by (auto; apply vecf_length). unfold dot. rewrite <- sum_sub. apply sum_ext. intros i Hi. rewrite vecf_get by auto. ncring.
  Qed.
  Lemma dot_adjoint_res n F G A d u e : keeps n F -> adjoint n F G -> length d = n -> length u = n -> dot n (F (residual n A d u)) e = dot n (F d) e - dot n (F (mul n A u)) e.
  Proof. intros. rewrite (adjoint_linear n F G); auto. unfold dot. rewrite <- sum_sub. apply sum_ext. intros i Hi. rewrite vecf_get by auto. ncring. Qed.

  Section Level.
    Variables (n : nat) (A : smat R).
    Hypothesis SA : sym n A.
    (** one pre- and one postsmoothing step around B *)
    Definition wrap (s s' B : vec R -> vec R) (d : vec R) : vec R :=
      let u := s d in let w := vadd n u (B (residual n A d u)) in vadd n w (s' (residual n A d w)).
    Lemma wrap_dot s s' B : keeps n s -> keeps n B -> adjoint n s s' ->
      forall d e, length d = n -> length e = n -> dot n (wrap s s' B d) e = dot n (s d) e + dot n d (s e) - dot n (mul n A (s d)) (s e) + dot n (B (residual n A d (s d))) (residual n A e (s e)).
    Proof.
      intros K1 K3 HS d e Hd He. unfold wrap. cbv zeta. set (u := s d). set (p := residual n A d u). assert (Hu : length u = n) by (apply K1; auto). assert (Hp : length p = n) by apply residual_length.
      rewrite !dot_vadd. rewrite residual_add. fold p. set (c := B p). assert (Hc : length c = n) by (apply K3; auto).
      assert (A' : forall x, length x = n -> dot n (s' x) e = dot n x (s e)).
      { intros x Hx. rewrite dot_sym, <- HS by auto. apply dot_sym. }
      rewrite A' by apply residual_length. rewrite dot_residual, (dot_mul n A c) by auto. rewrite (dot_sym n c (residual n A e (s e))), dot_residual. rewrite (dot_sym n e c), (dot_sym n (mul n A (s e)) c).
      unfold p at 1. rewrite dot_residual. ncring.
    Qed.
    Lemma wrap_adjoint s s' B : keeps n s -> keeps n s' -> keeps n B -> adjoint n s s' -> adjoint n B B -> adjoint n (wrap s s' B) (wrap s s' B).
    Proof.
      intros K1 K2 K3 HS HB. pose proof (wrap_dot s s' B K1 K3 HS) as E.
      intros d e Hd He. rewrite E by auto. rewrite (dot_sym n d (wrap s s' B e)), E by auto.
      rewrite (dot_sym n (s d) e), (dot_sym n d (s e)). rewrite dot_mul by auto. rewrite (dot_sym n (s d)).
      rewrite HB by apply residual_length. rewrite (dot_sym n (residual n A d (s d))). ncring.
    Qed.
    Lemma wrap_keeps s s' B : keeps n (wrap s s' B).
    Proof. intros d Hd. apply vadd_length. Qed.
    Fixpoint wraps (k : nat) (s s' B : vec R -> vec R) : vec R -> vec R := match k with 0 => B | S k' => wrap s s' (wraps k' s s' B) end.
    Lemma wraps_adjoint s s' B k : keeps n s -> keeps n s' -> keeps n B -> adjoint n s s' -> adjoint n B B -> keeps n (wraps k s s' B) /\ adjoint n (wraps k s s' B) (wraps k s s' B).
    Proof. intros K1 K2 K3 HS HB. induction k as [|k [IH1 IH2]]; cbn [wraps]; auto. split; [apply wrap_keeps|]. apply wrap_adjoint; auto. Qed.
    Lemma relax_last sm k : forall d u, relax n A sm (S k) d u = vadd n (relax n A sm k d u) (sm (zerov n) (residual n A d (relax n A sm k d u))).
    Proof. induction k as [|k IH]; intros d u; [reflexivity|]. change (relax n A sm (S (S k)) d u) with (relax n A sm (S k) d (vadd n u (sm (zerov n) (residual n A d u)))). rewrite IH. reflexivity. Qed.
    Lemma cycle_wraps pre post B k : (forall d, length d = n -> length (pre (zerov n) d) = n) -> keeps n B -> forall d, length d = n ->
      let u := relax n A pre k d (zerov n) in
      relax n A post k d (vadd n u (B (residual n A d u))) = wraps k (pre (zerov n)) (post (zerov n)) B d.
    Proof.
      intros KP KB. cbv zeta. induction k as [|k IH]; intros d Hd; cbn [wraps].
      - cbn [relax]. rewrite residual_0 by auto. apply vadd_0_l. apply KB; auto.
      - rewrite relax_last. cbn [relax]. rewrite (residual_0 n A d) by auto. set (u1 := pre (zerov n) d). assert (H1 : length u1 = n) by (apply KP; auto).
        rewrite (vadd_0_l n u1) by auto. set (p := residual n A d u1).
        assert (E1 : relax n A pre k d u1 = vadd n u1 (relax n A pre k p (zerov n))).
        { rewrite <- (vadd_0_r n u1) at 1 by auto. apply relax_shift; auto. apply zerov_length. }
        rewrite E1. rewrite residual_add. fold p. rewrite <- vadd_assoc.
        rewrite (relax_shift n A post k d _ u1); auto; [|apply vadd_length]. fold p. rewrite (IH p) by apply residual_length. unfold wrap. cbv zeta. fold u1 p. reflexivity.
    Qed.
    (** repeated coarse correction *)
    Lemma correct_shift B k : forall r c c0, length c = n -> length c0 = n -> correct n A B k r (vadd n c0 c) = vadd n c0 (correct n A B k (residual n A r c0) c).
    Proof. induction k as [|k IH]; intros r c c0 Hc H0; cbn [correct]; auto. rewrite residual_add, <- vadd_assoc. apply IH; auto. apply vadd_length. Qed.
    Lemma correct_last B k : forall r c, correct n A B (S k) r c = vadd n (correct n A B k r c) (B (residual n A r (correct n A B k r c))).
    Proof. induction k as [|k IH]; intros r c; [reflexivity|]. change (correct n A B (S (S k)) r c) with (correct n A B (S k) r (vadd n c (B (residual n A r c)))). rewrite IH. reflexivity. Qed.
    Lemma correct_adjoint B k : keeps n B -> adjoint n B B -> adjoint n (fun r => correct n A B k r (zerov n)) (fun r => correct n A B k r (zerov n)).
    Proof.
      intros KB HB. induction k as [|k IH]; intros d e Hd He.
      - cbn [correct]. unfold dot. apply sum_ext. intros i Hi. rewrite zerov_get by auto. ncring.
      - set (T := fun r => correct n A B k r (zerov n)) in *. assert (KT : keeps n T) by (intros x Hx; apply correct_length, zerov_length).
        rewrite correct_last. change (correct n A B k d (zerov n)) with (T d). rewrite dot_vadd.
        cbn [correct]. rewrite (residual_0 n A e) by auto. assert (HBe : length (B e) = n) by auto. rewrite (vadd_0_l n (B e)) by auto.
        replace (correct n A B k e (B e)) with (vadd n (B e) (T (residual n A e (B e)))) by (rewrite <- (vadd_0_r n (B e)) at 3 by auto; symmetry; apply correct_shift; auto; apply zerov_length).
        rewrite (dot_sym n d), dot_vadd. rewrite (dot_sym n (T (residual n A e (B e)))).
        rewrite HB by (auto; apply residual_length). rewrite dot_residual, (dot_mul n A (T d)) by auto. 
        rewrite (dot_sym n d (T _)). rewrite (dot_adjoint_res n T T) by auto. rewrite (dot_sym n (B e) d).
        rewrite (IH d e Hd He). rewrite (IH d (mul n A (B e)) Hd (vecf_length n _)). rewrite (dot_sym n (T e) d), (dot_sym n (T (mul n A (B e))) d). ncring.
    Qed.
  End Level.
  Lemma dot_Pro damp agg n K c e : dot n (Pro damp agg n K c) e = dot K c (Rst agg n K e) * damp.
  Proof.
    unfold dot. rewrite <- sum_mul_r. rewrite (sum_ext n _ (fun i => sum K (fun k => prol agg i k * (vget c k * damp) * vget e i))) by (intros i Hi; unfold Pro; rewrite vecf_get by auto; rewrite sum_mul_r; auto).
    rewrite sum_swap. apply sum_ext. intros k Hk. unfold Rst. rewrite vecf_get by auto. rewrite <- sum_mul_l, <- sum_mul_r. apply sum_ext. intros i Hi.
    rewrite (comm (prol agg i k)). rewrite <- !rmul_assoc. f_equal. rewrite (comm damp). rewrite <- !rmul_assoc. reflexivity.
  Qed.

  (** With as many postsmoothing as presmoothing steps, symmetric operators, postsmoother adjoint to the presmoother and a symmetric coarse solve, AMG::apply and TwoLevelMethod::apply (from v = 0) are symmetric operators, for every gamma *)
  Fixpoint levels_sym (nc : nat) (ls : list (@level R)) : Prop :=
    match ls with
    | nil => True
    | l :: ls' => sym (length (l_A l)) (l_A l) /\ adjoint (length (l_A l)) (l_pre l (zerov (length (l_A l)))) (l_post l (zerov (length (l_A l)))) /\ levels_sym nc ls'
    end.
  Theorem C36_symmetric solve damp steps gamma nc ls :
    (forall b, length b = nc -> length (fst (fst (solve (zerov nc) b))) = nc) -> adjoint nc (fun b => fst (fst (solve (zerov nc) b))) (fun b => fst (fst (solve (zerov nc) b))) ->
    hier_ok nc ls -> levels_sym nc ls ->
    forall d e, length d = dim nc ls -> length e = dim nc ls ->
      dot (dim nc ls) (cycle solve damp steps steps gamma nc ls d) e = dot (dim nc ls) d (cycle solve damp steps steps gamma nc ls e).
  Proof.
    intros KS AS. induction ls as [|l ls IH]; intros HH HS; [exact AS|].
    cbn [hier_ok levels_sym] in HH, HS. destruct HH as [(HA & HG & P1 & P2) HH]. destruct HS as (SA & AD & HS). specialize (IH HH HS). cbn [dim].
    set (n := length (l_A l)) in *. set (K := dim nc ls) in *.
    set (CC := fun r => match ls with nil => match gamma with 0 => zerov K | _ => cycle solve damp steps steps gamma nc ls r end | l' :: _ => correct K (l_A l') (cycle solve damp steps steps gamma nc ls) gamma r (zerov K) end).
    assert (KCC : keeps K CC /\ adjoint K CC CC).
    { assert (Z : adjoint K (fun _ => zerov K) (fun _ => zerov K)). { intros a b _ _. unfold dot. apply sum_ext. intros i Hi. rewrite zerov_get by auto. ncring. }
      unfold CC. destruct ls as [|l1 ls1].
      - destruct gamma; [split; [intros a _; apply zerov_length|exact Z]|]. split; [exact KS|exact AS].
      - cbn [levels_sym] in HS. split; [intros a Ha; apply correct_length, zerov_length|]. apply correct_adjoint; auto; [apply HS|]. intros a Ha. cbn [cycle]. cbv zeta. apply relax_length, vadd_length. }
    destruct KCC as [KC AC].
    set (B := fun r => Pro damp (l_agg l) n K (CC (Rst (l_agg l) n K r))).
    assert (KB : keeps n B) by (intros a _; apply vecf_length).
    assert (AB : adjoint n B B).
    { intros a b Ha Hb. unfold B. rewrite dot_Pro. rewrite (dot_sym n a), dot_Pro. f_equal. rewrite AC by apply vecf_length. apply dot_sym. }
    assert (E : forall d, length d = n -> cycle solve damp steps steps gamma nc (l :: ls) d = wraps n (l_A l) steps (l_pre l (zerov n)) (l_post l (zerov n)) B d).
    { intros d Hd. rewrite <- cycle_wraps; auto. intros x Hx. apply P1; auto. apply zerov_length. }
    intros d e Hd He. rewrite !E by auto. apply wraps_adjoint; auto; intros x Hx; [apply P1|apply P2]; auto; apply zerov_length.
  Qed.
End Symmetric.

(** ** A concrete hierarchy: 4, 2 and 1 unknowns, Richardson smoothing, W-cycle *)
From Coq Require Import ZArith Sorted.
Definition exm4 : smat Zring := [[(0, 2%Z); (1, (-1)%Z)]; [(0, (-1)%Z); (1, 2%Z); (2, (-1)%Z)]; [(1, (-1)%Z); (2, 2%Z); (3, (-1)%Z)]; [(2, (-1)%Z); (3, 2%Z)]].
Definition exm2 : smat Zring := [[(0, 2%Z); (1, (-1)%Z)]; [(0, (-1)%Z); (1, 2%Z)]].
Definition exrich (x d : vec Zring) : vec Zring := d.
Definition exl4 : @level Zring := mklevel exm4 exrich exrich (fun i => Agg (i / 2)).
Definition exl2 : @level Zring := mklevel exm2 exrich exrich (fun i => Agg 0).
Definition exsolve (u b : vec Zring) : vec Zring * vec Zring * bool := (map (fun x => (3 * x)%Z) b, map (fun _ => 0%Z) b, true).
Definition exst : list (@lst Zring) := [mklst (R := Zring) [9%Z; 9%Z; 9%Z; 9%Z] [7%Z; 7%Z; 7%Z; 7%Z] [5%Z; 5%Z; 5%Z; 5%Z]; mklst (R := Zring) [1%Z; 1%Z] [2%Z; 2%Z] [3%Z; 3%Z]; mklst (R := Zring) [4%Z] [4%Z] [4%Z]].
Example C36_nonvacuous :
  hier_ok 1 [exl4; exl2] /\ shape 1 [exl4; exl2] exst /\ levels_sym 1 [exl4; exl2] /\
  (forall u b, length u = 1 -> length b = 1 -> length (fst (fst (exsolve u b))) = 1 /\ length (snd (fst (exsolve u b))) = 1) /\ (forall u b, snd (exsolve u b) = true) /\
  adjoint (R := Zring) 1 (fun b => fst (fst (exsolve (zerov 1) b))) (fun b => fst (fst (exsolve (zerov 1) b))) /\
  match amg_apply (R := Zring) exsolve 1%Z 1 1 2 [exl4; exl2] exst true [8%Z; 8%Z; 8%Z; 8%Z] [1%Z; 2%Z; 3%Z; 4%Z] with Ok (v, _, _) => Some v | _ => None end = Some (cycle (R := Zring) exsolve 1%Z 1 1 2 1 [exl4; exl2] [1%Z; 2%Z; 3%Z; 4%Z]).
Proof.
  assert (L4 : level_ok 2 exl4).
  { repeat split; auto; [repeat constructor; cbn; lia|]. intros i Hi. right. exists (i / 2). cbn in Hi. destruct i as [|[|[|[|i]]]]; cbn; try lia; split; auto; lia. }
  assert (L2 : level_ok 1 exl2).
  { repeat split; auto; [repeat constructor; cbn; lia|]. intros i Hi. right. exists 0. auto. }
  assert (SY : forall n A, sym (R := Zring) n A -> adjoint (R := Zring) n (exrich (zerov n)) (exrich (zerov n))) by (intros n A _ d e _ _; reflexivity).
  assert (S4 : sym (R := Zring) 4 exm4) by (intros [|[|[|[|i]]]] [|[|[|[|j]]]] Hi Hj; try lia; reflexivity).
  assert (S2 : sym (R := Zring) 2 exm2) by (intros [|[|i]] [|[|j]] Hi Hj; try lia; reflexivity).
  split; [split; [exact L4|split; [exact L2|exact I]]|]. split; [repeat split|]. split; [split; [exact S4|split; [apply (SY 4 exm4 S4)|split; [exact S2|split; [apply (SY 2 exm2 S2)|exact I]]]]|].
  split; [intros u b _ Hb; cbn; rewrite !map_length; auto|]. split; [reflexivity|]. split.
  - intros [|a [|]] [|b [|]] Ha Hb; try discriminate. unfold dot, vget. cbn [exsolve fst map]. cbn. destruct a, b; cbn; try reflexivity; f_equal; lia.
  - vm_compute. reflexivity.
Qed.
Print Assumptions C36_amg.
Print Assumptions C36_two_level.
Print Assumptions C36_symmetric.
Print Assumptions C36_sticky_flag_refuted.
