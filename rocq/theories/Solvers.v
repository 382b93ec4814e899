(** * Iterative solvers (dune/istl/solver.hh, solvers.hh): iteration control and residuals, C26, C27, C44 *)
From Coq Require Import Arith List Lia Bool ZArith QArith Qcanon.
From Verif Require Import Ring Sums RingInst Outcome.
Import ListNotations.
Open Scope nat_scope.

(** ** Solver categories (dune/istl/solvercategory.hh:22-29) *)
Inductive category := Sequential | Nonoverlapping | Overlapping.
Definition cat_eqb (a b : category) : bool := match a, b with Sequential, Sequential | Nonoverlapping, Nonoverlapping | Overlapping, Overlapping => true | _, _ => false end.
(** IterativeSolver(op, prec, ...), solver.hh:230-241 *)
Definition construct2 (op prec : category) : outcome category :=
  if negb (cat_eqb op Sequential) then Throw ECategory else if negb (cat_eqb prec Sequential) then Throw ECategory else Ok Sequential.
(** IterativeSolver(op, sp, prec, ...), solver.hh:261-273, and the shared_ptr constructor, :338-354 *)
Definition construct3 (op sp prec : category) : outcome category :=
  if negb (cat_eqb op prec) then Throw ECategory else if negb (cat_eqb op sp) then Throw ECategory else Ok op.
(** IterativeSolver(op, prec, config), solver.hh:291-297: delegates with a SeqScalarProduct *)
Definition construct_config (op prec : category) : outcome category := construct3 op Sequential prec.
Lemma cat_eqb_spec a b : cat_eqb a b = true <-> a = b.
Proof. destruct a, b; cbn; intuition discriminate. Qed.

Theorem C44_two_args op prec :
  (op = Sequential /\ prec = Sequential -> construct2 op prec = Ok Sequential) /\
  (~ (op = Sequential /\ prec = Sequential) -> construct2 op prec = Throw ECategory).
Proof. destruct op, prec; cbn; intuition congruence. Qed.
Theorem C44_three_args op sp prec :
  (op = sp /\ op = prec -> construct3 op sp prec = Ok op) /\ (~ (op = sp /\ op = prec) -> construct3 op sp prec = Throw ECategory).
Proof. destruct op, sp, prec; cbn; intuition congruence. Qed.
Theorem C44_config op prec :
  (op = Sequential /\ prec = Sequential -> construct_config op prec = Ok Sequential) /\
  (~ (op = Sequential /\ prec = Sequential) -> construct_config op prec = Throw ECategory).
Proof. destruct op, prec; cbn; intuition congruence. Qed.

(** ** Iteration control *)
Section Control.
  (** defect values (real_type): any type with a test for finiteness, <, the product with the reduction, and the constant 1e-30.  No
      laws are needed, so this covers floating point numbers. *)
  Variable D : Type.
  Variable finite : D -> bool.
  Variable lt_ : D -> D -> bool.
  Variable mul_ : D -> D -> D.
  Variable div_ : D -> D -> D.
  Variables zero_ tiny : D.
  Variable reduction : D.

  (** InverseOperatorResult (solver.hh:42-81), without the time; [r_converged] is also what the solvers look at *)
  Record result := mkRes { r_iterations : nat; r_converged : bool; r_reduction : D }.
  (** Iteration object, solver.hh:404-504; [i_log] are the (iteration, defect) pairs printed with verbose > 1 *)
  Record iter := mkIter { i_def0 : D; i_def : D; i_i : nat; i_conv : bool; i_log : list (nat * D) }.
  (** constructor, solver.hh:406-418 with the member initialisers :498-499 and res.clear() *)
  Definition iter0 : iter := mkIter zero_ zero_ 0 false nil.
  (** the stopping rule, solver.hh:477 *)
  Definition stop (d0 d : D) : bool := lt_ d (mul_ d0 reduction) || lt_ d tiny.
  (** step, solver.hh:453-479 *)
  Definition step (i : nat) (d : D) (it : iter) : outcome iter :=
    if negb (finite d) then Throw EAbort else
    let d0 := if i =? 0 then d else i_def0 it in
    Ok (mkIter d0 d i (stop d0 d) (i_log it ++ [(i, d)])).
  (** finalize, solver.hh:482-486, run by the destructor; [half] = 2 if the count is in half iterations (BiCGSTAB) *)
  Definition finalize (half : nat) (it : iter) : result := mkRes (i_i it / half) (stop (i_def0 it) (i_def it)) (div_ (i_def it) (i_def0 it)).

  (** The loop "for (i=1; i<=maxit; i++) { body; def=...; if (step(i,def)) break; after }" shared by LoopSolver, GradientSolver,
      CGSolver and MINRESSolver (solvers.hh:90-99, 163-180, 308-337, 681-760). *)
  Fixpoint iterate {S} (body : S -> outcome (S * D)) (after : S -> outcome S) (n i : nat) (s : S) (it : iter) : outcome (S * iter) :=
    match n with
    | O => Ok (s, it)
    | Datatypes.S n' =>
      obind (body s) (fun r => obind (step i (snd r) it) (fun it1 =>
        if i_conv it1 then Ok (fst r, it1) else obind (after (fst r)) (fun s2 => iterate body after n' (Datatypes.S i) s2 it1)))
    end.
  (** ... after "if (step(0,def)) return" *)
  Definition control {S} (body : S -> outcome (S * D)) (after : S -> outcome S) (maxit : nat) (s : S) (d0 : D) (prepare : S -> outcome S) : outcome (S * iter) :=
    obind (step 0 d0 iter0) (fun it => if i_conv it then Ok (s, it) else obind (prepare s) (fun s => iterate body after maxit 1 s it)).

  (** Specification: what a finished run reports.  [log] is the history of (iteration, defect), in half iterations if half = 2. *)
  Definition truthful (maxit half : nat) (log : list (nat * D)) (r : result) : Prop :=
    exists k ds, log = combine (seq 0 (Datatypes.S k)) ds /\ length ds = Datatypes.S k /\ k <= maxit /\
      (forall d, In d ds -> finite d = true) /\
      (forall j, j < k -> stop (nth 0 ds zero_) (nth j ds zero_) = false) /\
      r_iterations r = k / half /\ r_converged r = stop (nth 0 ds zero_) (nth k ds zero_) /\
      r_reduction r = div_ (nth k ds zero_) (nth 0 ds zero_) /\ (r_converged r = false -> k = maxit).

  Lemma combine_snoc {X} k (ds : list X) d : length ds = k -> combine (seq 0 k) ds ++ [(k, d)] = combine (seq 0 (Datatypes.S k)) (ds ++ [d]).
  Proof.
    intros <-. enough (G : forall a, combine (seq a (length ds)) ds ++ [(a + length ds, d)] = combine (seq a (Datatypes.S (length ds))) (ds ++ [d])) by apply (G 0).
    induction ds as [|x ds IH]; intros a; cbn; [rewrite Nat.add_0_r; auto|]. f_equal. replace (a + Datatypes.S (length ds)) with (Datatypes.S a + length ds) by lia. apply IH.
  Qed.
  (** k is the last iteration; [fin] = it met the rule or the iterations are used up *)
  Definition at_step (k : nat) (it : iter) : Prop :=
    exists ds, i_log it = combine (seq 0 (Datatypes.S k)) ds /\ length ds = Datatypes.S k /\ (forall d, In d ds -> finite d = true) /\
      (forall j, j < k -> stop (nth 0 ds zero_) (nth j ds zero_) = false) /\
      i_def0 it = nth 0 ds zero_ /\ i_def it = nth k ds zero_ /\ i_i it = k /\ i_conv it = stop (nth 0 ds zero_) (nth k ds zero_).
  Lemma step0 d it : step 0 d iter0 = Ok it -> at_step 0 it.
  Proof.
    unfold step. destruct (finite d) eqn:EF; [|discriminate]. cbn. intros H. injection H as <-. exists [d]. cbn. repeat (split; auto); try lia.
    intros x [<-|[]]; auto.
  Qed.
  Lemma step_at k d it it1 : at_step k it -> i_conv it = false -> step (Datatypes.S k) d it = Ok it1 -> at_step (Datatypes.S k) it1.
  Proof.
    intros [ds [L1 [L2 [L3 [L4 [L5 [L6 [L7 L8]]]]]]]] HC HS. unfold step in HS. destruct (finite d) eqn:EF; [|discriminate]. cbn [negb Nat.eqb] in HS. injection HS as <-.
    assert (N0 : nth 0 (ds ++ [d]) zero_ = i_def0 it) by (rewrite L5; apply app_nth1; lia).
    assert (Ni : nth (Datatypes.S k) (ds ++ [d]) zero_ = d) by (rewrite app_nth2 by lia; rewrite L2, Nat.sub_diag; auto).
    exists (ds ++ [d]). cbn [i_log i_def0 i_def i_i i_conv]. rewrite L1, combine_snoc by auto. split; auto.
    split; [rewrite app_length, L2; cbn; lia|]. split.
    { intros x Hx. apply in_app_iff in Hx. destruct Hx as [Hx|[<-|[]]]; auto. }
    split; [|rewrite N0, Ni; auto]. intros j Hj. rewrite !app_nth1 by lia. destruct (Nat.eq_dec j k); [subst; congruence|apply L4; lia].
  Qed.
  Lemma finalize_truthful maxit half k it : at_step k it -> k <= maxit -> (i_conv it = false -> k = maxit) -> truthful maxit half (i_log it) (finalize half it).
  Proof.
    intros [ds [L1 [L2 [L3 [L4 [L5 [L6 [L7 L8]]]]]]]] HK HC. exists k, ds. unfold finalize. cbn [r_iterations r_converged r_reduction]. rewrite L5, L6, L7.
    repeat (split; auto). rewrite <- L8. auto.
  Qed.
  Lemma iterate_spec {S} (body : S -> outcome (S * D)) after n : forall k s it s' it', at_step k it -> i_conv it = false -> iterate body after n (Datatypes.S k) s it = Ok (s', it') ->
    exists k', at_step k' it' /\ k' <= k + n /\ (i_conv it' = false -> k' = k + n).
  Proof.
    induction n as [|n IH]; intros k s it s' it' HA HC HI; cbn [iterate] in HI.
    - injection HI as <- <-. exists k. split; auto. lia.
    - destruct (body s) as [[s1 d]| |]; cbn [obind fst snd] in HI; try discriminate.
      destruct (step (Datatypes.S k) d it) as [it1| |] eqn:ES; cbn [obind] in HI; try discriminate.
      pose proof (step_at _ _ _ _ HA HC ES) as HA1. destruct (i_conv it1) eqn:EC.
      + injection HI as <- <-. exists (Datatypes.S k). split; auto. split; [lia|]. congruence.
      + destruct (after s1) as [s2| |]; cbn [obind] in HI; try discriminate. destruct (IH _ _ _ _ _ HA1 EC HI) as [k' [K1 [K2 K3]]].
        exists k'. split; auto. split; [lia|]. intros H. specialize (K3 H). lia.
  Qed.
  Theorem control_truthful {S} (body : S -> outcome (S * D)) after maxit s d0 prepare s' it' :
    control body after maxit s d0 prepare = Ok (s', it') -> truthful maxit 1 (i_log it') (finalize 1 it').
  Proof.
    unfold control. destruct (step 0 d0 iter0) as [it| |] eqn:ES; cbn [obind]; try discriminate. pose proof (step0 _ _ ES) as HA. destruct (i_conv it) eqn:EC.
    - intros H. injection H as <- <-. apply (finalize_truthful maxit 1 0); auto; [lia|congruence].
    - destruct (prepare s) as [s1| |]; cbn [obind]; try discriminate. intros H. destruct (iterate_spec _ _ _ _ _ _ _ _ HA EC H) as [k' [K1 [K2 K3]]].
      apply (finalize_truthful maxit 1 k'); auto.
  Qed.
  (** A defect that is not finite aborts the solver at once. *)
  Theorem step_aborts i d it : finite d = false <-> step i d it = Throw EAbort.
  Proof. unfold step. destruct (finite d); cbn; split; intros; congruence. Qed.
End Control.

(** apply(x,b,reduction,res) of the base class, solver.hh:374-380: the configured reduction is replaced for the call.  [run r] is the
    three-argument apply with reduction r; result: outcome and the reduction configured afterwards. *)
Definition apply4 {D A} (run : D -> outcome A) (saved red : D) : outcome A * D :=
  match run red with Ok a => (Ok a, saved) | o => (o, red) end.
Theorem C26_apply4 {D A} (run : D -> outcome A) saved red a :
  run red = Ok a -> apply4 run saved red = (Ok a, saved).
Proof. unfold apply4. intros ->. reflexivity. Qed.
(** If the solver aborts, the reduction passed to this call stays configured for later calls. *)
Theorem C26_apply4_restore_refuted {D A} (run : D -> outcome A) saved red : run red = Throw EAbort -> apply4 run saved red = (Throw EAbort, red).
Proof. unfold apply4. intros ->. reflexivity. Qed.

(** ** Vectors *)
(** A module over the field_type: what the solvers need of the vector class. *)
Record vspace (K : ring) := VSpace {
  vcar :> Type;
  vz : vcar; vadd : vcar -> vcar -> vcar; vscale : K -> vcar -> vcar;
  vadd_comm : forall a b, vadd a b = vadd b a;
  vadd_assoc : forall a b c, vadd a (vadd b c) = vadd (vadd a b) c;
  vadd_0 : forall a, vadd a vz = a;
  vscale_add_r : forall k a b, vscale k (vadd a b) = vadd (vscale k a) (vscale k b);
  vscale_add_l : forall k l a, vscale (radd k l) a = vadd (vscale k a) (vscale l a);
  vscale_mul : forall k l a, vscale (rmul k l) a = vscale k (vscale l a);
  vscale_1 : forall a, vscale r1 a = a;
  vscale_0 : forall a, vscale r0 a = vz }.
Arguments vz {_ _}. Arguments vadd {_ _}. Arguments vscale {_ _}.
Definition linear {K} {V : vspace K} (A : V -> V) : Prop :=
  (forall a b, A (vadd a b) = vadd (A a) (A b)) /\ (forall k a, A (vscale k a) = vscale k (A a)).
Definition vsub {K} {V : vspace K} (a b : V) : V := vadd a (vscale (ropp r1) b).

Section Vec.
  Context {K : ring} {V : vspace K}.
  Lemma vsub_add (a b c : V) : vsub a (vadd b c) = vsub (vsub a b) c.
  Proof. unfold vsub. rewrite vscale_add_r, vadd_assoc. reflexivity. Qed.
  Lemma vscale_neg k (a : V) : vscale (ropp k) a = vscale (ropp r1) (vscale k a).
  Proof. rewrite <- vscale_mul. f_equal. ncring. Qed.
  Lemma vsub_axpy (A : V -> V) (b x y : V) k : linear A -> vadd (vsub b (A x)) (vscale (ropp k) (A y)) = vsub b (A (vadd x (vscale k y))).
  Proof. intros [L1 L2]. unfold vsub. rewrite L1, L2, vscale_add_r, vadd_assoc, (vscale_neg k). reflexivity. Qed.
  Lemma vsub_apply (A : V -> V) (b x y : V) : linear A -> vsub (vsub b (A x)) (A y) = vsub b (A (vadd x y)).
  Proof. intros [L1 L2]. rewrite L1, vsub_add. reflexivity. Qed.
End Vec.

Section Solve.
  Context {K : ring} {V : vspace K}.
  Variable D : Type.
  Variables (finite : D -> bool) (lt_ : D -> D -> bool) (mul_ div_ : D -> D -> D) (zero_ tiny : D).
  Variable reduction : D.
  (** operator, scalar product, norm; division of scalars (no law assumed); def == 0; abs(.) <= EPSILON resp. < EPSILON *)
  Variable A : V -> V.
  Variable dot : V -> V -> K.
  Variable nrm : V -> D.
  Variable kdiv : K -> K -> K.
  Variable is0 : D -> bool.
  Variables small small' : K -> bool.
  (** Preconditioner: any object with state P; pre may change x and b, post may change x, apply is given v and d. *)
  Variable P : Type.
  Variable pre : P -> V -> V -> P * V * V.
  Variable papply : P -> V -> V -> P * V.
  Variable post : P -> V -> P * V.

  Local Notation iter := (iter D).
  Local Notation stepf := (step D finite lt_ mul_ tiny reduction).
  Local Notation controlf := (control D finite lt_ mul_ zero_ tiny reduction).
  Local Notation iteratef := (iterate D finite lt_ mul_ tiny reduction).
  Local Notation finalizef := (finalize D lt_ mul_ div_ tiny reduction).
  (** Result of apply: preconditioner state, x, b, InverseOperatorResult, printed history *)
  Notation answer := (P * V * V * result D * list (nat * D))%type.
  (** the prologue shared by the solvers: pre(x,b); b -= A x; def = norm(b) ..., and the epilogue: post(x) and ~Iteration *)
  Definition finish (half : nat) (p : P) (x b : V) (it : iter) : answer :=
    let '(p', x') := post p x in (p', x', b, finalizef half it, i_log D it).

  (** LoopSolver::apply, solvers.hh:73-103 *)
  Definition loop_body (s : P * V * V) : outcome (P * V * V * D) :=
    let '(p, x, b) := s in
    let '(p', v) := papply p vz b in
    let b' := vsub b (A v) in Ok (p', vadd x v, b', nrm b').
  Definition loop_apply (maxit : nat) (p : P) (x b : V) : outcome answer :=
    let '(p1, x1, b1) := pre p x b in
    let b2 := vsub b1 (A x1) in
    obind (controlf loop_body (fun s => Ok s) maxit (p1, x1, b2) (nrm b2) (fun s => Ok s))
      (fun r => let '(p, x, b, it) := r in Ok (finish 1 p x b it)).

  (** GradientSolver::apply, solvers.hh:139-184 (state: also the current defect) *)
  Definition grad_body (s : P * V * V * D) : outcome (P * V * V * D * D) :=
    let '(p, x, b, def) := s in
    let '(p', c) := papply p vz b in
    let q := A c in
    let lambda := if is0 def then r0 else kdiv (dot c b) (dot q c) in
    let b' := vadd b (vscale (ropp lambda) q) in
    Ok (p', vadd x (vscale lambda c), b', nrm b', nrm b').
  Definition grad_apply (maxit : nat) (p : P) (x b : V) : outcome answer :=
    let '(p1, x1, b1) := pre p x b in
    let b2 := vsub b1 (A x1) in
    obind (controlf grad_body (fun s => Ok s) maxit (p1, x1, b2, nrm b2) (nrm b2) (fun s => Ok s))
      (fun r => let '(p, x, b, _, it) := r in Ok (finish 1 p x b it)).

  (** CGSolver::apply, solvers.hh:279-342 (without the condition estimate); state: p, rholast *)
  Definition cgst := (P * V * V * D * V * K)%type.
  Definition cg_prepare (s : cgst) : outcome cgst :=
    let '(p, x, b, def, _, _) := s in
    let '(p', d) := papply p vz b in Ok (p', x, b, def, d, dot d b).
  Definition cg_body (s : cgst) : outcome (cgst * D) :=
    let '(p, x, b, def, d, rholast) := s in
    let q := A d in
    let lambda := if is0 def then r0 else kdiv rholast (dot d q) in
    let b' := vadd b (vscale (ropp lambda) q) in
    Ok (p, vadd x (vscale lambda d), b', nrm b', d, rholast, nrm b').
  Definition cg_after (s : cgst) : outcome cgst :=
    let '(p, x, b, def, d, rholast) := s in
    let '(p', q) := papply p vz b in
    let rho := dot q b in
    let beta := if is0 def then r0 else kdiv rho rholast in
    Ok (p', x, b, def, vadd (vscale beta d) q, rho).
  (** CGSolver::apply, solvers.hh:279-342 *)
  Definition cg_apply (maxit : nat) (p : P) (x b : V) : outcome answer :=
    let '(p1, x1, b1) := pre p x b in
    let b2 := vsub b1 (A x1) in
    obind (controlf cg_body cg_after maxit (p1, x1, b2, nrm b2, vz, r0) (nrm b2) cg_prepare)
      (fun r => let '(p, x, b, _, _, _, it) := r in Ok (finish 1 p x b it)).

  (** BiCGSTABSolver::apply, solvers.hh:415-571; the iteration count "it" in halves: 2k+1 and 2k+2 in the k-th pass *)
  Fixpoint bicg (rt : V) (n k : nat) (p : P) (x r d v : V) (rho alpha omega : K) (norm : D) (it : iter) : outcome (P * V * V * iter) :=
    match n with
    | O => Ok (p, x, r, it)
    | S n' =>
      let rho_new := dot rt r in
      if small rho then Throw EAbort else if small omega then Throw EAbort else
      let d1 := if k =? 0 then r else
                let beta := if is0 norm then r0 else rmul (kdiv rho_new rho) (kdiv alpha omega) in
                vadd (vscale beta (vadd d (vscale (ropp omega) v))) r in
      let '(p1, y) := papply p vz d1 in
      let v1 := A y in
      let h := dot rt v1 in
      if small' h then Throw EAbort else
      let alpha1 := if is0 norm then r0 else kdiv rho_new h in
      let x1 := vadd x (vscale alpha1 y) in
      let r1' := vadd r (vscale (ropp alpha1) v1) in
      let norm1 := nrm r1' in
      obind (stepf (2 * k + 1) norm1 it) (fun it1 =>
      if i_conv D it1 then Ok (p1, x1, r1', it1) else
      let '(p2, y2) := papply p1 vz r1' in
      let t := A y2 in
      let omega1 := if is0 norm1 then r0 else kdiv (dot t r1') (dot t t) in
      let x2 := vadd x1 (vscale omega1 y2) in
      let r2 := vadd r1' (vscale (ropp omega1) t) in
      let norm2 := nrm r2 in
      obind (stepf (2 * k + 2) norm2 it1) (fun it2 =>
      if i_conv D it2 then Ok (p2, x2, r2, it2) else bicg rt n' (S k) p2 x2 r2 d1 v1 rho_new alpha1 omega1 norm2 it2))
    end.
  (** BiCGSTABSolver::apply, solvers.hh:439-589 *)
  Definition bicgstab_apply (maxit : nat) (p : P) (x b : V) : outcome answer :=
    let '(p1, x1, b1) := pre p x b in
    let r := vsub b1 (A x1) in
    obind (stepf 0 (nrm r) (iter0 D zero_)) (fun it =>
    if i_conv D it then Ok (finish 2 p1 x1 r it) else
    obind (bicg r maxit 0 p1 x1 r vz vz r1 r1 r1 (nrm r) it) (fun s => let '(p, x, r, it) := s in Ok (finish 2 p x r it))).

  (** MINRESSolver::apply, solvers.hh:628-772.  The arrays p, q (three vectors), c, s, T, xi are lists indexed as in the code; [ksqrt],
      [kabs] and [givens] (generateGivensRotation) are arbitrary functions here; real_type and field_type are identified. *)
  Variable ksqrt : K -> K.
  Variable kabs : K -> D.
  Variable givens : K -> K -> K * K.
  Record mst := mkM { m_p : P; m_x : V; m_b : V; m_z : V; m_beta : K; m_beta0 : K; m_def : D; m_dir : list V; m_q : list V;
                      m_c : list K; m_s : list K; m_T : list K; m_xi : list K; m_i : nat }.
  Definition vnth (i : nat) (l : list V) : V := nth i l vz.
  Definition knth (i : nat) (l : list K) : K := nth i l r0.
  (** solvers.hh:656-685: what is done between step(0,def) and the loop *)
  Definition minres_prepare (s : mst) : outcome mst :=
    let beta := ksqrt (dot (m_b s) (m_z s)) in
    let f := if is0 (m_def s) then r0 else kdiv r1 beta in
    Ok (mkM (m_p s) (m_x s) (m_b s) (vscale f (m_z s)) beta beta (m_def s) [vz; vz; vz] [vz; vscale f (m_b s); vz] [r0; r0] [r0; r0] [r0; r0; r0] [r1; r0] 1).
  (** solvers.hh:689-756 *)
  Definition minres_body (s : mst) : outcome (mst * D) :=
    let i := m_i s in
    let i1 := i mod 3 in let i0 := (i1 + 2) mod 3 in let i2 := (i1 + 1) mod 3 in
    let q1 := vadd (A (m_z s)) (vscale (ropp (m_beta s)) (vnth i0 (m_q s))) in
    let alpha := dot (m_z s) q1 in
    let q2 := vadd q1 (vscale (ropp alpha) (vnth i1 (m_q s))) in
    let '(p', z1) := papply (m_p s) vz q2 in
    let beta := ksqrt (dot q2 z1) in
    let f := if is0 (m_def s) then r0 else kdiv r1 beta in
    let T1 := knth 2 (m_T s) in
    let '(T0', T1') := if 2 <? i then (rmul (knth (i mod 2) (m_s s)) T1, rmul (knth (i mod 2) (m_c s)) T1) else (knth 0 (m_T s), T1) in
    let cc := knth ((i + 1) mod 2) (m_c s) in let ss := knth ((i + 1) mod 2) (m_s s) in
    let '(T1'', T2) := if 1 <? i then (radd (rmul cc T1') (rmul ss alpha), radd (rmul cc alpha) (ropp (rmul ss T1'))) else (T1', alpha) in
    let '(cs, sn) := givens T2 beta in
    let T2' := radd (rmul cs T2) (rmul sn beta) in
    let xi1 := upd (m_xi s) (i mod 2) (ropp (rmul sn (knth ((i + 1) mod 2) (m_xi s)))) in
    let xi2 := upd xi1 ((i + 1) mod 2) (rmul (knth ((i + 1) mod 2) xi1) cs) in
    let d := vscale (kdiv r1 T2') (vadd (vadd (m_z s) (vscale (ropp T1'') (vnth i1 (m_dir s)))) (vscale (ropp T0') (vnth i0 (m_dir s)))) in
    let def := kabs (rmul (m_beta0 s) (knth (i mod 2) xi2)) in
    Ok (mkM p' (vadd (m_x s) (vscale (rmul (m_beta0 s) (knth ((i + 1) mod 2) xi2)) d)) (m_b s) (vscale f z1) beta (m_beta0 s) def
          (upd (m_dir s) i2 d) (upd (m_q s) i2 (vscale f q2)) (upd (m_c s) (i mod 2) cs) (upd (m_s s) (i mod 2) sn) [T0'; T1''; beta] xi2 (S i), def).
  (** MINRESSolver::apply, solvers.hh:627-770 *)
  Definition minres_apply (maxit : nat) (p : P) (x b : V) : outcome answer :=
    let '(p1, x1, b1) := pre p x b in
    let b2 := vsub b1 (A x1) in
    let '(p2, z) := papply p1 vz b2 in
    obind (controlf minres_body (fun s => Ok s) maxit (mkM p2 x1 b2 z r0 r0 (nrm z) nil nil nil nil nil nil 0) (nrm z) minres_prepare)
      (fun r => Ok (finish 1 (m_p (fst r)) (m_x (fst r)) (m_b (fst r)) (snd r))).

  (** ** C26 *)
  Notation truthfulf := (truthful D finite lt_ mul_ div_ zero_ tiny reduction).
  Lemma finish_eq half p x b it p' x' b' res log : finish half p x b it = (p', x', b', res, log) ->
    post p x = (p', x') /\ b = b' /\ finalizef half it = res /\ i_log D it = log.
  Proof. unfold finish. destruct (post p x). intros H. injection H as -> -> -> -> ->. auto. Qed.
  Theorem C26_loop maxit p x b p' x' b' res log : loop_apply maxit p x b = Ok (p', x', b', res, log) -> truthfulf maxit 1 log res.
  Proof.
    unfold loop_apply. destruct (pre p x b) as [[p1 x1] b1]. destruct (controlf _ _ _ _ _ _) as [[[[p2 x2] b2] it]| |] eqn:EC; cbn [obind]; try discriminate.
    intros H. injection H as H. apply finish_eq in H. destruct H as [_ [_ [<- <-]]]. eapply control_truthful; eauto.
  Qed.
  Theorem C26_gradient maxit p x b p' x' b' res log : grad_apply maxit p x b = Ok (p', x', b', res, log) -> truthfulf maxit 1 log res.
  Proof.
    unfold grad_apply. destruct (pre p x b) as [[p1 x1] b1]. destruct (controlf _ _ _ _ _ _) as [[[[[p2 x2] b2] d2] it]| |] eqn:EC; cbn [obind]; try discriminate.
    intros H. injection H as H. apply finish_eq in H. destruct H as [_ [_ [<- <-]]]. eapply control_truthful; eauto.
  Qed.
  Theorem C26_cg maxit p x b p' x' b' res log : cg_apply maxit p x b = Ok (p', x', b', res, log) -> truthfulf maxit 1 log res.
  Proof.
    unfold cg_apply. destruct (pre p x b) as [[p1 x1] b1]. destruct (controlf _ _ _ _ _ _) as [[[[[[[p2 x2] b2] d2] e2] f2] it]| |] eqn:EC; cbn [obind]; try discriminate.
    intros H. injection H as H. apply finish_eq in H. destruct H as [_ [_ [<- <-]]]. eapply control_truthful; eauto.
  Qed.
  Theorem C26_minres maxit p x b p' x' b' res log : minres_apply maxit p x b = Ok (p', x', b', res, log) -> truthfulf maxit 1 log res.
  Proof.
    unfold minres_apply. destruct (pre p x b) as [[p1 x1] b1]. destruct (papply p1 vz _) as [p2 z]. destruct (controlf _ _ _ _ _ _) as [[s it]| |] eqn:EC; cbn [obind fst snd]; try discriminate.
    intros H. injection H as H. apply finish_eq in H. destruct H as [_ [_ [<- <-]]]. eapply control_truthful; eauto.
  Qed.
  Notation at_stepf := (at_step D finite lt_ mul_ zero_ tiny reduction).
  Lemma bicg_spec rt n : forall k p x r d v rho alpha omega norm it p' x' r' it', at_stepf (2 * k) it -> i_conv D it = false ->
    bicg rt n k p x r d v rho alpha omega norm it = Ok (p', x', r', it') ->
    exists h, at_stepf h it' /\ h <= 2 * (k + n) /\ (i_conv D it' = false -> h = 2 * (k + n)).
  Proof.
    induction n as [|n IH]; intros k p x r d v rho alpha omega norm it p' x' r' it' HA HC HB.
    - cbn in HB. injection HB as _ _ _ <-. exists (2 * k). split; auto. lia.
    - cbn [bicg] in HB. destruct (small rho); [discriminate|]. destruct (small omega); [discriminate|].
      destruct (papply p vz _) as [p1 y]. destruct (small' _); [discriminate|].
      destruct (stepf (2 * k + 1) _ it) as [it1| |] eqn:E1; cbn [obind] in HB; try discriminate.
      replace (2 * k + 1) with (S (2 * k)) in E1 by lia. pose proof (step_at _ _ _ _ _ _ _ _ _ _ _ HA HC E1) as HA1.
      destruct (i_conv D it1) eqn:C1.
      { injection HB as _ _ _ <-. exists (S (2 * k)). split; auto. split; [lia|congruence]. }
      destruct (papply p1 vz _) as [p2 y2]. destruct (stepf (2 * k + 2) _ it1) as [it2| |] eqn:E2; cbn [obind] in HB; try discriminate.
      replace (2 * k + 2) with (S (S (2 * k))) in E2 by lia. pose proof (step_at _ _ _ _ _ _ _ _ _ _ _ HA1 C1 E2) as HA2.
      destruct (i_conv D it2) eqn:C2.
      { injection HB as _ _ _ <-. exists (S (S (2 * k))). split; auto. split; [lia|congruence]. }
      replace (S (S (2 * k))) with (2 * S k) in HA2 by lia. destruct (IH _ _ _ _ _ _ _ _ _ _ _ _ _ _ _ HA2 C2 HB) as [h [H1 [H2 H3]]].
      exists h. split; auto. split; [lia|]. intros H. specialize (H3 H). lia.
  Qed.
  (** BiCGSTAB reports half iterations: the history has up to 2*maxit steps and res.iterations is half of it, rounded down. *)
  Theorem C26_bicgstab maxit p x b p' x' b' res log : bicgstab_apply maxit p x b = Ok (p', x', b', res, log) -> truthfulf (2 * maxit) 2 log res.
  Proof.
    unfold bicgstab_apply. destruct (pre p x b) as [[p1 x1] b1]. destruct (stepf 0 _ _) as [it| |] eqn:ES; cbn [obind]; try discriminate.
    pose proof (step0 _ _ _ _ _ _ _ _ _ ES) as HA. destruct (i_conv D it) eqn:EC.
    - intros H. injection H as H. apply finish_eq in H. destruct H as [_ [_ [<- <-]]]. apply (finalize_truthful _ _ _ _ _ _ _ _ _ _ 0); auto; [lia|congruence].
    - destruct (bicg _ _ _ _ _ _ _ _ _ _ _ _ _) as [[[[p2 x2] r2] it2]| |] eqn:EB; cbn [obind]; try discriminate.
      intros H. injection H as H. apply finish_eq in H. destruct H as [_ [_ [<- <-]]].
      destruct (bicg_spec _ _ 0 _ _ _ _ _ _ _ _ _ _ _ _ _ _ HA EC EB) as [h [H1 [H2 H3]]]. apply (finalize_truthful _ _ _ _ _ _ _ _ _ _ h); auto.
  Qed.

  (** ** C27 *)
  (** invariants through the control loop: Inv holds, and the last printed defect is N of the state *)
  Definition last_def (it : iter) : option D := option_map snd (hd_error (rev (i_log D it))).
  Lemma step_last i d it it1 : stepf i d it = Ok it1 -> last_def it1 = Some d.
  Proof. unfold step. destruct (finite d); cbn [negb]; try discriminate. intros H. injection H as <-. unfold last_def. cbn [i_log]. rewrite rev_app_distr. reflexivity. Qed.
  Lemma iterate_inv {S} (Inv : S -> Prop) (N : S -> D) (body : S -> outcome (S * D)) after n :
    (forall s s1 d, Inv s -> body s = Ok (s1, d) -> Inv s1 /\ d = N s1) -> (forall s s1, Inv s -> after s = Ok s1 -> Inv s1 /\ N s1 = N s) ->
    forall i s it s' it', Inv s -> last_def it = Some (N s) -> iteratef body after n i s it = Ok (s', it') -> Inv s' /\ last_def it' = Some (N s').
  Proof.
    intros HB HA. induction n as [|n IH]; intros i s it s' it' HI HL H; cbn [iterate] in H.
    - injection H as <- <-. auto.
    - destruct (body s) as [[s1 d]| |] eqn:EB; cbn [obind fst snd] in H; try discriminate. destruct (HB _ _ _ HI EB) as [I1 ->].
      destruct (stepf i _ it) as [it1| |] eqn:ES; cbn [obind] in H; try discriminate. pose proof (step_last _ _ _ _ ES) as L1.
      destruct (i_conv D it1). { injection H as <- <-. auto. }
      destruct (after s1) as [s2| |] eqn:EA; cbn [obind] in H; try discriminate. destruct (HA _ _ I1 EA) as [I2 E2].
      apply (IH _ _ _ _ _ I2) in H; auto. congruence.
  Qed.
  Lemma control_inv {S} (Inv : S -> Prop) (N : S -> D) (body : S -> outcome (S * D)) after prepare maxit s s' it' :
    (forall s s1 d, Inv s -> body s = Ok (s1, d) -> Inv s1 /\ d = N s1) -> (forall s s1, Inv s -> after s = Ok s1 -> Inv s1 /\ N s1 = N s) ->
    (forall s s1, Inv s -> prepare s = Ok s1 -> Inv s1 /\ N s1 = N s) ->
    Inv s -> controlf body after maxit s (N s) prepare = Ok (s', it') -> Inv s' /\ last_def it' = Some (N s').
  Proof.
    intros HB HA HP HI. unfold control. destruct (stepf 0 _ _) as [it| |] eqn:ES; cbn [obind]; try discriminate. pose proof (step_last _ _ _ _ ES) as L1.
    destruct (i_conv D it). { intros H. injection H as <- <-. auto. }
    destruct (prepare s) as [s1| |] eqn:EP; cbn [obind]; try discriminate. destruct (HP _ _ HI EP) as [I1 E1]. intros H.
    eapply iterate_inv in H; eauto. congruence.
  Qed.
  Lemma iterate_inv' {S} (Inv : S -> Prop) (body : S -> outcome (S * D)) after n :
    (forall s s1 d, Inv s -> body s = Ok (s1, d) -> Inv s1) -> (forall s s1, Inv s -> after s = Ok s1 -> Inv s1) ->
    forall i s it s' it', Inv s -> iteratef body after n i s it = Ok (s', it') -> Inv s'.
  Proof.
    intros HB HA. induction n as [|n IH]; intros i s it s' it' HI H; cbn [iterate] in H.
    - injection H as <- <-. auto.
    - destruct (body s) as [[s1 d]| |] eqn:EB; cbn [obind fst snd] in H; try discriminate. pose proof (HB _ _ _ HI EB) as I1.
      destruct (stepf i _ it) as [it1| |] eqn:ES; cbn [obind] in H; try discriminate.
      destruct (i_conv D it1). { injection H as <- <-. auto. }
      destruct (after s1) as [s2| |] eqn:EA; cbn [obind] in H; try discriminate. pose proof (HA _ _ I1 EA) as I2. apply (IH _ _ _ _ _ I2) in H; auto.
  Qed.
  Lemma control_inv' {S} (Inv : S -> Prop) (body : S -> outcome (S * D)) after prepare maxit s d0 s' it' :
    (forall s s1 d, Inv s -> body s = Ok (s1, d) -> Inv s1) -> (forall s s1, Inv s -> after s = Ok s1 -> Inv s1) ->
    (forall s s1, Inv s -> prepare s = Ok s1 -> Inv s1) ->
    Inv s -> controlf body after maxit s d0 prepare = Ok (s', it') -> Inv s'.
  Proof.
    intros HB HA HP HI. unfold control. destruct (stepf 0 _ _) as [it| |] eqn:ES; cbn [obind]; try discriminate.
    destruct (i_conv D it). { intros H. injection H as <- <-. auto. }
    destruct (prepare s) as [s1| |] eqn:EP; cbn [obind]; try discriminate. intros H. eapply iterate_inv' in H; eauto.
  Qed.
  Definition last_defect (log : list (nat * D)) : option D := option_map snd (hd_error (rev log)).
  (** b' is the residual of x (before post), and the last defect is its norm *)
  Definition true_residual (p0 : P) (x0 b0 : V) (p' : P) (x' b' : V) (log : list (nat * D)) : Prop :=
    exists p1 x1 b1 p2 x2, pre p0 x0 b0 = (p1, x1, b1) /\ post p2 x2 = (p', x') /\ b' = vsub b1 (A x2) /\ last_defect log = Some (nrm b').

  Theorem C27_loop maxit p x b p' x' b' res log : linear A -> loop_apply maxit p x b = Ok (p', x', b', res, log) -> true_residual p x b p' x' b' log.
  Proof.
    intros LA. unfold loop_apply. destruct (pre p x b) as [[p1 x1] b1] eqn:EP. destruct (controlf _ _ _ _ _ _) as [[[[p2 x2] b2] it]| |] eqn:EC; cbn [obind]; try discriminate.
    intros H. injection H as H. apply finish_eq in H. destruct H as [H1 [<- [_ <-]]].
    apply (control_inv (fun s => let '(_, x, b) := s in b = vsub b1 (A x)) (fun s => nrm (snd s))) in EC; auto.
    - destruct EC as [E1 E2]. cbn [snd] in E2. exists p1, x1, b1, p2, x2. rewrite EP. auto.
    - intros [[q y] c] s1 d HI HB. unfold loop_body in HB. destruct (papply q vz c) as [q' v]. injection HB as <- <-. cbn [snd]. split; auto. subst c.
      apply vsub_apply; auto.
    - intros s s1 HI HB. injection HB as <-. auto.
    - intros s s1 HI HB. injection HB as <-. auto.
  Qed.
  Theorem C27_gradient maxit p x b p' x' b' res log : linear A -> grad_apply maxit p x b = Ok (p', x', b', res, log) -> true_residual p x b p' x' b' log.
  Proof.
    intros LA. unfold grad_apply. destruct (pre p x b) as [[p1 x1] b1] eqn:EP. destruct (controlf _ _ _ _ _ _) as [[[[[p2 x2] b2] d2] it]| |] eqn:EC; cbn [obind]; try discriminate.
    intros H. injection H as H. apply finish_eq in H. destruct H as [H1 [<- [_ <-]]].
    apply (control_inv (fun s => let '(_, x, b, _) := s in b = vsub b1 (A x)) (fun s => let '(_, _, b, _) := s in nrm b)) in EC; auto.
    - destruct EC as [E1 E2]. exists p1, x1, b1, p2, x2. rewrite EP. auto.
    - intros [[[q y] c] e] s1 d HI HB. unfold grad_body in HB. destruct (papply q vz c) as [q' v]. injection HB as <- <-. split; auto. subst c.
      apply vsub_axpy; auto.
    - intros s s1 HI HB. injection HB as <-. auto.
    - intros s s1 HI HB. injection HB as <-. auto.
  Qed.
  Theorem C27_cg maxit p x b p' x' b' res log : linear A -> cg_apply maxit p x b = Ok (p', x', b', res, log) -> true_residual p x b p' x' b' log.
  Proof.
    intros LA. unfold cg_apply. destruct (pre p x b) as [[p1 x1] b1] eqn:EP. destruct (controlf _ _ _ _ _ _) as [[[[[[[p2 x2] b2] d2] e2] f2] it]| |] eqn:EC; cbn [obind]; try discriminate.
    intros H. injection H as H. apply finish_eq in H. destruct H as [H1 [<- [_ <-]]].
    apply (control_inv (fun s : cgst => let '(_, x, b, _, _, _) := s in b = vsub b1 (A x)) (fun s : cgst => let '(_, _, b, _, _, _) := s in nrm b)) in EC; auto.
    - destruct EC as [E1 E2]. exists p1, x1, b1, p2, x2. rewrite EP. auto.
    - intros [[[[[q y] c] e] dd] rl] s1 d HI HB. unfold cg_body in HB. injection HB as <- <-. split; auto. subst c. apply vsub_axpy; auto.
    - intros [[[[[q y] c] e] dd] rl] s1 HI HB. unfold cg_after in HB. destruct (papply q vz c). injection HB as <-. auto.
    - intros [[[[[q y] c] e] dd] rl] s1 HI HB. unfold cg_prepare in HB. destruct (papply q vz c). injection HB as <-. auto.
  Qed.
  Lemma bicg_inv b1 rt n : linear A -> forall k p x r d v rho alpha omega norm it p' x' r' it', r = vsub b1 (A x) -> last_def it = Some (nrm r) ->
    bicg rt n k p x r d v rho alpha omega norm it = Ok (p', x', r', it') -> r' = vsub b1 (A x') /\ last_def it' = Some (nrm r').
  Proof.
    intros LA. induction n as [|n IH]; intros k p x r d v rho alpha omega norm it p' x' r' it' HR HL HB.
    - cbn in HB. injection HB as <- <- <- <-. auto.
    - cbn [bicg] in HB. destruct (small rho); [discriminate|]. destruct (small omega); [discriminate|].
      destruct (papply p vz _) as [p1 y]. destruct (small' _); [discriminate|].
      destruct (stepf (2 * k + 1) _ it) as [it1| |] eqn:E1; cbn [obind] in HB; try discriminate. apply step_last in E1.
      match type of E1 with last_def _ = Some (nrm ?z1) => set (r1' := z1) in * end.
      assert (R1 : r1' = vsub b1 (A (vadd x (vscale (if is0 norm then r0 else kdiv (dot rt r) (dot rt (A y))) y)))).
      { unfold r1'. rewrite HR at 1. apply vsub_axpy; auto. }
      destruct (i_conv D it1) eqn:C1.
      { injection HB as <- <- <- <-. auto. }
      destruct (papply p1 vz _) as [p2 y2]. destruct (stepf (2 * k + 2) _ it1) as [it2| |] eqn:E2; cbn [obind] in HB; try discriminate. apply step_last in E2.
      match type of E2 with last_def _ = Some (nrm ?z2) => set (r2' := z2) in * end.
      assert (R2 : r2' = vsub b1 (A (vadd (vadd x (vscale (if is0 norm then r0 else kdiv (dot rt r) (dot rt (A y))) y)) (vscale (if is0 (nrm r1') then r0 else kdiv (dot (A y2) r1') (dot (A y2) (A y2))) y2)))).
      { unfold r2'. rewrite R1 at 1. apply vsub_axpy; auto. }
      destruct (i_conv D it2) eqn:C2.
      { injection HB as <- <- <- <-. auto. }
      apply IH in HB; auto.
  Qed.
  Theorem C27_bicgstab maxit p x b p' x' b' res log : linear A -> bicgstab_apply maxit p x b = Ok (p', x', b', res, log) -> true_residual p x b p' x' b' log.
  Proof.
    intros LA. unfold bicgstab_apply. destruct (pre p x b) as [[p1 x1] b1] eqn:EP. destruct (stepf 0 _ _) as [it| |] eqn:ES; cbn [obind]; try discriminate.
    apply step_last in ES. destruct (i_conv D it) eqn:EC.
    - intros H. injection H as H. apply finish_eq in H. destruct H as [H1 [<- [_ <-]]]. exists p1, x1, b1, p1, x1. rewrite EP. auto.
    - destruct (bicg _ _ _ _ _ _ _ _ _ _ _ _ _) as [[[[p2 x2] r2] it2]| |] eqn:EB; cbn [obind]; try discriminate.
      intros H. injection H as H. apply finish_eq in H. destruct H as [H1 [<- [_ <-]]]. apply (bicg_inv b1) in EB; auto. destruct EB as [E1 E2].
      exists p1, x1, b1, p2, x2. rewrite EP. auto.
  Qed.
  (** MINRESSolver is different: the rhs vector it leaves is the residual of the iterate it started from, whatever it did. *)
  Theorem C27_minres maxit p x b p1 x1 b1 p' x' b' res log : pre p x b = (p1, x1, b1) ->
    minres_apply maxit p x b = Ok (p', x', b', res, log) -> b' = vsub b1 (A x1).
  Proof.
    intros EP. unfold minres_apply. rewrite EP. destruct (papply p1 vz _) as [p2 z].
    match goal with |- obind ?c _ = _ -> _ => destruct c as [[s it]| |] eqn:EC end; cbn [obind fst snd]; try discriminate.
    intros H. injection H as H. apply finish_eq in H. destruct H as [_ [<- [_ _]]].
    set (b2 := vsub b1 (A x1)) in *.
    apply (control_inv' (fun s => m_b s = b2)) in EC; auto.
    - intros s0 s1 d HI HB. unfold minres_body in HB. destruct (papply _ vz _) as [q z']. destruct (if 2 <? _ then _ else _). destruct (if 1 <? _ then _ else _).
      destruct (givens _ _). injection HB as <- <-. auto.
    - intros s0 s1 HI HB. injection HB as <-. auto.
    - intros s0 s1 HI HB. unfold minres_prepare in HB. injection HB as <-. auto.
  Qed.
End Solve.

(** ** The hypotheses are met: concrete runs over the rationals *)
(** The plane over the rationals. *)
Definition Qcplane : vspace Qcring.
Proof.
  refine (VSpace Qcring (Qc * Qc)%type (0%Qc, 0%Qc) (fun a b => (Qcplus (fst a) (fst b), Qcplus (snd a) (snd b))) (fun k a => (Qcmult k (fst a), Qcmult k (snd a))) _ _ _ _ _ _ _ _);
    intros; repeat match goal with x : (Qc * Qc)%type |- _ => destruct x end; cbn; f_equal; ring.
Defined.
Definition ltQ (a b : Qc) : bool := match Qccompare a b with Lt => true | _ => false end.
Definition absQ (a : Qc) : Qc := if ltQ a 0%Qc then Qcopp a else a.
(** the matrix ((4,1),(1,3)) *)
Definition exA (v : Qcplane) : Qcplane := ((Q2Qc 4 * fst v + snd v)%Qc, (fst v + Q2Qc 3 * snd v)%Qc).
Lemma exA_linear : linear exA.
Proof. split; intros; unfold exA; cbn; f_equal; ring. Qed.
Definition exDot (a b : Qcplane) : Qcring := (fst a * fst b + snd a * snd b)%Qc.
Definition exNrm (a : Qcplane) : Qc := (absQ (fst a) + absQ (snd a))%Qc.
Definition exDiv (a b : Qcring) : Qcring := (a / b)%Qc.
Definition exIs0 (d : Qc) : bool := if Qc_eq_dec d 0%Qc then true else false.
(** Jacobi: v = D^{-1} d; the state counts the calls *)
Definition exPre (p : nat) (x b : Qcplane) := (p, x, b).
Definition exPapply (p : nat) (v d : Qcplane) : nat * Qcplane := (S p, ((fst d / Q2Qc 4)%Qc, (snd d / Q2Qc 3)%Qc)).
Definition exPost (p : nat) (x : Qcplane) := (p, x).
Definition exReduction : Qc := Q2Qc (1 # 10).
Definition exTiny : Qc := Q2Qc (1 # 1000000).
Definition exb : Qcplane := (Q2Qc 1, Q2Qc 2).
Definition summary (o : outcome (nat * Qcplane * Qcplane * result Qc * list (nat * Qc))) : option (nat * nat * bool * nat) :=
  match o with Ok (p, _, _, r, log) => Some (p, r_iterations _ r, r_converged _ r, length log) | _ => None end.
Definition run_loop maxit := loop_apply (V := Qcplane) Qc (fun _ => true) ltQ Qcmult Qcdiv 0%Qc exTiny exReduction exA exNrm nat exPre exPapply exPost maxit 0 vz exb.
Definition run_grad maxit := grad_apply (V := Qcplane) Qc (fun _ => true) ltQ Qcmult Qcdiv 0%Qc exTiny exReduction exA exDot exNrm exDiv exIs0 nat exPre exPapply exPost maxit 0 vz exb.
Definition run_cg maxit := cg_apply (V := Qcplane) Qc (fun _ => true) ltQ Qcmult Qcdiv 0%Qc exTiny exReduction exA exDot exNrm exDiv exIs0 nat exPre exPapply exPost maxit 0 vz exb.
Definition run_bicg maxit := bicgstab_apply (V := Qcplane) Qc (fun _ => true) ltQ Qcmult Qcdiv 0%Qc exTiny exReduction exA exDot exNrm exDiv exIs0
  (fun a => ltQ (absQ a) exTiny) (fun a => ltQ (absQ a) exTiny) nat exPre exPapply exPost maxit 0 vz exb.
(** converged after several steps, and stopped by maxit *)
Example ex_loop : summary (run_loop 20) = Some (2, 2, true, 3) /\ summary (run_loop 1) = Some (1, 1, false, 2).
Proof. split; vm_compute; reflexivity. Qed.
Example ex_grad : summary (run_grad 20) = Some (2, 2, true, 3) /\ summary (run_grad 1) = Some (1, 1, false, 2).
Proof. split; vm_compute; reflexivity. Qed.
Example ex_cg : summary (run_cg 20) = Some (2, 2, true, 3) /\ summary (run_cg 1) = Some (2, 1, false, 2).
Proof. split; vm_compute; reflexivity. Qed.
Example ex_bicg : summary (run_bicg 20) = Some (2, 1, true, 3) /\ summary (run_bicg 0) = Some (0, 0, false, 1).
Proof. split; vm_compute; reflexivity. Qed.

(** MINRES on A = diag(4,3), b = (1,0), started from 0: converged in one step to x = (1/4,0) with residual 0, but b is left as (1,0). *)
Definition exA' (v : Qcplane) : Qcplane := ((Q2Qc 4 * fst v)%Qc, (Q2Qc 3 * snd v)%Qc).
Definition exb' : Qcplane := (Q2Qc 1, Q2Qc 0).
Definition run_minres maxit := minres_apply (V := Qcplane) Qc (fun _ => true) ltQ Qcmult Qcdiv 0%Qc exTiny exReduction exA' exDot exNrm exDiv exIs0 nat exPre
  (fun p v d => (S p, d)) exPost (fun a => a) absQ (fun dx dy => if exIs0 dy then (1%Qc, 0%Qc) else (0%Qc, 1%Qc)) maxit 0 vz exb'.
Definition final (o : outcome (nat * Qcplane * Qcplane * result Qc * list (nat * Qc))) : option (bool * list Q) :=
  match o with Ok (_, x, b, r, _) => Some (r_converged _ r, map this [fst x; snd x; fst b; snd b; fst (vsub exb' (exA' x)); snd (vsub exb' (exA' x))]) | _ => None end.
Theorem C27_minres_refuted : summary (run_minres 5) = Some (2, 1, true, 2) /\
  final (run_minres 5) = Some (true, [1 # 4; 0; 1; 0; 0; 0]%Q).
Proof. split; vm_compute; reflexivity. Qed.

Print Assumptions C26_loop.
Print Assumptions C26_bicgstab.
Print Assumptions C27_cg.
Print Assumptions C27_bicgstab.
