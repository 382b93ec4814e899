(** * CGSolver and LoopSolver with SSOR and AMG on symmetric positive definite matrices, end to end (C72); AMG::pre

    The solvers of Solvers.v (solvers.hh) on vectors of length n with the matrix product of MatVec.v (bcrsmatrix.hh), the sweeps of Precond.v
    (preconditioners.hh) and the multigrid preconditioner of Amg.v / AmgSetup.v (paamg/amg.hh, paamg/matrixhierarchy.hh), sequential case.  Exact arithmetic. *)
From Coq Require Import Arith List Lia Bool ZArith QArith Qcanon Eqdep_dec.
From Coq Require Import setoid_ring.Ring.
From Verif Require Import Ring Sums RingInst Outcome Sparse MatVec GsModel Gs Precond Adjoint AmgTransfer AggPattern Aggregation Amg AmgSetup AmgSpd Solvers CgExact.
Import ListNotations.
Open Scope nat_scope.

(** ** Vectors of length n (BlockVector with a fixed size) as the vector class of a solver *)
Section LVec.
  Context {R : ring} (n : nat).
  Local Open Scope ring_scope_istl.
  Definition lcar : Type := {x : vec R | length x = n}.
  Definition val (x : lcar) : vec R := proj1_sig x.
  Lemma val_length (x : lcar) : length (val x) = n. Proof. exact (proj2_sig x). Qed.
  Lemma val_inj (x y : lcar) : val x = val y -> x = y.
  Proof. destruct x as [x p], y as [y q]. cbn. intros ->. f_equal. apply UIP_dec, Nat.eq_dec. Qed.
  (** the vector with the entries f 0, ..., f (n-1) *)
  Definition mk (f : nat -> R) : lcar := exist _ (vecf n f) (vecf_length n f).
  Definition lget (x : lcar) (i : nat) : R := vget (val x) i.
  Lemma lget_mk f i : i < n -> lget (mk f) i = f i. Proof. apply vecf_get. Qed.
  Lemma lvec_ext (x y : lcar) : (forall i, i < n -> lget x i = lget y i) -> x = y.
  Proof. intros H. apply val_inj, vec_ext; rewrite !val_length; auto. Qed.
  Definition lvec : vspace R.
  Proof.
    refine (VSpace R lcar (mk (fun _ => r0)) (fun a b => mk (fun i => lget a i + lget b i)) (fun k a => mk (fun i => k * lget a i)) _ _ _ _ _ _ _ _);
      intros; apply lvec_ext; intros i Hi; repeat rewrite lget_mk by exact Hi; ncring.
  Defined.
  Lemma lget_add (a b : lvec) i : i < n -> lget (Solvers.vadd a b) i = lget a i + lget b i. Proof. apply lget_mk. Qed.
  Lemma lget_scale k (a : lvec) i : i < n -> lget (vscale k a) i = k * lget a i. Proof. intros. apply (lget_mk (fun i => k * lget a i)). auto. Qed.
  Lemma lget_vz i : i < n -> lget (vz : lvec) i = r0. Proof. intros. apply (lget_mk (fun _ => r0)). auto. Qed.
  Lemma val_vz : val (vz : lvec) = zerov n. Proof. reflexivity. Qed.
  Lemma val_add (a b : lvec) : val (Solvers.vadd a b) = Amg.vadd n (val a) (val b). Proof. reflexivity. Qed.
  (** SeqScalarProduct::dot, scalarproducts.hh:63-66, 164-168 *)
  Definition ldot (a b : lvec) : R := dot n (val a) (val b).
  (** a function of BlockVectors that keeps the size *)
  Definition lift (F : vec R -> vec R) (a : lvec) : lvec := mk (vget (F (val a))).
  Lemma val_lift F a : keeps n F -> val (lift F a) = F (val a).
  Proof. intros K. symmetry. apply vecf_eq; [apply K, val_length|auto]. Qed.
  (** MatrixAdapter::apply (operators.hh:150-153): y = A x.  MatVec.v: bcrs_mv *)
  Definition matop (A : smat R) : lvec -> lvec := lift (fun x => bcrs_mv A x (zerov n)).
  Lemma matop_mul A x : mat_wf n n A -> val (matop A x) = mul n A (val x).
  Proof.
    intros HW. destruct (C09_products n n A (val x) (zerov n) HW (val_length x) (zerov_length n)) as [[L H] _]. unfold matop, lift, mul. cbn [val mk proj1_sig].
    apply vecf_ext. intros i Hi. rewrite H by auto. reflexivity.
  Qed.
End LVec.
Arguments lvec {R} n. Arguments val {R n}. Arguments lget {R n}.

Section Definite.
  Context {R : ring} (pos : R -> Prop).
  Hypothesis HO : ordered R pos.
  Local Open Scope ring_scope_istl.
  Add Ring oring3 : (oring_theory pos HO).
  Variable n : nat.
  Local Notation V := (@lvec R n).
  Lemma ldot_ok : scalar_product (V := V) (ldot n).
  Proof.
    split; intros; unfold ldot, dot.
    - rewrite <- sum_add. apply sum_ext. intros i Hi. change (lget (Solvers.vadd a b) i * lget c i = lget a i * lget c i + lget b i * lget c i). rewrite (lget_add n a b) by auto. ring.
    - rewrite <- sum_mul_l. apply sum_ext. intros i Hi. change (lget (vscale k a) i * lget c i = k * (lget a i * lget c i)). rewrite (lget_scale n k a) by auto. ring.
    - apply sum_ext. intros. ring.
  Qed.
  Lemma ldot_lift (F : vec R -> vec R) (a b : V) : keeps n F -> ldot n (lift n F a) b = dot n (F (val a)) (val b).
  Proof. intros K. unfold ldot. rewrite val_lift by auto. reflexivity. Qed.
  Lemma ldot_ext (a b : V) : (forall e, ldot n a e = ldot n b e) -> a = b.
  Proof. intros H. apply val_inj, (dot_ext n); try apply val_length. intros e He. exact (H (exist _ e He)). Qed.
  Lemma lift_definite F : spd_map pos n F -> definite (V := V) (ldot n) (lift n F).
  Proof.
    intros (K & AD & P). pose proof ldot_ok as HD.
    assert (S : forall a b : V, ldot n (lift n F a) b = ldot n a (lift n F b)).
    { intros a b. rewrite ldot_lift by auto. rewrite AD by apply val_length. rewrite (sp_sym _ HD), ldot_lift by auto. unfold dot. apply sum_ext. intros; ring. }
    split; auto.
    - split; intros; apply ldot_ext; intros e; rewrite ?(sp_add _ HD), ?(sp_scale _ HD), !S, ?(sp_add _ HD), ?(sp_scale _ HD); reflexivity.
    - intros v H. rewrite (sp_sym _ HD), ldot_lift in H by auto. destruct (vec_dec pos HO n (val v) (val_length n v)) as [E|(i & Hi & E)]; [apply val_inj; exact E|].
      exfalso. apply (pos_neq pos HO _ (P (val v) (val_length n v) (fun E0 => E (eq_trans (f_equal (fun x => vget x i) E0) (zerov_get n i Hi))))). exact H.
  Qed.
  Lemma mul_spd A : spd pos n A -> spd_map pos n (mul n A).
  Proof. intros [S P]. split; [intros d Hd; apply vecf_length|]. split; [|exact P]. intros d e Hd He. apply dot_mul; auto. apply HO. Qed.
  Lemma lift_ext F G : (forall x, length x = n -> F x = G x) -> forall a : V, lift n F a = lift n G a.
  Proof. intros H a. unfold lift. rewrite H; auto. apply val_length. Qed.
  Lemma matop_lift A (a : V) : mat_wf n n A -> matop n A a = lift n (mul n A) a.
  Proof. intros HW. apply val_inj. rewrite matop_mul by auto. rewrite val_lift; auto. intros d Hd. apply vecf_length. Qed.
  Lemma definite_ext (F G : V -> V) : (forall a, F a = G a) -> definite (ldot n) G -> definite (ldot n) F.
  Proof. intros E [[L1 L2] A B]. split; [split; intros; rewrite !E; auto|intros; rewrite !E; auto|intros v; rewrite E; auto]. Qed.
  Lemma matop_definite A : mat_wf n n A -> spd pos n A -> definite (V := V) (ldot n) (matop n A).
  Proof. intros HW HA. apply (definite_ext _ (lift n (mul n A))); [intros; apply matop_lift; auto|]. apply lift_definite, mul_spd, HA. Qed.
End Definite.

(** ** n+1 vectors of length n are linearly dependent *)
Section Dependent.
  Context {R : ring} (pos : R -> Prop).
  Hypothesis HO : ordered R pos.
  Local Open Scope ring_scope_istl.
  Add Ring oring4 : (oring_theory pos HO).
  Variable kdiv : R -> R -> R.
  Hypothesis kdiv_ok : forall a b, b <> r0 -> kdiv a b * b = a.
  Lemma zero_dec (a : R) : a = r0 \/ a <> r0.
  Proof. destruct (ord_tri _ _ HO a) as [E|[E|E]]; [left; auto|right; apply (pos_neq pos HO); auto|right]. intros ->. apply (pos_neq pos HO _ E). ring. Qed.
  Lemma find_nz m (f : nat -> R) : (exists p, p < m /\ f p <> r0) \/ forall i, i < m -> f i = r0.
  Proof.
    induction m as [|m [(p & Hp & E)|IH]]; [right; lia|left; exists p; split; auto; lia|]. destruct (zero_dec (f m)) as [E|E]; [right|left; exists m; split; auto; lia].
    intros i Hi. destruct (Nat.eq_dec i m); [congruence|apply IH; lia].
  Qed.
  Definition skip (p i : nat) : nat := if i <? p then i else S i.
  Lemma sum_skip m : forall p (f : nat -> R), p <= m -> sum (S m) f = f p + sum m (fun i => f (skip p i)).
  Proof.
    induction m as [|m IH]; intros p f Hp.
    - assert (p = 0) by lia. subst. cbn. ring.
    - change (sum (S (S m)) f) with (sum (S m) f + f (S m)). destruct (Nat.eq_dec p (S m)) as [->|N].
      + rewrite (sum_ext (S m) (fun i => f (skip (S m) i)) f); [ring|]. intros i Hi. unfold skip. destruct (Nat.ltb_spec i (S m)); [auto|lia].
      + rewrite (IH p f) by lia. change (sum (S m) (fun i => f (skip p i))) with (sum m (fun i => f (skip p i)) + f (skip p m)). unfold skip at 3. destruct (Nat.ltb_spec m p); [lia|]. ring.
  Qed.
  Lemma dependent : forall n (v : nat -> nat -> R), exists c : nat -> R, (exists i, i <= n /\ c i <> r0) /\ forall j, j < n -> sum (S n) (fun i => c i * v i j) = r0.
  Proof.
    induction n as [|n IH]; intros v.
    - exists (fun _ => r1). split; [exists 0; split; auto; apply (pos_neq pos HO), HO|lia].
    - destruct (find_nz (S (S n)) (fun i => v i n)) as [(p & Hp & E)|Z].
      + destruct (IH (fun i j => v (skip p i) j - kdiv (v (skip p i) n) (v p n) * v p j)) as (c & (k & Hk & Ck) & H).
        set (cp := - sum (S n) (fun i => c i * kdiv (v (skip p i) n) (v p n))).
        set (c' := fun i => if i =? p then cp else c (if i <? p then i else Nat.pred i)).
        assert (CS : forall i, c' (skip p i) = c i).
        { intros i. unfold c', skip. destruct (Nat.ltb_spec i p).
          - destruct (Nat.eqb_spec i p); [lia|]. destruct (Nat.ltb_spec i p); [auto|lia].
          - destruct (Nat.eqb_spec (S i) p); [lia|]. destruct (Nat.ltb_spec (S i) p); [lia|reflexivity]. }
        exists c'. split.
        { exists (skip p k). split; [unfold skip; destruct (k <? p); lia|]. rewrite CS. exact Ck. }
        intros j Hj. rewrite (sum_skip (S n) p) by lia.
        rewrite (sum_ext (S n) _ (fun i => c i * (v (skip p i) j - kdiv (v (skip p i) n) (v p n) * v p j) + c i * kdiv (v (skip p i) n) (v p n) * v p j)) by (intros; rewrite CS; ring).
        rewrite sum_add, sum_mul_r. replace (c' p) with cp by (unfold c'; rewrite Nat.eqb_refl; reflexivity). unfold cp.
        destruct (Nat.eq_dec j n) as [->|Nj]; [|rewrite H by lia; ring].
        rewrite (sum_zero (S n) (fun i => c i * (v (skip p i) n - kdiv (v (skip p i) n) (v p n) * v p n))); [ring|]. intros i Hi. rewrite kdiv_ok by exact E. ring.
      + destruct (IH v) as (c & (k & Hk & Ck) & H). exists (fun i => if i =? S n then r0 else c i). split.
        { exists k. split; [lia|]. destruct (Nat.eqb_spec k (S n)); [lia|exact Ck]. }
        intros j Hj. change (sum (S (S n)) ?f) with (sum (S n) f + f (S n)). cbv beta. rewrite Nat.eqb_refl.
        destruct (Nat.eq_dec j n) as [->|Nj].
        * rewrite sum_zero by (intros i Hi; rewrite Z by lia; ring). ring.
        * rewrite (sum_ext (S n) _ (fun i => c i * v i j)) by (intros i Hi; destruct (Nat.eqb_spec i (S n)); [lia|auto]). rewrite H by lia. ring.
  Qed.
  Lemma last_nz n (c : nat -> R) : (exists i, i <= n /\ c i <> r0) -> exists m, m <= n /\ c m <> r0 /\ forall i, m < i -> i <= n -> c i = r0.
  Proof.
    induction n as [|n IH]; intros (i & Hi & E).
    - exists 0. assert (i = 0) by lia. subst. repeat split; auto. intros; lia.
    - destruct (zero_dec (c (S n))) as [Z|Z].
      + destruct IH as (m & Hm & Em & H). { exists i. split; auto. destruct (Nat.eq_dec i (S n)); [subst; congruence|lia]. }
        exists m. repeat split; auto. intros k Hk1 Hk2. destruct (Nat.eq_dec k (S n)); [congruence|apply H; lia].
      + exists (S n). repeat split; auto. intros; lia.
  Qed.
  Variable n : nat.
  Local Notation V := (@lvec R n).
  (** the Krylov space is exhausted after at most n steps *)
  Lemma krylov_dim (A W : V -> V) (r : V) : exists m, m <= n /\ kspace A W r m (krylov A W r m).
  Proof.
    destruct (dependent n (fun i j => lget (krylov A W r i) j)) as (c & NZ & H). destruct (last_nz n c NZ) as (m & Hm & Cm & Z). exists m. split; [exact Hm|].
    set (a := fun i => - kdiv (c i) (c m)).
    set (lin := fix lin k : V := match k with O => vz | S k' => Solvers.vadd (vscale (a k') (krylov A W r k')) (lin k') end).
    assert (L1 : forall k, k <= m -> kspace A W r m (lin k)). { induction k as [|k IH]; intros Hk; [apply ks_zero|]. cbn [lin]. apply ks_add; [lia|apply IH; lia]. }
    assert (L2 : forall k j, j < n -> lget (lin k) j = sum k (fun i => a i * lget (krylov A W r i) j)).
    { induction k as [|k IH]; intros j Hj; [apply (lget_vz n); auto|]. cbn [lin sum]. rewrite (lget_add n), (lget_scale n), IH by auto. ring. }
    replace (krylov A W r m) with (lin m); [apply L1; auto|]. apply (lvec_ext n). intros j Hj. rewrite L2 by auto.
    specialize (H j Hj). cbv beta in H. rewrite (sum_extend (S m) (S n)) in H by (try lia; intros i Hi; rewrite Z by lia; ring). cbn [sum] in H.
    assert (E : c m * (sum m (fun i => a i * lget (krylov A W r i) j) - lget (krylov A W r m) j) = r0).
    { replace (c m * (sum m (fun i => a i * lget (krylov A W r i) j) - lget (krylov A W r m) j)) with (c m * sum m (fun i => a i * lget (krylov A W r i) j) - c m * lget (krylov A W r m) j) by ring.
      rewrite <- sum_mul_l. rewrite (sum_ext m _ (fun i => - (c i * lget (krylov A W r i) j))).
      - rewrite sum_opp. transitivity (- (sum m (fun i => c i * lget (krylov A W r i) j) + c m * lget (krylov A W r m) j)); [ring|]. rewrite H. ring.
      - intros i Hi. unfold a. transitivity (- ((kdiv (c i) (c m) * c m) * lget (krylov A W r i) j)); [ring|]. rewrite kdiv_ok by auto. reflexivity. }
    assert (D0 : forall x, c m * x = r0 -> x = r0).
    { intros x Hx. transitivity (kdiv r1 (c m) * (c m * x)); [|rewrite Hx; ring]. transitivity ((kdiv r1 (c m) * c m) * x); [rewrite kdiv_ok by auto; ring|ring]. }
    apply D0 in E. transitivity (sum m (fun i => a i * lget (krylov A W r i) j) - lget (krylov A W r m) j + lget (krylov A W r m) j); [ring|]. rewrite E. ring.
  Qed.
End Dependent.

(** ** The iteration control: no abort with finite defects; more iterations change nothing once converged *)
Section ControlMore.
  Variable D : Type.
  Variables (finite : D -> bool) (lt_ : D -> D -> bool) (mul_ : D -> D -> D) (zero_ tiny : D).
  Variable reduction : D.
  Local Notation stepf := (step D finite lt_ mul_ tiny reduction).
  Local Notation controlf := (control D finite lt_ mul_ zero_ tiny reduction).
  Local Notation iteratef := (iterate D finite lt_ mul_ tiny reduction).
  Lemma iterate_total {S} (body : S -> outcome (S * D)) after n : (forall s, exists s' d, body s = Ok (s', d) /\ finite d = true) -> (forall s, exists s', after s = Ok s') ->
    forall i s it, exists s' it', iteratef body after n i s it = Ok (s', it').
  Proof.
    intros HB HA. induction n as [|n IH]; intros i s it; cbn [iterate]; [eauto|]. destruct (HB s) as (s1 & d & E & F). rewrite E. cbn [obind fst snd].
    unfold step at 1. rewrite F. cbn [negb obind]. destruct (i_conv D _); [eauto|]. destruct (HA s1) as (s2 & E2). rewrite E2. cbn [obind]. apply IH.
  Qed.
  Lemma iterate_more {S} (body : S -> outcome (S * D)) after n : forall m i s it s' it', iteratef body after n i s it = Ok (s', it') -> i_conv D it = false -> i_conv D it' = true -> n <= m ->
    iteratef body after m i s it = Ok (s', it').
  Proof.
    induction n as [|n IH]; intros m i s it s' it' H C0 C1 L; cbn [iterate] in H.
    - injection H as <- <-. congruence.
    - destruct m as [|m]; [lia|]. cbn [iterate]. destruct (body s) as [[s1 d]| |]; cbn [obind fst snd] in *; try discriminate. destruct (stepf i d it) as [it1| |]; cbn [obind] in *; try discriminate.
      destruct (i_conv D it1) eqn:EC; auto. destruct (after s1) as [s2| |]; cbn [obind] in *; try discriminate. apply IH; auto. lia.
  Qed.
  Lemma control_total {S} (body : S -> outcome (S * D)) after maxit s d0 prepare : (forall s, exists s' d, body s = Ok (s', d) /\ finite d = true) -> (forall s, exists s', after s = Ok s') -> (forall s, exists s', prepare s = Ok s') ->
    finite d0 = true -> exists s' it', controlf body after maxit s d0 prepare = Ok (s', it').
  Proof.
    intros HB HA HP F. unfold control. unfold step. rewrite F. cbn [negb obind]. destruct (i_conv D _); [eauto|]. destruct (HP s) as (s2 & E2). rewrite E2. cbn [obind]. apply iterate_total; auto.
  Qed.
  Lemma control_more {S} (body : S -> outcome (S * D)) after n m s d0 prepare s' it' : controlf body after n s d0 prepare = Ok (s', it') -> i_conv D it' = true -> n <= m ->
    controlf body after m s d0 prepare = Ok (s', it').
  Proof.
    unfold control. intros H C L. destruct (stepf 0 d0 (iter0 D zero_)) as [it| |]; cbn [obind] in *; try discriminate. destruct (i_conv D it) eqn:EC; auto.
    destruct (prepare s) as [s1| |]; cbn [obind] in *; try discriminate. eapply iterate_more; eauto.
  Qed.
  Lemma control_conv {S} (body : S -> outcome (S * D)) after n s d0 prepare s' it' : controlf body after n s d0 prepare = Ok (s', it') -> i_conv D it' = stop D lt_ mul_ tiny reduction (i_def0 D it') (i_def D it').
  Proof.
    unfold control. intros H. destruct (stepf 0 d0 (iter0 D zero_)) as [it| |] eqn:ES; cbn [obind] in *; try discriminate.
    pose proof (step0 _ _ _ _ _ _ _ _ _ ES) as HA. assert (G : forall k it, at_step D finite lt_ mul_ zero_ tiny reduction k it -> i_conv D it = stop D lt_ mul_ tiny reduction (i_def0 D it) (i_def D it)).
    { intros k i (ds & _ & _ & _ & _ & E1 & E2 & _ & E3). rewrite E1, E2. exact E3. }
    destruct (i_conv D it) eqn:EC. { injection H as <- <-. eauto. }
    destruct (prepare s) as [s1| |]; cbn [obind] in *; try discriminate. destruct (iterate_spec _ _ _ _ _ _ _ _ _ _ _ _ _ _ _ HA EC H) as (k & K & _). eauto.
  Qed.
End ControlMore.

(** ** CGSolver on a symmetric positive definite matrix *)
Section CG.
  Context {R : ring} (pos : R -> Prop).
  Hypothesis HO : ordered R pos.
  Local Open Scope ring_scope_istl.
  Add Ring oring5 : (oring_theory pos HO).
  Variable kdiv : R -> R -> R.
  Hypothesis kdiv_ok : forall a b, b <> r0 -> kdiv a b * b = a.
  Variable n : nat.
  Local Notation V := (@lvec R n).
  (** the norm of the defect and the control of the iteration *)
  Variable D : Type.
  Variables (finite : D -> bool) (lessD : D -> D -> bool) (mul_ div_ : D -> D -> D) (zero_ tiny reduction : D) (nrm : V -> D) (is0 : D -> bool).
  Hypothesis nrm_finite : forall v, finite (nrm v) = true.
  Hypothesis nrm_zero : forall v, is0 (nrm v) = true <-> v = vz.
  Hypothesis nrm_tiny : lessD (nrm vz) tiny = true.
  Variables (A : smat R) (W : vec R -> vec R).
  Hypothesis HW : mat_wf n n A.
  Hypothesis HA : spd pos n A.
  Variable P : Type.
  Variable pre : P -> V -> V -> P * V * V.
  Variable papply : P -> V -> V -> P * V.
  Variable post : P -> V -> P * V.
  Hypothesis Hpost : forall p x, snd (post p x) = x.
  Local Notation cgf := (cg_apply (K := R) (V := V) D finite lessD mul_ div_ zero_ tiny reduction (matop n A) (ldot n) nrm kdiv is0 P pre papply post).
  Local Notation loopf := (loop_apply (K := R) (V := V) D finite lessD mul_ div_ zero_ tiny reduction (matop n A) nrm P pre papply post).

  Lemma field_ok : field (K := R) kdiv. Proof. split; [apply HO|exact kdiv_ok]. Qed.
  Lemma val_sub (a b : V) : val (vsub a b) = vecf n (fun i => vget (val a) i - vget (val b) i).
  Proof. apply vecf_eq; [apply val_length|]. intros i Hi. change (lget (vsub a b) i = lget a i - lget b i). unfold vsub. rewrite (lget_add n), (lget_scale n) by auto. ring. Qed.
  Lemma energy_l (xs x : V) : CgExact.energy (matop n A) (ldot n) xs x = AmgSpd.energy n A (val xs) (val x).
  Proof. unfold CgExact.energy, AmgSpd.energy, ldot. rewrite matop_mul, val_sub by auto. apply (dot_sym (ord_comm _ _ HO)). Qed.
  Lemma residual_l (b x : V) : val (vsub b (matop n A x)) = residual n A (val b) (val x).
  Proof. rewrite val_sub, matop_mul by auto. apply vecf_ext. intros i Hi. unfold mul. rewrite vecf_get by auto. reflexivity. Qed.

  (** C72.  CGSolver with a symmetric positive definite preconditioner W does not break down and needs at most n iterations; the result is the best approximation
      of the solution, in the energy norm, in the Krylov space it searched; its defect vector is the residual, zero after n iterations. *)
  Theorem C72_cg maxit p x b p1 x1 b1 : spd_map pos n W -> (forall p b, val (snd (papply p vz b)) = W (val b)) -> n <= maxit -> pre p x b = (p1, x1, b1) ->
    exists p' x' b' res log, cgf maxit p x b = Ok (p', x', b', res, log) /\ r_converged D res = true /\ r_iterations D res <= n /\
      val b' = residual n A (val b1) (val x') /\ (r_iterations D res = n -> val b' = zerov n) /\
      kspace (matop n A) (lift n W) (vsub b1 (matop n A x1)) (r_iterations D res) (vsub x' x1) /\
      (forall y, kspace (matop n A) (lift n W) (vsub b1 (matop n A x1)) (r_iterations D res) y ->
        forall xs, length xs = n -> mul n A xs = val b1 -> le_ pos (AmgSpd.energy n A xs (val x')) (AmgSpd.energy n A xs (val (Solvers.vadd x1 y)))).
  Proof.
    intros HWs Hp Hm EP.
    assert (DA : definite (V := V) (ldot n) (matop n A)) by (apply (matop_definite pos HO); auto).
    assert (DW : definite (V := V) (ldot n) (lift n W)) by (apply (lift_definite pos HO); auto).
    assert (Hp' : forall q c, snd (papply q vz c) = lift n W c) by (intros q c; apply val_inj; rewrite val_lift by apply HWs; apply Hp).
    pose proof (ldot_ok pos HO n) as DD. pose proof field_ok as FF.
    (* a run with at most n iterations *)
    assert (X : exists p' x' b' res log, cgf n p x b = Ok (p', x', b', res, log) /\ cgf maxit p x b = Ok (p', x', b', res, log) /\ r_converged D res = true).
    { pose proof (fun p' x' b' res log => C26_cg (V := V) D finite lessD mul_ div_ zero_ tiny reduction (matop n A) (ldot n) nrm kdiv is0 P pre papply post n p x b p' x' b' res log) as T26.
      pose proof (fun p' x' b' res log => C27_cg (V := V) D finite lessD mul_ div_ zero_ tiny reduction (matop n A) (ldot n) nrm kdiv is0 P pre papply post n p x b p' x' b' res log (de_linear _ _ DA)) as T27.
      pose proof (fun p' x' b' res log m => C50_cg_terminates D finite lessD mul_ div_ zero_ tiny reduction (matop n A) (ldot n) nrm kdiv is0 P pre papply post (lift n W) FF DD DA DW nrm_zero Hp' n p x b p1 x1 b1 p' x' b' res log m EP) as T50.
      assert (EM : forall m, cgf m p x b = obind (control D finite lessD mul_ zero_ tiny reduction (cg_body (K := R) D (matop n A) (ldot n) nrm kdiv is0 P) (cg_after (K := R) D (ldot n) kdiv is0 P papply) m
          (p1, x1, vsub b1 (matop n A x1), nrm (vsub b1 (matop n A x1)), vz, r0) (nrm (vsub b1 (matop n A x1))) (cg_prepare (K := R) D (ldot n) P papply))
          (fun r => let '(p, x, b, _, _, _, it) := r in Ok (finish (K := R) D lessD mul_ div_ tiny reduction P post 1 p x b it))) by (intros m; unfold cg_apply; rewrite EP; reflexivity).
      destruct (control_total D finite lessD mul_ zero_ tiny reduction (cg_body (K := R) D (matop n A) (ldot n) nrm kdiv is0 P) (cg_after (K := R) D (ldot n) kdiv is0 P papply) n
          (p1, x1, vsub b1 (matop n A x1), nrm (vsub b1 (matop n A x1)), vz, r0) (nrm (vsub b1 (matop n A x1))) (cg_prepare (K := R) D (ldot n) P papply)) as (s' & it' & EC); auto.
      { intros [[[[[q y] c] e] d] rl]. eexists _, _. split; [reflexivity|]. apply nrm_finite. }
      { intros [[[[[q y] c] e] d] rl]. unfold cg_after. destruct (papply q vz c). eauto. }
      { intros [[[[[q y] c] e] d] rl]. unfold cg_prepare. destruct (papply q vz c). eauto. }
      destruct s' as [[[[[q y] c] e] d] rl]. pose proof (EM n) as En. rewrite EC in En. cbn [obind] in En.
      destruct (finish (K := R) D lessD mul_ div_ tiny reduction P post 1 q y c it') as [[[[p' x'] b'] rs] log] eqn:EF.
      exists p', x', b', rs, log. split; [exact En|].
      assert (CV : r_converged D rs = true).
      { destruct (T26 _ _ _ _ _ En) as (k & ds & L1 & L2 & L3 & _ & _ & I1 & C1 & _ & C2). destruct (r_converged D rs) eqn:ER; [reflexivity|]. specialize (C2 eq_refl). subst k.
        rewrite Nat.div_1_r in I1. destruct (krylov_dim pos HO kdiv kdiv_ok n (matop n A) (lift n W) (vsub b1 (matop n A x1))) as (m & Lm & Km).
        assert (Z : b' = vz) by (exact (T50 p' x' b' rs log m Km ltac:(lia) En)).
        destruct (T27 _ _ _ _ _ En) as (_ & _ & _ & _ & _ & _ & _ & _ & Ld). rewrite Z in Ld.
        assert (Ln : nth n ds zero_ = nrm vz).
        { unfold last_defect in Ld. rewrite L1 in Ld. destruct ds as [|d0 ds0] eqn:Eds; [cbn in L2; lia|]. destruct (exists_last (l := d0 :: ds0)) as (ds' & dl & Ee); [discriminate|].
          rewrite Ee in Ld, L2 |- *. rewrite app_length in L2. cbn in L2. assert (L2' : length ds' = n) by lia. rewrite <- (combine_snoc n ds' dl L2'), rev_app_distr in Ld. cbn in Ld. injection Ld as Ld.
          rewrite app_nth2 by lia. rewrite L2', Nat.sub_diag. exact Ld. }
        rewrite Ln in C1. unfold stop in C1. rewrite nrm_tiny, orb_true_r in C1. congruence. }
      split; [|exact CV]. rewrite EM.
      assert (IC : i_conv D it' = true). { rewrite (control_conv _ _ _ _ _ _ _ _ _ _ _ _ _ _ _ EC). apply (finish_eq D lessD mul_ div_ tiny reduction P post) in EF. destruct EF as (_ & _ & <- & _). exact CV. }
      rewrite (control_more _ _ _ _ _ _ _ _ _ n maxit _ _ _ _ _ EC IC Hm). cbn [obind]. rewrite EF. reflexivity. }
    destruct X as (p' & x' & b' & rs & log & En & Em & CV).
    exists p', x', b', rs, log. split; [exact Em|]. split; [exact CV|].
    pose proof (C26_cg D finite lessD mul_ div_ zero_ tiny reduction (matop n A) (ldot n) nrm kdiv is0 P pre papply post n p x b p' x' b' rs log En) as (k & ds & _ & _ & Lk & _ & _ & Ik & _). rewrite Nat.div_1_r in Ik.
    split; [lia|].
    destruct (C50_cg_galerkin D finite lessD mul_ div_ zero_ tiny reduction (matop n A) (ldot n) nrm kdiv is0 P pre papply post (lift n W) FF DD DA DW nrm_zero Hp' n p x b p1 x1 b1 p' x' b' rs log EP En) as (p2 & x2 & E1 & E2 & E3 & E4).
    assert (x2 = x'). { specialize (Hpost p2 x2). rewrite E1 in Hpost. symmetry. exact Hpost. } subst x2.
    split; [rewrite E2; apply residual_l|].
    split. { intros Hn. destruct (krylov_dim pos HO kdiv kdiv_ok n (matop n A) (lift n W) (vsub b1 (matop n A x1))) as (m & Lm & Km).
      rewrite (C50_cg_terminates D finite lessD mul_ div_ zero_ tiny reduction (matop n A) (ldot n) nrm kdiv is0 P pre papply post (lift n W) FF DD DA DW nrm_zero Hp' n p x b p1 x1 b1 p' x' b' rs log m EP Km); [reflexivity|lia|exact En]. }
    split; [exact E3|]. intros y Hy xs Hxs Exs.
    set (xl := exist _ xs Hxs : V). assert (Ex : matop n A xl = b1) by (apply val_inj; rewrite matop_mul by auto; exact Exs).
    destruct (C50_cg_optimal D finite lessD mul_ div_ zero_ tiny reduction (matop n A) (ldot n) nrm kdiv is0 P pre papply post (lift n W) FF DD DA DW nrm_zero Hp' n p x b p1 x1 b1 p' x' b' rs log xl EP Ex En) as (p3 & x3 & G1 & G2 & G3).
    assert (x3 = x'). { specialize (Hpost p3 x3). rewrite G1 in Hpost. symmetry. exact Hpost. } subst x3.
    set (z := vsub y (vsub x' x1)).
    assert (Kz : kspace (matop n A) (lift n W) (vsub b1 (matop n A x1)) (r_iterations D rs) z).
    { apply (ks_sub (matop n A) kdiv (lift n W) FF); auto. }
    specialize (G3 z Kz). assert (Ez : Solvers.vadd x' z = Solvers.vadd x1 y).
    { apply (lvec_ext n). intros i Hi. unfold z, vsub. repeat (rewrite (lget_add n) || rewrite (lget_scale n)); auto. ring. }
    rewrite Ez, !energy_l in G3. change (val xl) with xs in G3. unfold le_. rewrite G3.
    replace (AmgSpd.energy n A xs (val x') + ldot n z (matop n A z) - AmgSpd.energy n A xs (val x')) with (ldot n z (matop n A z)) by ring.
    unfold ldot. rewrite matop_mul by auto. rewrite (dot_sym (ord_comm _ _ HO)). apply (spd_nneg pos HO); auto. apply val_length.
  Qed.

  (** C72.  LoopSolver with a preconditioner whose step reduces the energy norm of the error: it falls in every iteration, so it is smaller at the end than at the
      beginning unless no iteration was done or the start was a solution. *)
  Theorem C72_loop maxit p x b p1 x1 b1 : (forall d, length d = n -> length (W d) = n) -> W (zerov n) = zerov n -> reduces pos n A W -> (forall p b, val (snd (papply p vz b)) = W (val b)) -> pre p x b = (p1, x1, b1) ->
    exists p' x' b' res log, loopf maxit p x b = Ok (p', x', b', res, log) /\ val b' = residual n A (val b1) (val x') /\
      forall xs, length xs = n -> mul n A xs = val b1 -> le_ pos (AmgSpd.energy n A xs (val x')) (AmgSpd.energy n A xs (val x1)) /\
        (1 <= r_iterations D res -> residual n A (val b1) (val x1) <> zerov n -> lt_ pos (AmgSpd.energy n A xs (val x')) (AmgSpd.energy n A xs (val x1))).
  Proof.
    intros KW W0 RW Hp EP.
    assert (LA : linear (V := V) (matop n A)) by apply (matop_definite pos HO n A HW HA).
    assert (EM : loopf maxit p x b = obind (control D finite lessD mul_ zero_ tiny reduction (loop_body (K := R) D (matop n A) nrm P papply) (fun s => Ok s) maxit
          (p1, x1, vsub b1 (matop n A x1)) (nrm (vsub b1 (matop n A x1))) (fun s => Ok s)) (fun r => let '(p, x, b, it) := r in Ok (finish (K := R) D lessD mul_ div_ tiny reduction P post 1 p x b it))) by (unfold loop_apply; rewrite EP; reflexivity).
    assert (TB : forall s : P * V * V, exists s' d, loop_body (K := R) D (matop n A) nrm P papply s = Ok (s', d) /\ finite d = true).
    { intros [[q y] c]. unfold loop_body. destruct (papply q vz c). eexists _, _. split; [reflexivity|apply nrm_finite]. }
    destruct (control_total D finite lessD mul_ zero_ tiny reduction (loop_body (K := R) D (matop n A) nrm P papply) (fun s => Ok s) maxit
          (p1, x1, vsub b1 (matop n A x1)) (nrm (vsub b1 (matop n A x1))) (fun s => Ok s)) as (s' & it' & EC); eauto.
    rewrite EC in EM. destruct s' as [[q y] c]. cbn [obind] in EM. destruct (finish (K := R) D lessD mul_ div_ tiny reduction P post 1 q y c it') as [[[[p' x'] b'] rs] log] eqn:EF.
    apply (finish_eq D lessD mul_ div_ tiny reduction P post) in EF. destruct EF as (F1 & F2 & F3 & F4). subst c.
    assert (y = x') by (pose proof (Hpost q y) as E0; rewrite F1 in E0; symmetry; exact E0). subst y.
    exists p', x', b', rs, log. split; [exact EM|].
    destruct (C27_loop D finite lessD mul_ div_ zero_ tiny reduction (matop n A) nrm P pre papply post maxit p x b p' x' b' rs log LA EM) as (q1 & y1 & c1 & q2 & y2 & G1 & G2 & G3 & _).
    rewrite EP in G1. injection G1 as <- <- <-. assert (y2 = x') by (pose proof (Hpost q2 y2) as E0; rewrite G2 in E0; symmetry; exact E0). subst y2.
    split; [rewrite G3; apply residual_l|]. intros xs Hxs Exs.
    (* one iteration *)
    set (en := fun z : V => AmgSpd.energy n A xs (val z)).
    assert (OS : forall q z c s1 d, c = vsub b1 (matop n A z) -> loop_body (K := R) D (matop n A) nrm P papply (q, z, c) = Ok (s1, d) ->
      let '(_, z1, c1) := s1 in c1 = vsub b1 (matop n A z1) /\ (z1 = z /\ residual n A (val b1) (val z) = zerov n \/ lt_ pos (en z1) (en z))).
    { intros q0 z c s1 d Hc HB. unfold loop_body in HB. specialize (Hp q0 c). destruct (papply q0 vz c) as [q3 v]. cbn [snd] in Hp. assert (Es : s1 = (q3, Solvers.vadd z v, vsub c (matop n A v))) by congruence. clear HB. subst s1. split; [subst c; exact (vsub_apply (V := V) (matop n A) b1 z v LA)|].
      assert (Hcl : val c = residual n A (val b1) (val z)) by (subst c; apply residual_l). rewrite Hcl in Hp.
      destruct (vec_dec pos HO n _ (residual_length n A (val b1) (val z))) as [Z|(i & Hi & Z)].
      - left. split; auto. apply (lvec_ext n). intros i Hi. rewrite (lget_add n) by auto. unfold lget at 2. rewrite Hp, Z, W0, zerov_get by auto. ring.
      - right. unfold en. change (val (Solvers.vadd z v)) with (Amg.vadd n (val z) (val v)). rewrite Hp. apply RW; auto; try apply val_length.
        intros E0. apply Z. rewrite E0. apply zerov_get. auto. }
    assert (LL : forall a b0 c0, lt_ pos a b0 -> lt_ pos b0 c0 -> lt_ pos a c0).
    { unfold lt_. intros a b0 c0 H1 H2. replace (c0 - a) with ((c0 - b0) + (b0 - a)) by ring. apply HO; auto. }
    set (Less := fun s : P * V * V => let '(_, z, c) := s in c = vsub b1 (matop n A z) /\ (residual n A (val b1) (val x1) <> zerov n -> lt_ pos (en z) (en x1))).
    set (Le := fun s : P * V * V => let '(_, z, c) := s in c = vsub b1 (matop n A z) /\ (z = x1 \/ lt_ pos (en z) (en x1))).
    assert (BLe : forall s s1 d, Le s -> loop_body (K := R) D (matop n A) nrm P papply s = Ok (s1, d) -> Le s1).
    { intros [[q0 z] c] [[q3 z1] c1] d [H1 H2] HB. pose proof (OS _ _ _ _ _ H1 HB) as [O1 O2]. split; auto. destruct O2 as [[-> _]|O2]; auto. right. destruct H2 as [->|H2]; eauto. }
    split.
    - assert (H : Le (q, x', b')).
      { revert EC. unfold control. destruct (step _ _ _ _ _ _ 0 _ _) as [it| |]; cbn [obind]; try discriminate.
        assert (L0 : Le (p1, x1, vsub b1 (matop n A x1))) by (split; auto). destruct (i_conv D it). { intros H. injection H as <- <- <- _. exact L0. }
        cbn [obind]. revert L0. generalize (p1, x1, vsub b1 (matop n A x1)) it 1. clear - BLe. induction maxit as [|m IH]; intros s it i L0 H; cbn [iterate] in H.
        - injection H as -> _. exact L0.
        - destruct (loop_body _ _ _ _ _ s) as [[s1 d]| |] eqn:EB; cbn [obind fst snd] in H; try discriminate. pose proof (BLe _ _ _ L0 EB) as L1.
          destruct (step _ _ _ _ _ _ i d it) as [it1| |]; cbn [obind] in H; try discriminate. destruct (i_conv D it1); [injection H as -> _; exact L1|]. cbn [obind] in H. eapply IH; eauto. }
      destruct H as [_ [->|H]]; unfold le_; [left; ring|right; exact H].
    - intros HI HR. assert (H : Less (q, x', b')); [|apply H; exact HR].
      revert EC. unfold control. destruct (step _ _ _ _ _ _ 0 _ _) as [it| |] eqn:ES; cbn [obind]; try discriminate.
      assert (I0 : i_i D it = 0) by (unfold step in ES; destruct (finite _) in ES; cbn in ES; [injection ES as <-; reflexivity|discriminate]).
      destruct (i_conv D it). { intros H. injection H as _ _ _ <-. rewrite <- F3 in HI. cbn [finalize r_iterations] in HI. rewrite I0 in HI. cbn in HI. lia. }
      cbn [obind]. destruct maxit as [|m]; cbn [iterate]. { intros H. injection H as _ _ _ <-. rewrite <- F3 in HI. cbn [finalize r_iterations] in HI. rewrite I0 in HI. cbn in HI. lia. }
      destruct (loop_body (K := R) D (matop n A) nrm P papply (p1, x1, vsub b1 (matop n A x1))) as [[s1 d]| |] eqn:EB; cbn [obind fst snd]; try discriminate.
      assert (L1 : Less s1). { pose proof (OS _ _ _ _ _ eq_refl EB) as O. destruct s1 as [[q3 z1] c1]. destruct O as [O1 O2]. split; auto. intros _. destruct O2 as [[_ O2]|O2]; [congruence|exact O2]. }
      assert (BL : forall s s1 d, Less s -> loop_body (K := R) D (matop n A) nrm P papply s = Ok (s1, d) -> Less s1).
      { intros [[q0 z] c] [[q3 z1] c1] e [H1 H2] HB. pose proof (OS _ _ _ _ _ H1 HB) as [O1 O2]. split; auto. destruct O2 as [[-> _]|O2]; auto. intros HH. eauto. }
      destruct (step _ _ _ _ _ _ 1 d it) as [it1| |]; cbn [obind]; try discriminate. destruct (i_conv D it1). { intros H. injection H as E0 _. rewrite E0 in L1. exact L1. }
      cbn [obind]. revert L1. generalize s1 it1 2. clear - BL. induction m as [|m IH]; intros s it i L0 H; cbn [iterate] in H.
      + injection H as -> _. exact L0.
      + destruct (loop_body _ _ _ _ _ s) as [[s1 d]| |] eqn:EB; cbn [obind fst snd] in H; try discriminate. pose proof (BL _ _ _ L0 EB) as L1.
        destruct (step _ _ _ _ _ _ i d it) as [it1| |]; cbn [obind] in H; try discriminate. destruct (i_conv D it1); [injection H as -> _; exact L1|]. cbn [obind] in H. eapply IH; eauto.
  Qed.
End CG.

(** ** AMG::pre *)
Section Pre.
  Context {R : ring}.
  Local Open Scope ring_scope_istl.
  Variable inv : R -> option R.
  Variable eq0 : R -> bool.      (* *col != zero *)
  (** isDirichlet and diagonal (None: not hasDiagonal) of row i, amg.hh:817-829 *)
  Definition row_flags (i : nat) (row : list (nat * R)) : bool * option R :=
    fold_left (fun s c => if i =? fst c then (fst s, Some (snd c)) else (if eq0 (snd c) then fst s else false, snd s)) row (true, None).
  (** the loop over the rows, amg.hh:816-836; solve throws FMatrixError if the diagonal block is singular *)
  Fixpoint dirichlet (i : nat) (rows : smat R) (x b : vec R) : outcome (vec R) :=
    match rows with
    | nil => Ok x
    | row :: rows' =>
      obind (match row_flags i row with
             | (true, Some d) => match inv d with Some u => Ok (upd x i (u * vget b i)) | None => Throw EFMatrix end
             | _ => Ok x end) (fun x' => dirichlet (S i) rows' x' b)
    end.
  (** AMG::pre, amg.hh:802-879, sequential: pre of the sequential smoothers does nothing, so x and b are what is left in lhs_ and rhs_.  Result: x, b and the vectors
      lhs_, rhs_, update_ of all levels (the entries on the coarser levels are indeterminate). *)
  Definition amg_pre (fill1 fill2 fill3 : nat -> vec R) (ls : list (@mlevel R)) (C : smat R) (x b : vec R) : outcome (vec R * vec R * list (@lst R)) :=
    obind (dirichlet 0 (next ls C) x b) (fun x1 =>
      Ok (x1, b, zip3 (coarsen_vector fill1 x1 ls C) (coarsen_vector fill2 b ls C) (coarsen_vector fill3 x1 ls C))).

  (** Specification: the unknown i is not coupled to others in its equation, and has a diagonal entry *)
  Definition decoupled (A : smat R) (i : nat) : Prop := instored A i i /\ forall j, j <> i -> den A i j = r0.

  Hypothesis inv_ok : forall a b, inv a = Some b -> a * b = r1 /\ b * a = r1.
  Hypothesis eq0_ok : forall a, eq0 a = true <-> a = r0.
  Lemma row_flags_fold i (row : list (nat * R)) : forall f d, fold_left (fun s c => if i =? fst c then (fst s, Some (snd c)) else (if eq0 (snd c) then fst s else false, snd s)) row (f, d) =
    (f && forallb (fun c => (i =? fst c) || eq0 (snd c)) row, fold_left (fun s c => if i =? fst c then Some (snd c) else s) row d).
  Proof.
    induction row as [|[j a] row IH]; intros f d; cbn [fold_left forallb fst snd]; [rewrite andb_true_r; reflexivity|]. destruct (i =? j); cbn [orb andb]; rewrite IH; [reflexivity|].
    destruct (eq0 a), f; reflexivity.
  Qed.
  Lemma diag_fold i (row : list (nat * R)) : forall d, NoDup (map fst row) -> fold_left (fun s c => if i =? fst c then Some (snd c) else s) row d = if in_dec Nat.eq_dec i (map fst row) then Some (denrow row i) else d.
  Proof.
    induction row as [|[j a] row IH]; intros d HN; cbn [fold_left fst snd map]; [destruct (in_dec _ _ _) as [[]|]; reflexivity|]. apply NoDup_cons_iff in HN. destruct HN as [N1 N2].
    rewrite IH by auto. cbn [denrow]. destruct (Nat.eqb_spec i j) as [->|NE].
    - rewrite Nat.eqb_refl. destruct (in_dec Nat.eq_dec j (map fst row)); [contradiction|]. destruct (in_dec _ _ _) as [|F]; [reflexivity|]. exfalso. apply F. left. reflexivity.
    - destruct (Nat.eqb_spec j i); [congruence|]. destruct (in_dec Nat.eq_dec i (map fst row)) as [H|H], (in_dec Nat.eq_dec i (j :: map fst row)) as [G|G]; auto; exfalso; [apply G; right; auto|destruct G; [congruence|contradiction]].
  Qed.
  Lemma row_flags_spec m i (row : list (nat * R)) : row_wf m row ->
    (row_flags i row = (true, Some (denrow row i)) /\ In i (map fst row) /\ (forall j, j <> i -> denrow row j = r0)) \/
    ((forall d, row_flags i row <> (true, Some d)) /\ ~ (In i (map fst row) /\ forall j, j <> i -> denrow row j = r0)).
  Proof.
    intros HW. assert (HN : NoDup (map fst row)) by (apply (row_wf_NoDup m); auto). unfold row_flags. rewrite row_flags_fold, diag_fold by auto. cbn [andb].
    assert (FB : forallb (fun c => (i =? fst c) || eq0 (snd c)) row = true <-> forall j, j <> i -> denrow row j = r0).
    { rewrite forallb_forall. split.
      - intros H j Hj. destruct (in_dec Nat.eq_dec j (map fst row)) as [I|I]; [|apply denrow_notin; auto]. apply in_map_iff in I. destruct I as ([j' a] & E & I). cbn in E. subst j'.
        rewrite (denrow_in row j a) by auto. specialize (H _ I). cbn in H. apply orb_true_iff in H. destruct H as [H|H]; [apply Nat.eqb_eq in H; congruence|apply eq0_ok; auto].
      - intros H [j a] I. cbn. destruct (Nat.eqb_spec i j); cbn; auto. apply eq0_ok. rewrite <- (denrow_in row j a) by auto. apply H. auto. }
    destruct (in_dec Nat.eq_dec i (map fst row)) as [I|I]; [|right; split; [discriminate|intros [H _]; contradiction]].
    destruct (forallb _ row) eqn:EF; [left; split; auto; split; auto; apply FB; auto|right; split; [discriminate|]]. intros [_ H]. apply FB in H. congruence.
  Qed.
  Lemma skipn_nth {X} (A : list X) d : forall i, i < length A -> skipn i A = nth i A d :: skipn (S i) A.
  Proof. induction A as [|a A IH]; intros [|i] H; cbn in *; try lia; auto. rewrite (IH i) by lia. destruct A; reflexivity. Qed.
  Lemma row_case n (A : smat R) i : mat_wf n n A -> i < n ->
    (row_flags i (nth i A nil) = (true, Some (den A i i)) /\ decoupled A i) \/ ((forall d, row_flags i (nth i A nil) <> (true, Some d)) /\ ~ decoupled A i).
  Proof.
    intros [HL HF] Hi. rewrite Forall_forall in HF. destruct (row_flags_spec n i (nth i A nil)) as [(E & I & Z)|(E & N)]; [apply HF, nth_In; lia|left; split; auto; split; auto|right; split; auto].
  Qed.
  Lemma dirichlet_ok n (A : smat R) (b : vec R) : mat_wf n n A -> (forall k, k < n -> decoupled A k -> exists u, inv (den A k k) = Some u) ->
    forall m i x, (i + m)%nat = n -> length x = n -> exists x1, dirichlet i (skipn i A) x b = Ok x1 /\ length x1 = n /\
      forall k, k < n -> (k < i \/ ~ decoupled A k -> vget x1 k = vget x k) /\ (i <= k -> decoupled A k -> exists u, inv (den A k k) = Some u /\ vget x1 k = u * vget b k).
  Proof.
    intros HW HI. assert (HL : length A = n) by apply HW. induction m as [|m IH]; intros i x Hi Hx.
    - rewrite skipn_all2 by lia. exists x. cbn [dirichlet]. split; auto. split; auto. intros k Hk. split; auto. intros; lia.
    - rewrite (skipn_nth A nil) by lia. cbn [dirichlet]. destruct (row_case n A i HW ltac:(lia)) as [(E & DC)|(E & ND)].
      + rewrite E. destruct (HI i ltac:(lia) DC) as (u & Eu). rewrite Eu. cbn [obind]. destruct (IH (S i) (upd x i (u * vget b i)) ltac:(lia) ltac:(rewrite upd_length; auto)) as (x1 & E1 & L1 & H).
        exists x1. split; auto. split; auto. intros k Hk. destruct (H k Hk) as [H1 H2]. split.
        * intros [HH|HH]; [rewrite H1 by (left; lia)|rewrite H1 by (right; auto)]; rewrite vget_upd by lia; (destruct (Nat.eqb_spec k i); [subst; try lia; contradiction|reflexivity]).
        * intros HH DK. destruct (Nat.eq_dec k i) as [->|N]; [|apply H2; auto; lia]. exists u. split; auto. rewrite H1 by (left; lia). rewrite vget_upd, Nat.eqb_refl by lia. reflexivity.
      + assert (EE : (match row_flags i (nth i A nil) with (true, Some d) => match inv d with Some u => Ok (upd x i (u * vget b i)) | None => Throw EFMatrix end | _ => Ok x end) = Ok x).
        { destruct (row_flags i (nth i A nil)) as [[] [d|]]; auto. exfalso. apply (E d). reflexivity. }
        rewrite EE. cbn [obind]. destruct (IH (S i) x ltac:(lia) Hx) as (x1 & E1 & L1 & H). exists x1. split; auto. split; auto. intros k Hk. destruct (H k Hk) as [H1 H2]. split.
        * intros [HH|HH]; apply H1; [left; lia|right; auto].
        * intros HH DK. apply H2; auto. destruct (Nat.eq_dec k i); [subst; contradiction|lia].
  Qed.
  Lemma dirichlet_throws n (A : smat R) (b : vec R) k : mat_wf n n A -> k < n -> decoupled A k -> inv (den A k k) = None ->
    forall m i x, (i + m)%nat = n -> i <= k -> dirichlet i (skipn i A) x b = Throw EFMatrix.
  Proof.
    intros HW Hk DK EK. assert (HL : length A = n) by apply HW. induction m as [|m IH]; intros i x Hi Hik; [lia|].
    rewrite (skipn_nth A nil) by lia. cbn [dirichlet]. destruct (row_case n A i HW ltac:(lia)) as [(E & DC)|(E & ND)].
    - rewrite E. destruct (inv (den A i i)) as [u|] eqn:Eu; [|reflexivity]. cbn [obind]. apply IH; [lia|]. destruct (Nat.eq_dec i k); [subst; congruence|lia].
    - assert (EE : (match row_flags i (nth i A nil) with (true, Some d) => match inv d with Some u => Ok (upd x i (u * vget b i)) | None => Throw EFMatrix end | _ => Ok x end) = Ok x).
      { destruct (row_flags i (nth i A nil)) as [[] [d|]]; auto. exfalso. apply (E d). reflexivity. }
      rewrite EE. cbn [obind]. apply IH; [lia|]. destruct (Nat.eq_dec i k); [subst; contradiction|lia].
  Qed.
  (** C72.  AMG::pre satisfies the equations of all decoupled unknowns exactly, leaves all other unknowns and b alone, and prepares vectors of the sizes AMG::apply
      needs; if the diagonal entry of a decoupled unknown is singular it throws FMatrixError. *)
  Theorem C72_pre fill1 fill2 fill3 (pre post : smat R -> vec R -> vec R -> vec R) ls C x b : let A := next ls C in let n := length A in
    (forall k, length (fill1 k) = k) -> (forall k, length (fill2 k) = k) -> (forall k, length (fill3 k) = k) ->
    mat_wf n n A -> length x = n -> length b = n ->
    ((forall k, k < n -> decoupled A k -> exists u, inv (den A k k) = Some u) ->
      exists x1 st, amg_pre fill1 fill2 fill3 ls C x b = Ok (x1, b, st) /\ shape (length C) (coarsen_smoother pre post ls) st /\ length x1 = n /\
        forall k, k < n -> (decoupled A k -> sum n (fun j => den A k j * vget x1 j) = vget b k) /\ (~ decoupled A k -> vget x1 k = vget x k)) /\
    ((exists k, k < n /\ decoupled A k /\ inv (den A k k) = None) -> amg_pre fill1 fill2 fill3 ls C x b = Throw EFMatrix).
  Proof.
    intros A n F1 F2 F3 HW Hx Hb. split.
    - intros HI. destruct (dirichlet_ok n A b HW HI n 0 x eq_refl Hx) as (x1 & E & L & H). cbn [skipn] in E.
      unfold amg_pre. fold A. rewrite E. cbn [obind]. eexists x1, _. split; [reflexivity|]. split; [apply vectors_shape; auto|]. split; auto.
      intros k Hk. destruct (H k Hk) as [H1 H2]. split; [|intros; apply H1; auto]. intros DK. destruct (H2 (Nat.le_0_l k) DK) as (u & Eu & Ex). destruct (inv_ok _ _ Eu) as [U _].
      rewrite (sum_single n k) by (auto; intros j Hj NE; rewrite (proj2 DK j NE); apply rmul_0_l). rewrite Ex, rmul_assoc, U. apply rmul_1_l.
    - intros (k & Hk & DK & EK). unfold amg_pre. fold A. change A with (skipn 0 A) at 1. rewrite (dirichlet_throws n A b k HW Hk DK EK n 0 x eq_refl (Nat.le_0_l k)). reflexivity.
  Qed.
End Pre.

(** ** The preconditioners as objects used by a solver *)
Section Ends.
  Context {R : ring} (pos : R -> Prop).
  Hypothesis HO : ordered R pos.
  Local Open Scope ring_scope_istl.
  Add Ring oring6 : (oring_theory pos HO).
  Variable kdiv : R -> R -> R.
  Hypothesis kdiv_ok : forall a b, b <> r0 -> kdiv a b * b = a.
  Variable inv : R -> option R.
  Hypothesis inv_ok : forall a b, inv a = Some b -> a * b = r1 /\ b * a = r1.
  Hypothesis inv_pos : forall a, pos a -> exists u, inv a = Some u.
  Variable eq0 : R -> bool.
  Hypothesis eq0_ok : forall a, eq0 a = true <-> a = r0.

  (** SeqSOR and SeqSSOR: pre and post do nothing (preconditioners.hh:209-210, 230-231, 329-330, 368-369); apply as in Precond.v *)
  Definition seq_pre {n} (p : Datatypes.unit) (x b : @lvec R n) : Datatypes.unit * @lvec R n * @lvec R n := (p, x, b).
  Definition seq_post {n} (p : Datatypes.unit) (x : @lvec R n) : Datatypes.unit * @lvec R n := (p, x).
  Definition seq_papply {n} (f : vec R -> vec R -> outcome (vec R)) (p : Datatypes.unit) (v d : @lvec R n) : Datatypes.unit * @lvec R n := (p, mk n (vget (match f (val v) (val d) with Ok x => x | _ => val v end))).

  (** AMG: the state are the vectors lhs_, rhs_, update_ of all levels, which have the sizes of the levels *)
  Lemma shape_dec nc : forall (ls : list (@level R)) st, {shape nc ls st} + {~ shape nc ls st}.
  Proof.
    assert (SD : forall n (s : @lst R), {sized n s} + {~ sized n s}).
    { intros n s. unfold sized. destruct (Nat.eq_dec (length (t_lhs s)) n); [|right; tauto]. destruct (Nat.eq_dec (length (t_rhs s)) n); [|right; tauto]. destruct (Nat.eq_dec (length (t_upd s)) n); [left|right]; tauto. }
    induction ls as [|l ls IH]; intros [|s st]; cbn [shape]; try (right; tauto).
    - destruct st; [apply SD|right; tauto].
    - destruct (SD (length (l_A l)) s), (IH st); try (right; tauto). left; tauto.
  Defined.
  Definition amg_state (nc : nat) (L : list (@level R)) : Type := {st | shape nc L st}.
  Definition update_state {nc L} (p : amg_state nc L) (st : list (@lst R)) : amg_state nc L := match shape_dec nc L st with left H => exist _ st H | right _ => p end.
  Section Amg.
    Variables (fill1 fill2 fill3 : nat -> vec R) (ls : list (@mlevel R)) (C : smat R) (preS postS : smat R -> vec R -> vec R -> vec R).
    Variables (solve : vec R -> vec R -> vec R * vec R * bool) (damp : R) (steps gamma : nat).
    Let L := coarsen_smoother preS postS ls.
    (** AMG::pre (above), AMG::apply (Amg.v) and AMG::post (amg.hh:1140-1162: post of the sequential smoothers does nothing; the vectors are released) *)
    Definition obj_pre {n} (p : amg_state (length C) L) (x b : @lvec R n) : amg_state (length C) L * @lvec R n * @lvec R n :=
      match amg_pre inv eq0 fill1 fill2 fill3 ls C (val x) (val b) with Ok (x1, b1, st) => (update_state p st, mk n (vget x1), mk n (vget b1)) | _ => (p, x, b) end.
    Definition obj_papply {n} (p : amg_state (length C) L) (v d : @lvec R n) : amg_state (length C) L * @lvec R n :=
      match amg_apply solve damp steps steps gamma L (proj1_sig p) true (val v) (val d) with Ok (x, st, _) => (update_state p st, mk n (vget x)) | _ => (p, v) end.
    Definition obj_post {n} (p : amg_state (length C) L) (x : @lvec R n) : amg_state (length C) L * @lvec R n := (p, x).
  End Amg.

  Lemma mk_val n (x : vec R) : length x = n -> val (mk n (vget x)) = x.
  Proof. intros H. symmetry. apply vecf_eq; auto. Qed.

  (** the norm of the defect and the control of the iteration *)
  Variable D : Type.
  Variables (finite : D -> bool) (lessD : D -> D -> bool) (mul_ div_ : D -> D -> D) (zero_ tiny reduction : D) (is0 : D -> bool).
  Definition good_norm {n} (nrm : @lvec R n -> D) : Prop := (forall v, finite (nrm v) = true) /\ (forall v, is0 (nrm v) = true <-> v = vz) /\ lessD (nrm vz) tiny = true.
  Definition cg_run {n} (nrm : @lvec R n -> D) (A : smat R) {P} (pre : P -> @lvec R n -> @lvec R n -> P * @lvec R n * @lvec R n) papply post :=
    cg_apply (K := R) (V := lvec n) D finite lessD mul_ div_ zero_ tiny reduction (matop n A) (ldot n) nrm kdiv is0 P pre papply post.
  Definition loop_run {n} (nrm : @lvec R n -> D) (A : smat R) {P} (pre : P -> @lvec R n -> @lvec R n -> P * @lvec R n * @lvec R n) papply post :=
    loop_apply (K := R) (V := lvec n) D finite lessD mul_ div_ zero_ tiny reduction (matop n A) nrm P pre papply post.
  (** Specification: a run of a solver that ended normally after at most n iterations, converged, with the true residual in b, the exact solution after n iterations, and no
      larger error in the energy norm *)
  Definition solved {n} (A : smat R) {P} (x b : @lvec R n) (o : outcome (P * @lvec R n * @lvec R n * result D * list (nat * D))) : Prop :=
    exists p' x' b' res log, o = Ok (p', x', b', res, log) /\ r_converged D res = true /\ r_iterations D res <= n /\ val b' = residual n A (val b) (val x') /\
      (r_iterations D res = n -> mul n A (val x') = val b) /\
      forall xs, length xs = n -> mul n A xs = val b -> le_ pos (AmgSpd.energy n A xs (val x')) (AmgSpd.energy n A xs (val x)).
  (** Specification: ended normally, with the true residual in b and a smaller error in the energy norm unless no iteration was done or x was a solution *)
  Definition improved {n} (A : smat R) {P} (x b : @lvec R n) (o : outcome (P * @lvec R n * @lvec R n * result D * list (nat * D))) : Prop :=
    exists p' x' b' res log, o = Ok (p', x', b', res, log) /\ val b' = residual n A (val b) (val x') /\
      forall xs, length xs = n -> mul n A xs = val b -> le_ pos (AmgSpd.energy n A xs (val x')) (AmgSpd.energy n A xs (val x)) /\
        (1 <= r_iterations D res -> residual n A (val b) (val x) <> zerov n -> lt_ pos (AmgSpd.energy n A xs (val x')) (AmgSpd.energy n A xs (val x))).

  Lemma le_trans_ a b c : le_ pos a b -> le_ pos b c -> le_ pos a c.
  Proof. unfold le_. intros H1 H2. replace (c - a) with ((c - b) + (b - a)) by ring. apply (nneg_add pos HO); auto. Qed.
  Lemma residual_solution n (A : smat R) b x : length b = n -> residual n A b x = zerov n -> mul n A x = b.
  Proof.
    intros Hb H. symmetry. apply vecf_eq; auto. intros i Hi. assert (E : vget (residual n A b x) i = r0) by (rewrite H; apply zerov_get; auto). rewrite residual_get in E by auto.
    apply rsub_eq0 in E. exact E.
  Qed.
  Lemma cg_solved n (nrm : @lvec R n -> D) A W {P} (pre : P -> @lvec R n -> @lvec R n -> P * @lvec R n * @lvec R n) papply post : good_norm nrm -> mat_wf n n A -> spd pos n A -> spd_map pos n W ->
    (forall p x, snd (post p x) = x) -> (forall p b, val (snd (papply p vz b)) = W (val b)) ->
    (forall p x b, exists p1 x1, pre p x b = (p1, x1, b) /\ forall xs, length xs = n -> mul n A xs = val b -> le_ pos (AmgSpd.energy n A xs (val x1)) (AmgSpd.energy n A xs (val x))) ->
    forall maxit p x b, n <= maxit -> solved A x b (cg_run nrm A pre papply post maxit p x b).
  Proof.
    intros (N1 & N2 & N3) HW HA HWs Hpost Hp Hpre maxit p x b Hm. destruct (Hpre p x b) as (p1 & x1 & EP & HE).
    destruct (C72_cg pos HO kdiv kdiv_ok n D finite lessD mul_ div_ zero_ tiny reduction nrm is0 N1 N2 N3 A W HW HA P pre papply post Hpost maxit p x b p1 x1 b HWs Hp Hm EP)
      as (p' & x' & b' & rs & log & E & CV & IT & RS & EX & KS & OPT).
    exists p', x', b', rs, log. split; [exact E|]. split; [exact CV|]. split; [exact IT|]. split; [exact RS|]. split.
    - intros Hn. apply residual_solution; [apply val_length|]. rewrite <- RS. apply EX, Hn.
    - intros xs Hxs Exs. apply (le_trans_ _ (AmgSpd.energy n A xs (val x1))); [|apply HE; auto].
      specialize (OPT vz (ks_zero _ _ _ _) xs Hxs Exs). rewrite vadd_0 in OPT. exact OPT.
  Qed.
  Lemma le_lt_trans_ a b c : le_ pos a b -> lt_ pos b c -> lt_ pos a c.
  Proof. unfold le_, lt_. intros H1 H2. replace (c - a) with ((c - b) + (b - a)) by ring. apply (pos_add pos HO); auto. Qed.
  Lemma lt_le_trans_ a b c : lt_ pos a b -> le_ pos b c -> lt_ pos a c.
  Proof. unfold le_, lt_. intros H1 H2. replace (c - a) with ((b - a) + (c - b)) by ring. apply (pos_add pos HO); auto. Qed.
  Lemma mul_error n (A : smat R) (x xs b : vec R) : mul n A xs = b -> mul n A (vecf n (fun i => vget x i - vget xs i)) = vecf n (fun i => - vget (residual n A b x) i).
  Proof.
    intros E. unfold mul at 1. apply vecf_ext. intros i Hi. rewrite residual_get by auto. rewrite <- E. unfold mul. rewrite vecf_get by auto.
    rewrite (sum_ext n (fun j => den A i j * vget (vecf n (fun i0 => vget x i0 - vget xs i0)) j) (fun j => den A i j * vget x j - den A i j * vget xs j)) by (intros j Hj; rewrite vecf_get by auto; ring).
    rewrite sum_sub. ring.
  Qed.
  Lemma energy_solution n A (x xs b : vec R) : mul n A xs = b -> residual n A b x = zerov n -> AmgSpd.energy n A xs x = r0.
  Proof.
    intros E Z. unfold AmgSpd.energy. cbv zeta. rewrite (mul_error n A x xs b E), Z. unfold dot. apply sum_zero. intros i Hi. rewrite vecf_get, zerov_get by auto. ring.
  Qed.
  Lemma energy_positive n A (x xs b : vec R) : spd pos n A -> mul n A xs = b -> residual n A b x <> zerov n -> pos (AmgSpd.energy n A xs x).
  Proof.
    intros HA E Z. unfold AmgSpd.energy. cbv zeta. apply HA; [apply vecf_length|]. intros E0. apply Z. pose proof (mul_error n A x xs b E) as M. rewrite E0, (mul_0 pos HO) in M.
    apply vecf_eq; [apply residual_length|]. intros i Hi. assert (G : vget (zerov n) i = - vget (residual n A b x) i) by (rewrite M, vecf_get by auto; reflexivity).
    rewrite zerov_get in G by auto. transitivity (- - vget (residual n A b x) i); [ring|]. rewrite <- G. ring.
  Qed.
  Lemma loop_improved n (nrm : @lvec R n -> D) A W {P} (pre : P -> @lvec R n -> @lvec R n -> P * @lvec R n * @lvec R n) papply post : good_norm nrm -> mat_wf n n A -> spd pos n A ->
    keeps n W -> W (zerov n) = zerov n -> reduces pos n A W -> (forall p x, snd (post p x) = x) -> (forall p b, val (snd (papply p vz b)) = W (val b)) ->
    (forall p x b, exists p1 x1, pre p x b = (p1, x1, b) /\ forall xs, length xs = n -> mul n A xs = val b -> le_ pos (AmgSpd.energy n A xs (val x1)) (AmgSpd.energy n A xs (val x))) ->
    forall maxit p x b, improved A x b (loop_run nrm A pre papply post maxit p x b).
  Proof.
    intros (N1 & N2 & N3) HW HA KW W0 RW Hpost Hp Hpre maxit p x b. destruct (Hpre p x b) as (p1 & x1 & EP & HE).
    destruct (C72_loop pos HO n D finite lessD mul_ div_ zero_ tiny reduction nrm N1 A W HW HA P pre papply post Hpost maxit p x b p1 x1 b KW W0 RW Hp EP) as (p' & x' & b' & rs & log & E & RS & H).
    exists p', x', b', rs, log. split; [exact E|]. split; [exact RS|]. intros xs Hxs Exs. destruct (H xs Hxs Exs) as [H1 H2]. specialize (HE xs Hxs Exs). split; [eapply le_trans_; eauto|].
    intros HI HR. destruct (vec_dec pos HO n _ (residual_length n A (val b) (val x1))) as [Z|(i & Hi & Z)].
    - eapply le_lt_trans_; [exact H1|]. rewrite (energy_solution n A (val x1) xs (val b)) by auto. unfold lt_. replace (AmgSpd.energy n A xs (val x) - r0) with (AmgSpd.energy n A xs (val x)) by ring.
      apply (energy_positive n A (val x) xs (val b)); auto.
    - eapply lt_le_trans_; [apply H2; auto|exact HE]. intros E0. apply Z. rewrite E0. apply zerov_get. auto.
  Qed.

  (** C72.  CGSolver with SeqSSOR, and LoopSolver with SeqSOR (forward or backward) or SeqSSOR. *)
  Theorem C72_sor n (nrm : @lvec R n -> D) A k w : good_norm nrm -> mat_wf n n A -> spd pos n A -> lt_ pos r0 w -> lt_ pos w (r1 + r1) -> 1 <= k ->
    (forall maxit x b, n <= maxit -> solved A x b (cg_run nrm A seq_pre (seq_papply (seqssor_apply inv k A w)) seq_post maxit tt x b)) /\
    (forall maxit x b, improved A x b (loop_run nrm A seq_pre (seq_papply (seqssor_apply inv k A w)) seq_post maxit tt x b)) /\
    (forall fw maxit x b, improved A x b (loop_run nrm A seq_pre (seq_papply (seqsor_apply inv fw k A w)) seq_post maxit tt x b)).
  Proof.
    intros GN HW HA Hw Hw2 Hk. destruct (C71_sweeps pos HO inv inv_ok inv_pos n A k w HW HA Hw Hw2 Hk) as (F & B & SS & E & KF & KB & RF & RB & RS & AD & SP).
    assert (PA : forall f W, (forall d, length d = n -> f (zerov n) d = Ok (W d)) -> keeps n W -> forall (p : Datatypes.unit) (b : @lvec R n), val (snd (seq_papply f p vz b)) = W (val b)).
    { intros f W Ef KW p b. unfold seq_papply. cbn [snd]. change (val (vz : @lvec R n)) with (@zerov R n). rewrite Ef by apply val_length. apply mk_val, KW, val_length. }
    assert (AD' : adjoint n B F) by (intros d e Hd He; rewrite (dot_sym (ord_comm _ _ HO)), <- AD by auto; apply (dot_sym (ord_comm _ _ HO))).
    assert (PR : forall (p : Datatypes.unit) (y c : @lvec R n), exists p1 x1, seq_pre p y c = (p1, x1, c) /\ forall xs, length xs = n -> mul n A xs = val c -> le_ pos (AmgSpd.energy n A xs (val x1)) (AmgSpd.energy n A xs (val y))).
    { intros p y c. exists p, y. split; [reflexivity|]. intros. left. ring. }
    split; [|split].
    - intros maxit x b Hm. apply (cg_solved n nrm A SS); auto. apply PA; [apply E|apply SP].
    - intros maxit x b. apply (loop_improved n nrm A SS); auto; [apply SP|apply (adjoint_0 pos HO n SS SS); apply SP|apply PA; [apply E|apply SP]].
    - intros fw maxit x b. destruct fw.
      + apply (loop_improved n nrm A F); auto; [apply (adjoint_0 pos HO n F B); auto|apply PA; [apply E|auto]].
      + apply (loop_improved n nrm A B); auto; [apply (adjoint_0 pos HO n B F); auto|apply PA; [apply E|auto]].
  Qed.

  (** AMG::pre does not increase the error *)
  Lemma pre_energy n (A : smat R) xs (x x1 b : vec R) : sym n A -> spd pos n A -> length x = n -> length x1 = n -> length xs = n -> mul n A xs = b ->
    (forall i, i < n -> (forall j, j <> i -> den A i j = r0) /\ den A i i * vget x1 i = vget b i \/ vget x1 i = vget x i) -> (forall i, i < n -> den A i i <> r0) ->
    le_ pos (AmgSpd.energy n A xs x1) (AmgSpd.energy n A xs x).
  Proof.
    intros HS HA Hx Hx1 Hxs Exs H HD. set (e := vecf n (fun i => vget x i - vget xs i)). set (e1 := vecf n (fun i => vget x1 i - vget xs i)). set (f := vecf n (fun i => vget x i - vget x1 i)).
    assert (EE : e = Amg.vadd n e1 f). { symmetry. unfold Amg.vadd. apply vecf_ext. intros i Hi. unfold e1, f. rewrite !vecf_get by auto. ring. }
    assert (DZ : forall i, i < n -> (forall j, j <> i -> den A i j = r0) -> den A i i * vget x1 i = vget b i -> vget e1 i = r0).
    { intros i Hi DC E1. unfold e1. rewrite vecf_get by auto. apply (mul_cancel pos HO (den A i i)); [apply HD; auto|].
      rewrite <- Exs in E1. unfold mul in E1. rewrite vecf_get, (sum_single n i) in E1 by (auto; intros j Hj NE; rewrite (DC j NE); ring).
      transitivity (den A i i * vget x1 i - den A i i * vget xs i); [ring|]. rewrite E1. ring. }
    assert (OR : dot n (mul n A f) e1 = r0).
    { unfold dot. apply sum_zero. intros i Hi. destruct (H i Hi) as [[DC E1]|E1]; [rewrite DZ by auto; ring|].
      replace (vget (mul n A f) i) with (@r0 R); [ring|]. symmetry. unfold mul. rewrite vecf_get by auto. apply sum_zero. intros j Hj. destruct (H j Hj) as [[DC E2]|E2].
      - destruct (Nat.eq_dec i j) as [->|N]; [unfold f; rewrite vecf_get, E1 by auto; ring|]. rewrite (HS i j) by auto. rewrite DC by auto. ring.
      - unfold f. rewrite vecf_get, E2 by auto. ring. }
    unfold le_, AmgSpd.energy. fold e e1. cbv zeta. rewrite EE, mul_vadd by exact (ord_comm _ _ HO). 
    rewrite dot_vadd. rewrite !(dot_sym (ord_comm _ _ HO) n _ (Amg.vadd n e1 f)), !dot_vadd.
    rewrite !(dot_sym (ord_comm _ _ HO) n _ (mul n A f)), OR. rewrite (dot_sym (ord_comm _ _ HO) n f), (dot_mul (ord_comm _ _ HO) n A e1 f HS), (dot_sym (ord_comm _ _ HO) n e1 (mul n A f)), OR.
    rewrite (dot_sym (ord_comm _ _ HO) n e1). match goal with |- nneg pos ?t => replace t with (dot n (mul n A f) f) by ring end. apply (spd_nneg pos HO); auto. apply vecf_length.
  Qed.

  (** C72.  CGSolver (and, for the damping factors of C71, LoopSolver) with AMG set up for the matrix. *)
  Theorem C72_amg depends influences isolated excludedBorder mn mx maxDist maxConn skipI Dt quot dm1 deq dgt maxLevel target rate (s : smoother) k w damp steps gamma (A : smat R) fill1 fill2 fill3 :
    let n := length A in let preS := run (preSmooth inv s k w) in let postS := run (postSmooth inv s k w) in
    mn <= mx -> 1 <= mx -> mat_wf n n A -> sym_pat A -> spd pos n A ->
    lt_ pos r0 w -> lt_ pos w (r1 + r1) -> 1 <= k -> 1 <= steps -> le_ pos r0 damp -> Nat.Odd gamma \/ le_ pos damp (r1 + r1) ->
    (forall k, length (fill1 k) = k) -> (forall k, length (fill2 k) = k) -> (forall k, length (fill3 k) = k) ->
    exists ls C, build depends influences isolated excludedBorder mn mx maxDist maxConn skipI Dt quot dm1 deq dgt maxLevel target rate A = Ok (Some (ls, C)) /\
      forall solve (nrm : @lvec R n -> D), exact C solve -> good_norm nrm ->
      (forall x b, length x = n -> length b = n -> exists x1 st, amg_pre inv eq0 fill1 fill2 fill3 ls C x b = Ok (x1, b, st)) /\
      (forall (p : amg_state (length C) (coarsen_smoother preS postS ls)) v d, length v = n -> length d = n ->
        exists x st, amg_apply solve damp steps steps gamma (coarsen_smoother preS postS ls) (proj1_sig p) true v d = Ok (x, st, true)) /\
      (forall maxit p x b, n <= maxit ->
        solved A x b (cg_run nrm A (obj_pre fill1 fill2 fill3 ls C preS postS) (obj_papply ls C preS postS solve damp steps gamma) (obj_post ls C preS postS) maxit p x b)) /\
      (Nat.Even gamma /\ le_ pos damp (r1 + r1) \/ le_ pos damp r1 -> forall maxit p x b,
        improved A x b (loop_run nrm A (obj_pre fill1 fill2 fill3 ls C preS postS) (obj_papply ls C preS postS solve damp steps gamma) (obj_post ls C preS postS) maxit p x b)).
  Proof.
    intros n preS postS Hm H1 HW HP HA Hw Hw2 Hk Hs Hd HG F1 F2 F3.
    destruct (C71_amg pos HO inv inv_ok inv_pos depends influences isolated excludedBorder mn mx maxDist maxConn skipI Dt quot dm1 deq dgt maxLevel target rate s k w damp steps gamma A Hm H1 HW HP HA Hw Hw2 Hk Hs Hd HG)
      as (ls & C & EB & EN & _ & HS).
    exists ls, C. split; [exact EB|]. intros solve nrm HE GN. destruct (HS solve HE) as (W & SW & RW & AP). clear HS. fold preS postS in AP.
    assert (HD : forall i, i < n -> pos (den A i i)) by (intros i Hi; apply (spd_diag pos HO n); auto).
    assert (PR : forall x b, length x = n -> length b = n -> exists x1 st, amg_pre inv eq0 fill1 fill2 fill3 ls C x b = Ok (x1, b, st) /\ length x1 = n /\
       forall xs, length xs = n -> mul n A xs = b -> le_ pos (AmgSpd.energy n A xs x1) (AmgSpd.energy n A xs x)).
    { intros x b Hx Hb. pose proof (C72_pre inv eq0 inv_ok eq0_ok fill1 fill2 fill3 preS postS ls C x b) as CP. cbv zeta in CP. rewrite EN in CP. destruct (CP F1 F2 F3 HW Hx Hb) as [C1 _].
      destruct C1 as (x1 & st & E & _ & L & H). { intros i Hi _. apply inv_pos, HD, Hi. }
      exists x1, st. split; [exact E|]. split; [exact L|]. intros xs Hxs Exs. apply (pre_energy n A xs x x1 b); auto; [apply HA| |intros i Hi; apply (pos_neq pos HO); auto].
      intros i Hi. destruct (H i Hi) as [G1 G2]. destruct (row_case eq0 eq0_ok n A i HW Hi) as [[_ DC]|[_ ND]]; [left|right; auto].
      split; [apply DC|]. rewrite <- (G1 DC). symmetry. apply (sum_single n i); auto. intros j Hj NE. rewrite (proj2 DC j NE). ring. }
    assert (OP : forall (p : amg_state (length C) (coarsen_smoother preS postS ls)) (x b : @lvec R n), exists p1 x1, obj_pre fill1 fill2 fill3 ls C preS postS p x b = (p1, x1, b) /\
       forall xs, length xs = n -> mul n A xs = val b -> le_ pos (AmgSpd.energy n A xs (val x1)) (AmgSpd.energy n A xs (val x))).
    { intros p x b. destruct (PR (val x) (val b) (val_length n x) (val_length n b)) as (x1 & st & E & L & H). unfold obj_pre. rewrite E. eexists _, _. split; [f_equal|].
      - apply val_inj. apply mk_val, val_length.
      - intros xs Hxs Exs. rewrite mk_val by auto. apply H; auto. }
    assert (OA : forall (p : amg_state (length C) (coarsen_smoother preS postS ls)) (b : @lvec R n), val (snd (obj_papply ls C preS postS solve damp steps gamma p vz b)) = W (val b)).
    { intros [st SH] b. unfold obj_papply. cbn [proj1_sig]. destruct (AP st (val (vz : @lvec R n)) (val b) SH (val_length n _) (val_length n b)) as (st' & E & _). rewrite E. cbn [snd]. apply mk_val, SW, val_length. }
    split; [intros x b Hx Hb; destruct (PR x b Hx Hb) as (x1 & st & E & _); eauto|].
    split; [intros [st SH] v d Hv Hd'; destruct (AP st v d SH Hv Hd') as (st' & E & _); cbn [proj1_sig]; eauto|].
    split.
    - intros maxit p x b Hmx. apply (cg_solved n nrm A W); auto.
    - intros HC maxit p x b. apply (loop_improved n nrm A W); auto; [apply SW|apply (adjoint_0 pos HO n W W); apply SW].
  Qed.
End Ends.

(** ** The hypotheses are met: rational numbers *)
Definition qnorm {n} (v : @lvec Qcring n) : Qc := sum (R := Qcring) n (fun i => absQ (lget v i)).
Definition q_eq0 (a : Qcring) : bool := if Qc_eq_dec a (Q2Qc 0) then true else false.
Lemma absQ_nneg a : nneg qpos (absQ a) /\ (absQ a = Q2Qc 0 -> a = Q2Qc 0).
Proof.
  unfold absQ, ltQ. destruct (a ?= 0)%Qc eqn:E.
  - apply Qceq_alt in E. subst. split; [left; reflexivity|auto].
  - apply Qclt_alt in E. assert (P : (0 < - a)%Qc) by (apply Qclt_minus_iff in E; rewrite Qcplus_0_l in E; exact E). split; [right; exact P|]. intros E0. rewrite E0 in P. discriminate P.
  - apply Qcgt_alt in E. split; [right; exact E|]. auto.
Qed.
Lemma qnorm_good n : good_norm (R := Qcring) Qc (fun _ => true) ltQ exTiny exIs0 (n := n) qnorm.
Proof.
  split; [reflexivity|]. split.
  - intros v. unfold exIs0. destruct (Qc_eq_dec (qnorm v) 0%Qc) as [E|E]; split; intros H; auto; try discriminate.
    + apply (lvec_ext n). intros i Hi. rewrite (lget_vz n) by auto. destruct (absQ_nneg (lget v i)) as [_ Z]. apply Z.
      destruct (ord_tri _ _ Qc_ordered (absQ (lget v i))) as [Y|Y]; [exact Y|]. exfalso. apply (pos_neq qpos Qc_ordered (qnorm v)); [|exact E].
      apply (sum_pos qpos Qc_ordered n _ i); auto; [|intros j Hj; apply absQ_nneg]. destruct (proj1 (absQ_nneg (lget v i))) as [Y0|Y0]; [|exact Y0]. rewrite Y0 in Y. destruct Y as [Y|Y]; exfalso; discriminate Y.
    + exfalso. apply E. subst v. unfold qnorm. apply (sum_zero (R := Qcring)). intros i Hi. rewrite (lget_vz n) by auto. reflexivity.
  - unfold qnorm. rewrite (sum_zero (R := Qcring)); [reflexivity|]. intros i Hi. rewrite (lget_vz n) by auto. reflexivity.
Qed.
(** hypotheses of C72_sor and C72_amg about the numbers (those about the matrix: C71_nonvacuous) *)
Example C72_numbers : (forall a b : Qcring, b <> r0 -> rmul (exDiv a b) b = a) /\ (forall a, q_eq0 a = true <-> a = Q2Qc 0) /\ (forall a : Qcring, qpos a -> exists u, Qcinv_opt a = Some u).
Proof.
  split; [|split].
  - intros a b H. change (Qcmult (Qcdiv a b) b = a). field. exact H.
  - intros a. unfold q_eq0. destruct (Qc_eq_dec a (Q2Qc 0)); split; auto; discriminate.
  - exact Qcinv_pos.
Qed.
Definition qsummary {P n} (o : outcome (P * @lvec Qcring n * @lvec Qcring n * result Qc * list (nat * Qc))) : option (nat * bool * list Q * list Q) :=
  match o with Ok (_, x, b, r, _) => Some (r_iterations _ r, r_converged _ r, map this (val x), map this (val b)) | _ => None end.
(** CGSolver with SeqSSOR, and with AMG over three levels with the default damping factor, on the matrix lap4 1/100 (reduction 1/10^6): the hypotheses hold, the runs are
    shown *)
Definition run_ssor maxit := cg_run (R := Qcring) exDiv Qc (fun _ => true) ltQ Qcmult Qcdiv 0%Qc exTiny exTiny exIs0 (n := 4) qnorm (lap4 (q 1 1))
  seq_pre (seq_papply (seqssor_apply (R := Qcring) Qcinv_opt 1 (lap4 (q 1 1)) (q 1 1))) seq_post maxit tt vz (mk (R := Qcring) 4 (fun i => q (Z.of_nat i) 1)).
Example C72_ssor_runs : qsummary (run_ssor 4) = Some (3, true, [4 # 7; 8 # 7; 13 # 7; 17 # 7]%Q, [0; 0; 0; 0]%Q).
Proof. vm_compute. reflexivity. Qed.
Definition run_amg (A : smat Qcring) maxit : option (nat * bool * list Q * list Q) :=
  match bld A with
  | Ok (Some (ls, C)) =>
    let preS := run (R := Qcring) (preSmooth (R := Qcring) Qcinv_opt UseSOR 1 (q 1 1)) in let postS := run (R := Qcring) (postSmooth (R := Qcring) Qcinv_opt UseSOR 1 (q 1 1)) in
    let fill := fun n => repeat (q 7 1) n in
    match shape_dec (R := Qcring) (length C) (coarsen_smoother (R := Qcring) preS postS ls) [z_ 4; z_ 2; z_ 1] with
    | left H => qsummary (cg_run (R := Qcring) exDiv Qc (fun _ => true) ltQ Qcmult Qcdiv 0%Qc exTiny exTiny exIs0 (n := 4) qnorm A
        (obj_pre (R := Qcring) Qcinv_opt q_eq0 fill fill fill ls C preS postS) (obj_papply (R := Qcring) ls C preS postS (solve1 C) (q 8 5) 2 1) (obj_post (R := Qcring) ls C preS postS)
        maxit (exist _ [z_ 4; z_ 2; z_ 1] H) vz (mk (R := Qcring) 4 (fun i => q (Z.of_nat i) 1)))
    | right _ => None
    end
  | _ => None
  end.
Example C72_amg_runs : run_amg (lap4 (q 1 1)) 4 = Some (2, true, [4 # 7; 8 # 7; 13 # 7; 17 # 7]%Q, [0; 0; 0; 0]%Q).
Proof. vm_compute. reflexivity. Qed.
(** AMG::pre: the third unknown is decoupled (its offdiagonal entry is a stored zero) *)
Example C72_pre_runs : let A : smat Qcring := [[(0, q 2 1); (1, q (-1) 1)]; [(0, q (-1) 1); (1, q 2 1)]; [(0, q 0 1); (2, q 4 1)]] in
  decoupled (R := Qcring) A 2 /\ amg_pre (R := Qcring) Qcinv_opt q_eq0 (fun n => repeat (q 7 1) n) (fun n => repeat (q 7 1) n) (fun n => repeat (q 7 1) n) [] A [q 5 1; q 6 1; q 7 1] [q 1 1; q 1 1; q 1 1] =
    Ok ([q 5 1; q 6 1; q 1 4], [q 1 1; q 1 1; q 1 1], [mklst (R := Qcring) [q 5 1; q 6 1; q 1 4] [q 1 1; q 1 1; q 1 1] [q 5 1; q 6 1; q 1 4]]).
Proof.
  cbv zeta. split; [|vm_compute; reflexivity]. split; [right; left; reflexivity|]. intros [|[|[|j]]] H; try reflexivity. congruence.
Qed.
Print Assumptions C72_cg.
Print Assumptions C72_loop.
Print Assumptions C72_pre.
Print Assumptions C72_sor.
Print Assumptions C72_amg.
