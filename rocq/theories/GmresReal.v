(** * GMRes and FGMRes over the real numbers: C28 *)
From Coq Require Import Arith List Lia Bool Reals Lra.
From Verif Require Import Ring Sums Outcome Solvers Gmres GmresExact Rotations VRing.
Import ListNotations.
Open Scope nat_scope.
Delimit Scope R_scope with R.

Definition Rring : ring.
Proof. refine (mkRing R 0%R 1%R Rplus Rmult Ropp _ _ _ _ _ _ _ _ _); intros; ring. Defined.
Definition Rltb (a b : R) : bool := if Rlt_dec a b then true else false.
Definition Risb (a : R) : bool := if Req_EM_T a 0%R then true else false.
Lemma Rltb_true a b : (a < b)%R -> Rltb a b = true.
Proof. unfold Rltb. destruct (Rlt_dec a b); auto. Qed.
Lemma Rltb_false a b : (b <= a)%R -> Rltb a b = false.
Proof. unfold Rltb. destruct (Rlt_dec a b); auto. lra. Qed.
(** Euclidean structure: a symmetric, bilinear, positive semidefinite scalar product *)
Record euclidean {V : vspace Rring} (dot : V -> V -> R) : Prop := {
  eu_sym : forall a b, dot a b = dot b a;
  eu_add : forall a b c, dot (vadd a b) c = (dot a c + dot b c)%R;
  eu_scale : forall k a c, dot (vscale k a) c = (k * dot a c)%R;
  eu_pos : forall a, (0 <= dot a a)%R }.
Definition norm_of {V : vspace Rring} (dot : V -> V -> R) (v : V) : R := sqrt (dot v v).
(** a rotation was computed for (dx,dy) without using the cut-off 1e-15 of generatePlaneRotation *)
Definition no_cutoff (q : R * R) : Prop := (reps <= Rabs (snd q) /\ (fst q = 0 \/ reps <= Rabs (fst q)))%R.
Definition real_gmres {V : vspace Rring} (dot : V -> V -> R) (A : V -> V) {P} (pre : P -> V -> V -> P * V * V) (papply : P -> V -> V -> P * V) (post : P -> V -> P * V)
    (reduction : R) (flex : bool) (fuel m maxit : nat) (p : P) (x b : V) (red : R) :=
  gmres_apply4 (K := Rring) (fun _ => true) Rltb Rmult Rdiv 0%R (/ 10 ^ 30)%R reduction A dot (norm_of dot) Rdiv Rabs Risb (fun a => Rltb (Rabs a) (/ 10 ^ 80)%R) genrot
    P pre papply post flex fuel m maxit p x b red.
Lemma pow10_pos n : (0 < / 10 ^ n)%R.
Proof. apply Rinv_0_lt_compat, pow_lt. lra. Qed.
Section C28.
  Context {V : vspace Rring} (dot : V -> V -> R) (A W : V -> V) {P : Type} (pre : P -> V -> V -> P * V * V) (papply : P -> V -> V -> P * V) (post : P -> V -> P * V).
  Lemma real_residual reduction flex fuel m maxit p x b red p' x' b' res log prs :
    euclidean dot -> linear A -> (flex = false -> linear W) -> (flex = false -> forall p d, snd (papply p vz d) = W d) ->
    (flex = false -> forall p1 x1 b1, pre p x b = (p1, x1, b1) -> b1 = b) ->
    0 < m -> real_gmres dot A pre papply post reduction flex fuel m maxit p x b red = Some (Ok (p', x', b', res, log, prs)) ->
    (forall q, In q prs -> no_cutoff q) -> (r_iterations R res < maxit \/ maxit <= 1 \/ (maxit - 1) mod m <> 0) ->
    exists p1 x1 b1 p2 x2, pre p x b = (p1, x1, b1) /\ post p2 x2 = (p', x') /\ last_defect R log = Some (norm_of dot (resid A W flex b1 x2)).
  Proof.
    intros [E1 E2 E3 E4] LA LW LP HB Hm H HQ HM. eapply (gmres_residual (K := Rring)) with (W := W); try exact H; auto.
    - intros. apply Rmult_comm.
    - intros v. unfold norm_of. apply (sqrt_sqrt (dot v v)). auto.
    - intros a. unfold Risb. destruct (Req_EM_T a 0); split; intros; auto; discriminate.
    - intros a c Hc. cbn in *. field. auto.
    - intros a v Ha. unfold norm_of. cbn in Ha. rewrite <- Ha. symmetry. apply sqrt_Rsqr_abs.
    - change (Rltb (Rabs 0) (/ 10 ^ 80)%R = true). rewrite Rabs_R0. apply Rltb_true, pow10_pos.
    - change (Rltb 0%R (/ 10 ^ 30)%R = true). apply Rltb_true, pow10_pos.
    - intros [dx dy] Hq. destruct (HQ _ Hq) as [Q1 Q2]. cbn [fst snd] in *. destruct (C29_annihilates dx dy Q1 Q2) as [A1 [A2 A3]]. split; [|split]; cbn [fst snd].
      + apply C29_unit.
      + exact A1.
      + exact A3.
  Qed.
  (** RestartedFlexibleGMResSolver, any preconditioner: the last reported defect is the norm of the residual b - A x of the returned x (x before post,
      b after pre), unless the last iteration was a single one left over by the restarts. *)
  Theorem C28_fgmres_residual reduction fuel m maxit p x b red p' x' b' res log prs : euclidean dot -> linear A -> 0 < m ->
    real_gmres dot A pre papply post reduction true fuel m maxit p x b red = Some (Ok (p', x', b', res, log, prs)) ->
    (forall q, In q prs -> no_cutoff q) -> (r_iterations R res < maxit \/ maxit <= 1 \/ (maxit - 1) mod m <> 0) ->
    exists p1 x1 b1 p2 x2, pre p x b = (p1, x1, b1) /\ post p2 x2 = (p', x') /\ last_defect R log = Some (norm_of dot (vsub b1 (A x2))).
  Proof. intros HE LA Hm H HQ HM. eapply (real_residual reduction true) in H; eauto; discriminate. Qed.
  (** RestartedGMResSolver with a linear preconditioner W: the last reported defect is the norm of the preconditioned residual W (b - A x). *)
  Theorem C28_gmres_residual reduction fuel m maxit p x b red p' x' b' res log prs : euclidean dot -> linear A -> linear W -> (forall p d, snd (papply p vz d) = W d) ->
    (forall p1 x1 b1, pre p x b = (p1, x1, b1) -> b1 = b) -> 0 < m ->
    real_gmres dot A pre papply post reduction false fuel m maxit p x b red = Some (Ok (p', x', b', res, log, prs)) ->
    (forall q, In q prs -> no_cutoff q) -> (r_iterations R res < maxit \/ maxit <= 1 \/ (maxit - 1) mod m <> 0) ->
    exists p1 x1 p2 x2, pre p x b = (p1, x1, b) /\ post p2 x2 = (p', x') /\ last_defect R log = Some (norm_of dot (W (vsub b (A x2)))).
  Proof.
    intros HE LA LW LP HB Hm H HQ HM. eapply (real_residual reduction false) in H; eauto. destruct H as [p1 [x1 [b1 [p2 [x2 [H1 [H2 H3]]]]]]].
    pose proof (HB _ _ _ H1). subst b1. exists p1, x1, p2, x2. auto.
  Qed.
End C28.

(** ** C54: the residual is minimal over the space of the last restart cycle, and the reported defects do not grow *)
Section C54.
  Context {V : vspace Rring} (dot : V -> V -> R) (A W : V -> V) {P : Type} (pre : P -> V -> V -> P * V * V) (papply : P -> V -> V -> P * V) (post : P -> V -> P * V).
  Local Notation norm := (norm_of dot).
  (** linear combinations of a list of vectors *)
  Inductive combination (ds : list V) : V -> Prop :=
  | comb_zero : combination ds vz
  | comb_add c d y : In d ds -> combination ds y -> combination ds (vadd (vscale c d) y).
  Lemma combination_lincomb ds y : combination ds y <-> lincomb ds y.
  Proof.
    split.
    - induction 1; [apply lcb_zero|]. apply lcb_add; try (intros; apply Rmult_comm); auto. apply lcb_scale; try (intros; apply Rmult_comm). apply lcb_in; auto; intros; apply Rmult_comm.
    - intros [f ->]. assert (G : forall l f, incl l ds -> combination ds (fcomb f l)); [|apply G; intros v Hv; auto].
      clear. induction l as [|u l IH]; intros f H; cbn [fcomb]; constructor; [apply H; cbn; auto|apply IH; intros v Hv; apply H; cbn; auto].
  Qed.
  Lemma real_best reduction flex fuel m maxit p x b red p' x' b' res log prs :
    euclidean dot -> linear A -> (flex = false -> linear W) -> (flex = false -> forall p d, snd (papply p vz d) = W d) ->
    (flex = false -> forall p1 x1 b1, pre p x b = (p1, x1, b1) -> b1 = b) ->
    0 < m -> real_gmres dot A pre papply post reduction flex fuel m maxit p x b red = Some (Ok (p', x', b', res, log, prs)) ->
    (forall q, In q prs -> no_cutoff q) -> (r_iterations R res < maxit \/ maxit <= 1 \/ (maxit - 1) mod m <> 0) ->
    exists p1 x1 b1 p2 x2 xc q j, pre p x b = (p1, x1, b1) /\ post p2 x2 = (p', x') /\ r_iterations R res = (q * m + j)%nat /\ j <= m /\ (j = 0 -> q = 0) /\ (q = 0 -> xc = x1) /\
      nth_error log (q * m) = Some ((q * m)%nat, norm (resid A W flex b1 xc)) /\ best dot A W P papply flex b1 xc x2 j.
  Proof.
    intros [E1 E2 E3 E4] LA LW LP HB Hm H HQ HM. eapply (gmres_best (K := Rring)) with (W := W); try exact H; auto.
    - intros. apply Rmult_comm.
    - intros v. unfold norm_of. apply (sqrt_sqrt (dot v v)). auto.
    - intros a. unfold Risb. destruct (Req_EM_T a 0); split; intros; auto; discriminate.
    - intros a c Hc. cbn in *. field. auto.
    - intros a v Ha. unfold norm_of. cbn in Ha. rewrite <- Ha. symmetry. apply sqrt_Rsqr_abs.
    - change (Rltb (Rabs 0) (/ 10 ^ 80)%R = true). rewrite Rabs_R0. apply Rltb_true, pow10_pos.
    - change (Rltb 0%R (/ 10 ^ 30)%R = true). apply Rltb_true, pow10_pos.
    - intros [dx dy] Hq. destruct (HQ _ Hq) as [Q1 Q2]. cbn [fst snd] in *. destruct (C29_annihilates dx dy Q1 Q2) as [A1 [A2 A3]]. split; [|split]; cbn [fst snd].
      + apply C29_unit.
      + exact A1.
      + exact A3.
  Qed.
  (** the norm of the residual of x is the least one over xc + the combinations *)
  Lemma best_minimal flex b xc x j : euclidean dot -> linear A -> (flex = false -> linear W) -> (flex = false -> forall p d, snd (papply p vz d) = W d) -> best dot A W P papply flex b xc x j ->
    exists ds, length ds = j /\ (flex = true -> Forall (fun d => exists p v, d = snd (papply p vz v)) ds) /\
      (linear W -> (forall p v, snd (papply p vz v) = W v) -> forall y, CgExact.kspace A W (vsub b (A xc)) j y <-> combination ds y) /\
      combination ds (vsub x xc) /\ forall y, combination ds y -> (norm (resid A W flex b x) <= norm (resid A W flex b (vadd xc y)))%R.
  Proof.
    intros [E1 E2 E3 E4] LA LW LP [ds [B1 [B2 [B3 [B4 B5]]]]]. exists ds. split; [auto|]. split; [exact B2|]. split; [|split].
    - intros L1 L2 y. rewrite combination_lincomb. auto.
    - apply combination_lincomb. auto.
    - intros y Hy. apply combination_lincomb in Hy. unfold norm_of. apply sqrt_le_1_alt.
      assert (kc : forall a b : Rring, rmul a b = rmul b a) by (intros; apply Rmult_comm).
      set (z := vsub (vadd xc y) x). assert (Hz : lincomb ds z).
      { assert (HZ : z = vadd y (vscale (ropp (r1 : Rring)) (vsub x xc))).
        { unfold z. vring ltac:(solve [cbn; ring]). }
        rewrite HZ. apply lcb_axpy; auto. }
      assert (HV : vadd xc y = vadd x z) by (unfold z; vring ltac:(solve [cbn; ring])).
      rewrite HV. rewrite (resid_add A W P papply flex LA LW LP). specialize (B5 z Hz). set (r := resid A W flex b x) in *. set (Bz := Bop A W flex z) in *.
      unfold vsub. rewrite E2, !(E1 _ (vadd r _)), !E2, !E3, !(E1 _ (vscale _ Bz)), !E3, (E1 Bz r), B5. pose proof (E4 Bz) as HP. cbn. nra.
  Qed.
  (** RestartedGMResSolver with a linear preconditioner W.  With k = q m + j iterations (j in 1..m unless k = 0), xc the iterate after q m of them (the
      initial guess if q = 0): x - xc lies in the Krylov space of dimension j and no other element gives a smaller norm of W (b - A x). *)
  Theorem C54_gmres_minimal reduction fuel m maxit p x b red p' x' b' res log prs : euclidean dot -> linear A -> linear W -> (forall p d, snd (papply p vz d) = W d) ->
    (forall p1 x1 b1, pre p x b = (p1, x1, b1) -> b1 = b) -> 0 < m ->
    real_gmres dot A pre papply post reduction false fuel m maxit p x b red = Some (Ok (p', x', b', res, log, prs)) ->
    (forall q, In q prs -> no_cutoff q) -> (r_iterations R res < maxit \/ maxit <= 1 \/ (maxit - 1) mod m <> 0) ->
    exists p1 x1 p2 x2 xc q j, pre p x b = (p1, x1, b) /\ post p2 x2 = (p', x') /\
      r_iterations R res = (q * m + j)%nat /\ j <= m /\ (j = 0 -> q = 0) /\ (q = 0 -> xc = x1) /\ nth_error log (q * m) = Some ((q * m)%nat, norm (W (vsub b (A xc)))) /\
      CgExact.kspace A W (vsub b (A xc)) j (vsub x2 xc) /\
      forall y, CgExact.kspace A W (vsub b (A xc)) j y -> (norm (W (vsub b (A x2))) <= norm (W (vsub b (A (vadd xc y)))))%R.
  Proof.
    intros HE LA LW LP HB Hm H HQ HM. eapply (real_best reduction false) in H; eauto. destruct H as [p1 [x1 [b1 [p2 [x2 [xc [q [j [H1 [H2 [H3 [H4 [H5 [H6 [H7 H8]]]]]]]]]]]]]]].
    pose proof (HB _ _ _ H1). subst b1. apply best_minimal in H8; auto. destruct H8 as [ds [_ [_ [B3 [B4 B5]]]]]. specialize (B3 LW LP).
    exists p1, x1, p2, x2, xc, q, j. repeat (split; auto). { apply B3. auto. } intros y Hy. apply B5. apply B3. auto.
  Qed.
  (** RestartedFlexibleGMResSolver with a linear preconditioner: the same Krylov space, but the norm of b - A x is minimised. *)
  Theorem C54_fgmres_minimal reduction fuel m maxit p x b red p' x' b' res log prs : euclidean dot -> linear A -> linear W -> (forall p d, snd (papply p vz d) = W d) -> 0 < m ->
    real_gmres dot A pre papply post reduction true fuel m maxit p x b red = Some (Ok (p', x', b', res, log, prs)) ->
    (forall q, In q prs -> no_cutoff q) -> (r_iterations R res < maxit \/ maxit <= 1 \/ (maxit - 1) mod m <> 0) ->
    exists p1 x1 b1 p2 x2 xc q j, pre p x b = (p1, x1, b1) /\ post p2 x2 = (p', x') /\
      r_iterations R res = (q * m + j)%nat /\ j <= m /\ (j = 0 -> q = 0) /\ (q = 0 -> xc = x1) /\ nth_error log (q * m) = Some ((q * m)%nat, norm (vsub b1 (A xc))) /\
      CgExact.kspace A W (vsub b1 (A xc)) j (vsub x2 xc) /\
      forall y, CgExact.kspace A W (vsub b1 (A xc)) j y -> (norm (vsub b1 (A x2)) <= norm (vsub b1 (A (vadd xc y))))%R.
  Proof.
    intros HE LA LW LP Hm H HQ HM. eapply (real_best reduction true) in H; eauto; [|discriminate]. destruct H as [p1 [x1 [b1 [p2 [x2 [xc [q [j [H1 [H2 [H3 [H4 [H5 [H6 [H7 H8]]]]]]]]]]]]]]].
    apply best_minimal in H8; auto. destruct H8 as [ds [_ [_ [B3 [B4 B5]]]]]. specialize (B3 LW LP).
    exists p1, x1, b1, p2, x2, xc, q, j. repeat (split; auto). { apply B3. auto. } intros y Hy. apply B5. apply B3. auto.
  Qed.
  (** RestartedFlexibleGMResSolver with any preconditioner, also one that changes from call to call: minimal over the span of j vectors it returned. *)
  Theorem C54_fgmres_any_preconditioner reduction fuel m maxit p x b red p' x' b' res log prs : euclidean dot -> linear A -> 0 < m ->
    real_gmres dot A pre papply post reduction true fuel m maxit p x b red = Some (Ok (p', x', b', res, log, prs)) ->
    (forall q, In q prs -> no_cutoff q) -> (r_iterations R res < maxit \/ maxit <= 1 \/ (maxit - 1) mod m <> 0) ->
    exists p1 x1 b1 p2 x2 xc q j ds, pre p x b = (p1, x1, b1) /\ post p2 x2 = (p', x') /\
      r_iterations R res = (q * m + j)%nat /\ j <= m /\ (j = 0 -> q = 0) /\ (q = 0 -> xc = x1) /\ nth_error log (q * m) = Some ((q * m)%nat, norm (vsub b1 (A xc))) /\
      length ds = j /\ Forall (fun d => exists p v, d = snd (papply p vz v)) ds /\ combination ds (vsub x2 xc) /\
      forall y, combination ds y -> (norm (vsub b1 (A x2)) <= norm (vsub b1 (A (vadd xc y))))%R.
  Proof.
    intros HE LA Hm H HQ HM. eapply (real_best reduction true) in H; eauto; try discriminate. destruct H as [p1 [x1 [b1 [p2 [x2 [xc [q [j [H1 [H2 [H3 [H4 [H5 [H6 [H7 H8]]]]]]]]]]]]]]].
    apply best_minimal in H8; auto; try discriminate. destruct H8 as [ds [B1 [B2 [_ [B4 B5]]]]].
    exists p1, x1, b1, p2, x2, xc, q, j, ds. repeat (split; auto).
  Qed.
  (** The reported defects never grow, also across restarts. *)
  Theorem C54_defects_fall reduction flex fuel m maxit p x b red p' x' b' res log prs :
    euclidean dot -> linear A -> (flex = false -> linear W) -> (flex = false -> forall p d, snd (papply p vz d) = W d) ->
    (flex = false -> forall p1 x1 b1, pre p x b = (p1, x1, b1) -> b1 = b) -> 0 < m ->
    real_gmres dot A pre papply post reduction flex fuel m maxit p x b red = Some (Ok (p', x', b', res, log, prs)) ->
    (forall q, In q prs -> no_cutoff q) -> forall i d d', nth_error (map snd log) i = Some d -> nth_error (map snd log) (S i) = Some d' -> (d' <= d)%R.
  Proof.
    intros [E1 E2 E3 E4] LA LW LP HB Hm H HQ. change (falling (K := Rring) Rle log). eapply (gmres_falling (K := Rring)) with (W := W); try exact H; auto.
    - intros. apply Rmult_comm.
    - intros v. unfold norm_of. apply (sqrt_sqrt (dot v v)). auto.
    - intros a. unfold Risb. destruct (Req_EM_T a 0); split; intros; auto; discriminate.
    - intros a c Hc. cbn in *. field. auto.
    - intros a v Ha. unfold norm_of. cbn in Ha. rewrite <- Ha. symmetry. apply sqrt_Rsqr_abs.
    - change (Rltb (Rabs 0) (/ 10 ^ 80)%R = true). rewrite Rabs_R0. apply Rltb_true, pow10_pos.
    - change (Rltb 0%R (/ 10 ^ 30)%R = true). apply Rltb_true, pow10_pos.
    - intros [c s] a HU. unfold unit_rot in HU. cbn in HU |- *. replace (- s * a + c * 0)%R with (- (s * a))%R by ring. rewrite Rabs_Ropp, Rabs_mult.
      assert (Rabs s <= 1)%R by (apply Rabs_le; nra). pose proof (Rabs_pos a). nra.
    - intros a. apply Rabs_Rabsolu.
    - intros [dx dy] Hq. destruct (HQ _ Hq) as [Q1 Q2]. cbn [fst snd] in *. destruct (C29_annihilates dx dy Q1 Q2) as [A1 [A2 A3]]. split; [|split]; cbn [fst snd].
      + apply C29_unit.
      + exact A1.
      + exact A3.
  Qed.
End C54.

(** ** The hypotheses are met: A = ((3,0),(4,1)), b = (1,0), one iteration *)
Definition Rplane : vspace Rring.
Proof.
  refine (VSpace Rring (R * R)%type (0%R, 0%R) (fun a b => (fst a + fst b, snd a + snd b)%R) (fun k a => (k * fst a, k * snd a)%R) _ _ _ _ _ _ _ _);
    intros; repeat match goal with x : (R * R)%type |- _ => destruct x end; cbn; f_equal; ring.
Defined.
Definition rdot (a b : Rplane) : R := (fst a * fst b + snd a * snd b)%R.
Definition rA (v : Rplane) : Rplane := (3 * fst v, 4 * fst v + snd v)%R.
Lemma rdot_euclidean : euclidean rdot.
Proof. split; intros; unfold rdot; cbn; try ring. nra. Qed.
Lemma rA_linear : linear rA.
Proof. split; intros; unfold rA; cbn; f_equal; ring. Qed.
Lemma pow10_small n : n <> 0 -> (/ 10 ^ n <= / 10)%R.
Proof. intros H. apply Rinv_le_contravar; [lra|]. destruct n; [lia|]. cbn. assert (1 <= 10 ^ n)%R by (apply pow_R1_Rle; lra). nra. Qed.
Example C28_meets_hypotheses : forall flex, exists p' x' b' res log prs,
  real_gmres rdot rA (fun (p : nat) x b => (p, x, b)) (fun p v d => (p, d)) (fun p x => (p, x)) (1 / 10)%R flex 1 2 1 0 vz ((1, 0)%R : Rplane) 0%R = Some (Ok (p', x', b', res, log, prs)) /\
  (forall q, In q prs -> no_cutoff q) /\ map snd log = [1; 4 / 5]%R.
Proof.
  intros flex. pose proof (pow10_small 30 ltac:(lia)) as S30. pose proof (pow10_small 80 ltac:(lia)) as S80. pose proof (pow10_small 15 ltac:(lia)) as S15. fold reps in S15.
  assert (SA : start rA nat (fun p v d => (p, d)) flex 0 (vz : Rplane) ((1, 0)%R : Rplane) = (0, ((1, 0)%R : Rplane), (1, 0)%R)).
  { unfold start, vsub, rA. cbn. replace (1 + - (1) * (3 * 0))%R with 1%R by ring. replace (0 + - (1) * (4 * 0 + 0))%R with 0%R by ring. destruct flex; auto. }
  assert (N1 : norm_of rdot ((1, 0)%R : Rplane) = 1%R). { unfold norm_of, rdot. cbn. replace (1 * 1 + 0 * 0)%R with (1 * 1)%R by ring. apply sqrt_square. lra. }
  unfold real_gmres, gmres_apply4. rewrite SA, N1. unfold step, stop. cbn [negb Nat.eqb i_conv].
  rewrite (Rltb_false 1 (1 * (1 / 10))%R) by lra. rewrite (Rltb_false 1) by lra. cbn [orb outer Gmres.o_j Gmres.o_it i_conv Nat.leb negb andb].
  unfold cycle. cbn [Gmres.o_norm Gmres.o_v0 Gmres.o_p Gmres.o_x Gmres.o_b Gmres.o_j Gmres.o_it Gmres.o_pairs].
  assert (R1 : recip (K := Rring) Rdiv flex (Risb 1) 1%R = 1%R). { unfold recip, Risb. destruct (Req_EM_T 1 0); [lra|]. rewrite andb_false_r. cbn. field. }
  rewrite R1. assert (V1 : vscale (1%R : Rring) ((1, 0)%R : Rplane) = (1, 0)%R) by apply (vscale_1 Rring Rplane). rewrite V1.
  cbn [inner Gmres.c_j Gmres.c_it Nat.leb i_conv negb andb]. unfold arnoldi at 1. cbn [Gmres.c_p Gmres.c_v Gmres.c_dirs Gmres.c_cols Gmres.c_rots Gmres.c_s Gmres.c_last Gmres.c_norm Gmres.c_j Gmres.c_it Gmres.c_pairs last].
  assert (EX : expand rA nat (fun p v d => (p, d)) flex 0 ((1, 0)%R : Rplane) = (0, ((1, 0)%R : Rplane), (3, 4)%R)).
  { unfold expand, rA. cbn. replace (3 * 1)%R with 3%R by ring. replace (4 * 1 + 0)%R with 4%R by ring. destruct flex; auto. }
  rewrite EX. cbn [mgs]. assert (D1 : rdot ((1, 0)%R : Rplane) ((3, 4)%R : Rplane) = 3%R) by (unfold rdot; cbn; ring). rewrite D1.
  assert (W1 : vadd ((3, 4)%R : Rplane) (vscale (@ropp Rring 3%R) ((1, 0)%R : Rplane)) = ((0, 4)%R : Rplane)) by (cbn; f_equal; ring). rewrite W1.
  assert (N4 : norm_of rdot ((0, 4)%R : Rplane) = 4%R). { unfold norm_of, rdot. cbn. replace (0 * 0 + 4 * 4)%R with (4 * 4)%R by ring. apply sqrt_square. lra. }
  rewrite N4. rewrite (Rltb_false (Rabs 4)) by (rewrite Rabs_pos_eq by lra; lra). cbn [hd tl app rotcol rotate]. rewrite C29_ex. unfold rotate. cbn [fst snd].
  assert (K1 : Rabs (@radd Rring (@rmul Rring (@ropp Rring (4 / 5)%R) 1%R) (@rmul Rring (3 / 5)%R (@r0 Rring))) = (4 / 5)%R).
  { cbn. replace (- (4 / 5) * 1 + 3 / 5 * 0)%R with (- (4 / 5))%R by ring. rewrite Rabs_Ropp. apply Rabs_pos_eq. lra. }
  rewrite K1. unfold step, stop. cbn [negb Nat.eqb i_def0]. rewrite (Rltb_false (4 / 5) (1 * (1 / 10))%R) by lra. rewrite (Rltb_false (4 / 5)) by lra. cbn [orb obind inner Gmres.c_j Gmres.c_it i_conv Nat.leb negb andb Nat.ltb outer Gmres.o_j Gmres.o_it].
  do 6 eexists. split; [reflexivity|]. cbn [Gmres.o_pairs Gmres.c_pairs app i_log Gmres.o_it Gmres.c_it]. split; [|reflexivity].
  intros q [<-|[]]. split; cbn [fst snd]; rewrite Rabs_pos_eq by lra; [lra|right; lra].
Qed.
Print Assumptions C28_fgmres_residual.
Print Assumptions C28_gmres_residual.
Print Assumptions C54_gmres_minimal.
Print Assumptions C54_fgmres_minimal.
Print Assumptions C54_fgmres_any_preconditioner.
Print Assumptions C54_defects_fall.
