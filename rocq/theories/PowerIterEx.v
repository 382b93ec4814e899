(** * C57: concrete runs and deviations of the eigenvalue algorithms; the shifted iteration matrix *)
From Coq Require Import Arith List Lia Bool Reals Lra.
From Verif Require Import Ring Sums Outcome Solvers GmresReal VRing PowerIter.
Import ListNotations.
Open Scope nat_scope.

(** [Rplane], [rdot] (GmresReal.v): the plane R x R with the usual scalar product *)
Local Notation pdot := rdot.
Lemma pdot_eu : euclidean pdot.
Proof. constructor; unfold rdot; intros; cbn; try ring. assert (0 <= fst a * fst a)%R by apply Rle_0_sqr. assert (0 <= snd a * snd a)%R by apply Rle_0_sqr. lra. Qed.
Lemma pdot_def : definite pdot.
Proof.
  intros [a b] H. unfold rdot in H. cbn in *. assert (Ha : (0 <= a * a)%R) by apply Rle_0_sqr. assert (Hb : (0 <= b * b)%R) by apply Rle_0_sqr.
  f_equal; [destruct (Rmult_integral a a); lra|destruct (Rmult_integral b b); lra].
Qed.
(** diag(p, q) *)
Definition dg (p q : R) (v : Rplane) : Rplane := (p * fst v, q * snd v)%R.
Lemma dg_linear p q : linear (dg p q).
Proof. split; unfold dg; intros; cbn; f_equal; ring. Qed.
Lemma dg_eigenbasis p q : eigenbasis pdot (dg p q) [((1, 0)%R : Rplane, p); ((0, 1)%R : Rplane, q)].
Proof.
  split; [|split].
  - intros e l [H|[H|[]]]; injection H as <- <-; unfold dg, rdot; cbn; split; try (f_equal; ring); ring.
  - intros i j e l e' l' Hi Hj D. destruct i as [|[|i]], j as [|[|j]]; cbn in Hi, Hj; try discriminate; try congruence.
    all: try (destruct i; discriminate); try (destruct j; discriminate).
    all: injection Hi as <- <-; injection Hj as <- <-; unfold rdot; cbn; ring.
  - intros [a b]. unfold rdot. cbn. f_equal; ring.
Qed.
Lemma pnorm (a b c : R) : (0 <= c)%R -> (a * a + b * b = c * c)%R -> norm_of pdot ((a, b) : Rplane) = c.
Proof. intros Hc H. unfold norm_of, rdot. cbn. rewrite H. apply sqrt_square. exact Hc. Qed.
(** a direct solver for diagonal operators: throws if the result does not solve the system (singular operator) *)
Definition dsolve (s : Datatypes.unit) (op : Rplane -> Rplane) (y b : Rplane) : (Datatypes.unit * Rplane) + exn :=
  let y' : Rplane := (fst b / fst (op (1, 0)%R), snd b / snd (op (0, 1)%R))%R in
  if Req_EM_T (fst (op y')) (fst b) then if Req_EM_T (snd (op y')) (snd b) then inl (tt, y') else inr EFMatrix else inr EFMatrix.
Lemma dsolve_exact : exact_solver dsolve.
Proof.
  intros s op y b s' y'. unfold dsolve. set (z := (fst b / fst (op (1, 0)%R), snd b / snd (op (0, 1)%R))%R). destruct (Req_EM_T (fst (op z)) (fst b)) as [E1|]; [|discriminate].
  destruct (Req_EM_T (snd (op z)) (snd b)) as [E2|]; [|discriminate]. injection 1 as _ <-. destruct (op z), b. cbn in *. congruence.
Qed.
Lemma dsolve_ok op (y b z : Rplane) : op z = b -> (fst b / fst (op (1, 0)%R))%R = fst z -> (snd b / snd (op (0, 1)%R))%R = snd z -> dsolve tt op y b = inl (tt, z).
Proof.
  intros H1 H2 H3. unfold dsolve. rewrite H2, H3. destruct z as [z1 z2]. cbn [fst snd] in *. rewrite H1. destruct (Req_EM_T (fst b) (fst b)); [|contradiction].
  destruct (Req_EM_T (snd b) (snd b)); [reflexivity|contradiction].
Qed.
Lemma pnormalise (a b c : R) : (0 < c)%R -> (a * a + b * b = c * c)%R -> normalise pdot ((a, b) : Rplane) = Some ((a / c, b / c)%R : Rplane).
Proof.
  intros Hc H. unfold normalise. rewrite (pnorm a b c) by (auto; lra). destruct (Req_EM_T c 0) as [E|E]; [lra|]. f_equal. cbn. f_equal; field; lra.
Qed.
Lemma peq (a b a' b' : R) : a = a' -> b = b' -> ((a, b) : Rplane) = (a', b').
Proof. congruence. Qed.

(** *** Deviations *)
(** applyPowerIteration with x = 0 returns normally, with lambda and x NaN. *)
Theorem C57_zero_start_refuted {V : vspace Rring} (dot : V -> V -> R) (A : V -> V) maxit eps l0 : euclidean dot -> definite dot ->
  exists s, power_iteration dot A (S maxit) eps vz l0 = PNan s 1.
Proof. intros HE HD. exists (vz, vz, l0). unfold power_iteration. pose proof (proj2 (normalise_none dot HE vz HD) eq_refl) as Q. rewrite Q. reflexivity. Qed.

(** applyPowerIteration is not guaranteed to approximate the dominant eigenvalue: a start vector that is an eigenvector is kept. *)
Theorem C57_power_dominant_refuted : exists y, power_iteration pdot (dg 1 10) 1 0 ((1, 0)%R : Rplane) 0 = PDone ((1, 0)%R, y, 1%R) 1.
Proof.
  unfold power_iteration. rewrite (pnormalise 1 0 1) by lra. cbn [ploop]. unfold power_body.
  assert (E : dg 1 10 ((1 / 1, 0 / 1)%R : Rplane) = (1, 0)%R) by (unfold dg; cbn; apply peq; field). rewrite E. rewrite (pnormalise 1 0 1) by lra. cbn zeta. rewrite E.
  set (l := pdot ((1 / 1, 0 / 1)%R : Rplane) ((1, 0)%R : Rplane)). assert (El : l = 1%R) by (unfold l, rdot; cbn; field). rewrite El.
  assert (Et : vadd ((1, 0)%R : Rplane) (vscale (Ropp 1 : Rring) ((1 / 1, 0 / 1)%R : Rplane)) = ((0, 0)%R : Rplane)) by (cbn; apply peq; field). rewrite Et, (pnorm 0 0 0) by lra.
  rewrite Rltb_false by lra. eexists. f_equal. f_equal. f_equal. apply peq; field.
Qed.

(** The overload of applyInverseIteration without shift ignores avoidLinSolverCrime: it calls the other overload with the default false.  With the
    flag set and a poor linear solver (here: one that returns the right hand side) it therefore accepts a vector whose residual is far above epsilon, which the
    overload with shift gamma = 0 and the same flag does not. *)
Definition lazy_solver (s : Datatypes.unit) (op : Rplane -> Rplane) (y b : Rplane) : (Datatypes.unit * Rplane) + exn := inl (tt, b).
Theorem C57_flag_dropped_refuted :
  (exists st x y l, inverse_iteration0 pdot (dg 1 10) lazy_solver false true 1 (1 / 2)%R (pst_new tt) ((3, 4)%R : Rplane) 0%R = PDone (st, x, y, l) 1 /\
    (1 / 2 < norm_of pdot (vsub (dg 1 10 x) (vscale (l : Rring) x)))%R) /\
  (exists st, inverse_iteration pdot (dg 1 10) lazy_solver false true 1 0 (1 / 2)%R (pst_new tt) ((3, 4)%R : Rplane) 0%R = PNoConv st 2).
Proof.
  assert (N0 : normalise pdot ((3, 4)%R : Rplane) = Some ((3 / 5, 4 / 5)%R : Rplane)) by (apply pnormalise; lra).
  assert (N1 : normalise pdot ((3 / 5, 4 / 5)%R : Rplane) = Some ((3 / 5 / 1, 4 / 5 / 1)%R : Rplane)) by (apply pnormalise; lra).
  assert (Nn : norm_of pdot ((3 / 5, 4 / 5)%R : Rplane) = 1%R) by (apply pnorm; lra). split.
  - unfold inverse_iteration0, inverse_iteration. rewrite N0. cbn [ploop]. unfold inverse_body, solve, lazy_solver. rewrite N1. cbn [inv_values]. unfold inv_values. rewrite Nn.
    set (l := (0 + pdot _ _ / (1 * 1))%R). assert (El : l = 1%R) by (unfold l, rdot; cbn; field). rewrite El.
    assert (Et : vadd ((3 / 5, 4 / 5)%R : Rplane) (vscale (0 - 1 : Rring)%R ((3 / 5, 4 / 5)%R : Rplane)) = ((0, 0)%R : Rplane)) by (cbn; apply peq; field). rewrite Et, (pnorm 0 0 0) by lra.
    rewrite Rltb_false by lra. do 4 eexists. split; [reflexivity|].
    assert (Er : vsub (dg 1 10 ((3 / 5 / 1, 4 / 5 / 1)%R : Rplane)) (vscale (1 : Rring)%R ((3 / 5 / 1, 4 / 5 / 1)%R : Rplane)) = ((0, 36 / 5)%R : Rplane)) by (cbn; apply peq; field).
    rewrite Er, (pnorm 0 (36 / 5) (36 / 5)) by lra. lra.
  - unfold inverse_iteration. rewrite N0. cbn [ploop]. unfold inverse_body, solve, lazy_solver. rewrite N1. unfold inv_values. rewrite Nn.
    set (l := (pdot _ _ / (1 * 1))%R). assert (El : l = (169 / 25)%R) by (unfold l, rdot; cbn; field). rewrite El.
    assert (Et : vadd (dg 1 10 ((3 / 5, 4 / 5)%R : Rplane)) (vscale (- (169 / 25) : Rring)%R ((3 / 5, 4 / 5)%R : Rplane)) = ((- 432 / 125, 324 / 125)%R : Rplane)) by (cbn; apply peq; field).
    rewrite Et, (pnorm (- 432 / 125) (324 / 125) (108 / 25)) by lra. rewrite Rltb_true by lra. eexists. reflexivity.
Qed.

(** getIterationMatrix(): a solver constructed from the matrix before any shift works with A - mu I from then on (C57_inverse etc. with [in_sync]); but
    when the matrix is requested for the first time after a run with a shift, it is the unshifted matrix, and a further run with the same shift does not update
    it.  Here A = diag(1,10), shift 5, an exact solver: the second run returns lambda = 6, which is no eigenvalue, with iteration count 1. *)
Lemma get_matrix_sync {Sv} mat (s : Sv) : in_sync mat (get_matrix (pst_new s)).
Proof. intros _. reflexivity. Qed.
Lemma get_matrix_keeps {Sv} mat (st : pst Sv) : in_sync mat st -> mat = true -> get_matrix st = st.
Proof. unfold in_sync, get_matrix. intros H Hm. rewrite (H Hm). reflexivity. Qed.
Theorem C57_stale_matrix_refuted : exists st1 x1 y1 n1 x2 y2 st2,
  inverse_iteration pdot (dg 1 10) dsolve false false 5 5 (1 / 2)%R (pst_new tt) ((1, 0)%R : Rplane) 0%R = PDone (st1, x1, y1, 1%R) n1 /\
  inverse_iteration pdot (dg 1 10) dsolve true false 5 5 (1 / 2)%R (get_matrix st1) ((1, 0)%R : Rplane) 0%R = PDone (st2, x2, y2, 6%R) 1 /\
  ~ in_sync true (get_matrix st1).
Proof.
  assert (N0 : normalise pdot ((1, 0)%R : Rplane) = Some ((1, 0)%R : Rplane)) by (rewrite (pnormalise 1 0 1) by lra; f_equal; apply peq; field).
  assert (UP : update_shift 5 (pst_new tt) = PSt 5%R None tt) by (unfold update_shift, pst_new; cbn; destruct (Req_EM_T 5 0); [lra|reflexivity]).
  assert (S1 : solve (dg 1 10) dsolve false (PSt 5%R None tt) ((1, 0)%R : Rplane) ((1, 0)%R : Rplane) = inl (PSt 5%R None tt, ((-1 / 4, 0)%R : Rplane))).
  { unfold solve. cbn [p_sol]. rewrite (dsolve_ok _ _ _ ((-1 / 4, 0)%R : Rplane)); [reflexivity| | |]; unfold op_of, itop_apply, scaling_applyscaleadd, dg; cbn; try (apply peq); field. }
  exists (PSt 5%R None tt), ((-1, 0)%R : Rplane), ((-1 / 4, 0)%R : Rplane), 1, ((1, 0)%R : Rplane), ((1, 0)%R : Rplane), (PSt 5%R (Some 0%R) tt). split; [|split].
  - unfold inverse_iteration. rewrite UP, N0. cbn [ploop]. unfold inverse_body. rewrite S1. rewrite (pnormalise (-1 / 4) 0 (1 / 4)) by lra. unfold inv_values. rewrite (pnorm (-1 / 4) 0 (1 / 4)) by lra.
    set (l := (5 + _)%R). assert (El : l = 1%R) by (unfold l, rdot; cbn; field). rewrite El.
    assert (Et : vadd ((1, 0)%R : Rplane) (vscale (5 - 1 : Rring)%R ((-1 / 4, 0)%R : Rplane)) = ((0, 0)%R : Rplane)) by (cbn; apply peq; field). rewrite Et, (pnorm 0 0 0) by lra.
    rewrite Rltb_false by lra. f_equal. f_equal. f_equal. f_equal. apply peq; field.
  - change (get_matrix (PSt 5%R None tt)) with (PSt 5%R (Some 0%R) tt). assert (UP2 : update_shift 5 (PSt 5%R (Some 0%R) tt) = PSt 5%R (Some 0%R) tt) by (unfold update_shift; cbn; destruct (Req_EM_T 5 5); [reflexivity|lra]).
    assert (S2 : solve (dg 1 10) dsolve true (PSt 5%R (Some 0%R) tt) ((1, 0)%R : Rplane) ((1, 0)%R : Rplane) = inl (PSt 5%R (Some 0%R) tt, ((1, 0)%R : Rplane))).
    { unfold solve. cbn [p_sol]. rewrite (dsolve_ok _ _ _ ((1, 0)%R : Rplane)); [reflexivity| | |]; unfold op_of, itop_apply, scaling_applyscaleadd, dg; cbn; try (apply peq); field. }
    unfold inverse_iteration. rewrite UP2, N0. cbn [ploop]. unfold inverse_body. rewrite S2, N0. unfold inv_values. rewrite (pnorm 1 0 1) by lra.
    set (l := (5 + _)%R). assert (El : l = 6%R) by (unfold l, rdot; cbn; field). rewrite El.
    assert (Et : vadd ((1, 0)%R : Rplane) (vscale (5 - 6 : Rring)%R ((1, 0)%R : Rplane)) = ((0, 0)%R : Rplane)) by (cbn; apply peq; field). rewrite Et, (pnorm 0 0 0) by lra.
    rewrite Rltb_false by lra. reflexivity.
  - intros H. specialize (H eq_refl). cbn in H. injection H as H. lra.
Qed.

(** TLIME: extrnl = true does not mean that J is free of eigenvalues.  A = diag(1,10), J = (-2,2), start vector (0,1). *)
Theorem C57_extrnl_refuted : exists st x y rqi, tlime pdot (dg 1 10) dsolve false false 1 0 2 0 0 1 (pst_new tt) ((0, 1)%R : Rplane) 0%R = PDone (st, x, y, 10%R, true, rqi) 1.
Proof.
  assert (N0 : normalise pdot ((0, 1)%R : Rplane) = Some ((0, 1)%R : Rplane)) by (rewrite (pnormalise 0 1 1) by lra; f_equal; apply peq; field).
  assert (UP : update_shift 0 (pst_new tt) = PSt 0%R None tt) by (unfold update_shift, pst_new; cbn; destruct (Req_EM_T 0 0); [reflexivity|lra]).
  assert (S1 : solve (dg 1 10) dsolve false (PSt 0%R None tt) ((0, 1)%R : Rplane) ((0, 1)%R : Rplane) = inl (PSt 0%R None tt, ((0, 1 / 10)%R : Rplane))).
  { unfold solve. cbn [p_sol]. rewrite (dsolve_ok _ _ _ ((0, 1 / 10)%R : Rplane)); [reflexivity| | |]; unfold op_of, itop_apply, scaling_applyscaleadd, dg; cbn; try (apply peq); field. }
  unfold tlime. rewrite N0. cbn [ploop]. unfold tlime_body. rewrite UP, S1. rewrite (pnormalise 0 (1 / 10) (1 / 10)) by lra. unfold tlime_values. rewrite (pnorm 0 (1 / 10) (1 / 10)) by lra. cbn zeta.
  set (l := (0 + _)%R). assert (El : l = 10%R) by (unfold l, rdot; cbn; field). rewrite El.
  assert (Et : vadd ((0, 1)%R : Rplane) (vscale (0 - 10 : Rring)%R ((0, 1 / 10)%R : Rplane)) = ((0, 0)%R : Rplane)) by (cbn; apply peq; field). rewrite Et, (pnorm 0 0 0) by lra.
  unfold tlime_switch. cbn [negb andb]. rewrite (Rltb_false (1 / (1 / 10)) 2) by lra. cbn [andb negb].
  destruct ((1 <=? 1) && _); rewrite Rltb_false by lra; do 4 eexists; reflexivity.
Qed.

(** One step of TLIME on a diagonal matrix, from the normalised (a, b) *)
Definition rho (p q a b : R) : R := ((p * (a * a) + q * (b * b)) / (a * a + b * b))%R.
Definition rres (p q a b : R) : R := (Rabs ((p - q) * (a * b)) / (a * a + b * b))%R.
Lemma pnorm_pos (a b : R) : (0 < a * a + b * b)%R -> (0 < norm_of pdot ((a, b) : Rplane))%R /\ (norm_of pdot ((a, b) : Rplane) * norm_of pdot ((a, b) : Rplane) = a * a + b * b)%R.
Proof. intros H. split; [apply sqrt_lt_R0; exact H|]. rewrite (norm_sqr pdot pdot_eu). reflexivity. Qed.
Lemma unit_rho p q a b : (0 < a * a + b * b)%R -> let u := unit pdot ((a, b) : Rplane) in
  pdot u (dg p q u) = rho p q a b /\ norm_of pdot (vsub (dg p q u) (vscale (rho p q a b : Rring) u)) = rres p q a b.
Proof.
  intros H u. destruct (pnorm_pos a b H) as [P1 P2]. unfold u, unit. set (n := norm_of pdot ((a, b) : Rplane)) in *. split.
  - unfold rdot, dg, rho. cbn. rewrite <- P2. field. lra.
  - unfold vsub, dg. cbn. assert (NS : (n * n <> 0)%R) by (rewrite P2; lra). unfold rres.
    apply pnorm; [apply Rmult_le_pos; [apply Rabs_pos|apply Rlt_le, Rinv_0_lt_compat; exact H]|].
    replace (Rabs ((p - q) * (a * b)) / (a * a + b * b) * (Rabs ((p - q) * (a * b)) / (a * a + b * b)))%R with (Rabs ((p - q) * (a * b)) * Rabs ((p - q) * (a * b)) / ((a * a + b * b) * (a * a + b * b)))%R by (field; lra).
    rewrite <- Rabs_mult, Rabs_pos_eq by apply Rle_0_sqr. unfold rho. assert (NQ : (1 / n * (1 / n) = 1 / (a * a + b * b))%R) by (rewrite <- P2; field; lra).
    set (s := (a * a + b * b)%R) in *. set (k := ((p * (a * a) + q * (b * b)) / s)%R).
    match goal with |- ?l = _ => replace l with ((1 / n * (1 / n)) * ((p - k) * (p - k) * (a * a) + (q - k) * (q - k) * (b * b)))%R by ring end. rewrite NQ.
    unfold k, s. field. unfold s in H. lra.
Qed.
Lemma tlime_diag p q gamma eta delta m i mu itm x y l ext (rq : bool) a b : x = unit pdot ((a, b) : Rplane) -> (0 < a * a + b * b)%R ->
  let sh := if rq then l else gamma in p <> sh -> q <> sh -> let a' := (a / (p - sh))%R in let b' := (b / (q - sh))%R in (0 < a' * a' + b' * b')%R ->
  exists st' y' qn, (rq = false -> qn = norm_of pdot (vsub (dg p q (unit pdot ((a', b') : Rplane))) (vscale (gamma : Rring) (unit pdot ((a', b') : Rplane))))) /\ p_sol st' = tt /\
    tlime_body pdot (dg p q) dsolve false false gamma eta delta m i (PSt mu itm tt, x, y, l, ext, rq) =
    match tlime_switch gamma eta delta m i l (rho p q a' b') qn ext rq with None => SAssert | Some (e, d) => SNext (st', unit pdot ((a', b') : Rplane), y', rho p q a' b', e, d) (rres p q a' b') end.
Proof.
  intros Hx Hab sh Hp Hq a' b' Hab'. destruct (pnorm_pos a b Hab) as [P1 P2]. set (n := norm_of pdot ((a, b) : Rplane)) in *.
  assert (IS : in_sync false (PSt mu itm tt)) by (intros ?; discriminate).
  pose proof (update_sync false sh _ IS) as SU. set (st1 := update_shift sh (PSt mu itm tt)) in *.
  assert (Hs1 : p_sol st1 = tt) by (destruct (p_sol st1); reflexivity).
  assert (SV : solve (dg p q) dsolve false st1 y x = inl (PSt (p_mu st1) (p_itm st1) tt, vscale (1 / n : Rring)%R ((a', b') : Rplane))).
  { unfold solve. rewrite Hs1. assert (OP : forall v, op_of (dg p q) false st1 v = ((p - sh) * fst v, (q - sh) * snd v)%R).
    { intros v. rewrite (op_sync (dg p q) false st1 v SU). unfold st1. rewrite update_mu. unfold vsub, dg. cbn. apply peq; ring. }
    rewrite (dsolve_ok _ _ _ (vscale (1 / n : Rring)%R ((a', b') : Rplane))); [reflexivity| | |].
    - rewrite OP, Hx. unfold unit, a', b'. fold n. cbn. apply peq; field; split; lra.
    - rewrite OP, Hx. unfold unit, a'. fold n. cbn. field. split; lra.
    - rewrite OP, Hx. unfold unit, b'. fold n. cbn. field. split; lra. }
  set (y' := vscale (1 / n : Rring)%R ((a', b') : Rplane)) in *.
  assert (Pn : (0 < 1 / n)%R) by (apply Rdiv_lt_0_compat; lra). destruct (pnorm_pos a' b' Hab') as [P1' P2'].
  assert (NY : normalise pdot y' = Some (unit pdot ((a', b') : Rplane))).
  { rewrite <- (unit_scale pdot pdot_eu (1 / n) ((a', b') : Rplane) Pn P1'). fold y'. unfold normalise. destruct (Req_EM_T (norm_of pdot y') 0) as [E|E]; [|reflexivity].
    exfalso. unfold y' in E. rewrite (norm_scale pdot pdot_eu), Rabs_pos_eq in E by lra. assert (0 < 1 / n * norm_of pdot ((a', b')%R : Rplane))%R by (apply Rmult_lt_0_compat; auto). lra. }
  destruct (tlime_values pdot (dg p q) false rq gamma l x y') as [[mu' qn] r] eqn:EV.
  assert (HC : vsub (dg p q y') (vscale ((if rq then l else gamma) : Rring) y') = x).
  { apply solve_spec in SV. destruct SV as [_ [_ SV]]. specialize (SV dsolve_exact). rewrite (op_sync (dg p q) false st1 y' SU) in SV. unfold st1 in SV. rewrite update_mu in SV. exact SV. }
  destruct (tlime_values_ok pdot (dg p q) pdot_eu (dg_linear p q) false rq gamma l x _ y' mu' qn r NY (or_intror HC)) as [V1 [V2 V3]]; [rewrite Hx; apply (unit_norm pdot pdot_eu); exact P1|exact EV|].
  destruct (unit_rho p q a' b' Hab') as [U1 U2]. rewrite U1 in V1. rewrite V1, U2 in V2.
  exists (PSt (p_mu st1) (p_itm st1) tt), y', qn. split; [exact V3|]. split; [reflexivity|].
  unfold tlime_body. fold sh. fold st1. rewrite SV, NY, EV, V1, V2. reflexivity.
Qed.
(** TLIME: with extrnl = false the result need not lie in J.  A = diag(1,3), J = (-13/5, 13/5), which contains the eigenvalue 1 and not 3, exact solver: the first
    step finds that J contains an eigenvalue and switches to Rayleigh quotient iteration, the second one leaves J and meets the target at once. *)
Theorem C57_leaves_J_refuted : exists st x y l rqi, tlime pdot (dg 1 3) dsolve false false 2 0 (13 / 5) (3 / 5) 0 1 (pst_new tt) ((9, 40)%R : Rplane) 0%R = PDone (st, x, y, l, false, rqi) 2 /\ (13 / 5 < l)%R.
Proof.
  assert (N0 : normalise pdot ((9, 40)%R : Rplane) = Some (unit pdot ((9, 40)%R : Rplane))).
  { unfold normalise, unit. destruct (Req_EM_T _ 0) as [E|E]; [|reflexivity]. rewrite (pnorm 9 40 41) in E by lra. lra. }
  unfold tlime. rewrite N0. cbn [ploop].
  destruct (tlime_diag 1 3 0 (13 / 5) 0 1 1 0 None _ ((9, 40)%R : Rplane) 0 true false 9 40 eq_refl) as [st1 [y1 [q1 [Q1 [S1 B1]]]]]; [lra|cbn; lra|cbn; lra|cbn; lra|].
  cbn iota in Q1, B1. unfold pst_new. rewrite B1. specialize (Q1 eq_refl). clear B1. set (a1 := (9 / (1 - 0))%R) in *. set (b1 := (40 / (3 - 0))%R) in *.
  assert (A1 : a1 = 9%R) by (unfold a1; field). assert (B1 : b1 = (40 / 3)%R) by (unfold b1; field). rewrite A1, B1 in *. clear a1 A1 b1 B1.
  assert (R1 : rho 1 3 9 (40 / 3) = (5529 / 2329)%R) by (unfold rho; field). assert (R2 : (3 / 5 < rres 1 3 9 (40 / 3))%R) by (unfold rres; rewrite Rabs_left by lra; lra).
  assert (Q2 : (q1 < 13 / 5)%R).
  { rewrite Q1. unfold vsub, unit. set (n := norm_of pdot ((9, (40 / 3))%R : Rplane)). assert (Hn : (0 < n)%R /\ (n * n = 9 * 9 + 40 / 3 * (40 / 3))%R) by (apply pnorm_pos; lra). destruct Hn as [Hn1 Hn2].
    assert (NN : (1 / n * (1 / n) = 1 / (9 * 9 + 40 / 3 * (40 / 3)))%R) by (rewrite <- Hn2; field; lra).
    apply Rsqr_incrst_0; [|apply norm_nonneg|lra]. unfold Rsqr. rewrite (norm_sqr pdot pdot_eu). unfold rdot, dg. cbn.
    match goal with |- (?l < _)%R => replace l with ((1 / n * (1 / n)) * (9 * 9 + 40 * 40))%R by (field; lra) end. rewrite NN. lra. }
  assert (SW1 : tlime_switch 0 (13 / 5) 0 1 1 0 (rho 1 3 9 (40 / 3)) q1 true false = Some (false, true)).
  { unfold tlime_switch. cbn [negb andb]. rewrite (Rltb_true q1) by exact Q2. cbn [negb andb]. rewrite R1. rewrite (Rltb_true (Rabs _)) by (rewrite Rabs_pos_eq; lra). reflexivity. }
  rewrite SW1. rewrite (Rltb_true (3 / 5)) by exact R2.
  destruct st1 as [mu1 itm1 s1]. cbn in S1. subst s1.
  destruct (tlime_diag 1 3 0 (13 / 5) 0 1 2 mu1 itm1 _ y1 (rho 1 3 9 (40 / 3)) false true 9 (40 / 3) eq_refl) as [st2 [y2 [q2 [_ [S2 B2]]]]]; [lra|rewrite R1; lra|rewrite R1; lra|rewrite R1; lra|].
  rewrite B2. clear B2. rewrite R1 in *. set (a2 := (9 / (1 - 5529 / 2329))%R). set (b2 := (40 / 3 / (3 - 5529 / 2329))%R).
  assert (A2 : a2 = (- 9 * 2329 / 3200)%R) by (unfold a2; field). assert (B2 : b2 = (40 / 3 * 2329 / 1458)%R) by (unfold b2; field).
  assert (R3 : (13 / 5 < rho 1 3 a2 b2)%R) by (rewrite A2, B2; unfold rho; lra).
  assert (R4 : (rres 1 3 a2 b2 <= 3 / 5)%R) by (rewrite A2, B2; unfold rres; rewrite Rabs_pos_eq by lra; lra).
  destruct (tlime_switch 0 (13 / 5) 0 1 2 (5529 / 2329) (rho 1 3 a2 b2) q2 false true) as [[e d]|] eqn:SW; [|discriminate].
  assert (He : e = false) by (unfold tlime_switch in SW; cbn [negb andb] in SW; injection SW as <- _; reflexivity). subst e.
  rewrite (Rltb_false (3 / 5)) by exact R4. exists st2, (unit pdot ((a2, b2) : Rplane)), y2, (rho 1 3 a2 b2), d. split; [reflexivity|exact R3].
Qed.

(** ** The loop that updates the iteration matrix *)
(** a matrix of b x b blocks: None = block not stored *)
Definition bmatrix := nat -> nat -> option (nat -> nat -> R).
Definition bset (B : bmatrix) (I J p q : nat) (v : R) : bmatrix :=
  fun I' J' => if (I' =? I) && (J' =? J) then match B I J with Some f => Some (fun p' q' => if (p' =? p) && (q' =? q) then v else f p' q') | None => None end else B I' J'.
(** updateShiftMu, poweriteration.hh:998-1009: i is the flat index of a row; [todo] iterations are left.  Accessing a block that is not stored is undefined. *)
Fixpoint shift_loop (b : nat) (m : bmatrix) (mu : R) (i todo : nat) (it : bmatrix) : outcome bmatrix :=
  match todo with
  | O => Ok it
  | S todo =>
    match m (i / b) (i / b), it (i / b) (i / b) with
    | Some mb, Some _ => shift_loop b m mu (S i) todo (bset it (i / b) (i / b) (i mod b) (i mod b) (mb (i mod b) (i mod b) - mu)%R)
    | _, _ => UB
    end
  end.
(** the loop over all flat indices of an N x N matrix of blocks *)
Definition shift_matrix (N b : nat) (m : bmatrix) (mu : R) (it : bmatrix) : outcome bmatrix := shift_loop b m mu 0 (N * b) it.
(** entry of row (I,p) and column (J,q); 0 outside the pattern *)
Definition bent (B : bmatrix) (I J p q : nat) : R := match B I J with Some f => f p q | None => 0%R end.
Definition shift_of (m it : bmatrix) (b : nat) (upto : nat) (mu : R) : Prop :=
  forall I J, (it I J = None <-> m I J = None) /\
    forall p q, p < b -> q < b -> (I * b + p < upto -> I = J -> p = q -> m I J <> None -> bent it I J p q = (bent m I J p q - mu)%R) /\ (I <> J \/ p <> q -> bent it I J p q = bent m I J p q).
Lemma shift_loop_ok b m mu : 0 < b -> forall todo i it, (forall I, I * b < i + todo -> m I I <> None) -> shift_of m it b i mu ->
  exists it', shift_loop b m mu i todo it = Ok it' /\ shift_of m it' b (i + todo) mu.
Proof.
  intros Hb. induction todo as [|todo IH]; intros i it HD HS; cbn [shift_loop].
  - exists it. rewrite Nat.add_0_r. auto.
  - set (I := i / b) in *. set (p := i mod b) in *. assert (Ei : i = I * b + p) by (unfold I, p; rewrite Nat.mul_comm; apply Nat.div_mod; lia).
    assert (Hp : p < b) by (apply Nat.mod_upper_bound; lia). assert (MD : m I I <> None) by (apply HD; lia).
    destruct (m I I) as [mb|] eqn:EM; [|contradiction]. destruct (it I I) as [ib|] eqn:EI; [|exfalso; apply MD; rewrite <- EM; apply (proj1 (HS I I)); exact EI].
    destruct (IH (S i) (bset it I I p p (mb p p - mu)%R)) as [it' [H1 H2]].
    + intros J HJ. apply HD. lia.
    + intros I' J'. destruct (HS I' J') as [S1 S2]. unfold bset, bent. destruct ((I' =? I) && (J' =? I)) eqn:E.
      * apply andb_true_iff in E. destruct E as [E1 E2]. apply Nat.eqb_eq in E1, E2. rewrite E1, E2 in *. rewrite EI, EM in *. split; [split; discriminate|].
        unfold bent in S2. rewrite EI, EM in S2. intros p' q' Hp' Hq'. destruct ((p' =? p) && (q' =? p)) eqn:F.
        -- apply andb_true_iff in F. destruct F as [F1 F2]. apply Nat.eqb_eq in F1, F2. rewrite F1, F2. split; [reflexivity|intros [?|?]; congruence].
        -- destruct (S2 p' q' Hp' Hq') as [T1 T2]. split; [|exact T2]. intros Hlt _ Hpq _. apply T1; auto; try discriminate.
           destruct (Nat.eq_dec p' p) as [Z|Z]; [exfalso; rewrite <- Hpq, Z, Nat.eqb_refl in F; discriminate|]. lia.
      * split; [exact S1|]. intros p' q' Hp' Hq'. destruct (S2 p' q' Hp' Hq') as [T1 T2]. split; [|exact T2]. intros Hlt HIJ Hpq Hm. apply T1; auto.
        assert (I' <> I). { intros Z. rewrite <- HIJ, Z, Nat.eqb_refl in E. discriminate. } nia.
    + exists it'. split; [exact H1|]. rewrite <- Nat.add_succ_comm. exact H2.
Qed.
(** updateShiftMu turns the iteration matrix into m - mu I, whatever shift it had before, if all diagonal blocks are stored *)
Theorem C57_shift_matrix N b m mu old it : 0 < b -> (forall I, I < N -> m I I <> None) ->
  (forall I J, (it I J = None <-> m I J = None) /\ forall p q, p < b -> q < b -> bent it I J p q = (bent m I J p q - (if (I =? J) && (p =? q) then match m I J with Some _ => old | None => 0 end else 0))%R) ->
  exists it', shift_matrix N b m mu it = Ok it' /\
    forall I J, (it' I J = None <-> m I J = None) /\ forall p q, I < N -> p < b -> q < b -> bent it' I J p q = (bent m I J p q - (if (I =? J) && (p =? q) then mu else 0))%R.
Proof.
  intros Hb HD HI. destruct (shift_loop_ok b m mu Hb (N * b) 0 it) as [it' [H1 H2]].
  - intros I HI'. apply HD. nia.
  - intros I J. destruct (HI I J) as [P1 P2]. split; [exact P1|]. intros p q Hp Hq. split; [lia|]. intros HN. rewrite (P2 p q Hp Hq).
    replace ((I =? J) && (p =? q)) with false; [lra|]. symmetry. apply andb_false_iff. destruct HN as [HN|HN]; apply Nat.eqb_neq in HN; auto.
  - exists it'. split; [exact H1|]. intros I J. destruct (H2 I J) as [P1 P2]. split; [exact P1|]. intros p q HIN Hp Hq. destruct (P2 p q Hp Hq) as [Q1 Q2].
    destruct ((I =? J) && (p =? q)) eqn:E.
    + apply andb_true_iff in E. destruct E as [E1 E2]. apply Nat.eqb_eq in E1, E2. apply Q1; auto; [cbn [Nat.add]; nia|]. rewrite <- E1. apply HD. exact HIN.
    + rewrite Q2; [lra|]. apply andb_false_iff in E. destruct E as [E|E]; apply Nat.eqb_neq in E; auto.
Qed.
(** A diagonal block that is not stored is accessed nevertheless. *)
Theorem C57_shift_matrix_refuted N b m mu it I : 0 < b -> I < N -> m I I = None -> shift_matrix N b m mu it = UB.
Proof.
  intros Hb HI HM. unfold shift_matrix. assert (G : forall todo i it, i <= I * b -> I * b < i + todo -> shift_loop b m mu i todo it = UB); [|apply G; nia].
  induction todo as [|todo IH]; intros i it0 H1 H2; [lia|]. cbn [shift_loop]. destruct (Nat.eq_dec i (I * b)) as [->|D].
  - rewrite Nat.div_mul by lia. rewrite HM. reflexivity.
  - destruct (m (i / b) (i / b)); [|reflexivity]. destruct (it0 (i / b) (i / b)); [|reflexivity]. apply IH; lia.
Qed.

(** *** The hypotheses are met: diag(1,10) *)
Theorem C57_power_example eps : (0 < eps)%R -> exists K, forall maxit l0, K <= maxit -> exists s n, power_iteration pdot (dg 10 1) maxit eps ((1, 1)%R : Rplane) l0 = PDone s n /\ n <= K.
Proof.
  intros He. apply (C57_power_converges pdot (dg 10 1) pdot_eu (dg_linear 10 1) ((1, 0)%R : Rplane) 10 [((0, 1)%R : Rplane, 1%R)] 1); auto.
  - apply pdot_def.
  - apply dg_eigenbasis.
  - intros e l [H|[]]. injection H as <- <-. rewrite Rabs_pos_eq; lra.
  - rewrite Rabs_pos_eq; lra.
  - unfold rdot. cbn. lra.
Qed.
(** inverse iteration with shift 2, exact solver: finds 1 or, rather, never stops short of the target; the solver does not throw in this run *)
Theorem C57_inverse_example eps : (0 < eps)%R -> exists K, forall maxit l0, K <= maxit ->
  match inverse_iteration pdot (dg 1 10) dsolve true false maxit 2 eps (get_matrix (pst_new tt)) ((1, 1)%R : Rplane) l0 with PDone _ n => n <= K | PExn _ _ _ => True | _ => False end.
Proof.
  intros He. apply (C57_inverse_converges pdot (dg 1 10) pdot_eu (dg_linear 1 10) dsolve true false ((1, 0)%R : Rplane) 1 [((0, 1)%R : Rplane, 10%R)] 8); auto.
  - apply get_matrix_sync.
  - apply dsolve_exact.
  - apply dg_eigenbasis.
  - intros e l [H|[]]. injection H as <- <-. rewrite Rabs_pos_eq; lra.
  - rewrite Rabs_left; lra.
  - unfold rdot. cbn. lra.
Qed.
