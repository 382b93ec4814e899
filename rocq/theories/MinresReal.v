(** * MINRESSolver over the real numbers: the hypotheses of C51 are met, and which rotations are exact *)
From Coq Require Import Arith List Lia Bool Reals Lra.
From Verif Require Import Ring Sums Outcome Solvers CgExact Rotations GmresReal VRing Minres.
Import ListNotations.
Open Scope R_scope.

(** generateGivensRotation (solvers.hh:766-799) with the tests "< 1e-15" replaced by "= 0" *)
Definition genrot0 (dx dy : R) : R * R :=
  let ndx := Rabs dx in let ndy := Rabs dy in
  let temp := Rmin ndx ndy / Rmax ndx ndy in
  let f := 1 / sqrt (1 + temp * temp) in
  if Req_EM_T dy 0 then (1, 0)
  else if Req_EM_T dx 0 then (0, 1)
  else if Rlt_dec ndx ndy then (f * temp, f * dx * dy / ndx / ndy)
  else (f, f * (dy / dx)).
(** the code computes exactly this unless an argument is nonzero and below the cut-off *)
Theorem C51_rotation dx dy : dy = 0 \/ (reps <= Rabs dy /\ (dx = 0 \/ reps <= Rabs dx)) -> genrot dx dy = genrot0 dx dy.
Proof.
  intros H. pose proof reps_pos as HE. unfold genrot, genrot0. destruct H as [->|[H1 H2]].
  - rewrite Rabs_R0. destruct (Rlt_dec 0 reps); [|lra]. destruct (Req_EM_T 0 0); [reflexivity|lra].
  - destruct (Rlt_dec (Rabs dy) reps); [lra|]. destruct (Req_EM_T dy 0) as [->|]; [rewrite Rabs_R0 in H1; lra|].
    destruct H2 as [->|H2].
    + rewrite Rabs_R0. destruct (Rlt_dec 0 reps); [|lra]. destruct (Req_EM_T 0 0); [reflexivity|lra].
    + destruct (Rlt_dec (Rabs dx) reps); [lra|]. destruct (Req_EM_T dx 0) as [->|]; [rewrite Rabs_R0 in H2; lra|]. reflexivity.
Qed.
Lemma genrot0_exact : exact_rotation (K := Rring) genrot0.
Proof.
  intros dx dy N. destruct (genrot0 dx dy) as [c s] eqn:H. cbn. change (c * c + s * s = 1 /\ - s * dx + c * dy = 0).
  unfold genrot0 in H. destruct (Req_EM_T dy 0) as [->|Ny]; [injection H as <- <-; split; ring|].
  destruct (Req_EM_T dx 0) as [->|Nx]; [injection H as <- <-; split; ring|].
  assert (X2 : Rabs dx * Rabs dx = dx * dx) by (rewrite <- Rabs_mult; apply Rabs_pos_eq; nra).
  assert (Y2 : Rabs dy * Rabs dy = dy * dy) by (rewrite <- Rabs_mult; apply Rabs_pos_eq; nra).
  assert (PX := Rabs_pos_lt dx Nx). assert (PY := Rabs_pos_lt dy Ny).
  set (a := Rabs dx) in *. set (b := Rabs dy) in *. destruct (Rlt_dec a b) as [L|L].
  - rewrite Rmin_left, Rmax_right in H by lra. set (t := a / b) in *. destruct (rfactor t) as [P1 P2]. set (f := 1 / sqrt (1 + t * t)) in *. injection H as <- <-.
    split.
    + transitivity (f * f * (1 + t * t)); auto. transitivity (f * f * (t * t + (dx * dx) * (dy * dy) / (a * a) / (b * b))); [field; lra|]. rewrite <- X2, <- Y2. field. lra.
    + transitivity (f * dy * (t - (dx * dx) / a / b)); [field; lra|]. rewrite <- X2. unfold t. field. lra.
  - rewrite Rmin_right, Rmax_left in H by lra. set (t := b / a) in *. destruct (rfactor t) as [P1 P2]. set (f := 1 / sqrt (1 + t * t)) in *. injection H as <- <-.
    assert (TT : t * t = (dy * dy) / (dx * dx)) by (unfold t; rewrite <- X2, <- Y2; field; lra).
    split.
    + transitivity (f * f * (1 + t * t)); auto. rewrite TT. field. auto.
    + field. auto.
Qed.

(** ** The statement for real scalars *)
Definition real_minres {V : vspace Rring} (dot : V -> V -> R) (A : V -> V) {P} (pre : P -> V -> V -> P * V * V) (papply : P -> V -> V -> P * V) (post : P -> V -> P * V)
    (reduction : R) (maxit : nat) (p : P) (x b : V) :=
  minres_apply (K := Rring) (V := V) R (fun _ => true) Rltb Rmult Rdiv 0 (/ 10 ^ 30) reduction A dot (norm_of dot) Rdiv Risb P pre papply post sqrt Rabs genrot0 maxit p x b.
Record real_spd {V : vspace Rring} (dot : V -> V -> R) (W : V -> V) : Prop := {
  rs_linear : linear W; rs_adj : forall a b, dot (W a) b = dot a (W b); rs_pos : forall v, v <> vz -> 0 < dot v (W v) }.

(** C51 for real numbers: all hypotheses are about the problem.  For a Euclidean space, an injective selfadjoint operator A and a
    symmetric positive definite preconditioner W the run always returns; it returns the minimiser of <r, W r> over x1 + K_m, and the
    last reported defect is sqrt <r, W r> *)
Theorem C51_minres_real {V : vspace Rring} (dot : V -> V -> R) (A W : V -> V) {P} pre (papply : P -> V -> V -> P * V) post reduction maxit p x b p1 x1 b1 :
  euclidean dot -> (forall v, dot v v = 0 -> v = vz) -> indefinite (K := Rring) dot A -> real_spd dot W -> (forall p b, snd (papply p vz b) = W b) ->
  pre p x b = (p1, x1, b1) ->
  exists p2 x2 p' x' b' res log, real_minres dot A pre papply post reduction maxit p x b = Ok (p', x', b', res, log) /\ post p2 x2 = (p', x') /\
    kspace A W (vsub b1 (A x1)) (r_iterations R res) (vsub x2 x1) /\
    (forall y, kspace A W (vsub b1 (A x1)) (r_iterations R res) y -> dot (vsub b1 (A x2)) (W (vsub b1 (A x2))) <= dot (vsub b1 (A (vadd x2 y))) (W (vsub b1 (A (vadd x2 y))))) /\
    ((0 < r_iterations R res)%nat -> exists log0, log = log0 ++ [(r_iterations R res, sqrt (dot (vsub b1 (A x2)) (W (vsub b1 (A x2)))))]).
Proof.
  intros HE HN HA HW Hp EP.
  assert (HK : field (K := Rring) Rdiv) by (split; [intros; apply Rmult_comm|intros a c Hc; cbn in *; field; exact Hc]).
  assert (HD : scalar_product (K := Rring) dot) by (destruct HE; split; auto).
  assert (Hpos : forall v, 0 <= dot v (W v)).
  { intros v. destruct (Req_dec (dot v v) 0) as [E|E].
    - apply HN in E. subst v. rewrite (lin0 W (rs_linear _ _ HW)). rewrite (dot_0_r dot Rdiv HK HD). cbn. lra.
    - left. apply (rs_pos _ _ HW). intros ->. apply E. exact (dot_0_r dot Rdiv HK HD vz). }
  assert (HW' : definite (K := Rring) dot W).
  { split; [apply HW|apply HW|]. intros v Ev. destruct (Req_dec (dot v v) 0) as [E|E]; [apply HN, E|]. exfalso.
    assert (0 < dot v (W v)); [|cbn in Ev; lra]. apply (rs_pos _ _ HW). intros ->. apply E. exact (dot_0_r dot Rdiv HK HD vz). }
  assert (Hs : forall v, Rmult (sqrt (dot v (W v))) (sqrt (dot v (W v))) = dot v (W v)) by (intros; apply sqrt_sqrt; auto).
  assert (Hn : forall v, Risb (norm_of dot v) = true <-> v = vz).
  { intros v. unfold Risb. destruct (Req_EM_T (norm_of dot v) 0) as [E|E]; split; intros; auto; try discriminate.
    - apply HN. apply sqrt_eq_0; [apply HE|exact E].
    - subst. exfalso. apply E. unfold norm_of. rewrite (dot_0_r dot Rdiv HK HD). apply sqrt_0. }
  assert (Ha : forall k : Rring, Risb (Rabs k) = true <-> k = r0).
  { intros k. unfold Risb. destruct (Req_EM_T (Rabs k) 0) as [E|E]; split; intros; auto; try discriminate.
    - destruct (Req_dec k 0) as [Z|Z]; [exact Z|]. apply Rabs_no_R0 in Z. contradiction.
    - subst. exfalso. apply E. apply Rabs_R0. }
  assert (Ht : forall e, Risb e = true -> Rltb e (/ 10 ^ 30) = true).
  { intros e. unfold Risb. destruct (Req_EM_T e 0) as [->|]; [|discriminate]. intros _. apply Rltb_true, pow10_pos. }
  assert (H10 : (@r1 Rring) <> r0) by (cbn; lra).
  destruct (C51_minres_total (K := Rring) R (fun _ => true) Rltb Rmult Rdiv 0 (/ 10 ^ 30) reduction A dot (norm_of dot) Rdiv Risb P pre papply post sqrt Rabs genrot0 maxit p x b (fun _ => eq_refl)) as ([[[[p' x'] b'] res] log] & H).
  destruct (C51_minres (K := Rring) R (fun _ => true) Rltb Rmult Rdiv 0 (/ 10 ^ 30) reduction A dot (norm_of dot) Rdiv Risb P pre papply post sqrt Rabs genrot0 W
    HK HD HA HW' Hp Hs genrot0_exact Hn Ha Ht H10 maxit p x b p1 x1 b1 p' x' b' res log EP H) as (p2 & x2 & E1 & E2 & E3 & E4).
  exists p2, x2, p', x', b', res, log. split; [exact H|]. split; [exact E1|]. split; [exact E2|]. split.
  - intros y Hy.
    assert (LA := in_linear _ _ HA). destruct LA as [A1 A2].
    assert (Er : vsub b1 (A (vadd x2 y)) = vadd (vsub b1 (A x2)) (vscale (ropp (r1 : Rring)) (A y))).
    { rewrite A1. unfold vsub. rewrite vscale_add_r, vadd_assoc. reflexivity. }
    destruct (rs_linear _ _ HW) as [W1 W2]. set (q := vsub b1 (A x2)) in *.
    rewrite Er, W1, W2, (eu_add _ HE), (eu_scale _ HE), !(dot_add_r dot HD), !(dot_scale_r dot HD).
    assert (E5 : dot q (W (A y)) = 0) by (apply E3, Hy).
    assert (E6 : dot (A y) (W q) = 0) by (rewrite <- (rs_adj _ _ HW), (eu_sym _ HE); exact E5).
    rewrite E5, E6. assert (P1 := Hpos (A y)). cbn. lra.
  - intros Hm. destruct (E4 Hm) as (log0 & e & E5 & E6). exists log0. rewrite E5. do 3 f_equal. cbn in E6. rewrite <- E6. symmetry. apply sqrt_Rsqr_abs.
Qed.
(** a concrete indefinite problem meets the hypotheses: A = ((0,1),(1,0)), W = diag(2,1) *)
Definition swapR (v : Rplane) : Rplane := (snd v, fst v).
Definition diagR (v : Rplane) : Rplane := (2 * fst v, snd v).
Lemma ex51_hyps : euclidean rdot /\ (forall v, rdot v v = 0 -> v = vz) /\ indefinite (K := Rring) rdot swapR /\ real_spd rdot diagR /\
  ~ (forall v, 0 <= rdot v (swapR v)).
Proof.
  split; [|split; [|split; [|split]]].
  - split; intros; unfold rdot; cbn; try ring. assert (0 <= fst a * fst a) by apply Rle_0_sqr. assert (0 <= snd a * snd a) by apply Rle_0_sqr. lra.
  - intros [a b] H. unfold rdot in H. cbn in *. f_equal; nra.
  - split; [split; intros; reflexivity|intros; unfold rdot, swapR; cbn; ring|]. intros [a b] H. unfold swapR in H. cbn in *. congruence.
  - split; [split; intros; unfold diagR; cbn; f_equal; ring|intros; unfold rdot, diagR; cbn; ring|].
    intros [a b] N. unfold rdot, diagR. cbn. destruct (Req_dec a 0) as [->|Na]; [destruct (Req_dec b 0) as [->|Nb]; [exfalso; apply N; reflexivity|nra]|nra].
  - intros H. specialize (H (1, -1)). unfold rdot, swapR in H. cbn in H. lra.
Qed.
Print Assumptions C51_minres_real.
