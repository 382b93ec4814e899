(** * Plane rotations of MINRES and GMRES (C29), over the real and complex numbers *)
From Coq Require Import Reals Lra Psatz.
Open Scope R_scope.

Definition reps : R := / 10 ^ 15.
(** generatePlaneRotation (dune/istl/solvers.hh:1063-1095) for field_type = real_type, and generateGivensRotation of MINRESSolver (:763-799), which is the
    same function on real numbers.  Simd::cond is the conditional; exact real arithmetic.  (MINRES writes f*dy/dx where GMRES writes f*(dy/dx).) *)
Definition genrot (dx dy : R) : R * R :=
  let ndx := Rabs dx in let ndy := Rabs dy in
  let temp := Rmin ndx ndy / Rmax ndx ndy in
  let f := 1 / sqrt (1 + temp * temp) in
  if Rlt_dec ndy reps then (1, 0)
  else if Rlt_dec ndx reps then (0, 1)
  else if Rlt_dec ndx ndy then (f * temp, f * dx * dy / ndx / ndy)
  else (f, f * (dy / dx)).
(** applyPlaneRotation, solvers.hh:1098-1104, real case *)
Definition approt (cs : R * R) (dx dy : R) : R * R := (fst cs * dx + snd cs * dy, - snd cs * dx + fst cs * dy).

Lemma reps_pos : 0 < reps.
Proof. unfold reps. apply Rinv_0_lt_compat, pow_lt. lra. Qed.
Lemma rfactor t : 0 < 1 + t * t /\ (1 / sqrt (1 + t * t)) * (1 / sqrt (1 + t * t)) * (1 + t * t) = 1.
Proof.
  assert (H : 0 < 1 + t * t) by nra. split; auto. set (u := 1 + t * t) in *. assert (S : sqrt u * sqrt u = u) by (apply sqrt_sqrt; lra).
  assert (sqrt u <> 0) by (intros E; rewrite E in S; lra). rewrite <- S at 3. field. auto.
Qed.
Lemma genrot_large dx dy c s : genrot dx dy = (c, s) -> reps <= Rabs dx -> reps <= Rabs dy -> c * c + s * s = 1 /\ - s * dx + c * dy = 0.
Proof.
  intros H HX HY. unfold genrot in H. pose proof reps_pos as HE. destruct (Rlt_dec (Rabs dy) reps); [lra|]. destruct (Rlt_dec (Rabs dx) reps); [lra|].
  assert (X2 : Rabs dx * Rabs dx = dx * dx) by (rewrite <- Rabs_mult; apply Rabs_pos_eq; nra).
  assert (Y2 : Rabs dy * Rabs dy = dy * dy) by (rewrite <- Rabs_mult; apply Rabs_pos_eq; nra).
  assert (dx <> 0) by (intros ->; rewrite Rabs_R0 in *; lra). assert (dy <> 0) by (intros ->; rewrite Rabs_R0 in *; lra).
  set (a := Rabs dx) in *. set (b := Rabs dy) in *. destruct (Rlt_dec a b) as [L|L].
  - rewrite Rmin_left, Rmax_right in H by lra. set (t := a / b) in *. destruct (rfactor t) as [P1 P2]. set (f := 1 / sqrt (1 + t * t)) in *. injection H as <- <-.
    assert (T : t * b = a) by (unfold t; field; lra). assert (TT : t * t * (dy * dy) = dx * dx) by (rewrite <- Y2, <- X2, <- T; ring).
    split.
    + transitivity (f * f * (1 + t * t)); auto. transitivity (f * f * (t * t + (dx * dx) * (dy * dy) / (a * a) / (b * b))); [field; lra|]. rewrite <- X2, <- Y2. field. lra.
    + transitivity (f * dy * (t - (dx * dx) / a / b)); [field; lra|]. rewrite <- X2. unfold t. field. lra.
  - rewrite Rmin_right, Rmax_left in H by lra. set (t := b / a) in *. destruct (rfactor t) as [P1 P2]. set (f := 1 / sqrt (1 + t * t)) in *. injection H as <- <-.
    assert (TT : t * t = (dy * dy) / (dx * dx)) by (unfold t; rewrite <- X2, <- Y2; field; lra).
    split.
    + transitivity (f * f * (1 + t * t)); auto. rewrite TT. field. auto.
    + field. auto.
Qed.
(** c^2 + s^2 = 1 for all arguments *)
Theorem C29_unit dx dy : fst (genrot dx dy) * fst (genrot dx dy) + snd (genrot dx dy) * snd (genrot dx dy) = 1.
Proof.
  destruct (Rlt_dec (Rabs dy) reps) as [H|H]; [unfold genrot; destruct (Rlt_dec (Rabs dy) reps); cbn; lra|].
  destruct (Rlt_dec (Rabs dx) reps) as [H'|H']; [unfold genrot; destruct (Rlt_dec (Rabs dy) reps); destruct (Rlt_dec (Rabs dx) reps); cbn; lra|].
  destruct (genrot dx dy) as [c s] eqn:E. cbn. apply genrot_large in E; lra.
Qed.
(** applying a rotation keeps the length of every pair *)
Theorem C29_isometry dx dy u v : let r := approt (genrot dx dy) u v in fst r * fst r + snd r * snd r = u * u + v * v.
Proof. cbn zeta. pose proof (C29_unit dx dy) as H. unfold approt. cbn [fst snd]. destruct (genrot dx dy) as [c s]. cbn [fst snd] in *. transitivity ((c * c + s * s) * (u * u + v * v)); [ring|rewrite H; ring]. Qed.
(** the second component becomes 0 and the first one +-sqrt(dx^2+dy^2), unless the arguments are below the cut-off 1e-15 *)
Theorem C29_annihilates dx dy : reps <= Rabs dy -> (dx = 0 \/ reps <= Rabs dx) -> let r := approt (genrot dx dy) dx dy in snd r = 0 /\ fst r * fst r = dx * dx + dy * dy /\ fst r <> 0.
Proof.
  intros HY HX r. assert (E : snd r = 0).
  { unfold r, approt. cbn [snd]. destruct HX as [->|HX].
    - unfold genrot. destruct (Rlt_dec (Rabs dy) reps); [lra|]. rewrite Rabs_R0. destruct (Rlt_dec 0 reps) as [|N]; [cbn; lra|]. pose proof reps_pos. lra.
    - destruct (genrot dx dy) as [c s] eqn:EG. cbn [fst snd]. apply genrot_large in EG; lra. }
  pose proof (C29_isometry dx dy dx dy) as HI. cbn zeta in HI. fold r in HI. rewrite E in HI. split; auto. split; [lra|].
  intros F. rewrite F in HI. assert (dy <> 0) by (intros ->; rewrite Rabs_R0 in HY; pose proof reps_pos; lra). nra.
Qed.
(** below the cut-off the rotation is the identity or the exchange, and what is left of the second component is smaller than 1e-15 *)
Theorem C29_cutoff dx dy : Rabs (snd (approt (genrot dx dy) dx dy)) < reps.
Proof.
  pose proof reps_pos as HE. destruct (Rlt_dec (Rabs dy) reps) as [H|H].
  - unfold genrot. destruct (Rlt_dec (Rabs dy) reps); [|lra]. unfold approt. cbn. replace (- 0 * dx + 1 * dy) with dy by ring. auto.
  - destruct (Rlt_dec (Rabs dx) reps) as [H'|H'].
    + unfold genrot. destruct (Rlt_dec (Rabs dy) reps); [lra|]. destruct (Rlt_dec (Rabs dx) reps); [|lra]. unfold approt. cbn. replace (- (1) * dx + 0 * dy) with (- dx) by ring. rewrite Rabs_Ropp. auto.
    + destruct (C29_annihilates dx dy) as [-> _]; try lra. rewrite Rabs_R0. auto.
Qed.
(** a generic pair is not below the cut-off *)
Example C29_ex : genrot 3 4 = (3 / 5, 4 / 5).
Proof.
  unfold genrot. assert (HE : reps <= 1). { unfold reps. rewrite <- Rinv_1. apply Rinv_le_contravar; [lra|]. apply pow_R1_Rle. lra. }
  rewrite !Rabs_pos_eq by lra. destruct (Rlt_dec 4 reps); [lra|]. destruct (Rlt_dec 3 reps); [lra|]. destruct (Rlt_dec 3 4); [|lra].
  rewrite Rmin_left, Rmax_right by lra. replace (1 + 3 / 4 * (3 / 4)) with ((5 / 4) * (5 / 4)) by field. rewrite sqrt_square by lra. f_equal; field.
Qed.

(** ** complex numbers *)
Definition cx := (R * R)%type.
Definition cadd (a b : cx) : cx := (fst a + fst b, snd a + snd b).
Definition cmul (a b : cx) : cx := (fst a * fst b - snd a * snd b, fst a * snd b + snd a * fst b).
Definition copp (a : cx) : cx := (- fst a, - snd a).
Definition cconj (a : cx) : cx := (fst a, - snd a).
Definition cscale (k : R) (a : cx) : cx := (k * fst a, k * snd a).
Definition cnorm2 (a : cx) : R := fst a * fst a + snd a * snd a.
Definition cabs (a : cx) : R := sqrt (cnorm2 a).
Definition cdiv (a b : cx) : cx := cscale (/ cnorm2 b) (cmul a (cconj b)).
(** generatePlaneRotation for complex field_type: cs is real, sn complex *)
Definition genrotC (dx dy : cx) : R * cx :=
  let ndx := cabs dx in let ndy := cabs dy in
  let temp := Rmin ndx ndy / Rmax ndx ndy in
  let f := 1 / sqrt (1 + temp * temp) in
  if Rlt_dec ndy reps then (1, (0, 0))
  else if Rlt_dec ndx reps then (0, (1, 0))
  else if Rlt_dec ndx ndy then (f * temp, cscale (/ ndy) (cscale (/ ndx) (cmul (cscale f dx) (cconj dy))))
  else (f, cscale f (cconj (cdiv dy dx))).
(** applyPlaneRotation, complex case *)
Definition approtC (cs : R * cx) (dx dy : cx) : cx * cx :=
  (cadd (cscale (fst cs) dx) (cmul (snd cs) dy), cadd (cmul (copp (cconj (snd cs))) dx) (cscale (fst cs) dy)).
Lemma cabs_sq a : cabs a * cabs a = cnorm2 a /\ 0 <= cabs a.
Proof. unfold cabs. assert (0 <= cnorm2 a) by (unfold cnorm2; nra). split; [apply sqrt_sqrt; auto|apply sqrt_pos]. Qed.
Lemma genrotC_large dx dy c s : genrotC dx dy = (c, s) -> reps <= cabs dx -> reps <= cabs dy ->
  c * c + cnorm2 s = 1 /\ snd (approtC (c, s) dx dy) = (0, 0).
Proof.
  intros H HX HY. unfold genrotC in H. pose proof reps_pos as HE. destruct (Rlt_dec (cabs dy) reps); [lra|]. destruct (Rlt_dec (cabs dx) reps); [lra|].
  destruct (cabs_sq dx) as [X2 _]. destruct (cabs_sq dy) as [Y2 _]. set (a := cabs dx) in *. set (b := cabs dy) in *.
  destruct dx as [x1 x2], dy as [y1 y2]. unfold approtC, cmul, cconj, cscale, cdiv, copp, cadd, cnorm2 in *. cbn [fst snd] in *. destruct (Rlt_dec a b) as [L|L].
  - rewrite Rmin_left, Rmax_right in H by lra. set (t := a / b) in *. destruct (rfactor t) as [P1 P2]. set (f := 1 / sqrt (1 + t * t)) in *. injection H as <- <-. cbn [fst snd]. split.
    + transitivity (f * f * (1 + t * t)); auto. transitivity (f * f * (t * t + (x1 * x1 + x2 * x2) * (y1 * y1 + y2 * y2) / (a * a) / (b * b))); [field; lra|]. rewrite <- X2, <- Y2. field. lra.
    + f_equal; unfold t.
      * transitivity (f * y1 / a / b * (a * a - (x1 * x1 + x2 * x2))); [field; lra|]. rewrite X2. field. lra.
      * transitivity (f * y2 / a / b * (a * a - (x1 * x1 + x2 * x2))); [field; lra|]. rewrite X2. field. lra.
  - rewrite Rmin_right, Rmax_left in H by lra. set (t := b / a) in *. destruct (rfactor t) as [P1 P2]. set (f := 1 / sqrt (1 + t * t)) in *. injection H as <- <-. cbn [fst snd].
    assert (TT : t * t = (y1 * y1 + y2 * y2) / (x1 * x1 + x2 * x2)) by (unfold t; rewrite <- X2, <- Y2; field; lra).
    assert (NX : x1 * x1 + x2 * x2 <> 0) by nra.
    split.
    + transitivity (f * f * (1 + t * t)); auto. rewrite TT. field. auto.
    + f_equal; field; auto.
Qed.
Theorem C29_unit_complex dx dy : fst (genrotC dx dy) * fst (genrotC dx dy) + cnorm2 (snd (genrotC dx dy)) = 1.
Proof.
  destruct (Rlt_dec (cabs dy) reps) as [H|H]; [unfold genrotC; destruct (Rlt_dec (cabs dy) reps); unfold cnorm2; cbn; lra|].
  destruct (Rlt_dec (cabs dx) reps) as [H'|H']; [unfold genrotC; destruct (Rlt_dec (cabs dy) reps); destruct (Rlt_dec (cabs dx) reps); unfold cnorm2; cbn; lra|].
  destruct (genrotC dx dy) as [c s] eqn:E. cbn [fst snd]. apply genrotC_large in E; lra.
Qed.
Theorem C29_isometry_complex dx dy u v : let r := approtC (genrotC dx dy) u v in cnorm2 (fst r) + cnorm2 (snd r) = cnorm2 u + cnorm2 v.
Proof.
  cbn zeta. pose proof (C29_unit_complex dx dy) as H. destruct (genrotC dx dy) as [c [s1 s2]]. destruct u as [u1 u2], v as [v1 v2].
  unfold approtC, cmul, cconj, cscale, copp, cadd, cnorm2 in *. cbn [fst snd] in *.
  transitivity ((c * c + (s1 * s1 + s2 * s2)) * (u1 * u1 + u2 * u2 + (v1 * v1 + v2 * v2))); [ring|rewrite H; ring].
Qed.
Theorem C29_annihilates_complex dx dy : reps <= cabs dy -> (dx = (0, 0) \/ reps <= cabs dx) -> let r := approtC (genrotC dx dy) dx dy in snd r = (0, 0) /\ cnorm2 (fst r) = cnorm2 dx + cnorm2 dy.
Proof.
  intros HY HX r. assert (E : snd r = (0, 0)).
  { unfold r. destruct HX as [->|HX].
    - unfold genrotC. destruct (Rlt_dec (cabs dy) reps); [lra|]. replace (cabs (0, 0)) with 0.
      + destruct (Rlt_dec 0 reps) as [|N]; [|pose proof reps_pos; lra]. unfold approtC, cmul, cconj, cscale, copp, cadd. cbn. f_equal; ring.
      + unfold cabs, cnorm2. cbn. replace (0 * 0 + 0 * 0) with 0 by ring. symmetry. apply sqrt_0.
    - destruct (genrotC dx dy) as [c s] eqn:EG. apply genrotC_large in EG; auto. apply EG. }
  pose proof (C29_isometry_complex dx dy dx dy) as HI. cbn zeta in HI. fold r in HI. rewrite E in HI. split; auto. unfold cnorm2 in *. cbn [fst snd] in HI. lra.
Qed.
Print Assumptions C29_unit.
Print Assumptions C29_annihilates_complex.
