(** * GMRes/FGMRes: what does not hold (C28), on concrete rational runs *)
From Coq Require Import Arith List Lia Bool ZArith QArith Qcanon.
From Verif Require Import Ring Sums RingInst Outcome Solvers Gmres.
Import ListNotations.
Open Scope nat_scope.

(** Square root of a rational that is a square; 0 otherwise (a run that needs another root would abort, or show defect 0). *)
Definition qsqrt (q : Qc) : Qc :=
  let n := Qnum (this q) in let d := Zpos (Qden (this q)) in
  if ((Z.sqrt n * Z.sqrt n =? n) && (Z.sqrt d * Z.sqrt d =? d))%Z then (Q2Qc (inject_Z (Z.sqrt n)) / Q2Qc (inject_Z (Z.sqrt d)))%Qc else 0%Qc.
Definition qnrm (v : Qcplane) : Qc := qsqrt (exDot v v).
(** generatePlaneRotation, solvers.hh:1063-1095 (real, eps = 1e-15) *)
Definition qeps : Qc := Q2Qc (1 # 1000000000000000).
Definition qrot (dx dy : Qc) : Qc * Qc :=
  let ndx := absQ dx in let ndy := absQ dy in
  let temp := if ltQ ndx ndy then (ndx / ndy)%Qc else (ndy / ndx)%Qc in
  let f := (1 / qsqrt (1 + temp * temp))%Qc in
  if ltQ ndy qeps then (1%Qc, 0%Qc) else if ltQ ndx qeps then (0%Qc, 1%Qc) else
  if ltQ ndx ndy then ((f * temp)%Qc, (f * dx * dy / ndx / ndy)%Qc) else (f, (f * (dy / dx))%Qc).
(** the matrix ((3,0),(4,1)), right-hand side (3/4,0), initial guess 0, no preconditioning *)
Definition gA (v : Qcplane) : Qcplane := ((Q2Qc 3 * fst v)%Qc, (Q2Qc 4 * fst v + snd v)%Qc).
Definition gb : Qcplane := (Q2Qc (3 # 4), 0%Qc).
Definition run_gmres (A : Qcplane -> Qcplane) (b : Qcplane) (red red4 : Qc) (flex : bool) (m maxit : nat) :=
  gmres_apply4 (V := Qcplane) (fun _ => true) ltQ Qcmult Qcdiv 0%Qc exTiny red A exDot qnrm exDiv absQ exIs0 (fun a => ltQ (absQ a) exTiny) qrot
    nat exPre (fun p v d => (S p, d)) exPost flex maxit m maxit 0 vz b red4.
(** converged flag, iterations, the printed defects, and the square of the norm of the true residual of the returned x *)
Definition gsummary A (b : Qcplane) (o : option (outcome (nat * Qcplane * Qcplane * result Qc * list (nat * Qc) * list (Qc * Qc)))) : option (bool * nat * list Q * Q) :=
  match o with
  | Some (Ok (_, x, _, r, log, _)) => Some (r_converged _ r, r_iterations _ r, map (fun q => this (snd q)) log, this (exDot (vsub b (A x)) (vsub b (A x))))
  | _ => None
  end.
(** restart = 1, maxit = 2, reduction 7/10.  The first cycle ends with j == maxit, so there is no restart, but the while loop goes on with the old
    v[0] and a wrong norm: the solver says "converged" with defect 12/25 < 7/10*3/4, while the true residual has norm > 7/10*3/4 -- it is even larger
    than the 3/5 it was after the first iteration. *)
Theorem C28_stale_restart_refuted : forall flex,
  gsummary gA gb (run_gmres gA gb (Q2Qc (7 # 10)) (Q2Qc (7 # 10)) flex 1 2) = Some (true, 2, [3 # 4; 3 # 5; 12 # 25]%Q, (6354 # 15625)%Q) /\
  ((12 # 25) < (7 # 10) * (3 # 4))%Q /\ (((7 # 10) * (3 # 4)) * ((7 # 10) * (3 # 4)) < (3 # 5) * (3 # 5))%Q /\ ((3 # 5) * (3 # 5) < 6354 # 15625)%Q.
Proof. intros [|]; (split; [vm_compute; reflexivity|repeat split]). Qed.
(** The same system with maxit = 1: the reported defect 3/5 is the norm of the residual. *)
Example C28_one_iteration : forall flex, gsummary gA gb (run_gmres gA gb (Q2Qc (7 # 10)) (Q2Qc (7 # 10)) flex 1 1) = Some (false, 1, [3 # 4; 3 # 5]%Q, (9 # 25)%Q).
Proof. intros [|]; vm_compute; reflexivity. Qed.
(** The four-argument apply ignores its reduction argument: asked for 1/10 (configured: 9/10), the solver stops at 3/5 and reports convergence. *)
Theorem C28_reduction_argument_refuted : forall flex,
  gsummary gA gb (run_gmres gA gb (Q2Qc (9 # 10)) (Q2Qc (1 # 10)) flex 5 20) = Some (true, 1, [3 # 4; 3 # 5]%Q, (9 # 25)%Q) /\ ((1 # 10) * (3 # 4) < 3 # 5)%Q.
Proof. intros [|]; (split; [vm_compute; reflexivity|repeat split]). Qed.
(** If the Krylov space is exhausted, i.e. the exact solution lies in it, the solver does not return it but throws SolverAbort: A = 2, b = (3/4,0). *)
Definition gA2 (v : Qcplane) : Qcplane := ((Q2Qc 2 * fst v)%Qc, (Q2Qc 2 * snd v)%Qc).
Definition aborts {X} (o : option (outcome X)) : bool := match o with Some (Throw EAbort) => true | _ => false end.
Theorem C28_breakdown_refuted : forall flex, aborts (run_gmres gA2 gb (Q2Qc (7 # 10)) (Q2Qc (7 # 10)) flex 5 20) = true.
Proof. intros [|]; vm_compute; reflexivity. Qed.
Print Assumptions C28_stale_restart_refuted.
