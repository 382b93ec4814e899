(** * Eigenvalue algorithms (dune/istl/eigenvalue/poweriteration.hh): C57 *)
From Coq Require Import Arith List Lia Bool Reals Lra.
From Verif Require Import Ring Sums Outcome Solvers Gmres GmresExact Rotations VRing GmresReal.
Import ListNotations.
Open Scope nat_scope.

(** ** Model

    field_type = double is modelled by the real numbers; a value that is not finite (1.0 / 0.0 and everything computed from it) is not represented: a step
    that divides by a norm that is zero is reported as [SNan].  In the C++ code lambda and r_norm are then NaN, `r_norm > epsilon' is false and the loop ends. *)
Inductive pstep (St : Type) := SNext (s : St) (rnorm : R) | SNan (s : St) | SExn (s : St) (e : exn) | SAssert.
Arguments SNext {St}. Arguments SNan {St}. Arguments SExn {St}. Arguments SAssert {St}.
(** Result of an algorithm: the final state and the value of getIterationCount(). *)
Inductive presult (St : Type) :=
| PDone (s : St) (its : nat)        (* returned, r_norm <= epsilon *)
| PNan (s : St) (its : nat)         (* returned, r_norm is NaN *)
| PNoConv (s : St) (its : nat)      (* ISTLError: did not converge in nIterationsMax_ iterations *)
| PExn (s : St) (e : exn) (its : nat) (* exception of the linear solver *)
| PAssert.                          (* failed assert *)
Arguments PDone {St}. Arguments PNan {St}. Arguments PNoConv {St}. Arguments PExn {St}. Arguments PAssert {St}.

(** poweriteration.hh:276-285 (426-436, 554-563, 727-736): `while (r_norm > epsilon)' with `++nIterations_ > nIterationsMax_' and DUNE_THROW.  [rest] is nIterationsMax_ minus
    the number of iterations done.  nIterations_ does not wrap around (nIterationsMax_ < UINT_MAX). *)
Fixpoint ploop {St} (body : nat -> St -> pstep St) (eps : R) (rest its : nat) (s : St) : presult St :=
  match rest with
  | O => PNoConv s (S its)
  | S rest =>
    match body (S its) s with
    | SNext s' r => if Rltb eps r then ploop body eps rest (S its) s' else PDone s' (S its)
    | SNan s' => PNan s' (S its)
    | SExn s' e => PExn s' e (S its)
    | SAssert => PAssert
    end
  end.

Section Model.
  Context {V : vspace Rring} (dot : V -> V -> R) (A : V -> V).
  Local Notation norm := (norm_of dot).
  (** x *= (1.0 / x.two_norm()) *)
  Definition normalise (v : V) : option V := if Req_EM_T (norm v) 0 then None else Some (vscale (1 / norm v : Rring)%R v).

  (** applyPowerIteration, poweriteration.hh:287-299: one pass of the loop.  State: x, y, lambda. *)
  Definition power_body (_ : nat) (s : V * V * R) : pstep (V * V * R) :=
    let '(x, y, lambda) := s in
    match normalise y with
    | None => SNan s
    | Some x =>
      let y := A x in
      let lambda := dot x y in
      let temp := vadd y (vscale (- lambda : Rring)%R x) in
      SNext (x, y, lambda) (norm temp)
    end.
  (** applyPowerIteration, poweriteration.hh:260-325.  r_norm starts as numeric_limits::max(), which is > epsilon.  For x = 0 (with at least one
      component) x becomes NaN and so do y, lambda and r_norm in the first iteration. *)
  Definition power_iteration (maxit : nat) (eps : R) (x : V) (lambda : R) : presult (V * V * R) :=
    match normalise x with
    | None => match maxit with O => PNoConv (x, x, lambda) 1 | S _ => PNan (x, x, lambda) 1 end
    | Some x => ploop power_body eps maxit 0 (x, A x, lambda)
    end.

  (** *** The iteration operator and the iteration matrix *)
  (** ScalingLinearOperator::apply / applyscaleadd, poweriteration.hh:59-70 *)
  Definition scaling_apply (immut mut : R) (x : V) : V := vscale (immut * mut : Rring)%R x.
  Definition scaling_applyscaleadd (immut mut : R) (alpha : R) (x y : V) : V := vadd y (vscale (alpha : Rring) (vscale (immut * mut : Rring)%R x)).
  (** LinearOperatorSum::apply / applyscaleadd with op1 = the MatrixAdapter of m_, op2 = ScalingLinearOperator(-1.0, mu_), poweriteration.hh:111-124, 212-214 *)
  Definition itop_apply (mu : R) (x : V) : V := scaling_applyscaleadd (-1) mu 1 x (A x).
  Definition itop_applyscaleadd (mu : R) (alpha : R) (x y : V) : V := vadd y (vscale (alpha : Rring) (scaling_applyscaleadd (-1) mu 1 x (A x))).

  (** Members that survive a call: mu_ (line 1025) and itMatrix_ (line 1034; [Some s]: exists and equals m_ - s*I, see C57_shift_matrix for the loop), and
      the state of the solver object. *)
  Record pst (S : Type) := PSt { p_mu : R; p_itm : option R; p_sol : S }.
  Arguments PSt {S}. Arguments p_mu {S}. Arguments p_itm {S}. Arguments p_sol {S}.
  (** constructor, poweriteration.hh:206-218: mu_ = 0, itMatrix_ empty *)
  Definition pst_new {S} (s : S) : pst S := PSt 0%R None s.
  (** getIterationMatrix, poweriteration.hh:945-953: creates a copy of m_ on the first call *)
  Definition get_matrix {S} (st : pst S) : pst S := match p_itm st with None => PSt (p_mu st) (Some 0%R) (p_sol st) | Some _ => st end.
  (** updateShiftMu, poweriteration.hh:982-1014 *)
  Definition update_shift {S} (mu : R) (st : pst S) : pst S :=
    if Req_EM_T mu (p_mu st) then st
    else PSt mu (match p_itm st with Some _ => Some mu | None => None end) (p_sol st).
  (** The operator a solver object works with: the solver was constructed from getIterationOperator() ([mat] = false; a reference to m_ and mu_) or from
      getIterationMatrix() ([mat] = true).  A solver cannot be constructed from a matrix that was not created; that case is irrelevant. *)
  Definition op_of {S} (mat : bool) (st : pst S) (v : V) : V :=
    let s := if mat then match p_itm st with Some s => s | None => 0%R end else p_mu st in
    itop_apply s v.

  Section Solver.
    (** The linear solver: any InverseOperator object with state Sv; apply(y, rhs, statistics) gets the operator it was constructed from, the start value
        y and the right hand side, and returns y or throws. *)
    Context {Sv : Type} (solver : Sv -> (V -> V) -> V -> V -> (Sv * V) + exn) (mat : bool).
    Definition solve (st : pst Sv) (y rhs : V) : (pst Sv * V) + exn :=
      match solver (p_sol st) (op_of mat st) y rhs with
      | inl (s, y) => inl (PSt (p_mu st) (p_itm st) s, y)
      | inr e => inr e
      end.
    (** state of the loops: members, x, y, lambda *)
    Definition ist := (pst Sv * V * V * R)%type.
    (** lambda and r_norm, poweriteration.hh:447-470 *)
    Definition inv_values (avoid : bool) (gamma : R) (x y : V) : R * R :=
      let yn := norm y in
      if avoid then
        let temp := A y in
        let lambda := (dot y temp / (yn * yn))%R in
        let temp := vadd temp (vscale (- lambda : Rring)%R y) in
        (lambda, (norm temp / yn)%R)
      else
        let lambda := (gamma + dot y x / (yn * yn))%R in
        let temp := vadd x (vscale (gamma - lambda : Rring)%R y) in
        (lambda, (norm temp / yn)%R).
    (** applyInverseIteration with shift, poweriteration.hh:438-475 *)
    Definition inverse_body (avoid : bool) (gamma : R) (_ : nat) (s : ist) : pstep ist :=
      let '(st, x, y, lambda) := s in
      match solve st y x with
      | inr e => SExn s e
      | inl (st, y) =>
        match normalise y with
        | None => SNan (st, x, y, lambda)
        | Some x' => let '(lambda, r) := inv_values avoid gamma x y in SNext (st, x', y, lambda) r
        end
      end.
    (** applyInverseIteration, poweriteration.hh:394-500: y keeps the unscaled x as start value.  For x = 0 the solver is given NaN; it may throw,
        which is not modelled, and otherwise r_norm is NaN. *)
    Definition inverse_iteration (avoid : bool) (maxit : nat) (gamma eps : R) (st : pst Sv) (x : V) (lambda : R) : presult ist :=
      let st := update_shift gamma st in
      match normalise x with
      | None => match maxit with O => PNoConv (st, x, x, lambda) 1 | S _ => PNan (st, x, x, lambda) 1 end
      | Some x' => ploop (inverse_body avoid gamma) eps maxit 0 (st, x', x, lambda)
      end.
    (** applyInverseIteration without shift, poweriteration.hh:353-361.  The template argument avoidLinSolverCrime is not passed on: the call
        `applyInverseIteration(gamma,epsilon,solver,x,lambda)' deduces the solver type and takes the default false. *)
    Definition inverse_iteration0 (avoid : bool) (maxit : nat) (eps : R) (st : pst Sv) (x : V) (lambda : R) : presult ist :=
      inverse_iteration false maxit 0 eps st x lambda.

    (** applyRayleighQuotientIteration, poweriteration.hh:565-607 *)
    Definition rqi_values (avoid : bool) (lambda : R) (x y : V) : R * R :=
      let yn := norm y in
      if avoid then
        let temp := A y in
        let lambda := (dot y temp / (yn * yn))%R in
        let temp := vadd temp (vscale (- lambda : Rring)%R y) in
        (lambda, (norm temp / yn)%R)
      else
        let lambda_update := (dot y x / (yn * yn))%R in
        let temp := vadd x (vscale (- lambda_update : Rring)%R y) in
        ((lambda + lambda_update)%R, (norm temp / yn)%R).
    (** one iteration of applyRayleighQuotientIteration, poweriteration.hh:533-620 *)
    Definition rqi_body (avoid : bool) (_ : nat) (s : ist) : pstep ist :=
      let '(st, x, y, lambda) := s in
      let st := update_shift lambda st in
      match solve st y x with
      | inr e => SExn (st, x, y, lambda) e
      | inl (st, y) =>
        match normalise y with
        | None => SNan (st, x, y, lambda)
        | Some x' => let '(lambda, r) := rqi_values avoid lambda x y in SNext (st, x', y, lambda) r
        end
      end.
    (** poweriteration.hh:533-625 *)
    Definition rqi (avoid : bool) (maxit : nat) (eps : R) (st : pst Sv) (x : V) (lambda : R) : presult ist :=
      match normalise x with
      | None => match maxit with O => PNoConv (st, x, x, lambda) 1 | S _ => PNan (st, x, x, lambda) 1 end
      | Some x' => ploop (rqi_body avoid) eps maxit 0 (st, x', x, lambda)
      end.

    (** applyTLIMEIteration.  State: members, x_s, y, mu_s, extrnl, doRQI. *)
    Definition tst := (pst Sv * V * V * R * bool * bool)%type.
    (** poweriteration.hh:756-838: new mu_s, q_norm, r_norm *)
    Definition tlime_values (avoid doRQI : bool) (gamma mu_s : R) (x y : V) : R * R * R :=
      let omega := (1 / norm y)%R in
      if avoid then
        let temp := A y in
        let mu_s := (dot y temp * (omega * omega))%R in
        let temp := vadd temp (vscale (- gamma : Rring)%R y) in
        let q_norm := (norm temp * omega)%R in
        let r2 := (q_norm * q_norm - (gamma - mu_s) * (gamma - mu_s))%R in
        if Rltb r2 0 then
          let temp := vadd temp (vscale (gamma - mu_s : Rring)%R y) in
          (mu_s, q_norm, (norm temp * omega)%R)
        else (mu_s, q_norm, sqrt r2)
      else
        let upd := (dot y x * (omega * omega))%R in
        if doRQI then
          let mu_s := (mu_s + upd)%R in
          (mu_s, (norm (vadd x (vscale (mu_s - gamma : Rring)%R y)) * omega)%R, (norm (vadd x (vscale (- upd : Rring)%R y)) * omega)%R)
        else
          let mu_s := (gamma + upd)%R in
          (mu_s, omega, (norm (vadd x (vscale (gamma - mu_s : Rring)%R y)) * omega)%R).
    (** the switches of poweriteration.hh:859-888: None = the assert fails; else the new (extrnl, doRQI).  For mu_s = 0 the quotient in the last test is inf
        or NaN and the comparison false. *)
    Definition tlime_switch (gamma eta delta : R) (m its : nat) (mu_s_old mu_s q_norm : R) (extrnl doRQI : bool) : option (bool * bool) :=
      let step1 := if negb doRQI && Rltb q_norm eta then
                     if Rltb (Rabs (mu_s - gamma)) eta then Some (false, true) else None
                   else Some (extrnl, doRQI) in
      match step1 with
      | None => None
      | Some (extrnl, doRQI) =>
        let doRQI := if negb extrnl && doRQI && negb (Rltb (Rabs (mu_s - gamma)) eta) then false else doRQI in
        let doRQI := if extrnl && negb doRQI && (m <=? its) && (if Req_EM_T mu_s 0 then false else Rltb (Rabs (mu_s - mu_s_old) / Rabs mu_s) delta) then true else doRQI in
        Some (extrnl, doRQI)
      end.
    (** poweriteration.hh:738-888 *)
    Definition tlime_body (avoid : bool) (gamma eta delta : R) (m : nat) (its : nat) (s : tst) : pstep tst :=
      let '(st, x, y, mu_s, extrnl, doRQI) := s in
      let mu := if doRQI then mu_s else gamma in
      let st := update_shift mu st in
      match solve st y x with
      | inr e => SExn (st, x, y, mu_s, extrnl, doRQI) e
      | inl (st, y) =>
        match normalise y with
        | None => SNan (st, x, y, mu_s, extrnl, doRQI)
        | Some x' =>
          let '(mu_s', q_norm, r_norm) := tlime_values avoid doRQI gamma mu_s x y in
          match tlime_switch gamma eta delta m its mu_s mu_s' q_norm extrnl doRQI with
          | None => SAssert
          | Some (extrnl, doRQI) => SNext (st, x', y, mu_s', extrnl, doRQI) r_norm
          end
        end
      end.
    (** poweriteration.hh:691-917; lambda is the start value of mu_s (only used for the relative change in the first iteration) *)
    Definition tlime (avoid : bool) (maxit : nat) (gamma eta eps delta : R) (m : nat) (st : pst Sv) (x : V) (lambda : R) : presult tst :=
      match normalise x with
      | None => match maxit with O => PNoConv (st, x, x, lambda, true, false) 1 | S _ => PNan (st, x, x, lambda, true, false) 1 end
      | Some x' => ploop (tlime_body avoid gamma eta delta m) eps maxit 0 (st, x', x, lambda, true, false)
      end.
  End Solver.
End Model.
Arguments PSt {S}. Arguments p_mu {S}. Arguments p_itm {S}. Arguments p_sol {S}.

(** ** Specification *)
(** (lambda, x) is an approximate eigenpair: x has norm 1, lambda is its Rayleigh quotient, and the residual is at most eps. *)
Definition eigenpair_up_to {V : vspace Rring} (dot : V -> V -> R) (A : V -> V) (eps : R) (x : V) (lambda : R) : Prop :=
  (norm_of dot x = 1 /\ lambda = dot x (A x) /\ norm_of dot (vsub (A x) (vscale (lambda : Rring) x)) <= eps)%R.
(** the scalar product is definite *)
Definition definite {V : vspace Rring} (dot : V -> V -> R) : Prop := forall v, dot v v = 0%R -> v = vz.
Definition selfadjoint {V : vspace Rring} (dot : V -> V -> R) (A : V -> V) : Prop := forall a b, dot (A a) b = dot a (A b).
(** es: an orthonormal basis of eigenvectors with their eigenvalues *)
Definition eigenbasis {V : vspace Rring} (dot : V -> V -> R) (A : V -> V) (es : list (V * R)) : Prop :=
  (forall e l, In (e, l) es -> A e = vscale (l : Rring) e /\ dot e e = 1%R) /\
  (forall i j e l e' l', nth_error es i = Some (e, l) -> nth_error es j = Some (e', l') -> i <> j -> dot e e' = 0%R) /\
  forall x, x = fold_right (fun el acc => vadd (vscale (dot x (fst el) : Rring) (fst el)) acc) vz es.
(** the linear solver solves its system exactly whenever it returns *)
Definition exact_solver {V : vspace Rring} {Sv} (solver : Sv -> (V -> V) -> V -> V -> (Sv * V) + exn) : Prop :=
  forall s op y b s' y', solver s op y b = inl (s', y') -> op y' = b.

(** ** Euclidean geometry *)
Section Geo.
  Context {V : vspace Rring} (dot : V -> V -> R) (HE : euclidean dot).
  Local Notation norm := (norm_of dot).
  Lemma dot_add_r a b c : dot a (vadd b c) = (dot a b + dot a c)%R.
  Proof. destruct HE as [E1 E2 E3 E4]. rewrite E1, E2, !(E1 a). reflexivity. Qed.
  Lemma dot_scale_r k a b : dot a (vscale (k : Rring) b) = (k * dot a b)%R.
  Proof. destruct HE as [E1 E2 E3 E4]. rewrite E1, E3, !(E1 a). reflexivity. Qed.
  Lemma norm_nonneg v : (0 <= norm v)%R.
  Proof. apply sqrt_pos. Qed.
  Lemma norm_sqr v : (norm v * norm v = dot v v)%R.
  Proof. apply sqrt_sqrt, (eu_pos dot HE). Qed.
  Lemma norm_scale k v : (norm (vscale (k : Rring) v) = Rabs k * norm v)%R.
  Proof.
    unfold norm_of. rewrite (eu_scale dot HE), dot_scale_r. replace (k * (k * dot v v))%R with (Rsqr k * dot v v)%R by (unfold Rsqr; ring).
    rewrite sqrt_mult_alt by apply Rle_0_sqr. rewrite sqrt_Rsqr_abs. reflexivity.
  Qed.
  Lemma cauchy_schwarz a b : (Rabs (dot a b) <= norm a * norm b)%R.
  Proof.
    destruct HE as [E1 E2 E3 E4].
    assert (H : (dot a b * dot a b <= dot a a * dot b b)%R).
    { assert (P : forall s t, (0 <= s * s * dot a a + 2 * s * t * dot a b + t * t * dot b b)%R).
      { intros s t. pose proof (E4 (vadd (vscale (s : Rring) a) (vscale (t : Rring) b))) as H.
        rewrite E2, !E3, !dot_add_r, !dot_scale_r, (E1 b a) in H. replace (s * s * dot a a + 2 * s * t * dot a b + t * t * dot b b)%R with (s * (s * dot a a + t * dot a b) + t * (s * dot a b + t * dot b b))%R by ring. exact H. }
      pose proof (E4 a) as Pa. pose proof (E4 b) as Pb. destruct (Req_dec (dot b b) 0) as [Z|Z].
      - destruct (Req_dec (dot a b) 0) as [Y|Y]; [rewrite Y, Z; lra|]. exfalso.
        specialize (P 1%R (- (dot a a + 1) / (2 * dot a b))%R). rewrite Z in P. replace (1 * 1 * dot a a + 2 * 1 * (- (dot a a + 1) / (2 * dot a b)) * dot a b + - (dot a a + 1) / (2 * dot a b) * (- (dot a a + 1) / (2 * dot a b)) * 0)%R with (-1)%R in P by (field; auto). lra.
      - specialize (P (dot b b) (- dot a b)%R).
        assert (Q : (0 <= dot b b * (dot a a * dot b b - dot a b * dot a b))%R) by (eapply Rle_trans; [exact P|]; right; ring).
        assert (Pb' : (0 < dot b b)%R) by lra. destruct (Rle_lt_dec (dot a b * dot a b) (dot a a * dot b b)) as [L|L]; [exact L|exfalso].
        assert (0 < dot b b * (dot a b * dot a b - dot a a * dot b b))%R by (apply Rmult_lt_0_compat; lra). lra. }
    apply Rsqr_incr_0_var; [|apply Rmult_le_pos; apply norm_nonneg]. unfold Rsqr. replace (norm a * norm b * (norm a * norm b))%R with (norm a * norm a * (norm b * norm b))%R by ring.
    rewrite !norm_sqr, <- Rabs_mult, Rabs_pos_eq by (apply Rle_0_sqr). exact H.
  Qed.
  Lemma norm_triangle a b : (norm (vadd a b) <= norm a + norm b)%R.
  Proof.
    apply Rsqr_incr_0_var; [|pose proof (norm_nonneg a); pose proof (norm_nonneg b); lra]. unfold Rsqr. rewrite norm_sqr, (eu_add dot HE), !dot_add_r, (eu_sym dot HE b a).
    pose proof (cauchy_schwarz a b). pose proof (Rle_abs (dot a b)). pose proof (norm_sqr a). pose proof (norm_sqr b). nra.
  Qed.
  Lemma norm_neg a : norm (vscale (-1 : Rring)%R a) = norm a.
  Proof. rewrite norm_scale, Rabs_left by lra. lra. Qed.
  Lemma normalise_some v x : normalise dot v = Some x -> (0 < norm v)%R /\ x = vscale (1 / norm v : Rring)%R v /\ norm x = 1%R.
  Proof.
    unfold normalise. destruct (Req_EM_T (norm v) 0) as [E|E]; [discriminate|]. injection 1 as <-. pose proof (norm_nonneg v). assert (P : (0 < norm v)%R) by lra.
    split; [exact P|]. split; [reflexivity|]. rewrite norm_scale, Rabs_pos_eq; [field; lra|]. apply Rlt_le. apply Rdiv_lt_0_compat; lra.
  Qed.
  Lemma normalise_none v : definite dot -> normalise dot v = None <-> v = vz.
  Proof.
    intros HD. unfold normalise. destruct (Req_EM_T (norm v) 0) as [E|E]; split; try discriminate; try reflexivity.
    - intros _. apply HD. rewrite <- norm_sqr, E. ring.
    - intros ->. exfalso. apply E. unfold norm_of. replace (dot vz vz) with 0%R; [apply sqrt_0|].
      rewrite <- (vscale_0 Rring V vz), (eu_scale dot HE). cbn. ring.
  Qed.
End Geo.

(** ** The loop *)
Section Loop.
  Context {St : Type} (body : nat -> St -> pstep St) (eps : R) (Inv : nat -> St -> Prop).
  Hypothesis step : forall i s s' r, Inv i s -> body (S i) s = SNext s' r -> (eps < r)%R -> Inv (S i) s'.
  (** what the loop invariant gives for each way the loop can end *)
  Definition loop_end (its rest : nat) (out : presult St) : Prop :=
    match out with
    | PDone s' n => its < n <= its + rest /\ exists i s0 r, n = S i /\ Inv i s0 /\ body n s0 = SNext s' r /\ (r <= eps)%R
    | PNan s' n => its < n <= its + rest /\ exists i s0, n = S i /\ Inv i s0 /\ body n s0 = SNan s'
    | PNoConv s' n => n = S (its + rest) /\ Inv (its + rest) s'
    | PExn s' e n => its < n <= its + rest /\ exists i s0, n = S i /\ Inv i s0 /\ body n s0 = SExn s' e
    | PAssert => exists i s0, Inv i s0 /\ body (S i) s0 = SAssert
    end.
  Lemma ploop_inv rest : forall its s, Inv its s -> loop_end its rest (ploop body eps rest its s).
  Proof.
    induction rest as [|rest IH]; intros its s HI; cbn [ploop].
    - cbn. rewrite Nat.add_0_r. auto.
    - destruct (body (S its) s) as [s1 r|s1|s1 e|] eqn:E.
      + unfold Rltb. destruct (Rlt_dec eps r) as [L|L].
        * specialize (IH (S its) s1 (step _ _ _ _ HI E L)). destruct (ploop body eps rest (S its) s1); cbn [loop_end] in *; try (destruct IH as [I1 I2]; split; [lia|exact I2]); auto.
          rewrite <- Nat.add_succ_comm. exact IH.
        * cbn. split; [lia|]. exists its, s, r. repeat split; auto. lra.
      + cbn. split; [lia|]. exists its, s. auto.
      + cbn. split; [lia|]. exists its, s. auto.
      + cbn. exists its, s. auto.
  Qed.
End Loop.

(** ** Power iteration *)
Section Power.
  Context {V : vspace Rring} (dot : V -> V -> R) (A : V -> V) (HE : euclidean dot) (LA : linear A).
  Local Notation norm := (norm_of dot).
  (** A^k x *)
  Definition pow (k : nat) (x : V) : V := Nat.iter k A x.
  (** the normalised vector, and the norm of its residual with respect to its Rayleigh quotient *)
  Definition unit (v : V) : V := vscale (1 / norm v : Rring)%R v.
  Definition rayleigh_residual (v : V) : R := norm (vsub (A (unit v)) (vscale (dot (unit v) (A (unit v)) : Rring) (unit v))).
  Lemma unit_norm v : (0 < norm v)%R -> norm (unit v) = 1%R.
  Proof. intros H. unfold unit. rewrite (norm_scale dot HE), Rabs_pos_eq; [field; lra|]. apply Rlt_le, Rdiv_lt_0_compat; lra. Qed.
  Lemma unit_scale k v : (0 < k)%R -> (0 < norm v)%R -> unit (vscale (k : Rring) v) = unit v.
  Proof. intros Hk Hv. unfold unit. rewrite (norm_scale dot HE), Rabs_pos_eq by lra. rewrite <- vscale_mul. f_equal. cbn. field. lra. Qed.
  Lemma resid_sub (y x : V) l : vadd y (vscale (- l : Rring)%R x) = vsub y (vscale (l : Rring) x).
  Proof. vring ltac:(solve [cbn; ring]). Qed.
  Local Notation pinv := (fun x0 eps i (s : V * V * R) => let '(x, y, l) := s in (forall j, j <= i -> (0 < norm (pow j x0))%R) /\ x = unit (pow i x0) /\ y = A x /\
    (forall j, 1 <= j <= i -> (eps < rayleigh_residual (pow j x0))%R)).
  Lemma power_next x0 i x y l : (forall j, j <= i -> (0 < norm (pow j x0))%R) -> x = unit (pow i x0) -> y = A x ->
    norm y = (norm (pow (S i) x0) / norm (pow i x0))%R /\ (norm y <> 0%R -> (0 < norm (pow (S i) x0))%R /\
      power_body dot A (S i) (x, y, l) = SNext (unit (pow (S i) x0), A (unit (pow (S i) x0)), dot (unit (pow (S i) x0)) (A (unit (pow (S i) x0)))) (rayleigh_residual (pow (S i) x0))).
  Proof.
    intros H1 H2 H3. destruct LA as [L1 L2]. assert (HP : (0 < norm (pow i x0))%R) by (apply H1; lia).
    assert (HY : y = vscale (1 / norm (pow i x0) : Rring)%R (pow (S i) x0)) by (rewrite H3, H2; unfold unit; rewrite L2; reflexivity).
    assert (HK : (0 < 1 / norm (pow i x0))%R) by (apply Rdiv_lt_0_compat; lra).
    assert (HN : norm y = (norm (pow (S i) x0) / norm (pow i x0))%R) by (rewrite HY, (norm_scale dot HE), Rabs_pos_eq by lra; field; lra).
    split; [exact HN|]. intros NZ. assert (HS : (0 < norm (pow (S i) x0))%R).
    { pose proof (norm_nonneg dot (pow (S i) x0)) as Q. destruct (Req_dec (norm (pow (S i) x0)) 0) as [Z|Z]; [exfalso; apply NZ; rewrite HN, Z; field; lra|lra]. }
    split; [exact HS|]. unfold power_body, normalise. destruct (Req_EM_T (norm y) 0) as [E|E]; [contradiction|].
    change (vscale (1 / norm y : Rring)%R y) with (unit y). rewrite HY, unit_scale by auto. unfold rayleigh_residual. rewrite resid_sub. reflexivity.
  Qed.
  (** The result of applyPowerIteration for every start vector, eps and nIterationsMax.
      - Normal return after n iterations: n is the first index whose iterate A^n x0 / |A^n x0| has a residual of at most eps; x is that iterate and lambda its Rayleigh quotient.
      - Exception: none of the iterates 1 .. nIterationsMax has a residual of at most eps; getIterationCount() then yields nIterationsMax + 1.
      - Return with NaN: A^n x0 = 0, and no earlier iterate met the target. *)
  Theorem C57_power maxit eps x0 l0 : definite dot ->
    match power_iteration dot A maxit eps x0 l0 with
    | PDone (x, _, l) n => 1 <= n <= maxit /\ (forall j, j <= n -> pow j x0 <> vz) /\ x = unit (pow n x0) /\ eigenpair_up_to dot A eps x l /\
        (forall j, 1 <= j < n -> (eps < rayleigh_residual (pow j x0))%R)
    | PNan _ n => 1 <= n <= maxit /\ pow n x0 = vz /\ (forall j, 1 <= j < n -> (eps < rayleigh_residual (pow j x0))%R)
    | PNoConv _ n => n = S maxit /\ (forall j, 1 <= j <= maxit -> pow j x0 <> vz /\ (eps < rayleigh_residual (pow j x0))%R)
    | PExn _ _ _ | PAssert => False
    end.
  Proof.
    intros HD. assert (NZ : forall v, (0 < norm v)%R -> v <> vz).
    { intros v Hv ->. apply (normalise_none dot HE) with (v := vz) in HD. destruct HD as [_ HD]. specialize (HD eq_refl). unfold normalise in HD. destruct (Req_EM_T (norm vz) 0); [lra|discriminate]. }
    assert (ZN : forall v, norm v = 0%R -> v = vz) by (intros v Hv; apply HD; rewrite <- (norm_sqr dot HE), Hv; ring).
    unfold power_iteration. destruct (normalise dot x0) as [x1|] eqn:EN.
    - apply (normalise_some dot HE) in EN. destruct EN as [N1 [N2 N3]].
      assert (ST : forall i s s' r, (pinv x0 eps i s) -> power_body dot A (S i) s = SNext s' r -> (eps < r)%R -> pinv x0 eps (S i) s').
      { intros i [[xx yy] ll] s' r [I1 [I2 [I3 I4]]] B Hr. destruct (power_next x0 i xx yy ll I1 I2 I3) as [P1 P2].
        assert (Q : norm yy <> 0%R) by (intros Z; unfold power_body, normalise in B; destruct (Req_EM_T (norm yy) 0); [discriminate|contradiction]).
        destruct (P2 Q) as [P3 P4]. rewrite P4 in B. injection B as <- <-. split; [|split; [reflexivity|split; [reflexivity|]]].
        - intros j Hj. destruct (Nat.eq_dec j (S i)) as [->|]; [exact P3|apply I1; lia].
        - intros j Hj. destruct (Nat.eq_dec j (S i)) as [->|]; [exact Hr|apply I4; lia]. }
      assert (I0 : pinv x0 eps 0 (x1, A x1, l0)).
      { split; [|split; [exact N2|split; [reflexivity|intros; lia]]]. intros j Hj. replace j with 0 by lia. exact N1. }
      pose proof (ploop_inv (power_body dot A) eps _ ST maxit 0 (x1, A x1, l0) I0) as HL.
      destruct (ploop (power_body dot A) eps maxit 0 (x1, A x1, l0)) as [[[x y] l] n|s n|[[x y] l] n|s e n|]; cbn [loop_end] in HL.
      + destruct HL as [H1 [i [[[xx yy] ll] [r [-> [[I1 [I2 [I3 I4]]] [B Hr]]]]]]]. destruct (power_next x0 i xx yy ll I1 I2 I3) as [P1 P2].
        assert (Q : norm yy <> 0%R) by (intros Z; unfold power_body, normalise in B; destruct (Req_EM_T (norm yy) 0); [discriminate|contradiction]).
        destruct (P2 Q) as [P3 P4]. rewrite P4 in B. injection B as <- <- <- <-. split; [lia|]. split; [|split; [reflexivity|split]].
        * intros j Hj. apply NZ. destruct (Nat.eq_dec j (S i)) as [->|]; [exact P3|apply I1; lia].
        * split; [apply unit_norm; exact P3|]. split; [reflexivity|]. exact Hr.
        * intros j Hj. apply I4. lia.
      + destruct HL as [H1 [i [[[xx yy] ll] [-> [[I1 [I2 [I3 I4]]] B]]]]]. destruct (power_next x0 i xx yy ll I1 I2 I3) as [P1 P2].
        assert (Q : norm yy = 0%R) by (unfold power_body, normalise in B; destruct (Req_EM_T (norm yy) 0); [assumption|discriminate]).
        split; [lia|]. split.
        * apply ZN. rewrite Q in P1. assert (G : (0 < norm (pow i x0))%R) by (apply I1; lia). apply (f_equal (fun t => (t * norm (pow i x0))%R)) in P1. field_simplify in P1; lra.
        * intros j Hj. apply I4. lia.
      + cbn [Nat.add] in HL. destruct HL as [H1 [I1 [I2 [I3 I4]]]]. split; [exact H1|]. intros j Hj. split; [apply NZ, I1; lia|apply I4; lia].
      + destruct HL as [_ [i [[[xx yy] ll] [_ [_ B]]]]]. unfold power_body in B. destruct (normalise dot yy); discriminate.
      + destruct HL as [i [[[xx yy] ll] [_ B]]]. unfold power_body in B. destruct (normalise dot yy); discriminate.
    - apply (normalise_none dot HE _ HD) in EN. rewrite EN. assert (Z : pow 1 vz = vz).
      { cbn. destruct LA as [_ L2]. rewrite <- (vscale_0 Rring V vz) at 1. rewrite L2. apply vscale_0. }
      destruct maxit as [|maxit]; [split; [reflexivity|intros; lia]|]. split; [lia|]. split; [exact Z|]. intros; lia.
  Qed.
End Power.

(** ** Eigenvalues near the result *)
Section Spectral.
  Context {V : vspace Rring} (dot : V -> V -> R) (A : V -> V) (HE : euclidean dot) (LA : linear A).
  Local Notation norm := (norm_of dot).
  Lemma dot_0_l v : dot vz v = 0%R.
  Proof. rewrite <- (vscale_0 Rring V vz), (eu_scale dot HE). cbn. ring. Qed.
  Lemma linear_0 : A vz = vz.
  Proof. destruct LA as [_ L2]. rewrite <- (vscale_0 Rring V vz) at 1. rewrite L2. apply vscale_0. Qed.
  Lemma dot_expand x y : forall es : list (V * R), dot (fold_right (fun el acc => vadd (vscale (dot x (fst el) : Rring) (fst el)) acc) vz es) y =
    fold_right (fun el acc => (dot x (fst el) * dot y (fst el) + acc)%R) 0%R es.
  Proof. induction es as [|[e l] es IH]; cbn [fold_right fst]; [apply dot_0_l|]. rewrite (eu_add dot HE), (eu_scale dot HE), IH, (eu_sym dot HE e y). reflexivity. Qed.
  Lemma A_expand x y : forall es : list (V * R), (forall e l, In (e, l) es -> A e = vscale (l : Rring) e) ->
    dot (A (fold_right (fun el acc => vadd (vscale (dot x (fst el) : Rring) (fst el)) acc) vz es)) y = fold_right (fun el acc => (snd el * dot x (fst el) * dot y (fst el) + acc)%R) 0%R es.
  Proof.
    destruct LA as [L1 L2]. induction es as [|[e l] es IH]; intros H; cbn [fold_right fst snd]; [rewrite linear_0; apply dot_0_l|].
    rewrite L1, L2, (eu_add dot HE), (eu_scale dot HE), IH by (intros; apply H; cbn; auto). rewrite (H e l) by (cbn; auto). rewrite (eu_scale dot HE), (eu_sym dot HE e y). cbn. ring.
  Qed.
  Lemma parseval es x y : eigenbasis dot A es -> dot x y = fold_right (fun el acc => (dot x (fst el) * dot y (fst el) + acc)%R) 0%R es.
  Proof. intros [_ [_ H]]. rewrite (H x) at 1. apply dot_expand. Qed.
  Lemma eigenbasis_A es x y : eigenbasis dot A es -> dot (A x) y = fold_right (fun el acc => (snd el * dot x (fst el) * dot y (fst el) + acc)%R) 0%R es.
  Proof. intros [H1 [_ H]]. rewrite (H x) at 1. apply A_expand. intros e l Hi. apply (H1 e l Hi). Qed.
  (** a matrix with an orthonormal eigenbasis is symmetric *)
  Lemma eigenbasis_selfadjoint es : eigenbasis dot A es -> selfadjoint dot A.
  Proof.
    intros HB a b. rewrite (eu_sym dot HE a), !(eigenbasis_A es _ _ HB). clear HB. induction es as [|el es IH]; cbn [fold_right]; [reflexivity|]. rewrite IH. ring.
  Qed.
  Lemma sum_lower (es : list (V * R)) x c l : (forall e lam, In (e, lam) es -> (c < Rabs (lam - l))%R) -> (0 <= c)%R ->
    (c * c * fold_right (fun el acc => (dot x (fst el) * dot x (fst el) + acc)%R) 0%R es <=
     fold_right (fun el acc => ((snd el - l) * dot x (fst el) * ((snd el - l) * dot x (fst el)) + acc)%R) 0%R es)%R.
  Proof.
    intros H Hc. induction es as [|[e lam] es IH]; cbn [fold_right fst snd]; [lra|]. assert (H' : forall e lam, In (e, lam) es -> (c < Rabs (lam - l))%R) by (intros; eapply H; cbn; eauto).
    specialize (IH H'). assert (G : (c * c <= (lam - l) * (lam - l))%R).
    { specialize (H e lam (or_introl eq_refl)). replace ((lam - l) * (lam - l))%R with (Rabs (lam - l) * Rabs (lam - l))%R by (rewrite <- Rabs_mult; apply Rabs_pos_eq, Rle_0_sqr). nra. }
    pose proof (Rle_0_sqr (dot x e)) as S0. unfold Rsqr in S0. nra.
  Qed.
  Lemma resid_coef es x l e lam : eigenbasis dot A es -> In (e, lam) es -> dot (vsub (A x) (vscale (l : Rring) x)) e = ((lam - l) * dot x e)%R.
  Proof.
    intros HB Hi. unfold vsub. rewrite (eu_add dot HE), !(eu_scale dot HE), (eigenbasis_selfadjoint es HB). destruct HB as [H1 _]. destruct (H1 e lam Hi) as [-> _].
    rewrite (dot_scale_r dot HE). cbn. ring.
  Qed.
  Lemma residual_sum es x l : eigenbasis dot A es -> let r := vsub (A x) (vscale (l : Rring) x) in
    dot r r = fold_right (fun el acc => ((snd el - l) * dot x (fst el) * ((snd el - l) * dot x (fst el)) + acc)%R) 0%R es.
  Proof.
    intros HB r. rewrite (parseval es r r HB). assert (G : forall e lam, In (e, lam) es -> dot r e = ((lam - l) * dot x e)%R) by (intros; eapply resid_coef; eauto).
    clear HB. revert G. clearbody r. induction es as [|[e lam] es IH]; intros G; cbn [fold_right fst snd]; [reflexivity|]. rewrite (G e lam) by (cbn; auto). rewrite IH by (intros; apply G; cbn; auto). reflexivity.
  Qed.
  (** an approximate eigenpair is close to an eigenvalue *)
  Lemma eigenvalue_near es eps x mu : eigenbasis dot A es -> norm x = 1%R -> (norm (vsub (A x) (vscale (mu : Rring) x)) <= eps)%R ->
    exists e lam, In (e, lam) es /\ (Rabs (lam - mu) <= eps)%R.
  Proof.
    intros HB Hx Hr. assert (Heps : (0 <= eps)%R) by (pose proof (norm_nonneg dot (vsub (A x) (vscale (mu : Rring) x))); lra).
    assert (D : (exists el, In el es /\ (Rabs (snd el - mu) <= eps)%R) \/ (forall el, In el es -> (eps < Rabs (snd el - mu))%R)).
    { clear. induction es as [|el es IH]; [right; intros _ []|]. destruct (Rle_lt_dec (Rabs (snd el - mu)) eps) as [L|L]; [left; exists el; cbn; auto|].
      destruct IH as [[el' [I1 I2]]|IH]; [left; exists el'; cbn; auto|right; intros el' [<-|Hi]; auto]. }
    destruct D as [[[e lam] [H1 H2]]|H]; [exists e, lam; auto|exfalso].
    (* a bound c with eps < c < |lam - mu| for all eigenvalues *)
    assert (C : exists c, (eps < c)%R /\ forall e lam, In (e, lam) es -> (c < Rabs (lam - mu))%R).
    { clear - H. induction es as [|[e lam] es IH]; [exists (eps + 1)%R; split; [lra|intros ? ? []]|].
      destruct IH as [c [C1 C2]]; [intros; apply H; cbn; auto|]. pose proof (H (e, lam) (or_introl eq_refl)) as Q. cbn [snd] in Q.
      exists (Rmin c ((eps + Rabs (lam - mu)) / 2))%R. split; [apply Rmin_glb_lt; lra|]. intros e' lam' [I|I].
      - injection I as <- <-. eapply Rle_lt_trans; [apply Rmin_r|]. lra.
      - eapply Rle_lt_trans; [apply Rmin_l|]. eapply C2; eauto. }
    destruct C as [c [C1 C2]]. pose proof (sum_lower es x c mu C2) as SL. pose proof (residual_sum es x mu HB) as RS. cbn zeta in RS. rewrite <- RS in SL.
    rewrite <- (parseval es x x HB), <- !(norm_sqr dot HE), Hx in SL. pose proof (norm_nonneg dot (vsub (A x) (vscale (mu : Rring) x))) as NN.
    assert (c * c * (1 * 1) <= eps * eps)%R by (eapply Rle_trans; [apply SL; lra|]; nra). nra.
  Qed.
  Theorem C57_eigenvalue_near es eps x lambda : eigenbasis dot A es -> eigenpair_up_to dot A eps x lambda -> exists e lam, In (e, lam) es /\ (Rabs (lam - lambda) <= eps)%R.
  Proof. intros HB [H1 [_ H3]]. eapply eigenvalue_near; eauto. Qed.

  (** *** Convergence of the power iteration *)
  Lemma rayleigh_best v t : (0 < norm v)%R -> (rayleigh_residual dot A v <= norm (vsub (A v) (vscale (t : Rring) v)) / norm v)%R.
  Proof.
    intros Hv. set (u := unit dot v). assert (Hu : norm u = 1%R) by (apply unit_norm; auto). destruct LA as [L1 L2].
    assert (E : (norm (vsub (A v) (vscale (t : Rring) v)) / norm v)%R = norm (vsub (A u) (vscale (t : Rring) u))).
    { assert (EV : vsub (A u) (vscale (t : Rring) u) = vscale (1 / norm v : Rring)%R (vsub (A v) (vscale (t : Rring) v))).
      { unfold u, unit. rewrite L2. vring ltac:(solve [cbn; ring]). }
      rewrite EV, (norm_scale dot HE), Rabs_pos_eq; [field; lra|]. apply Rlt_le, Rdiv_lt_0_compat; lra. }
    rewrite E. unfold rayleigh_residual. fold u. unfold norm_of. apply sqrt_le_1_alt. unfold vsub.
    pose proof (norm_sqr dot HE u) as N. rewrite Hu in N. set (rho := dot u (A u)).
    rewrite !(eu_add dot HE), !(dot_add_r dot HE), !(eu_scale dot HE), !(dot_scale_r dot HE), <- N, (eu_sym dot HE (A u) u). fold rho. cbn. assert (0 <= (rho - t) * (rho - t))%R by apply Rle_0_sqr. lra.
  Qed.
  (** eigenbasis with a strictly dominant first eigenvalue *)
  Lemma off_dominant e lam es mu v : eigenbasis dot A ((e, lam) :: es) -> (forall e' l', In (e', l') es -> (Rabs l' <= mu)%R) -> (0 <= mu)%R -> dot v e = 0%R ->
    (norm (A v) <= mu * norm v)%R.
  Proof.
    intros HB Hmu Hp Hv. assert (EA : A v = vsub (A v) (vscale (0 : Rring)%R v)) by (vring ltac:(solve [cbn; ring])).
    apply Rsqr_incr_0_var; [|apply Rmult_le_pos; auto; apply norm_nonneg]. unfold Rsqr. replace (mu * norm v * (mu * norm v))%R with (mu * mu * (norm v * norm v))%R by ring. rewrite !(norm_sqr dot HE).
    rewrite EA. pose proof (residual_sum _ v 0%R HB) as RS. cbn zeta in RS. rewrite RS, (parseval _ v v HB). cbn [fold_right fst snd]. rewrite Hv. clear - Hmu Hp.
    assert (G : (fold_right (fun el acc => ((snd el - 0) * dot v (fst el) * ((snd el - 0) * dot v (fst el)) + acc)%R) 0%R es <= mu * mu * fold_right (fun el acc => (dot v (fst el) * dot v (fst el) + acc)%R) 0%R es)%R).
    { induction es as [|[e' l'] es IH]; cbn [fold_right fst snd]; [lra|]. specialize (IH (fun a b H => Hmu a b (or_intror H))).
      pose proof (Hmu e' l' (or_introl eq_refl)) as Q. assert (l' * l' <= mu * mu)%R. { replace (l' * l')%R with (Rabs l' * Rabs l')%R by (rewrite <- Rabs_mult; apply Rabs_pos_eq, Rle_0_sqr). pose proof (Rabs_pos l'). nra. }
      pose proof (Rle_0_sqr (dot v e')) as S0. unfold Rsqr in S0. nra. }
    lra.
  Qed.
  (** With an orthonormal eigenbasis, a strictly dominant eigenvalue and a start vector that is not orthogonal to its eigenvector, applyPowerIteration returns
      normally for every eps > 0 if nIterationsMax is large enough. *)
  Theorem C57_power_converges e lam es mu x0 eps : definite dot -> eigenbasis dot A ((e, lam) :: es) -> (forall e' l', In (e', l') es -> (Rabs l' <= mu)%R) -> (0 <= mu < Rabs lam)%R ->
    dot x0 e <> 0%R -> (0 < eps)%R -> exists K, forall maxit l0, K <= maxit -> exists s n, power_iteration dot A maxit eps x0 l0 = PDone s n /\ n <= K.
  Proof.
    intros HD HB Hmu [Hm1 Hm2] Hc Heps. set (c := dot x0 e). set (w := vsub x0 (vscale (c : Rring) e)). destruct LA as [L1 L2].
    assert (SA : selfadjoint dot A) by (eapply eigenbasis_selfadjoint; eauto).
    assert (Ae : A e = vscale (lam : Rring) e /\ dot e e = 1%R) by (destruct HB as [H1 _]; apply (H1 e lam); cbn; auto). destruct Ae as [Ae Ee].
    assert (Wk : forall k, dot (pow A k w) e = 0%R /\ (norm (pow A k w) <= mu ^ k * norm w)%R).
    { induction k as [|k [I1 I2]].
      - split; [|cbn; lra]. cbn [pow Nat.iter nat_rect]. unfold w, vsub. rewrite (eu_add dot HE), !(eu_scale dot HE), Ee. fold c. cbn. ring.
      - change (pow A (S k) w) with (A (pow A k w)). split; [rewrite SA, Ae, (dot_scale_r dot HE), I1; ring|].
        eapply Rle_trans; [eapply (off_dominant e lam es mu); eauto|]. cbn [Rpow_def.pow]. pose proof (norm_nonneg dot w). nra. }
    assert (Xk : forall k, pow A k x0 = vadd (vscale (c * lam ^ k : Rring)%R e) (pow A k w)).
    { induction k as [|k IH].
      - cbn [pow Nat.iter nat_rect Rpow_def.pow]. unfold w. vring ltac:(solve [cbn; ring]).
      - change (pow A (S k) x0) with (A (pow A k x0)). change (pow A (S k) w) with (A (pow A k w)). rewrite IH, L1, L2, Ae. cbn [Rpow_def.pow]. vring ltac:(solve [cbn; ring]). }
    assert (Xn : forall k, (Rabs c * Rabs lam ^ k <= norm (pow A k x0))%R).
    { intros k. pose proof (cauchy_schwarz dot HE (pow A k x0) e) as CS. replace (norm e) with 1%R in CS by (unfold norm_of; rewrite Ee; symmetry; apply sqrt_1).
      rewrite (Xk k), (eu_add dot HE), (eu_scale dot HE), Ee, (proj1 (Wk k)) in CS. rewrite <- (Xk k) in CS. cbn in CS. rewrite !Rmult_1_r, Rplus_0_r, Rabs_mult, <- RPow_abs in CS. exact CS. }
    assert (Cp : (0 < Rabs c)%R) by (apply Rabs_pos_lt; exact Hc). assert (Lp : (0 < Rabs lam)%R) by lra.
    assert (Np : forall k, (0 < norm (pow A k x0))%R) by (intros k; eapply Rlt_le_trans; [|apply Xn]; apply Rmult_lt_0_compat; auto; apply pow_lt; auto).
    set (D := ((mu + Rabs lam) * norm w / Rabs c)%R).
    assert (Rk : forall k, (rayleigh_residual dot A (pow A k x0) <= D * (mu / Rabs lam) ^ k)%R).
    { intros k. eapply Rle_trans; [apply (rayleigh_best _ lam (Np k))|].
      assert (N1 : (norm (vsub (A (pow A k x0)) (vscale (lam : Rring) (pow A k x0))) <= (mu + Rabs lam) * (mu ^ k * norm w))%R).
      { rewrite (Xk k), L1, L2, Ae. replace (vsub _ _) with (vadd (A (pow A k w)) (vscale (- lam : Rring)%R (pow A k w))) by (vring ltac:(solve [cbn; ring])).
        eapply Rle_trans; [apply (norm_triangle dot HE)|]. rewrite (norm_scale dot HE), Rabs_Ropp. destruct (Wk k) as [W1 W2].
        pose proof (off_dominant e lam es mu _ HB Hmu Hm1 W1) as W3. pose proof (norm_nonneg dot (pow A k w)). pose proof (Rabs_pos lam). nra. }
      unfold Rdiv at 1. eapply Rle_trans; [apply Rmult_le_compat_r; [apply Rlt_le, Rinv_0_lt_compat, Np|exact N1]|].
      assert (N2 : (/ norm (pow A k x0) <= / (Rabs c * Rabs lam ^ k))%R) by (apply Rinv_le_contravar; [apply Rmult_lt_0_compat; auto; apply pow_lt; auto|apply Xn]).
      eapply Rle_trans; [apply Rmult_le_compat_l; [|exact N2]|].
      - apply Rmult_le_pos; [lra|]. apply Rmult_le_pos; [apply pow_le; auto|apply norm_nonneg].
      - unfold D. unfold Rdiv at 2. rewrite Rpow_mult_distr, pow_inv. right. field. split; [apply pow_nonzero; lra|lra]. }
    assert (Hq : (Rabs (mu / Rabs lam) < 1)%R).
    { rewrite Rabs_pos_eq. - apply Rmult_lt_reg_r with (Rabs lam); auto. unfold Rdiv. rewrite Rmult_assoc, Rinv_l by lra. lra. - apply Rmult_le_pos; auto. apply Rlt_le, Rinv_0_lt_compat; auto. }
    assert (Dp : (0 <= D)%R). { unfold D. apply Rmult_le_pos; [|apply Rlt_le, Rinv_0_lt_compat; auto]. apply Rmult_le_pos; [lra|apply norm_nonneg]. }
    destruct (pow_lt_1_zero _ Hq (eps / (D + 1))%R) as [N HN]; [apply Rdiv_lt_0_compat; lra|].
    set (K := S N). assert (HK : (rayleigh_residual dot A (pow A K x0) <= eps)%R).
    { eapply Rle_trans; [apply Rk|]. assert (G : K >= N) by (unfold K; lia). specialize (HN K G). pose proof (Rle_abs ((mu / Rabs lam) ^ K)) as Q.
      assert ((mu / Rabs lam) ^ K < eps / (D + 1))%R by lra. apply Rle_trans with (D * (eps / (D + 1)))%R; [apply Rmult_le_compat_l; lra|].
      apply Rmult_le_reg_r with (D + 1)%R; [lra|]. unfold Rdiv. rewrite !Rmult_assoc, Rinv_l by lra. nra. }
    exists K. intros maxit l0 HM. pose proof (C57_power dot A HE (conj L1 L2) maxit eps x0 l0 HD) as P.
    assert (NZ : forall k, pow A k x0 <> vz).
    { intros k Z. specialize (Np k). rewrite Z in Np. unfold norm_of in Np. rewrite dot_0_l, sqrt_0 in Np. lra. }
    destruct (power_iteration dot A maxit eps x0 l0) as [[[x y] l] n|s n|s n|s ex n|]; try contradiction.
    - destruct P as [P1 [P2 [P3 [P4 P5]]]]. exists (x, y, l), n. split; [reflexivity|]. destruct (le_lt_dec n K) as [Q|Q]; [exact Q|exfalso]. assert (G : 1 <= K < n) by (unfold K in *; lia). specialize (P5 K G). lra.
    - destruct P as [P1 [P2 P3]]. exfalso. exact (NZ _ P2).
    - destruct P as [P1 P2]. exfalso. assert (G : 1 <= K <= maxit) by (unfold K in *; lia). destruct (P2 K G) as [_ Q]. lra.
  Qed.
End Spectral.

(** ** Inverse iteration, Rayleigh quotient iteration, TLIME *)
Section Inverse.
  Context {V : vspace Rring} (dot : V -> V -> R) (A : V -> V) (HE : euclidean dot) (LA : linear A).
  Local Notation norm := (norm_of dot).
  (** getIterationOperator() is A - mu I for the current mu *)
  Theorem C57_operator mu alpha x y : itop_apply A mu x = vsub (A x) (vscale (mu : Rring) x) /\
    itop_applyscaleadd A mu alpha x y = vadd y (vscale (alpha : Rring) (vsub (A x) (vscale (mu : Rring) x))).
  Proof. unfold itop_apply, itop_applyscaleadd, scaling_applyscaleadd. split; vring ltac:(solve [cbn; ring]). Qed.

  Context {Sv : Type} (solver : Sv -> (V -> V) -> V -> V -> (Sv * V) + exn) (mat : bool).
  (** the solver works with A - mu_ I: it uses the operator, or the matrix is up to date *)
  Definition in_sync (st : pst Sv) : Prop := mat = true -> p_itm st = Some (p_mu st).
  Lemma update_mu mu (st : pst Sv) : p_mu (update_shift mu st) = mu.
  Proof. unfold update_shift. destruct (Req_EM_T mu (p_mu st)) as [E|E]; [congruence|reflexivity]. Qed.
  Lemma update_sync mu st : in_sync st -> in_sync (update_shift mu st).
  Proof. unfold in_sync, update_shift. intros H Hm. specialize (H Hm). destruct (Req_EM_T mu (p_mu st)); [exact H|]. cbn. rewrite H. reflexivity. Qed.
  Lemma op_sync st v : in_sync st -> op_of A mat st v = vsub (A v) (vscale (p_mu st : Rring) v).
  Proof. unfold in_sync, op_of. intros H. rewrite <- (proj1 (C57_operator (p_mu st) 0 v v)). destruct mat; [rewrite H by reflexivity|]; reflexivity. Qed.
  Lemma solve_spec st y b st' y' : solve A solver mat st y b = inl (st', y') -> p_mu st' = p_mu st /\ p_itm st' = p_itm st /\ (exact_solver solver -> op_of A mat st y' = b).
  Proof.
    unfold solve. destruct (solver (p_sol st) (op_of A mat st) y b) as [[s yy]|e] eqn:E; [|discriminate]. injection 1 as <- <-. cbn. repeat split. intros HX. eapply HX; eauto.
  Qed.
  Lemma solve_sync st y b st' y' : in_sync st -> solve A solver mat st y b = inl (st', y') -> in_sync st'.
  Proof. intros H E. apply solve_spec in E. destruct E as [E1 [E2 _]]. unfold in_sync in *. rewrite E1, E2. exact H. Qed.
  (** values of a step in terms of the new normalised vector x' *)
  Lemma div_of (k n : R) : n <> 0%R -> (k / (n * n) = 1 / n * (1 / n * k))%R.
  Proof. intros. field. auto. Qed.
  Lemma dot_unit y (a b : V) n : a = vscale (1 / n : Rring)%R y -> dot a (A a) = (1 / n * (1 / n * dot y (A y)))%R.
  Proof. intros ->. destruct LA as [_ L2]. rewrite L2, (eu_scale dot HE), (dot_scale_r dot HE). reflexivity. Qed.
  Lemma norm_div n (v : V) : (0 < n)%R -> (norm v / n = norm (vscale (1 / n : Rring)%R v))%R.
  Proof. intros Hn. rewrite (norm_scale dot HE), Rabs_pos_eq; [field; lra|]. apply Rlt_le, Rdiv_lt_0_compat; lra. Qed.
  Lemma norm_mul n (v : V) : (0 < n)%R -> (norm v * (1 / n) = norm (vscale (1 / n : Rring)%R v))%R.
  Proof. intros Hn. rewrite <- norm_div by auto. field. lra. Qed.
  Lemma avoid_values x' y : normalise dot y = Some x' ->
    (dot y (A y) / (norm y * norm y))%R = dot x' (A x') /\ (norm (vadd (A y) (vscale (- dot x' (A x') : Rring)%R y)) / norm y)%R = norm (vsub (A x') (vscale (dot x' (A x') : Rring) x')).
  Proof.
    intros H. apply (normalise_some dot HE) in H. destruct H as [N1 [N2 N3]]. destruct LA as [L1 L2]. assert (E1 : (dot y (A y) / (norm y * norm y))%R = dot x' (A x')).
    { rewrite (dot_unit y x' x' (norm y) N2). apply div_of. lra. }
    split; [exact E1|]. rewrite norm_div by auto. f_equal. set (l := dot x' (A x')). rewrite N2, L2. vring ltac:(solve [cbn; ring]).
  Qed.
  Lemma shift_values x' x y gamma : normalise dot y = Some x' -> vsub (A y) (vscale (gamma : Rring) y) = x ->
    (gamma + dot y x / (norm y * norm y))%R = dot x' (A x') /\
    (forall d, d = (gamma - dot x' (A x'))%R -> (norm (vadd x (vscale (d : Rring) y)) / norm y)%R = norm (vsub (A x') (vscale (dot x' (A x') : Rring) x'))).
  Proof.
    intros H HX. apply (normalise_some dot HE) in H. destruct H as [N1 [N2 N3]]. destruct LA as [L1 L2].
    assert (E : (gamma + dot y x / (norm y * norm y))%R = dot x' (A x')).
    { rewrite (dot_unit y x' x' (norm y) N2), <- HX. unfold vsub. rewrite (dot_add_r dot HE), !(dot_scale_r dot HE), <- (norm_sqr dot HE). cbn. field. lra. }
    split; [exact E|]. intros d ->. rewrite norm_div by auto. f_equal. set (l := dot x' (A x')). rewrite N2, L2, <- HX. vring ltac:(solve [cbn; ring]).
  Qed.
  Lemma inv_values_ok avoid gamma x x' y : normalise dot y = Some x' -> (avoid = true \/ vsub (A y) (vscale (gamma : Rring) y) = x) ->
    inv_values dot A avoid gamma x y = (dot x' (A x'), norm (vsub (A x') (vscale (dot x' (A x') : Rring) x'))).
  Proof.
    intros H HA. unfold inv_values. destruct avoid.
    - destruct (avoid_values x' y H) as [E1 E2]. rewrite E1, E2. reflexivity.
    - destruct HA as [?|HA]; [discriminate|]. destruct (shift_values x' x y gamma H HA) as [E1 E2]. rewrite E1, (E2 _ eq_refl). reflexivity.
  Qed.
  Lemma rqi_values_ok avoid mu x x' y : normalise dot y = Some x' -> (avoid = true \/ vsub (A y) (vscale (mu : Rring) y) = x) ->
    rqi_values dot A avoid mu x y = (dot x' (A x'), norm (vsub (A x') (vscale (dot x' (A x') : Rring) x'))).
  Proof.
    intros H HA. unfold rqi_values. destruct avoid.
    - destruct (avoid_values x' y H) as [E1 E2]. rewrite E1, E2. reflexivity.
    - destruct HA as [?|HA]; [discriminate|]. destruct (shift_values x' x y mu H HA) as [E1 E2]. rewrite E1. f_equal. apply E2. rewrite <- E1. lra.
  Qed.

  (** applyInverseIteration, with an exact solver that works with the iteration operator or an up to date matrix, or for any solver with avoidLinSolverCrime.
      [(A - gamma I)^n x = c x0]: x is what n steps of inverse iteration yield. *)
  Definition shifted (gamma : R) (v : V) : V := vsub (A v) (vscale (gamma : Rring) v).
  Lemma shifted_linear gamma : linear (shifted gamma).
  Proof. destruct LA as [L1 L2]. unfold shifted. split; intros; [rewrite L1|rewrite L2]; vring ltac:(solve [cbn; ring]). Qed.
  Lemma pow_scale (B : V -> V) k c v : linear B -> pow B k (vscale (c : Rring) v) = vscale (c : Rring) (pow B k v).
  Proof. intros [_ L2]. induction k as [|k IH]; [reflexivity|]. change (B (pow B k (vscale (c : Rring) v)) = vscale (c : Rring) (B (pow B k v))). rewrite IH. apply L2. Qed.
  Lemma pow_succ (B : V -> V) k v : pow B (S k) v = pow B k (B v).
  Proof. induction k as [|k IH]; [reflexivity|]. change (B (pow B (S k) v) = B (pow B k (B v))). rewrite IH. reflexivity. Qed.
  Local Notation iinv := (fun gamma x0 (avoid : bool) i (s : ist) => let '(st, x, y, l) := s in norm x = 1%R /\ p_mu st = gamma /\ in_sync st /\
    (exact_solver solver -> exists c, (0 < c)%R /\ pow (shifted gamma) i x = vscale (c : Rring) x0)).
  Lemma inverse_inv avoid gamma eps x0 : forall i s s' r, iinv gamma x0 avoid i s -> inverse_body dot A solver mat avoid gamma (S i) s = SNext s' r -> (eps < r)%R -> iinv gamma x0 avoid (S i) s'.
  Proof.
    intros i [[[st x] y] l] [[[st' x'] y'] l'] r [I1 [I2 [I3 I4]]] H _. unfold inverse_body in H. destruct (solve A solver mat st y x) as [[st1 y1]|e] eqn:E; [|discriminate].
    destruct (normalise dot y1) as [x1|] eqn:N; [|discriminate]. destruct (inv_values dot A avoid gamma x y1) as [l1 r1]. injection H as <- <- <- <- <-.
    pose proof (solve_sync _ _ _ _ _ I3 E) as SY. apply solve_spec in E. destruct E as [E1 [E2 E3]]. apply (normalise_some dot HE) in N. destruct N as [N1 [N2 N3]].
    split; [exact N3|]. split; [congruence|]. split; [exact SY|]. intros HX. specialize (E3 HX). rewrite (op_sync st y1 I3), I2 in E3. destruct (I4 HX) as [c [C1 C2]].
    exists (c / norm y1)%R. split; [apply Rdiv_lt_0_compat; auto|]. rewrite pow_succ, N2. destruct (shifted_linear gamma) as [S1 S2]. rewrite S2, pow_scale by (split; auto).
    change (shifted gamma y1) with (vsub (A y1) (vscale (gamma : Rring) y1)). rewrite E3, C2. rewrite <- vscale_mul. f_equal. cbn. field. lra.
  Qed.
  Lemma inverse_start gamma x0 x1 avoid (st : pst Sv) l0 : (mat = true -> p_itm st = Some (p_mu st)) -> normalise dot x0 = Some x1 -> iinv gamma x0 avoid 0 (update_shift gamma st, x1, x0, l0).
  Proof.
    intros HS N. apply (normalise_some dot HE) in N. destruct N as [N1 [N2 N3]]. split; [exact N3|]. split; [apply update_mu|]. split; [apply update_sync; exact HS|].
    intros _. exists (1 / norm x0)%R. split; [apply Rdiv_lt_0_compat; lra|]. cbn. exact N2.
  Qed.
  Theorem C57_inverse avoid maxit gamma eps st x0 l0 : in_sync st -> (avoid = true \/ exact_solver solver) ->
    match inverse_iteration dot A solver mat avoid maxit gamma eps st x0 l0 with
    | PDone (st', x, _, l) n => 1 <= n <= maxit /\ eigenpair_up_to dot A eps x l /\ in_sync st' /\
        (exact_solver solver -> exists c, (0 < c)%R /\ pow (shifted gamma) n x = vscale (c : Rring) x0)
    | PNoConv (st', x, _, _) n => n = S maxit /\ in_sync st'
    | PNan _ n | PExn _ _ n => 1 <= n <= maxit
    | PAssert => False
    end.
  Proof.
    intros HS HA. unfold inverse_iteration. destruct (normalise dot x0) as [x1|] eqn:N.
    - pose proof (inverse_start gamma x0 x1 avoid st l0 HS N) as I0.
      pose proof (ploop_inv (inverse_body dot A solver mat avoid gamma) eps (iinv gamma x0 avoid) (inverse_inv avoid gamma eps x0) maxit 0 _ I0) as HL.
      destruct (ploop _ eps maxit 0 _) as [[[[st' x] y] l] n|s n|[[[st' x] y] l] n|s e n|]; cbn [loop_end Nat.add] in HL.
      + destruct HL as [H1 [i [[[[st2 x2] y2] l2] [r [-> [[I1 [I2 [I3 I4]]] [B Hr]]]]]]]. split; [lia|].
        unfold inverse_body in B. destruct (solve A solver mat st2 y2 x2) as [[st3 y3]|e] eqn:E; [|discriminate].
        destruct (normalise dot y3) as [x3|] eqn:N3; [|discriminate]. destruct (inv_values dot A avoid gamma x2 y3) as [l3 r3] eqn:EV. injection B as <- <- <- <- <-.
        pose proof (solve_sync _ _ _ _ _ I3 E) as SY. pose proof E as E'. apply solve_spec in E'. destruct E' as [E1 [E2 E3]]. rewrite (op_sync st2 y3 I3), I2 in E3.
        rewrite (inv_values_ok avoid gamma x2 x3 y3 N3) in EV by (destruct HA as [HA|HA]; [left; exact HA|right; apply E3; exact HA]). injection EV as <- <-.
        apply (normalise_some dot HE) in N3. destruct N3 as [M1 [M2 M3]]. split; [split; [exact M3|split; [reflexivity|exact Hr]]|]. split; [exact SY|].
        intros HX. destruct (I4 HX) as [c [C1 C2]]. exists (c / norm y3)%R. split; [apply Rdiv_lt_0_compat; auto|]. rewrite pow_succ, M2. destruct (shifted_linear gamma) as [S1 S2].
        rewrite S2, pow_scale by (split; auto). change (shifted gamma y3) with (vsub (A y3) (vscale (gamma : Rring) y3)). rewrite (E3 HX), C2. rewrite <- vscale_mul. f_equal. cbn. field. lra.
      + lia.
      + destruct HL as [H1 [I1 [I2 [I3 I4]]]]. auto.
      + lia.
      + destruct HL as [i [[[[st2 x2] y2] l2] [_ B]]]. unfold inverse_body in B. destruct (solve A solver mat st2 y2 x2) as [[st3 y3]|e]; [|discriminate].
        destruct (normalise dot y3); [|discriminate]. destruct (inv_values dot A avoid gamma x2 y3). discriminate.
    - destruct maxit; [split; [reflexivity|apply update_sync; exact HS]|lia].
  Qed.
  (** Any solver, without avoidLinSolverCrime: the true residual exceeds eps by at most the defect of the last linear solve divided by the norm of its solution. *)
  Theorem C57_inverse_inexact maxit gamma eps st x0 l0 st' x y l n : in_sync st ->
    inverse_iteration dot A solver mat false maxit gamma eps st x0 l0 = PDone (st', x, y, l) n ->
    exists b, norm b = 1%R /\ norm x = 1%R /\ x = unit dot y /\ (0 < norm y)%R /\
      (norm (vsub (A x) (vscale (l : Rring) x)) <= eps + norm (vsub (shifted gamma y) b) / norm y)%R.
  Proof.
    intros HS. unfold inverse_iteration. destruct (normalise dot x0) as [x1|] eqn:N; [|destruct maxit; discriminate].
    pose proof (inverse_start gamma x0 x1 false st l0 HS N) as I0.
    pose proof (ploop_inv (inverse_body dot A solver mat false gamma) eps (iinv gamma x0 false) (inverse_inv false gamma eps x0) maxit 0 _ I0) as HL. intros EQ. rewrite EQ in HL. cbn [loop_end] in HL.
    destruct HL as [H1 [i [[[[st2 x2] y2] l2] [r [-> [[I1 [I2 [I3 I4]]] [B Hr]]]]]]]. unfold inverse_body in B. destruct (solve A solver mat st2 y2 x2) as [[st3 y3]|e] eqn:E; [|discriminate].
    destruct (normalise dot y3) as [x3|] eqn:N3; [|discriminate]. unfold inv_values in B. injection B as <- <- <- <- <-. apply (normalise_some dot HE) in N3. destruct N3 as [M1 [M2 M3]].
    exists x2. split; [exact I1|]. split; [exact M3|]. split; [exact M2|]. split; [exact M1|]. set (l := (gamma + dot y3 x2 / (norm y3 * norm y3))%R) in *. destruct LA as [L1 L2].
    assert (EV : vsub (A x3) (vscale (l : Rring) x3) = vadd (vscale (1 / norm y3 : Rring)%R (vadd x2 (vscale (gamma - l : Rring)%R y3))) (vscale (1 / norm y3 : Rring)%R (vsub (shifted gamma y3) x2))).
    { rewrite M2, L2. unfold shifted. vring ltac:(solve [cbn; ring]). }
    rewrite EV. eapply Rle_trans; [apply (norm_triangle dot HE)|]. rewrite <- !norm_div by auto. lra.
  Qed.

  (** *** Rayleigh quotient iteration *)
  Lemma rqi_inv avoid eps : forall i (s s' : ist) r, (let '(st, x, _, _) := s in norm x = 1%R /\ in_sync st) -> rqi_body dot A solver mat avoid (S i) s = SNext s' r -> (eps < r)%R ->
    (let '(st, x, _, _) := s' in norm x = 1%R /\ in_sync st).
  Proof.
    intros i [[[st x] y] l] [[[st' x'] y'] l'] r [I1 I2] H _. unfold rqi_body in H. destruct (solve A solver mat (update_shift l st) y x) as [[st1 y1]|e] eqn:E; [|discriminate].
    destruct (normalise dot y1) as [x1|] eqn:N; [|discriminate]. destruct (rqi_values dot A avoid l x y1) as [l1 r1]. injection H as <- <- <- <- <-.
    pose proof (solve_sync _ _ _ _ _ (update_sync l st I2) E) as SY. apply (normalise_some dot HE) in N. destruct N as [N1 [N2 N3]]. auto.
  Qed.
  Theorem C57_rqi avoid maxit eps st x0 l0 : in_sync st -> (avoid = true \/ exact_solver solver) ->
    match rqi dot A solver mat avoid maxit eps st x0 l0 with
    | PDone (st', x, _, l) n => 1 <= n <= maxit /\ eigenpair_up_to dot A eps x l /\ in_sync st'
    | PNoConv (st', _, _, _) n => n = S maxit /\ in_sync st'
    | PNan _ n | PExn _ _ n => 1 <= n <= maxit
    | PAssert => False
    end.
  Proof.
    intros HS HA. unfold rqi. destruct (normalise dot x0) as [x1|] eqn:N.
    - apply (normalise_some dot HE) in N. destruct N as [N1 [N2 N3]].
      pose proof (ploop_inv (rqi_body dot A solver mat avoid) eps (fun _ (s : ist) => let '(st, x, _, _) := s in norm x = 1%R /\ in_sync st) (rqi_inv avoid eps) maxit 0 (st, x1, x0, l0) (conj N3 HS)) as HL.
      destruct (ploop _ eps maxit 0 _) as [[[[st' x] y] l] n|s n|[[[st' x] y] l] n|s e n|]; cbn [loop_end Nat.add] in HL.
      + destruct HL as [H1 [i [[[[st2 x2] y2] l2] [r [-> [[I1 I3] [B Hr]]]]]]]. split; [lia|].
        unfold rqi_body in B. destruct (solve A solver mat (update_shift l2 st2) y2 x2) as [[st3 y3]|e] eqn:E; [|discriminate].
        destruct (normalise dot y3) as [x3|] eqn:M; [|discriminate]. destruct (rqi_values dot A avoid l2 x2 y3) as [l3 r3] eqn:EV. injection B as <- <- <- <- <-.
        pose proof (update_sync l2 st2 I3) as SU. pose proof (solve_sync _ _ _ _ _ SU E) as SY. pose proof E as E'. apply solve_spec in E'. destruct E' as [E1 [E2 E3]]. rewrite (op_sync _ y3 SU), update_mu in E3.
        rewrite (rqi_values_ok avoid l2 x2 x3 y3 M) in EV by (destruct HA as [HA|HA]; [left; exact HA|right; apply E3; exact HA]). injection EV as <- <-.
        apply (normalise_some dot HE) in M. destruct M as [M1 [M2 M3]]. split; [split; [exact M3|split; [reflexivity|exact Hr]]|exact SY].
      + lia.
      + destruct HL as [H1 [I1 I2]]. auto.
      + lia.
      + destruct HL as [i [[[[st2 x2] y2] l2] [_ B]]]. unfold rqi_body in B. destruct (solve A solver mat (update_shift l2 st2) y2 x2) as [[st3 y3]|e]; [|discriminate].
        destruct (normalise dot y3); [|discriminate]. destruct (rqi_values dot A avoid l2 x2 y3). discriminate.
    - destruct maxit; [split; [reflexivity|exact HS]|lia].
  Qed.

  (** *** TLIME *)
  (** new mu_s, q_norm and r_norm of a step: Rayleigh quotient, |A x' - gamma x'| and |A x' - mu_s x'| of the new x' (q_norm in the RQI branch without
      avoidLinSolverCrime is not what the comment says, but is only printed) *)
  Lemma tlime_values_ok avoid (doRQI : bool) gamma mu_s x x' y mu' q r : normalise dot y = Some x' ->
    (avoid = true \/ vsub (A y) (vscale ((if doRQI then mu_s else gamma) : Rring) y) = x) -> norm x = 1%R -> tlime_values dot A avoid doRQI gamma mu_s x y = (mu', q, r) ->
    mu' = dot x' (A x') /\ r = norm (vsub (A x') (vscale (mu' : Rring) x')) /\ (doRQI = false -> q = norm (vsub (A x') (vscale (gamma : Rring) x'))).
  Proof.
    intros H HA Hx. pose proof H as H'. apply (normalise_some dot HE) in H'. destruct H' as [N1 [N2 N3]]. destruct LA as [L1 L2]. assert (NI : norm y <> 0%R) by lra.
    assert (OM : forall k, (k * (1 / norm y * (1 / norm y)))%R = (k / (norm y * norm y))%R) by (intros; field; auto).
    unfold tlime_values. destruct avoid.
    - destruct (avoid_values x' y H) as [E1 E2]. cbn zeta. rewrite OM, E1. set (mu := dot x' (A x')) in *. rewrite norm_mul by auto.
      assert (EQ : vscale (1 / norm y : Rring)%R (vadd (A y) (vscale (- gamma : Rring)%R y)) = vsub (A x') (vscale (gamma : Rring) x')) by (rewrite N2, L2; vring ltac:(solve [cbn; ring])).
      rewrite EQ. set (qv := vsub (A x') (vscale (gamma : Rring) x')). set (rv := vsub (A x') (vscale (mu : Rring) x')).
      assert (X1 : dot x' x' = 1%R) by (rewrite <- (norm_sqr dot HE), N3; ring).
      assert (RV : rv = vadd qv (vscale (gamma - mu : Rring)%R x')) by (unfold rv, qv; vring ltac:(solve [cbn; ring])).
      assert (QX : dot qv x' = (mu - gamma)%R) by (unfold qv, vsub; rewrite (eu_add dot HE), !(eu_scale dot HE), X1, (eu_sym dot HE (A x')); fold mu; cbn; ring).
      assert (R2 : (norm qv * norm qv - (gamma - mu) * (gamma - mu))%R = dot rv rv).
      { rewrite (norm_sqr dot HE), RV, (eu_add dot HE), !(dot_add_r dot HE), !(eu_scale dot HE), !(dot_scale_r dot HE), (eu_sym dot HE x' qv), QX, X1. cbn. ring. }
      rewrite R2. rewrite Rltb_false by apply (eu_pos dot HE). injection 1 as <- <- <-. split; [reflexivity|]. split; reflexivity.
    - destruct HA as [?|HA]; [discriminate|]. destruct doRQI.
      + cbn zeta. rewrite OM. destruct (shift_values x' x y mu_s H HA) as [E1 E2]. set (u := (dot y x / (norm y * norm y))%R) in *. intros Q. injection Q as <- <- <-. split; [exact E1|].
        split; [|discriminate]. replace (norm (vadd x (vscale (- u : Rring)%R y)) * (1 / norm y))%R with (norm (vadd x (vscale (- u : Rring)%R y)) / norm y)%R by (field; auto).
        rewrite E1. apply E2. rewrite <- E1. lra.
      + cbn zeta. rewrite OM. destruct (shift_values x' x y gamma H HA) as [E1 E2]. rewrite E1. intros Q. injection Q as <- <- <-. split; [reflexivity|]. split.
        * rewrite <- (E2 _ eq_refl). field. auto.
        * intros _. replace (1 / norm y)%R with (norm x * (1 / norm y))%R by (rewrite Hx; ring). rewrite norm_mul by auto. f_equal. rewrite N2, L2, <- HA. vring ltac:(solve [cbn; ring]).
  Qed.
  (** the assert in line 866 holds for every solver, exact or not *)
  Lemma tlime_assert avoid gamma mu_s x x' y mu' q r : normalise dot y = Some x' -> norm x = 1%R -> tlime_values dot A avoid false gamma mu_s x y = (mu', q, r) -> (Rabs (mu' - gamma) <= q)%R.
  Proof.
    intros H Hx HV. destruct avoid.
    - assert (G : true = true \/ vsub (A y) (vscale (gamma : Rring) y) = x) by auto. destruct (tlime_values_ok true false gamma mu_s x x' y mu' q r H G Hx HV) as [E1 [E2 E3]].
      specialize (E3 eq_refl). apply (normalise_some dot HE) in H. destruct H as [N1 [N2 N3]]. assert (X1 : dot x' x' = 1%R) by (rewrite <- (norm_sqr dot HE), N3; ring).
      assert (QX : (mu' - gamma)%R = dot x' (vsub (A x') (vscale (gamma : Rring) x'))) by (unfold vsub; rewrite (dot_add_r dot HE), !(dot_scale_r dot HE), X1, <- E1; cbn; ring).
      rewrite QX, E3. eapply Rle_trans; [apply (cauchy_schwarz dot HE)|]. rewrite N3. lra.
    - apply (normalise_some dot HE) in H. destruct H as [N1 [N2 N3]]. cbn in HV. injection HV as <- <- _. replace (gamma + dot y x * (1 / norm y * (1 / norm y)) - gamma)%R with (dot y x * (1 / norm y * (1 / norm y)))%R by ring.
      assert (P : (0 < 1 / norm y)%R) by (apply Rdiv_lt_0_compat; lra). rewrite Rabs_mult, (Rabs_pos_eq (1 / norm y * (1 / norm y))) by nra.
      pose proof (cauchy_schwarz dot HE y x) as CS. rewrite Hx in CS. eapply Rle_trans; [apply Rmult_le_compat_r; [nra|exact CS]|]. right. field. lra.
  Qed.
  Local Notation tinv := (fun (es : list (V * R)) (gamma eta : R) (s : tst) => let '(st, x, _, _, ext, _) := s in norm x = 1%R /\ in_sync st /\ (ext = false -> eigenbasis dot A es -> exists e lam, In (e, lam) es /\ (Rabs (lam - gamma) < eta)%R)).
  Lemma tlime_next avoid gamma eta delta m es i s s' r : (avoid = true \/ exact_solver solver) -> tinv es gamma eta s -> tlime_body dot A solver mat avoid gamma eta delta m i s = SNext s' r ->
    tinv es gamma eta s' /\ (let '(_, x, _, mu, _, _) := s' in mu = dot x (A x) /\ r = norm (vsub (A x) (vscale (mu : Rring) x))).
  Proof.
    destruct s as [[[[[st x] y] mu] ext] rq]. destruct s' as [[[[[st' x'] y'] mu'] ext'] rq']. intros HA [I1 [I2 I3]] H. unfold tlime_body in H.
    set (sh := if rq then mu else gamma) in *. destruct (solve A solver mat (update_shift sh st) y x) as [[st1 y1]|e] eqn:E; [|discriminate].
    destruct (normalise dot y1) as [x1|] eqn:N; [|discriminate]. destruct (tlime_values dot A avoid rq gamma mu x y1) as [[m1 q1] r1] eqn:EV.
    destruct (tlime_switch gamma eta delta m i mu m1 q1 ext rq) as [[e1 d1]|] eqn:ES; [|discriminate]. injection H as <- <- <- <- <- <- <-.
    pose proof (update_sync sh st I2) as SU. pose proof (solve_sync _ _ _ _ _ SU E) as SY. apply solve_spec in E. destruct E as [E1 [E2 E3]]. rewrite (op_sync _ y1 SU), update_mu in E3.
    assert (HC : avoid = true \/ vsub (A y1) (vscale ((if rq then mu else gamma) : Rring) y1) = x) by (destruct HA as [HA|HA]; [left; exact HA|right; apply E3; exact HA]).
    destruct (tlime_values_ok avoid rq gamma mu x x1 y1 m1 q1 r1 N HC I1 EV) as [V1 [V2 V3]]. apply (normalise_some dot HE) in N. destruct N as [N1 [N2 N3]].
    split; [|auto]. split; [exact N3|]. split; [exact SY|]. intros He Hb. unfold tlime_switch in ES.
    destruct (negb rq && Rltb q1 eta) eqn:B.
    - apply andb_true_iff in B. destruct B as [B1 B2]. destruct rq; [discriminate|]. specialize (V3 eq_refl).
      unfold Rltb in B2. destruct (Rlt_dec q1 eta) as [L|L]; [|discriminate]. destruct (eigenvalue_near dot A HE LA es q1 x1 gamma Hb N3) as [e' [lam [Hi Hl]]]; [rewrite V3; lra|].
      exists e', lam. split; [exact Hi|lra].
    - assert (EE : ext = e1) by (injection ES as ? _; assumption). apply I3; [congruence|exact Hb].
  Qed.
  Theorem C57_tlime avoid maxit gamma eta eps delta m st x0 l0 : in_sync st -> (avoid = true \/ exact_solver solver) ->
    match tlime dot A solver mat avoid maxit gamma eta eps delta m st x0 l0 with
    | PDone (st', x, _, l, extrnl, _) n => 1 <= n <= maxit /\ eigenpair_up_to dot A eps x l /\ in_sync st' /\
        (extrnl = false -> forall es, eigenbasis dot A es -> exists e lam, In (e, lam) es /\ (gamma - eta < lam < gamma + eta)%R)
    | PNoConv (st', _, _, _, _, _) n => n = S maxit /\ in_sync st'
    | PNan _ n | PExn _ _ n => 1 <= n <= maxit
    | PAssert => False
    end.
  Proof.
    intros HS HA. unfold tlime. destruct (normalise dot x0) as [x1|] eqn:N.
    - apply (normalise_some dot HE) in N. destruct N as [N1 [N2 N3]].
      assert (HL : forall es, loop_end (tlime_body dot A solver mat avoid gamma eta delta m) eps (fun _ => tinv es gamma eta) 0 maxit (ploop (tlime_body dot A solver mat avoid gamma eta delta m) eps maxit 0 (st, x1, x0, l0, true, false))).
      { intros es. apply ploop_inv; [|split; [exact N3|split; [exact HS|discriminate]]]. intros i s s' r Hi B _. eapply tlime_next; eauto. }
      destruct (ploop (tlime_body dot A solver mat avoid gamma eta delta m) eps maxit 0 (st, x1, x0, l0, true, false)) as [[[[[[st' x] y] l] ext] rq] n|s n|[[[[[st' x] y] l] ext] rq] n|s e n|]; cbn [loop_end Nat.add] in HL.
      + pose proof (HL nil) as [H1 [i [s0 [r [Hn [I [B Hr]]]]]]]. split; [lia|]. destruct (tlime_next _ _ _ _ _ _ _ _ _ _ HA I B) as [[J1 [J2 _]] [J3 J4]]. split; [|split; [exact J2|]].
        * split; [exact J1|]. split; [exact J3|]. rewrite <- J4. exact Hr.
        * intros He es Hb. destruct (HL es) as [_ [i2 [s2 [r2 [_ [I' [B' _]]]]]]]. destruct (tlime_next _ _ _ _ _ _ _ _ _ _ HA I' B') as [[_ [_ K]] _]. destruct (K He Hb) as [e [lam [K1 K2]]].
          exists e, lam. split; [exact K1|]. apply Rabs_def2 in K2. lra.
      + destruct (HL nil) as [H1 _]. lia.
      + destruct (HL nil) as [H1 [_ [H2 _]]]. auto.
      + destruct (HL nil) as [H1 _]. lia.
      + destruct (HL nil) as [i [[[[[[st2 x2] y2] l2] e2] r2] [[I1 [I2 _]] B]]]. unfold tlime_body in B. set (sh := if r2 then l2 else gamma) in *.
        destruct (solve A solver mat (update_shift sh st2) y2 x2) as [[st3 y3]|e]; [|discriminate]. destruct (normalise dot y3) as [x3|] eqn:M; [|discriminate].
        destruct (tlime_values dot A avoid r2 gamma l2 x2 y3) as [[m1 q1] r1] eqn:EV. destruct (tlime_switch gamma eta delta m (S i) l2 m1 q1 e2 r2) as [[e1 d1]|] eqn:ES; [discriminate|].
        unfold tlime_switch in ES. destruct (negb r2 && Rltb q1 eta) eqn:BB; [|discriminate]. apply andb_true_iff in BB. destruct BB as [B1 B2]. destruct r2; [discriminate|].
        pose proof (tlime_assert _ _ _ _ _ _ _ _ _ M I1 EV) as TA. unfold Rltb in B2. destruct (Rlt_dec q1 eta); [|discriminate]. rewrite Rltb_true in ES by lra. discriminate.
    - destruct maxit; [split; [reflexivity|exact HS]|lia].
  Qed.
  (** The assert also never fails with an inexact solver (any operator the solver happens to use). *)
  Theorem C57_tlime_no_assert avoid maxit gamma eta eps delta m st x0 l0 : tlime dot A solver mat avoid maxit gamma eta eps delta m st x0 l0 <> PAssert.
  Proof.
    unfold tlime. destruct (normalise dot x0) as [x1|] eqn:N; [|destruct maxit; discriminate]. apply (normalise_some dot HE) in N. destruct N as [N1 [N2 N3]]. intros EQ.
    assert (HL : loop_end (tlime_body dot A solver mat avoid gamma eta delta m) eps (fun _ (s : tst) => let '(_, x, _, _, _, _) := s in norm x = 1%R) 0 maxit (ploop (tlime_body dot A solver mat avoid gamma eta delta m) eps maxit 0 (st, x1, x0, l0, true, false))).
    { apply ploop_inv; [|exact N3]. intros i [[[[[st2 x2] y2] l2] e2] r2] [[[[[st4 x4] y4] l4] e4] r4] r Hi B _. unfold tlime_body in B.
      set (sh := if r2 then l2 else gamma) in *. destruct (solve A solver mat (update_shift sh st2) y2 x2) as [[st3 y3]|e]; [|discriminate]. destruct (normalise dot y3) as [x3|] eqn:M; [|discriminate].
      destruct (tlime_values dot A avoid r2 gamma l2 x2 y3) as [[m1 q1] r1]. destruct (tlime_switch gamma eta delta m (S i) l2 m1 q1 e2 r2) as [[e1 d1]|]; [|discriminate].
      injection B as <- <- <- <- <- <- <-. apply (normalise_some dot HE) in M. tauto. }
    rewrite EQ in HL. destruct HL as [i [[[[[[st2 x2] y2] l2] e2] r2] [I1 B]]]. unfold tlime_body in B. set (sh := if r2 then l2 else gamma) in *.
    destruct (solve A solver mat (update_shift sh st2) y2 x2) as [[st3 y3]|e]; [|discriminate]. destruct (normalise dot y3) as [x3|] eqn:M; [|discriminate].
    destruct (tlime_values dot A avoid r2 gamma l2 x2 y3) as [[m1 q1] r1] eqn:EV. destruct (tlime_switch gamma eta delta m (S i) l2 m1 q1 e2 r2) as [[e1 d1]|] eqn:ES; [discriminate|].
    unfold tlime_switch in ES. destruct (negb r2 && Rltb q1 eta) eqn:BB; [|discriminate]. apply andb_true_iff in BB. destruct BB as [B1 B2]. destruct r2; [discriminate|].
    pose proof (tlime_assert _ _ _ _ _ _ _ _ _ M I1 EV) as TA. unfold Rltb in B2. destruct (Rlt_dec q1 eta); [|discriminate]. rewrite Rltb_true in ES by lra. discriminate.
  Qed.

  (** *** Convergence of inverse iteration *)
  Lemma pow_coef es gamma e lam k : eigenbasis dot A es -> In (e, lam) es -> forall v, dot (pow (shifted gamma) k v) e = ((lam - gamma) ^ k * dot v e)%R.
  Proof.
    intros HB Hi. induction k as [|k IH]; intros v; [cbn; ring|]. rewrite pow_succ, IH. unfold shifted. rewrite (resid_coef dot A HE LA es v gamma e lam HB Hi). cbn [Rpow_def.pow]. ring.
  Qed.
  Lemma unit_id x : norm x = 1%R -> unit dot x = x.
  Proof. intros H. unfold unit. rewrite H. replace (1 / 1)%R with (r1 : Rring) by (cbn; field). apply vscale_1. Qed.
  Lemma inverse_rate e lam es d gamma x0 : eigenbasis dot A ((e, lam) :: es) -> (forall e' l', In (e', l') es -> (d <= Rabs (l' - gamma))%R) -> (0 < d)%R -> dot x0 e <> 0%R ->
    exists D, (0 <= D)%R /\ forall k c x, norm x = 1%R -> (0 < c)%R -> pow (shifted gamma) k x = vscale (c : Rring) x0 ->
      (norm (vsub (A x) (vscale (dot x (A x) : Rring) x)) <= (Rabs (lam - gamma) / d) ^ k * D)%R.
  Proof.
    intros HB Hd Hp Hc. set (g := fun el : V * R => ((snd el - lam) * (dot x0 (fst el) / dot x0 e))%R).
    set (D2 := fold_right (fun el acc => (g el * g el + acc)%R) 0%R es). exists (sqrt D2). split; [apply sqrt_pos|]. intros k c x Hx Cp HP.
    assert (RB : (norm (vsub (A x) (vscale (dot x (A x) : Rring) x)) <= norm (vsub (A x) (vscale (lam : Rring) x)))%R).
    { pose proof (rayleigh_best dot A HE LA x lam) as Q. rewrite Hx in Q. unfold rayleigh_residual in Q. rewrite (unit_id x Hx) in Q. eapply Rle_trans; [apply Q; lra|]. right. field. }
    eapply Rle_trans; [exact RB|]. set (q := (Rabs (lam - gamma) / d)%R).
    assert (Hq : (0 <= q)%R) by (apply Rmult_le_pos; [apply Rabs_pos|apply Rlt_le, Rinv_0_lt_compat; auto]).
    assert (Hqk : (0 <= q ^ k)%R) by (apply pow_le; auto).
    assert (Ce : forall e' l', In (e', l') ((e, lam) :: es) -> ((l' - gamma) ^ k * dot x e')%R = (c * dot x0 e')%R).
    { intros e' l' Hi. rewrite <- (pow_coef _ gamma e' l' k HB Hi x), HP, (eu_scale dot HE). reflexivity. }
    assert (Xe : (Rabs (dot x e) <= 1)%R).
    { eapply Rle_trans; [apply (cauchy_schwarz dot HE)|]. rewrite Hx. destruct HB as [HB _]. destruct (HB e lam (or_introl eq_refl)) as [_ E1]. unfold norm_of. rewrite E1, sqrt_1. lra. }
    assert (Cb : (c * Rabs (dot x0 e) <= Rabs (lam - gamma) ^ k)%R).
    { pose proof (Ce e lam (or_introl eq_refl)) as Q. apply (f_equal Rabs) in Q. rewrite !Rabs_mult, <- RPow_abs, (Rabs_pos_eq c) in Q by lra. rewrite <- Q.
      pose proof (pow_le _ k (Rabs_pos (lam - gamma))). nra. }
    assert (X0 : (0 < Rabs (dot x0 e))%R) by (apply Rabs_pos_lt; auto).
    assert (Cf : forall e' l', In (e', l') es -> (Rabs (dot x e') <= q ^ k * Rabs (dot x0 e' / dot x0 e))%R).
    { intros e' l' Hi. pose proof (Ce e' l' (or_intror Hi)) as Q. apply (f_equal Rabs) in Q. rewrite !Rabs_mult, <- RPow_abs, (Rabs_pos_eq c) in Q by lra.
      specialize (Hd e' l' Hi). assert (Dk : (0 < d ^ k)%R) by (apply pow_lt; auto). assert (DL : (d ^ k <= Rabs (l' - gamma) ^ k)%R) by (apply pow_incr; lra).
      unfold q, Rdiv. rewrite Rpow_mult_distr, pow_inv, Rabs_mult, Rabs_inv. pose proof (Rabs_pos (dot x e')) as P1. pose proof (Rabs_pos (dot x0 e')) as P2.
      assert (S1 : (d ^ k * Rabs (dot x e') * Rabs (dot x0 e) <= Rabs (lam - gamma) ^ k * Rabs (dot x0 e'))%R).
      { apply Rle_trans with (c * Rabs (dot x0 e') * Rabs (dot x0 e))%R; [|apply Rle_trans with (c * Rabs (dot x0 e) * Rabs (dot x0 e'))%R; [lra|apply Rmult_le_compat_r; auto]].
        apply Rmult_le_compat_r; [lra|]. rewrite <- Q. apply Rmult_le_compat_r; auto. }
      apply Rmult_le_reg_l with (d ^ k * Rabs (dot x0 e))%R; [apply Rmult_lt_0_compat; auto|]. 
      replace (d ^ k * Rabs (dot x0 e) * (Rabs (lam - gamma) ^ k * / d ^ k * (Rabs (dot x0 e') * / Rabs (dot x0 e))))%R with (Rabs (lam - gamma) ^ k * Rabs (dot x0 e'))%R by (field; lra). lra. }
    unfold norm_of. rewrite <- (sqrt_Rsqr (q ^ k)) by auto. rewrite <- sqrt_mult_alt by apply Rle_0_sqr. apply sqrt_le_1_alt.
    pose proof (residual_sum dot A HE LA _ x lam HB) as RS. cbn zeta in RS. rewrite RS. cbn [fold_right fst snd]. replace ((lam - lam) * dot x e * ((lam - lam) * dot x e))%R with 0%R by ring. rewrite Rplus_0_l.
    unfold D2. clear - Cf Hqk. induction es as [|[e' l'] es IH]; cbn [fold_right fst snd]; [lra|]. specialize (IH (fun a b H => Cf a b (or_intror H))).
    pose proof (Cf e' l' (or_introl eq_refl)) as Q. unfold g at 1 2. cbn [fst snd]. unfold Rsqr in *. set (X := dot x e') in *. set (Y := (dot x0 e' / dot x0 e)%R) in *.
    assert (S1 : (X * X <= q ^ k * q ^ k * (Y * Y))%R).
    { replace (X * X)%R with (Rabs X * Rabs X)%R by (rewrite <- Rabs_mult; apply Rabs_pos_eq, Rle_0_sqr). replace (Y * Y)%R with (Rabs Y * Rabs Y)%R by (rewrite <- Rabs_mult; apply Rabs_pos_eq, Rle_0_sqr).
      pose proof (Rabs_pos X). pose proof (Rabs_pos Y). replace (q ^ k * q ^ k * (Rabs Y * Rabs Y))%R with ((q ^ k * Rabs Y) * (q ^ k * Rabs Y))%R by ring. apply Rmult_le_compat; auto. }
    assert (S2 : (0 <= (l' - lam) * (l' - lam))%R) by apply Rle_0_sqr.
    assert (S3 : ((l' - lam) * (l' - lam) * (X * X) <= (l' - lam) * (l' - lam) * (q ^ k * q ^ k * (Y * Y)))%R) by (apply Rmult_le_compat_l; auto). lra.
  Qed.
  (** With an exact solver, an orthonormal eigenbasis, an eigenvalue strictly closest to gamma and a start vector not orthogonal to its eigenvector:
      applyInverseIteration ends normally for every eps > 0 if nIterationsMax is large enough, unless the solver throws. *)
  Theorem C57_inverse_converges avoid e lam es d gamma eps st x0 : in_sync st -> exact_solver solver -> eigenbasis dot A ((e, lam) :: es) ->
    (forall e' l', In (e', l') es -> (d <= Rabs (l' - gamma))%R) -> (Rabs (lam - gamma) < d)%R -> dot x0 e <> 0%R -> (0 < eps)%R ->
    exists K, forall maxit l0, K <= maxit ->
      match inverse_iteration dot A solver mat avoid maxit gamma eps st x0 l0 with PDone _ n => n <= K | PExn _ _ _ => True | _ => False end.
  Proof.
    intros HS HX HB Hd Hl Hc Heps. pose proof (Rabs_pos (lam - gamma)) as Pl. assert (Hp : (0 < d)%R) by lra. destruct (inverse_rate e lam es d gamma x0 HB Hd Hp Hc) as [D [D0 HR]].
    set (q := (Rabs (lam - gamma) / d)%R) in *.
    assert (Hq : (Rabs q < 1)%R).
    { unfold q. rewrite Rabs_pos_eq; [|apply Rmult_le_pos; [auto|apply Rlt_le, Rinv_0_lt_compat; auto]]. apply Rmult_lt_reg_r with d; auto. unfold Rdiv. rewrite Rmult_assoc, Rinv_l by lra. lra. }
    destruct (pow_lt_1_zero _ Hq (eps / (D + 1))%R) as [N HN]; [apply Rdiv_lt_0_compat; lra|].
    assert (Small : forall k, N <= k -> (q ^ k * D <= eps)%R).
    { intros k Hk. specialize (HN k Hk). pose proof (Rle_abs (q ^ k)). assert (S1 : (q ^ k <= eps / (D + 1))%R) by lra. apply Rle_trans with (eps / (D + 1) * D)%R; [apply Rmult_le_compat_r; auto|].
      apply Rmult_le_reg_r with (D + 1)%R; [lra|]. replace (eps / (D + 1) * D * (D + 1))%R with (eps * D)%R by (field; lra). nra. }
    exists (S N). intros maxit l0 HM. unfold inverse_iteration.
    assert (E1 : norm e = 1%R) by (destruct HB as [HB _]; destruct (HB e lam (or_introl eq_refl)) as [_ Q]; unfold norm_of; rewrite Q; apply sqrt_1).
    assert (NZ : forall v, dot v e <> 0%R -> normalise dot v <> None).
    { intros v Hv. unfold normalise. destruct (Req_EM_T (norm v) 0) as [Z|Z]; [|discriminate]. exfalso. pose proof (cauchy_schwarz dot HE v e) as CS. rewrite Z in CS. pose proof (Rabs_pos_lt _ Hv). lra. }
    destruct (normalise dot x0) as [x1|] eqn:N0; [|exfalso; apply (NZ x0 Hc N0)].
    assert (ST : forall i s s' r, (iinv gamma x0 avoid i s /\ i < S N) -> inverse_body dot A solver mat avoid gamma (S i) s = SNext s' r -> (eps < r)%R -> (iinv gamma x0 avoid (S i) s' /\ S i < S N)).
    { intros i [[[st2 x2] y2] l2] [[[st4 x4] y4] l4] r [I Hi] B Hr. pose proof (inverse_inv avoid gamma eps x0 i (st2, x2, y2, l2) (st4, x4, y4, l4) r I B Hr) as I'. split; [exact I'|].
      destruct (le_lt_dec N i) as [Q|Q]; [exfalso|lia]. destruct I as [I1 [I2 [I3 I4]]]. destruct I' as [J1 [J2 [J3 J4]]]. destruct (J4 HX) as [c [C1 C2]].
      specialize (HR _ _ _ J1 C1 C2). specialize (Small (S i) (le_S _ _ Q)).
      unfold inverse_body in B. destruct (solve A solver mat st2 y2 x2) as [[st3 y3]|ee] eqn:E; [|discriminate]. destruct (normalise dot y3) as [x3|] eqn:N3; [|discriminate].
      apply solve_spec in E. destruct E as [_ [_ E3]]. rewrite (op_sync st2 y3 I3), I2 in E3.
      rewrite (inv_values_ok avoid gamma x2 x3 y3 N3) in B by (right; apply E3; exact HX). injection B as <- <- <- <- <-. fold q in HR. lra. }
    pose proof (ploop_inv (inverse_body dot A solver mat avoid gamma) eps (fun i s => iinv gamma x0 avoid i s /\ i < S N) ST maxit 0 (update_shift gamma st, x1, x0, l0)
                  (conj (inverse_start gamma x0 x1 avoid st l0 HS N0) (Nat.lt_0_succ N))) as HL.
    destruct (ploop _ eps maxit 0 _) as [[[[st' x] y] l] n|s n|[[[st' x] y] l] n|s ex n|]; cbn [loop_end Nat.add] in HL.
    - destruct HL as [_ [i [s0 [r [-> [[_ Hi] _]]]]]]. lia.
    - destruct HL as [_ [i [[[[st2 x2] y2] l2] [-> [[[I1 [I2 [I3 I4]]] Hi] B]]]]]. unfold inverse_body in B. destruct (solve A solver mat st2 y2 x2) as [[st3 y3]|ee] eqn:E; [|discriminate].
      destruct (normalise dot y3) as [x3|] eqn:N3; [destruct (inv_values dot A avoid gamma x2 y3); discriminate|].
      apply solve_spec in E. destruct E as [_ [_ E3]]. rewrite (op_sync st2 y3 I3), I2 in E3. specialize (E3 HX). apply (NZ y3); [|exact N3]. intros Z.
      destruct (I4 HX) as [c [C1 C2]]. apply (f_equal (fun v => dot v e)) in C2. rewrite (pow_coef _ gamma e lam i HB (or_introl eq_refl)), (eu_scale dot HE), <- E3 in C2.
      rewrite (resid_coef dot A HE LA _ y3 gamma e lam HB (or_introl eq_refl)), Z in C2. assert (c * dot x0 e <> 0)%R by (apply Rmult_integral_contrapositive_currified; [lra|exact Hc]). lra.
    - destruct HL as [_ [_ Hi]]. lia.
    - exact I.
    - destruct HL as [i [[[[st2 x2] y2] l2] [_ B]]]. unfold inverse_body in B. destruct (solve A solver mat st2 y2 x2) as [[st3 y3]|ee]; [|discriminate].
      destruct (normalise dot y3); [|discriminate]. destruct (inv_values dot A avoid gamma x2 y3). discriminate.
  Qed.
End Inverse.
