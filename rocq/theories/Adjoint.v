(** * Adjoints of stationary iterations: symmetric preconditioners (dune/istl/preconditioners.hh): C56

    CGSolver, MINRESSolver and the conjugate gradient variants want a symmetric preconditioner (solvers.hh); what apply computes from v = 0 is a symmetric
    (Hermitian) map of d for SeqSSOR and SeqJac, and forward SeqSOR and backward SeqSOR are adjoint to each other. *)
From Coq Require Import Arith List Lia Bool ZArith QArith Qcanon.
From Verif Require Import Ring Sums RingInst Outcome Sparse MatVec GsModel Gs Precond.
Import ListNotations.
Open Scope nat_scope.

(** ** Specification *)
Section Spec.
  Context {R : ring}.
  Local Open Scope ring_scope_istl.
  (** transposition of a block or complex conjugation of a number; the identity for real numbers *)
  Definition involution (star : R -> R) : Prop := (forall a b, star (a + b) = star a + star b) /\ (forall a b, star (a * b) = star b * star a) /\ (forall a, star (star a) = a).
  Variable star : R -> R.
  (** the inner product, sum_i x_i^* y_i *)
  Definition inner (n : nat) (x y : nat -> R) : R := sum n (fun i => star (x i) * y i).
  Definition ctrans (A : nat -> nat -> R) (i j : nat) : R := star (A j i).
  Definition hermitian (n : nat) (A : nat -> nat -> R) : Prop := forall i j, i < n -> j < n -> A i j = ctrans A i j.
End Spec.

Section Adjoint.
  Context {R : ring}.
  Local Open Scope ring_scope_istl.
  Variable star : R -> R.
  Hypothesis HS : involution star.
  Variable n : nat.
  Local Notation inner := (inner star n).
  Lemma star_add a b : star (a + b) = star a + star b. Proof. apply HS. Qed.
  Lemma star_mul a b : star (a * b) = star b * star a. Proof. apply HS. Qed.
  Lemma star_star a : star (star a) = a. Proof. apply HS. Qed.
  Lemma star_0 : star r0 = r0.
  Proof. apply (radd_cancel_l (star r0)). rewrite <- star_add. rewrite !radd_0_r. reflexivity. Qed.
  Lemma star_opp a : star (- a) = - star a.
  Proof. apply (radd_cancel_l (star a)). rewrite <- star_add. transitivity (star r0); [f_equal; ncring|]. rewrite star_0. ncring. Qed.
  Lemma star_sub a b : star (a - b) = star a - star b.
  Proof. unfold rsub. rewrite star_add, star_opp. reflexivity. Qed.
  Lemma star_1 : star r1 = r1.
  Proof. transitivity (star (star r1 * r1)); [|rewrite rmul_1_r; apply star_star]. rewrite star_mul, star_star, rmul_1_r. reflexivity. Qed.
  Lemma star_sum m f : star (sum m f) = sum m (fun i => star (f i)).
  Proof. induction m as [|m IH]; cbn [sum]; [apply star_0|]. rewrite star_add, IH. reflexivity. Qed.
  Lemma inner_ext x y x' y' : (forall i, i < n -> x i = x' i) -> (forall i, i < n -> y i = y' i) -> inner x y = inner x' y'.
  Proof. intros H1 H2. apply sum_ext. intros i Hi. rewrite H1, H2; auto. Qed.
  Lemma inner_add_r x y z : inner x (fun i => y i + z i) = inner x y + inner x z.
  Proof. unfold Adjoint.inner. rewrite <- sum_add. apply sum_ext. intros; ncring. Qed.
  Lemma inner_sub_r x y z : inner x (fun i => y i - z i) = inner x y - inner x z.
  Proof. unfold Adjoint.inner. rewrite <- sum_sub. apply sum_ext. intros; ncring. Qed.
  Lemma inner_sub_l x y z : inner (fun i => x i - y i) z = inner x z - inner y z.
  Proof. unfold Adjoint.inner. rewrite <- sum_sub. apply sum_ext. intros. rewrite star_sub. ncring. Qed.
  Lemma inner_star x y : inner x y = star (inner y x).
  Proof. unfold Adjoint.inner. rewrite star_sum. apply sum_ext. intros. rewrite star_mul, star_star. reflexivity. Qed.
  Lemma inner_0_r x y : (forall i, i < n -> y i = r0) -> inner x y = r0.
  Proof. intros H. apply sum_zero. intros i Hi. rewrite H by auto. apply rmul_0_r. Qed.
  (** <M x, y> = <x, M* y> *)
  Lemma inner_mv M x y : inner (dense_mv n M x) y = inner x (dense_mv n (ctrans star M) y).
  Proof.
    unfold Adjoint.inner, dense_mv. rewrite (sum_ext n _ (fun i => sum n (fun j => star (x j) * (star (M i j) * y i)))).
    - rewrite sum_swap. apply sum_ext. intros j _. rewrite <- sum_mul_l. reflexivity.
    - intros i _. rewrite star_sum, <- sum_mul_r. apply sum_ext. intros j _. rewrite star_mul. symmetry. apply rmul_assoc.
  Qed.

  (** A correction scheme relates the residual and the correction added to the iterate. *)
  Definition scheme := (nat -> R) -> (nat -> R) -> Prop.
  Definition res (A : nat -> nat -> R) (b x : nat -> R) (i : nat) : R := b i - dense_mv n A x i.
  Inductive steps (A : nat -> nat -> R) (b : nat -> R) : list scheme -> (nat -> R) -> (nat -> R) -> Prop :=
  | st_nil x x' : (forall i, i < n -> x' i = x i) -> steps A b nil x x'
  | st_cons (P : scheme) Ps x r e x1 x' : (forall i, i < n -> r i = res A b x i) -> P r e -> (forall i, i < n -> x1 i = x i + e i) -> steps A b Ps x1 x' -> steps A b (P :: Ps) x x'.
  Definition adjoint_schemes (P P' : scheme) : Prop := forall r e r' e', P r e -> P' r' e' -> inner e r' = inner r e'.

  Lemma dense_ext (M : nat -> nat -> R) x y i : (forall j, j < n -> x j = y j) -> dense_mv n M x i = dense_mv n M y i.
  Proof. intros H. apply sum_ext. intros j Hj. rewrite H by auto. reflexivity. Qed.
  Lemma steps_cons_inv A b P Ps x x' : steps A b (P :: Ps) x x' ->
    exists r e x1, (forall i, i < n -> r i = res A b x i) /\ P r e /\ (forall i, i < n -> x1 i = x i + e i) /\ steps A b Ps x1 x'.
  Proof. intros H. inversion H as [|? ? ? r e x1 ? H1 H2 H3 H4]; subst. exists r, e, x1. auto. Qed.
  Lemma steps_nil_inv A b x x' : steps A b nil x x' -> forall i, i < n -> x' i = x i.
  Proof. intros H. inversion H; subst. assumption. Qed.
  Lemma steps_shift A b Ps : forall x x' y, steps A b Ps x x' -> steps A (res A b y) Ps (fun i => x i - y i) (fun i => x' i - y i).
  Proof.
    induction Ps as [|P Ps IH]; intros x x' y H.
    - constructor. intros i Hi. rewrite (steps_nil_inv _ _ _ _ H) by auto. reflexivity.
    - apply steps_cons_inv in H. destruct H as (r & e & x1 & H1 & H2 & H3 & H4). apply (st_cons A (res A b y) P Ps _ r e (fun i => x1 i - y i)); auto.
      + intros i Hi. rewrite H1 by auto. unfold res. rewrite dense_sub. ncring.
      + intros i Hi. rewrite H3 by auto. ncring.
  Qed.
  Lemma steps_ext A b Ps x y x' : (forall i, i < n -> x i = y i) -> steps A b Ps x x' -> steps A b Ps y x'.
  Proof.
    intros HE H. destruct Ps as [|P Ps].
    - constructor. intros i Hi. rewrite (steps_nil_inv _ _ _ _ H) by auto. auto.
    - apply steps_cons_inv in H. destruct H as (r & e & x1 & H1 & H2 & H3 & H4). apply (st_cons A b P Ps _ r e x1); auto.
      + intros i Hi. rewrite H1 by auto. unfold res. rewrite (dense_ext A x y) by auto. reflexivity.
      + intros i Hi. rewrite H3, HE by auto. reflexivity.
  Qed.
  Lemma steps_snoc A b P Ps : forall x x', steps A b (Ps ++ [P]) x x' -> exists y r e, steps A b Ps x y /\ (forall i, i < n -> r i = res A b y i) /\ P r e /\ forall i, i < n -> x' i = y i + e i.
  Proof.
    induction Ps as [|Q Qs IH]; intros x x' H; cbn [app] in H; apply steps_cons_inv in H; destruct H as (r & e & x1 & H1 & H2 & H3 & H4).
    - exists x, r, e. split; [constructor; auto|]. repeat (split; auto). intros i Hi. rewrite (steps_nil_inv _ _ _ _ H4), H3 by auto. reflexivity.
    - apply IH in H4. destruct H4 as (y & r1 & e1 & Y1 & Y2 & Y3 & Y4). exists y, r1, e1. split; [|auto]. eapply st_cons; eauto.
  Qed.
  (** B_{P1..Pk}(A)^* = B_{Pk'..P1'}(A^* ) where B b is the result of the steps from 0 *)
  Lemma steps_adjoint A : forall Ps Ps' b c x0 y0 x y, Forall2 adjoint_schemes Ps Ps' -> (forall i, i < n -> x0 i = r0) -> (forall i, i < n -> y0 i = r0) ->
    steps A b Ps x0 x -> steps (ctrans star A) c (rev Ps') y0 y -> inner x c = inner b y.
  Proof.
    induction Ps as [|P Ps IH]; intros Ps' b c x0 y0 x y HF Hx0 Hy0 H1 H2; destruct Ps' as [|P' Ps']; try solve [inversion HF].
    - transitivity (@r0 R); [|symmetry; apply inner_0_r; intros i Hi; rewrite (steps_nil_inv _ _ _ _ H2); auto].
      rewrite inner_star. rewrite inner_0_r; [apply star_0|]. intros i Hi. rewrite (steps_nil_inv _ _ _ _ H1); auto.
    - assert (HP : adjoint_schemes P P' /\ Forall2 adjoint_schemes Ps Ps') by (inversion HF; auto). destruct HP as [HP HPs].
      cbn [rev] in H2. apply steps_snoc in H2. destruct H2 as (yy & r' & e' & S1 & S2 & S3 & S4).
      apply steps_cons_inv in H1. destruct H1 as (r & e & x1 & T1 & T2 & T3 & T4).
      assert (He : forall i, i < n -> x1 i = e i) by (intros i Hi; rewrite T3, Hx0 by auto; ncring).
      assert (Hr : forall i, i < n -> r i = b i) by (intros i Hi; rewrite T1 by auto; unfold res; rewrite (dense_ext A x0 (fun _ => r0)) by auto; unfold dense_mv; rewrite sum_zero; [ncring|intros; ncring]).
      apply (steps_shift A b Ps x1 x e) in T4.
      assert (T4' : steps A (res A b e) Ps (fun _ => r0) (fun i => x i - e i)) by (eapply steps_ext; [|exact T4]; intros i Hi; cbn; rewrite He by auto; ncring).
      pose proof (IH Ps' (res A b e) c (fun _ => r0) y0 (fun i => x i - e i) yy HPs ltac:(auto) Hy0 T4' S1) as E.
      pose proof (HP r e r' e' T2 S3) as EA.
      rewrite inner_sub_l in E. rewrite (inner_ext b y b (fun i => yy i + e' i)) by auto. rewrite inner_add_r.
      rewrite (inner_ext r e' b e') in EA by auto. rewrite <- EA. rewrite (inner_ext e r' e (fun i => c i - dense_mv n (ctrans star A) yy i)) by auto.
      rewrite inner_sub_r, <- inner_mv. unfold res in E. rewrite (inner_sub_l b (dense_mv n A e) yy) in E.
      transitivity ((inner x c - inner e c) + inner e c); [ncring|]. rewrite E. ncring.
  Qed.
  Lemma steps_herm A b Ps x x' : hermitian star n A -> steps A b Ps x x' -> steps (ctrans star A) b Ps x x'.
  Proof.
    intros HA H. induction H as [|P Ps x r e x1 x' H1 H2 H3 H4 IH]; [constructor; auto|]. apply (st_cons (ctrans star A) b P Ps x r e x1); auto.
    intros i Hi. rewrite H1 by auto. unfold res. f_equal. unfold dense_mv. apply sum_ext. intros j Hj. rewrite <- HA by auto. reflexivity.
  Qed.
  (** the schemes M e = w r and M^* e' = w r' *)
  Lemma implicit_adjoint (M N : nat -> nat -> R) (w : R) : central w -> star w = w -> (forall a b, w * a = w * b -> a = b) -> (forall i j, i < n -> j < n -> N i j = ctrans star M i j) ->
    adjoint_schemes (fun r e => solves n M e (fun i => w * r i)) (fun r e => solves n N e (fun i => w * r i)).
  Proof.
    intros Hw Sw Rw HN r e r' e' H1 H2. apply Rw. transitivity (inner e (fun i => w * r' i)).
    { unfold Adjoint.inner. rewrite <- sum_mul_l. apply sum_ext. intros i _. rewrite !rmul_assoc. rewrite (Hw (star (e i))). reflexivity. }
    rewrite (inner_ext e _ e (dense_mv n N e')) by (intros; auto; symmetry; apply H2; auto).
    rewrite (inner_ext e _ e (dense_mv n (ctrans star M) e')); [|auto|intros i Hi; unfold dense_mv; apply sum_ext; intros j Hj; rewrite HN by auto; reflexivity].
    rewrite <- inner_mv. rewrite (inner_ext _ e' (fun i => w * r i) e') by (auto; intros; apply H1; auto).
    unfold Adjoint.inner. rewrite <- sum_mul_l. apply sum_ext. intros i _. rewrite star_mul, Sw, <- (Hw (star (r i))), <- rmul_assoc. reflexivity.
  Qed.
End Adjoint.

Section Sweeps.
  Context {R : ring}.
  Local Open Scope ring_scope_istl.
  Variable inv : R -> option R.
  Hypothesis inv_ok : forall a b, inv a = Some b -> a * b = r1 /\ b * a = r1.
  Variable star : R -> R.
  Hypothesis HS : involution star.
  Definition flip (k : sweep) : sweep := match k with Jac => Jac | SorF => SorB | SorB => SorF end.
  Definition sweep_scheme (n : nat) (A : smat R) (w : R) (k : sweep) : scheme := fun r e => solves n (split_matrix k A w) e (fun i => w * r i).
  Lemma sweeps_steps n A w b : central w -> mat_wf n n A -> diag_stored n A -> diag_invertible inv n A -> length b = n -> forall ks v, length v = n ->
    exists v', sweeps inv ks A w v b = Ok v' /\ length v' = n /\ steps n (den A) (vget b) (map (sweep_scheme n A w) ks) (vget v) (vget v').
  Proof.
    intros Hw HW HD HI Hb. induction ks as [|k ks IH]; intros v Hv; cbn [sweeps map].
    - exists v. repeat (split; auto). constructor. auto.
    - destruct (one_sweep_char inv inv_ok k n A w v b) as (v1 & E1 & L1 & S1); auto. rewrite E1. cbn [obind]. destruct (IH v1 L1) as (v' & E2 & L2 & S2).
      exists v'. repeat (split; auto). apply (st_cons n (den A) (vget b) _ _ (vget v) (res n (den A) (vget b) (vget v)) (fun i => vget v1 i - vget v i) (vget v1)); auto.
      intros i Hi. ncring.
  Qed.
  Lemma flip_adjoint n A w k : central w -> star w = w -> (forall a b, w * a = w * b -> a = b) -> hermitian star n (den A) -> adjoint_schemes star n (sweep_scheme n A w k) (sweep_scheme n A w (flip k)).
  Proof.
    intros Hw Sw Rw HA. apply implicit_adjoint; auto. intros i j Hi Hj. unfold ctrans, split_matrix. rewrite (star_add star HS).
    assert (ED : Dp A i j = star (Dp A j i)). { unfold Dp. rewrite (Nat.eqb_sym i j). destruct (Nat.eqb_spec j i) as [->|]; [apply HA; auto|symmetry; apply star_0; auto]. }
    assert (EU : Up A i j = star (Lp A j i)). { unfold Up, Lp. destruct (i <? j); [apply HA; auto|symmetry; apply star_0; auto]. }
    assert (EL : Lp A i j = star (Up A j i)). { unfold Up, Lp. destruct (j <? i); [apply HA; auto|symmetry; apply star_0; auto]. }
    rewrite <- ED. f_equal. destruct k; cbn [flip]; [symmetry; apply star_0; auto| |]; rewrite (star_mul star HS), Sw, <- Hw; f_equal; auto.
  Qed.
  (** what apply computes from v = 0 *)
  Definition is_adjoint (n : nat) (B B' : vec R -> outcome (vec R)) : Prop :=
    forall d e, length d = n -> length e = n -> exists x y, B d = Ok x /\ B' e = Ok y /\ length x = n /\ length y = n /\ inner star n (vget x) (vget e) = inner star n (vget d) (vget y).
  Lemma sweeps_adjoint ks n A w : central w -> star w = w -> (forall a b, w * a = w * b -> a = b) -> mat_wf n n A -> diag_stored n A -> diag_invertible inv n A -> hermitian star n (den A) ->
    is_adjoint n (fun d => sweeps inv ks A w (zeros n) d) (fun e => sweeps inv (rev (map flip ks)) A w (zeros n) e).
  Proof.
    intros Hw Sw Rw HW HD HI HA d e Hd He. assert (LZ : length (@zeros R n) = n) by apply repeat_length.
    destruct (sweeps_steps n A w d Hw HW HD HI Hd ks (zeros n) LZ) as (x & X1 & X2 & X3). destruct (sweeps_steps n A w e Hw HW HD HI He (rev (map flip ks)) (zeros n) LZ) as (y & Y1 & Y2 & Y3).
    exists x, y. repeat (split; auto).
    apply (steps_adjoint star HS n (den A) (map (sweep_scheme n A w) ks) (map (sweep_scheme n A w) (map flip ks)) (vget d) (vget e) (vget (zeros n)) (vget (zeros n))); auto using vget_zeros.
    - clear -HS Hw Sw Rw HA. induction ks; cbn; constructor; auto. apply flip_adjoint; auto.
    - rewrite map_rev in Y3. apply (steps_herm star n (den A)); auto.
  Qed.
  Lemma rev_repeat {T} (a : T) k : rev (repeat a k) = repeat a k.
  Proof. induction k as [|k IH]; cbn; auto. rewrite IH. symmetry. apply repeat_cons. Qed.
  Lemma map_repeat {T U} (f : T -> U) a k : map f (repeat a k) = repeat (f a) k.
  Proof. induction k; cbn; congruence. Qed.
  Lemma rev_concat_repeat {T} (l : list T) k : rev (concat (repeat l k)) = concat (repeat (rev l) k).
  Proof.
    induction k as [|k IH]; cbn; auto. rewrite rev_app_distr, IH. generalize (rev l) as m. clear. intros l. induction k as [|k IH]; cbn; [now rewrite app_nil_r|]. rewrite <- app_assoc, IH. reflexivity.
  Qed.
  (** For a Hermitian matrix: SeqJac and SeqSSOR with any number of steps are Hermitian operators, backward SeqSOR is the adjoint of forward SeqSOR. *)
  Theorem C56_symmetric k n A w : central w -> star w = w -> (forall a b, w * a = w * b -> a = b) -> mat_wf n n A -> diag_stored n A -> diag_invertible inv n A -> hermitian star n (den A) ->
    is_adjoint n (seqjac_apply inv k A w (zeros n)) (seqjac_apply inv k A w (zeros n)) /\
    is_adjoint n (seqssor_apply inv k A w (zeros n)) (seqssor_apply inv k A w (zeros n)) /\
    is_adjoint n (seqsor_apply inv true k A w (zeros n)) (seqsor_apply inv false k A w (zeros n)).
  Proof.
    intros Hw Sw Rw HW HD HI HA. repeat split.
    - pose proof (sweeps_adjoint (repeat Jac k) n A w Hw Sw Rw HW HD HI HA) as H. rewrite map_repeat, rev_repeat in H. exact H.
    - pose proof (sweeps_adjoint (concat (repeat [SorF; SorB] k)) n A w Hw Sw Rw HW HD HI HA) as H.
      replace (rev (map flip (concat (repeat [SorF; SorB] k)))) with (concat (repeat [SorF; SorB] k)) in H; [exact H|].
      rewrite concat_map, map_repeat. cbn [map flip]. rewrite rev_concat_repeat. reflexivity.
    - pose proof (sweeps_adjoint (repeat SorF k) n A w Hw Sw Rw HW HD HI HA) as H. rewrite map_repeat, rev_repeat in H. exact H.
  Qed.
End Sweeps.
