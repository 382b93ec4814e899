(** * Positive definite preconditioners and energy decrease (C71): SeqSOR and SeqSSOR (preconditioners.hh:160-380), the multigrid cycle with these
    smoothers (paamg/amg.hh, paamg/smoother.hh, paamg/matrixhierarchy.hh), sequential case.

    CGSolver and MINRESSolver need a symmetric positive definite preconditioner; LoopSolver needs one that contracts.  Entries: an ordered commutative
    ring (for example the rationals). *)
From Coq Require Import Arith List Lia Bool ZArith QArith Qcanon.
From Coq Require Import setoid_ring.Ring.
From Verif Require Import Ring Sums RingInst Outcome Sparse MatVec GsModel Gs Precond Adjoint AmgTransfer AggPattern Aggregation Amg AmgSetup.
Import ListNotations.
Open Scope nat_scope.

(** ** Specification *)
(** [pos]: the positive elements of a commutative ordered ring *)
Record ordered (R : ring) (pos : R -> Prop) : Prop := {
  ord_comm : forall a b : R, rmul a b = rmul b a;
  ord_irr : ~ pos r0;
  ord_one : pos r1;
  ord_add : forall a b, pos a -> pos b -> pos (radd a b);
  ord_mul : forall a b, pos a -> pos b -> pos (rmul a b);
  ord_tri : forall a, a = r0 \/ pos a \/ pos (ropp a) }.
Section Spec.
  Context {R : ring} (pos : R -> Prop).
  Local Open Scope ring_scope_istl.
  Definition nneg (a : R) : Prop := a = r0 \/ pos a.
  Definition lt_ (a b : R) : Prop := pos (b - a).
  Definition le_ (a b : R) : Prop := nneg (b - a).
  (** a symmetric positive definite n x n matrix *)
  Definition spd (n : nat) (A : smat R) : Prop := sym n A /\ forall x, length x = n -> x <> zerov n -> pos (dot n (mul n A x) x).
  (** a symmetric positive definite map of vectors of length n *)
  Definition spd_map (n : nat) (B : vec R -> vec R) : Prop := keeps n B /\ adjoint n B B /\ forall d, length d = n -> d <> zerov n -> pos (dot n (B d) d).
  (** <A (x - xs), x - xs>, the square of the energy norm of the error of x *)
  Definition energy (n : nat) (A : smat R) (xs x : vec R) : R := let e := vecf n (fun i => vget x i - vget xs i) in dot n (mul n A e) e.
  (** one step x + B (b - A x) of a stationary iteration reduces the energy error of every x that is not yet a solution *)
  Definition reduces (n : nat) (A : smat R) (B : vec R -> vec R) : Prop :=
    forall x xs b, length x = n -> length xs = n -> length b = n -> mul n A xs = b -> residual n A b x <> zerov n ->
      lt_ (energy n A xs (vadd n x (B (residual n A b x)))) (energy n A xs x).
End Spec.

Section Order.
  Context {R : ring} (pos : R -> Prop).
  Hypothesis HO : ordered R pos.
  Local Open Scope ring_scope_istl.
  Local Notation nneg := (nneg pos).
  Lemma oring_theory : ring_theory (r0 : R) r1 radd rmul rsub ropp eq.
  Proof. constructor; intros; try ncring; auto. apply HO. Qed.
  Add Ring oring : oring_theory.
  Lemma nneg_pos a : pos a -> nneg a. Proof. right. auto. Qed.
  Lemma nneg_0 : nneg r0. Proof. left. auto. Qed.
  Lemma nneg_add a b : nneg a -> nneg b -> nneg (a + b).
  Proof. intros [->|Ha] [->|Hb]; [left; ring|right; replace (r0 + b) with b by ring; auto|right; replace (a + r0) with a by ring; auto|right; apply HO; auto]. Qed.
  Lemma pos_add a b : pos a -> nneg b -> pos (a + b).
  Proof. intros Ha [->|Hb]; [replace (a + r0) with a by ring; auto|apply HO; auto]. Qed.
  Lemma pos_add_r a b : nneg a -> pos b -> pos (a + b).
  Proof. intros. rewrite radd_comm. apply pos_add; auto. Qed.
  Lemma nneg_mul a b : nneg a -> nneg b -> nneg (a * b).
  Proof. intros [->|Ha] [->|Hb]; [left; ring|left; ring|left; ring|right; apply HO; auto]. Qed.
  Lemma pos_opp a : pos a -> pos (- a) -> False.
  Proof. intros H1 H2. apply (ord_irr _ _ HO). replace (@r0 R) with (a + - a) by ring. apply HO; auto. Qed.
  Lemma pos_neq a : pos a -> a <> r0. Proof. intros H ->. apply (ord_irr _ _ HO H). Qed.
  Lemma sq_pos (a : R) : a <> r0 -> pos (a * a).
  Proof. intros H. destruct (ord_tri _ _ HO a) as [E|[E|E]]; [congruence|apply HO; auto|]. replace (a * a) with (- a * - a) by ring. apply HO; auto. Qed.
  Lemma sq_nneg (a : R) : nneg (a * a).
  Proof. destruct (ord_tri _ _ HO a) as [->|H]; [left; ring|]. right. apply sq_pos. intros E. subst a. destruct H as [H|H]; [apply (ord_irr _ _ HO H)|]. apply (ord_irr _ _ HO). replace (@r0 R) with (- (@r0 R)) by ring. auto. Qed.
  Lemma mul_cancel (a b : R) : a <> r0 -> a * b = r0 -> b = r0.
  Proof.
    intros Ha H. destruct (ord_tri _ _ HO b) as [E|Hb]; auto. exfalso. assert (Hb' : b <> r0) by (intros ->; destruct Hb as [Hb|Hb]; [apply (ord_irr _ _ HO Hb)|apply (ord_irr _ _ HO); replace (@r0 R) with (- (@r0 R)) by ring; auto]).
    assert (P : pos ((a * a) * (b * b))) by (apply HO; apply sq_pos; auto). apply (pos_neq _ P). replace (a * a * (b * b)) with ((a * b) * (a * b)) by ring. rewrite H. ring.
  Qed.
  Lemma pos_mul_inv (a b : R) : pos a -> pos (a * b) -> pos b.
  Proof.
    intros Ha H. destruct (ord_tri _ _ HO b) as [->|[E|E]]; auto; exfalso; [apply (pos_neq _ H); ring|]. apply (pos_opp _ H). replace (- (a * b)) with (a * - b) by ring. apply HO; auto.
  Qed.
  Lemma nneg_mul_inv (a b : R) : pos a -> nneg (a * b) -> nneg b.
  Proof. intros Ha [H|H]; [left; apply (mul_cancel a); auto; apply pos_neq; auto|right; apply (pos_mul_inv a); auto]. Qed.
  Lemma pos_2 : pos (r1 + r1 : R).
  Proof. apply HO; apply HO. Qed.
  Lemma sum_nneg n f : (forall i, i < n -> nneg (f i)) -> nneg (sum n f).
  Proof. induction n as [|n IH]; intros H; cbn [sum]; [apply nneg_0|]. apply nneg_add; auto. Qed.
  Lemma sum_pos n f i : i < n -> pos (f i) -> (forall i, i < n -> nneg (f i)) -> pos (sum n f).
  Proof.
    induction n as [|n IH]; intros Hi Hp H; [lia|]. cbn [sum]. destruct (Nat.eq_dec i n) as [->|Hn]; [apply pos_add_r; auto; apply sum_nneg; auto|]. apply pos_add; auto. apply IH; auto; lia.
  Qed.
  Lemma vec_dec n (x : vec R) : length x = n -> x = zerov n \/ exists i, i < n /\ vget x i <> r0.
  Proof.
    intros HL. assert (H : (forall i, i < n -> vget x i = r0) \/ exists i, i < n /\ vget x i <> r0).
    { clear HL. induction n as [|n [IH|(i & Hi & IH)]]; [left; lia| |right; exists i; split; auto; lia].
      destruct (ord_tri _ _ HO (vget x n)) as [E|E].
      - left. intros i Hi. destruct (Nat.eq_dec i n); [congruence|apply IH; lia].
      - right. exists n. split; [lia|]. intros E0. rewrite E0 in E. destruct E as [E|E]; [apply (ord_irr _ _ HO E)|]. apply (ord_irr _ _ HO). replace (@r0 R) with (- (@r0 R)) by ring. auto. }
    destruct H as [H|H]; [left; apply vecf_eq; auto|right; auto].
  Qed.

  (** ** One sweep: w (2<e,r> - <A e,e>) = (2 - w) <D e,e> for M e = w r *)
  Definition idst (a : R) : R := a.
  Lemma idst_inv : involution idst.
  Proof. unfold idst. repeat split; auto. intros. apply HO. Qed.
  Local Notation ip := (inner idst).
  Lemma ip_sym n x y : ip n x y = ip n y x.
  Proof. unfold inner, idst. apply sum_ext. intros. apply HO. Qed.
  Lemma ip_add_l n x y z : ip n (fun i => x i + y i) z = ip n x z + ip n y z.
  Proof. rewrite ip_sym, (inner_add_r idst), (ip_sym n z), (ip_sym n z). reflexivity. Qed.
  Lemma ip_scale_l n c x z : ip n (fun i => c * x i) z = c * ip n x z.
  Proof. unfold inner, idst. rewrite <- sum_mul_l. apply sum_ext. intros. ring. Qed.
  Lemma ip_mv_sym n (M : nat -> nat -> R) x y : (forall i j, i < n -> j < n -> M i j = M j i) -> ip n (dense_mv n M x) y = ip n x (dense_mv n M y).
  Proof.
    intros H. rewrite (inner_mv idst idst_inv). apply inner_ext; auto. intros i Hi. apply sum_ext. intros j Hj. unfold ctrans, idst. rewrite H by auto. reflexivity.
  Qed.
  Lemma sor_step n A w k r e : k = SorF \/ k = SorB -> sym n A -> solves n (split_matrix k A w) e (fun i => w * r i) ->
    w * ((r1 + r1) * ip n e r - ip n (dense_mv n (den A) e) e) = (r1 + r1 - w) * ip n (fun i => den A i i * e i) e.
  Proof.
    intros Hk HS HM.
    assert (EA : ip n (dense_mv n (den A) e) e = ip n (dense_mv n (Lp A) e) e + ip n (fun i => den A i i * e i) e + ip n (dense_mv n (Up A) e) e).
    { rewrite <- !ip_add_l. apply inner_ext; auto. intros i Hi. rewrite dense_LDU by auto. try ring. }
    assert (EU : ip n (dense_mv n (Up A) e) e = ip n (dense_mv n (Lp A) e) e).
    { rewrite (inner_mv idst idst_inv), ip_sym. apply inner_ext; auto. intros i Hi. apply sum_ext. intros j Hj. unfold ctrans, idst, Up, Lp. destruct (j <? i); auto. rewrite HS by auto. reflexivity. }
    assert (EM : w * ip n e r = ip n (fun i => den A i i * e i) e + w * ip n (dense_mv n (Lp A) e) e).
    { rewrite (ip_sym n e r), <- ip_scale_l.
      transitivity (ip n (dense_mv n (split_matrix k A w) e) e). { apply inner_ext; auto. intros i Hi. symmetry. apply HM; auto. }
      transitivity (ip n (fun i => den A i i * e i + w * dense_mv n (match k with SorB => Up A | _ => Lp A end) e i) e).
      { apply inner_ext; auto. intros i Hi. rewrite dense_split by auto. destruct Hk; subst k; reflexivity. }
      rewrite ip_add_l, ip_scale_l. destruct Hk; subst k; [|rewrite EU]; reflexivity. }
    rewrite EA, EU. transitivity ((r1 + r1) * (w * ip n e r) - w * (ip n (dense_mv n (Lp A) e) e + ip n (fun i => den A i i * e i) e + ip n (dense_mv n (Lp A) e) e)); [ring|]. rewrite EM. ring.
  Qed.
  (** what the steps gain: 2<x,b> - <A x,x> *)
  Definition gain (n : nat) (A : smat R) (b x : nat -> R) : R := (r1 + r1) * ip n x b - ip n (dense_mv n (den A) x) x.
  Lemma gain_ext n A b x y : (forall i, i < n -> x i = y i) -> gain n A b x = gain n A b y.
  Proof.
    intros E. unfold gain. rewrite (inner_ext idst n x b y b), (inner_ext idst n (dense_mv n (den A) x) x (dense_mv n (den A) y) y); auto.
    intros i Hi. apply sum_ext. intros j Hj. rewrite E by auto. reflexivity.
  Qed.
  Lemma gain_add n A b x e r x1 : sym n A -> (forall i, i < n -> r i = res n (den A) b x i) -> (forall i, i < n -> x1 i = x i + e i) ->
    gain n A b x1 = gain n A b x + ((r1 + r1) * ip n e r - ip n (dense_mv n (den A) e) e).
  Proof.
    intros HS Hr Hx. unfold gain.
    rewrite (inner_ext idst n x1 b (fun i => x i + e i) b), ip_add_l by auto.
    rewrite (inner_ext idst n (dense_mv n (den A) x1) x1 (fun i => dense_mv n (den A) x i + dense_mv n (den A) e i) (fun i => x i + e i)); auto.
    2:{ intros i Hi. rewrite <- dense_addv. apply sum_ext. intros j Hj. rewrite Hx by auto. reflexivity. }
    rewrite ip_add_l, !(inner_add_r idst). rewrite (inner_ext idst n e r e (res n (den A) b x)) by auto. unfold res. rewrite (inner_sub_r idst).
    rewrite (ip_mv_sym n (den A) e x) by (intros; apply HS; auto). rewrite (ip_sym n e (dense_mv n (den A) x)). ring.
  Qed.
  Definition is_sor (k : sweep) : Prop := k = SorF \/ k = SorB.
  Section SorSteps.
    Variables (n : nat) (A : smat R) (w : R).
    Hypothesis HS : sym n A.
    Hypothesis HD : forall i, i < n -> pos (den A i i).
    Hypothesis Hw : pos w.
    Hypothesis Hw2 : pos (r1 + r1 - w).
    Lemma diag_form e : nneg (ip n (fun i => den A i i * e i) e).
    Proof. apply sum_nneg. intros i Hi. unfold idst. replace (den A i i * e i * e i) with (den A i i * (e i * e i)) by ring. apply nneg_mul; [right; auto|apply sq_nneg]. Qed.
    Lemma diag_form_pos e i : i < n -> e i <> r0 -> pos (ip n (fun i => den A i i * e i) e).
    Proof.
      intros Hi He. apply (sum_pos n _ i); auto; unfold idst; [|intros j Hj]; [replace (den A i i * e i * e i) with (den A i i * (e i * e i)) by ring|replace (den A j j * e j * e j) with (den A j j * (e j * e j)) by ring].
      - apply HO; auto. apply sq_pos; auto.
      - apply nneg_mul; [right; auto|apply sq_nneg].
    Qed.
    Lemma steps_gain b : forall ks x x', Forall is_sor ks -> steps n (den A) b (map (sweep_scheme n A w) ks) x x' -> nneg (gain n A b x' - gain n A b x).
    Proof.
      induction ks as [|k ks IH]; intros x x' HF H; cbn [map] in H.
      - pose proof (steps_nil_inv n _ _ _ _ H) as E. left. rewrite (gain_ext n A b x' x) by auto. ring.
      - apply steps_cons_inv in H. destruct H as (r & e & x1 & H1 & H2 & H3 & H4). apply Forall_cons_iff in HF. destruct HF as [Hk HF].
        specialize (IH x1 x' HF H4). rewrite (gain_add n A b x e r x1 HS H1 H3) in IH.
        replace (gain n A b x' - gain n A b x) with ((gain n A b x' - (gain n A b x + ((r1 + r1) * ip n e r - ip n (dense_mv n (den A) e) e))) + ((r1 + r1) * ip n e r - ip n (dense_mv n (den A) e) e)) by ring.
        apply nneg_add; auto. apply (nneg_mul_inv w); auto. rewrite (sor_step n A w k r e Hk HS H2). apply nneg_mul; [right; auto|apply diag_form].
    Qed.
    Lemma steps_gain_pos b k ks x x' i : Forall is_sor (k :: ks) -> i < n -> res n (den A) b x i <> r0 -> steps n (den A) b (map (sweep_scheme n A w) (k :: ks)) x x' ->
      pos (gain n A b x' - gain n A b x).
    Proof.
      intros HF Hi Hr H. cbn [map] in H. apply steps_cons_inv in H. destruct H as (r & e & x1 & H1 & H2 & H3 & H4). apply Forall_cons_iff in HF. destruct HF as [Hk HF].
      pose proof (steps_gain b ks x1 x' HF H4) as G. rewrite (gain_add n A b x e r x1 HS H1 H3) in G.
      replace (gain n A b x' - gain n A b x) with (((r1 + r1) * ip n e r - ip n (dense_mv n (den A) e) e) + (gain n A b x' - (gain n A b x + ((r1 + r1) * ip n e r - ip n (dense_mv n (den A) e) e)))) by ring.
      apply pos_add; auto. apply (pos_mul_inv w); auto. rewrite (sor_step n A w k r e Hk HS H2). apply HO; auto.
      assert (EX : exists j, j < n /\ e j <> r0).
      { destruct (vec_dec n (vecf n e) (vecf_length n e)) as [E|(j & Hj & E)]; [|exists j; rewrite vecf_get in E by auto; auto].
        exfalso. apply Hr. rewrite <- H1 by auto. apply (mul_cancel w); [apply pos_neq; auto|]. specialize (H2 i Hi). cbn beta in H2. rewrite <- H2. unfold dense_mv. apply sum_zero. intros j Hj.
        rewrite <- (vecf_get n e j Hj), E, zerov_get by auto. ring. }
      destruct EX as (j & Hj & Ej). apply (diag_form_pos e j); auto.
    Qed.
  End SorSteps.

  (** ** Quadratic forms of corrections: 2<B d,d> - <A B d,B d> *)
  Lemma comm_ : forall a b : R, a * b = b * a. Proof. apply HO. Qed.
  Definition qf (n : nat) (A : smat R) (B : vec R -> vec R) (d : vec R) : R := (r1 + r1) * dot n (B d) d - dot n (mul n A (B d)) (B d).
  Lemma dot_vadd_r n (a b e : vec R) : dot n e (vadd n a b) = dot n e a + dot n e b.
  Proof. rewrite (dot_sym comm_), dot_vadd, (dot_sym comm_ n a), (dot_sym comm_ n b). reflexivity. Qed.
  Lemma mul_vadd n (A : smat R) a b : mul n A (vadd n a b) = vadd n (mul n A a) (mul n A b).
  Proof.
    apply vecf_ext. intros i Hi. unfold mul. rewrite !vecf_get by auto. rewrite <- sum_add. apply sum_ext. intros j Hj. rewrite vadd_get by auto. ncring.
  Qed.
  Lemma dot_res_r n (A : smat R) d u e : dot n e (residual n A d u) = dot n e d - dot n e (mul n A u).
  Proof. rewrite (dot_sym comm_), dot_residual, (dot_sym comm_ n d), (dot_sym comm_ n (mul n A u)). reflexivity. Qed.
  Lemma dot_0_l n (e : vec R) : dot n (zerov n) e = r0.
  Proof. unfold dot. apply sum_zero. intros i Hi. rewrite zerov_get by auto. ring. Qed.
  Lemma mul_0 n (A : smat R) : mul n A (zerov n) = zerov n.
  Proof. apply vecf_ext. intros i Hi. apply sum_zero. intros j Hj. rewrite zerov_get by auto. ring. Qed.
  (** first F, then G for the new residual *)
  Definition comp (n : nat) (A : smat R) (F G : vec R -> vec R) (d : vec R) : vec R := vadd n (F d) (G (residual n A d (F d))).
  Lemma qf_comp n A F G d : sym n A -> qf n A (comp n A F G) d = qf n A F d + qf n A G (residual n A d (F d)).
  Proof.
    intros HS. unfold qf, comp. set (u := F d). set (r := residual n A d u). set (v := G r).
    rewrite mul_vadd, !dot_vadd, !dot_vadd_r. unfold r. rewrite dot_res_r. rewrite (dot_mul comm_ n A u v) by auto. rewrite (dot_sym comm_ n (mul n A v) u), (dot_sym comm_ n v (mul n A u)).
    rewrite (dot_mul comm_ n A u v) by auto. ring.
  Qed.
  Section Forms.
    Variables (n : nat) (A : smat R).
    Hypothesis SA : sym n A.
    Definition nonneg (B : vec R -> vec R) : Prop := forall d, length d = n -> nneg (dot n (B d) d).
    Definition contr (B : vec R -> vec R) : Prop := forall d, length d = n -> nneg (qf n A B d).
    Definition strict (B : vec R -> vec R) : Prop := forall d, length d = n -> d <> zerov n -> pos (qf n A B d).
    (** <B d, d - A B d> >= 0 *)
    Definition half (B : vec R -> vec R) : Prop := forall d, length d = n -> nneg (dot n (B d) (residual n A d (B d))).
    Lemma strict_contr B : keeps n B -> strict B -> (forall d, d = zerov n -> B d = zerov n) -> contr B.
    Proof.
      intros K H H0 d Hd. destruct (vec_dec n d Hd) as [E|(i & Hi & E)]; [|right; apply H; auto; intros ->; apply E; apply zerov_get; auto].
      left. unfold qf. rewrite (H0 d E), E, mul_0, !dot_0_l. ring.
    Qed.
    Lemma wrap_comp s s' B d : wrap n A s s' B d = comp n A (comp n A s B) s' d.
    Proof. reflexivity. Qed.
    Lemma wrap_form s s' B d : keeps n s -> keeps n B -> adjoint n s s' -> length d = n -> dot n (wrap n A s s' B d) d = qf n A s d + dot n (B (residual n A d (s d))) (residual n A d (s d)).
    Proof. intros K1 K2 HS Hd. rewrite (wrap_dot comm_) by auto. unfold qf. rewrite (dot_sym comm_ n d (s d)). ring. Qed.
    Lemma wraps_keeps s s' B k : keeps n B -> keeps n (wraps n A k s s' B).
    Proof. intros K. destruct k as [|k]; cbn [wraps]; auto. apply wrap_keeps. Qed.
    Lemma wraps_nonneg s s' B k : keeps n s -> keeps n B -> adjoint n s s' -> contr s -> nonneg B -> nonneg (wraps n A k s s' B).
    Proof.
      intros K1 K2 HS HC HB. induction k as [|k IH]; cbn [wraps]; auto. intros d Hd. rewrite wrap_form; auto using wraps_keeps. apply nneg_add; auto. apply IH. apply residual_length.
    Qed.
    Lemma wraps_pos s s' B k : keeps n s -> keeps n B -> adjoint n s s' -> contr s -> strict s -> nonneg B -> forall d, length d = n -> d <> zerov n -> pos (dot n (wraps n A (S k) s s' B d) d).
    Proof.
      intros K1 K2 HS HC HP HB d Hd Hz. cbn [wraps]. rewrite wrap_form; auto using wraps_keeps. apply pos_add; auto. apply wraps_nonneg; auto. apply residual_length.
    Qed.
    Lemma wraps_contr s s' B k : keeps n s -> keeps n B -> contr s -> contr s' -> contr B -> contr (wraps n A k s s' B).
    Proof.
      intros K1 K2 HC HC' HB. induction k as [|k IH]; cbn [wraps]; auto. intros d Hd. change (nneg (qf n A (comp n A (comp n A s (wraps n A k s s' B)) s') d)). rewrite !qf_comp by auto.
      apply nneg_add; [apply nneg_add; [apply HC; auto|apply IH, residual_length]|apply HC', residual_length].
    Qed.
    Lemma wraps_strict s s' B k : keeps n s -> keeps n B -> contr s -> strict s -> contr s' -> contr B -> strict (wraps n A (S k) s s' B).
    Proof.
      intros K1 K2 HC HP HC' HB d Hd Hz. cbn [wraps]. change (pos (qf n A (comp n A (comp n A s (wraps n A k s s' B)) s') d)). rewrite !qf_comp by auto.
      apply pos_add; [apply pos_add; auto|]; [apply wraps_contr|apply HC']; auto; apply residual_length.
    Qed.
    (** repeated corrections: T (k+1) = B, then T k; and T k, then B *)
    Definition T (B : vec R -> vec R) (k : nat) (r : vec R) : vec R := correct n A B k r (zerov n).
    Lemma T_keeps B k : keeps n (T B k). Proof. intros d _. apply correct_length, zerov_length. Qed.
    Lemma T_last B k r : T B (S k) r = comp n A (T B k) B r.
    Proof. unfold T. rewrite correct_last. reflexivity. Qed.
    Lemma T_first B k r : keeps n B -> length r = n -> T B (S k) r = comp n A B (T B k) r.
    Proof.
      intros KB Hr. unfold T, comp. cbn [correct]. rewrite (residual_0 n A r Hr). assert (H : length (B r) = n) by auto. rewrite (vadd_0_l n (B r)) by auto.
      rewrite <- (vadd_0_r n (B r)) at 1 by auto. apply correct_shift; auto. apply zerov_length.
    Qed.
    Lemma T_contr B k : keeps n B -> contr B -> contr (T B k).
    Proof.
      intros KB HB. induction k as [|k IH]; intros r Hr.
      - left. unfold qf, T. cbn [correct]. rewrite mul_0, !dot_0_l. ring.
      - replace (qf n A (T B (S k)) r) with (qf n A (comp n A (T B k) B) r) by (unfold qf; rewrite T_last; reflexivity). rewrite qf_comp by auto. apply nneg_add; auto. apply HB, residual_length.
    Qed.
    (** y = r - A B r, z = y - A T_k y *)
    Lemma T_two B k r : keeps n B -> length r = n -> let y := residual n A r (B r) in let z := residual n A y (T B k y) in
      T B (S (S k)) r = vadd n (vadd n (B r) (T B k y)) (B z).
    Proof.
      intros KB Hr. cbv zeta. rewrite T_first by auto. unfold comp. set (y := residual n A r (B r)). rewrite T_last. unfold comp. rewrite vadd_assoc. reflexivity.
    Qed.
    Lemma T_two_form B k r : keeps n B -> adjoint n B B -> length r = n -> let y := residual n A r (B r) in
      dot n (T B (S (S k)) r) r = qf n A B r + dot n (T B k y) y.
    Proof.
      intros KB HB Hr y. rewrite T_two by auto. fold y. set (t := T B k y). set (z := residual n A y t). assert (Hz : length z = n) by apply residual_length.
      assert (Hy : length y = n) by apply residual_length.
      rewrite !dot_vadd. rewrite (HB z r) by auto. unfold z. rewrite dot_residual. rewrite (dot_mul comm_ n A t) by auto. unfold qf.
      assert (E1 : dot n t (mul n A (B r)) = dot n t r - dot n t y) by (unfold y; rewrite dot_res_r; ring). rewrite E1.
      unfold y at 1. rewrite dot_residual, (dot_sym comm_ n r (B r)). ring.
    Qed.
    Lemma T_two_half B k r : keeps n B -> adjoint n B B -> length r = n -> let y := residual n A r (B r) in let z := residual n A y (T B k y) in
      dot n (T B (S (S k)) r) (residual n A r (T B (S (S k)) r)) = dot n (T B k y) z + qf n A B z.
    Proof.
      intros KB HB Hr y z. rewrite T_two by auto. fold y z. set (t := T B k y) in *. assert (Hz : length z = n) by apply residual_length. assert (Hy : length y = n) by apply residual_length.
      assert (ER : residual n A r (vadd n (vadd n (B r) t) (B z)) = residual n A z (B z)) by (rewrite !residual_add; reflexivity).
      rewrite ER. rewrite !dot_vadd, !dot_res_r. unfold qf. rewrite (dot_sym comm_ n (mul n A (B z)) (B z)).
      assert (E1 : dot n (B r) z - dot n (B r) (mul n A (B z)) = dot n (B z) y).
      { rewrite <- (dot_mul comm_ n A (B r)) by auto. rewrite (HB r z) by auto. unfold y. rewrite dot_res_r. rewrite (dot_sym comm_ n r), (dot_sym comm_ n (mul n A (B r))). reflexivity. }
      assert (E2 : dot n t (mul n A (B z)) = dot n (B z) y - dot n (B z) z).
      { rewrite <- (dot_mul comm_ n A t) by auto. unfold z at 4. rewrite dot_res_r, (dot_sym comm_ n (mul n A t)). ring. }
      rewrite E1, E2. ring.
    Qed.
    Lemma T_even B m : keeps n B -> adjoint n B B -> contr B -> nonneg (T B (2 * m)) /\ half (T B (2 * m)).
    Proof.
      intros KB HB HC. induction m as [|m [I1 I2]].
      - split; intros d Hd; left; unfold T; cbn [Nat.mul correct]; apply dot_0_l.
      - replace (2 * S m)%nat with (S (S (2 * m))) by lia. split; intros d Hd.
        + rewrite T_two_form by auto. apply nneg_add; auto. apply I1, residual_length.
        + rewrite T_two_half by auto. apply nneg_add; [apply I2|apply HC]; apply residual_length.
    Qed.
    Lemma T_odd B m : keeps n B -> adjoint n B B -> nonneg B -> forall d, length d = n -> nneg ((r1 + r1) * dot n (T B (S (2 * m)) d) d - dot n (B d) d).
    Proof.
      intros KB HB HN. induction m as [|m IH]; intros d Hd.
      - change (S (2 * 0)) with 1. replace (T B 1 d) with (B d); [|unfold T; cbn [correct]; rewrite residual_0 by auto; rewrite vadd_0_l by (apply KB; auto); reflexivity]. replace ((r1 + r1) * dot n (B d) d - dot n (B d) d) with (dot n (B d) d) by ring. apply HN; auto.
      - replace (S (2 * S m)) with (S (S (S (2 * m)))) by lia. rewrite T_two_form by auto. set (y := residual n A d (B d)). assert (Hy : length y = n) by apply residual_length.
        assert (Hs : length (vadd n d y) = n) by apply vadd_length.
        specialize (IH y Hy). pose proof (HN (vadd n d y) Hs) as HQ.
        assert (EL : dot n (B (vadd n d y)) (vadd n d y) = dot n (B d) d + (r1 + r1) * dot n (B d) y + dot n (B y) y).
        { rewrite (HB (vadd n d y)) by auto. rewrite dot_vadd. rewrite <- (HB d), <- (HB y) by auto. rewrite !dot_vadd_r. rewrite (HB y d) by auto. rewrite (dot_sym comm_ n y (B d)). ring. }
        assert (EQ : qf n A B d = dot n (B d) d + dot n (B d) y). { unfold qf, y. rewrite dot_res_r, (dot_sym comm_ n (mul n A (B d))). ring. }
        rewrite EQ. replace ((r1 + r1) * (dot n (B d) d + dot n (B d) y + dot n (T B (S (2 * m)) y) y) - dot n (B d) d) with (dot n (B (vadd n d y)) (vadd n d y) + ((r1 + r1) * dot n (T B (S (2 * m)) y) y - dot n (B y) y)) by (rewrite EL; ring).
        apply nneg_add; auto.
    Qed.
    Lemma T_odd_nonneg B m : keeps n B -> adjoint n B B -> nonneg B -> nonneg (T B (S (2 * m))).
    Proof.
      intros KB HB HN d Hd. apply (nneg_mul_inv (r1 + r1)); [apply pos_2|].
      replace ((r1 + r1) * dot n (T B (S (2 * m)) d) d) with (((r1 + r1) * dot n (T B (S (2 * m)) d) d - dot n (B d) d) + dot n (B d) d) by ring. apply nneg_add; [apply T_odd; auto|apply HN; auto].
    Qed.
    Lemma energy_step B x xs b : length x = n -> mul n A xs = b -> energy n A xs x - energy n A xs (vadd n x (B (residual n A b x))) = qf n A B (residual n A b x).
    Proof.
      intros Hx Hb. unfold energy. set (r := residual n A b x). set (c := B r). set (e := vecf n (fun i => vget x i - vget xs i)).
      assert (E1 : vecf n (fun i => vget (vadd n x c) i - vget xs i) = vadd n e c). { apply vecf_ext. intros i Hi. unfold e. rewrite vadd_get, vecf_get by auto. ring. }
      rewrite E1. cbv zeta. rewrite mul_vadd, !dot_vadd, !dot_vadd_r. unfold qf. fold c.
      assert (E2 : forall y, dot n (mul n A e) y = - dot n r y).
      { intros y. unfold r. rewrite dot_residual. rewrite <- Hb. unfold dot. rewrite <- sum_sub. rewrite <- sum_opp. apply sum_ext. intros i Hi. unfold mul. rewrite !vecf_get by auto. 
        rewrite (sum_ext n (fun j => den A i j * vget e j) (fun j => den A i j * vget x j - den A i j * vget xs j)), sum_sub by (intros j Hj; unfold e; rewrite vecf_get by auto; ncring). ring. }
      rewrite (dot_mul comm_ n A c e), (dot_sym comm_ n c (mul n A e)) by auto. rewrite !E2. rewrite (dot_sym comm_ n r c). ring.
    Qed.
    Lemma strict_reduces B : strict B -> reduces pos n A B.
    Proof. intros H x xs b Hx Hxs Hb E Hr. unfold lt_. rewrite energy_step by auto. apply H; auto. apply residual_length. Qed.
  End Forms.

  (** ** The hierarchy *)
  Lemma adjoint_0 n (F G : vec R -> vec R) : keeps n F -> adjoint n F G -> F (zerov n) = zerov n.
  Proof.
    intros K H. apply (dot_ext n); [apply K, zerov_length|apply zerov_length|]. intros e He. rewrite H by (auto; apply zerov_length). rewrite !dot_0_l. reflexivity.
  Qed.
  Lemma adjoint_contr n A (F G : vec R -> vec R) : keeps n F -> adjoint n F G -> strict n A F -> contr n A F.
  Proof. intros K H S. apply strict_contr; auto. intros d ->. apply (adjoint_0 n F G); auto. Qed.
  Lemma spd_nneg n A x : spd pos n A -> length x = n -> nneg (dot n (mul n A x) x).
  Proof.
    intros [_ H] Hx. destruct (vec_dec n x Hx) as [->|(i & Hi & E)]; [left; rewrite mul_0; apply dot_0_l|]. right. apply H; auto. intros ->. apply E, zerov_get; auto.
  Qed.
  Definition unit (n i : nat) : vec R := vecf n (fun j => if j =? i then r1 else r0).
  Lemma spd_diag n A i : spd pos n A -> i < n -> pos (den A i i).
  Proof.
    intros [_ H] Hi. specialize (H (unit n i) (vecf_length n _)).
    assert (E : dot n (mul n A (unit n i)) (unit n i) = den A i i).
    { assert (U : forall j, j < n -> vget (unit n i) j = if j =? i then r1 else r0) by (intros j Hj; unfold unit; rewrite vecf_get by auto; reflexivity).
      unfold dot. rewrite (sum_single n i); [|exact Hi|].
      2:{ intros j Hj Hn. rewrite U by auto. destruct (Nat.eqb_spec j i); [congruence|]. ring. }
      unfold mul. rewrite vecf_get by auto. rewrite (sum_single n i); [|exact Hi|].
      2:{ intros j Hj Hn. rewrite U by auto. destruct (Nat.eqb_spec j i); [congruence|]. ring. }
      rewrite !U, Nat.eqb_refl by auto. ring. }
    rewrite <- E. apply H. intros EZ. apply (pos_neq _ (ord_one _ _ HO)). transitivity (vget (unit n i) i); [unfold unit; rewrite vecf_get, Nat.eqb_refl; auto|rewrite EZ; apply zerov_get; auto].
  Qed.
  Lemma gal_form (A : smat R) agg B damp c c' : galerkin_product A agg B -> let n := length A in let K := length B in
    dot n (mul n A (Pro damp agg n K c)) (Pro damp agg n K c') = damp * damp * dot K (mul K B c) c'.
  Proof.
    intros (_ & _ & _ & _ & HD) n K. rewrite (dot_sym comm_), (dot_Pro comm_). rewrite (dot_sym comm_ K c').
    transitivity (dot K (mul K B c) c' * damp * damp); [|ring]. f_equal. unfold dot. rewrite <- sum_mul_r. apply sum_ext. intros k Hk.
    transitivity (vget (mul K B c) k * damp * vget c' k); [|ring]. f_equal. unfold Rst, mul. rewrite !vecf_get by auto.
    rewrite (sum_ext K _ (fun k' => sum n (fun i => prol agg i k * sum n (fun j => den A i j * (prol agg j k' * vget c k'))))).
    2:{ intros k' Hk'. rewrite HD. fold n. rewrite <- sum_mul_r. apply sum_ext. intros i Hi. rewrite <- sum_mul_l, <- sum_mul_r. apply sum_ext. intros j Hj. ring. }
    rewrite sum_swap, <- sum_mul_r. apply sum_ext. intros i Hi. rewrite vecf_get by auto.
    rewrite sum_mul_l. transitivity (prol agg i k * (sum K (fun k' => sum n (fun j => den A i j * (prol agg j k' * vget c k'))) * damp)); [|ring]. f_equal.
    rewrite sum_swap, <- sum_mul_r. apply sum_ext. intros j Hj. unfold Pro. rewrite vecf_get by auto. rewrite <- sum_mul_l, <- sum_mul_r. apply sum_ext. intros k' Hk'. ring.
  Qed.
  (** The Galerkin product of a symmetric positive definite matrix is symmetric positive definite if no aggregate is empty *)
  Lemma gal_spd (A : smat R) agg B : galerkin_product A agg B -> (forall k, k < length B -> exists i, i < length A /\ agg i = Agg k) -> spd pos (length A) A -> spd pos (length B) B.
  Proof.
    intros HG HC HA. split; [apply (galerkin_sym A agg B HG), HA|]. intros y Hy Hz. set (K := length B) in *. set (n := length A) in *.
    pose proof (gal_form A agg B r1 y y HG) as E. cbv zeta in E. fold n K in E. replace (dot K (mul K B y) y) with (r1 * r1 * dot K (mul K B y) y) by ring. rewrite <- E. apply HA; [apply vecf_length|].
    destruct (vec_dec K y Hy) as [E0|(k & Hk & Ek)]; [congruence|]. destruct (HC k Hk) as (i & Hi & Ei). fold n in Hi. intros EP. apply Ek. rewrite <- (zerov_get (R := R) n i Hi), <- EP. unfold Pro. rewrite vecf_get by auto.
    symmetry. rewrite (sum_single K k); auto; [unfold prol; rewrite Ei, Nat.eqb_refl; ring|]. intros k' Hk' Hn. unfold prol. rewrite Ei. destruct (Nat.eqb_spec k k'); [congruence|ring].
  Qed.
  Lemma hierarchy_spd (ls : list (@mlevel R)) C : hierarchy_of ls C -> covers ls C -> mat_wf (length (next ls C)) (length (next ls C)) (next ls C) -> spd pos (length (next ls C)) (next ls C) ->
    Forall (fun A => mat_wf (length A) (length A) A /\ spd pos (length A) A) (map fst ls ++ [C]).
  Proof.
    induction ls as [|[A agg] ls IH]; intros HH HC HW HA; cbn [map app next fst] in *; [constructor; [auto|constructor]|].
    cbn [hierarchy_of covers] in HH, HC. destruct HH as [HG HH], HC as [HC1 HC]. constructor; [auto|]. apply IH; auto; [apply HG|]. apply (gal_spd A agg); auto.
  Qed.
  (** the coarse grid correction *)
  Section Correction.
    Variables (A B : smat R) (agg : nat -> aggd) (damp : R) (F : vec R -> vec R).
    Let n := length A.
    Let K := length B.
    Hypothesis HG : galerkin_product A agg B.
    Hypothesis HB : spd pos K B.
    Hypothesis KF : keeps K F.
    Hypothesis Hd : nneg damp.
    Let G (r : vec R) : vec R := Pro damp agg n K (F (Rst agg n K r)).
    Lemma corr_dot r : dot n (G r) r = damp * dot K (F (Rst agg n K r)) (Rst agg n K r).
    Proof. unfold G. rewrite (dot_Pro comm_). ring. Qed.
    Lemma corr_nonneg : nonneg K F -> nonneg n G.
    Proof. intros H r Hr. rewrite corr_dot. apply nneg_mul; auto. apply H, vecf_length. Qed.
    Lemma corr_qf r : let rc := Rst agg n K r in qf n A G r = damp * ((r1 + r1) * dot K (F rc) rc - damp * dot K (mul K B (F rc)) (F rc)).
    Proof. cbv zeta. unfold qf. rewrite corr_dot. unfold G. pose proof (gal_form A agg B damp (F (Rst agg n K r)) (F (Rst agg n K r)) HG) as E. cbv zeta in E. fold n K in E. rewrite E. ring. Qed.
    Lemma corr_contr1 : nneg (r1 - damp) -> contr K B F -> contr n A G.
    Proof.
      intros H1 H r Hr. rewrite corr_qf. set (rc := Rst agg n K r). assert (Hrc : length rc = K) by apply vecf_length. apply nneg_mul; auto.
      replace ((r1 + r1) * dot K (F rc) rc - damp * dot K (mul K B (F rc)) (F rc)) with (qf K B F rc + (r1 - damp) * dot K (mul K B (F rc)) (F rc)) by (unfold qf; ring).
      apply nneg_add; [apply H; auto|]. apply nneg_mul; auto. apply spd_nneg; auto.
    Qed.
    Lemma corr_contr2 : nneg (r1 + r1 - damp) -> nonneg K F -> half K B F -> contr n A G.
    Proof.
      intros H2 HN H r Hr. rewrite corr_qf. set (rc := Rst agg n K r). assert (Hrc : length rc = K) by apply vecf_length. apply nneg_mul; auto.
      replace ((r1 + r1) * dot K (F rc) rc - damp * dot K (mul K B (F rc)) (F rc)) with (damp * dot K (F rc) (residual K B rc (F rc)) + (r1 + r1 - damp) * dot K (F rc) rc)
        by (rewrite dot_res_r, (dot_sym comm_ K (F rc) (mul K B (F rc))); ring).
      apply nneg_add; apply nneg_mul; auto.
    Qed.
  End Correction.

  (** smoothers fit for every symmetric positive definite matrix: keep sizes, the postsmoother is the adjoint of the presmoother, both reduce the energy *)
  Definition fit (pre post : smat R -> vec R -> vec R -> vec R) : Prop :=
    forall B, let n := length B in mat_wf n n B -> spd pos n B ->
      (forall x d, length x = n -> length d = n -> length (pre B x d) = n) /\ (forall x d, length x = n -> length d = n -> length (post B x d) = n) /\
      adjoint n (pre B (zerov n)) (post B (zerov n)) /\ strict n B (pre B (zerov n)) /\ strict n B (post B (zerov n)).
  (** a coarse solver that solves C x = b *)
  Definition exact (C : smat R) (solve : vec R -> vec R -> vec R * vec R * bool) : Prop :=
    let n := length C in (forall u b, snd (solve u b) = true) /\ forall u b, length u = n -> length b = n ->
      length (fst (fst (solve u b))) = n /\ length (snd (fst (solve u b))) = n /\ mul n C (fst (fst (solve u b))) = b.

  Section Cycle.
    Variables (pre post : smat R -> vec R -> vec R -> vec R).
    Hypothesis HF : fit pre post.
    Variable C : smat R.
    Variable solve : vec R -> vec R -> vec R * vec R * bool.
    Hypothesis HE : exact C solve.
    Variables (damp : R) (steps gamma : nat).
    Hypothesis Hd : nneg damp.
    Let cyc (ls : list (@mlevel R)) : vec R -> vec R := cycle solve damp steps steps gamma (length C) (coarsen_smoother pre post ls).
    (** conditions under which the cycle is positive and under which it contracts *)
    Definition cond_pos : Prop := Nat.Odd gamma \/ le_ pos damp (r1 + r1).
    Definition cond_contr : Prop := Nat.Even gamma /\ le_ pos damp (r1 + r1) \/ le_ pos damp r1.
    Lemma solve_forms : spd pos (length C) C -> let S := fun b => fst (fst (solve (zerov (length C)) b)) in let n := length C in
      keeps n S /\ adjoint n S S /\ nonneg n S /\ half n C S /\ contr n C S /\ (forall d, length d = n -> d <> zerov n -> pos (dot n (S d) d)) /\ strict n C S.
    Proof.
      intros HC S n. assert (HS : forall b, length b = n -> length (S b) = n /\ mul n C (S b) = b) by (intros b Hb; destruct (proj2 HE (zerov n) b (zerov_length n) Hb) as (H1 & _ & H2); auto).
      assert (D : forall b, length b = n -> dot n (S b) b = dot n (mul n C (S b)) (S b)) by (intros b Hb; destruct (HS b Hb) as [_ E]; rewrite E; apply (dot_sym comm_)).
      assert (P : forall b, length b = n -> b <> zerov n -> pos (dot n (S b) b)).
      { intros b Hb Hz. rewrite D by auto. apply HC; [apply HS; auto|]. intros E. apply Hz. destruct (HS b Hb) as [_ E2]. rewrite E, mul_0 in E2. auto. }
      assert (NN : nonneg n S) by (intros b Hb; rewrite D by auto; apply spd_nneg; auto; apply HS; auto).
      assert (Q : forall b, length b = n -> qf n C S b = dot n (S b) b) by (intros b Hb; unfold qf; rewrite <- D by auto; ring).
      repeat split.
      - intros b Hb. apply HS; auto.
      - intros b e Hb He. destruct (HS b Hb) as [_ E1]. destruct (HS e He) as [_ E2]. rewrite <- E2 at 1. rewrite <- (dot_mul comm_) by apply HC. rewrite E1. reflexivity.
      - exact NN.
      - intros b Hb. left. destruct (HS b Hb) as [H1 E1]. rewrite dot_res_r, E1. ring.
      - intros b Hb. rewrite Q by auto. auto.
      - exact P.
      - intros b Hb Hz. rewrite Q by auto. auto.
    Qed.
    Lemma cycle_forms ls : hierarchy_of ls C -> covers ls C -> let A := next ls C in let n := length A in
      mat_wf n n A -> spd pos n A -> cond_pos ->
      keeps n (cyc ls) /\ adjoint n (cyc ls) (cyc ls) /\ nonneg n (cyc ls) /\ (cond_contr -> contr n A (cyc ls)) /\
      (1 <= steps \/ ls = [] -> (forall d, length d = n -> d <> zerov n -> pos (dot n (cyc ls d) d)) /\ (cond_contr -> strict n A (cyc ls))).
    Proof.
      induction ls as [|[A agg] ls IH]; intros HH HC A0 n HW HA CP; unfold n, A0 in *; clear n A0; cbn [next fst] in *.
      - destruct (solve_forms HA) as (S1 & S2 & S3 & S4 & S5 & S6 & S7). auto 10.
      - cbn [hierarchy_of covers] in HH, HC. destruct HH as [HG HH], HC as [HC1 HC]. set (B := next ls C) in *. set (n := length A) in *. set (K := length B).
        assert (HB : spd pos K B) by (apply (gal_spd A agg); auto). assert (WB : mat_wf K K B) by apply HG.
        destruct (IH HH HC WB HB CP) as (KB & AB & NB & CB & _). fold B K in KB, AB, NB, CB. clear IH.
        destruct (HF A HW HA) as (P1 & P2 & AD & ST1 & ST2). fold n in P1, P2, AD, ST1, ST2.
        set (s := pre A (zerov n)) in *. set (s' := post A (zerov n)) in *.
        assert (Ks : keeps n s) by (intros d Hd'; apply P1; auto; apply zerov_length). assert (Ks' : keeps n s') by (intros d Hd'; apply P2; auto; apply zerov_length).
        assert (AD' : adjoint n s' s) by (intros a b Ha Hb; rewrite (dot_sym comm_), <- AD, (dot_sym comm_) by auto; reflexivity).
        assert (Cs : contr n A s) by (apply (adjoint_contr n A s s'); auto). assert (Cs' : contr n A s') by (apply (adjoint_contr n A s' s); auto).
        set (F := fun r => match ls with nil => match gamma with 0 => zerov K | _ => cyc ls r end | _ => T K B (cyc ls) gamma r end).
        assert (FF : keeps K F /\ adjoint K F F /\ nonneg K F /\ (Nat.Even gamma -> le_ pos damp (r1 + r1) -> half K B F) /\ (cond_contr -> contr K B F)).
        { set (z := fun _ : vec R => @zerov R K).
          assert (Z : keeps K z /\ adjoint K z z /\ nonneg K z /\ half K B z /\ contr K B z).
          { unfold z. split; [intros a _; apply zerov_length|]. split; [intros a b _ _; rewrite (dot_sym comm_ K a), !dot_0_l; reflexivity|]. split; [intros a _; left; apply dot_0_l|]. split; [intros a _; left; apply dot_0_l|].
            intros a _. left. unfold qf. rewrite mul_0, !dot_0_l. ring. }
          unfold F. destruct ls as [|l1 ls1].
          - destruct gamma; [destruct Z as (Z1 & Z2 & Z3 & Z4 & Z5); auto 10|]. destruct (solve_forms HB) as (S1 & S2 & S3 & S4 & S5 & _). auto 10.
          - split; [apply T_keeps|]. split; [apply (correct_adjoint comm_); auto; apply HB|].
            assert (EV : Nat.Even gamma -> le_ pos damp (r1 + r1) -> nonneg K (T K B (cyc (l1 :: ls1)) gamma) /\ half K B (T K B (cyc (l1 :: ls1)) gamma)).
            { intros [m ->] H2. apply T_even; auto; [apply HB|]. apply CB. left. split; [exists m; auto|auto]. }
            split; [|split; [intros E H2; apply EV; auto|intros H2; apply T_contr; auto; apply HB]].
            destruct (Nat.Even_or_Odd gamma) as [E|[m E]].
            + destruct CP as [O|H2]; [exfalso; destruct E as [a E], O as [b O]; lia|]. apply EV; auto.
            + rewrite E. replace (2 * m + 1)%nat with (S (2 * m)) by lia. apply T_odd_nonneg; auto. apply HB. }
        destruct FF as (KF & AF & NF & HFa & CF).
        set (G := fun r => Pro damp agg n K (F (Rst agg n K r))).
        assert (KG : keeps n G) by (intros a _; apply vecf_length).
        assert (AG : adjoint n G G). { intros a b Ha Hb. unfold G. rewrite (dot_Pro comm_), (dot_sym comm_ n a), (dot_Pro comm_). f_equal. rewrite AF by apply vecf_length. apply (dot_sym comm_). }
        assert (NG : nonneg n G) by (apply (corr_nonneg A B agg damp F); auto).
        assert (CG : cond_contr -> contr n A G).
        { intros [[E H2]|H1]; [apply (corr_contr2 A B agg damp F HG); auto|apply (corr_contr1 A B agg damp F HG HB KF); auto]. apply CF. right. auto. }
        assert (EC : forall d, length d = n -> cyc ((A, agg) :: ls) d = wraps n A steps s s' G d).
        { intros d Hd'. unfold s, s'. rewrite <- cycle_wraps; auto.
          unfold cyc. cbn [coarsen_smoother map cycle l_A l_pre l_post l_agg fst snd]. cbv zeta. fold n. fold (coarsen_smoother pre post ls). rewrite next_dim. fold B K. 
          unfold G, F, T, cyc. destruct ls as [|[A1 agg1] ls1]; reflexivity. }
        assert (WK : keeps n (wraps n A steps s s' G)) by (apply wraps_keeps; auto).
        split; [intros d Hd'; rewrite EC; auto|]. split; [intros d e Hd' He; rewrite !EC by auto; apply (wraps_adjoint comm_ n A); auto; apply HA|].
        split; [intros d Hd'; rewrite EC by auto; apply wraps_nonneg; auto; apply HA|].
        assert (QE : forall d, length d = n -> qf n A (cyc ((A, agg) :: ls)) d = qf n A (wraps n A steps s s' G) d) by (intros d Hd'; unfold qf; rewrite EC by auto; reflexivity).
        split; [intros H d Hd'; rewrite QE by auto; apply wraps_contr; auto; apply HA|].
        intros [H1|H1]; [|discriminate]. destruct steps as [|k]; [lia|]. split.
        + intros d Hd' Hz. rewrite EC by auto. apply wraps_pos; auto. apply HA.
        + intros H d Hd' Hz. rewrite QE by auto. apply wraps_strict; auto. apply HA.
    Qed.
  End Cycle.
End Order.

(** ** SeqSOR and SeqSSOR *)
Section Smoothers.
  Context {R : ring} (pos : R -> Prop).
  Hypothesis HO : ordered R pos.
  Local Open Scope ring_scope_istl.
  Variable inv : R -> option R.
  Hypothesis inv_ok : forall a b, inv a = Some b -> a * b = r1 /\ b * a = r1.
  Hypothesis inv_pos : forall a, pos a -> exists u, inv a = Some u.
  Add Ring oring2 : (oring_theory pos HO).
  (** the result of an apply that does not fail *)
  Definition run (f : smat R -> vec R -> vec R -> outcome (vec R)) (B : smat R) (x d : vec R) : vec R := match f B x d with Ok v => v | _ => x end.
  (** SmootherApplier<SeqSOR>, smoother.hh:444-461: forward before, backward after the coarse correction; SmootherApplier<T>, :370-398, for SeqSSOR *)
  Inductive smoother := UseSOR | UseSSOR.
  Definition preSmooth (s : smoother) (k : nat) (w : R) (B : smat R) (x d : vec R) : outcome (vec R) := match s with UseSOR => seqsor_apply inv true k B w x d | UseSSOR => seqssor_apply inv k B w x d end.
  Definition postSmooth (s : smoother) (k : nat) (w : R) (B : smat R) (x d : vec R) : outcome (vec R) := match s with UseSOR => seqsor_apply inv false k B w x d | UseSSOR => seqssor_apply inv k B w x d end.

  Lemma zeros_zerov n : @zeros R n = zerov n.
  Proof. apply vecf_eq; [apply repeat_length|]. intros i Hi. apply vget_zeros. Qed.
  Lemma spd_stored n A : spd pos n A -> diag_stored n A.
  Proof.
    intros HA i Hi. unfold instored. destruct (in_dec Nat.eq_dec i (map fst (nth i A nil))) as [H|H]; [exact H|]. exfalso. apply (pos_neq pos HO (den A i i)); [apply (spd_diag pos HO n); auto|].
    unfold den. apply denrow_notin. exact H.
  Qed.
  Lemma spd_invertible n A : spd pos n A -> diag_invertible inv n A.
  Proof. intros HA i Hi. apply inv_pos. apply (spd_diag pos HO n); auto. Qed.
  Lemma central_all (w : R) : central w.
  Proof. intros a. apply HO. Qed.
  Lemma qf_gain n (A : smat R) S d : qf n A S d = gain n A (vget d) (vget (S d)).
  Proof.
    unfold qf, gain, dot, inner, idst. f_equal. apply sum_ext. intros i Hi. unfold mul. rewrite vecf_get by auto. reflexivity.
  Qed.
  Section Sweeps.
    Variables (n : nat) (A : smat R) (w : R) (ks : list sweep).
    Hypothesis HW : mat_wf n n A.
    Hypothesis HA : spd pos n A.
    Hypothesis Hw : pos w.
    Hypothesis Hw2 : pos (r1 + r1 - w).
    Hypothesis HK : Forall is_sor ks.
    Hypothesis HN : ks <> nil.
    Let S (d : vec R) : vec R := run (fun B => sweeps inv ks B w) A (zerov n) d.
    Lemma sweeps_run x d : length x = n -> length d = n -> exists v, sweeps inv ks A w x d = Ok v /\ length v = n /\ Adjoint.steps n (den A) (vget d) (map (sweep_scheme n A w) ks) (vget x) (vget v).
    Proof.
      intros Hx Hd. destruct (sweeps_steps inv inv_ok n A w d (central_all w) HW (spd_stored n A HA) (spd_invertible n A HA) Hd ks x Hx) as (v & E & L & H). exists v. auto.
    Qed.
    Lemma sweeps_keeps : keeps n S.
    Proof. intros d Hd. unfold S, run. destruct (sweeps_run (zerov n) d (zerov_length n) Hd) as (v & E & L & _). rewrite E. exact L. Qed.
    Lemma sweeps_strict : strict pos n A S.
    Proof.
      intros d Hd Hz. rewrite qf_gain. unfold S, run. destruct (sweeps_run (zerov n) d (zerov_length n) Hd) as (v & E & L & H). rewrite E.
      destruct (vec_dec pos HO n d Hd) as [E0|(i & Hi & Ei)]; [congruence|]. destruct ks as [|k ks'] eqn:EK; [congruence|].
      assert (Z : forall j, j < n -> vget (@zerov R n) j = r0) by (intros; apply zerov_get; auto).
      assert (Z1 : forall M j, dense_mv n M (vget (@zerov R n)) j = r0) by (intros M j; apply sum_zero; intros a Ha; rewrite Z by auto; ring).
      pose proof (steps_gain_pos pos HO n A w (proj1 HA) (fun j Hj => spd_diag pos HO n A j HA Hj) Hw Hw2 (vget d) k ks' (vget (zerov n)) (vget v) i HK Hi) as G.
      assert (G0 : gain n A (vget d) (vget (zerov n)) = r0).
      { unfold gain, inner, idst. rewrite (sum_zero n (fun i => vget (zerov n) i * vget d i)) by (intros; rewrite Z by auto; ring). rewrite sum_zero by (intros; rewrite Z by auto; ring). ring. }
      rewrite G0 in G. replace (gain n A (vget d) (vget v)) with (gain n A (vget d) (vget v) - r0) by ring. apply G; auto. unfold res. rewrite Z1. intros EE. apply Ei. rewrite <- EE. ring.
    Qed.
    Lemma sweeps_adj : adjoint n S (fun d => run (fun B => sweeps inv (rev (map flip ks)) B w) A (zerov n) d).
    Proof.
      intros d e Hd He. assert (RW : forall a b : R, w * a = w * b -> a = b).
      { intros a b E. apply (rsub_eq0). apply (mul_cancel pos HO w); [apply (pos_neq pos HO); auto|]. transitivity (w * a - w * b); [ring|]. rewrite E. ring. }
      assert (HH : hermitian idst n (den A)) by (intros i j Hi Hj; apply HA; auto).
      destruct (sweeps_adjoint inv inv_ok idst (idst_inv pos HO) ks n A w (central_all w) eq_refl RW HW (spd_stored n A HA) (spd_invertible n A HA) HH d e Hd He) as (x & y & E1 & E2 & _ & _ & E).
      unfold S, run. rewrite zeros_zerov in E1, E2. rewrite E1, E2. exact E.
    Qed.
  End Sweeps.
  (** the sweeps of the smoothers *)
  Definition ks_pre (s : smoother) (k : nat) : list sweep := match s with UseSOR => repeat SorF k | UseSSOR => concat (repeat [SorF; SorB] k) end.
  Definition ks_post (s : smoother) (k : nat) : list sweep := match s with UseSOR => repeat SorB k | UseSSOR => concat (repeat [SorF; SorB] k) end.
  Lemma ks_adj s k : rev (map flip (ks_pre s k)) = ks_post s k.
  Proof.
    destruct s; cbn [ks_pre ks_post]; [rewrite Adjoint.map_repeat, rev_repeat; reflexivity|]. rewrite concat_map, Adjoint.map_repeat. cbn [map flip]. rewrite rev_concat_repeat. reflexivity.
  Qed.
  Lemma ks_sor s k : Forall is_sor (ks_pre s k) /\ Forall is_sor (ks_post s k) /\ (1 <= k -> ks_pre s k <> nil /\ ks_post s k <> nil).
  Proof.
    assert (F1 : forall a m, is_sor a -> Forall is_sor (repeat a m)) by (intros a m H; induction m; cbn; constructor; auto).
    assert (F2 : forall m, Forall is_sor (concat (repeat [SorF; SorB] m))) by (induction m; cbn; repeat constructor; auto).
    destruct s; cbn [ks_pre ks_post]; repeat split; auto; try (apply F1; constructor; auto; fail); try (apply F1; right; reflexivity); destruct k; cbn; try lia; discriminate.
  Qed.
  Lemma smoothers_fit s k w : pos w -> pos (r1 + r1 - w) -> 1 <= k -> fit pos (run (preSmooth s k w)) (run (postSmooth s k w)).
  Proof.
    intros Hw Hw2 Hk B n HW HA. destruct (ks_sor s k) as (F1 & F2 & F3). destruct (F3 Hk) as [N1 N2].
    assert (E1 : forall x d, run (preSmooth s k w) B x d = run (fun B => sweeps inv (ks_pre s k) B w) B x d) by (intros; destruct s; reflexivity).
    assert (E2 : forall x d, run (postSmooth s k w) B x d = run (fun B => sweeps inv (ks_post s k) B w) B x d) by (intros; destruct s; reflexivity).
    split; [|split; [|split; [|split]]].
    - intros x d Hx Hd. rewrite E1. unfold run. destruct (sweeps_run n B w (ks_pre s k) HW HA x d Hx Hd) as (v & E & L & _). rewrite E. exact L.
    - intros x d Hx Hd. rewrite E2. unfold run. destruct (sweeps_run n B w (ks_post s k) HW HA x d Hx Hd) as (v & E & L & _). rewrite E. exact L.
    - intros d e Hd He. rewrite E1, E2. rewrite <- ks_adj. apply sweeps_adj; auto.
    - intros d Hd Hz. unfold qf. rewrite E1. apply (sweeps_strict n B w (ks_pre s k)); auto.
    - intros d Hd Hz. unfold qf. rewrite E2. apply (sweeps_strict n B w (ks_post s k)); auto.
  Qed.
  Lemma smoothers_run s k w n B x d : mat_wf n n B -> spd pos n B -> length x = n -> length d = n ->
    (exists v, preSmooth s k w B x d = Ok v /\ length v = n) /\ (exists v, postSmooth s k w B x d = Ok v /\ length v = n).
  Proof.
    intros HW HA Hx Hd. split.
    - destruct (sweeps_run n B w (ks_pre s k) HW HA x d Hx Hd) as (v & E & L & _). exists v. destruct s; auto.
    - destruct (sweeps_run n B w (ks_post s k) HW HA x d Hx Hd) as (v & E & L & _). exists v. destruct s; auto.
  Qed.

  (** C71.  For a symmetric positive definite matrix, 0 < w < 2 and at least one sweep, SeqSSOR and SeqSOR (forward and backward) do not fail; applied to the
      residual (from v = 0) each of them reduces the energy norm of the error; SeqSSOR is a symmetric positive definite map. *)
  Theorem C71_sweeps n A k w : mat_wf n n A -> spd pos n A -> lt_ pos r0 w -> lt_ pos w (r1 + r1) -> 1 <= k ->
    exists F B SS, (forall d, length d = n -> seqsor_apply inv true k A w (zerov n) d = Ok (F d) /\ seqsor_apply inv false k A w (zerov n) d = Ok (B d) /\ seqssor_apply inv k A w (zerov n) d = Ok (SS d)) /\
      keeps n F /\ keeps n B /\ reduces pos n A F /\ reduces pos n A B /\ reduces pos n A SS /\ adjoint n F B /\ spd_map pos n SS.
  Proof.
    intros HW HA Hw Hw2 Hk. assert (HL : length A = n) by apply HW. unfold lt_ in Hw. replace (w - r0) with w in Hw by ring.
    pose proof (smoothers_fit UseSOR k w Hw Hw2 Hk A) as S1. cbv zeta in S1. rewrite HL in S1. destruct (S1 HW HA) as (P1 & P2 & AD & ST1 & ST2).
    pose proof (smoothers_fit UseSSOR k w Hw Hw2 Hk A) as S2. cbv zeta in S2. rewrite HL in S2. destruct (S2 HW HA) as (Q1 & Q2 & AD2 & ST3 & ST4).
    exists (run (preSmooth UseSOR k w) A (zerov n)), (run (postSmooth UseSOR k w) A (zerov n)), (run (preSmooth UseSSOR k w) A (zerov n)).
    split.
    { intros d Hd. destruct (smoothers_run UseSOR k w n A (zerov n) d HW HA (zerov_length n) Hd) as [(v1 & E1 & _) (v2 & E2 & _)]. destruct (smoothers_run UseSSOR k w n A (zerov n) d HW HA (zerov_length n) Hd) as [(v3 & E3 & _) _].
      unfold run. rewrite E1, E2, E3. cbn [preSmooth postSmooth] in *. auto. }
    split; [intros d Hd; apply P1; auto; apply zerov_length|]. split; [intros d Hd; apply P2; auto; apply zerov_length|].
    split; [apply (strict_reduces pos HO); auto; apply HA|]. split; [apply (strict_reduces pos HO); auto; apply HA|]. split; [apply (strict_reduces pos HO); auto; apply HA|].
    split; [exact AD|]. split; [intros d Hd; apply Q1; auto; apply zerov_length|]. split; [exact AD2|].
    intros d Hd Hz. set (SS := run (preSmooth UseSSOR k w) A (zerov n)) in *. specialize (ST3 d Hd Hz). unfold qf in ST3.
    apply (pos_mul_inv pos HO (r1 + r1)); [apply (pos_2 pos HO)|].
    replace ((r1 + r1) * dot n (SS d) d) with (((r1 + r1) * dot n (SS d) d - dot n (mul n A (SS d)) (SS d)) + dot n (mul n A (SS d)) (SS d)) by ring.
    apply (pos_add pos HO); auto. apply (spd_nneg pos HO); auto. apply Q1; auto. apply zerov_length.
  Qed.

  (** C71.  AMG with SOR or SSOR smoothing set up for a symmetric positive definite matrix: all matrices of the hierarchy are symmetric positive definite, no
      smoother fails, and with an exact coarse solver AMG::apply is a symmetric positive definite map: for odd gamma (the V cycle, the default) with every
      damping factor, otherwise for damping factors up to 2.  It reduces the energy norm of the error if the damping factor is at most 1, or at most 2 and
      gamma is even. *)
  Theorem C71_amg depends influences isolated excludedBorder mn mx maxDist maxConn skip D quot dm1 deq dgt maxLevel target rate (s : smoother) k w damp steps gamma (A : smat R) : let n := length A in
    mn <= mx -> 1 <= mx -> mat_wf n n A -> sym_pat A -> spd pos n A ->
    lt_ pos r0 w -> lt_ pos w (r1 + r1) -> 1 <= k -> 1 <= steps -> le_ pos r0 damp -> Nat.Odd gamma \/ le_ pos damp (r1 + r1) ->
    exists ls C, build depends influences isolated excludedBorder mn mx maxDist maxConn skip D quot dm1 deq dgt maxLevel target rate A = Ok (Some (ls, C)) /\ next ls C = A /\
      Forall (fun B => spd pos (length B) B /\ forall x d, length x = length B -> length d = length B ->
                (exists v, preSmooth s k w B x d = Ok v /\ length v = length B) /\ (exists v, postSmooth s k w B x d = Ok v /\ length v = length B)) (map fst ls ++ [C]) /\
      forall solve, exact C solve ->
      exists P, spd_map pos n P /\ (Nat.Even gamma /\ le_ pos damp (r1 + r1) \/ le_ pos damp r1 -> reduces pos n A P) /\
        let L := coarsen_smoother (run (preSmooth s k w)) (run (postSmooth s k w)) ls in
        forall st v d, shape (length C) L st -> length v = n -> length d = n ->
          exists st', amg_apply solve damp steps steps gamma L st true v d = Ok (P d, st', true) /\ shape (length C) L st'.
  Proof.
    intros n Hm H1 HW HP HA Hw Hw2 Hk Hs Hd HG. unfold lt_ in Hw. replace (w - r0) with w in Hw by ring. unfold le_ in Hd. replace (damp - r0) with damp in Hd by ring.
    pose proof (smoothers_fit s k w Hw Hw2 Hk) as HF.
    destruct (build_loop_ok depends influences isolated excludedBorder mn mx maxDist maxConn skip D quot dm1 deq dgt maxLevel target rate Hm H1 maxLevel 0 A eq_refl HW HP)
      as (ls & C & E & N & L & H & _ & _ & WC & _ & CV).
    exists ls, C. split; [exact E|]. split; [exact N|].
    assert (HS : Forall (fun A => mat_wf (length A) (length A) A /\ spd pos (length A) A) (map fst ls ++ [C])) by (apply (hierarchy_spd pos HO ls C H CV); rewrite N; auto).
    split. { eapply Forall_impl; [|exact HS]. cbv beta. intros B [WB SB]. split; [exact SB|]. intros x d Hx Hd'. apply smoothers_run; auto. }
    intros solve HE.
    pose proof (cycle_forms pos HO (run (preSmooth s k w)) (run (postSmooth s k w)) HF C solve HE damp steps gamma Hd ls H CV) as Q. cbv zeta in Q. rewrite N in Q. fold n in Q.
    destruct (Q HW HA HG) as (K1 & K2 & _ & _ & K3). destruct (K3 (or_introl Hs)) as [K4 K5]. clear Q K3.
    exists (cycle solve damp steps steps gamma (length C) (coarsen_smoother (run (preSmooth s k w)) (run (postSmooth s k w)) ls)).
    split; [split; [exact K1|split; [exact K2|exact K4]]|]. split; [intros Hc; apply (strict_reduces pos HO); [apply HA|apply K5; exact Hc]|].
    cbv zeta. intros st v d SH Hv Hd'. apply C36_amg; auto.
    - intros u b Hu Hb. destruct (proj2 HE u b Hu Hb) as (X1 & X2 & _). auto.
    - exact (proj1 HE).
    - clear - H HS HF. induction ls as [|[B agg] ls IH]; cbn [coarsen_smoother map hier_ok]; [exact I|].
      cbn [map app fst hierarchy_of] in HS, H. apply Forall_cons_iff in HS. destruct HS as [[WB SB] HS], H as [(_ & _ & AO & _) H]. split; [|apply IH; auto].
      fold (coarsen_smoother (run (preSmooth s k w)) (run (postSmooth s k w)) ls). rewrite next_dim. destruct (HF B WB SB) as (P1 & P2 & _). unfold level_ok. cbn [l_A l_agg l_pre l_post fst snd]. auto.
    - rewrite next_dim, N. exact Hv.
    - rewrite next_dim, N. exact Hd'.
  Qed.
End Smoothers.

(** ** Rational numbers: example and deviations *)
Definition qpos (q : Qcring) : Prop := Qclt (Q2Qc 0) q.
Lemma Qc_ordered : ordered Qcring qpos.
Proof.
  constructor; unfold qpos.
  - exact Qcmult_comm.
  - intros H. apply Qclt_not_le in H. apply H, Qcle_refl.
  - reflexivity.
  - intros a b Ha Hb. apply (Qclt_le_trans _ a); auto. rewrite <- (Qcplus_0_r a) at 1. apply Qcplus_le_compat; [apply Qcle_refl|apply Qclt_le_weak; auto].
  - intros a b Ha Hb. replace (Q2Qc 0) with (Qcmult (Q2Qc 0) b) by ring. apply (Qcmult_lt_compat_r (Q2Qc 0) a b); auto.
  - intros a. destruct (Qc_dec (Q2Qc 0) a) as [[H|H]|H]; [right; left; exact H| |left; auto]. right. right. change (Qclt (Q2Qc 0) (Qcopp a)). apply Qclt_minus_iff in H. rewrite Qcplus_0_l in H. exact H.
Qed.
Lemma Qcinv_pos : forall a : Qcring, qpos a -> exists u, Qcinv_opt a = Some u.
Proof. intros a H. unfold Qcinv_opt. destruct (Qc_eq_dec a (Q2Qc 0)) as [E|]; [|eauto]. exfalso. apply (pos_neq qpos Qc_ordered a H E). Qed.
(** the Laplace matrix of a path of 4 vertices with natural boundary conditions, plus e times the identity *)
Definition lap4 (e : Qc) : smat Qcring :=
  let o := Q2Qc 1 in let m := Qcopp o in
  [[(0, Qcplus o e); (1, m)]; [(0, m); (1, Qcplus (Qcplus o o) e); (2, m)]; [(1, m); (2, Qcplus (Qcplus o o) e); (3, m)]; [(2, m); (3, Qcplus o e)]].
(** e times the identity plus c s s^T, s = (1,-1,1,-1) *)
Definition rank4 (e c : Qc) : smat Qcring :=
  let m := Qcopp c in let p := Qcplus e c in
  [[(0, p); (1, m); (2, c); (3, m)]; [(0, m); (1, p); (2, m); (3, c)]; [(0, c); (1, m); (2, p); (3, m)]; [(0, m); (1, c); (2, m); (3, p)]].
Definition bld (A : smat Qcring) := build (R := Qcring) (fun _ _ => yes2) (fun _ _ => yes2) (fun _ _ => no1) (fun _ _ => no1) 2 2 2 15 false Q exquot (-1)%Q Qeq_bool exgt 5 1 (6#5) A.
Lemma form4 (A : smat Qcring) a b c d : dot (R := Qcring) 4 (mul (R := Qcring) 4 A [a; b; c; d]) [a; b; c; d] = 
  let f i := Qcplus (Qcplus (Qcplus (Qcplus (Q2Qc 0) (Qcmult (den A i 0) a)) (Qcmult (den A i 1) b)) (Qcmult (den A i 2) c)) (Qcmult (den A i 3) d) in
  Qcplus (Qcplus (Qcplus (Qcplus (Q2Qc 0) (Qcmult (f 0) a)) (Qcmult (f 1) b)) (Qcmult (f 2) c)) (Qcmult (f 3) d).
Proof. reflexivity. Qed.

Lemma spd4 (A : smat Qcring) e rest : qpos e -> sym (R := Qcring) 4 A ->
  (forall a b c d, nneg qpos (rest a b c d)) ->
  (forall a b c d, dot (R := Qcring) 4 (mul (R := Qcring) 4 A [a; b; c; d]) [a; b; c; d] =
     Qcplus (Qcmult e (Qcplus (Qcplus (Qcmult a a) (Qcmult b b)) (Qcplus (Qcmult c c) (Qcmult d d)))) (rest a b c d)) -> spd qpos 4 A.
Proof.
  intros He HS HR HF. split; [exact HS|]. intros x Hx Hz. destruct (vec_dec qpos Qc_ordered 4 x Hx) as [E|(i & Hi & E)]; [congruence|].
  destruct x as [|a [|b [|c [|d [|]]]]]; try discriminate. rewrite HF. apply (pos_add qpos Qc_ordered); [|apply HR]. apply (ord_mul _ _ Qc_ordered); auto.
  pose proof (sq_nneg qpos Qc_ordered) as SN. pose proof (sq_pos qpos Qc_ordered) as SP.
  destruct i as [|[|[|[|i]]]]; try lia; cbn in E.
  - apply (pos_add qpos Qc_ordered); [apply (pos_add qpos Qc_ordered); [apply SP; auto|apply SN]|apply (nneg_add qpos Qc_ordered); apply SN].
  - apply (pos_add qpos Qc_ordered); [apply (pos_add_r qpos Qc_ordered); [apply SN|apply SP; auto]|apply (nneg_add qpos Qc_ordered); apply SN].
  - apply (pos_add_r qpos Qc_ordered); [apply (nneg_add qpos Qc_ordered); apply SN|apply (pos_add qpos Qc_ordered); [apply SP; auto|apply SN]].
  - apply (pos_add_r qpos Qc_ordered); [apply (nneg_add qpos Qc_ordered); apply SN|apply (pos_add_r qpos Qc_ordered); [apply SN|apply SP; auto]].
Qed.
Lemma lap4_spd e : qpos e -> spd qpos 4 (lap4 e).
Proof.
  intros He. apply (spd4 _ e (fun a b c d => Qcplus (Qcplus (Qcmult (Qcminus a b) (Qcminus a b)) (Qcmult (Qcminus b c) (Qcminus b c))) (Qcmult (Qcminus c d) (Qcminus c d)))); auto.
  - intros [|[|[|[|i]]]] [|[|[|[|j]]]] Hi Hj; try lia; reflexivity.
  - intros. pose proof (sq_nneg qpos Qc_ordered) as SN. apply (nneg_add qpos Qc_ordered); [apply (nneg_add qpos Qc_ordered)|]; apply SN.
  - intros. rewrite form4. cbv zeta. unfold lap4. cbv [den denrow nth Nat.eqb fst snd]. cbn [r0 Qcring]. match goal with |- @eq _ ?x ?y => change (@eq Qc x y) end. ring.
Qed.
Lemma rank4_spd e c : qpos e -> qpos c -> spd qpos 4 (rank4 e c).
Proof.
  intros He Hc. apply (spd4 _ e (fun x y z t => Qcmult c (Qcmult (Qcplus (Qcminus x y) (Qcminus z t)) (Qcplus (Qcminus x y) (Qcminus z t))))); auto.
  - intros [|[|[|[|i]]]] [|[|[|[|j]]]] Hi Hj; try lia; reflexivity.
  - intros. apply (nneg_mul qpos Qc_ordered); [right; auto|]. apply (sq_nneg qpos Qc_ordered).
  - intros. rewrite form4. cbv zeta. unfold rank4. cbv [den denrow nth Nat.eqb fst snd]. cbn [r0 Qcring]. match goal with |- @eq _ ?x ?y => change (@eq Qc x y) end. ring.
Qed.
(** the coarse solver for one unknown *)
Definition solve1 (C : smat Qcring) (u b : vec Qcring) : vec Qcring * vec Qcring * bool := ([Qcdiv (vget b 0) (den C 0 0)], [Q2Qc 0], true).
Lemma solve1_exact (C : smat Qcring) : length C = 1 -> den C 0 0 <> Q2Qc 0 -> exact (R := Qcring) C (solve1 C).
Proof.
  intros HL HC. unfold exact. rewrite HL. split; [reflexivity|]. intros u b Hu Hb. split; [reflexivity|]. split; [reflexivity|].
  destruct b as [|b [|]]; try discriminate. unfold mul, vecf. cbn [map seq]. f_equal. cbn [sum solve1 fst vget nth]. change (Qcplus (Q2Qc 0) (Qcmult (den C 0 0) (Qcdiv b (den C 0 0))) = b). field. exact HC.
Qed.
Definition q (a : Z) (b : positive) : Qc := Q2Qc (a # b).
(** what AMG::apply returns for the hierarchy built for A *)
Definition amg_result (pre post : smat Qcring -> vec Qcring -> vec Qcring -> outcome (vec Qcring)) damp steps gamma (A : smat Qcring) (st : list (@lst Qcring)) (v d : vec Qcring) : option (vec Qcring) :=
  match bld A with
  | Ok (Some (ls, C)) => match amg_apply (R := Qcring) (solve1 C) damp steps steps gamma (coarsen_smoother (R := Qcring) (run (R := Qcring) pre) (run (R := Qcring) post) ls) st true v d with Ok (x, _, _) => Some x | _ => None end
  | _ => None
  end.
Definition z_ (n : nat) : @lst Qcring := mklst (R := Qcring) (repeat (q 0 1) n) (repeat (q 0 1) n) (repeat (q 0 1) n).
(** three levels, all hypotheses of C71_amg and the coarse solver *)
Example C71_nonvacuous : let A := lap4 (q 1 100) in
  mat_wf 4 4 A /\ sym_pat A /\ spd qpos 4 A /\ exists ls C, bld A = Ok (Some (ls, C)) /\ map (fun l => length (fst l)) ls = [4; 2] /\ length C = 1 /\ exact (R := Qcring) C (solve1 C) /\
    lt_ qpos (q 0 1) (q 1 1) /\ lt_ qpos (q 1 1) (Qcplus (q 1 1) (q 1 1)) /\ le_ qpos (q 0 1) (q 8 5) /\ Nat.Odd 1.
Proof.
  split; [split; [reflexivity|]; repeat (constructor; [split; repeat constructor|]); constructor|].
  split; [intros i j Hi; unfold instored; do 4 (destruct i as [|i]; [cbn; intuition (subst; cbn; auto)|]); cbn in Hi; lia|].
  split; [apply lap4_spd; reflexivity|]. eexists _, _. split; [vm_compute; reflexivity|]. split; [reflexivity|]. split; [reflexivity|].
  split; [apply solve1_exact; [reflexivity|vm_compute; discriminate]|]. repeat split; try (vm_compute; reflexivity); [right; vm_compute; reflexivity|exists 0; reflexivity].
Qed.
(** Deviation: with the default parameters (gamma 1, two smoothing steps, damping factor 1.6) a cycle, used as a stationary iteration, can increase the energy
    norm of the error. *)
Theorem C71_default_damping_refuted : let A := lap4 (q 1 100) in let xs := repeat (q 1 1) 4 in let b := mul (R := Qcring) 4 A xs in
  spd qpos 4 A /\ exists x, amg_result (preSmooth (R := Qcring) Qcinv_opt UseSOR 1 (q 1 1)) (postSmooth (R := Qcring) Qcinv_opt UseSOR 1 (q 1 1)) (q 8 5) 2 1 A [z_ 4; z_ 2; z_ 1] (repeat (q 0 1) 4) b = Some x /\
    lt_ qpos (energy (R := Qcring) 4 A xs (repeat (q 0 1) 4)) (energy (R := Qcring) 4 A xs x).
Proof. cbv zeta. split; [apply lap4_spd; reflexivity|]. eexists. split; [vm_compute; reflexivity|]. vm_compute. reflexivity. Qed.
(** Deviation: with Jacobi smoothing (SeqJac, relaxation factor 1) AMG::apply can be indefinite although the matrix is symmetric positive definite. *)
Theorem C71_jacobi_refuted : let A := rank4 (q 1 10) (q 9 10) in let jac := fun (B : smat Qcring) => seqjac_apply (R := Qcring) Qcinv_opt 1 B (q 1 1) in let d := [q 1 1; q (-1) 1; q 1 1; q (-1) 1] in
  spd qpos 4 A /\ exists x, amg_result jac jac (q 8 5) 2 1 A [z_ 4; z_ 2; z_ 1] (repeat (q 0 1) 4) d = Some x /\ lt_ qpos (dot (R := Qcring) 4 x d) (q 0 1).
Proof. cbv zeta. split; [apply rank4_spd; reflexivity|]. eexists. split; [vm_compute; reflexivity|]. vm_compute. reflexivity. Qed.
(** Deviation: for even gamma and damping factors above 2 the cycle can be indefinite. *)
Theorem C71_even_damping_refuted : let A := lap4 (q 1 1000) in let d := repeat (q 1 1) 4 in
  spd qpos 4 A /\ exists x, amg_result (preSmooth (R := Qcring) Qcinv_opt UseSOR 1 (q 1 1)) (postSmooth (R := Qcring) Qcinv_opt UseSOR 1 (q 1 1)) (q 3 1) 1 2 A [z_ 4; z_ 2; z_ 1] (repeat (q 0 1) 4) d = Some x /\
    lt_ qpos (dot (R := Qcring) 4 x d) (q 0 1).
Proof. cbv zeta. split; [apply lap4_spd; reflexivity|]. eexists. split; [vm_compute; reflexivity|]. vm_compute. reflexivity. Qed.
Print Assumptions C71_sweeps.
Print Assumptions C71_amg.
Print Assumptions C71_default_damping_refuted.
Print Assumptions C71_jacobi_refuted.
Print Assumptions C71_even_damping_refuted.
