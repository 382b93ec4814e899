(** * CGSolver in exact arithmetic: the iterates are the Krylov space minimisers (C50)

    Model: [cg_apply] of Solvers.v (solvers.hh:279-342).  Real scalars: the scalar product is bilinear and symmetric. *)
From Coq Require Import Arith List Lia Bool ZArith QArith Qcanon.
From Coq Require Import setoid_ring.Ring.
From Verif Require Import Ring Sums RingInst Outcome Solvers.
Import ListNotations.
Open Scope nat_scope.

(** ** Specification *)
Section Spec.
  Context {K : ring} {V : vspace K}.
  (** what "symmetric positive definite" is used for: [dot] bilinear and symmetric, B linear, selfadjoint, <v,Bv> = 0 only for v = 0 *)
  Record scalar_product (dot : V -> V -> K) : Prop := {
    sp_add : forall a b c, dot (vadd a b) c = radd (dot a c) (dot b c);
    sp_scale : forall k a c, dot (vscale k a) c = rmul k (dot a c);
    sp_sym : forall a b, dot a b = dot b a }.
  Record definite (dot : V -> V -> K) (B : V -> V) : Prop := {
    de_linear : linear B;
    de_adj : forall a b, dot (B a) b = dot a (B b);
    de_aniso : forall v, dot v (B v) = r0 -> v = vz }.
  Definition field (kdiv : K -> K -> K) : Prop := (forall a b : K, rmul a b = rmul b a) /\ forall a b : K, b <> r0 -> rmul (kdiv a b) b = a.

  Variables (A W : V -> V) (r : V).
  (** W r, W A W r, (W A)^2 W r, ... *)
  Fixpoint krylov (i : nat) : V := match i with O => W r | S i => W (A (krylov i)) end.
  (** linear combinations of the first m of them *)
  Inductive kspace (m : nat) : V -> Prop :=
  | ks_zero : kspace m vz
  | ks_add c i y : i < m -> kspace m y -> kspace m (vadd (vscale c (krylov i)) y).
End Spec.

Section CG.
  Context {K : ring} {V : vspace K}.
  Variable D : Type.
  Variables (finite : D -> bool) (lt_ : D -> D -> bool) (mul_ div_ : D -> D -> D) (zero_ tiny : D).
  Variable reduction : D.
  Variable A : V -> V.
  Variable dot : V -> V -> K.
  Variable nrm : V -> D.
  Variable kdiv : K -> K -> K.
  Variable is0 : D -> bool.
  Variable P : Type.
  Variable pre : P -> V -> V -> P * V * V.
  Variable papply : P -> V -> V -> P * V.
  Variable post : P -> V -> P * V.
  Variable W : V -> V.
  Hypothesis HK : field kdiv.
  Hypothesis HD : scalar_product dot.
  Hypothesis HA : definite dot A.
  Hypothesis HW : definite dot W.
  Hypothesis Hn : forall v, is0 (nrm v) = true <-> v = vz.
  Hypothesis Hp : forall p b, snd (papply p vz b) = W b.

  Lemma kring_theory : ring_theory (r0 : K) r1 radd rmul rsub ropp eq.
  Proof. constructor; intros; try ncring; auto. apply HK. Qed.
  Add Ring kring : kring_theory.

  Lemma va0l (a : V) : vadd vz a = a.
  Proof. rewrite vadd_comm. apply vadd_0. Qed.
  Lemma vs0 k : vscale k (vz : V) = vz.
  Proof. rewrite <- (vscale_0 K V vz), <- vscale_mul. replace (rmul k r0) with (r0 : K) by ring. reflexivity. Qed.
  Lemma lin0 (B : V -> V) : linear B -> B vz = vz.
  Proof. intros [_ L]. rewrite <- (vscale_0 K V vz) at 1. rewrite L. apply vscale_0. Qed.
  Lemma dot_add_r a b c : dot a (vadd b c) = radd (dot a b) (dot a c).
  Proof. rewrite !(sp_sym _ HD a). apply HD. Qed.
  Lemma dot_scale_r k a b : dot a (vscale k b) = rmul k (dot a b).
  Proof. rewrite !(sp_sym _ HD a). apply HD. Qed.
  Lemma dot_0_r a : dot a vz = r0.
  Proof. rewrite <- (vscale_0 K V vz), dot_scale_r. ring. Qed.
  Lemma dot_0_l a : dot vz a = r0.
  Proof. rewrite (sp_sym _ HD). apply dot_0_r. Qed.
  Lemma kinv a : a <> (r0 : K) -> rmul (kdiv r1 a) a = r1.
  Proof. apply HK. Qed.
  Lemma knz a b : a <> (r0 : K) -> b <> r0 -> rmul a b <> r0.
  Proof.
    intros Ha Hb E. apply Hb. replace b with (rmul (rmul (kdiv r1 a) a) b) by (rewrite kinv by auto; ring).
    replace (rmul (rmul (kdiv r1 a) a) b) with (rmul (kdiv r1 a) (rmul a b)) by ring. rewrite E. ring.
  Qed.
  Lemma kz_dec_v (v : V) : v = vz \/ v <> vz.
  Proof. destruct (is0 (nrm v)) eqn:E; [left; apply Hn; auto|right; intros H; apply Hn in H; congruence]. Qed.

  Variable r : V.   (* the initial residual *)
  Local Notation kry := (krylov A W r).
  Local Notation ks := (kspace A W r).

  Lemma ks_plus m y z : ks m y -> ks m z -> ks m (vadd y z).
  Proof. intros Hy Hz. induction Hy; [rewrite va0l; exact Hz|]. rewrite <- vadd_assoc. constructor; auto. Qed.
  Lemma ks_scale m k y : ks m y -> ks m (vscale k y).
  Proof. induction 1; [rewrite vs0; constructor|]. rewrite vscale_add_r, <- vscale_mul. constructor; auto. Qed.
  Lemma ks_kry m i : i < m -> ks m (kry i).
  Proof. intros H. rewrite <- (vscale_1 K V (kry i)), <- (vadd_0 K V (vscale r1 (kry i))). constructor; [exact H|constructor]. Qed.
  Lemma ks_mono m n y : m <= n -> ks m y -> ks n y.
  Proof. intros L. induction 1; constructor; auto. lia. Qed.
  Lemma ks_next m y : ks m y -> ks (S m) (W (A y)).
  Proof.
    induction 1.
    - rewrite (lin0 A), (lin0 W); [constructor|apply HW|apply HA].
    - destruct (de_linear _ _ HA) as [A1 A2]. destruct (de_linear _ _ HW) as [W1 W2]. rewrite A1, A2, W1, W2.
      change (W (A (kry i))) with (kry (S i)). constructor; [lia|assumption].
  Qed.
  Lemma ks_sub m y z : ks m y -> ks m z -> ks m (vsub y z).
  Proof. intros. apply ks_plus; [|apply ks_scale]; assumption. Qed.

  (** a functional vanishing on the first k Krylov vectors and on c kry_k + l vanishes on the first k+1 *)
  Lemma extend k (phi : V -> K) c l : (forall a b, phi (vadd a b) = radd (phi a) (phi b)) -> (forall s a, phi (vscale s a) = rmul s (phi a)) ->
    c <> r0 -> ks k l -> (forall y, ks k y -> phi y = r0) -> phi (vadd (vscale c (kry k)) l) = r0 -> forall y, ks (S k) y -> phi y = r0.
  Proof.
    intros Pa Ps Hc Hl Hk Hd.
    assert (Hkk : phi (kry k) = r0).
    { rewrite Pa, Ps, (Hk l Hl) in Hd.
      assert (E : rmul c (phi (kry k)) = r0) by (rewrite <- Hd; ring).
      replace (phi (kry k)) with (rmul (rmul (kdiv r1 c) c) (phi (kry k))) by (rewrite kinv by auto; ring).
      replace (rmul (rmul (kdiv r1 c) c) (phi (kry k))) with (rmul (kdiv r1 c) (rmul c (phi (kry k)))) by ring. rewrite E. ring. }
    intros y Hy. induction Hy as [|a i y Hi Hy IH].
    - rewrite <- (vscale_0 K V vz), Ps. ring.
    - rewrite Pa, Ps, IH. assert (E : phi (kry i) = r0).
      { destruct (Nat.eq_dec i k) as [->|N]; [exact Hkk|]. apply Hk, ks_kry. lia. }
      rewrite E. ring.
  Qed.

  Variables (b1 x1 : V).
  Hypothesis Hr : r = vsub b1 (A x1).

  Local Notation cgst := (P * V * V * D * V * K)%type.
  (** before the k-th pass through the loop body (k = 0, 1, ...) *)
  Definition InvB (k : nat) (s : cgst) : Prop :=
    let '(_, x, b, def, d, rho) := s in
    b = vsub b1 (A x) /\ def = nrm b /\ ks k (vsub x x1) /\ (forall y, ks k y -> dot b y = r0) /\ ks (S k) (W b) /\
    rho = dot (W b) b /\ dot d b = rho /\ (forall y, ks k y -> dot (A d) y = r0) /\ ks (S k) d /\
    (b = vz \/ exists c l, c <> r0 /\ ks k l /\ d = vadd (vscale c (kry k)) l).
  (** after it *)
  Definition InvA (k : nat) (s : cgst) : Prop :=
    let '(_, x, b, def, d, rho) := s in
    b = vsub b1 (A x) /\ def = nrm b /\ ks (S k) (vsub x x1) /\ (forall y, ks (S k) y -> dot b y = r0) /\ ks (S (S k)) (W b) /\
    (b = vz \/ exists bold lam c l, lam <> r0 /\ rho <> r0 /\ b = vadd bold (vscale (ropp lam) (A d)) /\ rho = rmul lam (dot (A d) d) /\
      (forall y, ks k y -> dot (A d) y = r0) /\ ks (S k) (W bold) /\ ks (S k) d /\ c <> r0 /\ ks k l /\ d = vadd (vscale c (kry k)) l).

  Lemma prepare_ok p x b def d rho s : b = vsub b1 (A x) -> x = x1 -> def = nrm b ->
    cg_prepare (K := K) D dot P papply (p, x, b, def, d, rho) = Ok s -> InvB 0 s.
  Proof.
    intros Eb -> Ed. unfold cg_prepare. destruct (papply p vz b) as [p' d'] eqn:Ep. intros H. injection H as <-.
    assert (Ed' : d' = W b) by (rewrite <- (Hp p b), Ep; reflexivity).
    assert (Er : b = r) by congruence.
    cbn [InvB]. subst d'. split; [exact Eb|]. split; [exact Ed|]. split; [|split; [|split; [|split; [|split; [|split; [|split]]]]]].
    - assert (E : vsub x1 x1 = vz).
      { unfold vsub. rewrite <- (vscale_1 K V x1) at 1. rewrite <- vscale_add_l. replace (radd r1 (ropp r1)) with (r0 : K) by ring. apply vscale_0. }
      rewrite E. constructor.
    - intros y Hy. inversion Hy; subst; [apply dot_0_r|lia].
    - rewrite Er. apply (ks_kry 1 0). lia.
    - reflexivity.
    - reflexivity.
    - intros y Hy. inversion Hy; subst; [apply dot_0_r|lia].
    - rewrite Er. apply (ks_kry 1 0). lia.
    - destruct (kz_dec_v b) as [Z|Z]; [left; exact Z|right]. exists r1, vz. split; [|split; [constructor|rewrite vscale_1, vadd_0, Er; reflexivity]].
      intros E. apply Z. rewrite <- (vscale_1 K V b), E. apply vscale_0.
  Qed.

  Lemma adj_dot a b : dot (A a) b = dot a (A b).
  Proof. apply HA. Qed.

  Lemma sub_plus (x d : V) k : vsub (vadd x (vscale k d)) x1 = vadd (vsub x x1) (vscale k d).
  Proof. unfold vsub. rewrite <- !vadd_assoc. f_equal. apply vadd_comm. Qed.

  Lemma body_ok k s s1 e : InvB k s -> cg_body (K := K) D A dot nrm kdiv is0 P s = Ok (s1, e) -> InvA k s1 /\ e = snd (fst (fst s1)).
  Proof.
    destruct s as [[[[[p x] b] def] d] rho]. intros (Eb & Ed & Kx & Gb & Kw & Er & Edb & Cd & Kd & Alt) H.
    unfold cg_body in H. injection H as <- <-. split; [|reflexivity].
    set (lam := if is0 def then r0 else kdiv rho (dot d (A d))).
    cbn [InvA].
    assert (LA : linear A) by apply HA.
    assert (Eb' : vadd b (vscale (ropp lam) (A d)) = vsub b1 (A (vadd x (vscale lam d)))) by (rewrite Eb; apply vsub_axpy, LA).
    split; [exact Eb'|]. split; [reflexivity|]. split.
    { rewrite sub_plus. apply ks_plus; [apply (ks_mono k); auto|apply ks_scale; exact Kd]. }
    assert (Kw' : ks (S (S k)) (W (vadd b (vscale (ropp lam) (A d))))).
    { destruct (de_linear _ _ HW) as [W1 W2]. rewrite W1, W2. apply ks_plus; [apply (ks_mono (S k)); auto|]. apply ks_scale, ks_next, Kd. }
    destruct Alt as [Zb|(c & l & Hc & Hl & Dl)].
    - (* the residual was already zero: nothing moves *)
      assert (E0 : lam = r0) by (unfold lam; rewrite Ed, Zb; rewrite (proj2 (Hn vz) eq_refl); reflexivity).
      assert (Zb' : vadd b (vscale (ropp lam) (A d)) = vz).
      { rewrite E0, Zb, va0l. replace (ropp r0) with (r0 : K) by ring. apply vscale_0. }
      rewrite Zb' in *. split; [intros y _; apply dot_0_l|]. split; [exact Kw'|left; reflexivity].
    - destruct (kz_dec_v b) as [Zb|Zb].
      { assert (E0 : lam = r0) by (unfold lam; rewrite Ed, Zb; rewrite (proj2 (Hn vz) eq_refl); reflexivity).
        assert (Zb' : vadd b (vscale (ropp lam) (A d)) = vz).
        { rewrite E0, Zb, va0l. replace (ropp r0) with (r0 : K) by ring. apply vscale_0. }
        rewrite Zb' in *. split; [intros y _; apply dot_0_l|]. split; [exact Kw'|left; reflexivity]. }
      assert (Hrho : rho <> r0).
      { intros E. apply Zb. apply (de_aniso _ _ HW). rewrite (sp_sym _ HD). congruence. }
      assert (Hd : d <> vz) by (intros E; apply Hrho; rewrite <- Edb, E; apply dot_0_l).
      assert (Hdd : dot d (A d) <> r0) by (intros E; apply Hd, (de_aniso _ _ HA), E).
      assert (El : lam = kdiv rho (dot d (A d))).
      { unfold lam. destruct (is0 def) eqn:E; [|reflexivity]. exfalso. rewrite Ed in E. apply Hn in E. contradiction. }
      assert (El2 : rmul lam (dot (A d) d) = rho) by (rewrite El, adj_dot; apply HK; exact Hdd).
      assert (Hlam : lam <> r0) by (intros E; apply Hrho; rewrite <- El2, E; ring).
      split; [|split; [exact Kw'|]].
      + intros y Hy. refine (extend k (fun y => dot (vadd b (vscale (ropp lam) (A d))) y) c l _ _ Hc Hl _ _ y Hy).
        * intros; apply dot_add_r.
        * intros; apply dot_scale_r.
        * intros z Hz. rewrite (sp_add _ HD), (sp_scale _ HD), (Gb z Hz), (Cd z Hz). ring.
        * rewrite <- Dl, (sp_add _ HD), (sp_scale _ HD), (sp_sym _ HD b d), Edb, <- El2. ring.
      + right. exists b, lam, c, l. repeat (split; [solve [auto]|]). auto.
  Qed.

  Lemma after_ok k s s2 : InvA k s -> cg_after (K := K) D dot kdiv is0 P papply s = Ok s2 -> InvB (S k) s2 /\ snd (fst (fst s2)) = snd (fst (fst s)).
  Proof.
    destruct s as [[[[[p x] b] def] d] rho]. intros (Eb & Ed & Kx & Gb & Kw & Alt) H.
    unfold cg_after in H. destruct (papply p vz b) as [p' q] eqn:Ep.
    assert (Eq : q = W b) by (rewrite <- (Hp p b), Ep; reflexivity). subst q.
    injection H as <-. split; [|reflexivity].
    set (beta := if is0 def then r0 else kdiv (dot (W b) b) rho).
    cbn [InvB]. split; [exact Eb|]. split; [exact Ed|]. split; [exact Kx|]. split; [exact Gb|]. split; [exact Kw|]. split; [reflexivity|].
    destruct (kz_dec_v b) as [Zb|Zb].
    { assert (E0 : beta = r0) by (unfold beta; rewrite Ed, Zb; rewrite (proj2 (Hn vz) eq_refl); reflexivity).
      assert (Ed0 : vadd (vscale beta d) (W b) = vz) by (rewrite E0, Zb, vscale_0, va0l; apply lin0, HW).
      rewrite Ed0. split; [rewrite Zb, !dot_0_r; reflexivity|]. split; [intros y _; rewrite (lin0 A); [apply dot_0_l|apply HA]|].
      split; [constructor|left; exact Zb]. }
    destruct Alt as [Z|(bold & lam & c & l & Hlam & Hrho & Ebo & El & Cd & Kwo & Kd & Hc & Hl & Dl)]; [contradiction|].
    assert (Eb2 : beta = kdiv (dot (W b) b) rho).
    { unfold beta. destruct (is0 def) eqn:E; [|reflexivity]. exfalso. rewrite Ed in E. apply Hn in E. contradiction. }
    assert (Ebeta : rmul beta rho = dot (W b) b) by (rewrite Eb2; apply HK; exact Hrho).
    assert (Gd : dot b d = r0) by (apply Gb, Kd).
    split; [rewrite (sp_add _ HD), (sp_scale _ HD), (sp_sym _ HD d b), Gd; ring|].
    destruct (de_linear _ _ HA) as [A1 A2]. destruct (de_linear _ _ HW) as [W1 W2].
    split; [|split].
    - intros y Hy. refine (extend k (fun y => dot (A (vadd (vscale beta d) (W b))) y) c l _ _ Hc Hl _ _ y Hy).
      + intros; apply dot_add_r.
      + intros; apply dot_scale_r.
      + intros z Hz. rewrite A1, A2, (sp_add _ HD), (sp_scale _ HD), (Cd z Hz), adj_dot, (de_adj _ _ HW).
        rewrite (Gb _ (ks_next k z Hz)). ring.
      + rewrite <- Dl, A1, A2, (sp_add _ HD), (sp_scale _ HD), (adj_dot (W b)).
        (* lam <W b, A d> = <W b, bold> - <W b, b> *)
        assert (E1 : dot (W b) bold = r0) by (rewrite (de_adj _ _ HW); apply Gb, Kwo).
        assert (E2 : dot (W b) b = rmul (ropp lam) (dot (W b) (A d))).
        { rewrite Ebo at 2. rewrite dot_add_r, dot_scale_r, E1. ring. }
        assert (E3 : rmul lam (radd (rmul beta (dot (A d) d)) (dot (W b) (A d))) = r0).
        { replace (rmul lam (radd (rmul beta (dot (A d) d)) (dot (W b) (A d)))) with
            (radd (rmul beta (rmul lam (dot (A d) d))) (ropp (rmul (ropp lam) (dot (W b) (A d))))) by ring.
          rewrite <- El, Ebeta, <- E2. ring. }
        replace (radd (rmul beta (dot (A d) d)) (dot (W b) (A d))) with (rmul (rmul (kdiv r1 lam) lam) (radd (rmul beta (dot (A d) d)) (dot (W b) (A d)))) by (rewrite kinv by auto; ring).
          replace (rmul (rmul (kdiv r1 lam) lam) (radd (rmul beta (dot (A d) d)) (dot (W b) (A d)))) with (rmul (kdiv r1 lam) (rmul lam (radd (rmul beta (dot (A d) d)) (dot (W b) (A d))))) by ring.
          rewrite E3. ring.
    - apply ks_plus; [apply ks_scale, (ks_mono (S k)); auto|exact Kw].
    - right. exists (rmul (ropp lam) c), (vadd (vscale beta d) (vadd (W bold) (vscale (ropp lam) (W (A l))))).
      split; [|split].
      + apply knz; [|exact Hc]. intros E. apply Hlam. replace lam with (ropp (ropp lam)) by ring. rewrite E. ring.
      + apply ks_plus; [apply ks_scale, Kd|]. apply ks_plus; [exact Kwo|]. apply ks_scale, ks_next, Hl.
      + rewrite Ebo at 1. rewrite W1, W2. cbn [krylov]. rewrite Dl at 2. rewrite A1, A2, W1, W2, vscale_add_r, <- vscale_mul.
        rewrite !vadd_assoc. f_equal. rewrite (vadd_comm K V (vscale (rmul (ropp lam) c) _)). rewrite <- !vadd_assoc. f_equal. apply vadd_comm.
  Qed.

  Local Notation iter := (iter D).
  Local Notation iteratef := (iterate D finite lt_ mul_ tiny reduction).
  Definition Fin_ (m : nat) (x b : V) : Prop := b = vsub b1 (A x) /\ ks m (vsub x x1) /\ forall y, ks m y -> dot b y = r0.

  Lemma iterate_fin n : forall k s it s' it', InvB k s -> i_i D it = k ->
    iteratef (cg_body (K := K) D A dot nrm kdiv is0 P) (cg_after (K := K) D dot kdiv is0 P papply) n (S k) s it = Ok (s', it') ->
    let '(_, x, b, _, _, _) := s' in Fin_ (i_i D it') x b.
  Proof.
    induction n as [|n IH]; intros k s it s' it' HI Hi H; cbn [iterate] in H.
    - injection H as <- <-. destruct s as [[[[[p x] b] def] d] rho]. destruct HI as (E1 & _ & E2 & E3 & _). rewrite Hi. split; auto.
    - destruct (cg_body D A dot nrm kdiv is0 P s) as [[s1 e]| |] eqn:EB; cbn [obind fst snd] in H; try discriminate.
      destruct (body_ok k s s1 e HI EB) as [HA1 _].
      destruct (step D finite lt_ mul_ tiny reduction (S k) e it) as [it1| |] eqn:ES; cbn [obind] in H; try discriminate.
      assert (Ei : i_i D it1 = S k).
      { unfold step in ES. destruct (negb (finite e)); [discriminate|]. injection ES as <-. reflexivity. }
      destruct (i_conv D it1).
      + injection H as <- <-. destruct s1 as [[[[[p x] b] def] d] rho]. destruct HA1 as (E1 & _ & E2 & E3 & _). rewrite Ei. split; auto.
      + destruct (cg_after D dot kdiv is0 P papply s1) as [s2| |] eqn:EA; cbn [obind] in H; try discriminate.
        destruct (after_ok k s1 s2 HA1 EA) as [HB2 _]. exact (IH (S k) s2 it1 s' it' HB2 Ei H).
  Qed.
End CG.

Section Statements.
  Context {K : ring} {V : vspace K}.
  Variable D : Type.
  Variables (finite : D -> bool) (lt_ : D -> D -> bool) (mul_ div_ : D -> D -> D) (zero_ tiny : D).
  Variable reduction : D.
  Variable A : V -> V.
  Variable dot : V -> V -> K.
  Variable nrm : V -> D.
  Variable kdiv : K -> K -> K.
  Variable is0 : D -> bool.
  Variable P : Type.
  Variable pre : P -> V -> V -> P * V * V.
  Variable papply : P -> V -> V -> P * V.
  Variable post : P -> V -> P * V.
  Variable W : V -> V.
  (** everything assumed: exact scalars of a field, an spd operator, an spd preconditioner, def == 0 only for the zero vector *)
  Hypothesis HK : field kdiv.
  Hypothesis HD : scalar_product dot.
  Hypothesis HA : definite dot A.
  Hypothesis HW : definite dot W.
  Hypothesis Hn : forall v, is0 (nrm v) = true <-> v = vz.
  Hypothesis Hp : forall p b, snd (papply p vz b) = W b.
  Notation cgf := (cg_apply (K := K) (V := V) D finite lt_ mul_ div_ zero_ tiny reduction A dot nrm kdiv is0 P pre papply post).

  (** C50.  After m iterations CGSolver::apply has moved x within x1 + K_m, K_m = span(W r, (WA) W r, ..., (WA)^(m-1) W r), and the
      residual it leaves is orthogonal to K_m (x1, b1: what pre() left; x2: the iterate given to post()) *)
  Theorem C50_cg_galerkin maxit p x b p1 x1 b1 p' x' b' res log : pre p x b = (p1, x1, b1) ->
    cgf maxit p x b = Ok (p', x', b', res, log) ->
    exists p2 x2, post p2 x2 = (p', x') /\ b' = vsub b1 (A x2) /\
      kspace A W (vsub b1 (A x1)) (r_iterations D res) (vsub x2 x1) /\
      forall y, kspace A W (vsub b1 (A x1)) (r_iterations D res) y -> dot b' y = r0.
  Proof.
    intros EP H. unfold cg_apply in H. rewrite EP in H.
    match type of H with obind ?c _ = _ => destruct c as [[[[[[[p2 x2] b2] d2] e2] f2] it]| |] eqn:EC end; cbn [obind] in H; try discriminate.
    injection H as H. apply finish_eq in H. destruct H as [H1 [E2 [H3 H4]]].
    exists p2, x2. split; [exact H1|]. rewrite <- E2.
    assert (F : Fin_ A dot W (vsub b1 (A x1)) b1 x1 (i_i D it) x2 b2).
    { unfold control in EC. destruct (step _ _ _ _ _ _ 0 _ _) as [it0| |] eqn:ES; cbn [obind] in EC; try discriminate.
      assert (Ei : i_i D it0 = 0).
      { unfold step in ES. destruct (negb (finite _)); [discriminate|]. injection ES as <-. reflexivity. }
      destruct (i_conv D it0).
      - injection EC as <- <- <- _ _ _ <-. split; [reflexivity|]. rewrite Ei. split.
        + replace (vsub x1 x1) with (vz : V); [constructor|]. unfold vsub. rewrite <- (vscale_1 K V x1) at 1. rewrite <- vscale_add_l. replace (radd r1 (ropp r1)) with (r0 : K) by ncring. symmetry. apply vscale_0.
        + intros y Hy. inversion Hy; subst; [|lia]. apply (dot_0_r dot kdiv HK HD).
      - destruct (cg_prepare D dot P papply _) as [s1| |] eqn:EPr; cbn [obind] in EC; try discriminate.
        assert (IB := prepare_ok D A dot nrm kdiv is0 P papply W HK HD Hn Hp (vsub b1 (A x1)) b1 x1 eq_refl _ _ _ _ _ _ _ eq_refl eq_refl eq_refl EPr).
        assert (G := iterate_fin D finite lt_ mul_ tiny reduction A dot nrm kdiv is0 P papply W HK HD HA HW Hn Hp _ b1 x1 maxit 0 s1 it0 _ _ IB Ei EC). exact G. }
    assert (Er : r_iterations D res = i_i D it) by (rewrite <- H3; cbn; apply Nat.div_1_r).
    rewrite Er. destruct F as (F1 & F2 & F3). auto.
  Qed.

  (** the energy <x - xs, A (x - xs)> of the error *)
  Definition energy (xs x : V) : K := dot (vsub x xs) (A (vsub x xs)).

  (** ... so among all candidates x2 + y, y in K_m, x2 has the least energy error: that of x2 + y is larger by <y, A y>.  (Every
      element of x1 + K_m is such a candidate since x2 - x1 is in K_m.) *)
  Theorem C50_cg_optimal maxit p x b p1 x1 b1 p' x' b' res log xs : pre p x b = (p1, x1, b1) -> A xs = b1 ->
    cgf maxit p x b = Ok (p', x', b', res, log) ->
    exists p2 x2, post p2 x2 = (p', x') /\ kspace A W (vsub b1 (A x1)) (r_iterations D res) (vsub x2 x1) /\
      forall y, kspace A W (vsub b1 (A x1)) (r_iterations D res) y -> energy xs (vadd x2 y) = radd (energy xs x2) (dot y (A y)).
  Proof.
    intros EP Exs H. destruct (C50_cg_galerkin _ _ _ _ _ _ _ _ _ _ _ _ EP H) as (p2 & x2 & E1 & E2 & E3 & E4).
    exists p2, x2. split; [exact E1|]. split; [exact E3|]. intros y Hy. specialize (E4 y Hy). unfold energy.
    assert (kc : forall a b : K, rmul a b = rmul b a) by apply HK.
    assert (Rt : ring_theory (r0 : K) r1 radd rmul rsub ropp eq) by (constructor; intros; try ncring; auto).
    destruct (de_linear _ _ HA) as [A1 A2].
    assert (Es : vsub (vadd x2 y) xs = vadd (vsub x2 xs) y).
    { unfold vsub. rewrite <- !vadd_assoc. f_equal. apply vadd_comm. }
    rewrite Es, A1, (sp_add _ HD), !(dot_add_r dot HD).
    assert (Ez : dot (vsub x2 xs) (A y) = r0).
    { rewrite <- (de_adj _ _ HA).
      assert (E5 : A (vsub x2 xs) = vscale (ropp r1) b').
      { unfold vsub in *. rewrite A1, A2, Exs, E2, vscale_add_r, <- vscale_mul. replace (rmul (ropp r1) (ropp r1)) with (r1 : K) by ncring. rewrite vscale_1. apply vadd_comm. }
      rewrite E5, (sp_scale _ HD), E4. ncring. }
    assert (Ez2 : dot y (A (vsub x2 xs)) = r0) by (rewrite <- (de_adj _ _ HA), (sp_sym _ HD), Ez; reflexivity).
    rewrite Ez, Ez2. ncring.
  Qed.

  (** Finite termination: once the Krylov vectors become dependent (at the latest after dim V steps), the solution is exact *)
  Theorem C50_cg_terminates maxit p x b p1 x1 b1 p' x' b' res log m : pre p x b = (p1, x1, b1) ->
    kspace A W (vsub b1 (A x1)) m (krylov A W (vsub b1 (A x1)) m) -> m <= r_iterations D res ->
    cgf maxit p x b = Ok (p', x', b', res, log) -> b' = vz.
  Proof.
    intros EP Hm Lm H. destruct (C50_cg_galerkin _ _ _ _ _ _ _ _ _ _ _ _ EP H) as (p2 & x2 & E1 & E2 & E3 & E4).
    set (rr := vsub b1 (A x1)) in *. set (k := r_iterations D res) in *.
    destruct (de_linear _ _ HA) as [A1 A2]. destruct (de_linear _ _ HW) as [W1 W2].
    assert (St : forall y, kspace A W rr m y -> kspace A W rr m (W (A y))).
    { intros y Hy. induction Hy as [|c i y Hi Hy IH].
      - rewrite (lin0 A), (lin0 W) by (split; assumption). constructor.
      - rewrite A1, A2, W1, W2. apply (ks_plus A W rr); [apply (ks_scale A kdiv W HK)|exact IH].
        change (W (A (krylov A W rr i))) with (krylov A W rr (S i)). destruct (Nat.eq_dec (S i) m) as [E|N]; [rewrite E; exact Hm|apply ks_kry; lia]. }
    assert (Hw : kspace A W rr m (W rr)).
    { destruct m as [|m]; [exact Hm|]. apply (ks_kry A W rr (S m) 0). lia. }
    assert (Hkm : forall j y, kspace A W rr j y -> kspace A W rr m y).
    { assert (G : forall i, kspace A W rr m (krylov A W rr i)) by (induction i as [|i IH]; [exact Hw|apply St, IH]).
      intros j y Hy. induction Hy; [constructor|]. apply (ks_plus A W rr); [apply (ks_scale A kdiv W HK), G|assumption]. }
    assert (Hwb : kspace A W rr m (W b')).
    { assert (Eb : b' = vadd rr (vscale (ropp r1) (A (vsub x2 x1)))).
      { rewrite E2. unfold rr, vsub. rewrite A1, A2, vscale_add_r, <- vscale_mul. replace (rmul (ropp r1) (ropp r1)) with (r1 : K) by ncring. rewrite vscale_1.
        rewrite <- !vadd_assoc. f_equal. rewrite (vadd_comm K V (vscale (ropp r1) (A x2))), vadd_assoc.
        rewrite <- (vscale_1 K V (A x1)) at 2. rewrite <- vscale_add_l. replace (radd (ropp r1) r1) with (r0 : K) by ncring. rewrite vscale_0.
        rewrite (vadd_comm K V vz), vadd_0. reflexivity. }
      rewrite Eb, W1, W2. apply (ks_plus A W rr); [exact Hw|]. apply (ks_scale A kdiv W HK), St, (Hkm k), E3. }
    apply (de_aniso _ _ HW). apply E4. apply (ks_mono A W rr m); assumption.
  Qed.

  (** C50.  GradientSolver::apply: the last step went from some xl along the preconditioned residual W rl of xl, exactly so far that
      the new residual is orthogonal to W rl (the energy is minimal on that line) *)
  Theorem C50_gradient maxit p x b p1 x1 b1 p' x' b' res log : pre p x b = (p1, x1, b1) ->
    grad_apply (K := K) (V := V) D finite lt_ mul_ div_ zero_ tiny reduction A dot nrm kdiv is0 P pre papply post maxit p x b = Ok (p', x', b', res, log) ->
    exists p2 x2, post p2 x2 = (p', x') /\ b' = vsub b1 (A x2) /\
      (r_iterations D res = 0 /\ x2 = x1 \/
       exists xl s, x2 = vadd xl (vscale s (W (vsub b1 (A xl)))) /\ dot b' (W (vsub b1 (A xl))) = r0).
  Proof.
    intros EP H. assert (LA : linear A) by apply HA. unfold grad_apply in H. rewrite EP in H.
    match type of H with obind ?c _ = _ => destruct c as [[[[[p2 x2] b2] d2] it]| |] eqn:EC end; cbn [obind] in H; try discriminate.
    injection H as H. apply finish_eq in H. destruct H as [H1 [E2 [H3 H4]]].
    exists p2, x2. split; [exact H1|]. rewrite <- E2.
    set (Last := fun (x2 b2 : V) => exists xl s, x2 = vadd xl (vscale s (W (vsub b1 (A xl)))) /\ dot b2 (W (vsub b1 (A xl))) = r0).
    assert (B : forall s s1 e, (let '(_, x, b, def) := s in b = vsub b1 (A x) /\ def = nrm b) -> grad_body (K := K) D A dot nrm kdiv is0 P papply s = Ok (s1, e) ->
      let '(_, x, b, def) := s1 in (b = vsub b1 (A x) /\ def = nrm b) /\ Last x b).
    { intros [[[q y] c] def] s1 e [Hc Hdf] HB. unfold grad_body in HB. destruct (papply q vz c) as [q' w] eqn:Ep.
      assert (Ew : w = W c) by (rewrite <- (Hp q c), Ep; reflexivity). subst w. injection HB as <- _.
      set (lam := if is0 def then r0 else kdiv (dot (W c) c) (dot (A (W c)) (W c))).
      split; [split; [rewrite Hc; apply vsub_axpy, LA|reflexivity]|].
      exists y, lam. rewrite <- Hc. split; [reflexivity|].
      rewrite (sp_add _ HD), (sp_scale _ HD).
      destruct (kz_dec_v D nrm is0 Hn c) as [Zc|Zc].
      { rewrite Zc, (lin0 W) by apply HW. rewrite !(dot_0_r dot kdiv HK HD). ncring. }
      assert (E1 : is0 def = false).
      { destruct (is0 def) eqn:E; [|reflexivity]. exfalso. rewrite Hdf in E. apply Hn in E. contradiction. }
      unfold lam. rewrite E1.
      assert (Nz : dot (A (W c)) (W c) <> r0).
      { intros E. apply Zc. apply (de_aniso _ _ HW). rewrite (sp_sym _ HD) in E. apply (de_aniso _ _ HA) in E. rewrite E. apply (dot_0_r dot kdiv HK HD). }
      assert (E3 := proj2 HK (dot (W c) c) _ Nz).
      replace (rmul (ropp (kdiv (dot (W c) c) (dot (A (W c)) (W c)))) (dot (A (W c)) (W c))) with (ropp (rmul (kdiv (dot (W c) c) (dot (A (W c)) (W c))) (dot (A (W c)) (W c)))) by ncring.
      rewrite E3, (sp_sym _ HD). ncring. }
    assert (I : forall n k s it s' it', (let '(_, x, b, def) := s in (b = vsub b1 (A x) /\ def = nrm b) /\ (i_i D it = 0 /\ x = x1 \/ Last x b)) ->
      iterate D finite lt_ mul_ tiny reduction (grad_body (K := K) D A dot nrm kdiv is0 P papply) (fun s => Ok s) n (S k) s it = Ok (s', it') ->
      let '(_, x, b, def) := s' in b = vsub b1 (A x) /\ (i_i D it' = 0 /\ x = x1 \/ Last x b)).
    { clear EC H1 E2 H3 H4. clear it p2 x2 b2 d2. induction n as [|n IH]; intros k s it s' it' HI HH; cbn [iterate] in HH.
      - injection HH as <- <-. destruct s as [[[q y] c] def]. destruct HI as [[E _] Alt]. auto.
      - destruct (grad_body D A dot nrm kdiv is0 P papply s) as [[s1 e]| |] eqn:EB; cbn [obind fst snd] in HH; try discriminate.
        assert (B1 := B s s1 e). destruct s as [[[q y] c] def]. specialize (B1 (proj1 HI) EB). clear HI EB.
        destruct (step D finite lt_ mul_ tiny reduction (S k) e it) as [it1| |]; cbn [obind] in HH; try discriminate.
        destruct s1 as [[[q1 y1] c1] def1]. destruct B1 as [B1 B2]. destruct (i_conv D it1).
        + injection HH as <- <-. split; [apply B1|right; exact B2].
        + cbn [obind] in HH. apply (IH (S k) (q1, y1, c1, def1) it1 s' it'); [split; [exact B1|right; exact B2]|exact HH]. }
    unfold control in EC. destruct (step _ _ _ _ _ _ 0 _ _) as [it0| |] eqn:ES; cbn [obind] in EC; try discriminate.
    assert (Ei : i_i D it0 = 0).
    { unfold step in ES. destruct (negb (finite _)); [discriminate|]. injection ES as <-. reflexivity. }
    assert (Er : r_iterations D res = i_i D it) by (rewrite <- H3; cbn; apply Nat.div_1_r). rewrite Er.
    destruct (i_conv D it0).
    - injection EC as <- <- <- _ <-. split; [reflexivity|]. left. auto.
    - cbn [obind] in EC. refine (I maxit 0 _ it0 _ _ _ EC). split; [split; reflexivity|left; auto].
  Qed.
End Statements.

(** ** The hypotheses hold for the plane over the rationals, the matrix ((4,1),(1,3)) and the Jacobi preconditioner *)
Definition exW (v : Qcplane) : Qcplane := ((fst v / Q2Qc 4)%Qc, (snd v / Q2Qc 3)%Qc).
Lemma ex_field : field (K := Qcring) exDiv.
Proof. split; [intros; cbn; ring|]. intros a b H. unfold exDiv. cbn. field. exact H. Qed.
Lemma ex_sp : scalar_product (V := Qcplane) exDot.
Proof. split; intros; unfold exDot; cbn; ring. Qed.
Lemma Qcsq_nonneg (a : Qc) : (0 <= a * a)%Qc.
Proof.
  destruct (Qclt_le_dec a 0) as [L|L].
  - replace (a * a)%Qc with ((- a) * (- a))%Qc by ring. rewrite <- (Qcmult_0_l (- a)). apply Qcmult_le_compat_r.
    + replace 0%Qc with (- 0)%Qc by ring. apply Qcopp_le_compat, Qclt_le_weak, L.
    + replace 0%Qc with (- 0)%Qc by ring. apply Qcopp_le_compat, Qclt_le_weak, L.
  - rewrite <- (Qcmult_0_l a). apply Qcmult_le_compat_r; exact L.
Qed.
Lemma Qcsum0 (a b : Qc) : (0 <= a -> 0 <= b -> a + b = 0 -> a = 0)%Qc.
Proof.
  intros Ha Hb E. apply Qcle_antisym; [|exact Ha]. rewrite <- E. rewrite <- (Qcplus_0_r a) at 1. apply Qcplus_le_compat; [apply Qcle_refl|exact Hb].
Qed.
Lemma Qcsq0 (a : Qc) : (a * a = 0 -> a = 0)%Qc.
Proof. intros H. apply Qcmult_integral in H. destruct H; auto. Qed.
Lemma ex_A : definite (V := Qcplane) exDot exA.
Proof.
  split; [apply exA_linear|intros a b; unfold exDot, exA; cbn; ring|].
  intros [a b] H. unfold exDot, exA in H. cbn in H.
  assert (E : ((a + b) * (a + b) + (a * a + a * a + a * a + (b * b + b * b)) = 0)%Qc).
  { rewrite <- H. replace (Q2Qc 4) with (1 + 1 + 1 + 1)%Qc by (apply Qc_is_canon; reflexivity). replace (Q2Qc 3) with (1 + 1 + 1)%Qc by (apply Qc_is_canon; reflexivity). ring. }
  assert (P2 : forall x y, (0 <= x -> 0 <= y -> 0 <= x + y)%Qc) by (intros x y Hx Hy; rewrite <- (Qcplus_0_l 0); apply Qcplus_le_compat; auto).
  rewrite Qcplus_comm in E. apply Qcsum0 in E; [|repeat apply P2; apply Qcsq_nonneg|apply Qcsq_nonneg].
  assert (E2 := E). apply Qcsum0 in E; [|repeat apply P2; apply Qcsq_nonneg|repeat apply P2; apply Qcsq_nonneg].
  rewrite Qcplus_comm in E2. apply Qcsum0 in E2; [|repeat apply P2; apply Qcsq_nonneg|repeat apply P2; apply Qcsq_nonneg].
  rewrite Qcplus_comm in E. apply Qcsum0 in E; [|apply Qcsq_nonneg|repeat apply P2; apply Qcsq_nonneg].
  apply Qcsum0 in E2; [|apply Qcsq_nonneg|apply Qcsq_nonneg].
  apply Qcsq0 in E. apply Qcsq0 in E2. cbn. congruence.
Qed.
Lemma ex_W : definite (V := Qcplane) exDot exW.
Proof.
  split.
  - split; intros; unfold exW; cbn; f_equal; unfold Qcdiv; ring.
  - intros a b; unfold exDot, exW; cbn; unfold Qcdiv; ring.
  - intros [a b] H. unfold exDot, exW in H. cbn in H.
    assert (E : ((a * a + a * a + a * a) + (b * b + b * b + b * b + b * b) = 0)%Qc).
    { replace (a * a + a * a + a * a + (b * b + b * b + b * b + b * b))%Qc with (Q2Qc 12 * (a * (a / Q2Qc 4) + b * (b / Q2Qc 3)))%Qc; [rewrite H; ring|].
      unfold Qcdiv. replace (/ Q2Qc 4)%Qc with (Q2Qc (1#4)) by (apply Qc_is_canon; reflexivity). replace (/ Q2Qc 3)%Qc with (Q2Qc (1#3)) by (apply Qc_is_canon; reflexivity).
      replace (Q2Qc 12 * (a * (a * Q2Qc (1 # 4)) + b * (b * Q2Qc (1 # 3))))%Qc with ((Q2Qc 12 * Q2Qc (1#4)) * (a * a) + (Q2Qc 12 * Q2Qc (1#3)) * (b * b))%Qc by ring.
      replace (Q2Qc 12 * Q2Qc (1 # 4))%Qc with (1 + 1 + 1)%Qc by (apply Qc_is_canon; reflexivity).
      replace (Q2Qc 12 * Q2Qc (1 # 3))%Qc with (1 + 1 + 1 + 1)%Qc by (apply Qc_is_canon; reflexivity). ring. }
    assert (P2 : forall x y, (0 <= x -> 0 <= y -> 0 <= x + y)%Qc) by (intros x y Hx Hy; rewrite <- (Qcplus_0_l 0); apply Qcplus_le_compat; auto).
    assert (E2 := E). apply Qcsum0 in E; [|repeat apply P2; apply Qcsq_nonneg|repeat apply P2; apply Qcsq_nonneg].
    rewrite Qcplus_comm in E2. apply Qcsum0 in E2; [|repeat apply P2; apply Qcsq_nonneg|repeat apply P2; apply Qcsq_nonneg].
    rewrite Qcplus_comm in E, E2. apply Qcsum0 in E; [|apply Qcsq_nonneg|repeat apply P2; apply Qcsq_nonneg].
    apply Qcsum0 in E2; [|apply Qcsq_nonneg|repeat apply P2; apply Qcsq_nonneg].
    apply Qcsq0 in E. apply Qcsq0 in E2. cbn. congruence.
Qed.
Lemma absQ_nonneg a : (0 <= absQ a)%Qc.
Proof.
  unfold absQ, ltQ. destruct (Qccompare a 0) eqn:E.
  - apply Qceq_alt in E. subst. apply Qcle_refl.
  - apply Qclt_alt in E. replace 0%Qc with (- 0)%Qc by ring. apply Qcopp_le_compat, Qclt_le_weak, E.
  - apply Qcgt_alt in E. apply Qclt_le_weak, E.
Qed.
Lemma absQ_0 a : absQ a = 0%Qc -> a = 0%Qc.
Proof. unfold absQ. destruct (ltQ a 0); intros H; [|exact H]. replace a with (- - a)%Qc by ring. rewrite H. ring. Qed.
Lemma ex_nrm (v : Qcplane) : exIs0 (exNrm v) = true <-> v = vz.
Proof.
  unfold exIs0. destruct (Qc_eq_dec (exNrm v) 0) as [E|E]; split; intros H; try discriminate; auto.
  - destruct v as [a b]. unfold exNrm in E. cbn in E. cbn. assert (E2 := E).
    apply Qcsum0 in E; [|apply absQ_nonneg|apply absQ_nonneg]. rewrite Qcplus_comm in E2. apply Qcsum0 in E2; [|apply absQ_nonneg|apply absQ_nonneg].
    apply absQ_0 in E. apply absQ_0 in E2. congruence.
  - subst. exfalso. apply E. reflexivity.
Qed.
(** all hypotheses of C50 together; and [ex_cg] in Solvers.v shows runs of this solver that take two and one iterations *)
Example C50_example : field (K := Qcring) exDiv /\ scalar_product (V := Qcplane) exDot /\ definite (V := Qcplane) exDot exA /\ definite (V := Qcplane) exDot exW /\
  (forall v, exIs0 (exNrm v) = true <-> v = vz) /\ (forall p b, snd (exPapply p vz b) = exW b) /\ summary (run_cg 20) = Some (2, 2, true, 3).
Proof. repeat (split; [first [apply ex_field|apply ex_sp|apply ex_A|apply ex_W|apply ex_nrm|reflexivity]|]). vm_compute. reflexivity. Qed.
Print Assumptions C50_cg_galerkin.
Print Assumptions C50_cg_optimal.
Print Assumptions C50_cg_terminates.
Print Assumptions C50_gradient.
