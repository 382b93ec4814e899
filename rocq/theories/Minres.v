(** * MINRESSolver in exact arithmetic (C51)

    Model: [minres_apply] of Solvers.v (solvers.hh:624-770).  Real scalars; the rotation returned by
    generateGivensRotation is taken to be exact (C29 proves that of its code). *)
From Coq Require Import Arith List Lia Bool ZArith QArith Qcanon.
From Coq Require Import setoid_ring.Ring.
From Verif Require Import Ring Sums RingInst Outcome Solvers CgExact VRing.
Import ListNotations.
Open Scope nat_scope.

Section Windows.
  Context {X : Type}.
  Lemma win3_new (l : list X) i v d : length l = 3 -> nth (S i mod 3) (upd l ((i mod 3 + 1) mod 3) v) d = v.
  Proof.
    intros H. assert (E : S i mod 3 = (i mod 3 + 1) mod 3) by (rewrite Nat.add_mod_idemp_l by lia; f_equal; lia).
    rewrite E. assert (L : (i mod 3 + 1) mod 3 < 3) by (apply Nat.mod_upper_bound; lia).
    rewrite nth_upd, Nat.eqb_refl, H. apply Nat.ltb_lt in L. rewrite L. reflexivity.
  Qed.
  Lemma win3_old (l : list X) i v d : nth ((S i mod 3 + 2) mod 3) (upd l ((i mod 3 + 1) mod 3) v) d = nth (i mod 3) l d.
  Proof.
    assert (E : (S i mod 3 + 2) mod 3 = i mod 3).
    { rewrite Nat.add_mod_idemp_l by lia. replace (S i + 2) with (i + 1 * 3) by lia. apply Nat.mod_add. lia. }
    rewrite E, nth_upd. assert (L : i mod 3 < 3) by (apply Nat.mod_upper_bound; lia).
    destruct ((i mod 3 + 1) mod 3 =? i mod 3) eqn:Q; [|reflexivity]. apply Nat.eqb_eq in Q.
    exfalso. destruct (i mod 3) as [|[|[|k]]]; cbn in Q; lia.
  Qed.
  Lemma mod2_other i : (i + 1) mod 2 <> i mod 2.
  Proof.
    assert (L : i mod 2 < 2) by (apply Nat.mod_upper_bound; lia). rewrite <- Nat.add_mod_idemp_l by lia.
    destruct (i mod 2) as [|[|k]]; cbn; lia.
  Qed.
  Lemma mod2_back i : (S i + 1) mod 2 = i mod 2.
  Proof. replace (S i + 1) with (i + 1 * 2) by lia. apply Nat.mod_add. lia. Qed.
  Lemma win2_new (l : list X) i v d : length l = 2 -> nth (i mod 2) (upd l (i mod 2) v) d = v.
  Proof.
    intros H. rewrite nth_upd, Nat.eqb_refl, H. assert (L : i mod 2 < 2) by (apply Nat.mod_upper_bound; lia).
    apply Nat.ltb_lt in L. rewrite L. reflexivity.
  Qed.
  Lemma win2_old (l : list X) i v d : nth ((i + 1) mod 2) (upd l (i mod 2) v) d = nth ((i + 1) mod 2) l d.
  Proof. rewrite nth_upd. destruct (i mod 2 =? (i + 1) mod 2) eqn:Q; [|reflexivity]. apply Nat.eqb_eq in Q. exfalso. apply (mod2_other i). congruence. Qed.
  Lemma win2_old' (l : list X) i v d : length l = 2 -> nth (i mod 2) (upd l ((i + 1) mod 2) v) d = nth (i mod 2) l d.
  Proof. intros _. rewrite nth_upd. destruct ((i + 1) mod 2 =? i mod 2) eqn:Q; [|reflexivity]. apply Nat.eqb_eq in Q. exfalso. exact (mod2_other i Q). Qed.
  Lemma win2_new' (l : list X) i v d : length l = 2 -> nth ((i + 1) mod 2) (upd l ((i + 1) mod 2) v) d = v.
  Proof.
    intros H. rewrite nth_upd, Nat.eqb_refl, H. assert (L : (i + 1) mod 2 < 2) by (apply Nat.mod_upper_bound; lia).
    apply Nat.ltb_lt in L. rewrite L. reflexivity.
  Qed.
End Windows.

(** selfadjoint and invertible, but possibly indefinite *)
Record indefinite {K : ring} {V : vspace K} (dot : V -> V -> K) (B : V -> V) : Prop := {
  in_linear : linear B;
  in_adj : forall a b, dot (B a) b = dot a (B b);
  in_inj : forall v, B v = vz -> v = vz }.
(** givens dx dy = (c,s): a rotation that annihilates dy *)
Definition exact_rotation {K : ring} (givens : K -> K -> K * K) : Prop :=
  forall dx dy, ~ (dx = r0 /\ dy = r0) -> let '(c, s) := givens dx dy in
    radd (rmul c c) (rmul s s) = r1 /\ radd (rmul (ropp s) dx) (rmul c dy) = r0.

Section Core.
  Context {K : ring} {V : vspace K}.
  Variables (A W : V -> V) (dot : V -> V -> K) (kdiv : K -> K -> K).
  Hypothesis HK : field kdiv.
  Hypothesis HD : scalar_product dot.
  Hypothesis HA : indefinite dot A.
  Hypothesis HW : definite dot W.
  Variables (b1 x1 r : V).

  Lemma kring_theory' : ring_theory (r0 : K) r1 radd rmul rsub ropp eq.
  Proof. constructor; intros; try ncring; auto. apply HK. Qed.
  Add Ring kring' : kring_theory'.
  Ltac kr := intros; ring.
  Ltac vr := vring ltac:(solve [ring]).

  Local Notation kry := (krylov A W r).
  Local Notation ks := (kspace A W r).
  Lemma dar a b c : dot a (vadd b c) = radd (dot a b) (dot a c).
  Proof. apply dot_add_r, HD. Qed.
  Lemma dsr k a b : dot a (vscale k b) = rmul k (dot a b).
  Proof. apply dot_scale_r, HD. Qed.
  Lemma dal a b c : dot (vadd a b) c = radd (dot a c) (dot b c).
  Proof. apply HD. Qed.
  Lemma dsl k a c : dot (vscale k a) c = rmul k (dot a c).
  Proof. apply HD. Qed.
  Lemma d0r a : dot a vz = r0.
  Proof. apply (dot_0_r dot kdiv HK HD). Qed.
  Lemma d0l a : dot vz a = r0.
  Proof. rewrite (sp_sym _ HD). apply d0r. Qed.
  Lemma Aadd a b : A (vadd a b) = vadd (A a) (A b).
  Proof. apply HA. Qed.
  Lemma Ascale k a : A (vscale k a) = vscale k (A a).
  Proof. apply HA. Qed.
  Lemma Wadd a b : W (vadd a b) = vadd (W a) (W b).
  Proof. apply HW. Qed.
  Lemma Wscale k a : W (vscale k a) = vscale k (W a).
  Proof. apply HW. Qed.
  Lemma A0 : A vz = vz.
  Proof. apply lin0, HA. Qed.
  Lemma W0 : W vz = vz.
  Proof. apply lin0, HW. Qed.
  Lemma Asym a b : dot (A a) b = dot a (A b).
  Proof. apply HA. Qed.
  Lemma Wsym a b : dot (W a) b = dot a (W b).
  Proof. apply HW. Qed.
  Ltac dsimp := repeat rewrite ?Aadd, ?Ascale, ?Wadd, ?Wscale, ?dar, ?dsr, ?dal, ?dsl.

  Lemma ksp m y z : ks m y -> ks m z -> ks m (vadd y z).
  Proof. apply ks_plus. Qed.
  Lemma kss m k y : ks m y -> ks m (vscale k y).
  Proof. apply (ks_scale A kdiv W HK). Qed.
  Lemma ksn m y : ks m y -> ks (S m) (W (A y)).
  Proof.
    induction 1 as [|c i y Hi Hy IH]; [rewrite A0, W0; constructor|]. rewrite Aadd, Ascale, Wadd, Wscale.
    change (W (A (kry i))) with (kry (S i)). constructor; [lia|assumption].
  Qed.
  Lemma ksm m n y : m <= n -> ks m y -> ks n y.
  Proof. apply ks_mono. Qed.
  Lemma ext k (phi : V -> K) z c l : (forall a b, phi (vadd a b) = radd (phi a) (phi b)) -> (forall s a, phi (vscale s a) = rmul s (phi a)) ->
    c <> r0 -> ks k l -> z = vadd (vscale c (kry k)) l -> (forall y, ks k y -> phi y = r0) -> phi z = r0 -> forall y, ks (S k) y -> phi y = r0.
  Proof. intros H1 H2 H3 H4 -> H5 H6. exact (extend A kdiv W HK r k phi c l H1 H2 H3 H4 H5 H6). Qed.

  (** the state of the recurrences before pass i = 1, 2, ... : current and previous Lanczos vectors Qi, Qp; last two directions pi, pp;
      t with residual = beta0 xi t *)
  Record inv (i : nat) (x Qi Qp pi pp t : V) (beta b0 xi : K) : Prop := {
    v_pos : 1 <= i;
    v_res : vsub b1 (A x) = vscale (rmul b0 xi) t;
    v_kx : ks (i - 1) (vsub x x1);
    v_Qo : forall w, ks (i - 1) w -> dot Qi w = r0;
    v_Qn : dot Qi (W Qi) = r1;
    v_Po : forall w, ks (i - 2) w -> dot Qp w = r0;
    v_first : i = 1 -> Qp = vz /\ t = Qi /\ pi = vz /\ pp = vz;
    v_Pn : 1 < i -> dot Qp (W Qp) = r1;
    v_N1 : 1 < i -> dot (A (W Qp)) (W Qi) = beta;
    v_zc : exists c l, c <> r0 /\ ks (i - 1) l /\ W Qi = vadd (vscale c (kry (i - 1))) l;
    v_zp : 1 < i -> exists c l, c <> r0 /\ ks (i - 2) l /\ W Qp = vadd (vscale c (kry (i - 2))) l;
    v_kpi : ks (i - 1) pi;
    v_kpp : ks (i - 1) pp;
    v_t : forall y, ks (i - 1) y -> dot t (W (A y)) = r0;
    v_tn : dot t (W t) = r1;
    v_tk : ks i (W t) }.

  Section Step.
    Variables (i : nat) (x Qi Qp pi pp t : V) (beta b0 xi : K).
    Hypothesis HI : inv i x Qi Qp pi pp t beta b0 xi.
    Hypothesis H10 : (r1 : K) <> r0.
    Let z := W Qi.
    Let q1 := vadd (A z) (vscale (ropp beta) Qp).
    Let alpha := dot z q1.
    Let q2 := vadd q1 (vscale (ropp alpha) Qi).

    Lemma z_ks : ks i z.
    Proof.
      destruct (v_zc _ _ _ _ _ _ _ _ _ _ HI) as (c & l & Hc & Hl & E). assert (Hi := v_pos _ _ _ _ _ _ _ _ _ _ HI).
      unfold z. rewrite E. apply ksp; [apply kss, ks_kry; lia|]. apply (ksm (i - 1)); [lia|exact Hl].
    Qed.
    Lemma zQp : dot Qp z = r0.
    Proof.
      assert (Hi := v_pos _ _ _ _ _ _ _ _ _ _ HI). destruct (Nat.eq_dec i 1) as [E|N].
      - destruct (v_first _ _ _ _ _ _ _ _ _ _ HI E) as (-> & _). apply d0l.
      - unfold z. rewrite <- Wsym, (sp_sym _ HD). apply (v_Qo _ _ _ _ _ _ _ _ _ _ HI).
        destruct (v_zp _ _ _ _ _ _ _ _ _ _ HI ltac:(lia)) as (c & l & Hc & Hl & ->).
        apply ksp; [apply kss, ks_kry; lia|]. apply (ksm (i - 2)); [lia|exact Hl].
    Qed.
    (** the new Lanczos vector is orthogonal to the Krylov space built so far *)
    Lemma q2_orth w : ks i w -> dot q2 w = r0.
    Proof.
      assert (Hi := v_pos _ _ _ _ _ _ _ _ _ _ HI).
      assert (Q0 : forall w, ks (i - 1) w -> dot Qi w = r0) by apply HI.
      assert (Zz : dot q2 z = r0).
      { unfold q2. rewrite dal, dsl. unfold z at 2. rewrite (v_Qn _ _ _ _ _ _ _ _ _ _ HI). unfold alpha. rewrite (sp_sym _ HD z q1). ring. }
      assert (Low : forall w, ks (i - 1) w -> dot q2 w = r0).
      { destruct (Nat.eq_dec i 1) as [E|N].
        { intros u Hu. rewrite E in Hu. inversion Hu; subst; [apply d0r|lia]. }
        assert (E2 : i - 1 = S (i - 2)) by lia. rewrite E2.
        destruct (v_zp _ _ _ _ _ _ _ _ _ _ HI ltac:(lia)) as (c & l & Hc & Hl & Ez).
        refine (ext (i - 2) (fun w => dot q2 w) (W Qp) c l _ _ Hc Hl Ez _ _); [intros; apply dar|intros; apply dsr| |].
        - intros u Hu. unfold q2, q1. dsimp. rewrite (v_Po _ _ _ _ _ _ _ _ _ _ HI u Hu), (Q0 u) by (apply (ksm (i - 2)); [lia|exact Hu]).
          rewrite Asym. unfold z. rewrite Wsym. rewrite Q0; [ring|]. rewrite E2. apply ksn, Hu.
        - assert (E3 : dot Qi (W Qp) = r0) by (rewrite <- Wsym, (sp_sym _ HD); apply zQp).
          unfold q2, q1. dsimp. rewrite (v_Pn _ _ _ _ _ _ _ _ _ _ HI ltac:(lia)), E3.
          rewrite (sp_sym _ HD (A z)), <- Asym. unfold z. rewrite (v_N1 _ _ _ _ _ _ _ _ _ _ HI ltac:(lia)). ring. }
      destruct (v_zc _ _ _ _ _ _ _ _ _ _ HI) as (c & l & Hc & Hl & Ez).
      replace i with (S (i - 1)) by lia.
      refine (ext (i - 1) (fun w => dot q2 w) z c l _ _ Hc Hl Ez Low Zz w); [intros; apply dar|intros; apply dsr].
    Qed.

    Variables (beta' T0 T1 T2 cs sn : K).
    Hypothesis Hbeta : rmul beta' beta' = dot q2 (W q2).
    (** what the rotations kept in T[0], T[1], T[2] are *)
    Hypothesis HT : A z = vadd (vadd (vscale T0 (A pp)) (vscale T1 (A pi))) (vadd (vscale T2 t) q2).
    Hypothesis Hg : ~ (T2 = r0 /\ beta' = r0) -> radd (rmul cs cs) (rmul sn sn) = r1 /\ radd (rmul (ropp sn) T2) (rmul cs beta') = r0.
    Let T2' := radd (rmul cs T2) (rmul sn beta').
    Let d := vscale (kdiv r1 T2') (vadd (vadd z (vscale (ropp T1) pi)) (vscale (ropp T0) pp)).
    Let x' := vadd x (vscale (rmul b0 (rmul xi cs)) d).
    Let xi' := ropp (rmul sn xi).
    Let Qn := vscale (kdiv r1 beta') q2.
    Let t' := vadd (vscale (ropp sn) t) (vscale cs Qn).

    Lemma beta0_q2 : beta' = r0 -> q2 = vz.
    Proof. intros E. apply (de_aniso _ _ HW). rewrite <- Hbeta, E. ring. Qed.

    (** the operator is injective, so the tridiagonal matrix has full rank *)
    Lemma full_rank : ~ (T2 = r0 /\ beta' = r0).
    Proof.
      intros [E1 E2]. assert (E3 := beta0_q2 E2). rewrite E1, E3 in HT.
      assert (E4 : vsub z (vadd (vscale T0 pp) (vscale T1 pi)) = vz).
      { apply (in_inj _ _ HA). unfold vsub. rewrite Aadd, Ascale, Aadd, !Ascale, HT. vr. }
      assert (E5 : z = vadd (vscale T0 pp) (vscale T1 pi)).
      { replace z with (vadd (vsub z (vadd (vscale T0 pp) (vscale T1 pi))) (vadd (vscale T0 pp) (vscale T1 pi))) by vr. rewrite E4. vr. }
      apply H10. rewrite <- (v_Qn _ _ _ _ _ _ _ _ _ _ HI). fold z. apply (v_Qo _ _ _ _ _ _ _ _ _ _ HI).
      rewrite E5. apply ksp; apply kss; apply HI.
    Qed.
    Lemma rot1 : radd (rmul cs cs) (rmul sn sn) = r1.
    Proof. apply Hg, full_rank. Qed.
    Lemma rot2 : radd (rmul (ropp sn) T2) (rmul cs beta') = r0.
    Proof. apply Hg, full_rank. Qed.
    Lemma T2'_nz : T2' <> r0.
    Proof.
      intros E. apply full_rank.
      assert (R1 := rot1). assert (R2 := rot2). unfold T2' in E.
      split.
      - replace T2 with (radd (rmul cs (radd (rmul cs T2) (rmul sn beta'))) (rmul (ropp sn) (radd (rmul (ropp sn) T2) (rmul cs beta')))); [rewrite E, R2; ring|].
        replace (radd (rmul cs (radd (rmul cs T2) (rmul sn beta'))) (rmul (ropp sn) (radd (rmul (ropp sn) T2) (rmul cs beta')))) with (rmul (radd (rmul cs cs) (rmul sn sn)) T2) by ring.
        rewrite R1. ring.
      - replace beta' with (radd (rmul sn (radd (rmul cs T2) (rmul sn beta'))) (rmul cs (radd (rmul (ropp sn) T2) (rmul cs beta')))); [rewrite E, R2; ring|].
        replace (radd (rmul sn (radd (rmul cs T2) (rmul sn beta'))) (rmul cs (radd (rmul (ropp sn) T2) (rmul cs beta')))) with (rmul (radd (rmul cs cs) (rmul sn sn)) beta') by ring.
        rewrite R1. ring.
    Qed.
    Hypothesis Hdec : beta' = r0 \/ beta' <> r0.
    Lemma kinv' a : a <> (r0 : K) -> rmul (kdiv r1 a) a = r1.
    Proof. apply HK. Qed.
    Lemma kcancel a b : a <> (r0 : K) -> rmul a b = r0 -> b = r0.
    Proof.
      intros Ha E. replace b with (rmul (rmul (kdiv r1 a) a) b) by (rewrite kinv' by auto; ring).
      replace (rmul (rmul (kdiv r1 a) a) b) with (rmul (kdiv r1 a) (rmul a b)) by ring. rewrite E. ring.
    Qed.
    Lemma q2_Qn : q2 = vscale beta' Qn.
    Proof.
      destruct Hdec as [E|E].
      - rewrite E, vscale_0. apply beta0_q2, E.
      - unfold Qn. rewrite <- vscale_mul. replace (rmul beta' (kdiv r1 beta')) with (rmul (kdiv r1 beta') beta') by ring. rewrite kinv' by exact E. rewrite vscale_1. reflexivity.
    Qed.
    Lemma d_ks : ks i d.
    Proof.
      assert (Hi := v_pos _ _ _ _ _ _ _ _ _ _ HI).
      unfold d. apply kss, ksp; [apply ksp; [apply z_ks|]|]; apply kss, (ksm (i - 1)); try lia; apply HI.
    Qed.
    (** A d is the rotated basis vector *)
    Lemma A_d : A d = vadd (vscale cs t) (vscale sn Qn).
    Proof.
      assert (E : vadd (vadd (A z) (vscale (ropp T1) (A pi))) (vscale (ropp T0) (A pp)) = vscale T2' (vadd (vscale cs t) (vscale sn Qn))).
      { rewrite HT, q2_Qn. unfold T2'. assert (R1 := rot1). assert (R2 := rot2).
        assert (E1 : T2 = rmul (radd (rmul cs T2) (rmul sn beta')) cs).
        { replace (rmul (radd (rmul cs T2) (rmul sn beta')) cs) with (radd (rmul (radd (rmul cs cs) (rmul sn sn)) T2) (rmul sn (radd (rmul (ropp sn) T2) (rmul cs beta')))) by ring. rewrite R1, R2. ring. }
        assert (E2 : beta' = rmul (radd (rmul cs T2) (rmul sn beta')) sn).
        { replace (rmul (radd (rmul cs T2) (rmul sn beta')) sn) with (radd (rmul (radd (rmul cs cs) (rmul sn sn)) beta') (ropp (rmul cs (radd (rmul (ropp sn) T2) (rmul cs beta'))))) by ring. rewrite R1, R2. ring. }
        rewrite vscale_add_r, <- !vscale_mul, <- E1, <- E2. vr. }
      unfold d. rewrite Ascale, !Aadd, !Ascale, E, <- vscale_mul, kinv' by apply T2'_nz. apply vscale_1.
    Qed.
    Lemma res' : vsub b1 (A x') = vscale (rmul b0 xi') t'.
    Proof.
      assert (E : vsub b1 (A x') = vadd (vsub b1 (A x)) (vscale (ropp (rmul b0 (rmul xi cs))) (A d))).
      { unfold x'. rewrite Aadd, Ascale. vr. }
      rewrite E, (v_res _ _ _ _ _ _ _ _ _ _ HI), A_d. unfold xi', t'. assert (R1 := rot1).
      assert (E1 : rmul b0 xi = rmul (radd (rmul cs cs) (rmul sn sn)) (rmul b0 xi)) by (rewrite R1; ring).
      rewrite E1. vr.
    Qed.
    Lemma kx' : ks i (vsub x' x1).
    Proof.
      assert (Hi := v_pos _ _ _ _ _ _ _ _ _ _ HI).
      replace (vsub x' x1) with (vadd (vsub x x1) (vscale (rmul b0 (rmul xi cs)) d)) by (unfold x'; vr).
      apply ksp; [apply (ksm (i - 1)); [lia|apply HI]|]. apply kss, d_ks.
    Qed.
    Lemma xi'_0 : beta' = r0 -> xi' = r0.
    Proof.
      intros E. assert (R2 := rot2). rewrite E in R2. assert (N2 : T2 <> r0) by (intros F; apply full_rank; auto).
      assert (S0 : sn = r0). { apply (kcancel T2); [exact N2|]. replace (rmul T2 sn) with (ropp (radd (rmul (ropp sn) T2) (rmul cs r0))) by ring. rewrite R2. ring. }
      unfold xi'. rewrite S0. ring.
    Qed.
    Lemma Qn_orth w : ks i w -> dot Qn w = r0.
    Proof. intros H. unfold Qn. rewrite dsl, (q2_orth w H). ring. Qed.
    Lemma Qn_n : beta' <> r0 -> dot Qn (W Qn) = r1.
    Proof.
      intros N. unfold Qn. rewrite Wscale, dsl, dsr, <- Hbeta.
      replace (rmul (kdiv r1 beta') (rmul (kdiv r1 beta') (rmul beta' beta'))) with (rmul (rmul (kdiv r1 beta') beta') (rmul (kdiv r1 beta') beta')) by ring.
      rewrite kinv' by exact N. ring.
    Qed.
    Lemma t'_orth : beta' <> r0 -> forall y, ks i y -> dot t' (W (A y)) = r0.
    Proof.
      intros N. assert (Hi := v_pos _ _ _ _ _ _ _ _ _ _ HI).
      assert (Low : forall y, ks (i - 1) y -> dot t' (W (A y)) = r0).
      { intros y Hy. unfold t'. rewrite dal, !dsl, (v_t _ _ _ _ _ _ _ _ _ _ HI y Hy), Qn_orth; [ring|]. replace i with (S (i - 1)) by lia. apply ksn, Hy. }
      destruct (v_zc _ _ _ _ _ _ _ _ _ _ HI) as (c & l & Hc & Hl & Ez).
      replace i with (S (i - 1)) by lia.
      refine (ext (i - 1) (fun y => dot t' (W (A y))) z c l _ _ Hc Hl Ez Low _); [intros; rewrite Aadd, Wadd; apply dar|intros; rewrite Ascale, Wscale; apply dsr|].
      rewrite HT, q2_Qn, !Wadd, !Wscale, !dar, !dsr.
      rewrite (Low pi) by apply HI. rewrite (Low pp) by apply HI.
      assert (E1 : dot t' (W t) = ropp sn).
      { unfold t'. rewrite dal, !dsl, (v_tn _ _ _ _ _ _ _ _ _ _ HI), (Qn_orth _ (v_tk _ _ _ _ _ _ _ _ _ _ HI)). ring. }
      assert (E2 : dot t' (W Qn) = cs).
      { unfold t'. rewrite dal, !dsl, (Qn_n N). rewrite <- Wsym, (sp_sym _ HD), (Qn_orth _ (v_tk _ _ _ _ _ _ _ _ _ _ HI)). ring. }
      rewrite E1, E2. assert (R2 := rot2).
      replace (radd (radd (rmul T0 r0) (rmul T1 r0)) (radd (rmul T2 (ropp sn)) (rmul beta' cs))) with (radd (rmul (ropp sn) T2) (rmul cs beta')) by ring. exact R2.
    Qed.
    Lemma t'_n : beta' <> r0 -> dot t' (W t') = r1.
    Proof.
      intros N. unfold t'. rewrite Wadd, !Wscale, dal, !dsl, !dar, !dsr, (v_tn _ _ _ _ _ _ _ _ _ _ HI), (Qn_n N), (Qn_orth _ (v_tk _ _ _ _ _ _ _ _ _ _ HI)).
      rewrite <- (Wsym t Qn), (sp_sym _ HD (W t)), (Qn_orth _ (v_tk _ _ _ _ _ _ _ _ _ _ HI)). transitivity (radd (rmul cs cs) (rmul sn sn)); [ring|apply rot1].
    Qed.
    Lemma WQn_form : beta' <> r0 -> exists c l, c <> r0 /\ ks i l /\ W Qn = vadd (vscale c (kry i)) l.
    Proof.
      intros N. assert (Hi := v_pos _ _ _ _ _ _ _ _ _ _ HI). destruct (v_zc _ _ _ _ _ _ _ _ _ _ HI) as (c & l & Hc & Hl & Ez).
      exists (rmul (kdiv r1 beta') c), (vscale (kdiv r1 beta') (vadd (W (A l)) (vadd (vscale (ropp beta) (W Qp)) (vscale (ropp alpha) z)))).
      assert (Ni : kdiv r1 beta' <> r0) by (intros E; apply H10; rewrite <- (kinv' beta' N), E; ring).
      split; [|split].
      - intros E. apply Hc. exact (kcancel _ _ Ni E).
      - apply kss, ksp; [replace i with (S (i - 1)) by lia; apply ksn, Hl|]. apply ksp; apply kss; [|apply z_ks].
        destruct (Nat.eq_dec i 1) as [E|M]; [destruct (v_first _ _ _ _ _ _ _ _ _ _ HI E) as (-> & _); rewrite W0; constructor|].
        destruct (v_zp _ _ _ _ _ _ _ _ _ _ HI ltac:(lia)) as (c2 & l2 & Hc2 & Hl2 & ->).
        apply ksp; [apply kss, ks_kry; lia|]. apply (ksm (i - 2)); [lia|exact Hl2].
      - replace (kry i) with (W (A (kry (i - 1)))) by (replace i with (S (i - 1)) at 2 by lia; reflexivity).
        unfold Qn, q2, q1. rewrite !Wscale, !Wadd, !Wscale. unfold z at 1. rewrite Ez, !Aadd, !Ascale, !Wadd, !Wscale. change z with (W Qi). rewrite Ez. vr.
    Qed.

    Lemma inv_next : beta' <> r0 -> inv (S i) x' Qn Qi d pi t' beta' b0 xi'.
    Proof.
      intros N. assert (Hi := v_pos _ _ _ _ _ _ _ _ _ _ HI). replace (S i - 1) with i in * by lia.
      constructor; replace (S i - 1) with i by lia; replace (S i - 2) with (i - 1) by lia.
      - lia.
      - apply res'.
      - apply kx'.
      - apply Qn_orth.
      - apply Qn_n, N.
      - apply HI.
      - lia.
      - intros _. apply HI.
      - intros _. fold z. rewrite HT, q2_Qn. dsimp.
        assert (Op : forall y, ks (i - 1) y -> dot (A y) (W Qn) = r0).
        { intros y Hy. rewrite <- Wsym, (sp_sym _ HD). apply Qn_orth. replace i with (S (i - 1)) by lia. apply ksn, Hy. }
        rewrite (Op pp) by apply HI. rewrite (Op pi) by apply HI.
        assert (E2 : dot t (W Qn) = r0) by (rewrite <- Wsym, (sp_sym _ HD); apply Qn_orth, HI). rewrite E2, (Qn_n N). ring.
      - apply WQn_form, N.
      - intros _. apply HI.
      - apply d_ks.
      - apply (ksm (i - 1)); [lia|apply HI].
      - apply t'_orth, N.
      - apply t'_n, N.
      - unfold t'. rewrite Wadd, !Wscale. apply ksp; apply kss; [apply (ksm i); [lia|apply HI]|].
        destruct (WQn_form N) as (c & l & _ & Hl & ->). apply ksp; [apply kss, ks_kry; lia|]. apply (ksm i); [lia|exact Hl].
    Qed.
    (** what holds when the loop stops after this pass *)
    Lemma fin_step : ks i (vsub x' x1) /\ (forall y, ks i y -> dot (vsub b1 (A x')) (W (A y)) = r0) /\
      rmul (rmul b0 xi') (rmul b0 xi') = dot (vsub b1 (A x')) (W (vsub b1 (A x'))).
    Proof.
      split; [apply kx'|]. rewrite res'. destruct Hdec as [E|E].
      - rewrite (xi'_0 E). replace (rmul b0 r0) with (r0 : K) by ring. rewrite vscale_0. split; [intros y _; apply d0l|]. rewrite d0l. ring.
      - split; [intros y Hy; rewrite dsl, (t'_orth E y Hy); ring|]. rewrite Wscale, dsl, dsr, (t'_n E). ring.
    Qed.
  End Step.
End Core.

Lemma ok_pair {X Y} (a c : X) (b d : Y) : Ok (a, b) = Ok (c, d) -> a = c /\ b = d.
Proof. intros H. injection H. auto. Qed.

Lemma step_last D finite lt_ mul_ tiny reduction i d it it' : step D finite lt_ mul_ tiny reduction i d it = Ok it' ->
  exists l0, i_log D it' = l0 ++ [(i_i D it', i_def D it')].
Proof. unfold step. destruct (negb (finite d)); [discriminate|]. intros H. injection H as <-. cbn. eauto. Qed.
Lemma iterate_last D finite lt_ mul_ tiny reduction {S} (body : S -> outcome (S * D)) after n : forall i s it s' it',
  (exists l0, i_log D it = l0 ++ [(i_i D it, i_def D it)]) ->
  iterate D finite lt_ mul_ tiny reduction body after n i s it = Ok (s', it') -> exists l0, i_log D it' = l0 ++ [(i_i D it', i_def D it')].
Proof.
  induction n as [|n IH]; intros i s it s' it' HL H; cbn [iterate] in H; [injection H as <- <-; exact HL|].
  destruct (body s) as [[s1 e]| |]; cbn [obind fst snd] in H; try discriminate.
  destruct (step _ _ _ _ _ _ _ _ it) as [it1| |] eqn:ES; cbn [obind] in H; try discriminate. apply step_last in ES.
  destruct (i_conv D it1); [injection H as <- <-; exact ES|]. destruct (after s1); cbn [obind] in H; try discriminate. eauto.
Qed.

Section Run.
  Context {K : ring} {V : vspace K}.
  Variable D : Type.
  Variables (finite : D -> bool) (lt_ : D -> D -> bool) (mul_ div_ : D -> D -> D) (zero_ tiny : D).
  Variable reduction : D.
  Variable A : V -> V.
  Variable dot : V -> V -> K.
  Variable nrm : V -> D.
  Variable kdiv : K -> K -> K.
  Variable is0 : D -> bool.
  Variable P : Type.
  Variable pre : P -> V -> V -> P * V * V.
  Variable papply : P -> V -> V -> P * V.
  Variable post : P -> V -> P * V.
  Variable ksqrt : K -> K.
  Variable kabs : K -> D.
  Variable givens : K -> K -> K * K.
  Variable W : V -> V.
  (** everything assumed: exact scalars of a field with exact square roots where they are taken and exact rotations, an injective
      selfadjoint operator, an spd preconditioner, def == 0 only for a zero vector or scalar, and a zero defect counts as converged *)
  Hypothesis HK : field kdiv.
  Hypothesis HD : scalar_product dot.
  Hypothesis HA : indefinite dot A.
  Hypothesis HW : definite dot W.
  Hypothesis Hp : forall p b, snd (papply p vz b) = W b.
  Hypothesis Hs : forall v, rmul (ksqrt (dot v (W v))) (ksqrt (dot v (W v))) = dot v (W v).
  Hypothesis Hg : exact_rotation givens.
  Hypothesis Hn : forall v, is0 (nrm v) = true <-> v = vz.
  Hypothesis Ha : forall k, is0 (kabs k) = true <-> k = r0.
  Hypothesis Ht : forall e, is0 e = true -> lt_ e tiny = true.
  Hypothesis H10 : (r1 : K) <> r0.
  Notation body := (minres_body (K := K) (V := V) D A dot kdiv is0 P papply ksqrt kabs givens).
  Notation prep := (minres_prepare (K := K) (V := V) D dot kdiv is0 P ksqrt).
  Notation runf := (minres_apply (K := K) (V := V) D finite lt_ mul_ div_ zero_ tiny reduction A dot nrm kdiv is0 P pre papply post ksqrt kabs givens).
  Lemma kring_theory2 : ring_theory (r0 : K) r1 radd rmul rsub ropp eq.
  Proof. constructor; intros; try ncring; auto. apply HK. Qed.
  Add Ring kring2 : kring_theory2.
  Ltac vr := vring ltac:(solve [ring]).
  Lemma kdec (k : K) : k = r0 \/ k <> r0.
  Proof. destruct (is0 (kabs k)) eqn:E; [left; apply Ha, E|right]. intros F. apply Ha in F. congruence. Qed.

  Section Inv.
    Variables (b1 x1 : V).
    Let r := vsub b1 (A x1).
    Local Notation ks := (kspace A W r).
    Definition Rot (i : nat) (Qi Qp pi pp t : V) (c1 s1 c2 s2 : K) : Prop := 1 < i -> exists tp,
      Qp = vadd (vscale s2 (A pp)) (vscale c2 tp) /\ tp = vadd (vscale c1 (A pi)) (vscale (ropp s1) t) /\ Qi = vadd (vscale s1 (A pi)) (vscale c1 t).
    Definition SInv (i : nat) (s : mst D P) : Prop :=
      m_i D P s = i /\ is0 (m_def D P s) = false /\ length (m_q D P s) = 3 /\ length (m_dir D P s) = 3 /\
      length (m_c D P s) = 2 /\ length (m_s D P s) = 2 /\ length (m_xi D P s) = 2 /\
      m_z D P s = W (vnth (i mod 3) (m_q D P s)) /\
      knth 2 (m_T D P s) = (if 1 <? i then m_beta D P s else r0) /\ (i <= 2 -> knth 0 (m_T D P s) = r0) /\
      exists t, inv A W dot b1 x1 r i (m_x D P s) (vnth (i mod 3) (m_q D P s)) (vnth ((i mod 3 + 2) mod 3) (m_q D P s))
          (vnth (i mod 3) (m_dir D P s)) (vnth ((i mod 3 + 2) mod 3) (m_dir D P s)) t (m_beta D P s) (m_beta0 D P s) (knth ((i + 1) mod 2) (m_xi D P s)) /\
        Rot i (vnth (i mod 3) (m_q D P s)) (vnth ((i mod 3 + 2) mod 3) (m_q D P s)) (vnth (i mod 3) (m_dir D P s)) (vnth ((i mod 3 + 2) mod 3) (m_dir D P s)) t
          (knth ((i + 1) mod 2) (m_c D P s)) (knth ((i + 1) mod 2) (m_s D P s))
          (if 2 <? i then knth (i mod 2) (m_c D P s) else r1) (if 2 <? i then knth (i mod 2) (m_s D P s) else r0).
    Definition SFin (i : nat) (x : V) (def : D) : Prop :=
      ks i (vsub x x1) /\ (forall y, ks i y -> dot (vsub b1 (A x)) (W (A y)) = r0) /\
      (0 < i -> exists e, def = kabs e /\ rmul e e = dot (vsub b1 (A x)) (W (vsub b1 (A x)))).

    Lemma body_ok i s s' e : SInv i s -> body s = Ok (s', e) ->
      SFin i (m_x D P s') e /\ e = m_def D P s' /\ (is0 e = false -> SInv (S i) s').
    Proof.
      intros (Ei & Ed & Lq & Ldir & Lc & Ls & Lxi & Ez & ET2 & ET0 & t & HI & HR) HB.
      unfold minres_body in HB. rewrite Ei, Ed, Ez, ET2 in HB.
      assert (Hi := v_pos _ _ _ _ _ _ _ _ _ _ _ _ _ _ _ _ HI).
      set (Qi := vnth (i mod 3) (m_q D P s)) in *. set (Qp := vnth ((i mod 3 + 2) mod 3) (m_q D P s)) in *.
      set (pi := vnth (i mod 3) (m_dir D P s)) in *. set (pp := vnth ((i mod 3 + 2) mod 3) (m_dir D P s)) in *.
      set (beta := m_beta D P s) in *. set (b0 := m_beta0 D P s) in *. set (xi := knth ((i + 1) mod 2) (m_xi D P s)) in *.
      set (q1 := vadd (A (W Qi)) (vscale (ropp beta) Qp)) in *. set (alpha := dot (W Qi) q1) in *.
      set (q2 := vadd q1 (vscale (ropp alpha) Qi)) in *.
      destruct (papply (m_p D P s) vz q2) as [p' z1] eqn:EPa. assert (Ez1 : z1 = W q2) by (rewrite <- (Hp (m_p D P s) q2), EPa; reflexivity). subst z1.
      set (beta' := ksqrt (dot q2 (W q2))) in *.
      set (T12 := if 2 <? i then _ else _) in HB.
      set (c1 := knth ((i + 1) mod 2) (m_c D P s)) in *. set (s1 := knth ((i + 1) mod 2) (m_s D P s)) in *.
      destruct T12 as [T0 T1'] eqn:E12. unfold T12 in E12. clear T12.
      set (T23 := if 1 <? i then (radd _ _, _) else _) in HB. destruct T23 as [T1 T2] eqn:E23. unfold T23 in E23. clear T23.
      assert (HT : A (W Qi) = vadd (vadd (vscale T0 (A pp)) (vscale T1 (A pi))) (vadd (vscale T2 t) q2)).
      { destruct (Nat.eq_dec i 1) as [E1|N1].
        - destruct (v_first _ _ _ _ _ _ _ _ _ _ _ _ _ _ _ _ HI E1) as (F1 & F2 & F3 & F4).
          rewrite E1 in E12, E23. cbn [Nat.ltb Nat.leb] in E12, E23. injection E12 as <- <-. injection E23 as <- <-. rewrite ET0 by lia. subst t.
          unfold q2. set (al := alpha). unfold q1. rewrite F1. vr.
        - destruct (HR ltac:(lia)) as (tp & R1 & R2 & R3).
          assert (L1 : 1 <? i = true) by (apply Nat.ltb_lt; lia). rewrite L1 in E12, E23. injection E23 as <- <-.
          assert (G : forall g1 g2, T1' = rmul g1 beta -> T0 = rmul g2 beta -> Qp = vadd (vscale g2 (A pp)) (vscale g1 tp) ->
            A (W Qi) = vadd (vadd (vscale T0 (A pp)) (vscale (radd (rmul c1 T1') (rmul s1 alpha)) (A pi)))
              (vadd (vscale (radd (rmul c1 alpha) (ropp (rmul s1 T1'))) t) q2)).
          { intros g1 g2 -> -> G3. unfold q2. set (al := alpha). unfold q1. clearbody al. generalize (A (W Qi)). intros AW. rewrite R3, G3, R2. vr. }
          destruct (2 <? i) eqn:L2; rewrite ?L2 in E12, R1.
          + injection E12 as <- <-. eapply G; [reflexivity|reflexivity|exact R1].
          + injection E12 as <- <-. apply Nat.ltb_ge in L2. apply (G r1 r0); [ring|rewrite ET0 by lia; ring|exact R1]. }
      assert (Hb : rmul beta' beta' = dot q2 (W q2)) by apply Hs.
      destruct (givens T2 beta') as [cs sn] eqn:EG.
      assert (HG : ~ (T2 = r0 /\ beta' = r0) -> radd (rmul cs cs) (rmul sn sn) = r1 /\ radd (rmul (ropp sn) T2) (rmul cs beta') = r0).
      { intros N. specialize (Hg T2 beta' N). rewrite EG in Hg. exact Hg. }
      set (xi1 := upd (m_xi D P s) (i mod 2) _) in HB.
      assert (X1 : knth ((i + 1) mod 2) xi1 = xi) by apply win2_old.
      assert (X2 : knth (i mod 2) xi1 = ropp (rmul sn xi)) by (apply win2_new; assumption).
      assert (Lx1 : length xi1 = 2) by (unfold xi1; rewrite upd_length; assumption).
      rewrite X1 in HB. set (xi2 := upd xi1 ((i + 1) mod 2) _) in HB.
      assert (X3 : knth (i mod 2) xi2 = ropp (rmul sn xi)) by (rewrite <- X2; apply win2_old'; assumption).
      assert (X4 : knth ((i + 1) mod 2) xi2 = rmul xi cs) by (apply win2_new'; assumption).
      assert (Lx2 : length xi2 = 2) by (unfold xi2; rewrite upd_length; assumption).
      rewrite X3, X4 in HB. apply ok_pair in HB. destruct HB as [<- <-]. cbn [m_i m_def m_q m_dir m_c m_s m_xi m_z m_T m_x m_beta m_beta0].
      assert (HF := fin_step A W dot kdiv HK HD HA HW b1 x1 r i _ _ _ _ _ _ _ _ _ HI H10 beta' T0 T1 T2 cs sn Hb HT HG (kdec _)).
      split; [split; [|split]|split; [reflexivity|]].
      { apply HF. } { apply HF. } { intros _. eexists. split; [reflexivity|]. apply HF. }
      intros Hne.
      assert (Nb : beta' <> r0).
      { intros E. assert (E2 := xi'_0 A W dot kdiv HK HA HW b1 x1 r i _ _ _ _ _ _ _ _ _ HI H10 beta' T0 T1 T2 cs sn Hb HT HG E). rewrite E2 in Hne.
        assert (E3 : is0 (kabs (rmul b0 r0)) = true) by (apply Ha; ring). congruence. }
      assert (HN := inv_next A W dot kdiv HK HD HA HW b1 x1 r i _ _ _ _ _ _ _ _ _ HI H10 beta' T0 T1 T2 cs sn Hb HT HG (kdec _) Nb).
      assert (HAd := A_d A W dot kdiv HK HA HW b1 x1 r i _ _ _ _ _ _ _ _ _ HI H10 beta' T0 T1 T2 cs sn Hb HT HG (kdec _)).
      assert (R1 := rot1 A W dot kdiv HK HA HW b1 x1 r i _ _ _ _ _ _ _ _ _ HI H10 beta' T0 T1 T2 cs sn Hb HT HG).
      cbn zeta in HN, HAd. fold q1 in HN, HAd. fold alpha in HN, HAd. fold q2 in HN, HAd.
      set (d := vscale (kdiv r1 (radd (rmul cs T2) (rmul sn beta'))) _) in *.
      set (Qn := vscale (kdiv r1 beta') q2) in *.
      assert (N1 : vnth (S i mod 3) (upd (m_q D P s) ((i mod 3 + 1) mod 3) Qn) = Qn) by (apply win3_new; assumption).
      assert (N2 : vnth ((S i mod 3 + 2) mod 3) (upd (m_q D P s) ((i mod 3 + 1) mod 3) Qn) = Qi) by apply win3_old.
      assert (N3 : vnth (S i mod 3) (upd (m_dir D P s) ((i mod 3 + 1) mod 3) d) = d) by (apply win3_new; assumption).
      assert (N4 : vnth ((S i mod 3 + 2) mod 3) (upd (m_dir D P s) ((i mod 3 + 1) mod 3) d) = pi) by apply win3_old.
      assert (N5 : (S i + 1) mod 2 = i mod 2) by apply mod2_back.
      assert (N6 : S i mod 2 = (i + 1) mod 2) by (f_equal; lia).
      unfold SInv. cbn [m_i m_def m_q m_dir m_c m_s m_xi m_z m_T m_x m_beta m_beta0].
      rewrite N1, N2, N3, N4, N5, N6, X3, !upd_length.
      split; [reflexivity|]. split; [exact Hne|]. do 5 (split; [assumption|]).
      split; [unfold Qn; symmetry; apply HW|].
      assert (L1 : 1 <? S i = true) by (apply Nat.ltb_lt; lia). rewrite L1.
      split; [reflexivity|]. split.
      { intros Li. assert (L2 : 2 <? i = false) by (apply Nat.ltb_ge; lia). rewrite L2 in E12. injection E12 as <- <-. apply ET0. lia. }
      eexists. split; [exact HN|].
      intros _. exists t. unfold knth. rewrite !win2_old, !win2_new by assumption. fold (knth ((i + 1) mod 2) (m_c D P s)) (knth ((i + 1) mod 2) (m_s D P s)). fold c1 s1.
      split; [|split].
      - destruct (Nat.eq_dec i 1) as [E1|M1].
        + destruct (v_first _ _ _ _ _ _ _ _ _ _ _ _ _ _ _ _ HI E1) as (F1 & F2 & F3 & F4). rewrite E1. cbn [Nat.ltb Nat.leb]. rewrite F2. vr.
        + assert (L2 : 2 <? S i = true) by (apply Nat.ltb_lt; lia). rewrite L2. destruct (HR ltac:(lia)) as (tp & _ & _ & R3). exact R3.
      - rewrite HAd. transitivity (vscale (radd (rmul cs cs) (rmul sn sn)) t); [rewrite R1, vscale_1; reflexivity|vr].
      - rewrite HAd. transitivity (vscale (radd (rmul cs cs) (rmul sn sn)) Qn); [rewrite R1, vscale_1; reflexivity|vr].
    Qed.
    Lemma sub_self (v : V) : vsub v v = vz.
    Proof. vr. Qed.
    Lemma prep_ok p q x b z e s : x = x1 -> b = r -> z = W r -> is0 e = false -> r <> vz ->
      prep (mkM D P p x b z r0 r0 e nil nil nil nil nil nil q) = Ok s -> SInv 1 s.
    Proof.
      intros -> -> -> Ed Nr H. unfold minres_prepare in H. cbn [m_b m_z m_def m_p m_x] in H. rewrite Ed in H. set (be := ksqrt (dot r (W r))) in *.
      assert (Hb : rmul be be = dot r (W r)) by apply Hs.
      assert (Nb : be <> r0). { intros E. apply Nr, (de_aniso _ _ HW). rewrite <- Hb, E. ring. }
      assert (Ki : rmul (kdiv r1 be) be = r1) by (apply HK, Nb).
      injection H as <-. unfold SInv. cbn [m_i m_def m_q m_dir m_c m_s m_xi m_z m_T m_x m_beta m_beta0].
      change (1 mod 3) with 1. change ((1 + 2) mod 3) with 0. change ((1 + 1) mod 2) with 0. change (1 mod 2) with 1. change (1 <? 1) with false.
      cbn [vnth knth nth length].
      assert (EQ : vscale be (vscale (kdiv r1 be) r) = r).
      { rewrite <- vscale_mul. replace (rmul be (kdiv r1 be)) with (rmul (kdiv r1 be) be) by ring. rewrite Ki. apply vscale_1. }
      repeat match goal with |- _ /\ _ => split end; auto.
      { symmetry. apply HW. }
      exists (vscale (kdiv r1 be) r). split; [|intros F; lia].
      assert (QW : dot (vscale (kdiv r1 be) r) (W (vscale (kdiv r1 be) r)) = r1).
      { destruct (de_linear _ _ HW) as [_ W2]. rewrite W2, (sp_scale _ HD), (dot_scale_r dot HD), <- Hb.
        replace (rmul (kdiv r1 be) (rmul (kdiv r1 be) (rmul be be))) with (rmul (rmul (kdiv r1 be) be) (rmul (kdiv r1 be) be)) by ring. rewrite Ki. ring. }
      assert (N0 : kdiv r1 be <> r0). { intros E. apply H10. rewrite <- Ki, E. ring. }
      assert (K0 : forall y, ks 0 y -> y = vz) by (intros y Hy; inversion Hy; [reflexivity|lia]).
      constructor; change (1 - 1) with 0; change (1 - 2) with 0; try lia.
      - rewrite <- vscale_mul. replace (rmul (rmul be r1) (kdiv r1 be)) with (rmul (kdiv r1 be) be) by ring. rewrite Ki, vscale_1. reflexivity.
      - rewrite sub_self. constructor.
      - intros w Hw. rewrite (K0 w Hw). apply (dot_0_r dot kdiv HK HD).
      - exact QW.
      - intros w Hw. rewrite (K0 w Hw). apply (dot_0_r dot kdiv HK HD).
      - auto.
      - exists (kdiv r1 be), vz. split; [exact N0|]. split; [constructor|]. destruct (de_linear _ _ HW) as [_ W2]. rewrite W2, vadd_0. reflexivity.
      - constructor.
      - constructor.
      - intros y Hy. rewrite (K0 y Hy). destruct HA as [LA _ _]. rewrite (lin0 A LA). destruct HW as [LW _ _]. rewrite (lin0 W LW). apply (dot_0_r dot kdiv HK HD).
      - exact QW.
      - destruct (de_linear _ _ HW) as [_ W2]. rewrite W2. apply (ks_scale A kdiv W HK). apply (ks_kry A W r 1 0). lia.
    Qed.
    Lemma run_fin n : forall i s it s' it', SInv (S i) s -> i_i D it = i -> SFin i (m_x D P s) (i_def D it) ->
      iterate D finite lt_ mul_ tiny reduction body (fun s => Ok s) n (S i) s it = Ok (s', it') -> SFin (i_i D it') (m_x D P s') (i_def D it').
    Proof.
      induction n as [|n IH]; intros i s it s' it' HI Hi HF H; cbn [iterate] in H.
      - injection H as <- <-. rewrite Hi. exact HF.
      - destruct (body s) as [[s1 e]| |] eqn:EB; cbn [obind fst snd] in H; try discriminate.
        destruct (body_ok _ _ _ _ HI EB) as (F1 & F2 & F3).
        destruct (step D finite lt_ mul_ tiny reduction (S i) e it) as [it1| |] eqn:ES; cbn [obind] in H; try discriminate.
        assert (Ei : i_i D it1 = S i /\ i_def D it1 = e /\ (i_conv D it1 = false -> lt_ e tiny = false)).
        { unfold step in ES. destruct (negb (finite e)); [discriminate|]. injection ES as <-. cbn [i_i i_def i_conv]. split; [reflexivity|]. split; [reflexivity|].
          unfold stop. intros E. apply orb_false_iff in E. apply E. }
        destruct Ei as (Ei & Ee & Et).
        destruct (i_conv D it1) eqn:EC.
        + injection H as <- <-. rewrite Ei, Ee. exact F1.
        + apply (IH (S i) s1 it1 s' it'); auto; [|rewrite Ee; exact F1].
          apply F3. destruct (is0 e) eqn:E0; [|reflexivity]. apply Ht in E0. specialize (Et eq_refl). congruence.
    Qed.
  End Inv.

  (** C51.  After m iterations MINRESSolver::apply has moved x within x1 + K_m and the residual r of the new iterate x2 satisfies
      <r, W A y> = 0 for all y in K_m; the defect reported last (m > 0) is |e| with e^2 = <r, W r>.  (x1, b1: what pre() left, x2: what
      is given to post(), K_m = span(W r1, (WA) W r1, ...), r1 = b1 - A x1.) *)
  Theorem C51_minres maxit p x b p1 x1 b1 p' x' b' res log : pre p x b = (p1, x1, b1) ->
    runf maxit p x b = Ok (p', x', b', res, log) ->
    exists p2 x2, post p2 x2 = (p', x') /\
      kspace A W (vsub b1 (A x1)) (r_iterations D res) (vsub x2 x1) /\
      (forall y, kspace A W (vsub b1 (A x1)) (r_iterations D res) y -> dot (vsub b1 (A x2)) (W (A y)) = r0) /\
      (0 < r_iterations D res -> exists log0 e, log = log0 ++ [(r_iterations D res, kabs e)] /\
         rmul e e = dot (vsub b1 (A x2)) (W (vsub b1 (A x2)))).
  Proof.
    intros EP H. unfold minres_apply in H. rewrite EP in H. destruct (papply p1 vz (vsub b1 (A x1))) as [p2 z] eqn:Epa.
    assert (Ez : z = W (vsub b1 (A x1))) by (rewrite <- (Hp p1 (vsub b1 (A x1))), Epa; reflexivity).
    match type of H with obind ?c _ = _ => destruct c as [[s it]| |] eqn:EC end; cbn [obind fst snd] in H; try discriminate.
    injection H as H. apply finish_eq in H. destruct H as [H1 [E2 [H3 H4]]].
    exists (m_p D P s), (m_x D P s). split; [exact H1|].
    assert (Er : r_iterations D res = i_i D it) by (rewrite <- H3; cbn; apply Nat.div_1_r).
    assert (F : SFin b1 x1 (i_i D it) (m_x D P s) (i_def D it)).
    { unfold control in EC. destruct (step _ _ _ _ _ _ 0 _ _) as [it0| |] eqn:ES; cbn [obind] in EC; try discriminate.
      assert (Ei : i_i D it0 = 0 /\ (i_conv D it0 = false -> is0 (nrm z) = false)).
      { unfold step in ES. destruct (negb (finite _)); [discriminate|]. injection ES as <-. split; [reflexivity|]. cbn [i_conv]. unfold stop. intros E.
        apply orb_false_iff in E. destruct E as [_ E]. destruct (is0 (nrm z)) eqn:E0; [apply Ht in E0; congruence|reflexivity]. }
      destruct Ei as [Ei Ec].
      assert (F0 : SFin b1 x1 0 x1 (i_def D it0)).
      { split; [rewrite sub_self; constructor|]. split; [|lia]. intros y Hy. inversion Hy; subst; [|lia].
        destruct HA as [LA _ _]. rewrite (lin0 A LA). destruct HW as [LW _ _]. rewrite (lin0 W LW). apply (dot_0_r dot kdiv HK HD). }
      destruct (i_conv D it0).
      - injection EC as <- <-. rewrite Ei. exact F0.
      - specialize (Ec eq_refl). assert (Nr : vsub b1 (A x1) <> vz).
        { intros E. rewrite E in Ez. assert (E3 : is0 (nrm z) = true) by (apply Hn; rewrite Ez; destruct HW as [LW _ _]; apply (lin0 W LW)). congruence. }
        match type of EC with obind ?c _ = _ => destruct c as [s1| |] eqn:EPr end; cbn [obind] in EC; try discriminate.
        assert (Ex : m_x D P s1 = x1) by (unfold minres_prepare in EPr; injection EPr as <-; reflexivity).
        assert (SI := prep_ok b1 x1 _ _ _ _ _ _ _ eq_refl eq_refl Ez Ec Nr EPr).
        apply (run_fin b1 x1 maxit 0 s1 it0 s it SI Ei); [rewrite Ex; exact F0|exact EC]. }
    destruct F as (F1 & F2 & F3). rewrite Er. split; [exact F1|]. split; [exact F2|]. intros Hm. destruct (F3 Hm) as (e & E5 & E6).
    assert (HL : exists l0, i_log D it = l0 ++ [(i_i D it, i_def D it)]).
    { unfold control in EC. destruct (step _ _ _ _ _ _ 0 _ _) as [it0| |] eqn:ES; cbn [obind] in EC; try discriminate. apply step_last in ES.
      destruct (i_conv D it0); [injection EC as <- <-; exact ES|]. match type of EC with obind ?c _ = _ => destruct c end; cbn [obind] in EC; try discriminate.
      eapply iterate_last; eauto. }
    destruct HL as (log0 & E7).
    exists log0, e. split; [rewrite <- H4, E7, E5; reflexivity|exact E6].
  Qed.

  (** the quantity minimised: <b1 - A x, W (b1 - A x)> *)
  Definition rnorm2 (b1 x : V) : K := dot (vsub b1 (A x)) (W (vsub b1 (A x))).
  (** ... so x2 minimises it over x1 + K_m: for any other candidate x2 + y it is larger by <A y, W A y> *)
  Theorem C51_minres_optimal maxit p x b p1 x1 b1 p' x' b' res log : pre p x b = (p1, x1, b1) ->
    runf maxit p x b = Ok (p', x', b', res, log) ->
    exists p2 x2, post p2 x2 = (p', x') /\ kspace A W (vsub b1 (A x1)) (r_iterations D res) (vsub x2 x1) /\
      forall y, kspace A W (vsub b1 (A x1)) (r_iterations D res) y -> rnorm2 b1 (vadd x2 y) = radd (rnorm2 b1 x2) (dot (A y) (W (A y))).
  Proof.
    intros EP H. destruct (C51_minres _ _ _ _ _ _ _ _ _ _ _ _ EP H) as (p2 & x2 & E1 & E2 & E3 & _).
    exists p2, x2. split; [exact E1|]. split; [exact E2|]. intros y Hy. specialize (E3 y Hy). unfold rnorm2.
    assert (Er : vsub b1 (A (vadd x2 y)) = vadd (vsub b1 (A x2)) (vscale (ropp r1) (A y))).
    { destruct (in_linear _ _ HA) as [A1 A2]. rewrite A1. vr. }
    destruct (de_linear _ _ HW) as [W1 W2]. set (q := vsub b1 (A x2)) in *.
    rewrite Er, W1, W2, (sp_add _ HD), (sp_scale _ HD), !(dot_add_r dot HD), !(dot_scale_r dot HD), E3.
    assert (E4 : dot (A y) (W q) = r0) by (rewrite <- (de_adj _ _ HW), (sp_sym _ HD); exact E3).
    rewrite E4. ring.
  Qed.
  (** Finite termination: once the exact solution xs lies in x1 + K_m (at the latest for m = dim V), it is what is returned *)
  Theorem C51_minres_exact maxit p x b p1 x1 b1 p' x' b' res log xs : pre p x b = (p1, x1, b1) ->
    runf maxit p x b = Ok (p', x', b', res, log) -> A xs = b1 -> kspace A W (vsub b1 (A x1)) (r_iterations D res) (vsub xs x1) ->
    exists p2, post p2 xs = (p', x').
  Proof.
    intros EP H Exs Hk. destruct (C51_minres _ _ _ _ _ _ _ _ _ _ _ _ EP H) as (p2 & x2 & E1 & E2 & E3 & _).
    destruct (in_linear _ _ HA) as [A1 A2].
    assert (Hd : kspace A W (vsub b1 (A x1)) (r_iterations D res) (vsub xs x2)).
    { replace (vsub xs x2) with (vadd (vsub xs x1) (vscale (ropp r1) (vsub x2 x1))) by vr.
      apply ks_plus; [exact Hk|]. apply (ks_scale A kdiv W HK), E2. }
    specialize (E3 _ Hd).
    assert (Ea : A (vsub xs x2) = vsub b1 (A x2)) by (unfold vsub at 1; rewrite A1, A2, Exs; reflexivity).
    rewrite Ea in E3. apply (de_aniso _ _ HW) in E3. rewrite <- Ea in E3. apply (in_inj _ _ HA) in E3.
    exists p2. replace xs with x2; [exact E1|]. replace x2 with (vadd (vscale (ropp r1) (vsub xs x2)) xs) by vr. rewrite E3. vr.
  Qed.
  (** MINRESSolver::apply returns normally whenever all defects are finite (the hypotheses of the theorems above are met by every run) *)
  Theorem C51_minres_total maxit p x b : (forall d, finite d = true) -> exists ans, runf maxit p x b = Ok ans.
  Proof.
    intros Hf. unfold minres_apply. destruct (pre p x b) as [[p1 x1] b1]. destruct (papply p1 vz (vsub b1 (A x1))) as [p2 z].
    assert (Hst : forall i d it, exists it', step D finite lt_ mul_ tiny reduction i d it = Ok it').
    { intros i d it. unfold step. rewrite Hf. cbn. eauto. }
    assert (Hb : forall s, exists s' d, body s = Ok (s', d)).
    { intros s. unfold minres_body. destruct (papply _ _ _). destruct (if 2 <? _ then _ else _). destruct (if 1 <? _ then _ else _). destruct (givens _ _). eauto. }
    assert (Hit : forall n i s it, exists a, iterate D finite lt_ mul_ tiny reduction body (fun s => Ok s) n i s it = Ok a).
    { induction n as [|n IH]; intros i s it; cbn [iterate]; [eauto|]. destruct (Hb s) as (s' & d & ->). cbn [obind fst snd].
      destruct (Hst i d it) as (it' & ->). cbn [obind]. destruct (i_conv D it'); [eauto|apply IH]. }
    unfold control. destruct (Hst 0 (nrm z) (iter0 D zero_)) as (it & ->). cbn [obind]. destruct (i_conv D it); [cbn [obind]; eauto|].
    unfold minres_prepare at 1. cbn [obind].
    match goal with |- context [iterate _ _ _ _ _ _ _ _ ?n ?i ?s ?it] => destruct (Hit n i s it) as (a & Ea); rewrite Ea end. cbn [obind]. eauto.
  Qed.
End Run.

(** ** The first defect is measured in another norm (solvers.hh:643-644 against :751) *)
(** square root of a rational whose numerator and denominator are perfect squares *)
Definition sqrtQ (a : Qcring) : Qcring := Q2Qc (Z.sqrt (Qnum (this a)) # Pos.sqrt (Qden (this a))).
Definition swapA (v : Qcplane) : Qcplane := (snd v, fst v).
Definition ex51b : Qcplane := (1%Qc, 0%Qc).
(** the exact rotation for a pair with one zero entry, all that occurs below; [absQ] and [exNrm] are |.| and, for vectors with one
    nonzero component, the Euclidean norm *)
Definition ex51rot (dx dy : Qcring) : Qcring * Qcring := if exIs0 dy then (1%Qc, 0%Qc) else (0%Qc, 1%Qc).
Definition run51 maxit := minres_apply (V := Qcplane) Qc (fun _ => true) ltQ Qcmult Qcdiv 0%Qc exTiny exReduction swapA exDot exNrm exDiv exIs0 nat exPre
  (fun p v d => (S p, vscale (Q2Qc 10000 : Qcring) d)) exPost sqrtQ absQ ex51rot maxit 0 vz ex51b.
Definition report51 (o : outcome (nat * Qcplane * Qcplane * result Qc * list (nat * Qc))) : option (bool * Q * list Q * list Q) :=
  match o with Ok (_, x, _, r, log) => Some (r_converged _ r, this (r_reduction _ r), map this [fst x; snd x], map (fun q => this (snd q)) log) | _ => None end.
(** A = ((0,1),(1,0)), b = (1,0), preconditioner 10^4 I, requested reduction 1/10: the run reports convergence with reduction 1/100
    after one iteration although x is still the initial guess 0, that is, the residual has not changed at all *)
Theorem C51_mixed_norms_refuted : report51 (run51 5) = Some (true, (1 # 100)%Q, [0; 0]%Q, [10000; 100]%Q).
Proof. vm_compute. reflexivity. Qed.

Print Assumptions C51_minres.
Print Assumptions C51_minres_optimal.
Print Assumptions C51_minres_exact.
Print Assumptions C51_minres_total.
Print Assumptions C51_mixed_norms_refuted.
