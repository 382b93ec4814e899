(** * BiCGSTABSolver in exact arithmetic (C52)

    Model: [bicgstab_apply] of Solvers.v (solvers.hh:415-571). *)
From Coq Require Import Arith List Lia Bool ZArith QArith Qcanon.
From Coq Require Import setoid_ring.Ring.
From Verif Require Import Ring Sums RingInst Outcome Solvers CgExact VRing.
Import ListNotations.
Open Scope nat_scope.

(** ** Specification *)
Section Spec.
  Context {K : ring} {V : vspace K}.
  Variables (A W : V -> V).
  (** (A W)^j v *)
  Fixpoint bpow (j : nat) (v : V) : V := match j with O => v | S j => A (W (bpow j v)) end.
  (** (I - w_1 A W)(I - w_2 A W)... v *)
  Fixpoint stab (ws : list K) (v : V) : V := match ws with nil => v | w :: t => stab t (vadd v (vscale (ropp w) (A (W v)))) end.
End Spec.

Section Run.
  Context {K : ring} {V : vspace K}.
  Variable D : Type.
  Variables (finite : D -> bool) (lt_ : D -> D -> bool) (mul_ div_ : D -> D -> D) (zero_ tiny : D).
  Variable reduction : D.
  Variable A : V -> V.
  Variable dot : V -> V -> K.
  Variable nrm : V -> D.
  Variable kdiv : K -> K -> K.
  Variable is0 : D -> bool.
  Variables (small small' : K -> bool).
  Variable P : Type.
  Variable pre : P -> V -> V -> P * V * V.
  Variable papply : P -> V -> V -> P * V.
  Variable post : P -> V -> P * V.
  Variable W : V -> V.
  (** everything assumed: exact scalars of a field, a bilinear symmetric product which is zero on (v,v) only for v = 0, linear A and W,
      zero counts as small in the breakdown tests, def == 0 only for the zero vector, and a zero defect counts as converged *)
  Hypothesis HK : field kdiv.
  Hypothesis HD : scalar_product dot.
  Hypothesis HN : forall v, dot v v = r0 -> v = vz.
  Hypothesis HA : linear A.
  Hypothesis HW : linear W.
  Hypothesis Hp : forall p b, snd (papply p vz b) = W b.
  Hypothesis Hs : small r0 = true.
  Hypothesis Hs' : small' r0 = true.
  Hypothesis Hn : forall v, is0 (nrm v) = true <-> v = vz.
  Hypothesis Ht : forall e, is0 e = true -> lt_ e tiny = true.
  Notation bicgf := (bicg (K := K) (V := V) D finite lt_ mul_ tiny reduction A dot nrm kdiv is0 small small' P papply).
  Notation runf := (bicgstab_apply (K := K) (V := V) D finite lt_ mul_ div_ zero_ tiny reduction A dot nrm kdiv is0 small small' P pre papply post).
  Lemma kring_theory3 : ring_theory (r0 : K) r1 radd rmul rsub ropp eq.
  Proof. constructor; intros; try ncring; auto. apply HK. Qed.
  Add Ring kring3 : kring_theory3.
  Ltac vr := vring ltac:(solve [ring]).
  Notation B v := (A (W v)).
  Notation bp := (bpow A W).
  Notation Q := (stab A W).
  Lemma Aadd a b : A (vadd a b) = vadd (A a) (A b). Proof. apply HA. Qed.
  Lemma Ascale k a : A (vscale k a) = vscale k (A a). Proof. apply HA. Qed.
  Lemma Wadd a b : W (vadd a b) = vadd (W a) (W b). Proof. apply HW. Qed.
  Lemma Wscale k a : W (vscale k a) = vscale k (W a). Proof. apply HW. Qed.
  Lemma bp_add j : forall a b, bp j (vadd a b) = vadd (bp j a) (bp j b).
  Proof. induction j as [|j IH]; intros; cbn [bpow]; [reflexivity|]. rewrite IH, Wadd, Aadd. reflexivity. Qed.
  Lemma bp_scale j : forall k a, bp j (vscale k a) = vscale k (bp j a).
  Proof. induction j as [|j IH]; intros; cbn [bpow]; [reflexivity|]. rewrite IH, Wscale, Ascale. reflexivity. Qed.
  Lemma bp_S j : forall v, bp j (B v) = bp (S j) v.
  Proof. induction j as [|j IH]; intros; cbn [bpow]; [reflexivity|]. rewrite IH. reflexivity. Qed.
  Lemma Q_add ws : forall a b, Q ws (vadd a b) = vadd (Q ws a) (Q ws b).
  Proof.
    induction ws as [|w ws IH]; intros a b; cbn [stab]; [reflexivity|]. rewrite <- IH. f_equal. rewrite Wadd, Aadd. vr.
  Qed.
  Lemma Q_scale ws : forall k a, Q ws (vscale k a) = vscale k (Q ws a).
  Proof.
    induction ws as [|w ws IH]; intros k a; cbn [stab]; [reflexivity|]. rewrite <- IH. f_equal. rewrite Wscale, Ascale. vr.
  Qed.
  Lemma Q_B ws : forall a, Q ws (B a) = B (Q ws a).
  Proof.
    induction ws as [|w ws IH]; intros a; cbn [stab]; [reflexivity|]. rewrite <- IH. f_equal. rewrite Wadd, Wscale, Aadd, Ascale. reflexivity.
  Qed.
  Lemma Q_snoc ws w : forall a, Q (ws ++ [w]) a = vadd (Q ws a) (vscale (ropp w) (B (Q ws a))).
  Proof. induction ws as [|v ws IH]; intros a; cbn [app stab]; [reflexivity|]. apply IH. Qed.
  (** leading coefficient *)
  Fixpoint lead (ws : list K) : K := match ws with nil => r1 | w :: t => rmul (ropp w) (lead t) end.
  Lemma lead_snoc ws w : lead (ws ++ [w]) = rmul (lead ws) (ropp w).
  Proof. induction ws as [|v ws IH]; cbn [app lead]; [ring|]. rewrite IH. ring. Qed.

  Section Fixed.
    Variables (b1 x1 : V).
    Let rt := vsub b1 (A x1).
    Local Notation ks := (kspace A W rt).
    Local Notation ell v := (dot rt v).
    Lemma ell_add a b : ell (vadd a b) = radd (ell a) (ell b). Proof. apply dot_add_r, HD. Qed.
    Lemma ell_scale k a : ell (vscale k a) = rmul k (ell a). Proof. apply dot_scale_r, HD. Qed.
    Lemma ell_Q ws : forall v, (forall j, j < length ws -> ell (bp j v) = r0) -> ell (Q ws v) = rmul (lead ws) (ell (bp (length ws) v)).
    Proof.
      induction ws as [|w ws IH]; intros v H; cbn [stab lead length]; [cbn; ring|].
      rewrite IH.
      - rewrite bp_add, bp_scale, bp_S, ell_add, ell_scale, (H (length ws)) by (cbn; lia). ring.
      - intros j Hj. rewrite bp_add, bp_scale, bp_S, ell_add, ell_scale, (H j), (H (S j)) by (cbn; lia). ring.
    Qed.
    Lemma ksp m y z : ks m y -> ks m z -> ks m (vadd y z).
    Proof. apply ks_plus. Qed.
    Lemma kss m k y : ks m y -> ks m (vscale k y).
    Proof. apply (ks_scale A kdiv W HK). Qed.
    Lemma ksm m n y : m <= n -> ks m y -> ks n y.
    Proof. apply ks_mono. Qed.
    Lemma A0 : A vz = vz. Proof. apply lin0, HA. Qed.
    Lemma W0 : W vz = vz. Proof. apply lin0, HW. Qed.
    Lemma ksn m y : ks m y -> ks (S m) (W (A y)).
    Proof.
      induction 1 as [|c i y Hi Hy IH]; [rewrite A0, W0; constructor|]. rewrite Aadd, Ascale, Wadd, Wscale.
      change (W (A (krylov A W rt i))) with (krylov A W rt (S i)). constructor; [lia|assumption].
    Qed.
    Lemma W_res m y : ks m y -> ks (S m) (W (vadd rt (vscale (ropp r1) (A y)))).
    Proof.
      intros H. rewrite Wadd, Wscale. apply ksp; [apply (ks_kry A W rt (S m) 0); lia|]. apply kss, ksn, H.
    Qed.
    Lemma res_rt x : vsub b1 (A x) = vadd rt (vscale (ropp r1) (A (vsub x x1))).
    Proof. unfold rt. unfold vsub at 3. rewrite Aadd, Ascale. vr. Qed.

    (** the BiCG residual rho after k steps *)
    Definition bires (k : nat) (rho : V) : Prop :=
      (exists y, ks k y /\ rho = vadd rt (vscale (ropp r1) (A y))) /\ forall j, j < k -> ell (bp j rho) = r0.
    Definition bidir (k : nat) (pi : V) : Prop := ks (S k) (W pi) /\ forall j, j < k -> ell (bp (S j) pi) = r0.
    (** before pass k *)
    Definition Inv (k : nat) (x r d v : V) (rho alpha omega : K) (norm : D) : Prop :=
      r = vsub b1 (A x) /\ is0 norm = false /\ ks (2 * k) (vsub x x1) /\
      exists ws rk, length ws = k /\ r = Q ws rk /\ bires k rk /\
        (0 < k -> exists ws' pk, ws = ws' ++ [omega] /\ d = Q ws' pk /\ v = B d /\ bidir (k - 1) pk /\ ell v <> r0 /\ rmul alpha (ell v) = rho /\ ks (2 * k - 1) (W d)).
    Definition Fin_ (m : nat) (x r : V) : Prop :=
      r = vsub b1 (A x) /\ ks m (vsub x x1) /\
      (exists ws rk, length ws = m / 2 /\ r = Q ws rk /\ bires ((m + 1) / 2) rk) /\
      (0 < m -> Nat.even m = true -> exists rh w, r = vadd rh (vscale (ropp w) (B rh)) /\ dot (B rh) r = r0).
    Lemma kcancel a b : a <> (r0 : K) -> rmul a b = r0 -> b = r0.
    Proof.
      intros Ha E. destruct HK as [_ HK2]. replace b with (rmul (rmul (kdiv r1 a) a) b) by (rewrite HK2 by auto; ring).
      replace (rmul (rmul (kdiv r1 a) a) b) with (rmul (kdiv r1 a) (rmul a b)) by ring. rewrite E. ring.
    Qed.
    Lemma kdivr a b : b <> (r0 : K) -> rmul (kdiv a b) b = a.
    Proof. apply HK. Qed.

    Lemma bicg_fin n : forall k p x r d v rho alpha omega norm it p' x' r' it', Inv k x r d v rho alpha omega norm -> i_i D it = 2 * k ->
      (0 < k -> exists rh w, r = vadd rh (vscale (ropp w) (B rh)) /\ dot (B rh) r = r0) ->
      bicgf rt n k p x r d v rho alpha omega norm it = Ok (p', x', r', it') -> Fin_ (i_i D it') x' r'.
    Proof.
      induction n as [|n IH]; intros k p x r d v rho alpha omega norm it p' x' r' it' (Hr & Hno & Hkx & ws & rk & Lw & ER & HR & HPrev) Hi Hev HB.
      - cbn in HB. injection HB as <- <- <- <-. rewrite Hi. split; [exact Hr|]. split; [exact Hkx|]. split.
        + exists ws, rk. replace (2 * k / 2) with k by (rewrite Nat.mul_comm, Nat.div_mul; lia).
          replace ((2 * k + 1) / 2) with k by (apply Nat.div_unique with 1; lia). auto.
        + intros H0 _. apply Hev. lia.
      - cbn [bicg] in HB. destruct (small rho) eqn:S1; [discriminate|]. destruct (small omega) eqn:S2; [discriminate|].
        rewrite Hno in HB. 
        set (beta := rmul (kdiv (ell r) rho) (kdiv alpha omega)) in HB.
        set (d1 := if k =? 0 then r else vadd (vscale beta (vadd d (vscale (ropp omega) v))) r) in HB.
        (** the new direction *)
        assert (HDir : exists pk, d1 = Q ws pk /\ bidir k pk /\ ks (2 * k + 1) (W d1)).
        { assert (Wr : ks (2 * k + 1) (W r)).
          { rewrite Hr, res_rt. replace (2 * k + 1) with (S (2 * k)) by lia. apply W_res, Hkx. }
          destruct (Nat.eq_dec k 0) as [E0|N0].
          - assert (Ek : k =? 0 = true) by (apply Nat.eqb_eq; exact E0). unfold d1. rewrite Ek. exists rk. split; [exact ER|]. split; [|exact Wr]. split; [|intros; lia].
            destruct HR as ((y & Hy & ->) & _). apply W_res, Hy.
          - assert (Ek : k =? 0 = false) by (apply Nat.eqb_neq; exact N0). unfold d1. rewrite Ek.
            destruct (HPrev ltac:(lia)) as (ws' & pk & Ew & Ed & Ev & (HP1 & HP2) & Hh & Hal & HWd).
            assert (No : omega <> r0) by (intros E; rewrite E, Hs in S2; discriminate).
            assert (Nr : rho <> r0) by (intros E; rewrite E, Hs in S1; discriminate).
            assert (Na : alpha <> r0) by (intros E; apply Nr; rewrite <- Hal, E; ring).
            assert (Lw' : length ws' = k - 1) by (rewrite Ew, app_length in Lw; cbn in Lw; lia).
            exists (vadd rk (vscale beta pk)). split; [|split].
            + rewrite Ev, Ed, ER, Q_add, Q_scale, Ew, !Q_snoc. vr.
            + split.
              { rewrite Wadd, Wscale. apply ksp; [destruct HR as ((y & Hy & ->) & _); apply W_res, Hy|]. apply kss. apply (ksm (S (k - 1))); [lia|]. exact HP1. }
              intros j Hj. rewrite bp_add, bp_scale, ell_add, ell_scale.
              destruct (Nat.eq_dec j (k - 1)) as [->|Nj].
              2:{ rewrite (HP2 j) by lia. destruct HR as [_ HR2]. rewrite (HR2 (S j)) by lia. ring. }
              replace (S (k - 1)) with k by lia.
              assert (E1 : ell r = rmul (rmul (lead ws') (ropp omega)) (ell (bp k rk))).
              { rewrite ER, ell_Q by (rewrite Lw; apply HR). rewrite Ew, lead_snoc. rewrite <- Ew, Lw. reflexivity. }
              assert (E2 : ell v = rmul (lead ws') (ell (bp k pk))).
              { rewrite Ev, Ed, <- Q_B, ell_Q; [rewrite Lw', bp_S; replace (S (k - 1)) with k by lia; reflexivity|].
                intros j Hj'. rewrite bp_S. apply HP2. lia. }
              assert (Nl : rmul (lead ws') omega <> r0).
              { intros E. apply Hh. rewrite E2. assert (E3 : lead ws' = r0) by (apply (kcancel omega); [exact No|]; rewrite <- E; ring). rewrite E3. ring. }
              apply (kcancel _ _ Nl).
              assert (E3 : rmul beta (rmul omega (ell v)) = ell r).
              { unfold beta. assert (F1 := kdivr (ell r) rho Nr). assert (F2 := kdivr alpha omega No).
                replace (rmul (rmul (kdiv (ell r) rho) (kdiv alpha omega)) (rmul omega (ell v))) with (rmul (kdiv (ell r) rho) (rmul (rmul (kdiv alpha omega) omega) (ell v))) by ring.
                rewrite F2, Hal, F1. reflexivity. }
              replace (rmul (rmul (lead ws') omega) (radd (ell (bp k rk)) (rmul beta (ell (bp k pk))))) with
                (radd (ropp (rmul (rmul (lead ws') (ropp omega)) (ell (bp k rk)))) (rmul beta (rmul omega (rmul (lead ws') (ell (bp k pk)))))) by ring.
              rewrite <- E1, <- E2, E3. ring.
            + rewrite Wadd, Wscale, Wadd, Wscale. apply ksp; [|exact Wr]. apply kss, ksp.
              * apply (ksm (2 * k - 1)); [lia|exact HWd].
              * apply kss. rewrite Ev. apply (ksm (S (2 * k - 1))); [lia|]. apply ksn, HWd. }
        clearbody d1. clear beta.
        destruct HDir as (pk & Ed1 & (HP1 & HP2) & HWd).
        destruct (papply p vz d1) as [p1 y] eqn:Ep1. assert (Ey : y = W d1) by (rewrite <- (Hp p d1), Ep1; reflexivity). subst y.
        destruct (small' (ell (B d1))) eqn:S3; [discriminate|].
        assert (Nh : ell (B d1) <> r0) by (intros E; rewrite E, Hs' in S3; discriminate).
        set (al := kdiv (ell r) (ell (B d1))) in HB. assert (Eal : rmul al (ell (B d1)) = ell r) by (apply kdivr; exact Nh).
        set (xh := vadd x (vscale al (W d1))) in HB. set (rh := vadd r (vscale (ropp al) (B d1))) in HB.
        set (rk1 := vadd rk (vscale (ropp al) (B pk))).
        assert (ERh : rh = Q ws rk1) by (unfold rh, rk1; rewrite Q_add, Q_scale, Q_B, <- ER, <- Ed1; reflexivity).
        assert (HRh : rh = vsub b1 (A xh)) by (unfold rh, xh; rewrite Hr, Aadd, Ascale; vr).
        assert (Hkh : ks (2 * k + 1) (vsub xh x1)).
        { replace (vsub xh x1) with (vadd (vsub x x1) (vscale al (W d1))) by (unfold xh; vr). apply ksp; [apply (ksm (2 * k)); [lia|exact Hkx]|apply kss, HWd]. }
        assert (HB1 : bires (S k) rk1).
        { split.
          - destruct HR as ((y & Hy & Erk) & _). exists (vadd y (vscale al (W pk))). split; [apply ksp; [apply (ksm k); [lia|exact Hy]|apply kss, HP1]|].
            unfold rk1. rewrite Erk, Aadd, Ascale. vr.
          - intros j Hj. unfold rk1. rewrite bp_add, bp_scale, bp_S, ell_add, ell_scale. destruct (Nat.eq_dec j k) as [->|Nj].
            2:{ destruct HR as [_ HR2]. rewrite (HR2 j), (HP2 j) by lia. ring. }
            assert (E1 : ell r = rmul (lead ws) (ell (bp k rk))) by (rewrite ER, ell_Q, Lw; [reflexivity|rewrite Lw; apply HR]).
            assert (E2 : ell (B d1) = rmul (lead ws) (ell (bp (S k) pk))).
            { rewrite Ed1, <- Q_B, ell_Q, Lw, bp_S; [reflexivity|]. rewrite Lw. intros j Hj'. rewrite bp_S. apply HP2, Hj'. }
            assert (Nl : lead ws <> r0) by (intros E; apply Nh; rewrite E2, E; ring).
            apply (kcancel _ _ Nl).
            replace (rmul (lead ws) (radd (ell (bp k rk)) (rmul (ropp al) (ell (bp (S k) pk))))) with
              (radd (rmul (lead ws) (ell (bp k rk))) (ropp (rmul al (rmul (lead ws) (ell (bp (S k) pk)))))) by ring.
            rewrite <- E1, <- E2, Eal. ring. }
        destruct (step D finite lt_ mul_ tiny reduction (2 * k + 1) (nrm rh) it) as [it1| |] eqn:ES1; cbn [obind] in HB; try discriminate.
        assert (Ei1 : i_i D it1 = 2 * k + 1 /\ (i_conv D it1 = false -> is0 (nrm rh) = false)).
        { unfold step in ES1. destruct (negb (finite (nrm rh))); [discriminate|]. injection ES1 as <-. split; [reflexivity|]. cbn [i_conv]. unfold stop. intros E.
          apply orb_false_iff in E. destruct E as [_ E]. destruct (is0 (nrm rh)) eqn:E0; [apply Ht in E0; congruence|reflexivity]. }
        destruct Ei1 as [Ei1 Ez1].
        destruct (i_conv D it1) eqn:C1.
        { injection HB as <- <- <- <-. rewrite Ei1. split; [exact HRh|]. split; [exact Hkh|]. split.
          - exists ws, rk1. replace ((2 * k + 1) / 2) with k by (apply Nat.div_unique with 1; lia).
            replace ((2 * k + 1 + 1) / 2) with (S k) by (apply Nat.div_unique with 0; lia). auto.
          - intros _ E. rewrite Nat.even_add, Nat.even_mul in E. discriminate. }
        specialize (Ez1 eq_refl). rewrite Ez1 in HB.
        destruct (papply p1 vz rh) as [p2 y2] eqn:Ep2. assert (Ey : y2 = W rh) by (rewrite <- (Hp p1 rh), Ep2; reflexivity). subst y2.
        set (om := kdiv (dot (B rh) rh) (dot (B rh) (B rh))) in HB.
        set (x2 := vadd xh (vscale om (W rh))) in HB. set (r2 := vadd rh (vscale (ropp om) (B rh))) in HB.
        assert (HL : exists rh w, r2 = vadd rh (vscale (ropp w) (B rh)) /\ dot (B rh) r2 = r0).
        { exists rh, om. split; [reflexivity|]. unfold r2. rewrite (dot_add_r dot HD), (dot_scale_r dot HD).
          destruct (is0 (nrm (B rh))) eqn:Eb.
          - apply Hn in Eb. rewrite Eb. rewrite !(dot_0_l dot kdiv HK HD). ring.
          - assert (Nb : dot (B rh) (B rh) <> r0). { intros E. apply HN in E. apply Hn in E. congruence. }
            assert (E := kdivr (dot (B rh) rh) _ Nb). fold om in E. rewrite <- E. ring. }
        assert (HR2 : r2 = vsub b1 (A x2)) by (unfold r2, x2; rewrite HRh at 1; rewrite Aadd, Ascale; vr).
        assert (ER2 : r2 = Q (ws ++ [om]) rk1) by (rewrite Q_snoc, <- ERh; reflexivity).
        assert (Hk2 : ks (2 * k + 2) (vsub x2 x1)).
        { replace (vsub x2 x1) with (vadd (vsub xh x1) (vscale om (W rh))) by (unfold x2; vr). apply ksp; [apply (ksm (2 * k + 1)); [lia|exact Hkh]|].
          apply kss. rewrite HRh, res_rt. replace (2 * k + 2) with (S (2 * k + 1)) by lia. apply W_res, Hkh. }
        destruct (step D finite lt_ mul_ tiny reduction (2 * k + 2) (nrm r2) it1) as [it2| |] eqn:ES2; cbn [obind] in HB; try discriminate.
        assert (Ei2 : i_i D it2 = 2 * k + 2 /\ (i_conv D it2 = false -> is0 (nrm r2) = false)).
        { unfold step in ES2. destruct (negb (finite (nrm r2))); [discriminate|]. injection ES2 as <-. split; [reflexivity|]. cbn [i_conv]. unfold stop. intros E.
          apply orb_false_iff in E. destruct E as [_ E]. destruct (is0 (nrm r2)) eqn:E0; [apply Ht in E0; congruence|reflexivity]. }
        destruct Ei2 as [Ei2 Ez2].
        destruct (i_conv D it2) eqn:C2.
        { injection HB as <- <- <- <-. rewrite Ei2. split; [exact HR2|]. split; [exact Hk2|]. split; [|intros _ _; exact HL].
          exists (ws ++ [om]), rk1. replace ((2 * k + 2) / 2) with (S k) by (apply Nat.div_unique with 0; lia).
          replace ((2 * k + 2 + 1) / 2) with (S k) by (apply Nat.div_unique with 1; lia).
          split; [rewrite app_length; cbn; lia|]. auto. }
        specialize (Ez2 eq_refl).
        apply (IH (S k) p2 x2 r2 d1 (B d1) (ell r) al om (nrm r2) it2 p' x' r' it'); [|lia|intros _; exact HL|exact HB].
        split; [exact HR2|]. split; [exact Ez2|]. split; [replace (2 * S k) with (2 * k + 2) by lia; exact Hk2|].
        exists (ws ++ [om]), rk1. split; [rewrite app_length; cbn; lia|]. split; [exact ER2|]. split; [exact HB1|].
        intros _. exists ws, pk. split; [reflexivity|]. split; [exact Ed1|]. split; [reflexivity|].
        split; [replace (S k - 1) with k by lia; split; assumption|]. split; [exact Nh|]. split; [exact Eal|].
        replace (2 * S k - 1) with (2 * k + 1) by lia. exact HWd.
    Qed.
  End Fixed.

  Lemma bicg_len rt n : forall k p x r d v rho alpha omega norm it p' x' r' it', i_i D it = 2 * k -> length (i_log D it) = S (2 * k) ->
    bicgf rt n k p x r d v rho alpha omega norm it = Ok (p', x', r', it') -> length (i_log D it') = S (i_i D it').
  Proof.
    assert (SL : forall i e it it', step D finite lt_ mul_ tiny reduction i e it = Ok it' -> i_i D it' = i /\ length (i_log D it') = S (length (i_log D it))).
    { intros i e it it'. unfold step. destruct (negb (finite e)); [discriminate|]. intros H. injection H as <-. cbn. rewrite app_length. cbn. split; [reflexivity|lia]. }
    induction n as [|n IH]; intros k p x r d v rho alpha omega norm it p' x' r' it' Hi Hl HB; cbn [bicg] in HB; [injection HB as <- <- <- <-; lia|].
    destruct (small rho); [discriminate|]. destruct (small omega); [discriminate|]. destruct (papply p vz _) as [p1 y]. cbv zeta in HB. match type of HB with (if small' ?h then _ else _) = _ => destruct (small' h); [discriminate HB|] end.
    destruct (step _ _ _ _ _ _ (2 * k + 1) _ it) as [it1| |] eqn:E1; cbn [obind] in HB; try discriminate. apply SL in E1. destruct E1 as [E1 F1].
    destruct (i_conv D it1); [injection HB as <- <- <- <-; lia|].
    destruct (papply p1 vz _) as [p2 y2]. destruct (step _ _ _ _ _ _ (2 * k + 2) _ it1) as [it2| |] eqn:E2; cbn [obind] in HB; try discriminate. apply SL in E2. destruct E2 as [E2 F2].
    destruct (i_conv D it2); [injection HB as <- <- <- <-; lia|]. eapply IH; [| |exact HB]; lia.
  Qed.

  (** C52.  Let a run of BiCGSTABSolver::apply that returned have reported m defects after the first one (m half iterations).
      Then the iterate x2 given to post() lies in x1 + K_m, b' is its residual, and b' = S rho where S is a product of floor(m/2) factors
      (I - w A W) and rho = r - A y, y in K_(ceil(m/2)), is the bi-orthogonal (BiCG) residual: <r, (AW)^j rho> = 0 for all j < ceil(m/2).
      If it ended with a whole iteration the last factor was the best one: b' is orthogonal to A W rh.  (x1, b1: what pre() left,
      r = b1 - A x1, K_j = span(W r, (WA) W r, ...).) *)
  Theorem C52_bicgstab maxit p x b p1 x1 b1 p' x' b' res log : pre p x b = (p1, x1, b1) ->
    runf maxit p x b = Ok (p', x', b', res, log) ->
    let r := vsub b1 (A x1) in
    exists p2 x2 m ws y rho, post p2 x2 = (p', x') /\ length log = S m /\ r_iterations D res = m / 2 /\
      b' = vsub b1 (A x2) /\ kspace A W r m (vsub x2 x1) /\
      length ws = m / 2 /\ b' = stab A W ws rho /\ rho = vsub r (A y) /\ kspace A W r ((m + 1) / 2) y /\
      (forall j, j < (m + 1) / 2 -> dot r (bpow A W j rho) = r0) /\
      (0 < m -> Nat.even m = true -> exists rh w, b' = vsub rh (vscale w (A (W rh))) /\ dot (A (W rh)) b' = r0).
  Proof.
    intros EP H r. unfold bicgstab_apply in H. rewrite EP in H. fold r in H.
    destruct (step D finite lt_ mul_ tiny reduction 0 (nrm r) (iter0 D zero_)) as [it| |] eqn:ES; cbn [obind] in H; try discriminate.
    assert (E0 : i_i D it = 0 /\ length (i_log D it) = 1 /\ (i_conv D it = false -> is0 (nrm r) = false)).
    { unfold step in ES. destruct (negb (finite (nrm r))); [discriminate|]. injection ES as <-. split; [reflexivity|]. split; [reflexivity|]. cbn [i_conv]. unfold stop. intros E.
      apply orb_false_iff in E. destruct E as [_ E]. destruct (is0 (nrm r)) eqn:Z; [apply Ht in Z; congruence|reflexivity]. }
    destruct E0 as (E0 & E1 & E2).
    assert (K0 : vsub x1 x1 = vz) by vr.
    assert (Rr : r = vadd r (vscale (ropp r1) (A vz))) by (rewrite A0; vr).
    assert (G : exists p2 x2 it2, post p2 x2 = (p', x') /\ finalize D lt_ mul_ div_ tiny reduction 2 it2 = res /\ i_log D it2 = log /\ length (i_log D it2) = S (i_i D it2) /\ Fin_ b1 x1 (i_i D it2) x2 b').
    { destruct (i_conv D it) eqn:EC.
      - injection H as H. apply finish_eq in H. destruct H as (H1 & H2 & H3 & H4). exists p1, x1, it. rewrite E0, E1. repeat (split; [assumption || reflexivity|]).
        rewrite <- H2. split; [reflexivity|]. split; [rewrite K0; constructor|]. split; [|lia]. exists nil, r. split; [reflexivity|]. split; [reflexivity|].
        split; [exists vz; split; [constructor|exact Rr]|intros j Hj; cbn in Hj; lia].
      - specialize (E2 eq_refl). destruct (bicgf r maxit 0 p1 x1 r vz vz r1 r1 r1 (nrm r) it) as [[[[p2 x2] r2] it2]| |] eqn:EB; cbn [obind] in H; try discriminate.
        injection H as H. apply finish_eq in H. destruct H as (H1 & H2 & H3 & H4). exists p2, x2, it2. split; [exact H1|]. split; [exact H3|]. split; [exact H4|].
        split; [refine (bicg_len _ _ 0 _ _ _ _ _ _ _ _ _ _ _ _ _ _ E0 E1 EB)|]. rewrite <- H2.
        refine (bicg_fin b1 x1 maxit 0 p1 x1 _ _ _ _ _ _ _ _ _ _ _ _ _ E0 _ EB); [|lia].
        split; [reflexivity|]. split; [exact E2|]. split; [rewrite K0; constructor|]. exists nil, r. split; [reflexivity|]. split; [reflexivity|].
        split; [split; [exists vz; split; [constructor|exact Rr]|intros; lia]|lia]. }
    destruct G as (p2 & x2 & it2 & G1 & G2 & G3 & G4 & (F1 & F2 & (ws & rho & F3 & F4 & ((y & F5 & F6) & F7)) & F8)).
    exists p2, x2, (i_i D it2), ws, y, rho. split; [exact G1|]. split; [rewrite <- G3; exact G4|]. split; [rewrite <- G2; reflexivity|].
    split; [exact F1|]. split; [exact F2|]. split; [exact F3|]. split; [exact F4|]. split; [rewrite F6; unfold r; vr|]. split; [exact F5|]. split; [exact F7|].
    intros M1 M2. destruct (F8 M1 M2) as (rh & w & M3 & M4). exists rh, w. split; [rewrite M3; vr|exact M4].
  Qed.
  (** Exact termination: as soon as no nonzero vector v has <r, (AW)^j v> = 0 for all j < ceil(m/2), the returned residual is 0 *)
  Theorem C52_terminates maxit p x b p1 x1 b1 p' x' b' res log : pre p x b = (p1, x1, b1) ->
    runf maxit p x b = Ok (p', x', b', res, log) ->
    (forall v, (forall j, j < length log / 2 -> dot (vsub b1 (A x1)) (bpow A W j v) = r0) -> v = vz) -> b' = vz.
  Proof.
    intros EP H Hf. destruct (C52_bicgstab _ _ _ _ _ _ _ _ _ _ _ _ EP H) as (p2 & x2 & m & ws & y & rho & _ & L & _ & _ & _ & _ & E & _ & _ & O & _).
    rewrite L in Hf. replace (S m) with (m + 1) in Hf by lia. rewrite E, (Hf rho O).
    assert (Z : forall l, Q l vz = vz); [|apply Z]. induction l as [|w l IH]; cbn [stab]; [reflexivity|].
    rewrite W0, A0. replace (vadd vz (vscale (ropp w) vz)) with (vz : V) by vr. exact IH.
  Qed.
  (** ... and each whole iteration does not increase the residual: for every s, |rh - s A W rh|^2 = |b'|^2 + (w - s)^2 |A W rh|^2 *)
  Theorem C52_local_minimum rh w s : let b' := vsub rh (vscale w (A (W rh))) in dot (A (W rh)) b' = r0 ->
    let c := vsub rh (vscale s (A (W rh))) in dot c c = radd (dot b' b') (rmul (rmul (rsub w s) (rsub w s)) (dot (A (W rh)) (A (W rh)))).
  Proof.
    intros b' H c. assert (E : c = vadd b' (vscale (rsub w s) (A (W rh)))).
    { unfold c, b'. vring ltac:(solve [unfold rsub; ring]). }
    rewrite E, (sp_add _ HD), (sp_scale _ HD), !(dot_add_r dot HD), !(dot_scale_r dot HD), H, (sp_sym _ HD b' (A (W rh))), H. ring.
  Qed.
End Run.

(** The hypotheses hold for the run [run_bicg] of Solvers.v: matrix ((4,1),(1,3)), Jacobi preconditioner, rationals *)
Lemma ex_aniso (v : Qcplane) : exDot v v = 0%Qc -> v = vz.
Proof.
  destruct v as [a b]. unfold exDot. cbn. intros E. assert (E2 := E). apply Qcsum0 in E; [|apply Qcsq_nonneg|apply Qcsq_nonneg].
  rewrite Qcplus_comm in E2. apply Qcsum0 in E2; [|apply Qcsq_nonneg|apply Qcsq_nonneg]. apply Qcsq0 in E. apply Qcsq0 in E2. congruence.
Qed.
Lemma ex_tiny e : exIs0 e = true -> ltQ e exTiny = true.
Proof. unfold exIs0. destruct (Qc_eq_dec e 0) as [->|]; [|discriminate]. intros _. reflexivity. Qed.
Lemma ex_b0 : exb = vsub (V := Qcplane) exb (exA vz).
Proof. unfold exb, vsub, exA. cbn. f_equal; ring. Qed.
Example ex52 : exists p' x' b' res log, run_bicg 20 = Ok (p', x', b', res, log) /\ length log = 3 /\
  exists ws rho, length ws = 1 /\ b' = stab (V := Qcplane) exA exW ws rho /\ exDot exb rho = 0%Qc.
Proof.
  destruct (run_bicg 20) as [[[[[p' x'] b'] res] log]| |] eqn:E; [|exfalso; assert (F := ex_bicg); rewrite E in F; destruct F; discriminate..].
  exists p', x', b', res, log. split; [reflexivity|].
  assert (L : length log = 3). { assert (F := proj1 ex_bicg). rewrite E in F. cbn in F. injection F. auto. }
  split; [exact L|].
  destruct (C52_bicgstab (V := Qcplane) Qc (fun _ => true) ltQ Qcmult Qcdiv 0%Qc exTiny exReduction exA exDot exNrm exDiv exIs0
    (fun a => ltQ (absQ a) exTiny) (fun a => ltQ (absQ a) exTiny) nat exPre exPapply exPost exW ex_field ex_sp ex_aniso exA_linear (de_linear _ _ ex_W)
    (fun p b => eq_refl) eq_refl eq_refl ex_nrm ex_tiny 20 0 vz exb 0 vz exb p' x' b' res log eq_refl E) as (p2 & x2 & m & ws & y & rho & _ & Lm & _ & _ & _ & Lw & Er & _ & _ & O & _).
  rewrite L in Lm. injection Lm as <-. exists ws, rho. split; [exact Lw|]. split; [exact Er|].
  specialize (O 0 ltac:(cbn; lia)). cbn [bpow] in O. exact (eq_trans (f_equal (fun u => exDot u rho) ex_b0) O).
Qed.
Print Assumptions C52_bicgstab.
Print Assumptions C52_terminates.
