(** * The flexible CG solvers in exact arithmetic: conjugacy, optimality, agreement with CG and with each other (C53)

    Model: Fcg.v.  No definitions of the code here. *)
From Coq Require Import Arith List Lia Bool ZArith QArith Qcanon.
From Coq Require Import setoid_ring.Ring.
From Verif Require Import Ring Sums RingInst Outcome Solvers CgExact VRing Fcg.
Import ListNotations.
Open Scope nat_scope.

Section Descent.
  Context {K : ring} {V : vspace K}.
  Variable A : V -> V.
  Variable dot : V -> V -> K.
  Variable kdiv : K -> K -> outcome K.
  Variable P : Type.
  Variable papply : P -> V -> V -> P * V.
  Hypothesis HK : exact_div kdiv.
  Hypothesis HD : scalar_product dot.
  Variables (b1 x1 : V).
  Local Notation residf := (resid A b1 x1).
  Local Notation itf := (iterate_ x1).
  Local Notation cd := (conjugate_descent A dot b1 x1 P papply).

  Lemma yring_theory : ring_theory (r0 : K) r1 radd rmul rsub ropp eq.
  Proof. constructor; intros; try ncring; auto. apply HK. Qed.
  Add Ring yring : yring_theory.
  (** division as a total function *)
  Definition tdiv (a c : K) : K := match kdiv a c with Ok q => q | _ => r0 end.
  Lemma tdiv_field : field tdiv.
  Proof. destruct HK as (K1 & K2 & K3 & K4). split; [exact K1|]. intros a c N. unfold tdiv. destruct (K4 a c N) as (q & -> & E). exact E. Qed.

  Lemma pos_firstn (steps : list (V * K)) j : j < length steps ->
    itf steps (S j) = vadd (itf steps j) (vscale (snd (nth j steps (vz, r0))) (dir steps j)).
  Proof.
    unfold iterate_, pos, dir. revert j. generalize x1. induction steps as [|e steps IH]; intros x j H; cbn [length] in H; [lia|].
    destruct j as [|j]; [reflexivity|]. cbn [firstn fold_left]. apply (IH _ j). lia.
  Qed.
  Lemma resid_step (steps : list (V * K)) j : linear A -> j < length steps ->
    residf steps (S j) = vadd (residf steps j) (vscale (ropp (snd (nth j steps (vz, r0)))) (A (dir steps j))).
  Proof. intros LA H. unfold resid. rewrite pos_firstn by exact H. symmetry. apply vsub_axpy, LA. Qed.

  (** Energy of the error: step j is the best possible correction of x_j by its preconditioned residual and the stored directions *)
  Theorem descent_optimal start steps xs j : selfadjoint dot A -> cd start steps -> start j <= j -> A xs = b1 -> j < length steps ->
    exists p, forall t y, span (window steps (start j) j) y ->
      let z := vadd (itf steps j) (vadd (vscale t (snd (papply p vz (residf steps j)))) y) in let d := vsub z (itf steps (S j)) in
      energy A dot xs z = radd (energy A dot xs (itf steps (S j))) (dot d (A d)).
  Proof.
    intros [LA A3] C Hsj Exs Hj. destruct (C j Hj) as ((p & y0 & Y1 & Y2) & C2 & C3 & C4). exists p. intros t y Hy z d.
    assert (A1 := proj1 LA). assert (A2 := proj2 LA).
    set (w := snd (papply p vz (residf steps j))) in *. set (xn := itf steps (S j)) in *.
    (* d lies in the span of the window and the new direction *)
    assert (Hd : span (window steps (start j) (S j)) d).
    { set (al := snd (nth j steps (vz, r0))).
      assert (Ed : d = vadd (vscale (radd t (ropp al)) (dir steps j)) (vadd y (vscale (ropp t) y0))).
      { unfold d, z, xn. rewrite pos_firstn by exact Hj. fold al. rewrite Y2. vring ltac:(solve [ring]). }
      assert (M : forall u, window steps (start j) j u -> window steps (start j) (S j) u) by (intros u (i & I1 & I2); exists i; split; [lia|exact I2]).
      assert (Sp : span (window steps (start j) (S j)) (vadd y (vscale (ropp t) y0))).
      { apply span_plus; [|apply span_scale]; eapply span_mono; eauto. }
      rewrite Ed. apply span_plus; [|exact Sp]. apply span_scale, span_in. exists j. split; [lia|reflexivity]. }
    assert (Er : A (vsub xn xs) = vscale (ropp r1) (residf steps (S j))).
    { unfold resid. fold xn. unfold vsub. rewrite A1, A2, Exs. vring ltac:(solve [ring]). }
    assert (Ho : dot d (A (vsub xn xs)) = r0).
    { rewrite Er, (xscale_r _ HD), (sp_sym _ HD). rewrite (span_dot dot kdiv HK HD (window steps (start j) (S j)) (residf steps (S j)) d); [ring| |exact Hd].
      intros u (i & I1 & ->). rewrite (sp_sym _ HD). apply C3. lia. }
    assert (Ez : vsub z xs = vadd (vsub xn xs) d) by (unfold d; vring ltac:(solve [ring])).
    unfold energy. rewrite Ez, A1, (sp_add _ HD), !(xadd_r _ HD), Ho.
    assert (Ho2 : dot (vsub xn xs) (A d) = r0) by (rewrite <- A3, (sp_sym _ HD); exact Ho). rewrite Ho2. ring.
  Qed.

  (** *** a fixed symmetric positive definite preconditioner *)
  Variable W : V -> V.
  Hypothesis HA : definite dot A.
  Hypothesis HW : definite dot W.
  Hypothesis Hp : forall p b, snd (papply p vz b) = W b.
  Variable start : nat -> nat.
  Hypothesis Hstart : forall j, start j <= j - 1.
  Variable steps : list (V * K).
  Hypothesis C : cd start steps.
  Local Notation k := (length steps).
  Local Notation r := (vsub b1 (A x1)).
  Local Notation ks := (kspace A W r).
  Local Notation kry := (krylov A W r).

  Lemma d_in j : j < k -> exists y, span (window steps (start j) j) y /\ dir steps j = vadd (W (residf steps j)) y.
  Proof. intros H. destruct (C j H) as ((p & y & Y1 & Y2) & _). exists y. rewrite Hp in Y2. auto. Qed.
  (** no step starts from a solution *)
  Lemma resid_nz j : j < k -> residf steps j <> vz.
  Proof.
    intros H E. destruct (C j H) as (_ & C2 & _ & C4). destruct (d_in j H) as (y & Y1 & Y2). apply C4.
    rewrite E, (lin0 W) in Y2 by apply HW. rewrite vadd_comm, vadd_0 in Y2. rewrite Y2 at 1. rewrite (sp_sym _ HD).
    apply (span_dot dot kdiv HK HD (window steps (start j) j)); [|exact Y1]. intros u (i & I1 & ->). rewrite (sp_sym _ HD). apply C2. exact I1.
  Qed.
  (** the state before step j *)
  Record KI (j : nat) : Prop := {
    k_dir : forall i, i < j -> ks (S i) (dir steps i);
    k_x : ks j (vsub (itf steps j) x1);
    k_conj : forall i l, i < l < j -> dot (dir steps i) (A (dir steps l)) = r0;
    k_orth : forall y, ks j y -> dot (residf steps j) y = r0;
    k_span : forall y, ks j y -> span (window steps 0 j) y;
    k_w : ks (S j) (W (residf steps j));
    k_lead : j < k -> exists c l, c <> r0 /\ ks j l /\ W (residf steps j) = vadd (vscale c (kry j)) l }.
  Lemma KI0 : KI 0.
  Proof.
    assert (Er : residf steps 0 = r) by reflexivity.
    split.
    - intros i H. lia.
    - unfold iterate_. cbn. replace (vsub x1 x1) with (vz : V) by (vring ltac:(solve [ring])). constructor.
    - intros. lia.
    - intros y Hy. inversion Hy; subst; [|lia]. apply (x0_r dot kdiv HK HD).
    - intros y Hy. inversion Hy; subst; [constructor|lia].
    - rewrite Er. apply (ks_kry A W r 1 0). lia.
    - intros L. exists r1, vz. split; [|split; [constructor|rewrite Er, vscale_1, vadd_0; reflexivity]].
      intros E. apply (resid_nz 0 L). rewrite <- (vscale_1 K V (residf steps 0)), E. apply vscale_0.
  Qed.
  Lemma KI_dir j : KI j -> j < k -> forall y, span (window steps (start j) j) y -> ks j y.
  Proof.
    intros I H y Hy. induction Hy as [|c u y (i & I1 & ->) Hy IH]; [constructor|].
    apply (ks_plus A W); [|exact IH]. apply (ks_scale A tdiv W tdiv_field). apply (ks_mono A W r (S i)); [lia|]. apply (k_dir j I). lia.
  Qed.
  Lemma KI_step j : KI j -> j < k -> KI (S j).
  Proof.
    intros I H. destruct (d_in j H) as (y & Y1 & Y2). destruct (C j H) as (_ & C2 & C3 & C4).
    assert (Ky := KI_dir j I H y Y1). assert (LA : linear A) by apply HA. assert (LW : linear W) by apply HW.
    destruct (k_lead j I H) as (c & l & Hc & Hl & El).
    set (al := snd (nth j steps (vz, r0))). set (dj := dir steps j) in *. assert (Er := resid_step steps j LA H). fold al in Er. fold dj in Er.
    assert (Ed : dj = vadd (vscale c (kry j)) (vadd l y)) by (rewrite Y2, El; symmetry; apply vadd_assoc).
    assert (Kly : ks j (vadd l y)) by (apply (ks_plus A W); assumption).
    assert (Kd : ks (S j) dj).
    { rewrite Ed. apply (ks_plus A W); [|apply (ks_mono A W r j); [lia|exact Kly]]. apply (ks_scale A tdiv W tdiv_field), (ks_kry A W). lia. }
    (* the new direction is conjugate to all earlier ones *)
    assert (Cj : forall i, i < j -> dot (dir steps i) (A dj) = r0).
    { intros i Hi. destruct (le_lt_dec (start j) i) as [L|L]; [apply C2; lia|].
      rewrite <- (de_adj _ _ HA), Y2, (xadd_r _ HD). rewrite <- (de_adj _ _ HW), (sp_sym _ HD).
      assert (Li : i + 2 <= j) by (specialize (Hstart j); lia).
      rewrite (k_orth j I) by (apply (ks_mono A W r (S (S i))); [lia|]; apply (ks_next A dot W HA HW), (k_dir j I); lia).
      rewrite (span_dot dot kdiv HK HD (window steps (start j) j) (A (dir steps i)) y); [ring| |exact Y1].
      intros u (m & M1 & ->). rewrite (de_adj _ _ HA). apply (k_conj j I). lia. }
    assert (Ck : forall z, ks j z -> dot (A dj) z = r0).
    { intros z Hz. apply (span_dot dot kdiv HK HD (window steps 0 j)); [|apply (k_span j I), Hz]. intros u (i & I1 & ->). rewrite (sp_sym _ HD). apply Cj. lia. }
    (* step length *)
    assert (Ea : rmul al (dot dj (A dj)) = dot dj (residf steps j)).
    { assert (E := C3 j). fold dj in E. rewrite Er, (xadd_r _ HD), (xscale_r _ HD) in E. specialize (E (conj (Nat.le_trans _ _ _ (Hstart j) (Nat.le_sub_l j 1)) (le_n j))).
      assert (E2 : dot dj (residf steps j) = rmul al (dot dj (A dj))).
      { replace (dot dj (residf steps j)) with (radd (radd (dot dj (residf steps j)) (rmul (ropp al) (dot dj (A dj)))) (rmul al (dot dj (A dj)))) by ring. rewrite E. ring. }
      symmetry. exact E2. }
    assert (Hal : al <> r0).
    { intros E0. apply (resid_nz j H). apply (de_aniso _ _ HW). rewrite E0 in Ea.
      assert (E2 : dot dj (residf steps j) = r0) by (rewrite <- Ea; ring). rewrite (sp_sym _ HD), Y2, (xadd_r _ HD), (k_orth j I y Ky) in E2.
      rewrite <- E2. ring. }
    assert (Ed2 : forall z, ks (S j) z -> span (window steps 0 (S j)) z).
    { (* kry j is a combination of dj and ks j *)
      assert (Mo : forall z, span (window steps 0 j) z -> span (window steps 0 (S j)) z).
      { intros z. apply span_mono. intros u (i & I1 & ->). exists i. split; [lia|reflexivity]. }
      assert (Ekr : span (window steps 0 (S j)) (kry j)).
      { assert (E : kry j = vadd (vscale (tdiv r1 c) dj) (vscale (ropp (tdiv r1 c)) (vadd l y))).
        { rewrite Ed. assert (Ei := proj2 tdiv_field r1 c Hc). transitivity (vscale (rmul (tdiv r1 c) c) (kry j)); [rewrite Ei; symmetry; apply vscale_1|]. vring ltac:(solve [ring]). }
        rewrite E. apply span_plus; apply span_scale; [|apply Mo, (k_span j I), Kly]. apply span_in. exists j. split; [lia|reflexivity]. }
      intros z Hz. induction Hz as [|cc i z Hi Hz IH]; [constructor|]. apply span_plus; [|exact IH]. apply span_scale.
      destruct (Nat.eq_dec i j) as [->|N]; [exact Ekr|]. apply Mo, (k_span j I), (ks_kry A W). lia. }
    assert (Ek : W (residf steps (S j)) = vadd (vscale (ropp (rmul al c)) (kry (S j))) (vadd (W (residf steps j)) (vscale (ropp al) (W (A (vadd l y)))))).
    { rewrite Er, (proj1 LW), (proj2 LW). cbn [krylov]. rewrite Ed. rewrite (proj1 LA), (proj2 LA), (proj1 LW), (proj2 LW). vring ltac:(solve [ring]). }
    assert (Kl' : ks (S j) (vadd (W (residf steps j)) (vscale (ropp al) (W (A (vadd l y)))))).
    { apply (ks_plus A W); [exact (k_w j I)|]. apply (ks_scale A tdiv W tdiv_field), (ks_next A dot W HA HW), Kly. }
    split.
    - intros i Hi. destruct (Nat.eq_dec i j) as [->|N]; [exact Kd|]. apply (k_dir j I). lia.
    - rewrite pos_firstn by exact H. fold al. fold dj. replace (vsub (vadd (itf steps j) (vscale al dj)) x1) with (vadd (vsub (itf steps j) x1) (vscale al dj)) by (vring ltac:(solve [ring])).
      apply (ks_plus A W); [apply (ks_mono A W r j); [lia|exact (k_x j I)]|apply (ks_scale A tdiv W tdiv_field), Kd].
    - intros i m Hi. destruct (Nat.eq_dec m j) as [->|N]; [apply Cj; lia|]. apply (k_conj j I). lia.
    - intros z Hz. refine (extend A tdiv W tdiv_field r j (fun z => dot (residf steps (S j)) z) c (vadd l y) _ _ Hc Kly _ _ z Hz).
      + intros; apply (xadd_r _ HD).
      + intros; apply (xscale_r _ HD).
      + intros u Hu. rewrite Er, (sp_add _ HD), (sp_scale _ HD), (k_orth j I u Hu), (Ck u Hu). ring.
      + rewrite <- Ed, (sp_sym _ HD). apply C3. specialize (Hstart j). lia.
    - exact Ed2.
    - rewrite Ek. apply (ks_plus A W); [apply (ks_scale A tdiv W tdiv_field), (ks_kry A W); lia|]. apply (ks_mono A W r (S j)); [lia|exact Kl'].
    - intros _. exists (ropp (rmul al c)), (vadd (W (residf steps j)) (vscale (ropp al) (W (A (vadd l y))))). split; [|split; [exact Kl'|exact Ek]].
      intros E0. apply (knz tdiv tdiv_field al c Hal Hc). replace (rmul al c) with (ropp (ropp (rmul al c))) by ring. rewrite E0. ring.
  Qed.
  Lemma KI_all j : j <= k -> KI j.
  Proof. induction j as [|j IH]; intros H; [apply KI0|]. apply KI_step; [apply IH; lia|lia]. Qed.
  Lemma krylov_galerkin : ks k (vsub (pos x1 steps) x1) /\ forall y, ks k y -> dot (residf steps k) y = r0.
  Proof.
    assert (I := KI_all k (le_n _)). split; [|exact (k_orth _ I)]. assert (E := k_x _ I). unfold iterate_ in E. rewrite firstn_all in E. exact E.
  Qed.
End Descent.

Section Gpcg.
  Context {K : ring} {V : vspace K}.
  Variable D : Type.
  Variables (finite : D -> bool) (lt_ : D -> D -> bool) (mul_ div_ : D -> D -> D) (zero_ tiny : D).
  Variable reduction : D.
  Variable A : V -> V.
  Variable dot : V -> V -> K.
  Variable nrm : V -> D.
  Variable kdiv : K -> K -> outcome K.
  Variable P : Type.
  Variable pre : P -> V -> V -> P * V * V.
  Variable papply : P -> V -> V -> P * V.
  Variable post : P -> V -> P * V.
  Local Notation iter := (iter D).
  Local Notation stepf := (step D finite lt_ mul_ tiny reduction).
  Local Notation fbody := (fcg_body (V := V) D finite lt_ mul_ tiny reduction A dot nrm kdiv P papply false).
  Local Notation finner := (fcg_inner (V := V) D finite lt_ mul_ tiny reduction A dot nrm kdiv P papply false).
  Local Notation fouter := (fcg_outer (V := V) D finite lt_ mul_ tiny reduction A dot nrm kdiv P papply false).
  Local Notation gbody := (gpcg_body (V := V) D finite lt_ mul_ tiny reduction A dot nrm kdiv P papply).
  Local Notation ginner := (gpcg_inner (V := V) D finite lt_ mul_ tiny reduction A dot nrm kdiv P papply).
  Local Notation gouter := (gpcg_outer (V := V) D finite lt_ mul_ tiny reduction A dot nrm kdiv P papply).
  Local Notation fcgf := (fcg_apply (V := V) D finite lt_ mul_ div_ zero_ tiny reduction A dot nrm kdiv P pre papply post).
  Local Notation gpcgf := (gpcg_apply (V := V) D finite lt_ mul_ div_ zero_ tiny reduction A dot nrm kdiv P pre papply post).
  Local Notation st := (fcg (V := V) P). Local Notation gst := (gpcg (V := V) P).
  Local Notation ib := (f_ib (V := V) P). Local Notation ii := (f_i (V := V) P).

  (** restart = 1: after the first step GeneralizedPCGSolver::apply never returns *)
  Theorem C53_gpcg_restart1_refuted maxit fuel p x b : 2 <= maxit -> match gpcgf 1 maxit fuel p x b with None => True | Some (Ok (_, _, _, r, _)) => r_converged D r = true | Some _ => True end.
  Proof.
    intros Hm. unfold gpcg_apply. destruct (pre p x b) as [[p1 x1] b1]. cbn [Nat.eqb]. destruct (stepf 0 _ _) as [it| |] eqn:E0; try exact I.
    assert (L0 := logged0 _ _ _ _ zero_ _ _ _ _ E0).
    assert (Fin : forall p x b k ds it, logged D finite lt_ mul_ zero_ tiny reduction k ds it -> i_conv D it = true ->
      let '(_, _, _, r, _) := finish (V := V) D lt_ mul_ div_ tiny reduction P post 1 p x b it in r_converged D r = true).
    { intros p2 x2 b2 k ds it2 L C. unfold finish. destruct (post p2 x2). unfold finalize. cbn [r_converged]. destruct L as (_ & _ & _ & L5 & L6 & _ & L8). rewrite L5, L6. congruence. }
    destruct (i_conv D it) eqn:EC; [exact (Fin _ _ _ _ _ _ L0 EC)|].
    destruct (gpcg_first _ _ _ _ _ _ _ _ _ _ _ _ _ _ _ _ _) as [[s1 it1]| |] eqn:E1; try exact I.
    assert (H1 : g_i P s1 = 1 /\ stepf 1 (nrm (g_b P s1)) it = Ok it1).
    { unfold gpcg_first in E1. cbn [Nat.eqb] in E1. destruct (papply p1 vz _) as [p' v]. destruct (kdiv _ _) as [l| |] in E1; cbn [obind] in E1; try discriminate.
      destruct (stepf 1 _ it) as [it2| |] eqn:E in E1; cbn [obind] in E1; try discriminate. injection E1 as <- <-. split; [reflexivity|exact E]. }
    destruct H1 as [H1 H2]. apply (logged_step _ _ _ _ zero_ _ _ 0 _ _ _ _ L0) in H2.
    destruct (i_conv D it1) eqn:C1; [exact (Fin _ _ _ _ _ _ H2 C1)|].
    assert (G : forall fuel s, g_i P s = 1 -> gouter 1 maxit fuel s it1 = None).
    { clear - Hm C1. induction fuel as [|fuel IH]; intros s Hs; [reflexivity|]. cbn [gpcg_outer]. rewrite Hs, (proj2 (Nat.ltb_lt 1 maxit)) by lia.
      replace (Nat.min 1 (maxit - 1 + 1)) with 1 by lia. cbn [Nat.sub seq gpcg_inner Nat.eqb]. rewrite C1. apply IH. exact Hs. }
    rewrite G by exact H1. exact I.
  Qed.

  Lemma gbody_i j s it s' it' : gbody j s it = Ok (s', it') -> g_i P s' = S (g_i P s).
  Proof.
    unfold gpcg_body. destruct (papply _ _ _) as [p' w]. destruct (gorth _ _ _ _ _ _ _) as [dv| |]; cbn [obind]; try discriminate.
    destruct (kdiv _ _) as [al| |]; cbn [obind]; try discriminate. destruct (stepf _ _ _) as [it1| |]; cbn [obind]; try discriminate.
    intros H. injection H as <- <-. reflexivity.
  Qed.
  Lemma ginner_i l : forall s it s' it', ginner l s it = Ok (s', it') -> g_i P s' = g_i P s + length l.
  Proof.
    induction l as [|j l IH]; intros s it s' it' H; cbn [gpcg_inner] in H; [injection H as <- <-; cbn; lia|].
    destruct (gbody j s it) as [[s1 it1]| |] eqn:E; cbn [obind fst snd] in H; try discriminate. apply gbody_i in E. apply IH in H. cbn [length]. lia.
  Qed.
  (** C53.  GeneralizedPCGSolver returns (or throws) for every restart >= 2 *)
  Theorem C53_gpcg_terminates restart maxit fuel p x b : 2 <= restart -> maxit + 1 <= fuel -> gpcgf restart maxit fuel p x b <> None.
  Proof.
    intros Hr Hf. unfold gpcg_apply. destruct (pre p x b) as [[p1 x1] b1]. destruct (restart =? 0); [discriminate|].
    destruct (stepf 0 _ _) as [it| |]; try discriminate. destruct (i_conv D it); [discriminate|].
    destruct (gpcg_first _ _ _ _ _ _ _ _ _ _ _ _ _ _ _ _ _) as [[s1 it1]| |]; try discriminate. destruct (i_conv D it1); [discriminate|].
    assert (G : forall fuel s it, maxit - g_i P s < fuel -> gouter restart maxit fuel s it <> None).
    { clear - Hr. induction fuel as [|fuel IH]; intros s it H; [lia|]. cbn [gpcg_outer]. destruct (g_i P s <? maxit) eqn:E; [apply Nat.ltb_lt in E|discriminate].
      destruct (ginner _ s it) as [[s1 it1]| |] eqn:EI; try discriminate. apply ginner_i in EI. rewrite seq_length in EI.
      destruct (i_conv D it1); [discriminate|]. apply IH. destruct (_ =? restart); cbn [g_i]; lia. }
    specialize (G fuel s1 it1 ltac:(lia)). destruct (gouter _ _ _ _ _); [discriminate|]. exfalso. apply G. reflexivity.
  Qed.

  Hypothesis HK : exact_div kdiv.
  Hypothesis HD : scalar_product dot.
  Hypothesis HA : selfadjoint dot A.
  Lemma zring_theory : ring_theory (r0 : K) r1 radd rmul rsub ropp eq.
  Proof. constructor; intros; try ncring; auto. apply HK. Qed.
  Add Ring zring : zring_theory.

  Lemma kdiv_opp a c : kdiv (ropp a) c = obind (kdiv a c) (fun q => Ok (ropp q)).
  Proof.
    destruct HK as (K1 & K2 & K3 & K4). destruct (K2 c) as [->|N]; [rewrite !K3; reflexivity|].
    destruct (K4 a c N) as (q & -> & E). destruct (K4 (ropp a) c N) as (q2 & -> & E2). cbn. f_equal.
    destruct (K4 r1 c N) as (i & _ & Ei).
    transitivity (rmul q2 (rmul i c)); [rewrite Ei; ring|]. transitivity (rmul i (rmul q2 c)); [ring|]. rewrite E2, <- E. transitivity (ropp (rmul q (rmul i c))); [ring|]. rewrite Ei. ring.
  Qed.

  Definition same_slot (g : gst) (s : st) (j : nat) : Prop := exists u, nth_error (g_d P g) j = Some (Some u) /\ nth_error (g_pp P g) j = Some (dot u (A u)) /\
    nth_error (f_d P s) j = Some u /\ nth_error (f_Ad P s) j = Some (A u) /\ nth_error (f_dd P s) j = Some (dot u (A u)).
  Definition same (mmax : nat) (g : gst) (s : st) : Prop :=
    g_p P g = f_p P s /\ g_x P g = f_x P s /\ g_b P g = f_b P s /\ ii s = S (g_i P g) /\ length (g_d P g) = S mmax /\ length (g_pp P g) = S mmax /\
    length (f_d P s) = S mmax /\ length (f_Ad P s) = S mmax /\ length (f_dd P s) = S mmax /\ forall j, j < ib s -> same_slot g s j.
  Definition orel {X Y} (R : X -> Y -> Prop) (a : outcome X) (b : outcome Y) : Prop :=
    match a, b with Ok x, Ok y => R x y | Throw e, Throw f => e = f | UB, UB => True | _, _ => False end.
  Definition same_it (mmax i : nat) (a : gst * iter) (b : st * iter) : Prop := same mmax (fst a) (fst b) /\ snd a = snd b /\ ib (fst b) = i.

  Lemma gorth_orth g s ks w : forall v, (forall j, In j ks -> same_slot g s j) -> gorth dot kdiv ks (g_d P g) (g_pp P g) (A w) v = orth dot kdiv ks (f_d P s) (f_Ad P s) (f_dd P s) w v.
  Proof.
    induction ks as [|k ks IH]; intros v Hs; [reflexivity|]. cbn [gorth orth]. destruct (Hs k (or_introl eq_refl)) as (u & E1 & E2 & E3 & E4 & E5).
    unfold pat, vat. rewrite E1, E2, E3, E4, E5. cbn [obind]. rewrite kdiv_opp.
    assert (E : dot (A w) u = dot (A u) w) by (rewrite (sp_sym _ HD), <- (proj2 HA); reflexivity). rewrite E.
    destruct (kdiv _ _) as [q| |]; cbn [obind]; try reflexivity. apply IH. intros j Hj. apply Hs. right. exact Hj.
  Qed.
  Lemma body_same mmax g s it : same mmax g s -> ib s <= mmax -> orel (same_it mmax (S (ib s))) (gbody (ib s) g it) (fbody s it).
  Proof.
    intros (S1 & S2 & S3 & S4 & S5 & S6 & S7 & S8 & S9 & S10) Hi. unfold gpcg_body, fcg_body. rewrite S1, S3. destruct (papply _ _ _) as [p' w].
    rewrite (gorth_orth g s) by (intros j Hj; apply in_seq in Hj; apply S10; lia). cbn [live].
    destruct (orth _ _ _ _ _ _ _) as [dv| |]; cbn [obind orel]; try exact I; try reflexivity.
    destruct (kdiv _ _) as [al| |]; cbn [obind orel]; try exact I; try reflexivity. rewrite S4.
    destruct (stepf _ _ _) as [it1| |]; cbn [obind orel]; try exact I; try reflexivity. unfold same_it. cbn [fst snd f_ib]. split; [|auto].
    unfold same. cbn [g_p g_x g_b g_i g_d g_pp f_p f_x f_b f_i f_d f_Ad f_dd f_ib]. rewrite !upd_length, S2. repeat (split; [auto; congruence|]).
    intros j Hj. unfold same_slot. cbn [g_d g_pp f_d f_Ad f_dd]. rewrite !nth_error_upd, S5, S6, S7, S8, S9.
    destruct (ib s =? j) eqn:E.
    - apply Nat.eqb_eq in E. subst j. rewrite (proj2 (Nat.ltb_lt _ _)) by lia. exists dv. auto.
    - apply Nat.eqb_neq in E. apply S10. lia.
  Qed.
  Lemma inner_same mmax maxit n : forall g s it, n = S maxit - ii s -> same mmax g s -> ib s <= S mmax ->
    let m := Nat.min (S mmax - ib s) n in orel (same_it mmax (ib s + m)) (ginner (seq (ib s) m) g it) (finner mmax maxit n s it).
  Proof.
    induction n as [|n IH]; intros g s it Hn HS Hi m.
    - unfold m. rewrite Nat.min_0_r. cbn. unfold same_it. cbn. split; [exact HS|]. split; [reflexivity|lia].
    - cbn [fcg_inner]. destruct (ib s <=? mmax) eqn:E.
      + apply Nat.leb_le in E. rewrite (proj2 (Nat.leb_le (ii s) maxit)) by lia. cbn [andb].
        assert (Em : m = S (Nat.min (S mmax - S (ib s)) n)) by (unfold m; lia). rewrite Em. cbn [seq gpcg_inner].
        assert (B := body_same mmax g s it HS E). destruct (gbody (ib s) g it) as [[g1 it1]| |]; destruct (fbody s it) as [[s1 it2]| |] eqn:EB; cbn [orel obind fst snd] in *; try contradiction; try assumption.
        destruct B as (B1 & B2 & B3). cbn [fst snd] in *. subst it2. apply body_i in EB. destruct EB as [B4 _].
        specialize (IH g1 s1 it1). rewrite B3 in IH. replace (ib s + S (Nat.min (S mmax - S (ib s)) n)) with (S (ib s) + Nat.min (S mmax - S (ib s)) n) by lia. apply IH; [lia|exact B1|lia].
      + apply Nat.leb_gt in E. cbn [andb]. assert (Em : m = 0) by (unfold m; lia). rewrite Em. cbn. unfold same_it. cbn. split; [exact HS|]. split; [reflexivity|lia].
  Qed.
  (** same answer up to what is dropped at the end *)
  Definition ends (a : gst * iter) (b : st * iter) : Prop := g_p P (fst a) = f_p P (fst b) /\ g_x P (fst a) = f_x P (fst b) /\ g_b P (fst a) = f_b P (fst b) /\ snd a = snd b.
  Lemma outer_same mmax maxit : forall fuel g s it o, same mmax g s -> ib s = 1 -> i_conv D it = false -> gouter (S mmax) maxit fuel g it = Some o ->
    exists o', fouter mmax maxit (S fuel) s it = Some o' /\ orel ends o o'.
  Proof.
    induction fuel as [|fuel IH]; intros g s it o HS Hib HC H; [discriminate|].
    assert (HS' := HS). destruct HS' as (S1 & S2 & S3 & S4 & _). remember (S fuel) as fuel1 eqn:Ef. cbn [fcg_outer]. rewrite Ef in H. cbn [gpcg_outer] in H.
    rewrite HC. destruct (g_i P g <? maxit) eqn:E; [apply Nat.ltb_lt in E|apply Nat.ltb_ge in E].
    - rewrite S4, (proj2 (Nat.leb_le (S (g_i P g)) maxit)) by lia. cbn [andb negb].
      assert (IN := inner_same mmax maxit (S maxit - ii s) g s it eq_refl HS). rewrite Hib in IN. specialize (IN ltac:(lia)). cbv zeta in IN.
      set (e := Nat.min (S mmax) (maxit - g_i P g + 1)) in *. replace (Nat.min (S mmax - 1) (S maxit - ii s)) with (e - 1) in IN by (unfold e; lia). rewrite S4 in IN.
      destruct (ginner _ g it) as [[g1 it1]| |]; destruct (finner _ _ _ s it) as [[s1 it2]| |] eqn:EFI; cbn [orel] in IN; try contradiction; try (injection H as <-; eexists; split; [reflexivity|]; exact IN).
      destruct IN as (T1 & T2 & T3). cbn [fst snd] in *. subst it2.
      assert (T1' := T1). destruct T1' as (U1 & U2 & U3 & U4 & U5 & U6 & U7 & U8 & U9 & U10).
      destruct (i_conv D it1) eqn:C1.
      + injection H as <-. rewrite Ef. cbn [fcg_outer]. rewrite C1, andb_false_r. eexists. split; [reflexivity|]. unfold ends, orel. cbn. auto.
      + destruct (e =? S mmax) eqn:Ee; [apply Nat.eqb_eq in Ee|apply Nat.eqb_neq in Ee].
        * refine (IH _ _ _ o _ _ C1 H); [|reflexivity].
          assert (Hl : ib s1 = S mmax) by (rewrite T3, Ee; lia).
          unfold same, cycle. cbn [g_p g_x g_b g_i g_d g_pp f_p f_x f_b f_i f_d f_Ad f_dd f_ib]. rewrite !upd_length, !swap_length. repeat (split; [assumption|]).
          intros j Hj. replace j with 0 by lia. unfold same_slot. cbn [g_d g_pp f_d f_Ad f_dd]. rewrite !swap_first by assumption. rewrite !nth_error_upd, U5, U6. cbn [Nat.eqb Nat.ltb Nat.leb Nat.sub].
          destruct (U10 mmax) as (u & V1 & V2 & V3 & V4 & V5); [lia|]. exists u. rewrite Nat.sub_0_r. rewrite (nth_error_nth _ _ None V1), (nth_error_nth _ _ r0 V2). auto.
        * assert (EI : ii s1 = S maxit).
          { rewrite <- S4 in EFI.
            assert (HB : forall sa ia sb ib', (ii sa + 1 = ib sa + ii s /\ ii sa <= S maxit) -> ib sa <= mmax -> ii sa <= maxit -> fbody sa ia = Ok (sb, ib') -> ii sb + 1 = ib sb + ii s /\ ii sb <= S maxit).
            { intros sa ia sb ib' [Ha Hb] Hc Hd Hab. apply body_i in Hab. lia. }
            destruct (inner_inv D finite lt_ mul_ tiny reduction A dot nrm kdiv P papply false mmax maxit (fun s' _ => ii s' + 1 = ib s' + ii s /\ ii s' <= S maxit) HB _ s it s1 it1 (le_n _) ltac:(cbn beta; lia) EFI) as [Q1 Q2].
            unfold e in *. lia. }
          destruct fuel as [|fuel]; [discriminate|]. cbn [gpcg_outer] in H. rewrite (proj2 (Nat.ltb_ge (g_i P g1) maxit)) in H by lia. injection H as <-.
          rewrite Ef. cbn [fcg_outer]. rewrite cycle_i, (proj2 (Nat.leb_gt (ii s1) maxit)) by lia. cbn [andb]. eexists. split; [reflexivity|]. unfold ends, orel. cbn. auto.
    - injection H as <-. rewrite (proj2 (Nat.leb_gt (ii s) maxit)) by lia. cbn [andb]. eexists. split; [reflexivity|]. unfold ends, orel. cbn. auto.
  Qed.

  Lemma first_same mmax p x b it : orel (same_it mmax 1) (gpcg_first D finite lt_ mul_ tiny reduction A dot nrm kdiv P papply (S mmax) p x b it) (fbody (fcg_start P mmax p x b) it).
  Proof.
    unfold gpcg_first, fcg_body, fcg_start. cbn [f_p f_b f_x f_d f_Ad f_dd f_ib f_kl f_i live seq orth Nat.eqb]. destruct (papply p vz b) as [p' v]. cbn [obind].
    destruct (kdiv _ _) as [l| |]; cbn [obind orel]; try exact I; try reflexivity. destruct (stepf 1 _ it) as [it1| |]; cbn [obind orel]; try exact I; try reflexivity.
    unfold same_it. cbn [fst snd f_ib]. split; [|auto]. unfold same. cbn [g_p g_x g_b g_i g_d g_pp f_p f_x f_b f_i f_d f_Ad f_dd f_ib].
    rewrite !upd_length, !repeat_length. repeat (split; [reflexivity|]). intros j Hj. replace j with 0 by lia. exists v. cbn. auto.
  Qed.
  Lemma finish_same half g s it : ends (g, it) (s, it) -> finish D lt_ mul_ div_ tiny reduction P post half (g_p P g) (g_x P g) (g_b P g) it = finish D lt_ mul_ div_ tiny reduction P post half (f_p P s) (f_x P s) (f_b P s) it.
  Proof. intros (E1 & E2 & E3 & _). cbn in *. rewrite E1, E2, E3. reflexivity. Qed.

  (** C53.  GeneralizedPCGSolver with restart = m + 1 returns exactly what RestartedFCGSolver with mmax = m returns (or throws), up to
      the number of iterations allowed: it always takes a first step, and it stops there if that meets the stopping rule *)
  Theorem C53_gpcg_is_fcg mmax maxit fuel p x b o : gpcgf (S mmax) maxit fuel p x b = Some o ->
    exists maxit' fuel', fcgf false mmax maxit' fuel' p x b = Some o /\
      (maxit' = Nat.max 1 maxit \/ maxit' = 1 /\ exists p' x' b' res log, o = Ok (p', x', b', res, log) /\ r_converged D res = true).
  Proof.
    unfold gpcg_apply, fcg_apply. destruct (pre p x b) as [[p1 x1] b1]. cbn [Nat.eqb]. set (b2 := vsub b1 (A x1)).
    destruct (stepf 0 (nrm b2) (iter0 D zero_)) as [it| |] eqn:ES; [|intros H; injection H as <-; exists (Nat.max 1 maxit), 0; auto..].
    assert (L0 := logged0 _ _ _ _ zero_ _ _ _ _ ES).
    destruct (i_conv D it) eqn:EC; [intros H; injection H as <-; exists (Nat.max 1 maxit), 0; auto|].
    assert (F1 := first_same mmax p1 x1 b2 it). set (s0 := fcg_start P mmax p1 x1 b2) in *.
    assert (I0 : ii s0 = 1) by reflexivity. assert (B0 : ib s0 = 0) by reflexivity.
    (* the first round of the other solver *)
    assert (Fo : forall m fuel, 1 <= m -> fouter mmax m (S fuel) s0 it =
      match fbody s0 it with Ok (s1, it1) => match finner mmax m (m - 1) s1 it1 with Ok (s2, it2) => fouter mmax m fuel (cycle P false mmax s2) it2 | Throw e => Some (Throw e) | UB => Some UB end
      | Throw e => Some (Throw e) | UB => Some UB end).
    { intros m f Hm. cbn [fcg_outer]. rewrite I0, EC, (proj2 (Nat.leb_le 1 m) Hm). cbn [andb negb]. replace (S m - 1) with (S (m - 1)) by lia. cbn [fcg_inner].
      rewrite I0, B0, (proj2 (Nat.leb_le 1 m) Hm). cbn [Nat.leb andb]. destruct (fbody s0 it) as [[s1 it1]| |]; reflexivity. }
    destruct (gpcg_first _ _ _ _ _ _ _ _ _ _ _ _ _ _ _ _ it) as [[g1 it1]| |]; destruct (fbody s0 it) as [[s1 it2]| |] eqn:EB; cbn [orel] in F1; try contradiction;
      try (intros H; injection H as <-; exists (Nat.max 1 maxit), 1; rewrite Fo by lia; subst; split; [reflexivity|left; reflexivity]).
    destruct F1 as (Hs & E1 & E2). cbn [fst snd] in *. subst it2. assert (BS := EB). apply body_step in BS. apply body_i in EB. rewrite I0 in *. destruct EB as [EI _].
    assert (L1 := logged_step _ _ _ _ zero_ _ _ 0 _ _ _ _ L0 BS).
    assert (Hend : ends (g1, it1) (cycle P false mmax s1, it1)) by (destruct Hs as (Q1 & Q2 & Q3 & _); unfold ends; cbn; auto).
    assert (One : forall f, 2 <= f -> fouter mmax 1 f s0 it = Some (Ok (cycle P false mmax s1, it1))).
    { intros f Hf. destruct f as [|[|f]]; [lia|lia|]. rewrite Fo by lia. cbn [Nat.sub fcg_inner]. cbn [fcg_outer]. rewrite cycle_i, EI. reflexivity. }
    destruct (i_conv D it1) eqn:C1.
    - intros H. injection H as <-. exists 1, 2. rewrite One by lia. cbn [obind fst snd]. rewrite <- (finish_same 1 _ _ _ Hend). split; [reflexivity|right]. split; [reflexivity|].
      unfold finish. destruct (post _ _) as [q y]. do 5 eexists. split; [reflexivity|]. cbn. destruct L1 as (_ & _ & _ & L5 & L6 & _ & L8). rewrite L5, L6. congruence.
    - destruct (gouter (S mmax) maxit fuel g1 it1) as [o1|] eqn:EG; [|discriminate]. intros H. injection H as <-. destruct (le_lt_dec maxit 1) as [Lm|Lm].
      + exists 1, 2. split; [|left; lia]. rewrite One by lia. destruct fuel as [|fuel]; [discriminate|]. cbn [gpcg_outer] in EG.
        destruct Hs as (_ & _ & _ & Q4 & _). rewrite (proj2 (Nat.ltb_ge (g_i P g1) maxit)) in EG by lia. injection EG as <-. cbn [obind fst snd]. rewrite (finish_same 1 _ _ _ Hend). reflexivity.
      + destruct (outer_same mmax maxit fuel g1 s1 it1 o1 Hs E2 C1 EG) as (o2 & H1 & H2). exists maxit, (S fuel). split; [|left; lia].
        assert (E : fouter mmax maxit (S fuel) s0 it = fouter mmax maxit (S fuel) s1 it1).
        { rewrite Fo by lia. cbn [fcg_outer]. rewrite EI, C1, (proj2 (Nat.leb_le 2 maxit)) by lia. cbn [andb negb]. replace (S maxit - 2) with (maxit - 1) by lia. reflexivity. }
        rewrite E, H1. f_equal. destruct o1 as [[g2 it2]|e1|]; destruct o2 as [[s2 it3]|e2|]; cbn [orel] in H2; try contradiction; [|subst; reflexivity|reflexivity].
        assert (E3 : it2 = it3) by apply H2. subst it3. cbn [obind fst snd]. rewrite (finish_same 1 _ _ _ H2). reflexivity.
  Qed.
End Gpcg.

Section Statements.
  Context {K : ring} {V : vspace K}.
  Variable D : Type.
  Variables (finite : D -> bool) (lt_ : D -> D -> bool) (mul_ div_ : D -> D -> D) (zero_ tiny : D).
  Variable reduction : D.
  Variable A : V -> V.
  Variable dot : V -> V -> K.
  Variable nrm : V -> D.
  Variable kdiv : K -> K -> outcome K.
  Variable P : Type.
  Variable pre : P -> V -> V -> P * V * V.
  Variable papply : P -> V -> V -> P * V.
  Variable post : P -> V -> P * V.
  Hypothesis HK : exact_div kdiv.
  Hypothesis HD : scalar_product dot.
  Notation fcgf := (fcg_apply (V := V) D finite lt_ mul_ div_ zero_ tiny reduction A dot nrm kdiv P pre papply post).
  Notation gpcgf := (gpcg_apply (V := V) D finite lt_ mul_ div_ zero_ tiny reduction A dot nrm kdiv P pre papply post).

  Lemma win_start_le c m j : win_start c m j <= j.
  Proof. unfold win_start. destruct c; [lia|]. destruct m as [|m]; [cbn; lia|]. assert (H := Nat.mul_div_le (j - 1) (S m)). lia. Qed.
  Lemma win_start_lt c m j : 1 <= m -> win_start c m j <= j - 1.
  Proof. intros H. unfold win_start. destruct c; [lia|]. assert (E := Nat.mul_div_le (j - 1) m). lia. Qed.

  (** C53.  Exact arithmetic, selfadjoint operator, any (even changing or nonlinear) preconditioner: the run consists of the reported
      number of steps, each along the preconditioned residual made conjugate to the directions of its window *)
  Theorem C53_fcg_conjugate complete mmax maxit fuel p x b p1 x1 b1 p' x' b' res log : selfadjoint dot A -> pre p x b = (p1, x1, b1) ->
    fcgf complete mmax maxit fuel p x b = Some (Ok (p', x', b', res, log)) ->
    exists steps p2 x2, post p2 x2 = (p', x') /\ length steps = r_iterations D res /\ x2 = pos x1 steps /\ b' = resid A b1 x1 steps (length steps) /\
      map snd log = map (fun j => nrm (resid A b1 x1 steps j)) (seq 0 (S (length steps))) /\
      conjugate_descent A dot b1 x1 P papply (win_start complete mmax) steps.
  Proof.
    intros HA EP H. unfold fcg_apply in H. rewrite EP in H. destruct (step _ _ _ _ _ _ 0 _ _) as [it| |] eqn:ES; try discriminate.
    destruct (i_conv D it) eqn:EC.
    - injection H as H. apply finish_eq in H. destruct H as (F1 & F2 & F3 & F4). unfold step in ES. destruct (negb _); [discriminate|]. injection ES as <-.
      exists nil, p1, x1. split; [exact F1|]. rewrite <- F3, <- F4, <- F2. repeat (split; [reflexivity|]). intros j Hj. cbn in Hj. lia.
    - destruct (fcg_outer _ _ _ _ _ _ _ _ _ _ _ _ _ _ _ _ _ _) as [[[s1 it1]| |]|] eqn:EO; cbn [obind] in H; try discriminate.
      injection H as H. apply finish_eq in H. destruct H as (F1 & F2 & F3 & F4). cbn [fst snd] in *.
      destruct (outer_inv D finite lt_ mul_ tiny reduction A dot nrm kdiv P papply complete mmax maxit
        (EI D A dot nrm P papply b1 x1 complete mmax) (EJ D A dot nrm P papply b1 x1 complete mmax maxit)) with (5 := EO)
        as [(steps & (C1 & C2 & C3 & C4 & C5 & C6) & _) _].
      + intros s0 i0 s2 i2. apply E_body; assumption.
      + intros s0 i0. apply E_test.
      + intros s0 i0. apply E_cycle.
      + apply (E_start D finite lt_ mul_ zero_ tiny reduction) with (b2 := vsub b1 (A x1)); [reflexivity|exact ES].
      + exists steps, (f_p P s1), (f_x P s1). split; [exact F1|]. rewrite <- F3, <- F4, <- F2. unfold finalize. cbn [r_iterations]. rewrite Nat.div_1_r. auto 10.
  Qed.

  (** C53.  ... so each step is the best correction (least energy error) by any multiple of the preconditioned residual and any
      combination of the directions of its window; candidate z is worse by <d,Ad>, d = z - x_(j+1) *)
  Theorem C53_fcg_optimal complete mmax maxit fuel p x b p1 x1 b1 p' x' b' res log xs : selfadjoint dot A -> pre p x b = (p1, x1, b1) -> A xs = b1 ->
    fcgf complete mmax maxit fuel p x b = Some (Ok (p', x', b', res, log)) ->
    exists steps p2, post p2 (iterate_ x1 steps (r_iterations D res)) = (p', x') /\
      map snd log = map (fun j => nrm (resid A b1 x1 steps j)) (seq 0 (S (r_iterations D res))) /\
      forall j, j < r_iterations D res -> exists q, forall t y, span (window steps (win_start complete mmax j) j) y ->
        let z := vadd (iterate_ x1 steps j) (vadd (vscale t (snd (papply q vz (resid A b1 x1 steps j)))) y) in
        let d := vsub z (iterate_ x1 steps (S j)) in
        energy A dot xs z = radd (energy A dot xs (iterate_ x1 steps (S j))) (dot d (A d)).
  Proof.
    intros HA EP Exs H. destruct (C53_fcg_conjugate _ _ _ _ _ _ _ _ _ _ _ _ _ _ _ HA EP H) as (steps & p2 & x2 & E1 & E2 & E3 & E4 & E5 & E6).
    exists steps, p2. rewrite <- E2. split; [unfold iterate_; rewrite firstn_all, <- E3; exact E1|]. split; [exact E5|].
    intros j Hj. exact (descent_optimal A dot kdiv P papply HK HD b1 x1 _ steps xs j HA E6 (win_start_le _ _ _) Exs Hj).
  Qed.

  (** C53.  With a preconditioner that maps 0 to 0, a run never passes through the exact solution: if a defect vanishes before the
      last iteration, apply does not return normally *)
  Theorem C53_fcg_exact_hit complete mmax maxit fuel p x b p1 x1 b1 p' x' b' res log j : selfadjoint dot A -> (forall q, snd (papply q vz vz) = vz) ->
    pre p x b = (p1, x1, b1) -> fcgf complete mmax maxit fuel p x b = Some (Ok (p', x', b', res, log)) -> j < r_iterations D res ->
    exists r, nth_error (map snd log) j = Some (nrm r) /\ r <> vz.
  Proof.
    intros HA Hz EP H Hj. destruct (C53_fcg_conjugate _ _ _ _ _ _ _ _ _ _ _ _ _ _ _ HA EP H) as (steps & p2 & x2 & E1 & E2 & E3 & E4 & E5 & E6).
    exists (resid A b1 x1 steps j). split.
    - rewrite E5, nth_error_map. replace (nth_error (seq 0 (S (length steps))) j) with (Some j); [reflexivity|]. symmetry.
      assert (L := nth_error_nth' (seq 0 (S (length steps))) 0 (n := j)). rewrite seq_length in L. rewrite L by lia. rewrite seq_nth by lia. reflexivity.
    - intros E. destruct (E6 j ltac:(lia)) as ((q & y & Y1 & Y2) & C2 & _ & C4). apply C4. rewrite E, Hz, vadd_comm, vadd_0 in Y2. rewrite Y2 at 1. rewrite (sp_sym _ HD).
      apply (span_dot dot kdiv HK HD (window steps (win_start complete mmax j) j)); [|exact Y1]. intros u (i & I1 & ->). rewrite (sp_sym _ HD). apply C2. exact I1.
  Qed.

  (** *** spd operator and a fixed spd preconditioner: the windows do not matter *)
  Variable W : V -> V.
  Hypothesis HA : definite dot A.
  Hypothesis HW : definite dot W.
  Hypothesis Hp : forall p b, snd (papply p vz b) = W b.
  Lemma HA' : selfadjoint dot A.
  Proof. split; apply HA. Qed.

  (** C53.  ... after k iterations x lies in x1 + K_k and the residual is orthogonal to the Krylov space K_k (as for CG, C50) *)
  Theorem C53_fcg_galerkin complete mmax maxit fuel p x b p1 x1 b1 p' x' b' res log : 1 <= mmax -> pre p x b = (p1, x1, b1) ->
    fcgf complete mmax maxit fuel p x b = Some (Ok (p', x', b', res, log)) ->
    exists p2 x2, post p2 x2 = (p', x') /\ b' = vsub b1 (A x2) /\ kspace A W (vsub b1 (A x1)) (r_iterations D res) (vsub x2 x1) /\
      forall y, kspace A W (vsub b1 (A x1)) (r_iterations D res) y -> dot b' y = r0.
  Proof.
    intros Hm EP H. destruct (C53_fcg_conjugate _ _ _ _ _ _ _ _ _ _ _ _ _ _ _ HA' EP H) as (steps & p2 & x2 & E1 & E2 & E3 & E4 & E5 & E6).
    destruct (krylov_galerkin A dot kdiv P papply HK HD b1 x1 W HA HW Hp (win_start complete mmax) (fun j => win_start_lt complete mmax j Hm) steps E6) as [G1 G2].
    exists p2, x2. split; [exact E1|]. split; [rewrite E4; unfold resid, iterate_; rewrite firstn_all, E3; reflexivity|]. rewrite <- E2. split; [rewrite E3; exact G1|]. rewrite E4. exact G2.
  Qed.

  Add Ring ur : (yring_theory kdiv HK).
  Variable is0 : D -> bool.
  Hypothesis Hn : forall v, is0 (nrm v) = true <-> v = vz.
  (** two candidates in x1 + K_k with residuals orthogonal to K_k are equal *)
  Lemma galerkin_unique r0' x1 b1 k x y : kspace A W r0' k (vsub x x1) -> kspace A W r0' k (vsub y x1) ->
    (forall z, kspace A W r0' k z -> dot (vsub b1 (A x)) z = r0) -> (forall z, kspace A W r0' k z -> dot (vsub b1 (A y)) z = r0) -> x = y.
  Proof.
    intros Kx Ky Gx Gy.
    assert (Kd : kspace A W r0' k (vsub x y)).
    { replace (vsub x y) with (vsub (vsub x x1) (vsub y x1)) by (vring ltac:(solve [ring])). apply (ks_sub A (tdiv kdiv) W (tdiv_field kdiv HK)); assumption. }
    assert (E : vsub x y = vz).
    { apply (de_aniso _ _ HA). destruct (de_linear _ _ HA) as [A1 A2].
      assert (E2 : A (vsub x y) = vadd (vsub b1 (A y)) (vscale (ropp r1) (vsub b1 (A x)))) by (unfold vsub; rewrite A1, A2; vring ltac:(solve [ring])).
      rewrite E2, (xadd_r _ HD), (xscale_r _ HD), !(sp_sym _ HD (vsub x y)), (Gx _ Kd), (Gy _ Kd). ring. }
    transitivity (vadd (vsub x y) y); [vring ltac:(solve [ring])|]. rewrite E. vring ltac:(solve [ring]).
  Qed.
  (** C53.  ... and so, whatever mmax >= 1 and whichever variant, the iterate after k iterations is that of CGSolver after k iterations *)
  Theorem C53_fcg_is_cg complete mmax maxit fuel maxitc p x b p1 x1 b1 p' x' b' res log pc xc bc resc logc : 1 <= mmax -> pre p x b = (p1, x1, b1) ->
    fcgf complete mmax maxit fuel p x b = Some (Ok (p', x', b', res, log)) ->
    cg_apply (K := K) (V := V) D finite lt_ mul_ div_ zero_ tiny reduction A dot nrm (tdiv kdiv) is0 P pre papply post maxitc p x b = Ok (pc, xc, bc, resc, logc) ->
    r_iterations D res = r_iterations D resc -> b' = bc /\ exists p2 p3 x2, post p2 x2 = (p', x') /\ post p3 x2 = (pc, xc).
  Proof.
    intros Hm EP H Hc Ek. destruct (C53_fcg_galerkin _ _ _ _ _ _ _ _ _ _ _ _ _ _ _ Hm EP H) as (p2 & x2 & E1 & E2 & E3 & E4).
    destruct (C50_cg_galerkin D finite lt_ mul_ div_ zero_ tiny reduction A dot nrm (tdiv kdiv) is0 P pre papply post W (tdiv_field kdiv HK) HD HA HW Hn Hp _ _ _ _ _ _ _ _ _ _ _ _ EP Hc) as (p3 & x3 & F1 & F2 & F3 & F4).
    rewrite <- Ek in *.
    assert (E : x2 = x3) by (eapply galerkin_unique; [exact E3|exact F3|rewrite <- E2; exact E4|rewrite <- F2; exact F4]).
    subst x3. split; [congruence|]. exists p2, p3, x2. auto.
  Qed.
End Statements.

(** ** Concrete runs: the plane over the rationals *)
Definition exKdiv (a c : Qcring) : outcome Qcring := if Qc_eq_dec c 0%Qc then Throw EAbort else Ok (a / c)%Qc.
Lemma ex_exact_div : exact_div (K := Qcring) exKdiv.
Proof.
  split; [intros; cbn; ring|]. split; [intros c; destruct (Qc_eq_dec c 0%Qc); auto|]. split; [reflexivity|].
  intros a c H. unfold exKdiv. destruct (Qc_eq_dec c 0%Qc) as [E|E]; [contradiction|]. exists (a / c)%Qc. split; [reflexivity|]. cbn. field. exact E.
Qed.
Definition run_fcg (B : Qcplane -> Qcplane) (b : Qcplane) complete mmax maxit fuel :=
  fcg_apply (V := Qcplane) Qc (fun _ => true) ltQ Qcmult Qcdiv 0%Qc exTiny exReduction B exDot exNrm exKdiv nat exPre exPapply exPost complete mmax maxit fuel 0 vz b.
Definition run_gpcg (B : Qcplane -> Qcplane) (b : Qcplane) restart maxit fuel :=
  gpcg_apply (V := Qcplane) Qc (fun _ => true) ltQ Qcmult Qcdiv 0%Qc exTiny exReduction B exDot exNrm exKdiv nat exPre exPapply exPost restart maxit fuel 0 vz b.
Definition osummary o := match o with Some a => summary a | None => None end.
(** the hypotheses of the C53 theorems hold together (CG's are in [C50_example]), and all three solvers need the two iterations CG needs *)
Example C53_example : exact_div (K := Qcring) exKdiv /\ scalar_product (V := Qcplane) exDot /\ definite (V := Qcplane) exDot exA /\ definite (V := Qcplane) exDot exW /\
  (forall p b, snd (exPapply p vz b) = exW b) /\ (forall q, snd (exPapply q vz vz) = (vz : Qcplane)) /\
  osummary (run_fcg exA exb false 1 20 21) = Some (2, 2, true, 3) /\ osummary (run_fcg exA exb true 1 20 21) = Some (2, 2, true, 3) /\
  osummary (run_gpcg exA exb 2 20 21) = Some (2, 2, true, 3) /\ summary (run_cg 20) = Some (2, 2, true, 3).
Proof.
  split; [apply ex_exact_div|]. split; [apply ex_sp|]. split; [apply ex_A|]. split; [apply ex_W|]. split; [reflexivity|].
  split; [intros q; change (((0 / Q2Qc 4)%Qc, (0 / Q2Qc 3)%Qc) = (0%Qc, 0%Qc)); f_equal; apply Qc_is_canon; reflexivity|].
  repeat split; vm_compute; reflexivity.
Qed.
(** C53 (deviation).  diag(4,3) x = (1,0) is solved exactly by the first step.  With 5 iterations allowed and more than one direction
    stored, both flexible solvers continue the window without looking at the defect, divide 0 by 0 and throw SolverAbort; with one
    iteration allowed they report convergence, as does GeneralizedPCGSolver (which looks after its first step) in both cases *)
Theorem C53_fcg_abort_refuted :
  run_fcg exA' exb' false 3 5 6 = Some (Throw EAbort) /\ run_fcg exA' exb' true 3 5 6 = Some (Throw EAbort) /\
  osummary (run_fcg exA' exb' false 3 1 6) = Some (1, 1, true, 2) /\ osummary (run_gpcg exA' exb' 4 5 6) = Some (1, 1, true, 2) /\
  (* ... but not when the solution is reached in the second step of a window *)
  run_gpcg exA exb 4 5 6 = Some (Throw EAbort).
Proof. repeat split; vm_compute; reflexivity. Qed.
(** ... and mmax = 0 resp. restart = 1 do not return: hypotheses of the two theorems *)
Example C53_loop_example : osummary (run_fcg exA exb false 0 1 2) = Some (1, 1, false, 2) /\ (forall fuel, run_fcg exA exb false 0 5 fuel = None) /\ run_gpcg exA exb 1 5 100 = None.
Proof.
  assert (E : osummary (run_fcg exA exb false 0 1 2) = Some (1, 1, false, 2)) by (vm_compute; reflexivity).
  split; [exact E|]. split; [|vm_compute; reflexivity]. intros fuel.
  unfold run_fcg in *. destruct (fcg_apply _ _ _ _ _ _ _ _ _ _ _ _ _ _ _ _ false 0 1 2 0 vz exb) as [[[[[[p' x'] b'] res] log]| |]|] eqn:H; try discriminate.
  eapply (C53_fcg_mmax0_refuted (K := Qcring)); [lia|exact H|]. cbn in E. congruence.
Qed.
Print Assumptions C53_fcg_reports. Print Assumptions C53_fcg_terminates. Print Assumptions C53_fcg_mmax0_refuted.
Print Assumptions C53_fcg_conjugate. Print Assumptions C53_fcg_optimal. Print Assumptions C53_fcg_is_cg. Print Assumptions C53_gpcg_is_fcg.
