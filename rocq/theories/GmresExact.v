(** * GMRes and FGMRes in exact arithmetic: the reported defect is the norm of the residual (C28) *)
From Coq Require Import Arith List Lia Bool ZArith QArith Qcanon.
From Coq Require Import setoid_ring.Ring.
From Verif Require Import Ring Sums RingInst Outcome Solvers Gmres.
From Verif Require CgExact.
Import ListNotations.
Open Scope nat_scope.

Section Exact.
  Context {K : ring} {V : vspace K}.
  Hypothesis kcomm : forall a b : K, rmul a b = rmul b a.
  Lemma kring_theory : ring_theory (r0 : K) r1 radd rmul rsub ropp eq.
  Proof.
    constructor; intros; try ncring; auto.
  Qed.
  Add Ring kring : kring_theory.
  (** linear combinations *)
  Fixpoint fcomb (f : nat -> K) (us : list V) : V := match us with nil => vz | u :: us' => vadd (vscale (f 0) u) (fcomb (fun n => f (S n)) us') end.
  Lemma vadd_0l (a : V) : vadd vz a = a.
  Proof. rewrite vadd_comm. apply vadd_0. Qed.
  Lemma vadd_4 (a b c d : V) : vadd (vadd a b) (vadd c d) = vadd (vadd a c) (vadd b d).
  Proof. rewrite <- !vadd_assoc. f_equal. rewrite !vadd_assoc. f_equal. apply vadd_comm. Qed.
  Lemma vscale_vz k : vscale k (vz : V) = vz.
  Proof. rewrite <- (vscale_0 K V vz), <- vscale_mul. replace (rmul k r0) with (r0 : K) by ncring. reflexivity. Qed.
  Lemma vsub_diag (a : V) : vsub a a = vz.
  Proof. unfold vsub. rewrite <- (vscale_1 K V a) at 1. rewrite <- vscale_add_l. replace (radd r1 (ropp r1)) with (r0 : K) by ncring. apply vscale_0. Qed.
  Lemma fcomb_ext f g us : (forall l, l < length us -> f l = g l) -> fcomb f us = fcomb g us.
  Proof. revert f g. induction us as [|u us IH]; intros f g H; cbn; auto. rewrite (H 0) by (cbn; lia). f_equal. apply IH. intros l Hl. apply H. cbn. lia. Qed.
  Lemma fcomb_zero us : fcomb (fun _ => r0) us = vz.
  Proof. induction us as [|u us IH]; cbn; auto. rewrite IH, vscale_0, vadd_0. reflexivity. Qed.
  Lemma fcomb_axpy f g k us : vadd (fcomb f us) (vscale k (fcomb g us)) = fcomb (fun l => radd (f l) (rmul k (g l))) us.
  Proof.
    revert f g. induction us as [|u us IH]; intros f g; cbn.
    - rewrite vscale_vz, vadd_0. reflexivity.
    - rewrite vscale_add_r, vadd_4, IH, <- vscale_mul, <- vscale_add_l. reflexivity.
  Qed.
  Lemma fcomb_snoc f us u : fcomb f (us ++ [u]) = vadd (fcomb f us) (vscale (f (length us)) u).
  Proof.
    revert f. induction us as [|w us IH]; intros f; cbn; [rewrite vadd_0, vadd_0l; auto|]. rewrite IH, vadd_assoc. reflexivity.
  Qed.
  (** the rotated basis: u_k = c t_k + s v_{k+1}, t_{k+1} = -s t_k + c v_{k+1} *)
  Fixpoint basis (rots : list (K * K)) (t : V) (vs : list V) : list V * V :=
    match rots, vs with
    | cs :: rots', v :: vs' =>
      let '(us, t') := basis rots' (vadd (vscale (ropp (snd cs)) t) (vscale (fst cs) v)) vs' in (vadd (vscale (fst cs) t) (vscale (snd cs) v) :: us, t')
    | _, _ => (nil, t)
    end.
  Lemma basis_snoc rots vs cs v : forall t us t', length rots = length vs -> basis rots t vs = (us, t') ->
    basis (rots ++ [cs]) t (vs ++ [v]) = (us ++ [vadd (vscale (fst cs) t') (vscale (snd cs) v)], vadd (vscale (ropp (snd cs)) t') (vscale (fst cs) v)) /\ length us = length rots.
  Proof.
    revert vs. induction rots as [|cs0 rots IH]; intros [|v0 vs] t us t' HL H; cbn in HL; try discriminate; cbn [app basis] in *.
    - injection H as <- <-. auto.
    - destruct (basis rots _ vs) as [us1 t1] eqn:E1. injection H as <- <-. destruct (IH vs _ _ _ ltac:(lia) E1) as [-> HL']. cbn. auto.
  Qed.
  Definition unit_rot (cs : K * K) : Prop := radd (rmul (fst cs) (fst cs)) (rmul (snd cs) (snd cs)) = r1.
  Lemma lc2 (a b c s c' s' : K) (t v : V) :
    vadd (vscale a (vadd (vscale c t) (vscale s v))) (vscale b (vadd (vscale c' t) (vscale s' v))) =
    vadd (vscale (radd (rmul a c) (rmul b c')) t) (vscale (radd (rmul a s) (rmul b s')) v).
  Proof. rewrite !vscale_add_r, <- !vscale_mul, vadd_4, <- !vscale_add_l. reflexivity. Qed.
  Lemma rotate_basis cs dx dy (t v : V) : unit_rot cs ->
    vadd (vscale dx t) (vscale dy v) =
    vadd (vscale (fst (rotate cs dx dy)) (vadd (vscale (fst cs) t) (vscale (snd cs) v))) (vscale (snd (rotate cs dx dy)) (vadd (vscale (ropp (snd cs)) t) (vscale (fst cs) v))).
  Proof.
    destruct cs as [c s]. unfold unit_rot, rotate. cbn [fst snd]. intros HU. rewrite lc2. f_equal; f_equal.
    - transitivity (rmul (radd (rmul c c) (rmul s s)) dx); [rewrite HU; ring|ring].
    - transitivity (rmul (radd (rmul c c) (rmul s s)) dy); [rewrite HU; ring|ring].
  Qed.

  Notation lc hs vs := (fcomb (fun n => nth n hs r0) vs).
  Lemma rotcol_basis rots : forall vs vl h hs t us t' l dx dy, Forall unit_rot rots -> length vs = length rots -> length hs = S (length rots) ->
    basis rots t vs = (us, t') -> rotcol rots h hs = (l, (dx, dy)) ->
    vadd (vscale h t) (lc hs (vs ++ [vl])) = vadd (lc l us) (vadd (vscale dx t') (vscale dy vl)) /\ length l = length rots.
  Proof.
    induction rots as [|cs rots IH]; intros [|v vs] vl h [|h1 hs] t us t' l dx dy HU HV HS HB HR; cbn in HV, HS; try discriminate.
    - cbn in HB, HR. injection HB as <- <-. injection HR as <- <- <-. cbn. rewrite vadd_0, vadd_0l. auto.
    - apply Forall_inv in HU as HU1. apply Forall_inv_tail in HU. cbn [basis rotcol] in HB, HR. pose proof (rotate_basis cs h h1 t v HU1) as E1.
      destruct (rotate cs h h1) as [a b]. cbn [fst snd] in E1. destruct (rotcol rots b hs) as [l1 q1] eqn:ER.
      destruct (basis rots _ vs) as [us1 t1] eqn:EB. injection HB as <- <-. injection HR as <- ->.
      destruct (IH vs vl b hs _ us1 t1 l1 dx dy HU ltac:(lia) ltac:(lia) EB ER) as [I1 I2]. split; [|cbn; lia].
      cbn [app fcomb nth]. rewrite vadd_assoc, E1, <- !vadd_assoc. f_equal. exact I1.
  Qed.

  (** inner product *)
  Variable dot : V -> V -> K.
  Hypothesis dot_sym : forall a b, dot a b = dot b a.
  Hypothesis dot_add : forall a b c, dot (vadd a b) c = radd (dot a c) (dot b c).
  Hypothesis dot_scale : forall k a c, dot (vscale k a) c = rmul k (dot a c).
  Lemma dot_add_r a b c : dot c (vadd a b) = radd (dot c a) (dot c b).
  Proof. rewrite dot_sym, dot_add, !(dot_sym c). reflexivity. Qed.
  Lemma dot_scale_r k a c : dot c (vscale k a) = rmul k (dot c a).
  Proof. rewrite dot_sym, dot_scale, (dot_sym c). reflexivity. Qed.
  Lemma dot_vz a : dot a vz = r0.
  Proof. rewrite <- (vscale_0 K V vz), dot_scale_r. ring. Qed.
  Fixpoint orthonormal (vs : list V) : Prop := match vs with nil => True | v :: vs' => dot v v = r1 /\ (forall u, In u vs' -> dot v u = r0) /\ orthonormal vs' end.
  Lemma orthonormal_snoc vs w : orthonormal vs -> (forall v, In v vs -> dot v w = r0) -> dot w w = r1 -> orthonormal (vs ++ [w]).
  Proof.
    induction vs as [|v vs IH]; cbn; intros HO HV HW; [repeat split; auto; contradiction|]. destruct HO as [O1 [O2 O3]]. split; auto. split; [|apply IH; auto].
    intros u Hu. apply in_app_iff in Hu. destruct Hu as [Hu|[<-|[]]]; auto.
  Qed.
  Lemma dot_fcomb f vs w : (forall u, In u vs -> dot u w = r0) -> dot (fcomb f vs) w = r0.
  Proof. revert f. induction vs as [|v vs IH]; intros f H; cbn; [rewrite dot_sym; apply dot_vz|]. rewrite dot_add, dot_scale, (H v) by (cbn; auto). rewrite IH; [ring|]. intros; apply H; cbn; auto. Qed.
  Lemma mgs_spec vs : forall w hs w', mgs dot vs w = (hs, w') -> length hs = length vs /\ w = vadd (lc hs vs) w' /\
    (orthonormal vs -> forall v, In v vs -> dot v w' = r0).
  Proof.
    induction vs as [|v vs IH]; intros w hs w' H; cbn [mgs] in H.
    - injection H as <- <-. cbn. rewrite vadd_0l. repeat (split; auto). contradiction.
    - destruct (mgs dot vs _) as [hs1 w1] eqn:E1. injection H as <- <-. destruct (IH _ _ _ E1) as [I1 [I2 I3]]. split; [cbn; lia|]. split.
      + cbn [fcomb nth]. rewrite <- vadd_assoc, <- I2. rewrite (vadd_comm _ _ w), vadd_assoc, <- vscale_add_l.
        replace (radd (dot v w) (ropp (dot v w))) with (r0 : K) by ring. rewrite vscale_0, vadd_0l. reflexivity.
      + intros [O1 [O2 O3]] u [<-|Hu]; [|apply I3; auto].
        assert (E : dot v (vadd w (vscale (ropp (dot v w)) v)) = r0) by (rewrite dot_add_r, dot_scale_r, O1; ring).
        rewrite I2, dot_add_r in E. rewrite (dot_sym v (fcomb _ _)), dot_fcomb in E; [rewrite <- E; ring|]. intros x Hx. rewrite dot_sym. auto.
  Qed.

  Variables (finite : K -> bool) (lt_ : K -> K -> bool) (mul_ div_ : K -> K -> K) (zero_ tiny : K).
  Variable reduction : K.
  Variables A W : V -> V.
  Variable nrm : V -> K.
  Variable kdiv : K -> K -> K.
  Variable kabs : K -> K.
  Variable is0 tiny80 : K -> bool.
  Variable rot : K -> K -> K * K.
  Variable P : Type.
  Variable pre : P -> V -> V -> P * V * V.
  Variable papply : P -> V -> V -> P * V.
  Variable post : P -> V -> P * V.
  Variable flex : bool.
  Hypothesis A_lin : linear A.
  Hypothesis W_lin : flex = false -> linear W.
  Hypothesis W_app : flex = false -> forall p d, snd (papply p vz d) = W d.
  Hypothesis nrm_dot : forall v, rmul (nrm v) (nrm v) = dot v v.
  Hypothesis is0_spec : forall a, is0 a = true <-> a = r0.
  Hypothesis kdiv_spec : forall a b, b <> r0 -> rmul (kdiv a b) b = a.
  Hypothesis kabs_spec : forall a v, rmul a a = dot v v -> kabs a = nrm v.
  Hypothesis tiny80_0 : tiny80 r0 = true.
  Hypothesis tiny_pos : lt_ r0 tiny = true.
  (** the operator the Krylov space is built with, and the residual: preconditioned for GMRes, not for FGMRes *)
  Definition Bop (v : V) : V := if flex then A v else W (A v).
  Definition resid (b x : V) : V := if flex then vsub b (A x) else W (vsub b (A x)).
  Lemma linear_vz (L : V -> V) : linear L -> L vz = vz.
  Proof. intros [_ L2]. rewrite <- (vscale_0 K V vz), L2, vscale_0. symmetry. apply vscale_0. Qed.
  Lemma Bop_lin : linear Bop.
  Proof. unfold Bop. destruct A_lin as [L1 L2]. destruct flex; [split; auto|]. destruct (W_lin eq_refl) as [M1 M2]. split; intros; [rewrite L1, M1|rewrite L2, M2]; auto. Qed.
  Lemma resid_add b x d : resid b (vadd x d) = vsub (resid b x) (Bop d).
  Proof.
    unfold resid, Bop. destruct flex; [symmetry; apply vsub_apply; auto|]. destruct (W_lin eq_refl) as [M1 M2]. rewrite <- (vsub_apply A b x d A_lin). unfold vsub at 1. rewrite M1, M2. reflexivity.
  Qed.
  Definition exact_pair (q : K * K) : Prop :=
    unit_rot (rot (fst q) (snd q)) /\ snd (rotate (rot (fst q) (snd q)) (fst q) (snd q)) = r0 /\ fst (rotate (rot (fst q) (snd q)) (fst q) (snd q)) <> r0.

  Notation cyc := (cyc (K := K) (V := V) P).
  Notation c_v := (c_v P). Notation c_rots := (c_rots P). Notation c_s := (c_s P). Notation c_last := (c_last P). Notation c_cols := (c_cols P).
  Notation c_dirs := (c_dirs P). Notation c_norm := (c_norm P). Notation c_it := (c_it P). Notation c_pairs := (c_pairs P). Notation c_j := (c_j P).
  Notation arnoldif := (arnoldi finite lt_ mul_ tiny reduction A dot nrm kdiv kabs is0 tiny80 rot P papply flex).
  Notation innerf := (inner finite lt_ mul_ tiny reduction A dot nrm kdiv kabs is0 tiny80 rot P papply flex).

  Definition krylov (r : V) (st : cyc) : Prop := exists v0 vs us t,
    c_v st = v0 :: vs /\ length vs = length (c_rots st) /\ orthonormal (c_v st) /\ Forall unit_rot (c_rots st) /\ basis (c_rots st) v0 vs = (us, t) /\
    length (c_s st) = length (c_rots st) /\ length (c_cols st) = length (c_rots st) /\ length (c_dirs st) = length (c_rots st) /\
    r = vadd (lc (c_s st) us) (vscale (c_last st) t) /\
    dot t t = r1 /\ (forall w, (forall v, In v (c_v st) -> dot v w = r0) -> dot t w = r0) /\
    (forall u, In u us -> dot u t = r0 /\ forall w, (forall v, In v (c_v st) -> dot v w = r0) -> dot u w = r0) /\
    (forall k, k < length (c_rots st) -> Bop (nth k (c_dirs st) vz) = lc (nth k (c_cols st) nil) us /\ length (nth k (c_cols st) nil) = S k /\
      nth k (nth k (c_cols st) nil) r0 <> r0).

  Lemma expand_spec p v : exists p' d, expand A P papply flex p v = (p', d, Bop d).
  Proof.
    unfold expand, Bop. destruct flex eqn:EF.
    - destruct (papply p vz v) as [p' z]. eauto.
    - pose proof (W_app eq_refl p (A v)) as HW. destruct (papply p vz (A v)) as [p' w]. cbn in HW. subst. eauto.
  Qed.
  Lemma lc_snoc_old l (us : list V) u : length l = length us -> lc l (us ++ [u]) = lc l us.
  Proof. intros H. rewrite fcomb_snoc, <- H. rewrite nth_overflow by lia. rewrite vscale_0, vadd_0. reflexivity. Qed.
  Lemma lc_snoc_short l (us : list V) u : length l <= length us -> lc l (us ++ [u]) = lc l us.
  Proof. intros H. rewrite fcomb_snoc. rewrite nth_overflow by lia. rewrite vscale_0, vadd_0. reflexivity. Qed.
  Lemma lc_snoc_new l a (us : list V) u : length l = length us -> lc (l ++ [a]) (us ++ [u]) = vadd (lc l us) (vscale a u).
  Proof.
    intros H. rewrite fcomb_snoc. rewrite app_nth2, <- H, Nat.sub_diag by lia. cbn [nth]. f_equal. apply fcomb_ext. intros i Hi. rewrite app_nth1 by lia. auto.
  Qed.
  Lemma arnoldi_krylov r st st' : krylov r st -> is0 (c_norm st) = false -> arnoldif st = Ok st' -> (forall q, In q (c_pairs st') -> exact_pair q) -> krylov r st'.
  Proof.
    intros [v0 [vs [us [t [E1 [E2 [E3 [E4 [E5 [E6 [E7 [E8 [E9 [E10 [E11 [E13 E12]]]]]]]]]]]]]]]] HN H HX. unfold arnoldi in H.
    destruct (expand_spec (c_p P st) (last (c_v st) vz)) as [p' [d ED]]. rewrite ED in H. destruct (mgs dot (c_v st) (Bop d)) as [h w'] eqn:EM.
    destruct (mgs_spec _ _ _ _ EM) as [M1 [M2 M3]]. specialize (M3 E3). destruct (tiny80 (nrm w')) eqn:E80; [discriminate|].
    assert (Hn : nrm w' <> r0) by congruence.
    set (hn := nrm w') in *. assert (ER : recip kdiv flex (is0 (c_norm st)) hn = kdiv r1 hn) by (unfold recip; rewrite HN, andb_false_r; auto). rewrite ER in H.
    set (vnew := vscale (kdiv r1 hn) w') in *.
    assert (HV1 : vscale hn vnew = w'). { unfold vnew. rewrite <- vscale_mul, kcomm, kdiv_spec by auto. apply vscale_1. }
    assert (HV2 : forall v, In v (c_v st) -> dot v vnew = r0). { intros v Hv. unfold vnew. rewrite dot_scale_r, (M3 v Hv). ring. }
    assert (HV3 : dot vnew vnew = r1). { unfold vnew. rewrite dot_scale, dot_scale_r, <- nrm_dot. fold hn. transitivity (rmul (rmul (kdiv r1 hn) hn) (rmul (kdiv r1 hn) hn)); [ring|]. rewrite kdiv_spec by auto. ring. }
    rewrite E1 in M1, M2. destruct h as [|h0 hs]; [discriminate|]. cbn [hd tl] in H. cbn [length] in M1.
    destruct (rotcol (c_rots st) h0 (hs ++ [hn])) as [col [dx dy]] eqn:EC.
    destruct (rotcol_basis (c_rots st) vs vnew h0 (hs ++ [hn]) v0 us t col dx dy E4 E2) as [R1 R2]; auto. { rewrite app_length. cbn. lia. }
    assert (RB : Bop d = vadd (lc col us) (vadd (vscale dx t) (vscale dy vnew))).
    { rewrite <- R1, M2. cbn [fcomb nth]. rewrite <- vadd_assoc. f_equal. rewrite lc_snoc_new by lia. rewrite HV1. reflexivity. }
    set (cs := rot dx dy) in *. destruct (rotate cs (c_last st) r0) as [s0 s1] eqn:ES.
    match type of H with obind ?o _ = _ => destruct o as [it| |]; cbn [obind] in H; try discriminate end. injection H as <-. cbn [Gmres.c_v Gmres.c_rots Gmres.c_s Gmres.c_cols Gmres.c_dirs Gmres.c_last Gmres.c_pairs] in *.
    assert (HE : exact_pair (dx, dy)) by (apply HX, in_app_iff; right; left; auto). destruct HE as [X1 [X2 X3]]. cbn [fst snd] in X1, X2, X3. fold cs in X1, X2, X3.
    destruct (basis_snoc _ _ cs vnew _ _ _ (eq_sym E2) E5) as [B1 B2].
    set (u := vadd (vscale (fst cs) t) (vscale (snd cs) vnew)) in *. set (t' := vadd (vscale (ropp (snd cs)) t) (vscale (fst cs) vnew)) in *.
    assert (Htv : dot t vnew = r0) by auto.
    exists v0, (vs ++ [vnew]), (us ++ [u]), t'. cbn [Gmres.c_v Gmres.c_rots Gmres.c_s Gmres.c_cols Gmres.c_dirs Gmres.c_last Gmres.c_pairs]. rewrite E1. split; [reflexivity|]. rewrite !app_length. cbn [length]. split; [lia|]. split; [rewrite <- E1; apply orthonormal_snoc; auto|].
    split; [apply Forall_app; auto|]. split; [exact B1|]. split; [lia|]. split; [lia|]. split; [lia|]. split.
    { rewrite lc_snoc_new by lia. rewrite <- vadd_assoc, E9. f_equal.
      pose proof (rotate_basis cs (c_last st) r0 t vnew X1) as RR. rewrite ES, vscale_0, vadd_0 in RR. exact RR. }
    split. { unfold t'. rewrite !dot_add, !dot_add_r, !dot_scale, !dot_scale_r, (dot_sym vnew t), Htv, E10, HV3. transitivity (radd (rmul (fst cs) (fst cs)) (rmul (snd cs) (snd cs))); [ring|exact X1]. }
    split. { intros w Hw. unfold t'. rewrite dot_add, !dot_scale. rewrite E11; [rewrite (Hw vnew); [ring|]|intros v Hv; apply Hw; rewrite E1 in Hv]; apply (in_app_iff (v0 :: vs)); cbn; auto. }
    split.
    { intros u0 Hu. apply in_app_iff in Hu. destruct Hu as [Hu|[<-|[]]].
      - destruct (E13 u0 Hu) as [G1 G2]. split.
        + unfold t'. rewrite dot_add_r, !dot_scale_r, G1, (G2 vnew) by auto. ring.
        + intros w Hw. apply G2. intros v Hv. apply Hw. rewrite E1 in Hv. apply (in_app_iff (v0 :: vs)); auto.
      - split.
        + unfold u, t'. rewrite !dot_add, !dot_add_r, !dot_scale, !dot_scale_r, (dot_sym vnew t), Htv, E10, HV3. ring.
        + intros w Hw. unfold u. rewrite dot_add, !dot_scale. rewrite E11; [rewrite (Hw vnew); [ring|]|intros v Hv; apply Hw; rewrite E1 in Hv]; apply (in_app_iff (v0 :: vs)); cbn; auto. }
    intros k Hk. destruct (Nat.eq_dec k (length (c_rots st))) as [->|].
    - rewrite !app_nth2 by lia. rewrite E7, E8, Nat.sub_diag. cbn [nth]. split; [|split; [rewrite app_length; cbn; lia|]].
      + rewrite lc_snoc_new by lia. rewrite RB. f_equal. rewrite (rotate_basis cs dx dy t vnew X1), X2, vscale_0, vadd_0. reflexivity.
      + rewrite app_nth2 by lia. rewrite R2, Nat.sub_diag. cbn [nth]. exact X3.
    - rewrite !app_nth1 by lia. destruct (E12 k ltac:(lia)) as [F1 [F2 F3]]. rewrite F1, F2. repeat (split; auto). rewrite lc_snoc_short; auto. lia.
  Qed.

  (** back substitution *)
  Lemma fold_sub (g : nat -> K) L : forall x c, fold_left (fun r b => radd r (ropp (g b))) L (radd x c) = radd (fold_left (fun r b => radd r (ropp (g b))) L x) c.
  Proof. induction L as [|b L IH]; intros x c; cbn; auto. rewrite <- IH. f_equal. ring. Qed.
  Lemma fold_sub_ext (g h : nat -> K) L : (forall b, In b L -> g b = h b) -> forall x, fold_left (fun r b => radd r (ropp (g b))) L x = fold_left (fun r b => radd r (ropp (h b))) L x.
  Proof. induction L as [|b L IH]; intros H x; cbn; auto. rewrite (H b) by (cbn; auto). apply IH. intros; apply H; cbn; auto. Qed.
  Lemma backsolve_spec cols (sl : list K) dirs us i : length us = i ->
    (forall k, k < i -> Bop (nth k dirs vz) = lc (nth k cols nil) us /\ length (nth k cols nil) = S k /\ nth k (nth k cols nil) r0 <> r0) ->
    forall a y w sg, a <= i -> length y = i - a -> (forall l, a <= l < i -> sg l = r0) ->
      (forall l, l < i -> sg l = fold_left (fun r b => radd r (ropp (rmul (Hget cols l b) (nth (b - a) y r0)))) (seq a (i - a)) (nth l sl r0)) ->
      fcomb sg us = vsub (lc sl us) (Bop w) ->
      vsub (lc sl us) (Bop (backsolve kdiv is0 cols sl dirs i a y w)) = vz.
  Proof.
    intros HL HK. induction a as [|a IH]; intros y w sg Ha Hy Hz Hs HF; cbn [backsolve].
    - rewrite <- HF. rewrite (fcomb_ext sg (fun _ => r0)); [apply fcomb_zero|]. intros l Hl. apply Hz. lia.
    - rewrite <- Hs by lia. set (ya := if is0 (sg a) then r0 else kdiv (sg a) (Hget cols a a)). destruct (HK a ltac:(lia)) as [K1 [K2 K3]].
      assert (EY : rmul ya (Hget cols a a) = sg a). { unfold ya. destruct (is0 (sg a)) eqn:E0; [apply is0_spec in E0; rewrite E0; ring|]. apply kdiv_spec. exact K3. }
      destruct Bop_lin as [L1 L2].
      apply (IH (ya :: y) _ (fun l => radd (sg l) (rmul (ropp ya) (Hget cols l a)))); [lia|cbn; lia| | |].
      + intros l Hl. destruct (Nat.eq_dec l a) as [->|]; [rewrite <- EY; ring|]. rewrite Hz by lia. unfold Hget. rewrite (nth_overflow (nth a cols nil)) by lia. ring.
      + intros l Hl. rewrite Hs by auto. replace (i - a) with (S (i - S a)) by lia. cbn [seq fold_left]. rewrite Nat.sub_diag. cbn [nth].
        rewrite (fold_sub (fun b => rmul (Hget cols l b) (nth (b - a) (ya :: y) r0))). f_equal; [|ring].
        apply (fold_sub_ext (fun b => rmul (Hget cols l b) (nth (b - S a) y r0)) (fun b => rmul (Hget cols l b) (nth (b - a) (ya :: y) r0))). intros b Hb. apply in_seq in Hb.
        replace (b - a) with (S (b - S a)) by lia. reflexivity.
      + rewrite L1, L2, vsub_add, <- HF. unfold vsub. rewrite K1, <- !vscale_mul, (fcomb_axpy sg). apply fcomb_ext. intros l Hl. unfold Hget. ring.
  Qed.
  Lemma update_residual r st : krylov r st -> exists t, vsub r (Bop (update kdiv is0 P st)) = vscale (c_last st) t /\ dot t t = r1.
  Proof.
    intros [v0 [vs [us [t [E1 [E2 [E3 [E4 [E5 [E6 [E7 [E8 [E9 [E10 [E11 [E13 E12]]]]]]]]]]]]]]]]. exists t. split; auto. unfold update.
    destruct (basis_snoc _ _ (r0, r0) vz _ _ _ (eq_sym E2) E5) as [_ HL].
    assert (HB : vsub (lc (c_s st) us) (Bop (backsolve kdiv is0 (c_cols st) (c_s st) (c_dirs st) (length (c_cols st)) (length (c_cols st)) nil vz)) = vz).
    { rewrite E7. apply backsolve_spec with (us := us) (sg := fun l => nth l (c_s st) r0); auto.
      - rewrite Nat.sub_diag. auto.
      - intros; lia.
      - intros. rewrite Nat.sub_diag. auto.
      - unfold vsub. rewrite (linear_vz _ Bop_lin), vscale_vz, vadd_0. auto. }
    rewrite E9. unfold vsub in *. rewrite <- vadd_assoc, (vadd_comm _ _ (vscale (c_last st) t)), vadd_assoc, HB, vadd_0l. reflexivity.
  Qed.
  Lemma resid_norm k r t : r = vscale k t -> dot t t = r1 -> kabs k = nrm r.
  Proof. intros -> Ht. apply kabs_spec. rewrite dot_scale, dot_scale_r, Ht. ring. Qed.

  (** ** the loops *)
  Notation stepf := (step K finite lt_ mul_ tiny reduction).
  Notation last_defK := (last_def K).
  Definition fine (it : iter K) (norm : K) : Prop := last_defK it = Some norm /\ (i_conv K it = false -> is0 norm = false).
  Lemma step_fine i d it it1 : stepf i d it = Ok it1 -> fine it1 d.
  Proof.
    intros H. split; [eapply step_last; eauto|]. unfold step in H. destruct (finite d); cbn [negb] in H; try discriminate. injection H as <-. cbn [i_conv]. unfold stop.
    intros HC. apply orb_false_elim in HC. destruct HC as [_ HC]. destruct (is0 d) eqn:E; auto. apply is0_spec in E. congruence.
  Qed.
  Lemma arnoldi_pairs st st' : arnoldif st = Ok st' -> (exists l, c_pairs st' = c_pairs st ++ l) /\ fine (c_it st') (c_norm st') /\ c_norm st' = kabs (c_last st').
  Proof.
    unfold arnoldi. intros H. destruct (expand _ _ _ _ _ _) as [[p' d] w]. destruct (mgs _ _ _) as [h w']. destruct (tiny80 (nrm w')); [discriminate|].
    destruct (rotcol _ _ _) as [col [dx dy]]. destruct (rotate _ (c_last st) r0) as [s0 s1]. destruct (stepf _ _ _) as [it| |] eqn:ES; cbn [obind] in H; try discriminate.
    injection H as <-. cbn. split; [eauto|]. split; [eapply step_fine; eauto|auto].
  Qed.
  Lemma inner_pairs maxit n : forall st st', innerf maxit n st = Ok st' -> exists l, c_pairs st' = c_pairs st ++ l.
  Proof.
    induction n as [|n IH]; intros st st' H; cbn [inner] in H; [injection H as <-; exists nil; rewrite app_nil_r; auto|].
    destruct (_ && _); [|injection H as <-; exists nil; rewrite app_nil_r; auto]. destruct (arnoldif st) as [st1| |] eqn:E; cbn [obind] in H; try discriminate.
    destruct (arnoldi_pairs _ _ E) as [[l1 L1] _]. destruct (IH _ _ H) as [l2 L2]. exists (l1 ++ l2). rewrite L2, L1, app_assoc. auto.
  Qed.
  Lemma inner_krylov maxit n r : forall st st', krylov r st -> fine (c_it st) (c_norm st) -> innerf maxit n st = Ok st' -> (forall q, In q (c_pairs st') -> exact_pair q) ->
    krylov r st' /\ fine (c_it st') (c_norm st') /\ (c_norm st = kabs (c_last st) -> c_norm st' = kabs (c_last st')) /\ (c_j st <= maxit -> i_conv K (c_it st) = false -> 0 < n -> c_norm st' = kabs (c_last st')).
  Proof.
    induction n as [|n IH]; intros st st' HK HF H HX; cbn [inner] in H.
    - injection H as <-. split; [auto|]. split; [auto|]. split; [auto|]. intros; lia.
    - destruct ((c_j st <=? maxit) && negb (i_conv K (c_it st))) eqn:EC.
      + apply andb_prop in EC. destruct EC as [EC EC2]. apply negb_true_iff in EC2.
        destruct (arnoldif st) as [st1| |] eqn:EA; cbn [obind] in H; try discriminate. destruct (inner_pairs _ _ _ _ H) as [l2 L2]. destruct (arnoldi_pairs _ _ EA) as [_ [F1 N1]].
        assert (K1 : krylov r st1). { apply arnoldi_krylov with (st := st); auto; [apply (proj2 HF); auto|]. intros q Hq. apply HX. rewrite L2. apply in_app_iff. auto. }
        destruct (IH _ _ K1 F1 H HX) as [I1 [I2 [I3 I4]]]. auto.
      + injection H as <-. split; [auto|]. split; [auto|]. split; [auto|]. intros HJ HC. apply Nat.leb_le in HJ. rewrite HJ, HC in EC. discriminate.
  Qed.
  Notation ost := (ost (K := K) (V := V) P).
  Notation o_v0 := (o_v0 P). Notation o_x := (o_x P). Notation o_norm := (o_norm P). Notation o_it := (o_it P). Notation o_j := (o_j P). Notation o_pairs := (o_pairs P).
  Notation cyclef := (cycle finite lt_ mul_ tiny reduction A dot nrm kdiv kabs is0 tiny80 rot P papply flex).
  Notation outerf := (outer finite lt_ mul_ tiny reduction A dot nrm kdiv kabs is0 tiny80 rot P papply flex).
  Notation startf := (start A P papply flex).
  Definition fresh (b : V) (s : ost) : Prop := o_v0 s = resid b (o_x s) /\ o_norm s = nrm (o_v0 s) /\ fine (o_it s) (o_norm s).
  Lemma start_spec p x b p' v b' : startf p x b = (p', v, b') -> v = resid b x.
  Proof.
    unfold start, resid. destruct flex eqn:EF; intros H; [injection H as <- <- <-; auto|]. pose proof (W_app eq_refl p (vsub b (A x))) as HW. destruct (papply _ _ _). injection H as <- <- <-. auto.
  Qed.
  Notation at_stepf := (at_step K finite lt_ mul_ zero_ tiny reduction).
  Notation o_invf := (o_inv (V := V) finite lt_ mul_ zero_ tiny reduction P).
  Lemma cycle_pairs m maxit b s s' : cyclef m maxit b s = Ok s' -> exists l, o_pairs s' = o_pairs s ++ l.
  Proof.
    unfold cycle. destruct (innerf _ _ _) as [c| |] eqn:EI; cbn [obind]; try discriminate. apply inner_pairs in EI. cbn in EI. intros H.
    destruct (negb _ && _); [destruct (startf _ _ _) as [[p' v'] b']|]; injection H as <-; auto.
  Qed.
  Lemma cycle_fresh m maxit b s s' : 0 < m -> fresh b s -> o_invf maxit s -> o_j s <= maxit -> i_conv K (o_it s) = false -> cyclef m maxit b s = Ok s' -> (forall q, In q (o_pairs s') -> exact_pair q) ->
    last_defK (o_it s') = Some (nrm (resid b (o_x s'))) /\
    (i_conv K (o_it s') = false -> o_j s' <= maxit -> o_j s' = o_j s + m /\ (o_j s' < maxit -> fresh b s')) /\
    (exists v0 c, innerf maxit m (mkCyc P (o_p P s) [v0] nil nil nil nil (o_norm s) (o_norm s) (o_j s) (o_it s) (o_pairs s)) = Ok c /\ vscale (o_norm s) v0 = o_v0 s /\
      krylov (o_v0 s) c /\ o_x s' = vadd (o_x s) (update kdiv is0 P c) /\ o_j s' = c_j c /\ o_it s' = c_it c).
  Proof.
    intros Hm [F1 [F2 F3]] [k [A1 [A2 A3]]] HJ HC H HX. rewrite <- and_assoc. unfold cycle in H. destruct (innerf _ _ _) as [c| |] eqn:EI; cbn [obind] in H; try discriminate.
    pose proof (fun h1 h2 h3 => inner_step finite lt_ mul_ zero_ tiny reduction A dot nrm kdiv kabs is0 tiny80 rot P papply flex maxit m _ _ k h1 h2 h3 EI) as G. cbn [Gmres.c_it Gmres.c_j Gmres.c_cols] in G.
    destruct (G A1 A2 A3) as [k' [B1 [B2 [B3 [B4 [B5 [B6 B7]]]]]]]. clear G.
    assert (HP : forall q, In q (c_pairs c) -> exact_pair q). { intros q Hq. apply HX. destruct (negb _ && _); [destruct (startf _ _ _) as [[p' v'] b']|]; injection H as <-; auto. }
    set (v0 := vscale (recip kdiv flex (is0 (o_norm s)) (o_norm s)) (o_v0 s)) in *.
    assert (HN : o_norm s <> r0) by (intros E; apply is0_spec in E; rewrite (proj2 F3 HC) in E; discriminate).
    assert (EV : vscale (o_norm s) v0 = o_v0 s). { unfold v0, recip. rewrite (proj2 F3 HC), andb_false_r, <- vscale_mul, kcomm, kdiv_spec by auto. apply vscale_1. }
    assert (EU : dot v0 v0 = r1).
    { unfold v0, recip. rewrite (proj2 F3 HC), andb_false_r, dot_scale, dot_scale_r, <- nrm_dot, <- F2. transitivity (rmul (rmul (kdiv r1 (o_norm s)) (o_norm s)) (rmul (kdiv r1 (o_norm s)) (o_norm s))); [ring|]. rewrite kdiv_spec by auto. ring. }
    pose proof (fun h1 h2 => inner_krylov maxit m (o_v0 s) _ _ h1 h2 EI HP) as G. cbn [Gmres.c_it Gmres.c_norm Gmres.c_j] in G.
    destruct G as [I1 [I2 [_ I4]]]; auto.
    { exists v0, nil, nil, v0. cbn. repeat (split; auto); try contradiction; try lia. rewrite vadd_0l. auto. }
    specialize (I4 HJ HC Hm). destruct (update_residual _ _ I1) as [t [U1 U2]]. rewrite F1, <- resid_add in U1. pose proof (resid_norm _ _ _ U1 U2) as U3.
    assert (HL : last_defK (c_it c) = Some (nrm (resid b (vadd (o_x s) (update kdiv is0 P c))))) by (rewrite <- U3, <- I4; apply I2).
    split; [|exists v0, c; split; [exact EI|]; split; [exact EV|]; split; [exact I1|];
      destruct (negb _ && _); [destruct (startf _ _ _) as [[p' v'] b']|]; injection H as <-; auto].
    destruct (negb (i_conv K (c_it c)) && (c_j c <? maxit)) eqn:ER.
    - destruct (startf _ _ _) as [[p' v'] b'] eqn:ES. apply start_spec in ES. injection H as <-. cbn [Gmres.o_it Gmres.o_x Gmres.o_j] in *. split; [exact HL|].
      apply andb_prop in ER. destruct ER as [ER _]. apply negb_true_iff in ER. intros _ HJ'. split.
      + destruct (Nat.eq_dec k' (k + m)) as [|NE]; [lia|]. destruct (B6 ltac:(lia)) as [E|E]; [congruence|lia].
      + intros _. split; [exact ES|]. split; [reflexivity|]. cbn [Gmres.o_it Gmres.o_norm]. rewrite ES. split; [exact HL|]. intros E. rewrite <- U3, <- I4. apply (proj2 I2); auto.
    - injection H as <-. cbn [Gmres.o_it Gmres.o_x Gmres.o_j] in *. split; [exact HL|]. intros E HJ'. split.
      + destruct (Nat.eq_dec k' (k + m)) as [|NE]; [lia|]. destruct (B6 ltac:(lia)) as [E'|E']; [congruence|lia].
      + intros HJ2. apply Nat.ltb_lt in HJ2. rewrite E, HJ2 in ER. discriminate.
  Qed.
  Lemma outer_pairs fuel m maxit b : forall s s', outerf fuel m maxit b s = Some (Ok s') -> exists l, o_pairs s' = o_pairs s ++ l.
  Proof.
    induction fuel as [|f IH]; intros s s' H; cbn [outer] in H; destruct (_ && _); try discriminate; try (injection H as <-; exists nil; rewrite app_nil_r; auto; fail).
    destruct (cyclef _ _ _ s) as [s1| |] eqn:E; try discriminate. destruct (cycle_pairs _ _ _ _ _ E) as [l1 L1]. destruct (IH _ _ H) as [l2 L2]. exists (l1 ++ l2). rewrite L2, L1, app_assoc. auto.
  Qed.
  Lemma outer_mono fuel m maxit b : forall s s', o_invf maxit s -> 0 < m -> outerf fuel m maxit b s = Some (Ok s') -> o_j s <= o_j s' /\ (o_j s <= maxit -> i_conv K (o_it s) = false -> o_j s < o_j s').
  Proof.
    induction fuel as [|f IH]; intros s s' HI Hm H; cbn [outer] in H; destruct ((o_j s <=? maxit) && negb (i_conv K (o_it s))) eqn:EC; try discriminate.
    - injection H as <-. split; [lia|]. intros HJ HC. apply Nat.leb_le in HJ. rewrite HJ, HC in EC. discriminate.
    - destruct (cyclef _ _ _ s) as [s1| |] eqn:E; try discriminate. apply (cycle_step finite lt_ mul_ zero_ tiny reduction) in E; auto. destruct E as [I1 I2]. destruct (IH _ _ I1 Hm H) as [J1 _].
      apply andb_prop in EC. destruct EC as [EC EC2]. apply Nat.leb_le in EC. apply negb_true_iff in EC2. specialize (I2 Hm EC EC2). lia.
    - injection H as <-. split; [lia|]. intros HJ HC. apply Nat.leb_le in HJ. rewrite HJ, HC in EC. discriminate.
  Qed.
  Lemma outer_resid fuel m maxit b : 0 < m -> forall s s', fresh b s -> o_invf maxit s -> (exists q, o_j s = 1 + q * m) -> outerf fuel m maxit b s = Some (Ok s') ->
    (forall q, In q (o_pairs s') -> exact_pair q) -> (o_j s' <= maxit \/ maxit <= 1 \/ (maxit - 1) mod m <> 0) -> last_defK (o_it s') = Some (nrm (resid b (o_x s'))).
  Proof.
    intros Hm. induction fuel as [|f IH]; intros s s' HF HI [q HQ] H HX HM; cbn [outer] in H; destruct ((o_j s <=? maxit) && negb (i_conv K (o_it s))) eqn:EC; try discriminate.
    - injection H as <-. destruct HF as [F1 [F2 F3]]. rewrite <- F1, <- F2. apply F3.
    - destruct (cyclef _ _ _ s) as [s1| |] eqn:E; try discriminate. apply andb_prop in EC. destruct EC as [EC EC2]. apply Nat.leb_le in EC. apply negb_true_iff in EC2.
      destruct (outer_pairs _ _ _ _ _ _ H) as [l2 L2].
      destruct (cycle_fresh _ _ _ _ _ Hm HF HI EC EC2 E) as [C1 [C2 _]]. { intros x Hx. apply HX. rewrite L2. apply in_app_iff. auto. }
      pose proof E as E'. apply (cycle_step finite lt_ mul_ zero_ tiny reduction) in E'; auto. destruct E' as [I1 _].
      destruct ((o_j s1 <=? maxit) && negb (i_conv K (o_it s1))) eqn:EN.
      + pose proof EN as EN'. apply andb_prop in EN'. destruct EN' as [N1 N2]. apply Nat.leb_le in N1. apply negb_true_iff in N2. destruct (C2 N2 N1) as [J1 J2].
        destruct (Nat.eq_dec (o_j s1) maxit) as [EQ|NE].
        * exfalso. destruct (outer_mono _ _ _ _ _ _ I1 Hm H) as [_ M2]. specialize (M2 N1 N2).
          assert (HD : maxit - 1 = (S q) * m) by (cbn; lia). rewrite HD in HM. rewrite Nat.mod_mul in HM by lia. destruct HM as [HM|[HM|HM]]; [lia| |lia].
          cbn in HD. lia.
        * apply (IH s1); auto; [apply J2; lia|]. exists (S q). cbn. lia.
      + destruct f; cbn [outer] in H; rewrite EN in H; injection H as <-; auto.
    - injection H as <-. destruct HF as [F1 [F2 F3]]. rewrite <- F1, <- F2. apply F3.
  Qed.
  Theorem gmres_residual fuel m maxit p x b red p' x' b' res log prs : 0 < m -> (flex = false -> forall p1 x1 b1, pre p x b = (p1, x1, b1) -> b1 = b) ->
    gmres_apply4 finite lt_ mul_ div_ zero_ tiny reduction A dot nrm kdiv kabs is0 tiny80 rot P pre papply post flex fuel m maxit p x b red = Some (Ok (p', x', b', res, log, prs)) ->
    (forall q, In q prs -> exact_pair q) -> (r_iterations K res < maxit \/ maxit <= 1 \/ (maxit - 1) mod m <> 0) ->
    exists p1 x1 b1 p2 x2, pre p x b = (p1, x1, b1) /\ post p2 x2 = (p', x') /\ last_defect K log = Some (nrm (resid b1 x2)).
  Proof.
    intros Hm Hpre. unfold gmres_apply4. destruct (pre p x b) as [[p1 x1] b1] eqn:EP. destruct (startf p1 x1 b1) as [[p2 v0] bb] eqn:ES0. apply start_spec in ES0.
    destruct (stepf 0 _ _) as [it| |] eqn:ES; try discriminate. pose proof (step_fine _ _ _ _ ES) as HF.
    assert (HI : o_invf maxit (mkO P p2 x1 bb v0 (nrm v0) 1 it nil)). { exists 0. cbn. split; [eapply step0; eauto|]. lia. }
    destruct (i_conv K it) eqn:EC.
    - intros H _ _. injection H as H. apply gmres_finish_eq in H. destruct H as [H1 [_ [_ [-> _]]]]. exists p1, x1, b1, p2, x1. cbn in H1. repeat (split; auto). cbn. rewrite <- ES0. apply HF.
    - destruct (outerf _ _ _ _ _) as [[s| |]|] eqn:EO; try discriminate. intros H HX HM. injection H as H. apply gmres_finish_eq in H. destruct H as [H1 [_ [-> [-> ->]]]].
      exists p1, x1, b1, (o_p P s), (o_x s). split; [reflexivity|]. split; [exact H1|].
      assert (HB : (if flex then b1 else b) = b1). { destruct flex; auto. symmetry. eapply Hpre; eauto. }
      rewrite HB in EO.
      pose proof (outer_step finite lt_ mul_ zero_ tiny reduction A dot nrm kdiv kabs is0 tiny80 rot P papply flex _ _ _ _ _ _ HI EO) as [[k [K1 [K2 K3]]] _].
      apply outer_resid in EO; auto.
      + split; [exact ES0|]. split; auto.
      + exists 0. reflexivity.
      + destruct HM as [HM|HM]; [left|auto]. unfold finalize in HM. cbn [r_iterations] in HM. rewrite Nat.div_1_r in HM. destruct K1 as [ds [_ [_ [_ [_ [_ [_ [K1 _]]]]]]]]. rewrite K1 in HM. lia.
  Qed.
  (** ** Minimal residual *)
  (** v is a linear combination of the vectors of the list *)
  Definition lincomb (l : list V) (v : V) : Prop := exists f, v = fcomb f l.
  Lemma lcb_zero l : lincomb l vz.
  Proof. exists (fun _ => r0). symmetry. apply fcomb_zero. Qed.
  Lemma lcb_axpy l k u v : lincomb l u -> lincomb l v -> lincomb l (vadd u (vscale k v)).
  Proof. intros [f ->] [g ->]. rewrite fcomb_axpy. eexists. reflexivity. Qed.
  Lemma lcb_scale l k v : lincomb l v -> lincomb l (vscale k v).
  Proof. intros H. rewrite <- (vadd_0l (vscale k v)). apply lcb_axpy; auto. apply lcb_zero. Qed.
  Lemma lcb_add l u v : lincomb l u -> lincomb l v -> lincomb l (vadd u v).
  Proof. intros HU HV. rewrite <- (vscale_1 K V v). apply lcb_axpy; auto. Qed.
  Lemma lcb_app l l2 v : lincomb l v -> lincomb (l ++ l2) v.
  Proof.
    intros [f ->]. exists (fun i => if i <? length l then f i else r0).
    revert f. induction l as [|u l IH]; intros f; cbn [app fcomb length]. - rewrite (fcomb_ext _ (fun _ => r0)) by auto. symmetry. apply fcomb_zero.
    - cbn [Nat.ltb Nat.leb]. f_equal. apply IH.
  Qed.
  Lemma lcb_in l v : In v l -> lincomb l v.
  Proof.
    intros H. apply in_split in H. destruct H as [a [c ->]]. replace (a ++ v :: c) with ((a ++ [v]) ++ c) by (rewrite <- app_assoc; auto). apply lcb_app.
    exists (fun i => if i =? length a then r1 else r0). rewrite fcomb_snoc, Nat.eqb_refl, vscale_1.
    rewrite (fcomb_ext _ (fun _ => r0)); [rewrite fcomb_zero, vadd_0l; auto|]. intros i Hi. destruct (Nat.eqb_spec i (length a)); [lia|auto].
  Qed.
  Lemma lcb_sub l l2 v : (forall u, In u l -> lincomb l2 u) -> lincomb l v -> lincomb l2 v.
  Proof. intros H [f ->]. revert f. induction l as [|u l IH]; intros f; cbn; [apply lcb_zero|]. apply lcb_add; [apply lcb_scale, H; cbn; auto|]. apply IH. intros; apply H; cbn; auto. Qed.
  Lemma lcb_image (L : V -> V) l l2 v : linear L -> (forall u, In u l -> lincomb l2 (L u)) -> lincomb l v -> lincomb l2 (L v).
  Proof.
    intros HL H [f ->]. revert f. induction l as [|u l IH]; intros f; cbn; [rewrite linear_vz by auto; apply lcb_zero|]. destruct HL as [L1 L2]. rewrite L1, L2.
    apply lcb_add; [apply lcb_scale, H; cbn; auto|]. apply IH. intros; apply H; cbn; auto.
  Qed.
  (** the residual after the update is orthogonal to the images of the search directions *)
  Lemma backsolve_lcb cols sl dirs i : i <= length dirs -> forall a y w, a <= i -> lincomb dirs w -> lincomb dirs (backsolve kdiv is0 cols sl dirs i a y w).
  Proof.
    intros Hi. induction a as [|a IH]; intros y w Ha Hw; cbn [backsolve]; auto. apply IH; [lia|]. apply lcb_axpy; auto. apply lcb_in, nth_In. lia.
  Qed.
  Lemma update_lcb r st : krylov r st -> lincomb (c_dirs st) (update kdiv is0 P st).
  Proof.
    intros [v0 [vs [us [t [E1 [E2 [E3 [E4 [E5 [E6 [E7 [E8 _]]]]]]]]]]]]. apply backsolve_lcb; [lia|lia|apply lcb_zero].
  Qed.
  Lemma update_orth r st : krylov r st -> forall y, lincomb (c_dirs st) y -> dot (vsub r (Bop (update kdiv is0 P st))) (Bop y) = r0.
  Proof.
    intros HK y Hy. pose proof HK as HK0. destruct HK as [v0 [vs [us [t [E1 [E2 [E3 [E4 [E5 [E6 [E7 [E8 [E9 [E10 [E11 [E13 E12]]]]]]]]]]]]]]]].
    assert (HU : vsub r (Bop (update kdiv is0 P st)) = vscale (c_last st) t).
    { unfold update. destruct (basis_snoc _ _ (r0, r0) vz _ _ _ (eq_sym E2) E5) as [_ HL].
      assert (HB : vsub (lc (c_s st) us) (Bop (backsolve kdiv is0 (c_cols st) (c_s st) (c_dirs st) (length (c_cols st)) (length (c_cols st)) nil vz)) = vz).
      { rewrite E7. apply backsolve_spec with (us := us) (sg := fun l => nth l (c_s st) r0); auto.
        - rewrite Nat.sub_diag. auto.
        - intros; lia.
        - intros. rewrite Nat.sub_diag. auto.
        - unfold vsub. rewrite (linear_vz _ Bop_lin), vscale_vz, vadd_0. auto. }
      rewrite E9. unfold vsub in *. rewrite <- vadd_assoc, (vadd_comm _ _ (vscale (c_last st) t)), vadd_assoc, HB, vadd_0l. reflexivity. }
    rewrite HU, dot_scale.
    assert (HS : lincomb us (Bop y)).
    { apply (lcb_image Bop (c_dirs st)); auto using Bop_lin. intros d Hd. apply (In_nth _ _ vz) in Hd. destruct Hd as [k [Hk <-]]. rewrite E8 in Hk. destruct (E12 k Hk) as [-> _]. eexists. reflexivity. }
    destruct HS as [f ->]. rewrite (dot_sym t), dot_fcomb; [ring|]. intros u Hu. exact (proj1 (E13 u Hu)).
  Qed.
  (** the search directions: what the preconditioner produced; with a linear preconditioner W they span the Krylov space *)
  Definition from_prec (d : V) : Prop := exists p v, d = snd (papply p vz v).
  (** E = W for FGMRes, identity for GMRes: directions are E v *)
  Definition ext (v : V) : V := if flex then W v else v.
  Lemma arnoldi_dirs st st' : arnoldif st = Ok st' -> is0 (c_norm st) = false -> exists d vnew w k,
    c_v st' = c_v st ++ [vnew] /\ c_dirs st' = c_dirs st ++ [d] /\ lincomb (c_v st') (Bop d) /\ lincomb (c_v st) w /\ vnew = vscale k (vadd (Bop d) w) /\
    (flex = true -> from_prec d) /\ ((forall p v, snd (papply p vz v) = W v) -> d = ext (last (c_v st) vz)).
  Proof.
    intros H HN. unfold arnoldi in H.
    assert (EX : exists p' d, expand A P papply flex (c_p P st) (last (c_v st) vz) = (p', d, Bop d) /\ (flex = true -> from_prec d) /\ ((forall p v, snd (papply p vz v) = W v) -> d = ext (last (c_v st) vz))).
    { unfold expand, Bop, ext, from_prec. destruct flex eqn:EF.
      - destruct (papply (c_p P st) vz (last (c_v st) vz)) as [p' z] eqn:EP. exists p', z. split; [auto|]. split; [intros _; exists (c_p P st), (last (c_v st) vz); rewrite EP; auto|].
        intros HW. rewrite <- (HW (c_p P st)), EP. auto.
      - pose proof (W_app eq_refl (c_p P st) (A (last (c_v st) vz))) as HW. destruct (papply _ vz (A _)) as [p' w]. cbn in HW. subst. eexists. eexists. split; [reflexivity|]. split; [discriminate|auto]. }
    destruct EX as [p' [d [ED [X1 X2]]]]. rewrite ED in H. destruct (mgs dot (c_v st) (Bop d)) as [h w'] eqn:EM.
    destruct (mgs_spec _ _ _ _ EM) as [M1 [M2 _]]. destruct (tiny80 (nrm w')) eqn:E80; [discriminate|].
    assert (Hn : nrm w' <> r0) by congruence.
    assert (ER : recip kdiv flex (is0 (c_norm st)) (nrm w') = kdiv r1 (nrm w')) by (unfold recip; rewrite HN, andb_false_r; auto). rewrite ER in H.
    destruct (rotcol _ _ _) as [col [dx dy]]. destruct (rotate _ (c_last st) r0) as [s0 s1].
    match type of H with obind ?o _ = _ => destruct o as [it| |]; cbn [obind] in H; try discriminate end. injection H as <-. cbn [Gmres.c_v Gmres.c_dirs].
    exists d, (vscale (kdiv r1 (nrm w')) w'), (vscale (ropp r1) (lc h (c_v st))), (kdiv r1 (nrm w')). split; [auto|]. split; [auto|]. split.
    { assert (HV : vscale (nrm w') (vscale (kdiv r1 (nrm w')) w') = w') by (rewrite <- vscale_mul, kcomm, kdiv_spec by auto; apply vscale_1).
      set (vn := vscale (kdiv r1 (nrm w')) w') in *. rewrite M2. apply lcb_add; [apply lcb_app; eexists; reflexivity|]. rewrite <- HV. apply lcb_scale, lcb_in, in_app_iff. right. left. auto. }
    split; [apply lcb_scale; eexists; reflexivity|]. split; [|auto]. f_equal. rewrite M2 at 1. rewrite (vadd_comm _ _ (fcomb _ _) w'), <- vadd_assoc.
    fold (vsub (lc h (c_v st)) (lc h (c_v st))). rewrite vsub_diag, vadd_0. reflexivity.
  Qed.
  Definition prec_inv (st : cyc) : Prop := flex = true -> Forall from_prec (c_dirs st).
  (** the Krylov vectors before E: y_0 = r, y_(i+1) = B E y_i *)
  Fixpoint yk (r : V) (i : nat) : V := match i with O => r | S i => Bop (ext (yk r i)) end.
  Definition kry_inv (r : V) (st : cyc) : Prop := exists l vl, c_v st = l ++ [vl] /\ c_dirs st = map ext l /\
    (forall d, In d (c_dirs st) -> lincomb (c_v st) (Bop d)) /\
    (forall i, i < length l -> lincomb l (yk r i)) /\ lincomb (c_v st) (yk r (length l)) /\
    (forall v, In v l -> lincomb (map (yk r) (seq 0 (length l))) v) /\ lincomb (map (yk r) (seq 0 (S (length l)))) vl.
  Lemma ext_lin : linear W -> linear ext.
  Proof. intros [L1 L2]. unfold ext. destruct flex; split; auto. Qed.
  Lemma Bop_ext_lin : linear W -> linear (fun v => Bop (ext v)).
  Proof. intros HW. destruct (ext_lin HW) as [L1 L2]. destruct Bop_lin as [M1 M2]. split; intros; [rewrite L1, M1|rewrite L2, M2]; auto. Qed.
  Lemma lcb_seq r n m v : n <= m -> lincomb (map (yk r) (seq 0 n)) v -> lincomb (map (yk r) (seq 0 m)) v.
  Proof. intros L H. replace m with (n + (m - n))%nat by lia. rewrite seq_app, map_app. apply lcb_app. exact H. Qed.
  Lemma arnoldi_kry r st st' : linear W -> (forall p v, snd (papply p vz v) = W v) -> arnoldif st = Ok st' -> is0 (c_norm st) = false -> kry_inv r st -> kry_inv r st'.
  Proof.
    intros LW HW H HN [l [vl [I1 [I2 [I3 [I4 [I5 [I6 I7]]]]]]]]. destruct (arnoldi_dirs _ _ H HN) as [d [vnew [w [k [D1 [D2 [D3 [D4 [D5 [_ D7]]]]]]]]]].
    specialize (D7 HW). assert (EL : last (c_v st) vz = vl) by (rewrite I1; apply last_last). rewrite EL in D7. subst d.
    assert (ED : c_dirs st' = map ext (c_v st)) by (rewrite D2, I1, I2, map_app; auto).
    assert (LL : length (c_v st) = S (length l)) by (rewrite I1, app_length; cbn; lia).
    assert (HB : forall u, In u (c_dirs st') -> lincomb (c_v st') (Bop u)).
    { intros u Hu. rewrite D2 in Hu. apply in_app_iff in Hu. destruct Hu as [Hu|[<-|[]]]; auto. rewrite D1. apply lcb_app. auto. }
    exists (c_v st), vnew. rewrite LL. split; [auto|]. split; [auto|]. split; [auto|]. split; [|split; [|split]].
    - intros i Hi. destruct (Nat.eq_dec i (length l)) as [->|]; [auto|]. rewrite I1. apply lcb_app, I4. lia.
    - cbn [yk]. apply (lcb_image (fun v => Bop (ext v)) (c_v st)); auto using Bop_ext_lin. intros u Hu. apply HB. rewrite ED. apply in_map. auto.
    - intros v Hv. rewrite I1 in Hv. apply in_app_iff in Hv. destruct Hv as [Hv|[<-|[]]]; auto. apply (lcb_seq _ (length l)); auto.
    - rewrite D5. apply lcb_scale, lcb_add.
      + apply (lcb_image (fun v => Bop (ext v)) (map (yk r) (seq 0 (S (length l))))); auto using Bop_ext_lin. intros u Hu. apply in_map_iff in Hu. destruct Hu as [i [<- Hi]]. apply in_seq in Hi.
        change (lincomb (map (yk r) (seq 0 (S (S (length l))))) (yk r (S i))). apply lcb_in, in_map, in_seq. lia.
      + apply (lcb_seq _ (S (length l))); [lia|]. apply (lcb_sub (c_v st)); auto. intros u Hu. rewrite I1 in Hu. apply in_app_iff in Hu. destruct Hu as [Hu|[<-|[]]]; auto.
        apply (lcb_seq _ (length l)); auto.
  Qed.
  Lemma inner_dirs maxit n r : forall st st', innerf maxit n st = Ok st' -> fine (c_it st) (c_norm st) ->
    (prec_inv st -> prec_inv st') /\ (linear W -> (forall p v, snd (papply p vz v) = W v) -> kry_inv r st -> kry_inv r st').
  Proof.
    induction n as [|n IH]; intros st st' H HF; cbn [inner] in H; [injection H as <-; auto|].
    destruct ((c_j st <=? maxit) && negb (i_conv K (c_it st))) eqn:EC; [|injection H as <-; auto].
    apply andb_prop in EC. destruct EC as [_ EC]. apply negb_true_iff in EC.
    destruct (arnoldif st) as [st1| |] eqn:EA; cbn [obind] in H; try discriminate. destruct (arnoldi_pairs _ _ EA) as [_ [F1 _]].
    destruct (IH _ _ H F1) as [J1 J2]. pose proof (proj2 HF EC) as HN. split.
    - intros HP. apply J1. intros EF. destruct (arnoldi_dirs _ _ EA HN) as [d [vnew [w [k [D1 [D2 [_ [_ [_ [D6 _]]]]]]]]]]. rewrite D2. apply Forall_app. split; auto.
    - intros LW HW HK. apply J2; auto. apply (arnoldi_kry r st); auto.
  Qed.
  Lemma yk_krylov r rr i : r = (if flex then rr else W rr) -> CgExact.krylov A W rr i = ext (yk r i).
  Proof. intros ->. unfold ext. induction i as [|i IH]; cbn [CgExact.krylov yk]; [destruct flex; auto|]. rewrite IH. unfold Bop, ext. destruct flex; auto. Qed.
  Lemma kspace_lincomb rr n y : CgExact.kspace A W rr n y <-> lincomb (map (CgExact.krylov A W rr) (seq 0 n)) y.
  Proof.
    split.
    - induction 1 as [|c i y Hi HK IH]; [apply lcb_zero|]. apply lcb_add; auto. apply lcb_scale, lcb_in, in_map, in_seq. lia.
    - intros H. destruct H as [f ->]. assert (HL : forall i, In i (seq 0 n) -> i < n) by (intros i Hi; apply in_seq in Hi; lia).
      revert f HL. generalize (seq 0 n). intros l. induction l as [|i l IH]; intros f HL; cbn [map fcomb]; constructor; [apply HL; cbn; auto|]. apply IH. intros; apply HL; cbn; auto.
  Qed.
  Lemma kry_dirs r rr st : linear W -> kry_inv r st -> r = (if flex then rr else W rr) -> forall y, CgExact.kspace A W rr (length (c_dirs st)) y <-> lincomb (c_dirs st) y.
  Proof.
    intros LW [l [vl [I1 [I2 [I3 [I4 [I5 [I6 I7]]]]]]]] HR y. rewrite I2, map_length, kspace_lincomb. split; apply lcb_sub; intros u Hu.
    - apply in_map_iff in Hu. destruct Hu as [i [<- Hi]]. apply in_seq in Hi. rewrite (yk_krylov r rr i HR). apply (lcb_image ext l); auto using ext_lin; [|apply I4; lia].
      intros v Hv. apply lcb_in, in_map. auto.
    - apply in_map_iff in Hu. destruct Hu as [v [<- Hv]]. apply (lcb_image ext (map (yk r) (seq 0 (length l)))); auto using ext_lin. intros x Hx. apply in_map_iff in Hx. destruct Hx as [i [<- Hi]].
      rewrite <- (yk_krylov r rr i HR). apply lcb_in, in_map. auto.
  Qed.
  (** x - xc is a combination of j directions, and the residual of x is orthogonal to the images of all their combinations *)
  Definition best (b xc x : V) (j : nat) : Prop := exists ds, length ds = j /\ (flex = true -> Forall from_prec ds) /\
    (linear W -> (forall p v, snd (papply p vz v) = W v) -> forall y, CgExact.kspace A W (vsub b (A xc)) j y <-> lincomb ds y) /\
    lincomb ds (vsub x xc) /\ forall y, lincomb ds y -> dot (resid b x) (Bop y) = r0.
  Lemma cycle_best m maxit b s s' : 0 < m -> fresh b s -> o_invf maxit s -> o_j s <= maxit -> i_conv K (o_it s) = false -> cyclef m maxit b s = Ok s' -> (forall q, In q (o_pairs s') -> exact_pair q) ->
    best b (o_x s) (o_x s') (o_j s' - o_j s) /\ o_j s < o_j s' <= o_j s + m /\ exists l, i_log K (o_it s') = i_log K (o_it s) ++ l.
  Proof.
    intros Hm HF HI HJ HC H HX. destruct (cycle_fresh _ _ _ _ _ Hm HF HI HJ HC H HX) as [_ [_ [v0 [c [C1 [C2 [C3 [C4 [C5 C6]]]]]]]]].
    destruct HI as [k [A1 [A2 A3]]].
    pose proof (fun h1 h2 h3 => inner_step finite lt_ mul_ zero_ tiny reduction A dot nrm kdiv kabs is0 tiny80 rot P papply flex maxit m _ _ k h1 h2 h3 C1) as G. cbn [Gmres.c_it Gmres.c_j Gmres.c_cols length] in G.
    destruct (G A1 A2 A3) as [k' [B1 [B2 [B3 [B4 [B5 [B6 B7]]]]]]]. clear G. specialize (B7 Hm ltac:(lia) HC).
    destruct HF as [F1 [F2 F3]]. pose proof (inner_dirs maxit m (o_v0 s) _ _ C1 F3) as [G1 G2]. split; [|split].
    - exists (c_dirs c). pose proof C3 as C3'. destruct C3' as [w0 [vs [us [t [_ [_ [_ [_ [_ [_ [E7 [E8 _]]]]]]]]]]]].
      assert (EL : length (c_dirs c) = o_j s' - o_j s) by (rewrite E8, <- E7, B4, C5, B2, A2; lia).
      split; [exact EL|]. split; [apply G1; intros _; constructor|]. split; [|split].
      + intros LW HW y. rewrite <- EL. refine (kry_dirs (o_v0 s) _ c LW _ _ y); [|rewrite F1; unfold resid; destruct flex; auto].
        apply G2; auto. exists nil, v0. cbn. split; [auto|]. split; [auto|]. split; [contradiction|]. split; [lia|]. split; [|split; [contradiction|]].
        * rewrite <- C2. apply lcb_scale, lcb_in. cbn; auto.
        * assert (EV : vscale (kdiv r1 (o_norm s)) (o_v0 s) = v0).
          { rewrite <- C2, <- vscale_mul, kdiv_spec; [apply vscale_1|]. intros E. apply is0_spec in E. rewrite (proj2 F3 HC) in E. discriminate. }
          rewrite <- EV. apply lcb_scale, lcb_in. cbn; auto.
      + rewrite C4. unfold vsub. rewrite <- vadd_assoc, (vadd_comm _ _ (update _ _ _ _)), vadd_assoc. fold (vsub (o_x s) (o_x s)). rewrite vsub_diag, vadd_0l. apply (update_lcb _ _ C3).
      + intros y Hy. rewrite C4, resid_add, <- F1. apply (update_orth _ _ C3 y Hy).
    - lia.
    - rewrite C6. clear - C1. assert (G : forall n st st', innerf maxit n st = Ok st' -> exists l, i_log K (c_it st') = i_log K (c_it st) ++ l).
      { induction n as [|n IH]; intros st st' H; cbn [inner] in H; [injection H as <-; exists nil; rewrite app_nil_r; auto|].
        destruct (_ && _); [|injection H as <-; exists nil; rewrite app_nil_r; auto]. destruct (arnoldif st) as [st1| |] eqn:E; cbn [obind] in H; try discriminate.
        destruct (IH _ _ H) as [l2 L2]. rewrite L2. unfold arnoldi in E. destruct (expand _ _ _ _ _ _) as [[p' d] w]. destruct (mgs _ _ _) as [h w']. destruct (tiny80 _); [discriminate|].
        destruct (rotcol _ _ _) as [col [dx dy]]. destruct (rotate _ (c_last st) r0) as [s0 s1]. destruct (stepf _ _ _) as [it| |] eqn:ES; cbn [obind] in E; try discriminate.
        injection E as <-. cbn [Gmres.c_it]. unfold step in ES. destruct (negb _); [discriminate|]. injection ES as <-. cbn [i_log]. rewrite <- app_assoc. eexists. reflexivity. }
      apply G in C1. exact C1.
  Qed.
  Lemma best_refl b x : best b x x 0.
  Proof.
    exists nil. split; [auto|]. split; [constructor|]. split; [|split].
    - intros _ _ y. split; intros H; [inversion H; [apply lcb_zero|lia]|]. destruct H as [f ->]. constructor.
    - rewrite vsub_diag. apply lcb_zero.
    - intros y [f ->]. cbn [fcomb]. rewrite (linear_vz _ Bop_lin). apply dot_vz.
  Qed.
  Lemma outer_best fuel m maxit b : 0 < m -> forall s s', fresh b s -> o_invf maxit s -> (exists q, o_j s = 1 + q * m) -> outerf fuel m maxit b s = Some (Ok s') ->
    (forall q, In q (o_pairs s') -> exact_pair q) -> (o_j s' <= maxit \/ maxit <= 1 \/ (maxit - 1) mod m <> 0) ->
    exists sc q j l, fresh b sc /\ o_invf maxit sc /\ o_j sc = (o_j s + q * m)%nat /\ o_j s' = (o_j sc + j)%nat /\ j <= m /\ (j = 0 -> q = 0) /\ (q = 0 -> sc = s) /\
      i_log K (o_it s') = i_log K (o_it sc) ++ l /\ best b (o_x sc) (o_x s') j.
  Proof.
    intros Hm.
    assert (T : forall s, fresh b s -> o_invf maxit s -> exists sc q j l, fresh b sc /\ o_invf maxit sc /\ o_j sc = (o_j s + q * m)%nat /\ o_j s = (o_j sc + j)%nat /\ j <= m /\ (j = 0 -> q = 0) /\ (q = 0 -> sc = s) /\
      i_log K (o_it s) = i_log K (o_it sc) ++ l /\ best b (o_x sc) (o_x s) j).
    { intros s HF HI. exists s, 0, 0, nil. rewrite app_nil_r. repeat (split; auto; try lia). apply best_refl. }
    induction fuel as [|f IH]; intros s s' HF HI [q HQ] H HX HM; cbn [outer] in H; destruct ((o_j s <=? maxit) && negb (i_conv K (o_it s))) eqn:EC; try discriminate; try (injection H as <-; apply T; auto; fail).
    destruct (cyclef _ _ _ s) as [s1| |] eqn:E; try discriminate. apply andb_prop in EC. destruct EC as [EC EC2]. apply Nat.leb_le in EC. apply negb_true_iff in EC2.
    destruct (outer_pairs _ _ _ _ _ _ H) as [l2 L2].
    assert (HX1 : forall q, In q (o_pairs s1) -> exact_pair q) by (intros x Hx; apply HX; rewrite L2; apply in_app_iff; auto).
    destruct (cycle_fresh _ _ _ _ _ Hm HF HI EC EC2 E HX1) as [C1 [C2 _]]. destruct (cycle_best _ _ _ _ _ Hm HF HI EC EC2 E HX1) as [D1 [D2 [ll D3]]].
    pose proof E as E'. apply (cycle_step finite lt_ mul_ zero_ tiny reduction) in E'; auto. destruct E' as [I1 _].
    destruct ((o_j s1 <=? maxit) && negb (i_conv K (o_it s1))) eqn:EN.
    - pose proof EN as EN'. apply andb_prop in EN'. destruct EN' as [N1 N2]. apply Nat.leb_le in N1. apply negb_true_iff in N2. destruct (C2 N2 N1) as [J1 J2].
      destruct (Nat.eq_dec (o_j s1) maxit) as [EQ|NE].
      + exfalso. destruct (outer_mono _ _ _ _ _ _ I1 Hm H) as [_ M2]. specialize (M2 N1 N2).
        assert (HD : maxit - 1 = (S q) * m) by (cbn; lia). rewrite HD in HM. rewrite Nat.mod_mul in HM by lia. destruct HM as [HM|[HM|HM]]; [lia| |lia].
        cbn in HD. lia.
      + destruct (IH s1 s') as [sc [q' [j [l [G1 [G2 [G3 [G4 [G5 [G6 [G7 [G8 G9]]]]]]]]]]]]; auto; [apply J2; lia|exists (S q); cbn; lia|].
        destruct (outer_mono _ _ _ _ _ _ I1 Hm H) as [_ M2]. specialize (M2 N1 N2).
        exists sc, (S q'), j, l. repeat (split; auto; try lia); cbn; try lia.
    - destruct f; cbn [outer] in H; rewrite EN in H; injection H as <-; exists s, 0, (o_j s1 - o_j s), ll; repeat (split; auto; try lia).
  Qed.
  Theorem gmres_best fuel m maxit p x b red p' x' b' res log prs : 0 < m -> (flex = false -> forall p1 x1 b1, pre p x b = (p1, x1, b1) -> b1 = b) ->
    gmres_apply4 finite lt_ mul_ div_ zero_ tiny reduction A dot nrm kdiv kabs is0 tiny80 rot P pre papply post flex fuel m maxit p x b red = Some (Ok (p', x', b', res, log, prs)) ->
    (forall q, In q prs -> exact_pair q) -> (r_iterations K res < maxit \/ maxit <= 1 \/ (maxit - 1) mod m <> 0) ->
    exists p1 x1 b1 p2 x2 xc q j, pre p x b = (p1, x1, b1) /\ post p2 x2 = (p', x') /\ r_iterations K res = (q * m + j)%nat /\ j <= m /\ (j = 0 -> q = 0) /\ (q = 0 -> xc = x1) /\
      nth_error log (q * m) = Some ((q * m)%nat, nrm (resid b1 xc)) /\ best b1 xc x2 j.
  Proof.
    intros Hm Hpre. unfold gmres_apply4. destruct (pre p x b) as [[p1 x1] b1] eqn:EP. destruct (startf p1 x1 b1) as [[p2 v0] bb] eqn:ES0. apply start_spec in ES0.
    destruct (stepf 0 _ _) as [it| |] eqn:ES; try discriminate. pose proof (step_fine _ _ _ _ ES) as HF.
    assert (HI : o_invf maxit (mkO P p2 x1 bb v0 (nrm v0) 1 it nil)). { exists 0. cbn. split; [eapply step0; eauto|]. lia. }
    assert (HFr : fresh b1 (mkO P p2 x1 bb v0 (nrm v0) 1 it nil)) by (split; [exact ES0|]; split; auto).
    assert (IT : forall (s : ost) k, at_stepf k (o_it s) -> r_iterations K (finalize K lt_ mul_ div_ tiny reduction 1 (o_it s)) = k).
    { intros s k [ds [_ [_ [_ [_ [_ [_ [K1 _]]]]]]]]. unfold finalize. cbn [r_iterations]. rewrite Nat.div_1_r. auto. }
    assert (LG : forall (s : ost) k l, fresh b1 s -> at_stepf k (o_it s) -> nth_error (i_log K (o_it s) ++ l) k = Some (k, nrm (resid b1 (o_x s)))).
    { intros s k l [F1 [F2 [F3 _]]] [ds [K1 [K2 _]]]. rewrite nth_error_app1 by (rewrite K1, combine_length, seq_length; lia). rewrite <- F1, <- F2. unfold last_def in F3.
      destruct (rev (i_log K (o_it s))) as [|[a c] rl] eqn:ER; [discriminate|]. injection F3 as ->. assert (E2 : i_log K (o_it s) = rev rl ++ [(a, o_norm s)]) by (rewrite <- (rev_involutive (i_log K (o_it s))), ER; reflexivity).
      assert (HL : length (i_log K (o_it s)) = S k) by (rewrite K1, combine_length, seq_length; lia). rewrite E2 in HL |- *. rewrite app_length in HL. cbn in HL.
      rewrite nth_error_app2 by lia. replace (k - length (rev rl)) with 0 by lia. cbn. f_equal. f_equal.
      assert (E3 : map fst (i_log K (o_it s)) = seq 0 (S k)). { rewrite K1. clear - K2. revert K2. generalize 0. generalize (S k). intros n. revert ds. induction n as [|n IH]; intros [|d ds] a H; cbn in *; try discriminate; auto. f_equal. apply IH. lia. }
      rewrite E2, map_app, seq_S in E3. apply app_inj_tail in E3. cbn in E3. apply E3. }
    destruct (i_conv K it) eqn:EC.
    - intros H _ _. injection H as H. apply gmres_finish_eq in H. destruct H as [H1 [_ [-> [-> _]]]]. exists p1, x1, b1, p2, x1, x1, 0, 0. cbn in H1. split; [auto|]. split; [auto|].
      assert (A0 : at_stepf 0 it) by (eapply step0; eauto).
      split; [exact (IT (mkO P p2 x1 bb v0 (nrm v0) 1 it nil) 0 A0)|]. split; [lia|]. split; [auto|]. split; [auto|]. split; [|apply best_refl].
      pose proof (LG (mkO P p2 x1 bb v0 (nrm v0) 1 it nil) 0 nil HFr A0) as G. rewrite app_nil_r in G. exact G.
    - destruct (outerf _ _ _ _ _) as [[s| |]|] eqn:EO; try discriminate. intros H HX HM. injection H as H. apply gmres_finish_eq in H. destruct H as [H1 [_ [-> [-> ->]]]].
      assert (HB : (if flex then b1 else b) = b1). { destruct flex; auto. symmetry. eapply Hpre; eauto. }
      rewrite HB in EO.
      pose proof (outer_step finite lt_ mul_ zero_ tiny reduction A dot nrm kdiv kabs is0 tiny80 rot P papply flex _ _ _ _ _ _ HI EO) as [[k [K1 [K2 K3]]] _].
      rewrite (IT _ _ K1) in HM |- *.
      apply outer_best in EO; auto; [|exists 0; reflexivity|destruct HM as [HM|HM]; [left; lia|auto]].
      destruct EO as [sc [q [j [l [G1 [[k2 [Q1 [Q2 Q3]]] [G3 [G4 [G5 [G6 [G7 [G8 G9]]]]]]]]]]]]. cbn [Gmres.o_j] in G3.
      assert (k2 = q * m) by lia. subst k2.
      exists p1, x1, b1, (o_p P s), (o_x s), (o_x sc), q, j. split; [auto|]. split; [auto|]. split; [lia|]. split; [auto|]. split; [auto|]. split; [intros E; rewrite (G7 E); reflexivity|].
      split; [|auto]. rewrite G8. apply LG; auto.
  Qed.
  (** ** The reported defects do not grow *)
  Definition falling (le_ : K -> K -> Prop) (log : list (nat * K)) : Prop :=
    forall i a c, nth_error (map snd log) i = Some a -> nth_error (map snd log) (S i) = Some c -> le_ c a.
  Lemma falling_snoc le_ log i a c : falling le_ log -> option_map snd (hd_error (rev log)) = Some a -> le_ c a -> falling le_ (log ++ [(i, c)]).
  Proof.
    intros HF HL Hc k x y. rewrite map_app. cbn [map snd]. intros H1 H2. destruct (rev log) as [|[n a'] rl] eqn:ER; [discriminate|]. injection HL as ->.
    assert (E2 : log = rev rl ++ [(n, a)]) by (rewrite <- (rev_involutive log), ER; reflexivity).
    assert (HK : S k < length (map snd log ++ [c])) by (apply nth_error_Some; congruence). rewrite app_length in HK. cbn in HK.
    destruct (Nat.eq_dec (S k) (length (map snd log))) as [E|NE].
    - rewrite nth_error_app2 in H2 by lia. rewrite E, Nat.sub_diag in H2. injection H2 as <-. rewrite nth_error_app1 in H1 by lia.
      rewrite E2, map_app in H1, E. rewrite app_length in E. cbn in E. rewrite nth_error_app2 in H1 by lia. replace (k - length (map snd (rev rl))) with 0 in H1 by lia. injection H1 as <-. exact Hc.
    - rewrite nth_error_app1 in H1, H2 by lia. eapply HF; eauto.
  Qed.
  Section Falling.
    Variable le_ : K -> K -> Prop.
    Hypothesis kabs_rot : forall cs a, unit_rot cs -> le_ (kabs (snd (rotate cs a r0))) (kabs a).
    Hypothesis kabs_idem : forall a, kabs (kabs a) = kabs a.
    Notation fl it := (falling le_ (i_log K it)).
    Lemma inner_falling maxit n : forall st st', innerf maxit n st = Ok st' -> fine (c_it st) (c_norm st) -> kabs (c_last st) = c_norm st -> fl (c_it st) ->
      (forall q, In q (c_pairs st') -> exact_pair q) -> fl (c_it st') /\ fine (c_it st') (c_norm st') /\ kabs (c_last st') = c_norm st'.
    Proof.
      induction n as [|n IH]; intros st st' H HF HA HL HX; cbn [inner] in H; [injection H as <-; auto|].
      destruct (_ && _); [|injection H as <-; auto]. destruct (arnoldif st) as [st1| |] eqn:EA; cbn [obind] in H; try discriminate.
      destruct (inner_pairs _ _ _ _ H) as [l2 L2]. destruct (arnoldi_pairs _ _ EA) as [_ [F1 N1]]. apply (IH st1); auto. clear IH H.
      unfold arnoldi in EA. destruct (expand _ _ _ _ _ _) as [[p' d] w]. destruct (mgs _ _ _) as [h w']. destruct (tiny80 (nrm w')); [discriminate|].
      destruct (rotcol _ _ _) as [col [dx dy]]. destruct (rotate _ (c_last st) r0) as [s0 s1] eqn:ER. destruct (stepf _ _ _) as [it| |] eqn:ES; cbn [obind] in EA; try discriminate.
      injection EA as <-. cbn [Gmres.c_it Gmres.c_pairs] in *. unfold step in ES. destruct (negb _); [discriminate|]. injection ES as <-. cbn [i_log]. apply (falling_snoc le_ _ _ (c_norm st)); auto; [apply HF|].
      rewrite <- HA. change s1 with (snd (s0, s1)). rewrite <- ER. apply kabs_rot. apply (HX (dx, dy)). rewrite L2. apply in_app_iff. left. apply in_app_iff. right. left. auto.
    Qed.
    Lemma outer_falling fuel m maxit b : 0 < m -> forall s s', (fresh b s \/ maxit <= o_j s) -> fine (o_it s) (o_norm s) -> kabs (o_norm s) = o_norm s -> fl (o_it s) -> o_invf maxit s ->
      outerf fuel m maxit b s = Some (Ok s') -> (forall q, In q (o_pairs s') -> exact_pair q) -> fl (o_it s').
    Proof.
      intros Hm. induction fuel as [|f IH]; intros s s' HF HN HA HL HI H HX; cbn [outer] in H; destruct ((o_j s <=? maxit) && negb (i_conv K (o_it s))) eqn:EC; try discriminate; try (injection H as <-; auto; fail).
      destruct (cyclef _ _ _ s) as [s1| |] eqn:E; try discriminate. apply andb_prop in EC. destruct EC as [EC EC2]. apply Nat.leb_le in EC. apply negb_true_iff in EC2.
      destruct (outer_pairs _ _ _ _ _ _ H) as [l2 L2].
      assert (HX1 : forall q, In q (o_pairs s1) -> exact_pair q) by (intros x Hx; apply HX; rewrite L2; apply in_app_iff; auto).
      pose proof E as E'. apply (cycle_step finite lt_ mul_ zero_ tiny reduction) in E'; auto. destruct E' as [I1 I2]. specialize (I2 Hm EC EC2).
      assert (G : fl (o_it s1) /\ exists c, innerf maxit m (mkCyc P (o_p P s) [vscale (recip kdiv flex (is0 (o_norm s)) (o_norm s)) (o_v0 s)] nil nil nil nil (o_norm s) (o_norm s) (o_j s) (o_it s) (o_pairs s)) = Ok c /\
        fine (c_it c) (c_norm c) /\ kabs (c_last c) = c_norm c /\ c_it c = o_it s1).
      { pose proof E as E0. unfold cycle in E0. destruct (innerf _ _ _) as [c| |] eqn:EI; cbn [obind] in E0; try discriminate.
        assert (P1 : o_pairs s1 = c_pairs c /\ o_it s1 = c_it c) by (destruct (negb _ && _); [destruct (startf _ _ _) as [[p' v'] b']|]; injection E0 as <-; auto). destruct P1 as [P1 P2].
        destruct (inner_falling _ _ _ _ EI HN HA HL) as [Q1 [Q2 Q3]]; [rewrite <- P1; auto|]. rewrite P2. split; [auto|]. exists c. auto. }
      destruct G as [G1 [c [G2 [G3 [G4 G5]]]]].
      destruct ((o_j s1 <=? maxit) && negb (i_conv K (o_it s1))) eqn:EN; [|destruct f; cbn [outer] in H; rewrite EN in H; injection H as <-; auto].
      apply andb_prop in EN. destruct EN as [N1 N2]. apply Nat.leb_le in N1. apply negb_true_iff in N2. destruct HF as [HF|HF]; [|lia].
      destruct (cycle_fresh _ _ _ _ _ Hm HF HI EC EC2 E HX1) as [C1 [C2 _]]. destruct (C2 N2 N1) as [J1 J2].
      destruct (Nat.eq_dec (o_j s1) maxit) as [EQ|NE].
      - assert (EO : o_norm s1 = c_norm c).
        { unfold cycle in E. rewrite G2 in E. cbn [obind] in E. assert (EJ : c_j c = o_j s1) by (destruct (negb _ && _); [destruct (startf _ _ _) as [[p' v'] b']|]; injection E as <-; auto).
          rewrite EJ, EQ, Nat.ltb_irrefl, andb_false_r in E. injection E as <-. reflexivity. }
        apply (IH s1); auto; [right; lia|rewrite EO, <- G5; auto|rewrite EO, <- G4; auto].
      - assert (HF1 : fresh b s1) by (apply J2; lia). apply (IH s1); auto; [apply HF1|]. destruct HF1 as [_ [-> _]]. apply kabs_spec, nrm_dot.
    Qed.
    Theorem gmres_falling fuel m maxit p x b red p' x' b' res log prs : 0 < m -> (flex = false -> forall p1 x1 b1, pre p x b = (p1, x1, b1) -> b1 = b) ->
      gmres_apply4 finite lt_ mul_ div_ zero_ tiny reduction A dot nrm kdiv kabs is0 tiny80 rot P pre papply post flex fuel m maxit p x b red = Some (Ok (p', x', b', res, log, prs)) ->
      (forall q, In q prs -> exact_pair q) -> falling le_ log.
    Proof.
      intros Hm Hpre. unfold gmres_apply4. destruct (pre p x b) as [[p1 x1] b1] eqn:EP. destruct (startf p1 x1 b1) as [[p2 v0] bb] eqn:ES0. apply start_spec in ES0.
      destruct (stepf 0 _ _) as [it| |] eqn:ES; try discriminate. pose proof (step_fine _ _ _ _ ES) as HF.
      assert (HI : o_invf maxit (mkO P p2 x1 bb v0 (nrm v0) 1 it nil)). { exists 0. cbn. split; [eapply step0; eauto|]. lia. }
      assert (F0 : fl it). { unfold step in ES. destruct (negb _); [discriminate|]. injection ES as <-. cbn [i_log iter0 app]. intros [|i] a c H1 H2; cbn in *; [discriminate|destruct i; discriminate]. }
      destruct (i_conv K it) eqn:EC.
      - intros H _. injection H as H. apply gmres_finish_eq in H. destruct H as [_ [_ [_ [-> _]]]]. exact F0.
      - destruct (outerf _ _ _ _ _) as [[s| |]|] eqn:EO; try discriminate. intros H HX. injection H as H. apply gmres_finish_eq in H. destruct H as [H1 [_ [_ [-> ->]]]].
        assert (HB : (if flex then b1 else b) = b1). { destruct flex; auto. symmetry. eapply Hpre; eauto. }
        rewrite HB in EO. apply outer_falling in EO; auto; cbn [Gmres.o_norm]; [left; split; [exact ES0|]; split; auto|apply kabs_spec, nrm_dot].
    Qed.
  End Falling.

End Exact.
