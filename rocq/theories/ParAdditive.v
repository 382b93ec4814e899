(** * The additive multigrid cycle on all processes (C76): AMG::additiveMgc (paamg/amg.hh:897-901, 1089-1138), without redistribution to fewer processes *)
From Coq Require Import Arith List Lia Bool ZArith.
From Verif Require Import Ring RingInst Sums Outcome Sparse MatVec AmgTransfer AggPattern Parallel ParComm ParOps ParCoarsen ParGalerkin ParAmg.
From Verif Require Amg.
Import ListNotations.
Open Scope nat_scope.

Section Additive.
  Context {R : ring}.
  Local Open Scope ring_scope_istl.
  Variables (P G : nat).
  Variable c : pcoarse (R := R).
  (** ** Model; v_pre of a level is the smoother's apply *)
  (** amg.hh:1098-1102 *)
  Fixpoint prestrict_all (ls : list (plevel (R := R))) (st : list (pst (R := R))) : prog (list (pst (R := R))) :=
    match ls, st with
    | nil, [s] => pret [s]
    | l :: ls', s :: s1 :: rest => pbind (each P [] (fun p => restrict_parallel (next_ix c ls') (v_agg l) p (s_rhs s1 p) (s_rhs s p))) (fun r => pbind (prestrict_all ls' (mkpst (s_lhs s1) r (s_upd s1) :: rest)) (fun t => pret (s :: t)))
    | _, _ => fun o => o = UB
    end.
  (** the smoothers from the finest level on, then the coarse solver: amg.hh:1107-1124; each process looks at its own res.converged *)
  Fixpoint pcorrect_all (ls : list (plevel (R := R))) (st : list (pst (R := R))) : prog (list (pst (R := R))) :=
    match ls, st with
    | nil, [s] => pbind (comm P (z_ix c) (s_rhs s)) (fun rhs => pbind (z_solve c (s_lhs s) rhs) (fun r =>
        pbind (each P tt (fun p => if snd r p then Ok tt else Throw EMath)) (fun _ => pret [mkpst (fst (fst r)) (snd (fst r)) (s_upd s)])))
    | l :: ls', s :: rest => pbind (v_pre l (fzero (s_lhs s)) (s_rhs s)) (fun w => pbind (pcorrect_all ls' rest) (fun t => pret (mkpst w (s_rhs s) (s_upd s) :: t)))
    | _, _ => fun o => o = UB
    end.
  (** amg.hh:1129-1136 *)
  Fixpoint pprolong_all (ls : list (plevel (R := R))) (st : list (pst (R := R))) : prog (list (pst (R := R))) :=
    match ls, st with
    | nil, [s] => pret [s]
    | l :: ls', s :: rest => pbind (pprolong_all ls' rest) (fun t => match t with
        | s1 :: t' => pbind (each P ([], []) (fun p => prolongate_parallel (v_agg l) p (s_lhs s1 p) (s_lhs s p) r1)) (fun cf => pret (mkpst (fun p => snd (cf p)) (s_rhs s) (s_upd s) :: mkpst (fun p => fst (cf p)) (s_rhs s1) (s_upd s1) :: t'))
        | nil => fun o => o = UB end)
    | _, _ => fun o => o = UB
    end.
  (** AMG::apply, amg.hh:897-901 *)
  Definition padditive_apply (ls : list (plevel (R := R))) (st : list (pst (R := R))) (d : fam (R := R)) : prog (fam (R := R) * list (pst (R := R))) :=
    match st with
    | s :: rest => pbind (prestrict_all ls (mkpst (s_lhs s) d (s_upd s) :: rest)) (fun st1 => pbind (pcorrect_all ls st1) (fun st2 =>
        match ls with
        | nil => fun o => o = UB
        | _ => pbind (pprolong_all ls st2) (fun st3 => match st3 with s' :: _ => pret (s_lhs s', st3) | nil => fun o => o = UB end)
        end))
    | nil => fun o => o = UB
    end.

  (** ** Specification: on global vectors the sum of the corrections of all levels, each for the defect restricted to the level *)
  Variable gsolve : (nat -> R) -> (nat -> R) -> (nat -> R) -> Prop.       (* start vector, right hand side, possible results of the coarse solver *)
  Fixpoint gadd (gs : list (glevel (R := R))) (start d u : nat -> R) : Prop :=
    match gs with
    | nil => gsolve start d u
    | g :: gs' => exists w x, g_pre g d w /\ gadd gs' start (grestrict G (g_ga g) d) x /\ forall h, u h = w h + gprolong r1 (g_ga g) x h
    end.
  Variable fl : nat -> bool.      (* the processes on which the coarse solver reports convergence *)
  (** the coarse solver for every consistent start vector *)
  Definition solver_from : Prop :=
    forall g0 gd v d, consist P (z_sz c) (z_ix c) g0 v -> consist P (z_sz c) (z_ix c) gd d ->
      pok (z_solve c v d) (fun r => exists gw, gsolve g0 gd gw /\ consist P (z_sz c) (z_ix c) gw (fst (fst r)) /\ fsized P (z_sz c) (snd (fst r)) /\ forall p, p < P -> snd r p = fl p).
  Fixpoint coarse_lhs (st : list (pst (R := R))) : fam (R := R) := match st with nil => fun _ => nil | [s] => s_lhs s | _ :: t => coarse_lhs t end.
  Notation hok := (hier_ok P G c (gsolve (fun _ => r0)) fl).
  Notation shp := (pshape P c).
  Notation con := (consist P).

  Fixpoint prestricted (ls : list (plevel (R := R))) (gs : list (glevel (R := R))) (st : list (pst (R := R))) (d g0 : nat -> R) : Prop :=
    match ls, gs, st with
    | nil, nil, [s] => isdefect P (z_sz c) (z_ix c) d (s_rhs s) /\ con (z_sz c) (z_ix c) g0 (s_lhs s)
    | l :: ls', g :: gs', s :: st' => isdefect P (v_sz l) (v_ix l) d (s_rhs s) /\ prestricted ls' gs' st' (grestrict G (g_ga g) d) g0
    | _, _, _ => False end.
  (** w: the corrections of the levels *)
  Fixpoint pcorrected (ls : list (plevel (R := R))) (gs : list (glevel (R := R))) (st : list (pst (R := R))) (d g0 : nat -> R) : Prop :=
    match ls, gs, st with
    | nil, nil, [s] => exists gw, gsolve g0 d gw /\ con (z_sz c) (z_ix c) gw (s_lhs s)
    | l :: ls', g :: gs', s :: st' => (exists gw, g_pre g d gw /\ con (v_sz l) (v_ix l) gw (s_lhs s)) /\ pcorrected ls' gs' st' (grestrict G (g_ga g) d) g0
    | _, _, _ => False end.
  Lemma coarse_lhs_cons s st : st <> nil -> coarse_lhs (s :: st) = coarse_lhs st.
  Proof. destruct st; [congruence|reflexivity]. Qed.
  Lemma prestrict_spec ls : forall gs s rest d g0, hok ls gs -> shp ls (s :: rest) -> isdefect P (next_sz c ls) (next_ix c ls) d (s_rhs s) -> con (z_sz c) (z_ix c) g0 (coarse_lhs (s :: rest)) ->
    pok (prestrict_all ls (s :: rest)) (fun st1 => shp ls st1 /\ prestricted ls gs st1 d g0).
  Proof.
    induction ls as [|l ls IH]; intros gs s rest d g0 HH HS HD H0; cbn [prestrict_all].
    - destruct gs; [|contradiction]. destruct rest; [|contradiction]. apply pok_ret. split; auto. cbn. auto.
    - destruct gs as [|g gs]; [contradiction|]. pose proof HH as (HL & HP & HG & HPre & HPost & HN). destruct HS as [(S1 & S2 & S3) S4]. destruct (pshape_head P c ls rest S4) as (s1 & rest' & -> & T1 & T2 & T3).
      destruct (hier_next P G c (gsolve (fun _ => r0)) fl ls gs HN) as (WC & UC & CO & CF). cbn [next_sz next_ix] in HD.
      eapply (pok_bind _ _ (isdefect P (next_sz c ls) (next_ix c ls) (grestrict G (g_ga g) d))).
      { apply (pok_each P [] _ (fun p y => length y = next_sz c ls p /\ defect (next_ix c ls p) (grestrict G (g_ga g) d) y)). intros p Hp. destruct (HD p Hp) as (L & D1 & D2).
        destruct (C74_restrict P G (v_sz l) (v_ix l) (g_A g) (v_A l) HL (next_sz c ls) (next_ix c ls) (v_agg l) WC UC HP (g_ga g) HG p (s_rhs s1 p) (s_rhs s p) d Hp (T2 p Hp) L D1) as (y & Y1 & Y2 & Y3 & Y4 & _).
        exists y. split; auto. split; auto. split; auto. }
      intros r Hr. eapply pok_bind; [apply (IH gs (mkpst (s_lhs s1) r (s_upd s1)) rest' (grestrict G (g_ga g) d) g0 HN)|].
      + apply (pshape_replace P c ls s1); cbn [s_lhs s_rhs s_upd]; auto. eapply isdefect_sized; eauto.
      + exact Hr.
      + rewrite coarse_lhs_cons in H0 by discriminate. destruct rest'; exact H0.
      + intros t [X1 X2]. apply pok_ret. split; [split; auto|]. cbn [prestricted]. auto.
  Qed.
  Lemma forallb_false {X} (f : X -> bool) l : forallb f l = false -> exists x, In x l /\ f x = false.
  Proof. induction l as [|x l IH]; [discriminate|]. cbn [forallb]. intros H. apply andb_false_iff in H. destruct H as [H|H]; [exists x; cbn; auto|]. destruct (IH H) as (y & H1 & H2). exists y. cbn. auto. Qed.
  Lemma pthrows_each {X} (x0 : X) f e : (forall p, p < P -> (exists x, f p = Ok x) \/ f p = Throw e) -> (exists p, p < P /\ f p = Throw e) -> pthrows (each P x0 f) e.
  Proof.
    intros H (p & Hp & Ep). split; [exists (Throw e); right; right; exists p, e; auto|].
    intros o [(y & Hy & ->)|[(q & Hq & E & _)|(q & e' & Hq & E & ->)]].
    - rewrite (Hy p Hp) in Ep. discriminate.
    - destruct (H q Hq) as [[x E']|E']; congruence.
    - destruct (H q Hq) as [[x E']|E']; congruence.
  Qed.
  Lemma pcorrect_spec ls : forall gs st d g0, solver_from -> hok ls gs -> shp ls st -> prestricted ls gs st d g0 ->
    if negb (forallb fl (seq 0 P)) then pthrows (pcorrect_all ls st) EMath else pok (pcorrect_all ls st) (fun st2 => shp ls st2 /\ pcorrected ls gs st2 d g0).
  Proof.
    induction ls as [|l ls IH]; intros gs st d g0 HF HH HS HR; cbn [pcorrect_all].
    - destruct gs; [|contradiction]. destruct st as [|s [|? ?]]; try contradiction. destruct HR as [R1 R2]. pose proof HH as (HW & HUn & HO & _). destruct HS as (S1 & S2 & S3).
      eapply pgen_bind; [apply (comm_spec P G (z_sz c) (z_ix c) d (s_rhs s) HW HUn HO S2); intros p g l Hp Hh; apply (R1 p Hp); auto|]. intros rhs Hr.
      eapply pgen_bind; [apply (HF g0 d (s_lhs s) rhs R2 Hr)|]. cbn beta. intros [[w rhs'] cv] (gw & Q1 & Q2 & Q3 & Q4). cbn [fst snd] in *.
      destruct (negb (forallb fl (seq 0 P))) eqn:EB.
      { apply pthrows_bind_l. apply pthrows_each. intros p Hp. rewrite Q4 by auto. destruct (fl p); eauto. apply negb_true_iff in EB. apply forallb_false in EB. destruct EB as (p & Hp & Ep). apply in_seq in Hp. exists p. split; [lia|]. rewrite Q4, Ep by lia. reflexivity. }
      apply negb_false_iff in EB. rewrite forallb_forall in EB.
      eapply pok_bind; [apply (pok_each P tt _ (fun _ _ => True)); intros p Hp; rewrite Q4, EB by (auto; apply in_seq; lia); eauto|]. intros _ _. apply pok_ret. split.
      + split; [eapply consist_sized; eauto|split; auto].
      + cbn [pcorrected s_lhs]. eauto.
    - destruct gs as [|g gs]; [destruct st; contradiction|]. destruct st as [|s st]; [contradiction|]. destruct HR as [R1 R2]. pose proof HH as (HL & HP & HG & HPre & HPost & HN). destruct HS as [(S1 & S2 & S3) S4].
      eapply pgen_bind; [apply (HPre d (fzero (s_lhs s)) (s_rhs s)); [apply fzero_consist; auto|exact R1]|]. cbn beta. intros w (gw & W1 & W2).
      specialize (IH gs st _ g0 HF HN S4 R2). destruct (negb (forallb fl (seq 0 P))); [apply pthrows_bind_l; exact IH|]. eapply pok_bind; [exact IH|]. cbn beta. intros t [X1 X2]. apply pok_ret. split.
      + split; auto. split; [eapply consist_sized; eauto|auto].
      + cbn [pcorrected s_lhs]. eauto.
  Qed.
  Lemma pprolong_spec ls : forall gs st d g0, hok ls gs -> shp ls st -> pcorrected ls gs st d g0 ->
    pok (pprolong_all ls st) (fun st3 => shp ls st3 /\ (exists s' rest gu, st3 = s' :: rest /\ gadd gs g0 d gu /\ con (next_sz c ls) (next_ix c ls) gu (s_lhs s')) /\ exists g1, con (z_sz c) (z_ix c) g1 (coarse_lhs st3)).
  Proof.
    induction ls as [|l ls IH]; intros gs st d g0 HH HS HC; cbn [pprolong_all].
    - destruct gs; [|contradiction]. destruct st as [|s [|? ?]]; try contradiction. destruct HC as (gw & C1 & C2). apply pok_ret. split; auto. split; [exists s, nil, gw; auto|eauto].
    - destruct gs as [|g gs]; [destruct st; contradiction|]. destruct st as [|s st]; [contradiction|]. destruct HC as [(gw & C1 & C2) C3]. pose proof HH as (HL & HP & HG & HPre & HPost & HN). destruct HS as [(S1 & S2 & S3) S4].
      destruct (hier_next P G c (gsolve (fun _ => r0)) fl ls gs HN) as (WC & UC & CO & CF).
      eapply pok_bind; [apply (IH gs st _ g0 HN S4 C3)|]. cbn beta. intros t (X1 & (s1 & t' & x & -> & X2 & X3) & g1 & X4). destruct (pshape_head P c ls _ X1) as (sh & rh & EQ & T1 & T2 & T3). injection EQ as <- <-.
      eapply (pok_bind _ _ (fun cf => con (v_sz l) (v_ix l) (fun h => gw h + gprolong r1 (g_ga g) x h) (fun p => snd (cf p)) /\ con (next_sz c ls) (next_ix c ls) x (fun p => fst (cf p)))).
      { eapply pok_weaken; [apply (pok_each P _ _ (fun p cf => (length (snd cf) = v_sz l p /\ agrees (v_ix l p) (fun h => gw h + gprolong r1 (g_ga g) x h) (snd cf)) /\ length (fst cf) = next_sz c ls p /\ agrees (next_ix c ls p) x (fst cf)))|].
        - intros p Hp. destruct (X3 p Hp) as [Lc Ac]. destruct (C2 p Hp) as [Lz Az].
          destruct (C74_prolongate P G (v_sz l) (v_ix l) (g_A g) (v_A l) HL (next_sz c ls) (next_ix c ls) (v_agg l) WC HP (g_ga g) HG p (s_lhs s1 p) (s_lhs s p) r1 x gw Hp Lc Lz Ac Az) as (cc & ff & Y1 & Y2 & Y3 & Y4).
          exists (cc, ff). split; auto. cbn [fst snd]. split; [split; auto|split].
          + unfold prolongate_parallel in Y1. destruct (C34_prolongate (v_agg l p) (v_sz l p) (s_lhs s1 p) (s_lhs s p) r1 Lz) as (c2 & f2 & Y5 & _ & Y6 & _); [rewrite Lc; apply (agg_ok_all P G (v_sz l) (v_ix l) (g_A g) (v_A l) HL (next_sz c ls) (next_ix c ls) (v_agg l) WC HP p Hp)|]. rewrite Y1 in Y5. injection Y5 as <- <-. congruence.
          + intros h k a HI. rewrite (Y3 h k a HI). ncring.
        - intros cf H. split; intros p Hp; apply (H p Hp). }
      cbn beta. intros cf [F1 F2]. apply pok_ret. split; [|split].
      + split; [split; [eapply consist_sized; eauto|auto]|]. apply (pshape_replace P c ls s1); cbn [s_lhs s_rhs s_upd]; auto. eapply consist_sized; eauto.
      + eexists _, _, (fun h => gw h + gprolong r1 (g_ga g) x h). split; [reflexivity|]. split; [|exact F1]. cbn [gadd]. exists gw, x. auto.
      + rewrite coarse_lhs_cons by discriminate. destruct t' as [|s2 t'].
        * destruct ls as [|l2 ls]; [|destruct X1 as [_ X1]; destruct ls; contradiction]. cbn [coarse_lhs s_lhs]. cbn [next_sz next_ix] in F2. eauto.
        * rewrite coarse_lhs_cons in X4 |- * by discriminate. eauto.
  Qed.

  Lemma parallel_gen ls gs st d gd g0 : solver_from -> hok ls gs -> shp ls st -> ls <> nil -> isdefect P (next_sz c ls) (next_ix c ls) gd d -> con (z_sz c) (z_ix c) g0 (coarse_lhs st) ->
    if negb (forallb fl (seq 0 P)) then pthrows (padditive_apply ls st d) EMath else
    pok (padditive_apply ls st d) (fun o => (exists gu, gadd gs g0 gd gu /\ con (next_sz c ls) (next_ix c ls) gu (fst o)) /\ shp ls (snd o) /\ exists g1, con (z_sz c) (z_ix c) g1 (coarse_lhs (snd o))).
  Proof.
    intros HF HH HS HN HD H0. destruct (pshape_head P c ls st HS) as (s & rest & -> & S1 & S2 & S3). cbn [padditive_apply].
    eapply pgen_bind; [apply (prestrict_spec ls gs (mkpst (s_lhs s) d (s_upd s)) rest gd g0 HH)|].
    - apply (pshape_replace P c ls s); cbn [s_lhs s_rhs s_upd]; auto. eapply isdefect_sized; eauto.
    - exact HD.
    - destruct rest; exact H0.
    - intros st1 [X1 X2]. pose proof (pcorrect_spec ls gs st1 gd g0 HF HH X1 X2) as CS. destruct (negb (forallb fl (seq 0 P))); [apply pthrows_bind_l; exact CS|].
      eapply pok_bind; [exact CS|]. intros st2 [Y1 Y2]. destruct ls as [|l ls]; [congruence|].
      eapply pok_bind; [apply (pprolong_spec (l :: ls) gs st2 gd g0 HH Y1 Y2)|]. cbn beta. intros st3 (Z1 & (s' & rest' & gu & -> & Z2 & Z3) & g1 & Z4). apply pok_ret. cbn [fst snd]. eauto 10.
  Qed.
  (** C76: on all processes and in every order of messages the additive AMG with more than one level computes the sum of the corrections of all levels for the global defect, and the coarse solver starts from what the
      last call left; the vectors stay in the state the next call needs *)
  Theorem C76_parallel ls gs st d gd g0 : solver_from -> hok ls gs -> shp ls st -> ls <> nil -> isdefect P (next_sz c ls) (next_ix c ls) gd d -> con (z_sz c) (z_ix c) g0 (coarse_lhs st) -> (forall p, p < P -> fl p = true) ->
    pok (padditive_apply ls st d) (fun o => (exists gu, gadd gs g0 gd gu /\ con (next_sz c ls) (next_ix c ls) gu (fst o)) /\ shp ls (snd o) /\ exists g1, con (z_sz c) (z_ix c) g1 (coarse_lhs (snd o))).
  Proof.
    intros HF HH HS HN HD H0 HC. pose proof (parallel_gen ls gs st d gd g0 HF HH HS HN HD H0) as GEN. destruct (forallb fl (seq 0 P)) eqn:E; [exact GEN|]. apply forallb_false in E. destruct E as (p & Hp & Ep). apply in_seq in Hp. rewrite HC in Ep by lia. discriminate.
  Qed.
  (** C76: if the coarse solver does not converge on a process, MathError is thrown (on that process) *)
  Theorem C76_parallel_throws ls gs st d gd g0 p : solver_from -> hok ls gs -> shp ls st -> ls <> nil -> isdefect P (next_sz c ls) (next_ix c ls) gd d -> con (z_sz c) (z_ix c) g0 (coarse_lhs st) -> p < P -> fl p = false ->
    pthrows (padditive_apply ls st d) EMath.
  Proof.
    intros HF HH HS HN HD H0 Hp HC. pose proof (parallel_gen ls gs st d gd g0 HF HH HS HN HD H0) as GEN. destruct (forallb fl (seq 0 P)) eqn:E; [|exact GEN]. rewrite forallb_forall in E. rewrite E in HC by (apply in_seq; lia). discriminate.
  Qed.
End Additive.

(** ** Example: the two processes of C75 *)
Definition xsolve0 (g0 d w : nat -> Zring) : Prop := xsolve d w.
Example C76_parallel_nonvacuous : exists (st : list pst) (d : nat -> vec Zring) (gd : nat -> Zring), isdefect (R := Zring) 2 psz pix gd d /\
  pok (padditive_apply (R := Zring) 2 xcoarse [xlevel] st d) (fun o => (exists gu, gadd (R := Zring) 4 xsolve0 [xglevel] (fun _ => 0%Z) gd gu /\ consist (R := Zring) 2 psz pix gu (fst o)) /\ pshape (R := Zring) 2 xcoarse [xlevel] (snd o) /\
    exists g1, consist (R := Zring) 2 (z_sz xcoarse) (z_ix xcoarse) g1 (coarse_lhs (snd o))) /\
  forall gu, gadd (R := Zring) 4 xsolve0 [xglevel] (fun _ => 0%Z) gd gu -> gu 0 = 4%Z /\ gu 1 = 5%Z /\ gu 2 = 6%Z /\ gu 3 = 4%Z.
Proof.
  set (d := fun p : nat => match p with 0 => [1; 2; 3]%Z | _ => [3; 4; 0]%Z end). set (gd := fun g : nat => (Z.of_nat g + 1)%Z).
  exists [mkpst (R := Zring) (fun _ => repeat 0%Z 3) (fun _ => repeat 0%Z 3) (fun _ => repeat 0%Z 3); mkpst (R := Zring) (fun _ => repeat 0%Z 2) (fun _ => repeat 0%Z 2) (fun _ => repeat 0%Z 2)], d, gd.
  assert (HD : isdefect (R := Zring) 2 psz pix gd d). { intros p Hp. destruct p as [|[|p]]; [| |lia]; (split; [reflexivity|split; intros g l H; xcases; try discriminate; reflexivity]). }
  split; auto. split.
  - apply (C76_parallel (R := Zring) 2 4 xcoarse xsolve0 (fun _ => true) [xlevel] [xglevel]); [|exact x_hier| |discriminate|exact HD| |auto].
    + intros g0 gd' v' d' HV HD'. apply pok_ret. cbn [fst snd]. exists gd'. split; [intros g; reflexivity|]. split; auto. split; auto. intros p Hp. apply (HD' p Hp).
    + assert (T : forall p, p < 2 -> psz p = 3) by (intros [|[|p]] Hp; auto; lia). cbn [pshape xlevel v_sz]. split; [|cbn; auto]; repeat split; intros p Hp; cbn [s_lhs s_rhs s_upd xcoarse z_sz]; rewrite repeat_length; auto. rewrite T; auto. rewrite T; auto. rewrite T; auto.
    + intros p Hp. split; [reflexivity|]. intros g l a _. cbn [coarse_lhs s_lhs]. unfold vget. apply (nth_repeat 0%Z 2 l).
  - intros gu (w & x & W & X & U). cbn [gadd] in X. unfold xsolve0, xsolve in X. cbn [xglevel g_A g_ga g_pre g_post] in *. pose proof (x_correction _ _ W) as V. rewrite !U, !V by lia. unfold gprolong. cbn [xga]. rewrite !X. repeat split; reflexivity.
Qed.
Print Assumptions C76_parallel.
Print Assumptions C76_parallel_throws.
Print Assumptions C76_parallel_nonvacuous.
