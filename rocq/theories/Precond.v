(** * Sequential preconditioners (dune/istl/preconditioners.hh:120-1092): C43 *)
From Coq Require Import Arith List Lia Sorted Bool ZArith QArith Qcanon.
From Verif Require Import Ring Sums RingInst Outcome Sparse MatVec GsModel Gs Ilu IluSolve Ilun Dilu Ildl.
Import ListNotations.
Open Scope nat_scope.

Section Sweeps.
  Context {R : ring}.
  Open Scope ring_scope_istl.
  Variable inv : R -> option R.
  Hypothesis inv_ok : forall a b, inv a = Some b -> a * b = r1 /\ b * a = r1.
  (** the three kinds of steps: dbjac, bsorf, bsorb (gsetc.hh:418-541) *)
  Inductive sweep := Jac | SorF | SorB.
  (** one step *)
  Definition one_sweep (k : sweep) (A : smat R) (w : R) (v d : vec R) : outcome (vec R) :=
    match k with Jac => dbjac inv A v d w | SorF => bsorf inv A v d w | SorB => bsorb inv A v d w end.
  (** the steps of an apply() one after the other, preconditioners.hh:217-223 (SSOR), 337-361 (SOR), 488-493 (Jacobi) *)
  Fixpoint sweeps (ks : list sweep) (A : smat R) (w : R) (v d : vec R) : outcome (vec R) :=
    match ks with nil => Ok v | k :: ks' => obind (one_sweep k A w v d) (fun v' => sweeps ks' A w v' d) end.
  (** SeqJac::apply, preconditioners.hh:488-493; SeqSOR::apply<forward>, :350-361 (apply(v,d), :337-340, is forward); SeqSSOR::apply, :217-223; [n] = _n.  The block
      level is 1. *)
  Definition seqjac_apply (n : nat) (A : smat R) (w : R) (v d : vec R) : outcome (vec R) := sweeps (repeat Jac n) A w v d.
  Definition seqsor_apply (forward : bool) (n : nat) (A : smat R) (w : R) (v d : vec R) : outcome (vec R) := sweeps (repeat (if forward then SorF else SorB) n) A w v d.
  Definition seqssor_apply (n : nat) (A : smat R) (w : R) (v d : vec R) : outcome (vec R) := sweeps (concat (repeat [SorF; SorB] n)) A w v d.
  (** Richardson::apply, preconditioners.hh:928-932 *)
  Definition richardson_apply (w : R) (v d : vec R) : vec R := map (fun x => w * x) d.

  (** the splitting matrix of a sweep *)
  Definition split_matrix (k : sweep) (A : smat R) (w : R) (i j : nat) : R :=
    Dp A i j + match k with Jac => r0 | SorF => w * Lp A i j | SorB => w * Up A i j end.
  Lemma dense_sub n M (x y : nat -> R) i : dense_mv n M (fun j => x j - y j) i = dense_mv n M x i - dense_mv n M y i.
  Proof. unfold dense_mv. rewrite <- sum_sub. apply sum_ext. intros; ncring. Qed.
  Lemma dense_addv n M (x y : nat -> R) i : dense_mv n M (fun j => x j + y j) i = dense_mv n M x i + dense_mv n M y i.
  Proof. unfold dense_mv. rewrite <- sum_add. apply sum_ext. intros; ncring. Qed.
  Lemma dense_scal n M (x : nat -> R) k i : dense_mv n M (fun j => x j * k) i = dense_mv n M x i * k.
  Proof. unfold dense_mv. rewrite <- sum_mul_r. apply sum_ext. intros; ncring. Qed.
  Lemma dense_wl n M (x : nat -> R) w i : dense_mv n (fun i j => w * M i j) x i = w * dense_mv n M x i.
  Proof. unfold dense_mv. rewrite <- sum_mul_l. apply sum_ext. intros; ncring. Qed.
  Lemma dense_split n k A w x i : i < n -> dense_mv n (split_matrix k A w) x i =
    den A i i * x i + match k with Jac => r0 | SorF => w * dense_mv n (Lp A) x i | SorB => w * dense_mv n (Up A) x i end.
  Proof.
    intros Hi. unfold split_matrix. destruct k.
    - rewrite (dense_add n (Dp A) (fun _ _ => r0)), dense_D by auto. unfold dense_mv. rewrite (sum_zero n (fun j => r0 * x j)); auto. intros; apply rmul_0_l.
    - rewrite (dense_add n (Dp A) (fun i j => w * Lp A i j)), dense_D, dense_wl by auto. reflexivity.
    - rewrite (dense_add n (Dp A) (fun i j => w * Up A i j)), dense_D, dense_wl by auto. reflexivity.
  Qed.
  (** every sweep: M (v' - v) = w (d - A v) *)
  Lemma one_sweep_char k n A w v d : central w -> mat_wf n n A -> diag_stored n A -> diag_invertible inv n A -> length v = n -> length d = n ->
    exists v', one_sweep k A w v d = Ok v' /\ length v' = n /\
      solves n (split_matrix k A w) (fun i => vget v' i - vget v i) (fun i => w * (vget d i - dense_mv n (den A) (vget v) i)).
  Proof.
    intros Hw HW HD HI Hv Hd. destruct (C14_sweeps inv inv_ok n A v d w Hw HW HD HI Hv Hd) as [[x1 [J1 [J2 J3]]] [_ [[x2 [F1 [F2 F3]]] [x3 [B1 [B2 B3]]]]]]. destruct k; cbn [one_sweep].
    - exists x1. repeat split; auto. intros i Hi. rewrite dense_split by auto. pose proof (J3 i Hi) as E. rewrite (dense_D n A _ i Hi) in E. rewrite radd_0_r. exact E.
    - exists x2. repeat split; auto. intros i Hi. rewrite dense_split by auto. pose proof (F3 i Hi) as E. rewrite (dense_D n A _ i Hi) in E. rewrite E, dense_sub, (dense_LDU n A (vget v) i Hi), dense_add, dense_D by auto. ncring.
    - exists x3. repeat split; auto. intros i Hi. rewrite dense_split by auto. pose proof (B3 i Hi) as E. rewrite (dense_D n A _ i Hi) in E. rewrite E, dense_sub, (dense_LDU n A (vget v) i Hi), dense_add, dense_D by auto. ncring.
  Qed.
  Lemma split_diag k A w i : split_matrix k A w i i = den A i i.
  Proof. unfold split_matrix, Dp, Lp, Up. rewrite Nat.eqb_refl, Nat.ltb_irrefl. destruct k; ncring. Qed.
  Lemma split_unique k n A w e : diag_invertible inv n A -> solves n (split_matrix k A w) e (fun _ => r0) -> forall i, i < n -> e i = r0.
  Proof.
    intros HI HS.
    assert (ST : forall i, i < n -> (forall j, j < n -> j <> i -> split_matrix k A w i j * e j = r0) -> e i = r0).
    { intros i Hi H. specialize (HS i Hi). unfold dense_mv in HS. rewrite (sum_single n i) in HS by auto. rewrite split_diag in HS. destruct (HI i Hi) as [u Hu]. destruct (inv_ok _ _ Hu) as [_ U].
      transitivity (u * (den A i i * e i)); [rewrite rmul_assoc, U; symmetry; apply rmul_1_l|rewrite HS; apply rmul_0_r]. }
    destruct k.
    - intros i Hi. apply ST; auto. intros j Hj Hn. unfold split_matrix, Dp. destruct (Nat.eqb_spec j i); [congruence|]. ncring.
    - induction i as [i IH] using lt_wf_ind. intros Hi. apply ST; auto. intros j Hj Hn. destruct (Nat.lt_ge_cases j i); [rewrite (IH j) by auto; ncring|].
      unfold split_matrix, Dp, Lp. destruct (Nat.eqb_spec j i); [congruence|]. destruct (Nat.ltb_spec j i); [lia|]. ncring.
    - intros i Hi. remember (n - i)%nat as m eqn:Em. revert i Hi Em. induction m as [m IH] using lt_wf_ind. intros i Hi Em. apply ST; auto. intros j Hj Hn.
      destruct (Nat.lt_ge_cases i j); [rewrite (IH (n - j)%nat) by lia; ncring|].
      unfold split_matrix, Dp, Up. destruct (Nat.eqb_spec j i); [congruence|]. destruct (Nat.ltb_spec i j); [lia|]. ncring.
  Qed.
  (** ** linearity: the result of any number of sweeps is linear in (v,d) *)
  Definition vplus (x y : vec R) : vec R := map (fun p => fst p + snd p) (combine x y).
  Definition vtimes (x : vec R) (k : R) : vec R := map (fun a => a * k) x.
  Lemma vget_vplus n x y i : length x = n -> length y = n -> vget (vplus x y) i = vget x i + vget y i.
  Proof.
    intros Hx Hy. unfold vplus. destruct (Nat.lt_ge_cases i n).
    - rewrite (vget_map2 n (fun a c => a + c)) by auto. reflexivity.
    - unfold vget. rewrite !nth_overflow; try lia; [ncring|]. rewrite map_length, combine_length. lia.
  Qed.
  Lemma vget_vtimes x k i : vget (vtimes x k) i = vget x i * k.
  Proof. unfold vtimes, vget. rewrite <- (rmul_0_l k) at 1. apply (map_nth (fun a => a * k)). Qed.
  Lemma one_sweep_linear k n A w v1 d1 v2 d2 y1 y2 c : central w -> mat_wf n n A -> diag_stored n A -> diag_invertible inv n A ->
    length v1 = n -> length d1 = n -> length v2 = n -> length d2 = n -> one_sweep k A w v1 d1 = Ok y1 -> one_sweep k A w v2 d2 = Ok y2 ->
    one_sweep k A w (vplus v1 (vtimes v2 c)) (vplus d1 (vtimes d2 c)) = Ok (vplus y1 (vtimes y2 c)) /\ length y1 = n /\ length y2 = n.
  Proof.
    intros Hw HW HD HI L1 L2 L3 L4 E1 E2. assert (LT : forall x : vec R, length (vtimes x c) = length x) by (intros; apply map_length).
    destruct (one_sweep_char k n A w v1 d1) as [y1' [Y1 [Y2 Y3]]]; auto. rewrite E1 in Y1. injection Y1 as <-.
    destruct (one_sweep_char k n A w v2 d2) as [y2' [Z1 [Z2 Z3]]]; auto. rewrite E2 in Z1. injection Z1 as <-.
    assert (LP : forall x y : vec R, length x = n -> length y = n -> length (vplus x y) = n) by (intros; unfold vplus; rewrite map_length, combine_length; lia).
    destruct (one_sweep_char k n A w (vplus v1 (vtimes v2 c)) (vplus d1 (vtimes d2 c))) as [y [W1 [W2 W3]]]; auto; try (apply LP; rewrite ?LT; auto).
    split; auto. rewrite W1. f_equal. apply vec_ext; [rewrite LP; rewrite ?LT; auto|]. intros i Hi. rewrite W2 in Hi.
    enough (E : vget y i - (vget y1 i + vget y2 i * c) = r0). { rewrite (vget_vplus n), vget_vtimes by (rewrite ?LT; auto). apply rsub_eq0 in E. exact E. }
    apply (split_unique k n A w (fun i => vget y i - (vget y1 i + vget y2 i * c))); auto. intros j Hj.
    specialize (Y3 j Hj). specialize (Z3 j Hj). specialize (W3 j Hj). cbn beta in *. rewrite !dense_sub in *.
    set (M := split_matrix k A w) in *.
    rewrite (dense_addv n M (vget y1) (fun j => vget y2 j * c)), dense_scal.
    assert (EV : dense_mv n M (vget (vplus v1 (vtimes v2 c))) j = dense_mv n M (vget v1) j + dense_mv n M (vget v2) j * c).
    { rewrite <- dense_scal, <- (dense_addv n M (vget v1)). unfold dense_mv. apply sum_ext. intros l _. rewrite (vget_vplus n), vget_vtimes by (rewrite ?LT; auto). reflexivity. }
    assert (EA : dense_mv n (den A) (vget (vplus v1 (vtimes v2 c))) j = dense_mv n (den A) (vget v1) j + dense_mv n (den A) (vget v2) j * c).
    { rewrite <- dense_scal, <- (dense_addv n (den A) (vget v1)). unfold dense_mv. apply sum_ext. intros l _. rewrite (vget_vplus n), vget_vtimes by (rewrite ?LT; auto). reflexivity. }
    rewrite EV, EA, (vget_vplus n), vget_vtimes in W3 by (rewrite ?LT; auto).
    apply rsub_move_l in Y3. apply rsub_move_l in Z3. apply rsub_move_l in W3. rewrite Y3, Z3, W3. ncring.
  Qed.
  (** For every list of sweeps -- SeqJac, SeqSOR and SeqSSOR with any n -- the result depends linearly on (v,d), so apply with v = 0 is a linear map of d. *)
  Theorem C43_sweeps_linear ks n A w c : central w -> mat_wf n n A -> diag_stored n A -> diag_invertible inv n A ->
    forall v1 d1 v2 d2, length v1 = n -> length d1 = n -> length v2 = n -> length d2 = n ->
    exists y1 y2, sweeps ks A w v1 d1 = Ok y1 /\ sweeps ks A w v2 d2 = Ok y2 /\ length y1 = n /\ length y2 = n /\
      sweeps ks A w (vplus v1 (vtimes v2 c)) (vplus d1 (vtimes d2 c)) = Ok (vplus y1 (vtimes y2 c)).
  Proof.
    intros Hw HW HD HI. induction ks as [|k ks IH]; intros v1 d1 v2 d2 L1 L2 L3 L4; cbn [sweeps].
    - exists v1, v2. repeat (split; auto).
    - destruct (one_sweep_char k n A w v1 d1) as [y1 [Y1 [Y2 _]]]; auto. destruct (one_sweep_char k n A w v2 d2) as [y2 [Z1 [Z2 _]]]; auto.
      destruct (one_sweep_linear k n A w v1 d1 v2 d2 y1 y2 c Hw HW HD HI L1 L2 L3 L4 Y1 Z1) as [E [_ _]]. rewrite Y1, Z1, E. cbn [obind]. apply IH; auto.
  Qed.
  (** ** one step from v = 0: the documented matrices *)
  Definition zeros (n : nat) : vec R := repeat r0 n.
  Lemma vget_zeros n i : vget (zeros n) i = r0.
  Proof. unfold vget, zeros. destruct (Nat.lt_ge_cases i n); [apply nth_repeat|apply nth_overflow; rewrite repeat_length; lia]. Qed.
  Lemma dense_zeros n M m i : dense_mv m M (vget (zeros n)) i = r0.
  Proof. unfold dense_mv. apply sum_zero. intros. rewrite vget_zeros. apply rmul_0_r. Qed.
  Lemma first_sweep k n A w d : central w -> mat_wf n n A -> diag_stored n A -> diag_invertible inv n A -> length d = n ->
    exists v', one_sweep k A w (zeros n) d = Ok v' /\ length v' = n /\ solves n (split_matrix k A w) (vget v') (fun i => w * vget d i).
  Proof.
    intros Hw HW HD HI Hd. destruct (one_sweep_char k n A w (zeros n) d Hw HW HD HI) as [v' [V1 [V2 V3]]]; auto; [apply repeat_length|]. exists v'. repeat (split; auto).
    intros i Hi. specialize (V3 i Hi). cbn beta in V3. rewrite dense_sub, !dense_zeros in V3. rewrite !rsub_0_r in V3. exact V3.
  Qed.
  (** D v = w d *)
  Theorem C43_jac n A w d : central w -> mat_wf n n A -> diag_stored n A -> diag_invertible inv n A -> length d = n ->
    exists v, seqjac_apply 1 A w (zeros n) d = Ok v /\ solves n (Dp A) (vget v) (fun i => w * vget d i).
  Proof.
    intros Hw HW HD HI Hd. destruct (first_sweep Jac n A w d Hw HW HD HI Hd) as [v [V1 [V2 V3]]]. exists v. unfold seqjac_apply. cbn [repeat sweeps]. rewrite V1. split; auto.
    intros i Hi. rewrite <- (V3 i Hi), dense_split, dense_D by auto. ncring.
  Qed.
  (** (D + w L) v = w d, backwards (D + w U) v = w d *)
  Theorem C43_sor forward n A w d : central w -> mat_wf n n A -> diag_stored n A -> diag_invertible inv n A -> length d = n ->
    exists v, seqsor_apply forward 1 A w (zeros n) d = Ok v /\
      solves n (fun i j => Dp A i j + w * (if forward then Lp A i j else Up A i j)) (vget v) (fun i => w * vget d i).
  Proof.
    intros Hw HW HD HI Hd. destruct (first_sweep (if forward then SorF else SorB) n A w d Hw HW HD HI Hd) as [v [V1 [V2 V3]]]. exists v. unfold seqsor_apply. cbn [repeat sweeps]. rewrite V1. split; auto.
    intros i Hi. rewrite <- (V3 i Hi). unfold split_matrix. destruct forward; reflexivity.
  Qed.
  (** (D + w L) D^{-1} (D + w U) v = w (2 - w) d *)
  Theorem C43_ssor n A w d Dinv : central w -> mat_wf n n A -> diag_stored n A -> (forall i, i < n -> inv (den A i i) = Some (Dinv i)) -> length d = n ->
    exists v, seqssor_apply 1 A w (zeros n) d = Ok v /\ length v = n /\
      solves n (fun i j => Dp A i j + w * Lp A i j) (fun k => Dinv k * dense_mv n (fun i j => Dp A i j + w * Up A i j) (vget v) k) (fun i => w * (r1 + r1 - w) * vget d i).
  Proof.
    intros Hw HW HD HDI Hd. assert (HI : diag_invertible inv n A) by (intros i Hi; eauto). destruct (first_sweep SorF n A w d Hw HW HD HI Hd) as [v1 [V1 [V2 V3]]].
    destruct (one_sweep_char SorB n A w v1 d Hw HW HD HI V2 Hd) as [v [B1 [B2 B3]]]. exists v. unfold seqssor_apply. cbn [repeat concat app sweeps]. rewrite V1. cbn [obind]. rewrite B1. split; auto. split; auto.
    assert (E : forall k, k < n -> dense_mv n (fun i j => Dp A i j + w * Up A i j) (vget v) k = den A k k * (vget v1 k * (r1 + r1 - w))).
    { intros k Hk. specialize (V3 k Hk). specialize (B3 k Hk). cbn beta in V3, B3. rewrite dense_sub in B3. apply rsub_move_l in B3. unfold split_matrix at 1 in B3. rewrite B3, !dense_split, (dense_LDU n A (vget v1) k Hk) in * by auto.
      assert (EW : w * (vget d k - (dense_mv n (Lp A) (vget v1) k + den A k k * vget v1 k + dense_mv n (Up A) (vget v1) k)) =
                   w * vget d k - w * (dense_mv n (Lp A) (vget v1) k + den A k k * vget v1 k + dense_mv n (Up A) (vget v1) k)) by ncring.
      rewrite EW, <- V3. transitivity (den A k k * vget v1 k + den A k k * vget v1 k - w * (den A k k * vget v1 k)); [ncring|]. rewrite (Hw (den A k k * vget v1 k)). ncring. }
    intros i Hi. transitivity (dense_mv n (split_matrix SorF A w) (fun k => vget v1 k * (r1 + r1 - w)) i).
    - unfold dense_mv at 1 3. apply sum_ext. intros k Hk. rewrite E by auto. destruct (inv_ok _ _ (HDI k Hk)) as [_ U]. unfold split_matrix. f_equal. rewrite rmul_assoc, U. apply rmul_1_l.
    - rewrite dense_scal, (V3 i Hi). rewrite <- !rmul_assoc. f_equal. transitivity (vget d i + vget d i - vget d i * w); [ncring|]. rewrite <- (Hw (vget d i)). ncring.
  Qed.
  Theorem C43_richardson w v d : central w -> length (richardson_apply w v d) = length d /\ forall i, vget (richardson_apply w v d) i = w * vget d i.
  Proof. intros Hw. unfold richardson_apply. split; [apply map_length|]. intros i. unfold vget. rewrite <- (rmul_0_r w) at 1. apply (map_nth (fun x => w * x)). Qed.
End Sweeps.

Section Factorised.
  Context {R : ring}.
  Open Scope ring_scope_istl.
  Variable inv : R -> option R.
  Hypothesis inv_ok : forall a b, inv a = Some b -> a * b = r1 /\ b * a = r1.
  (** abs(w-1) > 1e-15, the flag wNotIdentity_ *)
  Variable wnotid : R -> bool.
  Definition relax (w : R) (v : vec R) : vec R := if wnotid w then map (fun x => x * w) v else v.
  (** SeqILU, preconditioners.hh:777-806 (constructor) and :821-836 (apply).  The object holds either the factor or its CRS form. *)
  Inductive ilu_store : Type := InMatrix (F : smat R) | InCrs (lower upper : @crs R) (iv : list R).
  Definition seqilu_construct (A : smat R) (n : nat) (resort : bool) : outcome ilu_store :=
    obind (if n =? 0 then blockILU0Decomposition inv A else blockILUDecomposition inv A n) (fun F =>
    if resort then obind (convertToCRS F crs_new crs_new nil) (fun r => let '(l, u, iv) := r in Ok (InCrs l u iv)) else Ok (InMatrix F)).
  Definition seqilu_apply (w : R) (s : ilu_store) (v d : vec R) : outcome (vec R) :=
    obind (match s with InMatrix F => ilu_backsolve F v d | InCrs l u iv => crs_backsolve l u iv v d end) (fun v => Ok (relax w v)).
  (** SeqDILU, preconditioners.hh:590-600, 648-657 (the check for a stored diagonal: C25_check_diagonal) *)
  Definition seqdilu_construct (A : smat R) : outcome (vec R) := blockDILUDecomposition inv A (repeat r0 (length A)).
  Definition seqdilu_apply (A : smat R) (Dinv : vec R) (w : R) (v d : vec R) : outcome (vec R) := obind (blockDILUBacksolve A Dinv v d) (fun v => Ok (relax w v)).

  Lemma vget_relax w v i : central w -> vget (relax w v) i = if wnotid w then w * vget v i else vget v i.
  Proof. intros Hw. unfold relax. destruct (wnotid w); auto. rewrite Hw. unfold vget. rewrite <- (rmul_0_l w) at 1. apply (map_nth (fun x => x * w)). Qed.
  (** SeqILU: v = w z (z if w is 1 up to 1e-15) with L U z = d, where L U agrees with A on the stored pattern of the factor; the same with resort. *)
  Theorem C43_ilu n A p resort w v d s : central w -> 0 < n -> mat_wf n n A -> diag_stored n A -> length v = n -> length d = n ->
    seqilu_construct A p resort = Ok s ->
    exists F piv v' z, seqilu_apply w s v d = Ok v' /\ length z = n /\ mat_wf n n F /\ pivots n F piv /\
      (forall i j, i < n -> instored F i j -> sum n (fun k => Lfac F i k * Ufac piv F k j) = den A i j) /\
      (forall i j, i < n -> instored A i j -> instored F i j) /\
      (forall i, i < n -> sum n (fun k => Lfac F i k * sum n (fun j => Ufac piv F k j * vget z j)) = vget d i) /\
      (forall i, vget v' i = if wnotid w then w * vget z i else vget z i).
  Proof.
    intros Hw Hn HW HD Hv Hd H. unfold seqilu_construct in H.
    assert (HF : exists F piv, (if p =? 0 then blockILU0Decomposition inv A else blockILUDecomposition inv A p) = Ok F /\ mat_wf n n F /\ pivots n F piv /\
      (forall i j, i < n -> instored F i j -> sum n (fun k => Lfac F i k * Ufac piv F k j) = den A i j) /\ (forall i j, i < n -> instored A i j -> instored F i j)).
    { destruct (p =? 0) eqn:EP.
      - destruct (C15_ilu0 inv inv_ok n A HW HD) as [[F [F1 [F2 [F3 [piv [F4 F5]]]]]]|[r [E _]]]; [|rewrite E in H; discriminate]. exists F, piv. 
        assert (SP : forall i j, instored A i j <-> instored F i j). { intros i j. unfold instored. rewrite <- !(map_nth (map fst)). unfold same_pattern in F3. rewrite F3. tauto. }
        split; auto. split; auto. split; auto. split; intros i j Hi Hs; [apply F5; auto; apply SP; auto|apply SP; auto].
      - destruct (C16_ilun inv inv_ok p n A HW HD) as [[F [piv [F1 [F2 [F3 [_ [F4 F5]]]]]]]|[r [_ E]]]; [|rewrite E in H; discriminate]. exists F, piv. auto 10. }
    destruct HF as [F [piv [F1 [F2 [F3 [F4 F5]]]]]]. rewrite F1 in H. cbn [obind] in H. assert (DF : diag_stored n F) by (intros i Hi; apply F5; auto).
    destruct (C17_backsolve n F piv v d F2 DF F3 Hv Hd) as [z [Z1 [Z2 Z3]]].
    exists F, piv, (relax w z), z. split.
    { destruct resort.
      - destruct (C17_crs_agrees n F nil v d Hn F2 DF Hv Hd) as [l [u [iv [C1 C2]]]]. rewrite C1 in H. cbn [obind] in H. injection H as <-. unfold seqilu_apply. rewrite C2, Z1. reflexivity.
      - injection H as <-. unfold seqilu_apply. rewrite Z1. reflexivity. }
    repeat (split; auto). intros i. apply vget_relax; auto.
  Qed.
  (** SeqDILU: v = w z with (D + L_A) D^{-1} (D + U_A) z = d, and this matrix has the diagonal of A. *)
  Theorem C43_dilu n A w v d Dinv : central w -> mat_wf n n A -> diag_stored n A -> length v = n -> length d = n -> seqdilu_construct A = Ok Dinv ->
    exists Dg v' z, inverses n Dg Dinv /\ seqdilu_apply A Dinv w v d = Ok v' /\ (forall i, i < n -> dilu_matrix n A Dg Dinv i i = den A i i) /\
      solves n (dilu_matrix n A Dg Dinv) (vget z) (vget d) /\ (forall i, vget v' i = if wnotid w then w * vget z i else vget z i).
  Proof.
    intros Hw HW HD Hv Hd H. unfold seqdilu_construct in H.
    destruct (C18_dilu inv inv_ok n A (repeat r0 (length A)) HW HD) as [[Di [Dg [D1 [D2 [D3 D4]]]]]|[r [Di [_ [E _]]]]]; [rewrite repeat_length; apply HW| |rewrite E in H; discriminate].
    rewrite D1 in H. injection H as <-. destruct (C18_backsolve n A Dg Di v d HW HD D3 Hv Hd) as [z [Z1 [Z2 Z3]]]. exists Dg, (relax w z), z. unfold seqdilu_apply. rewrite Z1. repeat (split; auto). intros i. apply vget_relax; auto.
  Qed.
End Factorised.

Section SeqIldl.
  Context {R : ring}.
  Open Scope ring_scope_istl.
  Variable inv : R -> option R.
  Variable tr : R -> R.
  Hypothesis inv_ok : forall a b, inv a = Some b -> a * b = r1 /\ b * a = r1.
  Hypothesis tr0 : tr r0 = r0.
  Hypothesis tr1 : tr r1 = r1.
  (** SeqILDL constructor, preconditioners.hh:1031-1068: the row of the factor has the column indices smaller than i and i itself, and its values are copied by
      position from the row of A *)
  Fixpoint ildl_row (i : nat) (row : srow R) : srow R :=
    match row with nil => nil | (c, a) :: t => if c <? i then (c, a) :: ildl_row i t else [(i, a)] end.
  Fixpoint ildl_lower (i : nat) (A : smat R) : smat R := match A with nil => nil | row :: t => ildl_row i row :: ildl_lower (S i) t end.
  Definition seqildl_construct (A : smat R) : outcome (smat R) :=
    if forallb (fun p => match row_find (snd p) (fst p) with Some _ => true | None => false end) (combine (seq 0 (length A)) A)
    then bildl_decompose inv tr (ildl_lower 0 A) else Throw EISTL.
  (** SeqILDL::apply, preconditioners.hh:1075-1079 *)
  Definition seqildl_apply (w : R) (F : smat R) (v d : vec R) : outcome (vec R) := obind (bildl_backsolve tr F v d true) (fun v => Ok (map (fun x => x * w) v)).

  Lemma ildl_lower_nth A k i : nth i (ildl_lower k A) nil = ildl_row (k + i) (nth i A nil).
  Proof.
    revert k i. induction A as [|row t IH]; intros k [|i]; cbn [ildl_lower nth]; try reflexivity.
    - rewrite Nat.add_0_r. reflexivity.
    - rewrite IH. f_equal. lia.
  Qed.
  Lemma ildl_lower_length A k : length (ildl_lower k A) = length A.
  Proof. revert k. induction A; intros k; cbn; auto. Qed.
  Lemma ildl_row_split i lo (a : R) hi : Forall (fun e => fst e < i) lo -> ildl_row i (lo ++ (i, a) :: hi) = lo ++ [(i, a)].
  Proof.
    induction 1 as [|[c b] t H HF IH]; cbn [app ildl_row].
    - destruct (Nat.ltb_spec i i); [lia|reflexivity].
    - cbn [fst] in H. destruct (Nat.ltb_spec c i); [|lia]. rewrite IH. reflexivity.
  Qed.
  Lemma SS_prefix (l1 l2 : list nat) : StronglySorted lt (l1 ++ l2) -> StronglySorted lt l1.
  Proof.
    induction l1 as [|a t IH]; cbn; intros H; [constructor|]. inversion H as [|? ? H1 H2]. constructor; [apply IH; auto|]. apply Forall_app in H2. tauto.
  Qed.
  Lemma ildl_lower_spec n A : mat_wf n n A -> diag_stored n A ->
    let L := ildl_lower 0 A in mat_wf n n L /\ diag_stored n L /\ (forall i j, i < n -> instored L i j <-> instored A i j /\ j <= i) /\
      (forall i j, i < n -> j <= i -> den L i j = den A i j).
  Proof.
    intros HW HD L. subst L.
    assert (ROW : forall i, i < n -> exists lo hi, nth i A nil = lo ++ (i, den A i i) :: hi /\ nth i (ildl_lower 0 A) nil = lo ++ [(i, den A i i)] /\
                  Forall (fun e => fst e < i) lo /\ Forall (fun e => i < fst e) hi).
    { intros i Hi. destruct (wf_split n n A i HW (HD i Hi)) as (lo & hi & E1 & H1 & H2 & _). exists lo, hi. split; auto. split; auto.
      rewrite ildl_lower_nth, E1. cbn [Nat.add]. apply ildl_row_split; auto. }
    assert (ST : forall i j, i < n -> instored (ildl_lower 0 A) i j <-> instored A i j /\ j <= i).
    { intros i j Hi. destruct (ROW i Hi) as (lo & hi & E1 & E2 & H1 & H2). unfold instored. rewrite E1, E2, !map_app. cbn [map fst]. rewrite !in_app_iff. cbn [In].
      rewrite Forall_forall in H1, H2.
      assert (A1 : In j (map fst lo) -> j < i) by (intros H; apply in_map_iff in H; destruct H as [e [<- He]]; auto).
      assert (A2 : In j (map fst hi) -> i < j) by (intros H; apply in_map_iff in H; destruct H as [e [<- He]]; auto).
      split; [intros [H|[H|[]]]; [specialize (A1 H)|]; split; auto; lia|]. intros [[H|[H|H]] HL]; auto. specialize (A2 H). lia. }
    split; [|split; [|split]]; auto.
    - split; [rewrite ildl_lower_length; apply HW|]. apply Forall_forall. intros row HI. destruct (In_nth _ _ nil HI) as [i [Hi Ei]]. rewrite ildl_lower_length, (proj1 HW) in Hi.
      destruct (ROW i Hi) as (lo & hi & E1 & E2 & H1 & H2). rewrite E2 in Ei. subst row. destruct (mat_wf_row n n A i HW) as [W1 W2]. rewrite E1 in W1, W2.
      replace (lo ++ (i, den A i i) :: hi) with ((lo ++ [(i, den A i i)]) ++ hi) in W1, W2 by (rewrite <- app_assoc; reflexivity). rewrite map_app in W1, W2.
      split; [eapply SS_prefix; eauto|]. apply Forall_app in W2. tauto.
    - intros i Hi. apply ST; auto.
    - intros i j Hi Hj. destruct (ROW i Hi) as (lo & hi & E1 & E2 & H1 & H2). unfold den at 1. rewrite E2. change (den A i j) with (denrow (nth i A nil) j). rewrite E1. generalize (den A i i). intros a. clear - H1 H2 Hj.
      induction lo as [|[c b] t IH]; cbn [app denrow].
      + destruct (Nat.eqb_spec i j); auto. clear H1. induction hi as [|[c b] t IH]; cbn [denrow]; auto. inversion H2 as [|? ? P1 P2]. cbn [fst] in P1. destruct (Nat.eqb_spec c j); [lia|]. apply IH; auto.
      + destruct (c =? j); auto. inversion H1. apply IH; auto.
  Qed.
  Lemma row_find_none i (row : srow R) : row_find row i = None <-> ~ In i (map fst row).
  Proof.
    induction row as [|[c a] t IH]; cbn [row_find map fst In]; [tauto|]. destruct (Nat.eqb_spec c i); [subst; split; [discriminate|tauto]|]. rewrite IH. tauto.
  Qed.
  (** SeqILDL: the constructor reports a missing diagonal block, a singular pivot, or yields L, D with (L D L^T)_ij = A_ij on the stored entries of the lower triangle;
      apply gives v = w z with L D L^T z = d. The strict upper triangle of A is never read. *)
  Theorem C43_ildl n A w v d : central w -> mat_wf n n A -> length v = n -> length d = n ->
    (diag_stored n A -> 
       (exists F D v' z, seqildl_construct A = Ok F /\ pivots n F D /\ (forall i j, i < n -> j <= i -> instored A i j -> ldlt tr n F D i j = den A i j) /\
          seqildl_apply w F v d = Ok v' /\ length v' = n /\ solves n (ldlt tr n F D) (vget z) (vget d) /\ (forall i, vget v' i = w * vget z i)) \/
       (exists r, r < n /\ seqildl_construct A = Throw (EBlock r))) /\
    (~ diag_stored n A -> seqildl_construct A = Throw EISTL).
  Proof.
    intros Hw HW Hv Hd. pose proof (proj1 HW) as LA. split; intros HD.
    - destruct (ildl_lower_spec n A HW HD) as (W & DS & ST & DE).
      assert (CK : forallb (fun p => match row_find (snd p) (fst p) with Some _ => true | None => false end) (combine (seq 0 (length A)) A) = true).
      { apply forallb_forall. intros [i row] HI. cbn [fst snd]. destruct (row_find row i) eqn:E; auto. exfalso. apply row_find_none in E. apply E.
        apply In_nth with (d := (0, nil)) in HI. destruct HI as [k [Hk Ek]]. rewrite combine_length, seq_length, Nat.min_id in Hk.
        rewrite combine_nth in Ek by (rewrite seq_length; auto). rewrite seq_nth in Ek by auto. injection Ek as <- <-. cbn [Nat.add]. apply HD. lia. }
      unfold seqildl_construct. rewrite CK. destruct (C19_ildl inv tr tr0 tr1 inv_ok n (ildl_lower 0 A) W DS) as [(F & D & F1 & F2 & F3 & F4 & F5 & F6)|(r & Hr & E)]; [left|right; eauto].
      assert (SP : forall i j, instored (ildl_lower 0 A) i j <-> instored F i j). { intros i j. unfold instored. rewrite <- !(map_nth (map fst)). unfold same_pattern in F3. rewrite F3. tauto. }
      destruct (C19_backsolve tr tr0 tr1 n F D v d true F2) as (z & Z1 & Z2 & Z3); auto.
      { intros i Hi. apply SP. apply DS; auto. }
      { intros _ i j H. apply SP in H. destruct (Nat.lt_ge_cases i n) as [Hi|Hi]; [apply ST in H; tauto|]. unfold instored in H. rewrite nth_overflow in H by (rewrite ildl_lower_length; lia). destruct H. }
      exists F, D, (map (fun x => x * w) z), z. split; auto. split; auto. split.
      { intros i j Hi Hj HS. rewrite <- (DE i j Hi Hj). apply F6; auto. apply ST; auto. }
      split; [unfold seqildl_apply; rewrite Z1; reflexivity|]. split; [rewrite map_length; auto|]. split; auto. intros i. rewrite Hw. unfold vget. rewrite <- (rmul_0_l w) at 1. apply (map_nth (fun x => x * w)).
    - unfold seqildl_construct. match goal with |- (if ?b then _ else _) = _ => destruct b eqn:CK end; auto. exfalso. apply HD. intros i Hi. rewrite forallb_forall in CK.
      specialize (CK (i, nth i A nil)). cbn [fst snd] in CK. destruct (row_find (nth i A nil) i) eqn:E.
      + unfold instored. destruct (in_dec Nat.eq_dec i (map fst (nth i A nil))); auto. apply row_find_none in n0. congruence.
      + enough (false = true) by discriminate. apply CK. replace (i, nth i A nil) with (nth i (combine (seq 0 (length A)) A) (0, nil)).
        * apply nth_In. rewrite combine_length, seq_length. lia.
        * rewrite combine_nth by apply seq_length. rewrite seq_nth by lia. reflexivity.
  Qed.
End SeqIldl.

(** the hypotheses hold for a 3x3 system over the rationals, and for 2x2 matrix blocks in C13_nonvacuous *)
Example C43_nonvacuous : mat_wf 3 3 exS /\ diag_stored 3 exS /\ diag_invertible (R := Qcring) Qcinv_opt 3 exS /\ (forall w : Qcring, central w) /\
  match seqssor_apply (R := Qcring) Qcinv_opt 2 exS (q 1) [q 0; q 0; q 0] [q 1; q 2; q 3] with Ok v => map this v = [91 # 108; -37 # 54; 61 # 18]%Q | _ => False end /\
  match seqildl_construct (R := Qcring) Qcinv_opt (fun x => x) exS with Ok _ => True | _ => False end /\
  match seqilu_construct (R := Qcring) Qcinv_opt exS 1 true with Ok _ => True | _ => False end /\
  match seqdilu_construct (R := Qcring) Qcinv_opt exS with Ok _ => True | _ => False end.
Proof.
  destruct C19_nonvacuous as [H1 [H2 _]]. split; [exact H1|]. split; [exact H2|]. split; [|split; [|split; [|split; [|split]]]].
  - intros i Hi. do 3 (destruct i as [|i]; [eexists; vm_compute; reflexivity|]). lia.
  - intros w x. apply Qcmult_comm.
  - vm_compute. reflexivity.
  - vm_compute. exact I.
  - vm_compute. exact I.
  - vm_compute. exact I.
Qed.
Print Assumptions C43_sweeps_linear.
Print Assumptions C43_ssor.
Print Assumptions C43_ilu.
Print Assumptions C43_dilu.
Print Assumptions C43_ildl.
