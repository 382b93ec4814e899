(** * SeqILU, SeqDILU and SeqILDL are symmetric operators (dune/istl/preconditioners.hh): C56, continued *)
From Coq Require Import Arith List Lia Bool ZArith QArith Qcanon.
From Verif Require Import Ring Sums RingInst Outcome Sparse MatVec GsModel Gs Ilu IluSolve Ilun Dilu Ildl Precond Adjoint.
Import ListNotations.
Open Scope nat_scope.

Section SymPrecond.
  Context {R : ring}.
  Local Open Scope ring_scope_istl.
  Variable inv : R -> option R.
  Hypothesis inv_ok : forall a b, inv a = Some b -> a * b = r1 /\ b * a = r1.
  Variable star : R -> R.
  Hypothesis HS : involution star.
  Variable wnotid : R -> bool.
  (** the pattern is symmetric *)
  Definition sym_pattern (n : nat) (A : smat R) : Prop := forall i j, i < n -> j < n -> instored A i j -> instored A j i.

  (** ** solving with a Hermitian matrix is a Hermitian map *)
  Lemma herm_solves n M z d y e : hermitian star n M -> solves n M z d -> solves n M y e -> inner star n z e = inner star n d y.
  Proof.
    intros HM H1 H2. rewrite (inner_ext star n z e z (dense_mv n M y)) by (auto; intros; symmetry; apply H2; auto).
    rewrite (inner_ext star n z _ z (dense_mv n (ctrans star M) y)); [|auto|intros i Hi; unfold dense_mv; apply sum_ext; intros j Hj; rewrite HM by auto; reflexivity].
    rewrite <- (inner_mv star HS). apply inner_ext; auto.
  Qed.
  Lemma relax_adjoint n w (v y z u d e : nat -> R) : central w -> star w = w -> (forall i, v i = if wnotid w then w * z i else z i) -> (forall i, y i = if wnotid w then w * u i else u i) ->
    inner star n z e = inner star n d u -> inner star n v e = inner star n d y.
  Proof.
    intros Hw Sw H1 H2 H. unfold inner in *. destruct (wnotid w).
    - rewrite (sum_ext n _ (fun i => w * (star (z i) * e i))) by (intros i _; rewrite H1, (star_mul star HS), Sw, <- Hw, rmul_assoc; reflexivity).
      rewrite (sum_ext n (fun i => star (d i) * y i) (fun i => w * (star (d i) * u i))) by (intros i _; rewrite H2, !rmul_assoc, (Hw (star (d i))); reflexivity).
      rewrite !sum_mul_l, H. reflexivity.
    - rewrite (sum_ext n _ (fun i => star (z i) * e i)) by (intros i _; rewrite H1; reflexivity). rewrite (sum_ext n (fun i => star (d i) * y i) (fun i => star (d i) * u i)) by (intros i _; rewrite H2; reflexivity). exact H.
  Qed.
  (** ** Incomplete factors on a pattern are unique *)
  Section Unique.
    Variable n : nat.
    Variable S : nat -> nat -> Prop.
    (** unit lower and upper triangular with entries in the pattern only, invertible diagonal of U *)
    Definition factors (L U : nat -> nat -> R) : Prop :=
      (forall i j, i < n -> j < n -> i < j -> L i j = r0) /\ (forall i, i < n -> L i i = r1) /\ (forall i j, i < n -> j < n -> j < i -> U i j = r0) /\
      (forall i j, i < n -> j < n -> ~ S i j -> L i j = r0 /\ U i j = r0) /\ (forall i, i < n -> exists u, inverse_of (U i i) u).
    Hypothesis Sdec : forall i j, S i j \/ ~ S i j.
    Lemma lu_row L U i j k : factors L U -> i < n -> j < n -> k <= i -> k <= j -> (k = i \/ k = j) -> sum n (fun t => L i t * U t j) = sum k (fun t => L i t * U t j) + L i k * U k j.
    Proof.
      intros (F1 & F2 & F3 & _) Hi Hj H1 H2 HK. replace n with (Datatypes.S k + (n - Datatypes.S k))%nat by lia. rewrite sum_split. cbn [sum].
      rewrite (sum_zero (n - Datatypes.S k)); [ncring|]. intros t Ht. destruct HK as [ -> | -> ]; [rewrite F1 by lia|rewrite F3 by lia]; ncring.
    Qed.
    Lemma factors_unique L U L' U' : factors L U -> factors L' U' -> (forall i j, i < n -> j < n -> S i j -> sum n (fun t => L i t * U t j) = sum n (fun t => L' i t * U' t j)) ->
      (forall i j, i < n -> j < n -> L i j = L' i j) /\ (forall i j, i < n -> j < n -> U i j = U' i j).
    Proof.
      intros HF HF' HE.
      assert (G : forall k, k <= n -> (forall i j, i < n -> j < k -> L i j = L' i j) /\ (forall i j, i < k -> j < n -> U i j = U' i j)).
      { induction k as [|k IH]; intros Hk; [split; intros; lia|]. destruct (IH ltac:(lia)) as [IL IU]. clear IH.
        assert (HP : forall i j, i < n -> j < n -> sum k (fun t => L i t * U t j) = sum k (fun t => L' i t * U' t j)) by (intros i j Hi Hj; apply sum_ext; intros t Ht; rewrite IL, IU by auto; reflexivity).
        assert (EU : forall j, j < n -> U k j = U' k j).
        { intros j Hj. destruct (Nat.lt_ge_cases j k); [destruct HF as (_ & _ & F3 & _); destruct HF' as (_ & _ & F3' & _); rewrite F3, F3' by lia; auto|].
          destruct (Sdec k j) as [Sk|Sk]; [|destruct HF as (_ & _ & _ & F4 & _); destruct HF' as (_ & _ & _ & F4' & _); rewrite (proj2 (F4 k j Hk Hj Sk)), (proj2 (F4' k j Hk Hj Sk)); auto].
          pose proof (HE k j Hk Hj Sk) as E. rewrite (lu_row L U k j k), (lu_row L' U' k j k), HP in E by (auto; lia). apply radd_cancel_l in E.
          destruct HF as (_ & F2 & _); destruct HF' as (_ & F2' & _). rewrite F2, F2', !rmul_1_l in E by auto. exact E. }
        split.
        - intros i j Hi Hj. destruct (Nat.eq_dec j k) as [->|]; [|apply IL; auto; lia]. destruct (Nat.lt_ge_cases i k); [destruct HF as (F1 & _); destruct HF' as (F1' & _); rewrite F1, F1' by lia; auto|].
          destruct (Sdec i k) as [Sk|Sk]; [|destruct HF as (_ & _ & _ & F4 & _); destruct HF' as (_ & _ & _ & F4' & _); rewrite (proj1 (F4 i k Hi Hk Sk)), (proj1 (F4' i k Hi Hk Sk)); auto].
          pose proof (HE i k Hi Hk Sk) as E. rewrite (lu_row L U i k k), (lu_row L' U' i k k), HP in E by (auto; lia). apply radd_cancel_l in E. rewrite (EU k Hk) in E.
          destruct HF' as (_ & _ & _ & _ & F5'). destruct (F5' k Hk) as [u [Hu _]].
          transitivity (L i k * U' k k * u); [rewrite <- rmul_assoc, Hu, rmul_1_r; auto|]. rewrite E, <- rmul_assoc, Hu, rmul_1_r. reflexivity.
        - intros i j Hi Hj. destruct (Nat.eq_dec i k) as [->|]; [apply EU; auto|apply IU; auto; lia]. }
      destruct (G n (le_n n)) as [G1 G2]. split; auto.
    Qed.
  End Unique.
  (** the product of the factors of an incomplete factorization of a Hermitian matrix on a symmetric pattern is Hermitian *)
  Lemma lu_hermitian n (A F : smat R) piv : hermitian star n (den A) -> mat_wf n n F -> diag_stored n F -> sym_pattern n F -> pivots n F piv ->
    (forall i j, i < n -> instored F i j -> sum n (fun k => Lfac F i k * Ufac piv F k j) = den A i j) -> hermitian star n (fun i j => sum n (fun k => Lfac F i k * Ufac piv F k j)).
  Proof.
    intros HA HW HD HP HV HE. set (L := Lfac F). set (U := Ufac piv F).
    set (L' := fun i j => star (U j i) * star (den F j j)). set (U' := fun i j => star (piv i) * star (L j i)).
    assert (Sdec : forall i j, instored F i j \/ ~ instored F i j) by (intros i j; unfold instored; destruct (in_dec Nat.eq_dec j (map fst (nth i F nil))); auto).
    assert (SI : forall a b, inverse_of a b -> inverse_of (star a) (star b)).
    { intros a b [H1 H2]. split; rewrite <- (star_mul star HS); [rewrite H2|rewrite H1]; apply (star_1 star HS). }
    assert (Z : star r0 = r0) by (apply (star_0 star HS)).
    assert (FL : factors n (instored F) L U).
    { unfold L, U, Lfac, Ufac. split; [|split; [|split; [|split]]].
      - intros i j Hi Hj H. destruct (Nat.ltb_spec j i); [lia|]. destruct (Nat.eqb_spec j i); [lia|auto].
      - intros i Hi. rewrite Nat.ltb_irrefl, Nat.eqb_refl. auto.
      - intros i j Hi Hj H. destruct (Nat.ltb_spec i j); [lia|]. destruct (Nat.eqb_spec i j); [lia|auto].
      - intros i j Hi Hj H. assert (E : den F i j = r0) by (apply denrow_notin; auto). assert (i <> j) by (intros ->; apply H; auto).
        destruct (Nat.ltb_spec j i), (Nat.ltb_spec i j), (Nat.eqb_spec i j), (Nat.eqb_spec j i); try lia; auto.
      - intros i Hi. rewrite Nat.ltb_irrefl, Nat.eqb_refl. exists (den F i i). apply HV; auto. }
    assert (FL' : factors n (instored F) L' U').
    { destruct FL as (F1 & F2 & F3 & F4 & F5). unfold L', U'. split; [|split; [|split; [|split]]].
      - intros i j Hi Hj H. rewrite F3 by lia. rewrite Z. apply rmul_0_l.
      - intros i Hi. replace (U i i) with (piv i) by (unfold U, Ufac; rewrite Nat.ltb_irrefl, Nat.eqb_refl; auto). apply (SI _ _ (HV i Hi)).
      - intros i j Hi Hj H. rewrite F1 by lia. rewrite Z. apply rmul_0_r.
      - intros i j Hi Hj H. assert (H' : ~ instored F j i) by (intros H'; apply H, HP; auto). destruct (F4 j i Hj Hi H') as [E1 E2]. rewrite E1, E2, Z. split; ncring.
      - intros i Hi. rewrite F2 by auto. rewrite (star_1 star HS), rmul_1_r. exists (star (den F i i)). apply SI, HV; auto. }
    assert (PR : forall i j, sum n (fun k => L' i k * U' k j) = star (sum n (fun k => L j k * U k i))).
    { intros i j. rewrite (star_sum star HS). apply sum_ext. intros k Hk. rewrite (star_mul star HS). unfold L', U'. destruct (SI _ _ (HV k Hk)) as [_ E].
      rewrite <- rmul_assoc, (rmul_assoc R (star (den F k k))), E, rmul_1_l. reflexivity. }
    destruct (factors_unique n (instored F) Sdec L U L' U' FL FL') as [EL EU].
    { intros i j Hi Hj H. rewrite PR. fold L U in HE. rewrite HE by auto. rewrite HE by (auto; apply HP; auto). apply HA; auto. }
    intros i j Hi Hj. unfold ctrans. rewrite <- PR. apply sum_ext. intros k Hk. rewrite EL, EU by auto. reflexivity.
  Qed.
  Lemma lu_solves n (L U : nat -> nat -> R) (z d : nat -> R) : (forall i, i < n -> sum n (fun k => L i k * sum n (fun j => U k j * z j)) = d i) -> solves n (fun i j => sum n (fun k => L i k * U k j)) z d.
  Proof.
    intros H i Hi. rewrite <- H by auto. unfold dense_mv. rewrite (sum_ext n _ (fun j => sum n (fun k => L i k * U k j * z j))) by (intros; rewrite sum_mul_r; auto).
    rewrite sum_swap. apply sum_ext. intros k Hk. rewrite <- sum_mul_l. apply sum_ext. intros j Hj. symmetry. apply rmul_assoc.
  Qed.
  (** *** SeqILU *)
  Lemma level_sym n (A : smat R) p i j : mat_wf n n A -> sym_pattern n A -> p <= 1 -> i < n -> j < n -> level_at_most A p i j -> level_at_most A p j i.
  Proof.
    intros HW HP Hp Hi Hj (l & Hl & H). assert (RG : forall i j, instored A i j -> i < n /\ j < n).
    { intros a b Hab. unfold instored in Hab. destruct (Nat.lt_ge_cases a n) as [Ha|Ha]; [|rewrite nth_overflow in Hab by (rewrite (proj1 HW); auto); destruct Hab]. split; auto.
      pose proof (mat_wf_row n n A a HW) as [_ W]. rewrite Forall_forall in W. auto. }
    inversion H as [? ? H0|l1 l2 ? k ? K1 K2 H1 H2]; subst; [exists 0%nat; split; [lia|]; apply lev_base, HP; auto|].
    assert (l1 = 0%nat /\ l2 = 0%nat) as [-> ->] by lia. exists 1%nat. split; [lia|]. inversion H1 as [? ? B1|]; subst; inversion H2 as [? ? B2|]; subst.
    apply (lev_step A 0 0 j k i); auto; apply lev_base, HP; auto; apply (RG _ _ B1) || apply (RG _ _ B2) || auto.
  Qed.
  Lemma seqilu_factor n A p resort s : mat_wf n n A -> diag_stored n A -> sym_pattern n A -> p <= 1 -> seqilu_construct inv A p resort = Ok s ->
    exists F piv, (if p =? 0 then blockILU0Decomposition inv A else blockILUDecomposition inv A p) = Ok F /\ mat_wf n n F /\ diag_stored n F /\ sym_pattern n F /\ pivots n F piv /\
      (forall i j, i < n -> instored F i j -> sum n (fun k => Lfac F i k * Ufac piv F k j) = den A i j) /\
      (if resort then obind (convertToCRS F crs_new crs_new nil) (fun r => let '(l, u, iv) := r in Ok (InCrs l u iv)) else Ok (InMatrix F)) = Ok s.
  Proof.
    intros HW HD HP Hp H. unfold seqilu_construct in H. destruct (p =? 0) eqn:EP.
    - destruct (C15_ilu0 inv inv_ok n A HW HD) as [[F [F1 [F2 [F3 [piv [F4 F5]]]]]]|[r [E _]]]; [|rewrite E in H; discriminate]. exists F, piv. rewrite F1 in H. cbn [obind] in H.
      assert (SP : forall i j, instored A i j <-> instored F i j). { intros i j. unfold instored. rewrite <- !(map_nth (map fst)). unfold same_pattern in F3. rewrite F3. tauto. }
      split; auto. split; auto. split; [intros i Hi; apply SP, HD; auto|]. split; [intros i j Hi Hj HI; apply SP, HP; auto; apply SP; auto|]. split; auto. split; auto. intros i j Hi Hs. apply F5; auto. apply SP; auto.
    - destruct (C16_ilun inv inv_ok p n A HW HD) as [[F [piv [F1 [F2 [F3 [_ [F4 F5]]]]]]]|[r [_ E]]]; [|rewrite E in H; discriminate]. exists F, piv. rewrite F1 in H. cbn [obind] in H.
      assert (p = 1%nat) as -> by (apply Nat.eqb_neq in EP; lia). destruct (C16_low_levels inv inv_ok 1 n A F HW HD F1) as [_ HL]. specialize (HL eq_refl).
      split; auto. split; auto. split; [intros i Hi; apply F3; auto|]. split; [|auto]. intros i j Hi Hj HI. apply HL; auto. apply (level_sym n); auto. apply HL; auto.
  Qed.
  (** SeqILU with n = 0 and n = 1, with and without resort: Hermitian for a Hermitian matrix with symmetric pattern *)
  Theorem C56_ilu n A p resort w v0 s : central w -> star w = w -> 0 < n -> mat_wf n n A -> diag_stored n A -> hermitian star n (den A) -> sym_pattern n A -> p <= 1 -> length v0 = n ->
    seqilu_construct inv A p resort = Ok s -> is_adjoint star n (seqilu_apply wnotid w s v0) (seqilu_apply wnotid w s v0).
  Proof.
    intros Hw Sw Hn HW HD HA HP Hp Hv H d e Hd He. destruct (seqilu_factor n A p resort s HW HD HP Hp H) as (F & piv & F1 & F2 & F3 & F4 & F5 & F6 & F7).
    assert (AP : forall d, length d = n -> exists v' z, seqilu_apply wnotid w s v0 d = Ok v' /\ length v' = n /\ solves n (fun i j => sum n (fun k => Lfac F i k * Ufac piv F k j)) (vget z) (vget d) /\
                   (forall i, vget v' i = if wnotid w then w * vget z i else vget z i)).
    { intros c Hc. destruct (C17_backsolve n F piv v0 c F2 F3 F5 Hv Hc) as [z [Z1 [Z2 Z3]]]. exists (relax wnotid w z), z. split.
      { destruct resort.
        - destruct (C17_crs_agrees n F nil v0 c Hn F2 F3 Hv Hc) as [l [u [iv [C1 C2]]]]. rewrite C1 in F7. cbn [obind] in F7. injection F7 as <-. unfold seqilu_apply. rewrite C2, Z1. reflexivity.
        - injection F7 as <-. unfold seqilu_apply. rewrite Z1. reflexivity. }
      split; [unfold relax; destruct (wnotid w); rewrite ?map_length; auto|]. split; [apply lu_solves; auto|]. intros i. apply vget_relax; auto. }
    destruct (AP d Hd) as (x & z & X1 & X2 & X3 & X4). destruct (AP e He) as (y & u & Y1 & Y2 & Y3 & Y4). exists x, y. repeat (split; auto).
    apply (relax_adjoint n w _ _ (vget z) (vget u)); auto. apply (herm_solves n (fun i j => sum n (fun k => Lfac F i k * Ufac piv F k j))); auto. apply (lu_hermitian n A); auto.
  Qed.
  (** *** SeqDILU *)
  Lemma dilu_entry n (A : smat R) Dg Dinv i j : i < n -> j < n -> inverses n Dg Dinv ->
    dilu_matrix n A Dg Dinv i j = ind (j =? i) (Dg i) + Up A i j + Lp A i j + sum n (fun k => Lp A i k * vget Dinv k * Up A k j).
  Proof.
    intros Hi Hj HI. unfold dilu_matrix.
    rewrite (sum_ext n _ (fun k => ind (k =? i) (ind (j =? i) (Dg i) + Up A i j) + (ind (k =? j) (Lp A i j) + Lp A i k * vget Dinv k * Up A k j))).
    - rewrite !sum_add. rewrite (sum_single n i) by (first [assumption|intros x _ Hx; unfold ind; destruct (Nat.eqb_spec x i); [congruence|auto]]).
      rewrite (sum_single n j) by (first [assumption|intros x _ Hx; unfold ind; destruct (Nat.eqb_spec x j); [congruence|auto]]). rewrite !Nat.eqb_refl. cbn [ind]. ncring.
    - intros k Hk. destruct (HI k Hk) as [E1 E2]. unfold ind.
      assert (ZL : Lp A k k = r0) by (unfold Lp; rewrite Nat.ltb_irrefl; auto). assert (ZU : Up A k k = r0) by (unfold Up; rewrite Nat.ltb_irrefl; auto).
      destruct (Nat.eqb_spec k i) as [E3|N1]; destruct (Nat.eqb_spec j k) as [E4|N2].
      + rewrite <- E3, E4 in *. rewrite !Nat.eqb_refl. rewrite ZL, ZU. transitivity (Dg k * vget Dinv k * Dg k); [ncring|]. rewrite E1. ncring.
      + rewrite <- E3 in *. rewrite ZL. rewrite (proj2 (Nat.eqb_neq j k)) by auto. rewrite (proj2 (Nat.eqb_neq k j)) by auto. transitivity (Dg k * vget Dinv k * Up A k j); [ncring|]. rewrite E1. ncring.
      + rewrite E4 in *. rewrite !Nat.eqb_refl. rewrite ZU. transitivity (Lp A i k * (vget Dinv k * Dg k)); [ncring|]. rewrite E2. ncring.
      + rewrite (proj2 (Nat.eqb_neq k j)) by auto. ncring.
  Qed.
  Lemma up_star n (A : smat R) i j : hermitian star n (den A) -> i < n -> j < n -> star (Lp A i j) = Up A j i /\ star (Up A i j) = Lp A j i.
  Proof.
    intros HA Hi Hj. unfold Lp, Up. split.
    - destruct (j <? i); [symmetry; apply HA; auto|apply (star_0 star HS)].
    - destruct (i <? j); [symmetry; apply HA; auto|apply (star_0 star HS)].
  Qed.
  Lemma inverse_unique (a b c : R) : inverse_of a b -> inverse_of a c -> b = c.
  Proof. intros [H1 H2] [H3 H4]. transitivity (b * (a * c)); [rewrite H3, rmul_1_r; auto|]. rewrite rmul_assoc, H2, rmul_1_l. reflexivity. Qed.
  Lemma dilu_hermitian n (A : smat R) Dg Dinv : hermitian star n (den A) -> inverses n Dg Dinv -> (forall i, i < n -> dilu_matrix n A Dg Dinv i i = den A i i) -> hermitian star n (dilu_matrix n A Dg Dinv).
  Proof.
    intros HA HI HE.
    assert (DH : forall i, i < n -> star (Dg i) = Dg i /\ star (vget Dinv i) = vget Dinv i).
    { induction i as [i IH] using lt_wf_ind. intros Hi.
      assert (E : Dg i = den A i i - sum n (fun k => Lp A i k * vget Dinv k * Up A k i)).
      { rewrite <- (HE i Hi), dilu_entry by auto. rewrite Nat.eqb_refl. assert (Z : Lp A i i = r0) by (unfold Lp; rewrite Nat.ltb_irrefl; auto). assert (Z' : Up A i i = r0) by (unfold Up; rewrite Nat.ltb_irrefl; auto).
        rewrite Z, Z'. cbn [ind]. ncring. }
      assert (SDi : star (Dg i) = Dg i).
      { rewrite E. rewrite (star_sub star HS), (star_sum star HS). f_equal; [symmetry; apply HA; auto|]. apply sum_ext. intros k Hk. destruct (Nat.lt_ge_cases k i) as [H|H].
        - rewrite !(star_mul star HS). rewrite (proj2 (IH k H Hk)). rewrite (proj1 (up_star n A i k HA Hi Hk)), (proj2 (up_star n A k i HA Hk Hi)). apply rmul_assoc.
        - assert (Z : Lp A i k = r0) by (unfold Lp; destruct (Nat.ltb_spec k i); [lia|auto]). rewrite Z, !rmul_0_l. apply (star_0 star HS). }
      split; auto. apply (inverse_unique (Dg i)); [|apply HI; auto]. rewrite <- SDi at 1. destruct (HI i Hi) as [H1 H2]. split; rewrite <- (star_mul star HS); [rewrite H2|rewrite H1]; apply (star_1 star HS). }
    intros i j Hi Hj. unfold ctrans. rewrite !dilu_entry by auto. rewrite !(star_add star HS), (star_sum star HS).
    rewrite (proj1 (up_star n A j i HA Hj Hi)), (proj2 (up_star n A j i HA Hj Hi)).
    assert (ED : star (ind (i =? j) (Dg j)) = ind (j =? i) (Dg i)). { rewrite (Nat.eqb_sym i j). unfold ind. destruct (Nat.eqb_spec j i) as [->|]; [apply DH; auto|apply (star_0 star HS)]. }
    rewrite ED. rewrite (sum_ext n (fun k => star (Lp A j k * vget Dinv k * Up A k i)) (fun k => Lp A i k * vget Dinv k * Up A k j)); [ncring|].
    intros k Hk. rewrite !(star_mul star HS), (proj2 (DH k Hk)), (proj1 (up_star n A j k HA Hj Hk)), (proj2 (up_star n A k i HA Hk Hi)). apply rmul_assoc.
  Qed.
  Theorem C56_dilu n (A : smat R) w v0 Dinv : central w -> star w = w -> mat_wf n n A -> diag_stored n A -> hermitian star n (den A) -> length v0 = n -> seqdilu_construct inv A = Ok Dinv ->
    is_adjoint star n (seqdilu_apply wnotid A Dinv w v0) (seqdilu_apply wnotid A Dinv w v0).
  Proof.
    intros Hw Sw HW HD HA Hv H d e Hd He. unfold seqdilu_construct in H.
    destruct (C18_dilu inv inv_ok n A (repeat r0 (length A)) HW HD) as [[Di [Dg [D1 [D2 [D3 D4]]]]]|[r [Di [_ [E _]]]]]; [rewrite repeat_length; apply HW| |rewrite E in H; discriminate].
    rewrite D1 in H. injection H as <-.
    destruct (C18_backsolve n A Dg Di v0 d HW HD D3 Hv Hd) as [z [Z1 [Z2 Z3]]]. destruct (C18_backsolve n A Dg Di v0 e HW HD D3 Hv He) as [u [U1 [U2 U3]]].
    exists (relax wnotid w z), (relax wnotid w u). unfold seqdilu_apply. rewrite Z1, U1. cbn [obind]. assert (LR : forall x : vec R, length (relax wnotid w x) = length x) by (intros; unfold relax; destruct (wnotid w); rewrite ?map_length; auto).
    split; auto. split; auto. split; [rewrite LR; auto|]. split; [rewrite LR; auto|].
    apply (relax_adjoint n w _ _ (vget z) (vget u)); auto; [intros; apply vget_relax; auto|intros; apply vget_relax; auto|]. apply (herm_solves n (dilu_matrix n A Dg Di)); auto. apply dilu_hermitian; auto.
  Qed.
  (** *** SeqILDL *)
  Lemma den_oob n m (A : smat R) : mat_wf n m A -> forall i j, n <= i \/ m <= j -> den A i j = r0.
  Proof.
    intros HW i j H. destruct (Nat.lt_ge_cases i n) as [Hi|Hi].
    - apply (denrow_big m); [apply Forall_nth; [apply HW|rewrite (proj1 HW); auto]|lia].
    - unfold den. rewrite nth_overflow by (rewrite (proj1 HW); auto). reflexivity.
  Qed.
  Theorem C56_ildl n (A F : smat R) w v0 : central w -> star w = w -> mat_wf n n A -> diag_stored n A -> hermitian star n (den A) -> length v0 = n -> seqildl_construct inv star A = Ok F ->
    is_adjoint star n (seqildl_apply star w F v0) (seqildl_apply star w F v0).
  Proof.
    intros Hw Sw HW HD HA Hv H d e Hd He.
    assert (HT : forall i j, den A j i = star (den A i j)).
    { intros i j. destruct (Nat.lt_ge_cases i n) as [Hi|Hi]; [destruct (Nat.lt_ge_cases j n) as [Hj|Hj]|].
      - apply HA; auto.
      - rewrite (den_oob n n A HW j i), (den_oob n n A HW i j) by auto. symmetry. apply (star_0 star HS).
      - rewrite (den_oob n n A HW j i), (den_oob n n A HW i j) by auto. symmetry. apply (star_0 star HS). }
    destruct (C43_ildl inv star inv_ok (star_0 star HS) (star_1 star HS) n A w v0 d Hw HW Hv Hd) as [C1 _]. destruct (C1 HD) as [(F1 & D & x & z & X1 & X2 & X3 & X4 & X5 & X6 & X7)|[r [_ E]]]; [|congruence].
    destruct (C43_ildl inv star inv_ok (star_0 star HS) (star_1 star HS) n A w v0 e Hw HW Hv He) as [C2 _]. destruct (C2 HD) as [(F2 & D2 & y & u & Y1 & Y2 & Y3 & Y4 & Y5 & Y6 & Y7)|[r [_ E]]]; [|congruence].
    assert (F1 = F) by congruence. assert (F2 = F) by congruence. subst F1 F2.
    destruct HS as (S1 & S2 & S3).
    destruct (C19_ildl_symmetric star (star_0 star HS) (star_1 star HS) S1 S2 S3 n A F D HW HD HT X2 X3) as [SD _].
    exists x, y. repeat (split; auto). unfold inner.
    assert (DD : forall i, i < n -> D2 i = D i). { intros i Hi. destruct (X2 i Hi) as [A1 A2]. destruct (Y2 i Hi) as [B1 B2]. transitivity (D2 i * (den F i i * D i)); [rewrite A2, rmul_1_r; auto|]. rewrite rmul_assoc, B1, rmul_1_l. reflexivity. }
    assert (HM : hermitian star n (ldlt star n F D)).
    { intros i j Hi Hj. unfold ctrans, ldlt. rewrite (star_sum star HS). apply sum_ext. intros k Hk. rewrite !S2, S3, SD by auto. apply eq_sym, rmul_assoc. }
    assert (S : inner star n (vget z) (vget e) = inner star n (vget d) (vget u)).
    { apply (herm_solves n (ldlt star n F D)); auto. intros i Hi. rewrite <- (Y6 i Hi). unfold dense_mv. apply sum_ext. intros j Hj. f_equal. unfold ldlt. apply sum_ext. intros k Hk. rewrite DD by auto. reflexivity. }
    unfold inner in S.
    rewrite (sum_ext n _ (fun i => w * (star (vget z i) * vget e i))) by (intros i _; rewrite X7, (star_mul star HS), Sw, <- Hw, rmul_assoc; reflexivity).
    rewrite (sum_ext n (fun i => star (vget d i) * vget y i) (fun i => w * (star (vget d i) * vget u i))) by (intros i _; rewrite Y7, !rmul_assoc, (Hw (star (vget d i))); reflexivity).
    rewrite !sum_mul_l, S. reflexivity.
  Qed.
End SymPrecond.

(** ** SeqILU with n >= 2 is not symmetric, even for a symmetric matrix with a symmetric pattern: blockILUDecomposition builds the pattern row by row from the generations found
    so far, and the fill-in entry (4,3) is stored while (3,4) is not *)
Definition exILU2 : smat Qcring :=
  [[(0, q 4); (1, q (-1)); (4, q (-1))]; [(0, q (-1)); (1, q 4); (2, q (-1))]; [(1, q (-1)); (2, q 4); (3, q (-1))]; [(2, q (-1)); (3, q 4)]; [(0, q (-1)); (4, q 4)]].
Definition idstar (a : Qcring) : Qcring := a.
Lemma idstar_involution : involution idstar.
Proof. split; [|split]; intros; unfold idstar; auto. apply Qcmult_comm. Qed.
Definition okval {T} (d : T) (o : outcome T) : T := match o with Ok v => v | _ => d end.
Definition isok {T} (o : outcome T) : bool := match o with Ok _ => true | _ => false end.
Lemma isok_val {T} (d : T) o : isok o = true -> o = Ok (okval d o).
Proof. destruct o; cbn; congruence. Qed.
Definition stILU2 : @ilu_store Qcring := okval (InMatrix nil) (seqilu_construct (R := Qcring) Qcinv_opt exILU2 2 false).
Definition apILU2 (d : vec Qcring) : outcome (vec Qcring) := seqilu_apply (R := Qcring) (fun _ => false) (q 1) stILU2 (repeat (q 0) 5) d.
Definition e3 : vec Qcring := [q 0; q 0; q 0; q 1; q 0].
Definition e4 : vec Qcring := [q 0; q 0; q 0; q 0; q 1].
Theorem C56_ilu2_refuted : exists (A : smat Qcring) (s : @ilu_store Qcring), mat_wf 5 5 A /\ diag_stored 5 A /\ hermitian idstar 5 (den A) /\ sym_pattern 5 A /\
  seqilu_construct (R := Qcring) Qcinv_opt A 2 false = Ok s /\ ~ is_adjoint idstar 5 (seqilu_apply (R := Qcring) (fun _ => false) (q 1) s (repeat (q 0) 5)) (seqilu_apply (R := Qcring) (fun _ => false) (q 1) s (repeat (q 0) 5)).
Proof.
  exists exILU2, stILU2. split; [|split; [|split; [|split; [|split]]]].
  - split; [reflexivity|]. repeat (constructor; [split; cbn [map fst]; repeat constructor; lia|]); constructor.
  - intros i Hi. do 5 (destruct i as [|i]; [cbn; tauto|]). lia.
  - intros i j Hi Hj. do 5 (destruct i as [|i]; [do 5 (destruct j as [|j]; [reflexivity|]); lia|]). lia.
  - intros i j Hi Hj. unfold instored, exILU2. do 5 (destruct i as [|i]; [do 5 (destruct j as [|j]; [cbn; lia || tauto|]); lia|]). lia.
  - apply isok_val. vm_compute. reflexivity.
  - intros H. destruct (H e4 e3 eq_refl eq_refl) as (x & y & X & Y & _ & _ & E).
    change (apILU2 e4 = Ok x) in X. change (apILU2 e3 = Ok y) in Y.
    assert (EX : x = okval nil (apILU2 e4)) by (rewrite X; reflexivity). assert (EY : y = okval nil (apILU2 e3)) by (rewrite Y; reflexivity).
    rewrite EX, EY in E. clear -E. apply (f_equal this) in E. revert E. 
    assert (N : Qeq_bool (this (inner idstar 5 (vget (okval nil (apILU2 e4))) (vget e3))) (this (inner idstar 5 (vget e4) (vget (okval nil (apILU2 e3))))) = false) by (vm_compute; reflexivity).
    intros E. rewrite E in N. rewrite Qeq_bool_refl in N. discriminate N.
Qed.
(** the hypotheses of the positive theorems hold for a symmetric matrix over the rationals, whose SSOR, ILU(0), DILU and ILDL preconditioners are not diagonal *)
Example C56_nonvacuous : mat_wf 5 5 exILU2 /\ diag_stored 5 exILU2 /\ diag_invertible (R := Qcring) Qcinv_opt 5 exILU2 /\ hermitian idstar 5 (den exILU2) /\ sym_pattern 5 exILU2 /\
  (forall w : Qcring, central w) /\ (forall a b : Qcring, @rmul Qcring (q 2) a = @rmul Qcring (q 2) b -> a = b) /\
  match seqilu_construct (R := Qcring) Qcinv_opt exILU2 0 true with Ok _ => True | _ => False end /\
  match seqdilu_construct (R := Qcring) Qcinv_opt exILU2 with Ok _ => True | _ => False end /\
  match seqildl_construct (R := Qcring) Qcinv_opt idstar exILU2 with Ok _ => True | _ => False end.
Proof.
  split; [split; [reflexivity|]; repeat (constructor; [split; cbn [map fst]; repeat constructor; lia|]); constructor|].
  split; [intros i Hi; do 5 (destruct i as [|i]; [cbn; tauto|]); lia|]. split; [intros i Hi; do 5 (destruct i as [|i]; [eexists; vm_compute; reflexivity|]); lia|].
  split; [intros i j Hi Hj; do 5 (destruct i as [|i]; [do 5 (destruct j as [|j]; [reflexivity|]); lia|]); lia|].
  split; [intros i j Hi Hj; unfold instored, exILU2; do 5 (destruct i as [|i]; [do 5 (destruct j as [|j]; [cbn; lia || tauto|]); lia|]); lia|].
  split; [intros w x; apply Qcmult_comm|]. split; [intros a b H; apply (f_equal (fun x : Qc => (/ q 2 * x)%Qc)) in H; change ((/ q 2 * (q 2 * a))%Qc = (/ q 2 * (q 2 * b))%Qc) in H; rewrite !Qcmult_assoc, !(Qcmult_comm (/ q 2)) in H; rewrite Qcmult_inv_r in H by (intros E; discriminate E); rewrite !Qcmult_1_l in H; exact H|].
  split; [vm_compute; exact I|]. split; vm_compute; exact I.
Qed.
Print Assumptions C56_ilu.
Print Assumptions C56_dilu.
Print Assumptions C56_ildl.
Print Assumptions C56_ilu2_refuted.
Print Assumptions C56_symmetric.
