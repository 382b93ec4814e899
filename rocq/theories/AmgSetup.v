(** * Building the AMG hierarchy: MatrixHierarchy::build, recalculateGalerkin, coarsenVector, getCoarsestAggregatesOnFinest and the
    destructor (dune/istl/paamg/matrixhierarchy.hh:401-966), sequential case, C59 *)
From Coq Require Import Arith List Lia Bool Sorted ZArith Permutation QArith Qpower.
From Verif Require Import Ring Sums RingInst Outcome Sparse AmgTransfer Bfs AggPattern Aggregation Amg.
Import ListNotations.
Open Scope nat_scope.
Open Scope list_scope.

Section Setup.
  Context {R : ring}.
  Local Open Scope ring_scope_istl.
  (** Outcome of buildDependency (aggregates.hh:1813-1868) for the matrix of a level; it may depend on the level (the finest level treats
      Dirichlet rows differently).  Arbitrary. *)
  Variables depends influences : nat -> smat R -> nat -> nat -> bool.
  Variables isolated excludedBorder : nat -> smat R -> nat -> bool.
  (** parameters of the coarsening criterion (paamg/parameters.hh) *)
  Variables (minAggregateSize maxAggregateSize maxDistance maxConnectivity : nat) (skipIsolated : bool).
  Variable D : Type.
  Variables (quot : Z -> Z -> D) (dminus1 : D) (deq dgt : D -> D -> bool).
  Variables (maxLevel coarsenTarget : nat) (minCoarsenRate : Q).

  (** One level that has a coarser one: matrix and aggregates map *)
  Definition mlevel : Type := (smat R * (nat -> aggd))%type.
  (** buildAggregates for the graph of the matrix, matrixhierarchy.hh:503-516 *)
  Definition aggregate (level : nat) (A : smat R) : outcome (option ((nat -> aggd) * (nat * nat * nat * nat))) :=
    buildAggregates (matrix_graph A) (depends level A) (influences level A) (isolated level A) (excludedBorder level A)
      minAggregateSize maxAggregateSize maxDistance maxConnectivity skipIsolated D quot dminus1 deq dgt (length A).
  (** dunknowns/dgnoAggregates < minCoarsenRate, matrixhierarchy.hh:573 (exact quotient instead of double; no aggregates > 0) *)
  Definition rate_breakdown (n K : nat) : bool := negb (Qle_bool (minCoarsenRate * inject_Z (Z.of_nat K)) (inject_Z (Z.of_nat n))).
  (** The loop over the levels, matrixhierarchy.hh:434-676: [k] more levels are allowed.  Result: the levels built and the coarsest matrix.
      Sequential: no accumulation (communicator size 1), the number of unknowns is the number of rows, the coarsened index set is the
      number of aggregates (indicescoarsener.hh:396-406), nothing is published (globalaggregates.hh:220-250). *)
  Fixpoint build_loop (k level : nat) (A : smat R) : outcome (option (list mlevel * smat R)) :=
    match k with
    | 0 => Ok (Some ([], A))
    | S k =>
      if length A <=? coarsenTarget then Ok (Some ([], A)) else
      obind (aggregate level A) (fun o =>
      match o with
      | None => Ok None
      | Some (agg, (K, _, _, _)) =>
        if (K =? 0) || rate_breakdown (length A) K then Ok (Some ([], A)) else
        obind (galerkin agg A (length A) K) (fun oc =>
        match oc with
        | None => Ok None
        | Some C => obind (build_loop k (S level) C) (fun r =>
                    Ok (option_map (fun h => ((A, agg) :: fst h, snd h)) r))
        end)
      end)
    end.
  (** MatrixHierarchy::build, matrixhierarchy.hh:403-730 *)
  Definition build (A : smat R) : outcome (option (list mlevel * smat R)) := build_loop maxLevel 0 A.

  (** recalculateGalerkin, matrixhierarchy.hh:897-936, after the finest matrix has got the values of [A]: the coarse matrices keep their
      patterns and get new values *)
  Definition next (ls : list mlevel) (C : smat R) : smat R := match ls with [] => C | l :: _ => fst l end.
  Fixpoint recalculate (A : smat R) (ls : list mlevel) (C : smat R) {struct ls} : outcome (list mlevel * smat R) :=
    match ls with
    | [] => Ok ([], A)
    | (_, agg) :: ls' =>
      obind (calculate agg A (next ls' C)) (fun B =>
      obind (recalculate B ls' C) (fun r => Ok ((A, agg) :: fst r, snd r)))
    end.

  (** ** Specification *)
  (** [B] is the Galerkin product P^T A P of the piecewise constant prolongation, with exactly the pattern that it needs *)
  Definition galerkin_product (A : smat R) (agg : nat -> aggd) (B : smat R) : Prop :=
    mat_wf (length A) (length A) A /\ mat_wf (length B) (length B) B /\ agg_ok agg (length A) (length B) /\
    (forall I J, I < length B -> (instored B I J <-> I = J \/ exists r c, r < length A /\ c < length A /\ instored A r c /\ agg r = Agg I /\ agg c = Agg J)) /\
    forall I J, den B I J = sum (length A) (fun r => sum (length A) (fun c => prol agg r I * (den A r c * prol agg c J))).
  Fixpoint hierarchy_of (ls : list mlevel) (C : smat R) : Prop :=
    match ls with
    | [] => True
    | (A, agg) :: ls' => galerkin_product A agg (next ls' C) /\ hierarchy_of ls' C
    end.
  (** every coarse unknown stands for at least one fine one *)
  Fixpoint covers (ls : list mlevel) (C : smat R) : Prop :=
    match ls with
    | [] => True
    | (A, agg) :: ls' => (forall k, k < length (next ls' C) -> exists i, i < length A /\ agg i = Agg k) /\ covers ls' C
    end.
  Definition sym_pat (A : smat R) : Prop := forall i j, i < length A -> instored A i j -> instored A j i.

  Lemma instored_lt n (A : smat R) i j : mat_wf n n A -> instored A i j -> i < n /\ j < n.
  Proof.
    intros HA H. unfold instored in H. split.
    - destruct (Nat.lt_ge_cases i n); auto. rewrite nth_overflow in H by (rewrite (proj1 HA); auto). destruct H.
    - destruct (mat_wf_row n n A i HA) as [_ F]. rewrite Forall_forall in F. apply F, H.
  Qed.
  Lemma galerkin_sym_pat A agg B : galerkin_product A agg B -> sym_pat A -> sym_pat B.
  Proof.
    intros (HA & HB & HG & HP & _) S I J HI H. apply HP in H; [|exact HI].
    destruct H as [->|(r & c & Hr & Hc & H & E1 & E2)].
    - apply HP; auto.
    - assert (HJ : J < length B). { destruct (HG c Hc) as [K|(k & Hk & K)]; congruence. }
      apply HP; [exact HJ|]. right. exists c, r. repeat (split; auto).
  Qed.
  Lemma galerkin_sym A agg B : galerkin_product A agg B -> sym (length A) A -> sym (length B) B.
  Proof.
    intros (HA & HB & HG & HP & HD) S I J HI HJ. rewrite !HD, sum_swap. apply sum_ext. intros c Hc. apply sum_ext. intros r Hr.
    rewrite (S r c Hr Hc). unfold prol. destruct (agg r) as [| |k], (agg c) as [| |k']; try ncring;
      destruct (k =? I), (k' =? J); ncring.
  Qed.

  (** ** C59: the hierarchy *)
  Definition stops (l : nat) (C : smat R) : Prop :=
    l = maxLevel \/ length C <= coarsenTarget \/
    exists agg K iso one skip, aggregate l C = Ok (Some (agg, (K, iso, one, skip))) /\
      (K = 0 \/ (inject_Z (Z.of_nat (length C)) < minCoarsenRate * inject_Z (Z.of_nat K))%Q).
  Lemma rate_spec n K : rate_breakdown n K = false <-> (minCoarsenRate * inject_Z (Z.of_nat K) <= inject_Z (Z.of_nat n))%Q.
  Proof. unfold rate_breakdown. rewrite negb_false_iff. apply Qle_bool_iff. Qed.
  (** every coarsening step reduces the number of unknowns by at least the coarsening rate; every level but the coarsest is above the target *)
  Fixpoint shrinks (ls : list mlevel) (C : smat R) : Prop :=
    match ls with
    | [] => True
    | (A, _) :: ls' =>
      coarsenTarget < length A /\ 0 < length (next ls' C) /\
      (minCoarsenRate * inject_Z (Z.of_nat (length (next ls' C))) <= inject_Z (Z.of_nat (length A)))%Q /\ shrinks ls' C
    end.

  Hypothesis sizes : minAggregateSize <= maxAggregateSize.
  Hypothesis sizes1 : 1 <= maxAggregateSize.

  Lemma build_loop_ok k : forall (level : nat) (A : smat R), (level + k = maxLevel)%nat -> mat_wf (length A) (length A) A -> sym_pat A ->
    exists ls C, build_loop k level A = Ok (Some (ls, C)) /\ next ls C = A /\ (level + length ls <= maxLevel)%nat /\
      hierarchy_of ls C /\ shrinks ls C /\ stops (level + length ls)%nat C /\ mat_wf (length C) (length C) C /\ sym_pat C /\ covers ls C.
  Proof.
    induction k as [|k IH]; intros level A Hk HA HS; cbn [build_loop].
    - exists [], A. cbn [next length hierarchy_of shrinks covers]. repeat (split; [solve [auto | lia]|]). split; [left; lia | auto].
    - destruct (Nat.leb_spec (length A) coarsenTarget) as [Ht|Ht].
      { exists [], A. cbn [next length hierarchy_of shrinks covers]. rewrite Nat.add_0_r. repeat (split; [solve [auto | lia]|]). split; [right; left; exact Ht | auto]. }
      destruct (C47_coarsen (depends level A) (influences level A) (isolated level A) (excludedBorder level A) minAggregateSize maxAggregateSize
                  maxDistance maxConnectivity skipIsolated D quot dminus1 deq dgt A (length A) HA HS sizes sizes1)
        as (agg & K & iso & one & skip & C & E & AO & G & W & P & DD & ON).
      fold (aggregate level A) in E. rewrite E. cbn [obind].
      assert (ST : stops (level + 0)%nat A \/ (K <> 0 /\ rate_breakdown (length A) K = false)).
      { destruct (Nat.eq_dec K 0) as [K0|K0].
        - left. right. right. exists agg, K, iso, one, skip. rewrite Nat.add_0_r. auto.
        - destruct (rate_breakdown (length A) K) eqn:ER; [left|right; auto].
          right. right. exists agg, K, iso, one, skip. rewrite Nat.add_0_r. split; [exact E|]. right.
          unfold rate_breakdown in ER. rewrite negb_true_iff in ER. apply Qnot_le_lt. intros Q. apply Qle_bool_iff in Q. congruence. }
      destruct ((K =? 0) || rate_breakdown (length A) K) eqn:EB.
      + exists [], A. cbn [next length hierarchy_of shrinks covers]. repeat (split; [solve [auto | lia]|]).
        split; [|auto]. destruct ST as [ST|[K0 ER]]; [exact ST|]. rewrite ER in EB. apply orb_true_iff in EB.
        destruct EB as [EB|EB]; [|discriminate]. apply Nat.eqb_eq in EB. congruence.
      + apply orb_false_iff in EB. destruct EB as [K0 ER]. apply Nat.eqb_neq in K0.
        rewrite G. cbn [obind].
        assert (LC : length C = K) by apply W.
        assert (GP : galerkin_product A agg C).
        { unfold galerkin_product. rewrite LC. auto. }
        destruct (IH (S level) C) as (ls & C' & E2 & N & L & H & Sh & St & W' & S' & Cv).
        { lia. } { rewrite LC. exact W. } { apply (galerkin_sym_pat A agg C GP HS). }
        rewrite E2. cbn [obind option_map]. exists ((A, agg) :: ls), C'. cbn [fst snd next length hierarchy_of shrinks covers].
        split; [reflexivity|]. split; [reflexivity|]. split; [lia|]. split; [rewrite N; auto|]. split.
        * rewrite N, LC. split; [exact Ht|]. split; [lia|]. split; [|exact Sh]. apply rate_spec, ER.
        * replace (level + S (length ls))%nat with (S level + length ls)%nat by lia. split; [exact St|]. split; [exact W'|]. split; [exact S'|]. rewrite N, LC. auto.
  Qed.

  (** For every square matrix with a symmetric pattern, whatever the strength of the connections: the setup ends, the finest matrix is the
      given one, there are at most maxLevel coarsenings, every coarse matrix is the Galerkin product of the finer one, every step reduces the
      unknowns by at least the coarsening rate, it stops only for one of the three documented reasons, and no aggregate is empty. *)
  Theorem C59_build (A : smat R) : mat_wf (length A) (length A) A -> sym_pat A ->
    exists ls C, build A = Ok (Some (ls, C)) /\ next ls C = A /\ length ls <= maxLevel /\
      hierarchy_of ls C /\ shrinks ls C /\ stops (length ls) C /\ covers ls C.
  Proof.
    intros HA HS. destruct (build_loop_ok maxLevel 0 A eq_refl HA HS) as (ls & C & E & N & L & H & Sh & St & _ & _ & Cv).
    exists ls, C. cbn [Nat.add] in *. auto 10.
  Qed.

  (** With a coarsening rate above 1 the number of unknowns falls strictly and geometrically, so that the number of levels is bounded by
      the logarithm of the number of unknowns, not only by maxLevel. *)
  Theorem C59_geometric ls C : shrinks ls C -> (0 < minCoarsenRate)%Q ->
    (Qpower minCoarsenRate (Z.of_nat (length ls)) * inject_Z (Z.of_nat (length C)) <= inject_Z (Z.of_nat (length (next ls C))))%Q.
  Proof.
    intros H Hr. induction ls as [|[A agg] ls IH].
    - cbn [length next]. change (Z.of_nat 0) with 0%Z. cbn [Qpower]. rewrite Qmult_1_l. apply Qle_refl.
    - cbn [shrinks] in H. destruct H as (_ & _ & H1 & H2). specialize (IH H2). cbn [length next fst].
      rewrite Nat2Z.inj_succ. unfold Z.succ. eapply Qle_trans; [|exact H1].
      assert (E : (minCoarsenRate ^ (Z.of_nat (length ls) + 1) == minCoarsenRate * minCoarsenRate ^ Z.of_nat (length ls))%Q).
      { rewrite Qpower_plus by (intros E0; rewrite E0 in Hr; discriminate Hr). rewrite Qmult_comm. reflexivity. }
      rewrite E. rewrite <- Qmult_assoc. rewrite (Qmult_comm minCoarsenRate), (Qmult_comm minCoarsenRate). apply Qmult_le_compat_r; [exact IH | apply Qlt_le_weak, Hr].
  Qed.
  Theorem C59_strict ls C : shrinks ls C -> (1 < minCoarsenRate)%Q ->
    StronglySorted gt (map (@length _) (map fst ls ++ [C])).
  Proof.
    intros H Hr. induction ls as [|[A agg] ls IH]; [repeat constructor|].
    cbn [shrinks] in H. destruct H as (_ & Hp & H1 & H2). specialize (IH H2). cbn [map app fst]. constructor; [exact IH|].
    assert (HN : length (next ls C) < length A).
    { apply Nat2Z.inj_lt. rewrite Zlt_Qlt. eapply Qlt_le_trans; [|exact H1].
      rewrite <- (Qmult_1_l (inject_Z (Z.of_nat (length (next ls C))))) at 1. apply Qmult_lt_compat_r; [|exact Hr].
      change 0%Q with (inject_Z 0). rewrite <- Zlt_Qlt. lia. }
    destruct ls as [|[B b] ls]; cbn [next fst map app] in *.
    - repeat constructor. exact HN.
    - apply StronglySorted_inv in IH. destruct IH as [_ IH]. constructor; [exact HN|].
      eapply Forall_impl; [|exact IH]. intros m Hm. lia.
  Qed.

  (** Symmetry is inherited by all levels *)
  Theorem C59_symmetric ls C : hierarchy_of ls C -> sym (length (next ls C)) (next ls C) ->
    Forall (fun A => sym (length A) A) (map fst ls ++ [C]).
  Proof.
    induction ls as [|[A agg] ls IH]; intros H S; cbn [map app next fst] in *; [repeat constructor; exact S|].
    cbn [hierarchy_of] in H. destruct H as [H1 H2]. constructor; [exact S|]. apply IH; [exact H2|]. apply (galerkin_sym A agg _ H1 S).
  Qed.

  (** ** C59: the hierarchy is what AMG::apply needs *)
  Variables pre post : smat R -> vec R -> vec R -> vec R.      (* the smoothers constructed for a matrix *)
  Hypothesis pre_len : forall A x d, length x = length A -> length d = length A -> length (pre A x d) = length A.
  Hypothesis post_len : forall A x d, length x = length A -> length d = length A -> length (post A x d) = length A.
  (** coarsenSmoother, matrixhierarchy.hh:866-894 (sequential: maxlevels() = levels()) *)
  Definition coarsen_smoother (ls : list mlevel) : list (@level R) := map (fun l => mklevel (fst l) (pre (fst l)) (post (fst l)) (snd l)) ls.
  (** coarsenVector, matrixhierarchy.hh:836-862: a vector of the size of every coarser matrix; the entries are indeterminate ([fill]) *)
  Definition coarsen_vector (fill : nat -> vec R) (v : vec R) (ls : list mlevel) (C : smat R) : list (vec R) :=
    v :: tl (map (fun A => fill (length A)) (map fst ls ++ [C])).
  Definition zip3 (a b c : list (vec R)) : list (@lst R) := map (fun p => mklst (fst (fst p)) (snd (fst p)) (snd p)) (combine (combine a b) c).

  Lemma next_dim ls C : dim (length C) (coarsen_smoother ls) = length (next ls C).
  Proof. destruct ls as [|[A agg] ls]; reflexivity. Qed.
  Lemma hier_of_ok ls C : hierarchy_of ls C -> hier_ok (length C) (coarsen_smoother ls).
  Proof.
    induction ls as [|[A agg] ls IH]; intros H; cbn [coarsen_smoother map hier_ok]; [exact I|].
    cbn [hierarchy_of] in H. destruct H as [(HA & HB & HG & _) H2]. split; [|apply IH, H2].
    fold (coarsen_smoother ls). rewrite next_dim. unfold level_ok. cbn [l_A l_agg l_pre l_post fst snd]. auto.
  Qed.
  Lemma vectors_shape fill1 fill2 fill3 x b c ls C :
    (forall n, length (fill1 n) = n) -> (forall n, length (fill2 n) = n) -> (forall n, length (fill3 n) = n) ->
    length x = length (next ls C) -> length b = length (next ls C) -> length c = length (next ls C) ->
    shape (length C) (coarsen_smoother ls) (zip3 (coarsen_vector fill1 x ls C) (coarsen_vector fill2 b ls C) (coarsen_vector fill3 c ls C)).
  Proof.
    intros F1 F2 F3. revert x b c. induction ls as [|[A agg] ls IH]; intros x b c Hx Hb Hc.
    - cbn. repeat split; auto.
    - cbn [next fst] in Hx, Hb, Hc. unfold coarsen_vector in *. cbn [map app tl coarsen_smoother fst]. unfold zip3. cbn [combine map shape fst snd l_A].
      split; [repeat split; auto|]. fold (coarsen_smoother ls).
      destruct ls as [|[B bb] ls].
      + specialize (IH (fill1 (length C)) (fill2 (length C)) (fill3 (length C)) (F1 _) (F2 _) (F3 _)). exact IH.
      + specialize (IH (fill1 (length B)) (fill2 (length B)) (fill3 (length B)) (F1 _) (F2 _) (F3 _)). exact IH.
  Qed.

  (** End to end: for every such matrix, every strength of connections and all size-preserving smoothers and coarse solvers, the AMG set up
      by build applies the multigrid cycle of the Galerkin hierarchy that was built. *)
  Theorem C59_amg solve damp preSteps postSteps gamma fill1 fill2 fill3 (A : smat R) v d u :
    (forall n, length (fill1 n) = n) -> (forall n, length (fill2 n) = n) -> (forall n, length (fill3 n) = n) ->
    (forall C x b, length x = length C -> length b = length C -> length (fst (fst (solve C x b))) = length C /\ length (snd (fst (solve C x b))) = length C) ->
    (forall C x b, snd (solve C x b) = true) ->
    mat_wf (length A) (length A) A -> sym_pat A -> length v = length A -> length d = length A -> length u = length A ->
    exists ls C st', build A = Ok (Some (ls, C)) /\ hierarchy_of ls C /\ next ls C = A /\
      amg_apply (solve C) damp preSteps postSteps gamma (coarsen_smoother ls)
        (zip3 (coarsen_vector fill1 v ls C) (coarsen_vector fill2 d ls C) (coarsen_vector fill3 u ls C)) true v d
      = Ok (cycle (solve C) damp preSteps postSteps gamma (length C) (coarsen_smoother ls) d, st', true).
  Proof.
    intros F1 F2 F3 Hsol Hconv HA HS Hv Hd Hu. destruct (C59_build A HA HS) as (ls & C & E & N & L & H & _).
    destruct (C36_amg (solve C) damp preSteps postSteps gamma (length C) (Hsol C) (Hconv C) (coarsen_smoother ls)
      (zip3 (coarsen_vector fill1 v ls C) (coarsen_vector fill2 d ls C) (coarsen_vector fill3 u ls C)) v d) as (st' & ES & _).
    - apply hier_of_ok, H.
    - apply vectors_shape; rewrite ?N; auto.
    - rewrite next_dim, N. exact Hv.
    - rewrite next_dim, N. exact Hd.
    - exists ls, C, st'. auto.
  Qed.
End Setup.

(** ** C59: recalculateGalerkin *)
Section Recalculate.
  Context {R : ring}.
  Local Open Scope ring_scope_istl.
  Lemma row_ext (r s : srow R) : map fst r = map fst s -> NoDup (map fst r) -> (forall j, denrow r j = denrow s j) -> r = s.
  Proof.
    revert s. induction r as [|[k a] r IH]; intros [|[k' b] s] HM HN HD; cbn [map] in HM; try discriminate; [reflexivity|].
    injection HM as Ek HM. cbn [fst] in Ek. subst k'. cbn [map] in HN. apply NoDup_cons_iff in HN. cbn [fst] in HN. destruct HN as [Hk HN]. f_equal.
    - specialize (HD k). cbn [denrow] in HD. rewrite Nat.eqb_refl in HD. congruence.
    - apply IH; [exact HM | exact HN|]. intros j. destruct (Nat.eq_dec k j) as [E|E].
      + subst j. rewrite !denrow_notin; auto. rewrite <- HM. exact Hk.
      + specialize (HD j). cbn [denrow] in HD. destruct (Nat.eqb_spec k j); [congruence|]. exact HD.
  Qed.
  Lemma mat_ext n (A B : smat R) : mat_wf n n A -> mat_wf n n B -> pat A = pat B -> (forall i j, den A i j = den B i j) -> A = B.
  Proof.
    intros HA HB HP HD. apply (nth_ext _ _ nil nil); [rewrite (proj1 HA), (proj1 HB); reflexivity|].
    intros i Hi. apply row_ext.
    - rewrite <- !pat_nth, HP. reflexivity.
    - apply (row_wf_NoDup n). apply (mat_wf_row n n A i HA).
    - intros j. apply HD.
  Qed.
  Lemma pat_instored (A B : smat R) : pat A = pat B -> forall i j, instored A i j <-> instored B i j.
  Proof. intros H i j. unfold instored. rewrite <- !pat_nth, H. tauto. Qed.
  Lemma pat_length (A B : smat R) : pat A = pat B -> length A = length B.
  Proof. intros H. transitivity (length (pat A)); [symmetry; apply map_length|]. rewrite H. apply map_length. Qed.
  Lemma pat_wf n (A B : smat R) : pat A = pat B -> mat_wf n n A -> mat_wf n n B.
  Proof.
    intros H HA. split; [rewrite <- (pat_length _ _ H); apply HA|].
    apply Forall_forall. intros row HI. apply (In_nth _ _ nil) in HI. destruct HI as [i [Hi <-]].
    pose proof (mat_wf_row n n A i HA) as [S1 S2]. unfold row_wf. rewrite <- pat_nth, <- H, pat_nth. auto.
  Qed.
  (** After the entries of the finest matrix have been replaced (same pattern), every coarse matrix becomes the Galerkin product of the new
      finer one; patterns and aggregates stay. *)
  Theorem C59_recalculate (ls : list (@mlevel R)) C A' :
    hierarchy_of ls C -> mat_wf (length (next ls C)) (length (next ls C)) (next ls C) -> pat A' = pat (next ls C) ->
    exists ls' C', recalculate A' ls C = Ok (ls', C') /\ next ls' C' = A' /\ map snd ls' = map snd ls /\
      map pat (map fst ls' ++ [C']) = map pat (map fst ls ++ [C]) /\ hierarchy_of ls' C'.
  Proof.
    revert A'. induction ls as [|[A agg] ls IH]; intros A' H HW HP; cbn [recalculate].
    - exists [], A'. cbn [next map app fst] in *. rewrite HP. cbn [hierarchy_of]. auto 10.
    - cbn [hierarchy_of] in H. destruct H as [(HA & HB & HG & HPat & HD) H2]. cbn [next fst] in HP, HW.
      set (B := next ls C) in *.
      assert (LA : length A' = length A) by (apply pat_length, HP).
      destruct (C34_galerkin agg (length A) (length B) A' B) as (B' & E & PB & WB & DB); auto.
      { apply (pat_wf _ A A'); [symmetry; exact HP | exact HA]. }
      { split.
        - intros I HI. apply HPat; auto.
        - intros r c I J Hs Er Ec. apply (pat_instored _ _ HP) in Hs. destruct (instored_lt _ A r c HA Hs) as [Hr Hc].
          apply HPat; [|right; exists r, c; auto 10]. destruct (HG r Hr) as [K|(k & Hk & K)]; congruence. }
      rewrite E. cbn [obind].
      destruct (IH B') as (ls' & C' & E2 & N & M & P & HH); auto.
      rewrite E2. cbn [obind fst snd]. exists ((A', agg) :: ls'), C'. cbn [next fst map snd app hierarchy_of].
      split; [reflexivity|]. split; [reflexivity|]. split; [rewrite M; reflexivity|]. split; [rewrite HP, P; reflexivity|]. split; [|exact HH].
      rewrite N. assert (LB : length B' = length B) by (apply pat_length, PB).
      unfold galerkin_product. rewrite LA, LB. split; [apply (pat_wf _ A A'); [symmetry; exact HP | exact HA]|]. split; [exact WB|]. split; [exact HG|]. split; [|exact DB].
      intros I J HI. rewrite (pat_instored _ _ PB), (HPat I J HI). split; (intros [K|(r & c & K1 & K2 & K3 & K4)]; [left; exact K|right; exists r, c]);
        (split; [exact K1|split; [exact K2|split; [apply (pat_instored _ _ HP); exact K3 | exact K4]]]).
  Qed.
  (** The finest matrix, the aggregates and the patterns determine the hierarchy ... *)
  Theorem C59_unique (ls ls' : list (@mlevel R)) C C' :
    hierarchy_of ls C -> hierarchy_of ls' C' -> map snd ls = map snd ls' -> map pat (map fst ls ++ [C]) = map pat (map fst ls' ++ [C']) ->
    next ls C = next ls' C' -> ls = ls' /\ C = C'.
  Proof.
    revert ls'. induction ls as [|[A agg] ls IH]; intros [|[A' agg'] ls'] H H' HS HP HN; cbn [map] in HS; try discriminate.
    - cbn [next] in HN. auto.
    - cbn [next fst] in HN. subst A'. injection HS as Ea HS. cbn [snd] in Ea. subst agg'. cbn [map app fst] in HP. injection HP as HP.
      cbn [hierarchy_of] in H, H'. destruct H as [(HA & HB & _ & _ & HD) H2], H' as [(_ & HB' & _ & _ & HD') H2'].
      assert (EN : next ls C = next ls' C').
      { assert (PN : pat (next ls C) = pat (next ls' C')).
        { destruct ls as [|[B b] ls], ls' as [|[B' b'] ls']; cbn [map] in HS; try discriminate; cbn [map app fst next] in HP |- *; injection HP as HP; auto. }
        pose proof (pat_length _ _ PN) as LN. apply (mat_ext (length (next ls C))); auto; [rewrite LN; exact HB'|].
        intros i j. rewrite HD, HD'. reflexivity. }
      destruct (IH ls' H2 H2' HS HP EN) as [-> ->]. auto.
  Qed.
  (** ... so recalculating with an unchanged matrix changes nothing, and it does not matter what it was recalculated for in between. *)
  Theorem C59_recalculate_again (ls : list (@mlevel R)) C A' :
    hierarchy_of ls C -> mat_wf (length (next ls C)) (length (next ls C)) (next ls C) -> pat A' = pat (next ls C) ->
    recalculate (next ls C) ls C = Ok (ls, C) /\
    exists ls' C', recalculate A' ls C = Ok (ls', C') /\ recalculate (next ls C) ls' C' = Ok (ls, C).
  Proof.
    intros H HW HP. split.
    - destruct (C59_recalculate ls C (next ls C) H HW eq_refl) as (ls' & C' & E & N & M & P & HH).
      destruct (C59_unique ls ls' C C') as [-> ->]; auto.
    - destruct (C59_recalculate ls C A' H HW HP) as (ls' & C' & E & N & M & P & HH). exists ls', C'. split; [exact E|].
      destruct (C59_recalculate ls' C' (next ls C)) as (ls2 & C2 & E2 & N2 & M2 & P2 & HH2); auto.
      { rewrite N. rewrite (pat_length _ _ HP). apply (pat_wf _ (next ls C)); [symmetry; exact HP | exact HW]. }
      { rewrite N. symmetry. exact HP. }
      destruct (C59_unique ls ls2 C C2) as [-> ->]; auto; congruence.
  Qed.
End Recalculate.

(** ** C59: symmetric AMG *)
(** For a symmetric matrix over a commutative ring, smoothers that are adjoint to each other on every symmetric matrix and a symmetric
    coarse solver the AMG preconditioner that is built is symmetric. *)
Theorem C59_symmetric_amg {R : ring} (comm : forall a b : R, rmul a b = rmul b a) depends influences isolated excludedBorder mn mx maxDist maxConn skip D quot dm1 deq dgt maxLevel target rate
  (pre post : smat R -> vec R -> vec R -> vec R) (solve : smat R -> vec R -> vec R -> vec R * vec R * bool) damp steps gamma (A : smat R) :
  mn <= mx -> 1 <= mx ->
  (forall B x d, length x = length B -> length d = length B -> length (pre B x d) = length B) ->
  (forall B x d, length x = length B -> length d = length B -> length (post B x d) = length B) ->
  (forall B, mat_wf (length B) (length B) B -> sym (length B) B -> adjoint (length B) (pre B (zerov (length B))) (post B (zerov (length B)))) ->
  (forall B b, length b = length B -> length (fst (fst (solve B (zerov (length B)) b))) = length B) ->
  (forall B, mat_wf (length B) (length B) B -> sym (length B) B -> adjoint (length B) (fun b => fst (fst (solve B (zerov (length B)) b))) (fun b => fst (fst (solve B (zerov (length B)) b)))) ->
  mat_wf (length A) (length A) A -> sym_pat A -> sym (length A) A ->
  exists ls C, build depends influences isolated excludedBorder mn mx maxDist maxConn skip D quot dm1 deq dgt maxLevel target rate A = Ok (Some (ls, C)) /\
    next ls C = A /\
    forall d e, length d = length A -> length e = length A ->
      dot (length A) (cycle (solve C) damp steps steps gamma (length C) (coarsen_smoother pre post ls) d) e
      = dot (length A) d (cycle (solve C) damp steps steps gamma (length C) (coarsen_smoother pre post ls) e).
Proof.
  intros Hm H1 Hpre Hpost Hadj Hlen Hsolve HA HS Hsym.
  destruct (build_loop_ok depends influences isolated excludedBorder mn mx maxDist maxConn skip D quot dm1 deq dgt maxLevel target rate Hm H1 maxLevel 0 A eq_refl HA HS)
    as (ls & C & E & N & L & H & _ & _ & WC & _).
  exists ls, C. split; [exact E|]. split; [exact N|].
  pose proof (C59_symmetric ls C H) as SY. rewrite N in SY. specialize (SY Hsym). apply Forall_app in SY. destruct SY as [SL SC]. apply Forall_inv in SC.
  intros d e Hd He. rewrite <- N, <- (next_dim pre post ls C).
  apply (C36_symmetric comm (solve C) damp steps gamma (length C) (coarsen_smoother pre post ls)).
  - intros b Hb. apply Hlen, Hb.
  - apply Hsolve; assumption.
  - apply hier_of_ok; assumption.
  - clear -H SL Hadj. induction ls as [|[B agg] ls IH]; cbn [coarsen_smoother map levels_sym]; [exact I|].
    cbn [hierarchy_of] in H. destruct H as [(HB & _) H2]. cbn [map fst] in SL. apply Forall_cons_iff in SL. destruct SL as [SB SL]. cbn [fst] in SB.
    cbn [l_A l_pre l_post fst]. split; [exact SB|]. split; [apply Hadj; assumption | apply IH; assumption].
  - rewrite next_dim, N. exact Hd.
  - rewrite next_dim, N. exact He.
Qed.

(** ** C59: getCoarsestAggregatesOnFinest *)
Definition nmem (v : nat) (used : list nat) : bool := existsb (Nat.eqb v) used.
Lemma nmem_spec v used : nmem v used = true <-> In v used.
Proof. unfold nmem. rewrite existsb_exists. split; [intros (x & H & E); apply Nat.eqb_eq in E; congruence | intros H; exists v; split; [exact H | apply Nat.eqb_refl]]. Qed.
(** while(!ibpair.second) ibpair = used.insert(...), matrixhierarchy.hh:771-772.  [rand p] is the p-th number drawn, already scaled to the size
    of the vector.  [fuel] bounds the number of draws; None = still drawing.  Result: the number and the position in the stream. *)
Fixpoint pick (fuel : nat) (rand : nat -> nat) (pos : nat) (used : list nat) : option (nat * nat) :=
  match fuel with
  | 0 => None
  | S f => if nmem (rand pos) used then pick f rand (S pos) used else Some (rand pos, S pos)
  end.
(** The numbering of the coarsest unknowns, matrixhierarchy.hh:765-774; the first candidate of every unknown is the random number truncated
    to 0 before it is scaled (line 769) *)
Fixpoint numbers (fuel : nat) (rand : nat -> nat) (pos : nat) (used : list nat) (k : nat) : option (list nat) :=
  match k with
  | 0 => Some []
  | S k => match (if nmem 0 used then pick fuel rand (S pos) used else Some (0, S pos)) with
           | None => None
           | Some (v, pos') => option_map (cons v) (numbers fuel rand pos' (v :: used) k)
           end
  end.
Definition maps_of {R : ring} (ls : list (@mlevel R)) : list (nat * (nat -> aggd)) := map (fun l => (length (fst l), snd l)) ls.
(** the largest aggregate number of a map of [n] vertices, 0 if there is none, matrixhierarchy.hh:757-761 *)
Definition max_aggregate (n : nat) (agg : nat -> aggd) : nat := fold_left (fun m i => match agg i with Agg k => Nat.max k m | _ => m end) (seq 0 n) 0.
(** Prolongation from the coarsest map to the finest, matrixhierarchy.hh:780-791, with the prolongation of transfer.hh:108-131 on unsigned
    numbers (no overflow: every number is the sum of one number and 0) *)
Fixpoint project (maps : list (nat * (nat -> aggd))) (coarse : vec Zring) : outcome (vec Zring) :=
  match maps with
  | [] => Ok coarse
  | (n, agg) :: ms => obind (project ms coarse) (fun c => obind (prolongateVector agg c (repeat (0%Z : Zring) n) (1%Z : Zring)) (fun p => Ok (snd p)))
  end.
(** MatrixHierarchy::getCoarsestAggregatesOnFinest, matrixhierarchy.hh:724-795.  Without a coarser level the map before the only one is
    read, which does not exist. *)
Definition coarsest_on_finest (fuel : nat) (rand : nat -> nat) (maps : list (nat * (nat -> aggd))) : outcome (option (vec Zring)) :=
  match maps with
  | [] => UB
  | _ => let '(n, agg) := last maps (0, fun _ => Iso) in
         match numbers fuel rand 0 [] (S (max_aggregate n agg)) with
         | None => Ok None
         | Some l => obind (project maps (map Z.of_nat l)) (fun d => Ok (Some d))
         end
  end.
(** Specification: the aggregate of the coarsest level that a vertex of the finest level belongs to; None for a vertex that is isolated, or
    whose aggregate is isolated on a coarser level *)
Fixpoint trace (maps : list (nat * (nat -> aggd))) (i : nat) : option nat :=
  match maps with
  | [] => Some i
  | (_, agg) :: ms => match agg i with Agg k => trace ms k | _ => None end
  end.

Lemma pick_spec fuel rand : forall pos used v pos', pick fuel rand pos used = Some (v, pos') -> ~ In v used /\ exists p, v = rand p.
Proof.
  induction fuel as [|f IH]; intros pos used v pos' H; cbn [pick] in H; [discriminate|].
  destruct (nmem (rand pos) used) eqn:E; [apply (IH _ _ _ _ H)|]. injection H as <- <-. split; [|eauto].
  intros HI. apply nmem_spec in HI. congruence.
Qed.
Lemma numbers_spec fuel rand k : forall pos used l, numbers fuel rand pos used k = Some l ->
  length l = k /\ NoDup l /\ (forall v, In v l -> ~ In v used /\ (v = 0 \/ exists p, v = rand p)).
Proof.
  induction k as [|k IH]; intros pos used l H; cbn [numbers] in H.
  - injection H as <-. split; [reflexivity|]. split; [constructor | intros v []].
  - destruct (if nmem 0 used then pick fuel rand (S pos) used else Some (0, S pos)) as [[v pos']|] eqn:E; [|discriminate].
    destruct (numbers fuel rand pos' (v :: used) k) as [l'|] eqn:E2; [|discriminate]. injection H as <-.
    destruct (IH _ _ _ E2) as (L & N & F).
    assert (V : ~ In v used /\ (v = 0 \/ exists p, v = rand p)).
    { destruct (nmem 0 used) eqn:E0; [destruct (pick_spec _ _ _ _ _ _ E); auto|]. injection E as <- <-. split; [|auto].
      intros HI. apply nmem_spec in HI. congruence. }
    cbn [length]. split; [lia|]. split.
    + constructor; [|exact N]. intros HI. apply (proj1 (F v HI)). left. reflexivity.
    + intros w [<-|HI]; [exact V|]. destruct (F w HI) as [F1 F2]. split; [|exact F2]. intros K. apply F1. right. exact K.
Qed.
Lemma pick_mono fuel rand : forall fuel' pos used r, fuel <= fuel' -> pick fuel rand pos used = Some r -> pick fuel' rand pos used = Some r.
Proof.
  induction fuel as [|f IH]; intros fuel' pos used r Hf H; cbn [pick] in H; [discriminate|].
  destruct fuel' as [|f']; [lia|]. cbn [pick]. destruct (nmem (rand pos) used); [apply IH; [lia | exact H] | exact H].
Qed.
Lemma numbers_mono fuel rand k : forall fuel' pos used r, fuel <= fuel' -> numbers fuel rand pos used k = Some r -> numbers fuel' rand pos used k = Some r.
Proof.
  induction k as [|k IH]; intros fuel' pos used r Hf H; cbn [numbers] in *; [exact H|].
  destruct (nmem 0 used) eqn:E0.
  - destruct (pick fuel rand (S pos) used) as [[v p']|] eqn:E; [|discriminate]. rewrite (pick_mono _ _ fuel' _ _ _ Hf E).
    destruct (numbers fuel rand p' (v :: used) k) as [l|] eqn:E2; [|discriminate]. rewrite (IH _ _ _ _ Hf E2). exact H.
  - destruct (numbers fuel rand (S pos) (0 :: used) k) as [l|] eqn:E2; [|discriminate]. rewrite (IH _ _ _ _ Hf E2). exact H.
Qed.
Lemma pick_some rand used q : forall d pos, (pos + d = q)%nat -> ~ In (rand q) used -> exists r, pick (S d) rand pos used = Some r.
Proof.
  induction d as [|d IH]; intros pos Hq HN; cbn [pick]; destruct (nmem (rand pos) used) eqn:E; try (eexists; reflexivity).
  - apply nmem_spec in E. rewrite Nat.add_0_r in Hq. subst q. contradiction.
  - apply IH; [lia | exact HN].
Qed.
(** The drawing ends if every number is drawn again and again *)
Lemma numbers_some rand n : (forall v p, v < n -> exists q, p <= q /\ rand q = v) -> (forall p, rand p < n) ->
  forall k pos used, NoDup used -> (forall v, In v used -> v < n) -> (length used + k <= n)%nat -> exists fuel l, numbers fuel rand pos used k = Some l.
Proof.
  intros HR HB. induction k as [|k IH]; intros pos used HN HU HK; [exists 0, []; reflexivity|].
  assert (HV : exists v, v < n /\ ~ In v used).
  { destruct (Exists_dec (fun v => ~ In v used) (seq 0 n)) as [HE|HE].
    { intros v. destruct (in_dec Nat.eq_dec v used); [right|left]; auto. }
    - apply Exists_exists in HE. destruct HE as (v & Hv & HE). apply in_seq in Hv. exists v. split; [lia | exact HE].
    - assert (HI : incl (seq 0 n) used).
      { intros v Hv. destruct (in_dec Nat.eq_dec v used); auto. exfalso. apply HE. apply Exists_exists. eauto. }
      apply NoDup_incl_length in HI; [|apply seq_NoDup]. rewrite seq_length in HI. lia. }
  assert (HP : exists fuel v pos', (if nmem 0 used then pick fuel rand (S pos) used else Some (0, S pos)) = Some (v, pos')).
  { destruct (nmem 0 used); [|exists 0, 0, (S pos); reflexivity]. destruct HV as (v & Hv & HV). destruct (HR v (S pos) Hv) as (q & Hq & E).
    destruct (pick_some rand used q (q - S pos) (S pos)) as [[w p'] Ew]; [lia | rewrite E; exact HV|]. eauto. }
  destruct HP as (f1 & v & pos' & E1).
  assert (V : v < n /\ ~ In v used).
  { destruct (nmem 0 used) eqn:E0.
    - destruct (pick_spec _ _ _ _ _ _ E1) as [H1 [p ->]]. auto.
    - injection E1 as <- <-. split; [lia|]. intros HI. apply nmem_spec in HI. congruence. }
  destruct (IH pos' (v :: used)) as (f2 & l & E2).
  { constructor; [apply V | exact HN]. } { intros w [<-|Hw]; [apply V | auto]. } { cbn [length]. lia. }
  exists (Nat.max f1 f2), (v :: l). cbn [numbers].
  assert (E1' : (if nmem 0 used then pick (Nat.max f1 f2) rand (S pos) used else Some (0, S pos)) = Some (v, pos')).
  { destruct (nmem 0 used); [apply (pick_mono f1); [lia | exact E1] | exact E1]. }
  rewrite E1', (numbers_mono f2 rand k _ _ _ _ (Nat.le_max_r f1 f2) E2). reflexivity.
Qed.
Lemma max_aggregate_spec n agg i k : i < n -> agg i = Agg k -> k <= max_aggregate n agg.
Proof.
  unfold max_aggregate. intros Hi E.
  assert (G : forall l m, (In i l -> k <= fold_left (fun m i => match agg i with Agg k => Nat.max k m | _ => m end) l m) /\
                          m <= fold_left (fun m i => match agg i with Agg k => Nat.max k m | _ => m end) l m).
  { induction l as [|a l IH]; intros m; cbn [fold_left]; [split; [intros [] | lia]|].
    destruct (IH (match agg a with Agg k => Nat.max k m | _ => m end)) as [I1 I2]. split.
    - intros [->|H]; [rewrite E in *; lia | auto].
    - destruct (agg a); lia. }
  apply (proj1 (G _ _)). apply in_seq. lia.
Qed.
Lemma project_spec maps : forall (l : list nat) K, length l = K ->
  (forall j n agg, nth_error maps j = Some (n, agg) -> agg_ok agg n (match nth_error maps (S j) with Some (m, _) => m | None => K end)) ->
  exists d, project maps (map Z.of_nat l) = Ok d /\ length d = match maps with [] => K | (n, _) :: _ => n end /\
    forall i, i < length d -> vget d i = Z.of_nat (match trace maps i with Some k => nth k l 0 | None => 0 end).
Proof.
  induction maps as [|[n agg] ms IH]; intros l K HK HM; cbn [project trace].
  - exists (map Z.of_nat l). rewrite map_length. split; [reflexivity|]. split; [exact HK|]. intros i Hi.
    unfold vget. change (@r0 Zring) with (Z.of_nat 0). apply map_nth.
  - destruct (IH l K HK) as (c & E & L & V). { intros j n' agg' Hj. exact (HM (S j) n' agg' Hj). }
    rewrite E. cbn [obind].
    assert (AO : agg_ok agg n (length c)).
    { rewrite L. specialize (HM 0 n agg eq_refl). cbn [nth_error] in HM. destruct ms as [|[m a] ms]; exact HM. }
    destruct (C34_prolongate (R := Zring) agg n c (repeat (0%Z : Zring) n) (1%Z : Zring)) as (c' & f & E2 & Lf & _ & _ & Vf); [apply repeat_length | exact AO|].
    rewrite E2. cbn [obind snd]. exists f. split; [reflexivity|]. split; [exact Lf|]. intros i Hi. rewrite Lf in Hi. rewrite (Vf i Hi).
    assert (Z0 : vget (repeat (0%Z : Zring) n) i = 0%Z) by (unfold vget; apply nth_repeat). rewrite Z0.
    destruct (AO i Hi) as [EI|(k & Hk & EI)]; unfold prol; rewrite EI.
    + rewrite sum_zero; [reflexivity | intros; cbn; lia].
    + rewrite (sum_single _ k); [|exact Hk|].
      * rewrite Nat.eqb_refl, V by exact Hk. cbn [Zring r1 rmul radd car]. rewrite Z.mul_1_l, Z.mul_1_r. reflexivity.
      * intros k' Hk' Hne. destruct (Nat.eqb_spec k k'); [congruence|]. cbn. lia.
Qed.

Lemma trace_lt maps : forall K i k,
  (forall j n agg, nth_error maps j = Some (n, agg) -> agg_ok agg n (match nth_error maps (S j) with Some (m, _) => m | None => K end)) ->
  i < match maps with [] => K | (n, _) :: _ => n end -> trace maps i = Some k -> k < K.
Proof.
  induction maps as [|[n agg] ms IH]; intros K i k HM Hi E; cbn [trace] in E; [injection E as <-; exact Hi|].
  pose proof (HM 0 n agg eq_refl i Hi) as [A|(k' & Hk & A)]; rewrite A in E; [discriminate|].
  apply (IH K k' k); [intros j n' agg' Hj; exact (HM (S j) n' agg' Hj) | | exact E].
  cbn [nth_error] in Hk. destruct ms as [|[m a] ms]; exact Hk.
Qed.
Lemma hierarchy_maps {R : ring} (ls : list (@mlevel R)) C : hierarchy_of ls C ->
  forall j n agg, nth_error (maps_of ls) j = Some (n, agg) ->
    agg_ok agg n (match nth_error (maps_of ls) (S j) with Some (m, _) => m
                  | None => S (max_aggregate (length (fst (last ls (C, fun _ => Iso)))) (snd (last ls (C, fun _ => Iso)))) end).
Proof.
  induction ls as [|[A ag] ls IH]; intros H j n agg E; [destruct j; discriminate|].
  cbn [hierarchy_of] in H. destruct H as [(_ & _ & HG & _) H2].
  destruct ls as [|[B b] ls].
  - destruct j as [|j]; [|destruct j; discriminate]. cbn in E. injection E as <- <-. cbn [maps_of map nth_error last fst snd].
    intros i Hi. destruct (HG i Hi) as [E|(k & _ & E)]; [left; exact E|]. right. exists k. split; [|exact E].
    pose proof (max_aggregate_spec (length A) ag i k Hi E). lia.
  - destruct j as [|j]; [cbn in E; injection E as <- <-; exact HG|]. specialize (IH H2 j n agg E). exact IH.
Qed.

(** Whenever the drawing of random numbers ends, and it ends if every number is drawn again and again: the vertices get the number of the
    coarsest aggregate they belong to, under a numbering of the coarsest aggregates by 0,...,m that starts with 0; vertices that belong to
    none get 0. *)
Theorem C59_coarsest_on_finest {R : ring} (ls : list (@mlevel R)) C fuel rand :
  hierarchy_of ls C -> ls <> [] -> (forall p, rand p < S (max_aggregate (length (fst (last ls (C, fun _ => Iso)))) (snd (last ls (C, fun _ => Iso))))) ->
  coarsest_on_finest fuel rand (maps_of ls) = Ok None \/
  exists data num, coarsest_on_finest fuel rand (maps_of ls) = Ok (Some data) /\ length data = length (next ls C) /\
    Permutation num (seq 0 (length num)) /\ nth 0 num 0 = 0 /\
    (forall i k, i < length data -> trace (maps_of ls) i = Some k -> k < length num) /\
    forall i, i < length data -> vget data i = Z.of_nat (match trace (maps_of ls) i with Some k => nth k num 0 | None => 0 end).
Proof.
  intros H HN HR. set (K := S (max_aggregate (length (fst (last ls (C, fun _ => Iso)))) (snd (last ls (C, fun _ => Iso))))) in *.
  assert (EL : last (maps_of ls) (0, fun _ => Iso) = (length (fst (last ls (C, fun _ => Iso))), snd (last ls (C, fun _ => Iso)))).
  { clear -HN. induction ls as [|l ls IH]; [congruence|]. destruct ls as [|l2 ls]; [reflexivity|]. apply IH. discriminate. }
  assert (EM : coarsest_on_finest fuel rand (maps_of ls) =
    match numbers fuel rand 0 [] K with None => Ok None | Some l => obind (project (maps_of ls) (map Z.of_nat l)) (fun d => Ok (Some d)) end).
  { unfold coarsest_on_finest. rewrite EL. fold K. destruct ls; [congruence|]. reflexivity. }
  rewrite EM. destruct (numbers fuel rand 0 [] K) as [num|] eqn:EN; [right | left; reflexivity].
  destruct (numbers_spec _ _ _ _ _ _ EN) as (L & ND & F).
  destruct (project_spec (maps_of ls) num K L (hierarchy_maps ls C H)) as (d & E & Ld & V).
  exists d, num. rewrite E. cbn [obind]. split; [reflexivity|]. split.
  { rewrite Ld. destruct ls as [|[A a] ls]; [congruence|reflexivity]. }
  split.
  { apply NoDup_Permutation_bis; [exact ND | rewrite seq_length; auto|]. intros v Hv. apply in_seq. split; [lia|]. rewrite L.
    destruct (F v Hv) as [_ [->|[p ->]]]; [unfold K; lia | apply HR]. }
  split.
  { unfold K in EN. cbn [numbers nmem existsb] in EN. destruct (numbers fuel rand 1 [0] _); [|discriminate]. injection EN as <-. reflexivity. }
  split; [|exact V]. intros i k Hi ET. rewrite L. apply (trace_lt (maps_of ls) K i k (hierarchy_maps ls C H)); [|exact ET].
  rewrite <- Ld. exact Hi.
Qed.
(** ... so two vertices that belong to aggregates of the coarsest level get the same number iff it is the same aggregate *)
Theorem C59_coarsest_same {R : ring} (ls : list (@mlevel R)) C fuel rand data i j k l :
  hierarchy_of ls C -> ls <> [] -> (forall p, rand p < S (max_aggregate (length (fst (last ls (C, fun _ => Iso)))) (snd (last ls (C, fun _ => Iso))))) ->
  coarsest_on_finest fuel rand (maps_of ls) = Ok (Some data) -> i < length (next ls C) -> j < length (next ls C) ->
  trace (maps_of ls) i = Some k -> trace (maps_of ls) j = Some l -> (vget data i = vget data j <-> k = l).
Proof.
  intros H HN HR E Hi Hj Ei Ej. destruct (C59_coarsest_on_finest ls C fuel rand H HN HR) as [E0|(d & num & E0 & L & P & _ & T & V)]; [congruence|].
  rewrite E in E0. injection E0 as <-. rewrite <- L in Hi, Hj. rewrite (V i Hi), (V j Hj), Ei, Ej. split; [|intros ->; reflexivity].
  intros EZ. apply Nat2Z.inj in EZ. assert (ND : NoDup num). { apply (Permutation_NoDup (Permutation_sym P)), seq_NoDup. }
  rewrite NoDup_nth in ND. apply (ND k l); [apply (T i k Hi Ei) | apply (T j l Hj Ej) | exact EZ].
Qed.
(** The drawing ends if every number is drawn again and again *)
Theorem C59_coarsest_ends {R : ring} (ls : list (@mlevel R)) C rand :
  let K := S (max_aggregate (length (fst (last ls (C, fun _ => Iso)))) (snd (last ls (C, fun _ => Iso)))) in
  hierarchy_of ls C -> ls <> [] -> (forall p, rand p < K) -> (forall v p, v < K -> exists q, p <= q /\ rand q = v) ->
  exists fuel data, coarsest_on_finest fuel rand (maps_of ls) = Ok (Some data).
Proof.
  intros K H HN HR HQ.
  destruct (numbers_some rand K HQ HR K 0 []) as (fuel & l & EN); [constructor | intros v [] | cbn; lia|].
  exists fuel. destruct (C59_coarsest_on_finest ls C fuel rand H HN HR) as [E0|(d & _ & E0 & _)]; [|eauto].
  exfalso. revert E0. unfold coarsest_on_finest.
  assert (EL : last (maps_of ls) (0, fun _ => Iso) = (length (fst (last ls (C, fun _ => Iso))), snd (last ls (C, fun _ => Iso)))).
  { clear -HN. induction ls as [|x ls IH]; [congruence|]. destruct ls as [|l2 ls]; [reflexivity|]. apply IH. discriminate. }
  rewrite EL. fold K. rewrite EN. destruct ls; [congruence|]. cbn [maps_of map].
  destruct (project _ _); cbn; discriminate.
Qed.
(** A vertex that belongs to no coarsest aggregate shares the number 0 with the aggregate that is numbered 0, and without a coarser level
    the maps are read before their beginning. *)
Theorem C59_coarsest_isolated_refuted :
  ~ (forall (ls : list (@mlevel Zring)) C fuel rand data i j, hierarchy_of ls C -> ls <> [] ->
       coarsest_on_finest fuel rand (maps_of ls) = Ok (Some data) -> i < length (next ls C) -> j < length (next ls C) ->
       (vget data i = vget data j <-> trace (maps_of ls) i = trace (maps_of ls) j)).
Proof.
  intros H. specialize (H [([[(0, 1%Z)]; [(1, 1%Z)]], fun i => if i =? 0 then Iso else Agg 0)] [[(0, 1%Z)]] 5 (fun _ => 0) [0%Z; 0%Z] 0 1).
  assert (G : hierarchy_of (R := Zring) [([[(0, 1%Z)]; [(1, 1%Z)]], fun i => if i =? 0 then Iso else Agg 0)] [[(0, 1%Z)]]).
  { cbn [hierarchy_of next]. split; [|exact I]. unfold galerkin_product. cbn [length].
    split; [split; [reflexivity|]; repeat (constructor; [split; cbn; repeat constructor; lia|]); constructor|].
    split; [split; [reflexivity|]; repeat (constructor; [split; cbn; repeat constructor; lia|]); constructor|].
    split; [intros [|[|i]] Hi; try lia; cbn; [left | right; exists 0]; auto|].
    split.
    - intros I J HI. destruct I as [|I]; [|lia]. unfold instored. cbn [nth map fst In]. split.
      + intros [<-|[]]. left. reflexivity.
      + intros [<-|(r & c & Hr & Hc & K & E1 & E2)]; [left; reflexivity|]. left. destruct c as [|[|c]]; cbn in E2; congruence.
    - intros [|[|I]] [|J]; reflexivity. }
  specialize (H G ltac:(discriminate) eq_refl ltac:(cbn; lia) ltac:(cbn; lia)). destruct H as [H _].
  specialize (H eq_refl). discriminate H.
Qed.
Theorem C59_coarsest_single_refuted fuel rand : coarsest_on_finest fuel rand [] = UB.
Proof. reflexivity. Qed.

(** ** C59: memory of the aggregates maps *)
(** ids of the maps; deleting a map deletes its array unless free() has deleted it before (aggregates.hh:1680-1684, 1710-1715) *)
Inductive mem_event := DeleteArray (id : nat) | DeleteMap (id : nat).
(** ~MatrixHierarchy, matrixhierarchy.hh:827-843: [k] steps from the coarsest level to the finest; the maps from the last to the first.
    Dereferencing the reverse end is undefined. *)
Fixpoint destroy_loop (k : nat) (rmaps : list nat) : outcome (list mem_event) :=
  match rmaps, k with
  | [], _ => UB
  | m :: _, 0 => Ok [DeleteArray m; DeleteMap m]                (* delete *amap: the destructor deletes the array *)
  | m :: ms, S k => obind (destroy_loop k ms) (fun e => Ok (DeleteArray m :: DeleteMap m :: e))   (* free(), delete *)
  end.
Definition destroy (levels : nat) (maps : list nat) : outcome (list mem_event) := destroy_loop (levels - 1) (rev maps).
(** The maps after build, matrixhierarchy.hh:504-506, 574-586, 679-680: one per coarsening, then (if the coarsening broke down) one that has
    been deleted and removed again, then the empty map of the coarsest level.  ids in order of allocation. *)
Definition maps_after_build (coarsenings : nat) (breakdown : bool) : list nat * list mem_event * nat :=
  let last := if breakdown then S coarsenings else coarsenings in
  (seq 0 coarsenings ++ [last], if breakdown then [DeleteArray coarsenings; DeleteMap coarsenings] else [], S last).
Lemma destroy_loop_ok k : forall rmaps, k < length rmaps ->
  destroy_loop k rmaps = Ok (flat_map (fun m => [DeleteArray m; DeleteMap m]) (firstn (S k) rmaps)).
Proof.
  induction k as [|k IH]; intros [|m ms] H; cbn [length] in H; try lia; cbn [destroy_loop]; [reflexivity|].
  rewrite IH by lia. reflexivity.
Qed.
Lemma destroy_loop_ub k : forall rmaps, length rmaps <= k -> destroy_loop k rmaps = UB.
Proof.
  induction k as [|k IH]; intros [|m ms] H; cbn [length] in H; try lia; cbn [destroy_loop]; try reflexivity.
  rewrite IH by lia. reflexivity.
Qed.
(** Building and destroying deletes every map and every array exactly once *)
Theorem C59_destroy coarsenings breakdown :
  let '(maps, deleted, allocated) := maps_after_build coarsenings breakdown in
  exists e, destroy (S coarsenings) maps = Ok e /\
    Permutation (deleted ++ e) (flat_map (fun m => [DeleteArray m; DeleteMap m]) (seq 0 allocated)).
Proof.
  unfold maps_after_build, destroy. set (l := if breakdown then S coarsenings else coarsenings).
  rewrite destroy_loop_ok by (rewrite rev_length, app_length, seq_length; cbn; lia).
  eexists. split; [reflexivity|]. rewrite firstn_all2 by (rewrite rev_length, app_length, seq_length; cbn; lia).
  transitivity (flat_map (fun m => [DeleteArray m; DeleteMap m]) ((if breakdown then [coarsenings] else []) ++ rev (seq 0 coarsenings ++ [l]))).
  { rewrite flat_map_app. apply Permutation_app_tail. destruct breakdown; reflexivity. }
  apply Permutation_flat_map. rewrite <- Permutation_rev. subst l. destruct breakdown; cbn [app].
  - rewrite !seq_S. cbn [Nat.add]. rewrite <- app_assoc. cbn [app]. apply Permutation_middle.
  - rewrite seq_S. reflexivity.
Qed.
(** ... but a hierarchy that has never been built (or whose build was interrupted before the first map was stored) has a level and no map *)
Theorem C59_destroy_unbuilt_refuted : destroy 1 [] = UB.
Proof. reflexivity. Qed.

(** ** Non-vacuity *)
(** The Laplace matrix of a path of 12 vertices; everything is strongly connected *)
Definition exlap (n : nat) : smat Zring :=
  map (fun i => (if 0 <? i then [(i - 1, (-1)%Z)] else []) ++ [(i, 2%Z)] ++ (if S i <? n then [(S i, (-1)%Z)] else [])) (seq 0 n).
Definition exbuild_hier : outcome (option (list (@mlevel Zring) * smat Zring)) :=
  build (R := Zring) (fun _ _ => yes2) (fun _ _ => yes2) (fun _ _ => no1) (fun _ _ => no1) 2 3 2 15 false Q exquot (-1)%Q Qeq_bool exgt 5 2 (6#5) (exlap 12).
Example C59_nonvacuous : exists ls C, exbuild_hier = Ok (Some (ls, C)) /\ map (fun l => length (fst l)) ls = [12; 6; 3] /\ length C = 1.
Proof. eexists. eexists. split; [vm_compute; reflexivity|]. vm_compute. auto. Qed.
Example C59_nonvacuous_hyp : mat_wf 12 12 (exlap 12) /\ sym_pat (exlap 12) /\ sym 12 (exlap 12).
Proof.
  split; [split; [reflexivity|]; vm_compute; repeat (constructor; [split; repeat constructor|]); constructor|]. split.
  - intros i j Hi. unfold instored. do 12 (destruct i as [|i]; [vm_compute; intuition (subst; vm_compute; auto)|]). cbn in Hi. lia.
  - intros i j Hi Hj. do 12 (destruct i as [|i]; [do 12 (destruct j as [|j]; [reflexivity|]); lia|]). lia.
Qed.
(** with two levels above a coarsest one of 2 unknowns: a random stream 1, 0, 1, 0, ... *)
Example C59_nonvacuous_coarsest :
  match build (R := Zring) (fun _ _ => yes2) (fun _ _ => yes2) (fun _ _ => no1) (fun _ _ => no1) 2 3 2 15 false Q exquot (-1)%Q Qeq_bool exgt 5 2 (6#5) (exlap 8) with
  | Ok (Some (ls, _)) => map (fun l => length (fst l)) ls = [8; 4] /\
      coarsest_on_finest 5 (fun p => (S p) mod 2) (maps_of ls) = Ok (Some [0; 0; 0; 0; 1; 1; 1; 1]%Z)
  | _ => False
  end.
Proof. vm_compute. auto. Qed.
