(** * Parallel Galerkin product and grid transfer (C74): GalerkinProduct<T>::build and BaseGalerkinProduct::calculate with a parallel information object (paamg/galerkin.hh),
    Transfer<V,V1,OwnerOverlapCopyCommunication> (paamg/transfer.hh) *)
From Coq Require Import Arith List Lia Bool Sorted Permutation ZArith.
From Verif Require Import Ring RingInst Sums Outcome Sparse MatVec AmgTransfer Bfs AggPattern Parallel ParComm ParOps ParCoarsen.
Import ListNotations.
Open Scope nat_scope.

(** ** Pattern of the coarse matrix on one process *)
Section Pattern.
  Variable adj : nat -> list nat.             (* the graph of the local matrix *)
  Variable agg : nat -> aggd.                 (* the published aggregates map *)
  Variable ovl : nat -> bool.                 (* lookup.pair(v) != 0 and overlap contains its attribute *)
  Variable nonov : bool.                      (* SolverCategory::nonoverlapping *)
  (** OVLess, galerkin.hh:141-148, on aggregate numbers: ISOLATED and UNAGGREGATED are the largest *)
  Definition agg_le (a b : aggd) : Prop := match a, b with Agg i, Agg j => i <= j | Agg _, _ => True | Iso, Agg _ => False | Iso, _ => True | Unagg, Unagg => True | Unagg, _ => False end.
  (** buildOverlapVertices, :368-417: the overlap vertices, sorted by aggregate; std::sort leaves the order within an aggregate open.
      (The expression overlapCount=0 ? 1 : overlapCount, :397, assigns overlapCount to itself.) *)
  Definition overlap_vertices (n : nat) (ov : list nat) : Prop := Permutation ov (filter ovl (seq 0 n)) /\ StronglySorted (fun v w => agg_le (agg v) (agg w)) ov.
  (** SparsityBuilder and the pointer overlapVertices *)
  Definition ov_state : Type := (sp_state * list nat)%type.
  Definition connect1 (st : ov_state) (t : nat) : ov_state := (connect agg (fst st) t, snd st).
  (** constructOverlapConnectivity, :330-350: the loop over the vertices of the aggregate; [k] = row.index() *)
  Fixpoint overlap_row (k : nat) (ov : list nat) (st : sp_state) : ov_state :=
    match ov with
    | nil => (st, nil)
    | v :: t => if aggd_eqb (agg v) (Agg k) then overlap_row k t (fold_left (connect agg) (adj v) (fst st, ins k (snd st))) else (st, ov)
    end.
  Definition constructOverlap (st : ov_state) : ov_state :=
    match snd st with
    | nil => st
    | v :: _ => if aggd_eqb (agg v) (Agg (length (fst (fst st)))) then overlap_row (length (fst (fst st))) (snd st) (fst st) else st
    end.
  Definition next_row (st : ov_state) : ov_state := ((fst (fst st) ++ [snd (fst st)], []), snd st).
  (** the body of the first loop after the search, :452-465 *)
  Definition after_owner (st : ov_state) (v : nat) : ov_state :=
    next_row (if nonov then match snd st with nil => st | w :: t => if aggd_eqb (agg w) Iso then (fst st, t) else constructOverlap st end else st).
  (** the second loop, :471-487; incrementing the row iterator past the last row is undefined *)
  Fixpoint overlap_loop (fuel size : nat) (st : ov_state) : outcome (option (list (list nat))) :=
    match snd st with
    | nil => if length (fst (fst st)) =? size then Ok (Some (fst (fst st))) else UB
    | w :: t => match fuel with
                | 0 => Ok None
                | S f => if aggd_eqb (agg w) Iso then overlap_loop f size (fst st, t)
                         else if size <=? length (fst (fst st)) then UB else overlap_loop f size (next_row (constructOverlap st))
                end
    end.
  (** GalerkinProduct<T>::build, :553-597, with ConnectivityConstructor<G,T>::examine, :419-488 *)
  Definition build_parallel (n size : nat) (ov : list nat) : outcome (option (list (list nat))) :=
    if existsb (fun v => aggd_eqb (agg v) Unagg) (seq 0 n) then Throw EAbort else
    obind (sweep adj (fun _ : ov_state => agg) (fun st _ => st) connect1 (fun _ v => ovl v) (fun st v => obind (seed_row agg (fst st) v) (fun s1 => Ok (s1, snd st))) after_owner
             (S n) (seq 0 n) (fun v => aggd_eqb (agg v) Iso) (([], []), ov))
      (fun o => match o with None => Ok None | Some r => overlap_loop (size + length ov) size (snd r) end).

  Variables (n K1 : nat).
  Hypothesis targets : forall v t, v < n -> In t (adj v) -> t < n.
  (** aggregates of the vertices that are not overlap: connected from the lowest vertex and numbered in the order of their lowest vertices *)
  Definition own1 (v : nat) : aggd := if ovl v then Iso else agg v.
  Hypothesis trav : traversable adj own1 n.
  Hypothesis numbered : forall v r, v < n -> own1 v <> Iso -> root_of own1 r v -> agg v = Agg (rank own1 r).
  Hypothesis all_ok : agg_ok agg n K1.
  (** the remaining numbers belong to overlap vertices; in the overlapping case these have no others *)
  Hypothesis cover : forall k, rank own1 n <= k < K1 -> exists v, v < n /\ ovl v = true /\ agg v = Agg k.
  Hypothesis high : forall v k, v < n -> ovl v = true -> agg v = Agg k -> nonov = true \/ rank own1 n <= k.

  (** the row of aggregate k has been completed by the overlap vertices in a list *)
  Definition ov_ok (m : nat) (ov : list nat) : Prop :=
    StronglySorted (fun v w => agg_le (agg v) (agg w)) ov /\ (forall w, In w ov -> w < n /\ ovl w = true) /\
    (forall w k, In w ov -> agg w = Agg k -> m <= k) /\ (forall w k, w < n -> ovl w = true -> agg w = Agg k -> m <= k -> In w ov).

  Lemma fold_connect ts : forall st : sp_state, StronglySorted lt (snd st) -> fst (fold_left (connect agg) ts st) = fst st /\ StronglySorted lt (snd (fold_left (connect agg) ts st)) /\
    forall J, In J (snd (fold_left (connect agg) ts st)) <-> In J (snd st) \/ exists t, In t ts /\ agg t = Agg J.
  Proof.
    induction ts as [|t ts IH]; intros st HS; cbn [fold_left].
    - split; auto. split; auto. intros J. split; auto. intros [H|(t & [] & _)]; auto.
    - assert (HC : fst (connect agg st t) = fst st /\ StronglySorted lt (snd (connect agg st t)) /\ forall J, In J (snd (connect agg st t)) <-> In J (snd st) \/ agg t = Agg J).
      { unfold connect. destruct (agg t) as [| |J0]; cbn [fst snd]; [split; [reflexivity|]; split; [assumption|]; intros J; split; [left; assumption|intros [H|H]; [assumption|discriminate]]|split; [reflexivity|]; split; [assumption|]; intros J; split; [left; assumption|intros [H|H]; [assumption|discriminate]]|]. split; auto. split; [apply ins_sorted; auto|]. intros J. rewrite (ins_in adj agg).
        split; [intros [H|H]; [right; congruence|left; exact H]|intros [H|H]; [right; exact H|left; congruence]].
 }
      destruct HC as (C1 & C2 & C3). destruct (IH (connect agg st t) C2) as (I1 & I2 & I3). split; [congruence|]. split; auto. intros J. rewrite I3, C3. split.
      + intros [[H|H]|(t' & H1 & H2)]; auto; right; [exists t|exists t']; split; auto; [left|right]; auto.
      + intros [H|(t' & [<-|H1] & H2)]; auto. right. exists t'. auto.
  Qed.
  Lemma overlap_row_spec k : forall ov (st : sp_state), StronglySorted lt (snd st) -> StronglySorted (fun v w => agg_le (agg v) (agg w)) ov -> (forall w k', In w ov -> agg w = Agg k' -> k <= k') -> (forall w, In w ov -> agg w <> Unagg) ->
    fst (fst (overlap_row k ov st)) = fst st /\ StronglySorted lt (snd (fst (overlap_row k ov st))) /\
    (forall J, In J (snd (fst (overlap_row k ov st))) <-> In J (snd st) \/ exists v, In v ov /\ agg v = Agg k /\ (J = k \/ exists t, In t (adj v) /\ agg t = Agg J)) /\
    StronglySorted (fun v w => agg_le (agg v) (agg w)) (snd (overlap_row k ov st)) /\ (forall w, In w (snd (overlap_row k ov st)) <-> In w ov /\ agg w <> Agg k).
  Proof.
    induction ov as [|v t IH]; intros st HS HO HK HU; cbn [overlap_row].
    - cbn [fst snd]. split; auto. split; auto. split; [|split; auto; intros w; split; [intros []|intros [[] _]]]. intros J. split; auto. intros [H|(v & [] & _)]; auto.
    - pose proof (StronglySorted_inv HO) as [O1 O2]. destruct (aggd_eqb_spec (agg v) (Agg k)) as [E|E].
      + destruct (fold_connect (adj v) (fst st, ins k (snd st)) (ins_sorted adj agg _ _ HS)) as (F1 & F2 & F3). destruct (IH (fold_left (connect agg) (adj v) (fst st, ins k (snd st))) F2 O1) as (I1 & I2 & I3 & I4 & I5).
        { intros w k' Hw. apply HK. right; auto. } { intros w Hw. apply HU. right; auto. }
        split; [rewrite I1, F1; reflexivity|]. split; auto. split; [|split; auto].
        * intros J. rewrite I3, F3. cbn [snd]. rewrite (ins_in adj agg). split.
          -- intros [[[->|HJ]|(t' & H1 & H2)]|(w & W1 & W2 & W3)].
             ++ right. exists v. split; [left; reflexivity|]. split; [exact E|left; reflexivity].
             ++ left. exact HJ.
             ++ right. exists v. split; [left; reflexivity|]. split; [exact E|right; exists t'; auto].
             ++ right. exists w. split; [right; exact W1|auto].
          -- intros [HJ|(w & [<-|W1] & W2 & W3)].
             ++ left. left. right. exact HJ.
             ++ left. destruct W3 as [->|(t' & H1 & H2)]; [left; left; reflexivity|right; exists t'; auto].
             ++ right. exists w. auto.
        * intros w. rewrite I5. cbn [In]. split; [intros [H1 H2]; auto|]. intros [[<-|H1] H2]; [contradiction|auto].
      + cbn [fst snd]. assert (N : forall w, In w (v :: t) -> agg w <> Agg k).
        { intros w [<-|Hw] EW; [auto|]. rewrite Forall_forall in O2. specialize (O2 w Hw). rewrite EW in O2. destruct (agg v) as [| |kv] eqn:EV; cbn [agg_le] in O2; auto. specialize (HK v kv (or_introl eq_refl) EV). assert (kv = k) by lia. congruence. }
        split; auto. split; auto. split; [|split; auto].
        * intros J. split; auto. intros [H|(w & W1 & W2 & _)]; auto. exfalso. apply (N w W1 W2).
        * intros w. split; [intros H; split; auto|tauto].
  Qed.
  Lemma constructOverlap_row st : constructOverlap st = overlap_row (length (fst (fst st))) (snd st) (fst st).
  Proof. unfold constructOverlap. destruct st as [s [|v t]]; cbn [fst snd]; [reflexivity|]. cbn [overlap_row]. destruct (aggd_eqb (agg v) (Agg (length (fst s)))); reflexivity. Qed.
  Lemma no_unagg v : v < n -> agg v <> Unagg.
  Proof. intros Hv E. destruct (all_ok v Hv) as [H|[k [_ H]]]; congruence. Qed.

  Lemma own1_some v : own1 v <> Iso -> ovl v = false /\ own1 v = agg v.
  Proof. unfold own1. destruct (ovl v); [congruence|auto]. Qed.
  (** the search from an owned vertex reaches exactly the owned vertices of its aggregate, and possibly overlap vertices of it *)
  Lemma closure_own vis s w : own1 s <> Iso -> closure adj own1 vis s w -> closure adj agg vis s w.
  Proof.
    intros Hs H. destruct (own1_some s Hs) as [S1 S2]. induction H as [|x y Hx IH Hy E HV]; [constructor|]. apply (cl_e adj agg vis s x y); auto. assert (N : own1 y <> Iso) by congruence. destruct (own1_some y N) as [Y1 Y2]. congruence.
  Qed.

  Lemma rank_le : rank own1 n <= K1.
  Proof.
    destruct (rank own1 n) as [|m] eqn:E; [lia|]. destruct (rank_onto own1 m n) as (v & V1 & V2 & V3); [lia|]. apply isroot_spec in V2. destruct V2 as [V2 V4]. specialize (numbered v v V1 V2 V4).
    destruct (all_ok v V1) as [H|[k [Hk H]]]; [congruence|]. rewrite numbered in H. injection H as H. lia.
  Qed.

  Lemma owner_sweep j : forall i vis (st : ov_state), i + j = n -> VI own1 n vis i -> (forall w, w < n -> agg w = Iso -> vis w = true) -> rows_ok adj agg n (fst (fst st)) -> snd (fst st) = [] -> length (fst (fst st)) = rank own1 i ->
    ov_ok (if nonov then rank own1 i else 0) (snd st) ->
    exists vis1 st1, sweep adj (fun _ : ov_state => agg) (fun st _ => st) connect1 (fun _ v => ovl v) (fun st v => obind (seed_row agg (fst st) v) (fun s1 => Ok (s1, snd st))) after_owner
             (S n) (seq i j) vis st = Ok (Some (vis1, st1)) /\
      rows_ok adj agg n (fst (fst st1)) /\ snd (fst st1) = [] /\ length (fst (fst st1)) = rank own1 n /\ ov_ok (if nonov then rank own1 n else 0) (snd st1) /\ length (snd st1) <= length (snd st).
  Proof.
    induction j as [|j IH]; intros i vis st Hik HV HI HR HS HL HO; cbn [seq sweep].
    - replace i with n in * by lia. exists vis, st. auto 10.
    - assert (Hi : i < n) by lia. destruct (ovl i || vis i) eqn:EV.
      + assert (RS : rank own1 (S i) = rank own1 i).
        { rewrite rank_S. destruct (isroot own1 i) eqn:EI; [|lia]. exfalso. apply isroot_spec in EI. destruct EI as [E1 E2]. destruct (own1_some i E1) as [E3 E4]. rewrite E3 in EV. cbn [orb] in EV. apply (HV i Hi E1) in EV. destruct EV as [r [R1 R2]]. assert (r = i) by (apply (root_unique own1 r i i); auto). lia. }
        apply IH; auto; [lia| |lia|rewrite RS; auto]. apply VI_skip; auto. unfold own1. destruct (ovl i); [auto|]. cbn [orb] in EV. auto.
      + apply orb_false_iff in EV. destruct EV as [EO EV]. assert (E1 : agg i <> Iso). { intros E. rewrite (HI i Hi E) in EV. discriminate. }
        assert (EOW : own1 i = agg i) by (unfold own1; rewrite EO; auto). assert (E2 : own1 i <> Iso) by congruence. destruct (seed adj own1 n targets trav vis i HV Hi E2 EV) as [RI CL].
        assert (EA : agg i = Agg (rank own1 i)) by (apply numbered; auto). set (K := rank own1 i) in *.
        pose (s0 := (fst (fst st), [K]) : sp_state). assert (SR : seed_row agg (fst st) i = Ok s0). { unfold seed_row. rewrite EA, HS. rewrite HL. rewrite Nat.eqb_refl. reflexivity. }
        rewrite SR. cbn [obind].
        destruct (breadthFirstSearch_spec adj (fun _ : ov_state => agg) (fun st _ => st) connect1 n agg targets i vis
                   (fun vis' st' => snd st' = snd st /\ fst (fst st') = fst (fst st) /\ StronglySorted lt (snd (fst st')) /\ In K (snd (fst st')) /\ (forall J, In J (snd (fst st')) -> J = K \/ coupled adj agg n K J))
                   (fun st' t => forall J, agg t = Agg J -> In J (snd (fst st'))) Hi EV) with (st0 := (s0, snd st)) as (vis1 & st1 & F1 & (F0 & F2 & F3 & F4 & F5) & F6 & F7); auto.
        * intros vis' st' x t (G0 & G1 & G2 & G3 & G4) Hx Ht HN. unfold connect1, connect. destruct (agg t) as [| |J] eqn:ET; auto. cbn [fst snd]. split; auto. split; auto. split; [apply ins_sorted; auto|]. split; [apply (ins_in adj agg); auto|].
          intros J' HJ. apply (ins_in adj agg) in HJ. destruct HJ as [->|HJ]; auto. right. exists x, t. split; [apply (closure_lt adj n agg targets vis i x Hi Hx)|]. split; auto. split; auto. rewrite (closure_agg adj agg vis i x Hx). exact EA.
        * intros st' t J EJ. unfold connect1, connect. rewrite EJ. cbn [fst snd]. apply (ins_in adj agg). auto.
        * intros st' t u HS'. split; auto. intros J EJ. unfold connect1, connect. destruct (agg t) as [| |J'] eqn:ET; cbn [fst snd]; auto. apply (ins_in adj agg). right. auto.
        * intros vis' st' y _ EE NN. congruence.
        * cbn [fst snd]. split; auto. split; auto. split; [repeat constructor|]. split; [left; auto|]. intros J [<-|[]]. auto.
        * rewrite F1.
          assert (RK : rank own1 (S i) = S K) by (rewrite rank_S; replace (isroot own1 i) with true by (symmetry; apply isroot_spec; auto); unfold K; lia).
          assert (KN : S K <= rank own1 n) by (rewrite <- RK; apply rank_mono; lia).
          (* the couplings of the owned vertices are in the row *)
          assert (OWNC : forall x t J, x < n -> ovl x = false -> agg x = Agg K -> In t (adj x) -> agg t = Agg J -> In J (snd (fst st1))).
          { intros x t J X1 XO X3 X2 X4. destruct (Nat.eq_dec J K) as [->|HJ]; auto. apply (F7 x t); auto; [|rewrite EA; congruence]. apply closure_own; auto. apply (CL x X1). unfold own1. rewrite XO, EO. congruence. }
          set (st2 := if nonov then match snd st1 with nil => st1 | w :: t => if aggd_eqb (agg w) Iso then (fst st1, t) else constructOverlap st1 end else st1).
          assert (Q : fst (fst st2) = fst (fst st) /\ row_ok adj agg n K (snd (fst st2)) /\ ov_ok (if nonov then S K else 0) (snd st2) /\ length (snd st2) <= length (snd st)).
          { unfold st2. rewrite <- F0 in HO |- *. destruct HO as (O1 & O2 & O3 & O4). destruct nonov eqn:EN.
            - assert (BASE : row_ok adj agg n K (snd (fst (overlap_row K (snd st1) (fst st1)))) /\ fst (fst (overlap_row K (snd st1) (fst st1))) = fst (fst st) /\ ov_ok (S K) (snd (overlap_row K (snd st1) (fst st1)))).
              { destruct (overlap_row_spec K (snd st1) (fst st1)) as (P1 & P2 & P3 & P4 & P5); auto. { intros w Hw. apply no_unagg. apply O2; auto. }
                split; [|split; [congruence|]].
                - split; auto. intros J. rewrite P3. split.
                  + intros [H|(v & V1 & V2 & [->|(t & T1 & T2)])]; auto. right. exists v, t. split; [apply O2; auto|auto].
                  + intros [->|(x & t & X1 & X2 & X3 & X4)]; auto. destruct (ovl x) eqn:XO; [|left; apply (OWNC x t); auto]. right. exists x. split; [apply (O4 x K); auto|]. split; auto. right. exists t. auto.
                - split; auto. split; [intros w Hw; apply P5 in Hw; apply O2; tauto|]. split.
                  + intros w k Hw EW. apply P5 in Hw. destruct Hw as [W1 W2]. specialize (O3 w k W1 EW). assert (k <> K) by congruence. lia.
                  + intros w k W1 W2 W3 W4. apply P5. split; [apply (O4 w k); auto; lia|]. rewrite W3. intros EQ. injection EQ as EQ. lia. }
              assert (LEN : forall k ov s, length (snd (overlap_row k ov s)) <= length ov). { clear. induction ov as [|v t IH]; intros s; cbn [overlap_row snd length]; auto. destruct (aggd_eqb (agg v) (Agg k)); [specialize (IH (fold_left (connect agg) (adj v) (fst s, ins k (snd s)))); lia|cbn [snd length]; auto]. }
              destruct (snd st1) as [|w t] eqn:ES.
              + cbn [overlap_row fst snd] in BASE. rewrite ES. destruct BASE as (B1 & B2 & B3). split; [exact B2|]. split; [exact B1|]. split; [exact B3|apply le_n].
              + destruct (aggd_eqb_spec (agg w) Iso) as [EW|EW].
                * cbn [overlap_row] in BASE. rewrite EW in BASE. cbn [aggd_eqb fst snd] in BASE. destruct BASE as (B1 & B2 & (B3 & B4 & B5 & B6)). cbn [fst snd]. split; auto. split; auto. split; [|cbn [length]; lia].
                  pose proof (StronglySorted_inv B3) as [B7 B8]. split; auto. split; [intros u Hu; apply B4; right; auto|]. split; [intros u k Hu; apply B5; right; auto|].
                  intros u k U1 U2 U3 U4. destruct (B6 u k U1 U2 U3 U4) as [<-|H]; auto. congruence.
                * rewrite constructOverlap_row. replace (length (fst (fst st1))) with K by (rewrite F2; auto). rewrite ES. destruct BASE as (B1 & B2 & B3). split; auto.
            - split; [exact F2|]. split; [|split; [split; [exact O1|split; [exact O2|split; [exact O3|exact O4]]]|apply le_n]]. split; auto. intros J. split; [apply F5|]. intros [->|(x & t & X1 & X2 & X3 & X4)]; auto. apply (OWNC x t); auto.
              destruct (ovl x) eqn:XO; auto. exfalso. destruct (high x K X1 XO X3) as [H|H]; [discriminate|]. lia.
 }
          destruct Q as (Q1 & Q2 & Q3 & Q4).
          assert (HRW : rows_ok adj agg n (fst (fst st2) ++ [snd (fst st2)])).
          { intros I0 HI0. rewrite Q1 in *. rewrite app_length in HI0. cbn [length] in HI0. destruct (Nat.lt_ge_cases I0 (length (fst (fst st)))) as [H|H]; [rewrite app_nth1 by auto; apply HR; auto|].
            replace I0 with (length (fst (fst st))) by lia. rewrite nth_middle. rewrite HL. exact Q2. }
          destruct (IH (S i) vis1 (after_owner st1 i)) as (vis2 & st3 & T1 & T2 & T3 & T4 & T5 & T6).
          -- lia.
          -- intros w Hw HW. assert (CW : closure adj agg vis i w <-> own1 w = own1 i).
             { split; [intros C; apply closure_agg in C; destruct (own1_some w HW); congruence|]. intros C. apply closure_own; auto. apply (CL w Hw). auto. }
             rewrite F6, (HV w Hw HW), CW. split.
             ++ intros [[r [H1 H2]]|E]; [exists r; split; auto|]. exists i. split; [apply (root_same own1 i i); auto|lia].
             ++ intros [r [H1 H2]]. destruct (Nat.eq_dec r i) as [->|]; [right; symmetry; apply H1|]. left. exists r. split; auto. lia.
          -- intros w Hw HW. apply F6. left. auto.
          -- exact HRW.
          -- reflexivity.
          -- unfold after_owner. fold st2. cbn [next_row fst]. rewrite app_length, Q1, HL, RK. cbn [length]. lia.
          -- unfold after_owner. fold st2. cbn [next_row snd]. rewrite RK. exact Q3.
          -- exists vis2, st3. repeat (split; [assumption|]). unfold after_owner in T6. fold st2 in T6. cbn [next_row snd] in T6. lia.
  Qed.

  Lemma overlap_loop_spec fuel : forall st : ov_state, length (snd st) <= fuel -> rows_ok adj agg n (fst (fst st)) -> snd (fst st) = [] -> rank own1 n <= length (fst (fst st)) <= K1 -> ov_ok (length (fst (fst st))) (snd st) ->
    exists rows, overlap_loop fuel K1 st = Ok (Some rows) /\ length rows = K1 /\ rows_ok adj agg n rows.
  Proof.
    induction fuel as [|f IH]; intros st HF HR HS HL HO.
    - destruct (snd st) as [|w t] eqn:ES; [|cbn in HF; lia]. unfold overlap_loop. rewrite ES. destruct HO as (_ & _ & _ & O4).
      destruct (Nat.eqb_spec (length (fst (fst st))) K1) as [E|E]; [eauto|]. exfalso. destruct (cover (length (fst (fst st)))) as (v & V1 & V2 & V3); [lia|]. apply (O4 v _ V1 V2 V3). auto.
    - cbn [overlap_loop]. destruct (snd st) as [|w t] eqn:ES.
      + destruct HO as (_ & _ & _ & O4). destruct (Nat.eqb_spec (length (fst (fst st))) K1) as [E|E]; [eauto|]. exfalso. destruct (cover (length (fst (fst st)))) as (v & V1 & V2 & V3); [lia|]. apply (O4 v _ V1 V2 V3). auto.
      + pose proof HO as (O1 & O2 & O3 & O4). pose proof (StronglySorted_inv O1) as [O5 O6]. destruct (aggd_eqb_spec (agg w) Iso) as [EW|EW].
        * apply IH; cbn [fst snd]; auto; [cbn [length] in HF; lia|]. split; auto. split; [intros u Hu; apply O2; right; auto|]. split; [intros u k Hu; apply O3; right; auto|].
          intros u k U1 U2 U3 U4. destruct (O4 u k U1 U2 U3 U4) as [<-|H]; auto. congruence.
        * destruct (O2 w (or_introl eq_refl)) as [W1 W2]. destruct (all_ok w W1) as [H|[k [Hk EK]]]; [congruence|]. pose proof (O3 w k (or_introl eq_refl) EK) as HM. set (m := length (fst (fst st))) in *.
          destruct (Nat.leb_spec K1 m); [lia|]. assert (KM : k = m).
          { destruct (cover m) as (v & V1 & V2 & V3); [lia|]. destruct (O4 v m V1 V2 V3 (le_n m)) as [<-|HV]; [congruence|]. rewrite Forall_forall in O6. specialize (O6 v HV). rewrite EK, V3 in O6. cbn [agg_le] in O6. lia. }
          subst k. rewrite constructOverlap_row. fold m. rewrite ES. destruct (overlap_row_spec m (w :: t) (fst st)) as (P1 & P2 & P3 & P4 & P5); auto.
          { rewrite HS. constructor. } { intros u Hu. apply no_unagg. apply O2; auto. }
          apply IH.
          -- cbn [next_row snd]. cbn [length] in HF. cbn [overlap_row]. rewrite EK, aggd_eqb_refl.
             assert (LEN : forall k ov s, length (snd (overlap_row k ov s)) <= length ov). { clear. induction ov as [|v t IH]; intros s; cbn [overlap_row snd length]; auto. destruct (aggd_eqb (agg v) (Agg k)); [specialize (IH (fold_left (connect agg) (adj v) (fst s, ins k (snd s)))); lia|cbn [snd length]; auto]. }
             specialize (LEN m t (fold_left (connect agg) (adj w) (fst (fst st), ins m (snd (fst st))))). lia.
          -- cbn [next_row fst]. rewrite P1. intros I0 HI0. rewrite app_length in HI0. cbn [length] in HI0. destruct (Nat.lt_ge_cases I0 m) as [H'|H']; [rewrite app_nth1 by auto; apply HR; auto|].
             replace I0 with (length (fst (fst st))) by (unfold m in *; lia). rewrite nth_middle. fold m. split; auto. intros J. rewrite P3, HS. split.
             ++ intros [[]|(v & V1 & V2 & [->|(t' & T1 & T2)])]; auto. right. exists v, t'. split; [apply O2; auto|auto].
             ++ intros [->|(x & t' & X1 & X2 & X3 & X4)]; right; [exists w; split; [left; auto|auto]|]. assert (XO : ovl x = true).
                { destruct (ovl x) eqn:XO; auto. exfalso. assert (EX : own1 x = Agg m) by (unfold own1; rewrite XO; auto). destruct (root_exists own1 x) as [r Hr]. assert (NX : own1 x <> Iso) by congruence. pose proof (numbered x r X1 NX Hr) as NR. rewrite X3 in NR. injection NR as NR.
                  pose proof (root_le own1 r x Hr). assert (IR : isroot own1 r = true). { apply isroot_spec. split; [destruct Hr as [-> _]; auto|apply (root_root own1 r x Hr)]. }
                  pose proof (rank_mono own1 (S r) n ltac:(lia)) as RM. rewrite rank_S, IR in RM. lia. }
                exists x. split; [apply (O4 x m); auto|]. split; auto. right. exists t'. auto.
          -- reflexivity.
          -- cbn [next_row fst]. rewrite P1, app_length. cbn [length]. fold m. lia.
          -- cbn [next_row fst snd]. rewrite P1, app_length. cbn [length]. fold m. split; auto. split; [intros u Hu; apply P5 in Hu; apply O2; tauto|]. split.
             ++ intros u k Hu EU. apply P5 in Hu. destruct Hu as [U1 U2]. specialize (O3 u k U1 EU). assert (k <> m) by congruence. lia.
             ++ intros u k U1 U2 U3 U4. apply P5. split; [apply (O4 u k); auto; lia|]. rewrite U3. intros EQ. injection EQ as EQ. lia.
  Qed.
  (** C74 (pattern): whatever order std::sort leaves, no assertion fails and the row iterator does not leave the matrix; row I has column J iff I = J or the local graph couples the aggregates *)
  Theorem C74_pattern ov : overlap_vertices n ov -> exists rows, build_parallel n K1 ov = Ok (Some rows) /\ length rows = K1 /\ forall I0, I0 < K1 -> row_ok adj agg n I0 (nth I0 rows nil).
  Proof.
    intros [OP OS]. unfold build_parallel. destruct (existsb (fun v => aggd_eqb (agg v) Unagg) (seq 0 n)) eqn:E.
    { exfalso. apply existsb_exists in E. destruct E as [v [H1 H2]]. apply in_seq in H1. destruct (aggd_eqb_spec (agg v) Unagg); [|discriminate]. apply (no_unagg v); auto. lia. }
    assert (INV : forall w, In w ov <-> w < n /\ ovl w = true).
    { intros w. split; [intros H; apply (Permutation_in _ OP) in H; apply filter_In in H; destruct H as [H1 H2]; apply in_seq in H1; split; auto; lia|]. intros [H1 H2]. apply (Permutation_in _ (Permutation_sym OP)). apply filter_In. split; auto. apply in_seq. lia. }
    destruct (owner_sweep n 0 (fun v => aggd_eqb (agg v) Iso) (([], []), ov)) as (vis1 & st1 & E1 & R & RS & L & O & LO); auto.
    - intros w Hw HI. destruct (own1_some w HI) as [_ EE]. split; [destruct (aggd_eqb_spec (agg w) Iso); congruence|]. intros [r [_ Hr]]. lia.
    - intros w Hw HI. rewrite HI. reflexivity.
    - intros I0 H. cbn in H. lia.
    - cbn [snd]. destruct nonov; (split; [auto|split; [intros w Hw; apply INV; auto|split; [intros; cbn; lia|intros w k W1 W2 _ _; apply INV; auto]]]).
    - rewrite E1. cbn [obind snd]. cbn [snd] in LO. destruct (overlap_loop_spec (K1 + length ov) st1) as (rows & F1 & F2 & F3); auto; [lia|rewrite L; split; [auto|apply rank_le]| |].
      + rewrite L. destruct nonov eqn:EN; auto. destruct O as (O1 & O2 & O3 & O4). split; auto. split; auto. split.
        * intros w k Hw EW. destruct (O2 w Hw) as [W1 W2]. destruct (high w k W1 W2 EW) as [H|H]; [discriminate|auto].
        * intros w k W1 W2 W3 _. apply (O4 w k); auto. lia.
      + exists rows. split; auto. split; auto. intros I0 HI. apply F3. lia.
  Qed.
End Pattern.

(** ** Values *)
Section Diagonals.
  Context {R : ring}.
  Local Open Scope ring_scope_istl.
  Lemma row_get_some (row : srow R) j : In j (map fst row) -> row_get row j = Some (denrow row j).
  Proof. induction row as [|[k v] t IH]; cbn [map row_get denrow fst In]; [intros []|]. intros [->|H]; [rewrite Nat.eqb_refl; auto|]. destruct (k =? j); auto. Qed.
  Lemma row_set_some (row : srow R) j a : In j (map fst row) -> exists row', row_set row j a = Some row' /\ map fst row' = map fst row /\ forall i, denrow row' i = if i =? j then a else denrow row i.
  Proof.
    induction row as [|[k v] t IH]; cbn [map row_set denrow fst In]; [intros []|]. intros H. destruct (Nat.eqb_spec k j) as [->|Hn].
    - eexists. split; [reflexivity|]. split; auto. intros i. cbn [denrow]. rewrite (Nat.eqb_sym i j). destruct (Nat.eqb_spec j i); auto.
    - destruct H as [H|H]; [congruence|]. destruct (IH H) as (r' & E & M & D). rewrite E. cbn [option_map]. eexists. split; [reflexivity|]. split; [cbn [map fst]; congruence|]. intros i. cbn [denrow]. rewrite D. destruct (Nat.eqb_spec k i) as [->|]; auto. destruct (Nat.eqb_spec i j); congruence.
  Qed.
  Lemma diags_spec (C : smat R) : forall r, (forall l, l < length C -> In (r + l)%nat (map fst (nth l C nil))) -> exists d, diags r C = Ok d /\ length d = length C /\ forall l, l < length C -> nth l d r0 = denrow (nth l C nil) (r + l)%nat.
  Proof.
    induction C as [|row t IH]; intros r H; cbn [diags]; [exists nil; repeat split; intros l Hl; cbn in Hl; lia|]. pose proof (H 0 ltac:(cbn; lia)) as H0. cbn [nth] in H0. rewrite Nat.add_0_r in H0. rewrite (row_get_some row r H0).
    destruct (IH (S r)) as (d & E & L & V). { intros l Hl. replace (S r + l)%nat with (r + S l)%nat by lia. apply (H (S l)). cbn. lia. }
    rewrite E. cbn [obind]. eexists. split; [reflexivity|]. split; [cbn; lia|]. intros [|l] Hl; cbn [nth]; [rewrite Nat.add_0_r; auto|]. rewrite V by (cbn in Hl; lia). f_equal. lia.
  Qed.
  Lemma set_diags_spec (C : smat R) : forall r d, (forall l, l < length C -> In (r + l)%nat (map fst (nth l C nil))) -> length d = length C ->
    exists C', set_diags r C d = Ok C' /\ pat C' = pat C /\ forall l J, l < length C -> denrow (nth l C' nil) J = if J =? (r + l)%nat then nth l d r0 else denrow (nth l C nil) J.
  Proof.
    induction C as [|row t IH]; intros r d H HL; cbn [set_diags]; [exists nil; repeat split; intros l J Hl; cbn in Hl; lia|]. pose proof (H 0 ltac:(cbn; lia)) as H0. cbn [nth] in H0. rewrite Nat.add_0_r in H0. destruct d as [|a d]; [cbn in HL; lia|]. cbn [hd tl].
    destruct (row_set_some row r a H0) as (row' & E1 & M1 & D1). rewrite E1. destruct (IH (S r) d) as (C' & E & M & V). { intros l Hl. replace (S r + l)%nat with (r + S l)%nat by lia. apply (H (S l)). cbn. lia. } { cbn in HL. lia. }
    rewrite E. cbn [obind]. eexists. split; [reflexivity|]. split; [cbn [pat map]; f_equal; auto|]. intros [|l] J Hl; cbn [nth]; [rewrite D1, Nat.add_0_r; auto|]. rewrite V by (cbn in Hl; lia). replace (S r + l)%nat with (r + S l)%nat by lia. reflexivity.
  Qed.
End Diagonals.

(** *** Specification.  One level of the hierarchy on all processes: every process holds a vector of sz p unknowns, all of them in its index set; every index has exactly one owner;
    the rows a process owns are complete rows of a global matrix GA on the indices below G. *)
Section Level.
  Context {R : ring}.
  Local Open Scope ring_scope_istl.
  Definition owner_rows (G : nat) (GA : nat -> nat -> R) (s : pis) (n : nat) (A : smat R) : Prop :=
    mat_wf n n A /\ forall g l, In (mke g l Owner) s -> (forall h l' b, In (mke h l' b) s -> den A l l' = GA g h) /\ (forall h, h < G -> (forall l' b, ~ In (mke h l' b) s) -> GA g h = r0).
  Definition level_ok (P G : nat) (sz : nat -> nat) (ix : nat -> pis) (GA : nat -> nat -> R) (A : nat -> smat R) : Prop :=
    dist_wf P sz ix /\ unique_owner P ix /\
    (forall q g l a, q < P -> holds ix q g l a -> g < G /\ exists p l', p < P /\ holds ix p g l' Owner) /\
    (forall p l, p < P -> l < sz p -> exists g a, holds ix p g l a) /\
    (forall p, p < P -> owner_rows G GA (ix p) (sz p) (A p)).
  (** the aggregates maps of all processes agree with the owner's, as indices of the coarse level *)
  Definition published (P : nat) (ix cx : nat -> pis) (agg : nat -> nat -> aggd) : Prop :=
    forall p q g l l' a, p < P -> q < P -> holds ix p g l' Owner -> holds ix q g l a ->
      (agg p l' = Iso /\ agg q l = Iso) \/ exists I k kq aq, holds cx p I k Owner /\ agg p l' = Agg k /\ holds cx q I kq aq /\ agg q l = Agg kq.
  (** ga maps a global index to the global coarse index of its aggregate *)
  Definition global_aggregates (P : nat) (ix cx : nat -> pis) (agg : nat -> nat -> aggd) (ga : nat -> option nat) : Prop :=
    forall g I, ga g = Some I <-> exists p l k, p < P /\ holds ix p g l Owner /\ agg p l = Agg k /\ holds cx p I k Owner.
  (** global prolongation matrix and Galerkin product *)
  Definition gprol (ga : nat -> option nat) (g I : nat) : R := match ga g with Some I' => if I' =? I then r1 else r0 | None => r0 end.
  Definition gproduct (G : nat) (ga : nat -> option nat) (GA : nat -> nat -> R) (I J : nat) : R := sum G (fun g => sum G (fun h => gprol ga g I * (GA g h * gprol ga h J))).

  (** BaseGalerkinProduct::calculate, galerkin.hh:627-665, on all processes; infoLevel (the coarse level) communicates the diagonal *)
  Definition calculate_parallel (P : nat) (cx : nat -> pis) (agg : nat -> nat -> aggd) (A C0 C : nat -> smat R) : Prop :=
    exists C1 d d1, (forall p, p < P -> gal_rows (agg p) 0 (A p) (map (map (fun e => (fst e, r0))) (C0 p)) = Ok (C1 p)) /\ (forall p, p < P -> diags 0 (C1 p) = Ok (d p)) /\
      copyOwnerToAll P cx None d d1 /\ (forall p, p < P -> set_diags 0 (C1 p) (d1 p) = Ok (C p)).

  Lemma sum_by_index n G s (f F : nat -> R) : pis_wf n s -> Forall (fun e => e_g e < G) s -> (forall g l a, In (mke g l a) s -> f l = F g) -> (forall l, l < n -> (forall g a, ~ In (mke g l a) s) -> f l = r0) ->
    (forall g, g < G -> (forall l a, ~ In (mke g l a) s) -> F g = r0) -> sum n f = sum G F.
  Proof.
    intros (W1 & W2 & W3) HG H1 H2 H3. transitivity (lsum (map (fun e => F (e_g e)) s)).
    - rewrite (lsum_by_key e_l (fun e => F (e_g e)) n s W2 W3). apply sum_ext. intros l Hl. destruct (find (fun e => e_l e =? l) s) as [[g l' a]|] eqn:E.
      + apply find_some in E. destruct E as [E1 E2]. cbn [e_l] in E2. apply Nat.eqb_eq in E2. subst l'. apply (H1 g l a E1).
      + apply H2; auto. intros g a HI. pose proof (find_none _ _ E _ HI) as E'. cbn in E'. rewrite Nat.eqb_refl in E'. discriminate.
    - rewrite (lsum_by_key e_g (fun e => F (e_g e)) G s (SS_NoDup _ W1) HG). apply sum_ext. intros g Hg. destruct (find (fun e => e_g e =? g) s) as [e|] eqn:E.
      + apply find_some in E. destruct E as [_ E]. apply Nat.eqb_eq in E. congruence.
      + symmetry. apply H3; auto. intros l a HI. pose proof (find_none _ _ E _ HI) as E'. cbn in E'. rewrite Nat.eqb_refl in E'. discriminate.
  Qed.

  Variables (P G : nat) (sz : nat -> nat) (ix : nat -> pis) (GA : nat -> nat -> R) (A : nat -> smat R).
  Hypothesis HL : level_ok P G sz ix GA A.
  Variables (K1 : nat -> nat) (cx : nat -> pis) (agg : nat -> nat -> aggd).
  Hypothesis WC : dist_wf P K1 cx.
  Hypothesis UC : unique_owner P cx.
  Hypothesis CO : forall q g l a, q < P -> holds cx q g l a -> g < G /\ exists p l', p < P /\ holds cx p g l' Owner.
  Hypothesis CF : forall p l, p < P -> l < K1 p -> exists g a, holds cx p g l a.
  Hypothesis PB : published P ix cx agg.

  Lemma local_inj n i p : dist_wf P n i -> p < P -> forall g l a g' a', holds i p g l a -> holds i p g' l a' -> g = g' /\ a = a'.
  Proof.
    intros HW Hp g l a g' a' H1 H2. destruct (HW p Hp) as (_ & ND & _). assert (E : mke g l a = mke g' l a'); [|injection E as -> ->; auto]. unfold holds in *. induction (i p) as [|x t IH]; [destruct H1|]. cbn [map] in ND. inversion ND as [|? ? N1 N2].
    destruct H1 as [->|H1], H2 as [H2|H2]; auto; exfalso; apply N1; [apply (in_map e_l) in H2; exact H2|subst x; apply (in_map e_l) in H1; exact H1].
  Qed.
  Lemma attr_dec (a b : attr) : {a = b} + {a <> b}.
  Proof. decide equality. Qed.
  Lemma agg_ok_all p : p < P -> agg_ok (agg p) (sz p) (K1 p).
  Proof.
    intros Hp l Hl. destruct HL as (_ & _ & HO & HF & _). destruct (HF p l Hp Hl) as (g & a & H). destruct (HO p g l a Hp H) as (_ & q & l' & Hq & Ho). destruct (PB q p g l l' a Hq Hp Ho H) as [[_ E]|(I & k & kq & aq & _ & _ & E1 & E2)]; auto. right. exists kq. split; auto.
    destruct (WC p Hp) as (_ & _ & F). rewrite Forall_forall in F. apply (F _ E1).
  Qed.
  Lemma WA p : p < P -> mat_wf (sz p) (sz p) (A p).
  Proof. intros Hp. apply HL. exact Hp. Qed.

  (** aggregates as global indices *)
  Theorem C74_global_aggregates : exists ga, global_aggregates P ix cx agg ga.
  Proof.
    destruct HL as (HW & HU & _).
    pose (ga := fun g => match find (fun p => existsb (fun e => (e_g e =? g) && attr_eqb (e_a e) Owner) (ix p)) (seq 0 P) with
                         | Some p => match lookup (ix p) g with Some e => match agg p (e_l e) with Agg k => match find (fun c => (e_l c =? k) && attr_eqb (e_a c) Owner) (cx p) with Some c => Some (e_g c) | None => None end | _ => None end | None => None end
                         | None => None end).
    assert (AE : forall e, attr_eqb (e_a e) Owner = true -> e_a e = Owner) by (intros e; destruct (e_a e); auto; discriminate).
    exists ga. intros g I. unfold ga. split.
    - destruct (find _ (seq 0 P)) as [p|] eqn:E; [|discriminate]. apply find_some in E. destruct E as [E1 E2]. apply in_seq in E1. assert (Hp : p < P) by lia. apply existsb_exists in E2. destruct E2 as (e & X1 & X2). apply andb_true_iff in X2. destruct X2 as [X2 X3]. apply Nat.eqb_eq in X2. apply AE in X3.
      destruct (HW p Hp) as (HS & _). rewrite (proj2 (lookup_spec (ix p) g e HS) (conj X1 X2)). destruct (agg p (e_l e)) as [| |k] eqn:EK; try discriminate. destruct (find _ (cx p)) as [c|] eqn:EC; [|discriminate]. intros EQ. injection EQ as <-.
      apply find_some in EC. destruct EC as [C1 C2]. apply andb_true_iff in C2. destruct C2 as [C2 C3]. apply Nat.eqb_eq in C2. apply AE in C3. exists p, (e_l e), k. split; auto. destruct e as [ge le ae], c as [gc lc ac]. cbn in *. subst. auto.
    - intros (p & l & k & Hp & H1 & H2 & H3). destruct (find _ (seq 0 P)) as [p'|] eqn:E.
      + apply find_some in E. destruct E as [E1 E2]. apply in_seq in E1. assert (Hp' : p' < P) by lia. apply existsb_exists in E2. destruct E2 as (e & X1 & X2). apply andb_true_iff in X2. destruct X2 as [X2 X3]. apply Nat.eqb_eq in X2. apply AE in X3.
        assert (p' = p). { apply (HU g p' p (e_l e) l); auto. unfold holds. rewrite <- X2, <- X3. destruct e; auto. } subst p'. destruct (HW p Hp) as (HS & _). rewrite (proj2 (lookup_spec (ix p) g (mke g l Owner) HS) (conj H1 eq_refl)). cbn [e_l]. rewrite H2.
        destruct (find (fun c => (e_l c =? k) && attr_eqb (e_a c) Owner) (cx p)) as [c|] eqn:EC.
        * apply find_some in EC. destruct EC as [C1 C2]. apply andb_true_iff in C2. destruct C2 as [C2 C3]. apply Nat.eqb_eq in C2. f_equal. apply (local_inj K1 cx p WC Hp (e_g c) k (e_a c) I Owner); [unfold holds; rewrite <- C2; destruct c; auto|auto].
        * pose proof (find_none _ _ EC _ H3) as E'. cbn in E'. rewrite Nat.eqb_refl in E'. discriminate.
      + pose proof (find_none _ _ E p) as E'. exfalso. cbn beta in E'. assert (T : existsb (fun e => (e_g e =? g) && attr_eqb (e_a e) Owner) (ix p) = true); [|rewrite E' in T; [discriminate|apply in_seq; lia]]. apply existsb_exists. exists (mke g l Owner). split; auto. cbn. rewrite Nat.eqb_refl. reflexivity.
  Qed.

  Variable ga : nat -> option nat.
  Hypothesis HGA : global_aggregates P ix cx agg ga.
  Lemma owner_ga g I p k : p < P -> ga g = Some I -> holds cx p I k Owner -> exists l, holds ix p g l Owner /\ agg p l = Agg k.
  Proof. intros Hp H HK. apply HGA in H. destruct H as (q & l & kq & Hq & H1 & H2 & H3). assert (q = p) by (apply (UC I q p kq k); auto). subst q. destruct (holds_inj P K1 cx WC p I kq Owner k Owner Hp H3 HK) as [-> _]. eauto. Qed.
  Lemma held_ga q g l a J kj b : q < P -> holds ix q g l a -> holds cx q J kj b -> (agg q l = Agg kj <-> ga g = Some J).
  Proof.
    intros Hq H HJ. destruct HL as (HW & HU & HO & _). destruct (HO q g l a Hq H) as (_ & p & l' & Hp & Ho). rewrite (HGA g J). destruct (PB p q g l l' a Hp Hq Ho H) as [[E1 E2]|(I & k & kq & aq & E1 & E2 & E3 & E4)].
    - split; [rewrite E2; discriminate|]. intros (p' & l2 & k & Hp' & H1 & H2 & H3). assert (p' = p) by (apply (HU g p' p l2 l'); auto). subst p'. destruct (holds_inj P sz ix HW p g l2 Owner l' Owner Hp H1 Ho) as [-> _]. congruence.
    - split.
      + intros E. assert (kq = kj) by congruence. subst kq. destruct (local_inj K1 cx q WC Hq _ _ _ _ _ E3 HJ) as [-> _]. exists p, l', k. auto.
      + intros (p' & l2 & k' & Hp' & H1 & H2 & H3). assert (p' = p) by (apply (HU g p' p l2 l'); auto). subst p'. destruct (holds_inj P sz ix HW p g l2 Owner l' Owner Hp H1 Ho) as [-> _]. assert (k' = k) by congruence. subst k'.
        destruct (local_inj K1 cx p WC Hp _ _ _ _ _ E1 H3) as [-> _]. destruct (holds_inj P K1 cx WC q J kq aq kj b Hq E3 HJ) as [-> _]. exact E4.
  Qed.
  Lemma prol_gprol q g l a J kj b : q < P -> holds ix q g l a -> holds cx q J kj b -> prol (R := R) (agg q) l kj = gprol ga g J.
  Proof.
    intros Hq H HJ. pose proof (held_ga q g l a J kj b Hq H HJ) as E. unfold prol, gprol. destruct (agg q l) as [| |k'] eqn:EA.
    - destruct (ga g) as [J'|] eqn:EG; auto. destruct (Nat.eqb_spec J' J) as [->|]; auto. exfalso. discriminate (proj2 E eq_refl).
    - destruct (ga g) as [J'|] eqn:EG; auto. destruct (Nat.eqb_spec J' J) as [->|]; auto. exfalso. discriminate (proj2 E eq_refl).
    - destruct (Nat.eqb_spec k' kj) as [->|Hn]; [rewrite (proj1 E eq_refl), Nat.eqb_refl; auto|]. destruct (ga g) as [J'|] eqn:EG; auto. destruct (Nat.eqb_spec J' J) as [->|]; auto. exfalso. apply Hn. injection (proj2 E eq_refl) as ->. auto.
  Qed.
  Lemma gprol_foreign p I k g : p < P -> holds cx p I k Owner -> (forall l, ~ holds ix p g l Owner) -> gprol ga g I = r0 :> R.
  Proof. intros Hp HI H. unfold gprol. destruct (ga g) as [I'|] eqn:E; auto. destruct (Nat.eqb_spec I' I) as [->|]; auto. destruct (owner_ga g I p k Hp E HI) as (l & H1 & _). exfalso. apply (H l H1). Qed.
  Lemma ix_G p : p < P -> Forall (fun e => e_g e < G) (ix p).
  Proof. intros Hp. apply Forall_forall. intros [g l a] H. destruct HL as (_ & _ & HO & _). apply (HO p g l a Hp H). Qed.

  (** the local sums of an owned row are the row of the global product *)
  Lemma owned_row p I k J kj b : p < P -> holds cx p I k Owner -> holds cx p J kj b ->
    sum (sz p) (fun r => sum (sz p) (fun c => prol (agg p) r k * (den (A p) r c * prol (agg p) c kj))) = gproduct G ga GA I J.
  Proof.
    intros Hp HI HJ. pose proof HL as (HW & HU & HO & HF & HR). unfold gproduct. apply (sum_by_index (sz p) G (ix p)); [apply HW; auto|apply ix_G; auto| | |].
    - intros g l a H. destruct (attr_dec a Owner) as [->|Ha].
      + destruct (HR p Hp) as [_ HR']. destruct (HR' g l H) as [R1 R2]. apply (sum_by_index (sz p) G (ix p)); [apply HW; auto|apply ix_G; auto| | |].
        * intros h c b' Hh. rewrite (prol_gprol p g l Owner I k Owner), (prol_gprol p h c b' J kj b), (R1 h c b') by auto. reflexivity.
        * intros c Hc Hn. exfalso. destruct (HF p c Hp Hc) as (h & b' & Hh). apply (Hn h b' Hh).
        * intros h Hh Hn. rewrite (R2 h Hh Hn). ncring.
      + assert (Z : gprol ga g I = r0 :> R). { apply (gprol_foreign p I k); auto. intros l2 H2. destruct (holds_inj P sz ix HW p g l a l2 Owner Hp H H2) as [_ E]. auto. }
        rewrite Z, (prol_gprol p g l a I k Owner), Z by auto. rewrite !sum_zero; auto; intros; ncring.
    - intros l Hl Hn. exfalso. destruct (HF p l Hp Hl) as (g & a & H). apply (Hn g a H).
    - intros g Hg Hn. rewrite (gprol_foreign p I k g Hp HI) by (intros l H; apply (Hn l Owner H)). apply sum_zero. intros; ncring.
  Qed.
  Lemma foreign_column p I k J : p < P -> holds cx p I k Owner -> (forall l b, ~ holds cx p J l b) -> gproduct G ga GA I J = r0.
  Proof.
    intros Hp HI HJ. pose proof HL as (HW & HU & HO & HF & HR). unfold gproduct. apply sum_zero. intros g Hg. apply sum_zero. intros h Hh. unfold gprol. destruct (ga g) as [I'|] eqn:EG; [|ncring]. destruct (Nat.eqb_spec I' I) as [->|]; [|ncring].
    destruct (ga h) as [J'|] eqn:EH; [|ncring]. destruct (Nat.eqb_spec J' J) as [->|]; [|ncring]. destruct (owner_ga g I p k Hp EG HI) as (l & H1 & _). destruct (HR p Hp) as [_ HR']. destruct (HR' g l H1) as [_ R2]. rewrite R2; auto; [ncring|].
    intros l' b H2. apply HGA in EH. destruct EH as (q & l2 & k2 & Hq & Q1 & Q2 & Q3). destruct (PB q p h l' l2 b Hq Hp Q1 H2) as [[E _]|(J0 & k0 & kq & aq & E1 & E2 & E3 & E4)]; [congruence|]. assert (k0 = k2) by congruence. subst k0.
    destruct (local_inj K1 cx q WC Hq _ _ _ _ _ E1 Q3) as [-> _]. apply (HJ kq aq E3).
  Qed.

  (** C74 (values): with a pattern that contains what is needed, calculate succeeds on all processes, whatever the order of messages and whatever values the coarse matrices had before;
      the result is a level with the global Galerkin product as global matrix, and the diagonal entries of all rows, owned or not, are those of the global product.
      The other entries of a row that is not owned are the sums over the entries of the local matrix. *)
  Theorem C74_calculate (C0 : nat -> smat R) : (forall p, p < P -> mat_wf (K1 p) (K1 p) (C0 p) /\ coarse_pattern_ok (agg p) (A p) (C0 p)) ->
    (exists C, calculate_parallel P cx agg A C0 C) /\
    forall C, calculate_parallel P cx agg A C0 C -> level_ok P G K1 cx (gproduct G ga GA) C /\
      (forall q I k a, q < P -> holds cx q I k a -> den (C q) k k = gproduct G ga GA I I) /\
      (forall p, p < P -> pat (C p) = pat (C0 p)) /\
      (forall p I J, p < P -> I < K1 p -> I <> J -> den (C p) I J = sum (sz p) (fun r => sum (sz p) (fun c => prol (agg p) r I * (den (A p) r c * prol (agg p) c J)))).
  Proof.
    intros HC.
    assert (LOC : forall p, exists r, p < P -> gal_rows (agg p) 0 (A p) (map (map (fun e => (fst e, r0))) (C0 p)) = Ok r /\ pat r = pat (C0 p) /\
               forall I J, den r I J = sum (sz p) (fun r => sum (sz p) (fun c => prol (agg p) r I * (den (A p) r c * prol (agg p) c J)))).
    { intros p. destruct (Nat.lt_ge_cases p P) as [Hp|Hp]; [|exists nil; lia]. destruct (HC p Hp) as [HC1 HC2]. destruct (C34_galerkin (agg p) (sz p) (K1 p) (A p) (C0 p) (WA p Hp) HC1 (agg_ok_all p Hp) HC2) as (C' & E & PE & W & D).
      unfold calculate in E. destruct (gal_rows (agg p) 0 (A p) (map (map (fun e => (fst e, r0))) (C0 p))) as [C1| |] eqn:EG; cbn [obind] in E; [|discriminate..].
      (* the sequential round trip does not change the matrix *)
      set (C0' := map (map (fun e : nat * R => (fst e, r0))) (C0 p)) in *.
      assert (P0 : pat C0' = pat (C0 p)). { unfold pat, C0'. rewrite map_map. apply map_ext. intros row. rewrite map_map. reflexivity. }
      destruct (gal_rows_spec (agg p) (A p) 0 C0') as (C2 & E2 & P2 & _).
      { intros l Hl. cbn [Nat.add]. rewrite (proj1 (WA p Hp)) in Hl. destruct (agg_ok_all p Hp l Hl) as [|[I [HI EI]]]; auto. right. exists I. split; auto. intros c a HIn. assert (Hc : c < sz p).
        { destruct (mat_wf_row (sz p) (sz p) (A p) l (WA p Hp)) as [_ F]. rewrite Forall_forall in F; apply F. apply (in_map fst) in HIn. exact HIn. }
        destruct (agg_ok_all p Hp c Hc) as [|[J [HJ EJ]]]; auto. right. exists J. split; auto. unfold pat_in. rewrite P0, pat_nth. apply (proj2 HC2 l c); auto. apply (in_map fst) in HIn. exact HIn. }
      { intros I. rewrite P0, pat_nth. apply (row_wf_NoDup (K1 p)). apply (mat_wf_row (K1 p) (K1 p)). auto. }
      assert (C2 = C1) by congruence. subst C2. rewrite diag_roundtrip in E.
      - injection E as ->. exists C'. intros _. split; auto.
      - assert (L1 : length C1 = K1 p). { transitivity (length (pat C1)); [symmetry; apply map_length|]. rewrite P2, P0. unfold pat. rewrite map_length. apply HC1. }
        intros l Hl. cbn [Nat.add]. rewrite <- pat_nth, P2, P0, pat_nth. apply (proj1 HC2). rewrite (proj1 HC1). lia. }
    assert (FC : forall X (Q : nat -> X -> Prop) (b : X), (forall p, exists r, p < P -> Q p r) -> exists f, forall p, p < P -> Q p (f p)).
    { clear. intros X Q b HQ. assert (GG : forall m, exists f, forall p, p < m -> p < P -> Q p (f p)).
      { induction m as [|m [f IH]]; [exists (fun _ => b); lia|]. destruct (HQ m) as [r Hr]. exists (fun p => if p =? m then r else f p). intros p H1 H2. destruct (Nat.eqb_spec p m) as [->|]; auto. apply IH; auto. lia. }
      destruct (GG P) as [f Hf]. exists f. auto. }
    destruct (FC _ _ nil LOC) as [C1 HC1]. clear LOC.
    assert (LEN : forall p, p < P -> length (C1 p) = K1 p). { intros p Hp. destruct (HC1 p Hp) as (_ & PE & _). transitivity (length (pat (C1 p))); [symmetry; apply map_length|]. rewrite PE. unfold pat. rewrite map_length. apply (HC p Hp). }
    assert (DG : forall p, p < P -> forall l, l < length (C1 p) -> In (0 + l)%nat (map fst (nth l (C1 p) nil))).
    { intros p Hp l Hl. destruct (HC1 p Hp) as (_ & PE & _). rewrite <- pat_nth, PE, pat_nth. destruct (HC p Hp) as [W [D _]]. apply D. rewrite (proj1 W), <- (LEN p Hp). auto. }
    assert (DI : forall p, exists d, p < P -> diags 0 (C1 p) = Ok d /\ length d = K1 p /\ forall l, l < K1 p -> nth l d r0 = den (C1 p) l l).
    { intros p. destruct (Nat.lt_ge_cases p P) as [Hp|Hp]; [|exists nil; lia]. destruct (diags_spec (C1 p) 0 (DG p Hp)) as (d & E & L & V). exists d. intros _. rewrite (LEN p Hp) in *. repeat split; auto. }
    destruct (FC _ _ nil DI) as [d Hd]. clear DI. assert (SZ : sized P K1 d) by (intros p Hp; apply (Hd p Hp)).
    assert (SD : forall d1, sized P K1 d1 -> forall p, exists C', p < P -> set_diags 0 (C1 p) (d1 p) = Ok C' /\ pat C' = pat (C0 p) /\ forall I J, I < K1 p -> den C' I J = if J =? I then nth I (d1 p) r0 else den (C1 p) I J).
    { intros d1 S1 p. destruct (Nat.lt_ge_cases p P) as [Hp|Hp]; [|exists nil; lia]. destruct (set_diags_spec (C1 p) 0 (d1 p) (DG p Hp)) as (C' & E & PE & V); [rewrite (S1 p Hp), (LEN p Hp); auto|]. exists C'. intros _. destruct (HC1 p Hp) as (_ & PE1 & _). rewrite (LEN p Hp) in V. split; auto. split; [congruence|]. intros I J HI. apply (V I J HI). }
    split.
    - destruct (C31_safe r0 P K1 cx WC None d SZ I (fun _ v => v) ownerSet allSet (start d) (reach_0 _ _ _ _ _ _ _)) as [_ [_ [d1 HD1]]].
      destruct (C31_in_place r0 P K1 cx WC d d1 UC SZ HD1) as (S1 & _). destruct (FC _ _ nil (SD d1 S1)) as [C HCC]. exists C, C1, d, d1. split; [intros p Hp; apply (HC1 p Hp)|]. split; [intros p Hp; apply (Hd p Hp)|]. split; auto. intros p Hp. apply (HCC p Hp).
    - intros C (C1' & d' & d1 & X1 & X2 & X3 & X4).
      assert (EC1 : forall p, p < P -> C1' p = C1 p). { intros p Hp. destruct (HC1 p Hp) as (E & _). specialize (X1 p Hp). rewrite E in X1. injection X1 as ->. auto. }
      assert (ED : forall p, p < P -> d' p = d p). { intros p Hp. destruct (Hd p Hp) as (E & _). specialize (X2 p Hp). rewrite (EC1 p Hp), E in X2. injection X2 as ->. auto. }
      assert (SZ' : sized P K1 d') by (intros p Hp; rewrite (ED p Hp); apply SZ; auto).
      destruct (C31_in_place r0 P K1 cx WC d' d1 UC SZ' X3) as (S1 & CON & OWN & _).
      assert (FIN : forall p, p < P -> pat (C p) = pat (C0 p) /\ forall I J, I < K1 p -> den (C p) I J = if J =? I then nth I (d1 p) r0 else den (C1 p) I J).
      { intros p Hp. destruct (SD d1 S1 p) as (C' & HC'). destruct (HC' Hp) as (E & PE & V). specialize (X4 p Hp). rewrite (EC1 p Hp), E in X4. injection X4 as <-. auto. }
      assert (KB : forall p g k a, p < P -> holds cx p g k a -> k < K1 p). { intros p g k a Hp H. destruct (WC p Hp) as (_ & _ & F). rewrite Forall_forall in F. apply (F _ H). }
      assert (DIA : forall q I k a, q < P -> holds cx q I k a -> nth k (d1 q) r0 = gproduct G ga GA I I).
      { intros q I k a Hq H. destruct (CO q I k a Hq H) as (_ & p & kp & Hp & HP). rewrite (CON p q I k kp a Hp Hq HP H), (OWN p I kp Hp HP), (ED p Hp). destruct (Hd p Hp) as (_ & _ & V). rewrite V by (apply (KB p I kp Owner Hp HP)). destruct (HC1 p Hp) as (_ & _ & D). rewrite D. apply (owned_row p I kp I kp Owner); auto. }
      assert (ROW : forall p I k J kj b, p < P -> holds cx p I k Owner -> holds cx p J kj b -> den (C p) k kj = gproduct G ga GA I J).
      { intros p I k J kj b Hp HI HJ. destruct (FIN p Hp) as [_ V]. rewrite V by (apply (KB p I k Owner Hp HI)). destruct (Nat.eqb_spec kj k) as [->|Hn].
        - destruct (local_inj K1 cx p WC Hp _ _ _ _ _ HI HJ) as [<- _]. apply (DIA p I k Owner Hp HI).
        - destruct (HC1 p Hp) as (_ & _ & D). rewrite D. apply (owned_row p I k J kj b); auto. }
      split; [|split; [|split]].
      + split; [exact WC|]. split; [exact UC|]. split; [exact CO|]. split; [exact CF|]. intros p Hp. split.
        * destruct (FIN p Hp) as [PE _]. destruct (HC p Hp) as [W _]. split.
          -- transitivity (length (pat (C p))); [symmetry; apply map_length|]. rewrite PE. unfold pat. rewrite map_length. apply W.
          -- apply Forall_forall. intros row HI. apply (In_nth _ _ nil) in HI. destruct HI as [i [Hi <-]]. pose proof (mat_wf_row _ _ (C0 p) i W) as [Q1 Q2]. unfold row_wf. rewrite <- pat_nth, PE, pat_nth. auto.
        * intros I k HI. split; [intros J kj b HJ; apply (ROW p I k J kj b); auto|]. intros J _ HJ. apply (foreign_column p I k J); auto.
      + intros q I k a Hq H. destruct (FIN q Hq) as [_ V]. rewrite V by (apply (KB q I k a Hq H)). rewrite Nat.eqb_refl. apply (DIA q I k a Hq H).
      + intros p Hp. apply (FIN p Hp).
      + intros p I J Hp HI Hn. destruct (FIN p Hp) as [_ V]. rewrite V by auto. destruct (Nat.eqb_spec J I); [congruence|]. destruct (HC1 p Hp) as (_ & _ & D). apply D.
  Qed.

  (** *** Transfer<V,V1,OwnerOverlapCopyCommunication>, transfer.hh:153-188 *)
  (** restrictVector: sequential, then project on the coarse index set *)
  Definition restrict_parallel (p : nat) (coarse fine : vec R) : outcome (vec R) := obind (restrictVector (agg p) coarse fine) (project (cx p)).
  (** prolongateVector without redistribution: sequential *)
  Definition prolongate_parallel (p : nat) (coarse fine : vec R) (damp : R) : outcome (vec R * vec R) := prolongateVector (agg p) coarse fine damp.
  (** C74 (restriction): if the owned entries of the fine vector are those of a global vector, the owned entries of the coarse vector are those of the transposed global prolongation applied to it;
      entries of copies are zero; those of overlap indices are the sums over the local vertices only *)
  Theorem C74_restrict p coarse fine gx : p < P -> length coarse = K1 p -> length fine = sz p -> (forall g l, holds ix p g l Owner -> vget fine l = gx g) ->
    exists c, restrict_parallel p coarse fine = Ok c /\ length c = K1 p /\
      (forall I k, holds cx p I k Owner -> vget c k = sum G (fun g => gprol ga g I * gx g)) /\ (forall I k, holds cx p I k Copy -> vget c k = r0) /\
      (forall I k, holds cx p I k Overlap -> vget c k = sum (sz p) (fun l => prol (agg p) l k * vget fine l)).
  Proof.
    intros Hp Lc Lf HX. pose proof HL as (HW & HU & HO & HF & HR). unfold restrict_parallel. destruct (C34_restrict (agg p) (sz p) coarse fine Lf) as (c & E & L & V); [rewrite Lc; apply agg_ok_all; auto|]. rewrite E. cbn [obind].
    destruct (project_spec (K1 p) (cx p) c (WC p Hp)) as (c' & E' & L' & V1 & V2); [congruence|]. exists c'. split; auto. split; auto.
    assert (KB : forall g k a, holds cx p g k a -> k < K1 p). { intros g k a H. destruct (WC p Hp) as (_ & _ & F). rewrite Forall_forall in F. apply (F _ H). }
    assert (NC : forall I k a, holds cx p I k a -> a <> Copy -> forall I', ~ In (mke I' k Copy) (cx p)). { intros I k a H Ha I' H'. destruct (local_inj K1 cx p WC Hp I k a I' Copy H H'). auto. }
    split; [|split].
    - intros I k HI. rewrite (V2 k) by (apply (NC I k Owner HI); discriminate). rewrite V by (rewrite Lc; apply (KB I k Owner HI)). apply (sum_by_index (sz p) G (ix p)); [apply HW; auto|apply ix_G; auto| | |].
      + intros g l a H. rewrite (prol_gprol p g l a I k Owner Hp H HI). destruct (attr_dec a Owner) as [->|Ha]; [rewrite (HX g l H); auto|]. rewrite (gprol_foreign p I k g Hp HI); [ncring|]. intros l2 H2. destruct (holds_inj P sz ix HW p g l a l2 Owner Hp H H2) as [_ E2]. auto.
      + intros l Hl Hn. exfalso. destruct (HF p l Hp Hl) as (g & a & H). apply (Hn g a H).
      + intros g Hg Hn. rewrite (gprol_foreign p I k g Hp HI) by (intros l H; apply (Hn l Owner H)). ncring.
    - intros I k HI. apply (V1 I k HI).
    - intros I k HI. rewrite (V2 k) by (apply (NC I k Overlap HI); discriminate). apply V. rewrite Lc. apply (KB I k Overlap HI).
  Qed.
  (** C74 (prolongation): if coarse and fine vector agree with global vectors on all processes, the fine vector afterwards agrees with the global vector plus the damped global prolongation *)
  Theorem C74_prolongate p coarse fine damp gc gx : p < P -> length coarse = K1 p -> length fine = sz p -> agrees (cx p) gc coarse -> agrees (ix p) gx fine ->
    exists c f, prolongate_parallel p coarse fine damp = Ok (c, f) /\ length f = sz p /\ agrees (cx p) (fun I => gc I * damp) c /\
      agrees (ix p) (fun g => gx g + match ga g with Some J => gc J * damp | None => r0 end) f.
  Proof.
    intros Hp Lc Lf AC AX. pose proof HL as (HW & HU & HO & HF & HR). unfold prolongate_parallel. destruct (C34_prolongate (agg p) (sz p) coarse fine damp Lf) as (c & f & E & L1 & L2 & V1 & V2); [rewrite Lc; apply agg_ok_all; auto|].
    assert (KB : forall g k a, holds cx p g k a -> k < K1 p). { intros g k a H. destruct (WC p Hp) as (_ & _ & F). rewrite Forall_forall in F. apply (F _ H). }
    exists c, f. split; auto. split; auto. split.
    - intros I k a H. rewrite V1 by (rewrite Lc; apply (KB I k a H)). rewrite (AC I k a H). reflexivity.
    - intros g l a H. assert (Hl : l < sz p). { destruct (HW p Hp) as (_ & _ & F). rewrite Forall_forall in F. apply (F _ H). } rewrite V2 by auto. rewrite (AX g l a H). f_equal.
      destruct (HO p g l a Hp H) as (_ & q & l' & Hq & Ho). destruct (PB q p g l l' a Hq Hp Ho H) as [[E1 E2]|(I & k & kq & aq & E1 & E2 & E3 & E4)].
      + assert (EG : ga g = None). { destruct (ga g) as [I|] eqn:EG; auto. exfalso. apply HGA in EG. destruct EG as (q' & l2 & k & Hq' & Q1 & Q2 & Q3). assert (q' = q) by (apply (HU g q' q l2 l'); auto). subst q'. destruct (holds_inj P sz ix HW q g l2 Owner l' Owner Hq Q1 Ho) as [-> _]. congruence. }
        rewrite EG. apply sum_zero. intros k Hk. unfold prol. rewrite E2. ncring.
      + pose proof (proj1 (held_ga p g l a I kq aq Hp H E3) E4) as EG. rewrite EG. rewrite (sum_single (length coarse) kq).
        * unfold prol. rewrite E4, Nat.eqb_refl. rewrite (AC I kq aq E3). ncring.
        * rewrite Lc. apply (KB I kq aq E3).
        * intros j Hj Hn. unfold prol. rewrite E4. destruct (Nat.eqb_spec kq j); [congruence|]. ncring.
  Qed.
End Level.

(** ** The operator of a level *)
Section Operator.
  Context {R : ring}.
  Local Open Scope ring_scope_istl.
  (** C74 (operator): on every level, the local products followed by the communication from the owners give the product with the global matrix of the level on every process *)
  Theorem C74_apply P G sz ix GA (A : nat -> smat R) gx (x y : nat -> vec R) : level_ok P G sz ix GA A -> (forall p, p < P -> length (x p) = sz p /\ length (y p) = sz p /\ agrees (ix p) gx (x p)) ->
    exists y1, (forall p, p < P -> oschwarz_apply (ix p) (A p) (x p) (y p) = Ok (y1 p)) /\ (forall p g l, p < P -> holds ix p g l Owner -> vget (y1 p) l = sum G (fun h => GA g h * gx h)) /\
      forall y2, copyOwnerToAll P ix None y1 y2 -> forall p, p < P -> agrees (ix p) (fun g => sum G (fun h => GA g h * gx h)) (y2 p).
  Proof.
    intros (HW & HU & HO & HF & HR) HX.
    assert (HY : forall p, exists y1, p < P -> oschwarz_apply (ix p) (A p) (x p) (y p) = Ok y1 /\ length y1 = sz p /\ forall g l, holds ix p g l Owner -> vget y1 l = sum G (fun h => GA g h * gx h)).
    { intros p. destruct (Nat.lt_ge_cases p P) as [Hp|Hp]; [|exists nil; lia]. destruct (HX p Hp) as (X1 & X2 & X3). destruct (HR p Hp) as [M1 M2].
      destruct (C09_products (sz p) (sz p) (A p) (x p) (map (fun _ => r0) (y p)) M1 X1) as [_ [[L1 V1] _]]; [rewrite map_length; auto|]. destruct (project_spec (sz p) (ix p) _ (HW p Hp) L1) as (y' & E & L & P1 & P2). exists y'. intros _. split; [exact E|]. split; auto.
      intros g l HI. assert (Hl : l < sz p). { destruct (HW p Hp) as (_ & _ & F). rewrite Forall_forall in F. apply (F _ HI). }
      rewrite P2 by (intros g' H'; destruct (local_inj P sz ix p HW Hp g l Owner g' Copy HI H') as [_ E2]; discriminate). rewrite V1 by auto.
      replace (vget (map (fun _ => r0) (y p)) l) with (@r0 R) by (unfold vget; rewrite (map_nth (fun _ => r0) (y p) r0); auto).
      replace (sum (sz p) (fun j => den (A p) l j * vget (x p) j)) with (sum G (fun h => GA g h * gx h)); [ncring|]. symmetry. destruct (M2 g l HI) as [M3 M4].
      apply (sum_by_index (sz p) G (ix p)); [apply HW; auto| | | |].
      - apply Forall_forall. intros [h k a] H. apply (HO p h k a Hp H).
      - intros h k a H. rewrite (M3 h k a H), (X3 h k a H). reflexivity.
      - intros k Hk Hn. exfalso. destruct (HF p k Hp Hk) as (h & a & H). apply (Hn h a H).
      - intros h Hh Hn. rewrite (M4 h Hh) by (intros k a H; apply (Hn k a H)). ncring. }
    assert (FC : exists f, forall p, p < P -> oschwarz_apply (ix p) (A p) (x p) (y p) = Ok (f p) /\ length (f p) = sz p /\ forall g l, holds ix p g l Owner -> vget (f p) l = sum G (fun h => GA g h * gx h)).
    { assert (GG : forall m, exists f, forall p, p < m -> p < P -> oschwarz_apply (ix p) (A p) (x p) (y p) = Ok (f p) /\ length (f p) = sz p /\ forall g l, holds ix p g l Owner -> vget (f p) l = sum G (fun h => GA g h * gx h)).
      { induction m as [|m [f IH]]; [exists (fun _ => nil); lia|]. destruct (HY m) as [r Hr]. exists (fun p => if p =? m then r else f p). intros p H1 H2. destruct (Nat.eqb_spec p m) as [->|]; auto. apply IH; auto. lia. }
      destruct (GG P) as [f Hf]. exists f. auto. }
    destruct FC as [y1 F]. exists y1. split; [intros p Hp; apply F; auto|]. split; [intros p g l Hp; apply F; auto|]. intros y2 HC.
    assert (SZ : sized P sz y1) by (intros p Hp; apply F; auto).
    destruct (C31_in_place r0 P sz ix HW y1 y2 HU SZ HC) as (_ & HCon & HOw & _). intros p Hp g l a HI. destruct (HO p g l a Hp HI) as (_ & q & l' & Hq & HH).
    unfold vget. rewrite (HCon q p g l l' a Hq Hp HH HI), (HOw q g l' Hq HH). apply F; auto.
  Qed.
End Operator.

(** ** One step of MatrixHierarchy::build on all processes *)
(** every local index the synchronisation adds gets an entry *)
Lemma sync_cover order msg cix K cix1 K1 : sync order msg cix K = (cix1, K1) -> forall k, K <= k < K1 -> exists x, In x cix1 /\ e_l (fst x) = k.
Proof.
  unfold sync. intros E. destruct (fold_left (fun st p => fold_left unpack (msg p) st) order (cix, K)) as [l n] eqn:EF. injection E as <- <-.
  pose (ok := fun st : list pentry * nat => forall k, K <= k < snd st -> exists x, In x (fst st) /\ e_l (fst x) = k).
  assert (U : forall st m, ok st -> ok (unpack st m)).
  { intros st m H k Hk. unfold unpack in *. destruct (lookup (map fst (fst st)) (fst m)); [apply H; auto|]. cbn [fst snd] in *. destruct (Nat.eq_dec k (snd st)) as [->|Hn].
    - exists (mke (fst m) (snd st) (snd m), true). split; auto. apply in_app_iff. right. left. auto.
    - destruct (H k) as (x & X1 & X2); [lia|]. exists x. split; auto. apply in_app_iff. auto. }
  assert (UU : forall ms st, ok st -> ok (fold_left unpack ms st)) by (induction ms as [|m t IH]; intros st H; cbn [fold_left]; auto).
  assert (UO : forall o st, ok st -> ok (fold_left (fun st p => fold_left unpack (msg p) st) o st)) by (induction o as [|p t IH]; intros st H; cbn [fold_left]; auto).
  specialize (UO order (cix, K)). rewrite EF in UO. intros k Hk. destruct (UO) with (k := k) as (x & X1 & X2); [intros j Hj; cbn [snd] in Hj; lia|exact Hk|]. exists x. split; auto.
  apply (Permutation_in _ (Permutation_sym (sort_perm l))). exact X1.
Qed.

(** maps with the same partition of the vertices below n have the same lowest vertices, and one is traversable if the other is *)
Section Same.
  Variables (a b : nat -> aggd) (n : nat).
  Hypothesis same : forall v w, v < n -> w < n -> (a v = a w <-> b v = b w).
  Hypothesis iso : forall v, v < n -> (a v = Iso <-> b v = Iso).
  Lemma same_root r v : v < n -> (root_of a r v <-> root_of b r v).
  Proof.
    intros Hv. split; intros H.
    - pose proof (root_le a r v H) as HL. destruct H as [H1 H2]. split; [apply same; auto; lia|]. intros u Hu E. apply (H2 u Hu). apply same; auto. lia.
    - pose proof (root_le b r v H) as HL. destruct H as [H1 H2]. split; [apply same; auto; lia|]. intros u Hu E. apply (H2 u Hu). apply same; auto. lia.
  Qed.
  Lemma same_isroot v : v < n -> isroot a v = isroot b v.
  Proof. intros Hv. apply eq_true_iff_eq. rewrite !isroot_spec, (same_root v v Hv), (iso v Hv). reflexivity. Qed.
  Lemma same_rank v : v <= n -> rank a v = rank b v.
  Proof. induction v as [|v IH]; intros Hv; [reflexivity|]. rewrite !rank_S, IH by lia. rewrite same_isroot by lia. reflexivity. Qed.
  Lemma same_traversable (adj1 adj2 : nat -> list nat) : (forall v t, In t (adj1 v) -> In t (adj2 v)) -> (forall v t, v < n -> In t (adj1 v) -> t < n) -> traversable adj1 a n -> traversable adj2 b n.
  Proof.
    intros HS HT H v r Hv HI Hr. assert (HA : a v <> Iso) by (rewrite (iso v Hv); auto). pose proof (proj2 (same_root r v Hv) Hr) as HR. pose proof (root_le a r v HR) as HL. specialize (H v r Hv HA HR).
    clear HI Hr HA HR. assert (Hrn : r < n) by lia. clear HL. induction H as [|x y C IH H1 H2 H3]; [constructor|]. assert (Hx : x < n) by (apply (closure_lt adj1 n a HT (fun _ => false) r x Hrn C)).
    assert (Hy : y < n) by (apply (HT x); auto). apply (cl_e adj2 b (fun _ => false) r x y); auto. apply same; auto.
  Qed.
End Same.

Section Step.
  Context {R : ring}.
  Local Open Scope ring_scope_istl.
  Variables (P G : nat) (sz : nat -> nat) (ix : nat -> pis) (GA : nat -> nat -> R) (A : nat -> smat R).
  Hypothesis HL : level_ok P G sz ix GA A.
  Variables (gmax : nat) (agg0 : nat -> nat -> aggd).
  Hypothesis HG : G <= gmax.
  Let adj (p : nat) : nat -> list nat := matrix_graph (A p).
  Let ovl (p : nat) : nat -> bool := excluded notown (pub ix p).
  (** the aggregates found on the vertices a process owns are connected (C35, C70) *)
  Hypothesis Htrav : forall p, p < P -> traversable (sub_adj notown (pub ix p) (adj p)) (own notown (pub ix p) (agg0 p)) (sz p).
  Variables (agg1 : nat -> nat -> aggd) (K : nat -> nat) (cix : nat -> list pentry) (rem : nat -> nat -> list (entry * attr)) (cix1 : nat -> list pentry) (K1 : nat -> nat).
  Hypothesis HC : coarsened P sz ix gmax adj agg0 agg1 K cix rem cix1 K1.
  Variable agg2 : nat -> nat -> aggd.
  Hypothesis HP : publish_owner P sz ix cix1 agg1 agg2.
  Let cx : nat -> pis := coarse cix1.

  Let HW : dist_wf P sz ix := proj1 HL.
  Let HU : unique_owner P ix := proj1 (proj2 HL).
  Lemma step_gmax p g l a : p < P -> holds ix p g l a -> g <> gmax.
  Proof. intros Hp H. pose proof HL as (_ & _ & HO & _). destruct (HO p g l a Hp H) as [H1 _]. lia. Qed.
  Lemma step_targets p v t : p < P -> v < sz p -> In t (adj p v) -> t < sz p.
  Proof. intros Hp Hv H. unfold adj, matrix_graph in H. apply filter_In in H. destruct H as [H _]. pose proof HL as (_ & _ & _ & _ & HR). destruct (HR p Hp) as [M _]. destruct (mat_wf_row (sz p) (sz p) (A p) v M) as [_ F]. rewrite Forall_forall in F. apply F; auto. Qed.
  Lemma step_coarse : dist_wf P K1 cx /\ unique_owner P cx /\
    (forall q g l a, q < P -> holds cx q g l a -> exists p k, p < P /\ holds cx p g k Owner) /\
    (forall p k, p < P -> ((exists g, holds cx p g k Owner) <-> exists g v, holds ix p g v Owner /\ agg1 p v = Agg k)) /\
    (forall p q g k, p < P -> q < P -> p <> q -> holds cx p g k Owner -> ((exists l a, holds cx q g l a) <-> exists g' v l a, holds ix p g' v Owner /\ agg1 p v = Agg k /\ holds ix q g' l a)) /\
    (forall p q e a, p < P -> q < P -> p <> q -> (In (e, a) (rem p q) <-> In e (cx p) /\ e_a e = Owner /\ exists l, holds cx q (e_g e) l a)).
  Proof. exact (C73_coarse_level P sz ix gmax adj agg0 HW HU step_gmax step_targets Htrav agg1 K cix rem cix1 K1 HC). Qed.
  Lemma step_publish : (forall p g l', p < P -> holds ix p g l' Owner -> agg2 p l' = agg1 p l') /\
    (forall p q g l l' a, p < P -> q < P -> holds ix p g l' Owner -> holds ix q g l a ->
      (agg0 p l' = Iso /\ agg2 p l' = Iso /\ agg2 q l = Iso) \/
      (agg0 p l' <> Iso /\ exists G k kq aq, holds cx p G k Owner /\ agg2 p l' = Agg k /\ holds cx q G kq aq /\ agg2 q l = Agg kq)) /\
    (forall q l, q < P -> (forall g a, ~ holds ix q g l a) -> agg2 q l = agg1 q l).
  Proof. exact (C73_publish P sz ix gmax adj agg0 HW HU step_gmax step_targets Htrav agg1 K cix rem cix1 K1 HC agg2 HP). Qed.
  Lemma step_full p l : p < P -> (l < sz p)%nat -> exists g a, holds ix p g l a /\ ovl p l = notown a.
  Proof. intros Hp Hl. pose proof HL as (_ & _ & _ & HF & _). destruct (HF p l Hp Hl) as (g & a & H). exists g, a. split; auto. exact (excl_entry P sz ix gmax HW step_gmax p _ Hp H). Qed.
  Lemma step_local p : p < P ->
    (forall v, ovl p v = true \/ agg0 p v = Iso \/ sz p <= v -> agg1 p v = agg0 p v)%nat /\
    (forall v, v < sz p -> ovl p v = false -> agg0 p v <> Iso -> exists k, k < K p /\ agg1 p v = Agg k)%nat /\
    (forall v w, v < sz p -> w < sz p -> ovl p v = false -> ovl p w = false -> (agg1 p v = agg1 p w <-> agg0 p v = agg0 p w))%nat /\
    (forall k, k < K p -> exists v, v < sz p /\ ovl p v = false /\ agg1 p v = Agg k)%nat /\
    K p = rank (own notown (pub ix p) (agg0 p)) (sz p) /\
    (forall v r, v < sz p -> own notown (pub ix p) (agg0 p) v <> Iso -> root_of (own notown (pub ix p) (agg0 p)) r v -> agg1 p v = Agg (rank (own notown (pub ix p) (agg0 p)) r))%nat.
  Proof.
    intros Hp. destruct (pub_nd P sz ix HW p Hp) as [N1 N2].
    assert (HGm : forall e b, In (e, b) (pub ix p) -> e_g e <> gmax). { intros e b H. apply (pub_in ix p) in H. destruct H as [_ H]. destruct e as [g l a]. apply (step_gmax p g l a Hp H). }
    destruct (C73_index_set notown gmax (pub ix p) (adj p) (sz p) (agg0 p) (fun v t => step_targets p v t Hp) (Htrav p Hp) N1 HGm N2 (fun _ => false) (fun _ => eq_refl)) as (a & k & c & vis & E & A1 & A2 & A3 & A4 & _ & _ & _ & _ & _ & _ & _ & A12 & A13).
    pose proof HC as (C1 & _). destruct (C1 p Hp) as [vis' E']. assert (EQ : (a, k, c, vis) = (agg1 p, K p, cix p, vis')) by congruence. injection EQ as -> -> -> _. auto 10.
  Qed.
  (** the hypotheses of [C74_pattern] *)
  Lemma step_own p v : p < P -> (v < sz p)%nat -> ovl p v = false -> agg2 p v = agg1 p v.
  Proof. intros Hp Hv HO. destruct (step_full p v Hp Hv) as (g & a & H & E). rewrite HO in E. assert (a = Owner) by (destruct a; auto; discriminate). subst a. apply (proj1 step_publish p g v Hp H). Qed.
  Lemma step_iso p v : p < P -> (v < sz p)%nat -> (own notown (pub ix p) (agg0 p) v = Iso <-> own1 (agg2 p) (ovl p) v = Iso).
  Proof.
    intros Hp Hv. destruct (step_local p Hp) as (L1 & L2 & _). unfold own, own1. fold (ovl p). destruct (ovl p v) eqn:E; [tauto|]. rewrite (step_own p v Hp Hv E). destruct (aggd_eqb_spec (agg0 p v) Iso) as [EI|EI].
    - rewrite L1 by auto. tauto.
    - destruct (L2 v Hv E EI) as (k & _ & ->). split; [contradiction|discriminate].
  Qed.
  Lemma step_same p v w : p < P -> (v < sz p)%nat -> (w < sz p)%nat -> (own notown (pub ix p) (agg0 p) v = own notown (pub ix p) (agg0 p) w <-> own1 (agg2 p) (ovl p) v = own1 (agg2 p) (ovl p) w).
  Proof.
    intros Hp Hv Hw. pose proof (step_iso p v Hp Hv) as IV. pose proof (step_iso p w Hp Hw) as IW. destruct (step_local p Hp) as (_ & _ & L3 & _). revert IV IW. unfold own, own1. fold (ovl p). destruct (ovl p v) eqn:EV, (ovl p w) eqn:EW; intros IV IW.
    - tauto.
    - split; intros E; symmetry; apply IW; auto.
    - split; intros E; apply IV; auto.
    - rewrite (step_own p v Hp Hv EV), (step_own p w Hp Hw EW). symmetry. apply L3; auto.
  Qed.
  Lemma step_rank p : p < P -> rank (own1 (agg2 p) (ovl p)) (sz p) = K p.
  Proof. intros Hp. destruct (step_local p Hp) as (_ & _ & _ & _ & -> & _). symmetry. apply (same_rank _ _ (sz p)); [intros v w Hv Hw; apply step_same; auto|intros v Hv; apply step_iso; auto|lia]. Qed.
  Lemma step_trav p : p < P -> traversable (adj p) (own1 (agg2 p) (ovl p)) (sz p).
  Proof.
    intros Hp. apply (same_traversable (own notown (pub ix p) (agg0 p)) _ (sz p)) with (adj1 := sub_adj notown (pub ix p) (adj p)); [intros v w Hv Hw; apply step_same; auto|intros v Hv; apply step_iso; auto| | |apply Htrav; auto].
    - intros v t H. apply filter_In in H. tauto.
    - intros v t Hv H. apply filter_In in H. apply (step_targets p v t Hp Hv). tauto.
  Qed.
  Lemma step_numbered p v r : p < P -> (v < sz p)%nat -> own1 (agg2 p) (ovl p) v <> Iso -> root_of (own1 (agg2 p) (ovl p)) r v -> agg2 p v = Agg (rank (own1 (agg2 p) (ovl p)) r).
  Proof.
    intros Hp Hv HI Hr. destruct (step_local p Hp) as (_ & _ & _ & _ & _ & L6). assert (EO : ovl p v = false) by (unfold own1 in HI; destruct (ovl p v); congruence). rewrite (step_own p v Hp Hv EO).
    pose proof (root_le _ r v Hr) as HLe. rewrite (L6 v r Hv); [|rewrite (step_iso p v Hp Hv); auto|].
    - f_equal. apply (same_rank _ _ (sz p)); [intros x w Hx Hw; apply step_same; auto|intros x Hx; apply step_iso; auto|lia].
    - apply (same_root (own notown (pub ix p) (agg0 p)) (own1 (agg2 p) (ovl p)) (sz p)); auto. intros x w Hx Hw; apply step_same; auto.
  Qed.
  Lemma step_sync q : q < P -> (K q <= K1 q)%nat /\ (forall x, In x (cix q) -> In x (cix1 q)) /\
    (forall x, In x (cix1 q) -> In x (cix q) \/ (K q <= e_l (fst x))%nat) /\ (forall k, (K q <= k < K1 q)%nat -> exists x, In x (cix1 q) /\ e_l (fst x) = k) /\ (forall x, In x (cix q) -> (e_l (fst x) < K q)%nat).
  Proof.
    intros Hq. destruct (sync_facts P sz ix gmax adj agg0 HW step_gmax step_targets Htrav agg1 K cix rem cix1 K1 HC q Hq) as (S1 & _ & _ & _ & S5 & S6 & _). split; auto. split; auto. split; [intros x Hx; destruct (S6 x Hx) as [H|[H _]]; auto|]. split.
    - pose proof HC as (_ & _ & C3). destruct (C3 q Hq) as (order & _ & E). apply (sync_cover _ _ _ _ _ _ E).
    - destruct (facts P sz ix gmax adj agg0 HW step_gmax step_targets Htrav agg1 K cix rem cix1 K1 q HC Hq) as (_ & _ & _ & _ & F5 & _). auto.
  Qed.
  Lemma step_owned p e : p < P -> (In e (cx p) /\ e_a e = Owner) <-> exists b, In (e, b) (cix p).
  Proof. intros Hp. exact (own_entry P sz ix gmax adj agg0 HW HU step_gmax step_targets Htrav agg1 K cix rem cix1 K1 HC p e Hp). Qed.
  Lemma step_below p g k a : p < P -> holds cx p g k a -> ((k < K p)%nat <-> a = Owner).
  Proof.
    intros Hp H. destruct (step_sync p Hp) as (_ & S2 & S3 & _ & S5). split.
    - intros Hk. pose proof H as H'. unfold holds, cx, coarse in H'. apply in_map_iff in H'. destruct H' as ([e b] & E & H'). cbn [fst] in E. subst e. destruct (S3 _ H') as [H1|H1]; [|cbn [fst e_l] in H1; lia].
      destruct (proj2 (step_owned p _ Hp) (ex_intro _ b H1)) as [_ E]. exact E.
    - intros ->. destruct (proj1 (step_owned p _ Hp) (conj H eq_refl)) as [b H1]. exact (S5 _ H1).
  Qed.
  Lemma step_high p v k : p < P -> (v < sz p)%nat -> ovl p v = true -> agg2 p v = Agg k -> (K p <= k)%nat.
  Proof.
    intros Hp Hv HO HA. destruct (step_full p v Hp Hv) as (g & a & H & E). pose proof HL as (_ & _ & HOw & _). destruct (HOw p g v a Hp H) as (_ & q & l' & Hq & HQ). destruct step_coarse as (WC & UC & _).
    assert (Hn : q <> p). { intros ->. destruct (holds_inj P sz ix HW p g l' Owner v a Hp HQ H) as [_ <-]. rewrite HO in E. discriminate. }
    destruct (proj1 (proj2 step_publish) q p g v l' a Hq Hp HQ H) as [(_ & _ & E2)|(_ & I0 & k' & kq & aq & E1 & E2 & E3 & E4)]; [congruence|]. assert (kq = k) by congruence. subst kq.
    destruct (Nat.le_gt_cases (K p) k) as [|Hlt]; auto. exfalso. apply (step_below p I0 k aq Hp E3) in Hlt. subst aq. apply Hn. apply (UC I0 q p k' k); auto.
  Qed.
  Lemma step_cover p k : p < P -> (K p <= k < K1 p)%nat -> exists v, (v < sz p)%nat /\ ovl p v = true /\ agg2 p v = Agg k.
  Proof.
    intros Hp Hk. destruct (step_sync p Hp) as (_ & _ & _ & S4 & _). destruct (S4 k Hk) as ([[I0 k0 a] b] & X1 & X2). cbn [fst e_l] in X2. subst k0. assert (H : holds cx p I0 k a) by (unfold holds, cx, coarse; apply in_map_iff; exists (mke I0 k a, b); auto).
    assert (NA : a <> Owner) by (intros E; apply (step_below p I0 k a Hp H) in E; lia).
    destruct step_coarse as (WC & UC & CO & _ & T5 & _). destruct (CO p I0 k a Hp H) as (q & k' & Hq & HQ). assert (Hn : q <> p). { intros ->. destruct (holds_inj P K1 cx WC p I0 k' Owner k a Hp HQ H) as [_ E]. congruence. }
    destruct (proj1 (T5 q p I0 k' Hq Hp Hn HQ)) as (g & v & l & al & V1 & V2 & V3); [eauto|].
    assert (Hl : (l < sz p)%nat). { destruct (HW p Hp) as (_ & _ & F). rewrite Forall_forall in F. apply (F _ V3). }
    exists l. split; auto. split.
    - unfold ovl. pose proof (excl_entry P sz ix gmax HW step_gmax p _ Hp V3) as E. cbn [e_l e_a] in E. rewrite E. destruct al; auto. exfalso. apply Hn. apply (HU g q p v l); auto.
    - destruct step_publish as (SP1 & SP2 & _). destruct (SP2 q p g l v al Hq Hp V1 V3) as [(_ & E2 & _)|(_ & I1 & k1 & kq & aq & E1 & E2 & E3 & E4)]; [rewrite (SP1 q g v Hq V1) in E2; congruence|].
      rewrite (SP1 q g v Hq V1) in E2. assert (k1 = k') by congruence. subst k1. destruct (local_inj P K1 cx q WC Hq I1 k' Owner I0 Owner E1 HQ) as [-> _]. destruct (holds_inj P K1 cx WC p I0 kq aq k a Hp E3 H) as [-> _]. exact E4.
  Qed.
  Lemma step_owner q g l a : q < P -> holds cx q g l a -> (g < G)%nat /\ exists p l', p < P /\ holds cx p g l' Owner.
  Proof.
    intros Hq H. destruct step_coarse as (_ & _ & CO & _). destruct (CO q g l a Hq H) as (p & k & Hp & HO). split; [|eauto]. destruct (proj1 (step_owned p _ Hp) (conj HO eq_refl)) as [b B].
    destruct (facts P sz ix gmax adj agg0 HW step_gmax step_targets Htrav agg1 K cix rem cix1 K1 p HC Hp) as (_ & _ & _ & _ & _ & F6 & _). destruct (F6 _ _ B) as (_ & _ & v & _ & _ & HV). cbn [e_g] in HV. pose proof HL as (_ & _ & HOw & _). apply (HOw p g v Owner Hp HV).
  Qed.
  Lemma step_all p l : p < P -> (l < K1 p)%nat -> exists g a, holds cx p g l a.
  Proof.
    intros Hp Hl. destruct (Nat.lt_ge_cases l (K p)) as [H|H].
    - destruct (step_local p Hp) as (_ & _ & _ & L4 & _). destruct (L4 l H) as (v & V1 & V2 & V3). destruct (step_full p v Hp V1) as (g & a & H1 & E). rewrite V2 in E. assert (a = Owner) by (destruct a; auto; discriminate). subst a.
      destruct step_coarse as (_ & _ & _ & T3 & _). destruct (proj2 (T3 p l Hp)) as [I0 HI]; [eauto|]. eauto.
    - destruct (step_sync p Hp) as (_ & _ & _ & S4 & _). destruct (S4 l (conj H Hl)) as ([[I0 k0 a] b] & X1 & X2). cbn [fst e_l] in X2. subst k0. exists I0, a. unfold holds, cx, coarse. apply in_map_iff. exists (mke I0 l a, b). auto.
  Qed.
  Lemma step_published : published P ix cx agg2.
  Proof.
    intros p q g l l' a Hp Hq H1 H2. destruct (proj1 (proj2 step_publish) p q g l l' a Hp Hq H1 H2) as [(_ & E1 & E2)|(_ & E)]; [left; auto|right; exact E].
  Qed.

  (** C74: with the index sets and aggregates of C73, for both solver categories and whatever order std::sort leaves and messages arrive in:
      build succeeds on every process; a column is in a row iff it is the diagonal or some stored entry of the local matrix couples the aggregates.
      Then, for every family of matrices with the patterns of the A p and consistent with some global matrix GA' (first build: GA' = GA; recalculateGalerkin: new values), and whatever values the coarse matrices
      held before, calculate succeeds and gives a level: every index has one owner, who stores the whole row of the global Galerkin product P^T GA' P; diagonals agree with it on all processes.
      The other entries are the sums over the entries of the local matrix. *)
  Theorem C74_step (nonov : bool) (ov : nat -> list nat) : (forall p, p < P -> overlap_vertices (agg2 p) (ovl p) (sz p) (ov p)) ->
    exists rows ga, global_aggregates P ix cx agg2 ga /\
      (forall p, p < P -> build_parallel (adj p) (agg2 p) (ovl p) nonov (sz p) (K1 p) (ov p) = Ok (Some (rows p)) /\ length (rows p) = K1 p /\
        forall I J, (I < K1 p)%nat -> (In J (nth I (rows p) nil) <-> I = J \/ exists r c, (r < sz p)%nat /\ (c < sz p)%nat /\ instored (A p) r c /\ agg2 p r = Agg I /\ agg2 p c = Agg J)) /\
      forall (GA' : nat -> nat -> R) (A' C0 : nat -> smat R), level_ok P G sz ix GA' A' -> (forall p, p < P -> pat (A' p) = pat (A p) /\ pat (C0 p) = rows p) ->
        (exists C, calculate_parallel P cx agg2 A' C0 C) /\
        forall C, calculate_parallel P cx agg2 A' C0 C -> level_ok P G K1 cx (gproduct G ga GA') C /\
          (forall q I k a, q < P -> holds cx q I k a -> den (C q) k k = gproduct G ga GA' I I) /\
          (forall p, p < P -> pat (C p) = rows p) /\
          (forall p I J, p < P -> (I < K1 p)%nat -> I <> J -> den (C p) I J = sum (sz p) (fun r => sum (sz p) (fun c => prol (agg2 p) r I * (den (A' p) r c * prol (agg2 p) c J)))).
  Proof.
    intros HOV. destruct step_coarse as (WC & UC & _). assert (AOK : forall p, p < P -> agg_ok (agg2 p) (sz p) (K1 p)) by (intros p Hp; apply (agg_ok_all P G sz ix GA A HL K1 cx agg2 WC step_published p Hp)).
    assert (HR : forall p, exists rows, p < P -> build_parallel (adj p) (agg2 p) (ovl p) nonov (sz p) (K1 p) (ov p) = Ok (Some rows) /\ length rows = K1 p /\ forall I0, (I0 < K1 p)%nat -> row_ok (adj p) (agg2 p) (sz p) I0 (nth I0 rows nil)).
    { intros p. destruct (Nat.lt_ge_cases p P) as [Hp|Hp]; [|exists nil; lia].
      destruct (C74_pattern (adj p) (agg2 p) (ovl p) nonov (sz p) (K1 p)) with (ov := ov p) as (rows & E); auto.
      - intros v t Hv Ht. apply (step_targets p v t Hp Hv Ht).
      - apply step_trav; auto.
      - intros v r Hv. apply step_numbered; auto.
      - intros k Hk. rewrite step_rank in Hk by auto. apply step_cover; auto.
      - intros v k Hv HO HA. right. rewrite step_rank by auto. apply (step_high p v k); auto.
      - exists rows. auto. }
    assert (FC : exists rows, forall p, p < P -> build_parallel (adj p) (agg2 p) (ovl p) nonov (sz p) (K1 p) (ov p) = Ok (Some (rows p)) /\ length (rows p) = K1 p /\ forall I0, (I0 < K1 p)%nat -> row_ok (adj p) (agg2 p) (sz p) I0 (nth I0 (rows p) nil)).
    { assert (GG : forall m, exists rows, forall p, p < m -> p < P -> build_parallel (adj p) (agg2 p) (ovl p) nonov (sz p) (K1 p) (ov p) = Ok (Some (rows p)) /\ length (rows p) = K1 p /\ forall I0, (I0 < K1 p)%nat -> row_ok (adj p) (agg2 p) (sz p) I0 (nth I0 (rows p) nil)).
      { induction m as [|m [f IH]]; [exists (fun _ => nil); lia|]. destruct (HR m) as [r Hr]. exists (fun p => if p =? m then r else f p). intros p H1 H2. destruct (Nat.eqb_spec p m) as [->|]; auto. apply IH; auto. lia. }
      destruct (GG P) as [f Hf]. exists f. auto. }
    destruct FC as [rows F]. destruct (C74_global_aggregates P G sz ix GA A HL K1 cx agg2 WC) as [ga HGA].
    assert (LT : forall p r c, p < P -> instored (A p) r c -> (r < sz p)%nat /\ (c < sz p)%nat).
    { intros p r c Hp H. pose proof HL as (_ & _ & _ & _ & HRo). destruct (HRo p Hp) as [M _]. unfold instored in H. assert (Hr : (r < sz p)%nat). { destruct (Nat.lt_ge_cases r (sz p)); auto. rewrite nth_overflow in H by (rewrite (proj1 M); auto). destruct H. } split; auto. destruct (mat_wf_row (sz p) (sz p) (A p) r M) as [_ FF]. rewrite Forall_forall in FF. apply FF; auto. }
    assert (RW : forall p I J, p < P -> (I < K1 p)%nat -> (In J (nth I (rows p) nil) <-> I = J \/ exists r c, (r < sz p)%nat /\ (c < sz p)%nat /\ instored (A p) r c /\ agg2 p r = Agg I /\ agg2 p c = Agg J)).
    { intros p I J Hp HI. destruct (F p Hp) as (_ & _ & RO). destruct (RO I HI) as [_ RI]. rewrite RI. split.
      - intros [->|(x & t & X1 & X2 & X3 & X4)]; [left; auto|right]. unfold adj, matrix_graph in X2. apply filter_In in X2. destruct X2 as [X2 _]. destruct (LT p x t Hp X2) as [_ Ht]. exists x, t. auto.
      - intros [<-|(r & c & Hr & Hc & H & E1 & E2)]; [left; auto|]. destruct (Nat.eq_dec c r) as [->|Hn]; [left; congruence|]. right. exists r, c. repeat split; auto. unfold adj, matrix_graph. apply filter_In. split; auto. destruct (Nat.eqb_spec c r); auto. }
    exists rows, ga. split; auto. split; [intros p Hp; destruct (F p Hp) as (F1 & F2 & _); split; auto|].
    intros GA' A' C0 HL' HPat. assert (LC : forall p, p < P -> length (C0 p) = K1 p). { intros p Hp. destruct (HPat p Hp) as [_ E]. destruct (F p Hp) as (_ & F2 & _). rewrite <- F2, <- E. unfold pat. rewrite map_length. reflexivity. }
    assert (CP : forall p, p < P -> mat_wf (K1 p) (K1 p) (C0 p) /\ coarse_pattern_ok (agg2 p) (A' p) (C0 p)).
    { intros p Hp. destruct (HPat p Hp) as [EA EC]. destruct (F p Hp) as (_ & _ & RO). split; [split; auto|split].
      - apply Forall_forall. intros row Hrow. apply (In_nth _ _ nil) in Hrow. destruct Hrow as [i [Hi <-]]. rewrite (LC p Hp) in Hi. unfold row_wf. rewrite <- pat_nth, EC. destruct (RO i Hi) as [S1 _]. split; auto. apply Forall_forall. intros J HJ. apply (RW p i J Hp Hi) in HJ. destruct HJ as [<-|(r & c & Hr & Hc & _ & _ & E2)]; auto.
        destruct (AOK p Hp c Hc) as [H|[k [Hk H]]]; [congruence|]. rewrite E2 in H. injection H as ->. auto.
      - intros I HI. rewrite (LC p Hp) in HI. unfold instored. rewrite <- pat_nth, EC. apply RW; auto.
      - intros r c I J H E1 E2. assert (HA : instored (A p) r c) by (unfold instored in *; rewrite <- pat_nth in *; congruence). destruct (LT p r c Hp HA) as [Hr Hc]. unfold instored. rewrite <- pat_nth, EC. apply RW; auto; [|right; exists r, c; auto].
        destruct (AOK p Hp r Hr) as [H1|[k [Hk H1]]]; [congruence|]. rewrite E1 in H1. injection H1 as ->. auto. }
    destruct (C74_calculate P G sz ix GA' A' HL' K1 cx agg2 WC UC step_owner step_all step_published ga HGA C0 CP) as [T1 T2]. split; auto. intros C HCa. destruct (T2 C HCa) as (T3 & T4 & T5 & T6). split; auto. split; auto. split; [|exact T6]. intros p Hp. rewrite (T5 p Hp). apply HPat; auto.
  Qed.
End Step.

(** ** The whole hierarchy *)
Section Hierarchy.
  Context {R : ring}.
  Local Open Scope ring_scope_istl.
  (** the levels MatrixHierarchy::build (paamg/matrixhierarchy.hh:364-668) makes from a finest level, without redistribution: local sizes, index sets, global matrix of the level (specification), local matrices.
      In each step any aggregates whose owned parts are connected. *)
  Inductive levels (P G gmax : nat) (nonov : bool) (sz : nat -> nat) (ix : nat -> pis) (GA : nat -> nat -> R) (A : nat -> smat R) : (nat -> nat) -> (nat -> pis) -> (nat -> nat -> R) -> (nat -> smat R) -> Prop :=
  | finest : levels P G gmax nonov sz ix GA A sz ix GA A
  | coarser sz1 ix1 GA1 A1 agg0 agg1 K cix rem cix1 K1 agg2 ov rows ga C0 C : levels P G gmax nonov sz ix GA A sz1 ix1 GA1 A1 ->
      (forall p, p < P -> traversable (sub_adj notown (pub ix1 p) (matrix_graph (A1 p))) (own notown (pub ix1 p) (agg0 p)) (sz1 p)) ->
      coarsened P sz1 ix1 gmax (fun p => matrix_graph (A1 p)) agg0 agg1 K cix rem cix1 K1 -> publish_owner P sz1 ix1 cix1 agg1 agg2 ->
      (forall p, p < P -> overlap_vertices (agg2 p) (excluded notown (pub ix1 p)) (sz1 p) (ov p)) ->
      (forall p, p < P -> build_parallel (matrix_graph (A1 p)) (agg2 p) (excluded notown (pub ix1 p)) nonov (sz1 p) (K1 p) (ov p) = Ok (Some (rows p)) /\ pat (C0 p) = rows p) ->
      calculate_parallel P (coarse cix1) agg2 A1 C0 C -> global_aggregates P ix1 (coarse cix1) agg2 ga ->
      levels P G gmax nonov sz ix GA A K1 (coarse cix1) (gproduct G ga GA1) C.
  (** C74: on every level of the hierarchy every index has one owner, who stores the whole row of the iterated Galerkin product of the global matrix *)
  Theorem C74_hierarchy P G gmax nonov sz ix GA A sz1 ix1 GA1 A1 : G <= gmax -> level_ok P G sz ix GA A -> levels P G gmax nonov sz ix GA A sz1 ix1 GA1 A1 -> level_ok P G sz1 ix1 GA1 A1.
  Proof.
    intros HG HL H. induction H as [|sz1 ix1 GA1 A1 agg0 agg1 K cix rem cix1 K1 agg2 ov rows ga C0 C H IH HT HC HP HO HB HCa HGA]; auto.
    destruct (C74_step P G sz1 ix1 GA1 A1 IH gmax agg0 HG HT agg1 K cix rem cix1 K1 HC agg2 HP nonov ov HO) as (rows' & ga' & HGA' & HB' & HS).
    destruct (HS GA1 A1 C0 IH) as [_ HS2]. { intros p Hp. split; auto. destruct (HB p Hp) as [E1 E2]. destruct (HB' p Hp) as (E3 & _). congruence. }
    destruct (HS2 C HCa) as (L & _). destruct L as (L1 & L2 & L3 & L4 & L5). split; auto. split; auto. split; auto. split; auto. intros p Hp. destruct (L5 p Hp) as [M1 M2]. split; auto.
    assert (EG : forall g, ga g = ga' g). { intros g. destruct (ga g) as [x|] eqn:E1; [apply HGA in E1; apply HGA' in E1; auto|]. destruct (ga' g) as [y|] eqn:E2; auto. apply HGA' in E2. apply HGA in E2. congruence. }
    assert (EP : forall x y, gproduct G ga GA1 x y = gproduct G ga' GA1 x y). { intros x y. unfold gproduct. apply sum_ext. intros g _. apply sum_ext. intros h _. unfold gprol. rewrite !EG. reflexivity. }
    intros g l Hgl. destruct (M2 g l Hgl) as [M3 M4]. split.
    - intros h l' b Hh. rewrite EP. apply (M3 h l' b Hh).
    - intros h Hh Hn. rewrite EP. apply M4; auto.
  Qed.
End Hierarchy.

(** ** Necessity of the hypotheses on the numbers *)
(** Deviation: in the overlapping category, an overlap vertex with the number of an aggregate the process owns (vertices 0 and 1, both in aggregate 0, vertex 1 in the overlap) makes the row iterator run past the last row;
    the maps of C73 do not contain such a vertex.  The nonoverlapping category handles it. *)
Theorem C74_owned_number_refuted : build_parallel (fun v => match v with 0 => [1] | _ => [0] end) (fun _ => Agg 0) (fun v => v =? 1) false 2 1 [1] = UB /\
  build_parallel (fun v => match v with 0 => [1] | _ => [0] end) (fun _ => Agg 0) (fun v => v =? 1) true 2 1 [1] = Ok (Some [[0]]).
Proof. split; vm_compute; reflexivity. Qed.
(** Deviation: a number no vertex has (vertex 0 in aggregate 0, overlap vertex 1 in aggregate 2) gives a row without diagonal entry *)
Theorem C74_gap_refuted : build_parallel (fun v => match v with 0 => [1] | _ => [0] end) (fun v => match v with 0 => Agg 0 | _ => Agg 2 end) (fun v => v =? 1) false 2 3 [1] = Ok (Some [[0; 2]; []; [0; 2]]).
Proof. vm_compute. reflexivity. Qed.

(** ** Example: the two processes of C73_nonvacuous, with the matrix tridiag(-1,2,-1) on four indices; rows that are not owned are those of the identity *)
Definition gA (g h : nat) : Zring := if g =? h then 2%Z else if (g =? S h) || (h =? S g) then (-1)%Z else 0%Z.
Definition gloc (p : nat) : smat Zring := match p with
  | 0 => [[(0, 2%Z); (1, (-1)%Z)]; [(0, (-1)%Z); (1, 2%Z); (2, (-1)%Z)]; [(1, 0%Z); (2, 1%Z)]]
  | _ => [[(0, 2%Z); (1, (-1)%Z); (2, (-1)%Z)]; [(0, (-1)%Z); (1, 2%Z)]; [(0, 0%Z); (2, 1%Z)]] end.
Ltac held := repeat match goal with H : In _ (pix _) |- _ => cbn [pix In] in H | H : holds pix _ _ _ _ |- _ => unfold holds in H; cbn [pix In] in H | H : _ \/ _ |- _ => destruct H | H : False |- _ => destruct H end.
Ltac held1 := held; repeat match goal with H : mke _ _ _ = mke _ _ _ |- _ => injection H; clear H; intros; subst end.
Lemma g_level : level_ok (R := Zring) 2 4 psz pix gA gloc.
Proof.
  split; [exact p_wf|]. split; [exact p_owner|]. split; [|split].
  - intros q g l a Hq H. destruct q as [|[|q]]; [| |lia]; held1; (split; [lia|]); first [exists 0, 0; split; [lia|left; reflexivity]|exists 0, 1; split; [lia|right; left; reflexivity]|exists 1, 0; split; [lia|right; left; reflexivity]|exists 1, 1; split; [lia|right; right; left; reflexivity]].
  - intros p l Hp Hl. destruct p as [|[|p]]; [| |lia]; cbn [psz] in Hl; (destruct l as [|[|[|l]]]; [| | |lia]); unfold holds; cbn [pix In]; eauto 10.
  - intros p Hp. assert (W : mat_wf (R := Zring) (psz p) (psz p) (gloc p)) by (destruct p as [|[|p]]; [| |lia]; split; cbn; repeat constructor; cbn; lia). split; auto. intros g l H. destruct p as [|[|p]]; [| |lia].
    + held1; try discriminate; (split; [intros h l' b H; held1; reflexivity|intros h Hh Hn; destruct h as [|[|[|[|h]]]]; try lia; try reflexivity; exfalso; first [apply (Hn 0 Owner); cbn; tauto|apply (Hn 1 Owner); cbn; tauto|apply (Hn 2 Overlap); cbn; tauto]]).
    + held1; try discriminate; (split; [intros h l' b H; held1; reflexivity|intros h Hh Hn; destruct h as [|[|[|[|h]]]]; try lia; try reflexivity; exfalso; first [apply (Hn 2 Copy); cbn; tauto|apply (Hn 0 Owner); cbn; tauto|apply (Hn 1 Owner); cbn; tauto]]).
Qed.
Lemma g_trav : forall p, p < 2 -> traversable (sub_adj notown (pub pix p) (matrix_graph (gloc p))) (own notown (pub pix p) (pagg p)) (psz p).
Proof.
  intros p Hp. apply (same_traversable (own notown (pub pix p) (pagg p)) _ (psz p)) with (adj1 := fun v => if v <? psz p then sub_adj notown (pub pix p) (padj p) v else []); try tauto.
  - intros v t H. destruct (v <? psz p) eqn:E; [|destruct H]. apply Nat.ltb_lt in E. apply filter_In in H. destruct H as [H1 H2]. apply filter_In. split; auto. destruct p as [|[|p]]; [| |lia]; destruct v as [|[|[|v]]]; cbn in E; try lia; exact H1.
  - intros v t Hv H. destruct (v <? psz p); [|destruct H]. apply filter_In in H. apply (p_targets p v t Hp Hv). tauto.
  - intros v r Hv HI Hr. pose proof (p_trav p Hp v r Hv HI Hr) as C. pose proof (root_le _ r v Hr) as HLe. assert (Hrn : r < psz p) by lia. clear HI Hr Hv HLe. induction C as [|x y C IH H1 H2 H3]; [constructor|].
    apply (cl_e _ _ _ r x y); auto. assert (Hx : x < psz p). { apply (closure_lt (sub_adj notown (pub pix p) (padj p)) (psz p) (own notown (pub pix p) (pagg p)) (fun v t Hv Ht => p_targets p v t Hp Hv (proj1 (proj1 (filter_In _ _ _) Ht))) (fun _ => false) r x Hrn C). }
    apply Nat.ltb_lt in Hx. rewrite Hx. exact H1.
Qed.
(** The coarse level has the indices 1 (vertices 0, 1) and 2 (vertex 2); vertex 3 is isolated.  Also the deviation: the entry (2,1) of the row that process 0 holds as overlap is not that of the global product, so the coarse
    matrices do not have the complete rows at overlap indices that the operator of C33 is specified with (the owned rows do, and these suffice: [C74_apply]). *)
Theorem C74_overlap_row_refuted : exists agg1 K cix rem cix1 K1 agg2 rows ga C0 C,
  coarsened 2 psz pix 100 (fun p => matrix_graph (gloc p)) pagg agg1 K cix rem cix1 K1 /\ publish_owner 2 psz pix cix1 agg1 agg2 /\
  (forall p, p < 2 -> overlap_vertices (agg2 p) (excluded notown (pub pix p)) (psz p) [2]) /\
  (forall p, p < 2 -> build_parallel (matrix_graph (gloc p)) (agg2 p) (excluded notown (pub pix p)) false (psz p) (K1 p) [2] = Ok (Some (rows p)) /\ pat (R := Zring) (C0 p) = rows p) /\
  global_aggregates 2 pix (coarse cix1) agg2 ga /\ calculate_parallel (R := Zring) 2 (coarse cix1) agg2 gloc C0 C /\
  level_ok (R := Zring) 2 4 K1 (coarse cix1) (gproduct 4 ga gA) C /\ (ga 0 = Some 1 /\ ga 1 = Some 1 /\ ga 2 = Some 2 /\ ga 3 = None) /\
  (coarse cix1 0 = [mke 1 0 Owner; mke 2 1 Overlap] /\ coarse cix1 1 = [mke 1 1 Copy; mke 2 0 Owner]) /\
  (den (C 0) 0 0 = 2%Z /\ den (C 0) 0 1 = (-1)%Z /\ den (C 0) 1 1 = 2%Z /\ den (C 1) 0 0 = 2%Z /\ den (C 1) 0 1 = (-1)%Z /\ den (C 1) 1 1 = 2%Z) /\
  den (C 0) 1 0 = 0%Z /\ gproduct (R := Zring) 4 ga gA 2 1 = (-1)%Z.
Proof.
  set (gadj := fun p => matrix_graph (gloc p)).
  assert (TG : forall p v t, p < 2 -> v < psz p -> In t (gadj p v) -> t < psz p) by (exact (step_targets 2 4 psz pix gA gloc g_level)).
  destruct (C73_runs 2 psz pix 100 gadj pagg p_wf p_gmax TG g_trav) as (agg1 & K & cix & rem & cix1 & K1 & HC).
  destruct (C73_publish_safe 2 psz pix 100 gadj pagg p_wf p_owner p_gmax TG g_trav agg1 K cix rem cix1 K1 HC) as (_ & _ & agg2 & HP).
  pose proof (C73_publish 2 psz pix 100 gadj pagg p_wf p_owner p_gmax TG g_trav agg1 K cix rem cix1 K1 HC agg2 HP) as (PU1 & PU2 & _).
  assert (X : agg1 0 0 = Agg 0 /\ agg1 0 1 = Agg 0 /\ agg1 1 0 = Agg 0 /\ agg1 1 1 = Iso /\ (coarse cix1 0 = [mke 1 0 Owner; mke 2 1 Overlap] /\ coarse cix1 1 = [mke 1 1 Copy; mke 2 0 Owner])).
  { pose proof HC as (C1 & C2 & C3). clear HC HP PU1 PU2.
    destruct (C1 0 ltac:(lia)) as [v0 E0]. vm_compute in E0. injection E0 as A0 B0 D0 _. destruct (C1 1 ltac:(lia)) as [v1 E1]. vm_compute in E1. injection E1 as A1 B1 D1 _.
    pose proof (C2 0 1 ltac:(lia) ltac:(lia) ltac:(lia)) as R01. rewrite <- A0, <- B0, <- D0 in R01. vm_compute in R01. injection R01 as R01. pose proof (C2 1 0 ltac:(lia) ltac:(lia) ltac:(lia)) as R10. rewrite <- A1, <- B1, <- D1 in R10. vm_compute in R10. injection R10 as R10.
    destruct (C3 0 ltac:(lia)) as (o0 & O1 & O2). apply Permutation_sym in O1. cbn in O1. apply Permutation_length_1_inv in O1. subst o0. unfold sync in O2. cbn [fold_left] in O2. rewrite <- R10, <- B0, <- D0 in O2. vm_compute in O2. injection O2 as S0 T0.
    destruct (C3 1 ltac:(lia)) as (o1 & O3 & O4). apply Permutation_sym in O3. cbn in O3. apply Permutation_length_1_inv in O3. subst o1. unfold sync in O4. cbn [fold_left] in O4. rewrite <- R01, <- B1, <- D1 in O4. vm_compute in O4. injection O4 as S1 T1.
    rewrite <- A0, <- A1. unfold coarse. rewrite <- S0, <- S1. repeat split; reflexivity. }
  destruct X as (V1 & V2 & V3 & V4 & CX0 & CX1).
  assert (OVS : forall p, p < 2 -> overlap_vertices (agg2 p) (excluded notown (pub pix p)) (psz p) [2]). { intros p Hp. destruct p as [|[|p]]; [| |lia]; (split; [apply Permutation_refl|repeat constructor]). }
  destruct (C74_step 2 4 psz pix gA gloc g_level 100 pagg ltac:(lia) g_trav agg1 K cix rem cix1 K1 HC agg2 HP false (fun _ => [2]) OVS) as (rows & ga & HGA & HB & HS).
  pose (C0 := fun p => map (map (fun j => (j, 0%Z : Zring))) (rows p)).
  assert (PC : forall p, pat (R := Zring) (C0 p) = rows p). { intros p. unfold pat, C0. rewrite map_map. erewrite map_ext; [apply map_id|]. intros r. cbn beta. rewrite map_map. cbn [fst]. apply map_id. }
  destruct (HS gA gloc C0 g_level) as [[C HCa] HS2]; [intros p Hp; split; auto|]. destruct (HS2 C HCa) as (L & HD & _ & HO). exists agg1, K, cix, rem, cix1, K1, agg2, rows, ga, C0, C.
  split; [exact HC|]. split; [exact HP|]. split; [exact OVS|]. split; [intros p Hp; split; [apply HB; auto|apply PC]|]. split; [exact HGA|]. split; [exact HCa|]. split; [exact L|].
  assert (H00 : holds pix 0 0 0 Owner) by (left; reflexivity). assert (H01 : holds pix 0 1 1 Owner) by (right; left; reflexivity). assert (H12 : holds pix 1 2 0 Owner) by (right; left; reflexivity). assert (H13 : holds pix 1 3 1 Owner) by (right; right; left; reflexivity).
  assert (K00 : holds (coarse cix1) 0 1 0 Owner) by (unfold holds; rewrite CX0; left; reflexivity). assert (K01 : holds (coarse cix1) 0 2 1 Overlap) by (unfold holds; rewrite CX0; right; left; reflexivity).
  assert (K11 : holds (coarse cix1) 1 1 1 Copy) by (unfold holds; rewrite CX1; left; reflexivity). assert (K10 : holds (coarse cix1) 1 2 0 Owner) by (unfold holds; rewrite CX1; right; left; reflexivity).
  assert (G0 : ga 0 = Some 1) by (apply HGA; exists 0, 0, 0; split; [lia|]; split; auto; split; auto; rewrite (PU1 0 0 0) by (auto; lia); auto).
  assert (G1 : ga 1 = Some 1) by (apply HGA; exists 0, 1, 0; split; [lia|]; split; auto; split; auto; rewrite (PU1 0 1 1) by (auto; lia); auto).
  assert (G2 : ga 2 = Some 2) by (apply HGA; exists 1, 0, 0; split; [lia|]; split; auto; split; auto; rewrite (PU1 1 2 0) by (auto; lia); auto).
  assert (G3 : ga 3 = None). { destruct (ga 3) as [x|] eqn:E; auto. exfalso. apply HGA in E. destruct E as (p & l & k & Hp & Q1 & Q2 & Q3). assert (p = 1) by (apply (p_owner 3 p 1 l 1); auto). subst p. destruct (holds_inj 2 psz pix p_wf 1 3 l Owner 1 Owner Hp Q1 H13) as [-> _]. rewrite (PU1 1 3 1 Hp H13), V4 in Q2. discriminate. }
  assert (GP : forall x y, gproduct (R := Zring) 4 ga gA x y = gproduct (R := Zring) 4 (fun g => match g with 0 | 1 => Some 1 | 2 => Some 2 | _ => None end) gA x y).
  { intros x y. unfold gproduct. apply (sum_ext (R := Zring)). intros g Hg. apply (sum_ext (R := Zring)). intros h Hh. unfold gprol. destruct g as [|[|[|[|g]]]]; try lia; destruct h as [|[|[|[|h]]]]; try lia; rewrite ?G0, ?G1, ?G2, ?G3; reflexivity. }
  split; auto. split; auto. destruct L as (WC & UC & L3 & L4 & L5). destruct (L5 0 ltac:(lia)) as [_ M0]. destruct (L5 1 ltac:(lia)) as [_ M1]. destruct (M0 1 0 K00) as [M01 _]. destruct (M1 2 0 K10) as [M11 _].
  split; [|split].
  - repeat split; [rewrite (M01 1 0 Owner K00)|rewrite (M01 2 1 Overlap K01)|rewrite (HD 0 2 1 Overlap ltac:(lia) K01)|rewrite (M11 2 0 Owner K10)|rewrite (M11 1 1 Copy K11)|rewrite (HD 1 1 1 Copy ltac:(lia) K11)]; rewrite GP; reflexivity.
  - assert (H02 : holds pix 0 2 2 Overlap) by (right; right; left; reflexivity). assert (A2 : agg2 0 2 = Agg 1).
    { destruct (PU2 1 0 2 2 0 Overlap ltac:(lia) ltac:(lia) H12 H02) as [(E & _)|(_ & I0 & k & kq & aq & Q1 & Q2 & Q3 & Q4)]; [discriminate|]. rewrite (PU1 1 2 0) in Q2 by (auto; lia). rewrite V3 in Q2. injection Q2 as <-. rewrite Q4. unfold holds in Q1, Q3. rewrite CX1 in Q1. rewrite CX0 in Q3. cbn [In] in Q1, Q3.
      destruct Q1 as [Q1|[Q1|[]]]; [discriminate|]. injection Q1 as <-. destruct Q3 as [Q3|[Q3|[]]]; [discriminate|]. injection Q3 as <- _. reflexivity. }
    assert (HK : 1 < K1 0). { destruct (WC 0 ltac:(lia)) as (_ & _ & F). rewrite Forall_forall in F. exact (F _ K01). }
    rewrite (HO 0 1 0 ltac:(lia) HK ltac:(lia)). cbn [psz]. cbn [sum]. unfold prol. rewrite (PU1 0 0 0), (PU1 0 1 1), V1, V2, A2 by (auto; lia). reflexivity.
  - rewrite GP. reflexivity.
Qed.
Print Assumptions C74_pattern.
Print Assumptions C74_calculate.
Print Assumptions C74_restrict.
Print Assumptions C74_prolongate.
Print Assumptions C74_apply.
Print Assumptions C74_step.
Print Assumptions C74_hierarchy.
Print Assumptions C74_owned_number_refuted.
Print Assumptions C74_gap_refuted.
Print Assumptions C74_overlap_row_refuted.
