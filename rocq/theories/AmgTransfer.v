(** * Aggregation AMG: grid transfer and Galerkin product values (C34).
    dune/istl/paamg/transfer.hh and BaseGalerkinProduct::calculate of dune/istl/paamg/galerkin.hh *)
From Coq Require Import Arith List Lia Bool Sorted ZArith.
From Verif Require Import Ring RingInst Sums Outcome Sparse MatVec.
Import ListNotations.
Open Scope nat_scope.

(** Values of AggregatesMap, aggregates.hh:558-760, 1666-1670: UNAGGREGATED and ISOLATED are the two largest values of the vertex type.
    Simplification: the vertex type is unbounded. *)
Inductive aggd : Type := Unagg | Iso | Agg (k : nat).
Definition aggd_eqb (a b : aggd) : bool := match a, b with Unagg, Unagg => true | Iso, Iso => true | Agg i, Agg j => i =? j | _, _ => false end.
Lemma aggd_eqb_spec a b : reflect (a = b) (aggd_eqb a b).
Proof. destruct a, b; cbn; try (constructor; congruence). destruct (Nat.eqb_spec k k0); constructor; congruence. Qed.
Lemma aggd_eqb_refl a : aggd_eqb a a = true.
Proof. destruct (aggd_eqb_spec a a); congruence. Qed.

Section Transfer.
  Context {R : ring}.
  Local Open Scope ring_scope_istl.
  Variable agg : nat -> aggd.   (* AggregatesMap::operator[] *)

  (** *begin *= damp, transfer.hh:118-121 *)
  Definition damp_all (damp : R) (c : vec R) : vec R := map (fun b => b * damp) c.
  (** *block += coarse[aggregates[index]], transfer.hh:125-130; an index outside coarse is an invalid access *)
  Fixpoint prolong_loop (c : vec R) (i : nat) (fine : vec R) : outcome (vec R) :=
    match fine with
    | nil => Ok nil
    | b :: t => obind (match agg i with Iso => Ok b | Unagg => UB | Agg k => if k <? length c then Ok (b + vget c k) else UB end) (fun b' => obind (prolong_loop c (S i) t) (fun t' => Ok (b' :: t')))
    end.
  (** Transfer<V,V1,SequentialInformation>::prolongateVector, transfer.hh:108-131: (coarse, fine) afterwards *)
  Definition prolongateVector (coarse fine : vec R) (damp : R) : outcome (vec R * vec R) :=
    let c := damp_all damp coarse in obind (prolong_loop c 0 fine) (fun f => Ok (c, f)).
  (** coarse[vertex] += *block, transfer.hh:147-151 *)
  Fixpoint restrict_loop (coarse : vec R) (i : nat) (fine : vec R) : outcome (vec R) :=
    match fine with
    | nil => Ok coarse
    | b :: t => match agg i with
                | Iso => restrict_loop coarse (S i) t
                | Unagg => UB
                | Agg k => if k <? length coarse then restrict_loop (upd coarse k (vget coarse k + b)) (S i) t else UB
                end
    end.
  (** restrictVector, transfer.hh:133-152 *)
  Definition restrictVector (coarse fine : vec R) : outcome (vec R) := restrict_loop (map (fun _ => r0) coarse) 0 fine.

  (** coarse[I][J] += a *)
  Fixpoint row_add (row : srow R) (j : nat) (a : R) : option (srow R) :=
    match row with
    | nil => None
    | (k, v) :: t => if k =? j then Some ((k, v + a) :: t) else option_map (cons (k, v)) (row_add t j a)
    end.
  Definition mat_add (C : smat R) (i j : nat) (a : R) : outcome (smat R) :=
    if i <? length C then match row_add (nth i C nil) j a with Some r => Ok (upd C i r) | None => UB end else UB.
  (** inner loop of calculate, galerkin.hh:644-648 *)
  Fixpoint gal_cols (I : nat) (row : srow R) (C : smat R) : outcome (smat R) :=
    match row with
    | nil => Ok C
    | (c, a) :: t => match agg c with Iso => gal_cols I t C | Unagg => UB | Agg J => obind (mat_add C I J a) (gal_cols I t) end
    end.
  (** outer loop, :638-649 *)
  Fixpoint gal_rows (r : nat) (A : smat R) (C : smat R) : outcome (smat R) :=
    match A with
    | nil => Ok C
    | row :: t => match agg r with Iso => gal_rows (S r) t C | Unagg => UB | Agg Ic => obind (gal_cols Ic row C) (gal_rows (S r) t) end
    end.
  (** rowsize[r] = coarse[r][r] for all rows, :652-655; the entry must be stored *)
  Fixpoint row_get (row : srow R) (j : nat) : option R := match row with nil => None | (k, v) :: t => if k =? j then Some v else row_get t j end.
  Fixpoint diags (r : nat) (C : smat R) : outcome (vec R) :=
    match C with nil => Ok nil | row :: t => match row_get row r with None => UB | Some v => obind (diags (S r) t) (fun d => Ok (v :: d)) end end.
  (** coarse[r][r] = rowsize[r], :657-658 *)
  Fixpoint row_set (row : srow R) (j : nat) (a : R) : option (srow R) :=
    match row with nil => None | (k, v) :: t => if k =? j then Some ((k, a) :: t) else option_map (cons (k, v)) (row_set t j a) end.
  Fixpoint set_diags (r : nat) (C : smat R) (d : vec R) : outcome (smat R) :=
    match C with nil => Ok nil | row :: t => match row_set row r (hd r0 d) with None => UB | Some row' => obind (set_diags (S r) t (tl d)) (fun C' => Ok (row' :: C')) end end.
  (** BaseGalerkinProduct::calculate, galerkin.hh:627-665, for SequentialInformation, whose copyOwnerToAll(rowsize,rowsize) does nothing.
      The assertions in the loops are implied by [Unagg => UB]. *)
  Definition calculate (A C : smat R) : outcome (smat R) :=
    obind (gal_rows 0 A (map (map (fun e => (fst e, r0))) C)) (fun C1 => obind (diags 0 C1) (fun d => set_diags 0 C1 d)).

  (** ** Specification: the 0/1 prolongation matrix of an aggregates map *)
  Definition prol (i k : nat) : R := match agg i with Agg k' => if k' =? k then r1 else r0 | _ => r0 end.
  (** every vertex below n is isolated or in an aggregate below K *)
  Definition agg_ok (n K : nat) : Prop := forall i, i < n -> agg i = Iso \/ exists k, k < K /\ agg i = Agg k.

  Lemma prolong_spec c fine : forall i, (forall l, l < length fine -> agg (i + l) = Iso \/ exists k, k < length c /\ agg (i + l) = Agg k) ->
    exists f, prolong_loop c i fine = Ok f /\ length f = length fine /\ forall l, l < length fine -> vget f l = vget fine l + sum (length c) (fun k => prol (i + l) k * vget c k).
  Proof.
    induction fine as [|b t IH]; intros i H; cbn [prolong_loop]; [exists nil; repeat split; auto; cbn; lia|].
    destruct (IH (S i)) as (f & E & L & V). { intros l Hl. replace (S i + l)%nat with (i + S l)%nat by lia. apply H. cbn. lia. }
    assert (HB : exists b', (match agg i with Iso => Ok b | Unagg => UB | Agg k => if k <? length c then Ok (b + vget c k) else UB end) = Ok b' /\ b' = b + sum (length c) (fun k => prol i k * vget c k)).
    { unfold prol. specialize (H 0 ltac:(cbn; lia)). rewrite Nat.add_0_r in H. destruct H as [-> |[k [Hk ->]]].
      - exists b. split; auto. rewrite sum_zero; [ncring|]. intros; ncring.
      - destruct (Nat.ltb_spec k (length c)); [|lia]. eexists. split; [reflexivity|]. f_equal. rewrite (sum_single (length c) k); auto.
        + rewrite Nat.eqb_refl. ncring.
        + intros j Hj Hn. destruct (Nat.eqb_spec k j); [congruence|ncring]. }
    destruct HB as (b' & EB & VB). rewrite EB, E. cbn [obind]. exists (b' :: f). split; auto. split; [cbn; lia|]. intros [|l] Hl; cbn [vget nth].
    - rewrite Nat.add_0_r. exact VB.
    - replace (i + S l)%nat with (S i + l)%nat by lia. apply V. cbn in Hl. lia.
  Qed.
  Theorem C34_prolongate n coarse fine damp : length fine = n -> agg_ok n (length coarse) ->
    exists c f, prolongateVector coarse fine damp = Ok (c, f) /\ length f = n /\ length c = length coarse /\ (forall k, k < length coarse -> vget c k = vget coarse k * damp) /\
      forall i, i < n -> vget f i = vget fine i + sum (length coarse) (fun k => prol i k * (vget coarse k * damp)).
  Proof.
    intros HL HA. unfold prolongateVector. assert (LC : length (damp_all damp coarse) = length coarse) by apply map_length.
    assert (VC : forall k, k < length coarse -> vget (damp_all damp coarse) k = vget coarse k * damp).
    { intros k Hk. unfold vget, damp_all. rewrite (nth_indep _ r0 (r0 * damp)) by (rewrite map_length; auto). apply (map_nth (fun b => b * damp)). }
    destruct (prolong_spec (damp_all damp coarse) fine 0) as (f & E & L & V). { intros l Hl. cbn [Nat.add]. rewrite LC. apply HA. lia. }
    rewrite E. cbn [obind]. exists (damp_all damp coarse), f. split; auto. split; [congruence|]. split; auto. split; auto. intros i Hi. rewrite V by lia. f_equal. rewrite LC. apply sum_ext. intros k Hk. rewrite VC; auto.
  Qed.
  Lemma restrict_spec fine : forall i c, (forall l, l < length fine -> agg (i + l) = Iso \/ exists k, k < length c /\ agg (i + l) = Agg k) ->
    exists c', restrict_loop c i fine = Ok c' /\ length c' = length c /\ forall k, k < length c -> vget c' k = vget c k + sum (length fine) (fun l => prol (i + l) k * vget fine l).
  Proof.
    induction fine as [|b t IH]; intros i c H; cbn [restrict_loop].
    - exists c. repeat split; auto. intros. cbn [length sum]. ncring.
    - assert (SH : forall k, sum (length (b :: t)) (fun l => prol (i + l) k * vget (b :: t) l) = prol i k * b + sum (length t) (fun l => prol (S i + l) k * vget t l)).
      { intros k. cbn [length]. rewrite (sum_split 1 (length t)). cbn [sum]. rewrite Nat.add_0_r. rewrite (sum_ext (length t) (fun l => prol (i + (1 + l)) k * vget (b :: t) (1 + l)) (fun l => prol (S i + l) k * vget t l)).
        - cbn [vget nth]. ncring.
        - intros l _. replace (i + (1 + l))%nat with (S i + l)%nat by lia. reflexivity. }
      pose proof (H 0 ltac:(cbn; lia)) as H0. rewrite Nat.add_0_r in H0. destruct H0 as [E0|[k0 [Hk E0]]].
      + rewrite E0. destruct (IH (S i) c) as (c' & E & L & V). { intros l Hl. replace (S i + l)%nat with (i + S l)%nat by lia. apply H. cbn. lia. }
        exists c'. split; auto. split; auto. intros k Hk. rewrite SH, V by auto. unfold prol at 2. rewrite E0. ncring.
      + rewrite E0. destruct (Nat.ltb_spec k0 (length c)); [|lia]. destruct (IH (S i) (upd c k0 (vget c k0 + b))) as (c' & E & L & V).
        { intros l Hl. rewrite upd_length. replace (S i + l)%nat with (i + S l)%nat by lia. apply H. cbn. lia. }
        exists c'. rewrite upd_length in *. split; auto. split; auto. intros k Hk'. rewrite SH, V by auto. unfold prol at 2. rewrite E0. rewrite vget_upd by auto. rewrite (Nat.eqb_sym k k0). destruct (Nat.eqb_spec k0 k); subst; ncring.
  Qed.
  (** restrictVector is the transpose of the prolongation *)
  Theorem C34_restrict n coarse fine : length fine = n -> agg_ok n (length coarse) ->
    exists c, restrictVector coarse fine = Ok c /\ length c = length coarse /\ forall k, k < length coarse -> vget c k = sum n (fun i => prol i k * vget fine i).
  Proof.
    intros HL HA. unfold restrictVector. destruct (restrict_spec fine 0 (map (fun _ => r0) coarse)) as (c & E & L & V). { rewrite map_length. intros l Hl. apply HA. lia. }
    rewrite map_length in *. exists c. split; auto. split; auto. intros k Hk. rewrite V by auto. rewrite HL. cbn [Nat.add]. replace (vget (map (fun _ => r0) coarse) k) with (@r0 R); [ncring|]. unfold vget. symmetry. apply (map_nth (fun _ => r0) coarse r0).
  Qed.

  (** ** Galerkin product *)
  Lemma row_add_spec row j a : In j (map fst row) -> NoDup (map fst row) -> exists row', row_add row j a = Some row' /\ map fst row' = map fst row /\ forall k, denrow row' k = denrow row k + (if k =? j then a else r0).
  Proof.
    induction row as [|[k v] t IH]; cbn [map row_add]; [intros []|]. intros HI HN. inversion HN as [|? ? N1 N2]. cbn [fst] in *. destruct (Nat.eqb_spec k j) as [->|Hn].
    - eexists. split; [reflexivity|]. split; auto. intros k. cbn [denrow]. rewrite (Nat.eqb_sym k j). destruct (Nat.eqb_spec j k); [|ncring]. subst. rewrite ?Nat.eqb_refl. ncring.
    - destruct HI as [HI|HI]; [congruence|]. destruct (IH HI N2) as (r' & E & M & D). rewrite E. cbn [option_map]. eexists. split; [reflexivity|]. split; [cbn [map fst]; congruence|]. intros k'. cbn [denrow].
      rewrite D. destruct (Nat.eqb_spec k k') as [->|]; [|reflexivity]. destruct (Nat.eqb_spec k' j); [congruence|]. ncring.
  Qed.
  (** pattern of a sparse matrix *)
  Definition pat (C : smat R) : list (list nat) := map (map fst) C.
  Lemma pat_nth C i : nth i (pat C) nil = map fst (nth i C nil).
  Proof. unfold pat. change (@nil nat) with (map (@fst nat R) nil). apply map_nth. Qed.
  Lemma pat_upd C i r : i < length C -> map fst r = map fst (nth i C nil) -> pat (upd C i r) = pat C.
  Proof.
    revert i. induction C as [|row t IH]; intros [|i] Hi HM; cbn in *; try lia; [rewrite HM; auto|]. f_equal. apply IH; auto. lia.
  Qed.
  Lemma den_upd (C : smat R) i r a b : i < length C -> den (upd C i r) a b = if a =? i then denrow r b else den C a b.
  Proof. intros Hi. unfold den. destruct (Nat.eqb_spec a i) as [->|Hn]; [rewrite nth_upd_eq; auto|rewrite nth_upd_ne; auto]. Qed.
  Definition pat_in (C : smat R) (I J : nat) : Prop := In J (nth I (pat C) nil).
  Definition pat_nodup (C : smat R) : Prop := forall I, NoDup (nth I (pat C) nil).
  Lemma pat_in_lt C I J : pat_in C I J -> I < length C.
  Proof. unfold pat_in. intros H. destruct (Nat.lt_ge_cases I (length C)); auto. rewrite nth_overflow in H; [destruct H|]. unfold pat. rewrite map_length. lia. Qed.
  Lemma mat_add_spec C i j a : pat_in C i j -> pat_nodup C -> exists C', mat_add C i j a = Ok C' /\ pat C' = pat C /\ forall I J, den C' I J = den C I J + (if (I =? i) && (J =? j) then a else r0).
  Proof.
    intros HI HN. pose proof (pat_in_lt C i j HI) as Hi. unfold mat_add. destruct (Nat.ltb_spec i (length C)); [|lia]. unfold pat_in in HI. specialize (HN i). rewrite pat_nth in HI, HN.
    destruct (row_add_spec (nth i C nil) j a HI HN) as (r & E & M & D). rewrite E. eexists. split; [reflexivity|]. split; [apply pat_upd; auto|]. intros I J. rewrite den_upd by auto. destruct (Nat.eqb_spec I i) as [->|]; cbn [andb]; [apply D|ncring].
  Qed.
  Definition alls (n K : nat) (i : nat) : Prop := agg i = Iso \/ exists k, k < K /\ agg i = Agg k.
  Lemma gal_cols_spec I row : forall C, (forall c a, In (c, a) row -> agg c = Iso \/ exists J, agg c = Agg J /\ pat_in C I J) -> pat_nodup C ->
    exists C', gal_cols I row C = Ok C' /\ pat C' = pat C /\ forall I' J, den C' I' J = den C I' J + (if I' =? I then lsum (map (fun e => snd e * prol (fst e) J) row) else r0).
  Proof.
    induction row as [|[c a] t IH]; intros C H HN; cbn [gal_cols map lsum].
    - exists C. repeat split; auto. intros. destruct (I' =? I); ncring.
    - destruct (H c a ltac:(left; auto)) as [E|[J0 [E HP]]]; rewrite E.
      + destruct (IH C) as (C' & E' & P & D). { intros c' a' HI. apply (H c' a'). right; auto. } { auto. }
        exists C'. split; auto. split; auto. intros I' J. rewrite D. cbn [fst snd]. unfold prol at 2. rewrite E. destruct (I' =? I); ncring.
      + destruct (mat_add_spec C I J0 a HP HN) as (C1 & E1 & P1 & D1). rewrite E1. cbn [obind].
        destruct (IH C1) as (C' & E' & P & D). { intros c' a' HI. destruct (H c' a') as [H'|[J' [H1 H2]]]; [right; auto|auto|]. right. exists J'. split; auto. unfold pat_in. rewrite P1. exact H2. }
        { intros I'. rewrite P1. apply HN. }
        exists C'. split; auto. split; [congruence|]. intros I' J. rewrite D, D1. cbn [fst snd]. unfold prol at 2. rewrite E. destruct (I' =? I); cbn [andb]; [|ncring]. rewrite (Nat.eqb_sym J J0). destruct (J0 =? J); ncring.
  Qed.
  Lemma gal_rows_spec A : forall r C, (forall l, l < length A -> agg (r + l) = Iso \/ exists I, agg (r + l) = Agg I /\
        forall c a, In (c, a) (nth l A nil) -> agg c = Iso \/ exists J, agg c = Agg J /\ pat_in C I J) -> pat_nodup C ->
    exists C', gal_rows r A C = Ok C' /\ pat C' = pat C /\ forall I J, den C' I J = den C I J + sum (length A) (fun l => prol (r + l) I * lsum (map (fun e => snd e * prol (fst e) J) (nth l A nil))).
  Proof.
    induction A as [|row t IH]; intros r C H HN; cbn [gal_rows].
    - exists C. repeat split; auto. intros. cbn [length sum]. ncring.
    - assert (SH : forall I J, sum (length (row :: t)) (fun l => prol (r + l) I * lsum (map (fun e => snd e * prol (fst e) J) (nth l (row :: t) nil))) =
                     prol r I * lsum (map (fun e => snd e * prol (fst e) J) row) + sum (length t) (fun l => prol (S r + l) I * lsum (map (fun e => snd e * prol (fst e) J) (nth l t nil)))).
      { intros I J. cbn [length]. rewrite (sum_split 1 (length t)). cbn [sum]. rewrite Nat.add_0_r.
        rewrite (sum_ext (length t) (fun l => prol (r + (1 + l)) I * lsum (map (fun e => snd e * prol (fst e) J) (nth (1 + l) (row :: t) nil))) (fun l => prol (S r + l) I * lsum (map (fun e => snd e * prol (fst e) J) (nth l t nil)))).
        - cbn [nth]. ncring.
        - intros l _. replace (r + (1 + l))%nat with (S r + l)%nat by lia. reflexivity. }
      pose proof (H 0 ltac:(cbn; lia)) as H0. rewrite Nat.add_0_r in H0. cbn [nth] in H0. destruct H0 as [E0|[I0 [E0 HP]]]; rewrite E0.
      + destruct (IH (S r) C) as (C' & E' & P & D). { intros l Hl. replace (S r + l)%nat with (r + S l)%nat by lia. apply (H (S l)). cbn. lia. } { auto. }
        exists C'. split; auto. split; auto. intros I J. rewrite SH, D. unfold prol at 3. rewrite E0. ncring.
      + destruct (gal_cols_spec I0 row C HP HN) as (C1 & E1 & P1 & D1). rewrite E1. cbn [obind].
        destruct (IH (S r) C1) as (C' & E' & P & D).
        { intros l Hl. replace (S r + l)%nat with (r + S l)%nat by lia. destruct (H (S l) ltac:(cbn; lia)) as [H'|[I' [H1 H2]]]; auto. right. exists I'. split; auto. intros c a HI. destruct (H2 c a HI) as [|[J' [H3 H4]]]; auto. right. exists J'. split; auto. unfold pat_in. rewrite P1. exact H4. }
        { intros I'. rewrite P1. apply HN. }
        exists C'. split; auto. split; [congruence|]. intros I J. rewrite SH, D, D1. unfold prol at 4. rewrite E0. rewrite (Nat.eqb_sym I I0). destruct (I0 =? I); ncring.
  Qed.
  Lemma diag_roundtrip (C : smat R) : forall r, (forall l, l < length C -> In (r + l)%nat (map fst (nth l C nil))) -> obind (diags r C) (fun d => set_diags r C d) = Ok C.
  Proof.
    assert (RW : forall row j, In j (map fst row) -> exists v, row_get row j = Some v /\ row_set row j v = Some row).
    { induction row as [|[k v] t IH]; cbn [map row_get row_set fst In]; [intros j []|]. intros j HI. destruct (Nat.eqb_spec k j) as [->|Hn]; [eauto|]. destruct HI as [|HI]; [congruence|]. destruct (IH j HI) as (w & E1 & E2). exists w. rewrite E1, E2. auto. }
    induction C as [|row t IH]; intros r H; cbn [diags set_diags]; auto. destruct (RW row r) as (v & E1 & E2). { pose proof (H 0 ltac:(cbn; lia)) as H0. rewrite Nat.add_0_r in H0. exact H0. }
    rewrite E1. specialize (IH (S r)). destruct (diags (S r) t) as [d| |] eqn:ED; cbn [obind] in *.
    - cbn [hd tl]. rewrite E2. rewrite IH; auto. intros l Hl. replace (S r + l)%nat with (r + S l)%nat by lia. apply (H (S l)). cbn. lia.
    - exfalso. discriminate IH. intros l Hl. replace (S r + l)%nat with (r + S l)%nat by lia. apply (H (S l)). cbn. lia.
    - exfalso. discriminate IH. intros l Hl. replace (S r + l)%nat with (r + S l)%nat by lia. apply (H (S l)). cbn. lia.
  Qed.

  (** The coarse pattern contains what the Galerkin product needs: all diagonal entries, and (agg r, agg c) for every stored entry (r, c) of A between non-isolated vertices. *)
  Definition coarse_pattern_ok (A C : smat R) : Prop :=
    (forall I, I < length C -> instored C I I) /\
    (forall r c I J, instored A r c -> agg r = Agg I -> agg c = Agg J -> instored C I J).
  (** calculate succeeds and yields P^T A P, whatever values the coarse matrix held before *)
  Theorem C34_galerkin n K A C : mat_wf n n A -> mat_wf K K C -> agg_ok n K -> coarse_pattern_ok A C ->
    exists C', calculate A C = Ok C' /\ pat C' = pat C /\ mat_wf K K C' /\
      forall I J, den C' I J = sum n (fun r => sum n (fun c => prol r I * (den A r c * prol c J))).
  Proof.
    intros HA HC HG [HD HP]. unfold calculate. set (C0 := map (map (fun e => (fst e, r0))) C).
    assert (P0 : pat C0 = pat C). { unfold pat, C0. rewrite map_map. apply map_ext. intros row. rewrite map_map. reflexivity. }
    assert (NC : pat_nodup C0). { intros I. rewrite P0, pat_nth. apply (row_wf_NoDup K). apply (mat_wf_row K K). auto. }
    assert (PI : forall I J, instored C I J -> pat_in C0 I J). { intros I J H. unfold pat_in. rewrite P0, pat_nth. exact H. }
    destruct (gal_rows_spec A 0 C0) as (C1 & E1 & P1 & D1).
    { intros l Hl. cbn [Nat.add]. rewrite (proj1 HA) in Hl. destruct (HG l Hl) as [|[I [HI E]]]; auto. right. exists I. split; auto. intros c a HIn. assert (Hc : c < n).
      { destruct (mat_wf_row n n A l HA) as [_ F]. rewrite Forall_forall in F; apply F. apply (in_map fst) in HIn. exact HIn. }
      destruct (HG c Hc) as [|[J [HJ E']]]; auto. right. exists J. split; auto. apply PI. apply (HP l c); auto. apply (in_map fst) in HIn. exact HIn. }
    { auto. }
    rewrite E1. cbn [obind]. assert (W1 : mat_wf K K C1).
    { assert (PE : pat C1 = pat C) by congruence. split.
      - rewrite <- (proj1 HC). transitivity (length (pat C1)); [symmetry; apply map_length|]. rewrite PE. apply map_length.
      - apply Forall_forall. intros row HI. apply (In_nth _ _ nil) in HI. destruct HI as [i [Hi <-]]. pose proof (mat_wf_row K K C i HC) as [S1 S2]. unfold row_wf. rewrite <- pat_nth, PE, pat_nth. auto. }
    rewrite diag_roundtrip.
    - exists C1. split; auto. split; [congruence|]. split; auto. intros I J. rewrite D1. rewrite (proj1 HA).
      replace (den C0 I J) with (@r0 R).
      + rewrite radd_0_l. apply sum_ext. intros r Hr. cbn [Nat.add]. rewrite sum_mul_l. f_equal. destruct (mat_wf_row n n A r HA) as [S1 S2].
        rewrite (lsum_row (fun c a => a * prol c J) n (nth r A nil)); auto; [apply ssorted_NoDup; auto|]. intros; ncring.
      + unfold den, C0. destruct (Nat.lt_ge_cases I (length C)).
        * rewrite (nth_indep _ nil (map (fun e : nat * R => (fst e, r0)) nil)) by (rewrite map_length; auto). rewrite map_nth. induction (nth I C nil) as [|[k v] t IH]; cbn [map denrow fst]; auto. destruct (k =? J); rewrite <- ?IH; auto; ncring.
        * rewrite nth_overflow by (rewrite map_length; auto). reflexivity.
    - intros l Hl. cbn [Nat.add]. rewrite <- pat_nth, P1, P0, pat_nth. apply HD. rewrite (proj1 HC), <- (proj1 W1). exact Hl.
  Qed.
End Transfer.

(** A concrete case: vertices 0,1 in aggregate 0, vertex 2 isolated, vertex 3 in aggregate 1. *)
Definition exagg (i : nat) : aggd := match i with 0 | 1 => Agg 0 | 2 => Iso | _ => Agg 1 end.
Definition exGalA : smat Zring := [[(0, 4%Z); (1, (-1)%Z)]; [(0, (-1)%Z); (1, 4%Z); (3, (-2)%Z)]; [(2, 9%Z)]; [(1, (-3)%Z); (2, 7%Z); (3, 5%Z)]].
Definition exGalC : smat Zring := [[(0, 77%Z); (1, 77%Z)]; [(0, 77%Z); (1, 77%Z)]].
Example C34_nonvacuous : mat_wf 4 4 exGalA /\ mat_wf 2 2 exGalC /\ agg_ok exagg 4 2 /\ coarse_pattern_ok exagg exGalA exGalC /\
  calculate exagg exGalA exGalC = Ok [[(0, 6%Z); (1, (-2)%Z)]; [(0, (-3)%Z); (1, 5%Z)]] /\
  restrictVector (R := Zring) exagg [8%Z; 8%Z] [1%Z; 2%Z; 3%Z; 4%Z] = Ok [3%Z; 4%Z] /\
  prolongateVector (R := Zring) exagg [1%Z; 2%Z] [10%Z; 20%Z; 30%Z; 40%Z] 3%Z = Ok ([3%Z; 6%Z], [13%Z; 23%Z; 30%Z; 46%Z]).
Proof.
  split; [|split; [|split; [|split]]].
  - split; [reflexivity|]. repeat (constructor; [split; cbn; repeat constructor; lia|]). constructor.
  - split; [reflexivity|]. repeat (constructor; [split; cbn; repeat constructor; lia|]). constructor.
  - intros [|[|[|[|i]]]] Hi; try lia; cbn; auto; right; eexists; (split; [|reflexivity]); lia.
  - split.
    + intros [|[|I]] HI; cbn in HI; try lia; cbn; auto.
    + intros r c I J H E1 E2. unfold exagg in *. destruct r as [|[|[|r]]]; injection E1 as <- || discriminate E1; destruct c as [|[|[|c]]]; injection E2 as <- || discriminate E2; cbn; auto.
  - repeat split.
Qed.
Print Assumptions C34_prolongate.
Print Assumptions C34_restrict.
Print Assumptions C34_galerkin.
