(** * commGraphRepartition and isValidGraph: dune/istl/repartition.hh:775-1204: C70 *)
From Coq Require Import Arith List Lia Bool Sorted Permutation.
From Verif Require Import Ring Sums Outcome Sparse Parallel ParComm Repartition RepartPrep.
Import ListNotations.
Open Scope nat_scope.

(** ** Model *)
(** isValidGraph, repartition.hh:782-820, for arrays of nonnegative numbers; access outside of an array is undefined.
    797-803: the targets of one vertex *)
Definition rd (a : list nat) (i : nat) : outcome nat := match nth_error a i with Some x => Ok x | None => UB end.
Fixpoint targets_loop (gnoVtx : nat) (adjncy : list nat) (is : list nat) (correct : bool) : outcome bool :=
  match is with nil => Ok correct | i :: t => obind (rd adjncy i) (fun x => targets_loop gnoVtx adjncy t (if gnoVtx <? x then false else correct)) end.
(** 809-811 *)
Fixpoint count_back (adjncy : list nat) (vtx : nat) (js : list nat) (found : nat) : outcome nat :=
  match js with nil => Ok found | j :: t => obind (rd adjncy j) (fun x => count_back adjncy vtx t (if x =? vtx then S found else found)) end.
(** 805-817 *)
Fixpoint sym_loop (xadj adjncy : list nat) (vtx : nat) (is : list nat) (correct : bool) : outcome bool :=
  match is with
  | nil => Ok correct
  | i :: t => obind (rd adjncy i) (fun target => obind (rd xadj target) (fun b => obind (rd xadj (target + 1)) (fun e =>
              obind (count_back adjncy vtx (seq b (e - b)) 0) (fun found => sym_loop xadj adjncy vtx t (if found =? 1 then correct else false)))))
  end.
Fixpoint valid_loop (gnoVtx noEdges : nat) (xadj adjncy : list nat) (checkSymmetry : bool) (vs : list nat) (correct : bool) : outcome bool :=
  match vs with
  | nil => Ok correct
  | v :: t =>
      obind (rd xadj v) (fun b => obind (rd xadj (v + 1)) (fun e =>
      let c1 := if noEdges <? b then false else correct in
      let c2 := if noEdges <? e then false else c1 in
      obind (targets_loop gnoVtx adjncy (seq b (e - b)) c2) (fun c3 =>
      obind (if checkSymmetry then sym_loop xadj adjncy v (seq b (e - b)) c3 else Ok c3) (fun c4 => valid_loop gnoVtx noEdges xadj adjncy checkSymmetry t c4))))
  end.
(** isValidGraph, repartition.hh:782-820 *)
Definition isValidGraph (noVtx gnoVtx noEdges : nat) (xadj adjncy : list nat) (checkSymmetry : bool) : outcome bool := valid_loop gnoVtx noEdges xadj adjncy checkSymmetry (seq 0 noVtx) true.

Section Comm.
  (** [nbs p]: the processes in oocomm.remoteIndices() of process p (a std::map: increasing), may contain p itself *)
  Variables (P : nat) (nbs : nat -> list nat).
  (** 847-855 *)
  Definition noNeighbours (p : nat) : nat := if existsb (Nat.eqb p) (nbs p) then length (nbs p) - 1 else length (nbs p).
  (** 862, 911-922: the array adjncy of noNeighbours entries; writing behind its end is undefined *)
  Fixpoint fill_adj (p : nat) (ns : list nat) (pos : nat) (a : list nat) : outcome (list nat) :=
    match ns with
    | nil => Ok a
    | n :: t => if n =? p then fill_adj p t pos a else if pos <? length a then fill_adj p t (S pos) (upd a pos n) else UB
    end.
  Definition adjncy (p : nat) : outcome (list nat) := fill_adj p (nbs p) 0 (repeat 0 (noNeighbours p)).
  (** MPI_Allgatherv (1036-1041): xadj = {0, noNeighbours} of all processes one after the other (xdispl[i] = i + vtxdist[i] = 2 i), and all adjncy (displ: prefix sums of noedges) *)
  Definition gxadj0 : list nat := flat_map (fun p => [0; noNeighbours p]) (seq 0 P).
  Definition gadjncy (adj : nat -> list nat) : list nat := flat_map adj (seq 0 P).
  (** 1054-1073: the shift; each process has one vertex (vtxdist[i] = i), so the range for std::transform has one element.  At step i, start points to entry 1+i and offset is i *)
  Fixpoint shift_loop (is : list nat) (g : list nat) : outcome (list nat) :=
    match is with
    | nil => Ok g
    | i :: t => obind (rd g i) (fun increment => obind (rd g (1 + i + i)) (fun x => shift_loop t (upd g (1 + i) (x + increment))))
    end.
  Definition gxadj : outcome (list nat) := shift_loop (seq 1 (P - 1)) gxadj0.
End Comm.
(** 1164-1189: [gpart] is what METIS returns on process 0 (MPI_Scatter); realpart before copyOwnerToAll(realpart, realpart).  Without ParMETIS and for nparts<=1: 0 *)
Definition partTo (have : bool) (nparts : nat) (gpart : list nat) (p : nat) : option nat := if have && (1 <? nparts) then nth_error gpart p else Some 0.
Definition realpart (nv : nat -> nat) (have : bool) (nparts : nat) (gpart : list nat) (p : nat) : list (option nat) := repeat (partTo have nparts gpart p) (nv p).

(** ** The graph of the processes *)
Lemma fill_adj_spec p ns : forall pre rest, length (filter (fun n => negb (n =? p)) ns) <= length rest ->
  fill_adj p ns (length pre) (pre ++ rest) = Ok (pre ++ filter (fun n => negb (n =? p)) ns ++ skipn (length (filter (fun n => negb (n =? p)) ns)) rest).
Proof.
  induction ns as [|n t IH]; intros pre rest H; cbn [fill_adj filter] in *; [auto|]. destruct (n =? p); cbn [negb length] in *; [apply IH; auto|]. destruct rest as [|x rest]; [cbn [length] in H; lia|]. cbn [length] in H.
  rewrite app_length. cbn [length]. replace (length pre <? length pre + S (length rest)) with true by (symmetry; apply Nat.ltb_lt; lia). rewrite upd_mid by auto.
  specialize (IH (pre ++ [n]) rest ltac:(lia)). rewrite app_length, <- !app_assoc in IH. cbn [length app] in IH. rewrite Nat.add_1_r in IH. rewrite IH. reflexivity.
Qed.
Lemma others_count p ns : NoDup ns -> length (filter (fun n => negb (n =? p)) ns) = if existsb (Nat.eqb p) ns then length ns - 1 else length ns.
Proof.
  induction 1 as [|n t H1 H2 IH]; cbn [filter existsb length]; auto. destruct (Nat.eqb_spec n p) as [E|E]; cbn [negb].
  - subst n. rewrite Nat.eqb_refl. cbn [orb]. rewrite IH. destruct (existsb (Nat.eqb p) t) eqn:EX; [|lia]. exfalso. apply existsb_exists in EX. destruct EX as (x & X1 & X2). apply Nat.eqb_eq in X2. subst x. contradiction.
  - replace (p =? n) with false by (symmetry; apply Nat.eqb_neq; auto). cbn [orb length]. rewrite IH. destruct (existsb (Nat.eqb p) t) eqn:EX; [|auto]. apply existsb_exists in EX. destruct EX as (x & X1 & _). destruct t; [destruct X1|cbn [length]; lia].
Qed.
Section CommProof.
  Variables (P : nat) (nbs : nat -> list nat).
  Hypothesis HN : forall p, p < P -> StronglySorted lt (nbs p).
  Definition others (p : nat) : list nat := filter (fun n => negb (n =? p)) (nbs p).
  Lemma adjncy_ok p : p < P -> adjncy nbs p = Ok (others p) /\ length (others p) = noNeighbours nbs p.
  Proof.
    intros Hp. pose proof (others_count p (nbs p) (SS_NoDup _ (HN p Hp))) as E. fold (noNeighbours nbs p) in E. fold (others p) in E. split; auto. unfold adjncy. pose proof (fill_adj_spec p (nbs p) nil (repeat 0 (noNeighbours nbs p))) as F. fold (others p) in F. rewrite repeat_length in F.
    specialize (F ltac:(lia)). cbn [length app] in F. rewrite F, skipn_all2 by (rewrite repeat_length; lia). rewrite app_nil_r. auto.
  Qed.
  Let pre k := list_sum (map (noNeighbours nbs) (seq 0 k)).
  Lemma gxadj0_length : length (gxadj0 P nbs) = 2 * P.
  Proof. unfold gxadj0. rewrite <- (seq_length P 0) at 2. generalize (seq 0 P). intros l. induction l as [|x t IH]; auto. cbn [flat_map length app]. lia. Qed.
  Lemma gxadj0_nth k : k < P -> nth (1 + k + k) (gxadj0 P nbs) 0 = noNeighbours nbs k.
  Proof.
    intros Hk. unfold gxadj0. assert (G : forall n b k, k < n -> nth (1 + k + k) (flat_map (fun p => [0; noNeighbours nbs p]) (seq b n)) 0 = noNeighbours nbs (b + k)).
    { clear. induction n as [|n IH]; intros b k Hk; [lia|]. cbn [seq flat_map app]. destruct k as [|k]; [cbn; f_equal; lia|]. replace (1 + S k + S k) with (S (S (1 + k + k))) by lia. cbn [nth]. rewrite IH by lia. f_equal. lia. }
    rewrite G by auto. auto.
  Qed.
  Lemma shift_spec n : forall i g, 1 <= i -> i + n <= P -> length g = 2 * P -> (forall k, k <= i -> nth k g 0 = pre k) -> (forall k, i <= k < P -> nth (1 + k + k) g 0 = noNeighbours nbs k) ->
    exists g', shift_loop (seq i n) g = Ok g' /\ length g' = 2 * P /\ forall k, k <= i + n -> nth k g' 0 = pre k.
  Proof.
    induction n as [|n IH]; intros i g H1 H2 HL HP HR; cbn [seq shift_loop].
    - exists g. repeat split; auto. intros k Hk. apply HP. lia.
    - unfold rd. rewrite !(nth_error_nth' g 0) by lia. cbn [obind]. destruct (IH (S i) (upd g (1 + i) (nth (1 + i + i) g 0 + nth i g 0))) as (g' & E & L & R); [lia|lia|rewrite upd_length; auto| | |].
      + intros k Hk. destruct (Nat.eq_dec k (1 + i)) as [EQ|EQ]; [|rewrite nth_upd_ne by auto; apply HP; lia]. subst k. rewrite nth_upd_eq by lia. rewrite (HP i), (HR i) by lia. unfold pre. change (1 + i) with (S i). rewrite list_sum_seq_S. lia.
      + intros k Hk. rewrite nth_upd_ne by lia. apply HR. lia.
      + exists g'. split; auto. split; auto. intros k Hk. apply R. lia.
  Qed.
  (** The gathered arrays are the graph of the processes: entry k of xadj is the number of edges of the processes before k, and the segment of process p lists the
      other processes it shares indices with; no array is overrun. *)
  Theorem C70_graph : 0 < P -> exists adj gx, (forall p, p < P -> adjncy nbs p = Ok (adj p)) /\ gxadj P nbs = Ok gx /\ nth 0 gx 0 = 0 /\ nth P gx 0 = length (gadjncy P adj) /\
    forall p, p < P -> nth p gx 0 <= nth (S p) gx 0 /\ segment gx p (gadjncy P adj) = adj p /\ StronglySorted lt (adj p) /\ forall q, In q (adj p) <-> In q (nbs p) /\ q <> p.
  Proof.
    intros HP. destruct (shift_spec (P - 1) 1 (gxadj0 P nbs)) as (g & E & L & R); [lia|lia|apply gxadj0_length| |intros k Hk; apply gxadj0_nth; lia|].
    { intros k Hk. destruct k as [|k]; [destruct P as [|P']; [lia|reflexivity]|]. assert (k = 0) by lia. subst k. transitivity (nth (1 + 0 + 0) (gxadj0 P nbs) 0); [reflexivity|]. rewrite gxadj0_nth by lia. unfold pre. cbn. lia. }
    assert (RR : forall k, k <= P -> nth k g 0 = pre k) by (intros; apply R; lia).
    assert (FL : forall n, n <= P -> length (flat_map others (seq 0 n)) = pre n).
    { induction n as [|n IH]; intros Hn; auto. rewrite seq_S, flat_map_app, app_length, IH by lia. cbn [flat_map Nat.add]. rewrite app_nil_r. unfold pre. rewrite list_sum_seq_S. f_equal. apply adjncy_ok. lia. }
    exists others, g. split; [intros p Hp; apply adjncy_ok; auto|]. split; auto. split; [rewrite RR by lia; reflexivity|]. split; [rewrite RR by lia; symmetry; apply FL; lia|].
    intros p Hp. assert (ES : pre (S p) = pre p + length (others p)) by (unfold pre; rewrite list_sum_seq_S; f_equal; symmetry; apply adjncy_ok; auto). rewrite !RR, ES by lia. split; [lia|]. split; [|split].
    - unfold segment, gadjncy. rewrite !RR, ES by lia. replace P with (p + S (P - S p)) at 1 by lia. rewrite seq_app, flat_map_app, skipn_app, <- FL, skipn_all, Nat.sub_diag by lia. cbn [app skipn seq flat_map Nat.add].
      replace (length (flat_map others (seq 0 p)) + length (others p) - length (flat_map others (seq 0 p))) with (length (others p)) by lia. rewrite firstn_app, firstn_all, Nat.sub_diag. cbn [firstn]. apply app_nil_r.
    - apply filter_SS, HN. auto.
    - intros q. unfold others. rewrite filter_In, negb_true_iff, Nat.eqb_neq. tauto.
  Qed.
End CommProof.

(** ** The partition *)
Section Partition.
  Variables (P : nat) (nv : nat -> nat) (ix : nat -> pis) (have : bool) (nparts : nat) (gpart : list nat) (graph : nat -> list (list nat)).
  Hypothesis HW : dist_wf P nv ix.
  Hypothesis HU : unique_owner P ix.
  Hypothesis HO : forall p g l a, p < P -> holds ix p g l a -> exists p' l', p' < P /\ holds ix p' g l' Owner.
  Hypothesis HG : forall p, p < P -> length (graph p) = nv p /\ Forall (Forall (fun t => t < nv p)) (graph p).
  (** METIS gives each process a number of a process *)
  Hypothesis HM : have = true -> 1 < nparts -> length gpart = P /\ Forall (fun q => q < P) gpart.
  Let ix' := fillIndexSetHoles P nv ix.
  Definition goal (p : nat) : nat := match partTo have nparts gpart p with Some q => q | None => P end.
  Lemma goal_ok p : p < P -> partTo have nparts gpart p = Some (goal p) /\ goal p < P.
  Proof.
    intros Hp. unfold goal, partTo. destruct have; cbn [andb]; [|split; auto; lia]. destruct (Nat.ltb_spec 1 nparts) as [H|H]; [|split; auto; lia]. destruct (HM eq_refl H) as [M1 M2].
    rewrite (nth_error_nth' gpart 0) by lia. split; auto. rewrite Forall_forall in M2. apply M2, nth_In. lia.
  Qed.
  (** commGraphRepartition passes legal input on to buildCommunication (C67): all vertices a process owns go to the process METIS chose for it (process 0 without ParMETIS or for one part),
      and the processes that have copies agree. *)
  Theorem C70_legal d : copyOwnerToAll P ix None (realpart nv have nparts gpart) d ->
    exists parts, (forall p, p < P -> d p = setp_of parts p) /\ legal P ix' graph parts nv /\
      (forall order q, buildCommunication P ix' graph d order q = buildCommunication P ix' graph (setp_of parts) order q) /\
      (forall p g l, p < P -> holds ix' p g l Owner -> partTo have nparts gpart p = Some (nth l (parts p) P)).
  Proof.
    intros HC. set (sp := realpart nv have nparts gpart) in *. assert (SZ : sized P nv sp) by (intros p Hp; apply repeat_length).
    assert (SV : forall p l, p < P -> l < nv p -> nth l (sp p) None = Some (goal p)).
    { intros p l Hp Hl. unfold sp, realpart. rewrite (proj1 (goal_ok p Hp)). rewrite (nth_indep _ None (Some (goal p))) by (rewrite repeat_length; auto). apply nth_repeat. }
    destruct (C31_in_place None P nv ix HW sp d HU SZ HC) as (SZ1 & CO & OWN & _). destruct (C69_holes P nv ix HW) as (WF & CP & OLD & NEW & UN & _ & _). specialize (UN HU). fold ix' in WF, CP, OLD, NEW, UN.
    assert (LT : forall p g l a, p < P -> holds ix p g l a -> l < nv p) by (intros p g l a Hp H; destruct (HW p Hp) as (_ & _ & W); rewrite Forall_forall in W; apply (W _ H)).
    assert (HELD : forall p g l a r lr, p < P -> holds ix p g l a -> r < P -> holds ix r g lr Owner -> nth l (d p) None = Some (goal r)).
    { intros p g l a r lr Hp H Hr HR. rewrite (CO r p g l lr a Hr Hp HR H), (OWN r g lr Hr HR). apply SV; auto. eapply LT; eauto. }
    assert (FREE : forall p l, p < P -> l < nv p -> (forall g a, ~ holds ix p g l a) -> nth l (d p) None = Some (goal p)).
    { intros p l Hp Hl HN. destruct (C31_copyOwnerToAll None P nv ix HW None sp SZ I d HU HC p Hp) as (_ & _ & _ & K). rewrite K by auto. apply SV; auto. }
    assert (VAL : forall p l, p < P -> l < nv p -> exists q, q < P /\ nth l (d p) None = Some q).
    { intros p l Hp Hl. destruct (pos_dec ix p l) as [(g & a & H)|H].
      - destruct (HO p g l a Hp H) as (r & lr & Hr & HR). exists (goal r). split; [apply goal_ok; auto|]. eapply HELD; eauto.
      - exists (goal p). split; [apply goal_ok; auto|]. apply FREE; auto. }
    set (parts := fun p => map (fun o => match o with Some q => q | None => P end) (d p)). exists parts.
    assert (NP : forall p l, nth l (parts p) P = match nth l (d p) None with Some q => q | None => P end). { intros p l. unfold parts. apply (map_nth (fun o => match o with Some q => q | None => P end) (d p) None l). }
    assert (OWNED : forall p g l, p < P -> holds ix' p g l Owner -> nth l (d p) None = Some (goal p)).
    { intros p g l Hp H. destruct (in_dec entry_dec (mke g l Owner) (ix p)) as [HI|HI]; [eapply HELD; eauto|]. destruct (NEW p g l Owner Hp H HI) as (_ & N2 & _). apply FREE; auto. destruct (WF p Hp) as (_ & _ & W). rewrite Forall_forall in W. apply (W _ H). }
    assert (EP : forall p, p < P -> d p = setp_of parts p).
    { intros p Hp. unfold setp_of, parts. rewrite map_map. rewrite <- (map_id (d p)) at 1. apply map_ext_in. intros o Ho. apply (In_nth _ _ None) in Ho. destruct Ho as (l & Hl & El). rewrite SZ1 in Hl by auto. destruct (VAL p l Hp Hl) as (q & _ & E). rewrite <- El, E. auto. }
    split; auto. split; [|split].
    - constructor; auto.
      + intros p Hp. split; [unfold parts; rewrite map_length; apply SZ1; auto|]. apply Forall_forall. intros q Hq. apply (In_nth _ _ P) in Hq. destruct Hq as (l & Hl & El). unfold parts in Hl. rewrite map_length, SZ1 in Hl by auto. destruct (VAL p l Hp Hl) as (q' & Hq' & E). rewrite NP, E in El. lia.
      + intros p g l a Hp H. destruct (in_dec entry_dec (mke g l a) (ix p)) as [HI|HI].
        * destruct (HO p g l a Hp HI) as (r & lr & Hr & HR). exists r, lr. auto.
        * destruct (NEW p g l a Hp H HI) as [-> _]. eauto.
      + intros p q g l l' a Hp Hq H1 H2. rewrite !NP, (OWNED p g l' Hp H1). destruct (in_dec entry_dec (mke g l a) (ix q)) as [HI|HI].
        * destruct (HO q g l a Hq HI) as (r & lr & Hr & HR). assert (r = p) by (apply (UN g r p lr l'); auto; apply OLD; auto). subst r. rewrite (HELD q g l a p lr) by auto. auto.
        * destruct (NEW q g l a Hq H2 HI) as (EA & _ & _ & N4). subst a. assert (p = q) by (apply (UN g p q l' l); auto). subst q. rewrite (OWNED p g l Hp H2). auto.
    - intros order q. unfold buildCommunication. f_equal. apply omap_ext. intros p Hp. apply in_seq in Hp. rewrite EP by lia. auto.
    - intros p g l Hp H. rewrite NP, (OWNED p g l Hp H). apply goal_ok. auto.
  Qed.
End Partition.

(** ** isValidGraph *)
Lemma targets_loop_spec gno a is c : Forall (fun i => i < length a) is -> targets_loop gno a is c = Ok (c && forallb (fun i => nth i a 0 <=? gno) is).
Proof.
  revert c. induction is as [|i t IH]; intros c HF; cbn [targets_loop forallb]; [rewrite andb_true_r; auto|]. apply Forall_cons_iff in HF. destruct HF as [F1 F2]. unfold rd. rewrite (nth_error_nth' a 0) by auto. cbn [obind]. rewrite IH by auto. f_equal.
  destruct (Nat.ltb_spec gno (nth i a 0)); destruct (Nat.leb_spec (nth i a 0) gno); try lia; cbn; auto.
Qed.
Lemma count_back_spec a v js k : Forall (fun i => i < length a) js -> count_back a v js k = Ok (k + count_occ Nat.eq_dec (map (fun j => nth j a 0) js) v).
Proof.
  revert k. induction js as [|j t IH]; intros k HF; cbn [count_back map count_occ]; [f_equal; lia|]. apply Forall_cons_iff in HF. destruct HF as [F1 F2]. unfold rd. rewrite (nth_error_nth' a 0) by auto. cbn [obind]. rewrite IH by auto.
  destruct (Nat.eq_dec (nth j a 0) v) as [E|E]; [rewrite E, Nat.eqb_refl; f_equal; lia|]. replace (nth j a 0 =? v) with false by (symmetry; apply Nat.eqb_neq; auto). auto.
Qed.
Lemma firstn_skipn_map {X} (d : X) (a : list X) b n : b + n <= length a -> firstn n (skipn b a) = map (fun j => nth j a d) (seq b n).
Proof.
  intros H. apply (nth_ext _ _ d d); [rewrite firstn_length, skipn_length, map_length, seq_length; lia|]. intros k Hk. rewrite firstn_length, skipn_length in Hk. assert (HK : k < n) by lia.
  rewrite (nth_indep (map _ _) d ((fun j => nth j a d) 0)) by (rewrite map_length, seq_length; lia). rewrite (map_nth (fun j => nth j a d)), seq_nth by lia.
  rewrite <- (firstn_skipn b a) at 2. rewrite app_nth2; rewrite firstn_length, Nat.min_l by lia; [|lia]. replace (b + k - b) with k by lia. rewrite <- (firstn_skipn n (skipn b a)) at 2. rewrite app_nth1 by (rewrite firstn_length, skipn_length; lia). auto.
Qed.
Section Valid.
  Variables (gno ne : nat) (xadj adj : list nat).
  Variable N : nat.
  Hypothesis HNL : N < length xadj.
  Hypothesis HB : forall k, k <= N -> nth k xadj 0 <= length adj.
  Let seg v := segment xadj v adj.
  Lemma seg_range v : v < N -> Forall (fun i => i < length adj) (seq (nth v xadj 0) (nth (v + 1) xadj 0 - nth v xadj 0)).
  Proof. intros Hv. apply Forall_forall. intros i Hi. apply in_seq in Hi. pose proof (HB (v + 1) ltac:(lia)). lia. Qed.
  Lemma seg_map v : v < N -> map (fun j => nth j adj 0) (seq (nth v xadj 0) (nth (v + 1) xadj 0 - nth v xadj 0)) = seg v.
  Proof.
    intros Hv. unfold seg, segment. rewrite Nat.add_1_r. symmetry. destruct (Nat.le_gt_cases (nth (S v) xadj 0) (nth v xadj 0)) as [L|L]; [replace (nth (S v) xadj 0 - nth v xadj 0) with 0 by lia; reflexivity|].
    apply firstn_skipn_map. pose proof (HB (S v) ltac:(lia)). lia.
  Qed.
  Lemma forallb_seg f v : v < N -> forallb (fun i => f (nth i adj 0)) (seq (nth v xadj 0) (nth (v + 1) xadj 0 - nth v xadj 0)) = forallb f (seg v).
  Proof. intros Hv. rewrite <- seg_map by auto. induction (seq _ _) as [|x t IH]; auto. cbn [forallb map]. rewrite IH. auto. Qed.
  Definition okv (sym : bool) (v : nat) : bool :=
    (nth v xadj 0 <=? ne) && (nth (S v) xadj 0 <=? ne) && forallb (fun t => t <=? gno) (seg v) && (if sym then forallb (fun t => count_occ Nat.eq_dec (seg t) v =? 1) (seg v) else true).
  Lemma sym_loop_spec v is c : Forall (fun i => i < length adj /\ nth i adj 0 < N) is ->
    sym_loop xadj adj v is c = Ok (c && forallb (fun i => count_occ Nat.eq_dec (seg (nth i adj 0)) v =? 1) is).
  Proof.
    revert c. induction is as [|i t IH]; intros c HF; cbn [sym_loop forallb]; [rewrite andb_true_r; auto|]. apply Forall_cons_iff in HF. destruct HF as [[F1 F2] F3]. unfold rd. rewrite (nth_error_nth' adj 0) by auto. cbn [obind].
    rewrite !(nth_error_nth' xadj 0) by lia. cbn [obind]. rewrite count_back_spec by (apply seg_range; auto). cbn [obind Nat.add]. rewrite seg_map by auto. rewrite IH by auto. f_equal. destruct (count_occ Nat.eq_dec (seg (nth i adj 0)) v =? 1); cbn; auto. rewrite andb_false_r. auto.
  Qed.
  Lemma valid_loop_spec sym vs c : Forall (fun v => v < N) vs -> (sym = true -> Forall (fun t => t < N) adj) ->
    valid_loop gno ne xadj adj sym vs c = Ok (c && forallb (okv sym) vs).
  Proof.
    intros HV HS. revert c. induction vs as [|v t IH]; intros c; cbn [valid_loop forallb]; [rewrite andb_true_r; auto|]. apply Forall_cons_iff in HV. destruct HV as [V1 V2]. unfold rd. rewrite !(nth_error_nth' xadj 0) by lia. cbn [obind].
    rewrite targets_loop_spec by (apply seg_range; auto). cbn [obind]. rewrite (forallb_seg (fun x => x <=? gno)) by auto.
    set (c3 := (if ne <? nth (v + 1) xadj 0 then false else if ne <? nth v xadj 0 then false else c) && forallb (fun x => x <=? gno) (seg v)).
    assert (E : (if sym then sym_loop xadj adj v (seq (nth v xadj 0) (nth (v + 1) xadj 0 - nth v xadj 0)) c3 else Ok c3) = Ok (c3 && if sym then forallb (fun t => count_occ Nat.eq_dec (seg t) v =? 1) (seg v) else true)).
    { destruct sym; [|rewrite andb_true_r; auto]. rewrite sym_loop_spec; [f_equal; f_equal; apply (forallb_seg (fun x => count_occ Nat.eq_dec (seg x) v =? 1)); auto|].
      specialize (HS eq_refl). pose proof (seg_range v V1) as SR. rewrite Forall_forall in *. intros i Hi. specialize (SR i Hi). split; auto. apply HS, nth_In. auto. }
    rewrite E. cbn [obind]. rewrite IH by auto. f_equal. unfold okv, c3. rewrite Nat.add_1_r. rewrite (Nat.ltb_antisym (nth (S v) xadj 0) ne), (Nat.ltb_antisym (nth v xadj 0) ne).
    destruct (nth v xadj 0 <=? ne), (nth (S v) xadj 0 <=? ne), c, (forallb (fun t => t <=? gno) (seg v)); cbn [negb andb]; auto; try rewrite andb_false_r; auto.
  Qed.
End Valid.
(** isValidGraph for arrays of the right length: it accepts exactly the graphs with xadj entries and targets within the limits (a target may also be equal to the number of vertices)
    and, on request, with each edge having exactly one opposite edge. *)
Theorem C70_isValidGraph noVtx gno ne xadj adj sym : noVtx < length xadj -> (forall k, k <= noVtx -> nth k xadj 0 <= length adj) -> (sym = true -> Forall (fun t => t < noVtx) adj) ->
  exists b, isValidGraph noVtx gno ne xadj adj sym = Ok b /\ (b = true <-> forall v, v < noVtx -> nth v xadj 0 <= ne /\ nth (S v) xadj 0 <= ne /\
    forall t, In t (segment xadj v adj) -> t <= gno /\ (sym = true -> count_occ Nat.eq_dec (segment xadj t adj) v = 1)).
Proof.
  intros HL HB HS. unfold isValidGraph. rewrite (valid_loop_spec gno ne xadj adj noVtx HL HB sym) by (auto; apply Forall_forall; intros v Hv; apply in_seq in Hv; lia). eexists. split; [reflexivity|]. cbn [andb]. rewrite forallb_forall. split.
  - intros H v Hv. specialize (H v ltac:(apply in_seq; lia)). unfold okv in H. rewrite !andb_true_iff, !Nat.leb_le in H. destruct H as [[[H1 H2] H3] H4]. split; auto. split; auto. intros t Ht. rewrite forallb_forall in H3. split; [apply Nat.leb_le; auto|].
    intros ->. rewrite forallb_forall in H4. apply Nat.eqb_eq. auto.
  - intros H v Hv. apply in_seq in Hv. destruct (H v ltac:(lia)) as (H1 & H2 & H3). unfold okv. rewrite !andb_true_iff, !Nat.leb_le. repeat split; auto; [apply forallb_forall; intros t Ht; apply Nat.leb_le, H3; auto|]. destruct sym; auto. apply forallb_forall. intros t Ht. apply Nat.eqb_eq, H3; auto.
Qed.
(** The check of the graph of the processes succeeds if neighbourhood is symmetric. *)
Theorem C70_assert P nbs adj gx : 0 < P -> (forall p, p < P -> StronglySorted lt (nbs p) /\ forall q, In q (nbs p) -> q < P /\ In p (nbs q)) ->
  (forall p, p < P -> adjncy nbs p = Ok (adj p)) -> gxadj P nbs = Ok gx -> isValidGraph P P (length (gadjncy P adj)) gx (gadjncy P adj) true = Ok true.
Proof.
  intros HP HN HA HX. destruct (C70_graph P nbs (fun p Hp => proj1 (HN p Hp)) HP) as (adj' & gx' & A1 & A2 & A3 & A4 & A5). rewrite HX in A2. injection A2 as <-.
  assert (EA : gadjncy P adj = gadjncy P adj'). { unfold gadjncy. rewrite !flat_map_concat_map. f_equal. apply map_ext_in. intros p Hp. apply in_seq in Hp. specialize (HA p ltac:(lia)). specialize (A1 p ltac:(lia)). congruence. }
  rewrite EA. clear adj HA EA. rename adj' into adj. assert (MONO : forall n k, k + n <= P -> nth k gx 0 <= nth (k + n) gx 0).
  { induction n as [|n IH]; intros k Hk; [rewrite Nat.add_0_r; auto|]. rewrite Nat.add_succ_r. transitivity (nth (k + n) gx 0); [apply IH; lia|]. apply A5. lia. }
  assert (BND : forall k, k <= P -> nth k gx 0 <= length (gadjncy P adj)). { intros k Hk. rewrite <- A4. replace P with (k + (P - k)) by lia. apply MONO. lia. }
  assert (MEM : forall t, In t (gadjncy P adj) -> t < P). { intros t Ht. unfold gadjncy in Ht. apply in_flat_map in Ht. destruct Ht as (p & Hp & Ht). apply in_seq in Hp. destruct (A5 p ltac:(lia)) as (_ & _ & _ & A). apply A in Ht. destruct (HN p ltac:(lia)) as [_ HN']. apply HN'. apply Ht. }
  destruct (C70_isValidGraph P P (length (gadjncy P adj)) gx (gadjncy P adj) true) as (b & EB & HBt); auto; [|intros _; apply Forall_forall; auto|].
  { destruct (shift_spec P nbs (P - 1) 1 (gxadj0 P nbs)) as (g & E & L & R); [lia|lia|apply gxadj0_length| |intros k Hk; apply gxadj0_nth; lia|].
    - intros k Hk. destruct k as [|k]; [destruct P as [|P']; [lia|reflexivity]|]. assert (k = 0) by lia. subst k. transitivity (nth (1 + 0 + 0) (gxadj0 P nbs) 0); [reflexivity|]. rewrite gxadj0_nth by lia. cbn. lia.
    - unfold gxadj in HX. rewrite HX in E. injection E as <-. lia. }
  rewrite EB. f_equal. apply HBt. intros v Hv. split; [apply BND; lia|]. split; [apply BND; lia|]. destruct (A5 v Hv) as (_ & V1 & V2 & V3). rewrite V1. intros t Ht. apply V3 in Ht. destruct Ht as [T1 T2]. destruct (HN v Hv) as [_ HNv]. destruct (HNv t T1) as [T3 T4]. split; [lia|]. intros _.
  destruct (A5 t T3) as (_ & W1 & W2 & W3). rewrite W1. apply NoDup_count_occ'; [apply SS_NoDup; auto|]. apply W3. split; auto.
Qed.
(** The bound on the targets is off by one: an edge to the (nonexistent) vertex gnoVtx is accepted, and when symmetry is checked the array xadj is then read behind its end. *)
Theorem C70_bound_refuted : isValidGraph 1 1 1 [0; 1] [1] false = Ok true /\ isValidGraph 1 1 1 [0; 1] [1] true = UB.
Proof. split; reflexivity. Qed.
(** three processes in a row, the first one also has itself in its list; it is not necessary that all of them have neighbours *)
Example comm_nbs (p : nat) : list nat := match p with 0 => [0; 1] | 1 => [0; 2] | 2 => [1] | _ => [] end.
Example comm_run : map (adjncy comm_nbs) (seq 0 3) = [Ok [1]; Ok [0; 2]; Ok [1]] /\ gxadj 3 comm_nbs = Ok [0; 1; 3; 4; 0; 1] /\
  (forall p, p < 3 -> StronglySorted lt (comm_nbs p) /\ forall q, In q (comm_nbs p) -> q < 3 /\ In p (comm_nbs q)).
Proof.
  split; [reflexivity|]. split; [reflexivity|]. intros p Hp. destruct p as [|[|[|]]]; [| | |lia]; cbn; (split; [repeat constructor|]); intros q Hq; cbn in Hq; intuition (subst; cbn; auto; lia).
Qed.
(** two processes share the indices 0 and 1; METIS exchanges them *)
Definition cv (_ : nat) : nat := 2.
Definition ci (p : nat) : pis := match p with 0 => [mke 0 0 Owner; mke 1 1 Copy] | _ => [mke 0 1 Copy; mke 1 0 Owner] end.
Lemma ci_wf : dist_wf 2 cv ci /\ unique_owner 2 ci /\ (forall p g l a, p < 2 -> holds ci p g l a -> exists p' l', p' < 2 /\ holds ci p' g l' Owner) /\
  exists d, copyOwnerToAll 2 ci None (realpart cv true 2 [1; 0]) d.
Proof.
  assert (W : dist_wf 2 cv ci) by (intros [|[|p]] Hp; [| |lia]; cbn; repeat split; repeat constructor; auto; cbn; auto; lia). split; auto. split; [|split].
  - intros g p q l l' Hp Hq H1 H2. unfold holds in *. destruct p as [|[|p]], q as [|[|q]]; cbn in *; try lia; intuition congruence.
  - intros p g l a Hp H. unfold holds in *. destruct p as [|[|p]]; cbn in H; [| |lia]; destruct H as [H|[H|[]]]; injection H as <- <- <-; [exists 0, 0|exists 1, 0|exists 0, 0|exists 1, 0]; (split; [lia|]); cbn; auto.
  - assert (SZ : sized 2 cv (realpart cv true 2 [1; 0])) by (intros p Hp; apply repeat_length).
    destruct (C31_safe (B := option nat) None 2 cv ci W None (realpart cv true 2 [1; 0]) SZ I (fun _ v => v) ownerSet allSet _ (reach_0 _ _ _ _ _ _ _)) as (_ & _ & d & HC). exists d. exact HC.
Qed.
Example ci_legal : exists d parts, copyOwnerToAll 2 ci None (realpart cv true 2 [1; 0]) d /\ legal 2 (fillIndexSetHoles 2 cv ci) (fun _ => [[1]; [0]]) parts cv /\ nth 0 (parts 0) 2 = 1 /\ nth 0 (parts 1) 2 = 0.
Proof.
  destruct ci_wf as (W & U & O & d & HC).
  assert (HG : forall p, p < 2 -> length [[1]; [0]] = cv p /\ Forall (Forall (fun t => t < cv p)) [[1]; [0]]) by (intros p Hp; split; [reflexivity|unfold cv; repeat constructor]).
  assert (HM : true = true -> 1 < 2 -> length [1; 0] = 2 /\ Forall (fun q => q < 2) [1; 0]) by (intros _ _; split; [reflexivity|repeat constructor]).
  destruct (C70_legal 2 cv ci true 2 [1; 0] (fun _ => [[1]; [0]]) W U O HG HM d HC) as (parts & _ & L & _ & G).
  exists d, parts. split; auto. split; auto. pose proof (G 0 0 0 ltac:(lia) ltac:(cbn; auto)) as G0. pose proof (G 1 1 0 ltac:(lia) ltac:(cbn; auto)) as G1. cbn in G0, G1. split; congruence.
Qed.
