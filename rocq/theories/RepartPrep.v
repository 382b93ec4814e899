(** * Preparation of a repartitioning: dune/istl/repartition.hh (fillIndexSetHoles, ParmetisDuneIndexMap, getAdjArrays, getDomain, graphRepartition): C69 *)
From Coq Require Import Arith List Lia Bool Sorted Permutation.
From Verif Require Import Ring Sums Outcome Sparse Parallel ParComm Repartition.
Import ListNotations.
Open Scope nat_scope.

(** ** Model *)
(** fillIndexSetHoles, repartition.hh:82-140, on all processes; [nv p] is graph.noVertices() of process p (the vertices are 0 .. nv p - 1, as in MatrixGraph).
    Global indices are unbounded numbers here (T1 may overflow). *)
Section Holes.
  Variables (P : nat) (nv : nat -> nat) (ix : nat -> pis).
  (** 91: noVertices()-size(), a std::size_t *)
  Definition needed (p : nat) : nat := nv p - length (ix p).
  (** 106-114: the maximum over the index set, then over all processes *)
  Definition maxLocal (p : nat) : nat := fold_left (fun m e => Nat.max m (e_g e)) (ix p) 0.
  Definition maxAll : nat := fold_left (fun m p => Nat.max m (maxLocal p)) (seq 0 P) 0.
  (** 115-118: the first number of process p *)
  Definition firstNew (p : nat) : nat := fold_left (fun m i => m + needed i) (seq 0 p) (S maxAll).
  (** 125-132 *)
  Fixpoint newIndices (s : pis) (gi : nat) (vs : list nat) : pis :=
    match vs with
    | nil => nil
    | v :: t => match pairOf s v with Some _ => newIndices s gi t | None => mke gi v Owner :: newIndices s (S gi) t end
    end.
  (** 94-103, 121-139; endResize orders the indices *)
  Definition fillIndexSetHoles (p : nat) : pis :=
    if fold_left (fun m i => m + needed i) (seq 0 P) 0 =? 0 then ix p
    else endResize (ix p ++ newIndices (ix p) (firstNew p) (seq 0 (nv p))).
End Holes.

(** ParmetisDuneIndexMap, repartition.hh:182-255 *)
Section IndexMap.
  Variables (P : nat) (nv : nat -> nat) (ix : nat -> pis).
  (** 190-196: number of owner indices *)
  Definition numOfOwnVtx (p : nat) : nat := length (filter (fun e => ownerSet (e_a e)) (ix p)).
  (** 199-212: after the exchange of these numbers (MPI_Allgather), the same on each process *)
  Definition vtxDist : list nat := fold_left (fun r i => r ++ [last r 0 + numOfOwnVtx i]) (seq 0 P) [0].
  Definition globalOwnerVertices : nat := nth P vtxDist 0.
  Definition base (p : nat) : nat := fold_left (fun b i => b + numOfOwnVtx i) (seq 0 p) 0.
  (** 224-234: duneToParmetis (-1 is None) and parmetisToDune; a null pointer (assert) and an index outside of the vectors are undefined *)
  Fixpoint number (s : pis) (base_ : nat) (vs : list nat) (b : nat) (d2p : list (option nat)) (p2d : list nat) : outcome (list (option nat) * list nat) :=
    match vs with
    | nil => Ok (d2p, p2d)
    | v :: t =>
        match pairOf s v with
        | None => UB
        | Some e => if ownerSet (e_a e) then
                      if (b - base_ <? length p2d) && (e_l e <? length d2p) then number s base_ t (S b) (upd d2p (e_l e) (Some b)) (upd p2d (b - base_) (e_l e)) else UB
                    else number s base_ t b d2p p2d
        end
    end.
  (** before copyOwnerToAll(duneToParmetis,duneToParmetis) (248) *)
  Definition indexMap (p : nat) : outcome (list (option nat) * list nat) :=
    number (ix p) (base p) (seq 0 (nv p)) (base p) (repeat None (nv p)) (repeat 0 (numOfOwnVtx p)).
End IndexMap.
(** getAdjArrays, repartition.hh:727-747, with isOwner (631-638) and the EdgeFunctor for graphs with edge properties (641-708): an edge is its target and whether it
    depends; [xadj] and [adj] start with arrays of the given lengths; [w] are the weights.  toParmetis may be -1. *)
Fixpoint edges_loop (d2p : list (option nat)) (es : list (nat * bool)) (i : nat) (adj : list (option nat)) (w : list nat) : outcome (nat * list (option nat) * list nat) :=
  match es with
  | nil => Ok (i, adj, w)
  | (t, dep) :: r =>
      match nth_error d2p t with
      | None => UB
      | Some n => if (i <? length adj) && (i <? length w) then edges_loop d2p r (S i) (upd adj i n) (upd w i (if dep then 3 else 1)) else UB
      end
  end.
Fixpoint adj_loop (s : pis) (d2p : list (option nat)) (graph : list (list (nat * bool))) (vs : list nat) (j i : nat) (xadj : list nat) (adj : list (option nat)) (w : list nat) :
  outcome (list nat * list (option nat) * list nat) :=
  match vs with
  | nil => if j <? length xadj then Ok (upd xadj j i, adj, w) else UB
  | v :: t =>
      match pairOf s v with
      | None => UB
      | Some e =>
          if ownerSet (e_a e) then
            if j <? length xadj then
              match nth_error graph v with
              | None => UB
              | Some es => obind (edges_loop d2p es i adj w) (fun r => let '(i', adj', w') := r in adj_loop s d2p graph t (S j) i' (upd xadj j i) adj' w')
              end
            else UB
          else adj_loop s d2p graph t j i xadj adj w
      end
  end.
(** graphRepartition, repartition.hh:1292-1297: xadj has numOfOwnVtx()+1 entries, adjncy and the weights [ne] = graph.noEdges() (for a MatrixGraph the number of
    matrix entries) *)
Definition getAdjArrays (s : pis) (d2p : list (option nat)) (graph : list (list (nat * bool))) (own ne : nat) : outcome (list nat * list (option nat) * list nat) :=
  adj_loop s d2p graph (seq 0 (length graph)) 0 0 (repeat 0 (S own)) (repeat None ne) (repeat 0 ne).

(** getDomain, repartition.hh:389-475.  -1 is None.
    400-402: the number of vertices of each domain *)
Fixpoint count_loop (part : list nat) (domain : list nat) : outcome (list nat) :=
  match part with nil => Ok domain | d :: t => match nth_error domain d with None => UB | Some c => count_loop t (upd domain d (S c)) end end.
Section Domain.
  Variables (npes nparts : nat).
  (** 408-411, 420-423: a row of the matrix *)
  Fixpoint store_row (m : list (option nat)) (off : nat) (row : list nat) : list (option nat) := match row with nil => m | x :: t => store_row (upd m off (Some x)) (S off) t end.
  (** 404-424: the ring.  All processes call MPI_Sendrecv_replace together: process p gets the buffer of p-1 *)
  Definition ring_step (i : nat) (st : (nat -> list nat) * (nat -> list (option nat))) : (nat -> list nat) * (nat -> list (option nat)) :=
    let bufs := fun p => fst st ((p + npes - 1) mod npes) in
    (bufs, fun p => store_row (snd st p) (((p + npes - 1 - i) mod npes) * nparts) (bufs p)).
  Definition ring (dom : nat -> list nat) : nat -> list (option nat) :=
    snd (fold_left (fun st i => ring_step i st) (seq 0 (npes - 1)) (dom, fun p => store_row (repeat None (npes * nparts)) (p * nparts) (dom p))).
  (** 434-444: the process without domain that has most vertices of domain i *)
  Definition pick_step (mat : list (option nat)) (assigned : list bool) (i : nat) (r : nat * option nat) (j : nat) : nat * option nat :=
    if nth j assigned true then r
    else match nth (j * nparts + i) mat None with Some c => if fst r <? c then (c, Some j) else r | None => r end.
  (** 433-459; the set of unassigned domains is ordered *)
  Record dst8 := mkd { d_map : list (option nat); d_asg : list bool; d_my : option nat; d_un : list nat }.
  Definition assign_step (mype : nat) (mat : list (option nat)) (s : dst8) (i : nat) : dst8 :=
    match snd (fold_left (pick_step mat (d_asg s) i) (seq 0 npes) (0, None)) with
    | Some pe => mkd (upd (d_map s) i (Some pe)) (upd (d_asg s) pe true) (if pe =? mype then Some i else d_my s) (d_un s)
    | None => mkd (d_map s) (d_asg s) (d_my s) (d_un s ++ [i])
    end.
  (** std::find_if from position k; the end of the vector (assert) is undefined *)
  Fixpoint find_free (asg : list bool) (k fuel : nat) : option nat := match fuel with O => None | S f => if nth k asg true then find_free asg (S k) f else Some k end.
  (** 461-473 *)
  Fixpoint free_loop (un : list nat) (k : nat) (asg : list bool) (mp : list (option nat)) : outcome (list (option nat)) :=
    match un with
    | nil => Ok mp
    | u :: t => match find_free asg k (npes - k) with None => UB | Some q => free_loop t q (upd asg q true) (upd mp u (Some q)) end
    end.
  Definition getDomain (dom : nat -> list nat) (mype : nat) : outcome (list (option nat) * option nat) :=
    let s := fold_left (assign_step mype (ring dom mype)) (seq 0 nparts) (mkd (repeat None nparts) (repeat false npes) None nil) in
    obind (free_loop (d_un s) 0 (d_asg s) (d_map s)) (fun mp => Ok (mp, d_my s)).
End Domain.

(** graphRepartition, repartition.hh:1421-1427: [part] is read in the order of the index set *)
Fixpoint set_loop (l : pis) (i : nat) (part : list nat) (dm : list (option nat)) (sp : list (option nat)) : outcome (list (option nat)) :=
  match l with
  | nil => Ok sp
  | e :: t =>
      if ownerSet (e_a e) then
        match nth_error part i with
        | None => UB
        | Some d => match nth_error dm d with
                    | None => UB
                    | Some q => if e_l e <? length sp then set_loop t (S i) part dm (upd sp (e_l e) q) else UB
                    end
        end
      else set_loop t i part dm sp
  end.
(** graphRepartition, repartition.hh:1226-1429 for an overlapping decomposition, up to copyOwnerToAll(setPartition,setPartition): setPartition of process [mype].  [metis p] is what
    ParMETIS_V3_PartKway stores in part on process p; [have] is HAVE_PARMETIS *)
Section GraphRepartition.
  Variables (P : nat) (nv : nat -> nat) (ix : nat -> pis) (have : bool) (nparts : nat) (metis : nat -> list nat).
  Definition np : nat := if have then nparts else 1.
  Definition ixf : nat -> pis := fillIndexSetHoles P nv ix.
  Definition partOf (p : nat) : list nat := if 1 <? np then metis p else repeat 0 (numOfOwnVtx ixf p).
  Definition domainMapping (mype : nat) : outcome (list (option nat)) :=
    if 1 <? np then obind (omap (fun p => count_loop (partOf p) (repeat 0 np)) (seq 0 P)) (fun doms => obind (getDomain P np (fun p => nth p doms nil) mype) (fun r => Ok (fst r)))
    else Ok [Some 0].
  Definition setPartition (mype : nat) : outcome (list (option nat)) :=
    obind (domainMapping mype) (fun dm => set_loop (ixf mype) 0 (partOf mype) dm (repeat None (length (ixf mype)))).
End GraphRepartition.

(** ** Filling the holes *)
Lemma fold_plus (f : nat -> nat) l : forall a, fold_left (fun m i => m + f i) l a = a + list_sum (map f l).
Proof. induction l as [|x t IH]; intros a; cbn [fold_left map list_sum fold_right]; [lia|]. rewrite IH. unfold list_sum. lia. Qed.
Lemma fold_max {X} (f : X -> nat) l : forall a, a <= fold_left (fun m i => Nat.max m (f i)) l a /\ (forall x, In x l -> f x <= fold_left (fun m i => Nat.max m (f i)) l a).
Proof.
  induction l as [|x t IH]; intros a; cbn [fold_left]; [split; [lia|intros ? []]|]. destruct (IH (Nat.max a (f x))) as [H1 H2]. split; [lia|]. intros y [H|H]; [subst; lia|auto].
Qed.
Lemma list_sum_seq_S f n : list_sum (map f (seq 0 (S n))) = list_sum (map f (seq 0 n)) + f n.
Proof. rewrite seq_S, map_app, list_sum_app. cbn. lia. Qed.
Lemma list_sum_mono f m n : m <= n -> list_sum (map f (seq 0 m)) <= list_sum (map f (seq 0 n)).
Proof. induction 1 as [|n H IH]; [lia|]. rewrite list_sum_seq_S. lia. Qed.
Lemma newIndices_g s vs : forall gi, map e_g (newIndices s gi vs) = seq gi (length (newIndices s gi vs)).
Proof. induction vs as [|v t IH]; intros gi; cbn [newIndices]; auto. destruct (pairOf s v); auto. cbn [map length seq e_g]. f_equal. auto. Qed.
Definition hole (s : pis) (v : nat) : bool := match pairOf s v with None => true | _ => false end.
Lemma newIndices_l s vs : forall gi, map e_l (newIndices s gi vs) = filter (hole s) vs.
Proof. unfold hole. induction vs as [|v t IH]; intros gi; cbn [newIndices filter]; auto. destruct (pairOf s v); auto. cbn [map e_l]. f_equal. auto. Qed.
Lemma newIndices_a s vs : forall gi e, In e (newIndices s gi vs) -> e_a e = Owner.
Proof. induction vs as [|v t IH]; intros gi e; cbn [newIndices]; [intros []|]. destruct (pairOf s v); [apply IH|]. intros [H|H]; [subst; auto|apply (IH _ _ H)]. Qed.
Lemma hole_spec n s v : pis_wf n s -> hole s v = true <-> ~ In v (map e_l s).
Proof.
  intros HW. unfold hole. destruct (pairOf s v) as [e|] eqn:E.
  - apply (pairOf_spec n) in E; auto. destruct E as [E1 E2]. split; [discriminate|]. intros H. exfalso. apply H. rewrite <- E2. apply in_map. auto.
  - split; auto. intros _ H. apply in_map_iff in H. destruct H as (e & E1 & E2). enough (pairOf s v = Some e) by congruence. apply (pairOf_spec n); auto.
Qed.
Lemma filter_length_compl {X} (f : X -> bool) l : length (filter f l) + length (filter (fun x => negb (f x)) l) = length l.
Proof. induction l as [|x t IH]; cbn [filter]; auto. destruct (f x); cbn [negb length]; lia. Qed.
Lemma holes_count n s gi : pis_wf n s -> length (newIndices s gi (seq 0 n)) = n - length s /\ length s <= n.
Proof.
  intros HW. rewrite <- (map_length e_l), newIndices_l. pose proof (filter_length_compl (hole s) (seq 0 n)) as E. rewrite seq_length in E.
  enough (length (filter (fun x => negb (hole s x)) (seq 0 n)) = length s) by lia. rewrite <- (map_length e_l s). apply Permutation_length. apply NoDup_Permutation.
  - apply NoDup_filter, seq_NoDup.
  - apply HW.
  - intros x. rewrite filter_In, in_seq, negb_true_iff. destruct HW as (W1 & W2 & W3). pose proof (hole_spec n s x (conj W1 (conj W2 W3))) as HS. split.
    + intros [_ H]. destruct (in_dec Nat.eq_dec x (map e_l s)) as [HI|HI]; auto. apply HS in HI. congruence.
    + intros H. split; [|destruct (hole s x); auto; destruct (proj1 HS eq_refl H)]. apply in_map_iff in H. destruct H as (e & <- & H). rewrite Forall_forall in W3. specialize (W3 e H). lia.
Qed.

Lemma flat_map_live (sq : pis) (l : pis) : flat_map (fun e => match lookup sq (e_g e) with Some e' => [(e, e_a e')] | None => [] end) l =
  flat_map (fun e => match lookup sq (e_g e) with Some e' => [(e, e_a e')] | None => [] end) (filter (fun e => match lookup sq (e_g e) with Some _ => true | None => false end) l).
Proof. induction l as [|e t IH]; cbn [flat_map filter]; auto. destruct (lookup sq (e_g e)) eqn:E; cbn [flat_map]; [rewrite E; cbn [app]; f_equal; auto|auto]. Qed.

Section HolesProof.
  Variables (P : nat) (nv : nat -> nat) (ix : nat -> pis).
  Hypothesis HW : dist_wf P nv ix.
  Let ix' := fillIndexSetHoles P nv ix.
  Let sumTo p := list_sum (map (needed nv ix) (seq 0 p)).
  Lemma firstNew_eq p : firstNew P nv ix p = S (maxAll P ix) + sumTo p.
  Proof. unfold firstNew. rewrite fold_plus. reflexivity. Qed.
  Lemma old_below p g l a : p < P -> holds ix p g l a -> g <= maxAll P ix.
  Proof.
    intros Hp H. transitivity (maxLocal ix p).
    - apply (proj2 (fold_max e_g (ix p) 0) _ H).
    - apply (proj2 (fold_max (maxLocal ix) (seq 0 P) 0)). apply in_seq. lia.
  Qed.
  Definition added (p : nat) : pis := newIndices (ix p) (firstNew P nv ix p) (seq 0 (nv p)).
  Lemma fill_in p e : p < P -> In e (ix' p) <-> In e (ix p) \/ In e (added p).
  Proof.
    intros Hp. unfold ix', fillIndexSetHoles. rewrite fold_plus. cbn [Nat.add]. destruct (Nat.eqb_spec (list_sum (map (needed nv ix) (seq 0 P))) 0) as [E|E].
    - split; auto. intros [H|H]; auto. exfalso. assert (L : length (added p) = 0).
      { unfold added. rewrite (proj1 (holes_count (nv p) (ix p) _ (HW p Hp))). pose proof (list_sum_mono (needed nv ix) (S p) P ltac:(lia)) as M. rewrite list_sum_seq_S in M. unfold needed in *. lia. }
      destruct (added p); [destruct H|discriminate].
    - rewrite <- in_app_iff. split; apply Permutation_in; [|apply Permutation_sym]; apply endResize_perm.
  Qed.
  Lemma added_range p e : p < P -> In e (added p) -> maxAll P ix < e_g e /\ S (maxAll P ix) + sumTo p <= e_g e < S (maxAll P ix) + sumTo (S p) /\ e_a e = Owner /\ e_l e < nv p /\ ~ In (e_l e) (map e_l (ix p)).
  Proof.
    intros Hp H. pose proof (in_map e_g _ _ H) as G. unfold added in G. rewrite newIndices_g, in_seq, firstNew_eq, (proj1 (holes_count (nv p) (ix p) _ (HW p Hp))) in G.
    assert (ES : sumTo (S p) = sumTo p + (nv p - length (ix p))) by (apply (list_sum_seq_S (needed nv ix) p)). split; [lia|]. split; [lia|]. split; [apply (newIndices_a _ _ _ _ H)|].
    pose proof (in_map e_l _ _ H) as L. unfold added in L. rewrite newIndices_l, filter_In, in_seq in L. split; [lia|]. apply (hole_spec (nv p)); [apply HW; auto|tauto].
  Qed.
  Lemma added_all p l : p < P -> l < nv p -> ~ In l (map e_l (ix p)) -> exists g, In (mke g l Owner) (added p).
  Proof.
    intros Hp Hl H. assert (In l (map e_l (added p))) as L. { unfold added. rewrite newIndices_l, filter_In, in_seq. split; [lia|]. apply (hole_spec (nv p)); auto. }
    apply in_map_iff in L. destruct L as ([g l2 a] & E & L). cbn [e_l] in E. subst l2. exists g. pose proof (newIndices_a _ _ _ _ L) as A. cbn [e_a] in A. subst a. exact L.
  Qed.
  Lemma sumTo_mono p q : p <= q -> sumTo p <= sumTo q.
  Proof. apply list_sum_mono. Qed.
  Lemma fill_wf : dist_wf P nv ix'.
  Proof.
    intros p Hp. destruct (HW p Hp) as (W1 & W2 & W3). unfold pis_wf.
    assert (ND : NoDup (map e_g (ix p ++ added p)) /\ NoDup (map e_l (ix p ++ added p))).
    { split; rewrite map_app; apply NoDup_app_; auto.
      - apply SS_NoDup. auto.
      - unfold added. rewrite newIndices_g. apply seq_NoDup.
      - intros g H1 H2. apply in_map_iff in H1. destruct H1 as ([g1 l1 a1] & E1 & H1). apply in_map_iff in H2. destruct H2 as (e & E2 & H2). apply (old_below p) in H1; auto. apply added_range in H2; auto. cbn [e_g] in E1. lia.
      - unfold added. rewrite newIndices_l. apply NoDup_filter, seq_NoDup.
      - intros l H1 H2. apply in_map_iff in H2. destruct H2 as (e & E2 & H2). apply added_range in H2; auto. subst l. tauto. }
    destruct ND as [ND1 ND2].
    assert (LB : Forall (fun e => e_l e < nv p) (ix' p)).
    { apply Forall_forall. intros e H. apply fill_in in H; auto. destruct H as [H|H]; [rewrite Forall_forall in W3; auto|apply added_range in H; tauto]. }
    unfold ix', fillIndexSetHoles in *. destruct (_ =? 0); auto. split; [apply endResize_sorted; auto|]. split; auto.
    apply (Permutation_NoDup (Permutation_sym (Permutation_map e_l (endResize_perm _)))). auto.
  Qed.
  Lemma added_separate p q e : p < P -> q < P -> In e (added p) -> forall l a, ~ holds ix q (e_g e) l a /\ (q <> p -> ~ holds ix' q (e_g e) l a).
  Proof.
    intros Hp Hq H l a. apply added_range in H; auto. split.
    - intros H2. apply (old_below q) in H2; auto. lia.
    - intros Hn H2. unfold holds in H2. apply fill_in in H2; auto. destruct H2 as [H2|H2]; [apply (old_below q) in H2; auto; lia|]. apply added_range in H2; auto. cbn [e_g] in H2.
      destruct (Nat.lt_trichotomy p q) as [L|[L|L]]; [|congruence|].
      + pose proof (sumTo_mono (S p) q L). lia.
      + pose proof (sumTo_mono (S q) p L). lia.
  Qed.
  (** After the call every vertex has an index; the old indices are as before; a new index is owned, has a global number that no process used before and no other process uses now;
      hence owners stay unique and the communication between different processes is what it was. *)
  Theorem C69_holes : dist_wf P nv ix' /\
    (forall p l, p < P -> l < nv p -> exists g a, holds ix' p g l a) /\
    (forall p g l a, p < P -> holds ix p g l a -> holds ix' p g l a) /\
    (forall p g l a, p < P -> holds ix' p g l a -> ~ holds ix p g l a -> a = Owner /\ (forall g' a', ~ holds ix p g' l a') /\ (forall q l' a', q < P -> ~ holds ix q g l' a') /\ (forall q l' a', q < P -> q <> p -> ~ holds ix' q g l' a')) /\
    (unique_owner P ix -> unique_owner P ix') /\
    (forall p q S D, p < P -> q < P -> p <> q -> send_ix S D (ix' p) (ix' q) = send_ix S D (ix p) (ix q) /\ recv_ix S D (ix' p) (ix' q) = recv_ix S D (ix p) (ix q)) /\
    ((forall p l, p < P -> l < nv p -> exists g a, holds ix p g l a) -> forall p, p < P -> ix' p = ix p).
  Proof.
    split; [exact fill_wf|]. split.
    { intros p l Hp Hl. destruct (in_dec Nat.eq_dec l (map e_l (ix p))) as [HI|HI].
      - apply in_map_iff in HI. destruct HI as ([g l2 a] & E & HI). cbn [e_l] in E. subst l2. exists g, a. apply fill_in; auto.
      - destruct (added_all p l Hp Hl HI) as [g HG]. exists g, Owner. apply fill_in; auto. }
    split. { intros p g l a Hp H. apply fill_in; auto. }
    split.
    { intros p g l a Hp H Hn. unfold holds in H. apply fill_in in H; auto. destruct H as [H|H]; [contradiction|]. pose proof (added_range p _ Hp H) as R. cbn [e_g e_l e_a] in R. split; [tauto|]. split.
      - intros g' a' H'. apply (in_map e_l) in H'. cbn [e_l] in H'. tauto.
      - split; [intros q l' a' Hq; apply (added_separate p q _ Hp Hq H)|]. intros q l' a' Hq Hnq. apply (added_separate p q _ Hp Hq H); auto. }
    split.
    { intros HU g p q l l' Hp Hq H1 H2. destruct (Nat.eq_dec p q) as [E|E]; auto. unfold holds in H1, H2.
      apply fill_in in H1 as H1'; auto. destruct H1' as [H1'|H1']; [|destruct (proj2 (added_separate p q _ Hp Hq H1' l' Owner)); auto].
      apply fill_in in H2 as H2'; auto. destruct H2' as [H2'|H2']; [|destruct (proj1 (added_separate q p _ Hq Hp H2' l Owner)); auto]. apply (HU g p q l l'); auto. }
    split.
    { assert (HR : forall p q, p < P -> q < P -> p <> q -> remote_list (ix' p) (ix' q) = remote_list (ix p) (ix q)); [|intros p q S D Hp Hq Hn; unfold send_ix, recv_ix; rewrite HR by auto; auto].
      intros p q Hp Hq Hn. unfold remote_list.
      assert (F : filter (fun e => match lookup (ix' q) (e_g e) with Some _ => true | None => false end) (ix' p) = filter (fun e => match lookup (ix' q) (e_g e) with Some _ => true | None => false end) (ix p)).
      { apply (SS_inj e_g).
        - apply SS_filter, fill_wf; auto.
        - apply SS_filter, HW; auto.
        - intros e. rewrite !filter_In, fill_in by auto. split; [|tauto]. intros [[H|H] H2]; auto. exfalso. destruct (lookup (ix' q) (e_g e)) as [e'|] eqn:E; [|discriminate].
          apply lookup_spec in E; [|apply fill_wf; auto]. destruct E as [E1 E2]. destruct e' as [g' l' a']. cbn [e_g] in E2. subst g'. apply (proj2 (added_separate p q e Hp Hq H l' a')); auto. }
      transitivity (flat_map (fun e => match lookup (ix' q) (e_g e) with Some e' => [(e, e_a e')] | None => [] end) (ix p)).
      - rewrite flat_map_live, F, <- flat_map_live. reflexivity.
      - rewrite !flat_map_concat_map. f_equal. apply map_ext_in. intros e He. destruct (lookup (ix q) (e_g e)) as [e'|] eqn:E.
        + apply lookup_spec in E; [|apply HW; auto]. replace (lookup (ix' q) (e_g e)) with (Some e'); auto. symmetry. apply lookup_spec; [apply fill_wf; auto|]. rewrite fill_in by auto. tauto.
        + destruct (lookup (ix' q) (e_g e)) as [e'|] eqn:E'; auto. exfalso. apply lookup_spec in E'; [|apply fill_wf; auto]. destruct E' as [E1 E2]. apply fill_in in E1; auto. destruct E1 as [E1|E1].
          * apply lookup_none in E. apply E. rewrite <- E2. apply in_map. auto.
          * destruct e as [g l a]. cbn [e_g] in E2. apply (proj1 (added_separate q p e' Hq Hp E1 l a)). rewrite E2. exact He. }
    intros HA p Hp. apply (SS_inj e_g); [apply fill_wf; auto|apply HW; auto|]. intros e. rewrite fill_in by auto. split; auto. intros [H|H]; auto. exfalso. apply added_range in H; auto.
    destruct (HA p (e_l e) Hp ltac:(tauto)) as (g & a & H2). apply (in_map e_l) in H2. cbn [e_l] in H2. tauto.
  Qed.
End HolesProof.

(** ** Numbering of the vertices *)
Definition ownb (s : pis) (v : nat) : bool := match pairOf s v with Some e => ownerSet (e_a e) | None => false end.
Lemma ownb_spec n s v : pis_wf n s -> ownb s v = true <-> exists g, In (mke g v Owner) s.
Proof.
  intros HW. unfold ownb. destruct (pairOf s v) as [e|] eqn:E.
  - apply (pairOf_spec n) in E; auto. destruct E as [E1 E2]. destruct e as [g l a]. cbn [e_l e_a] in *. subst l. split.
    + intros H. destruct a; try discriminate. eauto.
    + intros [g' H]. enough (mke g v a = mke g' v Owner) as EQ by (injection EQ as _ ->; reflexivity). enough (Some (mke g v a) = Some (mke g' v Owner)) by congruence.
      rewrite <- (proj2 (pairOf_spec n s v (mke g v a) HW)) by auto. apply (pairOf_spec n); auto.
  - split; [discriminate|]. intros [g H]. enough (pairOf s v = Some (mke g v Owner)) by congruence. apply (pairOf_spec n); auto.
Qed.
Definition owned (s : pis) (n : nat) : list nat := filter (ownb s) (seq 0 n).
Lemma owned_count n s : pis_wf n s -> length (owned s n) = length (filter (fun e => ownerSet (e_a e)) s).
Proof.
  intros HW. rewrite <- (map_length e_l (filter _ s)). apply Permutation_length. apply NoDup_Permutation; [apply NoDup_filter, seq_NoDup|apply NoDup_filter_map, HW|].
  intros v. unfold owned. rewrite filter_In, (ownb_spec n), in_seq, in_map_iff by auto. split.
  - intros [_ [g H]]. exists (mke g v Owner). split; auto. apply filter_In. auto.
  - intros ([g l a] & E & H). apply filter_In in H. destruct H as [H1 H2]. cbn [e_l e_a] in *. subst l. destruct a; try discriminate. split; [|eauto]. destruct HW as (_ & _ & W). rewrite Forall_forall in W. specialize (W _ H1). cbn [e_l] in W. lia.
Qed.
Lemma filter_SS (f : nat -> bool) l : StronglySorted lt l -> StronglySorted lt (filter f l).
Proof. induction 1 as [|x t H1 IH H2]; cbn [filter]; [constructor|]. destruct (f x); auto. constructor; auto. apply Forall_forall. intros y Hy. apply filter_In in Hy. rewrite Forall_forall in H2. apply H2. tauto. Qed.
Lemma seq_SS n : forall k, StronglySorted lt (seq k n).
Proof. induction n as [|n IH]; intros k; cbn [seq]; constructor; auto. apply Forall_forall. intros x H. apply in_seq in H. lia. Qed.
Lemma number_spec s n b0 vs : pis_wf n s -> Forall (fun v => pairOf s v <> None) vs -> NoDup vs -> forall b d2p p2d, b0 <= b -> length d2p = n -> b - b0 + length (filter (ownb s) vs) <= length p2d ->
  exists d2p' p2d', number s b0 vs b d2p p2d = Ok (d2p', p2d') /\ length d2p' = n /\ length p2d' = length p2d /\ (forall i, i < length (filter (ownb s) vs) -> nth (nth i (filter (ownb s) vs) 0) d2p' None = Some (b + i)) /\ (forall v, ~ In v (filter (ownb s) vs) -> nth v d2p' None = nth v d2p None) /\ (forall i, i < length (filter (ownb s) vs) -> nth (b - b0 + i) p2d' 0 = nth i (filter (ownb s) vs) 0) /\ (forall k, k < b - b0 -> nth k p2d' 0 = nth k p2d 0).
Proof.
  intros HW. induction vs as [|v t IH]; intros HP HN b d2p p2d Hb Hd Hl; cbn [number filter].
  - exists d2p, p2d. cbn [length]. repeat split; auto; intros; lia.
  - apply Forall_cons_iff in HP. destruct HP as [HP1 HP2]. apply NoDup_cons_iff in HN. destruct HN as [HN1 HN2]. destruct (pairOf s v) as [e|] eqn:E; [|congruence]. cbn [filter] in Hl. unfold ownb at 1 in Hl. rewrite E in Hl.
    assert (EO : ownb s v = ownerSet (e_a e)) by (unfold ownb; rewrite E; auto). rewrite EO.
    apply (pairOf_spec n) in E; auto. destruct E as [E1 E2]. assert (Hv : v < n) by (destruct HW as (_ & _ & W); rewrite Forall_forall in W; specialize (W e E1); lia). rewrite E2.
    destruct (ownerSet (e_a e)) eqn:EA; [|apply IH; auto]. cbn [length] in *.
    replace ((b - b0 <? length p2d) && (v <? length d2p)) with true by (symmetry; apply andb_true_iff; split; apply Nat.ltb_lt; lia).
    destruct (IH HP2 HN2 (S b) (upd d2p v (Some b)) (upd p2d (b - b0) v)) as (d' & p' & R0 & R1 & R2 & R3 & R4 & R5 & R6); [lia|rewrite upd_length; auto|rewrite upd_length; lia|].
    exists d', p'. rewrite upd_length in R2. split; auto. split; auto. split; auto. assert (HNv : ~ In v (filter (ownb s) t)) by (rewrite filter_In; tauto). split; [|split; [|split]].
    + intros i Hi. destruct i as [|i]; cbn [nth]; [rewrite R4, nth_upd_eq by (auto; lia); f_equal; lia|]. rewrite R3 by lia. f_equal. lia.
    + intros x Hx. rewrite R4 by (intros HI; apply Hx; right; auto). apply nth_upd_ne. intros EQ. apply Hx. left. auto.
    + intros i Hi. destruct i as [|i]; cbn [nth]; [rewrite R6 by lia; replace (b - b0 + 0) with (b - b0) by lia; apply nth_upd_eq; lia|]. replace (b - b0 + S i) with (S b - b0 + i) by lia. apply R5. lia.
    + intros k Hk. rewrite R6 by lia. apply nth_upd_ne. lia.
Qed.

Lemma vtxDist_eq P ix : vtxDist P ix = map (fun k => list_sum (map (numOfOwnVtx ix) (seq 0 k))) (seq 0 (S P)).
Proof.
  unfold vtxDist. induction P as [|P IH]; [reflexivity|]. rewrite (seq_S P 0), fold_left_app, IH. cbn [Nat.add fold_left]. rewrite (seq_S (S P) 0), (map_app _ (seq 0 (S P))). cbn [Nat.add map]. f_equal. f_equal.
  rewrite list_sum_seq_S. f_equal. rewrite (seq_S P 0), map_app. cbn [map Nat.add]. apply last_last.
Qed.
Lemma base_eq ix p : base ix p = list_sum (map (numOfOwnVtx ix) (seq 0 p)).
Proof. unfold base. rewrite fold_plus. reflexivity. Qed.
Lemma nth_vtx P ix k : k <= P -> nth k (vtxDist P ix) 0 = base ix k.
Proof.
  intros Hk. rewrite vtxDist_eq, base_eq. rewrite (nth_indep _ 0 (list_sum (map (numOfOwnVtx ix) (seq 0 0)))) by (rewrite map_length, seq_length; lia).
  rewrite (map_nth (fun k => list_sum (map (numOfOwnVtx ix) (seq 0 k)))), seq_nth by lia. reflexivity.
Qed.
Lemma base_S ix p : base ix (S p) = base ix p + numOfOwnVtx ix p.
Proof. rewrite !base_eq. apply list_sum_seq_S. Qed.
Lemma base_mono ix p q : p <= q -> base ix p <= base ix q.
Proof. rewrite !base_eq. apply list_sum_mono. Qed.
(** every vertex of each process has an index *)
Definition complete (P : nat) (nv : nat -> nat) (ix : nat -> pis) : Prop := forall p l, p < P -> l < nv p -> exists g a, holds ix p g l a.

Section Numbering.
  Variables (P : nat) (nv : nat -> nat) (ix : nat -> pis).
  Hypothesis HW : dist_wf P nv ix.
  Hypothesis HA : complete P nv ix.
  Lemma has_pair p v : p < P -> v < nv p -> pairOf (ix p) v <> None.
  Proof. intros Hp Hv E. destruct (HA p v Hp Hv) as (g & a & H). enough (pairOf (ix p) v = Some (mke g v a)) by congruence. apply (pairOf_spec (nv p)); auto. Qed.
  Lemma indexMap_ok p : p < P -> exists d, indexMap nv ix p = Ok (d, owned (ix p) (nv p)) /\ length d = nv p /\
    (forall k, k < length (owned (ix p) (nv p)) -> nth (nth k (owned (ix p) (nv p)) 0) d None = Some (base ix p + k)) /\ (forall v, ~ In v (owned (ix p) (nv p)) -> nth v d None = None).
  Proof.
    intros Hp. unfold indexMap. pose proof (owned_count (nv p) (ix p) (HW p Hp)) as EC. fold (numOfOwnVtx ix p) in EC.
    destruct (number_spec (ix p) (nv p) (base ix p) (seq 0 (nv p)) (HW p Hp)) with (b := base ix p) (d2p := repeat (@None nat) (nv p)) (p2d := repeat 0 (numOfOwnVtx ix p)) as (d & o & R0 & R1 & R2 & R3 & R4 & R5 & _).
    - apply Forall_forall. intros v Hv. apply in_seq in Hv. apply has_pair; auto. lia.
    - apply seq_NoDup.
    - auto.
    - apply repeat_length.
    - rewrite repeat_length. fold (owned (ix p) (nv p)). lia.
    - fold (owned (ix p) (nv p)) in *. rewrite R0. rewrite repeat_length in R2. exists d.
      replace o with (owned (ix p) (nv p)); [split; auto; split; auto; split; auto; intros v Hv; rewrite R4 by auto; apply nth_repeat|]. apply (nth_ext _ _ 0 0); [lia|]. intros k Hk. specialize (R5 k Hk). rewrite Nat.sub_diag in R5. auto.
  Qed.
  Lemma owned_in p l : p < P -> In l (owned (ix p) (nv p)) <-> exists g, holds ix p g l Owner.
  Proof.
    intros Hp. unfold owned. rewrite filter_In, (ownb_spec (nv p)) by auto. split; [tauto|]. intros [g H]. split; [|eauto]. apply in_seq. destruct (HW p Hp) as (_ & _ & W). rewrite Forall_forall in W. specialize (W _ H). cbn [e_l] in W. lia.
  Qed.
  Hypothesis HU : unique_owner P ix.
  (** The vertices a process owns get consecutive numbers in the order of their local index, beginning with vtxDist[p]; p2d is the inverse; after the communication
      all copies of a vertex have the number of the owner, and a vertex without owner has none. *)
  Theorem C69_numbering : let vtx k := nth k (vtxDist P ix) 0 in
    length (vtxDist P ix) = S P /\ vtx 0 = 0 /\ (forall p, p < P -> vtx (S p) = vtx p + length (filter (fun e => attr_eqb (e_a e) Owner) (ix p))) /\ globalOwnerVertices P ix = vtx P /\
    exists d0 p2d, (forall p, p < P -> indexMap nv ix p = Ok (d0 p, p2d p)) /\
      (forall p, p < P -> length (p2d p) = vtx (S p) - vtx p /\ StronglySorted lt (p2d p) /\ forall l, In l (p2d p) <-> exists g, holds ix p g l Owner) /\
      (exists d1, copyOwnerToAll P ix None d0 d1) /\
      forall d1, copyOwnerToAll P ix None d0 d1 -> sized P nv d1 /\
        (forall p k, p < P -> k < length (p2d p) -> nth (nth k (p2d p) 0) (d1 p) None = Some (vtx p + k)) /\
        consistent None P ix d1 /\
        (forall q g l a, q < P -> holds ix q g l a -> (forall p l', p < P -> ~ holds ix p g l' Owner) -> nth l (d1 q) None = None).
  Proof.
    cbn zeta. split; [rewrite vtxDist_eq, map_length, seq_length; auto|]. split; [rewrite nth_vtx by lia; reflexivity|]. split; [intros p Hp; rewrite !nth_vtx by lia; apply base_S|]. split; [reflexivity|].
    set (d0 := fun p => match indexMap nv ix p with Ok r => fst r | _ => nil end). set (p2d := fun p => owned (ix p) (nv p)).
    assert (HM : forall p, p < P -> indexMap nv ix p = Ok (d0 p, p2d p) /\ length (d0 p) = nv p /\ (forall k, k < length (p2d p) -> nth (nth k (p2d p) 0) (d0 p) None = Some (base ix p + k)) /\ (forall v, ~ In v (p2d p) -> nth v (d0 p) None = None)).
    { intros p Hp. destruct (indexMap_ok p Hp) as (d & R0 & R). unfold d0. rewrite R0. cbn [fst]. auto. }
    exists d0, p2d. split; [intros p Hp; apply HM; auto|]. split.
    { intros p Hp. rewrite !nth_vtx by lia. rewrite base_S. split; [unfold p2d; rewrite (owned_count (nv p)) by auto; unfold numOfOwnVtx; lia|]. split; [apply filter_SS, seq_SS|]. intros l. apply owned_in; auto. }
    assert (SZ : sized P nv d0) by (intros p Hp; apply HM; auto). split; [apply (C31_safe None P nv ix HW None d0 SZ I (fun _ v => v) ownerSet allSet _ (reach_0 _ _ _ _ _ _ _))|].
    intros d1 HC. destruct (C31_in_place None P nv ix HW d0 d1 HU SZ HC) as (T1 & T2 & T3 & _). split; auto. split.
    { intros p k Hp Hk. rewrite nth_vtx by lia. assert (HI : In (nth k (p2d p) 0) (p2d p)) by (apply nth_In; auto). apply (owned_in p) in HI; auto. destruct HI as [g HI]. rewrite (T3 p g) by auto. apply HM; auto. }
    split; auto. intros q g l a Hq H HN. destruct (C31_copyOwnerToAll None P nv ix HW None d0 SZ I d1 HU HC q Hq) as (_ & _ & U & _). rewrite (U g l a) by (auto; intros; apply HN; auto).
    apply HM; auto. intros HI. apply (owned_in q) in HI; auto. destruct HI as [g' HI]. assert (EQ : pairOf (ix q) l = Some (mke g l a)) by (apply (pairOf_spec (nv q)); auto).
    assert (EQ' : pairOf (ix q) l = Some (mke g' l Owner)) by (apply (pairOf_spec (nv q)); auto). rewrite EQ in EQ'. injection EQ' as -> ->. apply (HN q l); auto.
  Qed.
End Numbering.

(** the numbers toParmetis(i) of all processes after the construction of the index map *)
Definition numbers (P : nat) (nv : nat -> nat) (ix : nat -> pis) (d1 : nat -> list (option nat)) : Prop :=
  exists d0 p2d, (forall p, p < P -> indexMap nv ix p = Ok (d0 p, p2d p)) /\ copyOwnerToAll P ix None d0 d1.

Section Bijection.
  Variables (P : nat) (nv : nat -> nat) (ix : nat -> pis).
  Hypothesis HW : dist_wf P nv ix.
  Hypothesis HA : complete P nv ix.
  Hypothesis HU : unique_owner P ix.
  Variable d1 : nat -> list (option nat).
  Hypothesis HD : numbers P nv ix d1.
  Lemma numbers_owned p k : p < P -> k < length (owned (ix p) (nv p)) -> nth (nth k (owned (ix p) (nv p)) 0) (d1 p) None = Some (base ix p + k).
  Proof.
    intros Hp Hk. destruct HD as (d0 & p2d & H0 & HC). destruct (C69_numbering P nv ix HW HA HU) as (_ & _ & _ & _ & d0' & p2d' & H0' & _ & _ & HR).
    assert (ED : forall q, q < P -> d0' q = d0 q) by (intros q Hq; specialize (H0 q Hq); specialize (H0' q Hq); congruence).
    assert (SZ : sized P nv d0). { intros q Hq. destruct (indexMap_ok P nv ix HW HA q Hq) as (d & R0 & R1 & _). rewrite H0 in R0 by auto. injection R0 as -> _. auto. }
    destruct (C31_in_place None P nv ix HW d0 d1 HU SZ HC) as (_ & _ & T3 & _). assert (HI : In (nth k (owned (ix p) (nv p)) 0) (owned (ix p) (nv p))) by (apply nth_In; auto).
    apply (owned_in P nv ix HW p) in HI; auto. destruct HI as [g HI]. rewrite (T3 p g) by auto. destruct (indexMap_ok P nv ix HW HA p Hp) as (d & R0 & R1 & R2 & _). rewrite H0 in R0 by auto. injection R0 as -> _. auto.
  Qed.
  Lemma numbers_consistent : sized P nv d1 /\ consistent None P ix d1.
  Proof.
    destruct HD as (d0 & p2d & H0 & HC). assert (SZ : sized P nv d0). { intros q Hq. destruct (indexMap_ok P nv ix HW HA q Hq) as (d & R0 & R1 & _). rewrite H0 in R0 by auto. injection R0 as -> _. auto. }
    destruct (C31_in_place None P nv ix HW d0 d1 HU SZ HC) as (T1 & T2 & _). auto.
  Qed.
  Lemma numbers_none q g l a : q < P -> holds ix q g l a -> (forall p l', p < P -> ~ holds ix p g l' Owner) -> nth l (d1 q) None = None.
  Proof.
    intros Hq H HN. destruct HD as (d0 & p2d & H0 & HC). assert (SZ : sized P nv d0). { intros r Hr. destruct (indexMap_ok P nv ix HW HA r Hr) as (d & R0 & R1 & _). rewrite H0 in R0 by auto. injection R0 as -> _. auto. }
    destruct (C31_copyOwnerToAll None P nv ix HW None d0 SZ I d1 HU HC q Hq) as (_ & _ & U & _). rewrite (U g l a) by (auto; intros; apply HN; auto).
    destruct (indexMap_ok P nv ix HW HA q Hq) as (d & R0 & R1 & R2 & R3). rewrite H0 in R0 by auto. injection R0 as -> _. apply R3. intros HI. apply (owned_in P nv ix HW q) in HI; auto. destruct HI as [g' HI].
    assert (EQ : pairOf (ix q) l = Some (mke g l a)) by (apply (pairOf_spec (nv q)); auto). assert (EQ' : pairOf (ix q) l = Some (mke g' l Owner)) by (apply (pairOf_spec (nv q)); auto). rewrite EQ in EQ'. injection EQ' as -> ->. apply (HN q l); auto.
  Qed.
  (** the owner of an index that has a number *)
  Lemma numbers_owner q g l a n : q < P -> holds ix q g l a -> nth l (d1 q) None = Some n -> exists p l' k, p < P /\ holds ix p g l' Owner /\ nth l' (d1 p) None = Some n /\ k < numOfOwnVtx ix p /\ n = base ix p + k /\ nth k (owned (ix p) (nv p)) 0 = l'.
  Proof.
    intros Hq H E. assert (HO : exists p l', p < P /\ holds ix p g l' Owner).
    { destruct (owner_dec P ix q g) as [(p & l' & H1 & H2 & H3)|HN]; [eauto|]. destruct (attr_eqb a Owner) eqn:EA; [destruct a; try discriminate; eauto|]. exfalso. rewrite (numbers_none q g l a) in E; auto; [discriminate|].
      intros p l' Hp HO. destruct (Nat.eq_dec p q) as [EQ|EQ]; [|apply (HN p l'); auto]. subst p. destruct (holds_inj P nv ix HW q g l a l' Owner) as [_ ->]; auto. discriminate. }
    destruct HO as (p & l' & Hp & HO). exists p, l'. assert (EP : nth l' (d1 p) None = Some n) by (rewrite <- E; symmetry; eapply (proj2 numbers_consistent); eauto).
    assert (HI : In l' (owned (ix p) (nv p))) by (apply (owned_in P nv ix HW); eauto). apply (In_nth _ _ 0) in HI. destruct HI as (k & Hk & Ek). exists k. pose proof (numbers_owned p k Hp Hk) as EN. rewrite Ek, EP in EN. injection EN as ->.
    rewrite (owned_count (nv p)) in Hk by auto. auto 10.
  Qed.
  Lemma base_locate n : forall Q, n < base ix Q -> exists p, p < Q /\ base ix p <= n < base ix (S p).
  Proof. induction Q as [|Q IH]; intros H; [cbn in H; lia|]. destruct (Nat.lt_ge_cases n (base ix Q)) as [L|L]; [destruct (IH L) as (p & Hp & H2); exists p; auto|exists Q; auto]. Qed.
  (** Equal numbers mean equal global indices, and the numbers are exactly 0 .. globalOwnerVertices-1, those of process p being the range of vtxDist. *)
  Theorem C69_bijection : let vtx k := nth k (vtxDist P ix) 0 in
    (forall p q g h l l' a b n, p < P -> q < P -> holds ix p g l a -> holds ix q h l' b -> nth l (d1 p) None = Some n -> nth l' (d1 q) None = Some n -> g = h) /\
    (forall n, n < globalOwnerVertices P ix -> exists p g l, p < P /\ vtx p <= n < vtx (S p) /\ holds ix p g l Owner /\ nth l (d1 p) None = Some n) /\
    (forall q g l a n, q < P -> holds ix q g l a -> nth l (d1 q) None = Some n -> n < globalOwnerVertices P ix /\ exists p l', p < P /\ vtx p <= n < vtx (S p) /\ holds ix p g l' Owner).
  Proof.
    cbn zeta. unfold globalOwnerVertices. split; [|split].
    - intros p q g h l l' a b n Hp Hq H1 H2 E1 E2. destruct (numbers_owner p g l a n Hp H1 E1) as (p1 & l1 & k1 & A1 & A2 & A3 & A4 & A5 & A6). destruct (numbers_owner q h l' b n Hq H2 E2) as (p2 & l2 & k2 & B1 & B2 & B3 & B4 & B5 & B6).
      assert (p1 = p2). { destruct (Nat.lt_trichotomy p1 p2) as [L|[L|L]]; auto; exfalso; [pose proof (base_mono ix (S p1) p2 L)|pose proof (base_mono ix (S p2) p1 L)]; rewrite base_S in *; lia. }
      subst p2. assert (k1 = k2) by lia. subst k2. rewrite A6 in B6. subst l2. assert (EQ : pairOf (ix p1) l1 = Some (mke g l1 Owner)) by (apply (pairOf_spec (nv p1)); auto).
      assert (EQ' : pairOf (ix p1) l1 = Some (mke h l1 Owner)) by (apply (pairOf_spec (nv p1)); auto). congruence.
    - intros n Hn. rewrite nth_vtx in Hn by lia. destruct (base_locate n P Hn) as (p & Hp & HB). exists p. rewrite base_S in HB. pose proof (owned_count (nv p) (ix p) (HW p Hp)) as EC. fold (numOfOwnVtx ix p) in EC.
      assert (HI : In (nth (n - base ix p) (owned (ix p) (nv p)) 0) (owned (ix p) (nv p))) by (apply nth_In; lia). apply (owned_in P nv ix HW) in HI; auto. destruct HI as [g HI]. exists g, (nth (n - base ix p) (owned (ix p) (nv p)) 0).
      rewrite !nth_vtx, base_S by lia. split; auto. split; auto. split; auto. rewrite numbers_owned by (auto; lia). f_equal. lia.
    - intros q g l a n Hq H E. destruct (numbers_owner q g l a n Hq H E) as (p1 & l1 & k1 & A1 & A2 & A3 & A4 & A5 & A6). rewrite nth_vtx by lia. pose proof (base_mono ix (S p1) P A1) as M. rewrite base_S in M. split; [lia|]. exists p1, l1. rewrite !nth_vtx, base_S by lia. repeat split; auto; lia.
  Qed.
End Bijection.

(** ** The graph *)
Lemma upd_mid {X} (l1 : list X) x l2 y i : i = length l1 -> upd (l1 ++ x :: l2) i y = l1 ++ y :: l2.
Proof. intros ->. induction l1 as [|z t IH]; cbn [app length upd]; auto. f_equal. auto. Qed.
Lemma edges_loop_spec d2p es : Forall (fun e => fst e < length d2p) es -> forall ad ar wd wr, length wd = length ad -> length es <= length ar -> length es <= length wr ->
  edges_loop d2p es (length ad) (ad ++ ar) (wd ++ wr) =
  Ok (length ad + length es, ad ++ map (fun e => nth (fst e) d2p None) es ++ skipn (length es) ar, wd ++ map (fun e : nat * bool => if snd e then 3 else 1) es ++ skipn (length es) wr).
Proof.
  induction es as [|[t dep] r IH]; intros HF ad ar wd wr Hl Ha Hw; cbn [edges_loop length map app skipn]; [rewrite Nat.add_0_r; auto|].
  apply Forall_cons_iff in HF. destruct HF as [H1 H2]. cbn [fst] in H1. destruct (nth_error d2p t) as [n|] eqn:E; [|apply nth_error_None in E; lia]. cbn [length] in *.
  destruct ar as [|x ar]; [cbn [length] in Ha; lia|]. destruct wr as [|y wr]; [cbn [length] in Hw; lia|]. cbn [length] in *. rewrite !app_length. cbn [length].
  replace ((length ad <? length ad + S (length ar)) && (length ad <? length wd + S (length wr))) with true by (symmetry; apply andb_true_iff; split; apply Nat.ltb_lt; lia).
  rewrite !upd_mid by auto. specialize (IH H2 (ad ++ [n]) ar (wd ++ [if dep then 3 else 1]) wr). rewrite !app_length, <- !app_assoc in IH. cbn [length app] in IH. rewrite !Nat.add_1_r in IH. rewrite IH by lia.
  cbn [fst snd skipn]. apply nth_error_nth with (d := None) in E. rewrite E. do 3 f_equal. lia.
Qed.
Fixpoint offs (graph : list (list (nat * bool))) (i : nat) (l : list nat) : list nat := match l with nil => [i] | v :: t => i :: offs graph (i + length (nth v graph nil)) t end.
Lemma offs_length graph l : forall i, length (offs graph i l) = S (length l).
Proof. induction l as [|v t IH]; intros i; cbn [offs length]; auto. Qed.
Definition degs (graph : list (list (nat * bool))) (l : list nat) : nat := list_sum (map (fun v => length (nth v graph nil)) l).
Lemma skipn_skipn_ {X} a b (l : list X) : skipn a (skipn b l) = skipn (b + a) l.
Proof. revert l. induction b as [|b IH]; intros l; [reflexivity|]. destruct l as [|x t]; cbn [skipn Nat.add]; [apply skipn_nil|apply IH]. Qed.
Lemma adj_loop_spec s n d2p graph : pis_wf n s -> length graph = n -> length d2p = n -> Forall (Forall (fun e : nat * bool => fst e < n)) graph -> forall vs, Forall (fun v => v < n /\ pairOf s v <> None) vs ->
  forall xd xr ad ar wd wr, length wd = length ad -> length (filter (ownb s) vs) < length xr -> degs graph (filter (ownb s) vs) <= length ar -> degs graph (filter (ownb s) vs) <= length wr ->
  adj_loop s d2p graph vs (length xd) (length ad) (xd ++ xr) (ad ++ ar) (wd ++ wr) =
  Ok (xd ++ offs graph (length ad) (filter (ownb s) vs) ++ skipn (S (length (filter (ownb s) vs))) xr,
      ad ++ flat_map (fun v => map (fun e => nth (fst e) d2p None) (nth v graph nil)) (filter (ownb s) vs) ++ skipn (degs graph (filter (ownb s) vs)) ar,
      wd ++ flat_map (fun v => map (fun e : nat * bool => if snd e then 3 else 1) (nth v graph nil)) (filter (ownb s) vs) ++ skipn (degs graph (filter (ownb s) vs)) wr).
Proof.
  intros HW HG HD HT vs. induction vs as [|v t IH]; intros HV xd xr ad ar wd wr Hl Hx Ha Hw.
  - cbn [adj_loop filter flat_map offs degs map list_sum fold_right skipn app length] in *. rewrite app_length. destruct xr as [|x xr]; [cbn [length] in Hx; lia|]. cbn [length skipn].
    replace (length xd <? length xd + S (length xr)) with true by (symmetry; apply Nat.ltb_lt; lia). rewrite upd_mid by auto. reflexivity.
  - apply Forall_cons_iff in HV. destruct HV as [[HV1 HV0] HV2]. cbn [adj_loop]. destruct (pairOf s v) as [e|] eqn:E; [|congruence]. assert (EO : ownb s v = ownerSet (e_a e)) by (unfold ownb; rewrite E; auto).
    cbn [filter] in *. rewrite EO in *. destruct (ownerSet (e_a e)); [|apply IH; auto]. cbn [length flat_map offs] in *. unfold degs in *. cbn [map list_sum fold_right] in *. fold (list_sum (map (fun v => length (nth v graph nil)) (filter (ownb s) t))) in *.
    change (fold_right Nat.add 0 (map (fun v => length (nth v graph nil)) (filter (ownb s) t))) with (degs graph (filter (ownb s) t)) in *. fold (degs graph (filter (ownb s) t)) in *.
    rewrite app_length. destruct xr as [|x xr]; [cbn [length] in Hx; lia|]. cbn [length] in *. replace (length xd <? length xd + S (length xr)) with true by (symmetry; apply Nat.ltb_lt; lia).
    rewrite (nth_error_nth' graph nil) by lia. assert (HTv : Forall (fun e : nat * bool => fst e < length d2p) (nth v graph nil)). { rewrite HD. rewrite Forall_forall in HT. apply HT. apply nth_In. lia. }
    rewrite edges_loop_spec by (auto; lia). cbn [obind]. rewrite upd_mid by auto. set (es := nth v graph nil) in *.
    specialize (IH HV2 (xd ++ [length ad]) xr (ad ++ map (fun e => nth (fst e) d2p None) es) (skipn (length es) ar) (wd ++ map (fun e : nat * bool => if snd e then 3 else 1) es) (skipn (length es) wr)).
    rewrite !app_length, !map_length, <- !app_assoc, !skipn_length, !skipn_skipn_ in IH. cbn [length app] in IH. rewrite !Nat.add_1_r in IH. rewrite IH by lia. rewrite <- !app_assoc. reflexivity.
Qed.
Lemma offs_slice {X} graph (F : nat -> list X) : (forall v, length (F v) = length (nth v graph nil)) -> forall l (pre tail : list X) i, i = length pre -> forall k, k < length l ->
  nth k (offs graph i l) 0 <= nth (S k) (offs graph i l) 0 <= length pre + degs graph l /\
  firstn (nth (S k) (offs graph i l) 0 - nth k (offs graph i l) 0) (skipn (nth k (offs graph i l) 0) (pre ++ flat_map F l ++ tail)) = F (nth k l 0).
Proof.
  intros HF. induction l as [|v t IH]; intros pre tail i Hi k Hk; cbn [length] in Hk; [lia|]. cbn [offs flat_map].
  specialize (IH (pre ++ F v) tail (i + length (nth v graph nil))). rewrite app_length, HF, <- !app_assoc in IH. specialize (IH ltac:(lia)). unfold degs in *. cbn [map list_sum fold_right]. fold (list_sum (map (fun v => length (nth v graph nil)) t)).
  destruct k as [|k].
  - cbn [nth]. assert (E : nth 0 (offs graph (i + length (nth v graph nil)) t) 0 = i + length (nth v graph nil)) by (destruct t; reflexivity). rewrite E. split; [lia|].
    rewrite Hi, skipn_app, skipn_all, Nat.sub_diag. cbn [app skipn]. rewrite <- app_assoc, firstn_app. replace (length pre + length (nth v graph nil) - length pre) with (length (F v)) by (rewrite HF; lia). rewrite firstn_all, Nat.sub_diag. cbn [firstn]. apply app_nil_r.
  - cbn [nth]. rewrite <- !app_assoc. destruct (IH k ltac:(lia)) as [I1 I2]. split; [|exact I2]. unfold list_sum in *. lia.
Qed.
Lemma degs_le graph l : NoDup l -> (forall v, In v l -> v < length graph) -> degs graph l <= list_sum (map (@length _) graph).
Proof.
  intros HN HL. assert (EG : list_sum (map (@length _) graph) = degs graph (seq 0 (length graph))).
  { unfold degs. f_equal. apply (nth_ext _ _ 0 0); [rewrite !map_length, seq_length; auto|]. intros k Hk. rewrite map_length in Hk. change 0 with (length (@nil (nat * bool))) at 1. rewrite map_nth.
    rewrite (nth_indep _ 0 (length (nth 0 graph nil))) by (rewrite map_length, seq_length; auto). rewrite (map_nth (fun v => length (nth v graph nil))), seq_nth by auto. reflexivity. }
  rewrite EG. clear EG. assert (HI : incl l (seq 0 (length graph))) by (intros v Hv; apply in_seq; specialize (HL v Hv); lia). clear HL. revert HI. generalize (seq 0 (length graph)) as m. unfold degs.
  induction HN as [|v t H1 H2 IH]; intros m HI; cbn [map list_sum fold_right]; [lia|]. destruct (in_split v m) as (m1 & m2 & ->); [apply HI; left; auto|]. rewrite map_app, list_sum_app. cbn [map]. cbn [list_sum fold_right].
  specialize (IH (m1 ++ m2)). rewrite map_app, list_sum_app in IH. unfold list_sum in *. enough (incl t (m1 ++ m2)) by (specialize (IH H); lia). intros x Hx. assert (HX : In x (m1 ++ v :: m2)) by (apply HI; right; auto). apply in_app_or in HX. apply in_or_app.
  destruct HX as [HX|[HX|HX]]; auto. subst x. contradiction.
Qed.

Section Graph.
  Variables (P : nat) (nv : nat -> nat) (ix : nat -> pis).
  Hypothesis HW : dist_wf P nv ix.
  Hypothesis HA : complete P nv ix.
  Hypothesis HU : unique_owner P ix.
  Variable d1 : nat -> list (option nat).
  Hypothesis HD : numbers P nv ix d1.
  Variables (graph : nat -> list (list (nat * bool))) (ne : nat -> nat).
  Hypothesis HG : forall p, p < P -> length (graph p) = nv p /\ Forall (Forall (fun e : nat * bool => fst e < nv p)) (graph p) /\ list_sum (map (@length _) (graph p)) <= ne p.
  (** the part of an array that belongs to the k-th vertex *)
  Definition segment {X} (xadj : list nat) (k : nat) (a : list X) : list X := firstn (nth (S k) xadj 0 - nth k xadj 0) (skipn (nth k xadj 0) a).
  (** The arrays describe the graph: no array is overrun, and the segment of the vertex with number vtxDist[p]+k has the numbers of the targets of its edges and weight 3 for
      an edge that depends and 1 otherwise. *)
  Theorem C69_graph p : p < P -> exists xadj adj w, getAdjArrays (ix p) (d1 p) (graph p) (numOfOwnVtx ix p) (ne p) = Ok (xadj, adj, w) /\
    length xadj = S (numOfOwnVtx ix p) /\ nth 0 xadj 0 = 0 /\ length adj = ne p /\ length w = ne p /\
    forall k, k < numOfOwnVtx ix p -> nth k xadj 0 <= nth (S k) xadj 0 <= ne p /\
      forall g l, holds ix p g l Owner -> nth l (d1 p) None = Some (nth p (vtxDist P ix) 0 + k) ->
        segment xadj k adj = map (fun e => nth (fst e) (d1 p) None) (nth l (graph p) nil) /\ segment xadj k w = map (fun e : nat * bool => if snd e then 3 else 1) (nth l (graph p) nil).
  Proof.
    intros Hp. destruct (HG p Hp) as (G1 & G2 & G3). pose proof (owned_count (nv p) (ix p) (HW p Hp)) as EC. fold (numOfOwnVtx ix p) in EC. destruct (numbers_consistent P nv ix HW HA HU d1 HD) as [SZ _].
    assert (DL : degs (graph p) (owned (ix p) (nv p)) <= ne p). { etransitivity; [|exact G3]. apply degs_le; [apply NoDup_filter, seq_NoDup|]. intros v Hv. apply filter_In in Hv. destruct Hv as [Hv _]. apply in_seq in Hv. lia. }
    pose proof (adj_loop_spec (ix p) (nv p) (d1 p) (graph p) (HW p Hp) G1 (SZ p Hp) G2 (seq 0 (nv p))) as E. rewrite Forall_forall in E.
    specialize (E ltac:(intros v Hv; apply in_seq in Hv; split; [lia|apply (has_pair P nv ix HW HA); auto; lia]) nil (repeat 0 (S (numOfOwnVtx ix p))) nil (repeat None (ne p)) nil (repeat 0 (ne p)) eq_refl).
    fold (owned (ix p) (nv p)) in E. rewrite !repeat_length in E. specialize (E ltac:(lia) DL DL). cbn [length app] in E. unfold getAdjArrays. rewrite G1. rewrite E. clear E.
    rewrite (skipn_all2 (repeat 0 (S (numOfOwnVtx ix p)))) by (rewrite repeat_length; lia). rewrite app_nil_r. set (own := owned (ix p) (nv p)) in *.
    eexists _, _, _. split; [reflexivity|].
    assert (FL : forall (X : Type) (f : nat * bool -> X), length (flat_map (fun v => map f (nth v (graph p) nil)) own) = degs (graph p) own).
    { intros X f. unfold degs. generalize own. intros l0. induction l0 as [|v t IH]; auto. cbn [flat_map map list_sum fold_right]. rewrite app_length, map_length, IH. reflexivity. }
    split; [rewrite offs_length; lia|]. split; [destruct own; reflexivity|]. split; [rewrite app_length, skipn_length, FL, repeat_length; lia|]. split; [rewrite app_length, skipn_length, FL, repeat_length; lia|].
    intros k Hk. rewrite <- EC in Hk.
    pose proof (offs_slice (graph p) (fun v => map (fun e => nth (fst e) (d1 p) None) (nth v (graph p) nil)) (fun v => map_length _ _) own nil (skipn (degs (graph p) own) (repeat None (ne p))) 0 eq_refl k Hk) as [S1 S2].
    pose proof (offs_slice (graph p) (fun v => map (fun e : nat * bool => if snd e then 3 else 1) (nth v (graph p) nil)) (fun v => map_length _ _) own nil (skipn (degs (graph p) own) (repeat 0 (ne p))) 0 eq_refl k Hk) as [_ S3].
    cbn [length app Nat.add] in S1, S2, S3. split; [lia|]. intros g l HO EN. unfold segment. rewrite nth_vtx in EN by lia. pose proof (numbers_owned P nv ix HW HA HU d1 HD p k Hp Hk) as EN'. fold own in EN'.
    assert (HI : In (nth k own 0) own) by (apply nth_In; auto). apply (owned_in P nv ix HW) in HI; auto. destruct HI as [g' HI].
    assert (g = g') by (eapply (proj1 (C69_bijection P nv ix HW HA HU d1 HD)); [exact Hp|exact Hp|exact HO|exact HI|exact EN|exact EN']). subst g'. destruct (holds_inj P nv ix HW p g l Owner (nth k own 0) Owner Hp HO HI) as [-> _]. split; auto.
  Qed.
  (** In terms of global indices: the number m is listed for the vertex g exactly if the graph has an edge from g to the index h with number m. *)
  Theorem C69_graph_edges p xadj adj w k g l : p < P -> getAdjArrays (ix p) (d1 p) (graph p) (numOfOwnVtx ix p) (ne p) = Ok (xadj, adj, w) -> k < numOfOwnVtx ix p ->
    holds ix p g l Owner -> nth l (d1 p) None = Some (nth p (vtxDist P ix) 0 + k) ->
    (forall m, In (Some m) (segment xadj k adj) <-> exists h q l' a, q < P /\ holds ix q h l' a /\ nth l' (d1 q) None = Some m /\ edge P ix (fun p => map (map fst) (graph p)) g h) /\
    ((forall q h l' a, q < P -> holds ix q h l' a -> exists r l2, r < P /\ holds ix r h l2 Owner) -> Forall (fun x => exists m, x = Some m /\ m < globalOwnerVertices P ix) (segment xadj k adj)).
  Proof.
    intros Hp HE Hk HO EN. destruct (C69_graph p Hp) as (xa & ad & wt & E & _ & _ & _ & _ & HK). rewrite HE in E. injection E as <- <- <-. destruct (HK k Hk) as [_ HS]. destruct (HS g l HO EN) as [S1 _]. rewrite S1.
    destruct (HG p Hp) as (G1 & G2 & _). assert (HL : l < nv p). { destruct (HW p Hp) as (_ & _ & W). rewrite Forall_forall in W. apply (W _ HO). }
    assert (HT : Forall (fun e : nat * bool => fst e < nv p) (nth l (graph p) nil)) by (rewrite Forall_forall in G2; apply G2, nth_In; lia). rewrite Forall_forall in HT. split.
    - intros m. rewrite in_map_iff. split.
      + intros ([t dep] & E & HI). cbn [fst] in E. specialize (HT _ HI). cbn [fst] in HT. destruct (HA p t Hp HT) as (h & a & HH). exists h, p, t, a. split; auto. split; auto. split; auto. exists p, l, t, a. split; auto. split; auto. split; auto.
        change (@nil nat) with (map (@fst nat bool) nil). rewrite map_nth. apply (in_map fst) in HI. exact HI.
      + intros (h & q & l' & a & Hq & HH & E & (p' & l1 & l2 & b & Hp' & HO' & HH' & HI)). assert (p' = p) by (apply (HU g p' p l1 l); auto). subst p'. destruct (holds_inj P nv ix HW p g l Owner l1 Owner Hp HO HO') as [<- _].
        change (@nil nat) with (map (@fst nat bool) nil) in HI. rewrite map_nth in HI. apply in_map_iff in HI. destruct HI as ([t dep] & E2 & HI). cbn [fst] in E2. subst t. exists (l2, dep). split; auto. cbn [fst].
        destruct (numbers_owner P nv ix HW HA HU d1 HD q h l' a m Hq HH E) as (r & l3 & k3 & R1 & R2 & R3 & _). rewrite <- R3. eapply (proj2 (numbers_consistent P nv ix HW HA HU d1 HD)); eauto.
    - intros HOW. apply Forall_forall. intros x HX. apply in_map_iff in HX. destruct HX as ([t dep] & E & HI). cbn [fst] in E. specialize (HT _ HI). cbn [fst] in HT. destruct (HA p t Hp HT) as (h & a & HH). destruct (HOW p h t a Hp HH) as (r & l2 & Hr & HR).
      assert (HI2 : In l2 (owned (ix r) (nv r))) by (apply (owned_in P nv ix HW); eauto). apply (In_nth _ _ 0) in HI2. destruct HI2 as (k2 & Hk2 & Ek2). pose proof (numbers_owned P nv ix HW HA HU d1 HD r k2 Hr Hk2) as EN2. rewrite Ek2 in EN2.
      rewrite <- (proj2 (numbers_consistent P nv ix HW HA HU d1 HD) r p h t l2 a Hr Hp HR HH) in EN2. rewrite E in EN2. exists (base ix r + k2). split; auto. apply (C69_bijection P nv ix HW HA HU d1 HD) with (q := p) (g := h) (l := t) (a := a); auto. rewrite E. auto.
  Qed.
End Graph.

(** ** Domains *)
Lemma count_loop_spec nparts part : Forall (fun d => d < nparts) part -> forall domain, length domain = nparts -> exists r, count_loop part domain = Ok r /\ length r = nparts /\ forall d, d < nparts -> nth d r 0 = nth d domain 0 + count_occ Nat.eq_dec part d.
Proof.
  induction part as [|x t IH]; intros HF domain HL; cbn [count_loop count_occ]; [exists domain; repeat split; auto|]. apply Forall_cons_iff in HF. destruct HF as [H1 H2].
  rewrite (nth_error_nth' domain 0) by lia. destruct (IH H2 (upd domain x (S (nth x domain 0)))) as (r & R0 & R1 & R2); [rewrite upd_length; auto|]. exists r. split; auto. split; auto. intros d Hd. rewrite R2 by auto.
  destruct (Nat.eq_dec x d) as [E|E]; [subst d; rewrite nth_upd_eq by lia; lia|rewrite nth_upd_ne by auto; lia].
Qed.
Lemma store_row_spec row : forall m off, off + length row <= length m -> length (store_row m off row) = length m /\ (forall j, j < length row -> nth (off + j) (store_row m off row) None = Some (nth j row 0)) /\
  (forall x, x < off \/ off + length row <= x -> nth x (store_row m off row) None = nth x m None).
Proof.
  induction row as [|y t IH]; intros m off HL; cbn [store_row length] in *; [repeat split; auto; intros; lia|]. destruct (IH (upd m off (Some y)) (S off)) as (I1 & I2 & I3); [rewrite upd_length; lia|]. rewrite upd_length in I1.
  split; auto. split.
  - intros j Hj. destruct j as [|j]; [rewrite I3 by lia; rewrite Nat.add_0_r, nth_upd_eq by lia; auto|]. replace (off + S j) with (S off + j) by lia. rewrite I2 by lia. auto.
  - intros x Hx. rewrite I3 by lia. apply nth_upd_ne. lia.
Qed.
Section Ring.
  Variables (npes nparts : nat) (dom : nat -> list nat).
  Hypothesis HL : forall p, p < npes -> length (dom p) = nparts.
  Let run k := fold_left (fun st i => ring_step npes nparts i st) (seq 0 k) (dom, fun p => store_row (repeat None (npes * nparts)) (p * nparts) (dom p)).
  Definition good_row (m : list (option nat)) (q : nat) : Prop := forall j, j < nparts -> nth (q * nparts + j) m None = Some (nth j (dom q) 0).
  Lemma row_end q : q < npes -> q * nparts + nparts <= npes * nparts.
  Proof. intros H. replace (q * nparts + nparts) with (S q * nparts) by lia. apply Nat.mul_le_mono_r. lia. Qed.
  Lemma rows_apart q r j : j < nparts -> q <> r -> q * nparts + j < r * nparts \/ r * nparts + nparts <= q * nparts + j.
  Proof. intros Hj Hn. destruct (Nat.lt_trichotomy q r) as [L|[L|L]]; [left|lia|right]; nia. Qed.
  Lemma store_good m q r : length m = npes * nparts -> r < npes -> good_row (store_row m (r * nparts) (dom r)) q <-> q = r \/ (q <> r /\ good_row m q) .
  Proof.
    intros Hm Hr. destruct (store_row_spec (dom r) m (r * nparts)) as (S1 & S2 & S3); [rewrite HL, Hm by auto; apply row_end; auto|]. rewrite HL in * by auto. unfold good_row. destruct (Nat.eq_dec q r) as [E|E].
    - subst q. split; auto.
    - split; [intros H; right; split; auto; intros j Hj; rewrite <- H by auto; symmetry; apply S3; apply rows_apart; auto|]. intros [H|[_ H]]; [contradiction|]. intros j Hj. rewrite S3 by (apply rows_apart; auto). auto.
  Qed.
  Lemma ring_inv k : k < npes -> forall p, p < npes -> fst (run k) p = dom ((p + npes - k) mod npes) /\ length (snd (run k) p) = npes * nparts /\ forall i, i <= k -> good_row (snd (run k) p) ((p + npes - i) mod npes).
  Proof.
    induction k as [|k IH]; intros Hk p Hp; unfold run.
    - cbn [seq fold_left fst snd]. assert (E : (p + npes - 0) mod npes = p) by (rewrite Nat.sub_0_r, <- (Nat.mul_1_l npes) at 1; rewrite Nat.mod_add, Nat.mod_small by lia; auto). rewrite E. split; auto.
      destruct (store_row_spec (dom p) (repeat None (npes * nparts)) (p * nparts)) as (S1 & S2 & S3); [rewrite HL, repeat_length by auto; apply row_end; auto|]. rewrite repeat_length in S1. split; auto.
      intros i Hi. assert (i = 0) by lia. subst i. rewrite E. apply store_good; auto. apply repeat_length.
    - rewrite seq_S, fold_left_app. cbn [fold_left Nat.add]. fold (run k). assert (Hp' : (p + npes - 1) mod npes < npes) by (apply Nat.mod_upper_bound; lia). destruct (IH ltac:(lia) _ Hp') as (I1 & _ & _). destruct (IH ltac:(lia) p Hp) as (_ & J2 & J3).
      unfold ring_step. cbn [fst snd]. rewrite I1. assert (E : ((p + npes - 1) mod npes + npes - k) mod npes = (p + npes - S k) mod npes).
      { rewrite <- Nat.add_sub_assoc by lia. rewrite Nat.add_mod_idemp_l by lia. replace (p + npes - 1 + (npes - k)) with (p + npes - S k + 1 * npes) by lia. apply Nat.mod_add. lia. }
      rewrite E. split; auto. replace (p + npes - 1 - k) with (p + npes - S k) by lia. set (r := (p + npes - S k) mod npes). assert (Hr : r < npes) by (apply Nat.mod_upper_bound; lia).
      destruct (store_row_spec (dom r) (snd (run k) p) (r * nparts)) as (S1 & _ & _); [rewrite HL, J2 by auto; apply row_end; auto|]. split; [lia|]. intros i Hi. apply store_good; auto. destruct (Nat.eq_dec i (S k)) as [EI|EI]; [left; subst i; auto|].
      destruct (Nat.eq_dec ((p + npes - i) mod npes) r) as [ER|ER]; auto. right. split; auto. apply J3. lia.
  Qed.
  (** the ring communication gives each process the counts of all *)
  Lemma ring_spec p q : p < npes -> q < npes -> good_row (ring npes nparts dom p) q.
  Proof.
    intros Hp Hq. destruct (ring_inv (npes - 1) ltac:(lia) p Hp) as (_ & _ & H). unfold ring. fold (run (npes - 1)). destruct (Nat.le_gt_cases q p) as [L|L].
    - specialize (H (p - q) ltac:(lia)). replace (p + npes - (p - q)) with (q + 1 * npes) in H by lia. rewrite Nat.mod_add, Nat.mod_small in H by lia. auto.
    - specialize (H (p + npes - q) ltac:(lia)). replace (p + npes - (p + npes - q)) with q in H by lia. rewrite Nat.mod_small in H by lia. auto.
  Qed.
End Ring.

Section DomainProof.
  Variables (npes nparts : nat) (dom : nat -> list nat).
  Hypothesis HL : forall p, p < npes -> length (dom p) = nparts.
  Hypothesis HP : nparts <= npes.
  Let cnt q i := nth i (dom q) 0.
  Definition better (i j q : nat) : Prop := cnt q i < cnt j i \/ (cnt j i = cnt q i /\ j < q).
  Lemma pick_spec mat asg i n : (forall q, q < n -> nth (q * nparts + i) mat None = Some (cnt q i)) ->
    let r := fold_left (pick_step nparts mat asg i) (seq 0 n) (0, None) in
    match snd r with
    | None => fst r = 0 /\ forall j, j < n -> nth j asg true = false -> cnt j i = 0
    | Some q => q < n /\ nth q asg true = false /\ fst r = cnt q i /\ 0 < cnt q i /\ forall j, j < n -> nth j asg true = false -> ~ better i j q
    end.
  Proof.
    induction n as [|n IH]; intros HM; [cbn; split; auto; intros; lia|]. cbn zeta. rewrite seq_S, fold_left_app. cbn [fold_left Nat.add]. specialize (IH ltac:(intros; apply HM; lia)). cbn zeta in IH.
    set (r := fold_left (pick_step nparts mat asg i) (seq 0 n) (0, None)) in *. unfold pick_step. destruct (nth n asg true) eqn:EA.
    - destruct (snd r) as [q|].
      + destruct IH as (I1 & I2 & I3 & I4 & I5). repeat split; auto. intros j Hj EJ. destruct (Nat.eq_dec j n) as [E|E]; [congruence|apply I5; auto; lia].
      + destruct IH as [I1 I2]. split; auto. intros j Hj EJ. destruct (Nat.eq_dec j n) as [E|E]; [congruence|apply I2; auto; lia].
    - rewrite HM by lia. destruct (Nat.ltb_spec (fst r) (cnt n i)) as [LT|GE]; cbn [fst snd].
      + repeat split; auto; [lia|]. intros j Hj EJ B. destruct (Nat.eq_dec j n) as [E|E]; [subst j; destruct B; lia|]. assert (B' : cnt n i <= cnt j i) by (destruct B; lia). destruct (snd r) as [q|].
        * destruct IH as (I1 & I2 & I3 & I4 & I5). apply (I5 j); auto; [lia|left; lia].
        * destruct IH as [I1 I2]. rewrite (I2 j) in B' by (auto; lia). lia.
      + destruct (snd r) as [q|].
        * destruct IH as (I1 & I2 & I3 & I4 & I5). repeat split; auto. intros j Hj EJ B. destruct (Nat.eq_dec j n) as [E|E]; [subst j; destruct B; lia|apply (I5 j); auto; lia].
        * destruct IH as [I1 I2]. split; auto. intros j Hj EJ. destruct (Nat.eq_dec j n) as [E|E]; [subst; lia|apply I2; auto; lia].
  Qed.
  Definition free (asg : list bool) (k : nat) : list nat := filter (fun q => negb (nth q asg true)) (seq k (npes - k)).
  Lemma filter_true_ {X} (f : X -> bool) l : (forall x, In x l -> f x = true) -> filter f l = l.
  Proof. induction l as [|x t IH]; intros H; cbn [filter]; auto. rewrite H by (left; auto). f_equal. apply IH. intros; apply H; right; auto. Qed.
  Lemma filter_one (f f' : nat -> bool) pe l : NoDup l -> In pe l -> f pe = true -> f' pe = false -> (forall x, x <> pe -> f' x = f x) -> length (filter f l) = S (length (filter f' l)).
  Proof.
    intros HN HI Hf Hf' HE. induction HN as [|x t H1 H2 IH]; [destruct HI|]. cbn [filter]. destruct (Nat.eq_dec x pe) as [E|E].
    - subst x. rewrite Hf, Hf'. cbn [length]. f_equal. f_equal. apply filter_ext_in. intros y Hy. symmetry. apply HE. intros ->. contradiction.
    - rewrite (HE x E). destruct HI as [HI|HI]; [congruence|]. destruct (f x); cbn [length]; rewrite IH by auto; auto.
  Qed.
  Lemma free_upd asg pe : length asg = npes -> pe < npes -> nth pe asg true = false -> length (free asg 0) = S (length (free (upd asg pe true) 0)).
  Proof.
    intros HA Hp E. unfold free. apply (filter_one _ _ pe); [apply seq_NoDup|apply in_seq; lia|rewrite E; auto|rewrite nth_upd_eq by lia; auto|]. intros x Hx. rewrite nth_upd_ne by auto. auto.
  Qed.
  Record ainv (mype n : nat) (s : dst8) : Prop := {
    a_len : length (d_map s) = nparts;
    a_asgl : length (d_asg s) = npes;
    a_asg : forall q, q < npes -> nth q (d_asg s) true = true <-> exists i, nth i (d_map s) None = Some q;
    a_some : forall i q, nth i (d_map s) None = Some q -> i < n /\ q < npes /\ 0 < cnt q i /\ (forall j, j < npes -> better i j q -> exists i', i' < i /\ nth i' (d_map s) None = Some j);
    a_inj : forall i i' q, nth i (d_map s) None = Some q -> nth i' (d_map s) None = Some q -> i = i';
    a_un : d_un s = filter (fun i => match nth i (d_map s) None with None => true | _ => false end) (seq 0 n);
    a_none : forall i, i < n -> nth i (d_map s) None = None -> forall j, j < npes -> 0 < cnt j i -> exists i', i' < i /\ nth i' (d_map s) None = Some j;
    a_my : forall i, d_my s = Some i <-> nth i (d_map s) None = Some mype;
    a_cnt : length (free (d_asg s) 0) + n = npes + length (d_un s)
  }.
  Lemma assign_inv mype mat n : (forall q i, q < npes -> i < nparts -> nth (q * nparts + i) mat None = Some (cnt q i)) -> n <= nparts ->
    ainv mype n (fold_left (assign_step npes nparts mype mat) (seq 0 n) (mkd (repeat None nparts) (repeat false npes) None nil)).
  Proof.
    intros HM. induction n as [|n IH]; intros Hn.
    - assert (NN : forall i, nth i (repeat (@None nat) nparts) None = None) by (intros; apply nth_repeat). constructor; cbn [fold_left seq d_map d_asg d_my d_un]; try rewrite repeat_length; auto.
      + intros q Hq. rewrite (nth_indep _ true false), nth_repeat by (rewrite repeat_length; auto). split; [discriminate|]. intros (i & E). rewrite NN in E. discriminate.
      + intros i q E. rewrite NN in E. discriminate.
      + intros i i' q E. rewrite NN in E. discriminate.
      + intros; lia.
      + intros i. rewrite NN. split; discriminate.
      + unfold free. rewrite filter_true_. { rewrite seq_length. cbn [length]. lia. } intros x Hx. apply in_seq in Hx. rewrite (nth_indep _ true false), nth_repeat by (rewrite repeat_length; lia). auto.
    - rewrite seq_S, fold_left_app. cbn [fold_left Nat.add]. specialize (IH ltac:(lia)). set (s := fold_left _ (seq 0 n) _) in *. destruct IH as [A1 A2 A3 A4 A5 A6 A7 A8 A9]. unfold assign_step.
      pose proof (pick_spec mat (d_asg s) n npes ltac:(intros; apply HM; lia)) as PK. cbn zeta in PK. assert (EN : nth n (d_map s) None = None) by (destruct (nth n (d_map s) None) as [q|] eqn:E; auto; apply A4 in E; lia).
      destruct (snd (fold_left (pick_step nparts mat (d_asg s) n) (seq 0 npes) (0, None))) as [pe|].
      + destruct PK as (P1 & P2 & _ & P4 & P5).
        assert (UE : forall i q, nth i (upd (d_map s) n (Some pe)) None = Some q <-> (i = n /\ q = pe) \/ (i <> n /\ nth i (d_map s) None = Some q)).
        { intros i q. destruct (Nat.eq_dec i n) as [E|E]; [subst i; rewrite nth_upd_eq by lia; split; [intros EQ; injection EQ as <-; auto|intros [[_ ->]|[H _]]; [auto|congruence]]|rewrite nth_upd_ne by auto; tauto]. }
        assert (UP : forall i q, nth i (d_map s) None = Some q -> nth i (upd (d_map s) n (Some pe)) None = Some q) by (intros i q E; apply UE; right; split; auto; intros ->; congruence).
        constructor; cbn [d_map d_asg d_my d_un]; try rewrite upd_length; auto.
        * intros q Hq. destruct (Nat.eq_dec pe q) as [E|E].
          -- subst q. rewrite nth_upd_eq by lia. split; auto. intros _. exists n. apply UE. auto.
          -- rewrite nth_upd_ne by auto. rewrite A3 by auto. split; [intros (i & E2); exists i; auto|]. intros (i & E2). apply UE in E2. destruct E2 as [[_ E2]|[_ E2]]; [congruence|eauto].
        * intros i q E. apply UE in E. destruct E as [[-> ->]|[E1 E2]].
          -- repeat split; auto. intros j Hj B. destruct (nth j (d_asg s) true) eqn:EJ; [|destruct (P5 j Hj EJ B)]. apply A3 in EJ; auto. destruct EJ as (i & EI). exists i. split; [apply A4 in EI; lia|auto].
          -- destruct (A4 i q E2) as (B1 & B2 & B3 & B4). repeat split; auto. intros j Hj B. destruct (B4 j Hj B) as (i' & C1 & C2). exists i'. auto.
        * intros i i' q E E'. apply UE in E. apply UE in E'. destruct E as [[E1 E2]|[E1 E2]], E' as [[E1' E2']|[E1' E2']]; try (rewrite E2 in *); try (rewrite E2' in *); try congruence.
          -- exfalso. assert (nth pe (d_asg s) true = true) by (apply A3; eauto). congruence.
          -- exfalso. assert (nth pe (d_asg s) true = true) by (apply A3; eauto). congruence.
          -- eauto.
        * rewrite A6, seq_S, filter_app. cbn [filter Nat.add]. rewrite nth_upd_eq by lia. rewrite app_nil_r. apply filter_ext_in. intros i Hi. apply in_seq in Hi. rewrite nth_upd_ne by lia. auto.
        * intros i Hi E j Hj HJ. destruct (Nat.eq_dec i n) as [EQ|EQ]; [subst i; rewrite nth_upd_eq in E by lia; discriminate|]. rewrite nth_upd_ne in E by auto. destruct (A7 i ltac:(lia) E j Hj HJ) as (i' & C1 & C2). exists i'. auto.
        * intros i. rewrite UE. destruct (Nat.eqb_spec pe mype) as [E|E].
          -- subst pe. split; [intros EQ; injection EQ as <-; auto|]. intros [[-> _]|[_ E2]]; auto. exfalso. assert (nth mype (d_asg s) true = true) by (apply A3; eauto). congruence.
          -- rewrite A8. split; [intros E2; right; split; auto; intros ->; congruence|intros [[_ E2]|[_ E2]]; [congruence|auto]].
        * pose proof (free_upd (d_asg s) pe A2 P1 P2). lia.
      + destruct PK as [_ P2]. constructor; cbn [d_map d_asg d_my d_un]; auto.
        * intros i q E. destruct (A4 i q E) as (B1 & B2). split; [lia|auto].
        * rewrite A6, seq_S, filter_app. cbn [filter Nat.add]. rewrite EN. auto.
        * intros i Hi E j Hj HJ. destruct (Nat.eq_dec i n) as [EQ|EQ]; [|apply A7; auto; lia]. subst i. destruct (nth j (d_asg s) true) eqn:EJ; [|rewrite P2 in HJ by auto; lia]. apply A3 in EJ; auto. destruct EJ as (i & EI). exists i. split; [apply A4 in EI; lia|auto].
        * rewrite app_length. cbn [length]. lia.
  Qed.
  Lemma find_free_spec asg k : find_free asg k (npes - k) = hd_error (free asg k).
  Proof.
    unfold free. remember (npes - k) as f eqn:E. clear E. revert k. induction f as [|f IH]; intros k; cbn [find_free seq filter]; auto. destruct (nth k asg true); cbn [negb hd_error]; auto.
  Qed.
  Lemma free_tail asg k q r : length asg = npes -> free asg k = q :: r -> k <= q < npes /\ nth q asg true = false /\ free (upd asg q true) q = r.
  Proof.
    intros HA. unfold free. intros E. assert (HI : In q (filter (fun q => negb (nth q asg true)) (seq k (npes - k)))) by (rewrite E; left; auto). apply filter_In in HI. destruct HI as [H1 H2]. apply in_seq in H1. apply negb_true_iff in H2. split; [lia|]. split; auto.
    assert (HS : seq k (npes - k) = seq k (q - k) ++ q :: seq (S q) (npes - S q)). { replace (npes - k) with ((q - k) + S (npes - S q)) by lia. rewrite seq_app. f_equal. cbn [seq]. replace (k + (q - k)) with q by lia. reflexivity. }
    rewrite HS, filter_app in E. cbn [filter] in E. rewrite H2 in E. cbn [negb] in E.
    assert (EN : filter (fun q => negb (nth q asg true)) (seq k (q - k)) = nil).
    { destruct (filter (fun q => negb (nth q asg true)) (seq k (q - k))) as [|y t] eqn:EF; auto. cbn [app] in E. injection E as -> _. assert (HI : In q (q :: t)) by (left; auto). rewrite <- EF in HI. apply filter_In in HI. destruct HI as [HI _]. apply in_seq in HI. lia. }
    rewrite EN in E. cbn [app] in E. injection E as E. rewrite <- E. replace (npes - q) with (S (npes - S q)) by lia. cbn [seq filter]. rewrite nth_upd_eq by lia. cbn [negb]. apply filter_ext_in. intros x Hx. apply in_seq in Hx. rewrite nth_upd_ne by lia. auto.
  Qed.
  Lemma free_loop_spec un : NoDup un -> forall k asg mp, length asg = npes -> Forall (fun u => u < length mp) un -> length un <= length (free asg k) ->
    exists mp', free_loop npes un k asg mp = Ok mp' /\ length mp' = length mp /\ (forall t, t < length un -> nth (nth t un 0) mp' None = Some (nth t (free asg k) 0)) /\ (forall i, ~ In i un -> nth i mp' None = nth i mp None).
  Proof.
    induction 1 as [|u t H1 H2 IH]; intros k asg mp HA HF HC; cbn [free_loop length] in *; [exists mp; repeat split; auto; intros; lia|]. apply Forall_cons_iff in HF. destruct HF as [HF1 HF2].
    rewrite find_free_spec. destruct (free asg k) as [|q r] eqn:EF; [cbn [length] in HC; lia|]. cbn [hd_error]. destruct (free_tail asg k q r HA EF) as (F1 & F2 & F3). cbn [length] in HC.
    destruct (IH q (upd asg q true) (upd mp u (Some q))) as (mp' & R0 & R1 & R2 & R3); [rewrite upd_length; auto|rewrite upd_length; auto|rewrite F3; lia|]. rewrite upd_length in R1. exists mp'. split; auto. split; auto. split.
    - intros [|i] Hi; cbn [nth]; [rewrite R3 by auto; apply nth_upd_eq; auto|]. rewrite R2 by lia. rewrite F3. auto.
    - intros i Hi. cbn [In] in Hi. rewrite R3 by tauto. apply nth_upd_ne. tauto.
  Qed.
  Lemma ring_same p q : p < npes -> q < npes -> ring npes nparts dom p = ring npes nparts dom q.
  Proof.
    intros Hp Hq. assert (LE : forall p, p < npes -> length (ring npes nparts dom p) = npes * nparts) by (intros r Hr; apply (ring_inv npes nparts dom HL (npes - 1) ltac:(lia) r Hr)).
    apply (nth_ext _ _ None None); [rewrite !LE; auto|]. rewrite LE by auto. intros x Hx. destruct (Nat.eq_dec nparts 0) as [E|E]; [rewrite E in Hx; lia|].
    assert (HD : x / nparts < npes) by (apply Nat.div_lt_upper_bound; lia). assert (HM : x mod nparts < nparts) by (apply Nat.mod_upper_bound; auto).
    rewrite (Nat.div_mod x nparts E), (Nat.mul_comm nparts), (ring_spec npes nparts dom HL p (x / nparts) Hp HD _ HM), (ring_spec npes nparts dom HL q (x / nparts) Hq HD _ HM). auto.
  Qed.
  Lemma assign_indep m1 m2 mat l : forall s1 s2, d_map s1 = d_map s2 -> d_asg s1 = d_asg s2 -> d_un s1 = d_un s2 ->
    let r1 := fold_left (assign_step npes nparts m1 mat) l s1 in let r2 := fold_left (assign_step npes nparts m2 mat) l s2 in d_map r1 = d_map r2 /\ d_asg r1 = d_asg r2 /\ d_un r1 = d_un r2.
  Proof.
    induction l as [|i t IH]; intros s1 s2 E1 E2 E3; cbn [fold_left]; auto. apply IH; unfold assign_step; rewrite E2; destruct (snd (fold_left (pick_step nparts mat (d_asg s2) i) (seq 0 npes) (0, None))); cbn [d_map d_asg d_un]; congruence.
  Qed.
  (** All processes compute the same mapping of the domains to different processes.  A process that has more vertices of a domain than the one that gets it (or as many and a smaller rank)
      already got an earlier domain of which it has vertices.  Domains of which no free process has a vertex get the free processes in increasing order. *)
  Theorem C69_domains : exists mp, length mp = nparts /\ NoDup mp /\ Forall (fun q => q < npes) mp /\
    (forall i j, i < nparts -> j < npes -> 0 < cnt j i -> better i j (nth i mp npes) -> exists i', i' < i /\ nth i' mp npes = j /\ 0 < cnt j i') /\
    (forall i i', i < i' < nparts -> cnt (nth i mp npes) i = 0 -> cnt (nth i' mp npes) i' = 0 -> nth i mp npes < nth i' mp npes) /\
    (forall i q, i < nparts -> q < npes -> cnt (nth i mp npes) i = 0 -> q < nth i mp npes -> In q mp) /\
    forall p, p < npes -> exists my, getDomain npes nparts dom p = Ok (map Some mp, my) /\ forall i, my = Some i <-> i < nparts /\ nth i mp npes = p /\ 0 < cnt p i.
  Proof.
    destruct (Nat.eq_dec npes 0) as [E0|E0].
    { exists nil. assert (nparts = 0) by lia. cbn [length]. split; [auto|]. split; [constructor|]. split; [constructor|]. repeat split; intros; lia. }
    set (fin := fun p => fold_left (assign_step npes nparts p (ring npes nparts dom p)) (seq 0 nparts) (mkd (repeat None nparts) (repeat false npes) None nil)).
    assert (HI : forall p, p < npes -> ainv p nparts (fin p)). { intros p Hp. apply assign_inv; auto. intros q i Hq Hi. apply (ring_spec npes nparts dom HL p q Hp Hq i Hi). }
    set (s := fin 0). assert (HS : forall p, p < npes -> d_map (fin p) = d_map s /\ d_asg (fin p) = d_asg s /\ d_un (fin p) = d_un s). { intros p Hp. unfold s, fin. rewrite (ring_same p 0) by lia. apply assign_indep; auto. }
    destruct (HI 0 ltac:(lia)) as [A1 A2 A3 A4 A5 A6 A7 A8 A9]. fold s in A1, A2, A3, A4, A5, A6, A7, A8, A9.
    assert (UN : NoDup (d_un s)) by (rewrite A6; apply NoDup_filter, seq_NoDup). assert (US : StronglySorted lt (d_un s)) by (rewrite A6; apply filter_SS, seq_SS).
    assert (UI : forall i, In i (d_un s) <-> i < nparts /\ nth i (d_map s) None = None). { intros i. rewrite A6, filter_In, in_seq. destruct (nth i (d_map s) None); split; intros [H1 H2]; split; auto; try lia; discriminate. }
    destruct (free_loop_spec (d_un s) UN 0 (d_asg s) (d_map s) A2) as (mo & R0 & R1 & R2 & R3); [apply Forall_forall; intros i Hi; apply UI in Hi; lia|lia|].
    set (F := free (d_asg s) 0) in *. assert (FS : StronglySorted lt F) by (apply filter_SS, seq_SS).
    assert (FI : forall q, In q F <-> q < npes /\ forall i, nth i (d_map s) None <> Some q).
    { intros q. unfold F, free. rewrite filter_In, in_seq, negb_true_iff. split.
      - intros [H1 H2]. split; [lia|]. intros i E. assert (nth q (d_asg s) true = true) by (apply A3; eauto; lia). congruence.
      - intros [H1 H2]. split; [lia|]. destruct (nth q (d_asg s) true) eqn:E; auto. apply A3 in E; auto. destruct E as [i E]. destruct (H2 i E). }
    assert (FL : length (d_un s) <= length F) by lia.
    (* every domain has a process *)
    assert (MS : forall i, i < nparts -> (exists q, nth i (d_map s) None = Some q /\ nth i mo None = Some q) \/ (exists t, t < length (d_un s) /\ nth t (d_un s) 0 = i /\ nth i (d_map s) None = None /\ nth i mo None = Some (nth t F 0))).
    { intros i Hi. destruct (nth i (d_map s) None) as [q|] eqn:E.
      - left. exists q. rewrite R3 by (rewrite UI; intros [_ H]; congruence). auto.
      - right. assert (HU : In i (d_un s)) by (apply UI; auto). apply (In_nth _ _ 0) in HU. destruct HU as (t & Ht & Et). exists t. repeat split; auto. rewrite <- Et. apply R2; auto. }
    assert (FN : forall t, t < length (d_un s) -> In (nth t F 0) F) by (intros t Ht; apply nth_In; lia).
    set (mp := map (fun o => match o with Some q => q | None => npes end) mo). assert (LM : length mp = nparts) by (unfold mp; rewrite map_length; lia).
    assert (EM : mo = map Some mp). { unfold mp. rewrite map_map. rewrite <- (map_id mo) at 1. apply map_ext_in. intros o Ho. apply (In_nth _ _ None) in Ho. destruct Ho as (i & Hi & Ei). destruct (MS i ltac:(lia)) as [(q & _ & E)|(t & _ & _ & _ & E)]; rewrite E in Ei; rewrite <- Ei; auto. }
    assert (NM : forall i q, i < nparts -> nth i mp npes = q <-> nth i mo None = Some q). { intros i q Hi. rewrite EM. rewrite (nth_indep _ None (Some npes)) by (rewrite map_length; lia). rewrite map_nth. split; congruence. }
    (* the first pass is recognized by the count *)
    assert (CZ : forall i q, i < nparts -> nth i mo None = Some q -> q < npes /\ (0 < cnt q i <-> nth i (d_map s) None = Some q)).
    { intros i q Hi E. destruct (MS i Hi) as [(q' & E1 & E2)|(t & T1 & T2 & T3 & T4)].
      - assert (q' = q) by congruence. subst q'. destruct (A4 i q E1) as (_ & B1 & B2 & _). split; auto. split; auto.
      - assert (q = nth t F 0) by congruence. pose proof (FN t T1) as HF. apply FI in HF. destruct HF as [F1 F2]. subst q. split; auto. split; [|congruence]. intros HC. destruct (A7 i Hi T3 _ F1 HC) as (i' & C1 & C2). destruct (F2 i' C2). }
    assert (MJ : forall i i' q, i < nparts -> i' < nparts -> nth i mo None = Some q -> nth i' mo None = Some q -> i = i').
    { intros i i' q Hi Hi' E E'. destruct (MS i Hi) as [(q1 & E1 & E2)|(t & T1 & T2 & T3 & T4)], (MS i' Hi') as [(q2 & E3 & E4)|(t' & U1 & U2 & U3 & U4)].
      - apply (A5 i i' q); congruence.
      - exfalso. pose proof (FN t' U1) as HF. apply FI in HF. destruct HF as [_ HF]. apply (HF i). congruence.
      - exfalso. pose proof (FN t T1) as HF. apply FI in HF. destruct HF as [_ HF]. apply (HF i'). congruence.
      - assert (t = t') by (apply (NoDup_nth F 0); [apply SS_NoDup; auto|lia|lia|congruence]). subst t'. congruence. }
    exists mp. split; auto. split; [|split; [|split; [|split; [|split]]]].
    - apply (NoDup_nth mp npes). intros i i' Hi Hi' E. rewrite LM in *. apply (MJ i i' (nth i mp npes)); auto; [apply NM; auto|apply NM; auto].
    - apply Forall_forall. intros q Hq. apply (In_nth _ _ npes) in Hq. destruct Hq as (i & Hi & Ei). rewrite LM in Hi. apply NM in Ei; auto. apply (CZ i q Hi Ei).
    - intros i j Hi Hj HC B. pose proof (proj1 (NM i _ Hi) eq_refl) as E. destruct (CZ i _ Hi E) as [Q1 Q2]. assert (HX : exists i', i' < i /\ nth i' (d_map s) None = Some j).
      { destruct (Nat.eq_dec (cnt (nth i mp npes) i) 0) as [EZ|EZ].
        - apply (A7 i Hi); auto. destruct (nth i (d_map s) None) as [q'|] eqn:E'; auto. exfalso. destruct (MS i Hi) as [(q1 & E1 & E2)|(t & T1 & T2 & T3 & T4)]; [|congruence]. assert (q1 = nth i mp npes) by congruence. subst q1. destruct (A4 i _ E1) as (_ & _ & B2 & _). lia.
        - destruct (A4 i _ (proj1 Q2 ltac:(lia))) as (_ & _ & _ & B4). apply B4; auto. }
      destruct HX as (i' & X1 & X2). exists i'. split; auto. destruct (A4 i' j X2) as (Y1 & Y2 & Y3 & _). split; auto. apply NM; auto. rewrite R3; auto. rewrite UI. intros [_ H]. congruence.
    - intros i i' [H1 H2] Z1 Z2. assert (ZT : forall i, i < nparts -> cnt (nth i mp npes) i = 0 -> exists t, t < length (d_un s) /\ nth t (d_un s) 0 = i /\ nth i mp npes = nth t F 0).
      { intros k Hk HZ. pose proof (proj1 (NM k _ Hk) eq_refl) as E. destruct (MS k Hk) as [(q1 & E1 & E2)|(t & T1 & T2 & T3 & T4)]; [exfalso; assert (q1 = nth k mp npes) by congruence; subst q1; destruct (A4 k _ E1) as (_ & _ & B2 & _); lia|].
        exists t. repeat split; auto. congruence. }
      destruct (ZT i ltac:(lia) Z1) as (t & T1 & T2 & T3). destruct (ZT i' H2 Z2) as (t' & U1 & U2 & U3). rewrite T3, U3. assert (SSn : forall l a b, StronglySorted lt l -> a < length l -> b < length l -> a < b <-> nth a l 0 < nth b l 0).
      { clear. intros l a b HS Ha Hb. assert (MM : forall a b, a < b -> b < length l -> nth a l 0 < nth b l 0).
        { clear a b Ha Hb. induction HS as [|x t H1 IH H2]; intros a b Hab Hb; cbn [length] in Hb; [lia|]. destruct a as [|a], b as [|b]; try lia; cbn [nth]; [|apply IH; lia]. rewrite Forall_forall in H2. apply H2, nth_In. lia. }
        split; [intros; apply MM; auto|]. intros H. destruct (Nat.lt_trichotomy a b) as [L|[L|L]]; auto; [subst; lia|]. specialize (MM b a L Ha). lia. }
      apply SSn; auto; [lia|lia|]. apply SSn with (l := d_un s); auto. lia.
    - intros i q Hi Hq HZ HLT. pose proof (proj1 (NM i _ Hi) eq_refl) as E. destruct (MS i Hi) as [(q1 & E1 & E2)|(t & T1 & T2 & T3 & T4)]; [exfalso; assert (q1 = nth i mp npes) by congruence; subst q1; destruct (A4 i _ E1) as (_ & _ & B2 & _); lia|].
      assert (EF : nth i mp npes = nth t F 0) by congruence. destruct (nth q (d_asg s) true) eqn:EQ.
      + apply A3 in EQ; auto. destruct EQ as [i' EQ]. destruct (A4 i' q EQ) as (Y1 & _). rewrite <- (proj2 (NM i' q Y1)); [apply nth_In; lia|]. rewrite R3; auto. rewrite UI. intros [_ H]. congruence.
      + assert (HF : In q F) by (apply filter_In; split; [apply in_seq; lia|rewrite EQ; auto]). apply (In_nth _ _ 0) in HF. destruct HF as (t' & U1 & U2).
        assert (t' < t). { destruct (Nat.lt_ge_cases t' t) as [L|L]; auto. exfalso. destruct (Nat.eq_dec t t') as [ET|ET]; [subst t'; lia|]. assert (nth t F 0 < nth t' F 0); [|lia]. clear - FS L ET U1. revert t t' L ET U1. induction FS as [|x l H1 IH H2]; intros a b L E Hb; cbn [length] in Hb; [lia|].
          destruct a as [|a], b as [|b]; try lia; cbn [nth]; [|apply IH; lia]. rewrite Forall_forall in H2. apply H2, nth_In. lia. }
        assert (HU : In (nth t' (d_un s) 0) (d_un s)) by (apply nth_In; lia). apply UI in HU. destruct HU as [HU1 HU2]. specialize (R2 t' ltac:(lia)). rewrite U2 in R2. apply NM in R2; auto. rewrite <- R2. apply nth_In. lia.
    - intros p Hp. destruct (HS p Hp) as (S1 & S2 & S3). exists (d_my (fin p)). split; [unfold getDomain; fold (fin p); rewrite S1, S2, S3, R0; cbn [obind]; rewrite EM; auto|].
      intros i. rewrite (a_my _ _ _ (HI p Hp)), S1. split.
      + intros E. destruct (A4 i p E) as (Y1 & Y2 & Y3 & _). split; auto. split; auto. apply NM; auto. rewrite R3; auto. rewrite UI. intros [_ H]. congruence.
      + intros (Y1 & Y2 & Y3). apply NM in Y2; auto. apply (CZ i p Y1 Y2). auto.
  Qed.
End DomainProof.

(** ** graphRepartition *)
Lemma set_loop_spec part dm l : forall i sp, NoDup (map e_l l) -> Forall (fun e => e_l e < length sp) l -> i + length (filter (fun e => ownerSet (e_a e)) l) <= length part -> Forall (fun d => d < length dm) part ->
  exists sp', set_loop l i part dm sp = Ok sp' /\ length sp' = length sp /\
    (forall k e, nth_error (filter (fun e => ownerSet (e_a e)) l) k = Some e -> nth (e_l e) sp' None = nth (nth (i + k) part 0) dm None) /\
    (forall x, (forall e, In e l -> ownerSet (e_a e) = true -> e_l e <> x) -> nth x sp' None = nth x sp None).
Proof.
  induction l as [|e t IH]; intros i sp HN HF HC HD; cbn [set_loop filter map length] in *.
  - exists sp. repeat split; auto. intros k e E. destruct k; discriminate.
  - apply NoDup_cons_iff in HN. destruct HN as [N1 N2]. apply Forall_cons_iff in HF. destruct HF as [F1 F2]. destruct (ownerSet (e_a e)) eqn:EO.
    + cbn [length] in HC. rewrite (nth_error_nth' part 0) by lia. assert (HD' : nth i part 0 < length dm) by (rewrite Forall_forall in HD; apply HD, nth_In; lia). rewrite (nth_error_nth' dm None) by auto.
      replace (e_l e <? length sp) with true by (symmetry; apply Nat.ltb_lt; auto). destruct (IH (S i) (upd sp (e_l e) (nth (nth i part 0) dm None))) as (sp' & R0 & R1 & R2 & R3); auto; [rewrite upd_length; auto|lia|]. rewrite upd_length in R1.
      exists sp'. split; auto. split; auto. split.
      * intros [|k] e' E; cbn [nth_error] in E.
        -- injection E as <-. rewrite R3, nth_upd_eq, Nat.add_0_r; auto. intros e' He' _ EQ. apply N1. rewrite <- EQ. apply in_map. auto.
        -- rewrite (R2 k e' E). f_equal. f_equal. lia.
      * intros x Hx. rewrite R3 by (intros e' He'; apply Hx; right; auto). apply nth_upd_ne. apply Hx; auto. left; auto.
    + destruct (IH i sp) as (sp' & R0 & R1 & R2 & R3); auto. exists sp'. repeat split; auto. intros x Hx. apply R3. intros e' He'. apply Hx. right; auto.
Qed.
Lemma omap_nth {X Y} (f : X -> outcome Y) (g : X -> Y) l dx dy k : (forall x, In x l -> f x = Ok (g x)) -> k < length l -> omap f l = Ok (map g l) /\ nth k (map g l) dy = g (nth k l dx).
Proof. intros H Hk. split; [apply omap_ok; auto|]. rewrite (nth_indep _ dy (g dx)) by (rewrite map_length; auto). apply map_nth. Qed.
(** 1429-1435: the communication of setPartition; [nonov]: SolverCategory::nonoverlapping *)
Definition communicated (P : nat) (ix : nat -> pis) (nonov : bool) (sp d : nat -> list (option nat)) : Prop :=
  exists d1, copyOwnerToAll P ix None sp d1 /\ if nonov then copyCopyToAll P ix None d1 d else forall p, d p = d1 p.
Lemma agreeing_unchanged {B} (b0 : B) P sz ix S D d0 d1 : dist_wf P sz ix -> sized P sz d0 -> complete_run (fun _ v => v) P ix S D None d0 d1 ->
  (forall p q g l l' a a', p < P -> q < P -> holds ix p g l a -> holds ix q g l' a' -> nth l (d0 p) b0 = nth l' (d0 q) b0) -> forall q, q < P -> d1 q = d0 q.
Proof.
  intros HW Hd [s [HR [HF HE]]] HG q Hq. rewrite <- (HE q Hq). assert (HS : forall f p, (None : option (nat -> list B)) = Some f -> p < P -> length (f p) = sz p) by (intros; discriminate).
  pose proof (inv_reach b0 _ P ix sz HW S D None d0 Hd HS s HR q Hq) as (_ & _ & _ & I4 & I5 & I6 & I7). apply (nth_ext _ _ b0 b0); [rewrite I5; symmetry; apply Hd; auto|]. intros l Hl.
  destruct (in_dec Nat.eq_dec l (map e_l (ix q))) as [HI|HI]; [|apply I7; auto]. apply in_map_iff in HI. destruct HI as ([g l2 a] & E & HI). cbn [e_l] in E. subst l2. specialize (I6 _ HI). cbn [e_l] in I6. rewrite I6. clear I6.
  rewrite Forall_forall in I4. revert I4. generalize (rcv s q). intros ps. induction ps as [|p ps IH]; intros HP; cbn [fold_left]; auto. unfold recv1 at 2. destruct (contrib b0 ix S D None d0 p (mke g l a)) as [v|] eqn:EC; [|apply IH; intros; apply HP; right; auto].
  unfold contrib in EC. cbn [e_g] in EC. destruct (lookup (ix p) g) as [[g' l' a']|] eqn:EL; [|discriminate]. destruct (HP p (or_introl eq_refl)) as [Hp _]. apply lookup_spec in EL; [|apply HW; auto]. destruct EL as [EL1 EL2]. cbn [e_g] in EL2. subst g'.
  destruct (_ && _); [|discriminate]. cbn [e_l] in EC. unfold S0 in EC. injection EC as <-. rewrite (HG p q g l' l a' a) by auto. apply IH. intros; apply HP; right; auto.
Qed.

Section Whole.
  Variables (P : nat) (nv : nat -> nat) (ix : nat -> pis) (have : bool) (nparts : nat) (metis : nat -> list nat).
  Hypothesis HW : dist_wf P nv ix.
  Hypothesis HU : unique_owner P ix.
  (** every index has an owner *)
  Hypothesis HO : forall p g l a, p < P -> holds ix p g l a -> exists p' l', p' < P /\ holds ix p' g l' Owner.
  Let ix' := ixf P nv ix.
  Let n := np have nparts.
  Hypothesis HN : 1 <= nparts <= P.
  (** ParMETIS gives each owned vertex a domain *)
  Hypothesis HM : 1 < n -> forall p, p < P -> length (metis p) = numOfOwnVtx ix' p /\ Forall (fun d => d < n) (metis p).
  Let part := partOf P nv ix have nparts metis.
  Lemma n_range : 1 <= n <= P.
  Proof. unfold n, np. destruct have; lia. Qed.
  Lemma part_ok p : p < P -> length (part p) = numOfOwnVtx ix' p /\ Forall (fun d => d < n) (part p).
  Proof.
    intros Hp. unfold part, partOf. fold n. destruct (Nat.ltb_spec 1 n) as [H|H]; [apply HM; auto|]. fold ix'. rewrite repeat_length. split; auto. apply Forall_forall. intros d Hd. apply repeat_spec in Hd. subst d. pose proof n_range. lia.
  Qed.
  Lemma mapping : exists mp, length mp = n /\ NoDup mp /\ Forall (fun q => q < P) mp /\ forall p, p < P -> domainMapping P nv ix have nparts metis p = Ok (map Some mp).
  Proof.
    pose proof n_range as NR. unfold domainMapping. fold n. destruct (Nat.ltb_spec 1 n) as [H|H].
    - fold part. set (dom := fun p => match count_loop (part p) (repeat 0 n) with Ok d => d | _ => nil end).
      assert (HC : forall p, p < P -> count_loop (part p) (repeat 0 n) = Ok (dom p) /\ length (dom p) = n).
      { intros p Hp. destruct (count_loop_spec n (part p) (proj2 (part_ok p Hp)) (repeat 0 n) (repeat_length _ _)) as (r & R0 & R1 & _). unfold dom. rewrite R0. auto. }
      assert (EO : omap (fun p => count_loop (part p) (repeat 0 n)) (seq 0 P) = Ok (map dom (seq 0 P))) by (apply omap_ok; intros p Hp; apply in_seq in Hp; apply HC; lia).
      rewrite EO. cbn [obind]. destruct (C69_domains P n (fun p => nth p (map dom (seq 0 P)) nil)) as (mp & M1 & M2 & M3 & _ & _ & _ & M4); [|lia|].
      + intros p Hp. rewrite (nth_indep _ nil (dom 0)) by (rewrite map_length, seq_length; auto). rewrite map_nth, seq_nth by auto. apply HC. auto.
      + exists mp. repeat split; auto. intros p Hp. destruct (M4 p Hp) as (my & E & _). rewrite E. auto.
    - exists [0]. split; [cbn; lia|]. split; [constructor; [intros []|constructor]|]. split; [constructor; [lia|constructor]|]. auto.
  Qed.
  Lemma filled_wf : dist_wf P nv ix'.
  Proof. exact (proj1 (C69_holes P nv ix HW)). Qed.
  Lemma filled_complete : complete P nv ix'.
  Proof. exact (proj1 (proj2 (C69_holes P nv ix HW))). Qed.
  Lemma filled_unique : unique_owner P ix'.
  Proof. exact (proj1 (proj2 (proj2 (proj2 (proj2 (C69_holes P nv ix HW))))) HU). Qed.
  Lemma filled_owner p g l a : p < P -> holds ix' p g l a -> exists p' l', p' < P /\ holds ix' p' g l' Owner.
  Proof.
    intros Hp H. destruct (C69_holes P nv ix HW) as (_ & _ & OLD & NEW & _). destruct (in_dec entry_dec (mke g l a) (ix p)) as [HI|HI].
    - destruct (HO p g l a Hp HI) as (p' & l' & Hp' & H'). exists p', l'. split; auto.
    - destruct (NEW p g l a Hp H HI) as [-> _]. eauto.
  Qed.
  Lemma filled_length p : p < P -> length (ix' p) = nv p.
  Proof.
    intros Hp. rewrite <- (map_length e_l), <- (seq_length (nv p) 0). destruct (filled_wf p Hp) as (_ & W2 & W3). apply Permutation_length, NoDup_Permutation; auto; [apply seq_NoDup|]. intros l. rewrite in_seq. split.
    - intros H. apply in_map_iff in H. destruct H as (e & <- & H). rewrite Forall_forall in W3. specialize (W3 e H). lia.
    - intros H. destruct (filled_complete p l Hp ltac:(lia)) as (g & a & HH). apply (in_map e_l) in HH. auto.
  Qed.
  (** the owner indices of a process in the order of the index set *)
  Definition ownIx (p : nat) : pis := filter (fun e => ownerSet (e_a e)) (ix' p).
  Lemma setPartition_ok mp p : length mp = n -> domainMapping P nv ix have nparts metis p = Ok (map Some mp) -> p < P -> exists sp, setPartition P nv ix have nparts metis p = Ok sp /\ length sp = nv p /\
    (forall k e, nth_error (ownIx p) k = Some e -> nth (e_l e) sp None = Some (nth (nth k (part p) 0) mp P)) /\ (forall l, (forall g, ~ holds ix' p g l Owner) -> nth l sp None = None).
  Proof.
    intros HL ED Hp. destruct (filled_wf p Hp) as (W1 & W2 & W3). destruct (part_ok p Hp) as [Q1 Q2]. unfold setPartition. rewrite ED. cbn [obind]. fold part. fold ix'.
    destruct (set_loop_spec (part p) (map Some mp) (ix' p) 0 (repeat None (length (ix' p)))) as (sp & R0 & R1 & R2 & R3); auto.
    - rewrite repeat_length, filled_length by auto. auto.
    - rewrite Q1. apply Nat.le_refl.
    - rewrite map_length, HL. auto.
    - rewrite repeat_length, filled_length in R1 by auto. exists sp. split; auto. split; auto. split.
      + intros k e E. rewrite (R2 k e E). cbn [Nat.add]. assert (Hk : k < length (part p)). { rewrite Q1. apply nth_error_Some. fold (ownIx p). congruence. }
        rewrite (nth_indep _ None (Some P)); [apply map_nth|]. rewrite map_length, HL. rewrite Forall_forall in Q2. apply Q2, nth_In. auto.
      + intros l Hl. rewrite R3, nth_repeat; auto. intros [g l2 a] HI EO EQ. cbn [e_l e_a] in *. subst l2. destruct a; try discriminate. apply (Hl g). exact HI.
  Qed.
  Variables (graph : nat -> list (list nat)) (nonov : bool).
  Hypothesis HG : forall p, p < P -> length (graph p) = nv p /\ Forall (Forall (fun t => t < nv p)) (graph p).
  (** graphRepartition up to buildCommunication never fails, and what it passes on to buildCommunication is legal input (C67): every process knows for each of its vertices one process.
      The domains belong to different processes mp[0], mp[1], ...; the k-th owned index of a process in the order of the global indices goes to the process of the domain part[k]. *)
  Theorem C69_graphRepartition : exists mp sp, length mp = n /\ NoDup mp /\ Forall (fun q => q < P) mp /\ (forall p, p < P -> setPartition P nv ix have nparts metis p = Ok (sp p)) /\
    (exists d, communicated P ix' nonov sp d) /\
    forall d, communicated P ix' nonov sp d -> exists parts, (forall p, p < P -> d p = setp_of parts p) /\ legal P ix' graph parts nv /\
      (forall order q, buildCommunication P ix' graph d order q = buildCommunication P ix' graph (setp_of parts) order q) /\
      (forall p k e, p < P -> nth_error (filter (fun e => attr_eqb (e_a e) Owner) (ix' p)) k = Some e -> nth (e_l e) (parts p) P = nth (nth k (partOf P nv ix have nparts metis p) 0) mp P) /\
      (forall p g l, p < P -> holds ix' p g l Owner -> nth l (sp p) None = Some (nth l (parts p) P)).
  Proof.
    destruct mapping as (mp & M1 & M2 & M3 & M4). set (sp := fun p => match setPartition P nv ix have nparts metis p with Ok s => s | _ => nil end).
    assert (HS : forall p, p < P -> setPartition P nv ix have nparts metis p = Ok (sp p) /\ length (sp p) = nv p /\ (forall k e, nth_error (ownIx p) k = Some e -> nth (e_l e) (sp p) None = Some (nth (nth k (part p) 0) mp P)) /\ (forall l, (forall g, ~ holds ix' p g l Owner) -> nth l (sp p) None = None)).
    { intros p Hp. destruct (setPartition_ok mp p M1 (M4 p Hp) Hp) as (s & R0 & R). unfold sp. rewrite R0. auto. }
    exists mp, sp. split; auto. split; auto. split; auto. split; [intros p Hp; apply HS; auto|].
    pose proof filled_wf as WF. pose proof filled_unique as UF. assert (SZ : sized P nv sp) by (intros p Hp; apply HS; auto).
    assert (AG : forall d1 : nat -> list (option nat), consistent None P ix' d1 -> forall p q g l l' a a', p < P -> q < P -> holds ix' p g l a -> holds ix' q g l' a' -> nth l (d1 p) None = nth l' (d1 q) None).
    { intros d1 HC p q g l l' a a' Hp Hq H1 H2. destruct (filled_owner p g l a Hp H1) as (r & lr & Hr & HR). rewrite (HC r p g l lr a Hr Hp HR H1). symmetry. apply (HC r q g l' lr a' Hr Hq HR H2). }
    split.
    { destruct (C31_safe None P nv ix' WF None sp SZ I (fun _ v => v) ownerSet allSet _ (reach_0 _ _ _ _ _ _ _)) as (_ & _ & d1 & HC1). destruct (C31_in_place None P nv ix' WF sp d1 UF SZ HC1) as (SZ1 & CO & _).
      destruct nonov eqn:EN.
      - destruct (C31_safe None P nv ix' WF None d1 SZ1 I (fun _ v => v) copySet allSet _ (reach_0 _ _ _ _ _ _ _)) as (_ & _ & d & HC2). exists d, d1. auto.
      - exists d1, d1. auto. }
    intros d (d1 & HC1 & HC2). destruct (C31_in_place None P nv ix' WF sp d1 UF SZ HC1) as (SZ1 & CO & OWN & _).
    assert (ED : forall p, p < P -> d p = d1 p). { intros p Hp. destruct nonov; auto. apply (agreeing_unchanged None P nv ix' copySet allSet d1 d WF SZ1 HC2 (AG d1 CO) p Hp). }
    assert (OV : forall p k e, p < P -> nth_error (ownIx p) k = Some e -> nth (e_l e) (d1 p) None = Some (nth (nth k (part p) 0) mp P) /\ nth (nth k (part p) 0) mp P < P).
    { intros p k e Hp E. destruct (HS p Hp) as (_ & _ & R2 & _). pose proof (nth_error_In _ _ E) as HI. apply filter_In in HI. destruct HI as [HI HE]. destruct e as [g l a]. cbn [e_a e_l] in *. destruct a; try discriminate. rewrite (OWN p g) by auto. split; [apply (R2 k _ E)|].
      destruct (part_ok p Hp) as [Q1 Q2]. assert (Hk : k < length (part p)) by (rewrite Q1; apply nth_error_Some; fold (ownIx p); congruence). rewrite Forall_forall in M3. apply M3, nth_In. rewrite M1. rewrite Forall_forall in Q2. apply Q2, nth_In. auto. }
    assert (AV : forall p l, p < P -> l < nv p -> exists q, q < P /\ nth l (d1 p) None = Some q).
    { intros p l Hp Hl. destruct (filled_complete p l Hp Hl) as (g & a & H). destruct (filled_owner p g l a Hp H) as (r & lr & Hr & HR). assert (HI : In (mke g lr Owner) (ownIx r)) by (apply filter_In; auto). apply In_nth_error in HI. destruct HI as [k E].
      destruct (OV r k _ Hr E) as [V1 V2]. cbn [e_l] in V1. rewrite <- (CO r p g l lr a Hr Hp HR H) in V1. eauto. }
    set (parts := fun p => map (fun o => match o with Some q => q | None => P end) (d1 p)). exists parts.
    assert (EP : forall p, p < P -> d1 p = setp_of parts p).
    { intros p Hp. unfold setp_of, parts. rewrite map_map. rewrite <- (map_id (d1 p)) at 1. apply map_ext_in. intros o Ho. apply (In_nth _ _ None) in Ho. destruct Ho as (l & Hl & El). rewrite SZ1 in Hl by auto. destruct (AV p l Hp Hl) as (q & _ & E). rewrite <- El, E. auto. }
    assert (NP : forall p l, nth l (parts p) P = match nth l (d1 p) None with Some q => q | None => P end). { intros p l. unfold parts. apply (map_nth (fun o => match o with Some q => q | None => P end) (d1 p) None l). }
    split; [intros p Hp; rewrite ED by auto; auto|]. split; [|split; [|split]].
    - constructor; auto.
      + exact filled_complete.
      + intros p Hp. split; [unfold parts; rewrite map_length; apply SZ1; auto|]. apply Forall_forall. intros q Hq. apply (In_nth _ _ P) in Hq. destruct Hq as (l & Hl & El). unfold parts in Hl. rewrite map_length, SZ1 in Hl by auto. destruct (AV p l Hp Hl) as (q' & Hq' & E). rewrite NP, E in El. lia.
      + intros p g l a Hp H. apply (filled_owner p g l a); auto.
      + intros p q g l l' a Hp Hq H1 H2. rewrite !NP, (CO p q g l l' a) by auto. auto.
    - intros order q. unfold buildCommunication. f_equal. apply omap_ext. intros p Hp. apply in_seq in Hp. rewrite ED, EP by lia. auto.
    - intros p k e Hp E. rewrite NP. fold part. destruct (OV p k e Hp E) as [V1 _]. rewrite V1. auto.
    - intros p g l Hp H. rewrite <- (OWN p g l Hp H), NP. assert (Hl : l < nv p) by (destruct (WF p Hp) as (_ & _ & W); rewrite Forall_forall in W; apply (W _ H)). destruct (AV p l Hp Hl) as (q & _ & E). rewrite E. auto.
  Qed.
  (** On each process, as many of its vertices go to the process of domain i as part has entries i. *)
  Theorem C69_balance mp p sp i : length mp = n -> NoDup mp -> domainMapping P nv ix have nparts metis p = Ok (map Some mp) -> p < P -> setPartition P nv ix have nparts metis p = Ok sp -> i < n ->
    length (filter (fun l => match nth l sp None with Some q => q =? nth i mp P | None => false end) (seq 0 (nv p))) = count_occ Nat.eq_dec (partOf P nv ix have nparts metis p) i.
  Proof.
    intros HL ND ED Hp ES Hi. destruct (setPartition_ok mp p HL ED Hp) as (sp' & R0 & R1 & R2 & R3). rewrite ES in R0. injection R0 as <-. fold part. destruct (part_ok p Hp) as [Q1 Q2].
    set (f := fun l => match nth l sp None with Some q => q =? nth i mp P | None => false end).
    transitivity (length (filter (fun e => f (e_l e)) (ownIx p))).
    - rewrite <- (map_length e_l (filter _ (ownIx p))). destruct (filled_wf p Hp) as (W1 & W2 & W3). apply Permutation_length, NoDup_Permutation; [apply NoDup_filter, seq_NoDup|apply NoDup_filter_map, NoDup_filter_map; auto|].
      intros l. rewrite filter_In, in_seq, in_map_iff. split.
      + intros [Hl Hf]. destruct (ownb (ix' p) l) eqn:EO.
        * apply (ownb_spec (nv p)) in EO; [|apply filled_wf; auto]. destruct EO as [g HG']. exists (mke g l Owner). split; auto. apply filter_In. split; auto. apply filter_In. auto.
        * exfalso. unfold f in Hf. rewrite R3 in Hf; [discriminate|]. intros g HG'. assert (ownb (ix' p) l = true) by (apply (ownb_spec (nv p)); [apply filled_wf; auto|eauto]). congruence.
      + intros (e & E & HI). apply filter_In in HI. destruct HI as [HI Hf]. subst l. split; auto. apply filter_In in HI. destruct HI as [HI _]. rewrite Forall_forall in W3. specialize (W3 e HI). lia.
    - assert (EL : length (ownIx p) = length (part p)) by (rewrite Q1; reflexivity).
      assert (KE : forall k e, nth_error (ownIx p) k = Some e -> f (e_l e) = (nth k (part p) 0 =? i)).
      { intros k e E. unfold f. rewrite (R2 k e E). assert (Hk : k < length (part p)) by (rewrite <- EL; apply nth_error_Some; congruence). assert (Hd : nth k (part p) 0 < n) by (rewrite Forall_forall in Q2; apply Q2, nth_In; auto).
        destruct (Nat.eqb_spec (nth k (part p) 0) i) as [EQ|EQ]; [rewrite EQ; apply Nat.eqb_refl|]. apply Nat.eqb_neq. intros EQ2. apply EQ. apply (NoDup_nth mp P); auto; lia. }
      clear Q1 Q2 R1 R2 R3 ES. revert EL KE. generalize (part p) as pt. generalize (ownIx p) as es. induction es as [|e es IH]; intros pt EL KE; destruct pt as [|d pt]; cbn [length] in EL; try lia; cbn [filter count_occ]; auto.
      rewrite (KE 0 e eq_refl). cbn [nth]. specialize (IH pt ltac:(lia) (fun k e' E => KE (S k) e' E)). destruct (Nat.eq_dec d i) as [E|E]; [subst d; rewrite Nat.eqb_refl; cbn [length]; lia|]. replace (d =? i) with false by (symmetry; apply Nat.eqb_neq; auto). auto.
  Qed.
  (** If the owned vertices of a process have the same order by local and by global index, then each vertex goes to the process of the domain the partitioner gave to its number. *)
  Theorem C69_partition_respected mp p sp num g l k : length mp = n -> domainMapping P nv ix have nparts metis p = Ok (map Some mp) -> p < P -> setPartition P nv ix have nparts metis p = Ok sp ->
    (forall g g' l l', holds ix' p g l Owner -> holds ix' p g' l' Owner -> g < g' -> l < l') ->
    numbers P nv ix' num -> holds ix' p g l Owner -> nth l (num p) None = Some (nth p (vtxDist P ix') 0 + k) ->
    k < length (partOf P nv ix have nparts metis p) /\ nth l sp None = Some (nth (nth k (partOf P nv ix have nparts metis p) 0) mp P).
  Proof.
    intros HL ED Hp ES HM' HNU HH EN. destruct (setPartition_ok mp p HL ED Hp) as (sp' & R0 & R1 & R2 & R3). rewrite ES in R0. injection R0 as <-. fold part. destruct (part_ok p Hp) as [Q1 Q2]. pose proof filled_wf as WF.
    assert (EQ : map e_l (ownIx p) = owned (ix' p) (nv p)).
    { apply SS_same; [|apply filter_SS, seq_SS|].
      - assert (SG : StronglySorted lt (map e_g (ownIx p))) by (apply SS_filter, WF; auto). assert (IO : incl (ownIx p) (ownIx p)) by (intros x; auto). revert SG IO. generalize (ownIx p) at 1 2 4. intros es SG IO. induction es as [|e es IH]; cbn [map] in *; [constructor|].
        apply StronglySorted_inv in SG. destruct SG as [S1 S2]. constructor; [apply IH; auto; intros x Hx; apply IO; right; auto|]. apply Forall_forall. intros x Hx. apply in_map_iff in Hx. destruct Hx as (e' & <- & Hx). rewrite Forall_forall in S2. specialize (S2 (e_g e') (in_map e_g _ _ Hx)).
        assert (I1 := IO e (or_introl eq_refl)). assert (I2 := IO e' (or_intror Hx)). apply filter_In in I1, I2. destruct e as [g1 l1 a1], e' as [g2 l2 a2]. cbn [e_g e_l e_a] in *. destruct I1 as [I1 J1], I2 as [I2 J2]. destruct a1, a2; try discriminate. apply (HM' g1 g2 l1 l2); auto.
      - intros x. rewrite (owned_in P nv ix' WF) by auto. rewrite in_map_iff. split.
        + intros (e & <- & HI). apply filter_In in HI. destruct e as [g1 l1 a1]. cbn [e_l e_a] in *. destruct HI as [HI HJ]. destruct a1; try discriminate. eauto.
        + intros [g1 H1]. exists (mke g1 x Owner). split; auto. apply filter_In. auto. }
    destruct (numbers_owner P nv ix' WF filled_complete filled_unique num HNU p g l Owner _ Hp HH EN) as (p' & l' & k' & N1 & N2 & N3 & N4 & N5 & N6). assert (p' = p) by (apply (filled_unique g p' p l' l); auto). subst p'. rewrite nth_vtx in N5 by lia. assert (k' = k) by lia. subst k'.
    destruct (holds_inj P nv ix' WF p g l Owner l' Owner Hp HH N2) as [<- _]. rewrite Q1. split; auto. rewrite <- EQ in N6. assert (HK : k < length (ownIx p)) by auto. destruct (nth_error (ownIx p) k) as [e|] eqn:EE; [|apply nth_error_None in EE; lia].
    assert (EL : e_l e = l). { rewrite <- N6. symmetry. apply nth_error_nth with (d := 0). rewrite nth_error_map, EE. auto. } rewrite <- EL. apply (R2 k e EE).
  Qed.
End Whole.

(** ** Deviations *)
(** A process has three vertices 0, 1, 2 of which only the last has an index.  ParMETIS numbers them 0, 1, 2 and gives them the domains 0, 1, 1; but vertex 0 goes to
    the process of domain 1 and vertex 2 to the one of domain 0. *)
Definition hv (p : nat) : nat := match p with 0 => 3 | _ => 0 end.
Definition hi (p : nat) : pis := match p with 0 => [mke 0 2 Owner] | _ => nil end.
Definition hm (p : nat) : list nat := match p with 0 => [0; 1; 1] | _ => nil end.
Example hi_filled : map (fillIndexSetHoles 2 hv hi) [0; 1] = [[mke 0 2 Owner; mke 1 0 Owner; mke 2 1 Owner]; nil].
Proof. reflexivity. Qed.
Example hi_numbers : indexMap hv (ixf 2 hv hi) 0 = Ok ([Some 0; Some 1; Some 2], [0; 1; 2]).
Proof. reflexivity. Qed.
Lemma hi_wf : dist_wf 2 hv hi /\ unique_owner 2 hi /\ (forall p g l a, p < 2 -> holds hi p g l a -> exists p' l', p' < 2 /\ holds hi p' g l' Owner).
Proof.
  split; [|split].
  - intros [|[|p]] Hp; [| |lia]; cbn; repeat split; repeat constructor; auto; cbn; auto; lia.
  - intros g p q l l' Hp Hq H1 H2. unfold holds in *. destruct p as [|[|p]], q as [|[|q]]; cbn in *; tauto || lia.
  - intros p g l a Hp H. unfold holds in *. destruct p as [|[|p]]; cbn in H; [|tauto|lia]. destruct H as [H|[]]. injection H as <- <- <-. exists 0, 2. split; [lia|]. cbn. auto.
Qed.
Theorem C69_partition_refuted : exists P nv ix nparts metis sp mp num l k, dist_wf P nv ix /\ unique_owner P ix /\ 1 <= nparts <= P /\
  (forall p, p < P -> length (metis p) = numOfOwnVtx (ixf P nv ix) p /\ Forall (fun d => d < nparts) (metis p)) /\
  domainMapping P nv ix true nparts metis 0 = Ok (map Some mp) /\ NoDup mp /\ setPartition P nv ix true nparts metis 0 = Ok sp /\
  numbers P nv (ixf P nv ix) num /\ nth l (num 0) None = Some (nth 0 (vtxDist P (ixf P nv ix)) 0 + k) /\ k < length (metis 0) /\ nth l sp None <> Some (nth (nth k (metis 0) 0) mp P).
Proof.
  destruct hi_wf as (W1 & W2 & _). set (d0 := fun p => match indexMap hv (ixf 2 hv hi) p with Ok r => fst r | _ => nil end).
  pose proof (proj1 (C69_holes 2 hv hi W1)) as WF. change (fillIndexSetHoles 2 hv hi) with (ixf 2 hv hi) in WF.
  assert (SZ : sized 2 hv d0) by (intros [|[|p]] Hp; [reflexivity|reflexivity|lia]).
  destruct (C31_safe None 2 hv (ixf 2 hv hi) WF None d0 SZ I (fun _ v => v) ownerSet allSet _ (reach_0 _ _ _ _ _ _ _)) as (_ & _ & d1 & HC).
  assert (HU' : unique_owner 2 (ixf 2 hv hi)) by (apply (proj1 (proj2 (proj2 (proj2 (proj2 (C69_holes 2 hv hi W1))))) W2)).
  destruct (C31_in_place None 2 hv (ixf 2 hv hi) WF d0 d1 HU' SZ HC) as (_ & _ & OWN & _).
  exists 2, hv, hi, 2, hm. exists [Some 1; Some 1; Some 0], [0; 1]. exists d1, 0, 0. split; auto. split; auto. split; [lia|]. split.
  { intros [|[|p]] Hp; [| |lia]; split; [reflexivity| |reflexivity|]; repeat constructor. }
  split; [reflexivity|]. split; [repeat constructor; cbn; lia|]. split; [reflexivity|]. split.
  { exists d0, (fun p => match p with 0 => [0; 1; 2] | _ => nil end). split; auto. intros [|[|p]] Hp; [reflexivity|reflexivity|lia]. }
  split; [rewrite (OWN 0 1 0); [reflexivity|lia|cbn; auto]|]. split; [cbn; lia|]. cbn. discriminate.
Qed.
(** A process that gets a domain of which it has no vertex is not told so: *myDomain stays -1. *)
Theorem C69_my_domain_refuted : exists npes nparts dom p i mp, nparts <= npes /\ (forall q, q < npes -> length (dom q) = nparts) /\ p < npes /\ getDomain npes nparts dom p = Ok (mp, None) /\ nth i mp None = Some p.
Proof. exists 2, 2, (fun q => match q with 0 => [1; 2] | _ => [0; 0] end), 1, 1, [Some 0; Some 1]. repeat split; auto. intros [|q] _; reflexivity. Qed.
(** a case with three processes: process 0 has most vertices of domain 0, process 2 of domain 1, and domain 2 is left for process 1 *)
Example domains_run : getDomain 3 3 (fun q => match q with 0 => [5; 7; 1] | 1 => [4; 0; 0] | _ => [0; 6; 9] end) 1 = Ok ([Some 0; Some 2; Some 1], None).
Proof. reflexivity. Qed.
