(** * Repartitioning: dune/istl/repartition.hh (buildCommunication and its helpers): C67 *)
From Coq Require Import Arith List Lia Bool Sorted Permutation.
From Verif Require Import Ring Sums Outcome Sparse Parallel ParComm.
Import ListNotations.
Open Scope nat_scope.

(** ** Model *)
(** std::set<GI>::insert and std::set<int>::insert *)
Fixpoint sins (j : nat) (l : list nat) : list nat :=
  match l with nil => [j] | k :: t => if j =? k then l else if j <? k then j :: l else k :: sins j t end.
(** GlobalLookupIndexSet::pair (dune-common): the index pair with a given local index *)
Definition pairOf (s : pis) (l : nat) : option entry := find (fun e => e_l e =? l) s.

(** getNeighbor, repartition.hh:549-564; [edges] are the targets of the edges of the vertex, a null pointer (assert) is undefined *)
Fixpoint getNeighbor (s : pis) (part : list nat) (toPe : nat) (edges ov nb : list nat) : outcome (list nat * list nat) :=
  match edges with
  | nil => Ok (ov, nb)
  | t :: es =>
      match pairOf s t with
      | None => UB
      | Some e => match nth_error part (e_l e) with
                  | None => UB
                  | Some q => if negb (q =? toPe) || negb (ownerSet (e_a e)) then getNeighbor s part toPe es (sins (e_g e) ov) (sins q nb) else getNeighbor s part toPe es ov nb
                  end
      end
  end.
(** getOwnerOverlapVec, repartition.hh:604-622; [l] is the part of the index set that is still to be visited *)
Fixpoint getVec (s : pis) (graph : list (list nat)) (part : list nat) (toPe : nat) (l : pis) (own ov nb : list nat) : outcome (list nat * list nat * list nat) :=
  match l with
  | nil => Ok (own, ov, nb)
  | e :: t =>
      if ownerSet (e_a e) then
        match nth_error part (e_l e) with
        | None => UB
        | Some q => if q =? toPe then
                      match nth_error graph (e_l e) with
                      | None => UB
                      | Some es => obind (getNeighbor s part toPe es ov nb) (fun r => getVec s graph part toPe t (own ++ [e_g e]) (fst r) (snd r))
                      end
                    else getVec s graph part toPe t own ov nb
        end
      else getVec s graph part toPe t own ov nb
  end.
(** RedistributeInterface::buildSendInterface, repartition.hh:266-282: the list for process q *)
Fixpoint sendInterface (part : list nat) (q : nat) (l : pis) : outcome (list nat) :=
  match l with
  | nil => Ok nil
  | e :: t => if ownerSet (e_a e) then match nth_error part (e_l e) with None => UB | Some r => obind (sendInterface part q t) (fun m => Ok (if r =? q then e_l e :: m else m)) end
              else sendInterface part q t
  end.
(** The processes a process sends to, repartition.hh:1498-1508.  -1 (None) and numbers of no process are handed to MPI_Issend (1628) and used as indices of newranks
    (1744): undefined *)
Fixpoint ranks (P : nat) (part : list (option nat)) : outcome (list nat) :=
  match part with
  | nil => Ok nil
  | None :: _ => UB
  | Some q :: t => if q <? P then obind (ranks P t) (fun l => Ok (q :: l)) else UB
  end.
Definition sendTo (part : list nat) : list nat := fold_left (fun s q => sins q s) part nil.
(** recvFrom, repartition.hh:1510-1537 *)
Definition recvFrom (P : nat) (parts : nat -> list nat) (q : nat) : list nat := filter (fun p => existsb (Nat.eqb q) (sendTo (parts p))) (seq 0 P).
(** a packed message: createSendBuf, repartition.hh:315-333: owners, overlap, neighbours *)
Definition msg := (list nat * list nat * list nat)%type.
(** saveRecvBuf, repartition.hh:343-374, for the messages in the order of their arrival (1639-1660) *)
Definition saveRecv (acc : list (nat * nat) * list nat * list nat) (m : nat * msg) : list (nat * nat) * list nat * list nat :=
  let '(own, ov, nb) := acc in let '(from, (mo, mv, mn)) := m in
  (own ++ map (fun g => (g, from)) mo, fold_left (fun s g => sins g s) mv ov, fold_left (fun s q => sins q s) mn nb).
(** std::sort with SortFirst (repartition.hh:478-485, 1762): operator< of std::pair *)
Definition plt (a b : nat * nat) : bool := (fst a <? fst b) || ((fst a =? fst b) && (snd a <? snd b)).
Fixpoint pins (x : nat * nat) (l : list (nat * nat)) : list (nat * nat) := match l with nil => [x] | y :: t => if plt y x then y :: pins x t else x :: l end.
Definition psort (l : list (nat * nat)) : list (nat * nat) := fold_right pins nil l.
(** mergeVec, repartition.hh:499-533 *)
Fixpoint advance (v : list (nat * nat)) (s : nat) : list (nat * nat) := match v with nil => nil | x :: t => if fst x <? s then advance t s else v end.
Fixpoint mergeVec (v : list (nat * nat)) (ov : list nat) : list nat :=
  match ov with
  | nil => nil
  | s :: t => let v' := advance v s in
              match v' with
              | nil => s :: mergeVec v' t
              | x :: _ => if fst x =? s then mergeVec v' t else s :: mergeVec v' t
              end
  end.
(** outputIndexSet.add for the owners (1766-1771) and the others (1802-1804) with increasing local numbers; endResize orders by global index *)
Fixpoint addAll (a : attr) (i : nat) (l : list nat) : pis := match l with nil => nil | g :: t => mke g i a :: addAll a (S i) t end.
Fixpoint eins (x : entry) (l : pis) : pis := match l with nil => [x] | y :: t => if e_g y <? e_g x then y :: eins x t else x :: l end.
Definition endResize (l : pis) : pis := fold_right eins nil l.
(** addReceiveIndex(proc, i), repartition.hh:288-291, 1770: the list for process p *)
Fixpoint receiveInterface (p i : nat) (v : list (nat * nat)) : list nat := match v with nil => nil | x :: t => if snd x =? p then i :: receiveInterface p (S i) t else receiveInterface p (S i) t end.

(** what a process has after buildCommunication: does it take part in the new communicator, its index set, the lists of the redistribute interface, the neighbours of
    the new remote indices in the ranks of the new communicator (None is -1) *)
Record built := mkb { b_active : bool; b_ix : pis; b_send : nat -> outcome (list nat); b_recv : nat -> list nat; b_nb : list (option nat) }.
Section Build.
  Variables (P : nat) (ix : nat -> pis) (graph : nat -> list (list nat)).
  (** the rank in the communicator of the processes with [recvFrom.size()>0] (MPI_Comm_split, repartition.hh:1710-1730) *)
  Definition newrank (parts : nat -> list nat) (p : nat) : option nat :=
    let active r := negb (length (recvFrom P parts r) =? 0) in if active p then Some (length (filter active (seq 0 p))) else None.
  Fixpoint omap {X Y} (f : X -> outcome Y) (l : list X) : outcome (list Y) :=
    match l with nil => Ok nil | x :: t => obind (f x) (fun y => obind (omap f t) (fun r => Ok (y :: r))) end.
  (** buildCommunication on process q, repartition.hh:1449-1866, where [parts] are the vectors setPartition of all processes and [order] is the order in which
      the messages for q arrive *)
  Definition build (parts : nat -> list nat) (order : list nat) (q : nat) : outcome built :=
    obind (omap (fun p => obind (getVec (ix p) (graph p) (parts p) q (ix p) nil nil nil) (fun m => Ok (p, m))) order) (fun ms =>
    let '(own, ov, nb) := fold_left saveRecv ms (nil, nil, nil) in
    let v := psort own in
    let ov' := mergeVec v ov in
    Ok (mkb (negb (length (recvFrom P parts q) =? 0)) (endResize (addAll Owner 0 (map fst v) ++ addAll Copy (length v) ov'))
          (fun r => sendInterface (parts q) r (ix q)) (fun p => receiveInterface p 0 v) (map (newrank parts) nb))).
  (** ... with -1 for indices nobody owns *)
  Definition buildCommunication (setp : nat -> list (option nat)) (order : list nat) (q : nat) : outcome built :=
    obind (omap (fun p => ranks P (setp p)) (seq 0 P)) (fun all => build (fun p => nth p all nil) order q).
End Build.

(** ** Specification: the wanted distribution *)
Section Spec.
  Variables (P : nat) (ix : nat -> pis) (graph : nat -> list (list nat)) (parts : nat -> list nat).
  (** the vertex with global index g goes to process q: its owner says so *)
  Definition goes (g q : nat) : Prop := exists p l, p < P /\ holds ix p g l Owner /\ nth l (parts p) P = q.
  (** there is an edge from g to h, in the graph of the owner of g *)
  Definition edge (g h : nat) : Prop := exists p l l' a, p < P /\ holds ix p g l Owner /\ holds ix p h l' a /\ In l' (nth l (graph p) nil).
  (** legal input: index sets for all local vertices, a graph on them, every index has one owner, and every process knows where the vertices go *)
  Record legal (sz : nat -> nat) : Prop := {
    lg_wf : dist_wf P sz ix;
    lg_all : forall p l, p < P -> l < sz p -> exists g a, holds ix p g l a;
    lg_graph : forall p, p < P -> length (graph p) = sz p /\ Forall (Forall (fun t => t < sz p)) (graph p);
    lg_parts : forall p, p < P -> length (parts p) = sz p /\ Forall (fun q => q < P) (parts p);
    lg_unique : unique_owner P ix;
    lg_owner : forall p g l a, p < P -> holds ix p g l a -> exists p' l', p' < P /\ holds ix p' g l' Owner;
    lg_cons : consistent P P ix parts
  }.
End Spec.

(** ** Sets and sorted lists *)
Lemma sins_in j l x : In x (sins j l) <-> x = j \/ In x l.
Proof. induction l as [|k t IH]; cbn [sins]; [cbn; intuition|]. destruct (Nat.eqb_spec j k) as [H|H]; [subst; cbn; intuition|]. destruct (j <? k); cbn [In]; [intuition|]. rewrite IH. intuition. Qed.
Lemma sins_sorted j l : StronglySorted lt l -> StronglySorted lt (sins j l).
Proof.
  induction l as [|k t IH]; intros H; cbn [sins]; [constructor; constructor|]. apply StronglySorted_inv in H as HH. destruct HH as [H1 H2]. destruct (Nat.eqb_spec j k) as [E|E]; auto.
  destruct (Nat.ltb_spec j k) as [L|L].
  - constructor; auto. rewrite Forall_forall in *. intros x [Hx|Hx]; [lia|]. specialize (H2 x Hx). lia.
  - constructor; auto. rewrite Forall_forall in *. intros x Hx. apply sins_in in Hx. destruct Hx as [Hx|Hx]; [lia|]. auto.
Qed.
Lemma fold_sins_in l : forall s x, In x (fold_left (fun s g => sins g s) l s) <-> In x l \/ In x s.
Proof. induction l as [|a t IH]; intros s x; cbn [fold_left In]; [intuition|]. rewrite IH, sins_in. intuition. Qed.
Lemma fold_sins_sorted l : forall s, StronglySorted lt s -> StronglySorted lt (fold_left (fun s g => sins g s) l s).
Proof. induction l as [|a t IH]; intros s H; cbn [fold_left]; auto. apply IH, sins_sorted, H. Qed.
Lemma pins_perm x l : Permutation (pins x l) (x :: l).
Proof. induction l as [|y t IH]; cbn [pins]; auto. destruct (plt y x); auto. rewrite IH. apply perm_swap. Qed.
Lemma psort_perm l : Permutation (psort l) l.
Proof. induction l as [|x t IH]; cbn [psort fold_right]; auto. change (fold_right pins nil t) with (psort t). rewrite pins_perm. constructor. exact IH. Qed.
Lemma pins_sorted x l : StronglySorted lt (map fst l) -> ~ In (fst x) (map fst l) -> StronglySorted lt (map fst (pins x l)).
Proof.
  induction l as [|y t IH]; cbn [pins map]; intros H N; [repeat constructor|]. apply StronglySorted_inv in H as HH. destruct HH as [H1 H2]. unfold plt. cbn [In] in N.
  destruct (Nat.ltb_spec (fst y) (fst x)) as [L|L]; cbn [orb].
  - cbn [map]. constructor; [apply IH; auto|]. rewrite Forall_forall in *. intros z Hz. apply in_map_iff in Hz. destruct Hz as [w [E Hw]]. apply (Permutation_in _ (pins_perm x t)) in Hw. destruct Hw as [Hw|Hw]; [subst; auto|]. apply H2. apply in_map_iff. eauto.
  - destruct (Nat.eqb_spec (fst y) (fst x)) as [E|E]; [tauto|]. cbn [andb map]. constructor; auto. rewrite Forall_forall in *. intros z [Hz|Hz]; [lia|]. specialize (H2 z Hz). lia.
Qed.
Lemma psort_sorted l : NoDup (map fst l) -> StronglySorted lt (map fst (psort l)).
Proof.
  induction l as [|x t IH]; cbn [psort fold_right map]; intros H; [constructor|]. inversion H as [|? ? H1 H2]. apply pins_sorted; auto. intros HI. apply H1. change (fold_right pins nil t) with (psort t) in HI.
  apply (Permutation_in _ (Permutation_map fst (psort_perm t))). exact HI.
Qed.
Lemma eins_perm x l : Permutation (eins x l) (x :: l).
Proof. induction l as [|y t IH]; cbn [eins]; auto. destruct (e_g y <? e_g x); auto. rewrite IH. apply perm_swap. Qed.
Lemma endResize_perm l : Permutation (endResize l) l.
Proof. induction l as [|x t IH]; cbn [endResize fold_right]; auto. change (fold_right eins nil t) with (endResize t). rewrite eins_perm. constructor. exact IH. Qed.
Lemma eins_sorted x l : StronglySorted lt (map e_g l) -> ~ In (e_g x) (map e_g l) -> StronglySorted lt (map e_g (eins x l)).
Proof.
  induction l as [|y t IH]; cbn [eins map]; intros H N; [repeat constructor|]. apply StronglySorted_inv in H as HH. destruct HH as [H1 H2]. cbn [In] in N.
  destruct (Nat.ltb_spec (e_g y) (e_g x)) as [L|L]; cbn [map].
  - constructor; [apply IH; auto|]. rewrite Forall_forall in *. intros z Hz. apply in_map_iff in Hz. destruct Hz as [w [E Hw]]. apply (Permutation_in _ (eins_perm x t)) in Hw. destruct Hw as [Hw|Hw]; [subst; auto|]. apply H2. apply in_map_iff. eauto.
  - constructor; auto. rewrite Forall_forall in *. intros z [Hz|Hz]; [assert (e_g y <> e_g x) by tauto; lia|]. specialize (H2 z Hz). assert (e_g y <> e_g x) by tauto. lia.
Qed.
Lemma endResize_sorted l : NoDup (map e_g l) -> StronglySorted lt (map e_g (endResize l)).
Proof.
  induction l as [|x t IH]; cbn [endResize fold_right map]; intros H; [constructor|]. inversion H as [|? ? H1 H2]. apply eins_sorted; auto. intros HI. apply H1. change (fold_right eins nil t) with (endResize t) in HI.
  apply (Permutation_in _ (Permutation_map e_g (endResize_perm t))). exact HI.
Qed.
Lemma SS_inj {X} (k : X -> nat) l : forall l2, StronglySorted lt (map k l) -> StronglySorted lt (map k l2) -> (forall x, In x l <-> In x l2) -> l = l2.
Proof.
  induction l as [|a t IH]; intros [|b t2] H1 H2 HE; auto.
  - exfalso. apply (HE b). left; auto.
  - exfalso. apply (HE a). left; auto.
  - cbn [map] in *. apply StronglySorted_inv in H1. destruct H1 as [P1 P2]. apply StronglySorted_inv in H2. destruct H2 as [Q1 Q2]. rewrite Forall_forall in P2, Q2.
    assert (E : a = b).
    { destruct (proj1 (HE a) (or_introl eq_refl)) as [E|E]; auto. destruct (proj2 (HE b) (or_introl eq_refl)) as [E'|E']; auto. specialize (P2 _ (in_map k _ _ E')). specialize (Q2 _ (in_map k _ _ E)). lia. }
    subst b. f_equal. apply IH; auto. intros x. split; intros HI.
    + destruct (proj1 (HE x) (or_intror HI)) as [E|]; auto. subst x. specialize (P2 _ (in_map k _ _ HI)). lia.
    + destruct (proj2 (HE x) (or_intror HI)) as [E|]; auto. subst x. specialize (Q2 _ (in_map k _ _ HI)). lia.
Qed.
(** mergeVec removes exactly the owners *)
Lemma advance_in v s : StronglySorted lt (map fst v) -> StronglySorted lt (map fst (advance v s)) /\ (forall g, s <= g -> In g (map fst (advance v s)) <-> In g (map fst v)) /\ (forall g, In g (map fst (advance v s)) -> s <= g).
Proof.
  induction v as [|x t IH]; intros H; cbn [advance]; [split; [auto|split; [tauto|intros g []]]|]. cbn [map] in H. apply StronglySorted_inv in H as HH. destruct HH as [H1 H2]. destruct (Nat.ltb_spec (fst x) s) as [L|L].
  - destruct (IH H1) as (I1 & I2 & I3). split; auto. split; auto. intros g Hg. rewrite I2 by auto. cbn [map In]. split; auto. intros [E|E]; auto. lia.
  - split; [exact H|]. split; [tauto|]. intros g [E|E]; [cbn in E; lia|]. rewrite Forall_forall in H2. specialize (H2 g E). lia.
Qed.
Lemma mergeVec_spec ov : forall v, StronglySorted lt (map fst v) -> StronglySorted lt ov -> mergeVec v ov = filter (fun g => negb (existsb (Nat.eqb g) (map fst v))) ov.
Proof.
  induction ov as [|s t IH]; intros v HV HS; auto. apply StronglySorted_inv in HS. destruct HS as [S1 S2]. rewrite Forall_forall in S2. destruct (advance_in v s HV) as (A1 & A2 & A3). cbn [mergeVec filter].
  assert (FE : filter (fun g => negb (existsb (Nat.eqb g) (map fst (advance v s)))) t = filter (fun g => negb (existsb (Nat.eqb g) (map fst v))) t).
  { apply filter_ext_in. intros g Hg. f_equal. specialize (S2 g Hg). apply eq_true_iff_eq. rewrite !existsb_exists. split; intros [x [H1 H2]]; apply Nat.eqb_eq in H2; subst x; exists g; (split; [|apply Nat.eqb_refl]); apply A2; auto; lia. }
  assert (HE : existsb (Nat.eqb s) (map fst v) = match advance v s with nil => false | x :: _ => fst x =? s end).
  { apply eq_true_iff_eq. rewrite existsb_exists. split.
    - intros [x [H1 H2]]. apply Nat.eqb_eq in H2. subst x. apply A2 in H1; auto. destruct (advance v s) as [|x r]; [destruct H1|]. cbn [map] in *. apply StronglySorted_inv in A1. destruct A1 as [B1 B2]. rewrite Forall_forall in B2. apply Nat.eqb_eq. destruct H1 as [H1|H1]; auto.
      specialize (B2 s H1). specialize (A3 (fst x) (or_introl eq_refl)). lia.
    - destruct (advance v s) as [|x r] eqn:EA; [discriminate|]. intros E. apply Nat.eqb_eq in E. exists s. split; [|apply Nat.eqb_refl]. apply A2; auto. cbn [map In]. auto. }
  rewrite HE. rewrite <- FE. destruct (advance v s) as [|x r] eqn:EA; cbn [negb].
  - rewrite IH by auto. reflexivity.
  - destruct (fst x =? s); cbn [negb]; rewrite IH by auto; reflexivity.
Qed.
Lemma addAll_in a l : forall i e, In e (addAll a i l) <-> exists k, k < length l /\ e = mke (nth k l 0) (i + k) a.
Proof.
  induction l as [|g t IH]; intros i e; cbn [addAll In length]; [split; [tauto|intros [k [H _]]; lia]|]. rewrite IH. split.
  - intros [H|[k [H1 H2]]]; [exists 0; split; [lia|]; cbn [nth]; rewrite Nat.add_0_r; auto|]. exists (S k). split; [lia|]. cbn [nth]. rewrite H2. f_equal. lia.
  - intros [[|k] [H1 H2]]; [left; cbn [nth] in H2; rewrite Nat.add_0_r in H2; auto|]. right. exists k. split; [lia|]. rewrite H2. cbn [nth]. f_equal. lia.
Qed.
Lemma addAll_g a l : forall i, map e_g (addAll a i l) = l.
Proof. induction l as [|g t IH]; intros i; cbn [addAll map e_g]; auto. now rewrite IH. Qed.
Lemma addAll_l a l : forall i, map e_l (addAll a i l) = seq i (length l).
Proof. induction l as [|g t IH]; intros i; cbn [addAll map e_l length seq]; auto. now rewrite IH. Qed.
Lemma addAll_a a l : forall i e, In e (addAll a i l) -> e_a e = a.
Proof. intros i e H. apply addAll_in in H. destruct H as [k [_ E]]. subst e. reflexivity. Qed.
Lemma pairOf_spec n s l e : pis_wf n s -> pairOf s l = Some e <-> In e s /\ e_l e = l.
Proof.
  intros (_ & HN & _). split.
  - intros H. apply find_some in H. destruct H as [H1 H2]. apply Nat.eqb_eq in H2. auto.
  - induction s as [|a t IH]; intros [HI HG]; [destruct HI|]. cbn [map] in HN. inversion HN as [|? ? H1 H2]. unfold pairOf. cbn [find]. destruct (Nat.eqb_spec (e_l a) l) as [E|E].
    + destruct HI as [HI|HI]; [congruence|]. exfalso. apply H1. rewrite E, <- HG. apply in_map; auto.
    + destruct HI as [HI|HI]; [congruence|]. apply IH; auto.
Qed.

(** ** Proofs *)
Section Proofs.
  Variables (P : nat) (ix : nat -> pis) (graph : nat -> list (list nat)) (parts : nat -> list nat) (sz : nat -> nat).
  Hypothesis LG : legal P ix graph parts sz.
  Lemma nth_error_parts p l : p < P -> l < sz p -> nth_error (parts p) l = Some (nth l (parts p) P) /\ nth l (parts p) P < P.
  Proof.
    intros Hp Hl. destruct (lg_parts _ _ _ _ _ LG p Hp) as [E F]. rewrite <- E in Hl. split; [apply nth_error_nth'; auto|]. rewrite Forall_forall in F. apply F. apply nth_In; auto.
  Qed.
  Lemma held_lt p g l a : p < P -> holds ix p g l a -> l < sz p.
  Proof. intros Hp H. destruct (lg_wf _ _ _ _ _ LG p Hp) as (_ & _ & F). rewrite Forall_forall in F. apply (F _ H). Qed.
  (** *** getNeighbor *)
  Definition outside (p toPe l' : nat) (a : attr) : Prop := nth l' (parts p) P <> toPe \/ a <> Owner.
  Lemma getNeighbor_spec p toPe edges : p < P -> Forall (fun t => t < sz p) edges -> forall ov nb, exists ov' nb', getNeighbor (ix p) (parts p) toPe edges ov nb = Ok (ov', nb') /\
    (StronglySorted lt ov -> StronglySorted lt ov') /\ (StronglySorted lt nb -> StronglySorted lt nb') /\
    (forall h, In h ov' <-> In h ov \/ exists l' a, In l' edges /\ holds ix p h l' a /\ outside p toPe l' a) /\
    (forall r, In r nb' <-> In r nb \/ exists h l' a, In l' edges /\ holds ix p h l' a /\ outside p toPe l' a /\ nth l' (parts p) P = r).
  Proof.
    intros Hp. pose proof (lg_wf _ _ _ _ _ LG p Hp) as WF. induction edges as [|t es IH]; intros HF ov nb; cbn [getNeighbor].
    - exists ov, nb. split; auto. split; auto. split; auto. split; intros; split; auto; intros [H|H]; auto; [destruct H as (? & ? & [] & _)|destruct H as (? & ? & ? & [] & _)].
    - apply Forall_cons_iff in HF; destruct HF as [F1 F2]. destruct (lg_all _ _ _ _ _ LG p t Hp F1) as (g & a & HH).
      rewrite (proj2 (pairOf_spec _ _ t (mke g t a) WF)) by (split; auto). cbn [e_l e_g e_a]. destruct (nth_error_parts p t Hp F1) as [E1 E2]. rewrite E1.
      assert (UN : forall h b, holds ix p h t b -> h = g /\ b = a).
      { intros h b H. pose proof (proj2 (pairOf_spec _ _ t (mke g t a) WF) (conj HH eq_refl)) as A1. pose proof (proj2 (pairOf_spec _ _ t (mke h t b) WF) (conj H eq_refl)) as A2. rewrite A1 in A2. injection A2 as <- <-. auto. }
      destruct (negb (nth t (parts p) P =? toPe) || negb (ownerSet a)) eqn:EC.
      + assert (OUT : outside p toPe t a). { unfold outside. apply orb_true_iff in EC. destruct EC as [EC|EC]; apply negb_true_iff in EC; [left; apply Nat.eqb_neq; auto|right; intros ->; discriminate]. }
        destruct (IH F2 (sins g ov) (sins (nth t (parts p) P) nb)) as (ov' & nb' & E & S1 & S2 & I1 & I2). exists ov', nb'. split; auto. split; [intros H; apply S1, sins_sorted, H|]. split; [intros H; apply S2, sins_sorted, H|]. split.
        * intros h. rewrite I1, sins_in. split.
          -- intros [[H|H]|(l' & b & H1 & H2 & H3)]; [right; exists t, a; subst; cbn; auto|auto|right; exists l', b; cbn; auto].
          -- intros [H|(l' & b & [H1|H1] & H2 & H3)]; [auto| |right; eauto 10]. subst l'. destruct (UN _ _ H2). auto.
        * intros r. rewrite I2, sins_in. split.
          -- intros [[H|H]|(h & l' & b & H1 & H2 & H3 & H4)]; [right; exists g, t, a; subst; cbn; auto|auto|right; exists h, l', b; cbn; auto].
          -- intros [H|(h & l' & b & [H1|H1] & H2 & H3 & H4)]; [auto| |right; eauto 10]. subst l'. auto.
      + assert (NOUT : ~ outside p toPe t a). { apply orb_false_iff in EC. destruct EC as [EC1 EC2]. apply negb_false_iff in EC1, EC2. apply Nat.eqb_eq in EC1. intros [H|H]; auto. apply H. destruct a; auto; discriminate. }
        destruct (IH F2 ov nb) as (ov' & nb' & E & S1 & S2 & I1 & I2). exists ov', nb'. split; auto. split; auto. split; auto. split.
        * intros h. rewrite I1. split; (intros [H|(l' & b & H1 & H2 & H3)]; [auto|right]); [exists l', b; cbn; auto|]. destruct H1 as [H1|H1]; [|eauto 10]. subst l'. destruct (UN _ _ H2). subst. tauto.
        * intros r. rewrite I2. split; (intros [H|(h & l' & b & H1 & H2 & H3 & H4)]; [auto|right]); [exists h, l', b; cbn; auto|]. destruct H1 as [H1|H1]; [|eauto 10]. subst l'. destruct (UN _ _ H2). subst. tauto.
  Qed.
  (** *** getOwnerOverlapVec *)
  Definition mine (p toPe : nat) (e : entry) : bool := ownerSet (e_a e) && (nth (e_l e) (parts p) P =? toPe).
  Lemma getVec_spec p toPe l : p < P -> incl l (ix p) -> forall own ov nb, exists ov' nb', getVec (ix p) (graph p) (parts p) toPe l own ov nb = Ok (own ++ map e_g (filter (mine p toPe) l), ov', nb') /\
    (StronglySorted lt ov -> StronglySorted lt ov') /\ (StronglySorted lt nb -> StronglySorted lt nb') /\
    (forall h, In h ov' <-> In h ov \/ exists e l' a, In e l /\ mine p toPe e = true /\ In l' (nth (e_l e) (graph p) nil) /\ holds ix p h l' a /\ outside p toPe l' a) /\
    (forall r, In r nb' <-> In r nb \/ exists e h l' a, In e l /\ mine p toPe e = true /\ In l' (nth (e_l e) (graph p) nil) /\ holds ix p h l' a /\ outside p toPe l' a /\ nth l' (parts p) P = r).
  Proof.
    intros Hp. induction l as [|e t IH]; intros HI own ov nb; cbn [getVec].
    - exists ov, nb. cbn [filter map]. rewrite app_nil_r. split; auto. split; auto. split; auto. split; intros; split; auto; intros [H|H]; auto; [destruct H as (? & ? & ? & [] & _)|destruct H as (? & ? & ? & ? & [] & _)].
    - assert (HIt : incl t (ix p)) by (intros x Hx; apply HI; right; auto). assert (HL : e_l e < sz p). { destruct e as [g l a]. apply (held_lt p g l a Hp). apply HI. left; auto. }
      assert (SKIP : mine p toPe e = false -> exists ov' nb', getVec (ix p) (graph p) (parts p) toPe t own ov nb = Ok (own ++ map e_g (filter (mine p toPe) (e :: t)), ov', nb') /\
        (StronglySorted lt ov -> StronglySorted lt ov') /\ (StronglySorted lt nb -> StronglySorted lt nb') /\
        (forall h, In h ov' <-> In h ov \/ exists e0 l' a, In e0 (e :: t) /\ mine p toPe e0 = true /\ In l' (nth (e_l e0) (graph p) nil) /\ holds ix p h l' a /\ outside p toPe l' a) /\
        (forall r, In r nb' <-> In r nb \/ exists e0 h l' a, In e0 (e :: t) /\ mine p toPe e0 = true /\ In l' (nth (e_l e0) (graph p) nil) /\ holds ix p h l' a /\ outside p toPe l' a /\ nth l' (parts p) P = r)).
      { intros EM. destruct (IH HIt own ov nb) as (ov' & nb' & E & S1 & S2 & I1 & I2). exists ov', nb'. cbn [filter]. rewrite EM. split; auto. split; auto. split; auto. split.
        - intros h. rewrite I1. split; (intros [H|(e0 & l' & a & H1 & H2 & H3)]; [auto|right]); [exists e0, l', a; cbn [In]; tauto|]. destruct H1 as [H1|H1]; [subst; congruence|eauto 10].
        - intros r. rewrite I2. split; (intros [H|(e0 & h & l' & a & H1 & H2 & H3)]; [auto|right]); [exists e0, h, l', a; cbn [In]; tauto|]. destruct H1 as [H1|H1]; [subst; congruence|eauto 10]. }
      destruct (nth_error_parts p (e_l e) Hp HL) as [E1 E2]. unfold mine in SKIP at 1. destruct (ownerSet (e_a e)) eqn:EO; [|apply SKIP; auto]. rewrite E1.
      destruct (nth (e_l e) (parts p) P =? toPe) eqn:EQ; [|apply SKIP; auto]. clear SKIP. assert (EM : mine p toPe e = true) by (unfold mine; rewrite EO, EQ; auto).
      destruct (lg_graph _ _ _ _ _ LG p Hp) as [G1 G2]. assert (HG : e_l e < length (graph p)) by lia. rewrite (nth_error_nth' (graph p) nil HG).
      assert (FE : Forall (fun t => t < sz p) (nth (e_l e) (graph p) nil)) by (rewrite Forall_forall in G2; apply G2; apply nth_In; auto).
      destruct (getNeighbor_spec p toPe _ Hp FE ov nb) as (ov1 & nb1 & E & S1 & S2 & I1 & I2). rewrite E. cbn [obind fst snd].
      destruct (IH HIt (own ++ [e_g e]) ov1 nb1) as (ov' & nb' & E' & S1' & S2' & I1' & I2'). exists ov', nb'. cbn [filter]. rewrite EM. cbn [map]. split; [rewrite E', <- app_assoc; reflexivity|]. split; [auto|]. split; [auto|]. split.
      + intros h. rewrite I1', I1. split.
        * intros [[H|(l' & a & H1 & H2 & H3)]|(e0 & l' & a & H1 & H2)]; [auto| |]; right; [exists e, l', a; cbn [In]; auto 10|exists e0, l', a; cbn [In]; auto].
        * intros [H|(e0 & l' & a & [H1|H1] & H2 & H3 & H4 & H5)]; [auto|subst e0; left; right; eauto|right; eauto 10].
      + intros r. rewrite I2', I2. split.
        * intros [[H|(h & l' & a & H1 & H2 & H3)]|(e0 & h & l' & a & H1 & H2)]; [auto| |]; right; [exists e, h, l', a; cbn [In]; auto 10|exists e0, h, l', a; cbn [In]; auto].
        * intros [H|(e0 & h & l' & a & [H1|H1] & H2 & H3 & H4 & H5)]; [auto|subst e0; left; right; eauto 10|right; eauto 10].
  Qed.
  (** *** all messages *)
  Lemma sendTo_in (l : list nat) x : In x (sendTo l) <-> In x l.
  Proof. unfold sendTo. rewrite fold_sins_in. cbn [In]. tauto. Qed.
  Lemma recvFrom_in q p : In p (recvFrom P parts q) <-> p < P /\ In q (parts p).
  Proof.
    unfold recvFrom. rewrite filter_In, in_seq, existsb_exists. split.
    - intros [H1 [x [H2 H3]]]. apply Nat.eqb_eq in H3. subst x. rewrite sendTo_in in H2. split; [lia|auto].
    - intros [H1 H2]. split; [lia|]. exists q. split; [rewrite sendTo_in; auto|apply Nat.eqb_refl].
  Qed.
  Lemma mine_held p q e : mine p q e = true -> In e (ix p) -> holds ix p (e_g e) (e_l e) Owner /\ nth (e_l e) (parts p) P = q.
  Proof. unfold mine. rewrite andb_true_iff, Nat.eqb_eq. intros [H1 H2] H. split; auto. destruct e as [g l a]. cbn in *. destruct a; try discriminate. exact H. Qed.
  Definition ownMsg (q p : nat) : list (nat * nat) := map (fun e => (e_g e, p)) (filter (mine p q) (ix p)).
  Lemma ownMsg_in q p g p' : In (g, p') (ownMsg q p) <-> p' = p /\ exists l, holds ix p g l Owner /\ nth l (parts p) P = q.
  Proof.
    unfold ownMsg. rewrite in_map_iff. split.
    - intros [e [E H]]. injection E as E1 E2. apply filter_In in H. destruct H as [H1 H2]. apply mine_held in H2; auto. subst. split; auto. exists (e_l e). auto.
    - intros [-> [l [H1 H2]]]. exists (mke g l Owner). split; auto. apply filter_In. split; auto. unfold mine. cbn. apply Nat.eqb_eq; auto.
  Qed.
  Definition spots (q p : nat) (h r : nat) : Prop := exists g l l' a, holds ix p g l Owner /\ nth l (parts p) P = q /\ In l' (nth l (graph p) nil) /\ holds ix p h l' a /\ outside p q l' a /\ nth l' (parts p) P = r.
  Lemma all_messages q order : Forall (fun p => p < P) order -> exists ms,
    omap (fun p => obind (getVec (ix p) (graph p) (parts p) q (ix p) nil nil nil) (fun m => Ok (p, m))) order = Ok ms /\
    forall own ov nb, exists ov' nb', fold_left saveRecv ms (own, ov, nb) = (own ++ flat_map (ownMsg q) order, ov', nb') /\
      (StronglySorted lt ov -> StronglySorted lt ov') /\ (StronglySorted lt nb -> StronglySorted lt nb') /\
      (forall h, In h ov' <-> In h ov \/ exists p r, In p order /\ spots q p h r) /\ (forall r, In r nb' <-> In r nb \/ exists p h, In p order /\ spots q p h r).
  Proof.
    induction order as [|p t IH]; intros HF; cbn [omap].
    - exists nil. split; auto. intros own ov nb. exists ov, nb. cbn [fold_left flat_map]. rewrite app_nil_r. split; auto. split; auto. split; auto. split; intros; (split; [auto|intros [H|H]; auto; destruct H as (? & ? & [] & _)]).
    - apply Forall_cons_iff in HF. destruct HF as [F1 F2]. destruct (IH F2) as (ms & E & HM). destruct (getVec_spec p q (ix p) F1 (fun x h => h) nil nil nil) as (mv & mn & EG & S1 & S2 & I1 & I2). rewrite EG. cbn [obind app]. rewrite E. cbn [obind]. eexists. split; [reflexivity|].
      intros own ov nb. cbn [fold_left saveRecv]. destruct (HM (own ++ map (fun g => (g, p)) (map e_g (filter (mine p q) (ix p)))) (fold_left (fun s g => sins g s) mv ov) (fold_left (fun s q0 => sins q0 s) mn nb)) as (ov' & nb' & EF & T1 & T2 & J1 & J2).
      exists ov', nb'. split; [rewrite EF, <- app_assoc; cbn [flat_map]; unfold ownMsg at 2; rewrite map_map; reflexivity|]. split; [intros H; apply T1, fold_sins_sorted, H|]. split; [intros H; apply T2, fold_sins_sorted, H|].
      assert (SP : forall h r, spots q p h r <-> exists e l' a, In e (ix p) /\ mine p q e = true /\ In l' (nth (e_l e) (graph p) nil) /\ holds ix p h l' a /\ outside p q l' a /\ nth l' (parts p) P = r).
      { intros h r. split.
        - intros (g & l & l' & a & H1 & H2 & H3 & H4 & H5 & H6). exists (mke g l Owner), l', a. cbn [e_l]. repeat split; auto. unfold mine. cbn. apply Nat.eqb_eq; auto.
        - intros (e & l' & a & H1 & H2 & H3 & H4 & H5 & H6). apply mine_held in H2; auto. destruct H2 as [H2 H7]. exists (e_g e), (e_l e), l', a. auto 10. }
      split.
      + intros h. rewrite J1, fold_sins_in, I1. split.
        * intros [[[[]|H]|H]|(p' & r & H1 & H2)]; auto.
          -- destruct H as (e & l' & a & H1 & H2 & H3 & H4 & H5). right. exists p, (nth l' (parts p) P). split; [left; auto|]. apply SP. exists e, l', a. auto 10.
          -- right. exists p', r. split; auto. right; auto.
        * intros [H|(p' & r & [H1|H1] & H2)]; auto.
          -- subst p'. apply SP in H2. destruct H2 as (e & l' & a & H1 & H2 & H3 & H4 & H5 & H6). left. left. right. exists e, l', a. auto 10.
          -- right. eauto.
      + intros r. rewrite J2, fold_sins_in, I2. split.
        * intros [[[[]|H]|H]|(p' & h & H1 & H2)]; auto.
          -- destruct H as (e & h & l' & a & H1 & H2 & H3 & H4 & H5 & H6). right. exists p, h. split; [left; auto|]. apply SP. exists e, l', a. auto 10.
          -- right. exists p', h. split; auto. right; auto.
        * intros [H|(p' & h & [H1|H1] & H2)]; auto.
          -- subst p'. apply SP in H2. destruct H2 as (e & l' & a & H1 & H2 & H3 & H4 & H5 & H6). left. left. right. exists e, h, l', a. auto 10.
          -- right. eauto.
  Qed.
  Lemma NoDup_app_ {X} (l1 l2 : list X) : NoDup l1 -> NoDup l2 -> (forall x, In x l1 -> ~ In x l2) -> NoDup (l1 ++ l2).
  Proof.
    induction l1 as [|a t IH]; intros H1 H2 H; auto. inversion H1 as [|? ? A1 A2]; subst. cbn. constructor; [|apply IH; auto; intros x Hx; apply H; right; auto].
    intros HI. apply in_app_or in HI. destruct HI as [HI|HI]; [auto|]. apply (H a); auto. left; auto.
  Qed.
  Lemma SS_NoDup (l : list nat) : StronglySorted lt l -> NoDup l.
  Proof. induction 1 as [|a t H1 IH H2]; constructor; auto. intros HI. rewrite Forall_forall in H2. specialize (H2 a HI). lia. Qed.
  Lemma owners_nodup q order : Forall (fun p => p < P) order -> NoDup order -> NoDup (map fst (flat_map (ownMsg q) order)).
  Proof.
    induction order as [|p t IH]; intros HF HN; cbn [flat_map map]; [constructor|]. apply Forall_cons_iff in HF. destruct HF as [F1 F2]. inversion HN as [|? ? N1 N2]; subst. rewrite map_app. apply NoDup_app_; auto.
    - unfold ownMsg. rewrite map_map. cbn [fst]. apply SS_NoDup. apply SS_filter. apply (lg_wf _ _ _ _ _ LG p F1).
    - intros g H1 H2. apply in_map_iff in H1, H2. destruct H1 as [[g1 p1] [E1 H1]], H2 as [[g2 p2] [E2 H2]]. cbn [fst] in *. subst g1 g2. apply ownMsg_in in H1. destruct H1 as [-> [l1 [H1 _]]].
      apply in_flat_map in H2. destruct H2 as [p' [H2 H3]]. apply ownMsg_in in H3. destruct H3 as [-> [l2 [H3 _]]]. apply N1. rewrite Forall_forall in F2. replace p with p'; auto. apply (lg_unique _ _ _ _ _ LG g p' p l2 l1); auto.
  Qed.
  (** what process q ends up with *)
  Definition ownersOf (q : nat) (v : list (nat * nat)) : Prop := StronglySorted lt (map fst v) /\ forall g p, In (g, p) v <-> p < P /\ exists l, holds ix p g l Owner /\ nth l (parts p) P = q.
  Definition copiesOf (q : nat) (c : list nat) : Prop := StronglySorted lt c /\ forall h, In h c <-> ~ goes P ix parts h q /\ exists g, goes P ix parts g q /\ edge P ix graph g h.
  Definition procsOf (q : nat) (nb : list nat) : Prop := StronglySorted lt nb /\ forall r, In r nb <-> exists p h, p < P /\ spots q p h r.
  Lemma goes_owner q v g : ownersOf q v -> In g (map fst v) <-> goes P ix parts g q.
  Proof.
    intros [_ H]. rewrite in_map_iff. split.
    - intros [[g' p] [E HI]]. cbn [fst] in E. subst g'. apply H in HI. destruct HI as [H1 [l [H2 H3]]]. exists p, l. auto.
    - intros (p & l & H1 & H2 & H3). exists (g, p). split; auto. apply H. split; auto. exists l. auto.
  Qed.
  Lemma spots_copy q p h r : p < P -> spots q p h r -> exists g, goes P ix parts g q /\ edge P ix graph g h.
  Proof. intros Hp (g & l & l' & a & H1 & H2 & H3 & H4 & H5 & H6). exists g. split; [exists p, l; auto|exists p, l, l', a; auto]. Qed.
  Lemma holds_unique p g l a l2 a2 : p < P -> holds ix p g l a -> holds ix p g l2 a2 -> l = l2 /\ a = a2.
  Proof. intros Hp. apply (holds_inj P sz ix (lg_wf _ _ _ _ _ LG)). exact Hp. Qed.
  Lemma goes_spot q h g : ~ goes P ix parts h q -> goes P ix parts g q -> edge P ix graph g h -> exists p r, p < P /\ spots q p h r.
  Proof.
    intros NG (p & l & Hp & H1 & H2) (p2 & l2 & l' & a & Hp2 & H3 & H4 & H5). assert (p2 = p) by (apply (lg_unique _ _ _ _ _ LG g p2 p l2 l); auto). subst p2. destruct (holds_unique p g l Owner l2 Owner) as [<- _]; auto.
    exists p, (nth l' (parts p) P). split; auto. exists g, l, l', a. repeat split; auto. unfold outside. destruct (Nat.eq_dec (nth l' (parts p) P) q) as [E|E]; auto. right. intros ->. apply NG. exists p, l'. auto.
  Qed.
  Lemma goes_part p h l a r : p < P -> holds ix p h l a -> nth l (parts p) P = r <-> goes P ix parts h r.
  Proof.
    intros Hp H. destruct (lg_owner _ _ _ _ _ LG p h l a Hp H) as (p' & l' & Hp' & H'). pose proof (lg_cons _ _ _ _ _ LG p' p h l l' a Hp' Hp H' H) as E. split.
    - intros E2. exists p', l'. repeat split; auto. congruence.
    - intros (p2 & l2 & Hp2 & H2 & H3). assert (p2 = p') by (apply (lg_unique _ _ _ _ _ LG h p2 p' l2 l'); auto). subst p2. destruct (holds_unique p' h l' Owner l2 Owner) as [<- _]; auto. congruence.
  Qed.
  Lemma build_spec q order : q < P -> Permutation order (recvFrom P parts q) -> exists v c nb, ownersOf q v /\ copiesOf q c /\ procsOf q nb /\
    build P ix graph parts order q = Ok (mkb (negb (length (recvFrom P parts q) =? 0)) (endResize (addAll Owner 0 (map fst v) ++ addAll Copy (length v) c)) (fun r => sendInterface (parts q) r (ix q)) (fun p => receiveInterface p 0 v) (map (newrank P parts) nb)).
  Proof.
    intros Hq HP. assert (HF : Forall (fun p => p < P) order). { apply Forall_forall. intros p Hp. apply (Permutation_in _ HP) in Hp. apply recvFrom_in in Hp. tauto. }
    assert (HN : NoDup order). { apply (Permutation_NoDup (Permutation_sym HP)). apply NoDup_filter, seq_NoDup. }
    assert (HIN : forall p l g, p < P -> holds ix p g l Owner -> nth l (parts p) P = q -> In p order).
    { intros p l g Hp H E. apply (Permutation_in _ (Permutation_sym HP)). apply recvFrom_in. split; auto. rewrite <- E. apply nth_In. destruct (lg_parts _ _ _ _ _ LG p Hp) as [EL _]. rewrite EL. apply (held_lt p g l Owner); auto. }
    destruct (all_messages q order HF) as (ms & E & HM). destruct (HM nil nil nil) as (ov & nb & EF & S1 & S2 & I1 & I2). cbn [app] in EF.
    assert (OW : ownersOf q (psort (flat_map (ownMsg q) order))).
    { split; [apply psort_sorted, owners_nodup; auto|]. intros g p. transitivity (In (g, p) (flat_map (ownMsg q) order)); [split; apply Permutation_in; [|apply Permutation_sym]; apply psort_perm|]. rewrite in_flat_map. split.
      - intros [p' [H1 H2]]. apply ownMsg_in in H2. destruct H2 as [-> H2]. rewrite Forall_forall in HF. auto.
      - intros [H1 [l [H2 H3]]]. exists p. split; [eapply HIN; eauto|]. apply ownMsg_in. eauto. }
    exists (psort (flat_map (ownMsg q) order)), (mergeVec (psort (flat_map (ownMsg q) order)) ov), nb. split; auto. split; [|split].
    - assert (SO : StronglySorted lt ov) by (apply S1; constructor). rewrite (mergeVec_spec ov _ (proj1 OW) SO). split.
      + clear - SO. induction ov as [|a t IH]; cbn [filter]; auto. apply StronglySorted_inv in SO. destruct SO as [A1 A2]. match goal with |- context [if ?c then _ else _] => destruct c end; auto. constructor; auto. rewrite Forall_forall in *. intros x Hx. apply A2. apply filter_In in Hx. tauto.
      + intros h. rewrite filter_In, I1. assert (EX : negb (existsb (Nat.eqb h) (map fst (psort (flat_map (ownMsg q) order)))) = true <-> ~ goes P ix parts h q).
        { rewrite <- (goes_owner q _ h OW). rewrite negb_true_iff. split.
          - intros H HI. assert (existsb (Nat.eqb h) (map fst (psort (flat_map (ownMsg q) order))) = true) by (apply existsb_exists; exists h; split; auto; apply Nat.eqb_refl). congruence.
          - intros H. apply not_true_is_false. intros HE. apply existsb_exists in HE. destruct HE as [x [H1 H2]]. apply Nat.eqb_eq in H2. subst x. auto. }
        rewrite EX. split.
        * intros [[[]|(p & r & H1 & H2)] H3]. split; auto. apply (spots_copy q p h r); auto. rewrite Forall_forall in HF. auto.
        * intros [H1 [g [H2 H3]]]. split; auto. right. destruct (goes_spot q h g H1 H2 H3) as (p & r & Hp & H4). exists p, r. split; auto. destruct H4 as (g' & l & l' & a & A1 & A2 & A3). eapply HIN; eauto.
    - split; [apply S2; constructor|]. intros r. rewrite I2. split.
      + intros [[]|(p & h & H1 & H2)]. exists p, h. split; auto. rewrite Forall_forall in HF. auto.
      + intros (p & h & H1 & H2). right. exists p, h. split; auto. destruct H2 as (g' & l & l' & a & A1 & A2 & A3). eapply HIN; eauto.
    - unfold build. rewrite E. cbn [obind]. rewrite EF. reflexivity.
  Qed.
End Proofs.

(** ** Theorems *)
(** the messages of all processes that hold a vertex going to q arrive, each once, in the given order *)
Definition arrives (P : nat) (parts : nat -> list nat) (q : nat) (order : list nat) : Prop := NoDup order /\ forall p, In p order <-> p < P /\ In q (parts p).
Definition setp_of (parts : nat -> list nat) (p : nat) : list (option nat) := map Some (parts p).

Lemma omap_ext {X Y} (f g : X -> outcome Y) l : (forall x, In x l -> f x = g x) -> omap f l = omap g l.
Proof. induction l as [|a t IH]; intros H; cbn [omap]; auto. rewrite (H a) by (left; auto). rewrite IH by (intros; apply H; right; auto). reflexivity. Qed.
Lemma ranks_ok P l : Forall (fun q => q < P) l -> ranks P (map Some l) = Ok l.
Proof. induction 1 as [|q t H1 H2 IH]; auto. cbn [map ranks]. apply Nat.ltb_lt in H1. rewrite H1, IH. reflexivity. Qed.
Lemma omap_ok {X Y} (f : X -> outcome Y) (g : X -> Y) l : (forall x, In x l -> f x = Ok (g x)) -> omap f l = Ok (map g l).
Proof. induction l as [|a t IH]; intros H; cbn [omap map]; auto. rewrite (H a) by (left; auto). cbn [obind]. rewrite IH by (intros; apply H; right; auto). reflexivity. Qed.
Lemma receiveInterface_spec p v : forall i, receiveInterface p i v = map snd (filter (fun x => snd (fst x) =? p) (combine v (seq i (length v)))).
Proof. induction v as [|x t IH]; intros i; cbn [receiveInterface length seq combine filter map]; auto. cbn [fst]. destruct (snd x =? p); cbn [map snd]; rewrite IH; reflexivity. Qed.

Section Theorems.
  Variables (P : nat) (ix : nat -> pis) (graph : nat -> list (list nat)) (parts : nat -> list nat) (sz : nat -> nat).
  Hypothesis LG : legal P ix graph parts sz.
  Lemma build_ext parts' order q : (forall p, p < P -> parts' p = parts p) -> Forall (fun p => p < P) order -> q < P -> build P ix graph parts' order q = build P ix graph parts order q.
  Proof.
    intros HE HF Hq. unfold build. rewrite (omap_ext _ (fun p => obind (getVec (ix p) (graph p) (parts p) q (ix p) nil nil nil) (fun m => Ok (p, m)))).
    2:{ intros p Hp. rewrite Forall_forall in HF. rewrite HE by auto. reflexivity. }
    destruct (omap _ order) as [ms| |]; auto. cbn [obind]. destruct (fold_left saveRecv ms (nil, nil, nil)) as [[own ov] nb]. rewrite HE by auto.
    assert (RE : forall r, recvFrom P parts' r = recvFrom P parts r). { intros r. unfold recvFrom. apply filter_ext_in. intros p Hp. apply in_seq in Hp. rewrite HE by lia. reflexivity. }
    rewrite RE. f_equal. f_equal. apply map_ext. intros r. unfold newrank. rewrite RE. match goal with |- (if ?c then _ else _) = _ => destruct c end; auto. f_equal. f_equal. apply filter_ext. intros x. rewrite RE. reflexivity.
  Qed.
  Lemma all_ranks : omap (fun p => ranks P (setp_of parts p)) (seq 0 P) = Ok (map parts (seq 0 P)).
  Proof. apply omap_ok. intros p Hp. apply in_seq in Hp. apply ranks_ok. apply (lg_parts _ _ _ _ _ LG p). lia. Qed.
  Lemma arrives_perm q order : arrives P parts q order -> Permutation order (recvFrom P parts q).
  Proof. intros [H1 H2]. apply NoDup_Permutation; auto; [apply NoDup_filter, seq_NoDup|]. intros p. rewrite H2. symmetry. apply recvFrom_in. Qed.
  Lemma buildCommunication_eq order q : q < P -> arrives P parts q order -> buildCommunication P ix graph (setp_of parts) order q = build P ix graph parts order q.
  Proof.
    intros Hq HA. unfold buildCommunication. rewrite all_ranks. cbn [obind]. apply build_ext; auto.
    - intros p Hp. rewrite (nth_indep _ nil (parts 0)) by (rewrite map_length, seq_length; auto). rewrite (map_nth parts). rewrite seq_nth by auto. reflexivity.
    - apply Forall_forall. intros p Hp. apply HA in Hp. tauto.
  Qed.
  (** the one result of process q *)
  Lemma result q : q < P -> exists v c nb, ownersOf P ix parts q v /\ copiesOf P ix graph parts q c /\ procsOf P ix graph parts q nb /\
    forall order, arrives P parts q order -> buildCommunication P ix graph (setp_of parts) order q =
      Ok (mkb (negb (length (recvFrom P parts q) =? 0)) (endResize (addAll Owner 0 (map fst v) ++ addAll Copy (length v) c)) (fun r => sendInterface (parts q) r (ix q)) (fun p => receiveInterface p 0 v) (map (newrank P parts) nb)).
  Proof.
    intros Hq. destruct (build_spec P ix graph parts sz LG q (recvFrom P parts q) Hq (Permutation_refl _)) as (v & c & nb & O1 & C1 & N1 & _). exists v, c, nb. split; auto. split; auto. split; auto.
    intros order HA. rewrite buildCommunication_eq by auto. destruct (build_spec P ix graph parts sz LG q order Hq (arrives_perm q order HA)) as (v' & c' & nb' & O2 & C2 & N2 & E). rewrite E.
    assert (Ev : v' = v). { apply (SS_inj fst); [apply O2|apply O1|]. intros [g p]. destruct O1 as [_ O1], O2 as [_ O2]. rewrite O1, O2. tauto. }
    assert (Ec : c' = c). { apply SS_same; [apply C2|apply C1|]. intros h. destruct C1 as [_ C1], C2 as [_ C2]. rewrite C1, C2. tauto. }
    assert (En : nb' = nb). { apply SS_same; [apply N2|apply N1|]. intros h. destruct N1 as [_ N1], N2 as [_ N2]. rewrite N1, N2. tauto. }
    rewrite Ev, Ec, En. reflexivity.
  Qed.
  (** the new index set of process q: [v] its owners, [c] the others *)
  Definition newix (v : list (nat * nat)) (c : list nat) : pis := endResize (addAll Owner 0 (map fst v) ++ addAll Copy (length v) c).
  Lemma newix_owner v c g l : In (mke g l Owner) (newix v c) <-> l < length v /\ nth l (map fst v) 0 = g.
  Proof.
    unfold newix. transitivity (In (mke g l Owner) (addAll Owner 0 (map fst v) ++ addAll Copy (length v) c)); [split; apply Permutation_in; [|apply Permutation_sym]; apply endResize_perm|].
    rewrite in_app_iff, !addAll_in. split.
    - intros [(k & H1 & H2)|(k & H1 & H2)]; [|discriminate]. injection H2 as H2 H3. rewrite map_length in H1. cbn in H3. subst. auto.
    - intros [H1 H2]. left. exists l. rewrite map_length. split; auto. rewrite H2. reflexivity.
  Qed.
  Lemma newix_copy v c g l : In (mke g l Copy) (newix v c) <-> exists k, k < length c /\ nth k c 0 = g /\ l = length v + k.
  Proof.
    unfold newix. transitivity (In (mke g l Copy) (addAll Owner 0 (map fst v) ++ addAll Copy (length v) c)); [split; apply Permutation_in; [|apply Permutation_sym]; apply endResize_perm|].
    rewrite in_app_iff, !addAll_in. split.
    - intros [(k & H1 & H2)|(k & H1 & H2)]; [discriminate|]. injection H2 as H2 H3. exists k. auto.
    - intros (k & H1 & H2 & H3). right. exists k. split; auto. rewrite H2, H3. reflexivity.
  Qed.
  Lemma newix_overlap v c g l : ~ In (mke g l Overlap) (newix v c).
  Proof.
    unfold newix. intros H. apply (Permutation_in _ (endResize_perm _)) in H. apply in_app_or in H. destruct H as [H|H]; apply addAll_a in H; discriminate.
  Qed.
  Lemma newix_wf q v c : ownersOf P ix parts q v -> copiesOf P ix graph parts q c -> pis_wf (length (newix v c)) (newix v c).
  Proof.
    intros HO HC. assert (LE : length (newix v c) = length v + length c). { unfold newix. rewrite (Permutation_length (endResize_perm _)), app_length, <- !(map_length e_g), !addAll_g, map_length. reflexivity. }
    unfold newix. split; [|split].
    - apply endResize_sorted. rewrite map_app, !addAll_g. apply NoDup_app_; [apply SS_NoDup, HO|apply SS_NoDup, HC|]. intros h H1 H2. apply (goes_owner P ix parts q v h HO) in H1. apply HC in H2. tauto.
    - apply (Permutation_NoDup (Permutation_sym (Permutation_map e_l (endResize_perm _)))). rewrite map_app, !addAll_l, map_length. cbn [Nat.add]. rewrite <- seq_app. apply seq_NoDup.
    - apply Forall_forall. intros e He. apply (Permutation_in _ (endResize_perm _)) in He. fold (newix v c). rewrite LE. apply in_app_or in He. destruct He as [He|He]; apply addAll_in in He; destruct He as (k & H1 & ->); cbn [e_l]; [rewrite map_length in H1; lia|lia].
  Qed.
  (** After buildCommunication every process that is given a vertex has a well-formed index set: it owns exactly the vertices that go to it, numbered from 0 in the order of
      their global index, and holds as copy exactly their neighbours that go elsewhere, numbered behind; this is the same for every order in which messages arrive. *)
  Theorem C67_index_set q : q < P -> exists b, (forall order, arrives P parts q order -> buildCommunication P ix graph (setp_of parts) order q = Ok b) /\
    (b_active b = true <-> exists g, goes P ix parts g q) /\ pis_wf (length (b_ix b)) (b_ix b) /\
    (forall g, (exists l, In (mke g l Owner) (b_ix b)) <-> goes P ix parts g q) /\
    (forall h, (exists l, In (mke h l Copy) (b_ix b)) <-> ~ goes P ix parts h q /\ exists g, goes P ix parts g q /\ edge P ix graph g h) /\
    (forall g l, ~ In (mke g l Overlap) (b_ix b)) /\
    (forall g l g' l', In (mke g l Owner) (b_ix b) -> In (mke g' l' Owner) (b_ix b) -> g < g' -> l < l') /\ (forall g l h l', In (mke g l Owner) (b_ix b) -> In (mke h l' Copy) (b_ix b) -> l < l').
  Proof.
    intros Hq. destruct (result q Hq) as (v & c & nb & HO & HC & HN & E). eexists. split; [exact E|]. cbn [b_active b_ix]. change (endResize (addAll Owner 0 (map fst v) ++ addAll Copy (length v) c)) with (newix v c).
    split; [|split; [apply (newix_wf q); auto|split; [|split; [|split; [apply newix_overlap|split]]]]].
    - rewrite negb_true_iff, Nat.eqb_neq. split.
      + intros H. destruct (recvFrom P parts q) as [|p t] eqn:ER; [destruct (H eq_refl)|]. assert (HI : In p (recvFrom P parts q)) by (rewrite ER; left; auto). apply recvFrom_in in HI. destruct HI as [Hp HI]. destruct (In_nth _ _ P HI) as (l & Hl & EL).
        destruct (lg_parts _ _ _ _ _ LG p Hp) as [LP _]. rewrite LP in Hl. destruct (lg_all _ _ _ _ _ LG p l Hp Hl) as (g & a & HH). exists g. apply (goes_part P ix graph parts sz LG p g l a q); auto.
      + intros (g & p & l & Hp & H1 & H2) H0. assert (HI : In p (recvFrom P parts q)); [|destruct (recvFrom P parts q); [destruct HI|discriminate]]. apply recvFrom_in. split; auto. rewrite <- H2. apply nth_In. destruct (lg_parts _ _ _ _ _ LG p Hp) as [LP _]. rewrite LP.
        apply (held_lt P ix graph parts sz LG p g l Owner); auto.
    - intros g. rewrite <- (goes_owner P ix parts q v g HO). split.
      + intros [l H]. apply newix_owner in H. destruct H as [H1 H2]. rewrite <- H2. apply nth_In. rewrite map_length. auto.
      + intros H. destruct (In_nth _ _ 0 H) as (l & Hl & EL). exists l. apply newix_owner. rewrite map_length in Hl. auto.
    - intros h. destruct HC as [_ HC]. rewrite <- HC. split.
      + intros [l H]. apply newix_copy in H. destruct H as (k & H1 & H2 & _). rewrite <- H2. apply nth_In. auto.
      + intros H. destruct (In_nth _ _ 0 H) as (k & Hk & EK). exists (length v + k). apply newix_copy. exists k. auto.
    - intros g l g' l' H1 H2 HL. apply newix_owner in H1, H2. destruct H1 as [H1 E1], H2 as [H2 E2]. destruct (Nat.lt_trichotomy l l') as [|[HE|HE]]; auto; [subst l'; lia|]. exfalso.
      destruct HO as [HS _]. assert (G : forall (m : list nat), StronglySorted lt m -> forall i j, i < j -> j < length m -> nth i m 0 < nth j m 0).
      { clear. induction 1 as [|a t S1 IH S2]; intros i j Hi Hj; [cbn in Hj; lia|]. destruct j as [|j]; [lia|]. cbn [length] in Hj. destruct i as [|i]; cbn [nth]; [rewrite Forall_forall in S2; apply S2, nth_In; lia|apply IH; lia]. }
      specialize (G _ HS l' l HE). rewrite map_length in G. specialize (G H1). lia.
    - intros g l h l' H1 H2. apply newix_owner in H1. apply newix_copy in H2. destruct H2 as (k & H2 & H3 & H4). lia.
  Qed.

  (** the result of one process, for any order of the messages *)
  Definition outcome_of (q : nat) (b : built) : Prop := exists order, arrives P parts q order /\ buildCommunication P ix graph (setp_of parts) order q = Ok b.
  Lemma outcome_spec q b : q < P -> outcome_of q b -> exists v c nb, ownersOf P ix parts q v /\ copiesOf P ix graph parts q c /\ procsOf P ix graph parts q nb /\ b_ix b = newix v c /\
    (forall r, b_send b r = sendInterface (parts q) r (ix q)) /\ (forall p, b_recv b p = receiveInterface p 0 v) /\ b_nb b = map (newrank P parts) nb.
  Proof.
    intros Hq (order & HA & HE). destruct (result q Hq) as (v & c & nb & HO & HC & HN & E). rewrite (E order HA) in HE. injection HE as <-. exists v, c, nb. auto 10.
  Qed.
  (** The redistribution interface: what p sends to q and what q expects from p are the owned vertices of p that go to q, in the same order. *)
  Theorem C67_interface p q bp bq : p < P -> q < P -> outcome_of p bp -> outcome_of q bq -> exists gs sl, StronglySorted lt gs /\
    (forall g, In g gs <-> (exists l, holds ix p g l Owner) /\ goes P ix parts g q) /\
    b_send bp q = Ok sl /\ Forall2 (fun g l => holds ix p g l Owner) gs sl /\ Forall2 (fun g l => In (mke g l Owner) (b_ix bq)) gs (b_recv bq p) /\
    sl = send_ix ownerSet ownerSet (ix p) (b_ix bq) /\ b_recv bq p = recv_ix ownerSet ownerSet (b_ix bq) (ix p).
  Proof.
    intros Hp Hq Bp Bq. destruct (outcome_spec p bp Hp Bp) as (_ & _ & _ & _ & _ & _ & _ & ES & _ & _). destruct (outcome_spec q bq Hq Bq) as (v & c & nb & HO & HC & HN & EI & _ & ER & _).
    pose proof (lg_wf _ _ _ _ _ LG p Hp) as WF. set (SE := filter (mine P parts p q) (ix p)). pose proof (newix_wf q v c HO HC) as WN.
    assert (SEND : sendInterface (parts p) q (ix p) = Ok (map e_l SE)).
    { unfold SE. assert (G : forall l, incl l (ix p) -> sendInterface (parts p) q l = Ok (map e_l (filter (mine P parts p q) l))); [|apply G; intros x; auto]. induction l as [|e t IH]; intros HI; auto. cbn [sendInterface filter]. unfold mine at 1.
      assert (HIt : incl t (ix p)) by (intros x Hx; apply HI; right; auto). assert (HL : e_l e < sz p). { destruct e as [g l a]. apply (held_lt P ix graph parts sz LG p g l a Hp). apply HI. left; auto. }
      destruct (ownerSet (e_a e)); cbn [andb]; [|auto]. destruct (nth_error_parts P ix graph parts sz LG p (e_l e) Hp HL) as [E1 _]. rewrite E1, IH by auto. cbn [obind]. destruct (_ =? q); reflexivity. }
    assert (INN : forall g, (exists l, In (mke g l Owner) (newix v c)) <-> goes P ix parts g q).
    { intros g. rewrite <- (goes_owner P ix parts q v g HO). split.
      - intros [l H]. apply newix_owner in H. destruct H as [H1 H2]. rewrite <- H2. apply nth_In. rewrite map_length. auto.
      - intros H. destruct (In_nth _ _ 0 H) as (l & Hl & EL). exists l. apply newix_owner. rewrite map_length in Hl. auto. }
    assert (SEQ : SE = send_e ownerSet ownerSet (ix p) (newix v c)).
    { apply filter_ext_in. intros e He. unfold mine. destruct e as [g l a]. cbn [e_a e_l e_g]. destruct a; cbn [ownerSet attr_eqb andb]; try (destruct (lookup (newix v c) g); reflexivity).
      apply eq_true_iff_eq. rewrite Nat.eqb_eq. rewrite (goes_part P ix graph parts sz LG p g l Owner q Hp He). rewrite <- INN. split.
      - intros [l' H]. rewrite (proj2 (lookup_spec _ g (mke g l' Owner) (proj1 WN))) by (split; auto). reflexivity.
      - destruct (lookup (newix v c) g) as [[g' l' a']|] eqn:EL; [|discriminate]. intros H. apply (lookup_spec _ _ _ (proj1 WN)) in EL. destruct EL as [EL1 EL2]. cbn [e_g] in EL2. subst g'. exists l'. destruct a'; try discriminate. exact EL1. }
    assert (REQ : receiveInterface p 0 v = recv_ix ownerSet ownerSet (newix v c) (ix p)).
    { rewrite recv_ix_e. unfold recv_e.
      (* the owners of the new index set, in order *)
      assert (OWN : filter (fun e => ownerSet (e_a e)) (newix v c) = addAll Owner 0 (map fst v)).
      { apply (SS_inj e_g); [apply SS_filter; apply WN|rewrite addAll_g; apply HO|]. intros [g l a]. rewrite filter_In. cbn [e_a]. split.
        - intros [H1 H2]. destruct a; try discriminate. apply newix_owner in H1. destruct H1 as [H1 H3]. apply addAll_in. exists l. rewrite map_length. split; auto. rewrite H3. reflexivity.
        - intros H. pose proof (addAll_a _ _ _ _ H) as EA. cbn [e_a] in EA. subst a. split; auto. apply newix_owner. apply addAll_in in H. destruct H as (k & H1 & H2). injection H2 as -> ->. rewrite map_length in H1. auto. }
      assert (FF : filter (fun e' => match lookup (ix p) (e_g e') with Some e => ownerSet (e_a e) && ownerSet (e_a e') | None => false end) (newix v c) =
                   filter (fun e' => match lookup (ix p) (e_g e') with Some e => ownerSet (e_a e) | None => false end) (filter (fun e => ownerSet (e_a e)) (newix v c))).
      { generalize (newix v c). induction p0 as [|e t IH]; auto. cbn [filter]. destruct (ownerSet (e_a e)) eqn:EO; cbn [filter]; rewrite IH; destruct (lookup (ix p) (e_g e)) as [e'|]; auto; [rewrite andb_true_r|rewrite andb_false_r]; reflexivity. }
      rewrite FF, OWN. clear FF OWN.
      assert (VP : forall x, In x v -> (match lookup (ix p) (fst x) with Some e => ownerSet (e_a e) | None => false end) = (snd x =? p)).
      { intros [g r] Hx. cbn [fst snd]. apply HO in Hx. destruct Hx as [Hr [l [H1 H2]]]. apply eq_true_iff_eq. rewrite Nat.eqb_eq. split.
        - destruct (lookup (ix p) g) as [[g' l' a']|] eqn:EL; [|discriminate]. apply (lookup_spec _ _ _ (proj1 WF)) in EL. destruct EL as [EL1 EL2]. cbn [e_g] in EL2. subst g'. destruct a'; try discriminate. intros _. apply (lg_unique _ _ _ _ _ LG g r p l l'); auto.
        - intros ->. rewrite (proj2 (lookup_spec _ g (mke g l Owner) (proj1 WF))) by (split; auto). reflexivity. }
      assert (GEN : forall w i, incl w v -> receiveInterface p i w = map e_l (filter (fun e' => match lookup (ix p) (e_g e') with Some e => ownerSet (e_a e) | None => false end) (addAll Owner i (map fst w)))); [|apply GEN; intros x; auto].
      induction w as [|x t IH]; intros i HI; auto. cbn [receiveInterface map addAll filter e_g]. rewrite (VP x) by (apply HI; left; auto). rewrite (IH (S i)) by (intros y Hy; apply HI; right; auto). destruct (snd x =? p); reflexivity. }
    pose proof (send_recv_match ownerSet ownerSet _ _ _ _ WF WN) as SRM.
    exists (map e_g SE), (map e_l SE). split; [apply SS_filter; apply WF|]. split; [|split; [rewrite ES; exact SEND|split; [|split; [|split]]]].
    - intros g. rewrite in_map_iff. split.
      + intros [e [E H]]. apply filter_In in H. destruct H as [H1 H2]. apply (mine_held P ix parts p q e) in H2; auto. destruct H2 as [H2 H3]. subst g. split; [eauto|]. exists p, (e_l e). auto.
      + intros [[l H1] H2]. exists (mke g l Owner). split; auto. apply filter_In. split; auto. unfold mine. cbn. apply Nat.eqb_eq. apply (goes_part P ix graph parts sz LG p g l Owner q); auto.
    - assert (HF : Forall (fun e => holds ix p (e_g e) (e_l e) Owner) SE). { apply Forall_forall. intros e He. apply filter_In in He. destruct He as [H1 H2]. apply (mine_held P ix parts p q e) in H2; tauto. }
      clear - HF. induction HF; cbn [map]; constructor; auto.
    - rewrite ER, REQ, EI, SEQ, recv_ix_e, SRM. assert (HF : Forall (fun e => In (mke (e_g e) (e_l e) Owner) (newix v c)) (recv_e ownerSet ownerSet (newix v c) (ix p))).
      { apply Forall_forall. intros [g l a] He. apply filter_In in He. destruct He as [H1 H2]. cbn [e_g e_l e_a] in *. destruct (lookup (ix p) g); [|discriminate]. apply andb_true_iff in H2. destruct H2 as [_ H2]. destruct a; try discriminate. exact H1. }
      clear - HF. induction HF; cbn [map]; constructor; auto.
    - rewrite EI, send_ix_e, SEQ. reflexivity.
    - rewrite ER, EI. exact REQ.
  Qed.
  (** Every vertex has exactly one owner again. *)
  Theorem C67_partition b : (forall q, q < P -> outcome_of q (b q)) -> unique_owner P (fun q => b_ix (b q)) /\
    (forall g, (exists p l, p < P /\ holds ix p g l Owner) <-> exists q l, q < P /\ In (mke g l Owner) (b_ix (b q))) /\
    (forall q g l a, q < P -> In (mke g l a) (b_ix (b q)) -> exists q' l', q' < P /\ In (mke g l' Owner) (b_ix (b q'))).
  Proof.
    intros HB. assert (OW : forall q g, q < P -> (exists l, In (mke g l Owner) (b_ix (b q))) <-> goes P ix parts g q).
    { intros q g Hq. destruct (C67_index_set q Hq) as (b' & HE & _ & _ & HG & _). destruct (HB q Hq) as (order & HA & E). rewrite (HE order HA) in E. injection E as <-. apply HG. }
    assert (GO : forall g p l a, p < P -> holds ix p g l a -> exists q, q < P /\ goes P ix parts g q).
    { intros g p l a Hp H. exists (nth l (parts p) P). split; [apply (nth_error_parts P ix graph parts sz LG p l Hp (held_lt P ix graph parts sz LG p g l a Hp H))|]. apply (goes_part P ix graph parts sz LG p g l a); auto. }
    split; [|split].
    - intros g q q' l l' Hq Hq' H1 H2. assert (G1 : goes P ix parts g q) by (apply OW; eauto). assert (G2 : goes P ix parts g q') by (apply OW; eauto). destruct G1 as (p & k & Hp & H3 & <-).
      apply (goes_part P ix graph parts sz LG p g k Owner q' Hp H3) in G2. exact G2.
    - intros g. split.
      + intros (p & l & Hp & H). destruct (GO g p l Owner Hp H) as (q & Hq & HG). apply OW in HG; auto. destruct HG as [l' HG]. eauto.
      + intros (q & l & Hq & H). assert (G1 : goes P ix parts g q) by (apply OW; eauto). destruct G1 as (p & k & Hp & H3 & _). eauto.
    - intros q g l a Hq H. destruct a; [eauto| |].
      + destruct (C67_index_set q Hq) as (b' & HE & _ & _ & _ & _ & HV & _). destruct (HB q Hq) as (order & HA & E). rewrite (HE order HA) in E. injection E as E1. subst b'. exfalso. eapply HV; eauto.
      + destruct (C67_index_set q Hq) as (b' & HE & _ & _ & _ & HC & _). destruct (HB q Hq) as (order & HA & E). rewrite (HE order HA) in E. injection E as E1. subst b'. assert (HX : exists l, In (mke g l Copy) (b_ix (b q))) by eauto. apply HC in HX.
        destruct HX as [_ (g0 & _ & (p & l1 & l2 & a & Hp & _ & H2 & _))]. destruct (GO g p l2 a Hp H2) as (q' & Hq' & HG). apply OW in HG; auto. destruct HG as [l' HG]. eauto.
  Qed.

  Lemma active_rank r : r < P -> (exists g, goes P ix parts g r) <-> newrank P parts r <> None.
  Proof.
    intros Hr. destruct (C67_index_set r Hr) as (b & HE & HA & _). pose proof (HE (recvFrom P parts r)) as E. rewrite <- HA. clear HA. assert (AR : arrives P parts r (recvFrom P parts r)) by (split; [apply NoDup_filter, seq_NoDup|apply recvFrom_in]).
    specialize (E AR). destruct (result r Hr) as (v & c & nb & _ & _ & _ & E2). rewrite (E2 _ AR) in E. injection E as <-. cbn [b_active]. unfold newrank. destruct (negb _); split; congruence.
  Qed.
  (** the ranks of the new communicator *)
  Lemma newrank_inj r r' : newrank P parts r = newrank P parts r' -> newrank P parts r <> None -> r = r'.
  Proof.
    unfold newrank. set (act := fun x => negb (length (recvFrom P parts x) =? 0)). change (negb (length (recvFrom P parts r) =? 0)) with (act r). change (negb (length (recvFrom P parts r') =? 0)) with (act r').
    destruct (act r) eqn:E1; [|congruence]. destruct (act r') eqn:E2; [|discriminate]. intros H _. injection H as H.
    assert (M : forall a b, a < b -> act a = true -> length (filter act (seq 0 a)) < length (filter act (seq 0 b))).
    { intros a b Hab Ha. replace b with (a + (1 + (b - a - 1))) by lia. rewrite !seq_app, !filter_app, !app_length. cbn [seq filter Nat.add]. rewrite Ha. cbn [length]. lia. }
    destruct (Nat.lt_trichotomy r r') as [L|[L|L]]; auto; [specialize (M _ _ L E1)|specialize (M _ _ L E2)]; lia.
  Qed.
  (** The neighbours for the new remote indices: the processes that own the copies, and possibly the process itself; all of them are in the new communicator. *)
  Theorem C67_neighbours q b : q < P -> outcome_of q b ->
    (forall h l r, In (mke h l Copy) (b_ix b) -> goes P ix parts h r -> In (newrank P parts r) (b_nb b)) /\
    (forall x, In x (b_nb b) -> x <> None /\ exists r, r < P /\ x = newrank P parts r /\ (r = q \/ exists h l, In (mke h l Copy) (b_ix b) /\ goes P ix parts h r)).
  Proof.
    intros Hq HB. destruct (outcome_spec q b Hq HB) as (v & c & nb & HO & HC & HN & EI & _ & _ & EN). rewrite EI, EN.
    assert (CP : forall h, (exists l, In (mke h l Copy) (newix v c)) <-> In h c).
    { intros h. split.
      - intros [l H]. apply newix_copy in H. destruct H as (k & H1 & H2 & _). rewrite <- H2. apply nth_In. auto.
      - intros H. destruct (In_nth _ _ 0 H) as (k & Hk & EK). exists (length v + k). apply newix_copy. exists k. auto. }
    split.
    - intros h l r H1 H2. apply in_map. apply HN. assert (HIc : In h c) by (apply CP; eauto). apply HC in HIc. destruct HIc as [H3 (g & H4 & H5)]. destruct (goes_spot P ix graph parts sz LG q h g H3 H4 H5) as (p & r' & Hp & HS). exists p, h. split; auto.
      destruct HS as (g1 & l1 & l' & a & A1 & A2 & A3 & A4 & A5 & A6). exists g1, l1, l', a. repeat split; auto. apply (goes_part P ix graph parts sz LG p h l' a r); auto.
    - intros x Hx. apply in_map_iff in Hx. destruct Hx as [r [<- Hr]]. apply HN in Hr. destruct Hr as (p & h & Hp & HS). pose proof HS as HS0. destruct HS as (g1 & l1 & l' & a & A1 & A2 & A3 & A4 & A5 & A6).
      assert (Hr : r < P). { rewrite <- A6. apply (nth_error_parts P ix graph parts sz LG p l' Hp (held_lt P ix graph parts sz LG p h l' a Hp A4)). }
      assert (GH : goes P ix parts h r) by (apply (goes_part P ix graph parts sz LG p h l' a r); auto). split; [apply active_rank; eauto|]. exists r. split; auto. split; auto. destruct (Nat.eq_dec r q) as [|NE]; auto. right. exists h.
      assert (HIc : In h c). { apply HC. split; [|apply (spots_copy P ix graph parts q p h r Hp HS0)]. intros G2. apply NE. rewrite <- (goes_part P ix graph parts sz LG p h l' a q Hp A4) in G2. congruence. }
      apply CP in HIc. destruct HIc as [l HIc]. eauto.
  Qed.
  (** for a symmetric graph the relation is symmetric, as RemoteIndices needs it *)
  Theorem C67_neighbours_symmetric q r bq br : q < P -> r < P -> q <> r -> outcome_of q bq -> outcome_of r br -> (forall g h, edge P ix graph g h -> edge P ix graph h g) ->
    In (newrank P parts r) (b_nb bq) -> In (newrank P parts q) (b_nb br).
  Proof.
    intros Hq Hr NE HQ HR SY HI. destruct (C67_neighbours q bq Hq HQ) as [_ N2]. destruct (N2 _ HI) as [NN (r' & Hr' & ER & HX)]. assert (r' = r) by (symmetry; apply newrank_inj; auto). subst r'. destruct HX as [HX|(h & l & HX & GH)]; [congruence|].
    destruct (C67_neighbours r br Hr HR) as [M1 _]. destruct (C67_index_set q Hq) as (b' & HE & _ & _ & _ & HC & _). destruct HQ as (order & HA & E). rewrite (HE order HA) in E. injection E as E1. subst b'. assert (HX2 : exists l, In (mke h l Copy) (b_ix bq)) by eauto. apply HC in HX2.
    destruct HX2 as [NG (g & GG & EG)]. assert (NG2 : ~ goes P ix parts g r). { intros G2. apply NE. destruct GG as (p & l0 & Hp & A1 & <-). apply (goes_part P ix graph parts sz LG p g l0 Owner r Hp A1) in G2. exact G2. }
    destruct (C67_index_set r Hr) as (b' & HE' & _ & _ & _ & HC' & _). pose proof HR as HR0. destruct HR as (order' & HA' & E'). rewrite (HE' order' HA') in E'. injection E' as E1. subst b'. assert (HX2 : exists l, In (mke g l Copy) (b_ix br)) by (apply HC'; eauto).
    destruct HX2 as [l2 HX2]. eapply M1; eauto.
  Qed.
End Theorems.

(** Without the proviso that every index has an owner the partition of such an index stays -1, which is used as a rank. *)
Theorem C67_no_owner_refuted P ix graph setp order q p : p < P -> In None (setp p) -> buildCommunication P ix graph setp order q = UB.
Proof.
  intros Hp HI. unfold buildCommunication. assert (E : omap (fun p => ranks P (setp p)) (seq 0 P) = UB); [|rewrite E; reflexivity].
  assert (RU : forall l, (exists r, ranks P l = Ok r) \/ ranks P l = UB). { induction l as [|[x|] t IH]; cbn [ranks]; [left; eauto| |right; auto]. destruct (x <? P); [|right; auto]. destruct IH as [[r IH]|IH]; rewrite IH; cbn [obind]; [left; eauto|right; auto]. }
  assert (RN : ranks P (setp p) = UB). { revert HI. generalize (setp p). induction l as [|[x|] t IH]; intros HI; cbn [ranks]; [destruct HI| |reflexivity]. destruct HI as [HI|HI]; [discriminate|]. destruct (x <? P); auto. rewrite IH by auto. reflexivity. }
  assert (HS : In p (seq 0 P)) by (apply in_seq; lia). revert HS. generalize (seq 0 P). induction l as [|x t IH]; intros HS; [destruct HS|]. cbn [omap]. destruct HS as [HS|HS]; [subst x; rewrite RN; reflexivity|]. rewrite (IH HS).
  destruct (RU (setp x)) as [[r E]|E]; rewrite E; reflexivity.
Qed.

(** ** Example: a path of three vertices on process 0 is spread over three processes *)
Definition rp_ix (p : nat) : pis := match p with 0 => [mke 5 0 Owner; mke 6 2 Owner; mke 9 1 Owner] | _ => nil end.
Definition rp_graph (p : nat) : list (list nat) := match p with 0 => [[2]; [2]; [0; 1]] | _ => nil end.
Definition rp_parts (p : nat) : list nat := match p with 0 => [0; 2; 1] | _ => nil end.
Definition rp_sz (p : nat) : nat := match p with 0 => 3 | _ => 0 end.
Lemma rp_legal : legal 3 rp_ix rp_graph rp_parts rp_sz.
Proof.
  constructor.
  - intros [|[|[|p]]] Hp; try lia; (split; [|split]); cbn; repeat constructor; cbn; try lia; intuition lia.
  - intros [|p] l Hp Hl; [|cbn in Hl; lia]. cbn in Hl. unfold holds. destruct l as [|[|[|l]]]; try lia; [exists 5, Owner|exists 9, Owner|exists 6, Owner]; cbn; auto.
  - intros [|p] Hp; cbn; (split; [reflexivity|]); repeat constructor.
  - intros [|p] Hp; cbn; (split; [reflexivity|]); repeat constructor.
  - intros g [|p] [|q] l l' Hp Hq H1 H2; auto; unfold holds in *; cbn in *; tauto.
  - intros [|p] g l a Hp H; [|destruct H]. exists 0, l. split; [lia|]. unfold holds in *. cbn in *. repeat (destruct H as [H|H]; [injection H as <- <- <-; auto|]). destruct H.
  - intros [|p] [|q] g l l' a Hp Hq H1 H2; unfold holds in *; cbn [rp_ix rp_parts In] in *;
      repeat match goal with H : _ \/ _ |- _ => destruct H | H : False |- _ => destruct H end; try congruence.
Qed.
Lemma rp_arrives q : q < 3 -> arrives 3 rp_parts q [0].
Proof.
  intros Hq. split; [repeat constructor; intros []|]. intros p. split.
  - intros [H|[]]. subst p. split; [lia|]. cbn. lia.
  - intros [Hp H]. destruct p; [left; auto|destruct H].
Qed.
Example rp_run : map (fun q => match buildCommunication 3 rp_ix rp_graph (setp_of rp_parts) [0] q with Ok b => (b_ix b, b_nb b) | _ => (nil, nil) end) [0; 1; 2] =
  [([mke 5 0 Owner; mke 6 1 Copy], [Some 1]); ([mke 5 1 Copy; mke 6 0 Owner; mke 9 2 Copy], [Some 0; Some 2]); ([mke 6 1 Copy; mke 9 0 Owner], [Some 1])].
Proof. reflexivity. Qed.
(** The list of neighbours is not the list of the processes that share an index: processes 0 and 2 both hold a copy of index 6, but do not know of each other. *)
Theorem C67_shared_refuted : exists P ix graph parts sz q r bq br g l l', legal P ix graph parts sz /\ q < P /\ r < P /\ outcome_of P ix graph parts q bq /\ outcome_of P ix graph parts r br /\
  In (mke g l Copy) (b_ix bq) /\ In (mke g l' Copy) (b_ix br) /\ ~ In (newrank P parts r) (b_nb bq) /\ ~ In (newrank P parts q) (b_nb br).
Proof.
  exists 3, rp_ix, rp_graph, rp_parts, rp_sz, 0, 2.
  destruct (buildCommunication 3 rp_ix rp_graph (setp_of rp_parts) [0] 0) as [b0| |] eqn:E0; try discriminate. destruct (buildCommunication 3 rp_ix rp_graph (setp_of rp_parts) [0] 2) as [b2| |] eqn:E2; try discriminate.
  exists b0, b2, 6, 1, 1. split; [exact rp_legal|]. split; [lia|]. split; [lia|]. split; [exists [0]; split; [apply rp_arrives; lia|exact E0]|]. split; [exists [0]; split; [apply rp_arrives; lia|exact E2]|].
  vm_compute in E0, E2. injection E0 as <-. injection E2 as <-. cbn [b_ix b_nb]. repeat split; [right; left; reflexivity|left; reflexivity| |]; vm_compute; intros [H|[]]; discriminate.
Qed.
Print Assumptions C67_index_set.
Print Assumptions C67_interface.
Print Assumptions C67_partition.
Print Assumptions C67_neighbours.
Print Assumptions C67_neighbours_symmetric.
Print Assumptions C67_no_owner_refuted.
Print Assumptions C67_shared_refuted.
