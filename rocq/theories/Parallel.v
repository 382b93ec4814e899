(** * Parallel communication (dune/istl/owneroverlapcopy.hh): C31, C32 *)
From Coq Require Import Arith List Lia Bool Sorted Permutation.
From Verif Require Import Ring Sums Outcome Sparse.
Import ListNotations.
Open Scope nat_scope.

(** OwnerOverlapCopyAttributeSet, owneroverlapcopy.hh:59-63 *)
Inductive attr := Owner | Overlap | Copy.
Definition attr_eqb (a b : attr) : bool := match a, b with Owner, Owner | Overlap, Overlap | Copy, Copy => true | _, _ => false end.
(** an index pair of the parallel index set: global index, local index, attribute *)
Record entry := mke { e_g : nat; e_l : nat; e_a : attr }.
(** the index set of one process, iterated in increasing order of the global index (Dune::ParallelIndexSet, dune-common) *)
Definition pis := list entry.
Definition lookup (s : pis) (g : nat) : option entry := find (fun e => e_g e =? g) s.

(** the attribute sets used as source and destination flags (owneroverlapcopy.hh:194-199) *)
Definition ownerSet (a : attr) : bool := attr_eqb a Owner.
Definition copySet (a : attr) : bool := attr_eqb a Copy.
Definition ownerOverlapSet (a : attr) : bool := attr_eqb a Owner || attr_eqb a Overlap.
Definition ownerCopySet (a : attr) : bool := attr_eqb a Owner || attr_eqb a Copy.
Definition allSet (a : attr) : bool := true.

(** ** dune-common: remote indices, interface.
    Process p knows for each other process q the indices both hold, in the order of its index set, with q's attribute (RemoteIndices).
    Interface::build keeps for sending those with source flags here and destination flags there, for receiving the converse. *)
Definition remote_list (sp sq : pis) : list (entry * attr) :=
  flat_map (fun e => match lookup sq (e_g e) with Some e' => [(e, e_a e')] | None => [] end) sp.
Definition send_ix (S D : attr -> bool) (sp sq : pis) : list nat :=
  map (fun r => e_l (fst r)) (filter (fun r => S (e_a (fst r)) && D (snd r)) (remote_list sp sq)).
Definition recv_ix (S D : attr -> bool) (sq sp : pis) : list nat :=
  map (fun r => e_l (fst r)) (filter (fun r => S (snd r) && D (e_a (fst r))) (remote_list sq sp)).

(** a well-formed distribution: P processes, process p holds a vector of size [sz p] *)
Definition pis_wf (n : nat) (s : pis) : Prop := StronglySorted lt (map e_g s) /\ NoDup (map e_l s) /\ Forall (fun e => e_l e < n) s.

Section Comm.
  Context {B : Type}.
  Variable b0 : B.
  Definition vget' (v : list B) (i : nat) : B := nth i v b0.
  (** CopyGatherScatter / AddGatherScatter, owneroverlapcopy.hh:203-231: gather returns a[i]; scatter: a[i] = v resp. a[i] += v, abstracted as a[i] = op a[i] v.
      Access outside the vector is UB. *)
  Fixpoint gather (v : list B) (is : list nat) : outcome (list B) :=
    match is with
    | nil => Ok nil
    | i :: t => match nth_error v i with None => UB | Some x => obind (gather v t) (fun m => Ok (x :: m)) end
    end.
  Variable op : B -> B -> B.
  Fixpoint scatter (v : list B) (is : list nat) (msg : list B) : outcome (list B) :=
    match is, msg with
    | nil, nil => Ok v
    | i :: t, x :: m => match nth_error v i with None => UB | Some y => scatter (upd v i (op y x)) t m end
    | _, _ => UB      (* message of another length than expected *)
    end.

  Variable P : nat.
  Variable ix : nat -> pis.
  Variables S D : attr -> bool.

  (** State of BufferedCommunicator::forward running on all processes: the destination vectors, the send buffers (filled by gather), and the
      senders whose message was already scattered.  In dune-common each process first gathers all its messages, posts sends and receives, and then
      scatters messages in the order in which they arrive. *)
  Record st := mkst { dst : nat -> list B; bufs : nat -> option (nat -> list B); rcv : nat -> list nat }.
  Definition fupd {X} (f : nat -> X) (k : nat) (x : X) (i : nat) : X := if i =? k then x else f i.
  (** [src = None]: source and destination are the same vector *)
  Variable src : option (nat -> list B).
  Definition source (s : st) (p : nat) : list B := match src with Some f => f p | None => dst s p end.
  Inductive step : st -> outcome st -> Prop :=
  | step_send_ok s p m : p < P -> bufs s p = None -> (forall q, q < P -> gather (source s p) (send_ix S D (ix p) (ix q)) = Ok (m q)) ->
      step s (Ok (mkst (dst s) (fupd (bufs s) p (Some m)) (rcv s)))
  | step_send_ub s p q : p < P -> q < P -> q <> p -> bufs s p = None -> gather (source s p) (send_ix S D (ix p) (ix q)) = UB -> step s UB
  | step_recv s p q m : p < P -> q < P -> p <> q -> bufs s q <> None -> bufs s p = Some m -> ~ In p (rcv s q) ->
      step s (obind (scatter (dst s q) (recv_ix S D (ix q) (ix p)) (m q)) (fun v => Ok (mkst (fupd (dst s) q v) (bufs s) (fupd (rcv s) q (rcv s q ++ [p]))))).
  Inductive reach (s0 : st) : st -> Prop :=
  | reach_0 : reach s0 s0
  | reach_S s s' : reach s0 s -> step s (Ok s') -> reach s0 s'.
  Definition start (d0 : nat -> list B) : st := mkst d0 (fun _ => None) (fun _ => []).
  (** all messages received *)
  Definition finished (s : st) : Prop := forall p q, p < P -> q < P -> p <> q -> In p (rcv s q).
End Comm.

(** ** lists *)
Lemma lookup_spec s g e : StronglySorted lt (map e_g s) -> lookup s g = Some e <-> In e s /\ e_g e = g.
Proof.
  intros HS. split.
  - intros H. apply find_some in H. destruct H as [H1 H2]. apply Nat.eqb_eq in H2. auto.
  - induction s as [|a t IH]; intros [HI HG]; [destruct HI|]. cbn [map] in HS. inversion HS as [|? ? H1 H2]. unfold lookup. cbn [find]. destruct (Nat.eqb_spec (e_g a) g) as [E|E].
    + destruct HI as [->|HI]; auto. exfalso. rewrite Forall_forall in H2. specialize (H2 (e_g e) (in_map e_g _ _ HI)). lia.
    + destruct HI as [->|HI]; [congruence|]. apply IH; auto.
Qed.
Lemma lookup_none s g : lookup s g = None <-> ~ In g (map e_g s).
Proof.
  split.
  - intros H HI. apply in_map_iff in HI. destruct HI as [e [E HI]]. unfold lookup in H. apply (find_none _ _ H) in HI. rewrite E, Nat.eqb_refl in HI. discriminate.
  - intros H. destruct (lookup s g) as [e|] eqn:E; auto. exfalso. apply H. apply find_some in E. destruct E as [E1 E2]. apply Nat.eqb_eq in E2. rewrite <- E2. apply in_map; auto.
Qed.
Lemma SS_filter f s : StronglySorted lt (map e_g s) -> StronglySorted lt (map e_g (filter f s)).
Proof.
  induction s as [|a t IH]; cbn [map filter]; intros H; [constructor|]. inversion H as [|? ? H1 H2]. destruct (f a); [|apply IH; auto]. cbn [map]. constructor; [apply IH; auto|].
  rewrite Forall_forall in *. intros x Hx. apply H2. apply in_map_iff in Hx. destruct Hx as [e [<- He]]. apply filter_In in He. apply in_map. tauto.
Qed.
Lemma NoDup_filter_map {X} (k : entry -> X) f s : NoDup (map k s) -> NoDup (map k (filter f s)).
Proof.
  induction s as [|a t IH]; cbn [map filter]; intros H; [constructor|]. inversion H as [|? ? H1 H2]. destruct (f a); [|apply IH; auto]. cbn [map]. constructor; [|apply IH; auto].
  intros HI. apply H1. apply in_map_iff in HI. destruct HI as [e [<- He]]. apply filter_In in He. apply in_map. tauto.
Qed.
Lemma SS_same (l1 l2 : list nat) : StronglySorted lt l1 -> StronglySorted lt l2 -> (forall x, In x l1 <-> In x l2) -> l1 = l2.
Proof.
  revert l2. induction l1 as [|a t IH]; intros [|b t2] H1 H2 HE; auto.
  - exfalso. apply (HE b). left; auto.
  - exfalso. apply (HE a). left; auto.
  - apply StronglySorted_inv in H1. destruct H1 as [P1 P2]. apply StronglySorted_inv in H2. destruct H2 as [Q1 Q2]. rewrite Forall_forall in P2, Q2.
    assert (E : a = b).
    { destruct (proj1 (HE a) (or_introl eq_refl)) as [E|E]; auto. destruct (proj2 (HE b) (or_introl eq_refl)) as [E'|E']; auto. specialize (P2 _ E'). specialize (Q2 _ E). lia. }
    subst b. f_equal. apply IH; auto. intros x. split; intros HI.
    + destruct (proj1 (HE x) (or_intror HI)) as [<-|]; auto. specialize (P2 _ HI). lia.
    + destruct (proj2 (HE x) (or_intror HI)) as [<-|]; auto. specialize (Q2 _ HI). lia.
Qed.

Definition entry_dec (a b : entry) : {a = b} + {a <> b}.
Proof. repeat decide equality. Defined.
(** the entries actually sent / received *)
Definition send_e (S D : attr -> bool) (sp sq : pis) : list entry :=
  filter (fun e => match lookup sq (e_g e) with Some e' => S (e_a e) && D (e_a e') | None => false end) sp.
Definition recv_e (S D : attr -> bool) (sq sp : pis) : list entry :=
  filter (fun e' => match lookup sp (e_g e') with Some e => S (e_a e) && D (e_a e') | None => false end) sq.
Lemma send_ix_e S D sp sq : send_ix S D sp sq = map e_l (send_e S D sp sq).
Proof.
  unfold send_ix, send_e, remote_list. induction sp as [|a t IH]; auto. cbn [flat_map filter]. rewrite filter_app, map_app, IH. destruct (lookup sq (e_g a)); [|reflexivity].
  cbn [filter fst snd]. destruct (_ && _); reflexivity.
Qed.
Lemma recv_ix_e S D sq sp : recv_ix S D sq sp = map e_l (recv_e S D sq sp).
Proof.
  unfold recv_ix, recv_e, remote_list. induction sq as [|a t IH]; auto. cbn [flat_map filter]. rewrite filter_app, map_app, IH. destruct (lookup sp (e_g a)); [|reflexivity].
  cbn [filter fst snd]. destruct (_ && _); reflexivity.
Qed.
Lemma send_recv_match S D n m sp sq : pis_wf n sp -> pis_wf m sq -> map e_g (send_e S D sp sq) = map e_g (recv_e S D sq sp).
Proof.
  intros [S1 _] [S2 _]. apply SS_same; try (apply SS_filter; auto). intros g.
  assert (A : forall g, In g (map e_g (send_e S D sp sq)) <-> exists e e', In e sp /\ In e' sq /\ e_g e = g /\ e_g e' = g /\ S (e_a e) && D (e_a e') = true).
  { intros h. unfold send_e. rewrite in_map_iff. split.
    - intros [e [E HI]]. apply filter_In in HI. destruct HI as [HI HF]. destruct (lookup sq (e_g e)) as [e'|] eqn:EL; [|discriminate]. apply lookup_spec in EL; auto. destruct EL. exists e, e'. repeat split; auto; congruence.
    - intros (e & e' & H1 & H2 & H3 & H4 & H5). exists e. split; auto. apply filter_In. split; auto. rewrite (proj2 (lookup_spec sq (e_g e) e' S2)); auto. split; auto; congruence. }
  assert (C : forall g, In g (map e_g (recv_e S D sq sp)) <-> exists e e', In e sp /\ In e' sq /\ e_g e = g /\ e_g e' = g /\ S (e_a e) && D (e_a e') = true).
  { intros h. unfold recv_e. rewrite in_map_iff. split.
    - intros [e' [E HI]]. apply filter_In in HI. destruct HI as [HI HF]. destruct (lookup sp (e_g e')) as [e|] eqn:EL; [|discriminate]. apply lookup_spec in EL; auto. destruct EL. exists e, e'. repeat split; auto; congruence.
    - intros (e & e' & H1 & H2 & H3 & H4 & H5). exists e'. split; auto. apply filter_In. split; auto. rewrite (proj2 (lookup_spec sp (e_g e') e S1)); auto. split; auto; congruence. }
  rewrite A, C. tauto.
Qed.

Section CommProofs.
  Context {B : Type}.
  Variable b0 : B.
  Lemma gather_ok (v : list B) is : Forall (fun i => i < length v) is -> gather v is = Ok (map (fun i => nth i v b0) is).
  Proof.
    induction 1 as [|i t Hi HF IH]; cbn [gather map]; auto. rewrite (nth_error_nth' v b0 Hi), IH. reflexivity.
  Qed.
  Variable op : B -> B -> B.
  Lemma scatter_ok is : forall (v : list B) msg, NoDup is -> Forall (fun i => i < length v) is -> length msg = length is ->
    exists v', scatter op v is msg = Ok v' /\ length v' = length v /\ (forall k, k < length is -> nth (nth k is 0) v' b0 = op (nth (nth k is 0) v b0) (nth k msg b0)) /\
      (forall i, ~ In i is -> nth i v' b0 = nth i v b0).
  Proof.
    induction is as [|i t IH]; intros v [|x m] HN HF HL; try discriminate; cbn [scatter].
    - exists v. repeat split; auto. intros k Hk; cbn in Hk; lia.
    - inversion HN as [|? ? N1 N2]. inversion HF as [|? ? F1 F2]. rewrite (nth_error_nth' v b0 F1).
      destruct (IH (upd v i (op (nth i v b0) x)) m) as (v' & E & L & V1 & V2); auto.
      { rewrite upd_length. auto. }
      exists v'. split; auto. rewrite upd_length in L. split; auto. split.
      + intros [|k] Hk; cbn [nth].
        * rewrite V2 by auto. apply nth_upd_eq; auto.
        * cbn [length] in Hk. rewrite V1 by lia. rewrite nth_upd_ne; auto. intros E'. apply N1. rewrite E'. apply nth_In. lia.
      + intros j Hj. rewrite V2 by (intros HI; apply Hj; right; auto). apply nth_upd_ne. intros ->. apply Hj. left; auto.
  Qed.

  Variable P : nat.
  Variable ix : nat -> pis.
  Variable sz : nat -> nat.
  Hypothesis ix_wf : forall p, p < P -> pis_wf (sz p) (ix p).
  Variables S D : attr -> bool.
  Variable src : option (nat -> list B).
  Variable d0 : nat -> list B.
  Hypothesis d0_sz : forall p, p < P -> length (d0 p) = sz p.
  Hypothesis src_sz : forall f p, src = Some f -> p < P -> length (f p) = sz p.
  (** the values sent: those of the source vector before the call *)
  Definition S0 (p : nat) : list B := match src with Some f => f p | None => d0 p end.
  Lemma S0_sz p : p < P -> length (S0 p) = sz p.
  Proof. intros Hp. unfold S0. destruct src as [f|] eqn:E; auto. Qed.
  (** what process q receives from p for its entry e' *)
  Definition contrib (p : nat) (e' : entry) : option B :=
    match lookup (ix p) (e_g e') with
    | Some e => if S (e_a e) && D (e_a e') then Some (nth (e_l e) (S0 p) b0) else None
    | None => None
    end.
  Definition recv1 (e' : entry) (acc : B) (p : nat) : B := match contrib p e' with Some v => op acc v | None => acc end.

  Lemma send_bounds p q (v : list B) : p < P -> length v = sz p -> Forall (fun i => i < length v) (send_ix S D (ix p) (ix q)).
  Proof.
    intros Hp HL. rewrite send_ix_e. apply Forall_forall. intros l HI. apply in_map_iff in HI. destruct HI as [e [<- HI]]. apply filter_In in HI.
    destruct (ix_wf p Hp) as (_ & _ & HF). rewrite Forall_forall in HF. rewrite HL. apply HF. tauto.
  Qed.
  (** one message *)
  Lemma message_ok p q (v : list B) : p < P -> q < P -> length v = sz q ->
    exists v', scatter op v (recv_ix S D (ix q) (ix p)) (map (fun i => nth i (S0 p) b0) (send_ix S D (ix p) (ix q))) = Ok v' /\ length v' = sz q /\
      (forall e', In e' (ix q) -> nth (e_l e') v' b0 = recv1 e' (nth (e_l e') v b0) p) /\ (forall i, ~ In i (map e_l (ix q)) -> nth i v' b0 = nth i v b0).
  Proof.
    intros Hp Hq HL. pose proof (ix_wf p Hp) as WP. pose proof (ix_wf q Hq) as WQ. rewrite recv_ix_e, send_ix_e, map_map.
    pose proof (send_recv_match S D _ _ _ _ WP WQ) as HM. set (X := send_e S D (ix p) (ix q)) in *. set (Y := recv_e S D (ix q) (ix p)) in *.
    assert (LXY : length X = length Y) by (rewrite <- (map_length e_g X), HM; apply map_length).
    assert (NY : NoDup (map e_l Y)) by (apply NoDup_filter_map; apply WQ).
    destruct (scatter_ok (map e_l Y) v (map (fun e => nth (e_l e) (S0 p) b0) X)) as (v' & E & L & V1 & V2); auto.
    { apply Forall_forall. intros l HI. apply in_map_iff in HI. destruct HI as [e [<- HI]]. apply filter_In in HI. destruct WQ as (_ & _ & HF). rewrite Forall_forall in HF. rewrite HL. apply HF; tauto. }
    { rewrite !map_length. auto. }
    exists v'. split; auto. split; [congruence|]. split.
    - intros e' HI. unfold recv1, contrib. destruct (in_dec entry_dec e' Y) as [HY|HY].
      + destruct (In_nth _ _ (mke 0 0 Owner) HY) as [k [Hk Ek]]. specialize (V1 k). rewrite map_length in V1. specialize (V1 Hk).
        assert (Ek' : nth k (map e_l Y) 0 = e_l e') by (rewrite (nth_indep _ 0 (e_l (mke 0 0 Owner))), map_nth, Ek by (rewrite map_length; auto); reflexivity). rewrite Ek' in V1. rewrite V1.
        assert (EG : e_g (nth k X (mke 0 0 Owner)) = e_g e'). { rewrite <- Ek, <- !(map_nth e_g), HM. reflexivity. }
        assert (HX : In (nth k X (mke 0 0 Owner)) X) by (apply nth_In; lia).
        unfold X in HX at 2. apply filter_In in HX. destruct HX as [HX1 HX2].
        rewrite (proj2 (lookup_spec (ix p) (e_g e') (nth k X (mke 0 0 Owner)) (proj1 WP))) by auto. rewrite EG in HX2. rewrite (proj2 (lookup_spec (ix q) (e_g e') e' (proj1 WQ))) in HX2 by auto. rewrite HX2.
        f_equal. rewrite (nth_indep _ b0 ((fun e => nth (e_l e) (S0 p) b0) (mke 0 0 Owner))) by (rewrite map_length; lia). rewrite (map_nth (fun e => nth (e_l e) (S0 p) b0)). reflexivity.
      + rewrite V2.
        * destruct (lookup (ix p) (e_g e')) as [e|] eqn:EL; auto. destruct (S (e_a e) && D (e_a e')) eqn:EF; auto. exfalso. apply HY. apply filter_In. split; auto. rewrite EL. auto.
        * intros HL'. apply in_map_iff in HL'. destruct HL' as [e2 [E2 H2]]. apply HY. replace e' with e2; auto.
          assert (H2' : In e2 (ix q)) by (apply filter_In in H2; tauto). destruct WQ as (_ & ND & _). clear - ND HI H2' E2. induction (ix q) as [|a t IH]; [destruct HI|].
          cbn [map] in ND. inversion ND as [|? ? N1 N2]. destruct HI as [->|HI], H2' as [->|H2']; auto.
          -- exfalso. apply N1. rewrite <- E2. apply in_map; auto.
          -- exfalso. apply N1. rewrite E2. apply in_map; auto.
    - intros i Hi. apply V2. intros HI. apply Hi. apply in_map_iff in HI. destruct HI as [e [<- HI]]. apply in_map. apply filter_In in HI. tauto.
  Qed.

  Definition inv_st (s : st) : Prop := forall q, q < P ->
    (bufs s q = None -> rcv s q = [] /\ dst s q = d0 q) /\
    (forall m, bufs s q = Some m -> forall r, r < P -> m r = map (fun i => nth i (S0 q) b0) (send_ix S D (ix q) (ix r))) /\
    NoDup (rcv s q) /\ Forall (fun p => p < P /\ p <> q) (rcv s q) /\ length (dst s q) = sz q /\
    (forall e', In e' (ix q) -> nth (e_l e') (dst s q) b0 = fold_left (recv1 e') (rcv s q) (nth (e_l e') (d0 q) b0)) /\
    (forall i, ~ In i (map e_l (ix q)) -> nth i (dst s q) b0 = nth i (d0 q) b0).
  Lemma source_S0 s p : inv_st s -> p < P -> bufs s p = None -> source src s p = S0 p.
  Proof. intros HI Hp HB. unfold source, S0. destruct src; auto. apply (HI p Hp); auto. Qed.
  Lemma inv_start : inv_st (start d0).
  Proof.
    intros q Hq. cbn [start bufs rcv dst]. split; [auto|]. split; [discriminate|]. split; [constructor|]. split; [constructor|]. split; auto.
  Qed.
  Lemma inv_step s o : inv_st s -> step op P ix S D src s o -> exists s', o = Ok s' /\ inv_st s'.
  Proof.
    intros HI HS. destruct HS as [s p m Hp HB HG|s p q Hp Hq Hn HB HG|s p q m Hp Hq Hn HBq HBp HR].
    - eexists. split; [reflexivity|]. intros q Hq. destruct (HI q Hq) as (I1 & I2 & I3 & I4 & I5 & I6 & I7). cbn [dst bufs rcv]. unfold fupd. destruct (Nat.eqb_spec q p) as [->|Hne].
      + split; [discriminate|]. split; [|auto 10]. intros m' Em r Hr. injection Em as <-. specialize (HG r Hr). rewrite (source_S0 s p) in HG by auto.
        rewrite gather_ok in HG by (apply send_bounds; auto; apply S0_sz; auto). injection HG as HG. auto.
      + auto 10.
    - exfalso. rewrite (source_S0 s p) in HG by auto. rewrite gather_ok in HG by (apply send_bounds; auto; apply S0_sz; auto). discriminate.
    - destruct (HI q Hq) as (I1 & I2 & I3 & I4 & I5 & I6 & I7). destruct (HI p Hp) as (_ & J2 & _). specialize (J2 m HBp q Hq). rewrite J2.
      destruct (message_ok p q (dst s q) Hp Hq I5) as (v' & E & L & V1 & V2). rewrite E. cbn [obind]. eexists. split; [reflexivity|]. intros r Hr. cbn [dst bufs rcv]. unfold fupd.
      destruct (Nat.eqb_spec r q) as [->|Hne]; [|apply HI; auto].
      split; [intros HN; contradiction|]. split; [auto|]. split.
      { apply (Permutation_NoDup (l := p :: rcv s q)); [apply Permutation_cons_append|]. constructor; auto. }
      split; [apply Forall_app; split; auto|]. split; auto. split.
      + intros e' He'. rewrite fold_left_app. cbn [fold_left]. rewrite V1, I6 by auto. reflexivity.
      + intros i Hi. rewrite V2 by auto. apply I7; auto.
  Qed.
  Lemma inv_reach s : reach op P ix S D src (start d0) s -> inv_st s.
  Proof. induction 1 as [|s s' HR IH HS]; [apply inv_start|]. destruct (inv_step s _ IH HS) as [s2 [E H]]. injection E as <-. exact H. Qed.

  (** *** no deadlock, no infinite run *)
  Definition unsent (s : st (B := B)) (q : nat) : nat := match bufs s q with None => 1 | Some _ => 0 end.
  Definition mu (s : st (B := B)) : nat := list_sum (map (fun q => unsent s q + (P - length (rcv s q))) (seq 0 P)).
  Lemma rcv_le s q : inv_st s -> q < P -> length (rcv s q) <= P.
  Proof.
    intros HI Hq. destruct (HI q Hq) as (_ & _ & I3 & I4 & _). rewrite <- (seq_length P 0). apply NoDup_incl_length; auto. intros p Hp. rewrite Forall_forall in I4. apply in_seq. specialize (I4 p Hp). lia.
  Qed.
  Lemma list_sum_lt (f g : nat -> nat) (l : list nat) k : In k l -> (forall q, In q l -> f q <= g q) -> f k < g k -> list_sum (map f l) < list_sum (map g l).
  Proof.
    induction l as [|a t IH]; intros HI HL HK; [destruct HI|]. cbn [map list_sum fold_right]. change (fold_right Nat.add 0 (map f t)) with (list_sum (map f t)). change (fold_right Nat.add 0 (map g t)) with (list_sum (map g t)).
    assert (LE : forall t', (forall q, In q t' -> f q <= g q) -> list_sum (map f t') <= list_sum (map g t')).
    { induction t' as [|b t' IH']; intros H; cbn; auto. specialize (H b (or_introl eq_refl)) as Hb. assert (list_sum (map f t') <= list_sum (map g t')) by (apply IH'; intros; apply H; right; auto). unfold list_sum in *. lia. }
    specialize (HL a (or_introl eq_refl)) as Ha. destruct HI as [->|HI].
    - specialize (LE t (fun q h => HL q (or_intror h))). lia.
    - specialize (IH HI (fun q h => HL q (or_intror h)) HK). lia.
  Qed.
  Lemma step_mu s s' : inv_st s -> step op P ix S D src s (Ok s') -> mu s' < mu s.
  Proof.
    intros HI HS. destruct (inv_step s _ HI HS) as [s2 [E HI2]]. injection E as <-. remember (Ok s') as o eqn:Eo. destruct HS as [s p m Hp HB HG|s p q Hp Hq Hn HB HG|s p q m Hp Hq Hn HBq HBp HR]; [| discriminate |].
    - injection Eo as <-. unfold mu. apply (list_sum_lt _ _ _ p); [apply in_seq; lia| |].
      + intros q _. unfold unsent. cbn [bufs rcv]. unfold fupd. destruct (q =? p); destruct (bufs s q); lia.
      + unfold unsent. cbn [bufs rcv]. unfold fupd. rewrite Nat.eqb_refl, HB. lia.
    - destruct (scatter op (dst s q) (recv_ix S D (ix q) (ix p)) (m q)) as [v| |]; try discriminate. cbn [obind] in Eo. injection Eo as <-. pose proof (rcv_le _ q HI2 Hq) as LE. cbn [rcv] in LE. unfold fupd in LE. rewrite Nat.eqb_refl, app_length in LE. cbn [length] in LE.
      unfold mu. apply (list_sum_lt _ _ _ q); [apply in_seq; lia| |].
      + intros r _. unfold unsent. cbn [bufs rcv]. unfold fupd. destruct (Nat.eqb_spec r q) as [->|]; [rewrite app_length; cbn [length]|]; lia.
      + unfold unsent. cbn [bufs rcv]. unfold fupd. rewrite Nat.eqb_refl, app_length. cbn [length]. lia.
  Qed.
  Lemma find_or_all {X} (f : X -> bool) l : {x | In x l /\ f x = true} + {forall x, In x l -> f x = false}.
  Proof.
    induction l as [|a t [[x [H1 H2]]|IH]]; [right; intros x []|left; exists x; split; auto; right; auto|]. destruct (f a) eqn:E; [left; exists a; split; auto; left; auto|].
    right. intros x [<-|H]; auto.
  Qed.
  Lemma progress s : inv_st s -> finished P s \/ exists s', step op P ix S D src s (Ok s').
  Proof.
    intros HI. destruct (find_or_all (fun q => match bufs s q with None => true | _ => false end) (seq 0 P)) as [[p [H1 H2]]|HA].
    - right. apply in_seq in H1. eexists. apply (step_send_ok op P ix S D src s p (fun q => map (fun i => nth i (S0 p) b0) (send_ix S D (ix p) (ix q)))); [lia|destruct (bufs s p); auto; discriminate|].
      intros q Hq. rewrite (source_S0 s p); auto; [|lia|destruct (bufs s p); auto; discriminate]. apply gather_ok. apply send_bounds; [lia|apply S0_sz; lia].
    - assert (SENT : forall q, q < P -> exists m, bufs s q = Some m). { intros q Hq. specialize (HA q). destruct (bufs s q); eauto. enough (true = false) by discriminate. apply HA. apply in_seq. lia. }
      destruct (find_or_all (fun c => negb (fst c =? snd c) && negb (existsb (Nat.eqb (fst c)) (rcv s (snd c)))) (list_prod (seq 0 P) (seq 0 P))) as [[[p q] [H1 H2]]|HF].
      + right. apply in_prod_iff in H1. destruct H1 as [Hp Hq]. apply in_seq in Hp, Hq. cbn [fst snd] in H2. apply andb_true_iff in H2. destruct H2 as [Hne Hr]. apply negb_true_iff in Hne, Hr. apply Nat.eqb_neq in Hne.
        destruct (SENT p ltac:(lia)) as [m Em]. destruct (SENT q ltac:(lia)) as [mq Emq].
        assert (ST : step op P ix S D src s (obind (scatter op (dst s q) (recv_ix S D (ix q) (ix p)) (m q)) (fun v => Ok (mkst (fupd (dst s) q v) (bufs s) (fupd (rcv s) q (rcv s q ++ [p])))))).
        { apply step_recv; auto; try lia; [congruence|]. intros HIn. assert (existsb (Nat.eqb p) (rcv s q) = true) by (apply existsb_exists; exists p; split; auto; apply Nat.eqb_refl). congruence. }
        destruct (inv_step s _ HI ST) as [s' [E _]]. rewrite E in ST. eauto.
      + left. intros p q Hp Hq Hne. specialize (HF (p, q)). cbn [fst snd] in HF. assert (HIn : In (p, q) (list_prod (seq 0 P) (seq 0 P))) by (apply in_prod_iff; split; apply in_seq; lia). specialize (HF HIn).
        apply andb_false_iff in HF. destruct HF as [HF|HF]; apply negb_false_iff in HF; [apply Nat.eqb_eq in HF; congruence|]. apply existsb_exists in HF. destruct HF as [x [HX E]]. apply Nat.eqb_eq in E. subst x. auto.
  Qed.
  Lemma completes s : reach op P ix S D src (start d0) s -> exists s', reach op P ix S D src (start d0) s' /\ finished P s'.
  Proof.
    remember (mu s) as k eqn:Ek. revert s Ek. induction k as [k IH] using lt_wf_ind. intros s Ek HR. pose proof (inv_reach s HR) as HI. destruct (progress s HI) as [HF|[s' HS]]; [eauto|].
    pose proof (step_mu s s' HI HS). apply (IH (mu s')) with (s := s'); [lia|auto|]. eapply reach_S; eauto.
  Qed.
  (** the senders, in arrival order, are all other processes *)
  Lemma finished_perm s q : inv_st s -> finished P s -> q < P -> Permutation (rcv s q) (filter (fun p => negb (p =? q)) (seq 0 P)).
  Proof.
    intros HI HF Hq. destruct (HI q Hq) as (_ & _ & I3 & I4 & _). apply NoDup_Permutation; auto; [apply NoDup_filter, seq_NoDup|]. intros p. rewrite filter_In, in_seq, negb_true_iff, Nat.eqb_neq. rewrite Forall_forall in I4. split.
    - intros H. specialize (I4 p H). lia.
    - intros [H1 H2]. apply HF; lia.
  Qed.
End CommProofs.
