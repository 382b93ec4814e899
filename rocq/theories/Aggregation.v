(** * Building aggregates: Aggregator::build (dune/istl/paamg/aggregates.hh:2399-2547) (C47) *)
From Coq Require Import Arith List Lia Bool Sorted ZArith Permutation.
From Verif Require Import Ring Sums Outcome Sparse AmgTransfer Bfs AggPattern.
Import ListNotations.
Open Scope nat_scope.

Section Aggregation.
  (** the graph: targets of the edges of a vertex; flags of an edge (source, target) and of a vertex after buildDependency, aggregates.hh:1813-1868 *)
  Variable adj : nat -> list nat.
  Variables depends influences : nat -> nat -> bool.
  Variables isolated excludedBorder : nat -> bool.
  (** parameters of the coarsening criterion (paamg/parameters.hh) *)
  Variables (minAggregateSize maxAggregateSize maxDistance maxConnectivity : nat) (skipIsolated : bool).
  (** connectivity (a double) is value/noNeighbours; only compared by == and >.  Any type and any comparison, so also NaN and rounding. *)
  Variable D : Type.
  Variables (quot : Z -> Z -> D) (dminus1 : D) (deq dgt : D -> D -> bool).

  Record state : Type := mkst {
    s_agg : nat -> aggd;          (* the AggregatesMap *)
    s_flag : nat -> bool;         (* VertexProperties::front *)
    s_front : list nat;           (* front_ *)
    s_verts : list nat;           (* Aggregate::vertices_, a set; the order is irrelevant *)
    s_conn : list aggd;           (* connected_, a set *)
    s_id : nat                    (* Aggregate::id_ *)
  }.
  (** std::set::insert *)
  Definition vinsert (v : nat) (l : list nat) : list nat := if existsb (Nat.eqb v) l then l else v :: l.
  Definition cinsert (a : aggd) (l : list aggd) : list aggd := if existsb (aggd_eqb a) l then l else a :: l.
  (** std::sort *)
  Fixpoint isert (j : nat) (l : list nat) : list nat := match l with nil => [j] | k :: t => if j <=? k then j :: l else k :: isert j t end.
  Fixpoint isort (l : list nat) : list nat := match l with nil => nil | j :: t => isert j (isort t) end.
  (** std::set_difference of sorted ranges *)
  Fixpoint sdiff (l1 : list nat) : list nat -> list nat :=
    match l1 with
    | nil => fun _ => nil
    | a :: t1 => fix aux (l2 : list nat) : list nat := match l2 with
                 | nil => a :: t1
                 | b :: t2 => if a <? b then a :: sdiff t1 (b :: t2) else if b <? a then aux t2 else sdiff t1 t2
                 end
    end.
  (** front_.erase(std::lower_bound(front_.begin(), front_.end(), vertex)): the first element not below vertex; erasing end() is undefined *)
  Fixpoint erase_lb (v : nat) (l : list nat) : outcome (list nat) :=
    match l with nil => UB | k :: t => if k <? v then obind (erase_lb v t) (fun t' => Ok (k :: t')) else Ok t end.

  (** the loop over the edges of an added vertex, aggregates.hh:1570-1580, 1611-1622 *)
  Definition add_edge (st : state) (t : nat) : state :=
    let conn := cinsert (s_agg st t) (s_conn st) in
    if aggd_eqb (s_agg st t) Unagg && negb (s_flag st t)
    then mkst (s_agg st) (fupd (s_flag st) t true) (s_front st ++ [t]) (s_verts st) conn (s_id st)
    else mkst (s_agg st) (s_flag st) (s_front st) (s_verts st) conn (s_id st).
  Definition with_front (st : state) (f : list nat) : state := mkst (s_agg st) (s_flag st) f (s_verts st) (s_conn st) (s_id st).
  (** Aggregate::add(const Vertex&), aggregates.hh:1560-1583 *)
  Definition add1 (st : state) (v : nat) : outcome state :=
    obind (match s_front st with nil => Ok nil | f => erase_lb v f end) (fun f =>
    let st1 := mkst (fupd (s_agg st) v (Agg (s_id st))) (s_flag st) f (vinsert v (s_verts st)) (s_conn st) (s_id st) in
    let st2 := fold_left add_edge (adj v) st1 in
    Ok (with_front st2 (isort (s_front st2)))).
  (** one vertex of Aggregate::add(std::vector&), :1603-1624 *)
  Definition add_one_of (st : state) (v : nat) : state :=
    fold_left add_edge (adj v) (mkst (fupd (s_agg st) v (Agg (s_id st))) (fupd (s_flag st) v false) (s_front st) (vinsert v (s_verts st)) (s_conn st) (s_id st)).
  (** Aggregate::add(std::vector<Vertex>&), :1586-1627 *)
  Definition add_many (st : state) (vs : list nat) : state :=
    let st2 := fold_left add_one_of vs (with_front st (sdiff (s_front st) vs)) in with_front st2 (isort (s_front st2)).
  (** Aggregate::seed, :1547-1556 (id_ is incremented; [s_id] is already the new value) *)
  Definition seed_agg (st : state) (v : nat) : outcome state :=
    add1 (mkst (s_agg st) (s_flag st) (s_front st) [] (cinsert (Agg v) []) (s_id st)) v.
  (** unmarkFront, :2141-2150 *)
  Definition unmarkFront (st : state) : state := mkst (s_agg st) (fold_left (fun f v => fupd f v false) (s_front st) (s_flag st)) [] (s_verts st) (s_conn st) (s_id st).

  (** counters, :1909-2029, 2208-2214: int values *)
  Definition countZ (f : nat -> Z) (v : nat) : Z := fold_left (fun c t => (c + f t)%Z) (adj v) 0%Z.
  Definition b2z (b : bool) : Z := if b then 1%Z else 0%Z.
  Definition twoWay (st : state) (v : nat) : Z := countZ (fun t => b2z (aggd_eqb (s_agg st t) (Agg (s_id st)) && (depends v t && influences v t))) v.
  Definition oneWay (st : state) (v : nat) : Z := countZ (fun t => b2z (aggd_eqb (s_agg st t) (Agg (s_id st)) && (depends v t && negb (influences v t)))) v.
  Definition noNeighbours (v : nat) : Z := Z.of_nat (length (adj v)).
  Definition connectivity (st : state) (v : nat) : D :=
    quot (countZ (fun t => if negb (existsb (aggd_eqb (s_agg st t)) (s_conn st)) || aggd_eqb (s_agg st t) Unagg then 1%Z else 2%Z) v) (noNeighbours v).
  Definition noFront (st : state) (v : nat) : Z := countZ (fun t => b2z (s_flag st t)) v.
  Definition depcount (st : state) (a : aggd) (v : nat) : Z := countZ (fun t => if aggd_eqb (s_agg st t) a then (b2z (depends v t) + b2z (influences v t))%Z else 0%Z) v.

  (** candidate search of growIsolatedAggregate, :2238-2270.  nonisoNeighbourAggregate (:2153-2166) loops from beginEdges to beginEdges, so its list is always empty;
      distance (:2032-2041) always returns 0. *)
  Definition iso_acc : Type := (D * Z * option nat)%type.
  Definition iso_step (st : state) (acc : iso_acc) (v : nat) : iso_acc :=
    let '(maxCon, maxFN, cand) := acc in
    let con := connectivity st v in
    if deq con maxCon then (if (maxFN <=? noFront st v)%Z then (maxCon, noFront st v, Some v) else acc)
    else if dgt con maxCon then (con, noFront st v, Some v) else acc.
  (** growIsolatedAggregate, aggregates.hh:2231-2277; None: does not end within fuel rounds *)
  Fixpoint growIsolated (fuel : nat) (st : state) : outcome (option state) :=
    match fuel with
    | 0 => Ok None
    | S fuel' => if (length (s_verts st) <? minAggregateSize) && (length (s_conn st) <? maxConnectivity) then
                   match snd (fold_left (iso_step st) (s_front st) (dminus1, 0%Z, None)) with
                   | None => Ok (Some st)
                   | Some c => obind (add1 st c) (growIsolated fuel')
                   end
                 else Ok (Some st)
    end.
  (** candidate search of growAggregate, :2289-2379; admissible (:2060-2138) always returns true *)
  Record gacc : Type := mkg { g_two : Z; g_one : Z; g_nb : Z; g_con : D; g_cand : list nat }.
  Definition INT_MAX : Z := 2147483647%Z.
  Definition grow_step (st : state) (a : gacc) (v : nat) : gacc :=
    if isolated v then a else
    let two := twoWay st v in
    let a1 :=
      if (g_two a =? two)%Z && (0 <? two)%Z then
        let con := connectivity st v in
        if deq con (g_con a) then
          let nb := noFront st v in
          if (g_nb a <? nb)%Z then mkg (g_two a) (g_one a) nb (g_con a) [v] else mkg (g_two a) (g_one a) (g_nb a) (g_con a) (g_cand a ++ [v])
        else if dgt con (g_con a) then mkg (g_two a) (g_one a) (noFront st v) con [v] else a
      else if (g_two a <? two)%Z then mkg two INT_MAX (noFront st v) (connectivity st v) [v] else a in
    if (0 <? two)%Z then a1 else
    let one := oneWay st v in
    if (one =? 0)%Z then a1 else
    if (g_one a1 =? one)%Z && (0 <? one)%Z then
      let con := connectivity st v in
      if deq con (g_con a1) then
        let nb := noFront st v in
        if (g_nb a1 <? nb)%Z then mkg (g_two a1) (g_one a1) nb (g_con a1) [v]
        else if (nb =? g_nb a1)%Z then mkg (g_two a1) (g_one a1) (g_nb a1) (g_con a1) (g_cand a1 ++ [v]) else a1
      else if dgt con (g_con a1) then mkg (g_two a1) (g_one a1) (noFront st v) con [v] else a1
    else if (g_one a1 <? one)%Z then mkg (g_two a1) one (noFront st v) (connectivity st v) [v] else a1.
  (** candidates.resize(min(candidates.size(), maxAggregateSize - size)), with the wrap-around of size_t *)
  Definition resize (st : state) (c : list nat) : list nat := if maxAggregateSize <? length (s_verts st) then c else firstn (maxAggregateSize - length (s_verts st)) c.
  (** growAggregate, :2281-2388 *)
  Fixpoint growAggregate (fuel : nat) (st : state) : option state :=
    match fuel with
    | 0 => None
    | S fuel' => if (length (s_verts st) <? minAggregateSize) && (0 <? maxDistance) then
                   match g_cand (fold_left (grow_step st) (s_front st) (mkg 0%Z 0%Z (-1)%Z dminus1 [])) with
                   | nil => Some st
                   | c => growAggregate fuel' (add_many st (resize st c))
                   end
                 else Some st
    end.
  (** the rounding step, :2457-2494 *)
  Definition roundable (st : state) (v : nat) : bool :=
    negb (isolated v) && negb ((twoWay st v =? 0)%Z && (oneWay st v =? 0)%Z) && negb (depcount st (Agg (s_id st)) v <=? depcount st Unagg v)%Z.
  Fixpoint rounding (fuel : nat) (seed : nat) (st : state) : option state :=
    match fuel with
    | 0 => None
    | S fuel' => if negb (isolated seed) && (length (s_verts st) <? maxAggregateSize) then
                   match find (roundable st) (s_front st) with
                   | None => Some st
                   | Some v => rounding fuel' seed (add_many st (resize st [v]))
                   end
                 else Some st
    end.
  (** mergeNeighbour, :2169-2186 *)
  Definition mergeNeighbour (st : state) (seed : nat) : option nat :=
    find (fun t => negb (aggd_eqb (s_agg st t) Unagg) && Bool.eqb (isolated t) (isolated seed) && (isolated seed || (depends seed t || influences seed t))) (adj seed).

  (** counters of build: conAggregates, isoAggregates, oneAggregates, skippedAggregates *)
  Record counts : Type := mkc { c_con : nat; c_iso : nat; c_one : nat; c_skip : nat }.
  (** one round of the loop in build, :2425-2534 for the popped seed.  [s_id] is the id the next seed gets (id_ + 1). *)
  Definition set_agg (st : state) (v : nat) (a : aggd) : state := mkst (fupd (s_agg st) v a) (s_flag st) (s_front st) (s_verts st) (s_conn st) (s_id st).
  Definition next_id (st : state) : state := mkst (s_agg st) (s_flag st) (s_front st) (s_verts st) (s_conn st) (S (s_id st)).
  Definition one_seed (fuel : nat) (seed : nat) (st0 : state) (c : counts) : outcome (option (state * counts)) :=
    let st := unmarkFront st0 in
    if excludedBorder seed || (isolated seed && skipIsolated) then Ok (Some (set_agg st seed Iso, mkc (c_con c) (c_iso c) (c_one c) (S (c_skip c))))
    else
      obind (obind (seed_agg st seed) (fun st1 => if isolated seed then growIsolated fuel st1 else Ok (growAggregate fuel st1))) (fun o1 =>
      match o1 with None => Ok None | Some st2 =>
      match rounding fuel seed st2 with None => Ok None | Some st3 =>
      if (length (s_verts st3) =? 1) && (1 <? maxAggregateSize) then
        if negb (isolated seed) then
          match mergeNeighbour st3 seed with
          | Some t => Ok (Some (set_agg st3 seed (s_agg st3 t), c))     (* invalidate(): --id_ *)
          | None => Ok (Some (next_id st3, mkc (S (c_con c)) (c_iso c) (S (c_one c)) (c_skip c)))
          end
        else Ok (Some (next_id st3, mkc (c_con c) (S (c_iso c)) (S (c_one c)) (c_skip c)))
      else if isolated seed then Ok (Some (next_id st3, mkc (c_con c) (S (c_iso c)) (c_one c) (c_skip c)))
      else Ok (Some (next_id st3, mkc (S (c_con c)) (c_iso c) (c_one c) (c_skip c)))
      end end).
  (** the loop with Stack::pop, :2422-2536, 2566-2579: the unaggregated vertices in order *)
  Fixpoint seeds (fuel : nat) (vs : list nat) (st : state) (c : counts) : outcome (option (state * counts)) :=
    match vs with
    | nil => Ok (Some (st, c))
    | v :: r => if aggd_eqb (s_agg st v) Unagg then obind (one_seed fuel v st c) (fun o => match o with None => Ok None | Some (st', c') => seeds fuel r st' c' end)
                else seeds fuel r st c
    end.
  (** Aggregator::build on n vertices, all unaggregated: the map and (noAggregates, isoAggregates, oneAggregates, skippedAggregates) *)
  Definition buildAggregates (n : nat) : outcome (option ((nat -> aggd) * (nat * nat * nat * nat))) :=
    obind (seeds (S n) (seq 0 n) (mkst (fun _ => Unagg) (fun _ => false) [] [] [] 0) (mkc 0 0 0 0))
      (fun o => Ok (option_map (fun r => (s_agg (fst r), (c_con (snd r) + c_iso (snd r), c_iso (snd r), c_one (snd r), c_skip (snd r)))) o)).

  (** ** Lists *)
  Lemma isert_in x j l : In x (isert j l) <-> x = j \/ In x l.
  Proof. induction l as [|k t IH]; cbn [isert]; [cbn; intuition|]. destruct (j <=? k); cbn [In]; [intuition|]. rewrite IH. intuition. Qed.
  Lemma isort_in x l : In x (isort l) <-> In x l.
  Proof. induction l as [|k t IH]; cbn [isort]; [tauto|]. rewrite isert_in, IH. cbn. intuition. Qed.
  Lemma isert_sorted j l : StronglySorted lt l -> ~ In j l -> StronglySorted lt (isert j l).
  Proof.
    intros H. induction H as [|k t Hs IH F]; intros N; cbn [isert]; [repeat constructor|].
    destruct (Nat.leb_spec j k) as [L|L].
    - assert (j < k) by (destruct (Nat.eq_dec j k) as [->|]; [exfalso; apply N; left; auto|lia]).
      constructor; [constructor; auto|]. constructor; auto. eapply Forall_impl; [|exact F]. cbn. intros; lia.
    - constructor; [apply IH; intros Q; apply N; right; auto|]. rewrite Forall_forall in *. intros x Hx. apply isert_in in Hx. destruct Hx as [->|Hx]; auto.
  Qed.
  Lemma isort_sorted l : NoDup l -> StronglySorted lt (isort l).
  Proof. intros H. induction H as [|k t N ND IH]; cbn [isort]; [constructor|]. apply isert_sorted; auto. rewrite isort_in. auto. Qed.
  Lemma sorted_nodup l : StronglySorted lt l -> NoDup l.
  Proof. intros H. induction H as [|k t Hs IH F]; constructor; auto. intros Q. rewrite Forall_forall in F. specialize (F _ Q). lia. Qed.
  Lemma sdiff_in l1 : forall l2, StronglySorted lt l1 -> StronglySorted lt l2 -> forall x, In x (sdiff l1 l2) <-> In x l1 /\ ~ In x l2.
  Proof.
    induction l1 as [|a t1 IH1]; intros l2 H1; [cbn; tauto|]. apply StronglySorted_inv in H1 as [H1 F1]. rewrite Forall_forall in F1.
    induction l2 as [|b t2 IH2]; intros H2 x; [cbn; tauto|]. pose proof H2 as H2'. apply StronglySorted_inv in H2 as [H2 F2]. rewrite Forall_forall in F2.
    change (sdiff (a :: t1) (b :: t2)) with (if a <? b then a :: sdiff t1 (b :: t2) else if b <? a then sdiff (a :: t1) t2 else sdiff t1 t2).
    destruct (Nat.ltb_spec a b) as [L|L]; [|destruct (Nat.ltb_spec b a) as [L'|L']].
    - cbn [In]. rewrite (IH1 (b :: t2) H1 H2' x). cbn [In]. split; [intros [->|[Q1 Q2]]; split; auto; intros [->|Q]; [lia|specialize (F2 _ Q); lia]|].
      intros [[->|Q] Q2]; auto.
    - rewrite (IH2 H2 x). cbn [In]. split; intros [Q1 Q2]; split; auto. intros [->|Q]; auto. destruct Q1 as [->|Q1]; [lia|specialize (F1 _ Q1); lia].
    - assert (a = b) by lia. subst b. rewrite (IH1 t2 H1 H2 x). cbn [In]. split; [intros [Q1 Q2]; split; auto; intros [->|Q]; auto; specialize (F1 _ Q1); lia|].
      intros [[->|Q1] Q2]; [exfalso; auto|auto].
  Qed.
  Lemma sdiff_incl l1 : forall l2 x, In x (sdiff l1 l2) -> In x l1.
  Proof.
    induction l1 as [|a t1 IH1]; intros l2; [cbn; tauto|]. induction l2 as [|b t2 IH2]; intros x; [auto|].
    change (sdiff (a :: t1) (b :: t2)) with (if a <? b then a :: sdiff t1 (b :: t2) else if b <? a then sdiff (a :: t1) t2 else sdiff t1 t2).
    destruct (a <? b); [intros [->|Q]; [left; auto|right; eauto]|]. destruct (b <? a); [apply IH2|intros Q; right; eauto].
  Qed.
  Lemma sdiff_nodup l1 : forall l2, NoDup l1 -> NoDup (sdiff l1 l2).
  Proof.
    induction l1 as [|a t1 IH1]; intros l2 H; [constructor|]. inversion H as [|? ? N ND]; subst. induction l2 as [|b t2 IH2]; [auto|].
    change (sdiff (a :: t1) (b :: t2)) with (if a <? b then a :: sdiff t1 (b :: t2) else if b <? a then sdiff (a :: t1) t2 else sdiff t1 t2).
    destruct (a <? b); [constructor; [intros Q; apply N; eapply sdiff_incl; eauto|auto]|]. destruct (b <? a); [apply IH2|auto].
  Qed.
  Lemma erase_lb_spec v l : StronglySorted lt l -> In v l -> exists l', erase_lb v l = Ok l' /\ (forall x, In x l' <-> In x l /\ x <> v) /\ NoDup l'.
  Proof.
    induction l as [|k t IH]; intros H Hv; [contradiction|]. pose proof (sorted_nodup _ H) as ND. inversion ND as [|? ? N1 N2]; subst. apply StronglySorted_inv in H as [H F]. rewrite Forall_forall in F. cbn [erase_lb].
    destruct (Nat.ltb_spec k v) as [L|L].
    - destruct Hv as [->|Hv]; [lia|]. destruct (IH H Hv) as (l' & E & I1 & I2). rewrite E. cbn [obind]. exists (k :: l'). split; auto. split.
      + intros x. cbn [In]. rewrite I1. split; [intros [->|[Q1 Q2]]; split; auto; lia|intros [[->|Q] Q2]; auto].
      + constructor; auto. rewrite I1. tauto.
    - assert (k = v) by (destruct Hv as [->|Hv]; auto; specialize (F _ Hv); lia). subst k. exists t. split; auto. split; auto.
      intros x. cbn [In]. split; [intros Q; split; auto; intros ->; auto|intros [[->|Q] Q2]; [congruence|auto]].
  Qed.
  Lemma vinsert_in x v l : In x (vinsert v l) <-> x = v \/ In x l.
  Proof.
    unfold vinsert. destruct (existsb (Nat.eqb v) l) eqn:E; [|cbn; intuition].
    apply existsb_exists in E. destruct E as (y & Hy & E). apply Nat.eqb_eq in E. subst y. intuition. subst; auto.
  Qed.
  Lemma vinsert_new v l : ~ In v l -> vinsert v l = v :: l.
  Proof. intros H. unfold vinsert. destruct (existsb (Nat.eqb v) l) eqn:E; auto. apply existsb_exists in E. destruct E as (y & Hy & E). apply Nat.eqb_eq in E. subst y. contradiction. Qed.

  (** ** One aggregate *)
  Variable n : nat.
  Hypothesis targets : forall v t, v < n -> In t (adj v) -> t < n.
  Hypothesis noself : forall v, ~ In v (adj v).
  Hypothesis symm : forall v t, v < n -> In t (adj v) -> In v (adj t).
  Let reach (a : nat -> aggd) (s v : nat) : Prop := closure adj a (fun _ => false) s v.
  Lemma closure_mono a a' s v : (forall x, a x = a s -> a' x = a' s) -> reach a s v -> reach a' s v.
  Proof.
    intros H C. induction C as [|x y C IH Hy Ea V]; [constructor|]. eapply cl_e; eauto.
  Qed.

  Section One.
    Variables (g0 : nat -> aggd) (s k : nat).
    Hypothesis fresh : forall v, g0 v <> Agg k.
    Hypothesis sn : s < n.
    Hypothesis s_un : g0 s = Unagg.
    Hypothesis below : forall v, v < s -> g0 v <> Unagg.
    (** a possible next vertex *)
    Definition cand (st : state) (v : nat) : Prop := v < n /\ s_agg st v = Unagg /\ exists u, s_agg st u = Agg k /\ In v (adj u).
    Record GI (st : state) : Prop := {
      gi_id : s_id st = k;
      gi_seed : s_agg st s = Agg k;
      gi_agg : forall v, s_agg st v = g0 v \/ (g0 v = Unagg /\ s_agg st v = Agg k);
      gi_v : forall v, In v (s_verts st) <-> s_agg st v = Agg k;
      gi_nd : NoDup (s_verts st);
      gi_r : forall v, s_agg st v = Agg k -> v < n /\ reach (s_agg st) s v;
      gi_f : forall v, In v (s_front st) -> cand st v /\ s_flag st v = true;
      gi_fn : NoDup (s_front st) }.
    Lemma gi_len st : GI st -> 1 <= length (s_verts st) <= n.
    Proof.
      intros H. split.
      - pose proof (gi_seed _ H) as E. apply (gi_v _ H) in E. destruct (s_verts st); [contradiction|cbn; lia].
      - rewrite <- (seq_length n 0). apply NoDup_incl_length; [apply (gi_nd _ H)|]. intros v Hv. apply (gi_v _ H) in Hv. apply (gi_r _ H) in Hv. apply in_seq. lia.
    Qed.
    Lemma add_edge_gi st u t : GI st -> s_agg st u = Agg k -> In t (adj u) ->
      GI (add_edge st t) /\ s_agg (add_edge st t) = s_agg st /\ s_verts (add_edge st t) = s_verts st /\
      (forall w, s_flag st w = true -> s_flag (add_edge st t) w = true) /\ (forall w, In w (s_front (add_edge st t)) -> In w (s_front st) \/ s_flag st w = false).
    Proof.
      intros H Hu Ht. unfold add_edge. destruct (aggd_eqb_spec (s_agg st t) Unagg) as [E|E]; cbn [andb]; [destruct (s_flag st t) eqn:EF; cbn [negb]|].
      1,3: split; [|cbn; repeat split; auto]; destruct H; constructor; cbn in *; auto.
      assert (NI : ~ In t (s_front st)) by (intros Q; apply (gi_f _ H) in Q; destruct Q; congruence).
      split; [|cbn; repeat split; auto].
      - destruct H; constructor; cbn in *; auto.
        + intros v Hv. apply in_app_or in Hv. destruct Hv as [Hv|[<-|[]]].
          * destruct (gi_f0 v Hv) as [C F]. split; [exact C|]. unfold fupd. destruct (v =? t); auto.
          * split; [|apply fupd_eq]. split; [|split]; cbn; auto; [|exists u; auto]. apply (targets u); auto. apply gi_r0; auto.
        + apply NoDup_rev in gi_fn0; rewrite <- (rev_involutive (s_front st ++ [t])); apply NoDup_rev; rewrite rev_app_distr; cbn; constructor; auto; rewrite <- in_rev; auto.
      - intros w Hw. unfold fupd. destruct (w =? t); auto.
      - intros w Hw. apply in_app_or in Hw. destruct Hw as [Hw|[<-|[]]]; auto.
    Qed.
    Lemma add_edges_gi u ts : forall st, incl ts (adj u) -> GI st -> s_agg st u = Agg k ->
      let st' := fold_left add_edge ts st in
      GI st' /\ s_agg st' = s_agg st /\ s_verts st' = s_verts st /\
      (forall w, s_flag st w = true -> s_flag st' w = true) /\ (forall w, In w (s_front st') -> In w (s_front st) \/ s_flag st w = false).
    Proof.
      induction ts as [|t r IH]; intros st HI H Hu; cbn [fold_left]; [split; [exact H|repeat split; auto]|].
      destruct (add_edge_gi st u t H Hu ltac:(apply HI; left; auto)) as (G1 & A1 & V1 & F1 & F2).
      destruct (IH (add_edge st t) ltac:(intros x Hx; apply HI; right; auto) G1 ltac:(rewrite A1; auto)) as (G2 & A2 & V2 & F3 & F4).
      split; [exact G2|]. repeat split; try congruence; auto. intros w Hw. destruct (F4 w Hw) as [Q|Q]; auto. destruct (s_flag st w) eqn:E; auto. rewrite (F1 w E) in Q. discriminate.
    Qed.
    (** the vertex is assigned; its flag may be reset *)
    Lemma assign_gi st f fl v : GI st -> cand st v -> (forall x, In x f -> In x (s_front st) /\ x <> v) -> NoDup f -> (forall x, x <> v -> s_flag st x = true -> fl x = true) ->
      GI (mkst (fupd (s_agg st) v (Agg (s_id st))) fl f (vinsert v (s_verts st)) (s_conn st) (s_id st)).
    Proof.
      intros H (Hn & Hu & u & Eu & Iu) Hf ND Hfl. assert (g0 v = Unagg) as G0. { destruct (gi_agg _ H v) as [Q|[Q _]]; congruence. }
      assert (NV : ~ In v (s_verts st)). { intros Q. apply (gi_v _ H) in Q. congruence. }
      assert (MO : forall x, s_agg st x = Agg k -> fupd (s_agg st) v (Agg k) x = Agg k). { intros x Hx. unfold fupd. destruct (x =? v); auto. }
      pose proof (gi_id _ H) as ID.
      constructor; cbn [s_id s_agg s_verts s_front s_flag]; rewrite ?ID; auto.
      - apply MO. apply (gi_seed _ H).
      - intros w. unfold fupd. destruct (Nat.eqb_spec w v) as [->|]; auto. apply (gi_agg _ H).
      - intros w. rewrite vinsert_in, (gi_v _ H w). unfold fupd. destruct (Nat.eqb_spec w v) as [->|]; [tauto|]. intuition.
      - rewrite vinsert_new by auto. constructor; auto. apply (gi_nd _ H).
      - assert (RM : forall w, s_agg st w = Agg k -> reach (fupd (s_agg st) v (Agg k)) s w).
        { intros w Hw. apply closure_mono with (a := s_agg st); [|apply (gi_r _ H); auto]. rewrite (gi_seed _ H). intros x Hx. rewrite !MO; auto. apply (gi_seed _ H). }
        intros w. destruct (Nat.eq_dec w v) as [->|NE]; [intros _|rewrite fupd_ne by auto; intros Hw; split; [apply (gi_r _ H); auto|apply RM; auto]].
        split; auto. eapply cl_e; [apply (RM u Eu)|auto| |auto]. rewrite fupd_eq. symmetry. apply MO. apply (gi_seed _ H).
      - intros x Hx. destruct (Hf x Hx) as [Q1 Q2]. destruct (gi_f _ H x Q1) as [(C1 & C2 & u' & C3 & C4) C5]. split; [|auto].
        split; [|split]; cbn; auto; [rewrite fupd_ne; auto|]. exists u'. rewrite ?ID. auto.
    Qed.
    Definition okst (st : state) : Prop := GI st /\ StronglySorted lt (s_front st).
    Lemma sort_ok st : GI st -> okst (with_front st (isort (s_front st))).
    Proof.
      intros H. split; [|cbn; apply isort_sorted, (gi_fn _ H)]. destruct H; constructor; cbn in *; auto.
      - intros v Hv. rewrite isort_in in Hv. apply gi_f0 in Hv. exact Hv.
      - apply sorted_nodup, isort_sorted; auto.
    Qed.
    Lemma add1_ok st v : okst st -> In v (s_front st) -> exists st', add1 st v = Ok st' /\ okst st' /\ length (s_verts st') = S (length (s_verts st)).
    Proof.
      intros [H SO] Hv. unfold add1. destruct (erase_lb_spec v _ SO Hv) as (l' & E & I1 & I2).
      assert (E' : match s_front st with nil => Ok nil | f => erase_lb v f end = Ok l') by (destruct (s_front st); [contradiction|exact E]). rewrite E'. cbn [obind].
      destruct (gi_f _ H v Hv) as [C F].
      pose proof (assign_gi st l' (s_flag st) v H C ltac:(apply I1) I2 ltac:(auto)) as G1. 
      destruct (add_edges_gi v (adj v) _ (incl_refl _) G1 ltac:(cbn; rewrite fupd_eq; f_equal; apply (gi_id _ H))) as (G2 & A2 & V2 & _).
      eexists. split; [reflexivity|]. split; [apply sort_ok; exact G2|]. cbn [with_front s_verts]. rewrite V2. cbn [s_verts]. rewrite vinsert_new; [reflexivity|].
      intros Q. apply (gi_v _ H) in Q. destruct C as (_ & C & _). congruence.
    Qed.
    Lemma add_many_fold vs : forall st, GI st -> NoDup vs -> (forall v, In v vs -> cand st v /\ s_flag st v = true /\ ~ In v (s_front st)) ->
      GI (fold_left add_one_of vs st) /\ length (s_verts (fold_left add_one_of vs st)) = length vs + length (s_verts st).
    Proof.
      induction vs as [|v r IH]; intros st H ND HC; cbn [fold_left]; [split; auto|]. inversion ND as [|? ? N1 N2]; subst.
      destruct (HC v (or_introl eq_refl)) as (C & F & NF).
      assert (Hfl : forall x, x <> v -> s_flag st x = true -> fupd (s_flag st) v false x = true) by (intros x Hx; rewrite fupd_ne; auto).
      pose proof (assign_gi st (s_front st) _ v H C ltac:(intros x Hx; split; auto; intros ->; auto) (gi_fn _ H) Hfl) as G1.
      pose proof (gi_id _ H) as ID.
      destruct (add_edges_gi v (adj v) _ (incl_refl _) G1 ltac:(cbn; rewrite fupd_eq; congruence)) as (G2 & A2 & V2 & F3 & F4).
      fold (add_one_of st v) in *.
      assert (VL : length (s_verts (add_one_of st v)) = S (length (s_verts st))).
      { rewrite V2. cbn [s_verts]. rewrite vinsert_new; [reflexivity|]. intros Q. apply (gi_v _ H) in Q. destruct C as (_ & C & _). congruence. }
      destruct (IH (add_one_of st v) G2 N2) as [G3 L3]; [|split; [exact G3|rewrite L3, VL; cbn [length]; lia]].
      intros w Hw. destruct (HC w (or_intror Hw)) as ((C1 & C2 & u & C3 & C4) & Fw & NFw). assert (w <> v) by congruence. split; [|split].
      - unfold cand. rewrite A2. cbn [s_agg]. rewrite fupd_ne by auto. split; auto. split; auto. exists u. split; auto. unfold fupd. destruct (u =? v); congruence.
      - apply F3. cbn. auto.
      - intros Q. apply F4 in Q. cbn [s_front s_flag] in Q. destruct Q as [Q|Q]; [auto|]. rewrite Hfl in Q; auto; discriminate.
    Qed.
    Lemma add_many_ok st vs : okst st -> StronglySorted lt vs -> incl vs (s_front st) -> okst (add_many st vs) /\ length (s_verts (add_many st vs)) = length vs + length (s_verts st).
    Proof.
      intros [H SO] SV HI. unfold add_many.
      assert (G1 : GI (with_front st (sdiff (s_front st) vs))).
      { destruct H; constructor; cbn in *; auto; [|apply sdiff_nodup; auto]. intros v Hv. apply sdiff_incl in Hv. apply gi_f0 in Hv. exact Hv. }
      destruct (add_many_fold vs _ G1 (sorted_nodup _ SV)) as [G2 L2].
      { intros v Hv. destruct (gi_f _ H v (HI v Hv)) as [C F]. split; [exact C|]. split; [exact F|]. cbn [with_front s_front]. rewrite sdiff_in by auto. tauto. }
      split; [apply sort_ok; exact G2|cbn [with_front s_verts]; rewrite L2; reflexivity].
    Qed.
    Hypothesis minmax : minAggregateSize <= maxAggregateSize.
    Lemma countZ_nonneg f v : (forall t, (0 <= f t)%Z) -> (0 <= countZ f v)%Z.
    Proof.
      intros H. unfold countZ. assert (G : forall l c, (0 <= c)%Z -> (0 <= fold_left (fun c t => (c + f t)%Z) l c)%Z).
      { induction l as [|t r IH]; intros c Hc; cbn [fold_left]; auto. apply IH. specialize (H t). lia. }
      apply G. lia.
    Qed.
    Lemma iso_fold st l : forall a, (forall v, snd (fold_left (iso_step st) l a) = Some v -> snd a = Some v \/ In v l).
    Proof.
      induction l as [|x r IH]; intros a v H; cbn [fold_left] in H; [auto|]. apply IH in H. destruct H as [H|H]; [|right; right; auto].
      unfold iso_step in H. destruct a as [[mc mf] cd]. destruct (deq _ _); [destruct (_ <=? _)%Z|destruct (dgt _ _)]; cbn [snd] in *; auto; right; left; congruence.
    Qed.
    Lemma growIsolated_ok fuel : forall st, okst st -> n - length (s_verts st) < fuel -> exists st', growIsolated fuel st = Ok (Some st') /\ okst st'.
    Proof.
      induction fuel as [|fuel IH]; intros st H F; [lia|]. cbn [growIsolated]. destruct ((length (s_verts st) <? minAggregateSize) && (length (s_conn st) <? maxConnectivity)); [|eauto].
      destruct (snd (fold_left (iso_step st) (s_front st) (dminus1, 0%Z, None))) as [v|] eqn:E; [|eauto].
      apply iso_fold in E. cbn [snd] in E. destruct E as [E|E]; [discriminate|]. destruct (add1_ok st v H E) as (st1 & E1 & H1 & L1). rewrite E1. cbn [obind]. apply IH; auto.
      destruct H1 as [H1 _]. apply gi_len in H1. lia.
    Qed.
    Lemma grow_step_cand st a v : (0 <= g_two a)%Z -> (0 <= g_two (grow_step st a v))%Z /\ (g_cand (grow_step st a v) = g_cand a \/ g_cand (grow_step st a v) = [v] \/ g_cand (grow_step st a v) = g_cand a ++ [v]).
    Proof.
      intros H. unfold grow_step. destruct (isolated v); [auto|].
      assert (0 <= twoWay st v)%Z as Htw by (apply countZ_nonneg; intros t; unfold b2z; destruct (_ && _); lia). revert Htw. generalize (twoWay st v) as two. intros two Htw.
      destruct (Z.ltb_spec 0 two) as [L|L].
      - rewrite andb_true_r. destruct (g_two a =? two)%Z; [destruct (deq _ _); [destruct (_ <? _)%Z|destruct (dgt _ _)]|destruct (_ <? _)%Z]; cbn [g_two g_cand]; auto.
      - rewrite andb_false_r. destruct (Z.ltb_spec (g_two a) two) as [L'|L']; [lia|].
        destruct (_ =? _)%Z; [auto|]. destruct (_ && _)%bool; [destruct (deq _ _); [destruct (_ <? _)%Z; [|destruct (_ =? _)%Z]|destruct (dgt _ _)]|destruct (_ <? _)%Z]; cbn [g_two g_cand]; auto.
    Qed.
    Lemma sorted_snoc l v : StronglySorted lt l -> (forall x, In x l -> x < v) -> StronglySorted lt (l ++ [v]).
    Proof.
      intros H. induction H as [|a t Hs IH F]; intros Hv; cbn [app]; [repeat constructor|]. constructor; [apply IH; intros; apply Hv; right; auto|].
      rewrite Forall_forall in *. intros x Hx. apply in_app_or in Hx. destruct Hx as [Hx|[<-|[]]]; auto. apply Hv; left; auto.
    Qed.
    Lemma grow_fold st l : forall a, (0 <= g_two a)%Z -> StronglySorted lt l -> StronglySorted lt (g_cand a) -> (forall x y, In x (g_cand a) -> In y l -> x < y) ->
      StronglySorted lt (g_cand (fold_left (grow_step st) l a)) /\ (forall x, In x (g_cand (fold_left (grow_step st) l a)) -> In x (g_cand a) \/ In x l).
    Proof.
      induction l as [|v r IH]; intros a H0 SL SC LT; cbn [fold_left]; [auto|]. apply StronglySorted_inv in SL as [SL F]. rewrite Forall_forall in F.
      destruct (grow_step_cand st a v H0) as [H1 HC].
      assert (IN : forall x, In x (g_cand (grow_step st a v)) -> In x (g_cand a) \/ x = v).
      { intros x Hx. destruct HC as [E|[E|E]]; rewrite E in Hx; auto; [destruct Hx as [<-|[]]; auto|]. apply in_app_or in Hx. destruct Hx as [Hx|[<-|[]]]; auto. }
      destruct (IH (grow_step st a v) H1 SL) as [S1 S2].
      - destruct HC as [E|[E|E]]; rewrite E; auto; [repeat constructor|]. apply sorted_snoc; auto. intros x Hx. apply LT; [auto|left; auto].
      - intros x y Hx Hy. destruct (IN x Hx) as [Q| ->]; [apply LT; [auto|right; auto]|auto].
      - split; auto. intros x Hx. destruct (S2 x Hx) as [Q|Q]; [destruct (IN x Q); subst; auto; right; left; auto|right; right; auto].
    Qed.
    Lemma firstn_sorted m : forall l, StronglySorted lt l -> StronglySorted lt (firstn m l).
    Proof.
      induction m as [|m IH]; intros l H; [constructor|]. destruct H as [|a t Hs F]; [constructor|]. cbn [firstn]. constructor; auto.
      rewrite Forall_forall in *. intros x Hx. apply F. rewrite <- (firstn_skipn m t). apply in_or_app. auto.
    Qed.
    Lemma growAggregate_ok fuel : forall st, okst st -> n - length (s_verts st) < fuel -> length (s_verts st) <= maxAggregateSize ->
      exists st', growAggregate fuel st = Some st' /\ okst st' /\ length (s_verts st') <= maxAggregateSize.
    Proof.
      induction fuel as [|fuel IH]; intros st H F LM; [lia|]. cbn [growAggregate]. destruct (Nat.ltb_spec (length (s_verts st)) minAggregateSize) as [L|L]; cbn [andb]; [|eauto].
      destruct (0 <? maxDistance); [|eauto].
      destruct (grow_fold st (s_front st) (mkg 0%Z 0%Z (-1)%Z dminus1 []) ltac:(cbn; lia) (proj2 H) ltac:(constructor) ltac:(intros ? ? [])) as [S1 S2].
      destruct (g_cand (fold_left (grow_step st) (s_front st) (mkg 0%Z 0%Z (-1)%Z dminus1 []))) as [|c0 cr] eqn:E; [eauto|].
      set (c := c0 :: cr) in *.
      assert (RC : resize st c = firstn (maxAggregateSize - length (s_verts st)) c). { unfold resize. destruct (Nat.ltb_spec maxAggregateSize (length (s_verts st))); auto. lia. }
      destruct (add_many_ok st (resize st c) H) as [H1 L1].
      { rewrite RC. apply firstn_sorted; auto. }
      { intros x Hx. rewrite RC in Hx. destruct (S2 x) as [[]|Q]; auto. rewrite <- (firstn_skipn (maxAggregateSize - length (s_verts st)) c). apply in_or_app; auto. }
      assert (LR : 1 <= length (resize st c) <= maxAggregateSize - length (s_verts st)).
      { rewrite RC, firstn_length. unfold c. cbn [length]. lia. }
      apply IH; auto; [|lia]. pose proof (gi_len _ (proj1 H1)). lia.
    Qed.
    Lemma rounding_ok fuel sd : forall st, okst st -> n - length (s_verts st) < fuel -> length (s_verts st) <= maxAggregateSize \/ isolated sd = true ->
      exists st', rounding fuel sd st = Some st' /\ okst st' /\ (length (s_verts st') <= maxAggregateSize \/ isolated sd = true).
    Proof.
      induction fuel as [|fuel IH]; intros st H F LM; [lia|]. cbn [rounding]. destruct (isolated sd) eqn:EI; cbn [negb andb]; [eauto|].
      destruct (Nat.ltb_spec (length (s_verts st)) maxAggregateSize) as [L|L]; [|eauto].
      destruct (find (roundable st) (s_front st)) as [v|] eqn:E; [|eauto]. apply find_some in E. destruct E as [E _].
      assert (RC : resize st [v] = [v]).
      { unfold resize. destruct (Nat.ltb_spec maxAggregateSize (length (s_verts st))); auto. destruct (maxAggregateSize - length (s_verts st)) eqn:Q; [lia|]. cbn. rewrite firstn_nil. auto. }
      rewrite RC. destruct (add_many_ok st [v] H) as [H1 L1]; [repeat constructor|intros x [<-|[]]; auto|]. cbn [length] in L1. apply IH; auto; [|left; lia].
      pose proof (gi_len _ (proj1 H1)). lia.
    Qed.
    (** the seed *)
    Lemma seed_ok st : s_agg st = g0 -> s_front st = [] -> s_id st = k -> exists st', seed_agg st s = Ok st' /\ okst st' /\ length (s_verts st') = 1.
    Proof.
      intros EA EF EI. unfold seed_agg, add1. cbn [s_front s_agg s_flag s_verts s_conn s_id]. rewrite EF. cbn [obind]. rewrite EA, EI.
      set (st1 := mkst (fupd g0 s (Agg k)) (s_flag st) [] (vinsert s []) (cinsert (Agg s) []) k).
      assert (G1 : GI st1).
      { unfold st1. constructor; cbn [s_id s_agg s_verts s_front s_flag]; auto.
        - apply fupd_eq.
        - intros v. unfold fupd. destruct (Nat.eqb_spec v s) as [->|]; auto.
        - intros v. rewrite vinsert_in. unfold fupd. destruct (Nat.eqb_spec v s) as [->|]; [tauto|]. cbn. split; [intros [?|[]]; lia|intros Q; exfalso; exact (fresh v Q)].
        - repeat constructor. cbn. auto.
        - intros v. unfold fupd at 1. destruct (Nat.eqb_spec v s) as [->|]; [intros _; split; auto; constructor|intros Q; exfalso; exact (fresh v Q)].
        - intros v [].
        - constructor. }
      destruct (add_edges_gi s (adj s) _ (incl_refl _) G1 ltac:(apply fupd_eq)) as (G2 & A2 & V2 & _).
      eexists. split; [reflexivity|]. split; [apply sort_ok; exact G2|]. cbn [with_front s_verts]. rewrite V2. reflexivity.
    Qed.
    Lemma grown_ok st : s_agg st = g0 -> s_front st = [] -> s_id st = k -> 1 <= maxAggregateSize ->
      exists st2 st3, obind (seed_agg st s) (fun st1 => if isolated s then growIsolated (S n) st1 else Ok (growAggregate (S n) st1)) = Ok (Some st2) /\
        rounding (S n) s st2 = Some st3 /\ okst st3 /\ (length (s_verts st3) <= maxAggregateSize \/ isolated s = true).
    Proof.
      intros EA EF EI HM. destruct (seed_ok st EA EF EI) as (st1 & E1 & H1 & L1). rewrite E1. cbn [obind].
      assert (exists st2, (if isolated s then growIsolated (S n) st1 else Ok (growAggregate (S n) st1)) = Ok (Some st2) /\ okst st2 /\ (length (s_verts st2) <= maxAggregateSize \/ isolated s = true)) as (st2 & E2 & H2 & L2).
      { destruct (isolated s).
        - destruct (growIsolated_ok (S n) st1 H1 ltac:(lia)) as (st2 & E & H). eauto.
        - destruct (growAggregate_ok (S n) st1 H1 ltac:(lia) ltac:(lia)) as (st2 & E & H & L). exists st2. rewrite E. auto. }
      destruct (rounding_ok (S n) s st2 H2 ltac:(lia) L2) as (st3 & E3 & H3 & L3). exists st2, st3. auto.
    Qed.
  End One.

  (** ** The whole map *)
  Record GL (i : nat) (st : state) (roots : list nat) : Prop := {
    gl_id : s_id st = length roots;
    gl_so : StronglySorted lt roots;
    gl_lt : forall r, In r roots -> r < i;
    gl_root : forall j, j < length roots -> s_agg st (nth j roots 0) = Agg j;
    gl_agg : forall v j, s_agg st v = Agg j -> v < n /\ j < length roots /\ nth j roots 0 <= v /\ reach (s_agg st) (nth j roots 0) v;
    gl_un : forall v, v < i -> s_agg st v <> Unagg;
    gl_iso : forall v, s_agg st v = Iso -> v < i }.
  Lemma gl_next i st roots : GL i st roots -> s_agg st i <> Unagg -> GL (S i) st roots.
  Proof.
    intros [] H. constructor; auto.
    - intros r Hr. apply gl_lt0 in Hr. lia.
    - intros v Hv. destruct (Nat.eq_dec v i) as [->|]; auto. apply gl_un0. lia.
    - intros v Hv. apply gl_iso0 in Hv. lia.
  Qed.
  Lemma gl_ext i st st' roots : GL i st roots -> s_agg st' = s_agg st -> s_id st' = s_id st -> GL i st' roots.
  Proof. intros [] E1 E2. constructor; rewrite ?E1, ?E2; auto. Qed.
  (** vertex i joins an existing class (or ISOLATED) *)
  Lemma gl_join i st roots a : GL i st roots -> i < n -> s_agg st i = Unagg -> a = Iso \/ (exists t, In t (adj i) /\ s_agg st t = a /\ a <> Unagg) -> GL (S i) (set_agg st i a) roots.
  Proof.
    intros H Hi HU HA.
    assert (NU : a <> Unagg) by (destruct HA as [->|(t & _ & _ & ?)]; congruence).
    assert (RT : forall j, j < length roots -> nth j roots 0 < i) by (intros j Hj; apply (gl_lt _ _ _ H), nth_In; auto).
    assert (RM : forall j v, j < length roots -> reach (s_agg st) (nth j roots 0) v -> reach (fupd (s_agg st) i a) (nth j roots 0) v).
    { intros j v Hj Q. apply closure_mono with (a := s_agg st); auto. intros x Hx. pose proof (RT j Hj). rewrite (gl_root _ _ _ H j Hj) in Hx.
      rewrite !fupd_ne; [rewrite Hx; symmetry; apply (gl_root _ _ _ H); auto|lia|intros ->; congruence]. }
    constructor; cbn [set_agg s_agg s_id].
    - apply (gl_id _ _ _ H).
    - apply (gl_so _ _ _ H).
    - intros r Hr. apply (gl_lt _ _ _ H) in Hr. lia.
    - intros j Hj. pose proof (RT j Hj). rewrite fupd_ne by lia. apply (gl_root _ _ _ H); auto.
    - intros v j. destruct (Nat.eq_dec v i) as [->|NE]; [|rewrite fupd_ne by auto].
      + rewrite fupd_eq. intros ->. destruct HA as [HA|(t & T1 & T2 & _)]; [discriminate|]. destruct (gl_agg _ _ _ H _ _ T2) as (Q1 & Q2 & Q3 & Q4). pose proof (RT j Q2).
        repeat split; auto; [lia|]. eapply cl_e; [apply (RM j t); auto|apply symm; auto|rewrite fupd_eq, fupd_ne by lia; symmetry; apply (gl_root _ _ _ H); auto|auto].
      + intros Q. destruct (gl_agg _ _ _ H _ _ Q) as (Q1 & Q2 & Q3 & Q4). repeat split; auto.
    - intros v Hv. unfold fupd. destruct (Nat.eqb_spec v i); auto. apply (gl_un _ _ _ H). lia.
    - intros v. unfold fupd. destruct (Nat.eqb_spec v i); [lia|]. intros Q. apply (gl_iso _ _ _ H) in Q. lia.
  Qed.
  (** a new aggregate *)
  Lemma gl_new i st st3 roots : GL i st roots -> i < n -> s_agg st i = Unagg -> GI (s_agg st) i (length roots) st3 -> GL (S i) (next_id st3) (roots ++ [i]).
  Proof.
    intros H Hi HU G. set (k := length roots) in *.
    assert (RT : forall j, j < k -> nth j roots 0 < i) by (intros j Hj; apply (gl_lt _ _ _ H), nth_In; auto).
    assert (FR : forall v, s_agg st v <> Agg k). { intros v Q. apply (gl_agg _ _ _ H) in Q. unfold k in Q. lia. }
    assert (N1 : forall j, j < k -> nth j (roots ++ [i]) 0 = nth j roots 0) by (intros j Hj; apply app_nth1; auto).
    assert (N2 : nth k (roots ++ [i]) 0 = i) by (unfold k; rewrite app_nth2, Nat.sub_diag; auto).
    assert (KE : forall v j, s_agg st v = Agg j -> s_agg st3 v = Agg j). { intros v j Q. destruct (gi_agg _ _ _ _ G v) as [E|[E _]]; congruence. }
    constructor; cbn [next_id s_agg s_id].
    - rewrite app_length, (gi_id _ _ _ _ G). cbn. unfold k. lia.
    - apply sorted_snoc; [apply (gl_so _ _ _ H)|apply (gl_lt _ _ _ H)].
    - intros r Hr. apply in_app_or in Hr. destruct Hr as [Hr|[<-|[]]]; [apply (gl_lt _ _ _ H) in Hr|]; lia.
    - intros j Hj. rewrite app_length in Hj. cbn in Hj. fold k in Hj. destruct (Nat.eq_dec j k) as [->|].
      + rewrite N2. apply (gi_seed _ _ _ _ G).
      + rewrite N1 by lia. apply KE. apply (gl_root _ _ _ H). fold k. lia.
    - intros v j Q. rewrite app_length. cbn [length]. fold k. destruct (Nat.eq_dec j k) as [->|NE].
      + rewrite N2. destruct (gi_r _ _ _ _ G v Q) as [Q1 Q2]. repeat split; auto; [lia|]. destruct (Nat.le_gt_cases i v); auto. exfalso.
        destruct (gi_agg _ _ _ _ G v) as [E|[E _]]; [apply (FR v); congruence|apply (gl_un _ _ _ H v); auto].
      + destruct (gi_agg _ _ _ _ G v) as [E|[_ E]]; [|congruence]. rewrite E in Q. destruct (gl_agg _ _ _ H _ _ Q) as (Q1 & Q2 & Q3 & Q4). fold k in Q2. rewrite N1 by auto.
        repeat split; auto; [lia|]. apply closure_mono with (a := s_agg st); auto. intros x Hx. rewrite (gl_root _ _ _ H j Q2) in Hx. rewrite (KE _ _ Hx). symmetry. apply KE, (gl_root _ _ _ H); auto.
    - intros v Hv Q. destruct (Nat.eq_dec v i) as [->|]; [rewrite (gi_seed _ _ _ _ G) in Q; discriminate|].
      destruct (gi_agg _ _ _ _ G v) as [E|[_ E]]; [|congruence]. apply (gl_un _ _ _ H v); [lia|congruence].
    - intros v Q. destruct (gi_agg _ _ _ _ G v) as [E|[_ E]]; [|congruence]. rewrite E in Q. apply (gl_iso _ _ _ H) in Q. lia.
  Qed.
  (** a vertex that build isolates by itself *)
  Definition skips (v : nat) : bool := excludedBorder v || (isolated v && skipIsolated).
  Definition isIso (a : aggd) : bool := aggd_eqb a Iso.
  (** the reported numbers *)
  Record CT (i : nat) (st : state) (roots : list nat) (c : counts) : Prop := {
    ct_con : c_con c = length (filter (fun r => negb (isolated r)) roots);
    ct_iso : c_iso c = length (filter isolated roots);
    ct_one : c_one c <= length roots;
    ct_skip : c_skip c <= length (filter (fun v => isIso (s_agg st v)) (seq 0 i));
    ct_skip_eq : (forall v, excludedBorder v = true -> isolated v = true) -> c_skip c = length (filter (fun v => isIso (s_agg st v)) (seq 0 i)) /\ forall v, s_agg st v = Iso -> skips v = true }.
  Lemma filter_seq_S (f : nat -> bool) i : length (filter f (seq 0 (S i))) = length (filter f (seq 0 i)) + if f i then 1 else 0.
  Proof. rewrite seq_S, filter_app, app_length. cbn [filter Nat.add]. destruct (f i); reflexivity. Qed.
  Lemma filter_seq_ext (f g : nat -> bool) i : (forall v, v < i -> f v = g v) -> length (filter f (seq 0 i)) = length (filter g (seq 0 i)).
  Proof. intros H. f_equal. apply filter_ext_in. intros v Hv. apply in_seq in Hv. apply H. lia. Qed.
  Lemma isIso_spec a : isIso a = true <-> a = Iso.
  Proof. unfold isIso. destruct (aggd_eqb_spec a Iso); split; congruence. Qed.
  Hypothesis minmax : minAggregateSize <= maxAggregateSize.
  Hypothesis max1 : 1 <= maxAggregateSize.
  Lemma one_seed_ok i st roots c : GL i st roots -> CT i st roots c -> i < n -> s_agg st i = Unagg ->
    exists st' c' roots', one_seed (S n) i st c = Ok (Some (st', c')) /\ GL (S i) st' roots' /\ CT (S i) st' roots' c'.
  Proof.
    intros H C Hi HU. unfold one_seed. fold (skips i). set (st1 := unmarkFront st).
    assert (E1 : s_agg st1 = s_agg st) by reflexivity. assert (E2 : s_id st1 = s_id st) by reflexivity. assert (E3 : s_front st1 = []) by reflexivity.
    destruct (skips i) eqn:ES.
    - eexists _, _, roots. split; [reflexivity|]. split.
      + apply gl_join; auto. apply gl_ext with (st := st); auto.
      + assert (FE : length (filter (fun v => isIso (s_agg (set_agg st1 i Iso) v)) (seq 0 i)) = length (filter (fun v => isIso (s_agg st v)) (seq 0 i))).
        { apply filter_seq_ext. intros v Hv. cbn [set_agg s_agg]. rewrite fupd_ne by lia. reflexivity. }
        destruct C. constructor; cbn [c_con c_iso c_one c_skip]; auto.
        * rewrite filter_seq_S, FE. cbn [set_agg s_agg]. rewrite fupd_eq. cbn. lia.
        * intros Q. destruct (ct_skip_eq0 Q) as [Q1 Q2]. split; [rewrite filter_seq_S, FE; cbn [set_agg s_agg]; rewrite fupd_eq; cbn; lia|].
          intros v. cbn [set_agg s_agg]. destruct (Nat.eq_dec v i) as [->|]; [auto|rewrite fupd_ne by auto; apply Q2].
    - assert (FR : forall v, s_agg st v <> Agg (length roots)). { intros v Q. apply (gl_agg _ _ _ H) in Q. lia. }
      destruct (grown_ok (s_agg st) i (length roots) FR Hi HU minmax st1 E1 E3 ltac:(rewrite E2; apply (gl_id _ _ _ H)) max1) as (st2 & st3 & Q2 & Q3 & [G _] & _).
      rewrite Q2. cbn [obind]. rewrite Q3.
      assert (IE : forall v, isIso (s_agg st3 v) = isIso (s_agg st v)).
      { intros v. destruct (gi_agg _ _ _ _ G v) as [E|[E E']]; [congruence|]. rewrite E, E'. reflexivity. }
      assert (NEW : forall con iso one, con = c_con c + (if isolated i then 0 else 1) -> iso = c_iso c + (if isolated i then 1 else 0) -> one <= S (c_one c) ->
                exists st' c' roots', Ok (Some (next_id st3, mkc con iso one (c_skip c))) = Ok (Some (st', c')) /\ GL (S i) st' roots' /\ CT (S i) st' roots' c').
      { intros con iso one -> -> HO. eexists _, _, (roots ++ [i]). split; [reflexivity|]. split; [eapply gl_new; eauto|].
        assert (FE : length (filter (fun v => isIso (s_agg (next_id st3) v)) (seq 0 (S i))) = length (filter (fun v => isIso (s_agg st v)) (seq 0 i))).
        { rewrite filter_seq_S. cbn [next_id s_agg]. rewrite (IE i), HU. cbn [isIso aggd_eqb]. rewrite Nat.add_0_r. apply filter_seq_ext. intros v _. apply IE. }
        destruct C. constructor; cbn [c_con c_iso c_one c_skip].
        - rewrite filter_app, app_length. cbn [filter]. destruct (isolated i); cbn [negb length]; lia.
        - rewrite filter_app, app_length. cbn [filter]. destruct (isolated i); cbn [length]; lia.
        - rewrite app_length. cbn [length]. lia.
        - rewrite FE. auto.
        - rewrite FE. intros Q. destruct (ct_skip_eq0 Q) as [Q4 Q5]. split; auto. intros v Hv. apply Q5. apply isIso_spec. rewrite <- IE. apply isIso_spec. exact Hv. }
      destruct (Nat.eqb_spec (length (s_verts st3)) 1) as [L1|L1]; cbn [andb]; [destruct (1 <? maxAggregateSize)|].
      2,3: destruct (isolated i); apply NEW; lia.
      destruct (isolated i) eqn:EI; cbn [negb]; [apply NEW; lia|].
      destruct (mergeNeighbour st3 i) as [t|] eqn:EM; [|apply NEW; lia].
      unfold mergeNeighbour in EM. apply find_some in EM. destruct EM as [T1 T2]. apply andb_true_iff in T2 as [T2 _]. apply andb_true_iff in T2 as [T2 T3].
      destruct (aggd_eqb_spec (s_agg st3 t) Unagg) as [|T4]; [discriminate|]. rewrite EI in T3. apply eqb_prop in T3.
      (* only the seed has the new number, so the neighbour is an old one *)
      assert (ON : forall v, s_agg st3 v = Agg (length roots) -> v = i).
      { intros v Hv. apply (gi_v _ _ _ _ G) in Hv. pose proof (gi_seed _ _ _ _ G) as Hs. apply (gi_v _ _ _ _ G) in Hs. destruct (s_verts st3) as [|x [|y r]]; cbn in *; lia. }
      assert (OLD : forall v, v <> i -> s_agg st3 v = s_agg st v).
      { intros v Hv. destruct (gi_agg _ _ _ _ G v) as [E|[_ E]]; auto. apply ON in E. congruence. }
      assert (Ti : t <> i) by (intros ->; apply (noself i); auto).
      set (st4 := set_agg st3 i (s_agg st3 t)).
      assert (EXT : forall v, s_agg st4 v = s_agg (set_agg st i (s_agg st t)) v).
      { intros v. unfold st4. cbn [set_agg s_agg]. rewrite (OLD t Ti). unfold fupd. destruct (Nat.eqb_spec v i); auto. }
      assert (GJ : GL (S i) (set_agg st i (s_agg st t)) roots). { apply gl_join; auto. right. exists t. rewrite <- (OLD t Ti). split; [|split]; auto. }
      exists st4, c, roots. split; [reflexivity|]. split.
      + destruct GJ. constructor; auto.
        * cbn [st4 set_agg s_id]. rewrite (gi_id _ _ _ _ G). reflexivity.
        * intros j Hj. rewrite EXT. auto.
        * intros v j. rewrite EXT. intros Q. destruct (gl_agg0 v j Q) as (P1 & P2 & P3 & P4). repeat split; auto. apply closure_mono with (2 := P4). intros x. rewrite !EXT. auto.
        * intros v Hv. rewrite EXT. auto.
        * intros v. rewrite EXT. auto.
      + assert (FE : length (filter (fun v => isIso (s_agg st4 v)) (seq 0 (S i))) = length (filter (fun v => isIso (s_agg st v)) (seq 0 i)) + (if isIso (s_agg st t) then 1 else 0)).
        { rewrite filter_seq_S. rewrite EXT. cbn [set_agg s_agg]. rewrite fupd_eq. f_equal. apply filter_seq_ext. intros v Hv. rewrite EXT. cbn [set_agg s_agg]. rewrite fupd_ne by lia. auto. }
        destruct C. constructor; auto; [rewrite FE; lia|]. intros Q. destruct (ct_skip_eq0 Q) as [Q4 Q5].
        assert (NI : isIso (s_agg st t) = false).
        { destruct (isIso (s_agg st t)) eqn:E; auto. apply isIso_spec, Q5 in E. unfold skips in E. rewrite T3 in E. cbn [andb] in E. rewrite orb_false_r in E. apply Q in E. congruence. }
        rewrite FE, NI, Nat.add_0_r. split; auto. intros v. rewrite EXT. cbn [set_agg s_agg]. unfold fupd. destruct (Nat.eqb_spec v i); [|apply Q5]. intros E. rewrite E in NI. discriminate.
  Qed.
  Lemma seeds_ok m : forall i st roots c, i + m = n -> GL i st roots -> CT i st roots c ->
    exists st' c' roots', seeds (S n) (seq i m) st c = Ok (Some (st', c')) /\ GL n st' roots' /\ CT n st' roots' c'.
  Proof.
    induction m as [|m IH]; intros i st roots c Hn H C; cbn [seq seeds].
    - replace n with i by lia. eauto 10.
    - destruct (aggd_eqb_spec (s_agg st i) Unagg) as [E|E].
      + destruct (one_seed_ok i st roots c H C ltac:(lia) E) as (st' & c' & roots' & E' & H' & C'). rewrite E'. cbn [obind]. apply (IH (S i) st' roots' c'); auto. lia.
      + apply (IH (S i) st roots c); [lia|apply gl_next; auto|].
        assert (NI : s_agg st i <> Iso) by (intros Q; apply (gl_iso _ _ _ H) in Q; lia).
        assert (FE : length (filter (fun v => isIso (s_agg st v)) (seq 0 (S i))) = length (filter (fun v => isIso (s_agg st v)) (seq 0 i))).
        { rewrite filter_seq_S. destruct (isIso (s_agg st i)) eqn:Q; [apply isIso_spec in Q; contradiction|lia]. }
        destruct C. constructor; rewrite ?FE; auto.
  Qed.
  Lemma sorted_below l : StronglySorted lt l -> forall j, j < length l -> length (filter (fun x => x <? nth j l 0) l) = j.
  Proof.
    induction 1 as [|a t Hs IH F]; intros j Hj; [cbn in Hj; lia|]. rewrite Forall_forall in F. destruct j as [|j]; cbn [nth].
    - cbn [filter]. rewrite Nat.ltb_irrefl. rewrite (filter_ext_in _ (fun _ => false)); [clear; induction t; auto|]. intros x Hx. apply F in Hx. destruct (Nat.ltb_spec x a); auto. lia.
    - cbn [length] in Hj. cbn [filter]. assert (a < nth j t 0) by (apply F, nth_In; lia). destruct (Nat.ltb_spec a (nth j t 0)); [|lia]. cbn [length]. rewrite IH by lia. auto.
  Qed.
  Lemma gl_isroot st roots v : GL n st roots -> v < n -> isroot (s_agg st) v = true <-> In v roots.
  Proof.
    intros H Hv. rewrite isroot_spec. split.
    - intros [H1 [_ H2]]. destruct (s_agg st v) as [| |j] eqn:E; [exfalso; apply (gl_un _ _ _ H v Hv E)|congruence|].
      destruct (gl_agg _ _ _ H v j E) as (_ & Q2 & Q3 & _). destruct (Nat.eq_dec (nth j roots 0) v) as [<-|]; [apply nth_In; auto|].
      exfalso. apply (H2 (nth j roots 0)); [lia|]. rewrite ?E. apply (gl_root _ _ _ H j Q2).
    - intros Hr. apply (In_nth _ _ 0) in Hr. destruct Hr as (j & Hj & <-). rewrite (gl_root _ _ _ H j Hj). split; [discriminate|]. split; auto.
      intros u Hu E. rewrite (gl_root _ _ _ H j Hj) in E. apply (gl_agg _ _ _ H) in E. lia.
  Qed.
  Lemma gl_rank st roots v : GL n st roots -> v <= n -> rank (s_agg st) v = length (filter (fun x => x <? v) roots).
  Proof.
    intros H Hv. unfold rank. apply Permutation_length, NoDup_Permutation.
    - apply NoDup_filter, seq_NoDup.
    - apply NoDup_filter, sorted_nodup, (gl_so _ _ _ H).
    - intros x. rewrite !filter_In, in_seq, Nat.ltb_lt. split; intros [Q1 Q2]; (split; [|auto; try lia]).
      + apply (gl_isroot st roots x H); auto. lia.
      + lia.
      + apply (gl_isroot st roots x H); auto. lia.
  Qed.
  (** Aggregator::build ends, assigns every vertex, numbers the aggregates 0..K-1 by their lowest vertex, and every aggregate is connected to its lowest vertex within itself *)
  Theorem C47_build : exists agg iso one skip, let K := rank agg n in
    buildAggregates n = Ok (Some (agg, (K, iso, one, skip))) /\
    agg_ok agg n K /\ traversable adj agg n /\
    (forall v r, v < n -> agg v <> Iso -> root_of agg r v -> agg v = Agg (rank agg r)) /\
    iso = length (filter (fun v => isroot agg v && isolated v) (seq 0 n)) /\ one <= K /\
    skip <= length (filter (fun v => isIso (agg v)) (seq 0 n)) /\
    ((forall v, excludedBorder v = true -> isolated v = true) ->
      skip = length (filter (fun v => isIso (agg v)) (seq 0 n)) /\ forall v, v < n -> agg v = Iso -> excludedBorder v = true \/ (isolated v = true /\ skipIsolated = true)).
  Proof.
    destruct (seeds_ok n 0 (mkst (fun _ => Unagg) (fun _ => false) [] [] [] 0) [] (mkc 0 0 0 0)) as (st & c & roots & E & H & C); [lia| | |].
    { constructor; cbn; try lia; auto; try discriminate; try (intros ? []); try constructor. }
    { constructor; cbn; auto. intros _. split; auto. discriminate. }
    assert (RK : rank (s_agg st) n = length roots).
    { rewrite (gl_rank st roots n H (le_n n)). rewrite (filter_ext_in _ (fun _ => true)); [clear; induction roots; cbn; auto|intros x Hx; apply (gl_lt _ _ _ H) in Hx; apply Nat.ltb_lt; auto]. }
    assert (RO : forall v r j, s_agg st v = Agg j -> root_of (s_agg st) r v -> r = nth j roots 0).
    { intros v r j Hj [R1 R2]. destruct (gl_agg _ _ _ H v j Hj) as (Q1 & Q2 & Q3 & Q4). pose proof (gl_root _ _ _ H j Q2) as Q5. rewrite Hj in R1, R2.
      destruct (gl_agg _ _ _ H r j R1) as (_ & _ & Q6 & _). destruct (Nat.eq_dec r (nth j roots 0)); auto. exfalso. apply (R2 (nth j roots 0)); auto. lia. }
    exists (s_agg st), (c_iso c), (c_one c), (c_skip c). cbv zeta. rewrite RK. unfold buildAggregates. rewrite E. cbn [obind option_map fst snd].
    assert (KK : c_con c + c_iso c = length roots).
    { rewrite (ct_con _ _ _ _ C), (ct_iso _ _ _ _ C). clear. induction roots as [|a t IH]; auto. cbn [filter]. destruct (isolated a); cbn [negb length]; lia. }
    rewrite KK. split; [reflexivity|]. split; [|split; [|split; [|split; [|split; [|split]]]]].
    - intros i Hi. destruct (s_agg st i) as [| |j] eqn:Q; [exfalso; apply (gl_un _ _ _ H i Hi Q)|auto|]. right. exists j. split; auto. apply (gl_agg _ _ _ H) in Q. tauto.
    - intros v r Hv HI HR. destruct (s_agg st v) as [| |j] eqn:Q; [exfalso; apply (gl_un _ _ _ H v Hv Q)|congruence|]. rewrite (RO v r j Q HR). apply (gl_agg _ _ _ H v j Q).
    - intros v r Hv HI HR. destruct (s_agg st v) as [| |j] eqn:Q; [exfalso; apply (gl_un _ _ _ H v Hv Q)|congruence|]. rewrite (RO v r j Q HR).
      destruct (gl_agg _ _ _ H v j Q) as (Q1 & Q2 & Q3 & _). rewrite (gl_rank st roots _ H) by lia. rewrite (sorted_below roots (gl_so _ _ _ H) j Q2). auto.
    - rewrite (ct_iso _ _ _ _ C). apply Permutation_length, NoDup_Permutation.
      + apply NoDup_filter, sorted_nodup, (gl_so _ _ _ H).
      + apply NoDup_filter, seq_NoDup.
      + intros x. rewrite !filter_In, in_seq, andb_true_iff. split; [intros [Q1 Q2]|intros [Q1 [Q2 Q3]]].
        * pose proof (gl_lt _ _ _ H x Q1). rewrite (gl_isroot st roots x H) by auto. repeat split; auto; lia.
        * split; auto. apply (gl_isroot st roots x H); auto. lia.
    - apply (ct_one _ _ _ _ C).
    - apply (ct_skip _ _ _ _ C).
    - intros Q. destruct (ct_skip_eq _ _ _ _ C Q) as [Q1 Q2]. split; auto. intros v _ Hv. apply Q2 in Hv. unfold skips in Hv. apply orb_true_iff in Hv. destruct Hv as [Hv|Hv]; auto. apply andb_true_iff in Hv. auto.
  Qed.
End Aggregation.

(** ** Together with the Galerkin product *)
Section Together.
  Context {R : ring}.
  Variables depends influences : nat -> nat -> bool.
  Variables isolated excludedBorder : nat -> bool.
  Variables (minAggregateSize maxAggregateSize maxDistance maxConnectivity : nat) (skipIsolated : bool).
  Variable D : Type.
  Variables (quot : Z -> Z -> D) (dminus1 : D) (deq dgt : D -> D -> bool).
  (** for every structurally symmetric matrix and every outcome of the dependency criterion the aggregates built are such that the coarse matrix is P^T A P; no aggregate is empty *)
  Theorem C47_coarsen (A : smat R) n : mat_wf n n A -> (forall i j, i < n -> instored A i j -> instored A j i) ->
    minAggregateSize <= maxAggregateSize -> 1 <= maxAggregateSize ->
    exists agg K iso one skip C,
      buildAggregates (matrix_graph A) depends influences isolated excludedBorder minAggregateSize maxAggregateSize maxDistance maxConnectivity skipIsolated D quot dminus1 deq dgt n = Ok (Some (agg, (K, iso, one, skip))) /\
      agg_ok agg n K /\ galerkin agg A n K = Ok (Some C) /\ mat_wf K K C /\
      (forall I J, I < K -> (instored C I J <-> I = J \/ exists r c, r < n /\ c < n /\ instored A r c /\ agg r = Agg I /\ agg c = Agg J)) /\
      (forall I J, den C I J = sum n (fun r => sum n (fun c => rmul (prol agg r I) (rmul (den A r c) (prol agg c J))))) /\
      forall k, k < K -> exists v, v < n /\ agg v = Agg k.
  Proof.
    intros HA HS Hm H1.
    assert (MG : forall v t, In t (matrix_graph A v) <-> instored A v t /\ t <> v).
    { intros v t. unfold matrix_graph, instored. rewrite filter_In. destruct (Nat.eqb_spec t v); cbn [negb]; split; intros [Q1 Q2]; split; auto; congruence. }
    assert (LT : forall i j, instored A i j -> j < n).
    { intros i j H. destruct (mat_wf_row n n A i HA) as [_ F]. rewrite Forall_forall in F. apply F. exact H. }
    destruct (C47_build (matrix_graph A) depends influences isolated excludedBorder minAggregateSize maxAggregateSize maxDistance maxConnectivity skipIsolated D quot dminus1 deq dgt n) as (agg & iso & one & skip & E & AO & TR & NU & _); auto.
    - intros v t Hv Ht. apply MG in Ht. apply (LT v t). tauto.
    - intros v Hv. apply MG in Hv. tauto.
    - intros v t Hv Ht. apply MG in Ht. destruct Ht as [T1 T2]. apply MG. split; auto.
    - cbv zeta in *. destruct (C34_galerkin_product A agg n (rank agg n) HA AO eq_refl TR NU) as (C & G1 & G2 & G3 & G4).
      exists agg, (rank agg n), iso, one, skip, C. repeat (split; [assumption|]).
      intros k Hk. destruct (rank_onto agg k n Hk) as (v & V1 & V2 & V3). exists v. split; [exact V1|]. apply isroot_spec in V2. destruct V2 as [V2 V4].
      rewrite (NU v v V1 V2 V4), V3. reflexivity.
  Qed.
End Together.

(** ** Examples and deviations *)
From Coq Require Import QArith.
Open Scope nat_scope.
Definition exquot (a b : Z) : Q := Qmake a (Z.to_pos b).
Definition exgt (a b : Q) : bool := negb (Qle_bool a b).
Definition exbuild (adj : nat -> list nat) (dep : nat -> nat -> bool) (iso exc : nat -> bool) (mn mx : nat) (skip : bool) (n : nat) :=
  buildAggregates adj dep dep iso exc mn mx 2 15 skip Q exquot (-1)%Q Qeq_bool exgt n.
Definition show (n : nat) (r : outcome (option ((nat -> aggd) * (nat * nat * nat * nat)))) := match r with Ok (Some (a, c)) => Some (map a (seq 0 n), c) | _ => None end.
Definition path (m : nat) (v : nat) : list nat := filter (fun w => ((w =? S v) || (S w =? v))) (seq 0 m).
Definition yes2 (_ _ : nat) : bool := true.
Definition no1 (_ : nat) : bool := false.
(** a path of 7 vertices, all strongly connected, minAggregateSize 2, maxAggregateSize 3; vertex 3 isolated and skipped *)
Example C47_nonvacuous :
  show 7 (exbuild (path 7) yes2 (fun v => v =? 3) no1 2 3 true 7) = Some ([Agg 0; Agg 0; Agg 0; Iso; Agg 1; Agg 1; Agg 1], (2, 0, 0, 1)).
Proof. vm_compute. reflexivity. Qed.
Example C47_nonvacuous_hyp : (forall v t, v < 7 -> In t (path 7 v) -> t < 7) /\ (forall v, ~ In v (path 7 v)) /\ (forall v t, v < 7 -> In t (path 7 v) -> In v (path 7 t)).
Proof.
  unfold path. repeat split.
  - intros v t _ H. apply filter_In in H. destruct H as [H _]. apply in_seq in H. lia.
  - intros v H. apply filter_In in H. destruct H as [_ H]. apply orb_true_iff in H. rewrite !Nat.eqb_eq in H. lia.
  - intros v t Hv H. apply filter_In in H. destruct H as [H1 H]. apply filter_In. split; [apply in_seq; lia|]. rewrite orb_true_iff, !Nat.eqb_eq in *. lia.
Qed.
(** maxAggregateSize does not bound the aggregates: the last vertex of a path of 3 joins an aggregate that already has maxAggregateSize = 2 vertices *)
Theorem C47_max_size_refuted : exists agg c, exbuild (path 3) yes2 no1 no1 2 2 true 3 = Ok (Some (agg, c)) /\ length (filter (fun v => aggd_eqb (agg v) (Agg 0)) (seq 0 3)) = 3.
Proof. destruct (exbuild (path 3) yes2 no1 no1 2 2 true 3) as [[[agg c]|]| |] eqn:E; vm_compute in E; try discriminate. injection E as <- <-. eexists _, _. split; [reflexivity|]. vm_compute. reflexivity. Qed.
Theorem C47_merge_isolated_refuted : exists agg, exbuild (path 2) yes2 no1 (fun v => v =? 0) 1 2 true 2 = Ok (Some (agg, (0, 0, 0, 1))) /\ agg 0 = Iso /\ agg 1 = Iso.
Proof. destruct (exbuild (path 2) yes2 no1 (fun v => v =? 0) 1 2 true 2) as [[[agg c]|]| |] eqn:E; vm_compute in E; try discriminate. injection E as <- <-. eexists. split; [reflexivity|]. vm_compute. auto. Qed.
(** the reported number of one-vertex aggregates counts an aggregate that later gets a second vertex by merging *)
Theorem C47_one_count_refuted : exists agg, exbuild (path 4) yes2 no1 no1 1 2 true 4 = Ok (Some (agg, (2, 0, 1, 0))) /\
  forall k, k < 2 -> length (filter (fun v => aggd_eqb (agg v) (Agg k)) (seq 0 4)) = 2.
Proof.
  destruct (exbuild (path 4) yes2 no1 no1 1 2 true 4) as [[[agg c]|]| |] eqn:E; vm_compute in E; try discriminate. injection E as <- <-. eexists. split; [reflexivity|].
  intros [|[|k]] Hk; [vm_compute; reflexivity|vm_compute; reflexivity|lia].
Qed.
(** with minAggregateSize > maxAggregateSize the growth loop may never end: three mutually strongly connected vertices, minAggregateSize 3, maxAggregateSize 2 *)
Section MinMax.
  Let K3 (v : nat) : list nat := filter (fun w => negb (w =? v)) (seq 0 3).
  Let grow := growAggregate K3 yes2 yes2 no1 3 2 2 Q exquot (-1)%Q Qeq_bool exgt.
  Let init : state := mkst (fun _ => Unagg) (fun _ => false) [] [] [] 0.
  Lemma full_loops st : length (s_verts st) = 2 -> s_front st = [2] ->
    g_cand Q (fold_left (grow_step K3 yes2 yes2 no1 Q exquot Qeq_bool exgt st) [2] (mkg Q 0%Z 0%Z (-1)%Z (-1)%Q [])) = [2] -> forall fuel, grow fuel st = None.
  Proof.
    intros HL HF HC fuel. induction fuel as [|fuel IH]; [reflexivity|]. unfold grow in *. cbn [growAggregate]. rewrite HL. cbn [Nat.ltb Nat.leb andb]. rewrite HF, HC.
    assert (E : resize 2 st [2] = []) by (unfold resize; rewrite HL; reflexivity). rewrite E. unfold add_many. cbn [fold_left]. rewrite HF. cbn [sdiff with_front s_front isort isert s_agg s_flag s_verts s_conn s_id].
    destruct st as [a f fr ve co id]. cbn [s_agg s_flag s_front s_verts s_conn s_id] in *. subst fr. exact IH.
  Qed.
  Theorem C47_min_gt_max_refuted : forall fuel, seeds K3 yes2 yes2 no1 no1 3 2 2 15 true Q exquot (-1)%Q Qeq_bool exgt fuel (seq 0 3) init (mkc 0 0 0 0) = Ok None.
  Proof.
    intros fuel. cbn [seq seeds]. change (aggd_eqb (s_agg init 0) Unagg) with true. cbv iota. unfold one_seed. cbn [no1 orb andb].
    destruct (seed_agg K3 (unmarkFront init) 0) as [st1| |] eqn:E1; [|vm_compute in E1; discriminate|vm_compute in E1; discriminate].
    cbn [obind]. assert (N : grow fuel st1 = None); [|unfold grow in N; rewrite N; reflexivity].
    destruct fuel as [|fuel]; [reflexivity|].
    assert (ST : st1 = match seed_agg K3 (unmarkFront init) 0 with Ok x => x | _ => init end) by (rewrite E1; reflexivity). clear E1. subst st1.
    set (st1 := match seed_agg K3 (unmarkFront init) 0 with Ok x => x | _ => init end).
    assert (S1 : grow (S fuel) st1 = grow fuel (add_many K3 st1 [1])) by (vm_compute; reflexivity).
    rewrite S1. apply full_loops; vm_compute; reflexivity.
  Qed.
End MinMax.
Print Assumptions C47_build.
Print Assumptions C47_coarsen.
Print Assumptions C47_min_gt_max_refuted.
