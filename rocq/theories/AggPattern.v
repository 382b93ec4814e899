(** * renumberAggregates (paamg/renumberer.hh: C35) and the sparsity pattern of the coarse matrix, GalerkinProduct<SequentialInformation>::build (paamg/galerkin.hh: C34) *)
From Coq Require Import Arith List Lia Bool Sorted ZArith.
From Verif Require Import Ring RingInst Sums Outcome Sparse AmgTransfer Bfs.
Import ListNotations.
Open Scope nat_scope.

(** ** Specification: lowest vertices of aggregates *)
Section Roots.
  Variable agg : nat -> aggd.
  (** r is the lowest vertex of the aggregate of v *)
  Definition root_of (r v : nat) : Prop := agg r = agg v /\ forall u, u < r -> agg u <> agg v.
  (** v is not isolated and the lowest vertex of its aggregate *)
  Definition isroot (v : nat) : bool := negb (aggd_eqb (agg v) Iso) && forallb (fun u => negb (aggd_eqb (agg u) (agg v))) (seq 0 v).
  (** number of lower vertices that are the lowest of their aggregate *)
  Definition rank (v : nat) : nat := length (filter isroot (seq 0 v)).

  Lemma root_le r v : root_of r v -> r <= v.
  Proof. intros [H1 H2]. destruct (Nat.le_gt_cases r v); auto. exfalso. apply (H2 v); auto. Qed.
  Lemma root_exists v : exists r, root_of r v.
  Proof.
    assert (G : forall k, (forall u, u < k -> agg u <> agg v) \/ exists r, root_of r v).
    { induction k as [|k [IH|IH]]; [left; lia| |auto]. destruct (aggd_eqb_spec (agg k) (agg v)) as [E|E]; [right; exists k; split; auto|]. left. intros u Hu. destruct (Nat.eq_dec u k) as [->|]; auto. apply IH. lia. }
    destruct (G (S v)) as [H|H]; auto. exfalso. apply (H v); auto.
  Qed.
  Lemma root_unique r r' v : root_of r v -> root_of r' v -> r = r'.
  Proof. intros [H1 H2] [H3 H4]. destruct (Nat.lt_trichotomy r r') as [H|[H|H]]; auto; exfalso; [apply (H4 r); auto|apply (H2 r'); auto]. Qed.
  Lemma root_root r v : root_of r v -> root_of r r.
  Proof. intros [H1 H2]. split; auto. intros u Hu. rewrite H1. auto. Qed.
  Lemma root_same r v w : agg v = agg w -> root_of r v -> root_of r w.
  Proof. intros E [H1 H2]. split; [congruence|]. intros u Hu. rewrite <- E. auto. Qed.
  Lemma isroot_spec v : isroot v = true <-> agg v <> Iso /\ root_of v v.
  Proof.
    unfold isroot. rewrite andb_true_iff, forallb_forall. destruct (aggd_eqb_spec (agg v) Iso) as [E|E]; cbn [negb]; split.
    - intros [H _]. discriminate.
    - intros [H _]. congruence.
    - intros [_ H]. split; auto. split; auto. intros u Hu. specialize (H u ltac:(apply in_seq; lia)). destruct (aggd_eqb_spec (agg u) (agg v)); auto; discriminate.
    - intros [_ [_ H]]. split; auto. intros u Hu. apply in_seq in Hu. specialize (H u ltac:(lia)). destruct (aggd_eqb_spec (agg u) (agg v)); auto.
  Qed.
  Lemma rank_S v : rank (S v) = rank v + if isroot v then 1 else 0.
  Proof. unfold rank. rewrite seq_S, filter_app, app_length. cbn [filter Nat.add]. destruct (isroot v); reflexivity. Qed.
  Lemma rank_mono v w : v <= w -> rank v <= rank w.
  Proof. induction 1; auto. rewrite rank_S. lia. Qed.
  Lemma rank_inj v w : isroot v = true -> isroot w = true -> rank v = rank w -> v = w.
  Proof.
    intros H1 H2 E. destruct (Nat.lt_trichotomy v w) as [H|[H|H]]; auto; exfalso.
    - pose proof (rank_mono (S v) w H). rewrite rank_S, H1 in H0. lia.
    - pose proof (rank_mono (S w) v H). rewrite rank_S, H2 in H0. lia.
  Qed.
  Lemma rank_onto k n : k < rank n -> exists v, v < n /\ isroot v = true /\ rank v = k.
  Proof.
    induction n as [|n IH]; [cbn; lia|]. rewrite rank_S. intros H. destruct (isroot n) eqn:E.
    - destruct (Nat.eq_dec k (rank n)) as [->|]; [exists n; auto|]. destruct IH as (v & V1 & V2 & V3); [lia|]. exists v. auto.
    - destruct IH as (v & V1 & V2 & V3); [lia|]. exists v. auto.
  Qed.
End Roots.

(** every aggregate can be traversed from its lowest vertex without leaving it *)
Definition traversable (adj : nat -> list nat) (agg : nat -> aggd) (n : nat) : Prop :=
  forall v r, v < n -> agg v <> Iso -> root_of agg r v -> closure adj agg (fun _ => false) r v.

Section Sweep.
  Variables (adj : nat -> list nat) (agg0 : nat -> aggd) (n : nat).
  Hypothesis targets : forall v t, v < n -> In t (adj v) -> t < n.
  Hypothesis trav : traversable adj agg0 n.
  (** the vertices visited after the sweep has passed the vertices below i *)
  Definition VI (vis : nat -> bool) (i : nat) : Prop := forall w, w < n -> agg0 w <> Iso -> (vis w = true <-> exists r, root_of agg0 r w /\ r < i).
  Lemma VI_skip vis v : VI vis v -> v < n -> (agg0 v = Iso \/ vis v = true) -> VI vis (S v).
  Proof.
    intros HV Hv H w Hw HI. rewrite (HV w Hw HI). split; intros [r [H1 H2]]; exists r; (split; [auto|]); [lia|]. destruct (Nat.eq_dec r v) as [E|]; [|lia]. exfalso. subst r.
    assert (EA : agg0 v = agg0 w) by apply H1. destruct H as [H|H]; [congruence|]. apply (HV v Hv) in H; [|congruence]. destruct H as [r' [H3 H4]]. assert (r' = v); [|lia]. apply (root_unique agg0 r' v w); auto. apply (root_same agg0 r' v); auto.
  Qed.
  Lemma seed vis v : VI vis v -> v < n -> agg0 v <> Iso -> vis v = false -> root_of agg0 v v /\ forall w, w < n -> (closure adj agg0 vis v w <-> agg0 w = agg0 v).
  Proof.
    intros HV Hv HI HF. assert (RV : root_of agg0 v v).
    { destruct (root_exists agg0 v) as [r Hr]. pose proof (root_le agg0 r v Hr). destruct (Nat.eq_dec r v) as [->|]; auto. exfalso. assert (vis v = true); [|congruence]. apply (HV v Hv HI). exists r. split; auto. lia. }
    split; auto. intros w Hw. split; [apply closure_agg|]. intros E.
    assert (C : closure adj agg0 (fun _ => false) v w). { apply trav; auto; [congruence|]. apply (root_same agg0 v v); auto. }
    clear E Hw. induction C as [|x y Cx IHx Hy EA _]; [constructor|]. apply (cl_e adj agg0 vis v x y); auto.
    assert (Hx : x < n) by (apply (closure_lt adj n agg0 targets (fun _ => false) v x Hv Cx)). assert (Hyn : y < n) by (apply (targets x); auto).
    apply not_true_is_false. intros HT. apply (HV y Hyn) in HT; [|congruence]. destruct HT as [r [R1 R2]]. assert (r = v); [|lia]. apply (root_unique agg0 r v v); auto. apply (root_same agg0 r y); auto.
  Qed.
  Lemma VI_seed vis vis' v : VI vis v -> v < n -> agg0 v <> Iso -> vis v = false -> (forall w, vis' w = true <-> vis w = true \/ closure adj agg0 vis v w) -> VI vis' (S v).
  Proof.
    intros HV Hv HI HF HC w Hw HW. destruct (seed vis v HV Hv HI HF) as [RV CL]. rewrite HC, (HV w Hw HW), (CL w Hw). split.
    - intros [[r [H1 H2]]|E]; [exists r; split; auto|]. exists v. split; [apply (root_same agg0 v v); auto|lia].
    - intros [r [H1 H2]]. destruct (Nat.eq_dec r v) as [->|]; [right; symmetry; apply H1|]. left. exists r. split; auto. lia.
  Qed.
End Sweep.

(** ** renumberAggregates *)
Section Renumber.
  Variable adj : nat -> list nat.
  (** AggregateRenumberer, renumberer.hh:15-58: the map and number_ *)
  Definition ren_state : Type := ((nat -> aggd) * nat)%type.
  (** renumberAggregates, renumberer.hh:61-79, the range being all vertices 0..n-1: the map, the number of aggregates and the visited flags afterwards *)
  Definition renumberAggregates (n : nat) (vis : nat -> bool) (agg : nat -> aggd) : outcome (option ((nat -> aggd) * nat * (nat -> bool))) :=
    obind (sweep adj (fun st : ren_state => fst st) (fun st t => (fupd (fst st) t (Agg (snd st)), snd st)) (fun st _ => st)
             (fun st v => aggd_eqb (fst st v) Iso) (fun st _ => Ok st) (fun st v => (fupd (fst st) v (Agg (snd st)), S (snd st)))
             (S n) (seq 0 n) vis (agg, 0))
      (fun o => Ok (option_map (fun r => (fst (snd r), snd (snd r), fold_left (fun f v => fupd f v false) (seq 0 n) (fst r))) o)).

  Variables (agg0 : nat -> aggd) (n : nat).
  Hypothesis targets : forall v t, v < n -> In t (adj v) -> t < n.
  Hypothesis trav : traversable adj agg0 n.
  Definition renumbered (vis : nat -> bool) (st : ren_state) : Prop :=
    (forall w, vis w = false -> fst st w = agg0 w) /\ (forall w r, w < n -> vis w = true -> root_of agg0 r w -> fst st w = Agg (rank agg0 r)).
  Lemma renumber_sweep k : forall i vis st, i + k = n -> VI agg0 n vis i -> renumbered vis st -> snd st = rank agg0 i -> (forall w, vis w = true -> agg0 w <> Iso /\ w < n) ->
    exists vis1 st1, sweep adj (fun st : ren_state => fst st) (fun st t => (fupd (fst st) t (Agg (snd st)), snd st)) (fun st _ => st)
             (fun st v => aggd_eqb (fst st v) Iso) (fun st _ => Ok st) (fun st v => (fupd (fst st) v (Agg (snd st)), S (snd st))) (S n) (seq i k) vis st = Ok (Some (vis1, st1)) /\
      VI agg0 n vis1 n /\ renumbered vis1 st1 /\ snd st1 = rank agg0 n /\ (forall w, vis1 w = true -> agg0 w <> Iso /\ w < n).
  Proof.
    induction k as [|k IH]; intros i vis st Hik HV HR HN HI; cbn [seq sweep].
    - replace i with n in * by lia. exists vis, st. auto.
    - assert (Hi : i < n) by lia.
      assert (ES : aggd_eqb (fst st i) Iso || vis i = true <-> (agg0 i = Iso \/ vis i = true)).
      { rewrite orb_true_iff. destruct (vis i) eqn:EV; [tauto|]. destruct HR as [H1 _]. rewrite (H1 i EV). destruct (aggd_eqb_spec (agg0 i) Iso); intuition discriminate. }
      destruct (aggd_eqb (fst st i) Iso || vis i) eqn:E.
      + apply IH; auto; [lia|apply VI_skip; auto; tauto|]. rewrite rank_S. destruct (isroot agg0 i) eqn:EI; [|lia]. exfalso. apply isroot_spec in EI. destruct EI as [E1 E2]. destruct (proj1 ES eq_refl) as [H|H]; [congruence|].
        apply (HV i Hi E1) in H. destruct H as [r [R1 R2]]. assert (r = i) by (apply (root_unique agg0 r i i); auto). lia.
      + assert (EN : agg0 i <> Iso /\ vis i = false). { destruct (vis i) eqn:EV; [destruct ES; exfalso; discriminate (H0 (or_intror eq_refl))|]. split; auto. intros H. destruct ES as [_ ES]. discriminate (ES (or_introl H)). }
        destruct EN as [E1 E2]. cbn [obind]. destruct (seed adj agg0 n targets trav vis i HV Hi E1 E2) as [RI CL].
        destruct (breadthFirstSearch_spec adj (fun st : ren_state => fst st) (fun st t => (fupd (fst st) t (Agg (snd st)), snd st)) (fun st _ => st) n agg0 targets i vis
                   (fun vis' st' => (vis' i = true /\ snd st' = snd st) /\ (forall y, vis' y = false \/ y = i -> fst st' y = agg0 y) /\ (forall y, vis y = true -> fst st' y = fst st y /\ vis' y = true) /\ (forall y, vis y = false -> y <> i -> vis' y = true -> fst st' y = Agg (snd st)))
                   (fun _ _ => True) Hi E2) with (st0 := st) as (vis1 & st1 & F1 & ((_ & F2) & F3 & F4 & F5) & F6 & _); auto.
        * intros vis' st' y (G1 & G2 & _) HY. auto.
        * intros vis' st' t ((G0 & G1) & G2 & G3 & G4) HT EA Ht. cbn [fst snd]. split; [split; auto; rewrite fupd_ne by congruence; auto|]. split; [|split].
          -- intros y HY. destruct (Nat.eq_dec y t) as [->|Hn].
             ++ rewrite fupd_eq in HY. destruct HY as [|EY]; [discriminate|]. congruence.
             ++ rewrite fupd_ne in HY by auto. rewrite fupd_ne by auto. auto.
          -- intros y Hy. destruct (G3 y Hy) as [G5 G6]. destruct (Nat.eq_dec y t) as [->|Hn]; [congruence|]. rewrite !fupd_ne by auto. auto.
          -- intros y Hy Hn Hv. destruct (Nat.eq_dec y t) as [->|Hn']; [rewrite fupd_eq; congruence|]. rewrite fupd_ne in Hv by auto. rewrite fupd_ne by auto. auto.
        * split; [split; auto; apply fupd_eq|]. destruct HR as [R1 R2]. split; [|split].
          -- intros y [HY| ->]; [|auto]. destruct (Nat.eq_dec y i) as [->|Hn]; [auto|]. rewrite fupd_ne in HY by auto. auto.
          -- intros y Hy. split; auto. destruct (Nat.eq_dec y i) as [->|Hn]; [congruence|]. rewrite fupd_ne; auto.
          -- intros y Hy Hn Hv. rewrite fupd_ne in Hv by auto. congruence.
        * rewrite F1. apply IH; [lia|apply (VI_seed adj agg0 n targets trav vis); auto| | |].
          -- cbn [fst snd]. split.
             ++ intros w Hw. assert (w <> i). { intros ->. assert (vis1 i = true) by (apply F6; right; constructor). congruence. } cbn [fst]. rewrite fupd_ne by auto. apply F3. auto.
             ++ intros w r Hwn Hw Hr. cbn [fst]. destruct (Nat.eq_dec w i) as [->|Hn].
                ** rewrite fupd_eq. rewrite F2, HN. f_equal. f_equal. apply (root_unique agg0 i r i); auto.
                ** rewrite fupd_ne by auto. destruct (vis w) eqn:EW; [rewrite (proj1 (F4 w EW)); apply HR; auto|]. rewrite (F5 w EW Hn Hw), HN. f_equal. f_equal. apply (root_unique agg0 i r w); auto.
                   apply (root_same agg0 i i); auto. apply F6 in Hw. destruct Hw as [Hw|Hw]; [congruence|]. symmetry. apply (closure_agg adj agg0 vis i w Hw).
          -- cbn [snd]. rewrite rank_S, F2, HN. replace (isroot agg0 i) with true by (symmetry; apply isroot_spec; auto). lia.
          -- intros w Hw. apply F6 in Hw. destruct Hw as [Hw|Hw]; auto. rewrite (closure_agg adj agg0 vis i w Hw). split; auto. apply (closure_lt adj n agg0 targets vis i w Hi Hw).
  Qed.
  (** C35: if every aggregate can be traversed from its lowest vertex, afterwards isolated vertices are isolated, a vertex of any other aggregate carries the number of
      aggregates whose lowest vertex precedes that of its aggregate; the count is the number of aggregates and the visited flags are reset. *)
  Theorem C35_renumber vis : (forall v, vis v = false) -> exists agg1 vis1, renumberAggregates n vis agg0 = Ok (Some (agg1, rank agg0 n, vis1)) /\
    (forall v, v < n -> agg0 v = Iso -> agg1 v = Iso) /\
    (forall v r, v < n -> agg0 v <> Iso -> root_of agg0 r v -> agg1 v = Agg (rank agg0 r)) /\
    (forall v, v < n -> vis1 v = false) /\ (forall v, n <= v -> agg1 v = agg0 v).
  Proof.
    intros HV. destruct (renumber_sweep n 0 vis (agg0, 0)) as (vis1 & [agg1 k] & E & V & (R1 & R2) & K & V3); auto.
    - intros w Hw HI. split; [rewrite HV; discriminate|]. intros [r [_ Hr]]. lia.
    - split; auto. intros w r Hn Hw. rewrite HV in Hw. discriminate.
    - intros w Hw. rewrite HV in Hw. discriminate.
    - cbn [fst snd] in *. unfold renumberAggregates. rewrite E. cbn [obind option_map fst snd]. rewrite K. eexists agg1, _. split; [reflexivity|]. split; [|split; [|split]].
      + intros v Hv HI. rewrite R1; auto. destruct (vis1 v) eqn:EV; auto. destruct (V3 v EV). congruence.
      + intros v r Hv HI Hr. apply R2; auto. apply (V v Hv HI). exists r. split; auto. pose proof (root_le agg0 r v Hr). lia.
      + intros v Hv. assert (G : forall l f, fold_left (fun f v => fupd f v false) l f v = if existsb (Nat.eqb v) l then false else f v).
        { induction l as [|a l IH]; intros f; cbn [fold_left existsb]; auto. rewrite IH. destruct (existsb (Nat.eqb v) l); [rewrite orb_true_r; auto|]. rewrite orb_false_r. unfold fupd. reflexivity. }
        rewrite G. replace (existsb (Nat.eqb v) (seq 0 n)) with true; auto. symmetry. apply existsb_exists. exists v. split; [apply in_seq; lia|apply Nat.eqb_refl].
      + intros v Hv. apply R1. destruct (vis1 v) eqn:EV; auto. destruct (V3 v EV). lia.
  Qed.
  (** consequences: consecutive numbers 0..K-1, all used; the partition is preserved *)
  Theorem C35_bijective vis : (forall v, vis v = false) -> exists agg1 vis1 K, renumberAggregates n vis agg0 = Ok (Some (agg1, K, vis1)) /\
    (forall v w, v < n -> w < n -> (agg1 v = agg1 w <-> agg0 v = agg0 w)) /\
    (forall v, v < n -> (agg1 v = Iso <-> agg0 v = Iso)) /\ agg_ok agg1 n K /\
    (forall k, k < K -> exists v, v < n /\ agg1 v = Agg k).
  Proof.
    intros HV. destruct (C35_renumber vis HV) as (agg1 & vis1 & E & H1 & H2 & _). exists agg1, vis1, (rank agg0 n). split; auto.
    assert (H3 : forall v, v < n -> agg0 v <> Iso -> exists r, root_of agg0 r v /\ isroot agg0 r = true /\ r < n /\ agg1 v = Agg (rank agg0 r)).
    { intros v Hv HI. destruct (root_exists agg0 v) as [r Hr]. exists r. split; auto. split; [|split; [pose proof (root_le agg0 r v Hr); lia|auto]]. apply isroot_spec. split; [|apply (root_root agg0 r v Hr)]. destruct Hr as [-> _]. auto. }
    assert (IE : forall v, v < n -> agg1 v = Iso <-> agg0 v = Iso).
    { intros v Hv. split; auto. intros H. destruct (aggd_eqb_spec (agg0 v) Iso); auto. destruct (H3 v Hv n0) as (r & _ & _ & _ & H4). congruence. }
    split; [|split; [auto|split]].
    - intros v w Hv Hw. destruct (aggd_eqb_spec (agg0 v) Iso) as [I1|I1], (aggd_eqb_spec (agg0 w) Iso) as [I2|I2].
      + rewrite H1, H1; auto. rewrite I1, I2. tauto.
      + rewrite (H1 v Hv I1). destruct (H3 w Hw I2) as (r & _ & _ & _ & ->). split; [discriminate|congruence].
      + rewrite (H1 w Hw I2). destruct (H3 v Hv I1) as (r & _ & _ & _ & ->). split; [discriminate|congruence].
      + destruct (H3 v Hv I1) as (r & R1 & R2 & R3 & ->). destruct (H3 w Hw I2) as (r' & R1' & R2' & R3' & ->). split.
        * intros EE. injection EE as EE. apply (rank_inj agg0 r r' R2 R2') in EE. subst r'. destruct R1 as [<- _]. destruct R1' as [<- _]. reflexivity.
        * intros EE. f_equal. f_equal. apply (root_unique agg0 r r' w); auto. apply (root_same agg0 r v); auto.
    - intros v Hv. destruct (aggd_eqb_spec (agg0 v) Iso) as [I1|I1]; [left; auto|]. right. destruct (H3 v Hv I1) as (r & R1 & R2 & R3 & ->). eexists. split; [|reflexivity]. pose proof (rank_mono agg0 (S r) n R3). rewrite rank_S, R2 in H. lia.
    - intros k Hk. destruct (rank_onto agg0 k n Hk) as (v & V1 & V2 & V3). exists v. split; auto. apply isroot_spec in V2. destruct V2 as [V4 V5]. rewrite (H2 v v V1 V4 V5). congruence.
  Qed.
End Renumber.

(** ** GalerkinProduct<SequentialInformation>::build *)
Section Build.
  Variable adj : nat -> list nat.
  Variable agg : nat -> aggd.
  (** the set of column indices of the row under construction (BCRSMatrix::CreateIterator::insert, C02), in the order of the set *)
  Fixpoint ins (j : nat) (l : list nat) : list nat :=
    match l with nil => [j] | k :: t => if j <? k then j :: l else if j =? k then l else k :: ins j t end.
  (** rows finished so far and the current row: SparsityBuilder, galerkin.hh:59-94, 517-566; row.index() is the number of finished rows *)
  Definition sp_state : Type := (list (list nat) * list nat)%type.
  (** ConnectedBuilder::operator(), galerkin.hh:361-367.  Its assertion that the vertex is aggregated holds for all vertices by the assertion in build. *)
  Definition connect (st : sp_state) (t : nat) : sp_state := match agg t with Agg J => (fst st, ins J (snd st)) | _ => st end.
  (** constructNonOverlapConnectivity, :309-328 up to the search: assert(row.index()==aggregates[seed]); row.insert(aggregates[seed]) *)
  Definition seed_row (st : sp_state) (v : nat) : outcome sp_state :=
    match agg v with Agg I0 => if length (fst st) =? I0 then Ok (fst st, ins I0 (snd st)) else Throw EAbort | _ => Throw EAbort end.
  (** build, galerkin.hh:598-625 with ConnectivityConstructor::examine, :498-515: the column indices of each row.
      A number of rows different from size leaves an unfinished matrix or increments the row iterator past the end. *)
  Definition build_pattern (n size : nat) : outcome (option (list (list nat))) :=
    if existsb (fun v => aggd_eqb (agg v) Unagg) (seq 0 n) then Throw EAbort else
    obind (sweep adj (fun _ : sp_state => agg) (fun st _ => st) connect (fun _ _ => false) seed_row (fun st _ => (fst st ++ [snd st], [])) (S n) (seq 0 n) (fun v => aggd_eqb (agg v) Iso) ([], []))
      (fun o => match o with None => Ok None | Some r => if length (fst (snd r)) =? size then Ok (Some (fst (snd r))) else UB end).

  Lemma ins_in j l x : In x (ins j l) <-> x = j \/ In x l.
  Proof.
    induction l as [|k t IH]; cbn [ins In]; [intuition|]. destruct (Nat.ltb_spec j k); [cbn [In]; intuition|]. destruct (Nat.eqb_spec j k); [subst; cbn [In]; intuition|]. cbn [In]. rewrite IH. intuition.
  Qed.
  Lemma ins_sorted j l : StronglySorted lt l -> StronglySorted lt (ins j l).
  Proof.
    induction l as [|k t IH]; cbn [ins]; intros H; [repeat constructor|]. pose proof H as H'. apply StronglySorted_inv in H. destruct H as [S1 S2]. destruct (Nat.ltb_spec j k).
    - constructor; auto. constructor; auto. rewrite Forall_forall in S2 |- *. intros x Hx. specialize (S2 x Hx). lia.
    - destruct (Nat.eqb_spec j k); auto. constructor; auto. rewrite Forall_forall in S2 |- *. intros x Hx. apply ins_in in Hx. destruct Hx as [->|Hx]; auto. lia.
  Qed.

  Variable n : nat.
  Hypothesis targets : forall v t, v < n -> In t (adj v) -> t < n.
  (** aggregates connected from the lowest vertex and numbered in the order of their lowest vertices *)
  Hypothesis trav : traversable adj agg n.
  Hypothesis aggregated : forall v, v < n -> agg v <> Unagg.
  Hypothesis numbered : forall v r, v < n -> agg v <> Iso -> root_of agg r v -> agg v = Agg (rank agg r).

  (** I and J are coupled by an edge of the graph between vertices of the aggregates *)
  Definition coupled (I0 J : nat) : Prop := exists x t, x < n /\ In t (adj x) /\ agg x = Agg I0 /\ agg t = Agg J.
  Definition row_ok (I0 : nat) (row : list nat) : Prop := StronglySorted lt row /\ forall J, In J row <-> J = I0 \/ coupled I0 J.
  Definition rows_ok (rows : list (list nat)) : Prop := forall I0, I0 < length rows -> row_ok I0 (nth I0 rows nil).

  Lemma build_sweep k : forall i vis st, i + k = n -> VI agg n vis i -> (forall w, w < n -> agg w = Iso -> vis w = true) -> rows_ok (fst st) -> snd st = [] -> length (fst st) = rank agg i ->
    exists vis1 st1, sweep adj (fun _ : sp_state => agg) (fun st _ => st) connect (fun _ _ => false) seed_row (fun st _ => (fst st ++ [snd st], [])) (S n) (seq i k) vis st = Ok (Some (vis1, st1)) /\
      rows_ok (fst st1) /\ length (fst st1) = rank agg n.
  Proof.
    induction k as [|k IH]; intros i vis st Hik HV HI HR HS HL; cbn [seq sweep].
    - replace i with n in * by lia. exists vis, st. auto.
    - assert (Hi : i < n) by lia. cbn [orb]. destruct (vis i) eqn:EV.
      + apply IH; auto; [lia|apply VI_skip; auto|]. rewrite rank_S. destruct (isroot agg i) eqn:EI; [|lia]. exfalso. apply isroot_spec in EI. destruct EI as [E1 E2]. apply (HV i Hi E1) in EV. destruct EV as [r [R1 R2]]. assert (r = i) by (apply (root_unique agg r i i); auto). lia.
      + assert (E1 : agg i <> Iso). { intros E. rewrite (HI i Hi E) in EV. discriminate. } destruct (seed adj agg n targets trav vis i HV Hi E1 EV) as [RI CL].
        assert (EA : agg i = Agg (rank agg i)) by (apply numbered; auto). set (K := rank agg i) in *.
        unfold seed_row. rewrite EA, HL, Nat.eqb_refl, HS. cbn [obind ins].
        destruct (breadthFirstSearch_spec adj (fun _ : sp_state => agg) (fun st _ => st) connect n agg targets i vis
                   (fun vis' st' => fst st' = fst st /\ StronglySorted lt (snd st') /\ In K (snd st') /\ (forall J, In J (snd st') -> J = K \/ coupled K J))
                   (fun st' t => forall J, agg t = Agg J -> In J (snd st')) Hi EV) with (st0 := (fst st, [K])) as (vis1 & st1 & F1 & (F2 & F3 & F4 & F5) & F6 & F7); auto.
        * intros vis' st' x t (G1 & G2 & G3 & G4) Hx Ht HN. unfold connect. destruct (agg t) as [| |J] eqn:ET; auto. cbn [fst snd]. split; auto. split; [apply ins_sorted; auto|]. split; [apply ins_in; auto|].
          intros J' HJ. apply ins_in in HJ. destruct HJ as [->|HJ]; auto. right. exists x, t. split; [apply (closure_lt adj n agg targets vis i x Hi Hx)|]. split; auto. split; auto. rewrite (closure_agg adj agg vis i x Hx). exact EA.
        * intros st' t J EJ. unfold connect. rewrite EJ. cbn [snd]. apply ins_in. auto.
        * intros st' t u HS'. split; auto. intros J EJ. unfold connect. destruct (agg t) as [| |J'] eqn:ET; auto. cbn [snd]. apply ins_in. right. auto.
        * intros vis' st' y _ EE NN. congruence.
        * cbn [fst snd]. split; auto. split; [repeat constructor|]. split; [left; auto|]. intros J [<-|[]]. auto.
        * rewrite F1. rewrite F2. apply IH.
          -- lia.
          -- apply (VI_seed adj agg n targets trav vis); auto.
          -- intros w Hw HW. apply F6. left. auto.
          -- cbn [fst]. intros I0 HI0. rewrite app_length in HI0. cbn [length] in HI0. destruct (Nat.lt_ge_cases I0 (length (fst st))) as [H|H]; [rewrite app_nth1 by auto; apply HR; auto|].
             replace I0 with (length (fst st)) by lia. rewrite nth_middle. rewrite HL. split; auto. intros J. split; [apply F5|]. intros [->|(x & t & X1 & X2 & X3 & X4)]; auto. destruct (Nat.eq_dec J K) as [->|HJ]; auto.
             apply (F7 x t); auto; [apply (CL x X1); congruence|rewrite EA; congruence].
          -- reflexivity.
          -- cbn [fst]. rewrite app_length. cbn [length]. rewrite HL, rank_S. replace (isroot agg i) with true by (symmetry; apply isroot_spec; auto). reflexivity.
  Qed.
  (** C34: the pattern is built without assertion failure, one row per aggregate, and (I,J) is in it iff I = J or an edge couples the aggregates *)
  Theorem C34_pattern : exists rows, build_pattern n (rank agg n) = Ok (Some rows) /\ length rows = rank agg n /\ forall I0, I0 < rank agg n -> row_ok I0 (nth I0 rows nil).
  Proof.
    unfold build_pattern. destruct (existsb (fun v => aggd_eqb (agg v) Unagg) (seq 0 n)) eqn:E.
    - exfalso. apply existsb_exists in E. destruct E as [v [H1 H2]]. apply in_seq in H1. destruct (aggd_eqb_spec (agg v) Unagg); [|discriminate]. apply (aggregated v); auto. lia.
    - destruct (build_sweep n 0 (fun v => aggd_eqb (agg v) Iso) ([], [])) as (vis1 & st1 & E1 & R & L); auto.
      + intros w Hw HI. split; [destruct (aggd_eqb_spec (agg w) Iso); congruence|]. intros [r [_ Hr]]. lia.
      + intros w Hw HI. rewrite HI. reflexivity.
      + intros I0 H. cbn in H. lia.
      + rewrite E1. cbn [obind fst snd]. rewrite L, Nat.eqb_refl. exists (fst st1). split; auto. split; auto. intros I0 HI. apply R. lia.
  Qed.
End Build.

(** ** C34: pattern and values together *)
Section Product.
  Context {R : ring}.
  Local Open Scope ring_scope_istl.
  (** the graph of a matrix: MatrixGraph, paamg/graph.hh:50-500, 1539-1630: an edge for every stored off-diagonal entry, in column order *)
  Definition matrix_graph (A : smat R) (v : nat) : list nat := filter (fun c => negb (c =? v)) (map fst (nth v A nil)).
  (** build followed by calculate, matrixhierarchy.hh: *)
  Definition galerkin (agg : nat -> aggd) (A : smat R) (n K : nat) : outcome (option (smat R)) :=
    obind (build_pattern (matrix_graph A) agg n K) (fun o => match o with None => Ok None | Some rows => obind (calculate agg A (map (map (fun j => (j, r0))) rows)) (fun C => Ok (Some C)) end).
  Theorem C34_galerkin_product (A : smat R) agg n K : mat_wf n n A -> agg_ok agg n K -> K = rank agg n -> traversable (matrix_graph A) agg n ->
    (forall v r, v < n -> agg v <> Iso -> root_of agg r v -> agg v = Agg (rank agg r)) ->
    exists C, galerkin agg A n K = Ok (Some C) /\ mat_wf K K C /\
      (forall I J, I < K -> (instored C I J <-> I = J \/ exists r c, r < n /\ c < n /\ instored A r c /\ agg r = Agg I /\ agg c = Agg J)) /\
      forall I J, den C I J = sum n (fun r => sum n (fun c => prol agg r I * (den A r c * prol agg c J))).
  Proof.
    intros HA HG HK HT HN. assert (TG : forall v t, v < n -> In t (matrix_graph A v) -> t < n).
    { intros v t Hv H. unfold matrix_graph in H. apply filter_In in H. destruct H as [H _]. destruct (mat_wf_row n n A v HA) as [_ F]. rewrite Forall_forall in F. apply F; auto. }
    assert (UN : forall v, v < n -> agg v <> Unagg). { intros v Hv E. destruct (HG v Hv) as [H|[k [_ H]]]; congruence. }
    destruct (C34_pattern (matrix_graph A) agg n TG HT UN HN) as (rows & E & L & RW). unfold galerkin. rewrite HK, E. cbn [obind]. rewrite <- HK in *.
    set (C0 := map (map (fun j => (j, r0))) rows).
    assert (L0 : length C0 = K) by (unfold C0; rewrite map_length; auto).
    assert (NT : forall I0, map fst (nth I0 C0 nil) = nth I0 rows nil).
    { intros I0. unfold C0. change (@nil (nat * R)) with (map (fun j : nat => (j, @r0 R)) nil). rewrite map_nth, map_map. cbn [fst]. apply map_id. }
    assert (CW : mat_wf K K C0).
    { split; auto. apply Forall_forall. intros row HI. apply (In_nth _ _ nil) in HI. destruct HI as [i [Hi <-]]. rewrite L0 in Hi. destruct (RW i Hi) as [S1 S2]. unfold row_wf. rewrite NT. split; auto. apply Forall_forall. intros J HJ. apply S2 in HJ. destruct HJ as [->|(x & t & X1 & X2 & X3 & X4)]; auto.
      destruct (HG t (TG x t X1 X2)) as [H|[k [Hk H]]]; [congruence|]. rewrite X4 in H. injection H as ->. auto. }
    assert (LT : forall r c, instored A r c -> r < n /\ c < n).
    { intros r c H. unfold instored in H. assert (Hr : r < n). { destruct (Nat.lt_ge_cases r n); auto. rewrite nth_overflow in H by (rewrite (proj1 HA); auto). destruct H. } split; auto. destruct (mat_wf_row n n A r HA) as [_ F]. rewrite Forall_forall in F. apply F; auto. }
    assert (AK : forall r k, r < n -> agg r = Agg k -> k < K). { intros r k Hr H. destruct (HG r Hr) as [H'|[k' [Hk H']]]; congruence. }
    assert (CP : forall I0 J, coupled (matrix_graph A) agg n I0 J -> exists r c, r < n /\ c < n /\ instored A r c /\ agg r = Agg I0 /\ agg c = Agg J).
    { intros I0 J (x & t & X1 & X2 & X3 & X4). exists x, t. unfold matrix_graph in X2. apply filter_In in X2. destruct X2 as [X2 _]. repeat split; auto. apply (LT x t X2). }
    assert (PC : forall r c I0 J, instored A r c -> agg r = Agg I0 -> agg c = Agg J -> In J (nth I0 rows nil)).
    { intros r c I0 J H E1 E2. destruct (LT r c H) as [Hr Hc]. apply (RW I0 (AK r I0 Hr E1)). destruct (Nat.eq_dec c r) as [->|Hn]; [left; congruence|]. right. exists r, c. repeat split; auto. unfold matrix_graph. apply filter_In. split; auto. destruct (Nat.eqb_spec c r); auto. }
    destruct (C34_galerkin agg n K A C0 HA CW HG) as (C & EC & P & W & D).
    { split.
      - intros I0 HI. unfold instored. rewrite NT. rewrite L0 in HI. apply (RW I0 HI). auto.
      - intros r c I0 J H E1 E2. unfold instored. rewrite NT. apply (PC r c); auto. }
    rewrite EC. cbn [obind]. exists C. split; auto. split; auto. split; auto. intros I0 J HI. unfold instored. rewrite <- pat_nth, P, pat_nth, NT. split.
    - intros H. apply (RW I0 HI) in H. destruct H as [->|H]; auto.
    - intros [<-|(r & c & Hr & Hc & H & E1 & E2)]; [apply (RW I0 HI); auto|apply (PC r c); auto].
  Qed.
End Product.

(** The hypotheses hold for the example of AmgTransfer.v, and the whole product is computed; renumbering 7,7,isolated,3 gives 0,0,isolated,1. *)
Example C34_C35_nonvacuous : traversable (matrix_graph exGalA) exagg 4 /\ (forall v r, v < 4 -> exagg v <> Iso -> root_of exagg r v -> exagg v = Agg (rank exagg r)) /\
  galerkin exagg exGalA 4 2 = Ok (Some [[(0, 6%Z); (1, (-2)%Z)]; [(0, (-3)%Z); (1, 5%Z)]]) /\
  match renumberAggregates (matrix_graph exGalA) 4 (fun _ => false) (fun v => match v with 0 | 1 => Agg 7 | 2 => Iso | _ => Agg 3 end) with
  | Ok (Some (a, k, _)) => (map a [0; 1; 2; 3], k) = ([Agg 0; Agg 0; Iso; Agg 1], 2) | _ => False end.
Proof.
  assert (RT : forall v r, v < 4 -> exagg v <> Iso -> root_of exagg r v -> (v = 0 /\ r = 0) \/ (v = 1 /\ r = 0) \/ (v = 3 /\ r = 3)).
  { intros v r Hv HI HR. pose proof (root_le exagg r v HR) as Hr. destruct HR as [H1 H2]. destruct v as [|[|[|[|v]]]]; try lia; destruct r as [|[|[|[|r]]]]; try lia; cbn in *; try congruence; auto. exfalso. apply (H2 0); auto; lia. }
  split; [|split; [|split; reflexivity]].
  - intros v r Hv HI HR. destruct (RT v r Hv HI HR) as [[-> ->]|[[-> ->]|[-> ->]]]; try constructor. apply (cl_e _ _ _ 0 0 1); [constructor|cbn; auto|reflexivity|reflexivity].
  - intros v r Hv HI HR. destruct (RT v r Hv HI HR) as [[-> ->]|[[-> ->]|[-> ->]]]; reflexivity.
Qed.
(** Connectedness is needed: two vertices of one aggregate without an edge between them get different numbers. *)
Theorem C35_disconnected_refuted : match renumberAggregates (fun _ => []) 2 (fun _ => false) (fun _ => Agg 5) with
  | Ok (Some (a, k, _)) => a 0 = Agg 0 /\ a 1 = Agg 1 /\ k = 2 | _ => False end.
Proof. repeat split. Qed.
Print Assumptions C35_renumber.
Print Assumptions C35_bijective.
Print Assumptions C34_pattern.
Print Assumptions C34_galerkin_product.
