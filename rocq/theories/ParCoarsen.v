(** * Coarsening the parallel information: PropertiesGraphCreator (dune/istl/paamg/graphcreator.hh), ParallelIndicesCoarsener (paamg/indicescoarsener.hh)
    and AggregatesPublisher (paamg/globalaggregates.hh): C73 *)
From Coq Require Import Arith List Lia Bool Sorted Permutation.
From Verif Require Import Sums Outcome AmgTransfer Bfs AggPattern Parallel ParComm.
Import ListNotations.
Open Scope nat_scope.
Notation fupd := Bfs.fupd.

(** ** Model: one process *)
(** an index pair with its public flag *)
Definition pentry : Type := (entry * bool)%type.
Section Local.
  Variable excl : attr -> bool.               (* ExcludedAttributes / OverlapFlags::contains *)
  Variable gmax : nat.                        (* std::numeric_limits<GlobalIndex>::max() *)
  (** the index set of the fine level, iterated in increasing order of the global index *)
  Variable s : list pentry.
  (** GlobalLookupIndexSet::pair, dune-common: the pair with a local index, or null *)
  Definition pair_of (l : nat) : option pentry := find (fun e => e_l (fst e) =? l) s.
  (** PropertiesGraphCreator::create, graphcreator.hh:39-50: the vector excluded, initially false (matrixhierarchy.hh:500) *)
  Definition excluded : nat -> bool := fold_left (fun f e => fupd f (e_l (fst e)) (excl (e_a (fst e)))) s (fun _ => false).
  (** SubGraph(mg, excluded), graph.hh: the vertices not excluded and the edges between them (C36) *)
  Variables (adj : nat -> list nat) (n : nat).
  Definition sub_vertices : list nat := filter (fun v => negb (excluded v)) (seq 0 n).
  Definition sub_adj (v : nat) : list nat := filter (fun t => negb (excluded t)) (adj v).

  (** ParallelAggregateRenumberer, indicescoarsener.hh:93-176, and the coarse index set under construction.  c_att = None: attribute_ not initialised *)
  Record cst := mkc { c_agg : nat -> aggd; c_num : nat; c_pub : bool; c_att : option attr; c_gid : nat; c_ix : outcome (list pentry) }.
  (** what operator()(edge) (:112-120) and the loop (:287-295) do with a vertex that has an index pair *)
  Definition see (st : cst) (v : nat) : cst :=
    match pair_of v with
    | None => st
    | Some (e, b) => mkc (c_agg st) (c_num st) (c_pub st || b) (Some (e_a e)) (e_g e) (c_ix st)
    end.
  Definition set_agg (st : cst) (v : nat) : cst := mkc (fupd (c_agg st) v (Agg (c_num st))) (c_num st) (c_pub st) (c_att st) (c_gid st) (c_ix st).
  (** reset(), :141-145: attribute_ keeps its value *)
  Definition reset (st : cst) : cst := mkc (c_agg st) (c_num st) false (c_att st) gmax (c_ix st).
  (** the body of the loop before (:286-295, with the assertion) and after (:301-310) the search *)
  Definition before (st : cst) (v : nat) : outcome cst :=
    match pair_of v with
    | Some (e, _) => if excl (e_a e) then UB else Ok (see (reset st) v)
    | None => Ok (see (reset st) v)
    end.
  Definition after (st : cst) (v : nat) : cst :=
    let ix := if c_gid st =? gmax then c_ix st
              else obind (c_ix st) (fun l => match c_att st with None => UB | Some a => Ok (l ++ [(mke (c_gid st) (c_num st) a, c_pub st)]) end) in
    mkc (fupd (c_agg st) v (Agg (c_num st))) (S (c_num st)) (c_pub st) (c_att st) (c_gid st) ix.
  (** ParallelIndexSet::endResize, dune-common: sort by global index *)
  Fixpoint insert_g (e : pentry) (l : list pentry) : list pentry :=
    match l with nil => [e] | a :: t => if e_g (fst e) <=? e_g (fst a) then e :: a :: t else a :: insert_g e t end.
  Definition sort_g (l : list pentry) : list pentry := fold_right insert_g nil l.
  Definition main_loop (vs : list nat) := sweep sub_adj c_agg (fun st t => see (set_agg st t) t) (fun st _ => st) (fun st v => aggd_eqb (c_agg st v) Iso) before after (S n) vs.
  (** buildCoarseIndexSet, :251-319: the aggregates map, the number of coarse vertices, the coarse index set and the visited flags afterwards.
      None: a search does not end (excluded by the theorem) *)
  Definition buildCoarseIndexSet (vis : nat -> bool) (agg : nat -> aggd) : outcome (option ((nat -> aggd) * nat * list pentry * (nat -> bool))) :=
    obind (main_loop sub_vertices vis (mkc agg 0 false None gmax (Ok nil)))
      (fun o => match o with
                | None => Ok None
                | Some (vis', st) => obind (c_ix st) (fun l => if c_num st <? length l then UB  (* assertion, :314 *)
                                       else Ok (Some (c_agg st, c_num st, sort_g l, fold_left (fun f v => fupd f v false) sub_vertices vis')))
                end).

  (** ** Proof *)
  Variable agg0 : nat -> aggd.
  (** the aggregates among the vertices that are not excluded *)
  Definition own (v : nat) : aggd := if excluded v then Iso else agg0 v.
  Hypothesis targets : forall v t, v < n -> In t (adj v) -> t < n.
  Hypothesis trav : traversable sub_adj own n.
  Hypothesis Hnd : NoDup (map (fun e => e_l (fst e)) s).
  Hypothesis Hg : forall e b, In (e, b) s -> e_g e <> gmax.
  Lemma sub_targets v t : v < n -> In t (sub_adj v) -> t < n.
  Proof. intros Hv Ht. apply filter_In in Ht. apply (targets v); tauto. Qed.
  Lemma excluded_spec_gen l : forall f v, NoDup (map (fun e => e_l (fst e)) l) ->
    fold_left (fun f e => fupd f (e_l (fst e)) (excl (e_a (fst e)))) l f v = match find (fun e : pentry => e_l (fst e) =? v) l with Some e => excl (e_a (fst e)) | None => f v end.
  Proof.
    induction l as [|e l IH]; intros f v HN; cbn [fold_left find map] in *; auto. inversion HN as [|? ? N1 N2]. rewrite IH by auto. unfold Bfs.fupd. rewrite (Nat.eqb_sym v). destruct (Nat.eqb_spec (e_l (fst e)) v) as [E|E]; auto.
    destruct (find (fun e0 : pentry => e_l (fst e0) =? v) l) as [e'|] eqn:EF; auto. apply find_some in EF. destruct EF as [F1 F2]. apply Nat.eqb_eq in F2. exfalso. apply N1. apply in_map_iff. exists e'. split; auto. congruence.
  Qed.
  Lemma excluded_spec v : excluded v = match pair_of v with Some e => excl (e_a (fst e)) | None => false end.
  Proof. unfold excluded. rewrite excluded_spec_gen by auto. reflexivity. Qed.
  Lemma pair_in v e b : pair_of v = Some (e, b) -> In (e, b) s /\ e_l e = v.
  Proof. intros H. apply find_some in H. destruct H as [H1 H2]. apply Nat.eqb_eq in H2. auto. Qed.
  Lemma pair_some e b : In (e, b) s -> pair_of (e_l e) = Some (e, b).
  Proof.
    unfold pair_of. induction s as [|x l IH]; intros H; [destruct H|]. cbn [map] in Hnd. inversion Hnd as [|? ? N1 N2]. cbn [find]. destruct H as [->|H].
    - cbn [fst]. rewrite Nat.eqb_refl. reflexivity.
    - destruct (Nat.eqb_spec (e_l (fst x)) (e_l e)) as [E|E]; [|apply IH; auto; intros e' b' H'; apply (Hg e' b'); right; auto]. exfalso. apply N1. rewrite E. apply in_map_iff. exists (e, b). auto.
  Qed.

  (** reading the map only at vertices that are not excluded *)
  Definition rd (st : cst) (v : nat) : aggd := if excluded v then Iso else c_agg st v.
  Lemma edges_rd (f1 f2 : cst -> nat -> cst) z ts : excluded z = false -> (forall t, In t ts -> excluded t = false) -> forall vis st, edges c_agg f1 f2 z ts vis st = edges rd f1 f2 z ts vis st.
  Proof.
    intros Hz. induction ts as [|t r IH]; intros HT vis st; cbn [edges]; auto. unfold rd at 1 2. rewrite Hz, (HT t) by (left; auto). rewrite !IH by (intros; apply HT; right; auto). reflexivity.
  Qed.
  Lemma edges_pushed (f1 f2 : cst -> nat -> cst) g z ts : forall vis st, let '(_, _, p) := edges g f1 f2 z ts vis st in incl p ts.
  Proof.
    induction ts as [|t r IH]; intros vis st; cbn [edges]; [intros x []|]. destruct (aggd_eqb (g st t) (g st z)).
    - destruct (vis t).
      + specialize (IH vis st). destruct (edges g f1 f2 z r vis st) as [[v' s'] p]. apply incl_tl; auto.
      + specialize (IH (fupd vis t true) (f1 st t)). destruct (edges g f1 f2 z r (fupd vis t true) (f1 st t)) as [[v' s'] p]. apply incl_cons; [left; auto|apply incl_tl; auto].
    - specialize (IH vis (f2 st t)). destruct (edges g f1 f2 z r vis (f2 st t)) as [[v' s'] p]. apply incl_tl; auto.
  Qed.
  Lemma sub_adj_excl v t : In t (sub_adj v) -> excluded t = false.
  Proof. intros H. apply filter_In in H. apply negb_true_iff. tauto. Qed.
  Lemma search_rd f1 f2 z fuel : excluded z = false -> forall q vis st, search sub_adj c_agg f1 f2 fuel z q vis st = search sub_adj rd f1 f2 fuel z q vis st.
  Proof.
    intros Hz. induction fuel as [|fuel IH]; intros [|v q] vis st; cbn [search]; auto. rewrite edges_rd by (auto; apply sub_adj_excl). destruct (edges rd f1 f2 z (sub_adj v) vis st) as [[v' s'] p]. apply IH.
  Qed.
  Definition main_loop' (vs : list nat) := sweep sub_adj rd (fun st t => see (set_agg st t) t) (fun st _ => st) (fun st v => aggd_eqb (rd st v) Iso) before after (S n) vs.
  Lemma main_loop_rd vs : forall vis st, main_loop (filter (fun v => negb (excluded v)) vs) vis st = main_loop' vs vis st.
  Proof.
    unfold main_loop, main_loop'. induction vs as [|v r IH]; intros vis st; cbn [filter sweep]; auto. assert (R : rd st v = if excluded v then Iso else c_agg st v) by reflexivity. rewrite R. destruct (excluded v) eqn:E; cbn [negb sweep].
    - cbn [aggd_eqb orb]. apply IH.
    - destruct (aggd_eqb (c_agg st v) Iso || vis v); auto. destruct (before st v) as [st1| |]; cbn [obind]; auto. unfold breadthFirstSearch. rewrite search_rd by auto.
      destruct (search sub_adj rd (fun st0 t => see (set_agg st0 t) t) (fun st0 _ => st0) (S n) v [v] (fupd vis v true) st1) as [[vis' st2]|]; auto.
  Qed.

  (** what the renumberer knows after seeing the vertices of a set *)
  Definition knows (S : nat -> Prop) (st : cst) : Prop :=
    (c_pub st = true <-> exists v e, S v /\ pair_of v = Some (e, true)) /\
    ((c_gid st = gmax /\ (forall v, S v -> pair_of v = None)) \/ (exists v e b, S v /\ pair_of v = Some (e, b) /\ c_gid st = e_g e /\ c_att st = Some (e_a e))).

  Lemma see_agg st v : c_agg (see st v) = c_agg st /\ c_num (see st v) = c_num st /\ c_ix (see st v) = c_ix st.
  Proof. unfold see. destruct (pair_of v) as [[e b]|]; auto. Qed.
  Lemma knows_ext (S T : nat -> Prop) st : (forall v, S v <-> T v) -> knows S st -> knows T st.
  Proof.
    intros H [H1 H2]. split.
    - rewrite H1. split; intros (v & e & V1 & V2); exists v, e; (split; [apply H; auto|auto]).
    - destruct H2 as [[H2 H3]|(v & e & b & V1 & V2)]; [left; split; auto; intros v Hv; apply H3, H; auto|right; exists v, e, b; split; auto; apply H; auto].
  Qed.
  Lemma knows_see (S : nat -> Prop) st v : knows S st -> knows (fun w => S w \/ w = v) (see st v).
  Proof.
    intros [H1 H2]. unfold see. destruct (pair_of v) as [[e b]|] eqn:E; cbn [c_pub c_gid c_att].
    - split; cbn [c_pub c_gid c_att].
      + rewrite orb_true_iff, H1. split.
        * intros [(w & e' & W1 & W2)| ->]; [exists w, e'; auto|exists v, e; auto].
        * intros (w & e' & [W1| ->] & W2); [left; exists w, e'; auto|right; congruence].
      + right. exists v, e, b. auto.
    - split.
      + rewrite H1. split; [intros (w & e' & W1 & W2); exists w, e'; auto|]. intros (w & e' & [W1| ->] & W2); [exists w, e'; auto|congruence].
      + destruct H2 as [[H2 H3]|(w & e & b & V1 & V2)]; [left; split; auto; intros w [Hw| ->]; auto|right; exists w, e, b; auto].
  Qed.
  Lemma knows_reset st : knows (fun _ => False) (reset st).
  Proof. split; cbn; [split; [discriminate|intros (v & e & [] & _)]|left; split; auto; intros v []]. Qed.
  Lemma knows_same S st st' : c_pub st' = c_pub st -> c_gid st' = c_gid st -> c_att st' = c_att st -> knows S st -> knows S st'.
  Proof. unfold knows. intros -> -> ->. auto. Qed.

  (** the coarse index set after the vertices below i *)
  Definition members (r v : nat) : Prop := v < n /\ own v = own r.
  Definition entry_for (r : nat) (x : pentry) : Prop :=
    e_l (fst x) = rank own r /\ (exists v b, members r v /\ exists l, pair_of v = Some (mke (e_g (fst x)) l (e_a (fst x)), b)) /\
    (snd x = true <-> exists v e, members r v /\ pair_of v = Some (e, true)).
  Definition indexed (st : cst) (i : nat) : Prop := exists l, c_ix st = Ok l /\
    (forall x, In x l -> exists r, r < i /\ isroot own r = true /\ entry_for r x) /\
    (forall r v e, r < i -> isroot own r = true -> members r v -> pair_of v = Some e -> exists x, In x l /\ entry_for r x) /\
    NoDup (map (fun x => e_l (fst x)) l).
  Definition renumbered' (vis : nat -> bool) (st : cst) : Prop :=
    (forall w, vis w = false -> c_agg st w = agg0 w) /\ (forall w r, w < n -> vis w = true -> root_of own r w -> c_agg st w = Agg (rank own r)).

  Lemma own_excl v : own v <> Iso -> excluded v = false /\ own v = agg0 v.
  Proof. unfold own. destruct (excluded v); [congruence|auto]. Qed.
  Lemma loop_spec k : forall i vis st, i + k = n -> VI own n vis i -> renumbered' vis st -> c_num st = rank own i -> (forall w, vis w = true -> own w <> Iso /\ w < n) -> indexed st i ->
    exists vis1 st1, main_loop' (seq i k) vis st = Ok (Some (vis1, st1)) /\
      VI own n vis1 n /\ renumbered' vis1 st1 /\ c_num st1 = rank own n /\ (forall w, vis1 w = true -> own w <> Iso /\ w < n) /\ indexed st1 n.
  Proof.
    unfold main_loop'. induction k as [|k IH]; intros i vis st Hik HV HR HN HI HX; cbn [seq sweep].
    - replace i with n in * by lia. exists vis, st. auto 10.
    - assert (Hi : i < n) by lia. pose proof HR as [HR1 HR2].
      assert (ES : aggd_eqb (rd st i) Iso || vis i = true <-> (own i = Iso \/ vis i = true)).
      { rewrite orb_true_iff. destruct (vis i) eqn:EV; [tauto|]. unfold rd, own. rewrite (HR1 i EV). destruct (excluded i); [tauto|]. destruct (aggd_eqb_spec (agg0 i) Iso); intuition discriminate. }
      destruct (aggd_eqb (rd st i) Iso || vis i) eqn:E.
      + assert (EI : isroot own i = false).
        { destruct (isroot own i) eqn:EI; auto. exfalso. apply isroot_spec in EI. destruct EI as [E1 E2]. destruct (proj1 ES eq_refl) as [H|H]; [congruence|].
          apply (HV i Hi E1) in H. destruct H as [r [R1 R2]]. assert (r = i) by (apply (root_unique own r i i); auto). lia. }
        apply IH; auto; [lia|apply VI_skip; auto; tauto|rewrite rank_S, EI; lia|]. destruct HX as (l & L1 & L2 & L3 & L4). exists l. split; auto. split; [|split; auto].
        * intros x Hx. destruct (L2 x Hx) as (r & R1 & R2). exists r. split; auto.
        * intros r v e Hr RR. assert (r < i); [|eauto]. destruct (Nat.eq_dec r i) as [->|]; [congruence|lia].
      + assert (EN : own i <> Iso /\ vis i = false). { destruct (vis i) eqn:EV; [destruct ES; exfalso; discriminate (H0 (or_intror eq_refl))|]. split; auto. intros H. destruct ES as [_ ES]. discriminate (ES (or_introl H)). }
        destruct EN as [E1 E2]. destruct (own_excl i E1) as [EX EO].
        assert (B : before st i = Ok (see (reset st) i)). { unfold before. rewrite excluded_spec in EX. destruct (pair_of i) as [[e b]|]; auto. cbn [fst] in EX. rewrite EX. reflexivity. }
        rewrite B. cbn [obind]. destruct (seed sub_adj own n sub_targets trav vis i HV Hi E1 E2) as [RI CL]. pose proof (see_agg (reset st) i) as (S1 & S2 & S3). cbn [reset c_agg c_num c_ix] in S1, S2, S3.
        destruct (breadthFirstSearch_spec sub_adj rd (fun st t => see (set_agg st t) t) (fun st _ => st) n own sub_targets i vis
                   (fun vis' st' => (vis' i = true /\ c_num st' = c_num st /\ c_ix st' = c_ix st) /\ (forall y, vis' y = false \/ y = i -> c_agg st' y = agg0 y) /\ (forall y, vis y = true -> c_agg st' y = c_agg st y /\ vis' y = true) /\
                                    (forall y, vis y = false -> y <> i -> vis' y = true -> c_agg st' y = Agg (c_num st)) /\ knows (fun v => vis' v = true /\ vis v = false) st')
                   (fun _ _ => True) Hi E2) with (st0 := see (reset st) i) as (vis1 & st1 & F1 & ((_ & F2 & F2') & F3 & F4 & F5 & FK) & F6 & _); auto.
        * intros vis' st' y (G1 & G2 & _) HY. unfold rd, own. rewrite (G2 y HY). reflexivity.
        * intros vis' st' t ((G0 & G1 & G1') & G2 & G3 & G4 & GK) HT EA Ht. pose proof (see_agg (set_agg st' t) t) as (T1 & T2 & T3). cbn [set_agg c_agg c_num c_ix] in T1, T2, T3. rewrite T1, T2, T3.
          assert (NI : t <> i) by congruence. split; [split; [rewrite fupd_ne by auto; auto|auto]|]. split; [|split; [|split]].
          -- intros y HY. destruct (Nat.eq_dec y t) as [->|Hn].
             ++ rewrite fupd_eq in HY. destruct HY as [|EY]; [discriminate|]. congruence.
             ++ rewrite fupd_ne in HY by auto. rewrite fupd_ne by auto. auto.
          -- intros y Hy. destruct (G3 y Hy) as [G5 G6]. destruct (Nat.eq_dec y t) as [->|Hn]; [congruence|]. rewrite !fupd_ne by auto. auto.
          -- intros y Hy Hn Hv. destruct (Nat.eq_dec y t) as [->|Hn']; [rewrite fupd_eq; congruence|]. rewrite fupd_ne in Hv by auto. rewrite fupd_ne by auto. auto.
          -- apply (knows_ext (fun w => (vis' w = true /\ vis w = false) \/ w = t)).
             ++ intros w. destruct (Nat.eq_dec w t) as [->|Hn]; [|rewrite fupd_ne by auto; intuition congruence]. rewrite fupd_eq. split; [|auto]. intros _. split; auto. destruct (vis t) eqn:EV; auto. destruct (G3 t EV). congruence.
             ++ apply knows_see. apply (knows_same _ st'); auto.
        * rewrite S1, S2, S3. split; [split; auto; apply fupd_eq|]. split; [|split; [|split]].
          -- intros y [HY| ->]; [|auto]. destruct (Nat.eq_dec y i) as [->|Hn]; [auto|]. rewrite fupd_ne in HY by auto. auto.
          -- intros y Hy. split; auto. destruct (Nat.eq_dec y i) as [->|Hn]; [congruence|]. rewrite fupd_ne; auto.
          -- intros y Hy Hn Hv. rewrite fupd_ne in Hv by auto. congruence.
          -- apply (knows_ext (fun w => False \/ w = i)); [|apply knows_see, knows_reset]. intros w. destruct (Nat.eq_dec w i) as [->|Hn]; [rewrite fupd_eq; tauto|rewrite fupd_ne by auto; intuition congruence].
        * rewrite F1. assert (RR : isroot own i = true) by (apply isroot_spec; auto).
          assert (MK : knows (members i) st1).
          { apply (knows_ext (fun v => vis1 v = true /\ vis v = false)); auto. intros v. rewrite F6. split.
            - intros [[H|H] H']; [congruence|]. split; [apply (closure_lt sub_adj n own sub_targets vis i v Hi H)|apply (closure_agg sub_adj own vis i v H)].
            - intros [M1 M2]. assert (C : closure sub_adj own vis i v) by (apply CL; auto). split; auto. apply (closure_vis sub_adj own vis i v E2 C). }
          apply IH; [lia|apply (VI_seed sub_adj own n sub_targets trav vis); auto| | | |].
          -- unfold after. cbn [c_agg]. split.
             ++ intros w Hw. assert (w <> i). { intros ->. assert (vis1 i = true) by (apply F6; right; constructor). congruence. } cbn [c_agg]. rewrite fupd_ne by auto. apply F3. auto.
             ++ intros w r Hwn Hw Hr. cbn [c_agg]. destruct (Nat.eq_dec w i) as [->|Hn].
                ** rewrite fupd_eq. rewrite F2, HN. f_equal. f_equal. apply (root_unique own i r i); auto.
                ** rewrite fupd_ne by auto. destruct (vis w) eqn:EW; [rewrite (proj1 (F4 w EW)); apply HR; auto|]. rewrite (F5 w EW Hn Hw), HN. f_equal. f_equal. apply (root_unique own i r w); auto.
                   apply (root_same own i i); auto. apply F6 in Hw. destruct Hw as [Hw|Hw]; [congruence|]. symmetry. apply (closure_agg sub_adj own vis i w Hw).
          -- cbn [after c_num]. rewrite rank_S, F2, HN, RR. lia.
          -- intros w Hw. apply F6 in Hw. destruct Hw as [Hw|Hw]; auto. rewrite (closure_agg sub_adj own vis i w Hw). split; auto. apply (closure_lt sub_adj n own sub_targets vis i w Hi Hw).
          -- destruct HX as (l & L1 & L2 & L3 & L4). rewrite L1 in F2'. destruct MK as [MP MG]. unfold after, indexed. cbn [c_ix]. rewrite F2'. destruct MG as [[MG1 MG2]|(v & e & b & V1 & V2 & V3 & V4)].
             ++ rewrite MG1, Nat.eqb_refl. exists l. split; auto. split; [|split; auto].
                ** intros x Hx. destruct (L2 x Hx) as (r & R1 & R2). exists r. split; auto.
                ** intros r v e Hr HRr HM HP. destruct (Nat.eq_dec r i) as [->|Hn]; [rewrite (MG2 v HM) in HP; discriminate|]. apply (L3 r v e); auto. lia.
             ++ assert (NG : c_gid st1 <> gmax) by (rewrite V3; apply (Hg e b); apply (pair_in v); auto). destruct (Nat.eqb_spec (c_gid st1) gmax); [contradiction|]. cbn [obind]. rewrite V4.
                set (x1 := (mke (c_gid st1) (c_num st1) (e_a e), c_pub st1)). assert (X1 : entry_for i x1).
                { split; [cbn [x1 fst e_l]; congruence|]. split; [|exact MP]. exists v, b. split; auto. exists (e_l e). rewrite V2. cbn [x1 fst e_g e_a]. rewrite V3. destruct e; reflexivity. }
                exists (l ++ [x1]). split; auto. split; [|split].
                ** intros x Hx. apply in_app_iff in Hx. destruct Hx as [Hx|[<-|[]]]; [|exists i; auto]. destruct (L2 x Hx) as (r & R1 & R2). exists r. split; auto.
                ** intros r w e' Hr HRr HM HP. destruct (Nat.eq_dec r i) as [->|Hn]; [exists x1; split; auto; apply in_app_iff; right; left; auto|]. destruct (L3 r w e') as (x & X2 & X3); auto; [lia|]. exists x. split; auto. apply in_app_iff; auto.
                ** rewrite map_app. cbn [map]. apply (Permutation_NoDup (Permutation_cons_append _ _)). constructor; auto. intros HIn. apply in_map_iff in HIn. destruct HIn as (x & X2 & X3). destruct (L2 x X3) as (r & R1 & R2 & R3 & _).
                   rewrite R3 in X2. cbn [x1 fst e_l] in X2. rewrite F2, HN in X2. apply rank_inj in X2; auto. lia.
  Qed.

  Hypothesis Hsort : StronglySorted lt (map (fun e => e_g (fst e)) s).
  Lemma insert_perm e l : Permutation (insert_g e l) (e :: l).
  Proof. induction l as [|a t IH]; cbn [insert_g]; auto. destruct (e_g (fst e) <=? e_g (fst a)); auto. rewrite IH. apply perm_swap. Qed.
  Lemma sort_perm l : Permutation (sort_g l) l.
  Proof. induction l as [|a t IH]; cbn [sort_g fold_right]; auto. rewrite insert_perm. constructor. exact IH. Qed.
  Lemma insert_sorted e l : StronglySorted lt (map (fun e => e_g (fst e)) l) -> ~ In (e_g (fst e)) (map (fun e => e_g (fst e)) l) -> StronglySorted lt (map (fun e => e_g (fst e)) (insert_g e l)).
  Proof.
    induction l as [|a t IH]; cbn [insert_g map]; intros H HN; [repeat constructor|]. inversion H as [|? ? H1 H2]. destruct (Nat.leb_spec (e_g (fst e)) (e_g (fst a))).
    - cbn [map]. assert (e_g (fst e) <> e_g (fst a)) by (intros E; apply HN; left; auto). constructor; auto. constructor; [lia|]. rewrite Forall_forall in *. intros x Hx. specialize (H2 x Hx). lia.
    - cbn [map]. constructor; [apply IH; auto; intros HI; apply HN; right; auto|]. rewrite Forall_forall in *. intros x Hx. apply in_map_iff in Hx. destruct Hx as (y & <- & Hy). apply (Permutation_in _ (insert_perm e t)) in Hy. destruct Hy as [<-|Hy]; auto. apply H2. apply in_map_iff. exists y. auto.
  Qed.
  Lemma sort_sorted l : NoDup (map (fun e => e_g (fst e)) l) -> StronglySorted lt (map (fun e : pentry => e_g (fst e)) (sort_g l)).
  Proof.
    induction l as [|a t IH]; cbn [sort_g fold_right map]; intros H; [constructor|]. inversion H as [|? ? H1 H2]. apply insert_sorted; [apply IH; auto|]. intros HI. apply H1. apply (Permutation_in _ (Permutation_map _ (sort_perm t))). exact HI.
  Qed.
  Lemma NoDup_via {A B C} (f : A -> B) (h : A -> C) l : NoDup (map h l) -> (forall x y, In x l -> In y l -> f x = f y -> h x = h y) -> NoDup (map f l).
  Proof.
    induction l as [|a t IH]; cbn [map]; intros H HI; [constructor|]. inversion H as [|? ? H1 H2]. constructor; [|apply IH; auto; intros; apply HI; auto; right; auto].
    intros HF. apply in_map_iff in HF. destruct HF as (y & E & Hy). apply H1. apply in_map_iff. exists y. split; auto. apply HI; auto; [right; auto|left; auto].
  Qed.
  Lemma global_unique e b e' b' : In (e, b) s -> In (e', b') s -> e_g e = e_g e' -> e = e'.
  Proof.
    clear trav Hnd Hg. induction s as [|x l IH]; intros H1 H2 E; [destruct H1|]. cbn [map] in Hsort. inversion Hsort as [|? ? S1 S2]. rewrite Forall_forall in S2. destruct H1 as [->|H1], H2 as [H2|H2].
    - congruence.
    - exfalso. specialize (S2 (e_g e')). cbn [fst] in S2. assert (e_g e < e_g e'); [|lia]. apply S2. apply in_map_iff. exists (e', b'). auto.
    - subst x. exfalso. specialize (S2 (e_g e)). cbn [fst] in S2. assert (e_g e' < e_g e); [|lia]. apply S2. apply in_map_iff. exists (e, b). auto.
    - apply IH; auto.
  Qed.

  (** C73 (one process): the vertices that are not excluded keep their partition into aggregates, numbered 0..K-1 in the order of their lowest vertices; isolated and excluded vertices keep their mark.  The coarse index set is sorted,
      has distinct local indices below K and exactly one entry for each aggregate with a vertex in the fine index set: global index and attribute are those of one of its vertices,
      it is public if one of its vertices is.  Nothing uninitialised is read, no assertion fails, the visited flags are reset. *)
  Theorem C73_index_set vis : (forall v, vis v = false) -> exists agg1 K cix vis1, buildCoarseIndexSet vis agg0 = Ok (Some (agg1, K, cix, vis1)) /\
    (forall v, excluded v = true \/ agg0 v = Iso \/ n <= v -> agg1 v = agg0 v) /\
    (forall v, v < n -> excluded v = false -> agg0 v <> Iso -> exists k, k < K /\ agg1 v = Agg k) /\
    (forall v w, v < n -> w < n -> excluded v = false -> excluded w = false -> (agg1 v = agg1 w <-> agg0 v = agg0 w)) /\
    (forall k, k < K -> exists v, v < n /\ excluded v = false /\ agg1 v = Agg k) /\
    StronglySorted lt (map (fun x => e_g (fst x)) cix) /\ NoDup (map (fun x => e_l (fst x)) cix) /\ Forall (fun x => e_l (fst x) < K) cix /\
    (forall x, In x cix -> exists v b, v < n /\ excluded v = false /\ agg1 v = Agg (e_l (fst x)) /\ In (mke (e_g (fst x)) v (e_a (fst x)), b) s) /\
    (forall x, In x cix -> (snd x = true <-> exists e, e_l e < n /\ excluded (e_l e) = false /\ agg1 (e_l e) = Agg (e_l (fst x)) /\ In (e, true) s)) /\
    (forall e b k, In (e, b) s -> e_l e < n -> excluded (e_l e) = false -> agg1 (e_l e) = Agg k -> agg0 (e_l e) <> Iso -> exists x, In x cix /\ e_l (fst x) = k) /\
    (forall v, v < n -> excluded v = false -> vis1 v = false) /\
    K = rank own n /\ (forall v r, v < n -> own v <> Iso -> root_of own r v -> agg1 v = Agg (rank own r)).
  Proof.
    intros HV. destruct (loop_spec n 0 vis (mkc agg0 0 false None gmax (Ok []))) as (vis1 & st1 & E & V & (R1 & R2) & KK & V3 & (l & L1 & L2 & L3 & L4)); auto.
    - intros w Hw HI. split; [rewrite HV; discriminate|]. intros [r [_ Hr]]. lia.
    - split; auto. intros w r Hn Hw. rewrite HV in Hw. discriminate.
    - intros w Hw. rewrite HV in Hw. discriminate.
    - exists []. split; auto. split; [intros x []|]. split; [lia|constructor].
    - assert (OWN : forall v, v < n -> excluded v = false -> agg0 v <> Iso -> own v <> Iso /\ own v = agg0 v) by (intros v Hv HE HI; unfold own; rewrite HE; auto).
      assert (A1 : forall v r, v < n -> own v <> Iso -> root_of own r v -> c_agg st1 v = Agg (rank own r) /\ isroot own r = true /\ r < n).
      { intros v r Hv HI Hr. pose proof (root_le own r v Hr). split; [apply R2; auto; apply (V v Hv HI); exists r; split; auto; lia|]. split; [|lia]. apply isroot_spec. split; [|apply (root_root own r v Hr)]. destruct Hr as [-> _]. auto. }
      assert (KEEP : forall v, excluded v = true \/ agg0 v = Iso \/ n <= v -> c_agg st1 v = agg0 v).
      { intros v H. apply R1. destruct (vis1 v) eqn:EV; auto. destruct (V3 v EV) as [V4 V5]. destruct (own_excl v V4) as [O1 O2]. destruct H as [H|[H|H]]; [congruence|congruence|lia]. }
      assert (MEM : forall r v, isroot own r = true -> r < n -> (members r v <-> v < n /\ excluded v = false /\ agg0 v <> Iso /\ c_agg st1 v = Agg (rank own r))).
      { intros r v HR HRn. apply isroot_spec in HR. destruct HR as [HR1 HR2]. split.
        - intros [M1 M2]. assert (O : own v <> Iso) by congruence. destruct (own_excl v O) as [O1 O2]. repeat split; auto; [congruence|]. apply A1; auto. apply (root_same own r r); auto.
        - intros (M1 & M2 & M3 & M4). destruct (OWN v M1 M2 M3) as [O1 O2]. split; auto. destruct (root_exists own v) as [r' Hr']. destruct (A1 v r' M1 O1 Hr') as (B1 & B2 & B3). rewrite B1 in M4. injection M4 as M4. apply rank_inj in M4; auto; [|apply isroot_spec; auto]. subst r'. symmetry. apply Hr'. }
      assert (NG : NoDup (map (fun e : pentry => e_g (fst e)) l)).
      { apply (NoDup_via _ (fun x => e_l (fst x))); auto. intros x y Hx Hy EG. destruct (L2 x Hx) as (r & RX1 & RX2 & (X1 & (v & b & VM & l1 & X2) & _)). destruct (L2 y Hy) as (r' & RY1 & RY2 & (Y1 & (v' & b' & VM' & l2 & Y2) & _)).
        apply pair_in in X2, Y2. destruct X2 as [X2 X3], Y2 as [Y2 Y3]. pose proof (global_unique _ _ _ _ X2 Y2 EG) as EQ. injection EQ as _ EQ1 _. cbn [e_l] in X3, Y3. assert (EV : v = v') by congruence. subst v'. destruct VM as [_ VM], VM' as [_ VM'].
        apply isroot_spec in RX2, RY2. assert (r = r'). { destruct RX2 as [_ RX2], RY2 as [_ RY2]. apply (root_unique own r r' v); [apply (root_same own r r v)|apply (root_same own r' r' v)]; congruence || auto. } subst r'. congruence. }
      assert (LT : forall x, In x l -> e_l (fst x) < rank own n).
      { intros x Hx. destruct (L2 x Hx) as (r & RX1 & RX2 & (X1 & _)). rewrite X1. pose proof (rank_mono own (S r) n RX1) as HM. rewrite rank_S, RX2 in HM. lia. }
      unfold buildCoarseIndexSet, sub_vertices. rewrite main_loop_rd, E. cbn [obind]. rewrite L1. cbn [obind].
      assert (LEN : length l <= c_num st1). { rewrite KK. transitivity (length (map (fun x : pentry => e_l (fst x)) l)); [rewrite map_length; apply le_n|]. transitivity (length (seq 0 (rank own n))); [|rewrite seq_length; apply le_n]. apply NoDup_incl_length; auto. intros k Hk. apply in_map_iff in Hk. destruct Hk as (x & <- & Hx). apply in_seq. specialize (LT x Hx). lia. }
      destruct (Nat.ltb_spec (c_num st1) (length l)); [lia|]. rewrite KK. eexists (c_agg st1), (rank own n), (sort_g l), _. split; [reflexivity|].
      assert (SP : forall x, In x (sort_g l) <-> In x l) by (intros x; split; apply Permutation_in; [apply sort_perm|apply Permutation_sym, sort_perm]).
      split; [exact KEEP|]. split; [|split; [|split; [|split; [|split; [|split; [|split; [|split; [|split; [|split; [|split; [reflexivity|intros v r Hv HI Hr; apply (A1 v r Hv HI Hr)]]]]]]]]]]].
      + intros v Hv HE HI. destruct (OWN v Hv HE HI) as [O1 O2]. destruct (root_exists own v) as [r Hr]. destruct (A1 v r Hv O1 Hr) as (B1 & B2 & B3). exists (rank own r). split; auto. pose proof (rank_mono own (S r) n B3) as HM. rewrite rank_S, B2 in HM. lia.
      + intros v w Hv Hw EV EW. destruct (aggd_eqb_spec (agg0 v) Iso) as [IV|IV], (aggd_eqb_spec (agg0 w) Iso) as [IW|IW].
        * rewrite !KEEP by auto. reflexivity.
        * rewrite (KEEP v) by auto. rewrite IV. destruct (OWN w Hw EW IW) as [O1 O2]. destruct (root_exists own w) as [r Hr]. destruct (A1 w r Hw O1 Hr) as (B1 & _). rewrite B1. split; congruence.
        * rewrite (KEEP w) by auto. rewrite IW. destruct (OWN v Hv EV IV) as [O1 O2]. destruct (root_exists own v) as [r Hr]. destruct (A1 v r Hv O1 Hr) as (B1 & _). rewrite B1. split; congruence.
        * destruct (OWN v Hv EV IV) as [O1 O2], (OWN w Hw EW IW) as [O3 O4]. destruct (root_exists own v) as [r Hr]. destruct (root_exists own w) as [r' Hr']. destruct (A1 v r Hv O1 Hr) as (B1 & B2 & _), (A1 w r' Hw O3 Hr') as (B3 & B4 & _). rewrite B1, B3. split.
          -- intros EQ. injection EQ as EQ. apply rank_inj in EQ; auto. subst r'. rewrite <- O2, <- O4. destruct Hr as [<- _]. destruct Hr' as [<- _]. reflexivity.
          -- intros EQ. f_equal. f_equal. apply (root_unique own r r' w); auto. apply (root_same own r v); auto. congruence.
      + intros k Hk. apply rank_onto in Hk. destruct Hk as (r & K1 & K2 & K3). exists r. assert (M : members r r) by (split; auto). apply (MEM r r K2 K1) in M. rewrite <- K3. tauto.
      + apply sort_sorted; auto.
      + apply (Permutation_NoDup (Permutation_sym (Permutation_map _ (sort_perm l)))); auto.
      + apply Forall_forall. intros x Hx. apply LT. apply SP; auto.
      + intros x Hx. apply SP in Hx. destruct (L2 x Hx) as (r & RX1 & RX2 & (X1 & (v & b & VM & l1 & X2) & _)). apply (MEM r v RX2 RX1) in VM. destruct VM as (M1 & M2 & M3 & M4). exists v, b. rewrite X1. apply pair_in in X2. destruct X2 as [X2 X3]. cbn [e_l] in X3. subst l1. auto.
      + intros x Hx. apply SP in Hx. destruct (L2 x Hx) as (r & RX1 & RX2 & (X1 & _ & XP)). rewrite XP. split.
        * intros (v & e & M & HP). apply (MEM r v RX2 RX1) in M. destruct M as (M1 & M2 & M3 & M4). apply pair_in in HP. destruct HP as [P1 <-]. exists e. rewrite X1. auto.
        * intros (e & P1 & P2 & P3 & P4). exists (e_l e), e. split; [|apply pair_some; auto]. apply (MEM r (e_l e) RX2 RX1). repeat split; auto; [|congruence]. intros EI. rewrite KEEP in P3 by auto. congruence.
      + intros e b k HI Hn HE HA HO. destruct (OWN (e_l e) Hn HE HO) as [O1 O2]. destruct (root_exists own (e_l e)) as [r Hr]. destruct (A1 (e_l e) r Hn O1 Hr) as (B1 & B2 & B3). destruct (L3 r (e_l e) (e, b) B3 B2 (proj2 (MEM r (e_l e) B2 B3) (conj Hn (conj HE (conj HO B1)))) (pair_some e b HI)) as (x & X1 & X2 & _). exists x. split; [apply SP; auto|]. rewrite X2. congruence.
      + intros v Hv HE. assert (G : forall l f, fold_left (fun f v => fupd f v false) l f v = if existsb (Nat.eqb v) l then false else f v).
        { clear. induction l as [|a l IH]; intros f; cbn [fold_left existsb]; auto. rewrite IH. destruct (existsb (Nat.eqb v) l); [rewrite orb_true_r; auto|]. rewrite orb_false_r. unfold Bfs.fupd. reflexivity. }
        rewrite G. replace (existsb (Nat.eqb v) (filter (fun v0 => negb (excluded v0)) (seq 0 n))) with true; auto. symmetry. apply existsb_exists. exists v. split; [apply filter_In; split; [apply in_seq; lia|rewrite HE; auto]|apply Nat.eqb_refl].
  Qed.
End Local.

(** ** Model: the remote indices of the coarse level *)
Section Remote.
  Variable excl : attr -> bool.
  Variable agg : nat -> aggd.
  (** the loop over the remote index list of one neighbour, indicescoarsener.hh:353-366; the entry numeric_limits<char>::max() of the vector attributes is None, 3 is the attribute copy *)
  Definition mark (at_ : list (option attr)) (r : entry * attr) : outcome (list (option attr)) :=
    if excl (e_a (fst r)) then Ok at_
    else match agg (e_l (fst r)) with
         | Iso => Ok at_
         | Unagg => UB
         | Agg k => match nth_error at_ k with
                    | None => UB
                    | Some (Some Copy) => Ok at_
                    | Some _ => Ok (upd at_ k (Some (snd r)))
                    end
         end.
  Fixpoint marks (at_ : list (option attr)) (rl : list (entry * attr)) : outcome (list (option attr)) :=
    match rl with nil => Ok at_ | r :: t => obind (mark at_ r) (fun a => marks a t) end.
  (** building the list of the neighbour, :369-381 *)
  Fixpoint coarse_list (at_ : list (option attr)) (cix : list pentry) : outcome (list (entry * attr)) :=
    match cix with
    | nil => Ok nil
    | x :: t => match nth_error at_ (e_l (fst x)) with
                | None => UB
                | Some None => coarse_list at_ t
                | Some (Some a) => obind (coarse_list at_ t) (fun l => Ok ((fst x, a) :: l))
                end
    end.
  (** buildCoarseRemoteIndices without the final synchronisation, :331-382, for one neighbour with remote index list [rl] *)
  Definition coarse_remote (K : nat) (cix : list pentry) (rl : list (entry * attr)) : outcome (list (entry * attr)) :=
    obind (marks (repeat None K) rl) (fun at_ => coarse_list at_ cix).

  (** the attributes the neighbour has for the vertices of aggregate k, and the one chosen: copy if it occurs, else the last *)
  Definition claims (rl : list (entry * attr)) (k : nat) : list attr := map snd (filter (fun r => negb (excl (e_a (fst r))) && aggd_eqb (agg (e_l (fst r))) (Agg k)) rl).
  Definition choose (M : list attr) : option attr := match M with nil => None | _ => Some (if existsb (attr_eqb Copy) M then Copy else last M Owner) end.
  Definition keepcopy (o : option attr) (a : attr) : option attr := match o with Some Copy => Some Copy | _ => Some a end.
  Lemma keepcopy_copy M : fold_left keepcopy M (Some Copy) = Some Copy.
  Proof. induction M; cbn; auto. Qed.
  Lemma choose_fold M : forall o, fold_left keepcopy M o = match M with nil => o | _ => match o with Some Copy => Some Copy | _ => choose M end end.
  Proof.
    induction M as [|a t IH]; intros o; cbn [fold_left]; auto. rewrite IH. unfold choose. cbn [existsb last]. destruct t as [|b t].
    - destruct o as [[]|], a; reflexivity.
    - destruct o as [[]|], a; cbn [keepcopy attr_eqb orb]; auto.
  Qed.
  Lemma marks_spec rl : forall at_, (forall r, In r rl -> excl (e_a (fst r)) = false -> agg (e_l (fst r)) = Iso \/ exists k, k < length at_ /\ agg (e_l (fst r)) = Agg k) ->
    exists at1, marks at_ rl = Ok at1 /\ length at1 = length at_ /\ forall k, k < length at_ -> nth k at1 None = fold_left keepcopy (claims rl k) (nth k at_ None).
  Proof.
    induction rl as [|r t IH]; intros at_ H; cbn [marks]; [exists at_; auto|].
    assert (M : exists at2, mark at_ r = Ok at2 /\ length at2 = length at_ /\ forall k, k < length at_ -> nth k at2 None = fold_left keepcopy (claims [r] k) (nth k at_ None)).
    { unfold mark, claims. cbn [filter]. destruct (excl (e_a (fst r))) eqn:EX; cbn [negb andb]; [exists at_; auto|]. destruct (H r (or_introl eq_refl) EX) as [E|(k & Hk & E)]; rewrite E.
      - exists at_. auto.
      - destruct (nth_error at_ k) as [o|] eqn:EN; [|apply nth_error_None in EN; lia]. apply (nth_error_nth _ _ None) in EN.
        assert (G : forall j, j < length at_ -> nth j (upd at_ k (Some (snd r))) None = if j =? k then Some (snd r) else nth j at_ None).
        { intros j Hj. destruct (Nat.eqb_spec j k) as [->|Hn]; [apply nth_upd_eq; auto|apply nth_upd_ne; auto]. }
        destruct o as [[]|]; (eexists; split; [reflexivity|]; split; [try rewrite upd_length; auto|]); intros j Hj; rewrite ?G by auto; cbn [aggd_eqb]; rewrite (Nat.eqb_sym k j); destruct (Nat.eqb_spec j k) as [->|Hn]; cbn [map fold_left]; auto; rewrite EN; reflexivity. }
    destruct M as (at2 & M1 & M2 & M3). rewrite M1. cbn [obind]. destruct (IH at2) as (at1 & A1 & A2 & A3).
    - intros r' Hr'. rewrite M2. apply H. right; auto.
    - exists at1. split; auto. split; [congruence|]. intros k Hk. rewrite A3, M3 by lia. unfold claims. rewrite <- fold_left_app, <- map_app, <- filter_app. reflexivity.
  Qed.
  Lemma coarse_list_spec at_ cix : (forall x, In x cix -> e_l (fst x) < length at_) -> exists l, coarse_list at_ cix = Ok l /\ forall e a, In (e, a) l <-> (exists b, In (e, b) cix) /\ nth (e_l e) at_ None = Some a.
  Proof.
    induction cix as [|x t IH]; intros H; cbn [coarse_list]; [exists []; split; auto; intros e a; split; [intros []|intros [[b []] _]]|]. destruct IH as (l & L1 & L2); [intros; apply H; right; auto|].
    pose proof (H x (or_introl eq_refl)) as HL. destruct (nth_error at_ (e_l (fst x))) as [o|] eqn:EN; [|apply nth_error_None in EN; lia]. apply (nth_error_nth _ _ None) in EN. rewrite L1. cbn [obind]. destruct x as [e0 b0]. cbn [fst] in *. destruct o as [a0|].
    - eexists. split; [reflexivity|]. intros e a. cbn [In]. rewrite L2. split.
      + intros [E|[[b Hb] E]]; [injection E as -> ->; split; auto; exists b0; auto|split; auto; exists b; auto].
      + intros [[b [Hb|Hb]] E]; [left; congruence|right; split; eauto].
    - exists l. split; auto. intros e a. rewrite L2. split; (intros [[b Hb] E]; split; auto); [exists b; right; auto|]. destruct Hb as [Hb|Hb]; [congruence|eauto].
  Qed.
  Lemma coarse_remote_spec K cix rl : (forall r, In r rl -> excl (e_a (fst r)) = false -> agg (e_l (fst r)) = Iso \/ exists k, k < K /\ agg (e_l (fst r)) = Agg k) -> (forall x, In x cix -> e_l (fst x) < K) ->
    exists l, coarse_remote K cix rl = Ok l /\ forall e a, In (e, a) l <-> (exists b, In (e, b) cix) /\ choose (claims rl (e_l e)) = Some a.
  Proof.
    intros H1 H2. unfold coarse_remote. destruct (marks_spec rl (repeat None K)) as (at1 & A1 & A2 & A3); [rewrite repeat_length; auto|]. rewrite repeat_length in *. rewrite A1. cbn [obind].
    destruct (coarse_list_spec at1 cix) as (l & L1 & L2); [rewrite A2; auto|]. exists l. split; auto. intros e a. rewrite L2. split; (intros [[b Hb] E]; split; [eauto|]).
    - rewrite A3 in E by (apply (H2 _ Hb)). rewrite choose_fold in E. rewrite nth_repeat in E. destruct (claims rl (e_l e)); auto.
    - rewrite A3 by (apply (H2 _ Hb)). rewrite choose_fold, nth_repeat. destruct (claims rl (e_l e)); auto.
  Qed.
End Remote.
Lemma choose_in M a : choose M = Some a -> In a M.
Proof.
  unfold choose. destruct M as [|b t]; [discriminate|]. intros E. assert (EE : (if existsb (attr_eqb Copy) (b :: t) then Copy else last (b :: t) Owner) = a) by congruence. rewrite <- EE. clear E EE. destruct (existsb (attr_eqb Copy) (b :: t)) eqn:EX.
  - apply existsb_exists in EX. destruct EX as (x & X1 & X2). destruct x; try discriminate. auto.
  - clear EX. revert b. induction t as [|c t IH]; intros b; [left; auto|]. right. apply (IH c).
Qed.

(** ** Model: IndicesSyncer::sync, dune-common (not in this repository): process q receives from each other process p the pairs (global index, attribute) p believes q holds, in any order of processes;
    an index it does not have is added, public, with the next local number (ParallelAggregateRenumberer::operator()(global), indicescoarsener.hh:122-127) *)
Definition unpack (st : list pentry * nat) (m : nat * attr) : list pentry * nat :=
  match lookup (map fst (fst st)) (fst m) with Some _ => st | None => (fst st ++ [(mke (fst m) (snd st) (snd m), true)], S (snd st)) end.
Definition sync (order : list nat) (msg : nat -> list (nat * attr)) (cix : list pentry) (K : nat) : list pentry * nat :=
  let '(l, k) := fold_left (fun st p => fold_left unpack (msg p) st) order (cix, K) in (sort_g l, k).

Section Sync.
  Variables (cix : list pentry) (K : nat).
  Hypothesis C1 : NoDup (map (fun x : pentry => e_g (fst x)) cix).
  Hypothesis C2 : NoDup (map (fun x : pentry => e_l (fst x)) cix).
  Hypothesis C3 : forall x : pentry, In x cix -> e_l (fst x) < K.
  Definition sync_inv (ms : list (nat * attr)) (st : list pentry * nat) : Prop :=
    K <= snd st /\ NoDup (map (fun x : pentry => e_g (fst x)) (fst st)) /\ NoDup (map (fun x : pentry => e_l (fst x)) (fst st)) /\ (forall x, In x (fst st) -> e_l (fst x) < snd st) /\
    (forall x, In x cix -> In x (fst st)) /\ (forall x, In x (fst st) -> In x cix \/ K <= e_l (fst x) /\ snd x = true /\ In (e_g (fst x), e_a (fst x)) ms) /\ (forall m, In m ms -> exists x, In x (fst st) /\ e_g (fst x) = fst m).
  Lemma unpack_inv ms st m : sync_inv ms st -> sync_inv (ms ++ [m]) (unpack st m).
  Proof.
    intros (I1 & I2 & I3 & I4 & I5 & I6 & I7). unfold unpack. destruct (lookup (map fst (fst st)) (fst m)) as [e|] eqn:E.
    - apply find_some in E. destruct E as [E1 E2]. apply Nat.eqb_eq in E2. apply in_map_iff in E1. destruct E1 as (x & X1 & X2). split; auto. split; auto. split; auto. split; auto. split; auto. split.
      + intros y Hy. destruct (I6 y Hy) as [H|(H1 & H2 & H3)]; auto. right. repeat split; auto. apply in_app_iff; auto.
      + intros m' Hm. apply in_app_iff in Hm. destruct Hm as [Hm|[<-|[]]]; auto. exists x. split; auto. congruence.
    - apply lookup_none in E. split; cbn [fst snd]; [lia|]. split; [|split; [|split; [|split; [|split]]]].
      + rewrite map_app. cbn [map fst e_g]. apply (Permutation_NoDup (Permutation_cons_append _ _)). constructor; auto. rewrite map_map in E. exact E.
      + rewrite map_app. cbn [map fst e_l]. apply (Permutation_NoDup (Permutation_cons_append _ _)). constructor; auto. intros HI. apply in_map_iff in HI. destruct HI as (x & X1 & X2). specialize (I4 x X2). lia.
      + intros x Hx. apply in_app_iff in Hx. destruct Hx as [Hx|[<-|[]]]; [specialize (I4 x Hx); lia|cbn [fst e_l]; lia].
      + intros x Hx. apply in_app_iff. auto.
      + intros x Hx. apply in_app_iff in Hx. destruct Hx as [Hx|[<-|[]]]; cbn [fst snd e_l e_g e_a].
        * destruct (I6 x Hx) as [H|(H1 & H2 & H3)]; auto. right. repeat split; auto. apply in_app_iff; auto.
        * right. repeat split; auto. apply in_app_iff. right. left. destruct m; auto.
      + intros m' Hm. apply in_app_iff in Hm. destruct Hm as [Hm|[<-|[]]].
        * destruct (I7 m' Hm) as (x & X1 & X2). exists x. split; auto. apply in_app_iff; auto.
        * exists (mke (fst m) (snd st) (snd m), true). split; auto. apply in_app_iff. right. left. auto.
  Qed.
  Lemma unpack_all new : forall ms st, sync_inv ms st -> sync_inv (ms ++ new) (fold_left unpack new st).
  Proof. induction new as [|m t IH]; intros ms st H; cbn [fold_left]; [rewrite app_nil_r; auto|]. replace (ms ++ m :: t) with ((ms ++ [m]) ++ t) by (rewrite <- app_assoc; auto). apply IH. apply unpack_inv; auto. Qed.
  Lemma sync_all (order : list nat) (msg : nat -> list (nat * attr)) : forall ms st, sync_inv ms st -> sync_inv (ms ++ flat_map msg order) (fold_left (fun st p => fold_left unpack (msg p) st) order st).
  Proof. induction order as [|p t IH]; intros ms st H; cbn [fold_left flat_map]; [rewrite app_nil_r; auto|]. rewrite app_assoc. apply IH. apply unpack_all; auto. Qed.
  Lemma sync_spec order msg cix1 K1 : sync order msg cix K = (cix1, K1) ->
    K <= K1 /\ StronglySorted lt (map (fun x : pentry => e_g (fst x)) cix1) /\ NoDup (map (fun x : pentry => e_l (fst x)) cix1) /\ (forall x, In x cix1 -> e_l (fst x) < K1) /\ (forall x, In x cix -> In x cix1) /\
    (forall x, In x cix1 -> In x cix \/ K <= e_l (fst x) /\ snd x = true /\ exists p, In p order /\ In (e_g (fst x), e_a (fst x)) (msg p)) /\ (forall p m, In p order -> In m (msg p) -> exists x, In x cix1 /\ e_g (fst x) = fst m).
  Proof.
    unfold sync. intros E. destruct (fold_left (fun st p => fold_left unpack (msg p) st) order (cix, K)) as [l k] eqn:EF. injection E as <- <-.
    assert (I : sync_inv ([] ++ flat_map msg order) (l, k)). { rewrite <- EF. apply sync_all. split; auto. cbn [fst snd]. repeat split; auto. intros m []. }
    destruct I as (I1 & I2 & I3 & I4 & I5 & I6 & I7). cbn [fst snd] in *. assert (SP : forall x, In x (sort_g l) <-> In x l) by (intros x; split; apply Permutation_in; [apply sort_perm|apply Permutation_sym, sort_perm]).
    split; auto. split; [apply sort_sorted; auto|]. split; [apply (Permutation_NoDup (Permutation_sym (Permutation_map _ (sort_perm l)))); auto|]. split; [intros x Hx; apply I4, SP, Hx|]. split; [intros x Hx; apply SP; auto|]. split.
    - intros x Hx. apply SP in Hx. destruct (I6 x Hx) as [H|(H1 & H2 & H3)]; auto. right. repeat split; auto. apply in_flat_map in H3. exact H3.
    - intros p m Hp Hm. destruct (I7 m) as (x & X1 & X2); [apply in_flat_map; exists p; auto|]. exists x. split; auto. apply SP; auto.
  Qed.
End Sync.

(** ** All processes *)
Definition notown (a : attr) : bool := negb (ownerSet a).      (* NegateSet<OwnerSet>, amg.hh:699 *)
Section World.
  Variables (P : nat) (sz : nat -> nat) (ix : nat -> pis).
  Variables (gmax : nat) (adj : nat -> nat -> list nat) (agg0 : nat -> nat -> aggd).
  (** Simplification: all indices of the fine level are public *)
  Definition pub (p : nat) : list pentry := map (fun e => (e, true)) (ix p).
  (** ParallelIndicesCoarsener::coarsen, indicescoarsener.hh:235-252, run by all processes: maps, numbers and index sets before ([K], [cix]) and after ([K1], [cix1]) the synchronisation, remote index lists [rem p q] *)
  Definition coarsened (agg1 : nat -> nat -> aggd) (K : nat -> nat) (cix : nat -> list pentry) (rem : nat -> nat -> list (entry * attr)) (cix1 : nat -> list pentry) (K1 : nat -> nat) : Prop :=
    (forall p, p < P -> exists vis, buildCoarseIndexSet notown gmax (pub p) (adj p) (sz p) (fun _ => false) (agg0 p) = Ok (Some (agg1 p, K p, cix p, vis))) /\
    (forall p q, p < P -> q < P -> p <> q -> coarse_remote notown (agg1 p) (K p) (cix p) (remote_list (ix p) (ix q)) = Ok (rem p q)) /\
    (forall q, q < P -> exists order, Permutation order (filter (fun p => negb (p =? q)) (seq 0 P)) /\ sync order (fun p => map (fun r => (e_g (fst r), snd r)) (rem p q)) (cix q) (K q) = (cix1 q, K1 q)).
  (** the coarse index set of process p *)
  Definition coarse (cix1 : nat -> list pentry) (p : nat) : pis := map fst (cix1 p).

  Hypothesis HW : dist_wf P sz ix.
  Hypothesis HU : unique_owner P ix.
  Hypothesis Hgmax : forall p g l a, p < P -> holds ix p g l a -> g <> gmax.
  Hypothesis Htg : forall p v t, p < P -> v < sz p -> In t (adj p v) -> t < sz p.
  Hypothesis Htrav : forall p, p < P -> traversable (sub_adj notown (pub p) (adj p)) (own notown (pub p) (agg0 p)) (sz p).

  Lemma pub_in p e b : In (e, b) (pub p) <-> b = true /\ In e (ix p).
  Proof. unfold pub. rewrite in_map_iff. split; [intros (x & E & H); injection E as <- <-; auto|intros [-> H]; eauto]. Qed.
  Lemma pub_nd p : p < P -> NoDup (map (fun e : pentry => e_l (fst e)) (pub p)) /\ StronglySorted lt (map (fun e : pentry => e_g (fst e)) (pub p)).
  Proof. intros Hp. unfold pub. rewrite !map_map. destruct (HW p Hp) as (H1 & H2 & _). split; auto. Qed.
  Lemma ix_lt p e : p < P -> In e (ix p) -> e_l e < sz p.
  Proof. intros Hp H. destruct (HW p Hp) as (_ & _ & H3). rewrite Forall_forall in H3. auto. Qed.
  Lemma excl_entry p e : p < P -> In e (ix p) -> excluded notown (pub p) (e_l e) = notown (e_a e).
  Proof.
    intros Hp H. destruct (pub_nd p Hp) as [N1 N2]. rewrite (excluded_spec notown (pub p) N1). rewrite (pair_some gmax (pub p) N1) with (b := true); [reflexivity| |apply pub_in; auto].
    intros e' b' H'. apply pub_in in H'. destruct H' as [_ H']. destruct e' as [g l a]. apply (Hgmax p g l a Hp H').
  Qed.
  (** the facts about one process, from [C73_index_set] *)
  Definition local_facts (p : nat) (agg1 : nat -> aggd) (K : nat) (cix : list pentry) : Prop :=
    (forall v, excluded notown (pub p) v = true \/ agg0 p v = Iso \/ sz p <= v -> agg1 v = agg0 p v) /\
    (forall v, v < sz p -> excluded notown (pub p) v = false -> agg0 p v <> Iso -> exists k, k < K /\ agg1 v = Agg k) /\
    StronglySorted lt (map (fun x : pentry => e_g (fst x)) cix) /\ NoDup (map (fun x : pentry => e_l (fst x)) cix) /\ (forall x, In x cix -> e_l (fst x) < K) /\
    (forall e b, In (e, b) cix -> b = true /\ e_a e = Owner /\ exists v, v < sz p /\ agg1 v = Agg (e_l e) /\ holds ix p (e_g e) v Owner) /\
    (forall g v k, holds ix p g v Owner -> agg1 v = Agg k -> agg0 p v <> Iso -> exists x, In x cix /\ e_l (fst x) = k).
  Lemma local_run p : p < P -> exists agg1 K cix vis, buildCoarseIndexSet notown gmax (pub p) (adj p) (sz p) (fun _ => false) (agg0 p) = Ok (Some (agg1, K, cix, vis)) /\ local_facts p agg1 K cix.
  Proof.
    intros Hp. destruct (pub_nd p Hp) as [N1 N2].
    assert (HG : forall e b, In (e, b) (pub p) -> e_g e <> gmax). { intros e b H. apply pub_in in H. destruct H as [_ H]. destruct e as [g l a]. apply (Hgmax p g l a Hp H). }
    destruct (C73_index_set notown gmax (pub p) (adj p) (sz p) (agg0 p) (fun v t => Htg p v t Hp) (Htrav p Hp) N1 HG N2 (fun _ => false) (fun _ => eq_refl)) as (agg1 & K & cix & vis & E & A1 & A2 & _ & _ & A5 & A6 & A7 & A8 & A9 & A10 & _).
    exists agg1, K, cix, vis. split; auto. split; auto. split; auto. split; auto. split; auto. split; [rewrite Forall_forall in A7; auto|]. split.
    - intros e b Hx. destruct (A8 _ Hx) as (v & b' & V1 & V2 & V3 & V4). apply pub_in in V4. destruct V4 as [-> V4]. cbn [fst] in V4. pose proof (excl_entry p _ Hp V4) as EX. cbn [e_l e_a] in EX. rewrite V2 in EX.
      assert (EO : e_a e = Owner) by (destruct (e_a e); auto; discriminate). split; [|split; auto].
      + specialize (A9 _ Hx). cbn [snd fst] in A9. apply A9. exists (mke (e_g e) v (e_a e)). cbn [e_l]. repeat split; auto. apply pub_in; auto.
      + exists v. repeat split; auto. rewrite <- EO. exact V4.
    - intros g v k HH HA HI. apply (A10 (mke g v Owner) true k); cbn [e_l]; auto; [apply pub_in; auto|apply (ix_lt p _ Hp HH)|exact (excl_entry p _ Hp HH)].
  Qed.
  Lemma facts agg1 K cix rem cix1 K1 p : coarsened agg1 K cix rem cix1 K1 -> p < P -> local_facts p (agg1 p) (K p) (cix p).
  Proof. intros (C & _) Hp. destruct (C p Hp) as [vis E]. destruct (local_run p Hp) as (a & k & c & v & E' & H). assert (EQ : (a, k, c, v) = (agg1 p, K p, cix p, vis)) by congruence. injection EQ as -> -> -> _. exact H. Qed.
  Lemma remote_in p q e a : In (e, a) (remote_list (ix p) (ix q)) <-> In e (ix p) /\ exists e', lookup (ix q) (e_g e) = Some e' /\ e_a e' = a.
  Proof.
    unfold remote_list. rewrite in_flat_map. split.
    - intros (x & X1 & X2). destruct (lookup (ix q) (e_g x)) as [e'|] eqn:E; [|destruct X2]. destruct X2 as [X2|[]]. injection X2 as -> <-. eauto.
    - intros (H & e' & H1 & H2). exists e. split; auto. rewrite H1. left. congruence.
  Qed.
  Lemma remote_holds p q g l a a' : q < P -> In (mke g l a, a') (remote_list (ix p) (ix q)) <-> holds ix p g l a /\ exists l', holds ix q g l' a'.
  Proof.
    intros Hq. rewrite remote_in. cbn [e_g]. unfold holds. destruct (HW q Hq) as (HS & _). split; intros [H1 H2]; (split; auto).
    - destruct H2 as (e' & H2 & <-). apply (lookup_spec _ _ _ HS) in H2. destruct H2 as [H2 H3]. exists (e_l e'). destruct e' as [g' l' b']. cbn in *. congruence.
    - destruct H2 as (l' & H2). exists (mke g l' a'). split; auto. apply (lookup_spec _ _ _ HS). auto.
  Qed.
  Lemma remote_ok p q agg1 K cix : p < P -> q < P -> local_facts p agg1 K cix ->
    exists l, coarse_remote notown agg1 K cix (remote_list (ix p) (ix q)) = Ok l /\ forall e a, In (e, a) l <-> (exists b, In (e, b) cix) /\ choose (claims notown agg1 (remote_list (ix p) (ix q)) (e_l e)) = Some a.
  Proof.
    intros Hp Hq (F1 & F2 & _ & _ & F5 & _). apply coarse_remote_spec; auto. intros [e a] Hr HE. apply remote_in in Hr. destruct Hr as [Hr _]. cbn [fst] in *.
    destruct (aggd_eqb_spec (agg0 p (e_l e)) Iso) as [EI|EI]; [left; rewrite F1 by auto; auto|right]. apply F2; auto; [apply (ix_lt p e Hp Hr)|rewrite (excl_entry p e Hp Hr); auto].
  Qed.
  (** C73: all processes can coarsen (in any order of messages) *)
  Theorem C73_runs : exists agg1 K cix rem cix1 K1, coarsened agg1 K cix rem cix1 K1.
  Proof.
    assert (H : forall p, exists r, p < P -> (exists vis, buildCoarseIndexSet notown gmax (pub p) (adj p) (sz p) (fun _ => false) (agg0 p) = Ok (Some (fst (fst r), snd (fst r), snd r, vis))) /\ local_facts p (fst (fst r)) (snd (fst r)) (snd r)).
    { intros p. destruct (Nat.lt_ge_cases p P) as [Hp|Hp]; [|exists (fun _ => Iso, 0, []); lia]. destruct (local_run p Hp) as (a & k & c & v & E & F). exists (a, k, c). intros _. cbn [fst snd]. eauto. }
    assert (FC : forall X (Q : nat -> X -> Prop) (b : X), (forall p, exists r, p < P -> Q p r) -> exists f, forall p, p < P -> Q p (f p)).
    { clear. intros X Q b HQ. assert (G : forall m, exists f, forall p, p < m -> p < P -> Q p (f p)).
      { induction m as [|m [f IH]]; [exists (fun _ => b); lia|]. destruct (HQ m) as [r Hr]. exists (fun p => if p =? m then r else f p). intros p H1 H2. destruct (Nat.eqb_spec p m) as [->|]; auto. apply IH; auto. lia. }
      destruct (G P) as [f Hf]. exists f. auto. }
    destruct (FC _ _ (fun _ => Iso, 0, []) H) as [r Hr].
    set (rem := fun p q => match coarse_remote notown (fst (fst (r p))) (snd (fst (r p))) (snd (r p)) (remote_list (ix p) (ix q)) with Ok l => l | _ => [] end).
    set (out := fun q => sync (filter (fun p => negb (p =? q)) (seq 0 P)) (fun p => map (fun r => (e_g (fst r), snd r)) (rem p q)) (snd (r q)) (snd (fst (r q)))).
    exists (fun p => fst (fst (r p))), (fun p => snd (fst (r p))), (fun p => snd (r p)), rem, (fun q => fst (out q)), (fun q => snd (out q)). split; [|split].
    - intros p Hp. apply Hr; auto.
    - intros p q Hp Hq _. destruct (remote_ok p q _ _ _ Hp Hq (proj2 (Hr p Hp))) as (l & E & _). unfold rem. rewrite E. reflexivity.
    - intros q Hq. eexists. split; [apply Permutation_refl|]. unfold out. destruct (sync _ _ _ _). reflexivity.
  Qed.

  Variables (agg1 : nat -> nat -> aggd) (K : nat -> nat) (cix : nat -> list pentry) (rem : nat -> nat -> list (entry * attr)) (cix1 : nat -> list pentry) (K1 : nat -> nat).
  Hypothesis HC : coarsened agg1 K cix rem cix1 K1.
  Let cx : nat -> pis := coarse cix1.
  Lemma rem_spec p q e a : p < P -> q < P -> p <> q -> In (e, a) (rem p q) <-> (exists b, In (e, b) (cix p)) /\ choose (claims notown (agg1 p) (remote_list (ix p) (ix q)) (e_l e)) = Some a.
  Proof.
    intros Hp Hq Hn. destruct (remote_ok p q _ _ _ Hp Hq (facts _ _ _ _ _ _ p HC Hp)) as (l & E & H). destruct HC as (_ & C & _). specialize (C p q Hp Hq Hn). rewrite E in C. injection C as <-. apply H.
  Qed.
  (** the attributes of the vertices of an aggregate of p on process q *)
  Lemma claims_in p q k a : p < P -> q < P -> In a (claims notown (agg1 p) (remote_list (ix p) (ix q)) k) <-> exists g v l, holds ix p g v Owner /\ agg1 p v = Agg k /\ holds ix q g l a.
  Proof.
    intros Hp Hq. unfold claims. rewrite in_map_iff. split.
    - intros ([[g v b] a'] & E & H). cbn [snd] in E. subst a'. apply filter_In in H. destruct H as [H1 H2]. apply (remote_holds p q g v b a Hq) in H1. destruct H1 as [H1 (l & H3)]. apply andb_true_iff in H2. cbn [fst e_a e_l] in H2. destruct H2 as [H2 H4].
      assert (b = Owner) by (destruct b; auto; discriminate). subst b. destruct (aggd_eqb_spec (agg1 p v) (Agg k)); [|discriminate]. eauto 10.
    - intros (g & v & l & H1 & H2 & H3). exists (mke g v Owner, a). split; auto. apply filter_In. split; [apply remote_holds; eauto|]. cbn [fst e_a e_l]. rewrite H2, aggd_eqb_refl. reflexivity.
  Qed.
  Lemma rem_claim p q e a : p < P -> q < P -> p <> q -> In (e, a) (rem p q) -> a <> Owner.
  Proof.
    intros Hp Hq Hn H ->. apply (rem_spec p q e Owner Hp Hq Hn) in H. destruct H as [_ H]. apply choose_in in H. apply claims_in in H; auto. destruct H as (g & v & l & H1 & H2 & H3). apply Hn. apply (HU g p q v l); auto.
  Qed.
  Lemma sync_facts q : q < P -> K q <= K1 q /\ StronglySorted lt (map (fun x : pentry => e_g (fst x)) (cix1 q)) /\ NoDup (map (fun x : pentry => e_l (fst x)) (cix1 q)) /\ (forall x, In x (cix1 q) -> e_l (fst x) < K1 q) /\ (forall x, In x (cix q) -> In x (cix1 q)) /\
    (forall x, In x (cix1 q) -> In x (cix q) \/ K q <= e_l (fst x) /\ exists p e, p < P /\ p <> q /\ In (e, e_a (fst x)) (rem p q) /\ e_g e = e_g (fst x)) /\
    (forall p e a, p < P -> p <> q -> In (e, a) (rem p q) -> exists x, In x (cix1 q) /\ e_g (fst x) = e_g e).
  Proof.
    intros Hq. destruct (facts _ _ _ _ _ _ q HC Hq) as (_ & _ & F3 & F4 & F5 & _). destruct HC as (_ & _ & C). destruct (C q Hq) as (order & O1 & O2).
    assert (ORD : forall p, In p order <-> p < P /\ p <> q). { intros p. split; [intros H; apply (Permutation_in _ O1) in H|intros H; apply (Permutation_in _ (Permutation_sym O1))]; rewrite ?filter_In, ?in_seq in *; [destruct H as [H1 H2]|split; [lia|]]; try (apply negb_true_iff in H2; apply Nat.eqb_neq in H2; lia); apply negb_true_iff, Nat.eqb_neq; tauto. }
    assert (ND : NoDup (map (fun x : pentry => e_g (fst x)) (cix q))). { clear - F3. induction F3 as [|a l H IH HF]; constructor; auto. rewrite Forall_forall in HF. intros HI. specialize (HF a HI). lia. }
    destruct (sync_spec (cix q) (K q) ND F4 F5 order _ _ _ O2) as (S1 & S2 & S3 & S4 & S5 & S6 & S7). split; auto. split; auto. split; auto. split; auto. split; auto. split.
    - intros x Hx. destruct (S6 x Hx) as [H|(H1 & _ & p & H3 & H4)]; auto. right. split; auto. apply in_map_iff in H4. destruct H4 as ([e a] & E & H4). cbn [fst snd] in E. injection E as E1 E2. apply ORD in H3. destruct H3 as [H3 H5]. exists p, e. subst a. auto.
    - intros p e a Hp Hn H. destruct (S7 p (e_g e, a)) as (x & X1 & X2); [apply ORD; auto|apply in_map_iff; exists (e, a); auto|]. eauto.
  Qed.
  Lemma cx_in q e : In e (cx q) <-> exists b, In (e, b) (cix1 q).
  Proof. unfold cx, coarse. rewrite in_map_iff. split; [intros ([e' b] & E & H); cbn in E; subst e'; eauto|intros [b H]; exists (e, b); auto]. Qed.
  Lemma own_entry p e : p < P -> (In e (cx p) /\ e_a e = Owner) <-> exists b, In (e, b) (cix p).
  Proof.
    intros Hp. destruct (sync_facts p Hp) as (_ & _ & _ & _ & S5 & S6 & _). rewrite cx_in. split.
    - intros [[b H] EO]. destruct (S6 _ H) as [H1|(_ & q & e' & Q1 & Q2 & Q3 & _)]; [eauto|]. exfalso. cbn [fst] in Q3. rewrite EO in Q3. apply (rem_claim q p e' Owner Q1 Hp Q2 Q3). auto.
    - intros [b H]. split; [eauto|]. destruct (facts _ _ _ _ _ _ p HC Hp) as (_ & _ & _ & _ & _ & F6 & _). apply (F6 e b H).
  Qed.
  Lemma own_unique p q e e' b b' : p < P -> q < P -> In (e, b) (cix p) -> In (e', b') (cix q) -> e_g e = e_g e' -> p = q.
  Proof.
    intros Hp Hq H1 H2 E. destruct (facts _ _ _ _ _ _ p HC Hp) as (_ & _ & _ & _ & _ & F & _). destruct (facts _ _ _ _ _ _ q HC Hq) as (_ & _ & _ & _ & _ & F' & _).
    destruct (F e b H1) as (_ & _ & v & _ & _ & O1). destruct (F' e' b' H2) as (_ & _ & v' & _ & _ & O2). rewrite E in O1. apply (HU _ p q v v' Hp Hq O1 O2).
  Qed.
  (** C73: the coarse index sets are well formed, every index has exactly one owner, the owned coarse indices of a process are those of its aggregates with a vertex in the fine index set;
      process q holds a coarse index owned by p iff it holds a vertex of that aggregate, and the remote index list of p for q has the attribute q has *)
  Theorem C73_coarse_level : dist_wf P K1 (coarse cix1) /\ unique_owner P (coarse cix1) /\
    (forall q g l a, q < P -> holds (coarse cix1) q g l a -> exists p k, p < P /\ holds (coarse cix1) p g k Owner) /\
    (forall p k, p < P -> ((exists g, holds (coarse cix1) p g k Owner) <-> exists g v, holds ix p g v Owner /\ agg1 p v = Agg k)) /\
    (forall p q g k, p < P -> q < P -> p <> q -> holds (coarse cix1) p g k Owner -> ((exists l a, holds (coarse cix1) q g l a) <-> exists g' v l a, holds ix p g' v Owner /\ agg1 p v = Agg k /\ holds ix q g' l a)) /\
    (forall p q e a, p < P -> q < P -> p <> q -> (In (e, a) (rem p q) <-> In e (coarse cix1 p) /\ e_a e = Owner /\ exists l, holds (coarse cix1) q (e_g e) l a)).
  Proof.
    fold cx. assert (WF : dist_wf P K1 cx).
    { intros q Hq. destruct (sync_facts q Hq) as (_ & S2 & S3 & S4 & _). unfold cx, coarse, pis_wf. rewrite !map_map. split; auto. split; auto. apply Forall_forall. intros e He. apply in_map_iff in He. destruct He as (x & <- & Hx). auto. }
    assert (LK : forall q g l a l' a', q < P -> holds cx q g l a -> holds cx q g l' a' -> l = l' /\ a = a') by (intros q g l a l' a' Hq; apply (holds_inj P K1 cx WF q g l a l' a' Hq)).
    assert (HR : forall p q e a, p < P -> q < P -> p <> q -> (In (e, a) (rem p q) <-> In e (cx p) /\ e_a e = Owner /\ exists l, holds cx q (e_g e) l a)).
    { intros p q e a Hp Hq Hn. destruct (sync_facts q Hq) as (_ & _ & _ & _ & _ & S6 & S7). split.
      - intros H. pose proof (proj1 (rem_spec p q e a Hp Hq Hn) H) as [Hc Hch]. destruct (proj2 (own_entry p e Hp) Hc) as [O1 O2]. split; auto. split; auto. destruct (S7 p e a Hp Hn H) as (x & X1 & X2). exists (e_l (fst x)).
        destruct Hc as [b Hc]. destruct (S6 x X1) as [H1|(_ & p' & e' & P1 & P2 & P3 & P4)].
        + exfalso. apply Hn. destruct x as [ex bx]. apply (own_unique p q e ex b bx Hp Hq Hc H1). auto.
        + pose proof (proj1 (rem_spec p' q e' _ P1 Hq P2) P3) as [[b' Hc'] Hch']. assert (p' = p). { apply (own_unique p' p e' e b' b P1 Hp Hc' Hc). congruence. } subst p'.
          assert (EE : e' = e). { destruct (proj2 (own_entry p e' Hp) (ex_intro _ b' Hc')) as [O3 _]. destruct (WF p Hp) as (SS & _). assert (lookup (cx p) (e_g e) = Some e') by (apply (lookup_spec _ _ _ SS); split; auto; congruence). assert (lookup (cx p) (e_g e) = Some e) by (apply (lookup_spec _ _ _ SS); auto). congruence. }
          subst e'. assert (e_a (fst x) = a) by congruence. apply cx_in. exists (snd x). destruct x as [[gx lx ax] bx]. cbn in *. subst. auto.
      - intros (H1 & H2 & l & H3). apply cx_in in H3. destruct H3 as [b H3]. destruct (proj1 (own_entry p e Hp) (conj H1 H2)) as [b1 Hb1]. destruct (S6 _ H3) as [H4|(_ & p' & e' & P1 & P2 & P3 & P4)].
        + exfalso. apply Hn. apply (own_unique p q e _ b1 b Hp Hq Hb1 H4). reflexivity.
        + cbn [fst e_a e_g] in P3, P4. pose proof (proj1 (rem_spec p' q e' _ P1 Hq P2) P3) as [[b' Hc'] _]. assert (p' = p) by (apply (own_unique p' p e' e b' b1 P1 Hp Hc' Hb1); auto). subst p'.
          assert (EE : e' = e). { destruct (proj2 (own_entry p e' Hp) (ex_intro _ b' Hc')) as [O3 _]. destruct (WF p Hp) as (SS & _). assert (lookup (cx p) (e_g e) = Some e') by (apply (lookup_spec _ _ _ SS); split; auto). assert (lookup (cx p) (e_g e) = Some e) by (apply (lookup_spec _ _ _ SS); auto). congruence. }
          congruence. }
    split; auto. split; [|split; [|split; [|split; auto]]].
    - intros g p q l l' Hp Hq H1 H2. destruct (proj1 (own_entry p _ Hp) (conj H1 eq_refl)) as [b B1]. destruct (proj1 (own_entry q _ Hq) (conj H2 eq_refl)) as [b' B2]. apply (own_unique p q _ _ b b' Hp Hq B1 B2). reflexivity.
    - intros q g l a Hq H. destruct (sync_facts q Hq) as (_ & _ & _ & _ & _ & S6 & _). apply cx_in in H. destruct H as [b H]. destruct (S6 _ H) as [H1|(_ & p & e & P1 & P2 & P3 & P4)].
      + destruct (proj2 (own_entry q _ Hq) (ex_intro _ b H1)) as [O1 O2]. cbn [e_a] in O2. subst a. exists q, l. auto.
      + pose proof (proj1 (rem_spec p q e _ P1 Hq P2) P3) as [Hc' _]. destruct (proj2 (own_entry p e P1) Hc') as [O1 O2]. exists p, (e_l e). split; auto. unfold holds. cbn [fst e_g] in P4. rewrite <- P4, <- O2. destruct e; auto.
    - intros p k Hp. destruct (facts _ _ _ _ _ _ p HC Hp) as (F1 & _ & _ & _ & _ & F6 & F7). split.
      + intros [g H]. destruct (proj1 (own_entry p _ Hp) (conj H eq_refl)) as [b B1]. destruct (F6 _ _ B1) as (_ & _ & v & _ & V2 & V3). cbn [e_l e_g] in *. eauto.
      + intros (g & v & H1 & H2). assert (HI : agg0 p v <> Iso) by (intros EI; rewrite F1 in H2 by auto; congruence). destruct (F7 g v k H1 H2 HI) as ([e b] & X1 & X2). cbn [fst] in X2. destruct (proj2 (own_entry p e Hp) (ex_intro _ b X1)) as [O1 O2]. exists (e_g e). unfold holds. rewrite <- X2, <- O2. destruct e; auto.
    - intros p q g k Hp Hq Hn H. split.
      + intros (l & a & H1). pose proof (proj2 (HR p q (mke g k Owner) a Hp Hq Hn) (conj H (conj eq_refl (ex_intro _ l H1)))) as H2. apply (rem_spec p q _ a Hp Hq Hn) in H2. destruct H2 as [_ H2]. apply choose_in in H2. apply claims_in in H2; auto. destruct H2 as (g' & v & l' & V1 & V2 & V3). cbn [e_l] in V2. eauto 10.
      + intros (g' & v & l & a & V1 & V2 & V3). assert (HM : In a (claims notown (agg1 p) (remote_list (ix p) (ix q)) k)) by (apply claims_in; eauto 10). destruct (choose (claims notown (agg1 p) (remote_list (ix p) (ix q)) k)) as [a'|] eqn:ECH; [|unfold choose in ECH; destruct (claims notown (agg1 p) (remote_list (ix p) (ix q)) k); [destruct HM|discriminate]].
        assert (H2 : In (mke g k Owner, a') (rem p q)) by (apply rem_spec; auto; split; [apply (own_entry p _ Hp); auto|auto]). apply HR in H2; auto. destruct H2 as (_ & _ & l2 & H2). eauto.
  Qed.

  (** C73: the attribute of a coarse index on a process that does not own it is one the process has for a vertex of the aggregate, and copy if it has one as copy *)
  Theorem C73_attribute p q G k l a : p < P -> q < P -> p <> q -> holds (coarse cix1) p G k Owner -> holds (coarse cix1) q G l a ->
    a <> Owner /\ (exists g v l', holds ix p g v Owner /\ agg1 p v = Agg k /\ holds ix q g l' a) /\
    ((exists g v l', holds ix p g v Owner /\ agg1 p v = Agg k /\ holds ix q g l' Copy) -> a = Copy).
  Proof.
    intros Hp Hq Hn H1 H2. destruct C73_coarse_level as (_ & _ & _ & _ & _ & HR). pose proof (proj2 (HR p q (mke G k Owner) a Hp Hq Hn) (conj H1 (conj eq_refl (ex_intro _ l H2)))) as H3. split; [apply (rem_claim p q _ a Hp Hq Hn H3)|].
    apply (rem_spec p q _ a Hp Hq Hn) in H3. destruct H3 as [_ H3]. cbn [e_l] in H3. split; [apply choose_in in H3; apply claims_in in H3; auto|].
    intros HX. apply (claims_in p q k Copy Hp Hq) in HX. unfold choose in H3. destruct (claims notown (agg1 p) (remote_list (ix p) (ix q)) k) as [|b t] eqn:EC; [destruct HX|]. assert (EX : existsb (attr_eqb Copy) (b :: t) = true) by (apply existsb_exists; exists Copy; auto). rewrite EX in H3. congruence.
  Qed.

  (** ** AggregatesPublisher::publish, globalaggregates.hh:167-179 *)
  (** the value GlobalAggregatesMap::operator[] returns for an aggregate (:44-55): isolatedMarker or a global index; [Bad]: an assertion fails or pair is null *)
  Inductive gval := Bad | Marker | Gl (g : nat).
  Definition to_global (c : pis) (a : aggd) : gval :=
    match a with
    | Iso => Marker
    | Unagg => Bad
    | Agg k => match find (fun e => e_l e =? k) c with Some e => Gl (e_g e) | None => Bad end
    end.
  (** Proxy::operator=, :75-85; a global index that is not in the index set (operator[] of dune-common) is undefined *)
  Definition to_local (c : pis) (v : gval) : outcome aggd :=
    match v with
    | Bad => UB
    | Marker => Ok Iso
    | Gl g => match lookup c g with Some e => Ok (Agg (e_l e)) | None => UB end
    end.
  Definition view (agg : nat -> nat -> aggd) (p : nat) : list gval := map (fun v => to_global (cx p) (agg p v)) (seq 0 (sz p)).
  (** process q gets a value for its vertex l *)
  Definition received (S : attr) (q l : nat) : Prop := exists g a p l', holds ix q g l a /\ p < P /\ p <> q /\ holds ix p g l' S.
  (** pinfo.copyOwnerToAll(gmap,gmap) resp. copyCopyToAll: the aggregates maps before and after.  The communication is run on the maps seen through operator[]; a value is converted
      back when it is scattered.  (A vertex that is gathered is owned resp. a copy; with a consistent map the conversion there and back does not change it.) *)
  Definition scattered (S : attr) (d1 : nat -> list gval) (a1 a2 : nat -> nat -> aggd) : Prop :=
    forall q l, q < P -> (received S q l -> to_local (cx q) (nth l (d1 q) Bad) = Ok (a2 q l)) /\ (~ received S q l -> a2 q l = a1 q l).
  Definition publish_owner (a1 a2 : nat -> nat -> aggd) : Prop := exists d1, copyOwnerToAll P ix None (view a1) d1 /\ scattered Owner d1 a1 a2.
  Definition publish_copy (a1 a2 : nat -> nat -> aggd) : Prop := exists d1, copyCopyToAll P ix None (view a1) d1 /\ scattered Copy d1 a1 a2.

  Lemma WF : dist_wf P K1 cx.
  Proof. exact (proj1 C73_coarse_level). Qed.
  Lemma view_sized a1 : sized P sz (view a1).
  Proof. intros p Hp. unfold view. rewrite map_length, seq_length. reflexivity. Qed.
  Lemma nth_view a1 p l : l < sz p -> nth l (view a1 p) Bad = to_global (cx p) (a1 p l).
  Proof. intros H. unfold view. rewrite (nth_indep _ _ (to_global (cx p) (a1 p 0))) by (rewrite map_length, seq_length; auto). rewrite (map_nth (fun v => to_global (cx p) (a1 p v))). rewrite seq_nth by auto. reflexivity. Qed.
  Lemma find_local p g k a : p < P -> holds cx p g k a -> find (fun e => e_l e =? k) (cx p) = Some (mke g k a).
  Proof.
    intros Hp H. destruct (WF p Hp) as (_ & ND & _). unfold holds in H. induction (cx p) as [|x t IH]; [destruct H|]. cbn [map] in ND. inversion ND as [|? ? N1 N2]. cbn [find]. destruct H as [->|H].
    - cbn [e_l]. rewrite Nat.eqb_refl. reflexivity.
    - destruct (Nat.eqb_spec (e_l x) k) as [E|E]; [|auto]. exfalso. apply N1. rewrite E. apply in_map_iff. exists (mke g k a). auto.
  Qed.
  Lemma holds_dec_received S q l : received S q l \/ ~ received S q l.
  Proof.
    destruct (find_or_all (fun e => (e_l e =? l) && existsb (fun p => negb (p =? q) && existsb (fun e' => (e_g e' =? e_g e) && attr_eqb (e_a e') S) (ix p)) (seq 0 P)) (ix q)) as [[e [H1 H2]]|H].
    - left. apply andb_true_iff in H2. destruct H2 as [H2 H3]. apply Nat.eqb_eq in H2. apply existsb_exists in H3. destruct H3 as (p & P1 & P2). apply in_seq in P1. apply andb_true_iff in P2. destruct P2 as [P2 P3]. apply negb_true_iff, Nat.eqb_neq in P2.
      apply existsb_exists in P3. destruct P3 as (e' & E1 & E2). apply andb_true_iff in E2. destruct E2 as [E2 E3]. apply Nat.eqb_eq in E2. exists (e_g e), (e_a e), p, (e_l e'). split; [unfold holds; rewrite <- H2; destruct e; auto|]. split; [lia|]. split; auto.
      unfold holds. rewrite <- E2. assert (e_a e' = S) by (destruct (e_a e'), S; auto; discriminate). subst S. destruct e'; auto.
    - right. intros (g & a & p & l' & R1 & R2 & R3 & R4). specialize (H _ R1). cbn [e_l e_g] in H. rewrite Nat.eqb_refl in H. cbn [andb] in H. enough (existsb (fun p => negb (p =? q) && existsb (fun e' => (e_g e' =? g) && attr_eqb (e_a e') S) (ix p)) (seq 0 P) = true) by congruence.
      apply existsb_exists. exists p. split; [apply in_seq; lia|]. apply andb_true_iff. split; [apply negb_true_iff, Nat.eqb_neq; auto|]. apply existsb_exists. exists (mke g l' S). split; auto. cbn [e_g e_a]. rewrite Nat.eqb_refl. destruct S; reflexivity.
  Qed.
  (** what an owner sends can be gathered, and every receiver can convert it *)
  Lemma owner_value p g l' : p < P -> holds ix p g l' Owner ->
    (agg0 p l' = Iso /\ agg1 p l' = Iso /\ to_global (cx p) (agg1 p l') = Marker) \/
    (agg0 p l' <> Iso /\ exists k G, agg1 p l' = Agg k /\ holds cx p G k Owner /\ to_global (cx p) (agg1 p l') = Gl G /\ forall q l a, q < P -> q <> p -> holds ix q g l a -> exists kq aq, holds cx q G kq aq /\ aq <> Owner).
  Proof.
    intros Hp HO. destruct C73_coarse_level as (_ & HU1 & _ & T3 & T4 & _). destruct (facts _ _ _ _ _ _ p HC Hp) as (F1 & F2 & _). destruct (aggd_eqb_spec (agg0 p l') Iso) as [EI|EI].
    - left. rewrite F1 by auto. rewrite EI. auto.
    - right. split; auto. destruct (F2 l') as (k & _ & EK); auto; [apply (ix_lt p _ Hp HO)|exact (excl_entry p _ Hp HO)|]. destruct (proj2 (T3 p k Hp)) as [G HG]; [eauto|]. exists k, G. split; auto. split; auto. split; [rewrite EK; cbn [to_global]; rewrite (find_local p G k Owner Hp HG); reflexivity|].
      intros q l a Hq Hn HH. destruct (proj2 (T4 p q G k Hp Hq (not_eq_sym Hn) HG)) as (kq & aq & HQ); [eauto 10|]. exists kq, aq. split; auto. intros ->. apply Hn. apply (HU1 G q p kq k); auto.
  Qed.
  (** C73: publishing never gathers the aggregate of a vertex without coarse index nor scatters an unknown one, for every order of messages *)
  Theorem C73_publish_safe : (forall p q g l l' a, p < P -> q < P -> p <> q -> holds ix p g l Owner -> holds ix q g l' a -> to_global (cx p) (agg1 p l) <> Bad) /\
    (forall d1, copyOwnerToAll P ix None (view agg1) d1 -> exists agg2, scattered Owner d1 agg1 agg2) /\ exists agg2, publish_owner agg1 agg2.
  Proof.
    assert (CONV : forall d1, copyOwnerToAll P ix None (view agg1) d1 -> exists agg2, scattered Owner d1 agg1 agg2).
    { intros d1 HD. assert (G : forall q l, q < P -> received Owner q l -> exists a, to_local (cx q) (nth l (d1 q) Bad) = Ok a).
      { intros q l Hq (g & a & p & l' & R1 & R2 & R3 & R4). destruct (C31_copyOwnerToAll Bad P sz ix HW None (view agg1) (view_sized agg1) I d1 HU HD q Hq) as (_ & T & _). rewrite (T g l a p l' R1 R2 R3 R4). cbn [sent]. rewrite nth_view by (apply (ix_lt p _ R2 R4)).
        destruct (owner_value p g l' R2 R4) as [(_ & _ & ->)|(_ & k & G & _ & _ & -> & HQ)]; [exists Iso; auto|]. destruct (HQ q l a Hq (not_eq_sym R3) R1) as (kq & aq & HH & _). cbn [to_local]. rewrite (proj2 (lookup_spec (cx q) G _ (proj1 (WF q Hq))) (conj HH eq_refl)). eauto. }
      exists (fun q l => if existsb (fun e => (e_l e =? l) && existsb (fun p => negb (p =? q) && existsb (fun e' => (e_g e' =? e_g e) && attr_eqb (e_a e') Owner) (ix p)) (seq 0 P)) (ix q)
                         then match to_local (cx q) (nth l (d1 q) Bad) with Ok a => a | _ => Iso end else agg1 q l).
      intros q l Hq. destruct (existsb _ (ix q)) eqn:EX.
      - assert (R : received Owner q l).
        { apply existsb_exists in EX. destruct EX as (e & H1 & H2). apply andb_true_iff in H2. destruct H2 as [H2 H3]. apply Nat.eqb_eq in H2. apply existsb_exists in H3. destruct H3 as (p & P1 & P2). apply in_seq in P1. apply andb_true_iff in P2. destruct P2 as [P2 P3]. apply negb_true_iff, Nat.eqb_neq in P2.
          apply existsb_exists in P3. destruct P3 as (e' & E1 & E2). apply andb_true_iff in E2. destruct E2 as [E2 E3]. apply Nat.eqb_eq in E2. exists (e_g e), (e_a e), p, (e_l e'). split; [unfold holds; rewrite <- H2; destruct e; auto|]. split; [lia|]. split; auto.
          unfold holds. rewrite <- E2. assert (EO : e_a e' = Owner) by (destruct (e_a e'); auto; discriminate). rewrite <- EO. destruct e'; auto. }
        split; [|tauto]. intros _. destruct (G q l Hq R) as [x Hx]. rewrite Hx. reflexivity.
      - split; [|auto]. intros (g & a & p & l' & R1 & R2 & R3 & R4). exfalso. apply not_true_iff_false in EX. apply EX. apply existsb_exists. exists (mke g l a). split; auto. cbn [e_l e_g]. rewrite Nat.eqb_refl. cbn [andb]. apply existsb_exists. exists p. split; [apply in_seq; lia|].
        apply andb_true_iff. split; [apply negb_true_iff, Nat.eqb_neq; auto|]. apply existsb_exists. exists (mke g l' Owner). split; auto. cbn [e_g e_a]. rewrite Nat.eqb_refl. reflexivity. }
    split; [|split; auto].
    - intros p q g l l' a Hp Hq Hn H1 H2. destruct (owner_value p g l Hp H1) as [(_ & _ & ->)|(_ & k & G & _ & _ & -> & _)]; discriminate.
    - destruct (C31_safe Bad P sz ix HW None (view agg1) (view_sized agg1) I (fun _ v => v) ownerSet allSet (start (view agg1)) (reach_0 _ _ _ _ _ _ _)) as [_ [_ [d1 H]]]. destruct (CONV d1 H) as [a2 H2]. exists a2, d1. auto.
  Qed.

  (** C73: after publishing, every process maps each of its vertices to the coarse index (the same global index on all processes) of the aggregate the owner of the vertex put it in;
      isolated vertices are isolated everywhere.  Maps of owned vertices and of vertices outside the index set do not change. *)
  Theorem C73_publish agg2 : publish_owner agg1 agg2 ->
    (forall p g l', p < P -> holds ix p g l' Owner -> agg2 p l' = agg1 p l') /\
    (forall p q g l l' a, p < P -> q < P -> holds ix p g l' Owner -> holds ix q g l a ->
      (agg0 p l' = Iso /\ agg2 p l' = Iso /\ agg2 q l = Iso) \/
      (agg0 p l' <> Iso /\ exists G k kq aq, holds cx p G k Owner /\ agg2 p l' = Agg k /\ holds cx q G kq aq /\ agg2 q l = Agg kq)) /\
    (forall q l, q < P -> (forall g a, ~ holds ix q g l a) -> agg2 q l = agg1 q l).
  Proof.
    intros (d1 & HD & HS). assert (KEEP : forall p g l', p < P -> holds ix p g l' Owner -> agg2 p l' = agg1 p l').
    { intros p g l' Hp HO. apply (HS p l' Hp). intros (g2 & a2 & r & l2 & R1 & R2 & R3 & R4). assert (g2 = g).
      { destruct (HW p Hp) as (_ & ND & _). unfold holds in *. clear - ND HO R1. induction (ix p) as [|x t IH]; [destruct HO|]. cbn [map] in ND. inversion ND as [|? ? N1 N2]. destruct HO as [->|HO], R1 as [R1|R1]; auto; try congruence.
        - exfalso. apply N1. cbn [e_l]. apply (in_map e_l) in R1. exact R1.
        - subst x. exfalso. apply N1. cbn [e_l]. apply (in_map e_l) in HO. exact HO. }
      subst g2. apply R3. apply (HU g r p l2 l'); auto. }
    split; auto. split.
    - intros p q g l l' a Hp Hq HO HH. rewrite (KEEP p g l' Hp HO). destruct (Nat.eq_dec p q) as [<-|Hn].
      + destruct (holds_inj P sz ix HW p g l' Owner l a Hp HO HH) as [<- <-]. rewrite (KEEP p g l' Hp HO). destruct (owner_value p g l' Hp HO) as [(E0 & E1 & _)|(E0 & k & G & E1 & E2 & _)]; [left; auto|right]. split; auto. exists G, k, k, Owner. auto.
      + assert (RC : received Owner q l) by (exists g, a, p, l'; auto). pose proof (proj1 (HS q l Hq) RC) as HL. destruct (C31_copyOwnerToAll Bad P sz ix HW None (view agg1) (view_sized agg1) I d1 HU HD q Hq) as (_ & T & _). rewrite (T g l a p l' HH Hp Hn HO) in HL. cbn [sent] in HL. rewrite nth_view in HL by (apply (ix_lt p _ Hp HO)).
        destruct (owner_value p g l' Hp HO) as [(E0 & E1 & E2)|(E0 & k & G & E1 & E2 & E3 & HQ)].
        * rewrite E2 in HL. cbn [to_local] in HL. left. repeat split; auto. congruence.
        * rewrite E3 in HL. cbn [to_local] in HL. destruct (HQ q l a Hq (not_eq_sym Hn) HH) as (kq & aq & H2 & _). rewrite (proj2 (lookup_spec (cx q) G _ (proj1 (WF q Hq))) (conj H2 eq_refl)) in HL. cbn [e_l] in HL. right. split; auto. exists G, k, kq, aq. split; auto. split; auto. split; auto. congruence.
    - intros q l Hq HN. apply (HS q l Hq). intros (g & a & _ & _ & R1 & _). apply (HN g a R1).
  Qed.

  (** C73: if every fine index has an owner, the additional copyCopyToAll of the nonoverlapping category (:173-174) changes nothing *)
  Theorem C73_publish_copy agg2 agg3 : (forall q g l a, q < P -> holds ix q g l a -> exists p l', p < P /\ holds ix p g l' Owner) ->
    publish_owner agg1 agg2 -> publish_copy agg2 agg3 -> forall q l, q < P -> agg3 q l = agg2 q l.
  Proof.
    intros HOWN HP (d1 & HD & HS) q l Hq. destruct (C73_publish agg2 HP) as (_ & T & _). destruct (holds_dec_received Copy q l) as [R|R]; [|apply (HS q l Hq); auto].
    pose proof (proj1 (HS q l Hq) R) as HL. destruct R as (g & a & r & lr & R1 & R2 & R3 & R4). destruct (HOWN q g l a Hq R1) as (p & l' & Hp & HO).
    (* the common value *)
    assert (V : exists v, v <> Bad /\ to_local (cx q) v = Ok (agg2 q l) /\ forall q' l2 a2, q' < P -> holds ix q' g l2 a2 -> to_global (cx q') (agg2 q' l2) = v).
    { destruct (T p q g l l' a Hp Hq HO R1) as [(E0 & E1 & E2)|(E0 & G & k & kq & aq & E1 & E2 & E3 & E4)].
      - exists Marker. split; [discriminate|]. split; [rewrite E2; reflexivity|]. intros q' l2 a2 Hq' H2. destruct (T p q' g l2 l' a2 Hp Hq' HO H2) as [(_ & _ & ->)|(E & _)]; [reflexivity|contradiction].
      - exists (Gl G). split; [discriminate|]. split; [cbn [to_local]; rewrite (proj2 (lookup_spec (cx q) G _ (proj1 (WF q Hq))) (conj E3 eq_refl)); rewrite E4; reflexivity|]. intros q' l2 a2 Hq' H2. destruct (T p q' g l2 l' a2 Hp Hq' HO H2) as [(E & _)|(_ & G' & k' & kq' & aq' & F1 & F2 & F3 & F4)]; [contradiction|].
        assert (k' = k) by congruence. subst k'. assert (G' = G). { pose proof (find_local p G k Owner Hp E1). pose proof (find_local p G' k Owner Hp F1). congruence. } subst G'. rewrite F4. cbn [to_global]. rewrite (find_local q' G kq' aq' Hq' F3). reflexivity. }
    destruct V as (v & V1 & V2 & V3). assert (EV : nth l (d1 q) Bad = v); [|congruence].
    destruct HD as (s & HR & HF & HDD). rewrite <- (HDD q Hq). pose proof (inv_reach Bad _ P ix sz HW _ _ None (view agg2) (view_sized agg2) (src_sized P sz None I) s HR) as HI.
    destruct (HI q Hq) as (_ & _ & I3 & I4 & I5 & I6 & I7). specialize (I6 (mke g l a) R1). cbn [e_l] in I6. rewrite I6. rewrite nth_view by (apply (ix_lt q _ Hq R1)). rewrite (V3 q l a Hq R1). rewrite Forall_forall in I4.
    assert (FE : forall L, (forall x, In x L -> x < P) -> fold_left (recv1 Bad (fun _ v => v) ix copySet allSet None (view agg2) (mke g l a)) L v = v); [|apply FE; intros x Hx; apply (I4 x Hx)].
    induction L as [|x t IH]; intros HL2; cbn [fold_left]; auto. assert (E1 : recv1 Bad (fun _ v => v) ix copySet allSet None (view agg2) (mke g l a) v x = v).
    { unfold recv1, contrib. cbn [e_g e_a]. destruct (lookup (ix x) g) as [[g' l2 a2]|] eqn:EL; auto. assert (Hx : x < P) by (apply HL2; left; auto). apply (lookup_spec _ _ _ (proj1 (HW x Hx))) in EL. destruct EL as [EL1 EL2]. cbn [e_g] in EL2. subst g'. cbn [e_a e_l]. destruct (copySet a2 && allSet a); auto.
      unfold S0. rewrite nth_view by (apply (ix_lt x _ Hx EL1)). apply (V3 x l2 a2 Hx EL1). }
    rewrite E1. apply IH. intros y Hy. apply HL2. right; auto.
  Qed.
End World.

(** ** Vertices in the overlap whose owner is on the same process (periodic boundary conditions), globalaggregates.hh:176-212 *)
Section Periodic.
  (** number of values of the vertex type: UNAGGREGATED = M-1, ISOLATED = M-2 (aggregates.hh:1669-1672) *)
  Variable M : nat.
  (** std::map<Vertex,Vertex>::insert: the keys, sorted, each once *)
  Fixpoint insert_key (k : nat) (l : list nat) : list nat :=
    match l with nil => [k] | a :: t => if k =? a then l else if k <? a then k :: l else a :: insert_key k t end.
  Fixpoint index_of (k : nat) (l : list nat) : option nat := match l with nil => None | a :: t => if a =? k then Some 0 else option_map S (index_of k t) end.
  (** newMapping[k]: the i-th key is mapped to the i-th value of ++maxAggregate; operator[] returns 0 for another key *)
  Definition new_number (maxA : nat) (keys : list nat) (k : nat) : nat := match index_of k keys with Some i => (maxA + S i) mod M | None => 0 end.
  (** [ri]: the local indices, with an attribute in O, of the remote index list for the own rank *)
  Definition renumber_self (agg : list nat) (ri : list nat) : list nat :=
    let maxA := fold_left Nat.max agg 0 in
    let keys := fold_left (fun ks l => insert_key (nth l agg 0) ks) ri nil in
    fold_left (fun a l => upd a l (new_number maxA keys (nth l a 0))) ri agg.

  Lemma insert_key_in k l x : In x (insert_key k l) <-> x = k \/ In x l.
  Proof.
    induction l as [|a t IH]; cbn [insert_key]; [cbn; intuition|]. destruct (Nat.eqb_spec k a) as [->|Hn]; [cbn; intuition|]. destruct (k <? a); cbn [In]; [intuition|]. rewrite IH. intuition.
  Qed.
  Lemma keys_in (agg : list nat) ri : forall ks x, In x (fold_left (fun ks l => insert_key (nth l agg 0) ks) ri ks) <-> In x ks \/ exists l, In l ri /\ nth l agg 0 = x.
  Proof.
    induction ri as [|l t IH]; intros ks x; cbn [fold_left]; [split; [auto|intros [H|(l & [] & _)]; auto]|]. rewrite IH, insert_key_in. split.
    - intros [[->|H]|(l' & H1 & H2)]; auto; [right; exists l; split; [left; auto|auto]|right; exists l'; split; [right; auto|auto]].
    - intros [H|(l' & [<-|H1] & H2)]; auto; right; exists l'; auto.
  Qed.
  Lemma index_of_in k l : In k l -> exists i, index_of k l = Some i /\ i < length l.
  Proof. induction l as [|a t IH]; [intros []|]. intros H. cbn [index_of]. destruct (Nat.eqb_spec a k) as [->|Hn]; [exists 0; cbn; split; [auto|lia]|]. destruct H as [H|H]; [congruence|]. destruct (IH H) as (i & -> & Hi). exists (S i). cbn. split; [auto|lia]. Qed.
  Lemma index_of_nth k l i : index_of k l = Some i -> nth i l 0 = k.
  Proof. revert i. induction l as [|a t IH]; intros i; cbn [index_of]; [discriminate|]. destruct (Nat.eqb_spec a k) as [->|Hn]; [intros E; injection E as <-; auto|]. destruct (index_of k t) as [j|]; [|discriminate]. cbn. intros E. injection E as <-. auto. Qed.
  Lemma fold_max_le (agg : list nat) : forall m, m <= fold_left Nat.max agg m /\ forall x, In x agg -> x <= fold_left Nat.max agg m.
  Proof. induction agg as [|a t IH]; intros m; cbn [fold_left]; [split; [lia|intros x []]|]. destruct (IH (Nat.max m a)) as [H1 H2]. split; [lia|]. intros x [<-|Hx]; [lia|auto]. Qed.
  Lemma renumber_fold (f : nat -> nat) ri : forall agg : list nat, NoDup ri -> length (fold_left (fun a l => upd a l (f (nth l a 0))) ri agg) = length agg /\
    (forall l, ~ In l ri -> nth l (fold_left (fun a l => upd a l (f (nth l a 0))) ri agg) 0 = nth l agg 0) /\
    (forall l, In l ri -> l < length agg -> nth l (fold_left (fun a l => upd a l (f (nth l a 0))) ri agg) 0 = f (nth l agg 0)).
  Proof.
    induction ri as [|r t IH]; intros agg HN; cbn [fold_left]; [split; [auto|split; [auto|intros l []]]|]. inversion HN as [|x0 l0 N1 N2]. destruct (IH (upd agg r (f (nth r agg 0))) N2) as (H1 & H2 & H3). rewrite upd_length in *. split; auto. split.
    - intros l Hl. rewrite H2 by (intros HI; apply Hl; right; auto). apply nth_upd_ne. intros ->. apply Hl. left; auto.
    - intros l [<-|Hl] Hlt; [rewrite H2 by auto; apply nth_upd_eq; auto|]. rewrite H3 by auto. rewrite nth_upd_ne; auto. intros ->. contradiction.
  Qed.
  (** C73: if the largest number plus the number of renumbered aggregates stays below ISOLATED and no vertex occurs twice in the list, the listed vertices get numbers not used before; two of them get the same number iff
      they had the same; the other vertices are not changed *)
  Theorem C73_periodic (agg : list nat) ri : NoDup ri -> (forall l, In l ri -> l < length agg) -> (forall x, In x agg -> x + length ri < M - 2) ->
    (forall l, ~ In l ri -> nth l (renumber_self agg ri) 0 = nth l agg 0) /\
    (forall l, In l ri -> nth l (renumber_self agg ri) 0 < M - 2 /\ ~ In (nth l (renumber_self agg ri) 0) agg) /\
    (forall l l', In l ri -> In l' ri -> (nth l (renumber_self agg ri) 0 = nth l' (renumber_self agg ri) 0 <-> nth l agg 0 = nth l' agg 0)).
  Proof.
    intros HN HL HB. unfold renumber_self. set (maxA := fold_left Nat.max agg 0). set (keys := fold_left (fun ks l => insert_key (nth l agg 0) ks) ri nil).
    destruct (renumber_fold (new_number maxA keys) ri agg HN) as (H1 & H2 & H3). split; auto.
    assert (LK : length keys <= length ri). { unfold keys. assert (G : forall r ks, length (fold_left (fun ks l => insert_key (nth l agg 0) ks) r ks) <= length r + length ks); [|specialize (G ri []); cbn [length] in G; lia].
      induction r as [|a t IH]; intros ks; cbn [fold_left length]; [lia|]. specialize (IH (insert_key (nth a agg 0) ks)). assert (length (insert_key (nth a agg 0) ks) <= S (length ks)); [|lia].
      clear. induction ks as [|b ks IH]; cbn [insert_key length]; [lia|]. destruct (nth a agg 0 =? b); [cbn; lia|]. destruct (nth a agg 0 <? b); cbn [length]; lia. }
    assert (MX : agg = [] \/ In maxA agg). { unfold maxA. assert (G : forall (l : list nat) m, fold_left Nat.max l m = m \/ In (fold_left Nat.max l m) l).
      { induction l as [|a t IH]; intros m; cbn [fold_left]; auto. destruct (IH (Nat.max m a)) as [H|H]; [|right; right; auto]. rewrite H. destruct (Nat.max_spec m a) as [[_ ->]|[_ ->]]; [right; left; auto|auto]. }
      destruct agg as [|a t]; [auto|right]. cbn [fold_left]. destruct (G t (Nat.max 0 a)) as [H|H]; [rewrite H; cbn; auto|right; auto]. }
    assert (NV : forall l, In l ri -> exists i, index_of (nth l agg 0) keys = Some i /\ nth l (fold_left (fun a l => upd a l (new_number maxA keys (nth l a 0))) ri agg) 0 = maxA + S i /\ maxA + S i < M - 2).
    { intros l Hl. assert (HK : In (nth l agg 0) keys) by (unfold keys; apply keys_in; right; exists l; auto). destruct (index_of_in _ _ HK) as (i & I1 & I2). exists i. split; auto. specialize (HL l Hl). destruct MX as [->|MX]; [cbn in HL; lia|]. specialize (HB _ MX).
      assert (maxA + S i < M - 2) by lia. split; auto. rewrite H3 by auto. unfold new_number. rewrite I1. apply Nat.mod_small. lia. }
    split.
    - intros l Hl. destruct (NV l Hl) as (i & _ & -> & HI). split; auto. intros HC. pose proof (proj2 (fold_max_le agg 0) _ HC) as HX. change (maxA + S i <= maxA) in HX. lia.
    - intros l l' Hl Hl'. destruct (NV l Hl) as (i & E1 & -> & _). destruct (NV l' Hl') as (i' & E2 & -> & _). split; [|intros E; rewrite E in E1; assert (i = i') by congruence; lia]. intros E. assert (i = i') by lia. subst i'. apply index_of_nth in E1, E2. congruence.
  Qed.
  (** Deviation: with an isolated vertex the maximum is ISOLATED: a renumbered vertex becomes UNAGGREGATED, the next one is put into the aggregate 0 of other vertices *)
  Theorem C73_periodic_isolated_refuted : 5 < M -> renumber_self [M - 2; 0; 1; 0; 1] [3; 4] = [M - 2; 0; 1; M - 1; 0].
  Proof.
    intros HM. unfold renumber_self. cbn [fold_left nth insert_key upd Nat.eqb Nat.ltb Nat.leb]. replace (Nat.max (Nat.max (Nat.max (Nat.max (Nat.max 0 (M - 2)) 0) 1) 0) 1) with (M - 2) by lia.
    unfold new_number. cbn [index_of Nat.eqb option_map nth upd]. replace (M - 2 + 1) with (M - 1) by lia. replace (M - 2 + 2) with M by lia. rewrite Nat.mod_small, Nat.mod_same by lia. reflexivity.
  Qed.
  (** Deviation: a vertex that occurs twice in the list (three vertices with the same global index on one process) is put into aggregate 0 *)
  Theorem C73_periodic_twice_refuted : 5 < M -> renumber_self [0; 1; 1] [2; 2] = [0; 1; 0].
  Proof. intros HM. unfold renumber_self. cbn [fold_left nth insert_key upd Nat.eqb Nat.ltb Nat.leb Nat.max]. unfold new_number at 2. cbn [index_of Nat.eqb option_map Nat.add]. rewrite Nat.mod_small by lia. reflexivity. Qed.
End Periodic.
Example C73_periodic_nonvacuous : renumber_self 256 [0; 1; 2; 0; 2] [3; 4] = [0; 1; 2; 3; 4].
Proof. reflexivity. Qed.

(** ** Examples and deviations *)
(** Deviation: the global index of a coarse index is not the lowest of its aggregate (as the comment in buildCoarseIndexSet says) but that of the vertex found last: vertices 0, 1 with global indices 3, 7 get 7 *)
Definition ex1 : list pentry := [(mke 3 0 Owner, true); (mke 7 1 Owner, true)].
Theorem C73_lowest_global_refuted : exists agg vis, buildCoarseIndexSet notown 100 ex1 (fun v => match v with 0 => [1] | _ => [0] end) 2 (fun _ => false) (fun _ => Agg 0) = Ok (Some (agg, 1, [(mke 7 0 Owner, true)], vis)).
Proof. eexists _, _. vm_compute. reflexivity. Qed.
(** Deviation: if a vertex has the largest global index, its aggregate may be missing in the coarse index set (hypothesis on gmax of the theorems) *)
Theorem C73_gmax_refuted : exists agg vis, buildCoarseIndexSet notown 7 ex1 (fun v => match v with 0 => [1] | _ => [0] end) 2 (fun _ => false) (fun _ => Agg 0) = Ok (Some (agg, 1, [], vis)).
Proof. eexists _, _. vm_compute. reflexivity. Qed.
(** Two processes on a chain of four vertices: process 0 owns 0 and 1 (one aggregate), process 1 owns 2 (an aggregate) and 3 (isolated); each also holds the neighbour vertex of the other *)
Definition pix (p : nat) : pis := match p with 0 => [mke 0 0 Owner; mke 1 1 Owner; mke 2 2 Overlap] | 1 => [mke 1 2 Copy; mke 2 0 Owner; mke 3 1 Owner] | _ => [] end.
Definition psz (p : nat) : nat := match p with 0 | 1 => 3 | _ => 0 end.
Definition padj (p v : nat) : list nat := match p, v with 0, 0 => [1] | 0, 1 => [0; 2] | 0, _ => [1] | _, 0 => [1; 2] | _, _ => [0] end.
Definition pagg (p v : nat) : aggd := match p, v with 0, 0 | 0, 1 => Agg 5 | 1, 0 => Agg 0 | 1, 1 => Iso | _, _ => Unagg end.
Lemma p_wf : dist_wf 2 psz pix.
Proof. intros [|[|p]] Hp; try lia; (split; [|split]); cbn; repeat constructor; cbn; try lia; intuition lia. Qed.
Lemma p_owner : unique_owner 2 pix.
Proof.
  intros g p q l l' Hp Hq H1 H2. unfold holds in *. destruct p as [|[|p]], q as [|[|q]]; try lia; cbn [pix In] in H1, H2;
    repeat match goal with H : _ \/ _ |- _ => destruct H | H : False |- _ => destruct H end; try (exfalso; congruence); auto.
Qed.
Lemma p_gmax : forall p g l a, p < 2 -> holds pix p g l a -> g <> 100.
Proof. intros p g l a Hp H. unfold holds in H. destruct p as [|[|p]]; try lia; cbn [pix In] in H; repeat match goal with H : _ \/ _ |- _ => destruct H | H : False |- _ => destruct H end; intros E; congruence. Qed.
Lemma p_targets : forall p v t, p < 2 -> v < psz p -> In t (padj p v) -> t < psz p.
Proof. intros [|[|p]] [|[|[|v]]] t Hp Hv H; cbn in *; lia. Qed.
Lemma p_trav : forall p, p < 2 -> traversable (sub_adj notown (pub pix p) (padj p)) (own notown (pub pix p) (pagg p)) (psz p).
Proof.
  intros p Hp v r Hv HI Hr. pose proof (root_le _ _ _ Hr) as HL. destruct p as [|[|p]]; [| |lia].
  - destruct v as [|[|[|v]]]; cbn [psz] in Hv; try lia.
    + assert (r = 0) by lia. subst r. constructor.
    + assert (E : r = 0). { destruct r as [|[|r]]; [auto| |lia]. exfalso. destruct Hr as [_ Hr]. apply (Hr 0); [lia|reflexivity]. } subst r. apply (cl_e _ _ _ 0 0 1); [constructor|left; reflexivity|reflexivity|reflexivity].
    + exfalso. apply HI. reflexivity.
  - destruct v as [|[|[|v]]]; cbn [psz] in Hv; try lia.
    + assert (r = 0) by lia. subst r. constructor.
    + exfalso. apply HI. reflexivity.
    + exfalso. apply HI. reflexivity.
Qed.
Example C73_nonvacuous : exists agg1 K cix rem cix1 K1 agg2, coarsened 2 psz pix 100 padj pagg agg1 K cix rem cix1 K1 /\ publish_owner 2 psz pix cix1 agg1 agg2 /\
  K1 0 = 2 /\ K1 1 = 2 /\ coarse cix1 0 = [mke 1 0 Owner; mke 2 1 Overlap] /\ coarse cix1 1 = [mke 1 1 Copy; mke 2 0 Owner].
Proof.
  destruct (C73_runs 2 psz pix 100 padj pagg p_wf p_gmax p_targets p_trav) as (agg1 & K & cix & rem & cix1 & K1 & HC).
  destruct (C73_publish_safe 2 psz pix 100 padj pagg p_wf p_owner p_gmax p_targets p_trav agg1 K cix rem cix1 K1 HC) as (_ & _ & agg2 & HP).
  exists agg1, K, cix, rem, cix1, K1, agg2. split; auto. split; auto. destruct HC as (C1 & C2 & C3).
  destruct (C1 0 ltac:(lia)) as [v0 E0]. vm_compute in E0. injection E0 as A0 B0 D0 _. destruct (C1 1 ltac:(lia)) as [v1 E1]. vm_compute in E1. injection E1 as A1 B1 D1 _.
  pose proof (C2 0 1 ltac:(lia) ltac:(lia) ltac:(lia)) as R01. rewrite <- A0, <- B0, <- D0 in R01. vm_compute in R01. injection R01 as R01. pose proof (C2 1 0 ltac:(lia) ltac:(lia) ltac:(lia)) as R10. rewrite <- A1, <- B1, <- D1 in R10. vm_compute in R10. injection R10 as R10.
  destruct (C3 0 ltac:(lia)) as (o0 & O1 & O2). apply Permutation_sym in O1. cbn in O1. apply Permutation_length_1_inv in O1. subst o0. cbn [sync fold_left] in O2. unfold sync in O2. cbn [fold_left] in O2. rewrite <- R10, <- B0, <- D0 in O2. vm_compute in O2. injection O2 as S0 T0.
  destruct (C3 1 ltac:(lia)) as (o1 & O3 & O4). apply Permutation_sym in O3. cbn in O3. apply Permutation_length_1_inv in O3. subst o1. unfold sync in O4. cbn [fold_left] in O4. rewrite <- R01, <- B1, <- D1 in O4. vm_compute in O4. injection O4 as S1 T1.
  unfold coarse. rewrite <- S0, <- S1. auto.
Qed.
Print Assumptions C73_index_set.
Print Assumptions C73_runs.
Print Assumptions C73_coarse_level.
Print Assumptions C73_attribute.
Print Assumptions C73_publish_safe.
Print Assumptions C73_publish.
Print Assumptions C73_publish_copy.
Print Assumptions C73_periodic.
Print Assumptions C73_periodic_isolated_refuted.
Print Assumptions C73_periodic_twice_refuted.
Print Assumptions C73_lowest_global_refuted.
Print Assumptions C73_gmax_refuted.
