(** * Searching aggregates: AggregatesMap::breadthFirstSearch (dune/istl/paamg/aggregates.hh:1732-1801), renumberAggregates (paamg/renumberer.hh: C35) and
    the sparsity pattern of the coarse matrix, GalerkinProduct<SequentialInformation>::build (paamg/galerkin.hh: C34) *)
From Coq Require Import Arith List Lia Bool Sorted.
From Verif Require Import Outcome AmgTransfer.
Import ListNotations.
Open Scope nat_scope.

Definition fupd {A} (f : nat -> A) (i : nat) (x : A) : nat -> A := fun j => if j =? i then x else f j.
Lemma fupd_eq {A} (f : nat -> A) i x : fupd f i x i = x.
Proof. unfold fupd. rewrite Nat.eqb_refl. reflexivity. Qed.
Lemma fupd_ne {A} (f : nat -> A) i x j : j <> i -> fupd f i x j = f j.
Proof. intros H. unfold fupd. destruct (Nat.eqb_spec j i); congruence. Qed.

Section Graph.
  (** the targets of the edges starting at a vertex, in iteration order.  Simplification: vertex and visited maps are total functions; the graph only has targets < n (hypothesis [targets] below). *)
  Variable adj : nat -> list nat.

  Section Search.
    Context {St : Type}.
    Variable getagg : St -> nat -> aggd.     (* aggregates_[.], possibly changed by the visitors *)
    Variables f1 f2 : St -> nat -> St.       (* aggregateVisitor, nonAggregateVisitor, called with edge.target() *)
    (** the loop over the edges of one vertex, aggregates.hh:1771-1783; [start] because the parameter [aggregate] is a reference to aggregates[start] in all callers below.
        Returns the vertices pushed to the list. *)
    Fixpoint edges (start : nat) (ts : list nat) (vis : nat -> bool) (st : St) : (nat -> bool) * St * list nat :=
      match ts with
      | nil => (vis, st, nil)
      | t :: r => if aggd_eqb (getagg st t) (getagg st start) then
                    if vis t then edges start r vis st
                    else let '(v, s, p) := edges start r (fupd vis t true) (f1 st t) in (v, s, t :: p)
                  else edges start r vis (f2 st t)
      end.
    (** the search, aggregates.hh:1753-1801, with <reset = false>: [queue] is the part of the list not yet processed; None: does not end within [fuel] vertices *)
    Fixpoint search (fuel : nat) (start : nat) (queue : list nat) (vis : nat -> bool) (st : St) : option ((nat -> bool) * St) :=
      match queue with
      | nil => Some (vis, st)
      | v :: q => match fuel with
                  | 0 => None
                  | S fuel' => let '(vis', st', pushed) := edges start (adj v) vis st in search fuel' start (q ++ pushed) vis' st'
                  end
      end.
    Definition breadthFirstSearch (fuel start : nat) (vis : nat -> bool) (st : St) : option ((nat -> bool) * St) := search fuel start [start] (fupd vis start true) st.

    (** for all vertices in order: start a search at those not visited (renumberer.hh:68-77, galerkin.hh:508-513) *)
    Variables (skip : St -> nat -> bool) (pre : St -> nat -> outcome St) (post : St -> nat -> St).
    Fixpoint sweep (fuel : nat) (vs : list nat) (vis : nat -> bool) (st : St) : outcome (option ((nat -> bool) * St)) :=
      match vs with
      | nil => Ok (Some (vis, st))
      | v :: r => if skip st v || vis v then sweep fuel r vis st
                  else obind (pre st v) (fun st1 => match breadthFirstSearch fuel v vis st1 with None => Ok None | Some (vis', st2) => sweep fuel r vis' (post st2 v) end)
      end.

    (** ** Correctness of one search *)
    Variables (n : nat) (agg0 : nat -> aggd).
    Hypothesis targets : forall v t, v < n -> In t (adj v) -> t < n.
    (** vertices reachable from s via vertices of the aggregate of s not visited before *)
    Inductive closure (vis0 : nat -> bool) (s : nat) : nat -> Prop :=
    | cl_s : closure vis0 s s
    | cl_e x y : closure vis0 s x -> In y (adj x) -> agg0 y = agg0 s -> vis0 y = false -> closure vis0 s y.
    Lemma closure_lt vis0 s w : s < n -> closure vis0 s w -> w < n.
    Proof. intros Hs H. induction H; eauto. Qed.
    Lemma closure_agg vis0 s w : closure vis0 s w -> agg0 w = agg0 s.
    Proof. intros H. induction H; auto. Qed.
    Lemma closure_vis vis0 s w : vis0 s = false -> closure vis0 s w -> vis0 w = false.
    Proof. intros Hs H. induction H; auto. Qed.

    Definition unvisited (vis : nat -> bool) : nat := length (filter (fun v => negb (vis v)) (seq 0 n)).
    Lemma unvisited_upd vis t : t < n -> vis t = false -> S (unvisited (fupd vis t true)) = unvisited vis.
    Proof.
      intros Ht Hv. unfold unvisited. assert (G : forall l, NoDup l -> In t l -> S (length (filter (fun v => negb (fupd vis t true v)) l)) = length (filter (fun v => negb (vis v)) l)).
      { induction l as [|a l IH]; [intros _ []|]. intros HN HI. inversion HN as [|? ? N1 N2]. cbn [filter]. destruct HI as [EQ|HI].
        - subst a. rewrite fupd_eq, Hv. cbn [negb length]. f_equal. f_equal. apply filter_ext_in. intros b Hb. rewrite fupd_ne; auto. intros ->. contradiction.
        - rewrite fupd_ne by (intros ->; contradiction). destruct (negb (vis a)); cbn [length]; rewrite <- (IH N2 HI); reflexivity. }
      apply G; [apply seq_NoDup|apply in_seq; lia].
    Qed.
    Section OneSearch.
      Variables (s : nat) (vis0 : nat -> bool) (Good : (nat -> bool) -> St -> Prop) (Seen : St -> nat -> Prop).
      Hypothesis Hs : s < n.
      Hypothesis Hv0 : vis0 s = false.
      Hypothesis G1 : forall vis st y, Good vis st -> vis y = false \/ y = s -> getagg st y = agg0 y.
      Hypothesis G2 : forall vis st t, Good vis st -> vis t = false -> agg0 t = agg0 s -> t < n -> Good (fupd vis t true) (f1 st t).
      Hypothesis G3 : forall vis st x t, Good vis st -> closure vis0 s x -> In t (adj x) -> getagg st t <> agg0 s -> Good vis (f2 st t).
      Hypothesis S1 : forall st t, Seen (f2 st t) t.
      Hypothesis S2 : forall st t u, Seen st u -> Seen (f1 st t) u /\ Seen (f2 st t) u.
      Hypothesis S3 : forall vis st y, Good vis st -> getagg st y = agg0 s -> agg0 y <> agg0 s -> Seen st y.
      Definition inv (vis : nat -> bool) (st : St) : Prop :=
        Good vis st /\ (forall w, vis0 w = true -> vis w = true) /\ (forall w, vis w = true -> vis0 w = true \/ closure vis0 s w) /\ vis s = true.
      Definition done (vis : nat -> bool) (st : St) (x : nat) : Prop := forall y, In y (adj x) -> (agg0 y = agg0 s -> vis y = true) /\ (agg0 y <> agg0 s -> Seen st y).
      Lemma edges_spec x : closure vis0 s x -> forall ts vis st, incl ts (adj x) -> inv vis st ->
        let '(vis', st', p) := edges s ts vis st in
        inv vis' st' /\ (forall w, vis w = true -> vis' w = true) /\ (forall y, Seen st y -> Seen st' y) /\
        (forall y, In y ts -> (agg0 y = agg0 s -> vis' y = true) /\ (agg0 y <> agg0 s -> Seen st' y)) /\
        (forall w, In w p -> closure vis0 s w) /\ (forall w, vis' w = true -> vis w = true \/ In w p) /\ length p + unvisited vis' = unvisited vis.
      Proof.
        intros HX. induction ts as [|t r IH]; intros vis st HI HV; cbn [edges].
        - repeat split; auto; try apply HV; intros; try contradiction; auto.
        - pose proof HV as (V1 & V2 & V3 & V4). assert (Ht : t < n) by (apply (targets x); [apply (closure_lt vis0 s x Hs HX)|apply HI; left; auto]).
          assert (HR : incl r (adj x)) by (intros y Hy; apply HI; right; auto). rewrite (G1 vis st s V1) by auto.
          destruct (aggd_eqb_spec (getagg st t) (agg0 s)) as [E|E].
          + destruct (vis t) eqn:ET.
            * specialize (IH vis st HR HV). destruct (edges s r vis st) as [[vis' st'] p]. destruct IH as (I1 & I2 & I3 & I4 & I5 & I6 & I7). repeat (split; auto). destruct H as [<-|H]; [auto|apply (I4 y H)].
              destruct H as [<-|H]; [|apply (I4 y H)]. intros HN. apply I3. apply (S3 vis st t); auto.
            * assert (EA : agg0 t = agg0 s) by (rewrite <- (G1 vis st t V1) by auto; auto).
              assert (C : closure vis0 s t). { apply (cl_e vis0 s x t); auto; [apply HI; left; auto|]. destruct (vis0 t) eqn:EV; auto. apply V2 in EV. congruence. }
              assert (HV' : inv (fupd vis t true) (f1 st t)).
              { split; [apply G2; auto|]. split; [|split].
                - intros w Hw. destruct (Nat.eq_dec w t) as [->|Hn]; [apply fupd_eq|rewrite fupd_ne; auto].
                - intros w Hw. destruct (Nat.eq_dec w t) as [->|Hn]; [auto|rewrite fupd_ne in Hw; auto].
                - destruct (Nat.eq_dec s t) as [->|Hn]; [apply fupd_eq|rewrite fupd_ne; auto]. }
              specialize (IH _ _ HR HV'). destruct (edges s r (fupd vis t true) (f1 st t)) as [[vis' st'] p]. destruct IH as (I1 & I2 & I3 & I4 & I5 & I6 & I7). split; auto. split; [|split; [|split; [|split; [|split]]]].
              -- intros w Hw. apply I2. destruct (Nat.eq_dec w t) as [->|Hn]; [apply fupd_eq|rewrite fupd_ne; auto].
              -- intros y Hy. apply I3. apply S2. auto.
              -- intros y [<-|Hy]; [|apply (I4 y Hy)]. split; [|congruence]. intros _. apply I2. apply fupd_eq.
              -- intros w [<-|Hw]; auto.
              -- intros w Hw. destruct (I6 w Hw) as [Hf|Hf]; [|right; right; auto]. destruct (Nat.eq_dec w t) as [->|Hn]; [right; left; auto|]. rewrite fupd_ne in Hf; auto.
              -- cbn [length]. rewrite <- (unvisited_upd vis t Ht ET). lia.
          + assert (HV' : inv vis (f2 st t)). { split; [|auto]. apply (G3 vis st x t); auto. apply HI. left; auto. }
            specialize (IH vis (f2 st t) HR HV'). destruct (edges s r vis (f2 st t)) as [[vis' st'] p]. destruct IH as (I1 & I2 & I3 & I4 & I5 & I6 & I7). split; auto. split; auto. split; [intros y Hy; apply I3; apply S2; auto|]. split; [|auto].
            intros y [<-|Hy]; [|apply (I4 y Hy)]. split; [|intros _; apply I3; apply S1]. intros EA. apply I2. destruct (vis t) eqn:ET; auto. rewrite (G1 vis st t V1) in E by auto. congruence.
      Qed.
      Lemma search_spec fuel : forall q vis st, inv vis st -> (forall x, In x q -> closure vis0 s x) -> (forall x, closure vis0 s x -> vis x = true -> In x q \/ done vis st x) ->
        length q + unvisited vis <= fuel ->
        exists vis1 st1, search fuel s q vis st = Some (vis1, st1) /\ Good vis1 st1 /\ (forall w, vis1 w = true <-> vis0 w = true \/ closure vis0 s w) /\
          (forall x y, closure vis0 s x -> In y (adj x) -> agg0 y <> agg0 s -> Seen st1 y).
      Proof.
        induction fuel as [|fuel IH]; intros q vis st HV HQ HD HF.
        - destruct q as [|v q]; [|cbn in HF; lia]. exists vis, st. split; [reflexivity|]. destruct HV as (V1 & V2 & V3 & V4). assert (CL : forall x, closure vis0 s x -> vis x = true).
          { intros x Hx. induction Hx as [|x y Hx IHx Hy EA E0]; auto. destruct (HD x Hx IHx) as [[]|DD]. apply (DD y Hy); auto. }
          split; auto. split; [intros w; split; [auto|intros [H|H]; auto]|]. intros x y Hx Hy HN. destruct (HD x Hx (CL x Hx)) as [[]|DD]. apply (DD y Hy); auto.
        - destruct q as [|v q]; cbn [search].
          + clear IH. exists vis, st. split; [reflexivity|]. destruct HV as (V1 & V2 & V3 & V4). assert (CL : forall x, closure vis0 s x -> vis x = true).
            { intros x Hx. induction Hx as [|x y Hx IHx Hy EA E0]; auto. destruct (HD x Hx IHx) as [[]|DD]. apply (DD y Hy); auto. }
            split; auto. split; [intros w; split; [auto|intros [H|H]; auto]|]. intros x y Hx Hy HN. destruct (HD x Hx (CL x Hx)) as [[]|DD]. apply (DD y Hy); auto.
          + pose proof (edges_spec v (HQ v (or_introl eq_refl)) (adj v) vis st (incl_refl _) HV) as HE. destruct (edges s (adj v) vis st) as [[vis' st'] p]. destruct HE as (E1 & E2 & E3 & E4 & E5 & E6 & E7).
            apply IH; auto.
            * intros x Hx. apply in_app_iff in Hx. destruct Hx as [Hx|Hx]; auto. apply HQ. right; auto.
            * intros x Hx Hv. destruct (E6 x Hv) as [Hv'|Hp]; [|left; apply in_app_iff; auto]. destruct (Nat.eq_dec v x) as [EQ|Hn]; [right; rewrite <- EQ; intros y Hy; apply E4; auto|]. destruct (HD x Hx Hv') as [[|HQ']|DD]; [congruence|left; apply in_app_iff; auto|].
              right. intros y Hy. destruct (DD y Hy) as [D1 D2]. split; auto.
            * rewrite app_length. cbn [length] in HF. lia.
      Qed.
      Theorem breadthFirstSearch_spec st0 : Good (fupd vis0 s true) st0 ->
        exists vis1 st1, breadthFirstSearch (S n) s vis0 st0 = Some (vis1, st1) /\ Good vis1 st1 /\ (forall w, vis1 w = true <-> vis0 w = true \/ closure vis0 s w) /\
          (forall x y, closure vis0 s x -> In y (adj x) -> agg0 y <> agg0 s -> Seen st1 y).
      Proof.
        intros HG. apply search_spec.
        - split; auto. split; [|split; [|apply fupd_eq]].
          + intros w Hw. destruct (Nat.eq_dec w s) as [->|Hn]; [apply fupd_eq|rewrite fupd_ne; auto].
          + intros w Hw. destruct (Nat.eq_dec w s) as [->|Hn]; [right; constructor|rewrite fupd_ne in Hw; auto].
        - intros x [<-|[]]. constructor.
        - intros x Hx Hv. left. destruct (Nat.eq_dec x s) as [->|Hn]; [left; auto|]. rewrite fupd_ne in Hv by auto. rewrite (closure_vis vis0 s x Hv0 Hx) in Hv. discriminate.
        - pose proof (unvisited_upd vis0 s Hs Hv0) as HU. assert (unvisited vis0 <= n). { unfold unvisited. transitivity (length (seq 0 n)); [|rewrite seq_length; auto]. clear. induction (seq 0 n) as [|a l IH]; cbn; auto. destruct (negb (vis0 a)); cbn; lia. }
          cbn [length]. lia.
      Qed.
    End OneSearch.
  End Search.
End Graph.
