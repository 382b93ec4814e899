(** * The graph classes of the AMG: MatrixGraph, SubGraph, PropertiesGraph (dune/istl/paamg/graph.hh), C62 *)
From Coq Require Import Arith List Lia Bool Sorted ZArith Permutation.
From Verif Require Import Ring Sums RingInst Outcome Sparse AmgTransfer AggPattern Aggregation.
Import ListNotations.
Open Scope nat_scope.
Open Scope list_scope.

(** ** MatrixGraph *)
Section MatrixGraph.
  Context {R : ring}.
  (** start_, graph.hh:1468-1481 *)
  Fixpoint starts (A : smat R) (acc : nat) : list nat := acc :: match A with [] => [] | row :: t => starts t (acc + length row) end.
  Definition start (A : smat R) (s : nat) : nat := nth s (starts A 0) 0.
  (** noEdges(), graph.hh:1489-1493; noVertices() is the number of rows *)
  Definition noEdges (A : smat R) : nat := start A (length A).
  (** EdgeIteratorT: source_, the rest of the row behind block_, edge_; graph.hh:1536-1547 (constructor), 1570-1583 (++), 1729-1734 (beginEdges) *)
  Record eit : Type := mkeit { it_src : nat; it_blk : list (nat * R); it_edge : nat }.
  Definition skip (s : nat) (blk : list (nat * R)) : list (nat * R) := match blk with (k, a) :: t => if k =? s then t else blk | [] => [] end.
  Definition beginEdges (A : smat R) (s : nat) : eit := mkeit s (skip s (nth s A [])) (start A s).
  Definition incr (it : eit) : eit := mkeit (it_src it) (skip (it_src it) (tl (it_blk it))) (S (it_edge it)).
  (** for(edge = beginEdges(s); edge != endEdges(s); ++edge): target() and descriptor of each edge; the iterators are compared by block_ *)
  Fixpoint walk (fuel : nat) (it : eit) : list (nat * nat) :=
    match fuel with
    | 0 => []
    | S fuel => match it_blk it with [] => [] | (k, _) :: _ => (k, it_edge it) :: walk fuel (incr it) end
    end.
  Definition edges (A : smat R) (s : nat) : list (nat * nat) := walk (length (nth s A [])) (beginEdges A s).
  (** row.find(t).offset() *)
  Fixpoint pos (t : nat) (row : list (nat * R)) : option nat :=
    match row with [] => None | (k, _) :: r => if k =? t then Some 0 else option_map S (pos t r) end.
  (** findEdge, graph.hh:1507-1522.  Descriptors are unsigned; -1 is the wrapped value, numeric_limits::max(), which also means "not found". *)
  Definition findEdge (A : smat R) (s t : nat) : Z :=
    match pos t (nth s A []) with
    | None => (-1)%Z
    | Some off => (Z.of_nat (start A s) + (Z.of_nat off - (if (s <? t)%nat then 1 else 0)))%Z
    end.

  Lemma starts_shift (A : smat R) : forall acc s, s <= length A -> nth s (starts A acc) 0 = acc + nth s (starts A 0) 0.
  Proof.
    induction A as [|row A IH]; intros acc s Hs; cbn [starts length] in *; destruct s as [|s]; cbn [nth]; try lia.
    rewrite (IH (acc + length row)), (IH (0 + length row)) by lia. lia.
  Qed.
  Lemma start_S (A : smat R) s : s < length A -> start A (S s) = start A s + length (nth s A []).
  Proof.
    unfold start. revert s. induction A as [|row A IH]; intros s Hs; cbn [length] in *; [lia|]. cbn [starts]. destruct s as [|s].
    - cbn [nth]. destruct A; reflexivity.
    - cbn [nth]. rewrite (starts_shift A (0 + length row)), (starts_shift A (0 + length row) s) by lia. rewrite (IH s) by lia. lia.
  Qed.
  Lemma start_mono (A : smat R) s s' : s < s' -> s' <= length A -> start A s + length (nth s A []) <= start A s'.
  Proof. induction 1 as [|s' H IH]; intros Hs; [rewrite start_S by lia; lia|]. rewrite (start_S A s') by lia. specialize (IH ltac:(lia)). lia. Qed.

  Lemma walk_plain s row : ~ In s (map fst row) -> forall fuel d, length row <= fuel ->
    walk fuel (mkeit s row d) = combine (map fst row) (seq d (length row)).
  Proof.
    induction row as [|[k a] row IH]; intros N fuel d Hf; (destruct fuel as [|fuel]; [cbn in Hf; try lia; auto|]); cbn [walk it_blk]; auto.
    cbn [map fst combine length seq it_edge]. f_equal. unfold incr. cbn [it_src it_blk it_edge tl].
    cbn [map fst In] in N. cbn [length] in Hf.
    replace (skip s row) with row. { apply IH; [tauto|lia]. }
    destruct row as [|[k' a'] row]; cbn [skip]; auto. destruct (Nat.eqb_spec k' s) as [->|]; auto. exfalso. apply N. cbn. auto.
  Qed.
  Lemma filter_id s (l : list nat) : ~ In s l -> filter (fun c => negb (c =? s)) l = l.
  Proof. induction l as [|k l IH]; cbn [filter In]; intros H; auto. destruct (Nat.eqb_spec k s) as [->|]; [tauto|]. cbn [negb]. rewrite IH; auto. Qed.
  Lemma walk_row s row : NoDup (map fst row) -> forall fuel d, length row <= fuel ->
    walk fuel (mkeit s (skip s row) d) = combine (filter (fun c => negb (c =? s)) (map fst row)) (seq d (length (filter (fun c => negb (c =? s)) (map fst row)))).
  Proof.
    induction row as [|[k a] row IH]; intros N fuel d Hf; [destruct fuel; reflexivity|].
    cbn [map fst] in N. inversion N as [|x l N1 N2]; subst. cbn [skip map fst filter]. cbn [length] in Hf. destruct (Nat.eqb_spec k s) as [->|Hk]; cbn [negb].
    - rewrite (filter_id s) by auto. rewrite walk_plain by (auto; lia). now rewrite map_length.
    - destruct fuel as [|fuel]; [lia|]. cbn [walk it_blk combine length seq it_edge]. f_equal. unfold incr. cbn [it_src it_blk it_edge tl]. apply IH; auto. lia.
  Qed.
  (** C62: iteration over the edges of a vertex shows the stored off-diagonal entries in column order, with consecutive descriptors *)
  Theorem C62_iteration n (A : smat R) s : mat_wf n n A ->
    map fst (edges A s) = filter (fun c => negb (c =? s)) (map fst (nth s A [])) /\
    map snd (edges A s) = seq (start A s) (length (edges A s)).
  Proof.
    intros W. unfold edges, beginEdges. rewrite walk_row by (auto; eapply row_wf_NoDup, mat_wf_row, W).
    set (l := filter _ _). assert (G : forall (l : list nat) d, map fst (combine l (seq d (length l))) = l /\ map snd (combine l (seq d (length l))) = seq d (length l) /\ length (combine l (seq d (length l))) = length l).
    { induction l0 as [|x l0 IH]; intros d; cbn [length seq combine map fst snd]; auto. destruct (IH (S d)) as (-> & -> & ->). auto. }
    destruct (G l (start A s)) as (-> & -> & ->). auto.
  Qed.
  Lemma edges_len n (A : smat R) s : mat_wf n n A -> length (edges A s) <= length (nth s A []).
  Proof.
    intros W. destruct (C62_iteration n A s W) as [H _]. apply (f_equal (@length nat)) in H. rewrite map_length in H. rewrite H.
    clear. rewrite <- (map_length fst (nth s A [])). induction (map fst (nth s A [])) as [|x l IH]; cbn [filter length]; auto. destruct (negb _); cbn [length]; lia.
  Qed.
  Lemma edges_desc n (A : smat R) s t d : mat_wf n n A -> In (t, d) (edges A s) -> start A s <= d < start A s + length (nth s A []).
  Proof.
    intros W H. destruct (C62_iteration n A s W) as [_ E]. assert (I : In d (map snd (edges A s))) by (apply in_map_iff; exists (t, d); auto).
    rewrite E in I. apply in_seq in I. pose proof (edges_len n A s W). lia.
  Qed.
  Lemma combine_inj (l : list (nat * nat)) k t t' d : map snd l = seq k (length l) -> In (t, d) l -> In (t', d) l -> t = t'.
  Proof.
    intros E H1 H2. assert (N : NoDup (map snd l)) by (rewrite E; apply seq_NoDup). clear E. induction l as [|[a b] l IH]; [destruct H1|].
    cbn [map snd] in N. inversion N as [|x y N1 N2]; subst. destruct H1 as [H1|H1], H2 as [H2|H2].
    - congruence.
    - inversion H1; subst. exfalso. apply N1, in_map_iff. exists (t', d). auto.
    - inversion H2; subst. exfalso. apply N1, in_map_iff. exists (t, d). auto.
    - auto.
  Qed.
  (** a descriptor names one edge and is below noEdges() *)
  Theorem C62_descriptors n (A : smat R) s t d : mat_wf n n A -> s < n -> In (t, d) (edges A s) ->
    d < noEdges A /\ forall s' t', s' < n -> In (t', d) (edges A s') -> s' = s /\ t' = t.
  Proof.
    intros W Hs H. pose proof (edges_desc n A s t d W H) as B. assert (L : length A = n) by apply W. split.
    - unfold noEdges. pose proof (start_mono A s (length A)). rewrite L in *. specialize (H0 ltac:(lia) ltac:(lia)). lia.
    - intros s' t' Hs' H'. pose proof (edges_desc n A s' t' d W H') as B'.
      assert (E : s' = s).
      { destruct (Nat.lt_trichotomy s s') as [K|[K|K]]; auto; [pose proof (start_mono A s s' K ltac:(lia)) | pose proof (start_mono A s' s K ltac:(lia))]; lia. }
      subst s'. split; auto. destruct (C62_iteration n A s W) as [_ E]. eapply combine_inj; eauto.
  Qed.
  (** noEdges() is not the number of edges: it also counts the stored diagonals *)
  Lemma filter_diag (row : list (nat * R)) s : NoDup (map fst row) -> length (map fst row) = length (filter (fun c => negb (c =? s)) (map fst row)) + (if existsb (Nat.eqb s) (map fst row) then 1 else 0).
  Proof.
    induction (map fst row) as [|k l IH]; intros N; cbn [length filter existsb]; auto. inversion N as [|x y N1 N2]; subst. rewrite (Nat.eqb_sym s k).
    destruct (Nat.eqb_spec k s) as [->|Hk]; cbn [negb orb length].
    - rewrite filter_id by auto. lia.
    - rewrite IH by auto. lia.
  Qed.
  Theorem C62_noEdges n (A : smat R) : mat_wf n n A ->
    noEdges A = list_sum (map (fun s => length (edges A s)) (seq 0 n)) + length (filter (fun s => existsb (Nat.eqb s) (map fst (nth s A []))) (seq 0 n)).
  Proof.
    intros W. assert (L : length A = n) by apply W. unfold noEdges. rewrite L. rewrite <- L at 1.
    assert (G : forall k, k <= n -> start A k = list_sum (map (fun s => length (edges A s)) (seq 0 k)) + length (filter (fun s => existsb (Nat.eqb s) (map fst (nth s A []))) (seq 0 k))).
    { induction k as [|k IH]; intros Hk; [destruct A; reflexivity|]. rewrite start_S, (IH ltac:(lia)) by lia. rewrite seq_S, map_app, list_sum_app, filter_app, app_length. cbn [Nat.add map list_sum filter].
      pose proof (filter_diag (nth k A []) k (row_wf_NoDup _ _ (mat_wf_row n n A k W))) as F. rewrite map_length in F.
      destruct (C62_iteration n A k W) as [I _]. apply (f_equal (@length nat)) in I. rewrite map_length in I. rewrite I, F.
      change (fold_right Nat.add 0 [length (filter (fun c => negb (c =? k)) (map fst (nth k A [])))]) with (length (filter (fun c => negb (c =? k)) (map fst (nth k A []))) + 0).
      destruct (existsb (Nat.eqb k) (map fst (nth k A []))); cbn [length list_sum fold_right]; lia. }
    rewrite L. apply G. auto.
  Qed.

  (** ** findEdge *)
  Lemma pos_some t (row : list (nat * R)) off : pos t row = Some off -> nth_error (map fst row) off = Some t.
  Proof.
    revert off. induction row as [|[k a] row IH]; intros off; cbn [pos]; [discriminate|]. destruct (Nat.eqb_spec k t) as [->|].
    - intros E. inversion E; subst. reflexivity.
    - destruct (pos t row) as [o|] eqn:P; cbn [option_map]; [|discriminate]. intros E. inversion E; subst. cbn [map nth_error]. apply IH; auto.
  Qed.
  Lemma pos_none t (row : list (nat * R)) : pos t row = None <-> ~ In t (map fst row).
  Proof.
    induction row as [|[k a] row IH]; cbn [pos map fst In]; [tauto|]. destruct (Nat.eqb_spec k t) as [->|Hk]; [split; [discriminate|tauto]|].
    destruct (pos t row) as [o|]; cbn [option_map]; split; intros H; try discriminate; try tauto.
    assert (X : Some o = None) by (apply IH; tauto). discriminate.
  Qed.
  Lemma pos_filter s t (row : list (nat * R)) off : StronglySorted lt (map fst row) -> s <> t -> pos t row = Some off -> In s (map fst row) \/ t < s ->
    (s < t -> 1 <= off) /\ nth_error (filter (fun c => negb (c =? s)) (map fst row)) (off - (if s <? t then 1 else 0)) = Some t.
  Proof.
    revert off. induction row as [|[k a] row IH]; intros off SS Hst P Hs; cbn [pos] in P; [discriminate|].
    cbn [map fst] in *. inversion SS as [|x l SS' F]; subst. rewrite Forall_forall in F. destruct (Nat.eqb_spec k t) as [->|Hkt].
    - inversion P; subst. assert (Hts : t < s). { destruct Hs as [[Hs|Hs]|Hs]; [congruence|apply F, Hs|exact Hs]. }
      split; [lia|]. cbn [filter]. destruct (Nat.eqb_spec t s); [lia|]. destruct (s <? t); reflexivity.
    - destruct (pos t row) as [o|] eqn:Po; cbn [option_map] in P; [|discriminate]. inversion P; subst.
      assert (It : In t (map fst row)). { apply pos_some in Po. eapply nth_error_In; eauto. }
      split; [lia|]. cbn [filter]. destruct (Nat.eqb_spec k s) as [->|Hks]; cbn [negb].
      + specialize (F t It). destruct (Nat.ltb_spec s t); [|lia]. rewrite filter_id; [rewrite Nat.sub_succ, Nat.sub_0_r; apply pos_some; auto|].
        intros H'. inversion SS as [|x l _ F2]; subst. rewrite Forall_forall in F2. specialize (F2 s H'). lia.
      + destruct (IH o) as [I1 I2]; auto. { destruct Hs as [[Hs|Hs]|Hs]; auto. congruence. }
        destruct (Nat.ltb_spec s t).
        * rewrite Nat.sub_succ, Nat.sub_0_r. destruct o as [|o]; [lia|]. cbn [nth_error]. rewrite Nat.sub_succ, Nat.sub_0_r in I2. exact I2.
        * rewrite Nat.sub_0_r in *. cbn [nth_error]. exact I2.
  Qed.
  (** C62: findEdge gives the descriptor the iteration shows, provided the diagonal of the source is stored (or the target is below it) *)
  Theorem C62_find n (A : smat R) s t : mat_wf n n A -> s <> t -> instored A s s \/ t < s ->
    (instored A s t -> (0 <= findEdge A s t)%Z /\ In (t, Z.to_nat (findEdge A s t)) (edges A s)) /\ (~ instored A s t -> findEdge A s t = (-1)%Z).
  Proof.
    intros W Hst Hs. unfold findEdge, instored in *. split; intros H.
    - destruct (pos t (nth s A [])) as [off|] eqn:P; [|apply pos_none in P; tauto].
      destruct (pos_filter s t (nth s A []) off (proj1 (mat_wf_row n n A s W)) Hst P Hs) as [O1 O2].
      destruct (C62_iteration n A s W) as [I1 I2]. rewrite <- I1 in O2.
      set (k := off - (if s <? t then 1 else 0)) in *.
      assert (E : (Z.of_nat (start A s) + (Z.of_nat off - (if (s <? t)%nat then 1 else 0)))%Z = Z.of_nat (start A s + k)).
      { subst k. destruct (Nat.ltb_spec s t); [specialize (O1 H0)|]; lia. }
      rewrite E, Nat2Z.id. split; [lia|]. rewrite nth_error_map in O2. destruct (nth_error (edges A s) k) as [[t' d]|] eqn:NE; cbn [option_map fst] in O2; [|discriminate].
      inversion O2; subst t'. assert (D : nth_error (map snd (edges A s)) k = Some d) by (rewrite nth_error_map, NE; reflexivity).
      assert (K : k < length (edges A s)) by (apply nth_error_Some; congruence).
      rewrite I2 in D. rewrite (nth_error_nth' _ 0) in D by (rewrite seq_length; exact K). rewrite seq_nth in D by exact K. inversion D; subst d.
      eapply nth_error_In; eauto.
    - apply pos_none in H. now rewrite H.
  Qed.
End MatrixGraph.

(** Deviation: without the stored diagonal findEdge returns the descriptor of another edge: here edge (1,2) is looked up and the descriptor of
    edge (0,1) returned; and findEdge(i,i), although the graph has no such edge, returns the descriptor of another edge. *)
Definition exnodiag : smat Zring := [[(1, 1%Z)]; [(2, 1%Z)]; [(0, 1%Z); (2, 1%Z)]].
Theorem C62_find_refuted : mat_wf 3 3 exnodiag /\ instored exnodiag 1 2 /\ In (2, 1) (edges exnodiag 1) /\ findEdge exnodiag 1 2 = 0%Z /\ In (1, 0) (edges exnodiag 0).
Proof. split; [split; [reflexivity|repeat constructor; cbn; lia]|]. split; [cbn; tauto|]. vm_compute. tauto. Qed.
Theorem C62_find_self_refuted : exists A : smat Zring, mat_wf 2 2 A /\ (forall i, i < 2 -> instored A i i) /\ findEdge A 0 0 = 0%Z /\ In (1, 0) (edges A 0).
Proof.
  exists [[(0, 4%Z); (1, 1%Z)]; [(0, 1%Z); (1, 4%Z)]]. split; [split; [reflexivity|repeat constructor; cbn; lia]|]. split; [intros i Hi; destruct i as [|[|i]]; cbn; [tauto|tauto|lia]|].
  vm_compute. tauto.
Qed.

(** ** PropertiesGraph over a graph with [n] vertices whose edges carry descriptors below [cap] *)
Section Properties.
  Variables (n cap : nat) (edges : nat -> list (nat * nat)).
  (** getEdgeProperties(source, target) looks the descriptor up with findEdge; None: numeric_limits::max(), reading at that position is undefined *)
  Variable find : nat -> nat -> option nat.
  Variables (V E : Type) (v0 : V) (e0 : E).
  (** the vectors vertexProperties_ and edgeProperties_, graph.hh:2368-2372, 2171-2174 (identity and pointer difference index maps) *)
  Record pgraph : Type := mkpg { pg_v : list V; pg_e : list E }.
  Definition pg_init : pgraph := mkpg (repeat v0 n) (repeat e0 cap).
  (** writes through an edge iterator (properties(), :2201-2206), through getEdgeProperties(source, target) (:2334-2346), and of vertex properties *)
  Inductive pop : Type :=
  | WIter (s k : nat) (p : E)
  | WFind (s t : nat) (p : E)
  | WVert (v : nat) (p : V).
  Definition wr_e (g : pgraph) (d : nat) (p : E) : outcome pgraph := if d <? length (pg_e g) then Ok (mkpg (pg_v g) (upd (pg_e g) d p)) else UB.
  Definition pstep (g : pgraph) (o : pop) : outcome pgraph :=
    match o with
    | WIter s k p => match nth_error (edges s) k with Some (_, d) => wr_e g d p | None => UB end
    | WFind s t p => match find s t with Some d => wr_e g d p | None => UB end
    | WVert v p => if v <? length (pg_v g) then Ok (mkpg (upd (pg_v g) v p) (pg_e g)) else UB
    end.
  Fixpoint prun (g : pgraph) (os : list pop) : outcome pgraph :=
    match os with [] => Ok g | o :: os => obind (pstep g o) (fun g => prun g os) end.
  (** specification: functions from edges (source, target) and vertices to properties *)
  Definition spec : Type := ((nat -> nat -> E) * (nat -> V))%type.
  Definition sset (f : nat -> nat -> E) (s t : nat) (p : E) : nat -> nat -> E := fun x y => if (x =? s) && (y =? t) then p else f x y.
  Definition sstep (st : spec) (o : pop) : spec :=
    match o with
    | WIter s k p => (sset (fst st) s (fst (nth k (edges s) (0, 0))) p, snd st)
    | WFind s t p => (sset (fst st) s t p, snd st)
    | WVert v p => (fst st, fun x => if x =? v then p else snd st x)
    end.
  Definition is_edge (s t : nat) : Prop := exists d, In (t, d) (edges s).
  Definition legal (o : pop) : Prop :=
    match o with WIter s k _ => s < n /\ k < length (edges s) | WFind s t _ => s < n /\ is_edge s t | WVert v _ => v < n end.
  Hypothesis desc : forall s t d, s < n -> In (t, d) (edges s) -> d < cap /\ forall s' t', s' < n -> In (t', d) (edges s') -> s' = s /\ t' = t.
  Hypothesis finds : forall s t d, s < n -> In (t, d) (edges s) -> find s t = Some d.
  Definition agrees (g : pgraph) (st : spec) : Prop :=
    length (pg_e g) = cap /\ length (pg_v g) = n /\ (forall s t d, s < n -> In (t, d) (edges s) -> nth d (pg_e g) e0 = fst st s t) /\
    (forall v, v < n -> nth v (pg_v g) v0 = snd st v).
  Lemma wr_agrees g st s t d p : agrees g st -> s < n -> In (t, d) (edges s) ->
    exists g', wr_e g d p = Ok g' /\ agrees g' (sset (fst st) s t p, snd st).
  Proof.
    intros (L1 & L2 & HE & HV) Hs HI. destruct (desc s t d Hs HI) as [Hd U]. unfold wr_e. rewrite L1. destruct (Nat.ltb_spec d cap); [|lia].
    eexists. split; [reflexivity|]. split; [cbn [pg_e]; rewrite upd_length; auto|]. split; [auto|]. split; [|auto]. cbn [pg_e fst].
    intros s' t' d' Hs' HI'. unfold sset. rewrite nth_upd. rewrite L1. destruct (Nat.eqb_spec d d') as [->|Hn].
    - destruct (U s' t' Hs' HI') as [-> ->]. rewrite !Nat.eqb_refl. cbn [andb]. destruct (Nat.ltb_spec d' cap); [auto|lia].
    - destruct (Nat.eqb_spec s' s) as [->|]; cbn [andb]; auto. destruct (Nat.eqb_spec t' t) as [->|]; auto.
      exfalso. apply Hn. pose proof (finds s t d Hs HI). pose proof (finds s t d' Hs HI'). congruence.
  Qed.
  (** C62: after every history of writes through iterators and by name, reading an edge through an iterator or by name gives what was last written to it *)
  Theorem C62_properties os : Forall legal os -> exists g, prun pg_init os = Ok g /\
    let st := fold_left sstep os (fun _ _ => e0, fun _ => v0) in
    (forall s t d, s < n -> In (t, d) (edges s) -> nth d (pg_e g) e0 = fst st s t /\ find s t = Some d) /\ (forall v, v < n -> nth v (pg_v g) v0 = snd st v).
  Proof.
    intros HL. assert (G : forall g st, agrees g st -> exists g', prun g os = Ok g' /\ agrees g' (fold_left sstep os st)).
    { induction HL as [|o os Ho HL IH]; intros g st A; cbn [prun fold_left]; [eauto|].
      assert (X : exists g', pstep g o = Ok g' /\ agrees g' (sstep st o)).
      { destruct o as [s k p|s t p|v p]; cbn [pstep sstep legal] in *.
        - destruct Ho as [Hs Hk]. destruct (nth_error (edges s) k) as [[t d]|] eqn:NE; [|apply nth_error_None in NE; lia].
          rewrite (nth_error_nth _ _ _ NE). cbn [fst]. apply wr_agrees; auto. eapply nth_error_In; eauto.
        - destruct Ho as [Hs (d & Hd)]. rewrite (finds s t d Hs Hd). apply wr_agrees; auto.
        - destruct A as (L1 & L2 & HE & HV). rewrite L2. destruct (Nat.ltb_spec v n); [|lia]. eexists. split; [reflexivity|].
          split; [auto|split; [cbn [pg_v]; rewrite upd_length; auto|split; [exact HE|]]]. cbn [pg_v snd]. intros x Hx. rewrite nth_upd, L2, (Nat.eqb_sym x v).
          destruct (Nat.eqb_spec v x) as [->|]; auto. destruct (Nat.ltb_spec x n); [auto|lia]. }
      destruct X as (g' & E' & A'). rewrite E'. cbn [obind]. apply IH, A'. }
    destruct (G pg_init (fun _ _ => e0, fun _ => v0)) as (g & E' & (L1 & L2 & HE & HV)).
    - split; [apply repeat_length|split; [apply repeat_length|split]]; cbn [pg_init pg_e pg_v fst snd].
      + intros s t d Hs HI. destruct (desc s t d Hs HI) as [Hd _]. now rewrite nth_repeat.
      + intros v Hv. now rewrite nth_repeat.
    - exists g. split; auto.
  Qed.
End Properties.

(** PropertiesGraph of a MatrixGraph: the flags of AMG (C61) are stored per edge *)
Theorem C62_matrix_properties {R : ring} (A : smat R) (V E : Type) (v0 : V) (e0 : E) os :
  let n := length A in
  let find s t := if (findEdge A s t <? 0)%Z then None else Some (Z.to_nat (findEdge A s t)) in
  mat_wf n n A -> (forall i, i < n -> instored A i i) -> Forall (legal n (edges A) V E) os ->
  exists g, prun (edges A) find V E (pg_init n (noEdges A) V E v0 e0) os = Ok g /\
    let st := fold_left (sstep (edges A) V E) os (fun _ _ => e0, fun _ => v0) in
    (forall s t, s < n -> instored A s t -> t <> s -> exists d, In (t, d) (edges A s) /\ find s t = Some d /\ nth d (pg_e V E g) e0 = fst st s t) /\
    (forall v, v < n -> nth v (pg_v V E g) v0 = snd st v).
Proof.
  intros n find W DG HL.
  assert (EI : forall s t d, In (t, d) (edges A s) -> instored A s t /\ t <> s).
  { intros s t d H. assert (I : In t (map fst (edges A s))) by (apply in_map_iff; exists (t, d); auto). destruct (C62_iteration n A s W) as [E1 _]. rewrite E1 in I.
    apply filter_In in I. destruct I as [I1 I2]. split; auto. apply negb_true_iff, Nat.eqb_neq in I2. exact I2. }
  assert (FD : forall s t, s < n -> instored A s t -> t <> s -> exists d, find s t = Some d /\ In (t, d) (edges A s)).
  { intros s t Hs I Ht. destruct (C62_find n A s t W (not_eq_sym Ht) (or_introl (DG s Hs))) as [F _]. destruct (F I) as [F1 F2].
    exists (Z.to_nat (findEdge A s t)). split; auto. unfold find. destruct (Z.ltb_spec (findEdge A s t) 0); [lia|auto]. }
  destruct (C62_properties n (noEdges A) (edges A) find V E v0 e0) with (os := os) as (g & EG & H1 & H2); auto.
  - intros s t d Hs HI. apply (C62_descriptors n A s t d W Hs HI).
  - intros s t d Hs HI. destruct (EI s t d HI) as [I1 I2]. destruct (FD s t Hs I1 I2) as (d' & F & HI').
    assert (d' = d); [|congruence]. destruct (C62_iteration n A s W) as [E1 _].
    assert (ND : NoDup (map fst (edges A s))). { rewrite E1. apply NoDup_filter. eapply row_wf_NoDup, mat_wf_row, W. }
    clear -ND HI HI'. induction (edges A s) as [|[a b] l IH]; [destruct HI|]. cbn [map fst] in ND. inversion ND as [|x y N1 N2]; subst.
    destruct HI as [H|H], HI' as [H'|H']; [congruence| | |auto].
    + inversion H; subst. exfalso. apply N1, in_map_iff. exists (t, d'). auto.
    + inversion H'; subst. exfalso. apply N1, in_map_iff. exists (t, d). auto.
  - exists g. split; auto. cbv zeta. split; [|exact H2]. intros s t Hs I Ht. destruct (FD s t Hs I Ht) as (d & F & HI). exists d. split; auto. split; auto. apply (H1 s t d Hs HI).
Qed.

(** ** SubGraph *)
Section SubGraph.
  (** the graph: number of vertices, targets of the edges of a vertex in iteration order, noEdges(); the vector excluded *)
  Variables (n : nat) (adj : nat -> list nat) (cap : nat) (excluded : list bool).
  (** start_, end_ (None is -1), edges_ (the part written), noVertices_, endVertex_; noEdges_ (None: not initialised) *)
  Record subgraph : Type := mksg { sg_start : list (option nat); sg_end : list (option nat); sg_edges : list nat; sg_noV : nat; sg_endV : nat; sg_noE : option nat }.
  (** the loop over the edges of a vertex, graph.hh:2018-2024; excluded[target] behind the end of the vector and *edge behind the array are undefined *)
  Fixpoint push_targets (ts : list nat) (es : list nat) : outcome (list nat) :=
    match ts with
    | [] => Ok es
    | t :: ts => match nth_error excluded t with
                 | None => UB
                 | Some true => push_targets ts es
                 | Some false => if length es <? cap then push_targets ts (es ++ [t]) else UB
                 end
    end.
  (** one vertex, graph.hh:2006-2031 *)
  Definition sg_vertex (g : subgraph) (v : nat) : outcome subgraph :=
    match nth_error excluded v with
    | None => UB
    | Some true => Ok (mksg (sg_start g ++ [None]) (sg_end g ++ [None]) (sg_edges g) (sg_noV g) (sg_endV g) (sg_noE g))
    | Some false =>
      let s := length (sg_edges g) in
      obind (push_targets (adj v) (sg_edges g)) (fun es =>
      Ok (mksg (sg_start g ++ [Some s]) (sg_end g ++ [Some (length es)]) (firstn s es ++ isort (skipn s es)) (S (sg_noV g)) (Nat.max v (sg_endV g)) (sg_noE g)))
    end.
  Fixpoint sg_loop (g : subgraph) (vs : list nat) : outcome subgraph :=
    match vs with [] => Ok g | v :: vs => obind (sg_vertex g v) (fun g => sg_loop g vs) end.
  (** the constructor, graph.hh:1987-2034 *)
  Definition mkSubGraph : outcome subgraph :=
    if n =? 0 then Ok (mksg [] [] [] 0 0 None)
    else obind (sg_loop (mksg [] [] [] 0 0 None) (seq 0 n)) (fun g => Ok (mksg (sg_start g) (sg_end g) (sg_edges g) (sg_noV g) (S (sg_endV g)) (Some (length (sg_edges g))))).
  (** the vertex iterator, graph.hh:1868-1903: constructor and increment skip the excluded vertices *)
  Fixpoint vskip (endV fuel cur : nat) : outcome nat :=
    match fuel with
    | 0 => Ok cur
    | S fuel => if cur =? endV then Ok cur else
                match nth_error excluded cur with None => UB | Some true => vskip endV fuel (S cur) | Some false => Ok cur end
    end.
  Fixpoint vwalk (endV fuel cur : nat) : outcome (list nat) :=
    match fuel with
    | 0 => Ok []
    | S fuel => if cur =? endV then Ok [] else obind (vskip endV (endV - S cur) (S cur)) (fun c => obind (vwalk endV fuel c) (fun l => Ok (cur :: l)))
    end.
  (** for (v = begin(); v != end(); ++v), graph.hh:1868-1956 *)
  Definition vertices (g : subgraph) : outcome (list nat) := obind (vskip (sg_endV g) (sg_endV g) 0) (vwalk (sg_endV g) (S (sg_endV g))).
  (** the edge iterator, graph.hh:1946-1956, 1828-1858: targets and descriptors (offsets into edges_); begin == end == edges_-1 for an excluded vertex *)
  Definition sg_edges_of (g : subgraph) (s : nat) : list (nat * nat) :=
    match nth s (sg_start g) None, nth s (sg_end g) None with
    | Some a, Some b => combine (firstn (b - a) (skipn a (sg_edges g))) (seq a (b - a))
    | _, _ => []
    end.
  (** findEdge, graph.hh:1961-1970; std::lower_bound on a sorted range: the first element not below target *)
  Fixpoint lb (t : nat) (l : list nat) : nat := match l with [] => 0 | x :: r => if x <? t then S (lb t r) else 0 end.
  Definition sg_find (g : subgraph) (s t : nat) : option nat :=
    match nth s (sg_start g) None, nth s (sg_end g) None with
    | Some a, Some b => let d := a + lb t (firstn (b - a) (skipn a (sg_edges g))) in
                        if (d =? b) || negb (nth d (sg_edges g) 0 =? t) then None else Some d
    | _, _ => None
    end.

  (** ** Proofs *)
  Definition ex (v : nat) : bool := nth v excluded false.
  Hypothesis exlen : length excluded = n.
  Hypothesis inrange : forall v t, v < n -> In t (adj v) -> t < n.
  Hypothesis nodup : forall v, v < n -> NoDup (adj v).
  Hypothesis room : list_sum (map (fun v => length (adj v)) (seq 0 n)) <= cap.
  Definition keep (v : nat) : list nat := filter (fun t => negb (ex t)) (adj v).
  Definition segm (v : nat) : list nat := if ex v then [] else isort (keep v).
  Definition all (k : nat) : list nat := flat_map segm (seq 0 k).
  Lemma ex_nth v : v < n -> nth_error excluded v = Some (ex v).
  Proof. intros H. apply nth_error_nth'. now rewrite exlen. Qed.
  Lemma isert_len x l : length (isert x l) = S (length l).
  Proof. induction l as [|y l IH]; cbn [isert length]; auto. destruct (x <=? y); cbn [length]; auto. Qed.
  Lemma isort_len l : length (isort l) = length l.
  Proof. induction l as [|x l IH]; cbn [isort length]; auto. now rewrite isert_len, IH. Qed.
  Lemma isert_In x k l : In x (isert k l) <-> x = k \/ In x l.
  Proof. induction l as [|y l IH]; cbn [isert In]; [intuition|]. destruct (k <=? y); cbn [In]; [intuition|]. rewrite IH. intuition. Qed.
  Lemma isort_In x l : In x (isort l) <-> In x l.
  Proof. induction l as [|y l IH]; cbn [isort In]; [tauto|]. rewrite isert_In, IH. intuition. Qed.
  Lemma isert_Sorted k l : StronglySorted lt l -> ~ In k l -> StronglySorted lt (isert k l).
  Proof.
    induction 1 as [|y l S IH F]; cbn [isert In]; intros N; [repeat constructor|]. rewrite Forall_forall in F. destruct (Nat.leb_spec k y) as [L|L].
    - assert (K : k < y) by (destruct (Nat.eq_dec k y); [subst; tauto|lia]). constructor; [constructor; auto; apply Forall_forall; auto|].
      apply Forall_forall. intros x [<-|H]; auto. specialize (F x H). lia.
    - constructor; [apply IH; tauto|]. apply Forall_forall. intros x H. apply isert_In in H. destruct H as [->|H]; auto.
  Qed.
  Lemma isort_Sorted l : NoDup l -> StronglySorted lt (isort l).
  Proof. induction 1 as [|x l N D IH]; cbn [isort]; [constructor|]. apply isert_Sorted; auto. rewrite isort_In. exact N. Qed.
  Lemma filter_le {T} (f : T -> bool) l : length (filter f l) <= length l.
  Proof. induction l as [|x l IH]; cbn [filter length]; auto. destruct (f x); cbn [length]; lia. Qed.
  Lemma segm_len v : length (segm v) <= length (adj v).
  Proof. unfold segm. destruct (ex v); cbn [length]; [lia|]. rewrite isort_len. apply filter_le. Qed.
  Lemma all_S k : all (S k) = all k ++ segm k.
  Proof. unfold all. rewrite seq_S, flat_map_app. cbn [flat_map Nat.add]. now rewrite app_nil_r. Qed.
  Lemma all_len k : length (all k) <= list_sum (map (fun v => length (adj v)) (seq 0 k)).
  Proof.
    induction k as [|k IH]; [apply Nat.le_refl|]. rewrite all_S, app_length, seq_S, map_app, list_sum_app. cbn [Nat.add map list_sum fold_right]. pose proof (segm_len k). lia.
  Qed.
  Lemma sum_prefix k : S k <= n -> list_sum (map (fun v => length (adj v)) (seq 0 k)) + length (adj k) <= cap.
  Proof.
    intros H. assert (E : seq 0 n = seq 0 (S k) ++ seq (S k) (n - S k)) by (rewrite <- seq_app; f_equal; lia).
    pose proof room as RM. rewrite E, map_app, list_sum_app, seq_S, map_app, list_sum_app in RM. cbn [Nat.add map list_sum fold_right] in RM. lia.
  Qed.
  Lemma push_ok v ts : v < n -> (forall t, In t ts -> t < n) -> forall es, length es + length ts <= cap ->
    push_targets ts es = Ok (es ++ filter (fun t => negb (ex t)) ts).
  Proof.
    intros Hv. induction ts as [|t ts IH]; intros HI es Hl; cbn [push_targets filter]; [now rewrite app_nil_r|].
    cbn [length] in Hl. rewrite ex_nth by (apply HI; left; auto). destruct (ex t); cbn [negb].
    - apply IH; [intros; apply HI; right; auto|lia].
    - destruct (Nat.ltb_spec (length es) cap); [|lia]. rewrite IH; [now rewrite <- app_assoc|intros; apply HI; right; auto|rewrite app_length; cbn [length]; lia].
  Qed.
  Definition st_of (s : nat) : option nat := if ex s then None else Some (length (all s)).
  Definition en_of (s : nat) : option nat := if ex s then None else Some (length (all (S s))).
  Lemma loop_ok k : k <= n -> exists e, sg_loop (mksg [] [] [] 0 0 None) (seq 0 k) =
    Ok (mksg (map st_of (seq 0 k)) (map en_of (seq 0 k)) (all k) (length (filter (fun v => negb (ex v)) (seq 0 k))) e None) /\
    (forall v, v < k -> ex v = false -> v <= e) /\ (e = 0 \/ e < k).
  Proof.
    induction k as [|k IH]; intros Hk.
    - exists 0. cbn. split; auto. split; [intros; lia|auto].
    - destruct (IH ltac:(lia)) as (e & E & He & Hb).
      assert (AP : forall g vs ws, sg_loop g (vs ++ ws) = obind (sg_loop g vs) (fun g => sg_loop g ws)).
      { intros g vs. revert g. induction vs as [|v vs IHv]; intros g ws; cbn [sg_loop app obind]; auto. destruct (sg_vertex g v); cbn [obind]; auto. }
      rewrite seq_S, AP, E. cbn [obind sg_loop Nat.add]. unfold sg_vertex. rewrite ex_nth by lia. rewrite !map_app. cbn [map]. rewrite filter_app, app_length. cbn [filter].
      assert (S1 : st_of k = if ex k then None else Some (length (all k))) by reflexivity. assert (S2 : en_of k = if ex k then None else Some (length (all (S k)))) by reflexivity.
      rewrite S1, S2. destruct (ex k) eqn:X; cbn [obind negb length sg_start sg_end sg_edges sg_noV sg_endV sg_noE].
      + exists e. split.
        * f_equal. f_equal; [|lia]. rewrite all_S. unfold segm. rewrite X. now rewrite app_nil_r.
        * split; [|lia]. intros v Hv Xv. destruct (Nat.eq_dec v k) as [->|]; [congruence|]. apply He; auto. lia.
      + rewrite (push_ok k) by (try lia; try (intros; eapply inrange; eauto); pose proof (all_len k); pose proof (sum_prefix k Hk); lia). cbn [obind].
        exists (Nat.max k e). split; [|split; [|lia]].
        * rewrite firstn_app, firstn_all, Nat.sub_diag, firstn_O, app_nil_r, skipn_app, skipn_all, Nat.sub_diag. cbn [skipn app].
          assert (A1 : all k ++ isort (filter (fun t => negb (ex t)) (adj k)) = all (S k)) by (rewrite all_S; unfold segm; rewrite X; reflexivity).
          rewrite A1. f_equal. f_equal; [|lia]. f_equal. f_equal. f_equal. rewrite <- A1, !app_length, isort_len. reflexivity.
        * intros v Hv Xv. destruct (Nat.eq_dec v k) as [->|]; [lia|]. specialize (He v ltac:(lia) Xv). lia.
  Qed.
  Lemma all_split s : s < n -> all n = all s ++ segm s ++ flat_map segm (seq (S s) (n - S s)).
  Proof.
    intros H. unfold all. assert (E : seq 0 n = seq 0 s ++ s :: seq (S s) (n - S s)).
    { replace (s :: seq (S s) (n - S s)) with (seq s (n - s)) by (replace (n - s) with (S (n - S s)) by lia; reflexivity). rewrite <- seq_app. f_equal. lia. }
    rewrite E, flat_map_app. reflexivity.
  Qed.
  Lemma slice_seg s : s < n -> ex s = false -> firstn (length (all (S s)) - length (all s)) (skipn (length (all s)) (all n)) = segm s.
  Proof.
    intros H X. rewrite (all_split s H), skipn_app, skipn_all, Nat.sub_diag. cbn [skipn app]. rewrite all_S, app_length. replace (length (all s) + length (segm s) - length (all s)) with (length (segm s)) by lia.
    rewrite firstn_app, firstn_all, Nat.sub_diag, firstn_O. apply app_nil_r.
  Qed.
  Lemma vskip_ok endV : endV <= n -> forall fuel cur, fuel = endV - cur -> cur <= endV -> exists c, vskip endV fuel cur = Ok c /\ cur <= c <= endV /\
    filter (fun v => negb (ex v)) (seq cur (endV - cur)) = filter (fun v => negb (ex v)) (seq c (endV - c)) /\ (c < endV -> ex c = false).
  Proof.
    intros He. induction fuel as [|fuel IH]; intros cur Hf Hc; cbn [vskip].
    - exists cur. repeat split; auto; lia.
    - destruct (Nat.eqb_spec cur endV); [lia|]. rewrite ex_nth by lia. destruct (ex cur) eqn:X.
      + destruct (IH (S cur)) as (c & E & B & F & Z); try lia. exists c. split; auto. split; [lia|]. split; auto. rewrite <- F.
        replace (endV - cur) with (S (endV - S cur)) by lia. cbn [seq filter]. rewrite X. reflexivity.
      + exists cur. repeat split; auto; lia.
  Qed.
  Lemma vwalk_ok endV : endV <= n -> forall fuel cur, endV - cur < fuel -> cur <= endV -> (cur < endV -> ex cur = false) ->
    vwalk endV fuel cur = Ok (filter (fun v => negb (ex v)) (seq cur (endV - cur))).
  Proof.
    intros He. induction fuel as [|fuel IH]; intros cur Hf Hc X; [lia|]. cbn [vwalk]. destruct (Nat.eqb_spec cur endV) as [->|Hn].
    - rewrite Nat.sub_diag. reflexivity.
    - destruct (vskip_ok endV He (endV - S cur) (S cur) eq_refl ltac:(lia)) as (c & E & B & F & Z). rewrite E. cbn [obind]. rewrite IH by (auto; lia). cbn [obind].
      replace (endV - cur) with (S (endV - S cur)) by lia. cbn [seq filter]. rewrite X by lia. cbn [negb]. now rewrite F.
  Qed.
  Lemma lb_spec t l : StronglySorted lt l -> (In t l -> nth_error l (lb t l) = Some t) /\ (~ In t l -> nth_error l (lb t l) <> Some t) /\ lb t l <= length l.
  Proof.
    induction 1 as [|x l S IH F]; cbn [lb In]; [repeat split; [tauto|intros _; discriminate|auto]|]. destruct IH as (I1 & I2 & I3). rewrite Forall_forall in F. destruct (Nat.ltb_spec x t) as [L|L].
    - cbn [nth_error length]. repeat split; [|intros N; apply I2; tauto|lia]. intros [->|H]; [lia|auto].
    - cbn [nth_error length]. repeat split; [|intros N E; inversion E; tauto|lia]. intros [->|H]; auto. specialize (F t H). lia.
  Qed.

  (** the segment of a vertex inside edges_ *)
  Theorem C62_subgraph : exists g, mkSubGraph = Ok g /\
    (** the vertices are those not excluded, in increasing order *)
    vertices g = Ok (filter (fun v => negb (ex v)) (seq 0 n)) /\ sg_noV g = length (filter (fun v => negb (ex v)) (seq 0 n)) /\
    (** the edges are those between them, sorted by target *)
    (forall s, s < n -> StronglySorted lt (map fst (sg_edges_of g s)) /\
       forall t, In t (map fst (sg_edges_of g s)) <-> ex s = false /\ In t (adj s) /\ ex t = false) /\
    (** descriptors are unique and below noEdges() *)
    (forall s t d, s < n -> In (t, d) (sg_edges_of g s) -> d < length (sg_edges g) /\ forall s' t', s' < n -> In (t', d) (sg_edges_of g s') -> s' = s /\ t' = t) /\
    (** findEdge *)
    (forall s t, s < n -> match sg_find g s t with Some d => In (t, d) (sg_edges_of g s) | None => ~ In t (map fst (sg_edges_of g s)) end) /\
    (** noEdges() *)
    sg_noE g = (if n =? 0 then None else Some (list_sum (map (fun s => length (sg_edges_of g s)) (seq 0 n)))).
  Proof.
    unfold mkSubGraph. destruct (Nat.eqb_spec n 0) as [Z|Z].
    - eexists. split; [reflexivity|]. rewrite Z. cbn. split; [reflexivity|]. split; [reflexivity|]. repeat split; intros; lia.
    - destruct (loop_ok n (Nat.le_refl n)) as (e & E & He & Hb). rewrite E. cbn [obind sg_start sg_end sg_edges sg_noV sg_endV sg_noE].
      eexists. split; [reflexivity|]. set (g := mksg _ _ _ _ _ _). cbn [g sg_noV sg_noE].
      assert (EO : forall s, s < n -> sg_edges_of g s = if ex s then [] else combine (segm s) (seq (length (all s)) (length (segm s)))).
      { intros s Hs. unfold sg_edges_of. cbn [g sg_start sg_end sg_edges].
        assert (NS : forall f : nat -> option nat, nth s (map f (seq 0 n)) None = f s).
        { intros f. rewrite (nth_indep _ None (f 0)) by (rewrite map_length, seq_length; auto). rewrite map_nth, seq_nth by auto. reflexivity. }
        rewrite !NS. unfold st_of, en_of. destruct (ex s) eqn:X; auto. rewrite slice_seg by auto. f_equal. f_equal. rewrite all_S, app_length. lia. }
      assert (CB : forall (l : list nat) d, map fst (combine l (seq d (length l))) = l /\ map snd (combine l (seq d (length l))) = seq d (length l) /\ length (combine l (seq d (length l))) = length l).
      { induction l as [|x l IH]; intros d; cbn [length seq combine map fst snd]; auto. destruct (IH (S d)) as (-> & -> & ->). auto. }
      assert (SG : forall s, s < n -> ex s = false -> StronglySorted lt (segm s)).
      { intros s Hs X. unfold segm. rewrite X. apply isort_Sorted. apply NoDup_filter. auto. }
      assert (FE : forall s, s < n -> map fst (sg_edges_of g s) = segm s).
      { intros s Hs. rewrite EO by auto. unfold segm. destruct (ex s) eqn:X; [reflexivity|]. apply CB. }
      assert (DE : forall s t d, s < n -> In (t, d) (sg_edges_of g s) -> ex s = false /\ length (all s) <= d < length (all s) + length (segm s)).
      { intros s t d Hs H. rewrite EO in H by auto. destruct (ex s); [destruct H|]. split; auto.
        assert (I : In d (map snd (combine (segm s) (seq (length (all s)) (length (segm s)))))) by (apply in_map_iff; exists (t, d); auto).
        rewrite (proj1 (proj2 (CB _ _))) in I. apply in_seq in I. exact I. }
      assert (MO : forall s s', s < s' -> s' <= n -> length (all s) + length (segm s) <= length (all s')).
      { intros s s' H. induction H as [|s' H IH]; intros Hn; rewrite all_S, app_length; [lia|]. specialize (IH ltac:(lia)). lia. }
      split; [|split; [reflexivity|split; [|split; [|split]]]].
      + unfold vertices. cbn [g sg_endV]. assert (Hn : S e <= n) by lia.
        destruct (vskip_ok (S e) Hn (S e) 0 ltac:(lia) ltac:(lia)) as (c & Ec & Bc & Fc & Xc). rewrite Ec. cbn [obind]. rewrite vwalk_ok by (auto; lia). f_equal. rewrite <- Fc, Nat.sub_0_r.
        replace n with (S e + (n - S e)) at 1 by lia. rewrite seq_app, filter_app.
        replace (filter (fun v => negb (ex v)) (seq (0 + S e) (n - S e))) with (@nil nat); [now rewrite app_nil_r|].
        symmetry.
        assert (G : forall l, (forall v, In v l -> ex v = true) -> filter (fun v => negb (ex v)) l = []).
        { induction l as [|x l IH]; intros H; cbn [filter]; auto. rewrite (H x (or_introl eq_refl)). cbn [negb]. apply IH. intros v Hv. apply H. right; auto. }
        apply G. intros v Hv. apply in_seq in Hv. destruct (ex v) eqn:X; auto. specialize (He v ltac:(lia) X). lia.
      + intros s Hs. rewrite FE by auto. split.
        * destruct (ex s) eqn:X; [unfold segm; rewrite X; constructor|auto].
        * intros t. unfold segm. destruct (ex s); [split; [intros []|intros [H _]; discriminate]|]. rewrite isort_In. unfold keep. rewrite filter_In, negb_true_iff. tauto.
      + intros s t d Hs H. destruct (DE s t d Hs H) as [X B]. split.
        * cbn [g sg_edges]. pose proof (MO s n Hs (Nat.le_refl n)). lia.
        * intros s' t' Hs' H'. destruct (DE s' t' d Hs' H') as [X' B'].
          assert (ES : s' = s). { destruct (Nat.lt_trichotomy s s') as [K|[K|K]]; auto; [pose proof (MO s s' K ltac:(lia)) | pose proof (MO s' s K ltac:(lia))]; lia. }
          subst s'. split; auto. rewrite EO in H, H' by auto. rewrite X in H, H'. eapply combine_inj; eauto. rewrite (proj2 (proj2 (CB _ _))). apply CB.
      + intros s t Hs. rewrite FE by auto. unfold sg_find. cbn [g sg_start sg_end sg_edges].
        assert (NS : forall f : nat -> option nat, nth s (map f (seq 0 n)) None = f s).
        { intros f. rewrite (nth_indep _ None (f 0)) by (rewrite map_length, seq_length; auto). rewrite map_nth, seq_nth by auto. reflexivity. }
        rewrite !NS. unfold st_of, en_of. destruct (ex s) eqn:X; [unfold segm; rewrite X; auto|]. rewrite slice_seg by auto. cbv zeta.
        destruct (lb_spec t (segm s) (SG s Hs X)) as (L1 & L2 & L3). rewrite all_S, app_length.
        assert (NA : forall i, i < length (segm s) -> nth (length (all s) + i) (all n) 0 = nth i (segm s) 0).
        { intros i Hi. rewrite (all_split s Hs), app_nth2 by lia. replace (length (all s) + i - length (all s)) with i by lia. rewrite app_nth1 by auto. reflexivity. }
        destruct (Nat.eqb_spec (length (all s) + lb t (segm s)) (length (all s) + length (segm s))) as [Q|Q]; cbn [orb].
        * intros HI. specialize (L1 HI). assert (lb t (segm s) < length (segm s)) by (apply nth_error_Some; congruence). lia.
        * rewrite NA by lia. assert (LT : lb t (segm s) < length (segm s)) by lia. pose proof (nth_error_nth' (segm s) 0 LT) as NE.
          destruct (Nat.eqb_spec (nth (lb t (segm s)) (segm s) 0) t) as [Q2|Q2]; cbn [negb].
          -- rewrite EO, X by auto. rewrite Q2 in NE.
             assert (GC : forall (l : list nat) d i x, nth_error l i = Some x -> In (x, d + i) (combine l (seq d (length l)))).
             { induction l as [|y l IH]; intros d i x Hx; [destruct i; discriminate|]. cbn [length seq combine]. destruct i as [|i].
               - cbn [nth_error] in Hx. inversion Hx; subst. left. f_equal. lia.
               - right. replace (d + S i) with (S d + i) by lia. apply IH, Hx. }
             apply GC, NE.
          -- intros HI. specialize (L1 HI). congruence.
      + f_equal. cbn [g sg_edges].
        assert (G : forall k, k <= n -> length (all k) = list_sum (map (fun s => length (sg_edges_of g s)) (seq 0 k))).
        { induction k as [|k IH]; intros Hk; [reflexivity|]. rewrite all_S, app_length, seq_S, map_app, list_sum_app, IH by lia. f_equal.
          cbn [map list_sum fold_right Nat.add]. rewrite <- (map_length fst (sg_edges_of g k)), FE by lia. lia. }
        apply G. auto.
  Qed.
End SubGraph.

(** the edges of a MatrixGraph meet the hypotheses of C62_subgraph *)
Theorem C62_subgraph_of_matrix {R : ring} (A : smat R) excluded : let n := length A in mat_wf n n A -> length excluded = n ->
  (forall v t, v < n -> In t (matrix_graph A v) -> t < n) /\ (forall v, v < n -> NoDup (matrix_graph A v)) /\
  list_sum (map (fun v => length (matrix_graph A v)) (seq 0 n)) <= noEdges A /\
  exists g, mkSubGraph n (matrix_graph A) (noEdges A) excluded = Ok g.
Proof.
  intros n W L.
  assert (H1 : forall v t, v < n -> In t (matrix_graph A v) -> t < n).
  { intros v t Hv H. unfold matrix_graph in H. apply filter_In in H. destruct H as [H _]. destruct (mat_wf_row n n A v W) as [_ F]. rewrite Forall_forall in F. apply F, H. }
  assert (H2 : forall v, v < n -> NoDup (matrix_graph A v)) by (intros v Hv; apply NoDup_filter; eapply row_wf_NoDup, mat_wf_row, W).
  assert (H3 : list_sum (map (fun v => length (matrix_graph A v)) (seq 0 n)) <= noEdges A).
  { rewrite (C62_noEdges n A W). assert (E : map (fun v => length (matrix_graph A v)) (seq 0 n) = map (fun s => length (edges A s)) (seq 0 n)).
    { apply map_ext. intros s. destruct (C62_iteration n A s W) as [E _]. unfold matrix_graph. rewrite <- E. apply map_length. }
    rewrite E. lia. }
  split; [exact H1|split; [exact H2|split; [exact H3|]]].
  destruct (C62_subgraph n (matrix_graph A) (noEdges A) excluded L H1 H2 H3) as (g & E & _). eauto.
Qed.
(** Deviation: noEdges() of the subgraph of an empty graph is never set *)
Theorem C62_empty_refuted adj cap excluded : mkSubGraph 0 adj cap excluded = Ok (mksg [] [] [] 0 0 None).
Proof. reflexivity. Qed.

Definition exgr : smat Zring := [[(0, 2%Z); (1, 1%Z); (3, 1%Z)]; [(0, 1%Z); (1, 2%Z); (2, 1%Z)]; [(1, 1%Z); (2, 2%Z); (3, 1%Z)]; [(0, 1%Z); (2, 1%Z); (3, 2%Z)]].
Example C62_example : mat_wf 4 4 exgr /\ edges exgr 1 = [(0, 3); (2, 4)] /\ findEdge exgr 1 2 = 4%Z /\ findEdge exgr 1 3 = (-1)%Z /\
  match mkSubGraph 4 (matrix_graph exgr) (noEdges exgr) [true; false; false; false] with
  | Ok g => vertices [true; false; false; false] g = Ok [1; 2; 3] /\ sg_edges_of g 2 = [(1, 1); (3, 2)] /\ sg_find g 2 3 = Some 2 /\ sg_find g 1 0 = None /\ sg_noE g = Some 4
  | _ => False
  end.
Proof. split; [split; [reflexivity|repeat constructor; cbn; lia]|]. vm_compute. auto 10. Qed.
