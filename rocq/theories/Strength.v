(** * Strength of connections: buildDependency with the three dependency policies of the AMG
    (dune/istl/paamg/aggregates.hh:132-247, 1396-1521, 1813-1877), C61 *)
From Coq Require Import Arith List Lia Bool Sorted ZArith QArith Lqa Qfield.
From Verif Require Import Ring Sums RingInst Outcome Sparse AmgTransfer AggPattern Aggregation Amg AmgSetup.
Import ListNotations.
Open Scope nat_scope.
Open Scope list_scope.

(** ** Model *)
(** a loop whose body may throw or be undefined *)
Fixpoint ofold {S E : Type} (f : S -> E -> outcome S) (l : list E) (s : S) : outcome S :=
  match l with [] => Ok s | e :: t => obind (f s e) (fun s' => ofold f t s') end.
(** operator< of the reals; exact numbers (Q) instead of double *)
Definition Qltb (a b : Q) : bool := negb (Qle_bool b a).
(** std::max(m, v), where [None] is the start value min(-numeric_limits::max(), numeric_limits::min()), below every value (aggregates.hh:207, 1419, 1484) *)
Definition omax (m : option Q) (v : Q) : option Q := match m with None => Some v | Some w => Some (if Qltb w v then v else w) end.
(** maxValue_ < b, for the same start value *)
Definition olt (m : option Q) (b : Q) : bool := match m with None => true | Some v => Qltb v b end.
(** alpha() * maxValue_ < v; only evaluated after isIsolated() returned false, so maxValue_ is not the start value *)
Definition above (alpha : Q) (m : option Q) (v : Q) : bool := match m with None => true | Some w => Qltb (alpha * w)%Q v end.
Definition atleast (alpha : Q) (m : option Q) (v : Q) : bool := match m with None => true | Some w => Qle_bool (w * alpha)%Q v end.

(** the flags of the edges and vertices, paamg/dependency.hh:34-215.  An edge is named by (source, target); that getEdgeProperties(s,t) and the
    edge iterator mean the same storage is C62. *)
Record marks : Type := mkm { m_dep : nat -> nat -> bool; m_inf : nat -> nat -> bool; m_iso : nat -> bool; m_exc : nat -> bool }.
Definition nomarks : marks := mkm (fun _ _ => false) (fun _ _ => false) (fun _ => false) (fun _ => false).
Definition eset (f : nat -> nat -> bool) (i j : nat) : nat -> nat -> bool := fun x y => ((x =? i) && (y =? j)) || f x y.
Definition vset (f : nat -> bool) (i : nat) : nat -> bool := fun x => (x =? i) || f x.
Definition setDepends (m : marks) (i j : nat) : marks := mkm (eset (m_dep m) i j) (m_inf m) (m_iso m) (m_exc m).
Definition setInfluences (m : marks) (i j : nat) : marks := mkm (m_dep m) (eset (m_inf m) i j) (m_iso m) (m_exc m).
Definition setIsolated (m : marks) (i : nat) : marks := mkm (m_dep m) (m_inf m) (vset (m_iso m) i) (m_exc m).
Definition setExcludedBorder (m : marks) (i : nat) : marks := mkm (m_dep m) (m_inf m) (m_iso m) (vset (m_exc m) i).

Section Strength.
  Context {R : ring}.
  (** the functor that turns matrix blocks into numbers and its flag is_sign_preserving, aggregates.hh:368-512; frobenius_norm of a block *)
  Variable norm : R -> Q.
  Variable sign_preserving : bool.
  Variable frobenius : R -> Q.
  (** parameters.hh:120-180: alpha() and beta() *)
  Variables alpha beta : Q.

  (** row.find(j) *)
  Fixpoint rfind (row : list (nat * R)) (j : nat) : option R :=
    match row with [] => None | (k, a) :: t => if k =? j then Some a else rfind t j end.
  (** A[i][j]: undefined if the entry is not stored *)
  Definition at_ (A : smat R) (i j : nat) : outcome R := match rfind (nth i A []) j with Some a => Ok a | None => UB end.

  (** a dependency policy: its state between initRow and the last examine of the row, and its member functions *)
  Record policy : Type := mkp {
    pstate : Type;
    p_init : smat R -> nat -> outcome pstate;                                          (* initRow(row, index) *)
    p_examine : smat R -> pstate -> nat * R -> outcome pstate;                         (* examine(col) *)
    p_isolated : pstate -> outcome (bool * pstate);                                    (* isIsolated() *)
    p_edge : smat R -> marks -> pstate -> nat -> nat * R -> outcome (marks * pstate)   (* examine(graph, edge, col) *)
  }.

  (** SymmetricDependency, aggregates.hh:1396-1474.  State: row_, diagonal_, maxValue_ *)
  Definition symmetricDependency : policy := {|
    pstate := nat * Q * option Q;
    p_init := fun A i => obind (at_ A i i) (fun d => Ok (i, norm d, None));
    p_examine := fun A st col =>
      let '(i, d, mx) := st in
      match rfind (nth (fst col) A []) i with
      | None => Ok (i, d, mx)
      | Some opp =>
        let eij := norm (snd col) in let eji := norm opp in
        if negb sign_preserving || Qltb eij 0 || Qltb eji 0
        then obind (at_ A (fst col) (fst col)) (fun dj => Ok (i, d, omax mx (eij / d * eji / norm dj)%Q))
        else Ok (i, d, mx)
      end;
    p_isolated := fun st => let '(i, d, mx) := st in Ok (olt mx beta, st);
    p_edge := fun A m st t col =>
      let '(i, d, mx) := st in
      match rfind (nth (fst col) A []) i with
      | None => Ok (m, st)
      | Some opp =>
        let eij := norm (snd col) in let eji := norm opp in
        if negb sign_preserving || (Qltb eij 0 || Qltb eji 0)
        then obind (at_ A t t) (fun dj =>
             if above alpha mx (eji / norm dj * eij / d)%Q
             then let m1 := setInfluences (setDepends m i t) i t in
                  (* getEdgeProperties(target, source): undefined if there is no such edge *)
                  match rfind (nth t A []) i with
                  | None => UB
                  | Some _ => Ok (setDepends (setInfluences m1 t i) t i, st)
                  end
             else Ok (m, st))
        else Ok (m, st)
      end |}.

  (** Dependency, aggregates.hh:1476-1521 *)
  Definition dependency : policy := {|
    pstate := nat * Q * option Q;
    p_init := fun A i => obind (at_ A i i) (fun d => Ok (i, norm d, None));
    p_examine := fun A st col => let '(i, d, mx) := st in Ok (i, d, omax mx (- norm (snd col))%Q);
    p_isolated := fun st => let '(i, d, mx) := st in Ok (olt mx (beta * d)%Q, st);
    p_edge := fun A m st t col =>
      let '(i, d, mx) := st in
      if atleast alpha mx (- norm (snd col))%Q
      then let m1 := setDepends m i t in
           match rfind (nth t A []) i with
           | None => Ok (m1, st)
           | Some _ => Ok (setInfluences m1 t i, st)
           end
      else Ok (m, st) |}.

  (** SymmetricMatrixDependency, aggregates.hh:132-247.  State: row_, diagonal_, maxValue_, vals_ (written so far, in reverse, before
      isIsolated(); still to be read, after it; the vector has one element per stored entry and the elements behind the written ones are 0.0) *)
  Definition symmetricMatrixDependency : policy := {|
    pstate := nat * Q * option Q * list Q * nat;
    p_init := fun A i => obind (at_ A i i) (fun d => Ok (i, norm d, None, [], length (nth i A [])));
    p_examine := fun A st col =>
      let '(i, d, mx, vals, sz) := st in
      let eij := norm (snd col) in
      match sz with
      | 0 => UB     (* *valIter_ behind the end of vals_ *)
      | S sz' =>
        if negb sign_preserving || Qltb eij 0
        then obind (at_ A (fst col) (fst col)) (fun dj => let v := (eij / d * eij / norm dj)%Q in Ok (i, d, omax mx v, v :: vals, sz'))
        else Ok (i, d, mx, 0%Q :: vals, sz')
      end;
    p_isolated := fun st =>
      let '(i, d, mx, vals, sz) := st in
      if Qeq_bool d 0 then Throw EISTL else Ok (olt mx beta, (i, d, mx, rev vals ++ repeat 0%Q sz, 0));
    p_edge := fun A m st t col =>
      let '(i, d, mx, vals, sz) := st in
      match vals with
      | [] => UB
      | v :: vals' => Ok (if above alpha mx v then setInfluences (setDepends m i t) i t else m, (i, d, mx, vals', sz))
      end |}.

  (** while(col.index()!=edge.target()) ++col; running over the end of the row is undefined *)
  Fixpoint advance (t : nat) (cols : list (nat * R)) : list (nat * R) :=
    match cols with [] => [] | e :: cols' => if fst e =? t then cols else advance t cols' end.
  (** the loop over the edges of a vertex, aggregates.hh:1862-1872 *)
  Fixpoint edge_loop (p : policy) (A : smat R) (es : list nat) (cols : list (nat * R)) (m : marks) (st : pstate p) : outcome (marks * pstate p) :=
    match es with
    | [] => Ok (m, st)
    | t :: es' =>
      match advance t cols with
      | [] => UB
      | col :: cols' => obind (p_edge p A m st t col) (fun r => edge_loop p A es' cols' (fst r) (snd r))
      end
    end.
  (** one vertex, aggregates.hh:1823-1873; absoffdiag is only computed on the first level *)
  Definition row_step (p : policy) (firstlevel : bool) (A : smat R) (m : marks) (v : nat) : outcome marks :=
    obind (p_init p A v) (fun st0 =>
    obind (ofold (fun (s : pstate p * Q) col =>
             if fst col =? v then Ok s else
             obind (p_examine p A (fst s) col) (fun st => Ok (st, if firstlevel then (if Qltb (snd s) (frobenius (snd col)) then frobenius (snd col) else snd s) else snd s)))
           (nth v A []) (st0, 0%Q)) (fun s =>
    let m1 := if firstlevel && Qeq_bool (snd s) 0 then setExcludedBorder m v else m in
    obind (p_isolated p (fst s)) (fun b =>
    if fst b then Ok (setIsolated m1 v)
    else obind (edge_loop p A (matrix_graph A v) (nth v A []) m1 (snd b)) (fun r => Ok (fst r))))).
  (** buildDependency, aggregates.hh:1813-1877, on the graph of the matrix *)
  Definition buildDependency (p : policy) (firstlevel : bool) (A : smat R) (m : marks) : outcome marks :=
    ofold (row_step p firstlevel A) (seq 0 (length A)) m.

  (** ** Specification *)
  Definition e (A : smat R) (i j : nat) : Q := norm (den A i j).
  Definition offd (A : smat R) (i j : nat) : Prop := instored A i j /\ j <> i.
  (** both entries are stored and, for sign preserving norms, one of them is negative *)
  Definition pairwise (A : smat R) (i j : nat) : Prop :=
    offd A i j /\ instored A j i /\ (sign_preserving = false \/ (e A i j < 0)%Q \/ (e A j i < 0)%Q).
  Definition strength (A : smat R) (i j : nat) : Q := (e A i j * e A j i / (e A i i * e A j j))%Q.
  Definition sym_isolated (A : smat R) (i : nat) : Prop := forall j, pairwise A i j -> (strength A i j < beta)%Q.
  Definition sym_strong (A : smat R) (i j : nat) : Prop :=
    pairwise A i j /\ ~ sym_isolated A i /\ forall k, pairwise A i k -> (alpha * strength A i k < strength A i j)%Q.

  Definition uns_isolated (A : smat R) (i : nat) : Prop := forall j, offd A i j -> (- e A i j < beta * e A i i)%Q.
  Definition uns_strong (A : smat R) (i j : nat) : Prop :=
    offd A i j /\ ~ uns_isolated A i /\ forall k, offd A i k -> (alpha * - e A i k <= - e A i j)%Q.

  Definition single (A : smat R) (i j : nat) : Prop := offd A i j /\ (sign_preserving = false \/ (e A i j < 0)%Q).
  Definition square (A : smat R) (i j : nat) : Q := (e A i j * e A i j / (e A i i * e A j j))%Q.
  Definition smd_isolated (A : smat R) (i : nat) : Prop := forall j, single A i j -> (square A i j < beta)%Q.
  Definition smd_strong (A : smat R) (i j : nat) : Prop :=
    single A i j /\ ~ smd_isolated A i /\ forall k, single A i k -> (alpha * square A i k < square A i j)%Q.

  (** all off-diagonal blocks are zero (in the frobenius norm) *)
  Definition dirichlet (A : smat R) (i : nat) : Prop := forall j, offd A i j -> (frobenius (den A i j) <= 0)%Q.
  Definition diagonals (A : smat R) : Prop := forall i, i < length A -> instored A i i.

  (** ** Lemmas *)
  Lemma Qltb_spec a b : reflect (a < b)%Q (Qltb a b).
  Proof.
    unfold Qltb. destruct (Qle_bool b a) eqn:E; cbn [negb]; constructor.
    - apply Qle_bool_iff in E. apply Qle_not_lt; auto.
    - apply Qnot_le_lt. intros H. apply Qle_bool_iff in H. congruence.
  Qed.
  Lemma Qleb_spec a b : reflect (a <= b)%Q (Qle_bool a b).
  Proof. destruct (Qle_bool a b) eqn:E; constructor; rewrite <- Qle_bool_iff; congruence. Qed.

  Lemma rfind_some row j a : NoDup (map fst row) -> (rfind row j = Some a <-> In (j, a) row).
  Proof.
    induction row as [|[k b] t IH]; cbn [rfind map fst In]; intros N; [split; [discriminate|tauto]|].
    inversion N as [|x l N1 N2]; subst. destruct (Nat.eqb_spec k j) as [->|Hk].
    - split; intros H. inversion H; auto. destruct H as [H|H]; [congruence|]. exfalso. apply N1. apply in_map_iff. exists (j, a). auto.
    - rewrite (IH N2). split; auto. intros [H|H]; auto. congruence.
  Qed.
  Lemma rfind_den n A i j : mat_wf n n A -> rfind (nth i A []) j = if existsb (Nat.eqb j) (map fst (nth i A [])) then Some (den A i j) else None.
  Proof.
    intros _. unfold den. induction (nth i A []) as [|[k b] t IH]; cbn [rfind map fst existsb denrow]; auto.
    rewrite (Nat.eqb_sym j k). destruct (k =? j); cbn [orb]; auto.
  Qed.
  Lemma stored_b (A : smat R) i j : existsb (Nat.eqb j) (map fst (nth i A [])) = true <-> instored A i j.
  Proof.
    unfold instored. rewrite existsb_exists. split.
    - intros (x & H & E). apply Nat.eqb_eq in E. congruence.
    - intros H. exists j. split; auto. apply Nat.eqb_refl.
  Qed.
  Lemma rfind_stored n A i j : mat_wf n n A -> instored A i j -> rfind (nth i A []) j = Some (den A i j).
  Proof. intros W H. rewrite (rfind_den n) by auto. apply stored_b in H. now rewrite H. Qed.
  Lemma rfind_none n A i j : mat_wf n n A -> ~ instored A i j -> rfind (nth i A []) j = None.
  Proof. intros W H. rewrite (rfind_den n) by auto. destruct (existsb _ _) eqn:E; auto. apply stored_b in E. tauto. Qed.
  Lemma at_stored n A i j : mat_wf n n A -> instored A i j -> at_ A i j = Ok (den A i j).
  Proof. intros W H. unfold at_. now rewrite (rfind_stored n). Qed.
  Lemma instored_dec (A : smat R) i j : {instored A i j} + {~ instored A i j}.
  Proof. unfold instored. apply in_dec, Nat.eq_dec. Qed.

  Definition offcols (v : nat) (row : list (nat * R)) : list (nat * R) := filter (fun col => negb (fst col =? v)) row.
  Lemma offcols_in n A v t a : mat_wf n n A -> (In (t, a) (offcols v (nth v A [])) <-> offd A v t /\ a = den A v t).
  Proof.
    intros W. pose proof (row_wf_NoDup _ _ (mat_wf_row n n A v W)) as N.
    unfold offcols, offd. rewrite filter_In. cbn [fst]. rewrite negb_true_iff, Nat.eqb_neq. split.
    - intros [H1 H2]. split; [split; auto; unfold instored; apply in_map_iff; exists (t, a); auto|].
      unfold den. symmetry. apply denrow_in; auto.
    - intros [[H1 H2] ->]. split; auto. apply rfind_some; auto. now apply (rfind_stored n).
  Qed.
  Lemma offcols_fst v (row : list (nat * R)) : map fst (offcols v row) = filter (fun c => negb (c =? v)) (map fst row).
  Proof. unfold offcols. induction row as [|[k a] t IH]; cbn [filter map fst]; auto. destruct (negb (k =? v)); cbn [map fst]; congruence. Qed.

  Lemma ofold_app {S E} (f : S -> E -> outcome S) l1 l2 s : ofold f (l1 ++ l2) s = obind (ofold f l1 s) (ofold f l2).
  Proof. revert s. induction l1 as [|a l1 IH]; intros s; cbn [ofold app obind]; auto. destruct (f s a); cbn [obind]; auto. Qed.

  (** the edge loop visits the off-diagonal entries in order *)
  Lemma edge_loop_skip p A v a cols es m st : (match es with [] => True | t :: _ => t <> v end) ->
    edge_loop p A es ((v, a) :: cols) m st = edge_loop p A es cols m st.
  Proof.
    destruct es as [|t es]; cbn [edge_loop advance fst]; auto. intros H. destruct (Nat.eqb_spec v t); [congruence|]. reflexivity.
  Qed.
  Lemma edge_loop_fold p A v cols : forall m st,
    edge_loop p A (filter (fun c => negb (c =? v)) (map fst cols)) cols m st =
    ofold (fun s col => p_edge p A (fst s) (snd s) (fst col) col) (offcols v cols) (m, st).
  Proof.
    induction cols as [|[k a] cols IH]; intros m st; cbn [map fst filter offcols]; [reflexivity|].
    destruct (Nat.eqb_spec k v) as [->|Hk]; cbn [negb].
    - rewrite edge_loop_skip, IH; [reflexivity|]. destruct (filter _ _) as [|t l] eqn:E; auto.
      assert (H : In t (filter (fun c => negb (c =? v)) (map fst cols))) by (rewrite E; left; auto).
      apply filter_In in H. destruct H as [_ H]. apply negb_true_iff, Nat.eqb_neq in H. exact H.
    - cbn [edge_loop advance fst snd ofold]. rewrite Nat.eqb_refl. destruct (p_edge p A m st k (k, a)) as [[m' st']| |]; cbn [obind fst snd]; auto.
  Qed.
  (** the first pass *)
  Lemma examine_fold (p : policy) (fl : bool) A v cols : forall (st : pstate p) q,
    ofold (fun (s : pstate p * Q) col =>
             if fst col =? v then Ok s else
             obind (p_examine p A (fst s) col) (fun st => Ok (st, if fl then (if Qltb (snd s) (frobenius (snd col)) then frobenius (snd col) else snd s) else snd s)))
      cols (st, q) =
    obind (ofold (p_examine p A) (offcols v cols) st) (fun st' =>
      Ok (st', if fl then fold_left (fun q col => if Qltb q (frobenius (snd col)) then frobenius (snd col) else q) (offcols v cols) q else q)).
  Proof.
    induction cols as [|[k a] cols IH]; intros st q; cbn [ofold offcols filter obind fst fold_left].
    - now destruct fl.
    - destruct (Nat.eqb_spec k v) as [->|Hk]; cbn [negb obind].
      + apply IH.
      + cbn [ofold snd]. destruct (p_examine p A st (k, a)) as [st'| |]; cbn [obind]; auto. rewrite IH. fold (offcols v cols).
        destruct fl; cbn [fold_left snd]; reflexivity.
  Qed.
  Lemma absoff_spec (l : list (nat * R)) : forall q, (0 <= q)%Q ->
    let r := fold_left (fun q col => if Qltb q (frobenius (snd col)) then frobenius (snd col) else q) l q in
    (q <= r)%Q /\ ((r == 0)%Q <-> (q == 0)%Q /\ forall col, In col l -> (frobenius (snd col) <= 0)%Q).
  Proof.
    induction l as [|c l IH]; intros q Hq; cbn [fold_left]; cbv zeta.
    - split; [lra|]. split; [intros H; split; auto; intros col []|tauto].
    - destruct (Qltb_spec q (frobenius (snd c))) as [H|H].
      + destruct (IH (frobenius (snd c))) as [I1 I2]; [lra|]. split; [lra|]. rewrite I2. split; [intros [H1 H2]; lra|].
        intros [H1 H2]. specialize (H2 c (or_introl eq_refl)). lra.
      + destruct (IH q Hq) as [I1 I2]. split; auto. rewrite I2. split; intros [H1 H2]; split; auto.
        * intros col [<-|HI]; auto. lra.
        * intros col HI. apply H2. right; auto.
  Qed.

  (** the maximum over a list of optional values *)
  Definition upd_max (val : nat * R -> option Q) (mx : option Q) (col : nat * R) : option Q := match val col with None => mx | Some v => omax mx v end.
  Lemma max_spec val l : forall mx,
    match fold_left (upd_max val) l mx with
    | None => mx = None /\ forall c, In c l -> val c = None
    | Some w => (mx = Some w \/ exists c, In c l /\ val c = Some w) /\
                (forall v, mx = Some v -> (v <= w)%Q) /\ (forall c v, In c l -> val c = Some v -> (v <= w)%Q)
    end.
  Proof.
    induction l as [|c l IH]; intros mx; cbn [fold_left].
    - destruct mx as [w|]; [|split; auto; intros c []]. split; auto. split; [intros v H; inversion H; lra | intros c v []].
    - specialize (IH (upd_max val mx c)). destruct (fold_left (upd_max val) l (upd_max val mx c)) as [w|] eqn:E.
      + destruct IH as (H1 & H2 & H3). unfold upd_max in H1, H2. destruct (val c) as [v|] eqn:V.
        * assert (HV : (v <= w)%Q /\ forall u, mx = Some u -> (u <= w)%Q).
          { destruct mx as [u|]; cbn [omax] in H2.
            - specialize (H2 _ eq_refl). destruct (Qltb_spec u v) as [L|L]; (split; [lra|]); intros u' Hu; inversion Hu; subst; lra.
            - specialize (H2 _ eq_refl). split; auto. discriminate. }
          split; [|split; [apply HV|]].
          { destruct H1 as [H1|(c' & I & H1)]; [|right; exists c'; split; auto; right; auto].
            destruct mx as [u|]; cbn [omax] in H1; [destruct (Qltb u v); inversion H1; subst; auto|inversion H1; subst];
              right; exists c; (split; [left; auto|auto]). }
          intros c' v' [I|I] HV'; [|exact (H3 c' v' I HV')]. subst c'. rewrite V in HV'. inversion HV'; subst. exact (proj1 HV).
        * split; [|split; auto]. { destruct H1 as [H1|(c' & I & H1)]; auto. right. exists c'. split; auto. right; auto. }
          intros c' v' [I|I] HV'; [subst c'; congruence|exact (H3 c' v' I HV')].
      + destruct IH as [H1 H2]. unfold upd_max in H1. destruct (val c) as [v|] eqn:V.
        * destruct mx; discriminate.
        * split; auto. intros c' [I|I]; auto. now subst c'.
  Qed.
  Lemma olt_spec val l b : olt (fold_left (upd_max val) l None) b = true <-> forall c v, In c l -> val c = Some v -> (v < b)%Q.
  Proof.
    pose proof (max_spec val l None) as M. destruct (fold_left (upd_max val) l None) as [w|]; cbn [olt].
    - destruct M as ([M0|(c & I & M0)] & _ & M1); [discriminate|]. destruct (Qltb_spec w b) as [L|L]; split; intros H; try discriminate; auto.
      + intros c' v I' V. specialize (M1 c' v I' V). lra.
      + specialize (H c w I M0). lra.
    - split; auto. intros _ c v I V. destruct M as [_ M]. rewrite (M c I) in V. discriminate.
  Qed.
  Lemma above_spec val l v : (0 <= alpha)%Q -> (exists c, In c l /\ exists w, val c = Some w) ->
    (above alpha (fold_left (upd_max val) l None) v = true <-> forall c w, In c l -> val c = Some w -> (alpha * w < v)%Q).
  Proof.
    intros Ha (c0 & I0 & w0 & V0). pose proof (max_spec val l None) as M. destruct (fold_left (upd_max val) l None) as [w|]; cbn [above].
    - destruct M as ([M0|(c & I & M0)] & _ & M1); [discriminate|]. destruct (Qltb_spec (alpha * w) v) as [L|L]; split; intros H; try discriminate; auto.
      + intros c' w' I' V. specialize (M1 c' w' I' V). assert (alpha * w' <= alpha * w)%Q by nra. lra.
      + specialize (H c w I M0). lra.
    - destruct M as [_ M]. rewrite (M c0 I0) in V0. discriminate.
  Qed.
  Lemma atleast_spec val l v : (0 <= alpha)%Q -> (exists c, In c l /\ exists w, val c = Some w) ->
    (atleast alpha (fold_left (upd_max val) l None) v = true <-> forall c w, In c l -> val c = Some w -> (alpha * w <= v)%Q).
  Proof.
    intros Ha (c0 & I0 & w0 & V0). pose proof (max_spec val l None) as M. destruct (fold_left (upd_max val) l None) as [w|]; cbn [atleast].
    - destruct M as ([M0|(c & I & M0)] & _ & M1); [discriminate|]. destruct (Qleb_spec (w * alpha) v) as [L|L]; split; intros H; try discriminate; auto.
      + intros c' w' I' V. specialize (M1 c' w' I' V). assert (alpha * w' <= w * alpha)%Q by nra. lra.
      + specialize (H c w I M0). lra.
    - destruct M as [_ M]. rewrite (M c0 I0) in V0. discriminate.
  Qed.

  (** ** Effect on the flags *)
  Definition marked (a b : marks) (D I : nat -> nat -> Prop) : Prop :=
    (forall x y, m_dep b x y = true <-> m_dep a x y = true \/ D x y) /\ (forall x y, m_inf b x y = true <-> m_inf a x y = true \/ I x y) /\
    (forall x, m_iso b x = m_iso a x) /\ (forall x, m_exc b x = m_exc a x).
  Lemma marked_refl m (D I : nat -> nat -> Prop) : (forall x y, ~ D x y) -> (forall x y, ~ I x y) -> marked m m D I.
  Proof. intros HD HI. repeat split; auto; intros [H|H]; auto; exfalso; [eapply HD | eapply HI]; eauto. Qed.
  Lemma marked_trans a b c D I D' I' : marked a b D I -> marked b c D' I' -> marked a c (fun x y => D x y \/ D' x y) (fun x y => I x y \/ I' x y).
  Proof.
    intros (H1 & H2 & H3 & H4) (K1 & K2 & K3 & K4). split; [|split; [|split]]; intros.
    - rewrite K1, H1. tauto.
    - rewrite K2, H2. tauto.
    - now rewrite K3.
    - now rewrite K4.
  Qed.
  Lemma marked_iff a b D I D' I' : (forall x y, D x y <-> D' x y) -> (forall x y, I x y <-> I' x y) -> marked a b D I -> marked a b D' I'.
  Proof. intros HD HI (H1 & H2 & H3 & H4). split; [|split; [|split]]; auto; intros; [rewrite H1, HD | rewrite H2, HI]; tauto. Qed.
  Lemma eset_true f i j x y : eset f i j x y = true <-> f x y = true \/ (x = i /\ y = j).
  Proof. unfold eset. rewrite orb_true_iff, andb_true_iff, !Nat.eqb_eq. tauto. Qed.

  (** an edge pass whose state does not change and that marks by a predicate on the edge *)
  Lemma edges_marked (p : policy) (A : smat R) (st : pstate p) (S : nat * R -> Prop) (Ed Ei : nat -> nat -> nat -> Prop) l :
    (forall m c, In c l -> exists m', p_edge p A m st (fst c) c = Ok (m', st) /\
       ((S c /\ marked m m' (Ed (fst c)) (Ei (fst c))) \/ (~ S c /\ m' = m))) ->
    forall m, exists m', ofold (fun s col => p_edge p A (fst s) (snd s) (fst col) col) l (m, st) = Ok (m', st) /\
      marked m m' (fun x y => exists c, In c l /\ S c /\ Ed (fst c) x y) (fun x y => exists c, In c l /\ S c /\ Ei (fst c) x y).
  Proof.
    intros HE. induction l as [|c l IH]; intros m; cbn [ofold].
    - exists m. split; auto. apply marked_refl; intros x y (c & [] & _).
    - destruct (HE m c (or_introl eq_refl)) as (m1 & E1 & H1). cbn [fst snd]. rewrite E1. cbn [obind].
      destruct (IH (fun m c I => HE m c (or_intror I)) m1) as (m2 & E2 & H2). exists m2. split; auto.
      destruct H1 as [[S1 H1]|[S1 ->]].
      + apply (marked_iff _ _ _ _ _ _) with (3 := marked_trans _ _ _ _ _ _ _ H1 H2).
        * intros x y. split. { intros [H|(c' & I & S' & H)]; [exists c; cbn [In]; auto | exists c'; cbn [In]; auto]. }
          intros (c' & [<-|I] & S' & H); [left; auto | right; exists c'; auto].
        * intros x y. split. { intros [H|(c' & I & S' & H)]; [exists c; cbn [In]; auto | exists c'; cbn [In]; auto]. }
          intros (c' & [<-|I] & S' & H); [left; auto | right; exists c'; auto].
      + apply (marked_iff _ _ _ _ _ _) with (3 := H2); intros x y; (split; [intros (c' & I & H); exists c'; cbn [In]; auto|]);
          intros (c' & [<-|I] & S' & H); [tauto | exists c'; auto | tauto | exists c'; auto].
  Qed.

  (** the flags after buildDependency *)
  Definition builds (r : outcome marks) (D I : nat -> nat -> Prop) (Is Ex : nat -> Prop) : Prop :=
    exists m, r = Ok m /\ (forall x y, m_dep m x y = true <-> D x y) /\ (forall x y, m_inf m x y = true <-> I x y) /\
      (forall x, m_iso m x = true <-> Is x) /\ (forall x, m_exc m x = true <-> Ex x).
  Lemma vset_true f i x : vset f i x = true <-> f x = true \/ x = i.
  Proof. unfold vset. rewrite orb_true_iff, Nat.eqb_eq. tauto. Qed.

  Lemma row_marks (p : policy) (fl : bool) (A : smat R) v st0 st1 b st2 (Iso : Prop) (D I : nat -> nat -> Prop) m :
    mat_wf (length A) (length A) A ->
    p_init p A v = Ok st0 -> ofold (p_examine p A) (offcols v (nth v A [])) st0 = Ok st1 -> p_isolated p st1 = Ok (b, st2) -> (b = true <-> Iso) ->
    (~ Iso -> forall m, exists m' st', ofold (fun s col => p_edge p A (fst s) (snd s) (fst col) col) (offcols v (nth v A [])) (m, st2) = Ok (m', st') /\ marked m m' D I) ->
    exists m', row_step p fl A m v = Ok m' /\
      (forall x y, m_dep m' x y = true <-> m_dep m x y = true \/ (~ Iso /\ D x y)) /\ (forall x y, m_inf m' x y = true <-> m_inf m x y = true \/ (~ Iso /\ I x y)) /\
      (forall x, m_iso m' x = true <-> m_iso m x = true \/ (x = v /\ Iso)) /\ (forall x, m_exc m' x = true <-> m_exc m x = true \/ (x = v /\ fl = true /\ dirichlet A v)).
  Proof.
    intros W E0 E1 E2 HB HE. unfold row_step. rewrite E0. cbn [obind]. rewrite examine_fold, E1. cbn [obind fst snd]. rewrite E2. cbn [obind fst snd].
    set (r := if fl then _ else 0%Q). set (m1 := if fl && Qeq_bool r 0 then setExcludedBorder m v else m).
    assert (M1 : m_dep m1 = m_dep m /\ m_inf m1 = m_inf m /\ m_iso m1 = m_iso m /\
                 forall x, m_exc m1 x = true <-> m_exc m x = true \/ (x = v /\ fl = true /\ dirichlet A v)).
    { assert (B : fl && Qeq_bool r 0 = true <-> fl = true /\ dirichlet A v).
      { rewrite andb_true_iff. subst r. destruct fl; [|intuition discriminate].
        destruct (absoff_spec (offcols v (nth v A [])) 0 (Qle_refl 0)) as [_ S]. cbv zeta in S. rewrite Qeq_bool_iff, S.
        assert (X : (forall col, In col (offcols v (nth v A [])) -> (frobenius (snd col) <= 0)%Q) <-> dirichlet A v).
        { unfold dirichlet. split.
          - intros H t O. apply (H (t, den A v t)). apply (offcols_in (length A)); auto.
          - intros H [t a] HI. apply (offcols_in (length A)) in HI; auto. destruct HI as [O ->]. apply H, O. }
        rewrite X. split; [tauto|]. intros H. repeat split; try tauto. }
      subst m1. destruct (fl && Qeq_bool r 0).
      - cbn [setExcludedBorder m_dep m_inf m_iso m_exc]. repeat split; auto.
        + intros H. apply vset_true in H. destruct H as [H| ->]; auto. right. split; auto. apply B; auto.
        + intros H. apply vset_true. tauto.
      - repeat split; auto. intros [H|(_ & H)]; auto. apply B in H. discriminate. }
    destruct M1 as (D1 & I1 & S1 & X1). destruct b.
    - assert (HI : Iso) by (apply HB; auto). eexists. split; [reflexivity|]. cbn [setIsolated m_dep m_inf m_iso m_exc]. rewrite D1, I1, S1.
      split; [|split; [|split]]; try (intros; tauto). { intros x. rewrite vset_true. tauto. } exact X1.
    - assert (HI : ~ Iso) by (intros H; apply HB in H; discriminate). unfold matrix_graph. rewrite edge_loop_fold.
      destruct (HE HI m1) as (m' & st' & E & (Q1 & Q2 & Q3 & Q4)). rewrite E. cbn [obind fst]. exists m'. split; auto. rewrite <- D1, <- I1, <- S1.
      split; [|split; [|split]].
      + intros x y. rewrite Q1. tauto.
      + intros x y. rewrite Q2. tauto.
      + intros x. rewrite Q3. tauto.
      + intros x. rewrite Q4. apply X1.
  Qed.
  Lemma rows_marks (p : policy) (fl : bool) (A : smat R) (Iso Ex : nat -> Prop) (D I : nat -> nat -> nat -> Prop) :
    (forall v m, v < length A -> exists m', row_step p fl A m v = Ok m' /\
      (forall x y, m_dep m' x y = true <-> m_dep m x y = true \/ D v x y) /\ (forall x y, m_inf m' x y = true <-> m_inf m x y = true \/ I v x y) /\
      (forall x, m_iso m' x = true <-> m_iso m x = true \/ (x = v /\ Iso v)) /\ (forall x, m_exc m' x = true <-> m_exc m x = true \/ (x = v /\ Ex v))) ->
    builds (buildDependency p fl A nomarks) (fun x y => exists v, v < length A /\ D v x y) (fun x y => exists v, v < length A /\ I v x y)
      (fun x => x < length A /\ Iso x) (fun x => x < length A /\ Ex x).
  Proof.
    intros HR. unfold buildDependency.
    assert (G : forall k, k <= length A -> builds (ofold (row_step p fl A) (seq 0 k) nomarks) (fun x y => exists v, v < k /\ D v x y) (fun x y => exists v, v < k /\ I v x y)
      (fun x => x < k /\ Iso x) (fun x => x < k /\ Ex x)).
    { induction k as [|k IH]; intros Hk.
      - exists nomarks. split; auto. split; [|split; [|split]]; cbn [nomarks m_dep m_inf m_iso m_exc].
        1,2: intros x y; split; [discriminate|]; intros (v & H & _); lia.
        1,2: intros x; split; [discriminate|]; intros [H _]; lia.
      - destruct IH as (m & E & Q1 & Q2 & Q3 & Q4); [lia|]. destruct (HR k m) as (m' & E' & P1 & P2 & P3 & P4); [lia|]. exists m'.
        rewrite seq_S, ofold_app, E. cbn [obind ofold Nat.add]. rewrite E'. cbn [obind]. split; auto. split; [|split; [|split]].
        + intros x y. rewrite P1, Q1. split.
          * intros [(v & H & K)|K]; [exists v; split; auto | exists k; split; auto].
          * intros (v & H & K). destruct (Nat.eq_dec v k) as [->|]; auto. left. exists v. split; auto. lia.
        + intros x y. rewrite P2, Q2. split.
          * intros [(v & H & K)|K]; [exists v; split; auto | exists k; split; auto].
          * intros (v & H & K). destruct (Nat.eq_dec v k) as [->|]; auto. left. exists v. split; auto. lia.
        + intros x. rewrite P3, Q3. split; [intros [[H K]|[-> K]]; split; auto|]. intros [H K]. destruct (Nat.eq_dec x k) as [->|]; auto. left. split; auto. lia.
        + intros x. rewrite P4, Q4. split; [intros [[H K]|[-> K]]; split; auto|]. intros [H K]. destruct (Nat.eq_dec x k) as [->|]; auto. left. split; auto. lia. }
    apply (G (length A)). auto.
  Qed.
  Lemma builds_iff r (D I : nat -> nat -> Prop) (Is Ex : nat -> Prop) (D' I' : nat -> nat -> Prop) (Is' Ex' : nat -> Prop) :
    (forall x y, D x y <-> D' x y) -> (forall x y, I x y <-> I' x y) -> (forall x, Is x <-> Is' x) -> (forall x, Ex x <-> Ex' x) ->
    builds r D I Is Ex -> builds r D' I' Is' Ex'.
  Proof.
    intros H1 H2 H3 H4 (m & E & Q1 & Q2 & Q3 & Q4). exists m. split; auto. split; [|split; [|split]]; intros.
    - rewrite Q1. apply H1.
    - rewrite Q2. apply H2.
    - rewrite Q3. apply H3.
    - rewrite Q4. apply H4.
  Qed.

  (** ** SymmetricDependency *)
  Definition symval (A : smat R) (v : nat) (col : nat * R) : option Q :=
    match rfind (nth (fst col) A []) v with
    | None => None
    | Some opp => if negb sign_preserving || Qltb (norm (snd col)) 0 || Qltb (norm opp) 0
                  then Some (norm (snd col) / e A v v * norm opp / e A (fst col) (fst col))%Q else None
    end.
  Hypothesis alpha0 : (0 <= alpha)%Q.

  Section Matrix.
    Variable A : smat R.
    Hypothesis W : mat_wf (length A) (length A) A.
    Hypothesis DG : diagonals A.
    Hypothesis NZ : forall i, i < length A -> ~ (e A i i == 0)%Q.

    Lemma offd_lt v t : offd A v t -> v < length A /\ t < length A.
    Proof. intros [H _]. apply (instored_lt (length A) A v t W H). Qed.
    Lemma symval_spec v t a : In (t, a) (offcols v (nth v A [])) ->
      match symval A v (t, a) with Some w => pairwise A v t /\ (w == strength A v t)%Q | None => ~ pairwise A v t end.
    Proof.
      intros H. apply (offcols_in (length A)) in H; auto. destruct H as [O ->]. destruct (offd_lt v t O) as [Hv Ht].
      unfold symval, pairwise. cbn [fst snd]. destruct (instored_dec A t v) as [I|I].
      - rewrite (rfind_stored (length A)) by auto. fold (e A v t) (e A t v).
        destruct (negb sign_preserving || Qltb (e A v t) 0 || Qltb (e A t v) 0) eqn:B.
        + rewrite !orb_true_iff, negb_true_iff in B. split.
          * split; [auto|split; [auto|]]. destruct B as [[B|B]|B]; auto; right; [left|right]; [destruct (Qltb_spec (e A v t) 0) | destruct (Qltb_spec (e A t v) 0)]; auto; discriminate.
          * unfold strength. field. auto.
        + rewrite !orb_false_iff, negb_false_iff in B. destruct B as [[B1 B2] B3]. intros (_ & _ & [K|[K|K]]).
          * congruence.
          * destruct (Qltb_spec (e A v t) 0); [discriminate|tauto].
          * destruct (Qltb_spec (e A t v) 0); [discriminate|tauto].
      - rewrite (rfind_none (length A)) by auto. tauto.
    Qed.
    Lemma symval_in v t : pairwise A v t -> exists w, In (t, den A v t) (offcols v (nth v A [])) /\ symval A v (t, den A v t) = Some w /\ (w == strength A v t)%Q.
    Proof.
      intros P. assert (I : In (t, den A v t) (offcols v (nth v A []))) by (apply (offcols_in (length A)); auto; split; auto; apply P).
      pose proof (symval_spec v t _ I) as H. destruct (symval A v (t, den A v t)) as [w|]; [|tauto]. exists w. tauto.
    Qed.
    Lemma sym_examine v : v < length A -> forall l, (forall c, In c l -> In c (offcols v (nth v A []))) -> forall mx,
      ofold (p_examine symmetricDependency A) l (v, e A v v, mx) = Ok (v, e A v v, fold_left (upd_max (symval A v)) l mx).
    Proof.
      intros Hv l. induction l as [|[t a] l IH]; intros HI mx; cbn [ofold fold_left]; auto.
      assert (O : offd A v t) by (apply (offcols_in (length A) A v t a W); apply HI; left; auto).
      assert (X : p_examine symmetricDependency A (v, e A v v, mx) (t, a) = Ok (v, e A v v, upd_max (symval A v) mx (t, a))).
      { cbn [symmetricDependency p_examine fst snd]. unfold upd_max, symval. cbn [fst snd].
        destruct (rfind (nth t A []) v) as [opp|]; auto. destruct (negb sign_preserving || Qltb (norm a) 0 || Qltb (norm opp) 0); auto.
        rewrite (at_stored (length A)) by (auto; apply DG; apply (offd_lt v t O)). reflexivity. }
      rewrite X. cbn [obind]. apply IH. intros c Hc. apply HI. right; auto.
    Qed.
    Definition symmax v := fold_left (upd_max (symval A v)) (offcols v (nth v A [])) None.
    Lemma symmax_isolated v : olt (symmax v) beta = true <-> sym_isolated A v.
    Proof.
      unfold symmax. rewrite olt_spec. unfold sym_isolated. split.
      - intros H t P. destruct (symval_in v t P) as (w & I & V & Q). specialize (H _ _ I V). lra.
      - intros H [t a] w I V. pose proof (symval_spec v t a I) as S. rewrite V in S. destruct S as [P Q]. specialize (H t P). lra.
    Qed.
    Lemma symmax_above v s : (exists k, pairwise A v k) -> above alpha (symmax v) s = true <-> forall k, pairwise A v k -> (alpha * strength A v k < s)%Q.
    Proof.
      intros (k & P). unfold symmax. rewrite above_spec; [|exact alpha0|].
      - split.
        + intros H t Pt. destruct (symval_in v t Pt) as (w & I & V & Q). specialize (H _ _ I V). rewrite <- Q. exact H.
        + intros H [t a] w I V. pose proof (symval_spec v t a I) as S. rewrite V in S. destruct S as [Pt Q]. specialize (H t Pt). rewrite Q. exact H.
      - destruct (symval_in v k P) as (w & I & V & Q). exists (k, den A v k). split; eauto.
    Qed.
    Lemma above_ext mx s s' : (s == s')%Q -> above alpha mx s = above alpha mx s'.
    Proof. intros H. destruct mx as [w|]; cbn [above]; auto. destruct (Qltb_spec (alpha * w) s), (Qltb_spec (alpha * w) s'); auto; lra. Qed.
    Lemma sym_edges v m : v < length A -> ~ sym_isolated A v -> exists m',
      ofold (fun s col => p_edge symmetricDependency A (fst s) (snd s) (fst col) col) (offcols v (nth v A [])) (m, (v, e A v v, symmax v)) = Ok (m', (v, e A v v, symmax v)) /\
      marked m m' (fun x y => (x = v /\ sym_strong A v y) \/ (y = v /\ sym_strong A v x)) (fun x y => (x = v /\ sym_strong A v y) \/ (y = v /\ sym_strong A v x)).
    Proof.
      intros Hv NI.
      destruct (edges_marked symmetricDependency A (v, e A v v, symmax v) (fun c => sym_strong A v (fst c))
                  (fun t x y => (x = v /\ y = t) \/ (y = v /\ x = t)) (fun t x y => (x = v /\ y = t) \/ (y = v /\ x = t)) (offcols v (nth v A []))) with (m := m) as (m' & E & M).
      - intros m0 [t a] HI. pose proof (symval_spec v t a HI) as SV. pose proof HI as HI2. apply (offcols_in (length A)) in HI2; auto. destruct HI2 as [O Ea].
        destruct (offd_lt v t O) as [_ Ht]. cbn [symmetricDependency p_edge fst snd]. unfold symval in SV. cbn [fst snd] in SV.
        destruct (instored_dec A t v) as [It|It].
        2:{ rewrite (rfind_none (length A)) in SV |- * by auto. exists m0. split; auto. right. split; auto. intros [P _]. tauto. }
        rewrite (rfind_stored (length A)) in SV |- * by auto. rewrite <- orb_assoc in SV.
        destruct (negb sign_preserving || (Qltb (norm a) 0 || Qltb (norm (den A t v)) 0)).
        2:{ exists m0. split; auto. right. split; auto. intros [P _]. tauto. }
        destruct SV as [P EQ]. rewrite (at_stored (length A)) by (auto; apply DG; auto). cbn [obind].
        assert (EQ2 : (norm (den A t v) / norm (den A t t) * norm a / e A v v == strength A v t)%Q).
        { rewrite <- EQ. fold (e A t v) (e A t t). field. auto. }
        rewrite (above_ext _ _ _ EQ2). destruct (above alpha (symmax v) (strength A v t)) eqn:AB.
        + eexists. split; [reflexivity|]. left. split.
          * split; [exact P|split; [exact NI|]]. apply symmax_above; eauto.
          * unfold setDepends, setInfluences. split; [|split; [|split]]; cbn [m_dep m_inf m_iso m_exc]; auto; intros x y; rewrite !eset_true; tauto.
        + exists m0. split; auto. right. split; auto. intros (_ & _ & H). assert (above alpha (symmax v) (strength A v t) = true) by (apply symmax_above; eauto). congruence.
      - exists m'. split; auto. revert M. apply marked_iff; intros x y.
        + split.
          * intros ([t a] & I & S & [[-> ->]|[-> ->]]); cbn [fst] in *; auto.
          * intros [[-> S]|[-> S]]; [exists (y, den A v y) | exists (x, den A v x)]; (split; [apply (offcols_in (length A)); auto; split; auto; apply S|cbn [fst]; auto]).
        + split.
          * intros ([t a] & I & S & [[-> ->]|[-> ->]]); cbn [fst] in *; auto.
          * intros [[-> S]|[-> S]]; [exists (y, den A v y) | exists (x, den A v x)]; (split; [apply (offcols_in (length A)); auto; split; auto; apply S|cbn [fst]; auto]).
    Qed.
    (** C61: SymmetricDependency (SymmetricCriterion): an edge is strong in both directions iff it is strong seen from one of its ends; a vertex
        is isolated iff all its connections are weaker than beta; the finest level excludes exactly the rows without non-zero off-diagonal. *)
    Theorem C61_symmetric fl : builds (buildDependency symmetricDependency fl A nomarks)
      (fun i j => sym_strong A i j \/ sym_strong A j i) (fun i j => sym_strong A i j \/ sym_strong A j i)
      (fun i => i < length A /\ sym_isolated A i) (fun i => i < length A /\ fl = true /\ dirichlet A i).
    Proof.
      refine (builds_iff _ _ _ _ _ _ _ _ _ _ _ _ _ (rows_marks symmetricDependency fl A (sym_isolated A) (fun v => fl = true /\ dirichlet A v)
        (fun v x y => ~ sym_isolated A v /\ ((x = v /\ sym_strong A v y) \/ (y = v /\ sym_strong A v x)))
        (fun v x y => ~ sym_isolated A v /\ ((x = v /\ sym_strong A v y) \/ (y = v /\ sym_strong A v x))) _)); try (intros; reflexivity).
      1,2: intros i j; split; [intros (v & H & _ & [[-> S]|[-> S]]); auto|];
        intros [S|S]; [exists i|exists j]; (split; [apply (offd_lt _ _ (proj1 (proj1 S)))|split; [apply S|auto]]).
      intros v m Hv.
      refine (row_marks symmetricDependency fl A v (v, e A v v, None) (v, e A v v, symmax v) (olt (symmax v) beta) (v, e A v v, symmax v) (sym_isolated A v) _ _ m W _ _ _ _ _).
      - cbn [symmetricDependency p_init]. rewrite (at_stored (length A)) by auto. reflexivity.
      - apply sym_examine; auto.
      - reflexivity.
      - apply symmax_isolated.
      - intros NI m0. destruct (sym_edges v m0 Hv NI) as (m' & E & M). eauto.
    Qed.

    (** ** Dependency *)
    Definition unsval (col : nat * R) : option Q := Some (- norm (snd col))%Q.
    Definition unsmax v := fold_left (upd_max unsval) (offcols v (nth v A [])) None.
    Lemma uns_examine v l : forall mx, ofold (p_examine dependency A) l (v, e A v v, mx) = Ok (v, e A v v, fold_left (upd_max unsval) l mx).
    Proof. induction l as [|c l IH]; intros mx; cbn [ofold fold_left]; auto. cbn [dependency p_examine obind]. rewrite IH. reflexivity. Qed.
    Lemma unsmax_isolated v : olt (unsmax v) (beta * e A v v)%Q = true <-> uns_isolated A v.
    Proof.
      unfold unsmax. rewrite olt_spec. unfold uns_isolated, unsval. split.
      - intros H t O. apply (H (t, den A v t)); auto. apply (offcols_in (length A)); auto.
      - intros H [t a] w I V. apply (offcols_in (length A)) in I; auto. destruct I as [O ->]. inversion V; subst. apply H, O.
    Qed.
    Lemma unsmax_atleast v s : (exists k, offd A v k) -> atleast alpha (unsmax v) s = true <-> forall k, offd A v k -> (alpha * - e A v k <= s)%Q.
    Proof.
      intros (k & P). unfold unsmax. rewrite atleast_spec; [|exact alpha0|].
      - unfold unsval. split.
        + intros H t O. apply (H (t, den A v t)); auto. apply (offcols_in (length A)); auto.
        + intros H [t a] w I V. apply (offcols_in (length A)) in I; auto. destruct I as [O ->]. inversion V; subst. apply H, O.
      - exists (k, den A v k). split; [apply (offcols_in (length A)); auto|]. unfold unsval. eauto.
    Qed.
    Lemma uns_edges v m : v < length A -> ~ uns_isolated A v -> exists m',
      ofold (fun s col => p_edge dependency A (fst s) (snd s) (fst col) col) (offcols v (nth v A [])) (m, (v, e A v v, unsmax v)) = Ok (m', (v, e A v v, unsmax v)) /\
      marked m m' (fun x y => x = v /\ uns_strong A v y) (fun x y => y = v /\ uns_strong A v x /\ instored A x v).
    Proof.
      intros Hv NI.
      destruct (edges_marked dependency A (v, e A v v, unsmax v) (fun c => uns_strong A v (fst c))
                  (fun t x y => x = v /\ y = t) (fun t x y => y = v /\ x = t /\ instored A t v) (offcols v (nth v A []))) with (m := m) as (m' & E & M).
      - intros m0 [t a] HI. apply (offcols_in (length A)) in HI; auto. destruct HI as [O Ea]. cbn [dependency p_edge fst snd].
        replace (- norm a)%Q with (- e A v t)%Q by (subst a; reflexivity).
        destruct (atleast alpha (unsmax v) (- e A v t)) eqn:AB.
        + assert (S : uns_strong A v t). { split; [exact O|split; [exact NI|]]. apply unsmax_atleast; eauto. }
          destruct (instored_dec A t v) as [It|It].
          * rewrite (rfind_stored (length A)) by auto. eexists. split; [reflexivity|]. left. split; auto.
            unfold setDepends, setInfluences. split; [|split; [|split]]; cbn [m_dep m_inf m_iso m_exc]; auto; intros x y; rewrite !eset_true; tauto.
          * rewrite (rfind_none (length A)) by auto. eexists. split; [reflexivity|]. left. split; auto.
            unfold setDepends, setInfluences. split; [|split; [|split]]; cbn [m_dep m_inf m_iso m_exc]; auto; intros x y; rewrite ?eset_true; tauto.
        + exists m0. split; auto. right. split; auto. intros (_ & _ & H). assert (atleast alpha (unsmax v) (- e A v t) = true) by (apply unsmax_atleast; eauto). congruence.
      - exists m'. split; auto. revert M. apply marked_iff; intros x y.
        + split.
          * intros ([t a] & I & S & [-> ->]); cbn [fst] in *; auto.
          * intros [-> S]. exists (y, den A v y). split; [apply (offcols_in (length A)); auto; split; auto; apply S|cbn [fst]; auto].
        + split.
          * intros ([t a] & I & S & (-> & -> & H)); cbn [fst] in *; auto.
          * intros (-> & S & H). exists (x, den A v x). split; [apply (offcols_in (length A)); auto; split; auto; apply S|cbn [fst]; auto].
    Qed.
    (** C61: Dependency (UnSymmetricCriterion) *)
    Theorem C61_unsymmetric fl : builds (buildDependency dependency fl A nomarks)
      (uns_strong A) (fun i j => uns_strong A j i /\ instored A i j)
      (fun i => i < length A /\ uns_isolated A i) (fun i => i < length A /\ fl = true /\ dirichlet A i).
    Proof.
      refine (builds_iff _ _ _ _ _ _ _ _ _ _ _ _ _ (rows_marks dependency fl A (uns_isolated A) (fun v => fl = true /\ dirichlet A v)
        (fun v x y => ~ uns_isolated A v /\ x = v /\ uns_strong A v y)
        (fun v x y => ~ uns_isolated A v /\ y = v /\ uns_strong A v x /\ instored A x v) _)); try (intros; reflexivity).
      - intros i j; split; [intros (v & H & _ & -> & S); auto|]. intros S. exists i. split; [apply (offd_lt _ _ (proj1 S))|]. split; [apply S|auto].
      - intros i j; split; [intros (v & H & _ & -> & S); auto|]. intros [S H]. exists j. split; [apply (offd_lt _ _ (proj1 S))|]. split; [apply S|auto].
      - intros v m Hv.
        refine (row_marks dependency fl A v (v, e A v v, None) (v, e A v v, unsmax v) (olt (unsmax v) (beta * e A v v)%Q) (v, e A v v, unsmax v) (uns_isolated A v) _ _ m W _ _ _ _ _).
        + cbn [dependency p_init]. rewrite (at_stored (length A)) by auto. reflexivity.
        + apply uns_examine.
        + reflexivity.
        + apply unsmax_isolated.
        + intros NI m0. destruct (uns_edges v m0 Hv NI) as (m' & E & M). eauto.
    Qed.

    (** ** SymmetricMatrixDependency *)
    Definition smdval (v : nat) (col : nat * R) : option Q :=
      if negb sign_preserving || Qltb (norm (snd col)) 0 then Some (norm (snd col) / e A v v * norm (snd col) / e A (fst col) (fst col))%Q else None.
    Definition smdv (v : nat) (col : nat * R) : Q := match smdval v col with Some w => w | None => 0%Q end.
    Lemma smdval_spec v t a : In (t, a) (offcols v (nth v A [])) ->
      match smdval v (t, a) with Some w => single A v t /\ (w == square A v t)%Q | None => ~ single A v t end.
    Proof.
      intros H. apply (offcols_in (length A)) in H; auto. destruct H as [O ->]. destruct (offd_lt v t O) as [Hv Ht].
      unfold smdval, single. cbn [fst snd]. fold (e A v t). destruct (negb sign_preserving || Qltb (e A v t) 0) eqn:B.
      - rewrite orb_true_iff, negb_true_iff in B. split.
        + split; auto. destruct B as [B|B]; auto. right. destruct (Qltb_spec (e A v t) 0); auto; discriminate.
        + unfold square. field. auto.
      - rewrite orb_false_iff, negb_false_iff in B. destruct B as [B1 B2]. intros (_ & [K|K]); [congruence|].
        destruct (Qltb_spec (e A v t) 0); [discriminate|tauto].
    Qed.
    Lemma smdval_in v t : single A v t -> exists w, In (t, den A v t) (offcols v (nth v A [])) /\ smdval v (t, den A v t) = Some w /\ (w == square A v t)%Q.
    Proof.
      intros P. assert (I : In (t, den A v t) (offcols v (nth v A []))) by (apply (offcols_in (length A)); auto; split; auto; apply P).
      pose proof (smdval_spec v t _ I) as H. destruct (smdval v (t, den A v t)) as [w|]; [|tauto]. exists w. tauto.
    Qed.
    Lemma smd_examine v : v < length A -> forall l, (forall c, In c l -> In c (offcols v (nth v A []))) -> forall mx vals sz, length l <= sz ->
      ofold (p_examine symmetricMatrixDependency A) l (v, e A v v, mx, vals, sz) =
      Ok (v, e A v v, fold_left (upd_max (smdval v)) l mx, rev (map (smdv v) l) ++ vals, sz - length l).
    Proof.
      intros Hv l. induction l as [|[t a] l IH]; intros HI mx vals sz Hs; cbn [ofold fold_left map rev length app].
      - now rewrite Nat.sub_0_r.
      - cbn [length] in Hs. destruct sz as [|sz]; [lia|].
        assert (O : offd A v t) by (apply (offcols_in (length A) A v t a W); apply HI; left; auto).
        assert (X : p_examine symmetricMatrixDependency A (v, e A v v, mx, vals, S sz) (t, a) = Ok (v, e A v v, upd_max (smdval v) mx (t, a), smdv v (t, a) :: vals, sz)).
        { cbn [symmetricMatrixDependency p_examine fst snd]. unfold upd_max, smdv, smdval. cbn [fst snd].
          destruct (negb sign_preserving || Qltb (norm a) 0); auto.
          rewrite (at_stored (length A)) by (auto; apply DG; apply (offd_lt v t O)). reflexivity. }
        rewrite X. cbn [obind]. rewrite IH by (try lia; intros c Hc; apply HI; right; auto). rewrite <- app_assoc. reflexivity.
    Qed.
    Definition smdmax v := fold_left (upd_max (smdval v)) (offcols v (nth v A [])) None.
    Lemma smdmax_isolated v : olt (smdmax v) beta = true <-> smd_isolated A v.
    Proof.
      unfold smdmax. rewrite olt_spec. unfold smd_isolated. split.
      - intros H t P. destruct (smdval_in v t P) as (w & I & V & Q). specialize (H _ _ I V). lra.
      - intros H [t a] w I V. pose proof (smdval_spec v t a I) as S. rewrite V in S. destruct S as [P Q]. specialize (H t P). lra.
    Qed.
    Lemma smdmax_above v s : (exists k, single A v k) -> above alpha (smdmax v) s = true <-> forall k, single A v k -> (alpha * square A v k < s)%Q.
    Proof.
      intros (k & P). unfold smdmax. rewrite above_spec; [|exact alpha0|].
      - split.
        + intros H t Pt. destruct (smdval_in v t Pt) as (w & I & V & Q). specialize (H _ _ I V). rewrite <- Q. exact H.
        + intros H [t a] w I V. pose proof (smdval_spec v t a I) as S. rewrite V in S. destruct S as [Pt Q]. specialize (H t Pt). rewrite Q. exact H.
      - destruct (smdval_in v k P) as (w & I & V & Q). exists (k, den A v k). split; eauto.
    Qed.
    Hypothesis beta0 : (0 <= beta)%Q.
    Lemma not_smd_isolated v : ~ smd_isolated A v -> exists k, single A v k /\ (beta <= square A v k)%Q.
    Proof.
      intros H. pose proof (max_spec (smdval v) (offcols v (nth v A [])) None) as M. fold (smdmax v) in M.
      assert (N : olt (smdmax v) beta = false) by (destruct (olt (smdmax v) beta) eqn:E; auto; apply smdmax_isolated in E; tauto).
      destruct (smdmax v) as [w|]; [|discriminate]. cbn [olt] in N. destruct (Qltb_spec w beta) as [L|L]; [discriminate|].
      destruct M as ([M|([t a] & I & V)] & _); [discriminate|]. pose proof (smdval_spec v t a I) as S. rewrite V in S. destruct S as [P Q].
      exists t. split; auto. lra.
    Qed.
    Lemma smd_edges v : v < length A -> ~ smd_isolated A v -> forall l, (forall c, In c l -> In c (offcols v (nth v A []))) -> forall rest m, exists m',
      ofold (fun s col => p_edge symmetricMatrixDependency A (fst s) (snd s) (fst col) col) l (m, (v, e A v v, smdmax v, map (smdv v) l ++ rest, 0)) =
        Ok (m', (v, e A v v, smdmax v, rest, 0)) /\
      marked m m' (fun x y => x = v /\ (exists a, In (y, a) l) /\ smd_strong A v y) (fun x y => x = v /\ (exists a, In (y, a) l) /\ smd_strong A v y).
    Proof.
      intros Hv NI l. destruct (not_smd_isolated v NI) as (k & Pk & Bk). induction l as [|[t a] l IH]; intros HI rest m; cbn [ofold map app].
      - exists m. split; auto. apply marked_refl; intros x y (_ & [a []] & _).
      - cbn [symmetricMatrixDependency p_edge fst snd obind]. set (m1 := if above alpha (smdmax v) (smdv v (t, a)) then _ else m).
        destruct (IH (fun c H => HI c (or_intror H)) rest m1) as (m2 & E & M). exists m2. split; [exact E|].
        assert (AB : above alpha (smdmax v) (smdv v (t, a)) = true <-> smd_strong A v t).
        { pose proof (smdval_spec v t a (HI _ (or_introl eq_refl))) as SV. rewrite smdmax_above by eauto. unfold smdv. destruct (smdval v (t, a)) as [w|].
          - destruct SV as [P Q]. unfold smd_strong. split.
            + intros H. split; [|split]; auto. intros j Pj. rewrite <- Q. auto.
            + intros (_ & _ & H) j Pj. rewrite Q. auto.
          - split; [|intros [P _]; tauto]. intros H. exfalso. specialize (H k Pk). nra. }
        assert (M1 : marked m m1 (fun x y => x = v /\ y = t /\ smd_strong A v t) (fun x y => x = v /\ y = t /\ smd_strong A v t)).
        { subst m1. destruct (above alpha (smdmax v) (smdv v (t, a))).
          - assert (S : smd_strong A v t) by (apply AB; auto). unfold setDepends, setInfluences. split; [|split; [|split]]; cbn [m_dep m_inf m_iso m_exc]; auto; intros x y; rewrite !eset_true; tauto.
          - apply marked_refl; intros x y (_ & _ & S); apply AB in S; discriminate. }
        pose proof (marked_trans _ _ _ _ _ _ _ M1 M) as T. revert T. apply marked_iff; intros x y.
        + split.
          * intros [(-> & -> & S)|(-> & (b & H) & S)]; (split; [auto|split; auto]); [exists a; left; auto|exists b; right; auto].
          * intros (-> & (b & [H|H]) & S); [inversion H; subst; auto|]. right. split; auto. split; eauto.
        + split.
          * intros [(-> & -> & S)|(-> & (b & H) & S)]; (split; [auto|split; auto]); [exists a; left; auto|exists b; right; auto].
          * intros (-> & (b & [H|H]) & S); [inversion H; subst; auto|]. right. split; auto. split; eauto.
    Qed.
    Lemma offcols_le v row : length (offcols v row) <= length row.
    Proof. unfold offcols. induction row as [|c row IH]; cbn [filter length]; auto. destruct (negb _); cbn [length]; lia. Qed.
    (** C61: SymmetricMatrixDependency *)
    Theorem C61_symmetric_matrix fl : builds (buildDependency symmetricMatrixDependency fl A nomarks)
      (smd_strong A) (smd_strong A) (fun i => i < length A /\ smd_isolated A i) (fun i => i < length A /\ fl = true /\ dirichlet A i).
    Proof.
      refine (builds_iff _ _ _ _ _ _ _ _ _ _ _ _ _ (rows_marks symmetricMatrixDependency fl A (smd_isolated A) (fun v => fl = true /\ dirichlet A v)
        (fun v x y => ~ smd_isolated A v /\ x = v /\ smd_strong A v y)
        (fun v x y => ~ smd_isolated A v /\ x = v /\ smd_strong A v y) _)); try (intros; reflexivity).
      1,2: intros i j; split; [intros (v & H & _ & -> & S); auto|]; intros S; exists i; split; [apply (offd_lt _ _ (proj1 (proj1 S)))|split; [apply S|auto]].
      intros v m Hv. set (row := nth v A []). set (l := offcols v row). set (sz := length row).
      refine (row_marks symmetricMatrixDependency fl A v (v, e A v v, None, [], sz) (v, e A v v, smdmax v, rev (map (smdv v) l) ++ [], sz - length l)
        (olt (smdmax v) beta) (v, e A v v, smdmax v, map (smdv v) l ++ repeat 0%Q (sz - length l), 0) (smd_isolated A v) _ _ m W _ _ _ _ _).
      - cbn [symmetricMatrixDependency p_init]. rewrite (at_stored (length A)) by auto. reflexivity.
      - apply smd_examine; auto. apply offcols_le.
      - cbn [symmetricMatrixDependency p_isolated]. destruct (Qeq_bool (e A v v) 0) eqn:Z; [apply Qeq_bool_iff in Z; exfalso; eapply NZ; eauto|].
        rewrite app_nil_r, rev_involutive. reflexivity.
      - apply smdmax_isolated.
      - intros NI m0. destruct (smd_edges v Hv NI l (fun c H => H) (repeat 0%Q (sz - length l)) m0) as (m' & E & M). eexists _, _. split; [exact E|].
        revert M. apply marked_iff; intros x y.
        + split; [tauto|]. intros [-> S]. split; auto. split; auto. exists (den A v y). apply (offcols_in (length A)); auto. split; auto. apply S.
        + split; [tauto|]. intros [-> S]. split; auto. split; auto. exists (den A v y). apply (offcols_in (length A)); auto. split; auto. apply S.
    Qed.
  End Matrix.

  (** ** A diagonal of norm zero: SymmetricMatrixDependency throws *)
  Lemma smd_row_zero (A : smat R) : mat_wf (length A) (length A) A -> diagonals A -> forall fl m v, v < length A ->
    if Qeq_bool (e A v v) 0 then row_step symmetricMatrixDependency fl A m v = Throw EISTL
    else exists m', row_step symmetricMatrixDependency fl A m v = Ok m'.
  Proof.
    intros W DG fl m v Hv. unfold row_step. cbn [symmetricMatrixDependency p_init]. rewrite (at_stored (length A)) by auto. cbn [obind].
    rewrite (examine_fold symmetricMatrixDependency). fold (e A v v).
    pose proof (smd_examine A W DG v Hv (offcols v (nth v A [])) (fun c H => H) None [] (length (nth v A [])) (offcols_le _ _)) as E.
    rewrite E. cbn [obind fst snd symmetricMatrixDependency p_isolated]. destruct (Qeq_bool (e A v v) 0); [reflexivity|]. cbn [obind fst snd].
    destruct (olt _ _); [eauto|]. unfold matrix_graph. rewrite (edge_loop_fold symmetricMatrixDependency). rewrite app_nil_r, rev_involutive.
    set (mx := fold_left _ _ None). set (rest := repeat 0%Q _). match goal with |- context [ofold _ _ (?x, _)] => generalize x; intros m1 end. clearbody rest mx.
    assert (G : forall (l : list (nat * R)) (m : marks), exists m', ofold (fun s col => p_edge symmetricMatrixDependency A (fst s) (snd s) (fst col) col) l
                 (m, (v, e A v v, mx, map (smdv A v) l ++ rest, 0)) = Ok (m', (v, e A v v, mx, rest, 0))).
    { intros l. induction l as [|c l IH]; intros m0; cbn [ofold map app]; [eauto|]. cbn [symmetricMatrixDependency p_edge fst snd obind]. apply IH. }
    destruct (G (offcols v (nth v A [])) m1) as (m' & E').
    match type of E' with ?l = _ => match goal with |- context [obind ?x _] => change x with l end end. rewrite E'. cbn [obind fst]. eauto.
  Qed.
  Theorem C61_zero_diagonal (A : smat R) fl m : mat_wf (length A) (length A) A -> diagonals A -> (exists i, i < length A /\ (e A i i == 0)%Q) ->
    buildDependency symmetricMatrixDependency fl A m = Throw EISTL.
  Proof.
    intros W DG (i & Hi & Z). unfold buildDependency.
    assert (G : forall k j m, j + k = length A -> j <= i -> ofold (row_step symmetricMatrixDependency fl A) (seq j k) m = Throw EISTL).
    { induction k as [|k IH]; intros j m0 Hk Hj; [lia|]. cbn [seq ofold]. pose proof (smd_row_zero A W DG fl m0 j ltac:(lia)) as H.
      destruct (Qeq_bool (e A j j) 0) eqn:E; [rewrite H; reflexivity|]. destruct H as (m' & ->). cbn [obind]. apply IH; [lia|].
      destruct (Nat.eq_dec j i) as [->|]; [|lia]. apply Qeq_bool_iff in Z. congruence. }
    apply G; lia.
  Qed.

  (** ** Consequences of the specification *)
  Section Consequences.
    Variable A : smat R.
    Hypothesis W : mat_wf (length A) (length A) A.
    Hypothesis NZ : forall i, i < length A -> ~ (e A i i == 0)%Q.
    Lemma not_sym_isolated v : ~ sym_isolated A v -> exists k, pairwise A v k /\ (beta <= strength A v k)%Q /\ forall j, pairwise A v j -> (strength A v j <= strength A v k)%Q.
    Proof.
      intros H. pose proof (max_spec (symval A v) (offcols v (nth v A [])) None) as M. fold (symmax A v) in M.
      assert (N : olt (symmax A v) beta = false) by (destruct (olt (symmax A v) beta) eqn:E; auto; apply symmax_isolated in E; tauto).
      destruct (symmax A v) as [w|]; [|discriminate]. cbn [olt] in N. destruct (Qltb_spec w beta) as [L|L]; [discriminate|].
      destruct M as ([M|([t a] & I & V)] & _ & M3); [discriminate|]. pose proof (symval_spec A W NZ v t a I) as S. rewrite V in S. destruct S as [P Q].
      exists t. split; auto. split; [lra|]. intros j Pj. destruct (symval_in A W NZ v j Pj) as (w' & I' & V' & Q'). specialize (M3 _ _ I' V'). lra.
    Qed.
    (** a vertex that is not isolated has a strong connection *)
    Theorem C61_symmetric_connected v : (0 < beta)%Q -> (alpha < 1)%Q -> ~ sym_isolated A v -> exists j, sym_strong A v j.
    Proof.
      intros Hb Ha H. destruct (not_sym_isolated v H) as (k & P & B & M). exists k. split; [auto|split; [auto|]]. intros j Pj. specialize (M j Pj). nra.
    Qed.
    Lemma not_uns_isolated v : ~ uns_isolated A v -> exists k, offd A v k /\ (beta * e A v v <= - e A v k)%Q /\ forall j, offd A v j -> (- e A v j <= - e A v k)%Q.
    Proof.
      intros H. pose proof (max_spec unsval (offcols v (nth v A [])) None) as M. fold (unsmax A v) in M.
      assert (N : olt (unsmax A v) (beta * e A v v) = false) by (destruct (olt (unsmax A v) (beta * e A v v)) eqn:E; auto; apply unsmax_isolated in E; tauto).
      destruct (unsmax A v) as [w|]; [|discriminate]. cbn [olt] in N. destruct (Qltb_spec w (beta * e A v v)) as [L|L]; [discriminate|].
      destruct M as ([M|([t a] & I & V)] & _ & M3); [discriminate|]. apply (offcols_in (length A)) in I; auto. destruct I as [O ->].
      unfold unsval in V. inversion V; subst. exists t. split; auto. split; [unfold e in *; cbn [snd] in *; lra|].
      intros j Oj. apply (M3 (j, den A v j)); [apply (offcols_in (length A)); auto | reflexivity].
    Qed.
    Theorem C61_unsymmetric_connected v : (0 <= beta * e A v v)%Q -> (alpha <= 1)%Q -> ~ uns_isolated A v -> exists j, uns_strong A v j.
    Proof.
      intros Hb Ha H. destruct (not_uns_isolated v H) as (k & P & B & M). exists k. split; [auto|split; [auto|]]. intros j Pj. specialize (M j Pj). nra.
    Qed.
  End Consequences.

  (** Deviation: with a norm that never is negative (RowSum, FrobeniusNorm, AlwaysOneNorm) UnSymmetricCriterion finds every vertex isolated and
      no connection strong, whatever the matrix. *)
  Theorem C61_unsymmetric_norms_refuted (A : smat R) fl : (forall a, (0 <= norm a)%Q) -> (0 < beta)%Q -> mat_wf (length A) (length A) A -> diagonals A ->
    (forall i, i < length A -> (0 < e A i i)%Q) ->
    builds (buildDependency dependency fl A nomarks) (fun _ _ => False) (fun _ _ => False) (fun i => i < length A) (fun i => i < length A /\ fl = true /\ dirichlet A i).
  Proof.
    intros HN Hb W DG PD. assert (IS : forall i, i < length A -> uns_isolated A i).
    { intros i Hi j O. pose proof (HN (den A i j)) as H. fold (e A i j) in H. specialize (PD i Hi). nra. }
    refine (builds_iff _ _ _ _ _ _ _ _ _ _ _ _ _ (C61_unsymmetric A W DG fl)).
    - intros x y. split; [|tauto]. intros (O & NI & _). apply NI, IS. apply (offd_lt A W x y O).
    - intros x y. split; [|tauto]. intros ((O & NI & _) & _). apply NI, IS. apply (offd_lt A W y x O).
    - intros x. split; [tauto|]. intros H. split; auto.
    - reflexivity.
  Qed.

  (** for a matrix whose norms are symmetric, SymmetricDependency marks the symmetric closure of what SymmetricMatrixDependency marks *)
  Theorem C61_closure (A : smat R) : sym_pat A -> (forall i j, (e A i j == e A j i)%Q) -> forall i j, i < length A ->
    (sym_strong A i j <-> smd_strong A i j) /\ (sym_isolated A i <-> smd_isolated A i).
  Proof.
    intros SP SY. assert (SQ : forall i j, (square A i j == strength A i j)%Q) by (intros i j; unfold square, strength; rewrite (SY j i); reflexivity).
    assert (PS : forall i j, i < length A -> (pairwise A i j <-> single A i j)).
    { intros i j Hi. unfold pairwise, single. split; [intros (O & _ & [H|[H|H]]) | intros (O & [H|H])].
      - auto.
      - auto.
      - split; auto. right. rewrite SY. exact H.
      - split; auto. split; auto. apply (SP i j Hi), O.
      - split; auto. split; auto. apply (SP i j Hi), O. }
    intros i j Hi. assert (IS : sym_isolated A i <-> smd_isolated A i).
    { unfold sym_isolated, smd_isolated. split; intros H k P; apply (PS i k Hi) in P; specialize (H k P); rewrite ?SQ in *; auto. }
    split; auto. unfold sym_strong, smd_strong. rewrite IS, (PS i j Hi). split; intros (P & NI & H); (split; [auto|split; [auto|]]); intros k Pk; apply (PS i k Hi) in Pk; specialize (H k Pk);
      rewrite ?SQ in *; auto.
  Qed.

  (** rows and columns may be scaled by positive numbers without any effect on SymmetricDependency; rows without effect on Dependency *)
  Definition scaled (A B : smat R) (r c : nat -> Q) : Prop :=
    length B = length A /\ (forall i j, instored B i j <-> instored A i j) /\ (forall i, (0 < r i)%Q /\ (0 < c i)%Q) /\ forall i j, instored A i j -> (e B i j == r i * c j * e A i j)%Q.
  Theorem C61_scaling (A B : smat R) r c : mat_wf (length A) (length A) A -> diagonals A -> (forall i, i < length A -> ~ (e A i i == 0)%Q) -> scaled A B r c ->
    forall i j, i < length A -> (sym_strong B i j <-> sym_strong A i j) /\ (sym_isolated B i <-> sym_isolated A i).
  Proof.
    intros W DG NZ (L & ST & RC & SC).
    assert (PP : forall i j, pairwise B i j <-> pairwise A i j).
    { intros i j. unfold pairwise, offd. rewrite !ST. split; intros ((O & N) & I & H); repeat (split; auto); (destruct H as [H|[H|H]]; [auto|right; left|right; right]).
      all: destruct (RC i) as [ri ci], (RC j) as [rj cj]. all: pose proof (SC i j O) as E1; pose proof (SC j i I) as E2.
      1: rewrite E1 in H. 2: rewrite E2 in H. 3: rewrite E1. 4: rewrite E2.
      all: try (assert (0 < r i * c j)%Q by nra); try (assert (0 < r j * c i)%Q by nra); nra. }
    assert (SS : forall i j, pairwise A i j -> (strength B i j == strength A i j)%Q).
    { intros i j ((O & N) & I & _). destruct (instored_lt _ A i j W O) as [Hi Hj]. unfold strength. rewrite (SC i j O), (SC j i I), (SC i i (DG i Hi)), (SC j j (DG j Hj)).
      destruct (RC i) as [ri ci], (RC j) as [rj cj]. field. repeat split; try apply NZ; auto; intros Z; rewrite Z in *; lra. }
    intros i j Hi. assert (IS : sym_isolated B i <-> sym_isolated A i).
    { unfold sym_isolated. split; intros H k P; pose proof P as P'; [apply PP in P' | apply PP in P]; specialize (H k ltac:(auto)); rewrite SS in *; auto. }
    split; auto. unfold sym_strong. rewrite IS, PP. split; intros (P & NI & H); (split; [auto|split; [auto|]]); intros k Pk;
      [rewrite <- (SS i k), <- (SS i j) by auto | rewrite (SS i k), (SS i j) by (auto; apply PP; auto)]; apply H; apply PP; auto.
  Qed.
  Theorem C61_row_scaling (A B : smat R) r : diagonals A -> scaled A B r (fun _ => 1%Q) -> forall i j, i < length A ->
    (uns_strong B i j <-> uns_strong A i j) /\ (uns_isolated B i <-> uns_isolated A i).
  Proof.
    intros DG (L & ST & RC & SC).
    assert (OO : forall i j, offd B i j <-> offd A i j) by (intros i j; unfold offd; rewrite ST; tauto).
    intros i j Hi. destruct (RC i) as [ri _].
    assert (IS : uns_isolated B i <-> uns_isolated A i).
    { unfold uns_isolated. split; intros H k O; pose proof O as O'; apply OO in O'; specialize (H k O').
      - rewrite (SC i k (proj1 O)), (SC i i (DG i Hi)) in H. nra.
      - rewrite (SC i k (proj1 O')), (SC i i (DG i Hi)). nra. }
    split; auto. unfold uns_strong. rewrite IS, OO. split; intros (P & NI & H); (split; [auto|split; [auto|]]); intros k Pk; pose proof Pk as Pk'; apply OO in Pk'; specialize (H k Pk').
    - rewrite (SC i k (proj1 Pk)), (SC i j (proj1 P)) in H. nra.
    - rewrite (SC i k (proj1 Pk')), (SC i j (proj1 P)). nra.
  Qed.
End Strength.

(** ** All levels of the hierarchy *)
(** the flags that MatrixHierarchy::build gets from buildDependency on a level, matrixhierarchy.hh:486-516: the first level detects Dirichlet rows *)
Definition level_marks {R : ring} (norm frobenius : R -> Q) (alpha beta : Q) (level : nat) (A : smat R) : marks :=
  match buildDependency frobenius (dependency norm alpha beta) (level =? 0) A nomarks with Ok m => m | _ => nomarks end.
Lemma levels_diagonals {R : ring} (ls : list (@mlevel R)) C : hierarchy_of ls C -> diagonals (next ls C) ->
  forall k B agg, nth_error ls k = Some (B, agg) -> mat_wf (length B) (length B) B /\ diagonals B.
Proof.
  revert C. induction ls as [|[B0 a0] ls IH]; intros C H D k B agg E; [destruct k; discriminate|].
  cbn [hierarchy_of] in H. destruct H as [G H]. destruct k as [|k].
  - cbn in E. inversion E; subst. split; [apply G|exact D].
  - cbn [nth_error] in E. apply (IH C H) in E; auto. destruct G as (_ & _ & _ & P & _). intros i Hi. apply P; auto.
Qed.
Theorem C61_hierarchy {R : ring} (norm frobenius : R -> Q) alpha beta mn mx maxDist maxConn skip D quot dm1 deq dgt maxLevel target rate (A : smat R) :
  (0 <= alpha)%Q -> mn <= mx -> 1 <= mx -> mat_wf (length A) (length A) A -> sym_pat A -> diagonals A ->
  exists ls C,
    build (fun l B => m_dep (level_marks norm frobenius alpha beta l B)) (fun l B => m_inf (level_marks norm frobenius alpha beta l B))
          (fun l B => m_iso (level_marks norm frobenius alpha beta l B)) (fun l B => m_exc (level_marks norm frobenius alpha beta l B))
          mn mx maxDist maxConn skip D quot dm1 deq dgt maxLevel target rate A = Ok (Some (ls, C)) /\
    next ls C = A /\ hierarchy_of ls C /\
    forall k B agg, nth_error ls k = Some (B, agg) ->
      buildDependency frobenius (dependency norm alpha beta) (k =? 0) B nomarks = Ok (level_marks norm frobenius alpha beta k B) /\
      (forall i j, m_dep (level_marks norm frobenius alpha beta k B) i j = true <-> uns_strong norm alpha beta B i j).
Proof.
  intros Ha S1 S2 W SP DG.
  destruct (C59_build (fun l B => m_dep (level_marks norm frobenius alpha beta l B)) (fun l B => m_inf (level_marks norm frobenius alpha beta l B))
          (fun l B => m_iso (level_marks norm frobenius alpha beta l B)) (fun l B => m_exc (level_marks norm frobenius alpha beta l B))
          mn mx maxDist maxConn skip D quot dm1 deq dgt maxLevel target rate S1 S2 A W SP) as (ls & C & E & N & _ & H & _ & _).
  exists ls, C. split; [exact E|split; [exact N|split; [exact H|]]]. intros k B agg EB.
  destruct (levels_diagonals ls C H ltac:(rewrite N; exact DG) k B agg EB) as [WB DB].
  destruct (C61_unsymmetric norm frobenius alpha beta Ha B WB DB (k =? 0)) as (m & E1 & H1 & _). unfold level_marks. rewrite E1. auto.
Qed.

(** ** setDefaultValuesIsotropic and setDefaultValuesAnisotropic, parameters.hh:109-136; unbounded numbers, csize*1.5 exact and rounded down *)
Record aggparams : Type := mkap { ap_maxDistance : nat; ap_min : nat; ap_max : nat }.
Fixpoint iso_loop (dim diameter csize dist : nat) : nat * nat :=
  match dim with 0 => (csize, dist) | S d => iso_loop d diameter (csize * diameter) (dist + (diameter - 1)) end.
Definition setDefaultValuesIsotropic (dim diameter : nat) : aggparams :=
  let '(c, dist) := iso_loop dim diameter 1 (diameter - 1) in mkap dist c (c * 3 / 2).
Definition setDefaultValuesAnisotropic (dim diameter : nat) : aggparams :=
  let p := setDefaultValuesIsotropic dim diameter in mkap (ap_maxDistance p + (dim - 1)) (ap_min p) (ap_max p).
(** the defaults meet what the aggregation needs (C47, C59): minimal size at most the maximal one, which is positive *)
Theorem C61_parameters dim diameter : 1 <= diameter ->
  let p := setDefaultValuesIsotropic dim diameter in let q := setDefaultValuesAnisotropic dim diameter in
  ap_min p = diameter ^ dim /\ ap_max p = diameter ^ dim + diameter ^ dim / 2 /\ ap_maxDistance p = (diameter - 1) * (dim + 1) /\
  ap_min p <= ap_max p /\ 1 <= ap_max p /\ ap_min q = ap_min p /\ ap_max q = ap_max p /\ (1 <= dim -> ap_maxDistance q + 1 = ap_maxDistance p + dim).
Proof.
  intros H. assert (L : forall d c k, iso_loop d diameter c k = (c * diameter ^ d, k + (diameter - 1) * d)).
  { induction d as [|d IH]; intros c k; cbn [iso_loop Nat.pow].
    - f_equal; lia.
    - rewrite IH. f_equal; [rewrite <- Nat.mul_assoc; f_equal; lia | lia]. }
  cbv zeta. unfold setDefaultValuesAnisotropic, setDefaultValuesIsotropic. rewrite L. cbn [ap_min ap_max ap_maxDistance].
  rewrite Nat.mul_1_l. set (c := diameter ^ dim).
  assert (Hc : 1 <= c) by (unfold c; pose proof (Nat.pow_nonzero diameter dim); lia).
  assert (E : c * 3 / 2 = c + c / 2). { replace (c * 3) with (c + c * 2) by lia. rewrite Nat.div_add by lia. lia. }
  rewrite E. repeat split; lia.
Qed.

(** ** Examples *)
Definition exsym : smat Zring := [[(0, 1000%Z); (1, (-89)%Z)]; [(0, (-89)%Z); (1, 1000%Z); (2, (-141)%Z)]; [(1, (-141)%Z); (2, 1000%Z)]].
Definition exnorm (z : Zring) : Q := inject_Z z.
Definition exabs (z : Zring) : Q := inject_Z (Z.abs z).
Lemma exsym_ok : mat_wf (length exsym) (length exsym) exsym /\ diagonals exsym /\ sym_pat exsym /\ forall i, i < length exsym -> (0 < e exnorm exsym i i)%Q.
Proof.
  split; [split; [reflexivity|]|split; [|split]].
  - repeat constructor; cbn; lia.
  - intros i Hi. destruct i as [|[|[|i]]]; cbn in *; [tauto|tauto|tauto|lia].
  - intros i j Hi H. destruct i as [|[|[|i]]]; cbn in Hi; [| | |lia]; cbn in H;
      destruct H as [<-|[<-|H]]; try (destruct H as [<-|H]); try (destruct H); cbn; tauto.
  - intros i Hi. destruct i as [|[|[|i]]]; cbn in *; [reflexivity|reflexivity|reflexivity|lia].
Qed.
Definition table (f : nat -> nat -> bool) (n : nat) : list (list bool) := map (fun i => map (f i) (seq 0 n)) (seq 0 n).
Definition showm (n : nat) (r : outcome marks) := match r with Ok m => Some (table (m_dep m) n, table (m_inf m) n, map (m_iso m) (seq 0 n), map (m_exc m) (seq 0 n)) | _ => None end.
(** alpha = 1/3, beta = 1/100: vertex 0 is isolated, and vertex 1 sees its connection to 0 as strong *)
Example C61_example :
  showm 3 (buildDependency exabs (symmetricDependency exnorm true (1#3) (1#100)) true exsym nomarks) =
    Some ([[false; true; false]; [true; false; true]; [false; true; false]], [[false; true; false]; [true; false; true]; [false; true; false]], [true; false; false], [false; false; false]) /\
  showm 3 (buildDependency exabs (dependency exnorm (1#3) (1#100)) true exsym nomarks) =
    Some ([[false; true; false]; [true; false; true]; [false; true; false]], [[false; true; false]; [true; false; true]; [false; true; false]], [false; false; false], [false; false; false]).
Proof. split; vm_compute; reflexivity. Qed.
(** Deviation: with SymmetricDependency a vertex may be isolated and nevertheless depend on another one. *)
Theorem C61_isolated_strong_refuted : exists A : smat Zring, mat_wf (length A) (length A) A /\ diagonals A /\ sym_pat A /\ (forall i, i < length A -> (0 < e exnorm A i i)%Q) /\
  exists m, buildDependency exabs (symmetricDependency exnorm true (1#3) (1#100)) true A nomarks = Ok m /\ m_iso m 0 = true /\ m_dep m 0 1 = true.
Proof. exists exsym. split; [apply exsym_ok|]. split; [apply exsym_ok|]. split; [apply exsym_ok|]. split; [apply exsym_ok|]. eexists. split; [vm_compute; reflexivity|]. split; vm_compute; reflexivity. Qed.
(** Deviation: SymmetricMatrixDependency marks an edge of a symmetric matrix in one direction only (default alpha and beta). *)
Definition exsmd : smat Zring := [[(0, 100%Z); (1, (-1)%Z)]; [(0, (-1)%Z); (1, 100%Z); (2, (-10)%Z)]; [(1, (-10)%Z); (2, 100%Z)]].
Theorem C61_symmetric_matrix_refuted : (forall i j, den exsmd i j = den exsmd j i) /\
  exists m, buildDependency exabs (symmetricMatrixDependency exnorm true (1#3) (1#100000)) true exsmd nomarks = Ok m /\ m_dep m 0 1 = true /\ m_inf m 0 1 = true /\ m_dep m 1 0 = false /\ m_inf m 1 0 = false.
Proof.
  split.
  - intros i j. destruct i as [|[|[|i]]], j as [|[|[|j]]]; first [reflexivity | destruct i; reflexivity | destruct j; reflexivity | destruct i, j; reflexivity].
  - eexists. split; [vm_compute; reflexivity|]. repeat split; vm_compute; reflexivity.
Qed.
(** the same matrix with the row sum norm and UnSymmetricCriterion: everything isolated *)
Example C61_norms_example : showm 3 (buildDependency exabs (dependency exabs (1#3) (1#100000)) true exsmd nomarks) =
  Some ([[false; false; false]; [false; false; false]; [false; false; false]], [[false; false; false]; [false; false; false]; [false; false; false]], [true; true; true], [false; false; false]).
Proof. vm_compute. reflexivity. Qed.
