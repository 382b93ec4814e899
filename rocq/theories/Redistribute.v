(** * Redistribution of a matrix: dune/istl/matrixredistribute.hh: C68 *)
From Coq Require Import Arith List Lia Bool Sorted Permutation.
From Verif Require Import Ring Sums Outcome Sparse Parallel ParComm Repartition.
Import ListNotations.
Open Scope nat_scope.

(** ** Model *)
Section Redist.
  Context {R : ring}.
  (** The interface of RedistributeInformation: lists of owner indices of the old and the new index set (built by buildCommunication: C67_interface) *)
  Variables (old new : nat -> pis) (M : nat -> smat R).
  Definition sendRows (p q : nat) : list nat := send_ix ownerSet ownerSet (old p) (new q).
  Definition recvRows (q p : nat) : list nat := recv_ix ownerSet ownerSet (new q) (old p).
  (** MatrixRowSizeGatherScatter::gather, matrixredistribute.hh:487-490, for all indices of a list (BufferedCommunicator, dune-common) *)
  Fixpoint gatherSizes (A : smat R) (is : list nat) : outcome (list nat) :=
    match is with nil => Ok nil | i :: t => match nth_error A i with None => UB | Some row => obind (gatherSizes A t) (fun m => Ok (length row :: m)) end end.
  (** MatrixRowSizeGatherScatter::scatter, matrixredistribute.hh:491-495; a failing assert counts as undefined *)
  Fixpoint scatterSizes (is msg rs : list nat) : outcome (list nat) :=
    match is, msg with
    | nil, nil => Ok rs
    | i :: t, x :: m => if (x =? 0) || negb (i <? length rs) then UB else scatterSizes t m (upd rs i x)
    | _, _ => UB
    end.
  (** MatrixRowGatherScatter::gather, matrixredistribute.hh:608-640, for j = 0 ... getSize-1 (469-478); an item is (global index or max(), value); a null pointer is undefined.  Attribute 2 is
      OwnerOverlapCopyAttributeSet::overlap (owneroverlapcopy.hh:61).  MatrixSparsityPatternGatherScatter::gather, matrixredistribute.hh:526-553, sends the first components *)
  Fixpoint gatherRow (s : pis) (row : list (nat * R)) : outcome (list (option nat * R)) :=
    match row with
    | nil => Ok nil
    | (j, v) :: t => match pairOf s j with
                     | None => UB
                     | Some e => obind (gatherRow s t) (fun m => Ok ((if attr_eqb (e_a e) Overlap then None else Some (e_g e), v) :: m))
                     end
    end.
  Fixpoint gatherRows (s : pis) (A : smat R) (is : list nat) : outcome (list (option nat * R)) :=
    match is with nil => Ok nil | i :: t => match nth_error A i with None => UB | Some row => obind (gatherRow s row) (fun m => obind (gatherRows s A t) (fun r => Ok (m ++ r))) end end.
  (** the receiving side: rowsize[i] items for index i (CommPolicy::getSize, matrixredistribute.hh:376-385, 469-478, with its assert) *)
  Fixpoint ofold {S X : Type} (f : X -> S -> outcome S) (l : list X) (s : S) : outcome S := match l with nil => Ok s | x :: t => obind (f x s) (ofold f t) end.
  Fixpoint scatterRows {S X : Type} (f : nat -> X -> S -> outcome S) (rs is : list nat) (msg : list X) (s : S) : outcome S :=
    match is with
    | nil => match msg with nil => Ok s | _ => UB end
    | i :: t => match nth_error rs i with
                | None => UB
                | Some k => if (k =? 0) || negb (k <=? length msg) then UB else obind (ofold (f i) (firstn k msg) s) (scatterRows f rs t (skipn k msg))
                end
    end.
  (** MatrixSparsityPatternGatherScatter::scatter, matrixredistribute.hh:554-569: the column and, for a column that is not owned, the symmetric entry; an index that is not in the new index
      set is ignored (RangeError, 570-588) *)
  Definition insertAt (r c : nat) (sp : list (list nat)) : outcome (list (list nat)) := if r <? length sp then Ok (upd sp r (sins c (nth r sp nil))) else UB.
  Definition scatterCol (s : pis) (i : nat) (x : option nat) (sp : list (list nat)) : outcome (list (list nat)) :=
    match x with
    | None => Ok sp
    | Some g => match lookup s g with
                | None => Ok sp
                | Some e => obind (insertAt i (e_l e) sp) (fun sp1 => if ownerSet (e_a e) then Ok sp1 else insertAt (e_l e) i sp1)
                end
    end.
  (** storeSparsityPattern, matrixredistribute.hh:276-329: the diagonal of the rows that are not owned, then row wise building; values are uninitialised.  Without any entry nothing is built *)
  Definition addDiagonals (s : pis) (sp : list (list nat)) : outcome (list (list nat)) :=
    ofold (fun e sp => if ownerSet (e_a e) then Ok sp else insertAt (e_l e) (e_l e) sp) s sp.
  Definition umat := list (list (nat * option R)).
  Definition storePattern (s : pis) (sp : list (list nat)) : outcome umat :=
    obind (addDiagonals s sp) (fun sp => let nnz := list_sum (map (fun e => length (nth (e_l e) sp nil)) s) in
    if 0 <? nnz then Ok (map (map (fun c => (c, None))) sp) else Ok nil).
  (** MatrixRowGatherScatter::scatter, matrix[i][column] = value, matrixredistribute.hh:641-653; a missing entry is undefined *)
  Fixpoint setRow (row : list (nat * option R)) (c : nat) (v : R) : outcome (list (nat * option R)) :=
    match row with nil => UB | (k, x) :: t => if k =? c then Ok ((k, Some v) :: t) else obind (setRow t c v) (fun t' => Ok ((k, x) :: t')) end.
  Definition scatterEntry (s : pis) (i : nat) (x : option nat * R) (A : umat) : outcome umat :=
    match fst x with
    | None => Ok A
    | Some g => match lookup s g with
                | None => Ok A
                | Some e => match nth_error A i with None => UB | Some row => obind (setRow row (e_l e) (snd x)) (fun row' => Ok (upd A i row')) end
                end
    end.
  (** setOverlapRowsToDirichlet, matrixredistribute.hh:421-446 *)
  Definition dirichletRow (i : nat) (row : list (nat * option R)) : list (nat * option R) := map (fun x => (fst x, Some (if fst x =? i then r1 else r0))) row.
  Definition setDirichlet (s : pis) (A : umat) : outcome umat :=
    ofold (fun e A => if ownerSet (e_a e) then Ok A else match nth_error A (e_l e) with None => UB | Some row => Ok (upd A (e_l e) (dirichletRow (e_l e) row)) end) s A.

  (** redistributeMatrix, matrixredistribute.hh:820-828, with redistributeSparsityPattern, 663-754, and redistributeMatrixEntries, 756-800, of the overlapping category on process q.  The
      orders are those in which the messages of the three communications arrive *)
  Definition redistributeMatrix (q : nat) (o1 o2 o3 : list nat) : outcome umat :=
    obind (ofold (fun p rs => obind (gatherSizes (M p) (sendRows p q)) (fun m => scatterSizes (recvRows q p) m rs)) o1 (repeat 0 (length (new q)))) (fun rs =>
    obind (ofold (fun p sp => obind (gatherRows (old p) (M p) (sendRows p q)) (fun m => scatterRows (scatterCol (new q)) rs (recvRows q p) (map fst m) sp)) o2 (repeat nil (length (new q)))) (fun sp =>
    obind (storePattern (new q) sp) (fun A =>
    obind (ofold (fun p A => obind (gatherRows (old p) (M p) (sendRows p q)) (fun m => scatterRows (scatterEntry (new q)) rs (recvRows q p) m A)) o3 A) (fun A =>
    setDirichlet (new q) A)))).

  (** redistribute(from, to), matrixredistribute.hh:117-124, 135-139 with CopyGatherScatter: [order] as above; redistributeBackward(from, to), matrixredistribute.hh:125-134, 140-144, on process p: [order] are the processes it
      sent to *)
  Definition redistribute {X : Type} (from : nat -> list X) (q : nat) (order : list nat) (to : list X) : outcome (list X) :=
    ofold (fun p v => obind (gather (from p) (sendRows p q)) (fun m => scatter (fun _ x => x) v (recvRows q p) m)) order to.
  Definition redistributeBackward {X : Type} (to : nat -> list X) (p : nat) (order : list nat) (from : list X) : outcome (list X) :=
    ofold (fun q v => obind (gather (to q) (recvRows q p)) (fun m => scatter (fun _ x => x) v (sendRows p q) m)) order from.
End Redist.
Arguments umat : clear implicits.

(** ** Loops *)
Lemma ofold_app {S X} (f : X -> S -> outcome S) l1 l2 s : ofold f (l1 ++ l2) s = obind (ofold f l1 s) (ofold f l2).
Proof. revert s. induction l1 as [|x t IH]; intros s; cbn [app ofold obind]; [reflexivity|]. destruct (f x s) as [s'| |]; cbn [obind]; auto. Qed.
Lemma ofold_ext {S X} (f g : X -> S -> outcome S) l : (forall x, In x l -> forall s, f x s = g x s) -> forall s, ofold f l s = ofold g l s.
Proof.
  induction l as [|x t IH]; intros H s; cbn [ofold]; auto. rewrite (H x) by (left; auto). destruct (g x s) as [s'| |]; cbn [obind]; auto. apply IH. intros; apply H; right; auto.
Qed.
Lemma ofold_map {S X Y} (f : Y -> S -> outcome S) (h : X -> Y) l s : ofold f (map h l) s = ofold (fun x => f (h x)) l s.
Proof. revert s. induction l as [|x t IH]; intros s; cbn [map ofold]; auto. destruct (f (h x) s) as [s'| |]; cbn [obind]; auto. Qed.
Lemma ofold_flat {S X Y} (f : Y -> S -> outcome S) (h : X -> list Y) l s : ofold (fun x => ofold f (h x)) l s = ofold f (flat_map h l) s.
Proof. revert s. induction l as [|x t IH]; intros s; cbn [flat_map ofold]; auto. rewrite ofold_app. destruct (ofold f (h x) s) as [s'| |]; cbn [obind]; auto. Qed.
(** an invariant that may name the items already treated *)
Lemma ofold_inv {S X} (f : X -> S -> outcome S) (I : list X -> S -> Prop) l s : I nil s -> (forall d x s, In x l -> I d s -> incl d l -> exists s', f x s = Ok s' /\ I (d ++ [x]) s') -> exists s', ofold f l s = Ok s' /\ I l s'.
Proof.
  intros H0 HS. assert (G : forall r d s, d ++ r = l -> I d s -> exists s', ofold f r s = Ok s' /\ I l s').
  { induction r as [|x t IH]; intros d s' E HI; cbn [ofold]; [exists s'; split; auto; rewrite app_nil_r in E; subst; auto|].
    destruct (HS d x s') as (s2 & E2 & H2); auto; [subst l; apply in_or_app; right; left; auto|subst l; intros y Hy; apply in_or_app; left; exact Hy|]. rewrite E2. cbn [obind]. apply (IH (d ++ [x])); auto. rewrite <- app_assoc. exact E. }
  apply (G l nil s); auto.
Qed.

(** pairing the indices sent and received *)
Lemma combine_match r : forall s, map e_g r = map e_g s -> NoDup (map e_g r) -> forall x y, In (x, y) (combine r s) <-> In x r /\ In y s /\ e_g x = e_g y.
Proof.
  induction r as [|a r IH]; intros [|b s] E N x y; try discriminate; cbn [combine In]; [tauto|]. cbn [map] in E, N. injection E as E1 E2. inversion N as [|? ? N1 N2]; subst. rewrite (IH s E2 N2). split.
  - intros [H|(H1 & H2 & H3)]; [injection H as <- <-; auto|auto].
  - intros ([H1|H1] & [H2|H2] & H3); subst; auto.
    + exfalso. apply N1. rewrite H3, E2. apply in_map. auto.
    + exfalso. apply N1. rewrite E1, <- H3. apply in_map. auto.
Qed.
Lemma combine_map {A B C D} (f : A -> C) (g : B -> D) l : forall m, combine (map f l) (map g m) = map (fun p => (f (fst p), g (snd p))) (combine l m).
Proof. induction l as [|a t IH]; intros [|b m]; cbn [map combine]; auto. now rewrite IH. Qed.
Lemma scatterSizes_fold (len : nat -> nat) is : forall ls rs, length is = length ls ->
  scatterSizes is (map len ls) rs = ofold (fun il rs => if (len (snd il) =? 0) || negb (fst il <? length rs) then UB else Ok (upd rs (fst il) (len (snd il)))) (combine is ls) rs.
Proof.
  induction is as [|i t IH]; intros [|l ls] rs E; try discriminate; cbn [scatterSizes map combine ofold]; auto. cbn [fst snd]. destruct (_ || _); cbn [obind]; auto.
Qed.
Lemma scatterRows_fold {S X} (f : nat -> X -> S -> outcome S) (g : nat -> list X) rs is : forall ls s, length is = length ls ->
  (forall i l, In (i, l) (combine is ls) -> nth_error rs i = Some (length (g l)) /\ g l <> nil) ->
  scatterRows f rs is (flat_map g ls) s = ofold (fun ix => f (fst ix) (snd ix)) (flat_map (fun il => map (pair (fst il)) (g (snd il))) (combine is ls)) s.
Proof.
  induction is as [|i t IH]; intros [|l ls] s E H; try discriminate; cbn [scatterRows flat_map combine ofold]; auto. destruct (H i l) as [H1 H2]; [left; auto|]. rewrite H1, ofold_app. cbn [fst snd]. rewrite ofold_map.
  destruct (Nat.eqb_spec (length (g l)) 0) as [Z|Z]; [apply length_zero_iff_nil in Z; congruence|]. rewrite app_length. destruct (Nat.leb_spec (length (g l)) (length (g l) + length (flat_map g ls))) as [L|L]; [|lia]. cbn [orb negb].
  rewrite firstn_app, Nat.sub_diag, firstn_O, app_nil_r, firstn_all, skipn_app, Nat.sub_diag, skipn_all, skipn_O. cbn [app].
  change (fun x : X => f (fst (i, x)) (snd (i, x))) with (f i). destruct (ofold (f i) (g l) s) as [s'| |]; cbn [obind]; auto. apply IH; auto. intros i' l' HI. apply H. right. auto.
Qed.

Lemma scatterRows_map {S X Y} (f : nat -> Y -> S -> outcome S) (h : X -> Y) rs is : forall msg s, scatterRows f rs is (map h msg) s = scatterRows (fun i x => f i (h x)) rs is msg s.
Proof.
  induction is as [|i t IH]; intros msg s; cbn [scatterRows]; [destruct msg; reflexivity|]. destruct (nth_error rs i) as [k|]; auto. rewrite map_length. destruct (_ || _); auto. rewrite firstn_map, skipn_map, ofold_map.
  destruct (ofold (fun x => f i (h x)) (firstn k msg) s) as [s'| |]; cbn [obind]; auto.
Qed.
Lemma obind_Ok {A} (x : outcome A) : obind x Ok = x.
Proof. destruct x; reflexivity. Qed.
(** *** inserting into the sets *)
Lemma inserts L : forall sp, Forall (fun rc => fst rc < length sp) L -> exists sp', ofold (fun rc => insertAt (fst rc) (snd rc)) L sp = Ok sp' /\ length sp' = length sp /\
  (Forall (StronglySorted lt) sp -> Forall (StronglySorted lt) sp') /\ forall r c, In c (nth r sp' nil) <-> In c (nth r sp nil) \/ In (r, c) L.
Proof.
  induction L as [|[r0 c0] t IH]; intros sp HF; cbn [ofold]; [exists sp; split; auto; split; auto; split; auto; cbn; tauto|]. apply Forall_cons_iff in HF. destruct HF as [F1 F2]. cbn [fst snd] in *. unfold insertAt at 1.
  destruct (Nat.ltb_spec r0 (length sp)) as [_|?]; [|lia]. cbn [obind]. destruct (IH (upd sp r0 (sins c0 (nth r0 sp nil)))) as (sp' & E & L' & S' & H); [rewrite upd_length; exact F2|]. exists sp'. rewrite upd_length in L'. split; [exact E|]. split; [exact L'|]. split.
  - intros HS. apply S'. rewrite Forall_forall in *. intros x HX. apply In_nth with (d := nil) in HX. destruct HX as (k & Hk & <-). rewrite upd_length in Hk. destruct (Nat.eq_dec r0 k) as [EK|EK].
    + subst k. rewrite nth_upd_eq by auto. apply sins_sorted, HS, nth_In, F1.
    + rewrite nth_upd_ne by auto. apply HS, nth_In, Hk.
  - intros r c. rewrite H. destruct (Nat.eq_dec r0 r) as [ER|ER].
    + subst r0. rewrite nth_upd_eq by auto. rewrite sins_in. cbn [In]. split; [intros [[HX|HX]|HX]; auto; subst; auto|intros [HX|[HX|HX]]; auto; injection HX as <-; auto].
    + rewrite nth_upd_ne by auto. cbn [In]. split; [intros [HX|HX]; auto|intros [HX|[HX|HX]]; auto; congruence].
Qed.
Lemma setRow_spec {R : ring} (r : list (nat * option R)) c v : NoDup (map fst r) -> In c (map fst r) -> exists r', setRow r c v = Ok r' /\ map fst r' = map fst r /\ forall k x, In (k, x) r' <-> (k = c /\ x = Some v) \/ (k <> c /\ In (k, x) r).
Proof.
  induction r as [|[k0 x0] t IH]; intros N HI; [destruct HI|]. cbn [setRow map fst] in *. inversion N as [|? ? N1 N2]; subst. destruct (Nat.eqb_spec k0 c) as [E|E].
  - subst k0. eexists. split; [reflexivity|]. split; [reflexivity|]. intros k x. cbn [In]. split.
    + intros [H|H]; [injection H as <- <-; auto|]. right. split; auto. intros ->. apply N1. apply (in_map fst) in H. exact H.
    + intros [[-> ->]|[H1 [H2|H2]]]; auto. injection H2 as <- <-. congruence.
  - destruct HI as [HI|HI]; [congruence|]. destruct (IH N2 HI) as (r' & E1 & E2 & H). rewrite E1. cbn [obind]. eexists. split; [reflexivity|]. split; [cbn [map fst]; now rewrite E2|]. intros k x. cbn [In]. rewrite H. split.
    + intros [HX|[HX|HX]]; auto; [|tauto]. injection HX as <- <-. auto.
    + intros [HX|[HX [HY|HY]]]; auto.
Qed.

(** ** Specification *)
Section Spec.
  Context {R : ring}.
  Variables (P : nat) (sz : nat -> nat) (old new : nat -> pis) (M : nat -> smat R).
  (** the distributed matrix stores the value v for row g and column h: in the row of the owner of g; a is the attribute of h there *)
  Definition stored_as (a : attr) (g h : nat) (v : R) : Prop := exists p l j, p < P /\ holds old p g l Owner /\ holds old p h j a /\ In (j, v) (nth l (M p) nil).
  (** ... and h is not in the overlap there *)
  Definition visible (g h : nat) (v : R) : Prop := exists a, a <> Overlap /\ stored_as a g h v.
  (** legal input: index sets that name all rows, square local matrices whose owner rows have a diagonal entry, one owner per index, in the new index sets no owner of an
      index that nobody owned *)
  Record redist_ok : Prop := {
    ro_wf : dist_wf P sz old;
    ro_all : forall p l, p < P -> l < sz p -> exists g a, holds old p g l a;
    ro_mat : forall p, p < P -> mat_wf (sz p) (sz p) (M p);
    ro_unique : unique_owner P old;
    ro_diag : forall p g l, p < P -> holds old p g l Owner -> exists v, In (l, v) (nth l (M p) nil);
    ro_new : forall q, q < P -> pis_wf (length (new q)) (new q);
    ro_owner : forall q g i, q < P -> holds new q g i Owner -> exists p l, p < P /\ holds old p g l Owner
  }.
  (** a possible order of the arrival of messages: it contains all processes that send something to q *)
  Definition complete (q : nat) (o : list nat) : Prop := Forall (fun p => p < P) o /\ forall p, p < P -> sendRows old new p q <> nil -> In p o.
End Spec.

Section Proofs.
  Context {R : ring}.
  Variables (P : nat) (sz : nat -> nat) (old new : nat -> pis) (M : nat -> smat R).
  Hypothesis OK : redist_ok P sz old new M.
  Notation row p l := (nth l (M p) nil).
  Definition oc (p j : nat) : option nat := match pairOf (old p) j with Some e => if attr_eqb (e_a e) Overlap then None else Some (e_g e) | None => None end.
  Definition conv (p l : nat) : list (option nat * R) := map (fun jv => (oc p (fst jv), snd jv)) (row p l).
  Definition moves (q i p l : nat) : Prop := p < P /\ exists g, holds old p g l Owner /\ holds new q g i Owner.
  Definition pairs (p q : nat) : list (nat * nat) := combine (recvRows old new q p) (sendRows old new p q).
  Lemma attr_eqb_eq a b : attr_eqb a b = true <-> a = b.
  Proof. destruct a, b; cbn; split; congruence. Qed.
  Lemma ownerSet_eq a : ownerSet a = true <-> a = Owner.
  Proof. apply attr_eqb_eq. Qed.
  Lemma old_lt p g l a : p < P -> holds old p g l a -> l < sz p.
  Proof. intros Hp H. destruct (ro_wf _ _ _ _ _ OK p Hp) as (_ & _ & F). rewrite Forall_forall in F. apply (F _ H). Qed.
  Lemma new_lt q g i a : q < P -> holds new q g i a -> i < length (new q).
  Proof. intros Hq H. destruct (ro_new _ _ _ _ _ OK q Hq) as (_ & _ & F). rewrite Forall_forall in F. apply (F _ H). Qed.
  Lemma pairs_len p q : p < P -> q < P -> length (recvRows old new q p) = length (sendRows old new p q).
  Proof.
    intros Hp Hq. unfold recvRows, sendRows. rewrite recv_ix_e, send_ix_e, !map_length. rewrite <- (map_length e_g (recv_e _ _ _ _)), <- (map_length e_g (send_e _ _ _ _)).
    rewrite (send_recv_match ownerSet ownerSet (sz p) (length (new q)) (old p) (new q)); auto; [apply (ro_wf _ _ _ _ _ OK p Hp)|apply (ro_new _ _ _ _ _ OK q Hq)].
  Qed.
  Lemma pairs_spec p q i l : p < P -> q < P -> In (i, l) (pairs p q) <-> moves q i p l.
  Proof.
    intros Hp Hq. pose proof (ro_wf _ _ _ _ _ OK p Hp) as WO. pose proof (ro_new _ _ _ _ _ OK q Hq) as WN. pose proof WO as [SO _]. pose proof WN as [SN _].
    unfold pairs, recvRows, sendRows. rewrite recv_ix_e, send_ix_e, combine_map, in_map_iff.
    assert (CM : forall x y, In (x, y) (combine (recv_e ownerSet ownerSet (new q) (old p)) (send_e ownerSet ownerSet (old p) (new q))) <-> In x (recv_e ownerSet ownerSet (new q) (old p)) /\ In y (send_e ownerSet ownerSet (old p) (new q)) /\ e_g x = e_g y).
    { apply combine_match; [symmetry; apply (send_recv_match _ _ (sz p) (length (new q))); auto|]. apply SS_NoDup, SS_filter, SN. }
    split.
    - intros ([x y] & E & H). cbn [fst snd] in E. injection E as <- <-. apply CM in H. destruct H as (H1 & H2 & H3). apply filter_In in H1, H2. destruct H1 as [I1 F1], H2 as [I2 F2].
      rewrite <- H3 in F2. rewrite (proj2 (lookup_spec (new q) (e_g x) x SN) (conj I1 eq_refl)) in F2. apply andb_true_iff in F2. destruct F2 as [F2 F3]. apply ownerSet_eq in F2, F3. split; auto. exists (e_g x).
      unfold holds. destruct x as [g i a], y as [g' l a']. cbn [e_g e_l e_a] in *. subst. auto.
    - intros (_ & g & H1 & H2). exists (mke g i Owner, mke g l Owner). split; [reflexivity|]. apply CM. unfold recv_e, send_e. rewrite !filter_In. cbn [e_g e_a].
      rewrite (proj2 (lookup_spec (old p) g (mke g l Owner) SO) (conj H1 eq_refl)), (proj2 (lookup_spec (new q) g (mke g i Owner) SN) (conj H2 eq_refl)). cbn. auto.
  Qed.
  Lemma moves_fun q i p l p' l' : q < P -> moves q i p l -> moves q i p' l' -> p = p' /\ l = l'.
  Proof.
    intros Hq (Hp & g & H1 & H2) (Hp' & g' & H3 & H4). assert (mke g i Owner = mke g' i Owner) as E.
    { destruct (ro_new _ _ _ _ _ OK q Hq) as (_ & N & _). unfold holds in *. clear - N H2 H4. induction (new q) as [|a t IH]; [destruct H2|]. cbn [map] in N. inversion N as [|? ? N1 N2]; subst.
      destruct H2 as [H2|H2], H4 as [H4|H4]; [congruence| | |apply IH; auto]; exfalso; apply N1; [apply (in_map e_l) in H4; rewrite H2|apply (in_map e_l) in H2; rewrite H4]; auto. }
    injection E as <-. assert (p = p') by (apply (ro_unique _ _ _ _ _ OK g p p' l l'); auto). subst p'. split; auto. apply (holds_inj P sz old (ro_wf _ _ _ _ _ OK) p g l Owner l' Owner Hp H1 H3).
  Qed.
  Lemma row_at p l : p < P -> l < sz p -> nth_error (M p) l = Some (row p l) /\ row_wf (sz p) (row p l).
  Proof. intros Hp Hl. destruct (ro_mat _ _ _ _ _ OK p Hp) as [LM FM]. split; [apply nth_error_nth'; lia|]. rewrite Forall_forall in FM. apply FM, nth_In. lia. Qed.
  Lemma moves_row q i p l : moves q i p l -> l < sz p /\ row p l <> nil.
  Proof. intros (Hp & g & H1 & H2). split; [eapply old_lt; eauto|]. destruct (ro_diag _ _ _ _ _ OK p g l Hp H1) as [v HV]. intros E. rewrite E in HV. destruct HV. Qed.
  Lemma gatherRow_ok p (r : list (nat * R)) : p < P -> Forall (fun j => j < sz p) (map fst r) -> gatherRow (R:=R) (old p) r = Ok (map (fun jv => (oc p (fst jv), snd jv)) r).
  Proof.
    intros Hp. induction r as [|[j v] t IH]; intros F; cbn [gatherRow map]; auto. cbn [map] in F. apply Forall_cons_iff in F. destruct F as [F1 F2]. cbn [fst snd] in *. destruct (ro_all _ _ _ _ _ OK p j Hp F1) as (g & a & H).
    assert (E : pairOf (old p) j = Some (mke g j a)) by (apply (pairOf_spec (sz p)); [apply (ro_wf _ _ _ _ _ OK p Hp)|auto]). rewrite E, (IH F2). cbn [obind]. unfold oc at 2. rewrite E. reflexivity.
  Qed.
  Lemma gatherRows_ok p is : p < P -> Forall (fun l => l < sz p) is -> gatherRows (old p) (M p) is = Ok (flat_map (conv p) is).
  Proof.
    intros Hp. induction 1 as [|l t Hl HF IH]; cbn [gatherRows flat_map]; auto. destruct (row_at p l Hp Hl) as [E [_ W]]. rewrite E, (gatherRow_ok p _ Hp W). cbn [obind]. rewrite IH. reflexivity.
  Qed.
  Lemma gatherSizes_ok p is : p < P -> Forall (fun l => l < sz p) is -> gatherSizes (M p) is = Ok (map (fun l => length (row p l)) is).
  Proof. intros Hp. induction 1 as [|l t Hl HF IH]; cbn [gatherSizes map]; auto. destruct (row_at p l Hp Hl) as [E _]. rewrite E, IH. reflexivity. Qed.
  Lemma send_lt p q : p < P -> q < P -> Forall (fun l => l < sz p) (sendRows old new p q).
  Proof.
    intros Hp Hq. unfold sendRows. rewrite send_ix_e. rewrite Forall_map. destruct (ro_wf _ _ _ _ _ OK p Hp) as (_ & _ & F). rewrite Forall_forall in *. intros e H. apply filter_In in H. apply F, H.
  Qed.

  Variable q : nat.
  Hypothesis Hq : q < P.
  (** *** first communication: the row sizes *)
  Definition sizesOk (rs : list nat) : Prop := length rs = length (new q) /\ forall i p l, moves q i p l -> nth_error rs i = Some (length (row p l)).
  Lemma round1 o : complete P old new q o -> exists rs, ofold (fun p rs => obind (gatherSizes (M p) (sendRows old new p q)) (fun m => scatterSizes (recvRows old new q p) m rs)) o (repeat 0 (length (new q))) = Ok rs /\ sizesOk rs.
  Proof.
    intros [HB HC]. rewrite Forall_forall in HB.
    rewrite (ofold_ext _ (fun p rs => ofold (fun x rs => if (snd x =? 0) || negb (fst x <? length rs) then UB else Ok (upd rs (fst x) (snd x))) (map (fun il => (fst il, length (row p (snd il)))) (pairs p q)) rs)).
    2:{ intros p Hp rs. rewrite gatherSizes_ok by (auto using send_lt). cbn [obind]. rewrite scatterSizes_fold by (apply pairs_len; auto). rewrite ofold_map. reflexivity. }
    rewrite ofold_flat. set (items := flat_map _ o).
    assert (IT : forall x, In x items -> exists i p l, x = (i, length (row p l)) /\ moves q i p l).
    { intros x H. apply in_flat_map in H. destruct H as (p & Hp & H). apply in_map_iff in H. destruct H as ([i l] & <- & H). apply pairs_spec in H; auto. exists i, p, l. auto. }
    destruct (ofold_inv (fun x rs => if (snd x =? 0) || negb (fst x <? length rs) then UB else Ok (upd rs (fst x) (snd x)))
      (fun d rs => length rs = length (new q) /\ forall i p l, moves q i p l -> In (i, length (row p l)) d -> nth_error rs i = Some (length (row p l))) items (repeat 0 (length (new q)))) as (rs & E & L & H).
    - split; [apply repeat_length|]. intros i p l _ [].
    - intros d x rs HI [L HD] HL. destruct (IT x HI) as (i & p & l & -> & HM). cbn [fst snd]. pose proof (moves_row q i p l HM) as [Hl NE]. destruct (Nat.eqb_spec (length (row p l)) 0) as [Z|Z]; [apply length_zero_iff_nil in Z; congruence|].
      assert (Hi : i < length rs). { rewrite L. destruct HM as (_ & g & _ & HM). eapply new_lt; eauto. } destruct (Nat.ltb_spec i (length rs)) as [_|?]; [|lia]. cbn [orb negb]. eexists. split; [reflexivity|]. split; [now rewrite upd_length|].
      intros i' p' l' HM' HI'. destruct (Nat.eq_dec i' i) as [EI|EI].
      + subst i'. destruct (moves_fun q i p l p' l' Hq HM HM') as [<- <-]. rewrite (nth_error_nth' _ 0) by (rewrite upd_length; auto). now rewrite nth_upd_eq.
      + apply in_app_or in HI'. destruct HI' as [HI'|[HI'|[]]]; [|congruence]. rewrite <- (HD i' p' l' HM' HI'). assert (i' < length rs). { rewrite L. destruct HM' as (_ & g & _ & HM'). eapply new_lt; eauto. }
        rewrite !(nth_error_nth' _ 0) by (rewrite ?upd_length; auto). rewrite nth_upd_ne; auto.
    - exists rs. split; auto. split; auto. intros i p l HM. apply H; auto. unfold items. apply in_flat_map. exists p. destruct HM as [Hp HM]. assert (In (i, l) (pairs p q)) as HI by (apply pairs_spec; auto; split; auto). split.
      + apply HC; auto. intros E'. unfold pairs in HI. rewrite E' in HI. destruct (recvRows old new q p); destruct HI.
      + apply in_map_iff. exists (i, l). auto.
  Qed.

  (** *** second and third communication: the items that arrive *)
  Definition items (o : list nat) : list (nat * (option nat * R)) := flat_map (fun p => flat_map (fun il => map (pair (fst il)) (conv p (snd il))) (pairs p q)) o.
  Lemma round {S : Type} (f : nat -> option nat * R -> S -> outcome S) rs o s : sizesOk rs -> Forall (fun p => p < P) o ->
    ofold (fun p s => obind (gatherRows (old p) (M p) (sendRows old new p q)) (fun m => scatterRows f rs (recvRows old new q p) m s)) o s = ofold (fun ix => f (fst ix) (snd ix)) (items o) s.
  Proof.
    intros [LR HR] HB. rewrite Forall_forall in HB. unfold items. rewrite <- ofold_flat. apply ofold_ext. intros p Hp s'. rewrite gatherRows_ok by (auto using send_lt). cbn [obind]. apply scatterRows_fold; [apply pairs_len; auto|].
    intros i l HI. apply pairs_spec in HI; auto. unfold conv. rewrite map_length. split; [apply HR; auto|]. destruct (moves_row q i p l HI) as [_ NE]. destruct (row p l); [congruence|discriminate].
  Qed.
  Lemma oc_spec p j h : p < P -> j < sz p -> oc p j = Some h <-> exists a, a <> Overlap /\ holds old p h j a.
  Proof.
    intros Hp Hj. pose proof (ro_wf _ _ _ _ _ OK p Hp) as W. destruct (ro_all _ _ _ _ _ OK p j Hp Hj) as (g & a & H). unfold oc. rewrite (proj2 (pairOf_spec (sz p) (old p) j (mke g j a) W) (conj H eq_refl)). cbn [e_a e_g]. split.
    - destruct (attr_eqb a Overlap) eqn:E; [discriminate|]. intros HX. injection HX as <-. exists a. split; auto. intros ->. discriminate.
    - intros (a' & NA & H'). assert (E : Some (mke g j a) = Some (mke h j a')). { rewrite <- (proj2 (pairOf_spec (sz p) (old p) j (mke g j a) W) (conj H eq_refl)). apply (proj2 (pairOf_spec (sz p) (old p) j (mke h j a') W) (conj H' eq_refl)). }
      injection E as <- <-. destruct (attr_eqb a Overlap) eqn:E; auto. apply attr_eqb_eq in E. congruence.
  Qed.
  Lemma items_spec o i x v : complete P old new q o -> In (i, (x, v)) (items o) <-> exists p l j, moves q i p l /\ In (j, v) (row p l) /\ x = oc p j.
  Proof.
    intros [HB HC]. rewrite Forall_forall in HB. unfold items. rewrite in_flat_map. split.
    - intros (p & Hp & H). apply in_flat_map in H. destruct H as ([i' l] & HI & H). apply pairs_spec in HI; auto. cbn [fst snd] in H. unfold conv in H. rewrite map_map in H. apply in_map_iff in H. destruct H as ([j v'] & E & H). cbn [fst snd] in E. injection E as <- <- <-. exists p, l, j. auto.
    - intros (p & l & j & HM & HI & ->). pose proof HM as [Hp _]. apply pairs_spec in HM; auto. exists p. split.
      + apply HC; auto. intros E'. unfold pairs in HM. rewrite E' in HM. destruct (recvRows old new q p); destruct HM.
      + apply in_flat_map. exists (i, l). split; auto. cbn [fst snd]. unfold conv. rewrite map_map. apply in_map_iff. exists (j, v). auto.
  Qed.
  Lemma items_visible o g i h v : complete P old new q o -> holds new q g i Owner -> In (i, (Some h, v)) (items o) <-> visible P old M g h v.
  Proof.
    intros HO HG. rewrite items_spec by auto. split.
    - intros (p & l & j & HM & HI & E). pose proof HM as (Hp & g' & H1 & H2). assert (g' = g). { pose proof (ro_new _ _ _ _ _ OK q Hq) as W. pose proof (proj2 (pairOf_spec _ (new q) i (mke g i Owner) W) (conj HG eq_refl)) as E1.
        pose proof (proj2 (pairOf_spec _ (new q) i (mke g' i Owner) W) (conj H2 eq_refl)) as E2. congruence. } subst g'.
      destruct (moves_row q i p l HM) as [Hl _]. destruct (row_at p l Hp Hl) as [_ [_ W]]. rewrite Forall_forall in W. symmetry in E. apply oc_spec in E; auto; [|apply W; apply (in_map fst) in HI; exact HI].
      destruct E as (a & NA & HA). exists a. split; auto. exists p, l, j. auto.
    - intros (a & NA & p & l & j & Hp & H1 & H2 & H3). exists p, l, j. split; [split; eauto|]. split; auto. symmetry. apply oc_spec; eauto. eapply old_lt; eauto.
  Qed.
  Lemma items_owner o i x v : complete P old new q o -> In (i, (x, v)) (items o) -> exists g, holds new q g i Owner.
  Proof. intros HO H. apply items_spec in H; auto. destruct H as (p & l & j & (_ & g & _ & HM) & _). eauto. Qed.
  Lemma new_entry i g a g' a' : holds new q g i a -> holds new q g' i a' -> g = g' /\ a = a'.
  Proof.
    intros H1 H2. pose proof (ro_new _ _ _ _ _ OK q Hq) as W. pose proof (proj2 (pairOf_spec _ (new q) i (mke g i a) W) (conj H1 eq_refl)) as E1. pose proof (proj2 (pairOf_spec _ (new q) i (mke g' i a') W) (conj H2 eq_refl)) as E2.
    rewrite E1 in E2. injection E2 as -> ->. auto.
  Qed.

  (** *** the pattern *)
  Definition sites (ix : nat * (option nat * R)) : list (nat * nat) :=
    match fst (snd ix) with None => nil | Some h => match lookup (new q) h with None => nil | Some e => (fst ix, e_l e) :: if ownerSet (e_a e) then nil else [(e_l e, fst ix)] end end.
  Lemma scatterCol_sites ix sp : scatterCol (new q) (fst ix) (fst (snd ix)) sp = ofold (fun rc => insertAt (fst rc) (snd rc)) (sites ix) sp.
  Proof.
    destruct ix as [i [[h|] v]]; unfold sites; cbn [fst snd scatterCol]; auto. destruct (lookup (new q) h) as [e|]; auto. cbn [ofold fst snd]. destruct (insertAt i (e_l e) sp) as [sp1| |]; cbn [obind]; auto. destruct (ownerSet (e_a e)); cbn [ofold]; auto. cbn [fst snd]. now rewrite obind_Ok.
  Qed.
  Definition diags : list (nat * nat) := flat_map (fun e => if ownerSet (e_a e) then nil else [(e_l e, e_l e)]) (new q).
  Lemma addDiagonals_sites sp : addDiagonals (new q) sp = ofold (fun rc => insertAt (fst rc) (snd rc)) diags sp.
  Proof. unfold addDiagonals, diags. rewrite <- ofold_flat. apply ofold_ext. intros e _ s. destruct (ownerSet (e_a e)); cbn [ofold]; auto. cbn [fst snd]. now rewrite obind_Ok. Qed.
  Lemma lookup_new h e : lookup (new q) h = Some e <-> In e (new q) /\ e_g e = h.
  Proof. apply lookup_spec, (ro_new _ _ _ _ _ OK q Hq). Qed.
  Lemma sites_spec o r c : complete P old new q o -> In (r, c) (flat_map sites (items o)) <->
    exists g h a v, visible P old M g h v /\ ((holds new q g r Owner /\ holds new q h c a) \/ (holds new q g c Owner /\ holds new q h r a /\ a <> Owner)).
  Proof.
    intros HO. rewrite in_flat_map. split.
    - intros ([i [x v]] & HI & H). unfold sites in H. cbn [fst snd] in H. destruct x as [h|]; [|destruct H]. destruct (lookup (new q) h) as [e|] eqn:EL; [|destruct H]. apply lookup_new in EL. destruct EL as [HE <-].
      destruct (items_owner o i _ v HO HI) as [g HG]. apply (items_visible o g i) in HI; auto. exists g, (e_g e), (e_a e), v. split; auto. destruct e as [h l a]. cbn [e_g e_l e_a] in *. destruct H as [H|H].
      + injection H as <- <-. left. auto.
      + destruct (ownerSet a) eqn:EA; [destruct H|]. destruct H as [H|[]]. injection H as <- <-. right. split; auto. split; auto. intros ->. discriminate.
    - intros (g & h & a & v & HV & [[HG HH]|[HG [HH NA]]]).
      + exists (r, (Some h, v)). split; [apply (items_visible o g); auto|]. unfold sites. cbn [fst snd]. rewrite (proj2 (lookup_new h (mke h c a)) (conj HH eq_refl)). left. reflexivity.
      + exists (c, (Some h, v)). split; [apply (items_visible o g); auto|]. unfold sites. cbn [fst snd]. rewrite (proj2 (lookup_new h (mke h r a)) (conj HH eq_refl)). cbn [e_a e_l]. replace (ownerSet a) with false by (destruct a; cbn; congruence). right. left. reflexivity.
  Qed.
  Lemma diags_spec r c : In (r, c) diags <-> r = c /\ exists g a, holds new q g r a /\ a <> Owner.
  Proof.
    unfold diags. rewrite in_flat_map. split.
    - intros ([g l a] & HI & H). cbn [e_a e_l] in H. destruct (ownerSet a) eqn:EA; [destruct H|]. destruct H as [H|[]]. injection H as <- <-. split; auto. exists g, a. split; auto. intros ->. discriminate.
    - intros (<- & g & a & HI & NA). exists (mke g r a). split; auto. cbn [e_a e_l]. replace (ownerSet a) with false by (destruct a; cbn; congruence). left. auto.
  Qed.
  Definition inPattern (r c : nat) : Prop := (exists g h a v, visible P old M g h v /\ ((holds new q g r Owner /\ holds new q h c a) \/ (holds new q g c Owner /\ holds new q h r a /\ a <> Owner))) \/ (r = c /\ exists g a, holds new q g r a /\ a <> Owner).
  Lemma inPattern_lt r c : inPattern r c -> r < length (new q) /\ c < length (new q).
  Proof. intros [(g & h & a & v & _ & [[H1 H2]|[H1 [H2 _]]])|(<- & g & a & H & _)]; split; eapply new_lt; eauto. Qed.
  Definition patternOk (sp : list (list nat)) : Prop := length sp = length (new q) /\ Forall (StronglySorted lt) sp /\ forall r c, In c (nth r sp nil) <-> inPattern r c.
  Lemma repeat_sorted k : Forall (StronglySorted lt) (repeat (@nil nat) k).
  Proof. apply Forall_forall. intros x H. apply repeat_spec in H. subst. constructor. Qed.
  Lemma nth_rep k r : nth r (repeat (@nil nat) k) nil = nil.
  Proof. revert r. induction k as [|k IH]; intros [|r]; cbn; auto. Qed.
  Lemma round2 rs o : sizesOk rs -> complete P old new q o -> exists sp sp',
    ofold (fun p sp => obind (gatherRows (old p) (M p) (sendRows old new p q)) (fun m => scatterRows (scatterCol (new q)) rs (recvRows old new q p) (map fst m) sp)) o (repeat nil (length (new q))) = Ok sp /\
    addDiagonals (new q) sp = Ok sp' /\ patternOk sp'.
  Proof.
    intros HR HO. pose proof HO as [HB _].
    rewrite (ofold_ext _ (fun p sp => obind (gatherRows (old p) (M p) (sendRows old new p q)) (fun m => scatterRows (fun i x => scatterCol (new q) i (fst x)) rs (recvRows old new q p) m sp))).
    2:{ intros p _ s. destruct (gatherRows (old p) (M p) (sendRows old new p q)); cbn [obind]; auto. apply scatterRows_map. }
    rewrite (round (fun i x => scatterCol (new q) i (fst x)) rs o _ HR HB). rewrite (ofold_ext _ (fun ix => ofold (fun rc => insertAt (fst rc) (snd rc)) (sites ix))) by (intros; apply scatterCol_sites). rewrite ofold_flat.
    destruct (inserts (flat_map sites (items o)) (repeat nil (length (new q)))) as (sp & E1 & L1 & S1 & H1).
    { rewrite repeat_length. apply Forall_forall. intros [r c] H. apply sites_spec in H; auto. cbn [fst]. apply (inPattern_lt r c). left. exact H. }
    rewrite repeat_length in L1. specialize (S1 (repeat_sorted _)).
    destruct (inserts diags sp) as (sp' & E2 & L2 & S2 & H2).
    { rewrite L1. apply Forall_forall. intros [r c] H. apply diags_spec in H. cbn [fst]. apply (inPattern_lt r c). right. exact H. }
    exists sp, sp'. split; [exact E1|]. split; [rewrite addDiagonals_sites; exact E2|]. split; [lia|]. split; [auto|]. intros r c. rewrite H2, H1, nth_rep, sites_spec, diags_spec by auto. unfold inPattern. cbn [In]. tauto.
  Qed.

  (** *** the values *)
  Definition wr (r c : nat) (v : R) : Prop := exists g h a, holds new q g r Owner /\ holds new q h c a /\ visible P old M g h v.
  Lemma wr_fun r c v v' : wr r c v -> wr r c v' -> v = v'.
  Proof.
    intros (g & h & a & H1 & H2 & a1 & N1 & p & l & j & Hp & A1 & A2 & A3) (g' & h' & a' & H1' & H2' & a1' & N1' & p' & l' & j' & Hp' & A1' & A2' & A3').
    destruct (new_entry r g Owner g' Owner H1 H1') as [<- _]. destruct (new_entry c h a h' a' H2 H2') as [<- _]. assert (p = p') by (apply (ro_unique _ _ _ _ _ OK g p p' l l'); auto). subst p'.
    destruct (holds_inj P sz old (ro_wf _ _ _ _ _ OK) p g l Owner l' Owner Hp A1 A1') as [<- _]. destruct (holds_inj P sz old (ro_wf _ _ _ _ _ OK) p h j a1 j' a1' Hp A2 A2') as [<- _].
    destruct (row_at p l Hp (old_lt p g l Owner Hp A1)) as [_ [SR _]]. apply SS_NoDup in SR. clear - SR A3 A3'. induction (row p l) as [|[k x] t IH]; [destruct A3|]. cbn [map fst] in SR. inversion SR as [|? ? N1 N2]; subst.
    destruct A3 as [A3|A3], A3' as [A4|A4]; [congruence| | |auto]; exfalso; apply N1; [injection A3 as -> ->; apply (in_map fst) in A4|injection A4 as -> ->; apply (in_map fst) in A3]; auto.
  Qed.
  Lemma wr_inPattern r c v : wr r c v -> inPattern r c.
  Proof. intros (g & h & a & H1 & H2 & H3). left. exists g, h, a, v. auto. Qed.
  Lemma sorted_nodup_row (A : umat R) sp r : map (map fst) A = sp -> Forall (StronglySorted lt) sp -> NoDup (map fst (nth r A nil)).
  Proof.
    intros E HS. subst sp. destruct (Nat.lt_ge_cases r (length A)) as [H|H]; [|rewrite nth_overflow by lia; constructor]. apply SS_NoDup. rewrite Forall_forall in HS. apply HS. apply in_map. apply nth_In. exact H.
  Qed.
  Lemma row_pattern (A : umat R) sp r : map (map fst) A = sp -> map fst (nth r A nil) = nth r sp nil.
  Proof. intros <-. change (@nil nat) with (map (@fst nat (option R)) nil). symmetry. apply map_nth. Qed.
  Lemma round3 rs o sp : sizesOk rs -> complete P old new q o -> patternOk sp -> exists A,
    ofold (fun p A => obind (gatherRows (old p) (M p) (sendRows old new p q)) (fun m => scatterRows (scatterEntry (new q)) rs (recvRows old new q p) m A)) o (map (map (fun c => (c, None))) sp) = Ok A /\
    map (map fst) A = sp /\ forall r c v, wr r c v -> In (c, Some v) (nth r A nil).
  Proof.
    intros HR HO (LP & SP & HP). pose proof HO as [HB _]. rewrite (round (scatterEntry (new q)) rs o _ HR HB).
    set (I := fun (d : list (nat * (option nat * R))) (A : umat R) => map (map fst) A = sp /\ forall r h c a v, In (r, (Some h, v)) d -> holds new q h c a -> In (c, Some v) (nth r A nil)).
    destruct (ofold_inv (fun ix => scatterEntry (new q) (fst ix) (snd ix)) I (items o) (map (map (fun c => (c, None))) sp)) as (A & E & EM & HV).
    - split; [|intros r h c a v []]. rewrite map_map. rewrite <- (map_id sp) at 2. apply map_ext. intros l. rewrite map_map. cbn [fst]. apply map_id.
    - intros d [i [x v]] A HI [EM HD] HL. cbn [fst snd]. unfold scatterEntry. cbn [fst snd]. destruct x as [h|]; [|exists A; split; auto; split; auto; intros r h c a v' H HH; apply in_app_or in H; destruct H as [H|[H|[]]]; [eapply HD; eauto|discriminate]].
      destruct (lookup (new q) h) as [[h' c0 a0]|] eqn:EL.
      + apply lookup_new in EL. destruct EL as [HH E]. cbn [e_g e_l] in *. subst h'. destruct (items_owner o i _ v HO HI) as [g HG]. pose proof HI as HV. apply (items_visible o g i) in HV; auto.
        assert (W : wr i c0 v) by (exists g, h, a0; auto). pose proof (wr_inPattern i c0 v W) as HPAT. destruct (inPattern_lt i c0 HPAT) as [Hi Hc].
        assert (LA : length A = length (new q)) by (rewrite <- LP, <- EM, map_length; reflexivity). rewrite (nth_error_nth' A nil) by lia.
        destruct (setRow_spec (nth i A nil) c0 v) as (r' & E1 & E2 & H3); [eapply sorted_nodup_row; eauto|rewrite (row_pattern A sp i EM); apply HP; exact HPAT|]. rewrite E1. cbn [obind]. eexists. split; [reflexivity|]. split.
        * rewrite <- EM. apply nth_ext with (d := nil) (d' := nil); [rewrite !map_length, upd_length; reflexivity|]. intros k Hk. rewrite map_length, upd_length in Hk. change (@nil nat) with (map (@fst nat (option R)) nil). rewrite !map_nth.
          destruct (Nat.eq_dec i k) as [EK|EK]; [subst k; rewrite nth_upd_eq by lia; exact E2|rewrite nth_upd_ne by auto; reflexivity].
        * intros r h1 c a v1 HI1 HH1. destruct (Nat.eq_dec i r) as [ER|ER].
          -- subst r. rewrite nth_upd_eq by lia. apply H3. assert (HI2 : In (i, (Some h1, v1)) (items o)) by (apply in_app_or in HI1; destruct HI1 as [HI1|[HI1|[]]]; [apply HL; auto|rewrite <- HI1; auto]). apply (items_visible o g i) in HI2; auto. destruct (Nat.eq_dec c c0) as [EC|EC].
             ++ left. split; auto. f_equal. subst c. apply (wr_fun i c0); auto. exists g, h1, a. auto.
             ++ right. split; auto. apply in_app_or in HI1. destruct HI1 as [HI1|[HI1|[]]]; [eapply HD; eauto|]. injection HI1 as <- <-. exfalso. apply EC. pose proof (ro_new _ _ _ _ _ OK q Hq) as [SN _].
                pose proof (proj2 (lookup_spec (new q) h (mke h c a) SN) (conj HH1 eq_refl)) as L1. pose proof (proj2 (lookup_spec (new q) h (mke h c0 a0) SN) (conj HH eq_refl)) as L2. congruence.
          -- rewrite nth_upd_ne by auto. apply in_app_or in HI1. destruct HI1 as [HI1|[HI1|[]]]; [eapply HD; eauto|congruence].
      + exists A. split; auto. split; auto. intros r h1 c a v1 H HH. apply in_app_or in H. destruct H as [H|[H|[]]]; [eapply HD; eauto|]. injection H as <- <- <-. exfalso. apply lookup_none in EL. apply EL. apply (in_map e_g) in HH. exact HH.
    - exists A. split; auto. split; auto. intros r c v (g & h & a & H1 & H2 & H3). apply (HV r h c a v); auto. apply (items_visible o g); auto.
  Qed.
  (** *** Dirichlet rows *)
  Definition passive (r : nat) : Prop := exists g a, holds new q g r a /\ a <> Owner.
  Lemma dirichlet_twice r (l : list (nat * option R)) : dirichletRow r (dirichletRow r l) = dirichletRow r l.
  Proof. unfold dirichletRow. rewrite map_map. apply map_ext. intros [k x]. reflexivity. Qed.
  Lemma dirichlet A : length A = length (new q) -> exists A', setDirichlet (new q) A = Ok A' /\ length A' = length A /\ (forall r, passive r -> nth r A' nil = dirichletRow (R := R) r (nth r A nil)) /\ (forall r, ~ passive r -> nth r A' nil = nth r A nil).
  Proof.
    intros LA. unfold setDirichlet.
    destruct (ofold_inv (fun e A => if ownerSet (e_a e) then Ok A else match nth_error A (e_l e) with None => UB | Some row => Ok (upd A (e_l e) (dirichletRow (e_l e) row)) end)
      (fun d A' => length A' = length A /\ (forall r, (exists e, In e d /\ e_l e = r /\ e_a e <> Owner) -> nth r A' nil = dirichletRow (R := R) r (nth r A nil)) /\ (forall r, (nth r A' nil = nth r A nil \/ (passive r /\ nth r A' nil = dirichletRow r (nth r A nil))))) (new q) A) as (A' & E & L & H1 & H2).
    - split; auto. split; auto. intros r (e & [] & _).
    - intros d e A' HI (L & H1 & H2) HL. destruct (ownerSet (e_a e)) eqn:EA.
      + exists A'. split; auto. split; auto. split; auto. intros r (e' & HE & EL & NA). apply H1. apply in_app_or in HE. destruct HE as [HE|[HE|[]]]; [exists e'; auto|]. subst e'. apply ownerSet_eq in EA. congruence.
      + assert (HE : e_l e < length A'). { rewrite L, LA. destruct e as [g l a]. eapply new_lt; eauto. } assert (PA : passive (e_l e)). { destruct e as [g l a]. exists g, a. split; auto. intros ->. discriminate. }
        rewrite (nth_error_nth' A' nil HE). eexists. split; [reflexivity|]. split; [rewrite upd_length; auto|].
        assert (DI : dirichletRow (e_l e) (nth (e_l e) A' nil) = dirichletRow (R := R) (e_l e) (nth (e_l e) A nil)) by (destruct (H2 (e_l e)) as [X|[_ X]]; rewrite X; auto using dirichlet_twice). split.
        * intros r (e' & HE' & EL & NA). destruct (Nat.eq_dec (e_l e) r) as [ER|ER]; [subst r; rewrite ER, nth_upd_eq by lia; rewrite <- ER; exact DI|]. rewrite nth_upd_ne by auto. apply H1. apply in_app_or in HE'. destruct HE' as [HE'|[HE'|[]]]; [exists e'; auto|subst; congruence].
        * intros r. destruct (Nat.eq_dec (e_l e) r) as [ER|ER]; [subst r; rewrite nth_upd_eq by lia; auto|rewrite nth_upd_ne by auto; apply H2].
    - exists A'. split; auto. split; auto. split.
      + intros r (g & a & HG & NA). apply H1. exists (mke g r a). auto.
      + intros r NP. destruct (H2 r) as [X|[X _]]; auto. contradiction.
  Qed.

  Lemma store_ok sp sp' : addDiagonals (new q) sp = Ok sp' -> patternOk sp' -> storePattern (new q) sp = Ok (map (map (fun c => (c, @None R))) sp').
  Proof.
    intros E (L & _ & HP). unfold storePattern. rewrite E. cbn [obind]. destruct (Nat.ltb_spec 0 (list_sum (map (fun e => length (nth (e_l e) sp' nil)) (new q)))) as [H|H]; auto.
    destruct (new q) as [|[g i a] t] eqn:EN; [destruct sp'; [reflexivity|discriminate]|]. exfalso. cbn [map list_sum fold_right e_l] in H. assert (HG : holds new q g i a) by (unfold holds; rewrite EN; left; auto).
    assert (D : In i (nth i sp' nil)); [|destruct (nth i sp' nil); [destruct D|cbn in H; lia]]. apply HP. destruct (ownerSet a) eqn:EA.
    - apply ownerSet_eq in EA. subst a. destruct (ro_owner _ _ _ _ _ OK q g i Hq HG) as (p & l & Hp & HO). destruct (ro_diag _ _ _ _ _ OK p g l Hp HO) as [v HV]. left. exists g, g, Owner, v. split; [|left; auto]. exists Owner. split; [discriminate|]. exists p, l, l. auto.
    - right. split; auto. exists g, a. split; auto. intros ->. discriminate.
  Qed.
  (** C68 (matrix): redistributeMatrix gives a square matrix with one row for each index of the new index set, rows sorted by column.  The row of an owned index g stores exactly
      the entries of row g of the distributed matrix whose columns are in the new index set and were not in the overlap of the former owner; all other rows are rows of the
      identity, stored with the diagonal entry and the pattern that makes the matrix symmetric to the owned rows. *)
  Theorem C68_matrix o1 o2 o3 : complete P old new q o1 -> complete P old new q o2 -> complete P old new q o3 -> exists A, redistributeMatrix old new M q o1 o2 o3 = Ok A /\
    length A = length (new q) /\ Forall (fun r => StronglySorted lt (map fst r) /\ Forall (fun c => c < length (new q)) (map fst r)) A /\
    (forall g i, holds new q g i Owner -> forall c x, In (c, x) (nth i A nil) <-> exists h a v, holds new q h c a /\ visible P old M g h v /\ x = Some v) /\
    (forall g i a, holds new q g i a -> a <> Owner -> forall c x, In (c, x) (nth i A nil) <->
       (c = i /\ x = Some r1) \/ (c <> i /\ x = Some r0 /\ exists h v, holds new q h c Owner /\ visible P old M h g v)).
  Proof.
    intros O1 O2 O3. unfold redistributeMatrix. destruct (round1 o1 O1) as (rs & E1 & HR). rewrite E1. cbn [obind]. destruct (round2 rs o2 HR O2) as (sp & sp' & E2 & ED & PO). rewrite E2. cbn [obind].
    rewrite (store_ok sp sp' ED PO). cbn [obind]. destruct (round3 rs o3 sp' HR O3 PO) as (A & E3 & EM & HW). rewrite E3. cbn [obind]. pose proof PO as (LP & SP & HP). assert (LA : length A = length (new q)) by (rewrite <- LP, <- EM, map_length; reflexivity).
    destruct (dirichlet A LA) as (A' & E4 & L4 & D1 & D2). exists A'. split; [exact E4|]. split; [lia|].
    assert (CO : forall r, map fst (nth r A' nil) = nth r sp' nil). { intros r. rewrite <- (row_pattern A sp' r EM). assert (DEC : passive r \/ ~ passive r). { destruct (pairOf (new q) r) as [[g l a]|] eqn:EP.
        - apply (pairOf_spec _ _ _ _ (ro_new _ _ _ _ _ OK q Hq)) in EP. destruct EP as [EP <-]. cbn [e_l]. destruct (ownerSet a) eqn:EA; [right; apply ownerSet_eq in EA; subst a; intros (g' & a' & H1 & H2); destruct (new_entry l g Owner g' a' EP H1); congruence|left; exists g, a; split; auto; intros ->; discriminate].
        - right. intros (g & a & H & _). rewrite (proj2 (pairOf_spec _ (new q) r (mke g r a) (ro_new _ _ _ _ _ OK q Hq)) (conj H eq_refl)) in EP. discriminate. }
      destruct DEC as [DP|DP]; [rewrite (D1 r DP); unfold dirichletRow; rewrite map_map; apply map_ext; reflexivity|rewrite (D2 r DP); reflexivity]. }
    split.
    { apply Forall_forall. intros x HX. apply In_nth with (d := nil) in HX. destruct HX as (r & Hr & <-). rewrite CO. split; [rewrite Forall_forall in SP; apply SP, nth_In; lia|]. apply Forall_forall. intros c HC. apply HP in HC. apply (inPattern_lt r c HC). }
    split.
    - intros g i HG. assert (NP : ~ passive i) by (intros (g' & a' & H1 & H2); destruct (new_entry i g Owner g' a' HG H1); congruence). rewrite (D2 i NP). intros c x. split.
      + intros HI. assert (HC : In c (nth i sp' nil)) by (rewrite <- (row_pattern A sp' i EM); apply (in_map fst) in HI; exact HI). apply HP in HC. destruct HC as [(g1 & h & a & v & HV & HX)|(-> & g' & a' & HX & NA)]; [|exfalso; apply NP; exists g', a'; auto].
        destruct HX as [[H1 H2]|(H1 & H2 & H3)]; [|exfalso; apply NP; exists h, a; auto]. destruct (new_entry i g Owner g1 Owner HG H1) as [<- _]. exists h, a, v. split; auto. split; auto.
        assert (W : wr i c v) by (exists g, h, a; auto). apply HW in W. pose proof (sorted_nodup_row A sp' i EM SP) as ND. clear - W HI ND. induction (nth i A nil) as [|[k y] t IH]; [destruct HI|]. cbn [map fst] in ND. inversion ND as [|? ? N1 N2]; subst.
        destruct HI as [HI|HI], W as [W|W]; [congruence| | |auto]; exfalso; apply N1; [injection HI as -> ->; apply (in_map fst) in W|injection W as -> ->; apply (in_map fst) in HI]; auto.
      + intros (h & a & v & HH & HV & ->). apply HW. exists g, h, a. auto.
    - intros g i a HG NA c x. assert (PA : passive i) by (exists g, a; auto). assert (IC : In c (nth i sp' nil) <-> c = i \/ exists h v, holds new q h c Owner /\ visible P old M h g v).
      { rewrite HP. split.
        - intros [(g1 & h & a1 & v & HV & [[H1 H2]|(H1 & H2 & H3)])|(-> & _)]; auto; [destruct (new_entry i g a g1 Owner HG H1); congruence|]. destruct (new_entry i g a h a1 HG H2) as [<- _]. right. eauto.
        - intros [->|(h & v & HH & HV)]; [right; split; auto|]. left. exists h, g, a, v. split; auto. }
      rewrite <- (row_pattern A sp' i EM) in IC. rewrite (D1 i PA). unfold dirichletRow. rewrite in_map_iff. split.
      + intros ([k y] & E & HI). cbn [fst] in E. injection E as <- <-. apply (in_map fst) in HI. apply IC in HI. destruct (Nat.eqb_spec k i) as [EK|EK]; [left; auto|right]. destruct HI as [HI|HI]; [congruence|]. auto.
      + intros HX. assert (HC : In c (map fst (nth i A nil))) by (apply IC; destruct HX as [[-> _]|(_ & _ & HX)]; auto). apply in_map_iff in HC. destruct HC as ([k y] & E & HI). cbn [fst] in E. subst k. exists (c, y). split; auto. cbn [fst].
        destruct HX as [[-> ->]|(NE & -> & _)]; [rewrite Nat.eqb_refl; reflexivity|]. destruct (Nat.eqb_spec c i); congruence.
  Qed.
End Proofs.

(** ** Vectors *)
Lemma scatter_fold {X} (f : nat -> X) is : forall ls v, length is = length ls ->
  scatter (fun _ x => x) v is (map f ls) = ofold (fun il v => if fst il <? length v then Ok (upd v (fst il) (f (snd il))) else UB) (combine is ls) v.
Proof.
  induction is as [|i t IH]; intros [|l ls] v E; try discriminate; cbn [scatter map combine ofold]; auto. cbn [fst snd]. destruct (nth_error v i) as [y|] eqn:EN.
  - assert (i < length v) by (apply nth_error_Some; congruence). destruct (Nat.ltb_spec i (length v)); [|lia]. cbn [obind]. apply IH. auto.
  - apply nth_error_None in EN. destruct (Nat.ltb_spec i (length v)); [lia|]. reflexivity.
Qed.
Lemma interface_pairs n m s s' : pis_wf n s -> pis_wf m s' -> length (recv_ix ownerSet ownerSet s' s) = length (send_ix ownerSet ownerSet s s') /\
  forall i l, In (i, l) (combine (recv_ix ownerSet ownerSet s' s) (send_ix ownerSet ownerSet s s')) <-> exists g, In (mke g l Owner) s /\ In (mke g i Owner) s'.
Proof.
  intros WO WN. pose proof WO as [SO _]. pose proof WN as [SN _]. pose proof (send_recv_match ownerSet ownerSet n m s s' WO WN) as EQ. rewrite recv_ix_e, send_ix_e. split; [rewrite !map_length, <- (map_length e_g (recv_e _ _ _ _)), <- EQ, map_length; reflexivity|].
  intros i l. rewrite combine_map, in_map_iff.
  assert (CM : forall x y, In (x, y) (combine (recv_e ownerSet ownerSet s' s) (send_e ownerSet ownerSet s s')) <-> In x (recv_e ownerSet ownerSet s' s) /\ In y (send_e ownerSet ownerSet s s') /\ e_g x = e_g y).
  { apply combine_match; [symmetry; exact EQ|]. apply SS_NoDup, SS_filter, SN. }
  split.
  - intros ([x y] & E & H). cbn [fst snd] in E. injection E as <- <-. apply CM in H. destruct H as (H1 & H2 & H3). apply filter_In in H1, H2. destruct H1 as [I1 F1], H2 as [I2 F2].
    rewrite <- H3 in F2. rewrite (proj2 (lookup_spec s' (e_g x) x SN) (conj I1 eq_refl)) in F2. apply andb_true_iff in F2. destruct F2 as [F2 F3]. unfold ownerSet in F2, F3. apply attr_eqb_eq in F2, F3. exists (e_g x).
    destruct x as [g i a], y as [g' l a']. cbn [e_g e_l e_a] in *. subst. auto.
  - intros (g & H1 & H2). exists (mke g i Owner, mke g l Owner). split; [reflexivity|]. apply CM. unfold recv_e, send_e. rewrite !filter_In. cbn [e_g e_a].
    rewrite (proj2 (lookup_spec s g (mke g l Owner) SO) (conj H1 eq_refl)), (proj2 (lookup_spec s' g (mke g i Owner) SN) (conj H2 eq_refl)). cbn. auto.
Qed.
Lemma backward_forward {X} old new (to : nat -> list X) p order from : redistributeBackward old new to p order from = redistribute new old to p order from.
Proof.
  unfold redistributeBackward, redistribute. apply ofold_ext. intros q _ s. assert (E1 : recvRows old new q p = sendRows new old q p).
  { unfold recvRows, sendRows. rewrite recv_ix_e, send_ix_e. f_equal. unfold recv_e, send_e. apply filter_ext. intros e. destruct (lookup (old p) (e_g e)); auto. apply andb_comm. }
  assert (E2 : recvRows new old p q = sendRows old new p q).
  { unfold recvRows, sendRows. rewrite recv_ix_e, send_ix_e. f_equal. unfold recv_e, send_e. apply filter_ext. intros e. destruct (lookup (new q) (e_g e)); auto. apply andb_comm. }
  rewrite E1, E2. reflexivity.
Qed.
Section Vectors.
  Context {X : Type}.
  Variables (x0 : X) (P : nat) (szo szn : nat -> nat) (old new : nat -> pis).
  Hypothesis WO : dist_wf P szo old.
  Hypothesis WN : dist_wf P szn new.
  Hypothesis UO : unique_owner P old.
  (** C68 (vectors): redistribute copies the values of the owners to the new owners; everything else of the target stays *)
  Theorem C68_vector from q order to : q < P -> sized P szo from -> length to = szn q -> complete P old new q order -> exists to', redistribute old new from q order to = Ok to' /\ length to' = szn q /\
    (forall g i p l, holds new q g i Owner -> p < P -> holds old p g l Owner -> nth i to' x0 = nth l (from p) x0) /\
    (forall i, (forall g p l, p < P -> holds old p g l Owner -> ~ holds new q g i Owner) -> nth i to' x0 = nth i to x0).
  Proof.
    intros Hq SF LT [HB HC]. rewrite Forall_forall in HB. unfold redistribute.
    rewrite (ofold_ext _ (fun p v => ofold (fun x v => if fst x <? length v then Ok (upd v (fst x) (snd x)) else UB) (map (fun il => (fst il, nth (snd il) (from p) x0)) (combine (recvRows old new q p) (sendRows old new p q))) v)).
    2:{ intros p Hp v. specialize (HB p Hp). destruct (interface_pairs (szo p) (szn q) (old p) (new q) (WO p HB) (WN q Hq)) as [EL _]. rewrite (gather_ok x0).
        - cbn [obind]. rewrite scatter_fold by exact EL. rewrite ofold_map. reflexivity.
        - rewrite (SF p HB). unfold sendRows. rewrite send_ix_e, Forall_map. destruct (WO p HB) as (_ & _ & F). rewrite Forall_forall in *. intros e H. apply filter_In in H. apply F, H. }
    rewrite ofold_flat. set (its := flat_map _ order).
    assert (IT : forall i x, In (i, x) its <-> exists g p l, p < P /\ holds old p g l Owner /\ holds new q g i Owner /\ x = nth l (from p) x0).
    { intros i x. unfold its. rewrite in_flat_map. split.
      - intros (p & Hp & H). specialize (HB p Hp). apply in_map_iff in H. destruct H as ([i' l] & E & H). cbn [fst snd] in E. injection E as <- <-. apply (interface_pairs (szo p) (szn q) (old p) (new q) (WO p HB) (WN q Hq)) in H. destruct H as (g & H1 & H2). exists g, p, l. auto.
      - intros (g & p & l & Hp & H1 & H2 & ->). assert (HI : In (i, l) (combine (recvRows old new q p) (sendRows old new p q))) by (apply (interface_pairs (szo p) (szn q) (old p) (new q) (WO p Hp) (WN q Hq)); exists g; auto).
        exists p. split; [apply HC; auto; intros E'; rewrite E' in HI; destruct (recvRows old new q p); destruct HI|]. apply in_map_iff. exists (i, l). auto. }
    assert (FN : forall i x x', In (i, x) its -> In (i, x') its -> x = x').
    { intros i x x' H1 H2. apply IT in H1, H2. destruct H1 as (g & p & l & Hp & A1 & A2 & ->), H2 as (g' & p' & l' & Hp' & B1 & B2 & ->). pose proof (WN q Hq) as WQ.
      pose proof (proj2 (pairOf_spec _ (new q) i (mke g i Owner) WQ) (conj A2 eq_refl)) as E1. pose proof (proj2 (pairOf_spec _ (new q) i (mke g' i Owner) WQ) (conj B2 eq_refl)) as E2. assert (g = g') by congruence. subst g'.
      assert (p = p') by (apply (UO g p p' l l'); auto). subst p'. destruct (holds_inj P szo old WO p g l Owner l' Owner Hp A1 B1) as [<- _]. reflexivity. }
    destruct (ofold_inv (fun x v => if fst x <? length v then Ok (upd v (fst x) (snd x)) else UB)
      (fun d v => length v = szn q /\ (forall i x, In (i, x) d -> nth i v x0 = x) /\ (forall i, (forall x, ~ In (i, x) its) -> nth i v x0 = nth i to x0)) its to) as (to' & E & L & H1 & H2).
    - split; auto. split; auto. intros i x [].
    - intros d [i x] v HI (L & HD & HU) HL. cbn [fst snd]. assert (Hi : i < length v). { rewrite L. apply IT in HI. destruct HI as (g & p & l & _ & _ & HI & _). destruct (WN q Hq) as (_ & _ & F). rewrite Forall_forall in F. apply (F _ HI). }
      destruct (Nat.ltb_spec i (length v)) as [_|?]; [|lia]. eexists. split; [reflexivity|]. split; [now rewrite upd_length|]. split.
      + intros i' x' HI'. destruct (Nat.eq_dec i i') as [EI|EI]; [subst i'; rewrite nth_upd_eq by auto|rewrite nth_upd_ne by auto]; apply in_app_or in HI'; destruct HI' as [HI'|[HI'|[]]]; auto; try (injection HI' as <- <-; congruence).
        * apply (FN i); auto.
        * congruence.
      + intros i' HN. rewrite nth_upd_ne; auto. intros ->. apply (HN x). exact HI.
    - exists to'. split; auto. split; auto. split.
      + intros g i p l HG Hp HO. apply H1. apply IT. exists g, p, l. auto.
      + intros i HN. apply H2. intros x HX. apply IT in HX. destruct HX as (g & p & l & Hp & HO & HG & _). apply (HN g p l); auto.
  Qed.
End Vectors.
(** C68 (vectors, backward): redistributing a vector there and back gives every owner its value again *)
Theorem C68_vector_back {X} (x0 : X) P szo szn old new from to : dist_wf P szo old -> dist_wf P szn new -> unique_owner P old -> unique_owner P new ->
  sized P szo from -> sized P szn to -> forall to', (forall q, q < P -> exists order, complete P old new q order /\ redistribute old new from q order (to q) = Ok (to' q)) ->
  forall p order v, p < P -> length v = szo p -> complete P new old p order -> exists v', redistributeBackward old new to' p order v = Ok v' /\ length v' = szo p /\
    (forall g l q i, holds old p g l Owner -> q < P -> holds new q g i Owner -> nth l v' x0 = nth l (from p) x0) /\
    (forall l, (forall g q i, q < P -> holds new q g i Owner -> ~ holds old p g l Owner) -> nth l v' x0 = nth l v x0).
Proof.
  intros WO WN UO UN SF ST to' HT p order v Hp LV HC. rewrite backward_forward.
  assert (FW : forall q, q < P -> length (to' q) = szn q /\ forall g i p l, holds new q g i Owner -> p < P -> holds old p g l Owner -> nth i (to' q) x0 = nth l (from p) x0).
  { intros q Hq. destruct (HT q Hq) as (o & HO & E). destruct (C68_vector x0 P szo szn old new WO WN UO from q o (to q) Hq SF (ST q Hq) HO) as (t & E' & L & H & _). rewrite E in E'. injection E' as <-. auto. }
  destruct (C68_vector x0 P szn szo new old WN WO UN to' p order v Hp) as (v' & E & L & H1 & H2); auto; [intros q Hq; apply FW; auto|]. exists v'. split; auto. split; auto. split.
  - intros g l q i HG Hq HN. rewrite (H1 g l q i); auto. apply (FW q Hq) with (g := g); auto.
  - intros l HN. apply H2. intros g q i Hq HG. apply (HN g q i); auto.
Qed.

(** ** Repartitioning and redistributing *)
Lemma all_locals s i : pis_wf (length s) s -> i < length s -> exists g a, In (mke g i a) s.
Proof.
  intros (_ & N & F) Hi. assert (IN : incl (seq 0 (length s)) (map e_l s)).
  { apply NoDup_length_incl; auto; [rewrite map_length, seq_length; auto|]. intros x HX. apply in_map_iff in HX. destruct HX as (e & <- & HE). rewrite Forall_forall in F. apply in_seq. specialize (F e HE). lia. }
  specialize (IN i). assert (HI : In i (map e_l s)) by (apply IN, in_seq; lia). apply in_map_iff in HI. destruct HI as ([g l a] & <- & HE). eauto.
Qed.
Definition filled {R : ring} (B : smat R) : umat R := map (map (fun cv => (fst cv, Some (snd cv)))) B.
Lemma fill_row {R : ring} (r : list (nat * option R)) : (forall c x, In (c, x) r -> x <> None) -> exists r', r = map (fun cv => (fst cv, Some (snd cv))) r' /\ map fst r' = map fst r.
Proof.
  induction r as [|[c [v|]] t IH]; intros H; [exists nil; auto| |exfalso; apply (H c None); [left; auto|auto]]. destruct IH as (r' & E1 & E2); [intros c' x HI; apply (H c' x); right; auto|]. exists ((c, v) :: r'). cbn [map fst snd]. rewrite E1 at 1. rewrite E2. auto.
Qed.
Lemma fill {R : ring} (A : umat R) : (forall i c x, In (c, x) (nth i A nil) -> x <> None) -> exists B, A = filled B /\ length B = length A /\ forall i, map fst (nth i B nil) = map fst (nth i A nil).
Proof.
  induction A as [|r t IH]; intros H; [exists nil; split; [reflexivity|split; [reflexivity|intros [|i]; reflexivity]]|]. destruct (fill_row r (H 0)) as (r' & E1 & E2). destruct IH as (B & E3 & E4 & E5); [intros i; apply (H (S i))|]. exists (r' :: B). split; [cbn [filled map]; rewrite <- E1; f_equal; exact E3|]. split; [cbn; auto|].
  intros [|i]; cbn [nth]; auto.
Qed.
Lemma filled_in {R : ring} (B : smat R) i c v : In (c, Some v) (nth i (filled B) nil) <-> In (c, v) (nth i B nil).
Proof.
  unfold filled. change (@nil (nat * option R)) with (map (fun cv : nat * R => (fst cv, Some (snd cv))) nil). rewrite map_nth, in_map_iff. split.
  - intros ([c' v'] & E & H). cbn [fst snd] in E. injection E as <- <-. auto.
  - intros H. exists (c, v). auto.
Qed.
Section Chain.
  Context {R : ring}.
  Variables (P : nat) (ix : nat -> pis) (graph : nat -> list (list nat)) (parts : nat -> list nat) (sz : nat -> nat) (M : nat -> smat R) (b : nat -> built).
  Hypothesis LG : legal P ix graph parts sz.
  Hypothesis MW : forall p, p < P -> mat_wf (sz p) (sz p) (M p).
  Hypothesis DI : forall p g l, p < P -> holds ix p g l Owner -> exists v, In (l, v) (nth l (M p) nil).
  (** the graph has the edges of the matrix *)
  Hypothesis GR : forall p l j v, p < P -> In (j, v) (nth l (M p) nil) -> j <> l -> In j (nth l (graph p) nil).
  Hypothesis OC : forall p g l, p < P -> ~ holds ix p g l Overlap.
  Hypothesis BC : forall q, q < P -> outcome_of P ix graph parts q (b q).
  Let new (q : nat) : pis := b_ix (b q).
  Lemma chain_facts q : q < P -> pis_wf (length (new q)) (new q) /\ (forall g, (exists l, In (mke g l Owner) (new q)) <-> goes P ix parts g q) /\
    (forall h, (exists l, In (mke h l Copy) (new q)) <-> ~ goes P ix parts h q /\ exists g, goes P ix parts g q /\ edge P ix graph g h).
  Proof.
    intros Hq. destruct (C67_index_set P ix graph parts sz LG q Hq) as (b' & HE & _ & W & HG & HC & _). destruct (BC q Hq) as (order & HA & E). rewrite (HE order HA) in E. injection E as E. unfold new. rewrite <- E. auto.
  Qed.
  Lemma chain_ok : redist_ok P sz ix new M.
  Proof.
    constructor; [exact (lg_wf _ _ _ _ _ LG)|exact (lg_all _ _ _ _ _ LG)|exact MW|exact (lg_unique _ _ _ _ _ LG)|exact DI| |].
    - intros q Hq. apply chain_facts. exact Hq.
    - intros q g i Hq H. destruct (chain_facts q Hq) as (_ & HG & _). assert (G : goes P ix parts g q) by (apply HG; eauto). destruct G as (p & l & Hp & G & _). eauto.
  Qed.
  (** the new index set has all the columns *)
  Lemma chain_closed q g i h a v : q < P -> holds new q g i Owner -> stored_as P ix M a g h v -> exists c a', holds new q h c a'.
  Proof.
    intros Hq HG (p & l & j & Hp & H1 & H2 & H3). destruct (chain_facts q Hq) as (_ & FG & FC). assert (G : goes P ix parts g q) by (apply FG; eauto).
    destruct (Nat.eq_dec j l) as [EJ|EJ].
    - subst j. pose proof (lg_wf _ _ _ _ _ LG p Hp) as W. pose proof (proj2 (pairOf_spec _ (ix p) l (mke g l Owner) W) (conj H1 eq_refl)) as E1. pose proof (proj2 (pairOf_spec _ (ix p) l (mke h l a) W) (conj H2 eq_refl)) as E2.
      assert (h = g) by congruence. subst h. eauto.
    - assert (ED : edge P ix graph g h) by (exists p, l, j, a; split; auto; split; auto; split; auto; eapply GR; eauto).
      assert (DEC : goes P ix parts h q \/ ~ goes P ix parts h q).
      { destruct (Nat.eq_dec (nth j (parts p) P) q) as [E|E]; [left|right]; [apply (goes_part P ix graph parts sz LG p h j a); auto|]. intros HX. apply (goes_part P ix graph parts sz LG p h j a q Hp H2) in HX. congruence. }
      destruct DEC as [D|D]; [apply FG in D; destruct D; eauto|]. assert (HX : exists l0, In (mke h l0 Copy) (new q)) by (apply FC; eauto). destruct HX; eauto.
  Qed.
  Definition glob (s : pis) (j : nat) : nat := match pairOf s j with Some e => e_g e | None => 0 end.
  Lemma glob_at n s g j a : pis_wf n s -> In (mke g j a) s -> glob s j = g.
  Proof. intros W H. unfold glob. rewrite (proj2 (pairOf_spec n s j (mke g j a) W) (conj H eq_refl)). reflexivity. Qed.
  Lemma nodup_glob n s (r : list (nat * R)) : pis_wf n s -> (forall j, In j (map fst r) -> exists g a, In (mke g j a) s) -> NoDup (map fst r) -> NoDup (map (fun jv => (glob s (fst jv), snd jv)) r).
  Proof.
    intros W. induction r as [|[j v] t IH]; intros HA N; cbn [map]; [constructor|]. cbn [map fst] in *. inversion N as [|? ? N1 N2]; subst. constructor; [|apply IH; auto; intros; apply HA; right; auto].
    intros HI. apply in_map_iff in HI. destruct HI as ([j' v'] & E & HI). cbn [fst snd] in E. injection E as E _. destruct (HA j (or_introl eq_refl)) as (g & a & H). destruct (HA j') as (g' & a' & H'); [right; apply (in_map fst) in HI; exact HI|].
    rewrite (glob_at n s g j a W H), (glob_at n s g' j' a' W H') in E. subst g'. destruct W as (SS & _ & _). pose proof (proj2 (lookup_spec s g _ SS) (conj H eq_refl)) as L1. pose proof (proj2 (lookup_spec s g _ SS) (conj H' eq_refl)) as L2.
    assert (j = j') by congruence. subst j'. apply N1. apply (in_map fst) in HI. exact HI.
  Qed.
  (** C68 (after C67): the graph of the matrix is repartitioned with buildCommunication, then the matrix is redistributed.  Every process gets the complete rows of the matrix for the indices it
      owns and rows of the identity for the others; the matrix is completely initialised; products with a vector have the same values for the owners. *)
  Theorem C68_repartitioned q o1 o2 o3 : q < P -> complete P ix new q o1 -> complete P ix new q o2 -> complete P ix new q o3 -> exists B, redistributeMatrix ix new M q o1 o2 o3 = Ok (filled B) /\
    mat_wf (length (new q)) (length (new q)) B /\
    (forall g i, holds new q g i Owner -> forall h v, (exists c a, holds new q h c a /\ In (c, v) (nth i B nil)) <-> exists a, stored_as P ix M a g h v) /\
    (forall x x', (forall h c a p j a', holds new q h c a -> p < P -> holds ix p h j a' -> vget x' c = vget (x p) j) ->
       forall g i p l, holds new q g i Owner -> p < P -> holds ix p g l Owner -> dense_mv (length (new q)) (den B) (vget x') i = dense_mv (sz p) (den (M p)) (vget (x p)) l) /\
    (forall x' g i, holds new q g i Copy -> dense_mv (length (new q)) (den B) (vget x') i = vget x' i).
  Proof.
    intros Hq O1 O2 O3. pose proof chain_ok as CK. destruct (C68_matrix P sz ix new M CK q Hq o1 o2 o3 O1 O2 O3) as (A & E & LA & WA & HO & HN). destruct (chain_facts q Hq) as (WN & FG & FC).
    destruct (fill A) as (B & EB & LB & FB).
    { intros i c x HI. assert (Hi : i < length (new q)). { rewrite <- LA. destruct (Nat.lt_ge_cases i (length A)); auto. rewrite nth_overflow in HI by lia. destruct HI. }
      destruct (all_locals (new q) i WN Hi) as (g & a & HG). destruct (ownerSet a) eqn:EA.
      - apply ownerSet_eq in EA. subst a. apply (HO g i HG) in HI. destruct HI as (h & a' & v & _ & _ & ->). discriminate.
      - assert (NA : a <> Owner) by (intros ->; discriminate). apply (HN g i a HG NA) in HI. destruct HI as [[_ ->]|(_ & -> & _)]; discriminate. }
    assert (WB : mat_wf (length (new q)) (length (new q)) B).
    { split; [lia|]. apply Forall_forall. intros r HR. apply In_nth with (d := nil) in HR. destruct HR as (k & Hk & <-). rewrite Forall_forall in WA. unfold row_wf. rewrite FB. apply WA. apply nth_In. lia. }
    assert (RO : forall g i, holds new q g i Owner -> forall h c v, (exists a, holds new q h c a /\ In (c, v) (nth i B nil)) <-> exists a a', holds new q h c a' /\ stored_as P ix M a g h v).
    { intros g i HG h c v. split.
      - intros (a & HA & HI). apply filled_in in HI. rewrite <- EB in HI. apply (HO g i HG) in HI. destruct HI as (h' & a' & v' & HH & (a1 & _ & HV) & EV). injection EV as <-. destruct (new_entry P sz ix new M CK q Hq c h a h' a' HA HH) as [<- <-]. eauto.
      - intros (a & a' & HH & HV). exists a'. split; auto. apply filled_in. rewrite <- EB. apply (HO g i HG). exists h, a', v. split; auto. split; auto. exists a. split; auto. destruct HV as (p & l & j & Hp & _ & HV & _). intros ->. apply (OC p h j Hp HV). }
    exists B. split; [rewrite E, EB; reflexivity|]. split; [exact WB|]. split; [|split].
    - intros g i HG h v. split.
      + intros (c & a & HH & HI). destruct (proj1 (RO g i HG h c v)) as (a1 & _ & _ & HV); eauto.
      + intros (a & HV). destruct (chain_closed q g i h a v Hq HG HV) as (c & a' & HC). exists c. apply (RO g i HG h c v). eauto.
    - intros x x' HX g i p l HG Hp HP. pose proof (lg_wf _ _ _ _ _ LG p Hp) as WP. assert (Hi : i < length (new q)) by (destruct WN as (_ & _ & F); rewrite Forall_forall in F; apply (F _ HG)).
      assert (Hl : l < sz p) by (destruct WP as (_ & _ & F); rewrite Forall_forall in F; apply (F _ HP)).
      assert (WR : row_wf (length (new q)) (nth i B nil)) by (destruct WB as [L F]; rewrite Forall_forall in F; apply F, nth_In; lia). assert (WM : row_wf (sz p) (nth l (M p) nil)) by (destruct (MW p Hp) as [L F]; rewrite Forall_forall in F; apply F, nth_In; lia).
      unfold dense_mv, den. rewrite <- (lsum_row (fun j a => rmul a (vget x' j)) (length (new q)) (nth i B nil)); [|apply SS_NoDup, WR|apply WR|intros; ncring]. rewrite <- (lsum_row (fun j a => rmul a (vget (x p) j)) (sz p) (nth l (M p) nil)); [|apply SS_NoDup, WM|apply WM|intros; ncring].
      set (F := fun gv : nat * R => rmul (snd gv) (match lookup (ix p) (fst gv) with Some e => vget (x p) (e_l e) | None => r0 end)).
      assert (EO : map (fun e => rmul (snd e) (vget (x p) (fst e))) (nth l (M p) nil) = map F (map (fun jv => (glob (ix p) (fst jv), snd jv)) (nth l (M p) nil))).
      { rewrite map_map. apply map_ext_in. intros [j v] HI. unfold F. cbn [fst snd]. destruct WM as [_ WM]. rewrite Forall_forall in WM. assert (Hj : j < sz p) by (apply WM; apply (in_map fst) in HI; exact HI). destruct (lg_all _ _ _ _ _ LG p j Hp Hj) as (h & a & HH).
        rewrite (glob_at _ _ h j a WP HH), (proj2 (lookup_spec (ix p) h (mke h j a) (proj1 WP)) (conj HH eq_refl)). reflexivity. }
      assert (EN : map (fun e => rmul (snd e) (vget x' (fst e))) (nth i B nil) = map F (map (fun jv => (glob (new q) (fst jv), snd jv)) (nth i B nil))).
      { rewrite map_map. apply map_ext_in. intros [c v] HI. unfold F. cbn [fst snd]. destruct WR as [_ WR]. rewrite Forall_forall in WR. assert (Hc : c < length (new q)) by (apply WR; apply (in_map fst) in HI; exact HI). destruct (all_locals (new q) c WN Hc) as (h & a & HH).
        rewrite (glob_at _ _ h c a WN HH). destruct (proj1 (RO g i HG h c v)) as (a1 & a2 & _ & (p' & l' & j & Hp' & A1 & A2 & A3)); eauto. assert (p' = p) by (apply (lg_unique _ _ _ _ _ LG g p' p l' l); auto). subst p'.
        rewrite (proj2 (lookup_spec (ix p) h (mke h j a1) (proj1 WP)) (conj A2 eq_refl)). cbn [e_l]. f_equal. apply (HX h c a p j a1); auto. }
      rewrite EO, EN. apply lsum_perm, Permutation_map. apply NoDup_Permutation.
      + apply (nodup_glob (length (new q))); auto; [|apply SS_NoDup, WR]. intros j HJ. apply all_locals; auto. destruct WR as [_ WR]. rewrite Forall_forall in WR. auto.
      + apply (nodup_glob (sz p)); auto; [|apply SS_NoDup, WM]. intros j HJ. apply (lg_all _ _ _ _ _ LG p j Hp). destruct WM as [_ WM]. rewrite Forall_forall in WM. auto.
      + intros [h v]. rewrite !in_map_iff. split.
        * intros ([c v'] & EQ & HI). cbn [fst snd] in EQ. injection EQ as EQ ->. destruct WR as [_ WR]. rewrite Forall_forall in WR. assert (Hc : c < length (new q)) by (apply WR; apply (in_map fst) in HI; exact HI). destruct (all_locals (new q) c WN Hc) as (h' & a & HH).
          rewrite (glob_at _ _ h' c a WN HH) in EQ. subst h'. destruct (proj1 (RO g i HG h c v)) as (a1 & a2 & _ & (p' & l' & j & Hp' & A1 & A2 & A3)); eauto. assert (p' = p) by (apply (lg_unique _ _ _ _ _ LG g p' p l' l); auto). subst p'.
          destruct (holds_inj P sz ix (lg_wf _ _ _ _ _ LG) p g l Owner l' Owner Hp HP A1) as [<- _]. exists (j, v). cbn [fst snd]. rewrite (glob_at _ _ h j a1 WP A2). auto.
        * intros ([j v'] & EQ & HI). cbn [fst snd] in EQ. injection EQ as EQ ->. destruct WM as [_ WM]. rewrite Forall_forall in WM. assert (Hj : j < sz p) by (apply WM; apply (in_map fst) in HI; exact HI). destruct (lg_all _ _ _ _ _ LG p j Hp Hj) as (h' & a & HH).
          rewrite (glob_at _ _ h' j a WP HH) in EQ. subst h'. assert (HV : stored_as P ix M a g h v) by (exists p, l, j; auto). destruct (chain_closed q g i h a v Hq HG HV) as (c & a' & HC). destruct (proj2 (RO g i HG h c v)) as (a'' & HC' & HI'); eauto.
          exists (c, v). cbn [fst snd]. rewrite (glob_at _ _ h c a' WN HC). auto.
    - intros x' g i HG. assert (Hi : i < length (new q)) by (destruct WN as (_ & _ & F); rewrite Forall_forall in F; apply (F _ HG)). unfold dense_mv, den.
      assert (ROW : forall c, denrow (nth i B nil) c = if c =? i then r1 else r0).
      { intros c. assert (IV : forall v, In (c, v) (nth i B nil) -> v = if c =? i then r1 else r0). { intros v HI. apply filled_in in HI. rewrite <- EB in HI. apply (HN g i Copy HG ltac:(discriminate)) in HI. destruct HI as [[-> HI]|(NE & HI & _)]; injection HI as ->; [now rewrite Nat.eqb_refl|]. destruct (Nat.eqb_spec c i); congruence. }
        assert (II : c = i -> exists v, In (c, v) (nth i B nil)). { intros ->. exists r1. apply filled_in. rewrite <- EB. apply (HN g i Copy HG ltac:(discriminate)). auto. }
        revert IV II. generalize (nth i B nil). induction l as [|[k v] t IH]; intros IV II; cbn [denrow]; [destruct (Nat.eqb_spec c i) as [EC|EC]; auto; destruct (II EC) as [v []]|]. destruct (Nat.eqb_spec k c) as [EK|EK]; [subst k; apply IV; left; auto|].
        apply IH; [intros; apply IV; right; auto|]. intros EC. destruct (II EC) as (v' & [HV|HV]); [congruence|eauto]. }
      rewrite (sum_ext _ _ (fun c => if c =? i then vget x' c else r0)).
      + rewrite (sum_single _ i); [now rewrite Nat.eqb_refl|exact Hi|]. intros c _ NE. destruct (Nat.eqb_spec c i); congruence.
      + intros c _. rewrite ROW. destruct (c =? i); ncring.
  Qed.
End Chain.

(** ** Example: a tridiagonal matrix on the path of three vertices of Repartition.v *)
From Coq Require Import ZArith.
From Verif Require Import RingInst.
Definition rd_M (p : nat) : smat Zring := match p with 0 => [[(0, 2%Z); (2, (-1)%Z)]; [(1, 3%Z); (2, (-4)%Z)]; [(0, (-5)%Z); (1, (-6)%Z); (2, 7%Z)]] | _ => nil end.
Definition rd_b (q : nat) : built := match buildCommunication 3 rp_ix rp_graph (setp_of rp_parts) [0] q with Ok b => b | _ => mkb false nil (fun _ => UB) (fun _ => nil) nil end.
Lemma rd_hyps : (forall p, p < 3 -> mat_wf (rp_sz p) (rp_sz p) (rd_M p)) /\ (forall p g l, p < 3 -> holds rp_ix p g l Owner -> exists v, In (l, v) (nth l (rd_M p) nil)) /\
  (forall p l j v, p < 3 -> In (j, v) (nth l (rd_M p) nil) -> j <> l -> In j (nth l (rp_graph p) nil)) /\ (forall p g l, p < 3 -> ~ holds rp_ix p g l Overlap) /\
  (forall q, q < 3 -> outcome_of 3 rp_ix rp_graph rp_parts q (rd_b q)) /\ (forall q, q < 3 -> complete 3 rp_ix (fun q => b_ix (rd_b q)) q [0]).
Proof.
  split; [|split; [|split; [|split; [|split]]]].
  - intros [|p] Hp; (split; [reflexivity|]); cbn; repeat constructor.
  - intros [|p] g l Hp H; [|destruct H]. unfold holds in H. cbn in H. destruct H as [H|[H|[H|[]]]]; injection H as <- <-; cbn; eauto.
  - intros [|p] l j v Hp H NE; [|destruct l; destruct H]. destruct l as [|[|[|l]]]; cbn in H; [| | |destruct l; destruct H]; repeat (destruct H as [H|H]; [injection H as <- <-; cbn; auto; try congruence|]); destruct H.
  - intros [|p] g l Hp H; [|destruct H]. unfold holds in H. cbn in H. destruct H as [H|[H|[H|[]]]]; discriminate.
  - intros q Hq. exists [0]. split; [apply rp_arrives; auto|]. destruct q as [|[|[|q]]]; [reflexivity..|lia].
  - intros q Hq. split; [repeat constructor|]. intros [|p] Hp H; [left; auto|]. exfalso. apply H. destruct p; reflexivity.
Qed.
Example rd_run : redistributeMatrix rp_ix (fun q => b_ix (rd_b q)) rd_M 1 [0] [0] [0] =
  Ok (filled (R := Zring) [[(0, 7%Z); (1, (-5)%Z); (2, (-6)%Z)]; [(0, 0%Z); (1, 1%Z)]; [(0, 0%Z); (2, 1%Z)]]).
Proof. reflexivity. Qed.

(** Deviation: "send index if col is no ghost" tests for attribute 2, which is the overlap.  The coupling of an owned row with a column of the overlap is lost, although the
    new index set has the column *)
Definition ov_ix (p : nat) : pis := match p with 0 => [mke 3 0 Owner; mke 4 1 Overlap] | 1 => [mke 4 0 Owner] | _ => nil end.
Definition ov_new (p : nat) : pis := match p with 0 => [mke 3 0 Owner; mke 4 1 Copy] | 1 => [mke 4 0 Owner] | _ => nil end.
Definition ov_M (p : nat) : smat Zring := match p with 0 => [[(0, 2%Z); (1, 5%Z)]; [(1, 1%Z)]] | 1 => [[(0, 2%Z)]] | _ => nil end.
Lemma ov_ok : redist_ok 2 (fun p => length (ov_ix p)) ov_ix ov_new ov_M.
Proof.
  constructor.
  - intros [|[|p]] Hp; [| |lia]; (split; [|split]); cbn; repeat constructor; cbn; intuition lia.
  - intros [|[|p]] l Hp Hl; [| |lia]; cbn in Hl; unfold holds; cbn; [destruct l as [|[|l]]; [exists 3, Owner|exists 4, Overlap|lia]; auto|assert (l = 0) by lia; subst; exists 4, Owner; auto].
  - intros [|[|p]] Hp; [| |lia]; split; cbn; repeat constructor.
  - intros g [|[|p]] [|[|q]] l l' Hp Hq H1 H2; try lia; unfold holds in *; cbn in *; repeat match goal with H : _ \/ _ |- _ => destruct H | H : False |- _ => destruct H end; congruence.
  - intros [|[|p]] g l Hp H; [| |lia]; unfold holds in H; cbn in H; repeat match goal with H : _ \/ _ |- _ => destruct H | H : False |- _ => destruct H end; try discriminate; injection H as <- <-; cbn; eauto.
  - intros [|[|p]] Hp; [| |lia]; (split; [|split]); cbn; repeat constructor; cbn; intuition lia.
  - intros [|[|q]] g i Hq H; [| |lia]; unfold holds in H; cbn in H; repeat match goal with H : _ \/ _ |- _ => destruct H | H : False |- _ => destruct H end; try discriminate; injection H as <- <-; [exists 0, 0|exists 1, 0]; (split; [lia|]); unfold holds; cbn; auto.
Qed.
Theorem C68_overlap_refuted : exists P sz old new (M : nat -> smat Zring) q o g i h c a v A, redist_ok P sz old new M /\ q < P /\ complete P old new q o /\ redistributeMatrix old new M q o o o = Ok A /\
  holds new q g i Owner /\ holds new q h c a /\ stored_as P old M Overlap g h v /\ ~ In c (map fst (nth i A nil)).
Proof.
  exists 2, (fun p => length (ov_ix p)), ov_ix, ov_new, ov_M, 0, [0], 3, 0, 4, 1, Copy, 5%Z, (filled (R := Zring) [[(0, 2%Z)]; [(1, 1%Z)]]).
  split; [exact ov_ok|]. split; [lia|]. split; [split; [repeat constructor|]; intros [|[|p]] Hp H; [left; auto|exfalso; apply H; reflexivity|lia]|]. split; [reflexivity|]. split; [left; auto|]. split; [right; left; auto|].
  split; [exists 0, 0, 1; split; [lia|]; split; [left; auto|]; split; [right; left; auto|right; left; auto]|]. cbn. intros [H|[]]. discriminate.
Qed.
(** Deviation: a row without entries (asserts in scatter and getSize) *)
Theorem C68_empty_row_refuted : exists old (M : nat -> smat Zring), unique_owner 1 old /\ dist_wf 1 (fun _ => 1) old /\ mat_wf 1 1 (M 0) /\ complete 1 old old 0 [0] /\ redistributeMatrix old old M 0 [0] [0] [0] = UB.
Proof.
  exists (fun _ => [mke 3 0 Owner]), (fun _ => [nil]). split; [intros g p q l l' Hp Hq _ _; lia|]. split; [intros p Hp; repeat split; cbn; repeat constructor; intros []|]. split; [split; cbn; repeat constructor|].
  split; [split; [repeat constructor|]; intros p Hp _; left; lia|reflexivity].
Qed.
(** Deviation: if no entry of any owned row has a column in the new index set the matrix is not built at all *)
Theorem C68_unbuilt_refuted : exists old new (M : nat -> smat Zring), dist_wf 1 (fun _ => 2) old /\ mat_wf 2 2 (M 0) /\ unique_owner 1 old /\ pis_wf 1 (new 0) /\ length (new 0) = 1 /\ complete 1 old new 0 [0] /\ redistributeMatrix old new M 0 [0] [0] [0] = Ok nil.
Proof.
  exists (fun _ => [mke 3 0 Owner; mke 4 1 Copy]), (fun _ => [mke 3 0 Owner]), (fun _ => [[(1, 5%Z)]; [(1, 1%Z)]]). split; [intros p Hp; (split; [|split]); cbn; repeat constructor; cbn; intuition lia|]. split; [split; cbn; repeat constructor|].
  split; [intros g p q l l' Hp Hq _ _; lia|]. split; [(split; [|split]); cbn; repeat constructor; cbn; intuition lia|]. split; [reflexivity|]. split; [split; [repeat constructor|]; intros p Hp _; left; lia|reflexivity].
Qed.
Print Assumptions C68_matrix.
Print Assumptions C68_repartitioned.
Print Assumptions C68_vector.
Print Assumptions C68_vector_back.
Print Assumptions C68_overlap_refuted.
Print Assumptions C68_empty_row_refuted.
Print Assumptions C68_unbuilt_refuted.
