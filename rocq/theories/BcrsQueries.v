(** * Read-only queries of BCRSMatrix and what later calls see of them (dune/istl/bcrsmatrix.hh): C45

    Iterating, exists(), operator[] and N(), M() of the model do not change the object at all; nonzeroes() stores the count in the mutable member nnz_ when nnz_ is 0. *)
From Coq Require Import List Arith Bool Lia Sorted.
From Verif Require Import Sums Outcome BcrsModel BcrsAux BcrsRandom BcrsWf BcrsAccess BcrsCopy BcrsReach.
Import ListNotations.

Section Queries.
  Context {V : Type}.
  Variables dv zv : V.
  Notation mat := (@mat V).
  Notation st := (@st V).
  Notation call := (@call V).
  Arguments Nat.ltb : simpl never.
  Arguments Nat.eqb : simpl never.
  Arguments Nat.leb : simpl never.

  (** ** Specification *)
  (** the same object, except perhaps for the remembered number of entries *)
  Definition same_upto_count (s s' : st) : Prop := exists k, s' = (fst s, set_nnz (snd s) k).
  (** a call ends the same way, in states equal up to the count *)
  Definition same_result (r r' : res st unit) : Prop :=
    match r, r' with
    | ROk s _, ROk s' _ => same_upto_count s s'
    | RThrow s e, RThrow s' e' => e = e' /\ same_upto_count s s'
    | RUB, RUB => True
    | _, _ => False
    end.
  (** the calls that look at the count: scaling; and, while building, the end of the row size phase and the row-wise iterators *)
  Definition looks_at_count (s : st) (c : call) : Prop :=
    match c with
    | KScale _ => True
    | KEndRowSizes => mmode (snd s) = Random /\ mstage (snd s) = Building
    | KRowWise _ => mstage (snd s) = Building
    | _ => False
    end.
  (** what a call did: returned, threw e, or undefined *)
  Inductive how := Returned | Threw (e : exn) | Undefined.
  Definition how_of (r : res st unit) : how := match r with ROk _ _ => Returned | RThrow _ e => Threw e | RUB => Undefined end.
  Definition after (s : st) (r : res st unit) : st := match r with ROk s' _ | RThrow s' _ => s' | RUB => s end.
  (** a history of calls, exceptions being caught, until something undefined happens *)
  Fixpoint history (s : st) (cs : list call) : list how * st :=
    match cs with
    | nil => (nil, s)
    | c :: t => match call_step dv zv s c with
                | RUB => ([Undefined], s)
                | r => let (l, s') := history (after s r) t in (how_of r :: l, s')
                end
    end.
  Fixpoint nowhere_looks (s : st) (cs : list call) : Prop :=
    match cs with nil => True | c :: t => ~ looks_at_count s c /\ nowhere_looks (after s (call_step dv zv s c)) t end.

  (** ** Proof *)
  Lemma upto_refl s : same_upto_count s s.
  Proof. destruct s as [h M]. exists (mnnz M). destruct M; reflexivity. Qed.
  Lemma nonzeroes_upto s : same_upto_count s (fst (nonzeroes s)).
  Proof. destruct s as [h M]. unfold nonzeroes. destruct (mnnz M =? 0); cbn [fst]; [eexists; reflexivity|apply upto_refl]. Qed.
  Lemma allocate_forgets h (M : mat) k r c a ar ad : allocate dv (h, set_nnz M k) r c a ar ad = allocate dv (h, M) r c a ar ad.
  Proof. reflexivity. Qed.
  Lemma result_refl r : same_result r r.
  Proof. destruct r; cbn; auto using upto_refl. Qed.
  Lemma row_idx_nnz h (M : mat) k r : row_idx h (set_nnz M k) r = row_idx h M r.
  Proof. reflexivity. Qed.
  Lemma shrink_nnz h (M : mat) k rs : shrink_rows h (set_nnz M k) rs = shrink_rows h M rs.
  Proof. induction rs as [|r t IH]; cbn; auto. rewrite IH. reflexivity. Qed.
  Lemma deallocate_nnz h (M : mat) k b : deallocate (h, set_nnz M k) b = (fst (deallocate (h, M) b), set_nnz (snd (deallocate (h, M) b)) k).
  Proof. unfold deallocate. cbn [mn masize mrows set_nnz]. destruct (0 <? masize M), ((0 <? mn M) && b); reflexivity. Qed.
  Lemma call_agrees s s' c : same_upto_count s s' -> ~ looks_at_count s c -> same_result (call_step dv zv s c) (call_step dv zv s' c).
  Proof.
    destruct s as [h M]. intros [k ->] HL. cbn [fst snd] in *.
    assert (U : forall h M k, same_upto_count (h, M) (h, set_nnz M k)) by (intros; eexists; reflexivity).
    destruct c; cbn [call_step looks_at_count snd] in *.
    - unfold setBuildMode. cbn [mstage mmode set_nnz]. destruct (mstage M), (mmode M), b; cbn; auto; eexists; reflexivity.
    - unfold setSize. rewrite deallocate_nnz. destruct (deallocate (h, M) true) as [h1 M1]. cbn [snd]. cbn [mmode set_nnz]. destruct (mmode M1) eqn:EM; try (rewrite allocate_forgets; apply result_refl).
      destruct (0 <? nnz); [cbn; auto|]. unfold implicit_allocate. cbn [mmode mstage mcbs mavg set_nnz]. rewrite EM. destruct (mstage M1); try (cbn; auto; fail). destruct (mcbs M1); [|cbn; auto]. rewrite allocate_forgets. apply result_refl.
    - unfold setImplicitParams. destruct c; cbn; auto. cbn [mstage set_nnz]. destruct (mstage M); cbn; auto. eexists. reflexivity.
    - unfold setrowsize. cbn [mstage mmode mrows set_nnz]. destruct (mmode M), (mstage M); cbn; auto. destruct (nth_error (mrows M) i); cbn; auto. eexists. reflexivity.
    - unfold incrementrowsize. cbn [mstage mmode mrows set_nnz]. destruct (mmode M), (mstage M); cbn; auto. destruct (nth_error (mrows M) i); cbn; auto. eexists. reflexivity.
    - unfold endrowsizes. cbn [mstage mmode set_nnz]. destruct (mmode M); try (cbn; split; auto; eexists; reflexivity). destruct (mstage M); try (cbn; split; auto; eexists; reflexivity). tauto.
    - unfold addindex. cbn [mstage mmode mrows mm set_nnz]. rewrite ?row_idx_nnz. destruct (mmode M); try (cbn; split; auto; eexists; reflexivity). destruct (mstage M); try (cbn; split; auto; eexists; reflexivity).
      destruct (mm M <=? j); [cbn; split; auto; eexists; reflexivity|]. destruct (nth_error (mrows M) i) as [r|]; [|exact I]. rewrite row_idx_nnz. destruct (row_idx h M r); [|exact I].
      destruct (add_slot (mm M) j l); [|cbn; auto|exact I].
      destruct (rj r); try (cbn; eexists; reflexivity). change (jarr h (set_nnz M k)) with (jarr h M). destruct (jarr h M); [|exact I]. cbn. eexists. reflexivity.
    - unfold endindices. cbn [mstage mmode mrows set_nnz]. destruct (mmode M); try (cbn; split; auto; eexists; reflexivity). destruct (mstage M); try (cbn; split; auto; eexists; reflexivity).
      rewrite shrink_nnz. destruct (shrink_rows h M (mrows M)) as [[rs d]|]; [|exact I]. unfold allocateData. cbn. destruct (madata M); cbn; [split; auto; eexists; reflexivity|]. eexists. reflexivity.
    - unfold rowwise_build, createbegin, ci_new. cbn [mstage mmode set_nnz]. destruct (mstage M) eqn:ES; try (exfalso; apply HL; reflexivity); destruct (mmode M); cbn; rewrite ?ES; cbn; split; auto; eexists; reflexivity.
    - unfold entry. cbn [mstage mmode mn mm mrows mavg mover set_nnz]. 
      repeat match goal with |- same_result (if ?b then _ else _) (if ?b then _ else _) => destruct b; [cbn; split; auto; eexists; reflexivity|] end.
      destruct (nth_error (mrows M) i) as [r|]; [|exact I]. destruct (rj r); try exact I. destruct (ra r); try exact I.
      change (jarr_or_nil h (set_nnz M k)) with (jarr_or_nil h M). change (data_or_nil (set_nnz M k)) with (data_or_nil M).
      destruct (find_pos j _) as [p|].
      + destruct (nth_error (data_or_nil M) _); [|exact I]. cbn. eexists. reflexivity.
      + destruct (rsize r =? mavg M); [cbn; eexists; reflexivity|]. destruct (nth_error (jarr_or_nil h M) _); [|exact I]. destruct (nth_error (data_or_nil M) _); [|exact I]. cbn. eexists. reflexivity.
    - unfold compress. cbn [mstage mmode mrows mover set_nnz]. destruct (mmode M); try (cbn; split; auto; eexists; reflexivity). destruct (mstage M); try (cbn; split; auto; eexists; reflexivity).
      destruct (mrows M) eqn:ER; [cbn; eexists; reflexivity|]. change (jarr_or_nil h (set_nnz M k)) with (jarr_or_nil h M). change (data_or_nil (set_nnz M k)) with (data_or_nil M).
      destruct (compress_rows 0 _ _) as [c rs|c e|]; [|cbn; split; auto; eexists; reflexivity|exact I]. cbn [mrows set_rows]. destruct rs; cbn; eexists; reflexivity.
    - cbn. unfold nonzeroes. cbn [mnnz mrows set_nnz]. destruct (mnnz M =? 0), (k =? 0); cbn [fst]; eexists; reflexivity.
    - unfold modify. change (get (h, set_nnz M k) i j) with (get (h, M) i j). destruct (get (h, M) i j); [|cbn; split; auto; eexists; reflexivity|exact I].
      cbn [mrows madata set_nnz]. destruct (nth_error (mrows M) i) as [r|]; [|exact I]. rewrite row_idx_nnz. destruct (row_idx h M r); [|exact I]. destruct (lower_bound l j); [|exact I].
      destruct (ra r); [exact I| |]; destruct (madata M); cbn; auto; eexists; reflexivity.
    - tauto.
  Qed.
  Lemma upto_sym s s' : same_upto_count s s' -> mmode (snd s') = mmode (snd s) /\ mstage (snd s') = mstage (snd s).
  Proof. intros [k ->]. auto. Qed.
  Lemma history_agrees : forall cs s s', same_upto_count s s' -> nowhere_looks s cs -> fst (history s cs) = fst (history s' cs) /\ same_upto_count (snd (history s cs)) (snd (history s' cs)).
  Proof.
    induction cs as [|c t IH]; intros s s' HU HN; cbn [history nowhere_looks] in *; auto. destruct HN as [H1 H2]. pose proof (call_agrees s s' c HU H1) as HR.
    destruct (call_step dv zv s c) as [s1 []|s1 e|], (call_step dv zv s' c) as [s1' []|s1' e'|]; cbn [same_result after how_of] in *; try contradiction; auto.
    - destruct (IH s1 s1' HR H2) as [I1 I2]. destruct (history s1 t), (history s1' t). cbn in *. rewrite I1. auto.
    - destruct HR as [<- HR]. destruct (IH s1 s1' HR H2) as [I1 I2]. destruct (history s1 t), (history s1' t). cbn in *. rewrite I1. auto.
  Qed.
  (** Asking for nonzeroes() at any time, in any state: all later calls up to one that looks at the count end the same way, and everything shown (iteration, exists, operator[])
      is the same afterwards *)
  Theorem C45_query_unnoticed s cs : nowhere_looks s cs ->
    let t := snd (history s cs) in let t' := snd (history (fst (nonzeroes s)) cs) in
    fst (history s cs) = fst (history (fst (nonzeroes s)) cs) /\ view t' = view t /\ (forall i j, exists_ t' i j = exists_ t i j) /\ (forall i j, get t' i j = get t i j) /\
    mn (snd t') = mn (snd t) /\ mm (snd t') = mm (snd t) /\ mmode (snd t') = mmode (snd t) /\ mstage (snd t') = mstage (snd t).
  Proof.
    intros HN. destruct (history_agrees cs s _ (nonzeroes_upto s) HN) as [H1 [k H2]]. cbn zeta. split; auto. rewrite H2. destruct (snd (history s cs)) as [h M]. repeat split; reflexivity.
  Qed.
  (** setSize() that returns forgets the query altogether *)
  Theorem C45_setSize_forgets s n m nnz t : setSize dv s n m nnz = ROk t tt -> setSize dv (fst (nonzeroes s)) n m nnz = ROk t tt.
  Proof.
    destruct (nonzeroes_upto s) as [k E]. rewrite E. destruct s as [h M]. cbn [fst snd]. unfold setSize. rewrite deallocate_nnz. destruct (deallocate (h, M) true) as [h1 M1]. cbn [snd fst]. cbn [mmode set_nnz].
    destruct (mmode M1) eqn:EM; try (rewrite allocate_forgets; auto; fail).
    destruct (0 <? nnz); [discriminate|]. unfold implicit_allocate. cbn [mmode mstage mcbs mavg set_nnz]. rewrite EM. destruct (mstage M1); try discriminate. destruct (mcbs M1); [|discriminate]. rewrite allocate_forgets. auto.
  Qed.
  (** on a finished matrix only scaling can notice *)
  Theorem C45_finished s c : mstage (snd s) = Built -> (forall f, c <> KScale f) -> same_result (call_step dv zv s c) (call_step dv zv (fst (nonzeroes s)) c) /\ ~ looks_at_count s c.
  Proof.
    intros HB HC. assert (~ looks_at_count s c). { destruct c; cbn; try tauto; try (rewrite HB; intuition discriminate). exfalso. eapply HC. reflexivity. }
    split; auto. apply call_agrees; auto using nonzeroes_upto.
  Qed.
  (** a second query gives the same answer and changes nothing more *)
  Theorem C45_query_twice (s : st) : nonzeroes (fst (nonzeroes s)) = nonzeroes s.
  Proof.
    destruct s as [h M]. unfold nonzeroes. destruct (mnnz M =? 0) eqn:E; cbn [fst snd]; [|rewrite E; auto]. cbn [mnnz mrows set_nnz]. destruct (total_size (mrows M) =? 0) eqn:E2; auto.
  Qed.
End Queries.

(** nonzeroes() remembered during the row size phase is stale later: 1 instead of 3 *)
Theorem C45_stale_count_refuted : exists s1 s2 s3 s3', mat_new 0 [] 2 2 0 Random = ROk s1 tt /\ setrowsize s1 0 1 = ROk s2 tt /\
  setrowsize s2 1 2 = ROk s3 tt /\ setrowsize (fst (nonzeroes s2)) 1 2 = ROk s3' tt /\ snd (nonzeroes s3) = 3 /\ snd (nonzeroes s3') = 1.
Proof. do 4 eexists. repeat (split; [vm_compute; reflexivity|]). vm_compute. reflexivity. Qed.
(** a history to which C45_query_unnoticed applies: query after the row sizes are fixed, then addindex, endindices, modification, setSize *)
Example C45_nonvacuous : exists s1 s2 s3 s4, mat_new 0 [] 2 2 0 Random = ROk s1 tt /\ setrowsize s1 0 1 = ROk s2 tt /\ setrowsize s2 1 2 = ROk s3 tt /\ endrowsizes 0 s3 = ROk s4 tt /\
  nowhere_looks 0 0 s4 [KAddIndex 0 1; KAddIndex 1 0; KAddIndex 5 7; KEndIndices; KModify 0 1 S; KSetSize 1 1 0] /\
  fst (history 0 0 s4 [KAddIndex 0 1; KAddIndex 1 0; KAddIndex 1 7; KEndIndices; KModify 0 1 S; KSetSize 1 1 0]) = [Returned; Returned; Threw EBCRS; Returned; Returned; Returned].
Proof. do 4 eexists. repeat (split; [vm_compute; reflexivity|]). split; [vm_compute; tauto|vm_compute; reflexivity]. Qed.
Print Assumptions C45_query_unnoticed.
Print Assumptions C45_setSize_forgets.
Print Assumptions C45_finished.
Print Assumptions C45_query_twice.
Print Assumptions C45_stale_count_refuted.
