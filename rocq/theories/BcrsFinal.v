(** * BCRSMatrix: C02, C03, C05 - C08, C45 *)
From Coq Require Import List Arith Bool Lia Sorted Permutation.
From Verif Require Import Sums Outcome BcrsModel BcrsSpec BcrsAux BcrsRandom BcrsWf BcrsAccess BcrsCopy BcrsProps
  BcrsRowwise BcrsReach BcrsImplicit BcrsImplicitMerge BcrsImplicitProps.
Import ListNotations.

Section Final.
  Context {V : Type}.
  Variables dv zv : V.
  Notation mat := (@mat V).
  Notation st := (@st V).
  Arguments Nat.ltb : simpl never.
  Arguments Nat.eqb : simpl never.
  Arguments Nat.leb : simpl never.

  (** ** C02 *)

  (** [misuse s c e]: the documentation forbids call [c] in build mode / build stage of [s], or its column /
      position argument is out of range; [e] is the exception class reported.  Only the observable mode, stage
      and size of the matrix are mentioned. *)
  Inductive misuse (s : st) : @call V -> exn -> Prop :=
  | mu_setrowsize i k : mmode (snd s) <> Random \/ mstage (snd s) <> Building -> misuse s (KSetRowSize i k) EBCRS
  | mu_incrowsize i k : mmode (snd s) <> Random \/ mstage (snd s) <> Building -> misuse s (KIncRowSize i k) EBCRS
  | mu_endrowsizes : mmode (snd s) <> Random \/ mstage (snd s) <> Building -> misuse s KEndRowSizes EBCRS
  | mu_addindex i j : mmode (snd s) <> Random \/ mstage (snd s) <> RowSizesBuilt \/ mm (snd s) <= j -> misuse s (KAddIndex i j) EBCRS
  | mu_endindices : mmode (snd s) <> Random \/ mstage (snd s) <> RowSizesBuilt -> misuse s KEndIndices EBCRS
  | mu_rowwise ins : mmode (snd s) = Random \/ mmode (snd s) = Implicit \/ mstage (snd s) <> Building -> misuse s (KRowWise ins) EBCRS
  | mu_entry i j f : mmode (snd s) <> Implicit \/ mstage (snd s) = Built \/ mstage (snd s) = NotAllocated -> misuse s (KEntry true i j f) EBCRS
  | mu_entry_range i j f : mmode (snd s) = Implicit -> mstage (snd s) = Building -> mn (snd s) <= i \/ mm (snd s) <= j ->
      misuse s (KEntry true i j f) EBCRS
  | mu_compress : mmode (snd s) <> Implicit \/ mstage (snd s) = Built \/ mstage (snd s) = NotAllocated -> misuse s KCompress EBCRS
  | mu_setmode b : mstage (snd s) = RowSizesBuilt \/ mstage (snd s) = Built \/
      (mstage (snd s) = Building /\ (mmode (snd s) = Implicit \/ b = Implicit \/ b = Unknown)) -> misuse s (KSetBuildMode b) EInvalidState
  | mu_params a c : mstage (snd s) <> NotAllocated -> misuse s (KSetParams a (Some c)) EInvalidState
  | mu_params_neg a : misuse s (KSetParams a None) EBCRS.

  Theorem C02_misuse_throws_and_keeps_matrix (s : st) c e : misuse s c e -> call_step dv zv s c = RThrow s e.
  Proof.
    intros H. destruct s as [h M]. destruct H; cbn [fst snd] in *; unfold call_step.
    - unfold setrowsize. destruct (mmode M) eqn:E1; auto. destruct (mstage M) eqn:E2; auto. destruct H; congruence.
    - unfold incrementrowsize. destruct (mmode M) eqn:E1; auto. destruct (mstage M) eqn:E2; auto. destruct H; congruence.
    - unfold endrowsizes. destruct (mmode M) eqn:E1; auto. destruct (mstage M) eqn:E2; auto. destruct H; congruence.
    - unfold addindex. destruct (mmode M) eqn:E1; auto. destruct (mstage M) eqn:E2; auto.
      destruct (Nat.leb_spec (mm M) j); auto. destruct H as [H|[H|H]]; try congruence. lia.
    - unfold endindices. destruct (mmode M) eqn:E1; auto. destruct (mstage M) eqn:E2; auto. destruct H; congruence.
    - unfold rowwise_build, createbegin, ci_new. destruct (mmode M) eqn:E1; destruct (mstage M) eqn:E2; cbn -[Nat.eqb];
        rewrite ?E1, ?E2; cbn -[Nat.eqb]; rewrite ?E1, ?E2; auto; destruct H as [H|[H|H]]; congruence.
    - unfold entry. destruct (mmode M) eqn:E1; destruct (mstage M) eqn:E2; cbn; auto; destruct H as [H|[H|H]]; congruence.
    - unfold entry. rewrite H, H0. cbn [andb negb]. destruct H1 as [H1|H1].
      + rewrite (proj2 (Nat.leb_le _ _) H1). reflexivity.
      + rewrite (proj2 (Nat.leb_le _ _) H1), orb_true_r. reflexivity.
    - unfold compress. destruct (mmode M) eqn:E1; auto. destruct (mstage M) eqn:E2; auto; destruct H as [H|[H|H]]; congruence.
    - unfold setBuildMode. destruct H as [H|[H|[H H']]]; rewrite H; auto.
      destruct (mmode M) eqn:E1; destruct b; auto; destruct H' as [H'|[H'|H']]; congruence.
    - unfold setImplicitParams. cbn [snd]. destruct (mstage M); auto. congruence.
    - reflexivity.
  Qed.

  (** whatever the reason of an exception, in any state an object can reach, the matrix is as before the call;
      the only calls that may have changed it are setSize (it deallocates first), a row-wise walk that fails
      half-way and compress() running out of buffer *)
  Definition may_have_acted (c : @call V) : bool :=
    match c with KSetSize _ _ _ | KRowWise _ | KCompress => true | _ => false end.
  Theorem C02_exception_keeps_matrix (s : st) c s' e : reachable dv zv s -> may_have_acted c = false ->
    call_step dv zv s c = RThrow s' e -> s' = s.
  Proof.
    intros HR Hc H. apply reachable_sane in HR. destruct s as [h M]. cbn [fst snd] in *.
    destruct c; try discriminate; cbn [call_step] in H.
    - unfold setBuildMode in H. destruct (mstage M); try discriminate; try congruence. destruct (mmode M), b; try discriminate; congruence.
    - unfold setImplicitParams in H. destruct c; [|congruence]. cbn [snd fst] in H. destruct (mstage M); try discriminate; congruence.
    - unfold setrowsize in H. destruct (mmode M); try congruence. destruct (mstage M); try congruence. destruct (nth_error (mrows M) i); discriminate.
    - unfold incrementrowsize in H. destruct (mmode M); try congruence. destruct (mstage M); try congruence. destruct (nth_error (mrows M) i); discriminate.
    - unfold endrowsizes in H. destruct (mmode M); try congruence. destruct (mstage M); try congruence.
      match type of H with rbind ?X _ = _ => destruct X as [s1 []|s1 e1|] eqn:E end; cbn [rbind] in H; [| |discriminate].
      + destruct s1 as [h1 M1]. match type of H with (if ?b then _ else _) = _ => destruct b; [discriminate H|] end.
        match type of H with match ?j with _ => _ end = _ => destruct j; [|discriminate H] end.
        match type of H with (if ?b then _ else _) = _ => destruct b; discriminate H end.
      + inversion H; subst. destruct (mnnz M =? 0).
        * exfalso. unfold allocate in E. cbn [rbind] in E. discriminate.
        * destruct (mnnz M <? total_size (mrows M)); [congruence|discriminate].
    - unfold addindex in H. destruct (mmode M); try congruence. destruct (mstage M); try congruence.
      destruct (mm M <=? j); [congruence|]. destruct (nth_error (mrows M) i); [|discriminate]. destruct (row_idx h M r); [|discriminate].
      destruct (add_slot (mm M) j l); try discriminate; [|congruence]. destruct (rj r); try discriminate. destruct (jarr h M); discriminate.
    - unfold endindices in H. destruct (mmode M) eqn:Em; try congruence. destruct (mstage M) eqn:Es; try congruence.
      destruct (shrink_rows h M (mrows M)) as [[rs d]|]; [|discriminate].
      unfold allocateData in H. cbn in H. rewrite (sn_bld _ HR) in H; [discriminate|auto|congruence].
    - unfold entry in H.
      repeat match type of H with
      | (if ?b then _ else _) = _ => destruct b; [try congruence; discriminate H || (inversion H; reflexivity)|]
      end.
      destruct (nth_error (mrows M) i); [|discriminate]. destruct (rj r); try discriminate. destruct (ra r); try discriminate.
      destruct (find_pos j _).
      + destruct (nth_error _ _); discriminate.
      + destruct (rsize r =? mavg M); [discriminate|]. destruct (nth_error _ _); [|discriminate]. destruct (nth_error (data_or_nil M) _); discriminate.
    - unfold modify in H. destruct (get (h, M) i j); try discriminate; [|congruence].
      destruct (nth_error (mrows M) i) as [r|]; try discriminate.
      destruct (row_idx h M r) as [l|]; try discriminate. destruct (lower_bound l j); try discriminate.
      destruct (ra r); try discriminate. destruct (madata M); discriminate.
    - unfold scale in H. destruct (0 <? mnnz M).
      + destruct (madata M); try discriminate. destruct (mnnz M <=? length l); discriminate.
      + destruct (map_opt (row_view h M) (mrows M)); discriminate.
  Qed.

  (** what fails: a rejected setSize() in implicit mode has already destroyed the matrix *)
  Theorem C02_rejected_setSize_destroys_matrix_refuted (h : heap) (M : mat) n m nnz : 
    mmode M = Implicit -> 0 < nnz -> 0 < mn M ->
    exists s', setSize dv (h, M) n m nnz = RThrow s' EBCRS /\ mstage (snd s') = NotAllocated /\ mrows (snd s') = nil.
  Proof.
    intros Hm Hz Hn. unfold setSize, deallocate. rewrite (proj2 (Nat.ltb_lt _ _) Hn).
    destruct (0 <? masize M); cbn [mmode set_stage set_rows set_jid set_adata set_nnz set_sizes snd];
      cbn; rewrite Hm, (proj2 (Nat.ltb_lt _ _) Hz); eexists; split; try reflexivity; auto.
  Qed.

  (** ** C03 *)
  (** [inserted ins i j]: column [j] was inserted while the iterator stood on row [i] *)
  Definition inserted (ins : list (list nat)) (i j : nat) : Prop := exists js, nth_error ins i = Some js /\ In j js.

  (** the user program: construct, then the canonical CreateIterator loop *)
  Definition rowwise_program (h : heap) (n m nnz : nat) (b : bmode) (ins : list (list nat)) : res st unit :=
    rbind (mat_new dv h n m nnz b) (fun s _ => rbind (rowwise_build dv s ins) (fun s' _ => ROk s' tt)).

  Fixpoint pairs_of (i : nat) (cols : list (list nat)) : list (nat * nat) :=
    match cols with nil => nil | c :: t => map (pair i) c ++ pairs_of (S i) t end.
  Lemma pairs_of_In : forall cols i a b, In (a, b) (pairs_of i cols) <-> exists k c, a = i + k /\ nth_error cols k = Some c /\ In b c.
  Proof.
    induction cols as [|c t IH]; intros i a b; simpl.
    - split; [tauto|]. intros (k & c & _ & H & _). destruct k; discriminate.
    - rewrite in_app_iff, IH, in_map_iff. split.
      + intros [(b' & E & H)|(k & c' & -> & H1 & H2)].
        * inversion E; subst. exists 0, c. rewrite Nat.add_0_r. auto.
        * exists (S k), c'. split; [lia|auto].
      + intros (k & c' & -> & H1 & H2). destruct k; simpl in H1.
        * inversion H1; subst. left. exists b. rewrite Nat.add_0_r. auto.
        * right. exists k, c'. split; [lia|auto].
  Qed.
  Lemma pairs_of_length : forall cols i, length (pairs_of i cols) = length (concat cols).
  Proof. induction cols; intros; simpl; auto. rewrite !app_length, map_length. auto. Qed.
  Lemma nodup_app_intro {A} (a b : list A) : NoDup a -> NoDup b -> (forall x, In x a -> In x b -> False) -> NoDup (a ++ b).
  Proof.
    induction 1 as [|x a Hx Ha IH]; intros Hb Hd; simpl; auto. constructor.
    - intros Hin. apply in_app_or in Hin. destruct Hin as [Hin|Hin]; [auto|]. apply (Hd x); auto. left; auto.
    - apply IH; auto. intros y H1 H2. apply (Hd y); auto. right; auto.
  Qed.
  Lemma pairs_of_NoDup : forall cols i, (forall c, In c cols -> NoDup c) -> NoDup (pairs_of i cols).
  Proof.
    induction cols as [|c t IH]; intros i H; simpl; [constructor|].
    apply nodup_app_intro.
    - apply FinFun.Injective_map_NoDup; [intros x y E; congruence|]. apply H. left. auto.
    - apply IH. intros; apply H; right; auto.
    - intros [a b] H1 H2. apply in_map_iff in H1. destruct H1 as (b' & E & _). inversion E; subst.
      apply pairs_of_In in H2. destruct H2 as (k & c' & E2 & _). lia.
  Qed.
  Lemma exactly_rows (P : nat -> nat -> Prop) cols :
    (forall i c, nth_error cols i = Some c -> NoDup c /\ forall j, In j c <-> P i j) -> (forall i j, P i j -> i < length cols) ->
    exactly (length (concat cols)) (fun ij => P (fst ij) (snd ij)).
  Proof.
    intros H1 H2. exists (pairs_of 0 cols). split; [|split; [|apply pairs_of_length]].
    - apply pairs_of_NoDup. intros c Hc. apply In_nth_error in Hc. destruct Hc as [i Hi]. apply (H1 i c Hi).
    - intros [a b]. rewrite pairs_of_In. simpl. split.
      + intros (k & c & -> & Hk & Hb). apply (H1 k c Hk). auto.
      + intros H. destruct (nth_error_ex cols a (H2 a b H)) as [c Hc]. exists a, c. repeat split; auto. apply (H1 a c Hc). auto.
  Qed.
  Lemma patterns_count ins : exactly (length (concat (patterns ins))) (fun ij => inserted ins (fst ij) (snd ij)).
  Proof.
    apply exactly_rows.
    - intros i c Hc. unfold patterns in Hc. rewrite nth_error_map in Hc. destruct (nth_error ins i) as [js|] eqn:E; [|discriminate].
      simpl in Hc. inversion Hc; subst. split; [apply ss_nodup, inserts_ss; constructor|].
      intros j. rewrite inserts_In. unfold inserted. split.
      + intros [H|[]]. eauto.
      + intros (js' & E' & H). left. congruence.
    - intros i j (js & E & _). unfold patterns. rewrite map_length. eapply nth_error_lt; eauto.
  Qed.

  Definition nnz_suffices (nnz : nat) (ins : list (list nat)) : Prop :=
    nnz = 0 \/ at_most nnz (fun ij => inserted ins (fst ij) (snd ij)).

  Lemma finished_copyable s n m nnz cols : finished dv s n m nnz cols -> copyable s n m cols (dvals dv cols).
  Proof.
    intros F. destruct (Nat.eq_dec nnz 0) as [E|E].
    - right. apply (fi_own _ _ _ _ _ _ F E).
    - left. destruct (fi_pre _ _ _ _ _ _ F ltac:(lia)) as (A & B & _). auto.
  Qed.

  Lemma rowwise_run (s0 : st) n m nnz b ins : fresh s0 b n m nnz -> (b = Row_wise \/ b = Unknown) -> 0 < n -> length ins = n ->
    Forall (Forall (fun j => j < m)) ins ->
    (nnz_suffices nnz ins -> exists s c, rowwise_build dv s0 ins = ROk s c /\ finished dv s n m nnz (patterns ins)) /\
    (~ nnz_suffices nnz ins -> exists s, rowwise_build dv s0 ins = RThrow s EBCRS).
  Proof.
    intros F Hb Hn HL HF. unfold rowwise_build.
    destruct (fresh_walking dv s0 b n m nnz F Hb Hn) as (s1 & c & E & W). rewrite E. simpl rbind.
    destruct (walk_run dv ins s1 c n m nnz nil W HL ltac:(constructor) HF) as [H1 H2]. simpl in H1, H2.
    assert (Hiff : nnz_suffices nnz ins <-> (nnz = 0 \/ length (concat (patterns ins)) <= nnz)).
    { unfold nnz_suffices. rewrite (at_most_exactly _ nnz _ (patterns_count ins)). tauto. }
    rewrite Hiff. auto.
  Qed.

  Theorem C03_rowwise_build_pattern h n m nnz b ins :
    (b = Row_wise \/ b = Unknown) -> 0 < n -> length ins = n -> Forall (Forall (fun j => j < m)) ins ->
    (nnz_suffices nnz ins ->
       exists s, rowwise_program h n m nnz b ins = ROk s tt /\ shows s n m (inserted ins) (fun _ _ => dv) /\
                 exactly (snd (nonzeroes s)) (fun ij => inserted ins (fst ij) (snd ij))) /\
    (~ nnz_suffices nnz ins -> exists s, rowwise_program h n m nnz b ins = RThrow s EBCRS).
  Proof.
    intros Hb Hn HL HF. unfold rowwise_program. destruct (mat_new_fresh dv h n m nnz b) as (s0 & E0 & F). rewrite E0. simpl rbind.
    destruct (rowwise_run s0 n m nnz b ins F Hb Hn HL HF) as [H1 H2]. split.
    - intros H. destruct (H1 H) as (s & c & E & FI). rewrite E. exists s. split; auto.
      pose proof (finished_copyable _ _ _ _ _ FI) as HC. pose proof (copyable_built _ _ _ _ _ HC) as HB. split.
      + eapply built_shows; [exact HB| |].
        * intros i c0 Hc j. unfold patterns in Hc. rewrite nth_error_map in Hc. destruct (nth_error ins i) as [js|] eqn:Ei; [|discriminate].
          simpl in Hc. inversion Hc; subst. rewrite inserts_In. unfold inserted. split; [intros [H3|[]]; eauto|].
          intros (js' & E' & H3). left. congruence.
        * intros i c0 v p j x Hc Hv _ Hx. unfold dvals in Hv. rewrite nth_error_map, Hc in Hv. simpl in Hv.
          inversion Hv; subst v. apply nth_error_In in Hx. apply repeat_spec in Hx. auto.
      + rewrite (nonzeroes_count s n m (patterns ins) (dvals dv (patterns ins)) HB); [apply patterns_count|].
        destruct (Nat.eq_dec nnz 0) as [Ez|Ez].
        * left. apply (fi_own _ _ _ _ _ _ FI Ez).
        * right. apply (fi_pre _ _ _ _ _ _ FI ltac:(lia)).
    - intros H. destruct (H2 H) as (s & E). rewrite E. simpl. eauto.
  Qed.

  (** contains() answers whether the column was inserted since the iterator reached the row *)
  Theorem C03_contains (c : citer) js j : ci_pat c = nil -> ci_contains (fold_left ci_insert js c) j = true <-> In j js.
  Proof.
    intros Hc. rewrite ci_inserts. unfold ci_contains. cbn [ci_pat]. rewrite Hc, existsb_exists. split.
    - intros (x & Hx & E). apply Nat.eqb_eq in E. subst x. apply inserts_In in Hx. destruct Hx as [H|[]]; auto.
    - intros H. exists j. split; [apply inserts_In; auto|apply Nat.eqb_refl].
  Qed.
  (** ... and every new row starts with an empty set *)
  Theorem C03_contains_next_row (s : st) c s' c' : ci_next dv s c = ROk s' c' -> ci_pat c' = nil.
  Proof.
    unfold ci_next. destruct s as [h M]. destruct (mstage M); try discriminate. destruct (nth_error (mrows M) (ci_row c)); try discriminate.
    match goal with |- rbind ?X _ = _ -> _ => destruct X as [s1 p| |]; cbn [rbind]; try discriminate end. destruct s1 as [h1 M1].
    destruct (S (ci_row c) =? mn M1); [|intros H; inversion H; reflexivity].
    destruct (0 <? _); [|intros H; inversion H; reflexivity].
    destruct (allocateData dv _); try discriminate. intros H; inversion H; reflexivity.
  Qed.

  (** what fails: for a matrix without rows the documented loop throws *)
  Theorem C03_zero_rows_refuted h m nnz b ins : exists s, rowwise_program h 0 m nnz b ins = RThrow s EBCRS.
  Proof.
    unfold rowwise_program. destruct (mat_new_fresh dv h 0 m nnz b) as (s0 & E0 & F). rewrite E0. simpl rbind.
    destruct (fresh_zero_rows dv s0 b m nnz ins F) as (s & E). rewrite E. simpl. eauto.
  Qed.

  (** ** C05 *)
  Lemma map_opt_nth {A B} (f : A -> option B) : forall l l', map_opt f l = Some l' ->
    length l' = length l /\ forall i x, nth_error l i = Some x -> exists y, f x = Some y /\ nth_error l' i = Some y.
  Proof.
    induction l as [|x t IH]; intros l' H; simpl in H.
    - inversion H; subst. split; auto. intros i x Hx. destruct i; discriminate.
    - destruct (f x) as [y|] eqn:E; [|discriminate]. destruct (map_opt f t) as [ys|] eqn:E2; [|discriminate].
      inversion H; subst. destruct (IH ys eq_refl) as [H1 H2]. split; [simpl; auto|].
      intros [|i] z Hz; simpl in *; [inversion Hz; subst; eauto|eauto].
  Qed.
  Lemma row_idx_len h (M : mat) r l : row_idx h M r = Some l -> length l = rsize r.
  Proof.
    unfold row_idx. destruct (Nat.eqb_spec (rsize r) 0); [intros H; inversion H; simpl; lia|].
    destruct (rj r); try discriminate.
    - destruct (jarr h M) as [J|]; [|discriminate]. destruct (Nat.leb_spec (off + rsize r) (length J)); [|discriminate].
      intros H0; inversion H0. apply slice_length. auto.
    - destruct (Nat.leb_spec (rsize r) (length l0)); [|discriminate]. intros H0; inversion H0. rewrite firstn_length. lia.
  Qed.
  Lemma row_val_len (M : mat) r l : row_val M r = Some l -> length l = rsize r.
  Proof.
    unfold row_val. destruct (Nat.eqb_spec (rsize r) 0); [intros H; inversion H; simpl; lia|].
    destruct (ra r); try discriminate.
    - destruct (madata M) as [J|]; [|discriminate]. destruct (Nat.leb_spec (off + rsize r) (length J)); [|discriminate].
      intros H0; inversion H0. apply slice_length. auto.
    - destruct (Nat.leb_spec (rsize r) (length l0)); [|discriminate]. intros H0; inversion H0. rewrite firstn_length. lia.
  Qed.

  (** what iteration shows determines element lookup *)
  Theorem C05_lookup_agrees_with_iteration (s : st) n m P val i j : shows s n m P val -> i < n ->
    (exists b, exists_ s i j = Ok b /\ (b = true <-> P i j)) /\
    (P i j -> get s i j = Ok (val i j)) /\
    (~ P i j -> get s i j = Throw EISTL).
  Proof.
    intros (Hst & Hn & Hm & rows & Hv & HL & Hrows) Hi. destruct s as [h M]. unfold view in Hv. cbn [fst snd] in *.
    destruct (map_opt_nth _ _ _ Hv) as [HL2 Hnth].
    destruct (nth_error_ex (mrows M) i ltac:(lia)) as [r Hr]. destruct (Hnth i r Hr) as (row & Hrow & Hri).
    destruct (Hrows i row Hri) as (HS & HP & HV).
    unfold row_view in Hrow. destruct (row_idx h M r) as [js|] eqn:EJ; [|discriminate]. destruct (row_val M r) as [vs|] eqn:EV; [|discriminate].
    inversion Hrow; subst row. pose proof (row_idx_len _ _ _ _ EJ) as L1. pose proof (row_val_len _ _ _ EV) as L2.
    rewrite combine_fst in HS, HP by lia.
    destruct (lower_bound_sorted js j HS) as (p & Hp & Hin).
    unfold exists_, get. rewrite Hr, EJ, Hp, EV. split; [|split].
    - destruct (Nat.eqb_spec (rsize r) 0) as [Hz|Hz].
      + exists false. split; auto. rewrite <- HP. destruct js; [|simpl in L1; lia]. simpl. split; [discriminate|tauto].
      + eexists. split; [reflexivity|]. rewrite <- HP. destruct Hin as [[Hin Hn1]|[Hin Hn1]].
        * rewrite Hn1, Nat.eqb_refl. tauto.
        * split; [|tauto]. intros Hb. destruct (nth_error js p) as [c|] eqn:Ec; [|discriminate].
          apply Nat.eqb_eq in Hb. congruence.
    - intros HPij. apply HP in HPij. destruct Hin as [[_ Hn1]|[Hin _]]; [|tauto]. rewrite Hn1, Nat.eqb_refl.
      destruct (nth_error_ex vs p) as [x Hx]; [apply nth_error_lt in Hn1; lia|]. rewrite Hx. f_equal.
      apply HV. eapply nth_error_In. apply nth_error_combine; eauto.
    - intros HPij. destruct Hin as [[Hin Hn1]|[Hin Hn1]]; [exfalso; apply HPij, HP; auto|].
      destruct (nth_error js p) as [c|] eqn:Ec; auto. destruct (Nat.eqb_spec c j) as [->|]; auto. congruence.
  Qed.

  (** ** C06, C07 *)

  Lemma shows_same_view (s s' : st) n m P val : shows s n m P val -> mstage (snd s') = mstage (snd s) -> mn (snd s') = mn (snd s) ->
    mm (snd s') = mm (snd s) -> view s' = view s -> shows s' n m P val.
  Proof.
    intros (A & B & C & rows & D & E) H1 H2 H3 H4. split; [congruence|]. split; [congruence|]. split; [congruence|].
    exists rows. split; [congruence|auto].
  Qed.

  (** How a finished matrix came about.  [MRandom]: random mode with row sizes that were possibly not used up;
      [MPacked]: everything else with one long index array; [MOwn]: row-wise without preallocation, its number of
      nonzeros never asked for (neither directly nor by copying it); [MOwnCounted]: the same, but asked for. *)
  Inductive kind := MRandom | MPacked | MOwn | MOwnCounted.
  Definition counted (k : kind) : kind := match k with MOwn => MOwnCounted | _ => k end.
  Definition exact_fill (n nnz : nat) (sizes : list rscmd) (adds : list (nat * nat)) : Prop :=
    exactly (declared_total n sizes) (fun ij => In ij adds).

  Inductive made : kind -> st -> Prop :=
  | mk_random h n m nnz sizes adds s :
      Forall (fun c => rs_index c < n) sizes -> Forall (fun ij => fst ij < n) adds ->
      random_program dv h n m nnz sizes adds = ROk s tt -> made MRandom s
  | mk_random_exact h n m nnz sizes adds s :
      Forall (fun c => rs_index c < n) sizes -> Forall (fun ij => fst ij < n) adds ->
      exact_fill n nnz sizes adds -> random_program dv h n m nnz sizes adds = ROk s tt -> made MPacked s
  | mk_rowwise h n m nnz b ins s :
      (b = Row_wise \/ b = Unknown) -> 0 < n -> length ins = n -> Forall (Forall (fun j => j < m)) ins ->
      rowwise_program h n m nnz b ins = ROk s tt -> made (if nnz =? 0 then MOwn else MPacked) s
  | mk_implicit chk h n m avg cbs acc s :
      1 <= avg -> Forall (fun ij => fst ij < n /\ snd ij < m) (map fst acc) ->
      implicit_program dv zv chk h n m avg cbs acc = ROk s tt -> made MPacked s
  | mk_value k s o s' : made k s -> vstep s o = ROk s' tt -> made k s'
  | mk_count k s : made k s -> made (counted k) (fst (nonzeroes s))
  | mk_heap k h h' M : made k (h, M) -> (forall a, mjid M = Some a -> a < length h -> nth_error h' a = nth_error h a) -> made k (h', M)
  | mk_copy_src k h S h' S' M : made k (h, S) -> k <> MRandom -> copy_ctor dv h S = ROk (h', S') M -> made (counted k) (h', S')
  | mk_copy k h S h' S' M : made k (h, S) -> k <> MRandom -> copy_ctor dv h S = ROk (h', S') M -> made MPacked (h', M).

  Definition kind_inv (k : kind) (s : st) n m cols vals : Prop :=
    match k with
    | MRandom => contig s n m cols vals
    | MPacked => contig s n m cols vals /\ jcompact s cols
    | MOwn => indiv s n m cols vals /\ mnnz (snd s) = 0
    | MOwnCounted => indiv s n m cols vals /\ mnnz (snd s) = length (concat cols)
    end.
  Lemma kind_built k s n m cols vals : kind_inv k s n m cols vals -> built s n m cols vals.
  Proof. destruct k; simpl; intros H; [left|left|right|right]; tauto. Qed.

  Lemma modify_kind (s : st) i j f s' u : modify s i j f = ROk s' u ->
    fst s' = fst s /\ mjid (snd s') = mjid (snd s) /\ mnnz (snd s') = mnnz (snd s) /\ (madata (snd s') = None <-> madata (snd s) = None).
  Proof.
    destruct s as [h M]. unfold modify. destruct (get (h, M) i j); try discriminate. destruct (nth_error (mrows M) i) as [r|]; try discriminate.
    destruct (row_idx h M r) as [l|]; try discriminate. destruct (lower_bound l j); try discriminate.
    destruct (ra r); try discriminate.
    - destruct (madata M) eqn:E; try discriminate. intros H; inversion H; cbn. rewrite ?E. repeat split; auto; congruence.
    - intros H; inversion H; cbn. repeat split; auto.
  Qed.
  Lemma scale_kind (s : st) f s' u : scale s f = ROk s' u ->
    fst s' = fst s /\ mjid (snd s') = mjid (snd s) /\ mnnz (snd s') = mnnz (snd s).
  Proof.
    destruct s as [h M]. unfold scale. destruct (0 <? mnnz M).
    - destruct (madata M) as [a|]; [|discriminate]. destruct (mnnz M <=? length a); [|discriminate]. intros H; inversion H; auto.
    - destruct (map_opt (row_view h M) (mrows M)); [|discriminate]. intros H; inversion H; subst. cbn [fst snd]. split; auto.
      generalize (combine (mrows M) (seq 0 (length (mrows M)))). intros L. clear H.
      assert (G : forall N : mat, mjid N = mjid M -> mnnz N = mnnz M ->
        let N' := fold_left (fun (M : mat) (r_i : row * nat) => let '(r, i) := r_i in
            if rsize r =? 0 then M else match ra r with
            | ANull => M
            | AArr off => match madata M with Some a => set_adata M (Some (splice off (map f (slice off (rsize r) a)) a)) | None => M end
            | AOwn vs => set_rows M (upd (mrows M) i (mkrow (rsize r) (rj r) (AOwn (map f (firstn (rsize r) vs) ++ skipn (rsize r) vs)))) end) L N in
        mjid N' = mjid M /\ mnnz N' = mnnz M).
      { induction L as [|[r i] L IH]; intros N H1 H2; simpl; auto. apply IH.
        - destruct (rsize r =? 0); auto. destruct (ra r); auto. destruct (madata N); auto.
        - destruct (rsize r =? 0); auto. destruct (ra r); auto. destruct (madata N); auto. }
      apply G; auto.
  Qed.

  Lemma get_needs_entry (s : st) n m cols vals i j v : built s n m cols vals -> get s i j = Ok v ->
    exists c vv p, nth_error cols i = Some c /\ nth_error vals i = Some vv /\ nth_error c p = Some j /\ nth_error vv p = Some v.
  Proof.
    intros W H. destruct (built_nrows _ _ _ _ _ W) as (H1 & H2 & H3 & Hok).
    assert (Hi : i < n).
    { unfold get in H. destruct s as [h M]. cbn [snd] in *. destruct (nth_error (mrows M) i) eqn:E; [|discriminate]. apply nth_error_lt in E. lia. }
    destruct (nth_error_ex cols i ltac:(lia)) as [c Hc]. destruct (nth_error_ex vals i ltac:(lia)) as [vv Hvv].
    destruct (in_dec Nat.eq_dec j c) as [Hin|Hin].
    - apply In_nth_error in Hin. destruct Hin as [p Hp]. destruct Hok as (_ & HLL & _). pose proof (HLL i c vv Hc Hvv).
      destruct (nth_error_ex vv p) as [x Hx]; [apply nth_error_lt in Hp; lia|].
      pose proof (get_ok _ _ _ _ _ _ _ _ _ _ _ W Hc Hvv Hp Hx) as G. rewrite G in H. inversion H; subst. exists c, vv, p. auto.
    - pose proof (get_missing _ _ _ _ _ _ _ _ W Hc Hin) as G. congruence.
  Qed.

  Lemma vstep_kind k s o s' n m cols vals : kind_inv k s n m cols vals -> vstep s o = ROk s' tt ->
    exists vals', kind_inv k s' n m cols vals'.
  Proof.
    intros K H. destruct o as [i j f|f]; cbn [vstep] in H.
    - pose proof (kind_built _ _ _ _ _ _ K) as W.
      assert (G : exists v, get s i j = Ok v).
      { unfold modify in H. destruct s as [h M]. destruct (get (h, M) i j) as [v| |]; try discriminate. eauto. }
      destruct G as [v G]. destruct (get_needs_entry _ _ _ _ _ _ _ _ W G) as (c & vv & p & A1 & A2 & A3 & A4).
      destruct (modify_ok _ _ _ _ _ _ _ _ _ _ _ f W A1 A2 A3 A4) as (s1 & E & W1 & _). rewrite E in H. inversion H; subst s1.
      destruct (modify_kind _ _ _ _ _ _ E) as (B1 & B2 & B3 & B4). exists (upd2 vals i p (f v)).
      assert (Hpos : 0 < length (concat cols)).
      { rewrite (concat_split cols i c A1), !app_length. apply nth_error_lt in A3. lia. }
      assert (Hcon : contig s n m cols vals -> contig s' n m cols (upd2 vals i p (f v))).
      { intros C. destruct W1 as [W1|W1]; auto. exfalso. pose proof (iv_adata _ _ _ _ _ W1) as D. apply B4 in D.
        destruct (cg_data _ _ _ _ _ C) as [(tail & D2 & _)|[_ D2]]; [congruence|].
        pose proof (cg_nnz _ _ _ _ _ C) as D3. rewrite (rows_ok_total _ _ _ (cg_ok _ _ _ _ _ C)) in D3. lia. }
      assert (Hind : indiv s n m cols vals -> indiv s' n m cols (upd2 vals i p (f v))).
      { intros C. destruct W1 as [W1|W1]; auto. exfalso. pose proof (iv_adata _ _ _ _ _ C) as D. apply B4 in D.
        destruct (cg_data _ _ _ _ _ W1) as [(tail & D2 & _)|[_ D2]]; [congruence|].
        pose proof (cg_nnz _ _ _ _ _ W1) as D3. rewrite (rows_ok_total _ _ _ (cg_ok _ _ _ _ _ W1)) in D3. lia. }
      destruct k; simpl in *.
      + auto.
      + destruct K as [K J]. split; auto. intros Hp. destruct (J Hp) as (tail & HJ). exists tail. unfold jarr in *. rewrite B1, B2. auto.
      + destruct K. split; auto. congruence.
      + destruct K. split; auto. congruence.
    - destruct (scale_kind _ _ _ _ H) as (B1 & B2 & B3). destruct k; simpl in *.
      + destruct (scale_contig _ _ _ _ _ f K) as (s1 & E & C & _). rewrite E in H. inversion H; subst. eauto.
      + destruct K as [K J]. destruct (scale_contig _ _ _ _ _ f K) as (s1 & E & C & _). rewrite E in H. inversion H; subst.
        eexists. split; [eauto|]. intros Hp. destruct (J Hp) as (tail & HJ). exists tail. unfold jarr in *. rewrite B1, B2. auto.
      + destruct K as [K Z]. destruct (scale_indiv _ _ _ _ _ f K Z) as (s1 & E & C & _). rewrite E in H. inversion H; subst.
        eexists. split; [eauto|congruence].
      + destruct K as [K Z]. destruct (Nat.eq_dec (length (concat cols)) 0) as [Hz|Hz].
        * destruct (scale_indiv _ _ _ _ _ f K ltac:(lia)) as (s1 & E & C & _). rewrite E in H. inversion H; subst.
          eexists. split; [eauto|congruence].
        * rewrite (scale_indiv_cached _ _ _ _ _ f K) in H by lia. discriminate.
  Qed.

  Lemma contig_heap h h' (M : mat) n m cols vals :
    (forall k, mjid M = Some k -> k < length h -> nth_error h' k = nth_error h k) ->
    contig (h, M) n m cols vals -> contig (h', M) n m cols vals.
  Proof.
    intros H W. destruct W as [Ws Wn Wm Wl Wo Wnr Wr Wz Wd]. constructor; simpl in *; auto.
    intros i c Hc. destruct (Wr i c Hc) as (r & A & B & C & D). exists r. repeat split; auto.
    - apply C; auto.
    - apply C; auto.
    - eapply row_idx_heap; eauto.
  Qed.
  Lemma kind_heap k h h' (M : mat) n m cols vals :
    (forall k, mjid M = Some k -> k < length h -> nth_error h' k = nth_error h k) ->
    kind_inv k (h, M) n m cols vals -> kind_inv k (h', M) n m cols vals.
  Proof.
    intros H K. destruct k; simpl in *.
    - eapply contig_heap; eauto.
    - destruct K as [K J]. split; [eapply contig_heap; eauto|].
      intros Hp. destruct (J Hp) as (tail & HJ). exists tail. simpl in *. unfold jarr in *.
      destruct (mjid M) as [q|]; [|discriminate]. rewrite (H q eq_refl); auto. apply nth_error_lt in HJ. auto.
    - destruct K as [K Z]. split; auto. destruct K. constructor; auto.
    - destruct K as [K Z]. split; auto. destruct K. constructor; auto.
  Qed.
  Lemma kind_count k (s : st) n m cols vals : kind_inv k s n m cols vals -> kind_inv (counted k) (fst (nonzeroes s)) n m cols vals.
  Proof.
    intros K. pose proof (built_total _ _ _ _ _ (kind_built _ _ _ _ _ _ K)) as HT. destruct s as [h M]. simpl in HT.
    unfold nonzeroes. destruct (Nat.eqb_spec (mnnz M) 0) as [E|E]; cbn [fst].
    - rewrite HT. destruct k; simpl in *.
      + apply contig_set_nnz; auto.
      + destruct K. split; [apply contig_set_nnz; auto|auto].
      + destruct K. split; [apply indiv_set_nnz; auto|auto].
      + destruct K. split; [apply indiv_set_nnz; auto|auto].
    - destruct k; simpl in *; auto. destruct K. congruence.
  Qed.
  Lemma copy_ctor_src h (S : mat) h' S' M : mstage S = Built -> copy_ctor dv h S = ROk (h', S') M -> S' = snd (fst (nonzeroes (h, S))).
  Proof.
    intros Hst H. unfold copy_ctor in H. rewrite Hst in H. destruct (nonzeroes (h, S)) as [[h0 S1] k]. cbn [fst snd].
    destruct (allocate dv _ _ _ _ _ _) as [[h1 M1] []| [h1 M1] e|]; try discriminate.
    destruct (copyWindowStructure h1 M1 S1) as [[h2 M2]|]; [|discriminate]. inversion H; auto.
  Qed.
  Lemma kind_copyable k s n m cols vals : k <> MRandom -> kind_inv k s n m cols vals -> copyable s n m cols vals.
  Proof. destruct k; simpl; intros H K; [congruence|left; auto|right; tauto|right; tauto]. Qed.

  Lemma forall_lt_dec (P : nat -> Prop) n : (forall i, P i \/ ~ P i) -> (forall i, i < n -> P i) \/ ~ (forall i, i < n -> P i).
  Proof.
    intros HP. induction n as [|n IH]; [left; intros; lia|]. destruct IH as [IH|IH].
    - destruct (HP n) as [H|H].
      + left. intros i Hi. destruct (Nat.eq_dec i n) as [->|]; auto. apply IH. lia.
      + right. intros G. apply H. apply G. lia.
    - right. intros G. apply IH. intros. apply G. lia.
  Qed.
  Lemma random_legal_dec n m nnz sizes adds : random_legal n m nnz sizes adds \/ ~ random_legal n m nnz sizes adds.
  Proof.
    assert (D1 : (forall i j, In (i, j) adds -> j < m) \/ ~ (forall i j, In (i, j) adds -> j < m)).
    { induction adds as [|[a b] t IH]; [left; intros ? ? []|]. destruct IH as [IH|IH].
      - destruct (le_lt_dec m b) as [H|H].
        + right. intros G. specialize (G a b (or_introl eq_refl)). lia.
        + left. intros i j [E|E]; [inversion E; subst; auto|eauto].
      - right. intros G. apply IH. intros i j Hin. apply (G i j). right. auto. }
    assert (D2 : (forall i, i < n -> at_most (declared sizes i) (fun j => In (i, j) adds)) \/
                ~ (forall i, i < n -> at_most (declared sizes i) (fun j => In (i, j) adds))).
    { apply forall_lt_dec. intros i.
      rewrite (at_most_ext _ _ (fun j => In j (cols_of adds i))) by (intros j; symmetry; apply cols_of_In).
      rewrite <- inserts_nil_length. lia. }
    unfold random_legal. destruct D1; [|tauto]. destruct D2; [|tauto].
    destruct (Nat.eq_dec nnz 0); [tauto|]. destruct (le_lt_dec (declared_total n sizes) nnz); [tauto|].
    right. intros (_ & _ & [?|?]); lia.
  Qed.

  Lemma made_inv k s : made k s -> exists n m cols vals, kind_inv k s n m cols vals.
  Proof.
    induction 1 as [h n m nnz sizes adds s HF1 HF2 E|h n m nnz sizes adds s HF1 HF2 HX E|h n m nnz b ins s Hb Hn HL HF E|
      chk h n m avg cbs acc s Ha HF E|k s o s' H IH E|k s H IH|k h h' M H IH HH|k h S h' S' M H IH Hk E|k h S h' S' M H IH Hk E].
    - unfold random_program in E. destruct (mat_new_fresh dv h n m nnz Random) as (s0 & E0 & F). rewrite E0 in E. simpl rbind in E.
      destruct (random_program_run dv s0 n m nnz sizes adds F HF1 HF2) as [Rk Rn].
      assert (HD : random_legal n m nnz sizes adds \/ ~ random_legal n m nnz sizes adds) by (apply random_legal_dec).
      destruct HD as [HD|HD]; [|destruct (Rn HD) as (s1 & E1); unfold random_program_on in E1; rewrite E1 in E; discriminate].
      destruct (Rk HD) as (s1 & E1 & _ & cols & W & _). unfold random_program_on in E1. rewrite E1 in E. inversion E; subst. simpl. eauto.
    - unfold random_program in E. destruct (mat_new_fresh dv h n m nnz Random) as (s0 & E0 & F). rewrite E0 in E. simpl rbind in E.
      destruct (random_program_run dv s0 n m nnz sizes adds F HF1 HF2) as [Rk Rn].
      assert (HD : random_legal n m nnz sizes adds \/ ~ random_legal n m nnz sizes adds) by (apply random_legal_dec).
      destruct HD as [HD|HD]; [|destruct (Rn HD) as (s1 & E1); unfold random_program_on in E1; rewrite E1 in E; discriminate].
      destruct (Rk HD) as (s1 & E1 & _ & cols & W & Hc & _ & _ & HJ). unfold random_program_on in E1. rewrite E1 in E. inversion E; subst.
      exists n, m, cols, (dvals dv cols). simpl. split; auto. intros Hp. apply HJ; auto.
      assert (HE : exactly (length (concat cols)) (fun ij => In ij adds)).
      { apply (nodup_concat_count adds n cols (cg_len _ _ _ _ _ W) HF2). intros i c Hic. split; [|eauto].
        destruct (cg_ok _ _ _ _ _ W) as (_ & _ & HS). rewrite Forall_forall in HS. destruct (HS c (nth_error_In _ _ Hic)). apply ss_nodup; auto. }
      destruct HX as (l1 & A1 & A2 & A3). destruct HE as (l2 & B1 & B2 & B3).
      rewrite <- A3, <- B3. apply Nat.le_antisymm; apply NoDup_incl_length; auto; intros x Hx.
      + apply B2, A2, Hx.
      + apply A2, B2, Hx.
    - unfold rowwise_program in E. destruct (mat_new_fresh dv h n m nnz b) as (s0 & E0 & F). rewrite E0 in E. simpl rbind in E.
      destruct (rowwise_run s0 n m nnz b ins F Hb Hn HL HF) as [Rk Rn].
      assert (HD : nnz_suffices nnz ins \/ ~ nnz_suffices nnz ins).
      { unfold nnz_suffices. rewrite (at_most_exactly _ nnz _ (patterns_count ins)). lia. }
      destruct HD as [HD|HD]; [|destruct (Rn HD) as (s1 & E1); rewrite E1 in E; discriminate].
      destruct (Rk HD) as (s1 & c & E1 & FI). rewrite E1 in E. inversion E; subst.
      exists (length ins), m, (patterns ins), (dvals dv (patterns ins)). destruct (Nat.eqb_spec nnz 0) as [Ez|Ez]; simpl.
      + apply (fi_own _ _ _ _ _ _ FI Ez).
      + destruct (fi_pre _ _ _ _ _ _ FI ltac:(lia)) as (A & B & _). auto.
    - destruct (implicit_run dv zv chk h n m avg cbs acc HF) as (s0 & s1 & Rs & O & E0 & E1 & B & T).
      unfold implicit_program in E. rewrite E0 in E. simpl rbind in E. rewrite E1 in E. simpl rbind in E.
      destruct (compress_ib dv s1 n m avg _ Rs O B Ha) as [Ck Cn].
      destruct (@fitsW_dec V nil nil eq_refl (osize_of n avg cbs) avg (Wrows 0 Rs O) 0 0) as [HD|HD].
      + destruct (Ck HD) as (s2 & E2 & C1 & C2 & _). rewrite E2 in E. inversion E; subst. simpl. eauto 8.
      + destruct (Cn HD) as (s2 & E2). congruence.
    - destruct IH as (n & m & cols & vals & K). destruct (vstep_kind k s o s' n m cols vals K E) as (vals' & K'). eauto.
    - destruct IH as (n & m & cols & vals & K). do 4 eexists. apply kind_count; eauto.
    - destruct IH as (n & m & cols & vals & K). do 4 eexists. eapply kind_heap; eauto.
    - destruct IH as (n & m & cols & vals & K). pose proof (kind_copyable _ _ _ _ _ _ Hk K) as HC.
      destruct (copy_ctor_ok dv h S n m cols vals HC) as (h1 & S1 & M1 & E1 & _ & _ & _ & HK). rewrite E in E1. inversion E1; subst.
      assert (Hst : mstage S = Built) by (destruct (kind_built _ _ _ _ _ _ K) as [W|W]; destruct W; auto).
      pose proof (copy_ctor_src _ _ _ _ _ Hst E) as HS. exists n, m, cols, vals. apply (kind_heap _ h).
      + intros; auto.
      + pose proof (kind_count _ _ _ _ _ _ K) as KC. rewrite HS.
        assert (Hf : fst (fst (nonzeroes (h, S))) = h) by (unfold nonzeroes; destruct (mnnz S =? 0); reflexivity).
        rewrite <- Hf at 1. destruct (fst (nonzeroes (h, S))). exact KC.
    - destruct IH as (n & m & cols & vals & K). pose proof (kind_copyable _ _ _ _ _ _ Hk K) as HC.
      destruct (copy_ctor_ok dv h S n m cols vals HC) as (h1 & S1 & M1 & E1 & _ & C1 & C2 & HK). rewrite E in E1. inversion E1; subst.
      exists n, m, cols, vals. simpl. auto.
  Qed.

  Lemma shows_heap h h' (T : mat) n m P val : (forall k, k < length h -> nth_error h' k = nth_error h k) ->
    shows (h, T) n m P val -> shows (h', T) n m P val.
  Proof.
    intros H (A & B & C & rows & D & E). cbn [fst snd] in *. split; auto. split; auto. split; auto. exists rows. split; auto.
    unfold view in *. cbn [fst snd] in *. clear - H D. revert rows D. induction (mrows T) as [|r t IH]; intros rows D; simpl in *; auto.
    destruct (row_view h T r) as [x|] eqn:Er; [|discriminate]. destruct (map_opt (row_view h T) t) as [xs|]; [|discriminate].
    rewrite (IH xs eq_refl). unfold row_view in *. destruct (row_idx h T r) as [l|] eqn:El; [|discriminate].
    rewrite (row_idx_heap h h' T r) with (c := l); auto. destruct (row_val T r); [|discriminate]. inversion Er; subst. auto.
  Qed.

  Lemma built_shows_unique (s s' : st) n m cols (vals : list (list V)) P val : built s n m cols vals -> built s' n m cols vals ->
    shows s n m P val -> shows s' n m P val.
  Proof.
    intros W W' H. eapply shows_same_view; [exact H| | | |].
    - destruct W as [W|W], W' as [W'|W']; destruct W, W'; congruence.
    - destruct W as [W|W], W' as [W'|W']; destruct W, W'; congruence.
    - destruct W as [W|W], W' as [W'|W']; destruct W, W'; congruence.
    - rewrite (built_view _ _ _ _ _ W), (built_view _ _ _ _ _ W'). auto.
  Qed.

  (** C06.  Copying a finished matrix (built in any mode; in random mode with row sizes that were used up):
      the copy shows the same pattern and values, the source and every other matrix keep theirs, and afterwards any
      sequence of value changes of one matrix leaves what the other matrices show as it is. *)
  Theorem C06_copy_constructor k h (S : mat) n m P val : made k (h, S) -> k <> MRandom -> shows (h, S) n m P val ->
    exists h' (S' M' : mat), copy_ctor dv h S = ROk (h', S') M' /\
      shows (h', M') n m P val /\ shows (h', S') n m P val /\
      (forall (T : mat) n' m' P' (val' : nat -> nat -> V), shows (h, T) n' m' P' val' -> shows (h', T) n' m' P' val') /\
      (forall ops (s2 : st), rrun vstep (h', M') ops = ROk s2 tt -> shows (fst s2, S') n m P val) /\
      (forall ops (s2 : st), rrun vstep (h', S') ops = ROk s2 tt -> shows (fst s2, M') n m P val).
  Proof.
    intros HM Hk HS. destruct (made_inv _ _ HM) as (n0 & m0 & cols & vals & K).
    pose proof (kind_copyable _ _ _ _ _ _ Hk K) as HC. pose proof (copyable_built _ _ _ _ _ HC) as HB.
    assert (n0 = n) by (destruct HS as (_ & E & _); destruct HB as [W|W]; destruct W; simpl in *; congruence).
    assert (m0 = m) by (destruct HS as (_ & _ & E & _); destruct HB as [W|W]; destruct W; simpl in *; congruence). subst n0 m0.
    destruct (copy_ctor_ok dv h S n m cols vals HC) as (h' & S' & M' & E & C1 & C2 & C3 & HK).
    exists h', S', M'. split; auto.
    assert (X1 : shows (h', M') n m P val) by (eapply built_shows_unique; [exact HB|left; exact C2|exact HS]).
    assert (X2 : shows (h', S') n m P val) by (eapply built_shows_unique; [exact HB|apply copyable_built; exact C1|exact HS]).
    split; auto. split; auto. split; [|split].
    - intros T n' m' P' val' HT. eapply shows_heap; eauto.
    - intros ops s2 Hr. apply vrun_heap in Hr. cbn [fst] in Hr. rewrite Hr. auto.
    - intros ops s2 Hr. apply vrun_heap in Hr. cbn [fst] in Hr. rewrite Hr. auto.
  Qed.

  Theorem C06_copy_assignment k h (S D : mat) n m P val : made k (h, S) -> k <> MRandom -> shows (h, S) n m P val ->
    reachable dv zv (h, D) -> (mstage D = Built \/ D = mat_empty) ->
    exists h' (S' M' : mat), copy_assign dv h D S = ROk (h', S') M' /\
      shows (h', M') n m P val /\ shows (h', S') n m P val /\
      (forall (T : mat) n' m' P' (val' : nat -> nat -> V), shows (h, T) n' m' P' val' -> shows (h', T) n' m' P' val') /\
      (forall ops (s2 : st), rrun vstep (h', M') ops = ROk s2 tt -> shows (fst s2, S') n m P val) /\
      (forall ops (s2 : st), rrun vstep (h', S') ops = ROk s2 tt -> shows (fst s2, M') n m P val).
  Proof.
    intros HM Hk HS HR HD. destruct (made_inv _ _ HM) as (n0 & m0 & cols & vals & K). apply reachable_sane in HR. cbn [snd] in HR.
    pose proof (kind_copyable _ _ _ _ _ _ Hk K) as HC. pose proof (copyable_built _ _ _ _ _ HC) as HB.
    assert (n0 = n) by (destruct HS as (_ & E & _); destruct HB as [W|W]; destruct W; simpl in *; congruence).
    assert (m0 = m) by (destruct HS as (_ & _ & E & _); destruct HB as [W|W]; destruct W; simpl in *; congruence). subst n0 m0.
    destruct (copy_assign_ok dv h D S n m cols vals HC) as (h' & S' & M' & E & C1 & C2 & C3 & HK).
    { destruct HD as [HD| ->]; auto. }
    { destruct HD as [HD| ->]; auto. apply (sn_len _ HR). congruence. }
    { apply (sn_asize _ HR). }
    exists h', S', M'. split; auto.
    assert (X1 : shows (h', M') n m P val) by (eapply built_shows_unique; [exact HB|left; exact C2|exact HS]).
    assert (X2 : shows (h', S') n m P val) by (eapply built_shows_unique; [exact HB|apply copyable_built; exact C1|exact HS]).
    split; auto. split; auto. split; [|split].
    - intros T n' m' P' val' HT. eapply shows_heap; eauto.
    - intros ops s2 Hr. apply vrun_heap in Hr. cbn [fst] in Hr. rewrite Hr. auto.
    - intros ops s2 Hr. apply vrun_heap in Hr. cbn [fst] in Hr. rewrite Hr. auto.
  Qed.

  (** ** C07 *)
  Lemma shows_scaled (s s' : st) n m cols (vals : list (list V)) (f : V -> V) P val : built s n m cols vals -> built s' n m cols (map (map f) vals) ->
    shows s n m P val -> shows s' n m P (fun i j => f (val i j)).
  Proof.
    intros W W' (A & B & C & rows & D & E & G). split; [destruct W' as [W'|W']; destruct W'; auto|].
    split; [destruct W' as [W'|W']; destruct W'; auto|]. split; [destruct W' as [W'|W']; destruct W'; auto|].
    rewrite (built_view _ _ _ _ _ W) in D. inversion D; subst rows.
    exists (zip_rows cols (map (map f) vals)). split; [apply (built_view _ _ _ _ _ W')|].
    rewrite zip_rows_map; [|destruct W as [W|W]; [apply (cg_ok _ _ _ _ _ W)|apply (iv_ok _ _ _ _ _ W)]]. split; [rewrite map_length; auto|]. intros i row Hrow. rewrite nth_error_map in Hrow.
    destruct (nth_error (zip_rows cols vals) i) as [row0|] eqn:E0; [|discriminate]. simpl in Hrow. inversion Hrow; subst row.
    destruct (G i row0 E0) as (G1 & G2 & G3). rewrite map_map. cbn [fst]. split; [exact G1|]. split; [exact G2|].
    intros j v Hin. apply in_map_iff in Hin. destruct Hin as ([j' v'] & Ev & Hin). cbn in Ev. inversion Ev; subst. f_equal. apply G3. auto.
  Qed.

  Theorem C07_scaling k (s : st) n m P val (f : V -> V) : made k s -> k <> MOwnCounted -> shows s n m P val ->
    exists s', scale s f = ROk s' tt /\ shows s' n m P (fun i j => f (val i j)).
  Proof.
    intros HM Hk HS. destruct (made_inv _ _ HM) as (n0 & m0 & cols & vals & K). pose proof (kind_built _ _ _ _ _ _ K) as HB.
    assert (n0 = n) by (destruct HS as (_ & E & _); destruct HB as [W|W]; destruct W; simpl in *; congruence).
    assert (m0 = m) by (destruct HS as (_ & _ & E & _); destruct HB as [W|W]; destruct W; simpl in *; congruence). subst n0 m0.
    destruct k; simpl in K.
    - destruct (scale_contig _ _ _ _ _ f K) as (s' & E & C & _). exists s'. split; auto. eapply shows_scaled; eauto. left; auto.
    - destruct K as [K _]. destruct (scale_contig _ _ _ _ _ f K) as (s' & E & C & _). exists s'. split; auto. eapply shows_scaled; eauto. left; auto.
    - destruct K as [K Z]. destruct (scale_indiv _ _ _ _ _ f K Z) as (s' & E & C & _). exists s'. split; auto. eapply shows_scaled; eauto. right; auto.
    - congruence.
  Qed.

  (** what fails (every time): once the number of nonzeros of a row-wise matrix built without preallocation has been
      asked for, scaling it dereferences a null pointer *)
  Theorem C07_scaling_after_nonzeroes_refuted h n m b ins f :
    (b = Row_wise \/ b = Unknown) -> 0 < n -> length ins = n -> Forall (Forall (fun j => j < m)) ins ->
    (exists i j, inserted ins i j) ->
    exists s, rowwise_program h n m 0 b ins = ROk s tt /\
      (exists s', scale s f = ROk s' tt) /\ scale (fst (nonzeroes s)) f = RUB.
  Proof.
    intros Hb Hn HL HF (i & j & Hij). unfold rowwise_program.
    destruct (mat_new_fresh dv h n m 0 b) as (s0 & E0 & F). rewrite E0. simpl rbind.
    destruct (rowwise_run s0 n m 0 b ins F Hb Hn HL HF) as [Rk _]. destruct (Rk (or_introl eq_refl)) as (s & c & E & FI). rewrite E.
    exists s. split; auto. destruct (fi_own _ _ _ _ _ _ FI eq_refl) as [W Z]. split.
    - destruct (scale_indiv _ _ _ _ _ f W Z) as (s' & E' & _). eauto.
    - assert (K : kind_inv MOwn s n m (patterns ins) (dvals dv (patterns ins))) by (simpl; auto).
      apply kind_count in K. simpl in K. destruct K as [K1 K2]. eapply scale_indiv_cached; eauto. rewrite K2.
      destruct (patterns_count ins) as (l & _ & Hl & <-). destruct l; [|simpl; lia]. destruct (proj2 (Hl (i, j)) Hij).
  Qed.

  (** ** C08 *)
  (** [reachable] is every state an object can have reached by any calls, including ones that threw *)
  Theorem C08_setSize_then_random (s : st) n m nnz sizes adds : reachable dv zv s -> mmode (snd s) = Random ->
    Forall (fun c => rs_index c < n) sizes -> Forall (fun ij => fst ij < n) adds ->
    exists s0, setSize dv s n m nnz = ROk s0 tt /\
      (random_legal n m nnz sizes adds -> exists s', random_program_on dv s0 sizes adds = ROk s' tt /\
         shows s' n m (fun i j => In (i, j) adds) (fun _ _ => dv)) /\
      (~ random_legal n m nnz sizes adds -> exists s', random_program_on dv s0 sizes adds = RThrow s' EBCRS).
  Proof.
    intros HR Hm H1 H2. apply reachable_sane in HR.
    destruct (setSize_fresh dv s n m nnz Random HR Hm ltac:(discriminate)) as (s0 & E & F). exists s0. split; auto.
    destruct (random_program_run dv s0 n m nnz sizes adds F H1 H2) as [A B]. split; auto.
    intros HL. destruct (A HL) as (s' & E' & HS & _). eauto.
  Qed.

  Theorem C08_setSize_then_rowwise (s : st) n m nnz b ins : reachable dv zv s -> mmode (snd s) = b -> (b = Row_wise \/ b = Unknown) ->
    0 < n -> length ins = n -> Forall (Forall (fun j => j < m)) ins -> nnz_suffices nnz ins ->
    exists s0 s' c, setSize dv s n m nnz = ROk s0 tt /\ rowwise_build dv s0 ins = ROk s' c /\
      shows s' n m (inserted ins) (fun _ _ => dv).
  Proof.
    intros HR Hm Hb Hn HL HF HZ. apply reachable_sane in HR.
    destruct (setSize_fresh dv s n m nnz b HR Hm) as (s0 & E & F); [destruct Hb as [->| ->]; discriminate|].
    destruct (rowwise_run s0 n m nnz b ins F Hb Hn HL HF) as [Rk _]. destruct (Rk HZ) as (s' & c & E' & FI).
    exists s0, s', c. split; auto. split; auto.
    pose proof (copyable_built _ _ _ _ _ (finished_copyable _ _ _ _ _ FI)) as HB.
    eapply built_shows; [exact HB| |].
    - intros i c0 Hc j. unfold patterns in Hc. rewrite nth_error_map in Hc. destruct (nth_error ins i) as [js|] eqn:Ei; [|discriminate].
      simpl in Hc. inversion Hc; subst. rewrite inserts_In. unfold inserted. split; [intros [H3|[]]; eauto|].
      intros (js' & E'' & H3). left. congruence.
    - intros i c0 v p j x Hc Hv _ Hx. unfold dvals in Hv. rewrite nth_error_map, Hc in Hv. simpl in Hv.
      inversion Hv; subst v. apply nth_error_In in Hx. apply repeat_spec in Hx. auto.
  Qed.

  (** implicit mode: fine when the previous build was completed by compress() *)
  Theorem C08_compress_setSize_then_implicit (s s1 : st) chk n m acc : reachable dv zv s -> compress s = ROk s1 tt ->
    1 <= mavg (snd s1) -> mcbs (snd s1) <> None -> Forall (fun ij => fst ij < n /\ snd ij < m) (map fst acc) ->
    exists s2 s3 cbs, setSize dv s1 n m 0 = ROk s2 tt /\ run_entries zv chk s2 acc = ROk s3 tt /\ mcbs (snd s1) = Some cbs /\
      (buffer_suffices (osize_of n (mavg (snd s1)) cbs) (mavg (snd s1)) acc ->
         exists s4 val, compress s3 = ROk s4 tt /\ shows s4 n m (accessed acc) val /\
         forall i j, accessed acc i j -> val i j = accum acc i j dv \/ val i j = accum acc i j zv).
  Proof.
    intros HR HC Ha Hcb HF. assert (HR1 : reachable dv zv s1) by (eapply (R_call dv zv s KCompress); eauto).
    apply reachable_sane in HR1. destruct (deallocate_sane s1 HR1) as (S1 & S2 & S3 & S4 & S5 & S6 & S7 & S8 & S9 & S10).
    assert (HM : mmode (snd s1) = Implicit /\ mover (snd s1) = nil).
    { destruct s as [h M]. unfold compress in HC. destruct (mmode M) eqn:Em; try discriminate. destruct (mstage M) eqn:Es; try discriminate.
      destruct (mrows M) as [|r rs] eqn:Er.
      - inversion HC; subst. auto.
      - destruct (compress_rows 0 _ _) as [c rs'| |]; try discriminate. cbn [mrows set_rows] in HC.
        destruct rs'; inversion HC; subst; auto. }
    destruct HM as [HM HO]. destruct (mcbs (snd s1)) as [cbs|] eqn:Ec; [|congruence].
    unfold setSize. destruct (deallocate s1 true) as [h2 M2]. cbn [fst snd] in *. rewrite S5, HM. change (0 <? 0) with false. cbv iota.
    destruct (implicit_allocate_ib dv h2 M2 n m cbs) as (s2 & E2 & B2); try congruence.
    destruct (run_entries_track dv zv chk n m _ _ acc nil s2 _ _ B2 HF (tracks_nil dv zv n)) as (s3 & Rs & O & E3 & B3 & T3). simpl in T3.
    exists s2, s3, cbs. split; auto. split; auto. split; auto. intros HB. rewrite S8 in *.
    destruct (implicit_finish dv zv s3 n m _ _ Rs O acc B3 T3 Ha) as [Hok _].
    destruct (Hok HB) as (s' & cols & vals & E & _ & _ & _ & _ & _ & val & Hs & Hv). exists s', val. auto.
  Qed.
  (** C45, what does hold: asking for the number of nonzeros never changes what a matrix shows *)
  Theorem C45_nonzeroes_keeps_view (s : st) n m P val : shows s n m P val -> shows (fst (nonzeroes s)) n m P val.
  Proof.
    destruct s as [h M]. unfold nonzeroes. destruct (mnnz M =? 0); cbn [fst snd]; auto.
  Qed.
End Final.

(** ** concrete cases and counterexamples *)
Example C02_nonvacuous : misuse (nil, @mat_empty nat) (KAddIndex 0 0) EBCRS.
Proof. apply mu_addindex. left. discriminate. Qed.
Example C03_nonvacuous :
  nnz_suffices 4 [[3;1;3];[];[0;2]] /\ Forall (Forall (fun j => j < 4)) [[3;1;3];[];[0;2]] /\
  match rowwise_program 0 [] 3 4 4 Row_wise [[3;1;3];[];[0;2]] with
  | ROk s _ => view s = Some [[(1,0);(3,0)];[];[(0,0);(2,0)]] | _ => False end.
Proof.
  split; [|split].
  - right. apply (at_most_exactly _ 4 _ (patterns_count [[3;1;3];[];[0;2]])). vm_compute. lia.
  - repeat constructor.
  - vm_compute. reflexivity.
Qed.

(** C06, what fails: random mode with oversized rows.  Row sizes 2,2,1 of which 1,2,1 are used: after copying, the
    source shows a different pattern. *)
Definition oversized : res (@st nat) unit :=
  random_program 0 [] 3 9 0 [SetRS 0 2; SetRS 1 2; SetRS 2 1] [(0,5);(1,6);(1,7);(2,8)].
Theorem C06_copy_corrupts_source_refuted :
  exists h S h' S' M', oversized = ROk (h, S) tt /\ made 0 0 MRandom (h, S) /\ copy_ctor 0 h S = ROk (h', S') M' /\
    view (h, S) = Some [[(5,0)];[(6,0);(7,0)];[(8,0)]] /\ view (h', S') = Some [[(5,0)];[(7,0);(8,0)];[(8,0)]].
Proof.
  do 5 eexists. split; [vm_compute; reflexivity|]. split; [|split; [vm_compute; reflexivity|]].
  - eapply (mk_random 0 0 [] 3 9 0 [SetRS 0 2; SetRS 1 2; SetRS 2 1] [(0,5);(1,6);(1,7);(2,8)]); [repeat constructor|repeat constructor|vm_compute; reflexivity].
  - split; vm_compute; reflexivity.
Qed.

(** C08, what fails: implicit mode, setSize before compress(): overflow entries of the earlier life reappear *)
Theorem C08_overflow_survives_setSize_refuted :
  exists s1 s2 s3 s4, mat_new_implicit 0 [] 1 5 1 (Some (1, 1)) Implicit = ROk s1 tt /\
    run_entries 0 true s1 [((0,0), fun _ => 10); ((0,3), fun _ => 77)] = ROk s2 tt /\
    setSize 0 s2 1 5 0 = ROk s3 tt /\ run_entries 0 true s3 [((0,1), fun _ => 11)] = ROk s4 tt /\
    exists s5, compress s4 = ROk s5 tt /\ view s5 = Some [[(1,11);(3,77)]].
Proof. do 4 eexists. repeat (split; [vm_compute; reflexivity|]). eexists. split; vm_compute; reflexivity. Qed.

(** C45: read-only queries.  nonzeroes() during the building phase changes what later calls do. *)
Theorem C45_nonzeroes_breaks_random_build_refuted :
  exists s1 s2 s3, mat_new 0 [] 2 2 0 Random = ROk s1 tt /\ setrowsize s1 0 1 = ROk s2 tt /\
    (exists s4, setrowsize s2 1 2 = ROk s4 tt /\ (exists s5, endrowsizes 0 s4 = ROk s5 tt)) /\
    setrowsize (fst (nonzeroes s2)) 1 2 = ROk s3 tt /\ (exists s5, endrowsizes 0 s3 = RThrow s5 EBCRS).
Proof.
  do 3 eexists. split; [vm_compute; reflexivity|]. split; [vm_compute; reflexivity|]. split.
  - eexists. split; [vm_compute; reflexivity|]. eexists. vm_compute. reflexivity.
  - split; [vm_compute; reflexivity|]. eexists. vm_compute. reflexivity.
Qed.
Print Assumptions C02_misuse_throws_and_keeps_matrix.
Print Assumptions C02_exception_keeps_matrix.
Print Assumptions C02_rejected_setSize_destroys_matrix_refuted.
Print Assumptions C03_rowwise_build_pattern.
Print Assumptions C03_contains.
Print Assumptions C03_zero_rows_refuted.
Print Assumptions C05_lookup_agrees_with_iteration.
Print Assumptions C06_copy_constructor.
Print Assumptions C06_copy_assignment.
Print Assumptions C06_copy_corrupts_source_refuted.
Print Assumptions C07_scaling.
Print Assumptions C07_scaling_after_nonzeroes_refuted.
Print Assumptions C08_setSize_then_random.
Print Assumptions C08_setSize_then_rowwise.
Print Assumptions C08_compress_setSize_then_implicit.
Print Assumptions C08_overflow_survives_setSize_refuted.
Print Assumptions C45_nonzeroes_breaks_random_build_refuted.
