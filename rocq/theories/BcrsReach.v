(** * An invariant of every BCRSMatrix object, whatever calls were made on it *)
From Coq Require Import List Arith Bool Lia Sorted Permutation.
From Verif Require Import Sums Outcome BcrsModel BcrsAux BcrsRandom BcrsWf BcrsAccess BcrsCopy.
Import ListNotations.

Section Reach.
  Context {V : Type}.
  Variables dv zv : V.
  Notation mat := (@mat V).
  Notation st := (@st V).
  Notation row := (@row V).

  Arguments allocate : simpl never.
  Arguments osize_of : simpl never.
  Arguments Nat.ltb : simpl never.
  Arguments Nat.eqb : simpl never.
  Arguments Nat.leb : simpl never.

  (** ** arbitrary use of one object *)
  Inductive call :=
  | KSetBuildMode (b : bmode)
  | KSetSize (n m nnz : nat)
  | KSetParams (avg : nat) (c : option (nat * nat))
  | KSetRowSize (i k : nat)
  | KIncRowSize (i k : nat)
  | KEndRowSizes
  | KAddIndex (i j : nat)
  | KEndIndices
  | KRowWise (ins : list (list nat))
  | KEntry (chk : bool) (i j : nat) (f : V -> V)
  | KCompress
  | KNonzeroes
  | KModify (i j : nat) (f : V -> V)
  | KScale (f : V -> V).

  Definition call_step (s : st) (c : call) : res st unit :=
    match c with
    | KSetBuildMode b => setBuildMode s b
    | KSetSize n m nnz => setSize dv s n m nnz
    | KSetParams a c => setImplicitParams s a c
    | KSetRowSize i k => setrowsize s i k
    | KIncRowSize i k => incrementrowsize s i k
    | KEndRowSizes => endrowsizes dv s
    | KAddIndex i j => addindex s i j
    | KEndIndices => endindices dv s
    | KRowWise ins => rbind (rowwise_build dv s ins) (fun s' _ => ROk s' tt)
    | KEntry chk i j f => entry zv chk s i j f
    | KCompress => compress s
    | KNonzeroes => ROk (fst (nonzeroes s)) tt
    | KModify i j f => modify s i j f
    | KScale f => scale s f
    end.

  (** every state an object can be in: constructed, then used; calls that threw may be followed by others *)
  Inductive reachable : st -> Prop :=
  | R_default h : reachable (h, mat_empty)
  | R_new h n m nnz b s u : mat_new dv h n m nnz b = ROk s u -> reachable s
  | R_implicit h n m avg c b s u : mat_new_implicit dv h n m avg c b = ROk s u -> reachable s
  | R_call s c s' u : reachable s -> call_step s c = ROk s' u -> reachable s'
  | R_throw s c s' e : reachable s -> call_step s c = RThrow s' e -> reachable s'
  | R_heap h h' M : reachable (h, M) -> reachable (h', M)   (* other objects may write to shared index arrays *)
  | R_copy_src h S h' S' M : reachable (h, S) -> copy_ctor dv h S = ROk (h', S') M -> reachable (h', S')
  | R_copy h S h' S' M : reachable (h, S) -> copy_ctor dv h S = ROk (h', S') M -> reachable (h', M)
  | R_assign_src h D S h' S' M : reachable (h, D) -> reachable (h, S) -> copy_assign dv h D S = ROk (h', S') M -> reachable (h', S')
  | R_assign h D S h' S' M : reachable (h, D) -> reachable (h, S) -> copy_assign dv h D S = ROk (h', S') M -> reachable (h', M).

  Record sane (M : mat) : Prop := {
    sn_asize : masize M = 0 -> madata M = None /\ mjid M = None;
    sn_rows : mrows M <> nil -> 0 < mn M;
    sn_none : mstage M = NotAllocated -> mrows M = nil /\ madata M = None /\ mjid M = None;
    sn_bld : mstage M = Building \/ mstage M = RowSizesBuilt -> mmode M <> Implicit -> madata M = None;
    sn_len : mstage M <> NotAllocated -> length (mrows M) = mn M
  }.

  Definition rsane (r : res st unit) : Prop :=
    match r with ROk s _ => sane (snd s) | RThrow s _ => sane (snd s) | RUB => True end.

  Lemma upd_nil {A} (l : list A) i x : upd l i x <> nil -> l <> nil.
  Proof. destruct l; simpl; [destruct i; auto|intros _; discriminate]. Qed.

  Ltac sane_tac :=
    repeat match goal with
           | H : sane _ |- _ => destruct H as [?Ha ?Hr ?Hn ?Hb ?Hl]
           end; simpl in *; constructor; simpl in *; intros;
    repeat match goal with H : upd _ _ _ <> nil |- _ => apply upd_nil in H end;
    try solve [eauto | congruence | intuition congruence | lia].

  Lemma sane_empty : sane mat_empty.
  Proof. sane_tac. Qed.

  Lemma set_rows_nn (M : mat) rs : sane M -> length rs = length (mrows M) -> sane (set_rows M rs).
  Proof.
    intros [Ha Hr Hn Hb Hl] H. constructor; simpl; auto.
    - intros Hne. apply Hr. destruct (mrows M), rs; simpl in *; congruence.
    - intros E. destruct (Hn E) as (A & B & C). split; auto.
      destruct rs; auto. rewrite A in H. discriminate.
    - intros E. rewrite H. auto.
  Qed.

  Lemma allocate_sane s n m k ar : forall d,
    sane (snd s) -> (ar = true -> mrows (snd s) = nil) -> (ar = false -> n = mn (snd s) /\ length (mrows (snd s)) = n) ->
    madata (snd s) = None -> (mmode (snd s) = Implicit \/ d = false) ->
    rsane (allocate dv s n m k ar d).
  Proof.
    intros d [Ha Hr Hn Hb Hl] H1 H2 H3 H4. destruct s as [h M]. simpl in *. unfold allocate.
    destruct ar; simpl.
    - rewrite (H1 eq_refl). destruct (Nat.ltb_spec 0 n) as [Hlt|Hge]; simpl.
      + destruct d; simpl.
        * unfold allocateData. simpl. rewrite H3. simpl.
          destruct (Nat.ltb_spec 0 k) as [Hk|Hk]; simpl; [destruct (mjid M) eqn:Ej|]; simpl;
            (constructor; simpl; intros; rewrite ?repeat_length; auto; try lia; try congruence);
            try (destruct H4; [congruence|discriminate]).
        * destruct (Nat.ltb_spec 0 k) as [Hk|Hk]; simpl; [destruct (mjid M) eqn:Ej|]; simpl;
            (constructor; simpl; intros; rewrite ?repeat_length; auto; try lia; try congruence).
      + destruct d; simpl.
        * unfold allocateData. simpl. rewrite H3. simpl.
          destruct (Nat.ltb_spec 0 k) as [Hk|Hk]; simpl; [destruct (mjid M) eqn:Ej|]; simpl;
            (constructor; simpl; intros; rewrite ?repeat_length; auto; try lia; try congruence);
            try (destruct H4; [congruence|discriminate]).
        * destruct (Nat.ltb_spec 0 k) as [Hk|Hk]; simpl; [destruct (mjid M) eqn:Ej|]; simpl;
            (constructor; simpl; intros; rewrite ?repeat_length; auto; try lia; try congruence).
    - destruct (H2 eq_refl) as [-> HL2]. destruct d; simpl.
      + unfold allocateData. simpl. rewrite H3. simpl.
        destruct (Nat.ltb_spec 0 k) as [Hk|Hk]; simpl; [destruct (mjid M) eqn:Ej|]; simpl;
          (constructor; simpl; intros; rewrite ?repeat_length; auto; try lia; try congruence);
          try (destruct H4; [congruence|discriminate]).
      + destruct (Nat.ltb_spec 0 k) as [Hk|Hk]; simpl; [destruct (mjid M) eqn:Ej|]; simpl;
          (constructor; simpl; intros; rewrite ?repeat_length; auto; try lia; try congruence).
  Qed.

  Lemma deallocate_sane s : sane (snd s) ->
    sane (snd (deallocate s true)) /\ mrows (snd (deallocate s true)) = nil /\
    madata (snd (deallocate s true)) = None /\ mjid (snd (deallocate s true)) = None /\
    mmode (snd (deallocate s true)) = mmode (snd s) /\ mstage (snd (deallocate s true)) = NotAllocated /\
    mover (snd (deallocate s true)) = mover (snd s) /\ mavg (snd (deallocate s true)) = mavg (snd s) /\
    mcbs (snd (deallocate s true)) = mcbs (snd s) /\ fst (deallocate s true) = fst s.
  Proof.
    intros [Ha Hr Hn Hb Hl]. destruct s as [h M]. simpl in *. unfold deallocate.
    assert (Hrows : mn M = 0 -> mrows M = nil).
    { intros E. destruct (mrows M) eqn:Er; auto. specialize (Hr ltac:(discriminate)). lia. }
    destruct (Nat.ltb_spec 0 (masize M)) as [H1|H1]; destruct (Nat.ltb_spec 0 (mn M)) as [H2|H2]; simpl.
    - repeat split; auto; simpl; intros; try congruence; try lia.
    - rewrite Hrows by lia. repeat split; auto; simpl; intros; try congruence; try lia;
        try (rewrite Hrows by lia; reflexivity).
    - destruct (Ha ltac:(lia)) as [A B]. repeat split; auto; simpl; intros; try congruence; try lia.
    - destruct (Ha ltac:(lia)) as [A B]. rewrite Hrows by lia. simpl.
      repeat split; auto; simpl; intros; try congruence; try lia; try (rewrite Hrows by lia; reflexivity).
  Qed.

  Lemma implicit_allocate_sane s n m : sane (snd s) -> rsane (implicit_allocate dv s n m).
  Proof.
    intros H. unfold implicit_allocate. destruct s as [h M]. simpl in *.
    destruct (mmode M) eqn:Em; simpl; auto. destruct (mstage M) eqn:Es; simpl; auto.
    destruct (mcbs M) as [c|]; simpl; auto.
    destruct (sn_none _ H Es) as (A & B & C).
    pose proof (allocate_sane (h, M) n m (n * mavg M + osize_of n (mavg M) c) true true H) as HA.
    specialize (HA (fun _ => A) ltac:(discriminate) B (or_introl Em)).
    assert (Hn : forall h1 M1 u, allocate dv (h, M) n m (n * mavg M + osize_of n (mavg M) c) true true = ROk (h1, M1) u -> mn M1 = n /\ mmode M1 = mmode M).
    { intros h1 M1 u E. unfold allocate in E. simpl in E. rewrite A in E.
      destruct (0 <? n); simpl in E; unfold allocateData in E; simpl in E; rewrite B in E; simpl in E;
        rewrite C in E; destruct (0 <? n * mavg M + osize_of n (mavg M) c); inversion E; auto. }
    destruct (allocate dv (h, M) n m (n * mavg M + osize_of n (mavg M) c) true true) as [[h1 M1] u|[h1 M1] e|] eqn:E; simpl in *; auto.
    destruct (Hn h1 M1 u eq_refl) as [Hn1 Hm1].
    destruct HA as [Ha Hr Hnn Hb Hl]. constructor; simpl; auto.
    - intros Hne. rewrite Hn1. destruct n; [simpl in Hne; congruence|lia].
    - discriminate.
    - rewrite Hm1, Em. intros; congruence.
    - intros _. rewrite map_length, seq_length; auto.
  Qed.

  Lemma setSize_sane s n m nnz : sane (snd s) -> rsane (setSize dv s n m nnz).
  Proof.
    intros H. destruct (deallocate_sane s H) as (S1 & S2 & S3 & S4 & S5 & S6 & _).
    unfold setSize. destruct (mmode (snd (deallocate s true))) eqn:Em.
    1,2,4: apply allocate_sane; auto; discriminate.
    destruct (0 <? nnz); simpl; auto. apply implicit_allocate_sane; auto.
  Qed.

  Lemma endrowsizes_sane s : sane (snd s) -> rsane (endrowsizes dv s).
  Proof.
    intros H. destruct s as [h M]. unfold endrowsizes. simpl in H.
    destruct (mmode M) eqn:Em; simpl; auto. destruct (mstage M) eqn:Es; simpl; auto.
    pose proof (sn_bld _ H (or_introl Es) ltac:(congruence)) as Hd.
    match goal with |- rsane (rbind ?X _) => set (r1 := X) end.
    assert (Hr : rsane r1 /\ (forall s1 u, r1 = ROk s1 u -> madata (snd s1) = None /\ mmode (snd s1) = Random /\ mstage (snd s1) <> NotAllocated)).
    { unfold r1. destruct (mnnz M =? 0).
      - split; [apply allocate_sane; auto; try discriminate; intros _; split; auto; apply (sn_len _ H); simpl; congruence|].
        intros s1 u E. unfold allocate in E. simpl in E.
        destruct (0 <? total_size (mrows M)); [destruct (mjid M)|]; inversion E; simpl; repeat split; auto; congruence.
      - destruct (mnnz M <? total_size (mrows M)); simpl; split; auto; intros s1 u E; inversion E; simpl; repeat split; auto; congruence. }
    destruct Hr as [Hr1 Hr2]. destruct r1 as [[h1 M1] u|[h1 M1] e|]; simpl; auto.
    destruct (Hr2 _ _ eq_refl) as (Hd1 & Hm1 & Hst1). simpl in *.
    assert (HS : sane (set_stage (set_rows M1 (setColumnPointers 0 (mrows M1))) RowSizesBuilt)).
    { destruct Hr1 as [Ha Hr Hn Hb Hl]. constructor; simpl; auto; try discriminate.
      - intros Hne. apply Hr. destruct (mrows M1); simpl in *; congruence.
      - intros _. rewrite setColumnPointers_length. apply Hl. auto. }
    destruct (mnnz M1 =? 0); simpl; auto.
    destruct (jarr h1 (set_rows M1 (setColumnPointers 0 (mrows M1)))); simpl; auto.
    destruct (mnnz M1 <=? length l); simpl; auto.
  Qed.

  Lemma shrink_rows_len h (M : mat) rs t d : shrink_rows h M rs = Some (t, d) -> length t = length rs.
  Proof.
    revert t d. induction rs as [|r rs IH]; intros t d H; simpl in H; [inversion H; auto|].
    destruct (row_idx h M r); [|discriminate]. destruct (shrink_rows h M rs) as [[t' d']|]; [|discriminate].
    inversion H; subst. simpl. f_equal. eauto.
  Qed.

  Lemma setDataPointers_length off (rs : list row) : length (setDataPointers off rs) = length rs.
  Proof. revert off; induction rs; intros; simpl; auto. Qed.

  Lemma nn_length {A B} (l : list A) (l' : list B) : length l = length l' -> l <> nil -> l' <> nil.
  Proof. destruct l, l'; simpl; intros; congruence. Qed.

  Lemma endindices_sane s : sane (snd s) -> rsane (endindices dv s).
  Proof.
    intros H. destruct s as [h M]. unfold endindices. simpl in H.
    destruct (mmode M) eqn:Em; simpl; auto. destruct (mstage M) eqn:Es; simpl; auto.
    pose proof (sn_bld _ H (or_intror Es) ltac:(congruence)) as Hd.
    destruct (shrink_rows h M (mrows M)) as [[rs d]|] eqn:E; simpl; auto. apply shrink_rows_len in E.
    unfold allocateData. simpl. rewrite Hd. simpl.
    destruct H as [Ha Hr Hn Hb Hl]. constructor; simpl; auto; try discriminate.
    - intros E0. rewrite E0. simpl. split; auto. apply Ha; auto.
    - intros Hne. apply Hr. eapply nn_length; [|exact Hne]. rewrite setDataPointers_length. auto.
    - intros [?|?]; discriminate.
    - intros _. rewrite setDataPointers_length, E. apply Hl. congruence.
  Qed.

  Lemma addindex_sane s i j : sane (snd s) -> rsane (addindex s i j).
  Proof.
    intros H. destruct s as [h M]. unfold addindex. simpl in H.
    destruct (mmode M); simpl; auto. destruct (mstage M); simpl; auto.
    destruct (mm M <=? j); simpl; auto. destruct (nth_error (mrows M) i); simpl; auto.
    destruct (row_idx h M r); simpl; auto. destruct (add_slot (mm M) j l); simpl; auto.
    destruct (rj r); simpl; auto. destruct (jarr h M); simpl; auto.
  Qed.

  Lemma entry_sane chk s i j f : sane (snd s) -> rsane (entry zv chk s i j f).
  Proof.
    intros H. destruct s as [h M]. unfold entry. simpl in H.
    repeat (match goal with |- rsane (if ?b then _ else _) => destruct b; simpl; auto end).
    destruct (nth_error (mrows M) i); simpl; auto.
    destruct (rj r) as [|jo|jl]; simpl; auto. destruct (ra r) as [|ao|al]; simpl; auto.
    assert (Hset : forall k v b, nth_error (data_or_nil M) k = Some v -> sane (set_adata M (Some b))).
    { intros k v b Hk. assert (Hd : madata M <> None).
      { unfold data_or_nil in Hk. destruct (madata M); [discriminate|destruct k; discriminate]. }
      destruct H as [Ha Hr Hn Hb Hl]. constructor; simpl; intros; auto.
      - destruct (Ha H); congruence.
      - destruct (Hn H) as (_ & ? & _); congruence.
      - specialize (Hb H H0). congruence. }
    destruct (find_pos j (slice jo (rsize r) (jarr_or_nil h M))) as [k|].
    - destruct (nth_error (data_or_nil M) (ao + k)) eqn:E; simpl; auto. eauto.
    - destruct (rsize r =? mavg M); simpl.
      + destruct H as [Ha Hr Hn Hb Hl]. constructor; simpl; auto.
      + destruct (nth_error (jarr_or_nil h M) (jo + rsize r)); simpl; auto.
        destruct (nth_error (data_or_nil M) (ao + rsize r)) eqn:E; simpl; auto.
        apply set_rows_nn; eauto. apply upd_length.
  Qed.

  Lemma compress_rows_len rs : forall i (c c' : @cst V) rs', compress_rows i rs c = ROk c' rs' -> length rs' = length rs.
  Proof.
    induction rs as [|r t IH]; intros i c c' rs' H; simpl in H; [inversion H; auto|].
    destruct (compress_row i r c) as [c1 r1| |]; simpl in H; try discriminate.
    destruct (compress_rows (S i) t c1) as [c2 t2| |] eqn:E; simpl in H; try discriminate.
    inversion H; subst. simpl. f_equal. eauto.
  Qed.

  Lemma compress_sane s : sane (snd s) -> rsane (compress s).
  Proof.
    intros H. destruct s as [h M]. unfold compress. simpl in H.
    destruct (mmode M) eqn:Em; simpl; auto. destruct (mstage M) eqn:Es; simpl; auto.
    assert (HB : forall M1 : mat, masize M1 = masize M -> (madata M1 = None <-> madata M = None) -> mjid M1 = mjid M ->
               length (mrows M1) = length (mrows M) -> mn M1 = mn M -> mmode M1 = Implicit -> mstage M1 <> NotAllocated -> sane M1).
    { intros M1 H1 H2 H3 H4 H5 H6 H7. destruct H as [Ha Hr Hn Hb Hl]. constructor; try congruence.
      - rewrite H1, H3. intros E. destruct (Ha E). split; auto. apply H2; auto.
      - intros Hne. rewrite H5. apply Hr. eapply nn_length; eauto.
      - intros _. rewrite H4, H5. apply Hl. congruence. }
    destruct (mrows M) as [|r0 rr] eqn:Er; simpl.
    - apply HB; simpl; auto; try tauto; try discriminate. rewrite Er; auto.
    - match goal with |- context [rbind ?X ?Y] =>
        destruct (rbind X Y) as [c rs|c e|] eqn:EC end; simpl in *; auto.
      + apply (compress_rows_len (r0 :: rr) 0) in EC. simpl in EC.
        destruct rs; simpl; apply HB; simpl; auto; try (destruct (madata M); split; intros; congruence); try congruence; try discriminate.
      + apply HB; simpl; auto; try (destruct (madata M); split; intros; congruence); try congruence. rewrite Er; auto.
  Qed.

  Lemma modify_sane s i j f : sane (snd s) -> rsane (modify s i j f).
  Proof.
    intros H. destruct s as [h M]. unfold modify. simpl in H.
    destruct (get (h, M) i j); simpl; auto. destruct (nth_error (mrows M) i) as [r|]; simpl; auto.
    destruct (row_idx h M r); simpl; auto. destruct (lower_bound l j); simpl; auto.
    destruct (ra r); simpl; auto.
    - destruct (madata M) as [d|] eqn:Ed; simpl; auto. destruct H as [Ha Hr Hn Hb Hl]. constructor; simpl; intros; auto.
      + destruct (Ha H); congruence.
      + destruct (Hn H) as (_ & ? & _). congruence.
      + specialize (Hb H H0). congruence.
    - apply set_rows_nn; auto. apply upd_length.
  Qed.

  Lemma scale_sane s f : sane (snd s) -> rsane (scale s f).
  Proof.
    intros H. destruct s as [h M]. unfold scale. simpl in H.
    assert (Hset : forall (M0 : mat) a b, sane M0 -> madata M0 = Some a -> sane (set_adata M0 (Some b))).
    { intros M0 a b [Ha Hr Hn Hb Hl] Ed. constructor; simpl; intros; auto.
      + destruct (Ha H0); congruence.
      + destruct (Hn H0) as (_ & ? & _). congruence.
      + specialize (Hb H0 H1). congruence. }
    destruct (0 <? mnnz M).
    - destruct (madata M) as [a|] eqn:Ed; simpl; auto. destruct (mnnz M <=? length a); simpl; eauto.
    - destruct (map_opt (row_view h M) (mrows M)); simpl; auto.
      revert H. generalize M at 1 4. generalize (combine (mrows M) (seq 0 (length (mrows M)))).
      intros l0. induction l0 as [|[r i] t IH]; intros M0 HM0; simpl; auto.
      apply IH. destruct (rsize r =? 0); auto. destruct (ra r); auto.
      + destruct (madata M0) eqn:Ed; eauto.
      + apply set_rows_nn; auto. apply upd_length.
  Qed.

  Definition csane {A} (r : res st A) : Prop :=
    match r with ROk s _ => sane (snd s) | RThrow s _ => sane (snd s) | RUB => True end.

  Lemma ci_new_sane (s : st) i : sane (snd s) -> csane (ci_new s i).
  Proof.
    intros H. destruct s as [h M]. unfold ci_new. simpl in H.
    set (M1 := match mmode M, mstage M with Unknown, Building => set_mode M Row_wise | _, _ => M end).
    assert (H1 : sane M1).
    { unfold M1. destruct (mmode M) eqn:Em; auto. destruct (mstage M) eqn:Es; auto.
      destruct H as [Ha Hr Hn Hb Hl]. constructor; simpl; auto. intros. apply Hb; auto. congruence. }
    clearbody M1. destruct ((i =? 0) && negb (match mstage M1 with Building => true | _ => false end)) eqn:E1; simpl; auto.
    destruct (mmode M1) eqn:Em; simpl; auto.
    destruct ((i =? 0) && (mn M1 =? 0)) eqn:E2; simpl; auto.
    destruct H1 as [Ha Hr Hn Hb Hl]. constructor; simpl; auto; try discriminate. 
    - intros [?|?]; discriminate.
    - intros _. apply Hl. intros E. rewrite E in E1. apply andb_true_iff in E2. destruct E2 as [E2 _]. rewrite E2 in E1. discriminate.
  Qed.

  Lemma ci_next_sane (s : st) c : sane (snd s) -> (mmode (snd s) <> Implicit) -> csane (ci_next dv s c).
  Proof.
    intros H Hm. destruct s as [h M]. unfold ci_next. simpl in H, Hm.
    destruct (mstage M) eqn:Es; simpl; auto.
    destruct (nth_error (mrows M) (ci_row c)) eqn:Er; simpl; auto.
    pose proof (sn_bld _ H (or_introl Es) Hm) as Hd.
    match goal with |- csane (rbind ?X _) => set (r1 := X) end.
    assert (Hr1 : match r1 with
                  | ROk s1 _ => sane (snd s1) /\ madata (snd s1) = None /\ mstage (snd s1) <> NotAllocated
                  | RThrow s1 _ => sane (snd s1) | RUB => True end).
    { unfold r1. destruct (0 <? length (ci_pat c)).
      - destruct (0 <? mnnz M).
        + destruct (mnnz M <? ci_nnz c + length (ci_pat c)); simpl; auto.
          destruct (jarr h M); simpl; auto. destruct (ci_pos c + length (ci_pat c) <=? length l); simpl; auto.
          split; [apply set_rows_nn; auto; apply upd_length|split; auto; congruence].
        + simpl. split; [apply set_rows_nn; auto; apply upd_length|split; auto; congruence].
      - simpl. split; [apply set_rows_nn; auto; apply upd_length|split; auto; congruence]. }
    destruct r1 as [[h1 M1] pos|[h1 M1] e|]; simpl in *; auto.
    destruct Hr1 as (HS & Hd1 & Hst1).
    match goal with |- csane (if ?b then _ else _) => destruct b end; simpl; auto.
    destruct HS as [Ha Hr Hn Hb Hl].
    destruct (0 <? mnnz M1); simpl.
    - unfold allocateData. simpl. rewrite Hd1. simpl.
      constructor; simpl; auto; try discriminate.
      + intros E0. rewrite E0. simpl. split; auto. apply Ha; auto.
      + intros Hne. apply Hr. eapply nn_length; [|exact Hne]. apply setDataPointers_length.
      + intros [?|?]; discriminate.
      + intros _. rewrite setDataPointers_length. auto.
    - constructor; simpl; auto; try discriminate.
  Qed.

  Lemma ci_new_mode (s : st) i s' c : ci_new s i = ROk s' c -> mmode (snd s') = Row_wise.
  Proof.
    destruct s as [h M]. unfold ci_new.
    set (M1 := match mmode M, mstage M with Unknown, Building => set_mode M Row_wise | _, _ => M end).
    clearbody M1. destruct ((i =? 0) && negb (match mstage M1 with Building => true | _ => false end)); try discriminate.
    destruct (mmode M1) eqn:Em; try discriminate. intros H. inversion H; subst. simpl.
    destruct ((i =? 0) && (mn M1 =? 0)); auto.
  Qed.

  Lemma ci_walk_sane ins : forall (s : st) c, sane (snd s) -> csane (ci_walk dv s c ins).
  Proof.
    induction ins as [|js t IH]; intros s c H; simpl.
    - pose proof (ci_new_sane s (mn (snd s)) H) as HN. unfold createend.
      destruct (ci_new s (mn (snd s))) as [s1 e|s1 e|]; simpl in *; auto.
      destruct (ci_row c =? ci_row e); simpl; auto.
    - pose proof (ci_new_sane s (mn (snd s)) H) as HN. unfold createend.
      destruct (ci_new s (mn (snd s))) as [s1 e|s1 e|] eqn:E; simpl in *; auto.
      destruct (ci_row c =? ci_row e); simpl; auto.
      apply ci_new_mode in E.
      pose proof (ci_next_sane s1 (fold_left ci_insert js c) HN ltac:(congruence)) as HX.
      destruct (ci_next dv s1 (fold_left ci_insert js c)) as [s2 c2|s2 c2|]; simpl in *; auto.
  Qed.

  Lemma rowwise_sane ins s : sane (snd s) -> csane (rowwise_build dv s ins).
  Proof.
    intros H. unfold rowwise_build. pose proof (ci_new_sane s 0 H) as HN. unfold createbegin.
    destruct (ci_new s 0) as [s1 c|s1 e|]; simpl in *; auto. apply ci_walk_sane; auto.
  Qed.

  Lemma call_sane s c : sane (snd s) -> rsane (call_step s c).
  Proof.
    intros H. destruct c; simpl call_step.
    - (* setBuildMode *) destruct s as [h M]. unfold setBuildMode. simpl in H.
      destruct (mstage M) eqn:Es; simpl; auto.
      + destruct (sn_none _ H Es) as (A & B & C). destruct H as [Ha Hr Hn Hb Hl]. constructor; simpl; auto.
      + destruct (mmode M) eqn:Em; destruct b; simpl; auto;
          (destruct H as [Ha Hr Hn Hb Hl]; constructor; simpl; auto; intros; apply Hb; auto; congruence).
    - apply setSize_sane; auto.
    - destruct c; simpl; auto. destruct (mstage (snd s)) eqn:Es; simpl; auto.
      destruct H as [Ha Hr Hn Hb Hl]. constructor; simpl; auto.
    - destruct s as [h M]. unfold setrowsize. destruct (mmode M); simpl; auto. destruct (mstage M); simpl; auto.
      destruct (nth_error (mrows M) i); simpl; auto. apply set_rows_nn; auto. apply upd_length.
    - destruct s as [h M]. unfold incrementrowsize. destruct (mmode M); simpl; auto. destruct (mstage M); simpl; auto.
      destruct (nth_error (mrows M) i); simpl; auto. apply set_rows_nn; auto. apply upd_length.
    - apply endrowsizes_sane; auto.
    - apply addindex_sane; auto.
    - apply endindices_sane; auto.
    - pose proof (rowwise_sane ins s H) as HR. destruct (rowwise_build dv s ins); simpl in *; auto.
    - apply entry_sane; auto.
    - apply compress_sane; auto.
    - simpl. destruct s as [h M]. unfold nonzeroes. destruct (mnnz M =? 0); simpl; auto.
      destruct H as [Ha Hr Hn Hb Hl]. constructor; simpl; auto.
    - apply modify_sane; auto.
    - apply scale_sane; auto.
  Qed.

  Lemma nonzeroes_sane (s : st) : sane (snd s) -> sane (snd (fst (nonzeroes s))).
  Proof. intros H. exact (call_sane s KNonzeroes H). Qed.

  (** a finished copy is sane whatever was copied *)
  Lemma rows_assign_keep rds : forall h (M S : mat) rss h' M',
    rows_assign h M S rds rss = Some (h', M') ->
    mrows M' = mrows M /\ mn M' = mn M /\ masize M' = masize M /\ mjid M' = mjid M /\ (madata M = None -> madata M' = None).
  Proof.
    induction rds as [|rd t IH]; intros h M S rss h' M' H; simpl in H; [inversion H; auto|].
    destruct rss as [|rs ts]; [inversion H; auto 6|].
    destruct (row_assign h M S rd rs) as [[h1 M1]|] eqn:E; [|discriminate].
    apply IH in H. destruct H as (A & B & C & D & F).
    assert (HX : mrows M1 = mrows M /\ mn M1 = mn M /\ masize M1 = masize M /\ mjid M1 = mjid M /\ (madata M = None -> madata M1 = None)).
    { unfold row_assign in E. destruct (rsize rd =? 0); [inversion E; subst; auto 6|].
      destruct (row_val S rs); [|discriminate]. destruct (ra rd); try discriminate.
      destruct (madata M) as [a|] eqn:Ed; [|discriminate]. destruct (rj rd); try discriminate.
      destruct (off + length l <=? length a); [|discriminate]. destruct (row_idx h S rs); [|discriminate].
      destruct (jarr h (set_adata M (Some (splice off l a)))); [|discriminate].
      destruct (off0 + length l0 <=? length l1); [|discriminate]. inversion E; subst. simpl.
      repeat split; auto. discriminate. }
    destruct HX as (A' & B' & C' & D' & F'). repeat split; try congruence. auto.
  Qed.

  Lemma cws_sane h (M S : mat) h' M' :
    copyWindowStructure h M S = Some (h', M') -> (mrows S <> nil -> 0 < mn M) ->
    (masize M = 0 -> madata M = None /\ mjid M = None) -> sane M'.
  Proof.
    unfold copyWindowStructure. intros E H1 H2.
    destruct (Nat.eqb_spec (length (mrows M)) (mn M)) as [HL1|]; [|discriminate].
    destruct (Nat.eqb_spec (length (mrows S)) (mn M)) as [HL2|]; [|discriminate]. cbn [negb orb] in E.
    destruct (rows_assign h (set_rows M (setWindowPointers 0 (mrows S))) S
                (mrows (set_rows M (setWindowPointers 0 (mrows S)))) (mrows S)) as [[h2 M2]|] eqn:ER; [|discriminate].
    inversion E; subst. apply rows_assign_keep in ER. destruct ER as (A & B & C & D & F). simpl in *.
    constructor; simpl; try discriminate.
    - rewrite C, D. intros E0. destruct (H2 E0). auto.
    - rewrite A, B. intros Hne. apply H1. rewrite setWindowPointers_wins in Hne.
      destruct (mrows S); simpl in *; congruence.
    - intros [?|?]; discriminate.
    - intros _. rewrite A, B, setWindowPointers_wins, wins_length, map_length. auto.
  Qed.

  Lemma allocate_facts h (M : mat) n m k ar h1 M1 u :
    allocate dv (h, M) n m k ar true = ROk (h1, M1) u ->
    mn M1 = n /\ (masize M1 = 0 -> madata M1 = None /\ mjid M1 = None).
  Proof.
    unfold allocate. simpl. intros E.
    assert (G : forall M2 : mat, mn M2 = n -> masize M2 = k ->
      rbind (match allocateData dv M2 with ROk M3 _ => ROk (h, M3) tt | RThrow M3 e => RThrow (h, M3) e | RUB => RUB end)
        (fun s2 _ => let (h2, M3) := s2 in
         ROk (fst (if 0 <? masize M3 then match mjid M3 with Some _ => (h2, M3) | None => (h2 ++ [repeat 0 (masize M3)], set_jid M3 (Some (length h2))) end else (h2, set_jid M3 None)),
              set_stage (snd (if 0 <? masize M3 then match mjid M3 with Some _ => (h2, M3) | None => (h2 ++ [repeat 0 (masize M3)], set_jid M3 (Some (length h2))) end else (h2, set_jid M3 None))) Building) tt)
      = ROk (h1, M1) u -> mn M1 = n /\ (masize M1 = 0 -> madata M1 = None /\ mjid M1 = None)).
    { intros M2 G1 G2 G3. unfold allocateData in G3. destruct (madata M2); simpl in G3; [discriminate|].
      rewrite G2 in G3. destruct (Nat.ltb_spec 0 k); simpl in G3.
      - destruct (mjid M2); inversion G3; subst; simpl; rewrite ?G1; split; auto; lia.
      - inversion G3; subst; simpl; rewrite ?G1; split; auto. }
    destruct ar; simpl in E.
    - destruct (0 <? n); simpl in E.
      + destruct (mrows M); simpl in E; [|discriminate]. eapply G; [| |exact E]; reflexivity.
      + eapply G; [| |exact E]; reflexivity.
    - eapply G; [| |exact E]; reflexivity.
  Qed.

  Lemma nonzeroes_rows (s : st) : mrows (snd (fst (nonzeroes s))) = mrows (snd s) /\ mn (snd (fst (nonzeroes s))) = mn (snd s).
  Proof. destruct s as [h M]. unfold nonzeroes. destruct (mnnz M =? 0); auto. Qed.

  Theorem reachable_sane (s : st) : reachable s -> sane (snd s).
  Proof.
    induction 1 as [h | h n m nnz b s u E | h n m avg c b s u E | s c s' u HR IH E | s c s' e HR IH E
                   | h h' M HR IH | h S h' S' M HR IH E | h S h' S' M HR IH E
                   | h D S h' S' M HR IH HR2 IH2 E | h D S h' S' M HR IH HR2 IH2 E].
    - apply sane_empty.
    - pose proof (allocate_sane (h, set_mode (@mat_empty V) b) n m nnz true false) as HA.
      unfold mat_new in E. rewrite E in HA. apply HA; simpl; auto; try discriminate. sane_tac.
    - unfold mat_new_implicit in E. destruct b; try discriminate. destruct c as [c|]; try discriminate.
      pose proof (implicit_allocate_sane (h, set_params (set_mode (@mat_empty V) Implicit) avg (Some c)) n m) as HA.
      rewrite E in HA. apply HA. sane_tac.
    - pose proof (call_sane s c IH) as HC. rewrite E in HC. auto.
    - pose proof (call_sane s c IH) as HC. rewrite E in HC. auto.
    - exact IH.
    - unfold copy_ctor in E. destruct (mstage S); try discriminate;
        pose proof (nonzeroes_sane (h, S) IH) as HN; destruct (nonzeroes (h, S)) as [[h0 S1] k]; simpl in HN;
        (destruct (allocate dv (h0, _) (mn S) (mm S) k true true) as [[h1 M1] u|[h1 M1] e|]; try discriminate);
        (destruct (copyWindowStructure h1 M1 S1) as [[h2 M2]|]; inversion E; subst; auto).
    - unfold copy_ctor in E. destruct (mstage S); try discriminate;
        pose proof (nonzeroes_sane (h, S) IH) as HN; pose proof (nonzeroes_rows (h, S)) as HNR;
        destruct (nonzeroes (h, S)) as [[h0 S1] k]; simpl in HN, HNR;
        (destruct (allocate dv (h0, _) (mn S) (mm S) k true true) as [[h1 M1] u|[h1 M1] e|] eqn:EA; try discriminate);
        (destruct (copyWindowStructure h1 M1 S1) as [[h2 M2]|] eqn:EC; inversion E; subst);
        apply allocate_facts in EA; destruct EA as [EA1 EA2]; destruct HNR as [HN1 HN2];
        eapply cws_sane; eauto; intros Hne; rewrite EA1; rewrite HN1 in Hne; apply (sn_rows _ IH); exact Hne.
    - unfold copy_assign in E. destruct (deallocate (h, D) (negb (mn D =? mn S))) as [h1 D1].
      destruct (mstage D); try discriminate; destruct (mstage S); try discriminate;
        pose proof (nonzeroes_sane (h1, S) IH2) as HN; destruct (nonzeroes (h1, S)) as [[h2 S1] k]; simpl in HN;
        (destruct (allocate dv (h2, _) (mn S) (mm S) k (negb (mn D =? mn S)) true) as [[h3 D3] u|[h3 D3] e|]; try discriminate);
        (destruct (copyWindowStructure h3 D3 S1) as [[h4 D4]|]; inversion E; subst; auto).
    - unfold copy_assign in E. destruct (deallocate (h, D) (negb (mn D =? mn S))) as [h1 D1].
      destruct (mstage D); try discriminate; destruct (mstage S); try discriminate;
        pose proof (nonzeroes_sane (h1, S) IH2) as HN; pose proof (nonzeroes_rows (h1, S)) as HNR;
        destruct (nonzeroes (h1, S)) as [[h2 S1] k]; simpl in HN, HNR;
        (destruct (allocate dv (h2, _) (mn S) (mm S) k (negb (mn D =? mn S)) true) as [[h3 D3] u|[h3 D3] e|] eqn:EA; try discriminate);
        (destruct (copyWindowStructure h3 D3 S1) as [[h4 D4]|] eqn:EC; inversion E; subst);
        apply allocate_facts in EA; destruct EA as [EA1 EA2]; destruct HNR as [HN1 HN2];
        eapply cws_sane; eauto; intros Hne; rewrite EA1; rewrite HN1 in Hne; apply (sn_rows _ IH2); exact Hne.
  Qed.

  (** setSize outside implicit mode: like a new object, apart from the parameters and the overflow map *)
  Lemma setSize_fresh s n m nnz b :
    sane (snd s) -> mmode (snd s) = b -> b <> Implicit ->
    exists s', setSize dv s n m nnz = ROk s' tt /\ fresh s' b n m nnz.
  Proof.
    intros H Hb Hni. destruct (deallocate_sane s H) as (S1 & S2 & S3 & S4 & S5 & S6 & _).
    unfold setSize. destruct (deallocate s true) as [h M]. cbn [fst snd] in *. rewrite S5, Hb.
    destruct (allocate_fresh dv h M n m nnz b ltac:(congruence) S2 S3 S4) as (s' & E & F & _).
    exists s'. split; auto. destruct b; auto. congruence.
  Qed.
End Reach.
