(** * Construction and resizing of BDMatrix / BTDMatrix (bdmatrix.hh, btdmatrix.hh), second part of C22 *)
From Coq Require Import Arith List Lia Sorted Bool.
From Verif Require Import Sums Outcome BcrsModel BcrsAux BcrsRandom BcrsSpec BcrsProps BcrsReach BcrsFinal.
Import ListNotations.
Open Scope nat_scope.

Section BTDStruct.
  Context {V : Type}.
  Variables dv zv : V.

  (** ** Model *)
  (** the calls of setrowsize and addindex made by BDMatrix (bdmatrix.hh:57-65, 84-92) *)
  Definition bd_sizes (n : nat) : list rscmd := map (fun i => SetRS i 1) (seq 0 n).
  Definition bd_adds (n : nat) : list (nat * nat) := map (fun i => (i, i)) (seq 0 n).
  (** and by BTDMatrix (btdmatrix.hh:58-74, 87-103) *)
  Definition btd_len (n i : nat) : nat := 3 - (if i =? 0 then 1 else 0) - (if i =? n - 1 then 1 else 0).
  Definition btd_sizes (n : nat) : list rscmd := map (fun i => SetRS i (btd_len n i)) (seq 0 n).
  Definition btd_adds (n : nat) : list (nat * nat) :=
    flat_map (fun i => (if 0 <? i then [(i, i - 1)] else nil) ++ [(i, i)] ++ (if i <? n - 1 then [(i, i + 1)] else nil)) (seq 0 n).
  (** constructors BDMatrix(n), BTDMatrix(n) *)
  Definition bd_new (h : heap) (n : nat) : res (@st V) unit := random_program dv h n n 0 (bd_sizes n) (bd_adds n).
  Definition btd_new (h : heap) (n : nat) : res (@st V) unit := random_program dv h n n 0 (btd_sizes n) (btd_adds n).
  (** BDMatrix::setSize (bdmatrix.hh:78-93), BTDMatrix::setSize (btdmatrix.hh:78-104) *)
  Definition bd_setSize (s : st) (n : nat) : res (@st V) unit :=
    rbind (setSize dv s n n n) (fun s0 _ => random_program_on dv s0 (bd_sizes n) (bd_adds n)).
  Definition btd_setSize (s : st) (n : nat) : res (@st V) unit :=
    rbind (setSize dv s n n (if n =? 0 then 0 else n + 2 * (n - 1))) (fun s0 _ => random_program_on dv s0 (btd_sizes n) (btd_adds n)).

  (** ** Specification *)
  Definition bd_pattern (n i j : nat) : Prop := i < n /\ j = i.
  Definition btd_pattern (n i j : nat) : Prop := i < n /\ j < n /\ i <= S j /\ j <= S i.

  (** ** Proof *)
  Lemma declared_set (f : nat -> nat) n : forall k i a, declared_from a (map (fun i => SetRS i (f i)) (seq k n)) i = if (k <=? i) && (i <? k + n) then f i else a.
  Proof.
    induction n as [|n IH]; intros k i a; cbn [seq map declared_from].
    - rewrite Nat.add_0_r. destruct (Nat.leb_spec k i), (Nat.ltb_spec i k); cbn [andb]; auto; lia.
    - rewrite IH. destruct (Nat.eqb_spec i k) as [E|E]; destruct (Nat.leb_spec (S k) i), (Nat.ltb_spec i (S k + n)), (Nat.leb_spec k i), (Nat.ltb_spec i (k + S n)); cbn [andb]; auto; try lia;
        subst; auto.
  Qed.
  Lemma declared_set0 (f : nat -> nat) n i : i < n -> declared (map (fun i => SetRS i (f i)) (seq 0 n)) i = f i.
  Proof. intros H. unfold declared. rewrite declared_set. destruct (Nat.leb_spec 0 i), (Nat.ltb_spec i (0 + n)); cbn [andb]; auto; lia. Qed.

  Lemma bd_adds_in n i j : In (i, j) (bd_adds n) <-> bd_pattern n i j.
  Proof.
    unfold bd_adds, bd_pattern. rewrite in_map_iff. split.
    - intros (k & E & H). injection E as <- <-. apply in_seq in H. lia.
    - intros [H ->]. exists i. split; auto. apply in_seq. lia.
  Qed.
  Lemma btd_adds_in n i j : In (i, j) (btd_adds n) <-> btd_pattern n i j.
  Proof.
    unfold btd_adds, btd_pattern. rewrite in_flat_map. split.
    - intros (k & H1 & H2). apply in_seq in H1. rewrite !in_app_iff in H2. destruct H2 as [H2|[H2|H2]].
      + destruct (Nat.ltb_spec 0 k); [|destruct H2]. destruct H2 as [H2|[]]. injection H2 as <- <-. lia.
      + destruct H2 as [H2|[]]. injection H2 as <- <-. lia.
      + destruct (Nat.ltb_spec k (n - 1)); [|destruct H2]. destruct H2 as [H2|[]]. injection H2 as <- <-. lia.
    - intros (H1 & H2 & H3 & H4). exists i. split; [apply in_seq; lia|]. rewrite !in_app_iff.
      assert (Q : j = i \/ S j = i \/ j = S i) by lia. destruct Q as [->|[Q|Q]]; [right; left; left; auto|left|right; right].
      + destruct (Nat.ltb_spec 0 i); [|lia]. left. f_equal. lia.
      + destruct (Nat.ltb_spec i (n - 1)); [|lia]. left. f_equal. lia.
  Qed.
  Lemma list_sum_const1 n : list_sum (map (fun _ : nat => 1) (seq 0 n)) = n.
  Proof. assert (H : forall k, list_sum (map (fun _ : nat => 1) (seq k n)) = n); [|apply H]. induction n as [|n IH]; intros k; [reflexivity|]. cbn [seq map]. change (1 + list_sum (map (fun _ : nat => 1) (seq (S k) n)) = S n). now rewrite IH. Qed.

  Lemma bd_legal n nnz : nnz = 0 \/ nnz = n -> random_legal n n nnz (bd_sizes n) (bd_adds n).
  Proof.
    intros Hz. split; [|split].
    - intros i j H. apply bd_adds_in in H. unfold bd_pattern in H. lia.
    - intros i Hi. unfold bd_sizes. rewrite (declared_set0 (fun _ => 1)) by auto. intros l HN HL.
      destruct l as [|a [|b l]]; cbn; [lia|lia|]. exfalso. pose proof (HL a (or_introl eq_refl)) as H1. pose proof (HL b (or_intror (or_introl eq_refl))) as H2.
      apply bd_adds_in in H1. apply bd_adds_in in H2. destruct H1 as [_ ->], H2 as [_ ->]. apply NoDup_cons_iff in HN. destruct HN as [HN _]. apply HN. left. auto.
    - destruct Hz as [Hz|Hz]; [auto|right]. unfold declared_total, bd_sizes. rewrite (map_ext_in _ (fun _ => 1)).
      + rewrite list_sum_const1. lia.
      + intros i Hi. apply in_seq in Hi. apply (declared_set0 (fun _ => 1)). lia.
  Qed.
  Lemma btd_total n k m : k + m = n -> 0 < m -> list_sum (map (btd_len n) (seq k m)) + 1 = 3 * m - (if k =? 0 then 1 else 0).
  Proof.
    revert k. induction m as [|m IH]; intros k Hk Hm; [lia|]. cbn [seq map].
    change (list_sum (btd_len n k :: map (btd_len n) (seq (S k) m))) with (btd_len n k + list_sum (map (btd_len n) (seq (S k) m))).
    unfold btd_len at 1. destruct m as [|m].
    - cbn [seq map list_sum fold_right]. destruct (Nat.eqb_spec k 0), (Nat.eqb_spec k (n - 1)); try lia.
    - specialize (IH (S k) ltac:(lia) ltac:(lia)). cbn [Nat.eqb] in IH. destruct (Nat.eqb_spec k 0), (Nat.eqb_spec k (n - 1)); lia.
  Qed.
  Lemma btd_legal n nnz : nnz = 0 \/ nnz = (if n =? 0 then 0 else n + 2 * (n - 1)) -> random_legal n n nnz (btd_sizes n) (btd_adds n).
  Proof.
    intros Hz. split; [|split].
    - intros i j H. apply btd_adds_in in H. unfold btd_pattern in H. lia.
    - intros i Hi. unfold btd_sizes. rewrite declared_set0 by auto. intros l HN HL.
      set (full := (if i =? 0 then nil else [i - 1]) ++ [i] ++ (if i =? n - 1 then nil else [i + 1])).
      assert (LF : length full <= btd_len n i).
      { unfold full, btd_len. rewrite !app_length. destruct (i =? 0), (i =? n - 1); cbn; lia. }
      etransitivity; [|exact LF]. apply NoDup_incl_length; auto. intros j Hj. apply HL in Hj. apply btd_adds_in in Hj. unfold btd_pattern in Hj.
      unfold full. rewrite !in_app_iff. assert (Q : j = i \/ S j = i \/ j = S i) by lia. destruct Q as [->|[Q|Q]]; [right; left; left; auto|left|right; right].
      + destruct (Nat.eqb_spec i 0); [lia|]. left. lia.
      + destruct (Nat.eqb_spec i (n - 1)); [lia|]. left. lia.
    - destruct Hz as [Hz|Hz]; [auto|]. destruct (Nat.eqb_spec n 0) as [->|Hn]; [auto|right]. unfold declared_total, btd_sizes.
      rewrite (map_ext_in _ (btd_len n)) by (intros i Hi; apply in_seq in Hi; apply declared_set0; lia).
      pose proof (btd_total n 0 n ltac:(lia) ltac:(lia)) as Q. cbn [Nat.eqb] in Q. lia.
  Qed.
  Lemma sizes_range (f : nat -> nat) n : Forall (fun c => rs_index c < n) (map (fun i => SetRS i (f i)) (seq 0 n)).
  Proof. apply Forall_forall. intros c Hc. apply in_map_iff in Hc. destruct Hc as (i & <- & H). apply in_seq in H. cbn. lia. Qed.
  Lemma shows_ext s n m (P Q : nat -> nat -> Prop) (val : nat -> nat -> V) : (forall i j, P i j <-> Q i j) -> shows s n m P val -> shows s n m Q val.
  Proof.
    intros H (H1 & H2 & H3 & rows & H4 & H5 & H6). repeat (split; auto). exists rows. split; auto. split; auto. intros i row Hr.
    destruct (H6 i row Hr) as (A & B & C). split; auto. split; auto. intros j. rewrite B. apply H.
  Qed.
  Lemma bd_range n : Forall (fun ij => fst ij < n) (bd_adds n).
  Proof. apply Forall_forall. intros [i j] H. apply bd_adds_in in H. unfold bd_pattern in H. cbn. lia. Qed.
  Lemma btd_range n : Forall (fun ij => fst ij < n) (btd_adds n).
  Proof. apply Forall_forall. intros [i j] H. apply btd_adds_in in H. unfold btd_pattern in H. cbn. lia. Qed.

  (** BDMatrix(n) / BTDMatrix(n) have the diagonal / tridiagonal pattern. *)
  Theorem C22_new_pattern h n :
    (exists s, bd_new h n = ROk s tt /\ shows s n n (bd_pattern n) (fun _ _ => dv)) /\
    (exists s, btd_new h n = ROk s tt /\ shows s n n (btd_pattern n) (fun _ _ => dv)).
  Proof.
    split.
    - destruct (C01_random_build_pattern dv h n n 0 (bd_sizes n) (bd_adds n)) as (s & E & HS & _); [apply sizes_range|apply bd_range|apply bd_legal; auto|].
      exists s. split; auto. eapply shows_ext; [|exact HS]. apply bd_adds_in.
    - destruct (C01_random_build_pattern dv h n n 0 (btd_sizes n) (btd_adds n)) as (s & E & HS & _); [apply sizes_range|apply btd_range|apply btd_legal; auto|].
      exists s. split; auto. eapply shows_ext; [|exact HS]. apply btd_adds_in.
  Qed.

  (** setSize(n) on any object whose build mode is random (constructed with a size and not copied to) *)
  Theorem C22_setSize_pattern s n : reachable dv zv s -> mmode (snd s) = Random ->
    (exists s', bd_setSize s n = ROk s' tt /\ shows s' n n (bd_pattern n) (fun _ _ => dv)) /\
    (exists s', btd_setSize s n = ROk s' tt /\ shows s' n n (btd_pattern n) (fun _ _ => dv)).
  Proof.
    intros HR HM. split.
    - destruct (C08_setSize_then_random dv zv s n n n (bd_sizes n) (bd_adds n) HR HM (sizes_range _ n) (bd_range n)) as (s0 & E & A & _).
      destruct (A (bd_legal n n (or_intror eq_refl))) as (s' & E' & HS). exists s'. unfold bd_setSize. rewrite E. cbn [rbind]. split; auto.
      eapply shows_ext; [|exact HS]. apply bd_adds_in.
    - destruct (C08_setSize_then_random dv zv s n n (if n =? 0 then 0 else n + 2 * (n - 1)) (btd_sizes n) (btd_adds n) HR HM (sizes_range _ n) (btd_range n)) as (s0 & E & A & _).
      destruct (A (btd_legal n _ (or_intror eq_refl))) as (s' & E' & HS). exists s'. unfold btd_setSize. rewrite E. cbn [rbind]. split; auto.
      eapply shows_ext; [|exact HS]. apply btd_adds_in.
  Qed.

  (** What fails: on a default-constructed object, on a copy and on the target of an assignment (build mode unknown, row_wise),
      setSize(n) with n > 0 throws. *)
  Theorem C22_setSize_throws_refuted s n : reachable dv zv s -> mmode (snd s) = Unknown \/ mmode (snd s) = Row_wise -> 0 < n ->
    (exists s', bd_setSize s n = RThrow s' EBCRS) /\ (exists s', btd_setSize s n = RThrow s' EBCRS).
  Proof.
    intros HR HM Hn. apply reachable_sane in HR.
    assert (G : forall nnz f adds, exists s', rbind (setSize dv s n n nnz) (fun s0 _ => random_program_on dv s0 (map (fun i => SetRS i (f i)) (seq 0 n)) adds) = RThrow s' EBCRS).
    { intros nnz f adds. destruct (setSize_fresh dv s n n nnz _ HR eq_refl) as (s0 & E & F); [destruct HM as [->| ->]; discriminate|].
      rewrite E. cbn [rbind]. unfold random_program_on. destruct n as [|n]; [lia|]. cbn [seq map rrun rs_step].
      pose proof (fr_mode _ _ _ _ _ F) as FM. destruct s0 as [h0 M0]. cbn [fst snd] in FM. unfold setrowsize. rewrite FM.
      destruct HM as [-> | ->]; cbn [rbind]; eauto. }
    split; apply G.
  Qed.
  Theorem C22_default_and_copies_cannot_resize h S h' S' M n : reachable dv zv (h, S) -> copy_ctor dv h S = ROk (h', S') M -> 0 < n ->
    (exists s', bd_setSize (h, mat_empty) n = RThrow s' EBCRS) /\ (exists s', bd_setSize (h', M) n = RThrow s' EBCRS) /\
    (exists s', btd_setSize (h, mat_empty) n = RThrow s' EBCRS) /\ (exists s', btd_setSize (h', M) n = RThrow s' EBCRS).
  Proof.
    intros HR HC Hn. destruct (C22_setSize_throws_refuted (h, mat_empty) n) as [A B]; [apply R_default|auto|auto|].
    assert (HM : mmode M = Row_wise).
    { unfold copy_ctor in HC. destruct (mstage S); try discriminate.
      all: destruct (nonzeroes (h, S)) as [[h0 S1] k]; destruct (allocate _ _ _ _ _ _ _) as [[h1 M1] ?|[h1 M1] e|]; try discriminate.
      all: destruct (copyWindowStructure h1 M1 S1) as [[h2 M2]|] eqn:EC; try discriminate; injection HC as <- <- <-.
      all: unfold copyWindowStructure in EC; destruct (_ || _); try discriminate; destruct (rows_assign _ _ _ _ _) as [[h3 M3]|]; try discriminate; injection EC as <- <-; reflexivity. }
    destruct (C22_setSize_throws_refuted (h', M) n) as [C D]; [eapply R_copy; eauto|right; exact HM|auto|]. auto.
  Qed.
End BTDStruct.

(** *** Non-vacuity *)
Example C22_struct_nonvacuous : exists s, btd_new 7 [] 3 = ROk s tt /\ view s = Some [[(0,7);(1,7)];[(0,7);(1,7);(2,7)];[(1,7);(2,7)]] /\
  exists s', btd_setSize 7 s 2 = ROk s' tt /\ view s' = Some [[(0,7);(1,7)];[(0,7);(1,7)]].
Proof. eexists. split; [vm_compute; reflexivity|]. split; [reflexivity|]. eexists. split; vm_compute; reflexivity. Qed.
Print Assumptions C22_new_pattern.
Print Assumptions C22_setSize_pattern.
Print Assumptions C22_default_and_copies_cannot_resize.
