(** * Properties of BCRSMatrix: random build mode, access, scaling, copying *)
From Coq Require Import List Arith Bool Lia Sorted Permutation.
From Verif Require Import Sums Outcome BcrsModel BcrsSpec BcrsAux BcrsRandom BcrsWf BcrsAccess BcrsCopy.
Import ListNotations.

Section Glue.
  Context {V : Type}.
  Variable dv : V.
  Notation st := (@st V).
  Implicit Types (s : st) (vals : list (list V)) (cols : list (list nat)).

  Lemma combine_fst {A B} (a : list A) (b : list B) : length b = length a -> map fst (combine a b) = a.
  Proof. revert b. induction a as [|x t IH]; intros [|y b] H; simpl in *; try discriminate; auto. f_equal. auto. Qed.
  Lemma combine_snd {A B} (a : list A) (b : list B) : length b = length a -> map snd (combine a b) = b.
  Proof. revert b. induction a as [|x t IH]; intros [|y b] H; simpl in *; try discriminate; auto. f_equal. auto. Qed.

  Lemma combine_In_nth {A B} (a : list A) (b : list B) x y :
    In (x, y) (combine a b) -> exists p, nth_error a p = Some x /\ nth_error b p = Some y.
  Proof.
    revert b. induction a as [|u t IH]; intros [|w b] H; simpl in *; try tauto.
    destruct H as [H|H]; [inversion H; subst; exists 0; auto|].
    destruct (IH _ H) as (p & H1 & H2). exists (S p). auto.
  Qed.

  Lemma built_shows s n m cols vals P val :
    built s n m cols vals ->
    (forall i c, nth_error cols i = Some c -> forall j, In j c <-> P i j) ->
    (forall i c v p j x, nth_error cols i = Some c -> nth_error vals i = Some v ->
        nth_error c p = Some j -> nth_error v p = Some x -> x = val i j) ->
    shows s n m P val.
  Proof.
    intros W HP Hval. pose proof (built_view _ _ _ _ _ W) as Hv.
    destruct (built_nrows _ _ _ _ _ W) as (H1 & H2 & H3 & Hok).
    split; [destruct W as [W|W]; destruct W; auto|].
    split; [destruct W as [W|W]; destruct W; auto|].
    split; [destruct W as [W|W]; destruct W; auto|].
    exists (zip_rows cols vals). split; auto. split.
    { unfold zip_rows. rewrite map_length, combine_length. lia. }
    intros i row Hrow.
    assert (Hi : i < length cols).
    { apply nth_error_lt in Hrow. unfold zip_rows in Hrow. rewrite map_length, combine_length in Hrow. lia. }
    destruct (nth_error_ex cols i ltac:(lia)) as [c Hc]. destruct (nth_error_ex vals i ltac:(lia)) as [v Hv2].
    rewrite (zip_rows_nth _ _ _ _ _ Hc Hv2) in Hrow. inversion Hrow; subst row.
    destruct Hok as (HL & HLL & HS). pose proof (HLL i c v Hc Hv2) as Hlen.
    rewrite combine_fst by auto. rewrite Forall_forall in HS.
    destruct (HS c (nth_error_In _ _ Hc)) as [HSc _].
    split; auto. split; [eauto|].
    intros j x Hin. apply combine_In_nth in Hin. destruct Hin as (p & Hp1 & Hp2). eauto.
  Qed.

  Lemma list_sum_ext_declared cmds (sizes : list nat) n :
    length sizes = n -> (forall i, i < n -> nth i sizes 0 = declared cmds i) ->
    list_sum sizes = list_sum (map (declared cmds) (seq 0 n)).
  Proof.
    intros HL HN. f_equal. apply list_eq_nth; [rewrite map_length, seq_length; auto|].
    intros i Hi. rewrite nth_error_map.
    rewrite (nth_error_nth' (seq 0 n) 0) by (rewrite seq_length; lia). rewrite seq_nth by lia. simpl.
    rewrite (nth_error_nth' sizes 0) by auto. f_equal. apply HN. lia.
  Qed.

  Lemma inserts_nil_length js k : length (inserts js nil) <= k <-> at_most k (fun j => In j js).
  Proof.
    assert (HS : ssorted (inserts js nil)) by (apply inserts_ss; constructor).
    assert (HI : forall y, In y (inserts js nil) <-> In y js) by (intros y; rewrite inserts_In; simpl; tauto).
    split.
    - intros H l HN Hl. transitivity (length (inserts js nil)); auto.
      apply NoDup_incl_length; auto. intros x Hx. apply HI. auto.
    - intros H. apply H; [apply ss_nodup; auto|]. intros j Hj. apply HI. auto.
  Qed.

  Lemma at_most_ext k (P Q : nat -> Prop) : (forall j, P j <-> Q j) -> at_most k P <-> at_most k Q.
  Proof. intros H. unfold at_most. split; intros A l HN Hl; apply A; auto; intros j Hj; apply H; auto. Qed.

  Lemma nodup_concat_count (adds : list (nat * nat)) n cols :
    length cols = n -> Forall (fun ij => fst ij < n) adds ->
    (forall i c, nth_error cols i = Some c -> NoDup c /\ forall j, In j c <-> In (i, j) adds) ->
    exactly (length (concat cols)) (fun ij => In ij adds).
  Proof.
    intros HL HF H.
    exists (concat (map (fun ic => map (pair (fst ic)) (snd ic)) (combine (seq 0 n) cols))).
    assert (Hgen : forall k (l : list (list nat)),
      (forall i c, nth_error l i = Some c -> NoDup c) ->
      NoDup (concat (map (fun ic => map (pair (fst ic)) (snd ic)) (combine (seq k (length l)) l))) /\
      length (concat (map (fun ic => map (pair (fst ic)) (snd ic)) (combine (seq k (length l)) l))) = length (concat l) /\
      (forall i j, In (i, j) (concat (map (fun ic => map (pair (fst ic)) (snd ic)) (combine (seq k (length l)) l)))
        <-> exists c, k <= i /\ nth_error l (i - k) = Some c /\ In j c)).
    { clear. intros k l. revert k. induction l as [|c t IH]; intros k HN; simpl.
      - split; [constructor|]. split; auto. intros i j. split; [tauto|]. intros (c & _ & Hc & _). destruct (i - k); discriminate.
      - destruct (IH (S k)) as (A & B & C). { intros i c0 Hc0. apply (HN (S i)); auto. }
        split; [|split].
        + assert (Hdis : forall x, In x (map (pair k) c) -> ~ In x (concat (map (fun ic => map (pair (fst ic)) (snd ic)) (combine (seq (S k) (length t)) t)))).
          { intros [a b] Hx Hy. apply in_map_iff in Hx. destruct Hx as (y & E & _). inversion E; subst.
            apply C in Hy. destruct Hy as (_ & Hy & _). lia. }
          assert (Hnd : NoDup (map (pair k) c)).
          { apply FinFun.Injective_map_NoDup; [intros x y E; congruence|]. apply (HN 0); auto. }
          revert Hdis Hnd A. generalize (concat (map (fun ic => map (pair (fst ic)) (snd ic)) (combine (seq (S k) (length t)) t))).
          generalize (map (pair k) c). clear. intros l l2 Hd H1 H2. induction H1 as [|x l Hx H1 IH]; simpl; auto.
          constructor; [|apply IH; intros; apply Hd; right; auto].
          intros Hin. apply in_app_or in Hin. destruct Hin; [tauto|]. apply (Hd x); auto. left; auto.
        + rewrite !app_length, map_length. lia.
        + intros i j. rewrite in_app_iff, C. split.
          * intros [Hi|(c0 & H1 & H2 & H3)].
            -- apply in_map_iff in Hi. destruct Hi as (y & E & Hy). inversion E; subst. exists c. rewrite Nat.sub_diag. auto.
            -- exists c0. split; [lia|]. split; auto. replace (i - k) with (S (i - S k)) by lia. auto.
          * intros (c0 & H1 & H2 & H3). destruct (Nat.eq_dec i k) as [->|Hne].
            -- rewrite Nat.sub_diag in H2. inversion H2; subst. left. apply in_map; auto.
            -- right. exists c0. split; [lia|]. replace (i - k) with (S (i - S k)) in H2 by lia. auto. }
    destruct (Hgen 0 cols) as (A & B & C). { intros i c Hc. apply (H i c Hc). }
    rewrite HL in *. split; auto. split; auto.
    intros [i j]. rewrite C. split.
    - intros (c & _ & Hc & Hj). rewrite Nat.sub_0_r in Hc. apply (H i c Hc). auto.
    - intros Hin. rewrite Forall_forall in HF. specialize (HF _ Hin). simpl in HF.
      destruct (nth_error_ex cols i ltac:(lia)) as [c Hc]. exists c. rewrite Nat.sub_0_r.
      split; [lia|]. split; auto. apply (H i c Hc). auto.
  Qed.
End Glue.

Section C01.
  Context {V : Type}.
  Variable dv : V.

  (** A user program in random mode: construct with an optional preallocation [nnz] (0 = unknown),
      declare the row sizes by [sizes] calls, endrowsizes(), addindex calls, endindices(). *)
  Definition random_program (h : heap) (n m nnz : nat) (sizes : list rscmd) (adds : list (nat * nat)) : res (@st V) unit :=
    rbind (mat_new dv h n m nnz Random) (fun s0 _ =>
    rbind (rrun rs_step s0 sizes) (fun s1 _ =>
    rbind (endrowsizes dv s1) (fun s2 _ =>
    rbind (rrun add_step s2 adds) (fun s3 _ =>
    endindices dv s3)))).

  (** the same program on an existing object right after construction or setSize *)
  Definition random_program_on (s0 : @st V) (sizes : list rscmd) (adds : list (nat * nat)) : res (@st V) unit :=
    rbind (rrun rs_step s0 sizes) (fun s1 _ =>
    rbind (endrowsizes dv s1) (fun s2 _ =>
    rbind (rrun add_step s2 adds) (fun s3 _ =>
    endindices dv s3))).

  Definition declared_total (n : nat) (sizes : list rscmd) : nat := list_sum (map (declared sizes) (seq 0 n)).

  (** when is the program legal: indices in range, rows large enough, preallocation large enough *)
  Definition random_legal (n m nnz : nat) (sizes : list rscmd) (adds : list (nat * nat)) : Prop :=
    (forall i j, In (i, j) adds -> j < m) /\
    (forall i, i < n -> at_most (declared sizes i) (fun j => In (i, j) adds)) /\
    (nnz = 0 \/ declared_total n sizes <= nnz).

  Lemma adds_ok_legal n m sizes (szs : list nat) adds :
    length szs = n -> (forall i, i < n -> nth i szs 0 = declared sizes i) ->
    (adds_ok m (map (fun k => (nil, k)) szs) adds <->
     (forall i j, In (i, j) adds -> j < m) /\ (forall i, i < n -> at_most (declared sizes i) (fun j => In (i, j) adds))).
  Proof.
    intros HL HN. unfold adds_ok.
    assert (Hnth : forall i, i < n -> nth_error (after (map (fun k => (@nil nat, k)) szs) adds) i
                     = Some (inserts (cols_of adds i) nil, declared sizes i)).
    { intros i Hi. rewrite (after_nth _ _ i (nil, declared sizes i)); auto.
      rewrite nth_error_map, (nth_error_nth' szs 0) by lia. simpl. rewrite HN by auto. reflexivity. }
    split.
    - intros [A B]. split.
      + intros i j Hin. rewrite Forall_forall in A. apply (A (i, j) Hin).
      + intros i Hi. specialize (B i _ (Hnth i Hi)). simpl in B.
        apply inserts_nil_length in B. eapply at_most_ext; [|exact B]. intros j. symmetry. apply cols_of_In.
    - intros [A B]. split.
      + apply Forall_forall. intros [i j] Hin. simpl. eauto.
      + intros i p Hp. assert (Hi : i < n).
        { apply nth_error_lt in Hp. rewrite after_length, map_length in Hp. lia. }
        rewrite (Hnth i Hi) in Hp. inversion Hp; subst p. simpl.
        apply inserts_nil_length. eapply at_most_ext; [|exact (B i Hi)]. intros j. apply cols_of_In.
  Qed.

  Lemma random_program_run s0 n m nnz sizes adds :
    fresh s0 Random n m nnz ->
    Forall (fun c => rs_index c < n) sizes -> Forall (fun ij => fst ij < n) adds ->
    (random_legal n m nnz sizes adds ->
      exists s, random_program_on s0 sizes adds = ROk s tt /\
        shows s n m (fun i j => In (i, j) adds) (fun _ _ => dv) /\
        (exists cols, contig s n m cols (dvals dv cols) /\
           (forall i c, nth_error cols i = Some c -> forall j, In j c <-> In (i, j) adds) /\
           mnnz (snd s) = reserved nnz (declared_total n sizes) - (declared_total n sizes - length (concat cols)) /\
           length (concat cols) <= declared_total n sizes /\
           (declared_total n sizes = length (concat cols) -> 0 < length (concat cols) ->
              exists tail, jarr (fst s) (snd s) = Some (concat cols ++ tail)))) /\
    (~ random_legal n m nnz sizes adds -> exists s, random_program_on s0 sizes adds = RThrow s EBCRS).
  Proof.
    intros F HFs HFa. unfold random_program_on.
    assert (HS0 : sizing s0 s0 (repeat 0 n)).
    { split; auto. destruct s0 as [h M]. simpl. pose proof (fr_rows _ _ _ _ _ F) as Hr. simpl in Hr.
      unfold row0. replace (map _ (repeat 0 n)) with (mrows M); [destruct M; reflexivity|].
      rewrite Hr. clear. induction n; simpl; congruence. }
    destruct (rs_run s0 sizes s0 (repeat 0 n) (fr_mode _ _ _ _ _ F) (fr_stage _ _ _ _ _ F) HS0) as (s1 & E1 & szs & HS1 & HL & HN).
    { rewrite repeat_length. auto. }
    rewrite repeat_length in HL, HN. rewrite E1. simpl rbind.
    assert (HN' : forall i, i < n -> nth i szs 0 = declared sizes i).
    { intros i Hi. rewrite HN by auto. unfold declared. f_equal. clear. revert i. induction n; destruct i; simpl; auto. }
    assert (HT : list_sum szs = declared_total n sizes) by (apply list_sum_ext_declared; auto).
    assert (Hdec : total_ok nnz (list_sum szs) \/ ~ total_ok nnz (list_sum szs)) by (unfold total_ok; lia).
    destruct Hdec as [Hto|Hto].
    2:{ rewrite (endrowsizes_small dv s0 s1 n m nnz szs F HS1 HL Hto). simpl. split; [|eauto].
        intros (_ & _ & H). exfalso. apply Hto. unfold total_ok. rewrite HT. auto. }
    destruct (endrowsizes_ok dv s0 s1 n m nnz szs F HS1 HL Hto) as (s2 & E2 & P2). rewrite E2. simpl rbind.
    destruct (adds_run adds s2 n m _ _ P2 HFa) as [A1 A2].
    pose proof (adds_ok_legal n m sizes szs adds HL HN') as Hleg.
    split.
    - intros (L1 & L2 & L3). destruct (A1 (proj2 Hleg (conj L1 L2))) as (s3 & E3 & P3).
      rewrite E3. simpl rbind.
      destruct (endindices_ok dv s3 n m _ _ P3) as (s4 & E4 & W & Hz & Hh4 & Hj4). exists s4. split; auto.
      assert (Hcols : forall i c, nth_error (map fst (after (map (fun k => (@nil nat, k)) szs) adds)) i = Some c ->
                        forall j, In j c <-> In (i, j) adds).
      { intros i c Hc j. rewrite nth_error_map in Hc.
        destruct (nth_error szs i) as [k|] eqn:Ek.
        - rewrite (after_nth _ _ i (nil, k)) in Hc by (rewrite nth_error_map, Ek; reflexivity).
          simpl in Hc. inversion Hc; subst c. rewrite inserts_In, cols_of_In. simpl. tauto.
        - apply nth_error_None in Ek.
          assert (Hnone : nth_error (after (map (fun k => (@nil nat, k)) szs) adds) i = None).
          { apply nth_error_None. rewrite after_length, map_length. auto. }
          rewrite Hnone in Hc. discriminate. }
      split.
      + eapply built_shows; [left; exact W|exact Hcols|].
        intros i c v p j x Hc Hv _ Hx. unfold dvals in Hv. rewrite nth_error_map, Hc in Hv. simpl in Hv.
        inversion Hv; subst v. apply nth_error_In in Hx. apply repeat_spec in Hx. auto.
      + exists (map fst (after (map (fun k => (@nil nat, k)) szs) adds)). split; auto. split; auto.
        assert (Hsnd : list_sum (map snd (after (map (fun k : nat => (@nil nat, k)) szs) adds)) = declared_total n sizes).
        { rewrite <- HT. f_equal. apply list_eq_nth.
          - rewrite map_length, after_length, map_length. auto.
          - intros i Hi. rewrite map_length, after_length, map_length in Hi.
            destruct (nth_error_ex szs i Hi) as [k Ek]. rewrite nth_error_map.
            rewrite (after_nth _ _ i (nil, k)) by (rewrite nth_error_map, Ek; reflexivity). simpl. auto. }
        rewrite Hz, Hsnd, HT. split; auto. pose proof (p2_slots _ _ _ _ _ P3) as HFs3. split.
        * rewrite <- Hsnd.
          clear -HFs3. induction HFs3 as [|q u Hq HF IH]; simpl; auto. rewrite app_length.
          destruct Hq as (_ & _ & Hq). unfold list_sum in *. lia.
        * rewrite <- Hsnd. intros Hex Hpos. unfold jarr. rewrite Hh4, Hj4.
          assert (Hnz : 0 < reserved nnz (list_sum szs)).
          { pose proof (p2_total _ _ _ _ _ P3) as Hpt. rewrite Hex in Hpt. lia. }
          destruct (p2_j _ _ _ _ _ P3 Hnz) as (tail & HJ & _). unfold jarr in HJ. exists tail. rewrite HJ. do 2 f_equal.
          clear - Hex HFs3. unfold cslots. f_equal.
          assert (Hle : forall u, Forall (slot_ok m) u -> length (concat (map fst u)) <= list_sum (map snd u)).
          { clear. induction 1 as [|q u Hq HF IH]; simpl; auto. rewrite app_length.
            destruct Hq as (_ & _ & Hq). unfold list_sum in *. lia. }
          induction HFs3 as [|q u Hq HF IH]; auto. cbn [map concat] in *. rewrite app_length in Hex.
          change (list_sum (snd q :: map snd u)) with (snd q + list_sum (map snd u)) in Hex.
          pose proof (Hle u HF). pose proof (proj2 (proj2 Hq)) as Hq3. f_equal; [|apply IH; lia].
          unfold slot. replace (snd q - length (fst q)) with 0 by lia. apply app_nil_r.
    - intros Hn. assert (~ adds_ok m (map (fun k => (nil, k)) szs) adds).
      { intros H. apply Hn. apply Hleg in H. destruct H as [L1 L2]. split; auto. split; auto.
        unfold total_ok in Hto. rewrite HT in Hto. auto. }
      destruct (A2 H) as (s3 & E3). rewrite E3. simpl. eauto.
  Qed.

  (** C01.  The pattern shown by the finished matrix is exactly the set of added positions. *)
  Theorem C01_random_build_pattern h n m nnz sizes adds :
    Forall (fun c => rs_index c < n) sizes -> Forall (fun ij => fst ij < n) adds ->
    random_legal n m nnz sizes adds ->
    exists s, random_program h n m nnz sizes adds = ROk s tt /\
              shows s n m (fun i j => In (i, j) adds) (fun _ _ => dv) /\
              (nnz = 0 \/ nnz = declared_total n sizes ->
                 exactly (snd (nonzeroes s)) (fun ij => In ij adds)).
  Proof.
    intros HFs HFa HL. unfold random_program.
    destruct (mat_new_fresh dv h n m nnz Random) as (s0 & E0 & F). rewrite E0. simpl rbind.
    destruct (proj1 (random_program_run s0 n m nnz sizes adds F HFs HFa) HL) as (s & E & Hs & cols & W & Hc & Hz & Hle & HJC).
    exists s. split; [exact E|]. split; auto. intros Hnnz.
    rewrite (nonzeroes_count s n m cols (dvals dv cols)).
    - eapply (nodup_concat_count adds n cols); auto.
      + exact (cg_len _ _ _ _ _ W).
      + intros i c Hic. split; [|eauto]. destruct (cg_ok _ _ _ _ _ W) as (_ & _ & HS).
        rewrite Forall_forall in HS. apply ss_nodup. apply HS. eapply nth_error_In; eauto.
    - left; auto.
    - right. rewrite Hz. unfold reserved. destruct (Nat.eqb_spec nnz 0); [lia|].
      destruct Hnnz; [lia|]. lia.
  Qed.

  (** C01 / C02: outside that domain (but with existing rows) the build reports BCRSMatrixError. *)
  Theorem C01_random_build_throws h n m nnz sizes adds :
    Forall (fun c => rs_index c < n) sizes -> Forall (fun ij => fst ij < n) adds ->
    ~ random_legal n m nnz sizes adds ->
    exists s, random_program h n m nnz sizes adds = RThrow s EBCRS.
  Proof.
    intros HFs HFa HL. unfold random_program.
    destruct (mat_new_fresh dv h n m nnz Random) as (s0 & E0 & F). rewrite E0. simpl rbind.
    exact (proj2 (random_program_run s0 n m nnz sizes adds F HFs HFa) HL).
  Qed.

  (** C01, what fails: with a preallocation larger than the declared sizes nonzeroes() counts the unused
      preallocated slots, for every legal program. *)
  Theorem C01_nonzeroes_overreports_refuted h n m nnz sizes adds :
    Forall (fun c => rs_index c < n) sizes -> Forall (fun ij => fst ij < n) adds ->
    random_legal n m nnz sizes adds -> declared_total n sizes < nnz ->
    exists s k, random_program h n m nnz sizes adds = ROk s tt /\
              exactly k (fun ij => In ij adds) /\ k < snd (nonzeroes s).
  Proof.
    intros HFs HFa HL Hlt. unfold random_program.
    destruct (mat_new_fresh dv h n m nnz Random) as (s0 & E0 & F). rewrite E0. simpl rbind.
    destruct (proj1 (random_program_run s0 n m nnz sizes adds F HFs HFa) HL) as (s & E & Hs & cols & W & Hc & Hz & Hle & HJC).
    exists s, (length (concat cols)). split; [exact E|]. split.
    - eapply (nodup_concat_count adds n cols); auto.
      + exact (cg_len _ _ _ _ _ W).
      + intros i c Hic. split; [|eauto]. destruct (cg_ok _ _ _ _ _ W) as (_ & _ & HS).
        rewrite Forall_forall in HS. apply ss_nodup. apply HS. eapply nth_error_In; eauto.
    - unfold nonzeroes. destruct s as [h1 M]. simpl in *.
      unfold reserved in Hz. destruct (Nat.eqb_spec nnz 0); [lia|].
      destruct (Nat.eqb_spec (mnnz M) 0); simpl; lia.
  Qed.
End C01.

(** Non-vacuity: a 3x4 matrix with oversized rows, repeated and unordered additions. *)
Example C01_nonvacuous :
  random_legal 3 4 0 [SetRS 0 3; IncRS 2 1; IncRS 2 1; SetRS 1 0] [(0,3);(2,1);(0,1);(0,3);(2,0)].
Proof.
  split; [|split].
  - intros i j H. simpl in H. repeat (destruct H as [H|H]; [inversion H; lia|]). destruct H.
  - intros i Hi.
    eapply at_most_ext; [intros j; symmetry; apply cols_of_In|]. apply inserts_nil_length.
    destruct i as [|[|[|i]]]; [vm_compute; lia..|lia].
  - left; reflexivity.
Qed.
Example C01_nonvacuous_run :
  match random_program 0 [] 3 4 0 [SetRS 0 3; IncRS 2 1; IncRS 2 1; SetRS 1 0] [(0,3);(2,1);(0,1);(0,3);(2,0)] with
  | ROk s _ => (view s, snd (nonzeroes s)) = (Some [[(1,0);(3,0)]; []; [(0,0);(1,0)]], 4)
  | _ => False end.
Proof. vm_compute. reflexivity. Qed.
Print Assumptions C01_random_build_pattern.
Print Assumptions C01_random_build_throws.
Print Assumptions C01_nonzeroes_overreports_refuted.
