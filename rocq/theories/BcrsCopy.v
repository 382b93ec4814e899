(** * Copying finished BCRS matrices *)
From Coq Require Import List Arith Bool Lia Sorted Permutation.
From Verif Require Import Sums Outcome BcrsModel BcrsAux BcrsRandom BcrsWf BcrsAccess.
Import ListNotations.

Section Copy.
  Context {V : Type}.
  Variables dv zv : V.
  Notation mat := (@mat V).
  Notation st := (@st V).
  Notation row := (@row V).
  Implicit Types (s : st) (vals : list (list V)) (cols : list (list nat)).

  (** the index array holds the rows back to back, without gaps *)
  Definition jcompact (s : st) (cols : list (list nat)) : Prop :=
    0 < length (concat cols) -> exists tail, jarr (fst s) (snd s) = Some (concat cols ++ tail).

  Definition win (off : nat) (k : nat) : row :=
    if 0 <? k then mkrow k (JArr off) (AArr off) else mkrow 0 JNull ANull.

  Fixpoint wins (off : nat) (ks : list nat) : list row :=
    match ks with nil => nil | k :: t => win off k :: wins (off + k) t end.

  Lemma setWindowPointers_wins off (rs : list row) : setWindowPointers off rs = wins off (map rsize rs).
  Proof.
    revert off. induction rs as [|r t IH]; intros; simpl; auto. rewrite IH, IH.
    unfold win. destruct (Nat.ltb_spec 0 (rsize r)); f_equal.
    replace (rsize r) with 0 by lia. rewrite Nat.add_0_r. reflexivity.
  Qed.

  Lemma wins_nth off ks i k : nth_error ks i = Some k ->
    nth_error (wins off ks) i = Some (win (off + list_sum (firstn i ks)) k).
  Proof.
    revert off i. induction ks as [|x t IH]; intros off [|i] H; simpl in *; try discriminate.
    - inversion H; subst. rewrite Nat.add_0_r. reflexivity.
    - rewrite (IH _ _ H). f_equal. f_equal. lia.
  Qed.

  Lemma wins_length off ks : length (wins off ks) = length ks.
  Proof. revert off; induction ks; intros; simpl; auto. Qed.

  Lemma row_assign_step h (M S : mat) rs c v a1 x a2 J1 y J2 :
    row_val S rs = Some v -> row_idx h S rs = Some c -> length v = length c -> 0 < length c ->
    madata M = Some (a1 ++ x ++ a2) -> length x = length v ->
    jarr h M = Some (J1 ++ y ++ J2) -> length y = length c -> length a1 = length J1 ->
    row_assign h M S (win (length a1) (length c)) rs =
    Some (set_jarr h M (J1 ++ c ++ J2), set_adata M (Some (a1 ++ v ++ a2))).
  Proof.
    intros Hv Hc Hlen Hpos Ha Hx HJ Hy Heq. unfold row_assign, win.
    rewrite (proj2 (Nat.ltb_lt _ _) Hpos). cbn [rsize ra rj].
    destruct (Nat.eqb_spec (length c) 0); [lia|]. rewrite Hv, Ha.
    rewrite !app_length, Hx.
    destruct (Nat.leb_spec (length a1 + length v) (length a1 + (length v + length a2))); [|lia].
    rewrite Hc. change (jarr h (set_adata M _)) with (jarr h M). rewrite HJ.
    rewrite !app_length, Hy.
    destruct (Nat.leb_spec (length a1 + length c) (length J1 + (length c + length J2))); [|lia].
    rewrite splice_app_mid by auto. rewrite Heq at 1. rewrite splice_app_mid by auto. reflexivity.
  Qed.

  Lemma row_assign_empty h (M S : mat) rs off : row_assign h M S (win off 0) rs = Some (h, M).
  Proof. reflexivity. Qed.

  Lemma set_jarr_id h (M : mat) J : jarr h M = Some J -> set_jarr h M J = h.
  Proof.
    unfold jarr, set_jarr. destruct (mjid M) as [k|]; auto. intros H.
    apply list_eq_nth; [apply upd_length|]. intros i Hi. rewrite nth_error_upd.
    destruct (Nat.eqb_spec k i); auto. subst. rewrite upd_length in Hi.
    destruct (Nat.ltb_spec i (length h)); [congruence|lia].
  Qed.

  Definition reads h (S : mat) (rs : list row) cols vals : Prop :=
    length rs = length cols /\ length vals = length cols /\
    forall i r c v, nth_error rs i = Some r -> nth_error cols i = Some c -> nth_error vals i = Some v ->
                    row_idx h S r = Some c /\ row_val S r = Some v /\ length v = length c /\ rsize r = length c.

  Lemma reads_cons h S r rs c cols v vals :
    reads h S (r :: rs) (c :: cols) (v :: vals) ->
    (row_idx h S r = Some c /\ row_val S r = Some v /\ length v = length c /\ rsize r = length c) /\
    reads h S rs cols vals.
  Proof.
    intros (HL & HL2 & H). split; [apply (H 0); reflexivity|].
    split; [simpl in HL; lia|]. split; [simpl in HL2; lia|].
    intros i r0 c0 v0 H1 H2 H3. apply (H (Datatypes.S i)); auto.
  Qed.

  (** shared index array: it is rewritten with its own contents *)
  Lemma rows_assign_shared h (S : mat) rs cols vals :
    forall (M : mat) a1 arest J1 tail,
    reads h S rs cols vals ->
    madata M = Some (a1 ++ arest) -> length (concat vals) <= length arest ->
    jarr h M = Some (J1 ++ concat cols ++ tail) -> length a1 = length J1 ->
    rows_assign h M S (wins (length a1) (map rsize rs)) rs =
    Some (h, set_adata M (Some (a1 ++ concat vals ++ skipn (length (concat vals)) arest))).
  Proof.
    revert cols vals. induction rs as [|r rs IH]; intros cols vals M a1 arest J1 tail HR Ha Hlen HJ Heq.
    - destruct HR as (H1 & H2 & _). destruct cols; [|discriminate]. destruct vals; [|discriminate].
      simpl. rewrite <- Ha. destruct M; reflexivity.
    - destruct cols as [|c cols]; [destruct HR as (H1 & _); discriminate|].
      destruct vals as [|v vals]; [destruct HR as (_ & H1 & _); discriminate|].
      apply reads_cons in HR. destruct HR as [(Hc & Hv & Hl & Hs) HR].
      simpl map. simpl wins. simpl rows_assign. rewrite Hs. simpl in Hlen. rewrite app_length in Hlen.
      destruct (Nat.eq_dec (length c) 0) as [E|E].
      + rewrite E. rewrite row_assign_empty. rewrite Nat.add_0_r.
        destruct c; [|discriminate]. destruct v; [|discriminate]. simpl.
        eapply IH; eauto.
      + assert (Hsp : arest = firstn (length v) arest ++ skipn (length v) arest) by (symmetry; apply firstn_skipn).
        erewrite (row_assign_step h M S r c v a1 (firstn (length v) arest) (skipn (length v) arest) J1 c (concat cols ++ tail));
          eauto; try lia.
        2:{ rewrite <- Hsp. auto. }
        2:{ rewrite firstn_length. lia. }
        2:{ simpl in HJ. rewrite <- app_assoc in HJ. auto. }
        rewrite set_jarr_id by (simpl in HJ; rewrite <- app_assoc in HJ; auto).
        replace (length a1 + length c) with (length (a1 ++ v)) by (rewrite app_length; lia).
        rewrite (IH cols vals (set_adata M (Some (a1 ++ v ++ skipn (length v) arest))) (a1 ++ v) (skipn (length v) arest) (J1 ++ c) tail); auto.
        * f_equal. f_equal. change (set_adata (set_adata M ?x) ?y) with (set_adata M y).
          f_equal. f_equal. simpl concat. rewrite !app_length, <- !app_assoc.
          rewrite skipn_add. reflexivity.
        * simpl. rewrite <- app_assoc. reflexivity.
        * rewrite skipn_length. lia.
        * simpl in HJ |- *. change (jarr h (set_adata M ?x)) with (jarr h M). rewrite HJ. rewrite <- !app_assoc. reflexivity.
        * rewrite !app_length. lia.
  Qed.

  (** rows with their own arrays do not depend on the heap *)
  Lemma own_row_idx h h' (S : mat) (c : list nat) (v : list V) :
    row_idx h S (own_row c v) = row_idx h' S (own_row c v).
  Proof. unfold own_row, row_idx. destruct (0 <? length c); reflexivity. Qed.

  Lemma rows_assign_own (S : mat) rs cols vals :
    forall h (M : mat) a1 arest J1 Jrest,
    reads h S rs cols vals -> (forall r h', In r rs -> row_idx h' S r = row_idx h S r) ->
    madata M = Some (a1 ++ arest) -> length (concat vals) <= length arest ->
    jarr h M = Some (J1 ++ Jrest) -> length (concat cols) <= length Jrest -> length a1 = length J1 ->
    exists h', rows_assign h M S (wins (length a1) (map rsize rs)) rs =
      Some (h', set_adata M (Some (a1 ++ concat vals ++ skipn (length (concat vals)) arest))) /\
      jarr h' M = Some (J1 ++ concat cols ++ skipn (length (concat cols)) Jrest) /\
      length h' = length h /\ (forall k, mjid M <> Some k -> nth_error h' k = nth_error h k).
  Proof.
    revert cols vals. induction rs as [|r rs IH]; intros cols vals h M a1 arest J1 Jrest HR Hind Ha Hlen HJ HJlen Heq.
    - destruct HR as (H1 & H2 & _). destruct cols; [|discriminate]. destruct vals; [|discriminate].
      simpl. rewrite <- Ha. exists h. destruct M; simpl in *; auto.
    - destruct cols as [|c cols]; [destruct HR as (H1 & _); discriminate|].
      destruct vals as [|v vals]; [destruct HR as (_ & H1 & _); discriminate|].
      assert (HR0 := HR). apply reads_cons in HR. destruct HR as [(Hc & Hv & Hl & Hs) HR].
      simpl map. simpl wins. simpl rows_assign. rewrite Hs. simpl in Hlen, HJlen. rewrite app_length in Hlen, HJlen.
      destruct (Nat.eq_dec (length c) 0) as [E|E].
      + rewrite E. rewrite row_assign_empty. rewrite Nat.add_0_r.
        destruct c; [|discriminate]. destruct v; [|discriminate]. simpl in *.
        eapply IH; eauto.
      + assert (Hsp : arest = firstn (length v) arest ++ skipn (length v) arest) by (symmetry; apply firstn_skipn).
        assert (HspJ : Jrest = firstn (length c) Jrest ++ skipn (length c) Jrest) by (symmetry; apply firstn_skipn).
        erewrite (row_assign_step h M S r c v a1 (firstn (length v) arest) (skipn (length v) arest)
                    J1 (firstn (length c) Jrest) (skipn (length c) Jrest)); eauto; try lia.
        2:{ rewrite <- Hsp. auto. }
        2:{ rewrite firstn_length. lia. }
        2:{ rewrite <- HspJ. auto. }
        2:{ rewrite firstn_length. lia. }
        replace (length a1 + length c) with (length (a1 ++ v)) by (rewrite app_length; lia).
        set (h1 := set_jarr h M (J1 ++ c ++ skipn (length c) Jrest)).
        assert (Hj1 : jarr h1 M = Some (J1 ++ c ++ skipn (length c) Jrest)) by (eapply jarr_set_jarr; eauto).
        destruct (IH cols vals h1 (set_adata M (Some (a1 ++ v ++ skipn (length v) arest))) (a1 ++ v)
                     (skipn (length v) arest) (J1 ++ c) (skipn (length c) Jrest)) as (h' & E1 & E2 & E3 & E4); auto.
        * destruct HR as (HRa & HRb & HRc). split; auto. split; auto. intros i r0 c0 v0 Hr0 Hc0 Hv0.
          rewrite (Hind r0 h1) by (right; eapply nth_error_In; eauto). eauto.
        * intros r0 h0 Hr0. rewrite (Hind r0 h0), (Hind r0 h1) by (right; auto). reflexivity.
        * simpl. rewrite <- app_assoc. reflexivity.
        * rewrite skipn_length. lia.
        * change (jarr h1 (set_adata M ?x)) with (jarr h1 M). rewrite Hj1, <- app_assoc. reflexivity.
        * rewrite skipn_length. lia.
        * rewrite !app_length. lia.
        * exists h'. rewrite E1. split; [|split; [|split]].
          -- f_equal. f_equal. change (set_adata (set_adata M ?x) ?y) with (set_adata M y).
             f_equal. f_equal. simpl concat. rewrite !app_length, <- !app_assoc. rewrite skipn_add. reflexivity.
          -- change (jarr h' (set_adata M ?x)) with (jarr h' M) in E2. rewrite E2.
             simpl concat. rewrite !app_length, <- !app_assoc. rewrite skipn_add. reflexivity.
          -- rewrite E3. unfold h1, set_jarr. destruct (mjid M); auto. apply upd_length.
          -- intros k Hk. rewrite E4 by auto. unfold h1, set_jarr. destruct (mjid M) as [k0|]; auto.
             rewrite nth_error_upd. destruct (Nat.eqb_spec k0 k); [congruence|auto].
  Qed.

  Lemma rows_assign_empty h (M S : mat) rs ks off :
    list_sum ks = 0 -> length rs = length ks -> rows_assign h M S (wins off ks) rs = Some (h, M).
  Proof.
    revert rs off. induction ks as [|k t IH]; intros [|r rs] off HS HL; simpl in *; try discriminate; auto.
    replace k with 0 by lia. rewrite row_assign_empty. apply IH; lia.
  Qed.

  (** the windows that copyWindowStructure creates describe a contiguous matrix *)
  Lemma contig_wins h (M : mat) n m cols vals :
    mstage M = Built -> mn M = n -> mm M = m -> length cols = n -> rows_ok m cols vals ->
    mrows M = wins 0 (map (@length nat) cols) ->
    (0 < length (concat cols) -> exists jt, jarr h M = Some (concat cols ++ jt)) ->
    length (concat vals) <= mnnz M ->
    ((exists tail, madata M = Some (concat vals ++ tail) /\ mnnz M <= length (concat vals ++ tail))
      \/ (madata M = None /\ mnnz M = 0)) ->
    contig (h, M) n m cols vals.
  Proof.
    intros Hs Hn Hm HL Hok Hr HJ Hz Hd. constructor; simpl; auto.
    - rewrite Hr, wins_length, map_length. auto.
    - intros i c Hc.
      assert (Hk : nth_error (map (@length nat) cols) i = Some (length c)) by (rewrite nth_error_map, Hc; reflexivity).
      rewrite Hr, (wins_nth 0 _ _ _ Hk). eexists. split; [reflexivity|]. simpl Nat.add.
      assert (Hoffv : list_sum (firstn i (map (@length nat) cols)) = length (concat (firstn i vals))).
      { rewrite concat_length, <- firstn_map. f_equal. f_equal. symmetry. eapply rows_ok_lengths; eauto. }
      assert (Hoffc : list_sum (firstn i (map (@length nat) cols)) = length (concat (firstn i cols))).
      { rewrite concat_length, <- firstn_map. reflexivity. }
      unfold win. destruct (Nat.ltb_spec 0 (length c)) as [H0|H0]; cbn [rsize ra rj].
      + split; auto. split; [intros _; rewrite Hoffv; eauto|].
        pose proof (concat_split cols i c Hc) as Hcs.
        assert (Hpos : 0 < length (concat cols)) by (rewrite Hcs, !app_length; lia).
        destruct (HJ Hpos) as (jt & HJt).
        unfold row_idx. cbn [rsize rj]. destruct (Nat.eqb_spec (length c) 0); [lia|].
        rewrite HJt. rewrite Hoffc. rewrite Hcs.
        destruct (Nat.leb_spec (length (concat (firstn i cols)) + length c)
          (length ((concat (firstn i cols) ++ c ++ concat (skipn (S i) cols)) ++ jt))) as [Hle|Hle].
        * f_equal. rewrite <- !app_assoc. apply slice_app_mid.
        * rewrite !app_length in Hle. lia.
      + split; [lia|]. split; [intros; lia|]. destruct c; [reflexivity|simpl in *; lia].
  Qed.

  Lemma built_reads h (S : mat) n m cols vals :
    built (h, S) n m cols vals -> reads h S (mrows S) cols vals.
  Proof.
    intros W. destruct (built_nrows _ _ _ _ _ W) as (H1 & H2 & H3 & Hok). simpl in H1.
    split; [lia|]. split; [lia|]. intros i r c v Hr Hc Hv.
    destruct (built_row _ _ _ _ _ _ _ _ _ W Hc Hv Hr) as (A & B & C). simpl in *.
    repeat split; auto. destruct Hok as (_ & HLL & _). eauto.
  Qed.

  Lemma reads_sizes h S rs cols vals : reads h S rs cols vals -> map rsize rs = map (@length nat) cols.
  Proof.
    intros (H1 & H2 & H). apply list_eq_nth; [rewrite !map_length; auto|]. intros i Hi. rewrite map_length in Hi.
    rewrite !nth_error_map. destruct (nth_error_ex rs i Hi) as [r Hr].
    destruct (nth_error_ex cols i ltac:(lia)) as [c Hc]. destruct (nth_error_ex vals i ltac:(lia)) as [v Hv].
    rewrite Hr, Hc. simpl. f_equal. destruct (H i r c v Hr Hc Hv) as (_ & _ & _ & E). auto.
  Qed.

  (** a finished matrix that can be copied safely: individually allocated, or contiguous and compact *)
  Definition copyable (s : st) n m cols vals : Prop :=
    (contig s n m cols vals /\ jcompact s cols) \/ indiv s n m cols vals.

  Lemma copyable_built s n m cols vals : copyable s n m cols vals -> built s n m cols vals.
  Proof. intros [[H _]|H]; [left|right]; auto. Qed.

  (** copyWindowStructure into a matrix whose arrays have been allocated *)
  Lemma copyWindowStructure_ok h (M S : mat) n m cols vals :
    copyable (h, S) n m cols vals ->
    mn M = n -> mm M = m -> length (mrows M) = n -> length (concat cols) <= mnnz M ->
    madata M = (if 0 <? mnnz M then Some (repeat dv (mnnz M)) else None) ->
    (0 < length (concat cols) -> (mjid S <> None /\ mjid M = mjid S) \/
        (mjid S = None /\ exists J, jarr h M = Some J /\ length (concat cols) <= length J)) ->
    exists h' M', copyWindowStructure h M S = Some (h', M') /\
      contig (h', M') n m cols vals /\ jcompact (h', M') cols /\ mmode M' = Row_wise /\
      mnnz M' = mnnz M /\ mjid M' = mjid M /\ masize M' = masize M /\
      length h' = length h /\ (forall k, (mjid S <> None \/ mjid M <> Some k) -> nth_error h' k = nth_error h k).
  Proof.
    intros HC Hn Hm Hrl Hz Hd HJ. pose proof (copyable_built _ _ _ _ _ HC) as HB.
    destruct (built_nrows _ _ _ _ _ HB) as (HN1 & HN2 & HN3 & Hok). simpl in HN1.
    pose proof (built_reads _ _ _ _ _ _ HB) as HR. pose proof (reads_sizes _ _ _ _ _ HR) as HSz.
    pose proof (rows_ok_total _ _ _ Hok) as HT.
    unfold copyWindowStructure. rewrite Hrl, HN1, Hn, Nat.eqb_refl. cbn [negb orb].
    cbn [mrows set_rows]. rewrite setWindowPointers_wins, HSz.
    set (M1 := set_rows M (wins 0 (map (@length nat) cols))).
    destruct (Nat.eq_dec (length (concat cols)) 0) as [E0|E0].
    - rewrite rows_assign_empty; [|rewrite <- concat_length; auto|rewrite map_length; lia].
      do 2 eexists. split; [reflexivity|]. split; [|split; [|repeat split; auto]].
      + apply contig_wins; simpl; auto; try lia.
        rewrite Hd. assert (Hv0 : concat vals = nil) by (destruct (concat vals); [auto|simpl in *; lia]).
        rewrite Hv0. simpl. destruct (Nat.ltb_spec 0 (mnnz M)); [left|right; split; auto; lia].
        exists (repeat dv (mnnz M)). split; auto. rewrite repeat_length. auto.
      + intros Hpos. simpl in *. lia.
    - assert (Hpos : 0 < length (concat cols)) by lia. assert (Hzp : 0 < mnnz M) by lia.
      rewrite (proj2 (Nat.ltb_lt _ _) Hzp) in Hd.
      assert (Ha : madata M1 = Some (@nil V ++ repeat dv (mnnz M))) by exact Hd.
      assert (HaL : length (concat vals) <= length (repeat dv (mnnz M))) by (rewrite repeat_length; lia).
      destruct HC as [[HC HJC]|HC].
      + (* shared *)
        destruct (HJC Hpos) as (tail & HJt). simpl in HJt.
        destruct (HJ Hpos) as [[HjS Hjeq]|[HjS _]].
        2:{ unfold jarr in HJt. rewrite HjS in HJt. discriminate. }
        assert (HJM : jarr h M1 = Some (nil ++ concat cols ++ tail)).
        { unfold jarr in *. simpl. rewrite Hjeq. auto. }
        rewrite <- HSz.
        pose proof (rows_assign_shared h S (mrows S) cols vals M1 nil (repeat dv (mnnz M)) nil tail HR Ha HaL HJM eq_refl) as E1.
        change (@length V nil) with 0 in E1. rewrite E1.
        do 2 eexists. split; [reflexivity|]. split; [|split; [|repeat split; auto]].
        * apply contig_wins; simpl; auto; try lia.
          -- intros _. exists tail. exact HJM.
          -- left. eexists. split; [reflexivity|]. rewrite !app_length, skipn_length, repeat_length. lia.
        * intros _. exists tail. exact HJM.
      + (* own arrays, fresh index array *)
        destruct (HJ Hpos) as [[HjS _]|[HjS (J & HJJ & HJL)]].
        { exfalso. apply HjS. apply (iv_jid _ _ _ _ _ HC). }
        assert (Hind : forall (r : row) h', In r (mrows S) -> row_idx h' S r = row_idx h S r).
        { intros r h' Hr. apply In_nth_error in Hr. destruct Hr as [i Hr]. pose proof (nth_error_lt _ _ _ Hr) as Hi.
          destruct (nth_error_ex cols i ltac:(lia)) as [c Hc]. destruct (nth_error_ex vals i ltac:(lia)) as [v Hv].
          pose proof (iv_rows _ _ _ _ _ HC i c v Hc Hv) as Hr2. simpl in Hr2. rewrite Hr in Hr2. inversion Hr2.
          apply own_row_idx. }
        rewrite <- HSz.
        destruct (rows_assign_own S (mrows S) cols vals h M1 nil (repeat dv (mnnz M)) nil J HR Hind Ha HaL HJJ HJL eq_refl)
          as (h' & E1 & E2 & E3 & E4).
        change (@length V nil) with 0 in E1. rewrite E1.
        do 2 eexists. split; [reflexivity|]. split; [|split; [|repeat split; auto]].
        * apply contig_wins; simpl; auto; try lia.
          -- intros _. eexists. exact E2.
          -- left. eexists. split; [reflexivity|]. rewrite !app_length, skipn_length, repeat_length. lia.
        * intros _. eexists. exact E2.
        * intros k [Hk|Hk]; [congruence|]. apply E4. exact Hk.
  Qed.

  (** ** heap extension does not disturb a matrix *)
  Lemma row_idx_heap h h' (M : mat) r :
    (forall k, mjid M = Some k -> k < length h -> nth_error h' k = nth_error h k) ->
    forall c, row_idx h M r = Some c -> row_idx h' M r = Some c.
  Proof.
    intros H c Hr. unfold row_idx in *. destruct (rsize r =? 0); auto.
    destruct (rj r) as [|off|l]; auto. unfold jarr in *. destruct (mjid M) as [k|]; auto.
    destruct (nth_error h k) as [J|] eqn:E; [|discriminate].
    rewrite (H k eq_refl); [rewrite E; auto|]. apply nth_error_lt in E. auto.
  Qed.

  Lemma built_heap h h' (M : mat) n m cols vals :
    (forall k, mjid M = Some k -> k < length h -> nth_error h' k = nth_error h k) ->
    built (h, M) n m cols vals -> built (h', M) n m cols vals.
  Proof.
    intros H [W|W].
    - left. destruct W as [Ws Wn Wm Wl Wo Wnr Wr Wz Wd]. constructor; simpl in *; auto.
      intros i c Hc. destruct (Wr i c Hc) as (r & A & B & C & D). exists r. repeat split; auto.
      + apply C; auto.
      + apply C; auto.
      + eapply row_idx_heap; eauto.
    - right. destruct W. constructor; simpl in *; auto.
  Qed.

  Lemma copyable_heap h h' (M : mat) n m cols vals :
    (forall k, mjid M = Some k -> k < length h -> nth_error h' k = nth_error h k) ->
    copyable (h, M) n m cols vals -> copyable (h', M) n m cols vals.
  Proof.
    intros H [[W J]|W].
    - left. split.
      + destruct (built_heap _ _ _ _ _ _ _ H (or_introl W)) as [W'|W']; auto.
        destruct W as [Ws Wn Wm Wl Wo Wnr Wr Wz Wd]. constructor; simpl in *; auto.
        intros i c Hc. destruct (Wr i c Hc) as (r & A & B & C & D). exists r. repeat split; auto.
        * apply C; auto.
        * apply C; auto.
        * eapply row_idx_heap; eauto.
      + intros Hp. destruct (J Hp) as (tail & HJ). exists tail. simpl in *. unfold jarr in *.
        destruct (mjid M) as [k|]; [|discriminate]. rewrite (H k eq_refl); auto. apply nth_error_lt in HJ. auto.
    - right. destruct W. constructor; simpl in *; auto.
  Qed.

  Lemma copyable_nonzeroes h (S : mat) n m cols vals :
    copyable (h, S) n m cols vals -> copyable (fst (nonzeroes (h, S))) n m cols vals.
  Proof.
    intros HC. pose proof (built_total _ _ _ _ _ (copyable_built _ _ _ _ _ HC)) as HT. simpl in HT.
    unfold nonzeroes. destruct (Nat.eqb_spec (mnnz S) 0) as [E|E]; simpl; auto.
    destruct HC as [[W J]|W]; [left|right].
    - split; [apply contig_set_nnz; auto|]. exact J.
    - apply indiv_set_nnz; auto.
  Qed.

  Lemma nonzeroes_ge h (S : mat) n m cols vals :
    built (h, S) n m cols vals -> length (concat cols) <= snd (nonzeroes (h, S)) /\
      (snd (nonzeroes (h, S)) = 0 -> length (concat cols) = 0) /\ mnnz (snd (fst (nonzeroes (h, S)))) = snd (nonzeroes (h, S)).
  Proof.
    intros W. pose proof (built_total _ _ _ _ _ W) as HT. simpl in HT. unfold nonzeroes.
    destruct (Nat.eqb_spec (mnnz S) 0) as [E|E]; simpl; [rewrite HT; auto|].
    destruct W as [W|W].
    - pose proof (cg_nnz _ _ _ _ _ W). pose proof (rows_ok_total _ _ _ (cg_ok _ _ _ _ _ W)). simpl in *. lia.
    - pose proof (iv_nnz _ _ _ _ _ W). simpl in *. lia.
  Qed.

  (** ** copy construction *)
  (** the common part of copy construction and copy assignment *)
  Lemma copy_into_ok h (S M0 : mat) n m cols vals k ar :
    copyable (h, S) n m cols vals -> length (concat cols) <= k ->
    (ar = true /\ mrows M0 = nil \/ ar = false /\ length (mrows M0) = n) ->
    madata M0 = None -> mjid M0 = mjid S ->
    exists h1 M1 h' M', allocate dv (h, M0) n m k ar true = ROk (h1, M1) tt /\
      copyWindowStructure h1 M1 S = Some (h', M') /\
      built (h', S) n m cols vals /\ contig (h', M') n m cols vals /\ jcompact (h', M') cols /\
      (forall k0, k0 < length h -> nth_error h' k0 = nth_error h k0).
  Proof.
    intros HC Hk Hrows Hda Hjd.
    assert (HA : exists h1 M1, allocate dv (h, M0) n m k ar true = ROk (h1, M1) tt /\
              mn M1 = n /\ mm M1 = m /\ mnnz M1 = k /\ madata M1 = (if 0 <? k then Some (repeat dv k) else None) /\
              length (mrows M1) = n /\
              (0 < k -> (mjid S <> None /\ mjid M1 = mjid S /\ h1 = h) \/
                        (mjid S = None /\ h1 = h ++ [repeat 0 k] /\ mjid M1 = Some (length h))) /\
              (k = 0 -> h1 = h /\ mjid M1 = None)).
    { assert (HB : forall rs, length rs = n -> exists h1 M1,
        rbind (match allocateData dv (set_rows (set_sizes M0 n m k k) rs) with
               | ROk M3 _ => ROk (h, M3) tt | RThrow M3 e => RThrow (h, M3) e | RUB => RUB end)
          (fun (s2 : st) _ => let (h2, M3) := s2 in
           let s3 : st := if 0 <? masize M3 then match mjid M3 with Some _ => (h2, M3)
                  | None => (h2 ++ [repeat 0 (masize M3)], set_jid M3 (Some (length h2))) end
                else (h2, set_jid M3 None) in
           ROk (fst s3, set_stage (snd s3) Building) tt) = ROk (h1, M1) tt /\
          mn M1 = n /\ mm M1 = m /\ mnnz M1 = k /\ madata M1 = (if 0 <? k then Some (repeat dv k) else None) /\
              length (mrows M1) = n /\
              (0 < k -> (mjid S <> None /\ mjid M1 = mjid S /\ h1 = h) \/
                        (mjid S = None /\ h1 = h ++ [repeat 0 k] /\ mjid M1 = Some (length h))) /\
              (k = 0 -> h1 = h /\ mjid M1 = None)).
      { intros rs Hrs. unfold allocateData. cbn -[Nat.ltb repeat]. rewrite Hda. cbn -[Nat.ltb repeat]. rewrite Hjd.
        destruct (Nat.ltb_spec 0 k) as [H0|H0].
        - destruct (mjid S) as [jj|] eqn:EJ; do 2 eexists; (split; [reflexivity|]); cbn -[Nat.ltb repeat];
            repeat split; auto; try lia; intros _;
            solve [left; repeat split; congruence | right; repeat split; congruence].
        - do 2 eexists; (split; [reflexivity|]); cbn -[Nat.ltb repeat]; repeat split; auto; lia. }
      destruct Hrows as [[-> Hr]|[-> Hr]].
      - destruct n as [|n'].
        + destruct (HB nil eq_refl) as (h1 & M1 & E & R). exists h1, M1. split; auto.
        + destruct (HB (repeat (mkrow 0 JNull ANull) (Datatypes.S n')) (repeat_length _ _)) as (h1 & M1 & E & R).
          exists h1, M1. split; auto. unfold allocate. cbn [mrows set_sizes]. rewrite Hr.
          rewrite (proj2 (Nat.ltb_lt 0 (Datatypes.S n'))) by lia. exact E.
      - destruct (HB (mrows M0) Hr) as (h1 & M1 & E & R). exists h1, M1. split; auto. }
    destruct HA as (h1 & M1 & EA & HA1 & HA2 & HA3 & HA4 & HA7 & HA5 & HA6). 
    assert (Hext : forall k0, k0 < length h -> nth_error h1 k0 = nth_error h k0).
    { intros k0 Hk0. destruct (Nat.eq_dec k 0) as [E|E]; [destruct (HA6 E) as [-> _]; auto|].
      destruct (HA5 ltac:(lia)) as [(_ & _ & ->)|(_ & -> & _)]; auto. apply nth_error_app1; auto. }
    assert (HC2 : copyable (h1, S) n m cols vals).
    { eapply copyable_heap; [|exact HC]. intros; auto. }
    destruct (copyWindowStructure_ok h1 M1 S n m cols vals HC2 HA1 HA2 HA7) as (h2 & M2 & E2 & W2 & J2 & _ & _ & HJM & _ & HLh & Hh2).
    - lia.
    - rewrite HA3. exact HA4.
    - intros Hp. destruct (HA5 ltac:(lia)) as [(A & B & _)|(A & B & C)]; [left; auto|right].
      split; auto. exists (repeat 0 k). rewrite repeat_length. split; [|lia].
      unfold jarr. rewrite C, B. apply nth_error_snoc.
    - exists h1, M1, h2, M2. split; auto. split; auto.
      assert (HK : forall k0, k0 < length h -> nth_error h2 k0 = nth_error h k0).
      { intros k0 Hk0. rewrite <- Hext by auto. apply Hh2.
        destruct (Nat.eq_dec k 0) as [E|E].
        - right. destruct (HA6 E) as [_ ->]. discriminate.
        - destruct (HA5 ltac:(lia)) as [(A & B & _)|(A & B & C)]; [left; auto|right]. rewrite C. intros X. inversion X. lia. }
      split; [|split; [auto|split; [auto|auto]]].
      apply (built_heap h); [|apply copyable_built; auto]. intros; auto.
  Qed.

  Theorem copy_ctor_ok h (S : mat) n m cols vals :
    copyable (h, S) n m cols vals ->
    exists h' S' M', copy_ctor dv h S = ROk (h', S') M' /\
      copyable (h', S') n m cols vals /\ contig (h', M') n m cols vals /\ jcompact (h', M') cols /\
      (forall k0, k0 < length h -> nth_error h' k0 = nth_error h k0).
  Proof.
    intros HC. pose proof (copyable_built _ _ _ _ _ HC) as HB.
    assert (Hst : mstage S = Built) by (destruct HB as [W|W]; destruct W; auto).
    assert (Hn : mn S = n) by (destruct HB as [W|W]; destruct W; auto).
    assert (Hm : mm S = m) by (destruct HB as [W|W]; destruct W; auto).
    pose proof (copyable_nonzeroes _ _ _ _ _ _ HC) as HC1.
    destruct (nonzeroes_ge _ _ _ _ _ _ HB) as (Hk1 & Hk2 & Hk3).
    unfold copy_ctor. rewrite Hst.
    assert (Hf : fst (fst (nonzeroes (h, S))) = h) by (unfold nonzeroes; destruct (mnnz S =? 0); reflexivity).
    assert (Hj : mjid (snd (fst (nonzeroes (h, S)))) = mjid S) by (unfold nonzeroes; destruct (mnnz S =? 0); reflexivity).
    destruct (nonzeroes (h, S)) as [[h0 S1] k] eqn:EN. cbn [fst snd] in *. subst h0.
    destruct (copy_into_ok h S1 (mkmat (mmode S) NotAllocated 0 0 0 0 nil None (mjid S) (mavg S) (mcbs S) nil) n m cols vals k true HC1 Hk1)
      as (h1 & M1 & h' & M' & E1 & E2 & HB' & W & J & HK); auto.
    rewrite Hn, Hm, E1, E2. exists h', S1, M'. split; auto. split; auto.
    apply (copyable_heap h); auto.
  Qed.

  Theorem copy_assign_ok h (D S : mat) n m cols vals :
    copyable (h, S) n m cols vals ->
    (mstage D = NotAllocated \/ mstage D = Built) -> length (mrows D) = mn D ->
    (masize D = 0 -> madata D = None /\ mjid D = None) ->
    exists h' S' M', copy_assign dv h D S = ROk (h', S') M' /\
      copyable (h', S') n m cols vals /\ contig (h', M') n m cols vals /\ jcompact (h', M') cols /\
      (forall k0, k0 < length h -> nth_error h' k0 = nth_error h k0).
  Proof.
    intros HC HD HDr HDa. pose proof (copyable_built _ _ _ _ _ HC) as HB.
    assert (Hst : mstage S = Built) by (destruct HB as [W|W]; destruct W; auto).
    assert (Hn : mn S = n) by (destruct HB as [W|W]; destruct W; auto).
    assert (Hm : mm S = m) by (destruct HB as [W|W]; destruct W; auto).
    pose proof (copyable_nonzeroes _ _ _ _ _ _ HC) as HC1.
    destruct (nonzeroes_ge _ _ _ _ _ _ HB) as (Hk1 & Hk2 & Hk3).
    assert (HD1 : fst (deallocate (h, D) (negb (mn D =? mn S))) = h /\
       madata (snd (deallocate (h, D) (negb (mn D =? mn S)))) = None /\
       (mn D = n -> length (mrows (snd (deallocate (h, D) (negb (mn D =? mn S))))) = n) /\
       (mn D <> n -> mrows (snd (deallocate (h, D) (negb (mn D =? mn S)))) = nil)).
    { unfold deallocate. rewrite Hn.
      destruct (Nat.ltb_spec 0 (masize D)) as [Ha|Ha]; destruct (Nat.ltb_spec 0 (mn D)) as [Hb|Hb];
        destruct (Nat.eqb_spec (mn D) n) as [Hc|Hc]; cbn -[Nat.ltb]; rewrite ?map_length;
        repeat split; auto; try (intros; congruence); try tauto; try (apply HDa; lia);
        try (intros; rewrite ?map_length; congruence);
        intros; destruct (mrows D); auto; cbn [length] in *; lia. }
    unfold copy_assign. rewrite Hst.
    destruct (deallocate (h, D) (negb (mn D =? mn S))) as [hd D1] eqn:ED. cbn [fst snd] in HD1.
    destruct HD1 as (-> & HD2 & HD3 & HD4).
    assert (Hf : fst (fst (nonzeroes (h, S))) = h) by (unfold nonzeroes; destruct (mnnz S =? 0); reflexivity).
    destruct (nonzeroes (h, S)) as [[h0 S1] k] eqn:EN. cbn [fst snd] in *. subst h0.
    destruct (copy_into_ok h S1 (set_jid (set_nnz D1 k) (mjid S1)) n m cols vals k (negb (mn D =? mn S)) HC1 Hk1)
      as (h1 & M1 & h' & M' & E1 & E2 & HB' & W & J & HK); auto.
    { cbn. rewrite Hn. destruct (Nat.eqb_spec (mn D) n); [right|left]; auto. }
    exists h', S1, M'. split.
    - destruct HD as [-> | ->]; rewrite Hm, Hn in *; rewrite E1, E2; reflexivity.
    - split; auto. apply (copyable_heap h); auto.
  Qed.

  (** ** later changes of values *)
  Inductive vop := VMod (i j : nat) (f : V -> V) | VScale (f : V -> V).
  Definition vstep (s : st) (o : vop) : res st unit :=
    match o with VMod i j f => modify s i j f | VScale f => scale s f end.

  Lemma vstep_heap s o s' u : vstep s o = ROk s' u -> fst s' = fst s.
  Proof.
    destruct s as [h M]. destruct o as [i j f|f]; unfold vstep.
    - unfold modify. destruct (get (h, M) i j); try discriminate. destruct (nth_error (mrows M) i) as [r|]; try discriminate.
      destruct (row_idx h M r) as [l|]; try discriminate. destruct (lower_bound l j); try discriminate.
      destruct (ra r); try discriminate.
      + destruct (madata M); try discriminate. intros H; inversion H; reflexivity.
      + intros H; inversion H; reflexivity.
    - unfold scale. destruct (0 <? mnnz M).
      + destruct (madata M); try discriminate. destruct (mnnz M <=? length l); try discriminate.
        intros H; inversion H; reflexivity.
      + destruct (map_opt (row_view h M) (mrows M)); try discriminate. intros H; inversion H; reflexivity.
  Qed.

  Lemma vrun_heap ops : forall s s' u, rrun vstep s ops = ROk s' u -> fst s' = fst s.
  Proof.
    induction ops as [|o t IH]; intros s s' u H; simpl in H; [inversion H; auto|].
    destruct (vstep s o) as [s1 []| |] eqn:E; try discriminate.
    rewrite (IH _ _ _ H). eapply vstep_heap; eauto.
  Qed.
End Copy.
