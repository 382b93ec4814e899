(** * Proofs about row-wise build mode *)
From Coq Require Import List Arith Bool Lia Sorted Permutation.
From Verif Require Import Sums Outcome BcrsModel BcrsAux BcrsRandom BcrsWf BcrsAccess BcrsCopy.
Import ListNotations.

Section Rowwise.
  Context {V : Type}.
  Variables dv zv : V.
  Notation mat := (@mat V).
  Notation st := (@st V).
  Notation row := (@row V).

  Definition erow : row := mkrow 0 JNull ANull.

  Fixpoint jwins (off : nat) (ks : list nat) : list row :=
    match ks with nil => nil | k :: t => ptr_row off k ANull :: jwins (off + k) t end.

  Lemma jwins_length off ks : length (jwins off ks) = length ks.
  Proof. revert off; induction ks; intros; simpl; auto. Qed.

  Lemma jwins_snoc off ks k : jwins off (ks ++ [k]) = jwins off ks ++ [ptr_row (off + list_sum ks) k ANull].
  Proof.
    revert off. induction ks as [|x t IH]; intros; simpl.
    - rewrite Nat.add_0_r. reflexivity.
    - rewrite IH. rewrite Nat.add_assoc. reflexivity.
  Qed.

  Lemma setDataPointers_jwins off ks : setDataPointers off (jwins off ks) = @wins V off ks.
  Proof.
    revert off. induction ks as [|k t IH]; intros; simpl; auto.
    unfold ptr_row, win. destruct (Nat.ltb_spec 0 k) as [H|H]; simpl.
    - rewrite (proj2 (Nat.ltb_lt _ _) H). rewrite IH. reflexivity.
    - replace k with 0 by lia. rewrite Nat.add_0_r. f_equal. apply IH.
  Qed.

  (** after [done] rows have been finished *)
  Record walking (s : st) (c : citer) (n m nnz : nat) (done : list (list nat)) : Prop := {
    wk_mode : mmode (snd s) = Row_wise;
    wk_stage : mstage (snd s) = Building;
    wk_n : mn (snd s) = n;
    wk_m : mm (snd s) = m;
    wk_nnz : mnnz (snd s) = nnz;
    wk_asize : masize (snd s) = nnz;
    wk_adata : madata (snd s) = None;
    wk_done : length done < n;
    wk_ci : ci_row c = length done /\ ci_nnz c = length (concat done) /\ ci_pat c = nil;
    wk_pre : 0 < nnz -> ci_pos c = length (concat done) /\
       mrows (snd s) = jwins 0 (map (@length nat) done) ++ repeat erow (n - length done) /\
       exists rest, jarr (fst s) (snd s) = Some (concat done ++ rest) /\ length (concat done ++ rest) = nnz;
    wk_own : nnz = 0 -> mjid (snd s) = None /\
       mrows (snd s) = map (fun c => own_row c (repeat dv (length c))) done ++ repeat erow (n - length done)
  }.

  Lemma ci_inserts js : forall c, fold_left ci_insert js c = mkci (ci_row c) (ci_nnz c) (inserts js (ci_pat c)) (ci_pos c).
  Proof.
    induction js as [|j t IH]; intros c; simpl.
    - destruct c; reflexivity.
    - rewrite IH. reflexivity.
  Qed.

  Lemma createend_walking s c n m nnz done :
    walking s c n m nnz done -> createend s = ROk s (mkci n 0 nil 0).
  Proof.
    intros W. destruct s as [h M]. destruct W as [Wm Ws Wn Wmm Wz Wa Wd Wdn Wc Wp Wo]. simpl in *.
    unfold createend, ci_new. simpl. rewrite Wm, Ws, Wn.
    destruct (Nat.eqb_spec n 0); [lia|]. simpl. rewrite ?Wm, ?Hm. reflexivity.
  Qed.

  Lemma upd_app_r {A} (a : list A) x b y : upd (a ++ x :: b) (length a) y = a ++ y :: b.
  Proof. induction a; simpl; auto. f_equal. auto. Qed.

  Lemma concat_snoc {A} (l : list (list A)) x : concat (l ++ [x]) = concat l ++ x.
  Proof. rewrite concat_app. simpl. rewrite app_nil_r. reflexivity. Qed.

  Definition next_ok (nnz : nat) (done : list (list nat)) (pat : list nat) : Prop :=
    nnz = 0 \/ pat = nil \/ length (concat done) + length pat <= nnz.

  (** finished matrix *)
  Record finished (s : st) (n m nnz : nat) (cols : list (list nat)) : Prop := {
    fi_mode : mmode (snd s) = Row_wise;
    fi_pre : 0 < nnz -> contig s n m cols (dvals dv cols) /\ jcompact s cols /\ mnnz (snd s) = length (concat cols);
    fi_own : nnz = 0 -> indiv s n m cols (dvals dv cols) /\ mnnz (snd s) = 0
  }.

  Lemma ci_next_ok s c n m nnz done pat :
    walking s c n m nnz done -> next_ok nnz done pat -> ssorted pat -> Forall (fun j => j < m) pat ->
    Forall (fun c => ssorted c /\ Forall (fun j => j < m) c) done ->
    exists s' c', ci_next dv s (mkci (ci_row c) (ci_nnz c) pat (ci_pos c)) = ROk s' c' /\
      ((S (length done) < n /\ walking s' c' n m nnz (done ++ [pat])) \/
       (S (length done) = n /\ finished s' n m nnz (done ++ [pat]) /\ ci_row c' = n)).
  Proof.
    intros W Hok HS HF HFd. destruct s as [h M].
    destruct W as [Wm Ws Wn Wmm Wz Wa Wd Wdn (Wc1 & Wc2 & Wc3) Wp Wo]. cbn [fst snd] in *.
    unfold ci_next. cbn [ci_row ci_nnz ci_pat ci_pos].
    rewrite Ws, Wc1, Wc2, Wz.
    assert (Hrep : repeat erow (n - length done) = erow :: repeat erow (n - S (length done))).
    { replace (n - length done) with (S (n - S (length done))) by lia. reflexivity. }
    assert (Hall : Forall (fun c => ssorted c /\ Forall (fun j => j < m) c) (done ++ [pat])).
    { apply Forall_app. split; auto. }
    assert (HLs : length (done ++ [pat]) = S (length done)) by (rewrite app_length; simpl; lia).
    assert (HCl : length (concat (done ++ [pat])) = length (concat done) + length pat)
      by (rewrite concat_snoc, app_length; lia).
    destruct (Nat.eq_dec nnz 0) as [E0|E0].
    - (* individually allocated rows *)
      destruct (Wo E0) as [Hj Hr].
      assert (Hrow : nth_error (mrows M) (length done) = Some erow).
      { rewrite Hr, Hrep. rewrite nth_error_app2; rewrite map_length; [|lia]. rewrite Nat.sub_diag. reflexivity. }
      rewrite Hrow. rewrite E0. change (0 <? 0) with false. cbv iota.
      set (newrow := own_row pat (repeat dv (length pat))).
      match goal with |- context [rbind ?X _] =>
        assert (Hr1 : X = ROk (h, set_rows M (upd (mrows M) (length done) newrow)) (ci_pos c)) end.
      { unfold newrow, own_row. destruct (0 <? length pat); reflexivity. }
      rewrite Hr1. cbn [rbind mn set_rows].
      assert (Hrows' : upd (mrows M) (length done) newrow
                       = map (fun c0 => own_row c0 (repeat dv (length c0))) (done ++ [pat]) ++ repeat erow (n - S (length done))).
      { rewrite Hr, Hrep. rewrite map_app, <- app_assoc. simpl.
        rewrite <- (map_length (fun c0 => own_row c0 (repeat dv (length c0))) done). rewrite upd_app_r. reflexivity. }
      rewrite Wn, Hrows'. destruct (Nat.eqb_spec (S (length done)) n) as [En|En].
      + cbn [mnnz set_stage set_rows]. rewrite Wz, E0. change (0 <? 0) with false. cbv iota.
        do 2 eexists. split; [reflexivity|]. right. split; auto. split; [|exact En].
        constructor; simpl; auto; [intros; lia|]. intros _. split; [|lia].
        replace (n - S (length done)) with 0 by lia. simpl repeat. rewrite app_nil_r.
        constructor; simpl; auto; try lia.
        * apply dvals_ok; auto.
        * rewrite map_length. lia.
        * intros i c0 v Hc0 Hv. rewrite nth_error_map, Hc0. unfold dvals in Hv. rewrite nth_error_map, Hc0 in Hv.
          simpl in *. inversion Hv. reflexivity.
      + do 2 eexists. split; [reflexivity|]. left. split; [lia|].
        constructor; simpl; auto; try lia.
        * intros _. split; auto. rewrite HLs. reflexivity.
    - (* preallocated *)
      assert (Hpos : 0 < nnz) by lia. destruct (Wp Hpos) as (Hcp & Hr & rest & HJ & HJL).
      assert (Hrow : nth_error (mrows M) (length done) = Some erow).
      { rewrite Hr, Hrep. rewrite nth_error_app2; rewrite jwins_length, map_length; [|lia]. rewrite Nat.sub_diag. reflexivity. }
      rewrite Hrow, (proj2 (Nat.ltb_lt _ _) Hpos), Hcp.
      set (newrow := @ptr_row V (length (concat done)) (length pat) ANull).
      assert (Hfit : length (concat done) + length pat <= nnz).
      { destruct Hok as [Hok|[Hok|Hok]]; [lia| |auto]. subst pat. simpl. rewrite app_length in HJL. lia. }
      match goal with |- context [rbind ?X _] =>
        assert (Hr1 : exists h1, X = ROk (h1, set_rows M (upd (mrows M) (length done) newrow)) (length (concat done) + length pat) /\
          exists rest', jarr h1 M = Some (concat (done ++ [pat]) ++ rest') /\ length (concat (done ++ [pat]) ++ rest') = nnz) end.
      { unfold newrow, ptr_row. destruct (Nat.ltb_spec 0 (length pat)) as [Hp|Hp].
        - destruct (Nat.ltb_spec nnz (length (concat done) + length pat)); [lia|].
          rewrite HJ, HJL. destruct (Nat.leb_spec (length (concat done) + length pat) nnz); [|lia].
          eexists. split; [reflexivity|]. exists (skipn (length pat) rest).
          assert (Hsp : splice (length (concat done)) pat (concat done ++ rest)
                        = concat (done ++ [pat]) ++ skipn (length pat) rest).
          { rewrite <- (firstn_skipn (length pat) rest) at 1. rewrite splice_app_mid.
            - rewrite concat_snoc, <- app_assoc. reflexivity.
            - rewrite firstn_length. rewrite app_length in HJL. lia. }
          rewrite Hsp. split; [eapply jarr_set_jarr; eauto|]. rewrite <- Hsp, splice_length; auto. lia.
        - exists h. replace (length pat) with 0 by lia. rewrite Nat.add_0_r. split; [reflexivity|].
          exists rest. rewrite concat_snoc. destruct pat; [|simpl in *; lia]. rewrite app_nil_r. auto. }
      destruct Hr1 as (h1 & Hr1 & rest' & HJ' & HJL'). rewrite Hr1. cbn [rbind mn set_rows].
      assert (Hrows' : upd (mrows M) (length done) newrow
                       = jwins 0 (map (@length nat) (done ++ [pat])) ++ repeat erow (n - S (length done))).
      { rewrite Hr, Hrep. rewrite map_app. simpl. rewrite jwins_snoc, <- app_assoc. simpl.
        assert (Hdl : length done = length (jwins 0 (map (@length nat) done))) by (rewrite jwins_length, map_length; auto).
        rewrite Hdl at 2. rewrite upd_app_r.
        unfold newrow. rewrite concat_length. reflexivity. }
      rewrite Wn, Hrows'. destruct (Nat.eqb_spec (S (length done)) n) as [En|En].
      + cbn [mnnz set_stage set_rows]. rewrite Wz, (proj2 (Nat.ltb_lt _ _) Hpos).
        unfold allocateData. cbn [madata set_nnz set_stage set_rows masize]. rewrite Wd, Wa, (proj2 (Nat.ltb_lt _ _) Hpos).
        do 2 eexists. split; [reflexivity|]. right. split; auto. split; [|exact En].
        constructor; simpl; auto; [|intros; lia]. intros _.
        replace (n - S (length done)) with 0 by lia. simpl repeat. rewrite app_nil_r.
        rewrite setDataPointers_jwins. split; [|split; [|lia]].
        * apply contig_wins; simpl; auto; try lia.
          -- apply dvals_ok; auto.
          -- intros _. exists rest'. exact HJ'.
          -- rewrite concat_dvals, repeat_length. lia.
          -- left. exists (repeat dv (nnz - length (concat (done ++ [pat])))). rewrite concat_dvals, <- repeat_app, repeat_length.
             rewrite HCl. replace (length (concat done) + length pat + (nnz - (length (concat done) + length pat))) with nnz by lia.
             split; auto.
        * intros _. exists rest'. exact HJ'.
      + do 2 eexists. split; [reflexivity|]. left. split; [lia|].
        constructor; simpl; auto; try lia.
        * intros _. split; [lia|]. split; [rewrite HLs; reflexivity|].
          exists rest'. split; auto.
  Qed.

  Lemma ci_next_small s c n m nnz done pat :
    walking s c n m nnz done -> ~ next_ok nnz done pat ->
    ci_next dv s (mkci (ci_row c) (ci_nnz c) pat (ci_pos c)) = RThrow s EBCRS.
  Proof.
    intros W Hok. destruct s as [h M].
    destruct W as [Wm Ws Wn Wmm Wz Wa Wd Wdn (Wc1 & Wc2 & Wc3) Wp Wo]. unfold next_ok in Hok. simpl in *.
    rewrite Ws, Wc1, Wc2, Wz.
    assert (Hpos : 0 < nnz) by lia. destruct (Wp Hpos) as (Hcp & Hr & _).
    assert (Hrow : nth_error (mrows M) (length done) = Some erow).
    { rewrite Hr. replace (n - length done) with (S (n - S (length done))) by lia. simpl.
      rewrite nth_error_app2; rewrite jwins_length, map_length; [|lia]. rewrite Nat.sub_diag. reflexivity. }
    rewrite Hrow. assert (Hp : 0 < length pat) by (destruct pat; [tauto|simpl; lia]).
    rewrite (proj2 (Nat.ltb_lt _ _) Hp), (proj2 (Nat.ltb_lt _ _) Hpos).
    destruct (Nat.ltb_spec nnz (length (concat done) + length pat)); [reflexivity|lia].
  Qed.

  Definition patterns (ins : list (list nat)) : list (list nat) := map (fun js => inserts js nil) ins.

  Lemma createend_finished s n m nnz cols :
    finished s n m nnz cols -> 0 < n -> createend s = ROk s (mkci n 0 nil 0).
  Proof.
    intros F Hn. assert (mstage (snd s) = Built /\ mn (snd s) = n).
    { destruct (Nat.eq_dec nnz 0) as [E|E].
      - destruct (fi_own _ _ _ _ _ F E) as [W _]. destruct W; auto.
      - destruct (fi_pre _ _ _ _ _ F ltac:(lia)) as (W & _). destruct W; auto. }
    destruct H as [H1 H2]. destruct s as [h M]. pose proof (fi_mode _ _ _ _ _ F) as Hm. simpl in *.
    unfold createend, ci_new. simpl. rewrite Hm, H1, H2. destruct (Nat.eqb_spec n 0); [lia|]. simpl. rewrite Hm. reflexivity.
  Qed.

  Lemma walk_run ins : forall s c n m nnz done,
    walking s c n m nnz done -> length done + length ins = n ->
    Forall (fun c => ssorted c /\ Forall (fun j => j < m) c) done ->
    Forall (Forall (fun j => j < m)) ins ->
    let cols := done ++ patterns ins in
    ((nnz = 0 \/ length (concat cols) <= nnz) ->
       exists s' c', ci_walk dv s c ins = ROk s' c' /\ finished s' n m nnz cols) /\
    (~ (nnz = 0 \/ length (concat cols) <= nnz) -> exists s', ci_walk dv s c ins = RThrow s' EBCRS).
  Proof.
    induction ins as [|js t IH]; intros s c n m nnz done W HL HFd HF cols.
    - simpl in HL. pose proof (wk_done _ _ _ _ _ _ W). lia.
    - inversion HF as [|? ? Hjs Ht]; subst.
      assert (HSp : ssorted (inserts js nil)) by (apply inserts_ss; constructor).
      assert (HFp : Forall (fun j => j < m) (inserts js nil)).
      { rewrite Forall_forall in *. intros j Hj. apply inserts_In in Hj. destruct Hj as [Hj|[]]. auto. }
      simpl ci_walk. rewrite (createend_walking _ _ _ _ _ _ W). simpl ci_row.
      destruct (wk_ci _ _ _ _ _ _ W) as (Hc1 & Hc2 & Hc3).
      pose proof (wk_done _ _ _ _ _ _ W) as Hlt.
      rewrite Hc1. change (length (js :: t)) with (S (length t)) in *. destruct (Nat.eqb_spec (length done) (length done + S (length t))); [lia|].
      rewrite ci_inserts, Hc3.
      assert (Hdec : next_ok nnz done (inserts js nil) \/ ~ next_ok nnz done (inserts js nil)).
      { unfold next_ok. destruct (inserts js nil) as [|x xs]; [left; auto|].
        destruct (Nat.eq_dec nnz 0); [left; auto|].
        destruct (Nat.le_gt_cases (length (concat done) + length (x :: xs)) nnz); [left; auto|].
        right. intros [A|[A|A]]; [lia|discriminate|lia]. }
      assert (Hcols : cols = (done ++ [inserts js nil]) ++ patterns t).
      { unfold cols. rewrite <- app_assoc. reflexivity. }
      destruct Hdec as [Hn|Hn].
      + destruct (ci_next_ok _ _ _ _ _ _ _ W Hn HSp HFp HFd) as (s' & c' & E & [[Hl W']|(Hl & F & Hcr)]).
        * rewrite E. simpl rbind. rewrite Hcols.
          assert (HFd' : Forall (fun c => ssorted c /\ Forall (fun j => j < m) c) (done ++ [inserts js nil])).
          { apply Forall_app; split; auto. }
          assert (HL' : length (done ++ [inserts js nil]) + length t = length done + S (length t))
            by (rewrite app_length; simpl; lia).
          exact (IH s' c' _ m nnz _ W' HL' HFd' Ht).
        * simpl in Hl. destruct t as [|x t]; [|simpl in Hl; lia].
          rewrite E. simpl rbind. simpl ci_walk.
          rewrite (createend_finished _ _ _ _ _ F) by lia. simpl ci_row. rewrite Hcr, Nat.eqb_refl.
          assert (Hcols' : cols = done ++ [inserts js nil]) by reflexivity. rewrite Hcols'.
          split.
          -- intros _. do 2 eexists. split; [reflexivity|]. exact F.
          -- intros H. exfalso. apply H. rewrite concat_snoc, app_length. destruct Hn as [Hn|[Hn|Hn]]; auto.
             rewrite Hn. simpl. destruct (Nat.eq_dec nnz 0); auto.
             destruct (wk_pre _ _ _ _ _ _ W ltac:(lia)) as (_ & _ & rest & _ & HJL). rewrite app_length in HJL. lia.
      + rewrite (ci_next_small _ _ _ _ _ _ _ W Hn). simpl. split.
        * intros H. exfalso. apply Hn. unfold next_ok. destruct H as [H|H]; auto. right. right.
          rewrite Hcols, concat_app, concat_snoc, !app_length in H. lia.
        * intros _. eauto.
  Qed.

  Lemma fresh_walking s bm n m nnz :
    fresh s bm n m nnz -> (bm = Row_wise \/ bm = Unknown) -> 0 < n ->
    exists s1 c, createbegin s = ROk s1 c /\ walking s1 c n m nnz nil.
  Proof.
    intros F Hbm Hn. destruct s as [h M]. destruct F as [Fm Fs Fn Fmm Fz Fa Fd Fr Fj]. simpl in *.
    unfold createbegin, ci_new. rewrite Fs. simpl Nat.eqb.
    assert (E : exists M', (match mmode M with Unknown => set_mode M Row_wise | _ => M end) = M' /\
                 M' = set_mode M Row_wise).
    { destruct Hbm as [->| ->]; rewrite Fm; eexists; split; eauto. destruct M; simpl in *; subst; reflexivity. }
    destruct E as (M' & E1 & ->). rewrite Fm in E1. rewrite Fm.
    replace (match bm with Row_wise => M | Random => M | Implicit => M | Unknown => set_mode M Row_wise end)
      with (set_mode M Row_wise) by (destruct Hbm as [->| ->]; auto).
    cbn [mstage set_mode mmode mn]. rewrite Fs, Fn. destruct (Nat.eqb_spec n 0); [lia|]. simpl.
    do 2 eexists. split; [reflexivity|].
    constructor; simpl; auto.
    - intros H. split; auto. rewrite Nat.sub_0_r. split; auto. destruct (proj2 Fj H) as (J & HJ & HJL). exists J. auto.
    - intros H. split; [apply (proj1 Fj H)|]. rewrite Nat.sub_0_r. auto.
  Qed.

  Lemma fresh_zero_rows s bm m nnz ins :
    fresh s bm 0 m nnz -> exists s', rowwise_build dv s ins = RThrow s' EBCRS.
  Proof.
    intros F. destruct s as [h M]. destruct F as [Fm Fs Fn Fmm Fz Fa Fd Fr Fj]. simpl in *.
    unfold rowwise_build, createbegin, ci_new. rewrite Fs. cbn [Nat.eqb].
    destruct bm; rewrite Fm; cbn [mstage set_mode mmode mn]; rewrite ?Fs, ?Fm, ?Fn; simpl; eauto;
      destruct ins; simpl; unfold createend, ci_new; simpl; rewrite ?Fm, ?Fn; simpl; eauto.
  Qed.
End Rowwise.
