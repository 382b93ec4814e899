(** * Finished BCRS matrices: representation invariants and their consequences *)
From Coq Require Import List Arith Bool Lia Sorted Permutation.
From Verif Require Import Sums Outcome BcrsModel BcrsAux BcrsRandom.
Import ListNotations.

Section Wf.
  Context {V : Type}.
  Variables dv zv : V.
  Notation mat := (@mat V).
  Notation st := (@st V).
  Notation row := (@row V).

  Definition rows_ok (m : nat) (cols : list (list nat)) (vals : list (list V)) : Prop :=
    length vals = length cols /\
    (forall i c v, nth_error cols i = Some c -> nth_error vals i = Some v -> length v = length c) /\
    Forall (fun c => ssorted c /\ Forall (fun j => j < m) c) cols.

  (** values stored contiguously, row after row (all build modes with a known number of nonzeros) *)
  Record contig (s : st) (n m : nat) (cols : list (list nat)) (vals : list (list V)) : Prop := {
    cg_stage : mstage (snd s) = Built;
    cg_n : mn (snd s) = n;
    cg_m : mm (snd s) = m;
    cg_len : length cols = n;
    cg_ok : rows_ok m cols vals;
    cg_nrows : length (mrows (snd s)) = n;
    cg_rows : forall i c, nth_error cols i = Some c ->
              exists r, nth_error (mrows (snd s)) i = Some r /\ rsize r = length c /\
                        (0 < length c -> ra r = AArr (length (concat (firstn i vals))) /\
                                         (exists jo, rj r = JArr jo)) /\
                        row_idx (fst s) (snd s) r = Some c;
    cg_nnz : length (concat vals) <= mnnz (snd s);
    cg_data : (exists tail, madata (snd s) = Some (concat vals ++ tail) /\
                            mnnz (snd s) <= length (concat vals ++ tail))
              \/ (madata (snd s) = None /\ mnnz (snd s) = 0)
  }.

  (** every row has its own arrays (row_wise mode without preallocation) *)
  Definition own_row (c : list nat) (v : list V) : row :=
    if 0 <? length c then mkrow (length c) (JOwn c) (AOwn v) else mkrow 0 JNull ANull.

  Record indiv (s : st) (n m : nat) (cols : list (list nat)) (vals : list (list V)) : Prop := {
    iv_stage : mstage (snd s) = Built;
    iv_mode : mmode (snd s) = Row_wise;
    iv_n : mn (snd s) = n;
    iv_m : mm (snd s) = m;
    iv_len : length cols = n;
    iv_ok : rows_ok m cols vals;
    iv_nrows : length (mrows (snd s)) = n;
    iv_rows : forall i c v, nth_error cols i = Some c -> nth_error vals i = Some v ->
                            nth_error (mrows (snd s)) i = Some (own_row c v);
    iv_nnz : mnnz (snd s) = 0 \/ mnnz (snd s) = length (concat cols);
    iv_asize : masize (snd s) = 0;
    iv_adata : madata (snd s) = None;
    iv_jid : mjid (snd s) = None
  }.

  Definition built (s : st) (n m : nat) (cols : list (list nat)) (vals : list (list V)) : Prop :=
    contig s n m cols vals \/ indiv s n m cols vals.

  (** ** reading rows *)
  Lemma contig_row s n m cols vals i c v r :
    contig s n m cols vals -> nth_error cols i = Some c -> nth_error vals i = Some v ->
    nth_error (mrows (snd s)) i = Some r ->
    row_idx (fst s) (snd s) r = Some c /\ row_val (snd s) r = Some v /\ rsize r = length c.
  Proof.
    intros W Hc Hv Hr. destruct W as [Ws Wn Wm Wl Wo Wnr Wr Wz Wd].
    destruct (Wr i c Hc) as (r' & Hr' & Hsz & Ha & Hidx). rewrite Hr in Hr'. inversion Hr'; subst r'.
    split; auto. split; auto.
    destruct Wo as (HL & HLL & HS). pose proof (HLL i c v Hc Hv) as Hlen.
    unfold row_val. rewrite Hsz. destruct (Nat.eqb_spec (length c) 0) as [E|E].
    - destruct v; [reflexivity|simpl in Hlen; lia].
    - destruct (Ha ltac:(lia)) as [Hra _]. rewrite Hra.
      pose proof (concat_split vals i v Hv) as Hcs.
      assert (Hpos : 0 < length (concat vals)) by (rewrite Hcs, !app_length; lia).
      destruct Wd as [(tail & Hd & Hdl)|[_ Hz]]; [|lia].
      rewrite Hd. rewrite Hcs at 1. rewrite !app_length.
      destruct (Nat.leb_spec (length (concat (firstn i vals)) + length c)
                  (length (concat (firstn i vals)) + (length v + length (concat (skipn (S i) vals))) + length tail)); [|lia].
      f_equal. rewrite Hcs. rewrite <- !app_assoc, <- Hlen. apply slice_app_mid.
  Qed.

  Lemma indiv_row s n m cols vals i c v r :
    indiv s n m cols vals -> nth_error cols i = Some c -> nth_error vals i = Some v ->
    nth_error (mrows (snd s)) i = Some r ->
    row_idx (fst s) (snd s) r = Some c /\ row_val (snd s) r = Some v /\ rsize r = length c.
  Proof.
    intros W Hc Hv Hr. rewrite (iv_rows _ _ _ _ _ W i c v Hc Hv) in Hr. inversion Hr; subst r.
    destruct (iv_ok _ _ _ _ _ W) as (HL & HLL & HS). pose proof (HLL i c v Hc Hv) as Hlen.
    unfold own_row. destruct (Nat.ltb_spec 0 (length c)); unfold row_idx, row_val; simpl.
    - destruct (Nat.eqb_spec (length c) 0); [lia|]. rewrite Hlen, Nat.leb_refl.
      rewrite firstn_all, <- Hlen, firstn_all. auto.
    - destruct c; [|simpl in *; lia]. destruct v; [auto|simpl in *; lia].
  Qed.

  Lemma built_row s n m cols vals i c v r :
    built s n m cols vals -> nth_error cols i = Some c -> nth_error vals i = Some v ->
    nth_error (mrows (snd s)) i = Some r ->
    row_idx (fst s) (snd s) r = Some c /\ row_val (snd s) r = Some v /\ rsize r = length c.
  Proof. intros [W|W]; [eapply contig_row|eapply indiv_row]; eauto. Qed.

  Lemma built_nrows s n m cols vals : built s n m cols vals ->
    length (mrows (snd s)) = n /\ length cols = n /\ length vals = n /\ rows_ok m cols vals.
  Proof.
    intros [W|W]; destruct W; destruct cg_ok0 || destruct iv_ok0; unfold rows_ok; repeat split; auto; try congruence; tauto.
  Qed.

  Definition zip_rows (cols : list (list nat)) (vals : list (list V)) : list (list (nat * V)) :=
    map (fun cv => combine (fst cv) (snd cv)) (combine cols vals).

  Lemma nth_error_combine {A B} (a : list A) (b : list B) i x y :
    nth_error a i = Some x -> nth_error b i = Some y -> nth_error (combine a b) i = Some (x, y).
  Proof.
    revert b i. induction a as [|p t IH]; intros [|q u] [|i] Ha Hb; simpl in *; try discriminate.
    - congruence.
    - auto.
  Qed.

  Lemma zip_rows_nth cols vals i c v :
    nth_error cols i = Some c -> nth_error vals i = Some v ->
    nth_error (zip_rows cols vals) i = Some (combine c v).
  Proof.
    intros Hc Hv. unfold zip_rows. rewrite nth_error_map.
    rewrite (nth_error_combine _ _ _ _ _ Hc Hv). reflexivity.
  Qed.

  Lemma built_view s n m cols vals :
    built s n m cols vals -> view s = Some (zip_rows cols vals).
  Proof.
    intros W. destruct (built_nrows _ _ _ _ _ W) as (H1 & H2 & H3 & Hok).
    unfold view. apply map_opt_spec. split.
    - unfold zip_rows. rewrite map_length, combine_length. lia.
    - intros i r Hr. pose proof (nth_error_lt _ _ _ Hr) as Hi.
      destruct (nth_error_ex cols i ltac:(lia)) as [c Hc].
      destruct (nth_error_ex vals i ltac:(lia)) as [v Hv].
      destruct (built_row _ _ _ _ _ _ _ _ _ W Hc Hv Hr) as (Hi1 & Hi2 & _).
      unfold row_view. rewrite Hi1, Hi2. symmetry. apply zip_rows_nth; auto.
  Qed.

  Lemma concat_length {A} (ls : list (list A)) : length (concat ls) = list_sum (map (@length A) ls).
  Proof. induction ls; simpl; auto. rewrite app_length. congruence. Qed.

  Lemma rows_ok_lengths m cols vals : rows_ok m cols vals -> map (@length V) vals = map (@length nat) cols.
  Proof.
    intros (HL & HLL & _). apply list_eq_nth; [rewrite !map_length; auto|].
    intros i Hi. rewrite map_length in Hi. rewrite !nth_error_map.
    destruct (nth_error_ex cols i ltac:(lia)) as [c Hc]. destruct (nth_error_ex vals i ltac:(lia)) as [v Hv].
    rewrite Hc, Hv. simpl. f_equal. eauto.
  Qed.

  Lemma rows_ok_total m cols vals : rows_ok m cols vals -> length (concat vals) = length (concat cols).
  Proof. intros H. rewrite !concat_length. f_equal. eapply rows_ok_lengths; eauto. Qed.

  Lemma built_total s n m cols vals : built s n m cols vals -> total_size (mrows (snd s)) = length (concat cols).
  Proof.
    intros W. destruct (built_nrows _ _ _ _ _ W) as (H1 & H2 & H3 & Hok).
    rewrite concat_length.
    assert (H : map rsize (mrows (snd s)) = map (@length nat) cols).
    { apply list_eq_nth; [rewrite !map_length; lia|]. intros i Hi. rewrite map_length in Hi.
      rewrite !nth_error_map. destruct (nth_error_ex (mrows (snd s)) i Hi) as [r Hr].
      destruct (nth_error_ex cols i ltac:(lia)) as [c Hc]. destruct (nth_error_ex vals i ltac:(lia)) as [v Hv].
      rewrite Hr, Hc. simpl. f_equal. eapply built_row; eauto. }
    rewrite <- H. clear. induction (mrows (snd s)); simpl; auto.
  Qed.

  (** ** endindices *)
  Fixpoint shrunk (off : nat) (cs : list (list nat * nat)) : list row :=
    match cs with
    | nil => nil
    | p :: t => mkrow (length (fst p)) (rj (@ptr_row V off (snd p) ANull)) ANull :: shrunk (off + snd p) t
    end.

  Lemma used_count_app m l1 l2 : Forall (fun c => c < m) l1 -> match l2 with nil => True | z :: _ => m <= z end ->
    used_count m (l1 ++ l2) = length l1.
  Proof.
    induction 1 as [|c t Hc HF IH]; simpl; intros H2.
    - destruct l2; simpl; auto. destruct (Nat.leb_spec m n); [auto|lia].
    - destruct (Nat.leb_spec m c); [lia|]. auto.
  Qed.

  Lemma used_count_slot m p : slot_ok m p -> used_count m (slot m p) = length (fst p).
  Proof.
    intros (_ & HF & _). apply used_count_app; auto.
    destruct (repeat m (snd p - length (fst p))) as [|z zs] eqn:E; auto.
    assert (In z (repeat m (snd p - length (fst p)))) by (rewrite E; left; auto).
    apply repeat_spec in H. lia.
  Qed.

  Lemma shrink_rows_ok s n m nnz cs rest pre :
    phase2 s n m nnz cs -> cs = pre ++ rest ->
    shrink_rows (fst s) (snd s) (setColumnPointers (length (cslots m pre)) (map row0 (map snd rest)))
    = Some (shrunk (length (cslots m pre)) rest,
            list_sum (map snd rest) - length (concat (map fst rest))).
  Proof.
    revert pre. induction rest as [|p t IH]; intros pre P E.
    - reflexivity.
    - pose proof (p2_slots _ _ _ _ _ P) as HF.
      assert (Hp : nth_error cs (length pre) = Some p).
      { rewrite E, nth_error_app2, Nat.sub_diag by lia. reflexivity. }
      assert (Hps : slot_ok m p) by (rewrite Forall_forall in HF; apply HF; eapply nth_error_In; eauto).
      assert (Hpre : firstn (length pre) cs = pre) by (rewrite E, firstn_app, firstn_all, Nat.sub_diag; apply app_nil_r).
      pose proof (p2_row_idx _ _ _ _ _ _ _ P Hp) as Hidx. rewrite Hpre in Hidx.
      cbn [map setColumnPointers shrink_rows rsize row0 ra].
      assert (Hrow : (if 0 <? snd p then mkrow (snd p) (JArr (length (cslots m pre))) (@ANull V) else mkrow 0 JNull ANull)
                     = ptr_row (length (cslots m pre)) (snd p) ANull) by reflexivity.
      change (rsize (@row0 V (snd p))) with (snd p). change (ra (@row0 V (snd p))) with (@ANull V).
      rewrite Hrow, Hidx.
      specialize (IH (pre ++ [p]) P ltac:(rewrite <- app_assoc; exact E)).
      assert (Hoff : length (cslots m (pre ++ [p])) = length (cslots m pre) + snd p).
      { unfold cslots. rewrite map_app, concat_app, app_length. simpl. rewrite app_nil_r, slot_length by auto. reflexivity. }
      rewrite Hoff in IH. rewrite IH.
      rewrite (p2_m _ _ _ _ _ P), used_count_slot by auto.
      cbn [shrunk]. f_equal. f_equal.
      + f_equal. unfold ptr_row. destruct (Nat.ltb_spec 0 (snd p)); reflexivity.
      + assert (Hsz : rsize (ptr_row (length (cslots m pre)) (snd p) (@ANull V)) = snd p).
        { unfold ptr_row. destruct (Nat.ltb_spec 0 (snd p)); simpl; lia. }
        rewrite Hsz. cbn [map list_sum fold_right concat]. rewrite app_length.
        assert (length (concat (map fst t)) <= list_sum (map snd t)).
        { assert (HFt : Forall (slot_ok m) t) by (rewrite E in HF; apply Forall_app in HF; destruct HF as [_ HF]; inversion HF; auto).
          clear -HFt. induction HFt as [|q u Hq HF IH]; simpl; auto. rewrite app_length.
          destruct Hq as (_ & _ & Hq). unfold list_sum in *. lia. }
        destruct Hps as (_ & _ & Hle). unfold list_sum in *. lia.
  Qed.

  Fixpoint final_rows (joff aoff : nat) (cs : list (list nat * nat)) : list row :=
    match cs with
    | nil => nil
    | p :: t => (if 0 <? length (fst p) then mkrow (length (fst p)) (rj (@ptr_row V joff (snd p) ANull)) (AArr aoff)
                 else mkrow 0 JNull ANull)
                :: final_rows (joff + snd p) (aoff + length (fst p)) t
    end.

  Lemma setDataPointers_shrunk aoff joff cs :
    setDataPointers aoff (shrunk joff cs) = final_rows joff aoff cs.
  Proof.
    revert aoff joff. induction cs as [|p t IH]; intros; simpl; auto. rewrite IH. reflexivity.
  Qed.

  Lemma final_rows_nth cs i p joff aoff :
    nth_error cs i = Some p ->
    nth_error (final_rows joff aoff cs) i =
    Some (if 0 <? length (fst p)
          then mkrow (length (fst p)) (rj (@ptr_row V (joff + list_sum (map snd (firstn i cs))) (snd p) ANull))
                     (AArr (aoff + length (concat (map fst (firstn i cs)))))
          else mkrow 0 JNull ANull).
  Proof.
    revert i joff aoff. induction cs as [|q t IH]; intros [|i] joff aoff H; simpl in *; try discriminate.
    - inversion H; subst. rewrite !Nat.add_0_r. reflexivity.
    - rewrite (IH i _ _ H), app_length. rewrite <- !Nat.add_assoc. reflexivity.
  Qed.

  Lemma final_rows_length joff aoff cs : length (final_rows joff aoff cs) = length cs.
  Proof. revert joff aoff; induction cs; intros; simpl; auto. Qed.

  Definition dvals (cols : list (list nat)) : list (list V) := map (fun c => repeat dv (length c)) cols.

  Lemma concat_dvals cols : concat (dvals cols) = repeat dv (length (concat cols)).
  Proof. unfold dvals. induction cols; simpl; auto. rewrite app_length, repeat_app. congruence. Qed.

  Lemma dvals_ok m cols : Forall (fun c => ssorted c /\ Forall (fun j => j < m) c) cols -> rows_ok m cols (dvals cols).
  Proof.
    intros H. unfold rows_ok, dvals. rewrite map_length. split; auto. split; auto.
    intros i c v Hc Hv. rewrite nth_error_map, Hc in Hv. simpl in Hv. inversion Hv. apply repeat_length.
  Qed.

  Lemma jarr_same h (M M' : mat) : mjid M = mjid M' -> jarr h M = jarr h M'.
  Proof. unfold jarr. intros ->. reflexivity. Qed.

  Lemma endindices_ok s n m nnz cs :
    phase2 s n m nnz cs ->
    exists s', endindices dv s = ROk s' tt /\
      contig s' n m (map fst cs) (dvals (map fst cs)) /\
      mnnz (snd s') = nnz - (list_sum (map snd cs) - length (concat (map fst cs))) /\
      fst s' = fst s /\ mjid (snd s') = mjid (snd s).
  Proof.
    intros P. pose proof (shrink_rows_ok s n m nnz cs cs nil P eq_refl) as HSh. simpl in HSh.
    pose proof (p2_slots _ _ _ _ _ P) as HF.
    pose proof (fun i p => p2_row_idx s n m nnz cs i p P) as Hidx.
    destruct s as [h M]. destruct P as [Pm Ps Pn Pmm Pz Pa Pd PL Pr _ PT PJ0 PJ].
    simpl in *. rewrite Pm, Ps, Pr, HSh. unfold allocateData. cbn [madata set_nnz set_rows masize]. rewrite Pd, Pa.
    cbn -[Nat.ltb setDataPointers].
    assert (HcsL : length (concat (map fst cs)) <= list_sum (map snd cs)).
    { clear -HF. induction HF as [|q u Hq HF IH]; simpl; auto. rewrite app_length.
      destruct Hq as (_ & _ & Hq). unfold list_sum in *. lia. }
    eexists. split; [reflexivity|]. split; [|simpl; split; [rewrite Pz; reflexivity|auto]].
    rewrite setDataPointers_shrunk.
    constructor; cbn -[Nat.ltb]; auto.
    - rewrite map_length; auto.
    - apply dvals_ok. apply Forall_forall. intros c Hc. apply in_map_iff in Hc. destruct Hc as (p & <- & Hp).
      rewrite Forall_forall in HF. destruct (HF p Hp) as (A & B & _). auto.
    - rewrite final_rows_length; auto.
    - intros i c Hc. rewrite nth_error_map in Hc. destruct (nth_error cs i) as [p|] eqn:Hp; [|discriminate].
      simpl in Hc. inversion Hc; subst c.
      assert (Hps : slot_ok m p) by (rewrite Forall_forall in HF; apply HF; eapply nth_error_In; eauto).
      pose proof (proj2 (proj2 Hps)) as Hle.
      pose proof (slot_length m p Hps) as HSL.
      specialize (Hidx i p Hp).
      rewrite (final_rows_nth cs i p 0 0 Hp). eexists. split; [reflexivity|]. simpl Nat.add.
      assert (Hoff : list_sum (map snd (firstn i cs)) = length (cslots m (firstn i cs)))
        by (symmetry; apply cslots_length; apply Forall_firstn; auto).
      rewrite Hoff.
      destruct (Nat.ltb_spec 0 (length (fst p))) as [H0|H0]; cbn [rsize ra rj].
      + assert (H1 : 0 < snd p) by lia.
        unfold ptr_row in Hidx |- *. rewrite (proj2 (Nat.ltb_lt _ _) H1) in *. cbn [rj].
        split; auto. split.
        * intros _. split; [|eauto]. f_equal. unfold dvals. rewrite !firstn_map.
          fold (dvals (map fst (firstn i cs))). rewrite concat_dvals, repeat_length. reflexivity.
        * unfold row_idx in Hidx |- *. cbn [rsize rj] in *.
          destruct (Nat.eqb_spec (snd p) 0); [lia|]. destruct (Nat.eqb_spec (length (fst p)) 0); [lia|].
          match goal with |- context [jarr h ?X] => change (jarr h X) with (jarr h M) end.
          destruct (jarr h M) as [J|] eqn:EJ; [|discriminate].
          destruct (Nat.leb_spec (length (cslots m (firstn i cs)) + snd p) (length J)); [|discriminate].
          destruct (Nat.leb_spec (length (cslots m (firstn i cs)) + length (fst p)) (length J)); [|lia].
          inversion Hidx as [Hsl]. f_equal.
          rewrite <- (slice_firstn_len J _ _ _ Hle), Hsl. unfold slot.
          rewrite firstn_app, firstn_all, Nat.sub_diag, firstn_O. apply app_nil_r.
      + split; [lia|]. split; [intros; lia|]. unfold row_idx. simpl. destruct (fst p); [auto|simpl in *; lia].
    - rewrite concat_dvals, repeat_length. lia.
    - rewrite Pz, concat_dvals. destruct (Nat.ltb_spec 0 nnz) as [H0|H0].
      + left. exists (repeat dv (nnz - length (concat (map fst cs)))).
        rewrite <- repeat_app, repeat_length.
        replace (length (concat (map fst cs)) + (nnz - length (concat (map fst cs)))) with nnz by lia.
        split; auto. lia.
      + right. split; auto. lia.
  Qed.
End Wf.
