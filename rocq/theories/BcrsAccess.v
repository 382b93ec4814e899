(** * Element access, scaling and copying of finished BCRS matrices *)
From Coq Require Import List Arith Bool Lia Sorted Permutation.
From Verif Require Import Sums Outcome BcrsModel BcrsAux BcrsRandom BcrsWf.
Import ListNotations.

Section Access.
  Context {V : Type}.
  Variables dv zv : V.
  Notation mat := (@mat V).
  Notation st := (@st V).
  Notation row := (@row V).

  Implicit Types (s : st) (vals : list (list V)) (cols : list (list nat)).

  (** ** lookup *)
  Lemma lower_bound_sorted c j :
    ssorted c -> exists p, lower_bound c j = Some p /\
      ((In j c /\ nth_error c p = Some j) \/ (~ In j c /\ nth_error c p <> Some j)).
  Proof.
    intros HS. destruct (ss_split c j HS) as (l1 & l2 & -> & H1 & H2).
    exists (length l1). split; [apply lower_bound_app; auto|].
    rewrite nth_error_app2, Nat.sub_diag by lia.
    apply ss_app_inv in HS. destruct HS as (HS1 & HS2 & _).
    destruct l2 as [|x t]; simpl.
    - right. split; [|discriminate]. intros Hin. rewrite app_nil_r in Hin.
      rewrite Forall_forall in H1. specialize (H1 _ Hin). lia.
    - inversion H2; subst. inversion HS2; subst.
      destruct (Nat.eq_dec x j) as [->|Hne].
      + left. split; auto. apply in_or_app. right. left. auto.
      + right. split; [|congruence]. intros Hin. apply in_app_or in Hin. destruct Hin as [Hin|[Hin|Hin]].
        * rewrite Forall_forall in H1. specialize (H1 _ Hin). lia.
        * congruence.
        * rewrite Forall_forall in H6. specialize (H6 _ Hin). lia.
  Qed.

  Lemma built_get3 s n m cols vals i :
    built s n m cols vals -> i < n ->
    exists r c v, nth_error (mrows (snd s)) i = Some r /\ nth_error cols i = Some c /\ nth_error vals i = Some v /\
      row_idx (fst s) (snd s) r = Some c /\ row_val (snd s) r = Some v /\ rsize r = length c /\
      ssorted c /\ length v = length c.
  Proof.
    intros W Hi. destruct (built_nrows _ _ _ _ _ W) as (H1 & H2 & H3 & Hok).
    destruct (nth_error_ex (mrows (snd s)) i ltac:(lia)) as [r Hr].
    destruct (nth_error_ex cols i ltac:(lia)) as [c Hc]. destruct (nth_error_ex vals i ltac:(lia)) as [v Hv].
    exists r, c, v. destruct (built_row _ _ _ _ _ _ _ _ _ W Hc Hv Hr) as (A & B & C).
    destruct Hok as (HL & HLL & HS). rewrite Forall_forall in HS.
    destruct (HS c (nth_error_In _ _ Hc)) as [HSc _].
    repeat split; auto. eauto.
  Qed.

  Lemma exists_ok s n m cols vals i j c :
    built s n m cols vals -> i < n -> nth_error cols i = Some c ->
    exists b, exists_ s i j = Ok b /\ (b = true <-> In j c).
  Proof.
    intros W Hi Hc. destruct (built_get3 _ _ _ _ _ i W Hi) as (r & c' & v & Hr & Hc' & Hv & Hidx & _ & Hsz & HS & HL).
    rewrite Hc in Hc'. inversion Hc'; subst c'.
    destruct s as [h M]. simpl in *. rewrite Hr, Hsz.
    destruct (Nat.eqb_spec (length c) 0).
    - exists false. split; auto. destruct c; [simpl; intuition discriminate|simpl in *; lia].
    - rewrite Hidx. destruct (lower_bound_sorted c j HS) as (p & Hp & [[Hin Hn]|[Hin Hn]]); rewrite Hp.
      + rewrite Hn, Nat.eqb_refl. exists true. tauto.
      + destruct (nth_error c p) as [x|].
        * exists false. split; [|intuition discriminate]. destruct (Nat.eqb_spec x j); [congruence|auto].
        * exists false. intuition discriminate.
  Qed.

  Lemma exists_oob s n m cols vals i j : built s n m cols vals -> n <= i -> exists_ s i j = UB.
  Proof.
    intros W Hi. destruct (built_nrows _ _ _ _ _ W) as (H1 & _). destruct s as [h M]. simpl in *.
    replace (nth_error (mrows M) i) with (@None row); auto. symmetry. apply nth_error_None. lia.
  Qed.

  Lemma get_ok s n m cols vals i j c v p x :
    built s n m cols vals -> nth_error cols i = Some c -> nth_error vals i = Some v ->
    nth_error c p = Some j -> nth_error v p = Some x -> get s i j = Ok x.
  Proof.
    intros W Hc Hv Hj Hx.
    assert (Hi : i < n) by (destruct (built_nrows _ _ _ _ _ W) as (_ & H2 & _); apply nth_error_lt in Hc; lia).
    destruct (built_get3 _ _ _ _ _ i W Hi) as (r & c' & v' & Hr & Hc' & Hv' & Hidx & Hval & Hsz & HS & HL).
    rewrite Hc in Hc'. inversion Hc'; subst c'. rewrite Hv in Hv'. inversion Hv'; subst v'.
    destruct s as [h M]. simpl in *. rewrite Hr, Hidx.
    destruct (lower_bound_sorted c j HS) as (q & Hq & [[Hin Hn]|[Hin Hn]]); rewrite Hq.
    - rewrite Hn, Nat.eqb_refl, Hval.
      assert (q = p).
      { apply (proj1 (NoDup_nth_error c) (ss_nodup _ HS)); [apply nth_error_lt in Hn; auto|congruence]. }
      subst q. rewrite Hx. reflexivity.
    - exfalso. apply Hin. eapply nth_error_In; eauto.
  Qed.

  Lemma get_missing s n m cols vals i j c :
    built s n m cols vals -> nth_error cols i = Some c -> ~ In j c -> get s i j = Throw EISTL.
  Proof.
    intros W Hc Hnin.
    assert (Hi : i < n) by (destruct (built_nrows _ _ _ _ _ W) as (_ & H2 & _); apply nth_error_lt in Hc; lia).
    destruct (built_get3 _ _ _ _ _ i W Hi) as (r & c' & v' & Hr & Hc' & Hv' & Hidx & Hval & Hsz & HS & HL).
    rewrite Hc in Hc'. inversion Hc'; subst c'.
    destruct s as [h M]. simpl in *. rewrite Hr, Hidx.
    destruct (lower_bound_sorted c j HS) as (q & Hq & [[Hin Hn]|[Hin Hn]]); rewrite Hq; [tauto|].
    destruct (nth_error c q) as [y|]; auto. destruct (Nat.eqb_spec y j); [congruence|auto].
  Qed.

  (** ** nonzeroes *)
  Lemma nonzeroes_count s n m cols vals :
    built s n m cols vals -> (mnnz (snd s) = 0 \/ mnnz (snd s) = length (concat cols)) ->
    snd (nonzeroes s) = length (concat cols).
  Proof.
    intros W Hz. pose proof (built_total _ _ _ _ _ W) as HT. destruct s as [h M]. unfold nonzeroes. simpl in *.
    destruct (Nat.eqb_spec (mnnz M) 0); simpl; auto. lia.
  Qed.

  Lemma contig_set_nnz h (M : mat) n m cols vals k :
    contig (h, M) n m cols vals -> mnnz M = 0 -> k = length (concat cols) -> contig (h, set_nnz M k) n m cols vals.
  Proof.
    intros W Hz ->. destruct W as [Ws Wn Wm Wl Wo Wnr Wr Wz Wd]. simpl in *.
    pose proof (rows_ok_total _ _ _ Wo) as HT.
    constructor; simpl; auto; [lia|].
    destruct Wd as [(tail & Hd & Hdl)|[Hd Hz2]]; [left|right].
    - exists tail. split; auto. lia.
    - split; auto. lia.
  Qed.

  Lemma indiv_set_nnz h (M : mat) n m cols vals k :
    indiv (h, M) n m cols vals -> k = length (concat cols) -> indiv (h, set_nnz M k) n m cols vals.
  Proof.
    intros W ->. destruct W as [Ws Wmo Wn Wm Wl Wo Wnr Wr Wz Wa Wd Wj]. simpl in *.
    constructor; simpl; auto.
  Qed.

  Lemma nonzeroes_built s n m cols vals :
    built s n m cols vals -> built (fst (nonzeroes s)) n m cols vals.
  Proof.
    intros W. pose proof (built_total _ _ _ _ _ W) as HT. destruct s as [h M]. unfold nonzeroes.
    destruct (Nat.eqb_spec (mnnz M) 0) as [E|E]; simpl; auto. simpl in HT.
    destruct W as [W|W]; [left|right].
    - apply contig_set_nnz; auto.
    - apply indiv_set_nnz; auto.
  Qed.

  (** ** changing one value *)
  Definition upd2 (vals : list (list V)) i p x := upd vals i (upd (nth i vals nil) p x).

  Lemma concat_upd2 vals i p x v :
    nth_error vals i = Some v -> p < length v ->
    concat (upd2 vals i p x) = upd (concat vals) (length (concat (firstn i vals)) + p) x.
  Proof.
    intros Hv Hp. unfold upd2. rewrite (nth_error_nth _ _ _ Hv).
    pose proof (nth_error_lt _ _ _ Hv) as Hi.
    rewrite concat_upd_split by auto. rewrite (concat_split vals i v Hv).
    set (a := concat (firstn i vals)). set (c := concat (skipn (S i) vals)). clearbody a c. clear -Hp.
    induction a as [|y a IH]; simpl.
    - revert p Hp. induction v as [|z v IH]; intros [|p] Hp; simpl in *; try lia; auto.
      f_equal. apply IH. lia.
    - f_equal. auto.
  Qed.

  Lemma upd_app_l {A} (a b : list A) p x : p < length a -> upd (a ++ b) p x = upd a p x ++ b.
  Proof. revert p. induction a as [|y a IH]; intros [|p] H; simpl in *; try lia; auto. f_equal. apply IH. lia. Qed.

  Lemma rows_ok_upd2 m cols vals i p x v :
    rows_ok m cols vals -> nth_error vals i = Some v -> rows_ok m cols (upd2 vals i p x).
  Proof.
    intros (HL & HLL & HS) Hv. unfold rows_ok, upd2. rewrite upd_length. split; auto. split; auto.
    intros k c w Hc Hw. rewrite nth_error_upd in Hw. destruct (Nat.eqb_spec i k).
    - subst k. destruct (Nat.ltb_spec i (length vals)); [|discriminate]. inversion Hw.
      rewrite upd_length, (nth_error_nth _ _ _ Hv). eauto.
    - eauto.
  Qed.

  Lemma firstn_upd_ge {A} (l : list A) i k x : k <= i -> firstn k (upd l i x) = firstn k l.
  Proof. revert i k. induction l as [|y t IH]; intros [|i] [|k] H; simpl; auto; try lia. f_equal. apply IH. lia. Qed.

  Lemma firstn_concat_len_upd2 vals i p x k v :
    nth_error vals i = Some v ->
    length (concat (firstn k (upd2 vals i p x))) = length (concat (firstn k vals)).
  Proof.
    intros Hv. unfold upd2. rewrite (nth_error_nth _ _ _ Hv). clear -Hv. rewrite !concat_length.
    revert i k Hv. induction vals as [|w t IH]; intros [|i] [|k] Hv; simpl in *; try discriminate; auto.
    inversion Hv; subst. rewrite upd_length. reflexivity.
  Qed.

  Lemma contig_set_adata h (M : mat) n m cols vals vals' a :
    contig (h, M) n m cols vals -> rows_ok m cols vals' ->
    (forall k, length (concat (firstn k vals')) = length (concat (firstn k vals))) ->
    (forall tail, madata M = Some (concat vals ++ tail) ->
       exists tail', a = concat vals' ++ tail' /\ length (concat vals' ++ tail') = length (concat vals ++ tail)) ->
    madata M <> None ->
    contig (h, set_adata M (Some a)) n m cols vals'.
  Proof.
    intros W Hok Hfl Ha Hne. destruct W as [Ws Wn Wm Wl Wo Wnr Wr Wz Wd]. simpl in *.
    pose proof (rows_ok_total _ _ _ Wo) as HT. pose proof (rows_ok_total _ _ _ Hok) as HT'.
    constructor; simpl; auto.
    - intros i c Hc. destruct (Wr i c Hc) as (r & A & B & C & D). exists r. repeat split; auto.
      + rewrite Hfl. apply C; auto.
      + apply C; auto.
    - lia.
    - destruct Wd as [(tail & Hd & Hdl)|[Hd _]]; [|congruence]. left.
      destruct (Ha tail Hd) as (tail' & -> & HL). exists tail'. split; auto. lia.
  Qed.

  Lemma modify_ok s n m cols vals i j c v p x f :
    built s n m cols vals -> nth_error cols i = Some c -> nth_error vals i = Some v ->
    nth_error c p = Some j -> nth_error v p = Some x ->
    exists s', modify s i j f = ROk s' tt /\ built s' n m cols (upd2 vals i p (f x)) /\ fst s' = fst s.
  Proof.
    intros W Hc Hv Hj Hx.
    pose proof (get_ok _ _ _ _ _ _ _ _ _ _ _ W Hc Hv Hj Hx) as Hget.
    assert (Hi : i < n) by (destruct (built_nrows _ _ _ _ _ W) as (_ & H2 & _); apply nth_error_lt in Hc; lia).
    destruct (built_get3 _ _ _ _ _ i W Hi) as (r & c' & v' & Hr & Hc' & Hv' & Hidx & Hval & Hsz & HS & HL).
    rewrite Hc in Hc'. inversion Hc'; subst c'. rewrite Hv in Hv'. inversion Hv'; subst v'.
    destruct (lower_bound_sorted c j HS) as (q & Hq & [[Hin Hn]|[Hin Hn]]);
      [|exfalso; apply Hin; eapply nth_error_In; eauto].
    assert (q = p).
    { apply (proj1 (NoDup_nth_error c) (ss_nodup _ HS)); [apply nth_error_lt in Hn; auto|congruence]. }
    subst q.
    assert (Hpv : p < length v) by (apply nth_error_lt in Hx; auto).
    destruct s as [h M]. unfold modify. rewrite Hget. simpl in *. rewrite Hr, Hidx, Hq.
    destruct W as [W|W].
    - destruct (cg_rows _ _ _ _ _ W i c Hc) as (r' & Hr' & _ & Hra & _). simpl in *.
      rewrite Hr in Hr'. inversion Hr'; subst r'.
      destruct (Hra ltac:(lia)) as [Hra1 _]. rewrite Hra1.
      pose proof (concat_split vals i v Hv) as Hcs.
      assert (Hlt : length (concat (firstn i vals)) + p < length (concat vals)) by (rewrite Hcs, !app_length; lia).
      destruct (cg_data _ _ _ _ _ W) as [(tail & Hd & Hdl)|[Hd Hz]]; simpl in *;
        [|pose proof (cg_nnz _ _ _ _ _ W); simpl in *; lia].
      rewrite Hd. eexists. split; [reflexivity|]. split; [|reflexivity]. left.
      eapply contig_set_adata; eauto.
      + eapply rows_ok_upd2; eauto. apply (cg_ok _ _ _ _ _ W).
      + intros k. eapply firstn_concat_len_upd2; eauto.
      + intros tail2 Hd2. rewrite Hd in Hd2. inversion Hd2 as [E]. apply app_inv_head in E. subst tail2.
        exists tail. rewrite (concat_upd2 _ _ _ _ _ Hv Hpv). rewrite upd_app_l by auto.
        split; auto. rewrite !app_length, upd_length. reflexivity.
      + congruence.
    - pose proof (iv_rows _ _ _ _ _ W i c v Hc Hv) as Hr'. simpl in Hr'. rewrite Hr in Hr'. inversion Hr'; subst r.
      unfold own_row in *. destruct (Nat.ltb_spec 0 (length c)); [|lia]. simpl.
      eexists. split; [reflexivity|]. split; [|reflexivity]. right.
      destruct W as [Ws Wmo Wn Wm Wl Wo Wnr Wr Wz Wa Wd Wj]. simpl in *.
      constructor; simpl; auto.
      + eapply rows_ok_upd2; eauto.
      + rewrite upd_length; auto.
      + intros k c0 v0 Hc0 Hv0. unfold upd2 in Hv0. rewrite nth_error_upd in Hv0. rewrite nth_error_upd.
        destruct (Nat.eqb_spec i k).
        * subst k. rewrite Hc in Hc0. inversion Hc0; subst c0.
          destruct (Nat.ltb_spec i (length vals)); [|discriminate]. inversion Hv0; subst v0.
          destruct (Nat.ltb_spec i (length (mrows M))); [|lia].
          unfold own_row. rewrite (proj2 (Nat.ltb_lt _ _)) by lia.
          rewrite (nth_error_nth _ _ _ Hv). reflexivity.
        * auto.
  Qed.

  (** ** scaling *)
  Lemma zip_rows_map (f : V -> V) cols vals :
    length vals = length cols ->
    zip_rows cols (map (map f) vals) = map (map (fun jv => (fst jv, f (snd jv)))) (zip_rows cols vals).
  Proof.
    unfold zip_rows. revert vals. induction cols as [|c t IH]; intros [|v u] H; simpl in *; try discriminate; auto.
    rewrite IH by lia. f_equal.
    clear. revert v. induction c as [|j c IH]; intros [|y v]; simpl; auto. f_equal. auto.
  Qed.

  Lemma rows_ok_map m cols vals (f : V -> V) : rows_ok m cols vals -> rows_ok m cols (map (map f) vals).
  Proof.
    intros (HL & HLL & HS). unfold rows_ok. rewrite map_length. split; auto. split; auto.
    intros i c v Hc Hv. rewrite nth_error_map in Hv. destruct (nth_error vals i) eqn:E; [|discriminate].
    simpl in Hv. inversion Hv. rewrite map_length. eauto.
  Qed.

  Lemma scale_contig s n m cols vals f :
    contig s n m cols vals ->
    exists s', scale s f = ROk s' tt /\ contig s' n m cols (map (map f) vals) /\ fst s' = fst s.
  Proof.
    intros W. destruct s as [h M]. unfold scale.
    pose proof (cg_ok _ _ _ _ _ W) as Hok.
    destruct (Nat.ltb_spec 0 (mnnz M)) as [H0|H0].
    - destruct (cg_data _ _ _ _ _ W) as [(tail & Hd & Hdl)|[Hd Hz]]; simpl in *; [|lia].
      pose proof (cg_nnz _ _ _ _ _ W) as Hz. simpl in Hz.
      rewrite Hd. destruct (Nat.leb_spec (mnnz M) (length (concat vals ++ tail))); [|lia].
      eexists. split; [reflexivity|]. split; [|reflexivity].
      eapply contig_set_adata; eauto.
      + apply rows_ok_map; auto.
      + intros k. rewrite firstn_map, !concat_length, !map_map. f_equal. apply map_ext. intros; apply map_length.
      + intros tail2 Hd2. rewrite Hd in Hd2. inversion Hd2 as [E]. apply app_inv_head in E. subst tail2.
        exists (map f (firstn (mnnz M - length (concat vals)) tail) ++ skipn (mnnz M - length (concat vals)) tail).
        rewrite <- concat_map. split.
        * rewrite firstn_app, skipn_app, map_app. rewrite firstn_all2 by lia. rewrite (skipn_all2 (concat vals)) by lia.
          simpl. rewrite <- app_assoc. reflexivity.
        * rewrite !app_length, map_length, map_length, firstn_length, skipn_length. rewrite app_length in *. lia.
      + congruence.
    - pose proof (cg_nnz _ _ _ _ _ W) as Hz. simpl in Hz.
      pose proof (built_view (h, M) n m cols vals (or_introl W)) as Hv. unfold view in Hv. simpl in Hv. rewrite Hv.
      assert (Hempty : forall r, In r (mrows M) -> rsize r = 0).
      { intros r Hr. pose proof (built_total (h, M) n m cols vals (or_introl W)) as HT. simpl in HT.
        rewrite <- (rows_ok_total _ _ _ Hok) in HT.
        clear -HT Hr Hz H0. induction (mrows M) as [|x t IH]; [destruct Hr|]. simpl in *.
        destruct Hr as [->|Hr]; [lia|]. apply IH; auto. lia. }
      assert (Hfold : forall l (M0 : mat), (forall ri, In ri l -> rsize (fst ri) = 0) ->
        fold_left (fun M r_i => let '(r, i) := r_i in
          if rsize r =? 0 then M else
          match ra r with
          | AOwn vs => set_rows M (upd (mrows M) i (mkrow (rsize r) (rj r) (AOwn (map f (firstn (rsize r) vs) ++ skipn (rsize r) vs))))
          | AArr off => match madata M with
                        | Some a => set_adata M (Some (splice off (map f (slice off (rsize r) a)) a))
                        | None => M
                        end
          | ANull => M
          end) l M0 = M0).
      { induction l as [|[r i] t IH]; intros M0 Hl; simpl; auto.
        pose proof (Hl (r, i) (or_introl eq_refl)) as E. simpl in E. rewrite E. simpl. apply IH.
        intros ri Hri. apply Hl. right; auto. }
      rewrite Hfold.
      2:{ intros [r i] Hri. apply in_combine_l in Hri. simpl. auto. }
      eexists. split; [reflexivity|]. split; [|reflexivity].
      assert (Hvn : map (map f) vals = vals).
      { assert (forall v, In v vals -> v = nil).
        { intros v Hv2. apply in_split in Hv2. destruct Hv2 as (a & b & ->).
          rewrite concat_app in Hz. simpl in Hz. rewrite !app_length in Hz. destruct v; auto. simpl in Hz. lia. }
        clear -H. induction vals as [|v t IH]; simpl; auto. rewrite (H v) by (left; auto). simpl. f_equal.
        apply IH. intros; apply H; right; auto. }
      rewrite Hvn. auto.
  Qed.

  Lemma scale_indiv s n m cols vals f :
    indiv s n m cols vals -> mnnz (snd s) = 0 ->
    exists s', scale s f = ROk s' tt /\ indiv s' n m cols (map (map f) vals) /\ fst s' = fst s.
  Proof.
    intros W Hz. destruct s as [h M]. simpl in Hz. unfold scale. rewrite Hz. simpl Nat.ltb. cbv iota.
    pose proof (built_view (h, M) n m cols vals (or_intror W)) as Hv. unfold view in Hv. simpl in Hv. rewrite Hv.
    destruct W as [Ws Wmo Wn Wm Wl Wo Wnr Wr Wzz Wa Wd Wj]. simpl in *.
    set (g := fun r : row => if rsize r =? 0 then r else
               match ra r with
               | AOwn vs => mkrow (rsize r) (rj r) (AOwn (map f (firstn (rsize r) vs) ++ skipn (rsize r) vs))
               | _ => r end).
    assert (Hall : forall r, In r (mrows M) -> rsize r = 0 \/ exists vs, ra r = AOwn vs).
    { intros r Hr. apply In_nth_error in Hr. destruct Hr as [i Hr]. pose proof (nth_error_lt _ _ _ Hr) as Hi.
      destruct Wo as (HL & HLL & HS).
      destruct (nth_error_ex cols i ltac:(lia)) as [c Hc]. destruct (nth_error_ex vals i ltac:(lia)) as [v Hv2].
      rewrite (Wr i c v Hc Hv2) in Hr. inversion Hr. unfold own_row. destruct (Nat.ltb_spec 0 (length c)); simpl; eauto. }
    assert (Hfold : forall rest pre (M0 : mat), mrows M0 = pre ++ rest -> (forall r, In r rest -> rsize r = 0 \/ exists vs, ra r = AOwn vs) ->
        fold_left (fun M r_i => let '(r, i) := r_i in
          if rsize r =? 0 then M else
          match ra r with
          | AOwn vs => set_rows M (upd (mrows M) i (mkrow (rsize r) (rj r) (AOwn (map f (firstn (rsize r) vs) ++ skipn (rsize r) vs))))
          | AArr off => match madata M with
                        | Some a => set_adata M (Some (splice off (map f (slice off (rsize r) a)) a))
                        | None => M
                        end
          | ANull => M
          end) (combine rest (seq (length pre) (length rest))) M0 = set_rows M0 (pre ++ map g rest)).
    { induction rest as [|r t IH]; intros pre M0 HM Hr; simpl.
      - rewrite <- HM. destruct M0; reflexivity.
      - assert (E : (if rsize r =? 0 then M0 else
          match ra r with
          | AOwn vs => set_rows M0 (upd (mrows M0) (length pre) (mkrow (rsize r) (rj r) (AOwn (map f (firstn (rsize r) vs) ++ skipn (rsize r) vs))))
          | AArr off => match madata M0 with
                        | Some a => set_adata M0 (Some (splice off (map f (slice off (rsize r) a)) a))
                        | None => M0
                        end
          | ANull => M0
          end) = set_rows M0 ((pre ++ [g r]) ++ t)).
        { unfold g. destruct (Nat.eqb_spec (rsize r) 0) as [E0|E0].
          - rewrite <- app_assoc. simpl. rewrite <- HM. destruct M0; reflexivity.
          - destruct (Hr r (or_introl eq_refl)) as [|[vs Hvs]]; [lia|]. rewrite Hvs. f_equal.
            rewrite HM, <- app_assoc. clear. induction pre; simpl; auto. f_equal. auto. }
        rewrite E.
        replace (S (length pre)) with (length (pre ++ [g r])) by (rewrite app_length; simpl; lia).
        rewrite IH; [|reflexivity|intros; apply Hr; right; auto].
        rewrite set_rows_twice, <- app_assoc. reflexivity. }
    pose proof (Hfold (mrows M) nil M eq_refl Hall) as HF0. change (@length row nil) with 0 in HF0. rewrite HF0. simpl app.
    eexists. split; [reflexivity|]. split; [|reflexivity].
    constructor; simpl; auto.
    - apply rows_ok_map; auto.
    - rewrite map_length; auto.
    - intros i c v Hc Hv2. rewrite nth_error_map in Hv2. destruct (nth_error vals i) as [v0|] eqn:E; [|discriminate].
      simpl in Hv2. inversion Hv2; subst v. rewrite nth_error_map, (Wr i c v0 Hc E). simpl. f_equal.
      destruct Wo as (HL & HLL & HS). pose proof (HLL i c v0 Hc E) as Hlen.
      unfold g, own_row. destruct (Nat.ltb_spec 0 (length c)); simpl; auto.
      destruct (Nat.eqb_spec (length c) 0); [lia|]. rewrite <- Hlen, firstn_all, skipn_all, app_nil_r. reflexivity.
  Qed.

  (** An individually allocated matrix with at least one entry whose count has been cached is scaled
      through a null pointer. *)
  Lemma scale_indiv_cached s n m cols vals f :
    indiv s n m cols vals -> 0 < mnnz (snd s) -> scale s f = RUB.
  Proof.
    intros W Hz. destruct s as [h M]. simpl in *. unfold scale.
    destruct (Nat.ltb_spec 0 (mnnz M)); [|lia].
    pose proof (iv_adata _ _ _ _ _ W) as Hd. simpl in Hd. rewrite Hd. reflexivity.
  Qed.
End Access.
