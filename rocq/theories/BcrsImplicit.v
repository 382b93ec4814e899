(** * Implicit build mode: entry() and compress() *)
From Coq Require Import List Arith Bool Lia Sorted Permutation.
From Verif Require Import Sums Outcome BcrsModel BcrsSpec BcrsAux BcrsRandom BcrsWf BcrsAccess BcrsCopy BcrsProps.
Import ListNotations.

Section Sorting.
  Context {V : Type}.
  Arguments Nat.leb : simpl never.
  (** ** sorting *)
  Fixpoint insE (x : nat * V) (l : list (nat * V)) : list (nat * V) :=
    match l with nil => [x] | y :: t => if fst x <=? fst y then x :: l else y :: insE x t end.
  Definition sortE (l : list (nat * V)) : list (nat * V) := fold_right insE nil l.

  Lemma ins_by_map (cell : nat -> nat * V) p l :
    map cell (ins_by (fun p => fst (cell p)) p l) = insE (cell p) (map cell l).
  Proof. induction l as [|q t IH]; simpl; auto. destruct (fst (cell p) <=? fst (cell q)); simpl; auto. f_equal. auto. Qed.
  Lemma sort_by_map (cell : nat -> nat * V) l :
    map cell (sort_by (fun p => fst (cell p)) l) = sortE (map cell l).
  Proof. induction l as [|q t IH]; simpl; auto. rewrite ins_by_map. unfold sortE in IH. f_equal. exact IH. Qed.

  Lemma ins_by_perm key p l : Permutation (ins_by key p l) (p :: l).
  Proof. induction l as [|q t IH]; simpl; auto. destruct (key p <=? key q); auto.
    eapply perm_trans; [apply perm_skip; exact IH|]. apply perm_swap. Qed.
  Lemma sort_by_perm key l : Permutation (sort_by key l) l.
  Proof. induction l as [|q t IH]; simpl; auto. eapply perm_trans; [apply ins_by_perm|]. auto. Qed.
  Lemma ins_by_ext key key' p l : (forall q, q = p \/ In q l -> key q = key' q) -> ins_by key p l = ins_by key' p l.
  Proof.
    induction l as [|q t IH]; simpl; intros H; auto.
    rewrite (H p), (H q) by auto. destruct (key' p <=? key' q); auto. f_equal. apply IH. intros; apply H. tauto.
  Qed.
  Lemma sort_by_ext key key' l : (forall q, In q l -> key q = key' q) -> sort_by key l = sort_by key' l.
  Proof.
    induction l as [|q t IH]; simpl; intros H; auto. rewrite IH by auto. apply ins_by_ext.
    intros q' [->|Hq]; auto. apply H. right. eapply Permutation_in; [apply sort_by_perm|exact Hq].
  Qed.

  Lemma insE_perm x l : Permutation (insE x l) (x :: l).
  Proof. induction l as [|y t IH]; simpl; auto. destruct (fst x <=? fst y); auto.
    eapply perm_trans; [apply perm_skip; exact IH|]. apply perm_swap. Qed.
  Lemma sortE_perm l : Permutation (sortE l) l.
  Proof. induction l as [|q t IH]; simpl; auto. eapply perm_trans; [apply insE_perm|]. auto. Qed.
  Lemma insE_sorted x l : ssorted (map fst l) -> ~ In (fst x) (map fst l) -> ssorted (map fst (insE x l)).
  Proof.
    induction l as [|y t IH]; simpl; intros HS HN.
    - constructor; auto.
    - inversion HS as [|? ? HS' HF]; subst. destruct (Nat.leb_spec (fst x) (fst y)) as [H|H]; simpl.
      + constructor; auto. constructor; [lia|]. rewrite Forall_forall in *. intros z Hz. specialize (HF z Hz). lia.
      + constructor; [apply IH; tauto|]. rewrite Forall_forall in *. intros z Hz.
        apply in_map_iff in Hz. destruct Hz as (w & <- & Hw).
        apply (Permutation_in _ (insE_perm x t)) in Hw. destruct Hw as [->|Hw]; auto. apply HF. apply in_map; auto.
  Qed.
  Lemma sortE_sorted l : NoDup (map fst l) -> ssorted (map fst (sortE l)).
  Proof.
    induction l as [|x t IH]; simpl; intros H; [constructor|]. inversion H; subst.
    apply insE_sorted; auto. intros Hin. apply H2.
    eapply Permutation_in; [apply Permutation_map; apply sortE_perm|]. exact Hin.
  Qed.
  Lemma sortE_length l : length (sortE l) = length l.
  Proof. apply Permutation_length. apply sortE_perm. Qed.

End Sorting.

Section Compress.
  Context {V : Type}.
  Variable dv : V.
  Notation cst := (@cst V).
  Implicit Types (out w E : list (nat * V)) (o : list ((nat * nat) * V)) (c : cst).
  Arguments Nat.ltb : simpl never.
  Arguments Nat.eqb : simpl never.
  Arguments Nat.leb : simpl never.

  Variables (J0 : list nat) (A0 : list V).
  Hypothesis HL0 : length A0 = length J0.

  (** what was written so far is [out]; everything from the write position on is untouched *)
  Record cells c out : Prop := {
    ce_pos : c_pos c = length out;
    ce_J : length (c_J c) = length J0;
    ce_A : length (c_A c) = length A0;
    ce_oJ : firstn (length out) (c_J c) = map fst out;
    ce_oA : firstn (length out) (c_A c) = map snd out;
    ce_rJ : forall q, length out <= q -> nth_error (c_J c) q = nth_error J0 q;
    ce_rA : forall q, length out <= q -> nth_error (c_A c) q = nth_error A0 q
  }.

  Lemma firstn_S_upd {A} (l : list A) p x : p < length l -> firstn (S p) (upd l p x) = firstn p l ++ [x].
  Proof. revert p. induction l; intros [|p] H; simpl in *; try lia; auto. f_equal. apply IHl. lia. Qed.

  Lemma put_ok c out col v o :
    cells c out -> length out < length J0 ->
    exists c', put c col v o = Some c' /\ cells c' (out ++ [(col, v)]) /\ c_over c' = o.
  Proof.
    intros C H. pose proof (ce_pos _ _ C) as Hp. pose proof (ce_J _ _ C) as HJ. pose proof (ce_A _ _ C) as HA. unfold put.
    rewrite (proj2 (Nat.ltb_lt (c_pos c) (length (c_J c)))) by lia.
    rewrite (proj2 (Nat.ltb_lt (c_pos c) (length (c_A c)))) by lia.
    eexists. split; [reflexivity|]. split; [|reflexivity].
    constructor; cbn [c_pos c_J c_A c_over]; rewrite ?app_length; cbn [length]; rewrite ?upd_length; auto; try lia.
    - rewrite Hp. rewrite Nat.add_1_r, firstn_S_upd by lia. rewrite (ce_oJ _ _ C), map_app. reflexivity.
    - rewrite Hp. rewrite Nat.add_1_r, firstn_S_upd by lia. rewrite (ce_oA _ _ C), map_app. reflexivity.
    - intros q Hq. rewrite nth_error_upd. rewrite Hp. destruct (Nat.eqb_spec (length out) q); [lia|].
      cbn [andb]. apply (ce_rJ _ _ C). lia.
    - intros q Hq. rewrite nth_error_upd. rewrite Hp. destruct (Nat.eqb_spec (length out) q); [lia|].
      cbn [andb]. apply (ce_rA _ _ C). lia.
  Qed.

  Fixpoint span_lt (b : nat * nat) o :=
    match o with
    | nil => (nil, nil)
    | kv :: t => if key_lt (fst kv) b then let (x, y) := span_lt b t in (kv :: x, y) else (nil, o)
    end.
  Fixpoint span_row (i : nat) o :=
    match o with
    | nil => (nil, nil)
    | kv :: t => if fst (fst kv) =? i then let (x, y) := span_row i t in (kv :: x, y) else (nil, o)
    end.
  Definition ow (kv : (nat * nat) * V) : nat * V := (snd (fst kv), snd kv).

  Fixpoint mergeE (i : nat) E o : list (nat * V) * list ((nat * nat) * V) :=
    match E with
    | nil => (nil, o)
    | xv :: t => let (a, b) := span_lt (i, fst xv) o in
                 let (w, r) := mergeE i t b in (map ow a ++ xv :: w, r)
    end.

  Lemma drain_ok begin p i x : forall o c k out,
    cells c out -> c_over c = o -> nth_error J0 p = Some x -> begin <= p ->
    length out + length (fst (span_lt (i, x) o)) <= begin ->
    exists c', drain begin (fun J => match nth_error J p with Some col => Some (i, col) | None => None end) o c k
               = ROk c' (k + length (fst (span_lt (i, x) o))) /\
               cells c' (out ++ map ow (fst (span_lt (i, x) o))) /\ c_over c' = snd (span_lt (i, x) o).
  Proof.
    induction o as [|[key v] t IH]; intros c k out C HO Hx Hp Hle; simpl.
    - exists c. rewrite app_nil_r, Nat.add_0_r. auto.
    - simpl in Hle. rewrite (ce_rJ _ _ C) by (destruct (key_lt key (i, x)); [destruct (span_lt (i, x) t)|]; simpl in Hle; lia).
      rewrite Hx. destruct (key_lt key (i, x)) eqn:EK.
      + destruct (span_lt (i, x) t) as [a b] eqn:ES. simpl in *.
        rewrite (ce_pos _ _ C). rewrite (proj2 (Nat.ltb_ge begin (length out))) by lia.
        assert (Hlt : p < length J0) by (apply nth_error_lt in Hx; auto).
        destruct (put_ok c out (snd key) v t C ltac:(lia)) as (c1 & E1 & C1 & O1). rewrite E1.
        destruct (IH c1 (S k) _ C1 O1 Hx Hp) as (c2 & E2 & C2 & O2).
        { rewrite app_length. simpl. lia. }
        exists c2. rewrite E2. split; [f_equal; lia|]. split; auto. rewrite <- app_assoc in C2. exact C2.
      + exists c. simpl. rewrite app_nil_r, Nat.add_0_r. auto.
  Qed.

  Lemma drain_fail begin p i x : forall o c k out,
    cells c out -> c_over c = o -> nth_error J0 p = Some x -> begin <= p ->
    begin < length out + length (fst (span_lt (i, x) o)) ->
    exists c', drain begin (fun J => match nth_error J p with Some col => Some (i, col) | None => None end) o c k
               = RThrow c' EExhausted \/
               (exists k', drain begin (fun J => match nth_error J p with Some col => Some (i, col) | None => None end) o c k
               = ROk c' k' /\ begin < c_pos c').
  Proof.
    induction o as [|[key v] t IH]; intros c k out C HO Hx Hp Hle; simpl.
    - exists c. right. exists k. split; auto. rewrite (ce_pos _ _ C). simpl in Hle. lia.
    - assert (Hlt : p < length J0) by (apply nth_error_lt in Hx; auto).
      destruct (nth_error_ex (c_J c) p) as [col Hcol]. { rewrite (ce_J _ _ C). auto. }
      rewrite Hcol. destruct (Nat.le_gt_cases (length out) begin) as [Hb|Hb].
      + rewrite (ce_rJ _ _ C), Hx in Hcol by lia. inversion Hcol; subst col.
        simpl in Hle. destruct (key_lt key (i, x)) eqn:EK.
        * destruct (span_lt (i, x) t) as [a b] eqn:ES. simpl in *.
          rewrite (ce_pos _ _ C). rewrite (proj2 (Nat.ltb_ge begin (length out))) by lia.
          destruct (put_ok c out (snd key) v t C ltac:(lia)) as (c1 & E1 & C1 & O1). rewrite E1.
          apply (IH c1 (S k) _ C1 O1 Hx Hp). rewrite app_length. simpl. lia.
        * simpl in Hle. lia.
      + destruct (key_lt key (i, col)).
        * rewrite (ce_pos _ _ C), (proj2 (Nat.ltb_lt begin (length out))) by lia. exists c. auto.
        * exists c. right. exists k. rewrite (ce_pos _ _ C). auto.
  Qed.

  Definition at_cells (begin : nat) (p : nat) (xv : nat * V) : Prop :=
    begin <= p /\ nth_error J0 p = Some (fst xv) /\ nth_error A0 p = Some (snd xv).

  Lemma copy_row_ok begin i : forall perm E c k out o,
    Forall2 (at_cells begin) perm E -> cells c out -> c_over c = o ->
    length out + length (fst (mergeE i E o)) <= S begin ->
    exists c' k', copy_row begin i perm c k = ROk c' k' /\ cells c' (out ++ fst (mergeE i E o)) /\
      c_over c' = snd (mergeE i E o) /\ k' + length E = k + length (fst (mergeE i E o)).
  Proof.
    induction perm as [|p t IH]; intros E c k out o HF C HO Hle; inversion HF as [|? xv ? E' Hat HF']; subst; simpl.
    - exists c, k. rewrite app_nil_r. auto.
    - destruct Hat as (Hb & HJ & HA). simpl in Hle.
      destruct (span_lt (i, fst xv) (c_over c)) as [a b] eqn:ES. destruct (mergeE i E' b) as [w r] eqn:EM.
      simpl in Hle. rewrite app_length, map_length in Hle. simpl in Hle.
      destruct (drain_ok begin p i (fst xv) (c_over c) c k out C eq_refl HJ Hb) as (c1 & E1 & C1 & O1).
      { rewrite ES. simpl. lia. }
      rewrite ES in E1, C1, O1. simpl in E1, C1, O1. rewrite E1. simpl rbind.
      assert (Hlo : length (out ++ map ow a) <= begin) by (rewrite app_length, map_length; lia).
      rewrite (ce_pos _ _ C1). rewrite (proj2 (Nat.ltb_ge _ _) Hlo).
      rewrite (ce_rJ _ _ C1), (ce_rA _ _ C1), HJ, HA by lia.
      assert (Hlt : p < length J0) by (apply nth_error_lt in HJ; auto).
      destruct (put_ok c1 _ (fst xv) (snd xv) (c_over c1) C1 ltac:(lia)) as (c2 & E2 & C2 & O2). rewrite E2.
      rewrite <- (surjective_pairing xv) in C2.
      destruct (IH E' c2 (k + length a) _ b HF' C2 ltac:(congruence)) as (c3 & k3 & E3 & C3 & O3 & K3).
      { rewrite EM. simpl. rewrite !app_length, map_length. simpl. lia. }
      rewrite EM in C3, O3, K3. simpl in C3, O3, K3.
      exists c3, k3. rewrite E3. split; auto. split; [|split; auto].
      + simpl. rewrite <- !app_assoc in C3. simpl in C3. exact C3.
      + simpl. rewrite app_length, map_length. simpl. lia.
  Qed.

  (** the row starts behind its first cell: every element to be copied makes the check fail *)
  Lemma copy_row_late begin i perm c k out o :
    Forall (fun p => begin <= p < length J0) perm -> perm <> nil -> cells c out -> c_over c = o -> begin < length out ->
    exists c', copy_row begin i perm c k = RThrow c' EExhausted.
  Proof.
    intros HF Hne C HO Hb. destruct perm as [|p t]; [congruence|]. inversion HF as [|? ? Hp HF']; subst. simpl.
    destruct (nth_error_ex J0 p) as [x Hx]; [lia|].
    destruct (drain_fail begin p i x (c_over c) c k out C eq_refl Hx ltac:(lia) ltac:(lia)) as (c' & [E|(k' & E & Hp')]).
    - rewrite E. simpl. eauto.
    - rewrite E. simpl. rewrite (proj2 (Nat.ltb_lt _ _) Hp'). eauto.
  Qed.

  Lemma copy_row_fail begin i : forall perm E c k out o,
    Forall2 (at_cells begin) perm E -> cells c out -> c_over c = o ->
    fst (mergeE i E o) <> nil -> S begin < length out + length (fst (mergeE i E o)) ->
    exists c', copy_row begin i perm c k = RThrow c' EExhausted.
  Proof.
    induction perm as [|p t IH]; intros E c k out o HF C HO Hne Hle; inversion HF as [|? xv ? E' Hat HF']; subst; simpl.
    - simpl in Hne. congruence.
    - destruct Hat as (Hb & HJ & HA). simpl in Hle.
      destruct (span_lt (i, fst xv) (c_over c)) as [a b] eqn:ES. destruct (mergeE i E' b) as [w r] eqn:EM.
      simpl in Hle. rewrite app_length, map_length in Hle. simpl in Hle.
      destruct (Nat.le_gt_cases (length out + length a) begin) as [Hc|Hc].
      + destruct (drain_ok begin p i (fst xv) (c_over c) c k out C eq_refl HJ Hb) as (c1 & E1 & C1 & O1).
        { rewrite ES. simpl. lia. }
        rewrite ES in E1, C1, O1. simpl in E1, C1, O1. rewrite E1. simpl rbind.
        assert (Hlo : length (out ++ map ow a) <= begin) by (rewrite app_length, map_length; lia).
        rewrite (ce_pos _ _ C1). rewrite (proj2 (Nat.ltb_ge _ _) Hlo).
        rewrite (ce_rJ _ _ C1), (ce_rA _ _ C1), HJ, HA by lia.
        assert (Hlt : p < length J0) by (apply nth_error_lt in HJ; auto).
        destruct (put_ok c1 _ (fst xv) (snd xv) (c_over c1) C1 ltac:(lia)) as (c2 & E2 & C2 & O2). rewrite E2.
        apply (IH E' c2 (k + length a) _ b HF' C2 ltac:(congruence)).
        * rewrite EM. simpl. intros ->. simpl in Hle. lia.
        * rewrite EM. simpl. rewrite !app_length, map_length. simpl. lia.
      + destruct (drain_fail begin p i (fst xv) (c_over c) c k out C eq_refl HJ Hb) as (c' & [E|(k' & E & Hp')]).
        { rewrite ES. simpl. lia. }
        * rewrite E. simpl. eauto.
        * rewrite E. simpl. rewrite (proj2 (Nat.ltb_lt _ _) Hp'). eauto.
  Qed.

  Lemma drain_row_ok begin i : forall o c k out,
    cells c out -> c_over c = o -> begin < length J0 ->
    length out + length (fst (span_row i o)) <= S begin \/ fst (span_row i o) = nil ->
    exists c', drain_row begin i o c k = ROk c' (k + length (fst (span_row i o))) /\
      cells c' (out ++ map ow (fst (span_row i o))) /\ c_over c' = snd (span_row i o).
  Proof.
    induction o as [|[key v] t IH]; intros c k out C HO Hb Hle; simpl.
    - exists c. rewrite app_nil_r, Nat.add_0_r. auto.
    - simpl in Hle. destruct (fst key =? i) eqn:EK.
      + destruct (span_row i t) as [a b] eqn:ES. simpl in *.
        rewrite (ce_pos _ _ C). rewrite (proj2 (Nat.ltb_ge begin (length out))) by (destruct Hle; [lia|discriminate]).
        destruct (put_ok c out (snd key) v t C) as (c1 & E1 & C1 & O1); [destruct Hle; [lia|discriminate]|].
        rewrite E1.
        destruct (IH c1 (S k) _ C1 O1 Hb) as (c2 & E2 & C2 & O2).
        { rewrite app_length. simpl. left. destruct Hle; [lia|discriminate]. }
        exists c2. rewrite E2. split; [f_equal; lia|]. split; auto. rewrite <- app_assoc in C2. exact C2.
      + exists c. simpl. rewrite app_nil_r, Nat.add_0_r. auto.
  Qed.

  Lemma drain_row_fail begin i : forall o c k out,
    cells c out -> c_over c = o -> begin < length J0 ->
    S begin < length out + length (fst (span_row i o)) -> fst (span_row i o) <> nil ->
    exists c', drain_row begin i o c k = RThrow c' EExhausted.
  Proof.
    induction o as [|[key v] t IH]; intros c k out C HO Hb Hle Hne; simpl; [simpl in Hne; congruence|].
    simpl in Hle, Hne. destruct (fst key =? i) eqn:EK; [|simpl in Hne; congruence].
    destruct (span_row i t) as [a b] eqn:ES. simpl in *. rewrite (ce_pos _ _ C).
    destruct (Nat.ltb_spec begin (length out)) as [H|H]; [eauto|].
    destruct (put_ok c out (snd key) v t C ltac:(lia)) as (c1 & E1 & C1 & O1). rewrite E1.
    apply (IH c1 (S k) _ C1 O1 Hb).
    - rewrite app_length. simpl. lia.
    - simpl. intros ->. simpl in Hle. lia.
  Qed.

  (** ** one row *)
  Definition rowW (i : nat) (R : list (nat * V)) o : list (nat * V) * list ((nat * nat) * V) :=
    let (w1, r1) := mergeE i (sortE R) o in
    let (o1, r) := span_row i r1 in (w1 ++ map ow o1, r).

  Lemma mergeE_length i E o : length E <= length (fst (mergeE i E o)).
  Proof.
    revert o. induction E as [|xv t IH]; intros o; simpl; [lia|].
    destruct (span_lt (i, fst xv) o) as [a b]. specialize (IH b). destruct (mergeE i t b) as [w r]. simpl in *.
    rewrite app_length. simpl. lia.
  Qed.

  Lemma rowW_length i R o : length R <= length (fst (rowW i R o)).
  Proof.
    unfold rowW. pose proof (mergeE_length i (sortE R) o) as H. rewrite sortE_length in H.
    destruct (mergeE i (sortE R) o) as [w1 r1]. destruct (span_row i r1). simpl in *. rewrite app_length. lia.
  Qed.

  Definition row_at (begin : nat) (R : list (nat * V)) : Prop :=
    begin < length J0 /\ forall k xv, nth_error R k = Some xv -> nth_error J0 (begin + k) = Some (fst xv) /\ nth_error A0 (begin + k) = Some (snd xv).

  Definition cell (d : V) (p : nat) : nat * V := (nth p J0 0, nth p A0 d).

  Lemma row_at_cells d begin R : row_at begin R -> map (cell d) (seq begin (length R)) = R.
  Proof.
    intros [_ H]. apply list_eq_nth; [rewrite map_length, seq_length; auto|].
    intros k Hk. rewrite map_length, seq_length in Hk.
    rewrite nth_error_map, (nth_error_nth' (seq begin (length R)) 0) by (rewrite seq_length; auto).
    rewrite seq_nth by auto. simpl. destruct (nth_error_ex R k Hk) as [[x v] Hx]. rewrite Hx.
    destruct (H k _ Hx) as [H1 H2]. unfold cell. f_equal. f_equal.
    - erewrite nth_error_nth; eauto.
    - erewrite nth_error_nth; eauto.
  Qed.

  Lemma perm_at (d : V) begin R c out : row_at begin R -> cells c out -> length out <= begin ->
    let perm := sort_by (fun p => nth p (c_J c) 0) (seq begin (length R)) in
    Forall2 (at_cells begin) perm (sortE R).
  Proof.
    intros HR C Hle perm.
    assert (Hp : perm = sort_by (fun p => fst (cell d p)) (seq begin (length R))).
    { apply sort_by_ext. intros q Hq. apply in_seq in Hq. unfold cell. simpl.
      pose proof (ce_rJ _ _ C q ltac:(lia)) as E.
      destruct (nth_error J0 q) as [y|] eqn:E2.
      - erewrite nth_error_nth by eauto. symmetry. erewrite nth_error_nth; eauto.
      - apply nth_error_None in E. apply nth_error_None in E2. rewrite !nth_overflow; auto. }
    assert (HE : sortE R = map (cell d) perm).
    { rewrite Hp, sort_by_map, row_at_cells; auto. }
    rewrite HE. assert (Hin : forall q, In q perm -> begin <= q < begin + length R).
    { intros q Hq. apply in_seq. eapply Permutation_in; [apply sort_by_perm|exact Hq]. }
    clear HE Hp. induction perm as [|q t IH]; simpl; constructor.
    - destruct (Hin q (or_introl eq_refl)) as [H1 H2]. destruct HR as [_ HR].
      destruct (nth_error_ex R (q - begin)) as [xv Hxv]; [lia|].
      destruct (HR _ _ Hxv) as [A B]. replace (begin + (q - begin)) with q in * by lia.
      split; auto. unfold cell. simpl. split; [erewrite nth_error_nth; eauto|erewrite nth_error_nth; eauto].
    - apply IH. intros q' Hq'. apply Hin. right; auto.
  Qed.

  Lemma compress_row_ok (d : V) i begin R c out o a :
    cells c out -> c_over c = o -> row_at begin R ->
    (fst (rowW i R o) = nil \/ length out + length (fst (rowW i R o)) <= S begin) ->
    exists c', compress_row i (mkrow (length R) (JArr begin) a) c
               = ROk c' (mkrow (length (fst (rowW i R o))) (JArr (length out)) (AArr (length out))) /\ cells c' (out ++ fst (rowW i R o)) /\ c_over c' = snd (rowW i R o).
  Proof.
    intros C HO HR Hle. pose proof (rowW_length i R o) as HRL. unfold compress_row. cbn [rj rsize].
    rewrite (ce_pos _ _ C).
    set (perm := sort_by (fun p => nth p (c_J c) 0) (seq begin (length R))).
    assert (HF : Forall2 (at_cells begin) perm (sortE R)).
    { destruct R as [|x R'].
      - unfold perm. simpl. constructor.
      - apply (perm_at d _ (x :: R') c out); auto. destruct Hle as [Hn|Hle]; [rewrite Hn in HRL; simpl in HRL; lia|].
        simpl in HRL. lia. }
    clearbody perm. unfold rowW in *. destruct (mergeE i (sortE R) o) as [w1 r1] eqn:EM.
    destruct (span_row i r1) as [o1 r] eqn:ES. cbn [fst snd] in *. rewrite app_length, map_length in *.
    assert (Hle1 : length out + length (fst (mergeE i (sortE R) o)) <= S begin \/ w1 = nil).
    { rewrite EM. simpl. destruct Hle as [Hn|Hle]; [right; destruct w1; [auto|discriminate]|left; lia]. }
    assert (HC1 : exists c1 k1, copy_row begin i perm c 0 = ROk c1 k1 /\ cells c1 (out ++ w1) /\ c_over c1 = r1 /\ k1 + length R = length w1).
    { destruct Hle1 as [Hle1|Hn].
      - destruct (copy_row_ok begin i perm (sortE R) c 0 out o HF C HO Hle1) as (c1 & k1 & E1 & C1 & O1 & K1).
        rewrite EM in *. simpl in *. rewrite sortE_length in K1. exists c1, k1. auto.
      - pose proof (mergeE_length i (sortE R) o) as HM. rewrite EM, Hn, sortE_length in HM. simpl in HM.
        destruct R; [|simpl in HM; lia]. simpl in *. inversion HF; subst. inversion EM; subst.
        exists c, 0. simpl. rewrite app_nil_r. auto. }
    destruct HC1 as (c1 & k1 & E1 & C1 & O1 & K1). rewrite E1. simpl rbind. rewrite O1.
    destruct (drain_row_ok begin i r1 c1 k1 _ C1 O1 (proj1 HR)) as (c2 & E2 & C2 & O2).
    { rewrite ES. simpl. rewrite app_length. destruct Hle as [Hn|Hle]; [right|left; lia].
      destruct w1; [|discriminate]. destruct o1; [auto|discriminate]. }
    rewrite ES in *. cbn [fst snd] in *. rewrite E2. simpl rbind. exists c2. split; [|split; auto].
    - f_equal. f_equal. lia.
    - rewrite app_assoc. exact C2.
  Qed.

  Lemma compress_row_fail (d : V) i begin R c out o a :
    cells c out -> c_over c = o -> row_at begin R -> begin + length R <= length J0 ->
    fst (rowW i R o) <> nil -> S begin < length out + length (fst (rowW i R o)) ->
    exists c', compress_row i (mkrow (length R) (JArr begin) a) c = RThrow c' EExhausted.
  Proof.
    intros C HO HR HRl Hne Hgt. unfold compress_row. cbn [rj rsize].
    set (perm := sort_by (fun p => nth p (c_J c) 0) (seq begin (length R))).
    destruct (Nat.le_gt_cases (length out) begin) as [Hb|Hb].
    - assert (HF : Forall2 (at_cells begin) perm (sortE R)) by (apply (perm_at d _ R c out); auto).
      clearbody perm. unfold rowW in *. destruct (mergeE i (sortE R) o) as [w1 r1] eqn:EM.
      destruct (span_row i r1) as [o1 r] eqn:ES. cbn [fst snd] in *. rewrite app_length, map_length in *.
      destruct (Nat.le_gt_cases (length out + length w1) (S begin)) as [H1|H1].
      + destruct (copy_row_ok begin i perm (sortE R) c 0 out o HF C HO) as (c1 & k1 & E1 & C1 & O1 & K1).
        { rewrite EM. simpl. lia. }
        rewrite EM in *. cbn [fst snd] in *. rewrite E1. simpl rbind.
        destruct (drain_row_fail begin i r1 c1 k1 _ C1 O1 (proj1 HR)) as (c2 & E2).
        { rewrite ES. simpl. rewrite app_length. lia. }
        { rewrite ES. simpl. intros ->. simpl in Hgt. lia. }
        rewrite O1, E2. simpl. eauto.
      + destruct (copy_row_fail begin i perm (sortE R) c 0 out o HF C HO) as (c1 & E1).
        { rewrite EM. simpl. intros ->. simpl in H1. lia. }
        { rewrite EM. simpl. lia. }
        rewrite E1. simpl. eauto.
    - destruct R as [|x R'].
      + unfold perm. simpl. unfold rowW in *. simpl in *. destruct (span_row i o) as [o1 r] eqn:ES. simpl in *.
        rewrite map_length in Hgt.
        destruct (drain_row_fail begin i o c 0 out C HO (proj1 HR)) as (c2 & E2).
        { rewrite ES. simpl. lia. }
        { rewrite ES. simpl. intros ->. simpl in Hne. congruence. }
        rewrite HO, E2. simpl. eauto.
      + destruct (copy_row_late begin i perm c 0 out o) as (c1 & E1); auto.
        * apply Forall_forall. intros q Hq. apply (Permutation_in _ (sort_by_perm _ _)) in Hq. apply in_seq in Hq. lia.
        * intros E. pose proof (Permutation_length (sort_by_perm (fun p => nth p (c_J c) 0) (seq begin (length (x :: R'))))) as HP.
          fold perm in HP. rewrite E, seq_length in HP. simpl in HP. lia.
        * rewrite E1. simpl. eauto.
  Qed.

  (** ** all rows *)
  Fixpoint Wrows (i : nat) (Rs : list (list (nat * V))) o : list (list (nat * V)) :=
    match Rs with
    | nil => nil
    | R :: t => fst (rowW i R o) :: Wrows (S i) t (snd (rowW i R o))
    end.

  Fixpoint cwins (off : nat) (Ws : list (list (nat * V))) : list (@row V) :=
    match Ws with
    | nil => nil
    | W :: t => mkrow (length W) (JArr off) (AArr off) :: cwins (off + length W) t
    end.

  Definition begins (osize avg i : nat) : nat := osize + i * avg.
  Fixpoint irows (osize avg i : nat) (Rs : list (list (nat * V))) : list (@row V) :=
    match Rs with
    | nil => nil
    | R :: t => mkrow (length R) (JArr (begins osize avg i)) (AArr (begins osize avg i)) :: irows osize avg (S i) t
    end.

  (** the buffer is large enough: row by row, as the elements are moved to the front *)
  Fixpoint fitsW (osize avg i pos : nat) (Ws : list (list (nat * V))) : Prop :=
    match Ws with
    | nil => True
    | W :: t => (W = nil \/ pos + length W <= S (begins osize avg i)) /\ fitsW osize avg (S i) (pos + length W) t
    end.

  Lemma fitsW_dec osize avg : forall Ws i pos, fitsW osize avg i pos Ws \/ ~ fitsW osize avg i pos Ws.
  Proof.
    induction Ws as [|W t IH]; intros i pos; simpl; auto.
    destruct (IH (S i) (pos + length W)) as [H|H]; [|tauto].
    destruct W as [|w W]; [left; auto|].
    destruct (Nat.le_gt_cases (pos + length (w :: W)) (S (begins osize avg i))) as [H1|H1]; [left; auto|].
    right. intros [[H2|H2] _]; [discriminate|lia].
  Qed.

  Lemma compress_rows_run (d : V) osize avg : forall Rs i c out o,
    cells c out -> c_over c = o ->
    (forall k R, nth_error Rs k = Some R -> row_at (begins osize avg (i + k)) R /\ begins osize avg (i + k) + length R <= length J0) ->
    (fitsW osize avg i (length out) (Wrows i Rs o) ->
      exists c', compress_rows i (irows osize avg i Rs) c = ROk c' (cwins (length out) (Wrows i Rs o)) /\ cells c' (out ++ concat (Wrows i Rs o))) /\ (~ fitsW osize avg i (length out) (Wrows i Rs o) ->
      exists c', compress_rows i (irows osize avg i Rs) c = RThrow c' EExhausted).
  Proof.
    induction Rs as [|R t IH]; intros i c out o C HO HR; simpl.
    - split; [|tauto]. intros _. exists c. rewrite app_nil_r. auto.
    - destruct (HR 0 R eq_refl) as [HR0 HR1]. rewrite Nat.add_0_r in HR0, HR1.
      assert (HRt : forall k R0, nth_error t k = Some R0 -> row_at (begins osize avg (S i + k)) R0 /\ begins osize avg (S i + k) + length R0 <= length J0).
      { intros k R0 Hk. specialize (HR (S k) R0 Hk). rewrite Nat.add_succ_r in HR. exact HR. }
      assert (Hd : fst (rowW i R o) = nil \/ length out + length (fst (rowW i R o)) <= S (begins osize avg i) \/
                   (fst (rowW i R o) <> nil /\ S (begins osize avg i) < length out + length (fst (rowW i R o)))).
      { destruct (fst (rowW i R o)) as [|w W]; [auto|].
        destruct (Nat.le_gt_cases (length out + length (w :: W)) (S (begins osize avg i))); auto. right. right. split; auto. discriminate. }
      destruct (or_assoc (fst (rowW i R o) = nil) (length out + length (fst (rowW i R o)) <= S (begins osize avg i))
                 (fst (rowW i R o) <> nil /\ S (begins osize avg i) < length out + length (fst (rowW i R o)))) as [_ Has].
      destruct (Has Hd) as [Hok|[Hne Hgt]].
      + destruct (compress_row_ok d i _ R c out o (AArr (begins osize avg i)) C HO HR0 Hok) as (c1 & E1 & C1 & O1).
        rewrite E1. simpl rbind.
        destruct (IH (S i) c1 _ _ C1 O1 HRt) as [IH1 IH2]. rewrite app_length in IH1, IH2.
        split.
        * intros [_ Hf]. destruct (IH1 Hf) as (c2 & E2 & C2). rewrite E2. simpl. exists c2. split; auto.
          rewrite app_assoc. exact C2.
        * intros Hn. destruct IH2 as (c2 & E2); [tauto|]. rewrite E2. simpl. eauto.
      + destruct (compress_row_fail d i _ R c out o (AArr (begins osize avg i)) C HO HR0 HR1 Hne Hgt) as (c1 & E1).
        rewrite E1. simpl. split; [|eauto]. intros [[Hf|Hf] _]; [congruence|lia].
  Qed.
End Compress.
