(** * C04: implicit build mode *)
From Coq Require Import List Arith Bool Lia Sorted Permutation.
From Verif Require Import Sums Outcome BcrsModel BcrsSpec BcrsAux BcrsRandom BcrsWf BcrsAccess BcrsCopy BcrsProps
  BcrsImplicit BcrsImplicitMerge.
Import ListNotations.

Section Flat.
  Context {A : Type}.
  Variable d : A.
  Variables osize avg : nat.

  Definition blk (l : list A) : list A := l ++ repeat d (avg - length l).
  Definition flat (L : list (list A)) : list A := repeat d osize ++ concat (map blk L).

  Lemma blk_length l : length l <= avg -> length (blk l) = avg.
  Proof. intros H. unfold blk. rewrite app_length, repeat_length. lia. Qed.

  Lemma concat_block_nth (B : list (list A)) : Forall (fun b => length b = avg) B ->
    forall i b k, nth_error B i = Some b -> k < avg -> nth_error (concat B) (i * avg + k) = nth_error b k.
  Proof.
    induction 1 as [|b0 B Hb HF IH]; intros i b k Hi Hk; [destruct i; discriminate|].
    destruct i as [|i]; simpl in *.
    - inversion Hi; subst. apply nth_error_app1. lia.
    - rewrite nth_error_app2 by lia. replace (avg + i * avg + k - length b0) with (i * avg + k) by lia. eauto.
  Qed.
  Lemma concat_block_upd (B : list (list A)) : Forall (fun b => length b = avg) B ->
    forall i b k x, nth_error B i = Some b -> k < avg -> upd (concat B) (i * avg + k) x = concat (upd B i (upd b k x)).
  Proof.
    induction 1 as [|b0 B Hb HF IH]; intros i b k x Hi Hk; [destruct i; discriminate|].
    destruct i as [|i]; simpl in *.
    - inversion Hi; subst. apply upd_app_l. lia.
    - rewrite <- (IH i b k x Hi Hk). rewrite <- Nat.add_assoc.
      rewrite <- Hb. generalize (i * length b0 + k). clear. intros q. induction b0; simpl; auto. f_equal. auto.
  Qed.
  Lemma upd_app_r' (a b : list A) q x : upd (a ++ b) (length a + q) x = a ++ upd b q x.
  Proof. induction a; simpl; auto. f_equal. auto. Qed.

  Lemma flat_blocks L : Forall (fun l => length l <= avg) L -> Forall (fun b => length b = avg) (map blk L).
  Proof. intros H. rewrite Forall_map. eapply Forall_impl; [|exact H]. intros; apply blk_length; auto. Qed.

  Lemma flat_nth L i l k : Forall (fun l => length l <= avg) L -> nth_error L i = Some l -> k < avg ->
    nth_error (flat L) (osize + i * avg + k) = nth_error (blk l) k.
  Proof.
    intros HF Hi Hk. unfold flat. rewrite nth_error_app2 by (rewrite repeat_length; lia).
    rewrite repeat_length. replace (osize + i * avg + k - osize) with (i * avg + k) by lia.
    apply concat_block_nth; auto using flat_blocks. rewrite nth_error_map, Hi. reflexivity.
  Qed.
  Lemma flat_upd L i l k x : Forall (fun l => length l <= avg) L -> nth_error L i = Some l -> k < avg ->
    upd (flat L) (osize + i * avg + k) x = repeat d osize ++ concat (upd (map blk L) i (upd (blk l) k x)).
  Proof.
    intros HF Hi Hk. unfold flat.
    replace (osize + i * avg + k) with (length (repeat d osize) + (i * avg + k)) by (rewrite repeat_length; lia).
    rewrite upd_app_r'. f_equal. apply concat_block_upd; auto using flat_blocks. rewrite nth_error_map, Hi. reflexivity.
  Qed.
  Lemma flat_upd_in L i l k x : Forall (fun l => length l <= avg) L -> nth_error L i = Some l -> k < length l ->
    upd (flat L) (osize + i * avg + k) x = flat (upd L i (upd l k x)).
  Proof.
    intros HF Hi Hk. assert (length l <= avg) by (rewrite Forall_forall in HF; eauto using nth_error_In).
    rewrite (flat_upd L i l) by (auto; lia). unfold flat. f_equal. f_equal. rewrite upd_map. f_equal.
    unfold blk. rewrite upd_app_l by auto. rewrite upd_length. reflexivity.
  Qed.
  Lemma flat_upd_new L i l x : Forall (fun l => length l <= avg) L -> nth_error L i = Some l -> length l < avg ->
    upd (flat L) (osize + i * avg + length l) x = flat (upd L i (l ++ [x])).
  Proof.
    intros HF Hi Hk. rewrite (flat_upd L i l) by auto. unfold flat. f_equal. f_equal. rewrite upd_map. f_equal.
    unfold blk. rewrite app_length. simpl. rewrite <- app_assoc. simpl.
    replace (avg - length l) with (S (avg - (length l + 1))) by lia. simpl.
    assert (E := upd_app_r' l (d :: repeat d (avg - (length l + 1))) 0 x). rewrite Nat.add_0_r in E. exact E.
  Qed.
  Lemma flat_length L : Forall (fun l => length l <= avg) L -> length (flat L) = osize + length L * avg.
  Proof.
    intros HF. unfold flat. rewrite app_length, repeat_length. f_equal.
    induction HF; simpl; auto. rewrite app_length, blk_length by auto. lia.
  Qed.
  Lemma flat_empty n : flat (repeat nil n) = repeat d (n * avg + osize).
  Proof.
    unfold flat. rewrite Nat.add_comm, repeat_app. f_equal.
    induction n; simpl; auto. rewrite IHn. unfold blk. simpl. rewrite Nat.sub_0_r, <- repeat_app. reflexivity.
  Qed.
  Lemma flat_slice L i l k : Forall (fun l => length l <= avg) L -> nth_error L i = Some l -> k = length l ->
    slice (osize + i * avg) k (flat L) = l.
  Proof.
    intros HF Hi ->. assert (length l <= avg) by (rewrite Forall_forall in HF; eauto using nth_error_In).
    assert (i < length L) by (eapply nth_error_lt; eauto).
    apply list_eq_nth.
    - apply slice_length. rewrite flat_length by auto. nia.
    - intros q Hq. rewrite slice_length in Hq by (rewrite flat_length by auto; nia).
      rewrite nth_error_slice by auto. rewrite (flat_nth L i l) by (auto; lia).
      unfold blk. apply nth_error_app1. auto.
  Qed.
End Flat.

Section Entry.
  Context {V : Type}.
  Variables dv zv : V.
  Notation mat := (@mat V).
  Notation st := (@st V).
  Notation over := (list ((nat * nat) * V)).
  Implicit Types (Rs : list (list (nat * V))) (O : over).
  Arguments Nat.ltb : simpl never.
  Arguments Nat.eqb : simpl never.
  Arguments Nat.leb : simpl never.

  Lemma over_find_In k v O : osorted O -> over_find k O = Some v <-> In (k, v) O.
  Proof.
    induction O as [|[k' v'] t IH]; intros HS; simpl; [split; [discriminate|tauto]|].
    apply osorted_cons in HS. destruct HS as [HS HF].
    destruct (Nat.eqb_spec (fst k) (fst k')) as [E1|E1]; simpl; [destruct (Nat.eqb_spec (snd k) (snd k')) as [E2|E2]|].
    - assert (k = k') by (destruct k, k'; simpl in *; congruence). subst k'. split.
      + intros H; inversion H; auto.
      + intros [H|H]; [congruence|]. exfalso. specialize (HF _ H). unfold klt in HF. simpl in HF. lia.
    - rewrite (IH HS). split; auto. intros [H|H]; auto. inversion H; subst. congruence.
    - rewrite (IH HS). split; auto. intros [H|H]; auto. inversion H; subst. congruence.
  Qed.
  Lemma over_find_None k O : osorted O -> over_find k O = None <-> (forall v, ~ In (k, v) O).
  Proof.
    intros HS. split.
    - intros H v Hin. apply over_find_In in Hin; auto. congruence.
    - intros H. destruct (over_find k O) as [v|] eqn:E; auto. apply over_find_In in E; auto. destruct (H v E).
  Qed.

  Lemma over_set_In k v O : osorted O -> forall k' v', In (k', v') (over_set k v O) <-> (k' = k /\ v' = v) \/ (k' <> k /\ In (k', v') O).
  Proof.
    induction O as [|[k0 v0] t IH]; intros HS k' v'; simpl.
    - split; [intros [H|[]]; inversion H; auto|]. intros [[-> ->]|[_ []]]; auto.
    - apply osorted_cons in HS. destruct HS as [HS HF]. destruct (key_lt k k0) eqn:EK.
      + apply key_lt_spec in EK. simpl. split.
        * intros [H|[H|H]]; [inversion H; auto| |].
          -- inversion H; subst. right. split; auto. intros ->. unfold klt in EK. lia.
          -- right. split; auto. intros ->. specialize (HF _ H). unfold klt in *. simpl in *. lia.
        * intros [[-> ->]|[_ H]]; auto.
      + destruct (Nat.eqb_spec (fst k) (fst k0)) as [E1|E1]; simpl; [destruct (Nat.eqb_spec (snd k) (snd k0)) as [E2|E2]|].
        * assert (k = k0) by (destruct k, k0; simpl in *; congruence). subst k0. simpl. split.
          -- intros [H|H]; [inversion H; auto|]. right. split; auto. intros ->. specialize (HF _ H). unfold klt in HF. simpl in HF. lia.
          -- intros [[-> ->]|[H1 [H|H]]]; auto. inversion H; congruence.
        * simpl. rewrite (IH HS). split.
          -- intros [H|H]; [inversion H; subst; right; split; auto; congruence|tauto].
          -- intros [[-> ->]|[H1 [H|H]]]; auto.
        * simpl. rewrite (IH HS). split.
          -- intros [H|H]; [inversion H; subst; right; split; auto; congruence|tauto].
          -- intros [[-> ->]|[H1 [H|H]]]; auto.
  Qed.

  Lemma over_set_sorted k v O : osorted O -> osorted (over_set k v O).
  Proof.
    induction O as [|[k0 v0] t IH]; intros HS; simpl.
    - apply osorted_cons. split; auto. intros ? [].
    - pose proof HS as HS0. apply osorted_cons in HS. destruct HS as [HS HF]. destruct (key_lt k k0) eqn:EK.
      + apply key_lt_spec in EK. apply osorted_cons. split; auto. intros kv [<-|H]; auto.
        specialize (HF _ H). unfold klt in *. simpl in *. lia.
      + apply key_lt_false in EK.
        destruct (Nat.eqb_spec (fst k) (fst k0)) as [E1|E1]; simpl; [destruct (Nat.eqb_spec (snd k) (snd k0)) as [E2|E2]|].
        * assert (k = k0) by (destruct k, k0; simpl in *; congruence). subst k0.
          apply osorted_cons. split; auto. 
        * apply osorted_cons. split; auto. intros [k' v'] H. apply over_set_In in H; auto.
          destruct H as [[-> ->]|[_ H]]; [|apply HF in H; auto]. unfold klt in *. simpl in *. lia.
        * apply osorted_cons. split; auto. intros [k' v'] H. apply over_set_In in H; auto.
          destruct H as [[-> ->]|[_ H]]; [|apply HF in H; auto]. unfold klt in *. simpl in *. lia.
  Qed.

  Record ib (s : st) (n m avg osize : nat) Rs O : Prop := {
    ib_mode : mmode (snd s) = Implicit;
    ib_stage : mstage (snd s) = Building;
    ib_n : mn (snd s) = n;
    ib_m : mm (snd s) = m;
    ib_avg : mavg (snd s) = avg;
    ib_asize : masize (snd s) = n * avg + osize;
    ib_nnz : mnnz (snd s) = n * avg + osize;
    ib_rows : mrows (snd s) = irows osize avg 0 Rs;
    ib_J : jarr_or_nil (fst s) (snd s) = flat 0 osize avg (map (map fst) Rs);
    ib_A : data_or_nil (snd s) = flat dv osize avg (map (map snd) Rs);
    ib_Js : 0 < n * avg + osize -> jarr (fst s) (snd s) <> None;
    ib_As : 0 < n * avg + osize -> madata (snd s) <> None;
    ib_len : length Rs = n;
    ib_R : forall i R, nth_error Rs i = Some R -> length R <= avg /\ NoDup (map fst R) /\ Forall (fun j => j < m) (map fst R);
    ib_over : mover (snd s) = O;
    ib_O : osorted O;
    ib_Ok : forall k v, In (k, v) O -> fst k < n /\ snd k < m /\
              forall R, nth_error Rs (fst k) = Some R -> length R = avg /\ ~ In (snd k) (map fst R)
  }.

  Definition content Rs O (i j : nat) (v : V) : Prop :=
    (exists R, nth_error Rs i = Some R /\ In (j, v) R) \/ In ((i, j), v) O.

  Lemma irows_nth osize avg : forall Rs i k R, nth_error Rs k = Some R ->
    nth_error (irows osize avg i Rs) k = Some (mkrow (length R) (JArr (begins osize avg (i + k))) (AArr (begins osize avg (i + k)))).
  Proof.
    induction Rs as [|R0 t IH]; intros i k R H; [destruct k; discriminate|]. destruct k; simpl in *.
    - inversion H; subst. rewrite Nat.add_0_r. reflexivity.
    - rewrite (IH (S i) k R H). replace (i + S k) with (S i + k) by lia. reflexivity.
  Qed.
  Lemma irows_upd osize avg : forall Rs i k R', k < length Rs ->
    upd (irows osize avg i Rs) k (mkrow (length R') (JArr (begins osize avg (i + k))) (AArr (begins osize avg (i + k))))
    = irows osize avg i (upd Rs k R').
  Proof.
    induction Rs as [|R0 t IH]; intros i k R' H; [simpl in H; lia|]. destruct k; simpl in *.
    - rewrite Nat.add_0_r. reflexivity.
    - f_equal. rewrite <- (IH (S i) k R') by lia. replace (i + S k) with (S i + k) by lia. reflexivity.
  Qed.
  Lemma irows_upd_same osize avg : forall Rs i k R R', nth_error Rs k = Some R -> length R' = length R ->
    irows osize avg i (upd Rs k R') = irows osize avg i Rs.
  Proof.
    induction Rs as [|R0 t IH]; intros i k R R' H HL; [destruct k; discriminate|]. destruct k; simpl in *.
    - inversion H; subst. congruence.
    - f_equal. eauto.
  Qed.

  Lemma find_pos_spec x : forall l, match find_pos x l with
    | Some k => nth_error l k = Some x | None => ~ In x l end.
  Proof.
    induction l as [|y t IH]; simpl; auto. destruct (Nat.eqb_spec x y) as [->|Hne]; auto.
    destruct (find_pos x t); simpl; auto. intros [->|H]; auto.
  Qed.

  Lemma upd_self {A} (l : list A) i x : nth_error l i = Some x -> upd l i x = l.
  Proof. revert i. induction l as [|y t IH]; intros i H; destruct i; simpl in *; try discriminate; [congruence|]. f_equal. auto. Qed.

  Lemma upd_map2 {A B} (f : A -> B) (L : list (list A)) i l : map (map f) (upd L i l) = upd (map (map f) L) i (map f l).
  Proof. apply (upd_map (map f)). Qed.

  Lemma In_upd_content (R : list (nat * V)) k j v w : NoDup (map fst R) -> nth_error R k = Some (j, v) ->
    forall b u, In (b, u) (upd R k (j, w)) <-> (b = j /\ u = w) \/ (b <> j /\ In (b, u) R).
  Proof.
    revert k. induction R as [|[x y] t IH]; intros k HN Hk b u; [destruct k; discriminate|].
    inversion HN as [|? ? Hx HN']; subst. destruct k as [|k]; simpl in *.
    - inversion Hk; subst. split.
      + intros [H|H]; [inversion H; auto|]. right. split; auto. intros ->. apply Hx. apply in_map_iff. exists (j, u). auto.
      + intros [[-> ->]|[H1 [H|H]]]; auto. inversion H; congruence.
    - rewrite (IH k HN' Hk). split.
      + intros [H|[H|H]]; auto; [|tauto]. inversion H; subst. right. split; auto. intros ->. apply Hx.
        apply in_map_iff. exists (j, v). split; auto. eapply nth_error_In; eauto.
      + intros [H|[H1 [H|H]]]; auto.
  Qed.

  Definition stepped Rs O Rs' O' i j (f : V -> V) : Prop :=
    exists v0, (content Rs O i j v0 \/ ((forall v, ~ content Rs O i j v) /\ (v0 = dv \/ v0 = zv))) /\
      forall a b w, content Rs' O' a b w <-> (a = i /\ b = j /\ w = f v0) \/ ((a, b) <> (i, j) /\ content Rs O a b w).

  Lemma content_other Rs O Rs' a b w i R' :
    Rs' = upd Rs i R' -> a <> i -> (content Rs' O a b w <-> content Rs O a b w).
  Proof.
    intros -> Hne. unfold content. rewrite nth_error_upd. destruct (Nat.eqb_spec i a); [congruence|]. simpl. tauto.
  Qed.

  Lemma entry_step chk s n m avg osize Rs O i j f :
    ib s n m avg osize Rs O -> i < n -> j < m ->
    exists s' Rs' O', entry zv chk s i j f = ROk s' tt /\ ib s' n m avg osize Rs' O' /\ stepped Rs O Rs' O' i j f.
  Proof.
    intros B Hi Hj. destruct s as [h M].
    pose proof (ib_mode _ _ _ _ _ _ _ B) as B1. pose proof (ib_stage _ _ _ _ _ _ _ B) as B2.
    pose proof (ib_n _ _ _ _ _ _ _ B) as B3. pose proof (ib_m _ _ _ _ _ _ _ B) as B4.
    pose proof (ib_avg _ _ _ _ _ _ _ B) as B5. pose proof (ib_rows _ _ _ _ _ _ _ B) as B6.
    pose proof (ib_J _ _ _ _ _ _ _ B) as B7. pose proof (ib_A _ _ _ _ _ _ _ B) as B8.
    pose proof (ib_len _ _ _ _ _ _ _ B) as B9. pose proof (ib_over _ _ _ _ _ _ _ B) as B10. pose proof (ib_asize _ _ _ _ _ _ _ B) as B11. pose proof (ib_nnz _ _ _ _ _ _ _ B) as B12.
    cbn [fst snd] in *. unfold entry. rewrite B1, B2, B3, B4. cbn [andb negb].
    rewrite (proj2 (Nat.leb_gt n i)), (proj2 (Nat.leb_gt m j)) by lia. cbn [orb]. rewrite !andb_false_r.
    destruct (nth_error_ex Rs i ltac:(lia)) as [R HR].
    destruct (ib_R _ _ _ _ _ _ _ B i R HR) as (HR1 & HR2 & HR3).
    rewrite B6, (irows_nth osize avg Rs 0 i R HR). cbn [rj ra rsize Nat.add].
    assert (HF1 : Forall (fun l => length l <= avg) (map (map fst) Rs)).
    { rewrite Forall_map. apply Forall_forall. intros R0 Hin. rewrite map_length. apply In_nth_error in Hin.
      destruct Hin as [q Hq]. apply (ib_R _ _ _ _ _ _ _ B q R0 Hq). }
    assert (HF2 : Forall (fun l => length l <= avg) (map (map snd) Rs)).
    { rewrite Forall_map. apply Forall_forall. intros R0 Hin. rewrite map_length. apply In_nth_error in Hin.
      destruct Hin as [q Hq]. apply (ib_R _ _ _ _ _ _ _ B q R0 Hq). }
    assert (Hm1 : nth_error (map (map fst) Rs) i = Some (map fst R)) by (rewrite nth_error_map, HR; auto).
    assert (Hm2 : nth_error (map (map snd) Rs) i = Some (map snd R)) by (rewrite nth_error_map, HR; auto).
    rewrite B7, B8. unfold begins.
    rewrite (flat_slice 0 osize avg (map (map fst) Rs) i (map fst R)) by (auto; rewrite map_length; auto).
    pose proof (find_pos_spec j (map fst R)) as HP. destruct (find_pos j (map fst R)) as [k|].
    - (* found in the row *)
      rewrite nth_error_map in HP. destruct (nth_error R k) as [[j' v]|] eqn:ER; [|discriminate]. simpl in HP. inversion HP; subst j'.
      assert (Hk : k < length R) by (eapply nth_error_lt; eauto).
      rewrite (flat_nth dv osize avg (map (map snd) Rs) i (map snd R)) by (auto; lia).
      unfold blk. rewrite nth_error_app1 by (rewrite map_length; auto). rewrite nth_error_map, ER. cbn [option_map snd].
      do 2 eexists. exists O. split; [reflexivity|].
      assert (Hout : forall v, ~ In ((i, j), v) O).
      { intros u Hu. destruct (ib_Ok _ _ _ _ _ _ _ B _ _ Hu) as (_ & _ & H3). destruct (H3 R HR) as [_ H4]. apply H4.
        cbn [snd]. apply in_map_iff. exists (j, v). split; auto. eapply nth_error_In; eauto. }
      assert (Hmf : map fst (upd R k (j, f v)) = map fst R).
      { rewrite upd_map. cbn [fst]. apply list_eq_nth; [apply upd_length|]. intros q Hq. rewrite nth_error_upd.
        destruct (Nat.eqb_spec k q) as [->|]; auto. cbn [andb]. rewrite map_length.
        destruct (Nat.ltb_spec q (length R)); [|lia]. rewrite nth_error_map, ER. reflexivity. }
      split.
      + instantiate (1 := upd Rs i (upd R k (j, f v))).
        constructor; cbn; auto.
        * rewrite B6. symmetry. apply (irows_upd_same osize avg Rs 0 i R); auto. apply upd_length.
        * unfold jarr_or_nil in *. cbn in *. rewrite (jarr_same h (set_adata M _) M) by reflexivity. rewrite B7.
          rewrite upd_map2, Hmf. f_equal. symmetry. apply upd_self. auto.
        * unfold data_or_nil. cbn. rewrite upd_map2, upd_map. cbn [snd].
          apply flat_upd_in; auto. rewrite map_length. auto.
        * intros H. apply (ib_Js _ _ _ _ _ _ _ B H).
        * discriminate.
        * rewrite upd_length. auto.
        * intros q R0 Hq. rewrite nth_error_upd in Hq. destruct (Nat.eqb_spec i q) as [->|].
          -- rewrite (proj2 (Nat.ltb_lt q (length Rs))) in Hq by lia. inversion Hq; subst. rewrite upd_length, Hmf. auto.
          -- apply (ib_R _ _ _ _ _ _ _ B q R0 Hq).
        * apply (ib_O _ _ _ _ _ _ _ B).
        * intros k0 u Hin. destruct (ib_Ok _ _ _ _ _ _ _ B _ _ Hin) as (H1 & H2 & H3). repeat split; auto.
          -- rewrite nth_error_upd in H. destruct (Nat.eqb_spec i (fst k0)) as [E|].
             ++ cbn [andb] in H. rewrite <- E in *. rewrite (proj2 (Nat.ltb_lt i (length Rs))) in H by lia. inversion H; subst. rewrite upd_length. apply H3; auto.
             ++ apply H3; auto.
          -- rewrite nth_error_upd in H. destruct (Nat.eqb_spec i (fst k0)) as [E|].
             ++ cbn [andb] in H. rewrite <- E in *. rewrite (proj2 (Nat.ltb_lt i (length Rs))) in H by lia. inversion H; subst. rewrite Hmf. apply H3; auto.
             ++ apply H3; auto.
      + exists v. split.
        * left. left. exists R. split; auto. eapply nth_error_In; eauto.
        * intros a b w. destruct (Nat.eq_dec a i) as [->|Hne].
          -- unfold content. rewrite nth_error_upd, Nat.eqb_refl. cbn [andb].
             rewrite (proj2 (Nat.ltb_lt i (length Rs))) by lia. rewrite HR.
             pose proof (In_upd_content R k j v (f v) HR2 ER b w) as HU. split.
             ++ intros [(R0 & E & Hin)|Hin].
                ** inversion E; subst R0. apply HU in Hin. destruct Hin as [[-> ->]|[Hb Hin]]; auto.
                   right. split; [congruence|]. left. eauto.
                ** right. split; [|auto]. intros E. inversion E; subst. apply (Hout _ Hin).
             ++ intros [(_ & -> & ->)|(Hne & [(R0 & E & Hin)|Hin])]; auto.
                ** left. eexists. split; [reflexivity|]. apply HU. auto.
                ** inversion E; subst R0. left. eexists. split; [reflexivity|]. apply HU. right. split; [congruence|auto].
          -- rewrite (content_other Rs O _ a b w i _ eq_refl Hne). split.
             ++ intros H. right. split; auto. congruence.
             ++ intros [(E & _)|[_ H]]; [destruct (Hne E)|auto].
    - rewrite B5. destruct (Nat.eqb_spec (length R) avg) as [Hfull|Hfull].
      + (* overflow *)
        rewrite B10. do 2 eexists. exists (over_set (i, j) (f match over_find (i, j) O with Some v => v | None => zv end) O).
        split; [reflexivity|]. pose proof (ib_O _ _ _ _ _ _ _ B) as HO. split.
        * instantiate (1 := Rs). constructor; cbn; auto.
          -- intros H. apply (ib_Js _ _ _ _ _ _ _ B H).
          -- intros H. apply (ib_As _ _ _ _ _ _ _ B H).
          -- apply (ib_R _ _ _ _ _ _ _ B).
          -- apply over_set_sorted; auto.
          -- intros k0 u Hin. apply over_set_In in Hin; auto. destruct Hin as [[-> ->]|[_ Hin]].
             ++ cbn. split; auto. split; auto. intros R0 E. rewrite HR in E. inversion E; subst. auto.
             ++ apply (ib_Ok _ _ _ _ _ _ _ B _ _ Hin).
        * exists (match over_find (i, j) O with Some v => v | None => zv end). split.
          -- destruct (over_find (i, j) O) as [v|] eqn:EF.
             ++ left. right. apply over_find_In; auto.
             ++ right. split; auto. intros v [(R0 & E & Hin)|Hin].
                ** rewrite HR in E. inversion E; subst. apply HP. apply in_map_iff. exists (j, v). auto.
                ** apply over_find_None with (v := v) in EF; auto.
          -- intros a b w. unfold content. rewrite (over_set_In (i, j) _ O HO (a, b) w). split.
             ++ intros [(R0 & E & Hin)|[[H1 H2]|[H1 H2]]].
                ** right. split; [|left; eauto]. intros X. inversion X; subst. rewrite HR in E. inversion E; subst.
                   apply HP. apply in_map_iff. exists (j, w). auto.
                ** inversion H1; subst. auto.
                ** right. split; auto.
             ++ intros [(-> & -> & ->)|(Hne & [H|H])]; auto.
      + (* new slot *)
        assert (Hlt : length R < avg) by lia.
        assert (HnJ : exists x, nth_error (flat 0 osize avg (map (map fst) Rs)) (osize + i * avg + length R) = Some x).
        { apply nth_error_ex. rewrite flat_length, map_length by auto. nia. }
        destruct HnJ as [x0 HnJ]. rewrite HnJ.
        rewrite (flat_nth dv osize avg (map (map snd) Rs) i (map snd R)) by (auto; lia).
        unfold blk. rewrite nth_error_app2 by (rewrite map_length; auto). rewrite map_length, Nat.sub_diag.
        replace (avg - length R) with (S (avg - length R - 1)) by lia. cbn [repeat nth_error].
        assert (Hpos : 0 < n * avg + osize) by nia.
        assert (HMj : exists kid, mjid M = Some kid /\ kid < length h).
        { pose proof (ib_Js _ _ _ _ _ _ _ B Hpos) as HJs. cbn [fst snd] in HJs. unfold jarr in HJs. destruct (mjid M) as [kid|]; [|congruence].
          exists kid. split; auto. apply nth_error_Some. auto. }
        destruct HMj as (kid & HMj & Hkid).
        assert (HR' : length (R ++ [(j, f dv)]) = S (length R)) by (rewrite app_length; simpl; lia).
        do 2 eexists. exists O. split; [reflexivity|].
        assert (Hout : forall b v, ~ In ((i, b), v) O).
        { intros b u Hu. destruct (ib_Ok _ _ _ _ _ _ _ B _ _ Hu) as (_ & _ & H3). destruct (H3 R HR) as [H4 _]. lia. }
        split.
        * instantiate (1 := upd Rs i (R ++ [(j, f dv)])). constructor; cbn; auto.
          -- rewrite <- HR'. apply (irows_upd osize avg Rs 0 i (R ++ [(j, f dv)])). lia.
          -- unfold jarr_or_nil, jarr, set_jarr. cbn. rewrite HMj. rewrite nth_error_upd, Nat.eqb_refl.
             rewrite (proj2 (Nat.ltb_lt kid (length h)) Hkid). cbn [andb].
             rewrite upd_map2, map_app. cbn [map fst].
             pose proof (flat_upd_new 0 osize avg (map (map fst) Rs) i (map fst R) j HF1 Hm1) as HX.
             rewrite map_length in HX. apply HX. auto.
          -- unfold data_or_nil. cbn. rewrite upd_map2, map_app. cbn [map snd].
             pose proof (flat_upd_new dv osize avg (map (map snd) Rs) i (map snd R) (f dv) HF2 Hm2) as HX.
             rewrite map_length in HX. apply HX. auto.
          -- intros _. unfold jarr, set_jarr. cbn. rewrite HMj. rewrite nth_error_upd, Nat.eqb_refl.
             rewrite (proj2 (Nat.ltb_lt kid (length h)) Hkid). discriminate.
          -- discriminate.
          -- rewrite upd_length. auto.
          -- intros q R0 Hq. rewrite nth_error_upd in Hq. destruct (Nat.eqb_spec i q) as [->|].
             ++ cbn [andb] in Hq. rewrite (proj2 (Nat.ltb_lt q (length Rs))) in Hq by lia. inversion Hq; subst. rewrite HR'. split; [lia|].
                rewrite map_app. cbn. split.
                ** apply (Permutation_NoDup (l := j :: map fst R)); [apply Permutation_cons_append|constructor; auto].
                ** apply Forall_app. split; auto.
             ++ apply (ib_R _ _ _ _ _ _ _ B q R0 Hq).
          -- apply (ib_O _ _ _ _ _ _ _ B).
          -- intros k0 u Hin. destruct (ib_Ok _ _ _ _ _ _ _ B _ _ Hin) as (H1 & H2 & H3). split; auto. split; auto.
             intros R0 HR0. rewrite nth_error_upd in HR0. destruct (Nat.eqb_spec i (fst k0)) as [E|]; [|apply H3; auto].
             exfalso. destruct k0 as [a b]. cbn in E. subst a. apply (Hout b u Hin).
        * exists dv. split.
          -- right. split; auto. intros v [(R0 & E & Hin)|Hin]; [|apply (Hout _ _ Hin)].
             rewrite HR in E. inversion E; subst. apply HP. apply in_map_iff. exists (j, v). auto.
          -- intros a b w. destruct (Nat.eq_dec a i) as [->|Hne].
             ++ unfold content. rewrite nth_error_upd, Nat.eqb_refl. cbn [andb].
                rewrite (proj2 (Nat.ltb_lt i (length Rs))) by lia. rewrite HR. split.
                ** intros [(R0 & E & Hin)|Hin]; [|destruct (Hout _ _ Hin)]. inversion E; subst R0.
                   apply in_app_or in Hin. destruct Hin as [Hin|[Hin|[]]]; [|inversion Hin; auto].
                   right. split; [|left; eauto]. intros X. inversion X; subst. apply HP. apply in_map_iff. exists (j, w). auto.
                ** intros [(_ & -> & ->)|(Hne & [(R0 & E & Hin)|Hin])]; [| |destruct (Hout _ _ Hin)].
                   --- left. eexists. split; [reflexivity|]. apply in_or_app. right. left. auto.
                   --- inversion E; subst R0. left. eexists. split; [reflexivity|]. apply in_or_app. auto.
             ++ rewrite (content_other Rs O _ a b w i _ eq_refl Hne). split.
                ** intros H. right. split; auto. congruence.
                ** intros [(E & _)|[_ H]]; [destruct (Hne E)|auto].
  Qed.
End Entry.

(** ** the whole program *)
Section Program.
  Context {V : Type}.
  Variables dv zv : V.
  Notation mat := (@mat V).
  Notation st := (@st V).
  Notation over := (list ((nat * nat) * V)).
  Implicit Types (Rs : list (list (nat * V))) (O : over).
  Arguments Nat.ltb : simpl never.
  Arguments Nat.eqb : simpl never.
  Arguments Nat.leb : simpl never.

  Lemma map_repeat' {A B} (f : A -> B) x k : map f (repeat x k) = repeat (f x) k.
  Proof. induction k; simpl; congruence. Qed.
  Lemma irows_empty osize avg k : forall i, @irows V osize avg i (repeat nil k) =
     map (fun q => mkrow 0 (JArr (osize + q * avg)) (AArr (osize + q * avg))) (seq i k).
  Proof. induction k; intros i; simpl; auto. f_equal. auto. Qed.

  Lemma implicit_allocate_ib h (M : mat) n m c :
    mmode M = Implicit -> mstage M = NotAllocated -> mrows M = nil -> madata M = None -> mjid M = None ->
    mover M = nil -> mcbs M = Some c ->
    exists s', implicit_allocate dv (h, M) n m = ROk s' tt /\
      ib dv s' n m (mavg M) (osize_of n (mavg M) c) (repeat nil n) nil.
  Proof.
    intros H1 H2 H3 H4 H5 H6 H7. unfold implicit_allocate. rewrite H1, H2, H7.
    set (osize := osize_of n (mavg M) c). set (tot := n * mavg M + osize).
    assert (EA : exists s1, allocate dv (h, M) n m tot true true = ROk s1 tt /\
       mmode (snd s1) = Implicit /\ mn (snd s1) = n /\ mm (snd s1) = m /\ mavg (snd s1) = mavg M /\ masize (snd s1) = tot /\ mnnz (snd s1) = tot /\
       mover (snd s1) = nil /\ jarr_or_nil (fst s1) (snd s1) = repeat 0 tot /\ data_or_nil (snd s1) = repeat dv tot /\
       (0 < tot -> jarr (fst s1) (snd s1) <> None) /\ (0 < tot -> madata (snd s1) <> None)).
    { unfold allocate. cbn -[Nat.ltb repeat]. rewrite H3. 
      assert (G : forall M2 : mat, mmode M2 = Implicit -> mn M2 = n -> mm M2 = m -> mavg M2 = mavg M -> masize M2 = tot -> mnnz M2 = tot -> mover M2 = nil ->
        madata M2 = None -> mjid M2 = None ->
        exists s1 : st, rbind (match allocateData dv M2 with ROk M3 _ => ROk (h, M3) tt | RThrow M3 e => RThrow (h, M3) e | RUB => RUB end)
        (fun s2 _ => let (h2, M3) := s2 in
         let s3 : st := if 0 <? masize M3 then match mjid M3 with Some _ => (h2, M3) | None => (h2 ++ [repeat 0 (masize M3)], set_jid M3 (Some (length h2))) end else (h2, set_jid M3 None) in
         ROk (fst s3, set_stage (snd s3) Building) tt) = ROk s1 tt /\
       mmode (snd s1) = Implicit /\ mn (snd s1) = n /\ mm (snd s1) = m /\ mavg (snd s1) = mavg M /\ masize (snd s1) = tot /\ mnnz (snd s1) = tot /\
       mover (snd s1) = nil /\ jarr_or_nil (fst s1) (snd s1) = repeat 0 tot /\ data_or_nil (snd s1) = repeat dv tot /\
       (0 < tot -> jarr (fst s1) (snd s1) <> None) /\ (0 < tot -> madata (snd s1) <> None)).
      { intros M2 A1 A2 A3 A4 A5 A5' A6 A7 A8. unfold allocateData. rewrite A7. cbn -[Nat.ltb repeat].
        rewrite A5. destruct (Nat.ltb_spec 0 tot) as [Hz|Hz].
        - rewrite A8. cbn -[Nat.ltb repeat]. eexists. split; [reflexivity|]. cbn -[Nat.ltb repeat].
          unfold jarr_or_nil, data_or_nil, jarr. cbn -[Nat.ltb repeat]. rewrite nth_error_app2, Nat.sub_diag by lia. cbn -[repeat].
          repeat split; auto; congruence.
        - cbn -[Nat.ltb repeat]. eexists. split; [reflexivity|]. cbn -[Nat.ltb repeat].
          unfold jarr_or_nil, data_or_nil, jarr. cbn -[Nat.ltb repeat]. replace tot with 0 in * by lia. repeat split; auto; lia. }
      destruct (Nat.ltb_spec 0 n) as [Hn|Hn]; cbn -[Nat.ltb repeat]; apply G; cbn; auto. }
    destruct EA as ([h1 M1] & EA & F1 & F2 & F3 & F4 & F5 & F5' & F6 & F7 & F8 & F9 & F10). rewrite EA. cbn [rbind fst snd] in *.
    eexists. split; [reflexivity|]. constructor; cbn; auto.
    - rewrite irows_empty, F4. reflexivity.
    - rewrite map_repeat'. cbn [map]. rewrite (flat_empty 0 osize (mavg M) n). exact F7.
    - rewrite map_repeat'. cbn [map]. rewrite (flat_empty dv osize (mavg M) n). exact F8.
    - apply repeat_length.
    - intros i R Hi. apply nth_error_In, repeat_spec in Hi. subst R. cbn. repeat split; [lia|constructor|constructor].
    - constructor.
    - intros k v [].
  Qed.

  Lemma nth_error_app_firstn {A} (a b c : list A) k : firstn k c = a -> k = length a -> k <= length c -> exists t, c = a ++ t.
  Proof. intros <- _ _. exists (skipn k c). symmetry. apply firstn_skipn. Qed.

  Lemma cwins_nth : forall (Ws : list (list (nat * V))) off i W, nth_error Ws i = Some W ->
    nth_error (cwins off Ws) i = Some (mkrow (length W) (JArr (off + length (concat (firstn i Ws)))) (AArr (off + length (concat (firstn i Ws))))).
  Proof.
    induction Ws as [|W0 t IH]; intros off i W H; [destruct i; discriminate|]. destruct i; simpl in *.
    - inversion H; subst. rewrite Nat.add_0_r. reflexivity.
    - rewrite (IH _ _ _ H). rewrite app_length, Nat.add_assoc. reflexivity.
  Qed.
  Lemma cwins_length : forall (Ws : list (list (nat * V))) off, length (cwins off Ws) = length Ws.
  Proof. induction Ws; intros; simpl; auto. Qed.
  Lemma cwins_total : forall (Ws : list (list (nat * V))) off, total_size (cwins off Ws) = length (concat Ws).
  Proof. unfold total_size. induction Ws as [|W t IH]; intros; simpl; auto. rewrite app_length. f_equal. apply IH. Qed.
  Lemma concat_map_map {A B} (f : A -> B) (L : list (list A)) : concat (map (map f) L) = map f (concat L).
  Proof. symmetry. apply concat_map. Qed.
  Lemma slice_mid {A} (a b c : list A) : slice (length a) (length b) (a ++ b ++ c) = b.
  Proof.
    unfold slice. rewrite skipn_app, Nat.sub_diag, skipn_all2 by lia. simpl.
    rewrite firstn_app, Nat.sub_diag, firstn_all, app_nil_r. reflexivity.
  Qed.
  Lemma concat_split {A} (L : list (list A)) i x : nth_error L i = Some x ->
    concat L = concat (firstn i L) ++ x ++ concat (skipn (S i) L).
  Proof.
    revert i. induction L as [|y t IH]; intros i H; destruct i; simpl in *; try discriminate.
    - inversion H; auto.
    - rewrite (IH i H) at 1. rewrite app_assoc. reflexivity.
  Qed.

  Lemma compress_ib s n m avg osize Rs O : ib dv s n m avg osize Rs O -> 1 <= avg ->
    let Ws := Wrows 0 Rs O in
    (fitsW osize avg 0 0 Ws -> exists s', compress s = ROk s' tt /\
        contig s' n m (map (map fst) Ws) (map (map snd) Ws) /\ jcompact s' (map (map fst) Ws) /\
        (0 < n -> mnnz (snd s') = length (concat Ws)) /\ mover (snd s') = nil) /\
    (~ fitsW osize avg 0 0 Ws -> exists s', compress s = RThrow s' EExhausted).
  Proof.
    intros B Havg Ws. destruct s as [h M].
    pose proof (ib_mode _ _ _ _ _ _ _ _ B) as B1. pose proof (ib_stage _ _ _ _ _ _ _ _ B) as B2.
    pose proof (ib_n _ _ _ _ _ _ _ _ B) as B3. pose proof (ib_m _ _ _ _ _ _ _ _ B) as B4.
    pose proof (ib_rows _ _ _ _ _ _ _ _ B) as B6.
    pose proof (ib_J _ _ _ _ _ _ _ _ B) as B7. pose proof (ib_A _ _ _ _ _ _ _ _ B) as B8.
    pose proof (ib_len _ _ _ _ _ _ _ _ B) as B9. pose proof (ib_over _ _ _ _ _ _ _ _ B) as B10.
    cbn [fst snd] in *.
    set (J0 := flat 0 osize avg (map (map fst) Rs)) in *. set (A0 := flat dv osize avg (map (map snd) Rs)) in *.
    assert (HF1 : Forall (fun l => length l <= avg) (map (map fst) Rs)).
    { rewrite Forall_map. apply Forall_forall. intros R0 Hin. rewrite map_length. apply In_nth_error in Hin.
      destruct Hin as [q Hq]. apply (ib_R _ _ _ _ _ _ _ _ B q R0 Hq). }
    assert (HF2 : Forall (fun l => length l <= avg) (map (map snd) Rs)).
    { rewrite Forall_map. apply Forall_forall. intros R0 Hin. rewrite map_length. apply In_nth_error in Hin.
      destruct Hin as [q Hq]. apply (ib_R _ _ _ _ _ _ _ _ B q R0 Hq). }
    assert (HJ0 : length J0 = osize + n * avg) by (unfold J0; rewrite flat_length, map_length by auto; lia).
    assert (HA0 : length A0 = osize + n * avg) by (unfold A0; rewrite flat_length, map_length by auto; lia).
    assert (HWs : forall k W, nth_error Ws k = Some W -> exists R, nth_error Rs k = Some R /\ ssorted (map fst W) /\
      forall j v, In (j, v) W <-> In (j, v) R \/ In ((k, j), v) O).
    { intros k W HW. apply (Wrows_spec Rs 0 O) in HW; auto.
      - intros q R HR. destruct (ib_R _ _ _ _ _ _ _ _ B q R HR) as (_ & HN & _). split; auto.
        intros [x v] [k' v'] Hx Ho E. simpl in E. subst k'. destruct (ib_Ok _ _ _ _ _ _ _ _ B _ _ Ho) as (_ & _ & H3).
        destruct (H3 R HR) as [_ H4]. apply H4. simpl. apply in_map_iff. exists (x, v). auto.
      - apply (ib_O _ _ _ _ _ _ _ _ B).
      - intros; lia. }
    assert (HWlen : length Ws = n) by (unfold Ws; rewrite Wrows_length; auto).
    assert (HWok : rows_ok m (map (map fst) Ws) (map (map snd) Ws)).
    { split; [rewrite !map_length; auto|]. split.
      - intros i c v. rewrite !nth_error_map. destruct (nth_error Ws i); simpl; [|discriminate].
        intros E1 E2; inversion E1; inversion E2. rewrite !map_length. auto.
      - rewrite Forall_map. apply Forall_forall. intros W HW. apply In_nth_error in HW. destruct HW as [k HW].
        destruct (HWs k W HW) as (R & HR & HS & HI). split; auto. apply Forall_forall. intros j Hj.
        apply in_map_iff in Hj. destruct Hj as ([j' v] & E & Hin). simpl in E. subst j'. apply HI in Hin. destruct Hin as [Hin|Hin].
        + destruct (ib_R _ _ _ _ _ _ _ _ B k R HR) as (_ & _ & HFj). rewrite Forall_forall in HFj. apply HFj.
          apply in_map_iff. exists (j, v). auto.
        + apply (ib_Ok _ _ _ _ _ _ _ _ B _ _ Hin). }
    destruct (Nat.eq_dec n 0) as [Hn0|Hn0].
    - (* no rows *)
      assert (HRs : Rs = nil) by (destruct Rs; auto; simpl in B9; lia). assert (HWn : Ws = nil) by (destruct Ws; auto; simpl in HWlen; lia).
      rewrite HWn. unfold compress. rewrite B1, B2, B6, HRs. simpl irows. cbv iota zeta. split.
      + intros _. eexists. split; [reflexivity|]. split; [|split; [intros Hpos; simpl in Hpos; lia|split; [lia|reflexivity]]].
        constructor; cbn; auto.
        * rewrite HWn in HWok. exact HWok.
        * rewrite B6, HRs. auto.
        * intros i c Hc. destruct i; discriminate.
        * lia.
        * pose proof (ib_nnz _ _ _ _ _ _ _ _ B) as Bz. cbn [snd] in Bz. rewrite Bz. unfold data_or_nil in B8. cbn [snd].
          destruct (madata M) as [a|] eqn:Ea.
          -- left. exists a. split; auto. rewrite B8, HA0. lia.
          -- right. split; auto. destruct (Nat.eq_dec (n * avg + osize) 0) as [|Hne]; auto.
             destruct (ib_As _ _ _ _ _ _ _ _ B ltac:(lia)). auto.
      + intros HX. destruct HX. exact I.
    - (* rows *)
      assert (Hpos : 0 < n * avg + osize) by nia.
      assert (HJ : exists kid, mjid M = Some kid /\ kid < length h).
      { pose proof (ib_Js _ _ _ _ _ _ _ _ B Hpos) as HJs. cbn [fst snd] in HJs. unfold jarr in HJs. destruct (mjid M) as [kid|]; [|congruence].
        exists kid. split; auto. apply nth_error_Some. auto. }
      destruct HJ as (kid & HMj & Hkid).
      assert (HA : madata M = Some A0).
      { pose proof (ib_As _ _ _ _ _ _ _ _ B Hpos) as HAs. cbn [snd] in HAs. unfold data_or_nil in B8. destruct (madata M); congruence. }
      set (c0 := mkcst J0 A0 0 O).
      assert (Hc0 : cells J0 A0 c0 nil) by (constructor; simpl; auto).
      assert (Hrow : forall k R, nth_error Rs k = Some R -> row_at J0 A0 (begins osize avg (0 + k)) R /\
                 begins osize avg (0 + k) + length R <= length J0).
      { intros k R HR. assert (k < n) by (rewrite <- B9; eapply nth_error_lt; eauto).
        destruct (ib_R _ _ _ _ _ _ _ _ B k R HR) as (HRl & _ & _). simpl. unfold begins. split; [|nia]. split; [nia|].
        intros q xv Hq. assert (Hql : q < length R) by (eapply nth_error_lt; eauto).
        unfold J0, A0. rewrite (flat_nth 0 osize avg (map (map fst) Rs) k (map fst R)), (flat_nth dv osize avg (map (map snd) Rs) k (map snd R)) by (auto; try lia; rewrite nth_error_map, HR; auto).
        unfold blk. rewrite !nth_error_app1 by (rewrite map_length; auto). rewrite !nth_error_map, Hq. auto. }
      pose proof (compress_rows_run J0 A0 ltac:(congruence) dv osize avg Rs 0 c0 nil O Hc0 eq_refl Hrow) as [Rok Rfail].
      assert (Hne : forall X : Type, forall a b : X, match irows osize avg 0 Rs with nil => a | _ :: _ => b end = b).
      { intros X a b. destruct Rs; simpl in *; [lia|auto]. }
      unfold compress. rewrite B1, B2, B6, B7, B8, B10. rewrite Hne. fold c0. split.
      + intros HF. destruct (Rok HF) as (c' & E & HC). rewrite E. cbv zeta. simpl in E, HC. fold Ws in E, HC |- *.
        cbn [mrows set_rows set_data set_adata]. simpl.
        assert (Hne2 : forall (X : Type) (a b : X), match cwins 0 Ws with nil => a | _ :: _ => b end = b).
        { intros X a b. destruct Ws; simpl in *; [lia|auto]. }
        rewrite Hne2. eexists. split; [reflexivity|].
        assert (EJ : c_J c' = map fst (concat Ws) ++ skipn (length (concat Ws)) (c_J c')).
        { rewrite <- (ce_oJ _ _ _ _ HC). symmetry. apply firstn_skipn. }
        assert (EA : c_A c' = map snd (concat Ws) ++ skipn (length (concat Ws)) (c_A c')).
        { rewrite <- (ce_oA _ _ _ _ HC). symmetry. apply firstn_skipn. }
        set (Mf := set_stage _ Built).
        assert (HjF : jarr (set_jarr h M (c_J c')) Mf = Some (c_J c')).
        { unfold jarr, set_jarr, Mf. cbn. rewrite HMj. rewrite nth_error_upd, Nat.eqb_refl.
          rewrite (proj2 (Nat.ltb_lt kid (length h)) Hkid). reflexivity. }
        split; [|split; [|split; [|reflexivity]]].
        * constructor; cbn; auto.
          -- rewrite map_length; auto.
          -- rewrite cwins_length; auto.
          -- intros i c Hc. rewrite nth_error_map in Hc. destruct (nth_error Ws i) as [W|] eqn:EW; [|discriminate].
             cbn in Hc. inversion Hc; subst c. rewrite (cwins_nth Ws 0 i W EW). eexists. split; [reflexivity|]. cbn.
             rewrite !map_length, firstn_map, concat_map_map, map_length. split; auto. split; [eauto|].
             unfold row_idx. cbn [rj rsize]. destruct (Nat.eqb_spec (length W) 0) as [Hz|Hz].
             ++ destruct W; [|discriminate]. reflexivity.
             ++ rewrite HjF. pose proof (concat_split Ws i W EW) as ES.
                assert (EJ' : c_J c' = map fst (concat (firstn i Ws)) ++ map fst W ++ (map fst (concat (skipn (S i) Ws)) ++ skipn (length (concat Ws)) (c_J c'))).
                { rewrite EJ at 1. rewrite ES at 1. rewrite !map_app, <- !app_assoc. reflexivity. }
                replace (length (concat (firstn i Ws)) + length W <=? length (c_J c')) with true.
                2:{ symmetry. apply Nat.leb_le. rewrite EJ', !app_length, !map_length. lia. }
                f_equal. rewrite EJ' at 1. rewrite <- (map_length fst (concat (firstn i Ws))). rewrite <- (map_length fst W) at 1.
                apply slice_mid.
          -- rewrite cwins_total, concat_map_map, map_length. auto.
          -- left. rewrite HA. cbn. rewrite cwins_total, concat_map_map. eexists. split; [f_equal; exact EA|].
             rewrite app_length, map_length. lia.
        * intros Hc. cbn [fst snd]. rewrite HjF, concat_map_map. eexists. f_equal. exact EJ.
        * intros _. cbn. apply cwins_total.
      + intros HF. destruct (Rfail HF) as (c' & E). rewrite E. eauto.
  Qed.

  (** *** the user's program: a list of accesses [entry(i,j) = f(entry(i,j))] *)
  Definition access : Type := (nat * nat) * (V -> V).
  Fixpoint run_entries (chk : bool) (s : st) (acc : list access) : res st unit :=
    match acc with
    | nil => ROk s tt
    | (ij, f) :: t => rbind (entry zv chk s (fst ij) (snd ij) f) (fun s' _ => run_entries chk s' t)
    end.
  (** positions ever accessed, and the accumulated effect of the accesses to one position, in program order *)
  Definition accessed (acc : list access) (i j : nat) : Prop := In (i, j) (map fst acc).
  Fixpoint accum (acc : list access) (i j : nat) (v : V) : V :=
    match acc with
    | nil => v
    | (ij, f) :: t => accum t i j (if (fst ij =? i) && (snd ij =? j) then f v else v)
    end.

  Definition tracks (Rs : list (list (nat * V))) (O : over) (acc : list access) : Prop :=
    (forall i j, (exists v, content Rs O i j v) <-> accessed acc i j) /\
    (forall i j v, content Rs O i j v -> v = accum acc i j dv \/ v = accum acc i j zv).

  Lemma accum_app a b i j v : accum (a ++ b) i j v = accum b i j (accum a i j v).
  Proof. revert v. induction a as [|[ij f] t IH]; intros v; simpl; auto. Qed.
  Lemma accum_not acc i j v : ~ accessed acc i j -> accum acc i j v = v.
  Proof.
    revert v. induction acc as [|[[a b] f] t IH]; intros v H; simpl; auto.
    destruct (Nat.eqb_spec a i) as [->|]; simpl; [destruct (Nat.eqb_spec b j) as [->|]|].
    - destruct H. left. reflexivity.
    - apply IH. intros X. apply H. right. auto.
    - apply IH. intros X. apply H. right. auto.
  Qed.

  Lemma run_entries_track chk n m avg osize : forall acc done s Rs O,
    ib dv s n m avg osize Rs O -> Forall (fun ij => fst ij < n /\ snd ij < m) (map fst acc) -> tracks Rs O done ->
    exists s' Rs' O', run_entries chk s acc = ROk s' tt /\ ib dv s' n m avg osize Rs' O' /\ tracks Rs' O' (done ++ acc).
  Proof.
    induction acc as [|[[i j] f] t IH]; intros done s Rs O B HF HT.
    - rewrite app_nil_r. simpl. eauto 7.
    - simpl in HF. inversion HF as [|? ? [Hi Hj] HF']; subst. simpl in Hi, Hj.
      destruct (entry_step dv zv chk s n m avg osize Rs O i j f B Hi Hj) as (s1 & Rs1 & O1 & E & B1 & (v0 & Hv0 & Hst)).
      assert (HT1 : tracks Rs1 O1 (done ++ [((i, j), f)])).
      { destruct HT as [T1 T2]. split.
        - intros a b. unfold accessed. rewrite map_app. simpl. split.
          + intros [w Hw]. apply Hst in Hw. apply in_or_app. destruct Hw as [(-> & -> & ->)|(Hne & Hw)]; [right; left; auto|left].
            apply T1. eauto.
          + intros Hin. destruct (Nat.eq_dec a i) as [->|Ha]; [destruct (Nat.eq_dec b j) as [->|Hb]|].
            * exists (f v0). apply Hst. auto.
            * apply in_app_or in Hin. destruct Hin as [Hin|[Hin|[]]]; [|congruence]. apply T1 in Hin. destruct Hin as [w Hw].
              exists w. apply Hst. right. split; auto. congruence.
            * apply in_app_or in Hin. destruct Hin as [Hin|[Hin|[]]]; [|congruence]. apply T1 in Hin. destruct Hin as [w Hw].
              exists w. apply Hst. right. split; auto. congruence.
        - intros a b w Hw. rewrite !accum_app. simpl. apply Hst in Hw. destruct Hw as [(-> & -> & ->)|(Hne & Hw)].
          + rewrite !Nat.eqb_refl. simpl. destruct Hv0 as [Hc|[Hc [->| ->]]].
            * destruct (T2 _ _ _ Hc) as [->| ->]; auto.
            * left. rewrite accum_not; auto. intros X. apply T1 in X. destruct X as [v X]. apply (Hc v X).
            * right. rewrite accum_not; auto. intros X. apply T1 in X. destruct X as [v X]. apply (Hc v X).
          + assert (E0 : (i =? a) && (j =? b) = false).
            { destruct (Nat.eqb_spec i a) as [->|]; auto. destruct (Nat.eqb_spec j b) as [->|]; auto. congruence. }
            rewrite E0. auto. }
      destruct (IH _ _ _ _ B1 HF' HT1) as (s' & Rs' & O' & E' & B' & T').
      exists s', Rs', O'. split; [|split; auto].
      + simpl. rewrite E. simpl. exact E'.
      + rewrite <- app_assoc in T'. exact T'.
  Qed.

  Lemma tracks_nil n : tracks (repeat nil n) nil nil.
  Proof.
    assert (Hno : forall i j v, ~ @content V (repeat nil n) nil i j v).
    { intros i j v [(R & E & Hin)|[]]. apply nth_error_In, repeat_spec in E. subst. destruct Hin. }
    split.
    - intros i j. split; [intros [v Hv]; destruct (Hno _ _ _ Hv)|intros []].
    - intros i j v Hv. destruct (Hno _ _ _ Hv).
  Qed.

  (** the compression buffer suffices: [osize + i*avg] is the position where row [i] begins *)
  Definition buffer_suffices (osize avg : nat) (acc : list access) : Prop :=
    forall i, (exists j, accessed acc i j) ->
      at_most (osize + i * avg + 1) (fun ij : nat * nat => fst ij <= i /\ accessed acc (fst ij) (snd ij)).

  Lemma at_most_exactly {A} k k' (P : A -> Prop) : exactly k P -> (at_most k' P <-> k <= k').
  Proof.
    intros (l & HN & Hl & Hk). split.
    - intros H. rewrite <- Hk. apply H; auto. intros x Hx. apply Hl; auto.
    - intros H l' HN' Hl'. apply Nat.le_trans with (length l); [|lia]. apply NoDup_incl_length; auto. intros x Hx. apply Hl, Hl', Hx.
  Qed.

  Lemma fitsW_alt osize avg : forall (Ws : list (list (nat * V))) i pos, fitsW osize avg i pos Ws <->
    forall k W, nth_error Ws k = Some W -> W = nil \/ pos + length (concat (firstn (S k) Ws)) <= S (osize + (i + k) * avg).
  Proof.
    induction Ws as [|W t IH]; intros i pos; simpl.
    - split; auto. intros _ k W H. destruct k; discriminate.
    - rewrite (IH (S i) (pos + length W)). unfold begins. split.
      + intros [H1 H2] k W0 H0. destruct k; simpl in *.
        * inversion H0; subst. rewrite app_nil_r, Nat.add_0_r. auto.
        * destruct (H2 k W0 H0) as [|H3]; auto. right. rewrite app_length. simpl in H3. replace (i + S k) with (S (i + k)) by lia. simpl. destruct t; simpl in *; lia.
      + intros H. split.
        * destruct (H 0 W eq_refl) as [|H3]; auto. right. simpl in H3. rewrite app_nil_r, Nat.add_0_r in H3. auto.
        * intros k W0 H0. destruct (H (S k) W0 H0) as [|H3]; auto. right. rewrite app_length in H3.
          replace (i + S k) with (S (i + k)) in H3 by lia. simpl in H3. destruct t; simpl in *; lia.
  Qed.

  Lemma tracked_fits chkRs chkO n m avg osize s acc : ib dv s n m avg osize chkRs chkO -> tracks chkRs chkO acc ->
    let Ws := Wrows 0 chkRs chkO in
    (fitsW osize avg 0 0 Ws <-> buffer_suffices osize avg acc) /\
    (forall i W, nth_error Ws i = Some W -> ssorted (map fst W) /\ (forall j v, In (j, v) W <-> content chkRs chkO i j v)
       /\ (forall j, In j (map fst W) <-> accessed acc i j)) /\
    exactly (length (concat Ws)) (fun ij => accessed acc (fst ij) (snd ij)).
  Proof.
    intros B [T1 T2] Ws.
    assert (HWs : forall k W, nth_error Ws k = Some W -> exists R, nth_error chkRs k = Some R /\ ssorted (map fst W) /\
      forall j v, In (j, v) W <-> In (j, v) R \/ In ((k, j), v) chkO).
    { intros k W HW. apply (Wrows_spec chkRs 0 chkO) in HW; auto.
      - intros q R HR. destruct (ib_R _ _ _ _ _ _ _ _ B q R HR) as (_ & HN & _). split; auto.
        intros [x v] [k' v'] Hx Ho E. simpl in E. subst k'. destruct (ib_Ok _ _ _ _ _ _ _ _ B _ _ Ho) as (_ & _ & H3).
        destruct (H3 R HR) as [_ H4]. apply H4. simpl. apply in_map_iff. exists (x, v). auto.
      - apply (ib_O _ _ _ _ _ _ _ _ B).
      - intros; lia. }
    assert (HWlen : length Ws = n) by (unfold Ws; rewrite Wrows_length; apply (ib_len _ _ _ _ _ _ _ _ B)).
    assert (HW2 : forall i W, nth_error Ws i = Some W -> ssorted (map fst W) /\ (forall j v, In (j, v) W <-> content chkRs chkO i j v)
       /\ (forall j, In j (map fst W) <-> accessed acc i j)).
    { intros i W HW. destruct (HWs i W HW) as (R & HR & HS & HI). split; auto.
      assert (HC : forall j v, In (j, v) W <-> content chkRs chkO i j v).
      { intros j v. rewrite HI. unfold content. split; [intros [H|H]; eauto|]. intros [(R' & E & H)|H]; auto. left. congruence. }
      split; auto. intros j. rewrite <- T1. rewrite in_map_iff. split.
      - intros ([j' v] & E & Hin). simpl in E. subst j'. exists v. apply HC. auto.
      - intros [v Hv]. exists (j, v). split; auto. apply HC. auto. }
    assert (Hacc : forall i j, accessed acc i j -> i < n).
    { intros i j H. apply T1 in H. destruct H as [v [(R & E & _)|H]].
      - rewrite <- (ib_len _ _ _ _ _ _ _ _ B). eapply nth_error_lt; eauto.
      - apply (ib_Ok _ _ _ _ _ _ _ _ B _ _ H). }
    assert (Hcnt : forall k, k <= n -> exactly (length (concat (firstn k Ws))) (fun ij => fst ij < k /\ accessed acc (fst ij) (snd ij))).
    { intros k Hk.
      pose (pairs := filter (fun ij => fst ij <? k) (map fst acc)).
      assert (Hp : forall ij, In ij pairs <-> fst ij < k /\ accessed acc (fst ij) (snd ij)).
      { intros ij. unfold pairs. rewrite filter_In, Nat.ltb_lt. unfold accessed. destruct ij; simpl. tauto. }
      destruct (nodup_concat_count pairs k (map (map fst) (firstn k Ws))) as (l & HN & Hl & Hlen).
      - rewrite map_length, firstn_length. lia.
      - apply Forall_forall. intros ij H. apply Hp in H. tauto.
      - intros i c Hc. rewrite nth_error_map in Hc. destruct (nth_error (firstn k Ws) i) as [W|] eqn:EW; [|discriminate].
        simpl in Hc. inversion Hc; subst c. assert (Hik : i < k).
        { apply nth_error_lt in EW. rewrite firstn_length in EW. lia. }
        rewrite nth_error_firstn in EW by auto. destruct (HW2 i W EW) as (HS & _ & HA). split; [apply ss_nodup; auto|].
        intros j. rewrite HA, Hp. simpl. tauto.
      - exists l. split; auto. split; [|rewrite Hlen, concat_map_map, map_length; auto]. intros x. rewrite Hl. apply Hp. }
    split; [|split; auto].
    - rewrite fitsW_alt. unfold buffer_suffices. split.
      + intros H i [j Hj]. pose proof (Hacc i j Hj) as Hi. destruct (nth_error_ex Ws i ltac:(lia)) as [W HW].
        destruct (HW2 i W HW) as (_ & _ & HA).
        assert (HE : exactly (length (concat (firstn (S i) Ws))) (fun ij => fst ij <= i /\ accessed acc (fst ij) (snd ij))).
        { destruct (Hcnt (S i) Hi) as (l & A1 & A2 & A3). exists l. split; auto. split; auto. intros x. rewrite A2, Nat.lt_succ_r. tauto. }
        apply (at_most_exactly _ _ _ HE). destruct (H i W HW) as [->|H1]; [|rewrite Nat.add_0_l in H1; cbn [Nat.add] in H1; lia].
        apply HA in Hj. destruct Hj.
      + intros H i W HW. destruct W as [|[j v] t] eqn:EW; auto. rewrite <- EW in *. right.
        assert (Hi : i < n) by (rewrite <- HWlen; eapply nth_error_lt; eauto).
        destruct (HW2 i W HW) as (_ & _ & HA).
        assert (HE : exactly (length (concat (firstn (S i) Ws))) (fun ij => fst ij <= i /\ accessed acc (fst ij) (snd ij))).
        { destruct (Hcnt (S i) Hi) as (l & A1 & A2 & A3). exists l. split; auto. split; auto. intros x. rewrite A2, Nat.lt_succ_r. tauto. }
        assert (Hj : accessed acc i j) by (apply HA; rewrite EW; left; auto).
        specialize (H i (ex_intro _ j Hj)). apply (at_most_exactly _ _ _ HE) in H. cbn [Nat.add]. lia.
    - destruct (Hcnt n (le_n n)) as (l & A1 & A2 & A3). rewrite firstn_all2 in A3 by lia. exists l. split; auto. split; auto.
      intros [a b]. rewrite A2. simpl. split; [tauto|]. intros H. split; auto. eauto.
  Qed.

  (** the complete user program of the implicit mode *)
  Definition implicit_program (chk : bool) (h : heap) (n m avg : nat) (cbs : nat * nat) (acc : list access) : res st unit :=
    rbind (mat_new_implicit dv h n m avg (Some cbs) Implicit) (fun s _ =>
    rbind (run_entries chk s acc) (fun s1 _ => compress s1)).

  Definition stored (Ws : list (list (nat * V))) (i j : nat) : V :=
    match nth_error Ws i with
    | Some W => match find (fun jv => fst jv =? j) W with Some jv => snd jv | None => dv end
    | None => dv
    end.
  Lemma stored_spec Ws i W j v : nth_error Ws i = Some W -> NoDup (map fst W) -> In (j, v) W -> v = stored Ws i j.
  Proof.
    intros E HN Hin. unfold stored. rewrite E. clear E. induction W as [|[a b] t IH]; [destruct Hin|].
    simpl in *. inversion HN; subst. destruct (Nat.eqb_spec a j) as [->|Hne].
    - destruct Hin as [Hin|Hin]; [inversion Hin; auto|]. destruct H1. apply in_map_iff. exists (j, v). auto.
    - destruct Hin as [Hin|Hin]; [inversion Hin; congruence|]. auto.
  Qed.
  Lemma combine_nth_In (W : list (nat * V)) p j x : nth_error (map fst W) p = Some j -> nth_error (map snd W) p = Some x -> In (j, x) W.
  Proof.
    rewrite !nth_error_map. destruct (nth_error W p) as [[a b]|] eqn:E; simpl; [|discriminate].
    intros E1 E2; inversion E1; inversion E2; subst. eapply nth_error_In; eauto.
  Qed.

  Lemma implicit_run chk h n m avg cbs acc :
    Forall (fun ij => fst ij < n /\ snd ij < m) (map fst acc) -> 
    exists s0 s1 Rs O, mat_new_implicit dv h n m avg (Some cbs) Implicit = ROk s0 tt /\ run_entries chk s0 acc = ROk s1 tt /\
      ib dv s1 n m avg (osize_of n avg cbs) Rs O /\ tracks Rs O acc.
  Proof.
    intros HF. unfold mat_new_implicit.
    destruct (implicit_allocate_ib h (set_params (set_mode mat_empty Implicit) avg (Some cbs)) n m cbs) as (s0 & E0 & B0); auto.
    destruct (run_entries_track chk n m avg (osize_of n avg cbs) acc nil s0 (repeat nil n) nil B0 HF (tracks_nil n)) as (s1 & Rs & O & E1 & B1 & T1).
    simpl in T1. exists s0, s1, Rs, O. auto.
  Qed.

  Lemma implicit_finish s n m avg osize Rs O acc : ib dv s n m avg osize Rs O -> tracks Rs O acc -> 1 <= avg ->
    (buffer_suffices osize avg acc -> exists s' cols vals, compress s = ROk s' tt /\
       contig s' n m cols vals /\ jcompact s' cols /\ mover (snd s') = nil /\
       (0 < n -> mnnz (snd s') = length (concat cols)) /\
       (0 < n -> exactly (snd (nonzeroes s')) (fun ij => accessed acc (fst ij) (snd ij))) /\
       exists val, shows s' n m (accessed acc) val /\
         forall i j, accessed acc i j -> val i j = accum acc i j dv \/ val i j = accum acc i j zv) /\
    (~ buffer_suffices osize avg acc -> exists s', compress s = RThrow s' EExhausted).
  Proof.
    intros B T Havg. destruct (tracked_fits Rs O n m avg osize s acc B T) as (Hfit & HW & Hcnt).
    destruct (compress_ib s n m avg osize Rs O B Havg) as [Cok Cfail]. split.
    - intros HB. apply Hfit in HB. destruct (Cok HB) as (s' & E & CG & JC & Hn & Hov).
      set (Ws := Wrows 0 Rs O) in *.
      exists s', (map (map fst) Ws), (map (map snd) Ws). split; auto. split; auto. split; auto. split; auto.
      split; [intros Hp; rewrite (Hn Hp), concat_map_map, map_length; auto|]. split.
      { intros Hp. unfold nonzeroes. destruct s' as [h' M']. cbn [snd] in Hn.
        pose proof (Hn Hp) as HnM. destruct (Nat.eqb_spec (mnnz M') 0) as [Hz|Hz]; cbn [snd].
        - replace (total_size (mrows M')) with (length (concat Ws)); [exact Hcnt|]. rewrite <- HnM, Hz. unfold total_size.
          rewrite <- HnM in Hcnt.
          assert (HR : forall r, In r (mrows M') -> rsize r = 0).
          { intros r Hr. apply In_nth_error in Hr. destruct Hr as [i Hi].
            assert (Hil : i < length (map (map fst) Ws)).
            { rewrite (cg_len _ _ _ _ _ CG). rewrite <- (cg_nrows _ _ _ _ _ CG). eapply nth_error_lt; eauto. }
            destruct (nth_error_ex _ _ Hil) as [c Hc]. destruct (cg_rows _ _ _ _ _ CG i c Hc) as (r' & Hr' & Hs' & _).
            cbn [snd] in Hr'. rewrite Hi in Hr'. inversion Hr'; subst r'. rewrite Hs'.
            assert (Hle : length c <= length (concat (map (map fst) Ws))).
            { rewrite (concat_split _ _ _ Hc), !app_length. lia. }
            rewrite concat_map_map, map_length in Hle. lia. }
          clear - HR. induction (mrows M') as [|r t IH]; simpl; auto. rewrite (HR r (or_introl eq_refl)). apply IH. intros; apply HR; right; auto.
        - rewrite HnM. exact Hcnt. }
      exists (stored Ws). split.
      + eapply built_shows; [left; exact CG| |].
        * intros i c Hc j. rewrite nth_error_map in Hc. destruct (nth_error Ws i) as [W|] eqn:EW; [|discriminate].
          simpl in Hc. inversion Hc; subst c. apply (HW i W EW).
        * intros i c v p j x Hc Hv Hj Hx. rewrite nth_error_map in Hc, Hv. destruct (nth_error Ws i) as [W|] eqn:EW; [|discriminate].
          simpl in Hc, Hv. inversion Hc; inversion Hv; subst c v. destruct (HW i W EW) as (HS & _ & _).
          eapply stored_spec; eauto; [apply ss_nodup; auto|]. eapply combine_nth_In; eauto.
      + intros i j Hac. destruct T as [T1 T2]. destruct (proj2 (T1 i j) Hac) as [v Hv].
        assert (Hi : i < n).
        { destruct Hv as [(R & ER & _)|Ho].
          - rewrite <- (ib_len _ _ _ _ _ _ _ _ B). eapply nth_error_lt; eauto.
          - apply (ib_Ok _ _ _ _ _ _ _ _ B _ _ Ho). }
        assert (HWlen : length Ws = n) by (unfold Ws; rewrite Wrows_length; apply (ib_len _ _ _ _ _ _ _ _ B)).
        destruct (nth_error_ex Ws i ltac:(lia)) as [W EW]. destruct (HW i W EW) as (HS & HC & _).
        rewrite <- (stored_spec Ws i W j v EW (ss_nodup _ HS)); [apply T2; auto|]. apply HC. auto.
    - intros HB. apply Cfail. intros HX. apply HB. apply Hfit. exact HX.
  Qed.

  (** C04.  For every sequence of in-range accesses (and checking mode), building with at least one slot per row
      on average either succeeds, and then the finished matrix shows exactly the accessed positions, each holding
      the result of applying its accesses in order to a freshly created entry, and nonzeroes() is exact; or the
      documented exception is thrown, precisely when some row no longer fits in front of its own storage. *)
  Theorem C04_implicit_build chk h n m avg cbs acc :
    Forall (fun ij => fst ij < n /\ snd ij < m) (map fst acc) -> 1 <= avg ->
    (buffer_suffices (osize_of n avg cbs) avg acc ->
       exists s val, implicit_program chk h n m avg cbs acc = ROk s tt /\ shows s n m (accessed acc) val /\
         (forall i j, accessed acc i j -> val i j = accum acc i j dv \/ val i j = accum acc i j zv) /\
         (0 < n -> exactly (snd (nonzeroes s)) (fun ij => accessed acc (fst ij) (snd ij)))) /\
    (~ buffer_suffices (osize_of n avg cbs) avg acc ->
       exists s, implicit_program chk h n m avg cbs acc = RThrow s EExhausted).
  Proof.
    intros HF Havg. destruct (implicit_run chk h n m avg cbs acc HF) as (s0 & s1 & Rs & O & E0 & E1 & B & T).
    unfold implicit_program. rewrite E0. simpl rbind. rewrite E1. simpl rbind.
    destruct (implicit_finish s1 n m avg _ Rs O acc B T Havg) as [Hok Hbad]. split.
    - intros HB. destruct (Hok HB) as (s' & cols & vals & E & _ & _ & _ & _ & Hnz & val & Hs & Hv).
      exists s', val. auto.
    - intros HB. apply Hbad. auto.
  Qed.

  (** the buffer always suffices when no row gets more than [avg] distinct entries (so compress() cannot throw) *)
  Theorem C04_no_overflow_no_exception chk h n m avg cbs acc :
    Forall (fun ij => fst ij < n /\ snd ij < m) (map fst acc) -> 1 <= avg ->
    (forall i, i < n -> at_most avg (fun j => accessed acc i j)) ->
    exists s, implicit_program chk h n m avg cbs acc = ROk s tt.
  Proof.
    intros HF Havg Hrow. destruct (C04_implicit_build chk h n m avg cbs acc HF Havg) as [Hok _].
    destruct (implicit_run chk h n m avg cbs acc HF) as (s0 & s1 & Rs & O & E0 & E1 & B & T).
    destruct (tracked_fits Rs O n m avg _ s1 acc B T) as (Hfit & HW & _).
    destruct Hok as (s & val & E & _); [|eauto]. apply Hfit. apply fitsW_alt. intros k W HWk. right.
    assert (Hlen : forall k, length (concat (firstn k (Wrows 0 Rs O))) <= k * avg).
    { clear k W HWk. induction k as [|k IH]; [simpl; lia|].
      destruct (nth_error (Wrows 0 Rs O) k) as [W|] eqn:EW.
      - assert (EF : firstn (Datatypes.S k) (Wrows 0 Rs O) = firstn k (Wrows 0 Rs O) ++ [W]).
        { clear - EW. revert k EW. induction (Wrows 0 Rs O) as [|y t IHt]; intros k EW; destruct k; simpl in *; try discriminate.
          - inversion EW; auto.
          - f_equal. apply IHt. auto. }
        rewrite EF, concat_app, app_length. simpl. rewrite app_nil_r.
        destruct (HW k W EW) as (HS & _ & HA).
        assert (Hk : k < n). { apply nth_error_lt in EW. rewrite Wrows_length, (ib_len _ _ _ _ _ _ _ _ B) in EW. auto. }
        pose proof (Hrow k Hk (map fst W) (ss_nodup _ HS) (fun j Hj => proj1 (HA j) Hj)) as HL. rewrite map_length in HL. lia.
      - apply nth_error_None in EW. rewrite firstn_all2 in * by lia. lia. }
    specialize (Hlen (Datatypes.S k)). unfold osize_of. simpl in *. lia.
  Qed.

  (** what fails: an average of zero entries per row.  entry() accepts any access, and compress() then writes
      outside the (null) arrays instead of throwing. *)
  Theorem C04_zero_average_refuted chk h n m cbs acc :
    Forall (fun ij => fst ij < n /\ snd ij < m) (map fst acc) -> acc <> nil ->
    implicit_program chk h n m 0 cbs acc = RUB.
  Proof.
    intros HF Hne. destruct (implicit_run chk h n m 0 cbs acc HF) as (s0 & s1 & Rs & O & E0 & E1 & B & [T1 T2]).
    unfold implicit_program. rewrite E0. simpl rbind. rewrite E1. simpl rbind.
    assert (Hos : osize_of n 0 cbs = 0).
    { unfold osize_of. rewrite Nat.mul_0_r. cbn [Nat.mul]. destruct (snd cbs); [reflexivity|]. rewrite Nat.div_0_l by lia. reflexivity. }
    rewrite Hos in B. destruct s1 as [h1 M].
    assert (HR : forall R, In R Rs -> R = nil).
    { intros R Hin. apply In_nth_error in Hin. destruct Hin as [q Hq]. destruct (ib_R _ _ _ _ _ _ _ _ B q R Hq) as (HL & _).
      destruct R; auto. simpl in HL. lia. }
    assert (HO : exists key v t, O = (key, v) :: t /\ fst key < n).
    { destruct acc as [|[[i j] f] acc']; [congruence|]. destruct (proj2 (T1 i j)) as [v Hv]; [left; auto|].
      destruct Hv as [(R & ER & Hin)|Hin].
      - rewrite (HR R (nth_error_In _ _ ER)) in Hin. destruct Hin.
      - destruct O as [|[key v'] t]; [destruct Hin|]. exists key, v', t. split; auto.
        apply (ib_Ok _ _ _ _ _ _ _ _ B key v'). left. auto. }
    destruct HO as (key & v & t & EO & Hk).
    pose proof (ib_mode _ _ _ _ _ _ _ _ B) as B1. pose proof (ib_stage _ _ _ _ _ _ _ _ B) as B2.
    pose proof (ib_rows _ _ _ _ _ _ _ _ B) as B6. pose proof (ib_len _ _ _ _ _ _ _ _ B) as B9.
    pose proof (ib_J _ _ _ _ _ _ _ _ B) as B7. pose proof (ib_A _ _ _ _ _ _ _ _ B) as B8. pose proof (ib_over _ _ _ _ _ _ _ _ B) as B10.
    cbn [fst snd] in *. unfold compress. rewrite B1, B2, B6, B7, B8, B10, EO.
    assert (Hflat : forall (X : Type) (d : X) (L : list (list X)), (forall l, In l L -> l = nil) -> flat d 0 0 L = nil).
    { intros X d L HL. unfold flat. simpl. induction L as [|l L IH]; simpl; auto. rewrite (HL l (or_introl eq_refl)). simpl.
      apply IH. intros; apply HL; right; auto. }
    assert (HRm : forall (X : Type) (f : nat * V -> X) l, In l (map (map f) Rs) -> l = nil).
    { intros X f l Hl. apply in_map_iff in Hl. destruct Hl as (R & <- & Hin). rewrite (HR R Hin). auto. }
    rewrite !Hflat by (apply HRm).
    assert (Hrows : forall X (a b : X), match irows 0 0 0 Rs with nil => a | _ :: _ => b end = b).
    { intros X a b. destruct Rs; simpl in *; [lia|auto]. }
    rewrite Hrows. cbv zeta.
    assert (HUB : forall Rs (i : nat), (forall R, In R Rs -> R = nil) -> i <= fst key -> fst key < i + length Rs ->
       compress_rows i (irows 0 0 i Rs) (mkcst nil nil 0 ((key, v) :: t)) = RUB).
    { clear. induction Rs as [|R Rs IH]; intros i HR H1 H2; simpl in *; [lia|].
      rewrite (HR R (or_introl eq_refl)). simpl. destruct (Nat.eqb_spec (fst key) i) as [E|E].
      - unfold begins. rewrite Nat.mul_0_r. unfold compress_row. cbn [rj rsize seq]. unfold sort_by. cbn [fold_right copy_row rbind c_over c_pos drain_row].
        rewrite E, Nat.eqb_refl. reflexivity.
      - unfold compress_row. cbn [rj rsize seq]. unfold sort_by. cbn [fold_right copy_row rbind c_over c_pos drain_row].
        destruct (Nat.eqb_spec (fst key) i); [congruence|]. cbn [rbind]. rewrite (IH (Datatypes.S i)); auto; lia. }
    rewrite HUB by (auto; lia). reflexivity.
  Qed.

  (** what fails: a matrix without rows reports phantom nonzeros after compress() *)
  Theorem C04_empty_matrix_nonzeroes_refuted chk h m avg cbs : 1 <= avg ->
    exists s, implicit_program chk h 0 m avg cbs nil = ROk s tt /\ snd (nonzeroes s) = 4 * avg.
  Proof.
    intros Havg. destruct (implicit_run chk h 0 m avg cbs nil) as (s0 & s1 & Rs & O & E0 & E1 & B & _); [constructor|].
    unfold implicit_program. rewrite E0. simpl rbind. simpl in E1. inversion E1; subst s1. simpl rbind. clear E1; rename s0 into s1. destruct s1 as [h1 M].
    pose proof (ib_len _ _ _ _ _ _ _ _ B) as HL. destruct Rs; [|discriminate].
    pose proof (ib_mode _ _ _ _ _ _ _ _ B) as B1. pose proof (ib_stage _ _ _ _ _ _ _ _ B) as B2.
    pose proof (ib_rows _ _ _ _ _ _ _ _ B) as B6. pose proof (ib_nnz _ _ _ _ _ _ _ _ B) as Bz. cbn [fst snd irows] in *.
    unfold compress. rewrite B1, B2, B6. eexists. split; [reflexivity|]. unfold nonzeroes. cbn [mnnz set_stage set_over].
    assert (E : mnnz M = 4 * avg).
    { rewrite Bz. unfold osize_of. cbn [Nat.mul Nat.add]. destruct (snd cbs); [reflexivity|]. rewrite Nat.div_0_l by lia. reflexivity. }
    change (mnnz (set_stage (set_over M []) Built)) with (mnnz M). rewrite E. destruct (Nat.eqb_spec (4 * avg) 0); [lia|]. reflexivity.
  Qed.
End Program.

(** a program with overflow entries: it satisfies the hypotheses and runs as stated *)
Example C04_nonvacuous :
  let acc := [((0,3), fun v => v + 1); ((0,1), fun v => v + 2); ((1,0), fun v => v + 3); ((0,3), fun v => v + 4); ((0,0), fun v => v + 5)] in
  match implicit_program 0 0 true [] 2 4 1 (1, 2) acc with
  | ROk s _ => (view s, snd (nonzeroes s)) = (Some [[(0,5);(1,2);(3,5)]; [(0,3)]], 4)
  | _ => False end.
Proof. vm_compute. reflexivity. Qed.
Example C04_nonvacuous_throw :
  let acc := map (fun j => ((0, j), fun v : nat => v)) (seq 0 8) in
  match implicit_program 0 0 true [] 1 9 1 (1, 2) acc with
  | RThrow _ EExhausted => True | _ => False end.
Proof. vm_compute. exact I. Qed.
Print Assumptions C04_implicit_build.
Print Assumptions C04_no_overflow_no_exception.
Print Assumptions C04_zero_average_refuted.
Print Assumptions C04_empty_matrix_nonzeroes_refuted.
