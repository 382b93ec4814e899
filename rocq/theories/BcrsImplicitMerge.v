(** * Implicit build mode: what compress() writes *)
From Coq Require Import List Arith Bool Lia Sorted Permutation.
From Verif Require Import Sums Outcome BcrsModel BcrsSpec BcrsAux BcrsImplicit.
Import ListNotations.

Section Merge.
  Context {V : Type}.
  Notation over := (list ((nat * nat) * V)).
  Implicit Types (o : over) (E : list (nat * V)).
  Arguments Nat.ltb : simpl never.
  Arguments Nat.eqb : simpl never.
  Arguments Nat.leb : simpl never.

  (** lexicographic order of std::pair *)
  Definition klt (k k' : nat * nat) : Prop := fst k < fst k' \/ (fst k = fst k' /\ snd k < snd k').
  Lemma key_lt_spec k k' : key_lt k k' = true <-> klt k k'.
  Proof.
    unfold key_lt, klt. rewrite orb_true_iff, andb_true_iff, !Nat.ltb_lt, Nat.eqb_eq. tauto.
  Qed.
  Lemma key_lt_false k k' : key_lt k k' = false <-> ~ klt k k'.
  Proof. rewrite <- key_lt_spec. destruct (key_lt k k'); split; congruence. Qed.

  Definition osorted o : Prop := StronglySorted klt (map fst o).

  Lemma osorted_cons kv o : osorted (kv :: o) <-> osorted o /\ forall kv', In kv' o -> klt (fst kv) (fst kv').
  Proof.
    unfold osorted. simpl. split.
    - intros H. inversion H; subst. split; auto. intros kv' Hin. rewrite Forall_forall in H3. apply H3. apply in_map; auto.
    - intros [H1 H2]. constructor; auto. apply Forall_forall. intros k Hk. apply in_map_iff in Hk.
      destruct Hk as (kv' & <- & Hin). auto.
  Qed.
  Lemma osorted_app o1 o2 : osorted (o1 ++ o2) <-> osorted o1 /\ osorted o2 /\ forall a b, In a o1 -> In b o2 -> klt (fst a) (fst b).
  Proof.
    induction o1 as [|kv t IH]; simpl.
    - split; [|tauto]. intros H. repeat split; auto. constructor. intros; tauto.
    - rewrite !osorted_cons, IH. split.
      + intros ((H1 & H2 & H3) & H4). repeat split; auto.
        * intros kv' Hin. apply H4. apply in_or_app; auto.
        * intros a b [->|Ha] Hb; auto. apply H4. apply in_or_app; auto.
      + intros ((H1 & H2) & H3 & H4). split; [split; [auto|split; auto]|].
        intros kv' Hin. apply in_app_or in Hin. destruct Hin; auto.
  Qed.

  Lemma span_lt_spec b : forall o, osorted o ->
    o = fst (span_lt b o) ++ snd (span_lt b o) /\
    (forall kv, In kv (fst (span_lt b o)) -> klt (fst kv) b) /\
    (forall kv, In kv (snd (span_lt b o)) -> ~ klt (fst kv) b).
  Proof.
    induction o as [|kv t IH]; intros HS; simpl; [repeat split; tauto|].
    apply osorted_cons in HS. destruct HS as [HS HF]. destruct (key_lt (fst kv) b) eqn:EK.
    - destruct (IH HS) as (H1 & H2 & H3). destruct (span_lt b t) as [x y]. simpl in *.
      split; [congruence|]. split; auto. intros k [->|Hk]; auto. apply key_lt_spec; auto.
    - simpl. split; auto. split; [tauto|]. apply key_lt_false in EK. intros k [->|Hk]; auto.
      intros Hc. apply EK. specialize (HF k Hk). unfold klt in *. lia.
  Qed.

  Lemma span_row_spec i : forall o, osorted o -> (forall kv, In kv o -> i <= fst (fst kv)) ->
    o = fst (span_row i o) ++ snd (span_row i o) /\
    (forall kv, In kv (fst (span_row i o)) -> fst (fst kv) = i) /\
    (forall kv, In kv (snd (span_row i o)) -> i < fst (fst kv)).
  Proof.
    induction o as [|kv t IH]; intros HS HI; simpl; [repeat split; tauto|].
    apply osorted_cons in HS. destruct HS as [HS HF]. destruct (Nat.eqb_spec (fst (fst kv)) i) as [EK|EK].
    - destruct (IH HS) as (H1 & H2 & H3). { intros; apply HI; right; auto. }
      destruct (span_row i t) as [x y]. simpl in *.
      split; [congruence|]. split; auto. intros k [->|Hk]; auto.
    - simpl. split; auto. split; [tauto|]. intros k [->|Hk].
      + specialize (HI k (or_introl eq_refl)). lia.
      + specialize (HF k Hk). specialize (HI kv (or_introl eq_refl)). unfold klt in HF. lia.
  Qed.

  Lemma In_ow j v i o : (forall kv, In kv o -> fst (fst kv) = i) -> (In (j, v) (map ow o) <-> In ((i, j), v) o).
  Proof.
    intros H. rewrite in_map_iff. split.
    - intros ([[a b] w] & E & Hin). unfold ow in E. simpl in E. inversion E; subst.
      specialize (H _ Hin). simpl in H. subst. auto.
    - intros Hin. exists ((i, j), v). auto.
  Qed.

  Lemma ss_map_ow o i : osorted o -> (forall kv, In kv o -> fst (fst kv) = i) -> ssorted (map fst (map (@ow V) o)).
  Proof.
    induction o as [|kv t IH]; intros HS HI; simpl; constructor.
    - apply IH; [apply osorted_cons in HS; tauto|intros; apply HI; right; auto].
    - apply Forall_forall. intros x Hx. rewrite map_map in Hx. apply in_map_iff in Hx. destruct Hx as (kv' & <- & Hin).
      apply osorted_cons in HS. destruct HS as [_ HS]. specialize (HS _ Hin).
      pose proof (HI kv (or_introl eq_refl)). pose proof (HI kv' (or_intror Hin)). unfold klt, ow in *. simpl. lia.
  Qed.

  Lemma mergeE_spec i : forall E o,
    ssorted (map fst E) -> osorted o -> (forall kv, In kv o -> i <= fst (fst kv)) ->
    (forall xv kv, In xv E -> In kv o -> fst kv <> (i, fst xv)) ->
    exists o1, o = o1 ++ snd (mergeE i E o) /\
      (forall kv, In kv o1 -> fst (fst kv) = i) /\
      ssorted (map fst (fst (mergeE i E o))) /\
      (forall xv, In xv (fst (mergeE i E o)) <-> In xv E \/ In xv (map ow o1)) /\
      (forall kv xv, In kv (snd (mergeE i E o)) -> In xv E -> klt (i, fst xv) (fst kv)).
  Proof.
    induction E as [|xv t IH]; intros o HE HO HI HD; simpl.
    - exists nil. simpl. repeat split; try tauto.
    - inversion HE as [|? ? HE' HF]; subst. rewrite Forall_forall in HF.
      destruct (span_lt_spec (i, fst xv) o HO) as (S1 & S2 & S3).
      destruct (span_lt (i, fst xv) o) as [a b] eqn:ES. simpl in S1, S2, S3.
      rewrite S1 in HO. apply osorted_app in HO. destruct HO as (HOa & HOb & HOab).
      destruct (IH b HE' HOb) as (o1 & B1 & B2 & B3 & B4 & B5).
      { intros kv Hkv. apply HI. rewrite S1. apply in_or_app; auto. }
      { intros x kv Hx Hkv. apply HD; [right; auto|]. rewrite S1. apply in_or_app; auto. }
      destruct (mergeE i t b) as [w r] eqn:EM. simpl in *.
      assert (Ha : forall kv, In kv a -> fst (fst kv) = i /\ snd (fst kv) < fst xv).
      { intros kv Hkv. specialize (S2 kv Hkv). assert (i <= fst (fst kv)) by (apply HI; rewrite S1; apply in_or_app; auto).
        unfold klt in S2. simpl in S2. lia. }
      assert (Hb : forall kv, In kv b -> klt (i, fst xv) (fst kv)).
      { intros kv Hkv. specialize (S3 kv Hkv).
        assert (HX : fst kv <> (i, fst xv)) by (apply HD; [left; auto|rewrite S1; apply in_or_app; auto]).
        destruct (fst kv) as [p q]. unfold klt in *. simpl in *.
        destruct (Nat.eq_dec p i); [destruct (Nat.eq_dec q (fst xv)); [congruence|lia]|lia]. }
      exists (a ++ o1). split; [rewrite <- app_assoc; congruence|]. split; [|split; [|split]].
      + intros kv Hkv. apply in_app_or in Hkv. destruct Hkv as [Hkv|Hkv]; auto. apply Ha; auto.
      + rewrite map_app. simpl.
        assert (Hw : forall y, In y (map fst w) -> fst xv < y).
        { intros y Hy. apply in_map_iff in Hy. destruct Hy as (z & <- & Hz). apply B4 in Hz. destruct Hz as [Hz|Hz].
          - apply HF. apply in_map; auto.
          - apply in_map_iff in Hz. destruct Hz as (kv & <- & Hkv).
            assert (In kv b) by (rewrite B1; apply in_or_app; auto). specialize (Hb kv H). specialize (B2 kv Hkv).
            unfold klt, ow in *. simpl in *. lia. }
        apply ss_app.
        * apply (ss_map_ow a i); auto. intros; apply Ha; auto.
        * constructor; auto. apply Forall_forall. auto.
        * intros x y Hx Hy. rewrite map_map in Hx. apply in_map_iff in Hx. destruct Hx as (kv & <- & Hkv).
          destruct (Ha kv Hkv) as [_ Hlt]. unfold ow. simpl. destruct Hy as [<-|Hy]; auto. specialize (Hw y Hy). lia.
      + intros x. rewrite in_app_iff, map_app, in_app_iff. simpl. rewrite B4. tauto.
      + intros kv x Hkv [->|Hx]; auto. apply Hb. rewrite B1. apply in_or_app; auto.
  Qed.

  Lemma rowW_spec i (R : list (nat * V)) o :
    NoDup (map fst R) -> osorted o -> (forall kv, In kv o -> i <= fst (fst kv)) ->
    (forall xv kv, In xv R -> In kv o -> fst kv <> (i, fst xv)) ->
    ssorted (map fst (fst (rowW i R o))) /\
    (forall j v, In (j, v) (fst (rowW i R o)) <-> In (j, v) R \/ In ((i, j), v) o) /\
    osorted (snd (rowW i R o)) /\
    (forall kv, In kv (snd (rowW i R o)) <-> In kv o /\ i < fst (fst kv)).
  Proof.
    intros HN HO HI HD.
    assert (HR : forall xv, In xv (sortE R) <-> In xv R).
    { intros xv. split; apply Permutation_in; [apply sortE_perm|apply Permutation_sym, sortE_perm]. }
    destruct (mergeE_spec i (sortE R) o (sortE_sorted R HN) HO HI) as (o1 & M1 & M2 & M3 & M4 & M5).
    { intros xv kv Hx. apply HD. apply HR; auto. }
    unfold rowW. destruct (mergeE i (sortE R) o) as [w r1] eqn:EM. simpl in *.
    rewrite M1 in HO. pose proof HO as HO'. apply osorted_app in HO'. destruct HO' as (HO1 & HO2 & HO12).
    destruct (span_row_spec i r1 HO2) as (S1 & S2 & S3).
    { intros kv Hkv. apply HI. rewrite M1. apply in_or_app; auto. }
    destruct (span_row i r1) as [o2 r] eqn:ES. simpl in *.
    pose proof HO2 as HO2'. rewrite S1 in HO2'. apply osorted_app in HO2'. destruct HO2' as (HO3 & HO4 & HO34).
    split; [|split; [|split]]; auto.
    - rewrite map_app. apply ss_app; auto.
      + apply (ss_map_ow o2 i); auto.
      + intros x y Hx Hy. rewrite map_map in Hy. apply in_map_iff in Hy. destruct Hy as (kv & <- & Hkv).
        assert (Hk1 : In kv r1) by (rewrite S1; apply in_or_app; auto).
        pose proof (S2 kv Hkv) as Hi. apply in_map_iff in Hx. destruct Hx as (z & <- & Hz). apply M4 in Hz.
        destruct Hz as [Hz|Hz].
        * specialize (M5 kv z Hk1 Hz). unfold klt, ow in *. simpl in *. lia.
        * apply in_map_iff in Hz. destruct Hz as (kv' & <- & Hkv'). specialize (HO12 kv' kv Hkv' Hk1).
          specialize (M2 kv' Hkv'). unfold klt, ow in *. simpl in *. lia.
    - intros j v. rewrite in_app_iff, M4, HR. rewrite (In_ow j v i o1 M2), (In_ow j v i o2 S2).
      rewrite M1, in_app_iff. rewrite S1, in_app_iff. split; [tauto|].
      intros [H|[H|[H|H]]]; auto. specialize (S3 _ H). simpl in S3. lia.
    - intros kv. rewrite M1, S1, !in_app_iff. split.
      + intros H. split; auto.
      + intros [[H|[H|H]] Hlt]; auto.
        * specialize (M2 _ H). lia.
        * specialize (S2 _ H). lia.
  Qed.

  Lemma Wrows_length : forall Rs i o, length (@Wrows V i Rs o) = length Rs.
  Proof. induction Rs; intros; simpl; auto. Qed.

  Lemma Wrows_spec : forall Rs i o,
    (forall k R, nth_error Rs k = Some R -> NoDup (map fst R) /\
       forall xv kv, In xv R -> In kv o -> fst kv <> (i + k, fst xv)) ->
    osorted o -> (forall kv, In kv o -> i <= fst (fst kv)) ->
    forall k W, nth_error (Wrows i Rs o) k = Some W ->
    exists R, nth_error Rs k = Some R /\ ssorted (map fst W) /\
      forall j v, In (j, v) W <-> In (j, v) R \/ In ((i + k, j), v) o.
  Proof.
    induction Rs as [|R t IH]; intros i o HR HO HI k W HW; [destruct k; discriminate|]. simpl in HW.
    destruct (HR 0 R eq_refl) as [HN HD]. rewrite Nat.add_0_r in HD.
    destruct (rowW_spec i R o HN HO HI HD) as (A1 & A2 & A3 & A4).
    destruct k as [|k]; simpl in HW.
    - inversion HW; subst W. exists R. rewrite Nat.add_0_r. auto.
    - destruct (IH (S i) (snd (rowW i R o))) with (k := k) (W := W) as (R' & B1 & B2 & B3); auto.
      + intros k' R' Hk'. destruct (HR (S k') R' Hk') as [H1 H2]. split; auto.
        intros xv kv Hx Hkv. apply A4 in Hkv. destruct Hkv. specialize (H2 xv kv Hx H). rewrite Nat.add_succ_r in H2. exact H2.
      + intros kv Hkv. apply A4 in Hkv. lia.
      + exists R'. split; auto. split; auto. intros j v. rewrite B3, A4. simpl. rewrite Nat.add_succ_r. split.
        * intros [H|[H _]]; auto.
        * intros [H|H]; auto. right. split; auto. lia.
  Qed.
End Merge.
