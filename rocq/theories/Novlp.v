(** * NonoverlappingSchwarzOperator (dune/istl/novlpschwarz.hh:61-262): C46 *)
From Coq Require Import Arith List Lia Bool Sorted Permutation ZArith.
From Verif Require Import Ring RingInst Sums Outcome Sparse MatVec Parallel ParComm ParOps.
Import ListNotations.
Open Scope nat_scope.

Section Novlp.
  Context {R : ring}.
  Local Open Scope ring_scope_istl.
  Variables (P : nat) (ix : nat -> pis).
  Section Local.
  Variable p : nat.      (* this process *)
  Variable A : smat R.
  (** mask, novlpschwarz.hh:137-147: 1 by default, 0 for copies, 2 for overlap *)
  Fixpoint nmask_set (s : pis) (m : list nat) : outcome (list nat) :=
    match s with
    | nil => Ok m
    | e :: t => match e_a e with
                | Owner => nmask_set t m
                | Copy => if e_l e <? length m then nmask_set t (upd m (e_l e) 0) else UB
                | Overlap => if e_l e <? length m then nmask_set t (upd m (e_l e) 2) else UB
                end
    end.
  Variable mask : list nat.
  Definition mk (i : nat) : nat := nth i mask 1.
  (** rimap restricted to key i, :154-170: (process, attribute there) for each remote index entry of local index i that is not overlap there.  Only rows with mask 0 have entries. *)
  Definition rimap (i : nat) : list (nat * attr) :=
    if (i <? length A) && (mk i =? 0) then
      flat_map (fun q => if q =? p then [] else
        map (fun r => (q, snd r)) (filter (fun r => negb (attr_eqb (snd r) Overlap) && (e_l (fst r) =? i)) (remote_list (ix p) (ix q)))) (seq 0 P)
    else [].
  (** owner.find(i)->second, :167-168, 175-176; the first insertion wins *)
  Definition iowner (i : nat) : option nat := option_map fst (find (fun c => attr_eqb (snd c) Owner) (rimap i)).
  (** :180-190; after [flag = false] the loops only [continue] *)
  Definition border_flag (io i j : nat) : bool :=
    negb (existsb (fun fi => existsb (fun fj => (fst fj =? fst fi) && (attr_eqb (snd fj) Owner || (fst fj =? io) || (fst fj <? p))) (rimap j)) (rimap i)).
  (** bordercontribution, :172-203.  Dereferencing owner.find(i) == end() is UB *)
  Fixpoint border (i : nat) (rows : smat R) : outcome (list (nat * nat)) :=
    match rows with
    | nil => Ok nil
    | row :: t => if mk i =? 0 then
                    match iowner i with
                    | None => UB
                    | Some io => obind (border (S i) t) (fun b => Ok (map (fun c => (i, fst c)) (filter (fun c => (mk (fst c) =? 0) && border_flag io i (fst c)) row) ++ b))
                    end
                  else border (S i) t
    end.
  (** :209-231, row i.  Every row only changes y[i]; simplification: computed row by row. *)
  Definition novlp_row (b : list (nat * nat)) (alpha : R) (x : vec R) (i : nat) (row : srow R) (yi : R) : R :=
    fold_left (fun yi c => let j := fst c in let t := alpha * (snd c * vget x j) in
      if mk i =? 0 then
        if mk j =? 1 then yi + t
        else if mk j =? 0 then fold_left (fun yi it => if snd it =? j then yi + t else yi) (filter (fun it => fst it =? i) b) yi
        else yi
      else if mk i =? 1 then (if mk j =? 2 then yi else yi + t)
      else yi) row yi.
  End Local.
  (** novlp_op_apply, novlpschwarz.hh:126-232, first call (later calls reuse mask and bordercontribution, which only depend on the index sets and the pattern) *)
  Definition novlp_op_apply (p : nat) (A : smat R) (alpha : R) (x y : vec R) : outcome (vec R) :=
    obind (nmask_set (ix p) (repeat 1 (length x))) (fun mask =>
    obind (border p A mask 0 A) (fun b =>
    Ok (map (fun c => novlp_row mask b alpha x (fst c) (fst (snd c)) (snd (snd c))) (combine (seq 0 (length A)) (combine A y))))).
  (** apply, :101-106 and applyscaleadd, :109-118: the part before the communication *)
  Definition novlp_local (p : nat) (A : smat R) (alpha : R) (x y : vec R) : outcome (vec R) := novlp_op_apply p A alpha x (map (fun _ => r0) y).

  (** ** Who contributes A_gh x_h to row g *)
  Definition atp (p g : nat) : option attr := option_map e_a (lookup (ix p) g).
  Definition nonov (p g : nat) : bool := match atp p g with Some Owner | Some Copy => true | _ => false end.
  Definition owns (p g : nat) : bool := match atp p g with Some Owner => true | _ => false end.
  Definition W (p g h : nat) : bool :=
    nonov p g && nonov p h && (owns p g || owns p h || negb (existsb (fun q => negb (q =? p) && nonov q g && nonov q h && (owns q h || owns q g || (q <? p))) (seq 0 P))).

  Lemma nonov_owns p g : owns p g = true -> nonov p g = true.
  Proof. unfold owns, nonov. destruct (atp p g) as [[]|]; auto. Qed.
  (** exactly one process contributes, if the owner of g does not hold h while another owner of h holds g *)
  Lemma one_contributor g h : (forall p q, p < P -> q < P -> owns p g = true -> owns q g = true -> p = q) -> (forall p q, p < P -> q < P -> owns p h = true -> owns q h = true -> p = q) ->
    (forall p q, p < P -> q < P -> owns p g = true -> nonov p h = true -> owns q h = true -> nonov q g = true -> p = q) ->
    (exists p, p < P /\ nonov p g = true /\ nonov p h = true) -> exists p, p < P /\ W p g h = true /\ forall q, q < P -> q <> p -> W q g h = false.
  Proof.
    intros UG UH UX [p0 [Hp0 [N1 N2]]].
    assert (REST : forall p, p < P -> (owns p g = true \/ owns p h = true) -> nonov p g = true -> nonov p h = true -> exists p, p < P /\ W p g h = true /\ forall q, q < P -> q <> p -> W q g h = false).
    { intros p Hp HO G1 G2. exists p. split; auto. split.
      - unfold W. rewrite G1, G2. destruct HO as [->| ->]; cbn [andb orb]; rewrite ?orb_true_r; reflexivity.
      - intros q Hq Hn. unfold W. destruct (nonov q g) eqn:Q1; cbn [andb]; auto. destruct (nonov q h) eqn:Q2; cbn [andb]; auto.
        assert (OG : owns q g = false).
        { destruct (owns q g) eqn:E; auto. exfalso. apply Hn. destruct HO as [HO|HO]; [apply UG; auto|apply (UX q p); auto]. }
        assert (OH : owns q h = false).
        { destruct (owns q h) eqn:E; auto. exfalso. apply Hn. destruct HO as [HO|HO]; [symmetry; apply (UX p q); auto|apply UH; auto]. }
        rewrite OG, OH. cbn [orb]. apply negb_false_iff. apply existsb_exists. exists p. split; [apply in_seq; lia|]. rewrite G1, G2. destruct (Nat.eqb_spec p q); [congruence|]. cbn [negb andb]. destruct HO as [->| ->]; cbn [orb]; rewrite ?orb_true_r; reflexivity. }
    destruct (find_or_all (fun p => nonov p g && nonov p h && (owns p g || owns p h)) (seq 0 P)) as [[p [H1 H2]]|HN].
    - apply in_seq in H1. apply andb_true_iff in H2. destruct H2 as [H2 H3]. apply andb_true_iff in H2. apply orb_true_iff in H3. apply (REST p); tauto || lia.
    - (* nobody owning g or h holds both: the smallest process holding both *)
      assert (MIN : exists m, m < P /\ nonov m g && nonov m h = true /\ forall q, q < m -> nonov q g && nonov q h = false).
      { clear - Hp0 N1 N2. assert (N : nonov p0 g && nonov p0 h = true) by (rewrite N1, N2; auto). clear N1 N2. revert Hp0 N. induction p0 as [p0 IH] using lt_wf_ind. intros Hp N.
        destruct (find_or_all (fun q => nonov q g && nonov q h) (seq 0 p0)) as [[q [Q1 Q2]]|Q]; [apply in_seq in Q1; apply (IH q); auto; lia|]. exists p0. repeat split; auto. intros q Hq. apply Q. apply in_seq. lia. }
      destruct MIN as [m [Hm [M1 M2]]].
      assert (NO : forall q, q < P -> nonov q g && nonov q h = true -> owns q g = false /\ owns q h = false).
      { intros q Hq N. specialize (HN q ltac:(apply in_seq; lia)). cbn beta in HN. rewrite N in HN. cbn [andb] in HN. apply orb_false_iff in HN. auto. }
      exists m. split; auto. split.
      + unfold W. rewrite M1. destruct (NO m Hm M1) as [-> ->]. cbn [andb orb]. apply negb_true_iff. apply not_true_is_false. intros HE. apply existsb_exists in HE. destruct HE as [q [Q1 Q2]]. apply in_seq in Q1.
        apply andb_true_iff in Q2. destruct Q2 as [Q2 Q3]. apply andb_true_iff in Q2. destruct Q2 as [Q2 Q4]. apply andb_true_iff in Q2. destruct Q2 as [Q2 Q5].
        assert (N : nonov q g && nonov q h = true) by (rewrite Q4, Q5; auto). destruct (NO q ltac:(lia) N) as [E1 E2]. rewrite E1, E2 in Q3. cbn [orb] in Q3. apply Nat.ltb_lt in Q3. rewrite M2 in N by auto. discriminate.
      + intros q Hq Hn. unfold W. destruct (nonov q g && nonov q h) eqn:N; auto. destruct (NO q Hq N) as [-> ->]. cbn [andb orb]. apply negb_false_iff. apply existsb_exists. exists m. split; [apply in_seq; lia|].
        apply andb_true_iff in M1. destruct M1 as [-> ->]. destruct (Nat.eqb_spec m q); [congruence|]. cbn [negb andb]. assert (m < q). { destruct (Nat.lt_ge_cases m q); auto. rewrite M2 in N by lia. discriminate. }
        apply Nat.ltb_lt in H. rewrite H, !orb_true_r. reflexivity.
  Qed.

  (** ** the model computes these contributions *)
  Section OneProcess.
  Variables (p n : nat) (A : smat R).
  Hypothesis Hp : p < P.
  Hypothesis WF : forall q, q < P -> StronglySorted lt (map e_g (ix q)).
  Hypothesis WFp : pis_wf n (ix p).
  Hypothesis HA : mat_wf n n A.
  Hypothesis OWN : forall g l, holds ix p g l Copy -> exists q, q < P /\ owns q g = true.
  Hypothesis UNI : forall q r g, q < P -> r < P -> owns q g = true -> owns r g = true -> q = r.
  Lemma atp_holds q g a : q < P -> atp q g = Some a <-> exists l, holds ix q g l a.
  Proof.
    intros Hq. unfold atp, holds. split.
    - destruct (lookup (ix q) g) as [[g' l a']|] eqn:E; [|discriminate]. cbn. intros EE. injection EE as <-. apply (lookup_spec _ _ _ (WF q Hq)) in E. destruct E as [E1 E2]. cbn in E2. subst g'. eauto.
    - intros [l H]. rewrite (proj2 (lookup_spec (ix q) g (mke g l a) (WF q Hq))) by (split; auto). reflexivity.
  Qed.
  Definition mval (a : attr) : nat := match a with Owner => 1 | Copy => 0 | Overlap => 2 end.
  Lemma nmask_spec s : forall m : list nat, NoDup (map e_l s) -> Forall (fun e => e_l e < length m) s -> (forall e, In e s -> nth (e_l e) m 1 = 1) ->
    exists m', nmask_set s m = Ok m' /\ length m' = length m /\ (forall g l a, In (mke g l a) s -> nth l m' 1 = mval a) /\ (forall l, ~ In l (map e_l s) -> nth l m' 1 = nth l m 1).
  Proof.
    induction s as [|[g l a] t IH]; intros m HN HF H1; cbn [nmask_set e_a e_l].
    - exists m. repeat split; auto. intros g l a [].
    - cbn [map e_l] in HN. inversion HN as [|? ? N1 N2]. inversion HF as [|? ? F1 F2]. cbn [e_l] in F1.
      assert (STEP : forall v, v = mval a -> (a = Owner -> v = 1) -> exists m', nmask_set t (if attr_eqb a Owner then m else upd m l v) = Ok m' /\ length m' = length m /\ (forall g' l' a', In (mke g' l' a') (mke g l a :: t) -> nth l' m' 1 = mval a') /\
                       (forall l', ~ In l' (map e_l (mke g l a :: t)) -> nth l' m' 1 = nth l' m 1)).
      { intros v Hv HO. set (m1 := if attr_eqb a Owner then m else upd m l v). assert (L1 : length m1 = length m) by (unfold m1; destruct (attr_eqb a Owner); auto; apply upd_length).
        assert (V1 : nth l m1 1 = v). { unfold m1. destruct a; cbn [attr_eqb]; try (apply nth_upd_eq; auto). rewrite HO by auto. apply (H1 (mke g l Owner)). left; auto. }
        assert (V2 : forall k, k <> l -> nth k m1 1 = nth k m 1). { intros k Hk. unfold m1. destruct (attr_eqb a Owner); auto. apply nth_upd_ne. congruence. }
        destruct (IH m1 N2) as (m' & E & L & M1 & M2).
        { rewrite L1. auto. } { intros e He. rewrite V2; [apply H1; right; auto|]. intros E. apply N1. rewrite <- E. apply in_map; auto. }
        exists m'. split; auto. split; [congruence|]. split.
        - intros g' l' a' [HI|HI]; [|apply (M1 g' l' a' HI)]. injection HI as <- <- <-. rewrite M2 by auto. congruence.
        - intros l' Hl. cbn [map e_l In] in Hl. rewrite M2 by tauto. apply V2. intros ->. apply Hl. auto. }
      destruct a; cbn [attr_eqb mval] in STEP.
      + destruct (STEP 1) as (m' & E & HR); auto. exists m'. auto.
      + destruct (Nat.ltb_spec l (length m)); [|lia]. destruct (STEP 2) as (m' & E & HR); auto; [discriminate|]. exists m'. auto.
      + destruct (Nat.ltb_spec l (length m)); [|lia]. destruct (STEP 0) as (m' & E & HR); auto; [discriminate|]. exists m'. auto.
  Qed.
  Lemma pos_inj g l a g2 a2 : holds ix p g l a -> holds ix p g2 l a2 -> g = g2 /\ a = a2.
  Proof.
    unfold holds. intros H1 H2. destruct WFp as (_ & W2 & _). enough (E : mke g l a = mke g2 l a2) by (injection E as -> ->; auto). clear - W2 H1 H2. induction (ix p) as [|b t IH]; [destruct H1|]. cbn [map] in W2. inversion W2 as [|? ? N1 N2].
    destruct H1 as [->|H1], H2 as [H2|H2]; auto.
    - exfalso. apply N1. apply (in_map e_l) in H2. exact H2.
    - exfalso. apply N1. subst b. apply (in_map e_l) in H1. exact H1.
  Qed.
  Variable mask : list nat.
  Hypothesis MK : forall g l a, holds ix p g l a -> mk mask l = mval a.
  Hypothesis MK1 : forall l, (forall g a, ~ holds ix p g l a) -> mk mask l = 1.
  Lemma in_remote_list sq e a : StronglySorted lt (map e_g sq) -> In (e, a) (remote_list (ix p) sq) <-> In e (ix p) /\ exists e', In e' sq /\ e_g e' = e_g e /\ e_a e' = a.
  Proof.
    intros HS. unfold remote_list. rewrite in_flat_map. split.
    - intros [e0 [H1 H2]]. destruct (lookup sq (e_g e0)) as [e'|] eqn:E; [|destruct H2]. destruct H2 as [H2|[]]. injection H2 as <- <-. apply (lookup_spec _ _ _ HS) in E. split; auto. exists e'. tauto.
    - intros [H1 [e' [H2 [H3 H4]]]]. exists e. split; auto. rewrite (proj2 (lookup_spec sq (e_g e) e' HS)) by auto. left. congruence.
  Qed.
  Lemma holds_lt g l a : holds ix p g l a -> l < n.
  Proof. intros H. destruct WFp as (_ & _ & W3). rewrite Forall_forall in W3. apply (W3 (mke g l a) H). Qed.
  Lemma in_rimap g l q a : holds ix p g l Copy -> In (q, a) (rimap p A mask l) <-> q < P /\ q <> p /\ atp q g = Some a /\ a <> Overlap.
  Proof.
    intros HH. unfold rimap. pose proof (holds_lt g l Copy HH) as Hl. rewrite (MK g l Copy HH), (proj1 HA). destruct (Nat.ltb_spec l n); [|lia]. cbn [mval andb Nat.eqb]. rewrite in_flat_map. split.
    - intros [q' [H1 H2]]. apply in_seq in H1. destruct (Nat.eqb_spec q' p) as [|Hn]; [destruct H2|]. apply in_map_iff in H2. destruct H2 as [[e a'] [E H2]]. cbn [snd] in E. injection E as -> ->. apply filter_In in H2. destruct H2 as [H2 H3]. cbn [fst snd] in H3.
      apply andb_true_iff in H3. destruct H3 as [H3 H4]. apply Nat.eqb_eq in H4. apply in_remote_list in H2; [|apply WF; lia]. destruct H2 as [H2 [[g' l' a''] [H5 [H6 H7]]]]. cbn in H6, H7. subst a''.
      assert (EG : e_g e = g). { destruct e as [ge le ae]. cbn [e_l e_g] in *. subst le. destruct (pos_inj ge l ae g Copy H2 HH); auto. }
      split; [lia|]. split; auto. split; [|intros ->; discriminate]. apply atp_holds; [lia|]. exists l'. unfold holds. rewrite <- EG, <- H6. exact H5.
    - intros (H1 & H2 & H3 & H4). exists q. split; [apply in_seq; lia|]. destruct (Nat.eqb_spec q p); [congruence|]. apply in_map_iff. exists (mke g l Copy, a). split; auto. apply filter_In. split.
      + apply in_remote_list; [apply WF; auto|]. split; [exact HH|]. apply atp_holds in H3; auto. destruct H3 as [l' H3]. exists (mke g l' a). auto.
      + cbn [fst snd e_l]. rewrite Nat.eqb_refl. destruct a; try reflexivity. exfalso; apply H4; reflexivity.
  Qed.
  Lemma iowner_spec g l : holds ix p g l Copy -> exists io, iowner p A mask l = Some io /\ io < P /\ owns io g = true.
  Proof.
    intros HH. destruct (OWN g l HH) as [q [Hq HO]]. assert (HO' : atp q g = Some Owner) by (unfold owns in HO; destruct (atp q g) as [[]|]; auto; discriminate).
    assert (Hn : q <> p). { intros ->. assert (atp p g = Some Copy) by (apply atp_holds; eauto). congruence. }
    assert (HI : In (q, Owner) (rimap p A mask l)) by (apply (in_rimap g l q Owner HH); repeat split; auto; discriminate).
    unfold iowner. destruct (find (fun c => attr_eqb (snd c) Owner) (rimap p A mask l)) as [[r a]|] eqn:E.
    - apply find_some in E. destruct E as [E1 E2]. cbn [snd] in E2. destruct a; try discriminate. apply (in_rimap g l r Owner HH) in E1. exists r. cbn. repeat split; try tauto. unfold owns. destruct E1 as (_ & _ & -> & _). reflexivity.
    - apply (find_none _ _ E) in HI. discriminate.
  Qed.
  Lemma nonov_at q g : nonov q g = true <-> exists a, atp q g = Some a /\ a <> Overlap.
  Proof.
    unfold nonov. destruct (atp q g) as [[]|]; split.
    - eexists. split; [reflexivity|discriminate].
    - reflexivity.
    - discriminate.
    - intros [a [E Ha]]. congruence.
    - eexists. split; [reflexivity|discriminate].
    - reflexivity.
    - discriminate.
    - intros [a [E Ha]]. congruence.
  Qed.
  Lemma flag_spec io g l h l' : holds ix p g l Copy -> holds ix p h l' Copy -> io < P -> owns io g = true ->
    border_flag p A mask io l l' = W p g h.
  Proof.
    intros H1 H2 Hio HO.
    assert (A1 : atp p g = Some Copy) by (apply atp_holds; eauto). assert (A2 : atp p h = Some Copy) by (apply atp_holds; eauto).
    unfold W. replace (nonov p g) with true by (unfold nonov; rewrite A1; auto). replace (nonov p h) with true by (unfold nonov; rewrite A2; auto). unfold owns at 1 2. rewrite A1, A2. cbn [andb orb].
    unfold border_flag. f_equal. apply eq_true_iff_eq. rewrite !existsb_exists. split.
    - intros [[q a] [I1 E1]]. cbn [fst] in E1. apply existsb_exists in E1. destruct E1 as [[q' b] [I2 E2]]. cbn [fst snd] in E2. apply andb_true_iff in E2. destruct E2 as [E2 E3]. apply Nat.eqb_eq in E2. subst q'.
      apply (in_rimap g l q a H1) in I1. apply (in_rimap h l' q b H2) in I2. destruct I1 as (J1 & J2 & J3 & J4). destruct I2 as (K1 & K2 & K3 & K4). exists q. split; [apply in_seq; lia|].
      destruct (Nat.eqb_spec q p); [congruence|]. replace (nonov q g) with true by (symmetry; apply nonov_at; eauto). replace (nonov q h) with true by (symmetry; apply nonov_at; eauto). cbn [negb andb].
      apply orb_true_iff in E3. destruct E3 as [E3|E3]; [|rewrite E3, !orb_true_r; auto]. apply orb_true_iff in E3. destruct E3 as [E3|E3].
      + destruct b; try discriminate. unfold owns at 1. rewrite K3. reflexivity.
      + apply Nat.eqb_eq in E3. subst q. rewrite HO, !orb_true_r. reflexivity.
    - intros [q [I1 E1]]. apply in_seq in I1. apply andb_true_iff in E1. destruct E1 as [E1 E2]. apply andb_true_iff in E1. destruct E1 as [E1 E3]. apply andb_true_iff in E1. destruct E1 as [E1 E4].
      apply negb_true_iff, Nat.eqb_neq in E1. apply nonov_at in E3, E4. destruct E4 as [a [J1 J2]]. destruct E3 as [b [K1 K2]]. exists (q, a). split; [apply (in_rimap g l q a H1); repeat split; auto; lia|].
      apply existsb_exists. exists (q, b). split; [apply (in_rimap h l' q b H2); repeat split; auto; lia|]. cbn [fst snd]. rewrite Nat.eqb_refl. cbn [andb].
      apply orb_true_iff in E2. destruct E2 as [E2|E2]; [|rewrite E2, !orb_true_r; auto]. apply orb_true_iff in E2. destruct E2 as [E2|E2].
      + unfold owns in E2. rewrite K1 in E2. destruct b; try discriminate. reflexivity.
      + replace io with q by (apply (UNI q io g); auto; lia). rewrite Nat.eqb_refl, !orb_true_r. reflexivity.
  Qed.
  (** contribution flag between two local positions *)
  Definition wloc (i j : nat) : bool :=
    if mk mask i =? 0 then (mk mask j =? 1) || ((mk mask j =? 0) && match iowner p A mask i with Some io => border_flag p A mask io i j | None => false end)
    else (mk mask i =? 1) && negb (mk mask j =? 2).
  Hypothesis COV : forall l, l < n -> exists g a, holds ix p g l a.
  Lemma wloc_W g l a h l' b : holds ix p g l a -> holds ix p h l' b -> wloc l l' = W p g h.
  Proof.
    intros H1 H2. unfold wloc. rewrite (MK g l a H1), (MK h l' b H2).
    assert (A1 : atp p g = Some a) by (apply atp_holds; eauto). assert (A2 : atp p h = Some b) by (apply atp_holds; eauto).
    destruct a; cbn [mval Nat.eqb].
    - unfold W, nonov, owns at 1 2. rewrite A1, A2. destruct b; cbn; reflexivity.
    - unfold W, nonov, owns at 1 2. rewrite A1, A2. destruct b; cbn; reflexivity.
    - destruct b; cbn [mval Nat.eqb andb orb].
      + unfold W, nonov, owns at 1 2. rewrite A1, A2. cbn. reflexivity.
      + unfold W, nonov, owns at 1 2. rewrite A1, A2. cbn. reflexivity.
      + destruct (iowner_spec g l H1) as (io & E & I1 & I2). rewrite E. apply (flag_spec io g l h l'); auto.
  Qed.
  Lemma border_ok rows i : rows = skipn i A -> exists bc, border p A mask i rows = Ok bc /\
    forall k, filter (fun it => fst it =? k) bc =
      if (i <=? k) && (k <? n) && (mk mask k =? 0) then map (fun c => (k, fst c)) (filter (fun c => (mk mask (fst c) =? 0) && match iowner p A mask k with Some io => border_flag p A mask io k (fst c) | None => false end) (nth k A nil)) else [].
  Proof.
    revert i. induction rows as [|row t IH]; intros i Hr; cbn [border].
    - exists []. split; auto. intros k. assert (length A <= i). { assert (E : length (skipn i A) = 0) by (rewrite <- Hr; reflexivity). rewrite skipn_length in E. lia. } rewrite (proj1 HA) in H.
      cbn [filter]. destruct (Nat.leb_spec i k); cbn [andb]; auto. destruct (Nat.ltb_spec k n); [lia|reflexivity].
    - assert (Hi : i < length A). { assert (E : length (skipn i A) = S (length t)) by (rewrite <- Hr; reflexivity). rewrite skipn_length in E. lia. }
      assert (Ht : t = skipn (S i) A /\ row = nth i A nil).
      { clear - Hr Hi. revert i Hr Hi. induction A as [|r A' IH]; intros i Hr Hi; [cbn in Hi; lia|]. destruct i as [|i]; [cbn in Hr; injection Hr as -> ->; auto|]. cbn [skipn nth] in *. apply IH; auto. cbn in Hi. lia. }
      destruct Ht as [Ht ->]. destruct (IH (S i) Ht) as (bc & E & F). rewrite (proj1 HA) in Hi. destruct (Nat.eqb_spec (mk mask i) 0) as [M|M].
      + destruct (COV i Hi) as [g [a HH]]. assert (a = Copy) by (pose proof (MK g i a HH) as E'; rewrite M in E'; destruct a; auto; discriminate). subst a. destruct (iowner_spec g i HH) as (io & EI & _). rewrite EI, E. cbn [obind]. eexists. split; [reflexivity|]. intros k.
        rewrite filter_app, F.
        assert (FM : forall L : srow R, filter (fun it => fst it =? k) (map (fun c => (i, fst c)) L) = if i =? k then map (fun c => (i, fst c)) L else []).
        { induction L as [|c L IHL]; cbn [map filter fst]; [destruct (i =? k); auto|]. rewrite IHL. destruct (i =? k); reflexivity. }
        rewrite FM. clear FM. destruct (Nat.eqb_spec i k) as [EQ|Hn]; [rewrite <- EQ; clear k EQ|].
        * destruct (Nat.leb_spec (S i) i); [lia|]. cbn [andb]. rewrite app_nil_r. destruct (Nat.leb_spec i i); [|lia]. destruct (Nat.ltb_spec i n); [|lia]. rewrite M. cbn [andb Nat.eqb]. rewrite EI. reflexivity.
        * cbn [app]. replace (S i <=? k) with (i <=? k) by (destruct (Nat.leb_spec i k), (Nat.leb_spec (S i) k); auto; lia). reflexivity.
      + exists bc. split; auto. intros k. rewrite F. destruct (Nat.eq_dec i k) as [EQ|Hn]; [rewrite <- EQ; clear k EQ|].
        * destruct (Nat.leb_spec (S i) i); [lia|]. cbn [andb]. destruct (Nat.eqb_spec (mk mask i) 0); [congruence|]. rewrite andb_false_r. reflexivity.
        * replace (S i <=? k) with (i <=? k) by (destruct (Nat.leb_spec i k), (Nat.leb_spec (S i) k); auto; lia). reflexivity.
  Qed.
  Lemma count_once (L : srow R) i j (t yi : R) : NoDup (map fst L) ->
    fold_left (fun yi (it : nat * nat) => if snd it =? j then yi + t else yi) (map (fun c => (i, fst c)) L) yi = if existsb (fun c => fst c =? j) L then yi + t else yi.
  Proof.
    revert yi. induction L as [|c L IH]; intros yi HN; cbn [map fold_left existsb snd fst]; auto. cbn [map] in HN. inversion HN as [|? ? N1 N2]. rewrite IH by auto. destruct (Nat.eqb_spec (fst c) j) as [E|E]; cbn [orb]; auto.
    replace (existsb (fun c0 => fst c0 =? j) L) with false; auto. symmetry. apply not_true_is_false. intros HE. apply existsb_exists in HE. destruct HE as [c' [HI HE]]. apply Nat.eqb_eq in HE. apply N1. rewrite E, <- HE. apply in_map; auto.
  Qed.
  Lemma filter_map_fst_NoDup (f : nat * R -> bool) (L : srow R) : NoDup (map fst L) -> NoDup (map fst (filter f L)).
  Proof.
    induction L as [|c L IH]; cbn [map filter]; auto. intros H. inversion H as [|? ? N1 N2]. destruct (f c); cbn [map]; auto. constructor; auto. intros HI. apply N1. apply in_map_iff in HI. destruct HI as [c' [<- HI]]. apply filter_In in HI. apply in_map. tauto.
  Qed.
  Lemma row_value (bc : list (nat * nat)) alpha (x : vec R) i yi : i < n -> length x = n ->
    (forall k, filter (fun it => fst it =? k) bc =
      if (0 <=? k) && (k <? n) && (mk mask k =? 0) then map (fun c => (k, fst c)) (filter (fun c => (mk mask (fst c) =? 0) && match iowner p A mask k with Some io => border_flag p A mask io k (fst c) | None => false end) (nth k A nil)) else []) ->
    novlp_row mask bc alpha x i (nth i A nil) yi = yi + sum n (fun j => if wloc i j then alpha * (den A i j * vget x j) else r0).
  Proof.
    intros Hi HL HB. pose proof (mat_wf_row n n A i HA) as [HS HF]. pose proof (ssorted_NoDup _ HS) as HN.
    unfold den. rewrite <- (lsum_row (fun j a => if wloc i j then alpha * (a * vget x j) else r0) n (nth i A nil) HN HF) by (intros j; destruct (wloc i j); ncring).
    unfold novlp_row. specialize (HB i). destruct (Nat.ltb_spec i n); [|lia]. cbn [Nat.leb andb] in HB.
    set (full := nth i A nil) in *.
    assert (G : forall row yi, incl row full -> fold_left (fun yi0 c => let j := fst c in let t := alpha * (snd c * vget x j) in
        if mk mask i =? 0 then if mk mask j =? 1 then yi0 + t else if mk mask j =? 0 then fold_left (fun yi1 it => if snd it =? j then yi1 + t else yi1) (filter (fun it => fst it =? i) bc) yi0 else yi0
        else if mk mask i =? 1 then if mk mask j =? 2 then yi0 else yi0 + t else yi0) row yi = yi + lsum (map (fun e => if wloc i (fst e) then alpha * (snd e * vget x (fst e)) else r0) row)).
    { induction row as [|[j a] t IH]; intros y0 HI; cbn [fold_left map lsum]; [ncring|]. rewrite IH by (intros c Hc; apply HI; right; auto). cbn [fst snd].
      rewrite radd_assoc. f_equal. unfold wloc. destruct (Nat.eqb_spec (mk mask i) 0) as [M|M].
      - destruct (Nat.eqb_spec (mk mask j) 1) as [M1|M1]; cbn [orb]; auto. destruct (Nat.eqb_spec (mk mask j) 0) as [M0|M0]; cbn [andb]; [|ncring].
        rewrite HB. rewrite count_once by (apply filter_map_fst_NoDup; auto). destruct (iowner p A mask i) as [io|] eqn:EI.
        + destruct (border_flag p A mask io i j) eqn:EB.
          * replace (existsb _ _) with true; auto. symmetry. apply existsb_exists. exists (j, a). split; [|apply Nat.eqb_refl]. apply filter_In. split; [apply HI; left; auto|]. cbn [fst]. rewrite M0, EB. reflexivity.
          * replace (existsb _ _) with false; [ncring|]. symmetry. apply not_true_is_false. intros HE. apply existsb_exists in HE. destruct HE as [[j' a'] [HE1 HE2]]. cbn [fst] in HE2. apply Nat.eqb_eq in HE2. subst j'. apply filter_In in HE1. cbn [fst] in HE1. rewrite EB, andb_false_r in HE1. destruct HE1. discriminate.
        + replace (existsb _ _) with false; [ncring|]. symmetry. apply not_true_is_false. intros HE. apply existsb_exists in HE. destruct HE as [[j' a'] [HE1 HE2]]. apply filter_In in HE1. rewrite andb_false_r in HE1. destruct HE1. discriminate.
      - destruct (Nat.eqb_spec (mk mask i) 1); cbn [andb]; [|ncring]. destruct (mk mask j =? 2); cbn [negb]; [ncring|auto]. }
    apply G. apply incl_refl.
  Qed.
  End OneProcess.

  (** ** C46: specification.  Matrix entries: for indices g, h which a process holds both as owner or copy, it stores the full global entry; every nonzero of the global matrix is
      known in this sense to some process. *)
  Definition novlp_matrices (G : nat) (GA : nat -> nat -> R) (sz : nat -> nat) (A : nat -> smat R) : Prop :=
    (forall p, p < P -> mat_wf (sz p) (sz p) (A p)) /\
    (forall p g l a h l' b, p < P -> holds ix p g l a -> holds ix p h l' b -> a <> Overlap -> b <> Overlap -> den (A p) l l' = GA g h) /\
    (forall g h, g < G -> h < G -> GA g h = r0 \/ exists p l a l' b, p < P /\ holds ix p g l a /\ holds ix p h l' b /\ a <> Overlap /\ b <> Overlap).
  (** ownership: never do the owner of g hold h as a copy and another process, the owner of h, hold g as a copy.  (Holds if every index is owned by the
      process of lowest rank among those holding it as owner or copy.) *)
  Definition one_sided : Prop := forall p q g h l1 l2 l3 l4, p < P -> q < P -> holds ix p g l1 Owner -> holds ix p h l2 Copy -> holds ix q h l3 Owner -> holds ix q g l4 Copy -> False.
  Definition agrees_nonov (s : pis) (gx : nat -> R) (x : vec R) : Prop := forall g l a, In (mke g l a) s -> a <> Overlap -> vget x l = gx g.

  Lemma owns_holds q g : dist_wf P (fun _ => 0) ix \/ (forall q, q < P -> StronglySorted lt (map e_g (ix q))) -> q < P -> owns q g = true <-> exists l, holds ix q g l Owner.
  Proof.
    intros HW Hq. assert (WF : forall q, q < P -> StronglySorted lt (map e_g (ix q))) by (destruct HW as [HW|HW]; [intros r Hr; apply (HW r Hr)|auto]).
    rewrite <- (atp_holds WF q g Owner Hq). unfold owns. destruct (atp q g) as [[]|]; split; intros H; try discriminate; auto.
  Qed.

  Theorem C46_apply G sz GA (A : nat -> smat R) gx (x y y1 y2 : nat -> vec R) alpha :
    dist_wf P sz ix -> owned_once P G ix -> (forall p l, p < P -> l < sz p -> exists g a, holds ix p g l a) ->
    novlp_matrices G GA sz A -> one_sided ->
    (forall p, p < P -> length (x p) = sz p /\ length (y p) = sz p /\ agrees_nonov (ix p) gx (x p)) ->
    (forall p, p < P -> exists v, novlp_local p (A p) alpha (x p) (y p) = Ok v) /\
    ((forall p, p < P -> novlp_local p (A p) alpha (x p) (y p) = Ok (y1 p)) -> addOwnerCopyToOwnerCopy P ix None y1 y2 ->
     forall p, p < P -> agrees_nonov (ix p) (fun g => alpha * sum G (fun h => GA g h * gx h)) (y2 p)).
  Proof.
    intros HW (HU & HO & HG) HCov (M1 & M2 & M3) HOne HX.
    assert (WF : forall q, q < P -> StronglySorted lt (map e_g (ix q))) by (intros q Hq; apply (HW q Hq)).
    assert (OH : forall q g, q < P -> owns q g = true <-> exists l, holds ix q g l Owner) by (intros; apply owns_holds; auto).
    assert (UNI : forall q r g, q < P -> r < P -> owns q g = true -> owns r g = true -> q = r).
    { intros q r g Hq Hr H1 H2. apply OH in H1, H2; auto. destruct H1 as [l1 H1]. destruct H2 as [l2 H2]. apply (HU g q r l1 l2); auto. }
    assert (OWN : forall p, p < P -> forall g l, holds ix p g l Copy -> exists q, q < P /\ owns q g = true).
    { intros p Hp g l H. destruct (HO g (HG p g l Copy Hp H)) as [q [l' [Hq H']]]. exists q. split; auto. apply OH; eauto. }
    assert (LOC : forall p, p < P -> exists v, novlp_local p (A p) alpha (x p) (y p) = Ok v /\ length v = sz p /\
              forall g l a, holds ix p g l a -> vget v l = sum G (fun h => if W p g h then alpha * (GA g h * gx h) else r0)).
    { intros p Hp. destruct (HX p Hp) as (X1 & X2 & X3). pose proof (HW p Hp) as WFp. pose proof WFp as (W1 & W2 & W3). pose proof (M1 p Hp) as HA. unfold novlp_local, novlp_op_apply. rewrite X1.
      destruct (nmask_spec p Hp (ix p) (repeat 1 (sz p)) W2) as (mask & EM & LM & MK & MK1).
      { rewrite repeat_length. auto. } { intros e He. apply nth_repeat. }
      rewrite EM. cbn [obind]. fold (mk mask) in *.
      assert (MK1' : forall l, (forall g a, ~ holds ix p g l a) -> mk mask l = 1).
      { intros l H. unfold mk. rewrite MK1; [apply nth_repeat|]. intros HI. apply in_map_iff in HI. destruct HI as [[g l' a] [E HI]]. cbn in E. subst l'. apply (H g a). exact HI. }
      assert (COV : forall l, l < sz p -> exists g a, holds ix p g l a) by (intros; apply HCov; auto).
      destruct (border_ok p (sz p) (A p) Hp WF WFp HA (OWN p Hp) mask MK COV (A p) 0 eq_refl) as (bc & EB & FB).
      rewrite EB. cbn [obind]. eexists. split; [reflexivity|]. split.
      { rewrite map_length, !combine_length, seq_length, map_length, X2, (proj1 HA). lia. }
      intros g l a HH. assert (Hl : l < sz p) by (rewrite Forall_forall in W3; apply (W3 (mke g l a) HH)).
      assert (E : forall L : vec R, vget (map (fun c => novlp_row mask bc alpha (x p) (fst c) (fst (snd c)) (snd (snd c))) (combine (seq 0 (length (A p))) (combine (A p) (map (fun _ => r0) (y p))))) l = novlp_row mask bc alpha (x p) l (nth l (A p) nil) r0).
      { intros _. unfold vget. rewrite (nth_indep _ r0 ((fun c => novlp_row mask bc alpha (x p) (fst c) (fst (snd c)) (snd (snd c))) (0, (nil, r0)))) by (rewrite map_length, !combine_length, seq_length, map_length, X2, (proj1 HA); lia).
        rewrite (map_nth (fun c => novlp_row mask bc alpha (x p) (fst c) (fst (snd c)) (snd (snd c)))). rewrite combine_nth by (rewrite seq_length, combine_length, map_length, X2, (proj1 HA); lia).
        rewrite combine_nth by (rewrite map_length, X2, (proj1 HA); auto). cbn [fst snd]. rewrite seq_nth by (rewrite (proj1 HA); auto). cbn [Nat.add]. f_equal. apply (map_nth (fun _ => r0) (y p) r0). }
      rewrite (E nil). rewrite (row_value p (sz p) (A p) Hp HA mask bc alpha (x p) l r0 Hl X1 FB). rewrite radd_0_l.
      rewrite (sum_ext (sz p) _ (fun j => match find (fun e => e_l e =? j) (ix p) with Some e => if W p g (e_g e) then alpha * (GA g (e_g e) * gx (e_g e)) else r0 | None => r0 end)).
      - rewrite <- (lsum_by_key e_l (fun e => if W p g (e_g e) then alpha * (GA g (e_g e) * gx (e_g e)) else r0) (sz p) (ix p) W2 W3).
        rewrite (lsum_by_key e_g (fun e => if W p g (e_g e) then alpha * (GA g (e_g e) * gx (e_g e)) else r0) G (ix p) (SS_NoDup _ W1)) by (apply Forall_forall; intros [g' l' a'] He; apply (HG p g' l' a'); auto).
        apply sum_ext. intros h Hh. destruct (find (fun e => e_g e =? h) (ix p)) as [e|] eqn:EF.
        + apply find_some in EF. destruct EF as [_ EF]. apply Nat.eqb_eq in EF. rewrite EF. reflexivity.
        + replace (W p g h) with false; auto. unfold W, nonov at 2, atp at 1, lookup. rewrite EF. cbn [option_map]. rewrite andb_false_r. reflexivity.
      - intros j Hj. destruct (COV j Hj) as [h [b HB]]. assert (EF : find (fun e => e_l e =? j) (ix p) = Some (mke h j b)).
        { destruct (find (fun e => e_l e =? j) (ix p)) as [[h' j' b']|] eqn:EF.
          - apply find_some in EF. destruct EF as [E1 E2]. cbn in E2. apply Nat.eqb_eq in E2. subst j'. destruct (pos_inj p (sz p) WFp h' j b' h b E1 HB) as [-> ->]. reflexivity.
          - apply (find_none _ _ EF) in HB. cbn in HB. rewrite Nat.eqb_refl in HB. discriminate. }
        rewrite EF. cbn [e_g]. rewrite (wloc_W p (sz p) (A p) Hp WF WFp HA (OWN p Hp) UNI mask MK g l a h j b HH HB).
        destruct (W p g h) eqn:EW; auto. unfold W in EW. apply andb_true_iff in EW. destruct EW as [EW _]. apply andb_true_iff in EW. destruct EW as [EW1 EW2]. apply nonov_at in EW1, EW2.
        destruct EW1 as [a' [B1 B2]]. destruct EW2 as [b' [B3 B4]]. rewrite (proj2 (atp_holds WF p g a Hp)) in B1 by eauto. rewrite (proj2 (atp_holds WF p h b Hp)) in B3 by eauto. injection B1 as <-. injection B3 as <-.
        rewrite (M2 p g l a h j b Hp HH HB B2 B4), (X3 h j b HB B4). reflexivity. }
    split; [intros p Hp; destruct (LOC p Hp) as (v & E & _); eauto|].
    intros HY HC p Hp g l a HI Ha.
    assert (LV : forall q, q < P -> length (y1 q) = sz q /\ forall g l a, holds ix q g l a -> vget (y1 q) l = sum G (fun h => if W q g h then alpha * (GA g h * gx h) else r0)).
    { intros q Hq. destruct (LOC q Hq) as (v & E & L & V). rewrite HY in E by auto. injection E as ->. auto. }
    assert (SZ : sized P sz y1) by (intros q Hq; apply LV; auto).
    destruct (C32_addOwnerCopyToOwnerCopy P sz ix HW y1 y2 SZ HC p Hp) as (_ & T & _).
    rewrite (T g l a (fun q => sum G (fun h => if W q g h then alpha * (GA g h * gx h) else r0)) HI Ha).
    - rewrite sum_swap. rewrite <- sum_mul_l. apply sum_ext. intros h Hh. destruct (M3 g h (HG p g l a Hp HI) Hh) as [EZ|(q & l1 & a1 & l2 & b1 & Hq & Q1 & Q2 & Q3 & Q4)].
      + rewrite EZ. rewrite sum_zero; [ncring|]. intros r _. destruct (W r g h); ncring.
      + destruct (one_contributor g h) as (r & Hr & R1 & R2).
        * intros; eapply UNI; eauto.
        * intros; eapply UNI; eauto.
        * intros r s Hr Hs S1 S2 S3 S4. destruct (Nat.eq_dec r s) as [|Hn]; auto. exfalso. apply OH in S1; auto. apply OH in S3; auto. apply nonov_at in S2, S4. destruct S1 as [k1 S1]. destruct S3 as [k3 S3]. destruct S2 as [b2 [S2 S2']]. destruct S4 as [b4 [S4 S4']].
          apply (atp_holds WF r h b2 Hr) in S2. apply (atp_holds WF s g b4 Hs) in S4. destruct S2 as [k2 S2]. destruct S4 as [k4 S4].
          destruct b2; [apply Hn; apply (HU h r s k2 k3); auto|congruence|]. destruct b4; [apply Hn; apply (HU g r s k1 k4); auto|congruence|]. apply (HOne r s g h k1 k2 k3 k4 Hr Hs S1 S2 S3 S4).
        * exists q. split; auto. split; apply nonov_at; [exists a1|exists b1]; split; auto; apply atp_holds; eauto.
        * rewrite (sum_single P r); auto; [rewrite R1; auto|]. intros s Hs Hn. rewrite R2; auto.
    - intros q Hq. split.
      + intros l' a' H'. destruct (LV q Hq) as [_ V]. destruct (ownerCopySet a') eqn:EO; [symmetry; apply (V g l' a' H')|]. apply sum_zero. intros h _. replace (W q g h) with false; auto.
        unfold W, nonov at 1. rewrite (proj2 (atp_holds WF q g a' Hq)) by eauto. destruct a'; try discriminate. reflexivity.
      + intros H'. apply sum_zero. intros h _. replace (W q g h) with false; auto. unfold W, nonov at 1. destruct (atp q g) as [b|] eqn:E; auto. apply (atp_holds WF q g b Hq) in E. destruct E as [l' E]. exfalso. apply (H' l' b E).
  Qed.
End Novlp.

(** If every index is owned by the process of lowest rank among those holding it as owner or copy, ownership is one-sided. *)
Lemma lowest_rank_one_sided P ix : (forall p q g l l' , p < P -> q < P -> holds ix p g l Owner -> holds ix q g l' Copy -> p < q) -> one_sided P ix.
Proof. intros H p q g h l1 l2 l3 l4 Hp Hq H1 H2 H3 H4. pose proof (H p q g l1 l4 Hp Hq H1 H4). pose proof (H q p h l3 l2 Hq Hp H3 H2). lia. Qed.

(** The condition is necessary: with P0 = {0 owner, 1 copy} and P1 = {1 owner, 0 copy}, both storing the full consistent matrix (1 10; 0 1), apply to x = (1, 1)
    yields 21 instead of 11 at index 0, on both processes and for every message order. *)
Definition dcix (p : nat) : pis := match p with 0 => [mke 0 0 Owner; mke 1 1 Copy] | 1 => [mke 0 0 Copy; mke 1 1 Owner] | _ => [] end.
Definition dcA : smat Zring := [[(0, 1%Z); (1, 10%Z)]; [(0, 0%Z); (1, 1%Z)]].
Definition dcGA (g h : nat) : Zring := match g, h with 0, 0 => 1%Z | 0, 1 => 10%Z | 1, 1 => 1%Z | _, _ => 0%Z end.
Ltac inholds := unfold holds in *; cbn [In] in *;
  repeat match goal with H : _ \/ _ |- _ => destruct H | H : False |- _ => destruct H | H : mke _ _ _ = mke _ _ _ |- _ => injection H; clear H; intros; subst end.
Theorem C46_double_count_refuted :
  dist_wf 2 (fun _ => 2) dcix /\ owned_once 2 2 dcix /\ (forall p l, p < 2 -> l < 2 -> exists g a, holds dcix p g l a) /\
  novlp_matrices (R := Zring) 2 dcix 2 dcGA (fun _ => 2) (fun _ => dcA) /\
  exists y1 : nat -> vec Zring, (forall p, p < 2 -> novlp_local 2 dcix p dcA 1%Z [1%Z; 1%Z] [0%Z; 0%Z] = Ok (y1 p)) /\
  (exists y2, addOwnerCopyToOwnerCopy 2 dcix None y1 y2) /\
  forall y2, addOwnerCopyToOwnerCopy 2 dcix None y1 y2 -> forall p, p < 2 -> vget (y2 p) 0 = 21%Z.
Proof.
  assert (W : dist_wf 2 (fun _ => 2) dcix).
  { intros [|[|p]] Hp; try lia; (split; [|split]); cbn; repeat constructor; cbn; try lia; intuition lia. }
  split; auto. split; [|split; [|split]].
  - split; [|split].
    + intros g p q l l' Hp Hq H1 H2. destruct p as [|[|p]], q as [|[|q]]; try lia; unfold holds in *; cbn [dcix] in *; inholds; auto; discriminate.
    + intros [|[|g]] Hg; [exists 0, 0|exists 1, 1|lia]; split; auto; unfold holds; cbn; auto.
    + intros [|[|p]] g l a Hp HH; try lia; unfold holds in HH; cbn [dcix] in HH; inholds; lia.
  - intros [|[|p]] [|[|l]] Hp Hl; try lia; unfold holds; cbn; eauto.
  - split; [|split].
    + intros p Hp. split; [reflexivity|]. repeat (constructor; [split; cbn; repeat constructor; lia|]). constructor.
    + intros [|[|p]] g l a h l' b Hp H1 H2 Ha Hb; try lia; unfold holds in *; cbn [dcix] in *; inholds; reflexivity.
    + intros [|[|g]] [|[|h]] Hg Hh; try lia; right; exists 0; do 4 eexists; (split; [auto|]); unfold holds; cbn [dcix In]; (split; [eauto|]); (split; [eauto|]); split; discriminate.
  - set (y1 := fun p : nat => match p with 0 => [11%Z; 0%Z] : vec Zring | _ => [10%Z; 1%Z] end).
    assert (SZ : sized 2 (fun _ => 2) y1) by (intros [|[|p]] Hp; try lia; reflexivity).
    exists y1. split; [intros [|[|p]] Hp; try lia; reflexivity|]. split.
    + destruct (C31_safe (B := car Zring) 0%Z 2 (fun _ => 2) dcix W None y1 SZ I radd ownerCopySet ownerCopySet (start y1) (reach_0 _ _ _ _ _ _ _)) as [_ [_ H]]. exact H.
    + intros y2 HC p Hp. destruct (C32_addOwnerCopyToOwnerCopy 2 (fun _ => 2) dcix W y1 y2 SZ HC p Hp) as (_ & T & _).
      assert (HH : exists a, holds dcix p 0 0 a /\ a <> Overlap) by (destruct p as [|[|p]]; try lia; eexists; (split; [unfold holds; cbn; eauto|discriminate])). destruct HH as [a [HH Ha]].
      rewrite (T 0 0 a (fun q => vget (y1 q) 0) HH Ha); [reflexivity|]. intros [|[|q]] Hq; try lia; (split; [intros l b HB; unfold holds in HB; cbn [dcix] in HB; inholds; try reflexivity; discriminate|]).
      * intros HN. exfalso. apply (HN 0 Owner). unfold holds. cbn. auto.
      * intros HN. exfalso. apply (HN 0 Copy). unfold holds. cbn. auto.
Qed.

(** A case meeting all hypotheses of [C46_apply]: indices 0 and 1 owned by P0 and P1, both copied on P2 and P3; the entry (0,1) is contributed by P2 only. *)
Definition nvix (p : nat) : pis := match p with 0 => [mke 0 0 Owner] | 1 => [mke 1 0 Owner] | 2 => [mke 0 0 Copy; mke 1 1 Copy] | 3 => [mke 0 0 Copy; mke 1 1 Copy; mke 2 2 Owner] | _ => [] end.
Definition nvsz (p : nat) : nat := match p with 0 => 1 | 1 => 1 | 2 => 2 | 3 => 3 | _ => 0 end.
Definition nvGA (g h : nat) : Zring := match g, h with 0, 0 => 1%Z | 0, 1 => 10%Z | 1, 0 => 3%Z | 1, 1 => 4%Z | 1, 2 => 5%Z | 2, 1 => 6%Z | 2, 2 => 7%Z | _, _ => 0%Z end.
Definition nvA (p : nat) : smat Zring := match p with 0 => [[(0, 1%Z)]] | 1 => [[(0, 4%Z)]] | 2 => [[(0, 1%Z); (1, 10%Z)]; [(0, 3%Z); (1, 4%Z)]]
  | _ => [[(0, 1%Z); (1, 10%Z)]; [(0, 3%Z); (1, 4%Z); (2, 5%Z)]; [(1, 6%Z); (2, 7%Z)]] end.
Definition nvgx (g : nat) : Zring := match g with 0 => 1%Z | 1 => 2%Z | _ => 3%Z end.
Definition nvx (p : nat) : vec Zring := match p with 0 => [1%Z] | 1 => [2%Z] | 2 => [1%Z; 2%Z] | _ => [1%Z; 2%Z; 3%Z] end.
Example C46_nonvacuous : dist_wf 4 nvsz nvix /\ owned_once 4 3 nvix /\ (forall p l, p < 4 -> l < nvsz p -> exists g a, holds nvix p g l a) /\
  novlp_matrices 4 nvix 3 nvGA nvsz nvA /\ one_sided 4 nvix /\ (forall p, p < 4 -> length (nvx p) = nvsz p /\ length (nvx p) = nvsz p /\ agrees_nonov (nvix p) nvgx (nvx p)) /\
  novlp_local 4 nvix 2 (nvA 2) 1%Z (nvx 2) (nvx 2) = Ok [20%Z; 3%Z] /\ novlp_local 4 nvix 3 (nvA 3) 1%Z (nvx 3) (nvx 3) = Ok [0%Z; 15%Z; 33%Z].
Proof.
  split; [|split; [|split; [|split; [|split; [|split; [|split; reflexivity]]]]]].
  - intros [|[|[|[|p]]]] Hp; try lia; (split; [|split]); cbn; repeat constructor; cbn; try lia; intuition lia.
  - split; [|split].
    + intros g p q l l' Hp Hq H1 H2. destruct p as [|[|[|[|p]]]], q as [|[|[|[|q]]]]; try lia; unfold holds in *; cbn [nvix] in *; inholds; auto; discriminate.
    + intros [|[|[|g]]] Hg; [exists 0, 0|exists 1, 0|exists 3, 2|lia]; split; auto; unfold holds; cbn; auto.
    + intros [|[|[|[|p]]]] g l a Hp HH; try lia; unfold holds in HH; cbn [nvix] in HH; inholds; lia.
  - intros [|[|[|[|p]]]] [|[|[|l]]] Hp Hl; cbn [nvsz] in Hl; try lia; unfold holds; cbn; eauto 6.
  - split; [|split].
    + intros [|[|[|[|p]]]] Hp; try lia; (split; [reflexivity|]); repeat (constructor; [split; cbn; repeat constructor; lia|]); constructor.
    + intros [|[|[|[|p]]]] g l a h l' b Hp H1 H2 Ha Hb; try lia; unfold holds in *; cbn [nvix] in *; inholds; reflexivity.
    + intros [|[|[|g]]] [|[|[|h]]] Hg Hh; try lia; try (left; reflexivity); right; exists 3; do 4 eexists; (split; [auto|]); unfold holds; cbn [nvix In]; (split; [eauto|]); (split; [eauto|]); split; discriminate.
  - intros p q g h l1 l2 l3 l4 Hp Hq H1 H2 H3 H4. destruct p as [|[|[|[|p]]]], q as [|[|[|[|q]]]]; try lia; unfold holds in *; cbn [nvix] in *; inholds; discriminate.
  - intros [|[|[|[|p]]]] Hp; try lia; (split; [reflexivity|]); (split; [reflexivity|]); intros g l a HI Ha; cbn [nvix] in HI; inholds; reflexivity.
Qed.
Print Assumptions C46_apply.
Print Assumptions C46_double_count_refuted.
