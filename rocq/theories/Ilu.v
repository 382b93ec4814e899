(** * ILU(0) decomposition (dune/istl/ilu.hh:32-97), C15 *)
From Coq Require Import Arith List Lia Sorted Bool ZArith QArith Qcanon.
From Verif Require Import Ring Sums RingInst Outcome Sparse MatVec GsModel Gs.
Import ListNotations.
Open Scope nat_scope.

Section Ilu.
  Context {R : ring}.
  Local Open Scope ring_scope_istl.
  Variable inv : R -> option R.   (* block inversion, [None] = FMatrixError *)

  (** ** Model *)
  (** the two-cursor loop over the rest of row i ([ik]) and the part of row j right of its diagonal ([jk]),
      ilu.hh:60-78: *ik -= L_ij * *jk where columns agree *)
  Fixpoint merge_sub (l : R) (ik : srow R) : srow R -> srow R :=
    fix aux (jk : srow R) : srow R :=
      match ik, jk with
      | (k, a) :: t, (k', b) :: t' =>
          if k =? k' then (k, a - l * b) :: merge_sub l t t'
          else if k <? k' then (k, a) :: merge_sub l t jk
          else aux t'
      | _, _ => ik
      end.
  (** A[j].find(j) together with the cursor behind it, ilu.hh:52,62 *)
  Fixpoint find_from (row : srow R) (j : nat) : option (R * srow R) :=
    match row with
    | (k, a) :: t => if k =? j then Some (a, t) else find_from t j
    | nil => None
    end.
  (** loop over the columns left of the diagonal of row [i] (ilu.hh:48-79), then inversion of the pivot
      (ilu.hh:81-97).  [F] are the rows already factorised.  [fuel] only has to be at least the row length. *)
  Fixpoint ilu_row (fuel : nat) (F : smat R) (i : nat) (row : srow R) : outcome (srow R) :=
    match fuel with
    | 0 => UB
    | S fuel =>
      match row with
      | nil => UB                       (* cursor past the end of the row *)
      | (j, a) :: t =>
          if j <? i then
            match find_from (nth j F nil) j with
            | None => UB
            | Some (ajj, rj) =>
                let l := a * ajj in        (* rightmultiply *)
                obind (ilu_row fuel F i (merge_sub l t rj)) (fun r => Ok ((j, l) :: r))
            end
          else if j =? i then
            match inv a with Some u => Ok ((j, u) :: t) | None => Throw (EBlock i) end
          else Throw EISTL
      end
    end.
  (** the loop over the rows, ilu.hh:41-98; the rows of [F] are finished *)
  Fixpoint ilu_rows (F : smat R) (A : smat R) : outcome (smat R) :=
    match A with
    | nil => Ok F
    | row :: t => obind (ilu_row (S (length row)) F (length F) row) (fun r => ilu_rows (F ++ [r]) t)
    end.
  Definition blockILU0Decomposition (A : smat R) : outcome (smat R) := ilu_rows nil A.

  (** ** Specification: the factors stored in [F]; the diagonal of [F] holds the inverted pivots *)
  Definition Lfac (F : smat R) (i k : nat) : R := if k <? i then den F i k else if k =? i then r1 else r0.
  Definition Ufac (piv : nat -> R) (F : smat R) (k j : nat) : R := if k <? j then den F k j else if k =? j then piv k else r0.
  Definition inverse_of (a b : R) : Prop := a * b = r1 /\ b * a = r1.
  Definition pivots (n : nat) (F : smat R) (piv : nat -> R) : Prop := forall i, i < n -> inverse_of (piv i) (den F i i).

  (** ** Proof *)
  Hypothesis inv_ok : forall a b, inv a = Some b -> inverse_of a b.

  Lemma merge_sub_cols l ik : forall jk, map fst (merge_sub l ik jk) = map fst ik.
  Proof.
    induction ik as [|[k a] t IH]; intros jk; [destruct jk; reflexivity|].
    induction jk as [|[k' b] t' IH']; [reflexivity|]. cbn [merge_sub].
    destruct (k =? k'); [cbn; now rewrite IH|]. destruct (k <? k'); [cbn; now rewrite IH|]. exact IH'.
  Qed.
  Lemma merge_sub_den l ik : forall jk, StronglySorted lt (map fst ik) -> StronglySorted lt (map fst jk) ->
    forall c, In c (map fst ik) -> denrow (merge_sub l ik jk) c = denrow ik c - l * denrow jk c.
  Proof.
    induction ik as [|[k a] t IH]; intros jk S1 S2 c Hc; [destruct Hc|].
    cbn [map fst] in S1. inversion S1 as [|? ? S1' F1]; subst. rewrite Forall_forall in F1.
    induction jk as [|[k' b] t' IH']; [cbn [merge_sub]; cbn [denrow]; ncring|].
    cbn [map fst] in S2. inversion S2 as [|? ? S2' F2]; subst. rewrite Forall_forall in F2. cbn [merge_sub].
    assert (NH : forall x, x <= k' -> denrow t' x = r0).
    { intros x Hx. apply denrow_notin. intros HI. specialize (F2 _ HI). lia. }
    destruct (Nat.eqb_spec k k') as [<-|Hn].
    - cbn [denrow]. destruct (Nat.eqb_spec k c) as [<-|Hc']; [ncring|].
      destruct Hc as [Hc|Hc]; [cbn in Hc; congruence|]. apply IH; auto.
    - destruct (Nat.ltb_spec k k') as [Hlt|Hge].
      + change (denrow ((k, a) :: merge_sub l t ((k', b) :: t')) c) with (if k =? c then a else denrow (merge_sub l t ((k', b) :: t')) c).
        change (denrow ((k, a) :: t) c) with (if k =? c then a else denrow t c).
        destruct (Nat.eqb_spec k c) as [<-|Hc'].
        * cbn [denrow]. destruct (Nat.eqb_spec k' k); [lia|]. rewrite NH by lia. ncring.
        * destruct Hc as [Hc|Hc]; [cbn in Hc; congruence|]. apply IH; auto.
      + etransitivity; [exact (IH' S2')|]. change (denrow ((k', b) :: t') c) with (if k' =? c then b else denrow t' c).
        destruct (Nat.eqb_spec k' c) as [<-|]; auto. exfalso. destruct Hc as [Hc|Hc]; [cbn in Hc; lia|]. specialize (F1 _ Hc). lia.
  Qed.

  Lemma find_from_spec m row j : row_wf m row -> In j (map fst row) ->
    exists t, find_from row j = Some (denrow row j, t) /\ StronglySorted lt (map fst t) /\ forall c, denrow t c = if j <? c then denrow row c else r0.
  Proof.
    intros HW HI. destruct (split_row _ j (proj1 HW) HI) as (lo & a & hi & E & H1 & H2).
    destruct (split_den m _ lo hi j a HW E H1 H2) as (W1 & W2 & Ea & D1 & D2). exists hi. rewrite Ea. split; [|split].
    - rewrite E. clear - H1. induction lo as [|[k b] t IH]; cbn; [now rewrite Nat.eqb_refl|]. inversion H1; subst. cbn in *.
      destruct (Nat.eqb_spec k j); [lia|auto].
    - apply W2.
    - exact D2.
  Qed.

  (** what one row of the factor satisfies *)
  Definition row_elim (F : smat R) (i : nat) (row row' : srow R) : Prop :=
    map fst row' = map fst row /\ In i (map fst row) /\
    forall k, In k (map fst row) ->
      let s := sum i (fun j => denrow row' j * (if j <? k then den F j k else r0)) in
      (k < i -> denrow row' k = (denrow row k - s) * den F k k) /\
      (k = i -> inv (denrow row i - s) = Some (denrow row' i)) /\
      (i < k -> denrow row' k = denrow row k - s).

  Lemma ilu_row_spec m F i fuel : forall row, row_wf m row -> (forall j, j < i -> row_wf m (nth j F nil) /\ In j (map fst (nth j F nil))) ->
    forall row', ilu_row fuel F i row = Ok row' -> row_elim F i row row'.
  Proof.
    induction fuel as [|fuel IH]; intros row HW HF row' H; [discriminate|]. cbn [ilu_row] in H.
    destruct row as [|[j a] t]; [discriminate|]. pose proof HW as [HS HB]. cbn [map fst] in HS, HB.
    inversion HS as [|? ? HS' HF1]; subst. rewrite Forall_forall in HF1.
    destruct (Nat.ltb_spec j i) as [Hji|Hji].
    - destruct (HF j Hji) as [Wj Ij]. destruct (find_from_spec m _ j Wj Ij) as (rj & Ef & Srj & Drj). rewrite Ef in H.
      set (l := a * denrow (nth j F nil) j) in *. destruct (ilu_row fuel F i (merge_sub l t rj)) as [r| |] eqn:Er; cbn [obind] in H; try discriminate.
      injection H as <-.
      assert (HW' : row_wf m (merge_sub l t rj)).
      { unfold row_wf. rewrite merge_sub_cols. split; auto. inversion HB; auto. }
      destruct (IH _ HW' HF r Er) as (E1 & I1 & K1). rewrite merge_sub_cols in E1, I1, K1.
      assert (Nj : ~ In j (map fst t)) by (intros HI; specialize (HF1 _ HI); lia).
      assert (Zr : denrow r j = r0) by (apply denrow_notin; rewrite E1; auto).
      assert (SUM : forall k, sum i (fun j0 => denrow ((j, l) :: r) j0 * (if j0 <? k then den F j0 k else r0)) =
                 l * (if j <? k then den F j k else r0) + sum i (fun j0 => denrow r j0 * (if j0 <? k then den F j0 k else r0))).
      { intros k. cbn [denrow]. rewrite (sum_remove i j (fun j0 => (if j =? j0 then l else denrow r j0) * (if j0 <? k then den F j0 k else r0))) by auto.
        rewrite Nat.eqb_refl. f_equal. apply sum_ext. intros x Hx. destruct (Nat.eqb_spec x j) as [->|Hxj]; [rewrite Zr; ncring|].
        destruct (Nat.eqb_spec j x); [congruence|auto]. }
      split; [cbn; now rewrite E1|]. split; [cbn; auto|]. intros k Hk. cbn zeta. rewrite SUM.
      destruct (Nat.eq_dec k j) as [->|Hkj].
      + split; [|split; intros; lia]. intros _. cbn [denrow]. rewrite Nat.eqb_refl, Nat.ltb_irrefl.
        rewrite (sum_zero i (fun j0 => denrow r j0 * (if j0 <? j then den F j0 j else r0))).
        * unfold l, den. ncring.
        * intros x Hx. destruct (Nat.ltb_spec x j); [|apply rmul_0_r]. rewrite denrow_notin; [apply rmul_0_l|]. rewrite E1.
          intros HI. specialize (HF1 _ HI). lia.
      + destruct Hk as [Hk|Hk]; [cbn in Hk; congruence|]. specialize (K1 k Hk). cbn zeta in K1.
        pose proof (HF1 _ Hk) as Hjk. assert (Hjk' : j <? k = true) by (apply Nat.ltb_lt; auto). rewrite Hjk'.
        assert (DM : forall c, In c (map fst t) -> denrow (merge_sub l t rj) c = denrow t c - l * den F j c).
        { intros c Hc. rewrite merge_sub_den by auto. rewrite Drj. specialize (HF1 _ Hc). apply Nat.ltb_lt in HF1. now rewrite HF1. }
        cbn [denrow]. destruct (Nat.eqb_spec j k); [congruence|]. destruct (Nat.eqb_spec j i); [lia|].
        destruct K1 as (Ka & Kb & Kc). split; [|split].
        * intros Hki. rewrite (Ka Hki), DM by auto. f_equal. ncring.
        * intros ->. rewrite <- (Kb eq_refl), DM by auto. f_equal. ncring.
        * intros Hki. rewrite (Kc Hki), DM by auto. ncring.
    - destruct (Nat.eqb_spec j i) as [->|Hne]; [|discriminate]. destruct (inv a) as [u|] eqn:Eu; [|discriminate]. injection H as <-.
      split; [reflexivity|]. split; [cbn; auto|]. intros k Hk. cbn zeta.
      assert (Z : sum i (fun j0 => denrow ((i, u) :: t) j0 * (if j0 <? k then den F j0 k else r0)) = r0).
      { apply sum_zero. intros x Hx. rewrite denrow_notin; [apply rmul_0_l|]. cbn. intros [E|HI]; [lia|]. specialize (HF1 _ HI). lia. }
      rewrite Z, !rsub_0_r. cbn [denrow]. rewrite !Nat.eqb_refl. split; [|split].
      + intros Hki. destruct Hk as [Hk|Hk]; [cbn in Hk; lia|]. specialize (HF1 _ Hk). lia.
      + auto.
      + intros Hik. destruct (Nat.eqb_spec i k); [lia|]. auto.
  Qed.

  Lemma ilu_row_outcome m F i fuel : forall row, length row < fuel -> row_wf m row -> (forall j, j < i -> row_wf m (nth j F nil) /\ In j (map fst (nth j F nil))) ->
    In i (map fst row) -> (exists row', ilu_row fuel F i row = Ok row') \/ ilu_row fuel F i row = Throw (EBlock i).
  Proof.
    induction fuel as [|fuel IH]; intros row HL HW HF HI; [lia|]. cbn [ilu_row].
    destruct row as [|[j a] t]; [destruct HI|]. pose proof HW as [HS HB]. cbn [map fst] in HS, HB.
    inversion HS as [|? ? HS' HF1]; subst. rewrite Forall_forall in HF1. cbn [length] in HL.
    destruct (Nat.ltb_spec j i) as [Hji|Hji].
    - destruct (HF j Hji) as [Wj Ij]. destruct (find_from_spec m _ j Wj Ij) as (rj & Ef & _ & _). rewrite Ef.
      destruct HI as [HI|HI]; [cbn in HI; lia|].
      assert (LM : length (merge_sub (a * denrow (nth j F nil) j) t rj) = length t) by (rewrite <- !(map_length fst), merge_sub_cols; auto).
      destruct (IH (merge_sub (a * denrow (nth j F nil) j) t rj)) as [[r Er]|Er]; auto; [lia| | | |].
      + unfold row_wf. rewrite merge_sub_cols. split; auto. inversion HB; auto.
      + rewrite merge_sub_cols; auto.
      + rewrite Er. cbn. left. eauto.
      + rewrite Er. cbn. auto.
    - destruct (Nat.eqb_spec j i) as [->|Hne].
      + destruct (inv a); eauto.
      + exfalso. destruct HI as [HI|HI]; [cbn in HI; congruence|]. specialize (HF1 _ HI). lia.
  Qed.

  (** the invariant of the row loop: the first rows of A are factorised *)
  Definition partial_ok (m : nat) (A F : smat R) : Prop :=
    length F <= length A /\
    forall i, i < length F -> row_wf m (nth i F nil) /\ row_elim (firstn i F) i (nth i A nil) (nth i F nil).

  Lemma nth_firstn_lt {T} (l : list T) k i d : i < k -> nth i (firstn k l) d = nth i l d.
  Proof. revert k i. induction l as [|a t IH]; intros [|k] [|i] H; cbn; auto; try lia. apply IH. lia. Qed.
  Lemma row_elim_den (F F' : smat R) i row row' : (forall j, j < i -> nth j F nil = nth j F' nil) -> row_elim F i row row' -> row_elim F' i row row'.
  Proof.
    intros HE (A1 & A2 & A3). split; auto. split; auto. intros k Hk. specialize (A3 k Hk). cbn zeta in *.
    rewrite (sum_ext i (fun j => denrow row' j * (if j <? k then den F' j k else r0)) (fun j => denrow row' j * (if j <? k then den F j k else r0))).
    - destruct A3 as (B1 & B2 & B3). split; [|split]; auto. intros Hki. rewrite (B1 Hki). unfold den. now rewrite HE by auto.
    - intros j Hj. unfold den. now rewrite HE by auto.
  Qed.

  Lemma ilu_rows_spec m A : forall F0 A0, partial_ok m (A0 ++ A) F0 -> length F0 = length A0 -> Forall (row_wf m) A ->
    forall F, ilu_rows F0 A = Ok F -> length F = length (A0 ++ A) /\ partial_ok m (A0 ++ A) F.
  Proof.
    induction A as [|row t IH]; intros F0 A0 [HL HP] HE HW F H; cbn [ilu_rows] in H.
    - injection H as <-. rewrite app_nil_r in *. split; auto. split; auto.
    - inversion HW; subst. destruct (ilu_row (S (length row)) F0 (length F0) row) as [r| |] eqn:Er; cbn [obind] in H; try discriminate.
      assert (HF : forall j, j < length F0 -> row_wf m (nth j F0 nil) /\ In j (map fst (nth j F0 nil))).
      { intros j Hj. destruct (HP j Hj) as [W (E1 & E2 & _)]. split; auto. rewrite E1. auto. }
      pose proof (ilu_row_spec m F0 (length F0) (S (length row)) row H2 HF r Er) as RE.
      replace (A0 ++ row :: t) with ((A0 ++ [row]) ++ t) by (rewrite <- app_assoc; auto).
      apply (IH (F0 ++ [r]) (A0 ++ [row])); auto; [|rewrite !app_length; cbn; lia].
      split; [rewrite !app_length; cbn; lia|]. rewrite app_length. cbn [length]. intros i Hi. rewrite <- app_assoc. cbn [app].
      destruct (Nat.eq_dec i (length F0)) as [->|Hn].
      + rewrite app_nth2, Nat.sub_diag by lia. cbn [nth]. rewrite firstn_app, firstn_all, Nat.sub_diag. cbn. rewrite app_nil_r.
        rewrite HE at 2. rewrite app_nth2, Nat.sub_diag by lia. cbn [nth]. split; auto. destruct RE as (E1 & _). destruct H2. split; rewrite E1; auto.
      + rewrite app_nth1 by lia. destruct (HP i ltac:(lia)) as [W RE']. split; auto.
        rewrite firstn_app. replace (i - length F0)%nat with 0%nat by lia. cbn. rewrite app_nil_r. auto.
  Qed.

  Lemma ilu_rows_outcome m A : forall F0 A0, partial_ok m (A0 ++ A) F0 -> length F0 = length A0 -> Forall (row_wf m) A ->
    (forall i, i < length A -> In (length F0 + i)%nat (map fst (nth i A nil))) ->
    (exists F, ilu_rows F0 A = Ok F) \/
    (exists r, ilu_rows F0 A = Throw (EBlock (length F0 + r)%nat) /\ r < length A /\ exists F, ilu_rows F0 (firstn r A) = Ok F).
  Proof.
    induction A as [|row t IH]; intros F0 A0 [HL HP] HE HW HD; cbn [ilu_rows]; [eauto|]. inversion HW; subst.
    assert (HF : forall j, j < length F0 -> row_wf m (nth j F0 nil) /\ In j (map fst (nth j F0 nil))).
    { intros j Hj. destruct (HP j Hj) as [W (E1 & E2 & _)]. split; auto. rewrite E1. auto. }
    pose proof (HD 0 ltac:(cbn; lia)) as HD0. rewrite Nat.add_0_r in HD0. cbn [nth] in HD0.
    destruct (ilu_row_outcome m F0 (length F0) (S (length row)) row (Nat.lt_succ_diag_r _) H1 HF HD0) as [[r Er]|Er]; rewrite Er; cbn [obind].
    - pose proof (ilu_row_spec m F0 (length F0) (S (length row)) row H1 HF r Er) as RE.
      destruct (IH (F0 ++ [r]) (A0 ++ [row])) as [(F & EF)|(k & E1 & E2 & F & E3)]; auto.
      + split; [rewrite !app_length in *; cbn in *; lia|]. rewrite app_length. cbn [length]. intros i Hi. rewrite <- app_assoc. cbn [app].
        destruct (Nat.eq_dec i (length F0)) as [->|Hn].
        * rewrite app_nth2, Nat.sub_diag by lia. cbn [nth]. rewrite firstn_app, firstn_all, Nat.sub_diag. cbn. rewrite app_nil_r.
          rewrite HE at 2. rewrite app_nth2, Nat.sub_diag by lia. cbn [nth]. split; auto. destruct RE as (E1 & _). destruct H1. split; rewrite E1; auto.
        * rewrite app_nth1 by lia. destruct (HP i ltac:(lia)) as [W RE']. split; auto.
          rewrite firstn_app. replace (i - length F0)%nat with 0%nat by lia. cbn. rewrite app_nil_r. auto.
      + rewrite !app_length; cbn; lia.
      + intros i Hi. rewrite app_length. cbn [length]. replace (length F0 + 1 + i)%nat with (length F0 + S i)%nat by lia. apply (HD (S i)). cbn. lia.
      + left. eauto.
      + right. exists (S k). rewrite app_length in E1. cbn [length] in E1. replace (length F0 + S k)%nat with (length F0 + 1 + k)%nat by lia.
        split; auto. split; [cbn; lia|]. exists F. cbn [firstn ilu_rows]. rewrite Er. cbn [obind]. auto.
    - right. exists 0. rewrite Nat.add_0_r. split; auto. split; [cbn; lia|]. exists F0. reflexivity.
  Qed.

  Lemma Forall_nth_row m (A : smat R) i : Forall (row_wf m) A -> row_wf m (nth i A nil).
  Proof.
    intros H. destruct (Nat.lt_ge_cases i (length A)); [rewrite Forall_forall in H; apply H, nth_In; auto|].
    rewrite nth_overflow by auto. apply row_wf_nil.
  Qed.

  (** Product of the factors at a stored position. *)
  Lemma lu_product n (A F : smat R) : length F = n -> length A = n -> Forall (row_wf n) A -> partial_ok n A F ->
    exists piv, pivots n F piv /\ forall i j, i < n -> instored A i j ->
      sum n (fun k => Lfac F i k * Ufac piv F k j) = den A i j.
  Proof.
    intros HLF HLA HWA [_ HP].
    assert (HPI : forall i, i < n -> exists p, inv p = Some (den F i i)).
    { intros i Hi. destruct (HP i ltac:(lia)) as [_ (E1 & E2 & E3)]. specialize (E3 i E2). cbn zeta in E3. destruct E3 as (_ & E3 & _).
      eexists. unfold den at 1. apply E3. auto. }
    assert (HPV : exists piv : nat -> R, forall i, i < n -> inv (piv i) = Some (den F i i)).
    { clear - HPI. revert HPI. induction n as [|k IH]; intros H; [exists (fun _ => r0); intros; lia|].
      destruct IH as (piv & HP); [intros; apply H; lia|]. destruct (H k ltac:(lia)) as (p & Hp).
      exists (fun i => if i =? k then p else piv i). intros i Hi. destruct (Nat.eqb_spec i k) as [->|]; auto. apply HP. lia. }
    destruct HPV as (piv & HPV). exists piv. split; [intros i Hi; apply inv_ok; auto|]. intros i j Hi Hij.
    destruct (HP i ltac:(lia)) as [Wi (E1 & E2 & E3)]. specialize (E3 j Hij). cbn zeta in E3. fold (den F i j) (den F i i) in E3.
    assert (Hj : j < n) by (destruct (Forall_nth_row n A i HWA) as [_ HB]; rewrite Forall_forall in HB; apply HB; auto).
    set (s := sum i (fun k => denrow (nth i F nil) k * (if k <? j then den (firstn i F) k j else r0))) in *.
    assert (DF : forall x y, x < i -> den (firstn i F) x y = den F x y) by (intros; unfold den; rewrite nth_firstn_lt; auto).
    (* the sum over k, split into k < i, k = i *)
    assert (SP : sum n (fun k => Lfac F i k * Ufac piv F k j) = s + ind (j <? i) (den F i j * piv j) + Ufac piv F i j).
    { rewrite (sum_ext n _ (fun k => ind (k <? i) (denrow (nth i F nil) k * (if k <? j then den (firstn i F) k j else r0)) +
           ind (k =? j) (ind (j <? i) (den F i j * piv j)) + ind (k =? i) (Ufac piv F i j))).
      - rewrite !sum_add. f_equal; [f_equal|].
        + rewrite sum_ind_lt by lia. reflexivity.
        + rewrite (sum_single n j) by (first [assumption|intros x _ Hx; unfold ind; destruct (Nat.eqb_spec x j); [congruence|auto]]). cbv beta. rewrite Nat.eqb_refl. reflexivity.
        + rewrite (sum_single n i) by (first [assumption|intros x _ Hx; unfold ind; destruct (Nat.eqb_spec x i); [congruence|auto]]). cbv beta. rewrite Nat.eqb_refl. reflexivity.
      - intros k Hk. unfold Lfac, ind. fold (den F i k). destruct (Nat.ltb_spec k i) as [Hki|Hki].
        + destruct (Nat.eqb_spec k i); [lia|]. unfold Ufac. destruct (Nat.ltb_spec k j).
          * destruct (Nat.eqb_spec k j); [lia|]. rewrite DF by auto. ncring.
          * destruct (Nat.eqb_spec k j) as [->|]; [|ncring]. destruct (Nat.ltb_spec j i); [|lia]. ncring.
        + destruct (Nat.eqb_spec k i) as [->|Hkn].
          * destruct (Nat.eqb_spec i j) as [<-|]; [rewrite Nat.ltb_irrefl|]; ncring.
          * destruct (Nat.eqb_spec k j) as [->|]; [|ncring]. destruct (Nat.ltb_spec j i); [lia|]. ncring. }
    rewrite SP. destruct E3 as (Ea & Eb & Ec). unfold Ufac, ind.
    destruct (Nat.lt_trichotomy j i) as [Hji|[->|Hji]].
    - assert (X : j <? i = true) by (apply Nat.ltb_lt; auto). rewrite X. destruct (Nat.ltb_spec i j); [lia|]. destruct (Nat.eqb_spec i j); [lia|].
      rewrite (Ea Hji). destruct (inv_ok _ _ (HPV j Hj)) as [_ H1]. rewrite DF by auto.
      rewrite <- rmul_assoc, H1, rmul_1_r. fold (den A i j). ncring.
    - rewrite Nat.ltb_irrefl, Nat.eqb_refl. specialize (Eb eq_refl).
      (* the pivot is determined by its inverse *)
      destruct (inv_ok _ _ Eb) as [P1 P2]. destruct (inv_ok _ _ (HPV i Hi)) as [Q1 Q2].
      assert (EQ : piv i = denrow (nth i A nil) i - s).
      { rewrite <- (rmul_1_r _ (piv i)), <- P2. rewrite rmul_assoc. fold (den F i i) in *. rewrite Q1. apply rmul_1_l. }
      rewrite EQ. fold (den A i i). ncring.
    - destruct (Nat.ltb_spec j i); [lia|]. destruct (Nat.ltb_spec i j); [|lia]. rewrite (Ec Hji). fold (den A i j). ncring.
  Qed.

  Lemma partial_start m (A : smat R) : partial_ok m A nil.
  Proof. split; [cbn; lia|]. cbn. intros; lia. Qed.

  Lemma partial_pattern m A F : length F = length A -> partial_ok m A F -> mat_wf (length A) m F /\ same_pattern A F.
  Proof.
    intros HL [_ HP]. split.
    - split; auto. rewrite Forall_forall. intros r Hr. apply (In_nth _ _ nil) in Hr. destruct Hr as (i & Hi & <-). apply HP; auto.
    - unfold same_pattern. apply (list_ext _ _ nil); [now rewrite !map_length|]. rewrite map_length. intros i Hi.
      rewrite (nth_indep _ nil (map fst (@nil (nat * R)))) by (rewrite map_length; auto). rewrite map_nth.
      rewrite (nth_indep _ nil (map fst (@nil (nat * R)))) by (rewrite map_length; lia). rewrite map_nth.
      destruct (HP i Hi) as [_ (E & _)]. exact E.
  Qed.

  (** The decomposition keeps the pattern and the product of the factors equals A at every stored position;
      otherwise it throws MatrixBlockError naming the first row whose pivot is singular. *)
  Theorem C15_ilu0 n (A : smat R) : mat_wf n n A -> diag_stored n A ->
    (exists F, blockILU0Decomposition A = Ok F /\ mat_wf n n F /\ same_pattern A F /\
       exists piv, pivots n F piv /\ forall i j, i < n -> instored A i j -> sum n (fun k => Lfac F i k * Ufac piv F k j) = den A i j) \/
    (exists r, blockILU0Decomposition A = Throw (EBlock r) /\ r < n /\ exists F, blockILU0Decomposition (firstn r A) = Ok F).
  Proof.
    intros [HL HW] HD. destruct (ilu_rows_outcome n A nil nil (partial_start n A) eq_refl HW) as [(F & E)|(r & E & Hr & F & EF)].
    - intros i Hi. apply HD. lia.
    - left. exists F. split; auto. destruct (ilu_rows_spec n A nil nil (partial_start n A) eq_refl HW F E) as [LF PF]. cbn [app] in *.
      destruct (partial_pattern n A F LF PF) as [W P]. rewrite HL in W. split; auto. split; auto. apply lu_product; auto; congruence.
    - right. exists r. split; auto. split; [lia|]. eauto.
  Qed.

  (** A row whose diagonal entry is missing while it has an entry further right is reported. *)
  Theorem C15_missing_diagonal_throws n (A : smat R) r F c a t : mat_wf n n A -> diag_stored r A -> r < n ->
    blockILU0Decomposition (firstn r A) = Ok F -> nth r A nil = (c, a) :: t -> r < c ->
    blockILU0Decomposition A = Throw EISTL.
  Proof.
    intros [HL HW] HD Hr HF Er Hc. unfold blockILU0Decomposition in *.
    assert (G : forall F0 A1 A2, ilu_rows F0 (A1 ++ A2) = obind (ilu_rows F0 A1) (fun F1 => ilu_rows F1 A2)).
    { intros F0 A1. revert F0. induction A1 as [|row t1 IH]; intros F0 A2; cbn [ilu_rows app obind]; auto.
      destruct (ilu_row (S (length row)) F0 (length F0) row); cbn [obind]; auto. }
    assert (LF : length F = r).
    { destruct (ilu_rows_spec n (firstn r A) nil nil (partial_start n _) eq_refl) with (F := F) as [L _]; auto.
      - rewrite Forall_forall in *. intros x Hx. apply HW. rewrite <- (firstn_skipn r A). apply in_or_app; auto.
      - cbn [app] in L. rewrite firstn_length in L. lia. }
    rewrite <- (firstn_skipn r A), G, HF. cbn [obind]. rewrite (skipn_cons_nth A r nil) by lia. rewrite Er. cbn [ilu_rows]. rewrite LF.
    cbn [length ilu_row]. destruct (Nat.ltb_spec c r); [lia|]. destruct (Nat.eqb_spec c r); [lia|]. reflexivity.
  Qed.
End Ilu.

(** noncommutative 2x2 blocks; also a singular pivot *)
Example C15_nonvacuous : mat_wf 2 2 exG /\ diag_stored 2 exG /\ exists F, blockILU0Decomposition (R := M2ring Qcring) M2Qinv exG = Ok F.
Proof. split; [apply C13_nonvacuous|]. split; [apply C13_nonvacuous|]. eexists. vm_compute. reflexivity. Qed.
Example C15_singular : blockILU0Decomposition (R := Qcring) Qcinv_opt [[(0, q 1); (1, q 2)]; [(0, q 2); (1, q 4)]] = Throw (EBlock 1).
Proof. vm_compute. reflexivity. Qed.
Print Assumptions C15_ilu0.
Print Assumptions C15_missing_diagonal_throws.
