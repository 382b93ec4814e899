(** * Incomplete LDL^T decomposition (dune/istl/ildl.hh), C19 *)
From Coq Require Import Arith List Lia Sorted Bool ZArith QArith Qcanon.
From Verif Require Import Ring Sums RingInst Outcome Sparse MatVec GsModel Gs Ilu IluSolve Dilu.
Import ListNotations.
Open Scope nat_scope.

Section Ildl.
  Context {R : ring}.
  Local Open Scope ring_scope_istl.
  Variable inv : R -> option R.
  Variable tr : R -> R.    (* transposition of a block (the identity for numbers) *)

  (** ** Model *)
  (** the two-cursor loop ildl.hh:103-115 for the entry A_ij = [a]; [ik]: entries of row i before column j (already updated),
      [jk]: row j.  bildl_subtractBCT(B,CT,A): A -= B CT^T (ildl.hh:26-73, without conjugation).  Reading behind the end of
      row j is UB. *)
  Fixpoint sub2 (j : nat) (ik : srow R) : srow R -> R -> outcome R :=
    fix aux (jk : srow R) (a : R) : outcome R :=
      match ik, jk with
      | nil, _ => Ok a
      | _ :: _, nil => UB
      | (k, x) :: t, (k', y) :: t' =>
          if k' <? j then
            if k =? k' then sub2 j t t' (a - x * tr y)
            else if k <? k' then sub2 j t jk a
            else aux t' a
          else Ok a
      end.
  (** first loop over row i, ildl.hh:94-116; [F]: finished rows, [done]: entries already treated *)
  Fixpoint dec1 (F : smat R) (i : nat) (done rest : srow R) : outcome (srow R * srow R) :=
    match rest with
    | nil => UB
    | (j, a) :: t => if j <? i then obind (sub2 j done (nth j F nil) a) (fun a' => dec1 F i (done ++ [(j, a')]) t)
                     else Ok (done, rest)
    end.
  (** second loop, ildl.hh:121-131 *)
  Fixpoint dec2 (F : smat R) (es : srow R) (aii : R) : outcome (srow R * R) :=
    match es with
    | nil => Ok (nil, aii)
    | (k, b) :: t => match row_find (nth k F nil) k with
                     | None => UB
                     | Some dk => let l := b * dk in
                                  obind (dec2 F t (aii - b * tr l)) (fun r => Ok ((k, l) :: fst r, snd r))
                     end
    end.
  Definition dec_row (F : smat R) (i : nat) (row : srow R) : outcome (srow R) :=
    obind (dec1 F i nil row) (fun p => match snd p with
    | nil => UB
    | (j, a) :: t => if j =? i then obind (dec2 F (fst p) a) (fun r => match inv (snd r) with
                                                                       | Some u => Ok (fst r ++ (i, u) :: t)
                                                                       | None => Throw (EBlock i)
                                                                       end)
                     else Throw EISTL      (* "diagonal entry missing" *)
    end).
  (** bildl_decompose, ildl.hh:87-147 *)
  Fixpoint dec_rows (F : smat R) (A : smat R) : outcome (smat R) :=
    match A with
    | nil => Ok F
    | row :: t => obind (dec_row F (length F) row) (fun r => dec_rows (F ++ [r]) t)
    end.
  Definition bildl_decompose (A : smat R) : outcome (smat R) := dec_rows nil A.

  (** bildl_backsolve, ildl.hh:154-229 *)
  Fixpoint scatter_sub (i : nat) (row : srow R) (v : vec R) : outcome (vec R) :=      (* ildl.hh:219-226, inner loop *)
    match row with
    | nil => UB
    | (j, a) :: t => if j <? i then scatter_sub i t (upd v j (vget v j - tr a * vget v i)) else Ok v
    end.
  Fixpoint back_rows (i : nat) (A : smat R) (v : vec R) : outcome (vec R) :=          (* from the last row to the first *)
    match A with
    | nil => Ok v
    | row :: t => obind (back_rows (S i) t v) (scatter_sub i row)
    end.
  Definition diag_entry (lower : bool) (i : nat) (row : srow R) : option R :=
    if lower then match rev row with (_, a) :: _ => Some a | nil => None end else row_find row i.
  (** bildl_backsolve, ildl.hh:158-228 *)
  Definition bildl_backsolve (A : smat R) (v d : vec R) (lower : bool) : outcome (vec R) :=
    obind (ubltsolve A v d) (fun v1 =>
    obind (fwd (fun i row v (_ : unit) => match diag_entry lower i row with Some a => Ok (a * vget v i, tt) | None => UB end) 0 A v1 tt) (fun r =>
    back_rows 0 A (fst r))).

  (** ** Specification *)
  (** (L D L^T)_ij *)
  Definition ldlt (n : nat) (F : smat R) (D : nat -> R) (i j : nat) : R := sum n (fun k => Lfac F i k * D k * tr (Lfac F j k)).

  (** ** Proof *)
  Hypothesis tr0 : tr r0 = r0.
  Hypothesis tr1 : tr r1 = r1.

  (** sum of matching pairs of two sorted rows *)
  Lemma sub2_spec m j : forall ik jk a, StronglySorted lt (map fst ik) -> StronglySorted lt (map fst jk) -> In j (map fst jk) ->
    Forall (fun e => fst e < m) ik ->
    sub2 j ik jk a = Ok (a - sum m (fun k => denrow ik k * tr (if k <? j then denrow jk k else r0))).
  Proof.
    induction ik as [|[k x] t IH]; intros jk a S1 S2 HI HM.
    - transitivity (Ok a); [destruct jk as [|[? ?] ?]; reflexivity|]. f_equal. rewrite sum_zero; [ncring|]. intros. cbn. ncring.
    - cbn [map fst] in S1. apply StronglySorted_inv in S1. destruct S1 as [S1 F1]. rewrite Forall_forall in F1. inversion HM as [|? ? M1 M2]; subst. cbn [fst] in M1.
      assert (ZK : forall c, c <= k -> denrow t c = r0).
      { intros c Hc. apply denrow_notin. intros HH. specialize (F1 _ HH). lia. }
      revert a. induction jk as [|[k' y] t' IHj]; intros a; [destruct HI|]. cbn [map fst] in S2. apply StronglySorted_inv in S2. destruct S2 as [S2 F2]. rewrite Forall_forall in F2.
      assert (ZK' : forall c, c <= k' -> denrow t' c = r0).
      { intros c Hc. apply denrow_notin. intros HH. specialize (F2 _ HH). lia. }
      cbn [sub2]. destruct (Nat.ltb_spec k' j) as [Hj|Hj].
      + assert (HI' : In j (map fst t')) by (destruct HI as [HI|HI]; [cbn in HI; lia|auto]).
        destruct (Nat.eqb_spec k k') as [<-|Hn].
        * rewrite IH by auto. f_equal. rewrite (sum_remove m k (fun c => denrow ((k, x) :: t) c * _)) by auto. cbn [denrow]. rewrite Nat.eqb_refl.
          destruct (Nat.ltb_spec k j); [|lia].
          rewrite (sum_ext m (fun i => if i =? k then r0 else _) (fun c => denrow t c * tr (if c <? j then denrow t' c else r0))); [ncring|].
          intros c Hc. rewrite (Nat.eqb_sym k c). destruct (Nat.eqb_spec c k) as [->|]; [rewrite ZK by lia; ncring|reflexivity].
        * destruct (Nat.ltb_spec k k') as [Hlt|Hge].
          -- rewrite IH; auto; [|cbn [map fst]; constructor; auto; apply Forall_forall; auto]. f_equal. f_equal. apply sum_ext. intros c Hc. cbn [denrow].
             destruct (Nat.eqb_spec k c) as [<-|]; [|reflexivity]. rewrite ZK by lia. destruct (Nat.eqb_spec k' k); [lia|]. rewrite ZK' by lia.
             destruct (k <? j); rewrite tr0; ncring.
          -- etransitivity; [apply (IHj S2 HI')|]. f_equal. f_equal. apply sum_ext. intros c Hc. cbn [denrow].
             destruct (Nat.eqb_spec k' c) as [<-|]; [|reflexivity]. destruct (Nat.eqb_spec k k'); [lia|]. rewrite (ZK k') by lia. ncring.
      + f_equal. rewrite sum_zero; [ncring|]. intros c Hc. cbn [denrow].
        destruct (Nat.ltb_spec c j) as [Hcj|]; [|rewrite tr0; ncring]. destruct (Nat.eqb_spec k' c); [lia|]. rewrite ZK' by lia. rewrite tr0. ncring.
  Qed.

  Lemma finite_choice {T} (d : T) (P : nat -> T -> Prop) n : (forall i, i < n -> exists p, P i p) -> exists D, forall i, i < n -> P i (D i).
  Proof.
    induction n as [|n IH]; intros H; [exists (fun _ => d); lia|]. destruct IH as [D HD]; [auto|]. destruct (H n ltac:(lia)) as [p Hp].
    exists (fun i => if i =? n then p else D i). intros i Hi. destruct (Nat.eqb_spec i n) as [->|]; auto. apply HD. lia.
  Qed.

  (** what a finished row satisfies; [x k] = L_ik D_k *)
  Definition ldl_row (m : nat) (F : smat R) (i : nat) (row row' : srow R) : Prop :=
    map fst row' = map fst row /\ (forall j, i < j -> denrow row' j = denrow row j) /\ exists x : nat -> R,
      (forall k, k < i -> denrow row' k = x k * den F k k) /\
      (forall k, ~ In k (map fst row) -> x k = r0) /\
      (forall j, j < i -> In j (map fst row) -> x j = denrow row j - sum j (fun k => x k * tr (den F j k))) /\
      inv (denrow row i - sum i (fun k => x k * tr (denrow row' k))) = Some (denrow row' i).

  Lemma sum_cut (m j : nat) (f g : nat -> R) : j <= m -> g 0%nat = g 0%nat ->
    (forall k, k < j -> f k = g k) -> (forall k, j <= k -> k < m -> f k = r0) -> sum m f = sum j g.
  Proof.
    intros H _ H1 H2. rewrite <- (sum_ext j f g) by auto. apply sum_extend; auto. intros i Hi. apply H2; lia.
  Qed.

  Lemma wf_lt m (row : srow R) : row_wf m row -> Forall (fun e => fst e < m) row.
  Proof. intros [_ H]. apply Forall_forall. intros e He. rewrite Forall_forall in H. apply H. now apply in_map. Qed.
  Lemma dec1_spec m F i : i < m -> (forall j, j < i -> row_wf m (nth j F nil) /\ In j (map fst (nth j F nil))) ->
    forall lo a hi done, row_wf m (done ++ lo ++ (i, a) :: hi) -> Forall (fun e => fst e < i) lo ->
    exists done', dec1 F i done (lo ++ (i, a) :: hi) = Ok (done ++ done', (i, a) :: hi) /\ map fst done' = map fst lo /\
      forall j, In j (map fst lo) -> denrow (done ++ done') j = denrow lo j - sum j (fun k => denrow (done ++ done') k * tr (den F j k)).
  Proof.
    intros Him HF. induction lo as [|[j b] t IH]; intros a hi done HW HL; cbn [app dec1].
    - rewrite Nat.ltb_irrefl. exists nil. rewrite app_nil_r. split; auto. split; auto. intros j [].
    - inversion HL as [|? ? L1 L2]; subst. cbn in L1. destruct (Nat.ltb_spec j i); [|lia].
      assert (HW' : row_wf m done /\ (forall k, In k (map fst done) -> k < j) /\ StronglySorted lt (map fst (((j, b) :: t) ++ (i, a) :: hi))).
      { destruct (row_wf_app m _ _ HW) as [W1 W2]. split; auto. split; [|apply W2]. destruct HW as [HS _]. rewrite map_app in HS. clear - HS.
        induction (map fst done) as [|c l IH]; intros k Hk; [destruct Hk|]. cbn [app] in HS. apply StronglySorted_inv in HS. destruct HS as [HS HF].
        destruct Hk as [<-|Hk]; [|auto]. rewrite Forall_forall in HF. apply HF. apply in_or_app. right. left. reflexivity. }
      destruct HW' as (WD & HDl & HSR). destruct (HF j ltac:(lia)) as [WJ IJ].
      rewrite (sub2_spec m j done (nth j F nil) b (proj1 WD) (proj1 WJ) IJ (wf_lt m done WD)).
      cbn [obind]. set (b' := b - _). destruct (IH a hi (done ++ [(j, b')])) as (d' & E & C & S); auto.
      { rewrite <- app_assoc. cbn [app]. destruct HW as [Q1 Q2]. split; rewrite map_app in *; cbn [map fst app] in *; auto. }
      rewrite <- app_assoc in E. cbn [app] in E. exists ((j, b') :: d'). split; auto. split; [cbn; now rewrite C|].
      assert (HJD : forall k, k < j -> denrow (done ++ (j, b') :: d') k = denrow done k).
      { intros k Hk. clear - Hk C HSR. assert (Z : denrow ((j, b') :: d') k = r0).
        { apply denrow_notin. cbn [map fst]. rewrite C. cbn [app map fst] in HSR. rewrite map_app in HSR. apply StronglySorted_inv in HSR. destruct HSR as [_ HF].
          rewrite Forall_forall in HF. intros [HH|HH]; [cbn in HH; lia|]. specialize (HF k). rewrite in_app_iff in HF. specialize (HF (or_introl HH)). lia. }
        clearbody b'. clear - Z. induction done as [|[c z] l IHl]; [exact Z|]. cbn [app denrow]. destruct (c =? k); auto. }
      assert (HJJ : denrow (done ++ (j, b') :: d') j = b').
      { clearbody b'. clear - HDl. induction done as [|[c z] l IHl]; cbn [app denrow]; [now rewrite Nat.eqb_refl|]. destruct (Nat.eqb_spec c j) as [->|].
        - specialize (HDl j (or_introl eq_refl)). lia.
        - apply IHl. intros k Hk. apply HDl. right; auto. }
      intros j0 [<-|Hj0].
      + cbn [fst]. rewrite HJJ. cbn [denrow]. rewrite Nat.eqb_refl. unfold b'. f_equal. apply sum_cut; [lia|auto| |].
        * intros k Hk. rewrite HJD by auto. unfold den. destruct (Nat.ltb_spec k j); [auto|lia].
        * intros k Hk Hk2. destruct (Nat.ltb_spec k j); [lia|]. rewrite tr0. ncring.
      + rewrite <- app_assoc in S. cbn [app] in S. rewrite (S j0 Hj0) at 1. f_equal. cbn [denrow]. destruct (Nat.eqb_spec j j0) as [->|]; auto.
        exfalso. cbn [app map fst] in HSR. rewrite map_app in HSR. apply StronglySorted_inv in HSR. destruct HSR as [_ HFr].
        rewrite Forall_forall in HFr. specialize (HFr j0). rewrite in_app_iff in HFr. specialize (HFr (or_introl Hj0)). lia.
  Qed.

  Lemma dec2_spec m F : forall es aii, NoDup (map fst es) -> Forall (fun k => k < m) (map fst es) -> (forall k, In k (map fst es) -> row_wf m (nth k F nil) /\ In k (map fst (nth k F nil))) ->
    exists es', dec2 F es aii = Ok (es', aii - sum m (fun k => denrow es k * tr (denrow es' k))) /\ map fst es' = map fst es /\
      forall k, denrow es' k = denrow es k * den F k k.
  Proof.
    induction es as [|[k b] t IH]; intros aii HN HM HF; cbn [dec2].
    - exists nil. split; [|split; auto].
      + do 2 f_equal. rewrite sum_zero; [ncring|]. intros. cbn. ncring.
      + intros k. cbn. ncring.
    - cbn in HN, HM. apply NoDup_cons_iff in HN. destruct HN as [N1 N2]. inversion HM; subst. destruct (HF k (or_introl eq_refl)) as [WK IK].
      assert (EK : row_find (nth k F nil) k = Some (den F k k)).
      { unfold den. clear - IK. induction (nth k F nil) as [|[c z] l IHl]; [destruct IK|]. cbn [row_find denrow]. destruct (Nat.eqb_spec c k); auto. apply IHl.
        destruct IK; [cbn in H; congruence|auto]. }
      rewrite EK. destruct (IH (aii - b * tr (b * den F k k)) N2 H2) as (es' & E & C & S); [intros; apply HF; right; auto|]. rewrite E. cbn [obind fst snd].
      exists ((k, b * den F k k) :: es'). split; [|split; [cbn; now rewrite C|]].
      + do 2 f_equal. rewrite (sum_remove m k (fun c => denrow ((k, b) :: t) c * _)) by auto. cbn [denrow]. rewrite Nat.eqb_refl.
        rewrite (sum_ext m (fun i => if i =? k then r0 else _) (fun c => denrow t c * tr (denrow es' c))); [ncring|].
        intros c Hc. rewrite (Nat.eqb_sym k c). destruct (Nat.eqb_spec c k) as [->|]; [|reflexivity]. rewrite (denrow_notin t) by auto. ncring.
      + intros c. cbn [denrow]. destruct (Nat.eqb_spec k c) as [->|]; auto.
  Qed.

  Lemma denrow_app (l1 l2 : srow R) j : denrow (l1 ++ l2) j = if in_dec Nat.eq_dec j (map fst l1) then denrow l1 j else denrow l2 j.
  Proof.
    induction l1 as [|[k a] t IH]; cbn [app denrow map fst]; [reflexivity|]. rewrite IH. destruct (Nat.eqb_spec k j) as [->|Hn].
    - destruct (in_dec Nat.eq_dec j (j :: map fst t)) as [|HN]; auto. exfalso. apply HN. left. auto.
    - destruct (in_dec Nat.eq_dec j (k :: map fst t)) as [HI|HN], (in_dec Nat.eq_dec j (map fst t)) as [HI'|HN']; auto.
      + destruct HI; [congruence|tauto].
      + exfalso. apply HN. right. auto.
  Qed.

  Lemma dec_row_spec m F i row : i < m -> (forall j, j < i -> row_wf m (nth j F nil) /\ In j (map fst (nth j F nil))) -> row_wf m row -> In i (map fst row) ->
    (exists row', dec_row F i row = Ok row' /\ ldl_row m F i row row') \/ dec_row F i row = Throw (EBlock i).
  Proof.
    intros Him HF HW HI. destruct (split_row _ i (proj1 HW) HI) as (lo & a & hi & E & H1 & H2).
    destruct (split_den m _ lo hi i a HW E H1 H2) as (W1 & W2 & Ea & D1 & D2).
    unfold dec_row. destruct (dec1_spec m F i Him HF lo a hi nil) as (d & E1 & C1 & S1); auto; [cbn [app]; rewrite <- E; auto|]. cbn [app] in E1, S1.
    replace (dec1 F i nil row) with (dec1 F i nil (lo ++ (i, a) :: hi)) by now rewrite <- E. rewrite E1. cbn [obind fst snd]. rewrite Nat.eqb_refl.
    assert (ND : NoDup (map fst d)) by (rewrite C1; apply (row_wf_NoDup m lo W1)).
    assert (LD : forall k, In k (map fst d) -> k < i).
    { intros k Hk. rewrite C1 in Hk. apply in_map_iff in Hk. destruct Hk as (e & <- & He). rewrite Forall_forall in H1. auto. }
    destruct (dec2_spec m F d a) as (d' & E2 & C2 & S2); auto.
    { rewrite C1. apply W1. }
    rewrite E2. cbn [obind fst snd]. destruct (inv _) as [u|] eqn:EI; [left|right; auto]. exists (d' ++ (i, u) :: hi). split; auto.
    assert (DL : forall k, k < i -> denrow (d' ++ (i, u) :: hi) k = denrow d' k).
    { intros k Hk. rewrite denrow_app. destruct (in_dec _ _ _) as [|N]; auto. rewrite (denrow_notin d') by auto. apply denrow_notin.
      cbn [map fst]. intros [HH|HH]; [lia|]. apply in_map_iff in HH. destruct HH as (e & <- & He). rewrite Forall_forall in H2. specialize (H2 _ He). lia. }
    assert (DI : denrow (d' ++ (i, u) :: hi) i = u).
    { rewrite denrow_app. destruct (in_dec _ _ _) as [Q|N]; [rewrite C2 in Q; apply LD in Q; lia|]. cbn [denrow]. now rewrite Nat.eqb_refl. }
    assert (DH : forall j, i < j -> denrow (d' ++ (i, u) :: hi) j = denrow row j).
    { intros j Hj. rewrite denrow_app. destruct (in_dec _ _ _) as [Q|N]; [rewrite C2 in Q; apply LD in Q; lia|]. cbn [denrow].
      destruct (Nat.eqb_spec i j); [lia|]. rewrite D2. destruct (Nat.ltb_spec i j); [auto|lia]. }
    split; [|split; [exact DH|]].
    - rewrite E, !map_app, C2, C1. reflexivity.
    - exists (denrow d). split; [|split; [|split]].
      + intros k Hk. rewrite DL by auto. apply S2.
      + intros k Hk. apply denrow_notin. rewrite C1. intros HH. apply Hk. rewrite E, map_app. apply in_or_app. auto.
      + intros j Hj HIj. rewrite E, map_app in HIj. apply in_app_or in HIj. assert (HL : In j (map fst lo)).
        { destruct HIj as [Q|[Q|Q]]; auto; [cbn in Q; lia|]. apply in_map_iff in Q. destruct Q as (e & <- & He). rewrite Forall_forall in H2. specialize (H2 _ He). lia. }
        rewrite (S1 j HL) at 1. f_equal. rewrite D1. destruct (Nat.ltb_spec j i); [auto|lia].
      + rewrite Ea, DI, <- EI. f_equal. f_equal. symmetry. apply sum_cut; [lia|auto| |].
        * intros k Hk. now rewrite DL.
        * intros k Hk Hk2. rewrite (denrow_notin d); [ncring|]. intros HH. apply LD in HH. lia.
  Qed.

  Definition ldl_ok (m : nat) (A F : smat R) : Prop :=
    forall i, i < length F -> row_wf m (nth i F nil) /\ In i (map fst (nth i F nil)) /\ ldl_row m F i (nth i A nil) (nth i F nil).
  Lemma ldl_row_ext m F G i row row' : (forall k, k <= i -> k <> i -> nth k F nil = nth k G nil) -> ldl_row m F i row row' -> ldl_row m G i row row'.
  Proof.
    intros HE (C & U & x & X1 & X2 & X3 & X4). split; auto. split; auto. exists x. split; [|split; [auto|split; [|auto]]].
    - intros k Hk. unfold den. rewrite <- HE by lia. apply X1; auto.
    - intros j Hj HI. unfold den. rewrite <- HE by lia. apply X3; auto.
  Qed.
  Lemma dec_rows_spec m A : forall A0 F0, ldl_ok m (A0 ++ A) F0 -> length F0 = length A0 -> length (A0 ++ A) <= m -> Forall (row_wf m) A ->
    (forall i, i < length A -> In (length F0 + i)%nat (map fst (nth i A nil))) ->
    (exists F, dec_rows F0 A = Ok F /\ length F = length (A0 ++ A) /\ ldl_ok m (A0 ++ A) F) \/
    (exists r, r < length A /\ dec_rows F0 A = Throw (EBlock (length F0 + r))).
  Proof.
    induction A as [|row t IH]; intros A0 F0 HO HL HM HW HD; cbn [dec_rows].
    - left. exists F0. rewrite app_nil_r in *. auto.
    - inversion HW as [|? ? W1 W2]; subst. pose proof (HD 0%nat ltac:(cbn; lia)) as HD0. rewrite Nat.add_0_r in HD0. cbn [nth] in HD0.
      rewrite app_length in HM. cbn [length] in HM.
      destruct (dec_row_spec m F0 (length F0) row) as [(r & E & RO)|E]; auto; [lia|intros j Hj; destruct (HO j Hj) as (Q1 & Q2 & _); auto| |].
      + rewrite E. cbn [obind]. assert (HWr : row_wf m r). { destruct RO as [C _]. destruct W1 as [Q1 Q2]. split; rewrite C; auto. }
        destruct (IH (A0 ++ [row]) (F0 ++ [r])) as [(F & EF & LF & OF)|(r' & Hr & EF)].
        * intros i Hi. rewrite app_length in Hi. cbn in Hi. rewrite <- app_assoc. cbn [app]. destruct (Nat.eq_dec i (length F0)) as [->|Hn].
          -- rewrite nth_middle. replace (nth (length F0) (A0 ++ row :: t) nil) with row by (rewrite HL; symmetry; apply nth_middle). split; auto. split; [destruct RO as [C _]; rewrite C; auto|].
             apply ldl_row_ext with (F := F0); auto. intros k Hk1 Hk2. rewrite app_nth1 by lia. auto.
          -- rewrite (app_nth1 F0) by lia. destruct (HO i ltac:(lia)) as (Q1 & Q2 & Q3). split; auto. split; auto.
             apply ldl_row_ext with (F := F0); auto. intros k Hk1 Hk2. rewrite app_nth1 by lia. auto.
        * rewrite !app_length. cbn. lia.
        * rewrite <- app_assoc. rewrite app_length. cbn [app length]. lia.
        * auto.
        * intros i Hi. rewrite app_length. cbn [length]. specialize (HD (S i) ltac:(cbn; lia)). cbn [nth] in HD.
          replace (length F0 + 1 + i)%nat with (length F0 + S i)%nat by lia. auto.
        * left. exists F. rewrite <- app_assoc in LF, OF. cbn [app] in LF, OF. auto.
        * right. exists (S r'). split; [cbn; lia|]. rewrite EF. rewrite app_length. cbn [length]. do 2 f_equal. lia.
      + right. exists 0%nat. split; [cbn; lia|]. rewrite E, Nat.add_0_r. reflexivity.
  Qed.

  Hypothesis inv_ok : forall a b, inv a = Some b -> inverse_of a b.

  (** The factors reproduce the lower triangle of A on its pattern; A need not be symmetric, entries right of the diagonal are not touched. *)
  Theorem C19_ildl n (A : smat R) : mat_wf n n A -> diag_stored n A ->
    (exists F D, bildl_decompose A = Ok F /\ mat_wf n n F /\ same_pattern A F /\ pivots n F D /\
       (forall i j, i < j -> den F i j = den A i j) /\
       forall i j, i < n -> j <= i -> instored A i j -> ldlt n F D i j = den A i j) \/
    (exists r, r < n /\ bildl_decompose A = Throw (EBlock r)).
  Proof.
    intros [HL HW] HD. destruct (dec_rows_spec n A nil nil) as [(F & E & LF & OF)|(r & Hr & E)]; auto.
    { intros i Hi. cbn in Hi. lia. } { cbn [app]. lia. } { intros i Hi. apply HD. lia. }
    2:{ right. exists r. split; [lia|auto]. }
    left. cbn [app] in *.
    destruct (finite_choice r0 (fun i p => inv p = Some (den F i i) /\ exists x, (forall k, k < i -> den F i k = x k * den F k k) /\
       (forall j, j < i -> instored A i j -> x j = den A i j - sum j (fun k => x k * tr (den F j k))) /\
       p = den A i i - sum i (fun k => x k * tr (den F i k))) n) as (D & HP).
    { intros i Hi. destruct (OF i ltac:(lia)) as (_ & _ & _ & _ & x & X1 & X2 & X3 & X4). eexists. split; [exact X4|]. exists x. split; [exact X1|]. split; [exact X3|reflexivity]. }
    assert (PV : pivots n F D) by (intros i Hi; apply inv_ok, HP; auto).
    exists F, D. split; auto. split; [|split; [|split; [exact PV|split]]].
    - split; [lia|]. apply Forall_forall. intros r Hr. apply (In_nth _ _ nil) in Hr. destruct Hr as (i & Hi & <-). apply OF; auto.
    - unfold same_pattern. apply (list_ext _ _ nil); [rewrite !map_length; lia|]. rewrite map_length. intros i Hi.
      rewrite (nth_indep _ nil (map fst (@nil (nat * R)))) by (rewrite map_length; auto). rewrite map_nth.
      rewrite (nth_indep _ nil (map fst (@nil (nat * R)))) by (rewrite map_length; lia). rewrite map_nth.
      destruct (OF i Hi) as (_ & _ & E' & _). exact E'.
    - intros i j Hij. unfold den. destruct (Nat.lt_ge_cases i n) as [Hi|Hi]; [|rewrite !nth_overflow by lia; reflexivity].
      destruct (OF i ltac:(lia)) as (_ & _ & _ & Q & _). apply Q. auto.
    - intros i j Hi Hj HS. destruct (HP i Hi) as (_ & x & X1 & X3 & X4).
      assert (X0 : forall k, k < i -> den F i k * D k = x k).
      { intros k Hk. rewrite X1 by auto. rewrite <- rmul_assoc, (proj2 (PV k ltac:(lia))). apply rmul_1_r. }
      unfold ldlt. destruct (Nat.eq_dec j i) as [->|Hn].
      + rewrite (sum_ext n _ (fun k => ind (k <? i) (x k * tr (den F i k)) + ind (k =? i) (D k))).
        * rewrite sum_add, sum_ind_lt, sum_ind_eq by lia. rewrite X4 at 1. ncring.
        * intros k Hk. unfold Lfac, ind. destruct (Nat.ltb_spec k i), (Nat.eqb_spec k i); try lia; [rewrite X0 by auto; ncring| |rewrite tr0; ncring].
          rewrite tr1. ncring.
      + rewrite (sum_ext n _ (fun k => ind (k <? j) (x k * tr (den F j k)) + ind (k =? j) (x k))).
        * rewrite sum_add, sum_ind_lt, sum_ind_eq by lia. rewrite (X3 j) by (auto; lia). ncring.
        * intros k Hk. unfold Lfac, ind. destruct (Nat.ltb_spec k j), (Nat.eqb_spec k j); try lia.
          -- destruct (Nat.ltb_spec k i); [|lia]. rewrite X0 by auto. ncring.
          -- destruct (Nat.ltb_spec k i); [|lia]. rewrite X0 by auto. rewrite tr1. ncring.
          -- rewrite tr0. ncring.
  Qed.

  (** For symmetric A the whole matrix is reproduced on its pattern. *)
  Hypothesis tr_add : forall a b, tr (a + b) = tr a + tr b.
  Hypothesis tr_mul : forall a b, tr (a * b) = tr b * tr a.
  Hypothesis tr_tr : forall a, tr (tr a) = a.
  Lemma tr_opp a : tr (- a) = - tr a.
  Proof. apply radd_cancel_l with (tr a). rewrite <- tr_add, !radd_opp_r. auto. Qed.
  Lemma tr_sub a b : tr (a - b) = tr a - tr b.
  Proof. unfold rsub. rewrite tr_add, tr_opp. reflexivity. Qed.
  Lemma tr_sum n f : tr (sum n f) = sum n (fun i => tr (f i)).
  Proof. induction n; cbn [sum]; [exact tr0|]. now rewrite tr_add, IHn. Qed.

  Theorem C19_ildl_symmetric n (A F : smat R) D : mat_wf n n A -> diag_stored n A -> (forall i j, den A j i = tr (den A i j)) ->
    pivots n F D -> (forall i j, i < n -> j <= i -> instored A i j -> ldlt n F D i j = den A i j) ->
    (forall i, i < n -> tr (D i) = D i) /\ forall i j, i < n -> j < n -> instored A i j -> instored A j i -> ldlt n F D i j = den A i j.
  Proof.
    intros HW HD HS HP HE.
    assert (DI : forall i, i < n -> D i = den A i i - sum i (fun k => den F i k * D k * tr (den F i k))).
    { intros i Hi. rewrite <- (HE i i Hi) by auto. unfold ldlt.
      rewrite (sum_ext n _ (fun k => ind (k <? i) (den F i k * D k * tr (den F i k)) + ind (k =? i) (D k))).
      - rewrite sum_add, sum_ind_lt, sum_ind_eq by lia. ncring.
      - intros k Hk. unfold Lfac, ind. destruct (Nat.ltb_spec k i), (Nat.eqb_spec k i); try lia; [ncring|rewrite tr1; ncring|rewrite tr0; ncring]. }
    assert (DS : forall i, i < n -> tr (D i) = D i).
    { intros i. induction i as [i IH] using (well_founded_induction lt_wf). intros Hi. rewrite (DI i Hi). rewrite tr_sub, <- HS, tr_sum. f_equal.
      apply sum_ext. intros k Hk. rewrite !tr_mul, tr_tr, IH by lia. ncring. }
    split; auto. intros i j Hi Hj HI HJ. destruct (Nat.le_gt_cases j i) as [Hji|Hji]; [apply HE; auto|].
    rewrite HS, <- (HE j i Hj) by (auto; lia). unfold ldlt. rewrite tr_sum. apply sum_ext. intros k Hk. rewrite !tr_mul, tr_tr, DS by lia. ncring.
  Qed.

  (** *** back substitution *)
  Lemma scatter_lo i : forall lo a hi (v : vec R), Forall (fun e => fst e < i) lo -> NoDup (map fst lo) -> i < length v ->
    exists v', scatter_sub i (lo ++ (i, a) :: hi) v = Ok v' /\ length v' = length v /\ forall k, vget v' k = vget v k - tr (denrow lo k) * vget v i.
  Proof.
    induction lo as [|[j b] t IH]; intros a hi v H HN Hi; cbn [app scatter_sub].
    - rewrite Nat.ltb_irrefl. exists v. split; auto. split; auto. intros k. cbn. rewrite tr0. ncring.
    - inversion H as [|? ? H1 H2]; subst. cbn in H1, HN. apply NoDup_cons_iff in HN. destruct HN as [N1 N2]. destruct (Nat.ltb_spec j i); [|lia].
      destruct (IH a hi (upd v j (vget v j - tr b * vget v i)) H2 N2) as (v' & E & L & S); [rewrite upd_length; auto|]. rewrite E. exists v'.
      split; auto. rewrite upd_length in L. split; auto. intros k. rewrite S, !vget_upd by lia. cbn [denrow]. destruct (Nat.eqb_spec i j); [lia|].
      rewrite (Nat.eqb_sym k j). destruct (Nat.eqb_spec j k) as [->|]; [|auto]. rewrite (denrow_notin t) by auto. rewrite tr0. ncring.
  Qed.

  Lemma back_spec n (A : smat R) : mat_wf n n A -> diag_stored n A -> forall t k (w : vec R), t = skipn k A -> (k + length t)%nat = n -> length w = n ->
    exists v, back_rows k t w = Ok v /\ length v = n /\
      forall j, vget v j = vget w j - sum n (fun i => ind (k <=? i) (tr (Lp A i j) * vget v i)).
  Proof.
    intros HW HD. induction t as [|row t IH]; intros k w Ht Hk HL; cbn [back_rows].
    - exists w. split; auto. split; auto. intros j. rewrite sum_zero; [ncring|]. intros i Hi. unfold ind. cbn in Hk. destruct (Nat.leb_spec k i); [lia|auto].
    - cbn in Hk. rewrite (skipn_cons_nth A k nil) in Ht by (rewrite (proj1 HW); lia). injection Ht as Hr Ht.
      destruct (IH (S k) w Ht ltac:(lia) HL) as (v & E & L & SS). rewrite E. cbn [obind].
      destruct (wf_split n n A k HW (HD k ltac:(lia))) as (lo & hi & E1 & H1 & H2 & _).
      destruct (split_den n _ lo hi k _ (mat_wf_row n n A k HW) E1 H1 H2) as (W1 & _ & _ & D1 & _).
      rewrite Hr, E1. destruct (scatter_lo k lo (den A k k) hi v H1 (row_wf_NoDup _ _ W1) ltac:(lia)) as (v' & E2 & L2 & S2).
      exists v'. split; auto. split; [congruence|]. intros j. rewrite S2, SS.
      assert (UNCH : forall i, k <= i -> vget v' i = vget v i).
      { intros i Hi. rewrite S2, D1. destruct (Nat.ltb_spec i k); [lia|]. rewrite tr0. ncring. }
      rewrite (sum_ext n (fun i => ind (k <=? i) _) (fun i => ind (i =? k) (tr (Lp A k j) * vget v k) + ind (S k <=? i) (tr (Lp A i j) * vget v i))).
      + rewrite sum_add, (sum_ind_eq n k (fun _ => tr (Lp A k j) * vget v k)) by lia. rewrite D1. unfold Lp at 2. unfold den.
        set (s := sum n _). ncring.
      + intros i Hi. unfold ind. destruct (Nat.leb_spec k i), (Nat.eqb_spec i k) as [Hik|], (Nat.leb_spec (S k) i); try lia; try (rewrite Hik); rewrite ?UNCH by lia; ncring.
  Qed.

  Theorem C19_backsolve n (F : smat R) (D : nat -> R) (v d : vec R) (lower : bool) : mat_wf n n F -> diag_stored n F -> pivots n F D ->
    (lower = true -> forall i j, instored F i j -> j <= i) -> length v = n -> length d = n ->
    exists v', bildl_backsolve F v d lower = Ok v' /\ length v' = n /\ solves n (ldlt n F D) (vget v') (vget d).
  Proof.
    intros HW HD HP HLo Hv Hd. unfold bildl_backsolve. pose proof (proj1 HW) as LA.
    destruct (blt_char n F HW HD (fun _ r => Ok r) v d Hv) as (z & Ez & Lz & Hz); [intros; eauto|].
    unfold ubltsolve. rewrite Ez. cbn [obind].
    set (f := fun (i : nat) (row : srow R) (v : vec R) (_ : unit) => _).
    assert (ROW : forall i x e, i < n -> f i (nth i F nil) x e = Ok (den F i i * vget x i, tt)).
    { intros i x e Hi. destruct (wf_split n n F i HW (HD i Hi)) as (lo & hi & E & H1 & H2 & _). unfold f, diag_entry. destruct lower.
      - destruct hi as [|[c b] t].
        + rewrite E, rev_app_distr. reflexivity.
        + exfalso. specialize (HLo eq_refl i c). inversion H2; subst. cbn in H3. assert (c <= i); [|lia]. apply HLo. unfold instored. rewrite E, map_app. apply in_or_app. right. right. left. reflexivity.
      - rewrite E, row_find_split by auto. reflexivity. }
    assert (HT : exists x' e', fwd f 0 F z tt = Ok (x', e')).
    { apply fwd_total; [lia|]. intros i xi ei Hi _. cbn [Nat.add]. rewrite ROW by lia. eauto. }
    destruct HT as (w & e' & E'). rewrite E'. cbn [obind fst]. destruct (fwd_spec r0 f F 0 z tt w e' E' ltac:(lia)) as (Lw & _ & HS).
    assert (HWW : forall i, i < n -> vget w i = den F i i * vget z i).
    { intros i Hi. destruct (HS i ltac:(lia)) as (xi & ei & ei' & A1 & A2 & A3 & A4). cbn [Nat.add] in *. rewrite ROW in A2 by auto. injection A2 as A2 _.
      unfold vget at 1. rewrite <- A2. unfold vget. now rewrite A4 by lia. }
    destruct (back_spec n F HW HD F 0 w eq_refl LA ltac:(congruence)) as (v' & EB & LB & HB). exists v'. split; auto. split; auto.
    intros i Hi. unfold dense_mv, ldlt.
    (* L^T v' = w *)
    assert (HU : forall k, k < n -> sum n (fun j => tr (Lfac F j k) * vget v' j) = vget w k).
    { intros k Hk. rewrite (sum_ext n _ (fun j => ind (j =? k) (vget v' j) + ind (0 <=? j) (tr (Lp F j k) * vget v' j))).
      - rewrite sum_add, sum_ind_eq by auto. rewrite (HB k) at 1. ncring.
      - intros j Hj. unfold Lfac, Lp, ind. destruct (Nat.leb_spec 0 j); [|lia]. rewrite (Nat.eqb_sym k j).
        destruct (Nat.ltb_spec k j), (Nat.eqb_spec j k); try lia; rewrite ?tr0, ?tr1; ncring. }
    transitivity (sum n (fun k => Lfac F i k * vget z k)).
    { rewrite (sum_ext n (fun j => _ * vget v' j) (fun j => sum n (fun k => Lfac F i k * D k * (tr (Lfac F j k) * vget v' j)))).
      - rewrite sum_swap. apply sum_ext. intros k Hk. rewrite sum_mul_l, HU, HWW by auto. rewrite <- rmul_assoc. f_equal. rewrite rmul_assoc, (proj1 (HP k Hk)). apply rmul_1_l.
      - intros j Hj. rewrite <- sum_mul_r. apply sum_ext. intros k Hk. ncring. }
    rewrite (sum_ext n _ (fun k => Lp F i k * vget z k + ind (k =? i) (vget z k))).
    - rewrite sum_add, sum_ind_eq by auto. specialize (Hz i Hi). injection Hz as Hz. set (s := sum n _) in *; clearbody s; rewrite <- Hz; ncring.
    - intros k Hk. unfold Lfac, Lp, ind. destruct (Nat.ltb_spec k i), (Nat.eqb_spec k i); try lia; ncring.
  Qed.

  Lemma dec_rows_len A : forall F0 F, dec_rows F0 A = Ok F -> length F = (length F0 + length A)%nat.
  Proof.
    induction A as [|row t IH]; intros F0 F H; cbn [dec_rows] in H; [injection H as <-; cbn; lia|].
    destruct (dec_row F0 (length F0) row); cbn [obind] in H; try discriminate. apply IH in H. rewrite H, app_length. cbn. lia.
  Qed.
  (** a row without diagonal entry but with an entry further right is reported *)
  Theorem C19_missing_diagonal_throws n (A : smat R) r F c a t : mat_wf n n A -> r < n -> bildl_decompose (firstn r A) = Ok F ->
    nth r A nil = (c, a) :: t -> r < c -> bildl_decompose A = Throw EISTL.
  Proof.
    intros [HL HW] Hr HF Er Hc. unfold bildl_decompose in *.
    assert (LF : length F = r) by (apply dec_rows_len in HF; cbn [length] in HF; rewrite firstn_length in HF; lia).
    assert (G : forall F0 A1 A2, dec_rows F0 (A1 ++ A2) = obind (dec_rows F0 A1) (fun F1 => dec_rows F1 A2)).
    { intros F0 A1. revert F0. induction A1 as [|row t1 IH]; intros F0 A2; cbn [dec_rows app obind]; auto.
      destruct (dec_row F0 (length F0) row); cbn [obind]; auto. }
    rewrite <- (firstn_skipn r A), G, HF. cbn [obind]. rewrite (skipn_cons_nth A r nil) by lia. rewrite Er. cbn [dec_rows]. rewrite LF.
    unfold dec_row. cbn [dec1]. destruct (Nat.ltb_spec c r); [lia|]. cbn [obind snd fst]. destruct (Nat.eqb_spec c r); [lia|]. reflexivity.
  Qed.
End Ildl.

Definition exS : smat Qcring := [[(0, q 2); (1, q 1)]; [(0, q 1); (1, q 3); (2, q 1)]; [(1, q 1); (2, q 1)]].
Example C19_nonvacuous : mat_wf 3 3 exS /\ diag_stored 3 exS /\ (forall i j, den exS j i = den exS i j) /\
  match bildl_decompose (R := Qcring) Qcinv_opt (fun x => x) exS with Ok _ => True | _ => False end.
Proof.
  split; [split; [reflexivity|]; repeat (constructor; [split; cbn [map fst]; repeat constructor; lia|]); constructor|].
  split; [intros i Hi; do 3 (destruct i as [|i]; [cbn; tauto|]); lia|]. split; [|vm_compute; exact I].
  intros i j. do 3 (destruct i as [|i]; [do 3 (destruct j as [|j]; [reflexivity|]); destruct j; reflexivity|]).
  do 3 (destruct j as [|j]; [destruct i; reflexivity|]). destruct i, j; reflexivity.
Qed.
Print Assumptions C19_ildl.
Print Assumptions C19_ildl_symmetric.
Print Assumptions C19_backsolve.
Print Assumptions C19_missing_diagonal_throws.
