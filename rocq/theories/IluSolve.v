(** * ILU back-substitution and the compressed storage of the factors (dune/istl/ilu.hh:99-141, 268-430), C17 *)
From Coq Require Import Arith List Lia Sorted Bool ZArith QArith Qcanon.
From Verif Require Import Ring Sums RingInst Outcome Sparse MatVec GsModel Gs Ilu.
Import ListNotations.
Open Scope nat_scope.

Section IluSolve.
  Context {R : ring}.
  Local Open Scope ring_scope_istl.

  (** ** Model *)
  (** blockILUBacksolve, ilu.hh:100-141.  First loop: v[i] = d[i] - sum_{j<i} F_ij v[j]. *)
  Definition ilu_lower (F : smat R) (v d : vec R) : outcome (vec R) := ubltsolve F v d.
  Definition ilu_up_body (i : nat) (row : srow R) (v : vec R) (_ : unit) : outcome (R * unit) :=
    let (rhs, rest) := upper_loop r0 blk_mmv i (rev row) v (vget v i) in
    match rest with
    | (_, a) :: _ => Ok (a * rhs, tt)     (* the diagonal stores the inverse *)
    | nil => UB
    end.
  Definition ilu_upper (F : smat R) (v : vec R) : outcome (vec R) := obind (bwd ilu_up_body 0 F v tt) (fun r => Ok (fst r)).
  Definition ilu_backsolve (F : smat R) (v d : vec R) : outcome (vec R) := obind (ilu_lower F v d) (ilu_upper F).

  (** struct CRS, ilu.hh:271-317 *)
  Record crs := mkcrs { c_n : nat; c_rows : list nat; c_vals : list R; c_cols : list nat }.
  Definition crs_new : crs := mkcrs 0 nil nil nil.
  Definition vec_resize {T} (n : nat) (d : T) (l : list T) : list T := firstn n l ++ repeat d (n - length l).
  (** resize, ilu.hh:288-295; new row starts are size_type(-1), here 0 *)
  Definition crs_resize (c : crs) (n : nat) : crs :=
    if c_n c =? n then c else mkcrs n (vec_resize (S n) 0 (c_rows c)) (c_vals c) (c_cols c).
  Definition crs_push (c : crs) (a : R) (j : nat) : crs := mkcrs (c_n c) (c_rows c) (c_vals c ++ [a]) (c_cols c ++ [j]).
  (** rows_[i] = x *)
  Definition crs_setrow (c : crs) (i x : nat) : outcome crs :=
    if i <? length (c_rows c) then Ok (mkcrs (c_n c) (upd (c_rows c) i x) (c_vals c) (c_cols c)) else UB.

  (** convertToCRS, first loop, ilu.hh:334-348 *)
  Fixpoint conv_low_row (i : nat) (row : srow R) (c : crs) (cc : nat) : outcome (crs * nat) :=
    match row with
    | nil => UB
    | (j, a) :: t => if j <? i then conv_low_row i t (crs_push c a j) (S cc) else Ok (c, cc)
    end.
  Fixpoint conv_low (i : nat) (A : smat R) (c : crs) (cc : nat) : outcome crs :=
    match A with
    | nil => Ok c
    | row :: t => obind (conv_low_row i row c cc) (fun p => obind (crs_setrow (fst p) (S i) (snd p)) (fun c' => conv_low (S i) t c' (snd p)))
    end.
  (** second loop, ilu.hh:350-380: rows and columns in reverse order *)
  Fixpoint conv_up_row (i : nat) (rrow : srow R) (r : nat) (c : crs) (iv : list R) (cc : nat) : crs * list R * nat :=
    match rrow with
    | nil => (c, iv, cc)
    | (j, a) :: t => if j =? i then (c, upd iv r a, cc)
                     else if i <=? j then conv_up_row i t r (crs_push c a j) iv (S cc)
                     else conv_up_row i t r c iv cc
    end.
  Fixpoint conv_up (l : list (nat * srow R)) (r : nat) (c : crs) (iv : list R) (cc : nat) : outcome (crs * list R) :=
    match l with
    | nil => Ok (c, iv)
    | (i, row) :: t => let '(c1, iv1, cc1) := conv_up_row i (rev row) r c iv cc in
                       obind (crs_setrow c1 (S r) cc1) (fun c2 => conv_up t (S r) c2 iv1 cc1)
    end.
  (** ilu.hh:319-381; the reservation of memory has no observable effect *)
  Definition convertToCRS (A : smat R) (lower upper : crs) (iv : list R) : outcome (crs * crs * list R) :=
    let n := length A in
    obind (crs_setrow (crs_resize lower n) 0 0) (fun l0 =>
    obind (conv_low 0 A l0 0) (fun l1 =>
    obind (crs_setrow (crs_resize upper n) 0 0) (fun u0 =>
    obind (conv_up (rev (combine (seq 0 n) A)) 0 u0 (vec_resize n r0 iv) 0) (fun p => Ok (l1, fst p, snd p))))).

  (** entries [a], ..., [a+k-1] of the arrays *)
  Fixpoint crs_slice (c : crs) (k a : nat) : option (srow R) :=
    match k with
    | 0 => Some nil
    | S k => match nth_error (c_vals c) a, nth_error (c_cols c) a with
             | Some v, Some j => match crs_slice c k (S a) with Some t => Some ((j, v) :: t) | None => None end
             | _, _ => None
             end
    end.
  Definition crs_row (c : crs) (i : nat) : option (srow R) :=
    match nth_error (c_rows c) i, nth_error (c_rows c) (S i) with
    | Some a, Some b => crs_slice c (b - a)%nat a
    | _, _ => None
    end.
  (** blockILUBacksolve on CRS, ilu.hh:384-428 *)
  Fixpoint crs_lower (c : crs) (k i : nat) (v d : vec R) : outcome (vec R) :=
    match k with
    | 0 => Ok v
    | S k => match crs_row c i with
             | Some es => crs_lower c k (S i) (upd v i (minus_all r0 blk_mmv es v (vget d i))) d
             | None => UB
             end
    end.
  Fixpoint crs_upper (c : crs) (iv : list R) (n k : nat) (v : vec R) : outcome (vec R) :=   (* k rows to go, i = n-k, index k-1 = lastRow-i *)
    match k with
    | 0 => Ok v
    | S k => match crs_row c (n - S k)%nat, nth_error iv (n - S k)%nat with
             | Some es, Some a => crs_upper c iv n k (upd v k (a * minus_all r0 blk_mmv es v (vget v k)))
             | _, _ => UB
             end
    end.
  (** ILU::blockILUBacksolve (CRS), ilu.hh:382-430 *)
  Definition crs_backsolve (lower upper : crs) (iv : list R) (v d : vec R) : outcome (vec R) :=
    if c_n lower =? c_n upper then obind (crs_lower lower (c_n lower) 0 v d) (crs_upper upper iv (c_n lower) (c_n lower))
    else Throw EISTL.

  (** ** Proof *)
  Lemma upper_char n (F : smat R) (v : vec R) : mat_wf n n F -> diag_stored n F -> length v = n ->
    exists v', ilu_upper F v = Ok v' /\ length v' = n /\
      forall i, i < n -> vget v' i = den F i i * (vget v i - sum n (fun j => Up F i j * vget v' j)).
  Proof.
    intros HW HD Hv. unfold ilu_upper. pose proof (proj1 HW) as HL.
    assert (HT : exists x' e', bwd ilu_up_body 0 F v tt = Ok (x', e')).
    { apply (bwd_total r0); [lia|]. intros i xi ei Hi _. cbn [Nat.add]. unfold ilu_up_body.
      destruct (wf_split n n F i HW (HD i ltac:(lia))) as (lo & hi & E & H1 & H2 & _).
      rewrite E, upper_loop_split by auto. eauto. }
    destruct HT as (v' & e' & E'). rewrite E'. cbn. exists v'. split; auto.
    destruct (bwd_spec r0 ilu_up_body F 0 v tt v' e' E' ltac:(lia)) as (L' & _ & HS). split; [congruence|]. intros i Hi.
    destruct (HS i ltac:(lia)) as (xi & ei & ei' & A1 & A2 & A3 & A4). cbn [Nat.add] in *. unfold ilu_up_body in A2.
    destruct (wf_split n n F i HW (HD i Hi)) as (lo & hi & E & H1 & H2 & S1 & S2 & S3).
    rewrite E, upper_loop_split in A2 by auto. rewrite (hi_ext i (rev hi) xi v') in A2; auto.
    2:{ rewrite Forall_forall in *. intros e He. apply H2. apply in_rev; auto. }
    rewrite S3 in A2. injection A2 as A2 _. unfold vget at 1. rewrite <- A2. unfold vget. rewrite A3 by auto. reflexivity.
  Qed.

  (** Back-substitution solves L (U v) = d. *)
  Theorem C17_backsolve n (F : smat R) (piv : nat -> R) (v d : vec R) : mat_wf n n F -> diag_stored n F -> pivots n F piv ->
    length v = n -> length d = n ->
    exists v', ilu_backsolve F v d = Ok v' /\ length v' = n /\
      forall i, i < n -> sum n (fun k => Lfac F i k * sum n (fun j => Ufac piv F k j * vget v' j)) = vget d i.
  Proof.
    intros HW HD HP Hv Hd. unfold ilu_backsolve, ilu_lower.
    destruct (blt_char n F HW HD (fun _ r => Ok r) v d Hv) as (z & Ez & Lz & Hz); [intros; eauto|].
    unfold ubltsolve. rewrite Ez. cbn [obind]. destruct (upper_char n F z HW HD Lz) as (v' & E & L & H). exists v'. split; auto. split; auto.
    assert (HU : forall k, k < n -> sum n (fun j => Ufac piv F k j * vget v' j) = vget z k).
    { intros k Hk. rewrite (sum_ext n _ (fun j => ind (j =? k) (piv k * vget v' k) + Up F k j * vget v' j)).
      - rewrite sum_add. rewrite (sum_single n k) by (first [assumption|intros x _ Hx; unfold ind; destruct (Nat.eqb_spec x k); [congruence|auto]]).
        cbv beta. rewrite Nat.eqb_refl. cbn [ind]. rewrite (H k Hk) at 1. rewrite rmul_assoc. rewrite (proj1 (HP k Hk)). ncring.
      - intros j Hj. unfold Ufac, Up, ind. destruct (Nat.ltb_spec k j), (Nat.eqb_spec j k); try lia; [ncring| |].
        + subst. rewrite Nat.eqb_refl. ncring.
        + destruct (Nat.eqb_spec k j); [lia|]. ncring. }
    intros i Hi. rewrite (sum_ext n _ (fun k => Lp F i k * vget z k + ind (k =? i) (vget z i))).
    - rewrite sum_add. rewrite (sum_single n i (fun k => ind (k =? i) (vget z i))) by (first [assumption|intros x _ Hx; unfold ind; destruct (Nat.eqb_spec x i); [congruence|auto]]).
      rewrite Nat.eqb_refl. cbn [ind]. specialize (Hz i Hi). injection Hz as Hz. rewrite <- Hz. ncring.
    - intros k Hk. rewrite HU by auto. unfold Lfac, Lp, ind. destruct (Nat.ltb_spec k i), (Nat.eqb_spec k i) as [->|]; try lia; ncring.
  Qed.

  (** *** CRS *)
  Definition crs_holds (c : crs) (n : nat) (pre : srow R) (segs : list (srow R)) : Prop :=
    c_n c = n /\ length (c_rows c) = S n /\ c_vals c = map snd (pre ++ concat segs) /\ c_cols c = map fst (pre ++ concat segs) /\
    forall j, j <= length segs -> nth_error (c_rows c) j = Some (length (concat (firstn j segs))).

  Lemma slice_mid c (p es s : srow R) : c_vals c = map snd (p ++ es ++ s) -> c_cols c = map fst (p ++ es ++ s) ->
    crs_slice c (length es) (length p) = Some es.
  Proof.
    revert p. induction es as [|[j a] t IH]; intros p Hv Hc; [reflexivity|]. cbn [crs_slice length].
    assert (E1 : nth_error (c_vals c) (length p) = Some a) by (rewrite Hv, map_app, nth_error_app2 by (rewrite map_length; auto); rewrite map_length, Nat.sub_diag; reflexivity).
    assert (E2 : nth_error (c_cols c) (length p) = Some j) by (rewrite Hc, map_app, nth_error_app2 by (rewrite map_length; auto); rewrite map_length, Nat.sub_diag; reflexivity).
    rewrite E1, E2.
    specialize (IH (p ++ [(j, a)])). rewrite app_length in IH. cbn [length] in IH. rewrite Nat.add_1_r in IH. rewrite <- app_assoc in IH. cbn [app] in IH. rewrite IH; auto.
  Qed.
  Lemma concat_firstn_S {T} (segs : list (list T)) i : i < length segs -> concat (firstn (S i) segs) = concat (firstn i segs) ++ nth i segs nil.
  Proof.
    revert i. induction segs as [|s t IH]; intros i Hi; [cbn in Hi; lia|]. destruct i.
    - cbn. now rewrite app_nil_r.
    - cbn in Hi. change (firstn (S (S i)) (s :: t)) with (s :: firstn (S i) t). change (firstn (S i) (s :: t)) with (s :: firstn i t). cbn [concat nth]. rewrite IH by lia. now rewrite app_assoc.
  Qed.
  Lemma firstn_S_nth {T} (l : list T) k d : k < length l -> firstn (S k) l = firstn k l ++ [nth k l d].
  Proof.
    revert k. induction l as [|x t IH]; intros k Hk; [cbn in Hk; lia|]. destruct k; [reflexivity|]. cbn in Hk.
    change (firstn (S (S k)) (x :: t)) with (x :: firstn (S k) t). rewrite IH by lia. reflexivity.
  Qed.
  Lemma holds_row c n segs i : crs_holds c n nil segs -> i < length segs -> crs_row c i = Some (nth i segs nil).
  Proof.
    intros (H1 & H2 & H3 & H4 & H5) Hi. unfold crs_row. rewrite (H5 i), (H5 (S i)) by lia.
    assert (E : concat (firstn (S i) segs) = concat (firstn i segs) ++ nth i segs nil).
    { apply concat_firstn_S; auto. }
    rewrite E, app_length. replace (length (concat (firstn i segs)) + length (nth i segs nil) - length (concat (firstn i segs)))%nat with (length (nth i segs nil)) by lia.
    assert (E2 : concat segs = concat (firstn i segs) ++ nth i segs nil ++ concat (skipn (S i) segs)).
    { rewrite app_assoc, <- E, <- concat_app, firstn_skipn. reflexivity. }
    apply (slice_mid c _ _ (concat (skipn (S i) segs))); [rewrite H3, E2|rewrite H4, E2]; reflexivity.
  Qed.

  (** pushing a segment and closing the row *)
  Definition pushed (c : crs) (es : srow R) : crs := mkcrs (c_n c) (c_rows c) (c_vals c ++ map snd es) (c_cols c ++ map fst es).
  Lemma holds_step c n pre segs es : crs_holds c n pre segs -> length segs < n ->
    exists c', crs_setrow (pushed c es) (S (length segs)) (length (concat segs) + length es) = Ok c' /\ crs_holds c' n pre (segs ++ [es]).
  Proof.
    intros (H1 & H2 & H3 & H4 & H5) HL. unfold crs_setrow. cbn [c_rows pushed]. destruct (Nat.ltb_spec (S (length segs)) (length (c_rows c))); [|lia].
    eexists. split; [reflexivity|]. split; [auto|]. cbn [c_rows c_vals c_cols]. split; [now rewrite upd_length|].
    cbn [pushed c_vals c_cols c_n]. rewrite concat_app. cbn [concat]. rewrite app_nil_r, app_assoc, H3, H4. rewrite !map_app. split; auto. split; auto.
    intros j Hj. rewrite app_length in Hj. cbn [length] in Hj. rewrite nth_error_upd. destruct (Nat.eqb_spec (S (length segs)) j) as [<-|Hn].
    - destruct (Nat.ltb_spec (S (length segs)) (length (c_rows c))); [|lia]. rewrite firstn_all2 by (rewrite app_length; cbn; lia).
      rewrite concat_app, app_length. cbn [concat]. now rewrite app_nil_r.
    - rewrite H5 by lia. rewrite firstn_app. replace (j - length segs)%nat with 0%nat by lia. cbn [firstn]. now rewrite app_nil_r.
  Qed.

  Lemma low_row_push i lo rest c cc : Forall (fun e => fst e < i) lo -> forall a, conv_low_row i (lo ++ (i, a) :: rest) c cc = Ok (pushed c lo, cc + length lo)%nat.
  Proof.
    intros H a. revert c cc. induction lo as [|[j b] t IH]; intros c cc; cbn [app conv_low_row].
    - rewrite Nat.ltb_irrefl. unfold pushed. cbn. rewrite !app_nil_r, Nat.add_0_r. destruct c; reflexivity.
    - inversion H; subst. cbn in H2. destruct (Nat.ltb_spec j i); [|lia]. rewrite IH by auto. unfold pushed, crs_push. cbn. rewrite <- !app_assoc. cbn.
      now rewrite Nat.add_succ_r.
  Qed.
  Lemma up_row_push i hi rest r c iv cc a : Forall (fun e => i < fst e) hi ->
    conv_up_row i (hi ++ (i, a) :: rest) r c iv cc = (pushed c hi, upd iv r a, (cc + length hi)%nat).
  Proof.
    revert c cc. induction hi as [|[j b] t IH]; intros c cc H; cbn [app conv_up_row].
    - rewrite Nat.eqb_refl. unfold pushed. cbn. rewrite !app_nil_r, Nat.add_0_r. destruct c; reflexivity.
    - inversion H; subst. cbn in H2. destruct (Nat.eqb_spec j i); [lia|]. destruct (Nat.leb_spec i j); [|lia]. rewrite IH by auto.
      unfold pushed, crs_push. cbn. rewrite <- !app_assoc. cbn. now rewrite Nat.add_succ_r.
  Qed.

  Definition crs_start (c0 : crs) (n : nat) (pre : srow R) : Prop := exists c, crs_setrow (crs_resize c0 n) 0 0 = Ok c /\ crs_holds c n pre nil.
  Lemma holds_start n : 0 < n -> crs_start crs_new n nil.
  Proof.
    intros H. unfold crs_start, crs_resize. cbn [c_n crs_new]. destruct (Nat.eqb_spec 0 n); [lia|]. unfold crs_setrow. cbn [c_rows].
    change (vec_resize (S n) 0 (c_rows crs_new)) with (0%nat :: repeat 0%nat n). cbn [length]. rewrite repeat_length.
    destruct (Nat.ltb_spec 0 (S n)); [|lia]. eexists. split; [reflexivity|]. repeat split; cbn; auto.
    - now rewrite repeat_length.
    - intros j Hj. destruct j; [|lia]. reflexivity.
  Qed.

  Lemma holds_restart c n segs : crs_holds c n nil segs -> crs_start c n (concat segs).
  Proof.
    intros (H1 & H2 & H3 & H4 & H5). unfold crs_start, crs_resize. rewrite H1, Nat.eqb_refl. unfold crs_setrow. destruct (Nat.ltb_spec 0 (length (c_rows c))); [|lia].
    eexists. split; [reflexivity|]. repeat split; cbn [c_n c_rows c_vals c_cols]; auto; try now rewrite upd_length.
    - cbn [concat]. now rewrite app_nil_r.
    - cbn [concat]. now rewrite app_nil_r.
    - intros j Hj. cbn in Hj. assert (j = 0%nat) by lia. subst j. rewrite nth_error_upd. cbn. destruct (Nat.ltb_spec 0 (length (c_rows c))); [reflexivity|lia].
  Qed.
  Lemma holds_stale c n segs segs' i : crs_holds c n (concat segs) segs' -> map (@length _) segs' = map (@length _) segs -> i < length segs ->
    crs_row c i = Some (nth i segs nil).
  Proof.
    intros (H1 & H2 & H3 & H4 & H5) HL Hi. assert (HLL : length segs' = length segs) by (apply (f_equal (@length _)) in HL; now rewrite !map_length in HL).
    assert (HE : forall k, length (concat (firstn k segs')) = length (concat (firstn k segs))).
    { clear - HL. revert segs HL. induction segs' as [|s' t' IH]; intros [|s t] HL k; try discriminate; [reflexivity|]. injection HL as HA HB.
      destruct k; [reflexivity|]. cbn [firstn concat]. rewrite !app_length, HA. f_equal. apply IH; auto. }
    unfold crs_row. rewrite (H5 i), (H5 (S i)) by lia. rewrite !HE.
    rewrite concat_firstn_S, app_length by auto. replace (length (concat (firstn i segs)) + length (nth i segs nil) - length (concat (firstn i segs)))%nat with (length (nth i segs nil)) by lia.
    assert (E2 : concat segs = concat (firstn i segs) ++ nth i segs nil ++ concat (skipn (S i) segs)).
    { rewrite app_assoc, <- concat_firstn_S, <- concat_app, firstn_skipn by auto. reflexivity. }
    apply (slice_mid c _ _ (concat (skipn (S i) segs) ++ concat segs')); [rewrite H3, E2|rewrite H4, E2]; rewrite <- !app_assoc; reflexivity.
  Qed.

  Definition lo_of (A : smat R) (i : nat) : srow R := filter (fun e => fst e <? i) (nth i A nil).
  Definition hi_of (A : smat R) (i : nat) : srow R := rev (filter (fun e => i <? fst e) (nth i A nil)).
  Lemma row_parts n m (A : smat R) i : mat_wf n m A -> instored A i i ->
    nth i A nil = lo_of A i ++ (i, den A i i) :: rev (hi_of A i) /\ Forall (fun e => fst e < i) (lo_of A i) /\ Forall (fun e => i < fst e) (hi_of A i).
  Proof.
    intros HW HS. destruct (wf_split n m A i HW HS) as (lo & hi & E & H1 & H2 & _). unfold lo_of, hi_of. rewrite rev_involutive, E.
    assert (F1 : forall l : srow R, Forall (fun e => fst e < i) l -> filter (fun e => fst e <? i) l = l /\ filter (fun e => i <? fst e) l = nil).
    { induction l as [|e t IH]; intros HF; [auto|]. inversion HF; subst. destruct (IH H4) as [I1 I2]. cbn [filter].
      destruct (Nat.ltb_spec (fst e) i), (Nat.ltb_spec i (fst e)); try lia. rewrite I1. auto. }
    assert (F2 : forall l : srow R, Forall (fun e => i < fst e) l -> filter (fun e => fst e <? i) l = nil /\ filter (fun e => i <? fst e) l = l).
    { induction l as [|e t IH]; intros HF; [auto|]. inversion HF; subst. destruct (IH H4) as [I1 I2]. cbn [filter].
      destruct (Nat.ltb_spec (fst e) i), (Nat.ltb_spec i (fst e)); try lia. rewrite I2. auto. }
    rewrite !filter_app. cbn [filter fst]. rewrite Nat.ltb_irrefl. destruct (F1 lo H1) as [-> ->], (F2 hi H2) as [-> ->]. rewrite app_nil_r. cbn [app].
    split; auto. split; auto. rewrite Forall_forall in *. intros e He. apply H2. now apply in_rev.
  Qed.

  Section Conv.
    Variables (n : nat) (A : smat R).
    Hypothesis HW : mat_wf n n A.
    Hypothesis HD : diag_stored n A.
    Let HL : length A = n := proj1 HW.

    Lemma conv_low_holds pre : forall t k c, (k + length t)%nat = n -> t = skipn k A -> crs_holds c n pre (map (lo_of A) (seq 0 k)) ->
      exists c', conv_low k t c (length (concat (map (lo_of A) (seq 0 k)))) = Ok c' /\ crs_holds c' n pre (map (lo_of A) (seq 0 n)).
    Proof.
      induction t as [|row t IH]; intros k c Hk Ht Hc; cbn [conv_low].
      - exists c. cbn in Hk. rewrite Nat.add_0_r in Hk. subst k. auto.
      - cbn in Hk. rewrite (skipn_cons_nth A k nil) in Ht by lia. injection Ht as Hr Ht.
        destruct (row_parts n n A k HW (HD k ltac:(lia))) as (E & H1 & _). rewrite Hr, E, low_row_push by auto. cbn [obind fst snd].
        destruct (holds_step c n _ _ (lo_of A k) Hc) as (c' & Ec & Hc'); [rewrite map_length, seq_length; lia|]. rewrite map_length, seq_length in Ec.
        rewrite Ec. cbn [obind]. replace (map (lo_of A) (seq 0 k) ++ [lo_of A k]) with (map (lo_of A) (seq 0 (S k))) in Hc'
          by (rewrite seq_S, map_app; reflexivity).
        specialize (IH (S k) c' ltac:(lia) Ht Hc'). rewrite seq_S, map_app, concat_app, app_length in IH. cbn [map concat plus] in IH. rewrite app_nil_r in IH. exact IH.
    Qed.

    Definition rows_rev : list (nat * srow R) := map (fun r => ((n - 1 - r)%nat, nth (n - 1 - r) A nil)) (seq 0 n).
    Definition up_segs (k : nat) : list (srow R) := map (fun r => hi_of A (n - 1 - r)%nat) (seq 0 k).
    Lemma rows_rev_eq : rev (combine (seq 0 n) A) = rows_rev.
    Proof.
      unfold rows_rev. clear HD. assert (G : forall k, k <= n -> rev (firstn k (combine (seq 0 n) A)) = map (fun r => ((k - 1 - r)%nat, nth (k - 1 - r) A nil)) (seq 0 k)).
      { induction k; intros Hk; [reflexivity|]. rewrite (firstn_S_nth _ k (0, nil)) by (rewrite combine_length, seq_length; lia).
        rewrite rev_app_distr, IHk by lia. rewrite combine_nth by (rewrite seq_length; lia). rewrite seq_nth by lia.
        change (seq 0 (S k)) with (0%nat :: seq 1 k). rewrite <- seq_shift. cbn [map rev app plus]. replace (S k - 1 - 0)%nat with k by lia.
        f_equal. rewrite map_map. apply map_ext_in. intros r Hr. apply in_seq in Hr. now replace (S k - 1 - S r)%nat with (k - 1 - r)%nat by lia. }
      specialize (G n ltac:(lia)). rewrite firstn_all2 in G; auto. rewrite combine_length, seq_length. lia.
    Qed.

    Lemma conv_up_holds pre : forall t k c iv, (k + length t)%nat = n -> t = skipn k rows_rev -> crs_holds c n pre (up_segs k) ->
      length iv = n -> (forall r, r < k -> nth_error iv r = Some (den A (n - 1 - r)%nat (n - 1 - r)%nat)) ->
      exists c' iv', conv_up t k c iv (length (concat (up_segs k))) = Ok (c', iv') /\ crs_holds c' n pre (up_segs n) /\
        forall r, r < n -> nth_error iv' r = Some (den A (n - 1 - r)%nat (n - 1 - r)%nat).
    Proof.
      induction t as [|row t IH]; intros k c iv Hk Ht Hc Li Hi; cbn [conv_up].
      - cbn in Hk. rewrite Nat.add_0_r in Hk. subst k. eauto.
      - cbn in Hk. assert (LR : length rows_rev = n) by (unfold rows_rev; now rewrite map_length, seq_length).
        rewrite (skipn_cons_nth rows_rev k (0, nil)) in Ht by lia. injection Ht as Hr Ht.
        assert (Er : row = ((n - 1 - k)%nat, nth (n - 1 - k)%nat A nil)).
        { rewrite Hr. unfold rows_rev. apply nth_error_nth. rewrite nth_error_map. rewrite (nth_error_nth' _ 0) by (rewrite seq_length; lia). rewrite seq_nth by lia. reflexivity. }
        rewrite Er. destruct (row_parts n n A (n - 1 - k)%nat HW (HD (n - 1 - k)%nat ltac:(lia))) as (E & _ & H2). rewrite E, rev_app_distr. cbn [rev].
        rewrite rev_involutive, <- app_assoc. cbn [app].
        rewrite up_row_push by auto.
        destruct (holds_step c n _ _ (hi_of A (n - 1 - k)%nat) Hc) as (c' & Ec & Hc'); [unfold up_segs; rewrite map_length, seq_length; lia|].
        unfold up_segs in Ec at 1. rewrite map_length, seq_length in Ec.
        rewrite Ec. cbn [obind]. replace (up_segs k ++ [hi_of A (n - 1 - k)%nat]) with (up_segs (S k)) in Hc'
          by (unfold up_segs; rewrite seq_S, map_app; reflexivity).
        specialize (IH (S k) c' (upd iv k (den A (n - 1 - k)%nat (n - 1 - k)%nat)) ltac:(lia) Ht Hc').
        replace (length (concat (up_segs (S k)))) with (length (concat (up_segs k)) + length (hi_of A (n - 1 - k)%nat))%nat in IH
          by (unfold up_segs; rewrite seq_S, map_app, concat_app, app_length; cbn [map concat plus]; now rewrite app_nil_r).
        apply IH; [now rewrite upd_length|]. intros r Hr'. rewrite nth_error_upd. destruct (Nat.eqb_spec k r) as [<-|].
        + destruct (Nat.ltb_spec k (length iv)); [auto|lia].
        + apply Hi. lia.
    Qed.

    Lemma convert_from l0 u0 prel preu iv : crs_start l0 n prel -> crs_start u0 n preu -> exists l u iv', convertToCRS A l0 u0 iv = Ok (l, u, iv') /\
      crs_holds l n prel (map (lo_of A) (seq 0 n)) /\ crs_holds u n preu (up_segs n) /\ forall r, r < n -> nth_error iv' r = Some (den A (n - 1 - r)%nat (n - 1 - r)%nat).
    Proof.
      intros (c & Ec & Hc) (c2 & Ec2 & Hc2). unfold convertToCRS. rewrite HL. rewrite Ec. cbn [obind].
      destruct (conv_low_holds prel A 0 c HL eq_refl Hc) as (l & El & Hl). cbn [map seq concat length] in El. rewrite El. cbn [obind].
      rewrite Ec2. cbn [obind].
      rewrite rows_rev_eq. destruct (conv_up_holds preu rows_rev 0 c2 (vec_resize n r0 iv)) as (u & iv' & Eu & Hu & Hi); auto.
      - unfold rows_rev. now rewrite map_length, seq_length.
      - unfold vec_resize. rewrite app_length, firstn_length, repeat_length. lia.
      - intros r Hr. lia.
      - unfold up_segs in Eu at 1. cbn [map seq concat length] in Eu. rewrite Eu. cbn. eauto 8.
    Qed.
    Lemma convert_fresh iv : 0 < n -> exists l u iv', convertToCRS A crs_new crs_new iv = Ok (l, u, iv') /\
      crs_holds l n nil (map (lo_of A) (seq 0 n)) /\ crs_holds u n nil (up_segs n) /\ forall r, r < n -> nth_error iv' r = Some (den A (n - 1 - r)%nat (n - 1 - r)%nat).
    Proof. intros Hn. apply convert_from; apply holds_start; auto. Qed.

    Lemma crs_lower_eq c : crs_holds c n nil (map (lo_of A) (seq 0 n)) -> forall k i v d, (i + k)%nat = n ->
      crs_lower c k i v d = obind (fwd (fun i row v (_ : unit) =>
         let (rhs, rest) := lower_loop r0 blk_mmv i row v (nth i d r0) in
         match rest with (_, a) :: _ => obind (Ok rhs) (fun u => Ok (u, tt)) | nil => UB end) i (skipn i A) v tt) (fun r => Ok (fst r)).
    Proof.
      intros Hc. induction k; intros i v d Hk; cbn [crs_lower].
      - rewrite Nat.add_0_r in Hk. subst i. rewrite skipn_all2 by lia. reflexivity.
      - rewrite (holds_row _ _ _ i Hc) by (rewrite map_length, seq_length; lia).
        rewrite nth_indep with (d' := lo_of A 0) by (rewrite map_length, seq_length; lia). rewrite map_nth, seq_nth by lia. cbn [plus].
        rewrite (skipn_cons_nth A i nil) by lia. cbn [fwd].
        destruct (row_parts n n A i HW (HD i ltac:(lia))) as (E & H1 & _). rewrite E at 1. rewrite lower_loop_split by auto. cbn [obind fst snd].
        rewrite IHk by lia. reflexivity.
    Qed.

    Lemma bwd_snoc {B X E} (f : nat -> list (nat * B) -> list X -> E -> outcome (X * E)) row : forall l k x e,
      bwd f k (l ++ [row]) x e = obind (f (k + length l)%nat row x e) (fun u => bwd f k l (upd x (k + length l) (fst u)) (snd u)).
    Proof.
      induction l as [|s t IH]; intros k x e; cbn [app bwd length obind fst snd].
      - rewrite Nat.add_0_r. destruct (f k row x e); reflexivity.
      - rewrite IH. replace (S k + length t)%nat with (k + S (length t))%nat by lia. destruct (f (k + S (length t))%nat row x e); reflexivity.
    Qed.

    Lemma crs_upper_eq c iv : crs_holds c n nil (up_segs n) -> (forall r, r < n -> nth_error iv r = Some (den A (n - 1 - r)%nat (n - 1 - r)%nat)) ->
      forall k v, k <= n -> crs_upper c iv n k v = obind (bwd ilu_up_body 0 (firstn k A) v tt) (fun r => Ok (fst r)).
    Proof.
      intros Hc Hi. induction k; intros v Hk; cbn [crs_upper]; [reflexivity|].
      rewrite (holds_row _ _ _ (n - S k)%nat Hc) by (unfold up_segs; rewrite map_length, seq_length; lia).
      rewrite Hi by lia. replace (n - 1 - (n - S k))%nat with k by lia.
      assert (E1 : nth (n - S k) (up_segs n) nil = hi_of A k).
      { apply nth_error_nth. unfold up_segs. rewrite nth_error_map, (nth_error_nth' _ 0) by (rewrite seq_length; lia). rewrite seq_nth by lia. cbn [option_map plus].
        now replace (n - 1 - (n - S k))%nat with k by lia. }
      rewrite E1, (firstn_S_nth A k nil) by lia. rewrite bwd_snoc, firstn_length, Nat.min_l by lia. cbn [plus]. unfold ilu_up_body at 1.
      destruct (row_parts n n A k HW (HD k ltac:(lia))) as (E & _ & H2). rewrite E at 1.
      rewrite upper_loop_split.
      2:{ rewrite Forall_forall in *. intros e He. apply H2. now apply in_rev. }
      rewrite rev_involutive. cbn [obind fst snd]. rewrite IHk by lia. reflexivity.
    Qed.
  End Conv.

  (** Fresh compressed storage: same result as the in-place factor. *)
  Theorem C17_crs_agrees n (A : smat R) (iv : list R) (v d : vec R) : 0 < n -> mat_wf n n A -> diag_stored n A -> length v = n -> length d = n ->
    exists lower upper inv, convertToCRS A crs_new crs_new iv = Ok (lower, upper, inv) /\
      crs_backsolve lower upper inv v d = ilu_backsolve A v d.
  Proof.
    intros Hn HW HD Hv Hd. destruct (convert_fresh n A HW HD iv Hn) as (l & u & iv' & E & Hl & Hu & Hi). exists l, u, iv'. split; auto.
    unfold crs_backsolve. rewrite (proj1 Hl), (proj1 Hu), Nat.eqb_refl. rewrite (crs_lower_eq n A HW HD l Hl n 0) by lia.
    unfold ilu_backsolve, ilu_lower, ubltsolve, bltsolve_gen. cbn [skipn].
    match goal with |- obind ?a _ = obind ?b _ => change b with a; destruct a; auto end. cbn [obind].
    rewrite (crs_upper_eq n A HW HD u iv' Hu Hi n) by lia. rewrite firstn_all2 by (rewrite (proj1 HW); lia). reflexivity.
  Qed.

  (** With zero rows the conversion writes rows_[0] of an empty array. *)
  Theorem C17_convert_zero_rows_refuted (iv : list R) : convertToCRS nil crs_new crs_new iv = UB.
  Proof. reflexivity. Qed.

  (** Converting into storage that already holds a converted matrix with the same number of rows appends the new entries behind the
      old ones while the row starts count from 0 again: the solve with the result still uses the old off-diagonal entries (here: any
      factors [A], [B] of the same pattern). *)
  Theorem C17_convert_reused_refuted n (A B : smat R) (iv : list R) : 0 < n -> mat_wf n n A -> mat_wf n n B -> diag_stored n A -> same_pattern A B ->
    exists l u i, convertToCRS A crs_new crs_new iv = Ok (l, u, i) /\
      exists l' u' i', convertToCRS B l u i = Ok (l', u', i') /\ forall k, k < n -> crs_row l' k = crs_row l k /\ crs_row u' k = crs_row u k.
  Proof.
    intros Hn HA HB HD HP.
    assert (LR : forall i, length (lo_of B i) = length (lo_of A i) /\ length (hi_of B i) = length (hi_of A i)).
    { intros i. unfold lo_of, hi_of. rewrite !rev_length. assert (E : map fst (nth i B nil) = map fst (nth i A nil)).
      { rewrite <- !(map_nth (map fst)). unfold same_pattern in HP. rewrite HP. reflexivity. }
      revert E. generalize (nth i B nil), (nth i A nil). induction l as [|e t IH]; intros [|e' t'] E; try discriminate; [auto|].
      injection E as E1 E2. destruct (IH t' E2) as [I1 I2]. cbn [filter]. rewrite E1. destruct (fst e' <? i), (i <? fst e'); cbn [length]; rewrite ?I1, ?I2; auto. }
    assert (HDB : diag_stored n B).
    { intros i Hi. specialize (HD i Hi). unfold instored in *. rewrite <- (map_nth (map fst)) in *. unfold same_pattern in HP. rewrite HP. exact HD. }
    destruct (convert_fresh n A HA HD iv Hn) as (l & u & i & E & Hl & Hu & Hi). exists l, u, i. split; auto.
    destruct (convert_from n B HB HDB l u _ _ i (holds_restart _ _ _ Hl) (holds_restart _ _ _ Hu)) as (l' & u' & i' & E' & Hl' & Hu' & Hi').
    exists l', u', i'. split; auto. intros k Hk. split.
    - rewrite (holds_row _ _ _ k Hl) by (now rewrite map_length, seq_length). apply (holds_stale _ _ _ _ _ Hl'); [|now rewrite map_length, seq_length].
      rewrite !map_map. apply map_ext. intros a. apply LR.
    - rewrite (holds_row _ _ _ k Hu) by (unfold up_segs; now rewrite map_length, seq_length). apply (holds_stale _ _ _ _ _ Hu'); [|unfold up_segs; now rewrite map_length, seq_length].
      unfold up_segs. rewrite !map_map. apply map_ext. intros a. apply LR.
  Qed.
End IluSolve.

(** factors of a 2x2 scalar matrix; reusing the storage gives a different (wrong) solution *)
Definition exF1 : smat Qcring := [[(0, q 1); (1, q 2)]; [(0, q 3); (1, q 1)]].
Definition exF2 : smat Qcring := [[(0, q 1); (1, q 5)]; [(0, q 7); (1, q 1)]].
Example C17_nonvacuous : mat_wf 2 2 exF1 /\ diag_stored 2 exF1 /\ pivots 2 exF1 (fun _ => q 1 : Qcring) /\ same_pattern exF1 exF2 /\
  exists v, ilu_backsolve exF1 [q 0; q 0] [q 1; q 1] = Ok v.
Proof.
  split; [|split; [|split; [|split; [reflexivity|eexists; vm_compute; reflexivity]]]].
  - unfold mat_wf, row_wf. repeat split; auto; repeat constructor.
  - intros [|[|i]] Hi; try lia; cbn; tauto.
  - intros [|[|i]] Hi; try lia; split; vm_compute; reflexivity.
Qed.
Example C17_reuse_gives_wrong_solution :
  exists l u i l' u' i' v v', convertToCRS exF1 crs_new crs_new nil = Ok (l, u, i) /\ convertToCRS exF2 l u i = Ok (l', u', i') /\
    crs_backsolve l' u' i' [q 0; q 0] [q 1; q 1] = Ok v /\ ilu_backsolve exF2 [q 0; q 0] [q 1; q 1] = Ok v' /\ vget (R := Qcring) v 0 <> vget (R := Qcring) v' 0.
Proof.
  do 8 eexists. split; [vm_compute; reflexivity|]. split; [vm_compute; reflexivity|]. split; [vm_compute; reflexivity|]. split; [vm_compute; reflexivity|].
  intros H. apply (f_equal this) in H. vm_compute in H. discriminate.
Qed.
Print Assumptions C17_backsolve.
Print Assumptions C17_crs_agrees.
Print Assumptions C17_convert_zero_rows_refuted.
Print Assumptions C17_convert_reused_refuted.
