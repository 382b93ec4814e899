(** * Conversion to compressed column storage (dune/istl/bccsmatrixinitializer.hh, bccsmatrix.hh), C23 *)
From Coq Require Import Arith List Lia Sorted Bool ZArith.
From Verif Require Import Sums Outcome.
Import ListNotations.
Open Scope nat_scope.

Section Bccs.
  Context {T : Type}.
  Variable t0 : T.   (* value of freshly allocated storage *)

  (** ** Model *)
  (** dense block: entry (i,j) *)
  Definition blk := nat -> nat -> T.
  Definition bmat := list (list (nat * blk)).
  (** one visited entry: (row index, column index, block) *)
  Notation visit := (nat * nat * blk)%type.

  (** countEntries, bccsmatrixinitializer.hh:188-194: marker[colindex*m+i] += n for i < m *)
  Fixpoint count_from (n m c i k : nat) (marker : list nat) : outcome (list nat) :=
    match k with
    | O => Ok marker
    | S k' => match nth_error marker (c * m + i) with
              | None => UB
              | Some x => count_from n m c (S i) k' (upd marker (c * m + i) (x + n))
              end
    end.
  Fixpoint count_all (n m : nat) (vs : list visit) (marker : list nat) : outcome (list nat) :=
    match vs with
    | nil => Ok marker
    | (_, c, _) :: t => obind (count_from n m c 0 m marker) (count_all n m t)
    end.
  (** calcColstart, bccsmatrixinitializer.hh:196-204; the result is (colstart, marker) *)
  Fixpoint calcColstart (s : nat) (marker : list nat) : list nat * list nat :=
    match marker with
    | nil => ([s], nil)
    | x :: t => let '(cs, mk) := calcColstart (s + x) t in (s :: cs, s :: mk)
    end.
  (** state of the copying phase: marker, rowindex, values *)
  Notation cstate := (list nat * list nat * list T)%type.
  (** body of the inner loop of copyValue, bccsmatrixinitializer.hh:217-221 *)
  Definition copy_scalar (n m r c : nat) (b : blk) (i j : nat) (s : cstate) : outcome cstate :=
    let '(mk, ri, va) := s in
    match nth_error mk (c * m + j) with
    | None => UB
    | Some p => if p <? length ri then Ok (upd mk (c * m + j) (S p), upd ri p (r * n + i), upd va p (b i j)) else UB
    end.
  Fixpoint copy_cols (n m r c : nat) (b : blk) (i j k : nat) (s : cstate) : outcome cstate :=
    match k with O => Ok s | S k' => obind (copy_scalar n m r c b i j s) (copy_cols n m r c b i (S j) k') end.
  Fixpoint copy_rows (n m r c : nat) (b : blk) (i k : nat) (s : cstate) : outcome cstate :=
    match k with O => Ok s | S k' => obind (copy_cols n m r c b i 0 m s) (copy_rows n m r c b (S i) k') end.
  Fixpoint copy_all (n m : nat) (vs : list visit) (s : cstate) : outcome cstate :=
    match vs with
    | nil => Ok s
    | (r, c, b) :: t => obind (copy_rows n m r c b 0 n s) (copy_all n m t)
    end.
  (** the resulting arrays: colstart, rowindex, values *)
  Record ccs := mkccs { colstart : list nat; rowindex : list nat; values : list T }.
  (** allocate, count, calcColstart, copy: copyToBCCSMatrix, bccsmatrixinitializer.hh:263-285; nnz = block entries counted by addRowNnz *)
  Definition build_ccs (n m cols nnz : nat) (vs : list visit) : outcome ccs :=
    obind (count_all n m vs (repeat 0 cols)) (fun marker =>
    let '(cs, mk) := calcColstart 0 marker in
    obind (copy_all n m vs (mk, repeat 0 (nnz * (n * m)), repeat t0 (nnz * (n * m)))) (fun s =>
    let '(_, ri, va) := s in Ok (mkccs cs ri va))).
  (** whole matrix, bccsmatrixinitializer.hh:262-286: row and column indices as iteration gives them *)
  Definition visits (A : bmat) : list visit := flat_map (fun p => map (fun e => (fst p, fst e, snd e)) (snd p)) (combine (seq 0 (length A)) A).
  Definition row_nnz (A : bmat) : nat := fold_left (fun s row => s + length row) A 0.
  Definition copyToBCCSMatrix (n m cols : nat) (A : bmat) : outcome ccs := build_ccs n m cols (row_nnz A) (visits A).

  (** row subset, bccsmatrixinitializer.hh:288-334: subMatrixIndex[*index] = s++ (out of bounds: UB); None = numeric_limits::max() *)
  Fixpoint fill_index (S0 : list nat) (s : nat) (v : list (option nat)) : outcome (list (option nat)) :=
    match S0 with
    | nil => Ok v
    | x :: t => if x <? length v then fill_index t (S s) (upd v x (Some s)) else UB
    end.
  (** entries of one row that are in the subset; subMatrixIndex[col.index()] out of bounds is UB *)
  Fixpoint sub_row (v : list (option nat)) (r : nat) (row : list (nat * blk)) : outcome (list visit) :=
    match row with
    | nil => Ok nil
    | (c, b) :: t => match nth_error v c with
                     | None => UB
                     | Some oc => obind (sub_row v r t) (fun l => Ok (match oc with Some c' => (r, c', b) :: l | None => l end))
                     end
    end.
  Fixpoint sub_visits (A : bmat) (v : list (option nat)) (S0 : list nat) : outcome (list visit) :=
    match S0 with
    | nil => Ok nil
    | x :: t => match nth_error A x, nth_error v x with
                | Some row, Some (Some r) => obind (sub_row v r row) (fun l => obind (sub_visits A v t) (fun l' => Ok (l ++ l')))
                | _, _ => UB
                end
    end.
  (** addRowNnz(row, vector) counts exactly the visited entries, bccsmatrixinitializer.hh:169-175 *)
  Definition copySubset (n m cols : nat) (A : bmat) (S0 : list nat) : outcome ccs :=
    obind (fill_index S0 0 (repeat None (length A))) (fun v =>
    obind (sub_visits A v S0) (fun vs => build_ccs n m cols (length vs) vs)).

  (** ** Specification *)
  Definition slice {X} (l : list X) (a b : nat) : list X := firstn (b - a) (skipn a l).
  (** [out] is the column compressed form of the scalar matrix whose blocks are given by [stored r c b] *)
  Definition is_ccs (n m cols : nat) (stored : nat -> nat -> blk -> Prop) (out : ccs) : Prop :=
    length (colstart out) = S cols /\ nth 0 (colstart out) 0 = 0 /\ nth cols (colstart out) 0 = length (rowindex out) /\
    length (values out) = length (rowindex out) /\
    forall c, c < cols ->
      nth c (colstart out) 0 <= nth (S c) (colstart out) 0 /\
      let sl := slice (combine (rowindex out) (values out)) (nth c (colstart out) 0) (nth (S c) (colstart out) 0) in
      StronglySorted lt (map fst sl) /\
      forall rho v, In (rho, v) sl <-> exists r b i, stored r (c / m) b /\ i < n /\ rho = r * n + i /\ v = b i (c mod m).

  (** ** Proof: a bucket sort *)
  (** scalar events (column, row, value) in the order of the copying loop *)
  Notation event := (nat * nat * T)%type.
  Definition evs_row (n m r c : nat) (b : blk) (i : nat) : list event := map (fun j => (c * m + j, r * n + i, b i j)) (seq 0 m).
  Definition evs (n m : nat) (vs : list visit) : list event :=
    flat_map (fun v => match v with (r, c, b) => flat_map (evs_row n m r c b) (seq 0 n) end) vs.
  Definition ecol (e : event) : nat := fst (fst e).
  Definition bucket (c : nat) (es : list event) : list event := filter (fun e => ecol e =? c) es.

  Definition ev_step (s : cstate) (e : event) : outcome cstate :=
    let '(c, r, v) := e in let '(mk, ri, va) := s in
    match nth_error mk c with
    | None => UB
    | Some p => if p <? length ri then Ok (upd mk c (S p), upd ri p r, upd va p v) else UB
    end.
  Fixpoint ev_run (es : list event) (s : cstate) : outcome cstate :=
    match es with nil => Ok s | e :: t => obind (ev_step s e) (ev_run t) end.
  Lemma ev_run_app e1 e2 s : ev_run (e1 ++ e2) s = obind (ev_run e1 s) (ev_run e2).
  Proof. revert s. induction e1 as [|e t IH]; intros s; cbn [ev_run app obind]; auto. destruct (ev_step s e); cbn [obind]; auto. Qed.
  Lemma copy_cols_run n m r c b i : forall k j s, copy_cols n m r c b i j k s = ev_run (map (fun j => (c * m + j, r * n + i, b i j)) (seq j k)) s.
  Proof.
    induction k as [|k IH]; intros j s; cbn [copy_cols seq map ev_run]; auto.
    replace (copy_scalar n m r c b i j s) with (ev_step s (c * m + j, r * n + i, b i j)) by (destruct s as [[mk ri] va]; reflexivity).
    destruct (ev_step s _); cbn [obind]; auto.
  Qed.
  Lemma copy_rows_run n m r c b : forall k i s, copy_rows n m r c b i k s = ev_run (flat_map (evs_row n m r c b) (seq i k)) s.
  Proof.
    induction k as [|k IH]; intros i s; cbn [copy_rows seq flat_map ev_run]; auto. rewrite ev_run_app, copy_cols_run. unfold evs_row at 1.
    destruct (ev_run _ s); cbn [obind]; auto.
  Qed.
  Lemma copy_all_run n m vs : forall s, copy_all n m vs s = ev_run (evs n m vs) s.
  Proof.
    induction vs as [|[[r c] b] t IH]; intros s; cbn [copy_all]; auto. change (evs n m ((r, c, b) :: t)) with (flat_map (evs_row n m r c b) (seq 0 n) ++ evs n m t).
    rewrite ev_run_app, copy_rows_run. destruct (ev_run _ s); cbn [obind]; auto.
  Qed.

  (** counting *)
  Lemma bucket_app c e1 e2 : bucket c (e1 ++ e2) = bucket c e1 ++ bucket c e2.
  Proof. apply filter_app. Qed.
  Lemma bucket_one c c0 r v : bucket c [(c0, r, v)] = if c0 =? c then [(c0, r, v)] else nil.
  Proof. reflexivity. Qed.
  Lemma count_from_spec n m c : forall k i mk, c * m + i + k <= length mk -> exists mk', count_from n m c i k mk = Ok mk' /\ length mk' = length mk /\
    forall x, nth x mk' 0 = nth x mk 0 + (if (c * m + i <=? x) && (x <? c * m + i + k) then n else 0).
  Proof.
    induction k as [|k IH]; intros i mk H; cbn [count_from].
    - exists mk. split; auto. split; auto. intros x. destruct (Nat.leb_spec (c * m + i) x), (Nat.ltb_spec x (c * m + i + 0)); cbn [andb]; lia.
    - destruct (nth_error mk (c * m + i)) as [y|] eqn:EY; [|apply nth_error_None in EY; lia].
      destruct (IH (S i) (upd mk (c * m + i) (y + n))) as (mk' & E & L & V); [rewrite upd_length; lia|]. rewrite E. exists mk'. split; auto.
      rewrite upd_length in L. split; auto. intros x. rewrite V, nth_upd. apply (nth_error_nth _ _ 0) in EY.
      destruct (Nat.eqb_spec (c * m + i) x) as [<-|].
      + destruct (Nat.ltb_spec (c * m + i) (length mk)); [|lia]. rewrite EY.
        destruct (Nat.leb_spec (c * m + S i) (c * m + i)), (Nat.leb_spec (c * m + i) (c * m + i)), (Nat.ltb_spec (c * m + i) (c * m + S i + k)), (Nat.ltb_spec (c * m + i) (c * m + i + S k)); cbn [andb]; lia.
      + destruct (Nat.leb_spec (c * m + S i) x), (Nat.leb_spec (c * m + i) x), (Nat.ltb_spec x (c * m + S i + k)), (Nat.ltb_spec x (c * m + i + S k)); cbn [andb]; lia.
  Qed.
  Lemma bucket_row x n m r c b i : length (bucket x (evs_row n m r c b i)) = if (c * m <=? x) && (x <? c * m + m) then 1 else 0.
  Proof.
    unfold evs_row, bucket. assert (G : forall k j, length (filter (fun e => ecol e =? x) (map (fun j => (c * m + j, r * n + i, b i j)) (seq j k))) = if (c * m + j <=? x) && (x <? c * m + j + k) then 1 else 0).
    { induction k as [|k IH]; intros j; cbn [seq map filter].
      - cbn [length]. destruct (Nat.leb_spec (c * m + j) x), (Nat.ltb_spec x (c * m + j + 0)); cbn [andb]; lia.
      - unfold ecol at 1. cbn [fst]. specialize (IH (S j)).
        destruct (Nat.eqb_spec (c * m + j) x) as [<-|]; cbn [length]; rewrite IH;
        [destruct (Nat.leb_spec (c * m + S j) (c * m + j)), (Nat.leb_spec (c * m + j) (c * m + j)), (Nat.ltb_spec (c * m + j) (c * m + S j + k)), (Nat.ltb_spec (c * m + j) (c * m + j + S k)); cbn [andb]; lia|
         destruct (Nat.leb_spec (c * m + S j) x), (Nat.leb_spec (c * m + j) x), (Nat.ltb_spec x (c * m + S j + k)), (Nat.ltb_spec x (c * m + j + S k)); cbn [andb]; lia]. }
    rewrite G. now rewrite !Nat.add_0_r.
  Qed.
  Lemma bucket_block x n m r c b : forall k i, length (bucket x (flat_map (evs_row n m r c b) (seq i k))) = if (c * m <=? x) && (x <? c * m + m) then k else 0.
  Proof.
    induction k as [|k IH]; intros i; cbn [seq flat_map]; [cbn; destruct (_ && _); auto|]. rewrite bucket_app, app_length, bucket_row, IH. destruct (_ && _); lia.
  Qed.
  Lemma count_all_spec n m vs : forall mk, (forall r c b, In (r, c, b) vs -> c * m + m <= length mk) -> exists mk', count_all n m vs mk = Ok mk' /\ length mk' = length mk /\
    forall x, nth x mk' 0 = nth x mk 0 + length (bucket x (evs n m vs)).
  Proof.
    induction vs as [|[[r c] b] t IH]; intros mk H; cbn [count_all]; [exists mk; split; auto; split; auto; intros; cbn; lia|].
    destruct (count_from_spec n m c m 0 mk) as (mk1 & E1 & L1 & V1); [specialize (H r c b (or_introl eq_refl)); lia|]. rewrite E1. cbn [obind].
    destruct (IH mk1) as (mk' & E & L & V); [intros r' c' b' Hin; rewrite L1; apply (H r' c' b'); right; auto|]. exists mk'. split; auto. split; [congruence|]. intros x.
    rewrite V, V1. change (evs n m ((r, c, b) :: t)) with (flat_map (evs_row n m r c b) (seq 0 n) ++ evs n m t). rewrite bucket_app, app_length, bucket_block, !Nat.add_0_r. lia.
  Qed.
  Definition psum (f : nat -> nat) (k : nat) : nat := list_sum (map f (seq 0 k)).
  Lemma psum_S f k : psum f (S k) = psum f k + f k.
  Proof. unfold psum. rewrite seq_S, map_app, list_sum_app. cbn. lia. Qed.
  Lemma psum_mono f a b : a <= b -> psum f a <= psum f b.
  Proof. induction 1; auto. rewrite psum_S. lia. Qed.
  Lemma calcColstart_spec mk : forall s, let '(cs, mk') := calcColstart s mk in length cs = S (length mk) /\ length mk' = length mk /\
    (forall k, k <= length mk -> nth k cs 0 = s + psum (fun i => nth i mk 0) k) /\ (forall k, k < length mk -> nth k mk' 0 = nth k cs 0).
  Proof.
    induction mk as [|x t IH]; intros s; cbn [calcColstart].
    - cbn. split; auto. split; auto. split; [intros k Hk; assert (k = 0) by lia; subst; cbn; lia|intros; lia].
    - specialize (IH (s + x)). destruct (calcColstart (s + x) t) as [cs mk']. destruct IH as (L1 & L2 & V1 & V2). cbn [length]. split; [lia|]. split; [lia|]. split.
      + intros [|k] Hk; cbn [nth]; [unfold psum; cbn; lia|]. rewrite V1 by lia. unfold psum. cbn [seq map]. rewrite <- seq_shift, map_map. cbn [nth].
        change (list_sum (x :: map (fun i => nth i t 0) (seq 0 k))) with (x + list_sum (map (fun i => nth i t 0) (seq 0 k))). lia.
      + intros [|k] Hk; cbn [nth]; auto. apply V2. lia.
  Qed.

  Lemma bucket_total es cols : (forall e, In e es -> ecol e < cols) -> psum (fun c => length (bucket c es)) cols = length es.
  Proof.
    intros H. induction es as [|e t IH].
    - cbn. unfold psum. induction cols as [|k IHk]; [reflexivity|]. rewrite seq_S, map_app, list_sum_app. cbn. rewrite IHk; [auto|]. intros e [].
    - cbn [length]. rewrite <- IH by (intros; apply H; right; auto). assert (HE : ecol e < cols) by (apply H; left; auto). clear IH H.
      unfold bucket. cbn [filter]. induction cols as [|k IHk]; [lia|]. rewrite !psum_S. destruct (Nat.eq_dec (ecol e) k) as [E|E].
      + rewrite E, Nat.eqb_refl. cbn [length]. assert (Q : psum (fun c => length (if k =? c then e :: filter (fun e0 => ecol e0 =? c) t else filter (fun e0 => ecol e0 =? c) t)) k = psum (fun c => length (filter (fun e0 => ecol e0 =? c) t)) k); [|lia].
        unfold psum. f_equal. apply map_ext_in. intros c Hc. apply in_seq in Hc. destruct (Nat.eqb_spec k c); [lia|auto].
      + rewrite IHk by lia. destruct (Nat.eqb_spec (ecol e) k); [lia|]. lia.
  Qed.

  Lemma psum_le es cols c : (forall e, In e es -> ecol e < cols) -> c < cols -> psum (fun c => length (bucket c es)) c + length (bucket c es) <= length es.
  Proof. intros H Hc. rewrite <- psum_S, <- (bucket_total es cols H). apply psum_mono. lia. Qed.

  (** the copying phase, started with marker c = start of bucket c *)
  Lemma ev_run_spec all cols (start := psum (fun c => length (bucket c all))) :
    (forall e, In e all -> ecol e < cols) ->
    forall es done mk ri va, all = done ++ es -> length mk = cols -> length ri = length all -> length va = length all ->
    (forall c, c < cols -> nth c mk 0 = start c + length (bucket c done)) ->
    (forall c k e, c < cols -> nth_error (bucket c done) k = Some e -> nth (start c + k) ri 0 = snd (fst e) /\ nth (start c + k) va t0 = snd e) ->
    exists mk' ri' va', ev_run es (mk, ri, va) = Ok (mk', ri', va') /\ length ri' = length all /\ length va' = length all /\
      forall c k e, c < cols -> nth_error (bucket c all) k = Some e -> nth (start c + k) ri' 0 = snd (fst e) /\ nth (start c + k) va' t0 = snd e.
  Proof.
    intros HC es. induction es as [|[[c0 r0] v0] t IH]; intros done mk ri va EA LM LR LV HM HV; cbn [ev_run].
    - rewrite app_nil_r in EA. subst done. exists mk, ri, va. auto.
    - assert (Hc0 : c0 < cols) by (apply (HC (c0, r0, v0)); rewrite EA; apply in_or_app; right; left; auto).
      cbn [ev_step]. rewrite (nth_error_nth' mk 0) by lia. rewrite HM by auto.
      assert (B0 : bucket c0 ((c0, r0, v0) :: t) = (c0, r0, v0) :: bucket c0 t) by (unfold bucket; cbn [filter ecol fst]; now rewrite Nat.eqb_refl).
      assert (LB : length (bucket c0 done) < length (bucket c0 all)) by (rewrite EA, bucket_app, app_length, B0; cbn [length]; lia).
      pose proof (psum_le all cols c0 HC Hc0) as PL. fold start in PL.
      destruct (Nat.ltb_spec (start c0 + length (bucket c0 done)) (length ri)) as [Hlt|Hlt]; [|lia]. cbn [obind].
      apply (IH (done ++ [(c0, r0, v0)])); rewrite ?upd_length; auto.
      + rewrite <- app_assoc. auto.
      + intros c Hc. rewrite bucket_app, app_length, nth_upd, bucket_one. destruct (Nat.eqb_spec c0 c) as [<-|].
        * destruct (Nat.ltb_spec c0 (length mk)); [|lia]. cbn [length]. lia.
        * cbn [length]. rewrite HM by auto. lia.
      + intros c k e Hc He.
        assert (HK : k < length (bucket c (done ++ [(c0, r0, v0)]))) by (apply nth_error_Some; congruence).
        assert (HKa : k < length (bucket c all)).
        { rewrite EA. change ((c0, r0, v0) :: t) with ([(c0, r0, v0)] ++ t). rewrite app_assoc, bucket_app, app_length. lia. }
        rewrite bucket_app, bucket_one in He.
        destruct (Nat.eq_dec (start c0 + length (bucket c0 done)) (start c + k)) as [EP|EP].
        * (* the slot just written: necessarily column c0 *)
          assert (EC : c = c0).
          { destruct (Nat.lt_trichotomy c c0) as [Q|[Q|Q]]; auto; exfalso.
            - pose proof (psum_mono (fun c => length (bucket c all)) (S c) c0 Q) as Z. rewrite psum_S in Z. fold (start c) (start c0) in Z. unfold start in *. lia.
            - pose proof (psum_mono (fun c => length (bucket c all)) (S c0) c Q) as Z. rewrite psum_S in Z. fold (start c) (start c0) in Z. unfold start in *. lia. }
          subst c. assert (k = length (bucket c0 done)) by lia. subst k. rewrite Nat.eqb_refl in He.
          rewrite nth_error_app2, Nat.sub_diag in He by lia. cbn in He. injection He as <-. cbn [fst snd]. rewrite !nth_upd_eq by lia. auto.
        * rewrite !nth_upd_ne by auto. apply HV; auto. destruct (Nat.eqb_spec c0 c) as [<-|].
          -- destruct (Nat.lt_ge_cases k (length (bucket c0 done))) as [Q|Q]; [now rewrite nth_error_app1 in He|].
             rewrite nth_error_app2 in He by auto. destruct (k - length (bucket c0 done)) as [|z] eqn:EZ; [lia|]. cbn in He. destruct z; discriminate.
          -- now rewrite app_nil_r in He.
  Qed.

  (** *** buckets of a matrix *)
  Definition vlt (a b : visit) : Prop := fst (fst a) < fst (fst b) \/ (fst (fst a) = fst (fst b) /\ snd (fst a) < snd (fst b)).

  Lemma in_evs n m vs e : In e (evs n m vs) <-> exists r c b i j, In (r, c, b) vs /\ i < n /\ j < m /\ e = (c * m + j, r * n + i, b i j).
  Proof.
    unfold evs. rewrite in_flat_map. split.
    - intros ([[r c] b] & H1 & H2). apply in_flat_map in H2. destruct H2 as (i & H2 & H3). apply in_map_iff in H3. destruct H3 as (j & <- & H3).
      apply in_seq in H2. apply in_seq in H3. exists r, c, b, i, j. split; auto. split; [lia|]. split; [lia|auto].
    - intros (r & c & b & i & j & H1 & H2 & H3 & ->). exists (r, c, b). split; auto. apply in_flat_map. exists i. split; [apply in_seq; lia|].
      apply in_map_iff. exists j. split; auto. apply in_seq. lia.
  Qed.
  Lemma len_evs n m vs : length (evs n m vs) = length vs * (n * m).
  Proof.
    induction vs as [|[[r c] b] t IH]; auto. change (evs n m ((r, c, b) :: t)) with (flat_map (evs_row n m r c b) (seq 0 n) ++ evs n m t). rewrite app_length, IH. cbn [length].
    assert (Q : forall k i, length (flat_map (evs_row n m r c b) (seq i k)) = k * m).
    { induction k as [|k IHk]; intros i; auto. cbn [seq flat_map]. rewrite app_length, IHk. unfold evs_row. rewrite map_length, seq_length. lia. }
    rewrite Q. lia.
  Qed.
  Lemma filter_flat_map {X Y} (f : X -> list Y) p l : filter p (flat_map f l) = flat_map (fun x => filter p (f x)) l.
  Proof. induction l; auto. cbn [flat_map]. now rewrite filter_app, IHl. Qed.
  (** rows in one bucket increase *)
  Lemma StronglySorted_app_lt (l1 l2 : list nat) : StronglySorted lt l1 -> StronglySorted lt l2 -> (forall a b, In a l1 -> In b l2 -> a < b) -> StronglySorted lt (l1 ++ l2).
  Proof.
    induction l1 as [|a l1 IH]; intros H1 H2 H; auto. apply StronglySorted_inv in H1. destruct H1 as [H1 H3]. cbn. constructor.
    - apply IH; auto. intros; apply H; auto; right; auto.
    - rewrite Forall_forall in *. intros x Hx. apply in_app_iff in Hx. destruct Hx as [Hx|Hx]; [auto|apply H; auto; left; auto].
  Qed.
  Lemma bucket_sorted n m c vs : 0 < m -> StronglySorted vlt vs -> StronglySorted lt (map (fun e => snd (fst e)) (bucket c (evs n m vs))).
  Proof.
    intros Hm HS. induction vs as [|[[r c0] b] t IH]; [constructor|]. apply StronglySorted_inv in HS. destruct HS as [HS HF].
    change (evs n m ((r, c0, b) :: t)) with (flat_map (evs_row n m r c0 b) (seq 0 n) ++ evs n m t). rewrite bucket_app, map_app.
    assert (HB : forall k i, StronglySorted lt (map (fun e => snd (fst e)) (bucket c (flat_map (evs_row n m r c0 b) (seq i k)))) /\
      forall x, In x (map (fun e => snd (fst e)) (bucket c (flat_map (evs_row n m r c0 b) (seq i k)))) -> r * n + i <= x < r * n + i + k /\ c0 * m <= c < c0 * m + m).
    { induction k as [|k IHk]; intros i; [split; [constructor|intros x []]|]. cbn [seq flat_map]. rewrite bucket_app, map_app. destruct (IHk (S i)) as [I1 I2].
      assert (HR : forall x, In x (map (fun e => snd (fst e)) (bucket c (evs_row n m r c0 b i))) -> x = r * n + i /\ c0 * m <= c < c0 * m + m).
      { intros x Hx. apply in_map_iff in Hx. destruct Hx as (e & <- & Hx). apply filter_In in Hx. destruct Hx as [Hx Hc]. apply in_map_iff in Hx. destruct Hx as (j & <- & Hj).
        apply in_seq in Hj. cbn in Hc. apply Nat.eqb_eq in Hc. cbn. lia. }
      split.
      - apply StronglySorted_app_lt; auto.
        + pose proof (bucket_row c n m r c0 b i) as Q. destruct (bucket c (evs_row n m r c0 b i)) as [|e [|e' l]]; [constructor|repeat constructor|exfalso; destruct (_ && _); cbn in Q; lia].
        + intros a d Ha Hd. apply HR in Ha. apply I2 in Hd. lia.
      - intros x Hx. apply in_app_iff in Hx. destruct Hx as [Hx|Hx]; [apply HR in Hx; lia|apply I2 in Hx; lia]. }
    destruct (HB n 0) as [B1 B2]. apply StronglySorted_app_lt; auto.
    intros x y Hx Hy. apply B2 in Hx. apply in_map_iff in Hy. destruct Hy as (e & <- & Hy). apply filter_In in Hy. destruct Hy as [Hy Hc]. apply in_evs in Hy.
    destruct Hy as (r' & c' & b' & i' & j' & Hin & Hi' & Hj' & ->). cbn in Hc. apply Nat.eqb_eq in Hc. cbn. rewrite Forall_forall in HF. specialize (HF _ Hin). unfold vlt in HF. cbn in HF.
    assert (c' = c0) by nia. subst c'. destruct HF as [HF|[_ HF]]; [nia|lia].
  Qed.

  Lemma nth_error_slice {X} (l : list X) a b k : b <= length l -> nth_error (slice l a b) k = if a + k <? b then nth_error l (a + k) else None.
  Proof.
    intros Hb. unfold slice. destruct (Nat.ltb_spec (a + k) b) as [H|H].
    - rewrite <- (firstn_skipn (b - a) (skipn a l)) at 1. assert (Q : nth_error (skipn a l) k = nth_error l (a + k)).
      { clear. revert a. induction l as [|x l IH]; intros a; [destruct a; cbn; destruct k; auto|]. destruct a; cbn; auto. }
      rewrite firstn_skipn. rewrite <- Q. clear Q. assert (Hk : k < b - a) by lia. revert k Hk H. generalize (skipn a l). generalize (b - a).
      induction n as [|n IH]; intros l0 k Hk H; [lia|]. destruct l0; [destruct k; auto|]. destruct k; cbn; auto. apply IH; lia.
    - apply nth_error_None. rewrite firstn_length. lia.
  Qed.
  Lemma list_eq_error {X} (l1 l2 : list X) : (forall k, nth_error l1 k = nth_error l2 k) -> l1 = l2.
  Proof.
    revert l2. induction l1 as [|x l1 IH]; intros [|y l2] H; auto; [specialize (H 0); discriminate|specialize (H 0); discriminate|].
    pose proof (H 0) as H0. cbn in H0. injection H0 as ->. f_equal. apply IH. intros k. apply (H (S k)).
  Qed.
  Lemma nth_error_combine {X Y} (l1 : list X) (l2 : list Y) dx dy k : length l1 = length l2 -> nth_error (combine l1 l2) k = if k <? length l1 then Some (nth k l1 dx, nth k l2 dy) else None.
  Proof.
    intros HL. destruct (Nat.ltb_spec k (length l1)) as [H|H].
    - rewrite (nth_error_nth' _ (dx, dy)) by (rewrite combine_length; lia). rewrite combine_nth by auto. auto.
    - apply nth_error_None. rewrite combine_length. lia.
  Qed.

  Lemma build_ccs_spec n m cols vs : 0 < m -> (forall r c b, In (r, c, b) vs -> c * m + m <= cols) -> StronglySorted vlt vs ->
    exists out, build_ccs n m cols (length vs) vs = Ok out /\ is_ccs n m cols (fun r c b => In (r, c, b) vs) out /\ length (values out) = length vs * (n * m).
  Proof.
    intros Hm HC HS. unfold build_ccs. destruct (count_all_spec n m vs (repeat 0 cols)) as (mk & E1 & L1 & V1).
    { intros r c b H. rewrite repeat_length. eauto. }
    rewrite E1. cbn [obind]. rewrite repeat_length in L1. pose proof (calcColstart_spec mk 0) as CS. destruct (calcColstart 0 mk) as [cs mk'].
    destruct CS as (LC & LM & VC & VM). rewrite copy_all_run.
    set (all := evs n m vs) in *.
    assert (HE : forall e, In e all -> ecol e < cols).
    { intros e He. apply in_evs in He. destruct He as (r & c & b & i & j & H1 & H2 & H3 & ->). cbn. specialize (HC _ _ _ H1). lia. }
    assert (PS : forall k, psum (fun i => nth i mk 0) k = psum (fun c => length (bucket c all)) k).
    { intros k. unfold psum. f_equal. apply map_ext. intros x. rewrite V1. rewrite nth_repeat. reflexivity. }
    assert (LA : length all = length vs * (n * m)) by apply len_evs.
    destruct (ev_run_spec all cols HE all nil mk' (repeat 0 (length vs * (n * m))) (repeat t0 (length vs * (n * m)))) as (mk2 & ri & va & E2 & LR & LV & V2); auto.
    { lia. } { rewrite repeat_length; lia. } { rewrite repeat_length; lia. }
    { intros c Hc. rewrite VM, VC, PS by lia. cbn. lia. }
    { intros c k e _ He. cbn in He. destruct k; discriminate. }
    rewrite E2. cbn [obind]. eexists. split; [reflexivity|]. cbn [values rowindex colstart]. split; [|lia].
    assert (NC : forall k, k <= cols -> nth k cs 0 = psum (fun c => length (bucket c all)) k) by (intros k Hk; rewrite VC, PS by lia; lia).
    split; [cbn [colstart]; lia|]. split; [cbn [colstart]; rewrite NC by lia; reflexivity|]. split; [cbn [colstart rowindex]; rewrite NC, bucket_total by auto; lia|].
    split; [cbn [values rowindex]; lia|]. intros c Hc. cbn [colstart rowindex values]. rewrite !NC by lia. rewrite psum_S. split; [lia|].
    assert (PL := psum_le all cols c HE Hc).
    assert (SL : slice (combine ri va) (psum (fun c => length (bucket c all)) c) (psum (fun c => length (bucket c all)) c + length (bucket c all)) = map (fun e => (snd (fst e), snd e)) (bucket c all)).
    { apply list_eq_error. intros k. rewrite nth_error_slice by (rewrite combine_length; lia). rewrite nth_error_map.
      destruct (Nat.ltb_spec (psum (fun c => length (bucket c all)) c + k) (psum (fun c => length (bucket c all)) c + length (bucket c all))) as [Hk|Hk].
      - destruct (nth_error (bucket c all) k) as [e|] eqn:Ee; [|apply nth_error_None in Ee; lia]. cbn [option_map].
        rewrite (nth_error_combine _ _ 0 t0) by lia. destruct (Nat.ltb_spec (psum (fun c => length (bucket c all)) c + k) (length ri)); [|lia].
        destruct (V2 c k e Hc Ee) as [-> ->]. reflexivity.
      - destruct (nth_error (bucket c all) k) as [e|] eqn:Ee; auto. exfalso. assert (k < length (bucket c all)) by (apply nth_error_Some; congruence). lia. }
    cbv zeta. rewrite SL. rewrite map_map. cbn [fst]. split; [apply bucket_sorted; auto|].
    intros rho v. rewrite in_map_iff. split.
    - intros (e & E & He). injection E as <- <-. apply filter_In in He. destruct He as [He Hce]. apply in_evs in He. destruct He as (r & c' & b & i & j & H1 & H2 & H3 & ->).
      cbn in Hce. apply Nat.eqb_eq in Hce. exists r, b, i.
      assert (D1 : c / m = c') by (symmetry; apply (Nat.div_unique c m c' j); lia). assert (D2 : c mod m = j) by (symmetry; apply (Nat.mod_unique c m c' j); lia).
      rewrite D1, D2. auto.
    - intros (r & b & i & H1 & H2 & -> & ->). exists (c, r * n + i, b i (c mod m)). split; auto. apply filter_In. split; [|cbn; apply Nat.eqb_refl].
      apply in_evs. exists r, (c / m), b, i, (c mod m). split; auto. split; auto. split; [apply Nat.mod_upper_bound; lia|]. f_equal. f_equal.
      rewrite (Nat.div_mod c m) at 1 by lia. lia.
  Qed.

  (** *** whole matrix *)
  Definition bmat_wf (N M : nat) (A : bmat) : Prop := length A = N /\ Forall (fun row => StronglySorted lt (map fst row) /\ Forall (fun j => j < M) (map fst row)) A.
  Lemma StronglySorted_app_gen {X} (Q : X -> X -> Prop) l1 l2 : StronglySorted Q l1 -> StronglySorted Q l2 -> (forall a b, In a l1 -> In b l2 -> Q a b) -> StronglySorted Q (l1 ++ l2).
  Proof.
    induction l1 as [|a l1 IH]; intros H1 H2 H; auto. apply StronglySorted_inv in H1. destruct H1 as [H1 H3]. cbn. constructor.
    - apply IH; auto. intros; apply H; auto; right; auto.
    - rewrite Forall_forall in *. intros x Hx. apply in_app_iff in Hx. destruct Hx as [Hx|Hx]; [auto|apply H; auto; left; auto].
  Qed.
  Lemma row_visits_sorted r (row : list (nat * blk)) : StronglySorted lt (map fst row) -> StronglySorted vlt (map (fun e => (r, fst e, snd e)) row).
  Proof.
    induction row as [|[c b] t IH]; intros H; cbn [map]; [constructor|]. cbn [map fst] in H. apply StronglySorted_inv in H. destruct H as [H1 H2]. constructor; auto.
    rewrite Forall_forall in *. intros x Hx. apply in_map_iff in Hx. destruct Hx as ([c' b'] & <- & Hx). right. cbn. split; auto. apply H2. apply in_map_iff. exists (c', b'). auto.
  Qed.
  Lemma visits_gen A : forall k, Forall (fun row : list (nat * blk) => StronglySorted lt (map fst row)) A ->
    let vs := flat_map (fun p => map (fun e => (fst p, fst e, snd e)) (snd p)) (combine (seq k (length A)) A) in
    StronglySorted vlt vs /\ (forall r c b, In (r, c, b) vs <-> k <= r < k + length A /\ In (c, b) (nth (r - k) A nil)) /\ length vs = list_sum (map (@length _) A).
  Proof.
    induction A as [|row A IH]; intros k HF; cbn [length seq combine flat_map].
    - split; [constructor|]. split; auto. intros r c b. cbn. split; [tauto|]. lia.
    - apply Forall_cons_iff in HF. destruct HF as [HR HF]. destruct (IH (S k) HF) as (I1 & I2 & I3). cbn [fst snd]. split; [|split].
      + apply StronglySorted_app_gen; auto; [apply row_visits_sorted; auto|]. intros [[r c] b] [[r' c'] b'] H1 H2. apply in_map_iff in H1. destruct H1 as (e & E & H1). injection E as <- <- <-.
        apply I2 in H2. left. cbn. lia.
      + intros r c b. rewrite in_app_iff, I2, in_map_iff. split.
        * intros [([c' b'] & E & H)|[H1 H2]].
          -- cbn in E. injection E as <- <- <-. rewrite Nat.sub_diag. cbn. split; [lia|auto].
          -- replace (r - k) with (S (r - S k)) by lia. cbn. split; [lia|auto].
        * intros [H1 H2]. destruct (Nat.eq_dec r k) as [->|].
          -- rewrite Nat.sub_diag in H2. cbn in H2. left. exists (c, b). auto.
          -- right. replace (r - k) with (S (r - S k)) in H2 by lia. cbn in H2. split; [lia|auto].
      + rewrite app_length, map_length, I3. reflexivity.
  Qed.
  Lemma row_nnz_sum A : row_nnz A = list_sum (map (@length _) A).
  Proof.
    unfold row_nnz. assert (H : forall s, fold_left (fun s (row : list (nat * blk)) => s + length row) A s = s + list_sum (map (@length _) A)).
    { induction A as [|row A IH]; intros s; [cbn; lia|]. cbn [fold_left map]. rewrite IH. change (list_sum (length row :: map (@length _) A)) with (length row + list_sum (map (@length _) A)). lia. }
    apply (H 0).
  Qed.

  Theorem C23_copyToBCCSMatrix n m N M (A : bmat) : 0 < m -> bmat_wf N M A ->
    exists out, copyToBCCSMatrix n m (M * m) A = Ok out /\ is_ccs n m (M * m) (fun r c b => r < N /\ In (c, b) (nth r A nil)) out /\
      length (values out) = list_sum (map (@length _) A) * (n * m).
  Proof.
    intros Hm [LA HW]. destruct (visits_gen A 0) as (S1 & S2 & S3); [eapply Forall_impl; [|exact HW]; cbn; tauto|].
    unfold copyToBCCSMatrix. rewrite row_nnz_sum, <- S3. fold (visits A) in *.
    destruct (build_ccs_spec n m (M * m) (visits A) Hm) as (out & E & I & L); auto.
    { intros r c b H. apply S2 in H. destruct H as [H1 H2]. rewrite Nat.sub_0_r in H2. rewrite Forall_forall in HW.
      destruct (HW (nth r A nil)) as [_ W2]; [apply nth_In; lia|]. rewrite Forall_forall in W2. assert (c < M) by (apply W2; apply in_map_iff; exists (c, b); auto). nia. }
    exists out. split; auto. split; [|lia].
    destruct I as (I1 & I2 & I3 & I4 & I5). split; [auto|]. split; [auto|]. split; [auto|]. split; [auto|]. intros c Hc. destruct (I5 c Hc) as (J1 & J2 & J3). split; auto. split; auto.
    intros rho v. rewrite (J3 rho v). split; intros (r & b & i & H1 & H2); exists r, b, i; split; auto.
    - apply S2 in H1. rewrite Nat.sub_0_r in H1. destruct H1. split; [lia|auto].
    - apply S2. rewrite Nat.sub_0_r. destruct H1. split; [lia|auto].
  Qed.

  (** *** row subset *)
  Lemma fill_index_spec S0 : forall s v, NoDup S0 -> Forall (fun x => x < length v) S0 ->
    exists v', fill_index S0 s v = Ok v' /\ length v' = length v /\
      (forall k x, nth_error S0 k = Some x -> nth_error v' x = Some (Some (s + k))) /\ (forall x, ~ In x S0 -> nth_error v' x = nth_error v x).
  Proof.
    induction S0 as [|x t IH]; intros s v HN HF; cbn [fill_index]; [exists v; split; auto; split; auto; split; auto; intros [|k] y Hy; discriminate|].
    apply NoDup_cons_iff in HN. destruct HN as [HN1 HN2]. apply Forall_cons_iff in HF. destruct HF as [HX HF]. destruct (Nat.ltb_spec x (length v)); [|lia].
    destruct (IH (S s) (upd v x (Some s)) HN2) as (v' & E & L & V1 & V2); [rewrite upd_length; auto|]. exists v'. split; auto. rewrite upd_length in L. split; auto. split.
    - intros [|k] y Hy; cbn in Hy.
      + injection Hy as <-. rewrite V2 by auto. rewrite nth_error_upd. rewrite Nat.eqb_refl. destruct (Nat.ltb_spec x (length v)); [|lia]. now rewrite Nat.add_0_r.
      + rewrite (V1 k y Hy). do 2 f_equal. lia.
    - intros y Hy. rewrite V2 by (intros Q; apply Hy; right; auto). rewrite nth_error_upd. destruct (Nat.eqb_spec x y); [exfalso; apply Hy; left; auto|auto].
  Qed.
  Lemma sub_row_spec v r row : Forall (fun j => j < length v) (map fst row) -> exists l, sub_row v r row = Ok l /\
    (forall r' c b, In (r', c, b) l <-> r' = r /\ exists c0, In (c0, b) row /\ nth_error v c0 = Some (Some c)) /\
    ((forall a b x y, a < b -> In a (map fst row) -> In b (map fst row) -> nth_error v a = Some (Some x) -> nth_error v b = Some (Some y) -> x < y) -> StronglySorted lt (map fst row) -> StronglySorted vlt l).
  Proof.
    induction row as [|[c b] t IH]; intros HF; cbn [sub_row].
    - exists nil. split; auto. split; [|constructor]. intros; split; [intros []|intros (_ & ? & [] & _)].
    - cbn [map fst] in HF. apply Forall_cons_iff in HF. destruct HF as [HC HF]. destruct (nth_error v c) as [oc|] eqn:EC; [|apply nth_error_None in EC; lia].
      destruct (IH HF) as (l & E & M1 & M2). rewrite E. cbn [obind]. eexists. split; [reflexivity|]. split.
      + intros r' c' b'. destruct oc as [c1|].
        * cbn [In]. rewrite M1. split.
          -- intros [H|(H1 & c0 & H2 & H3)]; [injection H as <- <- <-; split; auto; exists c; auto|split; auto; exists c0; auto].
          -- intros (-> & c0 & [H|H] & H3); [injection H as -> ->; left; rewrite EC in H3; injection H3 as ->; auto|right; split; auto; eauto].
        * rewrite M1. split; [intros (H1 & c0 & H2 & H3); split; auto; exists c0; split; [right|]; auto|].
          intros (-> & c0 & [H|H] & H3); [injection H as -> ->; congruence|]. split; auto; eauto.
      + intros HM HS. cbn [map fst] in HS. apply StronglySorted_inv in HS. destruct HS as [HS1 HS2].
        assert (HL : StronglySorted vlt l) by (apply M2; auto; intros; eapply HM; [eauto|right; auto|right; auto|auto|auto]).
        destruct oc as [c1|]; auto. constructor; auto. rewrite Forall_forall in *. intros [[r' c'] b'] Hin. apply M1 in Hin. destruct Hin as (-> & c0 & H2 & H3). right. cbn. split; auto.
        assert (Hc0 : In c0 (map fst t)) by (apply in_map_iff; exists (c0, b'); auto). eapply (HM c c0); [auto|left; auto|right; auto|auto|auto].
  Qed.
  Lemma sub_visits_spec A v : (forall row, In row A -> Forall (fun j => j < length v) (map fst row) /\ StronglySorted lt (map fst row)) -> length A = length v ->
    (forall a b x y, a < b -> nth_error v a = Some (Some x) -> nth_error v b = Some (Some y) -> x < y) ->
    forall S0 s, (forall k x, nth_error S0 k = Some x -> nth_error v x = Some (Some (s + k))) ->
    exists vs, sub_visits A v S0 = Ok vs /\ StronglySorted vlt vs /\
      forall r c b, In (r, c, b) vs <-> exists k x c0, r = s + k /\ nth_error S0 k = Some x /\ In (c0, b) (nth x A nil) /\ nth_error v c0 = Some (Some c).
  Proof.
    intros HA LA HM S0. induction S0 as [|x t IH]; intros s HS; cbn [sub_visits].
    - exists nil. split; auto. split; [constructor|]. intros r c b. split; [intros []|]. intros (k & x & c0 & _ & H & _). destruct k; discriminate.
    - pose proof (HS 0 x eq_refl) as H0. rewrite Nat.add_0_r in H0. rewrite H0.
      assert (HX : x < length A) by (rewrite LA; apply nth_error_Some; congruence). rewrite (nth_error_nth' A nil HX).
      destruct (HA (nth x A nil) (nth_In _ _ HX)) as [HF HR].
      destruct (sub_row_spec v s (nth x A nil) HF) as (l & E & M1 & M2). rewrite E. cbn [obind].
      destruct (IH (S s)) as (l' & E' & S1 & S2); [intros k y Hy; rewrite (HS (S k) y Hy); do 2 f_equal; lia|]. rewrite E'. cbn [obind]. eexists. split; [reflexivity|]. split.
      + apply StronglySorted_app_gen; auto; [apply M2; eauto|]. intros [[r c] b] [[r' c'] b'] H1 H2. apply M1 in H1. apply S2 in H2. destruct H2 as (k & y & c0 & H2 & _). left. cbn. lia.
      + intros r c b. rewrite in_app_iff, M1, S2. split.
        * intros [(-> & c0 & H1 & H2)|(k & y & c0 & -> & H1 & H2 & H3)]; [exists 0, x, c0; rewrite Nat.add_0_r; auto|]. exists (S k), y, c0. split; [lia|auto].
        * intros (k & y & c0 & -> & H1 & H2 & H3). destruct k as [|k]; cbn in H1; [injection H1 as ->; left; rewrite Nat.add_0_r; split; eauto|]. right. exists k, y, c0. split; [lia|auto].
  Qed.

  (** For an increasing set of rows S of a square matrix the result is the column compressed form of the submatrix A[S,S]. *)
  Theorem C23_copySubset n m N (A : bmat) (S0 : list nat) : 0 < m -> bmat_wf N N A -> StronglySorted lt S0 -> Forall (fun x => x < N) S0 ->
    exists out, copySubset n m (length S0 * m) A S0 = Ok out /\
      is_ccs n m (length S0 * m) (fun r c b => exists x y, nth_error S0 r = Some x /\ nth_error S0 c = Some y /\ In (y, b) (nth x A nil)) out.
  Proof.
    intros Hm [LA HW] HS HF. unfold copySubset.
    assert (ND : NoDup S0).
    { clear -HS. induction HS as [|a l H IH HF]; constructor; auto. intros HI. rewrite Forall_forall in HF. specialize (HF _ HI). lia. }
    destruct (fill_index_spec S0 0 (repeat None (length A)) ND) as (v & E & L & V1 & V2); [rewrite repeat_length; eapply Forall_impl; [|exact HF]; cbn; lia|].
    rewrite E. cbn [obind]. rewrite repeat_length in L. cbn [Nat.add] in V1.
    assert (VI : forall x k, nth_error v x = Some (Some k) <-> nth_error S0 k = Some x).
    { intros x k. split; [|apply V1]. intros H. destruct (in_dec Nat.eq_dec x S0) as [Hi|Hi].
      - apply In_nth_error in Hi. destruct Hi as [k' Hk]. pose proof (V1 _ _ Hk) as Q. rewrite Q in H. injection H as <-. auto.
      - rewrite V2 in H by auto. apply nth_error_In in H. apply repeat_spec in H. discriminate. }
    assert (MONO : forall a b x y, a < b -> nth_error v a = Some (Some x) -> nth_error v b = Some (Some y) -> x < y).
    { intros a b x y Hab H1 H2. apply VI in H1. apply VI in H2. clear - HS Hab H1 H2. revert x y H1 H2. induction HS as [|z l H IH HF]; intros x y H1 H2; [destruct x; discriminate|].
      destruct x as [|x], y as [|y]; cbn in H1, H2; [injection H1 as H1; injection H2 as H2; lia|lia| |].
      - injection H2 as ->. apply nth_error_In in H1. rewrite Forall_forall in HF. specialize (HF _ H1). lia.
      - specialize (IH x y H1 H2). lia. }
    destruct (sub_visits_spec A v) with (S0 := S0) (s := 0) as (vs & E2 & SV & MV); auto.
    { intros row Hrow. rewrite Forall_forall in HW. destruct (HW row Hrow) as [W1 W2]. split; auto. eapply Forall_impl; [|exact W2]. cbn. lia. }
    rewrite E2. cbn [obind].
    assert (MV' : forall r c b, In (r, c, b) vs <-> exists x y, nth_error S0 r = Some x /\ nth_error S0 c = Some y /\ In (y, b) (nth x A nil)).
    { intros r c b. rewrite MV. split.
      - intros (k & x & c0 & -> & H1 & H2 & H3). apply VI in H3. exists x, c0. auto.
      - intros (x & y & H1 & H2 & H3). exists r, x, y. auto. }
    destruct (build_ccs_spec n m (length S0 * m) vs Hm) as (out & E3 & I & _); auto.
    { intros r c b H. apply MV' in H. destruct H as (x & y & _ & H & _). assert (c < length S0) by (apply nth_error_Some; congruence). nia. }
    exists out. split; auto. destruct I as (I1 & I2 & I3 & I4 & I5). split; [auto|]. split; [auto|]. split; [auto|]. split; [auto|]. intros c Hc. destruct (I5 c Hc) as (J1 & J2 & J3). split; auto. split; auto.
    intros rho w. rewrite (J3 rho w). split; intros (r & b & i & H1 & H2); exists r, b, i; split; auto; apply MV'; auto.
  Qed.
End Bccs.

(** *** Non-vacuity: 2x2 blocks, unsymmetric pattern *)
Definition exb (k : nat) : @blk nat := fun i j => 100 * k + 10 * i + j.
Definition exB : @bmat nat := [[(0, exb 1); (2, exb 2)]; []; [(0, exb 3); (1, exb 4)]].
Example C23_nonvacuous : bmat_wf 3 3 exB /\
  copyToBCCSMatrix 0 2 2 6 exB = Ok (mkccs [0;4;8;10;12;14;16] [0;1;4;5;0;1;4;5;4;5;4;5;0;1;0;1]
    [100;110;300;310;101;111;301;311;400;410;401;411;200;210;201;211]) /\
  copySubset 0 2 2 4 exB [0;2] = Ok (mkccs [0;4;8;10;12] [0;1;2;3;0;1;2;3;0;1;0;1] [100;110;300;310;101;111;301;311;200;210;201;211]).
Proof. split; [split; [reflexivity|]; repeat (constructor; [split; cbn [map fst]; repeat constructor; lia|]); constructor|]. split; reflexivity. Qed.
Print Assumptions C23_copyToBCCSMatrix.
Print Assumptions C23_copySubset.
